(* Proofs for C69: the offsets. *)
From Coq Require Import List Arith Bool Lia Sorted Permutation.
From Verif Require Import SchurModel GramModel.
Import ListNotations.
Open Scope nat_scope.

Fixpoint nsum {A} (l : list A) (f : A -> nat) : nat := match l with [] => 0 | x :: l' => f x + nsum l' f end.
Lemma nsum_app {A} (l l' : list A) f : nsum (l ++ l') f = nsum l f + nsum l' f.
Proof. induction l as [|x l IH]; cbn [nsum app]; [reflexivity|]. rewrite IH. lia. Qed.
Lemma nsum_ext {A} (l : list A) f g : (forall x, In x l -> f x = g x) -> nsum l f = nsum l g.
Proof. induction l as [|x l IH]; intro H; [reflexivity|]. cbn [nsum]. rewrite (H x (or_introl eq_refl)), IH; [reflexivity|]. intros y Hy. apply H. right. exact Hy. Qed.
Lemma nsum_zero {A} (l : list A) f : (forall x, In x l -> f x = 0) -> nsum l f = 0.
Proof. induction l as [|x l IH]; intro H; [reflexivity|]. cbn [nsum]. rewrite (H x (or_introl eq_refl)), IH; [reflexivity|]. intros y Hy. apply H. right. exact Hy. Qed.
Lemma nsum_plus {A} (l : list A) f g : nsum l (fun x => f x + g x) = nsum l f + nsum l g.
Proof. induction l as [|x l IH]; cbn [nsum]; [reflexivity|]. rewrite IH. lia. Qed.
Lemma nsum_scal {A} (l : list A) k f : nsum l (fun x => k * f x) = k * nsum l f.
Proof. induction l as [|x l IH]; cbn [nsum]; [lia|]. rewrite IH. lia. Qed.
Lemma nsum_le {A} (l : list A) f g : (forall x, In x l -> f x <= g x) -> nsum l f <= nsum l g.
Proof. induction l as [|x l IH]; intro H; [reflexivity|]. cbn [nsum]. pose proof (H x (or_introl eq_refl)). assert (nsum l f <= nsum l g); [apply IH; intros y Hy; apply H; right; exact Hy|lia]. Qed.
(* a place within the sum is within one of the terms *)
Lemma nsum_find {A} (l : list A) f t : t < nsum l f -> exists P x Q, l = P ++ x :: Q /\ nsum P f <= t < nsum P f + f x.
Proof.
  revert t. induction l as [|x l IH]; intros t H; cbn [nsum] in H; [lia|]. destruct (Nat.lt_ge_cases t (f x)) as [L|L].
  - exists [], x, l. split; [reflexivity|]. cbn [nsum]. lia.
  - destruct (IH (t - f x) ltac:(lia)) as [P [y [Q [E B]]]]. exists (x :: P), y, Q. rewrite E. split; [reflexivity|]. cbn [nsum]. lia.
Qed.

Definition key (t : Term) : nat * nat := (t_row t, t_col t).
Definition klt (a b : nat * nat) : Prop := fst a < fst b \/ (fst a = fst b /\ snd a < snd b).
Definition kle (a b : nat * nat) : Prop := a = b \/ klt a b.
Lemma klt_irr a : ~ klt a a. Proof. unfold klt. lia. Qed.
Lemma klt_trans a b c : klt a b -> klt b c -> klt a c. Proof. unfold klt. lia. Qed.
Lemma kle_klt a b c : kle a b -> klt b c -> klt a c. Proof. intros [->|H]; [exact id|]. apply klt_trans. exact H. Qed.
Lemma klt_kle a b c : klt a b -> kle b c -> klt a c. Proof. intros H [<-|H']; [exact H|]. apply (klt_trans _ _ _ H H'). Qed.

(* std::sort *)
Lemma less_not a b : less a b = false -> kle (key b) (key a).
Proof.
  unfold less, kle, klt, key. cbn [fst snd]. destruct (Nat.eqb_spec (t_row a) (t_row b)); [destruct (Nat.eqb_spec (t_col a) (t_col b))|]; intro H.
  - left. congruence.
  - apply Nat.ltb_ge in H. right. lia.
  - apply Nat.ltb_ge in H. right. lia.
Qed.
Lemma less_kle a b : less a b = true -> kle (key a) (key b).
Proof.
  unfold less, kle, klt, key. cbn [fst snd]. destruct (Nat.eqb_spec (t_row a) (t_row b)); [destruct (Nat.eqb_spec (t_col a) (t_col b))|]; intro H.
  - left. congruence.
  - apply Nat.ltb_lt in H. right. lia.
  - apply Nat.ltb_lt in H. right. lia.
Qed.
Lemma kle_trans a b c : kle a b -> kle b c -> kle a c.
Proof. intros [->|H]; [exact id|]. intro H'. right. apply (klt_kle _ _ _ H H'). Qed.
Lemma insert_perm t l : Permutation (insert_term t l) (t :: l).
Proof. induction l as [|u l IH]; cbn [insert_term]; [reflexivity|]. destruct (less u t); [|reflexivity]. rewrite IH. apply perm_swap. Qed.
Lemma sort_perm l : Permutation (sort_terms l) l.
Proof. induction l as [|t l IH]; [reflexivity|]. cbn [sort_terms fold_right]. fold (sort_terms l). rewrite insert_perm. constructor. exact IH. Qed.
Definition ordered (l : list Term) : Prop := StronglySorted (fun a b => kle (key a) (key b)) l.
Lemma insert_ordered t l : ordered l -> ordered (insert_term t l).
Proof.
  induction 1 as [|u l S IH F]; cbn [insert_term]; [repeat constructor|]. destruct (less u t) eqn:E.
  - constructor; [exact IH|]. apply Forall_forall. intros x Hx. apply (Permutation_in _ (insert_perm t l)) in Hx. destruct Hx as [<-|Hx]; [apply less_kle; exact E|]. rewrite Forall_forall in F. exact (F x Hx).
  - apply less_not in E. constructor; [constructor; assumption|]. constructor; [exact E|]. eapply Forall_impl; [|exact F]. cbn. intros x Hx. apply (kle_trans _ _ _ E Hx).
Qed.
Lemma sort_ordered l : ordered (sort_terms l).
Proof. induction l as [|t l IH]; [constructor|]. apply insert_ordered. exact IH. Qed.

(* the distinct keys *)
Definition keq (a b : nat * nat) : bool := (fst a =? fst b) && (snd a =? snd b).
Lemma keq_spec a b : reflect (a = b) (keq a b).
Proof. unfold keq. destruct a as [a1 a2], b as [b1 b2]. cbn [fst snd]. destruct (Nat.eqb_spec a1 b1); cbn [andb]; [|constructor; congruence]. destruct (Nat.eqb_spec a2 b2); constructor; congruence. Qed.
Fixpoint distinct (previous : nat * nat) (l : list Term) : list (nat * nat) :=
  match l with [] => [] | t :: l' => if keq previous (key t) then distinct previous l' else key t :: distinct (key t) l' end.
Definition keys_of (l : list Term) : list (nat * nat) := match l with [] => [] | t :: l' => key t :: distinct (key t) l' end.
Lemma distinct_in l : forall previous k, In k (map key l) -> k = previous \/ In k (distinct previous l).
Proof.
  induction l as [|t l IH]; intros previous k H; [contradiction|]. cbn [map distinct] in *. destruct (keq_spec previous (key t)) as [E|E]; destruct H as [H|H].
  - left. congruence.
  - apply IH. exact H.
  - right. left. exact H.
  - right. destruct (IH (key t) k H) as [->|H']; [left; reflexivity|right; exact H'].
Qed.
Lemma in_distinct l : forall previous k, In k (distinct previous l) -> In k (map key l).
Proof.
  induction l as [|t l IH]; intros previous k H; [contradiction|]. cbn [map distinct] in *. destruct (keq previous (key t)); [right; apply (IH _ _ H)|]. destruct H as [H|H]; [left; exact H|right; apply (IH _ _ H)].
Qed.
Lemma keys_in l k : In k (keys_of l) <-> In k (map key l).
Proof.
  destruct l as [|t l]; [reflexivity|]. cbn [keys_of map]. split; intros [H|H]; try (left; exact H).
  - right. apply (in_distinct _ _ _ H).
  - destruct (distinct_in l (key t) k H) as [->|H']; [left; reflexivity|right; exact H'].
Qed.
Lemma distinct_sorted l : forall previous, ordered l -> Forall (fun t => kle previous (key t)) l -> StronglySorted klt (distinct previous l) /\ Forall (klt previous) (distinct previous l).
Proof.
  induction l as [|t l IH]; intros previous S F; [split; constructor|]. cbn [distinct]. inversion_clear S as [|? ? S1 S2]. inversion_clear F as [|? ? F1 F2]. destruct (keq_spec previous (key t)) as [E|E]; [apply IH; assumption|].
  assert (klt previous (key t)) as L by (destruct F1; [contradiction|assumption]). destruct (IH (key t) S1 S2) as [A B]. split; constructor; try assumption. eapply Forall_impl; [|exact B]. intros k Hk. apply (klt_trans _ _ _ L Hk).
Qed.
Lemma keys_sorted l : ordered l -> StronglySorted klt (keys_of l).
Proof. destruct l as [|t l]; intro S; [constructor|]. inversion_clear S as [|? ? S1 S2]. destruct (distinct_sorted l (key t) S1 S2) as [A B]. constructor; assumption. Qed.

Section Layout.
  Variables (bs : Structure).
  Notation sz := (size_of bs).
  Definition nnz_of (K : list (nat * nat)) (r : nat) : nat := nsum K (fun k => if fst k =? r then sz (snd k) else 0).
  Definition area_of (K : list (nat * nat)) : nat := nsum K (fun k => sz (fst k) * sz (snd k)).
  Definition start_of (K : list (nat * nat)) (r : nat) : nat := nsum K (fun k => if fst k <? r then sz (fst k) * sz (snd k) else 0).
  Definition before_of (K : list (nat * nat)) (r c : nat) : nat := nsum K (fun k => if (fst k =? r) && (snd k <? c) then sz (snd k) else 0).

  (* ComputeNonzeros *)
  Lemma nonzeros_rest l : forall previous row_nnz n P,
    (forall r, row_nnz r = nnz_of P r) -> n = area_of P ->
    (forall r, fst (NonzerosRest bs previous l row_nnz n) r = nnz_of (P ++ distinct (key previous) l) r) /\ snd (NonzerosRest bs previous l row_nnz n) = area_of (P ++ distinct (key previous) l).
  Proof.
    induction l as [|t l IH]; intros previous row_nnz n P Hr Hn; cbn [NonzerosRest distinct].
    - rewrite app_nil_r. split; assumption.
    - replace (negb (t_row t =? t_row previous) || negb (t_col t =? t_col previous)) with (negb (keq (key previous) (key t))).
      2:{ unfold keq, key. cbn [fst snd]. rewrite (Nat.eqb_sym (t_row previous)), (Nat.eqb_sym (t_col previous)). destruct (t_row t =? t_row previous); reflexivity. }
      destruct (keq_spec (key previous) (key t)) as [E|E]; cbn [negb].
      + rewrite E. apply IH; assumption.
      + replace (P ++ key t :: distinct (key t) l) with ((P ++ [key t]) ++ distinct (key t) l) by (rewrite <- app_assoc; reflexivity). apply IH.
        * intro r. unfold set_at, nnz_of. rewrite nsum_app. cbn [nsum key fst snd]. rewrite Nat.add_0_r. fold (nnz_of P r). rewrite <- Hr. rewrite (Nat.eqb_sym (t_row t)). destruct (Nat.eqb_spec r (t_row t)) as [->|]; lia.
        * unfold area_of. rewrite nsum_app. cbn [nsum key fst snd]. fold (area_of P). lia.
  Qed.
  Lemma nonzeros l : (forall r, fst (ComputeNonzeros bs l) r = nnz_of (keys_of l) r) /\ snd (ComputeNonzeros bs l) = area_of (keys_of l).
  Proof.
    destruct l as [|t l]; [split; reflexivity|]. cbn [ComputeNonzeros keys_of]. apply (nonzeros_rest l t _ _ [key t]).
    - intro r. unfold set_at, nnz_of. cbn [nsum key fst snd]. rewrite (Nat.eqb_sym (t_row t)). destruct (Nat.eqb_spec r (t_row t)); lia.
    - unfold area_of. cbn [nsum key fst snd]. lia.
  Qed.

  (* the keys around one key *)
  Lemma sorted_split K : StronglySorted klt K -> forall P k Q, K = P ++ k :: Q -> Forall (fun x => klt x k) P /\ Forall (klt k) Q.
  Proof.
    intros S P k Q ->. induction P as [|x P IH]; cbn [app] in S; inversion_clear S as [|? ? S1 S2]; [split; [constructor|exact S2]|]. destruct (IH S1) as [A B]. split; [|exact B]. constructor; [|exact A]. rewrite Forall_forall in S2. apply S2. apply in_elt.
  Qed.
  Lemma start_split P k Q : Forall (fun x => klt x k) P -> Forall (klt k) Q -> start_of (P ++ k :: Q) (fst k) = start_of P (fst k).
  Proof.
    intros A B. unfold start_of. rewrite nsum_app. cbn [nsum]. rewrite Nat.ltb_irrefl, (nsum_zero Q); [lia|]. intros x Hx. rewrite Forall_forall in B. specialize (B x Hx). unfold klt in B. destruct (Nat.ltb_spec (fst x) (fst k)); [lia|reflexivity].
  Qed.
  Lemma before_split P k Q : Forall (fun x => klt x k) P -> Forall (klt k) Q -> before_of (P ++ k :: Q) (fst k) (snd k) = nnz_of P (fst k).
  Proof.
    intros A B. unfold before_of, nnz_of. rewrite nsum_app. cbn [nsum]. rewrite (nsum_zero Q), Nat.ltb_irrefl, andb_false_r.
    - change (0 + 0) with 0. rewrite Nat.add_0_r. apply nsum_ext. intros x Hx. rewrite Forall_forall in A. specialize (A x Hx). unfold klt in A. destruct (Nat.eqb_spec (fst x) (fst k)); cbn [andb]; [|reflexivity]. destruct (Nat.ltb_spec (snd x) (snd k)); [reflexivity|lia].
    - intros x Hx. rewrite Forall_forall in B. specialize (B x Hx). unfold klt in B. destruct (Nat.eqb_spec (fst x) (fst k)); cbn [andb]; [|reflexivity]. destruct (Nat.ltb_spec (snd x) (snd k)); [lia|reflexivity].
  Qed.

  Variable K : list (nat * nat).
  Hypothesis KS : StronglySorted klt K.
  Variable row_nnz : nat -> nat.
  Hypothesis RN : forall r, row_nnz r = nnz_of K r.
  Definition place (k : nat * nat) : nat := start_of K (fst k) + before_of K (fst k) (snd k).
  Definition fill_key (k : nat * nat) : list (nat * nat) := Fill bs row_nnz (mkTerm (fst k) (snd k) 0) (start_of K (fst k)) (before_of K (fst k) (snd k)).

  Lemma next_same P k k' Q : K = P ++ k :: k' :: Q -> fst k = fst k' -> before_of K (fst k') (snd k') = before_of K (fst k) (snd k) + sz (snd k).
  Proof.
    intros E F. destruct (sorted_split K KS P k (k' :: Q) E) as [A B]. destruct (sorted_split K KS (P ++ [k]) k' Q ltac:(rewrite <- app_assoc; exact E)) as [A' B'].
    pose proof (before_split _ _ _ A B) as H. rewrite <- E in H. pose proof (before_split _ _ _ A' B') as H'. rewrite <- app_assoc in H'. cbn [app] in H'. rewrite <- E in H'.
    rewrite H, H'. unfold nnz_of. rewrite nsum_app. cbn [nsum]. rewrite F, Nat.eqb_refl. lia.
  Qed.
  Lemma next_new P k k' Q : K = P ++ k :: k' :: Q -> fst k <> fst k' ->
    before_of K (fst k') (snd k') = 0 /\ start_of K (fst k') = start_of K (fst k) + row_nnz (fst k) * sz (fst k).
  Proof.
    intros E F. destruct (sorted_split K KS P k (k' :: Q) E) as [A B]. destruct (sorted_split K KS (P ++ [k]) k' Q ltac:(rewrite <- app_assoc; exact E)) as [A' B'].
    pose proof (before_split _ _ _ A' B') as H'. rewrite <- app_assoc in H'. cbn [app] in H'. rewrite <- E in H'.
    pose proof (start_split _ _ _ A B) as G. rewrite <- E in G. pose proof (start_split _ _ _ A' B') as G'. rewrite <- app_assoc in G'. cbn [app] in G'. rewrite <- E in G'.
    assert (klt k k') as L by (inversion_clear B; assumption). assert (forall x, In x (P ++ [k]) -> fst x <= fst k) as M.
    { intros x Hx. apply in_app_or in Hx. rewrite Forall_forall in A. destruct Hx as [Hx|[<-|[]]]; [specialize (A x Hx); unfold klt in A; lia|lia]. }
    unfold klt in L. split.
    - rewrite H'. apply nsum_zero. intros x Hx. specialize (M x Hx). destruct (Nat.eqb_spec (fst x) (fst k')); [lia|reflexivity].
    - rewrite G', G, RN. assert (nnz_of K (fst k) = nnz_of (P ++ [k]) (fst k)) as N.
      { rewrite E. replace (P ++ k :: k' :: Q) with ((P ++ [k]) ++ k' :: Q) by (rewrite <- app_assoc; reflexivity). unfold nnz_of at 1. rewrite nsum_app, (nsum_zero (k' :: Q)); [rewrite Nat.add_0_r; reflexivity|].
        intros x Hx. assert (fst k' <= fst x) by (destruct Hx as [<-|Hx]; [lia|rewrite Forall_forall in B'; specialize (B' x Hx); unfold klt in B'; lia]). destruct (Nat.eqb_spec (fst x) (fst k)); [lia|reflexivity]. }
      rewrite N, Nat.mul_comm. unfold nnz_of. rewrite <- nsum_scal. replace (start_of P (fst k)) with (start_of (P ++ [k]) (fst k)).
      2:{ unfold start_of. rewrite nsum_app. cbn [nsum]. rewrite Nat.ltb_irrefl. lia. }
      unfold start_of. rewrite <- nsum_plus. apply nsum_ext. intros x Hx. specialize (M x Hx).
      destruct (Nat.ltb_spec (fst x) (fst k')); [|lia]. destruct (Nat.ltb_spec (fst x) (fst k)); destruct (Nat.eqb_spec (fst x) (fst k)) as [e|]; try lia. rewrite e. lia.
  Qed.

  Lemma offsets_rest l : forall previous P nnz_ col_nnz offsets stores,
    K = P ++ key previous :: distinct (key previous) l -> nnz_ = start_of K (t_row previous) -> col_nnz = before_of K (t_row previous) (t_col previous) ->
    NoDup (map t_index (previous :: l)) -> offsets (t_index previous) = place (key previous) ->
    let r := OffsetsRest bs row_nnz previous l nnz_ col_nnz offsets stores in
    (forall t, In t l -> fst r (t_index t) = place (key t)) /\
    (forall i, ~ In i (map t_index l) -> fst r i = offsets i) /\
    snd r = stores ++ flat_map fill_key (distinct (key previous) l).
  Proof.
    induction l as [|t l IH]; intros previous P nnz_ col_nnz offsets stores EK En Ec ND Ho; cbn [OffsetsRest distinct].
    - cbn [flat_map fst snd]. rewrite app_nil_r. split; [intros t []|]. split; reflexivity.
    - cbn [map] in ND. inversion_clear ND as [|? ? ND1 ND2]. inversion ND2 as [|? ? ND3 ND4]. subst x l0.
      replace ((t_row previous =? t_row t) && (t_col previous =? t_col t)) with (keq (key previous) (key t)) by reflexivity.
      cbn [distinct] in EK. destruct (keq_spec (key previous) (key t)) as [E|E].
      + assert (t_row previous = t_row t /\ t_col previous = t_col t) as [E1 E2] by (unfold key in E; split; congruence). rewrite E in *.
        specialize (IH t P nnz_ col_nnz (set_at offsets (t_index t) (offsets (t_index previous))) stores EK ltac:(rewrite <- E1; exact En) ltac:(rewrite <- E1, <- E2; exact Ec) ND2).
        assert (set_at offsets (t_index t) (offsets (t_index previous)) (t_index t) = place (key t)) as Ht by (unfold set_at; rewrite Nat.eqb_refl; exact Ho).
        specialize (IH Ht). cbn zeta in IH |- *. destruct IH as [I1 [I2 I3]]. split; [|split; [|exact I3]].
        * intros u [<-|Hu]; [rewrite (I2 _ ND3); exact Ht|apply I1; exact Hu].
        * intros i Hi. rewrite I2 by (intro Hx; apply Hi; right; exact Hx). unfold set_at. destruct (Nat.eqb_spec i (t_index t)) as [->|]; [exfalso; apply Hi; left; reflexivity|reflexivity].
      + set (nc := if t_row previous =? t_row t then (nnz_, col_nnz + sz (t_col previous)) else (nnz_ + row_nnz (t_row previous) * sz (t_row previous), 0)).
        assert (nc = (start_of K (t_row t), before_of K (t_row t) (t_col t))) as ENC.
        { unfold nc. destruct (Nat.eqb_spec (t_row previous) (t_row t)) as [e|e].
          - pose proof (next_same P (key previous) (key t) (distinct (key t) l) EK e) as H. cbn [key fst snd] in H. rewrite H, En, Ec, e. reflexivity.
          - destruct (next_new P (key previous) (key t) (distinct (key t) l) EK e) as [H1 H2]. cbn [key fst snd] in H1, H2. rewrite H1, H2, En. reflexivity. }
        rewrite ENC.
        specialize (IH t (P ++ [key previous]) (start_of K (t_row t)) (before_of K (t_row t) (t_col t)) (set_at offsets (t_index t) (start_of K (t_row t) + before_of K (t_row t) (t_col t)))
          (stores ++ Fill bs row_nnz t (start_of K (t_row t)) (before_of K (t_row t) (t_col t))) ltac:(rewrite <- app_assoc; exact EK) eq_refl eq_refl ND2).
        assert (set_at offsets (t_index t) (start_of K (t_row t) + before_of K (t_row t) (t_col t)) (t_index t) = place (key t)) as Ht by (unfold set_at; rewrite Nat.eqb_refl; reflexivity).
        specialize (IH Ht). cbn zeta in IH |- *. destruct IH as [I1 [I2 I3]]. split; [|split].
        * intros u [<-|Hu]; [rewrite (I2 _ ND3); exact Ht|apply I1; exact Hu].
        * intros i Hi. rewrite I2 by (intro Hx; apply Hi; right; exact Hx). unfold set_at. destruct (Nat.eqb_spec i (t_index t)) as [->|]; [exfalso; apply Hi; left; reflexivity|reflexivity].
        * rewrite I3, <- app_assoc. reflexivity.
  Qed.
End Layout.

Lemma first_place bs K k Q : StronglySorted klt K -> K = k :: Q -> start_of bs K (fst k) = 0 /\ before_of bs K (fst k) (snd k) = 0.
Proof.
  intros S E. destruct (sorted_split K S [] k Q E) as [A B]. pose proof (start_split bs _ _ _ A B) as H1. pose proof (before_split bs _ _ _ A B) as H2. cbn [app] in *. rewrite <- E in *. rewrite H1, H2. split; reflexivity.
Qed.

(* ComputeOffsetsAndCreateResultMatrix *)
Lemma create_offsets bs l : ordered l -> NoDup (map t_index l) -> (forall k, In k (keys_of l) -> 0 < size_of bs (fst k) /\ 0 < size_of bs (snd k)) ->
  let K := keys_of l in let r := CreateOffsets bs l in
  i_nonzeros r = area_of bs K /\ i_rows r = RowPointers (cols bs) 0 (fst (ComputeNonzeros bs l)) 0 /\ i_terms r = length l /\
  i_stores r = flat_map (fill_key bs K (fst (ComputeNonzeros bs l))) K /\ forall t, In t l -> i_offsets r (t_index t) = place bs K (key t).
Proof.
  intros O ND POS. cbn zeta. unfold CreateOffsets. destruct (nonzeros bs l) as [RN NN]. destruct (ComputeNonzeros bs l) as [row_nnz n] eqn:EC. cbn [fst snd] in *.
  destruct l as [|t l].
  - cbn in *. split; [exact NN|]. split; [reflexivity|]. split; [reflexivity|]. split; [reflexivity|]. intros t [].
  - pose proof (keys_sorted _ O) as KS. set (K := keys_of (t :: l)) in *.
    destruct (Nat.eqb_spec n 0) as [Z|Z].
    + exfalso. specialize (POS (key t) (or_introl eq_refl)). rewrite NN in Z. unfold area_of, K in Z. cbn [keys_of nsum] in Z. nia.
    + destruct (first_place bs K (key t) (distinct (key t) l) KS eq_refl) as [F1 F2]. cbn [key fst snd] in F1, F2.
      pose proof (offsets_rest bs K KS row_nnz RN l t [] 0 0 (set_at (fun _ => 0) (t_index t) 0) (Fill bs row_nnz t 0 0) eq_refl (eq_sym F1) (eq_sym F2) ND) as H.
      assert (set_at (fun _ => 0) (t_index t) 0 (t_index t) = place bs K (key t)) as Ht by (unfold set_at, place; cbn [key fst snd]; rewrite Nat.eqb_refl, F1, F2; reflexivity).
      specialize (H Ht). cbn zeta in H. destruct (OffsetsRest bs row_nnz t l 0 0 _ _) as [offsets stores]. cbn [fst snd] in H. destruct H as [H1 [H2 H3]].
      cbn [i_nonzeros i_rows i_terms i_stores i_offsets]. split; [exact NN|]. split; [reflexivity|]. split; [reflexivity|]. split.
      * rewrite H3. transitivity (fill_key bs K row_nnz (key t) ++ flat_map (fill_key bs K row_nnz) (distinct (key t) l)); [|reflexivity]. f_equal. unfold fill_key. cbn [key fst snd]. rewrite F1, F2. reflexivity.
      * cbn [map] in ND. inversion_clear ND as [|? ? ND1 ND2]. intros u [<-|Hu]; [|apply H1; exact Hu]. rewrite H2 by exact ND1. exact Ht.
Qed.
