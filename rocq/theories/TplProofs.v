(* Proofs for C74. *)
From Coq Require Import List Arith ZArith Bool Lia.
From Verif Require Import SchurModel TplModel TplSpec.
Import ListNotations.
Open Scope Z_scope.

(* ------------------------------------------------------------------ one size *)
Definition fold_sizes (l : list nat) (z : Z) : Z := fold_left (fun z n => detect_size z (Z.of_nat n)) l z.
Lemma fold_dynamic l : fold_sizes l Dynamic = Dynamic.
Proof. induction l as [|n l IH]; [reflexivity|]. exact IH. Qed.
Lemma fold_cons n l z : fold_sizes (n :: l) z = fold_sizes l (detect_size z (Z.of_nat n)).
Proof. reflexivity. Qed.
Lemma fold_from l : forall n, (0 < n)%nat -> positive l ->
  (forall m, In m l -> m = n) /\ fold_sizes l (Z.of_nat n) = Z.of_nat n \/ (exists m, In m l /\ m <> n) /\ fold_sizes l (Z.of_nat n) = Dynamic.
Proof.
  induction l as [|k l IH]; intros n Hn P; [left; split; [intros m []|reflexivity]|].
  rewrite fold_cons. unfold detect_size. destruct (Z.eqb_spec (Z.of_nat n) 0); [lia|]. unfold Dynamic at 1 3. destruct (Z.eqb_spec (Z.of_nat n) (-1)); [lia|]. cbn [negb andb].
  destruct (Z.eqb_spec (Z.of_nat n) (Z.of_nat k)) as [E|E]; cbn [negb].
  - assert (k = n) as -> by lia. destruct (IH n Hn ltac:(intros m Hm; apply P; right; exact Hm)) as [[H1 H2]|[[m [H1 H1']] H2]].
    + left. split; [intros m [->|Hm]; [reflexivity|apply H1, Hm]|exact H2].
    + right. split; [exists m; split; [right; exact H1|exact H1']|exact H2].
  - right. split; [exists k; split; [left; reflexivity|lia]|apply fold_dynamic].
Qed.
Lemma fold_summarizes l : positive l -> summarizes l (fold_sizes l 0).
Proof.
  intro P. destruct l as [|n l]; [left; split; reflexivity|]. right.
  change (fold_sizes (n :: l) 0) with (fold_sizes l (Z.of_nat n)).
  destruct (fold_from l n ltac:(apply P; left; reflexivity) ltac:(intros m Hm; apply P; right; exact Hm)) as [[H1 H2]|[[m [H1 H1']] H2]].
  - left. exists n. split; [discriminate|]. split; [intros m [->|Hm]; [reflexivity|apply H1, Hm]|exact H2].
  - right. exists m, n. split; [right; exact H1|]. split; [left; reflexivity|]. split; [exact H1'|exact H2].
Qed.

(* ------------------------------------------------------------------ the loop over the rows *)
Lemma detect_f_fold bs cs : positive (map (fun c => size (col bs (block_id c))) cs) -> forall f, f <> 0 ->
  detect_f bs cs f = fold_sizes (map (fun c => size (col bs (block_id c))) cs) f.
Proof.
  induction cs as [|c cs IH]; intros P f Hf; [reflexivity|]. cbn [detect_f map]. rewrite fold_cons.
  unfold detect_size. destruct (Z.eqb_spec f 0); [contradiction|]. destruct (Z.eqb_spec f Dynamic) as [->|Hd]; cbn [negb andb]; [symmetry; apply fold_dynamic|].
  fold (size_of (col bs (block_id c))). rewrite IH; [reflexivity|intros m Hm; apply P; right; exact Hm|]. destruct (negb _); [discriminate|exact Hf].
Qed.
Lemma detect_cells bs cs f : positive (map (fun c => size (col bs (block_id c))) cs) ->
  match cs with [] => f | c1 :: _ => detect_f bs cs (if f =? 0 then size_of (col bs (block_id c1)) else f) end = fold_sizes (map (fun c => size (col bs (block_id c))) cs) f.
Proof.
  intro P. destruct cs as [|c cs]; [reflexivity|]. rewrite (detect_f_fold bs (c :: cs) P).
  - destruct (Z.eqb_spec f 0) as [->|]; [|reflexivity]. cbn [map]. rewrite !fold_cons. f_equal. unfold detect_size, size_of. destruct (Z.eqb_spec (Z.of_nat (size (col bs (block_id c)))) 0) as [E|E]; [reflexivity|].
    cbn [Z.eqb]. rewrite Z.eqb_refl. cbn [negb]. rewrite andb_false_r. reflexivity.
  - specialize (P (size (col bs (block_id c))) ltac:(left; reflexivity)). destruct (Z.eqb_spec f 0); [unfold size_of; lia|assumption].
Qed.
Lemma rows_fold bs nelim fs : (forall row, In row fs -> exists c cs, cells row = c :: cs /\ (nelim <= block_id c)%nat) ->
  forall es, (forall row, In row es -> exists c cs, cells row = c :: cs /\ (block_id c < nelim)%nat) -> positive (f_sizes bs es) -> forall s,
  DetectRows bs nelim (es ++ fs) s = Some (mkSizes (fold_sizes (row_sizes es) (row_block_size s)) (fold_sizes (e_sizes bs es) (e_block_size s)) (fold_sizes (f_sizes bs es) (f_block_size s))).
Proof.
  intros Hf es. induction es as [|row es IH]; intros He P s.
  - cbn [app]. destruct s as [r e f]. destruct fs as [|row fs]; [reflexivity|]. cbn [DetectRows]. destruct (Hf row ltac:(left; reflexivity)) as [c [cs [-> Hc]]]. rewrite (proj2 (Nat.leb_le _ _) Hc). reflexivity.
  - cbn [app DetectRows]. destruct (He row ltac:(left; reflexivity)) as [c [cs [Ec Hc]]]. rewrite Ec, (proj2 (Nat.leb_gt _ _) Hc). cbv zeta.
    unfold f_sizes in P. cbn [flat_map] in P. rewrite Ec in P. cbn [tl] in P.
    rewrite (detect_cells bs cs (f_block_size s)) by (intros m Hm; apply P, in_or_app; left; exact Hm).
    set (r := detect_size _ _). set (e := detect_size _ _). set (f := fold_sizes _ _).
    assert (mkSizes (fold_sizes (row_sizes (row :: es)) (row_block_size s)) (fold_sizes (e_sizes bs (row :: es)) (e_block_size s)) (fold_sizes (f_sizes bs (row :: es)) (f_block_size s)) =
            mkSizes (fold_sizes (row_sizes es) r) (fold_sizes (e_sizes bs es) e) (fold_sizes (f_sizes bs es) f)) as ->.
    { unfold e_sizes, f_sizes, row_sizes. cbn [map flat_map]. rewrite Ec. cbn [tl app]. unfold fold_sizes at 3. rewrite fold_left_app. reflexivity. }
    destruct ((r =? Dynamic) && (e =? Dynamic) && (f =? Dynamic)) eqn:B.
    + rewrite !andb_true_iff, !Z.eqb_eq in B. destruct B as [[-> ->] ->]. rewrite !fold_dynamic. reflexivity.
    + rewrite IH; [reflexivity| |]; [intros row' Hr; apply He; right; exact Hr|intros m Hm; apply P, in_or_app; right; exact Hm].
Qed.
Lemma summarizes_zero l z : positive l -> summarizes l z -> (z = 0 <-> l = []).
Proof.
  intros P [[H1 H2]|[[n [H1 [H2 H3]]]|[m [n [H1 [H2 [H3 H4]]]]]]]; split; intro H; auto.
  - exfalso. destruct l as [|k l]; [contradiction|]. pose proof (P k ltac:(left; reflexivity)). pose proof (H2 k ltac:(left; reflexivity)). lia.
  - contradiction.
  - lia.
  - subst. destruct H1.
Qed.
Lemma e_sizes_nil bs nelim es : (forall row, In row es -> exists c cs, cells row = c :: cs /\ (block_id c < nelim)%nat) -> (e_sizes bs es = [] <-> es = []).
Proof. intro H. destruct es as [|row es]; [split; reflexivity|]. split; [|discriminate]. destruct (H row ltac:(left; reflexivity)) as [c [cs [E _]]]. unfold e_sizes. cbn [flat_map]. rewrite E. discriminate. Qed.
Lemma detects bs nelim es fs : split nelim bs es fs -> positive (row_sizes es) -> positive (e_sizes bs es) -> positive (f_sizes bs es) ->
  (es = [] /\ DetectStructure bs nelim = None) \/
  (es <> [] /\ exists s, DetectStructure bs nelim = Some s /\ summarizes (row_sizes es) (row_block_size s) /\ summarizes (e_sizes bs es) (e_block_size s) /\ summarizes (f_sizes bs es) (f_block_size s)).
Proof.
  intros [Hr He Hf] P1 P2 P3. unfold DetectStructure. rewrite Hr, (rows_fold bs nelim fs Hf es He P3). cbn [row_block_size e_block_size f_block_size].
  pose proof (fold_summarizes _ P1) as S1. pose proof (fold_summarizes _ P2) as S2. pose proof (fold_summarizes _ P3) as S3.
  pose proof (summarizes_zero _ _ P1 S1) as Z1. pose proof (summarizes_zero _ _ P2 S2) as Z2. pose proof (e_sizes_nil bs nelim es He) as En.
  destruct es as [|row es].
  - left. split; reflexivity.
  - right. split; [discriminate|]. destruct (Z.eqb_spec (fold_sizes (row_sizes (row :: es)) 0) 0) as [E|_]; [apply Z1 in E; discriminate E|].
    destruct (Z.eqb_spec (fold_sizes (e_sizes bs (row :: es)) 0) 0) as [E|_]; [apply Z2, En in E; discriminate E|]. cbn [orb]. eexists. split; [reflexivity|]. auto.
Qed.
Lemma applies_suitable bs es s t : summarizes (row_sizes es) (row_block_size s) -> summarizes (e_sizes bs es) (e_block_size s) -> summarizes (f_sizes bs es) (f_block_size s) ->
  applies t s -> suitable bs es t.
Proof.
  assert (forall l z y, summarizes l z -> y = (-1) \/ y = z -> suits l y) as H.
  { intros l z y S [-> | ->]; [left; reflexivity|]. destruct S as [[-> ->] | [[n [_ [H2 ->]]]|[m [n [_ [_ [_ ->]]]]]]]; [right; intros n []|right; intros m Hm; rewrite (H2 m Hm); reflexivity|left; reflexivity]. }
  intros S1 S2 S3 [A1 [A2 A3]]. split; [exact (H _ _ _ S1 A1)|]. split; [exact (H _ _ _ S2 A2)|exact (H _ _ _ S3 A3)].
Qed.

(* ------------------------------------------------------------------ the tables *)
(* what a conditional chooses is what it tests *)
Definition arg (o : option Z) : Z := match o with Some v => v | None => Dynamic end.
Definition honest (c : Conditional) : bool :=
  let '((r, e, f), s) := c in (row_block_size s =? arg r) && (e_block_size s =? arg e) && (f_block_size s =? arg f).
Definition clash (a b : Z) : bool := negb (a =? -1) && negb (b =? -1) && negb (a =? b).
Definition clashes (s t : Sizes) : bool := clash (row_block_size s) (row_block_size t) || clash (e_block_size s) (e_block_size t) || clash (f_block_size s) (f_block_size t).
Definition below (a b : Z) : bool := (a =? -1) || (a =? b).
Definition refines (t s : Sizes) : bool := below (row_block_size t) (row_block_size s) && below (e_block_size t) (e_block_size s) && below (f_block_size t) (f_block_size s).
Fixpoint chain (l : list Sizes) : bool :=
  match l with [] => true | s :: l' => forallb (fun t => clashes s t || refines t s) l' && chain l' end.
Lemma applies_clash s t o : applies s o -> applies t o -> clashes s t = false.
Proof.
  intros [S1 [S2 S3]] [T1 [T2 T3]]. unfold clashes. rewrite !orb_false_iff.
  assert (forall a b c, a = -1 \/ a = c -> b = -1 \/ b = c -> clash a b = false) as H.
  { intros a b c Ha Hb. unfold clash. destruct (Z.eqb_spec a (-1)); [reflexivity|]. destruct (Z.eqb_spec b (-1)); [reflexivity|]. destruct (Z.eqb_spec a b); [reflexivity|]. exfalso. destruct Ha, Hb; congruence. }
  split; [split|]; eapply H; eassumption.
Qed.
Lemma refines_applies t s : refines t s = true <-> applies t s.
Proof. unfold refines, below, applies. rewrite !andb_true_iff, !orb_true_iff, !Z.eqb_eq. tauto. Qed.
Lemma condition_applies c o : honest c = true -> condition o c = true -> applies (snd c) o.
Proof.
  destruct c as [[[r e] f] s]. cbn [honest condition snd]. rewrite !andb_true_iff, !Z.eqb_eq. intros [[H1 H2] H3] [[C1 C2] C3].
  assert (forall v w z, z = arg v -> test v w = true -> z = -1 \/ z = w) as H.
  { intros [v|] w z E T; cbn in E, T; [right; apply Z.eqb_eq in T; congruence|left; exact E]. }
  split; [exact (H _ _ _ H1 C1)|]. split; [exact (H _ _ _ H2 C2)|exact (H _ _ _ H3 C3)].
Qed.
Definition proper (c : Conditional) : bool := let '((r, e, f), _) := c in let p o := match o with Some v => negb (v =? -1) | None => true end in p r && p e && p f.
Lemma applies_condition c o : honest c = true -> proper c = true -> applies (snd c) o -> condition o c = true.
Proof.
  destruct c as [[[r e] f] s]. cbn [honest proper condition snd]. rewrite !andb_true_iff, !Z.eqb_eq. intros [[H1 H2] H3] [[P1 P2] P3] [A1 [A2 A3]].
  assert (forall v w z, z = arg v -> match v with Some v => negb (v =? -1) | None => true end = true -> z = -1 \/ z = w -> test v w = true) as H.
  { intros [v|] w z E P A; [|reflexivity]. cbn in *. apply Z.eqb_eq. apply negb_true_iff, Z.eqb_neq in P. destruct A; congruence. }
  split; [split|]; [exact (H _ _ _ H1 P1 A1)|exact (H _ _ _ H2 P2 A2)|exact (H _ _ _ H3 P3 A3)].
Qed.
Lemma find_best o : forall table, forallb honest table = true -> forallb proper table = true -> chain (map snd table) = true ->
  match find (condition o) table with
  | Some c => In c table /\ applies (snd c) o /\ forall t, In t (map snd table) -> applies t o -> applies t (snd c)
  | None => forall t, In t (map snd table) -> ~ applies t o
  end.
Proof.
  induction table as [|c table IH]; intros H P C; [intros t []|]. cbn [forallb map chain] in H, P, C. apply andb_true_iff in H, P, C. destruct H as [H1 H2], P as [P1 P2], C as [C1 C2].
  cbn [find]. destruct (condition o c) eqn:E.
  - split; [left; reflexivity|]. pose proof (condition_applies c o H1 E) as A. split; [exact A|]. intros t [<-|Ht] At; [apply refines_applies; unfold refines, below; rewrite !Z.eqb_refl, !orb_true_r; reflexivity|].
    rewrite forallb_forall in C1. specialize (C1 t Ht). rewrite (applies_clash _ _ _ A At) in C1. apply refines_applies, C1.
  - specialize (IH H2 P2 C2). destruct (find (condition o) table) as [c'|].
    + destruct IH as [I1 [I2 I3]]. split; [right; exact I1|]. split; [exact I2|]. intros t [<-|Ht] At; [|exact (I3 t Ht At)]. rewrite (applies_condition c o H1 P1 At) in E. discriminate.
    + intros t [<-|Ht] At; [|exact (IH t Ht At)]. rewrite (applies_condition c o H1 P1 At) in E. discriminate.
Qed.
Lemma choose_best table o : forallb honest table = true -> forallb proper table = true -> chain (map snd table) = true ->
  let t := choose table false o in (In t (map snd table) \/ t = general) /\ applies t o /\ forall t', In t' (map snd table) -> applies t' o -> applies t' t.
Proof.
  intros H P C. cbv zeta. unfold choose. pose proof (find_best o table H P C) as F. destruct (find (condition o) table) as [[k s]|].
  - destruct F as [F1 F2]. split; [left; apply in_map_iff; exists (k, s); split; [reflexivity|exact F1]|exact F2].
  - split; [right; reflexivity|]. split; [repeat split; left; reflexivity|]. intros t Ht At. destruct (F t Ht At).
Qed.
