(** Paths, union-find and the greedy loop. *)
Require Import List Arith Bool Lia Permutation Sorted ZArith.
From Verif Require Import GraphModel GraphSpec GraphProofs GraphProofs2 ForestModel ForestSpec.
Import ListNotations.
Open Scope nat_scope.

(** ** Paths *)
Section Paths.
Variable E : nat -> nat -> Prop.
Hypothesis sym : forall a b, E a b -> E b a.
Lemma path_trans : forall a b c, path E a b -> path E b c -> path E a c.
Proof. induction 1; auto. intros. econstructor; eauto. Qed.
Lemma path_one : forall a b, E a b -> path E a b.
Proof. intros. econstructor; eauto. constructor. Qed.
Lemma path_sym : forall a b, path E a b -> path E b a.
Proof. induction 1; [constructor|]. eapply path_trans; eauto. apply path_one; auto. Qed.
End Paths.
Lemma path_mono : forall (E E' : nat -> nat -> Prop) a b, (forall x y, E x y -> E' x y) -> path E a b -> path E' a b.
Proof. induction 2; [constructor|econstructor; eauto]. Qed.

Lemma path_add : forall (E E' : nat -> nat -> Prop) u v,
  (forall x y, E' x y -> E x y \/ (x = u /\ y = v) \/ (x = v /\ y = u)) ->
  forall x y, path E' x y -> path E x y \/ (path E x u /\ path E v y) \/ (path E x v /\ path E u y).
Proof.
  intros E E' u v H x y P. induction P as [a|a b c S P IH]; [left; constructor|].
  destruct (H _ _ S) as [S1|[[-> ->]|[-> ->]]].
  - destruct IH as [I|[[I J]|[I J]]]; [left|right; left|right; right]; [econstructor; eauto|split; auto; econstructor; eauto|split; auto; econstructor; eauto].
  - destruct IH as [I|[[I J]|[I J]]].
    + right; left; split; auto. constructor.
    + right; left; split; auto. constructor.
    + left. auto.
  - destruct IH as [I|[[I J]|[I J]]].
    + right; right; split; auto. constructor.
    + left. auto.
    + right; right; split; auto. constructor.
Qed.

Lemma acyclic_add : forall (E E' : nat -> nat -> Prop) u v, (forall a b, E a b -> E b a) ->
  (forall x y, E' x y <-> E x y \/ (x = u /\ y = v) \/ (x = v /\ y = u)) ->
  acyclic E -> ~ path E u v -> acyclic E'.
Proof.
  intros E E' u v S H A N a b Hab P.
  assert (NE : ~ E u v) by (intros X; apply N; apply path_one; auto).
  assert (SM : forall x y, minus E a b x y -> minus E a b y x).
  { intros x y [X [Y Z]]. split; [auto|]. split; intros [-> ->]; tauto. }
  assert (new : (a = u /\ b = v) \/ (a = v /\ b = u) -> False).
  { intros Q. assert (P' : path E a b).
    { eapply path_mono; [|exact P]. intros x y [X [Y Z]]. apply H in X. destruct X as [X|[X|X]]; auto; exfalso; destruct X; destruct Q as [[? ?]|[? ?]]; subst; tauto. }
    destruct Q as [[-> ->]|[-> ->]]; [auto|]. apply N. apply path_sym; auto. }
  apply H in Hab. destruct Hab as [Hab|Hab]; [|auto].
  destruct (path_add (minus E a b) (minus E' a b) u v) with (x := a) (y := b) as [Q|[[Q R]|[Q R]]]; auto.
  - intros x y [X [Y Z]]. apply H in X. destruct X as [X|[X|X]]; auto. left. split; auto.
  - apply (A a b Hab). auto.
  - apply N. apply (path_trans E u a v).
    { apply path_sym; auto. eapply path_mono; [|exact Q]. intros x y [X _]; auto. }
    econstructor; [exact Hab|]. apply path_sym; auto. eapply path_mono; [|exact R]. intros x y [X _]; auto.
  - apply N. apply (path_trans E u b v).
    { eapply path_mono; [|exact R]. intros x y [X _]; auto. }
    econstructor; [apply S; exact Hab|]. eapply path_mono; [|exact Q]. intros x y [X _]; auto.
Qed.

(** ** Union-find *)
Inductive Root (ds : fmap nat) : nat -> nat -> Prop :=
  | root_here : forall v, ds v = Some v -> Root ds v v
  | root_up : forall v p r, ds v = Some p -> p <> v -> Root ds p r -> Root ds v r.
Definition UF (V : list nat) (ds : fmap nat) : Prop :=
  forall v, In v V -> exists p, ds v = Some p /\ p <= v /\ In p V.

Lemma root_fun : forall ds v r, Root ds v r -> forall r', Root ds v r' -> r = r'.
Proof.
  induction 1; intros r' R; inversion R; subst; auto; try congruence.
  apply IHRoot. congruence.
Qed.
Lemma root_self : forall ds v r, Root ds v r -> ds r = Some r.
Proof. induction 1; auto. Qed.
Lemma root_ex : forall V ds, UF V ds -> forall v, In v V -> exists r, Root ds v r /\ r <= v /\ In r V.
Proof.
  intros V ds U v. induction v as [v IH] using lt_wf_ind. intros Hv. destruct (U v Hv) as [p [E [L I]]].
  destruct (Nat.eq_dec p v) as [->|N]; [exists v; repeat split; auto; constructor; auto|].
  destruct (IH p) as [r [R [L' I']]]; auto; [lia|]. exists r. split; [|split; auto; lia]. econstructor; eauto.
Qed.

Lemma root_to : forall (P : nat -> nat -> Prop) V ds ds', UF V ds ->
  (forall x y, In x V -> Root ds x y -> Root ds' x y) ->
  forall x y, In x V -> (Root ds x y <-> Root ds' x y).
Proof.
  intros _ V ds ds' U H x y Hx. split; [auto|]. intros R. destruct (root_ex V ds U x Hx) as [z [Z _]].
  rewrite (root_fun _ _ _ R z); auto.
Qed.

Lemma compress : forall V ds v r, UF V ds -> In v V -> Root ds v r ->
  UF V (fput ds v (Some r)) /\ forall x y, In x V -> (Root ds x y <-> Root (fput ds v (Some r)) x y).
Proof.
  intros V ds v r U Hv R. split.
  - intros x Hx. destruct (Nat.eq_dec x v) as [->|N].
    + rewrite fput_same. destruct (root_ex V ds U v Hv) as [r' [R' [L I]]].
      rewrite (root_fun _ _ _ R r' R'). eauto.
    + rewrite fput_other by auto. auto.
  - apply (root_to (fun _ _ => True)); auto. intros x y _ X. induction X as [x Ex|x p y Ex N X IH].
    + destruct (Nat.eq_dec x v) as [->|N].
      * constructor. rewrite fput_same. f_equal. symmetry. apply (root_fun ds v); auto. constructor; auto.
      * constructor. rewrite fput_other; auto.
    + destruct (Nat.eq_dec x v) as [->|Nv].
      * assert (y = r) by (apply (root_fun ds v); auto; econstructor; eauto). subst y.
        pose proof (root_self _ _ _ R) as S.
        assert (r <> v) by (intros ->; congruence).
        econstructor; [apply fput_same|auto|]. constructor. rewrite fput_other; auto.
      * econstructor; [rewrite fput_other; eauto|auto|auto].
Qed.

Lemma find_ok : forall V fuel v ds, UF V ds -> In v V -> v < fuel ->
  exists r ds', find_component fuel v ds = Some (r, ds') /\ Root ds v r /\ UF V ds' /\
    forall x y, In x V -> (Root ds x y <-> Root ds' x y).
Proof.
  intros V. induction fuel as [|fuel IH]; intros v ds U Hv L; [lia|]. simpl.
  destruct (U v Hv) as [p [E [Lp Ip]]]. rewrite E.
  destruct (Nat.eqb_spec p v) as [->|N].
  - exists v, ds. repeat split; auto; try (constructor; auto).
  - destruct (IH p ds U Ip) as [r [ds' [F [R [U' Q]]]]]; [lia|]. rewrite F.
    assert (Rv : Root ds v r) by (econstructor; eauto).
    destruct (compress V ds' v r U' Hv) as [U2 Q2]; [apply Q; auto|].
    exists r, (fput ds' v (Some r)). repeat split; auto; intros X.
    + apply Q2; auto. apply Q; auto.
    + apply Q; auto. apply Q2; auto.
Qed.

Lemma union_ok : forall V ds lo hi, UF V ds -> In lo V -> In hi V -> ds lo = Some lo -> ds hi = Some hi -> lo < hi ->
  UF V (fput ds hi (Some lo)) /\
  forall x y, In x V -> Root ds x y -> Root (fput ds hi (Some lo)) x (if y =? hi then lo else y).
Proof.
  intros V ds lo hi U Il Ih El Eh L. split.
  - intros x Hx. destruct (Nat.eq_dec x hi) as [->|N].
    + rewrite fput_same. exists lo. repeat split; auto; lia.
    + rewrite fput_other by auto. auto.
  - intros x y _ R. induction R as [x Ex|x p y Ex N R IH].
    + destruct (Nat.eqb_spec x hi) as [->|Nx].
      * econstructor; [apply fput_same|lia|]. constructor. rewrite fput_other by lia. auto.
      * constructor. rewrite fput_other; auto.
    + assert (x <> hi) by (intros ->; congruence).
      econstructor; [rewrite fput_other; eauto|auto|auto].
Qed.

(** ** Weights *)
Lemma ewput_spec : forall m a b x c d, ewput m a b x c d = if Nat.eq_dec c a then (if Nat.eq_dec d b then x else m c d) else m c d.
Proof.
  intros. unfold ewput. destruct (Nat.eq_dec c a) as [->|N]; [rewrite Nat.eqb_refl|apply Nat.eqb_neq in N; rewrite N; auto].
  destruct (Nat.eq_dec d b) as [->|N]; [rewrite Nat.eqb_refl|apply Nat.eqb_neq in N; rewrite N; auto]. auto.
Qed.
(** The stored weight of {a, b}. *)
Definition ewget (m : nat -> nat -> option Z) (a b : nat) : option Z := if a <? b then m a b else m b a.
Lemma ewget_key : forall m a b x c d,
  ewget (ewkey m a b x) c d = if Nat.eq_dec c a then (if Nat.eq_dec d b then x else if Nat.eq_dec c b then (if Nat.eq_dec d a then x else ewget m c d) else ewget m c d)
                              else if Nat.eq_dec c b then (if Nat.eq_dec d a then x else ewget m c d) else ewget m c d.
Proof.
  intros. unfold ewget, ewkey.
  destruct (Nat.ltb_spec a b), (Nat.ltb_spec c d); rewrite ewput_spec;
  repeat match goal with |- context [Nat.eq_dec ?x ?y] => destruct (Nat.eq_dec x y); subst end; auto; try lia; try congruence;
  assert (b = a) by lia; subst; auto; try congruence; try lia.
Qed.
Lemma ewget_sym : forall m a b, ewget m a b = ewget m b a.
Proof.
  intros. unfold ewget. destruct (Nat.ltb_spec a b), (Nat.ltb_spec b a); auto; try lia. assert (a = b) by lia. subst; auto.
Qed.
Lemma edge_weight_get : forall w a b, edge_weight w a b = match ewget (w_ew w) a b with Some x => x | None => 0%Z end.
Proof. reflexivity. Qed.

(** ** The greedy loop *)
Section Kruskal.
Variable w : wgraph.
Hypothesis GW : GInv (w_g w).
Notation V := (g_v (w_g w)).

(** [f] edges at least as heavy as [x]. *)
Definition heavy (f : wgraph) (x : Z) : nat -> nat -> Prop :=
  fun a b => adj (w_g f) a b /\ (x <= edge_weight w a b)%Z.
Definition excused (f : wgraph) (x : Z) (a b : nat) : Prop :=
  adj (w_g f) a b \/
  (exists v c d, (v = a \/ v = b) /\ c <> d /\ heavy f x v c /\ heavy f x v d) \/
  path (heavy f x) a b.
Lemma heavy_mono : forall f f' x, (forall a b, adj (w_g f) a b -> adj (w_g f') a b) ->
  forall a b, heavy f x a b -> heavy f' x a b.
Proof. intros f f' x H a b [A B]. split; auto. Qed.
Lemma excused_mono : forall f f' x a b, (forall a b, adj (w_g f) a b -> adj (w_g f') a b) -> excused f x a b -> excused f' x a b.
Proof.
  intros f f' x a b H [E|[[v [c [d [D [N [P Q]]]]]]|E]]; [left; auto|right; left|right; right].
  - exists v, c, d. split; [auto|]. split; [auto|]. split; eapply heavy_mono; eauto.
  - eapply path_mono; [|exact E]. intros. eapply heavy_mono; eauto.
Qed.

Record KInv (f : wgraph) (ds : fmap nat) : Prop := mkK {
  k_ginv : GInv (w_g f);
  k_v : forall v, In v (g_v (w_g f)) <-> In v V;
  k_sub : forall a b, adj (w_g f) a b -> adj (w_g w) a b;
  k_w : forall a b, adj (w_g f) a b -> edge_weight f a b = edge_weight w a b;
  k_vw : forall v, w_vw f v = if in_dec Nat.eq_dec v V then w_vw w v else None;
  k_zero : forall a b, ~ adj (w_g f) a b -> ewget (w_ew f) a b = None;
  k_deg : forall v, length (at_ (g_e (w_g f)) v) <= 2;
  k_acyc : acyclic (adj (w_g f));
  k_uf : UF V ds;
  k_conn : forall a b r1 r2, In a V -> In b V -> Root ds a r1 -> Root ds b r2 -> (r1 = r2 <-> path (adj (w_g f)) a b) }.

Lemma wadd_ok : forall a b x f, In a (g_v (w_g f)) -> In b (g_v (w_g f)) -> exists f', wadd_edge a b x f = Some f'.
Proof.
  intros a b x f A B. unfold wadd_edge, add_edge. apply mem_in in A, B. rewrite A, B. simpl.
  destruct (mem b (at_ (g_e (w_g f)) a)); eauto.
Qed.

Lemma neighbors_some : forall g v, GInv g -> In v (g_v g) -> neighbors g v = Some (at_ (g_e g) v).
Proof.
  intros g v I H. unfold neighbors, at_. apply (gi_dom g I) in H. destruct (g_e g v); auto; congruence.
Qed.

Lemma deg_add : forall g g' a b v, GInv g -> add_edge a b g = Some g' -> a <> b -> 
  length (at_ (g_e g') v) <= length (at_ (g_e g) v) + (if (v =? a) || (v =? b) then 1 else 0).
Proof.
  intros g g' a b v I H N. pose proof (ginv_adde _ _ _ _ I H) as [I' _].
  pose proof (adj_adde a b g g' v) as A.
  assert (INC : forall l, (forall y, In y (at_ (g_e g') v) -> In y l) -> length (at_ (g_e g') v) <= length l).
  { intros l Hl. apply NoDup_incl_length; [apply gi_set; auto|]. exact Hl. }
  destruct (Nat.eqb_spec v a) as [->|Na]; simpl.
  - rewrite Nat.add_comm. change (1 + length (at_ (g_e g) a)) with (length (b :: at_ (g_e g) a)). apply INC.
    intros y Hy. apply A in Hy; auto. destruct Hy as [[_ ->]|[[? _]|Hy]]; [left; auto|congruence|right; auto].
  - destruct (Nat.eqb_spec v b) as [->|Nb]; simpl.
    + rewrite Nat.add_comm. change (1 + length (at_ (g_e g) b)) with (length (a :: at_ (g_e g) b)). apply INC.
      intros y Hy. apply A in Hy; auto. destruct Hy as [[? _]|[[_ ->]|Hy]]; [congruence|left; auto|right; auto].
    + rewrite Nat.add_0_r. apply INC. intros y Hy. apply A in Hy; auto. destruct Hy as [[? _]|[[? _]|Hy]]; auto; congruence.
Qed.

Lemma kruskal_ok : forall es f ds, KInv f ds ->
  (forall x a b, In (x, (a, b)) es -> x = edge_weight w a b /\ adj (w_g w) a b /\ a < b) ->
  StronglySorted (fun e1 e2 => edge_gt e2 e1 = false) es ->
  (forall a b e, adj (w_g f) a b -> In e es -> (fst e <= edge_weight w a b)%Z) ->
  exists f' ds', kruskal w es f ds = Some (f', ds') /\ KInv f' ds' /\
    (forall a b, adj (w_g f) a b -> adj (w_g f') a b) /\
    forall x a b, In (x, (a, b)) es -> excused f' x a b.
Proof.
  induction es as [|[x [v1 v2]] es IH]; intros f ds K HE SS HV.
  - exists f, ds. split; [reflexivity|]. split; auto. split; auto. intros ? ? ? [].
  - destruct (HE x v1 v2 (or_introl eq_refl)) as [Ex [A12 L12]].
    assert (V1 : In v1 V) by (eapply vert_l; eauto). assert (V2 : In v2 V) by (eapply gi_vert; eauto).
    pose proof (k_ginv _ _ K) as GF.
    assert (F1 : In v1 (g_v (w_g f))) by (apply (k_v _ _ K); auto).
    assert (F2 : In v2 (g_v (w_g f))) by (apply (k_v _ _ K); auto).
    assert (HE' : forall x a b, In (x, (a, b)) es -> x = edge_weight w a b /\ adj (w_g w) a b /\ a < b) by (intros; apply HE; right; auto).
    inversion SS as [|? ? S' SF]; subst. rewrite Forall_forall in SF.
    assert (HV' : forall a b e, adj (w_g f) a b -> In e es -> (fst e <= edge_weight w a b)%Z) by (intros; eapply HV; eauto; right; auto).
    assert (LT : forall e, In e es -> (fst e <= edge_weight w v1 v2)%Z).
    { intros [y [c d]] Hy. apply SF in Hy. simpl in *. apply orb_false_iff in Hy. destruct Hy as [Hy _]. apply Z.ltb_ge in Hy. auto. }
    assert (KEEP : forall f' ds', KInv f' ds' -> (forall a b, adj (w_g f) a b -> adj (w_g f') a b) ->
              excused f' (edge_weight w v1 v2) v1 v2 ->
              (forall x a b, In (x, (a, b)) es -> excused f' x a b) ->
              forall x a b, In (x, (a, b)) ((edge_weight w v1 v2, (v1, v2)) :: es) -> excused f' x a b).
    { intros f' ds' _ _ E0 E1 y a b [Y|Y]; [inversion Y; subst; auto|auto]. }
    cbn [kruskal]. rewrite !neighbors_some by auto.
    destruct ((length (at_ (g_e (w_g f)) v1) =? 2) || (length (at_ (g_e (w_g f)) v2) =? 2)) eqn:D.
    { destruct (IH f ds K HE' S' HV') as [f' [ds' [E [K' [M EX]]]]]. exists f', ds'.
      split; [auto|]. split; [auto|]. split; [auto|]. apply (KEEP f' ds'); auto.
      right; left. apply orb_true_iff in D.
      assert (TWO : forall v, length (at_ (g_e (w_g f)) v) = 2 -> (v = v1 \/ v = v2) ->
        exists v c d, (v = v1 \/ v = v2) /\ c <> d /\ heavy f' (edge_weight w v1 v2) v c /\ heavy f' (edge_weight w v1 v2) v d).
      { intros v L Q. pose proof (gi_set _ GF v) as N.
        destruct (at_ (g_e (w_g f)) v) as [|c [|d [|? ?]]] eqn:El; simpl in L; try lia.
        inversion N as [|? ? N1 N2]; subst. exists v, c, d. split; auto. split; [intros ->; apply N1; left; auto|].
        assert (AC : adj (w_g f) v c) by (unfold adj; rewrite El; left; auto).
        assert (AD : adj (w_g f) v d) by (unfold adj; rewrite El; right; left; auto).
        split; split; auto; apply (HV _ _ (edge_weight w v1 v2, (v1, v2))); auto; left; auto. }
      destruct D as [D|D]; apply Nat.eqb_eq in D; eauto. }
    destruct (find_ok V (S v1) v1 ds (k_uf _ _ K) V1) as [r1 [ds1 [EF1 [R1 [U1 Q1]]]]]; [lia|]. rewrite EF1.
    destruct (find_ok V (S v2) v2 ds1 U1 V2) as [r2 [ds2 [EF2 [R2 [U2 Q2]]]]]; [lia|]. rewrite EF2.
    assert (Q12 : forall x y, In x V -> (Root ds x y <-> Root ds2 x y)).
    { intros a b Ha. rewrite (Q1 a b Ha). apply Q2; auto. }
    apply Q1 in R2; auto.
    assert (K2 : KInv f ds2).
    { destruct K. constructor; auto. intros a b s1 s2 Ha Hb X Y. apply k_conn0; auto; apply Q12; auto. }
    destruct (Nat.eqb_spec r1 r2) as [Er|Nr].
    { destruct (IH f ds2 K2 HE' S' HV') as [f' [ds' [E [K' [M EX]]]]]. exists f', ds'.
      split; [auto|]. split; [auto|]. split; [auto|]. apply (KEEP f' ds'); auto.
      right; right. subst r2. assert (P : path (adj (w_g f)) v1 v2) by (apply (k_conn _ _ K v1 v2 r1 r1); auto).
      eapply path_mono; [|exact P]. intros a b Hab. split; auto. apply (HV _ _ (edge_weight w v1 v2, (v1, v2)) Hab). left; auto. }
    (* the edge is added *)
    assert (NP : ~ path (adj (w_g f)) v1 v2).
    { intros P. apply Nr. apply (k_conn _ _ K v1 v2); auto. }
    assert (NA : ~ adj (w_g f) v1 v2) by (intros X; apply NP, path_one; auto).
    destruct (wadd_ok v1 v2 (edge_weight w v1 v2) f F1 F2) as [f1 E1]. rewrite E1.
    unfold wadd_edge in E1. destruct (add_edge v1 v2 (w_g f)) as [g1|] eqn:AE1; [|discriminate]. inversion E1; subst f1; clear E1.
    destruct (ginv_adde _ _ _ _ GF AE1) as [G1 VG1].
    match goal with |- context [wadd_edge v2 v1 ?x ?f1] => destruct (wadd_ok v2 v1 x f1) as [f2 E2]; [simpl; rewrite VG1; auto|simpl; rewrite VG1; auto|]; rewrite E2 end.
    unfold wadd_edge in E2. simpl w_g in E2. destruct (add_edge v2 v1 g1) as [g2|] eqn:AE2; [|discriminate]. inversion E2; subst f2; clear E2.
    destruct (ginv_adde _ _ _ _ G1 AE2) as [G2 VG2].
    set (f2 := mkW g2 _ _).
    assert (A2 : forall a b, adj g2 a b <-> adj (w_g f) a b \/ (a = v1 /\ b = v2) \/ (a = v2 /\ b = v1)).
    { intros a b. rewrite (adj_adde _ _ _ _ a b G1 AE2), (adj_adde _ _ _ _ a b GF AE1). tauto. }
    assert (EW2 : forall a b, ewget (w_ew f2) a b = if (Nat.eq_dec a v1) then (if Nat.eq_dec b v2 then Some (edge_weight w v1 v2) else ewget (w_ew f) a b)
         else if Nat.eq_dec a v2 then (if Nat.eq_dec b v1 then Some (edge_weight w v1 v2) else ewget (w_ew f) a b) else ewget (w_ew f) a b).
    { intros a b. unfold f2. simpl w_ew. rewrite !ewget_key.
      repeat match goal with |- context [Nat.eq_dec ?x ?y] => destruct (Nat.eq_dec x y); subst end; auto; try lia; try congruence. }
    set (ds3 := if r2 <? r1 then fput ds2 r1 (Some r2) else fput ds2 r2 (Some r1)).
    assert (I1 : In r1 V /\ In r2 V).
    { destruct (root_ex V ds (k_uf _ _ K) v1 V1) as [z [Z [_ IZ]]]. rewrite <- (root_fun _ _ _ Z r1 R1).
      destruct (root_ex V ds (k_uf _ _ K) v2 V2) as [z' [Z' [_ IZ']]]. rewrite <- (root_fun _ _ _ Z' r2 R2). auto. }
    destruct I1 as [I1 I2].
    assert (S1 : ds2 r1 = Some r1) by (apply (root_self ds2 v1); apply Q12; auto).
    assert (S2 : ds2 r2 = Some r2) by (apply (root_self ds2 v2); apply Q12; auto).
    assert (UN : UF V ds3 /\ forall a y, In a V -> Root ds2 a y -> Root ds3 a (if (y =? r1) || (y =? r2) then Nat.min r1 r2 else y)).
    { unfold ds3. destruct (Nat.ltb_spec r2 r1) as [L|L].
      - destruct (union_ok V ds2 r2 r1 U2 I2 I1 S2 S1 L) as [U3 Q3]. split; auto. intros a y Ha Ry. specialize (Q3 a y Ha Ry).
        destruct (Nat.eqb_spec y r1); simpl; [rewrite Nat.min_r by lia; auto|]. destruct (Nat.eqb_spec y r2); simpl; auto.
        subst y. rewrite Nat.min_r by lia; auto.
      - assert (L' : r1 < r2) by lia. destruct (union_ok V ds2 r1 r2 U2 I1 I2 S1 S2 L') as [U3 Q3]. split; auto. intros a y Ha Ry. specialize (Q3 a y Ha Ry).
        destruct (Nat.eqb_spec y r2); [rewrite orb_true_r, Nat.min_l by lia; auto|]. destruct (Nat.eqb_spec y r1); simpl; auto.
        subst y. rewrite Nat.min_l by lia; auto. }
    destruct UN as [U3 Q3].
    assert (SF2 : forall a b, adj (w_g f) a b -> adj (w_g f) b a) by (apply gi_sym; auto).
    assert (K3 : KInv f2 ds3).
    { constructor; auto.
      - intros v. simpl. rewrite VG2, VG1. apply (k_v _ _ K).
      - intros a b H. apply A2 in H. destruct H as [H|[[-> ->]|[-> ->]]]; auto. apply (k_sub _ _ K); auto. apply (gi_sym _ GW); auto.
      - intros a b H. rewrite edge_weight_get, EW2. apply A2 in H.
        destruct (Nat.eq_dec a v1) as [->|N1]; [destruct (Nat.eq_dec b v2) as [->|N2]; auto|].
        + rewrite <- edge_weight_get. destruct H as [H|[[_ H]|[H1 H2]]]; [apply (k_w _ _ K); auto|congruence|lia].
        + destruct (Nat.eq_dec a v2) as [->|N2]; [destruct (Nat.eq_dec b v1) as [->|N3]|].
          * rewrite (edge_weight_get w v2 v1), ewget_sym. auto.
          * rewrite <- edge_weight_get. destruct H as [H|[[H1 H]|[H1 H2]]]; [apply (k_w _ _ K); auto|lia|congruence].
          * rewrite <- edge_weight_get. destruct H as [H|[[H1 H]|[H1 H2]]]; [apply (k_w _ _ K); auto|congruence|congruence].
      - intros v. simpl. apply (k_vw _ _ K).
      - intros a b H. rewrite EW2.
        destruct (Nat.eq_dec a v1) as [->|N1]; [destruct (Nat.eq_dec b v2) as [->|N2]|].
        + exfalso; apply H; apply A2; auto.
        + apply (k_zero _ _ K). intros X. apply H, A2; auto.
        + destruct (Nat.eq_dec a v2) as [->|N2]; [destruct (Nat.eq_dec b v1) as [->|N3]|].
          * exfalso; apply H; apply A2; auto.
          * apply (k_zero _ _ K). intros X. apply H, A2; auto.
          * apply (k_zero _ _ K). intros X. apply H, A2; auto.
      - intros v. simpl. 
        pose proof (k_deg _ _ K v) as DV.
        assert (D2 : length (at_ (g_e g2) v) <= length (at_ (g_e g1) v)).
        { apply NoDup_incl_length; [apply gi_set; auto|]. intros y Hy. 
          change (adj g2 v y) in Hy. change (adj g1 v y). apply (adj_adde _ _ _ _ v y G1 AE2) in Hy. apply (adj_adde _ _ _ _ v y GF AE1).
          destruct Hy as [Hy|[Hy|Hy]]; auto. apply (adj_adde _ _ _ _ v y GF AE1) in Hy. auto. }
        pose proof (deg_add _ _ v1 v2 v GF AE1 ltac:(lia)) as D1.
        apply orb_false_iff in D. destruct D as [Da Db]. apply Nat.eqb_neq in Da, Db.
        destruct (Nat.eqb_spec v v1) as [->|]; simpl in D1; [lia|]. destruct (Nat.eqb_spec v v2) as [->|]; simpl in D1; lia.
      - apply (acyclic_add (adj (w_g f)) _ v1 v2); auto. apply (k_acyc _ _ K).
      - intros a b s1 s2 Ha Hb X Y.
        destruct (root_ex V ds2 U2 a Ha) as [t1 [T1 _]]. destruct (root_ex V ds2 U2 b Hb) as [t2 [T2 _]].
        pose proof (Q3 a t1 Ha T1) as X'. pose proof (Q3 b t2 Hb T2) as Y'.
        rewrite (root_fun _ _ _ X _ X'), (root_fun _ _ _ Y _ Y').
        pose proof (k_conn _ _ K2) as KC.
        assert (RR1 : Root ds2 v1 r1) by (apply Q12; auto). assert (RR2 : Root ds2 v2 r2) by (apply Q12; auto).
        assert (MONO : forall p q, path (adj (w_g f)) p q -> path (adj (w_g f2)) p q).
        { intros p q P. eapply path_mono; [|exact P]. intros; apply A2; auto. }
        assert (P12 : path (adj (w_g f2)) v1 v2) by (apply path_one; apply A2; auto).
        assert (SF3 : forall p q, adj (w_g f2) p q -> adj (w_g f2) q p) by (apply gi_sym; auto).
        assert (M1 : r1 <> r2) by auto.
        split.
        + intros EQ.
          assert (C1 : t1 = r1 -> path (adj (w_g f2)) a v1) by (intros; apply MONO, (KC a v1 t1 r1); auto).
          assert (C2 : t1 = r2 -> path (adj (w_g f2)) a v1) by (intros Et; apply (path_trans _ a v2); [apply MONO, (KC a v2 t1 r2); auto|apply path_sym; auto]).
          assert (C3 : t2 = r1 -> path (adj (w_g f2)) v1 b) by (intros; apply MONO, (KC v1 b r1 t2); auto).
          assert (C4 : t2 = r2 -> path (adj (w_g f2)) v1 b) by (intros Et; apply (path_trans _ v1 v2); [auto|apply MONO, (KC v2 b r2 t2); auto]).
          destruct (Nat.eqb_spec t1 r1) as [Ta|Ta]; simpl in EQ.
          * destruct (Nat.eqb_spec t2 r1) as [Tb|Tb]; simpl in EQ; [eapply path_trans; eauto|].
            destruct (Nat.eqb_spec t2 r2) as [Tc|Tc]; simpl in EQ; [eapply path_trans; eauto|]. exfalso.
            destruct (Nat.min_spec r1 r2) as [[? Q]|[? Q]]; rewrite Q in EQ; congruence.
          * destruct (Nat.eqb_spec t1 r2) as [Td|Td]; simpl in EQ.
            { destruct (Nat.eqb_spec t2 r1) as [Tb|Tb]; simpl in EQ; [eapply path_trans; eauto|].
              destruct (Nat.eqb_spec t2 r2) as [Tc|Tc]; simpl in EQ; [eapply path_trans; eauto|]. exfalso.
              destruct (Nat.min_spec r1 r2) as [[? Q]|[? Q]]; rewrite Q in EQ; congruence. }
            { destruct (Nat.eqb_spec t2 r1) as [Tb|Tb]; simpl in EQ; [exfalso; destruct (Nat.min_spec r1 r2) as [[? Q]|[? Q]]; rewrite Q in EQ; congruence|].
              destruct (Nat.eqb_spec t2 r2) as [Tc|Tc]; simpl in EQ; [exfalso; destruct (Nat.min_spec r1 r2) as [[? Q]|[? Q]]; rewrite Q in EQ; congruence|].
              apply MONO. apply (KC a b t1 t2); auto. }
        + intros P. apply (path_add (adj (w_g f)) (adj (w_g f2)) v1 v2) in P; [|intros; apply A2; auto].
          destruct P as [P|[[P1 P2]|[P1 P2]]].
          * apply (KC a b t1 t2) in P; auto. subst; auto.
          * apply (KC a v1 t1 r1) in P1; auto. apply (KC v2 b r2 t2) in P2; auto. subst. rewrite Nat.eqb_refl, Nat.eqb_refl, orb_true_r. auto.
          * apply (KC a v2 t1 r2) in P1; auto. apply (KC v1 b r1 t2) in P2; auto. subst. rewrite Nat.eqb_refl, Nat.eqb_refl, orb_true_r. auto. }
    destruct (IH f2 ds3 K3 HE' S') as [f' [ds' [E [K' [M EX]]]]].
    { intros a b e H He. apply A2 in H. destruct H as [H|[[-> ->]|[-> ->]]]; auto.
      rewrite (edge_weight_get w v2 v1), ewget_sym. apply LT; auto. }
    exists f', ds'. split; [auto|]. split; [auto|]. split.
    + intros a b H. apply M. apply A2; auto.
    + apply (KEEP f' ds'); auto.
      * intros a b H. apply M. apply A2; auto.
      * left. apply M. apply A2; auto.
Qed.
End Kruskal.
