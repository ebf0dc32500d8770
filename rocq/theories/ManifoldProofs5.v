(* Blocks: products of manifolds. *)
From Coq Require Import Reals List Arith Lia Lra Psatz Bool FunctionalExtensionality.
From Verif Require Import RotationModel RotationSpec RotationProofs RotationProofs4 ManifoldModel ManifoldSpec ManifoldProofs ManifoldProofs2.
Import ListNotations.
Open Scope R_scope.

Definition join (a : nat) (z w : arr) : arr := fun i => if Nat.ltb i a then z i else w (i - a)%nat.
Lemma join_lt a z w : eqn a (join a z w) z.
Proof. intros i Hi. unfold join. destruct (Nat.ltb_spec i a); [reflexivity|lia]. Qed.
Lemma join_ge a z w i : join a z w (a + i)%nat = w i.
Proof. unfold join. destruct (Nat.ltb_spec (a + i) a); [lia|]. f_equal. lia. Qed.
Lemma shift_join a z w : shift a (join a z w) = w.
Proof. apply functional_extensionality. intro i. apply join_ge. Qed.
Lemma shift_shift a b x : shift a (shift b x) = shift (b + a) x.
Proof. apply functional_extensionality. intro i. unfold shift. f_equal. lia. Qed.
Lemma eqn_le n m x y : (m <= n)%nat -> eqn n x y -> eqn m x y.
Proof. intros L H i Hi. apply H. lia. Qed.
Lemma eqn_shift a b x y : eqn (a + b) x y -> eqn b (shift a x) (shift a y).
Proof. intros H i Hi. apply H. lia. Qed.
Lemma eqn_join a b z w z' w' : eqn a z z' -> eqn b w w' -> eqn (a + b) (join a z w) (join a z' w').
Proof. intros H K i Hi. unfold join. destruct (Nat.ltb_spec i a); [apply H; assumption|apply K; lia]. Qed.
Lemma join_eta a b x : eqn (a + b) (join a x (shift a x)) x.
Proof. intros i Hi. unfold join, shift. destruct (Nat.ltb_spec i a); [reflexivity|f_equal; lia]. Qed.

Lemma deriv_cols rows c0 c1 cols f g y J J1 : (c0 + c1 <= cols)%nat -> (forall h, f h = g (shift c0 h)) ->
  (forall i j, (i < rows)%nat -> (j < cols)%nat -> J i j = if (Nat.leb c0 j && Nat.ltb j (c0 + c1))%bool then J1 i (j - c0)%nat else 0) ->
  derivative_at_zero rows c1 g y J1 -> derivative_at_zero rows cols f y J.
Proof.
  intros L Hf HJ H eps He. destruct (H eps He) as (del & Hd & K). exists del. split; [exact Hd|]. intros h Hh.
  pose proof (norm_block cols c0 c1 h L) as NB. destruct (K (shift c0 h) ltac:(lra)) as (z & Ez & Kz). exists z. split; [rewrite Hf; exact Ez|].
  intros i Hi. assert (mvec cols J h i = mvec c1 J1 (shift c0 h) i) as ->.
  { unfold mvec. replace cols with (c0 + (c1 + (cols - c0 - c1)))%nat by lia. rewrite !sumn_split.
    rewrite (sumn_ext c0 _ (fun _ => 0)), sumn_zero.
    2:{ intros j Hj. rewrite HJ by lia. destruct (Nat.leb_spec c0 j); [lia|]. cbn [andb]. ring. }
    rewrite (sumn_ext (cols - c0 - c1) _ (fun _ => 0)), sumn_zero.
    2:{ intros j Hj. rewrite HJ by lia. destruct (Nat.ltb_spec (c0 + (c1 + j)) (c0 + c1)); [lia|]. rewrite andb_false_r. ring. }
    rewrite Rplus_0_l, Rplus_0_r. apply sumn_ext. intros j Hj. rewrite HJ by lia. destruct (Nat.leb_spec c0 (c0 + j)); [|lia].
    destruct (Nat.ltb_spec (c0 + j) (c0 + c1)); [|lia]. cbn [andb]. unfold shift. do 2 f_equal. lia. }
  eapply Rle_trans; [apply Kz; exact Hi|]. apply Rmult_le_compat_l; lra.
Qed.

Definition join_opt (a : nat) (p q : option arr) : option arr :=
  match p, q with Some z, Some w => Some (join a z w) | _, _ => None end.
Lemma deriv_rows r1 r2 cols f f1 f2 y J : (forall h, f h = join_opt r1 (f1 h) (f2 h)) ->
  derivative_at_zero r1 cols f1 y J -> derivative_at_zero r2 cols f2 (shift r1 y) (fun r => J (r1 + r)%nat) ->
  derivative_at_zero (r1 + r2) cols f y J.
Proof.
  intros Hf H1 H2 eps He. destruct (H1 eps He) as (d1 & P1 & K1). destruct (H2 eps He) as (d2 & P2 & K2).
  exists (Rmin d1 d2). split; [apply Rmin_pos; assumption|]. intros h Hh. pose proof (Rmin_l d1 d2). pose proof (Rmin_r d1 d2).
  destruct (K1 h ltac:(lra)) as (z1 & E1 & L1). destruct (K2 h ltac:(lra)) as (z2 & E2 & L2).
  exists (join r1 z1 z2). split; [rewrite Hf, E1, E2; reflexivity|]. intros i Hi. destruct (Nat.lt_ge_cases i r1) as [L|L].
  - rewrite (join_lt r1 z1 z2 i L). apply L1. exact L.
  - replace i with (r1 + (i - r1))%nat by lia. rewrite join_ge. apply (L2 (i - r1)%nat). lia.
Qed.

Definition block_diag (a t : nat) (J1 J2 : mat) : mat :=
  fun r c => if (Nat.ltb r a && Nat.ltb c t)%bool then J1 r c
             else if (Nat.leb a r && Nat.leb t c)%bool then J2 (r - a)%nat (c - t)%nat else 0.
Lemma deriv_block a b t s f f1 f2 y J1 J2 :
  (forall h, f h = join_opt a (f1 h) (f2 (shift t h))) ->
  derivative_at_zero a t f1 y J1 -> derivative_at_zero b s f2 (shift a y) J2 ->
  derivative_at_zero (a + b) (t + s) f y (block_diag a t J1 J2).
Proof.
  intros Hf H1 H2. apply (deriv_rows a b (t + s) f f1 (fun h => f2 (shift t h))); [exact Hf| |].
  - apply (deriv_cols a 0 t (t + s) _ f1 _ _ J1); [lia|reflexivity| |exact H1]. intros i j Hi Hj. unfold block_diag.
    rewrite Nat.sub_0_r. cbn [Nat.leb andb Nat.add]. destruct (Nat.ltb_spec i a); [|lia]. cbn [andb]. destruct (Nat.ltb_spec j t); [reflexivity|].
    destruct (Nat.leb_spec a i); [lia|reflexivity].
  - apply (deriv_cols b t s (t + s) _ f2 _ _ J2); [lia|reflexivity| |exact H2]. intros i j Hi Hj. unfold block_diag.
    destruct (Nat.ltb_spec (a + i) a); [lia|]. cbn [andb]. destruct (Nat.leb_spec a (a + i)); [|lia]. cbn [andb].
    destruct (Nat.leb_spec t j); [|reflexivity]. destruct (Nat.ltb_spec j (t + s)); [|lia]. cbn [andb]. f_equal. lia.
Qed.
Lemma block_diag_mmul a b t s K1 K2 J1 J2 : eqm t t (mmul a K1 J1) identity -> eqm s s (mmul b K2 J2) identity ->
  eqm (t + s) (t + s) (mmul (a + b) (block_diag t a K1 K2) (block_diag a t J1 J2)) identity.
Proof.
  intros H1 H2 r c Hr Hc. unfold mmul. rewrite sumn_split.
  destruct (Nat.lt_ge_cases r t) as [Lr|Lr]; destruct (Nat.lt_ge_cases c t) as [Lc|Lc].
  - rewrite (sumn_ext b _ (fun _ => 0)), sumn_zero, Rplus_0_r, <- (H1 r c Lr Lc).
    + apply sumn_ext. intros j Hj. unfold block_diag. destruct (Nat.ltb_spec r t); [|lia]. destruct (Nat.ltb_spec j a); [|lia]. destruct (Nat.ltb_spec c t); [|lia]. reflexivity.
    + intros j Hj. unfold block_diag at 1. destruct (Nat.ltb_spec r t); [|lia]. destruct (Nat.ltb_spec (a + j) a); [lia|]. destruct (Nat.leb_spec t r); [lia|]. cbn [andb]. ring.
  - rewrite (sumn_ext a _ (fun _ => 0)), (sumn_ext b _ (fun _ => 0)), !sumn_zero.
    + unfold identity. destruct (Nat.eqb_spec r c); [lia|ring].
    + intros j Hj. unfold block_diag at 1. destruct (Nat.ltb_spec r t); [|lia]. destruct (Nat.ltb_spec (a + j) a); [lia|]. destruct (Nat.leb_spec t r); [lia|]. cbn [andb]. ring.
    + intros j Hj. unfold block_diag at 2. destruct (Nat.ltb_spec j a); [|lia]. destruct (Nat.ltb_spec c t); [lia|]. destruct (Nat.leb_spec a j); [lia|]. cbn [andb]. ring.
  - rewrite (sumn_ext a _ (fun _ => 0)), (sumn_ext b _ (fun _ => 0)), !sumn_zero.
    + unfold identity. destruct (Nat.eqb_spec r c); [lia|ring].
    + intros j Hj. unfold block_diag at 2. destruct (Nat.ltb_spec (a + j) a); [lia|]. destruct (Nat.leb_spec t c); [lia|]. rewrite andb_false_r. cbn [andb]. ring.
    + intros j Hj. unfold block_diag at 1. destruct (Nat.ltb_spec r t); [lia|]. destruct (Nat.leb_spec a j); [lia|]. rewrite andb_false_r. cbn [andb]. ring.
  - rewrite (sumn_ext a _ (fun _ => 0)), sumn_zero, Rplus_0_l.
    + transitivity (identity (r - t)%nat (c - t)%nat); [|unfold identity; destruct (Nat.eqb_spec r c), (Nat.eqb_spec (r - t) (c - t)); try reflexivity; lia].
      rewrite <- (H2 (r - t)%nat (c - t)%nat) by lia. apply sumn_ext. intros j Hj. unfold block_diag.
      destruct (Nat.ltb_spec r t); [lia|]. destruct (Nat.ltb_spec (a + j) a); [lia|]. destruct (Nat.leb_spec t r); [|lia]. destruct (Nat.leb_spec a (a + j)); [|lia].
      destruct (Nat.leb_spec t c); [|lia]. cbn [andb]. replace (a + j - a)%nat with j by lia. reflexivity.
    + intros j Hj. unfold block_diag at 1. destruct (Nat.ltb_spec r t); [lia|]. destruct (Nat.leb_spec a j); [lia|]. rewrite andb_false_r. cbn [andb]. ring.
Qed.

(* the product of two *)
Definition eqmo (r c : nat) (a b : option mat) : Prop :=
  match a, b with Some x, Some y => eqm r c x y | None, None => True | _, _ => False end.
Definition pair_jac (a t : nat) (p q : option mat) : option mat :=
  match p, q with Some x, Some y => Some (block_diag a t x y) | _, _ => None end.
Lemma eqo_refl n a : eqo n a a.
Proof. destruct a; cbn; [intros i Hi; reflexivity|exact I]. Qed.
Lemma eqo_sym n a b : eqo n a b -> eqo n b a.
Proof. destruct a, b; cbn; auto. intros H i Hi. symmetry. apply H. exact Hi. Qed.
Lemma eqo_trans n a b c : eqo n a b -> eqo n b c -> eqo n a c.
Proof. destruct a, b, c; cbn; try tauto. intros H K i Hi. rewrite (H i Hi). apply K. exact Hi. Qed.
Lemma eqo_join a b p q p' q' : eqo a p p' -> eqo b q q' -> eqo (a + b) (join_opt a p q) (join_opt a p' q').
Proof. destruct p, p', q, q'; cbn; try tauto. apply eqn_join. Qed.

(* m behaves as the product of m1 and m2 *)
Record is_pair (m m1 m2 : manifold) : Prop := {
  ip_ambient : AmbientSize m = (AmbientSize m1 + AmbientSize m2)%nat;
  ip_tangent : TangentSize m = (TangentSize m1 + TangentSize m2)%nat;
  ip_plus : forall x d, eqo (AmbientSize m) (Plus m x d)
     (join_opt (AmbientSize m1) (Plus m1 x d) (Plus m2 (shift (AmbientSize m1) x) (shift (TangentSize m1) d)));
  ip_minus : forall y x, eqo (TangentSize m) (Minus m y x)
     (join_opt (TangentSize m1) (Minus m1 y x) (Minus m2 (shift (AmbientSize m1) y) (shift (AmbientSize m1) x)));
  ip_plus_jacobian : forall x, eqmo (AmbientSize m) (TangentSize m) (PlusJacobian m x)
     (pair_jac (AmbientSize m1) (TangentSize m1) (PlusJacobian m1 x) (PlusJacobian m2 (shift (AmbientSize m1) x)));
  ip_minus_jacobian : forall x, eqmo (TangentSize m) (AmbientSize m) (MinusJacobian m x)
     (pair_jac (TangentSize m1) (AmbientSize m1) (MinusJacobian m1 x) (MinusJacobian m2 (shift (AmbientSize m1) x)));
  ip_right : RightMultiplyByPlusJacobian m = DefaultRightMultiply (AmbientSize m) (TangentSize m) (PlusJacobian m)
}.

Lemma eqo_some n a z : eqo n a (Some z) -> exists w, a = Some w /\ eqn n w z.
Proof. destruct a as [w|]; cbn; [|tauto]. intro H. exists w. auto. Qed.
Lemma eqmo_some r c a z : eqmo r c a (Some z) -> exists w, a = Some w /\ eqm r c w z.
Proof. destruct a as [w|]; cbn; [|tauto]. intro H. exists w. auto. Qed.

Lemma pair_is_manifold m m1 m2 on1 on2 reg1 reg2 reach1 reach2 small1 small2 : is_pair m m1 m2 ->
  is_manifold m1 on1 reg1 reach1 small1 -> is_manifold m2 on2 reg2 reach2 small2 ->
  let a := AmbientSize m1 in let t := TangentSize m1 in
  is_manifold m (fun x => on1 x /\ on2 (shift a x)) (fun x => reg1 x /\ reg2 (shift a x))
    (fun y x => reach1 y x /\ reach2 (shift a y) (shift a x)) (fun d => small1 d /\ small2 (shift t d)).
Proof.
  intros IP M1 M2 a t. destruct IP as [IA IT IPl IMi IPJ IMJ IR].
  set (b := AmbientSize m2) in *. set (s := TangentSize m2) in *. fold a in IA, IPl, IMi, IPJ, IMJ. fold t in IT, IPl, IMi, IPJ, IMJ.
  assert (forall x z1 z2, on1 z1 -> on2 z2 -> eqn (a + b) x (join a z1 z2) -> on1 x /\ on2 (shift a x)) as ONJ.
  { intros x z1 z2 O1 O2 E. split.
    - apply (im_on_reads _ _ _ _ _ M1 z1); [|exact O1]. intros i Hi. fold a in Hi. rewrite (E i) by lia. symmetry. apply join_lt. exact Hi.
    - apply (im_on_reads _ _ _ _ _ M2 z2); [|exact O2]. intros i Hi. fold b in Hi. unfold shift. rewrite (E (a + i)%nat) by lia. symmetry. apply join_ge. }
  assert (forall x d d1 d2, eqn (t + s) d (join t d1 d2) -> eqo (a + b) (Plus m x d) (join_opt a (Plus m1 x d1) (Plus m2 (shift a x) d2))) as PJ.
  { intros x d d1 d2 E. rewrite <- IA. eapply eqo_trans; [apply IPl|]. rewrite IA. apply eqo_join.
    - apply (im_plus_reads _ _ _ _ _ M1); [intros i Hi; reflexivity|]. intros i Hi. fold t in Hi. rewrite (E i) by lia. apply join_lt. exact Hi.
    - apply (im_plus_reads _ _ _ _ _ M2); [intros i Hi; reflexivity|]. intros i Hi. fold s in Hi. unfold shift. rewrite (E (t + i)%nat) by lia. apply join_ge. }
  assert (forall x y y1 y2, eqn (a + b) y (join a y1 y2) -> eqo (t + s) (Minus m y x) (join_opt t (Minus m1 y1 x) (Minus m2 y2 (shift a x)))) as MJ.
  { intros x y y1 y2 E. rewrite <- IT. eapply eqo_trans; [apply IMi|]. rewrite IT. apply eqo_join.
    - apply (im_minus_reads _ _ _ _ _ M1); [intros i Hi; reflexivity|]. intros i Hi. fold a in Hi. rewrite (E i) by lia. apply join_lt. exact Hi.
    - apply (im_minus_reads _ _ _ _ _ M2); [intros i Hi; reflexivity|]. intros i Hi. fold b in Hi. unfold shift. rewrite (E (a + i)%nat) by lia. apply join_ge. }
  constructor; rewrite ?IA, ?IT.
  - intros x x' H [O1 O2]. split; [apply (im_on_reads _ _ _ _ _ M1 x); [|exact O1]; apply (eqn_le (a + b)); [lia|exact H]|].
    apply (im_on_reads _ _ _ _ _ M2 (shift a x)); [|exact O2]. apply eqn_shift. exact H.
  - intros x d [O1 O2] [G1 G2]. destruct (im_plus_on _ _ _ _ _ M1 x d O1 G1) as (z1 & E1 & Z1). destruct (im_plus_on _ _ _ _ _ M2 (shift a x) (shift t d) O2 G2) as (z2 & E2 & Z2).
    pose proof (IPl x d) as E. rewrite E1, E2 in E. cbn [join_opt] in E. apply eqo_some in E. destruct E as (z & E & EZ). exists z. split; [exact E|].
    rewrite IA in EZ. apply (ONJ z z1 z2 Z1 Z2 EZ).
  - intros x d [O1 O2] [G1 G2] H. rewrite <- IA. eapply eqo_trans; [apply IPl|]. rewrite IA. eapply eqo_trans; [apply eqo_join|].
    + apply (im_plus_zero _ _ _ _ _ M1 x d O1 G1). apply (eqn_le (t + s)); [lia|exact H].
    + apply (im_plus_zero _ _ _ _ _ M2 (shift a x) (shift t d) O2 G2). intros i Hi. unfold shift. apply (H (t + i)%nat). fold s in Hi. lia.
    + cbn [join_opt eqo]. apply join_eta.
  - intros x y [O1 O2] [G1 G2] [Y1 Y2] [R1 R2]. destruct (im_plus_minus _ _ _ _ _ M1 x y O1 G1 Y1 R1) as (d1 & D1 & P1).
    destruct (im_plus_minus _ _ _ _ _ M2 _ _ O2 G2 Y2 R2) as (d2 & D2 & P2).
    pose proof (IMi y x) as E. rewrite D1, D2 in E. cbn [join_opt] in E. apply eqo_some in E. destruct E as (d & E & ED). exists d. split; [exact E|].
    rewrite IT in ED. eapply eqo_trans; [apply (PJ x d d1 d2 ED)|]. eapply eqo_trans; [apply eqo_join; [exact P1|exact P2]|]. cbn [join_opt eqo]. apply join_eta.
  - intros x d [O1 O2] [G1 G2] [S1 S2]. destruct (im_minus_plus _ _ _ _ _ M1 x d O1 G1 S1) as (z1 & E1 & P1).
    destruct (im_minus_plus _ _ _ _ _ M2 _ _ O2 G2 S2) as (z2 & E2 & P2).
    pose proof (IPl x d) as E. rewrite E1, E2 in E. cbn [join_opt] in E. apply eqo_some in E. destruct E as (z & E & EZ). exists z. split; [exact E|].
    rewrite IA in EZ. eapply eqo_trans; [apply (MJ x z z1 z2 EZ)|]. eapply eqo_trans; [apply eqo_join; [exact P1|exact P2]|]. cbn [join_opt eqo]. apply join_eta.
  - intros x [O1 O2] [G1 G2]. destruct (im_plus_jacobian _ _ _ _ _ M1 x O1 G1) as (J1 & E1 & K1). destruct (im_plus_jacobian _ _ _ _ _ M2 _ O2 G2) as (J2 & E2 & K2).
    pose proof (IPJ x) as E. rewrite E1, E2 in E. cbn [pair_jac] in E. apply eqmo_some in E. destruct E as (J & E & EJ). exists J. split; [exact E|].
    rewrite IA, IT in EJ.
    apply (derivative_ext (a + b) (t + s) (fun d => join_opt a (Plus m1 x d) (Plus m2 (shift a x) (shift t d))) _ x x (block_diag a t J1 J2)).
    + intro h. apply eqo_sym. rewrite <- IA. apply IPl.
    + intros i Hi. reflexivity.
    + intros i j Hi Hj. symmetry. apply EJ; assumption.
    + apply (deriv_block a b t s _ (fun d => Plus m1 x d) (fun d => Plus m2 (shift a x) d)); [reflexivity|exact K1|exact K2].
  - intros x [O1 O2] [G1 G2]. destruct (im_minus_jacobian _ _ _ _ _ M1 x O1 G1) as (J1 & E1 & K1). destruct (im_minus_jacobian _ _ _ _ _ M2 _ O2 G2) as (J2 & E2 & K2).
    pose proof (IMJ x) as E. rewrite E1, E2 in E. cbn [pair_jac] in E. apply eqmo_some in E. destruct E as (J & E & EJ). exists J. split; [exact E|].
    rewrite IA, IT in EJ.
    apply (derivative_ext (t + s) (a + b) (fun h => join_opt t (Minus m1 (fun i => x i + h i) x) (Minus m2 (fun i => shift a x i + shift a h i) (shift a x))) _ zeros zeros (block_diag t a J1 J2)).
    + intro h. apply eqo_sym. rewrite <- IT. apply IMi.
    + intros i Hi. reflexivity.
    + intros i j Hi Hj. symmetry. apply EJ; assumption.
    + apply (deriv_block t s a b _ (fun h => Minus m1 (fun i => x i + h i) x) (fun h => Minus m2 (fun i => shift a x i + h i) (shift a x))); [reflexivity|exact K1|exact K2].
  - intros x [O1 O2] [G1 G2]. destruct (im_inverse _ _ _ _ _ M1 x O1 G1) as (J1 & K1 & EJ1 & EK1 & I1). destruct (im_inverse _ _ _ _ _ M2 _ O2 G2) as (J2 & K2 & EJ2 & EK2 & I2).
    pose proof (IPJ x) as E. rewrite EJ1, EJ2 in E. cbn [pair_jac] in E. apply eqmo_some in E. destruct E as (J & E & EJ).
    pose proof (IMJ x) as F. rewrite EK1, EK2 in F. cbn [pair_jac] in F. apply eqmo_some in F. destruct F as (K & F & EK).
    exists J, K. split; [exact E|]. split; [exact F|]. rewrite IA, IT in EJ, EK. intros r c Hr Hc.
    rewrite <- (block_diag_mmul a b t s K1 K2 J1 J2 I1 I2 r c Hr Hc). unfold mmul. apply sumn_ext. intros j Hj. rewrite (EJ j c Hj Hc), (EK r j Hr Hj). reflexivity.
  - intros x aa rows [O1 O2] [G1 G2]. destruct (im_plus_jacobian _ _ _ _ _ M1 x O1 G1) as (J1 & E1 & K1). destruct (im_plus_jacobian _ _ _ _ _ M2 _ O2 G2) as (J2 & E2 & K2).
    pose proof (IPJ x) as E. rewrite E1, E2 in E. cbn [pair_jac] in E. apply eqmo_some in E. destruct E as (J & E & EJ). exists J.
    rewrite IR, IA, IT. destruct (default_right (a + b) (t + s) (PlusJacobian m) x J aa rows E) as (c & C & K). exists c. split; [exact E|]. split; [exact C|exact K].
  - intros x x' d d' Hx Hd. rewrite <- IA. eapply eqo_trans; [apply IPl|]. eapply eqo_trans; [|apply eqo_sym; apply IPl]. rewrite IA. apply eqo_join.
    + apply (im_plus_reads _ _ _ _ _ M1); [apply (eqn_le (a + b)); [lia|exact Hx]|apply (eqn_le (t + s)); [lia|exact Hd]].
    + apply (im_plus_reads _ _ _ _ _ M2); apply eqn_shift; assumption.
  - intros x x' y y' Hx Hy. rewrite <- IT. eapply eqo_trans; [apply IMi|]. eapply eqo_trans; [|apply eqo_sym; apply IMi]. rewrite IT. apply eqo_join.
    + apply (im_minus_reads _ _ _ _ _ M1); apply (eqn_le (a + b)); try assumption; lia.
    + apply (im_minus_reads _ _ _ _ _ M2); apply eqn_shift; assumption.
Qed.

(* ---------------- the list ---------------- *)
Definition sizes (f : manifold -> nat) (ms : list manifold) : nat := fold_right (fun m n => f m + n)%nat 0%nat ms.
Lemma fold_left_sizes f ms n : fold_left (fun n m => n + f m)%nat ms n = (n + sizes f ms)%nat.
Proof. revert n. induction ms as [|m ms IH]; intro n; cbn [fold_left sizes fold_right]; [lia|]. rewrite IH. unfold sizes. lia. Qed.

Lemma blit_join a n z out i : (i < a + n)%nat -> blit a n z out i = join a out z i.
Proof.
  intro H. unfold blit, join. destruct (Nat.ltb_spec i a), (Nat.leb_spec a i), (Nat.ltb_spec i (a + n)); cbn [andb]; try lia; reflexivity.
Qed.

Lemma product_plus_general ms : forall ao to x d out,
  eqo (ao + sizes AmbientSize ms) (product_plus ms ao to x d out)
    (join_opt ao (Some out) (product_plus ms 0 0 (shift ao x) (shift to d) zeros)).
Proof.
  induction ms as [|m ms IH]; intros ao to x d out; cbn [product_plus sizes fold_right].
  - cbn [join_opt eqo]. intros i Hi. rewrite join_lt by lia. reflexivity.
  - change (shift 0 (shift ao x)) with (shift ao x). change (shift 0 (shift to d)) with (shift to d).
    destruct (Plus m (shift ao x) (shift to d)) as [z|]; [|exact I].
    pose proof (IH (ao + AmbientSize m)%nat (to + TangentSize m)%nat x d (blit ao (AmbientSize m) z out)) as E1.
    pose proof (IH (0 + AmbientSize m)%nat (0 + TangentSize m)%nat (shift ao x) (shift to d) (blit 0 (AmbientSize m) z zeros)) as E2.
    rewrite !shift_shift in E2. cbn [Nat.add] in E2. cbn [Nat.add].
    destruct (product_plus ms 0 0 (shift (ao + AmbientSize m) x) (shift (to + TangentSize m) d) zeros) as [w|];
      cbn [join_opt] in E1, E2; [apply eqo_some in E1, E2|];
      [|destruct (product_plus ms (ao + AmbientSize m) _ x d _); [destruct E1|]; destruct (product_plus ms (AmbientSize m) _ _ _ _); [destruct E2|]; exact I].
    destruct E1 as (w1 & -> & E1). destruct E2 as (w2 & -> & E2). cbn [join_opt eqo].
    fold (sizes AmbientSize ms). intros i Hi. rewrite E1 by lia. destruct (Nat.lt_ge_cases i ao) as [L|L].
    + rewrite (join_lt ao) by exact L. rewrite join_lt by lia. rewrite blit_join, join_lt by lia. reflexivity.
    + replace i with (ao + (i - ao))%nat by lia. rewrite join_ge. rewrite E2 by lia. destruct (Nat.lt_ge_cases (i - ao) (AmbientSize m)) as [L'|L'].
      * rewrite (join_lt (AmbientSize m)) by exact L'. rewrite join_lt by lia. rewrite !blit_join by lia. rewrite join_ge. unfold join. rewrite Nat.sub_0_r. reflexivity.
      * replace (ao + (i - ao))%nat with (ao + AmbientSize m + (i - ao - AmbientSize m))%nat by lia. rewrite join_ge.
        replace (i - ao)%nat with (AmbientSize m + (i - ao - AmbientSize m))%nat at 2 by lia. rewrite join_ge. reflexivity.
Qed.
Lemma product_minus_general ms : forall ao to y x out,
  eqo (to + sizes TangentSize ms) (product_minus ms ao to y x out)
    (join_opt to (Some out) (product_minus ms 0 0 (shift ao y) (shift ao x) zeros)).
Proof.
  induction ms as [|m ms IH]; intros ao to y x out; cbn [product_minus sizes fold_right].
  - cbn [join_opt eqo]. intros i Hi. rewrite join_lt by lia. reflexivity.
  - change (shift 0 (shift ao x)) with (shift ao x). change (shift 0 (shift ao y)) with (shift ao y).
    destruct (Minus m (shift ao y) (shift ao x)) as [z|]; [|exact I].
    pose proof (IH (ao + AmbientSize m)%nat (to + TangentSize m)%nat y x (blit to (TangentSize m) z out)) as E1.
    pose proof (IH (0 + AmbientSize m)%nat (0 + TangentSize m)%nat (shift ao y) (shift ao x) (blit 0 (TangentSize m) z zeros)) as E2.
    rewrite !shift_shift in E2. cbn [Nat.add] in E2. cbn [Nat.add].
    destruct (product_minus ms 0 0 (shift (ao + AmbientSize m) y) (shift (ao + AmbientSize m) x) zeros) as [w|];
      cbn [join_opt] in E1, E2; [apply eqo_some in E1, E2|];
      [|destruct (product_minus ms (ao + AmbientSize m) _ _ _ _); [destruct E1|]; destruct (product_minus ms (AmbientSize m) _ _ _ _); [destruct E2|]; exact I].
    destruct E1 as (w1 & -> & E1). destruct E2 as (w2 & -> & E2). cbn [join_opt eqo].
    fold (sizes TangentSize ms). intros i Hi. rewrite E1 by lia. destruct (Nat.lt_ge_cases i to) as [L|L].
    + rewrite (join_lt to) by exact L. rewrite join_lt by lia. rewrite blit_join, join_lt by lia. reflexivity.
    + replace i with (to + (i - to))%nat by lia. rewrite join_ge. rewrite E2 by lia. destruct (Nat.lt_ge_cases (i - to) (TangentSize m)) as [L'|L'].
      * rewrite (join_lt (TangentSize m)) by exact L'. rewrite join_lt by lia. rewrite !blit_join by lia. rewrite join_ge. unfold join. rewrite Nat.sub_0_r. reflexivity.
      * replace (to + (i - to))%nat with (to + TangentSize m + (i - to - TangentSize m))%nat by lia. rewrite join_ge.
        replace (i - to)%nat with (TangentSize m + (i - to - TangentSize m))%nat at 2 by lia. rewrite join_ge. reflexivity.
Qed.

(* the matrix built by the loop: j outside the blocks, the product of the rest inside *)
Definition over (r0 c0 : nat) (j w : mat) (rows cols : nat) : mat :=
  fun r c => if (Nat.leb r0 r && Nat.leb c0 c)%bool then w (r - r0)%nat (c - c0)%nat else j r c.
Definition blank (r0 c0 : nat) (j : mat) : Prop := forall r c, (r0 <= r \/ c0 <= c)%nat -> j r c = 0.
Definition over_opt (r0 c0 : nat) (j : mat) (w : option mat) : option mat :=
  match w with Some w => Some (over r0 c0 j w 0 0) | None => None end.
Definition eqm_all (a b : option mat) : Prop :=
  match a, b with Some x, Some y => forall r c, x r c = y r c | None, None => True | _, _ => False end.
Lemma blank_set r0 c0 rows cols b j : blank r0 c0 j -> blank (r0 + rows) (c0 + cols) (set_block r0 c0 rows cols b j).
Proof.
  intros B r c H. unfold set_block. destruct (Nat.leb_spec r0 r), (Nat.ltb_spec r (r0 + rows)), (Nat.leb_spec c0 c), (Nat.ltb_spec c (c0 + cols)); cbn [andb]; try lia; apply B; lia.
Qed.
Lemma over_set r0 c0 rows cols b j w : blank r0 c0 j -> forall r c,
  over (r0 + rows) (c0 + cols) (set_block r0 c0 rows cols b j) w 0 0 r c =
  over r0 c0 j (over rows cols (set_block 0 0 rows cols b (fun _ _ => 0)) w 0 0) 0 0 r c.
Proof.
  intros B r c. unfold over, set_block.
  destruct (Nat.leb_spec r0 r), (Nat.leb_spec c0 c); cbn [andb].
  - replace (0 + rows)%nat with rows by lia. replace (0 + cols)%nat with cols by lia. cbn [Nat.leb andb].
    destruct (Nat.leb_spec (r0 + rows) r), (Nat.leb_spec rows (r - r0)); try lia; destruct (Nat.leb_spec (c0 + cols) c), (Nat.leb_spec cols (c - c0)); try lia; cbn [andb].
    + f_equal; lia.
    + destruct (Nat.ltb_spec r (r0 + rows)); [lia|]. destruct (Nat.ltb_spec (r - r0) rows); [lia|]. cbn [andb]. apply B. lia.
    + destruct (Nat.ltb_spec r (r0 + rows)); [|lia]. destruct (Nat.ltb_spec (r - r0) rows); [|lia]. destruct (Nat.ltb_spec c (c0 + cols)); [lia|]. destruct (Nat.ltb_spec (c - c0) cols); [lia|]. cbn [andb]. apply B. lia.
    + destruct (Nat.ltb_spec r (r0 + rows)); [|lia]. destruct (Nat.ltb_spec (r - r0) rows); [|lia]. destruct (Nat.ltb_spec c (c0 + cols)); [|lia]. destruct (Nat.ltb_spec (c - c0) cols); [|lia]. cbn [andb]. f_equal; lia.
  - destruct (Nat.leb_spec (c0 + cols) c); [lia|]. rewrite !andb_false_r. cbn [andb]. destruct (Nat.ltb r (r0 + rows)); reflexivity.
  - destruct (Nat.leb_spec (r0 + rows) r); [lia|]. cbn [andb]. reflexivity.
  - destruct (Nat.leb_spec (r0 + rows) r); [lia|]. cbn [andb]. reflexivity.
Qed.
Lemma product_plus_jacobian_general ms : forall ao to x j, blank ao to j ->
  eqm_all (product_plus_jacobian ms ao to x j) (over_opt ao to j (product_plus_jacobian ms 0 0 (shift ao x) (fun _ _ => 0))).
Proof.
  induction ms as [|m ms IH]; intros ao to x j B; cbn [product_plus_jacobian].
  - cbn [over_opt eqm_all]. intros r c. unfold over. destruct (Nat.leb_spec ao r), (Nat.leb_spec to c); cbn [andb]; try reflexivity. apply B. lia.
  - change (shift 0 (shift ao x)) with (shift ao x). destruct (PlusJacobian m (shift ao x)) as [b|]; [|exact I].
    pose proof (IH (ao + AmbientSize m)%nat (to + TangentSize m)%nat x _ (blank_set ao to (AmbientSize m) (TangentSize m) b j B)) as E1.
    pose proof (IH (0 + AmbientSize m)%nat (0 + TangentSize m)%nat (shift ao x) (set_block 0 0 (AmbientSize m) (TangentSize m) b (fun _ _ => 0)) (blank_set 0 0 (AmbientSize m) (TangentSize m) b (fun _ _ => 0) (fun _ _ _ => eq_refl))) as E2.
    rewrite !shift_shift in E2. cbn [Nat.add] in E2. cbn [Nat.add].
    destruct (product_plus_jacobian ms 0 0 (shift (ao + AmbientSize m) x) (fun _ _ => 0)) as [w|]; cbn [over_opt] in E1, E2.
    + destruct (product_plus_jacobian ms (ao + AmbientSize m) _ _ _) as [w1|]; [|destruct E1]. destruct (product_plus_jacobian ms (AmbientSize m) _ _ _) as [w2|]; [|destruct E2].
      cbn [over_opt eqm_all] in *. intros r c. rewrite E1, over_set by exact B. unfold over at 1 3. destruct (_ && _)%bool; [|reflexivity]. rewrite E2. reflexivity.
    + destruct (product_plus_jacobian ms (ao + AmbientSize m) _ _ _) as [w1|]; [destruct E1|]. destruct (product_plus_jacobian ms (AmbientSize m) _ _ _) as [w2|]; [destruct E2|]. exact I.
Qed.
Lemma product_minus_jacobian_general ms : forall ao to x j, blank to ao j ->
  eqm_all (product_minus_jacobian ms ao to x j) (over_opt to ao j (product_minus_jacobian ms 0 0 (shift ao x) (fun _ _ => 0))).
Proof.
  induction ms as [|m ms IH]; intros ao to x j B; cbn [product_minus_jacobian].
  - cbn [over_opt eqm_all]. intros r c. unfold over. destruct (Nat.leb_spec to r), (Nat.leb_spec ao c); cbn [andb]; try reflexivity. apply B. lia.
  - change (shift 0 (shift ao x)) with (shift ao x). destruct (MinusJacobian m (shift ao x)) as [b|]; [|exact I].
    pose proof (IH (ao + AmbientSize m)%nat (to + TangentSize m)%nat x _ (blank_set to ao (TangentSize m) (AmbientSize m) b j B)) as E1.
    pose proof (IH (0 + AmbientSize m)%nat (0 + TangentSize m)%nat (shift ao x) (set_block 0 0 (TangentSize m) (AmbientSize m) b (fun _ _ => 0)) (blank_set 0 0 (TangentSize m) (AmbientSize m) b (fun _ _ => 0) (fun _ _ _ => eq_refl))) as E2.
    rewrite !shift_shift in E2. cbn [Nat.add] in E2. cbn [Nat.add].
    destruct (product_minus_jacobian ms 0 0 (shift (ao + AmbientSize m) x) (fun _ _ => 0)) as [w|]; cbn [over_opt] in E1, E2.
    + destruct (product_minus_jacobian ms (ao + AmbientSize m) _ _ _) as [w1|]; [|destruct E1]. destruct (product_minus_jacobian ms (AmbientSize m) _ _ _) as [w2|]; [|destruct E2].
      cbn [over_opt eqm_all] in *. intros r c. rewrite E1, over_set by exact B. unfold over at 1 3. destruct (_ && _)%bool; [|reflexivity]. rewrite E2. reflexivity.
    + destruct (product_minus_jacobian ms (ao + AmbientSize m) _ _ _) as [w1|]; [destruct E1|]. destruct (product_minus_jacobian ms (AmbientSize m) _ _ _) as [w2|]; [destruct E2|]. exact I.
Qed.

Lemma over_block r0 c0 b w r c : over r0 c0 (set_block 0 0 r0 c0 b (fun _ _ => 0)) w 0 0 r c = block_diag r0 c0 b w r c.
Proof.
  unfold over, set_block, block_diag. cbn [Nat.leb andb Nat.add].
  destruct (Nat.leb_spec r0 r), (Nat.leb_spec c0 c), (Nat.ltb_spec r r0), (Nat.ltb_spec c c0); cbn [andb]; try lia; rewrite ?Nat.sub_0_r; reflexivity.
Qed.
Lemma product_is_pair m ms : is_pair (ProductManifold (m :: ms)) m (ProductManifold ms).
Proof.
  constructor; cbn [ProductManifold AmbientSize TangentSize Plus PlusJacobian Minus MinusJacobian RightMultiplyByPlusJacobian fold_left];
    try (rewrite !fold_left_sizes; lia).
  - intros x d. rewrite fold_left_sizes. cbn [product_plus Nat.add]. change (shift 0 x) with x. change (shift 0 d) with d.
    destruct (Plus m x d) as [z|]; [|exact I]. eapply eqo_trans; [apply product_plus_general|]. apply eqo_join; [|apply eqo_refl].
    cbn [eqo]. intros i Hi. rewrite blit_join by lia. unfold join. rewrite Nat.sub_0_r. reflexivity.
  - intros y x. rewrite fold_left_sizes. cbn [product_minus Nat.add]. change (shift 0 x) with x. change (shift 0 y) with y.
    destruct (Minus m y x) as [z|]; [|exact I]. eapply eqo_trans; [apply product_minus_general|]. apply eqo_join; [|apply eqo_refl].
    cbn [eqo]. intros i Hi. rewrite blit_join by lia. unfold join. rewrite Nat.sub_0_r. reflexivity.
  - intro x. cbn [product_plus_jacobian Nat.add]. change (shift 0 x) with x. destruct (PlusJacobian m x) as [b|]; [|exact I].
    pose proof (product_plus_jacobian_general ms (0 + AmbientSize m) (0 + TangentSize m) x _ (blank_set 0 0 (AmbientSize m) (TangentSize m) b (fun _ _ => 0) (fun _ _ _ => eq_refl))) as E. cbn [Nat.add] in E.
    destruct (product_plus_jacobian ms (AmbientSize m) _ _ _) as [w1|], (product_plus_jacobian ms 0 0 (shift (AmbientSize m) x) (fun _ _ => 0)) as [w|]; cbn in E |- *; try tauto.
    intros i j Hi Hj. rewrite E. apply over_block.
  - intro x. cbn [product_minus_jacobian Nat.add]. change (shift 0 x) with x. destruct (MinusJacobian m x) as [b|]; [|exact I].
    pose proof (product_minus_jacobian_general ms (0 + AmbientSize m) (0 + TangentSize m) x _ (blank_set 0 0 (TangentSize m) (AmbientSize m) b (fun _ _ => 0) (fun _ _ _ => eq_refl))) as E. cbn [Nat.add] in E.
    destruct (product_minus_jacobian ms (AmbientSize m) _ _ _) as [w1|], (product_minus_jacobian ms 0 0 (shift (AmbientSize m) x) (fun _ _ => 0)) as [w|]; cbn in E |- *; try tauto.
    intros i j Hi Hj. rewrite E. apply over_block.
  - reflexivity.
Qed.

Lemma product_is_manifold fs : (forall f, In f fs -> is_factor f) ->
  is_manifold (ProductManifold (map f_m fs)) (prod_pred f_on AmbientSize fs) (prod_pred f_regular AmbientSize fs)
    (prod_pred2 f_reach fs) (prod_pred f_small TangentSize fs).
Proof.
  induction fs as [|f fs IH]; intro H.
  - constructor; cbn [map ProductManifold AmbientSize TangentSize Plus PlusJacobian Minus MinusJacobian RightMultiplyByPlusJacobian fold_left
      product_plus product_minus product_plus_jacobian product_minus_jacobian prod_pred prod_pred2].
    + auto.
    + intros. eexists. split; [reflexivity|exact I].
    + intros. intros i Hi. lia.
    + intros. eexists. split; [reflexivity|]. intros i Hi. lia.
    + intros. eexists. split; [reflexivity|]. intros i Hi. lia.
    + intros. eexists. split; [reflexivity|]. intros eps He. exists 1. split; [lra|]. intros. eexists. split; [reflexivity|]. intros i Hi. lia.
    + intros. eexists. split; [reflexivity|]. intros eps He. exists 1. split; [lra|]. intros. eexists. split; [reflexivity|]. intros i Hi. lia.
    + intros. eexists. eexists. split; [reflexivity|]. split; [reflexivity|]. intros i j Hi. lia.
    + intros. eexists. eexists. split; [reflexivity|]. split; [reflexivity|]. intros i j Hi Hj. lia.
    + intros. intros i Hi. lia.
    + intros. intros i Hi. lia.
  - pose proof (H f (or_introl eq_refl)) as Ff. pose proof (IH (fun g Hg => H g (or_intror Hg))) as Fr.
    exact (pair_is_manifold _ _ _ _ _ _ _ _ _ _ _ (product_is_pair (f_m f) (map f_m fs)) Ff Fr).
Qed.
