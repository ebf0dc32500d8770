(* The subset manifold. *)
From Coq Require Import Reals List Arith Lia Lra Psatz Bool ZArith Permutation.
From Verif Require Import RotationModel RotationSpec RotationProofs RotationProofs4 ManifoldModel ManifoldSpec ManifoldProofs ManifoldProofs2.
Import ListNotations.
Open Scope R_scope.

(* the number of free indices before r *)
Fixpoint rank (mask : list bool) (r : nat) : nat :=
  match r, mask with
  | S r', b :: m => ((if b then 0 else 1) + rank m r')%nat
  | _, _ => 0%nat
  end.
Definition free (mask : list bool) (i : nat) : Prop := nth i mask true = false.
Lemma free_lt mask i : free mask i -> (i < length mask)%nat.
Proof. intro H. destruct (Nat.lt_ge_cases i (length mask)) as [L|L]; [exact L|]. unfold free in H. rewrite nth_overflow in H by exact L. discriminate. Qed.
Lemma free_S b m i : free (b :: m) (S i) <-> free m i.
Proof. reflexivity. Qed.

Lemma rank_mono mask : forall i j, (i < j)%nat -> free mask i -> (rank mask i < rank mask j)%nat.
Proof.
  induction mask as [|b m IH]; intros i j L F; [destruct i; discriminate|].
  destruct j as [|j]; [lia|]. destruct i as [|i].
  - unfold free in F. cbn in F. subst b. cbn [rank]. lia.
  - cbn [rank]. apply free_S in F. pose proof (IH i j ltac:(lia) F). destruct b; lia.
Qed.
Lemma rank_inj mask i j : free mask i -> free mask j -> rank mask i = rank mask j -> i = j.
Proof.
  intros Fi Fj E. destruct (Nat.lt_trichotomy i j) as [L|[L|L]]; [|exact L|].
  - pose proof (rank_mono mask i j L Fi). lia.
  - pose proof (rank_mono mask j i L Fj). lia.
Qed.
Lemma rank_surj mask : forall j, (j < rank mask (length mask))%nat -> exists i, free mask i /\ rank mask i = j.
Proof.
  induction mask as [|b m IH]; intros j L; [cbn in L; lia|]. cbn [length rank] in L. destruct b.
  - destruct (IH j ltac:(lia)) as (i & F & E). exists (S i). split; [exact F|]. cbn [rank]. lia.
  - destruct j as [|j]; [exists 0%nat; split; reflexivity|]. destruct (IH j ltac:(lia)) as (i & F & E). exists (S i). split; [exact F|]. cbn [rank]. lia.
Qed.

Lemma subset_plus_spec mask : forall i0 j0 x d out i,
  subset_plus mask i0 j0 x d out i =
    if (Nat.leb i0 i && Nat.ltb i (i0 + length mask))%bool
    then if nth (i - i0) mask true then x i else x i + d (j0 + rank mask (i - i0))%nat else out i.
Proof.
  induction mask as [|b m IH]; intros i0 j0 x d out i; cbn [subset_plus length].
  - destruct (Nat.leb_spec i0 i), (Nat.ltb_spec i (i0 + 0)); cbn [andb]; try lia; reflexivity.
  - assert (forall (q : arr) v k, (if b then subset_plus m (S i0) k x d (upd q i0 v) i else subset_plus m (S i0) k x d (upd q i0 v) i) = subset_plus m (S i0) k x d (upd q i0 v) i) as _ by (destruct b; reflexivity).
    destruct (Nat.lt_trichotomy i i0) as [L|[L|L]].
    + destruct b; rewrite IH; destruct (Nat.leb_spec (S i0) i), (Nat.leb_spec i0 i); try lia; cbn [andb]; unfold upd; destruct (Nat.eqb_spec i i0); try lia; reflexivity.
    + subst i. rewrite Nat.sub_diag. cbn [nth rank]. destruct b; rewrite IH; destruct (Nat.leb_spec (S i0) i0), (Nat.leb_spec i0 i0), (Nat.ltb_spec i0 (i0 + S (length m))); try lia; cbn [andb]; unfold upd; rewrite Nat.eqb_refl; [reflexivity|]; rewrite Nat.add_0_r; reflexivity.
    + replace (i - i0)%nat with (S (i - S i0)) by lia. cbn [nth rank].
      destruct b; rewrite IH; destruct (Nat.leb_spec (S i0) i), (Nat.leb_spec i0 i); try lia; cbn [andb]; replace (i0 + S (length m))%nat with (S i0 + length m)%nat by lia;
        unfold upd; destruct (Nat.eqb_spec i i0); try lia; destruct (Nat.ltb i (S i0 + length m)); try reflexivity; cbn [Nat.add]; replace (j0 + S (rank m (i - S i0)))%nat with (S (j0 + rank m (i - S i0))) by lia; reflexivity.
Qed.

Lemma subset_minus_keep mask : forall i0 j0 y x out j, (j < j0)%nat -> subset_minus mask i0 j0 y x out j = out j.
Proof.
  induction mask as [|b m IH]; intros i0 j0 y x out j L; cbn [subset_minus]; [reflexivity|].
  destruct b; rewrite IH by lia; [reflexivity|]. unfold upd. destruct (Nat.eqb_spec j j0); [lia|reflexivity].
Qed.
Lemma subset_minus_spec mask : forall i0 j0 y x out i, free mask i ->
  subset_minus mask i0 j0 y x out (j0 + rank mask i)%nat = y (i0 + i)%nat - x (i0 + i)%nat.
Proof.
  induction mask as [|b m IH]; intros i0 j0 y x out i F; [destruct i; discriminate|]. cbn [subset_minus]. destruct i as [|i].
  - unfold free in F. cbn in F. subst b. cbn [rank]. rewrite subset_minus_keep by lia. rewrite !Nat.add_0_r. unfold upd. rewrite Nat.eqb_refl. reflexivity.
  - apply free_S in F. cbn [rank]. destruct b.
    + cbn [Nat.add]. rewrite (IH (S i0) j0 y x out i F). replace (i0 + S i)%nat with (S i0 + i)%nat by lia. reflexivity.
    + replace (j0 + (1 + rank m i))%nat with (S j0 + rank m i)%nat by lia. rewrite (IH (S i0) (S j0) y x _ i F).
      replace (i0 + S i)%nat with (S i0 + i)%nat by lia. reflexivity.
Qed.
Lemma subset_right_keep mask : forall i0 j0 row out j, (j < j0)%nat -> subset_right mask i0 j0 row out j = out j.
Proof.
  induction mask as [|b m IH]; intros i0 j0 row out j L; cbn [subset_right]; [reflexivity|].
  destruct b; rewrite IH by lia; [reflexivity|]. unfold upd. destruct (Nat.eqb_spec j j0); [lia|reflexivity].
Qed.
Lemma subset_right_spec mask : forall i0 j0 row out i, free mask i ->
  subset_right mask i0 j0 row out (j0 + rank mask i)%nat = row (i0 + i)%nat.
Proof.
  induction mask as [|b m IH]; intros i0 j0 row out i F; [destruct i; discriminate|]. cbn [subset_right]. destruct i as [|i].
  - unfold free in F. cbn in F. subst b. cbn [rank]. rewrite subset_right_keep by lia. rewrite !Nat.add_0_r. unfold upd. rewrite Nat.eqb_refl. reflexivity.
  - apply free_S in F. cbn [rank]. destruct b.
    + cbn [Nat.add]. rewrite (IH (S i0) j0 row out i F). replace (i0 + S i)%nat with (S i0 + i)%nat by lia. reflexivity.
    + replace (j0 + (1 + rank m i))%nat with (S j0 + rank m i)%nat by lia. rewrite (IH (S i0) (S j0) row _ i F).
      replace (i0 + S i)%nat with (S i0 + i)%nat by lia. reflexivity.
Qed.
(* where the loops of the Jacobians store a one *)
Definition hit (mask : list bool) (i0 j0 i j : nat) : bool :=
  (Nat.leb i0 i && negb (nth (i - i0) mask true) && Nat.eqb j (j0 + rank mask (i - i0)))%bool.
Lemma hit_cons b m i0 j0 i j : hit (b :: m) i0 j0 i j =
  if b then hit m (S i0) j0 i j else ((Nat.eqb i i0 && Nat.eqb j j0) || hit m (S i0) (S j0) i j)%bool.
Proof.
  unfold hit. destruct (Nat.lt_trichotomy i i0) as [L|[L|L]].
  - destruct (Nat.leb_spec i0 i); [lia|]. destruct (Nat.leb_spec (S i0) i); [lia|]. destruct (Nat.eqb_spec i i0); [lia|]. destruct b; reflexivity.
  - subst i. rewrite Nat.sub_diag, Nat.leb_refl, Nat.eqb_refl. destruct (Nat.leb_spec (S i0) i0); [lia|]. cbn [nth rank]. destruct b; cbn [negb andb orb]; [reflexivity|].
    rewrite Nat.add_0_r. rewrite orb_false_r. reflexivity.
  - destruct (Nat.leb_spec i0 i); [|lia]. destruct (Nat.leb_spec (S i0) i); [|lia]. destruct (Nat.eqb_spec i i0); [lia|].
    replace (i - i0)%nat with (S (i - S i0)) by lia. cbn [nth rank andb orb]. destruct b; cbn [Nat.add]; [reflexivity|].
    replace (j0 + S (rank m (i - S i0)))%nat with (S (j0 + rank m (i - S i0))) by lia. reflexivity.
Qed.
Lemma subset_plus_jacobian_spec mask : forall r0 c0 m r c,
  subset_plus_jacobian mask r0 c0 m r c = if hit mask r0 c0 r c then 1 else m r c.
Proof.
  induction mask as [|b k IH]; intros r0 c0 m r c; cbn [subset_plus_jacobian].
  - unfold hit. replace (nth (r - r0) [] true) with true by (destruct (r - r0)%nat; reflexivity). cbn [negb]. rewrite andb_false_r. reflexivity.
  - rewrite hit_cons. destruct b; rewrite IH; [reflexivity|]. destruct (hit k (S r0) (S c0) r c); [rewrite orb_true_r; reflexivity|]. rewrite orb_false_r. reflexivity.
Qed.
Lemma subset_minus_jacobian_spec mask : forall c0 r0 m r c,
  subset_minus_jacobian mask c0 r0 m r c = if hit mask c0 r0 c r then 1 else m r c.
Proof.
  induction mask as [|b k IH]; intros c0 r0 m r c; cbn [subset_minus_jacobian].
  - unfold hit. replace (nth (c - c0) [] true) with true by (destruct (c - c0)%nat; reflexivity). cbn [negb]. rewrite andb_false_r. reflexivity.
  - rewrite hit_cons. destruct b; rewrite IH; [reflexivity|]. destruct (hit k (S c0) (S r0) c r); [rewrite orb_true_r; reflexivity|]. rewrite orb_false_r.
    rewrite (andb_comm (Nat.eqb c c0)). reflexivity.
Qed.
Lemma hit_0 mask i j : hit mask 0 0 i j = true <-> free mask i /\ j = rank mask i.
Proof.
  unfold hit, free. cbn [Nat.leb andb Nat.add]. rewrite Nat.sub_0_r, andb_true_iff, negb_true_iff, Nat.eqb_eq. tauto.
Qed.

Section Subset.
Variable n : nat.
Variable mask : list bool.
Hypothesis LM : length mask = n.
Let t := rank mask (length mask).
Let J : mat := subset_plus_jacobian mask 0 0 (fun _ _ => 0).
Let K : mat := subset_minus_jacobian mask 0 0 (fun _ _ => 0).
Lemma rank_bound i : free mask i -> (rank mask i < t)%nat.
Proof. intro F. apply rank_mono; [apply free_lt; exact F|exact F]. Qed.
Lemma J_free i c : free mask i -> J i c = identity (rank mask i) c.
Proof.
  intro F. unfold J. rewrite subset_plus_jacobian_spec. unfold identity. destruct (hit mask 0 0 i c) eqn:E.
  - apply hit_0 in E. destruct E as [_ ->]. rewrite Nat.eqb_refl. reflexivity.
  - destruct (Nat.eqb_spec (rank mask i) c); [|reflexivity]. assert (hit mask 0 0 i c = true) by (apply hit_0; auto). congruence.
Qed.
Lemma J_const i c : ~ free mask i -> J i c = 0.
Proof. intro F. unfold J. rewrite subset_plus_jacobian_spec. destruct (hit mask 0 0 i c) eqn:E; [apply hit_0 in E; tauto|reflexivity]. Qed.
Lemma K_at i c : free mask i -> K (rank mask i) c = identity i c.
Proof.
  intro F. unfold K. rewrite subset_minus_jacobian_spec. unfold identity. destruct (hit mask 0 0 c (rank mask i)) eqn:E.
  - apply hit_0 in E. destruct E as [Fc E]. rewrite (rank_inj mask i c F Fc E), Nat.eqb_refl. reflexivity.
  - destruct (Nat.eqb_spec i c) as [->|]; [|reflexivity]. assert (hit mask 0 0 c (rank mask c) = true) by (apply hit_0; auto). congruence.
Qed.
Lemma plus_free x d i : free mask i -> subset_plus mask 0 0 x d zeros i = x i + d (rank mask i).
Proof.
  intro F. rewrite subset_plus_spec. pose proof (free_lt mask i F). cbn [Nat.leb andb Nat.add]. destruct (Nat.ltb_spec i (length mask)); [|lia].
  rewrite Nat.sub_0_r. unfold free in F. rewrite F. reflexivity.
Qed.
Lemma plus_const x d i : (i < n)%nat -> ~ free mask i -> subset_plus mask 0 0 x d zeros i = x i.
Proof.
  intros L F. rewrite subset_plus_spec. cbn [Nat.leb andb Nat.add]. destruct (Nat.ltb_spec i (length mask)); [|lia].
  rewrite Nat.sub_0_r. unfold free in F. destruct (nth i mask true); [reflexivity|congruence].
Qed.
Lemma minus_at y x i : free mask i -> subset_minus mask 0 0 y x zeros (rank mask i) = y i - x i.
Proof. apply (subset_minus_spec mask 0 0). Qed.
Lemma right_at row i : free mask i -> subset_right mask 0 0 row zeros (rank mask i) = row i.
Proof. apply (subset_right_spec mask 0 0). Qed.
Lemma free_dec i : free mask i \/ ~ free mask i.
Proof. unfold free. destruct (nth i mask true); [right; discriminate|left; reflexivity]. Qed.
Lemma inverse_at : eqm t t (mmul n K J) identity.
Proof.
  intros r c Hr Hc. destruct (rank_surj mask r Hr) as (i & F & <-). unfold mmul.
  rewrite (sumn_ext n _ (fun j => identity i j * J j c)) by (intros; rewrite K_at by exact F; reflexivity).
  rewrite sumn_identity_l by (rewrite <- LM; apply free_lt; exact F). apply J_free. exact F.
Qed.
Lemma mvec_J h i : (i < n)%nat -> mvec t J h i = if nth i mask true then 0 else h (rank mask i).
Proof.
  intro Hi. unfold mvec. destruct (nth i mask true) eqn:E.
  - rewrite (sumn_ext t _ (fun _ => 0)), sumn_zero; [reflexivity|]. intros. rewrite J_const by (unfold free; congruence). ring.
  - rewrite (sumn_ext t _ (fun j => identity (rank mask i) j * h j)) by (intros; rewrite J_free by exact E; reflexivity).
    apply sumn_identity_l. apply rank_bound. exact E.
Qed.
Lemma mvec_K h i : free mask i -> mvec n K h (rank mask i) = h i.
Proof.
  intro F. unfold mvec. rewrite (sumn_ext n _ (fun j => identity i j * h j)) by (intros; rewrite K_at by exact F; reflexivity).
  apply sumn_identity_l. rewrite <- LM. apply free_lt. exact F.
Qed.
Lemma mmul_J a r i : free mask i -> mmul n a J r (rank mask i) = a r i.
Proof.
  intro F. unfold mmul. rewrite (sumn_single n _ i).
  - rewrite J_free by exact F. unfold identity. rewrite Nat.eqb_refl. ring.
  - rewrite <- LM. apply free_lt. exact F.
  - intros j Hj N. destruct (free_dec j) as [Fj|Fj]; [|rewrite J_const by exact Fj; ring]. rewrite J_free by exact Fj. unfold identity.
    destruct (Nat.eqb_spec (rank mask j) (rank mask i)) as [E|E]; [|ring]. apply rank_inj in E; [lia|assumption|assumption].
Qed.
End Subset.

(* the mask of a vector of constant indices *)
Lemma mask_length n constant : length (constancy_mask n constant) = n.
Proof. unfold constancy_mask. rewrite map_length, seq_length. reflexivity. Qed.
Lemma mask_free n constant i : (i < n)%nat -> (free (constancy_mask n constant) i <-> ~ In (Z.of_nat i) constant).
Proof.
  intro L. unfold free, constancy_mask.
  rewrite (nth_indep _ true ((fun i => existsb (Z.eqb (Z.of_nat i)) constant) 0%nat)) by (rewrite map_length, seq_length; exact L).
  rewrite (map_nth (fun i => existsb (Z.eqb (Z.of_nat i)) constant)), seq_nth by exact L. cbn [Nat.add].
  rewrite <- not_true_iff_false, existsb_exists. split.
  - intros H C. apply H. exists (Z.of_nat i). split; [exact C|apply Z.eqb_refl].
  - intros H (z & Hz & E). apply Z.eqb_eq in E. subst z. exact (H Hz).
Qed.
Lemma subset_checks_ok size constant : subset_checks size constant = true ->
  (forall c, In c constant -> (0 <= c < Z.of_nat size)%Z) /\ NoDup constant.
Proof.
  unfold subset_checks. rewrite andb_true_iff. intros [H1 H2]. split.
  - rewrite forallb_forall in H1. intros c Hc. specialize (H1 c Hc). rewrite andb_true_iff, Z.leb_le, Z.ltb_lt in H1. exact H1.
  - clear H1. induction constant as [|c r IH]; [constructor|]. rewrite andb_true_iff, negb_true_iff in H2. destruct H2 as [H2 H3]. constructor; [|apply IH; exact H3].
    intro C. assert (existsb (Z.eqb c) r = true) by (apply existsb_exists; exists c; split; [exact C|apply Z.eqb_refl]). congruence.
Qed.
Lemma rank_count (p : nat -> bool) len s : (rank (map p (seq s len)) len + length (filter p (seq s len)) = len)%nat.
Proof.
  revert s. induction len as [|len IH]; intro s; [reflexivity|]. cbn [seq map rank filter]. specialize (IH (S s)). destruct (p s); cbn [length]; lia.
Qed.
Lemma rank_total n constant : subset_checks n constant = true ->
  rank (constancy_mask n constant) (length (constancy_mask n constant)) = (n - length constant)%nat /\ (length constant <= n)%nat.
Proof.
  intro H. apply subset_checks_ok in H. destruct H as [R ND]. rewrite mask_length. unfold constancy_mask.
  pose proof (rank_count (fun i => existsb (Z.eqb (Z.of_nat i)) constant) n 0) as C.
  assert (length (filter (fun i => existsb (Z.eqb (Z.of_nat i)) constant) (seq 0 n)) = length constant) as E; [|split; lia].
  rewrite <- (map_length Z.to_nat constant). apply Permutation_length. apply NoDup_Permutation.
  - apply NoDup_filter, seq_NoDup.
  - clear C. induction ND as [|c r Nc ND' IH]; [constructor|]. cbn [map]. constructor; [|apply IH; intros; apply R; right; assumption].
    intro C. apply in_map_iff in C. destruct C as (c' & E & C'). assert (c' = c); [|subst; contradiction].
    pose proof (R c (or_introl eq_refl)). pose proof (R c' (or_intror C')). lia.
  - intro i. rewrite filter_In, in_seq, existsb_exists, in_map_iff. split.
    + intros [_ (z & Hz & E)]. apply Z.eqb_eq in E. exists z. subst z. split; [apply Nat2Z.id|exact Hz].
    + intros (z & E & Hz). pose proof (R z Hz). split; [lia|]. exists z. split; [exact Hz|]. apply Z.eqb_eq. lia.
Qed.

Lemma subset_is_manifold n constant m : SubsetManifold n constant = Some m ->
  AmbientSize m = n /\ TangentSize m = (n - length constant)%nat /\
  is_manifold m always always (constant_equal n constant) always /\
  forall x d z i, Plus m x d = Some z -> (i < n)%nat -> In (Z.of_nat i) constant -> z i = x i.
Proof.
  unfold SubsetManifold. destruct (subset_checks n constant) eqn:C; [|discriminate]. cbn [negb]. intro E. injection E as <-.
  destruct (rank_total n constant C) as [RT LE]. set (mask := constancy_mask n constant) in *. assert (length mask = n) as LM by apply mask_length.
  cbn [AmbientSize TangentSize]. split; [reflexivity|]. split; [reflexivity|].
  assert (forall i, (i < n)%nat -> In (Z.of_nat i) constant -> ~ free mask i) as CF.
  { intros i Hi I F. apply (mask_free n constant i Hi) in F. contradiction. }
  split.
  2:{ cbn [Plus]. intros x d z i Ez Hi I. injection Ez as <-. apply (plus_const n mask LM); [exact Hi|apply CF; assumption]. }
  set (t := (n - length constant)%nat) in *.
  assert (forall y x j, (j < t)%nat -> exists i, free mask i /\ rank mask i = j /\ (i < n)%nat /\
    (if Nat.eqb t 0 then zeros else subset_minus mask 0 0 y x zeros) j = y i - x i) as MI.
  { intros y x j Hj. rewrite <- RT in Hj. destruct (rank_surj mask j Hj) as (i & F & <-). exists i. rewrite RT in Hj. destruct (Nat.eqb_spec t 0); [lia|].
    split; [exact F|]. split; [reflexivity|]. split; [rewrite <- LM; apply free_lt; exact F|]. apply minus_at. exact F. }
  assert (forall x h i, (i < n)%nat -> subset_plus mask 0 0 x h zeros i - x i = mvec t (subset_plus_jacobian mask 0 0 (fun _ _ => 0)) h i) as PL.
  { intros x h i Hi. rewrite <- RT. rewrite (mvec_J n mask h i Hi). destruct (nth i mask true) eqn:Em.
    - rewrite (plus_const n mask LM) by (try exact Hi; unfold free; congruence). ring.
    - rewrite (plus_free n mask LM) by exact Em. ring. }
  assert (exists PJ, (if Nat.eqb t 0 then (fun _ _ : nat => 0) else subset_plus_jacobian mask 0 0 (fun _ _ => 0)) = PJ /\ eqm n t PJ (subset_plus_jacobian mask 0 0 (fun _ _ => 0))) as (PJ & EPJ & HPJ).
  { eexists. split; [reflexivity|]. intros i j Hi Hj. destruct (Nat.eqb_spec t 0); [lia|reflexivity]. }
  constructor; cbn [AmbientSize TangentSize Plus PlusJacobian Minus MinusJacobian RightMultiplyByPlusJacobian]; unfold always; rewrite ?EPJ; auto.
  - intros x d _ _. eexists. split; [reflexivity|exact I].
  - intros x d _ _ H. intros i Hi. assert (subset_plus mask 0 0 x d zeros i - x i = 0) as Q; [|lra]. rewrite (PL x d i Hi).
    rewrite (mvec_ext t _ d zeros H). unfold mvec, zeros. rewrite (sumn_ext t _ (fun _ => 0)), sumn_zero by (intros; ring). reflexivity.
  - intros x y _ _ _ R. eexists. split; [reflexivity|]. intros i Hi. destruct (free_dec mask i) as [F|F].
    + rewrite (plus_free n mask LM) by exact F. pose proof (rank_bound mask i F) as RB. rewrite RT in RB. destruct (Nat.eqb_spec t 0); [lia|].
      rewrite minus_at by exact F. ring.
    + rewrite (plus_const n mask LM) by assumption. symmetry. apply R; [exact Hi|].
      destruct (in_dec Z.eq_dec (Z.of_nat i) constant) as [A|A]; [exact A|]. exfalso. apply F. apply (mask_free n constant i Hi). exact A.
  - intros x d _ _ _. eexists. split; [reflexivity|]. intros j Hj. destruct (MI (subset_plus mask 0 0 x d zeros) x j Hj) as (i & F & Er & Hi & ->).
    rewrite (plus_free n mask LM) by exact F. rewrite Er. ring.
  - intros x _ _. eexists. split; [reflexivity|]. intros eps He. exists 1. split; [lra|]. intros h Hh. eexists. split; [reflexivity|].
    intros i Hi. assert (mvec t PJ h i = mvec t (subset_plus_jacobian mask 0 0 (fun _ _ => 0)) h i) as ->.
    { apply sumn_ext. intros j Hj. rewrite (HPJ i j Hi Hj). reflexivity. }
    rewrite <- (PL x h i Hi). replace (subset_plus mask 0 0 x h zeros i - x i - (subset_plus mask 0 0 x h zeros i - x i)) with 0 by ring.
    rewrite Rabs_R0. pose proof (norm_nonneg t h). nra.
  - intros x _ _. eexists. split; [reflexivity|]. intros eps He. exists 1. split; [lra|]. intros h Hh. eexists. split; [reflexivity|].
    intros j Hj. destruct (MI (fun i => x i + h i) x j Hj) as (i & F & Er & Hi & ->). rewrite <- Er, (mvec_K n mask LM h i F).
    unfold zeros. replace (x i + h i - x i - 0 - h i) with 0 by ring. rewrite Rabs_R0. pose proof (norm_nonneg n h). nra.
  - intros x _ _. eexists. eexists. split; [reflexivity|]. split; [reflexivity|]. intros r c Hr Hc.
    assert (mmul n (subset_minus_jacobian mask 0 0 (fun _ _ => 0)) PJ r c = mmul n (subset_minus_jacobian mask 0 0 (fun _ _ => 0)) (subset_plus_jacobian mask 0 0 (fun _ _ => 0)) r c) as ->.
    { apply sumn_ext. intros j Hj. rewrite (HPJ j c Hj Hc). reflexivity. }
    apply (inverse_at n mask LM); rewrite RT; assumption.
  - intros x a rows _ _. eexists. eexists. split; [reflexivity|]. split; [reflexivity|]. intros r c Hr Hc.
    assert (mmul n a PJ r c = mmul n a (subset_plus_jacobian mask 0 0 (fun _ _ => 0)) r c) as ->.
    { apply sumn_ext. intros j Hj. rewrite (HPJ j c Hj Hc). reflexivity. }
    destruct (Nat.eqb_spec t 0); [lia|]. rewrite <- RT in Hc. destruct (rank_surj mask c Hc) as (i & F & <-).
    rewrite right_at by exact F. symmetry. apply (mmul_J n mask LM). exact F.
  - intros x x' d d' Hx Hd. intros i Hi. destruct (free_dec mask i) as [F|F].
    + rewrite !(plus_free n mask LM) by exact F. rewrite (Hx i Hi), (Hd (rank mask i)); [reflexivity|]. rewrite <- RT. apply rank_bound. exact F.
    + rewrite !(plus_const n mask LM) by assumption. apply Hx. exact Hi.
  - intros x x' y y' Hx Hy. intros j Hj. destruct (MI y x j Hj) as (i & F & Er & Hi & ->). destruct (MI y' x' j Hj) as (i' & F' & Er' & Hi' & ->).
    assert (i' = i) as -> by (apply (rank_inj mask); [exact F'|exact F|congruence]). rewrite (Hx i Hi), (Hy i Hi). reflexivity.
Qed.

Lemma subset_accepts n constant : (exists m, SubsetManifold n constant = Some m) <->
  (forall c, In c constant -> (0 <= c < Z.of_nat n)%Z) /\ NoDup constant.
Proof.
  unfold SubsetManifold. split.
  - intros [m E]. destruct (subset_checks n constant) eqn:C; [|discriminate]. apply subset_checks_ok. exact C.
  - intros [R ND]. assert (subset_checks n constant = true) as ->; [|eexists; reflexivity]. unfold subset_checks. rewrite andb_true_iff. split.
    + apply forallb_forall. intros c Hc. rewrite andb_true_iff, Z.leb_le, Z.ltb_lt. apply R. exact Hc.
    + clear R. induction ND as [|c r Nc ND' IH]; [reflexivity|]. rewrite andb_true_iff. split; [|exact IH].
      rewrite negb_true_iff, <- not_true_iff_false, existsb_exists. intros (z & Hz & E). apply Z.eqb_eq in E. subst z. contradiction.
Qed.
