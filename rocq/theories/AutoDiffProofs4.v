(* The passes of the dynamic cost function, and the number of them. *)
From Coq Require Import Reals List ZArith Bool Lia Lra.
From Flocq Require Import Core.
From Verif Require Import JetModel JetSpec AutoDiffModel AutoDiffSpec AutoDiffProofs AutoDiffProofs2 AutoDiffProofs3.
Import ListNotations.
Local Open Scope nat_scope.

Section Passes.
Variables (c : bool) (f : functor) (stride : nat) (starts sizes : list nat) (x : nat -> num) (js0 : list jacobian).
Hypothesis Hstride : 0 < stride.
Hypothesis Hlen : length js0 = length sizes.
Hypothesis HU : functor_uses (total sizes) f.
Let sl := slots 0 sizes js0.
Let M := length (f_out f).
Let D := deriv c f x.

Lemma sl_length : length sl = total sizes.
Proof. apply slots_length, Hlen. Qed.

Lemma pass_deriv base env :
  (forall i s, nth_error sl i = Some s -> seeded_at sl stride x base env i s) ->
  forall i s r, nth_error sl i = Some s -> s_active s = true -> r < M ->
    base <= rk sl i -> rk sl i < base + stride ->
    jv (nth r (map (jeval c env) (f_out f)) jet_default) (rk sl i - base) = D r i.
Proof.
  intros H i s r Hs A Hr L1 L2. unfold D, deriv. rewrite !(nth_map_in _ _ _ (Const R0)) by exact Hr.
  apply (jeval_agree c (total sizes)).
  - destruct HU as [U _]. rewrite Forall_forall in U. apply U, nth_In, Hr.
  - intros j Hj. destruct (nth_error sl j) as [t|] eqn:Et.
    2:{ apply nth_error_None in Et. rewrite sl_length in Et. lia. }
    destruct (H j t Et) as [V W]. split; [exact V|]. rewrite W. unfold jvar. cbn [jv].
    destruct (Nat.ltb_spec (rk sl i - base) stride); [|lia]. rewrite andb_true_r.
    destruct (Nat.eqb_spec i j) as [<-|Hne].
    + rewrite Hs in Et. injection Et as <-. rewrite A. cbn [andb].
      destruct (Nat.eqb_spec (rk sl i) (base + (rk sl i - base))); [reflexivity|lia].
    + destruct (s_active t) eqn:At; [|reflexivity]. cbn [andb].
      destruct (Nat.eqb_spec (rk sl j) (base + (rk sl i - base))); [|reflexivity].
      exfalso. apply Hne. apply (rk_inj sl _ _ _ _ Hs A Et At). lia.
Qed.

Lemma passes_spec n : forall q sec cur base env res js,
  q <= length sl -> St starts sl q sec cur -> rk sl q = base -> filled sl sizes js0 M D base js ->
  match passes c f stride starts sizes x sl n sec cur env res js, run_doubles f x with
  | ReturnsFalse, None => 0 < n
  | ReturnsTrue r' js', None => n = 0 /\ r' = res /\ js' = js
  | ReturnsTrue r' js', Some r =>
      r' = (if n =? 0 then res else r) /\
      filled sl sizes js0 M D (Nat.min (base + n * stride) (rk sl (length sl))) js'
  | _, _ => False
  end.
Proof.
  induction n as [|n IH]; intros q sec cur base env res js Hq HS HR HF.
  - cbn [passes]. destruct (run_doubles f x) as [r|].
    + split; [reflexivity|]. rewrite Nat.min_l; [replace (base + 0 * stride) with base by lia; exact HF|].
      pose proof (rk_mono sl q (length sl) Hq). lia.
    + split; [reflexivity|split; reflexivity].
  - cbn [passes].
    assert (Ready starts sl stride 0 q base (mkps sec cur 0)) as R.
    { split; [exact Hq|]. split; [exact HS|]. cbn [ps_count]. split; [lia|]. left. lia. }
    destruct (seed_spec starts sl stride Hstride x sl 0 q base (mkps sec cur 0) env eq_refl R) as (st1 & env' & E1 & _ & S1).
    rewrite E1. assert (forall i s, nth_error sl i = Some s -> seeded_at sl stride x base env' i s) as S2.
    { intros i s Hs. apply S1; [lia|exact Hs]. }
    destruct (run_jets_doubles c (total sizes) f env' x HU) as [J1 J2].
    { intros i Hi. destruct (nth_error sl i) as [s|] eqn:Es.
      - apply (S2 i s Es).
      - apply nth_error_None in Es. rewrite sl_length in Es. lia. }
    rewrite J1. destruct (run_doubles f x) as [r|] eqn:ER; [|lia].
    rewrite map_length. fold M.
    destruct (copy_spec starts sl stride Hstride sizes js0 M D eq_refl Hlen
                (fun i => nth i (map (jeval c env') (f_out f)) jet_default) base sl 0 q (mkps sec cur 0) js eq_refl R)
      as (st' & js' & q' & E2 & Q1 & Q2 & Q3 & Q4 & Q5 & Q6).
    { cbn [ps_count]. rewrite Nat.add_0_r. exact HF. }
    { exact (pass_deriv base env' S2). }
    rewrite E2. specialize (IH q' (ps_section st') (ps_cursor st') (base + ps_count st') env'
      (if n =? 0 then map ja (map (jeval c env') (f_out f)) else res) js' Q1 Q2 Q3 Q6).
    destruct (passes _ _ _ _ _ _ _ _ _ _ _ _ _); try contradiction. destruct IH as [I1 I2]. split.
    + rewrite I1. cbn [Nat.eqb]. destruct (Nat.eqb_spec n 0); [apply J2; reflexivity|reflexivity].
    + replace (Nat.min (base + S n * stride) (rk sl (length sl))) with
        (Nat.min (base + ps_count st' + n * stride) (rk sl (length sl))); [exact I2|].
      pose proof (rk_mono sl q' (length sl) Q1). destruct Q5 as [Q5|Q5].
      * rewrite Q5. f_equal. lia.
      * subst q'. rewrite !Nat.min_r by lia. reflexivity.
Qed.

Lemma filled_0 : filled sl sizes js0 M D 0 js0.
Proof.
  split; [reflexivity|]. intros b n Hb. destruct (nth_error js0 b) as [[d|]|]; [|reflexivity|exact I].
  exists d. split; [reflexivity|]. intro i. rewrite (proj2 (Nat.ltb_ge _ 0)) by lia. rewrite andb_false_r. reflexivity.
Qed.

Lemma filled_fills js : filled sl sizes js0 M D (rk sl (length sl)) js -> fills sizes M D js0 js.
Proof.
  intros [F1 F2]. split; [exact F1|]. intros b n Hb. specialize (F2 b n Hb).
  destruct (nth_error js0 b) as [[d|]|] eqn:Ej; [|exact F2|exact I].
  destruct F2 as (d' & E & F). exists d'. split; [exact E|]. split.
  - intros r k Hr Hk. rewrite F. destruct (Nat.ltb_spec (r * n + k) (M * n)); [|nia]. cbn [andb].
    rewrite <- (Nat.mod_unique (r * n + k) n r k) by lia. rewrite <- (Nat.div_unique (r * n + k) n r k) by lia.
    pose proof (slots_at sizes 0 js0 b n k (Some d) Hb Ej Hk) as Ha.
    destruct (Nat.ltb_spec (rk sl (offset sizes b + k)) (rk sl (length sl))) as [L|L]; [reflexivity|].
    exfalso. pose proof (rk_lt sl _ (length sl) _ Ha eq_refl) as X.
    assert (offset sizes b + k < length sl) as Y by (rewrite sl_length; apply (offset_total sizes b n k Hb Hk)).
    specialize (X Y). lia.
  - intros i Hi. rewrite F. destruct (Nat.ltb_spec i (M * n)); [lia|reflexivity].
Qed.
End Passes.

(* ---------------- num_strides ---------------- *)

Local Open Scope R_scope.

#[local] Instance prec24 : Prec_gt_0 24 := eq_refl.

Lemma f32_mono a b : a <= b -> f32 a <= f32 b.
Proof. intro H. unfold f32. apply round_le; [apply FLT_exp_valid; reflexivity|apply valid_rnd_N|exact H]. Qed.

Lemma f32_int (n : Z) : (Z.abs n <= 2 ^ 24)%Z -> f32 (IZR n) = IZR n.
Proof.
  intro H. unfold f32. apply round_generic; [apply valid_rnd_N|].
  destruct (Z.eq_dec (Z.abs n) (2 ^ 24)) as [E|E].
  - assert (generic_format radix2 (FLT_exp (-149) 24) (bpow radix2 24)) as G.
    { apply generic_format_bpow. unfold FLT_exp. cbn. lia. }
    assert (bpow radix2 24 = IZR (2 ^ 24)) as B by reflexivity. rewrite B in G.
    destruct (Z.abs_eq_or_opp n) as [X|X].
    + rewrite <- E, X in G. exact G.
    + replace n with (- 2 ^ 24)%Z by lia. rewrite opp_IZR. apply generic_format_opp. exact G.
  - apply generic_format_FLT. exists (Float radix2 n 0).
    + unfold F2R. cbn. ring.
    + cbn [Fnum]. change (radix2 ^ 24)%Z with (2 ^ 24)%Z. lia.
    + cbn. lia.
Qed.

Lemma f32_bpow_m24 : f32 (bpow radix2 (-24)) = bpow radix2 (-24).
Proof.
  unfold f32. apply round_generic; [apply valid_rnd_N|]. apply generic_format_bpow. unfold FLT_exp. cbn. lia.
Qed.

Lemma num_strides_Z (a s : Z) : (0 < a <= 2 ^ 24)%Z -> (0 < s <= 2 ^ 24)%Z ->
  Zceil (f32 (f32 (IZR a) / f32 (IZR s))) = Zceil (IZR a / IZR s).
Proof.
  intros Ha Hs. rewrite !f32_int by lia.
  assert (0 < IZR a) as Pa by (apply IZR_lt; lia). assert (0 < IZR s) as Ps by (apply IZR_lt; lia).
  set (x := IZR a / IZR s).
  assert (IZR a = x * IZR s) as Ex by (unfold x; field; lra).
  assert (0 < x) as Px by (apply Rdiv_lt_0_compat; assumption).
  assert (x <= IZR a) as Ux.
  { rewrite Ex. assert (1 <= IZR s) by (apply IZR_le; lia). nra. }
  set (m := Zceil x). assert (x <= IZR m) as U by apply Zceil_ub.
  assert (IZR (m - 1) < x) as L.
  { pose proof (Zceil_lb x). fold m in H. rewrite minus_IZR. lra. }
  assert (m <= a)%Z as Lm. { apply Zceil_glb. exact Ux. }
  assert (0 < m)%Z as Pm. { apply lt_IZR. apply Rlt_le_trans with x; assumption. }
  symmetry. apply eq_sym, Zceil_imp. split.
  2:{ rewrite <- (f32_int m) by lia. apply f32_mono. exact U. }
  destruct (Z.eq_dec m 1) as [->|Hm1].
  - apply Rlt_le_trans with (bpow radix2 (-24)); [apply (bpow_gt_0 radix2)|]. rewrite <- f32_bpow_m24. apply f32_mono.
    unfold x. apply Rmult_le_reg_r with (IZR s); [exact Ps|].
    replace (IZR a / IZR s * IZR s) with (IZR a) by (field; lra).
    apply Rle_trans with 1; [|apply (IZR_le 1); lia].
    apply Rle_trans with (bpow radix2 (-24) * IZR (2 ^ 24)).
    + apply Rmult_le_compat_l; [apply bpow_ge_0|]. apply IZR_le. lia.
    + change (IZR (2 ^ 24)) with (bpow radix2 24). rewrite <- bpow_plus. cbn. lra.
  - assert (IZR (m - 1) <= f32 x) as L1.
    { rewrite <- (f32_int (m - 1)) by lia. apply f32_mono. lra. }
    destruct (Rle_lt_or_eq_dec _ _ L1) as [Q|Q]; [exact Q|exfalso].
    pose proof (@error_le_half_ulp_round radix2 (FLT_exp (-149) 24) (FLT_exp_valid (-149) 24) _ (fun t => negb (Z.even t)) x) as HE.
    fold (f32 x) in HE. rewrite <- Q in HE.
    assert (1 <= IZR (m - 1)) as P1 by (apply (IZR_le 1); lia).
    assert (ulp radix2 (FLT_exp (-149) 24) (IZR (m - 1)) <= Rabs (IZR (m - 1)) * bpow radix2 (1 - 24)) as HU.
    { apply ulp_FLT_le. rewrite Rabs_pos_eq by lra. apply Rle_trans with (bpow radix2 0); [|exact P1].
      apply bpow_le. lia. }
    rewrite Rabs_pos_eq in HU by lra.
    rewrite Rabs_left in HE by lra.
    assert (bpow radix2 (1 - 24) = 2 / IZR (2 ^ 24)) as B.
    { change (IZR (2 ^ 24)) with (bpow radix2 24). apply Rmult_eq_reg_r with (bpow radix2 24); [|apply Rgt_not_eq, bpow_gt_0].
      rewrite <- bpow_plus. cbn. field. }
    rewrite B in HU.
    (* s * (m - 1) < a, so x - (m - 1) >= 1 / s *)
    assert (s * (m - 1) + 1 <= a)%Z as I.
    {
      assert (s * (m - 1) < a)%Z; [|lia]. apply lt_IZR. rewrite mult_IZR, Ex, (Rmult_comm x). apply Rmult_lt_compat_l; assumption. }
    assert (IZR (s * (m - 1)) < IZR (2 ^ 24)) as J by (apply IZR_lt; lia).
    apply IZR_le in I. rewrite plus_IZR, mult_IZR in I.
    rewrite mult_IZR in J.
    set (T := IZR (2 ^ 24)) in *. assert (0 < T) as PT by (apply IZR_lt; reflexivity).
    set (w := IZR (m - 1)) in *. set (S := IZR s) in *.
    assert (x - w <= w / T) as K.
    { replace (w * (2 / T)) with (2 * (w / T)) in HU by (field; lra). lra. }
    assert ((x - w) * S >= 1) as K1 by nra.
    assert (w / T * S < 1) as K2.
    { replace (w / T * S) with (S * w / T) by (field; lra). apply Rmult_lt_reg_r with T; [exact PT|].
      replace (S * w / T * T) with (S * w) by (field; lra). lra. }
    assert ((x - w) * S <= w / T * S) by (apply Rmult_le_compat_r; lra). lra.
Qed.

Lemma ceil_div (a s : Z) : (0 < s)%Z -> (0 < a)%Z ->
  let k := Zceil (IZR a / IZR s) in (0 < k)%Z /\ (a <= k * s)%Z.
Proof.
  intros Hs Ha k. assert (0 < IZR s) as Ps by (apply IZR_lt; lia).
  assert (IZR a / IZR s <= IZR k) as U by apply Zceil_ub.
  assert (a <= k * s)%Z as L.
  { apply le_IZR. rewrite mult_IZR. apply Rmult_le_compat_r with (r := IZR s) in U; [|lra].
    replace (IZR a / IZR s * IZR s) with (IZR a) in U by (field; lra). exact U. }
  split; [nia|exact L].
Qed.

Lemma num_strides_enough (a s : nat) :
  (0 < a)%nat -> (Z.of_nat a <= 2 ^ 24)%Z -> (0 < s)%nat -> (Z.of_nat s <= 2 ^ 24)%Z ->
  (0 < num_strides a s /\ a <= num_strides a s * s)%nat.
Proof.
  intros Ha Ua Hs Us. unfold num_strides. rewrite !INR_IZR_INZ, num_strides_Z by lia.
  destruct (ceil_div (Z.of_nat a) (Z.of_nat s)) as [K1 K2]; try lia.
Qed.
