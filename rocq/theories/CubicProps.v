(* C50: cubic and bicubic interpolation *)
From Coq Require Import Reals List ZArith Lia Lra Psatz Bool.
From Coquelicot Require Import Coquelicot.
From Verif Require Import CubicModel CubicSpec CubicProofs CubicProofs2.
Import ListNotations.
Open Scope R_scope.

Ltac in_range := split; unfold INT_MIN, INT_MAX; try lra.

(* Evaluate is defined exactly when the four indices around x fit in an int. *)
Theorem cubic_defined grid x : (forall n, grid n <> None) -> (Evaluate1D grid x <> None <-> representable x).
Proof.
  intro G. split.
  - intros H. destruct (classic_representable x) as [R|R]; [exact R|]. exfalso. apply H. apply eval_none. exact R.
  - intro R. rewrite (eval_some grid (fun n => match grid n with Some v => v | None => 0 end)); [discriminate| |exact R].
    intro n. specialize (G n). destruct (grid n); [reflexivity|contradiction].
Qed.
Print Assumptions cubic_defined.

(* The samples are reproduced, with central differences as slopes. *)
Theorem cubic_interpolates grid F k : (forall n, grid n = Some (F n)) -> (INT_MIN < k /\ k + 2 <= INT_MAX)%Z ->
  Evaluate1D grid (IZR k) = Some (F k, (F (k + 1)%Z - F (k - 1)%Z) / 2).
Proof.
  intros G K. rewrite (eval_some grid F) by (try assumption; apply representable_floor; rewrite floor_IZR; lia). rewrite V_at, D_at. reflexivity.
Qed.
Print Assumptions cubic_interpolates.

(* The slope returned is the derivative of the value returned, also at the samples, and
   it is continuous: the interpolant is continuously differentiable. *)
Theorem cubic_derivative grid F x : (forall n, grid n = Some (F n)) -> inside x ->
  is_derive (fun t => value1 (Evaluate1D grid t)) x (slope1 (Evaluate1D grid x)) /\
  continuous (fun t => slope1 (Evaluate1D grid t)) x.
Proof.
  intros G I. pose proof (inside_locally x I) as L. rewrite (eval_some grid F x G (inside_representable x I)). cbn [slope1]. split.
  - eapply is_derive_ext_loc; [|apply (V_derive F)]. eapply filter_imp; [|exact L]. cbv beta. intros y R. rewrite (eval_some grid F y G R). reflexivity.
  - eapply continuous_ext_loc; [|apply (D_cont F)]. eapply filter_imp; [|exact L]. cbv beta. intros y R. rewrite (eval_some grid F y G R). reflexivity.
Qed.
Print Assumptions cubic_derivative.

(* Where the four samples around x come from a polynomial of degree at most two, the
   polynomial and its derivative are returned. *)
Theorem cubic_quadratic grid F a b c x : (forall n, grid n = Some (F n)) -> representable x ->
  (forall m, Rabs (IZR m - x) <= 2 -> F m = a * IZR m * IZR m + b * IZR m + c) ->
  Evaluate1D grid x = Some (a * x * x + b * x + c, 2 * a * x + b).
Proof.
  intros G R Q. rewrite (eval_some grid F) by assumption. destruct (quadratic F a b c x) as [-> ->]; [|reflexivity].
  intros m [L U]. apply Q. apply IZR_le in L, U. rewrite minus_IZR in L. rewrite plus_IZR in U. pose proof (floor_spec x). apply Rabs_le. lra.
Qed.
Print Assumptions cubic_quadratic.

(* Overshoot: the value exceeds the samples around x by at most a quarter. *)
Theorem cubic_bounded grid F M x : (forall n, grid n = Some (F n)) -> representable x ->
  (forall m, Rabs (IZR m - x) <= 2 -> Rabs (F m) <= M) -> Rabs (value1 (Evaluate1D grid x)) <= 5 / 4 * M.
Proof.
  intros G R Q. rewrite (eval_some grid F) by assumption. cbn [value1]. apply V_bound.
  intros m [L U]. apply Q. apply IZR_le in L, U. rewrite minus_IZR in L. rewrite plus_IZR in U. pose proof (floor_spec x). apply Rabs_le. lra.
Qed.
Print Assumptions cubic_bounded.
(* the bound is attained *)
Example cubic_bounded_tight : exists grid F, (forall n, grid n = Some (F n)) /\ (forall m, Rabs (F m) <= 1) /\ value1 (Evaluate1D grid (/ 2)) = 5 / 4.
Proof.
  exists (fun n => Some (if ((n =? 0) || (n =? 1))%Z then 1 else -1)), (fun n => if ((n =? 0) || (n =? 1))%Z then 1 else -1).
  split; [reflexivity|]. split. { intro m. destruct ((m =? 0) || (m =? 1))%Z; [rewrite Rabs_R1; lra|]. rewrite Rabs_left by lra. lra. }
  assert (Int_part (/ 2) = 0%Z) as E by (apply floor_unique; lra).
  rewrite (eval_some _ (fun n => if ((n =? 0) || (n =? 1))%Z then 1 else -1)); [|reflexivity|unfold representable; in_range].
  cbn [value1]. unfold V. rewrite E. unfold piece, CubicHermiteSpline. cbn [fst Z.eqb Z.add orb]. cbn. lra.
Qed.

(* Grid1D and Grid2D: component i at the position nearest to the one asked for, in all
   layouts; no access outside the array. *)
Theorem grid1D_layout (F : Z -> Z -> R) b n d (inter : bool) k i m : (0 < n)%nat -> (0 <= i < Z.of_nat d)%Z -> nearest b (b + Z.of_nat n) k m ->
  exists g, MakeGrid1D (if inter then interleaved F b n d else stacked F b n d) b (b + Z.of_nat n) (Z.of_nat d) inter = Some g /\
            GetValue1D g k i = Some (F m i).
Proof.
  intros N I Ne. unfold MakeGrid1D at 1. destruct (Z.ltb_spec b (b + Z.of_nat n)); [|lia]. eexists. split; [reflexivity|].
  apply (grid1_value F b n d inter _ k i m N); [|exact I|exact Ne]. unfold MakeGrid1D. destruct (Z.ltb_spec b (b + Z.of_nat n)); [reflexivity|lia].
Qed.
Print Assumptions grid1D_layout.
Theorem grid2D_layout (F : Z -> Z -> Z -> R) rb nr cb nc d (rm inter : bool) r c i mr mc : (0 < nr)%nat -> (0 < nc)%nat -> (0 <= i < Z.of_nat d)%Z ->
  nearest rb (rb + Z.of_nat nr) r mr -> nearest cb (cb + Z.of_nat nc) c mc ->
  exists g, MakeGrid2D (if inter then interleaved2D F (points rm rb nr cb nc) d else stacked2D F (points rm rb nr cb nc) d)
              rb (rb + Z.of_nat nr) cb (cb + Z.of_nat nc) (Z.of_nat d) rm inter = Some g /\
            GetValue2D g r c i = Some (F mr mc i).
Proof.
  intros Nr Nc I Er Ec.
  destruct (MakeGrid2D (if inter then interleaved2D F (points rm rb nr cb nc) d else stacked2D F (points rm rb nr cb nc) d)
              rb (rb + Z.of_nat nr) cb (cb + Z.of_nat nc) (Z.of_nat d) rm inter) as [g|] eqn:M.
  - exists g. split; [reflexivity|]. exact (grid2_value F rb nr cb nc d rm inter g r c i mr mc Nr Nc M I Er Ec).
  - exfalso. unfold MakeGrid2D in M. destruct (Z.leb_spec 1 (Z.of_nat d)); [|lia]. destruct (Z.ltb_spec rb (rb + Z.of_nat nr)); [|lia].
    destruct (Z.ltb_spec cb (cb + Z.of_nat nc)); [|lia]. discriminate.
Qed.
Print Assumptions grid2D_layout.
Example grid1D_case : exists g, MakeGrid1D [1; 5; 10; 2; 10; 5] 0 3 2 true = Some g /\ GetValue1D g 1 0 = Some 10 /\ GetValue1D g 7 1 = Some 5 /\ GetValue1D g (-4) 0 = Some 1.
Proof. eexists. repeat split. Qed.
Example grid2D_case : exists g, MakeGrid2D [1; 2; 3; 4; 5; 6] 0 2 0 3 1 true false = Some g /\ GetValue2D g 1 1 0 = Some 5 /\ GetValue2D g 9 (-1) 0 = Some 4.
Proof. eexists. repeat split. Qed.

(* Grid1D: beyond the data the interpolant is constant. *)
Theorem grid1D_constant_outside (F : Z -> Z -> R) b n d (inter : bool) g i x : (0 < n)%nat -> (0 <= i < Z.of_nat d)%Z -> representable x ->
  MakeGrid1D (if inter then interleaved F b n d else stacked F b n d) b (b + Z.of_nat n) (Z.of_nat d) inter = Some g ->
  (x <= IZR b - 1 -> Evaluate1D (fun k => GetValue1D g k i) x = Some (F b i, 0)) /\
  (IZR b + INR n <= x -> Evaluate1D (fun k => GetValue1D g k i) x = Some (F (b + Z.of_nat n - 1)%Z i, 0)).
Proof.
  intros N I R M. set (G := fun k => F (clamp k b (b + Z.of_nat n - 1)) i).
  assert (forall k, GetValue1D g k i = Some (G k)) as E by (intro k; apply (grid1_value F b n d inter g k i _ N M I); apply clamp_nearest; lia).
  rewrite (eval_some _ G x E R). pose proof (floor_spec x) as FS. split; intro H.
  - assert (forall k, (k <= b)%Z -> G k = F b i) as K. { intros k Hk. unfold G, clamp. destruct (Z.ltb_spec k b); [reflexivity|]. replace k with b by lia. destruct (Z.ltb_spec (b + Z.of_nat n - 1) b); [lia|reflexivity]. }
    assert (Int_part x <= b - 1)%Z as B by (apply le_IZR; rewrite minus_IZR; lra). destruct (Z.eq_dec (Int_part x) (b - 1)) as [Q|Q].
    + assert (x = IZR (b - 1)) as -> by (rewrite minus_IZR; rewrite Q, minus_IZR in FS; lra). rewrite V_at, D_at. rewrite !K by lia. f_equal. f_equal. lra.
    + destruct (quadratic G 0 0 (F b i) x) as [-> ->]; [intros m Hm; rewrite K by lia; ring|]. f_equal. f_equal; ring.
  - assert (forall k, (b + Z.of_nat n - 1 <= k)%Z -> G k = F (b + Z.of_nat n - 1)%Z i) as K.
    { intros k Hk. unfold G, clamp. destruct (Z.ltb_spec k b); [lia|]. destruct (Z.ltb_spec (b + Z.of_nat n - 1) k); [reflexivity|]. f_equal; lia. }
    assert (b + Z.of_nat n <= Int_part x)%Z as B. { rewrite INR_IZR_INZ, <- plus_IZR in H. assert (IZR (b + Z.of_nat n) < IZR (Int_part x + 1)) as C by (rewrite (plus_IZR (Int_part x)); lra). apply lt_IZR in C. lia. }
    destruct (quadratic G 0 0 (F (b + Z.of_nat n - 1)%Z i) x) as [-> ->]; [intros m Hm; rewrite K by lia; ring|]. f_equal. f_equal; ring.
Qed.
Print Assumptions grid1D_constant_outside.

(* Evaluate for Jets: the chain rule.  If the argument moves along a curve with the Jet's
   j-th infinitesimal part as derivative, the j-th infinitesimal part of the result is
   the derivative of the interpolated value. *)
Theorem cubic_jet grid F xa xv : (forall n, grid n = Some (F n)) -> inside xa ->
  exists f v, Evaluate1DJet grid xa xv = Some (f, v) /\ f = value1 (Evaluate1D grid xa) /\
    forall j (x : R -> R) t, x t = xa -> is_derive x t (xv j) -> is_derive (fun s => value1 (Evaluate1D grid (x s))) t (v j).
Proof.
  intros G I. pose proof (eval_some grid F xa G (inside_representable xa I)) as E. unfold Evaluate1DJet. rewrite E. cbn [bind fst snd].
  eexists. eexists. split; [reflexivity|]. split; [reflexivity|]. intros j x t Ex Dx.
  destruct (cubic_derivative grid F xa G I) as [Dv _]. rewrite E in Dv. cbn [slope1] in Dv. rewrite <- Ex in Dv |- *.
  rewrite Rmult_comm. exact (is_derive_comp (fun y => value1 (Evaluate1D grid y)) x t _ _ Dv Dx).
Qed.
Print Assumptions cubic_jet.

Lemma near2 (r c : R) : inside r -> inside c -> locally ((r, c) : R * R) (fun q : R * R => representable (fst q) /\ representable (snd q)).
Proof.
  intros Ir Ic. apply filter_and; [apply (locally_fst representable (r, c))|apply (locally_snd representable (r, c))]; apply inside_locally; assumption.
Qed.

(* two dimensions *)
Theorem bicubic_interpolates grid F kr kc : (forall i k, grid i k = Some (F i k)) -> (INT_MIN < kr /\ kr + 2 <= INT_MAX)%Z -> (INT_MIN < kc /\ kc + 2 <= INT_MAX)%Z ->
  Evaluate2D grid (IZR kr) (IZR kc) =
    Some (F kr kc, (F (kr + 1)%Z kc - F (kr - 1)%Z kc) / 2, (F kr (kc + 1)%Z - F kr (kc - 1)%Z) / 2).
Proof.
  intros G Kr Kc. rewrite (eval2_some grid F) by (try assumption; apply representable_floor; rewrite floor_IZR; lia).
  unfold V2, Dr, Dc. rewrite !V_at, !D_at, !V_at. reflexivity.
Qed.
Print Assumptions bicubic_interpolates.

(* the derivatives returned are the partial derivatives of the value returned, everywhere,
   and continuous as functions of both arguments *)
Theorem bicubic_derivatives grid F r c : (forall i k, grid i k = Some (F i k)) -> inside r -> inside c ->
  is_derive (fun t => value2 (Evaluate2D grid t c)) r (slope_r (Evaluate2D grid r c)) /\
  is_derive (fun t => value2 (Evaluate2D grid r t)) c (slope_c (Evaluate2D grid r c)) /\
  continuous (fun q : R * R => slope_r (Evaluate2D grid (fst q) (snd q))) (r, c) /\
  continuous (fun q : R * R => slope_c (Evaluate2D grid (fst q) (snd q))) (r, c).
Proof.
  intros G Ir Ic. pose proof (inside_representable r Ir) as Rr. pose proof (inside_representable c Ic) as Rc.
  pose proof (near2 r c Ir Ic) as L. rewrite (eval2_some grid F r c G Rr Rc). cbn [slope_r slope_c]. split; [|split; [|split]].
  - eapply is_derive_ext_loc; [|apply V2_derive_r]. eapply filter_imp; [|exact (inside_locally r Ir)]. cbv beta. intros y R. rewrite (eval2_some grid F y c G R Rc). reflexivity.
  - eapply is_derive_ext_loc; [|apply V2_derive_c]. eapply filter_imp; [|exact (inside_locally c Ic)]. cbv beta. intros y R. rewrite (eval2_some grid F r y G Rr R). reflexivity.
  - eapply continuous_ext_loc; [|apply (Dr_cont F)]. eapply filter_imp; [|exact L]. cbv beta. intros q [A B]. rewrite (eval2_some grid F _ _ G A B). reflexivity.
  - eapply continuous_ext_loc; [|apply (Dc_cont F)]. eapply filter_imp; [|exact L]. cbv beta. intros q [A B]. rewrite (eval2_some grid F _ _ G A B). reflexivity.
Qed.
Print Assumptions bicubic_derivatives.

Theorem bicubic_jet grid F ra rv ca cv : (forall i k, grid i k = Some (F i k)) -> inside ra -> inside ca ->
  exists f v, Evaluate2DJet grid ra rv ca cv = Some (f, v) /\ f = value2 (Evaluate2D grid ra ca) /\
    forall j (r c : R -> R) t, r t = ra -> c t = ca -> is_derive r t (rv j) -> is_derive c t (cv j) ->
      is_derive (fun s => value2 (Evaluate2D grid (r s) (c s))) t (v j).
Proof.
  intros G Ir Ic. pose proof (inside_representable ra Ir) as Rr. pose proof (inside_representable ca Ic) as Rc.
  unfold Evaluate2DJet. rewrite (eval2_some grid F ra ca G Rr Rc). cbn [bind]. eexists. eexists. split; [reflexivity|]. split; [reflexivity|].
  intros j r c t Er Ec Hr Hc. rewrite <- Er, <- Ec.
  eapply is_derive_ext_loc; [|exact (V2_chain F r c t _ _ Hr Hc)].
  assert (continuous r t) as Cr by (apply (ex_derive_continuous (K := R_AbsRing) (V := R_NormedModule)); eexists; exact Hr).
  assert (continuous c t) as Cc by (apply (ex_derive_continuous (K := R_AbsRing) (V := R_NormedModule)); eexists; exact Hc).
  assert (locally t (fun s => representable (r s) /\ representable (c s))) as L.
  { apply filter_and; [apply (Cr representable)|apply (Cc representable)]; [rewrite Er|rewrite Ec]; apply inside_locally; assumption. }
  eapply filter_imp; [|exact L]. cbv beta. intros s [A B]. rewrite (eval2_some grid F _ _ G A B). reflexivity.
Qed.
Print Assumptions bicubic_jet.

(* polynomials of degree at most two in each variable are reproduced, with derivatives *)
Definition quad (a : R * R * R) (x : R) : R := fst (fst a) * x * x + snd (fst a) * x + snd a.
Definition quad' (a : R * R * R) (x : R) : R := 2 * fst (fst a) * x + snd (fst a).
Theorem bicubic_biquadratic grid a b d r c : (forall i k, grid i k = Some (quad (quad a (IZR k), quad b (IZR k), quad d (IZR k)) (IZR i))) ->
  representable r -> representable c ->
  Evaluate2D grid r c = Some (quad (quad a c, quad b c, quad d c) r, quad' (quad a c, quad b c, quad d c) r, quad (quad' a c, quad' b c, quad' d c) r).
Proof.
  intros G Rr Rc. rewrite (eval2_some grid _ r c G Rr Rc). destruct a as [[a2 a1] a0], b as [[b2 b1] b0], d as [[d2 d1] d0]. unfold V2, Dr, Dc, quad, quad'. cbn [fst snd].
  assert (forall row, let Fr k := (a2 * IZR k * IZR k + a1 * IZR k + a0) * IZR row * IZR row + (b2 * IZR k * IZR k + b1 * IZR k + b0) * IZR row + (d2 * IZR k * IZR k + d1 * IZR k + d0) in
    V Fr c = (a2 * c * c + a1 * c + a0) * IZR row * IZR row + (b2 * c * c + b1 * c + b0) * IZR row + (d2 * c * c + d1 * c + d0) /\
    D Fr c = (2 * a2 * c + a1) * IZR row * IZR row + (2 * b2 * c + b1) * IZR row + (2 * d2 * c + d1)) as K.
  { intros row Fr. destruct (quadratic Fr (a2 * IZR row * IZR row + b2 * IZR row + d2) (a1 * IZR row * IZR row + b1 * IZR row + d1) (a0 * IZR row * IZR row + b0 * IZR row + d0) c) as [-> ->]; [|split; ring].
    intros m _. unfold Fr. ring. }
  cbv zeta in K. f_equal. f_equal; [f_equal|].
  - refine (proj1 (quadratic _ (a2 * c * c + a1 * c + a0) (b2 * c * c + b1 * c + b0) (d2 * c * c + d1 * c + d0) r _)). intros m _. exact (proj1 (K m)).
  - refine (proj2 (quadratic _ (a2 * c * c + a1 * c + a0) (b2 * c * c + b1 * c + b0) (d2 * c * c + d1 * c + d0) r _)). intros m _. exact (proj1 (K m)).
  - refine (proj1 (quadratic _ (2 * a2 * c + a1) (2 * b2 * c + b1) (2 * d2 * c + d1) r _)). intros m _. exact (proj2 (K m)).
Qed.
Print Assumptions bicubic_biquadratic.

(* a grid and points to which the theorems apply: squares, at 3/2 and at the sample 2 *)
Example cubic_case : inside (3 / 2) /\ Evaluate1D (fun n => Some (IZR (n * n))) (3 / 2) = Some (9 / 4, 3).
Proof.
  split; [unfold inside; in_range|].
  rewrite (cubic_quadratic _ (fun n => IZR (n * n)) 1 0 0 (3 / 2)); [f_equal; f_equal; lra|reflexivity|unfold representable; in_range|].
  intros m _. rewrite mult_IZR. ring.
Qed.
Example cubic_case_sample : inside 2 /\ Evaluate1D (fun n => Some (IZR (n * n * n))) 2 = Some (8, 13).
Proof.
  split; [unfold inside; in_range|]. rewrite (cubic_interpolates _ (fun n => IZR (n * n * n)) 2); [f_equal; f_equal; cbn; lra|reflexivity|unfold INT_MIN, INT_MAX; lia].
Qed.
Example bicubic_case : Evaluate2D (fun i k => Some (IZR (i * k))) (3 / 2) 5 = Some (15 / 2, 5, 3 / 2).
Proof.
  rewrite (bicubic_biquadratic _ (0, 0, 0) (0, 1, 0) (0, 0, 0) (3 / 2) 5).
  - unfold quad, quad'. cbn [fst snd]. f_equal. f_equal; [f_equal|]; lra.
  - intros i k. unfold quad. cbn [fst snd]. rewrite mult_IZR. f_equal. ring.
  - unfold representable; in_range.
  - unfold representable; in_range.
Qed.
