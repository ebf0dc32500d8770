From Coq Require Import Reals List ZArith Lia Lra Psatz Bool.
From Coquelicot Require Import Coquelicot.
From Verif Require Import CubicModel CubicSpec.
Import ListNotations.
Open Scope R_scope.

(* ---------------- two pieces ---------------- *)
Lemma cont_two {T : UniformSpace} (f g h : T -> R) p : locally p (fun q => f q = g q \/ f q = h q) ->
  continuous g p -> continuous h p -> g p = f p -> h p = f p -> continuous f p.
Proof.
  intros L Cg Ch Eg Eh P HP. assert (locally p (fun q => P (g q))) as A by (apply Cg; rewrite Eg; exact HP).
  assert (locally p (fun q => P (h q))) as B by (apply Ch; rewrite Eh; exact HP).
  unfold filtermap. apply (filter_imp (fun q => (f q = g q \/ f q = h q) /\ P (g q) /\ P (h q))).
  - intros q [[E|E] [A' B']]; rewrite E; assumption.
  - apply filter_and; [exact L|]. apply filter_and; assumption.
Qed.
Lemma deriv_two (f g h : R -> R) x l : locally x (fun y => f y = g y \/ f y = h y) ->
  is_derive g x l -> is_derive h x l -> g x = f x -> h x = f x -> is_derive f x l.
Proof.
  intros [d Hd] Dg Dh Eg Eh. apply is_derive_Reals in Dg, Dh. apply is_derive_Reals. intros eps He.
  destruct (Dg eps He) as [dg Hg]. destruct (Dh eps He) as [dh Hh].
  assert (0 < Rmin d (Rmin dg dh)) as P by (repeat apply Rmin_pos; apply cond_pos). exists (mkposreal _ P). cbn [pos]. intros t Nt Lt.
  pose proof (Rmin_l d (Rmin dg dh)). pose proof (Rmin_r d (Rmin dg dh)). pose proof (Rmin_l dg dh). pose proof (Rmin_r dg dh).
  assert (ball x d (x + t)) as B by (unfold ball; cbn; unfold AbsRing_ball, abs, minus, plus, opp; cbn; replace (x + t + - x) with t by ring; lra).
  destruct (Hd _ B) as [E|E]; rewrite E; [rewrite <- Eg; apply Hg|rewrite <- Eh; apply Hh]; auto; lra.
Qed.

(* ---------------- floor ---------------- *)
Lemma floor_unique x n : IZR n <= x < IZR n + 1 -> Int_part x = n.
Proof.
  intros [L U]. destruct (base_Int_part x) as [A B].
  assert (IZR (Int_part x) < IZR (n + 1)) as C1 by (rewrite plus_IZR; lra). assert (IZR n < IZR (Int_part x + 1)) as C2 by (rewrite plus_IZR; lra).
  apply lt_IZR in C1, C2. lia.
Qed.
Lemma floor_spec x : IZR (Int_part x) <= x < IZR (Int_part x) + 1.
Proof. destruct (base_Int_part x). lra. Qed.
Lemma floor_IZR n : Int_part (IZR n) = n.
Proof. apply floor_unique. lra. Qed.
Lemma floor_near x0 : locally x0 (fun x => Int_part x = Int_part x0 \/ (x0 = IZR (Int_part x0) /\ Int_part x = (Int_part x0 - 1)%Z)).
Proof.
  pose proof (floor_spec x0) as F. set (n := Int_part x0) in *. destruct (Req_dec x0 (IZR n)) as [E|E].
  - exists (mkposreal 1 ltac:(lra)). intros x Hx. unfold ball in Hx. cbn in Hx. unfold AbsRing_ball, abs, minus, plus, opp in Hx. cbn in Hx.
    apply Rabs_def2 in Hx. destruct (Rle_dec (IZR n) x) as [L|L].
    + left. apply floor_unique. lra.
    + right. split; [exact E|]. apply floor_unique. rewrite minus_IZR. lra.
  - assert (0 < Rmin (x0 - IZR n) (IZR n + 1 - x0)) as P by (apply Rmin_pos; lra). exists (mkposreal _ P). intros x Hx.
    unfold ball in Hx. cbn in Hx. unfold AbsRing_ball, abs, minus, plus, opp in Hx. cbn in Hx. apply Rabs_def2 in Hx.
    pose proof (Rmin_l (x0 - IZR n) (IZR n + 1 - x0)). pose proof (Rmin_r (x0 - IZR n) (IZR n + 1 - x0)). left. apply floor_unique. lra.
Qed.

(* ---------------- one dimension ---------------- *)
Definition piece (F : Z -> R) (n : Z) (x : R) : R * R :=
  CubicHermiteSpline (F (n + -1)%Z) (F n) (F (n + 1)%Z) (F (n + 2)%Z) (x - IZR n).
Definition V (F : Z -> R) (x : R) : R := fst (piece F (Int_part x) x).
Definition D (F : Z -> R) (x : R) : R := snd (piece F (Int_part x) x).

Lemma representable_floor x : representable x <-> (INT_MIN + 1 <= Int_part x /\ Int_part x + 2 <= INT_MAX)%Z.
Proof.
  unfold representable. pose proof (floor_spec x) as F. set (n := Int_part x) in *. split.
  - intros [L U]. split.
    + assert (IZR (INT_MIN + 1) < IZR (n + 1)) as C by (rewrite !plus_IZR; lra). apply lt_IZR in C. lia.
    + assert (IZR (n + 1) < IZR INT_MAX) as C; [|apply lt_IZR in C; lia]. rewrite plus_IZR.
      assert (IZR n < IZR (INT_MAX - 1)) as C' by (rewrite minus_IZR; lra). apply lt_IZR in C'. destruct (Z.eq_dec n (INT_MAX - 2)) as [E|E].
      * rewrite E, minus_IZR. lra.
      * assert (IZR n <= IZR (INT_MAX - 3)) as C2 by (apply IZR_le; lia). rewrite minus_IZR in C2. lra.
  - intros [L U]. apply IZR_le in L, U. rewrite plus_IZR in L, U. lra.
Qed.
Lemma to_int_ok z : (INT_MIN <= z <= INT_MAX)%Z -> to_int z = Some z.
Proof. intro H. unfold to_int. destruct (Z.leb_spec INT_MIN z), (Z.leb_spec z INT_MAX); try lia. reflexivity. Qed.
Lemma to_int_some z w : to_int z = Some w -> w = z /\ (INT_MIN <= z <= INT_MAX)%Z.
Proof. unfold to_int. destruct (Z.leb_spec INT_MIN z), (Z.leb_spec z INT_MAX); cbn [andb]; try discriminate. intro E. injection E as <-. split; [reflexivity|lia]. Qed.
Lemma to_int_none z : to_int z = None <-> ~ (INT_MIN <= z <= INT_MAX)%Z.
Proof. unfold to_int. destruct (Z.leb_spec INT_MIN z), (Z.leb_spec z INT_MAX); cbn [andb]; split; try discriminate; try reflexivity; try lia. Qed.

Lemma eval_some grid F x : (forall n, grid n = Some (F n)) -> representable x -> Evaluate1D grid x = Some (V F x, D F x).
Proof.
  intros G R. apply representable_floor in R. assert (INT_MIN <= INT_MAX)%Z by (unfold INT_MIN, INT_MAX; lia).
  unfold Evaluate1D, floor_int, add_int. rewrite to_int_ok by lia. cbn [bind]. rewrite to_int_ok by lia. cbn [bind]. rewrite G. cbn [bind]. rewrite G. cbn [bind].
  rewrite to_int_ok by lia. cbn [bind]. rewrite G. cbn [bind]. rewrite to_int_ok by lia. cbn [bind]. rewrite G. cbn [bind].
  unfold V, D, piece. rewrite <- surjective_pairing. reflexivity.
Qed.
Lemma eval_none grid x : ~ representable x -> Evaluate1D grid x = None.
Proof.
  intro R. rewrite representable_floor in R. unfold Evaluate1D, floor_int, add_int.
  destruct (to_int (Int_part x)) as [n|] eqn:E; [|reflexivity]. apply to_int_some in E. destruct E as [-> B]. cbn [bind].
  destruct (to_int (Int_part x + -1)) as [n0|] eqn:E0; [|reflexivity]. apply to_int_some in E0. cbn [bind].
  destruct (grid n0); [|reflexivity]. cbn [bind]. destruct (grid (Int_part x)); [|reflexivity]. cbn [bind].
  destruct (to_int (Int_part x + 1)) as [n1|] eqn:E1; [|reflexivity]. cbn [bind]. destruct (grid n1); [|reflexivity]. cbn [bind].
  destruct (to_int (Int_part x + 2)) as [n2|] eqn:E2; [|reflexivity]. apply to_int_some in E2. exfalso. apply R. lia.
Qed.

Lemma half_eq : 0.5 = / 2. Proof. lra. Qed.
Lemma two_eq : 2.0 = 2. Proof. lra. Qed.
Lemma three_eq : 3.0 = 3. Proof. lra. Qed.
Lemma four_eq : 4.0 = 4. Proof. lra. Qed.
Lemma five_eq : 5.0 = 5. Proof. lra. Qed.
Ltac lits := rewrite ?half_eq, ?two_eq, ?three_eq, ?four_eq, ?five_eq.
Lemma piece_derive F n x : is_derive (fun t => fst (piece F n t)) x (snd (piece F n x)).
Proof. unfold piece, CubicHermiteSpline. cbn [fst snd]. auto_derive; [exact I|].
  (lits; field). Qed.
Lemma piece_slope_cont F n x : continuous (fun t => snd (piece F n t)) x.
Proof.
  unfold piece, CubicHermiteSpline. cbn [snd]. apply (ex_derive_continuous (K := R_AbsRing) (V := R_NormedModule)). auto_derive. exact I.
Qed.
Lemma piece_join F n : fst (piece F (n - 1) (IZR n)) = fst (piece F n (IZR n)) /\ snd (piece F (n - 1) (IZR n)) = snd (piece F n (IZR n)).
Proof.
  unfold piece, CubicHermiteSpline. cbn [fst snd]. rewrite minus_IZR. replace (n - 1 + 1)%Z with n by lia. replace (n - 1 + 2)%Z with (n + 1)%Z by lia. replace (n + -1)%Z with (n - 1)%Z by lia.
  split; (lits; field).
Qed.
Lemma V_derive F x : is_derive (V F) x (D F x).
Proof.
  set (n := Int_part x). pose proof (floor_near x) as L. fold n in L. destruct (Req_dec x (IZR n)) as [E|E].
  - destruct (piece_join F n) as [J1 J2].
    apply (deriv_two (V F) (fun t => fst (piece F n t)) (fun t => fst (piece F (n - 1) t))).
    + eapply filter_imp; [|exact L]. cbv beta. intros y [H|[_ H]]; unfold V; rewrite H; [left|right]; reflexivity.
    + apply piece_derive.
    + unfold D. fold n. rewrite E at 2. rewrite <- J2. rewrite <- E. apply piece_derive.
    + reflexivity.
    + unfold V. fold n. rewrite E at 1 2. exact J1.
  - apply (deriv_two (V F) (fun t => fst (piece F n t)) (fun t => fst (piece F n t))).
    + eapply filter_imp; [|exact L]. cbv beta. intros y [H|[C _]]; [unfold V; rewrite H; left; reflexivity|contradiction].
    + apply piece_derive.
    + apply piece_derive.
    + reflexivity.
    + reflexivity.
Qed.
Lemma D_cont F x : continuous (D F) x.
Proof.
  set (n := Int_part x). pose proof (floor_near x) as L. fold n in L. destruct (Req_dec x (IZR n)) as [E|E].
  - destruct (piece_join F n) as [J1 J2].
    apply (cont_two (T := R_UniformSpace) (D F) (fun t => snd (piece F n t)) (fun t => snd (piece F (n - 1) t))).
    + eapply filter_imp; [|exact L]. cbv beta. intros y [H|[_ H]]; unfold D; rewrite H; [left|right]; reflexivity.
    + apply piece_slope_cont.
    + apply piece_slope_cont.
    + reflexivity.
    + unfold D. fold n. rewrite E at 1 2. exact J2.
  - apply (cont_two (T := R_UniformSpace) (D F) (fun t => snd (piece F n t)) (fun t => snd (piece F n t))).
    + eapply filter_imp; [|exact L]. cbv beta. intros y [H|[C _]]; [unfold D; rewrite H; left; reflexivity|contradiction].
    + apply piece_slope_cont.
    + apply piece_slope_cont.
    + reflexivity.
    + reflexivity.
Qed.
Lemma V_cont F x : continuous (V F) x.
Proof. apply (ex_derive_continuous (K := R_AbsRing) (V := R_NormedModule)). eexists. apply V_derive. Qed.

Lemma inside_locally x : inside x -> locally x representable.
Proof.
  unfold inside, representable. intros [L U]. assert (0 < Rmin (x - (IZR INT_MIN + 1)) (IZR INT_MAX - 1 - x)) as P by (apply Rmin_pos; lra).
  exists (mkposreal _ P). intros y Hy. unfold ball in Hy. cbn in Hy. unfold AbsRing_ball, abs, minus, plus, opp in Hy. cbn in Hy. apply Rabs_def2 in Hy.
  pose proof (Rmin_l (x - (IZR INT_MIN + 1)) (IZR INT_MAX - 1 - x)). pose proof (Rmin_r (x - (IZR INT_MIN + 1)) (IZR INT_MAX - 1 - x)). lra.
Qed.
Lemma inside_representable x : inside x -> representable x.
Proof. unfold inside, representable. lra. Qed.

Lemma V_at F n : V F (IZR n) = F n.
Proof. unfold V. rewrite floor_IZR. unfold piece, CubicHermiteSpline. cbn [fst]. rewrite Rminus_diag_eq by reflexivity. lits. ring. Qed.
Lemma D_at F n : D F (IZR n) = (F (n + 1)%Z - F (n - 1)%Z) / 2.
Proof. unfold D. rewrite floor_IZR. unfold piece, CubicHermiteSpline. cbn [snd]. rewrite Rminus_diag_eq by reflexivity. replace (n + -1)%Z with (n - 1)%Z by lia. (lits; field). Qed.
Lemma quadratic F a b c x : (forall m, (Int_part x - 1 <= m <= Int_part x + 2)%Z -> F m = a * IZR m * IZR m + b * IZR m + c) ->
  V F x = a * x * x + b * x + c /\ D F x = 2 * a * x + b.
Proof.
  intro H. unfold V, D, piece, CubicHermiteSpline. cbn [fst snd]. set (n := Int_part x) in *. rewrite !H by lia. rewrite !plus_IZR. split; (lits; field).
Qed.
Lemma spline_bound M p0 p1 p2 p3 t : 0 <= t <= 1 -> Rabs p0 <= M -> Rabs p1 <= M -> Rabs p2 <= M -> Rabs p3 <= M ->
  Rabs (fst (CubicHermiteSpline p0 p1 p2 p3 t)) <= 5 / 4 * M.
Proof.
  intros [T0 T1] B0 B1 B2 B3. unfold CubicHermiteSpline. cbn [fst].
  set (u := 1 - t). assert (0 <= u) as U0 by (unfold u; lra).
  set (w0 := t * u * u / 2). set (w3 := t * t * u / 2). set (w1 := u * (2 + 2 * t - 3 * t * t) / 2). set (w2 := t * (2 + 2 * u - 3 * u * u) / 2).
  assert (0 <= w0) as W0 by (unfold w0; assert (0 <= t * u) by (apply Rmult_le_pos; lra); assert (0 <= t * u * u) by (apply Rmult_le_pos; lra); lra).
  assert (0 <= w3) as W3 by (unfold w3; assert (0 <= t * t) by (apply Rmult_le_pos; lra); assert (0 <= t * t * u) by (apply Rmult_le_pos; lra); lra).
  assert (0 <= w1) as W1. { unfold w1. assert (0 <= 2 + 2 * t - 3 * t * t) by (replace (2 + 2 * t - 3 * t * t) with (u * (2 + 4 * t) + t * t) by (unfold u; ring); apply Rplus_le_le_0_compat; apply Rmult_le_pos; lra). assert (0 <= u * (2 + 2 * t - 3 * t * t)) by (apply Rmult_le_pos; assumption). lra. }
  assert (0 <= w2) as W2. { unfold w2. assert (0 <= 2 + 2 * u - 3 * u * u) by (replace (2 + 2 * u - 3 * u * u) with (t * (2 + 4 * u) + u * u) by (unfold u; ring); apply Rplus_le_le_0_compat; apply Rmult_le_pos; lra). assert (0 <= t * (2 + 2 * u - 3 * u * u)) by (apply Rmult_le_pos; assumption). lra. }
  assert (w0 + w1 + w2 + w3 <= 5 / 4) as S.
  { assert (w0 + w1 + w2 + w3 = 1 + t * u) as -> by (unfold w0, w1, w2, w3, u; lits; field). pose proof (Rle_0_sqr (t - / 2)) as Q. unfold Rsqr in Q. unfold u. clear - Q. lra. }
  match goal with |- Rabs ?q <= _ => replace q with (w1 * p1 + w2 * p2 - w0 * p0 - w3 * p3) by (unfold w0, w1, w2, w3, u; lits; field) end.
  assert (0 <= M) as M0 by (pose proof (Rabs_pos p0); lra).
  assert (forall w p, 0 <= w -> Rabs p <= M -> - (w * M) <= w * p <= w * M) as K.
  { intros w p W P. assert (- M <= p <= M) as Q by (unfold Rabs in P; destruct (Rcase_abs p); lra). split; nra. }
  pose proof (K w0 p0 W0 B0). pose proof (K w1 p1 W1 B1). pose proof (K w2 p2 W2 B2). pose proof (K w3 p3 W3 B3).
  assert ((w0 + w1 + w2 + w3) * M <= 5 / 4 * M) as Q by (apply Rmult_le_compat_r; assumption).
  apply Rabs_le. split; lra.
Qed.
Lemma V_bound F M x : (forall m, (Int_part x - 1 <= m <= Int_part x + 2)%Z -> Rabs (F m) <= M) -> Rabs (V F x) <= 5 / 4 * M.
Proof.
  intro H. unfold V, piece. pose proof (floor_spec x). apply spline_bound; [lra| | | |]; apply H; lia.
Qed.

(* ---------------- two dimensions ---------------- *)
Definition V2 (F : Z -> Z -> R) (r c : R) : R := V (fun row => V (F row) c) r.
Definition Dr (F : Z -> Z -> R) (r c : R) : R := D (fun row => V (F row) c) r.
Definition Dc (F : Z -> Z -> R) (r c : R) : R := V (fun row => D (F row) c) r.

Lemma row_some grid F row col c : (forall r k, grid r k = Some (F r k)) -> (INT_MIN + 1 <= col /\ col + 2 <= INT_MAX)%Z ->
  InterpolateRow grid row col c = Some (piece (F row) col c).
Proof.
  intros G R. unfold InterpolateRow, add_int. rewrite to_int_ok by lia. cbn [bind]. rewrite G. cbn [bind]. rewrite G. cbn [bind].
  rewrite to_int_ok by lia. cbn [bind]. rewrite G. cbn [bind]. rewrite to_int_ok by lia. cbn [bind]. rewrite G. cbn [bind]. reflexivity.
Qed.
Lemma eval2_some grid F r c : (forall i k, grid i k = Some (F i k)) -> representable r -> representable c ->
  Evaluate2D grid r c = Some (V2 F r c, Dr F r c, Dc F r c).
Proof.
  intros G Rr Rc. apply representable_floor in Rr, Rc. unfold Evaluate2D, floor_int, add_int.
  rewrite to_int_ok by lia. cbn [bind]. rewrite to_int_ok by lia. cbn [bind]. rewrite to_int_ok by lia. cbn [bind].
  rewrite (row_some grid F) by assumption. cbn [bind]. rewrite (row_some grid F) by assumption. cbn [bind].
  rewrite to_int_ok by lia. cbn [bind]. rewrite (row_some grid F) by assumption. cbn [bind].
  rewrite to_int_ok by lia. cbn [bind]. rewrite (row_some grid F) by assumption. cbn [bind].
  unfold V2, Dr, Dc, V, D. fold (piece (fun row => fst (piece (F row) (Int_part c) c)) (Int_part r) r).
  unfold piece at 1 2 3 4 5 6 7 8. reflexivity.
Qed.
Lemma V2_derive_r F r c : is_derive (fun t => V2 F t c) r (Dr F r c).
Proof. apply V_derive. Qed.
Lemma comb_derive (f0 f1 f2 f3 : R -> R) d0 d1 d2 d3 x c : is_derive f0 c d0 -> is_derive f1 c d1 -> is_derive f2 c d2 -> is_derive f3 c d3 ->
  is_derive (fun t => fst (CubicHermiteSpline (f0 t) (f1 t) (f2 t) (f3 t) x)) c (fst (CubicHermiteSpline d0 d1 d2 d3 x)).
Proof.
  intros H0 H1 H2 H3. unfold CubicHermiteSpline. cbn [fst]. auto_derive.
  - repeat split; eexists; eassumption.
  - replace (Derive (fun x => f0 x) c) with d0 by (symmetry; apply is_derive_unique; exact H0).
    replace (Derive (fun x => f1 x) c) with d1 by (symmetry; apply is_derive_unique; exact H1).
    replace (Derive (fun x => f2 x) c) with d2 by (symmetry; apply is_derive_unique; exact H2).
    replace (Derive (fun x => f3 x) c) with d3 by (symmetry; apply is_derive_unique; exact H3).
    (lits; field).
Qed.
Lemma V2_derive_c F r c : is_derive (fun t => V2 F r t) c (Dc F r c).
Proof.
  change (is_derive (fun t => fst (CubicHermiteSpline (V (F (Int_part r + -1)%Z) t) (V (F (Int_part r)) t) (V (F (Int_part r + 1)%Z) t) (V (F (Int_part r + 2)%Z) t) (r - IZR (Int_part r)))) c
    (fst (CubicHermiteSpline (D (F (Int_part r + -1)%Z) c) (D (F (Int_part r)) c) (D (F (Int_part r + 1)%Z) c) (D (F (Int_part r + 2)%Z) c) (r - IZR (Int_part r))))).
  apply comb_derive; apply V_derive.
Qed.

Lemma cont_spline {T : UniformSpace} (f0 f1 f2 f3 x : T -> R) p : continuous f0 p -> continuous f1 p -> continuous f2 p -> continuous f3 p -> continuous x p ->
  continuous (fun q => fst (CubicHermiteSpline (f0 q) (f1 q) (f2 q) (f3 q) (x q))) p /\
  continuous (fun q => snd (CubicHermiteSpline (f0 q) (f1 q) (f2 q) (f3 q) (x q))) p.
Proof.
  intros C0 C1 C2 C3 Cx. unfold CubicHermiteSpline. cbn [fst snd].
  assert (forall f g : T -> R, continuous f p -> continuous g p -> continuous (fun q => f q + g q) p) as P by (intros; apply (continuous_plus (V := R_NormedModule)); assumption).
  assert (forall f g : T -> R, continuous f p -> continuous g p -> continuous (fun q => f q - g q) p) as S by (intros; apply (continuous_minus (V := R_NormedModule)); assumption).
  assert (forall f g : T -> R, continuous f p -> continuous g p -> continuous (fun q => f q * g q) p) as M by (intros; apply (continuous_mult (K := R_AbsRing)); assumption).
  assert (forall f : T -> R, continuous f p -> continuous (fun q => - f q) p) as O by (intros; apply (continuous_opp (V := R_NormedModule)); assumption).
  assert (forall k : R, continuous (fun _ : T => k) p) as K by (intros; apply continuous_const).
  split; repeat match goal with
    | |- continuous (fun q => _ + _) _ => apply P
    | |- continuous (fun q => _ - _) _ => apply S
    | |- continuous (fun q => _ * _) _ => apply M
    | |- continuous (fun q => - _) _ => apply O
    | |- continuous (fun q => f0 q) _ => exact C0
    | |- continuous (fun q => f1 q) _ => exact C1
    | |- continuous (fun q => f2 q) _ => exact C2
    | |- continuous (fun q => f3 q) _ => exact C3
    | |- continuous (fun q => x q) _ => exact Cx
    | |- _ => apply K
    end.
  all: assumption.
Qed.
Lemma cont_fst (f : R -> R) (p : R * R) : continuous f (fst p) -> continuous (fun q : R * R => f (fst q)) p.
Proof. intro H. apply (continuous_comp (fun q : R * R => fst q) f); [destruct p; apply continuous_fst|exact H]. Qed.
Lemma cont_snd (f : R -> R) (p : R * R) : continuous f (snd p) -> continuous (fun q : R * R => f (snd q)) p.
Proof. intro H. apply (continuous_comp (fun q : R * R => snd q) f); [destruct p; apply continuous_snd|exact H]. Qed.
Lemma locally_fst (P : R -> Prop) (p : R * R) : locally (fst p) P -> locally p (fun q : R * R => P (fst q)).
Proof. destruct p as [a b]. intro H. exact (continuous_fst a b P H). Qed.
Lemma locally_snd (P : R -> Prop) (p : R * R) : locally (snd p) P -> locally p (fun q : R * R => P (snd q)).
Proof. destruct p as [a b]. intro H. exact (continuous_snd a b P H). Qed.

(* interpolating continuous functions of the second argument *)
Lemma rows_cont (G : Z -> R -> R) (p : R * R) : (forall row c, continuous (G row) c) ->
  continuous (fun q : R * R => V (fun row => G row (snd q)) (fst q)) p /\ continuous (fun q : R * R => D (fun row => G row (snd q)) (fst q)) p.
Proof.
  intro C. destruct p as [r0 c0]. set (n := Int_part r0).
  assert (forall m, continuous (fun q : R * R => fst (piece (fun row => G row (snd q)) m (fst q))) (r0, c0) /\
                    continuous (fun q : R * R => snd (piece (fun row => G row (snd q)) m (fst q))) (r0, c0)) as CP.
  { intro m. unfold piece. apply (cont_spline (fun q : R * R => G (m + -1)%Z (snd q)) (fun q : R * R => G m (snd q)) (fun q : R * R => G (m + 1)%Z (snd q)) (fun q : R * R => G (m + 2)%Z (snd q)) (fun q : R * R => fst q - IZR m));
      try (apply cont_snd; apply C). apply (continuous_minus (V := R_NormedModule)); [apply continuous_fst|apply continuous_const]. }
  pose proof (floor_near r0) as L. fold n in L. apply (locally_fst _ (r0, c0)) in L.
  set (n' := if Req_EM_T r0 (IZR n) then (n - 1)%Z else n).
  assert (locally (r0, c0) (fun q : R * R => Int_part (fst q) = n \/ Int_part (fst q) = n')) as L'.
  { eapply filter_imp; [|exact L]. cbv beta. unfold n'. intros q [H|[E H]]; [left; exact H|]. destruct (Req_EM_T r0 (IZR n)); [right; exact H|contradiction]. }
  assert (fst (piece (fun row => G row c0) n' r0) = fst (piece (fun row => G row c0) n r0) /\ snd (piece (fun row => G row c0) n' r0) = snd (piece (fun row => G row c0) n r0)) as [J1 J2].
  { unfold n'. destruct (Req_EM_T r0 (IZR n)) as [E|E]; [|split; reflexivity]. rewrite E. apply piece_join. }
  split.
  - apply (cont_two (T := prod_UniformSpace R_UniformSpace R_UniformSpace) _ (fun q : R * R => fst (piece (fun row => G row (snd q)) n (fst q))) (fun q : R * R => fst (piece (fun row => G row (snd q)) n' (fst q)))).
    + eapply filter_imp; [|exact L']. cbv beta. intros q [H|H]; unfold V; rewrite H; [left|right]; reflexivity.
    + apply CP.
    + apply CP.
    + reflexivity.
    + exact J1.
  - apply (cont_two (T := prod_UniformSpace R_UniformSpace R_UniformSpace) _ (fun q : R * R => snd (piece (fun row => G row (snd q)) n (fst q))) (fun q : R * R => snd (piece (fun row => G row (snd q)) n' (fst q)))).
    + eapply filter_imp; [|exact L']. cbv beta. intros q [H|H]; unfold D; rewrite H; [left|right]; reflexivity.
    + apply CP.
    + apply CP.
    + reflexivity.
    + exact J2.
Qed.
Lemma Dr_cont F p : continuous (fun q : R * R => Dr F (fst q) (snd q)) p.
Proof. exact (proj2 (rows_cont (fun row => V (F row)) p (fun row c => V_cont (F row) c))). Qed.
Lemma Dc_cont F p : continuous (fun q : R * R => Dc F (fst q) (snd q)) p.
Proof. exact (proj1 (rows_cont (fun row => D (F row)) p (fun row c => D_cont (F row) c))). Qed.

Lemma V2_chain F (fr fc : R -> R) t dr dc : is_derive fr t dr -> is_derive fc t dc ->
  is_derive (fun s => V2 F (fr s) (fc s)) t (Dr F (fr t) (fc t) * dr + Dc F (fr t) (fc t) * dc).
Proof.
  intros Hr Hc. pose proof (is_derive_filterdiff (V2 F) (fr t) (fc t) (Dr F) (Dc F (fr t) (fc t))) as FD.
  assert (filterdiff (fun u : R * R => V2 F (fst u) (snd u)) (locally (fr t, fc t)) (fun u : R * R => plus (scal (fst u) (Dr F (fr t) (fc t))) (scal (snd u) (Dc F (fr t) (fc t))))) as FF.
  { apply FD.
    - apply filter_forall. intros [u w]. apply V2_derive_r.
    - apply V2_derive_c.
    - apply Dr_cont. }
  unfold is_derive. eapply filterdiff_ext_lin.
  - apply (filterdiff_comp'_2 (fun s => fr s) (fun s => fc s) (fun a b => V2 F a b) t (fun y => scal y dr) (fun y => scal y dc)
      (fun a b => plus (scal a (Dr F (fr t) (fc t))) (scal b (Dc F (fr t) (fc t))))); [exact Hr|exact Hc|exact FF].
  - intro y. unfold scal, plus; cbn; unfold mult; cbn. ring.
Qed.
Lemma classic_representable x : representable x \/ ~ representable x.
Proof. unfold representable. destruct (Rle_dec (IZR INT_MIN + 1) x), (Rlt_dec x (IZR INT_MAX - 1)); [left; split; assumption|right; intros [A B]; contradiction..]. Qed.
