(* ImplicitSchurComplement, the power series, CGNR. *)
From Coq Require Import Reals ZArith List Arith Bool Lia Lra.
From Verif Require Import SchurModel SchurProofs BlockSparseModel BlockSparseSpec BlockSparseProofs BlockSparseProofs2 BlockSparseProofs7 BlockSparseProofs8 CGModel CGSpec CGProofs
  ImplicitSchurModel ImplicitSchurSpec ImplicitSchurProofs ImplicitSchurProofs2 ImplicitSchurProofs3 ImplicitSchurProofs4.
Import ListNotations.
Open Scope R_scope.

Lemma weight_times (D : option vec) (i : nat) (x : R) : match D with Some d => d i * d i * x | None => 0 end = weight D i * x.
Proof. destruct D; unfold weight; ring. Qed.
Section SCHUR.
Variables (t : Threads) (llt : nat -> matrix -> matrix) (nelim : nat) (a : BlockSparse) (D : option vec) (b : vec) (ftf_too : bool).
Hypotheses (T : scheduled t) (I : inverts llt) (V : valid (structure a)) (TR : transposed a = CreateTranspose (structure a)) (Pt : partitioned nelim (structure a)).
Let ne := e_columns nelim (structure a).
Let nf := f_columns nelim (structure a).
Let n := (ne + nf)%nat.
Let h := height (structure a).
Let A := entries a.
Let H := normal a D.
Let C := Cmat t llt nelim a D.
Let s := InitSchur t llt nelim ftf_too a D b.
Hypothesis PE : definite ne H.
Let IC : inverse_of ne H C := lead_inverse t llt nelim a D T I V TR Pt PE.
Lemma normal_gram : H = gram h A (weight D). Proof. reflexivity. Qed.
Lemma joined_av u x p : Av n A (joined ne u x) p = sumn ne (fun q => A p q * u q) + sumn nf (fun q => A p (ne + q)%nat * x q).
Proof. unfold Av, n. apply (joined_sum ne nf). Qed.
Lemma normal_apply x i : (i < n)%nat -> apply n H x i = sumn h (fun p => A p i * Av n A x p) + weight D i * x i.
Proof. intro Hi. exact (gram_apply h n A (weight D) x i Hi). Qed.
Lemma cross i x : (i < ne)%nat -> sumn nf (fun j => H i (ne + j)%nat * x j) = sumn h (fun p => A p i * sumn nf (fun j => A p (ne + j)%nat * x j)).
Proof.
  intro Hi. rewrite (sumn_ext nf _ (fun j => sumn h (fun p => A p i * (A p (ne + j)%nat * x j)))).
  - rewrite sumn_swap. apply sumn_ext. intros p _. rewrite sumn_scal. reflexivity.
  - intros j Hj. unfold H, normal. destruct (Nat.eqb_spec i (ne + j)); [lia|]. rewrite Rplus_0_r, <- sumn_scal_r. apply sumn_ext. intros p _. unfold A. ring.
Qed.
Lemma cross_t i y : sumn ne (fun k => H (ne + i)%nat k * y k) = sumn h (fun p => A p (ne + i)%nat * sumn ne (fun k => A p k * y k)).
Proof.
  rewrite (sumn_ext ne _ (fun k => sumn h (fun p => A p (ne + i)%nat * (A p k * y k)))).
  - rewrite sumn_swap. apply sumn_ext. intros p _. rewrite sumn_scal. reflexivity.
  - intros k Hk. unfold H, normal. destruct (Nat.eqb_spec (ne + i) k); [lia|]. rewrite Rplus_0_r, <- sumn_scal_r. apply sumn_ext. intros p _. unfold A. ring.
Qed.
Lemma lead_apply y i : (i < ne)%nat -> apply ne H (apply ne C y) i = y i.
Proof. intro Hi. exact (proj1 (inverse_apply ne H C IC) y i Hi). Qed.
Lemma e_times x y i : block_times t (e_blocks s) (ete_inverse s) x y i = y i + apply ne C x i.
Proof. exact (times_e t llt nelim a D T x y i). Qed.
(* the eliminated part, where y2 = E' z *)
Definition ez (z : vec) : vec := apply ne C (fun i => sumn h (fun p => A p i * z p)).
Lemma ez_model z i : block_times t (e_blocks s) (ete_inverse s) (left_e (s_view s) z Zero) Zero i = ez z i.
Proof.
  rewrite e_times. unfold ez, Zero. rewrite Rplus_0_l. apply apply_same. intros j Hj. change (s_view s) with (view_of t nelim a). rewrite (view_left_e t nelim a T V TR Pt). fold ne. destruct (Nat.ltb_spec j ne); [apply Rplus_0_l|lia].
Qed.
Lemma ez_solves z i : (i < ne)%nat -> apply ne H (ez z) i = sumn h (fun p => A p i * z p).
Proof. intro Hi. unfold ez. rewrite lead_apply by exact Hi. reflexivity. Qed.
Lemma right_e_model x y p : right_e (s_view s) x y p = y p + sumn ne (fun q => A p q * x q).
Proof. exact (view_right_e t nelim a T V Pt x y p). Qed.
Lemma right_f_model x p : right_f (s_view s) x Zero p = sumn nf (fun q => A p (ne + q)%nat * x q).
Proof. change (s_view s) with (view_of t nelim a). rewrite (view_right_f t nelim a T V Pt). unfold Zero. apply Rplus_0_l. Qed.
Lemma left_f_model x y q : left_f (s_view s) x y q = y q + sumn h (fun p => A p (ne + q)%nat * x p).
Proof. exact (view_left_f t nelim a T V TR Pt x y q). Qed.
Lemma ez_ext z z' i : same h z z' -> ez z i = ez z' i.
Proof. intro E. unfold ez. apply apply_same. intros j _. apply sumn_ext. intros p Hp. rewrite (E p Hp). reflexivity. Qed.

Lemma schur_times x y : schur_product ne nf H x (SchurTimes t s x y).
Proof.
  set (u := fun i => - ez (right_f (s_view s) x Zero) i). exists u. fold n. split; intros i Hi.
  - unfold n. rewrite joined_apply. unfold u. rewrite apply_opp, ez_solves by exact Hi. rewrite (cross i x Hi). rewrite (sumn_ext h (fun p => A p i * right_f (s_view s) x Zero p) (fun p => A p i * sumn nf (fun j => A p (ne + j)%nat * x j))) by (intros; rewrite right_f_model; reflexivity). ring.
  - unfold lower. rewrite normal_apply by (unfold n; lia). unfold SchurTimes. rewrite left_f_model. rewrite (joined_high ne nf). change (s_f s) with nf. change (s_e s) with ne. change (s_D s) with D. destruct (Nat.ltb_spec i nf); [|lia].
    rewrite Rplus_comm. f_equal; [symmetry; apply weight_times|]. apply sumn_ext. intros p _. f_equal. rewrite right_e_model, joined_av, right_f_model, Rplus_comm. f_equal. apply sumn_ext. intros q _. rewrite ez_model. reflexivity.
Qed.
Lemma schur_rhs : reduced_rhs ne nf H (gradient a b) (s_rhs s).
Proof.
  exists (ez b). fold n. split; intros i Hi; unfold lower, residual.
  - unfold n. rewrite joined_apply, ez_solves by exact Hi. rewrite (sumn_zero nf) by (intros; ring). unfold gradient. fold h A. ring.
  - rewrite normal_apply by (unfold n; lia). rewrite (joined_high ne nf). change (s_rhs s) with (Rhs t (s_view s) (e_blocks s) (ete_inverse s) b). unfold Rhs. rewrite left_f_model. unfold Zero at 1, gradient. fold h A.
    rewrite Rmult_0_r, Rplus_0_r, Rplus_0_l, <- sumn_minus. apply sumn_ext. intros p _. rewrite right_e_model, joined_av. unfold Zero at 1. rewrite (sumn_zero nf) by (intros; ring).
    rewrite (sumn_ext ne (fun q => A p q * block_times t (e_blocks s) (ete_inverse s) (left_e (s_view s) b Zero) Zero q) (fun q => A p q * ez b q)) by (intros; rewrite ez_model; reflexivity). ring.
Qed.
Lemma back_low z y i : (i < ne)%nat -> BackSubstitute t s z y i = ez (fun p => b p - right_f (s_view s) z Zero p) i.
Proof.
  intro Hi. unfold BackSubstitute. change (s_f s) with nf. change (s_e s) with ne. change (s_b s) with b. destruct (Nat.leb_spec ne i); [lia|]. cbn [andb]. rewrite e_times. destruct (Nat.ltb_spec i (ne + nf)); [|lia].
  rewrite Rplus_0_l. rewrite <- ez_model, e_times. unfold Zero at 3. rewrite Rplus_0_l. reflexivity.
Qed.
Lemma back_high z y i : (i < nf)%nat -> BackSubstitute t s z y (ne + i)%nat = z i.
Proof.
  intro Hi. unfold BackSubstitute. change (s_f s) with nf. change (s_e s) with ne. destruct (Nat.leb_spec ne (ne + i)); [|lia]. destruct (Nat.ltb_spec (ne + i) (ne + nf)); [|lia]. cbn [andb]. f_equal. lia.
Qed.
Lemma back_outside z y i : (n <= i)%nat -> BackSubstitute t s z y i = y i.
Proof.
  intro Hi. unfold n in Hi. unfold BackSubstitute. change (s_f s) with nf. change (s_e s) with ne. destruct (Nat.ltb_spec i (ne + nf)); [lia|]. rewrite andb_false_r. rewrite e_times. destruct (Nat.ltb_spec i (ne + nf)); [lia|].
  unfold apply. rewrite sumn_zero; [ring|]. intros j _. unfold C, Cmat. rewrite blockmat_out; [ring|apply layout_laid|]. rewrite layout_total. fold (e_columns nelim (structure a)). fold ne. lia.
Qed.
Lemma back_solves z y i : (i < ne)%nat -> residual n H (gradient a b) (BackSubstitute t s z y) i = 0.
Proof.
  intro Hi. unfold residual. rewrite (apply_same n H _ (joined ne (ez (fun p => b p - right_f (s_view s) z Zero p)) z)).
  - unfold n. rewrite joined_apply, ez_solves, (cross i z) by exact Hi. unfold gradient. fold h A.
    rewrite (sumn_ext h (fun p => A p i * (b p - right_f (s_view s) z Zero p)) (fun p => A p i * b p - A p i * sumn nf (fun j => A p (ne + j)%nat * z j))) by (intros; rewrite right_f_model; ring). rewrite sumn_minus. ring.
  - intros j Hj. unfold joined. destruct (Nat.ltb_spec j ne) as [L|L]; [apply back_low; exact L|]. replace j with (ne + (j - ne))%nat at 1 by lia. apply back_high. unfold n in Hj. lia.
Qed.

(* the power series *)
Let Vi := Vmat t llt nelim a D.
Let Wi := Wmat ne H C.
Let fi := Finv t llt nelim a D.
Lemma f_times x y i : block_times t (f_blocks s) fi x y i = y i + apply nf Vi x i.
Proof. exact (times_f t llt nelim a D T x y i). Qed.
Lemma power_times x y i : PowerTimes t s fi x y i = y i + apply nf Vi (apply nf Wi x) i.
Proof.
  unfold PowerTimes. rewrite f_times. f_equal. apply apply_same. intros j Hj. rewrite left_f_model. unfold Zero at 1. rewrite Rplus_0_l. unfold Wi. rewrite wmat_apply, cross_t. apply sumn_ext. intros p _. f_equal.
  rewrite right_e_model. unfold Zero at 1. rewrite Rplus_0_l. apply sumn_ext. intros k Hk. f_equal. rewrite ez_model. unfold ez. apply apply_same. intros l Hl. rewrite (cross l x Hl). apply sumn_ext. intros q _. rewrite right_f_model. reflexivity.
Qed.
Lemma norm_ext x y : same nf x y -> Norm nf x = Norm nf y.
Proof. intro E. unfold Norm, Dot. f_equal. apply inner_same; exact E. Qed.
Lemma series_loop x max threshold : forall f k prev y, f = Z.to_nat (max - Z.of_nat k) -> same nf prev (series nf Vi Wi x k) -> same nf y (partial_sum nf Vi Wi x k) ->
  exists m, (k < m)%nat /\ same nf (SeriesLoop f nf (PowerTimes t s fi) max threshold (Z.of_nat (S k)) prev y) (partial_sum nf Vi Wi x m) /\
    ((max <= Z.of_nat m)%Z \/ Norm nf (series nf Vi Wi x m) < threshold) /\
    forall j, (k < j < m)%nat -> (Z.of_nat j < max)%Z /\ ~ Norm nf (series nf Vi Wi x j) < threshold.
Proof.
  induction f as [|f IH]; intros k prev y Hf Ep Ey.
  - assert (forall i, (i < nf)%nat -> PowerTimes t s fi prev Zero i = series nf Vi Wi x (S k) i) as Et.
    { intros i Hi. rewrite power_times. unfold Zero. rewrite Rplus_0_l. cbn [series]. apply apply_same. intros l _. apply apply_same. exact Ep. }
    exists (S k). split; [lia|]. cbn [SeriesLoop]. split; [|split; [left; lia|intros; lia]]. intros i Hi. rewrite (Et i Hi), (Ey i Hi). unfold partial_sum. reflexivity.
  - assert (forall i, (i < nf)%nat -> PowerTimes t s fi prev Zero i = series nf Vi Wi x (S k) i) as Et.
    { intros i Hi. rewrite power_times. unfold Zero. rewrite Rplus_0_l. cbn [series]. apply apply_same. intros l _. apply apply_same. exact Ep. }
    assert (same nf (fun p => y p + PowerTimes t s fi prev Zero p) (partial_sum nf Vi Wi x (S k))) as Es by (intros i Hi; rewrite (Et i Hi), (Ey i Hi); unfold partial_sum; reflexivity).
    cbn [SeriesLoop]. rewrite (norm_ext _ _ Et). destruct (Z.leb_spec max (Z.of_nat (S k))) as [L|L]; cbn [orb].
    + exists (S k). split; [lia|]. split; [exact Es|]. split; [left; lia|intros; lia].
    + unfold lt. destruct (Rlt_dec (Norm nf (series nf Vi Wi x (S k))) threshold) as [G|G].
      * exists (S k). split; [lia|]. split; [exact Es|]. split; [right; exact G|intros; lia].
      * destruct (IH (S k) (PowerTimes t s fi prev Zero) (fun p => y p + PowerTimes t s fi prev Zero p) ltac:(lia) Et Es) as [m [Hm [Em [Sm Nm]]]]. exists m. split; [lia|].
        split; [replace (Z.of_nat (S k) + 1)%Z with (Z.of_nat (S (S k))) by lia; exact Em|]. split; [exact Sm|]. intros j Hj. destruct (Nat.eq_dec j (S k)) as [->|N]; [split; [lia|exact G]|apply Nm; lia].
Qed.
Lemma power_series max tol x y : exists m, (0 < m)%nat /\ same nf (PowerSeries t s fi max tol x y) (partial_sum nf Vi Wi x m) /\
    ((max <= Z.of_nat m)%Z \/ Norm nf (series nf Vi Wi x m) < tol * Norm nf (series nf Vi Wi x 0)) /\
    (forall j, (0 < j < m)%nat -> (Z.of_nat j < max)%Z /\ ~ Norm nf (series nf Vi Wi x j) < tol * Norm nf (series nf Vi Wi x 0)) /\
    forall i, (nf <= i)%nat -> PowerSeries t s fi max tol x y i = y i.
Proof.
  unfold PowerSeries. change (s_f s) with nf. set (y0 := block_times t (f_blocks s) fi x (fun i => if (i <? nf)%nat then 0 else y i)).
  assert (same nf y0 (series nf Vi Wi x 0)) as E0 by (intros i Hi; unfold y0; rewrite f_times; destruct (Nat.ltb_spec i nf); [apply Rplus_0_l|lia]).
  destruct (series_loop x max (tol * Norm nf y0) (Z.to_nat max) 0 y0 y0 ltac:(lia) E0) as [m [Hm [Em [Sm Nm]]]]; [intros i Hi; rewrite (E0 i Hi); unfold partial_sum; cbn [sumn]; ring|].
  rewrite (norm_ext _ _ E0) in *. exists m. split; [exact Hm|]. split; [|split; [exact Sm|split; [exact Nm|]]].
  - intros i Hi. destruct (Nat.ltb_spec i nf); [|lia]. exact (Em i Hi).
  - intros i Hi. destruct (Nat.ltb_spec i nf); [lia|]. unfold y0. rewrite f_times. destruct (Nat.ltb_spec i nf); [lia|]. unfold apply. rewrite sumn_zero; [ring|]. intros j _. unfold Vi, Vmat. rewrite blockmat_out; [ring|apply layout_laid|]. rewrite layout_total. fold (f_columns nelim (structure a)). fold nf. lia.
Qed.
End SCHUR.

Section CGNR.
Variables (t : Threads) (llt : nat -> matrix -> matrix) (a : BlockSparse) (D : option vec) (b : vec).
Hypotheses (T : scheduled t) (I : inverts llt) (G : good a).
Let bs := structure a.
Let n := num_columns a.
Let h := height bs.
Let A := entries a.
Let H := normal a D.
Lemma right_model x y p : right_times t a x y p = y p + Av n A x p.
Proof. destruct T as [_ [_ [R _]]]. rewrite (parallel_sum _ _ _ p (R a x y)), (right_sum (structure a) (values a) x (g_valid _ G)). unfold times, Av, n. rewrite (g_columns _ G). reflexivity. Qed.
Lemma left_model x y q : left_times t a x y q = y q + sumn h (fun p => A p q * x p).
Proof.
  destruct T as [_ [_ [_ R]]]. destruct (R a x y) as [->|P].
  - rewrite serial_sum, (left_sum (structure a) (values a) x (g_valid _ G)). reflexivity.
  - rewrite (g_transposed _ G) in P. rewrite (parallel_sum _ _ _ q P), (left_transpose_sum (structure a) (values a) x (g_valid _ G)). reflexivity.
Qed.
Lemma cgnr_times x y i : (i < n)%nat -> CgnrTimes t a D x y i = y i + apply n H x i.
Proof.
  intro Hi. unfold H. change (normal a D) with (gram h A (weight D)). rewrite gram_apply by exact Hi. unfold CgnrTimes.
  assert (left_times t a (right_times t a x Zero) y i = y i + sumn h (fun p => A p i * Av n A x p)) as E.
  { rewrite left_model. f_equal. apply sumn_ext. intros p _. rewrite right_model. unfold Zero. f_equal. apply Rplus_0_l. }
  destruct D as [d|]; [fold n; destruct (Nat.ltb_spec i n); [|lia]|]; rewrite E; unfold weight; ring.
Qed.
Lemma cgnr_rhs i : left_times t a b Zero i = gradient a b i.
Proof. rewrite left_model. unfold Zero. apply Rplus_0_l. Qed.
Lemma jacobi_block k i j : (k < length (cols bs))%nat -> (i < size (col bs k))%nat -> (j < size (col bs k))%nat ->
  JacobiBlock bs (values a) k i j = sumn h (fun p => A p (position (col bs k) + i)%nat * A p (position (col bs k) + j)%nat).
Proof.
  intros Hk Hi Hj. unfold JacobiBlock. unfold A, entries, h, bs. rewrite (diag_cells (structure a) (values a) (g_valid _ G) k i j Hk Hi Hj).
  pose proof (add_rows (structure a) (values a) (fun c => (block_id c =? k)%nat) cells k i j (rows (structure a)) (fun _ _ => 0)) as X. cbv beta in X. refine (eq_trans (X ltac:(reflexivity)) _). rewrite Rplus_0_l. reflexivity.
Qed.
Definition Jmat : matrix := blockmat (cols bs) (JacobiInverse llt a D).
Lemma jacobi_inverse : definite n (block_diagonal (cols bs) H) -> inverse_of n (block_diagonal (cols bs) H) Jmat.
Proof.
  unfold n. rewrite (g_columns _ G). unfold breadth. fold bs. intro P. unfold Jmat, JacobiInverse. fold bs. pose proof (v_cols _ (g_valid _ G)) as L. apply invert_blocks; [exact I|exact L|exact (gram_symmetric h A (weight D) _)|exact P|].
  intros k i j Hk Hi Hj. unfold subblock. change (kth (cols bs) k) with (col bs k) in *. rewrite (jacobi_block k i j Hk Hi Hj). unfold H, normal, weight. fold bs h A. f_equal.
  destruct (Nat.eqb_spec i j) as [->|N]; [rewrite Nat.eqb_refl; destruct D; reflexivity|]. destruct (Nat.eqb_spec (position (col bs k) + i) (position (col bs k) + j)); [lia|]. destruct D; reflexivity.
Qed.
Lemma jacobi_times x y i : block_times t (cols bs) (JacobiInverse llt a D) x y i = y i + apply n Jmat x i.
Proof.
  destruct T as [_ [B _]]. rewrite (diagonal_times _ (v_cols _ (g_valid _ G)) _ _ _ _ (B (cols bs) (JacobiInverse llt a D) x y) i). unfold n. rewrite (g_columns _ G). reflexivity.
Qed.
End CGNR.
