(* C64: the iterative linear solvers solve the regularised normal equations. *)
From Coq Require Import Reals ZArith List Arith Bool Lia Lra.
From Verif Require Import SchurModel SchurProofs BlockSparseModel BlockSparseSpec BlockSparseProofs BlockSparseProofs2 BlockSparseProofs4 BlockSparseProofs5 BlockSparseProofs7 BlockSparseProofs8 BlockSparseProps CGModel CGSpec CGProofs CGProps
  ImplicitSchurModel ImplicitSchurSpec ImplicitSchurProofs ImplicitSchurProofs2 ImplicitSchurProofs3 ImplicitSchurProofs4 ImplicitSchurProofs5 ImplicitSchurProofs6.
Import ListNotations.
Open Scope R_scope.

(* The equations: they always have a solution, and the solutions are exactly the minima of
   |A x - b|^2 + |D x|^2. *)
Theorem normal_equations : forall a D b,
  (exists x, same (num_columns a) (apply (num_columns a) (normal a D) x) (gradient a b)) /\
  (forall x, (forall y, cost a D b x <= cost a D b y) <-> same (num_columns a) (apply (num_columns a) (normal a D) x) (gradient a b)).
Proof. intros a D b. split; [apply solution_exists|apply least_squares]. Qed.
Print Assumptions normal_equations.

(* ImplicitSchurComplement after Init, however its parallel loops are run: the product is
   that with the Schur complement, rhs() is the reduced right hand side, BackSubstitute
   solves the eliminated equations and leaves in the others what the reduced system leaves. *)
Theorem isc_products : forall t llt nelim too a D b,
  scheduled t -> inverts llt -> good a -> partitioned nelim (structure a) ->
  let ne := e_columns nelim (structure a) in let nf := f_columns nelim (structure a) in let H := normal a D in
  definite ne H ->
  let s := InitSchur t llt nelim too a D b in
  num_columns a = (ne + nf)%nat /\
  (forall x y, schur_product ne nf H x (SchurTimes t s x y)) /\
  (forall x y i, (nf <= i)%nat -> SchurTimes t s x y i = y i) /\
  reduced_rhs ne nf H (gradient a b) (s_rhs s) /\
  (forall z y, let x := BackSubstitute t s z y in
     same nf (lower ne x) z /\
     same ne (residual (ne + nf) H (gradient a b) x) (fun _ => 0) /\
     same nf (lower ne (residual (ne + nf) H (gradient a b) x)) (fun i => s_rhs s i - SchurTimes t s z Zero i) /\
     (forall i, (ne + nf <= i)%nat -> x i = y i)).
Proof.
  intros t llt nelim too a D b T I G Pt ne nf H PE s. pose proof (g_valid _ G) as V. pose proof (g_transposed _ G) as TR.
  split; [rewrite (g_columns _ G); unfold breadth, ne, nf, e_columns, f_columns; rewrite <- (firstn_skipn nelim (cols (structure a))) at 1; apply total_app|].
  split; [intros; apply schur_times; assumption|]. split.
  { intros x y i Hi. unfold SchurTimes, s. rewrite (left_f_model t llt nelim a D b too T V TR Pt). change (s_f (InitSchur t llt nelim too a D b)) with nf. destruct (Nat.ltb_spec i nf); [lia|].
    rewrite sumn_zero; [ring|]. intros p Hp. unfold entries. rewrite dense_outside; [ring|exact V|]. unfold breadth. rewrite <- (firstn_skipn nelim (cols (structure a))), total_app. unfold nf, f_columns in Hi. unfold e_columns. lia. }
  assert (reduced_rhs ne nf H (gradient a b) (s_rhs s)) as RR by (apply schur_rhs; assumption). split; [exact RR|]. intros z y x.
  assert (same nf (lower ne x) z) as L by (intros i Hi; apply (back_high t llt nelim a D b too z y i Hi)).
  assert (same ne (residual (ne + nf) H (gradient a b) x) (fun _ => 0)) as Z by (intros i Hi; apply (back_solves t llt nelim a D b too T I V TR Pt PE z y i Hi)).
  split; [exact L|]. split; [exact Z|]. split; [|intros i Hi; apply (back_outside t llt nelim a D b too T z y i Hi)].
  apply (residual_reduced ne nf H PE (gradient a b) (s_rhs s) z (SchurTimes t s z Zero) x RR); [apply schur_times; assumption|exact L|exact Z].
Qed.
Print Assumptions isc_products.

(* These are functions of the equations: nothing else could be computed. *)
Theorem isc_unique : forall ne nf H g, definite ne H ->
  (forall x y y', schur_product ne nf H x y -> schur_product ne nf H x y' -> same nf y y') /\
  (forall r r', reduced_rhs ne nf H g r -> reduced_rhs ne nf H g r' -> same nf r r').
Proof. intros ne nf H g PE. split; intros; [eapply schur_unique|eapply reduced_unique]; eassumption. Qed.
Print Assumptions isc_unique.

(* The product is that of a matrix, symmetric and semidefinite, definite if the whole is;
   the reduced system has a solution. *)
Theorem isc_matrix : forall t llt nelim too a D b,
  scheduled t -> inverts llt -> good a -> partitioned nelim (structure a) ->
  let ne := e_columns nelim (structure a) in let nf := f_columns nelim (structure a) in let H := normal a D in
  definite ne H ->
  let s := InitSchur t llt nelim too a D b in
  exists S, is_schur ne nf H S /\ represents nf (SchurTimes t s) S /\ symmetric nf S /\ semidefinite nf S /\
    (definite (ne + nf) H -> definite nf S) /\ exists z, same nf (apply nf S z) (s_rhs s).
Proof.
  intros t llt nelim too a D b T I G Pt ne nf H PE s. destruct (isc_products t llt nelim too a D b T I G Pt PE) as [N [P [_ [R _]]]]. fold ne nf H s in N, P, R.
  pose proof (lead_inverse t llt nelim a D T I (g_valid _ G) (g_transposed _ G) Pt PE) as IC. fold ne H in IC. set (C := Cmat t llt nelim a D) in *.
  pose proof (smat_schur ne nf H C IC) as SS. exists (Smat ne H C). split; [exact SS|]. pose proof (normal_semi a D) as SD. rewrite N in SD. fold H in SD.
  split; [intros x i Hi; exact (schur_unique ne nf H PE x _ _ (P x _) (SS x) i Hi)|]. split; [exact (schur_symmetric ne nf H (normal_symmetric a D _) PE C IC _ SS)|].
  split; [exact (schur_semidefinite ne nf H PE C IC _ SS SD)|]. split; [exact (schur_definite ne nf H PE C IC _ SS)|].
  destruct (solution_exists a D b) as [sol E]. rewrite N in E. fold H in E. exists (lower ne sol). exact (schur_solution ne nf H PE _ _ _ sol SS R E).
Qed.
Print Assumptions isc_matrix.

(* The block diagonal of F'F + Df'Df, inverted, and the partial sums of the power series for
   the inverse of the Schur complement.  S = F'F + Df'Df - W. *)
Theorem isc_preconditioners : forall t llt nelim a D b,
  scheduled t -> inverts llt -> good a -> partitioned nelim (structure a) ->
  let ne := e_columns nelim (structure a) in let nf := f_columns nelim (structure a) in let H := normal a D in
  let B := block_diagonal (skipn nelim (cols (structure a))) (corner ne H) in
  definite ne H -> definite nf B ->
  let s := InitSchur t llt nelim true a D b in
  exists m V S, ftf_inverse s = Some m /\ inverse_of nf B V /\ symmetric nf V /\ definite nf V /\ is_schur ne nf H S /\
  let W := fun i j => corner ne H i j - S i j in
  represents nf (block_times t (f_blocks s) m) V /\
  (* the preconditioner: the number of terms does not depend on x *)
  (forall max, let k := Z.to_nat (Z.max 1 max) in exists P, represents nf (PowerSeries t s m max 0) P /\ symmetric nf P /\ definite nf P /\
     forall x, same nf (apply nf P x) (partial_sum nf V W x k)) /\
  (* with a tolerance: it stops after the first small term or the last allowed one *)
  (forall max tol x y, exists k, (0 < k)%nat /\ same nf (PowerSeries t s m max tol x y) (partial_sum nf V W x k) /\
     ((max <= Z.of_nat k)%Z \/ length_of nf (series nf V W x k) < tol * length_of nf (series nf V W x 0)) /\
     (forall j, (0 < j < k)%nat -> (Z.of_nat j < max)%Z /\ tol * length_of nf (series nf V W x 0) <= length_of nf (series nf V W x j)) /\
     (forall i, (nf <= i)%nat -> PowerSeries t s m max tol x y i = y i)) /\
  (* what a partial sum leaves of S y = x *)
  (one_f nelim (structure a) -> forall x k, same nf (residual nf S x (partial_sum nf V W x k)) (apply nf W (series nf V W x k))).
Proof.
  intros t llt nelim a D b T I G Pt ne nf H B PE PB s. pose proof (g_valid _ G) as VV. pose proof (g_transposed _ G) as TR.
  pose proof (lead_inverse t llt nelim a D T I VV TR Pt PE) as IC. fold ne H in IC. set (C := Cmat t llt nelim a D) in *.
  pose proof (f_inverse t llt nelim a D T I VV TR Pt PB) as IV. fold ne nf H B in IV. set (V := Vmat t llt nelim a D) in *.
  assert (symmetric nf B) as SB.
  { intros i j Hi Hj. unfold B, block_diagonal. rewrite together_sym. destruct (together _ j i); [|reflexivity]. unfold corner. apply (normal_symmetric a D (ne + nf)); lia. }
  assert (symmetric (ne + nf) H) as SH by apply normal_symmetric.
  exists (Finv t llt nelim a D), V, (Smat ne H C). split; [reflexivity|]. split; [exact IV|]. pose proof (inverse_symmetric nf B V SB IV) as SV. pose proof (inverse_definite nf B V SB PB IV) as PV.
  split; [exact SV|]. split; [exact PV|]. split; [apply smat_schur; exact IC|]. intro W.
  assert (forall i j, (i < nf)%nat -> (j < nf)%nat -> Wmat ne H C i j = W i j) as EW by (intros i j _ _; unfold W, Smat, corner; ring).
  pose proof (wmat_symmetric ne nf H SH PE C IC) as SW. pose proof (wmat_semidefinite ne nf H SH PE C IC) as PW.
  split; [|split; [|split]].
  - intros x i Hi. rewrite (f_times t llt nelim a D b true T). apply Rplus_0_l.
  - intros max k. exists (Pmat nf V (Wmat ne H C) k). split; [|split; [apply pmat_symmetric; assumption|split; [apply pmat_definite; assumption|]]].
    + intros x i Hi. rewrite pmat_apply by exact Hi. destruct (power_series t llt nelim a D b true T VV TR Pt max 0 x (fun _ => 0)) as [m [Hm [E [St [Be _]]]]]. fold ne nf H C V in E, St, Be.
      assert (m = k) as ->; [|exact (E i Hi)]. unfold k. assert (max <= Z.of_nat m)%Z as L.
      { destruct St as [St|St]; [exact St|]. exfalso. rewrite Rmult_0_l in St. unfold Norm in St. pose proof (sqrt_pos (Dot nf (series nf V (Wmat ne H C) x m) (series nf V (Wmat ne H C) x m))). lra. }
      destruct (Nat.eq_dec m 1) as [->|Nm]; [lia|]. destruct (Be (m - 1)%nat ltac:(lia)) as [L' _]. lia.
    + intros x i Hi. rewrite pmat_apply by exact Hi. apply partial_ext; assumption.
  - intros max tol x y. destruct (power_series t llt nelim a D b true T VV TR Pt max tol x y) as [m [Hm [E [St [Be O]]]]]. fold ne nf H C V in E, St, Be, O.
    assert (forall j, Norm nf (series nf V (Wmat ne H C) x j) = length_of nf (series nf V W x j)) as Nl by (intro j; exact (length_same nf _ _ (series_ext nf V _ _ x EW j))).
    exists m. split; [exact Hm|]. split; [intros i Hi; etransitivity; [exact (E i Hi)|]; apply partial_ext; assumption|]. rewrite !Nl in St. split; [exact St|]. split; [|exact O].
    intros j Hj. destruct (Be j Hj) as [B1 B2]. rewrite !Nl in B2. split; [exact B1|]. apply Rnot_lt_le. exact B2.
  - intros O x k i Hi. unfold residual. rewrite smat_apply. pose proof (series_residual nf V W B x k i IV Hi) as E.
    assert (apply nf B (partial_sum nf V W x k) i = apply nf (corner ne H) (partial_sum nf V W x k) i) as E1 by (apply sumn_ext; intros j Hj; unfold B, ne, H; rewrite (f_blocks_all nelim a D VV Pt O) by assumption; reflexivity).
    assert (apply nf (Wmat ne H C) (partial_sum nf V W x k) i = apply nf W (partial_sum nf V W x k) i) as E2 by (apply sumn_ext; intros j Hj; rewrite EW by assumption; reflexivity). lra.
Qed.
Print Assumptions isc_preconditioners.

Lemma made t llt nelim o a D b other P : scheduled t -> inverts llt -> good a -> partitioned nelim (structure a) ->
  definite (e_columns nelim (structure a)) (normal a D) ->
  (wants_ftf o = true -> definite (f_columns nelim (structure a)) (block_diagonal (skipn nelim (cols (structure a))) (corner (e_columns nelim (structure a)) (normal a D)))) ->
  given (f_columns nelim (structure a)) o other P ->
  match MakePreconditioner t o (InitSchur t llt nelim (wants_ftf o) a D b) other with
  | Fatal => False
  | UpdateFailed => other = None
  | Usable op => exists M, symmetric (f_columns nelim (structure a)) M /\ represents (f_columns nelim (structure a)) op M /\ (definite (f_columns nelim (structure a)) M \/ P M)
  end.
Proof.
  intros T I G Pt PE PB Gi. unfold MakePreconditioner, given in *. set (nf := f_columns nelim (structure a)) in *.
  assert (forall k, wants_ftf o = k -> k = true -> exists m V, ftf_inverse (InitSchur t llt nelim k a D b) = Some m /\ symmetric nf V /\ definite nf V /\ represents nf (block_times t (f_blocks (InitSchur t llt nelim k a D b)) m) V /\
    forall max, exists P, represents nf (PowerSeries t (InitSchur t llt nelim k a D b) m max 0) P /\ symmetric nf P /\ definite nf P) as X.
  { intros k E ->. destruct (isc_preconditioners t llt nelim a D b T I G Pt PE (PB E)) as [m [V [S [E1 [_ [SV [PV [_ [R [Pw _]]]]]]]]]]. exists m, V. repeat (split; [assumption|]). intro max. destruct (Pw max) as [Q [H1 [H2 [H3 _]]]]. exists Q. auto. }
  destruct (preconditioner_type o) eqn:Ty; try contradiction;
    try (destruct other as [op|]; [|reflexivity]; destruct (Gi op eq_refl) as [M [H1 [H2 H3]]]; exists M; auto).
  - exists eye. split; [apply eye_symmetric|]. split; [exact (identity_represents nf)|]. left. apply eye_definite.
  - destruct (X _ eq_refl) as [m [V [-> [H1 [H2 [H3 _]]]]]]; [unfold wants_ftf; rewrite Ty; apply orb_true_r|]. exists V. auto.
  - destruct (X _ eq_refl) as [m [V [-> [_ [_ [_ H]]]]]]; [unfold wants_ftf; rewrite Ty; apply orb_true_r|]. destruct (H (max_num_spse_iterations o)) as [Q [H1 [H2 H3]]]. exists Q. auto.
Qed.

(* ITERATIVE_SCHUR.  Whenever it does not report failure the equations of the eliminated
   unknowns hold; on failure the caller's vector is as it was; with the residual as the only
   test, success means that the residual of all the equations is small. *)
Theorem iterative_schur : forall t llt heap nelim o cached A D b other junk x0,
  scheduled t -> inverts llt ->
  let a := heap A in good a -> partitioned nelim (structure a) ->
  let ne := e_columns nelim (structure a) in let nf := f_columns nelim (structure a) in let n := num_columns a in
  let H := normal a D in let g := gradient a b in
  definite ne H -> (wants_ftf o = true -> definite nf (block_diagonal (skipn nelim (cols (structure a))) (corner ne H))) ->
  (cached = None \/ cached = Some A) -> given nf o other (fun _ => True) -> residual_reset_period (cg o) <> 0%Z ->
  exists r x, SolveSchur t llt heap nelim o cached A D b other junk x0 = Some (r, x, Some A) /\
    (forall i, (n <= i)%nat -> x i = x0 i) /\
    (termination r = FAILURE -> forall i, x i = x0 i) /\
    (termination r <> FAILURE -> same ne (residual n H g x) (fun _ => 0)) /\
    (r = NothingToReduce <-> nelim = length (cols (structure a))) /\
    (r = NothingToReduce -> same n (apply n H x) g) /\
    (r = PreconditionerFailed -> other = None) /\
    (termination r = SUCCESS -> use_spse_initialization o = false -> q_tolerance (cg o) <= 0 -> 0 <= r_tolerance (cg o) ->
       forall rhs, reduced_rhs ne nf H g rhs -> length_of n (residual n H g x) <= r_tolerance (cg o) * length_of nf rhs).
Proof.
  intros t llt heap nelim o cached A D b other junk x0 T I a G Pt ne nf n H g PE PB Hc Gi Hp.
  destruct (isc_products t llt nelim (wants_ftf o) a D b T I G Pt PE) as [N [Pr [_ [RR Ba]]]]. fold ne nf n H g in N, Pr, RR, Ba.
  destruct (isc_matrix t llt nelim (wants_ftf o) a D b T I G Pt PE) as [S [SS [RS [Sy [Sd [_ _]]]]]]. fold ne nf H in SS, RS, Sy, Sd.
  pose proof (made t llt nelim o a D b other _ T I G Pt PE PB Gi) as Mk.
  unfold SolveSchur. assert (match cached with Some a => a | None => A end = A) as -> by (destruct Hc; subst; reflexivity). fold a.
  set (s := InitSchur t llt nelim (wants_ftf o) a D b) in *. pose proof (pt_nelim _ _ Pt) as Ln.
  assert (forall z, same ne (residual n H g (BackSubstitute t s z x0)) (fun _ => 0)) as Bz by (intros z; rewrite N; exact (proj1 (proj2 (Ba z x0)))).
  assert (forall z i, (n <= i)%nat -> BackSubstitute t s z x0 i = x0 i) as Bo by (intros z; rewrite N; exact (proj2 (proj2 (proj2 (Ba z x0))))).
  destruct (Nat.eqb_spec (length (cols (structure a)) - nelim) 0) as [E0|E0].
  { assert (nf = 0%nat) as Zf by (unfold nf, f_columns; rewrite skipn_all2 by lia; reflexivity).
    assert (forall z, same n (residual n H g (BackSubstitute t s z x0)) (fun _ => 0)) as Bn by (intros z i Hi; apply Bz; lia).
    exists NothingToReduce, (BackSubstitute t s junk x0). split; [reflexivity|]. split; [apply Bo|]. split; [discriminate|]. split; [intros _; apply Bz|]. split; [split; [intros _; lia|reflexivity]|].
    split; [intros _ i Hi; specialize (Bn junk i Hi); unfold residual in Bn; lra|]. split; [discriminate|]. intros _ _ _ Hr rhs _.
    rewrite (length_same n _ (fun _ => 0) (Bn junk)). unfold length_of at 1. replace (inner n (fun _ => 0) (fun _ => 0)) with 0 by (symmetry; apply sumn_zero; intros; ring). rewrite sqrt_0. apply Rmult_le_pos; [exact Hr|apply sqrt_pos]. }
  assert (exists z0, (if use_spse_initialization o then match ftf_inverse s with Some m => Some (PowerSeries t s m (max_num_spse_iterations o) (spse_tolerance o) (s_rhs s) Zero) | None => None end else Some Zero) = Some z0 /\ (use_spse_initialization o = false -> z0 = Zero)) as [z0 [-> Ez0]].
  { destruct (use_spse_initialization o) eqn:Es; [|eauto]. unfold s, InitSchur. assert (wants_ftf o = true) as -> by (unfold wants_ftf; rewrite Es; reflexivity). cbn [ftf_inverse]. eexists. split; [reflexivity|discriminate]. }
  destruct (MakePreconditioner t o s other) as [| |op]; [contradiction| |].
  { exists PreconditionerFailed, x0. split; [reflexivity|]. split; [reflexivity|]. split; [reflexivity|]. split; [intro X; exfalso; apply X; reflexivity|]. split; [split; [discriminate|lia]|]. split; [discriminate|]. split; [intros _; exact Mk|discriminate]. }
  destruct Mk as [M [SM [RM _]]]. change (s_f s) with nf.
  destruct (cg_result nf S M (s_rhs s) z0 (cg o) (SchurTimes t s) op junk Sy SM RS RM Hp) as [sum [z [Ec _]]]. rewrite Ec.
  eexists (Iterated sum), _. split; [reflexivity|]. split; [destruct (termination_type sum); [apply Bo|apply Bo|reflexivity]|]. cbn [termination].
  split; [intros ->; reflexivity|]. split; [intro Nt; destruct (termination_type sum); [apply Bz|apply Bz|contradiction]|]. split; [split; [discriminate|lia]|]. split; [discriminate|]. split; [discriminate|].
  intros Ts Es Hq Hr rhs Rr. rewrite Ts. rewrite (Ez0 Es) in Ec. pose proof (cg_success nf S M (s_rhs s) Zero (cg o) (SchurTimes t s) op junk sum z Sy SM RS RM Hp (fun _ _ => eq_refl) Hq Hr Ec Ts) as Sm. unfold small_residual in Sm.
  rewrite (length_same nf (s_rhs s) rhs) in Sm by (exact (reduced_unique ne nf H PE g _ _ RR Rr)). destruct (Ba z x0) as [_ [Z [Lo _]]]. rewrite N. rewrite (lower_length ne nf _ Z). eapply Rle_trans; [|exact Sm]. apply Req_le. apply length_same.
  intros i Hi. rewrite (Lo i Hi). unfold residual. f_equal. exact (RS z i Hi).
Qed.
Print Assumptions iterative_schur.

(* With a definite preconditioner, room for as many iterations as there are unknowns and the
   residual as the only test it succeeds - unless more iterations are asked for than it takes
   to solve the equations: then it reports a failure. *)
Theorem iterative_schur_converges : forall t llt heap nelim o cached A D b other junk x0,
  scheduled t -> inverts llt ->
  let a := heap A in good a -> partitioned nelim (structure a) ->
  let ne := e_columns nelim (structure a) in let nf := f_columns nelim (structure a) in let n := num_columns a in
  let H := normal a D in let g := gradient a b in
  definite ne H -> (wants_ftf o = true -> definite nf (block_diagonal (skipn nelim (cols (structure a))) (corner ne H))) ->
  (cached = None \/ cached = Some A) -> given nf o other (definite nf) -> other <> None -> residual_reset_period (cg o) <> 0%Z ->
  use_spse_initialization o = false -> q_tolerance (cg o) <= 0 -> 0 <= r_tolerance (cg o) ->
  (0 <= min_num_iterations (cg o))%Z -> (min_num_iterations (cg o) <= max_num_iterations (cg o))%Z -> (Z.of_nat nf <= max_num_iterations (cg o))%Z ->
  exists r x, SolveSchur t llt heap nelim o cached A D b other junk x0 = Some (r, x, Some A) /\
    ((termination r = SUCCESS /\ forall rhs, reduced_rhs ne nf H g rhs -> length_of n (residual n H g x) <= r_tolerance (cg o) * length_of nf rhs) \/
     (termination r = FAILURE /\ (0 < min_num_iterations (cg o))%Z /\ forall i, x i = x0 i)).
Proof.
  intros t llt heap nelim o cached A D b other junk x0 T I a G Pt ne nf n H g PE PB Hc Gi Ho Hp Es Hq Hr Hm0 Hm1 Hm2.
  assert (given nf o other (fun _ => True)) as Gi' by (unfold given in *; destruct (preconditioner_type o); auto; intros op Eo; destruct (Gi op Eo) as [M [X [_ Y]]]; eauto).
  destruct (iterative_schur t llt heap nelim o cached A D b other junk x0 T I G Pt PE PB Hc Gi' Hp) as [r [x [E [_ [Fa [_ [_ [_ [Pf Su]]]]]]]]]. fold ne nf n H g in Su.
  exists r, x. split; [exact E|]. destruct (termination r) eqn:Tr; [left; split; [reflexivity|]; exact (Su eq_refl Es Hq Hr)|exfalso|right; split; [reflexivity|]; split; [|apply Fa; reflexivity]];
  (destruct r as [| |sum]; [discriminate|(discriminate || (exfalso; apply Ho, Pf; reflexivity))|]);
  cbn [termination] in Tr;
  destruct (isc_matrix t llt nelim (wants_ftf o) a D b T I G Pt PE) as [S [SS [RS [Sy [Sd [_ [sol Sol]]]]]]]; fold ne nf H in SS, RS, Sy, Sd;
  pose proof (made t llt nelim o a D b other _ T I G Pt PE PB Gi) as Mk;
  unfold SolveSchur in E; (assert (match cached with Some a => a | None => A end = A) as Ea by (destruct Hc; subst; reflexivity)); rewrite Ea in E; fold a in E;
  (destruct (length (cols (structure a)) - nelim =? 0)%nat; [discriminate|]); rewrite Es in E;
  (destruct (MakePreconditioner t o (InitSchur t llt nelim (wants_ftf o) a D b) other) as [| |op]; [discriminate|discriminate|]);
  destruct Mk as [M [SM [RM PM]]]; (assert (definite nf M) as PM' by (destruct PM; assumption)); change (s_f (InitSchur t llt nelim (wants_ftf o) a D b)) with nf in E;
  destruct (cg_solves nf S M (s_rhs (InitSchur t llt nelim (wants_ftf o) a D b)) Zero (cg o) (SchurTimes t (InitSchur t llt nelim (wants_ftf o) a D b)) op junk sol Sy SM RS RM Hp Sd Sol PM' Hr Hm0 Hm1 Hm2) as [sum' [z [Ec [_ R]]]];
  rewrite Ec in E; injection E as Er Ex; subst sum'; destruct R as [[R _]|[[R _]|[R [_ [_ R']]]]]; congruence || exact R'.
Qed.
Print Assumptions iterative_schur_converges.

(* CGNR: conjugate gradients on the normal equations themselves. *)
Theorem cgnr_operator : forall t a D b, scheduled t -> good a ->
  let n := num_columns a in let H := normal a D in
  (forall x y, same n (CgnrTimes t a D x y) (fun i => y i + apply n H x i)) /\ symmetric n H /\ semidefinite n H /\ same n (left_times t a b Zero) (gradient a b).
Proof.
  intros t a D b T G n H. split; [intros x y i Hi; apply cgnr_times; assumption|]. split; [apply normal_symmetric|]. split; [apply normal_semi|]. intros i _. apply cgnr_rhs; assumption.
Qed.
Print Assumptions cgnr_operator.
Theorem cgnr_jacobi : forall t llt a D, scheduled t -> inverts llt -> good a ->
  let n := num_columns a in let B := block_diagonal (cols (structure a)) (normal a D) in
  definite n B -> exists V, inverse_of n B V /\ symmetric n V /\ definite n V /\ represents n (block_times t (cols (structure a)) (JacobiInverse llt a D)) V.
Proof.
  intros t llt a D T I G n B PB. pose proof (jacobi_inverse llt a D I G PB) as IV. fold n B in IV. exists (Jmat llt a D).
  assert (symmetric n B) as SB. { intros i j Hi Hj. unfold B, block_diagonal. rewrite together_sym. destruct (together _ j i); [|reflexivity]. apply (normal_symmetric a D n); assumption. }
  split; [exact IV|]. split; [exact (inverse_symmetric n B _ SB IV)|]. split; [exact (inverse_definite n B _ SB PB IV)|]. intros x i Hi. rewrite (jacobi_times t llt a D T G). apply Rplus_0_l.
Qed.
Print Assumptions cgnr_jacobi.

Lemma small_residual_ext n A b b' k x : same n b b' -> small_residual n A b k x -> small_residual n A b' k x.
Proof.
  intros E Sm. unfold small_residual in *. rewrite <- (length_same n b b' E). rewrite (length_same n (residual n A b' x) (residual n A b x)); [exact Sm|]. intros i Hi. unfold residual. rewrite (E i Hi). reflexivity.
Qed.
(* The preconditioner made elsewhere: the subset one. *)
Theorem cgnr : forall t llt o a D b subset junk x0,
  scheduled t -> inverts llt -> good a ->
  let n := num_columns a in let H := normal a D in let g := gradient a b in
  match preconditioner_type o with
  | IDENTITY => True
  | JACOBI => definite n (block_diagonal (cols (structure a)) H)
  | SUBSET => exists M, symmetric n M /\ definite n M /\ represents n subset M
  | _ => False
  end ->
  residual_reset_period (cg o) <> 0%Z -> q_tolerance (cg o) <= 0 -> 0 <= r_tolerance (cg o) ->
  exists s x, SolveCgnr t llt o a D b subset junk x0 = Some (s, x) /\
    (forall i, (n <= i)%nat -> x i = x0 i) /\
    (termination_type s = SUCCESS -> small_residual n H g (r_tolerance (cg o)) x) /\
    ((0 <= min_num_iterations (cg o))%Z -> (min_num_iterations (cg o) <= max_num_iterations (cg o))%Z -> (Z.of_nat n <= max_num_iterations (cg o))%Z ->
       termination_type s = SUCCESS \/ (termination_type s = FAILURE /\ (0 < min_num_iterations (cg o))%Z /\ same n (apply n H x) g)).
Proof.
  intros t llt o a D b subset junk x0 T I G n H g Pre Hp Hq Hr. destruct (cgnr_operator t a D b T G) as [Ot [Sy [Sd Rh]]]. fold n H g in Ot, Sy, Sd, Rh.
  assert (represents n (CgnrTimes t a D) H) as RS by (intros x i Hi; rewrite (Ot x _ i Hi); apply Rplus_0_l).
  assert (exists op M, match preconditioner_type o with JACOBI => Some (block_times t (cols (structure a)) (JacobiInverse llt a D)) | SUBSET => Some subset | IDENTITY => Some (Identity (num_columns a)) | _ => None end = Some op /\ symmetric n M /\ definite n M /\ represents n op M) as [op [M [Eo [SM [PM RM]]]]].
  { destruct (preconditioner_type o); try contradiction.
    - exists (Identity n), eye. split; [reflexivity|]. split; [apply eye_symmetric|]. split; [apply eye_definite|apply identity_represents].
    - destruct (cgnr_jacobi t llt a D T I G Pre) as [V [_ [H1 [H2 H3]]]]. eauto 6.
    - destruct Pre as [M [H1 [H2 H3]]]. eauto 6. }
  unfold SolveCgnr. rewrite Eo. fold n. set (rhs := left_times t a b Zero) in *.
  destruct (cg_result n H M rhs Zero (cg o) (CgnrTimes t a D) op junk Sy SM RS RM Hp) as [s [z [Ec _]]]. rewrite Ec. eexists s, _. split; [reflexivity|].
  assert (same n (fun i => if (i <? n)%nat then z i else x0 i) z) as Ez by (intros i Hi; destruct (Nat.ltb_spec i n); [reflexivity|lia]).
  split; [intros i Hi; destruct (Nat.ltb_spec i n); [lia|reflexivity]|]. split.
  - intro Ts. apply (small_residual_ext n H rhs g _ _ Rh). pose proof (cg_success n H M rhs Zero (cg o) (CgnrTimes t a D) op junk s z Sy SM RS RM Hp (fun _ _ => eq_refl) Hq Hr Ec Ts) as Sm.
    unfold small_residual in *. rewrite (length_same n _ (residual n H rhs z)); [exact Sm|]. intros i Hi. unfold residual. f_equal. apply apply_same. exact Ez.
  - intros Hm0 Hm1 Hm2. destruct (solution_exists a D b) as [sol Sol]. fold n H g in Sol.
    assert (same n (apply n H sol) rhs) as Sol' by (intros i Hi; rewrite (Sol i Hi); symmetry; apply Rh; exact Hi).
    destruct (cg_solves n H M rhs Zero (cg o) (CgnrTimes t a D) op junk sol Sy SM RS RM Hp Sd Sol' PM Hr Hm0 Hm1 Hm2) as [s' [z' [Ec' [_ R]]]]. rewrite Ec in Ec'. injection Ec' as <- <-.
    destruct R as [[R _]|[[R _]|[R [R1 [_ R2]]]]]; [left; exact R|left; exact R|right]. split; [exact R|]. split; [exact R2|]. intros i Hi. rewrite (apply_same n H _ z i Ez), (R1 i Hi). apply Rh. exact Hi.
Qed.
Print Assumptions cgnr.

(* With a diagonal D without zeros (that of Levenberg-Marquardt) all the matrices that are
   inverted are definite. *)
Theorem regularised : forall a d nelim, good a -> partitioned nelim (structure a) -> (forall i, (i < num_columns a)%nat -> d i <> 0) ->
  let ne := e_columns nelim (structure a) in let nf := f_columns nelim (structure a) in let H := normal a (Some d) in
  definite (num_columns a) H /\ definite ne H /\ definite nf (block_diagonal (skipn nelim (cols (structure a))) (corner ne H)) /\ definite (num_columns a) (block_diagonal (cols (structure a)) H).
Proof.
  intros a d nelim G Pt Nd ne nf H. pose proof (regularised_definite a d Nd) as P. fold H in P.
  assert (num_columns a = (ne + nf)%nat) as N by (rewrite (g_columns _ G); unfold breadth, ne, nf, e_columns, f_columns; rewrite <- (firstn_skipn nelim (cols (structure a))) at 1; apply total_app).
  split; [exact P|]. split; [rewrite N in P; exact (lead_definite ne nf H P)|]. split; [rewrite N in P; apply (block_diagonal_definite (skipn nelim (cols (structure a)))); exact (corner_definite ne nf H P)|].
  rewrite (g_columns _ G) in *. apply block_diagonal_definite. exact P.
Qed.
Print Assumptions regularised.

(* RightMultiplyAndAccumulate of the implicit Schur complement and of the power series do
   not accumulate: they write over y. *)
Theorem isc_accumulate_refuted : forall t llt nelim a D b,
  scheduled t -> inverts llt -> good a -> partitioned nelim (structure a) ->
  let ne := e_columns nelim (structure a) in let nf := f_columns nelim (structure a) in
  definite ne (normal a D) -> (0 < nf)%nat ->
  let s := InitSchur t llt nelim true a D b in
  (forall x, SchurTimes t s x (fun _ => 1) 0%nat <> 1 + SchurTimes t s x Zero 0%nat) /\
  (definite nf (block_diagonal (skipn nelim (cols (structure a))) (corner ne (normal a D))) ->
   exists m, ftf_inverse s = Some m /\ forall max x, PowerSeries t s m max 0 x (fun _ => 1) 0%nat <> 1 + PowerSeries t s m max 0 x Zero 0%nat).
Proof.
  intros t llt nelim a D b T I G Pt ne nf PE Hn s. split.
  - intros x E. destruct (isc_products t llt nelim true a D b T I G Pt PE) as [_ [P _]]. fold ne nf s in P. pose proof (schur_unique ne nf (normal a D) PE x _ _ (P x (fun _ => 1)) (P x Zero) 0%nat Hn) as X. lra.
  - intro PB. exists (Finv t llt nelim a D). split; [reflexivity|]. intros max x E. unfold PowerSeries in E. change (s_f s) with nf in E. destruct (Nat.ltb_spec 0 nf); [|lia].
    destruct (power_series t llt nelim a D b true T (g_valid _ G) (g_transposed _ G) Pt max 0 x (fun _ => 1)) as [m1 [H1 [E1 [S1 [B1 _]]]]]. destruct (power_series t llt nelim a D b true T (g_valid _ G) (g_transposed _ G) Pt max 0 x Zero) as [m2 [H2 [E2 [S2 [B2 _]]]]].
    assert (forall m V, (max <= Z.of_nat m)%Z \/ Norm nf V < 0 * Norm nf (series nf (Vmat t llt nelim a D) (Wmat ne (normal a D) (Cmat t llt nelim a D)) x 0) -> (max <= Z.of_nat m)%Z) as Q.
    { intros m V [L|L]; [exact L|]. rewrite Rmult_0_l in L. unfold Norm in L. pose proof (sqrt_pos (Dot nf V V)). lra. }
    apply Q in S1. apply Q in S2. assert (m1 = m2) as Em.
    { destruct (Nat.lt_total m1 m2) as [L|[L|L]]; [|exact L|]; [destruct (B2 m1 ltac:(lia)); lia|destruct (B1 m2 ltac:(lia)); lia]. }
    specialize (E1 0%nat Hn). specialize (E2 0%nat Hn). rewrite Em, <- E2 in E1. unfold PowerSeries in E1. change (s_f s) with nf in E1. fold s in E1. change (s_f s) with nf in E1. destruct (Nat.ltb_spec 0 nf); [|lia]. lra.
Qed.
Print Assumptions isc_accumulate_refuted.

(* A solver that is used again with another matrix solves the equations of the first. *)
Definition one_by_one : Structure := mkStructure [mkBlock 1 0] [mkRow (mkBlock 1 0) [mkCell 0 0]].
Lemma one_good junk : good (Construct one_by_one junk).
Proof.
  assert (packed one_by_one) as P by (cbn; auto). apply construct_good; [|exact (packed_disjoint _ P)|exact (packed_contained _ P)].
  constructor; [cbn; auto|cbn; auto|]. intros row [<-|[]]. split; [repeat constructor; cbn; intuition lia|]. intros c [<-|[]]. cbn. lia.
Qed.
Lemma one_partitioned : partitioned 1 one_by_one.
Proof. constructor; [cbn; lia|]. exists [mkRow (mkBlock 1 0) [mkCell 0 0]], []. split; [reflexivity|]. split; [|intros row []]. intros row [<-|[]]. exists (mkCell 0 0), []. split; [reflexivity|]. split; [cbn; lia|intros c []]. Qed.
Lemma one_normal v : normal (Construct one_by_one (fun _ => v)) None 0%nat 0%nat = v * v.
Proof. unfold normal, entries, weight. cbn. ring. Qed.
Lemma one_gradient v : gradient (Construct one_by_one (fun _ => v)) (fun _ => 1) 0%nat = v.
Proof. unfold gradient, entries. cbn. ring. Qed.
Theorem iterative_schur_stale_refuted : exists heap o,
  good (heap 0%nat) /\ good (heap 1%nat) /\ structure (heap 0%nat) = structure (heap 1%nat) /\ partitioned 1 (structure (heap 1%nat)) /\ definite 1 (normal (heap 0%nat) None) /\ definite 1 (normal (heap 1%nat) None) /\
  forall t llt other junk x0, scheduled t -> inverts llt ->
  exists x1 x2, SolveSchur t llt heap 1 o None 0 None (fun _ => 1) other junk x0 = Some (NothingToReduce, x1, Some 0%nat) /\ x1 0%nat = 1 /\
    (* the second call is given matrix 1, whose solution is 1/2 *)
    SolveSchur t llt heap 1 o (Some 0%nat) 1 None (fun _ => 1) other junk x0 = Some (NothingToReduce, x2, Some 0%nat) /\ x2 0%nat = 1 /\
    ~ same 1 (apply 1 (normal (heap 1%nat) None) x2) (gradient (heap 1%nat) (fun _ => 1)).
Proof.
  set (heap := fun k : nat => Construct one_by_one (fun _ => if (k =? 0)%nat then 1 else 2)). set (o := mkLinear (mkOptions 0 1 1 0 0) IDENTITY false 0 0).
  assert (forall k, definite 1 (normal (heap k) None)) as Pd.
  { intros k v [i [Hi Ni]]. assert (i = 0%nat) by lia. subst i. unfold inner, apply. cbn [sumn]. unfold heap. rewrite one_normal. pose proof (Rsqr_pos_lt _ Ni) as P. unfold Rsqr in P. destruct (k =? 0)%nat; lra. }
  exists heap, o. split; [apply one_good|]. split; [apply one_good|]. split; [reflexivity|]. split; [exact one_partitioned|]. split; [apply Pd|]. split; [apply Pd|]. intros t llt other junk x0 T I.
  destruct (isc_products t llt 1 false (heap 0%nat) None (fun _ => 1) T I (one_good _) one_partitioned (Pd 0%nat)) as [_ [_ [_ [_ B]]]].
  destruct (B junk x0) as [_ [B1 _]]. specialize (B1 0%nat ltac:(cbn; lia)). unfold residual, apply in B1. change (e_columns 1 (structure (heap 0%nat)) + f_columns 1 (structure (heap 0%nat)))%nat with 1%nat in B1. cbn [sumn] in B1. unfold heap at 1 2 in B1. rewrite one_normal, one_gradient in B1. cbn [Nat.eqb] in B1.
  set (x := BackSubstitute t (InitSchur t llt 1 false (heap 0%nat) None (fun _ => 1)) junk x0) in *. assert (x 0%nat = 1) as E by lra.
  exists x, x. split; [reflexivity|]. split; [exact E|]. split; [reflexivity|]. split; [exact E|]. intro X. specialize (X 0%nat ltac:(lia)). unfold apply in X. cbn [sumn] in X. unfold heap in X. rewrite one_normal, one_gradient, E in X. cbn [Nat.eqb] in X. lra.
Qed.
Print Assumptions iterative_schur_stale_refuted.

(* ---------------- the hypotheses can be met ---------------- *)
Example one_thread_is_a_schedule : scheduled one_thread. Proof. exact one_thread_scheduled. Qed.
Example an_inverse_exists : inverts cg_llt. Proof. exact cg_llt_inverts. Qed.
Definition sample_matrix : BlockSparse := Construct sample INR.
Definition ones : vec := fun _ => 1.
Definition sample_options (ty : PreconditionerType) : LinearOptions := mkLinear (mkOptions 0 10 5 (/ 10) 0) ty false 5 0.
(* the 3 x 3 sample with one column eliminated, identity regularisation, power series *)
Example iterative_schur_sample : forall b junk x0, exists r x, SolveSchur one_thread cg_llt (fun _ => sample_matrix) 1 (sample_options SCHUR_POWER_SERIES_EXPANSION) None 0 (Some ones) b (Some (Identity 2)) junk x0 = Some (r, x, Some 0%nat) /\
  termination r = SUCCESS /\ residual 3 (normal sample_matrix (Some ones)) (gradient sample_matrix b) x 0%nat = 0.
Proof.
  intros b junk x0. destruct (regularised sample_matrix ones 1 (sample_good INR) sample_partitioned ltac:(intros; unfold ones; lra)) as [_ [PE [PB _]]].
  destruct (iterative_schur one_thread cg_llt (fun _ => sample_matrix) 1 (sample_options SCHUR_POWER_SERIES_EXPANSION) None 0 (Some ones) b (Some (Identity 2)) junk x0 one_thread_scheduled cg_llt_inverts (sample_good INR) sample_partitioned PE (fun _ => PB) (or_introl eq_refl) Logic.I ltac:(cbn; lia)) as [r [x [E [_ [_ [Z _]]]]]].
  destruct (iterative_schur_converges one_thread cg_llt (fun _ => sample_matrix) 1 (sample_options SCHUR_POWER_SERIES_EXPANSION) None 0 (Some ones) b (Some (Identity 2)) junk x0 one_thread_scheduled cg_llt_inverts (sample_good INR) sample_partitioned PE (fun _ => PB) (or_introl eq_refl) Logic.I ltac:(discriminate) ltac:(cbn; lia) eq_refl ltac:(cbn; lra) ltac:(cbn; lra) ltac:(cbn; lia) ltac:(cbn; lia) ltac:(cbn; lia)) as [r' [x' [E' R]]].
  rewrite E in E'. injection E' as <- <-. exists r, x. split; [exact E|]. destruct R as [[R _]|[_ [R _]]]; [|cbn in R; lia]. split; [exact R|]. apply Z; [rewrite R; discriminate|cbn; lia].
Qed.
Example cgnr_sample : forall b junk x0, exists s x, SolveCgnr one_thread cg_llt (sample_options JACOBI) sample_matrix (Some ones) b (Identity 3) junk x0 = Some (s, x) /\ termination_type s = SUCCESS /\
  small_residual 3 (normal sample_matrix (Some ones)) (gradient sample_matrix b) (/ 10) x.
Proof.
  intros b junk x0. destruct (regularised sample_matrix ones 1 (sample_good INR) sample_partitioned ltac:(intros; unfold ones; lra)) as [_ [_ [_ PB]]].
  destruct (cgnr one_thread cg_llt (sample_options JACOBI) sample_matrix (Some ones) b (Identity 3) junk x0 one_thread_scheduled cg_llt_inverts (sample_good INR) PB ltac:(cbn; lia) ltac:(cbn; lra) ltac:(cbn; lra)) as [s [x [E [_ [Sm C]]]]].
  exists s, x. split; [exact E|]. destruct (C ltac:(cbn; lia) ltac:(cbn; lia) ltac:(cbn; lia)) as [R|[_ [R _]]]; [|cbn in R; lia]. split; [exact R|exact (Sm R)].
Qed.
