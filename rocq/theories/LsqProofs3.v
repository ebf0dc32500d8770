(* Proofs for C73: SPARSE_NORMAL_CHOLESKY. *)
From Coq Require Import Reals List Arith Bool Lia Lra Psatz Sorted.
From Verif Require Import SparseModel SparseSpec SparseProps SchurModel BlockSparseModel BlockSparseSpec BlockSparseProofs4 BlockSparseProofs6 BlockSparseProps GramModel GramSpec GramProps LsqModel LsqSpec LsqProofs LsqProofs2.
Import ListNotations.
Open Scope R_scope.

Lemma rows_sum f : forall rs a, laid_out a (map block rs) ->
  BlockSparseSpec.suml rs (fun row => sumn (size (block row)) (fun k => f (position (block row) + k)%nat)) = sumn (total (map block rs)) (fun k => f (a + k)%nat).
Proof.
  induction rs as [|row rs IH]; intros a L; [reflexivity|]. destruct L as [L1 L2]. cbn [BlockSparseSpec.suml map total fold_right]. rewrite (IH _ L2), L1.
  change (fold_right (fun b n => (size b + n)%nat) 0%nat (map block rs)) with (total (map block rs)). rewrite sn_app. f_equal. apply sn_ext. intros i _. f_equal. lia.
Qed.
Lemma gram_all bs vs p q : valid bs -> gram bs vs 0 (length (rows bs)) p q = sumn (height bs) (fun k => dense bs vs k p * dense bs vs k q).
Proof.
  intro V. unfold gram. rewrite Nat.sub_0_r. cbn [skipn]. rewrite firstn_all. unfold height. exact (rows_sum (fun k => dense bs vs k p * dense bs vs k q) (rows bs) 0%nat (v_rows _ V)).
Qed.

(* the structure that the inner products are computed from *)
Definition aug (A : BlockSparse) (D : option vec) : Structure :=
  match D with
  | Some _ => appended A (mkBlockSparse (mkStructure (cols (structure A)) (DiagonalRows (cols (structure A)) 0 0)) (mkStructure [] []) (fun _ => 0) 0 0 0 0)
  | None => structure A
  end.
Definition consistent (lower : bool) (A : BlockSparse) (D : option vec) (st : SparseState) : Prop :=
  match st with
  | None => True
  | Some (r, e, _) => r = Create (aug A D) 0 (length (rows (aug A D))) lower /\ e = length (rows (aug A D))
  end.
Lemma aug_ordered A D : ordered_cells (structure A) -> ordered_cells (aug A D).
Proof.
  intros [H1 H2]. destruct D as [d|]; [|split; assumption]. split.
  - intros row Hr. cbn [aug appended rows structure] in Hr. apply in_app_iff in Hr. destruct Hr as [Hr|Hr]; [apply H1, Hr|].
    apply in_map_iff in Hr. destruct Hr as [row' [<- Hr']]. destruct (diagonal_cells _ _ _ _ Hr') as [j [q [E _]]]. unfold shift_row. cbn [cells]. rewrite E. cbn [map]. constructor; constructor.
  - exact H2.
Qed.

(* appending the diagonal and taking it away *)
Record prepared (A : BlockSparse) (D : option vec) (A1 : BlockSparse) : Prop := {
  pr_good : good A1;
  pr_structure : structure A1 = aug A D;
  pr_columns : num_columns A1 = num_columns A;
  pr_gram : forall i j, (i < num_columns A)%nat -> (j < num_columns A)%nat ->
    gram (structure A1) (values A1) 0 (length (rows (structure A1))) i j = normal_matrix (num_rows A) (entries A) D i j }.
Lemma prepare A D junk : good A -> exists A1,
  (match D with Some d => AppendRows A (CreateDiagonalMatrix d (cols (structure A)) junk) junk | None => Some A end) = Some A1 /\ prepared A D A1 /\
  exists A2, (match D with Some _ => DeleteRowBlocks A1 (length (cols (structure A1))) | None => Some A1 end) = Some A2 /\ good A2 /\
    structure A2 = structure A /\ transposed A2 = transposed A /\ nnz A2 = nnz A /\ num_rows A2 = num_rows A /\ num_columns A2 = num_columns A /\
    (forall i, (i < nnz A)%nat -> values A2 i = values A i) /\ (forall p q, entries A2 p q = entries A p q).
Proof.
  intro G. destruct D as [d|].
  - destruct (bs_diagonal d (cols (structure A)) junk (v_cols _ (g_valid _ G))) as [Gd [Pd [Cd [Ld [Rd Ed]]]]]. set (R := CreateDiagonalMatrix d (cols (structure A)) junk) in *.
    destruct (bs_append A R junk G Gd Cd Pd) as [A1 [E1 [G1 [C1 [L1 [R1 [W1 [S1 _]]]]]]]].
    destruct (bs_restore A R junk G Gd Cd Pd) as [A1' [A2 [E1' [E2 [G2 [T1 [T2 [T3 [T4 [T5 [T6 T7]]]]]]]]]]]. rewrite E1 in E1'. injection E1' as <-.
    exists A1. split; [exact E1|]. split.
    + constructor; [exact G1| |exact W1|].
      * rewrite (append_result A R junk G Gd Cd Pd) in E1. injection E1 as <-. reflexivity.
      * intros i j Hi Hj. rewrite (gram_all _ _ i j (g_valid _ G1)), <- (g_rows _ G1), R1, sn_app. unfold normal_matrix. f_equal.
        -- apply sn_ext. intros k Hk. fold (entries A1). rewrite !S1. unfold stacked. apply Nat.ltb_lt in Hk. rewrite Hk. reflexivity.
        -- rewrite Rd. rewrite (sn_ext _ _ (fun k => if (i =? k)%nat then (if (j =? k)%nat then d k * d k else 0) else 0)).
           ++ rewrite (g_columns _ G) in Hi. unfold breadth in Hi. rewrite (sn_pick _ i (fun k => if (j =? k)%nat then d k * d k else 0) Hi). rewrite (Nat.eqb_sym j i). reflexivity.
           ++ intros k Hk. fold (entries A1). rewrite !S1. unfold stacked. assert (num_rows A + k <? num_rows A = false)%nat as -> by (apply Nat.ltb_ge; lia).
              replace (num_rows A + k - num_rows A)%nat with k by lia. rewrite !Ed. apply Nat.ltb_lt in Hk. rewrite Hk. cbn [andb]. rewrite (Nat.eqb_sym k i), (Nat.eqb_sym k j). destruct (i =? k)%nat, (j =? k)%nat; ring.
    + exists A2. rewrite C1. rewrite Ld in E2. split; [exact E2|]. auto 12.
  - exists A. split; [reflexivity|]. split.
    + constructor; [exact G|reflexivity|reflexivity|]. intros i j _ _. rewrite (gram_all _ _ i j (g_valid _ G)), <- (g_rows _ G). unfold normal_matrix. cbn [weight]. destruct (i =? j)%nat; fold (entries A); ring.
    + exists A. split; [reflexivity|]. split; [exact G|]. auto 12.
Qed.

(* one call: what it leaves, and what it solves *)
Definition solved (c : Cholesky) (iterations m n : nat) (A : nat -> nat -> R) (b : vec) (D : option vec) (t : Termination) (x : vec) : Prop :=
  exists (M : matrix) (multiply : vec -> vec) (rhs : vec),
    (forall i j, (i < n)%nat -> (j < n)%nat -> M i j = normal_matrix m A D i j) /\
    (forall s, same n (multiply s) (row_times n (normal_matrix m A D) s)) /\
    same n rhs (normal_rhs m A b) /\
    (t, x) = match factorize c n M with
      | None => (FAILURE, fun _ => 0)
      | Some f => (SUCCESS, Refine multiply (solve c n f) rhs iterations (solve c n f rhs)) end.
Lemma sparse_step c k lower st junk junk' A b D : good A -> ordered_cells (structure A) -> consistent lower A D st ->
  exists t x A' v', SparseNormalCholesky c k lower st junk junk' A b D = Some (t, x, A', Some (Create (aug A D) 0 (length (rows (aug A D))) lower, length (rows (aug A D)), v')) /\
    solved c k (num_rows A) (num_columns A) (entries A) b D t x /\ good A' /\
    structure A' = structure A /\ transposed A' = transposed A /\ nnz A' = nnz A /\ num_rows A' = num_rows A /\ num_columns A' = num_columns A /\
    (forall i, (i < nnz A)%nat -> values A' i = values A i) /\ (forall p q, entries A' p q = entries A p q).
Proof.
  intros G O Cs. destruct (prepare A D junk G) as [A1 [E1 [[G1 S1 W1 N1] [A2 [E2 R2]]]]].
  unfold SparseNormalCholesky. cbv zeta. rewrite E1. clear E1.
  pose proof (aug_ordered A D O) as O1. rewrite <- S1 in O1.
  assert (exists v0, (match st with Some s => s | None => (Create (structure A1) 0 (length (rows (structure A1))) lower, length (rows (structure A1)), junk') end) =
    (Create (structure A1) 0 (length (rows (structure A1))) lower, length (rows (structure A1)), v0)) as [v0 Es].
  { destruct st as [[[r e] v0]|]; [|eexists; reflexivity]. destruct Cs as [-> ->]. rewrite S1. eexists. reflexivity. }
  rewrite Es. clear Es.
  destruct (inner_product (structure A1) (values A1) 0 (length (rows (structure A1))) lower v0 (fun _ => 0%nat) (g_valid _ G1) O1) as [v [Ev _]].
  rewrite Ev, E2. clear E2.
  assert (num_columns A1 = breadth (structure A1)) as Hb by exact (g_columns _ G1).
  assert (breadth (structure A1) = num_columns A) as Hb' by congruence.
  pose proof (result_read (structure A1) (values A1) lower v0 (g_valid _ G1) O1 v Ev) as RR.
  pose proof (result_times (structure A1) (values A1) lower v0 (g_valid _ G1) O1 v Ev) as RT. rewrite <- Hb in RR, RT.
  set (M := result_matrix lower (num_columns A1) (Create (structure A1) 0 (length (rows (structure A1))) lower) v) in *.
  destruct (SparseFactorAndSolve c k M _ _) as [t x] eqn:Ef. exists t, x, A2, v. rewrite <- S1. split; [reflexivity|]. split; [|exact R2].
  unfold SparseFactorAndSolve in Ef. change (m_num_cols M) with (num_columns A1) in Ef. rewrite W1 in *.
  eexists. eexists. eexists. split; [|split; [|split; [|symmetry; exact Ef]]].
  - intros i j Hi Hj. rewrite (RR i j Hi Hj). apply N1; assumption.
  - intros s p Hp. rewrite (RT s p Hp). apply row_times_ext; [|intros q _; reflexivity]. intros q Hq. apply N1; assumption.
  - intros q Hq. rewrite (proj1 (proj2 (proj2 (proj2 (bs_products (structure A) (values A) b (fun _ => 0) (g_valid _ G)))))). unfold transpose_times, normal_rhs. rewrite (g_rows _ G), Rplus_0_l. reflexivity.
Qed.

(* ---------------- consequences ---------------- *)
Lemma dot_symmetric n M v w : symmetric_matrix n M -> sumn n (fun i => v i * row_times n M w i) = sumn n (fun i => w i * row_times n M v i).
Proof.
  intro S. unfold row_times. transitivity (sumn n (fun i => sumn n (fun j => v i * M i j * w j))).
  - apply sn_ext. intros. rewrite <- sn_scal. apply sn_ext. intros. ring.
  - rewrite sn_swap. apply sn_ext. intros j Hj. rewrite <- sn_scal. apply sn_ext. intros i Hi. rewrite (S i j Hi Hj). ring.
Qed.
(* a symmetric matrix that can be solved with for every right hand side is injective *)
Lemma solvable_injective n M sv : symmetric_matrix n M -> (forall rhs, same n (row_times n M (sv rhs)) rhs) ->
  forall v, same n (row_times n M v) (fun _ => 0) -> same n v (fun _ => 0).
Proof.
  intros S H v Hv.
  assert (sumn n (fun i => v i * v i) = 0) as Z.
  { transitivity (sumn n (fun i => v i * row_times n M (sv v) i)); [apply sn_ext; intros i Hi; rewrite (H v i Hi); reflexivity|]. rewrite (dot_symmetric n M v _ S). apply sn_zero. intros i Hi. rewrite (Hv i Hi). ring. }
  intros q Hq. pose proof (sn_zero_inv n (fun i => v i * v i) ltac:(intros; nra) Z q Hq) as E. cbv beta in E. nra.
Qed.
Lemma normal_symmetric m n A D : symmetric_matrix n (normal_matrix m A D).
Proof. intros i j _ _. unfold normal_matrix. f_equal; [apply sn_ext; intros; ring|]. rewrite Nat.eqb_sym. destruct (Nat.eqb_spec j i) as [->|]; reflexivity. Qed.
Lemma solved_exact c k m n A b D t x : exact_cholesky c -> solved c k m n A b D t x -> t = SUCCESS -> normal_eq m n A b D x.
Proof.
  intros Ex [M [multiply [rhs [EM [HT [HR Er]]]]]] Ht. destruct (factorize c n M) as [f|] eqn:Ef; injection Er as Et Ex'; [|congruence]. subst x. clear Et.
  assert (symmetric_matrix n M) as SM by (intros i j Hi Hj; rewrite !EM by assumption; apply (normal_symmetric m n A D); assumption).
  destruct (Ex n M f SM Ef) as [Sv _].
  assert (forall r, same n (row_times n (normal_matrix m A D) (solve c n f r)) r) as Sv'.
  { intros r q Hq. rewrite <- (Sv r q Hq). apply row_times_ext; [|intros i _; reflexivity]. intros j Hj. symmetry. apply EM; assumption. }
  assert (same n (Refine multiply (solve c n f) rhs k (solve c n f rhs)) (solve c n f rhs)) as Fx.
  { apply refine_fixed.
    - intros s Hs q Hq. rewrite (HT s q Hq), <- (Sv' rhs q Hq). apply row_times_ext; [intros; reflexivity|exact Hs].
    - intros r Hr. apply (solvable_injective n (normal_matrix m A D) (solve c n f) (normal_symmetric m n A D) Sv'). intros q Hq. rewrite (Sv' r q Hq). apply Hr, Hq. }
  intros q Hq. rewrite <- (HR q Hq), <- (Sv' rhs q Hq). apply row_times_ext; [intros; reflexivity|exact Fx].
Qed.
Lemma solved_complete c k m n A b D t x : complete_cholesky c -> full_rank m n A D -> solved c k m n A b D t x -> t = SUCCESS.
Proof.
  intros C F [M [multiply [rhs [EM [_ [_ Er]]]]]]. destruct (C n M) as [f Ef]; [apply (positive_ext n _ (normal_matrix m A D)); [exact EM|apply normal_positive, F]|]. rewrite Ef in Er. congruence.
Qed.
Lemma solved_inexact c k m n A b D t x size rho sol : measures n size -> 0 <= rho -> (forall M f, symmetric_matrix n M -> factorize c n M = Some f -> accurate c n M f size rho) ->
  normal_eq m n A b D sol -> solved c k m n A b D t x -> t = SUCCESS -> size (fun i => sol i - x i) <= rho ^ S k * size sol.
Proof.
  intros Ms Hr Acc N [M [multiply [rhs [EM [HT [HR Er]]]]]] Ht. destruct (factorize c n M) as [f|] eqn:Ef; injection Er as Et Ex'; [|congruence]. subst x. clear Et.
  assert (symmetric_matrix n M) as SM by (intros i j Hi Hj; rewrite !EM by assumption; apply (normal_symmetric m n A D); assumption).
  pose proof (Acc M f SM Ef) as Ac.
  assert (forall z r, same n (multiply z) r -> size (fun i => z i - solve c n f r i) <= rho * size z) as Ac'.
  { intros z r Hz. apply Ac. intros q Hq. rewrite <- (Hz q Hq), (HT z q Hq). apply row_times_ext; [|intros i _; reflexivity]. intros j Hj. apply EM; assumption. }
  assert (same n (multiply sol) rhs) as Hs by (intros q Hq; rewrite (HT sol q Hq), (HR q Hq); apply N, Hq).
  eapply Rle_trans; [apply (refine_contracts multiply (solve c n f) rhs n size rho sol k Ms Hr)|].
  - intros s q Hq. cbv beta. rewrite (HT (fun j => sol j - s j) q Hq), row_times_minus, <- (HT s q Hq), <- (HT sol q Hq), (Hs q Hq). reflexivity.
  - exact Ac'.
  - cbn [pow]. rewrite (Rmult_comm rho), Rmult_assoc. apply Rmult_le_compat_l; [apply pow_le, Hr|]. apply (Ac' sol rhs Hs).
Qed.

(* a sequence of calls *)
Definition outcome (c : Cholesky) (k : nat) (A : BlockSparse) (call : Call) (o : Termination * vec * BlockSparse) : Prop :=
  let '(t, x, A') := o in
  solved c k (num_rows A) (num_columns A) (dense (structure A) (c_values call)) (c_b call) (c_D call) t x /\ good A' /\
  structure A' = structure A /\ transposed A' = transposed A /\ nnz A' = nnz A /\ num_rows A' = num_rows A /\ num_columns A' = num_columns A /\
  forall i, (i < nnz A)%nat -> values A' i = c_values call i.
Lemma with_new_good A v : good A -> good (with_new A v).
Proof. intros [H1 H2 H3 H4 H5 H6 H7 H8]. constructor; assumption. Qed.
Lemma with_new_entries A v p q : good A -> entries (with_new A v) p q = dense (structure A) v p q.
Proof. intro G. unfold entries. cbn [structure values with_new]. apply (dense_agree (structure A) (nnz A)); [exact (g_contained _ G)|]. intros a Ha. rewrite (proj2 (Nat.ltb_lt _ _) Ha). reflexivity. Qed.
Lemma solved_ext c k m n A A' b D t x : (forall p q, A p q = A' p q) -> solved c k m n A b D t x -> solved c k m n A' b D t x.
Proof.
  intros E [M [mu [rhs [H1 [H2 [H3 H4]]]]]]. exists M, mu, rhs.
  assert (forall i j, normal_matrix m A D i j = normal_matrix m A' D i j) as EN by (intros; unfold normal_matrix; f_equal; apply sn_ext; intros; rewrite !E; reflexivity).
  split; [intros; rewrite <- EN; apply H1; assumption|]. split; [|split; [|exact H4]].
  - intros s q Hq. rewrite (H2 s q Hq). apply row_times_ext; [intros; apply EN|intros ? _; reflexivity].
  - intros q Hq. rewrite (H3 q Hq). unfold normal_rhs. apply sn_ext. intros. rewrite E. reflexivity.
Qed.
Definition given (D : option vec) : bool := match D with Some _ => true | None => false end.
Lemma aug_same A A' D D' : structure A' = structure A -> nnz A' = nnz A -> num_rows A' = num_rows A -> given D' = given D -> aug A' D' = aug A D.
Proof. intros E1 E2 E3 E4. destruct D, D'; try discriminate; cbn [aug]; [|exact E1]. unfold appended. rewrite E1, ?E2, ?E3. reflexivity. Qed.
Lemma calls_outcome c k lower g A0 : good A0 -> ordered_cells (structure A0) -> forall calls A D0 st,
  good A -> structure A = structure A0 -> transposed A = transposed A0 -> nnz A = nnz A0 -> num_rows A = num_rows A0 -> num_columns A = num_columns A0 ->
  given D0 = g -> (forall call, In call calls -> given (c_D call) = g) -> consistent lower A D0 st ->
  exists l, SparseCalls c k lower st A calls = Some l /\ Forall2 (outcome c k A0) calls l.
Proof.
  intros G0 O0. induction calls as [|call calls IH]; intros A D0 st G ES ET EN ER EC HD HC Cs; [exists []; split; [reflexivity|constructor]|].
  cbn [SparseCalls]. set (A1 := with_new A (c_values call)).
  assert (given (c_D call) = g) as Hg by (apply HC; left; reflexivity).
  assert (consistent lower A1 (c_D call) st) as Cs1.
  { destruct st as [[[r e] v]|]; [|exact I]. cbn [consistent] in *. rewrite (aug_same A A1 D0 (c_D call)) by (reflexivity || congruence). exact Cs. }
  assert (good A1) as G1 by (apply with_new_good, G).
  destruct (sparse_step c k lower st (c_junk call) (c_junk' call) A1 (c_b call) (c_D call) G1 ltac:(cbn [structure with_new A1]; unfold A1, with_new; cbn [structure]; rewrite ES; exact O0) Cs1)
    as [t [x [A' [v' [E [Sv [G' [S' [T' [N' [R' [C' [V' _]]]]]]]]]]]]]. rewrite E.
  destruct (IH A' (c_D call) (Some (Create (aug A1 (c_D call)) 0 (length (rows (aug A1 (c_D call)))) lower, length (rows (aug A1 (c_D call))), v'))) as [l [El Fl]].
  - exact G'.
  - rewrite S'. exact ES.
  - rewrite T'. exact ET.
  - rewrite N'. exact EN.
  - rewrite R'. exact ER.
  - rewrite C'. exact EC.
  - exact Hg.
  - intros call' Hc. apply HC. right. exact Hc.
  - cbn [consistent]. rewrite (aug_same A1 A' (c_D call) (c_D call)) by (assumption || reflexivity). split; reflexivity.
  - rewrite El. eexists. split; [reflexivity|]. constructor; [|exact Fl]. cbn [outcome]. split.
    + unfold A1 in Sv. cbn [num_rows num_columns with_new] in Sv. rewrite ER, EC in Sv. apply (solved_ext _ _ _ _ (entries (with_new A (c_values call)))); [|exact Sv]. intros p q. rewrite (with_new_entries A _ p q G), ES. reflexivity.
    + split; [exact G'|]. rewrite S', T', N', R', C'. unfold A1, with_new. cbn [structure transposed nnz num_rows num_columns]. split; [exact ES|]. split; [exact ET|]. split; [exact EN|]. split; [exact ER|]. split; [exact EC|].
      intros i Hi. rewrite V' by (unfold A1, with_new; cbn [nnz]; lia). unfold A1, with_new. cbn [values]. destruct (Nat.ltb_spec i (nnz A)); [reflexivity|lia].
Qed.
