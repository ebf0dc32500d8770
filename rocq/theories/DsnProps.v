(* Theorems for C86: DYNAMIC_SPARSE_NORMAL_CHOLESKY. *)
From Coq Require Import Reals List Arith Bool Lia Lra.
From Verif Require Import SparseModel SparseSpec SchurModel BlockSparseModel LsqModel LsqSpec LsqProofs LsqProofs4 DsnModel DsnSpec DsnProofs.
Import ListNotations.
Open Scope R_scope.

Lemma row_times_same n A A' x p : (forall p q, A p q = A' p q) -> row_times n A x p = row_times n A' x p.
Proof. intro E. apply sn_ext. intros. rewrite E. reflexivity. Qed.
Lemma objective_same m n A A' b D x : (forall p q, A p q = A' p q) -> objective m n A b D x = objective m n A' b D x.
Proof. intro E. unfold objective. f_equal. apply sn_ext. intros p _. rewrite (row_times_same n A A' x p E). reflexivity. Qed.

(* any sequence of calls on one matrix object, each with its right hand side and with or without a
   diagonal, with any of the libraries, whatever succeeds or fails: no CHECK fails; every call that
   reports success returns the minimizer for the matrix as it was at the start; it succeeds if the
   library does and the problem has full rank; after an early failure x is A'b; the matrix object
   stays as it was *)
Theorem dsn_solves t l A calls : jacobian A ->
  exists r, Solves t l A calls = Some r /\
    Forall2 (fun c o => let '(b, D) := c in let '(s, x, A') := o in let m := m_num_rows A in let n := m_num_cols A in
      (exact_library l -> s = SUCCESS -> minimizes m n (m_matrix A) b D x) /\
      (complete_library l -> full_rank m n (m_matrix A) D -> s = SUCCESS) /\
      (fails_early l -> forall q, x q = sumn m (fun p => m_matrix A p q * b p)) /\
      jacobian A' /\ unchanged A A') calls r.
Proof.
  intro J0. assert (unchanged A A) as U0 by (unfold unchanged; auto 8). revert U0. generalize J0. generalize A at 1 3 4 as B. induction calls as [|[b D] calls IH]; intros B J U; [exists []; split; [reflexivity|constructor]|].
  cbn [Solves]. destruct (solve_call t l B b D J) as [[[s x] A'] [E [H1 [H2 [H3 [J' U']]]]]]. rewrite E.
  pose proof (unchanged_trans _ _ _ U U') as U''. destruct (IH A' J' U'') as [r [Er F]]. rewrite Er. eexists. split; [reflexivity|]. constructor; [|exact F].
  destruct U as [N1 [N2 [_ [_ [_ M]]]]]. cbv zeta. rewrite <- N1, <- N2. split; [|split; [|split; [|split; [exact J'|exact U'']]]].
  - intros Ex Hs y. rewrite <- !(objective_same _ _ (m_matrix B) (m_matrix A) b D) by exact M. apply (H1 Ex Hs).
  - intros C Fr. apply (H2 C). intros v Hv Hw. apply Fr; [|exact Hw]. intros p Hp. rewrite <- (row_times_same _ (m_matrix B) (m_matrix A) v p M). apply Hv, Hp.
  - intros Fe q. rewrite (H3 Fe q). apply sn_ext. intros. rewrite M. reflexivity.
Qed.
Print Assumptions dsn_solves.

(* the three libraries are handed the same matrix, and what they return is the same whenever they
   succeed: there is only one minimizer *)
Theorem dsn_libraries_agree t t' l l' A b D x x' A1 A1' : jacobian A -> exact_library l -> exact_library l' -> full_rank (m_num_rows A) (m_num_cols A) (m_matrix A) D ->
  SolveImpl t l A b D = Some (SUCCESS, x, A1) -> SolveImpl t' l' A b D = Some (SUCCESS, x', A1') -> same (m_num_cols A) x x'.
Proof.
  intros J E E' F H H'. destruct (solve_call t l A b D J) as [o [Ho R]]. rewrite H in Ho. injection Ho as <-. destruct (solve_call t' l' A b D J) as [o' [Ho' R']]. rewrite H' in Ho'. injection Ho' as <-.
  cbn [call_result] in R, R'. exact (minimizer_unique _ _ _ _ _ _ _ F (proj1 R E eq_refl) (proj1 R' E' eq_refl)).
Qed.
Print Assumptions dsn_libraries_agree.

(* unlike the solver without dynamic sparsity, which zeroes x, a failed call leaves A'b in x *)
Theorem dsn_failure_not_zero : exists A b, jacobian A /\ forall t l, fails_early l -> exists s x A', SolveImpl t l A b None = Some (s, x, A') /\ x 0%nat = 6.
Proof.
  set (A := mkcrs 1 1 [0; 1]%nat [0]%nat [2] Unsymmetric [] []).
  assert (jacobian A) as J.
  { split; [|split; [reflexivity|left; split; reflexivity]]. constructor; try reflexivity.
    - intros [|r] Hr; cbn in *; lia.
    - intros [|i] Hi; cbn in *; lia. }
  exists A, (fun _ => 3). split; [exact J|]. intros t l F. destruct (solve_call t l A (fun _ => 3) None J) as [[[s x] A'] [E [_ [_ [H _]]]]]. exists s, x, A'. split; [exact E|].
  rewrite (H F). subst A. unfold m_matrix, m_entries. cbn. lra.
Qed.
Print Assumptions dsn_failure_not_zero.

(* ------------------------------------------------------------------ the contracts can be met *)
Definition gauss : Library := mkLibrary (nat -> nat -> R) (fun _ _ => true) (fun n M => if pivots n M then inl M else inr FAILURE) (fun n M rhs => (true, eliminate n M rhs)).
Definition broken : Library := mkLibrary (nat -> nat -> R) (fun _ _ => true) (fun _ _ => inr FAILURE) (fun n M rhs => (true, rhs)).
Theorem dsn_contracts_met : exact_library gauss /\ complete_library gauss /\ exact_library broken /\ fails_early broken.
Proof.
  split; [|split; [|split]].
  - split.
    + intros n M f rhs x _ _ Hn Hb. cbn in Hn, Hb. destruct (pivots n M) eqn:P; [|discriminate]. injection Hn as <-. injection Hb as <-. apply eliminate_solves, P.
    + intros n M t Hn. cbn in Hn. destruct (pivots n M); [discriminate|]. injection Hn as <-. discriminate.
  - intros n M P. split; [reflexivity|]. exists M. cbn. rewrite (positive_pivots n M P). split; [reflexivity|]. intros rhs. reflexivity.
  - split; [intros; discriminate|]. intros n M t Hn. injection Hn as <-. discriminate.
  - intros n M. right. exists FAILURE. reflexivity.
Qed.
Print Assumptions dsn_contracts_met.

(* a Jacobian with blocks: rows of size 2 and 1, columns of size 1 and 1; the arrays are longer than
   needed *)
Definition sample_jacobian : crs := mkcrs 3 2 [0; 1; 3; 4]%nat [0; 0; 1; 1; 7]%nat [1; 2; 3; 4; 9] Unsymmetric [(2, 0); (1, 2)]%nat [(1, 0); (1, 1)]%nat.
Example sample_is_jacobian : jacobian sample_jacobian.
Proof.
  split; [|split; [reflexivity|right; split; [discriminate|split; [discriminate|split]]]].
  - constructor; try reflexivity.
    + intros r Hr. do 3 (destruct r as [|r]; [cbn; lia|]). cbn in Hr. lia.
    + cbn. lia.
    + intros i Hi. do 4 (destruct i as [|i]; [cbn; lia|]). cbn in Hi. lia.
  - split; [cbn; auto|]. split; [reflexivity|]. repeat constructor; cbn; lia.
  - split; [cbn; auto|]. split; [reflexivity|]. repeat constructor; cbn; lia.
Qed.
Example sample_solves : exists s1 x1 A1 s2 x2 A2,
  Solves CUDA_SPARSE gauss sample_jacobian [((fun _ => 1), Some (fun _ => 2)); (INR, Some (fun _ => 5))] = Some [(s1, x1, A1); (s2, x2, A2)] /\
  s1 = SUCCESS /\ s2 = SUCCESS /\ minimizes 3 2 (m_matrix sample_jacobian) INR (Some (fun _ => 5)) x2 /\ m_row_blocks A2 = [(2, 0); (1, 2)]%nat /\ row_entries A2 1 = [(0%nat, 2); (1%nat, 3)].
Proof.
  destruct (dsn_solves CUDA_SPARSE gauss sample_jacobian [((fun _ => 1), Some (fun _ => 2)); (INR, Some (fun _ => 5))] sample_is_jacobian) as [r [E F]].
  inversion F as [|c1 o1 l1 r1 H1 F' e1 e1']. subst. inversion F' as [|c2 o2 l2 r2 H2 F'' e2 e2']. subst. inversion F''. subst. clear F F' F''.
  destruct o1 as [[s1 x1] A1], o2 as [[s2 x2] A2]. cbv zeta in H1, H2. destruct dsn_contracts_met as [Ex [Co _]].
  destruct H1 as [_ [C1 _]]. destruct H2 as [M2 [C2 [_ [_ [_ [_ [RB [_ [RE _]]]]]]]]].
  assert (forall d, (forall q, d q <> 0) -> full_rank 3 2 (m_matrix sample_jacobian) (Some d)) as Fr.
  { intros d Hd v _ Hw q Hq. specialize (Hw q Hq). cbn [weight] in Hw. apply Rmult_integral in Hw. destruct Hw as [Hw|Hw]; [exfalso; exact (Hd q Hw)|exact Hw]. }
  assert (s1 = SUCCESS) as T1 by (apply (C1 Co), Fr; intro; lra). assert (s2 = SUCCESS) as T2 by (apply (C2 Co), Fr; intro; lra).
  exists s1, x1, A1, s2, x2, A2. split; [exact E|]. split; [exact T1|]. split; [exact T2|]. split; [exact (M2 Ex T2)|]. split; [exact RB|]. rewrite (RE 1%nat ltac:(cbn; lia)). reflexivity.
Qed.
