(* C46: Schur elimination.  See SchurSpec.v for the vocabulary. *)
From Coq Require Import Reals List Arith Lia Lra Psatz Bool Sorting.Sorted Sorting.Permutation.
From Verif Require Import SchurModel SchurSpec SchurProofs SchurProofs2 SchurProofs3 SchurProofs4 SchurProofs5 SchurProofs6 SchurProofs7 SchurProofs8 SchurProofs9 SchurProofs10 SchurProofs11 SchurProofs12 SchurProofs13 SchurProofs14.
Import ListNotations.
Open Scope R_scope.

(* Initialisation succeeds, and every schedule of the threads gives the Schur complement of
   the normal equations on and above the diagonal, in the blocks that have storage. *)
Theorem schur_complement_exact invert nelim full bs values D stored b want :
  inverts invert -> well_formed nelim bs -> (want = true -> b <> None) ->
  exists st, Init nelim full bs = Some st /\
  (exists result, Eliminate invert stored st bs values b D want result) /\
  forall result, Eliminate invert stored st bs values b D want result ->
    (forall b1 b2 i j, (b1 <= b2)%nat -> (nelim + b2 < num_cols bs)%nat -> (i < width bs (nelim + b1))%nat -> (j < width bs (nelim + b2))%nat ->
       lhs result b1 b2 i j = if stored b1 b2 then schur invert full nelim bs values D (nelim + b1) i (nelim + b2) j else 0) /\
    (forall b', b = Some b' -> want = true -> forall f i, (nelim + f < num_cols bs)%nat -> (i < width bs (nelim + f))%nat ->
       rhs result (offset nelim bs f + i)%nat = schur_rhs invert full nelim bs values b' D (nelim + f) i).
Proof.
  intros Inv W Hw. destruct (init_some nelim full bs W) as [st [gs [tail [z [E I]]]]]. exists st. split; [exact E|].
  exact (eliminate_all invert nelim full bs values D st gs tail z Inv (wf_cols _ _ W) (wf_rows _ _ W) I stored b want Hw).
Qed.
Print Assumptions schur_complement_exact.

(* The sparse storage has a block wherever the Schur complement is not zero. *)
Theorem schur_sparse_storage nelim bs : well_formed nelim bs ->
  exists ps, block_pairs nelim bs = Some ps /\
    (forall i j, In (i, j) ps -> (i <= j /\ nelim + j < num_cols bs)%nat) /\
    forall invert full values D b1 b2, (b1 <= b2)%nat -> (nelim + b2 < num_cols bs)%nat -> sparse_stored ps b1 b2 = false ->
      forall i j, schur invert full nelim bs values D (nelim + b1) i (nelim + b2) j = 0.
Proof. exact (sparse_covers nelim bs). Qed.
Print Assumptions schur_sparse_storage.

(* Solving the reduced system and substituting back, in any order of the chunks, solves the
   normal equations; the result minimises |A x - b|^2 + |D x|^2.  With dense storage
   (ps = None) and with sparse storage. *)
Definition storage (nelim : nat) (bs : Structure) (sparse : bool) (stored : nat -> nat -> bool) : Prop :=
  if sparse then exists ps, block_pairs nelim bs = Some ps /\ stored = sparse_stored ps else stored = fun _ _ => true.
Lemma storage_ok nelim bs sparse stored : well_formed nelim bs -> storage nelim bs sparse stored ->
  forall invert full values D b1 b2, (b1 <= b2)%nat -> (nelim + b2 < num_cols bs)%nat -> stored b1 b2 = false -> forall i j, schur invert full nelim bs values D (nelim + b1) i (nelim + b2) j = 0.
Proof.
  intros W St. destruct sparse; cbn in St.
  - destruct St as [ps [E ->]]. destruct (sparse_covers nelim bs W) as [ps' [E' [_ H]]]. rewrite E in E'. injection E' as <-. exact H.
  - subst stored. discriminate.
Qed.
Theorem schur_solve invert nelim full bs values b D st sparse stored result z order :
  inverts invert -> well_formed nelim bs -> (full = true -> full_rank bs values D nelim) ->
  Init nelim full bs = Some st -> storage nelim bs sparse stored -> Eliminate invert stored st bs values (Some b) D true result ->
  solves_reduced nelim bs result z -> Permutation order (chunks st) ->
  exists x, SolveImpl invert st bs values b D z (total (cols bs)) (total (skipn nelim (cols bs))) order = Some x /\
    solves bs values b D x /\ (forall x', cost bs values b D x <= cost bs values b D x') /\
    forall f j, (nelim + f < num_cols bs)%nat -> (j < width bs (nelim + f))%nat -> x (position (col bs (nelim + f)) + j)%nat = z (offset nelim bs f + j)%nat.
Proof.
  intros Inv W FR E St El Hz Pm. destruct (init_unique nelim full bs st W E) as [gs [tail [zz I]]]. pose proof (wf_nelim _ _ W) as Wn.
  destruct (solve_correct invert nelim full bs values b D st gs tail zz Inv (wf_cols _ _ W) (wf_rows _ _ W) ltac:(lia) I FR stored result El (fun b1 b2 => storage_ok nelim bs sparse stored W St invert full values D b1 b2) z order Hz Pm) as [x [A [B C]]].
  exists x. split; [exact A|]. split; [exact B|]. split; [exact (solves_minimises bs values b D x B)|exact C].
Qed.
Print Assumptions schur_solve.

(* Conversely no solution is lost: the part of any solution of the normal equations that is
   not eliminated solves the reduced system. *)
Theorem schur_solve_complete invert nelim full bs values b D st sparse stored result x :
  inverts invert -> well_formed nelim bs -> (full = true -> full_rank bs values D nelim) ->
  Init nelim full bs = Some st -> storage nelim bs sparse stored -> Eliminate invert stored st bs values (Some b) D true result ->
  solves bs values b D x -> solves_reduced nelim bs result (fun p => x (total (firstn nelim (cols bs)) + p)%nat).
Proof.
  intros Inv W FR E St El Hx. destruct (init_unique nelim full bs st W E) as [gs [tail [zz I]]]. pose proof (wf_nelim _ _ W) as Wn.
  exact (solve_complete invert nelim full bs values b D st gs tail zz Inv (wf_cols _ _ W) (wf_rows _ _ W) ltac:(lia) I FR stored result El (fun b1 b2 => storage_ok nelim bs sparse stored W St invert full values D b1 b2) x Hx).
Qed.
Print Assumptions schur_solve_complete.

(* The parts of the buffers that a chunk uses lie within them and do not overlap. *)
Theorem schur_buffers nelim full bs st : well_formed nelim bs -> Init nelim full bs = Some st ->
  forall c, In c (chunks st) -> exists row e_cell cs, nth_error (rows bs) (start c) = Some row /\ cells row = e_cell :: cs /\ (block_id e_cell < nelim)%nat /\
    (forall f off, In (f, off) (buffer_layout c) -> (nelim <= f < num_cols bs)%nat /\ (off + width bs (block_id e_cell) * width bs f <= buffer_size st)%nat) /\
    (forall f off f' off', In (f, off) (buffer_layout c) -> In (f', off') (buffer_layout c) -> f <> f' ->
       (off + width bs (block_id e_cell) * width bs f <= off' \/ off' + width bs (block_id e_cell) * width bs f' <= off)%nat).
Proof. exact (buffers nelim full bs st). Qed.
Print Assumptions schur_buffers.

(* The variant for a single f block gives the same system and the same solution. *)
Theorem schur_one_f_block invert k_row k_e k_f nelim bs values b D st :
  inverts invert -> well_formed nelim bs -> num_cols bs = S nelim -> width bs nelim = k_f ->
  (forall row c cs, In row (rows bs) -> cells row = c :: cs -> (block_id c < nelim)%nat -> width bs (block_id c) = k_e /\ size (block row) = k_row) ->
  Init nelim true bs = Some st ->
  exists one l r invs, OneInit nelim bs = Some one /\ OneEliminate (invert true) k_row k_e k_f one bs values b D = Some (l, r, invs) /\
    (forall i j, (i < k_f)%nat -> (j < k_f)%nat -> l i j = schur invert true nelim bs values D nelim i nelim j) /\
    (forall i, (i < k_f)%nat -> r i = schur_rhs invert true nelim bs values b D nelim i) /\
    forall order z y, Permutation order (chunks st) -> (forall p, (p < total (firstn nelim (cols bs)))%nat -> y p = 0) ->
      exists x x', BackSubstitute invert st bs values b D z order y = Some x /\ OneBackSubstitute k_row k_e k_f bs values b z (one_chunks one) invs y = Some x' /\
        forall c i, (c < num_cols bs)%nat -> (i < width bs c)%nat -> x' (position (col bs c) + i)%nat = x (position (col bs c) + i)%nat.
Proof. exact (one_all invert k_row k_e k_f nelim bs values b D st). Qed.
Print Assumptions schur_one_f_block.

(* The requirement on the inverse can be met for every matrix. *)
Theorem schur_inverse_exists : inverts (fun _ => ginv).
Proof. exact inverts_exists. Qed.
Print Assumptions schur_inverse_exists.

(* An instance: points 0 and 1, camera 2, three rows of one residual each:
   x0 + 2 x2 = 3, 3 x1 + x2 = 4, 5 x2 = 5, solved by ones. *)
Definition ex_bs : Structure := mkStructure [mkBlock 1 0; mkBlock 1 1; mkBlock 1 2]
  [mkRow (mkBlock 1 0) [mkCell 0 0; mkCell 2 1]; mkRow (mkBlock 1 1) [mkCell 1 2; mkCell 2 3]; mkRow (mkBlock 1 2) [mkCell 2 4]].
Definition ex_values (p : nat) : R := nth p [1; 2; 3; 1; 5] 0.
Definition ex_b (p : nat) : R := nth p [3; 4; 5] 0.
Lemma ex_well_formed : well_formed 2 ex_bs.
Proof.
  constructor; cbn.
  - lia.
  - auto.
  - auto.
  - intros row H. assert (StronglySorted lt [0%nat; 2%nat]) by (repeat constructor). assert (StronglySorted lt [1%nat; 2%nat]) by (repeat constructor). assert (StronglySorted lt [2%nat]) by (repeat constructor).
destruct H as [<-|[<-|[<-|[]]]]; (split; [assumption|]); intros c Hc; cbn in Hc; repeat (match goal with Q : _ \/ _ |- _ => destruct Q | Q : False |- _ => destruct Q end); subst; unfold num_cols; cbn; lia.
  - exists [(0%nat, [mkRow (mkBlock 1 0) [mkCell 0 0; mkCell 2 1]]); (1%nat, [mkRow (mkBlock 1 1) [mkCell 1 2; mkCell 2 3]])], [mkRow (mkBlock 1 2) [mkCell 2 4]].
    split; [reflexivity|]. split; [repeat constructor; cbn; intuition discriminate|]. split; [discriminate|]. split.
    + intros e rs [Q|[Q|[]]]; injection Q as <- <-; (split; [lia|]); (split; [discriminate|]); intros row [<-|[]]; cbn; eexists; eexists; (split; [reflexivity|]); (split; [reflexivity|]); intros c [<-|[]]; cbn; lia.
    + intros row [<-|[]]. split; [discriminate|]. intros c [<-|[]]. cbn. lia.
Qed.
Lemma ex_solves : solves ex_bs ex_values ex_b None (fun _ => 1).
Proof.
  intros c i Hc Hi. unfold ex_bs, num_cols in Hc. cbn in Hc. assert (c = 0 \/ c = 1 \/ c = 2)%nat as Q by lia.
  assert (i = 0%nat) as -> by (destruct Q as [->|[->| ->]]; cbn in Hi; lia).
  destruct Q as [->|[->| ->]]; unfold normal, gradient, over_rows, entry, ex_values, ex_b; cbn; lra.
Qed.
Lemma ex_full_rank : full_rank ex_bs ex_values None 2.
Proof.
  intros e row c He _ _ _ v [i [Hi Hv]]. assert (e = 0 \/ e = 1)%nat as [-> | ->] by lia; cbn in Hi; assert (i = 0%nat) as -> by lia;
    unfold form, normal, over_rows, entry, ex_values; cbn; assert (0 < v 0%nat * v 0%nat) by nra; nra.
Qed.
Example schur_instance : well_formed 2 ex_bs /\ full_rank ex_bs ex_values None 2 /\ num_cols ex_bs = 3%nat /\
  exists st ps result, Init 2 true ex_bs = Some st /\ block_pairs 2 ex_bs = Some ps /\
    Eliminate (fun _ => ginv) (sparse_stored ps) st ex_bs ex_values (Some ex_b) None true result /\ solves_reduced 2 ex_bs result (fun _ => 1) /\ length (chunks st) = 2%nat.
Proof.
  split; [exact ex_well_formed|]. split; [exact ex_full_rank|]. split; [reflexivity|].
  destruct (schur_sparse_storage 2 ex_bs ex_well_formed) as [ps [Ep _]].
  destruct (schur_complement_exact (fun _ => ginv) 2 true ex_bs ex_values None (sparse_stored ps) (Some ex_b) true inverts_exists ex_well_formed ltac:(discriminate)) as [st [E [[result El] _]]].
  exists st, ps, result. split; [exact E|]. split; [exact Ep|]. split; [exact El|]. split.
  - apply (schur_solve_complete (fun _ => ginv) 2 true ex_bs ex_values ex_b None st true (sparse_stored ps) result (fun _ => 1) inverts_exists ex_well_formed (fun _ => ex_full_rank) E).
    + exists ps. split; [exact Ep|reflexivity].
    + exact El.
    + exact ex_solves.
  - vm_compute in E. injection E as <-. reflexivity.
Qed.
Print Assumptions schur_instance.
