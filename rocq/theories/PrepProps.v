(* C81: a program prepared for a linear solver. *)
From Coq Require Import Reals ZArith List Arith Bool Lia Permutation Sorting.Sorted.
From Verif Require Import ZMap OrderedGroupsModel OrderedGroupsProofs SolveOrderingSpec SolveOrderingProofs SchurModel SchurSpec SchurProps SparseModel BlockSparseModel JacobianModel JacobianSpec JacobianProofs6 PrepModel PrepSpec PrepProofs PrepProofs2 PrepProofs3 PrepProofs4 PrepProofs5.
Import ListNotations.
Close Scope Z_scope. Close Scope R_scope. Open Scope nat_scope.

(* A Schur type solver: never an abort; refused exactly when the user's first group of several has
   two blocks in one residual block; otherwise the same program in another order, the blocks of the
   first group in front, and no residual block with two of them. *)
Theorem prep_schur B T F s lib is_amd known o p : schur_type s -> sound_tools T -> working T -> reduced F p -> covers o p -> (forall b, In b (blocks p) -> In b known) ->
  let result := Reorder B T F s lib is_amd known o p in
  result <> Aborted /\ (result = Refused <-> ~ one_group o /\ ~ independent F p (in_first o)) /\
  forall p' o', result = Ready p' o' -> rearranged p p' /\ reduced F p' /\ (forall b, has o' b <-> In b (blocks p)) /\
    independent F p (in_first o') /\
    (exists k rest, EliminationGroups o' = k :: rest /\ rest <> [] /\ 1 <= k <= length (blocks p') /\ forall b, In b (firstn k (blocks p')) <-> in_first o' b) /\
    (one_group o -> maximal F p (in_first o') /\ forall b, In b (blocks p) -> (in_first o' b /\ group_id b o' = 0%Z) \/ (~ in_first o' b /\ group_id b o' = 1%Z)) /\
    (~ one_group o -> o' = o) /\
    (~ (s = SparseSchur /\ lib = EigenSparse /\ has_eigen B = true) -> forall b b', before (blocks p') b b' -> (group_id b o' <= group_id b' o')%Z).
Proof.
  intros SC ST WT R C KN result. assert (EQ : result = ReorderSchur B T F s lib is_amd known o p) by (unfold result; destruct SC as [->|[->| ->]]; reflexivity).
  destruct (schur_ready B T F s lib is_amd known o p ST WT R C KN) as [[E [N1 N2]]|[p1 [o1 [E [Q1 Q2]]]]]; rewrite <- EQ in E.
  - split; [congruence|]. split; [tauto|]. intros p' o' X. congruence.
  - split; [congruence|]. split; [split; [congruence|tauto]|]. intros p' o' X. rewrite E in X. injection X as <- <-.
    destruct Q2 as [O' [H' [es [FG [RE [BE [IND [BG [K [N2 [SO OB]]]]]]]]]]]. destruct (first_group o1 es O' FG) as [NE [NN IN]].
    split; [auto|]. split; [eapply reduced_again; eauto|]. split; [auto|]. split; [intros r a b Hr Ua Ub Ia Ib; apply (IND r); auto; now apply IN|]. split.
    { unfold EliminationGroups, FirstGroup in *. destruct (g2e o1) as [|[g sset] rest]; [discriminate|]. injection FG as <-. cbn [map length snd].
      assert (LE : length (zkeys sset) = length sset) by (unfold zkeys; apply map_length). rewrite LE in K. rewrite map_length. exists (length sset).
      assert (Q : forall b, In b (firstn (length sset) (blocks p1)) <-> in_first o1 b) by (intros b; rewrite <- LE, <- IN; apply BE).
      destruct rest as [|x rest]; [exists [0]|eexists]; (split; [reflexivity|]); (split; [discriminate|]); auto. }
    split; [|split].
    + intros ONE. destruct OB as [[_ [MX GI]]|[N _]]; [|contradiction]. split.
      * intros b Hb NB. destruct (MX b Hb) as [r [a [Hr [Ia [Ua Ub]]]]]; [now rewrite IN|]. exists r, a. split; [auto|]. split; [now apply IN|auto].
      * intros b Hb. rewrite (GI b Hb), <- IN. destruct (in_dec Z.eq_dec b es); auto.
    + intros N. destruct OB as [[ONE _]|[_ OE]]; [contradiction|auto].
    + intros NE' b b' BF. eapply by_groups_before; [|exact BF]. apply BG. exact NE'.
Qed.
Print Assumptions prep_schur.

(* The Jacobian then has the structure Schur elimination is exact for: the hypothesis of the
   theorems of C46 holds for the matrix made by the block Jacobian writer (C66). *)
Theorem prep_schur_structure B T F s lib is_amd known o p p' o' k rest : schur_type s -> sound_tools T -> working T -> reduced F p -> covers o p -> (forall b, In b (blocks p) -> In b known) ->
  Reorder B T F s lib is_amd known o p = Ready p' o' -> EliminationGroups o' = k :: rest ->
  let J := to_jacobian F p' in
  JacobianSpec.well_formed J /\
  forall junk layout m, small_blocks J -> (Z.of_nat (e_entries J k) <= JacobianModel.INT_MAX)%Z -> CreateBlock J k junk = Made (layout, m) -> SchurSpec.well_formed k (structure m).
Proof.
  intros SC ST WT R C KN E EG J. assert (EQ : Reorder B T F s lib is_amd known o p = ReorderSchur B T F s lib is_amd known o p) by (destruct SC as [->|[->| ->]]; reflexivity).
  destruct (schur_ready B T F s lib is_amd known o p ST WT R C KN) as [[E' _]|[p1 [o1 [E' [Q1 Q2]]]]]; rewrite <- EQ, E in E'; [discriminate|]. injection E' as <- <-.
  destruct Q2 as [O' [H' [es [FG [RE [BE [IND [BG [K [N2 [SO OB]]]]]]]]]]].
  assert (Lk : k = length es). { unfold EliminationGroups, FirstGroup in *. destruct (g2e o') as [|[g sset] l]; [discriminate|]. injection FG as <-. cbn [map length snd] in EG. unfold zkeys. rewrite map_length. destruct (_ =? 1); cbn [app] in EG; congruence. }
  subst k. assert (R' := reduced_again F p p' R RE). split; [exact (jacobian_ok F p' (length es) R' K)|]. intros junk layout m SB LE CB.
  generalize (create_block J (length es) junk (jacobian_ok F p' (length es) R' K) SB LE). rewrite CB. destruct (_ || _)%bool; [discriminate|]. intros [layout' [E1 [FT _]]]. injection E1 as <- ->. cbn [Construct structure].
  apply (structure_ok F p' (length es) R' K N2 SO layout FT).
Qed.
Print Assumptions prep_schur_structure.

(* With C46: solving the reduced system and substituting back solves the regularised normal
   equations of the whole prepared program. *)
Theorem prep_schur_solution B T F s lib is_amd known o p p' o' k rest junk layout m : schur_type s -> sound_tools T -> working T -> reduced F p -> covers o p -> (forall b, In b (blocks p) -> In b known) ->
  Reorder B T F s lib is_amd known o p = Ready p' o' -> EliminationGroups o' = k :: rest ->
  small_blocks (to_jacobian F p') -> (Z.of_nat (e_entries (to_jacobian F p') k) <= JacobianModel.INT_MAX)%Z -> CreateBlock (to_jacobian F p') k junk = Made (layout, m) ->
  forall invert full values b D st sparse stored result z order, inverts invert -> (full = true -> full_rank (structure m) values D k) ->
  Init k full (structure m) = Some st -> SchurProps.storage k (structure m) sparse stored -> Eliminate invert stored st (structure m) values (Some b) D true result ->
  solves_reduced k (structure m) result z -> Permutation order (chunks st) ->
  exists x, SolveImpl invert st (structure m) values b D z (total (cols (structure m))) (total (skipn k (cols (structure m)))) order = Some x /\
    solves (structure m) values b D x /\ forall x', (cost (structure m) values b D x <= cost (structure m) values b D x')%R.
Proof.
  intros SC ST WT R C KN E EG SB LE CB invert full values b D st sparse stored result z order Inv FR I0 STO EL SR PO.
  assert (W := proj2 (prep_schur_structure B T F s lib is_amd known o p p' o' k rest SC ST WT R C KN E EG) junk layout m SB LE CB).
  destruct (schur_solve invert k full (structure m) values b D st sparse stored result z order Inv W FR I0 STO EL SR PO) as [x [X1 [X2 [X3 _]]]]. exists x. auto.
Qed.
Print Assumptions prep_schur_solution.

(* Sparse normal Cholesky: only the columns move, inside the user's groups for SuiteSparse and AMD;
   other solvers: nothing changes. *)
Theorem prep_sparse B T F lib is_amd known o p : sound_tools T -> working T -> reduced F p -> covers o p -> supported B (NormalCholesky false) lib is_amd ->
  (exists p', Reorder B T F (NormalCholesky false) lib is_amd known o p = Ready p' o /\ rearranged p p' /\ residuals p' = residuals p /\
    (lib = SuiteSparse -> is_amd = true -> ~ one_group o -> forall b b', before (blocks p') b b' -> (group_id b o <= group_id b' o)%Z)) /\
  Reorder B T F (NormalCholesky true) lib is_amd known o p = Ready p o /\ Reorder B T F OtherSolver lib is_amd known o p = Ready p o.
Proof.
  intros ST WT R C SU. split; [|auto]. cbn [Reorder]. destruct (sparse_ready B T F lib is_amd (blocks p) o p ST WT R C (fun b H => H) 0 p SU (Permutation_refl _) (rd_index F p R)) as [p' [E [P [Er [I BG]]]]]. exists p'. split; [auto|]. split; [|split; [auto|]].
  - split; [auto|]. split; [rewrite Er; auto|auto].
  - intros L A N b b' BF. eapply by_groups_before; [apply BG; auto|exact BF].
Qed.
Print Assumptions prep_sparse.

(* The subset preconditioner: the rows from the reported one on are the residual blocks chosen. *)
Theorem prep_subset B T F lib is_amd known o p chosen : sound_tools T -> working T -> reduced F p -> covers o p -> supported B (CgnrSubset chosen) lib is_amd ->
  let start := snd (ByPartition T chosen p) in
  exists p', Reorder B T F (CgnrSubset chosen) lib is_amd known o p = Ready p' o /\ rearranged p p' /\
    forall i r, nth_error (residuals p') i = Some r -> (chosen (res_id r) = true <-> start <= i).
Proof.
  intros ST WT R C SU start. cbn [Reorder]. assert (Q := fun r i => partition_ok T chosen p r i ST). unfold start. destruct (ByPartition T chosen p) as [p1 st]. cbn [snd].
  destruct (Q (mkRes 0 0 []) 0) as [Q1 [Q2 [Q3 _]]].
  destruct (sparse_ready B T F lib is_amd (blocks p) o p ST WT R C (fun b H => H) st p1 SU) as [p' [E [P [Er [I BG]]]]]; [rewrite Q1; auto|intros i b; rewrite Q1, Q2; apply (rd_index F p R)|].
  exists p'. split; [auto|]. split; [split; [auto|]; split; [rewrite Er; auto|auto]|]. intros i r. rewrite Er. apply Q.
Qed.
Print Assumptions prep_subset.

(* The pattern handed to the libraries is that of the transposed Jacobian from row block start on,
   with rows in range. *)
Theorem prep_pattern F p start r c : reduced F p ->
  (In (r, c) (SparsityTranspose F start p) <-> exists res a i, nth_error (residuals p) (start + c) = Some res /\ uses F res a /\ nth_error (blocks p) i = Some a /\ r = Z.of_nat i).
Proof.
  intros R. unfold SparsityTranspose. rewrite pattern_from. rewrite Nat.sub_0_r, nth_error_skip. split.
  - intros [_ [res [a [H [U E]]]]]. destruct (place_of p a (rd_index F p R)) as [i [N [_ Q]]]; [apply (rd_blocks F p R); exists res; split; [eapply nth_error_In; eauto|auto]|]. exists res, a, i. split; [auto|]. split; [auto|]. split; [auto|congruence].
  - intros [res [a [i [H [U [N E]]]]]]. split; [lia|]. exists res, a. split; [auto|]. split; [auto|]. rewrite E. now apply (rd_index F p R).
Qed.
Print Assumptions prep_pattern.

(* An ordering that does not fit is refused if it has the wrong number of blocks or several groups. *)
Theorem prep_mismatch B T F s lib is_amd known o p : schur_type s -> built o -> NoDup (blocks p) ->
  (num_elements o <> Z.of_nat (length (blocks p)) -> Reorder B T F s lib is_amd known o p = Refused) /\
  ((exists b, ~ (has o b <-> In b (blocks p))) -> ~ one_group o -> Reorder B T F s lib is_amd known o p = Refused).
Proof.
  intros SC BU N. pose proof (built_ok o BU) as O. assert (EQ : Reorder B T F s lib is_amd known o p = ReorderSchur B T F s lib is_amd known o p) by (destruct SC as [->|[->| ->]]; reflexivity). rewrite EQ. unfold ReorderSchur. split.
  - intros L. apply Z.eqb_neq in L. now rewrite L.
  - intros [b NB] MANY. destruct (num_elements o =? _)%Z eqn:L; cbn [negb]; [|auto].
    assert (X : exists x, has o x). { destruct (e2g o) as [|[x g] l] eqn:E. { exfalso. apply MANY. intros x y Hx. rewrite has_find, E in Hx. cbn in Hx. congruence. } exists x. rewrite has_find, E. cbn. rewrite Z.eqb_refl. discriminate. }
    destruct X as [x X]. pose proof (one_group_iff o x O X) as OG. destruct (num_groups o =? 1)%Z; [exfalso; apply MANY; now apply OG|]. destruct (first_group_some o x O X) as [es ->]. destruct (IsIndependent es p); cbn [negb]; [|auto].
    destruct (mismatch o p b O N L NB) as [b' [I NH]]. unfold ReorderModel.apply_ordering. rewrite L. cbn [negb]. destruct (forallb _ _); cbn [negb]; [|auto].
    assert (LN : length (blocks p) = length (e2g o)) by (apply Z.eqb_eq in L; unfold num_elements in L; lia).
    destruct (ReorderProofs2.place_ok o (blocks p) O N LN) as [[A _]|[_ [bs ->]]]; [exfalso; apply NH; rewrite has_find; auto|auto].
Qed.
Print Assumptions prep_mismatch.

(* ---------------------------------------------------------- a case *)
(* points 10, 11; cameras 20, 21; a constant block 30 *)
Definition ex_facts : Facts := mkFacts (fun b => if (b <? 20)%Z then 3 else 6) (Z.eqb 30).
Definition ex_p : Prg := SetIndex (mkPrg [20; 11; 21; 10]%Z
  [mkRes 0 2 [20; 11]; mkRes 1 2 [21; 10; 30]; mkRes 2 2 [20; 10]; mkRes 3 1 [21]; mkRes 4 2 [11; 21]]%Z (fun _ => (-1)%Z)).
Definition ex_order (l : list (Z * Z)) : og := fold_left (fun o x => fst (add_element (fst x) (snd x) o)) l og_empty.
Definition one : og := ex_order [(10, 0); (11, 0); (20, 0); (21, 0)]%Z.
Definition three : og := ex_order [(10, 1); (11, 1); (20, 7); (21, 4)]%Z.
Definition bad : og := ex_order [(10, 0); (20, 0); (11, 1); (21, 1)]%Z.
Definition all_in : Build := mkBuild true true true.
Lemma ex_reduced : reduced ex_facts ex_p.
Proof.
  constructor; cbn [ex_p SetIndex blocks residuals].
  - discriminate.
  - repeat constructor; cbn; intuition discriminate.
  - intros b. split.
    + intros [<-|[<-|[<-|[<-|[]]]]]; [exists (mkRes 0 2 [20; 11]%Z)|exists (mkRes 0 2 [20; 11]%Z)|exists (mkRes 3 1 [21]%Z)|exists (mkRes 2 2 [20; 10]%Z)]; (split; [cbn; tauto|split; [cbn; tauto|reflexivity]]).
    + intros [r [H [I C]]]. cbn [In] in H. repeat (destruct H as [<-|H]; [cbn in I; repeat (destruct I as [<-|I]; [cbn in C; try discriminate; cbn; tauto|]); destruct I|]). destruct H.
  - intros r H. cbn [In] in H. repeat (destruct H as [<-|H]; [repeat constructor; cbn; intuition discriminate|]). destruct H.
  - intros r H. cbn [In] in H. repeat (destruct H as [<-|H]; [eexists; split; [now left|reflexivity]|]). destruct H.
  - apply set_index_ok. repeat constructor; cbn; intuition discriminate.
Qed.
Lemma ex_built l : built (ex_order l).
Proof.
  unfold built, ex_order. assert (G : forall l s, exists rs, run (map (fun x => OAdd (fst x) (snd x)) l) s = Some (fold_left (fun o x => fst (add_element (fst x) (snd x) o)) l s, rs)).
  { clear l. induction l as [|x l IH]; intros s; cbn [map run fold_left]; [eauto|]. cbn [step]. destruct (add_element (fst x) (snd x) s) as [s' b]. cbn [fst]. destruct (IH s') as [rs ->]. eauto. }
  destruct (G l og_empty) as [rs E]. eauto.
Qed.
Lemma ex_covers o : zkeys (e2g o) = [10; 11; 20; 21]%Z -> forall b, has o b <-> In b (blocks ex_p).
Proof.
  intros K b. rewrite has_find. cbn [ex_p SetIndex blocks]. assert (Q : zfind b (e2g o) <> None <-> In b (zkeys (e2g o))).
  { destruct (zfind b (e2g o)) eqn:E; [apply zfind_in_keys in E|apply zfind_none_keys in E]; split; auto; congruence. }
  rewrite Q, K. cbn [In]. tauto.
Qed.
Definition outcome (x : Outcome) : option (list Z * list nat * list nat) := match x with Ready p o => Some (blocks p, map res_id (residuals p), EliminationGroups o) | _ => None end.
Example ex_prep : (sound_tools good_tools /\ working good_tools) /\ reduced ex_facts ex_p /\ covers one ex_p /\ covers three ex_p /\ covers bad ex_p /\ one_group one /\ ~ one_group three /\ ~ one_group bad /\
  outcome (Reorder all_in good_tools ex_facts DenseSchur NoSparse true [10; 11; 20; 21; 30]%Z one ex_p) = Some ([20; 21; 11; 10]%Z, [2; 0; 4; 3; 1], [2; 2]) /\
  outcome (Reorder all_in good_tools ex_facts DenseSchur NoSparse true [10; 11; 20; 21; 30]%Z three ex_p) = Some ([11; 10; 21; 20]%Z, [4; 0; 2; 1; 3], [2; 1; 1]) /\
  outcome (Reorder all_in good_tools ex_facts SparseSchur SuiteSparse true [10; 11; 20; 21; 30]%Z three ex_p) = Some ([10; 11; 21; 20]%Z, [2; 1; 4; 0; 3], [2; 1; 1]) /\
  outcome (Reorder all_in good_tools ex_facts SparseSchur EigenSparse true [10; 11; 20; 21; 30]%Z three ex_p) = Some ([11; 10; 20; 21]%Z, [4; 0; 2; 1; 3], [2; 1; 1]) /\
  Reorder all_in good_tools ex_facts DenseSchur NoSparse true [10; 11; 20; 21; 30]%Z bad ex_p = Refused /\
  outcome (Reorder all_in good_tools ex_facts (NormalCholesky false) SuiteSparse true [] three ex_p) = Some ([10; 11; 21; 20]%Z, [0; 1; 2; 3; 4], [2; 1; 1]) /\
  outcome (Reorder all_in good_tools ex_facts (CgnrSubset Nat.even) EigenSparse true [] three ex_p) = Some ([10; 21; 11; 20]%Z, [3; 1; 0; 2; 4], [2; 1; 1]) /\ snd (ByPartition good_tools Nat.even ex_p) = 2.
Proof.
  split; [apply good_tools_ok|]. split; [apply ex_reduced|]. split; [split; [apply ex_built|now apply ex_covers]|]. split; [split; [apply ex_built|now apply ex_covers]|]. split; [split; [apply ex_built|now apply ex_covers]|].
  split; [apply (proj1 (one_group_iff one 10 (built_ok _ (ex_built _)) eq_refl)); reflexivity|]. split; [intros H; specialize (H 10 20 eq_refl eq_refl)%Z; discriminate|]. split; [intros H; specialize (H 10 11 eq_refl eq_refl)%Z; discriminate|].
  repeat split.
Qed.
Example ex_prep_structure junk : exists p' o' layout m, Reorder all_in good_tools ex_facts SparseSchur SuiteSparse true [10; 11; 20; 21; 30]%Z three ex_p = Ready p' o' /\
  CreateBlock (to_jacobian ex_facts p') 2 junk = Made (layout, m) /\ map (fun row => map block_id (cells row)) (rows (structure m)) = [[0; 3]; [0; 2]; [1; 2]; [1; 3]; [2]].
Proof. eexists. eexists. eexists. eexists. split; [vm_compute; reflexivity|]. split; [vm_compute; reflexivity|]. vm_compute. reflexivity. Qed.

(* ---------------------------------------------------------- what is not noticed *)
(* If the ordering function of CHOLMOD fails (for instance for want of memory) the array of zeros is
   used: true is returned for a program that has one block several times and has lost the others, and
   a Schur type solver aborts. *)
Definition failing_tools : Tools := mkTools (fun _ _ _ => None) (fun _ _ => None) (fun _ _ => None) (eigen_schur good_tools) (eigen_order good_tools) (partition good_tools).
Theorem prep_ordering_failure_refuted : sound_tools failing_tools /\ reduced ex_facts ex_p /\ covers three ex_p /\
  (exists p', Reorder all_in failing_tools ex_facts (NormalCholesky false) SuiteSparse true [] three ex_p = Ready p' three /\ blocks p' = [20; 20; 20; 20]%Z /\ index p' 10%Z = (-1)%Z /\ ~ rearranged ex_p p') /\
  Reorder all_in failing_tools ex_facts SparseSchur SuiteSparse true [10; 11; 20; 21; 30]%Z three ex_p = Aborted.
Proof.
  split. { destruct (proj1 good_tools_ok) as [A1 A2 A3 A4 A5 A6]. constructor; auto; discriminate. }
  split; [apply ex_reduced|]. split; [split; [apply ex_built|now apply ex_covers]|]. split; [|vm_compute; reflexivity].
  eexists. split; [reflexivity|]. split; [reflexivity|]. split; [reflexivity|]. intros [P _]. assert (X : In 10%Z [20; 20; 20; 20]%Z) by (apply (Permutation_in _ (Permutation_sym P)); cbn; tauto). cbn in X. intuition discriminate.
Qed.
Print Assumptions prep_ordering_failure_refuted.

(* With one group only the number of the blocks is checked: an ordering with another block is
   accepted, then more blocks are counted in the first group than there are. *)
Theorem prep_one_group_mismatch_refuted : exists o, built o /\ one_group o /\ ~ has o 20%Z /\
  Reorder all_in good_tools ex_facts DenseSchur NoSparse true [10; 11; 20; 21; 30]%Z o ex_p = Aborted.
Proof.
  exists (ex_order [(10, 0); (11, 0); (99, 0); (21, 0)]%Z). split; [apply ex_built|]. split; [apply (proj1 (one_group_iff (ex_order [(10, 0); (11, 0); (99, 0); (21, 0)]%Z) 10%Z (built_ok _ (ex_built _)) eq_refl)); reflexivity|]. split; [discriminate|]. vm_compute. reflexivity.
Qed.
Print Assumptions prep_one_group_mismatch_refuted.
