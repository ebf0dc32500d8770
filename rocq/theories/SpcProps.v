(* C84: theorems. *)
From Coq Require Import List Arith ZArith Bool Lia Permutation Sorted.
From Verif Require Import SpcModel SpcSpec SpcProofs SpcProofs2.
Import ListNotations.
Open Scope nat_scope.

(* the block pattern: a cell is in it if its first scalar is stored, so, for a matrix made of blocks,
   exactly if anything in the cell is; no cell twice, in the order of the scalar columns *)
Theorem spc_pattern A rb cb st : well_formed A -> contiguous 0 rb -> contiguous 0 cb -> total cb = ncol A ->
  exists br bc, CompressedColumnScalarMatrixToBlockMatrix A rb cb = Done (br, bc) /\ let Q := mkPattern (length rb) (length cb) bc br st in
  well_formed Q /\
  (forall ib jb b1 b2, nth_error rb ib = Some b1 -> nth_error cb jb = Some b2 -> (stored Q ib jb <-> stored A (position b1) (position b2)) /\
    (complete A rb cb -> (stored Q ib jb <-> exists r c, in_block b1 r /\ in_block b2 c /\ stored A r c))) /\
  ((forall c, c < ncol A -> NoDup (column A c)) -> forall jb, jb < length cb -> NoDup (column Q jb)) /\
  ((forall c, c < ncol A -> StronglySorted lt (column A c)) -> forall jb, jb < length cb -> StronglySorted lt (column Q jb)).
Proof.
  intros W CR CC T. destruct (block_matrix_ok A rb cb st W CR CC T) as [br [bc [E [WQ CQ]]]]. exists br, bc. split; [auto|]. cbn zeta. split; [auto|].
  assert (RG : forall jb, jb < length cb -> exists b, nth_error cb jb = Some b /\ position b < ncol A).
  { intros jb L. destruct (nth_error cb jb) as [b|] eqn:EB; [|apply nth_error_None in EB; lia]. exists b. split; [auto|]. destruct (contiguous_nth _ _ _ _ CC EB) as [-> SB]. rewrite <- T. apply nth_error_split in EB. destruct EB as [l1 [l2 [-> <-]]]. rewrite firstn_app, firstn_all, Nat.sub_diag. cbn [firstn]. rewrite app_nil_r, total_app, total_cons. lia. }
  split; [|split].
  - intros ib jb b1 b2 E1 E2. assert (X : stored (mkPattern (length rb) (length cb) bc br st) ib jb <-> stored A (position b1) (position b2)).
    { unfold stored at 1. rewrite (CQ jb b2 E2), (detect_in rb 0 _ ib CR). split; [intros [b [EB I]]; rewrite E1 in EB; injection EB as <-; exact I|intros I; exists b1; auto]. }
    split; [exact X|]. intros CM. rewrite X. destruct (contiguous_nth _ _ _ _ CR E1) as [_ S1]. destruct (contiguous_nth _ _ _ _ CC E2) as [_ S2]. split.
    + intros S. exists (position b1), (position b2). unfold in_block. split; [lia|]. split; [lia|auto].
    + intros [r [c [R1 [R2 S]]]]. apply (CM b1 b2 r c); auto; try (eapply nth_error_In; eauto); unfold in_block; lia.
  - intros N jb L. destruct (RG jb L) as [b [EB PB]]. rewrite (CQ jb b EB). apply (detect_nodup rb 0 CR). auto.
  - intros N jb L. destruct (RG jb L) as [b [EB PB]]. rewrite (CQ jb b EB). apply (detect_sorted rb 0 CR). auto.
Qed.
Print Assumptions spc_pattern.

(* the scalar ordering lists the scalars block by block, each exactly once *)
Theorem spc_ordering bl o : contiguous 0 bl -> Permutation o (seq 0 (length bl)) ->
  BlockOrderingToScalarOrdering bl o = Done (by_blocks bl o) /\ Permutation (by_blocks bl o) (seq 0 (total bl)).
Proof. intros C P. split; [apply scalar_ok|apply by_blocks_perm]; auto. Qed.
Print Assumptions spc_ordering.

(* the library is asked about a pattern whose cells are those of the matrix, and its answer is followed *)
Theorem spc_block_ordering {F V B} (lib : Cholmod F V B) A t rb cb st :
  (forall t P o st, ordering lib t P = (Some o, st) -> Permutation o (seq 0 (nrow P))) ->
  well_formed A -> contiguous 0 rb -> contiguous 0 cb -> total rb = nrow A -> total cb = ncol A ->
  (t = NATURAL -> BlockOrdering lib A t rb cb st = Done (Some (seq 0 (nrow A)), st)) /\
  (t <> NATURAL -> exists Q, nrow Q = length rb /\ ncol Q = length cb /\ stype Q = stype A /\
    (forall ib jb b1 b2, nth_error rb ib = Some b1 -> nth_error cb jb = Some b2 -> (stored Q ib jb <-> stored A (position b1) (position b2))) /\
    match ordering lib t Q with
    | (None, st') => BlockOrdering lib A t rb cb st = Done (None, st')
    | (Some o, st') => BlockOrdering lib A t rb cb st = Done (Some (by_blocks rb o), st') /\ Permutation (by_blocks rb o) (seq 0 (nrow A))
    end).
Proof.
  intros HO W CR CC T1 T2. split; [intros ->; reflexivity|]. intros NT. destruct (spc_pattern A rb cb (stype A) W CR CC T2) as [br [bc [E [_ [X _]]]]]. exists (mkPattern (length rb) (length cb) bc br (stype A)). split; [reflexivity|]. split; [reflexivity|]. split; [reflexivity|]. split; [intros ib jb b1 b2 E1 E2; exact (proj1 (X ib jb b1 b2 E1 E2))|].
  assert (BO : BlockOrdering lib A t rb cb st = match ordering lib t (mkPattern (length rb) (length cb) bc br (stype A)) with (None, st') => Done (None, st') | (Some o, st') => bind (BlockOrderingToScalarOrdering rb o) (fun s => Done (Some s, st')) end) by (unfold BlockOrdering; destruct t; [congruence| |]; rewrite E; reflexivity).
  rewrite BO. destruct (ordering lib t _) as [[o|] st'] eqn:EO; [|reflexivity]. apply HO in EO. cbn [nrow] in EO. rewrite (scalar_ok rb o CR EO). split; [reflexivity|]. rewrite <- T1. apply by_blocks_perm; auto.
Qed.
Print Assumptions spc_block_ordering.

(* CHOLMOD is shown the transpose: the same entries with rows and columns exchanged, and, if only a
   triangle is stored, the opposite triangle, named as CHOLMOD does: upper for a positive stype,
   lower for a negative one *)
Theorem spc_view {V} (A : Crs V) : let Q := TransposeView A in
  nrow Q = num_cols A /\ ncol Q = num_rows A /\ (forall r c, stored Q c r <-> crs_stored A r c) /\
  (storage_type A = LOWER_TRIANGULAR <-> (0 < stype Q)%Z) /\ (storage_type A = UPPER_TRIANGULAR <-> (stype Q < 0)%Z) /\
  (storage_type A = LOWER_TRIANGULAR -> (forall r c, crs_stored A r c -> c <= r) -> forall r c, stored Q r c -> r <= c).
Proof.
  cbn zeta. split; [reflexivity|]. split; [reflexivity|]. assert (X : forall r c, stored (TransposeView A) c r <-> crs_stored A r c) by (intros; reflexivity). split; [exact X|]. split; [|split].
  - cbn. destruct (storage_type A); split; intros; try discriminate; try lia; reflexivity.
  - cbn. destruct (storage_type A); split; intros; try discriminate; try lia; reflexivity.
  - intros _ L r c S. apply L. now apply X.
Qed.
Print Assumptions spc_view.

(* every history of calls on one SuiteSparse wrapper, with or without block structure *)
Theorem spc_suitesparse_history {F V B} (lib : Cholmod F V B) symbolic factors solves P rb cb t (l : list (Call V B)) :
  cholmod_contract lib symbolic factors solves -> well_formed P ->
  rb = [] \/ cb = [] \/ (contiguous 0 rb /\ contiguous 0 cb /\ total cb = nrow P /\ total rb = ncol P) ->
  structured rb cb TransposeView P l ->
  exists a, SsCalls lib t l (mkSs None 0%Z) = Done a /\ honest (solves P) None l a.
Proof. intros H W BL ST. apply (suite_calls lib symbolic factors solves H P rb cb t W BL l); [auto|reflexivity]. Qed.
Print Assumptions spc_suitesparse_history.

(* every history of calls on one Eigen wrapper; it goes through if the first call is a Factorize whose
   analysis succeeds *)
Theorem spc_eigen_history {E V B} (lib : Eigen E V B) symbolic factors solves P (l : list (Call V B)) :
  eigen_contract lib symbolic factors solves -> given P l ->
  (forall a, EsCalls lib l (mkEs false (eigen_new lib)) = Done a -> honest (solves P) None l a /\ (forall t m, In (Factorized t m) a -> t = SUCCESS \/ m = true) /\ (forall t x m, In (Solved t x m) a -> t = SUCCESS \/ m = true)) /\
  (forall A l', l = Factorize (Some A) :: l' -> snd (analyzePattern lib P (eigen_new lib)) = true -> exists a, EsCalls lib l (mkEs false (eigen_new lib)) = Done a).
Proof.
  intros H G. split; [apply (eigen_calls lib symbolic factors solves H P l _ None G); reflexivity|]. intros A l' -> AN. destruct (G (Some A) (or_introl eq_refl)) as [A' [EA [SA VA]]]. injection EA as <-. cbn [EsCalls].
  assert (X : exists s' term m, EsFactorize lib A (mkEs false (eigen_new lib)) = Done (s', term, m) /\ e_good lib symbolic factors P s' (match term with SUCCESS => Some (values A) | _ => None end) /\ analyzed s' = true).
  { destruct (e_factorize_ok lib symbolic factors solves H P A (mkEs false (eigen_new lib)) None eq_refl SA VA) as [s' [term [m [E1 [E2 [E3 _]]]]]]. exists s', term, m. split; [auto|]. split; [auto|]. destruct (analyzed s') eqn:AS; [reflexivity|]. exfalso. unfold EsFactorize in E1. rewrite SA in E1. cbn zeta in E1. fold (square_view A) in E1. rewrite VA in E1. cbn [analyzed solver] in E1.
    destruct (analyzePattern lib P (eigen_new lib)) as [e ok]. cbn in AN. subst ok. destruct (eigen_factorize lib P (values A) e) as [e' ok']. injection E1 as <- _ _. discriminate. }
  destruct X as [s' [term [m [-> [G' AN']]]]]. cbn [bind]. assert (GL : given P l') by (intros x I; apply G; now right). destruct (eigen_calls lib symbolic factors solves H P l' s' _ GL G') as [I1 _]. destruct (I1 AN') as [a ->]. eexists. reflexivity.
Qed.
Print Assumptions spc_eigen_history.

(* a failed call of the SuiteSparse wrapper writes a message, except in two cases *)
Theorem spc_suitesparse_message {F V B} (lib : Cholmod F V B) t s :
  (forall lhs s' term m, SsFactorize lib t lhs s = Done (s', term, m) -> term = SUCCESS \/ m = true \/ exists Q st, ordering lib t Q = (None, st)) /\
  (forall b s' term x m, SsSolve lib b s = (s', term, x, m) -> term = SUCCESS \/ m = true \/ exists f st, solve lib f b = (None, st)).
Proof.
  split.
  - intros [A|] s' term m E; [|injection E as <- <- <-; auto]. unfold SsFactorize in E. destruct (match factor s with Some f => _ | None => _ end) as [[[r st] m0]| |] eqn:X; cbn [bind] in E; try discriminate. destruct r as [f|].
    + destruct (factorize lib (TransposeView A) (values A) f) as [[f' ok] st']. unfold Cholesky in E. destruct (st' =? 1)%Z; [injection E as <- <- <-; rewrite orb_true_r; auto|]. destruct (st' =? 2)%Z; [injection E as <- <- <-; rewrite orb_true_r; auto|]. destruct (st' =? 0)%Z; [destruct ok|]; injection E as <- <- <-; rewrite ?orb_true_r; auto.
    + injection E as <- <- <-. destruct (factor s) as [f|]; [discriminate|]. destruct (_ || _).
      * unfold AnalyzeCholesky in X. destruct (analyze lib t (TransposeView A)) as [f st']. destruct (st' =? 0)%Z; [discriminate|]. injection X as <- <-. auto.
      * unfold BlockAnalyzeCholesky in X. destruct (BlockOrdering _ _ _ _ _ _) as [[[o|] st']| |] eqn:BO; cbn [bind] in X; try discriminate.
        -- unfold AnalyzeCholeskyWithGivenOrdering in X. destruct (_ =? _); [|discriminate]. destruct (analyze_p lib (TransposeView A) o) as [f st'']. destruct (st'' =? 0)%Z; [discriminate|]. injection X as <- <-. auto.
        -- right. right. unfold BlockOrdering in BO. destruct t; [discriminate| |]; (destruct (CompressedColumnScalarMatrixToBlockMatrix _ _ _) as [mm| |]; cbn [bind] in BO; try discriminate; match type of BO with context [ordering lib ?T ?Q] => destruct (ordering lib T Q) as [[o|] st''] eqn:EO end; [destruct (BlockOrderingToScalarOrdering _ _); discriminate|eauto]).
  - intros b s' term x m E. unfold SsSolve in E. destruct (factor s) as [f|]; [|injection E as <- <- <- <-; auto]. destruct (status s =? 0)%Z; [|injection E as <- <- <- <-; auto]. destruct (solve lib f b) as [[y|] st] eqn:ES; injection E as <- <- <- <-; eauto 6.
Qed.
Print Assumptions spc_suitesparse_message.

(* ------------------------------------------------------------- examples *)
(* two blocks of sizes 2 and 1; the matrix [a a .; a a .; . . b] in LOWER storage *)
Definition ex_blocks : list Block := [mkBlock 2 0; mkBlock 1 2].
Definition ex_crs (v : nat) : Crs nat := mkCrs 3 3 [0; 2; 4; 5] [0; 1; 0; 1; 2] v LOWER_TRIANGULAR ex_blocks ex_blocks.
Definition ex_pattern : Pattern := mkPattern 3 3 [0; 2; 4; 5] [0; 1; 0; 1; 2] 1%Z.
Example ex_well_formed : well_formed ex_pattern /\ contiguous 0 ex_blocks /\ total ex_blocks = 3.
Proof. split; [|cbn; lia]. split; [reflexivity|]. split; [intros [|[|[|c]]] L; cbn in *; lia|]. intros r I. cbn in I. repeat (destruct I as [<-|I]; [cbn; lia|]). destruct I. Qed.
Example ex_block_pattern : CompressedColumnScalarMatrixToBlockMatrix ex_pattern ex_blocks ex_blocks = Done ([0; 1], [0; 1; 2]). Proof. reflexivity. Qed.
Example ex_scalar : BlockOrderingToScalarOrdering ex_blocks [1; 0] = Done [2; 0; 1]. Proof. reflexivity. Qed.
(* a library whose matrix is a number, 0 not positive definite, and whose orderings are backwards *)
Definition ex_lib : Cholmod (option nat) nat nat :=
  mkCholmod (fun _ P => (Some (rev (seq 0 (nrow P))), 0%Z)) (fun _ _ => (None, 0%Z)) (fun _ _ => (None, 0%Z))
    (fun _ v _ => if v =? 0 then (None, true, 1%Z) else (Some v, true, 0%Z)) (fun f b => (option_map (fun v => v * b) f, 0%Z)).
Example ex_contract : cholmod_contract ex_lib (fun _ _ => True) (fun f _ v => f = Some v) (fun _ v b x => x = v * b).
Proof.
  constructor; cbn.
  - intros t P o st E. injection E as <- _. apply Permutation_sym, Permutation_rev.
  - auto.
  - auto.
  - intros P v f f' ok st _ E. destruct (v =? 0); injection E as <- <- <-; split; auto; split; auto; discriminate.
  - intros P v f b x st -> E. cbn in E. congruence.
Qed.
Example ex_history : SsCalls ex_lib AMD [Solve 3; Factorize (Some (ex_crs 2)); Solve 3; Factorize (Some (ex_crs 0)); Solve 3; Factorize (Some (ex_crs 5)); Solve 3] (mkSs None 0%Z)
  = Done [Solved FATAL_ERROR None true; Factorized SUCCESS false; Solved SUCCESS (Some 6) false; Factorized FAILURE true; Solved FAILURE None true; Factorized SUCCESS false; Solved SUCCESS (Some 15) false].
Proof. reflexivity. Qed.
Definition ex_eigen : Eigen (option nat) nat nat := mkEigen None (fun _ e => (e, true)) (fun _ v _ => if v =? 0 then (None, false) else (Some v, true)) (fun e b => match e with Some v => v * b | None => 0 end) (fun e => match e with Some _ => true | None => false end).
Example ex_eigen_contract : eigen_contract ex_eigen (fun _ _ => True) (fun f _ v => f = Some v) (fun _ v b x => x = v * b).
Proof.
  constructor; cbn.
  - auto.
  - intros P v e e' ok _ E. destruct (v =? 0); injection E as <- <-; split; auto; split; auto; discriminate.
  - intros P v e b ->. reflexivity.
Qed.
Example ex_eigen_history : EsCalls ex_eigen [Factorize (Some (ex_crs 2)); Solve 3; Factorize (Some (ex_crs 0)); Solve 3; Factorize (Some (ex_crs 5)); Solve 3] (mkEs false None)
  = Done [Factorized SUCCESS false; Solved SUCCESS (Some 6) false; Factorized FAILURE true; Solved FAILURE (Some 0) true; Factorized SUCCESS false; Solved SUCCESS (Some 15) false].
Proof. reflexivity. Qed.
Example ex_given : given ex_pattern [Factorize (Some (ex_crs 2)); Solve 3; Factorize (Some (ex_crs 0))].
Proof. intros x [E|[E|[E|[]]]]; try discriminate; injection E as <-; eexists; split; [reflexivity|split; reflexivity|reflexivity|split; reflexivity]. Qed.

(* "every failed call explains itself" is false: if no ordering can be computed (nested dissection not
   available, out of memory), Factorize fails without a message *)
Theorem spc_suitesparse_message_refuted : exists (lib : Cholmod unit nat nat) A s', SsFactorize lib NESDIS (Some A) (mkSs None 0%Z) = Done (s', FATAL_ERROR, false).
Proof. exists (mkCholmod (fun _ _ => (None, (-1)%Z)) (fun _ _ => (tt, 0%Z)) (fun _ _ => (tt, 0%Z)) (fun _ _ _ => (tt, true, 0%Z)) (fun _ _ => (None, 0%Z))), (ex_crs 1). eexists. reflexivity. Qed.
Print Assumptions spc_suitesparse_message_refuted.
