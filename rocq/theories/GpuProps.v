(* C82: theorems. *)
From Coq Require Import Reals List Arith Bool Lia Lra Permutation.
From Verif Require Import SchurModel BlockSparseModel BlockSparseSpec BlockSparseProofs BlockSparseProofs2 BlockSparseProofs4 BlockSparseProofs5 BlockSparseProofs5 BlockSparseProps GpuModel GpuSpec GpuProofs GpuProofs2 GpuProofs3 GpuProofs4 GpuProofs5 GpuProofs6 GpuProofs7.
Import ListNotations.
Close Scope R_scope. Open Scope nat_scope.

(* ---------------------------------------------------------- the whole matrix *)
(* a view can always be built, whatever the order of the threads it is the matrix, and so it is
   after any later update of the values *)
Theorem gpu_view b per_batch : good b -> packed (structure b) -> (forall row, In row (rows (structure b)) -> cells row <> []) -> 0 < per_batch ->
  (exists result, View per_batch b result) /\
  forall result, View per_batch b result -> exists crs v, result = Done (crs, v) /\ represents (num_rows b) (num_columns b) (nnz b) crs v (entries b).
Proof.
  intros G PK NE PER. split.
  - unfold View. destruct (Flatten 0 (structure b)) as [| |F]; eauto. destruct (fill_some false 0 0 (num_rows b) F) as [fr H]. destruct fr as [[e crs]|]; [|eexists; exists None; eauto].
    destruct (update_some F crs per_batch (nnz b) (values b) (fun _ => 0%R)) as [v U]. eexists. exists (Some (e, crs)). split; [exact H|]. exists (fun _ => 0%R), v. eauto.
  - intros result H. unfold View in H. destruct (whole_flat (structure b) NE PK) as [F [FL _]]. rewrite FL in H. destruct H as [fr [FI H]]. rewrite (g_rows b G) in *.
    destruct (whole_ok (structure b) per_batch (nnz b) (g_valid b G) NE PK PER (g_nnz b G) F FL fr FI) as [e [crs [-> [_ UP]]]]. destruct H as [junk [v [U ->]]]. destruct (UP _ _ _ U) as [w [-> R]]. exists crs, w. split; [reflexivity|]. rewrite (g_columns b G). exact R.
Qed.
Print Assumptions gpu_view.
Theorem gpu_update b per_batch F fr values old result : good b -> packed (structure b) -> (forall row, In row (rows (structure b)) -> cells row <> []) -> 0 < per_batch ->
  Flatten 0 (structure b) = Done F -> Fill false 0 0 (num_rows b) F fr ->
  exists e crs, fr = Some (e, crs) /\ (UpdateValues F crs per_batch (nnz b) values old result ->
    exists v, result = Some v /\ represents (num_rows b) (num_columns b) (nnz b) crs v (dense (structure b) values)).
Proof.
  intros G PK NE PER FL FI. rewrite (g_rows b G), (g_columns b G) in *. destruct (whole_ok (structure b) per_batch (nnz b) (g_valid b G) NE PK PER (g_nnz b G) F FL fr FI) as [e [crs [-> [_ UP]]]]. exists e, crs. split; [reflexivity|]. apply UP.
Qed.
Print Assumptions gpu_update.
(* every value of the CRS matrix is written by exactly one thread, in whatever batches the values are
   transferred *)
Theorem gpu_writes b per_batch F fr : good b -> packed (structure b) -> (forall row, In row (rows (structure b)) -> cells row <> []) -> 0 < per_batch ->
  Flatten 0 (structure b) = Done F -> Fill false 0 0 (num_rows b) F fr -> f_compatible F = false ->
  exists e crs, fr = Some (e, crs) /\ forall values, exists ws, permute_writes false 0 F (c_rows crs) 0 per_batch (nnz b) values = Some ws /\ Permutation (map fst ws) (seq 0 (nnz b)).
Proof.
  intros G PK NE PER FL FI FC. rewrite (g_rows b G) in *. destruct (whole_ok (structure b) per_batch (nnz b) (g_valid b G) NE PK PER (g_nnz b G) F FL fr FI) as [e [crs [-> [W _]]]]. exists e, crs. split; [reflexivity|exact (W FC)].
Qed.
Print Assumptions gpu_writes.

(* ---------------------------------------------------------- [E F] *)
Theorem gpu_partitioned nelim b per_batch : good b -> partitioned nelim (structure b) -> stored_partitioned nelim (structure b) -> ~ gap nelim (structure b) -> 0 < per_batch ->
  let ne := count (e_extents nelim (structure b)) in let nf := count (f_extents nelim (structure b)) in
  (exists result, PartitionedView per_batch nelim b result) /\
  forall result, PartitionedView per_batch nelim b result -> exists e ve f vf, result = Done ((e, ve), (f, vf)) /\
    represents (num_rows b) (e_columns nelim (structure b)) ne e ve (E_of (structure b) (values b)) /\
    (in_order nelim (structure b) -> represents (num_rows b) (f_columns nelim (structure b)) nf f vf (F_of nelim (structure b) (values b))) /\
    (~ in_order nelim (structure b) -> represents (num_rows b) (f_columns nelim (structure b)) nf f vf (F_of nelim (structure b) (fun p => values b (p - ne)))).
Proof.
  intros G [NC [es [fs [ER [HE HF]]]]] ST NG PER ne nf. split.
  - unfold PartitionedView. destruct (Flatten nelim (structure b)) as [| |F]; eauto. destruct (fill_some true (f_row_blocks_e F) nelim (num_rows b) F) as [fr H]. destruct fr as [[e crs]|]; [|eexists; exists None; eauto].
    destruct (update_part_some F crs per_batch (nnz b) (values b) (fun _ => 0%R) (fun _ => 0%R)) as [v U]. eexists. exists (Some (e, crs)). split; [exact H|]. exists (fun _ => 0%R), (fun _ => 0%R), v. eauto.
  - intros result H. unfold PartitionedView in H. destruct (part_flat nelim (structure b) es fs NC ER HE HF ST NG) as [F [FL _]]. rewrite FL in H. destruct H as [fr [FI H]]. rewrite (g_rows b G) in *.
    destruct (part_ok nelim (structure b) es fs (g_valid b G) NC ER HE HF per_batch (nnz b) ST NG PER (g_nnz b G) F FL fr FI) as [e [f [-> UP]]]. destruct H as [je [jf [v [U ->]]]]. destruct (UP _ _ _ _ U) as [ve [vf [-> R]]]. exists e, ve, f, vf. split; [reflexivity|]. exact R.
Qed.
Print Assumptions gpu_partitioned.

(* the construction is undefined whenever a row block without F cells comes before one without an
   E cell *)
Theorem gpu_gap_undefined nelim b per_batch : partitioned nelim (structure b) -> gap nelim (structure b) -> forall result, PartitionedView per_batch nelim b result <-> result = Undefined.
Proof.
  intros [NC [es [fs [ER [HE HF]]]]] [l1 [r1 [r2 [l2 [E [N1 [N2 N3]]]]]]] result. assert (FL : Flatten nelim (structure b) = Undefined); [|unfold PartitionedView; rewrite FL; reflexivity].
  assert (X1 : ~ In r1 fs). { intros I. destruct (HF r1 I) as [D1 D2]. destruct (cells r1) as [|c cs] eqn:C; [congruence|]. specialize (D2 c (or_introl eq_refl)). specialize (N1 c). rewrite C in N1. specialize (N1 (or_introl eq_refl)). lia. }
  assert (X2 : ~ In r2 es). { intros I. destruct (HE r2 I) as [c [cs [C [D1 _]]]]. specialize (N2 c). rewrite C in N2. specialize (N2 (or_introl eq_refl)). lia. }
  assert (S1 : es = l1 ++ [r1] /\ fs = r2 :: l2).
  { rewrite E in ER. destruct (app_eq_app _ _ _ _ ER) as [l [[A B]|[A B]]].
    - exfalso. apply X1. rewrite B. apply in_elt.
    - destruct l as [|x l]; cbn [app] in B; [exfalso; apply X1; rewrite <- B; now left|]. injection B as <- B. destruct l as [|y l]; cbn [app] in B; [rewrite A; auto|]. injection B as <- B. exfalso. apply X2. rewrite A. apply in_app_iff. right. right. now left. }
  destruct S1 as [-> ->]. unfold Flatten.
  rewrite ER, leading_app; [|intros row R; destruct (HE row R) as [c [cs [C [D1 _]]]]; unfold starts_in; rewrite C; now apply Nat.ltb_lt|intros row R; destruct (HF row R) as [_ D2]; unfold starts_in; destruct (cells row) as [|c cs]; [reflexivity|apply Nat.ltb_ge, D2; now left]].
  rewrite skipn_app, skipn_all, Nat.sub_diag. cbn [skipn app]. rewrite fold_left_app. cbn [fold_left]. set (s := fold_left _ l1 _). destruct (HE r1) as [c [cs [C [D1 D2]]]]; [apply in_app_iff; right; now left|].
  assert (cs = []) by (destruct cs as [|x cs]; [reflexivity|exfalso; specialize (D2 x (or_introl eq_refl)); specialize (N1 x); rewrite C in N1; specialize (N1 (or_intror (or_introl eq_refl))); lia]). subst cs.
  assert (O : exists o, s_offsets (ERow (cols (structure b)) s r1) = None :: o) by (unfold ERow; rewrite C; eexists; reflexivity). destruct O as [o O]. set (s' := ERow _ s r1) in *.
  assert (FN : FRow (cols (structure b)) (Some s') r2 = None) by (unfold FRow; destruct (cells r2) as [|x cx]; [congruence|]; unfold begin_row; cbn [s_offsets]; rewrite O; reflexivity). rewrite FN.
  assert (Z : forall l, fold_left (FRow (cols (structure b))) l None = None) by (induction l as [|x l IH]; [reflexivity|exact IH]). now rewrite Z.
Qed.
Print Assumptions gpu_gap_undefined.

(* ---------------------------------------------------------- cases *)
(* one row block of two rows: an E cell and two F cells of one column *)
Definition wide : Structure := mkStructure [mkBlock 1 0; mkBlock 1 1; mkBlock 1 2] [mkRow (mkBlock 2 0) [mkCell 0 0; mkCell 1 2; mkCell 2 4]].
Lemma wide_valid : valid wide.
Proof. constructor; cbn; [auto|auto|]. intros row [<-|[]]. cbn. split; [repeat constructor; cbn; lia|]. intros c [<-|[<-|[<-|[]]]]; cbn; lia. Qed.
Lemma wide_good v : good (Construct wide v).
Proof. assert (P : packed wide) by (cbn; auto). exact (bs_construct wide v wide_valid (packed_disjoint _ P) (packed_contained _ P)). Qed.
Lemma wide_parts : partitioned 1 wide /\ stored_partitioned 1 wide /\ ~ gap 1 wide /\ ~ in_order 1 wide.
Proof.
  split; [|split; [|split]].
  - constructor; [cbn; lia|]. exists (rows wide), []. split; [reflexivity|]. split; [|intros row []]. intros row [<-|[]]. exists (mkCell 0 0), [mkCell 1 2; mkCell 2 4]. split; [reflexivity|]. split; [cbn; lia|]. intros c [<-|[<-|[]]]; cbn; lia.
  - split; cbn; auto.
  - intros [l1 [r1 [r2 [l2 [E _]]]]]. apply (f_equal (@length Row)) in E. rewrite app_length in E. cbn [length wide rows] in E. lia.
  - intros H. specialize (H _ (or_introl eq_refl)). cbn in H. lia.
Qed.
Example gpu_view_wide : exists crs v, View 4 (Construct wide INR) (Done (crs, v)) /\ crs_entry crs v 1 2 = 5%R.
Proof.
  destruct (gpu_view (Construct wide INR) 4 (wide_good INR)) as [[r H] A]; [cbn; auto|intros row [<-|[]]; discriminate|lia|]. destruct (A r H) as [crs [v [-> [_ [_ [_ [_ R]]]]]]]. exists crs, v. split; [exact H|]. rewrite R by (cbn; lia). unfold entries, dense. cbn. lra.
Qed.
(* F of the partitioned view: entry (0, 0) should be 2 and is 0 *)
Theorem gpu_partitioned_f_refuted : exists b nelim per_batch, good b /\ partitioned nelim (structure b) /\ stored_partitioned nelim (structure b) /\ ~ gap nelim (structure b) /\ 0 < per_batch /\
  (exists result, PartitionedView per_batch nelim b result) /\
  forall e ve f vf, PartitionedView per_batch nelim b (Done ((e, ve), (f, vf))) ->
    ~ represents (num_rows b) (f_columns nelim (structure b)) (count (f_extents nelim (structure b))) f vf (F_of nelim (structure b) (values b)).
Proof.
  exists (Construct wide INR), 1, 4. destruct wide_parts as [P1 [P2 [P3 P4]]]. destruct (gpu_partitioned 1 (Construct wide INR) 4 (wide_good INR) P1 P2 P3 ltac:(lia)) as [EX A].
  split; [apply wide_good|]. split; [exact P1|]. split; [exact P2|]. split; [exact P3|]. split; [lia|]. split; [exact EX|]. intros e ve f vf H R. destruct (A _ H) as [e' [ve' [f' [vf' [EQ [_ [_ R']]]]]]]. injection EQ as <- <- <- <-. specialize (R' P4).
  destruct R as [_ [_ [_ [_ R]]]], R' as [_ [_ [_ [_ R']]]]. specialize (R 0 0 ltac:(cbn; lia) ltac:(cbn; lia)). rewrite (R' 0 0 ltac:(cbn; lia) ltac:(cbn; lia)) in R. unfold F_of, dense in R. cbn in R. lra.
Qed.
Print Assumptions gpu_partitioned_f_refuted.
(* rows of one cell or of size 1: F is right *)
Definition thin : Structure := mkStructure [mkBlock 1 0; mkBlock 2 1] [mkRow (mkBlock 2 0) [mkCell 0 0; mkCell 1 2]; mkRow (mkBlock 1 2) [mkCell 1 6]].
Lemma thin_valid : valid thin.
Proof. constructor; cbn; [auto|auto|]. intros row [<-|[<-|[]]]; cbn; (split; [repeat constructor; cbn; lia|]); intros c I; repeat (destruct I as [<-|I]; [cbn; lia|]); destruct I. Qed.
Example gpu_partitioned_thin : exists e ve f vf, PartitionedView 4 1 (Construct thin INR) (Done ((e, ve), (f, vf))) /\ crs_entry e ve 1 0 = 1%R /\ crs_entry f vf 1 1 = 5%R /\ crs_entry f vf 2 0 = 6%R.
Proof.
  assert (P : packed thin) by (cbn; auto). assert (G := bs_construct thin INR thin_valid (packed_disjoint _ P) (packed_contained _ P)).
  destruct (gpu_partitioned 1 (Construct thin INR) 4 G) as [[r H] A].
  - constructor; [cbn; lia|]. exists [mkRow (mkBlock 2 0) [mkCell 0 0; mkCell 1 2]], [mkRow (mkBlock 1 2) [mkCell 1 6]]. split; [reflexivity|]. split.
    + intros row [<-|[]]. exists (mkCell 0 0), [mkCell 1 2]. split; [reflexivity|]. split; [cbn; lia|]. intros c [<-|[]]; cbn; lia.
    + intros row [<-|[]]. split; [discriminate|]. intros c [<-|[]]; cbn; lia.
  - split; cbn; auto.
  - intros [l1 [r1 [r2 [l2 [E [N1 [N2 _]]]]]]]. destruct l1 as [|x [|y [|z l1]]]; cbn in E; try discriminate. injection E as <- <- <-. specialize (N1 (mkCell 1 2)). cbn in N1. specialize (N1 ltac:(auto)). lia.
  - lia.
  - destruct (A r H) as [e [ve [f [vf [-> [[_ [_ [_ [_ RE]]]] [RF _]]]]]]]. destruct RF as [_ [_ [_ [_ RF]]]]; [intros row [<-|[<-|[]]]; cbn; lia|]. exists e, ve, f, vf. split; [exact H|]. rewrite RE, !RF by (cbn; lia). unfold E_of, F_of, dense. cbn. repeat split; lra.
Qed.
(* one E cell alone, then one F cell *)
Definition holed : Structure := mkStructure [mkBlock 1 0; mkBlock 1 1] [mkRow (mkBlock 1 0) [mkCell 0 0]; mkRow (mkBlock 1 1) [mkCell 1 1]].
Theorem gpu_gap_refuted : exists b nelim per_batch, good b /\ partitioned nelim (structure b) /\ stored_partitioned nelim (structure b) /\ 0 < per_batch /\ PartitionedView per_batch nelim b Undefined.
Proof.
  assert (V : valid holed) by (constructor; cbn; [auto|auto|]; intros row [<-|[<-|[]]]; cbn; (split; [repeat constructor; cbn; lia|]); intros c [<-|[]]; cbn; lia).
  assert (P : packed holed) by (cbn; auto).
  assert (PT : partitioned 1 holed). { constructor; [cbn; lia|]. exists [mkRow (mkBlock 1 0) [mkCell 0 0]], [mkRow (mkBlock 1 1) [mkCell 1 1]]. split; [reflexivity|]. split; intros row [<-|[]]; [exists (mkCell 0 0), []; split; [reflexivity|]; split; [cbn; lia|intros c []]|split; [discriminate|]; intros c [<-|[]]; cbn; lia]. }
  exists (Construct holed INR), 1, 4. split; [exact (bs_construct holed INR V (packed_disjoint _ P) (packed_contained _ P))|]. split; [exact PT|]. split; [split; cbn; auto|]. split; [lia|].
  apply (gpu_gap_undefined 1 (Construct holed INR) 4 PT); [|reflexivity]. exists [], (mkRow (mkBlock 1 0) [mkCell 0 0]), (mkRow (mkBlock 1 1) [mkCell 1 1]), []. split; [reflexivity|]. split; [intros c [<-|[]]; cbn; lia|]. split; [intros c [<-|[]]; cbn; lia|discriminate].
Qed.
Print Assumptions gpu_gap_refuted.
