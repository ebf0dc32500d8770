(* C69: the inner product computer. *)
From Coq Require Import Reals List Arith Bool Lia Lra Sorted.
From Verif Require Import SchurModel BlockSparseModel BlockSparseSpec BlockSparseProofs GramModel GramSpec GramProofs3.
Import ListNotations.
Open Scope nat_scope.

(* C69: the entries of the result are those of the block triangle of A'A over the chosen row
   blocks, whatever was in the result before *)
Theorem inner_product (bs : Structure) (values : vec) (s e : nat) (lower : bool) (old : vec) (junk : nat -> nat) :
  valid bs -> ordered_cells bs ->
  let r := Create bs s e lower in
  exists v, Compute bs values s e lower r old = Some v /\
  forall i j p q, i < length (cols bs) -> j < length (cols bs) -> within (col bs i) p -> within (col bs j) q ->
    crs_entry (i_rows r) (columns r junk) v p q = if in_triangle lower i j then gram bs values s e p q else 0%R.
Proof.
  intros V O. cbn zeta. eexists. split; [apply computed; assumption|]. intros i j p q Hi Hj Wp Wq. apply (inner_entry bs values s e lower V O old); try assumption. apply computed; assumption.
Qed.
Print Assumptions inner_product.

(* C69: the result is a compressed row matrix: row pointers from 0 to the number of nonzeros,
   columns within the matrix and strictly increasing in every row *)
Theorem inner_structure (bs : Structure) (s e : nat) (lower : bool) (junk : nat -> nat) :
  valid bs -> ordered_cells bs ->
  let r := Create bs s e lower in
  length (i_rows r) = S (breadth bs) /\ nth 0 (i_rows r) 0 = 0 /\ nth (breadth bs) (i_rows r) 0 = i_nonzeros r /\
  (forall p, p < breadth bs -> nth p (i_rows r) 0 <= nth (S p) (i_rows r) 0) /\
  (forall p t, p < breadth bs -> nth p (i_rows r) 0 <= t < nth (S p) (i_rows r) 0 -> columns r junk t < breadth bs) /\
  (forall p t t', p < breadth bs -> nth p (i_rows r) 0 <= t -> t < t' -> t' < nth (S p) (i_rows r) 0 -> columns r junk t < columns r junk t').
Proof.
  intros V O. cbn zeta. destruct (rows_ok bs s e lower V O) as [A [B [C D]]]. split; [exact A|]. split; [exact B|]. split; [exact C|]. split; [exact D|]. split.
  - intros p t Hp Ht. apply (column_bound bs s e lower V O p); assumption.
  - intros p t t' Hp H1 H2 H3. apply (increasing bs s e lower V O p); assumption.
Qed.
Print Assumptions inner_structure.

(* C69: Create and Compute store only into the allocated arrays, and what Compute leaves in
   them does not depend on what was there *)
Theorem inner_memory (bs : Structure) (values : vec) (s e : nat) (lower : bool) :
  valid bs -> ordered_cells bs ->
  let r := Create bs s e lower in
  (forall p v, In (p, v) (i_stores r) -> p < i_nonzeros r) /\
  (forall u, In u (compute_updates bs values s e lower r) -> u_pos u + u_len u <= i_nonzeros r) /\
  (forall old old' v v' p, Compute bs values s e lower r old = Some v -> Compute bs values s e lower r old' = Some v' -> p < i_nonzeros r -> v p = v' p) /\
  (forall old v p, Compute bs values s e lower r old = Some v -> i_nonzeros r <= p -> v p = old p).
Proof.
  intros V O. cbn zeta. split; [intros p v; apply stores_bound; assumption|]. split; [intro u; apply updates_bound; assumption|]. split.
  - intros old old' v v' p H H' Hp. rewrite computed in H, H' by assumption. injection H as <-. injection H' as <-. rewrite !perform_sum. apply Nat.ltb_lt in Hp. rewrite Hp. reflexivity.
  - intros old v p H Hp. rewrite computed in H by assumption. injection H as <-. rewrite perform_sum. destruct (Nat.ltb_spec p (i_nonzeros (Create bs s e lower))); [lia|]. rewrite suml_zero; [ring|].
    intros u Hu. pose proof (updates_bound bs values s e lower V O u Hu). unfold part. destruct (inside _ _ _) eqn:I; [|reflexivity]. apply inside_spec in I. lia.
Qed.
Print Assumptions inner_memory.

(* three column blocks of sizes 1, 2, 1; two row blocks share the pair (2, 0) *)
Definition example_bs : Structure := mkStructure [mkBlock 1 0; mkBlock 2 1; mkBlock 1 3]
  [mkRow (mkBlock 2 0) [mkCell 0 0; mkCell 2 2]; mkRow (mkBlock 1 2) [mkCell 0 4; mkCell 1 5; mkCell 2 7]].
Example example_valid : valid example_bs /\ ordered_cells example_bs.
Proof.
  split.
  - split; cbn; auto 10. intros row [<-|[<-|[]]]; cbn.
    + split; [repeat constructor; cbn; intuition discriminate|]. intros c [<-|[<-|[]]]; cbn; lia.
    + split; [repeat constructor; cbn; intuition discriminate|]. intros c [<-|[<-|[<-|[]]]]; cbn; lia.
  - split.
    + intros row [<-|[<-|[]]]; cbn; repeat constructor.
    + intros b Hb. do 3 (destruct b as [|b]; [cbn; lia|]). cbn in Hb. lia.
Qed.
Example example_result :
  let r := Create example_bs 0 2 true in
  i_nonzeros r = 11 /\ i_rows r = [0; 1; 4; 7; 11] /\ map (columns r (fun _ => 99)) (seq 0 11) = [0; 0; 1; 2; 0; 1; 2; 0; 1; 2; 3] /\
  map (i_offsets r) (seq 0 (i_terms r)) = [0; 7; 10; 0; 1; 2; 7; 8; 10].
Proof. vm_compute. auto. Qed.
Example example_upper :
  let r := Create example_bs 0 1 false in
  i_nonzeros r = 3 /\ i_rows r = [0; 2; 2; 2; 3] /\ map (columns r (fun _ => 99)) (seq 0 3) = [0; 3; 3].
Proof. vm_compute. auto. Qed.
(* two products are accumulated into the entry (3, 0) *)
Example example_value : forall v, Compute example_bs (fun i => INR i) 0 2 true (Create example_bs 0 2 true) (fun _ => 5%R) = Some v -> v 7 = (INR 2 * INR 0 + INR 3 * INR 1 + INR 7 * INR 4)%R.
Proof.
  intros v H. destruct (inner_product example_bs (fun i => INR i) 0 2 true (fun _ => 5%R) (fun _ => 0) (proj1 example_valid) (proj2 example_valid)) as [v' [E F]]. rewrite E in H. injection H as <-.
  specialize (F 2 0 3 0 ltac:(cbn; lia) ltac:(cbn; lia) ltac:(unfold within; cbn; lia) ltac:(unfold within; cbn; lia)). cbn [in_triangle Nat.leb] in F.
  replace (i_rows (Create example_bs 0 2 true)) with [0; 1; 4; 7; 11] in F by (vm_compute; reflexivity). unfold crs_entry in F. cbn [nth Nat.sub seq suml] in F.
  replace (columns (Create example_bs 0 2 true) (fun _ => 0) 7) with 0 in F by (vm_compute; reflexivity). replace (columns (Create example_bs 0 2 true) (fun _ => 0) 8) with 1 in F by (vm_compute; reflexivity).
  replace (columns (Create example_bs 0 2 true) (fun _ => 0) 9) with 2 in F by (vm_compute; reflexivity). replace (columns (Create example_bs 0 2 true) (fun _ => 0) 10) with 3 in F by (vm_compute; reflexivity). cbn [Nat.eqb] in F.
  transitivity (gram example_bs (fun i => INR i) 0 2 3 0); [rewrite <- F; ring|]. unfold gram, dense, example_bs. cbn [firstn skipn Nat.sub rows suml sumn size block position cells col block_id cols nth holds Nat.leb Nat.ltb Nat.add Nat.mul andb cell_position]. unfold holds. cbn. lra.
Qed.
