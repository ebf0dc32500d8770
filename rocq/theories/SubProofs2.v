(* Proofs for C85: sequences of updates. *)
From Coq Require Import Reals List Arith Bool Lia Lra Psatz.
From Verif Require Import SparseModel SparseSpec SchurModel BlockSparseModel BlockSparseSpec BlockSparseProofs4 BlockSparseProofs6 BlockSparseProps GramModel GramSpec GramProps LsqModel LsqSpec LsqProofs LsqProofs2 LsqProofs3 SubModel SubSpec SubProofs.
Import ListNotations.
Open Scope R_scope.

Lemma rows_sum_from f : forall s rs a, laid_out a (map block rs) ->
  BlockSparseSpec.suml (skipn s rs) (fun row => sumn (size (block row)) (fun k => f (position (block row) + k)%nat)) =
  sumn (total (map block rs)) (fun k => if (list_sum (map (fun row => size (block row)) (firstn s rs)) <=? k)%nat then f (a + k)%nat else 0).
Proof.
  induction s as [|s IH]; intros rs a L; [cbn [skipn firstn map]; rewrite (rows_sum f rs a L); apply sn_ext; intros; reflexivity|].
  destruct rs as [|row rs]; [reflexivity|]. destruct L as [L1 L2]. cbn [skipn firstn map]. rewrite (IH rs _ L2).
  change (total (block row :: map block rs)) with (size (block row) + total (map block rs))%nat. rewrite sn_app.
  set (w := list_sum (map (fun row => size (block row)) (firstn s rs))). change (list_sum (size (block row) :: map (fun row => size (block row)) (firstn s rs))) with (size (block row) + w)%nat.
  rewrite (sn_zero (size (block row))).
  - rewrite Rplus_0_l. apply sn_ext. intros k _. destruct (Nat.leb_spec w k), (Nat.leb_spec (size (block row) + w) (size (block row) + k)); try lia; [f_equal; lia|reflexivity].
  - intros k Hk. destruct (Nat.leb_spec (size (block row) + w) k); [lia|reflexivity].
Qed.
Lemma gram_from bs vs s p q : valid bs -> gram bs vs s (length (rows bs)) p q = sumn (height bs) (fun k => if (first_row bs s <=? k)%nat then dense bs vs k p * dense bs vs k q else 0).
Proof.
  intro V. unfold gram. rewrite firstn_all2 by (rewrite skipn_length; lia). unfold height, first_row. exact (rows_sum_from (fun k => dense bs vs k p * dense bs vs k q) s (rows bs) 0%nat (v_rows _ V)).
Qed.
Lemma first_row_le bs s : (first_row bs s <= height bs)%nat.
Proof.
  unfold first_row, height. generalize (rows bs). clear bs. induction s as [|s IH]; intro l; [cbn; lia|]. destruct l as [|row l]; [cbn; lia|]. cbn [firstn map]. specialize (IH l).
  change (total (block row :: map block l)) with (size (block row) + total (map block l))%nat. change (list_sum (size (block row) :: map (fun row => size (block row)) (firstn s l))) with (size (block row) + list_sum (map (fun row => size (block row)) (firstn s l)))%nat. lia.
Qed.
Lemma first_row_aug A D s : (s <= length (rows (structure A)))%nat -> first_row (aug A D) s = first_row (structure A) s.
Proof.
  intro H. destruct D as [d|]; [|reflexivity]. unfold first_row, aug, appended. cbn [rows]. rewrite firstn_app. replace (s - length (rows (structure A)))%nat with 0%nat by lia. cbn [firstn]. rewrite app_nil_r. reflexivity.
Qed.

(* appending the diagonal and taking it away *)
Record ready (s : nat) (A : BlockSparse) (D : option vec) (A1 : BlockSparse) : Prop := {
  rd_good : good A1;
  rd_structure : structure A1 = aug A D;
  rd_columns : num_columns A1 = num_columns A;
  rd_gram : forall i j, (i < num_columns A)%nat -> (j < num_columns A)%nat ->
    gram (structure A1) (values A1) s (length (rows (structure A1))) i j = part (num_rows A) (first_row (structure A) s) (entries A) D i j }.
Lemma make_ready s A D junk : good A -> (s <= length (rows (structure A)))%nat -> exists A1,
  (match D with Some d => AppendRows A (CreateDiagonalMatrix d (cols (structure A)) junk) junk | None => Some A end) = Some A1 /\ ready s A D A1 /\
  exists A2, (match D with Some _ => DeleteRowBlocks A1 (length (cols (structure A1))) | None => Some A1 end) = Some A2 /\ good A2 /\
    structure A2 = structure A /\ transposed A2 = transposed A /\ nnz A2 = nnz A /\ num_rows A2 = num_rows A /\ num_columns A2 = num_columns A /\
    (forall i, (i < nnz A)%nat -> values A2 i = values A i) /\ (forall p q, entries A2 p q = entries A p q).
Proof.
  intros G Hs. destruct D as [d|].
  - destruct (bs_diagonal d (cols (structure A)) junk (v_cols _ (g_valid _ G))) as [Gd [Pd [Cd [Ld [Rd Ed]]]]]. set (R := CreateDiagonalMatrix d (cols (structure A)) junk) in *.
    destruct (bs_append A R junk G Gd Cd Pd) as [A1 [E1 [G1 [C1 [L1 [R1 [W1 [S1 _]]]]]]]].
    destruct (bs_restore A R junk G Gd Cd Pd) as [A1' [A2 [E1' [E2 [G2 [T1 [T2 [T3 [T4 [T5 [T6 T7]]]]]]]]]]]. rewrite E1 in E1'. injection E1' as <-.
    assert (structure A1 = aug A (Some d)) as SA by (rewrite (append_result A R junk G Gd Cd Pd) in E1; injection E1 as <-; reflexivity).
    exists A1. split; [exact E1|]. split.
    + constructor; [exact G1|exact SA|exact W1|].
      pose proof (first_row_le (structure A) s) as Le. rewrite <- (g_rows _ G) in Le.
      intros i j Hi Hj. rewrite (gram_from _ _ s i j (g_valid _ G1)), <- (g_rows _ G1), R1, sn_app. unfold part.
      assert (first_row (structure A1) s = first_row (structure A) s) as -> by (rewrite SA; apply first_row_aug, Hs). f_equal.
      * apply sn_ext. intros k Hk. fold (entries A1). rewrite !S1. unfold stacked. apply Nat.ltb_lt in Hk. rewrite Hk. reflexivity.
      * rewrite Rd. rewrite (sn_ext _ _ (fun k => if (i =? k)%nat then (if (j =? k)%nat then d k * d k else 0) else 0)).
        -- rewrite (g_columns _ G) in Hi. unfold breadth in Hi. rewrite (sn_pick _ i (fun k => if (j =? k)%nat then d k * d k else 0) Hi). rewrite (Nat.eqb_sym j i). reflexivity.
        -- intros k Hk. fold (entries A1). rewrite !S1. unfold stacked. assert (num_rows A + k <? num_rows A = false)%nat as -> by (apply Nat.ltb_ge; lia).
           replace (num_rows A + k - num_rows A)%nat with k by lia. rewrite !Ed. apply Nat.ltb_lt in Hk. rewrite Hk. cbn [andb]. rewrite (Nat.eqb_sym k i), (Nat.eqb_sym k j).
           destruct (Nat.leb_spec (first_row (structure A) s) (num_rows A + k)); [|exfalso; lia]. destruct (i =? k)%nat, (j =? k)%nat; ring.
    + exists A2. rewrite C1. rewrite Ld in E2. split; [exact E2|]. auto 12.
  - exists A. split; [reflexivity|]. split.
    + constructor; [exact G|reflexivity|reflexivity|]. intros i j _ _. rewrite (gram_from _ _ s i j (g_valid _ G)), <- (g_rows _ G). unfold part. cbn [weight]. destruct (i =? j)%nat; fold (entries A); ring.
    + exists A. split; [reflexivity|]. split; [exact G|]. auto 12.
Qed.

Definition fits (start : nat) (lower : bool) (A : BlockSparse) (D : option vec) {c} (st : State c) : Prop :=
  match computer st with
  | None => True
  | Some (r, e, _) => r = Create (aug A D) start (length (rows (aug A D))) lower /\ e = length (rows (aug A D))
  end.
(* what one update factors *)
Definition factored (c : Cholesky) (n : nat) (P : nat -> nat -> R) (ok : bool) (st : State c) : Prop :=
  exists M : matrix, (forall i j, (i < n)%nat -> (j < n)%nat -> M i j = P i j) /\ factor st = factorize c n M /\ ok = match factor st with Some _ => true | None => false end.
Lemma update_step c start lower st junk junk' A D : good A -> ordered_cells (structure A) -> (start <= length (rows (structure A)))%nat -> fits start lower A D st ->
  exists ok A' st', UpdateImpl c start lower st junk junk' A D = Some (ok, A', st') /\ fits start lower A D st' /\
    factored c (num_columns A) (part (num_rows A) (first_row (structure A) start) (entries A) D) ok st' /\ good A' /\
    structure A' = structure A /\ transposed A' = transposed A /\ nnz A' = nnz A /\ num_rows A' = num_rows A /\ num_columns A' = num_columns A /\
    (forall i, (i < nnz A)%nat -> values A' i = values A i) /\ (forall p q, entries A' p q = entries A p q).
Proof.
  intros G O Hs Cs. destruct (make_ready start A D junk G Hs) as [A1 [E1 [[G1 S1 W1 N1] [A2 [E2 R2]]]]].
  unfold UpdateImpl. cbv zeta. rewrite E1. clear E1.
  pose proof (aug_ordered A D O) as O1. rewrite <- S1 in O1.
  assert (exists v0, (match computer st with Some s => s | None => (Create (structure A1) start (length (rows (structure A1))) lower, length (rows (structure A1)), junk') end) =
    (Create (structure A1) start (length (rows (structure A1))) lower, length (rows (structure A1)), v0)) as [v0 Es].
  { unfold fits in Cs. destruct (computer st) as [[[r e] v0]|]; [|eexists; reflexivity]. destruct Cs as [-> ->]. rewrite S1. eexists. reflexivity. }
  rewrite Es. clear Es.
  destruct (inner_product (structure A1) (values A1) start (length (rows (structure A1))) lower v0 (fun _ => 0%nat) (g_valid _ G1) O1) as [v [Ev _]].
  rewrite Ev, E2. clear E2.
  assert (num_columns A1 = breadth (structure A1)) as Hb by exact (g_columns _ G1).
  pose proof (s_result_read (structure A1) (values A1) lower v0 start (g_valid _ G1) O1 v Ev) as RR. rewrite <- Hb in RR.
  set (M := result_matrix lower (num_columns A1) (Create (structure A1) start (length (rows (structure A1))) lower) v) in *.
  eexists. eexists. eexists. split; [reflexivity|]. split; [unfold fits; cbn [computer]; rewrite <- S1; split; reflexivity|]. split; [|exact R2].
  change (m_num_cols M) with (num_columns A1). rewrite W1 in *.
  exists (read_triangle M). split; [|split; reflexivity]. intros i j Hi Hj. rewrite (RR i j Hi Hj). apply N1; assumption.
Qed.

(* a sequence of updates *)
Definition updated (c : Cholesky) (start : nat) (A : BlockSparse) (u : Update) (o : bool * BlockSparse * State c) : Prop :=
  let '(ok, A', st') := o in
  factored c (num_columns A) (part (num_rows A) (first_row (structure A) start) (dense (structure A) (u_values u)) (u_D u)) ok st' /\ good A' /\
  structure A' = structure A /\ transposed A' = transposed A /\ nnz A' = nnz A /\ num_rows A' = num_rows A /\ num_columns A' = num_columns A /\
  forall i, (i < nnz A)%nat -> values A' i = u_values u i.
Lemma part_ext m r A A' D i j : (forall p q, A p q = A' p q) -> part m r A D i j = part m r A' D i j.
Proof. intro E. unfold part. f_equal. apply sn_ext. intros. rewrite !E. reflexivity. Qed.
Lemma updates_outcome c start lower g A0 : good A0 -> ordered_cells (structure A0) -> (start <= length (rows (structure A0)))%nat -> forall l A D0 st,
  good A -> structure A = structure A0 -> transposed A = transposed A0 -> nnz A = nnz A0 -> num_rows A = num_rows A0 -> num_columns A = num_columns A0 ->
  given D0 = g -> (forall u, In u l -> given (u_D u) = g) -> fits start lower A D0 st ->
  exists r, Updates c start lower st A l = Some r /\ Forall2 (updated c start A0) l r.
Proof.
  intros G0 O0 Hs. induction l as [|u l IH]; intros A D0 st G ES ET EN ER EC HD HC Cs; [exists []; split; [reflexivity|constructor]|].
  cbn [Updates]. set (A1 := with_new A (u_values u)).
  assert (given (u_D u) = g) as Hg by (apply HC; left; reflexivity).
  assert (fits start lower A1 (u_D u) st) as Cs1.
  { unfold fits in *. destruct (computer st) as [[[r e] v]|]; [|exact I]. rewrite (aug_same A A1 D0 (u_D u)) by (reflexivity || congruence). exact Cs. }
  assert (good A1) as G1 by (apply with_new_good, G).
  assert (structure A1 = structure A0) as SA by exact ES.
  destruct (update_step c start lower st (u_junk u) (u_junk' u) A1 (u_D u) G1 ltac:(rewrite SA; exact O0) ltac:(rewrite SA; exact Hs) Cs1)
    as [ok [A' [st' [E [F' [Sv [G' [S' [T' [N' [R' [C' [V' _]]]]]]]]]]]]]. rewrite E.
  destruct (IH A' (u_D u) st') as [r [El Fl]].
  - exact G'.
  - rewrite S'. exact ES.
  - rewrite T'. exact ET.
  - rewrite N'. exact EN.
  - rewrite R'. exact ER.
  - rewrite C'. exact EC.
  - exact Hg.
  - intros u' Hu. apply HC. right. exact Hu.
  - unfold fits in *. rewrite (aug_same A1 A' (u_D u) (u_D u)) by (assumption || reflexivity). exact F'.
  - rewrite El. eexists. split; [reflexivity|]. constructor; [|exact Fl]. cbn [updated]. split.
    + destruct Sv as [M [HM Sv]]. exists M. rewrite <- EC, <- ER. split; [|exact Sv]. intros i j Hi Hj. rewrite (HM i j Hi Hj). rewrite SA. cbn [num_rows A1 with_new]. apply part_ext. intros p q. unfold A1. rewrite (with_new_entries A _ p q G), ES. reflexivity.
    + split; [exact G'|]. rewrite S', T', N', R', C'. unfold A1, with_new. cbn [structure transposed nnz num_rows num_columns]. split; [exact ES|]. split; [exact ET|]. split; [exact EN|]. split; [exact ER|]. split; [exact EC|].
      intros i Hi. rewrite V' by (unfold A1, with_new; cbn [nnz]; lia). unfold A1, with_new. cbn [values]. destruct (Nat.ltb_spec i (nnz A)); [reflexivity|lia].
Qed.

(* ---------------- consequences ---------------- *)
Definition masked (r : nat) (A : nat -> nat -> R) (k i : nat) : R := if (r <=? k)%nat then A k i else 0.
Lemma part_masked m r A D i j : part m r A D i j = normal_matrix m (masked r A) D i j.
Proof. unfold part, normal_matrix. f_equal. apply sn_ext. intros k _. unfold masked. destruct (r <=? k)%nat; ring. Qed.
Lemma part_symmetric n m r A D : symmetric_matrix n (part m r A D).
Proof. intros i j Hi Hj. rewrite !part_masked. apply (normal_symmetric m n); assumption. Qed.
Lemma factored_solves c n P ok st : exact_cholesky c -> symmetric_matrix n P -> factored c n P ok st -> ok = true ->
  forall x y, same n (row_times n P (RightMultiplyAndAccumulate n st x y)) x.
Proof.
  intros Ex SP [M [HM [Ef Hok]]] Ht x y. unfold RightMultiplyAndAccumulate. destruct (factor st) as [f|] eqn:E; [|congruence]. symmetry in Ef.
  assert (symmetric_matrix n M) as SM by (intros i j Hi Hj; rewrite !HM by assumption; apply SP; assumption).
  destruct (Ex n M f SM Ef) as [Sv _]. intros q Hq. rewrite <- (Sv x q Hq). apply row_times_ext; [|intros i _; reflexivity]. intros j Hj. symmetry. apply HM; assumption.
Qed.
Lemma factored_complete c n P ok st : complete_cholesky c -> positive_definite n P -> factored c n P ok st -> ok = true.
Proof.
  intros C HP [M [HM [Ef ->]]]. destruct (C n M) as [f E]; [apply (positive_ext n _ P); [exact HM|exact HP]|]. rewrite Ef, E. reflexivity.
Qed.
Lemma part_positive m n r A D : full_rank m n (masked r A) D -> positive_definite n (part m r A D).
Proof. intro F. apply (positive_ext n _ (normal_matrix m (masked r A) D)); [intros; apply part_masked|apply normal_positive, F]. Qed.
