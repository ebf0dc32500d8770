(* C82: the views. *)
From Coq Require Import Reals List Arith Bool Lia Lra Permutation.
From Verif Require Import SchurModel BlockSparseModel BlockSparseSpec BlockSparseProofs BlockSparseProofs2 GpuModel GpuSpec GpuProofs GpuProofs2 GpuProofs3 GpuProofs4 GpuProofs5.
Import ListNotations.
Close Scope R_scope. Open Scope nat_scope.

Lemma launch_some {A} (ws : list (nat * A)) m : exists m', launch ws m m'.
Proof. exists (fold_left write ws m), ws. split; [reflexivity|auto]. Qed.
Lemma fill_some part e nelim n F : exists r, Fill part e nelim n F r.
Proof.
  unfold Fill. destruct (all_some _) as [ws|]; [|eauto]. destruct (launch_some ((if part then [(0, 0)] else []) ++ concat (map (fun w => fst (fst w)) ws)) (fun _ => 0)) as [ne H1]. destruct (launch_some ((0, 0) :: concat (map (fun w => snd (fst w)) ws)) (fun _ => 0)) as [nf H2]. destruct (launch_some (concat (map snd ws)) (fun _ => 0)) as [ids H3].
  destruct (all_some (map (ColumnThread part e nelim F ids (scan ne) (scan nf)) (seq 0 n))) as [ws'|] eqn:E.
  - destruct (launch_some (concat (map fst ws')) (fun _ => 0)) as [ce H4]. destruct (launch_some (concat (map snd ws')) (fun _ => 0)) as [cf H5]. eexists (Some (mkCrs _ _, mkCrs _ _)). exists (fun _ => 0), (fun _ => 0), (fun _ => 0), ne, nf, ids. split; [auto|]. split; [auto|]. split; [auto|]. rewrite E. exists (fun _ => 0), (fun _ => 0), ce, cf. auto.
  - exists None, (fun _ => 0), (fun _ => 0), (fun _ => 0), ne, nf, ids. rewrite E. auto.
Qed.
Lemma update_some F crs per n values old : exists r, UpdateValues F crs per n values old r.
Proof. unfold UpdateValues. destruct (f_compatible F); [eauto|]. destruct (permute_writes _ _ _ _ _ _ _ _) as [ws|]; [|eauto]. destruct (launch_some ws old) as [new H]. eauto. Qed.
Lemma update_part_some F f per n values oe of_ : exists r, UpdatePartitioned F f per n values oe of_ r.
Proof. unfold UpdatePartitioned. destruct (f_compatible F); [eauto|]. destruct (permute_writes _ _ _ _ _ _ _ _) as [ws|]; [|eauto]. destruct (launch_some ws of_) as [new H]. eauto. Qed.

Lemma begins_nth bl rs x : forall P i, i < length rs -> nth_error (begins bl P rs ++ x) i = Some (P + rooms bl (firstn i rs)).
Proof. induction rs as [|r rs IH]; intros P [|i] H; cbn [length begins app nth_error firstn rooms] in *; try lia; [f_equal; lia|]. rewrite IH by lia. f_equal. lia. Qed.
Lemma heads bl rs base : all_placed bl base rs -> (forall row, In row rs -> cells row <> []) -> forall i, i < length rs ->
  match nth_error (firsts 0 rs ++ [length (flat_map cells rs)]) i with None => None | Some a => match nth_error (flat_map cells rs) a with None => None | Some c => Some (cell_position c) end end = Some (base + rooms bl (firstn i rs)).
Proof.
  intros P NE i I. assert (X := firsts_nth rs 0 i ltac:(lia)). cbn [Nat.add] in X. rewrite X. rewrite (flat_firstn rs i I), nth_error_app2, Nat.sub_diag by lia. assert (Q := all_placed_nth bl rs base i P I). assert (N := NE (nth i rs dr) (nth_In rs dr I)). destruct (cells (nth i rs dr)) as [|c cs]; [now destruct N|]. destruct Q as [Q _]. cbn. now rewrite Q.
Qed.
Lemma ext_extents bs : extents bs = ext (cols bs) (rows bs). Proof. reflexivity. Qed.
Lemma area_rooms bs : area bs = rooms (cols bs) (rows bs). Proof. change (area bs) with (count (extents bs)). rewrite ext_extents. apply count_rows. Qed.
Lemma fit1 row : fit 1 row = true <-> size (block row) <= 1 \/ length (cells row) <= 1.
Proof. unfold fit. destruct (Nat.ltb_spec 1 (length (cells row))), (Nat.ltb_spec 1 (size (block row))); cbn; split; intros X; try reflexivity; try lia; discriminate. Qed.

Section Whole.
Variables (bs : Structure) (per n : nat).
Hypotheses (V : valid bs) (NE : forall row, In row (rows bs) -> cells row <> []) (PK : packed bs) (PER : 0 < per) (N : n = area bs).
Let bl := cols bs.
Let rs := rows bs.
Lemma whole_flat : exists F, Flatten 0 bs = Done F /\ f_first F = firsts 0 rs ++ [length (flat_map cells rs)] /\ f_cells F = flat_map cells rs /\ f_rows F = map block rs /\ f_cols F = bl /\ f_compatible F = forallb (fit 1) rs.
Proof.
  assert (S0 : forall row, starts_in 0 row = false) by (intros row; unfold starts_in; destruct (cells row); reflexivity).
  assert (AP : all_placed bl 0 rs) by (apply seq_rows; exact PK).
  rewrite (flatten_ok 0 bs [] (rows bs)); cbn [map rooms app]; auto.
  eexists. split; [reflexivity|]. cbn. auto 10.
Qed.
Theorem whole_ok F : Flatten 0 bs = Done F -> forall fr, Fill false 0 0 (height bs) F fr -> exists e crs, fr = Some (e, crs) /\
  (f_compatible F = false -> forall values, exists ws, permute_writes false 0 F (c_rows crs) 0 per n values = Some ws /\ Permutation (map fst ws) (seq 0 n)) /\
  forall values old result, UpdateValues F crs per n values old result -> exists v, result = Some v /\ represents (height bs) (breadth bs) n crs v (dense bs values).
Proof.
  intros FL fr H. destruct whole_flat as [F' [FL' [H1 [H2 [H3 [H4 H5]]]]]]. rewrite FL in FL'. injection FL' as <-.
  assert (AP : all_placed bl 0 rs) by (apply seq_rows; exact PK). assert (LO := v_rows bs V). assert (LC := v_cols bs V).
  assert (NR : n = rooms bl rs) by (rewrite N; apply area_rooms).
  destruct (fill_ok bl [] rs false F H1 H2 H3 H4 (fun _ => eq_refl) (fun row I => match I with end) LO 0 fr H) as [e [crs [-> [C _]]]]. cbn [map app] in C. exists e, crs. split; [reflexivity|].
  assert (SH : position (nth 0 bl (mkBlock 0 0)) = 0). { unfold bl. destruct (cols bs) as [|c0 cl] eqn:EC; [reflexivity|]. exact (proj1 LC). }
  rewrite SH in C.
  assert (IN : forall row c, In row rs -> In c (cells row) -> 0 <= position (nth (block_id c) bl (mkBlock 0 0)) /\ position (nth (block_id c) bl (mkBlock 0 0)) + cw bl c <= 0 + breadth bs).
  { intros row c R I. split; [lia|]. exact (col_bound bs (block_id c) V (proj2 (v_cells bs V row R) c I)). }
  assert (PERM : forall values, exists ws, permute_writes false 0 F (c_rows crs) 0 per n values = Some ws /\ Permutation (map fst ws) (seq 0 n) /\ forall old new, launch ws old new ->
    forall k i pre c post j, place bl rs k i pre c post j -> new (address bl rs k i pre j) = values (cell_position c + i * cw bl c + j - 0)).
  { intros values.
    destruct (permute_ok bl [] rs false F 0 (c_rows crs) H1 H2 H3 H4 (fun _ => eq_refl) (fun row I => match I with end) AP) with (per := per) (n := n) (from := values) as [ws [PW [WS NEW]]]; cbn [map app]; auto.
    + intros i I. cbn [length app map] in *. rewrite H1, H2. apply (heads bl rs 0 AP NE i I).
    + exact (proj1 C).
    + lia.
    + intros Z. rewrite NR. cbn [app length] in Z. destruct rs; [reflexivity|discriminate].
    + cbn [map app length] in PW, WS, NEW. rewrite <- NR in WS. eauto. }
  split; [intros _ values; destruct (PERM values) as [ws [P1 [P2 _]]]; eauto|].
  intros values old result U. unfold UpdateValues in U. destruct (f_compatible F) eqn:FC.
  - eexists. split; [exact U|]. assert (RP := fun NEW => represent_ok bl rs 0 (breadth bs) crs values (copied n values old) C LO IN NEW). rewrite <- NR in RP. apply RP. clear RP.
    intros k i pre c post j PL. unfold copied. assert (B := address_bound _ _ _ _ _ _ _ _ PL). rewrite NR. destruct (Nat.ltb_spec (address bl rs k i pre j) (rooms bl rs)); [|lia]. f_equal. symmetry in H5. rewrite <- (in_order_ok bl 0 rs k i pre c post j AP); [reflexivity| |exact PL].
    intros row R. apply fit1. rewrite forallb_forall in H5. now apply H5.
  - destruct (PERM values) as [ws [PW [WS NEW]]].
    rewrite PW in U. destruct U as [new [LA ->]]. exists new. split; [reflexivity|]. specialize (NEW _ _ LA).
      assert (RP := fun NEW => represent_ok bl rs 0 (breadth bs) crs values new C LO IN NEW). rewrite <- NR in RP. apply RP. intros k i pre c post j PL. rewrite (NEW _ _ _ _ _ _ PL). f_equal. lia.
Qed.
End Whole.
