(* C82: the flat structure. *)
From Coq Require Import Reals List Arith Bool Lia Permutation.
From Verif Require Import SchurModel BlockSparseModel BlockSparseSpec GpuModel GpuSpec.
Import ListNotations.
Close Scope R_scope. Open Scope nat_scope.

Section Rows.
Variable bl : list Block.
Definition cw (c : Cell) : nat := size (nth (block_id c) bl (mkBlock 0 0)).
Fixpoint widths (cs : list Cell) : nat := match cs with [] => 0 | c :: cs' => cw c + widths cs' end.
Definition room (row : Row) : nat := size (block row) * widths (cells row).
Fixpoint rooms (rs : list Row) : nat := match rs with [] => 0 | row :: rs' => room row + rooms rs' end.
(* cells one after the other from P *)
Fixpoint placed (h P : nat) (cs : list Cell) : Prop := match cs with [] => True | c :: cs' => cell_position c = P /\ placed h (P + h * cw c) cs' end.
Fixpoint all_placed (P : nat) (rs : list Row) : Prop := match rs with [] => True | row :: rs' => placed (size (block row)) P (cells row) /\ all_placed (P + room row) rs' end.
Fixpoint firsts (n : nat) (rs : list Row) : list nat := match rs with [] => [] | row :: rs' => n :: firsts (n + length (cells row)) rs' end.
Fixpoint begins (P : nat) (rs : list Row) : list nat := match rs with [] => [] | row :: rs' => P :: begins (P + room row) rs' end.
Definition without (row : Row) : Row := mkRow (block row) (tl (cells row)).
Definition only (row : Row) : Row := mkRow (block row) (firstn 1 (cells row)).

Lemma rooms_app a b : rooms (a ++ b) = rooms a + rooms b.
Proof. induction a as [|x a IH]; cbn [app rooms]; [reflexivity|]. rewrite IH. lia. Qed.
Lemma begins_app a : forall P b, begins P (a ++ b) = begins P a ++ begins (P + rooms a) b.
Proof. induction a as [|x a IH]; intros P b; cbn [app begins rooms]; [now rewrite Nat.add_0_r|]. rewrite IH. do 3 f_equal. lia. Qed.
Lemma firsts_app a : forall n b, firsts n (a ++ b) = firsts n a ++ firsts (n + length (flat_map cells a)) b.
Proof. induction a as [|x a IH]; intros n b; cbn [app firsts flat_map length]; [now rewrite Nat.add_0_r|]. rewrite IH, app_length. do 3 f_equal. lia. Qed.

Definition Offs (P : nat) (l : list nat) (o : list (option nat)) : Prop := fill P o = map Some (rev l).
Definition Inv (base P : nat) (s : Scan) : Prop := s_sequential s = true /\ ((s_f s = None /\ P = base) \/ (s_f s = Some base /\ s_nnz s = P)).

(* cells of F *)
Lemma fcells h cs : forall s, let s' := fold_left (FCell bl h) cs s in
  s_first s' = s_first s /\ s_cells s' = s_cells s ++ cs /\ s_rows s' = s_rows s /\ s_offsets s' = s_offsets s /\ s_nnz_e s' = s_nnz_e s /\ s_compatible s' = s_compatible s.
Proof.
  induction cs as [|c cs IH]; intros s; cbn [fold_left]; [rewrite app_nil_r; cbv zeta; auto 10|]. destruct (IH (FCell bl h s c)) as [A [B [C [D [E G]]]]]. cbv zeta. rewrite A, B, C, D, E, G. unfold FCell. cbn [s_first s_cells s_rows s_offsets s_nnz_e s_compatible].
  rewrite <- app_assoc. cbn [app]. auto 10.
Qed.
Lemma fcells_inv h base cs : forall s P, Inv base P s -> placed h P cs -> Inv base (P + h * widths cs) (fold_left (FCell bl h) cs s).
Proof.
  induction cs as [|c cs IH]; intros s P I Q; cbn [fold_left widths]; [now rewrite Nat.mul_0_r, Nat.add_0_r|]. cbn [placed] in Q. destruct Q as [Q1 Q2].
  replace (P + h * (cw c + widths cs)) with (P + h * cw c + h * widths cs) by lia. apply IH; [|exact Q2].
  destruct I as [S1 [[N E]|[N E]]]; unfold Inv, FCell; cbn [s_sequential s_f s_nnz]; rewrite S1, N; cbn [andb].
  - rewrite Nat.eqb_refl. split; [auto|]. right. split; [congruence|]. rewrite Q1. unfold cw. lia.
  - rewrite Q1, E, Nat.eqb_refl. split; [auto|]. right. split; [auto|]. unfold cw. lia.
Qed.
Lemma erow_lists s row c cs : cells row = c :: cs -> let s' := ERow bl s row in
  s_first s' = s_first s ++ [length (s_cells s)] /\ s_cells s' = s_cells s ++ cells row /\ s_rows s' = s_rows s ++ [block row] /\ s_nnz_e s' = s_nnz_e s + size (block row) * cw c /\
  s_compatible s' = s_compatible s && negb ((2 <? length (cells row)) && (1 <? size (block row))).
Proof.
  intros E. unfold ERow. rewrite E. cbv zeta. match goal with |- context [fold_left (FCell bl ?h) cs ?s0] => destruct (fcells h cs s0) as [A [B [C [D [X G]]]]] end. rewrite A, B, C, X, G.
  unfold set_offsets, begin_row. cbn [s_first s_cells s_rows s_nnz_e s_compatible]. rewrite E, <- app_assoc. cbn [app]. unfold cw. repeat (split; [auto; lia|]). reflexivity.
Qed.
Lemma erow_inv s row c cs base P l : cells row = c :: cs -> Inv base P s -> Offs P l (s_offsets s) -> placed (size (block row)) P cs ->
  Inv base (P + size (block row) * widths cs) (ERow bl s row) /\ Offs (P + size (block row) * widths cs) (l ++ [P]) (s_offsets (ERow bl s row)).
Proof.
  intros E I O Q. unfold ERow. rewrite E. cbv zeta. split; [apply fcells_inv; auto|].
  match goal with |- context [fold_left (FCell bl ?h) cs ?s0] => destruct (fcells h cs s0) as [A [B [C [D [X G]]]]] end. rewrite D. unfold set_offsets, begin_row. cbn [s_offsets].
  unfold Offs. rewrite rev_unit. destruct cs as [|c1 cs]; cbn [fill map].
  - cbn [widths]. rewrite Nat.mul_0_r, Nat.add_0_r. now rewrite O.
  - destruct Q as [-> _]. now rewrite O.
Qed.
Lemma frow_some s row base P l : cells row <> [] -> Inv base P s -> Offs P l (s_offsets s) -> (forall o, s_offsets s <> None :: o) -> placed (size (block row)) P (cells row) ->
  exists s', FRow bl (Some s) row = Some s' /\ Inv base (P + room row) s' /\ Offs (P + room row) (l ++ [P]) (s_offsets s') /\ (forall o, s_offsets s' <> None :: o) /\
    s_first s' = s_first s ++ [length (s_cells s)] /\ s_cells s' = s_cells s ++ cells row /\ s_rows s' = s_rows s ++ [block row] /\ s_nnz_e s' = s_nnz_e s /\
    s_compatible s' = s_compatible s && negb ((1 <? length (cells row)) && (1 <? size (block row))).
Proof.
  intros N I O NN Q. unfold FRow. destruct (cells row) as [|c cs] eqn:E; [congruence|]. unfold begin_row at 1. cbn [s_offsets].
  assert (OE : fill P (s_offsets s) = s_offsets s) by (destruct (s_offsets s) as [|[v|] o] eqn:EO; [reflexivity|reflexivity|exfalso; eapply NN; eauto]).
  exists (fold_left (FCell bl (size (block row))) (c :: cs) (set_offsets (begin_row 1 row s) (Some (cell_position c) :: s_offsets s))).
  split; [destruct (s_offsets s) as [|[v|] o] eqn:EO; [reflexivity|reflexivity|exfalso; eapply NN; eauto]|].
  assert (I' : Inv base P (set_offsets (begin_row 1 row s) (Some (cell_position c) :: s_offsets s))) by exact I.
  unfold room. rewrite E. split; [apply fcells_inv; auto|].
  match goal with |- context [fold_left (FCell bl ?h) ?cs0 ?s0] => destruct (fcells h cs0 s0) as [A [B [C [D [X G]]]]] end. rewrite A, B, C, D, X, G. unfold set_offsets, begin_row. cbn [s_first s_cells s_rows s_nnz_e s_compatible s_offsets]. rewrite E.
  split. { unfold Offs. rewrite rev_unit. cbn [fill map]. rewrite <- O, OE. destruct Q as [-> _]. reflexivity. }
  split; [discriminate|]. auto 10.
Qed.

Definition fit (most : nat) (row : Row) : bool := negb ((most <? length (cells row)) && (1 <? size (block row))).
Definition e_row (row : Row) : Prop := cells row <> [].
Lemma erows es : (forall row, In row es -> cells row <> []) -> forall s base P l, Inv base P s -> Offs P l (s_offsets s) -> all_placed P (map without es) ->
  let s' := fold_left (ERow bl) es s in
  Inv base (P + rooms (map without es)) s' /\ Offs (P + rooms (map without es)) (l ++ begins P (map without es)) (s_offsets s') /\
  s_first s' = s_first s ++ firsts (length (s_cells s)) es /\ s_cells s' = s_cells s ++ flat_map cells es /\ s_rows s' = s_rows s ++ map block es /\
  s_nnz_e s' = s_nnz_e s + rooms (map only es) /\ s_compatible s' = s_compatible s && forallb (fit 2) es.
Proof.
  induction es as [|row es IH]; intros NE s base P l I O Q; cbn [fold_left map rooms begins firsts flat_map forallb].
  - rewrite !app_nil_r, !Nat.add_0_r, andb_true_r. auto 10.
  - cbn [map all_placed] in Q. destruct Q as [Q1 Q2]. destruct (cells row) as [|c cs] eqn:E; [exfalso; apply (NE row); [now left|auto]|].
    unfold room in Q2. cbn [without block cells] in Q1, Q2. rewrite E in Q1, Q2. cbn [tl] in Q1, Q2.
    destruct (erow_inv s row c cs base P l E I O Q1) as [I' O']. destruct (erow_lists s row c cs E) as [A [B [C [D G]]]].
    destruct (IH (fun r H => NE r (or_intror H)) (ERow bl s row) base _ _ I' O' Q2) as [J1 [J2 [J3 [J4 [J5 [J6 J7]]]]]]. cbv zeta. rewrite J3, J4, J5, J6, J7, A, B, C, D, G.
    unfold room. cbn [without only block cells]. rewrite E. cbn [tl firstn widths]. rewrite app_length. cbn [length] in *. rewrite <- !app_assoc in *. cbn [app] in *. unfold fit at 2. rewrite E, andb_assoc.
    rewrite !Nat.add_assoc. split; [exact J1|]. split; [exact J2|]. split; [reflexivity|]. split; [reflexivity|]. split; [reflexivity|]. split; [lia|reflexivity].
Qed.
Lemma frows fs : (forall row, In row fs -> cells row <> []) -> forall s base P l, Inv base P s -> Offs P l (s_offsets s) -> (fs = [] \/ forall o, s_offsets s <> None :: o) -> all_placed P fs ->
  exists s', fold_left (FRow bl) fs (Some s) = Some s' /\
  Inv base (P + rooms fs) s' /\ Offs (P + rooms fs) (l ++ begins P fs) (s_offsets s') /\
  s_first s' = s_first s ++ firsts (length (s_cells s)) fs /\ s_cells s' = s_cells s ++ flat_map cells fs /\ s_rows s' = s_rows s ++ map block fs /\
  s_nnz_e s' = s_nnz_e s /\ s_compatible s' = s_compatible s && forallb (fit 1) fs.
Proof.
  induction fs as [|row fs IH]; intros NE s base P l I O NN Q; cbn [fold_left map rooms begins firsts flat_map forallb].
  - exists s. rewrite !app_nil_r, !Nat.add_0_r, andb_true_r. auto 10.
  - destruct NN as [NN|NN]; [discriminate|]. destruct Q as [Q1 Q2].
    destruct (frow_some s row base P l (NE row (or_introl eq_refl)) I O NN Q1) as [s1 [-> [I1 [O1 [N1 [A [B [C [D G]]]]]]]]].
    destruct (IH (fun r H => NE r (or_intror H)) s1 base _ _ I1 O1 (or_intror N1) Q2) as [s' [E [J1 [J2 [J3 [J4 [J5 [J6 J7]]]]]]]]. exists s'. split; [exact E|]. rewrite J3, J4, J5, J6, J7, A, B, C, D, G.
    rewrite app_length, <- !app_assoc in *. cbn [app] in *. unfold fit at 2. rewrite andb_assoc. replace (P + (room row + rooms fs)) with (P + room row + rooms fs) by lia. auto 12.
Qed.
End Rows.

Lemma leading_app nelim es fs : (forall row, In row es -> starts_in nelim row = true) -> (forall row, In row fs -> starts_in nelim row = false) -> leading nelim (es ++ fs) = es.
Proof.
  intros HE HF. induction es as [|row es IH]; cbn [app leading].
  - destruct fs as [|row fs]; [reflexivity|]. cbn [leading]. now rewrite (HF row (or_introl eq_refl)).
  - rewrite (HE row (or_introl eq_refl)), IH; [reflexivity|]. intros r H. apply HE. now right.
Qed.
Lemma unopt_some l n : map (fun o => match o with Some v => v | None => 0 end) (map Some l ++ [Some n]) = l ++ [n].
Proof. rewrite map_app, map_map, map_id. reflexivity. Qed.
(* the constructor *)
Theorem flatten_ok nelim bs es fs : let bl := cols bs in let ne := rooms bl (map only es) in rows bs = es ++ fs ->
  (forall row, In row es -> starts_in nelim row = true) -> (forall row, In row fs -> starts_in nelim row = false /\ cells row <> []) ->
  all_placed bl ne (map without es ++ fs) -> (fs = [] \/ es = [] \/ exists es' row, es = es' ++ [row] /\ 2 <= length (cells row)) ->
  Flatten nelim bs = Done (mkFlat (firsts 0 (rows bs) ++ [length (flat_map cells (rows bs))]) (flat_map cells (rows bs)) (map block (rows bs)) bl
    (begins bl ne (map without es ++ fs) ++ [ne + rooms bl (map without es ++ fs)]) ne (ne + rooms bl (map without es ++ fs)) (length es) (forallb (fit 2) es && forallb (fit 1) fs)).
Proof.
  intros bl ne ER HE HF Q GAP. unfold Flatten. rewrite ER, leading_app; auto; [|intros row H; now apply HF].
  replace (skipn (length es) (es ++ fs)) with fs by (rewrite skipn_app, skipn_all, Nat.sub_diag; reflexivity). fold bl.
  assert (NE : forall row, In row es -> cells row <> []) by (intros row H E; specialize (HE row H); unfold starts_in in HE; rewrite E in HE; discriminate).
  assert (QA : forall a b P, all_placed bl P (a ++ b) -> all_placed bl P a /\ all_placed bl (P + rooms bl a) b). { induction a as [|x a IH]; intros b P H; cbn [app all_placed rooms] in *; [rewrite Nat.add_0_r; auto|]. destruct H as [H1 H2]. destruct (IH _ _ H2). split; [auto|]. now rewrite Nat.add_assoc. }
  destruct (QA _ _ _ Q) as [Q1 Q2].
  set (s0 := mkScan [] [] [] [] 0 0 None true true). assert (I0 : Inv ne ne s0) by (split; [reflexivity|left; auto]). assert (O0 : Offs ne [] (s_offsets s0)) by reflexivity.
  destruct (erows bl es NE s0 ne ne [] I0 O0 Q1) as [J1 [J2 [J3 [J4 [J5 [J6 J7]]]]]]. set (s1 := fold_left (ERow bl) es s0) in *.
  assert (NN : fs = [] \/ forall o, s_offsets s1 <> None :: o).
  { destruct GAP as [G|[G|[es' [row [G L]]]]]; [auto|right; unfold s1; rewrite G; discriminate|right]. unfold s1. rewrite G, fold_left_app. cbn [fold_left]. intros o. destruct (cells row) as [|c [|c1 cs]] eqn:E; cbn [length] in L; try lia.
    unfold ERow. rewrite E. cbv zeta. match goal with |- context [fold_left (FCell bl ?h) ?cs0 ?s0] => destruct (fcells bl h cs0 s0) as [_ [_ [_ [D _]]]] end. rewrite D. discriminate. }
  destruct (frows bl fs (fun row H => proj2 (HF row H)) s1 ne _ _ J1 J2 NN Q2) as [s2 [-> [K1 [K2 [K3 [K4 [K5 [K6 K7]]]]]]]].
  cbn [s0 s_first s_cells s_rows s_nnz_e s_compatible app] in J3, J4, J5, J6, J7. rewrite !Nat.add_0_l in *. cbn [andb] in J7.
  assert (EN : s_nnz_e s2 = ne) by (rewrite K6, J6; reflexivity). rewrite EN.
  set (N := ne + rooms bl (map without es) + rooms bl fs) in *. assert (TN : ne + rooms bl (map without es ++ fs) = N) by (unfold N; rewrite rooms_app; lia).
  assert (F1 : match s_f s2 with None => ne | Some f => f end = ne) by (destruct K1 as [_ [[-> _]|[-> _]]]; reflexivity). assert (F2 : match s_f s2 with None => ne | Some _ => s_nnz s2 end = N) by (destruct K1 as [_ [[-> X]|[-> X]]]; congruence). rewrite F1, F2, Nat.eqb_refl, (proj1 K1). cbn [negb].
  rewrite TN, K3, K4, K5, K7, J3, J4, J5, J7. rewrite flat_map_app, firsts_app, map_app, begins_app. unfold Offs in K2. rewrite K2. cbn [app]. rewrite <- map_rev, rev_involutive. rewrite map_map. rewrite map_id, map_app. reflexivity.
Qed.
