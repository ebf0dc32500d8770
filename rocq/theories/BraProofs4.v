(* C80: the updates of Eliminate *)
From Coq Require Import Reals List Arith ZArith Bool Lia Lra Permutation Sorting.Sorted.
From Verif Require Import SchurModel SchurSpec SchurProofs SchurProofs2 SchurProofs5 SchurProofs6 SchurProofs14 SchurProps BraModel BraSpec BraProofs BraProofs2.
Import ListNotations.
Close Scope R_scope.
Open Scope nat_scope.

Definition okU (nelim : nat) (bs : Structure) (u : Update) : Prop :=
  match u with
  | AddLhs b1 b2 n m _ => nelim + b1 < num_cols bs /\ nelim + b2 < num_cols bs /\ n = width bs (nelim + b1) /\ m = width bs (nelim + b2)
  | AddRhs _ _ _ => True
  end.
Definition f_cell (nelim : nat) (bs : Structure) (id : nat) : Prop := nelim <= id < num_cols bs.
Lemma ok_add nelim bs i j M : f_cell nelim bs i -> f_cell nelim bs j -> okU nelim bs (AddLhs (i - nelim) (j - nelim) (size (col bs i)) (size (col bs j)) M).
Proof. unfold f_cell, okU, width. intros Hi Hj. replace (nelim + (i - nelim)) with i by lia. replace (nelim + (j - nelim)) with j by lia. repeat split; lia. Qed.
Lemma outer_ok nelim bs vals nrow cs : (forall c, In c cs -> f_cell nelim bs (block_id c)) -> forall u, In u (RowOuterProduct nelim bs vals nrow cs) -> okU nelim bs u.
Proof.
  induction cs as [|c cs IH]; intros H u Hu; [destruct Hu|]. cbn [RowOuterProduct] in Hu. destruct Hu as [<-|Hu]; [apply ok_add; apply H; left; reflexivity|].
  apply in_app_or in Hu as [Hu|Hu].
  - apply in_map_iff in Hu as [c2 [<- H2]]. apply ok_add; apply H; [left; reflexivity|right; exact H2].
  - apply IH; [|exact Hu]. intros c' Hc. apply H. right. exact Hc.
Qed.
Lemma chunk_outer_ok nelim bs es inv buf layout : (forall f off, In (f, off) layout -> f_cell nelim bs f) -> forall u, In u (ChunkOuterProduct nelim bs es inv buf layout) -> okU nelim bs u.
Proof.
  induction layout as [|[id1 off1] layout IH]; intros H u Hu; [destruct Hu|]. cbn [ChunkOuterProduct] in Hu. apply in_app_or in Hu as [Hu|Hu].
  - apply in_map_iff in Hu as [[id2 off2] [<- H2]]. apply ok_add; [exact (H id1 off1 (or_introl eq_refl))|exact (H id2 off2 H2)].
  - apply IH; [|exact Hu]. intros f off Hf. exact (H f off (or_intror Hf)).
Qed.
Lemma chunk_rows_ok nelim bs vals b layout es rs : forall s s', (forall row c, In row rs -> In c (tl (cells row)) -> f_cell nelim bs (block_id c)) ->
  (forall u, In u (updates s) -> okU nelim bs u) -> ChunkRows nelim bs vals b layout es rs s = Some s' -> forall u, In u (updates s') -> okU nelim bs u.
Proof.
  induction rs as [|row rs IH]; intros s s' H U E; cbn [ChunkRows] in E; [inversion E; subst; exact U|].
  destruct (ChunkRow nelim bs vals b layout es s row) as [s1|] eqn:E1; [|discriminate]. apply (IH s1 s'); [intros r c Hr; apply H; right; exact Hr| |exact E].
  unfold ChunkRow in E1. destruct (cells row) as [|e_cell cs] eqn:Ec; [discriminate|]. destruct (BufferRow _ _ _ _ _ _ _ _) as [buf|]; [|discriminate].
  inversion E1. subst s1. cbn [updates]. intros u Hu. apply in_app_or in Hu as [Hu|Hu]; [exact (U u Hu)|]. destruct (1 <? _) in Hu; [|destruct Hu].
  apply (outer_ok nelim bs vals (size (block row)) cs); [|exact Hu]. intros c Hc. apply (H row c (or_introl eq_refl)). rewrite Ec. exact Hc.
Qed.
Lemma update_rhs_ok st bs vals b es h rs : forall pos us, UpdateRhs st bs vals b es h rs pos = Some us -> forall u, In u us -> okU (num_eliminate_blocks st) bs u.
Proof.
  induction rs as [|row rs IH]; intros pos us E u Hu; cbn [UpdateRhs] in E; [inversion E; subst; destruct Hu|].
  destruct (cells row) as [|e_cell cs]; [discriminate|]. destruct (UpdateRhs st bs vals b es h rs (pos + size (block row))) as [us'|] eqn:E'; [|discriminate].
  inversion E. subst us. apply in_app_or in Hu as [Hu|Hu]; [apply in_map_iff in Hu as [c [<- _]]; exact I|exact (IH _ _ E' u Hu)].
Qed.
Lemma tail_ok st bs vals b want rs : forall us, (forall row c, In row rs -> In c (cells row) -> f_cell (num_eliminate_blocks st) bs (block_id c)) ->
  NoEBlockRowsUpdate st bs vals b want rs = Some us -> forall u, In u us -> okU (num_eliminate_blocks st) bs u.
Proof.
  induction rs as [|row rs IH]; intros us H E u Hu; cbn [NoEBlockRowsUpdate] in E; [inversion E; subst; destruct Hu|].
  match type of E with match ?X with _ => _ end = _ => destruct X as [us1|] eqn:E1; [|discriminate] end.
  destruct (NoEBlockRowsUpdate st bs vals b want rs) as [us'|] eqn:E'; [|discriminate]. inversion E. subst us.
  apply in_app_or in Hu as [Hu|Hu]; [exact (outer_ok _ bs vals (size (block row)) (cells row) (fun c Hc => H row c (or_introl eq_refl) Hc) u Hu)|].
  apply in_app_or in Hu as [Hu|Hu]; [|exact (IH _ (fun r c Hr => H r c (or_intror Hr)) eq_refl u Hu)].
  destruct want; [|inversion E1; subst; destruct Hu]. destruct b as [b|].
  - inversion E1. subst us1. apply in_map_iff in Hu as [c [<- _]]. exact I.
  - destruct (cells row); [inversion E1; subst; destruct Hu|discriminate].
Qed.
Lemma all_some_in {A} (l : list (option A)) r : all_some l = Some r -> forall x, In x r -> In (Some x) l.
Proof.
  revert r. induction l as [|[a|] l IH]; intros r E x Hx; cbn in E; [inversion E; subst; destruct Hx| |discriminate].
  destruct (all_some l) as [xs|]; [|discriminate]. inversion E. subst r. destruct Hx as [<-|Hx]; [left; reflexivity|right; exact (IH xs eq_refl x Hx)].
Qed.
Lemma chunk_group nelim full bs st gs tail z : initialised nelim full bs st gs tail z -> forall c, In c (chunks st) -> exists e rs, In (e, rs) gs /\ chunk_rows bs c = rs.
Proof.
  intros Ini c Ic. pose proof (ini_chunks _ _ _ _ _ _ _ Ini) as C. pose proof (ini_rows _ _ _ _ _ _ _ Ini) as Er.
  assert (K : forall gs' r cs pre, chunks_of bs z r gs' cs -> In c cs -> rows bs = pre ++ concat (map snd gs') ++ tail -> length pre = r ->
    exists e rs, In (e, rs) gs' /\ chunk_rows bs c = rs).
  { clear -c. induction gs' as [|[e rs] gs' IH]; intros r cs pre H I Er P; inversion H as [|r0 e0 rs0 gs0 layout cs0 sz L S0 Ids H']; subst; [destruct I|]. cbn [map snd concat] in Er. destruct I as [<-|I].
    - exists e, rs. split; [left; reflexivity|]. unfold chunk_rows. cbn [start chunk_size]. rewrite Er, skipn_app, skipn_all, Nat.sub_diag. cbn [app skipn].
      rewrite <- app_assoc, firstn_app, firstn_all, Nat.sub_diag. cbn [firstn]. apply app_nil_r.
    - destruct (IH _ _ (pre ++ rs) H' I) as [e' [rs' [A B]]]; [rewrite Er, !app_assoc; reflexivity|apply app_length|]. exists e', rs'. split; [right; exact A|exact B]. }
  exact (K gs 0 (chunks st) [] C Ic Er eq_refl).
Qed.
Lemma updates_ok invert nelim full bs vals st b D want us : well_formed nelim bs -> Init nelim full bs = Some st -> updates_of invert st bs vals b D want us ->
  forall u, In u us -> okU nelim bs u.
Proof.
  intros W E [pc [order [tl' [E1 [Ho [E2 ->]]]]]] u Hu. destruct (init_unique nelim full bs st W E) as [gs [tail [z Ini]]]. pose proof (ini_nelim _ _ _ _ _ _ _ Ini) as En.
  apply in_app_or in Hu as [Hu|Hu]; [|apply in_app_or in Hu as [Hu|Hu]].
  - unfold AddDiagonal in Hu. destruct D as [d|]; [|destruct Hu]. apply in_map_iff in Hu as [i [<- Hi]]. apply in_seq in Hi. rewrite En in *. apply ok_add; unfold f_cell, num_cols; lia.
  - apply interleaving_perm in Ho. apply (Permutation_in _ Ho) in Hu. apply in_concat in Hu as [ul [Hl Hu]]. pose proof (all_some_in _ _ E1 ul Hl) as X.
    apply in_map_iff in X as [c [X Ic]]. destruct (chunk_group _ _ _ _ _ _ _ Ini c Ic) as [e [rs [Ig Er]]]. destruct (ini_groups _ _ _ _ _ _ _ Ini e rs Ig) as [_ [_ Hr]].
    unfold EliminateChunk in X. rewrite Er in X. destruct rs as [|row0 rs'] eqn:Ers; [discriminate|]. rewrite <- Ers in *.
    destruct (cells row0) as [|e_cell cs0]; [discriminate|]. destruct (ChunkRows _ _ _ _ _ _ _ _) as [cs|] eqn:Ec in X; [|discriminate]. rewrite En in *.
    match type of X with match ?Y with _ => _ end = _ => destruct Y as [ur|] eqn:Eu; [|discriminate] end. inversion X. subst ul. clear X.
    apply in_app_or in Hu as [Hu|Hu]; [|apply in_app_or in Hu as [Hu|Hu]].
    + apply (chunk_rows_ok nelim bs vals b (buffer_layout c) (size (col bs (block_id e_cell))) rs _ cs) with (3 := Ec); [|intros ? []|exact Hu].
      intros row x Hrow Hx. destruct (Hr row Hrow) as [[c1 [cs1 [Ec1 [_ Eg]]]] [_ Gb]]. rewrite Ec1 in *. cbn [tl] in Hx. split; [exact (Eg x Hx)|]. apply Gb. right. exact Hx.
    + destruct want; [|inversion Eu; subst; destruct Hu]. destruct b as [b|]; [|discriminate]. rewrite <- En. exact (update_rhs_ok _ _ _ _ _ _ _ _ _ Eu u Hu).
    + apply (chunk_outer_ok nelim bs _ _ _ _ ) with (2 := Hu). intros f off Hf. destruct (buffers nelim full bs st W E c Ic) as [? [? [? [_ [_ [_ [Bf _]]]]]]]. exact (proj1 (Bf f off Hf)).
  - rewrite (ini_begin _ _ _ _ _ _ _ Ini) in E2. rewrite <- En. apply (tail_ok st bs vals b want tail tl') with (2 := E2); [|exact Hu]. rewrite En.
    intros row c Hrow Hc. destruct (ini_tail _ _ _ _ _ _ _ Ini row Hrow) as [[_ Gb] Gt]. split; [exact (Gt c Hc)|exact (Gb c Hc)].
Qed.

(* ------------------------------------------------------------------ as a history of the storage *)
Lemma f_blocks_spec nelim bs bl : nelim <= num_cols bs -> f_blocks nelim bs bl ->
  length bl = num_cols bs - nelim /\ forall f, block_size bl f = width bs (nelim + f).
Proof.
  intros Hn [L M]. assert (Le : length bl = num_cols bs - nelim) by (rewrite <- (map_length size bl), M, map_length, skipn_length; reflexivity).
  split; [exact Le|]. intros f. unfold block_size, width, col. change (size (nth f bl (mkBlock 0 0))) with (size (nth f bl (mkBlock 0 0))).
  rewrite <- (map_nth size bl (mkBlock 0 0) f), M, (map_nth size (skipn nelim (cols bs)) (mkBlock 0 0) f). f_equal.
  rewrite <- (firstn_skipn nelim (cols bs)) at 2. rewrite app_nth2; rewrite firstn_length; unfold num_cols in *; [|lia]. f_equal. lia.
Qed.
Lemma ops_valid nelim bs bl us : nelim <= num_cols bs -> f_blocks nelim bs bl -> (forall u, In u us -> okU nelim bs u) -> forall o, In o (lhs_ops us) -> valid_op bl o.
Proof.
  intros Hn F H o [<-|Ho]; [exact I|]. destruct (f_blocks_spec nelim bs bl Hn F) as [Le Bs]. apply in_flat_map in Ho as [u [Hu Ho]]. specialize (H u Hu).
  destruct u as [b1 b2 n m M|]; [|destruct Ho]. destruct Ho as [<-|[]]. cbn in *. rewrite !Bs, Le. lia.
Qed.
Lemma ideal_lhs k us : forall s a, (forall c1 c2 i j, a c1 c2 i j = lhs s c1 c2 i j) ->
  forall c1 c2 i j, ideal_run k a (flat_map (fun u => match u with AddLhs b1 b2 n m M => [Add b1 b2 n m M] | AddRhs _ _ _ => [] end) us) c1 c2 i j = lhs (apply_all (stored_in k) us s) c1 c2 i j.
Proof.
  induction us as [|u us IH]; intros s a H c1 c2 i j; [exact (H c1 c2 i j)|]. destruct u as [b1 b2 n m M|p n v]; cbn [flat_map app ideal_run fold_left apply_all].
  - apply IH. intros d1 d2 i' j'. cbn [ideal_step]. unfold inside. cbn [apply]. destruct (stored_in k b1 b2); cbn [andb].
    + cbn [lhs]. rewrite H. reflexivity.
    + apply H.
  - apply IH. intros. apply H.
Qed.
Theorem eliminate_storage junk k invert nelim full bs vals st b D want us bl m0 : inverts invert -> well_formed nelim bs -> Init nelim full bs = Some st -> (want = true -> b <> None) ->
  updates_of invert st bs vals b D want us -> f_blocks nelim bs bl -> build junk k bl = Some m0 ->
  exists m, run m0 (lhs_ops us) = Some m /\ good k bl m /\ storage m = storage m0 /\
    holds k bl m (ideal_run k (fun _ _ _ _ => 0%R) (lhs_ops us)) /\
    forall b1 b2 i j, b1 <= b2 -> b2 < length bl -> i < block_size bl b1 -> j < block_size bl b2 -> stored_in k b1 b2 = true ->
      ideal_run k (fun _ _ _ _ => 0%R) (lhs_ops us) b1 b2 i j = schur invert full nelim bs vals D (nelim + b1) i (nelim + b2) j.
Proof.
  intros Inv W E Hw U F B. pose proof (wf_nelim _ _ W) as Wn. destruct (f_blocks_spec nelim bs bl ltac:(lia) F) as [Le Bs]. pose proof (build_good junk k bl m0 (proj1 F) B) as G.
  destruct (holds_some k bl m0 G) as [a Ha]. destruct (run_spec k bl (lhs_ops us) m0 a G Ha (ops_valid nelim bs bl us ltac:(lia) F (updates_ok _ _ _ _ _ _ _ _ _ _ W E U))) as [m [R1 [R2 [R3 R4]]]].
  exists m. split; [exact R1|]. split; [exact R2|]. split; [exact R3|]. split; [exact R4|].
  intros b1 b2 i j H12 H2 Hi Hj S.
  assert (El : Eliminate invert (stored_in k) st bs vals b D want (apply_all (stored_in k) us (mkSystem (fun _ _ _ _ => 0%R) (fun _ => 0%R)))).
  { destruct U as [pc [order [tl' [E1 [Ho [E2 ->]]]]]]. exists pc, order, tl'. auto. }
  destruct (schur_complement_exact invert nelim full bs vals D (stored_in k) b want Inv W Hw) as [st' [Es [_ X]]]. rewrite E in Es. inversion Es. subst st'.
  destruct (X _ El) as [X1 _]. specialize (X1 b1 b2 i j H12). rewrite S in X1. rewrite <- X1; [|lia|rewrite <- Bs; exact Hi|rewrite <- Bs; exact Hj].
  unfold lhs_ops. cbn [ideal_run fold_left ideal_step]. apply (ideal_lhs k us (mkSystem (fun _ _ _ _ => 0%R) (fun _ => 0%R)) (fun _ _ _ _ => 0%R) (fun _ _ _ _ => eq_refl)).
Qed.
