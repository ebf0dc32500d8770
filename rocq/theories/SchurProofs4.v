From Coq Require Import Reals List Arith Lia Lra Psatz Bool Sorting.Sorted Sorting.Permutation.
From Verif Require Import SchurModel SchurSpec SchurProofs SchurProofs2 SchurProofs3.
Import ListNotations.
Open Scope R_scope.

(* ---------------- positions ---------------- *)
Lemma nth_skipn {A} (l : list A) n i d : nth i (skipn n l) d = nth (n + i) l d.
Proof. revert l. induction n as [|n IH]; intros l; [reflexivity|]. destruct l; cbn; [destruct i; reflexivity|]. apply IH. Qed.
Lemma laid_ge p bl i d : laid_out p bl -> (i < length bl)%nat -> (p <= position (nth i bl d))%nat.
Proof.
  revert p i. induction bl as [|b bl IH]; intros p i L I; [cbn in I; lia|]. cbn in L. destruct L as [P L]. destruct i as [|i]; cbn; [lia|]. specialize (IH _ i L ltac:(cbn in I; lia)). lia.
Qed.
Lemma laid_mono p bl i j d : laid_out p bl -> (i < j < length bl)%nat -> (position (nth i bl d) + size (nth i bl d) <= position (nth j bl d))%nat.
Proof.
  revert p i j. induction bl as [|b bl IH]; intros p i j L I; [cbn in I; lia|]. cbn in L. destruct L as [P L]. destruct i as [|i], j as [|j]; try lia; cbn [nth].
  - pose proof (laid_ge _ bl j d L ltac:(cbn in I; lia)). lia.
  - apply (IH _ i j L). cbn in I. lia.
Qed.
Lemma laid_skip p bl n : laid_out p bl -> exists p', laid_out p' (skipn n bl).
Proof. revert p bl. induction n as [|n IH]; intros p bl L; [exists p; exact L|]. destruct bl; cbn; [exists 0%nat; exact I|]. cbn in L. destruct L as [_ L]. exact (IH _ _ L). Qed.
Lemma row_layout_nth p q bl f d : laid_out p bl -> (f < length bl)%nat -> (nth f (RowLayout bl q) 0 + p = q + position (nth f bl d))%nat.
Proof.
  revert p q f. induction bl as [|b bl IH]; intros p q f L I; [cbn in I; lia|]. cbn in L. destruct L as [P L]. destruct f as [|f]; cbn [RowLayout nth]; [lia|].
  specialize (IH _ (q + size b)%nat f L ltac:(cbn in I; lia)). lia.
Qed.
Lemma layout_offset nelim bs f : laid_out 0 (cols bs) -> (nelim + f < num_cols bs)%nat -> nth f (RowLayout (skipn nelim (cols bs)) 0) 0%nat = offset nelim bs f.
Proof.
  intros L I. unfold num_cols in I. destruct (laid_skip 0 (cols bs) nelim L) as [p Lp].
  assert (length (skipn nelim (cols bs)) = length (cols bs) - nelim)%nat as Ln by apply skipn_length.
  pose proof (row_layout_nth p 0 _ f (mkBlock 0 0) Lp ltac:(lia)) as H. rewrite nth_skipn in H. unfold offset, col.
  assert (p = position (nth nelim (cols bs) (mkBlock 0 0))) as ->.
  { pose proof (nth_skipn (cols bs) nelim 0 (mkBlock 0 0)) as N. rewrite Nat.add_0_r in N. rewrite <- N. destruct (skipn nelim (cols bs)); [cbn in Ln; lia|]. cbn in Lp |- *. symmetry. apply Lp. }
  lia.
Qed.
Lemma offset_mono nelim bs f f' : laid_out 0 (cols bs) -> (f < f')%nat -> (nelim + f' < num_cols bs)%nat -> (offset nelim bs f + size (col bs (nelim + f)) <= offset nelim bs f')%nat.
Proof.
  intros L F I. unfold offset, num_cols in *. pose proof (laid_mono 0 (cols bs) (nelim + f) (nelim + f') (mkBlock 0 0) L ltac:(lia)) as M. fold (col bs (nelim + f)) in M. fold (col bs (nelim + f')) in M.
  assert (position (col bs nelim) <= position (col bs (nelim + f)))%nat.
  { destruct f as [|f]; [rewrite Nat.add_0_r; lia|]. pose proof (laid_mono 0 (cols bs) nelim (nelim + S f) (mkBlock 0 0) L ltac:(lia)) as M'. unfold col. lia. }
  lia.
Qed.

(* ---------------- rhs ---------------- *)
Definition lays (nelim : nat) (bs : Structure) (lay : list nat) : Prop := forall f, (nelim + f < num_cols bs)%nat -> nth f lay 0%nat = offset nelim bs f.
Lemma rhs_cells bs values nelim lay nrow (sj : nat -> R) cs : laid_out 0 (cols bs) -> lays nelim bs lay ->
  (forall c, In c cs -> (nelim <= block_id c < num_cols bs)%nat) -> forall f i, (nelim + f < num_cols bs)%nat -> (i < size (col bs (nelim + f)))%nat ->
  suml (map (fun c => AddRhs (nth (block_id c - nelim) lay 0%nat) (size (col bs (block_id c))) (mtv nrow (block_at values (cell_position c) (size (col bs (block_id c)))) sj)) cs)
    (fun u => cR u (offset nelim bs f + i)%nat) = sumn nrow (fun k => centry bs values cs (nelim + f) k i * sj k).
Proof.
  intros L La Hc f i F I. rewrite suml_map. unfold centry.
  rewrite (sumn_ext nrow _ (fun k => suml cs (fun cell => (if block_id cell =? nelim + f then values (cell_position cell + k * size (col bs (nelim + f)) + i)%nat else 0) * sj k))) by (intros; rewrite suml_scal_r; reflexivity).
  rewrite <- suml_sumn. apply suml_ext. intros c Ic. specialize (Hc c Ic). cbn [cR].
  assert (exists m, block_id c = (nelim + m)%nat) as [m Em] by (exists (block_id c - nelim)%nat; lia). rewrite Em in *. replace (nelim + m - nelim)%nat with m by lia.
  rewrite (La m) by lia. rewrite eqb_shift. destruct (Nat.eqb_spec m f) as [->|N].
  - destruct (Nat.leb_spec (offset nelim bs f) (offset nelim bs f + i)); [|lia]. destruct (Nat.ltb_spec (offset nelim bs f + i) (offset nelim bs f + size (col bs (nelim + f)))); [|lia]. cbn [andb].
    unfold mtv. apply sumn_ext. intros. replace (offset nelim bs f + i - offset nelim bs f)%nat with i by lia. reflexivity.
  - rewrite sumn_zero by (intros; lra). destruct (Nat.leb_spec (offset nelim bs m) (offset nelim bs f + i)); [|reflexivity]. destruct (Nat.ltb_spec (offset nelim bs f + i) (offset nelim bs m + size (col bs (nelim + m)))); [|reflexivity].
    exfalso. assert (m < f \/ f < m)%nat as [Q|Q] by lia; [pose proof (offset_mono nelim bs m f L Q F)|pose proof (offset_mono nelim bs f m L Q ltac:(lia))]; lia.
Qed.
Lemma rhs_cells_lhs bs values nelim lay nrow (sj : nat -> R) cs b1 b2 i j :
  suml (map (fun c => AddRhs (nth (block_id c - nelim) lay 0%nat) (size (col bs (block_id c))) (mtv nrow (block_at values (cell_position c) (size (col bs (block_id c)))) sj)) cs) (fun u => cL u b1 b2 i j) = 0.
Proof. rewrite suml_map. apply suml_zero. reflexivity. Qed.
Lemma update_rhs st bs values b e (h : nat -> R) rs : laid_out 0 (cols bs) -> lays (num_eliminate_blocks st) bs (lhs_row_layout st) -> (e < num_eliminate_blocks st)%nat ->
  forall pos, (forall row, In row rs -> e_row (num_eliminate_blocks st) e row /\ sorted_row row /\ forall c, In c (cells row) -> (block_id c < num_cols bs)%nat) -> laid_out pos (map block rs) ->
  exists us, UpdateRhs st bs values b (size (col bs e)) h rs pos = Some us /\
    (forall b1 b2 i j, suml us (fun u => cL u b1 b2 i j) = 0) /\
    forall f i, (num_eliminate_blocks st + f < num_cols bs)%nat -> (i < size (col bs (num_eliminate_blocks st + f)))%nat ->
      suml us (fun u => cR u (offset (num_eliminate_blocks st) bs f + i)%nat) =
      suml rs (fun row => sumn (size (block row)) (fun k => entry bs values row (num_eliminate_blocks st + f) k i *
        (b (position (block row) + k)%nat - sumn (size (col bs e)) (fun a => entry bs values row e k a * h a)))).
Proof.
  intros L La He. set (nelim := num_eliminate_blocks st) in *. induction rs as [|row rs IH]; intros pos Hr LO.
  - exists []. repeat split; reflexivity.
  - cbn [map laid_out] in LO. destruct LO as [P LO]. destruct (Hr row (or_introl eq_refl)) as [[c [cs [Ec [Ei Eg]]]] [So Hc]].
    destruct (IH (pos + size (block row))%nat (fun r H => Hr r (or_intror H)) LO) as [us [E [Zl K]]].
    cbn [UpdateRhs]. rewrite Ec, E. eexists. split; [reflexivity|]. fold nelim. split.
    + intros. rewrite suml_app, Zl. rewrite rhs_cells_lhs. lra.
    + intros f i F I. rewrite suml_app, K by assumption. cbn [suml]. f_equal.
      rewrite rhs_cells; [|exact L|exact La| |exact F|exact I].
      2:{ intros x Hx. split; [apply Eg; exact Hx|apply Hc; rewrite Ec; right; exact Hx]. }
      apply sumn_ext. intros k _. rewrite (entry_f bs values row c cs _ _ _ Ec) by lia. f_equal. rewrite P. f_equal. unfold mv. apply sumn_ext. intros a _.
      rewrite <- Ei. rewrite (entry_e bs values row c cs k a Ec So). reflexivity.
Qed.

(* ---------------- a chunk ---------------- *)
Definition ete_of (bs : Structure) (values : nat -> R) (D : option (nat -> R)) (rs : list Row) (e : nat) : matrix :=
  fun i j => diagonal D (position (col bs e)) i j + NN bs values rs e i e j.
Lemma NN_absent bs values rs e a id j : (forall row c, In row rs -> In c (cells row) -> block_id c <> id) -> NN bs values rs e a id j = 0.
Proof.
  intros H. apply suml_zero. intros row Hr. apply sumn_zero. intros k _. rewrite (entry_cells bs values row id), centry_absent; [lra|]. intros x Hx. exact (H row x Hr Hx).
Qed.
Lemma eliminate_chunk invert st bs values b D want pre post e rs c :
  inverts invert -> laid_out 0 (cols bs) -> lays (num_eliminate_blocks st) bs (lhs_row_layout st) -> (e < num_eliminate_blocks st)%nat ->
  rows bs = pre ++ rs ++ post -> (exists p, laid_out p (map block rs)) ->
  rs <> [] -> start c = length pre -> chunk_size c = length rs ->
  (exists sz, layout_ok bs (size (col bs e)) (buffer_layout c) sz) -> (forall id, In id (map fst (buffer_layout c)) <-> ids_of rs id) ->
  (forall row, In row rs -> e_row (num_eliminate_blocks st) e row /\ sorted_row row /\ forall x, In x (cells row) -> (block_id x < num_cols bs)%nat) ->
  (want = true -> b <> None) ->
  exists us, EliminateChunk invert st bs values b D want c = Some us /\
    (forall b1 b2 i j, (b1 <= b2)%nat -> (i < size (col bs (num_eliminate_blocks st + b1)))%nat -> (j < size (col bs (num_eliminate_blocks st + b2)))%nat ->
       suml us (fun u => cL u b1 b2 i j) = NN bs values rs (num_eliminate_blocks st + b1) i (num_eliminate_blocks st + b2) j -
         sumn (size (col bs e)) (fun a => sumn (size (col bs e)) (fun a' =>
           NN bs values rs (num_eliminate_blocks st + b1) i e a * invert (assume_full_rank_ete st) (size (col bs e)) (ete_of bs values D rs e) a a' * NN bs values rs e a' (num_eliminate_blocks st + b2) j))) /\
    (forall b', b = Some b' -> want = true -> forall f i, (num_eliminate_blocks st + f < num_cols bs)%nat -> (i < size (col bs (num_eliminate_blocks st + f)))%nat ->
       suml us (fun u => cR u (offset (num_eliminate_blocks st) bs f + i)%nat) = GG bs values b' rs (num_eliminate_blocks st + f) i -
         sumn (size (col bs e)) (fun a => sumn (size (col bs e)) (fun a' =>
           NN bs values rs (num_eliminate_blocks st + f) i e a * invert (assume_full_rank_ete st) (size (col bs e)) (ete_of bs values D rs e) a a' * GG bs values b' rs e a'))).
Proof.
  intros Inv L La He Er [p LO] Nr Sc Cc [sz Lo] Keys Hr Hw. set (nelim := num_eliminate_blocks st) in *. set (es := size (col bs e)) in *.
  assert (chunk_rows bs c = rs) as Ecr. { destruct c as [s n l]. cbn in Sc, Cc. apply (chunk_rows_at bs s n l pre rs post Er); congruence. }
  unfold EliminateChunk. rewrite Ecr. destruct rs as [|row0 rs0] eqn:Ers; [contradiction|]. rewrite <- Ers in *.
  destruct (Hr row0 ltac:(rewrite Ers; left; reflexivity)) as [[c0 [cs0 [Ec0 [Ei0 _]]]] _]. rewrite Ec0, Ei0.
  assert (p = position (block row0)) as Ep by (rewrite Ers in LO; cbn in LO; symmetry; apply LO). rewrite <- Ep. fold es. fold nelim.
  destruct (chunk_rows_spec bs values nelim e He b (buffer_layout c) sz rs
     (mkChunkState (diagonal D (position (col bs e))) (fun _ => 0) (fun _ => 0) [] p)) as [cs [E1 [A1 [B1 [C1 [D1 F1]]]]]].
  { intros row H. destruct (Hr row H) as [Q1 [Q2 _]]. split; assumption. }
  { exact Lo. }
  { intros id H. apply Keys. exact H. }
  { exact LO. }
  fold es in E1. rewrite E1. cbn [ete g buffer updates] in A1, B1, C1, D1, F1.
  set (inv := invert (assume_full_rank_ete st) es (ete cs)).
  assert (forall a a', (a < es)%nat -> (a' < es)%nat -> inv a a' = invert (assume_full_rank_ete st) es (ete_of bs values D rs e) a a') as Ei.
  { intros a a' Ha Ha'. apply (inv_matrix invert Inv); [|exact Ha|exact Ha']. intros. apply A1. }
  assert (forall k, In k (map fst (buffer_layout c)) -> (nelim <= k)%nat) as Kge.
  { intros k Hk. apply Keys in Hk. destruct Hk as [row [Hrow [x [Hx <-]]]]. destruct (Hr row Hrow) as [[c1 [cs1 [E [_ G]]]] _]. rewrite E in Hx. cbn in Hx. apply G. exact Hx. }
  assert (forall id a j, (nelim <= id)%nat -> (a < es)%nat -> (j < size (col bs id))%nat -> LB bs (buffer cs) (buffer_layout c) id a j = NN bs values rs e a id j) as EB.
  { intros id a j G Ha Hj. destruct (in_dec Nat.eq_dec id (map fst (buffer_layout c))) as [I|N].
    - apply in_map_iff in I. destruct I as [[id' off] [Q I]]. cbn in Q. subst id'. rewrite (LB_in bs nelim e He (buffer cs) _ id off a j (lo_sorted _ _ _ _ Lo) I). rewrite C1 by assumption. lra.
    - rewrite LB_out by exact N. symmetry. apply NN_absent. intros row x Hrow Hx Q. apply N. apply Keys. exists row. split; [exact Hrow|]. exists x. split; [|exact Q].
      destruct (Hr row Hrow) as [[c1 [cs1 [E [Q1 _]]]] _]. rewrite E in Hx |- *. cbn. destruct Hx as [<-|Hx]; [lia|exact Hx]. }
  assert (exists us, (if want then match b with Some b0 => UpdateRhs st bs values b0 es (mv es inv (g cs)) rs p | None => None end else Some []) = Some us /\
     (forall b1 b2 i j, suml us (fun u => cL u b1 b2 i j) = 0) /\
     (forall b', b = Some b' -> want = true -> forall f i, (nelim + f < num_cols bs)%nat -> (i < size (col bs (nelim + f)))%nat ->
        suml us (fun u => cR u (offset nelim bs f + i)%nat) = suml rs (fun row => sumn (size (block row)) (fun k => entry bs values row (nelim + f) k i *
        (b' (position (block row) + k)%nat - sumn es (fun a => entry bs values row e k a * mv es inv (g cs) a)))))) as [us [Eu [Zu Ku]]].
  { destruct want.
    - destruct b as [b0|]; [|exfalso; apply Hw; reflexivity].
      destruct (update_rhs st bs values b0 e (mv es inv (g cs)) rs L La He p Hr LO) as [us [Q1 [Q2 Q3]]]. exists us. split; [exact Q1|]. split; [exact Q2|]. intros b' Eb' _. injection Eb' as <-. exact Q3.
    - exists []. split; [reflexivity|]. split; [reflexivity|]. intros; discriminate. }
  rewrite Eu. eexists. split; [reflexivity|]. split.
  - intros b1 b2 i j Hb Hi Hj. rewrite !suml_app, Zu, D1 by assumption. cbn [suml].
    pose proof (outer_spec bs nelim e He inv (buffer cs) _ (lo_sorted _ _ _ _ Lo) Kge b1 b2 i j Hb Hi Hj) as OS. fold es in OS. rewrite OS. clear OS.
    rewrite (sumn_ext es _ (fun a => sumn es (fun a' => NN bs values rs (nelim + b1) i e a * invert (assume_full_rank_ete st) es (ete_of bs values D rs e) a a' * NN bs values rs e a' (nelim + b2) j))); [lra|].
    intros a Ha. apply sumn_ext. intros a' Ha'. rewrite Ei by assumption. rewrite !EB by (assumption || lia). rewrite (NN_sym bs values rs e a). reflexivity.
  - intros b' Eb Ew f i Hf Hi. pose proof (outer_rhs bs nelim e inv (buffer cs) (buffer_layout c) (offset nelim bs f + i)) as OS. fold es in OS. rewrite !suml_app, F1, OS. rewrite (Ku b' Eb Ew f i Hf Hi). cbn [suml].
    rewrite (suml_ext rs _ (fun row => sumn (size (block row)) (fun k => entry bs values row (nelim + f) k i * b' (position (block row) + k)%nat) -
      sumn es (fun a => sumn (size (block row)) (fun k => entry bs values row (nelim + f) k i * entry bs values row e k a) * mv es inv (g cs) a))).
    2:{ intros row _. rewrite (sumn_ext _ _ (fun k => entry bs values row (nelim + f) k i * b' (position (block row) + k)%nat - sumn es (fun a => entry bs values row (nelim + f) k i * entry bs values row e k a * mv es inv (g cs) a))).
        2:{ intros k _. rewrite Rmult_minus_distr_l. f_equal. rewrite <- sumn_scal. apply sumn_ext. intros. ring. }
        rewrite sumn_minus. f_equal. rewrite sumn_swap. apply sumn_ext. intros a _. rewrite sumn_scal_r. reflexivity. }
    rewrite suml_minus. unfold GG at 1. rewrite suml_sumn.
    rewrite (sumn_ext es _ (fun a => sumn es (fun a' => NN bs values rs (nelim + f) i e a * invert (assume_full_rank_ete st) es (ete_of bs values D rs e) a a' * GG bs values b' rs e a'))); [lra|].
    intros a Ha. rewrite suml_scal_r. fold (NN bs values rs (nelim + f) i e a). unfold mv. rewrite <- sumn_scal. apply sumn_ext. intros a' Ha'. rewrite Ei by assumption. rewrite (B1 b' Eb). ring.
Qed.
