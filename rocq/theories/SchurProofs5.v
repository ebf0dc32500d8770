From Coq Require Import Reals List Arith Lia Lra Psatz Bool Sorting.Sorted Sorting.Permutation.
From Verif Require Import SchurModel SchurSpec SchurProofs SchurProofs2 SchurProofs3 SchurProofs4.
Import ListNotations.
Open Scope R_scope.

(* ---------------- rows without e blocks, diagonal ---------------- *)
Lemma tail_update st bs values b want tail : laid_out 0 (cols bs) -> lays (num_eliminate_blocks st) bs (lhs_row_layout st) -> (want = true -> b <> None) ->
  (forall row, In row tail -> sorted_row row /\ forall c, In c (cells row) -> (num_eliminate_blocks st <= block_id c < num_cols bs)%nat) ->
  exists us, NoEBlockRowsUpdate st bs values b want tail = Some us /\
    (forall b1 b2 i j, (b1 <= b2)%nat -> (i < size (col bs (num_eliminate_blocks st + b1)))%nat -> (j < size (col bs (num_eliminate_blocks st + b2)))%nat ->
       suml us (fun u => cL u b1 b2 i j) = NN bs values tail (num_eliminate_blocks st + b1) i (num_eliminate_blocks st + b2) j) /\
    (forall b', b = Some b' -> want = true -> forall f i, (num_eliminate_blocks st + f < num_cols bs)%nat -> (i < size (col bs (num_eliminate_blocks st + f)))%nat ->
       suml us (fun u => cR u (offset (num_eliminate_blocks st) bs f + i)%nat) = GG bs values b' tail (num_eliminate_blocks st + f) i).
Proof.
  intros L La Hw. set (nelim := num_eliminate_blocks st) in *. induction tail as [|row tail IH]; intro Ht.
  - exists []. repeat split; reflexivity.
  - destruct (Ht row (or_introl eq_refl)) as [So Hc]. destruct (IH (fun r H => Ht r (or_intror H))) as [us [E [A B]]].
    cbn [NoEBlockRowsUpdate]. rewrite E. fold nelim.
    assert (forall c, In c (cells row) -> (nelim <= block_id c)%nat) as Hn by (intros c H; apply Hc in H; lia).
    destruct want.
    + destruct b as [b0|]; [|exfalso; apply Hw; reflexivity]. eexists. split; [reflexivity|]. split.
      * intros b1 b2 i j Hb Hi Hj. rewrite !suml_app, A, rhs_cells_lhs by assumption. rewrite (row_outer bs values nelim _ (cells row) So Hn b1 b2 i j Hb Hi Hj).
        unfold NN. cbn [suml]. unfold entry, centry. lra.
      * intros b' Eb _ f i Hf Hi. injection Eb as <-. rewrite !suml_app, (B b0 eq_refl eq_refl f i Hf Hi), row_outer_rhs.
        rewrite (rhs_cells bs values nelim (lhs_row_layout st) (size (block row)) (fun k => b0 (position (block row) + k)%nat) (cells row) L La Hc f i Hf Hi).
        unfold GG. cbn [suml]. unfold entry, centry. lra.
    + eexists. split; [reflexivity|]. split; [|intros; discriminate].
      intros b1 b2 i j Hb Hi Hj. rewrite !suml_app, A by assumption. rewrite (row_outer bs values nelim _ (cells row) So Hn b1 b2 i j Hb Hi Hj).
      unfold NN. cbn [suml]. unfold entry, centry. lra.
Qed.
Lemma suml_seq a n f : suml (seq a n) f = sumn n (fun i => f (a + i)%nat).
Proof.
  revert a. induction n as [|n IH]; intro a; [reflexivity|]. cbn [seq suml]. rewrite IH. change (S n) with (1 + n)%nat. rewrite (sumn_split 1 n). cbn [sumn]. rewrite Nat.add_0_r.
  rewrite (sumn_ext n (fun i => f (a + (1 + i))%nat) (fun i => f (S a + i)%nat)) by (intros; f_equal; lia). lra.
Qed.
Lemma diagonal_update st bs D b1 b2 i j : (num_eliminate_blocks st + b1 < num_cols bs)%nat -> (i < size (col bs (num_eliminate_blocks st + b1)))%nat -> (j < size (col bs (num_eliminate_blocks st + b2)))%nat ->
  suml (AddDiagonal st bs D) (fun u => cL u b1 b2 i j) = if (b1 =? b2) && (i =? j) then d_squared D (position (col bs (num_eliminate_blocks st + b1)) + i) else 0.
Proof.
  set (nelim := num_eliminate_blocks st). intros H1 Hi Hj. unfold AddDiagonal, num_cols in *. destruct D as [d|].
  - fold nelim. rewrite suml_map, suml_seq. cbn [cL]. destruct (Nat.eqb_spec b1 b2) as [<-|N].
    + rewrite (sumn_single _ _ b1).
      * replace (nelim + b1 - nelim)%nat with b1 by lia. rewrite Nat.eqb_refl. destruct (Nat.ltb_spec i (size (col bs (nelim + b1)))); [|lia]. destruct (Nat.ltb_spec j (size (col bs (nelim + b1)))); [|lia]. cbn [andb]. unfold diagonal, d_squared. destruct (i =? j); reflexivity.
      * lia.
      * intros m Hm Nm. replace (nelim + m - nelim)%nat with m by lia. destruct (Nat.eqb_spec b1 m); [lia|]. reflexivity.
    + apply sumn_zero. intros m Hm. replace (nelim + m - nelim)%nat with m by lia. destruct (Nat.eqb_spec b1 m); [|reflexivity]. destruct (Nat.eqb_spec b2 m); [lia|]. reflexivity.
  - cbn. destruct ((b1 =? b2) && (i =? j)); reflexivity.
Qed.
Lemma diagonal_rhs st bs D i : suml (AddDiagonal st bs D) (fun u => cR u i) = 0.
Proof. unfold AddDiagonal. destruct D; [|reflexivity]. rewrite suml_map. apply suml_zero. reflexivity. Qed.

(* ---------------- all chunks ---------------- *)
Lemma laid_app p l1 l2 : laid_out p (l1 ++ l2) -> laid_out p l1 /\ exists q, laid_out q l2.
Proof.
  revert p. induction l1 as [|b l1 IH]; intros p H; cbn in H |- *; [split; [exact Logic.I|exists p; exact H]|]. destruct H as [P H]. destruct (IH _ H) as [A B]. split; [split; assumption|exact B].
Qed.
Lemma laid_part p l1 l2 l3 : laid_out p (l1 ++ l2 ++ l3) -> exists q, laid_out q l2.
Proof. intro H. apply laid_app in H. destruct H as [_ [q H]]. apply laid_app in H. exists q. apply H. Qed.

Section All.
Variables (invert : bool -> nat -> matrix -> matrix) (st : Eliminator) (bs : Structure) (values : nat -> R) (b D : option (nat -> R)) (want : bool).
Hypothesis Inv : inverts invert.
Hypothesis LC : laid_out 0 (cols bs).
Hypothesis LR : laid_out 0 (map block (rows bs)).
Hypothesis La : lays (num_eliminate_blocks st) bs (lhs_row_layout st).
Hypothesis Hw : want = true -> b <> None.
Notation nelim := (num_eliminate_blocks st).
Definition inv_of (e : nat) (rs : list Row) : matrix := invert (assume_full_rank_ete st) (size (col bs e)) (ete_of bs values D rs e).
Definition minus_lhs (c i c' j : nat) (p : nat * list Row) : R :=
  sumn (size (col bs (fst p))) (fun a => sumn (size (col bs (fst p))) (fun a' =>
    NN bs values (snd p) c i (fst p) a * inv_of (fst p) (snd p) a a' * NN bs values (snd p) (fst p) a' c' j)).
Definition minus_rhs (b' : nat -> R) (c i : nat) (p : nat * list Row) : R :=
  sumn (size (col bs (fst p))) (fun a => sumn (size (col bs (fst p))) (fun a' =>
    NN bs values (snd p) c i (fst p) a * inv_of (fst p) (snd p) a a' * GG bs values b' (snd p) (fst p) a')).
Definition good (row : Row) : Prop := sorted_row row /\ forall x, In x (cells row) -> (block_id x < num_cols bs)%nat.

Lemma all_chunks z gs : forall r cs pre post, chunks_of bs z r gs cs -> rows bs = pre ++ concat (map snd gs) ++ post -> length pre = r ->
  (forall e rs, In (e, rs) gs -> (e < nelim)%nat /\ rs <> [] /\ forall row, In row rs -> e_row nelim e row /\ good row) ->
  exists per_chunk, all_some (map (EliminateChunk invert st bs values b D want) cs) = Some per_chunk /\
    (forall b1 b2 i j, (b1 <= b2)%nat -> (i < size (col bs (nelim + b1)))%nat -> (j < size (col bs (nelim + b2)))%nat ->
       suml (concat per_chunk) (fun u => cL u b1 b2 i j) = suml gs (fun p => NN bs values (snd p) (nelim + b1) i (nelim + b2) j - minus_lhs (nelim + b1) i (nelim + b2) j p)) /\
    (forall b', b = Some b' -> want = true -> forall f i, (nelim + f < num_cols bs)%nat -> (i < size (col bs (nelim + f)))%nat ->
       suml (concat per_chunk) (fun u => cR u (offset nelim bs f + i)%nat) = suml gs (fun p => GG bs values b' (snd p) (nelim + f) i - minus_rhs b' (nelim + f) i p)).
Proof.
  induction gs as [|[e rs] gs IH]; intros r cs pre post H E P Hg.
  - inversion H; subst. exists []. repeat split; reflexivity.
  - inversion H as [|r0 e0 rs0 gs0 layout cs0 sz Lo Sz Keys C]; subst. cbn [map snd concat] in E.
    destruct (Hg e rs (or_introl eq_refl)) as [He [Nr Hr]].
    destruct (IH (length pre + length rs)%nat cs0 (pre ++ rs) post C) as [pc [E1 [A1 B1]]].
    { rewrite E, !app_assoc. reflexivity. }
    { apply app_length. }
    { intros e' rs' I. apply Hg. right. exact I. }
    destruct (eliminate_chunk invert st bs values b D want pre (concat (map snd gs) ++ post) e rs (mkChunk (length pre) (length rs) layout)) as [us [E2 [A2 B2]]]; try assumption; try reflexivity.
    { rewrite E, !app_assoc. reflexivity. }
    { rewrite E, !map_app in LR. rewrite <- app_assoc in LR. apply (laid_part 0 _ _ _ LR). }
    { exists sz. exact Lo. }
    exists (us :: pc). cbn [map all_some]. rewrite E2, E1. split; [reflexivity|]. cbn [concat]. split.
    + intros b1 b2 i j Hb Hi Hj. rewrite suml_app, (A1 b1 b2 i j Hb Hi Hj), (A2 b1 b2 i j Hb Hi Hj). reflexivity.
    + intros b' Eb Ew f i Hf Hi. rewrite suml_app, (B1 b' Eb Ew f i Hf Hi), (B2 b' Eb Ew f i Hf Hi). reflexivity.
Qed.
End All.

(* ---------------- the whole matrix ---------------- *)
Lemma sumn_in n l (F : nat -> R) : NoDup l -> (forall e, In e l -> (e < n)%nat) -> (forall e, (e < n)%nat -> ~ In e l -> F e = 0) -> sumn n F = suml l F.
Proof.
  revert n F. induction l as [|x l IH]; intros n F ND Hl Hz.
  - cbn. apply sumn_zero. intros. apply Hz; [assumption|intros []].
  - apply NoDup_cons_iff in ND. destruct ND as [Nx ND]. cbn [suml].
    rewrite (sumn_ext n F (fun e => (if e =? x then F e else 0) + (if e =? x then 0 else F e))) by (intros; destruct (i =? x); lra). rewrite sumn_plus. f_equal.
    + rewrite (sumn_single n _ x); [rewrite Nat.eqb_refl; reflexivity|apply Hl; left; reflexivity|]. intros j _ N. destruct (Nat.eqb_spec j x); [contradiction|reflexivity].
    + rewrite (IH n (fun e => if e =? x then 0 else F e)); [|exact ND|intros; apply Hl; right; assumption|].
      * apply suml_ext. intros e I. destruct (Nat.eqb_spec e x) as [->|N]; [contradiction|reflexivity].
      * intros e I N. destruct (Nat.eqb_spec e x); [reflexivity|]. apply Hz; [exact I|]. intros [Q|Q]; [congruence|contradiction].
Qed.
Lemma entry_absent bs values row c k j : (forall x, In x (cells row) -> block_id x <> c) -> entry bs values row c k j = 0.
Proof. intro H. rewrite entry_cells. apply centry_absent. exact H. Qed.
Lemma NN_zero_l bs values rs c i c' j : (forall row x, In row rs -> In x (cells row) -> block_id x <> c) -> NN bs values rs c i c' j = 0.
Proof. intro H. apply suml_zero. intros row Hr. apply sumn_zero. intros k _. rewrite entry_absent; [lra|]. intros x Hx. exact (H row x Hr Hx). Qed.
Lemma GG_zero bs values b rs c i : (forall row x, In row rs -> In x (cells row) -> block_id x <> c) -> GG bs values b rs c i = 0.
Proof. intro H. apply suml_zero. intros row Hr. apply sumn_zero. intros k _. rewrite entry_absent; [lra|]. intros x Hx. exact (H row x Hr Hx). Qed.
Lemma normal_NN bs values D c i c' j : normal bs values D c i c' j = NN bs values (rows bs) c i c' j + (if (c =? c') && (i =? j) then d_squared D (position (col bs c) + i) else 0).
Proof. reflexivity. Qed.
Lemma gradient_GG bs values b c i : gradient bs values b c i = GG bs values b (rows bs) c i.
Proof. reflexivity. Qed.
Lemma normal_sym bs values D c i c' j : normal bs values D c i c' j = normal bs values D c' j c i.
Proof.
  rewrite !normal_NN. rewrite NN_sym. f_equal. rewrite (Nat.eqb_sym c'), (Nat.eqb_sym j). destruct (Nat.eqb_spec c c') as [->|]; [|reflexivity]. destruct (Nat.eqb_spec i j) as [->|]; reflexivity.
Qed.

Section Groups.
Variables (bs : Structure) (values : nat -> R) (D : option (nat -> R)) (nelim : nat) (gs : list (nat * list Row)) (tail : list Row).
Hypothesis Er : rows bs = concat (map snd gs) ++ tail.
Hypothesis ND : NoDup (map fst gs).
Hypothesis Hg : forall e rs, In (e, rs) gs -> (e < nelim)%nat /\ forall row, In row rs -> e_row nelim e row.
Hypothesis Ht : forall row, In row tail -> forall c, In c (cells row) -> (nelim <= block_id c)%nat.

Lemma in_group e rs row x : In (e, rs) gs -> In row rs -> In x (cells row) -> block_id x = e \/ (nelim <= block_id x)%nat.
Proof. intros I Hr Hx. destruct (proj2 (Hg e rs I) row Hr) as [c [cs [E [Q G]]]]. rewrite E in Hx. destruct Hx as [<-|Hx]; [left; exact Q|right; apply G; exact Hx]. Qed.
Lemma group_rest e rs pre post : gs = pre ++ (e, rs) :: post -> forall row x, In row (concat (map snd pre)) \/ In row (concat (map snd post)) \/ In row tail -> In x (cells row) -> block_id x <> e.
Proof.
  intros Eg row x H Hx Q. assert (In (e, rs) gs) as Ie by (rewrite Eg; apply in_or_app; right; left; reflexivity). pose proof (proj1 (Hg e rs Ie)) as He.
  rewrite Eg, map_app in ND. cbn [map fst] in ND. apply NoDup_remove_2 in ND.
  destruct H as [H|[H|H]]; [| |specialize (Ht row H x Hx); lia].
  - apply in_concat in H. destruct H as [rs' [H Hr]]. apply in_map_iff in H. destruct H as [[e' rs''] [W H]]. cbn in W. subst rs''.
    destruct (in_group e' rs' row x) as [Z|Z]; [rewrite Eg; apply in_or_app; left; exact H|exact Hr|exact Hx| |lia].
    apply ND. apply in_or_app. left. rewrite <- Q, Z. apply (in_map fst) in H. exact H.
  - apply in_concat in H. destruct H as [rs' [H Hr]]. apply in_map_iff in H. destruct H as [[e' rs''] [W H]]. cbn in W. subst rs''.
    destruct (in_group e' rs' row x) as [Z|Z]; [rewrite Eg; apply in_or_app; right; right; exact H|exact Hr|exact Hx| |lia].
    apply ND. apply in_or_app. right. rewrite <- Q, Z. apply (in_map fst) in H. exact H.
Qed.
Lemma NN_group e rs a c' j : In (e, rs) gs -> NN bs values (rows bs) e a c' j = NN bs values rs e a c' j.
Proof.
  intro I. apply in_split in I. destruct I as [pre [post Eg]]. pose proof (group_rest e rs pre post Eg) as Z. rewrite Er, Eg, map_app, concat_app. cbn [map snd concat]. rewrite !NN_app.
  rewrite (NN_zero_l bs values (concat (map snd pre))) by (intros row x Hr; apply Z; tauto). rewrite (NN_zero_l bs values (concat (map snd post))) by (intros row x Hr; apply Z; tauto).
  rewrite (NN_zero_l bs values tail) by (intros row x Hr; apply Z; tauto). lra.
Qed.
Lemma GG_group b e rs a : In (e, rs) gs -> GG bs values b (rows bs) e a = GG bs values b rs e a.
Proof.
  intro I. apply in_split in I. destruct I as [pre [post Eg]]. pose proof (group_rest e rs pre post Eg) as Z. rewrite Er, Eg, map_app, concat_app. cbn [map snd concat]. rewrite !GG_app.
  rewrite (GG_zero bs values b (concat (map snd pre))) by (intros row x Hr; apply Z; tauto). rewrite (GG_zero bs values b (concat (map snd post))) by (intros row x Hr; apply Z; tauto).
  rewrite (GG_zero bs values b tail) by (intros row x Hr; apply Z; tauto). lra.
Qed.
Lemma no_group e row x : (e < nelim)%nat -> ~ In e (map fst gs) -> In row (rows bs) -> In x (cells row) -> block_id x <> e.
Proof.
  intros He N Hr Hx Q. rewrite Er in Hr. apply in_app_or in Hr. destruct Hr as [Hr|Hr]; [|specialize (Ht row Hr x Hx); lia].
  apply in_concat in Hr. destruct Hr as [rs [H Hr]]. apply in_map_iff in H. destruct H as [[e' rs'] [W H]]. cbn in W. subst rs'. destruct (in_group e' rs row x H Hr Hx) as [Z|Z]; [|lia].
  apply N. rewrite <- Q, Z. apply (in_map fst) in H. exact H.
Qed.
Lemma NN_rows c i c' j : NN bs values (rows bs) c i c' j = suml gs (fun p => NN bs values (snd p) c i c' j) + NN bs values tail c i c' j.
Proof. rewrite Er, NN_app. f_equal. unfold NN at 1. rewrite suml_concat, suml_map. reflexivity. Qed.
Lemma GG_rows b c i : GG bs values b (rows bs) c i = suml gs (fun p => GG bs values b (snd p) c i) + GG bs values b tail c i.
Proof. rewrite Er, GG_app. f_equal. unfold GG at 1. rewrite suml_concat, suml_map. reflexivity. Qed.
(* different e blocks are orthogonal *)
Lemma normal_ee e e' a a' : (e < nelim)%nat -> (e' < nelim)%nat -> e <> e' -> normal bs values D e a e' a' = 0.
Proof.
  intros He He' N. rewrite normal_NN. destruct (Nat.eqb_spec e e'); [contradiction|]. cbn [andb]. rewrite Rplus_0_r.
  destruct (in_dec Nat.eq_dec e (map fst gs)) as [I|I].
  - apply in_map_iff in I. destruct I as [[e1 rs] [W I]]. cbn in W. subst e1. rewrite (NN_group e rs a e' a' I). rewrite NN_sym. apply NN_zero_l. intros row x Hr Hx. destruct (in_group e rs row x I Hr Hx); lia.
  - apply NN_zero_l. intros row x Hr Hx. apply (no_group e row x He I Hr Hx).
Qed.
Lemma normal_ef e a c j : (e < nelim)%nat -> (nelim <= c)%nat -> normal bs values D e a c j = NN bs values (rows bs) e a c j.
Proof. intros He Hc. rewrite normal_NN. destruct (Nat.eqb_spec e c); [lia|]. cbn [andb]. lra. Qed.
Lemma ete_normal e rs i j : In (e, rs) gs -> ete_of bs values D rs e i j = normal bs values D e i e j.
Proof.
  intro I. unfold ete_of. rewrite normal_NN, (NN_group e rs i e j I), Nat.eqb_refl. cbn [andb]. unfold diagonal, d_squared. destruct D; destruct (i =? j); lra.
Qed.
End Groups.
