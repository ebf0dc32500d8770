From Coq Require Import Reals List Arith Lia Lra Psatz Bool Sorting.Sorted Sorting.Permutation.
From Verif Require Import SchurModel SchurSpec SchurProofs SchurProofs2.
Import ListNotations.
Open Scope R_scope.

(* sums over some of the rows *)
Definition NN (bs : Structure) (values : nat -> R) (rs : list Row) (c i c' j : nat) : R :=
  suml rs (fun row => sumn (size (block row)) (fun k => entry bs values row c k i * entry bs values row c' k j)).
Definition GG (bs : Structure) (values b : nat -> R) (rs : list Row) (c i : nat) : R :=
  suml rs (fun row => sumn (size (block row)) (fun k => entry bs values row c k i * b (position (block row) + k)%nat)).
Lemma NN_sym bs values rs c i c' j : NN bs values rs c i c' j = NN bs values rs c' j c i.
Proof. apply suml_ext. intros. apply sumn_ext. intros. lra. Qed.
Lemma NN_app bs values r1 r2 c i c' j : NN bs values (r1 ++ r2) c i c' j = NN bs values r1 c i c' j + NN bs values r2 c i c' j.
Proof. apply suml_app. Qed.
Lemma GG_app bs values b r1 r2 c i : GG bs values b (r1 ++ r2) c i = GG bs values b r1 c i + GG bs values b r2 c i.
Proof. apply suml_app. Qed.

Definition sorted_row (row : Row) : Prop := StronglySorted lt (map block_id (cells row)).
Lemma entry_e bs values row c cs k a : cells row = c :: cs -> sorted_row row ->
  entry bs values row (block_id c) k a = block_at values (cell_position c) (size (col bs (block_id c))) k a.
Proof.
  intros E S. unfold sorted_row in S. rewrite E in S. cbn [map] in S. apply StronglySorted_inv in S. destruct S as [_ F]. rewrite Forall_forall in F.
  rewrite entry_cells, E, centry_cons, Nat.eqb_refl, centry_absent; [lra|]. intros x Hx. apply (in_map block_id) in Hx. apply F in Hx. lia.
Qed.
Lemma entry_f bs values row c cs id k j : cells row = c :: cs -> block_id c <> id -> entry bs values row id k j = centry bs values cs id k j.
Proof. intros E N. rewrite entry_cells, E, centry_cons. destruct (Nat.eqb_spec (block_id c) id); [contradiction|]. lra. Qed.
Lemma row_outer_rhs nelim bs values nrow cs i : suml (RowOuterProduct nelim bs values nrow cs) (fun u => cR u i) = 0.
Proof.
  induction cs as [|c cs IH]; [reflexivity|]. cbn [RowOuterProduct]. cbv zeta. cbn [suml cR]. rewrite suml_app, IH, suml_map, suml_zero by reflexivity. lra.
Qed.

Section Chunk.
Variables (bs : Structure) (values : nat -> R) (nelim e : nat).
Hypothesis He : (e < nelim)%nat.
Notation es := (size (col bs e)).

Lemma chunk_row b l sz st row : e_row nelim e row -> sorted_row row -> layout_ok bs es l sz -> (forall c, In c (tl (cells row)) -> In (block_id c) (map fst l)) ->
  exists st', ChunkRow nelim bs values b l es st row = Some st' /\ b_pos st' = (b_pos st + size (block row))%nat /\
    (forall i j, ete st' i j = ete st i j + sumn (size (block row)) (fun k => entry bs values row e k i * entry bs values row e k j)) /\
    (forall b', b = Some b' -> forall i, g st' i = g st i + sumn (size (block row)) (fun k => entry bs values row e k i * b' (b_pos st + k)%nat)) /\
    (forall id off a j, In (id, off) l -> (nelim <= id)%nat -> (a < es)%nat -> (j < size (col bs id))%nat ->
       buffer st' (off + a * size (col bs id) + j)%nat = buffer st (off + a * size (col bs id) + j)%nat + sumn (size (block row)) (fun k => entry bs values row e k a * entry bs values row id k j)) /\
    (forall b1 b2 i j, (b1 <= b2)%nat -> (i < size (col bs (nelim + b1)))%nat -> (j < size (col bs (nelim + b2)))%nat ->
       suml (updates st') (fun u => cL u b1 b2 i j) = suml (updates st) (fun u => cL u b1 b2 i j) + sumn (size (block row)) (fun k => entry bs values row (nelim + b1) k i * entry bs values row (nelim + b2) k j)) /\
    (forall i, suml (updates st') (fun u => cR u i) = suml (updates st) (fun u => cR u i)).
Proof.
  intros [c [cs [Ec [Ei Eg]]]] So L Hc. unfold ChunkRow. rewrite Ec in *. cbn [tl] in Hc.
  destruct (buffer_row bs values l sz (size (block row)) es (cell_position c) cs L (buffer st) Hc) as [buf' [-> K]].
  eexists. split; [reflexivity|]. cbn [b_pos ete g buffer updates]. split; [reflexivity|].
  assert (forall k i, entry bs values row e k i = block_at values (cell_position c) es k i) as Ee.
  { intros. rewrite <- Ei. apply (entry_e bs values row c cs k i Ec So). }
  split; [|split; [|split; [|split]]].
  - intros. f_equal. unfold mtm. apply sumn_ext. intros. rewrite !Ee. reflexivity.
  - intros b' -> i. f_equal. unfold mtv. apply sumn_ext. intros. rewrite Ee. reflexivity.
  - intros id off a j I G A J. rewrite K by assumption. f_equal. apply sumn_ext. intros. rewrite Ee. f_equal. symmetry. apply (entry_f bs values row c cs); [exact Ec|lia].
  - intros b1 b2 i j B I J. rewrite suml_app. f_equal.
    assert ((if 1 <? length (c :: cs) then RowOuterProduct nelim bs values (size (block row)) cs else []) = RowOuterProduct nelim bs values (size (block row)) cs) as -> by (destruct cs; reflexivity).
    rewrite row_outer; [|unfold sorted_row in So; rewrite Ec in So; cbn [map] in So; apply StronglySorted_inv in So; apply So|exact Eg|exact B|exact I|exact J].
    apply sumn_ext. intros. rewrite !(entry_f bs values row c cs _ _ _ Ec) by lia. reflexivity.
  - intro i. rewrite suml_app.
    assert ((if 1 <? length (c :: cs) then RowOuterProduct nelim bs values (size (block row)) cs else []) = RowOuterProduct nelim bs values (size (block row)) cs) as -> by (destruct cs; reflexivity).
    rewrite row_outer_rhs. lra.
Qed.
Lemma chunk_rows_spec b l sz rs : forall st, (forall row, In row rs -> e_row nelim e row /\ sorted_row row) -> layout_ok bs es l sz -> (forall id, ids_of rs id -> In id (map fst l)) ->
  laid_out (b_pos st) (map block rs) ->
  exists st', ChunkRows nelim bs values b l es rs st = Some st' /\
    (forall i j, ete st' i j = ete st i j + NN bs values rs e i e j) /\
    (forall b', b = Some b' -> forall i, g st' i = g st i + GG bs values b' rs e i) /\
    (forall id off a j, In (id, off) l -> (nelim <= id)%nat -> (a < es)%nat -> (j < size (col bs id))%nat ->
       buffer st' (off + a * size (col bs id) + j)%nat = buffer st (off + a * size (col bs id) + j)%nat + NN bs values rs e a id j) /\
    (forall b1 b2 i j, (b1 <= b2)%nat -> (i < size (col bs (nelim + b1)))%nat -> (j < size (col bs (nelim + b2)))%nat ->
       suml (updates st') (fun u => cL u b1 b2 i j) = suml (updates st) (fun u => cL u b1 b2 i j) + NN bs values rs (nelim + b1) i (nelim + b2) j) /\
    (forall i, suml (updates st') (fun u => cR u i) = suml (updates st) (fun u => cR u i)).
Proof.
  induction rs as [|row rs IH]; intros st Hr L Hl LO.
  - exists st. split; [reflexivity|]. unfold NN, GG. cbn [suml]. repeat split; intros; lra.
  - destruct (Hr row (or_introl eq_refl)) as [Er Sr].
    destruct (chunk_row b l sz st row Er Sr L) as [st1 [E1 [P1 [A1 [B1 [C1 [D1 F1]]]]]]].
    { intros c Hc. apply Hl. exists row. split; [left; reflexivity|]. exists c. split; [exact Hc|reflexivity]. }
    cbn [map laid_out] in LO. destruct LO as [Pb LO]. rewrite <- P1 in LO.
    destruct (IH st1 (fun r H => Hr r (or_intror H)) L) as [st' [E2 [A2 [B2 [C2 [D2 F2]]]]]]; [|exact LO|].
    { intros id [r [I H]]. apply Hl. exists r. split; [right; exact I|exact H]. }
    exists st'. cbn [ChunkRows]. rewrite E1. split; [exact E2|]. unfold NN, GG in *. cbn [suml]. split; [|split; [|split; [|split]]].
    + intros. rewrite A2, A1. lra.
    + intros b' Eb i. rewrite (B2 b' Eb), (B1 b' Eb), Pb. lra.
    + intros. rewrite C2, C1 by assumption. lra.
    + intros. rewrite D2, D1 by assumption. lra.
    + intros. rewrite F2, F1. reflexivity.
Qed.

(* ---------------- the outer product of the buffer ---------------- *)
Definition LB (buf : nat -> R) (l : list (nat * nat)) (id a i : nat) : R :=
  suml l (fun p => if fst p =? id then buf (snd p + a * size (col bs id) + i)%nat else 0).
Lemma pairs_sum (inv : matrix) buf l : StronglySorted lt (map fst l) -> (forall k, In k (map fst l) -> (nelim <= k)%nat) ->
  forall b1 b2 i j, (b1 <= b2)%nat -> (i < size (col bs (nelim + b1)))%nat -> (j < size (col bs (nelim + b2)))%nat ->
  suml (ChunkOuterProduct nelim bs es inv buf l) (fun u => cL u b1 b2 i j) =
  suml l (fun x => suml l (fun y => if (fst x =? nelim + b1) && (fst y =? nelim + b2) then
    - mm es (mtm es (block_at buf (snd x) (size (col bs (nelim + b1)))) inv) (block_at buf (snd y) (size (col bs (nelim + b2)))) i j else 0)).
Proof.
  induction l as [|[k1 o1] l IH]; intros So Ge b1 b2 i j B I J; [reflexivity|].
  cbn [map fst] in So. apply StronglySorted_inv in So. destruct So as [So Fa]. rewrite Forall_forall in Fa.
  cbn [ChunkOuterProduct]. cbv zeta. rewrite suml_app, suml_map.
  rewrite IH; [|exact So|intros; apply Ge; right; assumption|exact B|exact I|exact J].
  assert (exists m1, k1 = (nelim + m1)%nat) as [m1 ->] by (exists (k1 - nelim)%nat; assert (nelim <= k1)%nat by (apply Ge; left; reflexivity); lia).
  replace (nelim + m1 - nelim)%nat with m1 by lia.
  set (P := fun x y : nat * nat => if (fst x =? nelim + b1) && (fst y =? nelim + b2) then
    - mm es (mtm es (block_at buf (snd x) (size (col bs (nelim + b1)))) inv) (block_at buf (snd y) (size (col bs (nelim + b2)))) i j else 0).
  change (suml l (fun x => suml l (fun y => P x y))) with (suml l (fun x => suml l (P x))).
  change (suml ((nelim + m1, o1) :: l)%nat (fun x => suml ((nelim + m1, o1) :: l)%nat (fun y => if (fst x =? nelim + b1) && (fst y =? nelim + b2) then
    - mm es (mtm es (block_at buf (snd x) (size (col bs (nelim + b1)))) inv) (block_at buf (snd y) (size (col bs (nelim + b2)))) i j else 0))) with
    (suml ((nelim + m1, o1) :: l)%nat (P (nelim + m1, o1)%nat) + suml l (fun x => P x (nelim + m1, o1)%nat + suml l (P x))).
  rewrite suml_plus. rewrite (suml_zero l (fun x => P x (nelim + m1, o1)%nat)).
  2:{ intros x Hx. apply (in_map fst) in Hx. apply Fa in Hx. unfold P. cbn [fst snd]. rewrite eqb_shift. destruct (Nat.eqb_spec m1 b2) as [->|]; [|rewrite andb_false_r; reflexivity].
      destruct (Nat.eqb_spec (fst x) (nelim + b1)); [lia|reflexivity]. }
  rewrite Rplus_0_l. f_equal. apply suml_ext. intros [k2 o2] Hy.
  assert (nelim <= k2)%nat as G2 by (apply Ge; apply (in_map fst) in Hy; exact Hy).
  assert (exists m2, k2 = (nelim + m2)%nat) as [m2 ->] by (exists (k2 - nelim)%nat; lia). replace (nelim + m2 - nelim)%nat with m2 by lia.
  unfold P. cbn [fst snd cL]. rewrite !eqb_shift. rewrite (Nat.eqb_sym b1 m1), (Nat.eqb_sym b2 m2).
  destruct (Nat.eqb_spec m1 b1) as [->|]; [|reflexivity]. destruct (Nat.eqb_spec m2 b2) as [->|]; [|reflexivity]. cbn [andb].
  destruct (Nat.ltb_spec i (size (col bs (nelim + b1)))); [|lia]. destruct (Nat.ltb_spec j (size (col bs (nelim + b2)))); [|lia]. reflexivity.
Qed.
Lemma outer_spec (inv : matrix) buf l : StronglySorted lt (map fst l) -> (forall k, In k (map fst l) -> (nelim <= k)%nat) ->
  forall b1 b2 i j, (b1 <= b2)%nat -> (i < size (col bs (nelim + b1)))%nat -> (j < size (col bs (nelim + b2)))%nat ->
  suml (ChunkOuterProduct nelim bs es inv buf l) (fun u => cL u b1 b2 i j) =
  - sumn es (fun a => sumn es (fun a' => LB buf l (nelim + b1) a i * inv a a' * LB buf l (nelim + b2) a' j)).
Proof.
  intros So Ge b1 b2 i j B I J. rewrite pairs_sum by assumption. unfold LB.
  set (n1 := size (col bs (nelim + b1))). set (n2 := size (col bs (nelim + b2))).
  set (f x a := if fst x =? nelim + b1 then buf (snd x + a * n1 + i)%nat else 0 : R). set (h (y : nat * nat) a := if fst y =? nelim + b2 then buf (snd y + a * n2 + j)%nat else 0 : R).
  rewrite (suml_ext l _ (fun x => - suml l (fun y => sumn es (fun a => sumn es (fun a' => f x a * inv a a' * h y a'))))).
  2:{ intros x _. rewrite <- suml_opp. apply suml_ext. intros y _. unfold f, h.
      destruct (fst x =? nelim + b1); cbn [andb].
      - destruct (fst y =? nelim + b2).
        + f_equal. unfold mm, mtm, block_at. rewrite sumn_swap. apply sumn_ext. intros. rewrite <- sumn_scal_r. reflexivity.
        + rewrite sumn_zero; [lra|]. intros. apply sumn_zero. intros. lra.
      - rewrite sumn_zero; [lra|]. intros. apply sumn_zero. intros. lra. }
  rewrite suml_opp. f_equal.
  rewrite (suml_ext l _ (fun x => sumn es (fun a => sumn es (fun a' => f x a * inv a a' * suml l (fun y => h y a'))))).
  2:{ intros x _. rewrite suml_sumn. apply sumn_ext. intros a _. rewrite suml_sumn. apply sumn_ext. intros a' _. rewrite suml_scal. reflexivity. }
  rewrite suml_sumn. apply sumn_ext. intros a _. rewrite suml_sumn. apply sumn_ext. intros a' _.
  rewrite (suml_ext l _ (fun x => f x a * (inv a a' * suml l (fun y => h y a')))) by (intros; lra). rewrite suml_scal_r. unfold f, h. ring.
Qed.
Lemma outer_rhs (inv : matrix) buf l i : suml (ChunkOuterProduct nelim bs es inv buf l) (fun u => cR u i) = 0.
Proof.
  induction l as [|[k o] l IH]; [reflexivity|]. cbn [ChunkOuterProduct]. cbv zeta. rewrite suml_app, IH, suml_map, suml_zero; [lra|]. intros [k2 o2] _. reflexivity.
Qed.
Lemma LB_in buf l id off a i : StronglySorted lt (map fst l) -> In (id, off) l -> LB buf l id a i = buf (off + a * size (col bs id) + i)%nat.
Proof.
  intros So I. unfold LB. induction l as [|[k o] l IH]; [contradiction|]. cbn [map fst] in So. apply StronglySorted_inv in So. destruct So as [So Fa]. rewrite Forall_forall in Fa. cbn [suml fst snd].
  destruct I as [Q|I].
  - injection Q as -> ->. rewrite Nat.eqb_refl. rewrite suml_zero; [lra|]. intros x Hx. apply (in_map fst) in Hx. apply Fa in Hx. destruct (Nat.eqb_spec (fst x) id); [lia|reflexivity].
  - rewrite IH by assumption. apply (in_map fst) in I. apply Fa in I. cbn in I. destruct (Nat.eqb_spec k id); [lia|]. lra.
Qed.
Lemma LB_out buf l id a i : ~ In id (map fst l) -> LB buf l id a i = 0.
Proof. intro N. apply suml_zero. intros x Hx. destruct (Nat.eqb_spec (fst x) id) as [<-|]; [|reflexivity]. exfalso. apply N. apply in_map. exact Hx. Qed.
End Chunk.
