From Coq Require Import Reals List Arith Lia Lra Psatz Bool Sorting.Sorted Sorting.Permutation.
From Verif Require Import SchurModel SchurSpec SchurProofs.
Import ListNotations.
Open Scope R_scope.

(* ---------------- layout of the buffer ---------------- *)
Record layout_ok (bs : Structure) (es : nat) (l : list (nat * nat)) (sz : nat) : Prop := {
  lo_sorted : StronglySorted lt (map fst l);
  lo_bound : forall k o, In (k, o) l -> (o + es * size (col bs k) <= sz)%nat;
  lo_disjoint : forall k o k' o', In (k, o) l -> In (k', o') l -> k <> k' ->
    (o + es * size (col bs k) <= o' \/ o' + es * size (col bs k') <= o)%nat }.
Lemma insert_spec m k v m' ins : StronglySorted lt (map fst m) -> InsertIfNotPresent m k v = (m', ins) ->
  StronglySorted lt (map fst m') /\
  (if ins then ~ In k (map fst m) /\ forall p, In p m' <-> p = (k, v) \/ In p m else In k (map fst m) /\ m' = m).
Proof.
  revert m' ins. induction m as [|[k' v'] m IH]; intros m' ins So E; cbn [InsertIfNotPresent] in E.
  - injection E as <- <-. cbn. split; [repeat constructor|]. split; [tauto|]. intro p. intuition.
  - cbn [map fst] in So. apply StronglySorted_inv in So. destruct So as [So Fa]. destruct (Nat.ltb_spec k k') as [L|L].
    + injection E as <- <-. cbn [map fst]. rewrite Forall_forall in Fa. split; [|split].
      * constructor; [constructor; [exact So|apply Forall_forall; exact Fa]|]. apply Forall_forall. intros x [<-|Hx]; [exact L|]. specialize (Fa x Hx). lia.
      * intros [Q|Q]; [lia|]. specialize (Fa k Q). lia.
      * intro p. cbn. intuition.
    + destruct (Nat.eqb_spec k k') as [Q|N].
      * injection E as <- <-. cbn [map fst]. split; [constructor; assumption|]. split; [left; congruence|reflexivity].
      * destruct (InsertIfNotPresent m k v) as [m1 b1] eqn:E1. injection E as <- <-. destruct (IH m1 b1 So eq_refl) as [S1 S2].
        assert (forall x, In x (map fst m1) -> (k' < x)%nat) as G.
        { rewrite Forall_forall in Fa. intros x Hx. destruct b1.
          - destruct S2 as [_ S2]. apply in_map_iff in Hx. destruct Hx as [p [<- Hp]]. apply S2 in Hp. destruct Hp as [->|Hp]; [cbn; lia|]. apply Fa. apply in_map. exact Hp.
          - destruct S2 as [_ ->]. apply Fa. exact Hx. }
        cbn [map fst]. split; [constructor; [exact S1|apply Forall_forall; exact G]|]. destruct b1.
        -- destruct S2 as [S2 S3]. split; [intros [Q|Q]; [lia|contradiction]|]. intro p. cbn. rewrite S3. intuition.
        -- destruct S2 as [S2 ->]. split; [right; exact S2|reflexivity].
Qed.
Lemma add_cells_spec bs es cs : forall l sz l' sz', layout_ok bs es l sz -> AddCells bs es cs (l, sz) = (l', sz') ->
  layout_ok bs es l' sz' /\ (sz <= sz')%nat /\ (forall id, In id (map fst l') <-> In id (map fst l) \/ exists c, In c cs /\ block_id c = id).
Proof.
  induction cs as [|c cs IH]; intros l sz l' sz' L E.
  - cbn in E. injection E as <- <-. split; [exact L|]. split; [lia|]. intro id. split; [tauto|]. intros [H|[c [[] _]]]. exact H.
  - unfold AddCells in E. cbn [fold_left] in E. destruct (InsertIfNotPresent l (block_id c) sz) as [l1 ins] eqn:E1.
    fold (AddCells bs es cs (l1, if ins then (sz + es * size (col bs (block_id c)))%nat else sz)) in E.
    destruct (insert_spec _ _ _ _ _ (lo_sorted _ _ _ _ L) E1) as [S1 S2].
    assert (layout_ok bs es l1 (if ins then (sz + es * size (col bs (block_id c)))%nat else sz)) as L1.
    { destruct ins.
      - destruct S2 as [N S2]. constructor; [exact S1| |].
        + intros k o H. apply S2 in H. destruct H as [H|H]; [injection H as -> ->; lia|]. pose proof (lo_bound _ _ _ _ L k o H). lia.
        + intros k o k' o' H H' D. apply S2 in H, H'. destruct H as [H|H], H' as [H'|H'].
          * injection H as -> ->. injection H' as -> ->. contradiction.
          * injection H as -> ->. pose proof (lo_bound _ _ _ _ L k' o' H'). lia.
          * injection H' as -> ->. pose proof (lo_bound _ _ _ _ L k o H). lia.
          * exact (lo_disjoint _ _ _ _ L k o k' o' H H' D).
      - destruct S2 as [_ ->]. exact L. }
    destruct (IH _ _ _ _ L1 E) as [A [B C]]. split; [exact A|]. split; [destruct ins; lia|]. intro id. rewrite C. split.
    + intros [H|[c' [I Q]]]; [|right; exists c'; split; [right; exact I|exact Q]]. destruct ins.
      * destruct S2 as [_ S2]. apply in_map_iff in H. destruct H as [p [Q H]]. apply S2 in H. destruct H as [->|H]; [right; exists c; split; [left; reflexivity|exact Q]|left; rewrite <- Q; apply in_map; exact H].
      * destruct S2 as [_ ->]. left. exact H.
    + intros [H|[c' [[<-|I] Q]]].
      * left. destruct ins; [|destruct S2 as [_ ->]; exact H]. destruct S2 as [_ S2]. apply in_map_iff in H. destruct H as [p [Q H]]. rewrite <- Q. apply in_map. apply S2. right. exact H.
      * left. destruct ins; [|destruct S2 as [S2 ->]; rewrite <- Q; exact S2]. destruct S2 as [_ S2]. rewrite <- Q. change (block_id c) with (fst (block_id c, sz)). apply in_map. apply S2. left. reflexivity.
      * right. exists c'. split; assumption.
Qed.

(* ---------------- the chunks ---------------- *)
Definition e_row (nelim e : nat) (row : Row) : Prop := exists c cs, cells row = c :: cs /\ block_id c = e /\ forall c', In c' cs -> (nelim <= block_id c')%nat.
Definition starts_not (e : nat) (rest : list Row) : Prop := match rest with [] => True | row :: _ => match cells row with [] => False | c :: _ => block_id c <> e end end.
Definition ids_of (rs : list Row) (id : nat) : Prop := exists row, In row rs /\ exists c, In c (tl (cells row)) /\ block_id c = id.
Lemma grow_spec bs nelim e es rs : forall rest l sz z, (forall row, In row rs -> e_row nelim e row) -> starts_not e rest -> layout_ok bs es l sz -> (sz <= z)%nat ->
  exists l' sz' z', GrowChunk bs e es (rs ++ rest) l sz z = Some (length rs, l', z') /\ layout_ok bs es l' sz' /\ (sz' <= z')%nat /\ (z <= z')%nat /\
    (forall id, In id (map fst l') <-> In id (map fst l) \/ ids_of rs id).
Proof.
  induction rs as [|row rs IH]; intros rest l sz z He St L Z.
  - exists l, sz, z. split; [|split; [exact L|split; [exact Z|split; [lia|]]]].
    + cbn [app length]. destruct rest as [|r rest]; cbn [GrowChunk]; [reflexivity|]. cbn in St. destruct (cells r) as [|c cs]; [contradiction|]. destruct (Nat.eqb_spec (block_id c) e); [contradiction|reflexivity].
    + intro id. split; [tauto|]. intros [H|[row [[] _]]]. exact H.
  - destruct (He row (or_introl eq_refl)) as [c [cs [Ec [Ei _]]]]. cbn [app GrowChunk]. rewrite Ec. rewrite Ei, Nat.eqb_refl.
    destruct (AddCells bs es cs (l, sz)) as [l1 sz1] eqn:E1. destruct (add_cells_spec _ _ _ _ _ _ _ L E1) as [L1 [_ K1]].
    destruct (IH rest l1 sz1 (Nat.max sz1 z) (fun r H => He r (or_intror H)) St L1 ltac:(lia)) as [l' [sz' [z' [G [L' [Z1 [Z2 K]]]]]]].
    exists l', sz', z'. rewrite G. split; [reflexivity|]. split; [exact L'|]. split; [exact Z1|]. split; [lia|].
    intro id. rewrite K, K1. unfold ids_of. split.
    + intros [[H|[x [I Q]]]|[r [I H]]]; [left; exact H| |].
      * right. exists row. split; [left; reflexivity|]. exists x. rewrite Ec. split; assumption.
      * right. exists r. split; [right; exact I|exact H].
    + intros [H|[r [[<-|I] [x [I2 Q]]]]]; [left; left; exact H| |].
      * rewrite Ec in I2. left. right. exists x. split; assumption.
      * right. exists r. split; [exact I|]. exists x. split; assumption.
Qed.
Inductive chunks_of (bs : Structure) (z : nat) : nat -> list (nat * list Row) -> list Chunk -> Prop :=
| co_nil r : chunks_of bs z r [] []
| co_cons r e rs gs layout cs sz : layout_ok bs (size (col bs e)) layout sz -> (sz <= z)%nat ->
    (forall id, In id (map fst layout) <-> ids_of rs id) ->
    chunks_of bs z (r + length rs) gs cs -> chunks_of bs z r ((e, rs) :: gs) (mkChunk r (length rs) layout :: cs).
Lemma chunks_of_mono bs z z' r gs cs : (z <= z')%nat -> chunks_of bs z r gs cs -> chunks_of bs z' r gs cs.
Proof. intros Z H. induction H as [|r e rs gs layout cs sz L S I _ IH]; [constructor|]. apply co_cons with sz; auto. lia. Qed.
Lemma find_spec bs nelim tail gs : forall fuel r z,
  (forall e rs, In (e, rs) gs -> (e < nelim)%nat /\ rs <> [] /\ forall row, In row rs -> e_row nelim e row) ->
  NoDup (map fst gs) -> (forall row, In row tail -> cells row <> [] /\ forall c, In c (cells row) -> (nelim <= block_id c)%nat) -> (length gs < fuel)%nat ->
  exists cs z', FindChunks fuel bs nelim r (concat (map snd gs) ++ tail) z = Some (cs, z') /\ (z <= z')%nat /\ chunks_of bs z' r gs cs.
Proof.
  induction gs as [|[e rs] gs IH]; intros fuel r z He ND Ht F.
  - exists [], z. split; [|split; [lia|constructor]]. cbn [map concat app]. destruct fuel as [|fuel]; [cbn in F; lia|]. destruct tail as [|row tail]; cbn [FindChunks]; [reflexivity|].
    destruct (Ht row (or_introl eq_refl)) as [N G]. destruct (cells row) as [|c cs]; [contradiction|]. destruct (Nat.leb_spec nelim (block_id c)); [reflexivity|]. specialize (G c (or_introl eq_refl)). lia.
  - destruct (He e rs (or_introl eq_refl)) as [Le [Nr Hr]]. destruct fuel as [|fuel]; [cbn in F; lia|]. cbn [map snd concat].
    destruct rs as [|row rs]; [contradiction|]. destruct (Hr row (or_introl eq_refl)) as [c [cs [Ec [Ei _]]]].
    cbn [app FindChunks]. rewrite Ec. rewrite Ei. destruct (Nat.leb_spec nelim e); [lia|].
    change (row :: (rs ++ concat (map snd gs)) ++ tail) with (((row :: rs) ++ concat (map snd gs)) ++ tail). rewrite <- app_assoc.
    assert (starts_not e (concat (map snd gs) ++ tail)) as SN.
    { cbn [map fst] in ND. apply NoDup_cons_iff in ND. destruct ND as [ND _]. destruct gs as [|[e' rs'] gs].
      - cbn. destruct tail as [|t tail]; [exact I|]. cbn. destruct (Ht t (or_introl eq_refl)) as [N G]. destruct (cells t) as [|x xs]; [apply N; reflexivity|]. specialize (G x (or_introl eq_refl)). lia.
      - destruct (He e' rs' (or_intror (or_introl eq_refl))) as [_ [N' H']]. cbn [map snd concat]. destruct rs' as [|r' rs']; [contradiction|]. cbn.
        destruct (H' r' (or_introl eq_refl)) as [x [xs [Ex [Exi _]]]]. rewrite Ex. intro Q. apply ND. left. cbn. congruence. }
    destruct (grow_spec bs nelim e (size (col bs e)) (row :: rs) (concat (map snd gs) ++ tail) [] 0%nat z Hr SN) as [l' [sz' [z' [G [L' [Z1 [Z2 K]]]]]]];
      [constructor; [constructor|intros k o []|intros k o k' o' []]|lia|].
    rewrite G. destruct (Nat.eqb_spec (length (row :: rs)) 0) as [Q|_]; [cbn in Q; lia|].
    rewrite skipn_app, skipn_all, Nat.sub_diag. cbn [skipn]. rewrite app_nil_l.
    cbn [map fst] in ND. apply NoDup_cons_iff in ND. destruct ND as [_ ND].
    destruct (IH fuel (r + length (row :: rs))%nat z' (fun e0 rs0 H0 => He e0 rs0 (or_intror H0)) ND Ht ltac:(cbn in F; lia)) as [cs' [z2 [E2 [Z3 C2]]]].
    rewrite E2. eexists. exists z2. split; [reflexivity|]. split; [lia|]. apply co_cons with sz'; [exact L'|lia| |exact C2].
    intro id. rewrite K. cbn. tauto.
Qed.
Lemma chunks_of_last bs z gs : forall r cs, chunks_of bs z r gs cs -> gs <> [] ->
  exists last pre, rev cs = last :: pre /\ (start last + chunk_size last = r + length (concat (map snd gs)))%nat.
Proof.
  induction gs as [|[e rs] gs IH]; intros r cs H N; [contradiction|]. inversion H as [|r0 e0 rs0 gs0 layout cs0 sz L S I C]; subst. cbn [map snd concat]. rewrite app_length.
  destruct gs as [|g gs].
  - inversion C; subst. cbn. eexists. eexists. split; [reflexivity|]. cbn. lia.
  - destruct (IH _ _ C ltac:(discriminate)) as [last [pre [E Q]]]. cbn [rev]. rewrite E. cbn. eexists. eexists. split; [reflexivity|]. rewrite Q. cbn [map concat]. lia.
Qed.
Lemma chunk_rows_at bs r n l pre rs post : rows bs = pre ++ rs ++ post -> length pre = r -> length rs = n -> chunk_rows bs (mkChunk r n l) = rs.
Proof.
  intros E P N. unfold chunk_rows. cbn [start chunk_size]. rewrite E, skipn_app, <- P, skipn_all, Nat.sub_diag. cbn [skipn app]. rewrite firstn_app, <- N, firstn_all, Nat.sub_diag. cbn. apply app_nil_r.
Qed.

(* ---------------- the buffer ---------------- *)
Lemma find_spec_in l k : StronglySorted lt (map fst l) -> In k (map fst l) -> exists o, FindOrDie l k = Some o /\ In (k, o) l.
Proof.
  induction l as [|[k' v] l IH]; intros So I; [contradiction|]. cbn [FindOrDie]. destruct (Nat.eqb_spec k k') as [->|N].
  - exists v. split; [reflexivity|left; reflexivity].
  - cbn [map fst] in So, I. apply StronglySorted_inv in So. destruct So as [So _]. destruct I as [Q|I]; [congruence|]. destruct (IH So I) as [o [A B]]. exists o. split; [exact A|right; exact B].
Qed.
Lemma sorted_unique (l : list (nat * nat)) k o o' : StronglySorted lt (map fst l) -> In (k, o) l -> In (k, o') l -> o = o'.
Proof.
  induction l as [|[k' v] l IH]; intros So A B; [contradiction|]. cbn [map fst] in So. apply StronglySorted_inv in So. destruct So as [So Fa]. rewrite Forall_forall in Fa.
  destruct A as [A|A], B as [B|B].
  - congruence.
  - injection A as -> ->. apply (in_map fst) in B. apply Fa in B. cbn in B. lia.
  - injection B as -> ->. apply (in_map fst) in A. apply Fa in A. cbn in A. lia.
  - exact (IH So A B).
Qed.
Lemma add_same buf off n m M a j : (a < n)%nat -> (j < m)%nat -> add_to_buffer buf off n m M (off + a * m + j) = buf (off + a * m + j)%nat + M a j.
Proof.
  intros A J. unfold add_to_buffer. assert (a * m + j < n * m)%nat by nia. destruct (Nat.leb_spec off (off + a * m + j)); [|lia]. destruct (Nat.ltb_spec (off + a * m + j) (off + n * m)); [|lia]. cbn [andb].
  replace (off + a * m + j - off)%nat with (j + a * m)%nat by lia. rewrite Nat.div_add, Nat.mod_add by lia. rewrite Nat.div_small, Nat.mod_small by exact J. reflexivity.
Qed.
Lemma add_other buf off n m M p : (p < off \/ off + n * m <= p)%nat -> add_to_buffer buf off n m M p = buf p.
Proof. intro H. unfold add_to_buffer. destruct (Nat.leb_spec off p); [|reflexivity]. destruct (Nat.ltb_spec p (off + n * m)); [lia|reflexivity]. Qed.
Lemma buffer_row bs values l sz nrow es epos cs : layout_ok bs es l sz -> forall buf, (forall c, In c cs -> In (block_id c) (map fst l)) ->
  exists buf', BufferRow bs values l nrow es epos cs buf = Some buf' /\
    forall id off a j, In (id, off) l -> (a < es)%nat -> (j < size (col bs id))%nat ->
      buf' (off + a * size (col bs id) + j)%nat = buf (off + a * size (col bs id) + j)%nat + sumn nrow (fun k => block_at values epos es k a * centry bs values cs id k j).
Proof.
  intro L. induction cs as [|c cs IH]; intros buf Hc.
  - exists buf. split; [reflexivity|]. intros. rewrite sumn_zero; [lra|]. intros. unfold centry. cbn. lra.
  - cbn [BufferRow]. destruct (find_spec_in l (block_id c) (lo_sorted _ _ _ _ L) (Hc c (or_introl eq_refl))) as [o [-> Io]]. cbv zeta.
    set (m := size (col bs (block_id c))). set (M := mtm nrow (block_at values epos es) (block_at values (cell_position c) m)).
    destruct (IH (add_to_buffer buf o es m M) (fun x H => Hc x (or_intror H))) as [buf' [E K]]. exists buf'. split; [exact E|]. intros id off a j I A J. rewrite K by assumption.
    rewrite (sumn_ext nrow (fun k => block_at values epos es k a * centry bs values (c :: cs) id k j)
       (fun k => block_at values epos es k a * (if block_id c =? id then block_at values (cell_position c) (size (col bs id)) k j else 0) + block_at values epos es k a * centry bs values cs id k j)) by (intros; rewrite centry_cons; lra).
    rewrite sumn_plus, <- Rplus_assoc. f_equal. destruct (Nat.eqb_spec (block_id c) id) as [Q|N].
    + subst id. assert (o = off) as -> by exact (sorted_unique l _ _ _ (lo_sorted _ _ _ _ L) Io I). fold m in J |- *. rewrite add_same by assumption. reflexivity.
    + rewrite sumn_zero by (intros; lra). rewrite Rplus_0_r. apply add_other. pose proof (lo_disjoint _ _ _ _ L _ _ _ _ Io I N) as Dj. fold m in Dj. nia.
Qed.
