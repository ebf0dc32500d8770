From Coq Require Import Reals List Arith Lia Lra Psatz Bool Sorting.Sorted Sorting.Permutation.
From Verif Require Import SchurModel SchurSpec SchurProofs SchurProofs2 SchurProofs3 SchurProofs4 SchurProofs5 SchurProofs6 SchurProofs7 SchurProofs8.
Import ListNotations.
Open Scope R_scope.

(* ---------------- OneInit ---------------- *)
Fixpoint one_of (r : nat) (gs : list (nat * list Row)) : list (nat * nat) :=
  match gs with [] => [] | (_, rs) :: gs' => (r, length rs) :: one_of (r + length rs) gs' end.
Lemma one_grow nelim e rs : forall rest, (forall row, In row rs -> e_row nelim e row) -> starts_not e rest -> OneGrow e (rs ++ rest) = Some (length rs).
Proof.
  induction rs as [|row rs IH]; intros rest Hr St.
  - cbn. destruct rest as [|r rest]; cbn; [reflexivity|]. cbn in St. destruct (cells r) as [|c cs]; [contradiction|]. destruct (Nat.eqb_spec (block_id c) e); [contradiction|reflexivity].
  - destruct (Hr row (or_introl eq_refl)) as [c [cs [Ec [Ei _]]]]. cbn [app OneGrow length]. rewrite Ec. destruct (Nat.eqb_spec (block_id c) e); [|contradiction]. rewrite IH; [reflexivity|intros; apply Hr; right; assumption|exact St].
Qed.
Lemma one_find nelim tail gs : forall fuel r,
  (forall e rs, In (e, rs) gs -> (e < nelim)%nat /\ rs <> [] /\ forall row, In row rs -> e_row nelim e row) ->
  NoDup (map fst gs) -> (forall row, In row tail -> cells row <> [] /\ forall c, In c (cells row) -> (nelim <= block_id c)%nat) -> (length gs < fuel)%nat ->
  OneFind fuel nelim r (concat (map snd gs) ++ tail) = Some (one_of r gs).
Proof.
  induction gs as [|[e rs] gs IH]; intros fuel r Hg ND Ht F.
  - cbn [map concat app one_of]. destruct fuel as [|fuel]; [cbn in F; lia|]. destruct tail as [|row tail]; cbn [OneFind]; [reflexivity|]. destruct (Ht row (or_introl eq_refl)) as [Nc Hc]. destruct (cells row) as [|c cs]; [contradiction|].
    destruct (Nat.leb_spec nelim (block_id c)) as [L|L]; [reflexivity|]. specialize (Hc c (or_introl eq_refl)). lia.
  - destruct fuel as [|fuel]; [cbn in F; lia|]. cbn [map fst] in ND. apply NoDup_cons_iff in ND. destruct ND as [Ne ND].
    destruct (Hg e rs (or_introl eq_refl)) as [He [Nr Hr]].
    cbn [map snd concat]. rewrite <- app_assoc. set (rest := concat (map snd gs) ++ tail) in *.
    assert (OneGrow e (rs ++ rest) = Some (length rs)) as Eg.
    { apply (one_grow nelim e rs rest Hr). unfold rest, starts_not. destruct gs as [|[e' rs'] gs'].
      - cbn. destruct tail as [|row tail']; [exact Logic.I|]. destruct (Ht row (or_introl eq_refl)) as [Nc Hc]. destruct (cells row) as [|c cs]; [contradiction|]. specialize (Hc c (or_introl eq_refl)). lia.
      - destruct (Hg e' rs' (or_intror (or_introl eq_refl))) as [_ [Nr' Hr']]. cbn. destruct rs' as [|row rs'']; [contradiction|]. cbn. destruct (Hr' row (or_introl eq_refl)) as [c [cs [Ec [Ei _]]]]. rewrite Ec. intro Q. apply Ne. left. cbn. congruence. }
    destruct rs as [|row rs0] eqn:Ers; [contradiction|]. rewrite <- Ers in *. assert (rs ++ rest = row :: (rs0 ++ rest)) as Es by (rewrite Ers; reflexivity). rewrite Es. cbn [OneFind]. rewrite <- Es.
    destruct (Hr row ltac:(rewrite Ers; left; reflexivity)) as [c [cs [Ec [Ei _]]]]. rewrite Ec, Ei. destruct (Nat.leb_spec nelim e) as [Lq|_]; [lia|]. rewrite Eg.
    rewrite skipn_app, skipn_all, Nat.sub_diag. cbn [skipn app]. unfold rest. rewrite IH; [reflexivity|intros; apply Hg; right; assumption|exact ND|exact Ht|cbn in F; lia].
Qed.
Lemma one_last gs : forall r, gs <> [] -> exists s n pre, rev (one_of r gs) = (s, n) :: pre /\ (s + n = r + length (concat (map snd gs)))%nat.
Proof.
  induction gs as [|[e rs] gs IH]; intros r N; [contradiction|]. cbn [one_of map snd concat rev]. rewrite app_length. destruct gs as [|g gs].
  - cbn. exists r, (length rs), []. split; [reflexivity|lia].
  - destruct (IH (r + length rs)%nat ltac:(discriminate)) as [s [n [pre [E Q]]]]. rewrite E. cbn [app]. exists s, n, (pre ++ [(r, length rs)]). split; [reflexivity|]. rewrite Q. cbn [map concat]. lia.
Qed.
Lemma one_rows_at bs r n pre rs post : rows bs = pre ++ rs ++ post -> length pre = r -> length rs = n -> one_rows bs (r, n) = rs.
Proof.
  intros E P N. unfold one_rows. cbn [fst snd]. rewrite E, skipn_app, <- P, skipn_all, Nat.sub_diag. cbn [skipn app]. rewrite firstn_app, <- N, firstn_all, Nat.sub_diag. cbn. apply app_nil_r.
Qed.
Lemma rows_nonempty nelim bs : well_formed nelim bs -> (forall row, In row (rows bs) -> cells row <> []) /\ exists row c, In row (rows bs) /\ In c (cells row) /\ (block_id c < nelim)%nat.
Proof.
  intros [Wn Wc Wr Ws [gs [tail [Er [ND [Ne [Hg Ht]]]]]]]. rewrite Er. split.
  - intros row I. apply in_app_or in I. destruct I as [I|I]; [|apply Ht; exact I]. apply in_concat in I. destruct I as [rs [I Ir]]. apply in_map_iff in I. destruct I as [[e rs'] [Q I]]. cbn in Q. subst rs'.
    destruct (Hg e rs I) as [_ [_ H]]. destruct (H row Ir) as [c [cs [Ec _]]]. rewrite Ec. discriminate.
  - destruct gs as [|[e rs] gs]; [contradiction|]. destruct (Hg e rs (or_introl eq_refl)) as [He [Nr H]]. destruct rs as [|row rs]; [contradiction|]. destruct (H row (or_introl eq_refl)) as [c [cs [Ec [Ei _]]]].
    exists row, c. split; [left; reflexivity|]. rewrite Ec. split; [left; reflexivity|]. lia.
Qed.
Lemma one_init nelim full bs st gs tail z : well_formed nelim bs -> num_cols bs = S nelim -> initialised nelim full bs st gs tail z ->
  exists one, OneInit nelim bs = Some one /\ one_nelim one = nelim /\ one_chunks one = one_of 0 gs /\ skipn (one_begins one) (rows bs) = tail.
Proof.
  intros W Nc Ini. destruct (rows_nonempty nelim bs W) as [Nr [row1 [c1 [I1 [I2 I3]]]]]. pose proof (wf_nelim _ _ W) as Wn.
  pose proof (ini_rows _ _ _ _ _ _ _ Ini) as Er. pose proof (ini_groups _ _ _ _ _ _ _ Ini) as Hg.
  assert (forall row, In row tail -> cells row <> [] /\ forall c, In c (cells row) -> (nelim <= block_id c)%nat) as Ht.
  { intros row Hr. split; [apply Nr; rewrite Er; apply in_or_app; right; exact Hr|]. apply (ini_tail _ _ _ _ _ _ _ Ini row Hr). }
  assert (gs <> []) as Ne. { intros ->. cbn in Er. rewrite Er in I1. pose proof (proj2 (Ht row1 I1) c1 I2). lia. }
  destruct (one_last gs 0 Ne) as [s [n [pre [Rv Q]]]]. unfold OneInit. destruct (Nat.eqb_spec nelim 0); [lia|]. unfold num_cols in Nc. rewrite Nc. replace (S nelim - nelim)%nat with 1%nat by lia. cbn [Nat.eqb negb].
  assert (OneFind (S (length (rows bs))) nelim 0 (rows bs) = Some (one_of 0 gs)) as ->.
  { rewrite Er. apply one_find; [|exact (ini_nodup _ _ _ _ _ _ _ Ini)|exact Ht|].
    - intros e rs I. destruct (Hg e rs I) as [A [B C]]. split; [exact A|]. split; [exact B|]. intros row Hr. apply (C row Hr).
    - rewrite app_length. assert (length gs <= length (concat (map snd gs)))%nat; [|lia]. clear -Hg. induction gs as [|[e rs] gs IH]; [cbn; lia|]. cbn [map snd concat length]. rewrite app_length.
      destruct (Hg e rs (or_introl eq_refl)) as [_ [N _]]. destruct rs; [contradiction|]. cbn [length]. specialize (IH (fun e' rs' I => Hg e' rs' (or_intror I))). lia. }
  rewrite Rv. eexists. split; [reflexivity|]. cbn [one_nelim one_chunks one_begins]. do 2 (split; [reflexivity|]).
  rewrite Q, Er. cbn [plus]. rewrite skipn_app, skipn_all, Nat.sub_diag. reflexivity.
Qed.

(* ---------------- sums ---------------- *)
Section One.
Variables (inverse : nat -> matrix -> matrix) (k_row k_e k_f nelim : nat) (bs : Structure) (values b : nat -> R) (D : option (nat -> R)).
Hypothesis Nc : num_cols bs = S nelim.
Hypothesis Kf : size (col bs nelim) = k_f.
Lemma e_cells e row : (e < nelim)%nat -> e_row nelim e row -> good bs row -> size (col bs e) = k_e ->
  exists c0, (cells row = [c0] /\ (forall k j, entry bs values row nelim k j = 0) \/
              exists c1, cells row = [c0; c1] /\ forall k j, entry bs values row nelim k j = block_at values (cell_position c1) k_f k j) /\
    forall k j, entry bs values row e k j = block_at values (cell_position c0) k_e k j.
Proof.
  intros He [c0 [cs [Ec [Ei Eg]]]] [So Hc] Ke. exists c0. split.
  - destruct cs as [|c1 cs].
    + left. split; [exact Ec|]. intros. rewrite (entry_f bs values row c0 [] _ _ _ Ec) by lia. reflexivity.
    + right. exists c1. assert (block_id c1 = nelim) as E1. { assert (In c1 (cells row)) as I by (rewrite Ec; right; left; reflexivity). specialize (Hc c1 I). specialize (Eg c1 (or_introl eq_refl)). lia. }
      destruct cs as [|c2 cs].
      * split; [exact Ec|]. intros. rewrite (entry_f bs values row c0 [c1] _ _ _ Ec) by lia. rewrite centry_cons, E1, Nat.eqb_refl, Kf. unfold centry. cbn. lra.
      * exfalso. assert (block_id c2 = nelim) as E2. { assert (In c2 (cells row)) as I by (rewrite Ec; right; right; left; reflexivity). specialize (Hc c2 I). specialize (Eg c2 (or_intror (or_introl eq_refl))). lia. }
        unfold sorted_row in So. rewrite Ec in So. cbn in So. apply StronglySorted_inv in So. destruct So as [So _]. apply StronglySorted_inv in So. destruct So as [_ Fa]. rewrite Forall_forall in Fa. specialize (Fa (block_id c2) (or_introl eq_refl)). lia.
  - intros. rewrite <- Ei, (entry_e bs values row c0 cs k j Ec So), Ei, Ke. reflexivity.
Qed.
Lemma one_sums e rs : (e < nelim)%nat -> size (col bs e) = k_e -> (forall row, In row rs -> e_row nelim e row /\ good bs row /\ size (block row) = k_row) -> forall s,
  exists s', OneRows k_row k_e k_f values b rs s = Some s' /\
    (forall i j, e_t_e s' i j = e_t_e s i j + NN bs values rs e i e j) /\ (forall i j, e_t_f s' i j = e_t_f s i j + NN bs values rs e i nelim j) /\
    (forall i, e_t_b s' i = e_t_b s i + GG bs values b rs e i) /\ (forall i, f_t_b s' i = f_t_b s i + GG bs values b rs nelim i) /\
    (forall i j, one_lhs s' i j = one_lhs s i j + NN bs values rs nelim i nelim j).
Proof.
  intros He Ke. induction rs as [|row rs IH]; intros Hr s.
  - exists s. split; [reflexivity|]. unfold NN, GG. cbn [suml]. repeat split; intros; lra.
  - destruct (Hr row (or_introl eq_refl)) as [R1 [R2 R3]]. destruct (e_cells e row He R1 R2 Ke) as [c0 [Hc Ee]]. cbn [OneRows]. unfold OneRow.
    destruct Hc as [[Ec Ef]|[c1 [Ec Ef]]]; rewrite Ec.
    + edestruct (IH (fun r H => Hr r (or_intror H))) as [s' [E [A1 [A2 [A3 [A4 A5]]]]]]. exists s'. split; [exact E|]. unfold NN, GG in *. cbn [suml]. rewrite R3.
      split; [intros; rewrite A1|split; [intros; rewrite A2|split; [intros; rewrite A3|split; [intros; rewrite A4|intros; rewrite A5]]]]; cbn [e_t_e e_t_f e_t_b f_t_b one_lhs]; unfold mtm, mtv.
      * rewrite (sumn_ext k_row (fun k => entry bs values row e k i * entry bs values row e k j) (fun k => block_at values (cell_position c0) k_e k i * block_at values (cell_position c0) k_e k j)) by (intros; rewrite !Ee; reflexivity). lra.
      * rewrite (sumn_zero k_row); [lra|]. intros. rewrite Ef. ring.
      * rewrite (sumn_ext k_row (fun k => entry bs values row e k i * b (position (block row) + k)%nat) (fun k => block_at values (cell_position c0) k_e k i * b (position (block row) + k)%nat)) by (intros; rewrite !Ee; reflexivity). lra.
      * rewrite (sumn_zero k_row); [lra|]. intros. rewrite Ef. ring.
      * rewrite (sumn_zero k_row); [lra|]. intros. rewrite Ef. ring.
    + edestruct (IH (fun r H => Hr r (or_intror H))) as [s' [E [A1 [A2 [A3 [A4 A5]]]]]]. exists s'. split; [exact E|]. unfold NN, GG in *. cbn [suml]. rewrite R3.
      split; [intros; rewrite A1|split; [intros; rewrite A2|split; [intros; rewrite A3|split; [intros; rewrite A4|intros; rewrite A5]]]]; cbn [e_t_e e_t_f e_t_b f_t_b one_lhs]; unfold mtm, mtv.
      * rewrite (sumn_ext k_row (fun k => entry bs values row e k i * entry bs values row e k j) (fun k => block_at values (cell_position c0) k_e k i * block_at values (cell_position c0) k_e k j)) by (intros; rewrite !Ee; reflexivity). lra.
      * rewrite (sumn_ext k_row (fun k => entry bs values row e k i * entry bs values row nelim k j) (fun k => block_at values (cell_position c0) k_e k i * block_at values (cell_position c1) k_f k j)) by (intros; rewrite Ee, Ef; reflexivity). lra.
      * rewrite (sumn_ext k_row (fun k => entry bs values row e k i * b (position (block row) + k)%nat) (fun k => block_at values (cell_position c0) k_e k i * b (position (block row) + k)%nat)) by (intros; rewrite !Ee; reflexivity). lra.
      * rewrite (sumn_ext k_row (fun k => entry bs values row nelim k i * b (position (block row) + k)%nat) (fun k => block_at values (cell_position c1) k_f k i * b (position (block row) + k)%nat)) by (intros; rewrite !Ef; reflexivity). lra.
      * rewrite (sumn_ext k_row (fun k => entry bs values row nelim k i * entry bs values row nelim k j) (fun k => block_at values (cell_position c1) k_f k i * block_at values (cell_position c1) k_f k j)) by (intros; rewrite !Ef; reflexivity). lra.
Qed.
Lemma one_tail tail : (forall row, In row tail -> cells row <> [] /\ good bs row /\ forall c, In c (cells row) -> (nelim <= block_id c)%nat) -> forall l r,
  exists l' r', OneTail k_f values b tail l r = Some (l', r') /\ (forall i j, l' i j = l i j + NN bs values tail nelim i nelim j) /\ (forall i, r' i = r i + GG bs values b tail nelim i).
Proof.
  induction tail as [|row tail IH]; intros Ht l r.
  - exists l, r. split; [reflexivity|]. unfold NN, GG. cbn [suml]. split; intros; lra.
  - destruct (Ht row (or_introl eq_refl)) as [Ne [[So Hc] Hn]]. cbn [OneTail].
    assert (exists c, cells row = [c] /\ forall k j, entry bs values row nelim k j = block_at values (cell_position c) k_f k j) as [c [Ec Ef]].
    { destruct (cells row) as [|c cs] eqn:Ec; [contradiction|]. assert (block_id c = nelim) as E1 by (specialize (Hc c (or_introl eq_refl)); specialize (Hn c (or_introl eq_refl)); lia). exists c. destruct cs as [|c2 cs].
      - split; [reflexivity|]. intros. rewrite <- E1. rewrite (entry_e bs values row c [] k j Ec So), E1, Kf. reflexivity.
      - exfalso. assert (block_id c2 = nelim) by (specialize (Hc c2 (or_intror (or_introl eq_refl))); specialize (Hn c2 (or_intror (or_introl eq_refl))); lia).
        unfold sorted_row in So. rewrite Ec in So. cbn in So. apply StronglySorted_inv in So. destruct So as [_ Fa]. rewrite Forall_forall in Fa. specialize (Fa (block_id c2) (or_introl eq_refl)). lia. }
    rewrite Ec. edestruct (IH (fun r0 H => Ht r0 (or_intror H))) as [l' [r' [E [A1 A2]]]]. exists l', r'. split; [exact E|]. unfold NN, GG in *. cbn [suml]. split; intros; [rewrite A1|rewrite A2]; unfold mtm, mtv.
    + rewrite (sumn_ext (size (block row)) (fun k => entry bs values row nelim k i * entry bs values row nelim k j) (fun k => block_at values (cell_position c) k_f k i * block_at values (cell_position c) k_f k j)) by (intros; rewrite !Ef; reflexivity). lra.
    + rewrite (sumn_ext (size (block row)) (fun k => entry bs values row nelim k i * b (position (block row) + k)%nat) (fun k => block_at values (cell_position c) k_f k i * b (position (block row) + k)%nat)) by (intros; rewrite !Ef; reflexivity). lra.
Qed.
Lemma one_back_rows z e rs : (e < nelim)%nat -> size (col bs e) = k_e -> (forall row, In row rs -> e_row nelim e row /\ good bs row /\ size (block row) = k_row) -> forall tmp,
  exists tmp', OneBackRows k_row k_e k_f values b z rs tmp = Some tmp' /\ forall i, tmp' i = tmp i + (GG bs values b rs e i - sumn k_f (fun j => NN bs values rs e i nelim j * z j)).
Proof.
  intros He Ke. induction rs as [|row rs IH]; intros Hr tmp.
  - exists tmp. split; [reflexivity|]. intros. unfold NN, GG. cbn [suml]. rewrite sumn_zero by (intros; ring). lra.
  - destruct (Hr row (or_introl eq_refl)) as [R1 [R2 R3]]. destruct (e_cells e row He R1 R2 Ke) as [c0 [Hc Ee]]. cbn [OneBackRows].
    assert (forall i, sumn k_f (fun j => NN bs values (row :: rs) e i nelim j * z j) = sumn k_row (fun k => entry bs values row e k i * sumn k_f (fun j => entry bs values row nelim k j * z j)) + sumn k_f (fun j => NN bs values rs e i nelim j * z j)) as Sp.
    { intro i. unfold NN. cbn [suml]. rewrite R3. rewrite (sumn_ext k_f _ (fun j => sumn k_row (fun k => entry bs values row e k i * (entry bs values row nelim k j * z j)) + suml rs (fun row0 => sumn (size (block row0)) (fun k => entry bs values row0 e k i * entry bs values row0 nelim k j)) * z j)).
      - rewrite sumn_plus. f_equal. rewrite sumn_swap. apply sumn_ext. intros k _. rewrite sumn_scal. reflexivity.
      - intros j _. rewrite Rmult_plus_distr_r. f_equal. rewrite <- sumn_scal_r. apply sumn_ext. intros. ring. }
    destruct Hc as [[Ec Ef]|[c1 [Ec Ef]]]; rewrite Ec; edestruct (IH (fun r H => Hr r (or_intror H))) as [tmp' [E A]]; exists tmp'; (split; [exact E|]); intro i; rewrite A, Sp; unfold GG; cbn [suml]; rewrite R3; unfold mtv.
    + rewrite (sumn_ext k_row (fun k => entry bs values row e k i * b (position (block row) + k)%nat) (fun k => block_at values (cell_position c0) k_e k i * b (position (block row) + k)%nat)) by (intros; rewrite !Ee; reflexivity).
      rewrite (sumn_zero k_row (fun k => entry bs values row e k i * sumn k_f (fun j => entry bs values row nelim k j * z j))); [lra|]. intros. rewrite sumn_zero; [ring|]. intros. rewrite Ef. ring.
    + unfold mv. rewrite (sumn_ext k_row (fun k => entry bs values row e k i * b (position (block row) + k)%nat) (fun k => block_at values (cell_position c0) k_e k i * b (position (block row) + k)%nat)) by (intros; rewrite !Ee; reflexivity).
      rewrite (sumn_ext k_row (fun k => entry bs values row e k i * sumn k_f (fun j => entry bs values row nelim k j * z j)) (fun k => block_at values (cell_position c0) k_e k i * sumn k_f (fun j => block_at values (cell_position c1) k_f k j * z j))).
      2:{ intros k _. rewrite Ee. f_equal. apply sumn_ext. intros. rewrite Ef. reflexivity. }
      rewrite (sumn_ext k_row (fun k => block_at values (cell_position c0) k_e k i * (b (position (block row) + k)%nat - sumn k_f (fun k0 => block_at values (cell_position c1) k_f k k0 * z k0)))
        (fun k => block_at values (cell_position c0) k_e k i * b (position (block row) + k)%nat - block_at values (cell_position c0) k_e k i * sumn k_f (fun j => block_at values (cell_position c1) k_f k j * z j))) by (intros; ring).
      rewrite sumn_minus. lra.
Qed.

(* ---------------- all chunks ---------------- *)
Definition one_inv (e : nat) (rs : list Row) : matrix := inverse k_e (ete_of bs values D rs e).
Hypothesis Ext : forall m m', (forall i j, (i < k_e)%nat -> (j < k_e)%nat -> m i j = m' i j) -> forall i j, (i < k_e)%nat -> (j < k_e)%nat -> inverse k_e m i j = inverse k_e m' i j.
Lemma one_chunks_spec gs : forall r pre post l rr, rows bs = pre ++ concat (map snd gs) ++ post -> length pre = r ->
  (forall e rs, In (e, rs) gs -> (e < nelim)%nat /\ size (col bs e) = k_e /\ rs <> [] /\ forall row, In row rs -> e_row nelim e row /\ good bs row /\ size (block row) = k_row) ->
  exists l' r' invs, OneChunks inverse k_row k_e k_f bs values b D (one_of r gs) l rr = Some (l', r', invs) /\
    (forall i j, l' i j = l i j + suml gs (fun p => NN bs values (snd p) nelim i nelim j - sumn k_e (fun a => sumn k_e (fun a' => NN bs values (snd p) nelim i (fst p) a * one_inv (fst p) (snd p) a a' * NN bs values (snd p) (fst p) a' nelim j)))) /\
    (forall i, r' i = rr i + suml gs (fun p => GG bs values b (snd p) nelim i - sumn k_e (fun a => sumn k_e (fun a' => NN bs values (snd p) nelim i (fst p) a * one_inv (fst p) (snd p) a a' * GG bs values b (snd p) (fst p) a')))) /\
    forall z y, (forall e rs e' rs' i, In (e, rs) gs -> In (e', rs') gs -> in_block bs e i -> in_block bs e' i -> e = e') -> NoDup (map fst gs) ->
      exists y', OneBackSubstitute k_row k_e k_f bs values b z (one_of r gs) invs y = Some y' /\
      (forall e rs i, In (e, rs) gs -> (i < k_e)%nat -> y' (position (col bs e) + i)%nat = sumn k_e (fun a => one_inv e rs i a * (GG bs values b rs e a - sumn k_f (fun j => NN bs values rs e a nelim j * z j)))) /\
      (forall p, (forall e rs, In (e, rs) gs -> ~ in_block bs e p) -> y' p = y p).
Proof.
  induction gs as [|[e rs] gs IH]; intros r pre post l rr E P Hg.
  - exists l, rr, []. split; [reflexivity|]. cbn [suml]. split; [intros; lra|]. split; [intros; lra|]. intros z y _ _. exists y. split; [reflexivity|]. split; [intros ? ? ? []|reflexivity].
  - destruct (Hg e rs (or_introl eq_refl)) as [He [Ke [Nr Hr]]]. cbn [one_of OneChunks]. cbn [map snd concat] in E.
    assert (one_rows bs (r, length rs) = rs) as Ers0 by (apply (one_rows_at bs r (length rs) pre rs (concat (map snd gs) ++ post)); [rewrite E, <- app_assoc; reflexivity|exact P|reflexivity]).
    rewrite Ers0. destruct rs as [|row0 rs0] eqn:Ers; [contradiction|]. rewrite <- Ers in *.
    destruct (Hr row0 ltac:(rewrite Ers; left; reflexivity)) as [[c0 [cs0 [Ec0 [Ei0 _]]]] _]. rewrite Ec0, Ei0.
    edestruct (one_sums e rs He Ke Hr) as [s [Es [A1 [A2 [A3 [A4 A5]]]]]]. rewrite Es. cbn [e_t_e e_t_f e_t_b f_t_b one_lhs] in A1, A2, A3, A4, A5.
    edestruct (IH (r + length rs)%nat (pre ++ rs) post) as [l' [r' [invs [Ei [B1 [B2 B3]]]]]].
    { rewrite E, !app_assoc. reflexivity. }
    { rewrite app_length, P. reflexivity. }
    { intros e' rs' I. apply Hg. right. exact I. }
    rewrite Ei. exists l', r'. eexists. split; [reflexivity|].
    assert (forall a a', (a < k_e)%nat -> (a' < k_e)%nat -> inverse k_e (e_t_e s) a a' = one_inv e rs a a') as Iv by (intros a a' Ha Ha'; apply Ext; [|exact Ha|exact Ha']; intros; apply A1).
    split; [|split].
    + intros i j. rewrite B1. cbn [suml fst snd]. unfold mtm, mm. rewrite (sumn_ext k_e (fun k => e_t_f s k i * sumn k_e (fun k0 => inverse k_e (e_t_e s) k k0 * e_t_f s k0 j))
         (fun a => sumn k_e (fun a' => NN bs values rs nelim i e a * one_inv e rs a a' * NN bs values rs e a' nelim j))).
      * rewrite A5. lra.
      * intros a Ha. rewrite <- sumn_scal. apply sumn_ext. intros a' Ha'. rewrite Iv, !A2, (NN_sym bs values rs e a) by assumption. ring.
    + intros i. rewrite B2. cbn [suml fst snd]. unfold mtv, mv. rewrite (sumn_ext k_e (fun k => e_t_f s k i * sumn k_e (fun k0 => inverse k_e (e_t_e s) k k0 * e_t_b s k0))
         (fun a => sumn k_e (fun a' => NN bs values rs nelim i e a * one_inv e rs a a' * GG bs values b rs e a'))).
      * rewrite A4. lra.
      * intros a Ha. rewrite <- sumn_scal. apply sumn_ext. intros a' Ha'. rewrite Iv, A2, A3, (NN_sym bs values rs e a) by assumption. ring.
    + intros z y Dj ND. cbn [OneBackSubstitute]. rewrite Ers0. rewrite Ers. rewrite <- Ers. rewrite Ec0, Ei0.
      destruct (one_back_rows z e rs He Ke Hr (fun _ => 0)) as [tmp [Et At]]. rewrite Et. cbn [map fst] in ND. apply NoDup_cons_iff in ND. destruct ND as [Ne ND].
      edestruct (B3 z (fun i => if (position (col bs e) <=? i) && (i <? position (col bs e) + k_e) then mv k_e (inverse k_e (e_t_e s)) tmp (i - position (col bs e))%nat else y i)) as [y' [Ey [C1 C2]]].
      { intros. eapply (Dj e0 rs1 e' rs' i); [right|right| |]; eassumption. }
      { exact ND. }
      exists y'. split; [exact Ey|]. split.
      * intros e' rs' i [Q|I] Hi.
        -- injection Q as <- <-. rewrite C2.
           ++ destruct (Nat.leb_spec (position (col bs e)) (position (col bs e) + i)); [|lia]. destruct (Nat.ltb_spec (position (col bs e) + i) (position (col bs e) + k_e)); [|lia]. cbn [andb].
              replace (position (col bs e) + i - position (col bs e))%nat with i by lia. unfold mv. apply sumn_ext. intros a Ha. rewrite Iv, At by assumption. ring.
           ++ intros e2 rs2 I2 Q. apply Ne. assert (e = e2) as ->; [|apply (in_map fst) in I2; exact I2]. eapply (Dj e rs e2 rs2 _ (or_introl eq_refl) (or_intror I2)); [|exact Q]. unfold in_block. lia.
        -- apply (C1 e' rs' i I Hi).
      * intros p Hp. rewrite C2; [|intros e' rs' I; apply (Hp e' rs'); right; exact I]. specialize (Hp e rs (or_introl eq_refl)). unfold in_block in Hp. rewrite Ke in Hp.
        destruct (Nat.leb_spec (position (col bs e)) p); [|reflexivity]. destruct (Nat.ltb_spec p (position (col bs e) + k_e)); [lia|reflexivity].
Qed.
End One.
