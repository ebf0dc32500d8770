From Coq Require Import Reals List Arith Lia Lra Psatz Bool Sorting.Sorted Sorting.Permutation.
From Verif Require Import SchurModel SchurSpec SchurProofs SchurProofs2 SchurProofs3 SchurProofs4 SchurProofs5 SchurProofs6.
Import ListNotations.
Open Scope R_scope.

Lemma take_spec nelim e rs : forall rest, (forall row, In row rs -> e_row nelim e row) -> starts_not e rest ->
  exists fs, take_chunk e nelim (rs ++ rest) = Some (fs, rest) /\ forall f, In f fs <-> exists id, ids_of rs id /\ f = (id - nelim)%nat.
Proof.
  induction rs as [|row rs IH]; intros rest Hr St.
  - exists []. split.
    + cbn [app]. destruct rest as [|r rest]; cbn [take_chunk]; [reflexivity|]. cbn in St. destruct (cells r) as [|c cs]; [contradiction|]. destruct (Nat.eqb_spec (block_id c) e); [contradiction|reflexivity].
    + intro f. split; [intros []|]. intros [id [[row [[] _]] _]].
  - destruct (Hr row (or_introl eq_refl)) as [c [cs [Ec [Ei _]]]]. destruct (IH rest (fun r H => Hr r (or_intror H)) St) as [fs [E K]].
    cbn [app take_chunk]. rewrite Ec. destruct (Nat.eqb_spec (block_id c) e); [|contradiction]. rewrite E. eexists. split; [reflexivity|]. intro f. rewrite in_app_iff, K, in_map_iff. split.
    + intros [[x [Q Hx]]|[id [[r [Ir Hx]] Q]]].
      * exists (block_id x). split; [|congruence]. exists row. split; [left; reflexivity|]. exists x. rewrite Ec. split; [exact Hx|reflexivity].
      * exists id. split; [|exact Q]. exists r. split; [right; exact Ir|exact Hx].
    + intros [id [[r [[<-|Ir] [x [Hx Qx]]]] Q]].
      * left. exists x. rewrite Ec in Hx. split; [congruence|exact Hx].
      * right. exists id. split; [|exact Q]. exists r. split; [exact Ir|]. exists x. split; assumption.
Qed.
Lemma chunk_pairs_spec fs i j : In (i, j) (chunk_pairs fs) <-> In i fs /\ In j fs /\ (i < j)%nat.
Proof.
  unfold chunk_pairs. rewrite in_flat_map. split.
  - intros [a [Ha H]]. apply in_flat_map in H. destruct H as [c [Hc H]]. destruct (Nat.ltb_spec a c); [|contradiction]. destruct H as [Q|[]]. injection Q as <- <-. tauto.
  - intros [Hi [Hj L]]. exists i. split; [exact Hi|]. apply in_flat_map. exists j. split; [exact Hj|]. destruct (Nat.ltb_spec i j); [left; reflexivity|lia].
Qed.
Lemma row_pairs_spec nelim row i j : In (i, j) (row_pairs nelim row) <-> exists x y, In x (cells row) /\ In y (cells row) /\ i = (block_id x - nelim)%nat /\ j = (block_id y - nelim)%nat /\ (i <= j)%nat.
Proof.
  unfold row_pairs. rewrite in_flat_map. split.
  - intros [a [Ha H]]. apply in_flat_map in H. destruct H as [c [Hc H]]. cbv zeta in H. destruct (Nat.leb_spec (block_id a - nelim) (block_id c - nelim)); [|contradiction]. destruct H as [Q|[]]. injection Q as <- <-. exists a, c. tauto.
  - intros [x [y [Hx [Hy [-> [-> L]]]]]]. exists x. split; [exact Hx|]. apply in_flat_map. exists y. split; [exact Hy|]. cbv zeta. destruct (Nat.leb_spec (block_id x - nelim) (block_id y - nelim)); [left; reflexivity|lia].
Qed.
Lemma rest_spec nelim tail : (forall row, In row tail -> cells row <> [] /\ forall c, In c (cells row) -> (nelim <= block_id c)%nat) ->
  exists ps, rest_pairs nelim tail = Some ps /\ forall p, In p ps <-> exists row, In row tail /\ In p (row_pairs nelim row).
Proof.
  induction tail as [|row tail IH]; intro Ht.
  - exists []. split; [reflexivity|]. intro p. split; [intros []|]. intros [r [[] _]].
  - destruct (Ht row (or_introl eq_refl)) as [Nc Hc]. destruct (IH (fun r H => Ht r (or_intror H))) as [ps [E K]]. cbn [rest_pairs]. destruct (cells row) as [|c cs] eqn:Ec; [contradiction|].
    destruct (Nat.ltb_spec (block_id c) nelim) as [L|L]; [specialize (Hc c (or_introl eq_refl)); lia|]. rewrite E. eexists. split; [reflexivity|]. intro p. rewrite in_app_iff, K. split.
    + intros [H|[r [Ir H]]]; [exists row; split; [left; reflexivity|exact H]|exists r; split; [right; exact Ir|exact H]].
    + intros [r [[<-|Ir] H]]; [left; exact H|right; exists r; split; assumption].
Qed.
Lemma all_pairs_spec nelim tail gs : forall fuel, (forall row, In row tail -> cells row <> [] /\ forall c, In c (cells row) -> (nelim <= block_id c)%nat) ->
  (forall e rs, In (e, rs) gs -> (e < nelim)%nat /\ rs <> [] /\ forall row, In row rs -> e_row nelim e row) -> NoDup (map fst gs) -> (length gs < fuel)%nat ->
  exists ps, all_pairs fuel nelim (concat (map snd gs) ++ tail) = Some ps /\
    forall i j, In (i, j) ps <-> (exists e rs id id', In (e, rs) gs /\ ids_of rs id /\ ids_of rs id' /\ i = (id - nelim)%nat /\ j = (id' - nelim)%nat /\ (i < j)%nat) \/
      (exists row, In row tail /\ In (i, j) (row_pairs nelim row)).
Proof.
  induction gs as [|[e rs] gs IH]; intros fuel Ht Hg ND F.
  - cbn [map concat app]. destruct (rest_spec nelim tail Ht) as [ps [E K]]. exists ps. split.
    + destruct fuel as [|fuel]; [cbn in F; lia|]. destruct tail as [|row tail]; cbn [all_pairs]; [cbn in E; congruence|]. destruct (Ht row (or_introl eq_refl)) as [Nc Hc]. destruct (cells row) as [|c cs]; [contradiction|].
      destruct (Nat.leb_spec nelim (block_id c)) as [L|L]; [exact E|]. specialize (Hc c (or_introl eq_refl)). lia.
    + intros i j. rewrite K. split; [tauto|]. intros [[e [rs [id [id' [[] _]]]]]|H]. exact H.
  - destruct fuel as [|fuel]; [cbn in F; lia|]. cbn [map fst] in ND. apply NoDup_cons_iff in ND. destruct ND as [Ne ND].
    destruct (Hg e rs (or_introl eq_refl)) as [He [Nr Hr]].
    destruct (IH fuel Ht (fun e' rs' I => Hg e' rs' (or_intror I)) ND ltac:(cbn in F; lia)) as [ps [E K]].
    cbn [map snd concat]. rewrite <- app_assoc. set (rest := concat (map snd gs) ++ tail) in *.
    destruct (take_spec nelim e rs rest Hr) as [fs [Et Kt]].
    { unfold rest, starts_not. destruct gs as [|[e' rs'] gs'].
      - cbn. destruct tail as [|row tail']; [exact Logic.I|]. destruct (Ht row (or_introl eq_refl)) as [Nc Hc]. destruct (cells row) as [|c cs]; [contradiction|]. specialize (Hc c (or_introl eq_refl)). lia.
      - destruct (Hg e' rs' (or_intror (or_introl eq_refl))) as [_ [Nr' Hr']]. cbn. destruct rs' as [|row rs'']; [contradiction|]. cbn. destruct (Hr' row (or_introl eq_refl)) as [c [cs [Ec [Ei _]]]]. rewrite Ec. intro Q. apply Ne. left. cbn. congruence. }
    destruct rs as [|row rs0] eqn:Ers; [contradiction|]. rewrite <- Ers in *. assert (rs ++ rest = row :: (rs0 ++ rest)) as Es by (rewrite Ers; reflexivity). rewrite Es. cbn [all_pairs]. rewrite <- Es.
    destruct (Hr row ltac:(rewrite Ers; left; reflexivity)) as [c [cs [Ec [Ei _]]]]. rewrite Ec, Ei. destruct (Nat.leb_spec nelim e) as [Lq|_]; [lia|]. rewrite Et, E. eexists. split; [reflexivity|].
    intros i j. rewrite in_app_iff, chunk_pairs_spec, K, !Kt. split.
    + intros [[[id [H1 E1]] [[id' [H2 E2]] L]]|[[e' [rs' [id [id' [I' H']]]]]|H]].
      * left. exists e, rs, id, id'. split; [left; reflexivity|]. tauto.
      * left. exists e', rs', id, id'. split; [right; exact I'|exact H'].
      * right. exact H.
    + intros [[e' [rs' [id [id' [[Q|I'] H']]]]]|H].
      * injection Q as <- <-. left. destruct H' as [A1 [A2 [A3 [A4 A5]]]]. split; [exists id; tauto|]. split; [exists id'; tauto|exact A5].
      * right. left. exists e', rs', id, id'. split; [exact I'|exact H'].
      * right. right. exact H.
Qed.

Lemma sparse_covers nelim bs : well_formed nelim bs ->
  exists ps, block_pairs nelim bs = Some ps /\
    (forall i j, In (i, j) ps -> (i <= j)%nat /\ (nelim + j < num_cols bs)%nat) /\
    forall invert full values D b1 b2, (b1 <= b2)%nat -> (nelim + b2 < num_cols bs)%nat -> sparse_stored ps b1 b2 = false ->
      forall i j, schur invert full nelim bs values D (nelim + b1) i (nelim + b2) j = 0.
Proof.
  intro W. pose proof W as W0. destruct W0 as [Wn Wc Wr Ws [gs [tail [Er [ND [Ne [Hg Ht]]]]]]].
  destruct (all_pairs_spec nelim tail gs (S (length (rows bs))) Ht) as [ps [E K]].
  { intros e rs I. destruct (Hg e rs I) as [A [B C]]. split; [exact A|]. split; [exact B|]. intros row Hr. exact (C row Hr). }
  { exact ND. }
  { rewrite Er, app_length. assert (length gs <= length (concat (map snd gs)))%nat; [|lia]. clear -Hg. induction gs as [|[e rs] gs IH]; [cbn; lia|]. cbn [map snd concat length]. rewrite app_length.
    destruct (Hg e rs (or_introl eq_refl)) as [_ [N _]]. destruct rs; [contradiction|]. cbn [length]. specialize (IH (fun e' rs' I => Hg e' rs' (or_intror I))). lia. }
  rewrite <- Er in E. unfold block_pairs. rewrite E. eexists. split; [reflexivity|].
  assert (forall e rs id, In (e, rs) gs -> ids_of rs id -> (nelim <= id < num_cols bs)%nat) as Rid.
  { intros e rs id I [row [Ir [x [Hx Qx]]]]. destruct (Hg e rs I) as [_ [_ H]]. destruct (H row Ir) as [c [cs [Ec [_ Eg]]]]. rewrite Ec in Hx. cbn in Hx. split; [subst id; apply Eg; exact Hx|].
    subst id. apply (Ws row); [|rewrite Ec; right; exact Hx]. rewrite Er. apply in_or_app. left. apply in_concat. exists rs. split; [|exact Ir]. apply (in_map snd) in I. exact I. }
  split.
  - intros i j H. apply in_app_or in H. destruct H as [H|H].
    + apply in_map_iff in H. destruct H as [k [Q H]]. injection Q as <- <-. apply in_seq in H. unfold num_cols. lia.
    + apply K in H. destruct H as [[e [rs [id [id' [I [H1 [H2 [-> [-> L]]]]]]]]]|[row [Ir H]]].
      * pose proof (Rid e rs id' I H2). lia.
      * apply row_pairs_spec in H. destruct H as [x [y [Hx [Hy [-> [-> L]]]]]]. split; [exact L|]. destruct (Ht row Ir) as [_ Hn]. specialize (Hn y Hy). assert (block_id y < num_cols bs)%nat; [|lia]. apply (Ws row); [|exact Hy]. rewrite Er. apply in_or_app. right. exact Ir.
  - intros invert full values D b1 b2 Hb H2 Sf i j.
    assert (forall p, In p (map (fun i => (i, i)) (seq 0 (length (cols bs) - nelim)) ++ ps) -> p <> (b1, b2)) as Nin.
    { intros p Hp Q. subst p. unfold sparse_stored in Sf. assert (existsb (fun p => (fst p =? b1) && (snd p =? b2)) (map (fun i => (i, i)) (seq 0 (length (cols bs) - nelim)) ++ ps) = true) as T; [|congruence].
      apply existsb_exists. exists (b1, b2). split; [exact Hp|]. cbn. rewrite !Nat.eqb_refl. reflexivity. }
    assert (b1 < b2)%nat as Lt.
    { destruct (Nat.eq_dec b1 b2) as [<-|]; [|lia]. exfalso. apply (Nin (b1, b1)); [|reflexivity]. apply in_or_app. left. apply in_map_iff. exists b1. split; [reflexivity|]. apply in_seq. unfold num_cols in H2. lia. }
    assert (forall e rs, In (e, rs) gs -> ~ (ids_of rs (nelim + b1) /\ ids_of rs (nelim + b2))) as Ng.
    { intros e rs I [A B]. apply (Nin (b1, b2)); [|reflexivity]. apply in_or_app. right. apply K. left. exists e, rs, (nelim + b1)%nat, (nelim + b2)%nat. split; [exact I|]. split; [exact A|]. split; [exact B|]. lia. }
    assert (forall row x y, In row tail -> In x (cells row) -> In y (cells row) -> block_id x = (nelim + b1)%nat -> block_id y = (nelim + b2)%nat -> False) as Nt.
    { intros row x y Ir Hx Hy Qx Qy. apply (Nin (b1, b2)); [|reflexivity]. apply in_or_app. right. apply K. right. exists row. split; [exact Ir|]. apply row_pairs_spec. exists x, y. rewrite Qx, Qy. repeat split; try assumption; lia. }
    assert (forall e rs row x f, In (e, rs) gs -> In row rs -> In x (cells row) -> block_id x = (nelim + f)%nat -> ids_of rs (nelim + f)) as Gid.
    { intros e rs row x f I Ir Hx Q. destruct (Hg e rs I) as [He [_ H]]. destruct (H row Ir) as [c [cs [Ec [Ei _]]]]. exists row. split; [exact Ir|]. exists x. split; [|exact Q]. rewrite Ec in Hx |- *. cbn. destruct Hx as [<-|Hx]; [lia|exact Hx]. }
    assert (forall e rs, In (e, rs) gs -> (e < nelim)%nat /\ forall row, In row rs -> e_row nelim e row) as Hg' by (intros e rs I; destruct (Hg e rs I) as [A [_ C]]; split; [exact A|intros row Hr; exact (C row Hr)]).
    assert (forall row, In row tail -> forall c, In c (cells row) -> (nelim <= block_id c)%nat) as Ht' by (intros row Hr; apply Ht; exact Hr).
    assert (forall rs, ~ (ids_of rs (nelim + b1) /\ ids_of rs (nelim + b2)) -> forall e, In (e, rs) gs -> (forall row x, In row rs -> In x (cells row) -> block_id x <> (nelim + b1)%nat) \/ (forall row x, In row rs -> In x (cells row) -> block_id x <> (nelim + b2)%nat)) as Cs.
    { intros rs N e I.
      assert (forall f, ids_of rs (nelim + f) \/ forall row x, In row rs -> In x (cells row) -> block_id x <> (nelim + f)%nat) as Dec.
      { intro f. destruct (existsb (fun row => existsb (fun x => block_id x =? nelim + f) (cells row)) rs) eqn:Q.
        - left. apply existsb_exists in Q. destruct Q as [row [Ir Q]]. apply existsb_exists in Q. destruct Q as [x [Hx Q]]. apply Nat.eqb_eq in Q. apply (Gid e rs row x f I Ir Hx Q).
        - right. intros row x Ir Hx Qx. assert (existsb (fun row => existsb (fun x => block_id x =? nelim + f) (cells row)) rs = true); [|congruence]. apply existsb_exists. exists row. split; [exact Ir|]. apply existsb_exists. exists x. split; [exact Hx|]. apply Nat.eqb_eq. exact Qx. }
      destruct (Dec b1) as [A|A]; [|left; exact A]. destruct (Dec b2) as [B|B]; [|right; exact B]. exfalso. apply N. split; assumption. }
    unfold schur. rewrite normal_NN, eqb_shift. destruct (Nat.eqb_spec b1 b2); [lia|]. cbn [andb].
    rewrite (NN_rows bs values gs tail Er).
    rewrite suml_zero.
    2:{ intros [e rs] I. cbn [snd]. destruct (Cs rs (Ng e rs I) e I) as [A|A]; [apply NN_zero_l; exact A|rewrite NN_sym; apply NN_zero_l; exact A]. }
    assert (NN bs values tail (nelim + b1) i (nelim + b2) j = 0) as ->.
    { apply suml_zero. intros row Ir. apply sumn_zero. intros k _. destruct (existsb (fun x => block_id x =? nelim + b1) (cells row)) eqn:Q.
      - rewrite (entry_absent bs values row (nelim + b2)); [ring|]. intros y Hy Qy. apply existsb_exists in Q. destruct Q as [x [Hx Q]]. apply Nat.eqb_eq in Q. exact (Nt row x y Ir Hx Hy Q Qy).
      - rewrite (entry_absent bs values row (nelim + b1)); [ring|]. intros x Hx Qx. assert (existsb (fun x => block_id x =? nelim + b1) (cells row) = true); [|congruence]. apply existsb_exists. exists x. split; [exact Hx|]. apply Nat.eqb_eq. exact Qx. }
    rewrite sumn_zero; [ring|]. intros e He. apply sumn_zero. intros a _. apply sumn_zero. intros a' _.
    rewrite (normal_sym bs values D (nelim + b1) i e a), !(normal_ef bs values D nelim) by lia.
    destruct (in_dec Nat.eq_dec e (map fst gs)) as [I|N].
    + apply in_map_iff in I. destruct I as [[e' rs] [Q I]]. cbn in Q. subst e'. rewrite !(NN_group bs values nelim gs tail Er ND Hg' Ht' e rs _ _ _ I).
      destruct (Cs rs (Ng e rs I) e I) as [A|A]; [rewrite (NN_sym bs values rs e a), NN_zero_l by exact A|rewrite (NN_sym bs values rs e a' (nelim + b2)), (NN_zero_l bs values rs (nelim + b2)) by exact A]; ring.
    + rewrite (NN_zero_l bs values (rows bs) e a) by (intros row x; apply (no_group bs nelim gs tail Er Hg' Ht' e row x He N)). ring.
Qed.
