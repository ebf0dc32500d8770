(* Proofs for C72: the cells of the preconditioner. *)
From Coq Require Import Reals List Arith Bool Lia Lra Permutation ZArith.
From Verif Require Import GraphModel GraphSpec GraphProofs ForestModel ForestSpec ForestProofs ForestProps VisModel VisSpec VisProofs VbpModel VbpSpec.
Import ListNotations.
Open Scope nat_scope.

Lemma has_pair_in l a b : has_pair l a b = true <-> In (a, b) l.
Proof. unfold has_pair. rewrite existsb_exists. split; [intros [[x y] [H E]]; cbn [fst snd] in E; apply andb_true_iff in E; rewrite !Nat.eqb_eq in E; destruct E as [-> ->]; exact H|intro H; exists (a, b); cbn [fst snd]; rewrite !Nat.eqb_refl; auto]. Qed.
Lemma in_preconditioner m cp i j : IsBlockPairInPreconditioner m cp i j = true <-> pair_in cp (cluster_of m i) (cluster_of m j).
Proof. unfold IsBlockPairInPreconditioner, pair_in. destruct (Nat.ltb_spec (cluster_of m j) (cluster_of m i)); rewrite has_pair_in; [rewrite Nat.min_r, Nat.max_l by lia; tauto|rewrite Nat.min_l, Nat.max_r by lia; tauto]. Qed.
Lemma pairs_in : forall s a b, increasing s -> (In (a, b) (pairs s) <-> a < b /\ In a s /\ In b s).
Proof.
  induction s as [|x s IH]; intros a b H; cbn [pairs In increasing] in *; [tauto|]. destruct H as [H1 H2]. rewrite in_app_iff, in_map_iff, (IH a b H2). split.
  - intros [[y [E Hy]]|[L [A B]]]; [injection E as <- <-; auto|auto].
  - intros [L [[<-|A] [<-|B]]]; [lia|left; exists b; auto|pose proof (H1 a A); lia|right; auto].
Qed.
Lemma insert_cells_spec E : forall cells fs, (forall c, In c cells -> E <= c) -> increasing fs -> exists fs', insert_cells E cells fs = Some fs' /\ increasing fs' /\ forall x, In x fs' <-> In x fs \/ In (E + x) cells.
Proof.
  induction cells as [|c cells IH]; intros fs H I; cbn [insert_cells]; [exists fs; split; [reflexivity|]; split; [exact I|]; intro x; cbn [In]; tauto|].
  pose proof (H c (or_introl eq_refl)) as L. destruct (Nat.ltb_spec c E); [lia|]. destruct (IH (sinsert (c - E) fs)) as [fs' [E1 [E2 E3]]]; [intros d Hd; apply H; right; exact Hd|apply sinsert_inc; exact I|]. exists fs'. split; [exact E1|]. split; [exact E2|]. intro x. rewrite E3, sinsert_in. cbn [In]. split; [intros [[->|A]|A]; [right; left; lia|auto|auto]|]. intros [A|[A|A]]; [auto|left; left; lia|auto].
Qed.
Definition tails_ok (E : nat) (rows : list (list nat)) : Prop := forall row, In row rows -> row <> [] /\ forall c, In c (tl row) -> E <= c.
Lemma take_run_spec E e : forall rows fs, tails_ok E rows -> increasing fs -> exists run rest fs', take_run E e rows fs = Some (fs', rest) /\ rows = run ++ rest /\ increasing fs' /\
  (forall row, In row run -> head row = e) /\ (rest = [] \/ head (nth 0 rest []) <> e) /\ forall x, In x fs' <-> In x fs \/ exists row, In row run /\ In (E + x) (tl row).
Proof.
  induction rows as [|row rows IH]; intros fs T I; cbn [take_run].
  - exists [], [], fs. split; [reflexivity|]. split; [reflexivity|]. split; [exact I|]. split; [intros r []|]. split; [auto|]. intro x. split; [auto|intros [A|[r [[] _]]]; exact A].
  - destruct (T row (or_introl eq_refl)) as [NE TL]. destruct row as [|b cells]; [congruence|]. cbn [tl] in TL. destruct (Nat.eqb_spec b e) as [->|N]; cbn [negb].
    + destruct (insert_cells_spec E cells fs TL I) as [f1 [E1 [I1 X1]]]. rewrite E1. destruct (IH f1) as [run [rest [fs' [E2 [EQ [I2 [HR [HN X2]]]]]]]]; [intros r Hr; apply T; right; exact Hr|exact I1|].
      exists ((e :: cells) :: run), rest, fs'. split; [exact E2|]. split; [rewrite EQ; reflexivity|]. split; [exact I2|]. split; [intros r [<-|Hr]; [reflexivity|apply HR; exact Hr]|]. split; [exact HN|]. intro x. rewrite X2, X1. split.
      * intros [[A|A]|[r [A B]]]; [auto|right; exists (e :: cells); split; [left; reflexivity|exact A]|right; exists r; split; [right; exact A|exact B]].
      * intros [A|[r [[<-|A] B]]]; [auto|left; right; exact B|right; exists r; auto].
    + exists [], ((b :: cells) :: rows), fs. split; [reflexivity|]. split; [reflexivity|]. split; [exact I|]. split; [intros r []|]. split; [right; exact N|]. intro x. split; [auto|intros [A|[r [[] _]]]; exact A].
Qed.
Lemma fine_tails n E rows : rows_fine n E rows -> tails_ok E rows.
Proof. intros F row Hr. destruct (fine_cells _ _ _ F row Hr) as [A [_ B]]. auto. Qed.
Lemma fine_rest n E a rows : rows_fine n E (a ++ rows) -> rows_fine n E rows.
Proof.
  intro F. assert (forall i, nth i rows [] = nth (length a + i) (a ++ rows) []) as N by (intro i; rewrite app_nth2, Nat.add_comm, Nat.add_sub by lia; reflexivity). constructor.
  - intros row Hr. apply (fine_cells _ _ _ F). apply in_or_app. auto.
  - intros i j k Hi Hj Hk. rewrite !N. apply (fine_order _ _ _ F); rewrite ?app_length; lia.
  - intros i k Hi Hk. rewrite !N. apply (fine_tail _ _ _ F); rewrite ?app_length; lia.
Qed.
Lemma sees_app E a b c p : sees E (a ++ b) c p <-> sees E a c p \/ sees E b c p.
Proof. unfold sees. split; [intros [cs [H R]]; apply in_app_or in H; destruct H; [left|right]; exists cs; auto|intros [[cs [H R]]|[cs [H R]]]; exists cs; split; [apply in_or_app; auto|exact R|apply in_or_app; auto|exact R]]. Qed.
Lemma sees_head E rows c p : sees E rows c p <-> p < E /\ exists row, In row rows /\ row <> [] /\ head row = p /\ In (E + c) (tl row).
Proof.
  unfold sees. split; [intros [cs [H [L I]]]; split; [exact L|]; exists (p :: cs); split; [exact H|split; [discriminate|split; [reflexivity|exact I]]]|].
  intros [L [[|b cs] [H [NE [HE I]]]]]; [congruence|]. cbn in HE, I. subst b. exists cs. auto.
Qed.
Lemma point_pairs_spec n E keep : forall fuel rows bp, length rows <= fuel -> rows_fine n E rows -> exists bp' front rest, point_pairs fuel E keep rows bp = Some (bp', rest) /\ rows = front ++ rest /\
  (forall row, In row front -> head row < E) /\ (forall row, In row rest -> E <= head row) /\
  forall i j, In (i, j) bp' <-> In (i, j) bp \/ (i < j /\ keep i j = true /\ exists p, sees E rows i p /\ sees E rows j p).
Proof.
  induction fuel as [|fuel IH]; intros rows bp L F; cbn [point_pairs].
  - destruct rows; [|cbn in L; lia]. exists bp, [], []. split; [reflexivity|]. split; [reflexivity|]. split; [intros r []|]. split; [intros r []|]. intros i j. split; [auto|]. intros [A|[_ [_ [p [[cs [[] _]] _]]]]]. exact A.
  - destruct rows as [|row rows].
    { exists bp, [], []. split; [reflexivity|]. split; [reflexivity|]. split; [intros r []|]. split; [intros r []|]. intros i j. split; [auto|]. intros [A|[_ [_ [p [[cs [[] _]] _]]]]]. exact A. }
    destruct (fine_cells _ _ _ F row (or_introl eq_refl)) as [NE _]. destruct row as [|e cells]; [congruence|]. set (all := (e :: cells) :: rows) in *.
    destruct (Nat.leb_spec E e) as [GE|LT].
    + assert (forall row, In row all -> E <= head row) as HG.
      { intros row Hr. destruct (In_nth _ _ [] Hr) as [k [Lk <-]]. destruct k as [|k]; [exact GE|]. destruct (Nat.lt_ge_cases (head (nth (S k) all [])) E) as [C|C]; [|exact C]. pose proof (fine_tail _ _ _ F 0 (S k) ltac:(lia) Lk C) as X. cbn [head nth all] in X. lia. }
      exists bp, [], all. split; [reflexivity|]. split; [reflexivity|]. split; [intros r []|]. split; [exact HG|]. intros i j. split; [auto|]. intros [A|[_ [_ [p [S1 _]]]]]; [exact A|]. apply sees_head in S1. destruct S1 as [Lp [r [Hr [_ [Hh _]]]]]. pose proof (HG r Hr). lia.
    + destruct (take_run_spec E e all [] (fine_tails _ _ _ F) I) as [run [rest [fs [E1 [EQ [IN [HR [HN X]]]]]]]]. rewrite E1.
      assert (run <> []) as RN. { intros ->. destruct HN as [HN|HN]; [rewrite HN in EQ; discriminate EQ|]. apply HN. cbn [app] in EQ. rewrite <- EQ. reflexivity. }
      assert (head (nth 0 all []) = e) as H0 by reflexivity.
      assert (forall row, In row rest -> head row <> e) as RE.
      { intros row Hr HE. destruct (In_nth _ _ [] Hr) as [k [Lk EK]]. destruct HN as [->|HN]; [destruct Hr|]. destruct k as [|k]; [apply HN; rewrite EK; exact HE|].
        assert (forall i, nth i rest [] = nth (length run + i) all []) as N by (intro i; rewrite EQ, app_nth2, Nat.add_comm, Nat.add_sub by lia; reflexivity).
        apply HN. rewrite N, Nat.add_0_r. rewrite (fine_order _ _ _ F 0 (length run) (length run + S k)); [rewrite <- N, EK; exact HE|destruct run; [congruence|cbn; lia]|lia|rewrite EQ, app_length; lia|rewrite <- N, EK, HE; exact LT|rewrite <- N, EK, HE; exact H0]. }
      destruct (IH rest (bp ++ filter (fun p => keep (fst p) (snd p)) (pairs fs))) as [bp' [front [rest' [E2 [EQ2 [HF [HB P]]]]]]].
      { assert (length all = length run + length rest) as LL by (rewrite EQ; apply app_length). cbn [length all] in L. change (length all) with (S (length rows)) in LL. destruct run; [congruence|cbn [length] in LL]. lia. }
      { apply (fine_rest n E run). rewrite <- EQ. exact F. }
      exists bp', (run ++ front), rest'. split; [exact E2|]. split; [rewrite EQ, EQ2, app_assoc; reflexivity|]. split; [intros r Hr; apply in_app_or in Hr; destruct Hr as [Hr|Hr]; [rewrite (HR r Hr); exact LT|apply HF; exact Hr]|]. split; [exact HB|].
      assert (forall r, In r all -> r <> []) as RNE by (intros r Hr; apply (fine_cells _ _ _ F); exact Hr).
      assert (forall x, In x fs <-> sees E run x e) as XS.
      { intro x. rewrite X, sees_head. cbn [In]. split.
        - intros [[]|[r [A B]]]. split; [exact LT|]. exists r. split; [exact A|]. split; [apply RNE; rewrite EQ; apply in_or_app; auto|]. split; [apply HR; exact A|exact B].
        - intros [_ [r [A [_ [_ B]]]]]. right. exists r. auto. }
      intros i j. rewrite P, in_app_iff, filter_In, (pairs_in fs i j IN), !XS. cbn [fst snd]. rewrite EQ. split.
      * intros [[A|[[A [B C]] D]]|[A [B [p [C D]]]]]; [auto|right; split; [exact A|]; split; [exact D|]; exists e; rewrite !sees_app; auto|right; split; [exact A|]; split; [exact B|]; exists p; rewrite !sees_app; auto].
      * intros [A|[A [B [p [C D]]]]]; [auto|]. rewrite sees_app in C, D.
        assert (forall x q, sees E run x q -> q = e) as QR by (intros x q Sq; apply sees_head in Sq; destruct Sq as [_ [r [Hr [_ [Hq _]]]]]; rewrite <- Hq; apply HR; exact Hr).
        assert (forall x, ~ sees E rest x e) as QS by (intros x Sq; apply sees_head in Sq; destruct Sq as [_ [r [Hr [_ [Hq _]]]]]; exact (RE r Hr Hq)).
        destruct C as [C|C]; destruct D as [D|D].
        -- pose proof (QR _ _ C). subst p. left. right. auto.
        -- pose proof (QR _ _ C). subst p. exfalso. exact (QS _ D).
        -- pose proof (QR _ _ D). subst p. exfalso. exact (QS _ C).
        -- right. split; [exact A|]. split; [exact B|]. exists p. auto.
Qed.
Lemma camera_pairs_spec E keep : forall rows bp, tails_ok E rows -> (forall row, In row rows -> E <= head row) -> exists bp', camera_pairs E keep rows bp = Some bp' /\
  forall i j, In (i, j) bp' <-> In (i, j) bp \/ (i <= j /\ keep i j = true /\ exists row, In row rows /\ In (E + i) row /\ In (E + j) row).
Proof.
  induction rows as [|row rows IH]; intros bp T H; cbn [camera_pairs].
  - exists bp. split; [reflexivity|]. intros i j. split; [auto|]. intros [A|[_ [_ [r [[] _]]]]]. exact A.
  - destruct (T row (or_introl eq_refl)) as [NE TL]. pose proof (H row (or_introl eq_refl)) as HH. destruct row as [|b cells]; [congruence|]. cbn [head nth tl] in HH, TL. destruct (Nat.ltb_spec b E); [lia|].
    set (all := b :: cells). assert (forall c, In c all -> E <= c) as GE by (intros c [<-|Hc]; [exact HH|apply TL; exact Hc]).
    destruct (IH (bp ++ flat_map (fun c1 => flat_map (fun c2 => if ((c1 - E) <=? (c2 - E)) && keep (c1 - E) (c2 - E) then [(c1 - E, c2 - E)] else []) all) all)) as [bp' [E1 P]]; [intros r Hr; apply T; right; exact Hr|intros r Hr; apply H; right; exact Hr|].
    exists bp'. split; [exact E1|]. intros i j. rewrite P, in_app_iff.
    assert (In (i, j) (flat_map (fun c1 => flat_map (fun c2 => if ((c1 - E) <=? (c2 - E)) && keep (c1 - E) (c2 - E) then [(c1 - E, c2 - E)] else []) all) all) <-> i <= j /\ keep i j = true /\ In (E + i) all /\ In (E + j) all) as Q.
    { rewrite in_flat_map. split.
      - intros [c1 [H1 Hx]]. apply in_flat_map in Hx. destruct Hx as [c2 [H2 Hx]]. destruct (((c1 - E) <=? (c2 - E)) && keep (c1 - E) (c2 - E)) eqn:K; [|destruct Hx]. destruct Hx as [Hx|[]]. injection Hx as <- <-. apply andb_true_iff in K. destruct K as [K1 K2]. apply Nat.leb_le in K1. pose proof (GE c1 H1). pose proof (GE c2 H2). replace (E + (c1 - E)) with c1 by lia. replace (E + (c2 - E)) with c2 by lia. auto.
      - intros [A [B [C D]]]. exists (E + i). split; [exact C|]. apply in_flat_map. exists (E + j). split; [exact D|]. replace (E + i - E) with i by lia. replace (E + j - E) with j by lia. rewrite B. destruct (Nat.leb_spec i j); [|lia]. left. reflexivity. }
    rewrite Q. split.
    + intros [[A|[A [B [C D]]]]|[A [B [r [C D]]]]]; [auto|right; split; [exact A|]; split; [exact B|]; exists all; split; [left; reflexivity|auto]|right; split; [exact A|]; split; [exact B|]; exists r; split; [right; exact C|exact D]].
    + intros [A|[A [B [r [[<-|C] D]]]]]; [auto|left; right; tauto|right; split; [exact A|]; split; [exact B|]; exists r; auto].
Qed.
Lemma block_pairs_spec num_cols E membership cp rows : rows_fine num_cols E rows -> exists bp, ComputeBlockPairsInPreconditioner (num_cols - E) E membership cp rows = Some bp /\
  forall i j, In (i, j) bp <-> i < num_cols - E /\ j < num_cols - E /\ (i = j \/ (i < j /\ interact E rows i j /\ pair_in cp (cluster_of membership i) (cluster_of membership j))).
Proof.
  intro F. unfold ComputeBlockPairsInPreconditioner. set (keep := IsBlockPairInPreconditioner membership cp).
  destruct (point_pairs_spec num_cols E keep (length rows) rows (map (fun i => (i, i)) (seq 0 (num_cols - E))) (le_n _) F) as [bp1 [front [rest [E1 [EQ [HF [HB P1]]]]]]]. rewrite E1.
  destruct (camera_pairs_spec E keep rest bp1) as [bp [E2 P2]]; [intros r Hr; apply (fine_tails _ _ _ F); rewrite EQ; apply in_or_app; auto|exact HB|].
  rewrite E2. exists bp. split; [reflexivity|].
  assert (forall i, In (i, i) (map (fun i => (i, i)) (seq 0 (num_cols - E))) <-> i < num_cols - E) as D.
  { intro i. rewrite in_map_iff. split; [intros [x [Ex Hx]]; injection Ex as <-; apply in_seq in Hx; lia|intro L; exists i; split; [reflexivity|apply in_seq; lia]]. }
  assert (forall i j, In (i, j) (map (fun i => (i, i)) (seq 0 (num_cols - E))) -> i = j) as D2 by (intros i j Hx; apply in_map_iff in Hx; destruct Hx as [x [Ex _]]; congruence).
  assert (forall r c, In r rows -> In (E + c) r -> c < num_cols - E) as RB by (intros r c Hr Hc; pose proof (proj1 (proj2 (fine_cells _ _ _ F r Hr)) _ Hc); lia).
  assert (forall c p, sees E rows c p -> c < num_cols - E) as SB by (intros c p [cs [H1 [_ H2]]]; apply (RB (p :: cs)); [exact H1|right; exact H2]).
  assert (forall row, In row rest <-> In row rows /\ forall c, In c row -> E <= c) as RR.
  { intro row. split.
    - intro Hr. assert (In row rows) as Hr' by (rewrite EQ; apply in_or_app; auto). split; [exact Hr'|]. intros c Hc. destruct (fine_tails _ _ _ F row Hr') as [NE TL]. pose proof (HB row Hr) as HH. destruct row as [|b cs]; [congruence|]. destruct Hc as [<-|Hc]; [exact HH|apply TL; exact Hc].
    - intros [Hr HC]. rewrite EQ in Hr. apply in_app_or in Hr. destruct Hr as [Hr|Hr]; [|exact Hr]. pose proof (HF row Hr) as HH. destruct (fine_tails _ _ _ F row ltac:(rewrite EQ; apply in_or_app; auto)) as [NE _]. destruct row as [|b cs]; [congruence|]. pose proof (HC b (or_introl eq_refl)). cbn [head nth] in HH. lia. }
  intros i j. rewrite P2, P1. unfold keep. rewrite in_preconditioner. unfold interact. split.
  - intros [[A|[A [B [p [C G]]]]]|[A [B [r [C [G H]]]]]].
    + pose proof (D2 _ _ A). subst j. apply D in A. auto.
    + split; [exact (SB _ _ C)|]. split; [exact (SB _ _ G)|]. right. split; [exact A|]. split; [left; exists p; auto|exact B].
    + apply RR in C. destruct C as [C1 C2]. split; [exact (RB r i C1 G)|]. split; [exact (RB r j C1 H)|]. destruct (Nat.eq_dec i j) as [->|N]; [auto|]. right. split; [lia|]. split; [right; exists r; auto|exact B].
  - intros [Li [Lj [->|[A [[[p [B1 B2]]|[r [B1 [B2 [B3 B4]]]]] C]]]]].
    + left. left. apply D. exact Li.
    + left. right. split; [exact A|]. split; [exact C|]. exists p. auto.
    + right. split; [lia|]. split; [exact C|]. exists r. split; [apply RR; auto|auto].
Qed.
