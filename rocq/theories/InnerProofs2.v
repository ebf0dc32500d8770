(* Interleavings of the tasks of one independent set; the whole call. *)
From Coq Require Import Reals List Arith Bool Lia.
From Verif Require Import InnerModel InnerSpec InnerProofs.
Import ListNotations.

Section Par.
Variable S : block_solver.
Variable residuals : list (list nat).
Variable program : list nat.
Variable sh0 : shared.
Hypothesis LO : laid_out sh0 program.

Let off b := pb_state_offset (sh_blocks sh0 b).
Let home (b : nat) : pblock :=
  mkpb true (pb_index (sh_blocks sh0 b)) (pb_delta_offset (sh_blocks sh0 b)) (off b) (InParameters (off b)).

Lemma off_inj a b : In a program -> In b program -> off a = off b -> a = b.
Proof. apply LO. Qed.

(* between the sets: every block of the program is constant and at x *)
Definition quiet (sh : shared) (x : nat -> vec) : Prop :=
  (forall b, In b program -> sh_blocks sh b = home b /\ sh_params sh (off b) = x b) /\
  (forall b, ~ In b program -> sh_blocks sh b = sh_blocks sh0 b /\ deref (sh_params sh) (pb_state (sh_blocks sh0 b)) = x b) /\
  (forall o, (forall b, In b program -> off b <> o) -> sh_params sh o = sh_params sh0 o).

Variable m : minimizer.
Variables from to : nat.
Hypothesis Hto : to <= length (m_blocks m).
Let blk j := nth j (m_blocks m) 0.
Hypothesis Hnd : NoDup (m_blocks m).
Hypothesis Hin : incl (m_blocks m) program.
Hypothesis Hres : forall j, j < to -> nth j (m_residuals m) [] = residuals_of residuals (blk j).
Let set := map blk (seq from (to - from)).
Hypothesis Hind : independent residuals set.

Lemma in_set b : In b set <-> exists j, from <= j < to /\ b = blk j.
Proof.
  unfold set. rewrite in_map_iff. split.
  - intros (j & <- & Hj). apply in_seq in Hj. exists j. split; [lia|reflexivity].
  - intros (j & Hj & ->). exists j. split; [reflexivity|]. apply in_seq. lia.
Qed.
Lemma blk_inj i j : i < to -> j < to -> blk i = blk j -> i = j.
Proof. intros Hi Hj. apply (proj1 (NoDup_nth _ 0) Hnd); lia. Qed.
Lemma blk_in j : j < to -> In (blk j) program.
Proof. intro H. apply Hin, nth_In. lia. Qed.
Lemma set_nodup : NoDup set.
Proof.
  unfold set. apply NoDup_nth with (d := 0). rewrite map_length, seq_length. intros i j Hi Hj E.
  rewrite !(nth_indep (map blk _) 0 (blk 0)) in E by (rewrite map_length, seq_length; lia).
  rewrite !(map_nth blk), !seq_nth in E by lia. apply blk_inj in E; lia.
Qed.

Variable x : nat -> vec.

Definition task_ok (sh : shared) (b : nat) (p : phase S) : Prop :=
  match p with
  | Before _ => sh_blocks sh b = home b /\ sh_params sh (off b) = x b
  | Solving _ i d o l =>
      i = pb_index (sh_blocks sh0 b) /\ d = pb_delta_offset (sh_blocks sh0 b) /\ o = off b /\
      exists q, sh_blocks sh b = mkpb false 0 0 0 q /\ (q = InParameters (off b) \/ exists v, q = Elsewhere v) /\
        forall r, alone S residuals x b l (deref (sh_params sh) q) (sh_params sh (off b)) r -> solves S residuals x b r
  | Restoring _ i d o =>
      i = pb_index (sh_blocks sh0 b) /\ d = pb_delta_offset (sh_blocks sh0 b) /\ o = off b /\
      solves S residuals x b (sh_params sh (off b))
  | Done _ => sh_blocks sh b = home b /\ solves S residuals x b (sh_params sh (off b))
  end.

Definition pinv (sh : shared) (ph : nat -> phase S) : Prop :=
  (forall b, In b program -> ~ In b set -> sh_blocks sh b = home b /\ sh_params sh (off b) = x b) /\
  (forall b, ~ In b program -> sh_blocks sh b = sh_blocks sh0 b /\ deref (sh_params sh) (pb_state (sh_blocks sh0 b)) = x b) /\
  (forall o, (forall b, In b program -> off b <> o) -> sh_params sh o = sh_params sh0 o) /\
  (forall j, from <= j < to -> task_ok sh (blk j) (ph j)).

(* a step of task j changes its own block and its own part of the parameters only *)
Lemma task_ok_other sh sh' b b' p :
  In b program -> In b' program -> b <> b' ->
  (forall c, c <> b -> sh_blocks sh' c = sh_blocks sh c) ->
  (forall o, o <> off b -> sh_params sh' o = sh_params sh o) ->
  task_ok sh b' p -> task_ok sh' b' p.
Proof.
  intros Hb Hb' Hne HB HP HT.
  assert (off b' <> off b) as HO by (intro E; apply Hne, (off_inj b b' Hb Hb'); symmetry; exact E).
  assert (sh_blocks sh' b' = sh_blocks sh b') as E1 by (apply HB; congruence).
  assert (sh_params sh' (off b') = sh_params sh (off b')) as E2 by (apply HP, HO).
  destruct p as [|i d o l|i d o|]; cbn [task_ok] in *; rewrite ?E1, ?E2; try exact HT.
  destruct HT as (-> & -> & -> & q & Q1 & Q2 & Q3). repeat split; try reflexivity. exists q.
  split; [exact Q1|]. split; [exact Q2|].
  replace (deref (sh_params sh') q) with (deref (sh_params sh) q); [exact Q3|].
  destruct Q2 as [->|(v & ->)]; cbn; [symmetry; exact E2|reflexivity].
Qed.

Lemma look_alone sh ph j i d o l q :
  pinv sh ph -> from <= j < to -> ph j = Solving S i d o l -> sh_blocks sh (blk j) = mkpb false 0 0 0 q ->
  look residuals sh (residuals_of residuals (blk j)) = alone_view residuals x (blk j) (deref (sh_params sh) q).
Proof.
  intros (P1 & P2 & P3 & P4) Hj E EQ. unfold look, alone_view. apply map_ext_in. intros c Hc.
  destruct (Nat.eqb_spec c (blk j)) as [->|Hne]; [rewrite EQ; reflexivity|].
  apply visible_of in Hc. destruct Hc as (r & Hr & Hb & Hc).
  assert (~ In c set) as NS.
  { intro I. apply Hne. apply (Hind r c (blk j) Hr); try assumption. apply in_set. exists j. split; [exact Hj|reflexivity]. }
  destruct (in_dec Nat.eq_dec c program) as [Ip|Ip].
  - destruct (P1 c Ip NS) as [-> E2]. cbn. rewrite E2. reflexivity.
  - destruct (P2 c Ip) as [-> E2]. rewrite E2. destruct LO as (_ & _ & L3). destruct (L3 c Ip) as [-> _]. reflexivity.
Qed.

Lemma pinv_local sh ph j sh' p' :
  pinv sh ph -> from <= j < to ->
  (forall c, c <> blk j -> sh_blocks sh' c = sh_blocks sh c) ->
  (forall o, o <> off (blk j) -> sh_params sh' o = sh_params sh o) ->
  task_ok sh' (blk j) p' -> pinv sh' (put ph j p').
Proof.
  intros (P1 & P2 & P3 & P4) Hj HB HP HT.
  assert (In (blk j) program) as Ij by (apply blk_in; lia).
  assert (In (blk j) set) as Is by (apply in_set; exists j; split; [exact Hj|reflexivity]).
  split; [|split; [|split]].
  - intros b Ib Nb. assert (b <> blk j) as Hne by (intros ->; contradiction). rewrite HB by exact Hne.
    rewrite HP; [apply P1; assumption|]. intro E. apply Hne, (off_inj b (blk j) Ib Ij), E.
  - intros b Nb. assert (b <> blk j) as Hne by (intros ->; contradiction). rewrite HB by exact Hne.
    destruct (P2 b Nb) as [E1 E2]. split; [exact E1|]. destruct LO as (_ & _ & L3). destruct (L3 b Nb) as [_ (v & Ev)].
    rewrite Ev in *. exact E2.
  - intros o Ho. rewrite HP; [apply P3, Ho|]. intro E. apply (Ho (blk j) Ij). symmetry. exact E.
  - intros k Hk. unfold put. destruct (Nat.eqb_spec k j) as [->|Hne]; [exact HT|].
    apply (task_ok_other sh sh' (blk j)); try assumption; [apply blk_in; lia| |apply P4, Hk].
    intro E. apply blk_inj in E; lia.
Qed.

Lemma step_pinv sh ph j sh' p' :
  pinv sh ph -> from <= j < to ->
  task_step S residuals (blk j) (nth j (m_residuals m) []) sh (ph j) = (sh', p') -> pinv sh' (put ph j p').
Proof.
  intros HP Hj E. pose proof HP as (P1 & P2 & P3 & P4). pose proof (P4 j Hj) as T.
  rewrite (Hres j) in E by lia. destruct (ph j) as [|i d o l|i d o|] eqn:EP; cbn [task_step] in E.
  - injection E as <- <-. destruct T as [T1 T2]. apply (pinv_local sh); try assumption; cbn [sh_blocks sh_params].
    + intros c Hc. apply put_ne, Hc.
    + reflexivity.
    + cbn [task_ok sh_blocks sh_params]. rewrite put_eq, T1. unfold home. cbn [pb_index pb_delta_offset pb_state_offset pb_state].
      repeat split; try reflexivity. exists (InParameters (off (blk j))). split; [reflexivity|]. split; [left; reflexivity|].
      cbn [deref]. rewrite T2. intros r A. exact A.
  - destruct T as (-> & -> & -> & q & Q1 & Q2 & Q3).
    rewrite (look_alone sh ph j _ _ _ l q HP Hj EP Q1) in E.
    destruct (bs_step S l (alone_view residuals x (blk j) (deref (sh_params sh) q))) as [[[l' v] w] fin] eqn:ES.
    injection E as <- <-. apply (pinv_local sh); try assumption; cbn [sh_blocks sh_params].
    + intros c Hc. apply put_ne, Hc.
    + intros o Ho. destruct w; [apply put_ne, Ho|reflexivity].
    + assert ((match w with Some y => put (sh_params sh) (off (blk j)) y | None => sh_params sh end) (off (blk j)) =
              match w with Some y => y | None => sh_params sh (off (blk j)) end) as EW.
      { destruct w; [apply put_eq|reflexivity]. }
      destruct fin; cbn [task_ok sh_blocks sh_params].
      * repeat split; try reflexivity. rewrite EW. apply Q3. exact (alone_end _ _ _ _ _ _ _ _ _ _ ES).
      * repeat split; try reflexivity. exists (Elsewhere v). rewrite put_eq, Q1. split; [reflexivity|]. split; [right; exists v; reflexivity|].
        cbn [deref]. rewrite EW. intros r A. apply Q3. exact (alone_step _ _ _ _ _ _ _ _ _ _ _ ES A).
  - destruct T as (-> & -> & -> & T). injection E as <- <-. apply (pinv_local sh); try assumption; cbn [sh_blocks sh_params].
    + intros c Hc. apply put_ne, Hc.
    + reflexivity.
    + cbn [task_ok sh_blocks sh_params]. rewrite put_eq. split; [reflexivity|exact T].
  - injection E as <- <-. apply (pinv_local sh); try assumption; reflexivity.
Qed.

Lemma interleave_pinv schedule : forall sh ph,
  pinv sh ph -> forallb (fun j => Nat.leb from j && Nat.ltb j to) schedule = true ->
  let (sh', ph') := interleave S residuals m schedule sh ph in pinv sh' ph'.
Proof.
  induction schedule as [|j schedule IH]; intros sh ph HP HS; cbn [interleave]; [exact HP|].
  cbn [forallb] in HS. apply andb_true_iff in HS. destruct HS as [H1 H2]. apply andb_true_iff in H1.
  rewrite Nat.leb_le, Nat.ltb_lt in H1.
  destruct (task_step S residuals (nth j (m_blocks m) 0) (nth j (m_residuals m) []) sh (ph j)) as [sh' p'] eqn:E.
  apply IH; [|exact H2]. apply (step_pinv sh ph j sh' p' HP H1 E).
Qed.

Lemma run_set_spec schedule sh sh' :
  quiet sh x -> run_set S residuals m from to schedule sh = Some sh' ->
  exists x', quiet sh' x' /\ jacobi S residuals x set x'.
Proof.
  intros Q H. unfold run_set in H. destruct (Nat.eqb_spec (to - from) 0) as [Z|Z].
  - injection H as <-. exists x. split; [exact Q|]. assert (forall b, ~ In b set) as E.
    { intros b I. apply in_set in I. destruct I as (j & Hj & _). lia. }
    split; [intros b I; destruct (E b I)|reflexivity].
  - destruct (forallb _ schedule) eqn:HS; [|discriminate].
    assert (pinv sh (fun _ => Before S)) as P0.
    { destruct Q as (Q1 & Q2 & Q3). split; [|split; [|split]]; auto. intros j Hj. cbn. apply Q1, blk_in. lia. }
    pose proof (interleave_pinv schedule sh _ P0 HS) as P.
    destruct (interleave S residuals m schedule sh (fun _ => Before S)) as [sh1 ph1].
    destruct (forallb _ (seq from (to - from))) eqn:HD; [|discriminate]. injection H as <-.
    rewrite forallb_forall in HD. destruct P as (P1 & P2 & P3 & P4).
    exists (fun b => if in_dec Nat.eq_dec b set then sh_params sh1 (off b) else x b). split.
    + split; [|split; [|exact P3]].
      * intros b Ib. destruct (in_dec Nat.eq_dec b set) as [Is|Is]; [|apply P1; assumption].
        split; [|reflexivity]. apply in_set in Is. destruct Is as (j & Hj & ->). specialize (P4 j Hj).
        assert (is_done S (ph1 j) = true) as Dj by (apply HD, in_seq; lia).
        destruct (ph1 j); try discriminate. apply P4.
      * intros b Nb. destruct (in_dec Nat.eq_dec b set) as [Is|Is]; [|apply P2; assumption].
        exfalso. apply Nb. apply in_set in Is. destruct Is as (j & Hj & ->). apply blk_in. lia.
    + split.
      * intros b Is. destruct (in_dec Nat.eq_dec b set) as [_|N]; [|contradiction].
        apply in_set in Is. destruct Is as (j & Hj & ->). specialize (P4 j Hj).
        assert (is_done S (ph1 j) = true) as Dj by (apply HD, in_seq; lia).
        destruct (ph1 j); try discriminate. apply P4.
      * intros b Ns. destruct (in_dec Nat.eq_dec b set); [contradiction|reflexivity].
Qed.
End Par.

Section Whole.
Variable S : block_solver.
Variable residuals : list (list nat).
Variable program : list nat.
Variable sh0 : shared.
Hypothesis LO : laid_out sh0 program.
Variable m : minimizer.
Variable all : list nat.          (* the blocks of the ordering *)
Variable others : list nat.
Hypothesis Hm : m_blocks m = all ++ others.
Hypothesis Hr : m_residuals m = map (residuals_of residuals) all.
Hypothesis Hnd : NoDup (m_blocks m).
Hypothesis Hin : incl (m_blocks m) program.

Lemma res_at j : j < length all -> nth j (m_residuals m) [] = residuals_of residuals (nth j (m_blocks m) 0).
Proof.
  intro H. rewrite Hr, Hm. rewrite (app_nth1 all others 0 H).
  rewrite (nth_indep _ [] (residuals_of residuals 0)) by (rewrite map_length; exact H). apply map_nth.
Qed.

Lemma slice (l : list nat) a n : a + n <= length l -> map (fun j => nth j l 0) (seq a n) = firstn n (skipn a l).
Proof.
  revert a l. induction n as [|n IH]; intros a l H; [reflexivity|].
  cbn [seq map]. destruct (skipn a l) as [|b t] eqn:E.
  - pose proof (f_equal (@length nat) E) as L. rewrite skipn_length in L. cbn in L. lia.
  - cbn [firstn].
    assert (nth a l 0 = b /\ skipn (Datatypes.S a) l = t) as [E1 E2].
    { clear IH H. revert l E. induction a as [|a IHa]; intros [|c l] E; try discriminate.
      - cbn in E. injection E as -> ->. split; reflexivity.
      - apply (IHa l E). }
    rewrite E1. f_equal. rewrite IH by lia. rewrite E2. reflexivity.
Qed.

Lemma run_sets_spec groups : forall a pre schedules sh x sh',
  all = pre ++ concat groups -> a = length pre ->
  Forall (independent residuals) groups ->
  quiet program sh0 sh x ->
  run_sets S residuals m (a :: bounds a groups ++ repeat (last (a :: bounds a groups) 0) (length others)) schedules sh = Some sh' ->
  exists x', quiet program sh0 sh' x' /\ descent S residuals x (concat groups) x'.
Proof.
  induction groups as [|g groups IH]; intros a pre schedules sh x sh' HA Ha HI HQ H.
  - cbn [bounds app last] in H. cbn [concat].
    assert (sh' = sh) as ->.
    { revert schedules H. induction (length others) as [|k IHk]; intros schedules H; cbn [repeat run_sets] in H.
      - injection H as <-. reflexivity.
      - destruct schedules as [|s ss]; [discriminate|]. unfold run_set in H. rewrite Nat.sub_diag in H. cbn [Nat.eqb] in H.
        destruct k as [|k]; cbn [repeat] in *; [cbn [run_sets] in H; injection H as <-; reflexivity|]. apply (IHk ss), H. }
    exists x. split; [exact HQ|]. constructor. reflexivity.
  - cbn [bounds] in H. rewrite <- app_comm_cons in H. cbn [run_sets] in H. destruct schedules as [|s ss]; [discriminate|].
    destruct (run_set S residuals m a (a + length g) s sh) as [sh1|] eqn:E1; [|discriminate].
    inversion HI as [|? ? I1 I2]. subst x0 l. clear HI.
    assert (a + length g <= length all) as LA.
    { rewrite HA, app_length. cbn [concat]. rewrite app_length. lia. }
    assert (map (fun j => nth j (m_blocks m) 0) (seq a (a + length g - a)) = g) as ES.
    { replace (a + length g - a) with (length g) by lia. rewrite slice.
      - rewrite Hm, HA. cbn [concat]. rewrite <- !app_assoc. rewrite skipn_app, skipn_all2, Ha by lia.
        rewrite Nat.sub_diag. cbn [app skipn]. rewrite firstn_app, firstn_all2, Nat.sub_diag by lia. cbn. apply app_nil_r.
      - rewrite Hm, app_length. lia. }
    assert (a + length g <= length (m_blocks m)) as LM by (rewrite Hm, app_length; lia).
    destruct (run_set_spec S residuals program sh0 LO m a (a + length g) LM Hnd Hin) with (x := x) (schedule := s) (sh := sh) (sh' := sh1) as (x1 & Q1 & J).
    + intros j Hj. apply res_at. lia.
    + rewrite ES. exact I1.
    + exact HQ.
    + exact E1.
    + rewrite ES in J.
      assert (last (a :: (a + length g) :: bounds (a + length g) groups) 0 = last ((a + length g) :: bounds (a + length g) groups) 0) as EL by reflexivity.
      rewrite EL in H.
      destruct (IH (a + length g) (pre ++ g) ss sh1 x1 sh') as (x2 & Q2 & D2).
      * rewrite HA. cbn [concat]. rewrite app_assoc. reflexivity.
      * rewrite app_length. lia.
      * exact I2.
      * exact Q1.
      * exact H.
      * exists x2. split; [exact Q2|]. cbn [concat]. apply (descent_app S residuals g x x1 x2); [|exact D2].
        apply jacobi_descent; try assumption. rewrite <- ES.
        apply (set_nodup m a (a + length g) LM Hnd).
Qed.
End Whole.

(* the first and last loops of Minimize *)
Lemma set_state_all l : forall sh b,
  sh_params (fold_left set_state_constant l sh) = sh_params sh /\
  (~ In b l -> sh_blocks (fold_left set_state_constant l sh) b = sh_blocks sh b) /\
  (In b l -> let p := sh_blocks sh b in
     sh_blocks (fold_left set_state_constant l sh) b =
     mkpb true (pb_index p) (pb_delta_offset p) (pb_state_offset p) (InParameters (pb_state_offset p))).
Proof.
  induction l as [|a l IH]; intros sh b; cbn [fold_left]; [split; [reflexivity|]; split; [reflexivity|]; intros []|].
  destruct (IH (set_state_constant sh a) b) as (E1 & E2 & E3).
  split; [rewrite E1; reflexivity|]; split.
  - intro H. rewrite E2 by (intro I; apply H; right; exact I). cbn. apply put_ne. intros ->. apply H. left. reflexivity.
  - intro H; cbv zeta. destruct (in_dec Nat.eq_dec b l) as [I|I].
    + rewrite (E3 I). cbn [set_state_constant sh_blocks]. destruct (Nat.eq_dec b a) as [->|N]; [rewrite put_eq; reflexivity|rewrite put_ne by exact N; reflexivity].
    + destruct H as [->|H]; [|contradiction]. rewrite (E2 I). cbn. rewrite put_eq. reflexivity.
Qed.
Lemma set_varying_all l : forall sh b,
  sh_params (fold_left set_varying l sh) = sh_params sh /\
  (~ In b l -> sh_blocks (fold_left set_varying l sh) b = sh_blocks sh b) /\
  (In b l -> let p := sh_blocks sh b in
     sh_blocks (fold_left set_varying l sh) b =
     mkpb false (pb_index p) (pb_delta_offset p) (pb_state_offset p) (pb_state p)).
Proof.
  induction l as [|a l IH]; intros sh b; cbn [fold_left]; [split; [reflexivity|]; split; [reflexivity|]; intros []|].
  destruct (IH (set_varying sh a) b) as (E1 & E2 & E3).
  split; [rewrite E1; reflexivity|]; split.
  - intro H. rewrite E2 by (intro I; apply H; right; exact I). cbn. apply put_ne. intros ->. apply H. left. reflexivity.
  - intro H; cbv zeta. destruct (in_dec Nat.eq_dec b l) as [I|I].
    + rewrite (E3 I). cbn [set_varying sh_blocks]. destruct (Nat.eq_dec b a) as [->|N]; [rewrite put_eq; reflexivity|rewrite put_ne by exact N; reflexivity].
    + destruct H as [->|H]; [|contradiction]. rewrite (E2 I). cbn. rewrite put_eq. reflexivity.
Qed.

Lemma bounds_offsets a groups n :
  ([a] ++ bounds a groups) ++ repeat (last ([a] ++ bounds a groups) 0) n =
  a :: bounds a groups ++ repeat (last (a :: bounds a groups) 0) n.
Proof. reflexivity. Qed.

Lemma nodup_member (groups : list (list nat)) g : In g groups -> NoDup (concat groups) -> NoDup g.
Proof.
  induction groups as [|h groups IH]; intros [] ND; cbn [concat] in ND.
  - subst h. clear IH. induction g as [|a g IHg]; [constructor|]. cbn in ND. inversion ND as [|? ? N1 N2]; subst.
    constructor; [intro I; apply N1, in_or_app; left; exact I|apply IHg, N2].
  - apply IH; [assumption|]. clear - ND. induction h as [|a h IHh]; [exact ND|]. inversion ND; subst. apply IHh. assumption.
Qed.

Lemma NoDup_app_disj (a b : list nat) : NoDup a -> NoDup b -> (forall c, In c a -> ~ In c b) -> NoDup (a ++ b).
Proof.
  induction a as [|c a IH]; intros NA NB H; [exact NB|]. inversion NA; subst. cbn. constructor.
  - intro I. apply in_app_or in I. destruct I as [I|I]; [contradiction|]. apply (H c); [left; reflexivity|exact I].
  - apply IH; [assumption|assumption|]. intros d I. apply H. right. exact I.
Qed.

Lemma descent_ext_r S residuals l : forall x x2 x3, (forall b, x2 b = x3 b) ->
  descent S residuals x l x2 -> descent S residuals x l x3.
Proof.
  induction l as [|b l IH]; intros x x2 x3 EV D; inversion D as [? ? E|? ? ? v ? SV D']; subst.
  - constructor. intro b. rewrite <- EV. apply E.
  - apply (descent_cons _ _ _ _ _ v); [exact SV|]. apply (IH _ x2); assumption.
Qed.

Lemma Minimize_spec S residuals program known groups m schedules sh sh' :
  Init known program residuals groups = Some m ->
  Forall (independent residuals) groups ->
  NoDup (concat groups) -> incl (concat groups) program -> NoDup program ->
  laid_out sh program ->
  Minimize S residuals m schedules sh = Some sh' ->
  descent S residuals (values program sh) (concat groups) (values program sh') /\ restored program sh sh'.
Proof.
  intros HI HV ND1 HIn ND2 LO HM. unfold Init in HI.
  destruct (serialize known groups [] [0]) as [[blocks offsets]|] eqn:ES; [|discriminate].
  apply serialize_spec in ES. cbn [app last] in ES. destruct ES as [-> ->].
  rewrite add_others_spec in HI. cbn [fst snd] in HI. injection HI as <-.
  set (others := filter _ program) in *.
  assert (forall b, In b (concat groups ++ others) <-> In b program) as HIP.
  { intro b. rewrite in_app_iff. unfold others. rewrite filter_In.
    destruct (in_dec Nat.eq_dec b (concat groups)) as [I|I]; cbn; split; intro H.
    - apply HIn, I. - left. exact I. - destruct H as [H|[H _]]; [contradiction|exact H]. - right. split; [exact H|reflexivity]. }
  assert (NoDup (concat groups ++ others)) as ND3.
  { apply NoDup_app_disj; [exact ND1|apply NoDup_filter, ND2|]. intros c I J. unfold others in J. rewrite filter_In in J.
    destruct (in_dec Nat.eq_dec c (concat groups)); [destruct J; discriminate|contradiction]. }
  unfold Minimize in HM. cbn [m_blocks m_offsets] in HM.
  set (sh1 := fold_left set_state_constant (concat groups ++ others) sh) in *.
  set (m := mkminimizer _ _ _) in *.
  assert (quiet program sh sh1 (values program sh)) as Q.
  { split; [|split].
    - intros b Ib. destruct (set_state_all (concat groups ++ others) sh b) as (E1 & _ & E3).
      fold sh1 in E1, E3. split; [apply E3, HIP, Ib|]. rewrite E1. unfold values. destruct (in_dec _ b program); [reflexivity|contradiction].
    - intros b Nb. destruct (set_state_all (concat groups ++ others) sh b) as (E1 & E2 & _). fold sh1 in E1, E2.
      split; [apply E2; rewrite HIP; exact Nb|]. rewrite E1. unfold values. destruct (in_dec _ b program); [contradiction|reflexivity].
    - intros o _. destruct (set_state_all (concat groups ++ others) sh 0) as (E1 & _). fold sh1 in E1. rewrite E1. reflexivity. }
  destruct (run_sets S residuals m _ schedules sh1) as [sh2|] eqn:ER; [|discriminate]. injection HM as <-.
  destruct (run_sets_spec S residuals program sh LO m (concat groups) others eq_refl eq_refl ND3
              (fun b H => proj1 (HIP b) H) groups 0 [] schedules sh1 (values program sh) sh2 eq_refl eq_refl HV Q ER) as (x2 & Q2 & D).
  destruct Q2 as (Q1 & Q2 & Q3).
  assert (forall b, In b program ->
     let p := sh_blocks sh b in
     sh_blocks (fold_left set_varying (concat groups ++ others) sh2) b =
     mkpb false (pb_index p) (pb_delta_offset p) (pb_state_offset p) (InParameters (pb_state_offset p))) as R1.
  { intros b Ib p. destruct (set_varying_all (concat groups ++ others) sh2 b) as (_ & _ & E3).
    rewrite (E3 (proj2 (HIP b) Ib)). destruct (Q1 b Ib) as [-> _]. reflexivity. }
  assert (forall b, ~ In b program ->
     sh_blocks (fold_left set_varying (concat groups ++ others) sh2) b = sh_blocks sh b) as R2.
  { intros b Nb. destruct (set_varying_all (concat groups ++ others) sh2 b) as (_ & E2 & _).
    rewrite E2 by (rewrite HIP; exact Nb). apply Q2, Nb. }
  assert (sh_params (fold_left set_varying (concat groups ++ others) sh2) = sh_params sh2) as R3.
  { apply (set_varying_all (concat groups ++ others) sh2 0). }
  split.
  - assert (forall b, x2 b = values program (fold_left set_varying (concat groups ++ others) sh2) b) as EV.
    { intro b. unfold values. destruct (in_dec Nat.eq_dec b program) as [I|I].
      - rewrite (R1 b I), R3. cbn. symmetry. apply Q1, I.
      - rewrite (R2 b I), R3. symmetry. apply Q2, I. }
    apply (descent_ext_r S residuals (concat groups) (values program sh) x2); assumption.
  - split; [exact R1|]. split; [exact R2|]. intros o Ho. rewrite R3. apply Q3, Ho.
Qed.
