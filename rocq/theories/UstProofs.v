(** The parameter blocks during a trust region solve: invariant of the loop. *)
Require Import List ZArith Bool Lia.
From Verif Require Import Dbl DblArith DblArithProofs TrustRegionModel TrustRegionProofs UstModel UstSpec.
Import ListNotations.
Open Scope Z_scope.
Opaque dz DBL_MAX.

Lemma lt_of_not : forall c m d, dlt d m = false -> dlt d DBL_MAX = true -> dlt c m = true -> dlt c d = true.
Proof.
  intros c m d H1 H2 H3. assert (d <> NaN) by (intros ->; destruct DBL_MAX; discriminate).
  destruct c, m, d; simpl in *; try discriminate; try congruence; auto.
  rewrite Z.ltb_lt in *. rewrite Z.ltb_ge in H1. lia.
Qed.
Lemma lt_irrefl' : forall c, dlt c c = false.
Proof. intros []; simpl; auto. apply Z.ltb_irrefl. Qed.

Section P.
Variable E : tr_env.
Variable Op : tr_options.
Variable update ecb : bool.
Variable users : list (list iter_summary -> pt E -> cb_status).
Variable garble : pt E -> pt E -> pt E.
Notation RunCallbacks := (RunCallbacks E update users garble).
Notation mfinalize := (mfinalize E Op update users garble).
Notation mloop := (mloop E Op update ecb users garble).
Notation evaluations := (evaluations E ecb).
Notation body := (body E Op).

(** ** callbacks *)
Lemma call_users_spec : forall us its p st n, call_users E us its p = (st, n) ->
  called E us its p n /\ (st = SOLVER_CONTINUE -> n = length us).
Proof.
  induction us as [|u us IH]; intros its p st n H; cbn [call_users] in H.
  - injection H as <- <-. split; [|reflexivity]. split; [intros k u L; lia|]. split; [left; reflexivity|simpl; lia].
  - destruct (u its p) eqn:U.
    + destruct (call_users E us its p) as [st' n'] eqn:Q. injection H as <- <-. destruct (IH _ _ _ _ Q) as [(C1 & C2 & C3) C4].
      split; [|intro; simpl; rewrite C4; auto]. split.
      * intros [|k] v L V; simpl in V; [injection V as <-; exact U|]. apply (C1 k v); [lia|exact V].
      * split; [|simpl; lia]. destruct C2 as [->|(k & v & -> & V & W)]; [left; reflexivity|right]. exists (S k), v. auto.
    + injection H as <- <-. split; [|discriminate]. split; [intros k v L; lia|]. split; [|simpl; lia].
      right. exists 0%nat, u. simpl. split; [reflexivity|]. split; [reflexivity|congruence].
    + injection H as <- <-. split; [|discriminate]. split; [intros k v L; lia|]. split; [|simpl; lia].
      right. exists 0%nat, u. simpl. split; [reflexivity|]. split; [reflexivity|congruence].
Qed.

Lemma mfinalize_shape : forall s m s1 m1 go, mfinalize s m = (s1, m1, go) ->
  exists t n, s1 = set_term E (finalize_book E s) t /\ (go = true -> is_iteration (s_cur E s) < o_max_iter Op) /\
    let u := StateUpdatingCallback E update garble (s_params E (finalize_book E s)) (user E m) in
    m1 = mkMem E u (events E m ++ [Called (s_iters E (finalize_book E s)) u n]) /\
    called E users (s_iters E (finalize_book E s)) u n /\ (go = true -> n = length users).
Proof.
  intros s m s1 m1 go. unfold UstModel.mfinalize, UstModel.RunCallbacks. cbv zeta.
  set (u := StateUpdatingCallback E update garble (s_params E (finalize_book E s)) (user E m)).
  destruct (call_users E users (s_iters E (finalize_book E s)) u) as [st n] eqn:Q.
  destruct (call_users_spec _ _ _ _ _ Q) as [C1 C2].
  assert (Same : forall s : state E, s = set_term E s (s_term E s)) by (intros []; reflexivity).
  assert (G : forall t (b : bool) (x : state E), x = set_term E (finalize_book E s) t ->
     (b = true -> is_iteration (s_cur E s) < o_max_iter Op /\ st = SOLVER_CONTINUE) ->
     (x, mkMem E u (events E m ++ [Called (s_iters E (finalize_book E s)) u n]), b) = (s1, m1, go) ->
     exists t n, s1 = set_term E (finalize_book E s) t /\ (go = true -> is_iteration (s_cur E s) < o_max_iter Op) /\
       m1 = mkMem E u (events E m ++ [Called (s_iters E (finalize_book E s)) u n]) /\
       called E users (s_iters E (finalize_book E s)) u n /\ (go = true -> n = length users)).
  { intros t b x -> Hb H. injection H as <- <- <-. exists t, n. split; [reflexivity|]. split; [intro X; apply Hb; exact X|]. split; [reflexivity|]. split; [exact C1|].
    intro X. apply C2, Hb. exact X. }
  destruct st; [|apply (G USER_FAILURE); [reflexivity|discriminate]|apply (G USER_SUCCESS); [reflexivity|discriminate]].
  destruct (time_up E _); [apply (G NO_CONVERGENCE); [reflexivity|discriminate]|].
  destruct (negb _) eqn:M; [apply (G NO_CONVERGENCE); [reflexivity|discriminate]|].
  destruct (gradient_tolerance_reached _ _); [apply (G CONVERGENCE); [reflexivity|discriminate]|].
  destruct (min_radius_reached _ _); [apply (G CONVERGENCE); [reflexivity|discriminate]|].
  apply (G (s_term E (finalize_book E s))); [apply Same|]. intros _. split; [|reflexivity].
  apply negb_false_iff in M. apply Z.ltb_lt in M. exact M.
Qed.

(** ** the best point, the first of them *)
Definition fbest (p0 p : pt E) (m : dbl) (acc : list (pt E * dbl)) : Prop :=
  (m = DBL_MAX /\ p = p0 /\ forall y d, In (y, d) acc -> dlt d DBL_MAX = false) \/
  (exists a1 a2, acc = a1 ++ (p, m) :: a2 /\ dlt m DBL_MAX = true /\ (forall y d, In (y, d) acc -> dlt d m = false) /\
     (forall y d, In (y, d) a1 -> dlt d DBL_MAX = true -> dlt m d = true)).
Lemma fbest_of p0 p m acc : fbest p0 p m acc -> best_of E p0 acc p.
Proof.
  intros [(_ & H1 & H2)|(a1 & a2 & H)]; [left; auto|right]. exists a1, m, a2. exact H.
Qed.
Lemma fbest_snoc : forall p0 p m acc x c, fbest p0 p m acc ->
  fbest p0 (if dlt c m then x else p) (if dlt c m then c else m) (acc ++ [(x, c)]).
Proof.
  intros p0 p m acc x c H. destruct (dlt c m) eqn:L.
  - right. exists acc, []. split; [reflexivity|].
    assert (N : forall y d, In (y, d) acc -> dlt d m = false) by (destruct H as [(-> & _ & H)|(a1 & a2 & _ & _ & H & _)]; exact H).
    split; [destruct H as [(-> & _ & _)|(a1 & a2 & _ & M & _)]; [exact L|exact (dlt_trans _ _ _ L M)]|]. split.
    + intros y d Y. apply in_app_iff in Y. destruct Y as [Y|[Y|[]]]; [|injection Y as <- <-; apply lt_irrefl'].
      destruct (dlt d c) eqn:X; auto. rewrite <- (N y d Y). symmetry. exact (dlt_trans _ _ _ X L).
    + intros y d Y DM. exact (lt_of_not c m d (N y d Y) DM L).
  - destruct H as [(-> & -> & H)|(a1 & a2 & -> & M & H & F)].
    + left. split; auto. split; auto. intros y d Y. apply in_app_iff in Y. destruct Y as [Y|[Y|[]]]; eauto. injection Y as <- <-. exact L.
    + right. exists a1, (a2 ++ [(x, c)]). rewrite <- app_assoc. split; [reflexivity|]. split; [exact M|]. split; [|exact F].
      intros y d Y. rewrite app_assoc in Y. apply in_app_iff in Y. destruct Y as [Y|[Y|[]]]; eauto. injection Y as <- <-. exact L.
Qed.

(** ** evaluations *)
Definition ext {A} (t t' : list A) : Prop := exists l, t' = t ++ l.
Lemma ext_refl {A} (t : list A) : ext t t. Proof. exists []. now rewrite app_nil_r. Qed.
Lemma ext_trans {A} (a b c : list A) : ext a b -> ext b c -> ext a c.
Proof. intros [l ->] [k ->]. exists (l ++ k). now rewrite app_assoc. Qed.
Lemma ext_prepare x b t : ext t (prepare E x b t).
Proof. unfold prepare. destruct (ev_set E x); [exists [(x, b)]; reflexivity|apply ext_refl]. Qed.
Lemma ext_fold l : forall t, ext t (fold_left (fun t z => prepare E z true t) l t).
Proof. induction l as [|x l IH]; intro t; [apply ext_refl|]. simpl. exact (ext_trans _ _ _ (ext_prepare x true t) (IH _)). Qed.
Lemma ext_candidate x d t y c t1 : compute_candidate E x d t = (y, c, t1) -> ext t t1.
Proof. unfold compute_candidate. destruct (ev_plus E x d) as [[] z]; intro H; injection H as _ _ <-; [apply ext_prepare|apply ext_refl]. Qed.
Lemma ext_inner k xc on y c mcc t y' c' mcc' on' useful t2 : do_inner E Op k xc on y c mcc t = (y', c', mcc', on', useful, t2) -> ext t t2.
Proof.
  unfold do_inner. destruct (_ || _); [intro H; injection H as _ _ _ _ _ <-; apply ext_refl|].
  destruct (ev_cost E _); intro H; injection H as _ _ _ _ _ <-; apply ext_prepare.
Qed.
Lemma body_trace s s2 go : body s = (s2, go) -> ext (s_trace E s) (s_trace E s2).
Proof.
  intro H. apply body_cases in H. inversion H; subst.
  - match goal with X : s_trace E s2 = _ |- _ => rewrite X end. apply ext_refl.
  - match goal with X : s_trace E s2 = _ |- _ => rewrite X end. apply ext_refl.
  - match goal with X : compute_candidate _ _ _ _ = _ |- _ => pose proof (ext_trans _ _ _ (ext_fold visited (s_trace E s)) (ext_candidate _ _ _ _ _ _ X)) as A end.
    match goal with X : do_inner _ _ _ _ _ _ _ _ _ = _ |- _ => pose proof (ext_trans _ _ _ A (ext_inner _ _ _ _ _ _ _ _ _ _ _ _ _ X)) as B end.
    match goal with Z : _ \/ _ |- _ => destruct Z as [X|[X|[X|X]]] end.
    + destruct X as (_ & _ & _ & -> & _). exact B.
    + destruct X as (_ & _ & _ & -> & _). exact (ext_trans _ _ _ B (ext_prepare _ _ _)).
    + destruct X as (_ & _ & xc & j & g & _ & _ & _ & _ & -> & _). exact (ext_trans _ _ _ B (ext_prepare _ _ _)).
    + destruct X as (_ & _ & _ & _ & _ & _ & -> & _). exact B.
Qed.

Lemma points_app l1 l2 : evaluated_points E (l1 ++ l2) = evaluated_points E l1 ++ evaluated_points E l2.
Proof. unfold evaluated_points. apply flat_map_app. Qed.
Lemma rounds_app l1 l2 : rounds E (l1 ++ l2) = rounds E l1 ++ rounds E l2.
Proof. unfold rounds. apply flat_map_app. Qed.
Lemma points_map l : evaluated_points E (map (fun e => Evaluated (fst e) (snd e)) l) = l.
Proof. induction l as [|[x b] l IH]; [reflexivity|]. simpl. now rewrite IH. Qed.
Lemma rounds_map l : rounds E (map (fun e => Evaluated (fst e) (snd e)) l) = [].
Proof. induction l as [|[x b] l IH]; [reflexivity|]. simpl. exact IH. Qed.
Lemma fold_last (l : list (pt E * bool)) : forall u, l <> [] -> exists t b, l = t ++ [(fold_left (fun _ e => fst e) l u, b)].
Proof.
  induction l as [|[x b] l IH]; intros u H; [congruence|]. simpl. destruct l as [|e l].
  - exists [], b. reflexivity.
  - destruct (IH x) as (t & b' & Q); [discriminate|]. exists ((x, b) :: t), b'. rewrite Q at 1. reflexivity.
Qed.

Section Inv.
Variable p0 x0 : pt E.

(** what was said about one round of callbacks; [acc]: the accepted points up to now *)
Definition round_ok (acc : list (pt E * dbl)) (l1 : list (event E)) (its : list iter_summary) (p : pt E) (n : nat) : Prop :=
  called E users its p n /\
  (update = true -> accepting E p0 -> exists a1 a2, acc = a1 ++ a2 /\ length a1 = num_successful its /\ best_of E p0 a1 p) /\
  (update = false -> ecb = false -> p = p0) /\
  (update = false -> ecb = true -> accepting E p0 -> evaluated_last E l1 p).
Definition rounds_ok (acc : list (pt E * dbl)) (l : list (event E)) : Prop :=
  forall l1 its p n l2, l = l1 ++ Called its p n :: l2 -> round_ok acc l1 its p n /\ (rounds E l2 <> [] -> n = length users).
Definition all_called (l : list (event E)) : Prop := forall its p n, In (Called its p n) l -> n = length users.
Definition user_ok (m : smem E) : Prop :=
  (update = false -> ecb = false -> user E m = p0) /\
  (update = false -> ecb = true -> accepting E p0 -> evaluated_last E (events E m) (user E m)).

Record common (s : state E) (m : smem E) : Prop := {
  k_best : fbest p0 (s_params E s) (s_min E s) (s_accepted E s);
  k_rounds : one_per_iteration E (s_iters E s) (events E m);
  k_trace : evaluated_points E (events E m) = s_trace E s;
  k_ok : rounds_ok (s_accepted E s) (events E m);
  k_user : user_ok m;
  k_evs : forall y d, In (y, d) (s_accepted E s) -> exists j, ev_jac E y = Some (d, j) }.
Record inv (s : state E) (m : smem E) : Prop := {
  i_common : common s m;
  i_counts : counts E Op s;
  i_cur : ev_jac E (s_x E s) = Some (s_xcost E s, s_jac E s);
  i_called : all_called (events E m) }.

Lemma seq_rounds (l : list iter_summary) i : map (fun k => firstn (S k) (l ++ [i])) (seq 0 (length (l ++ [i]))) =
  map (fun k => firstn (S k) l) (seq 0 (length l)) ++ [l ++ [i]].
Proof.
  rewrite app_length. cbn [length]. rewrite seq_app, map_app. f_equal.
  - apply map_ext_in. intros k Hk. apply in_seq in Hk. rewrite firstn_app. replace (S k - length l)%nat with 0%nat by lia. now rewrite app_nil_r.
  - cbn [seq map]. rewrite firstn_all2 by (rewrite app_length; simpl; lia). reflexivity.
Qed.

Lemma finalize_inv s m s1 m1 go : inv s m -> mfinalize s m = (s1, m1, go) ->
  common s1 m1 /\ counts_end E Op s1 /\ ev_jac E (s_x E s1) = Some (s_xcost E s1, s_jac E s1) /\
  (go = true -> all_called (events E m1) /\ Z.of_nat (length (s_iters E s1)) <= o_max_iter Op).
Proof.
  intros [[B R T K U V] C J A] H. destruct (mfinalize_shape _ _ _ _ _ H) as (t & n & -> & G & M). cbv zeta in M. destruct M as (-> & CU & N).
  pose proof (finalize_book_counts E Op s C) as CE.
  set (s' := finalize_book E s) in *. set (u := StateUpdatingCallback E update garble (s_params E s') (user E m)) in *.
  assert (IT : exists i, s_iters E s' = s_iters E s ++ [i] /\ is_successful i = is_successful (s_cur E s)) by (eexists; split; reflexivity).
  destruct IT as (i & IT & IS).
  assert (B' : fbest p0 (s_params E s') (s_min E s') (s_accepted E s')).
  { unfold s', finalize_book. cbn [s_params s_min s_accepted]. destruct (is_successful (s_cur E s)); cbn [andb]; [apply fbest_snoc|]; exact B. }
  assert (V' : forall y d, In (y, d) (s_accepted E s') -> exists j, ev_jac E y = Some (d, j)).
  { unfold s', finalize_book. cbn [s_accepted]. destruct (is_successful (s_cur E s)); [|exact V]. intros y d Y. apply in_app_iff in Y.
    destruct Y as [Y|[Y|[]]]; [eauto|]. injection Y as <- <-. eauto. }
  assert (X' : ext (s_accepted E s) (s_accepted E s')).
  { unfold s', finalize_book. cbn [s_accepted]. destruct (is_successful (s_cur E s)); [eexists; reflexivity|apply ext_refl]. }
  assert (NS : length (s_accepted E s') = num_successful (s_iters E s')).
  { destruct CE as [_ O _ Ac _]. unfold num_successful. unfold n_ok in O. lia. }
  assert (PS : accepting E p0 -> ev_set E (s_params E s') = true).
  { intros [P1 P2]. destruct B' as [(_ & -> & _)|(a1 & a2 & Q & _)]; [exact P1|].
    destruct (V' (s_params E s') (s_min E s')) as [j Jj]; [rewrite Q; apply in_app_iff; right; left; reflexivity|]. exact (P2 _ _ _ Jj). }
  assert (UO : user_ok (mkMem E u (events E m ++ [Called (s_iters E s') u n]))).
  { destruct U as [U1 U2]. split; cbn [user events].
    - intros Hu He. unfold u, StateUpdatingCallback. rewrite Hu. auto.
    - intros Hu He Ha. destruct (U2 Hu He Ha) as (tt & b & Q). exists tt, b. rewrite points_app, Q. cbn. rewrite app_nil_r. unfold u, StateUpdatingCallback. rewrite Hu. reflexivity. }
  assert (RO : round_ok (s_accepted E s') (events E m) (s_iters E s') u n).
  { split; [exact CU|]. split; [|split].
    - intros Hu Ha. exists (s_accepted E s'), []. rewrite app_nil_r. split; [reflexivity|]. split; [exact NS|].
      unfold u, StateUpdatingCallback, write_state. rewrite Hu, (PS Ha). exact (fbest_of _ _ _ _ B').
    - intros Hu He. unfold u, StateUpdatingCallback. rewrite Hu. apply U; auto.
    - intros Hu He Ha. unfold u, StateUpdatingCallback. rewrite Hu. apply U; auto. }
  split; [|split; [apply counts_end_term; exact CE|split; [exact J|]]].
  - split; cbn [set_term s_params s_min s_accepted s_iters s_trace events].
    + exact B'.
    + unfold one_per_iteration in *. rewrite rounds_app, R. rewrite IT. symmetry. apply seq_rounds.
    + rewrite points_app, T. cbn. apply app_nil_r.
    + intros l1 its p k l2 Q. destruct (exists_last (l := Called its p k :: l2)) as (l2' & e & Q2); [discriminate|].
      rewrite Q2, app_assoc in Q. apply app_inj_tail in Q. destruct Q as [Q <-].
      destruct l2' as [|e l2'].
      * cbn [app] in Q2. injection Q2 as -> -> -> ->. rewrite app_nil_r in Q. subst l1. split; [exact RO|]. intro F. exfalso. apply F. reflexivity.
      * cbn [app] in Q2. injection Q2 as <- ->. destruct (K l1 its p k l2' Q) as [(K1 & K2 & K3 & K4) _]. split.
        -- split; [exact K1|]. split; [|auto]. intros Hu Ha. destruct (K2 Hu Ha) as (a1 & a2 & A1 & A2). destruct X' as [xs ->]. exists a1, (a2 ++ xs).
           rewrite A1, app_assoc. auto.
        -- intros _. apply (A its p k). rewrite Q. apply in_app_iff. right. left. reflexivity.
    + exact UO.
    + exact V'.
  - intros ->. split.
    + cbn [events]. intros its p k I. apply in_app_iff in I. destruct I as [I|[I|[]]]; [exact (A _ _ _ I)|]. injection I as <- <- <-. exact (N eq_refl).
    + specialize (G eq_refl). rewrite (ct_cur E Op s C) in G. cbn [set_term s_iters]. rewrite IT, app_length. cbn [length]. lia.
Qed.

Lemma body_common s m s2 go : common s m -> body s = (s2, go) -> common s2 (evaluations (s_trace E s) (s_trace E s2) m).
Proof.
  intros [B R T K U V] H. destruct (body_trace _ _ _ H) as [l L].
  assert (EV : evaluations (s_trace E s) (s_trace E s2) m =
    mkMem E (if ecb then fold_left (fun _ e => fst e) l (user E m) else user E m) (events E m ++ map (fun e => Evaluated (fst e) (snd e)) l)).
  { unfold UstModel.evaluations. rewrite L, skipn_app, skipn_all, Nat.sub_diag. reflexivity. }
  rewrite EV. apply body_cases in H.
  assert (S : s_params E s2 = s_params E s /\ s_min E s2 = s_min E s /\ s_accepted E s2 = s_accepted E s /\ s_iters E s2 = s_iters E s)
    by (inversion H; subst; auto).
  destruct S as (S1 & S2 & S3 & S4). split; cbn [events user]; rewrite ?S1, ?S2, ?S3, ?S4.
  - exact B.
  - unfold one_per_iteration. rewrite rounds_app, rounds_map, app_nil_r. exact R.
  - rewrite points_app, points_map, T. symmetry. exact L.
  - intros l1 its p n l2 Q.
    assert (exists l2', events E m = l1 ++ Called its p n :: l2' /\ l2 = l2' ++ map (fun e => Evaluated (fst e) (snd e)) l) as (l2' & Q1 & Q2).
    { clear -Q. revert Q. generalize (events E m) as ev. induction l1 as [|e l1 IH]; intros [|f ev] Q; cbn [app] in Q.
      - destruct l; discriminate.
      - injection Q as -> <-. exists ev. auto.
      - exfalso. assert (I : In (Called its p n) (map (fun e : pt E * bool => Evaluated (fst e) (snd e)) l)) by (rewrite Q; right; apply in_app_iff; right; left; reflexivity).
        apply in_map_iff in I. destruct I as (? & I & _). discriminate.
      - injection Q as -> Q. destruct (IH ev Q) as (l2' & Q1 & Q2). exists l2'. rewrite Q1. auto. }
    destruct (K _ _ _ _ _ Q1) as [K1 K2]. split; [exact K1|]. intro N. apply K2. intro Z. apply N. rewrite Q2, rounds_app, Z, rounds_map. reflexivity.
  - destruct U as [U1 U2]. split; cbn [user events].
    + intros Hu He. rewrite He. auto.
    + intros Hu He Ha. rewrite He. destruct l as [|e l].
      * cbn [map fold_left]. rewrite app_nil_r. exact (U2 Hu He Ha).
      * destruct (fold_last (e :: l) (user E m)) as (tt & b & Q); [discriminate|]. exists (evaluated_points E (events E m) ++ tt), b.
        rewrite points_app, points_map. rewrite <- app_assoc. f_equal. exact Q.
  - exact V.
Qed.

Lemma body_inv s m s2 : common s m -> counts_end E Op s -> Z.of_nat (length (s_iters E s)) <= o_max_iter Op ->
  ev_jac E (s_x E s) = Some (s_xcost E s, s_jac E s) -> all_called (events E m) ->
  body s = (s2, true) -> inv s2 (evaluations (s_trace E s) (s_trace E s2) m).
Proof.
  intros C CE L J A H. split.
  - exact (body_common _ _ _ _ C H).
  - exact (body_counts E Op s s2 CE L H).
  - apply body_cases in H. inversion H; subst.
    + match goal with X : s_x E s2 = _, Y : s_xcost E s2 = _, Z : s_jac E s2 = _ |- _ => rewrite X, Y, Z end. exact J.
    + match goal with Z : _ \/ _ |- _ => destruct Z as [X|[X|[X|X]]] end; try (destruct X; discriminate).
      * destruct X as (_ & _ & xc & j & g & X1 & -> & -> & -> & _). exact (evaluate_gradient_jac E _ _ _ _ X1).
      * destruct X as (_ & _ & _ & -> & -> & -> & _). exact J.
  - unfold UstModel.evaluations. cbn [events]. intros its p n I. apply in_app_iff in I. destruct I as [I|I]; [exact (A _ _ _ I)|].
    apply in_map_iff in I. destruct I as (? & I & _). discriminate.
Qed.

Lemma mloop_inv : forall fuel s m s' m', inv s m -> mloop fuel s m = Some (s', m') -> common s' m' /\ counts_end E Op s'.
Proof.
  induction fuel as [|f IH]; intros s m s' m' I H; cbn [UstModel.mloop] in H; destruct (mfinalize s m) as [[s1 m1] go] eqn:F;
    destruct (finalize_inv _ _ _ _ _ I F) as (C & CE & J & G); destruct go; try discriminate.
  - injection H as <- <-. auto.
  - destruct (body s1) as [s2 go2] eqn:B. destruct (G eq_refl) as [A L]. destruct go2.
    + eapply IH; [|exact H]. apply body_inv; assumption.
    + injection H as <- <-. split; [exact (body_common _ _ _ _ C B)|exact (body_counts_end E Op _ _ CE B)].
  - injection H as <- <-. auto.
Qed.
Lemma mloop_terminates : forall fuel s m, inv s m ->
  o_max_iter Op - Z.of_nat (length (s_iters E s)) <= Z.of_nat fuel -> mloop fuel s m <> None.
Proof.
  induction fuel as [|f IH]; intros s m I L; cbn [UstModel.mloop]; destruct (mfinalize s m) as [[s1 m1] go] eqn:F;
    destruct (finalize_inv _ _ _ _ _ I F) as (C & CE & J & G); destruct go; try discriminate.
  - destruct (mfinalize_shape _ _ _ _ _ F) as (t & n & _ & Q & _). specialize (Q eq_refl). rewrite (ct_cur E Op s (i_counts _ _ I)) in Q. lia.
  - destruct (body s1) as [s2 go2] eqn:B. destruct go2; [|discriminate]. destruct (G eq_refl) as [A L1].
    apply IH; [apply body_inv; assumption|].
    assert (I2 : s_iters E s2 = s_iters E s1) by (apply body_cases in B; inversion B; auto).
    destruct (mfinalize_shape _ _ _ _ _ F) as (t & n & -> & _).
    rewrite I2. unfold finalize_book. cbn [set_term s_iters]. rewrite app_length. cbn [length]. lia.
Qed.
End Inv.
End P.
