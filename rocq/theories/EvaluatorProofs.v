(* Proofs about ProgramEvaluator::Evaluate. *)

From Coq Require Import List Arith Bool Reals Permutation Lia Lra.
From Verif Require Import EvaluatorModel EvaluatorSpec.
Import ListNotations.
Local Open Scope R_scope.

(* ------------------------------------------------------------------ *)
(* sums                                                                 *)

Fixpoint suml {A} (f : A -> R) (l : list A) : R :=
  match l with [] => 0 | x :: r => f x + suml f r end.

Lemma suml_app {A} (f : A -> R) l1 l2 : suml f (l1 ++ l2) = suml f l1 + suml f l2.
Proof. induction l1 as [|x l IH]; cbn; [lra|]. rewrite IH. lra. Qed.

Lemma suml_perm {A} (f : A -> R) l1 l2 : Permutation l1 l2 -> suml f l1 = suml f l2.
Proof. induction 1; cbn; lra. Qed.

Lemma suml_ext {A} (f g : A -> R) l :
  (forall x, In x l -> f x = g x) -> suml f l = suml g l.
Proof.
  induction l as [|x l IH]; intros H; cbn; [auto|].
  rewrite (H x (or_introl eq_refl)), IH; [auto|]. intros y I. apply H. now right.
Qed.

Lemma sumn_ext n : forall f g, (forall i, (i < n)%nat -> f i = g i) -> sumn n f = sumn n g.
Proof.
  induction n as [|n IH]; intros f g H; cbn; [auto|].
  rewrite (IH f g) by (intros; apply H; lia). now rewrite H by lia.
Qed.

Lemma sumn_zero n : sumn n (fun _ => 0) = 0.
Proof. induction n as [|n IH]; cbn; lra. Qed.

Lemma sumn_plus n f g : sumn n (fun i => f i + g i) = sumn n f + sumn n g.
Proof. induction n as [|n IH]; cbn; lra. Qed.

Lemma sumn_split a b f : sumn (a + b) f = sumn a f + sumn b (fun i => f (a + i)%nat).
Proof.
  induction b as [|b IH]; cbn; [rewrite Nat.add_0_r; lra|].
  rewrite Nat.add_succ_r. cbn. rewrite IH. lra.
Qed.

Lemma suml_seq n f : suml f (seq 0 n) = sumn n f.
Proof.
  induction n as [|n IH]; [reflexivity|].
  rewrite seq_S, suml_app, IH. cbn. lra.
Qed.

Lemma sum_threads_eq T f : sum_threads T f = sumn T f.
Proof.
  rewrite <- suml_seq. unfold sum_threads.
  assert (G : forall l a, fold_left (fun a t => a + f t) l a = a + suml f l).
  { induction l as [|x l IH]; intros a; cbn; [lra|]. rewrite IH. lra. }
  rewrite G. lra.
Qed.

Lemma sumn_set_at T f t x : (t < T)%nat ->
  sumn T (set_at f t x) = sumn T f + (x - f t).
Proof.
  intros H. induction T as [|T IH]; [lia|]. cbn.
  destruct (Nat.eq_dec t T) as [->|N].
  - unfold set_at at 2. rewrite Nat.eqb_refl.
    rewrite (sumn_ext T (set_at f T x) f); [lra|].
    intros i Hi. unfold set_at. replace (T =? i)%nat with false; [auto|].
    symmetry. apply Nat.eqb_neq. lia.
  - rewrite IH by lia. unfold set_at at 1.
    replace (t =? T)%nat with false by (symmetry; apply Nat.eqb_neq; lia). lra.
Qed.

(* ------------------------------------------------------------------ *)
(* layout                                                               *)

Lemma layout_nth bs : forall pos i b, nth_error bs i = Some b ->
  nth_error (residual_layout pos bs) i = Some (pos + rows_before bs i)%nat.
Proof.
  induction bs as [|b0 bs IH]; intros pos [|i] b H; cbn in H; try discriminate.
  - cbn. unfold rows_before. cbn. now rewrite Nat.add_0_r.
  - cbn [residual_layout nth_error]. rewrite (IH _ _ _ H). unfold rows_before, list_sum.
    cbn. f_equal. lia.
Qed.

Lemma num_residuals_sum bs : num_residuals bs = list_sum (map bl_num bs).
Proof.
  unfold num_residuals.
  assert (G : forall n, fold_left (fun n b => (n + bl_num b)%nat) bs n =
                        (n + list_sum (map bl_num bs))%nat).
  { induction bs as [|b bs IH]; intros n; [cbn; lia|].
    cbn [fold_left map]. rewrite IH. unfold list_sum. cbn. lia. }
  apply G.
Qed.

Lemma rows_before_S bs i b : nth_error bs i = Some b ->
  rows_before bs (S i) = (rows_before bs i + bl_num b)%nat.
Proof.
  intros H. unfold rows_before. apply nth_error_split in H as (l1 & l2 & -> & <-).
  rewrite !firstn_app, Nat.sub_diag.
  replace (S (length l1) - length l1)%nat with 1%nat by lia.
  rewrite firstn_all, (firstn_all2 (n := S (length l1))) by lia. cbn [firstn].
  rewrite app_nil_r, map_app, list_sum_app. cbn. lia.
Qed.

Lemma rows_before_le bs i j : (i <= j)%nat -> (rows_before bs i <= rows_before bs j)%nat.
Proof.
  intros H. unfold rows_before.
  rewrite <- (firstn_skipn i (firstn j bs)), map_app, list_sum_app, firstn_firstn.
  replace (Nat.min i j) with i by lia. lia.
Qed.

Lemma rows_total bs i b : nth_error bs i = Some b ->
  (rows_before bs i + bl_num b <= num_residuals bs)%nat.
Proof.
  intros H. rewrite <- (rows_before_S _ _ _ H), num_residuals_sum.
  replace (list_sum (map bl_num bs)) with (rows_before bs (length bs)).
  - apply rows_before_le. apply nth_error_Some. congruence.
  - unfold rows_before. now rewrite firstn_all.
Qed.

Lemma in_range_iff off n k : in_range off n k = true <-> (off <= k < off + n)%nat.
Proof.
  unfold in_range. rewrite andb_true_iff, Nat.leb_le, Nat.ltb_lt. lia.
Qed.

(* the rows of two different blocks are different *)
Lemma rows_apart bs i j a b k :
  nth_error bs i = Some a -> nth_error bs j = Some b ->
  in_range (rows_before bs i) (bl_num a) k = true ->
  in_range (rows_before bs j) (bl_num b) k = true -> i = j.
Proof.
  intros Ha Hb Ra Rb. apply in_range_iff in Ra, Rb.
  pose proof (rows_before_S _ _ _ Ha). pose proof (rows_before_S _ _ _ Hb).
  destruct (Nat.lt_trichotomy i j) as [L|[E|L]]; [|auto|].
  - pose proof (rows_before_le bs (S i) j ltac:(lia)). lia.
  - pose proof (rows_before_le bs (S j) i ltac:(lia)). lia.
Qed.

(* ------------------------------------------------------------------ *)
(* jacobian and gradient of one block                                   *)

(* the last matching parameter block *)
Fixpoint col_entry (j : nat) (ps : list pref) (jac : nat -> nat -> nat -> R) (k c : nat)
  : option R :=
  match ps with
  | [] => None
  | p :: rest =>
      match col_entry (S j) rest jac k c with
      | Some x => Some x
      | None =>
          if negb (pr_constant p) && in_range (pr_offset p) (pr_tangent p) c
          then Some (jac j k (c - pr_offset p)%nat) else None
      end
  end.

Fixpoint col_sum (j : nat) (ps : list pref) (jac : nat -> nat -> nat -> R) (k c : nat) : R :=
  match ps with
  | [] => 0
  | p :: rest =>
      (if negb (pr_constant p) && in_range (pr_offset p) (pr_tangent p) c
       then jac j k (c - pr_offset p)%nat else 0) + col_sum (S j) rest jac k c
  end.

Lemma write_jacobian_eq off num jac : forall ps j M r c,
  write_jacobian off num j ps jac M r c =
  if in_range off num r then
    match col_entry j ps jac (r - off) c with Some x => x | None => M r c end
  else M r c.
Proof.
  induction ps as [|p ps IH]; intros j M r c; cbn [write_jacobian col_entry].
  - now destruct (in_range off num r).
  - rewrite IH. destruct (in_range off num r) eqn:E.
    + destruct (col_entry (S j) ps jac (r - off) c); [auto|].
      destruct (pr_constant p); cbn [negb andb]; [auto|]. rewrite E. cbn [andb].
      now destruct (in_range (pr_offset p) (pr_tangent p) c).
    + destruct (pr_constant p); [auto|]. now rewrite E.
Qed.

Lemma add_gradient_eq num jac r : forall ps j g c,
  add_gradient num j ps jac r g c =
  g c + sumn num (fun k => col_sum j ps jac k c * r k).
Proof.
  induction ps as [|p ps IH]; intros j g c; cbn [add_gradient col_sum].
  - rewrite (sumn_ext num _ (fun _ => 0)) by (intros; lra). rewrite sumn_zero. lra.
  - rewrite IH. destruct (pr_constant p); cbn [negb andb].
    + f_equal. apply sumn_ext. intros. lra.
    + destruct (in_range (pr_offset p) (pr_tangent p) c).
      * rewrite Rplus_assoc. f_equal. rewrite <- sumn_plus.
        apply sumn_ext. intros. lra.
      * f_equal. apply sumn_ext. intros. lra.
Qed.

Lemma columns_tail p ps : columns_apart (p :: ps) -> columns_apart ps.
Proof.
  intros H j k q q' c A B C D E F.
  assert (S j = S k) by (apply (H (S j) (S k) q q' c); auto). lia.
Qed.

Lemma col_sum_none ps jac k c : forall j,
  (forall i p, nth_error ps i = Some p -> pr_constant p = false ->
     in_range (pr_offset p) (pr_tangent p) c = false) ->
  col_sum j ps jac k c = 0 /\ col_entry j ps jac k c = None.
Proof.
  induction ps as [|p ps IH]; intros j H; cbn; [auto|].
  destruct (IH (S j)) as [A B]; [intros i q N; apply (H (S i) q N)|].
  rewrite A, B. destruct (pr_constant p) eqn:C; cbn; [split; [lra|auto]|].
  rewrite (H 0%nat p eq_refl C). split; [lra|auto].
Qed.

Lemma col_cases ps jac k c : forall j, columns_apart ps ->
  (exists i p, nth_error ps i = Some p /\ pr_constant p = false /\
     in_range (pr_offset p) (pr_tangent p) c = true /\
     col_sum j ps jac k c = jac (j + i)%nat k (c - pr_offset p)%nat /\
     col_entry j ps jac k c = Some (jac (j + i)%nat k (c - pr_offset p)%nat)) \/
  ((forall i p, nth_error ps i = Some p -> pr_constant p = false ->
     in_range (pr_offset p) (pr_tangent p) c = false) /\
   col_sum j ps jac k c = 0 /\ col_entry j ps jac k c = None).
Proof.
  induction ps as [|p ps IH]; intros j AP.
  - right. split; [intros [|i] p H; discriminate|]. auto.
  - destruct (negb (pr_constant p) && in_range (pr_offset p) (pr_tangent p) c) eqn:M.
    + apply andb_true_iff in M as [M1 M2]. apply negb_true_iff in M1. left.
      assert (NO : forall i q, nth_error ps i = Some q -> pr_constant q = false ->
                 in_range (pr_offset q) (pr_tangent q) c = false).
      { intros i q N C. apply not_true_is_false. intros T.
        assert (0 = S i)%nat by (apply (AP 0%nat (S i) p q c); auto). lia. }
      destruct (col_sum_none ps jac k c (S j) NO) as [A B].
      exists 0%nat, p. cbn [nth_error col_sum col_entry]. rewrite A, B, M1, M2. cbn.
      rewrite Nat.add_0_r. repeat (split; [auto; lra|]). auto.
    + cbn [col_sum col_entry]. rewrite M.
      destruct (IH (S j) (columns_tail _ _ AP)) as [(i & q & N & C & I & A & B)|(N & A & B)].
      * left. exists (S i), q. rewrite A, B.
        replace (S j + i)%nat with (j + S i)%nat by lia.
        split; [exact N|]. split; [exact C|]. split; [exact I|]. split; [lra|auto].
      * right. rewrite A, B. split; [|split; [lra|auto]].
        intros [|i] q H C; [|apply (N i q H C)].
        cbn in H. injection H as <-. rewrite C in M. exact M.
Qed.

(* ------------------------------------------------------------------ *)
(* runs in which every block succeeds                                   *)

Definition start (rq : request) (bs : list block) (old : outputs) : shared :=
  mkshared
    (if rq_residuals rq then fun k => if (k <? num_residuals bs)%nat then 0 else o_residuals old k
     else o_residuals old)
    (if rq_jacobian rq then fun _ _ => 0 else o_jacobian old)
    (fun _ => 0) (fun _ _ => 0) false (fun _ => false).

Definition run_all rq bs thread sched s : shared :=
  fold_left (fun s e => do_step rq bs (residual_layout 0 bs) thread e s) sched s.

Definition blk (bs : list block) (i : nat) : block := nth i bs (mkblock 0 [] None).

Definition grad_of (b : block) (c : nat) : R :=
  sumn (bl_num b) (fun k => col_sum 0 (bl_params b) (jacobian_of b) k c * residual_of b k).

Record done (rq : request) (bs : list block) (old : outputs) (T : nat)
    (l : list nat) (s : shared) : Prop := mkdone {
  d_abort : sh_abort s = false;
  d_skip : forall i, sh_skip s i = false;
  d_res_in : rq_residuals rq = true -> forall i b k, In i l -> nth_error bs i = Some b ->
     in_range (rows_before bs i) (bl_num b) k = true ->
     sh_residuals s k = residual_of b (k - rows_before bs i);
  d_res_out : forall k, (rq_residuals rq = true -> forall i b, In i l ->
       nth_error bs i = Some b -> in_range (rows_before bs i) (bl_num b) k = false) ->
     sh_residuals s k = sh_residuals (start rq bs old) k;
  d_jac_in : rq_jacobian rq = true -> forall i b k c, In i l -> nth_error bs i = Some b ->
     in_range (rows_before bs i) (bl_num b) k = true ->
     sh_jacobian s k c = match col_entry 0 (bl_params b) (jacobian_of b)
                                 (k - rows_before bs i) c with Some x => x | None => 0 end;
  d_jac_out : forall k c, (rq_jacobian rq = true -> forall i b, In i l ->
       nth_error bs i = Some b -> in_range (rows_before bs i) (bl_num b) k = false) ->
     sh_jacobian s k c = sh_jacobian (start rq bs old) k c;
  d_cost : sumn T (sh_cost s) = suml (fun i => cost_of (blk bs i)) l;
  d_grad : rq_gradient rq = true -> forall c,
     sumn T (fun t => sh_gradient s t c) = suml (fun i => grad_of (blk bs i) c) l
}.

Lemma done_start rq bs old T : done rq bs old T [] (start rq bs old).
Proof.
  constructor; cbn; auto.
  - intros _ i b k [].
  - intros _ i b k c [].
  - apply sumn_zero.
  - intros _ c. apply sumn_zero.
Qed.

Lemma done_check rq bs old T l s i lay th :
  done rq bs old T l s -> done rq bs old T l (do_step rq bs lay th (Check i) s).
Proof.
  intros []. constructor; auto.
  intros j. cbn. unfold set_at. rewrite d_abort0. destruct (i =? j)%nat; auto.
Qed.

Lemma done_run rq bs old T l s i th b :
  done rq bs old T l s -> nth_error bs i = Some b -> bl_eval b <> None ->
  (th i < T)%nat -> ~ In i l ->
  done rq bs old T (l ++ [i]) (do_step rq bs (residual_layout 0 bs) th (Run i) s).
Proof.
  intros [] Hb HE HT NI. cbn [do_step]. rewrite d_skip0, Hb.
  rewrite (layout_nth bs 0 i b Hb). cbn [Nat.add].
  destruct (bl_eval b) as [[[cst r] jac]|] eqn:EV; [|congruence].
  assert (BK : blk bs i = b) by (unfold blk; erewrite nth_error_nth; eauto).
  assert (Er : residual_of b = r) by (unfold residual_of; now rewrite EV).
  assert (Ej : jacobian_of b = jac) by (unfold jacobian_of; now rewrite EV).
  assert (Ec : cost_of b = cst) by (unfold cost_of; now rewrite EV).
  constructor; cbn [sh_abort sh_skip sh_residuals sh_jacobian sh_cost sh_gradient].
  - exact d_abort0.
  - exact d_skip0.
  - intros RQ j b' k I Hb' RG. rewrite RQ. unfold write_residuals.
    destruct (in_range (rows_before bs i) (bl_num b) k) eqn:IR.
    + assert (i = j) by (eapply rows_apart; eauto). subst j.
      assert (b' = b) by congruence. subst b'. now rewrite Er.
    + apply in_app_iff in I as [I|[<-|[]]]; [eauto|]. congruence.
  - intros k H. destruct (rq_residuals rq) eqn:RQ.
    + unfold write_residuals. rewrite (H eq_refl i b) by (auto using in_or_app, in_eq).
      apply d_res_out0. intros _ j b' I Hb'. apply H; auto using in_or_app.
    + apply d_res_out0. discriminate.
  - intros RQ j b' k c I Hb' RG. rewrite RQ, write_jacobian_eq.
    destruct (in_range (rows_before bs i) (bl_num b) k) eqn:IR.
    + assert (i = j) by (eapply rows_apart; eauto). subst j.
      assert (b' = b) by congruence. subst b'. rewrite Ej.
      destruct (col_entry 0 (bl_params b) jac (k - rows_before bs i) c); [auto|].
      rewrite d_jac_out0.
      * cbn. now rewrite RQ.
      * intros _ j b' I' Hb''. apply not_true_is_false. intros RG'.
        assert (i = j) by (eapply rows_apart; eauto). congruence.
    + apply in_app_iff in I as [I|[<-|[]]]; [eauto|]. congruence.
  - intros k c H. destruct (rq_jacobian rq) eqn:RQ.
    + rewrite write_jacobian_eq. rewrite (H eq_refl i b) by (auto using in_or_app, in_eq).
      apply d_jac_out0. intros _ j b' I Hb'. apply H; auto using in_or_app.
    + apply d_jac_out0. discriminate.
  - rewrite sumn_set_at by exact HT. rewrite d_cost0, suml_app. cbn. rewrite BK, Ec. lra.
  - intros RQ c. rewrite RQ. specialize (d_grad0 RQ c).
    rewrite suml_app. cbn [suml]. rewrite BK, <- d_grad0. unfold grad_of. rewrite Ej, Er.
    rewrite (sumn_ext T _ (set_at (fun t => sh_gradient s t c) (th i)
        (add_gradient (bl_num b) 0 (bl_params b) jac r (sh_gradient s (th i)) c))).
    + rewrite sumn_set_at by exact HT. rewrite add_gradient_eq. lra.
    + intros t _. unfold set_at. now destruct (th i =? t)%nat.
Qed.

Lemma run_success rq bs old T th : forall sched l s,
  all_succeed bs -> done rq bs old T l s ->
  (forall i, In i (runs sched) -> (i < length bs)%nat /\ (th i < T)%nat) ->
  NoDup (l ++ runs sched) ->
  done rq bs old T (l ++ runs sched) (run_all rq bs th sched s).
Proof.
  induction sched as [|e sched IH]; intros l s AS D HR ND.
  - cbn. now rewrite app_nil_r.
  - unfold run_all in *. cbn [fold_left]. destruct e as [i|i]; cbn [runs flat_map app] in *.
    + apply IH; auto. apply done_check, D.
    + destruct (HR i (or_introl eq_refl)) as [Hi Ht].
      destruct (nth_error bs i) as [b|] eqn:Hb.
      2: { apply nth_error_None in Hb. lia. }
      assert (EV : bl_eval b <> None).
      { unfold all_succeed in AS. rewrite Forall_forall in AS. apply AS.
        eapply nth_error_In; eauto. }
      replace (l ++ i :: flat_map _ sched)
        with ((l ++ [i]) ++ runs sched) by (rewrite <- app_assoc; reflexivity).
      replace (l ++ i :: flat_map _ sched)
        with ((l ++ [i]) ++ runs sched) in ND by (rewrite <- app_assoc; reflexivity).
      apply IH; auto.
      * eapply done_run; eauto.
        rewrite <- app_assoc in ND. apply NoDup_remove_2 in ND.
        intros I. apply ND. apply in_or_app. auto.
      * intros i' I. apply HR. now right.
Qed.

Lemma valid_done rq bs old T th sched :
  all_succeed bs -> valid_schedule (length bs) sched ->
  (forall i, (i < length bs)%nat -> (th i < T)%nat) ->
  done rq bs old T (runs sched) (run_all rq bs th sched (start rq bs old)) /\
  Permutation (runs sched) (seq 0 (length bs)).
Proof.
  intros AS (_ & PR & _) HT. split; [|exact PR].
  apply (run_success rq bs old T th sched [] _ AS (done_start rq bs old T)).
  - intros i I. apply (Permutation_in _ PR) in I. apply in_seq in I.
    split; [lia|]. apply HT. lia.
  - cbn. apply (Permutation_NoDup (Permutation_sym PR)). apply seq_NoDup.
Qed.

(* ------------------------------------------------------------------ *)
(* runs in which some block fails                                       *)

Lemma abort_mono rq bs lay th : forall sched s,
  sh_abort s = true ->
  sh_abort (fold_left (fun s e => do_step rq bs lay th e s) sched s) = true.
Proof.
  induction sched as [|e sched IH]; intros s H; cbn [fold_left]; [auto|].
  apply IH. destruct e as [i|i]; cbn; [auto|].
  destruct (sh_skip s i); [auto|]. destruct (nth_error bs i) as [b|]; [|auto].
  destruct (nth_error lay i); [|auto].
  destruct (bl_eval b) as [[[? ?] ?]|]; auto.
Qed.

Lemma skip_false rq bs th : forall sched s,
  (forall i, sh_skip s i = false) ->
  sh_abort (run_all rq bs th sched s) = false ->
  forall i b, In i (runs sched) -> nth_error bs i = Some b -> bl_eval b <> None.
Proof.
  induction sched as [|e sched IH]; intros s SK AB i b I Hb; [easy|].
  unfold run_all in *. cbn [fold_left] in AB.
  assert (A0 : sh_abort s = false).
  { destruct (sh_abort s) eqn:A; [|auto]. exfalso.
    assert (X := abort_mono rq bs (residual_layout 0 bs) th (e :: sched) s A).
    cbn [fold_left] in X. congruence. }
  destruct e as [j|j]; cbn [runs flat_map app] in I.
  - eapply IH; [|exact AB|exact I|exact Hb].
    intros i'. cbn. unfold set_at. rewrite A0. destruct (j =? i')%nat; auto.
  - destruct (Nat.eq_dec j i) as [->|N].
    + intros EV.
      assert (X : sh_abort (do_step rq bs (residual_layout 0 bs) th (Run i) s) = true).
      { cbn. rewrite SK, Hb, (layout_nth bs 0 i b Hb), EV. reflexivity. }
      rewrite (abort_mono _ _ _ _ sched _ X) in AB. discriminate.
    + destruct I as [I|I]; [congruence|].
      eapply IH; [|exact AB|exact I|exact Hb].
      intros i'. cbn. rewrite SK. destruct (nth_error bs j) as [b'|]; [|auto].
      destruct (nth_error (residual_layout 0 bs) j); [|auto].
      destruct (bl_eval b') as [[[? ?] ?]|]; cbn; auto.
Qed.

Lemma evaluate_status rq bs np T th sched old :
  valid_schedule (length bs) sched -> (forall i, (i < length bs)%nat -> (th i < T)%nat) ->
  (fst (evaluate rq bs np T th sched old) = true <-> all_succeed bs).
Proof.
  intros VS HT. unfold evaluate.
  fold (start rq bs old). fold (run_all rq bs th sched (start rq bs old)).
  destruct (sh_abort _) eqn:AB; cbn [fst]; split; try discriminate; auto.
  - intros AS. destruct (valid_done rq bs old T th sched AS VS HT) as [[] _]. congruence.
  - intros _. unfold all_succeed. apply Forall_forall. intros b I.
    apply In_nth_error in I as (i & Hb).
    eapply skip_false; [|exact AB| |exact Hb]; [reflexivity|].
    destruct VS as (_ & PR & _). apply (Permutation_in _ (Permutation_sym PR)).
    apply in_seq. assert (i < length bs)%nat by (apply nth_error_Some; congruence). lia.
Qed.

(* rows of the whole vector, block by block *)
Lemma sum_rows bs : forall f,
  sumn (num_residuals bs) f =
  sumn (length bs) (fun i => sumn (bl_num (blk bs i)) (fun k => f (rows_before bs i + k)%nat)).
Proof.
  intros f. rewrite num_residuals_sum. rewrite <- (suml_seq (length bs)).
  assert (G : forall l off, 
     sumn (list_sum (map bl_num l)) (fun k => f (off + k)%nat) =
     suml (fun i => sumn (bl_num (nth i l (mkblock 0 [] None)))
                     (fun k => f (off + rows_before l i + k)%nat)) (seq 0 (length l))).
  { induction l as [|b l IH]; intros off; [reflexivity|].
    change (list_sum (map bl_num (b :: l))) with (bl_num b + list_sum (map bl_num l))%nat.
    rewrite sumn_split. cbn [length seq suml]. cbn [nth]. f_equal.
    - apply sumn_ext. intros i _. f_equal. unfold rows_before. cbn. lia.
    - rewrite (sumn_ext _ _ (fun k => f (off + bl_num b + k)%nat))
        by (intros i _; f_equal; lia).
      rewrite IH. rewrite <- seq_shift.
      generalize (seq 0 (length l)) as is. induction is as [|i is IHi]; [reflexivity|].
      cbn [map suml]. rewrite IHi. f_equal. cbn [nth]. apply sumn_ext. intros k _. f_equal.
      unfold rows_before, list_sum. cbn. lia. }
  specialize (G bs 0%nat). cbn [Nat.add] in G. exact G.
Qed.
