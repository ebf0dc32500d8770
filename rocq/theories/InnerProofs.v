From Coq Require Import Reals List Arith Bool Lia Permutation Lra.
From Verif Require Import InnerModel InnerSpec.
Import ListNotations.

Lemma put_eq {A} (m : nat -> A) i v : put m i v i = v.
Proof. unfold put. rewrite Nat.eqb_refl. reflexivity. Qed.
Lemma put_ne {A} (m : nat -> A) i v j : j <> i -> put m i v j = m j.
Proof. intro H. unfold put. destruct (Nat.eqb_spec j i); [contradiction|reflexivity]. Qed.

(* ---------------- validity ---------------- *)

Lemma count_le_1 set r : NoDup r ->
  (count_in set r <= 1 <-> forall a b, In a set -> In b set -> In a r -> In b r -> a = b).
Proof.
  intro ND. unfold count_in. set (f := fun b => if in_dec Nat.eq_dec b set then true else false).
  assert (forall b, In b (filter f r) <-> In b r /\ In b set) as HF.
  { intro b. rewrite filter_In. unfold f. destruct (in_dec Nat.eq_dec b set); intuition discriminate. }
  assert (NoDup (filter f r)) as NF by (apply NoDup_filter, ND).
  split.
  - intros L a b Ha Hb Ra Rb. assert (In a (filter f r)) as Ia by (apply HF; auto). assert (In b (filter f r)) as Ib by (apply HF; auto).
    clear HF NF. destruct (filter f r) as [|c [|d l]].
    + destruct Ia.
    + destruct Ia as [<-|[]]. destruct Ib as [<-|[]]. reflexivity.
    + cbn in L. lia.
  - intros H. destruct (filter f r) as [|c [|d l]] eqn:E; cbn; try lia. exfalso.
    assert (In c (filter f r)) as Ic by (rewrite E; left; reflexivity). assert (In d (filter f r)) as Id by (rewrite E; right; left; reflexivity).
    destruct (proj1 (HF c)) as [C1 C2]; [left; reflexivity|]. destruct (proj1 (HF d)) as [D1 D2]; [right; left; reflexivity|].
    assert (c = d) by (apply H; assumption). subst. inversion NF; subst. apply H2. left. reflexivity.
Qed.

Lemma independent_check residuals set : Forall (@NoDup nat) residuals ->
  (IsParameterBlockSetIndependent residuals set = true <-> independent residuals set).
Proof.
  intro ND. unfold IsParameterBlockSetIndependent, independent. rewrite forallb_forall. rewrite Forall_forall in ND. split.
  - intros H r a b Hr. intros Ha Hb. specialize (H r Hr). apply negb_true_iff, Nat.ltb_ge in H.
    apply (proj1 (count_le_1 set r (ND r Hr)) H); assumption.
  - intros H r Hr. apply negb_true_iff, Nat.ltb_ge. apply (count_le_1 set r (ND r Hr)). intros a b. intros. apply (H r); assumption.
Qed.

(* ---------------- Init ---------------- *)

(* the offsets of the sets, from [a] *)
Fixpoint bounds (a : nat) (groups : list (list nat)) : list nat :=
  match groups with [] => [] | g :: rest => (a + length g) :: bounds (a + length g) rest end.

Lemma last_snoc (l : list nat) a d : last (l ++ [a]) d = a.
Proof. induction l as [|b l IH]; [reflexivity|]. cbn. destruct (l ++ [a]) eqn:E; [destruct l; discriminate|exact IH]. Qed.

Lemma serialize_spec known groups : forall blocks offsets b o,
  serialize known groups blocks offsets = Some (b, o) ->
  b = blocks ++ concat groups /\ o = offsets ++ bounds (last offsets 0) groups.
Proof.
  induction groups as [|g groups IH]; intros blocks offsets b o H; cbn [serialize] in H.
  - injection H as <- <-. cbn. rewrite !app_nil_r. split; reflexivity.
  - destruct (forallb known g); [|discriminate]. destruct (IH _ _ _ _ H) as [-> ->]. clear H IH.
    cbn [concat bounds]. rewrite <- !app_assoc, last_snoc. split; reflexivity.
Qed.

Lemma add_others_spec member program : forall st,
  let others := filter (fun b => negb (member b)) program in
  add_others member program st = (fst st ++ others, snd st ++ repeat (last (snd st) 0) (length others)).
Proof.
  induction program as [|b program IH]; intros [bl of]; cbn [add_others fold_left filter fst snd].
  - cbn. rewrite !app_nil_r. reflexivity.
  - unfold add_others in IH. destruct (member b); cbn [negb].
    + apply IH.
    + rewrite IH. cbn [fst snd]. rewrite last_snoc, <- !app_assoc. reflexivity.
Qed.

(* ---------------- solving one block ---------------- *)

Section S.
Variable S : block_solver.
Variable residuals : list (list nat).

Lemma in_residuals_of b k :
  In k (residuals_of residuals b) <-> k < length residuals /\ In b (nth k residuals []).
Proof.
  unfold residuals_of. rewrite filter_In, in_seq. destruct (in_dec Nat.eq_dec b (nth k residuals [])); intuition (try discriminate; try lia).
Qed.
Lemma visible_of b c :
  In c (visible residuals (residuals_of residuals b)) <->
  exists r, In r residuals /\ In b r /\ In c r.
Proof.
  unfold visible. rewrite in_concat. split.
  - intros (r & Hr & Hc). rewrite in_map_iff in Hr. destruct Hr as (k & <- & Hk).
    apply in_residuals_of in Hk. destruct Hk as [L I]. exists (nth k residuals []). split; [apply nth_In, L|]. split; assumption.
  - intros (r & Hr & Hb & Hc). destruct (In_nth _ _ [] Hr) as (k & L & E). exists r. split; [|exact Hc].
    apply in_map_iff. exists k. split; [exact E|]. apply in_residuals_of. rewrite E. split; assumption.
Qed.

Lemma alone_det x b l own cur r : alone S residuals x b l own cur r ->
  forall r', alone S residuals x b l own cur r' -> r = r'.
Proof.
  induction 1 as [l own cur l' v w E|l own cur l' v w r E H IH]; intros r' H'; inversion H' as [? ? ? ? v' w' E'|? ? ? ? v' w' ? E' A]; subst;
    rewrite E in E'; try discriminate.
  - injection E' as <- <- <-. reflexivity.
  - injection E' as <- <- <-. apply IH. exact A.
Qed.
Lemma solves_det x b v v' : solves S residuals x b v -> solves S residuals x b v' -> v = v'.
Proof. intros H H'. exact (alone_det _ _ _ _ _ _ H _ H'). Qed.

Lemma alone_view_ext x y b own :
  (forall c, c <> b -> (exists r, In r residuals /\ In b r /\ In c r) -> x c = y c) ->
  alone_view residuals x b own = alone_view residuals y b own.
Proof.
  intro H. unfold alone_view. apply map_ext_in. intros c Hc. destruct (Nat.eqb_spec c b) as [->|Hne]; [reflexivity|].
  rewrite (H c Hne); [reflexivity|]. apply visible_of, Hc.
Qed.
Lemma alone_ext x y b l own cur r :
  (forall c, c <> b -> (exists r, In r residuals /\ In b r /\ In c r) -> x c = y c) ->
  alone S residuals x b l own cur r -> alone S residuals y b l own cur r.
Proof.
  intros H A. induction A as [l own cur l' v w E0|l own cur l' v w r E0 A IH].
  - rewrite (alone_view_ext x y b own H) in E0. exact (alone_end _ _ _ _ _ _ _ _ _ _ E0).
  - rewrite (alone_view_ext x y b own H) in E0. exact (alone_step _ _ _ _ _ _ _ _ _ _ _ E0 IH).
Qed.
Lemma solves_ext x y b v :
  (forall c, c <> b -> (exists r, In r residuals /\ In b r /\ In c r) -> x c = y c) -> x b = y b ->
  solves S residuals x b v -> solves S residuals y b v.
Proof.
  intros H E. unfold solves. rewrite E. apply alone_ext, H.
Qed.

(* all blocks of an independent set are solved from the same point *)
Definition jacobi (x : nat -> vec) (set : list nat) (x' : nat -> vec) : Prop :=
  (forall b, In b set -> solves S residuals x b (x' b)) /\ (forall b, ~ In b set -> x' b = x b).

Lemma independent_tail set b : independent residuals (b :: set) -> independent residuals set.
Proof. intros H r c d Hr Hc Hd. apply (H r c d Hr); right; assumption. Qed.

Lemma jacobi_descent set : forall x x',
  NoDup set -> independent residuals set -> jacobi x set x' -> descent S residuals x set x'.
Proof.
  induction set as [|b set IH]; intros x x' ND HI [J1 J2].
  - constructor. intro b. symmetry. apply J2. intros [].
  - inversion ND as [|? ? N1 N2]; subst. apply (descent_cons _ _ _ _ _ (x' b)).
    + apply J1. left. reflexivity.
    + apply IH; [exact N2|exact (independent_tail _ _ HI)|]. split.
      * intros c Hc. apply (solves_ext x).
        -- intros e He (r & Hr & Ic & Ie). unfold set_block. rewrite put_ne; [reflexivity|].
           intros ->. apply He. apply (HI r b c Hr); try assumption; [left; reflexivity|right; exact Hc].
        -- unfold set_block. rewrite put_ne; [reflexivity|]. intros ->. contradiction.
        -- apply J1. right. exact Hc.
      * intros c Hc. unfold set_block. destruct (Nat.eq_dec c b) as [->|Hne]; [rewrite put_eq; reflexivity|].
        rewrite put_ne by exact Hne. apply J2. intros [->|I]; [congruence|contradiction].
Qed.

Lemma descent_ext l : forall x y x', (forall b, x b = y b) -> descent S residuals x l x' -> descent S residuals y l x'.
Proof.
  induction l as [|b l IH]; intros x y x' H D; inversion D as [? ? E|? ? ? v ? SV D']; subst.
  - constructor. intro c. rewrite <- H. apply E.
  - apply (descent_cons _ _ _ _ _ v).
    + apply (solves_ext x); auto.
    + apply (IH (set_block x b v)); [|exact D']. intro c. unfold set_block, put. rewrite H. reflexivity.
Qed.

Lemma descent_app l1 : forall x x' x'' l2,
  descent S residuals x l1 x' -> descent S residuals x' l2 x'' -> descent S residuals x (l1 ++ l2) x''.
Proof.
  induction l1 as [|b l1 IH]; intros x x' x'' l2 D1 D2; inversion D1 as [? ? E|? ? ? v ? SV D]; subst.
  - cbn. apply (descent_ext l2 x'); [|exact D2]. intro c. symmetry. apply E.
  - cbn. apply (descent_cons _ _ _ _ _ v); [exact SV|]. apply (IH _ x'); assumption.
Qed.

Lemma descent_det l : forall x x' x'', descent S residuals x l x' -> descent S residuals x l x'' -> forall b, x' b = x'' b.
Proof.
  induction l as [|b l IH]; intros x x' x'' D D2; inversion D as [? ? E|? ? ? v ? SV D']; inversion D2 as [? ? E2|? ? ? v2 ? SV2 D2']; subst.
  - intro b. rewrite <- E, <- E2. reflexivity.
  - rewrite <- (solves_det _ _ _ _ SV SV2) in D2'. apply (IH _ _ _ D' D2').
Qed.

Lemma descent_jacobi set : forall x x',
  NoDup set -> independent residuals set -> descent S residuals x set x' -> jacobi x set x'.
Proof.
  induction set as [|b set IH]; intros x x' ND HI D; inversion D as [? ? E|? ? ? v ? SV D']; subst.
  - split; [intros b []|]. intros b _. symmetry. apply E.
  - inversion ND as [|? ? N1 N2]; subst. destruct (IH _ _ N2 (independent_tail _ _ HI) D') as [J1 J2].
    assert (x' b = v) as Eb. { rewrite (J2 b N1). unfold set_block. apply put_eq. }
    split.
    + intros c [<-|Hc]; [rewrite Eb; exact SV|].
      apply (solves_ext (set_block x b v)).
      * intros e He (r & Hr & Ic & Ie). unfold set_block. rewrite put_ne; [reflexivity|].
        intros ->. apply He. apply (HI r b c Hr); try assumption; [left; reflexivity|right; exact Hc].
      * unfold set_block. rewrite put_ne; [reflexivity|]. intros ->. contradiction.
      * apply J1, Hc.
    + intros c Hc. rewrite J2 by (intro I; apply Hc; right; exact I). unfold set_block. apply put_ne. intros ->. apply Hc. left. reflexivity.
Qed.

(* ---------------- costs ---------------- *)
Local Open Scope R_scope.
Variable costs : nat -> (nat -> vec) -> R.

Lemma total_split (f : nat -> bool) ks x :
  total_cost costs ks x = total_cost costs (filter f ks) x + total_cost costs (filter (fun k => negb (f k)) ks) x.
Proof.
  unfold total_cost. induction ks as [|k ks IH]; cbn; [lra|]. destruct (f k); cbn; lra.
Qed.
Lemma total_ext ks x y : (forall k, In k ks -> costs k x = costs k y) -> total_cost costs ks x = total_cost costs ks y.
Proof.
  unfold total_cost. intro H. f_equal. apply map_ext_in, H.
Qed.

Lemma descent_cost l : forall x x',
  local_costs residuals costs -> solver_descends S residuals costs -> descent S residuals x l x' ->
  total_cost costs (seq 0 (length residuals)) x' <= total_cost costs (seq 0 (length residuals)) x.
Proof.
  induction l as [|b l IH]; intros x x' LC SD D; inversion D as [? ? E|? ? ? v ? SV D']; subst.
  - right. apply total_ext. intros k _. apply LC. intros c _. symmetry. apply E.
  - specialize (IH _ _ LC SD D'). apply Rle_trans with (1 := IH).
    set (f := fun k => if in_dec Nat.eq_dec b (nth k residuals []) then true else false).
    rewrite (total_split f _ (set_block x b v)), (total_split f _ x).
    change (filter f (seq 0 (length residuals))) with (residuals_of residuals b).
    apply Rplus_le_compat; [apply SD, SV|]. right. apply total_ext. intros k Hk. apply filter_In in Hk. destruct Hk as [_ Hk].
    apply LC. intros c Hc. unfold set_block. apply put_ne. intros ->. unfold f in Hk.
    destruct (in_dec Nat.eq_dec b (nth k residuals [])); [discriminate|contradiction].
Qed.
End S.
