From Coq Require Import Reals List Arith ZArith Bool Lia Lra.
From Verif Require Import NumDiffModel NumDiffSpec.
Import ListNotations.
Open Scope R_scope.

(* ---------------- points ---------------- *)
Lemma set_nth_length {A} (l : list A) : forall n v, length (set_nth l n v) = length l.
Proof. induction l as [|x l IH]; intros [|n] v; cbn; auto. Qed.
Lemma set_nth_same {A} (l : list A) : forall n v d, (n < length l)%nat -> nth n (set_nth l n v) d = v.
Proof. induction l as [|x l IH]; intros [|n] v d H; cbn in *; try lia; [reflexivity|]. apply IH. lia. Qed.
Lemma set_nth_twice {A} (l : list A) : forall n v w, set_nth (set_nth l n v) n w = set_nth l n w.
Proof. induction l as [|x l IH]; intros [|n] v w; cbn; try reflexivity. rewrite IH. reflexivity. Qed.
Lemma set_nth_id {A} (l : list A) : forall n d, (n < length l)%nat -> set_nth l n (nth n l d) = l.
Proof. induction l as [|x l IH]; intros [|n] d H; cbn in *; try lia; [reflexivity|]. rewrite IH by lia. reflexivity. Qed.
Lemma set_nth_eq {A} (l : list A) : forall n v, (n < length l)%nat -> set_nth l n v = firstn n l ++ v :: skipn (S n) l.
Proof. induction l as [|x l IH]; intros [|n] v H; cbn in *; try lia; [reflexivity|]. rewrite IH by lia. reflexivity. Qed.
Definition set2 (x : Point) (b j : nat) (v : R) : Point := set_nth x b (set_nth (nth b x []) j v).
Lemma set2_twice x b j v w : (b < length x)%nat -> set2 (set2 x b j v) b j w = set2 x b j w.
Proof. intro H. unfold set2. rewrite set_nth_same by exact H. rewrite !set_nth_twice. reflexivity. Qed.
Lemma set2_id x b j : valid x b j -> set2 x b j (coordinate x b j) = x.
Proof. intros [H H']. unfold set2, coordinate. rewrite set_nth_id by exact H'. apply set_nth_id. exact H. Qed.
Lemma set2_moved x b j t : valid x b j -> set2 x b j (coordinate x b j + t) = moved x b j t.
Proof. intros [H H']. unfold set2, moved, moved1, coordinate. rewrite set_nth_eq by exact H. rewrite (set_nth_eq (nth b x [])) by exact H'. reflexivity. Qed.
Lemma write_set2 b j v s : parameters (write b j v s) = set2 (parameters s) b j v. Proof. reflexivity. Qed.

(* ---------------- a column of differences ---------------- *)
Definition difference (m : Method) (f : Functor) (r0 : nat -> R) (x : Point) (b j : nat) (h : R) : option (nat -> R) :=
  match m with FORWARD => forward f r0 x b j h | _ => central f x b j h end.
Lemma column_spec m f r0 x b j h s : valid x b j -> parameters s = x -> h <> 0 ->
  match difference m f r0 x b j h with
  | Some d => exists c s' cs, EvaluateJacobianColumn m f b j h (nth b x []) r0 s = (Some c, s') /\ parameters s' = x /\ (forall r, c r = d r) /\
      calls s' = cs ++ calls s /\ forall p, In p cs -> p = moved x b j h \/ (m <> FORWARD /\ p = moved x b j (- h))
  | None => exists s' cs, EvaluateJacobianColumn m f b j h (nth b x []) r0 s = (None, s') /\
      calls s' = cs ++ calls s /\ forall p, In p cs -> p = moved x b j h \/ (m <> FORWARD /\ p = moved x b j (- h))
  end.
Proof.
  intros V P Hh. unfold EvaluateJacobianColumn, call. rewrite write_set2, P. fold (coordinate x b j). rewrite (set2_moved x b j h V). cbn [parameters calls].
  unfold difference, forward, central. destruct (f (moved x b j h)) as [p|] eqn:E1.
  2:{ assert (match m with FORWARD => @None (nat -> R) | _ => None end = None) as -> by (destruct m; reflexivity). eexists. exists [moved x b j h]. split; [reflexivity|]. split; [reflexivity|]. intros q [<-|[]]. left. reflexivity. }
  assert (forall s, parameters s = moved x b j h -> parameters (write b j (coordinate x b j - h) s) = moved x b j (- h)) as W2.
  { intros s' Es. rewrite write_set2, Es, <- (set2_moved x b j h V), set2_twice by (apply V). apply (set2_moved x b j (- h) V). }
  assert (forall s t, parameters s = moved x b j t -> parameters (write b j (coordinate x b j) s) = x) as W3.
  { intros s' t Es. rewrite write_set2, Es, <- (set2_moved x b j t V), set2_twice by (apply V). apply (set2_id x b j V). }
  destruct m.
  - fold (coordinate x b j). rewrite W2 by reflexivity. destruct (f (moved x b j (- h))) as [q|] eqn:E2.
    + eexists. eexists. exists [moved x b j (- h); moved x b j h]. split; [reflexivity|]. split; [apply (W3 _ (- h)); reflexivity|]. split; [intro; field; exact Hh|]. split; [reflexivity|]. intros p' [<-|[<-|[]]]; [right; split; [discriminate|reflexivity]|left; reflexivity].
    + eexists. exists [moved x b j (- h); moved x b j h]. split; [reflexivity|]. split; [reflexivity|]. intros p' [<-|[<-|[]]]; [right; split; [discriminate|reflexivity]|left; reflexivity].
  - eexists. eexists. exists [moved x b j h]. split; [reflexivity|]. split; [apply (W3 _ h); reflexivity|]. split; [intro; field; exact Hh|]. split; [reflexivity|]. intros p' [<-|[]]. left. reflexivity.
  - fold (coordinate x b j). rewrite W2 by reflexivity. destruct (f (moved x b j (- h))) as [q|] eqn:E2.
    + eexists. eexists. exists [moved x b j (- h); moved x b j h]. split; [reflexivity|]. split; [apply (W3 _ (- h)); reflexivity|]. split; [intro; field; exact Hh|]. split; [reflexivity|]. intros p' [<-|[<-|[]]]; [right; split; [discriminate|reflexivity]|left; reflexivity].
    + eexists. exists [moved x b j (- h); moved x b j h]. split; [reflexivity|]. split; [reflexivity|]. intros p' [<-|[<-|[]]]; [right; split; [discriminate|reflexivity]|left; reflexivity].
Qed.

(* ---------------- the step, the norm, the largest double ---------------- *)
Lemma dbl_max_largest : dbl_max = largest_double.
Proof.
  assert (2 ^ 1023 = 2 ^ 971 * 2 ^ 52) as A by (rewrite <- pow_add; reflexivity).
  assert (2 ^ 1024 = 2 ^ 971 * 2 ^ 52 * 2) as B by (rewrite <- A, Rmult_comm; reflexivity).
  unfold dbl_max, largest_double. rewrite A, B. assert (2 ^ 52 <> 0) as C by (apply pow_nonzero; lra). revert C. generalize (2 ^ 971) (2 ^ 52). intros a b C. field. exact C.
Qed.
Lemma sum_snoc : forall l c, fold_right Rplus 0 (l ++ [c]) = fold_right Rplus 0 l + c.
Proof. induction l as [|a l IH]; intro c; cbn; [lra|]. rewrite IH. lra. Qed.
Lemma norm_euclid n v : norm n v = euclid n v.
Proof. unfold norm, euclid. f_equal. induction n as [|n IH]; [reflexivity|]. rewrite seq_S, map_app. cbn [map plus]. rewrite sum_snoc, <- IH. cbn [sum_sq]. ring. Qed.
Lemma step_size_step m o v : step_size m o v = step m o v.
Proof.
  unfold step_size, step, relative, smallest, epsilon, Rmax. destruct m; repeat (match goal with |- context [Rle_dec ?a ?b] => destruct (Rle_dec a b) end); try lra; reflexivity.
Qed.
Lemma step_positive m o v : 0 < step m o v.
Proof.
  assert (0 < sqrt (/ 2 ^ 52)) as P by (apply sqrt_lt_R0, Rinv_0_lt_compat, pow_lt; lra).
  assert (0 < smallest m o) as Q by (unfold smallest; destruct m; try exact P; destruct (Rle_dec _ _); lra).
  unfold step. destruct (Rle_dec _ _); lra.
Qed.

(* ---------------- extrapolation ---------------- *)
Lemma norm_ext n v w : (forall r, v r = w r) -> norm n v = norm n w.
Proof. intro H. unfold norm. f_equal. induction n as [|n IH]; cbn; [reflexivity|]. rewrite IH, H. reflexivity. Qed.
Lemma euclid_ext n v w : (forall r, v r = w r) -> euclid n v = euclid n w.
Proof. intro H. rewrite <- !norm_euclid. apply norm_ext. exact H. Qed.
Section Tableau.
Variables (o : Options) (nr : nat) (d : nat -> nat -> R).
Notation s := (ridders_step_shrink_factor o).
Lemma extrapolate_spec i prev : forall n k cur err res, (1 <= k)%nat -> (n + k = S i)%nat ->
  (forall k' r, (k' < k)%nat -> cur k' r = tableau s d k' i r) -> (forall k' r, (k' < i)%nat -> prev k' r = tableau s d k' (i - 1) r) ->
  let '(cur', err', res') := Extrapolate o nr n k ((s * s) ^ k) cur prev err res in
  err' <= err /\
  ((err' = err /\ res' = res) \/ exists k0, (k <= k0 <= i)%nat /\ (forall r, res' r = tableau s d k0 i r) /\ err' = estimate nr s d k0 i) /\
  (err' < ridders_epsilon o \/ ((forall k0, (k <= k0 <= i)%nat -> err' <= estimate nr s d k0 i) /\ forall k' r, (k' <= i)%nat -> cur' k' r = tableau s d k' i r)).
Proof.
  induction n as [|n IH]; intros k cur err res Hk Hn Hc Hp.
  - cbn. split; [lra|]. split; [left; split; reflexivity|]. right. split; [intros; lia|]. intros; apply Hc; lia.
  - cbn [Extrapolate]. set (col := fun r => ((s * s) ^ k * cur (k - 1)%nat r - prev (k - 1)%nat r) / ((s * s) ^ k - 1)).
    assert (forall r, col r = tableau s d k i r) as Ec.
    { intro r. unfold col. destruct k as [|k']; [lia|]. cbn [tableau]. replace (S k' - 1)%nat with k' by lia. rewrite Hc, Hp by lia. reflexivity. }
    set (ce := Rmax _ _).
    assert (ce = estimate nr s d k i) as Ee.
    { unfold ce, estimate. rewrite !norm_euclid. f_equal; apply euclid_ext; intro r; pose proof (Ec r) as Er; unfold col in Er; cbv beta in Er; rewrite Er; [rewrite Hc by lia|rewrite Hp by lia]; reflexivity. }
    assert ((s * s) ^ k * (s * s) = (s * s) ^ S k) as Ef by (cbn [pow]; ring).
    assert (forall k' r, (k' < S k)%nat -> set_col cur k col k' r = tableau s d k' i r) as Hc'.
    { intros k' r Hk'. unfold set_col. destruct (Nat.eqb_spec k' k) as [->|]; [apply Ec|apply Hc; lia]. }
    unfold rle, rlt. destruct (Rle_dec ce err) as [Le|Le]; [destruct (Rlt_dec ce (ridders_epsilon o)) as [Lt|Lt]|].
    + split; [exact Le|]. split; [right; exists k; split; [lia|]; split; [exact Ec|exact Ee]|]. left. exact Lt.
    + rewrite Ef. specialize (IH (S k) (set_col cur k col) ce col ltac:(lia) ltac:(lia) Hc' Hp). destruct (Extrapolate o nr n (S k) ((s * s) ^ S k) (set_col cur k col) prev ce col) as [[cur' err'] res'].
      destruct IH as [A [B C]]. split; [lra|]. split.
      * right. destruct B as [[-> ->]|[k0 [B1 B2]]]; [exists k; split; [lia|]; split; [exact Ec|exact Ee]|exists k0; split; [lia|exact B2]].
      * destruct C as [C|[C1 C2]]; [left; exact C|right]. split; [|exact C2]. intros k0 Hk0. destruct (Nat.eq_dec k0 k) as [->|]; [rewrite <- Ee; exact A|apply C1; lia].
    + rewrite Ef. specialize (IH (S k) (set_col cur k col) err res ltac:(lia) ltac:(lia) Hc' Hp). destruct (Extrapolate o nr n (S k) ((s * s) ^ S k) (set_col cur k col) prev err res) as [[cur' err'] res'].
      destruct IH as [A [B C]]. split; [exact A|]. split.
      * destruct B as [B|[k0 [B1 B2]]]; [left; exact B|right; exists k0; split; [lia|exact B2]].
      * destruct C as [C|[C1 C2]]; [left; exact C|right]. split; [|exact C2]. intros k0 Hk0. destruct (Nat.eq_dec k0 k) as [->|]; [rewrite <- Ee; lra|apply C1; lia].
Qed.
End Tableau.
Lemma tableau_ext s d d' k : forall i r, (forall i' r, (i' <= i)%nat -> d i' r = d' i' r) -> tableau s d k i r = tableau s d' k i r.
Proof. induction k as [|k IH]; intros i r H; cbn [tableau]; [apply H; lia|]. rewrite (IH i r H), (IH (i - 1)%nat r) by (intros; apply H; lia). reflexivity. Qed.
Lemma estimate_ext n s d d' k i : (forall i' r, (i' <= i)%nat -> d i' r = d' i' r) -> estimate n s d k i = estimate n s d' k i.
Proof. intro H. unfold estimate. f_equal; apply euclid_ext; intro r; rewrite (tableau_ext s d d' k i r H); f_equal; apply tableau_ext; intros; apply H; lia. Qed.

Section Ridders.
Variables (o : Options) (f : Functor) (nr : nat) (x : Point) (b j : nat) (h : R) (r0 : nat -> R).
Notation s := (ridders_step_shrink_factor o).
Notation N := (Z.to_nat (max_num_ridders_extrapolations o)).
Hypothesis V : valid x b j.
Hypothesis Hh : h <> 0.
Hypothesis Hs : s <> 0.
Lemma ridders_step_nonzero i : ridders_step o h i <> 0.
Proof. unfold ridders_step. apply Rmult_integral_contrapositive_currified; [|apply Rinv_neq_0_compat; apply pow_nonzero; exact Hs]. apply Rmult_integral_contrapositive_currified; [exact Hh|apply pow_nonzero; exact Hs]. Qed.
Lemma ridders_step_next i : ridders_step o h (S i) = ridders_step o h i / s.
Proof. unfold ridders_step. cbn [pow]. field. split; [apply pow_nonzero|]; exact Hs. Qed.
Definition pt_ok (p : Point) : Prop := exists i, (i < N)%nat /\ (p = moved x b j (ridders_step o h i) \/ p = moved x b j (- ridders_step o h i)).
(* what is known of the chosen candidate *)
Definition chosen (d : nat -> nat -> R) (i : nat) (err : R) (res : nat -> R) : Prop :=
  exists k0 i0, (k0 <= i0 < i)%nat /\ (forall r, res r = tableau s d k0 i0 r) /\ (if k0 =? 0 then i0 = 0%nat /\ err = largest_double else err = estimate nr s d k0 i0 /\ err <= largest_double) /\
    forall i1 k1, (i1 < i)%nat -> (1 <= k1 <= i1)%nat -> err <= estimate nr s d k1 i1.
Lemma ridders_spec : forall n i d cur prev err res st, (n + i = N)%nat -> (0 < N)%nat -> parameters st = x ->
  (forall i', (i' < i)%nat -> exists q, central f x b j (ridders_step o h i') = Some q /\ forall r, d i' r = q r) ->
  (forall k r, (k < i)%nat -> prev k r = tableau s d k (i - 1) r) ->
  (if i =? 0 then err = largest_double else chosen d i err res /\
     (n = 0%nat -> True)) ->
  match Ridders o f b j nr (nth b x []) r0 n i (ridders_step o h i) cur prev err res st with
  | (Some c, st') => parameters st' = x /\ ridders_column o f nr x b j h c /\ exists cs, calls st' = cs ++ calls st /\ forall p, In p cs -> pt_ok p
  | (None, st') => (exists i', (i' < N)%nat /\ central f x b j (ridders_step o h i') = None) /\ exists cs, calls st' = cs ++ calls st /\ forall p, In p cs -> pt_ok p
  end.
Proof.
  induction n as [|n IH]; intros i d cur prev err res st Hn HN P Hd Hp Hc.
  - cbn [Ridders]. split; [exact P|]. split; [|exists []; split; [reflexivity|intros ? []]]. destruct (Nat.eqb_spec i 0); [lia|]. destruct Hc as [[k0 [i0 [A [B [C D]]]]] _].
    exists d, (i - 1)%nat, k0, i0, err. cbv zeta. split; [lia|]. split; [intros; apply Hd; lia|]. split; [lia|]. split; [exact B|]. split; [exact C|]. split; [intros; apply D; lia|]. split; [right; intros; apply D; lia|]. left. lia.
  - cbn [Ridders]. pose proof (column_spec RIDDERS f r0 x b j (ridders_step o h i) st V P (ridders_step_nonzero i)) as Cs. unfold difference in Cs.
    destruct (central f x b j (ridders_step o h i)) as [q|] eqn:Eq.
    2:{ destruct Cs as [s' [cs [-> [Ecs Hcs]]]]. split; [exists i; split; [lia|exact Eq]|]. exists cs. split; [exact Ecs|]. intros p Hp'. exists i. split; [lia|]. destruct (Hcs p Hp') as [->|[_ ->]]; [left|right]; reflexivity. }
    destruct Cs as [c0 [s' [cs [-> [Ps [Ec0 [Ecs Hcs]]]]]]].
    set (d' := fun i' r => if i' =? i then q r else d i' r).
    assert (forall i' r, (i' < i)%nat -> d' i' r = d i' r) as Dd by (intros i' r Hi; unfold d'; destruct (Nat.eqb_spec i' i); [lia|reflexivity]).
    assert (forall i', (i' <= i)%nat -> exists q, central f x b j (ridders_step o h i') = Some q /\ forall r, d' i' r = q r) as Hd'.
    { intros i' Hi. unfold d'. destruct (Nat.eqb_spec i' i) as [->|]; [exists q; split; [exact Eq|reflexivity]|apply Hd; lia]. }
    assert (exists cs0, calls s' = cs0 ++ calls st /\ forall p, In p cs0 -> pt_ok p) as Hcalls.
    { exists cs. split; [exact Ecs|]. intros p Hp'. exists i. split; [lia|]. destruct (Hcs p Hp') as [->|[_ ->]]; [left|right]; reflexivity. }
    pose proof (extrapolate_spec o nr d' i prev i 1 (set_col cur 0 c0) err (if i =? 0 then c0 else res) ltac:(lia) ltac:(lia)) as Ex.
    replace ((s * s) ^ 1) with (s * s) in Ex by (cbn; ring).
    destruct (Extrapolate o nr i 1 (s * s) (set_col cur 0 c0) prev err (if i =? 0 then c0 else res)) as [[cur' err'] res'].
    destruct Ex as [E1 [E2 E3]].
    { intros k' r Hk. replace k' with 0%nat by lia. cbn. rewrite Ec0. unfold d'. rewrite Nat.eqb_refl. reflexivity. }
    { intros k' r Hk. rewrite Hp by lia. apply tableau_ext. intros i' r' Hi'. symmetry. apply Dd. lia. }
    (* the candidate chosen so far *)
    assert (exists k0 i0, (k0 <= i0 <= i)%nat /\ (forall r, res' r = tableau s d' k0 i0 r) /\ (if k0 =? 0 then i0 = 0%nat /\ err' = largest_double else err' = estimate nr s d' k0 i0 /\ err' <= largest_double)) as Ch.
    { destruct E2 as [[-> ->]|[k0 [A [B C]]]].
      - destruct (Nat.eqb_spec i 0) as [->|Ni].
        + exists 0%nat, 0%nat. split; [lia|]. split; [intro r; rewrite Ec0; reflexivity|]. cbn. split; [reflexivity|exact Hc].
        + destruct Hc as [[k0 [i0 [A [B [C _]]]]] _]. exists k0, i0. split; [lia|]. split; [intro r; rewrite B; apply tableau_ext; intros; symmetry; apply Dd; lia|].
          destruct (k0 =? 0); [exact C|]. rewrite (estimate_ext nr s d' d k0 i0) by (intros; apply Dd; lia). exact C.
      - exists k0, i. split; [lia|]. split; [exact B|]. destruct (Nat.eqb_spec k0 0); [lia|]. split; [exact C|].
        destruct (Nat.eqb_spec i 0); [lia|]. destruct Hc as [[k1 [i1 [_ [_ [Q _]]]]] _]. destruct (k1 =? 0); destruct Q; lra. }
    assert (forall i1 k1, (i1 < i)%nat -> (1 <= k1 <= i1)%nat -> err' <= estimate nr s d' k1 i1) as Old.
    { intros i1 k1 Hi1 Hk1. destruct (Nat.eqb_spec i 0); [lia|]. destruct Hc as [[_ [_ [_ [_ [_ Q]]]]] _]. specialize (Q i1 k1 Hi1 Hk1). rewrite (estimate_ext nr s d' d k1 i1) by (intros; apply Dd; lia). lra. }
    unfold rlt, rle. destruct (Rlt_dec err' (ridders_epsilon o)) as [Lt|Lt].
    { split; [exact Ps|]. split; [|exact Hcalls]. destruct Ch as [k0 [i0 [A [B C]]]]. exists d', i, k0, i0, err'. cbv zeta. split; [lia|]. split; [exact Hd'|]. split; [exact A|]. split; [exact B|]. split; [exact C|]. split; [exact Old|]. split; [left; exact Lt|right; left; exact Lt]. }
    destruct E3 as [E3|[E3 E4]]; [contradiction|].
    assert (forall i1 k1, (i1 < S i)%nat -> (1 <= k1 <= i1)%nat -> err' <= estimate nr s d' k1 i1) as All.
    { intros i1 k1 Hi1 Hk1. destruct (Nat.eq_dec i1 i) as [->|]; [apply E3; exact Hk1|apply Old; lia]. }
    destruct (0 <? i) eqn:Ei; cbn [andb]; [destruct (Rle_dec (2 * err') (norm nr (fun r => cur' i r - prev (i - 1)%nat r))) as [Le|Le]|].
    + apply Nat.ltb_lt in Ei. split; [exact Ps|]. split; [|exact Hcalls]. destruct Ch as [k0 [i0 [A [B C]]]]. exists d', i, k0, i0, err'. cbv zeta. split; [lia|]. split; [exact Hd'|]. split; [exact A|]. split; [exact B|]. split; [exact C|]. split; [exact Old|]. split; [right; intros; apply E3; assumption|].
      right. right. split; [exact Ei|]. rewrite norm_euclid in Le. rewrite (euclid_ext nr _ (fun r => cur' i r - prev (i - 1)%nat r)); [exact Le|]. intro r. rewrite E4, Hp by lia. f_equal. apply tableau_ext. intros; apply Dd; lia.
    + rewrite <- ridders_step_next. specialize (IH (S i) d' prev cur' err' res' s' ltac:(lia) HN Ps).
      destruct (Ridders o f b j nr (nth b x []) r0 n (S i) (ridders_step o h (S i)) prev cur' err' res' s') as [[c|] st'].
      * destruct IH as [A [B [cs1 [C D]]]]; [intros; apply Hd'; lia|intros; replace (S i - 1)%nat with i by lia; apply E4; lia|cbn; split; [|trivial]; destruct Ch as [k0 [i0 [Q1 [Q2 Q3]]]]; exists k0, i0; split; [lia|]; split; [exact Q2|]; split; [exact Q3|exact All]|].
        split; [exact A|]. split; [exact B|]. destruct Hcalls as [cs0 [F1 F2]]. exists (cs1 ++ cs0). split; [rewrite C, F1, app_assoc; reflexivity|]. intros p Hp'. apply in_app_or in Hp'. destruct Hp'; auto.
      * destruct IH as [B [cs1 [C D]]]; [intros; apply Hd'; lia|intros; replace (S i - 1)%nat with i by lia; apply E4; lia|cbn; split; [|trivial]; destruct Ch as [k0 [i0 [Q1 [Q2 Q3]]]]; exists k0, i0; split; [lia|]; split; [exact Q2|]; split; [exact Q3|exact All]|].
        split; [exact B|]. destruct Hcalls as [cs0 [F1 F2]]. exists (cs1 ++ cs0). split; [rewrite C, F1, app_assoc; reflexivity|]. intros p Hp'. apply in_app_or in Hp'. destruct Hp'; auto.
    + rewrite <- ridders_step_next. specialize (IH (S i) d' prev cur' err' res' s' ltac:(lia) HN Ps).
      destruct (Ridders o f b j nr (nth b x []) r0 n (S i) (ridders_step o h (S i)) prev cur' err' res' s') as [[c|] st'].
      * destruct IH as [A [B [cs1 [C D]]]]; [intros; apply Hd'; lia|intros; replace (S i - 1)%nat with i by lia; apply E4; lia|cbn; split; [|trivial]; destruct Ch as [k0 [i0 [Q1 [Q2 Q3]]]]; exists k0, i0; split; [lia|]; split; [exact Q2|]; split; [exact Q3|exact All]|].
        split; [exact A|]. split; [exact B|]. destruct Hcalls as [cs0 [F1 F2]]. exists (cs1 ++ cs0). split; [rewrite C, F1, app_assoc; reflexivity|]. intros p Hp'. apply in_app_or in Hp'. destruct Hp'; auto.
      * destruct IH as [B [cs1 [C D]]]; [intros; apply Hd'; lia|intros; replace (S i - 1)%nat with i by lia; apply E4; lia|cbn; split; [|trivial]; destruct Ch as [k0 [i0 [Q1 [Q2 Q3]]]]; exists k0, i0; split; [lia|]; split; [exact Q2|]; split; [exact Q3|exact All]|].
        split; [exact B|]. destruct Hcalls as [cs0 [F1 F2]]. exists (cs1 ++ cs0). split; [rewrite C, F1, app_assoc; reflexivity|]. intros p Hp'. apply in_app_or in Hp'. destruct Hp'; auto.
Qed.
Lemma ridders_column_spec ja jb junk st : (0 < N)%nat -> parameters st = x ->
  match EvaluateRiddersJacobianColumn o f b j nr h (nth b x []) r0 ja jb junk st with
  | (Some c, st') => parameters st' = x /\ ridders_column o f nr x b j h c /\ exists cs, calls st' = cs ++ calls st /\ forall p, In p cs -> pt_ok p
  | (None, st') => (exists i', (i' < N)%nat /\ central f x b j (ridders_step o h i') = None) /\ exists cs, calls st' = cs ++ calls st /\ forall p, In p cs -> pt_ok p
  end.
Proof.
  intros HN P. unfold EvaluateRiddersJacobianColumn.
  replace (h * s ^ Z.to_nat (max_num_ridders_extrapolations o / 2)) with (ridders_step o h 0) by (unfold ridders_step; cbn [pow]; field).
  apply (ridders_spec N 0%nat (fun _ _ => 0)); [lia|exact HN|exact P|intros; lia|intros; lia|exact dbl_max_largest].
Qed.
End Ridders.
