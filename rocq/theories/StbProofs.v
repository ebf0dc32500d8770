(* C83: queues. *)
From Coq Require Import List Arith Bool Lia Permutation.
From Verif Require Import GpuModel StbModel StbSpec.
Import ListNotations.
Open Scope nat_scope.

Section Queues.
Context {A : Type}.
Variables (from : nat -> A) (K : nat) (pinned : bool).
Definition slot (g : nat -> A) (b i : nat) : A := g (K * b + i).
Definition over (val : Source -> nat -> A) (src : Source) (l : list nat) (h : nat -> A) : nat -> A := fun i => if existsb (Nat.eqb i) l then val src i else h i.
(* the contents of a half of the buffer after a queue; what the kernels in it see *)
Fixpoint run (val : Source -> nat -> A) (q : list Op) (h : nat -> A) : nat -> A := match q with [] => h | Copy _ src l :: q' => run val q' (over val src l h) | _ :: q' => run val q' h end.
Fixpoint safe (val : Source -> nat -> A) (q : list Op) (h : nat -> A) : Prop :=
  match q with
  | [] => True
  | Copy _ src l :: q' => safe val q' (over val src l h)
  | Kernel _ o l :: q' => (forall i, In i l -> h i = from (o + i)) /\ safe val q' h
  | _ :: q' => safe val q' h
  end.
Definition src_ok (b : nat) (src : Source) : Prop := match src with Pinned a => a = K * b /\ pinned = true | User _ => pinned = false end.
Definition op_ok (b : nat) (op : Op) : Prop :=
  match op with
  | Copy dst src l => dst = K * b /\ src_ok b src /\ forall i, In i l -> i < K
  | Kernel a o l => a = K * b /\ forall i, In i l -> i < K
  | Record e => e = b
  | Earlier _ => True
  end.
Definition bounded (b : nat) (q : list Op) : Prop := Forall (op_ok b) q.
Definition is_copy (op : Op) : bool := match op with Copy _ _ _ => true | _ => false end.
Definition is_record (op : Op) : bool := match op with Record _ => true | _ => false end.
Definition is_earlier (op : Op) : bool := match op with Earlier _ => true | _ => false end.
Definition no_copy (q : list Op) : Prop := existsb is_copy q = false.
Definition records (q : list Op) : nat := length (filter is_record q).
(* a transfer is followed by an event *)
Fixpoint covered (q : list Op) : Prop := match q with [] => True | op :: q' => (is_copy op = true -> existsb is_record q' = true) /\ covered q' end.

Lemma safe_ext val b q : bounded b q -> forall h h' val', (forall i, i < K -> h i = h' i) -> (no_copy q \/ forall src i, src_ok b src -> i < K -> val src i = val' src i) ->
  (safe val q h -> safe val' q h') /\ forall i, i < K -> run val q h i = run val' q h' i.
Proof.
  induction 1 as [|op q O B IH]; intros h h' val' E VE; cbn [safe run]; [auto|].
  assert (VQ : no_copy q \/ forall src i, src_ok b src -> i < K -> val src i = val' src i) by (destruct VE as [VE|VE]; [left; unfold no_copy in *; cbn in VE; now apply orb_false_iff in VE|auto]).
  destruct op as [k|dst src l|e|a o l].
  - apply IH; auto.
  - apply IH; [|auto]. destruct O as [_ [S L]]. intros i I. unfold over. destruct VE as [VE|VE]; [unfold no_copy in VE; discriminate|]. destruct (existsb (Nat.eqb i) l); auto.
  - apply IH; auto.
  - destruct (IH h h' val' E VQ) as [I1 I2]. split; [|auto]. intros [X Y]. split; [|auto]. intros i I. rewrite <- E; [auto|]. now apply O.
Qed.
Lemma run_app val q x : forall h, run val (q ++ [x]) h = run val [x] (run val q h).
Proof. induction q as [|op q IH]; intros h; [reflexivity|]. destruct op; cbn [app run]; apply IH. Qed.
Lemma safe_app val q x : forall h, safe val (q ++ [x]) h <-> safe val q h /\ safe val [x] (run val q h).
Proof. induction q as [|op q IH]; intros h; cbn [app]; [cbn [run]; change (safe val [] h) with True; tauto|]. destruct op; cbn [app run safe]; rewrite IH; tauto. Qed.
Lemma records_app q x : records (q ++ [x]) = records q + if is_record x then 1 else 0.
Proof. unfold records. rewrite filter_app, app_length. cbn. destruct (is_record x); reflexivity. Qed.
Lemma records_none q : records q = 0 -> existsb is_record q = false.
Proof. unfold records. induction q as [|x q IH]; [reflexivity|]. cbn. destruct (is_record x); [discriminate|exact IH]. Qed.
Lemma covered_none q : covered q -> records q = 0 -> no_copy q.
Proof.
  intros C R. unfold no_copy. induction q as [|x q IH]; [reflexivity|]. destruct C as [C1 C2]. cbn [existsb]. unfold records in R. cbn [filter] in R. destruct (is_record x) eqn:E; [discriminate|]. fold (records q) in R. rewrite IH by auto. destruct (is_copy x); [|reflexivity]. rewrite (records_none q R) in C1. specialize (C1 eq_refl). discriminate.
Qed.
Lemma covered_app q x : is_copy x = false -> covered q -> covered (q ++ [x]).
Proof.
  intros X. induction q as [|y q IH]; cbn [app covered]; [intros _; split; [congruence|exact Logic.I]|]. intros [C1 C2]. split; [|auto]. intros Y. rewrite existsb_app, C1; auto.
Qed.
Lemma covered_copy q c e : covered q -> covered ((q ++ [c]) ++ [Record e]).
Proof. induction q as [|y q IH]; cbn [app covered]; [cbn; intuition congruence|]. intros [C1 C2]. split; [|auto]. intros Y. rewrite !existsb_app, C1; auto. Qed.
Lemma no_copy_app q x : no_copy q -> is_copy x = false -> no_copy (q ++ [x]).
Proof. unfold no_copy. intros N X. rewrite existsb_app, N. cbn. now rewrite X. Qed.
Lemma no_copy_covered q : no_copy q -> covered q.
Proof. unfold no_copy. induction q as [|x q IH]; cbn; [auto|]. intros N. apply orb_false_iff in N. destruct N as [N1 N2]. split; [congruence|auto]. Qed.

(* what a step of the first operation does *)
Inductive advance (m : nat -> A) (g : nat -> A) : list Op -> list Op -> (nat -> A) -> list (Event A) -> nat -> Prop :=
| adv_earlier k ops : advance m g (Earlier k :: ops) ops g [Ran k] 0
| adv_copy dst src l1 i l2 ops : advance m g (Copy dst src (l1 ++ i :: l2) :: ops) (Copy dst src (l1 ++ l2) :: ops) (set g (dst + i) (value from m src i)) [] 0
| adv_copied dst src ops : advance m g (Copy dst src [] :: ops) ops g [] 0
| adv_record e ops : advance m g (Record e :: ops) ops g [] 1
| adv_kernel a o l1 i l2 ops : advance m g (Kernel a o (l1 ++ i :: l2) :: ops) (Kernel a o (l1 ++ l2) :: ops) g [Saw (o + i) (g (a + i))] 0
| adv_done a o ops : advance m g (Kernel a o [] :: ops) ops g [] 0.
Definition pend_op (op : Op) : list nat := match op with Kernel _ o l => map (fun i => o + i) l | _ => [] end.
Definition pend (q : list Op) : list nat := flat_map pend_op q.
Definition weight_op (op : Op) : nat := match op with Copy _ _ l | Kernel _ _ l => S (length l) | _ => 1 end.
Definition weight (q : list Op) : nat := list_sum (map weight_op q).
Lemma weight_cons x q : weight (x :: q) = weight_op x + weight q. Proof. reflexivity. Qed.
Lemma existsb_mid i (l1 l2 : list nat) j : existsb (Nat.eqb j) (l1 ++ i :: l2) = (j =? i) || existsb (Nat.eqb j) (l1 ++ l2).
Proof. rewrite !existsb_app. cbn. destruct (existsb (Nat.eqb j) l1), (j =? i); reflexivity. Qed.
Lemma advance_ok m g b q q' g' ev n : advance m g q q' g' ev n -> bounded b q -> safe (value from m) q (slot g b) ->
  bounded b q' /\ safe (value from m) q' (slot g' b) /\ (forall i, i < K -> run (value from m) q' (slot g' b) i = run (value from m) q (slot g b) i) /\
  (forall c i, c <> b -> i < K -> slot g' c i = slot g c i) /\
  (no_copy q -> no_copy q') /\ (covered q -> covered q') /\ (forall x, covered (q ++ [x]) -> covered (q' ++ [x])) /\ (existsb is_earlier q = false -> existsb is_earlier q' = false) /\
  records q = n + records q' /\ (n = 0 \/ exists ops, q = Record b :: ops) /\
  (forall p v, In (p, v) (seen ev) -> v = from p) /\ Permutation (pend q) (map fst (seen ev) ++ pend q') /\ weight q' < weight q.
Proof.
  intros AD B SF. destruct AD; inversion B as [|? ? O B2]; subst.
  - split; [auto|]. split; [exact SF|]. split; [reflexivity|]. split; [reflexivity|]. split; [auto|]. split; [cbn; tauto|]. split; [cbn; tauto|]. split; [discriminate|]. split; [reflexivity|]. split; [auto|]. split; [cbn; tauto|]. split; [apply Permutation_refl|]. rewrite weight_cons; cbn [weight_op]; lia.
  - destruct O as [-> [SO L]].
    assert (LK : i < K) by (apply L, in_elt). assert (LS : forall j, In j (l1 ++ l2) -> j < K) by (intros j J; apply L; apply in_app_iff in J; apply in_app_iff; cbn; tauto).
    assert (E : forall j, j < K -> over (value from m) src (l1 ++ i :: l2) (slot g b) j = over (value from m) src (l1 ++ l2) (slot (set g (K * b + i) (value from m src i)) b) j).
    { intros j J. unfold over. rewrite existsb_mid. destruct (existsb (Nat.eqb j) (l1 ++ l2)); [now rewrite orb_true_r|]. rewrite orb_false_r. unfold slot, set. destruct (Nat.eqb_spec j i) as [->|N]; [now rewrite Nat.eqb_refl|]. destruct (Nat.eqb_spec (K * b + j) (K * b + i)); [lia|reflexivity]. }
    assert (VE : no_copy ops \/ forall s j, src_ok b s -> j < K -> value from m s j = value from m s j) by auto.
    destruct (safe_ext (value from m) b ops B2 _ _ (value from m) E VE) as [X1 X2].
    split; [constructor; [split; [reflexivity|auto]|auto]|]. split; [cbn [safe] in *; auto|]. split; [intros j J; cbn [run]; symmetry; auto|].
    split; [intros c j C J; unfold slot, set; destruct (Nat.eqb_spec (K * c + j) (K * b + i)); [nia|reflexivity]|].
    split; [discriminate|]. split; [cbn; tauto|]. split; [cbn; tauto|]. split; [cbn; auto|]. split; [reflexivity|]. split; [auto|]. split; [cbn; tauto|]. split; [apply Permutation_refl|]. rewrite !weight_cons. cbn [weight_op]. rewrite !app_length. cbn [length]. lia.
  - split; [auto|]. split; [exact SF|]. split; [reflexivity|]. split; [reflexivity|]. split; [discriminate|]. split; [cbn; tauto|]. split; [cbn; tauto|]. split; [cbn; auto|]. split; [reflexivity|]. split; [auto|]. split; [cbn; tauto|]. split; [apply Permutation_refl|]. rewrite weight_cons; cbn [weight_op]; lia.
  - cbn in O. subst e. split; [auto|]. split; [exact SF|]. split; [reflexivity|]. split; [reflexivity|]. split; [auto|]. split; [cbn; tauto|]. split; [cbn; tauto|]. split; [cbn; auto|]. split; [reflexivity|]. split; [right; eauto|]. split; [cbn; tauto|]. split; [apply Permutation_refl|]. rewrite weight_cons; cbn [weight_op]; lia.
  - destruct O as [-> L]. destruct SF as [S1 S2].
    split; [constructor; [split; [reflexivity|]; intros j J; apply L; apply in_app_iff in J; apply in_app_iff; cbn; tauto|auto]|]. split; [cbn [safe]; split; [|auto]; intros j J; apply S1; apply in_app_iff in J; apply in_app_iff; cbn; tauto|].
    split; [reflexivity|]. split; [reflexivity|]. split; [auto|]. split; [cbn; tauto|]. split; [cbn; tauto|]. split; [cbn; auto|]. split; [reflexivity|]. split; [auto|].
    split; [cbn; intros p v [X|[]]; injection X as <- <-; apply S1, in_elt|]. split; [cbn; rewrite !map_app; cbn; rewrite <- !app_assoc; cbn; symmetry; apply Permutation_middle|]. rewrite !weight_cons. cbn [weight_op]. rewrite !app_length. cbn [length]. lia.
  - split; [auto|]. split; [exact (proj2 SF)|]. split; [reflexivity|]. split; [reflexivity|]. split; [auto|]. split; [cbn; tauto|]. split; [cbn; tauto|]. split; [cbn; auto|]. split; [reflexivity|]. split; [auto|]. split; [cbn; tauto|]. split; [apply Permutation_refl|]. rewrite weight_cons; cbn [weight_op]; lia.
Qed.
(* a step is one of the host or one of a stream *)
Lemma step_dev h q g m r f l s' : step from (mkState h q g m r f l) s' ->
  (exists i h', h = i :: h' /\ match i with
    | Sync s => q s = [] /\ s' = mkState h' q g m r f l
    | Wait e => r e = f e /\ s' = mkState h' q g m r f l
    | Put a p => s' = mkState h' q g (set m a (from p)) r f l
    | Enqueue s op => s' = mkState h' (set q s (q s ++ [op])) g m (counted op r) f l end) \/
  exists s q' g' ev n e, advance m g (q s) q' g' ev n /\ (n = 0 /\ f = e \/ exists k ops, n = 1 /\ q s = Record k :: ops /\ e = set f k (S (f k))) /\ s' = mkState h (set q s q') g' m r e (ev ++ l).
Proof.
  intros H. inversion H; subst.
  - left. eexists _, _. split; [reflexivity|]. cbn. auto.
  - left. eexists _, _. split; [reflexivity|]. cbn. auto.
  - left. eexists _, _. split; [reflexivity|]. cbn. auto.
  - left. eexists _, _. split; [reflexivity|]. cbn. auto.
  - right. exists s, ops, g, [Ran k], 0, f. match goal with X : q s = _ |- _ => rewrite X end. split; [constructor|]. auto.
  - right. exists s, (Copy dst src (l1 ++ l2) :: ops), (set g (dst + i) (value from m src i)), [], 0, f. match goal with X : q s = _ |- _ => rewrite X end. split; [constructor|]. auto.
  - right. exists s, ops, g, [], 0, f. match goal with X : q s = _ |- _ => rewrite X end. split; [constructor|]. auto.
  - right. exists s, ops, g, [], 1, (set f e (S (f e))). match goal with X : q s = _ |- _ => rewrite X end. split; [constructor|]. split; [right; eauto|auto].
  - right. exists s, (Kernel a o (l1 ++ l2) :: ops), g, [Saw (o + i) (g (a + i))], 0, f. match goal with X : q s = _ |- _ => rewrite X end. split; [constructor|]. auto.
  - right. exists s, ops, g, [], 0, f. match goal with X : q s = _ |- _ => rewrite X end. split; [constructor|]. auto.
Qed.
(* no operation is stuck *)
Lemma advance_some m g op ops : exists q' g' ev n, advance m g (op :: ops) q' g' ev n.
Proof.
  destruct op as [k|dst src l|e|a o l]; [repeat eexists; constructor| |repeat eexists; constructor|].
  - destruct l as [|i l]; [repeat eexists; constructor|]. exists (Copy dst src ([] ++ l) :: ops). repeat eexists. apply (adv_copy m g dst src [] i l).
  - destruct l as [|i l]; [repeat eexists; constructor|]. exists (Kernel a o ([] ++ l) :: ops). repeat eexists. apply (adv_kernel m g a o [] i l).
Qed.
Lemma dev_some h q g m r f l s op ops : q s = op :: ops -> exists s', step from (mkState h q g m r f l) s'.
Proof.
  intros E. destruct op as [k|dst src [|i li]|e|a o [|i li]].
  - eexists. eapply dev_earlier; eauto.
  - eexists. eapply dev_copied; eauto.
  - eexists. eapply (dev_copy from s dst src [] i li); eauto.
  - eexists. eapply dev_record; eauto.
  - eexists. eapply dev_done; eauto.
  - eexists. eapply (dev_kernel from s a o [] i li); eauto.
Qed.
End Queues.
