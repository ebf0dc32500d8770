(** Auxiliary facts for ProblemProofs: vectors with positions, counting. *)
Require Import ZArith List Lia Bool Permutation.
From Verif Require Import ZMap Dbl ProblemModel.
Import ListNotations.
Open Scope Z_scope.

(** ** Vectors whose elements know their position *)
Definition indexed (vec : list Z) (idx : Z -> option Z) : Prop :=
  (forall i p, nth_error vec i = Some p -> idx p = Some (Z.of_nat i)) /\
  (forall p z, idx p = Some z -> exists i, z = Z.of_nat i /\ nth_error vec i = Some p).

Lemma indexed_ext : forall vec f g, (forall p, f p = g p) -> indexed vec f -> indexed vec g.
Proof.
  intros vec f g E [H1 H2]. split.
  - intros i p H. rewrite <- E. auto.
  - intros p z H. rewrite <- E in H. auto.
Qed.

Lemma indexed_in : forall vec idx p, indexed vec idx -> (In p vec <-> idx p <> None).
Proof.
  intros vec idx p [H1 H2]. split.
  - intros I. apply In_nth_error in I. destruct I as [i I]. rewrite (H1 _ _ I). discriminate.
  - intros I. destruct (idx p) as [z|] eqn:E; [|congruence].
    destruct (H2 _ _ E) as [i [_ N]]. eapply nth_error_In; eauto.
Qed.

Lemma indexed_nodup : forall vec idx, indexed vec idx -> NoDup vec.
Proof.
  intros vec idx [H1 H2]. apply NoDup_nth_error. intros i j Hi E.
  destruct (nth_error vec i) as [p|] eqn:N.
  - pose proof (H1 _ _ N) as A. symmetry in E. pose proof (H1 _ _ E) as B. rewrite A in B. inversion B. lia.
  - apply nth_error_None in N. lia.
Qed.

Lemma indexed_push : forall vec idx q, indexed vec idx -> idx q = None ->
  indexed (vec ++ [q]) (fun p => if p =? q then Some (Z.of_nat (length vec)) else idx p).
Proof.
  intros vec idx q [H1 H2] Hq. split.
  - intros i p H. destruct (Nat.lt_ge_cases i (length vec)) as [L|L].
    + rewrite nth_error_app1 in H by auto. pose proof (H1 _ _ H) as K.
      destruct (Z.eqb_spec p q); [subst; congruence|auto].
    + rewrite nth_error_app2 in H by auto. destruct (i - length vec)%nat eqn:D; simpl in H.
      * inversion H; subst. rewrite Z.eqb_refl. f_equal. lia.
      * destruct n; discriminate.
  - intros p z H. destruct (Z.eqb_spec p q).
    + inversion H; subst. exists (length vec). split; auto.
      rewrite nth_error_app2 by lia. rewrite Nat.sub_diag. auto.
    + destruct (H2 _ _ H) as [i [A B]]. exists i. split; auto.
      rewrite nth_error_app1; auto. apply nth_error_Some. congruence.
Qed.

Lemma set_nth_length : forall x l i, length (set_nth i x l) = length l.
Proof. intros x; induction l as [|y l IH]; intros [|i]; simpl; auto. Qed.

Lemma nth_set_nth : forall x l i k,
  nth_error (set_nth i x l) k = if Nat.eqb k i then (if Nat.ltb i (length l) then Some x else None) else nth_error l k.
Proof.
  intros x; induction l as [|y l IH]; intros i k.
  - simpl. destruct i, k; simpl; auto; destruct (Nat.eqb k i); auto.
  - destruct i as [|i], k as [|k]; simpl; auto. rewrite IH.
    destruct (Nat.eqb k i); auto.
Qed.

Lemma removelast_length : forall (l : list Z), length (removelast l) = (length l - 1)%nat.
Proof.
  induction l as [|a l IH]; simpl; auto. destruct l; auto. simpl in *. rewrite IH. lia.
Qed.

Lemma nth_removelast : forall (l : list Z) k,
  nth_error (removelast l) k = if Nat.ltb k (length l - 1) then nth_error l k else None.
Proof.
  induction l as [|a l IH]; intros k; [destruct k; auto|].
  destruct l as [|b l]; [simpl; destruct k; auto|].
  change (removelast (a :: b :: l)) with (a :: removelast (b :: l)).
  destruct k as [|k]; [reflexivity|]. simpl nth_error. rewrite IH. simpl length.
  replace (S (length l) - 1)%nat with (length l) by lia.
  replace (S (S (length l)) - 1)%nat with (S (length l)) by lia.
  destruct (Nat.ltb_spec k (length l)); destruct (Nat.ltb_spec (S k) (S (length l))); auto; lia.
Qed.

Lemma hd_rev_last : forall (l : list Z), l <> [] -> hd_error (rev l) = nth_error l (length l - 1).
Proof.
  intros l H. destruct (exists_last H) as [l' [a ->]]. rewrite rev_app_distr. simpl.
  rewrite app_length. simpl. replace (length l' + 1 - 1)%nat with (length l') by lia.
  rewrite nth_error_app2 by lia. rewrite Nat.sub_diag. auto.
Qed.

Definition vremove (i : nat) (tmp : Z) (vec : list Z) := removelast (set_nth i tmp vec).

Lemma indexed_remove : forall vec idx r z, indexed vec idx -> idx r = Some z ->
  exists tmp zt, nth_error vec (Z.to_nat z) = Some r /\ hd_error (rev vec) = Some tmp /\
    idx tmp = Some zt /\ 0 <= z /\
    indexed (vremove (Z.to_nat z) tmp vec)
            (fun p => if p =? r then None else if p =? tmp then Some z else idx p).
Proof.
  intros vec idx r z I Hr. pose proof I as [H1 H2]. destruct (H2 _ _ Hr) as [i [-> N]].
  assert (L : (i < length vec)%nat) by (apply nth_error_Some; congruence).
  assert (NE : vec <> []) by (intros ->; simpl in L; lia).
  rewrite Nat2Z.id. rewrite hd_rev_last by auto.
  destruct (nth_error vec (length vec - 1)) as [tmp|] eqn:T.
  2:{ apply nth_error_None in T. lia. }
  exists tmp, (Z.of_nat (length vec - 1)). split; auto. split; auto. split; [exact (H1 _ _ T)|]. split; [lia|].
  unfold vremove. split.
  - intros k p Hp. rewrite nth_removelast, set_nth_length, nth_set_nth in Hp.
    destruct (Nat.ltb_spec k (length vec - 1)); [|discriminate].
    destruct (Nat.eqb_spec k i).
    + subst k. destruct (Nat.ltb_spec i (length vec)); [|lia]. inversion Hp; subst p.
      rewrite Z.eqb_refl. destruct (Z.eqb_spec tmp r); auto. subst tmp.
      pose proof (H1 _ _ T) as A. pose proof (H1 _ _ N) as B. rewrite A in B. inversion B. lia.
    + pose proof (H1 _ _ Hp) as K.
      destruct (Z.eqb_spec p r). { subst. rewrite K in Hr. inversion Hr. lia. }
      destruct (Z.eqb_spec p tmp); auto. subst.
      pose proof (H1 _ _ T) as A. rewrite A in K. inversion K. lia.
  - intros p z Hp. destruct (Z.eqb_spec p r); [discriminate|].
    destruct (Z.eqb_spec p tmp).
    + inversion Hp; subst. exists i. split; auto.
      rewrite nth_removelast, set_nth_length, nth_set_nth, Nat.eqb_refl.
      assert (i <> (length vec - 1)%nat) by (intros E; rewrite <- E in T; congruence).
      destruct (Nat.ltb_spec i (length vec - 1)); [|lia].
      destruct (Nat.ltb_spec i (length vec)); [|lia]. auto.
    + destruct (H2 _ _ Hp) as [k [-> K]]. exists k. split; auto.
      assert (LK : (k < length vec)%nat) by (apply nth_error_Some; congruence).
      rewrite nth_removelast, set_nth_length, nth_set_nth.
      assert (k <> (length vec - 1)%nat) by (intros E; rewrite <- E in T; congruence).
      assert (k <> i) by (intros E; subst; congruence).
      destruct (Nat.ltb_spec k (length vec - 1)); [|lia].
      destruct (Nat.eqb_spec k i); [lia|]. auto.
Qed.

Lemma vremove_length : forall i t v, length (vremove i t v) = (length v - 1)%nat.
Proof. intros. unfold vremove. rewrite removelast_length, set_nth_length. auto. Qed.

Lemma vremove_nth : forall i t v k, nth_error (vremove i t v) k =
  if Nat.ltb k (length v - 1) then (if Nat.eqb k i then Some t else nth_error v k) else None.
Proof.
  intros. unfold vremove. rewrite nth_removelast, set_nth_length, nth_set_nth.
  destruct (Nat.ltb_spec k (length v - 1)); auto. destruct (Nat.eqb_spec k i); auto. subst.
  destruct (Nat.ltb_spec i (length v)); auto. lia.
Qed.

(** ** Counting entries of a map *)
Definition zcount {A} (f : A -> bool) (m : zmap A) : nat := length (filter (fun e => f (snd e)) m).

Lemma zcount_put_new : forall A (f : A -> bool) k v m, zfind k m = None ->
  zcount f (zput k v m) = (zcount f m + if f v then 1 else 0)%nat.
Proof.
  intros A f k v m; unfold zcount; induction m as [|[k' v'] m IH]; simpl; intros H.
  - destruct (f v); auto.
  - destruct (k =? k') eqn:E; [discriminate|].
    destruct (k <? k') eqn:L; simpl.
    + destruct (f v); simpl; destruct (f v'); simpl; lia.
    + destruct (f v'); simpl; rewrite IH by auto; lia.
Qed.

Lemma zcount_put_old : forall A (f : A -> bool) k v v0 m, zsorted m -> zfind k m = Some v0 ->
  (zcount f (zput k v m) + (if f v0 then 1 else 0) = zcount f m + if f v then 1 else 0)%nat.
Proof.
  intros A f k v v0 m Hs; unfold zcount; induction m as [|[k' v'] m IH]; simpl; intros H; [discriminate|].
  assert (Hs' : zsorted m) by (eapply zsorted_tail; eauto).
  destruct (k =? k') eqn:E.
  - apply Z.eqb_eq in E. subst k'. inversion H; subst v'. rewrite Z.ltb_irrefl. simpl.
    destruct (f v), (f v0); simpl; lia.
  - assert (L : (k <? k') = false).
    { apply Z.ltb_ge. unfold zsorted, zkeys in Hs. simpl in Hs. inversion Hs as [|? ? S F]; subst.
      rewrite Forall_forall in F. apply zfind_in_keys in H. specialize (F _ H). lia. }
    rewrite L. simpl. specialize (IH Hs' H). destruct (f v'); simpl; lia.
Qed.

Lemma zcount_erase : forall A (f : A -> bool) k v0 m, zfind k m = Some v0 ->
  (zcount f (zerase k m) + (if f v0 then 1 else 0) = zcount f m)%nat.
Proof.
  intros A f k v0 m; unfold zcount; induction m as [|[k' v'] m IH]; simpl; intros H; [discriminate|].
  destruct (k =? k') eqn:E.
  - inversion H; subst. destruct (f v0); simpl; lia.
  - simpl. specialize (IH H). destruct (f v'); simpl; lia.
Qed.

Lemma zcount_pos : forall A (f : A -> bool) m, zsorted m ->
  ((0 < zcount f m)%nat <-> exists k v, zfind k m = Some v /\ f v = true).
Proof.
  intros A f m Hs. unfold zcount. split.
  - intros H. destruct (filter (fun e => f (snd e)) m) as [|[k v] l] eqn:E; [simpl in H; lia|].
    assert (I : In (k, v) (filter (fun e => f (snd e)) m)) by (rewrite E; simpl; auto).
    apply filter_In in I. destruct I as [I1 I2]. exists k, v. split; auto. apply in_zfind; auto.
  - intros [k [v [H1 H2]]]. apply zfind_in in H1.
    assert (I : In (k, v) (filter (fun e => f (snd e)) m)) by (apply filter_In; auto).
    destruct (filter (fun e => f (snd e)) m); [contradiction|simpl; lia].
Qed.

Lemma zput_zput_find : forall A (m : zmap A) k v, zsorted m -> zfind k m = Some v -> zput k v m = m.
Proof.
  intros A m k v Hs H. apply zmap_ext; auto.
  - apply zsorted_put; auto.
  - intros k'. rewrite zfind_put. destruct (Z.eqb_spec k' k); subst; auto.
Qed.

Lemma existsb_eqb : forall x l, existsb (Z.eqb x) l = true <-> In x l.
Proof.
  intros x l. rewrite existsb_exists. split.
  - intros [y [I E]]. apply Z.eqb_eq in E. subst; auto.
  - intros I. exists x. split; auto. apply Z.eqb_refl.
Qed.

Lemma existsb_eqb_false : forall x l, existsb (Z.eqb x) l = false <-> ~ In x l.
Proof. intros x l. rewrite <- existsb_eqb. destruct (existsb (Z.eqb x) l); split; congruence. Qed.

Lemma nodupb_ok : forall l, nodupb l = true <-> NoDup l.
Proof.
  induction l as [|x l IH]; simpl.
  - split; auto. constructor.
  - rewrite andb_true_iff, negb_true_iff, existsb_eqb_false, IH. split.
    + intros [A B]. constructor; auto.
    + intros H. inversion H; auto.
Qed.

(** ** Neighbours in the address map *)
Lemma prev_entry_spec : forall A v (m : zmap A), zsorted m ->
  match prev_entry v m with
  | Some (k, x) => zfind k m = Some x /\ k < v /\ forall k', zfind k' m <> None -> k' < v -> k' <= k
  | None => forall k', zfind k' m <> None -> v <= k'
  end.
Proof.
  intros A v m; induction m as [|[k x] m IH]; intros Hs; simpl.
  - intros k' H; congruence.
  - assert (Hs' : zsorted m) by (eapply zsorted_tail; eauto). specialize (IH Hs').
    assert (GT : forall k', In k' (zkeys m) -> k < k').
    { unfold zsorted, zkeys in Hs. simpl in Hs. inversion Hs as [|? ? S F]; subst.
      rewrite Forall_forall in F. auto. }
    destruct (Z.ltb_spec k v) as [L|L].
    + destruct (prev_entry v m) as [[k2 x2]|] eqn:E.
      * destruct IH as [A1 [A2 A3]]. assert (k < k2) by (apply GT; eapply zfind_in_keys; eauto).
        split; [destruct (Z.eqb_spec k2 k); [lia|auto]|]. split; auto.
        intros k' H1 H2. destruct (Z.eqb_spec k' k); [lia|]. auto.
      * rewrite Z.eqb_refl. split; auto. split; auto. intros k' H1 H2.
        destruct (Z.eqb_spec k' k); [lia|]. specialize (IH _ H1). lia.
    + intros k' H. destruct (Z.eqb_spec k' k); [lia|].
      destruct (zfind k' m) eqn:E; [|congruence]. apply zfind_in_keys in E. specialize (GT _ E). lia.
Qed.

Lemma lower_bound_spec : forall A v (m : zmap A), zsorted m ->
  match lower_bound v m with
  | Some (k, x) => zfind k m = Some x /\ v <= k /\ forall k', zfind k' m <> None -> v <= k' -> k <= k'
  | None => forall k', zfind k' m <> None -> k' < v
  end.
Proof.
  intros A v m; induction m as [|[k x] m IH]; intros Hs; simpl.
  - intros k' H; congruence.
  - assert (Hs' : zsorted m) by (eapply zsorted_tail; eauto). specialize (IH Hs').
    assert (GT : forall k', In k' (zkeys m) -> k < k').
    { unfold zsorted, zkeys in Hs. simpl in Hs. inversion Hs as [|? ? S F]; subst.
      rewrite Forall_forall in F. auto. }
    destruct (Z.ltb_spec k v) as [L|L].
    + destruct (lower_bound v m) as [[k2 x2]|] eqn:E.
      * destruct IH as [A1 [A2 A3]].
        split; [destruct (Z.eqb_spec k2 k); [lia|auto]|]. split; auto.
        intros k' H1 H2. destruct (Z.eqb_spec k' k); [lia|]. auto.
      * intros k' H. destruct (Z.eqb_spec k' k); [lia|]. auto.
    + rewrite Z.eqb_refl. split; auto. split; auto. intros k' H1 H2.
      destruct (Z.eqb_spec k' k); [lia|].
      destruct (zfind k' m) eqn:E; [|congruence]. apply zfind_in_keys in E. specialize (GT _ E). lia.
Qed.
