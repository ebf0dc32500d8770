(** Utility: finite maps and sets keyed by [Z], kept as strictly sorted lists.
    They model [std::map<K,V>] / [std::set<K>] (iteration in key order) for
    keys that are integers or addresses.  No Ceres code is modelled here. *)
Require Import ZArith List Lia Sorting.Sorted Sorting.Permutation Bool.
Import ListNotations.
Open Scope Z_scope.

Definition zmap (A : Type) := list (Z * A).

(** [m.find(k)] *)
Fixpoint zfind {A} (k : Z) (m : zmap A) : option A :=
  match m with
  | [] => None
  | (k', v) :: m' => if k =? k' then Some v else zfind k m'
  end.

(** [m[k] = v] *)
Fixpoint zput {A} (k : Z) (v : A) (m : zmap A) : zmap A :=
  match m with
  | [] => [(k, v)]
  | (k', v') :: m' =>
      if k <? k' then (k, v) :: (k', v') :: m'
      else if k =? k' then (k, v) :: m'
      else (k', v') :: zput k v m'
  end.

(** [m.erase(k)] *)
Fixpoint zerase {A} (k : Z) (m : zmap A) : zmap A :=
  match m with
  | [] => []
  | (k', v') :: m' => if k =? k' then m' else (k', v') :: zerase k m'
  end.

Definition zmem {A} (k : Z) (m : zmap A) : bool :=
  match zfind k m with Some _ => true | None => false end.

Definition zkeys {A} (m : zmap A) : list Z := map fst m.

(** Strictly increasing keys, the representation invariant. *)
Definition zsorted {A} (m : zmap A) : Prop := StronglySorted Z.lt (zkeys m).

(** Sets of integers / addresses: [std::set]. *)
Definition zset := zmap unit.
Definition zsadd (k : Z) (s : zset) : zset := zput k tt s.
Definition zsrem (k : Z) (s : zset) : zset := zerase k s.
Definition zsmem (k : Z) (s : zset) : bool := zmem k s.

Section Lemmas.
Context {A : Type}.
Implicit Types m : zmap A.

Lemma zkeys_put_in : forall k v m x, In x (zkeys (zput k v m)) <-> x = k \/ In x (zkeys m).
Proof.
  intros k v m x; induction m as [|[k' v'] m IH]; simpl.
  - intuition.
  - destruct (k <? k') eqn:E1; simpl; [intuition|].
    destruct (k =? k') eqn:E2; simpl.
    + apply Z.eqb_eq in E2; subst. intuition.
    + rewrite IH. intuition.
Qed.

Lemma zsorted_put : forall k v m, zsorted m -> zsorted (zput k v m).
Proof.
  intros k v m; unfold zsorted; induction m as [|[k' v'] m IH]; simpl; intros H.
  - constructor; [constructor | constructor].
  - inversion H as [|? ? Hs Hf]; subst.
    destruct (k <? k') eqn:E1.
    + apply Z.ltb_lt in E1. simpl. constructor; auto. constructor; auto.
      eapply Forall_impl; [|exact Hf]. intros; simpl in *; lia.
    + destruct (k =? k') eqn:E2.
      * apply Z.eqb_eq in E2; subst. simpl. constructor; auto.
      * apply Z.ltb_ge in E1. apply Z.eqb_neq in E2.
        simpl. constructor; [apply IH; auto|].
        apply Forall_forall; intros x Hx. apply zkeys_put_in in Hx.
        rewrite Forall_forall in Hf.
        destruct Hx as [->|Hx]; [lia|auto].
Qed.

Lemma zkeys_erase_sub : forall k m x, In x (zkeys (zerase k m)) -> In x (zkeys m).
Proof.
  intros k m x; induction m as [|[k' v'] m IH]; simpl; auto.
  destruct (k =? k'); simpl; intuition.
Qed.

Lemma zsorted_erase : forall k m, zsorted m -> zsorted (zerase k m).
Proof.
  intros k m; unfold zsorted; induction m as [|[k' v'] m IH]; simpl; intros H; auto.
  inversion H as [|? ? Hs Hf]; subst.
  destruct (k =? k'); auto. simpl. constructor; auto.
  apply Forall_forall; intros x Hx. apply zkeys_erase_sub in Hx.
  rewrite Forall_forall in Hf. auto.
Qed.

Lemma zsorted_nodup : forall m, zsorted m -> NoDup (zkeys m).
Proof.
  unfold zsorted. intros m; induction (zkeys m); intros H; constructor.
  - inversion H as [|? ? Hs Hf]; subst. intros Hin. rewrite Forall_forall in Hf.
    apply Hf in Hin. lia.
  - inversion H; auto.
Qed.

Lemma zfind_in : forall k v m, zfind k m = Some v -> In (k, v) m.
Proof.
  intros k v m; induction m as [|[k' v'] m IH]; simpl; [discriminate|].
  destruct (k =? k') eqn:E; intros H.
  - apply Z.eqb_eq in E; subst. inversion H; auto.
  - auto.
Qed.

Lemma zfind_in_keys : forall k v m, zfind k m = Some v -> In k (zkeys m).
Proof. intros k v m H. apply zfind_in in H. apply in_map_iff. exists (k, v); auto. Qed.

Lemma zfind_none_keys : forall k m, zfind k m = None <-> ~ In k (zkeys m).
Proof.
  intros k m; induction m as [|[k' v'] m IH]; simpl; [intuition|].
  destruct (k =? k') eqn:E.
  - apply Z.eqb_eq in E; subst. split; [discriminate|]. intros H; exfalso; apply H; auto.
  - apply Z.eqb_neq in E. rewrite IH. split; intros H1 H2; apply H1; auto.
    destruct H2; [congruence|auto].
Qed.

Lemma zfind_some_keys : forall k m, In k (zkeys m) -> exists v, zfind k m = Some v.
Proof.
  intros k m H. destruct (zfind k m) eqn:E; [eauto|].
  apply zfind_none_keys in E. contradiction.
Qed.

Lemma in_zfind : forall k v m, zsorted m -> In (k, v) m -> zfind k m = Some v.
Proof.
  intros k v m Hs; induction m as [|[k' v'] m IH]; simpl; [contradiction|].
  intros [H|H].
  - inversion H; subst. rewrite Z.eqb_refl. auto.
  - unfold zsorted in Hs. simpl in Hs. inversion Hs as [|? ? Hs' Hf]; subst.
    destruct (k =? k') eqn:E.
    + apply Z.eqb_eq in E; subst. rewrite Forall_forall in Hf.
      assert (In k' (zkeys m)) by (apply in_map_iff; exists (k', v); auto).
      apply Hf in H0. lia.
    + apply IH; auto.
Qed.

Lemma zfind_put_same : forall k v m, zfind k (zput k v m) = Some v.
Proof.
  intros k v m; induction m as [|[k' v'] m IH]; simpl.
  - rewrite Z.eqb_refl; auto.
  - destruct (k <? k') eqn:E1; simpl; [rewrite Z.eqb_refl; auto|].
    destruct (k =? k') eqn:E2; simpl; [rewrite Z.eqb_refl; auto|].
    rewrite E2. auto.
Qed.

Lemma zfind_put_other : forall k k' v m, k <> k' -> zfind k (zput k' v m) = zfind k m.
Proof.
  intros k k' v m Hne; induction m as [|[k2 v2] m IH]; simpl.
  - apply Z.eqb_neq in Hne. rewrite Hne; auto.
  - destruct (k' <? k2) eqn:E1; simpl.
    + apply Z.eqb_neq in Hne. rewrite Hne; auto.
    + destruct (k' =? k2) eqn:E2; simpl.
      * apply Z.eqb_eq in E2; subst. apply Z.eqb_neq in Hne. rewrite Hne; auto.
      * destruct (k =? k2); auto.
Qed.

Lemma zfind_put : forall k k' v m,
  zfind k (zput k' v m) = if k =? k' then Some v else zfind k m.
Proof.
  intros. destruct (k =? k') eqn:E.
  - apply Z.eqb_eq in E; subst. apply zfind_put_same.
  - apply Z.eqb_neq in E. apply zfind_put_other; auto.
Qed.

Lemma zfind_erase : forall k k' m, zsorted m ->
  zfind k (zerase k' m) = if k =? k' then None else zfind k m.
Proof.
  intros k k' m Hs; induction m as [|[k2 v2] m IH]; simpl.
  - destruct (k =? k'); auto.
  - unfold zsorted in Hs. simpl in Hs. inversion Hs as [|? ? Hs' Hf]; subst.
    destruct (k' =? k2) eqn:E2.
    + apply Z.eqb_eq in E2; subst. destruct (k =? k2) eqn:E; auto.
      apply Z.eqb_eq in E; subst. apply zfind_none_keys. intros Hin.
      rewrite Forall_forall in Hf. apply Hf in Hin. lia.
    + simpl. destruct (k =? k2) eqn:E.
      * apply Z.eqb_eq in E; subst. rewrite Z.eqb_sym, E2. auto.
      * apply IH; auto.
Qed.

(** Sorted maps are determined by their lookups. *)
Lemma zmap_ext : forall m1 m2, zsorted m1 -> zsorted m2 ->
  (forall k, zfind k m1 = zfind k m2) -> m1 = m2.
Proof.
  induction m1 as [|[k1 v1] m1 IH]; intros m2 H1 H2 Hf.
  - destruct m2 as [|[k2 v2] m2]; auto. specialize (Hf k2). simpl in Hf.
    rewrite Z.eqb_refl in Hf. discriminate.
  - destruct m2 as [|[k2 v2] m2].
    + specialize (Hf k1). simpl in Hf. rewrite Z.eqb_refl in Hf. discriminate.
    + unfold zsorted in H1, H2. simpl in H1, H2.
      inversion H1 as [|? ? H1s H1f]; inversion H2 as [|? ? H2s H2f]; subst.
      rewrite Forall_forall in H1f, H2f.
      assert (k1 = k2).
      { destruct (Z.lt_trichotomy k1 k2) as [C|[C|C]]; auto.
        - pose proof (Hf k1) as F. simpl in F. rewrite Z.eqb_refl in F.
          assert (E : (k1 =? k2) = false) by (apply Z.eqb_neq; lia). rewrite E in F.
          symmetry in F. apply zfind_in_keys in F. apply H2f in F. lia.
        - pose proof (Hf k2) as F. simpl in F. rewrite Z.eqb_refl in F.
          assert (E : (k2 =? k1) = false) by (apply Z.eqb_neq; lia). rewrite E in F.
          apply zfind_in_keys in F. apply H1f in F. lia. }
      subst k2.
      assert (v1 = v2).
      { pose proof (Hf k1) as F. simpl in F. rewrite Z.eqb_refl in F. congruence. }
      subst v2. f_equal. apply IH; auto.
      intros k. pose proof (Hf k) as F. simpl in F.
      destruct (k =? k1) eqn:E; auto. apply Z.eqb_eq in E; subst.
      transitivity (@None A).
      * apply zfind_none_keys. intros Hin. apply H1f in Hin. lia.
      * symmetry. apply zfind_none_keys. intros Hin. apply H2f in Hin. lia.
Qed.

Lemma zput_length_new : forall k v m, zfind k m = None ->
  length (zput k v m) = S (length m).
Proof.
  intros k v m; induction m as [|[k' v'] m IH]; simpl; auto.
  destruct (k =? k') eqn:E; [discriminate|]. intros H.
  destruct (k <? k'); simpl; auto.
Qed.

Lemma zput_length_old : forall k v v0 m, zsorted m -> zfind k m = Some v0 ->
  length (zput k v m) = length m.
Proof.
  intros k v v0 m Hs; induction m as [|[k' v'] m IH]; simpl; [discriminate|].
  unfold zsorted in Hs; simpl in Hs; inversion Hs as [|? ? Hs' Hf]; subst.
  intros H. destruct (k =? k') eqn:E.
  - apply Z.eqb_eq in E; subst. rewrite Z.ltb_irrefl. auto.
  - destruct (k <? k') eqn:E1.
    + apply zfind_in_keys in H. rewrite Forall_forall in Hf. apply Hf in H.
      apply Z.ltb_lt in E1. lia.
    + simpl. auto.
Qed.

Lemma zerase_length : forall k v m, zfind k m = Some v ->
  S (length (zerase k m)) = length m.
Proof.
  intros k v m; induction m as [|[k' v'] m IH]; simpl; [discriminate|].
  destruct (k =? k') eqn:E; intros H; simpl; auto.
Qed.

Lemma zerase_none : forall k m, zfind k m = None -> zerase k m = m.
Proof.
  intros k m; induction m as [|[k' v'] m IH]; simpl; auto.
  destruct (k =? k') eqn:E; [discriminate|]. intros H. f_equal; auto.
Qed.

Lemma zsorted_nil : zsorted (@nil (Z * A)).
Proof. constructor. Qed.

Lemma zsorted_tail : forall p m, zsorted (p :: m) -> zsorted m.
Proof. intros p m H. inversion H; auto. Qed.

Lemma zsorted_app : forall m1 m2, zsorted (m1 ++ m2) <->
  zsorted m1 /\ zsorted m2 /\ (forall x y, In x (zkeys m1) -> In y (zkeys m2) -> x < y).
Proof.
  unfold zsorted. intros m1 m2. induction m1 as [|[k v] m1 IH]; simpl.
  - split; [intros H; repeat split; auto; [constructor | intros; contradiction] | intros [_ [H _]]; auto].
  - split.
    + intros H. inversion H as [|? ? Hs Hf]; subst. apply IH in Hs. destruct Hs as [H1 [H2 H3]].
      rewrite Forall_forall in Hf. unfold zkeys in Hf. rewrite map_app in Hf.
      repeat split; auto.
      * constructor; auto. apply Forall_forall. intros x Hx. apply Hf. apply in_or_app; auto.
      * intros x y [->|Hx] Hy; auto. apply Hf. apply in_or_app; auto.
    + intros [H1 [H2 H3]]. inversion H1 as [|? ? Hs Hf]; subst. constructor.
      * apply IH. repeat split; auto.
      * rewrite Forall_forall in *. intros x Hx. unfold zkeys in Hx. rewrite map_app in Hx.
        apply in_app_or in Hx. destruct Hx; auto.
Qed.

End Lemmas.

Lemma zsmem_true : forall k (s : zset), zsmem k s = true <-> In k (zkeys s).
Proof.
  intros k s. unfold zsmem, zmem. destruct (zfind k s) eqn:E.
  - apply zfind_in_keys in E. intuition.
  - apply zfind_none_keys in E. intuition. discriminate.
Qed.
