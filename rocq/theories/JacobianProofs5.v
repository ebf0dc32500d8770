(* C66: the layout of the block sparse Jacobian *)
From Coq Require Import Reals ZArith List Arith Bool Lia Permutation Sorted.
From Verif Require Import SchurModel SchurProofs SparseModel SparseProofs BlockSparseModel BlockSparseSpec BlockSparseProofs BlockSparseProofs2 BlockSparseProofs4 JacobianModel JacobianSpec JacobianProofs JacobianProofs2 JacobianProofs3.
Import ListNotations.
Open Scope R_scope.

(* ---------------------------------------------------------- two sequences at once *)
Fixpoint seqs (e f : nat) (l : list (bool * (nat * nat))) : Prop :=
  match l with
  | [] => True
  | (true, x) :: l' => fst x = e /\ seqs (e + snd x) f l'
  | (false, x) :: l' => fst x = f /\ seqs e (f + snd x) l'
  end.
Definition sum_of (t : bool) (l : list (bool * (nat * nat))) : nat := list_sum (map (fun x => if Bool.eqb (fst x) t then snd (snd x) else 0%nat) l).
Lemma sum_cons t a l : sum_of t (a :: l) = ((if Bool.eqb (fst a) t then snd (snd a) else 0) + sum_of t l)%nat. Proof. reflexivity. Qed.
Lemma seqs_within l : forall e f, seqs e f l -> forall t x, In (t, x) l -> if t then (e <= fst x /\ fst x + snd x <= e + sum_of true l)%nat else (f <= fst x /\ fst x + snd x <= f + sum_of false l)%nat.
Proof.
  induction l as [|[[|] y] l IH]; intros e f H t x I; [destruct I| |]; cbn [seqs] in H; destruct H as [E H]; rewrite !sum_cons; cbn [fst snd Bool.eqb]; destruct I as [I|I].
  - injection I as <- <-. lia.
  - specialize (IH _ _ H t x I). destruct t; lia.
  - injection I as <- <-. lia.
  - specialize (IH _ _ H t x I). destruct t; lia.
Qed.
Lemma seqs_apart l : forall e f, seqs e f l -> (e + sum_of true l <= f)%nat -> ForallOrdPairs apart (map snd l).
Proof.
  induction l as [|[[|] y] l IH]; intros e f H L; cbn [map snd]; [constructor| |]; cbn [seqs] in H; destruct H as [E H]; rewrite sum_cons in L; cbn [fst snd Bool.eqb] in L; constructor; try (eapply IH; [exact H|lia]);
    apply Forall_forall; intros x I; apply in_map_iff in I; destruct I as [[t x'] [<- I]]; cbn [snd]; generalize (seqs_within _ _ _ H t x' I); destruct t; unfold apart; lia.
Qed.
Lemma seqs_contained l e f : seqs e f l -> (e + sum_of true l <= f)%nat -> Forall (fun x => (fst x + snd x <= f + sum_of false l)%nat) (map snd l).
Proof. intros H L. apply Forall_forall. intros x I. apply in_map_iff in I. destruct I as [[t x'] [<- I]]. cbn [snd]. generalize (seqs_within _ _ _ H t x' I). destruct t; lia. Qed.
Lemma seqs_class l : forall e f, seqs e f l -> sequential e (map snd (filter (fun x => Bool.eqb (fst x) true) l)) /\ sequential f (map snd (filter (fun x => Bool.eqb (fst x) false) l)).
Proof.
  induction l as [|[[|] y] l IH]; intros e f H; [split; constructor| |]; cbn [seqs] in H; destruct H as [E H]; destruct (IH _ _ H) as [A B]; cbn [filter fst Bool.eqb map snd sequential]; auto.
Qed.
Lemma seqs_packed l : forall f, seqs 0 f l -> (forall x, In x l -> fst x = false) -> sequential f (map snd l).
Proof.
  induction l as [|[[|] y] l IH]; intros f H N; cbn [map snd sequential]; [constructor| |]; cbn [seqs] in H; destruct H as [E H].
  - specialize (N _ (or_introl eq_refl)). discriminate.
  - split; [auto|]. apply IH; [auto|]. intros x X. apply N. right. auto.
Qed.

(* ---------------------------------------------------------- positions *)
Section Places.
Context (p : Program) (nelim : nat).
Definition sizeE (num : nat) (l : list (nat * nat)) : nat := list_sum (map (fun x => if (fst x <? nelim)%nat then (num * tangent p (fst x))%nat else 0%nat) l).
Definition sizeF (num : nat) (l : list (nat * nat)) : nat := list_sum (map (fun x => if (fst x <? nelim)%nat then 0%nat else (num * tangent p (fst x))%nat) l).
Fixpoint places (num : nat) (l : list (nat * nat)) (e f : nat) : list nat :=
  match l with
  | [] => []
  | x :: l' => if (fst x <? nelim)%nat then e :: places num l' (e + num * tangent p (fst x)) f else f :: places num l' e (f + num * tangent p (fst x))
  end.
Lemma place_spec num l : (forall x, In x l -> (Z.of_nat num * Z.of_nat (tangent p (fst x)) <= INT_MAX)%Z) -> NoDup (map snd l) ->
  forall e f pos, (Z.of_nat (e + sizeE num l) <= INT_MAX)%Z -> (Z.of_nat f <= INT_MAX)%Z -> (forall x, In x l -> (snd x < length pos)%nat) ->
  if (INT_MAX <? Z.of_nat (f + sizeF num l))%Z then Place p nelim num l (Z.of_nat e) (Z.of_nat f) pos = TooMany
  else exists pos', Place p nelim num l (Z.of_nat e) (Z.of_nat f) pos = Made (Z.of_nat (e + sizeE num l), Z.of_nat (f + sizeF num l), pos') /\ length pos' = length pos /\
    map (fun x => nth (snd x) pos' 0%nat) l = places num l e f /\ (forall k, ~ In k (map snd l) -> nth k pos' 0%nat = nth k pos 0%nat).
Proof.
  intros H N. induction l as [|[v k] l IH]; intros e f pos LE LF LP.
  - unfold sizeE, sizeF in *. cbn [map]. change (list_sum []) with 0%nat. rewrite !Nat.add_0_r. destruct (Z.ltb_spec INT_MAX (Z.of_nat f)); [lia|]. exists pos. cbn. auto.
  - cbn [map snd] in N. inversion N as [|? ? N1 N2]; subst. assert (HV := H (v, k) (or_introl eq_refl)). cbn [fst] in HV. assert (HK := LP (v, k) (or_introl eq_refl)). cbn [snd] in HK.
    specialize (IH (fun x X => H x (or_intror X)) N2). unfold sizeE, sizeF in *. cbn [map fst] in *. rewrite !list_sum_cons in *. fold (sizeE num l) in *. fold (sizeF num l) in *.
    cbn [Place places fst snd map]. destruct (Z.ltb_spec INT_MAX (Z.of_nat num * Z.of_nat (tangent p v))); [lia|]. rewrite <- Nat2Z.inj_mul in *.
    assert (SN : forall A (pos' : list A) (x : A), length (set_nth pos' k x) = length pos') by (intros; apply set_nth_length).
    destruct (Nat.ltb_spec v nelim) as [V|V].
    + destruct (Z.ltb_spec INT_MAX (Z.of_nat e + Z.of_nat (num * tangent p v))); [lia|]. rewrite <- Nat2Z.inj_add, Nat2Z.id. specialize (IH (e + num * tangent p v)%nat f (set_nth pos k e) ltac:(lia) LF). rewrite SN in IH. specialize (IH (fun x X => LP x (or_intror X))).
      rewrite Nat.add_0_l. destruct (Z.ltb_spec INT_MAX (Z.of_nat (f + sizeF num l))); [exact IH|]. destruct IH as [pos' [E [L [M O]]]]. exists pos'. split; [rewrite E; do 4 f_equal; lia|]. split; [auto|]. split.
      * rewrite M, (O k N1). rewrite set_nth_same by auto. auto.
      * intros q Q. rewrite O by (intros I; apply Q; right; auto). apply set_nth_other. intros <-. apply Q. left. auto.
    + rewrite Nat.add_0_l in LE. rewrite <- Nat2Z.inj_add. unfold INT_MAX in *. rewrite Z.mod_small by lia. fold INT_MAX in *. destruct (Z.ltb_spec INT_MAX (Z.of_nat (f + num * tangent p v))).
      * destruct (Z.ltb_spec INT_MAX (Z.of_nat (f + (num * tangent p v + sizeF num l)))); [auto|lia].
      * specialize (IH e (f + num * tangent p v)%nat (set_nth pos k f) ltac:(lia) ltac:(lia)). rewrite SN in IH. specialize (IH (fun x X => LP x (or_intror X))). rewrite Nat2Z.id. rewrite <- Nat.add_assoc in IH.
        destruct (Z.ltb_spec INT_MAX (Z.of_nat (f + (num * tangent p v + sizeF num l)))); [exact IH|]. destruct IH as [pos' [E [L [M O]]]]. exists pos'. split; [rewrite E; do 4 f_equal; lia|]. split; [auto|]. split.
        { rewrite M, (O k N1). rewrite set_nth_same by auto. auto. }
        { intros q Q. rewrite O by (intros I; apply Q; right; auto). apply set_nth_other. intros <-. apply Q. left. auto. }
Qed.
Definition tags (num : nat) (l : list (nat * nat)) (pos : list nat) : list (bool * (nat * nat)) := map (fun x => ((fst x <? nelim)%nat, (nth (snd x) pos 0%nat, (num * tangent p (fst x))%nat))) l.
Lemma tags_seqs num l pos rest : forall e f, map (fun x => nth (snd x) pos 0%nat) l = places num l e f -> seqs (e + sizeE num l) (f + sizeF num l) rest -> seqs e f (tags num l pos ++ rest).
Proof.
  induction l as [|[v k] l IH]; intros e f M S.
  - unfold sizeE, sizeF in S. cbn [map] in S. change (list_sum []) with 0%nat in S. rewrite !Nat.add_0_r in S. exact S.
  - unfold sizeE, sizeF in S. cbn [map fst] in S. rewrite !list_sum_cons in S. fold (sizeE num l) (sizeF num l) in S. cbn [tags map fst snd app]. fold (tags num l pos). cbn [places map fst snd] in M. destruct (v <? nelim)%nat eqn:V; cbn [seqs fst snd]; injection M as M1 M2; (split; [auto|]); apply IH; auto.
    + replace (e + num * tangent p v + sizeE num l)%nat with (e + (num * tangent p v + sizeE num l))%nat by lia. rewrite Nat.add_0_l in S. exact S.
    + rewrite Nat.add_0_l in S. rewrite Nat.add_assoc in S. exact S.
Qed.

(* ---------------------------------------------------------- cells *)
Definition of_pair (l : list nat) (x : nat * nat) : Cell := mkCell (fst x) (nth (snd x) l 0%nat).
Lemma insert_cell_map l a xs : ~ In (fst a) (map fst xs) -> insert_cell (of_pair l a) (map (of_pair l) xs) = map (of_pair l) (insert_key a xs).
Proof.
  induction xs as [|b xs IH]; intros N; [reflexivity|]. cbn [map insert_cell insert_key]. cbn [map] in N. unfold cell_less at 1. cbn [of_pair block_id cell_position].
  destruct (Nat.eqb_spec (fst b) (fst a)) as [E|E]; [exfalso; apply N; left; auto|]. destruct (Nat.ltb_spec (fst b) (fst a)), (Nat.leb_spec (fst a) (fst b)); try lia; cbn [map]; [|reflexivity]. rewrite IH; [reflexivity|]. intros I. apply N. right. auto.
Qed.
Lemma sort_cells_map l xs : NoDup (map fst xs) -> sort_cells (map (of_pair l) xs) = map (of_pair l) (sort_keys xs).
Proof.
  induction xs as [|a xs IH]; intros N; [reflexivity|]. cbn [map] in N. inversion N; subst. cbn [map sort_cells fold_right sort_keys]. fold (sort_cells (map (of_pair l) xs)). fold (sort_keys xs). rewrite IH by auto. apply insert_cell_map.
  intros I. apply (Permutation_in _ (Permutation_map fst (sort_keys_perm xs))) in I. tauto.
Qed.
Lemma numbered_fst l : map fst (numbered l) = map fst l.
Proof. unfold numbered. generalize 0%nat. induction l as [|a l IH]; intros s; [auto|]. cbn [map length seq combine fst]. now rewrite IH. Qed.
Lemma numbered_snd l : map snd (numbered l) = seq 0 (length l).
Proof. unfold numbered. generalize 0%nat. induction l as [|a l IH]; intros s; [auto|]. cbn [map length seq combine snd]. now rewrite IH. Qed.
Lemma numbered_length l : length (numbered l) = length l.
Proof. unfold numbered. now rewrite combine_length, map_length, seq_length, Nat.min_id. Qed.
Definition pairs (b : RBlock) : list (nat * nat) := sort_keys (numbered (active 0 (r_args b))).
Lemma pairs_keys b : Permutation (map fst (pairs b)) (indices (r_args b)).
Proof. unfold pairs. rewrite <- (active_keys 0), <- (numbered_fst (active 0 (r_args b))). apply Permutation_map, sort_keys_perm. Qed.
Lemma pairs_snd b : Permutation (map snd (pairs b)) (seq 0 (length (active 0 (r_args b)))).
Proof. unfold pairs. rewrite <- (numbered_snd (active 0 (r_args b))). apply Permutation_map, sort_keys_perm. Qed.
Lemma cells_eq b l : NoDup (indices (r_args b)) -> sort_cells (map (fun x => mkCell (fst x) (nth (snd x) l 0%nat)) (numbered (active 0 (r_args b)))) = map (of_pair l) (pairs b).
Proof. intros N. apply (sort_cells_map l). rewrite numbered_fst, active_keys. exact N. Qed.
Lemma sum_if {A} (P : A -> bool) (g : A -> nat) l : list_sum (map (fun x => if P x then g x else 0%nat) l) = list_sum (map g (filter P l)).
Proof. induction l as [|a l IH]; [auto|]. cbn [map filter]. rewrite list_sum_cons, IH. destruct (P a); auto. Qed.
Lemma sum_mul {A} (g : A -> nat) n l : list_sum (map (fun x => (n * g x)%nat) l) = (n * list_sum (map g l))%nat.
Proof. induction l as [|a l IH]; [cbn; lia|]. cbn [map]. rewrite !list_sum_cons, IH. lia. Qed.
Lemma sizeE_pairs b : sizeE (r_num b) (pairs b) = (r_num b * e_width p nelim b)%nat.
Proof.
  unfold sizeE, e_width. rewrite <- sum_mul, <- (sum_if (fun v => (v <? nelim)%nat) (fun v => (r_num b * tangent p v)%nat)). rewrite <- (map_map fst (fun v => if (v <? nelim)%nat then (r_num b * tangent p v)%nat else 0%nat)). apply list_sum_perm, Permutation_map, pairs_keys.
Qed.
Definition f_width (b : RBlock) : nat := (width_of p b - e_width p nelim b)%nat.
Lemma widths b : (e_width p nelim b <= width_of p b)%nat /\ sizeF (r_num b) (pairs b) = (r_num b * f_width b)%nat.
Proof.
  assert (X : (e_width p nelim b + list_sum (map (fun v => if (v <? nelim)%nat then 0%nat else tangent p v) (indices (r_args b))) = width_of p b)%nat).
  { unfold e_width, width_of. rewrite <- (sum_if (fun v => (v <? nelim)%nat) (tangent p)). induction (indices (r_args b)) as [|v l IH]; [auto|]. cbn [map]. rewrite !list_sum_cons. destruct (v <? nelim)%nat; lia. }
  split; [lia|]. unfold f_width. replace (width_of p b - e_width p nelim b)%nat with (list_sum (map (fun v => if (v <? nelim)%nat then 0%nat else tangent p v) (indices (r_args b)))) by lia. rewrite <- sum_mul.
  unfold sizeF. rewrite <- (map_map fst (fun v => if (v <? nelim)%nat then 0%nat else (r_num b * tangent p v)%nat)). rewrite (list_sum_perm _ _ (Permutation_map _ (pairs_keys b))). f_equal. apply map_ext. intros v. destruct (v <? nelim)%nat; lia.
Qed.

(* ---------------------------------------------------------- both loops *)
Definition e_of (bs : list RBlock) : nat := list_sum (map (fun b => (r_num b * e_width p nelim b)%nat) bs).
Definition f_of (bs : list RBlock) : nat := list_sum (map (fun b => (r_num b * f_width b)%nat) bs).
Definition blocks_of (bs : list RBlock) : nat := list_sum (map (fun b => length (indices (r_args b))) bs).
Lemma e_f_entries bs : (e_of bs + f_of bs = entries_of p bs)%nat.
Proof. induction bs as [|b bs IH]; [auto|]. unfold e_of, f_of, entries_of in *. cbn [map]. rewrite !list_sum_cons. destruct (widths b) as [L _]. unfold f_width in *. nia. Qed.
Lemma count_e num l : (forall x, In x l -> (Z.of_nat num * Z.of_nat (tangent p (fst x)) <= INT_MAX)%Z) -> forall f, (Z.of_nat (f + sizeE num l) <= INT_MAX)%Z -> CountE p nelim num l (Z.of_nat f) = Made (Z.of_nat (f + sizeE num l)).
Proof.
  induction l as [|[v k] l IH]; intros H f L; cbn [CountE].
  - unfold sizeE. cbn [map]. change (list_sum []) with 0%nat. now rewrite Nat.add_0_r.
  - assert (HV := H (v, k) (or_introl eq_refl)). cbn [fst] in HV. specialize (IH (fun x X => H x (or_intror X))). unfold sizeE in *. cbn [map fst] in *. rewrite list_sum_cons in *. fold (sizeE num l) in *. destruct (v <? nelim)%nat.
    + destruct (Z.ltb_spec INT_MAX (Z.of_nat num * Z.of_nat (tangent p v))); [lia|]. rewrite <- Nat2Z.inj_mul, <- Nat2Z.inj_add. unfold INT_MAX in *. rewrite Z.mod_small by lia. rewrite IH by lia. do 2 f_equal. lia.
    + rewrite Nat.add_0_l in *. now apply IH.
Qed.
Lemma sizeE_active b : sizeE (r_num b) (active 0 (r_args b)) = (r_num b * e_width p nelim b)%nat.
Proof. rewrite <- sizeE_pairs. unfold sizeE. rewrite <- !(map_map fst (fun v => if (v <? nelim)%nat then (r_num b * tangent p v)%nat else 0%nat)). apply list_sum_perm, Permutation_map. rewrite active_keys. apply Permutation_sym, pairs_keys. Qed.
Definition small (bs : list RBlock) : Prop := forall b v, In b bs -> In v (indices (r_args b)) -> (Z.of_nat (r_num b) * Z.of_nat (tangent p v) <= INT_MAX)%Z.
Lemma first_loop bs : small bs -> forall n f, (Z.of_nat (f + e_of bs) <= INT_MAX)%Z -> (Z.of_nat n <= INT_MAX)%Z ->
  FirstLoop p nelim bs (Z.of_nat n) (Z.of_nat f) = if (INT_MAX <? Z.of_nat (n + blocks_of bs))%Z then TooMany else Made (Z.of_nat (f + e_of bs)).
Proof.
  induction bs as [|b bs IH]; intros S n f LE LN; cbn [FirstLoop].
  - unfold e_of, blocks_of. cbn [map]. change (list_sum []) with 0%nat. rewrite !Nat.add_0_r. destruct (Z.ltb_spec INT_MAX (Z.of_nat n)); [lia|auto].
  - unfold e_of, blocks_of in *. cbn [map] in *. rewrite !list_sum_cons in *. fold (e_of bs) (blocks_of bs) in *.
    rewrite count_e; [|intros x X; apply S; [left; auto|rewrite <- (active_keys 0); now apply in_map]|rewrite sizeE_active; lia]. rewrite sizeE_active, <- Nat2Z.inj_add. assert (LA : length (active 0 (r_args b)) = length (indices (r_args b))) by (rewrite <- (active_keys 0), map_length; auto). rewrite LA.
    destruct (Z.ltb_spec INT_MAX (Z.of_nat (n + length (indices (r_args b))))).
    + destruct (Z.ltb_spec INT_MAX (Z.of_nat (n + (length (indices (r_args b)) + blocks_of bs)))); [auto|lia].
    + rewrite IH; [|intros b' v I; apply S; right; auto|lia|lia]. rewrite !Nat.add_assoc. auto.
Qed.
Definition tagged (rs : list Row) : list (bool * (nat * nat)) := flat_map (fun row => map (fun c => ((block_id c <? nelim)%nat, (cell_position c, (size (block row) * tangent p (block_id c))%nat))) (cells row)) rs.
Lemma second_loop bs : small bs -> Forall (block_ok p) bs -> forall e f rpos, (Z.of_nat (e + e_of bs) <= INT_MAX)%Z -> (Z.of_nat f <= INT_MAX)%Z ->
  if (INT_MAX <? Z.of_nat (f + f_of bs))%Z then SecondLoop p nelim bs (Z.of_nat e) (Z.of_nat f) = TooMany
  else exists layout, SecondLoop p nelim bs (Z.of_nat e) (Z.of_nat f) = Made layout /\ Forall2 (fun b l => length l = length (active 0 (r_args b))) bs layout /\ seqs e f (tagged (CellRows bs layout rpos)).
Proof.
  induction bs as [|b bs IH]; intros S B e f rpos LE LF; cbn [SecondLoop].
  - unfold f_of. cbn [map]. change (list_sum []) with 0%nat. rewrite Nat.add_0_r. destruct (Z.ltb_spec INT_MAX (Z.of_nat f)); [lia|]. exists []. cbn. auto.
  - inversion B as [|? ? B1 B2]; subst. unfold e_of, f_of in *. cbn [map] in *. rewrite !list_sum_cons in *. fold (e_of bs) (f_of bs) in *. fold (pairs b). rewrite numbered_length.
    assert (SP : forall x, In x (pairs b) -> (Z.of_nat (r_num b) * Z.of_nat (tangent p (fst x)) <= INT_MAX)%Z) by (intros x X; apply S; [left; auto|]; apply (Permutation_in _ (pairs_keys b)); now apply in_map).
    assert (ND : NoDup (map snd (pairs b))) by (eapply Permutation_NoDup; [apply Permutation_sym, pairs_snd|apply seq_NoDup]).
    destruct (widths b) as [_ WF]. generalize (place_spec (r_num b) (pairs b) SP ND e f (repeat 0%nat (length (active 0 (r_args b))))). rewrite WF, sizeE_pairs, repeat_length. intros PS. specialize (PS ltac:(lia) LF).
    assert (LP : forall x, In x (pairs b) -> (snd x < length (active 0 (r_args b)))%nat) by (intros x X; apply (in_map snd), (Permutation_in _ (pairs_snd b)), in_seq in X; lia). specialize (PS LP).
    destruct (Z.ltb_spec INT_MAX (Z.of_nat (f + r_num b * f_width b))) as [Q|Q].
    + rewrite PS. destruct (Z.ltb_spec INT_MAX (Z.of_nat (f + (r_num b * f_width b + f_of bs)))); [auto|lia].
    + destruct PS as [pos [E [L [M O]]]]. rewrite E. specialize (IH (fun b' v I => S b' v (or_intror I)) B2 (e + r_num b * e_width p nelim b)%nat (f + r_num b * f_width b)%nat (rpos + r_num b)%nat ltac:(lia) ltac:(lia)). rewrite <- Nat.add_assoc in IH.
      destruct (Z.ltb_spec INT_MAX (Z.of_nat (f + (r_num b * f_width b + f_of bs)))); [now rewrite IH|]. destruct IH as [layout [E' [F2 SQ]]]. rewrite E'. exists (pos :: layout). split; [auto|]. split; [constructor; auto|].
      cbn [CellRows tagged flat_map]. fold (tagged (CellRows bs layout (rpos + r_num b))). cbn [block cells size]. rewrite cells_eq by apply B1.
      replace (map (fun c => ((block_id c <? nelim)%nat, (cell_position c, (r_num b * tangent p (block_id c))%nat))) (map (of_pair pos) (pairs b))) with (tags (r_num b) (pairs b) pos) by (unfold tags; rewrite map_map; reflexivity).
      apply tags_seqs; [exact M|]. now rewrite WF, sizeE_pairs.
Qed.
End Places.
