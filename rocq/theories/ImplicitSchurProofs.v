(* Block diagonal matrices: products, inverses. *)
From Coq Require Import Reals ZArith List Arith Bool Lia Lra.
From Verif Require Import SchurModel SchurProofs BlockSparseModel BlockSparseSpec BlockSparseProofs BlockSparseProofs2 CGModel CGSpec CGProofs ImplicitSchurModel ImplicitSchurSpec.
Import ListNotations.
Open Scope R_scope.

Definition nob : Block := mkBlock 0 0.
Definition kth (bl : list Block) (k : nat) : Block := nth k bl nob.
Definition blockmat (bl : list Block) (m : nat -> matrix) : matrix := fun p q =>
  suml (combine (seq 0 (length bl)) bl) (fun kb => if holds (snd kb) p && holds (snd kb) q then m (fst kb) (p - position (snd kb))%nat (q - position (snd kb))%nat else 0).

Lemma combine_nth_sum (bl : list Block) (G : nat -> Block -> R) : forall s, suml (combine (seq s (length bl)) bl) (fun kb => G (fst kb) (snd kb)) = suml (seq 0 (length bl)) (fun k => G (s + k)%nat (kth bl k)).
Proof.
  induction bl as [|b bl IH]; intro s; [reflexivity|]. cbn [length seq combine suml fst snd]. rewrite IH, <- seq_shift, suml_map. rewrite Nat.add_0_r. f_equal. apply suml_ext. intros k _. replace (s + S k)%nat with (S s + k)%nat by lia. reflexivity.
Qed.
Lemma single_seq n k (g : nat -> R) : (k < n)%nat -> (forall i, (i < n)%nat -> i <> k -> g i = 0) -> suml (seq 0 n) g = g k.
Proof.
  intros H Z. rewrite (suml_ext _ _ (fun i => if (k =? i)%nat then g i else 0)).
  - apply suml_seq_single. exact H.
  - intros i Hi. apply in_seq in Hi. destruct (Nat.eqb_spec k i) as [E|E]; [reflexivity|]. apply Z; lia.
Qed.

Section BLOCKS.
Variable bl : list Block.
Hypothesis L : laid_out 0 bl.
Let n := total bl.
Lemma kth_unique k k' p : (k < length bl)%nat -> (k' < length bl)%nat -> holds (kth bl k) p = true -> holds (kth bl k') p = true -> k = k'.
Proof.
  intros Hk Hk' H H'. destruct (lt_eq_lt_dec k k') as [[X|X]|X]; [exfalso|exact X|exfalso].
  - exact (laid_holds 0 bl k k' nob p L ltac:(lia) H H').
  - exact (laid_holds 0 bl k' k nob p L ltac:(lia) H' H).
Qed.
Lemma kth_bound k : (k < length bl)%nat -> (position (kth bl k) + size (kth bl k) <= n)%nat.
Proof. intro H. exact (laid_bound 0 bl k nob L H). Qed.
Lemma kth_find p : (p < n)%nat -> exists k, (k < length bl)%nat /\ holds (kth bl k) p = true.
Proof. intro H. exact (laid_find 0 bl L p ltac:(unfold n in H; lia)). Qed.
Lemma blockmat_in m p q k : (k < length bl)%nat -> holds (kth bl k) p = true ->
  blockmat bl m p q = if holds (kth bl k) q then m k (p - position (kth bl k))%nat (q - position (kth bl k))%nat else 0.
Proof.
  intros Hk Hp. unfold blockmat. rewrite (combine_nth_sum bl (fun k b => if holds b p && holds b q then m k (p - position b)%nat (q - position b)%nat else 0)).
  rewrite (single_seq (length bl) k); [cbn [Nat.add]; rewrite Hp; reflexivity|exact Hk|].
  intros i Hi Ni. destruct (holds (kth bl i) p) eqn:E; [|reflexivity]. exfalso. apply Ni. exact (kth_unique i k p Hi Hk E Hp).
Qed.
Lemma blockmat_out m p q : (n <= p)%nat -> blockmat bl m p q = 0.
Proof.
  intro H. unfold blockmat. rewrite (combine_nth_sum bl (fun k b => if holds b p && holds b q then m k (p - position b)%nat (q - position b)%nat else 0)). apply suml_zero.
  intros k Hk. apply in_seq in Hk. destruct (holds (kth bl k) p) eqn:E; [|reflexivity]. apply holds_spec in E. unfold within in E. pose proof (kth_bound k ltac:(lia)). lia.
Qed.

Lemma diagonal_times m x y y' : Parallel (DiagonalTasks bl m x) y y' -> forall p, y' p = y p + sumn n (fun q => blockmat bl m p q * x q).
Proof.
  intros P p. rewrite (parallel_sum _ _ _ p P). f_equal. unfold DiagonalTasks. rewrite suml_map. cbn [suml].
  rewrite (suml_ext _ _ (fun kb => part (mkUpdate (position (snd kb)) (size (snd kb)) (mv (size (snd kb)) (m (fst kb)) (shift x (position (snd kb))))) p)) by (intros; apply Rplus_0_r).
  rewrite (combine_nth_sum bl (fun k b => part (mkUpdate (position b) (size b) (mv (size b) (m k) (shift x (position b)))) p)). cbn [Nat.add].
  destruct (le_lt_dec n p) as [G|G].
  - rewrite suml_zero, sumn_zero; [reflexivity| |].
    + intros q Hq. rewrite blockmat_out by exact G. ring.
    + intros k Hk. apply in_seq in Hk. unfold part. cbn [u_pos u_len]. destruct (inside _ _ _) eqn:E; [|reflexivity]. apply inside_spec in E. pose proof (kth_bound k ltac:(lia)). lia.
  - destruct (kth_find p G) as [k [Hk Hp]]. rewrite (single_seq (length bl) k); [|exact Hk|].
    + unfold part. cbn [u_pos u_len u_val]. change (inside (position (kth bl k)) (size (kth bl k)) p) with (holds (kth bl k) p). rewrite Hp. unfold mv, shift.
      rewrite (sumn_ext n _ (fun q => if inside (position (kth bl k)) (size (kth bl k)) q then m k (p - position (kth bl k))%nat (q - position (kth bl k))%nat * x q else 0)).
      * rewrite sum_block by (exact (kth_bound k Hk)). apply sumn_ext. intros j Hj. replace (position (kth bl k) + j - position (kth bl k))%nat with j by lia. reflexivity.
      * intros q Hq. rewrite (blockmat_in m p q k Hk Hp). rewrite holds_inside. destruct (inside _ _ q); ring.
    + intros i Hi Ni. unfold part. cbn [u_pos u_len]. change (inside (position (kth bl i)) (size (kth bl i)) p) with (holds (kth bl i) p). destruct (holds (kth bl i) p) eqn:E; [|reflexivity]. exfalso. apply Ni. exact (kth_unique i k p Hi Hk E Hp).
Qed.
End BLOCKS.

(* together *)
Lemma together_spec bl : forall p i j, laid_out p bl -> (p <= i)%nat -> (p <= j)%nat ->
  together bl (i - p) (j - p) = true <-> exists k, (k < length bl)%nat /\ holds (kth bl k) i = true /\ holds (kth bl k) j = true.
Proof.
  induction bl as [|b bl IH]; intros p i j L Hi Hj; [cbn; split; [discriminate|intros [k [Hk _]]; cbn in Hk; lia]|].
  cbn [laid_out] in L. destruct L as [Pb L]. cbn [together].
  destruct (Nat.ltb_spec (i - p) (size b)) as [Li|Li]; destruct (Nat.ltb_spec (j - p) (size b)) as [Lj|Lj]; cbn [negb andb].
  - split; [intros _|reflexivity]. exists 0%nat. split; [cbn; lia|]. unfold kth. cbn [nth]. split; apply holds_spec; unfold within; lia.
  - split; [discriminate|]. intros [[|k] [Hk [A B]]]; unfold kth in A, B; cbn [nth] in A, B; apply holds_spec in A; apply holds_spec in B; unfold within in A, B; [lia|]. exfalso.
    assert (forall bl p k, laid_out p bl -> (k < length bl)%nat -> (p <= position (kth bl k))%nat) as G.
    { clear. induction bl as [|b bl IH]; intros p k L H; [cbn in H; lia|]. destruct L as [E L]. destruct k; unfold kth; cbn [nth]; [lia|]. pose proof (IH _ k L ltac:(cbn in H; lia)). unfold kth in H0. lia. }
    pose proof (G bl _ k L ltac:(cbn in Hk; lia)) as X. unfold kth in X. unfold nob in *. lia.
  - split; [discriminate|]. intros [[|k] [Hk [A B]]]; unfold kth in A, B; cbn [nth] in A, B; apply holds_spec in A; apply holds_spec in B; unfold within in A, B; [lia|]. exfalso.
    assert (forall bl p k, laid_out p bl -> (k < length bl)%nat -> (p <= position (kth bl k))%nat) as G.
    { clear. induction bl as [|b bl IH]; intros p k L H; [cbn in H; lia|]. destruct L as [E L]. destruct k; unfold kth; cbn [nth]; [lia|]. pose proof (IH _ k L ltac:(cbn in H; lia)). unfold kth in H0. lia. }
    pose proof (G bl _ k L ltac:(cbn in Hk; lia)) as X. unfold kth in X. unfold nob in *. lia.
  - replace (i - p - size b)%nat with (i - (p + size b))%nat by lia. replace (j - p - size b)%nat with (j - (p + size b))%nat by lia. rewrite (IH (p + size b)%nat i j L) by lia. split.
    + intros [k [Hk AB]]. exists (S k). split; [cbn; lia|exact AB].
    + intros [[|k] [Hk [A B]]]; [unfold kth in A; cbn [nth] in A; apply holds_spec in A; unfold within in A; lia|]. exists k. split; [cbn in Hk; lia|]. split; assumption.
Qed.
Lemma together_in bl i j k : laid_out 0 bl -> (k < length bl)%nat -> holds (kth bl k) i = true -> together bl i j = holds (kth bl k) j.
Proof.
  intros L Hk Hi. pose proof (together_spec bl 0 i j L ltac:(lia) ltac:(lia)) as T. rewrite !Nat.sub_0_r in T. destruct (holds (kth bl k) j) eqn:E.
  - apply T. exists k. split; [exact Hk|]. split; assumption.
  - destruct (together bl i j); [|reflexivity]. destruct T as [T _]. destruct (T eq_refl) as [k' [Hk' [A B]]]. rewrite (kth_unique bl L k' k i Hk' Hk A Hi) in B. congruence.
Qed.
Lemma layout_laid bl : forall p, laid_out p (DiagonalLayout p bl).
Proof. induction bl as [|b bl IH]; intro p; [exact I|]. cbn. split; [reflexivity|]. apply IH. Qed.
Lemma layout_total bl : forall p, total (DiagonalLayout p bl) = total bl.
Proof. induction bl as [|b bl IH]; intro p; [reflexivity|]. unfold total in *. cbn. rewrite IH. reflexivity. Qed.
Lemma layout_length bl : forall p, length (DiagonalLayout p bl) = length bl.
Proof. induction bl as [|b bl IH]; intro p; [reflexivity|]. cbn. rewrite IH. reflexivity. Qed.
Lemma layout_size bl : forall p k, size (kth (DiagonalLayout p bl) k) = size (kth bl k).
Proof. induction bl as [|b bl IH]; intros p k; [destruct k; reflexivity|]. destruct k; [reflexivity|]. unfold kth. cbn [DiagonalLayout nth]. apply IH. Qed.
Lemma layout_position bl : forall p q k, laid_out q bl -> (k < length bl)%nat -> (position (kth (DiagonalLayout p bl) k) + q = position (kth bl k) + p)%nat.
Proof.
  induction bl as [|b bl IH]; intros p q k L H; [cbn in H; lia|]. destruct L as [E L]. destruct k; unfold kth; cbn [DiagonalLayout nth position]; [lia|].
  pose proof (IH (p + size b)%nat (q + size b)%nat k L ltac:(cbn in H; lia)) as X. unfold kth in X. lia.
Qed.
Lemma layout_together bl : forall p i j, together (DiagonalLayout p bl) i j = together bl i j.
Proof. induction bl as [|b bl IH]; intros p i j; [reflexivity|]. cbn. rewrite IH. reflexivity. Qed.

(* inverses of block diagonal matrices *)
Definition subblock (bl : list Block) (k : nat) (M : matrix) : matrix := fun i j => M (position (kth bl k) + i)%nat (position (kth bl k) + j)%nat.
Lemma block_inverse bl M m : laid_out 0 bl -> (forall k, (k < length bl)%nat -> inverse_of (size (kth bl k)) (subblock bl k M) (m k)) ->
  inverse_of (total bl) (block_diagonal bl M) (blockmat bl m).
Proof.
  intros L H i j Hi Hj. destruct (kth_find bl L i Hi) as [k [Hk Ki]]. set (b := kth bl k) in *.
  assert (within b i) as Wi by (apply holds_spec; exact Ki). unfold within in Wi. pose proof (kth_bound bl L k Hk) as B. fold b in B.
  assert (forall f g : nat -> R, (forall q, (q < total bl)%nat -> f q = if inside (position b) (size b) q then g q else 0) -> sumn (total bl) f = sumn (size b) (fun q => g (position b + q)%nat)) as Red.
  { intros f g E. rewrite (sumn_ext (total bl) f (fun q => if inside (position b) (size b) q then g q else 0) E). apply sum_block. exact B. }
  assert ((i =? j)%nat = holds b j && (i - position b =? j - position b)%nat) as Eq.
  { destruct (holds b j) eqn:E; cbn [andb].
    - apply holds_spec in E. unfold within in E. destruct (Nat.eqb_spec i j); destruct (Nat.eqb_spec (i - position b) (j - position b)); try reflexivity; lia.
    - destruct (Nat.eqb_spec i j) as [X|X]; [subst j; congruence|reflexivity]. }
  split.
  - rewrite (Red _ (fun q => M i q * blockmat bl m q j)).
    + rewrite (sumn_ext (size b) _ (fun q => if holds b j then subblock bl k M (i - position b)%nat q * m k q (j - position b)%nat else 0)).
      * rewrite Eq. destruct (holds b j) eqn:E; [|apply sumn_zero; reflexivity]. apply holds_spec in E. unfold within in E. cbn [andb]. apply (H k Hk); unfold b in *; lia.
      * intros q Hq. rewrite (blockmat_in bl L m (position b + q) j k Hk) by (apply holds_spec; unfold within; fold b; lia). fold b. destruct (holds b j); [|ring]. unfold subblock. fold b. replace (position b + (i - position b))%nat with i by lia. replace (position b + q - position b)%nat with q by lia. reflexivity.
    + intros q Hq. unfold block_diagonal. rewrite (together_in bl i q k L Hk Ki). fold b. rewrite holds_inside. destruct (inside _ _ q); ring.
  - rewrite (Red _ (fun q => m k (i - position b)%nat (q - position b)%nat * block_diagonal bl M q j)).
    + rewrite (sumn_ext (size b) _ (fun q => if holds b j then m k (i - position b)%nat q * subblock bl k M q (j - position b)%nat else 0)).
      * rewrite Eq. destruct (holds b j) eqn:E; [|apply sumn_zero; reflexivity]. apply holds_spec in E. unfold within in E. cbn [andb]. apply (H k Hk); unfold b in *; lia.
      * intros q Hq. unfold block_diagonal. rewrite (together_in bl (position b + q) j k L Hk) by (apply holds_spec; unfold within; fold b; lia). fold b. destruct (holds b j) eqn:E; [|ring]. apply holds_spec in E. unfold within in E. unfold subblock. fold b. replace (position b + (j - position b))%nat with j by lia. replace (position b + q - position b)%nat with q by lia. reflexivity.
    + intros q Hq. rewrite (blockmat_in bl L m i q k Hk Ki). fold b. rewrite holds_inside. destruct (inside _ _ q); ring.
Qed.

(* parts of definite matrices *)
Definition extended (b : Block) (v : vec) : vec := fun i => if holds b i then v (i - position b)%nat else 0.
Lemma extended_form n b M v : (position b + size b <= n)%nat ->
  inner n (extended b v) (apply n M (extended b v)) = inner (size b) v (apply (size b) (fun i j => M (position b + i)%nat (position b + j)%nat) v).
Proof.
  intro B. unfold inner, apply.
  rewrite (sumn_ext n _ (fun i => if inside (position b) (size b) i then v (i - position b)%nat * sumn n (fun j => M i j * extended b v j) else 0)) by (intros i Hi; unfold extended at 1; rewrite holds_inside; destruct (inside _ _ i); ring).
  rewrite sum_block by exact B. apply sumn_ext. intros i Hi. replace (position b + i - position b)%nat with i by lia. f_equal.
  rewrite (sumn_ext n _ (fun j => if inside (position b) (size b) j then M (position b + i)%nat j * v (j - position b)%nat else 0)) by (intros j Hj; unfold extended; rewrite holds_inside; destruct (inside _ _ j); ring).
  rewrite sum_block by exact B. apply sumn_ext. intros j Hj. replace (position b + j - position b)%nat with j by lia. reflexivity.
Qed.
Lemma subblock_definite bl k M : laid_out 0 bl -> (k < length bl)%nat -> definite (total bl) M -> definite (size (kth bl k)) (subblock bl k M).
Proof.
  intros L Hk P v [i [Hi Nv]]. pose proof (kth_bound bl L k Hk) as B. unfold subblock. rewrite <- (extended_form (total bl) (kth bl k) M v B). apply P.
  exists (position (kth bl k) + i)%nat. split; [lia|]. unfold extended. assert (holds (kth bl k) (position (kth bl k) + i) = true) as -> by (apply holds_spec; unfold within; lia). replace (position (kth bl k) + i - position (kth bl k))%nat with i by lia. exact Nv.
Qed.
Lemma subblock_symmetric bl k M : laid_out 0 bl -> (k < length bl)%nat -> symmetric (total bl) M -> symmetric (size (kth bl k)) (subblock bl k M).
Proof. intros L Hk P i j Hi Hj. pose proof (kth_bound bl L k Hk) as B. apply P; lia. Qed.
(* only the entries within n matter *)
Lemma definite_ext n M M' : (forall i j, (i < n)%nat -> (j < n)%nat -> M i j = M' i j) -> definite n M -> definite n M'.
Proof.
  intros E P v Hv. specialize (P v Hv). assert (inner n v (apply n M' v) = inner n v (apply n M v)) as ->; [|exact P].
  unfold inner, apply. apply sumn_ext. intros i Hi. f_equal. apply sumn_ext. intros j Hj. rewrite E by assumption. reflexivity.
Qed.
Lemma symmetric_ext n M M' : (forall i j, (i < n)%nat -> (j < n)%nat -> M i j = M' i j) -> symmetric n M -> symmetric n M'.
Proof. intros E P i j Hi Hj. rewrite <- !E by assumption. apply P; assumption. Qed.
Lemma inverse_ext n M M' N : (forall i j, (i < n)%nat -> (j < n)%nat -> M i j = M' i j) -> inverse_of n M N -> inverse_of n M' N.
Proof.
  intros E P i j Hi Hj. destruct (P i j Hi Hj) as [A B]. rewrite <- A at 1. rewrite <- B. split; apply sumn_ext; intros k Hk; rewrite E by assumption; reflexivity.
Qed.
Lemma block_diagonal_sub bl k M i j : laid_out 0 bl -> (k < length bl)%nat -> (i < size (kth bl k))%nat -> (j < size (kth bl k))%nat -> subblock bl k (block_diagonal bl M) i j = subblock bl k M i j.
Proof.
  intros L Hk Hi Hj. unfold subblock, block_diagonal. rewrite (together_in bl _ _ k L Hk); [|apply holds_spec; unfold within; lia].
  assert (holds (kth bl k) (position (kth bl k) + j) = true) as -> by (apply holds_spec; unfold within; lia). reflexivity.
Qed.
Lemma upper_same n m : symmetric n m -> forall i j, (i < n)%nat -> (j < n)%nat -> upper m i j = m i j.
Proof. intros S i j Hi Hj. unfold upper. destruct (i <=? j)%nat; [reflexivity|]. apply S; assumption. Qed.
(* AddDiagonalAndInvert inverts the block diagonal of M, if its blocks are those of M less the
   weights *)
Lemma invert_blocks llt bl D m M : inverts llt -> laid_out 0 bl -> symmetric (total bl) M -> definite (total bl) (block_diagonal bl M) ->
  (forall k i j, (k < length bl)%nat -> (i < size (kth bl k))%nat -> (j < size (kth bl k))%nat ->
     m k i j + match D with Some d => if (i =? j)%nat then d (position (kth bl k) + i)%nat * d (position (kth bl k) + i)%nat else 0 | None => 0 end = subblock bl k M i j) ->
  inverse_of (total bl) (block_diagonal bl M) (blockmat bl (AddDiagonalAndInvert llt bl D m)).
Proof.
  intros I L SM PM E. apply block_inverse; [exact L|]. intros k Hk. unfold AddDiagonalAndInvert. change (nth k bl (mkBlock 0 0)) with (kth bl k).
  pose proof (subblock_symmetric bl k M L Hk SM) as Sk.
  set (m' := fun i j => _ + _). 
  assert (forall i j, (i < size (kth bl k))%nat -> (j < size (kth bl k))%nat -> subblock bl k M i j = upper m' i j) as X.
  { intros i j Hi Hj. assert (forall i j, (i < size (kth bl k))%nat -> (j < size (kth bl k))%nat -> m' i j = subblock bl k M i j) as Y by (intros; apply E; assumption).
    rewrite (upper_same (size (kth bl k)) m'); [symmetry; apply Y; assumption| |exact Hi|exact Hj]. intros a b Ha Hb. rewrite !Y by assumption. apply Sk; assumption. }
  apply (inverse_ext _ (upper m')); [intros i j Hi Hj; symmetry; apply X; assumption|]. apply I.
  - apply (symmetric_ext _ (subblock bl k M)); [exact X|exact Sk].
  - apply (definite_ext _ (subblock bl k M)); [exact X|]. apply (definite_ext _ (subblock bl k (block_diagonal bl M))); [intros; apply block_diagonal_sub; assumption|].
    apply subblock_definite; assumption.
Qed.
