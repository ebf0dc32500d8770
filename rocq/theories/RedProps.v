(* Theorems for C89: parallel dot products and norms. *)
From Coq Require Import ZArith Reals List Bool Lia Lra Psatz Permutation.
From Verif Require Import ParallelModel ParallelProps PvoModel RedModel RedSpec.
Import ListNotations.
Open Scope Z_scope.

Definition sum (f : Z -> R) (l : list Z) : R := fold_right (fun i a => (f i + a)%R) 0%R l.
Lemma sum_permutation f l l' : Permutation l l' -> sum f l = sum f l'.
Proof. induction 1; cbn [sum fold_right] in *; unfold sum in *; cbn [fold_right]; lra. Qed.
Lemma sum_app f l l' : sum f (l ++ l') = (sum f l + sum f l')%R.
Proof. induction l as [|a l IH]; unfold sum in *; cbn [app fold_right]; [lra|rewrite IH; lra]. Qed.
Lemma zrange_snoc n : zrange 0 (Z.of_nat (S n)) = zrange 0 (Z.of_nat n) ++ [Z.of_nat n].
Proof. unfold zrange. rewrite !Z.sub_0_r, !Nat2Z.id, seq_S, map_app. reflexivity. Qed.
Lemma sum_zrange f n : sum f (zrange 0 (Z.of_nat n)) = first_terms n f.
Proof. induction n as [|n IH]; [reflexivity|]. rewrite zrange_snoc, sum_app, IH. unfold sum. cbn [fold_right first_terms]. lra. Qed.
Lemma sum_zrange_Z f n : sum f (zrange 0 n) = first_terms (Z.to_nat n) f.
Proof. rewrite <- sum_zrange. unfold zrange. rewrite !Z.sub_0_r, Nat2Z.id. reflexivity. Qed.
Lemma fold_sum f l : forall a, fold_left (fun a t => (a + f t)%R) l a = (a + sum f l)%R.
Proof. induction l as [|t l IH]; intro a; unfold sum in *; cbn [fold_left fold_right]; [lra|rewrite IH; lra]. Qed.
Lemma total_terms n s : total n s = first_terms (Z.to_nat n) s.
Proof. unfold total. rewrite fold_sum, sum_zrange_Z. lra. Qed.
(* one more term in one of the partial sums *)
Lemma first_terms_bump s e v n : (0 <= e)%Z -> first_terms n (fun t => if t =? e then (s t + v)%R else s t) = (first_terms n s + if Z.ltb e (Z.of_nat n) then v else 0)%R.
Proof.
  intro He. induction n as [|n IH]; [cbn [first_terms]; destruct (Z.ltb_spec e (Z.of_nat 0)); [lia|lra]|]. cbn [first_terms]. rewrite IH.
  destruct (Z.eqb_spec (Z.of_nat n) e), (Z.ltb_spec e (Z.of_nat n)), (Z.ltb_spec e (Z.of_nat (S n))); try lia; lra.
Qed.
Lemma accumulate_all threads term calls : (forall e, In e calls -> 0 <= fst e < threads) -> forall s,
  exists s', fold_left (accumulate threads term) calls (Some s) = Some s' /\ total threads s' = (total threads s + sum term (map snd calls))%R.
Proof.
  induction calls as [|e calls IH]; intros H s; [exists s; split; [reflexivity|unfold sum; cbn [map fold_right]; lra]|].
  pose proof (H e (or_introl eq_refl)) as He. cbn [fold_left accumulate]. destruct (Z.leb_spec 0 (fst e)), (Z.ltb_spec (fst e) threads); try lia. cbn [andb].
  destruct (IH (fun a Ha => H a (or_intror Ha)) (fun t => if t =? fst e then (s t + term (snd e))%R else s t)) as [s' [F T]]. exists s'. split; [exact F|].
  rewrite T, !total_terms, first_terms_bump by lia. destruct (Z.ltb_spec (fst e) (Z.of_nat (Z.to_nat threads))); [|lia]. unfold sum. cbn [map fold_right]. lra.
Qed.
Lemma zrange_all a b : all_indices a b (zrange a b).
Proof. pose proof (parallel_for_each_once a b 1 1 ltac:(lia)) as P. unfold parallel_for in P. cbn [negb Z.ltb Z.compare Z.eqb orb] in P. rewrite Z.geb_leb in P. destruct (Z.leb_spec b a) as [L|L]; [|exact P].
  unfold zrange. replace (Z.to_nat (b - a)) with 0%nat by lia. split; [constructor|]. intro i. split; [intros []|lia].
Qed.
Lemma all_permutation a b l : all_indices a b l -> Permutation l (zrange a b).
Proof. intros [N I]. destruct (zrange_all a b) as [N' I']. apply NoDup_Permutation; [exact N|exact N'|]. intro i. rewrite I, I'. reflexivity. Qed.
Lemma events_calls n threads acts calls ret : 0 < threads -> events (parallel_for 0 n threads kMinBlockSizeParallelVectorOps) acts = Some (calls, ret) ->
  (forall e, In e calls -> 0 <= fst e < threads) /\ (ret = true -> Permutation (map snd calls) (zrange 0 n)).
Proof.
  intros Ht H. assert (1 <= kMinBlockSizeParallelVectorOps) as K by (unfold kMinBlockSizeParallelVectorOps; lia).
  pose proof (parallel_for_each_once 0 n threads _ K) as P. pose proof (thread_ids_exclusive 0 n threads kMinBlockSizeParallelVectorOps) as X.
  destruct (parallel_for 0 n threads kMinBlockSizeParallelVectorOps) as [| |l|c]; cbn [events] in H; [discriminate| | |].
  - injection H as <- <-. split; [intros e []|]. intros _. apply all_permutation. split; [constructor|intro i; split; [intros []|lia]].
  - injection H as <- <-. split; [intros e He; apply in_map_iff in He; destruct He as [i [<- _]]; cbn [fst]; lia|]. intros _. rewrite map_map. cbn [snd]. rewrite map_id. apply all_permutation, P.
  - destruct (exec c acts init) as [s|] eqn:Ex; [|discriminate]. injection H as <- <-. split; [apply (X c acts s K eq_refl Ex)|]. intro R. apply all_permutation, (P acts s Ex). destruct (cal s); congruence || discriminate.
Qed.
Lemma reduce_value threads n term acts : 0 < threads ->
  match reduce threads n term acts with Broken => True | Overrun => False | Running => True | Value r => r = first_terms (Z.to_nat n) term end.
Proof.
  intro Ht. unfold reduce. destruct (events _ acts) as [[calls ret]|] eqn:E; [|exact I]. destruct (events_calls n threads acts calls ret Ht E) as [B P].
  destruct (accumulate_all threads term calls B (fun _ => 0%R)) as [s [-> T]]. destruct ret; [|exact I]. rewrite T, total_terms, (sum_permutation _ _ _ (P eq_refl)), sum_zrange_Z.
  enough (first_terms (Z.to_nat threads) (fun _ => 0%R) = 0%R) as -> by lra. induction (Z.to_nat threads) as [|k IH]; cbn [first_terms]; lra.
Qed.

(* the value of every call that returns; no call writes outside of the partial sums *)
Theorem red_dot x y n threads acts : 0 < threads -> Dot x y n threads acts <> Overrun /\ forall r, Dot x y n threads acts = Value r -> r = inner n x y.
Proof. intro Ht. pose proof (reduce_value threads n (fun i => (x i * y i)%R) acts Ht) as H. unfold Dot, inner. destruct (reduce _ _ _ _); (split; [try contradiction; discriminate|]); intros r' E; try contradiction; try discriminate. injection E as <-. exact H. Qed.
Print Assumptions red_dot.
Theorem red_norm x n threads acts : 0 < threads -> Norm x n threads acts <> Overrun /\
  forall r, Norm x n threads acts = Value r -> (0 <= r)%R /\ (r * r)%R = inner n x x /\ (r = 0%R <-> forall i, 0 <= i < n -> x i = 0%R).
Proof.
  intro Ht. pose proof (reduce_value threads n (fun i => (x i * x i)%R) acts Ht) as H. unfold Norm. destruct (reduce _ _ _ _) as [| | |r]; (split; [try contradiction; discriminate|]); try contradiction; try (intros; discriminate).
  intros r' E. injection E as <-. subst r. change (first_terms (Z.to_nat n) (fun i => (x i * x i)%R)) with (inner n x x).
  assert (forall k, (0 <= first_terms k (fun i => x i * x i))%R /\ (first_terms k (fun i => x i * x i)%R = 0%R <-> forall i, 0 <= i < Z.of_nat k -> x i = 0%R)) as Z0.
  { induction k as [|k [IH1 IH2]]; [cbn [first_terms]; split; [lra|split; [intros _ i Hi; lia|reflexivity]]|]. cbn [first_terms]. assert (0 <= x (Z.of_nat k) * x (Z.of_nat k))%R as S by nra. split; [lra|]. split.
    - intros E i Hi. destruct (Z.eq_dec i (Z.of_nat k)) as [->|D]; [apply Rsqr_0_uniq; unfold Rsqr; lra|]. apply IH2; [lra|lia].
    - intro A. rewrite (proj2 IH2) by (intros i Hi; apply A; lia). rewrite (A (Z.of_nat k)) by lia. lra. }
  destruct (Z0 (Z.to_nat n)) as [P Q]. fold (inner n x x) in P, Q. split; [apply sqrt_pos|]. split; [apply sqrt_sqrt, P|]. split.
  - intros E i Hi. apply Q; [apply sqrt_eq_0; assumption|lia].
  - intro A. rewrite (proj2 Q) by (intros i Hi; apply A; lia). apply sqrt_0.
Qed.
Print Assumptions red_norm.
(* threads and schedule have no influence *)
Theorem red_schedule_free x y n t t' acts acts' r r' : 0 < t -> 0 < t' -> Dot x y n t acts = Value r -> Dot x y n t' acts' = Value r' -> r = r'.
Proof. intros H H' E E'. rewrite (proj2 (red_dot x y n t acts H) r E), (proj2 (red_dot x y n t' acts' H') r' E'). reflexivity. Qed.
Print Assumptions red_schedule_free.
(* two threads that are in a call at the same time use different partial sums *)
Theorem red_race_free n threads c acts s : parallel_for 0 n threads kMinBlockSizeParallelVectorOps = Parallel c -> exec c acts init = Some s ->
  forall t t' tid tid' i i', in_call s t tid i -> in_call s t' tid' i' -> t <> t' -> tid <> tid' /\ 0 <= tid < threads.
Proof.
  intros E X t t' tid tid' i i' H H' D. destruct (thread_ids_exclusive 0 n threads kMinBlockSizeParallelVectorOps c acts s ltac:(unfold kMinBlockSizeParallelVectorOps; lia) E X) as [_ [B U]].
  split; [|exact (B t tid i H)]. intros <-. apply D. exact (U t t' tid i i' H H').
Qed.
Print Assumptions red_race_free.
(* every schedule of the parallel loop can be continued until there is a value *)
Theorem red_finishes x y n threads acts : 0 < threads -> Dot x y n threads acts = Running -> exists acts' r, Dot x y n threads (acts ++ acts') = Value r.
Proof.
  intros Ht H. assert (1 <= kMinBlockSizeParallelVectorOps) as K by (unfold kMinBlockSizeParallelVectorOps; lia).
  unfold Dot, reduce in H. pose proof (never_stuck 0 n threads kMinBlockSizeParallelVectorOps) as N.
  destruct (parallel_for 0 n threads kMinBlockSizeParallelVectorOps) as [| |l|c] eqn:E; cbn [events] in H; [discriminate|destruct (fold_left _ _ _); discriminate|destruct (fold_left _ _ _); discriminate|].
  destruct (exec c acts init) as [s|] eqn:Ex; [|discriminate]. assert (cal s <> CReturned) as R by (intro R; rewrite R in H; destruct (fold_left _ _ _); discriminate).
  destruct (N c acts s K eq_refl Ex R) as [_ [acts' [s' [X' [R' _]]]]]. exists acts'.
  assert (forall l a, exec c l a = Some s -> exec c (l ++ acts') a = Some s') as A.
  { induction l as [|b l IH]; intros a Ha; cbn [exec app] in *; [injection Ha as ->; exact X'|]. destruct (step c b a); [|discriminate]. apply IH, Ha. }
  clear H N. pose proof (reduce_value threads n (fun i => (x i * y i)%R) (acts ++ acts') Ht) as V. unfold Dot. unfold reduce in V |- *. rewrite E in V |- *. cbn [events] in V |- *. rewrite (A acts init Ex) in V |- *. rewrite R' in V |- *.
  destruct (fold_left _ (trace s') _) as [s0|]; [eexists; reflexivity|contradiction].
Qed.
Print Assumptions red_finishes.

(* (0, 1, 2, 3) . (0, 1, 2, 3) = 14 with three threads; the norm of (3, 4) is 5 *)
Example dot_serial : exists r, Dot IZR IZR 4 3 [] = Value r /\ r = 14%R.
Proof. eexists. split; [cbv - [Rplus Rmult IZR]; reflexivity|]. lra. Qed.
Example norm_serial : exists r, Norm (fun i => IZR (i + 3)) 2 7 [] = Value r /\ r = 5%R.
Proof.
  destruct (Norm (fun i => IZR (i + 3)) 2 7 []) as [| | |r] eqn:E; try (cbv - [Rplus Rmult IZR sqrt] in E; discriminate). exists r. split; [reflexivity|].
  destruct (proj2 (red_norm (fun i => IZR (i + 3)) 2 7 [] ltac:(lia)) r E) as [P [Q _]]. assert (inner 2 (fun i => IZR (i + 3)) (fun i => IZR (i + 3)) = 25%R) as F by (cbv - [Rplus Rmult IZR]; lra). rewrite F in Q.
  assert ((r - 5) * (r + 5) = 0)%R as G by lra. apply Rmult_integral in G. lra.
Qed.
(* a long vector: the parallel loop runs, and can be run to its value *)
Example dot_parallel : Dot (fun _ => 1%R) IZR 131072 4 [] = Running.
Proof. reflexivity. Qed.
