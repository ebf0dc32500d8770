From Coq Require Import Reals List ZArith Bool Lia Lra.
From Coquelicot Require Import Coquelicot.
From Verif Require Import JetModel JetSpec JetProofs4 JetProps AutoDiffModel AutoDiffSpec AutoDiffProofs AutoDiffProofs2 AutoDiffProps AdfModel AdfSpec.
Import ListNotations.
Local Open Scope nat_scope.

(* ---------------- buffers ---------------- *)
Lemma write_all_id N v d p : write_all N (fun i => i) v d p = if p <? N then v p else d p.
Proof.
  unfold write_all. induction N as [|N IH]; [reflexivity|]. rewrite seq_S, fold_left_app. cbn [fold_left Nat.add]. unfold upd at 1.
  destruct (Nat.eqb_spec p N) as [->|H].
  - rewrite (proj2 (Nat.ltb_lt N (S N))) by lia. reflexivity.
  - rewrite IH. destruct (Nat.ltb_spec p N), (Nat.ltb_spec p (S N)); try lia; reflexivity.
Qed.
Lemma col_index M r c : r < M -> (c * M + r) / M = c /\ (c * M + r) mod M = r.
Proof.
  intro H. split; [rewrite Nat.div_add_l by lia; rewrite Nat.div_small by lia; lia|].
  rewrite Nat.add_comm, Nat.mod_add by lia. apply Nat.mod_small. exact H.
Qed.
Lemma write_all_strided N M r V d p : r < M ->
  write_all N (fun c => c * M + r) V d p = if (p mod M =? r) && (p / M <? N) then V (p / M) else d p.
Proof.
  intro Hr. unfold write_all. induction N as [|N IH]; [rewrite andb_false_r; reflexivity|]. rewrite seq_S, fold_left_app. cbn [fold_left Nat.add]. unfold upd at 1.
  destruct (Nat.eqb_spec p (N * M + r)) as [->|H].
  - destruct (col_index M r N Hr) as [-> ->]. rewrite Nat.eqb_refl, (proj2 (Nat.ltb_lt N (S N))) by lia. reflexivity.
  - rewrite IH. destruct (Nat.eqb_spec (p mod M) r) as [E|E]; [|reflexivity]. cbn [andb].
    assert (p / M <> N) by (intro F; apply H; rewrite (Nat.div_mod p M) by lia; rewrite E, F; lia).
    destruct (Nat.ltb_spec (p / M) N), (Nat.ltb_spec (p / M) (S N)); try lia; reflexivity.
Qed.
Lemma write_matrix N M (V : nat -> nat -> num) d k p : k <= M ->
  fold_left (fun j r => write_all N (fun c => c * M + r) (V r) j) (seq 0 k) d p =
  if (p mod M <? k) && (p / M <? N) then V (p mod M) (p / M) else d p.
Proof.
  induction k as [|k IH]; intro H; [reflexivity|]. rewrite seq_S, fold_left_app. cbn [fold_left Nat.add].
  rewrite write_all_strided by lia. destruct (Nat.eqb_spec (p mod M) k) as [E|E].
  - cbn [andb]. rewrite IH by lia. rewrite E. rewrite (proj2 (Nat.ltb_lt k (S k))) by lia. rewrite Nat.ltb_irrefl. reflexivity.
  - cbn [andb]. rewrite IH by lia. destruct (Nat.ltb_spec (p mod M) k), (Nat.ltb_spec (p mod M) (S k)); try lia; reflexivity.
Qed.
(* a matrix of M rows and N columns, column major *)
Lemma write_matrix_spec N M V d : let j := fold_left (fun j r => write_all N (fun c => c * M + r) (V r) j) (seq 0 M) d in
  (forall r c, r < M -> c < N -> j (col_major M r c) = V r c) /\ (forall i, M * N <= i -> j i = d i).
Proof.
  cbv zeta. split.
  - intros r c Hr Hc. rewrite write_matrix by lia. unfold col_major. destruct (col_index M r c Hr) as [-> ->].
    rewrite (proj2 (Nat.ltb_lt r M)), (proj2 (Nat.ltb_lt c N)) by assumption. reflexivity.
  - intros i Hi. rewrite write_matrix by lia. destruct (Nat.ltb_spec (i / M) N) as [L|L]; [|rewrite andb_false_r; reflexivity].
    destruct M as [|M]; [cbn; reflexivity|]. exfalso. assert (i < S M * N); [|lia].
    pose proof (Nat.div_mod i (S M) ltac:(lia)). pose proof (Nat.mod_upper_bound i (S M) ltac:(lia)). nia.
Qed.

(* ---------------- jets ---------------- *)
Lemma seeded_at N x old i : i < N -> seeded N x old i = jvar (x i) i.
Proof.
  unfold seeded. induction N as [|N IH]; intro H; [lia|]. rewrite seq_S, fold_left_app. cbn [fold_left Nat.add]. unfold upd at 1.
  destruct (Nat.eqb_spec i N) as [->|E]; [reflexivity|]. apply IH. lia.
Qed.
Lemma jets_at c N f env x : functor_uses N f -> (forall i, i < N -> env i = jvar (x i) i) ->
  match run_jets c f env, run_doubles f x with
  | None, None => True
  | Some out, Some r => map ja out = r /\ length out = length (f_out f) /\
      forall q p, q < length (f_out f) -> jv (nth q out jet_default) p = deriv c f x q p
  | _, _ => False
  end.
Proof.
  intros U He. destruct (run_jets_doubles c N f env x U) as [E1 E2].
  { intros i Hi. rewrite (He i Hi). reflexivity. }
  rewrite E1. destruct (run_doubles f x) as [r|]; [|exact I]. split; [apply E2; reflexivity|]. split; [apply map_length|].
  intros q p Hq. unfold deriv. rewrite !(nth_map_in _ _ _ (Const R0)) by exact Hq. apply (jeval_agree c N).
  - destruct U as [U _]. rewrite Forall_forall in U. apply U, nth_In, Hq.
  - intros i Hi. rewrite (He i Hi). split; reflexivity.
Qed.
Lemma deriv_gradient c N f x r : functor_uses N f -> functor_regular f x -> r < length (f_out f) ->
  exists g, gradient_at N (component f r) x g /\ forall p, p < N -> deriv c f (fun i => Some (x i)) r p = Some (g p) /\ partial_at (component f r) x p (g p).
Proof.
  intros [U _] [Rg _] Hr. rewrite Forall_forall in U, Rg. unfold deriv.
  pose proof (nth_In (f_out f) (Const 0%R) Hr) as I.
  destruct (jets_compute_exact_derivatives c N (nth r (f_out f) (Const 0%R)) x (fun i => jvar (Some (x i)) i) (U _ I) (Rg _ I)) as [_ (g & G & P)].
  { reflexivity. }
  exists g. split; [exact G|]. intros p Hp. rewrite (nth_map_in _ _ _ (Const 0%R)) by exact Hr. apply P, Hp.
Qed.

(* ---------------- manifolds ---------------- *)
Lemma plus_at c plus A T x d : functor_uses (A + T) plus -> length (f_out plus) = A ->
  let p := fun i => if i <? A then x i else nz in
  match PlusJacobian c plus A T x d, run_doubles plus p with
  | None, None => True
  | Some d', Some _ => (forall r k, r < A -> k < T -> d' (row_major T r k) = deriv c plus p r (A + k)) /\ (forall i, A * T <= i -> d' i = d i)
  | _, _ => False
  end.
Proof.
  intros U L p. unfold PlusJacobian. fold p.
  assert (TT : total [A; T] = A + T) by (unfold total; cbn; lia).
  pose proof (static_at c plus [A; T] p [None; Some d]) as S. rewrite TT in S. specialize (S U).
  destruct (AutoDifferentiate _ _ _ _ _) as [| |r js]; destruct (run_doubles plus p) as [r'|]; try contradiction; [exact I|].
  destruct S as (_ & Len & F). specialize (F 1 T eq_refl). cbn [nth_error] in F. destruct F as (d' & F1 & F2 & F3).
  destruct js as [|j0 [|j1 js]]; try discriminate. cbn [nth_error] in F1. injection F1 as ->. cbn [nth]. rewrite L in *. split.
  - intros q k Hq Hk. unfold row_major. rewrite (F2 q k Hq Hk). f_equal.  unfold offset. cbn. lia.
  - exact F3.
Qed.
Lemma minus_at c minus A x d : functor_uses (A + A) minus ->
  let p := fun i => if i <? A then x i else x (i - A) in
  match MinusJacobian c minus A x d, run_doubles minus p with
  | None, None => True
  | Some d', Some _ => (forall r k, r < length (f_out minus) -> k < A -> d' (row_major A r k) = deriv c minus p r k) /\ (forall i, length (f_out minus) * A <= i -> d' i = d i)
  | _, _ => False
  end.
Proof.
  intros U p. unfold MinusJacobian. fold p.
  assert (TT : total [A; A] = A + A) by (unfold total; cbn; lia).
  pose proof (static_at c minus [A; A] p [Some d; None]) as S. rewrite TT in S. specialize (S U).
  destruct (AutoDifferentiate _ _ _ _ _) as [| |r js]; destruct (run_doubles minus p) as [r'|]; try contradiction; [exact I|].
  destruct S as (_ & Len & F). specialize (F 0 A eq_refl). cbn [nth_error] in F. destruct F as (d' & F1 & F2 & F3).
  destruct js as [|j0 [|j1 js]]; try discriminate. cbn [nth_error] in F1. injection F1 as ->. cbn [nth]. split.
  - intros q k Hq Hk. unfold row_major. rewrite (F2 q k Hq Hk). reflexivity.
  - exact F3.
Qed.

(* run_doubles at real arguments *)
Lemma doubles_ext f N x y : functor_uses N f -> (forall i, i < N -> x i = y i) -> run_doubles f x = run_doubles f y.
Proof.
  intros U H. pose proof (jets_at false N f (fun i => jvar (x i) i) x U (fun i _ => eq_refl)) as A.
  pose proof (jets_at false N f (fun i => jvar (x i) i) y U) as B. specialize (B ltac:(intros i Hi; cbv beta; rewrite (H i Hi); reflexivity)).
  destruct (run_jets _ _ _) as [o|], (run_doubles f x) as [r|], (run_doubles f y) as [r'|]; try contradiction; try reflexivity.
  destruct A as [A _], B as [B _]. congruence.
Qed.
