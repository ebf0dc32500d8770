From Coq Require Import Reals List ZArith Lia Lra Psatz Bool.
From Verif Require Import CubicModel CubicSpec.
Import ListNotations.

(* ---------------- arrays ---------------- *)
Lemma nth_blocks {A B} (f : A -> list B) d l k i a : (forall x, length (f x) = d) -> nth_error l k = Some a -> (i < d)%nat ->
  nth_error (flat_map f l) (d * k + i) = nth_error (f a) i.
Proof.
  intros L. revert k. induction l as [|x l IH]; intros k E I; [destruct k; discriminate|]. cbn [flat_map]. destruct k as [|k]; cbn in E.
  - injection E as ->. rewrite Nat.mul_0_r, Nat.add_0_l. apply nth_error_app1. rewrite L. exact I.
  - rewrite nth_error_app2 by (rewrite L; nia). rewrite L. replace (d * S k + i - d)%nat with (d * k + i)%nat by nia. apply IH; assumption.
Qed.
Lemma samples_length b n : length (samples b n) = n.
Proof. unfold samples. rewrite map_length, seq_length. reflexivity. Qed.
Lemma samples_nth b n k : (k < n)%nat -> nth_error (samples b n) k = Some (b + Z.of_nat k)%Z.
Proof.
  intro H. unfold samples. rewrite nth_error_map. assert (nth_error (seq 0 n) k = Some k) as ->; [|reflexivity].
  rewrite (nth_error_nth' (seq 0 n) 0%nat) by (rewrite seq_length; exact H). rewrite seq_nth by exact H. reflexivity.
Qed.
Lemma nth_map_samples {B} (f : Z -> B) b n k : (k < n)%nat -> nth_error (map f (samples b n)) k = Some (f (b + Z.of_nat k)%Z).
Proof. intro H. rewrite nth_error_map, samples_nth by exact H. reflexivity. Qed.
Lemma blocks_length {A B} (f : A -> list B) d l : (forall x, length (f x) = d) -> length (flat_map f l) = (d * length l)%nat.
Proof. intro L. induction l as [|x l IH]; cbn [flat_map length]; [lia|]. rewrite app_length, L, IH. nia. Qed.

Lemma clamp_nearest n b e : (b < e)%Z -> nearest b e n (clamp n b (e - 1)).
Proof.
  intro H. unfold nearest, clamp. destruct (Z.ltb_spec n b); [|destruct (Z.ltb_spec (e - 1) n)]; (split; [lia|intros; lia]).
Qed.
Lemma nearest_unique b e n m m' : nearest b e n m -> nearest b e n m' -> (b <= n < e \/ n < b \/ e <= n)%Z -> m = m'.
Proof.
  intros [A1 A2] [B1 B2] C. destruct C as [C|[C|C]].
  - pose proof (A2 n C). pose proof (B2 n C). lia.
  - pose proof (A2 b ltac:(lia)). pose proof (B2 b ltac:(lia)). lia.
  - pose proof (A2 (e - 1)%Z ltac:(lia)). pose proof (B2 (e - 1)%Z ltac:(lia)). lia.
Qed.
Lemma nearest_clamp b e n m : (b < e)%Z -> nearest b e n m -> clamp n b (e - 1) = m.
Proof. intros H N. apply (nearest_unique b e n); [apply clamp_nearest; exact H|exact N|lia]. Qed.

Lemma read_nat data k z : z = Z.of_nat k -> read data z = nth_error data k.
Proof. intros ->. unfold read. destruct (Z.ltb_spec (Z.of_nat k) 0); [lia|]. rewrite Nat2Z.id. reflexivity. Qed.

Lemma grid1_value (F : Z -> Z -> R) b n d (inter : bool) g k i m : (0 < n)%nat ->
  MakeGrid1D (if inter then interleaved F b n d else stacked F b n d) b (b + Z.of_nat n) (Z.of_nat d) inter = Some g ->
  (0 <= i < Z.of_nat d)%Z -> nearest b (b + Z.of_nat n) k m -> GetValue1D g k i = Some (F m i).
Proof.
  intros N M I Ne. unfold MakeGrid1D in M. destruct (Z.ltb_spec b (b + Z.of_nat n)); [|lia]. injection M as <-.
  unfold GetValue1D. cbn [data1 begin1 end1 dim1 interleaved1]. rewrite (nearest_clamp _ _ _ m) by (assumption || lia).
  destruct Ne as [[L U] _]. set (s := Z.to_nat (m - b)). set (j := Z.to_nat i).
  assert (m = b + Z.of_nat s)%Z as Em by (unfold s; lia). assert (i = Z.of_nat j) as Ei by (unfold j; lia).
  assert (s < n)%nat by lia. assert (j < d)%nat by lia. destruct inter.
  - rewrite (read_nat _ (d * s + j)) by nia. unfold interleaved.
    rewrite (nth_blocks _ d _ s j (b + Z.of_nat s)%Z); [|intro; rewrite map_length; apply samples_length|apply samples_nth; assumption|assumption].
    rewrite nth_map_samples by assumption. f_equal. f_equal; lia.
  - rewrite (read_nat _ (n * j + s)) by nia. unfold stacked.
    rewrite (nth_blocks _ n _ j s (0 + Z.of_nat j)%Z); [|intro; rewrite map_length; apply samples_length|apply samples_nth; assumption|assumption].
    rewrite nth_map_samples by assumption. f_equal. f_equal; lia.
Qed.

Lemma points_length rm rb nr cb nc : length (points rm rb nr cb nc) = (nr * nc)%nat.
Proof.
  unfold points. destruct rm.
  - rewrite (blocks_length _ nc), samples_length; [lia|]. intro. rewrite map_length. apply samples_length.
  - rewrite (blocks_length _ nr), samples_length; [lia|]. intro. rewrite map_length. apply samples_length.
Qed.
Lemma points_nth (rm : bool) rb nr cb nc r c : (r < nr)%nat -> (c < nc)%nat ->
  nth_error (points rm rb nr cb nc) (if rm then nc * r + c else nr * c + r) = Some (rb + Z.of_nat r, cb + Z.of_nat c)%Z.
Proof.
  intros R C. unfold points. destruct rm.
  - rewrite (nth_blocks _ nc _ r c (rb + Z.of_nat r)%Z); [|intro; rewrite map_length; apply samples_length|apply samples_nth; assumption|assumption].
    apply nth_map_samples. exact C.
  - rewrite (nth_blocks _ nr _ c r (cb + Z.of_nat c)%Z); [|intro; rewrite map_length; apply samples_length|apply samples_nth; assumption|assumption].
    apply (nth_map_samples (fun r0 => (r0, (cb + Z.of_nat c)%Z))). exact R.
Qed.
Lemma grid2_value (F : Z -> Z -> Z -> R) rb nr cb nc d (rm inter : bool) g r c i mr mc : (0 < nr)%nat -> (0 < nc)%nat ->
  MakeGrid2D (if inter then interleaved2D F (points rm rb nr cb nc) d else stacked2D F (points rm rb nr cb nc) d)
    rb (rb + Z.of_nat nr) cb (cb + Z.of_nat nc) (Z.of_nat d) rm inter = Some g ->
  (0 <= i < Z.of_nat d)%Z -> nearest rb (rb + Z.of_nat nr) r mr -> nearest cb (cb + Z.of_nat nc) c mc ->
  GetValue2D g r c i = Some (F mr mc i).
Proof.
  intros Nr Nc M I Er Ec. unfold MakeGrid2D in M. destruct (_ && _)%bool; [|discriminate]. injection M as <-.
  unfold GetValue2D. cbn [data2 row_begin row_end col_begin col_end dim2 row_major interleaved2].
  rewrite (nearest_clamp _ _ r mr), (nearest_clamp _ _ c mc) by (assumption || lia).
  destruct Er as [[Lr Ur] _], Ec as [[Lc Uc] _].
  assert (exists a, mr = rb + Z.of_nat a)%Z as [a ->] by (exists (Z.to_nat (mr - rb)); lia). assert (exists b, mc = cb + Z.of_nat b)%Z as [b ->] by (exists (Z.to_nat (mc - cb)); lia).
  assert (exists j, i = Z.of_nat j) as [j ->] by (exists (Z.to_nat i); lia).
  assert (a < nr)%nat as Ha by lia. assert (b < nc)%nat as Hb by lia. assert (j < d)%nat as Hj by lia.
  replace (rb + Z.of_nat nr - rb)%Z with (Z.of_nat nr) by lia. replace (cb + Z.of_nat nc - cb)%Z with (Z.of_nat nc) by lia.
  replace (rb + Z.of_nat a - rb)%Z with (Z.of_nat a) by lia. replace (cb + Z.of_nat b - cb)%Z with (Z.of_nat b) by lia.
  set (q := if rm then (nc * a + b)%nat else (nr * b + a)%nat).
  assert ((if rm then (Z.of_nat nc * Z.of_nat a + Z.of_nat b)%Z else (Z.of_nat nr * Z.of_nat b + Z.of_nat a)%Z) = Z.of_nat q) as -> by (unfold q; destruct rm; lia).
  assert (q < nr * nc)%nat as Hq by (unfold q; destruct rm; nia).
  pose proof (points_nth rm rb nr cb nc a b Ha Hb) as P. fold q in P. pose proof (points_length rm rb nr cb nc) as PL. clearbody q. destruct inter.
  - rewrite (read_nat _ (d * q + j)) by lia. unfold interleaved2D.
    rewrite (nth_blocks _ d _ q j (rb + Z.of_nat a, cb + Z.of_nat b)%Z); [|intro; rewrite map_length; apply samples_length|exact P|exact Hj].
    rewrite nth_map_samples by assumption. reflexivity.
  - rewrite (read_nat _ (nr * nc * j + q)) by lia. unfold stacked2D.
    rewrite (nth_blocks _ (nr * nc) _ j q (0 + Z.of_nat j)%Z); [|intro; rewrite map_length; exact PL|apply samples_nth; assumption|exact Hq].
    rewrite nth_error_map, P. reflexivity.
Qed.
