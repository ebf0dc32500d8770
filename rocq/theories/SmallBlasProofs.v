From Coq Require Import List Arith ZArith Bool Lia.
From Verif Require Import SmallBlasModel SmallBlasSpec.
Import ListNotations.

Lemma for_inv {S : Type} (P : nat -> S -> Prop) n body s :
  P 0 s -> (forall k t, k < n -> P k t -> exists t', body k t = Some t' /\ P (Datatypes.S k) t') ->
  exists t', for_ n body s = Some t' /\ P n t'.
Proof.
  intros H0 HS. induction n as [|n IH]; [exists s; split; [reflexivity|exact H0]|].
  destruct IH as (t & E & Ht); [intros; apply HS; [lia|assumption]|].
  cbn [for_]. rewrite E. apply HS; [lia|exact Ht].
Qed.

Lemma for_add {S : Type} a b (step : S -> option S) s :
  for_ (a + b) (fun _ => step) s
  = match for_ a (fun _ => step) s with Some t => for_ b (fun _ => step) t | None => None end.
Proof.
  induction b as [|b IH]; [rewrite Nat.add_0_r; cbn; destruct (for_ a _ s); reflexivity|].
  rewrite Nat.add_succ_r. cbn [for_]. rewrite IH. destruct (for_ a _ s); reflexivity.
Qed.

Lemma for_four {S : Type} n (step : S -> option S) s :
  for_ n (fun _ => four step) s = for_ (4 * n) (fun _ => step) s.
Proof.
  induction n as [|n IH]; [reflexivity|].
  replace (4 * Datatypes.S n) with (Datatypes.S (Datatypes.S (Datatypes.S (Datatypes.S (4 * n))))) by lia.
  cbn [for_]. rewrite IH. destruct (for_ (4 * n) _ s) as [t|]; [|reflexivity].
  unfold four. destruct (step t) as [t1|]; [|reflexivity]. destruct (step t1) as [t2|]; [|reflexivity].
  destruct (step t2) as [t3|]; reflexivity.
Qed.

Lemma unrolled_rolled {S : Type} n (step : S -> option S) s :
  unrolled n step s = for_ n (fun _ => step) s.
Proof.
  unfold unrolled. rewrite for_four, <- for_add. f_equal.
  pose proof (Nat.div_mod n 4). pose proof (Nat.mod_upper_bound n 4).
  replace (n - n mod 4) with ((n / 4) * 4) by lia. rewrite Nat.div_mul by lia. lia.
Qed.

Lemma put_some {T} (l : list T) i v : i < length l ->
  exists l', put l i v = Some l' /\ length l' = length l
  /\ forall p, nth_error l' p = if Nat.eqb p i then Some v else nth_error l p.
Proof.
  revert i; induction l as [|h t IH]; intros i Hi; [cbn in Hi; lia|].
  destruct i as [|i]; cbn [put].
  - exists (v :: t). split; [reflexivity|]. split; [reflexivity|]. intros [|p]; reflexivity.
  - cbn in Hi. destruct (IH i) as (l' & E & L & N); [lia|]. rewrite E. exists (h :: l').
    split; [reflexivity|]. split; [cbn; lia|]. intros [|p]; [reflexivity|]. cbn. apply N.
Qed.

Lemma round4_le n : round4 n <= n /\ n < round4 n + 4 /\ round4 n / 4 = n / 4.
Proof.
  unfold round4. pose proof (Nat.div_mod n 4). pose proof (Nat.mod_upper_bound n 4).
  split; [lia|]. split; [lia|]. rewrite Nat.mul_comm, Nat.div_mul by lia. reflexivity.
Qed.

Lemma bits n : (Nat.odd n = true /\ Nat.testbit n 1 = true /\ n = round4 n + 3)
  \/ (Nat.odd n = false /\ Nat.testbit n 1 = true /\ n = round4 n + 2)
  \/ (Nat.odd n = true /\ Nat.testbit n 1 = false /\ n = round4 n + 1)
  \/ (Nat.odd n = false /\ Nat.testbit n 1 = false /\ n = round4 n).
Proof.
  unfold round4. pose proof (Nat.div_mod n 4) as D. pose proof (Nat.mod_upper_bound n 4) as M.
  set (q := n / 4) in *. set (r := n mod 4) in *. clearbody q r.
  assert (O4 : forall k, Nat.odd (4 * q + k) = Nat.odd k).
  { intros k. replace (4 * q + k) with (k + 2 * (2 * q)) by lia. apply Nat.odd_add_mul_2. }
  assert (T4 : forall k, Nat.testbit (4 * q + k) 1 = Nat.odd (k / 2)).
  { intros k. change (Nat.testbit (4 * q + k) 1) with (Nat.odd (Nat.div2 (4 * q + k))). rewrite Nat.div2_div.
    replace (4 * q + k) with (k + (2 * q) * 2) by lia. rewrite Nat.div_add by lia. apply Nat.odd_add_mul_2. }
  assert (r = 0 \/ r = 1 \/ r = 2 \/ r = 3) as [H|[H|[H|H]]] by lia; subst r; rewrite D by lia; rewrite O4, T4;
    [right; right; right|right; right; left|right; left|left]; (split; [reflexivity|split; [reflexivity|lia]]).
Qed.

Section Scalar.
Variable T : Type.
Variables (zero : T) (add sub mul : T -> T -> T).
Notation inner := (inner T zero add mul).
Notation store := (store T add sub).
Notation apply_op := (apply_op T add sub).

(** ** Dot products *)
Lemma nth_error_nth_z (l : list T) i : i < length l -> nth_error l i = Some (nth i l zero).
Proof. intros H. apply nth_error_nth'. exact H. Qed.

Lemma dot1_spec A B n pa da pb db :
  (forall k, k < n -> pa + k * da < length A /\ pb + k * db < length B) ->
  dot1 T zero add mul A B n pa da pb db
  = Some (inner n (fun k => nth (pa + k * da) A zero) (fun k => nth (pb + k * db) B zero)).
Proof.
  intros H. unfold dot1.
  edestruct (@for_inv (nat * nat * T) (fun k '(x, y, t) => x = pa + k * da /\ y = pb + k * db
     /\ t = inner k (fun k => nth (pa + k * da) A zero) (fun k => nth (pb + k * db) B zero)) n) as ([[x y] t] & E & _ & _ & Ht).
  3: { rewrite E, Ht. reflexivity. }
  - split; [lia|]. split; [lia|reflexivity].
  - intros k [[x y] t] Hk (-> & -> & ->). destruct (H k Hk).
    rewrite !nth_error_nth_z by assumption. eexists; split; [reflexivity|].
    split; [lia|]. split; [lia|]. reflexivity.
Qed.

Lemma dot2_spec A B n pa da a2 pb db b2 :
  (forall k, k < n -> pa + k * da < length A /\ pb + k * db < length B
                     /\ pa + k * da + a2 < length A /\ pb + k * db + b2 < length B) ->
  dot2 T zero add mul A B n pa da a2 pb db b2
  = Some (inner n (fun k => nth (pa + k * da) A zero) (fun k => nth (pb + k * db) B zero),
          inner n (fun k => nth (pa + k * da + a2) A zero) (fun k => nth (pb + k * db + b2) B zero)).
Proof.
  intros H. unfold dot2.
  edestruct (@for_inv (nat * nat * T * T) (fun k '(x, y, t, u) => x = pa + k * da /\ y = pb + k * db
     /\ t = inner k (fun k => nth (pa + k * da) A zero) (fun k => nth (pb + k * db) B zero)
     /\ u = inner k (fun k => nth (pa + k * da + a2) A zero) (fun k => nth (pb + k * db + b2) B zero)) n)
    as ([[[x y] t] u] & E & _ & _ & Ht & Hu).
  3: { rewrite E, Ht, Hu. reflexivity. }
  - split; [lia|]. split; [lia|]. split; reflexivity.
  - intros k [[[x y] t] u] Hk (-> & -> & -> & ->). destruct (H k Hk) as (? & ? & ? & ?).
    rewrite !nth_error_nth_z by assumption. eexists; split; [reflexivity|].
    split; [lia|]. split; [lia|]. split; reflexivity.
Qed.

(** A kernel that at step k multiplies x_i(k) with y_i(k), i = 0..3. *)
Lemma kernel_spec (mulstep : nat * nat * vec4 T -> option (nat * nat * vec4 T)) n p q dp dq (x y : nat -> nat -> T) :
  (forall k c, k < n -> mulstep (p + k * dp, q + k * dq, c)
     = Some (p + k * dp + dp, q + k * dq + dq,
             axpy4 T add c (mul (x 0 k) (y 0 k)) (mul (x 1 k) (y 1 k)) (mul (x 2 k) (y 2 k)) (mul (x 3 k) (y 3 k)))) ->
  exists p' q', unrolled n mulstep (p, q, zero4 T zero)
    = Some (p', q', (inner n (x 0) (y 0), inner n (x 1) (y 1), inner n (x 2) (y 2), inner n (x 3) (y 3))).
Proof.
  intros H. rewrite unrolled_rolled.
  edestruct (@for_inv (nat * nat * vec4 T) (fun k '(a, b, c) => a = p + k * dp /\ b = q + k * dq
     /\ c = (inner k (x 0) (y 0), inner k (x 1) (y 1), inner k (x 2) (y 2), inner k (x 3) (y 3))) n)
    as ([[a b] c] & E & _ & _ & Hc).
  3: { rewrite E, Hc. exists a, b. reflexivity. }
  - split; [lia|]. split; [lia|reflexivity].
  - intros k [[a b] c] Hk (-> & -> & ->). rewrite (H k _ Hk). eexists; split; [reflexivity|].
    split; [lia|]. split; [lia|reflexivity].
Qed.

(** ** Written entries *)
Section Block.
Variables (op : Z) (v : nat -> nat -> T) (nr nc sr sc cs : nat) (C0 : list T).
Hypothesis Hcol : sc + nc <= cs.
Hypothesis Hlen : forall i j, i < nr -> j < nc -> (i + sr) * cs + sc + j < length C0.
Definition pos i j := (i + sr) * cs + sc + j.
Definition new i j := apply_op op (nth (pos i j) C0 zero) (v i j).

Lemma pos_inj i j i' j' : j < nc -> j' < nc -> pos i j = pos i' j' -> i = i' /\ j = j'.
Proof. unfold pos. intros. assert (i = i') by nia. subst. split; [reflexivity|lia]. Qed.

Definition Inv (W : nat -> nat -> Prop) (C : list T) : Prop :=
  length C = length C0
  /\ (forall i j, i < nr -> j < nc -> W i j -> nth_error C (pos i j) = Some (new i j))
  /\ (forall p, (forall i j, i < nr -> j < nc -> W i j -> p <> pos i j) -> nth_error C p = nth_error C0 p).

Lemma Inv_start : Inv (fun _ _ => False) C0.
Proof. split; [reflexivity|]. split; [intros; contradiction|reflexivity]. Qed.

Lemma Inv_ext W W' C : Inv W C -> (forall i j, i < nr -> j < nc -> (W i j <-> W' i j)) -> Inv W' C.
Proof.
  intros (A & B & D) H. split; [exact A|]. split.
  - intros i j Hi Hj Hw. apply B; try assumption. apply H; assumption.
  - intros p Hp. apply D. intros i j Hi Hj Hw. apply Hp; try assumption. apply H; assumption.
Qed.

Lemma store_inv W C i j idx x : Inv W C -> i < nr -> j < nc -> ~ W i j -> idx = pos i j -> x = v i j ->
  exists C', store op C idx x = Some C' /\ Inv (fun a b => W a b \/ (a = i /\ b = j)) C'.
Proof.
  intros (A & B & D) Hi Hj Hw -> ->. unfold SmallBlasModel.store.
  assert (L : pos i j < length C0) by (apply Hlen; assumption).
  assert (E0 : nth_error C (pos i j) = nth_error C0 (pos i j)).
  { apply D. intros a b Ha Hb Hab E. apply pos_inj in E as [-> ->]; [contradiction|assumption|assumption]. }
  rewrite E0, (nth_error_nth_z C0 _ L).
  match goal with |- context [put C _ ?x] => destruct (put_some C (pos i j) x) as (C' & E & L' & N) end; [lia|].
  exists C'. split; [exact E|]. split; [lia|]. split.
  - intros a b Ha Hb [Hab|[-> ->]].
    + rewrite N. destruct (Nat.eqb_spec (pos a b) (pos i j)) as [Ep|_]; [|apply B; assumption].
      apply pos_inj in Ep as [-> ->]; [contradiction|assumption|assumption].
    + rewrite N, Nat.eqb_refl. f_equal. unfold new, SmallBlasSpec.apply_op.
      destruct op as [|o|o]; reflexivity.
  - intros p Hp. rewrite N. destruct (Nat.eqb_spec p (pos i j)) as [->|_].
    + exfalso. exact (Hp i j Hi Hj (or_intror (conj eq_refl eq_refl)) eq_refl).
    + apply D. intros a b Ha Hb Hab. apply Hp; auto.
Qed.

Lemma store2_inv W C i j idx x y : Inv W C -> i < nr -> j + 1 < nc -> (forall b, j <= b < j + 2 -> ~ W i b) ->
  idx = pos i j -> x = v i j -> y = v i (j + 1) ->
  exists C', store2 T add sub op C idx x y = Some C' /\ Inv (fun a b => W a b \/ (a = i /\ j <= b < j + 2)) C'.
Proof.
  intros H Hi Hj Hw -> Hx Hy. unfold store2.
  destruct (store_inv W C i j _ _ H Hi ltac:(lia) (Hw j ltac:(lia)) eq_refl Hx) as (C1 & E1 & H1). rewrite E1.
  destruct (store_inv _ C1 i (j + 1) (pos i j + 1) y H1 Hi Hj) as (C2 & E2 & H2).
  - intros [K|[_ K]]; [exact (Hw (j + 1) ltac:(lia) K)|lia].
  - unfold pos; lia.
  - exact Hy.
  - exists C2. split; [exact E2|]. eapply Inv_ext; [exact H2|]. intros a b Ha Hb. split.
    + intros [[K|[-> ->]]|[-> ->]]; [left; exact K| |]; right; split; lia.
    + intros [K|[-> K]]; [left; left; exact K|]. destruct (Nat.eq_dec b j); [left; right|right]; split; lia.
Qed.

Lemma store4_inv W C i j idx x0 x1 x2 x3 : Inv W C -> i < nr -> j + 3 < nc -> (forall b, j <= b < j + 4 -> ~ W i b) ->
  idx = pos i j -> x0 = v i j -> x1 = v i (j + 1) -> x2 = v i (j + 2) -> x3 = v i (j + 3) ->
  exists C', store4 T add sub op C idx (x0, x1, x2, x3) = Some C' /\ Inv (fun a b => W a b \/ (a = i /\ j <= b < j + 4)) C'.
Proof.
  intros H Hi Hj Hw -> H0x H1x H2x H3x. unfold store4.
  destruct (store_inv W C i j _ _ H Hi ltac:(lia) (Hw j ltac:(lia)) eq_refl H0x) as (C1 & E1 & H1). rewrite E1.
  destruct (store_inv _ C1 i (j + 1) (pos i j + 1) x1 H1 Hi ltac:(lia)) as (C2 & E2 & H2); [|unfold pos; lia|exact H1x|].
  { intros [K|[_ K]]; [exact (Hw (j + 1) ltac:(lia) K)|lia]. }
  rewrite E2.
  destruct (store_inv _ C2 i (j + 2) (pos i j + 2) x2 H2 Hi ltac:(lia)) as (C3 & E3 & H3); [|unfold pos; lia|exact H2x|].
  { intros [[K|[_ K]]|[_ K]]; [exact (Hw (j + 2) ltac:(lia) K)|lia|lia]. }
  rewrite E3.
  destruct (store_inv _ C3 i (j + 3) (pos i j + 3) x3 H3 Hi ltac:(lia)) as (C4 & E4 & H4); [|unfold pos; lia|exact H3x|].
  { intros [[[K|[_ K]]|[_ K]]|[_ K]]; [exact (Hw (j + 3) ltac:(lia) K)|lia|lia|lia]. }
  exists C4. split; [exact E4|]. eapply Inv_ext; [exact H4|]. intros a b Ha Hb. split.
  - intros [[[[K|[-> ->]]|[-> ->]]|[-> ->]]|[-> ->]]; [left; exact K| | | |]; right; split; lia.
  - intros [K|[-> K]]; [left; left; left; left; exact K|].
    assert (b = j \/ b = j + 1 \/ b = j + 2 \/ b = j + 3) as [->|[->|[->| ->]]] by lia; tauto.
Qed.

(** The rows of one group of lanes. *)
Lemma rows_inv W C j w body : Inv W C -> (forall i b, j <= b < j + w -> ~ W i b) ->
  (forall i W' C', i < nr -> Inv W' C' -> (forall b, j <= b < j + w -> ~ W' i b) ->
     exists C'', body i C' = Some C'' /\ Inv (fun a b => W' a b \/ (a = i /\ j <= b < j + w)) C'') ->
  exists C', for_ nr body C = Some C' /\ Inv (fun a b => W a b \/ j <= b < j + w) C'.
Proof.
  intros H Hw Hbody.
  destruct (@for_inv (list T) (fun k C' => Inv (fun a b => W a b \/ (a < k /\ j <= b < j + w)) C') nr body C) as (C' & E & HI).
  - eapply Inv_ext; [exact H|]. intros a b Ha Hb. split; [tauto|]. intros [K|[K _]]; [exact K|lia].
  - intros k C' Hk HC'. destruct (Hbody k _ C' Hk HC') as (C'' & E & H'').
    + intros b Hb [K|[K _]]; [exact (Hw k b Hb K)|lia].
    + exists C''. split; [exact E|]. eapply Inv_ext; [exact H''|]. intros a b Ha Hb. split.
      * intros [[K|[K K']]|[-> K]]; [left; exact K|right; split; lia|right; split; lia].
      * intros [K|[K K']]; [left; left; exact K|]. destruct (Nat.eq_dec a k) as [->|]; [right; split; lia|left; right; split; lia].
  - exists C'. split; [exact E|]. eapply Inv_ext; [exact HI|]. intros a b Ha Hb. split; [tauto|].
    intros [K|K]; [left; exact K|right; split; [exact Ha|exact K]].
Qed.

(** The frame: odd lane, pair of lanes, quads. *)
Lemma lanes_inv odd pair quad :
  (forall j W C, j < nc -> Inv W C -> (forall i, ~ W i j) ->
     exists C', odd j C = Some C' /\ Inv (fun a b => W a b \/ j <= b < j + 1) C') ->
  (forall j W C, j + 1 < nc -> Inv W C -> (forall i b, j <= b < j + 2 -> ~ W i b) ->
     exists C', pair j C = Some C' /\ Inv (fun a b => W a b \/ j <= b < j + 2) C') ->
  (forall q W C, q * 4 + 3 < nc -> Inv W C -> (forall i b, q * 4 <= b < q * 4 + 4 -> ~ W i b) ->
     exists C', quad q C = Some C' /\ Inv (fun a b => W a b \/ q * 4 <= b < q * 4 + 4) C') ->
  exists C', lanes T nc odd pair (fun C => for_ (round4 nc / 4) quad C) C0 = Some C'
             /\ Inv (fun _ _ => True) C'.
Proof.
  intros Hodd Hpair Hquad.
  assert (Hquads : forall W C, Inv W C -> (forall i b, b < round4 nc -> ~ W i b) -> 
     exists C', for_ (round4 nc / 4) quad C = Some C' /\ Inv (fun a b => W a b \/ b < round4 nc) C').
  { intros W C H Hw. destruct (round4_le nc) as (R1 & R2 & R3).
    destruct (@for_inv (list T) (fun k C' => Inv (fun a b => W a b \/ b < k * 4) C') (round4 nc / 4) quad C) as (C' & E & HI).
    - eapply Inv_ext; [exact H|]. intros a b Ha Hb. split; [tauto|]. intros [K|K]; [exact K|lia].
    - intros k C' Hk HC'. assert (k * 4 + 4 <= round4 nc) by (unfold round4 in *; lia).
      destruct (Hquad k _ C' ltac:(lia) HC') as (C'' & E & H'').
      + intros i b Hb [K|K]; [exact (Hw i b ltac:(lia) K)|lia].
      + exists C''. split; [exact E|]. eapply Inv_ext; [exact H''|]. intros a b Ha Hb. split.
        * intros [[K|K]|K]; [left; exact K|right; lia|right; lia].
        * intros [K|K]; [left; left; exact K|]. destruct (le_lt_dec (k * 4) b); [right; lia|left; right; lia].
    - exists C'. split; [exact E|]. eapply Inv_ext; [exact HI|]. intros a b Ha Hb.
      assert (round4 nc / 4 * 4 = round4 nc) by (rewrite R3; unfold round4; lia). split; (intros [K|K]; [left; exact K|right; lia]). }
  unfold lanes.
  destruct (bits nc) as [(-> & -> & En)|[(-> & -> & En)|[(-> & -> & En)|(-> & -> & En)]]]; cbn [andb].
  - destruct (Hodd (nc - 1) _ C0 ltac:(lia) Inv_start) as (C1 & -> & H1); [auto|].
    destruct (Nat.eqb_spec nc 1); [lia|].
    destruct (Hpair (round4 nc) _ C1 ltac:(lia) H1) as (C2 & -> & H2); [intros i b Hb [[]|K]; lia|].
    destruct (Nat.ltb_spec nc 4).
    + exists C2. split; [reflexivity|]. eapply Inv_ext; [exact H2|]. intros a b Ha Hb. split; [tauto|]. intros _.
      assert (round4 nc = 0) by (unfold round4 in *; lia).
      destruct (Nat.eq_dec b (nc - 1)); [left; right; lia|right; lia].
    + destruct (Hquads _ C2 H2) as (C3 & E & H3); [intros i b Hb [[[]|K]|K]; lia|].
      exists C3. split; [exact E|]. eapply Inv_ext; [exact H3|]. intros a b Ha Hb. split; [tauto|]. intros _.
      destruct (le_lt_dec (round4 nc) b); [left|right; lia]. destruct (Nat.eq_dec b (nc - 1)); [left; right; lia|right; lia].
  - destruct (Hpair (round4 nc) _ C0 ltac:(lia) Inv_start) as (C2 & -> & H2); [auto|].
    destruct (Nat.ltb_spec nc 4).
    + exists C2. split; [reflexivity|]. eapply Inv_ext; [exact H2|]. intros a b Ha Hb. split; [tauto|]. intros _.
      assert (round4 nc = 0) by (unfold round4 in *; lia). right; lia.
    + destruct (Hquads _ C2 H2) as (C3 & E & H3); [intros i b Hb [[]|K]; lia|].
      exists C3. split; [exact E|]. eapply Inv_ext; [exact H3|]. intros a b Ha Hb. split; [tauto|]. intros _.
      destruct (le_lt_dec (round4 nc) b); [left; right; lia|right; lia].
  - destruct (Hodd (nc - 1) _ C0 ltac:(lia) Inv_start) as (C1 & -> & H1); [auto|].
    destruct (Nat.eqb_spec nc 1) as [E1|_].
    + exists C1. split; [reflexivity|]. eapply Inv_ext; [exact H1|]. intros a b Ha Hb. split; [tauto|]. intros _. right; lia.
    + destruct (Hquads _ C1 H1) as (C3 & E & H3); [intros i b Hb [[]|K]; lia|].
      exists C3. split; [exact E|]. eapply Inv_ext; [exact H3|]. intros a b Ha Hb. split; [tauto|]. intros _.
      destruct (le_lt_dec (round4 nc) b); [left; right; lia|right; lia].
  - destruct (Hquads _ C0 Inv_start) as (C3 & E & H3); [auto|].
    exists C3. split; [exact E|]. eapply Inv_ext; [exact H3|]. intros a b Ha Hb. split; [tauto|]. intros _. right; lia.
Qed.

Lemma Inv_updated C : Inv (fun _ _ => True) C -> block_updated T zero add sub op v nr nc sr sc cs C0 C.
Proof.
  intros (A & B & D). split; [exact A|]. split.
  - intros i j Hi Hj. specialize (B i j Hi Hj I). unfold pos, new, pos in B. unfold entry.
    replace ((i + sr) * cs + (j + sc)) with ((i + sr) * cs + sc + j) by lia. exact B.
  - intros p Hp. apply D. intros i j Hi Hj _. unfold pos. specialize (Hp i j Hi Hj). lia.
Qed.
End Block.
End Scalar.
