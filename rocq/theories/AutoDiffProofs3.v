(* The dynamic cost function: the derivative sections and the passes. *)
From Coq Require Import Reals List ZArith Bool Lia Lra.
From Verif Require Import JetModel JetSpec AutoDiffModel AutoDiffSpec AutoDiffProofs AutoDiffProofs2.
Import ListNotations.
Local Open Scope nat_scope.

(* ---------------- sections ---------------- *)

Fixpoint sec_flags (c : nat) (inn : bool) (fl : list bool) : list nat :=
  match fl with
  | [] => [c]
  | true :: r => if inn then sec_flags (S c) true r else c :: sec_flags (S c) true r
  | false :: r => sec_flags (S c) false r
  end.

Lemma sec_true n c inn rest : 0 < n ->
  sec_flags c inn (repeat true n ++ rest) = (if inn then [] else [c]) ++ sec_flags (c + n) true rest.
Proof.
  revert c inn. induction n as [|n IH]; intros c inn H; [lia|]. cbn [repeat app sec_flags].
  destruct n as [|n].
  - cbn [repeat app]. replace (c + 1) with (S c) by lia. destruct inn; reflexivity.
  - rewrite IH by lia. replace (S c + S n) with (c + S (S n)) by lia. destruct inn; reflexivity.
Qed.
Lemma sec_false n c inn rest : 0 < n ->
  sec_flags c inn (repeat false n ++ rest) = sec_flags (c + n) false rest.
Proof.
  revert c inn. induction n as [|n IH]; intros c inn H; [lia|]. cbn [repeat app sec_flags].
  destruct n as [|n].
  - cbn [repeat app]. replace (c + 1) with (S c) by lia. reflexivity.
  - rewrite IH by lia. f_equal. lia.
Qed.

Lemma sec_head fl c inn : exists h t, sec_flags c inn fl = h :: t /\ c <= h.
Proof.
  revert c inn. induction fl as [|[] fl IH]; intros c inn; cbn [sec_flags].
  - exists c, []. split; [reflexivity|lia].
  - destruct inn.
    + destruct (IH (S c) true) as (h & t & E & L). exists h, t. split; [exact E|lia].
    + exists c, (sec_flags (S c) true fl). split; [reflexivity|lia].
  - destruct (IH (S c) false) as (h & t & E & L). exists h, t. split; [exact E|lia].
Qed.

Definition flags (l : list slot) : list bool := map s_active l.

Lemma flags_block k n (j : jacobian) :
  flags (map (fun i => mkslot k i (match j with Some _ => true | None => false end)) (seq 0 n)) =
  repeat (match j with Some _ => true | None => false end) n.
Proof.
  unfold flags. rewrite map_map. cbn [s_active]. generalize 0. induction n as [|n IH]; intro a; [reflexivity|].
  cbn. rewrite IH. reflexivity.
Qed.

Lemma discover_sections sizes js k c inn st a :
  length js = length sizes -> Forall (fun n => 0 < n) sizes ->
  let '(starts, tot, act) := discover sizes js c inn st a in
  starts ++ [tot] = st ++ sec_flags c inn (flags (slots k sizes js)) /\
  tot = c + total sizes /\ act = a + wanted sizes js.
Proof.
  revert js k c inn st a. induction sizes as [|n sizes IH]; intros js k c inn st a HL HP.
  - cbn. split; [reflexivity|]. split; [|]; lia.
  - destruct js as [|j js]; [discriminate|]. inversion HP as [|? ? P1 P2]; subst. injection HL as HL.
    cbn [discover slots]. unfold flags. rewrite map_app. fold (flags (slots (S k) sizes js)).
    change (map s_active ?l) with (flags l). rewrite flags_block. destruct j as [d|].
    + specialize (IH js (S k) (c + n) true (if inn then st else st ++ [c]) (a + n) HL P2).
      destruct (discover _ _ _ _ _ _) as [[s t] ac]. destruct IH as (E1 & E2 & E3).
      split; [|split].
      * rewrite E1, sec_true by exact P1. destruct inn; [reflexivity|]. rewrite <- app_assoc. reflexivity.
      * unfold total in *. cbn. lia.
      * cbn. lia.
    + specialize (IH js (S k) (c + n) false st a HL P2).
      destruct (discover _ _ _ _ _ _) as [[s t] ac]. destruct IH as (E1 & E2 & E3).
      split; [|split].
      * rewrite E1, sec_false by exact P1. reflexivity.
      * unfold total in *. cbn. lia.
      * cbn. lia.
Qed.

(* ---------------- slots and ranks ---------------- *)

Definition rk (l : list slot) (p : nat) : nat := length (filter s_active (firstn p l)).

Lemma rk_S l p s : nth_error l p = Some s -> rk l (S p) = rk l p + (if s_active s then 1 else 0).
Proof.
  unfold rk. revert p. induction l as [|a l IH]; intros [|p] H; try discriminate.
  - injection H as ->. cbn. destruct (s_active s); reflexivity.
  - specialize (IH p H). cbn [firstn filter] in *. destruct (s_active a); cbn [length]; lia.
Qed.
Lemma rk_end l p : length l <= p -> rk l p = rk l (length l).
Proof. intro H. unfold rk. rewrite !firstn_all2 by lia. reflexivity. Qed.
Lemma rk_mono l p q : p <= q -> rk l p <= rk l q.
Proof.
  intro H. induction H as [|q H IH]; [lia|]. destruct (nth_error l q) as [s|] eqn:E.
  - rewrite (rk_S l q s E). lia.
  - apply nth_error_None in E. rewrite (rk_end l (S q)) by lia. rewrite (rk_end l q) in IH by lia. lia.
Qed.
Lemma rk_lt l p q s : nth_error l p = Some s -> s_active s = true -> p < q -> rk l p < rk l q.
Proof.
  intros E A H. pose proof (rk_mono l (S p) q H). rewrite (rk_S l p s E), A in H0. lia.
Qed.
Lemma rk_inj l p q s s' :
  nth_error l p = Some s -> s_active s = true -> nth_error l q = Some s' -> s_active s' = true ->
  rk l p = rk l q -> p = q.
Proof.
  intros E A E' A' H. destruct (Nat.lt_trichotomy p q) as [L|[L|L]]; [|exact L|].
  - pose proof (rk_lt l p q s E A L). lia.
  - pose proof (rk_lt l q p s' E' A' L). lia.
Qed.

Lemma slots_length k sizes js : length js = length sizes -> length (slots k sizes js) = total sizes.
Proof.
  revert k js. induction sizes as [|n sizes IH]; intros k js H; [reflexivity|].
  destruct js as [|j js]; [discriminate|]. cbn [slots]. rewrite app_length, map_length, seq_length, IH by (injection H; auto).
  reflexivity.
Qed.

Lemma slots_at sizes : forall k js b n c j,
  nth_error sizes b = Some n -> nth_error js b = Some j -> c < n ->
  nth_error (slots k sizes js) (offset sizes b + c) =
  Some (mkslot (k + b) c (match j with Some _ => true | None => false end)).
Proof.
  induction sizes as [|m sizes IH]; intros k js [|b] n c j H J Hc; try discriminate;
    (destruct js as [|j0 js]; [discriminate|]); cbn [slots].
  - injection H as ->. injection J as ->. unfold offset. cbn [firstn fold_right].
    rewrite nth_error_app1 by (rewrite map_length, seq_length; lia).
    rewrite nth_error_map, (nth_error_nth' _ 0) by (rewrite seq_length; lia).
    rewrite seq_nth by lia. cbn. rewrite Nat.add_0_r. reflexivity.
  - unfold offset. cbn [firstn fold_right].
    rewrite nth_error_app2 by (rewrite map_length, seq_length; lia).
    rewrite map_length, seq_length. change (fold_right Nat.add 0 (firstn b sizes)) with (offset sizes b).
    replace (m + offset sizes b + c - m) with (offset sizes b + c) by lia.
    rewrite (IH (S k) js b n c j H J Hc). f_equal. f_equal. lia.
Qed.

Lemma slot_block sizes : forall k js p s,
  length js = length sizes ->
  nth_error (slots k sizes js) p = Some s ->
  exists b n j, s_block s = k + b /\ nth_error sizes b = Some n /\ nth_error js b = Some j /\
    s_index s < n /\ p = offset sizes b + s_index s /\
    s_active s = (match j with Some _ => true | None => false end).
Proof.
  induction sizes as [|m sizes IH]; intros k js p s HL H.
  - destruct p; discriminate.
  - destruct js as [|j js]; [discriminate|]. cbn [slots] in H.
    destruct (Nat.lt_ge_cases p m) as [L|L].
    + rewrite nth_error_app1 in H by (rewrite map_length, seq_length; lia).
      rewrite nth_error_map, (nth_error_nth' _ 0) in H by (rewrite seq_length; lia).
      rewrite seq_nth in H by lia. cbn in H. injection H as <-. exists 0, m, j. cbn.
      repeat split; try lia.
    + rewrite nth_error_app2 in H by (rewrite map_length, seq_length; lia).
      rewrite map_length, seq_length in H. injection HL as HL.
      destruct (IH (S k) js (p - m) s HL H) as (b & n & j' & E1 & E2 & E3 & E4 & E5 & E6).
      exists (S b), n, j'. repeat split; try assumption; try lia.
      unfold offset in *. cbn [firstn fold_right]. lia.
Qed.

Lemma filter_repeat (b : bool) n k (j : jacobian) a :
  length (filter s_active (map (fun i => mkslot k i (match j with Some _ => true | None => false end)) (seq a n))) =
  match j with Some _ => n | None => 0 end.
Proof.
  revert a. induction n as [|n IH]; intro a; destruct j; try reflexivity; cbn; rewrite ?IH; reflexivity.
Qed.

Lemma rk_total k sizes js : length js = length sizes -> rk (slots k sizes js) (total sizes) = wanted sizes js.
Proof.
  intro H. unfold rk. rewrite <- (slots_length k sizes js H), firstn_all.
  revert k js H. induction sizes as [|n sizes IH]; intros k js H; [reflexivity|].
  destruct js as [|j js]; [discriminate|]. injection H as H. cbn [slots wanted].
  rewrite filter_app, app_length, (filter_repeat true), (IH (S k) js H). destruct j; reflexivity.
Qed.

(* ---------------- the control of both loops ---------------- *)

Lemma skipn_cons {A} (l : list A) n a t : skipn n l = a :: t -> nth_error l n = Some a /\ skipn (S n) l = t.
Proof.
  revert l. induction n as [|n IH]; intros [|x l] H; try discriminate.
  - cbn in *. injection H as -> ->. split; reflexivity.
  - cbn [skipn] in H. destruct (IH l H) as [E1 E2]. split; [exact E1|]. exact E2.
Qed.
Lemma skipn_nth {A} (l : list A) p s : nth_error l p = Some s -> skipn p l = s :: skipn (S p) l.
Proof.
  revert p. induction l as [|a l IH]; intros [|p] H; try discriminate.
  - cbn in *. injection H as ->. reflexivity.
  - cbn [nth_error] in H. change (skipn (S p) (a :: l)) with (skipn p l). rewrite (IH p H). reflexivity.
Qed.

Section Loops.
Variables (starts : list nat) (sl : list slot) (stride : nat).
Hypothesis Hstride : 0 < stride.

(* the position [q] at which (section, cursor) continues *)
Definition St (q sec cur : nat) : Prop :=
  (cur = 0 /\ skipn sec starts = sec_flags q false (flags (skipn q sl))) \/
  (exists s, s + cur = q /\ skipn sec starts = s :: sec_flags q true (flags (skipn q sl))).

Definition Ready (p q base : nat) (st : pass_state) : Prop :=
  q <= length sl /\ St q (ps_section st) (ps_cursor st) /\ rk sl q = base + ps_count st /\
  ((p <= q /\ ps_count st < stride /\ (p < q -> ps_count st = 0)) \/ (q <= p /\ ps_count st = stride)).

Lemma ready_step p q base st s :
  Ready p q base st -> nth_error sl p = Some s ->
  (ps_count st = stride /\ Ready (S p) q base st /\ base + stride <= rk sl p) \/
  (ps_count st < stride /\ exists start, nth_error starts (ps_section st) = Some start /\
     ((start + ps_cursor st <= p /\ s_active s = true /\ rk sl p = base + ps_count st /\
       Ready (S p) (S p) base (mkps (ps_section st) (S (ps_cursor st)) (S (ps_count st)))) \/
      (start + ps_cursor st <= p /\ s_active s = false /\
       Ready (S p) (S p) base (mkps (S (ps_section st)) 0 (ps_count st))) \/
      (p < start + ps_cursor st /\ (s_active s = true -> rk sl p < base) /\
       exists q', Ready (S p) q' base st))).
Proof.
  intros (Q & HS & HR & HC) Hs.
  assert (p < length sl) as Lp by (apply nth_error_Some; rewrite Hs; discriminate).
  destruct HC as [(C1 & C2 & C3)|(C1 & C2)].
  2:{ left. split; [exact C2|]. split.
      - split; [exact Q|]. split; [exact HS|]. split; [exact HR|]. right. split; [lia|exact C2].
      - rewrite <- C2, <- HR. apply rk_mono. exact C1. }
  right. split; [exact C2|].
  destruct (Nat.eq_dec p q) as [<-|Hne].
    unfold St in HS. rewrite (skipn_nth _ _ _ Hs) in HS. cbn [flags map] in HS. fold (flags (skipn (S p) sl)) in HS.
    cbn [sec_flags] in HS. destruct (s_active s) eqn:A.
    + destruct HS as [[E0 E]|(s0 & E0 & E)].
      * destruct (skipn_cons _ _ _ _ E) as [E1 E2]. exists p. split; [exact E1|]. left.
        split; [lia|]. split; [reflexivity|]. split; [exact HR|].
        split; [lia|]. cbn [ps_section ps_cursor ps_count]. split.
        -- right. exists p. split; [lia|]. exact E.
        -- split; [rewrite (rk_S _ _ _ Hs), A; lia|].
           destruct (Nat.eq_dec (S (ps_count st)) stride); [right|left]; lia.
      * destruct (skipn_cons _ _ _ _ E) as [E1 E2]. exists s0. split; [exact E1|]. left.
        split; [lia|]. split; [reflexivity|]. split; [exact HR|].
        split; [lia|]. cbn [ps_section ps_cursor ps_count]. split.
        -- right. exists s0. split; [lia|]. exact E.
        -- split; [rewrite (rk_S _ _ _ Hs), A; lia|].
           destruct (Nat.eq_dec (S (ps_count st)) stride); [right|left]; lia.
    + destruct HS as [[E0 E]|(s0 & E0 & E)].
      * destruct (sec_head (flags (skipn (S p) sl)) (S p) false) as (h & t & Eh & Lh).
        rewrite Eh in E. destruct (skipn_cons _ _ _ _ E) as [E1 E2]. exists h. split; [exact E1|].
        right. right. split; [lia|]. split; [discriminate|]. exists (S p). split; [lia|]. split.
        -- left. split; [exact E0|]. rewrite Eh. exact E.
        -- split; [rewrite (rk_S _ _ _ Hs), A; lia|]. left. lia.
      * destruct (skipn_cons _ _ _ _ E) as [E1 E2]. exists s0. split; [exact E1|]. right. left.
        split; [lia|]. split; [reflexivity|]. split; [lia|]. cbn [ps_section ps_cursor ps_count]. split.
        -- left. split; [reflexivity|exact E2].
        -- split; [rewrite (rk_S _ _ _ Hs), A; lia|]. left. lia.
  - assert (p < q) as L by lia. specialize (C3 L).
    assert (exists h, nth_error starts (ps_section st) = Some h /\ q <= h + ps_cursor st) as (h & E1 & Lh).
    { destruct HS as [[E0 E]|(s0 & E0 & E)].
      - destruct (sec_head (flags (skipn q sl)) q false) as (h & t & Eh & Lh). rewrite Eh in E.
        destruct (skipn_cons _ _ _ _ E) as [E1 E2]. exists h. split; [exact E1|lia].
      - destruct (skipn_cons _ _ _ _ E) as [E1 E2]. exists s0. split; [exact E1|lia]. }
    exists h. split; [exact E1|]. right. right. split; [lia|]. split.
    + intro A. pose proof (rk_lt _ _ _ _ Hs A L). lia.
    + exists q. split; [exact Q|]. split; [exact HS|]. split; [exact HR|]. left. lia.
Qed.

(* ---------------- seeding ---------------- *)

Definition seeded_at (par : nat -> num) (base : nat) (x : nat -> jet) (i : nat) (s : slot) : Prop :=
  ja (x i) = par i /\
  forall k, jv (x i) k =
    if s_active s && (rk sl i =? base + k) && (k <? stride) then n1 else nz.

Lemma seed_spec par l : forall p q base st x,
  l = skipn p sl -> Ready p q base st ->
  exists st' x', seed_loop stride starts par l p st x = Some (st', x') /\
    (forall i, i < p -> x' i = x i) /\
    (forall i s, p <= i -> nth_error sl i = Some s -> seeded_at par base x' i s).
Proof.
  induction l as [|s l IH]; intros p q base st x El HR.
  - exists st, x. split; [reflexivity|]. split; [reflexivity|]. intros i s Hi Hs. exfalso.
    assert (i < length sl) by (apply nth_error_Some; rewrite Hs; discriminate).
    pose proof (f_equal (@length slot) El) as EL. rewrite skipn_length in EL. cbn in EL. lia.
  - destruct (skipn_cons sl p s l (eq_sym El)) as [Hs El'].
    assert (forall st1 q1 x1, Ready (S p) q1 base st1 -> seeded_at par base x1 p s -> (forall i, i < p -> x1 i = x i) ->
      exists st' x', seed_loop stride starts par l (S p) st1 x1 = Some (st', x') /\
        (forall i, i < p -> x' i = x i) /\
        (forall i s, p <= i -> nth_error sl i = Some s -> seeded_at par base x' i s)) as K.
    { intros st1 q1 x1 R1 S1 X1. destruct (IH (S p) q1 base st1 x1 (eq_sym El') R1) as (st' & x' & E & F & G).
      exists st', x'. split; [exact E|]. split.
      - intros i Hi. rewrite F by lia. apply X1, Hi.
      - intros i s' Hi Hs'. destruct (Nat.eq_dec i p) as [->|Hne].
        + rewrite Hs in Hs'. injection Hs' as <-. unfold seeded_at. rewrite F by lia. exact S1.
        + apply G; [lia|exact Hs']. }
    assert (forall v, (forall k, v k = if s_active s && (rk sl p =? base + k) && (k <? stride) then n1 else nz) ->
      seeded_at par base (upd x p (mkjet (par p) v)) p s) as KS.
    { intros v Hv. unfold seeded_at. rewrite upd_eq. cbn [ja jv]. split; [reflexivity|exact Hv]. }
    assert (forall v i, i < p -> upd x p (mkjet (par p) v) i = x i) as KU.
    { intros v i Hi. apply upd_ne. lia. }
    cbn [seed_loop]. destruct (ready_step p q base st s HR Hs) as [(C & R' & L)|(C & start & E & HH)].
    + destruct (Nat.ltb_spec (ps_count st) stride); [lia|].
      apply (K _ q); [exact R'| |apply KU]. apply KS. intro k. unfold vz.
      destruct (Nat.eqb_spec (rk sl p) (base + k)); destruct (Nat.ltb_spec k stride); rewrite ?andb_false_r; try reflexivity. lia.
    + destruct (Nat.ltb_spec (ps_count st) stride); [|lia]. rewrite E.
      destruct HH as [(L & A & B & R')|[(L & A & R')|(L & B & q' & R')]].
      * destruct (Nat.leb_spec (start + ps_cursor st) p); [|lia]. rewrite A in *.
        apply (K _ (S p)); [exact R'| |apply KU]. apply KS. intro k. rewrite B. cbn [andb].
        destruct (Nat.eqb_spec k (ps_count st)); destruct (Nat.eqb_spec (base + ps_count st) (base + k));
          destruct (Nat.ltb_spec k stride); cbn [andb]; try reflexivity; lia.
      * destruct (Nat.leb_spec (start + ps_cursor st) p); [|lia]. rewrite A in *.
        apply (K _ (S p)); [exact R'| |apply KU]. apply KS. intro k. reflexivity.
      * destruct (Nat.leb_spec (start + ps_cursor st) p); [lia|].
        apply (K _ q'); [exact R'| |apply KU]. apply KS. intro k. unfold vz.
        destruct (s_active s); [|reflexivity]. specialize (B eq_refl).
        destruct (Nat.eqb_spec (rk sl p) (base + k)); [lia|reflexivity].
Qed.

(* ---------------- copying ---------------- *)

Variables (sizes : list nat) (js0 : list jacobian) (M : nat) (D : nat -> nat -> num).
Hypothesis Hsl : sl = slots 0 sizes js0.
Hypothesis Hlen : length js0 = length sizes.

(* the derivatives of the active parameters of rank below [hi] are in place *)
Definition filled (hi : nat) (js : list jacobian) : Prop :=
  length js = length js0 /\
  forall b n, nth_error sizes b = Some n ->
    match nth_error js0 b with
    | None => True
    | Some None => nth_error js b = Some None
    | Some (Some d) =>
        exists d', nth_error js b = Some (Some d') /\
          forall i, d' i =
            if (i <? M * n) && (rk sl (offset sizes b + i mod n) <? hi)
            then D (i / n) (offset sizes b + i mod n) else d i
    end.

Lemma on_block_length i g js : length (on_block i g js) = length js.
Proof. revert i. induction js as [|j js IH]; intros [|i]; cbn; try reflexivity. rewrite IH. reflexivity. Qed.
Lemma on_block_at i g js b :
  nth_error (on_block i g js) b =
  match nth_error js b with
  | Some (Some d) => Some (Some (if b =? i then g d else d))
  | o => o
  end.
Proof.
  revert i b. induction js as [|j js IH]; intros i b; [destruct i; destruct b; reflexivity|].
  destruct i as [|i]; destruct b as [|b]; cbn [on_block nth_error Nat.eqb].
  - destruct j; reflexivity.
  - destruct (nth_error js b) as [[?|]|]; reflexivity.
  - destruct j; reflexivity.
  - apply IH.
Qed.
Lemma copy_column_at n j out k d i :
  j < n ->
  copy_column M n j out k d i =
  if (i <? M * n) && (i mod n =? j) then jv (out (i / n)) k else d i.
Proof.
  intro Hj. unfold copy_column. induction M as [|m IH]; [reflexivity|].
  rewrite seq_snoc, fold_left_app. cbn [fold_left]. replace (0 + m) with m by lia. unfold upd at 1.
  destruct (Nat.eqb_spec i (m * n + j)) as [->|Hne].
  - rewrite <- (Nat.mod_unique (m * n + j) n m j) by lia. rewrite <- (Nat.div_unique (m * n + j) n m j) by lia.
    rewrite Nat.eqb_refl. destruct (Nat.ltb_spec (m * n + j) (S m * n)); [reflexivity|nia].
  - rewrite IH. destruct (Nat.eqb_spec (i mod n) j) as [E|E]; [|rewrite !andb_false_r; reflexivity].
    rewrite !andb_true_r. destruct (Nat.ltb_spec i (m * n)); destruct (Nat.ltb_spec i (S m * n)); try reflexivity; try nia.
    exfalso. apply Hne. pose proof (Nat.div_mod i n). assert (i / n = m); [|lia].
    symmetry. apply (Nat.div_unique i n m (i - m * n)); lia.
Qed.

Lemma filled_step p s k out js :
  nth_error sl p = Some s -> s_active s = true -> filled (rk sl p) js ->
  (forall r, r < M -> jv (out r) k = D r p) ->
  filled (S (rk sl p)) (on_block (s_block s) (copy_column M (nth (s_block s) sizes 0) (s_index s) out k) js).
Proof.
  intros Hs A [F1 F2] HD. split; [rewrite on_block_length; exact F1|].
  destruct (slot_block sizes 0 js0 p s Hlen) as (b0 & n0 & j0 & B1 & B2 & B3 & B4 & B5 & B6); [rewrite <- Hsl; exact Hs|].
  cbn in B1. rewrite B1. rewrite (nth_error_nth sizes b0 0 B2).
  intros b n Hb. specialize (F2 b n Hb). rewrite on_block_at.
  destruct (nth_error js0 b) as [[d|]|] eqn:Ej; [| |exact I].
  2:{ rewrite F2. reflexivity. }
  destruct F2 as (d' & E & F). rewrite E.
  eexists. split; [reflexivity|]. intro i.
  destruct (Nat.eqb_spec b b0) as [->|Hne].
  - assert (n = n0) by congruence. subst n0. rewrite copy_column_at by exact B4. rewrite F.
    destruct (Nat.ltb_spec i (M * n)) as [Li|Li]; cbn [andb]; [|reflexivity].
    assert (i mod n < n) as Lm by (apply Nat.mod_upper_bound; lia).
    destruct (Nat.eqb_spec (i mod n) (s_index s)) as [Em|Em].
    + rewrite Em, <- B5. destruct (Nat.ltb_spec (rk sl p) (S (rk sl p))); [|lia]. apply HD.
      apply Nat.div_lt_upper_bound; lia.
    + pose proof (slots_at sizes 0 js0 b0 n (i mod n) (Some d) Hb Ej Lm) as Ha. rewrite <- Hsl in Ha.
      destruct (Nat.ltb_spec (rk sl (offset sizes b0 + i mod n)) (rk sl p));
        destruct (Nat.ltb_spec (rk sl (offset sizes b0 + i mod n)) (S (rk sl p))); try reflexivity; try lia.
      exfalso. assert (offset sizes b0 + i mod n = p) as X; [|lia].
      apply (rk_inj sl _ _ _ _ Ha eq_refl Hs A). lia.
  - rewrite F. destruct (Nat.ltb_spec i (M * n)) as [Li|Li]; cbn [andb]; [|reflexivity].
    assert (i mod n < n) as Lm by (apply Nat.mod_upper_bound; lia).
    pose proof (slots_at sizes 0 js0 b n (i mod n) (Some d) Hb Ej Lm) as Ha. rewrite <- Hsl in Ha.
    destruct (Nat.ltb_spec (rk sl (offset sizes b + i mod n)) (rk sl p));
      destruct (Nat.ltb_spec (rk sl (offset sizes b + i mod n)) (S (rk sl p))); try reflexivity; try lia.
    exfalso. assert (offset sizes b + i mod n = p) as X.
    { apply (rk_inj sl _ _ _ _ Ha eq_refl Hs A). lia. }
    rewrite X, Hs in Ha. injection Ha as Ha. rewrite Ha in B1. cbn in B1. lia.
Qed.

Lemma copy_spec out base l : forall p q st js,
  l = skipn p sl -> Ready p q base st -> filled (base + ps_count st) js ->
  (forall i s r, nth_error sl i = Some s -> s_active s = true -> r < M ->
     base <= rk sl i -> rk sl i < base + stride -> jv (out r) (rk sl i - base) = D r i) ->
  exists st' js' q', copy_loop stride starts sizes M out l p st js = Some (st', js') /\
    q' <= length sl /\ St q' (ps_section st') (ps_cursor st') /\ rk sl q' = base + ps_count st' /\
    ps_count st' <= stride /\ (ps_count st' = stride \/ q' = length sl) /\ filled (base + ps_count st') js'.
Proof.
  induction l as [|s l IH]; intros p q st js El HR HF HD.
  - exists st, js, q. pose proof (f_equal (@length slot) El) as EL. rewrite skipn_length in EL. cbn in EL.
    destruct HR as (R1 & R2 & R3 & R4). split; [reflexivity|]. split; [exact R1|]. split; [exact R2|]. split; [exact R3|].
    split; [destruct R4; lia|]. split; [|exact HF]. destruct R4 as [(C1 & _)|(_ & C2)]; [right; lia|left; exact C2].
  - destruct (skipn_cons sl p s l (eq_sym El)) as [Hs El']. cbn [copy_loop].
    destruct (ready_step p q base st s HR Hs) as [(C & R' & L)|(C & start & E & HH)].
    + destruct (Nat.ltb_spec (ps_count st) stride); [lia|]. apply (IH (S p) q); auto.
    + destruct (Nat.ltb_spec (ps_count st) stride); [|lia]. rewrite E.
      destruct HH as [(L & A & B & R')|[(L & A & R')|(L & B & q' & R')]].
      * destruct (Nat.leb_spec (start + ps_cursor st) p); [|lia]. rewrite A.
        apply (IH (S p) (S p)); auto. cbn [ps_count]. replace (base + S (ps_count st)) with (S (rk sl p)) by lia.
        apply filled_step; auto.
        -- rewrite B. exact HF.
        -- intros r Hr. replace (ps_count st) with (rk sl p - base) by lia. apply (HD p s r); auto; lia.
      * destruct (Nat.leb_spec (start + ps_cursor st) p); [|lia]. rewrite A. apply (IH (S p) (S p)); auto.
      * destruct (Nat.leb_spec (start + ps_cursor st) p); [lia|]. apply (IH (S p) q'); auto.
Qed.
End Loops.
