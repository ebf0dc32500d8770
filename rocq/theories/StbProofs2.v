(* C83: the invariant. *)
From Coq Require Import List Arith Bool Lia Permutation.
From Verif Require Import GpuModel StbModel StbSpec StbProofs.
Import ListNotations.
Open Scope nat_scope.

Section Stream.
Context {A : Type}.
Variables (from : nat -> A) (K n : nat) (pinned : bool).
Notation nb := kNumBatches.
Notation val m := (value from m).
Definition pends (q : nat -> list Op) : list nat := flat_map (fun b => pend (q b)) (seq 0 nb).
Definition weights (q : nat -> list Op) : nat := list_sum (map (fun b => weight (q b)) (seq 0 nb)).
Definition host_pend (h : list Instr) : list nat := flat_map (fun i => match i with Enqueue _ op => pend_op op | _ => [] end) h.
Definition host_weight (h : list Instr) : nat := list_sum (map (fun i => match i with Enqueue _ op => S (weight_op op) | _ => 1 end) h).
Lemma pends_set q b : b < nb -> exists rest, Permutation (pends q) (pend (q b) ++ rest) /\ forall x, Permutation (pends (set q b x)) (pend x ++ rest).
Proof.
  intros B. unfold pends. destruct b as [|[|b]]; [| |unfold kNumBatches in B; lia]; cbn -[pend]; unfold set; cbn -[pend]; [exists (pend (q 1) ++ [])|exists (pend (q 0) ++ [])]; (split; [|intros x]); try reflexivity; rewrite !app_nil_r; apply Permutation_app_comm.
Qed.
Lemma weights_set q b : b < nb -> exists rest, weights q = weight (q b) + rest /\ forall x, weights (set q b x) = weight x + rest.
Proof.
  intros B. unfold weights. destruct b as [|[|b]]; [| |unfold kNumBatches in B; lia]; cbn -[weight]; unfold set; cbn -[weight]; [exists (weight (q 1))|exists (weight (q 0))]; (split; [|intros x]); lia.
Qed.
Definition fin (j : nat) : list Instr := map Sync (seq j (nb - j)).
Definition tl_ker (b o k : nat) (L : list (nat * nat)) : list Instr := Enqueue b (Kernel (K * b) o (seq 0 k)) :: Loop pinned K ((b + 1) mod nb) L ++ fin 0.
Definition tl_rec (b o k : nat) (L : list (nat * nat)) : list Instr := Enqueue b (Record b) :: tl_ker b o k L.
Definition tl_copy (b o k : nat) (L : list (nat * nat)) : list Instr := Enqueue b (Copy (K * b) (if pinned then Pinned (K * b) else User o) (seq 0 k)) :: if pinned then tl_rec b o k L else tl_ker b o k L.
Definition puts (b o j k : nat) : list Instr := map (fun i => Put (K * b + i) (o + i)) (seq j (k - j)).
Lemma loop_cons b o k L : Loop pinned K b ((o, k) :: L) ++ fin 0 = if pinned then Wait b :: puts b o 0 k ++ tl_copy b o k L else tl_copy b o k L.
Proof. unfold tl_copy, tl_rec, tl_ker, puts. rewrite Nat.sub_0_r. cbn [Loop Batch]. destruct pinned; cbn [app]; rewrite <- ?app_assoc; cbn [app]; reflexivity. Qed.

Definition Common (h : list Instr) (q : nat -> list Op) (g m : nat -> A) (r f : nat -> nat) (l : list (Event A)) : Prop :=
  (forall b, b < nb -> bounded K pinned b (q b) /\ safe from (val m) (q b) (slot K g b)) /\ (forall b, nb <= b -> q b = []) /\ (forall b, r b = f b + records (q b)) /\
  (forall p v, In (p, v) (seen l) -> v = from p) /\ Permutation (map fst (seen l) ++ pends q ++ host_pend h) (seq 0 n) /\ (forall s op, In (Enqueue s op) h -> s < nb).
Definition sizes (L : list (nat * nat)) : Prop := forall o k, In (o, k) L -> k <= K.
Definition held (q : list Op) (m : nat -> A) (g : nat -> A) (b o k : nat) : Prop := forall i, i < k -> run (val m) q (slot K g b) i = from (o + i).
Definition P_start h (q : nat -> list Op) (l : list (Event A)) : Prop := exists L, h = Sync 0 :: Loop pinned K 0 L ++ fin 0 /\ sizes L /\ (forall b, 0 < b -> q b = []) /\ forallb is_earlier (q 0) = true /\ seen l = [].
Definition P_loop h (q : nat -> list Op) : Prop := exists b o k L, b < nb /\ h = Loop pinned K b ((o, k) :: L) ++ fin 0 /\ sizes ((o, k) :: L) /\ (pinned = true -> forall c, c < nb -> covered (q c)).
Definition P_put h (q : nat -> list Op) m : Prop := exists b o k j L, pinned = true /\ b < nb /\ j <= k /\ k <= K /\ h = puts b o j k ++ tl_copy b o k L /\ sizes L /\ no_copy (q b) /\ (forall i, i < j -> m (K * b + i) = from (o + i)) /\ forall c, c < nb -> covered (q c).
Definition P_rec h (q : nat -> list Op) g m : Prop := exists b o k L, pinned = true /\ b < nb /\ k <= K /\ h = tl_rec b o k L /\ sizes L /\ held (q b) m g b o k /\ covered (q b ++ [Record b]) /\ forall c, c < nb -> c <> b -> covered (q c).
Definition P_ker h (q : nat -> list Op) g m : Prop := exists b o k L, b < nb /\ k <= K /\ h = tl_ker b o k L /\ sizes L /\ held (q b) m g b o k /\ (pinned = true -> forall c, c < nb -> covered (q c)).
Definition P_fin h (q : nat -> list Op) : Prop := exists j, j <= nb /\ h = fin j /\ forall b, b < j -> q b = [].
Definition Phase h q g m l : Prop := P_start h q l \/ (existsb is_earlier (q 0) = false /\ (P_loop h q \/ P_put h q m \/ P_rec h q g m \/ P_ker h q g m \/ P_fin h q)).
Definition Inv (s : State A) : Prop := Common (host s) (queue s) (gpu s) (staging s) (recorded s) (finished s) (log s) /\ Phase (host s) (queue s) (gpu s) (staging s) (log s).

Lemma mk_loop b L q g m l : b < nb -> sizes L -> existsb is_earlier (q 0) = false -> (pinned = true -> forall c, c < nb -> covered (q c)) -> Phase (Loop pinned K b L ++ fin 0) q g m l.
Proof.
  intros B SZ E C. right. split; [auto|]. destruct L as [|[o k] L].
  - right. right. right. right. exists 0. split; [lia|]. split; [reflexivity|]. intros; lia.
  - left. exists b, o, k, L. auto.
Qed.
Lemma set_same {B} (f : nat -> B) k v : set f k v k = v. Proof. unfold set. now rewrite Nat.eqb_refl. Qed.
Lemma set_other {B} (f : nat -> B) k v i : i <> k -> set f k v i = f i. Proof. unfold set. intros N. destruct (Nat.eqb_spec i k); [congruence|reflexivity]. Qed.

(* steps of a stream *)
Lemma dev_ok h q g m r f l s q' g' ev k e : Inv (mkState h q g m r f l) -> advance from m g (q s) q' g' ev k ->
  (k = 0 /\ f = e \/ exists x ops, k = 1 /\ q s = Record x :: ops /\ e = set f x (S (f x))) ->
  Inv (mkState h (set q s q') g' m r e (ev ++ l)) /\ s < nb /\ weight q' < weight (q s).
Proof.
  intros [[C1 [C2 [C3 [C4 [C5 C6]]]]] PH] AD EV. cbn [host queue gpu staging recorded finished log] in *.
  assert (SB : s < nb) by (destruct (lt_dec s nb) as [B|B]; [auto|exfalso; rewrite (C2 s ltac:(lia)) in AD; inversion AD]).
  destruct (C1 s SB) as [B S0]. destruct (advance_ok from K pinned m g s _ _ _ _ _ AD B S0) as [A1 [A2 [A3 [A4 [A5 [A6 [A7 [A8 [A9 [A10 [A11 [A12 A13]]]]]]]]]]]].
  assert (SA : forall x y : list (Event A), seen (x ++ y) = seen x ++ seen y) by (induction x as [|[?|? ?] x IHx]; intros y; cbn; rewrite ?IHx; reflexivity).
  split; [|auto]. split; cbn [host queue gpu staging recorded finished log].
  - split; [|split; [|split; [|split; [|split; [|auto]]]]].
    + intros b Bb. destruct (Nat.eq_dec b s) as [->|N]; [rewrite set_same; auto|]. rewrite set_other by auto. destruct (C1 b Bb) as [D1 D2]. split; [auto|].
      assert (EE : forall i, i < K -> slot K g b i = slot K g' b i) by (intros i I; symmetry; apply A4; auto). exact (proj1 (safe_ext from K pinned (val m) b (q b) D1 _ _ (val m) EE (or_intror (fun _ _ _ _ => eq_refl))) D2).
    + intros b Bb. rewrite set_other by lia. auto.
    + intros b. specialize (C3 b). destruct EV as [[-> <-]|[x [ops [-> [E1 ->]]]]].
      * destruct (Nat.eq_dec b s) as [->|N]; [rewrite set_same; lia|rewrite set_other by auto; auto].
      * assert (x = s) by (rewrite E1 in B; inversion B as [|? ? X _]; exact X). subst x. destruct (Nat.eq_dec b s) as [->|N]; [rewrite !set_same; lia|rewrite !set_other by auto; auto].
    + intros p v I. rewrite SA in I. apply in_app_iff in I. destruct I as [I|I]; [apply A11; auto|apply C4; auto].
    + destruct (pends_set q s SB) as [rest [R1 R2]]. rewrite SA, map_app, R2. rewrite R1, A12 in C5. rewrite <- C5. rewrite <- !app_assoc. rewrite !app_assoc. do 2 apply Permutation_app_tail. rewrite <- !app_assoc. apply Permutation_app_swap_app.
  - assert (EX : existsb is_earlier (q 0) = false -> existsb is_earlier (set q s q' 0) = false) by (intros X; destruct (Nat.eq_dec 0 s) as [<-|N]; [rewrite set_same; auto|rewrite set_other by auto; auto]).
    assert (CV : forall c, covered (q c) -> covered (set q s q' c)) by (intros c X; destruct (Nat.eq_dec c s) as [->|N]; [rewrite set_same; auto|rewrite set_other by auto; auto]).
    assert (HD : forall b o j, b < nb -> j <= K -> held (q b) m g b o j -> held (set q s q' b) m g' b o j).
    { intros b o j Bb J X i I. destruct (Nat.eq_dec b s) as [->|N]; [rewrite set_same, A3 by lia; auto|]. rewrite set_other by auto. rewrite <- (X i I). destruct (C1 b Bb) as [D1 _].
      assert (EE : forall i, i < K -> slot K g b i = slot K g' b i) by (intros ii I'; symmetry; apply A4; auto). symmetry. exact (proj2 (safe_ext from K pinned (val m) b (q b) D1 _ _ (val m) EE (or_intror (fun _ _ _ _ => eq_refl))) i ltac:(lia)). }
    destruct PH as [[L [P1 [P2 [P3 [P4 P5]]]]]|[NE PH]].
    + left. assert (s = 0) by (destruct s as [|s]; [reflexivity|rewrite (P3 (S s) ltac:(lia)) in AD; inversion AD]). subst s. exists L. split; [auto|]. split; [auto|]. split; [intros b Bb; rewrite set_other by lia; auto|]. rewrite set_same, SA, P5, app_nil_r.
      inversion AD as [kk ops E|? ? ? ? ? ? E|? ? ? E|? ? E|? ? ? ? ? ? E|? ? ? E]; subst; rewrite <- E in P4; cbn in P4; try discriminate; auto.
    + right. split; [auto|]. destruct PH as [PH|[PH|[PH|[PH|PH]]]].
      * left. destruct PH as [b [o [j [L [P1 [P2 [P3 P4]]]]]]]. exists b, o, j, L. split; [auto|]. split; [auto|]. split; [auto|]. intros X c Cc. auto.
      * right. left. destruct PH as [b [o [kk [j [L [P0 [P1 [P2 [P3 [P4 [P5 [P6 [P7 P8]]]]]]]]]]]]]. exists b, o, kk, j, L. repeat (split; [assumption|]). split; [destruct (Nat.eq_dec b s) as [->|N]; [rewrite set_same; auto|rewrite set_other by auto; auto]|]. split; [auto|]. auto.
      * right. right. left. destruct PH as [b [o [kk [L [P0 [P1 [P2 [P3 [P4 [P5 [P6 P7]]]]]]]]]]]. exists b, o, kk, L. repeat (split; [assumption|]). split; [auto|]. split; [destruct (Nat.eq_dec b s) as [->|N]; [rewrite set_same; auto|rewrite set_other by auto; auto]|]. auto.
      * right. right. right. left. destruct PH as [b [o [kk [L [P1 [P2 [P3 [P4 [P5 P6]]]]]]]]]. exists b, o, kk, L. repeat (split; [assumption|]). split; [auto|]. auto.
      * right. right. right. right. destruct PH as [j [P1 [P2 P3]]]. exists j. split; [auto|]. split; [auto|]. intros b Bb. rewrite set_other; [auto|]. intros ->. rewrite (P3 s Bb) in AD. inversion AD.
Qed.

Lemma common_tail i h q g m r f l : Common (i :: h) q g m r f l -> (match i with Enqueue _ _ => False | _ => True end) -> Common h q g m r f l.
Proof. intros [C1 [C2 [C3 [C4 [C5 C6]]]]] I. split; [auto|]. split; [auto|]. split; [auto|]. split; [auto|]. split; [destruct i; cbn in C5; try exact C5; destruct I|]. intros s op X. apply (C6 s op). now right. Qed.
Lemma common_enqueue b op h q g m r f l : Common (Enqueue b op :: h) q g m r f l -> op_ok K pinned b op -> safe from (val m) [op] (run (val m) (q b) (slot K g b)) -> Common h (set q b (q b ++ [op])) g m (counted op r) f l.
Proof.
  intros [C1 [C2 [C3 [C4 [C5 C6]]]]] O SF. assert (B : b < nb) by (apply (C6 b op); now left). split; [|split; [|split; [|split; [auto|split]]]].
  - intros c Cc. destruct (Nat.eq_dec c b) as [->|N]; [|rewrite set_other by auto; auto]. rewrite set_same. destruct (C1 b B) as [D1 D2]. split; [apply Forall_app; split; [auto|constructor; auto]|]. apply safe_app. auto.
  - intros c Cc. rewrite set_other by lia. auto.
  - intros c. specialize (C3 c). destruct (Nat.eq_dec c b) as [->|N].
    + rewrite set_same, records_app. destruct op; cbn [counted is_record]; try lia. cbn in O. subst e. rewrite set_same. lia.
    + rewrite set_other by auto. destruct op; cbn [counted]; try lia. cbn in O. subst e. rewrite set_other by auto. auto.
  - destruct (pends_set q b B) as [rest [R1 R2]]. rewrite R2. rewrite R1 in C5. rewrite <- C5. cbn [host_pend flat_map]. unfold pend at 1. rewrite flat_map_app. cbn [flat_map]. rewrite app_nil_r. fold (pend (q b)). apply Permutation_app_head. rewrite <- !app_assoc. apply Permutation_app_head. rewrite !app_assoc. apply Permutation_app_tail. apply Permutation_app_comm.
  - intros s o X. apply (C6 s o). now right.
Qed.
Lemma in_seq_exists i k : i < k -> existsb (Nat.eqb i) (seq 0 k) = true.
Proof. intros I. apply existsb_exists. exists i. split; [apply in_seq; lia|apply Nat.eqb_refl]. Qed.
Lemma set_early q b op : existsb is_earlier (q 0) = false -> is_earlier op = false -> existsb is_earlier (set q b (q b ++ [op]) 0) = false.
Proof. intros X Y. destruct (Nat.eq_dec 0 b) as [<-|N]; [rewrite set_same, existsb_app, X; cbn; now rewrite Y|rewrite set_other by auto; auto]. Qed.

(* steps of the host *)
Lemma host_ok i h q g m r f l s' : Inv (mkState (i :: h) q g m r f l) -> match i with
    | Sync s => q s = [] /\ s' = mkState h q g m r f l
    | Wait e => r e = f e /\ s' = mkState h q g m r f l
    | Put a p => s' = mkState h q g (set m a (from p)) r f l
    | Enqueue s op => s' = mkState h (set q s (q s ++ [op])) g m (counted op r) f l end -> Inv s'.
Proof.
  intros [C PH] ST. cbn [host queue gpu staging recorded finished log] in *. destruct PH as [[L [P1 [P2 [P3 [P4 P5]]]]]|[NE PH]].
  - injection P1 as -> ->. destruct ST as [Q0 ->]. split; [apply (common_tail _ _ _ _ _ _ _ _ C Logic.I)|]. cbn [host queue gpu staging log]. apply mk_loop; auto; [unfold kNumBatches; lia|rewrite Q0; reflexivity|]. intros _ c Cc. destruct c as [|c]; [rewrite Q0; exact Logic.I|rewrite P3 by lia; exact Logic.I].
  - destruct PH as [PH|[PH|[PH|[PH|PH]]]].
    + destruct PH as [b [o [k [L [P1 [P2 [P3 P4]]]]]]]. rewrite loop_cons in P2. assert (SL : sizes L) by (intros x y I; apply (P3 x y); now right). assert (KK : k <= K) by (apply (P3 o k); now left). destruct pinned eqn:PI.
      * injection P2 as -> ->. destruct ST as [Q0 ->]. split; [apply (common_tail _ _ _ _ _ _ _ _ C Logic.I)|]. cbn [host queue gpu staging log]. right. split; [auto|]. right. left. exists b, o, k, 0, L. repeat (split; [auto; lia|]). split; [|split; [intros; lia|auto]].
        apply covered_none; [auto|]. destruct C as [_ [_ [C3 _]]]. specialize (C3 b). lia.
      * unfold tl_copy in P2. injection P2 as -> ->. rewrite PI in *. subst s'. split; cbn [host queue gpu staging recorded finished log].
        -- apply (common_enqueue _ _ _ _ _ _ _ _ _ C); [|exact Logic.I]. cbn. split; [auto|]. split; [auto|]. intros i I. apply in_seq in I. lia.
        -- right. split; [apply set_early; auto|]. right. right. right. left. exists b, o, k, L. do 4 (split; [auto|]). split; [|intros; congruence]. intros i I. rewrite set_same, run_app. cbn [run over]. unfold over. rewrite in_seq_exists by auto. reflexivity.
    + destruct PH as [b [o [k [j [L [P0 [P1 [P2 [P3 [P4 [P5 [P6 [P7 P8]]]]]]]]]]]]]. destruct (lt_dec j k) as [J|J].
      * unfold puts in P4. replace (k - j) with (S (k - S j)) in P4 by lia. cbn [seq map app] in P4. injection P4 as -> ->. subst s'. apply common_tail in C; [|exact Logic.I]. split; cbn [host queue gpu staging recorded finished log].
        -- destruct C as [C1 C2]. split; [|exact C2]. intros c Cc. destruct (C1 c Cc) as [D1 D2]. split; [auto|]. refine (proj1 (safe_ext from K pinned (val m) c (q c) D1 _ _ (val (set m (K * b + j) (from (o + j)))) (fun _ _ => eq_refl) _) D2).
           destruct (Nat.eq_dec c b) as [->|N]; [auto|right]. intros [x|a] i SO I; [reflexivity|]. destruct SO as [-> _]. cbn [value]. rewrite set_other; [reflexivity|]. nia.
        -- right. split; [auto|]. right. left. exists b, o, k, (S j), L. split; [auto|]. split; [auto|]. split; [lia|]. split; [auto|]. split; [reflexivity|]. split; [auto|]. split; [auto|]. split; [|auto]. intros i I. destruct (Nat.eq_dec i j) as [->|N]; [now rewrite set_same|]. rewrite set_other by lia. apply P7. lia.
      * assert (j = k) by lia. subst j. unfold puts, tl_copy in P4. rewrite Nat.sub_diag in P4. cbn [seq map app] in P4. rewrite P0 in P4. injection P4 as -> ->. subst s'. split; cbn [host queue gpu staging recorded finished log].
        -- apply (common_enqueue _ _ _ _ _ _ _ _ _ C); [|exact Logic.I]. cbn. split; [auto|]. split; [auto|]. intros i I. apply in_seq in I. lia.
        -- right. split; [apply set_early; auto|]. right. right. left. exists b, o, k, L. do 5 (split; [auto|]). split; [|split].
           ++ intros i I. rewrite set_same, run_app. cbn [run]. unfold over. rewrite in_seq_exists by auto. cbn [value]. auto.
           ++ rewrite set_same. eapply (@covered_copy A); auto.
           ++ intros c Cc N. rewrite set_other by auto. auto.
    + destruct PH as [b [o [k [L [P0 [P1 [P2 [P3 [P4 [P5 [P6 P7]]]]]]]]]]]. unfold tl_rec in P3. injection P3 as -> ->. subst s'. split; cbn [host queue gpu staging recorded finished log].
      * apply (common_enqueue _ _ _ _ _ _ _ _ _ C); [reflexivity|exact Logic.I].
      * right. split; [apply set_early; auto|]. right. right. right. left. exists b, o, k, L. do 4 (split; [auto|]). split; [intros i I; rewrite set_same, run_app; cbn [run]; auto|]. intros _ c Cc. destruct (Nat.eq_dec c b) as [->|N]; [rewrite set_same; auto|rewrite set_other by auto; auto].
    + destruct PH as [b [o [k [L [P1 [P2 [P3 [P4 [P5 P6]]]]]]]]]. unfold tl_ker in P3. injection P3 as -> ->. subst s'. split; cbn [host queue gpu staging recorded finished log].
      * apply (common_enqueue _ _ _ _ _ _ _ _ _ C); [split; [reflexivity|]; intros i I; apply in_seq in I; lia|]. cbn [safe]. split; [|exact Logic.I]. intros i I. apply in_seq in I. apply P5. lia.
      * apply mk_loop; auto; [exact (Nat.mod_upper_bound (b + 1) nb (Nat.neq_succ_0 1))|apply set_early; auto|]. intros PI c Cc. destruct (Nat.eq_dec c b) as [->|N]; [rewrite set_same; apply covered_app; auto|rewrite set_other by auto; auto].
    + destruct PH as [j [P1 [P2 P3]]]. destruct (Nat.eq_dec j nb) as [->|N]; [unfold fin in P2; rewrite Nat.sub_diag in P2; discriminate|]. unfold fin in P2. replace (nb - j) with (S (nb - S j)) in P2 by lia. cbn [seq map] in P2. injection P2 as -> ->. destruct ST as [Q0 ->].
      split; [apply (common_tail _ _ _ _ _ _ _ _ C Logic.I)|]. cbn [host queue gpu staging log]. right. split; [auto|]. right. right. right. right. exists (S j). split; [lia|]. split; [reflexivity|]. intros b Bb. destruct (Nat.eq_dec b j) as [->|M]; [auto|apply P3; lia].
Qed.
Definition measure (s : State A) : nat := host_weight (host s) + weights (queue s).
Lemma step_ok s s' : Inv s -> step from s s' -> Inv s' /\ measure s' < measure s.
Proof.
  intros I ST. destruct s as [h q g m r f l]. destruct (step_dev _ _ _ _ _ _ _ _ _ ST) as [[i [h' [-> X]]]|[b [q' [g' [ev [k [e [AD [EV ->]]]]]]]]].
  - split; [exact (host_ok _ _ _ _ _ _ _ _ _ I X)|]. destruct I as [[_ [_ [_ [_ [_ C6]]]]] _]. destruct i as [s|e|a p|s op]; [destruct X as [_ ->]|destruct X as [_ ->]|subst s'|subst s']; unfold measure, host_weight; cbn [host queue map list_sum fold_right]; try lia.
    destruct (weights_set q s (C6 s op (or_introl eq_refl))) as [rest [W1 W2]]. rewrite W1, W2. unfold weight at 1. rewrite map_app, list_sum_app. fold (weight (q s)). cbn [map list_sum fold_right]. lia.
  - destruct (dev_ok _ _ _ _ _ _ _ _ _ _ _ _ _ I AD EV) as [I' [B W]]. split; [exact I'|]. unfold measure. cbn [host queue]. destruct (weights_set q b B) as [rest [W1 W2]]. rewrite W1, W2. lia.
Qed.
Lemma stuck s : Inv s -> host s <> [] -> exists s', step from s s'.
Proof.
  intros [C PH] H. destruct s as [h q g m r f l]. cbn [host queue gpu staging recorded finished log] in *. destruct C as [C1 [C2 [C3 _]]].
  assert (D : (exists s op ops, q s = op :: ops) \/ forall s, q s = []).
  { destruct (q 0) as [|x y] eqn:E0; [|left; eauto]. destruct (q 1) as [|x y] eqn:E1; [|left; eauto]. right. intros [|[|s]]; auto. apply C2. unfold kNumBatches. lia. }
  destruct D as [[s [op [ops E]]]|D]; [exact (dev_some from h q g m r f l s op ops E)|]. destruct h as [|i h]; [congruence|]. destruct i as [s|e|a p|s op].
  - eexists. apply host_sync. auto.
  - eexists. apply host_wait. rewrite (C3 e), D. cbn. lia.
  - eexists. apply host_put.
  - eexists. apply host_enqueue.
Qed.
Lemma done s : Inv s -> host s = [] -> idle s /\ Permutation (map fst (seen (log s))) (seq 0 n).
Proof.
  intros [C PH] H. destruct s as [h q g m r f l]. cbn [host queue gpu staging recorded finished log] in *. subst h. destruct C as [C1 [C2 [C3 [_ [C5 _]]]]].
  assert (Q : forall b, q b = []).
  { destruct PH as [[L [P1 _]]|[NE PH]]; [discriminate|]. destruct PH as [PH|[PH|[PH|[PH|PH]]]].
    - destruct PH as [b [o [k [L [P1 [P2 _]]]]]]. rewrite loop_cons in P2. unfold tl_copy in P2. destruct pinned; discriminate.
    - destruct PH as [b [o [k [j [L [P0 [P1 [P2 [P3 [P4 _]]]]]]]]]]. unfold tl_copy in P4. destruct (puts b o j k); discriminate.
    - destruct PH as [b [o [k [L [P0 [P1 [P2 [P3 _]]]]]]]]. discriminate.
    - destruct PH as [b [o [k [L [P1 [P2 [P3 _]]]]]]]. discriminate.
    - destruct PH as [j [P1 [P2 P3]]]. destruct (Nat.eq_dec j nb) as [->|N]; [intros b; destruct (lt_dec b nb); [auto|apply C2; lia]|]. unfold fin in P2. replace (nb - j) with (S (nb - S j)) in P2 by lia. discriminate. }
  split; [split; [exact Q|intros e; cbn; rewrite (C3 e), Q; cbn; lia]|]. rewrite <- C5. unfold pends. rewrite (flat_map_ext _ (fun _ => [])) by (intros b; now rewrite Q). cbn. now rewrite app_nil_r.
Qed.
Lemma not_early s : Inv s -> seen (log s) <> [] -> existsb is_earlier (queue s 0) = false.
Proof. intros [_ [[L [_ [_ [_ [_ P]]]]]|[NE _]]] H; [congruence|auto]. Qed.
End Stream.
