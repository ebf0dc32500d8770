(* Proofs for C87. *)
From Coq Require Import List Arith ZArith Bool Lia.
From Verif Require Import ExsModel ExsSpec.
Import ListNotations.
Open Scope Z_scope.

(* ---------------- lists ---------------- *)
Lemma sum_app a b : sum (a ++ b) = sum a + sum b.
Proof. induction a as [|x a IH]; cbn [app sum fold_right]; [reflexivity|]. unfold sum in *. lia. Qed.
Lemma sum_set {X} (f : X -> Z) y : forall l i x, nth_error l i = Some x -> sum (map f (set_at i y l)) = sum (map f l) - f x + f y.
Proof.
  unfold sum. induction l as [|z l IH]; intros i x H; [destruct i; discriminate|]. destruct i as [|i]; cbn [nth_error set_at map fold_right] in *; [injection H as <-; lia|]. rewrite (IH _ _ H). lia.
Qed.
Lemma nth_set_same {X} (y : X) : forall l i x, nth_error l i = Some x -> nth_error (set_at i y l) i = Some y.
Proof. induction l as [|z l IH]; intros i x H; [destruct i; discriminate|]. destruct i as [|i]; cbn [nth_error set_at] in *; [reflexivity|exact (IH _ _ H)]. Qed.
Lemma nth_set_other {X} (y : X) : forall l i j, i <> j -> nth_error (set_at i y l) j = nth_error l j.
Proof. induction l as [|z l IH]; intros i j H; [destruct i; reflexivity|]. destruct i as [|i], j as [|j]; cbn [nth_error set_at]; try reflexivity; [congruence|]. apply IH. congruence. Qed.
Lemma value_put m n v k : value (put m n v) k = if (k =? n)%nat then v else value m k.
Proof. unfold value, put. destruct (k =? n)%nat; reflexivity. Qed.

(* ---------------- what is still to come ---------------- *)
Fixpoint rem (w : nat -> Z -> Z) (l : list Op) (ts : list (nat * Z)) : Z :=
  match l with
  | [] => 0
  | Construct n now :: r => rem w r ((n, now) :: ts)
  | Destroy now :: r => match ts with [] => rem w r [] | (n, s) :: ts' => w n (now - s) + rem w r ts' end
  end.
Fixpoint weight (w : nat -> Z -> Z) (s : Scope) : Z :=
  match s with scope n a b body => w n (b - a) + sum (map (weight w) body) end.
Section Ind.
Variable P : Scope -> Prop.
Hypothesis H : forall n a b body, Forall P body -> P (scope n a b body).
Fixpoint scope_rect' (s : Scope) : P s :=
  match s with scope n a b body => H n a b body ((fix go (l : list Scope) : Forall P l := match l with [] => Forall_nil P | x :: r => Forall_cons x (scope_rect' x) (go r) end) body) end.
End Ind.
Lemma rem_codes w l : Forall (fun s => forall r ts, rem w (code s ++ r) ts = weight w s + rem w r ts) l -> forall r ts, rem w (flat_map code l ++ r) ts = sum (map (weight w) l) + rem w r ts.
Proof.
  induction 1 as [|s l Hs F IH]; intros r ts; [reflexivity|]. cbn [flat_map map]. rewrite <- app_assoc, Hs, IH. unfold sum. cbn [fold_right]. lia.
Qed.
Lemma rem_code w s : forall r ts, rem w (code s ++ r) ts = weight w s + rem w r ts.
Proof.
  induction s as [n a b body F] using scope_rect'. intros r ts. cbn [code app rem weight]. rewrite <- app_assoc. rewrite (rem_codes w body F). cbn [app rem]. lia.
Qed.
Lemma rem_start w l : rem w (flat_map code l) [] = sum (map (weight w) l).
Proof. rewrite <- (app_nil_r (flat_map code l)), rem_codes; [cbn [rem]; lia|]. apply Forall_forall. intros s _. apply rem_code. Qed.
Definition wT (n m : nat) (d : Z) : Z := if (m =? n)%nat then d else 0.
Definition wC (n m : nat) (d : Z) : Z := if (m =? n)%nat then 1 else 0.
Lemma weight_duration n s : weight (wT n) s = duration n s.
Proof. induction s as [m a b body F] using scope_rect'. cbn [weight duration]. unfold wT at 1. do 2 f_equal. induction F as [|x l Hx F IH]; [reflexivity|]. cbn [map]. rewrite Hx, IH. reflexivity. Qed.
Lemma weight_count n s : weight (wC n) s = count n s.
Proof. induction s as [m a b body F] using scope_rect'. cbn [weight count]. unfold wC at 1. do 2 f_equal. induction F as [|x l Hx F IH]; [reflexivity|]. cbn [map]. rewrite Hx, IH. reflexivity. Qed.
Definition pcT (n : nat) (p : Pc) : Z := match p with Lock m d | Find m d | LoadTime m d | StoreTime m d _ => wT n m d | _ => 0 end.
Definition pcC (n : nat) (p : Pc) : Z := match p with Lock m _ | Find m _ | LoadTime m _ | StoreTime m _ _ | LoadCalls m | StoreCalls m _ => wC n m 0 | _ => 0 end.
Definition owedT (n : nat) (t : Thread) : Z := pcT n (pc t) + rem (wT n) (ops t) (timers t).
Definition owedC (n : nat) (t : Thread) : Z := pcC n (pc t) + rem (wC n) (ops t) (timers t).

(* ---------------- the invariant ---------------- *)
Definition critical (p : Pc) : bool := match p with Outside | Lock _ _ => false | _ => true end.
Definition fresh (n : nat) (p : Pc) : Prop := match p with LoadTime m _ | StoreTime m _ _ | LoadCalls m | StoreCalls m _ => m = n | _ => False end.
Definition local (m : nat -> option CallStatistics) (p : Pc) : Prop :=
  match p with StoreTime n _ v => v = fst (value m n) | StoreCalls n v => v = snd (value m n) | _ => True end.
Record inv (T C : nat -> Z) (s : State) : Prop := {
  i_time : forall n, fst (value (statistics s) n) + sum (map (owedT n) (threads s)) = T n;
  i_calls : forall n, snd (value (statistics s) n) + sum (map (owedC n) (threads s)) = C n;
  i_mutex : forall j t, nth_error (threads s) j = Some t -> (critical (pc t) = true <-> mutex s = Some j);
  i_holder : forall j, mutex s = Some j -> exists t, nth_error (threads s) j = Some t;
  i_local : forall j t, nth_error (threads s) j = Some t -> local (statistics s) (pc t);
  i_nonneg : forall n, 0 <= snd (value (statistics s) n);
  i_present : forall n v, statistics s n = Some v -> 0 < snd v \/ exists j t, nth_error (threads s) j = Some t /\ fresh n (pc t) }.

Lemma inv_start work : inv (fun n => all_duration n work) (fun n => all_count n work) (start work).
Proof.
  constructor; cbn [start statistics threads mutex]; try (intros; discriminate).
  - intro n. unfold value, all_duration. cbn [fst]. rewrite map_map, Z.add_0_l. f_equal. apply map_ext. intro l. unfold owedT. cbn [pc pcT ops timers]. rewrite rem_start, Z.add_0_l. f_equal. apply map_ext. intro s. apply weight_duration.
  - intro n. unfold value, all_count. cbn [snd]. rewrite map_map, Z.add_0_l. f_equal. apply map_ext. intro l. unfold owedC. cbn [pc pcC ops timers]. rewrite rem_start, Z.add_0_l. f_equal. apply map_ext. intro s. apply weight_count.
  - intros j t H. apply nth_error_In, in_map_iff in H. destruct H as [l [<- _]]. cbn. split; discriminate.
  - intros j t H. apply nth_error_In, in_map_iff in H. destruct H as [l [<- _]]. exact I.
Qed.

(* what a step of thread i has to provide *)
Lemma inv_move T C s i t mu m t' : inv T C s -> nth_error (threads s) i = Some t ->
  (forall n, fst (value m n) + owedT n t' = fst (value (statistics s) n) + owedT n t) ->
  (forall n, snd (value m n) + owedC n t' = snd (value (statistics s) n) + owedC n t) ->
  (mu = mutex s /\ critical (pc t') = critical (pc t) \/ mutex s = None /\ mu = Some i /\ critical (pc t') = true \/ mutex s = Some i /\ mu = None /\ critical (pc t') = false) ->
  local m (pc t') -> (m = statistics s \/ critical (pc t) = true) ->
  (forall n, 0 <= snd (value m n)) ->
  (forall n v, m n = Some v -> 0 < snd v \/ fresh n (pc t') \/ m n = statistics s n /\ ~ fresh n (pc t)) ->
  inv T C (mkState mu m (set_at i t' (threads s))).
Proof.
  intros [H1 H2 H3 H3' H4 H5 H6] Ht ET EC Hmu Hl Hm Hn Hp. constructor; cbn [statistics threads mutex].
  - intro n. rewrite (sum_set (owedT n) t' _ _ _ Ht). pose proof (H1 n). pose proof (ET n). lia.
  - intro n. rewrite (sum_set (owedC n) t' _ _ _ Ht). pose proof (H2 n). pose proof (EC n). lia.
  - intros j u Hu. destruct (Nat.eq_dec i j) as [<-|Ne].
    + rewrite (nth_set_same t' _ _ _ Ht) in Hu. injection Hu as <-. pose proof (H3 i t Ht) as Hi. destruct Hmu as [[-> E]|[[E1 [-> E2]]|[E1 [-> E2]]]]; [rewrite E; exact Hi|rewrite E2; split; reflexivity|rewrite E2; split; discriminate].
    + rewrite (nth_set_other t' _ _ _ Ne) in Hu. pose proof (H3 j u Hu) as Hj. destruct Hmu as [[-> _]|[[E1 [-> _]]|[E1 [-> _]]]]; [exact Hj| |].
      * rewrite E1 in Hj. split; [intro K; apply Hj in K; discriminate|intro K; injection K as K; congruence].
      * rewrite E1 in Hj. split; [intro K; apply Hj in K; injection K as K; congruence|discriminate].
  - intros j Hj. destruct (Nat.eq_dec i j) as [<-|Ne]; [exists t'; exact (nth_set_same t' _ _ _ Ht)|]. rewrite (nth_set_other t' _ _ _ Ne). destruct Hmu as [[-> _]|[[_ [-> _]]|[_ [-> _]]]]; [exact (H3' j Hj)|injection Hj as Hj; congruence|discriminate].
  - intros j u Hu. destruct (Nat.eq_dec i j) as [<-|Ne]; [rewrite (nth_set_same t' _ _ _ Ht) in Hu; injection Hu as <-; exact Hl|]. rewrite (nth_set_other t' _ _ _ Ne) in Hu.
    destruct Hm as [->|Hc]; [exact (H4 j u Hu)|]. apply (H3 i t Ht) in Hc. pose proof (H3 j u Hu) as Hj. rewrite Hc in Hj. destruct (pc u); try exact I; exfalso; assert (Some i = Some j) as K by (apply Hj; reflexivity); injection K as K; congruence.
  - exact Hn.
  - intros n v Hv. destruct (Hp n v Hv) as [L|[Fr|[E NF]]]; [left; exact L|right; exists i, t'; split; [exact (nth_set_same t' _ _ _ Ht)|exact Fr]|]. rewrite E in Hv. destruct (H6 n v Hv) as [L|[j [u [Hu Fr]]]]; [left; exact L|]. right. destruct (Nat.eq_dec i j) as [<-|Ne]; [rewrite Ht in Hu; injection Hu as <-; contradiction|]. exists j, u. split; [rewrite (nth_set_other t' _ _ _ Ne); exact Hu|exact Fr].
Qed.
Lemma put_nonneg m n v : (forall k, 0 <= snd (value m k)) -> 0 <= snd v -> forall k, 0 <= snd (value (put m n v) k).
Proof. intros H Hv k. rewrite value_put. destruct (k =? n)%nat; [exact Hv|apply H]. Qed.
Lemma step_inv T C i s s' : inv T C s -> step i s = Some s' -> inv T C s'.
Proof.
  intros I H. unfold step in H. destruct (nth_error (threads s) i) as [t|] eqn:Ht; [|discriminate]. destruct (thread_step i (mutex s) (statistics s) t) as [[[mu m] t']|] eqn:E; [|discriminate]. injection H as <-.
  pose proof (i_mutex _ _ _ I i t Ht) as Hmx. pose proof (i_local _ _ _ I i t Ht) as Hlo. pose proof (i_nonneg _ _ _ I) as Hnn.
  unfold thread_step in E. destruct (pc t) as [|n d|n d|n d|n d v|n|n v|] eqn:P.
  - destruct (ops t) as [|[n now|now] r] eqn:O; [discriminate| |].
    + injection E as <- <- <-. apply (inv_move T C s i t); try exact I; try exact Ht; cbn [pc]; rewrite ?P; auto; intro k; unfold owedT, owedC; rewrite P, O; cbn [pc ops timers rem]; reflexivity.
    + destruct (timers t) as [|[n st] ts] eqn:Q; injection E as <- <- <-; (apply (inv_move T C s i t); try exact I; try exact Ht; cbn [pc]; rewrite ?P; auto); intro k; unfold owedT, owedC; rewrite P, O, Q; cbn [pc ops timers rem pcT pcC]; unfold wC; lia.
  - destruct (mutex s) as [|] eqn:Mu; [discriminate|]. injection E as <- <- <-. apply (inv_move T C s i t); try exact I; try exact Ht; cbn [pc]; rewrite ?P; auto; intro k; unfold owedT, owedC; rewrite P; reflexivity.
  - injection E as <- <- <-. apply (inv_move T C s i t); try exact I; try exact Ht; cbn [pc]; rewrite ?P; auto.
    + intro k. unfold owedT. rewrite P, value_put. cbn [pc ops timers pcT]. destruct (Nat.eqb_spec k n) as [->|]; reflexivity.
    + intro k. unfold owedC. rewrite P, value_put. cbn [pc ops timers pcC]. destruct (Nat.eqb_spec k n) as [->|]; reflexivity.
    + apply put_nonneg; auto.
    + intros k w Hw. unfold put in *. cbn [fresh]. destruct (Nat.eqb_spec k n) as [->|]; auto.
  - injection E as <- <- <-. apply (inv_move T C s i t); try exact I; try exact Ht; cbn [pc]; rewrite ?P; auto; try (intro k; unfold owedT, owedC; rewrite P; reflexivity); try reflexivity.
    intros k w Hw. cbn [fresh]. destruct (Nat.eq_dec n k) as [->|]; auto.
  - injection E as <- <- <-. cbn [local] in Hlo. apply (inv_move T C s i t); try exact I; try exact Ht; cbn [pc]; rewrite ?P; auto.
    + intro k. unfold owedT. rewrite P, value_put. cbn [pc ops timers pcT]. unfold wT at 2. rewrite (Nat.eqb_sym n k). destruct (Nat.eqb_spec k n) as [->|]; cbn [fst]; lia.
    + intro k. unfold owedC. rewrite P, value_put. cbn [pc ops timers pcC]. destruct (Nat.eqb_spec k n) as [->|]; reflexivity.
    + exact Logic.I.
    + apply put_nonneg; [exact Hnn|]. cbn [snd]. apply Hnn.
    + intros k w Hw. unfold put in *. cbn [fresh]. destruct (Nat.eqb_spec k n) as [->|]; auto.
  - injection E as <- <- <-. apply (inv_move T C s i t); try exact I; try exact Ht; cbn [pc]; rewrite ?P; auto; try (intro k; unfold owedT, owedC; rewrite P; reflexivity); try reflexivity.
    intros k w Hw. cbn [fresh]. destruct (Nat.eq_dec n k) as [->|]; auto.
  - injection E as <- <- <-. cbn [local] in Hlo. pose proof (Hnn n) as Hn. apply (inv_move T C s i t); try exact I; try exact Ht; cbn [pc]; rewrite ?P; auto.
    + intro k. unfold owedT. rewrite P, value_put. cbn [pc ops timers pcT]. destruct (Nat.eqb_spec k n) as [->|]; reflexivity.
    + intro k. unfold owedC. rewrite P, value_put. cbn [pc ops timers pcC]. unfold wC at 2. rewrite (Nat.eqb_sym n k). destruct (Nat.eqb_spec k n) as [->|]; cbn [snd]; lia.
    + exact Logic.I.
    + apply put_nonneg; [exact Hnn|]. cbn [snd]. lia.
    + intros k w Hw. unfold put in *. cbn [fresh]. destruct (Nat.eqb_spec k n) as [->|Ne]; [injection Hw as <-; left; cbn [snd]; lia|]. right. right. split; [reflexivity|congruence].
  - injection E as <- <- <-. apply (inv_move T C s i t); try exact I; try exact Ht; cbn [pc]; rewrite ?P; auto; try (intro k; unfold owedT, owedC; rewrite P; reflexivity); try exact Logic.I. right. right. split; [apply Hmx; reflexivity|split; reflexivity].
Qed.
Lemma run_inv T C l : forall s, inv T C s -> inv T C (run l s).
Proof. induction l as [|i l IH]; intros s I; [exact I|]. cbn [run]. apply IH. destruct (step i s) as [s'|] eqn:E; [exact (step_inv T C i s s' I E)|exact I]. Qed.

(* ---------------- the end, and that it comes ---------------- *)
Lemma inv_end T C s n : inv T C s -> finished s -> statistics s n = if C n =? 0 then None else Some (T n, C n).
Proof.
  intros I F. assert (forall f : Thread -> Z, (forall t, ops t = [] -> pc t = Outside -> f t = 0) -> sum (map f (threads s)) = 0) as Z0.
  { intros f Hf. unfold finished in F. induction F as [|t l [Ho Hp] F IH]; [reflexivity|]. unfold sum in *. cbn [map fold_right]. rewrite (Hf t Ho Hp). lia. }
  pose proof (i_time _ _ _ I n) as HT. pose proof (i_calls _ _ _ I n) as HC.
  rewrite (Z0 (owedT n)) in HT by (intros t Ho Hp; unfold owedT; rewrite Ho, Hp; reflexivity). rewrite (Z0 (owedC n)) in HC by (intros t Ho Hp; unfold owedC; rewrite Ho, Hp; reflexivity).
  unfold value in HT, HC. destruct (statistics s n) as [[a b]|] eqn:E; cbn [fst snd] in HT, HC.
  - destruct (i_present _ _ _ I n _ E) as [L|[j [t [Ht Fr]]]]; [cbn [snd] in L; destruct (Z.eqb_spec (C n) 0); [lia|]; do 2 f_equal; lia|].
    apply nth_error_In in Ht. unfold finished in F. rewrite Forall_forall in F. destruct (F t Ht) as [_ Hp]. rewrite Hp in Fr. destruct Fr.
  - destruct (Z.eqb_spec (C n) 0); [reflexivity|lia].
Qed.
Definition left_pc (p : Pc) : nat := match p with Outside => 0 | Lock _ _ => 7 | Find _ _ => 6 | LoadTime _ _ => 5 | StoreTime _ _ _ => 4 | LoadCalls _ => 3 | StoreCalls _ _ => 2 | Unlock => 1 end.
Definition steps_left (s : State) : nat := list_sum (map (fun t => left_pc (pc t) + 8 * length (ops t))%nat (threads s)).
Lemma lsum_set {X} (f : X -> nat) y : forall l i x, nth_error l i = Some x -> (f y < f x)%nat -> (list_sum (map f (set_at i y l)) < list_sum (map f l))%nat.
Proof.
  unfold list_sum. induction l as [|z l IH]; intros i x H L; [destruct i; discriminate|]. destruct i as [|i]; cbn [nth_error set_at map fold_right] in *; [injection H as ->; lia|]. pose proof (IH _ _ H L). lia.
Qed.
Lemma step_less i s s' : step i s = Some s' -> (steps_left s' < steps_left s)%nat.
Proof.
  unfold step. destruct (nth_error (threads s) i) as [t|] eqn:Ht; [|discriminate]. destruct (thread_step i (mutex s) (statistics s) t) as [[[mu m] t']|] eqn:E; [|discriminate]. intro H. injection H as <-.
  unfold steps_left. cbn [threads]. apply (lsum_set _ t' _ _ t Ht). unfold thread_step in E. destruct (pc t) as [|n d|n d|n d|n d v|n|n v|].
  - destruct (ops t) as [|[n now|now] r]; [discriminate| |]; [injection E as <- <- <-; cbn [pc ops left_pc length]; lia|]. destruct (timers t) as [|[n st] ts]; injection E as <- <- <-; cbn [pc ops left_pc length]; lia.
  - destruct (mutex s); [discriminate|]. injection E as <- <- <-. cbn [pc ops left_pc]. lia.
  - injection E as <- <- <-. cbn [pc ops left_pc]. lia.
  - injection E as <- <- <-. cbn [pc ops left_pc]. lia.
  - injection E as <- <- <-. cbn [pc ops left_pc]. lia.
  - injection E as <- <- <-. cbn [pc ops left_pc]. lia.
  - injection E as <- <- <-. cbn [pc ops left_pc]. lia.
  - injection E as <- <- <-. cbn [pc ops left_pc]. lia.
Qed.
Lemma progress T C s : inv T C s -> ~ finished s -> exists i s', step i s = Some s'.
Proof.
  intros I F.
  assert (forall i t, nth_error (threads s) i = Some t -> thread_step i (mutex s) (statistics s) t <> None -> exists i s', step i s = Some s') as K.
  { intros i t Ht H. exists i. unfold step. rewrite Ht. destruct (thread_step _ _ _ _) as [[[mu m] t']|]; [eexists; reflexivity|congruence]. }
  destruct (mutex s) as [j|] eqn:Mu.
  - destruct (i_holder _ _ _ I j Mu) as [t Ht]. apply (K j t Ht). pose proof (proj2 (i_mutex _ _ _ I j t Ht) Mu) as Cr. unfold thread_step. destruct (pc t); discriminate.
  - assert (exists i t, nth_error (threads s) i = Some t /\ ~ (ops t = [] /\ pc t = Outside)) as [i [t [Ht N]]].
    { unfold finished in F. revert F. generalize (threads s). intro l. induction l as [|t l IH]; intro F; [destruct F; constructor|].
      assert ({ops t = [] /\ pc t = Outside} + {~ (ops t = [] /\ pc t = Outside)}) as [Y|N].
      { destruct (ops t); [|right; intros [? _]; discriminate]. destruct (pc t); try (right; intros [_ ?]; discriminate). left; split; reflexivity. }
      - destruct IH as [i [u [Hu N]]]; [intro G; apply F; constructor; assumption|]. exists (S i), u. split; assumption.
      - exists 0%nat, t. split; [reflexivity|exact N]. }
    apply (K i t Ht). unfold thread_step. destruct (pc t) eqn:P; try discriminate. destruct (ops t) as [|[n now|now] r]; [exfalso; apply N; split; reflexivity|discriminate|destruct (timers t) as [|[n st] ts]; discriminate].
Qed.
