From Coq Require Import Reals ZArith Arith Bool Lia Lra.
From Verif Require Import SchurModel SchurProofs CGModel CGSpec CGProofs.
Open Scope R_scope.

(* ---------------- n + 1 vectors of R^n are dependent ---------------- *)
Definition skip (m j : nat) : nat := if (j <? m)%nat then j else S j.
Lemma sumn_skip m N f : (m <= N)%nat -> sumn (S N) f = sumn N (fun j => f (skip m j)) + f m.
Proof.
  intro Hm. replace (S N) with (m + (1 + (N - m)))%nat by lia. rewrite !sumn_split. replace N with (m + (N - m))%nat at 2 by lia. rewrite sumn_split.
  rewrite (sumn_ext m (fun j => f (skip m j)) f) by (intros j Hj; unfold skip; destruct (Nat.ltb_spec j m); [reflexivity|lia]).
  rewrite (sumn_ext (N - m) (fun i => f (skip m (m + i))) (fun i => f (m + (1 + i))%nat)) by (intros j Hj; unfold skip; destruct (Nat.ltb_spec (m + j) m); [lia|f_equal; lia]).
  cbn [sumn]. rewrite Nat.add_0_r. ring.
Qed.
Lemma find_nonzero (f : nat -> R) N : (forall j, (j < N)%nat -> f j = 0) \/ exists m, (m < N)%nat /\ f m <> 0.
Proof.
  induction N as [|N [IH|[m [H1 H2]]]]; [left; intros; lia| |right; exists m; split; [lia|exact H2]].
  destruct (Req_EM_T (f N) 0) as [E|E]; [left; intros j Hj; destruct (Nat.eq_dec j N) as [->|]; [exact E|apply IH; lia]|right; exists N; split; [lia|exact E]].
Qed.
Lemma dependent : forall n (v : nat -> vec), exists c : nat -> R, (exists j, (j <= n)%nat /\ c j <> 0) /\ forall i, (i < n)%nat -> sumn (S n) (fun j => c j * v j i) = 0.
Proof.
  induction n as [|n IH]; intro v.
  - exists (fun _ => 1). split; [exists 0%nat; split; [lia|lra]|intros; lia].
  - destruct (find_nonzero (fun j => v j n) (S (S n))) as [Z|[m [Hm Nm]]].
    + destruct (IH v) as [c [[j [Hj Nj]] E]]. exists (fun j => if (j <=? n)%nat then c j else 0). split; [exists j; split; [lia|]; destruct (Nat.leb_spec j n); [exact Nj|lia]|].
      intros i Hi. destruct (Nat.eq_dec i n) as [->|]; [apply sumn_zero; intros l Hl; rewrite (Z l) by lia; ring|].
      change (sumn (S (S n)) (fun j => (if (j <=? n)%nat then c j else 0) * v j i)) with (sumn (S n) (fun j => (if (j <=? n)%nat then c j else 0) * v j i) + (if (S n <=? n)%nat then c (S n) else 0) * v (S n) i).
      rewrite (sumn_ext (S n) _ (fun j => c j * v j i)) by (intros l Hl; destruct (Nat.leb_spec l n); [reflexivity|lia]). rewrite E by lia. destruct (Nat.leb_spec (S n) n); [lia|ring].
    + destruct (IH (fun j i => v (skip m j) i - v (skip m j) n / v m n * v m i)) as [c [[j [Hj Nj]] E]].
      set (s := sumn (S n) (fun j => c j * v (skip m j) n)).
      set (c' := fun l => if (l =? m)%nat then - s / v m n else if (l <? m)%nat then c l else c (l - 1)%nat).
      assert (forall j, c' (skip m j) = c j) as Ec.
      { intro l. unfold c', skip. destruct (Nat.ltb_spec l m) as [L|L]; [destruct (Nat.eqb_spec l m); [lia|]; destruct (Nat.ltb_spec l m); [reflexivity|lia]|].
        destruct (Nat.eqb_spec (S l) m); [lia|]. destruct (Nat.ltb_spec (S l) m); [lia|]. f_equal. lia. }
      exists c'. split; [exists (skip m j); split; [unfold skip; destruct (j <? m)%nat; lia|rewrite Ec; exact Nj]|].
      intros i Hi. rewrite (sumn_skip m (S n)) by lia. rewrite (sumn_ext (S n) _ (fun j => c j * v (skip m j) i)) by (intros l Hl; rewrite Ec; reflexivity).
      assert (c' m = - s / v m n) as -> by (unfold c'; rewrite Nat.eqb_refl; reflexivity).
      destruct (Nat.eq_dec i n) as [->|]; [fold s; field; exact Nm|].
      specialize (E i ltac:(lia)). cbv beta in E.
      rewrite (sumn_ext (S n) _ (fun j => c j * v (skip m j) i - c j * v (skip m j) n * (/ v m n * v m i))) in E by (intros; unfold Rdiv; ring).
      rewrite sumn_minus, sumn_scal_r in E. fold s in E. unfold Rdiv. lra.
Qed.

Section Finite.
Variables (n : nat) (A M : matrix) (b x0 : vec).
Notation ip := (inner n).
Hypothesis SA : symmetric n A.
Hypothesis SM : symmetric n M.
Lemma finite xs ps al rho : history n A M b x0 n xs ps al rho -> same n (res n A b (xs n)) (fun _ => 0).
Proof.
  intro H. destruct (conjugate n A M b x0 SA SM n xs ps al rho H) as [C1 [C2 _]]. set (r := res n A b (xs n)) in *.
  destruct (dependent n (fun j => if (j <? n)%nat then ps j else r)) as [c [[j [Hj Nj]] E]].
  assert (same n (fun i => sumn n (fun j => c j * ps j i) + c n * r i) (fun _ => 0)) as E'.
  { intros i Hi. specialize (E i Hi). cbn [sumn] in E. destruct (Nat.ltb_spec n n); [lia|]. rewrite <- E. f_equal. apply sumn_ext. intros l Hl. destruct (Nat.ltb_spec l n); [reflexivity|lia]. }
  assert (forall u, sumn n (fun j => c j * ip u (ps j)) + c n * ip u r = 0) as Ei.
  { intro u. rewrite <- (ip_zero_r n u), <- (ip_ext n u u _ _ (same_refl n u) E'), <- ip_sum.
    rewrite (ip_ext n u u (fun i => sumn n (fun j => c j * ps j i) + c n * r i) (Axpby 1 (fun i => sumn n (fun j => c j * ps j i)) (c n) r) (same_refl n u)) by (intros i Hi; unfold Axpby; ring). rewrite ip_r. ring. }
  destruct (Req_EM_T (c n) 0) as [Z|Nz].
  - exfalso. assert (j < n)%nat as Hj' by (destruct (Nat.eq_dec j n) as [->|]; [contradiction|lia]).
    specialize (Ei (apply n A (ps j))). rewrite Z, Rmult_0_l, Rplus_0_r in Ei. rewrite (sumn_single n _ j Hj') in Ei.
    + destruct (h_al _ _ _ _ _ _ _ _ _ _ H j Hj') as [P _]. rewrite ip_comm in P. apply Rmult_integral in Ei. destruct Ei as [Ei|Ei]; [contradiction|lra].
    + intros l Hl Nl. rewrite ip_comm. destruct (Nat.lt_trichotomy l j) as [L|[L|L]]; [rewrite C1 by lia; ring|contradiction|rewrite (apply_sym n A _ _ SA), C1 by lia; ring].
  - apply ip_null. specialize (Ei r). rewrite sumn_zero, Rplus_0_l in Ei by (intros l Hl; rewrite ip_comm; assert (ip (ps l) r = 0) as -> by (apply C2; lia); ring). apply Rmult_integral in Ei. destruct Ei as [Ei|Ei]; [contradiction|exact Ei].
Qed.
Lemma apply_zero (B : matrix) u : same n u (fun _ => 0) -> same n (apply n B u) (fun _ => 0).
Proof. intros H i Hi. apply sumn_zero. intros j Hj. rewrite (H j Hj). ring. Qed.
Lemma history_bounded k xs ps al rho : history n A M b x0 k xs ps al rho -> (k <= n)%nat.
Proof.
  intro H. destruct (Nat.le_gt_cases k n) as [L|L]; [exact L|exfalso]. pose proof (finite xs ps al rho (history_le n A M b x0 k n xs ps al rho ltac:(lia) H)) as Z.
  destruct (h_rho _ _ _ _ _ _ _ _ _ _ H n L) as [E N]. apply N. rewrite E, (ip_ext n _ _ _ _ Z (same_refl n _)), ip_comm. apply ip_zero_r.
Qed.

(* ---------------- the loop ---------------- *)
Variables (o : Options) (lhs preconditioner : Operator).
Hypothesis RA : represents n lhs A.
Hypothesis RM : represents n preconditioner M.
Hypothesis period : (residual_reset_period o <> 0)%Z.
Lemma apply_op op B x : represents n op B -> same n (op x Zero) (apply n B x).
Proof. intros Rp i Hi. apply Rp. exact Hi. Qed.
Lemma model_Q x r : same n r (res n A b x) -> - Dot n x (Axpby 1 b 1 r) = Q n A b x.
Proof.
  intro E. change (Dot n x (Axpby 1 b 1 r)) with (ip x (Axpby 1 b 1 r)). rewrite ip_r, (ip_ext n x x r (Axpby 1 b (-1) (apply n A x)) (same_refl n x)) by (eapply same_trans; [exact E|]; intros i Hi; unfold res, residual, Axpby; ring).
  rewrite ip_r. unfold Q. rewrite (ip_comm n b x). ring.
Qed.
Lemma norm_length u v : same n u v -> Norm n u = length_of n v.
Proof. intro E. unfold Norm, length_of. f_equal. apply (ip_ext n u v u v E E). Qed.
Lemma Q_ext x y : same n x y -> Q n A b x = Q n A b y.
Proof. intro E. unfold Q. rewrite (ip_ext n x y (apply n A x) (apply n A y) E) by (intros i Hi; apply apply_ext; exact E). rewrite (ip_ext n b b x y (same_refl n b) E). reflexivity. Qed.
Lemma small_residual_ext t x y : same n x y -> small_residual n A b t x -> small_residual n A b t y.
Proof. intros E H. unfold small_residual in *. rewrite <- (norm_length (residual n A b x) (residual n A b y)) by (apply res_ext; exact E). exact H. Qed.
Lemma small_decrease_ext t k x y x' y' : same n x y -> same n x' y' -> small_decrease n A b t k x x' -> small_decrease n A b t k y y'.
Proof. intros E E' H. unfold small_decrease in *. rewrite <- (Q_ext x y E), <- (Q_ext x' y' E'). exact H. Qed.
Lemma stop_ext k x y x' y' : same n x y -> same n x' y' -> stop n o A b k x x' -> stop n o A b k y y'.
Proof. intros E E' [H1 [H2|H2]]; split; try exact H1; [left; exact (small_residual_ext _ x y E H2)|right; exact (small_decrease_ext _ k x y x' y' E E' H2)]. Qed.
Lemma zeta_spec k x x' t : (0 < k)%nat -> zeta_below (Z.of_nat k) (Q n A b x) (Q n A b x') t = true <-> small_decrease n A b t k x x'.
Proof.
  intro Hk. unfold zeta_below, small_decrease, is_zero, lt. rewrite INR_IZR_INZ. destruct (Req_EM_T (Q n A b x) 0) as [E|E]; destruct (Rlt_dec _ _) as [L|L]; split; intro H; try discriminate; try reflexivity.
  - split; [exact Hk|]. split; [intro; contradiction|intro; lra].
  - exfalso. destruct H as [_ [_ H]]. specialize (H E). lra.
  - split; [exact Hk|]. split; [intro; exact L|intro; contradiction].
  - exfalso. destruct H as [_ [H _]]. exact (L (H E)).
Qed.
Definition explained (s : Summary) (x : vec) : Prop :=
  exists k xs ps al rho, history n A M b x0 k xs ps al rho /\ xs k = x /\ ((k <= 1)%nat \/ (Z.of_nat k <= max_num_iterations o)%Z) /\
    (forall j, (j < k)%nat -> ~ stop n o A b j (xs j) (xs (j - 1)%nat)) /\ justified n o A M b k xs s.
Definition upd {T : Type} (f : nat -> T) (k : nat) (v : T) : nat -> T := fun j => if (j =? k)%nat then v else f j.
Lemma upd_same T (f : nat -> T) k v : upd f k v k = v. Proof. unfold upd. rewrite Nat.eqb_refl. reflexivity. Qed.
Lemma upd_other T (f : nat -> T) k v j : j <> k -> upd f k v j = f j. Proof. intro N. unfold upd. destruct (Nat.eqb_spec j k); [contradiction|reflexivity]. Qed.
Lemma iterate_spec : forall fuel (k : nat) (x r p : vec) (rho Q0 : R), (max_num_iterations o - Z.of_nat k <= Z.of_nat fuel)%Z -> (0 < fuel)%nat -> (k = 0%nat \/ (Z.of_nat k < max_num_iterations o)%Z) ->
  (exists xs ps al rh, history n A M b x0 k xs ps al rh /\ xs k = x /\ ((0 < k)%nat -> p = ps (k - 1)%nat /\ rho = rh (k - 1)%nat) /\ (forall j, (j <= k)%nat -> ~ stop n o A b j (xs j) (xs (j - 1)%nat))) ->
  same n r (res n A b x) -> Q0 = Q n A b x ->
  exists s x', Iterate fuel n o lhs b preconditioner (r_tolerance o * Norm n b) (Z.of_nat (S k)) x r p rho Q0 = Some (s, x') /\ explained s x'.
Proof.
  induction fuel as [|fuel IH]; intros k x r p rho Q0 Hf Hpos Hm Hist Hr HQ; [lia|]. cbn [Iterate].
  destruct Hist as [xs [ps [al [rh [H [Hx [Hp Hs]]]]]]].
  set (z := preconditioner r Zero). assert (same n z (apply n M (res n A b x))) as Hz.
  { eapply same_trans; [apply (apply_op _ M _ RM)|]. intros i Hi. apply apply_ext. exact Hr. }
  assert (Dot n r z = ip (res n A b x) (apply n M (res n A b x))) as Erho by (apply ip_ext; assumption).
  assert (forall s, justified n o A M b k xs s -> explained s x) as Done.
  { intros s J. exists k, xs, ps, al, rh. split; [exact H|]. split; [exact Hx|]. split; [lia|]. split; [intros j Hj; apply Hs; lia|exact J]. }
  unfold is_zero at 1. destruct (Req_EM_T (Dot n r z) 0) as [Z0|N0].
  { eexists. eexists. split; [reflexivity|]. apply Done. unfold justified. cbn [message termination_type num_iterations]. split; [reflexivity|]. split; [reflexivity|]. split; [apply Hs; lia|]. rewrite Hx. etransitivity; [symmetry; exact Erho|exact Z0]. }
  set (rho' := Dot n r z) in *.
  assert ((Z.of_nat (S k) =? 1)%Z = (k =? 0)%nat) as E1 by (destruct (Nat.eqb_spec k 0) as [->|]; [reflexivity|apply Z.eqb_neq; lia]). rewrite E1.
  assert (negb (k =? 0)%nat && is_zero (rho' / rho) = false) as ->.
  { destruct (Nat.eqb_spec k 0) as [->|Nk]; [reflexivity|]. cbn [negb andb]. unfold is_zero. destruct (Req_EM_T (rho' / rho) 0) as [E|]; [exfalso|reflexivity].
    destruct (Hp ltac:(lia)) as [_ Eh]. destruct (h_rho _ _ _ _ _ _ _ _ _ _ H (k - 1)%nat ltac:(lia)) as [_ N]. rewrite <- Eh in N. unfold Rdiv in E. apply Rmult_integral in E. destruct E as [E|E]; [contradiction|exact (Rinv_neq_0_compat _ N E)]. }
  set (p' := if (k =? 0)%nat then z else Axpby 1 z (rho' / rho) p).
  assert (same n (lhs p' Zero) (apply n A p')) as Hq by (apply apply_op; exact RA).
  assert (Dot n p' (lhs p' Zero) = ip p' (apply n A p')) as Epq by (apply ip_ext; [apply same_refl|exact Hq]).
  rewrite Epq.
  assert (ip p' (res n A b x) = rho') as Eprho.
  { unfold p'. destruct (Nat.eqb_spec k 0) as [->|Nk].
    - rewrite (ip_ext n z _ _ _ Hz (same_refl n _)), ip_comm. symmetry. exact Erho.
    - rewrite ip_l, (ip_ext n z _ _ _ Hz (same_refl n _)), (ip_comm n (apply n M _)), <- Erho. destruct (Hp ltac:(lia)) as [E _]. rewrite E, <- Hx.
      rewrite (proj1 (proj2 (conjugate n A M b x0 SA SM k xs ps al rh H)) (k - 1)%nat k ltac:(lia)). ring. }
  unfold le at 1. destruct (Rle_dec (ip p' (apply n A p')) 0) as [L|L].
  { eexists. eexists. split; [reflexivity|]. apply Done. unfold justified. cbn [message termination_type num_iterations]. split; [reflexivity|]. split; [reflexivity|]. split; [apply Hs; lia|]. exists p'. split; [exact L|]. rewrite Hx. intro E0. apply N0. rewrite <- Eprho. exact E0. }
  apply Rnot_le_lt in L. set (pq := ip p' (apply n A p')) in *. set (alpha := rho' / pq). set (x' := Axpby 1 x alpha p').
  destruct (Z.eqb_spec (residual_reset_period o) 0) as [Zp|_]; [contradiction|].
  set (r' := if (Z.rem (Z.of_nat (S k)) (residual_reset_period o) =? 0)%Z then Axpby 1 b (- 1) (lhs x' Zero) else Axpby 1 r (- alpha) (lhs p' Zero)).
  assert (same n r' (res n A b x')) as Hr'.
  { unfold r'. destruct (Z.rem _ _ =? 0)%Z.
    - intros i Hi. unfold Axpby at 1. rewrite (apply_op lhs A x' RA i Hi). unfold res, residual. ring.
    - intros i Hi. unfold Axpby. rewrite (Hr i Hi), (Hq i Hi). unfold res, residual, x'. rewrite apply_ax. ring. }
  rewrite (model_Q x' r' Hr'), (norm_length r' _ Hr').
  set (xs' := upd xs (S k) x'). set (ps' := upd ps k p'). set (al' := upd al k alpha). set (rh' := upd rh k rho').
  assert (forall j, (j <= k)%nat -> xs' j = xs j) as Ex by (intros j Hj; apply upd_other; lia).
  assert (forall j, (j < k)%nat -> ps' j = ps j /\ al' j = al j /\ rh' j = rh j) as Ep by (intros j Hj; unfold ps', al', rh'; rewrite !upd_other by lia; auto).
  assert (history n A M b x0 (S k) xs' ps' al' rh') as H'.
  { split.
    - rewrite Ex by lia. exact (h_x0 _ _ _ _ _ _ _ _ _ _ H).
    - intros j Hj. destruct (Nat.eq_dec j k) as [->|Nj].
      + unfold xs' at 1, al', ps'. rewrite !upd_same, Ex, Hx by lia. apply same_refl.
      + destruct (Ep j ltac:(lia)) as [-> [-> _]]. rewrite !Ex by lia. apply (h_x _ _ _ _ _ _ _ _ _ _ H). lia.
    - intros _. rewrite Ex by lia. destruct (Nat.eq_dec k 0) as [Ek|Nk].
      + unfold ps'. rewrite <- Ek, upd_same, Hx. unfold p'. rewrite Ek. cbn [Nat.eqb]. exact Hz.
      + destruct (Ep 0%nat ltac:(lia)) as [-> _]. apply (h_p0 _ _ _ _ _ _ _ _ _ _ H). lia.
    - intros j Hj. rewrite Ex by lia. destruct (Ep j ltac:(lia)) as [-> [_ ->]]. destruct (Nat.eq_dec (S j) k) as [Ek|Nk].
      + rewrite Ek. unfold ps', rh'. rewrite !upd_same, Hx. unfold p'. destruct (Nat.eqb_spec k 0); [lia|]. destruct (Hp ltac:(lia)) as [-> ->]. replace (k - 1)%nat with j by lia. apply axpby_ext; [exact Hz|apply same_refl].
      + destruct (Ep (S j) ltac:(lia)) as [-> [_ ->]]. apply (h_p _ _ _ _ _ _ _ _ _ _ H). lia.
    - intros j Hj. rewrite Ex by lia. destruct (Nat.eq_dec j k) as [->|Nj]; [unfold rh'; rewrite upd_same, Hx; split; [exact Erho|exact N0]|]. destruct (Ep j ltac:(lia)) as [_ [_ ->]]. apply (h_rho _ _ _ _ _ _ _ _ _ _ H). lia.
    - intros j Hj. destruct (Nat.eq_dec j k) as [->|Nj]; [unfold ps', rh', al'; rewrite !upd_same; split; [exact L|reflexivity]|]. destruct (Ep j ltac:(lia)) as [-> [-> ->]]. apply (h_al _ _ _ _ _ _ _ _ _ _ H). lia. }
  assert (xs' (S k) = x') as Ex' by (unfold xs'; apply upd_same).
  assert (xs' (S k - 1)%nat = x) as Ex0 by (replace (S k - 1)%nat with k by lia; rewrite Ex by lia; exact Hx).
  assert (forall j, (j <= k)%nat -> ~ stop n o A b j (xs' j) (xs' (j - 1)%nat)) as Hs' by (intros j Hj; rewrite !Ex by lia; apply Hs; exact Hj).
  assert (forall s, justified n o A M b (S k) xs' s -> explained s x') as Done'.
  { intros s J. exists (S k), xs', ps', al', rh'. split; [exact H'|]. split; [exact Ex'|]. split; [lia|]. split; [intros j Hj; apply Hs'; lia|exact J]. }
  rewrite HQ. change (Norm n b) with (length_of n b).
  assert ((min_num_iterations o <=? Z.of_nat (S k))%Z = true <-> may_stop o (S k)) as Ms by (unfold may_stop; cbn [Nat.eqb]; apply Z.leb_le).
  assert (zeta_below (Z.of_nat (S k)) (Q n A b x') (Q n A b x) (q_tolerance o) = true <-> small_decrease n A b (q_tolerance o) (S k) x' x) as Zs by (apply zeta_spec; lia).
  assert (le (length_of n (res n A b x')) (r_tolerance o * length_of n b) = true <-> small_residual n A b (r_tolerance o) x') as Ls.
  { unfold le, small_residual, res. destruct (Rle_dec _ _) as [L'|L']; split; intro Hl; [exact L'|reflexivity|discriminate|contradiction]. }
  destruct (zeta_below _ _ _ _ && _) eqn:Ez.
  { apply andb_true_iff in Ez. destruct Ez as [Ez Mz]. eexists. eexists. split; [reflexivity|]. apply Done'. unfold justified. cbn [message termination_type num_iterations]. split; [reflexivity|]. split; [reflexivity|]. rewrite Ex', Ex0. split; [apply Ms; exact Mz|apply Zs; exact Ez]. }
  destruct (le (length_of n (res n A b x')) _ && _) eqn:El.
  { apply andb_true_iff in El. destruct El as [El Mz]. eexists. eexists. split; [reflexivity|]. apply Done'. unfold justified. cbn [message termination_type num_iterations]. split; [reflexivity|]. split; [reflexivity|]. split; [lia|]. rewrite Ex'. split; [apply Ms; exact Mz|apply Ls; exact El]. }
  assert (~ stop n o A b (S k) (xs' (S k)) (xs' (S k - 1)%nat)) as Hn.
  { rewrite Ex', Ex0. intros [M1 [M2|M2]]; apply Ms in M1; [apply Ls in M2; rewrite M1, M2 in El; discriminate|apply Zs in M2; rewrite M1, M2 in Ez; discriminate]. }
  destruct (Z.leb_spec (max_num_iterations o) (Z.of_nat (S k))) as [Lm|Lm].
  { eexists. eexists. split; [reflexivity|]. apply Done'. unfold justified. cbn [message termination_type num_iterations]. split; [reflexivity|]. split; [reflexivity|]. split; [lia|]. split; [exact Lm|exact Hn]. }
  replace (Z.of_nat (S k) + 1)%Z with (Z.of_nat (S (S k))) by lia. apply IH; [lia|lia|right; exact Lm| |exact Hr'|reflexivity].
  exists xs', ps', al', rh'. split; [exact H'|]. split; [exact Ex'|]. split.
  - intros _. replace (S k - 1)%nat with k by lia. unfold ps', rh'. rewrite !upd_same. split; reflexivity.
  - intros j Hj. destruct (Nat.eq_dec j (S k)) as [->|]; [exact Hn|apply Hs'; lia].
Qed.
(* everything the result means *)
Lemma length_zero u : length_of n u = 0 -> same n u (fun _ => 0).
Proof. intro H. apply ip_null. apply sqrt_eq_0; [apply ip_pos|exact H]. Qed.
Lemma solver_spec junk : exists s x, ConjugateGradientsSolver n o lhs b preconditioner junk x0 = Some (s, x) /\
  ((same n b (fun _ => 0) /\ s = mkSummary SUCCESS RhsIsZero 0 /\ forall i, x i = 0) \/ (~ same n b (fun _ => 0) /\ explained s x)).
Proof.
  unfold ConjugateGradientsSolver. unfold is_zero. destruct (Req_EM_T (Norm n b) 0) as [E|E].
  { eexists. eexists. split; [reflexivity|]. left. split; [apply length_zero; exact E|]. split; [reflexivity|]. intros. reflexivity. }
  assert (~ same n b (fun _ => 0)) as Nb.
  { intro Hb. apply E. unfold Norm. change (Dot n b b) with (ip b b). rewrite (ip_ext n b (fun _ => 0) b (fun _ => 0) Hb Hb), ip_zero_r. apply sqrt_0. }
  set (r := Axpby 1 b (-1) (lhs x0 Zero)).
  assert (same n r (res n A b x0)) as Hr by (intros i Hi; unfold r, Axpby; rewrite (apply_op lhs A x0 RA i Hi); unfold res, residual; ring).
  assert (history n A M b x0 0 (fun _ => x0) (fun _ => x0) (fun _ => 0) (fun _ => 0)) as H0 by (split; intros; try lia; apply same_refl).
  assert (le (Norm n r) (r_tolerance o * Norm n b) = true <-> small_residual n A b (r_tolerance o) x0) as Ls.
  { rewrite (norm_length r _ Hr). unfold le, small_residual, res. change (Norm n b) with (length_of n b). destruct (Rle_dec _ _) as [L'|L']; split; intro Hl; [exact L'|reflexivity|discriminate|contradiction]. }
  destruct ((min_num_iterations o =? 0)%Z && _) eqn:Em.
  { apply andb_true_iff in Em. destruct Em as [M1 M2]. apply Z.eqb_eq in M1. eexists. eexists. split; [reflexivity|]. right. split; [exact Nb|].
    exists 0%nat, (fun _ => x0), (fun _ => x0), (fun _ => 0), (fun _ => 0). split; [exact H0|]. split; [reflexivity|]. split; [left; lia|]. split; [intros; lia|].
    unfold justified. cbn [message termination_type num_iterations]. split; [reflexivity|]. split; [reflexivity|]. split; [reflexivity|]. split; [exact M1|apply Ls; exact M2]. }
  assert (~ stop n o A b 0 x0 x0) as Hn.
  { intros [M1 [M2|[M2 _]]]; [|lia]. apply Ls in M2. unfold may_stop in M1. cbn [Nat.eqb] in M1. rewrite M1, M2 in Em. discriminate. }
  destruct (iterate_spec (S (Z.to_nat (max_num_iterations o))) 0 x0 r junk 1 (- Dot n x0 (Axpby 1 b 1 r))) as [s [x [Es Hs]]].
  - lia.
  - lia.
  - left. reflexivity.
  - exists (fun _ => x0), (fun _ => x0), (fun _ => 0), (fun _ => 0). split; [exact H0|]. split; [reflexivity|]. split; [intro; lia|]. intros j Hj. replace j with 0%nat by lia. exact Hn.
  - exact Hr.
  - apply model_Q. exact Hr.
  - exists s, x. split; [exact Es|]. right. split; [exact Nb|exact Hs].
Qed.
Lemma explained_path s x : explained s x -> exists k xs, path n o A M b x0 k xs /\ xs k = x /\ justified n o A M b k xs s /\ (k = n -> same n (residual n A b x) (fun _ => 0)).
Proof.
  intros [k [xs [ps [al [rho [H [E [Hm [Hs J]]]]]]]]]. exists k, xs. split; [split; [exact (h_x0 _ _ _ _ _ _ _ _ _ _ H)|split; [exact (history_bounded _ _ _ _ _ H)|split; [exact Hm|split; [|split]]]]|split; [exact E|split; [exact J|]]].
  - intros j Hj. apply (cg_minimises n A M b x0 SA SM j xs ps al rho). exact (history_le n A M b x0 k j xs ps al rho Hj H).
  - intros j Hj. exact (Q_decreases n A M b x0 SA SM k xs ps al rho j H Hj).
  - exact Hs.
  - intro Ek. rewrite <- E. rewrite Ek in *. exact (finite _ _ _ _ H).
Qed.
End Finite.
