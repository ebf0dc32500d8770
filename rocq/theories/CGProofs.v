From Coq Require Import Reals ZArith Arith Bool Lia Lra.
From Verif Require Import SchurModel SchurProofs CGModel CGSpec.
Open Scope R_scope.
Local Open Scope nat_scope.
Local Open Scope R_scope.

(* ---------------- inner products ---------------- *)
Section Vec.
Variable n : nat.
Notation ip := (inner n).
Lemma same_refl u : same n u u. Proof. intros i _. reflexivity. Qed.
Lemma same_sym u v : same n u v -> same n v u. Proof. intros H i Hi. symmetry. apply H. exact Hi. Qed.
Lemma same_trans u v w : same n u v -> same n v w -> same n u w. Proof. intros H H' i Hi. rewrite H, H' by exact Hi. reflexivity. Qed.
Lemma ip_ext u u' v v' : same n u u' -> same n v v' -> ip u v = ip u' v'.
Proof. intros H H'. apply sumn_ext. intros i Hi. rewrite H, H' by exact Hi. reflexivity. Qed.
Lemma ip_comm u v : ip u v = ip v u. Proof. apply sumn_ext. intros. ring. Qed.
Lemma ip_r u a v b w : ip u (Axpby a v b w) = a * ip u v + b * ip u w.
Proof. unfold inner, Axpby. rewrite <- !sumn_scal, <- sumn_plus. apply sumn_ext. intros. ring. Qed.
Lemma ip_l u a v b w : ip (Axpby a v b w) u = a * ip v u + b * ip w u.
Proof. rewrite ip_comm, ip_r, (ip_comm u v), (ip_comm u w). reflexivity. Qed.
Lemma ip_zero_r u : ip u (fun _ => 0) = 0. Proof. apply sumn_zero. intros. ring. Qed.
Lemma ip_pos u : 0 <= ip u u. Proof. apply sumn_nonneg. intros. apply Rle_0_sqr. Qed.
Lemma ip_null u : ip u u = 0 -> same n u (fun _ => 0).
Proof. intros H i Hi. apply (sumn_nonneg_zero n (fun i => u i * u i)) in Hi; [|intros; apply Rle_0_sqr|exact H]. apply Rsqr_0_uniq. exact Hi. Qed.
Lemma ip_sum u k (w : nat -> vec) c : ip u (fun i => sumn k (fun j => c j * w j i)) = sumn k (fun j => c j * ip u (w j)).
Proof.
  unfold inner. rewrite (sumn_ext n _ (fun i => sumn k (fun j => u i * (c j * w j i)))) by (intros; rewrite sumn_scal; reflexivity).
  rewrite sumn_swap. apply sumn_ext. intros j Hj. rewrite <- sumn_scal. apply sumn_ext. intros. ring.
Qed.
Lemma axpby_ext a u u' b v v' : same n u u' -> same n v v' -> same n (Axpby a u b v) (Axpby a u' b v').
Proof. intros H H' i Hi. unfold Axpby. rewrite H, H' by exact Hi. reflexivity. Qed.
Lemma apply_ext (A : matrix) u v : same n u v -> forall i, apply n A u i = apply n A v i.
Proof. intros H i. apply sumn_ext. intros j Hj. rewrite H by exact Hj. reflexivity. Qed.
Lemma apply_ax (A : matrix) a u b v i : apply n A (Axpby a u b v) i = a * apply n A u i + b * apply n A v i.
Proof. unfold apply, Axpby. rewrite <- !sumn_scal, <- sumn_plus. apply sumn_ext. intros. ring. Qed.
Lemma apply_sum (A : matrix) k (w : nat -> vec) c i : apply n A (fun i => sumn k (fun j => c j * w j i)) i = sumn k (fun j => c j * apply n A (w j) i).
Proof.
  unfold apply. rewrite (sumn_ext n _ (fun l => sumn k (fun j => A i l * (c j * w j l)))) by (intros; rewrite sumn_scal; reflexivity).
  rewrite sumn_swap. apply sumn_ext. intros j Hj. rewrite <- sumn_scal. apply sumn_ext. intros. ring.
Qed.
Lemma apply_sym (A : matrix) u v : symmetric n A -> ip u (apply n A v) = ip v (apply n A u).
Proof.
  intro S. unfold inner, apply. rewrite (sumn_ext n _ (fun i => sumn n (fun j => u i * (A i j * v j)))) by (intros; rewrite sumn_scal; reflexivity).
  rewrite sumn_swap. apply sumn_ext. intros j Hj. rewrite <- sumn_scal. apply sumn_ext. intros i Hi. rewrite (S i j) by assumption. ring.
Qed.
End Vec.

(* ---------------- the sequences ---------------- *)
Section CG.
Variables (n : nat) (A M : matrix) (b x0 : vec).
Notation ip := (inner n).
Notation "'mA' u" := (apply n A u) (at level 9, u at level 9).
Notation "'mM' u" := (apply n M u) (at level 9, u at level 9).
Hypothesis SA : symmetric n A.
Hypothesis SM : symmetric n M.
Definition res (x : vec) : vec := residual n A b x.
Record history (k : nat) (xs ps : nat -> vec) (al rho : nat -> R) : Prop := {
  h_x0 : same n (xs 0%nat) x0;
  h_x : forall j, (j < k)%nat -> same n (xs (S j)) (Axpby 1 (xs j) (al j) (ps j));
  h_p0 : (0 < k)%nat -> same n (ps 0%nat) (mM (res (xs 0%nat)));
  h_p : forall j, (S j < k)%nat -> same n (ps (S j)) (Axpby 1 (mM (res (xs (S j)))) (rho (S j) / rho j) (ps j));
  h_rho : forall j, (j < k)%nat -> rho j = ip (res (xs j)) (mM (res (xs j))) /\ rho j <> 0;
  h_al : forall j, (j < k)%nat -> 0 < ip (ps j) (mA (ps j)) /\ al j = rho j / ip (ps j) (mA (ps j)) }.
Lemma res_ext x y : same n x y -> same n (res x) (res y).
Proof. intros H i Hi. unfold res, residual. rewrite (apply_ext n A x y H). reflexivity. Qed.
Lemma res_step k xs ps al rho j : history k xs ps al rho -> (j < k)%nat -> same n (res (xs (S j))) (Axpby 1 (res (xs j)) (- al j) (mA (ps j))).
Proof. intros H Hj i Hi. unfold res, residual. rewrite (apply_ext n A _ _ (h_x _ _ _ _ _ H j Hj)), apply_ax. unfold Axpby. ring. Qed.
Lemma history_less k xs ps al rho : history (S k) xs ps al rho -> history k xs ps al rho.
Proof. intros [A0 A1 A2 A3 A4 A5]. split; auto. Qed.
Lemma history_le k k' xs ps al rho : (k' <= k)%nat -> history k xs ps al rho -> history k' xs ps al rho.
Proof. induction 1; auto. intro H'. apply IHle. apply history_less. exact H'. Qed.

Lemma conjugate k xs ps al rho : history k xs ps al rho ->
  (forall i j, (i < j < k)%nat -> ip (ps i) (mA (ps j)) = 0) /\
  (forall i j, (i < j <= k)%nat -> ip (ps i) (res (xs j)) = 0) /\
  (forall j, (j < k)%nat -> ip (ps j) (res (xs j)) = rho j) /\
  (forall i j, (i < j <= k)%nat -> ip (mM (res (xs i))) (res (xs j)) = 0).
Proof.
  induction k as [|k IH]; intro H.
  - split; [intros; lia|]. split; [intros; lia|]. split; intros; lia.
  - destruct (IH (history_less _ _ _ _ _ H)) as [C1 [C2 [C3 C4]]].
    destruct (h_rho _ _ _ _ _ H k ltac:(lia)) as [Er Nr]. destruct (h_al _ _ _ _ _ H k ltac:(lia)) as [Pk Ea].
    assert (forall j, (j < S k)%nat -> al j <> 0) as Nal.
    { intros j Hj. destruct (h_al _ _ _ _ _ H j Hj) as [P ->]. destruct (h_rho _ _ _ _ _ H j Hj) as [_ N]. unfold Rdiv. apply Rmult_integral_contrapositive_currified; [exact N|apply Rinv_neq_0_compat; lra]. }
    (* p_k . r_k *)
    assert (ip (ps k) (res (xs k)) = rho k) as C3k.
    { destruct k as [|k']; [rewrite (ip_ext n _ _ _ _ (h_p0 _ _ _ _ _ H ltac:(lia)) (same_refl n _)), ip_comm; symmetry; exact Er|].
      rewrite (ip_ext n _ _ _ _ (h_p _ _ _ _ _ H k' ltac:(lia)) (same_refl n _)), ip_l, (C2 k' (S k')) by lia. rewrite ip_comm, <- Er. ring. }
    (* conjugacy of p_k *)
    assert (forall i, (i < k)%nat -> ip (ps i) (mA (ps k)) = 0) as C1k.
    { intros i Hi. destruct k as [|k']; [lia|].
      assert (ip (mM (res (xs (S k')))) (mA (ps i)) = (ip (mM (res (xs (S k')))) (res (xs i)) - ip (mM (res (xs (S k')))) (res (xs (S i)))) / al i) as E1.
      { rewrite (ip_ext n _ _ _ _ (same_refl n _) (res_step _ _ _ _ _ i H ltac:(lia))), ip_r. field. apply Nal. lia. }
      assert (forall j, (j < S k')%nat -> ip (mM (res (xs (S k')))) (res (xs j)) = 0) as E2.
      { intros j Hj. rewrite (ip_comm n (mM _)), (apply_sym n M _ _ SM), ip_comm. apply C4. lia. }
      rewrite (apply_sym n A _ _ SA), (ip_ext n _ _ _ _ (h_p _ _ _ _ _ H k' ltac:(lia)) (same_refl n _)), ip_l, E1, (E2 i Hi).
      destruct (Nat.eq_dec i k') as [->|Ni].
      - destruct (h_al _ _ _ _ _ H k' ltac:(lia)) as [P Ea']. destruct (h_rho _ _ _ _ _ H k' ltac:(lia)) as [_ N']. rewrite (ip_comm n (mM _)), <- Er, Ea'. field. split; (exact N' || lra).
      - rewrite (E2 (S i)) by lia. rewrite (apply_sym n A (ps k') (ps i) SA), (C1 i k') by lia. unfold Rdiv. ring. }
    assert (forall i j, (i < j < S k)%nat -> ip (ps i) (mA (ps j)) = 0) as C1'.
    { intros i j Hij. destruct (Nat.eq_dec j k) as [->|]; [apply C1k; lia|apply C1; lia]. }
    assert (forall j, (j < S k)%nat -> ip (ps j) (res (xs j)) = rho j) as C3' by (intros j Hj; destruct (Nat.eq_dec j k) as [->|]; [exact C3k|apply C3; lia]).
    assert (forall i j, (i < j <= S k)%nat -> ip (ps i) (res (xs j)) = 0) as C2'.
    { intros i j Hij. destruct (Nat.eq_dec j (S k)) as [->|]; [|apply C2; lia].
      rewrite (ip_ext n _ _ _ _ (same_refl n _) (res_step _ _ _ _ _ k H ltac:(lia))), ip_r. destruct (Nat.eq_dec i k) as [->|]; [rewrite C3k, Ea; field; lra|rewrite C2, C1k by lia; ring]. }
    split; [exact C1'|]. split; [exact C2'|]. split; [exact C3'|]. intros i j Hij. destruct (Nat.eq_dec j (S k)) as [->|]; [|apply C4; lia].
    destruct i as [|i].
    + rewrite <- (ip_ext n _ _ _ _ (h_p0 _ _ _ _ _ H ltac:(lia)) (same_refl n _)). apply C2'. lia.
    + assert (ip (ps (S i)) (res (xs (S k))) = ip (mM (res (xs (S i)))) (res (xs (S k))) + rho (S i) / rho i * ip (ps i) (res (xs (S k)))) as E.
      { rewrite (ip_ext n _ _ _ _ (h_p _ _ _ _ _ H i ltac:(lia)) (same_refl n _)), ip_l. ring. }
      rewrite (C2' (S i)), (C2' i) in E by lia. lra.
Qed.

(* ---------------- spans ---------------- *)
Lemma span_ext k w w' v v' : (forall j, (j < k)%nat -> same n (w j) (w' j)) -> same n v v' -> in_span n k w v -> in_span n k w' v'.
Proof. intros Hw Hv [c E]. exists c. intros i Hi. rewrite <- Hv, E by exact Hi. apply sumn_ext. intros j Hj. rewrite (Hw j Hj i Hi). reflexivity. Qed.
Lemma span_ax k w a u c v : in_span n k w u -> in_span n k w v -> in_span n k w (Axpby a u c v).
Proof. intros [c1 E1] [c2 E2]. exists (fun j => a * c1 j + c * c2 j). intros i Hi. unfold Axpby. rewrite E1, E2 by exact Hi. rewrite <- !sumn_scal, <- sumn_plus. apply sumn_ext. intros. ring. Qed.
Lemma span_in k w j : (j < k)%nat -> in_span n k w (w j).
Proof. intro Hj. exists (fun l => if (l =? j)%nat then 1 else 0). intros i Hi. rewrite (sumn_single k _ j Hj); [rewrite Nat.eqb_refl; ring|]. intros l _ Nl. destruct (Nat.eqb_spec l j); [contradiction|ring]. Qed.
Lemma span_more k k' w v : (k <= k')%nat -> in_span n k w v -> in_span n k' w v.
Proof.
  intros Hk [c E]. exists (fun j => if (j <? k)%nat then c j else 0). intros i Hi. rewrite E by exact Hi. replace k' with (k + (k' - k))%nat by lia. rewrite sumn_split.
  rewrite (sumn_zero (k' - k)); [rewrite Rplus_0_r; apply sumn_ext; intros j Hj; destruct (Nat.ltb_spec j k); [reflexivity|lia]|]. intros j Hj. destruct (Nat.ltb_spec (k + j) k); [lia|ring].
Qed.
Lemma span_zero k w : in_span n k w (fun _ => 0).
Proof. exists (fun _ => 0). intros. symmetry. apply sumn_zero. intros. ring. Qed.
Lemma span_sum k w l (u : nat -> vec) c : (forall j, (j < l)%nat -> in_span n k w (u j)) -> in_span n k w (fun i => sumn l (fun j => c j * u j i)).
Proof.
  induction l as [|l IH]; intro H; [apply span_zero|]. apply (span_ext k w w (Axpby 1 (fun i => sumn l (fun j => c j * u j i)) (c l) (u l))); [intros; apply same_refl|intros i Hi; unfold Axpby; cbn [sumn]; ring|].
  apply span_ax; [apply IH; intros; apply H; lia|apply H; lia].
Qed.
Lemma span_trans k w l u v : (forall j, (j < l)%nat -> in_span n k w (u j)) -> in_span n l u v -> in_span n k w v.
Proof. intros H [c E]. apply (span_ext k w w (fun i => sumn l (fun j => c j * u j i))); [intros; apply same_refl|intros i Hi; symmetry; apply E; exact Hi|]. apply span_sum. exact H. Qed.
Lemma span_apply (B : matrix) k w l u v : (forall j, (j < k)%nat -> in_span n l u (apply n B (w j))) -> in_span n k w v -> in_span n l u (apply n B v).
Proof.
  intros H [c E]. apply (span_ext l u u (fun i => sumn k (fun j => c j * apply n B (w j) i))); [intros; apply same_refl| |apply span_sum; exact H].
  intros i Hi. rewrite (apply_ext n B v (fun i => sumn k (fun j => c j * w j i)) E). symmetry. apply apply_sum.
Qed.

Notation w := (krylov n A M b x0).
Section Span.
Variables (k : nat) (xs ps : nat -> vec) (al rho : nat -> R).
Hypothesis H : history k xs ps al rho.
Lemma mres_0 : same n (mM (res (xs 0%nat))) (w 0%nat).
Proof. intros i Hi. apply apply_ext. apply res_ext. apply (h_x0 _ _ _ _ _ H). Qed.
Lemma mres_step j : (j < k)%nat -> same n (mM (res (xs (S j)))) (Axpby 1 (mM (res (xs j))) (- al j) (mM (mA (ps j)))).
Proof. intros Hj i Hi. rewrite (apply_ext n M _ _ (res_step _ _ _ _ _ j H Hj)), apply_ax. reflexivity. Qed.
(* the directions lie in the Krylov space *)
Lemma ps_krylov : forall j, (j < k)%nat -> in_span n (S j) w (mM (res (xs j))) /\ in_span n (S j) w (ps j).
Proof.
  induction j as [|j IH]; intro Hj.
  - assert (in_span n 1 w (mM (res (xs 0%nat)))) as Z by (apply (span_ext 1 w w (w 0%nat)); [intros; apply same_refl|apply same_sym, mres_0|apply span_in; lia]).
    split; [exact Z|]. apply (span_ext 1 w w (mM (res (xs 0%nat)))); [intros; apply same_refl|apply same_sym, (h_p0 _ _ _ _ _ H); lia|exact Z].
  - destruct (IH ltac:(lia)) as [I1 I2].
    assert (in_span n (S (S j)) w (mM (res (xs (S j))))) as Z.
    { apply (span_ext _ w w (Axpby 1 (mM (res (xs j))) (- al j) (mM (mA (ps j))))); [intros; apply same_refl|apply same_sym, mres_step; lia|].
      apply span_ax; [apply (span_more (S j)); [lia|exact I1]|].
      (* M A of the Krylov space *)
      apply (span_apply M (S j) (fun l => mA (w l))); [intros l Hl; apply (span_in (S (S j)) w (S l)); lia|].
      apply (span_apply A (S j) w); [intros l Hl; apply (span_in (S j) (fun l => mA (w l)) l Hl)|exact I2]. }
    split; [exact Z|]. apply (span_ext _ w w (Axpby 1 (mM (res (xs (S j)))) (rho (S j) / rho j) (ps j))); [intros; apply same_refl|apply same_sym, (h_p _ _ _ _ _ H); lia|].
    apply span_ax; [exact Z|apply (span_more (S j)); [lia|exact I2]].
Qed.
(* and span it *)
Lemma krylov_ps : forall j, (j < k)%nat -> in_span n (S j) ps (w j).
Proof.
  assert (forall j, (j < k)%nat -> in_span n (S j) ps (mM (res (xs j)))) as Z.
  { intros [|j] Hj.
    - apply (span_ext 1 ps ps (ps 0%nat)); [intros; apply same_refl|apply (h_p0 _ _ _ _ _ H); lia|apply span_in; lia].
    - apply (span_ext _ ps ps (Axpby 1 (ps (S j)) (- (rho (S j) / rho j)) (ps j))); [intros; apply same_refl| |apply span_ax; apply span_in; lia].
      intros i Hi. pose proof (h_p _ _ _ _ _ H j Hj i Hi) as E. unfold Axpby in *. rewrite E. ring. }
  assert (forall j, (S j < k)%nat -> in_span n (S (S j)) ps (mM (mA (ps j)))) as Y.
  { intros j Hj. assert (al j <> 0) as Na. { destruct (h_al _ _ _ _ _ H j ltac:(lia)) as [P ->]. destruct (h_rho _ _ _ _ _ H j ltac:(lia)) as [_ N]. unfold Rdiv. apply Rmult_integral_contrapositive_currified; [exact N|apply Rinv_neq_0_compat; lra]. }
    apply (span_ext _ ps ps (Axpby (/ al j) (mM (res (xs j))) (- / al j) (mM (res (xs (S j)))))); [intros; apply same_refl| |apply span_ax; [apply (span_more (S j)); [lia|apply Z; lia]|apply Z; lia]].
    intros i Hi. pose proof (mres_step j ltac:(lia) i Hi) as E. unfold Axpby in *. rewrite E. field. exact Na. }
  induction j as [|j IH]; intro Hj.
  - apply (span_ext 1 ps ps (mM (res (xs 0%nat)))); [intros; apply same_refl|apply mres_0|apply Z; lia].
  - cbn [krylov]. apply (span_apply M (S j) (fun l => mA (ps l))).
    + intros l Hl. apply (span_more (S (S l))); [lia|]. apply Y. lia.
    + apply (span_apply A (S j) ps); [intros l Hl; apply (span_in (S j) (fun l => mA (ps l)) l Hl)|apply IH; lia].
Qed.
Lemma xs_krylov : forall j, (j <= k)%nat -> in_span n j w (fun i => xs j i - x0 i).
Proof.
  induction j as [|j IH]; intro Hj.
  - apply (span_ext 0 w w (fun _ => 0)); [intros; lia|intros i Hi; rewrite (h_x0 _ _ _ _ _ H i Hi); ring|apply span_zero].
  - apply (span_ext _ w w (Axpby 1 (fun i => xs j i - x0 i) (al j) (ps j))); [intros; apply same_refl|intros i Hi; rewrite (h_x _ _ _ _ _ H j ltac:(lia) i Hi); unfold Axpby; ring|].
    apply span_ax; [apply (span_more j); [lia|apply IH; lia]|apply ps_krylov; lia].
Qed.
End Span.

(* Q at a point whose residual is orthogonal to the displacement *)
Lemma Q_move x y : Q n A b y = Q n A b x + ip (Axpby 1 y (-1) x) (mA (Axpby 1 y (-1) x)) - 2 * ip (Axpby 1 y (-1) x) (res x).
Proof.
  unfold Q. set (d := Axpby 1 y (-1) x). assert (same n y (Axpby 1 x 1 d)) as E by (intros i Hi; unfold d, Axpby; ring).
  rewrite (ip_ext n b b y _ (same_refl n b) E), ip_r.
  rewrite (ip_ext n y (Axpby 1 x 1 d) (mA y) (Axpby 1 (mA x) 1 (mA d)) E) by (intros i Hi; rewrite (apply_ext n A y _ E), apply_ax; reflexivity).
  rewrite ip_l, !ip_r.
  assert (ip d (res x) = ip b d - ip d (mA x)) as -> by (rewrite (ip_ext n d d (res x) (Axpby 1 b (-1) (mA x)) (same_refl n d)) by (intros i Hi; unfold res, residual, Axpby; ring); rewrite ip_r, (ip_comm n d b); ring).
  rewrite (apply_sym n A x d SA). ring.
Qed.
Lemma curvature k xs ps al rho d : history k xs ps al rho -> in_span n k ps d -> same n d (fun _ => 0) \/ 0 < ip d (mA d).
Proof.
  intros H [c E]. destruct (conjugate k xs ps al rho H) as [C1 _].
  assert (ip d (mA d) = sumn k (fun j => c j * c j * ip (ps j) (mA (ps j)))) as Ed.
  { rewrite (ip_ext n d d (mA d) (fun i => sumn k (fun j => c j * mA (ps j) i)) (same_refl n d)) by (intros i Hi; rewrite (apply_ext n A d _ E); apply apply_sum).
    rewrite ip_sum. apply sumn_ext. intros j Hj. change (c j * ip d (mA (ps j)) = c j * c j * ip (ps j) (mA (ps j))). rewrite (ip_comm n d (mA (ps j))), (ip_ext n (mA (ps j)) (mA (ps j)) d _ (same_refl n _) E), ip_sum, (sumn_single k _ j Hj); [rewrite (ip_comm n (mA (ps j))); ring|].
    intros l Hl Nl. rewrite ip_comm. destruct (Nat.lt_trichotomy l j) as [L|[L|L]]; [rewrite C1 by lia; ring|contradiction|rewrite (apply_sym n A _ _ SA), C1 by lia; ring]. }
  assert (forall j, (j < k)%nat -> 0 <= c j * c j * ip (ps j) (mA (ps j))) as P by (intros j Hj; apply Rmult_le_pos; [apply Rle_0_sqr|left; apply (h_al _ _ _ _ _ H j Hj)]).
  destruct (Req_EM_T (ip d (mA d)) 0) as [Z|N]; [left|right; rewrite Ed in *; pose proof (sumn_nonneg k _ P); lra].
  intros i Hi. rewrite (E i Hi). apply sumn_zero. intros j Hj. rewrite Ed in Z.
  assert (c j * c j * ip (ps j) (mA (ps j)) = 0) as Zj by (apply (sumn_nonneg_zero k _ P Z j Hj)). destruct (h_al _ _ _ _ _ H j Hj) as [Pj _].
  assert (c j = 0) as -> by (destruct (Rmult_integral _ _ Zj) as [Q|Q]; [destruct (Rmult_integral _ _ Q); assumption|lra]). ring.
Qed.
Lemma cg_minimises k xs ps al rho : history k xs ps al rho -> cg_point n A M b x0 k (xs k).
Proof.
  intros H. split; [apply (xs_krylov k xs ps al rho H k); lia|]. intros y Hy.
  set (d := Axpby 1 y (-1) (xs k)). assert (in_span n k w d) as Sd.
  { apply (span_ext k w w (Axpby 1 (fun i => y i - x0 i) (-1) (fun i => xs k i - x0 i))); [intros; apply same_refl|intros i Hi; unfold d, Axpby; ring|]. apply span_ax; [exact Hy|apply (xs_krylov k xs ps al rho H k); lia]. }
  assert (in_span n k ps d) as Sp by (apply (span_trans k ps k w d); [|exact Sd]; intros j Hj; apply (span_more (S j)); [lia|]; apply (krylov_ps k xs ps al rho H); exact Hj).
  assert (ip d (res (xs k)) = 0) as O.
  { destruct Sp as [c E]. rewrite ip_comm, (ip_ext n (res (xs k)) (res (xs k)) d _ (same_refl n _) E), ip_sum. apply sumn_zero. intros j Hj. rewrite ip_comm, (proj1 (proj2 (conjugate k xs ps al rho H)) j k ltac:(lia)). ring. }
  destruct (curvature k xs ps al rho d H Sp) as [Z|P]; [left; intros i Hi; specialize (Z i Hi); unfold d, Axpby in Z; lra|right].
  rewrite (Q_move (xs k) y). fold d. rewrite O. lra.
Qed.
Lemma Q_decreases k xs ps al rho j : history k xs ps al rho -> (j < k)%nat -> Q n A b (xs (S j)) < Q n A b (xs j).
Proof.
  intros H Hj. rewrite (Q_move (xs j) (xs (S j))). destruct (h_al _ _ _ _ _ H j Hj) as [P E]. destruct (h_rho _ _ _ _ _ H j Hj) as [_ N].
  assert (same n (Axpby 1 (xs (S j)) (-1) (xs j)) (Axpby (al j) (ps j) 0 (ps j))) as Ed by (intros i Hi; unfold Axpby; rewrite (h_x _ _ _ _ _ H j Hj i Hi); unfold Axpby; ring).
  rewrite (ip_ext n _ _ (mA _) (Axpby (al j) (mA (ps j)) 0 (mA (ps j))) Ed) by (intros i Hi; rewrite (apply_ext n A _ _ Ed), apply_ax; unfold Axpby; ring).
  rewrite (ip_ext n _ _ (res (xs j)) (res (xs j)) Ed (same_refl n _)), !ip_l, !ip_r.
  rewrite (proj1 (proj2 (proj2 (conjugate k xs ps al rho H))) j) by lia. rewrite E. set (pq := ip (ps j) (mA (ps j))) in *.
  assert (0 < rho j * rho j / pq) as Lt by (apply Rdiv_lt_0_compat; [apply Rsqr_pos_lt; exact N|exact P]).
  replace (rho j / pq * (rho j / pq * pq + 0 * pq) + 0 * (rho j / pq * pq + 0 * pq)) with (rho j * rho j / pq) by (field; lra).
  replace (rho j / pq * rho j + 0 * rho j) with (rho j * rho j / pq) by (field; lra). lra.
Qed.
End CG.
