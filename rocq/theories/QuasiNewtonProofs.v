(** Proofs about quasi Newton directions. *)
Require Import List Reals Bool Arith Lia Lra FunctionalExtensionality.
From Verif Require Import QuasiNewtonModel QuasiNewtonSpec.
Import ListNotations.
Open Scope R_scope.

Lemma tol_pos : 0 < secant_tolerance.
Proof. unfold secant_tolerance. apply Rinv_0_lt_compat. lra. Qed.
Lemma curved_pos n p : curved n p = true -> 0 < dot n (fst p) (snd p).
Proof. unfold curved. destruct (Rle_dec _ _) as [|Hn]; [discriminate|]. pose proof tol_pos. lra. Qed.

(** ** dot products *)
Lemma dot_ext n : forall a a' b b', veq n a a' -> veq n b b' -> dot n a b = dot n a' b'.
Proof.
  induction n as [|n IH]; intros a a' b b' Ha Hb; cbn [dot]; [reflexivity|].
  rewrite (IH a a' b b') by (intros i Hi; try apply Ha; try apply Hb; lia).
  rewrite (Ha n), (Hb n) by lia. reflexivity.
Qed.
Lemma veq_refl n a : veq n a a. Proof. intros i _. reflexivity. Qed.
Lemma dot_comm n a b : dot n a b = dot n b a.
Proof. induction n; cbn [dot]; [reflexivity|]. rewrite IHn. ring. Qed.
Lemma dot_lin n a b c x y : dot n (fun i => x * a i + y * b i) c = x * dot n a c + y * dot n b c.
Proof. induction n; cbn [dot]; [ring|]. rewrite IHn. ring. Qed.
Lemma dot_lin_r n a b c x y : dot n c (fun i => x * a i + y * b i) = x * dot n c a + y * dot n c b.
Proof. rewrite dot_comm, dot_lin, (dot_comm n a), (dot_comm n b). reflexivity. Qed.
Lemma dot_scal_l n x a c : dot n (fun i => x * a i) c = x * dot n a c.
Proof. induction n; cbn [dot]; [ring|]. rewrite IHn. ring. Qed.
Lemma dot_scal_r n x a c : dot n c (fun i => x * a i) = x * dot n c a.
Proof. rewrite dot_comm, dot_scal_l, dot_comm. reflexivity. Qed.
Lemma dot_nonneg n a : 0 <= dot n a a.
Proof. induction n; cbn [dot]; [lra|]. pose proof (Rle_0_sqr (a n)). unfold Rsqr in *. lra. Qed.
Lemma dot_pos n a : nonzero n a -> 0 < dot n a a.
Proof.
  induction n as [|n IH]; intros (i & Hi & Ha); [lia|]. cbn [dot].
  destruct (Req_dec (a n) 0) as [H0|H0].
  - assert (i <> n) by (intros ->; contradiction). assert (nonzero n a) by (exists i; split; [lia|auto]).
    specialize (IH H1). rewrite H0. lra.
  - pose proof (dot_nonneg n a). assert (0 < a n * a n) by (apply Rsqr_pos_lt in H0; exact H0). lra.
Qed.
Lemma dot_zero_nonzero n s y : dot n s y <> 0 -> nonzero n y.
Proof.
  induction n as [|n IH]; cbn [dot]; intros H; [lra|].
  destruct (Req_dec (y n) 0) as [H0|H0].
  - rewrite H0, Rmult_0_r, Rplus_0_r in H. destruct (IH H) as (i & Hi & Hy). exists i. split; [lia|auto].
  - exists n. split; [lia|auto].
Qed.

Lemma scale_pos n p : curved n p = true -> 0 < eigenvalue_scale n p.
Proof.
  intros H. apply curved_pos in H. unfold eigenvalue_scale. apply Rdiv_lt_0_compat; [exact H|].
  apply dot_pos. eapply dot_zero_nonzero. apply Rgt_not_eq. exact H.
Qed.

(** ** the textbook update keeps the matrix symmetric positive definite *)
Lemma spd_scale n gamma : 0 < gamma -> spd n (fun v i => gamma * v i).
Proof.
  intros Hg. constructor.
  - intros. ring.
  - intros. ring.
  - intros u v. rewrite dot_scal_l, dot_scal_r. reflexivity.
  - intros v Hv. rewrite dot_scal_r. apply Rmult_lt_0_compat; [exact Hg|apply dot_pos; exact Hv].
Qed.
Definition project n (s y v : vec) : vec := fun i => v i - 1 / dot n s y * dot n s v * y i.
Lemma step_form n s y H u v : (forall a b, dot n a (H b) = dot n (H a) b) ->
  dot n u (bfgs_step n s y H v) = dot n (project n s y u) (H (project n s y v)) + 1 / dot n s y * dot n s u * dot n s v.
Proof.
  intros Hs. unfold bfgs_step. cbv zeta. fold (project n s y v). set (r := H (project n s y v)). set (rho := 1 / dot n s y).
  assert (E1 : dot n u (fun i => r i - rho * dot n y r * s i + rho * dot n s v * s i) =
               dot n u (fun i => 1 * r i + (rho * dot n s v - rho * dot n y r) * s i)).
  { apply dot_ext; [apply veq_refl|]. intros i _. ring. }
  rewrite E1, dot_lin_r.
  assert (E2 : dot n (project n s y u) r = dot n (fun i => 1 * u i + (- (rho * dot n s u)) * y i) r).
  { apply dot_ext; [|apply veq_refl]. intros i _. unfold project. fold rho. ring. }
  rewrite E2, dot_lin. rewrite (dot_comm n u s). ring.
Qed.
Lemma spd_step n s y H : spd n H -> 0 < dot n s y -> spd n (bfgs_step n s y H).
Proof.
  intros [HA HM HS HP] Hp. constructor.
  - intros u v i. unfold bfgs_step. cbv zeta. set (rho := 1 / dot n s y).
    assert (E0 : dot n s (fun j => u j + v j) = dot n s u + dot n s v).
    { rewrite <- (Rmult_1_l (dot n s u)), <- (Rmult_1_l (dot n s v)), <- dot_lin_r.
      apply dot_ext; [apply veq_refl|]. intros j _. ring. }
    assert (E1 : forall k, H (fun j => u j + v j - rho * dot n s (fun j => u j + v j) * y j) k =
      H (fun j => u j - rho * dot n s u * y j) k + H (fun j => v j - rho * dot n s v * y j) k).
    { intros k. rewrite <- HA. f_equal. apply functional_extensionality. intros j. rewrite E0. ring. }
    assert (E2 : dot n y (H (fun j => u j + v j - rho * dot n s (fun j => u j + v j) * y j)) =
      dot n y (H (fun j => u j - rho * dot n s u * y j)) + dot n y (H (fun j => v j - rho * dot n s v * y j))).
    { rewrite <- (Rmult_1_l (dot n y (H (fun j => u j - _)))), <- (Rmult_1_l (dot n y (H (fun j => v j - _)))), <- dot_lin_r.
      apply dot_ext; [apply veq_refl|]. intros j _. rewrite E1. ring. }
    rewrite E1, E2, E0. ring.
  - intros c v i. unfold bfgs_step. cbv zeta. set (rho := 1 / dot n s y).
    assert (E0 : dot n s (fun j => c * v j) = c * dot n s v) by apply dot_scal_r.
    assert (E1 : forall k, H (fun j => c * v j - rho * dot n s (fun j => c * v j) * y j) k =
      c * H (fun j => v j - rho * dot n s v * y j) k).
    { intros k. rewrite <- HM. f_equal. apply functional_extensionality. intros j. rewrite E0. ring. }
    assert (E2 : dot n y (H (fun j => c * v j - rho * dot n s (fun j => c * v j) * y j)) =
      c * dot n y (H (fun j => v j - rho * dot n s v * y j))).
    { transitivity (dot n y (fun j => c * H (fun j => v j - rho * dot n s v * y j) j)); [|apply dot_scal_r].
      apply dot_ext; [apply veq_refl|]. intros j _. apply E1. }
    rewrite E1, E2, E0. ring.
  - intros u v. rewrite step_form by exact HS. rewrite (dot_comm n (bfgs_step n s y H u)), step_form by exact HS.
    rewrite HS. rewrite (dot_comm n (H (project n s y u))). ring.
  - intros v Hv. rewrite step_form by exact HS.
    destruct (Req_dec (dot n s v) 0) as [H0|H0].
    + assert (E : project n s y v = v).
      { apply functional_extensionality. intros i. unfold project. rewrite H0. ring. }
      rewrite E, H0. specialize (HP v Hv). lra.
    + assert (H1 : 0 <= dot n (project n s y v) (H (project n s y v))).
      { destruct (Req_dec (dot n (project n s y v) (H (project n s y v))) 0) as [Q|Q]; [lra|].
        assert (NZ : nonzero n (project n s y v)).
        { apply dot_zero_nonzero with (s := H (project n s y v)). rewrite dot_comm. exact Q. }
        apply HP in NZ. lra. }
      assert (H2 : 0 < 1 / dot n s y) by (apply Rdiv_lt_0_compat; lra).
      assert (H3 : 0 < dot n s v * dot n s v) by (apply Rsqr_pos_lt in H0; exact H0).
      assert (H4 : 0 < 1 / dot n s y * (dot n s v * dot n s v)) by (apply Rmult_lt_0_compat; auto).
      lra.
Qed.
Lemma spd_op n gamma pairs : 0 < gamma -> (forall p, In p pairs -> curved n p = true) -> spd n (bfgs_op n gamma pairs).
Proof.
  intros Hg. induction pairs as [|p l IH] using rev_ind; intros Hc.
  - apply spd_scale. exact Hg.
  - unfold bfgs_op. rewrite fold_left_app. cbn [fold_left].
    apply spd_step; [apply IH; intros q Hq; apply Hc, in_app_iff; auto|].
    apply curved_pos, Hc, in_app_iff. right. left. reflexivity.
Qed.
(** secant equation *)
Lemma step_secant n s y H i : spd n H -> 0 < dot n s y -> bfgs_step n s y H y i = s i.
Proof.
  intros [HA HM HS HP] Hp. unfold bfgs_step. cbv zeta.
  assert (E : forall k, H (fun j => y j - 1 / dot n s y * dot n s y * y j) k = 0).
  { intros k. transitivity (H (fun j => 0 * y j) k).
    - f_equal. apply functional_extensionality. intros j. field. lra.
    - rewrite HM. ring. }
  rewrite E. rewrite (dot_ext n y y (H _) (fun _ => 0 * 0)); [|apply veq_refl|intros k _; rewrite E; ring].
  rewrite (dot_scal_r n 0 (fun _ => 0) y). field. lra.
Qed.
Lemma step_ext n s y H H' : (forall v, veq n (H v) (H' v)) -> forall v, veq n (bfgs_step n s y H v) (bfgs_step n s y H' v).
Proof.
  intros HH v i Hi. unfold bfgs_step. cbv zeta.
  rewrite (HH _ i Hi). rewrite (dot_ext n y y _ _ (veq_refl n y) (HH _)). reflexivity.
Qed.

(** ** the ring buffer *)
Lemma lastn_snoc {A} m (l : list A) x : (0 < m)%nat ->
  lastn m (l ++ [x]) = (if (length l <? m)%nat then l else skipn (length l - m + 1) l) ++ [x].
Proof.
  intros Hm. unfold lastn. rewrite app_length. cbn [length].
  destruct (Nat.ltb_spec (length l) m).
  - replace (length l + 1 - m)%nat with 0%nat by lia. reflexivity.
  - replace (length l + 1 - m)%nat with (length l - m + 1)%nat by lia. rewrite skipn_app.
    replace (length l - m + 1 - length l)%nat with 0%nat by lia. reflexivity.
Qed.
Lemma lastn_length {A} m (l : list A) : length (lastn m l) = Nat.min m (length l).
Proof. unfold lastn. rewrite skipn_length. lia. Qed.
Lemma lastn_in {A} m (l : list A) x : In x (lastn m l) -> In x l.
Proof. unfold lastn. intros H. rewrite <- (firstn_skipn (length l - m) l). apply in_app_iff. auto. Qed.

Definition slots (h : low_rank) (idx : list nat) : list (vec * vec) := map (fun i => (lr_dx h i, lr_dg h i)) idx.
Record ring_ok (n m : nat) (scaling : bool) (h : low_rank) (acc : list (vec * vec)) : Prop := {
  ro_n : lr_n h = n; ro_m : lr_max h = m; ro_s : lr_scaling h = scaling;
  ro_slots : slots h (lr_indices h) = lastn m acc;
  ro_dot : forall i, In i (lr_indices h) -> lr_dot h i = dot n (lr_dx h i) (lr_dg h i);
  ro_nodup : NoDup (lr_indices h);
  ro_bound : forall i, In i (lr_indices h) -> (i < length (lr_indices h))%nat;
  ro_len : (length (lr_indices h) <= m)%nat;
  ro_scale : lr_scale h = match rev acc with p :: _ => eigenvalue_scale n p | [] => 1 end }.

Lemma set_same {A} (f : nat -> A) k a : set f k a k = a.
Proof. unfold set. rewrite Nat.eqb_refl. reflexivity. Qed.
Lemma set_other {A} (f : nat -> A) k a i : i <> k -> set f k a i = f i.
Proof. unfold set. intros H. apply Nat.eqb_neq in H. rewrite H. reflexivity. Qed.

Lemma tl_skipn {A} k (l : list A) : tl (skipn k l) = skipn (S k) l.
Proof. revert l. induction k as [|k IH]; intros [|a l]; auto. cbn [skipn]. rewrite IH. reflexivity. Qed.
Lemma nodup_snoc {A} (l : list A) x : NoDup l -> ~ In x l -> NoDup (l ++ [x]).
Proof.
  intros Hl Hx. apply NoDup_rev in Hl. rewrite <- (rev_involutive (l ++ [x])). apply NoDup_rev. rewrite rev_app_distr. cbn.
  constructor; [rewrite <- in_rev; exact Hx|exact Hl].
Qed.

Lemma update_ok n m scaling h acc dx dg : (0 < m)%nat -> ring_ok n m scaling h acc ->
  exists h', lr_update h dx dg = Some (curved n (dx, dg), h') /\
    ring_ok n m scaling h' (if curved n (dx, dg) then acc ++ [(dx, dg)] else acc).
Proof.
  intros Hm [R1 R2 R3 R4 R5 R6 R7 R8 R9]. unfold lr_update, curved. rewrite R1. cbn [fst snd]. cbv zeta.
  destruct (Rle_dec (dot n dx dg) secant_tolerance) as [Hle|Hle].
  { exists h. split; [reflexivity|]. constructor; auto. }
  assert (HL : length (lr_indices h) = Nat.min m (length acc)).
  { rewrite <- lastn_length, <- R4. unfold slots. rewrite map_length. reflexivity. }
  (* the slot chosen: fresh, in range, and the kept indices *)
  assert (HS : exists next rest,
    (if (length (lr_indices h) =? lr_max h)%nat
     then match lr_indices h with [] => None | f :: r => Some (f, r) end
     else Some (length (lr_indices h), lr_indices h)) = Some (next, rest) /\
    (next < m)%nat /\ ~ In next rest /\ (forall i, In i rest -> In i (lr_indices h)) /\ NoDup rest /\
    (S (length rest) <= m)%nat /\ (next < S (length rest))%nat /\ (forall i, In i rest -> (i < S (length rest))%nat) /\
    slots h rest = (if (length acc <? m)%nat then acc else skipn (length acc - m + 1) acc)).
  { rewrite R2. destruct (Nat.eqb_spec (length (lr_indices h)) m) as [He|He].
    - destruct (lr_indices h) as [|f r] eqn:Ei; [cbn in He; lia|]. exists f, r. cbn [length] in *.
      inversion R6; subst. split; [reflexivity|]. split; [specialize (R7 f (or_introl eq_refl)); lia|].
      split; [assumption|]. split; [intros i Hi; right; exact Hi|]. split; [assumption|]. split; [lia|].
      split; [apply (R7 f (or_introl eq_refl))|]. split; [intros i Hi; apply (R7 i (or_intror Hi))|].
      match goal with |- context [Nat.ltb (length acc) ?mm] => set (m0 := mm) in *; destruct (Nat.ltb_spec (length acc) m0); [lia|] end.
      unfold lastn in R4. unfold slots in R4. cbn [map] in R4. rewrite Nat.add_1_r, <- tl_skipn, <- R4. reflexivity.
    - exists (length (lr_indices h)), (lr_indices h). split; [reflexivity|]. split; [lia|].
      split; [intros Hin; apply R7 in Hin; lia|]. split; [auto|]. split; [assumption|]. split; [lia|]. split; [lia|].
      split; [intros i Hi; apply R7 in Hi; lia|].
      destruct (Nat.ltb_spec (length acc) m); [|lia]. rewrite R4. unfold lastn.
      replace (length acc - m)%nat with 0%nat by lia. reflexivity. }
  destruct HS as (next & rest & -> & S1 & S2 & S3 & S4 & S5 & S6 & S7 & S8).
  rewrite R2. destruct (Nat.ltb_spec next m); [|lia].
  eexists. split; [reflexivity|].
  assert (NE : forall i, In i rest -> i <> next) by (intros i Hi ->; contradiction).
  constructor; cbn [lr_n lr_max lr_scaling lr_scale lr_indices lr_dx lr_dg lr_dot]; auto.
  - unfold slots. rewrite map_app. cbn [map lr_dx lr_dg]. rewrite !set_same. rewrite lastn_snoc by exact Hm. f_equal.
    rewrite <- S8. unfold slots. apply map_ext_in. intros i Hi. rewrite !set_other by auto. reflexivity.
  - intros i Hi. apply in_app_iff in Hi. destruct Hi as [Hi|[<-|[]]].
    + rewrite !set_other by auto. apply R5. auto.
    + rewrite !set_same. reflexivity.
  - apply nodup_snoc; auto.
  - intros i Hi. rewrite app_length. cbn [length]. apply in_app_iff in Hi. destruct Hi as [Hi|[<-|[]]]; [apply S7 in Hi|]; lia.
  - rewrite app_length. cbn [length]. lia.
  - rewrite rev_app_distr. reflexivity.
Qed.

Lemma new_ok n m scaling junk : ring_ok n m scaling (lr_new n m scaling junk) [].
Proof.
  constructor; cbn; auto; try (intros; contradiction).
  - constructor.
  - lia.
Qed.

(** ** the two loops compute the product *)
Lemma loop2_app h l1 l2 dir al : lr_loop2 h (l1 ++ l2) dir al = lr_loop2 h l2 (lr_loop2 h l1 dir al) al.
Proof. revert dir. induction l1 as [|i l1 IH]; intros dir; cbn [lr_loop2 app]; [reflexivity|]. apply IH. Qed.
Lemma loops_ok h n gamma : lr_n h = n -> forall idx,
  (forall i, In i idx -> (i < length (lr_indices h))%nat) ->
  (forall i, In i idx -> lr_dot h i = dot n (lr_dx h i) (lr_dg h i)) -> NoDup idx ->
  forall g al, exists dir al', lr_loop1 h (rev idx) g al = Some (dir, al') /\
    (forall i, ~ In i idx -> al' i = al i) /\
    lr_loop2 h idx (fun i => gamma * dir i) al' = bfgs_op n gamma (slots h idx) g.
Proof.
  intros Hn idx. induction idx as [|k l IH] using rev_ind; intros HB HD HN g al.
  - exists g, al. split; [reflexivity|]. split; [reflexivity|]. reflexivity.
  - rewrite rev_app_distr. cbn [rev app lr_loop1].
    assert (Hk : In k (l ++ [k])) by (apply in_app_iff; right; left; reflexivity).
    pose proof (HB k Hk) as Hb. apply Nat.ltb_lt in Hb. rewrite Hb.
    assert (HNl : NoDup l /\ ~ In k l).
    { apply NoDup_rev in HN. rewrite rev_app_distr in HN. cbn in HN. inversion HN; subst. rewrite <- in_rev in H1.
      split; [apply NoDup_rev in H2; rewrite rev_involutive in H2; exact H2|exact H1]. }
    destruct HNl as [HNl Hkl].
    set (a := dot (lr_n h) (lr_dx h k) g / lr_dot h k).
    destruct (IH (fun i Hi => HB i (proj2 (in_app_iff _ _ _) (or_introl Hi))) (fun i Hi => HD i (proj2 (in_app_iff _ _ _) (or_introl Hi))) HNl
              (vsub g (vscale a (lr_dg h k))) (set al k a)) as (dir & al' & E1 & E2 & E3).
    exists dir, al'. split; [exact E1|]. split.
    + intros i Hi. rewrite E2 by (intros Q; apply Hi, in_app_iff; auto).
      apply set_other. intros ->. contradiction.
    + rewrite loop2_app, E3. cbn [lr_loop2]. unfold slots, bfgs_op. rewrite map_app, fold_left_app. cbn [map fold_left fst snd].
      fold (slots h l). fold (bfgs_op n gamma (slots h l)). set (H := bfgs_op n gamma (slots h l)).
      rewrite E2 by exact Hkl. rewrite set_same. subst a. rewrite Hn, (HD k Hk).
      unfold bfgs_step. cbv zeta. apply functional_extensionality. intros i. unfold vadd, vscale.
      assert (EQ : (fun i0 => g i0 - 1 / dot n (lr_dx h k) (lr_dg h k) * dot n (lr_dx h k) g * lr_dg h k i0) =
        vsub g (fun i0 => dot n (lr_dx h k) g / dot n (lr_dx h k) (lr_dg h k) * lr_dg h k i0)).
      { apply functional_extensionality. intros j. unfold vsub, Rdiv. ring. }
      rewrite EQ. unfold Rdiv. ring.
Qed.
Lemma multiply_ok n m scaling h acc junk g : ring_ok n m scaling h acc ->
  lr_multiply h junk g = Some (bfgs_op n (lbfgs_gamma n scaling acc) (lastn m acc) g).
Proof.
  intros [R1 R2 R3 R4 R5 R6 R7 R8 R9]. unfold lr_multiply.
  assert (G : lbfgs_gamma n scaling acc = if scaling then lr_scale h else 1).
  { unfold lbfgs_gamma. rewrite R9. destruct scaling; [|reflexivity]. destruct (rev acc); reflexivity. }
  rewrite G.
  destruct (loops_ok h n (if scaling then lr_scale h else 1) R1 (lr_indices h) R7 R5 R6 g junk) as (dir & al & -> & _ & E).
  rewrite R3. rewrite <- R4, <- E. destruct scaling; [reflexivity|].
  do 2 f_equal. apply functional_extensionality. intros i. ring.
Qed.

Definition accepted (n : nat) (l : list (vec * vec)) := filter (curved n) l.
Lemma gamma_pos n scaling l : 0 < lbfgs_gamma n scaling (accepted n l).
Proof.
  unfold lbfgs_gamma. destruct scaling; [|lra]. destruct (rev (accepted n l)) as [|p r] eqn:E; [lra|].
  apply scale_pos. assert (H : In p (accepted n l)) by (rewrite in_rev, E; left; reflexivity).
  apply filter_In in H. apply H.
Qed.
Lemma bgamma_pos n scaling l : 0 < bfgs_gamma n scaling (accepted n l).
Proof.
  unfold bfgs_gamma. destruct scaling; [|lra]. destruct (accepted n l) as [|p r] eqn:E; [lra|].
  apply scale_pos. assert (H : In p (accepted n l)) by (rewrite E; left; reflexivity).
  apply filter_In in H. apply H.
Qed.
Lemma lbfgs_spd n m scaling l : spd n (bfgs_op n (lbfgs_gamma n scaling (accepted n l)) (lastn m (accepted n l))).
Proof.
  apply spd_op; [apply gamma_pos|]. intros p Hp. apply lastn_in in Hp. apply filter_In in Hp. apply Hp.
Qed.
Lemma accepted_snoc n l p : accepted n (l ++ [p]) = if curved n p then accepted n l ++ [p] else accepted n l.
Proof. unfold accepted. rewrite filter_app. cbn [filter]. destruct (curved n p); [reflexivity|apply app_nil_r]. Qed.

Lemma dot_zero n a b : ~ nonzero n b -> dot n a b = 0.
Proof.
  intros H. destruct (Req_dec (dot n a b) 0) as [E|E]; [exact E|]. exfalso. apply H. eapply dot_zero_nonzero. exact E.
Qed.
(** the sign test decides whether the gradient is non zero *)
Lemma sign_test n H g d : spd n H -> veq n d (fun i => - H g i) ->
  (nonzero n g -> dot n d g < 0) /\ (~ nonzero n g -> dot n d g = 0).
Proof.
  intros HS Hd. split.
  - intros Hg. rewrite (dot_ext n d (fun i => -1 * H g i) g g); [|intros i Hi; rewrite Hd by exact Hi; ring|apply veq_refl].
    rewrite dot_scal_l. rewrite dot_comm. pose proof (spd_pos n H HS g Hg). lra.
  - intros Hg. apply dot_zero. exact Hg.
Qed.

Lemma lbfgs_next_ok n m scaling o l junk previous current : (0 < m)%nat ->
  ring_ok n m scaling (lb_h o) (accepted n l) -> lb_pd o = true ->
  let l' := l ++ [pair_of previous current] in
  exists h' b, lbfgs_next o junk previous current =
     Some (mkLB h' b, vscale (-1) (bfgs_op n (lbfgs_gamma n scaling (accepted n l')) (lastn m (accepted n l')) (s_gradient current)), b) /\
     ring_ok n m scaling h' (accepted n l') /\ (b = true <-> nonzero n (s_gradient current)).
Proof.
  intros Hm HR HP l'. unfold lbfgs_next. rewrite HP.
  destruct (update_ok n m scaling (lb_h o) (accepted n l) (vscale (s_step previous) (s_direction previous))
    (vsub (s_gradient current) (s_gradient previous)) Hm HR) as (h' & -> & HR').
  assert (HR2 : ring_ok n m scaling h' (accepted n l')) by (unfold l'; rewrite accepted_snoc; exact HR').
  clear HR'. rewrite (multiply_ok n m scaling h' (accepted n l') junk _ HR2). rewrite (ro_n _ _ _ _ _ HR2).
  set (Hop := bfgs_op n (lbfgs_gamma n scaling (accepted n l')) (lastn m (accepted n l'))).
  destruct (sign_test n Hop (s_gradient current) (vscale (-1) (Hop (s_gradient current))) (lbfgs_spd n m scaling l')) as [T1 T2].
  { intros i _. unfold vscale. ring. }
  destruct (Rle_dec 0 _) as [Hle|Hle]; eexists; eexists; (split; [reflexivity|]); split; auto; split; intros Q; try discriminate; auto.
  - apply T1 in Q. lra.
  - destruct (Req_dec (dot n (vscale (-1) (Hop (s_gradient current))) (s_gradient current)) 0); [lra|]. eapply dot_zero_nonzero. eassumption.
Qed.
Lemma lbfgs_reach_ok n m scaling o l : (0 < m)%nat -> lbfgs_reach n m scaling o l ->
  ring_ok n m scaling (lb_h o) (accepted n l) /\ lb_pd o = true.
Proof.
  intros Hm H. induction H as [junk|o l junk pr cu o' d HR [I1 I2] E].
  - split; [apply new_ok|reflexivity].
  - destruct (lbfgs_next_ok n m scaling o l junk pr cu Hm I1 I2) as (h' & b & E' & R' & _).
    rewrite E in E'. injection E' as -> _ <-. split; [exact R'|reflexivity].
Qed.

(** ** the dense matrix *)
Lemma self_adjoint_sym A i j : self_adjoint A i j = self_adjoint A j i.
Proof.
  unfold self_adjoint. destruct (Nat.leb_spec j i), (Nat.leb_spec i j); auto; try lia.
  replace j with i by lia. reflexivity.
Qed.
Lemma self_adjoint_scale A c i j : self_adjoint (fun i j => A i j * c) i j = self_adjoint A i j * c.
Proof. unfold self_adjoint. destruct (j <=? i)%nat; reflexivity. Qed.
Lemma self_adjoint_update n H dx dg d i j :
  let S := self_adjoint H in let row := vec_mat n dg S in
  self_adjoint (bfgs_update n H dx dg d) i j =
  S i j + 1 / d * ((1 + 1 / d * dot n row dg) * (dx i * dx j) - dx i * row j - dx j * row i).
Proof.
  intros S row. unfold bfgs_update. cbv zeta. fold S. fold row.
  assert (E : dot n (vec_mat n (vscale (1 / d) dg) S) dg = 1 / d * dot n row dg).
  { rewrite <- dot_scal_l. apply dot_ext; [|apply veq_refl]. intros k _. unfold row, vec_mat, vscale. apply dot_scal_l. }
  rewrite E. unfold self_adjoint at 1. subst S. unfold self_adjoint at 1.
  destruct (Nat.leb_spec j i) as [L|L].
  - reflexivity.
  - assert (L2 : (i <=? j)%nat = true) by (apply Nat.leb_le; lia). rewrite L2. ring.
Qed.
Lemma vec_mat_sym n v A : (forall i j, A i j = A j i) -> forall j, vec_mat n v A j = mat_vec n A v j.
Proof. intros HA j. unfold vec_mat, mat_vec. rewrite dot_comm. apply dot_ext; [|apply veq_refl]. intros i _. apply HA. Qed.
Lemma mat_vec_dot n A : (forall i j, A i j = A j i) -> forall u v, dot n u (mat_vec n A v) = dot n (mat_vec n A u) v.
Proof.
  intros HA u v.
  assert (G : forall k m, dot k u (fun i => dot m (A i) v) = dot m (fun j => dot k (A j) u) v).
  { induction k as [|k IH]; intros m; cbn [dot].
    - induction m; cbn [dot]; [reflexivity|]. rewrite <- IHm. ring.
    - rewrite IH. clear IH. induction m; cbn [dot]; [ring|]. rewrite <- IHm. rewrite (HA m k). ring. }
  apply G.
Qed.
Lemma update_is_step n H dx dg v i : dot n dx dg <> 0 ->
  mat_vec n (self_adjoint (bfgs_update n H dx dg (dot n dx dg))) v i =
  bfgs_step n dx dg (mat_vec n (self_adjoint H)) v i.
Proof.
  intros Hd. set (S := self_adjoint H). assert (HS : forall i j, S i j = S j i) by (intros; apply self_adjoint_sym).
  set (d := dot n dx dg) in *. set (row := vec_mat n dg S).
  assert (HR : forall j, row j = mat_vec n S dg j) by (apply vec_mat_sym; exact HS).
  unfold mat_vec at 1.
  rewrite (dot_ext n _ (fun j => 1 * (fun j => 1 * S i j + (1 / d * ((1 + 1 / d * dot n row dg) * dx i) - 1 / d * row i) * dx j) j + (- (1 / d * dx i)) * row j) v v);
    [|intros j _; rewrite self_adjoint_update; fold S; fold row; ring|apply veq_refl].
  rewrite dot_lin, dot_lin.
  unfold bfgs_step. cbv zeta. fold d.
  assert (E1 : forall k, mat_vec n S (fun j => v j - 1 / d * dot n dx v * dg j) k = mat_vec n S v k - 1 / d * dot n dx v * row k).
  { intros k. rewrite HR. unfold mat_vec.
    rewrite (dot_ext n (S k) (S k) _ (fun j => 1 * v j + (- (1 / d * dot n dx v)) * dg j)); [|apply veq_refl|intros j _; ring].
    rewrite dot_lin_r. ring. }
  assert (E2 : dot n dg (mat_vec n S (fun j => v j - 1 / d * dot n dx v * dg j)) = dot n row v - 1 / d * dot n dx v * dot n row dg).
  { rewrite (dot_ext n dg dg _ (fun k => 1 * mat_vec n S v k + (- (1 / d * dot n dx v)) * row k)); [|apply veq_refl|intros k _; rewrite E1; ring].
    rewrite dot_lin_r. rewrite mat_vec_dot by exact HS.
    rewrite (dot_ext n (mat_vec n S dg) row v v); [|intros k _; symmetry; apply HR|apply veq_refl].
    rewrite (dot_comm n dg row). ring. }
  rewrite E1, E2. unfold mat_vec. ring.
Qed.

Record dense_ok (n : nat) (scaling : bool) (o : bfgs) (acc : list (vec * vec)) : Prop := {
  do_n : bf_n o = n; do_s : bf_scaling o = scaling;
  do_init : bf_init o = match acc with [] => false | _ => true end;
  do_id : acc = [] -> bf_h o = (fun i j => if (i =? j)%nat then 1 else 0);
  do_op : forall v, veq n (mat_vec n (self_adjoint (bf_h o)) v) (bfgs_op n (bfgs_gamma n scaling acc) acc v) }.
Lemma dot_unit n i v : dot n (fun j => if (i =? j)%nat then 1 else 0) v = if (i <? n)%nat then v i else 0.
Proof.
  induction n as [|n IH]; cbn [dot]; [reflexivity|]. rewrite IH.
  destruct (Nat.ltb_spec i n), (Nat.ltb_spec i (S n)), (Nat.eqb_spec i n); subst; try lia; ring.
Qed.
Lemma identity_op n v i : (i < n)%nat -> mat_vec n (self_adjoint (fun i j => if (i =? j)%nat then 1 else 0)) v i = v i.
Proof.
  intros Hi. unfold mat_vec.
  rewrite (dot_ext n _ (fun j => if (i =? j)%nat then 1 else 0) v v); [|intros j _; unfold self_adjoint|apply veq_refl].
  - rewrite dot_unit. apply Nat.ltb_lt in Hi. rewrite Hi. reflexivity.
  - rewrite (Nat.eqb_sym j i). destruct (j <=? i)%nat; reflexivity.
Qed.
Lemma bnew_ok n scaling : dense_ok n scaling (bfgs_new n scaling) [].
Proof.
  constructor; try reflexivity. intros v i Hi. cbn [bfgs_new bf_h]. rewrite identity_op by exact Hi.
  unfold bfgs_gamma, bfgs_op. destruct scaling; cbn [fold_left]; ring.
Qed.
Lemma dense_update n scaling o acc p : dense_ok n scaling o acc -> curved n p = true ->
  let H0 := if negb (bf_init o) && bf_scaling o
            then (fun i j => bf_h o i j * (dot n (fst p) (snd p) / dot n (snd p) (snd p))) else bf_h o in
  forall pd, dense_ok n scaling (mkBF n scaling (bfgs_update n H0 (fst p) (snd p) (dot n (fst p) (snd p))) true pd) (acc ++ [p]).
Proof.
  intros [D1 D2 D3 D4 D5] Hp H0 pd. constructor; cbn [bf_n bf_scaling bf_init bf_h]; auto.
  - destruct acc; reflexivity.
  - intros Q. destruct acc; discriminate.
  - intros v i Hi. rewrite update_is_step by (apply Rgt_not_eq, curved_pos, Hp).
    unfold bfgs_op. rewrite fold_left_app. cbn [fold_left]. apply step_ext; [|exact Hi]. clear v i Hi. intros v i Hi.
    subst H0. destruct acc as [|a acc].
    + rewrite D3, D2. rewrite (D4 eq_refl). cbn [negb andb app fold_left bfgs_gamma]. destruct scaling.
      * unfold mat_vec. rewrite (dot_ext n _ (fun j => eigenvalue_scale n p * self_adjoint (fun i j => if (i =? j)%nat then 1 else 0) i j) v v);
          [|intros j _; rewrite self_adjoint_scale; unfold eigenvalue_scale; ring|apply veq_refl].
        rewrite dot_scal_l. fold (mat_vec n (self_adjoint (fun i j => if (i =? j)%nat then 1 else 0)) v i). rewrite identity_op by exact Hi. reflexivity.
      * rewrite identity_op by exact Hi. unfold bfgs_gamma; cbn [app]; ring.
    + rewrite D3. cbn [negb andb]. apply D5. exact Hi.
Qed.
Lemma bfgs_spd n scaling l : spd n (bfgs_op n (bfgs_gamma n scaling (accepted n l)) (accepted n l)).
Proof. apply spd_op; [apply bgamma_pos|]. intros p Hp. apply filter_In in Hp. apply Hp. Qed.
Lemma bfgs_next_ok n scaling o l previous current :
  dense_ok n scaling o (accepted n l) -> bf_pd o = true ->
  let l' := l ++ [pair_of previous current] in
  exists o' d, bfgs_next o previous current = Some (o', d, bf_pd o') /\
     veq n d (fun i => - bfgs_op n (bfgs_gamma n scaling (accepted n l')) (accepted n l') (s_gradient current) i) /\
     dense_ok n scaling o' (accepted n l') /\ (bf_pd o' = true <-> nonzero n (s_gradient current)).
Proof.
  intros HD HP l'. unfold bfgs_next. rewrite HP. cbv zeta. rewrite (do_n _ _ _ _ HD).
  set (p := pair_of previous current). set (g := s_gradient current).
  set (X := if Rle_dec _ _ then _ else _).
  assert (HX : exists H i, X = (H, i) /\ forall pd, dense_ok n scaling (mkBF n scaling H i pd) (accepted n l')).
  { subst X. unfold l'. rewrite accepted_snoc. fold p. unfold curved.
    change (vscale (s_step previous) (s_direction previous)) with (fst p).
    change (vsub g (s_gradient previous)) with (snd p).
    destruct (Rle_dec (dot n (fst p) (snd p)) secant_tolerance) as [Hle|Hle].
    - exists (bf_h o), (bf_init o). split; [reflexivity|]. intros pd. destruct HD as [D1 D2 D3 D4 D5]. constructor; auto.
    - eexists; eexists. split; [reflexivity|]. intros pd. apply dense_update; [exact HD|].
      unfold curved. destruct (Rle_dec _ _); [contradiction|reflexivity]. }
  destruct HX as (H & i & -> & HX).
  set (d := mat_vec n (self_adjoint H) (vscale (-1) g)).
  set (Hop := bfgs_op n (bfgs_gamma n scaling (accepted n l')) (accepted n l')).
  assert (HV : veq n d (fun i => - Hop g i)).
  { intros k Hk. pose proof (do_op _ _ _ _ (HX true) (vscale (-1) g) k Hk) as Q. cbn [bf_h] in Q. unfold d. rewrite Q. fold Hop. unfold vscale.
    rewrite (spd_mul n Hop (bfgs_spd n scaling l')). ring. }
  destruct (sign_test n Hop g d (bfgs_spd n scaling l') HV) as [T1 T2].
  rewrite (do_s _ _ _ _ HD).
  destruct (Rle_dec 0 _) as [Hle|Hle]; [exists (mkBF n scaling H i false)|exists (mkBF n scaling H i true)]; exists d; (split; [reflexivity|]); (split; [exact HV|]); (split; [apply HX|]);
    cbn [bf_pd]; split; intros Q; try discriminate; auto.
  - apply T1 in Q. unfold g in *. lra.
  - destruct (Req_dec (dot n d g) 0); [unfold g in *; lra|]. eapply dot_zero_nonzero. eassumption.
Qed.
Lemma bfgs_reach_ok n scaling o l : bfgs_reach n scaling o l -> dense_ok n scaling o (accepted n l) /\ bf_pd o = true.
Proof.
  intros H. induction H as [|o l pr cu o' d HR [I1 I2] E].
  - split; [apply bnew_ok|reflexivity].
  - destruct (bfgs_next_ok n scaling o l pr cu I1 I2) as (o2 & d2 & E' & _ & R' & _).
    rewrite E in E'. injection E' as <- _ Ep. split; [exact R'|]. symmetry. exact Ep.
Qed.
