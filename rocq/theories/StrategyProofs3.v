(** Proofs for the scalar part of the dogleg strategy. *)
Require Import List ZArith Lia Bool.
From Verif Require Import Dbl DblArith DblArithProofs DblArithProofs2 TrustRegionModel
  StrategyModel StrategySpec StrategyProofs.
Import ListNotations.
Open Scope Z_scope.

Lemma dmul_mono : forall a b c, 0 < c -> dle (Fin 0) a = true -> dle a b = true ->
  dle (dmul a (Fin c)) (dmul b (Fin c)) = true.
Proof.
  pose proof ONEU_pos as ON.
  intros [| | x |] [| | y |] c C A L; try discriminate; cbn [dmul].
  - simpl in L. apply Z.leb_le in L. apply rnd_mono; try lia. apply Z.mul_le_mono_nonneg_r; [lia|]. apply Z.mul_le_mono_nonneg_r; lia.
  - destruct c; try lia. cbn [inf_of_sign].
    pose proof (rnd_not_nan (x * Z.pos p) ONEU). destruct (rnd (x * Z.pos p) ONEU); auto; congruence.
  - destruct c; try lia. reflexivity.
Qed.

Lemma mf : exists c, MU_FACTOR = Fin c /\ 0 < c.
Proof. eexists. split; [vm_compute; reflexivity|reflexivity]. Qed.

Definition mu_it (n : nat) : dbl := Nat.iter n (fun m => dmul m MU_FACTOR) MIN_MU.
Lemma mu_it_pos : forall n, (n < 9)%nat -> dle (Fin 0) (mu_it n) = true.
Proof. intros n N. do 9 (destruct n as [|n]; [vm_compute; reflexivity|]). lia. Qed.
Lemma mu_8 : dlt (mu_it 8) MAX_MU = false. Proof. vm_compute. reflexivity. Qed.
#[global] Opaque MU_FACTOR MIN_MU MAX_MU.

Lemma dlt_false_mono : forall a b m, dle a b = true -> dlt a m = false -> m <> NaN -> dlt b m = false.
Proof. intros [| | |] [| | |] [| | |]; simpl; try discriminate; try congruence; lia. Qed.
Lemma max_mu_nn : MAX_MU <> NaN. Proof. vm_compute. discriminate. Qed.

Lemma mu_step : forall n mu, dle (mu_it n) mu = true -> (n < 9)%nat ->
  dle (mu_it (S n)) (dmul mu MU_FACTOR) = true.
Proof.
  intros n mu L N. change (mu_it (S n)) with (dmul (mu_it n) MU_FACTOR).
  destruct mf as (c & -> & C). apply dmul_mono; auto. apply mu_it_pos; auto.
Qed.

Lemma mu_grow : forall mu, dle (Fin 0) mu = true -> dle mu (dmul mu MU_FACTOR) = true.
Proof.
  assert (EQ : MU_FACTOR = Fin (10 * ONEU)) by (vm_compute; reflexivity). rewrite EQ.
  intros [| | z |] P; try discriminate P.
  - cbn [dmul]. replace (z * (10 * ONEU)) with (10 * z * ONEU) by ring. rewrite rnd_scale1 by apply ONEU_pos.
    apply Z.leb_le in P. unfold rnd. destruct (Z.leb_spec 0 (10 * z)); [|lia]. rewrite rnd_pos_rv.
    destruct (MAXU <? rv (10 * z) 1); [reflexivity|]. apply Z.leb_le.
    pose proof (rv_error (10 * z) 1 ltac:(lia) ltac:(lia)) as R. rewrite Z.mul_1_r in R.
    assert (Y : z = 0 \/ 1 <= z) by lia. destruct Y; [subst; apply rv_nonneg; lia|]. lia.
  - pose proof ONEU_pos. cbn [dmul]. destruct (10 * ONEU) eqn:X; try lia. reflexivity.
Qed.

(** at most eight linear solves *)
Lemma gauss_newton_bound : forall f n t mu st, (n <= 8)%nat -> (8 - n <= f)%nat -> dle (mu_it n) mu = true ->
  exists m r l, gauss_newton f t mu st = Some (m, r, l) /\ (length l <= 8 - n)%nat /\ dle mu m = true.
Proof.
  induction f as [|f IH]; intros n t mu st N F L; cbn [gauss_newton].
  - assert (n = 8)%nat by lia. subst n.
    rewrite (dlt_false_mono _ _ _ L mu_8 max_mu_nn). do 3 eexists. split; [reflexivity|].
    split; [cbn [length]; lia|]. destruct (dle_not_nan _ _ L). apply dle_refl; auto.
  - destruct (dle_not_nan _ _ L) as [_ NN].
    destruct (dlt mu MAX_MU) eqn:M.
    2:{ do 3 eexists. split; [reflexivity|]. split; [cbn [length]; lia|]. apply dle_refl; auto. }
    assert (n <> 8)%nat. { intros ->. rewrite (dlt_false_mono _ _ _ L mu_8 max_mu_nn) in M. discriminate. }
    destruct (t mu) eqn:T.
    1,2,4: do 3 eexists; split; [reflexivity|]; split; [cbn [length]; lia|]; apply dle_refl; auto.
    destruct (IH (S n) t (dmul mu MU_FACTOR) LS_FAILURE ltac:(lia) ltac:(lia) (mu_step n mu L ltac:(lia)))
      as (m & r & l & E & A & B).
    rewrite E. do 3 eexists. split; [reflexivity|]. split; [cbn [length]; lia|].
    eapply dle_trans; [|exact B].
    apply mu_grow. eapply dle_trans; [apply (mu_it_pos n); lia|exact L].
Qed.

(** invariant of the dogleg state *)
Record dl_inv (s : dl) : Prop := mkDlInv {
  di_radius : dle (Fin 0) (dl_radius s) = true;
  di_mu : dle MIN_MU (dl_mu s) = true }.

Lemma min_mu_nn : MIN_MU <> NaN. Proof. vm_compute. discriminate. Qed.
Lemma mu_it0 : mu_it 0 = MIN_MU. Proof. reflexivity. Qed.

Lemma dl_compute_spec : forall t gn ca ip s, dl_inv s ->
  exists s' st l, dl_compute t gn ca ip s = Some (s', st, l) /\ (length l <= 8)%nat /\
    dl_radius s' = dl_radius s /\ dle (dl_mu s) (dl_mu s') = true /\ dl_reuse s' = true /\ dl_inv s'.
Proof.
  intros t gn ca ip s [R M]. unfold dl_compute. destruct (dle_not_nan _ _ M) as [_ NN].
  destruct (dl_reuse s).
  - do 3 eexists. split; [reflexivity|]. split; [cbn [length]; lia|]. split; [reflexivity|].
    split; [apply dle_refl; auto|]. split; [reflexivity|]. split; auto.
  - destruct (gauss_newton_bound 20 0 t (dl_mu s) LS_FAILURE ltac:(lia) ltac:(lia) M) as (m & r & l & E & A & B).
    rewrite E. do 3 eexists. split; [reflexivity|]. split; [lia|]. split; [reflexivity|].
    split; [exact B|]. split; [reflexivity|]. split; auto. cbn. eapply dle_trans; eauto.
Qed.

Lemma half_bounds : forall r, dle (Fin 0) r = true -> dle (Fin 0) (dmul r (dq 1 2)) = true.
Proof.
  intros r R. assert (X : dq 1 2 = Fin (2 ^ 1073)) by (vm_compute; reflexivity). rewrite X.
  replace (Fin 0) with (dmul (Fin 0) (Fin (2 ^ 1073))) by (vm_compute; reflexivity).
  apply dmul_mono; auto. reflexivity.
Qed.

Lemma dmax_ge_l : forall a b, a <> NaN -> dle a (dmax a b) = true.
Proof. intros a b A. unfold dmax. destruct (dlt a b) eqn:E; [apply dlt_le; auto|apply dle_refl; auto]. Qed.

Lemma dl_apply_inv : forall e s s', dl_inv s -> dl_apply e s = Some s' -> dl_inv s'.
Proof.
  intros e s s' I H. destruct e as [t gn ca ip|[q|q|]]; cbn [dl_apply] in H.
  - destruct (dl_compute_spec t gn ca ip s I) as (s1 & st & l & E & _ & _ & _ & _ & J). rewrite E in H. injection H as <-. auto.
  - unfold dl_accepted in H. destruct (dlt (Fin 0) q); [|discriminate]. injection H as <-. destruct I as [R M].
    split; cbn [dl_radius dl_mu].
    + set (r := if dlt q DEC_THRESHOLD then dmul (dl_radius s) (dq 1 2) else dl_radius s).
      assert (R2 : dle (Fin 0) r = true) by (unfold r; destruct (dlt q DEC_THRESHOLD); auto; apply half_bounds; auto).
      destruct (dlt INC_THRESHOLD q); auto. eapply dle_trans; [exact R2|]. apply dmax_ge_l. apply (dle_not_nan _ _ R2).
    + apply dmax_ge_l. apply min_mu_nn.
  - injection H as <-. destruct I as [R M]. split; cbn; auto. apply half_bounds; auto.
  - injection H as <-. destruct I as [R M]. split; cbn; auto.
    eapply dle_trans; [exact M|]. apply mu_grow. eapply dle_trans; [|exact M]. exact (mu_it_pos 0 ltac:(lia)).
Qed.

Lemma dl_run_inv : forall l s s', dl_inv s -> dl_run l s = Some s' -> dl_inv s'.
Proof.
  induction l as [|e l IH]; intros s s' I R; cbn [dl_run] in R.
  - injection R as <-. auto.
  - destruct (dl_apply e s) as [s1|] eqn:N; [|discriminate].
    eapply IH; [|exact R]. eapply dl_apply_inv; eauto.
Qed.

(** once mu has reached kMaxMu every computation fails without a linear solve *)
Definition stuck (s : dl) : Prop := dlt (dl_mu s) MAX_MU = false /\ dle (Fin 0) (dl_mu s) = true /\ dl_reuse s = false.

Lemma stuck_compute : forall t gn ca ip s, stuck s ->
  exists s', dl_compute t gn ca ip s = Some (s', LS_FAILURE, []) /\ dl_radius s' = dl_radius s /\
    stuck (dl_invalid s') /\ dl_radius (dl_invalid s') = dl_radius s.
Proof.
  intros t gn ca ip s (M & P & R). unfold dl_compute. rewrite R.
  unfold gauss_newton at 1. rewrite M. eexists. split; [reflexivity|]. split; [reflexivity|].
  split; [|reflexivity]. split; [|split; [|reflexivity]]; cbn [dl_invalid dl_mu].
  - eapply dlt_false_mono; [apply mu_grow; exact P|exact M|apply max_mu_nn].
  - eapply dle_trans; [exact P|]. apply mu_grow; exact P.
Qed.
