From Coq Require Import Reals List Arith ZArith Bool Lia Lra.
From Verif Require Import NumDiffModel NumDiffSpec NumDiffProofs.
Import ListNotations.
Open Scope R_scope.

Section Blocks.
Variables (m : Method) (o : Options) (f : Functor) (nr : nat) (r0 : nat -> R) (ja jb : nat -> nat -> R) (x : Point).
Hypothesis Ok : sensible m o.
Lemma one_column b j junk s : valid x b j -> parameters s = x ->
  match match m with
        | RIDDERS => EvaluateRiddersJacobianColumn o f b j nr (step_size m o (coordinate x b j)) (nth b x []) r0 ja jb junk s
        | _ => EvaluateJacobianColumn m f b j (step_size m o (coordinate x b j)) (nth b x []) r0 s
        end with
  | (Some c, s') => parameters s' = x /\ column m o f nr r0 x b j c /\ exists cs, calls s' = cs ++ calls s /\ forall p, In p cs -> sampled m o x b j p
  | (None, s') => column_fails m o f r0 x b j /\ exists cs, calls s' = cs ++ calls s /\ forall p, In p cs -> sampled m o x b j p
  end.
Proof.
  intros V P. rewrite step_size_step. pose proof (step_positive m o (coordinate x b j)) as Hp. set (h := step m o (coordinate x b j)) in *. assert (h <> 0) as Hh by lra.
  unfold column, column_fails, sampled. fold h. destruct m eqn:Em.
  - pose proof (column_spec CENTRAL f r0 x b j h s V P Hh) as C. unfold difference in C. destruct (central f x b j h) as [q|] eqn:Eq.
    + destruct C as [c [s' [cs [-> [A [B [D E]]]]]]]. split; [exact A|]. split; [exists q; split; [reflexivity|exact B]|]. exists cs. split; [exact D|]. intros p Ip. destruct (E p Ip) as [->|[_ ->]]; auto.
    + destruct C as [s' [cs [-> [D E]]]]. split; [reflexivity|]. exists cs. split; [exact D|]. intros p Ip. destruct (E p Ip) as [->|[_ ->]]; auto.
  - pose proof (column_spec FORWARD f r0 x b j h s V P Hh) as C. unfold difference in C. destruct (forward f r0 x b j h) as [q|] eqn:Eq.
    + destruct C as [c [s' [cs [-> [A [B [D E]]]]]]]. split; [exact A|]. split; [exists q; split; [reflexivity|exact B]|]. exists cs. split; [exact D|]. intros p Ip. destruct (E p Ip) as [->|[N ->]]; [auto|congruence].
    + destruct C as [s' [cs [-> [D E]]]]. split; [reflexivity|]. exists cs. split; [exact D|]. intros p Ip. destruct (E p Ip) as [->|[N ->]]; [auto|congruence].
  - destruct (Ok eq_refl) as [O1 O2]. apply (ridders_column_spec o f nr x b j h r0 V Hh ltac:(lra) ja jb junk s); [lia|exact P].
Qed.

Lemma columns_spec b : (b < length x)%nat -> forall n j junk jac s, (n + j = length (nth b x []))%nat -> parameters s = x ->
  match Columns m o f nr b (length (nth b x [])) (nth b x []) r0 ja jb n j junk jac s with
  | (true, jac', s') => parameters s' = x /\
      (forall j', (j <= j' < length (nth b x []))%nat -> exists c, column m o f nr r0 x b j' c /\ forall i, (i < nr)%nat -> jac' (i * length (nth b x []) + j')%nat = c i) /\
      (forall p, (p mod length (nth b x []) < j \/ nr <= p / length (nth b x []))%nat -> jac' p = jac p) /\
      exists cs, calls s' = cs ++ calls s /\ forall p, In p cs -> exists j', (j <= j' < length (nth b x []))%nat /\ sampled m o x b j' p
  | (false, jac', s') => (exists j', (j <= j' < length (nth b x []))%nat /\ column_fails m o f r0 x b j') /\
      exists cs, calls s' = cs ++ calls s /\ forall p, In p cs -> exists j', (j <= j' < length (nth b x []))%nat /\ sampled m o x b j' p
  end.
Proof.
  intro Hb. set (size := length (nth b x [])). induction n as [|n IH]; intros j junk jac s Hn P.
  - cbn [Columns]. split; [exact P|]. split; [intros; lia|]. split; [reflexivity|]. exists []. split; [reflexivity|intros ? []].
  - cbn [Columns]. assert (valid x b j) as V by (split; [exact Hb|fold size; lia]). pose proof (one_column b j junk s V P) as C. unfold coordinate in C.
    destruct (match m with RIDDERS => _ | _ => _ end) as [[c|] s'].
    + destruct C as [A [B [cs [D E]]]]. set (jac1 := fun p => _).
      specialize (IH (S j) c jac1 s' ltac:(lia) A). destruct (Columns _ _ _ _ _ _ _ _ _ _ n (S j) c jac1 s') as [[[|] jac'] s''].
      * destruct IH as [I1 [I2 [I3 [cs' [I4 I5]]]]]. split; [exact I1|]. split; [|split].
        -- intros j' Hj. destruct (Nat.eq_dec j' j) as [->|Nj]; [|apply I2; lia]. exists c. split; [exact B|]. intros i Hi.
           assert ((i * size + j) mod size = j)%nat as Em by (rewrite Nat.add_comm, Nat.mod_add by lia; apply Nat.mod_small; lia).
           assert ((i * size + j) / size = i)%nat as Ed by (rewrite Nat.add_comm, Nat.div_add by lia; rewrite Nat.div_small by lia; lia).
           rewrite I3 by (left; rewrite Em; lia). unfold jac1. rewrite Em, Ed, Nat.eqb_refl. cbn [andb]. destruct (Nat.ltb_spec i nr); [reflexivity|lia].
        -- intros p Hp. rewrite I3 by lia. unfold jac1. destruct (Nat.eqb_spec (p mod size) j) as [E1|E1]; cbn [andb]; [|reflexivity]. destruct (Nat.ltb_spec (p / size) nr); [lia|reflexivity].
        -- exists (cs' ++ cs). split; [rewrite I4, D, app_assoc; reflexivity|]. intros p Ip. apply in_app_or in Ip. destruct Ip as [Ip|Ip]; [destruct (I5 p Ip) as [j' [J1 J2]]; exists j'; split; [lia|exact J2]|exists j; split; [lia|apply E; exact Ip]].
      * destruct IH as [[j' [I1 I2]] [cs' [I4 I5]]]. split; [exists j'; split; [lia|exact I2]|].
        exists (cs' ++ cs). split; [rewrite I4, D, app_assoc; reflexivity|]. intros p Ip. apply in_app_or in Ip. destruct Ip as [Ip|Ip]; [destruct (I5 p Ip) as [j'' [J1 J2]]; exists j''; split; [lia|exact J2]|exists j; split; [lia|apply E; exact Ip]].
    + destruct C as [B [cs [D E]]]. split; [exists j; split; [lia|exact B]|]. exists cs. split; [exact D|]. intros p Ip. exists j. split; [lia|apply E; exact Ip].
Qed.
Lemma block_spec b junk jac s : (b < length x)%nat -> parameters s = x ->
  match EvaluateJacobianForParameterBlock m o f r0 nr b ja jb junk jac s with
  | (true, jac', s') => parameters s' = x /\ jacobian_of m o f nr r0 x b jac jac' /\
      exists cs, calls s' = cs ++ calls s /\ forall p, In p cs -> exists j, valid x b j /\ sampled m o x b j p
  | (false, jac', s') => (exists j, valid x b j /\ column_fails m o f r0 x b j) /\
      exists cs, calls s' = cs ++ calls s /\ forall p, In p cs -> exists j, valid x b j /\ sampled m o x b j p
  end.
Proof.
  intros Hb P. unfold EvaluateJacobianForParameterBlock. rewrite P. pose proof (columns_spec b Hb (length (nth b x [])) 0 junk jac s ltac:(lia) P) as C.
  assert (length (nth b x []) = 0%nat -> forall p, snd (fst (Columns m o f nr b (length (nth b x [])) (nth b x []) r0 ja jb (length (nth b x [])) 0 junk jac s)) p = jac p) as Q by (intros Z p; rewrite Z; reflexivity).
  destruct (Columns _ _ _ _ _ _ _ _ _ _ _ _ _ _ _) as [[[|] jac'] s'].
  - destruct C as [A [B [C [cs [D E]]]]]. split; [exact A|]. split; [split|].
    + intros j Hj. apply B. lia.
    + cbv zeta. intros p Hp. destruct (Nat.eq_dec (length (nth b x [])) 0) as [Z|Z].
      * apply Q. exact Z.
      * apply C. right. apply Nat.div_le_lower_bound; [lia|]. lia.
    + exists cs. split; [exact D|]. intros p Ip. destruct (E p Ip) as [j [J1 J2]]. exists j. split; [split; [exact Hb|lia]|exact J2].
  - destruct C as [[j [A B]] [cs [D E]]]. split; [exists j; split; [split; [exact Hb|lia]|exact B]|]. exists cs. split; [exact D|]. intros p Ip. destruct (E p Ip) as [j' [J1 J2]]. exists j'. split; [split; [exact Hb|lia]|exact J2].
Qed.
Lemma blocks_spec junk : forall js b s, (b + length js <= length x)%nat -> parameters s = x ->
  match Blocks m o f r0 nr ja jb junk b js s with
  | (true, js', s') => parameters s' = x /\ length js' = length js /\
      (forall k, nth_error js k = Some None -> nth_error js' k = Some None) /\
      (forall k jac, nth_error js k = Some (Some jac) -> exists jac', nth_error js' k = Some (Some jac') /\ jacobian_of m o f nr r0 x (b + k) jac jac') /\
      exists cs, calls s' = cs ++ calls s /\ forall p, In p cs -> exists k j, (exists jac, nth_error js k = Some (Some jac)) /\ valid x (b + k) j /\ sampled m o x (b + k) j p
  | (false, js', s') => (exists k j, (exists jac, nth_error js k = Some (Some jac)) /\ valid x (b + k) j /\ column_fails m o f r0 x (b + k) j) /\
      exists cs, calls s' = cs ++ calls s /\ forall p, In p cs -> exists k j, (exists jac, nth_error js k = Some (Some jac)) /\ valid x (b + k) j /\ sampled m o x (b + k) j p
  end.
Proof.
  induction js as [|[jac|] js IH]; intros b s Hb P; cbn [Blocks length] in *.
  - split; [exact P|]. split; [reflexivity|]. split; [intros [|k] H; discriminate|]. split; [intros [|k] jac H; discriminate|]. exists []. split; [reflexivity|intros ? []].
  - pose proof (block_spec b junk jac s ltac:(lia) P) as C. destruct (EvaluateJacobianForParameterBlock _ _ _ _ _ _ _ _ _ _ _) as [[[|] jac'] s'].
    + destruct C as [A [B [cs [D E]]]]. specialize (IH (S b) s' ltac:(lia) A). destruct (Blocks _ _ _ _ _ _ _ _ (S b) js s') as [[[|] js'] s''].
      * destruct IH as [I1 [I2 [I3 [I4 [cs' [I5 I6]]]]]]. split; [exact I1|]. split; [cbn; congruence|]. split; [|split].
        -- intros [|k] H; [discriminate|]. cbn in H |- *. apply I3. exact H.
        -- intros [|k] jac0 H; cbn in H |- *; [injection H as <-; exists jac'; split; [reflexivity|]; rewrite Nat.add_0_r; exact B|]. destruct (I4 k jac0 H) as [jac1 [H1 H2]]. exists jac1. split; [exact H1|]. rewrite <- Nat.add_succ_comm. exact H2.
        -- exists (cs' ++ cs). split; [rewrite I5, D, app_assoc; reflexivity|]. intros p Ip. apply in_app_or in Ip. destruct Ip as [Ip|Ip].
           ++ destruct (I6 p Ip) as [k [j [J1 [J2 J3]]]]. exists (S k), j. rewrite <- Nat.add_succ_comm. split; [exact J1|]. split; assumption.
           ++ destruct (E p Ip) as [j [J1 J2]]. exists 0%nat, j. rewrite Nat.add_0_r. split; [exists jac; reflexivity|]. split; assumption.
      * destruct IH as [[k0 [j0 [K1 [K2 K3]]]] [cs' [I5 I6]]]. split; [exists (S k0), j0; rewrite <- Nat.add_succ_comm; split; [exact K1|]; split; assumption|].
        exists (cs' ++ cs). split; [rewrite I5, D, app_assoc; reflexivity|]. intros p Ip. apply in_app_or in Ip. destruct Ip as [Ip|Ip].
        ++ destruct (I6 p Ip) as [k [j [J1 [J2 J3]]]]. exists (S k), j. rewrite <- Nat.add_succ_comm. split; [exact J1|]. split; assumption.
        ++ destruct (E p Ip) as [j [J1 J2]]. exists 0%nat, j. rewrite Nat.add_0_r. split; [exists jac; reflexivity|]. split; assumption.
    + destruct C as [[j [A B]] [cs [D E]]]. split; [exists 0%nat, j; rewrite Nat.add_0_r; split; [exists jac; reflexivity|]; split; assumption|].
      exists cs. split; [exact D|]. intros p Ip. destruct (E p Ip) as [j' [J1 J2]]. exists 0%nat, j'. rewrite Nat.add_0_r. split; [exists jac; reflexivity|]. split; assumption.
  - specialize (IH (S b) s ltac:(lia) P). destruct (Blocks _ _ _ _ _ _ _ _ (S b) js s) as [[[|] js'] s'].
    + destruct IH as [I1 [I2 [I3 [I4 [cs' [I5 I6]]]]]]. split; [exact I1|]. split; [cbn; congruence|]. split; [|split].
      * intros [|k] H; [reflexivity|]. cbn in H |- *. apply I3. exact H.
      * intros [|k] jac0 H; cbn in H |- *; [discriminate|]. destruct (I4 k jac0 H) as [jac1 [H1 H2]]. exists jac1. split; [exact H1|]. rewrite <- Nat.add_succ_comm. exact H2.
      * exists cs'. split; [exact I5|]. intros p Ip. destruct (I6 p Ip) as [k [j [J1 [J2 J3]]]]. exists (S k), j. rewrite <- Nat.add_succ_comm. split; [exact J1|]. split; assumption.
    + destruct IH as [[k0 [j0 [K1 [K2 K3]]]] [cs' [I5 I6]]]. split; [exists (S k0), j0; rewrite <- Nat.add_succ_comm; split; [exact K1|]; split; assumption|].
      exists cs'. split; [exact I5|]. intros p Ip. destruct (I6 p Ip) as [k [j [J1 [J2 J3]]]]. exists (S k), j. rewrite <- Nat.add_succ_comm. split; [exact J1|]. split; assumption.
Qed.
Lemma column_not_fails b j c : m <> RIDDERS -> column m o f nr r0 x b j c -> ~ column_fails m o f r0 x b j.
Proof. intros N. unfold column, column_fails. destruct m; [intros [q [E _]]; rewrite E; discriminate|intros [q [E _]]; rewrite E; discriminate|congruence]. Qed.
End Blocks.
