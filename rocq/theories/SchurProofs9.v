From Coq Require Import Reals List Arith Lia Lra Psatz Bool Sorting.Sorted Sorting.Permutation.
From Verif Require Import SchurModel SchurSpec SchurProofs SchurProofs2 SchurProofs3 SchurProofs4 SchurProofs5 SchurProofs6 SchurProofs7 SchurProofs8.
Import ListNotations.
Open Scope R_scope.

Section Solve.
Variables (invert : bool -> nat -> matrix -> matrix) (nelim : nat) (full : bool) (bs : Structure) (values b : nat -> R) (D : option (nat -> R)).
Variables (st : Eliminator) (gs : list (nat * list Row)) (tail : list Row) (zz : nat).
Hypothesis Inv : inverts invert.
Hypothesis LC : laid_out 0 (cols bs).
Hypothesis LR : laid_out 0 (map block (rows bs)).
Hypothesis Nn : (nelim <= num_cols bs)%nat.
Hypothesis Ini : initialised nelim full bs st gs tail zz.
Hypothesis FR : full = true -> full_rank bs values D nelim.

Notation m := (num_cols bs - nelim)%nat.
Let we := width bs.
Let wf f := width bs (nelim + f).
Let M e i a := normal bs values D e i e a.
Let G e := inverse_of invert full bs values D e.
Let B e a f j := normal bs values D e a (nelim + f) j.
Let C f i f' j := normal bs values D (nelim + f) i (nelim + f') j.
Let g e a := gradient bs values b e a.
Let h f i := gradient bs values b (nelim + f) i.

Lemma group_dec e : In e (map fst gs) \/ ~ In e (map fst gs).
Proof. destruct (in_dec Nat.eq_dec e (map fst gs)); tauto. Qed.
Lemma definite_group e rs : In (e, rs) gs -> full = true -> definite (width bs e) (fun i j => normal bs values D e i e j).
Proof.
  intros I F. destruct (ini_groups _ _ _ _ _ _ _ Ini e rs I) as [He [Nr Hr]]. destruct rs as [|row rs]; [contradiction|]. destruct (Hr row (or_introl eq_refl)) as [[c [cs [Ec [Ei _]]]] _].
  apply (FR F e row c He); [|rewrite Ec; left; reflexivity|exact Ei]. rewrite (ini_rows _ _ _ _ _ _ _ Ini). apply in_or_app. left. apply in_concat. exists (row :: rs). split; [|left; reflexivity]. apply (in_map snd) in I. exact I.
Qed.
Lemma group_inv e : In e (map fst gs) -> symmetric (width bs e) (G e) /\
  (forall i j, (i < width bs e)%nat -> (j < width bs e)%nat -> sumn (width bs e) (fun a => sumn (width bs e) (fun c => normal bs values D e i e a * G e a c * normal bs values D e c e j)) = normal bs values D e i e j).
Proof.
  intro I. apply in_map_iff in I. destruct I as [[e' rs] [Q I]]. cbn in Q. subst e'.
  assert (symmetric (width bs e) (fun i j => normal bs values D e i e j)) as Sy by (intros i j _ _; apply normal_sym).
  split.
  - apply (inv_symmetric invert Inv); [exact Sy|apply normal_psd|apply (definite_group e rs I)].
  - intros i j Hi Hj. apply (inv_inverse invert Inv full (width bs e) (fun i j => normal bs values D e i e j)); [exact Sy|apply normal_psd|apply (definite_group e rs I)|exact Hi|exact Hj].
Qed.
Lemma not_group e : (e < nelim)%nat -> ~ In e (map fst gs) -> (forall a f j, B e a f j = 0) /\ (forall a, g e a = 0) /\ (forall i a, i <> a -> M e i a = 0).
Proof.
  intros He N. assert (forall row x, In row (rows bs) -> In x (cells row) -> block_id x <> e) as Z.
  { intros row x. apply (no_group bs nelim gs tail (ini_rows _ _ _ _ _ _ _ Ini) (hg_weak _ _ _ _ _ _ _ Ini) (ht_weak _ _ _ _ _ _ _ Ini) e row x He N). }
  split; [|split].
  - intros. unfold B. rewrite (normal_ef bs values D nelim) by lia. apply NN_zero_l. exact Z.
  - intros. unfold g. rewrite gradient_GG. apply GG_zero. exact Z.
  - intros i a Na. unfold M. rewrite normal_NN, NN_zero_l by exact Z. destruct (Nat.eqb_spec i a); [contradiction|]. rewrite andb_false_r. lra.
Qed.
Lemma kb e i f j : (e < nelim)%nat -> (i < we e)%nat -> sub we M G e i (fun a' => B e a' f j) = B e i f j.
Proof.
  intros He Hi. destruct (group_dec e) as [I|N].
  - destruct (group_inv e I) as [Gs MGM]. unfold sub, B.
    rewrite (sumn_ext _ _ (fun a => sumn (we e) (fun a' => M e i a * G e a a' * over_rows bs (fun row k => entry bs values row e k a' * entry bs values row (nelim + f) k j)))).
    + rewrite (normal_ef bs values D nelim) by lia. apply (projection bs values D e (G e) (fun row k => entry bs values row (nelim + f) k j) Gs MGM i Hi).
    + intros a _. apply sumn_ext. intros a' _. rewrite (normal_ef bs values D nelim) by lia. reflexivity.
  - destruct (not_group e He N) as [Z _]. rewrite Z. unfold sub. apply sumn_zero. intros. apply sumn_zero. intros. rewrite Z. ring.
Qed.
Lemma kg e i : (e < nelim)%nat -> (i < we e)%nat -> sub we M G e i (fun a' => g e a') = g e i.
Proof.
  intros He Hi. destruct (group_dec e) as [I|N].
  - destruct (group_inv e I) as [Gs MGM]. unfold sub. apply (projection bs values D e (G e) (fun row k => b (position (block row) + k)%nat) Gs MGM i Hi).
  - destruct (not_group e He N) as [_ [Z _]]. rewrite Z. unfold sub. apply sumn_zero. intros. apply sumn_zero. intros. rewrite Z. ring.
Qed.
Lemma msym e a a' : M e a a' = M e a' a. Proof. apply normal_sym. Qed.
Lemma gsym e a a' f i : (e < nelim)%nat -> (a < we e)%nat -> (a' < we e)%nat -> G e a a' = G e a' a \/ forall a0, B e a0 f i = 0.
Proof.
  intros He Ha Ha'. destruct (group_dec e) as [I|N].
  - left. apply (proj1 (group_inv e I)); assumption.
  - right. intro. apply (not_group e He N).
Qed.
Lemma ss_schur f i f' j : SS nelim we G B C f i f' j = schur invert full nelim bs values D (nelim + f) i (nelim + f') j.
Proof.
  unfold SS, schur. f_equal. apply sumn_ext. intros e _. apply sumn_ext. intros a _. apply sumn_ext. intros a' _. unfold B. rewrite (normal_sym bs values D (nelim + f) i e a). reflexivity.
Qed.
Lemma hh_schur f i : hh nelim we G B g h f i = schur_rhs invert full nelim bs values b D (nelim + f) i.
Proof.
  unfold hh, schur_rhs. f_equal. apply sumn_ext. intros e _. apply sumn_ext. intros a _. apply sumn_ext. intros a' _. unfold B. rewrite (normal_sym bs values D (nelim + f) i e a). reflexivity.
Qed.
Lemma schur_sym f i f' j : schur invert full nelim bs values D (nelim + f) i (nelim + f') j = schur invert full nelim bs values D (nelim + f') j (nelim + f) i.
Proof.
  unfold schur. rewrite (normal_sym bs values D (nelim + f) i (nelim + f') j). f_equal. apply sumn_ext. intros e He. rewrite (sumn_swap (width bs e)). apply sumn_ext. intros a' Ha'. apply sumn_ext. intros a Ha.
  rewrite (normal_sym bs values D (nelim + f') j e a'), (normal_sym bs values D e a (nelim + f) i).
  destruct (gsym e a a' f i He Ha Ha') as [Q|Q]; [unfold G in Q; rewrite Q; ring|]. unfold B in Q. rewrite (normal_sym bs values D (nelim + f) i e a), Q. ring.
Qed.

Section System.
Variables (stored : nat -> nat -> bool) (s : System).
Hypothesis El : Eliminate invert stored st bs values (Some b) D true s.
Hypothesis Sto : forall b1 b2, (b1 <= b2)%nat -> (nelim + b2 < num_cols bs)%nat -> stored b1 b2 = false -> forall i j, schur invert full nelim bs values D (nelim + b1) i (nelim + b2) j = 0.
Lemma upper_schur f i f' j : (nelim + f < num_cols bs)%nat -> (nelim + f' < num_cols bs)%nat -> (i < wf f)%nat -> (j < wf f')%nat -> upper s f i f' j = schur invert full nelim bs values D (nelim + f) i (nelim + f') j.
Proof.
  intros Hf Hf' Hi Hj. destruct (eliminate_all invert nelim full bs values D st gs tail zz Inv LC LR Ini stored (Some b) true ltac:(discriminate)) as [_ H]. destruct (H s El) as [HL _].
  unfold upper. destruct (Nat.leb_spec f f') as [L|L].
  - rewrite (HL f f' i j L Hf' Hi Hj). destruct (stored f f') eqn:Q; [reflexivity|]. symmetry. apply Sto; assumption.
  - rewrite (HL f' f j i ltac:(lia) Hf Hj Hi). rewrite (schur_sym f i f' j). destruct (stored f' f) eqn:Q; [reflexivity|]. symmetry. apply Sto; [lia|assumption|assumption].
Qed.
Lemma rhs_schur f i : (nelim + f < num_cols bs)%nat -> (i < wf f)%nat -> rhs s (offset nelim bs f + i)%nat = schur_rhs invert full nelim bs values b D (nelim + f) i.
Proof.
  intros Hf Hi. destruct (eliminate_all invert nelim full bs values D st gs tail zz Inv LC LR Ini stored (Some b) true ltac:(discriminate)) as [_ H]. destruct (H s El) as [_ HR]. exact (HR b eq_refl eq_refl f i Hf Hi).
Qed.
Lemma reduced_iff z : solves_reduced nelim bs s z <->
  forall f i, (nelim + f < num_cols bs)%nat -> (i < wf f)%nat -> sumn m (fun f' => sumn (wf f') (fun j => SS nelim we G B C f i f' j * z (offset nelim bs f' + j)%nat)) = hh nelim we G B g h f i.
Proof.
  unfold solves_reduced. split; intros H f i Hf Hi; specialize (H f i Hf Hi).
  - rewrite hh_schur, <- (rhs_schur f i Hf Hi), <- H. apply sumn_ext. intros f' Hf'. apply sumn_ext. intros j Hj. rewrite ss_schur, upper_schur by (assumption || lia). reflexivity.
  - rewrite (rhs_schur f i Hf Hi), <- hh_schur, <- H. apply sumn_ext. intros f' Hf'. apply sumn_ext. intros j Hj. rewrite ss_schur, upper_schur by (assumption || lia). reflexivity.
Qed.
(* the normal equations in two parts *)
Lemma offset_pos f : (nelim + f < num_cols bs)%nat -> position (col bs (nelim + f)) = (total (firstn nelim (cols bs)) + offset nelim bs f)%nat.
Proof.
  intro Hf. unfold offset, col. rewrite !(laid_total 0 (cols bs) _ (mkBlock 0 0) LC) by (unfold num_cols in *; lia). cbn [plus].
  assert (total (firstn nelim (cols bs)) <= total (firstn (nelim + f) (cols bs)))%nat; [|lia].
  rewrite <- (firstn_skipn nelim (firstn (nelim + f) (cols bs))), firstn_firstn, total_app. replace (Nat.min nelim (nelim + f)) with nelim by lia. lia.
Qed.
Lemma solves_parts x z : (forall f j, (nelim + f < num_cols bs)%nat -> (j < wf f)%nat -> x (position (col bs (nelim + f)) + j)%nat = z f j) ->
  let X e a := x (position (col bs e) + a)%nat in
  (forall c i, (c < nelim)%nat -> sumn (num_cols bs) (fun c' => sumn (width bs c') (fun j => normal bs values D c i c' j * x (position (col bs c') + j)%nat)) =
     sumn (we c) (fun a => M c i a * X c a) + Bz m wf B z c i) /\
  (forall f i, sumn (num_cols bs) (fun c' => sumn (width bs c') (fun j => normal bs values D (nelim + f) i c' j * x (position (col bs c') + j)%nat)) =
     sumn nelim (fun e => sumn (we e) (fun a => B e a f i * X e a)) + sumn m (fun f' => sumn (wf f') (fun j => C f i f' j * z f' j))).
Proof.
  intros Hz X. assert (num_cols bs = nelim + m)%nat as En by lia. split; intros; rewrite En at 1; rewrite sumn_split; f_equal.
  - rewrite (sumn_single nelim _ c H); [reflexivity|]. intros e He N. apply sumn_zero. intros j _.
    rewrite (normal_ee bs values D nelim gs tail (ini_rows _ _ _ _ _ _ _ Ini) (ini_nodup _ _ _ _ _ _ _ Ini) (hg_weak _ _ _ _ _ _ _ Ini) (ht_weak _ _ _ _ _ _ _ Ini) c e i j H He ltac:(congruence)). ring.
  - unfold Bz. apply sumn_ext. intros f Hf. apply sumn_ext. intros j Hj. rewrite Hz by (assumption || lia). reflexivity.
  - apply sumn_ext. intros e He. apply sumn_ext. intros a Ha. unfold B. rewrite (normal_sym bs values D (nelim + f) i e a). reflexivity.
  - apply sumn_ext. intros f' Hf'. apply sumn_ext. intros j Hj. rewrite Hz by (assumption || lia). reflexivity.
Qed.

Lemma solve_correct z order : solves_reduced nelim bs s z -> Permutation order (chunks st) ->
  exists x, SolveImpl invert st bs values b D z (total (cols bs)) (total (skipn nelim (cols bs))) order = Some x /\ solves bs values b D x /\
    forall f j, (nelim + f < num_cols bs)%nat -> (j < width bs (nelim + f))%nat -> x (position (col bs (nelim + f)) + j)%nat = z (offset nelim bs f + j)%nat.
Proof.
  intros Hz Pm. unfold SolveImpl. rewrite total_split. set (P := total (firstn nelim (cols bs))). set (y := fun i => if i <? P then 0 else z (i - P)%nat).
  destruct (back_all invert nelim full bs values b D st gs tail zz z Inv LC Nn Ini order y Pm) as [x [E [A Bk]]].
  { intros p Hp. unfold y. destruct (Nat.ltb_spec p P); [reflexivity|]. unfold P in *. lia. }
  exists x. split; [exact E|].
  assert (forall f j, (nelim + f < num_cols bs)%nat -> (j < wf f)%nat -> x (position (col bs (nelim + f)) + j)%nat = z (offset nelim bs f + j)%nat) as Xf.
  { intros f j Hf Hj. rewrite Bk; [|lia| |exact Hj].
    - unfold y. rewrite offset_pos by lia. fold P. destruct (Nat.ltb_spec (P + offset nelim bs f + j) P); [lia|]. f_equal. lia.
    - intro I. apply in_map_iff in I. destruct I as [[e rs] [Q I]]. cbn in Q. pose proof (proj1 (hg_weak _ _ _ _ _ _ _ Ini e rs I)). lia. }
  split; [|exact Xf].
  set (Z := fun f j => z (offset nelim bs f + j)%nat).
  assert (forall e a, (e < nelim)%nat -> (a < we e)%nat -> x (position (col bs e) + a)%nat = y_of m we wf G B g Z e a) as Xe.
  { intros e a He Ha. destruct (group_dec e) as [I|N].
    - apply in_map_iff in I. destruct I as [[e' rs] [Q I]]. cbn in Q. subst e'. rewrite (A e rs a I Ha). unfold target, y_of. apply sumn_ext. intros a' Ha'. unfold G, g. f_equal. f_equal.
      unfold times_z, Bz. apply sumn_ext. intros f _. apply sumn_ext. intros j _. unfold B. rewrite (normal_ef bs values D nelim) by lia. reflexivity.
    - destruct (not_group e He N) as [ZB [Zg _]]. rewrite Bk; [|lia|exact N|exact Ha]. unfold y. destruct (Nat.ltb_spec (position (col bs e) + a) P) as [L|L].
      + symmetry. unfold y_of. apply sumn_zero. intros a' _. rewrite Zg. unfold Bz. rewrite sumn_zero; [ring|]. intros. apply sumn_zero. intros. rewrite ZB. ring.
      + exfalso. pose proof (block_before (cols bs) nelim e a (mkBlock 0 0) LC ltac:(unfold num_cols in *; lia) Ha) as Q. fold (col bs e) in Q. unfold P in L. lia. }
  destruct (solves_parts x Z Xf) as [P1 P2]. intros c i Hc Hi. destruct (Nat.lt_ge_cases c nelim) as [L|L].
  - rewrite (P1 c i L). rewrite (sumn_ext (we c) _ (fun a => M c i a * y_of m we wf G B g Z c a)) by (intros a Ha; rewrite (Xe c a L Ha); reflexivity).
    apply (e_equation nelim m we wf M G B g kb kg Z c i L Hi).
  - assert (exists f, c = (nelim + f)%nat) as [f ->] by (exists (c - nelim)%nat; lia). rewrite (P2 f i).
    rewrite (sumn_ext nelim _ (fun e => sumn (we e) (fun a => B e a f i * y_of m we wf G B g Z e a))).
    2:{ intros e He. apply sumn_ext. intros a Ha. rewrite (Xe e a He Ha). reflexivity. }
    apply (f_equation nelim m we wf G B C g h Z f i). apply (proj1 (reduced_iff z) Hz f i Hc Hi).
Qed.
Lemma solve_complete x : solves bs values b D x -> solves_reduced nelim bs s (fun p => x (total (firstn nelim (cols bs)) + p)%nat).
Proof.
  intro Hx. apply reduced_iff. intros f i Hf Hi. set (Z := fun f j => x (total (firstn nelim (cols bs)) + (offset nelim bs f + j))%nat).
  destruct (solves_parts x Z) as [P1 P2]. { intros f' j Hf' Hj. unfold Z. rewrite offset_pos by lia. f_equal. lia. }
  apply (reduced_of nelim m we wf M G B C g h kb msym gsym (fun e a => x (position (col bs e) + a)%nat) Z).
  - intros e i' He Hi'. rewrite <- P1 by exact He. apply Hx; [lia|exact Hi'].
  - rewrite <- P2. apply Hx; assumption.
Qed.
End System.
End Solve.
