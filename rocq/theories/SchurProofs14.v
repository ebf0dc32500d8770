From Coq Require Import Reals List Arith Lia Lra Psatz Bool Sorting.Sorted.
From Verif Require Import SchurModel SchurSpec SchurProofs SchurProofs2 SchurProofs3 SchurProofs4 SchurProofs5 SchurProofs6 SchurProofs11.
Import ListNotations.
Open Scope R_scope.

(* ---------------- the normal equations give a minimiser ---------------- *)
Lemma suml_sumn {A} (l : list A) n (f : A -> nat -> R) : suml l (fun x => sumn n (f x)) = sumn n (fun i => suml l (fun x => f x i)).
Proof. induction l as [|x l IH]; cbn [suml]; [symmetry; apply sumn_zero; reflexivity|]. rewrite IH, <- sumn_plus. reflexivity. Qed.
Lemma rows_scal bs k f : over_rows bs (fun row j => k * f row j) = k * over_rows bs f.
Proof. unfold over_rows. induction (rows bs) as [|row l IH]; cbn [suml]; [lra|]. rewrite IH, sumn_scal. lra. Qed.
Lemma rows_ext bs f g : (forall row k, f row k = g row k) -> over_rows bs f = over_rows bs g.
Proof. intro H. unfold over_rows. apply suml_ext. intros row _. apply sumn_ext. intros k _. apply H. Qed.
Lemma rows_plus bs f g : over_rows bs (fun row k => f row k + g row k) = over_rows bs f + over_rows bs g.
Proof. unfold over_rows. induction (rows bs) as [|row l IH]; cbn [suml]; [lra|]. rewrite IH, sumn_plus. lra. Qed.
Lemma rows_nonneg bs f : (forall row k, 0 <= f row k) -> 0 <= over_rows bs f.
Proof. intro H. unfold over_rows. induction (rows bs) as [|row l IH]; cbn [suml]; [lra|]. assert (0 <= sumn (size (block row)) (f row)) by (apply sumn_nonneg; intros; apply H). lra. Qed.
Lemma cols_ext bs f g : (forall c i, (c < num_cols bs)%nat -> (i < width bs c)%nat -> f c i = g c i) -> over_cols bs f = over_cols bs g.
Proof. intro H. unfold over_cols. apply sumn_ext. intros c Hc. apply sumn_ext. intros i Hi. apply H; assumption. Qed.
Lemma cols_scal bs k f : over_cols bs (fun c i => k * f c i) = k * over_cols bs f.
Proof. unfold over_cols. rewrite <- sumn_scal. apply sumn_ext. intros. apply sumn_scal. Qed.
Lemma cols_plus bs f g : over_cols bs (fun c i => f c i + g c i) = over_cols bs f + over_cols bs g.
Proof. unfold over_cols. rewrite <- sumn_plus. apply sumn_ext. intros. apply sumn_plus. Qed.
Lemma cols_nonneg bs f : (forall c i, 0 <= f c i) -> 0 <= over_cols bs f.
Proof. intro H. unfold over_cols. apply sumn_nonneg. intros. apply sumn_nonneg. intros. apply H. Qed.
Lemma rows_cols bs (f : Row -> nat -> nat -> nat -> R) : over_rows bs (fun row k => over_cols bs (f row k)) = over_cols bs (fun c i => over_rows bs (fun row k => f row k c i)).
Proof.
  unfold over_rows, over_cols. rewrite (suml_ext (rows bs) _ (fun row => sumn (num_cols bs) (fun c => sumn (width bs c) (fun i => sumn (size (block row)) (fun k => f row k c i))))).
  - rewrite suml_sumn. apply sumn_ext. intros c _. apply suml_sumn.
  - intros row _. rewrite sumn_swap. apply sumn_ext. intros c _. apply sumn_swap.
Qed.
Lemma cols_single bs f c i : (c < num_cols bs)%nat -> (i < width bs c)%nat -> (forall c' j, (c =? c') && (i =? j) = false -> f c' j = 0) -> over_cols bs f = f c i.
Proof.
  intros Hc Hi Z. unfold over_cols. rewrite (sumn_single (num_cols bs) _ c Hc).
  - apply (sumn_single (width bs c) _ i Hi). intros j _ N. apply Z. destruct (Nat.eqb_spec i j); [congruence|apply andb_false_r].
  - intros c' _ N. apply sumn_zero. intros j _. apply Z. destruct (Nat.eqb_spec c c'); [congruence|reflexivity].
Qed.
Theorem solves_minimises bs values b D x : solves bs values b D x -> forall x', cost bs values b D x <= cost bs values b D x'.
Proof.
  intros Hx x'. set (h := fun p => x' p - x p). set (X := fun (x : nat -> R) c i => x (position (col bs c) + i)%nat).
  set (Ah := fun row k => over_cols bs (fun c j => entry bs values row c k j * X h c j)).
  assert (forall row k, residual bs values b x' row k = residual bs values b x row k + Ah row k) as Rr.
  { intros. unfold residual, Ah. rewrite (cols_ext bs (fun c j => entry bs values row c k j * x' (position (col bs c) + j)%nat) (fun c j => entry bs values row c k j * x (position (col bs c) + j)%nat + entry bs values row c k j * X h c j)).
    - rewrite cols_plus. lra.
    - intros. unfold X, h. ring. }
  assert (over_rows bs (fun row k => residual bs values b x row k * Ah row k) + over_cols bs (fun c i => d_squared D (position (col bs c) + i) * (X x c i * X h c i)) = 0) as Z.
  { transitivity (over_cols bs (fun c i => X h c i * (over_cols bs (fun c' j => normal bs values D c i c' j * x (position (col bs c') + j)%nat) - gradient bs values b c i))).
    - rewrite (rows_ext bs _ (fun row k => over_cols bs (fun c i => X h c i * (entry bs values row c k i * residual bs values b x row k)))).
      2:{ intros. unfold Ah. rewrite <- cols_scal. apply cols_ext. intros. ring. }
      rewrite rows_cols, <- cols_plus. apply cols_ext. intros c i Hc Hi. rewrite rows_scal. rewrite <- Rmult_assoc, (Rmult_comm (d_squared _ _ * _)), <- Rmult_plus_distr_l. f_equal.
      unfold normal. rewrite (cols_ext bs (fun c' j => (over_rows bs (fun row k => entry bs values row c k i * entry bs values row c' k j) + (if (c =? c') && (i =? j) then d_squared D (position (col bs c) + i) else 0)) * x (position (col bs c') + j)%nat)
        (fun c' j => over_rows bs (fun row k => entry bs values row c k i * (entry bs values row c' k j * x (position (col bs c') + j)%nat)) + (if (c =? c') && (i =? j) then d_squared D (position (col bs c) + i) else 0) * x (position (col bs c') + j)%nat)).
      2:{ intros c' j _ _. rewrite Rmult_plus_distr_r. f_equal. rewrite Rmult_comm, <- rows_scal. apply rows_ext. intros. ring. }
      rewrite cols_plus, <- rows_cols. rewrite (cols_single bs _ c i Hc Hi) by (intros c' j ->; ring). rewrite !Nat.eqb_refl. cbn [andb].
      rewrite (rows_ext bs (fun row k => over_cols bs (fun c' j => entry bs values row c k i * (entry bs values row c' k j * x (position (col bs c') + j)%nat))) (fun row k => entry bs values row c k i * residual bs values b x row k + entry bs values row c k i * b (position (block row) + k)%nat)).
      2:{ intros. rewrite cols_scal. unfold residual. ring. }
      rewrite rows_plus. unfold gradient, X. lra.
    - unfold over_cols at 1. apply sumn_zero. intros c Hc. apply sumn_zero. intros i Hi. unfold over_cols. rewrite (Hx c i Hc Hi). ring. }
  unfold cost.
  rewrite (rows_ext bs (fun row k => residual bs values b x' row k * residual bs values b x' row k) (fun row k => residual bs values b x row k * residual bs values b x row k + (2 * (residual bs values b x row k * Ah row k) + Ah row k * Ah row k))).
  2:{ intros. rewrite Rr. ring. }
  rewrite !rows_plus, rows_scal.
  rewrite (cols_ext bs (fun c i => d_squared D (position (col bs c) + i) * (x' (position (col bs c) + i)%nat * x' (position (col bs c) + i)%nat)) (fun c i => d_squared D (position (col bs c) + i) * (x (position (col bs c) + i)%nat * x (position (col bs c) + i)%nat) + (2 * (d_squared D (position (col bs c) + i) * (X x c i * X h c i)) + d_squared D (position (col bs c) + i) * (X h c i * X h c i)))).
  2:{ intros. unfold X, h. ring. }
  rewrite !cols_plus, cols_scal.
  assert (0 <= over_rows bs (fun row k => Ah row k * Ah row k)) by (apply rows_nonneg; intros; apply Rle_0_sqr).
  assert (0 <= over_cols bs (fun c i => d_squared D (position (col bs c) + i) * (X h c i * X h c i))).
  { apply cols_nonneg. intros. apply Rmult_le_pos; [|apply Rle_0_sqr]. unfold d_squared. destruct D; [apply Rle_0_sqr|lra]. }
  lra.
Qed.

(* ---------------- the buffers are large enough ---------------- *)
Theorem buffers nelim full bs st : well_formed nelim bs -> Init nelim full bs = Some st ->
  forall c, In c (chunks st) -> exists row e_cell cs, nth_error (rows bs) (start c) = Some row /\ cells row = e_cell :: cs /\ (block_id e_cell < nelim)%nat /\
    (forall f off, In (f, off) (buffer_layout c) -> (nelim <= f < num_cols bs)%nat /\ (off + width bs (block_id e_cell) * width bs f <= buffer_size st)%nat) /\
    (forall f off f' off', In (f, off) (buffer_layout c) -> In (f', off') (buffer_layout c) -> f <> f' ->
       (off + width bs (block_id e_cell) * width bs f <= off' \/ off' + width bs (block_id e_cell) * width bs f' <= off)%nat).
Proof.
  intros W E c Ic. destruct (init_unique nelim full bs st W E) as [gs [tail [z Ini]]]. rewrite (ini_size _ _ _ _ _ _ _ Ini).
  pose proof (ini_chunks _ _ _ _ _ _ _ Ini) as C. pose proof (ini_rows _ _ _ _ _ _ _ Ini) as Er. pose proof (ini_groups _ _ _ _ _ _ _ Ini) as Hg.
  assert (forall gs' r cs pre, chunks_of bs z r gs' cs -> In c cs -> rows bs = pre ++ concat (map snd gs') ++ tail -> length pre = r ->
    exists e rs layout sz, In (e, rs) gs' /\ buffer_layout c = layout /\ layout_ok bs (size (col bs e)) layout sz /\ (sz <= z)%nat /\ (forall id, In id (map fst layout) <-> ids_of rs id) /\
      exists pre' post', rows bs = pre' ++ rs ++ post' /\ length pre' = start c) as K.
  { clear -c. induction gs' as [|[e rs] gs' IH]; intros r cs pre H I Er P; inversion H as [|r0 e0 rs0 gs0 layout cs0 sz L S0 Ids H']; subst; [destruct I|]. cbn [map snd concat] in Er. destruct I as [<-|I].
    - exists e, rs, layout, sz. split; [left; reflexivity|]. split; [reflexivity|]. do 3 (split; [assumption|]). exists pre, (concat (map snd gs') ++ tail). split; [rewrite Er, <- app_assoc; reflexivity|reflexivity].
    - destruct (IH _ _ (pre ++ rs) H' I) as [e' [rs' [l' [sz' [A B]]]]]; [rewrite Er, !app_assoc; reflexivity|apply app_length|]. exists e', rs', l', sz'. split; [right; exact A|exact B]. }
  destruct (K gs 0%nat (chunks st) [] C Ic Er eq_refl) as [e [rs [layout [sz [Ig [El [L [Sz [Ids [pre [post [Ep Lp]]]]]]]]]]]].
  destruct (Hg e rs Ig) as [He [Nr Hr]]. destruct rs as [|row rs'] eqn:Ers; [contradiction|]. rewrite <- Ers in *.
  destruct (Hr row ltac:(rewrite Ers; left; reflexivity)) as [[c0 [cs0 [Ec [Ei _]]]] _]. exists row, c0, cs0. split.
  { rewrite Ep, nth_error_app2, Lp, Nat.sub_diag, Ers by lia. reflexivity. }
  split; [exact Ec|]. rewrite Ei. split; [exact He|]. rewrite El. split.
  - intros f off I. split.
    + apply (in_map fst) in I. apply Ids in I. destruct I as [row1 [I1 [x [Ix Qx]]]]. cbn in Qx. destruct (Hr row1 I1) as [[c1 [cs1 [Ec1 [_ Eg]]]] [_ Gb]]. rewrite Ec1 in Ix. cbn in Ix. rewrite <- Qx. split; [apply Eg; exact Ix|]. apply Gb. rewrite Ec1. right. exact Ix.
    + pose proof (lo_bound _ _ _ _ L f off I). unfold width. lia.
  - intros f off f' off' I I' N. exact (lo_disjoint _ _ _ _ L f off f' off' I I' N).
Qed.
