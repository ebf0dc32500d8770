From Coq Require Import Reals List Arith Lia Lra Psatz Bool Sorting.Sorted Sorting.Permutation.
From Verif Require Import SchurModel SchurSpec.
Import ListNotations.
Open Scope R_scope.

(* ---------------- sums ---------------- *)
Lemma sumn_ext n f g : (forall i, (i < n)%nat -> f i = g i) -> sumn n f = sumn n g.
Proof. induction n as [|n IH]; cbn; [reflexivity|]. intro H. rewrite IH, H by (intros; try apply H; lia). reflexivity. Qed.
Lemma sumn_zero n f : (forall i, (i < n)%nat -> f i = 0) -> sumn n f = 0.
Proof. induction n as [|n IH]; cbn; [reflexivity|]. intro H. rewrite IH, H by (intros; try apply H; lia). lra. Qed.
Lemma sumn_plus n f g : sumn n (fun i => f i + g i) = sumn n f + sumn n g.
Proof. induction n as [|n IH]; cbn; [lra|]. rewrite IH. lra. Qed.
Lemma sumn_minus n f g : sumn n (fun i => f i - g i) = sumn n f - sumn n g.
Proof. induction n as [|n IH]; cbn; [lra|]. rewrite IH. lra. Qed.
Lemma sumn_scal n k f : sumn n (fun i => k * f i) = k * sumn n f.
Proof. induction n as [|n IH]; cbn; [lra|]. rewrite IH. lra. Qed.
Lemma sumn_scal_r n k f : sumn n (fun i => f i * k) = sumn n f * k.
Proof. induction n as [|n IH]; cbn; [lra|]. rewrite IH. lra. Qed.
Lemma sumn_opp n f : sumn n (fun i => - f i) = - sumn n f.
Proof. induction n as [|n IH]; cbn; [lra|]. rewrite IH. lra. Qed.
Lemma sumn_swap n m f : sumn n (fun i => sumn m (fun j => f i j)) = sumn m (fun j => sumn n (fun i => f i j)).
Proof. induction n as [|n IH]; cbn; [symmetry; apply sumn_zero; reflexivity|]. rewrite IH, <- sumn_plus. reflexivity. Qed.
Lemma sumn_nonneg n f : (forall i, (i < n)%nat -> 0 <= f i) -> 0 <= sumn n f.
Proof. induction n as [|n IH]; cbn; [lra|]. intro H. assert (0 <= sumn n f) by (apply IH; intros; apply H; lia). assert (0 <= f n) by (apply H; lia). lra. Qed.
Lemma sumn_nonneg_zero n f : (forall i, (i < n)%nat -> 0 <= f i) -> sumn n f = 0 -> forall i, (i < n)%nat -> f i = 0.
Proof.
  induction n as [|n IH]; intros H E i I; [lia|]. cbn in E. assert (0 <= sumn n f) by (apply sumn_nonneg; intros; apply H; lia). assert (0 <= f n) by (apply H; lia).
  destruct (Nat.eq_dec i n) as [->|N]; [lra|]. apply IH; [intros; apply H; lia|lra|lia].
Qed.
Lemma sumn_single n f i : (i < n)%nat -> (forall j, (j < n)%nat -> j <> i -> f j = 0) -> sumn n f = f i.
Proof.
  induction n as [|n IH]; [lia|]. intros I H. cbn. destruct (Nat.eq_dec i n) as [->|N].
  - rewrite sumn_zero; [lra|]. intros. apply H; lia.
  - rewrite IH by (intros; try apply H; lia). rewrite (H n) by lia. lra.
Qed.
Lemma sumn_split a b f : sumn (a + b) f = sumn a f + sumn b (fun i => f (a + i)%nat).
Proof. induction b as [|b IH]; cbn; [rewrite Nat.add_0_r; lra|]. rewrite Nat.add_succ_r. cbn. rewrite IH. lra. Qed.

Lemma suml_app {A} (l1 l2 : list A) f : suml (l1 ++ l2) f = suml l1 f + suml l2 f.
Proof. induction l1 as [|x l1 IH]; cbn; [lra|]. rewrite IH. lra. Qed.
Lemma suml_ext {A} (l : list A) f g : (forall x, In x l -> f x = g x) -> suml l f = suml l g.
Proof. induction l as [|x l IH]; cbn; [reflexivity|]. intro H. rewrite IH, H; auto. Qed.
Lemma suml_zero {A} (l : list A) f : (forall x, In x l -> f x = 0) -> suml l f = 0.
Proof. induction l as [|x l IH]; cbn; [reflexivity|]. intro H. rewrite IH, H; auto. lra. Qed.
Lemma suml_perm {A} (l l' : list A) f : Permutation l l' -> suml l f = suml l' f.
Proof. induction 1; cbn; lra. Qed.
Lemma suml_map {A B} (h : A -> B) l f : suml (map h l) f = suml l (fun x => f (h x)).
Proof. induction l as [|x l IH]; cbn; [reflexivity|]. rewrite IH. reflexivity. Qed.
Lemma suml_plus {A} (l : list A) f g : suml l (fun x => f x + g x) = suml l f + suml l g.
Proof. induction l as [|x l IH]; cbn; [lra|]. rewrite IH. lra. Qed.
Lemma suml_minus {A} (l : list A) f g : suml l (fun x => f x - g x) = suml l f - suml l g.
Proof. induction l as [|x l IH]; cbn; [lra|]. rewrite IH. lra. Qed.
Lemma suml_scal {A} (l : list A) k f : suml l (fun x => k * f x) = k * suml l f.
Proof. induction l as [|x l IH]; cbn; [lra|]. rewrite IH. lra. Qed.
Lemma suml_scal_r {A} (l : list A) k f : suml l (fun x => f x * k) = suml l f * k.
Proof. induction l as [|x l IH]; cbn; [lra|]. rewrite IH. lra. Qed.
Lemma suml_opp {A} (l : list A) f : suml l (fun x => - f x) = - suml l f.
Proof. induction l as [|x l IH]; cbn; [lra|]. rewrite IH. lra. Qed.
Lemma suml_sumn {A} (l : list A) n f : suml l (fun x => sumn n (f x)) = sumn n (fun i => suml l (fun x => f x i)).
Proof. induction l as [|x l IH]; cbn; [symmetry; apply sumn_zero; reflexivity|]. rewrite IH, <- sumn_plus. reflexivity. Qed.
Lemma suml_concat {A} (ls : list (list A)) f : suml (concat ls) f = suml ls (fun l => suml l f).
Proof. induction ls as [|l ls IH]; cbn; [reflexivity|]. rewrite suml_app, IH. reflexivity. Qed.
Lemma suml_nonneg {A} (l : list A) f : (forall x, In x l -> 0 <= f x) -> 0 <= suml l f.
Proof. induction l as [|x l IH]; cbn; [lra|]. intro H. assert (0 <= f x) by auto. assert (0 <= suml l f) by auto. lra. Qed.
Lemma suml_nonneg_zero {A} (l : list A) f : (forall x, In x l -> 0 <= f x) -> suml l f = 0 -> forall x, In x l -> f x = 0.
Proof.
  induction l as [|y l IH]; cbn; intros H E x I; [contradiction|]. assert (0 <= f y) by auto. assert (0 <= suml l f) by (apply suml_nonneg; auto).
  destruct I as [<-|I]; [lra|]. apply IH; auto. lra.
Qed.
Lemma suml_swap {A B} (l : list A) (l' : list B) f : suml l (fun x => suml l' (fun y => f x y)) = suml l' (fun y => suml l (fun x => f x y)).
Proof. induction l as [|x l IH]; cbn; [symmetry; apply suml_zero; reflexivity|]. rewrite IH, <- suml_plus. reflexivity. Qed.

(* ---------------- updates ---------------- *)
Definition cL (u : Update) (b1 b2 i j : nat) : R :=
  match u with AddLhs c1 c2 n m M => if (b1 =? c1) && (b2 =? c2) && (i <? n) && (j <? m) then M i j else 0 | AddRhs _ _ _ => 0 end.
Definition cR (u : Update) (i : nat) : R :=
  match u with AddRhs p n v => if (p <=? i) && (i <? p + n) then v (i - p)%nat else 0 | AddLhs _ _ _ _ _ => 0 end.
Lemma apply_lhs stored us : forall s b1 b2 i j, stored b1 b2 = true -> lhs (apply_all stored us s) b1 b2 i j = lhs s b1 b2 i j + suml us (fun u => cL u b1 b2 i j).
Proof.
  induction us as [|u us IH]; intros s b1 b2 i j St; cbn [apply_all fold_left suml]; [lra|]. fold (apply_all stored us (apply stored s u)). rewrite IH by exact St.
  destruct u as [c1 c2 n m M|p n v]; cbn [apply cL].
  - destruct (Nat.eqb_spec b1 c1) as [E1|N1]; [destruct (Nat.eqb_spec b2 c2) as [E2|N2]|]; cbn [andb].
    + subst c1 c2. rewrite St. cbn [lhs]. rewrite !Nat.eqb_refl. cbn [andb]. destruct ((i <? n) && (j <? m))%bool; lra.
    + destruct (stored c1 c2); [|lra]. cbn [lhs]. destruct (Nat.eqb_spec b2 c2); [contradiction|]. rewrite andb_false_r. cbn [andb]. lra.
    + destruct (stored c1 c2); [|lra]. cbn [lhs]. destruct (Nat.eqb_spec b1 c1); [contradiction|]. cbn [andb]. lra.
  - cbn [lhs]. lra.
Qed.
Lemma apply_rhs stored us : forall s i, rhs (apply_all stored us s) i = rhs s i + suml us (fun u => cR u i).
Proof.
  induction us as [|u us IH]; intros s i; cbn [apply_all fold_left suml]; [lra|]. fold (apply_all stored us (apply stored s u)). rewrite IH.
  destruct u as [c1 c2 n m M|p n v]; cbn [apply cR].
  - destruct (stored c1 c2); cbn [rhs]; lra.
  - cbn [rhs]. destruct ((p <=? i) && (i <? p + n))%bool; lra.
Qed.
Lemma apply_lhs_unstored stored us : forall s b1 b2, stored b1 b2 = false -> lhs (apply_all stored us s) b1 b2 = lhs s b1 b2 \/ forall i j, lhs (apply_all stored us s) b1 b2 i j = lhs s b1 b2 i j.
Proof.
  induction us as [|u us IH]; intros s b1 b2 St; [left; reflexivity|]. right. intros i j. cbn [apply_all fold_left]. fold (apply_all stored us (apply stored s u)).
  assert (lhs (apply_all stored us (apply stored s u)) b1 b2 i j = lhs (apply stored s u) b1 b2 i j) as -> by (destruct (IH (apply stored s u) b1 b2 St) as [E|E]; [rewrite E; reflexivity|apply E]).
  destruct u as [c1 c2 n m M|p n v]; cbn [apply]; [|reflexivity]. destruct (stored c1 c2) eqn:C; [|reflexivity]. cbn [lhs].
  destruct (Nat.eqb_spec b1 c1), (Nat.eqb_spec b2 c2); cbn [andb]; try reflexivity. subst. congruence.
Qed.
Lemma interleaving_perm {A} (ls : list (list A)) l : interleaving ls l -> Permutation l (concat ls).
Proof.
  induction 1 as [ls H|ls1 x l ls2 rest _ IH].
  - assert (concat ls = []) as ->; [|constructor]. induction ls as [|l ls IH]; [reflexivity|]. cbn. rewrite (H l) by (left; reflexivity). apply IH. intros; apply H; right; assumption.
  - rewrite concat_app in *. cbn [concat app] in *. rewrite IH. apply Permutation_middle.
Qed.

(* ---------------- a row ---------------- *)
Definition centry (bs : Structure) (values : nat -> R) (cs : list Cell) (c k j : nat) : R :=
  suml cs (fun cell => if block_id cell =? c then values (cell_position cell + k * size (col bs c) + j)%nat else 0).
Lemma entry_cells bs values row c k j : entry bs values row c k j = centry bs values (cells row) c k j.
Proof. reflexivity. Qed.
Lemma centry_absent bs values cs c k j : (forall x, In x cs -> block_id x <> c) -> centry bs values cs c k j = 0.
Proof. intro H. apply suml_zero. intros x I. destruct (Nat.eqb_spec (block_id x) c); [exfalso; exact (H x I e)|reflexivity]. Qed.
Lemma centry_cons bs values x cs c k j : centry bs values (x :: cs) c k j =
  (if block_id x =? c then block_at values (cell_position x) (size (col bs c)) k j else 0) + centry bs values cs c k j.
Proof. reflexivity. Qed.

Lemma eqb_shift n a b : (n + a =? n + b) = (a =? b).
Proof. destruct (Nat.eqb_spec (n + a) (n + b)), (Nat.eqb_spec a b); try reflexivity; lia. Qed.

Lemma row_outer bs values nelim nrow cs : StronglySorted lt (map block_id cs) -> (forall c, In c cs -> (nelim <= block_id c)%nat) ->
  forall b1 b2 i j, (b1 <= b2)%nat -> (i < size (col bs (nelim + b1)))%nat -> (j < size (col bs (nelim + b2)))%nat ->
  suml (RowOuterProduct nelim bs values nrow cs) (fun u => cL u b1 b2 i j) =
  sumn nrow (fun k => centry bs values cs (nelim + b1) k i * centry bs values cs (nelim + b2) k j).
Proof.
  induction cs as [|c1 cs IH]; intros So Ge b1 b2 i j B I J.
  { cbn. symmetry. apply sumn_zero. intros. unfold centry. cbn. lra. }
  cbn [map] in So. apply StronglySorted_inv in So. destruct So as [So Fa]. rewrite Forall_forall in Fa.
  assert (forall x, In x cs -> (block_id c1 < block_id x)%nat) as Lt by (intros x Hx; apply Fa; apply in_map; exact Hx).
  assert (nelim <= block_id c1)%nat as G1 by (apply Ge; left; reflexivity).
  cbn [RowOuterProduct]. cbv zeta. cbn [suml]. rewrite suml_app, suml_map.
  rewrite IH; [|exact So|intros; apply Ge; right; assumption|exact B|exact I|exact J].
  set (n1 := size (col bs (block_id c1))).
  assert (forall k, centry bs values (c1 :: cs) (nelim + b1) k i * centry bs values (c1 :: cs) (nelim + b2) k j =
     (if block_id c1 =? nelim + b1 then block_at values (cell_position c1) n1 k i * (if block_id c1 =? nelim + b2 then block_at values (cell_position c1) n1 k j else 0) else 0)
   + (if block_id c1 =? nelim + b1 then block_at values (cell_position c1) n1 k i * centry bs values cs (nelim + b2) k j else 0)
   + centry bs values cs (nelim + b1) k i * centry bs values cs (nelim + b2) k j) as K.
  { intro k. rewrite !centry_cons. destruct (Nat.eqb_spec (block_id c1) (nelim + b1)) as [E1|N1].
    - rewrite <- E1. fold n1. destruct (Nat.eqb_spec (block_id c1) (nelim + b2)) as [E2|N2]; [rewrite <- E2; fold n1|];
        rewrite (centry_absent bs values cs (block_id c1)) by (intros x Hx; pose proof (Lt x Hx); lia); lra.
    - destruct (Nat.eqb_spec (block_id c1) (nelim + b2)) as [E2|N2]; [|lra].
      rewrite (centry_absent bs values cs (nelim + b1)) by (intros x Hx; pose proof (Lt x Hx); lia). lra. }
  rewrite (sumn_ext nrow _ _ (fun k _ => K k)). clear K. rewrite !sumn_plus, Rplus_assoc. f_equal; [|f_equal].
  - assert (exists m1, block_id c1 = (nelim + m1)%nat) as [m1 Em] by (exists (block_id c1 - nelim)%nat; lia). unfold n1. clear n1. rewrite Em.
    cbn [cL]. replace (nelim + m1 - nelim)%nat with m1 by lia. rewrite !eqb_shift.
    destruct (Nat.eqb_spec b1 m1) as [<-|N1].
    + rewrite Nat.eqb_refl. destruct (Nat.ltb_spec i (size (col bs (nelim + b1)))); [|lia].
      rewrite (Nat.eqb_sym b1 b2). destruct (Nat.eqb_spec b2 b1) as [->|N2]; cbn [andb].
      * destruct (Nat.ltb_spec j (size (col bs (nelim + b1)))); [|lia]. reflexivity.
      * symmetry. apply sumn_zero. intros. lra.
    + cbn [andb]. destruct (Nat.eqb_spec m1 b1); [lia|]. symmetry. apply sumn_zero. reflexivity.
  - assert (exists m1, block_id c1 = (nelim + m1)%nat) as [m1 Em] by (exists (block_id c1 - nelim)%nat; lia). unfold n1. clear n1. rewrite Em.
    replace (nelim + m1 - nelim)%nat with m1 by lia. rewrite eqb_shift. destruct (Nat.eqb_spec m1 b1) as [->|N1].
    + unfold centry. rewrite (sumn_ext nrow _ (fun k => suml cs (fun cell => block_at values (cell_position c1) (size (col bs (nelim + b1))) k i * (if block_id cell =? nelim + b2 then values (cell_position cell + k * size (col bs (nelim + b2)) + j)%nat else 0)))) by (intros; rewrite suml_scal; reflexivity).
      rewrite <- suml_sumn. apply suml_ext. intros x Hx. cbv zeta. cbn [cL]. rewrite Nat.eqb_refl.
      assert (nelim <= block_id x)%nat by (apply Ge; right; exact Hx).
      assert (exists m2, block_id x = (nelim + m2)%nat) as [m2 Em2] by (exists (block_id x - nelim)%nat; lia). rewrite Em2. replace (nelim + m2 - nelim)%nat with m2 by lia. rewrite eqb_shift.
      destruct (Nat.ltb_spec i (size (col bs (nelim + b1)))); [|lia]. rewrite (Nat.eqb_sym m2 b2).
      destruct (Nat.eqb_spec b2 m2) as [<-|N2]; cbn [andb].
      * destruct (Nat.ltb_spec j (size (col bs (nelim + b2)))); [|lia]. reflexivity.
      * symmetry. apply sumn_zero. intros. lra.
    + rewrite suml_zero; [symmetry; apply sumn_zero; reflexivity|]. intros x Hx. cbv zeta. cbn [cL]. destruct (Nat.eqb_spec b1 m1); [lia|]. reflexivity.
Qed.
