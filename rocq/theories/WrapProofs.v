(* Proofs for C70: the chain rule. *)
From Coq Require Import Reals List Arith Bool Lia Lra FunctionalExtensionality.
From Verif Require Import WrapModel WrapSpec.
Import ListNotations.
Open Scope R_scope.

Lemma suml_ext {A} (l : list A) f g : (forall x, In x l -> f x = g x) -> suml l f = suml l g.
Proof. induction l as [|x l IH]; intro H; [reflexivity|]. cbn [suml]. rewrite (H x (or_introl eq_refl)), IH; [reflexivity|]. intros y Hy. apply H. right. exact Hy. Qed.
Lemma suml_plus {A} (l : list A) f g : suml l (fun x => f x + g x) = suml l f + suml l g.
Proof. induction l as [|x l IH]; cbn [suml]; [ring|]. rewrite IH. ring. Qed.
Lemma suml_minus {A} (l : list A) f g : suml l (fun x => f x - g x) = suml l f - suml l g.
Proof. induction l as [|x l IH]; cbn [suml]; [ring|]. rewrite IH. ring. Qed.
Lemma suml_scal {A} (l : list A) k f : suml l (fun x => k * f x) = k * suml l f.
Proof. induction l as [|x l IH]; cbn [suml]; [ring|]. rewrite IH. ring. Qed.
Lemma suml_scal_r {A} (l : list A) k f : suml l (fun x => f x * k) = suml l f * k.
Proof. induction l as [|x l IH]; cbn [suml]; [ring|]. rewrite IH. ring. Qed.
Lemma suml_zero {A} (l : list A) f : (forall x, In x l -> f x = 0) -> suml l f = 0.
Proof. induction l as [|x l IH]; intro H; [reflexivity|]. cbn [suml]. rewrite (H x (or_introl eq_refl)), IH; [ring|]. intros y Hy. apply H. right. exact Hy. Qed.
Lemma suml_le {A} (l : list A) f g : (forall x, In x l -> f x <= g x) -> suml l f <= suml l g.
Proof. induction l as [|x l IH]; intro H; [cbn; lra|]. cbn [suml]. pose proof (H x (or_introl eq_refl)). assert (suml l f <= suml l g); [|lra]. apply IH. intros y Hy. apply H. right. exact Hy. Qed.
Lemma suml_nonneg {A} (l : list A) f : (forall x, In x l -> 0 <= f x) -> 0 <= suml l f.
Proof. intro H. rewrite <- (suml_zero l (fun _ => 0)); [apply suml_le; exact H|reflexivity]. Qed.
Lemma suml_abs {A} (l : list A) f : Rabs (suml l f) <= suml l (fun x => Rabs (f x)).
Proof. induction l as [|x l IH]; cbn [suml]; [rewrite Rabs_R0; lra|]. pose proof (Rabs_triang (f x) (suml l f)). lra. Qed.
Lemma suml_swap {A B} (l : list A) (l' : list B) f : suml l (fun x => suml l' (fun y => f x y)) = suml l' (fun y => suml l (fun x => f x y)).
Proof. induction l as [|x l IH]; cbn [suml]; [symmetry; apply suml_zero; reflexivity|]. rewrite IH, <- suml_plus. reflexivity. Qed.
Lemma suml_const {A} (l : list A) k : suml l (fun _ => k) = INR (length l) * k.
Proof. induction l as [|x l IH]; [cbn; ring|]. cbn [suml length]. rewrite IH, S_INR. ring. Qed.
Lemma suml_flat {A B} (g : A -> list B) l f : suml (flat_map g l) f = suml l (fun x => suml (g x) f).
Proof.
  assert (forall l1 l2 : list B, suml (l1 ++ l2) f = suml l1 f + suml l2 f) as AP by (induction l1 as [|y l1 IH]; intro l2; cbn [app suml]; [ring|rewrite IH; ring]).
  induction l as [|x l IH]; [reflexivity|]. cbn [flat_map suml]. rewrite AP, IH. reflexivity.
Qed.
Lemma suml_map {A B} (g : A -> B) l f : suml (map g l) f = suml l (fun x => f (g x)).
Proof. induction l as [|x l IH]; [reflexivity|]. cbn [map suml]. rewrite IH. reflexivity. Qed.

Lemma norm_nonneg {X} (I : list X) h : 0 <= norm I h. Proof. apply suml_nonneg. intros. apply Rabs_pos. Qed.
Lemma norm_coordinate {X} (I : list X) h i : In i I -> Rabs (h i) <= norm I h.
Proof.
  unfold norm. induction I as [|j I IH]; intro H; [contradiction|]. cbn [suml]. destruct H as [->|H]; [pose proof (norm_nonneg I h); unfold norm in *; lra|]. specialize (IH H). pose proof (Rabs_pos (h j)). lra.
Qed.
Lemma linear_bound {X} (I : list X) u h : Rabs (suml I (fun i => u i * h i)) <= norm I u * norm I h.
Proof.
  eapply Rle_trans; [apply suml_abs|]. unfold norm at 1. rewrite <- suml_scal_r. apply suml_le. intros i Hi. rewrite Rabs_mult. apply Rmult_le_compat_l; [apply Rabs_pos|]. apply norm_coordinate. exact Hi.
Qed.
Lemma common_delta {X Y} (I : list X) (K : list Y) (Q : X -> (Y -> R) -> Prop) :
  (forall i, In i I -> exists d, 0 < d /\ forall h, norm K h < d -> Q i h) -> exists d, 0 < d /\ forall i, In i I -> forall h, norm K h < d -> Q i h.
Proof.
  induction I as [|i I IH]; intro H; [exists 1; split; [lra|intros i []]|]. destruct IH as [d [Hd IH]]; [intros j Hj; apply H; right; exact Hj|]. destruct (H i (or_introl eq_refl)) as [d' [Hd' H']].
  exists (Rmin d d'). split; [apply Rmin_pos; assumption|]. intros j [<-|Hj] h Hh; [apply H'; pose proof (Rmin_r d d'); lra|apply IH; [exact Hj|pose proof (Rmin_l d d'); lra]].
Qed.

(* the derivative of f(u_1(t), u_2(t), ...) *)
Lemma chain {X Y} (I : list X) (K : list Y) (f : (X -> R) -> R) (u : X -> (Y -> R) -> R) (t : Y -> R) (g : X -> R) (U : X -> Y -> R) :
  gradient I f (fun i => u i t) g -> (forall i, In i I -> gradient K (u i) t (U i)) ->
  gradient K (fun s => f (fun i => u i s)) t (fun k => suml I (fun i => g i * U i k)).
Proof.
  intros Hf Hu eps He.
  set (C := suml I (fun i => norm K (U i))). set (n := INR (length I)). set (G := norm I g).
  assert (0 <= C) as HC by (apply suml_nonneg; intros; apply norm_nonneg). assert (0 <= n) as Hn by apply pos_INR. assert (0 <= G) as HG by apply norm_nonneg.
  set (e' := Rmin 1 (eps / (2 * (G + 1)))). assert (0 < e') as He' by (apply Rmin_pos; [lra|apply Rdiv_lt_0_compat; lra]).
  assert (e' <= 1) as He1 by apply Rmin_l. assert (G * e' <= eps / 2) as HGe.
  { assert (e' <= eps / (2 * (G + 1))) as L by apply Rmin_r. apply Rle_trans with ((G + 1) * (eps / (2 * (G + 1)))); [apply Rmult_le_compat; lra|]. right. field. lra. }
  set (e2 := eps / (2 * (C + n + 1))). assert (0 < e2) as He2 by (apply Rdiv_lt_0_compat; lra). assert (e2 * (C + n) <= eps / 2) as H2e.
  { apply Rle_trans with (e2 * (C + n + 1)); [apply Rmult_le_compat_l; lra|]. right. unfold e2. field. lra. }
  destruct (Hf e2 He2) as [df [Hdf Ff]].
  destruct (common_delta I K (fun i h => Rabs (u i (fun k => t k + h k) - u i t - suml K (fun k => U i k * h k)) <= e' * norm K h)) as [du [Hdu Fu]].
  { intros i Hi. exact (Hu i Hi e' He'). }
  exists (Rmin du (df / (C + n + 1))). split; [apply Rmin_pos; [exact Hdu|apply Rdiv_lt_0_compat; lra]|].
  intros h Hh. pose proof (norm_nonneg K h) as Nh. assert (norm K h < du) as H1 by (pose proof (Rmin_l du (df / (C + n + 1))); lra).
  assert ((C + n + 1) * norm K h < df) as H2.
  { assert (norm K h < df / (C + n + 1)) as L by (pose proof (Rmin_r du (df / (C + n + 1))); lra). apply (Rmult_lt_compat_l (C + n + 1)) in L; [|lra]. replace ((C + n + 1) * (df / (C + n + 1))) with df in L by (field; lra). exact L. }
  set (k := fun i => u i (fun y => t y + h y) - u i t).
  assert (forall i, In i I -> Rabs (k i - suml K (fun y => U i y * h y)) <= e' * norm K h) as Hk by (intros i Hi; exact (Fu i Hi h H1)).
  assert (norm I k <= (C + n) * norm K h) as Nk.
  { unfold norm at 1. apply Rle_trans with (suml I (fun i => norm K (U i) * norm K h + 1 * norm K h)).
    - apply suml_le. intros i Hi. specialize (Hk i Hi). pose proof (linear_bound K (U i) h) as L.
      replace (k i) with ((k i - suml K (fun y => U i y * h y)) + suml K (fun y => U i y * h y)) by ring. eapply Rle_trans; [apply Rabs_triang|].
      assert (e' * norm K h <= 1 * norm K h) by (apply Rmult_le_compat_r; lra). lra.
    - rewrite suml_plus, suml_scal_r, suml_const. fold C n. lra. }
  assert (norm I k < df) as Nk2 by (assert ((C + n) * norm K h <= (C + n + 1) * norm K h) by (apply Rmult_le_compat_r; lra); lra).
  specialize (Ff k Nk2). replace (fun i => u i t + k i) with (fun i => u i (fun y => t y + h y)) in Ff by (apply functional_extensionality; intro i; unfold k; ring).
  replace (f (fun i => u i (fun y => t y + h y)) - f (fun i => u i t) - suml K (fun y => suml I (fun i => g i * U i y) * h y))
    with ((f (fun i => u i (fun y => t y + h y)) - f (fun i => u i t) - suml I (fun i => g i * k i)) + (suml I (fun i => g i * (k i - suml K (fun y => U i y * h y))))).
  2:{ assert (suml K (fun y => suml I (fun i => g i * U i y) * h y) = suml I (fun i => g i * suml K (fun y => U i y * h y))) as E.
      { rewrite (suml_ext K _ (fun y => suml I (fun i => g i * (U i y * h y)))) by (intros y _; rewrite <- suml_scal_r; apply suml_ext; intros; ring). rewrite suml_swap. apply suml_ext. intros i _. rewrite suml_scal. reflexivity. }
      rewrite E. rewrite (suml_ext I (fun i => g i * (k i - _)) (fun i => g i * k i - g i * suml K (fun y => U i y * h y))) by (intros; ring). rewrite suml_minus. ring. }
  eapply Rle_trans; [apply Rabs_triang|].
  assert (Rabs (suml I (fun i => g i * (k i - suml K (fun y => U i y * h y)))) <= G * (e' * norm K h)) as L2.
  { eapply Rle_trans; [apply suml_abs|]. unfold G, norm at 1. rewrite <- suml_scal_r. apply suml_le. intros i Hi. rewrite Rabs_mult. apply Rmult_le_compat_l; [apply Rabs_pos|]. apply Hk. exact Hi. }
  assert (e2 * norm I k <= e2 * ((C + n) * norm K h)) as L1 by (apply Rmult_le_compat_l; lra).
  assert (e2 * (C + n) * norm K h <= eps / 2 * norm K h) by (apply Rmult_le_compat_r; lra).
  assert (G * e' * norm K h <= eps / 2 * norm K h) by (apply Rmult_le_compat_r; lra). lra.
Qed.
(* a function of one variable *)
Lemma one_variable (f : R -> R) y d : derivable_pt_lim f y d -> gradient [tt] (fun z => f (z tt)) (fun _ => y) (fun _ => d).
Proof.
  intros H eps He. destruct (H eps He) as [delta Hd]. exists delta. split; [apply cond_pos|]. intros h Hh. unfold norm in *. cbn [suml] in *. rewrite !Rplus_0_r in *. destruct (Req_dec (h tt) 0) as [Z|Z].
  - rewrite Z. rewrite Rplus_0_r, Rabs_R0. replace (f y - f y - d * 0) with 0 by ring. rewrite Rabs_R0. lra.
  - specialize (Hd (h tt) Z Hh). replace (f (y + h tt) - f y - d * h tt) with (((f (y + h tt) - f y) / h tt - d) * h tt) by (field; exact Z). rewrite Rabs_mult. apply Rmult_le_compat_r; [apply Rabs_pos|lra].
Qed.
Lemma chain1 {Y} (K : list Y) (f : R -> R) (u : (Y -> R) -> R) t d U : derivable_pt_lim f (u t) d -> gradient K u t U -> gradient K (fun s => f (u s)) t (fun k => U k * d).
Proof.
  intros Hf Hu. pose proof (chain [tt] K (fun z => f (z tt)) (fun _ => u) t (fun _ => d) (fun _ => U) (one_variable f (u t) d Hf) (fun _ _ => Hu)) as H. cbn beta in H.
  replace (fun k => U k * d) with (fun k => suml [tt] (fun _ => d * U k)); [exact H|]. apply functional_extensionality. intro k. cbn [suml]. ring.
Qed.
Lemma gradient_linear {X} (I : list X) (f : (X -> R) -> R) x g : (forall h, f (fun i => x i + h i) = f x + suml I (fun i => g i * h i)) -> gradient I f x g.
Proof. intros H eps He. exists 1. split; [lra|]. intros h _. rewrite H. replace (f x + _ - f x - _) with 0 by ring. rewrite Rabs_R0. apply Rmult_le_pos; [lra|apply norm_nonneg]. Qed.
