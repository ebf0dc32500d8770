(* C55: inner iterations (CoordinateDescentMinimizer). *)
From Coq Require Import Reals List Arith Bool Lia Permutation Lra.
From Verif Require Import InnerModel InnerSpec InnerProofs InnerProofs2.
Import ListNotations.

(* ---------------- a concrete case ---------------- *)

(* a solver of two steps: it points its block to the values of the blocks it sees
   as constant, one after the other, then stores what its block points to *)
Definition copy_solver : block_solver :=
  mksolver bool (fun _ => false)
    (fun l w =>
       let others := concat (map (fun p => if fst p : bool then snd p else []) w) in
       let own := hd [] (map snd (filter (fun p => negb (fst p)) w)) in
       if l then (true, own, Some own, true) else (true, others, None, false)).

(* blocks 0, 1, 2 in the program, at offsets 0, 1, 2; block 7 is constant *)
Definition shared0 : shared :=
  mkshared (fun b => if Nat.ltb b 3 then mkpb false b (b * 10) b (Elsewhere [99%R]) else mkpb true 0 0 0 (Elsewhere [7%R]))
           (fun o => match o with 0 => [0%R] | 1 => [1%R] | _ => [2%R] end).
Definition residuals0 : list (list nat) := [[0; 1]; [1; 2]; [7; 2]].

Lemma shared0_laid_out : laid_out shared0 [0; 1; 2].
Proof.
  split; [|split].
  - intros a b Ha Hb. cbn. destruct Ha as [<-|[<-|[<-|[]]]], Hb as [<-|[<-|[<-|[]]]]; cbn; intro; try reflexivity; discriminate.
  - intros b [<-|[<-|[<-|[]]]]; reflexivity.
  - intros b Hb. unfold shared0. cbn [sh_blocks]. destruct (Nat.ltb_spec b 3) as [L|L].
    + exfalso. apply Hb. destruct b as [|[|[|b]]]; cbn; auto. lia.
    + split; [reflexivity|]. eexists. reflexivity.
Qed.

Definition minimizer0 : minimizer := mkminimizer [0; 2; 1] [0; 2; 2] [[0]; [1; 2]].
Example minimizer0_init : Init (fun b => Nat.ltb b 8) [0; 1; 2] residuals0 [[0; 2]] = Some minimizer0.
Proof. reflexivity. Qed.
Example ordering0_valid : IsOrderingValid residuals0 [[0; 2]] = true /\ IsOrderingValid residuals0 [[1]; [0; 2]] = true /\
  IsOrderingValid residuals0 [[1; 2]] = false.
Proof. split; [|split]; reflexivity. Qed.
(* two threads, their steps interleaved; block 0 gets the values of block 1, block 2
   those of blocks 1 and 7 *)
Example minimize0 :
  match Minimize copy_solver residuals0 minimizer0 [[1; 0; 0; 1; 0; 1; 1; 0]; []] shared0 with
  | Some sh => values [0; 1; 2] sh 0 = [1%R] /\ values [0; 1; 2] sh 1 = [1%R] /\ values [0; 1; 2] sh 2 = [1%R; 7%R]
  | None => False
  end.
Proof. vm_compute. split; [|split]; reflexivity. Qed.

(* ---------------- the ordering check ---------------- *)

(* An ordering is accepted if and only if no residual block has two parameter blocks in
   the same group. *)
Theorem ordering_valid_iff residuals groups :
  Forall (@NoDup nat) residuals ->
  (IsOrderingValid residuals groups = true <-> Forall (independent residuals) groups).
Proof.
  intro ND. unfold IsOrderingValid. rewrite forallb_forall, Forall_forall.
  split; intros H g Hg; apply (independent_check residuals g ND), H, Hg.
Qed.
Print Assumptions ordering_valid_iff.

(* ---------------- the call ---------------- *)

(* For every schedule of the threads: the parameter values after the call are those of
   block coordinate descent, one block after the other in the order of the
   ordering, each solved with the values of all other blocks fixed; index, offsets and
   constness of every block are as before the call, and nothing else changed. *)
Theorem inner_is_coordinate_descent S residuals program known groups m schedules sh sh' :
  Init known program residuals groups = Some m ->
  IsOrderingValid residuals groups = true -> Forall (@NoDup nat) residuals ->
  NoDup (concat groups) -> incl (concat groups) program -> NoDup program ->
  laid_out sh program ->
  Minimize S residuals m schedules sh = Some sh' ->
  descent S residuals (values program sh) (concat groups) (values program sh') /\ restored program sh sh'.
Proof.
  intros HI HV HN ND1 HIn ND2 LO HM. apply (ordering_valid_iff residuals groups HN) in HV.
  exact (Minimize_spec S residuals program known groups m schedules sh sh' HI HV ND1 HIn ND2 LO HM).
Qed.
Print Assumptions inner_is_coordinate_descent.

(* The result does not depend on the schedule, nor on the number of threads. *)
Theorem inner_schedule_independent S residuals program known groups m s1 s2 sh sh1 sh2 :
  Init known program residuals groups = Some m ->
  IsOrderingValid residuals groups = true -> Forall (@NoDup nat) residuals ->
  NoDup (concat groups) -> incl (concat groups) program -> NoDup program ->
  laid_out sh program ->
  Minimize S residuals m s1 sh = Some sh1 -> Minimize S residuals m s2 sh = Some sh2 ->
  (forall b, values program sh1 b = values program sh2 b) /\
  (forall b, sh_blocks sh1 b = sh_blocks sh2 b).
Proof.
  intros HI HV HN ND1 HIn ND2 LO M1 M2.
  destruct (inner_is_coordinate_descent S residuals program known groups m s1 sh sh1 HI HV HN ND1 HIn ND2 LO M1) as [D1 (A1 & B1 & _)].
  destruct (inner_is_coordinate_descent S residuals program known groups m s2 sh sh2 HI HV HN ND1 HIn ND2 LO M2) as [D2 (A2 & B2 & _)].
  split; [apply (descent_det S residuals _ _ _ _ D1 D2)|].
  intro b. destruct (in_dec Nat.eq_dec b program) as [I|I]; [rewrite (A1 b I), (A2 b I)|rewrite (B1 b I), (B2 b I)]; reflexivity.
Qed.
Print Assumptions inner_schedule_independent.

(* Within an independent set the order of the blocks does not matter. *)
Theorem set_order_irrelevant S residuals set set' x x' :
  independent residuals set -> NoDup set -> Permutation set set' ->
  descent S residuals x set x' -> descent S residuals x set' x'.
Proof.
  intros HI ND HP D. apply descent_jacobi in D; [|assumption|assumption]. apply jacobi_descent.
  - exact (Permutation_NoDup HP ND).
  - intros r a b Hr Ha Hb. apply (HI r a b Hr).
    + exact (Permutation_in _ (Permutation_sym HP) Ha).
    + exact (Permutation_in _ (Permutation_sym HP) Hb).
  - destruct D as [D1 D2]. split.
    + intros b Hb. apply D1. exact (Permutation_in _ (Permutation_sym HP) Hb).
    + intros b Hb. apply D2. intro I. apply Hb. exact (Permutation_in _ HP I).
Qed.
Print Assumptions set_order_irrelevant.

(* If the minimizer used for one block never increases the cost of the residual blocks
   of that block, then the whole call never increases the cost of the problem. *)
Theorem inner_never_increases S residuals costs program known groups m schedules sh sh' :
  Init known program residuals groups = Some m ->
  IsOrderingValid residuals groups = true -> Forall (@NoDup nat) residuals ->
  NoDup (concat groups) -> incl (concat groups) program -> NoDup program ->
  laid_out sh program ->
  local_costs residuals costs -> solver_descends S residuals costs ->
  Minimize S residuals m schedules sh = Some sh' ->
  (total_cost costs (seq 0 (length residuals)) (values program sh') <=
   total_cost costs (seq 0 (length residuals)) (values program sh))%R.
Proof.
  intros HI HV HN ND1 HIn ND2 LO LC SD HM.
  destruct (inner_is_coordinate_descent S residuals program known groups m schedules sh sh' HI HV HN ND1 HIn ND2 LO HM) as [D _].
  exact (descent_cost S residuals costs _ _ _ LC SD D).
Qed.
Print Assumptions inner_never_increases.

(* Blocks of the program that are not in the ordering keep their values. *)
Theorem inner_leaves_others S residuals program known groups m schedules sh sh' b :
  Init known program residuals groups = Some m ->
  IsOrderingValid residuals groups = true -> Forall (@NoDup nat) residuals ->
  NoDup (concat groups) -> incl (concat groups) program -> NoDup program ->
  laid_out sh program ->
  Minimize S residuals m schedules sh = Some sh' ->
  ~ In b (concat groups) -> values program sh' b = values program sh b.
Proof.
  intros HI HV HN ND1 HIn ND2 LO HM Nb.
  destruct (inner_is_coordinate_descent S residuals program known groups m schedules sh sh' HI HV HN ND1 HIn ND2 LO HM) as [D _].
  clear - D Nb. revert D Nb. generalize (values program sh) as x. induction (concat groups) as [|c l IH]; intros x D Nb; inversion D as [? ? E|? ? ? v ? SV D']; subst.
  - symmetry. apply E.
  - rewrite (IH _ D'); [|intro I; apply Nb; right; exact I]. unfold set_block. apply put_ne. intros ->. apply Nb. left. reflexivity.
Qed.
Print Assumptions inner_leaves_others.

(* The theorems apply to the concrete case above. *)
Example case0_descends :
  exists sh', Minimize copy_solver residuals0 minimizer0 [[0; 0; 0; 0; 1; 1; 1; 1]; []] shared0 = Some sh' /\
  descent copy_solver residuals0 (values [0; 1; 2] shared0) [0; 2] (values [0; 1; 2] sh') /\
  restored [0; 1; 2] shared0 sh'.
Proof.
  destruct (Minimize copy_solver residuals0 minimizer0 [[0; 0; 0; 0; 1; 1; 1; 1]; []] shared0) as [sh'|] eqn:E; [|discriminate].
  exists sh'. split; [reflexivity|].
  apply (inner_is_coordinate_descent copy_solver residuals0 [0; 1; 2] (fun b => Nat.ltb b 8) [[0; 2]] minimizer0 [[0; 0; 0; 0; 1; 1; 1; 1]; []]).
  - reflexivity.
  - reflexivity.
  - repeat constructor; cbn; intuition discriminate.
  - repeat constructor; cbn; intuition discriminate.
  - intros a [<-|[<-|[]]]; cbn; auto.
  - repeat constructor; cbn; intuition discriminate.
  - exact shared0_laid_out.
  - exact E.
Qed.

(* ---------------- what goes wrong otherwise ---------------- *)

(* Without the check, the result would depend on the schedule. *)
Theorem dependent_set_refuted :
  exists m s1 s2 sh1 sh2,
    Init (fun _ => true) [0; 1] [[0; 1]] [[0; 1]] = Some m /\ IsOrderingValid [[0; 1]] [[0; 1]] = false /\
    Minimize copy_solver [[0; 1]] m s1 shared0 = Some sh1 /\ Minimize copy_solver [[0; 1]] m s2 shared0 = Some sh2 /\
    values [0; 1] sh1 0 <> values [0; 1] sh2 0.
Proof.
  exists (mkminimizer [0; 1] [0; 2] [[0]; [0]]), [[0; 0; 0; 0; 1; 1; 1; 1]], [[1; 1; 1; 1; 0; 0; 0; 0]].
  set (m := mkminimizer _ _ _).
  assert (option_map (fun sh => values [0; 1] sh 0) (Minimize copy_solver [[0; 1]] m [[0; 0; 0; 0; 1; 1; 1; 1]] shared0) = Some [1%R]) as E1 by (vm_compute; reflexivity).
  assert (option_map (fun sh => values [0; 1] sh 0) (Minimize copy_solver [[0; 1]] m [[1; 1; 1; 1; 0; 0; 0; 0]] shared0) = Some [0%R]) as E2 by (vm_compute; reflexivity).
  destruct (Minimize copy_solver [[0; 1]] m [[0; 0; 0; 0; 1; 1; 1; 1]] shared0) as [sh1|]; [|discriminate].
  destruct (Minimize copy_solver [[0; 1]] m [[1; 1; 1; 1; 0; 0; 0; 0]] shared0) as [sh2|]; [|discriminate].
  exists sh1, sh2. cbn [option_map] in E1, E2. injection E1 as E1. injection E2 as E2.
  split; [reflexivity|]. split; [reflexivity|]. split; [reflexivity|]. split; [reflexivity|].
  rewrite E1, E2. intro H. injection H as H. lra.
Qed.
Print Assumptions dependent_set_refuted.

(* Init reads past the end of a map if and only if the ordering names a block that is not in the problem. *)
Theorem init_undefined_iff known program residuals groups :
  Init known program residuals groups = None <-> exists b, In b (concat groups) /\ known b = false.
Proof.
  unfold Init.
  assert (forall gs bl off, serialize known gs bl off = None <-> exists b, In b (concat gs) /\ known b = false) as HS.
  { induction gs as [|g gs IH]; intros bl off; cbn [serialize concat].
    - split; [discriminate|]. intros (b & [] & _).
    - destruct (forallb known g) eqn:E.
      + rewrite IH. rewrite forallb_forall in E. split; intros (b & I & K); exists b; (split; [|exact K]).
        * apply in_or_app. right. exact I.
        * apply in_app_or in I. destruct I as [I|I]; [rewrite (E b I) in K; discriminate|exact I].
      + split; [intros _|reflexivity].
        assert (exists b, In b g /\ known b = false) as (b & I & K).
        { clear - E. induction g as [|b g IH]; [discriminate|]. cbn in E. destruct (known b) eqn:K.
          - destruct (IH E) as (c & I & Kc). exists c. split; [right; exact I|exact Kc].
          - exists b. split; [left; reflexivity|exact K]. }
        exists b. split; [apply in_or_app; left; exact I|exact K]. }
  rewrite <- (HS groups [] [0]). destruct (serialize known groups [] [0]) as [[bl off]|]; split; congruence.
Qed.
Print Assumptions init_undefined_iff.
