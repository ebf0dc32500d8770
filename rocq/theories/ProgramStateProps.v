(* C43: state vectors and parameter blocks.  C28: what Solver::Solve leaves in
   the user's arrays. *)

From Coq Require Import List Arith Bool Lia Permutation.
From Verif Require Import ProgramStateModel ProgramStateSpec ProgramStateProofs
  ProgramStateProofs2.
Import ListNotations.

(* ------------------------------------------------------------------ *)
(* C43                                                                  *)

(* Writing a state vector into the blocks and reading it back: every variable
   block gets its part, a constant block keeps its own value, no array is
   changed on the way in and only the destination on the way out. *)
Theorem state_vector_roundtrip (V : Type) (bs : list (pblock V)) (w : world V)
    (k j : nat) (us vs : list (list V)) (old : list V) :
  distinct bs -> sized bs vs -> Forall2 acceptable bs vs ->
  (forall b, In b bs -> at_user w b) ->
  Forall2 (fun b u => user_value w b = Some u) bs us ->
  w_mem w (Vec k) = Some (concat vs) ->
  j <> k -> w_mem w (Vec j) = Some old -> length old = num_parameters bs ->
  exists w1 w2,
    state_vector_to_blocks bs (Vec k, 0) w = Some (true, w1) /\
    w_mem w1 = w_mem w /\
    Forall2 (fun b x => value w1 b = Some x) bs (assigned_all bs us vs) /\
    blocks_to_state_vector bs (Vec j, 0) w1 = Some w2 /\
    w_mem w2 (Vec j) = Some (concat (assigned_all bs us vs)) /\
    same_except [Vec j] (w_mem w) (w_mem w2).
Proof.
  intros D S A U F M NJ MJ L.
  destruct (sv_success V bs vs [] [] (Vec k) w D S A) as (w1 & E & M1 & G).
  { cbn. now rewrite app_nil_r. }
  cbn [length] in E.
  assert (VAL : Forall2 (fun b x => value w1 b = Some x /\
              fst (w_state w1 (pb_id b)) <> Vec j) bs (assigned_all bs us vs)).
  { assert (CS : forall b, In b bs -> is_constant b = true ->
              w_state w1 (pb_id b) = (User (pb_id b), 0)).
    { intros b I C. rewrite (sv_constant V bs _ _ _ _ b D E I C). apply (U b I). }
    assert (LEN : forall b u, In b bs -> user_value w b = Some u -> length u = pb_size b).
    { intros b u I H. destruct (U b I) as (_ & u' & H' & L'). congruence. }
    clear - F S G CS LEN M1 NJ.
    assert (CS' : forall b, In b bs -> is_constant b = true ->
              w_state w1 (pb_id b) = (User (pb_id b), 0)) by exact CS.
    assert (LEN' : forall b u, In b bs -> user_value w b = Some u -> length u = pb_size b)
      by exact LEN.
    clear CS LEN. revert us vs F S G CS' LEN'.
    induction bs as [|b bs IH]; intros us vs F S G CS LEN;
      inversion F; subst; inversion S; subst; inversion G; subst; cbn [assigned_all];
      constructor.
    - unfold assigned. destruct (is_constant b) eqn:C.
      + rewrite (CS b (or_introl eq_refl) C). split; [|discriminate].
        unfold value. rewrite (CS b (or_introl eq_refl) C). rewrite M1.
        apply read_all; [assumption|].
        symmetry. apply (LEN b); [now left|assumption].
      + match goal with X : false = false -> _ |- _ => destruct (X eq_refl) as [P Q] end.
        split; [exact Q|]. rewrite P. congruence.
    - apply IH; auto.
      + intros b' I. apply CS. now right.
      + intros b' u I. apply LEN. now right. }
  assert (SZ : sized bs (assigned_all bs us vs)).
  { clear - VAL. induction VAL as [|b x bs0 xs [P _] Q IH]; constructor; auto.
    apply (read_length V _ _ _ _ P). }
  destruct (bsv_ok V bs (assigned_all bs us vs) [] old [] (Vec j) w1 VAL) as (w2 & E2 & _ & O & R).
  - rewrite L. symmetry. now apply sized_length.
  - rewrite M1, MJ. cbn. now rewrite app_nil_r.
  - cbn [app length] in *. rewrite app_nil_r in R.
    exists w1, w2. split; [exact E|]. split; [exact M1|]. split.
    { eapply Forall2_impl_in; [|exact VAL]. intros b x _ [P _]. exact P. }
    split; [exact E2|]. split; [exact R|].
    intros a N. rewrite O, M1; [auto|]. intros ->. apply N. now left.
Qed.
Print Assumptions state_vector_roundtrip.

(* with only variable blocks the round trip is the identity *)
Theorem state_vector_roundtrip_variable (V : Type) (bs : list (pblock V))
    (us vs : list (list V)) :
  Forall (fun b => is_constant b = false) bs -> length us = length bs -> sized bs vs ->
  assigned_all bs us vs = vs.
Proof.
  intros C. revert us vs. induction C as [|b bs Cb C IH]; intros us vs L S;
    inversion S; subst; [destruct us; auto|].
  destruct us as [|u us]; [discriminate|]. cbn. unfold assigned. rewrite Cb.
  f_equal. apply IH; auto.
Qed.
Print Assumptions state_vector_roundtrip_variable.

(* publishing the blocks to the user: exactly the variable blocks' arrays
   change, and they get the values of the vector *)
Theorem state_vector_published (V : Type) (bs : list (pblock V)) (w : world V)
    (k : nat) (vs : list (list V)) :
  distinct bs -> sized bs vs -> Forall2 acceptable bs vs ->
  (forall b, In b bs -> at_user w b) ->
  w_mem w (Vec k) = Some (concat vs) ->
  exists w1 w2,
    state_vector_to_blocks bs (Vec k, 0) w = Some (true, w1) /\
    copy_to_user bs w1 = Some w2 /\
    Forall2 (fun b v => is_constant b = false -> user_value w2 b = Some v) bs vs /\
    (forall b, In b bs -> is_constant b = true -> user_value w2 b = user_value w b) /\
    same_except (map (fun b => User (pb_id b)) bs) (w_mem w) (w_mem w2).
Proof.
  intros D S A U M.
  assert (IV : inv V bs w w).
  { split; [auto|]. split; [auto|]. split; [intros b I; left; apply (U b I)|].
    split; [intros b I _; split; [apply (U b I)|auto]|]. intros b I. apply (U b I). }
  destruct (sv_copy_total V bs w w k vs D IV S A M) as (w1 & w2 & E1 & E2 & F).
  exists w1, w2. split; [exact E1|]. split; [exact E2|]. split; [exact F|].
  pose proof (inv_sv V _ _ _ _ _ _ _ D IV E1) as IV1.
  pose proof (inv_copy V _ _ _ _ IV1 E2) as (_ & _ & _ & J4 & _).
  split; [intros b I C; apply (J4 b I C)|].
  intros a N. destruct (copy_some V _ _ _ E2) as (_ & O & _).
  rewrite O by exact N. now rewrite (proj1 (sv_some V _ _ _ _ _ E1)).
Qed.
Print Assumptions state_vector_published.

(* blocks lie one behind the other in program order *)
Theorem block_offsets (V : Type) (bs : list (pblock V)) (i : nat) (b : pblock V) :
  nth_error bs i = Some b ->
  nth_error (offsets 0 0 bs) i =
    Some (entries_before pb_size bs i, entries_before pb_tangent bs i).
Proof. intros H. apply (offsets_nth V bs 0 0 i b H). Qed.
Print Assumptions block_offsets.

Theorem block_ranges_disjoint (V : Type) (bs : list (pblock V)) (i j : nat) (b : pblock V) :
  nth_error bs i = Some b -> i < j -> j <= length bs ->
  entries_before pb_size bs i + pb_size b <= entries_before pb_size bs j /\
  entries_before pb_size bs j <= num_parameters bs.
Proof.
  intros H IJ JL. rewrite num_parameters_sum. unfold entries_before.
  assert (SUMAPP : forall l l', list_sum (l ++ l') = list_sum l + list_sum l')
    by (intros; apply list_sum_app).
  split.
  - replace (firstn j bs) with (firstn i bs ++ [b] ++ firstn (j - S i) (skipn (S i) bs)).
    + rewrite !map_app, !SUMAPP. cbn. lia.
    + apply nth_error_split in H as (l1 & l2 & -> & <-).
      rewrite firstn_app, Nat.sub_diag, firstn_all. cbn [firstn]. rewrite app_nil_r.
      rewrite firstn_app, (firstn_all2 (n := j)) by lia.
      f_equal. rewrite skipn_app, skipn_all2 by lia.
      replace (S (length l1) - length l1) with 1 by lia.
      replace (j - length l1) with (S (j - S (length l1))) by lia. reflexivity.
  - rewrite <- (firstn_skipn j bs) at 2. rewrite map_app, SUMAPP. lia.
Qed.
Print Assumptions block_ranges_disjoint.

(* IsValid accepts exactly the numbering SetParameterOffsetsAndIndex produces *)
Theorem is_valid_exact (V : Type) (bs : list (pblock V)) (recorded : list (nat * (nat * nat))) :
  is_valid_from 0 0 0 bs recorded = true <->
  recorded = combine (seq 0 (length bs)) (offsets 0 0 bs).
Proof. apply is_valid_iff. Qed.
Print Assumptions is_valid_exact.

(* Program::Plus under every schedule of its ParallelFor *)
Theorem program_plus_blockwise (V : Type) (bs : list (pblock V))
    (order : list (nat * nat * pblock V)) (m : mem V) (sa da oa : array)
    (xs ds : list (list V)) (old : list V) :
  Permutation (combine (offsets 0 0 bs) bs) order ->
  sa <> oa -> da <> oa ->
  sized bs xs -> Forall2 (fun b d => length d = pb_tangent b) bs ds ->
  Forall plus_sized bs ->
  m sa = Some (concat xs) -> m da = Some (concat ds) ->
  m oa = Some old -> length old = num_parameters bs ->
  exists ok m', program_plus order (sa, 0) (da, 0) (oa, 0) false m = Some (ok, m') /\
    same_except [oa] m m' /\
    match all_plus bs xs ds with
    | Some ys => ok = true /\ m' oa = Some (concat ys)
    | None => ok = false
    end.
Proof.
  intros. destruct (plus_any_schedule V bs order m sa da oa xs ds old)
    as (ok & m' & E & O & R); auto.
  exists ok, m'. split; [exact E|]. split; [|exact R].
  intros a N. apply O. intros ->. apply N. now left.
Qed.
Print Assumptions program_plus_blockwise.

(* ------------------------------------------------------------------ *)
(* C28                                                                  *)

(* whatever happens, constant blocks and blocks outside the reduced program
   keep their values *)
Theorem solve_constant_blocks (V : Type) (cb : bool) (problem bs : list (pblock V))
    (fill : V) (os : list (op V)) (usable : bool) (w w' : world V) (b : pblock V) :
  ready problem w -> part_of bs problem -> Forall (op_in bs) os ->
  solve cb problem (Some bs) fill os usable w = Some w' ->
  In b problem ->
  pb_set_constant b = true \/ pb_tangent b = 0%nat \/ ~ In b bs ->
  user_value w' b = user_value w b.
Proof.
  intros R P F S I [C|[C|C]]; eapply solve_keeps_other_blocks; eauto; left;
    unfold is_constant; rewrite C; [reflexivity|apply orb_true_r].
Qed.
Print Assumptions solve_constant_blocks.

(* a solve whose solution is not usable leaves every value as it was *)
Theorem solve_failure_restores (V : Type) (cb : bool) (problem bs : list (pblock V))
    (fill : V) (os : list (op V)) (w w' : world V) (b : pblock V) :
  ready problem w -> part_of bs problem -> user_acceptable bs w ->
  Forall (op_in bs) os ->
  solve cb problem (Some bs) fill os false w = Some w' ->
  In b problem -> user_value w' b = user_value w b.
Proof. apply solve_failed_restores. Qed.
Print Assumptions solve_failure_restores.

(* a usable solution is what the user gets *)
Theorem solve_success_publishes (V : Type) (cb : bool) (problem bs : list (pblock V))
    (fill : V) (os : list (op V)) (w w' : world V) (vs : list (list V)) :
  ready problem w -> part_of bs problem -> Forall (op_in bs) os ->
  minimizer_result cb problem bs fill os w vs ->
  solve cb problem (Some bs) fill os true w = Some w' ->
  Forall2 (fun b v => is_constant b = false -> user_value w' b = Some v) bs vs.
Proof. apply solve_usable_returns. Qed.
Print Assumptions solve_success_publishes.

(* if preprocessing fails nothing changes *)
Theorem solve_preprocessing_failure (V : Type) (cb : bool) (problem : list (pblock V))
    (fill : V) (os : list (op V)) (usable : bool) (w : world V) :
  ready problem w ->
  exists w', solve cb problem None fill os usable w = Some w' /\
    ready problem w' /\
    forall b, In b problem -> user_value w' b = user_value w b.
Proof. apply solve_unpreprocessed. Qed.
Print Assumptions solve_preprocessing_failure.

(* no invalid memory access *)
Theorem solve_memory_safe (V : Type) (cb : bool) (problem bs : list (pblock V))
    (fill : V) (os : list (op V)) (usable : bool) (w : world V) (vs : list (list V)) :
  ready problem w -> part_of bs problem -> user_acceptable bs w ->
  (forall w1, minimizer_start problem bs fill w w1 -> ops_allowed cb bs os w1) ->
  (usable = true -> minimizer_result cb problem bs fill os w vs) ->
  exists w', solve cb problem (Some bs) fill os usable w = Some w'.
Proof. apply solve_total. Qed.
Print Assumptions solve_memory_safe.

(* afterwards the state pointers are the user's arrays again, so the next
   Solve or Evaluate starts from a good state *)
Theorem solve_ready_again (V : Type) (cb : bool) (problem bs : list (pblock V))
    (fill : V) (os : list (op V)) (usable : bool) (w w' : world V) :
  ready problem w -> part_of bs problem -> Forall (op_in bs) os ->
  solve cb problem (Some bs) fill os usable w = Some w' ->
  user_acceptable problem w' -> ready problem w'.
Proof. apply solve_pointers. Qed.
Print Assumptions solve_ready_again.

(* ------------------------------------------------------------------ *)
(* a problem with three blocks: a point on a manifold that does not like the
   value 0, a constant block, and a plain block *)

Definition ex_a : pblock nat :=
  mkblock 0 1 1 false true (fun v => match v with [0] => false | _ => true end)
    (fun x d => Some (map (fun p => fst p + snd p) (combine x d))).
Definition ex_c : pblock nat :=
  mkblock 1 2 2 true false (fun _ => true)
    (fun x d => Some (map (fun p => fst p + snd p) (combine x d))).
Definition ex_b : pblock nat :=
  mkblock 2 2 2 false false (fun _ => true)
    (fun x d => Some (map (fun p => fst p + snd p) (combine x d))).

Definition ex_world (a : nat) : world nat :=
  mkworld (fun r => match r with
                    | User 0 => Some [a] | User 1 => Some [7; 8] | User 2 => Some [3; 4]
                    | _ => None end)
          (fun c => (User c, 0)).

(* the minimizer evaluates the start, tries a point in a vector of its own,
   publishes, and reports *)
Definition ex_ops : list (op nat) :=
  [OEvaluate 0; OStore 5 [10; 11; 12]; OEvaluate 5; OStore 0 [10; 11; 12];
   OUpdateUser; OFree 5].

Example ex_usable :
  option_map (fun w => (user_value w ex_a, user_value w ex_c, user_value w ex_b,
                        w_state w 0, w_state w 2))
    (solve false [ex_a; ex_c; ex_b] (Some [ex_b; ex_a]) 0 ex_ops true (ex_world 1))
  = Some (Some [12], Some [7; 8], Some [10; 11], (User 0, 0), (User 2, 0)).
Proof. reflexivity. Qed.

Example ex_failed :
  option_map (fun w => (user_value w ex_a, user_value w ex_c, user_value w ex_b))
    (solve true [ex_a; ex_c; ex_b] (Some [ex_b; ex_a]) 0 ex_ops false (ex_world 1))
  = Some (Some [1], Some [7; 8], Some [3; 4]).
Proof. reflexivity. Qed.

Example ex_ready : ready [ex_a; ex_c; ex_b] (ex_world 1) /\
  part_of [ex_b; ex_a] [ex_a; ex_c; ex_b] /\
  user_acceptable [ex_a; ex_c; ex_b] (ex_world 1) /\
  Forall (op_in [ex_b; ex_a]) ex_ops.
Proof.
  split; [split|split; [split|split]].
  - unfold distinct. cbn. repeat (constructor; [cbn; lia|]). constructor.
  - intros b [<-|[<-|[<-|[]]]]; (split; [reflexivity|]); cbn; eauto.
  - unfold distinct. cbn. repeat (constructor; [cbn; lia|]). constructor.
  - intros b [<-|[<-|[]]]; cbn; auto.
  - intros b v [<-|[<-|[<-|[]]]]; cbn; intros [= <-]; unfold acceptable; cbn; auto; discriminate.
  - repeat constructor.
Qed.

Example ex_allowed : forall w1,
  minimizer_start [ex_a; ex_c; ex_b] [ex_b; ex_a] 0 (ex_world 1) w1 ->
  ops_allowed false [ex_b; ex_a] ex_ops w1.
Proof.
  intros w1 (ok & wa & wb & Ea & Eb & ->). cbn in Ea. injection Ea as <- <-.
  cbn in Eb. injection Eb as <-. cbn [ops_allowed ex_ops].
  split; [exists [[3; 4]; [1]]; split; [reflexivity|repeat constructor]|].
  intros w' E. cbn in E. injection E as <-.
  split; [exact I|]. intros w' E. cbn in E. injection E as <-.
  split; [exists [[10; 11]; [12]]; split; [reflexivity|repeat constructor]|].
  intros w' E. cbn in E. injection E as <-.
  split; [exact I|]. intros w' E. cbn in E. injection E as <-.
  split; [exists [[10; 11]; [12]]; split; [reflexivity|split; repeat constructor]|].
  intros w' E. cbn in E. injection E as <-.
  split; [exact I|]. auto.
Qed.

Example ex_plus :
  option_map (fun r => (fst r, snd r (Vec 9)))
   (program_plus [(1, 1, ex_b); (0, 0, ex_a)] (Vec 0, 0) (Vec 1, 0) (Vec 9, 0) false
     (fun r => match r with Vec 0 => Some [1; 2; 3] | Vec 1 => Some [10; 20; 30]
                       | Vec 9 => Some [0; 0; 0] | _ => None end))
  = Some (true, Some [11; 22; 33]).
Proof. reflexivity. Qed.

(* Finding.  Without the assumption that the manifold accepts the user's
   values the state pointers are not restored: SetParameterBlockStatePtrsToUserStatePtrs
   stops at the first block whose PlusJacobian fails, and its result is
   ignored.  Here block a (first in the problem, last in the reduced program)
   fails; block b keeps pointing into original_reduced_parameters, which is
   gone when Solve returns, and the next Solve reads it. *)
Theorem solve_leaves_dangling_pointer_refuted :
  exists w', ready [ex_a; ex_b] (ex_world 0) /\
    part_of [ex_b; ex_a] [ex_a; ex_b] /\
    solve false [ex_a; ex_b] (Some [ex_b; ex_a]) 0 [OEvaluate 0] false (ex_world 0)
      = Some w' /\
    w_state w' (pb_id ex_b) = (Vec 1, 0) /\ w_mem w' (Vec 1) = None /\
    solve false [ex_a; ex_b] (Some [ex_b; ex_a]) 0 [OEvaluate 0] false w' = None.
Proof.
  eexists. split; [split|split; [split|]].
  - unfold distinct. cbn. repeat (constructor; [cbn; lia|]). constructor.
  - intros b [<-|[<-|[]]]; (split; [reflexivity|]); cbn; eauto.
  - unfold distinct. cbn. repeat (constructor; [cbn; lia|]). constructor.
  - intros b [<-|[<-|[]]]; cbn; auto.
  - split; [reflexivity|]. split; [reflexivity|]. split; reflexivity.
Qed.
Print Assumptions solve_leaves_dangling_pointer_refuted.
