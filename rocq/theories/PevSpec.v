(** Vocabulary for the statements about Problem::Evaluate (C77). *)
From Coq Require Import List Arith Bool Reals.
From Verif Require Import EvaluatorModel EvaluatorSpec PevModel.
Import ListNotations.

Section Spec.
Variable Pb : problem.
Notation n := (length (pblocks Pb)).
Notation PB b := (nth b (pblocks Pb) (mkPB 0 0 (fun _ => None))).

(** residual blocks have different parameter blocks of the problem *)
Definition proper_block (rb : rblock) : Prop := NoDup (args rb) /\ forall a, In a (args rb) -> a < n.
Definition proper : Prop := forall rb, In rb (rblocks Pb) -> proper_block rb.

(** the user's array of a block; the block is constant for the user or has nothing that can vary *)
Definition value (ps : pstate) (b : nat) : values := user_state (block ps b).
Definition constant (ps : pstate) (b : nat) : Prop := is_set_constant (block ps b) = true \/ TangentSize (PB b) = 0.
Definition sized (ps : pstate) : Prop := forall b, b < n -> length (value ps b) = Size (PB b).
(** no evaluation is going on: all state pointers are the user's *)
Definition settled (ps : pstate) : Prop := forall b, state_ (block ps b) = UserState.
(** values and constness are as before *)
Definition unchanged (ps ps' : pstate) : Prop :=
  forall b, value ps' b = value ps b /\ is_set_constant (block ps' b) = is_set_constant (block ps b).
(** the manifold of b accepts the user's values *)
Definition accepts (ps : pstate) (b : nat) : Prop := plus_jacobian (PB b) (value ps b) <> None.
Definition all_accept (ps : pstate) : Prop := forall b, b < n -> ~ constant ps b -> accepts ps b.

(** ** one call *)
Section Call.
Variable ps : pstate.
Variable o : eoptions.
Variable w : wanted.
(** the requested blocks *)
Definition chosen : list nat := match parameter_blocks o with [] => seq 0 n | l => l end.
Definition chosen_residuals : list rblock :=
  match residual_blocks o with [] => rblocks Pb | l => map (fun i => nth i (rblocks Pb) (mkRB 0 [] (fun _ _ _ => None))) l end.
Definition known : Prop := forall b, In b (parameter_blocks o) -> b < n.
Definition known_residuals : Prop := forall i, In i (residual_blocks o) -> i < length (rblocks Pb).
Definition something : Prop := want_cost w = true \/ rq_residuals (want w) = true \/ rq_gradient (want w) = true \/ rq_jacobian (want w) = true.
Definition varying (b : nat) : Prop := In b chosen /\ ~ constant ps b.
Definition derivatives : bool := rq_gradient (want w) || rq_jacobian (want w).
(** the first column of a block: the tangent sizes in front of its last occurrence *)
Definition column_of (b off : nat) : Prop :=
  exists l1 l2, chosen = l1 ++ b :: l2 /\ ~ In b l2 /\ off = list_sum (map (fun c => TangentSize (PB c)) l1).
Definition num_columns : nat := list_sum (map (fun c => TangentSize (PB c)) chosen).
Definition num_rows : nat := list_sum (map NumResiduals chosen_residuals).
Definition first_row (i : nat) : nat := list_sum (map NumResiduals (firstn i chosen_residuals)).

(** [jacobians] are the Jacobians of the manifolds of the varying arguments at the user's values, if derivatives are asked for *)
Definition fresh_jacobians (args : list nat) (jacobians : list (option jac)) : Prop :=
  Forall2 (fun a j => (derivatives = true /\ varying a -> j = plus_jacobian (PB a) (value ps a)) /\
                      (derivatives = false \/ ~ varying a -> j = None)) args jacobians.
(** what the residual block gives at the user's values *)
Definition result (rb : rblock) (r : option (R * (nat -> R) * (nat -> nat -> nat -> R))) : Prop :=
  exists js, fresh_jacobians (args rb) js /\ r = rb_evaluate rb (apply_loss_function o) (map (value ps) (args rb)) js.

(** the results [rs] of the chosen residual blocks *)
Definition results (rs : list (R * (nat -> R) * (nat -> nat -> nat -> R))) : Prop :=
  Forall2 (fun rb r => result rb (Some r)) chosen_residuals rs.
Definition total_cost (rs : list (R * (nat -> R) * (nat -> nat -> nat -> R))) : R := fold_right Rplus 0%R (map (fun r => fst (fst r)) rs).
(** residuals in the requested order *)
Definition is_residuals (rs : list (R * (nat -> R) * (nat -> nat -> nat -> R))) (v : nat -> R) : Prop :=
  forall i rb r k, nth_error chosen_residuals i = Some rb -> nth_error rs i = Some r -> k < NumResiduals rb ->
    v (first_row i + k) = snd (fst r) k.
(** the jacobian: rows and columns in the requested order *)
Definition is_jacobian (rs : list (R * (nat -> R) * (nat -> nat -> nat -> R))) (M : nat -> nat -> R) : Prop :=
  forall i rb r k c, nth_error chosen_residuals i = Some rb -> nth_error rs i = Some r -> k < NumResiduals rb ->
    (exists j a off, nth_error (args rb) j = Some a /\ varying a /\ column_of a off /\ off <= c < off + TangentSize (PB a) /\
       M (first_row i + k) c = snd r j k (c - off)) \/
    ((forall j a off, nth_error (args rb) j = Some a -> varying a -> column_of a off -> ~ off <= c < off + TangentSize (PB a)) /\
     M (first_row i + k) c = 0%R).
(** all that is returned *)
Definition returned (rs : list (R * (nat -> R) * (nat -> nat -> nat -> R))) (out : outputs) : Prop :=
  (want_cost w = true -> o_cost out = total_cost rs) /\
  exists v M, is_residuals rs v /\ is_jacobian rs M /\
    (rq_residuals (want w) = true -> forall k, k < num_rows -> o_residuals out k = v k) /\
    (rq_jacobian (want w) = true -> forall k c, k < num_rows -> o_jacobian out k c = M k c) /\
    (rq_gradient (want w) = true -> forall c, c < num_columns -> o_gradient out c = sumn num_rows (fun k => M k c * v k)%R).
(** the manifolds accept what is requested *)
Definition accepted : Prop := forall b, varying b -> accepts ps b.
End Call.

(** two states the user cannot tell apart *)
Definition same_problem (ps1 ps2 : pstate) : Prop :=
  forall b, value ps1 b = value ps2 b /\ is_set_constant (block ps1 b) = is_set_constant (block ps2 b).
(** two answers to the same question agree *)
Definition same_answer (o : eoptions) (w : wanted) (o1 o2 : outputs) : Prop :=
  (want_cost w = true -> o_cost o1 = o_cost o2) /\
  (rq_residuals (want w) = true -> forall k, k < num_rows o -> o_residuals o1 k = o_residuals o2 k) /\
  (rq_jacobian (want w) = true -> forall k c, k < num_rows o -> o_jacobian o1 k c = o_jacobian o2 k c) /\
  (rq_gradient (want w) = true -> forall c, c < num_columns o -> o_gradient o1 c = o_gradient o2 c).

(** ** one residual block *)
(** the jacobian for argument j is asked for *)
Definition asked (jacobians : option (list bool)) (j : nat) : Prop := exists l, jacobians = Some l /\ nth j l false = true.
(** a jacobian of a constant block is asked for *)
Definition asks_constant (ps : pstate) (rb : rblock) (jacobians : option (list bool)) : Prop :=
  exists j a, nth_error (args rb) j = Some a /\ asked jacobians j /\ constant ps a.
(** what the residual block gives at the user's values, with the Jacobians of the manifolds there *)
Definition single_result (ps : pstate) (rb : rblock) (loss : bool) (jacobians : option (list bool))
  (r : option (R * (nat -> R) * (nat -> nat -> nat -> R))) : Prop :=
  exists js, length js = length (args rb) /\
    (forall j a, nth_error (args rb) j = Some a -> asked jacobians j -> nth_error js j = Some (plus_jacobian (PB a) (value ps a))) /\
    (forall j a, nth_error (args rb) j = Some a -> ~ asked jacobians j -> nth_error js j = Some None) /\
    r = rb_evaluate rb loss (map (value ps) (args rb)) js.

(** ** histories *)
(** the manifolds accept the values whenever there is an evaluation, and arrays keep their sizes *)
Fixpoint history (ops : list op) (ps : pstate) : Prop :=
  match ops with
  | [] => True
  | a :: rest =>
      (match a with
       | Write b x => b < n /\ length x = Size (PB b)
       | CallEvaluate o w threads thread schedule old =>
           all_accept ps /\ known o /\ known_residuals o /\
           valid_schedule (length (chosen_residuals o)) schedule /\ (forall i, i < length (chosen_residuals o) -> thread i < threads)
       | CallEvaluateResidualBlock rb _ _ _ => all_accept ps /\ In rb (rblocks Pb)
       | _ => True
       end) /\ match do_op Pb ps a with Some ps' => history rest ps' | None => True end
  end.
(** what the user did to values and constness; evaluations do nothing *)
Definition effect (vc : (nat -> values) * (nat -> bool)) (a : op) : (nat -> values) * (nat -> bool) :=
  match a with
  | Write b x => ((fun c => if Nat.eqb c b then x else fst vc c), snd vc)
  | SetParameterBlockConstant b => (fst vc, fun c => if Nat.eqb c b then true else snd vc c)
  | SetParameterBlockVariable b => (fst vc, fun c => if Nat.eqb c b then false else snd vc c)
  | _ => vc
  end.
End Spec.
