(* Specification of C55. *)
From Coq Require Import Reals List Arith Bool.
From Verif Require Import InnerModel.
Import ListNotations.

(* no residual block has two blocks of the set *)
Definition independent (residuals : list (list nat)) (set : list nat) : Prop :=
  forall r a b, In r residuals -> In a set -> In b set -> In a r -> In b r -> a = b.

(* the program's state: values of the blocks; [at_] where each is in [parameters] *)
Definition set_block (x : nat -> vec) (b : nat) (v : vec) : nat -> vec := put x b v.

(* Solving for block b alone, with all other blocks held at x, returns v: the inner
   minimizer runs by itself, its own block varying, all others constant. *)
Section Alone.
Variable S : block_solver.
Variable residuals : list (list nat).
Definition alone_view (x : nat -> vec) (b : nat) (own : vec) : view :=
  map (fun c => if Nat.eqb c b then (false, own) else (true, x c)) (visible residuals (residuals_of residuals b)).
(* local state, values its block points to, values in [parameters], result *)
Inductive alone (x : nat -> vec) (b : nat) : bs_local S -> vec -> vec -> vec -> Prop :=
| alone_end l own cur l' v w :
    bs_step S l (alone_view x b own) = (l', v, w, true) ->
    alone x b l own cur (match w with Some y => y | None => cur end)
| alone_step l own cur l' v w r :
    bs_step S l (alone_view x b own) = (l', v, w, false) ->
    alone x b l' v (match w with Some y => y | None => cur end) r ->
    alone x b l own cur r.
Definition solves (x : nat -> vec) (b : nat) (v : vec) : Prop := alone x b (bs_start S (x b)) (x b) (x b) v.

(* block coordinate descent: the blocks one after the other *)
Inductive descent : (nat -> vec) -> list nat -> (nat -> vec) -> Prop :=
| descent_nil x x' : (forall b, x b = x' b) -> descent x [] x'
| descent_cons x b rest v x' :
    solves x b v -> descent (set_block x b v) rest x' -> descent x (b :: rest) x'.
End Alone.

(* the objective: a cost for each residual block, which depends on its parameter blocks only *)
Definition total_cost (costs : nat -> (nat -> vec) -> R) (ks : list nat) (x : nat -> vec) : R :=
  fold_right Rplus 0%R (map (fun k => costs k x) ks).
Definition local_costs (residuals : list (list nat)) (costs : nat -> (nat -> vec) -> R) : Prop :=
  forall k x y, (forall b, In b (nth k residuals []) -> x b = y b) -> costs k x = costs k y.
(* the inner minimizer does not increase the cost of the residual blocks it is given *)
Definition solver_descends (S : block_solver) (residuals : list (list nat)) (costs : nat -> (nat -> vec) -> R) : Prop :=
  forall x b v, solves S residuals x b v ->
    (total_cost costs (residuals_of residuals b) (set_block x b v) <=
     total_cost costs (residuals_of residuals b) x)%R.

(* before the call: the program's blocks are at different places in [parameters] and not
   constant; every other block is constant and points to the user's array *)
Definition laid_out (sh : shared) (program : list nat) : Prop :=
  (forall a b, In a program -> In b program ->
     pb_state_offset (sh_blocks sh a) = pb_state_offset (sh_blocks sh b) -> a = b) /\
  (forall b, In b program -> pb_constant (sh_blocks sh b) = false) /\
  (forall b, ~ In b program ->
     pb_constant (sh_blocks sh b) = true /\ exists v, pb_state (sh_blocks sh b) = Elsewhere v).
(* the values of the blocks: those in [parameters] for the program's blocks *)
Definition values (program : list nat) (sh : shared) : nat -> vec :=
  fun b => if in_dec Nat.eq_dec b program then sh_params sh (pb_state_offset (sh_blocks sh b))
           else deref (sh_params sh) (pb_state (sh_blocks sh b)).
(* everything but [parameters] and the state pointers is as before, and the state
   pointers of the program's blocks are into [parameters] *)
Definition restored (program : list nat) (sh sh' : shared) : Prop :=
  (forall b, In b program ->
     let p := sh_blocks sh b in
     sh_blocks sh' b = mkpb false (pb_index p) (pb_delta_offset p) (pb_state_offset p) (InParameters (pb_state_offset p))) /\
  (forall b, ~ In b program -> sh_blocks sh' b = sh_blocks sh b) /\
  (forall o, (forall b, In b program -> pb_state_offset (sh_blocks sh b) <> o) -> sh_params sh' o = sh_params sh o).
