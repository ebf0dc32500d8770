(** What a user of Problem believes: a set of parameter blocks (by address)
    with attributes and a set of residual blocks (by id).  Only the vocabulary
    of calls ([op]) and of values ([dbl]) is taken from the model. *)
Require Import ZArith List Lia Bool.
From Verif Require Import Dbl ProblemModel.
Import ListNotations.
Open Scope Z_scope.

(** Attributes of a parameter block: size, the user's constant flag, manifold
    (0: none), bounds per coordinate. *)
Record pinfo := mkI { i_size : Z; i_const : bool; i_man : Z; i_lo : Z -> dbl; i_hi : Z -> dbl }.

(** Live parameter blocks by address; live residual blocks by id: cost
    function, loss function (0: none), addresses of the parameter blocks. *)
Record pspec := mkS { a_par : Z -> option pinfo; a_res : Z -> option (Z * Z * list Z) }.

Definition empty_spec : pspec := mkS (fun _ => None) (fun _ => None).

Definition fupd {A} (k : Z) (v : A) (f : Z -> A) : Z -> A := fun k' => if k' =? k then v else f k'.
Definition set_par k v (a : pspec) := mkS (fupd k v (a_par a)) (a_res a).
Definition set_res k v (a : pspec) := mkS (a_par a) (fupd k v (a_res a)).

Definition fresh_info (size : Z) : pinfo := mkI size false 0 (fun _ => DBL_LOWEST) (fun _ => DBL_MAX).

(** Memory ranges starting at [v] and [v'] do not run into each other.  For
    positive sizes and [v <> v'] this is disjointness of the two ranges. *)
Definition apart (v s v' s' : Z) : Prop := (v < v' -> v + s <= v') /\ (v' <= v -> v' + s' <= v).

(** AddParameterBlock(v, size) is accepted. *)
Definition fits (a : pspec) (v size : Z) : Prop :=
  v <> 0 /\
  match a_par a v with
  | Some i => i_size i = size
  | None => forall v' i, a_par a v' = Some i -> apart v' (i_size i) v size
  end.

(** Its effect. *)
Definition add1 (v size : Z) (a : pspec) : pspec :=
  match a_par a v with Some _ => a | None => set_par v (Some (fresh_info size)) a end.

(** AddParameterBlock for several blocks in turn. *)
Fixpoint all_fit (vs szs : list Z) (a : pspec) : Prop :=
  match vs, szs with
  | v :: vs', z :: szs' => fits a v z /\ all_fit vs' szs' (add1 v z a)
  | _, _ => True
  end.
Fixpoint add_many (vs szs : list Z) (a : pspec) : pspec :=
  match vs, szs with
  | v :: vs', z :: szs' => add_many vs' szs' (add1 v z a)
  | _, _ => a
  end.

Section Spec.
Variables (cf_sizes : Z -> list Z) (mf_amb mf_tan : Z -> Z).

Definition manifold_allowed (i : pinfo) (m : Z) (ok : bool) : Prop :=
  m = i_man i \/ m = 0 \/ (mf_amb m = i_size i /\ 0 <= mf_tan m /\ ok = true).

Definition with_manifold (m : Z) (i : pinfo) := mkI (i_size i) (i_const i) m (i_lo i) (i_hi i).
Definition upd_par (v : Z) (f : pinfo -> pinfo) (a : pspec) : pspec :=
  match a_par a v with Some i => set_par v (Some (f i)) a | None => a end.

(** The call is accepted (does not stop the program). *)
Definition allows (o : op) (a : pspec) : Prop :=
  match o with
  | OAddParameter v size => fits a v size
  | OAddParameterManifold v size m ok =>
      fits a v size /\ exists i, a_par (add1 v size a) v = Some i /\ manifold_allowed i m ok
  | OAddResidual r c l vs =>
      c <> 0 /\ length vs = length (cf_sizes c) /\ NoDup vs /\ all_fit vs (cf_sizes c) a
  | ORemoveResidual r => a_res a r <> None
  | ORemoveParameter v | OSetConstant v | OSetVariable v => a_par a v <> None
  | OSetManifold v m ok => exists i, a_par a v = Some i /\ manifold_allowed i m ok
  | OSetLower v k x | OSetUpper v k x => exists i, a_par a v = Some i /\ k < i_size i
  | OEvaluate _ _ rs vs => forall v, In v vs -> a_par a v <> None
  end.

(** What an accepted call does. *)
Definition effect (o : op) (a : pspec) : pspec :=
  match o with
  | OAddParameter v size => add1 v size a
  | OAddParameterManifold v size m ok => upd_par v (with_manifold m) (add1 v size a)
  | OAddResidual r c l vs => set_res r (Some (c, l, vs)) (add_many vs (cf_sizes c) a)
  | ORemoveResidual r => set_res r None a
  | ORemoveParameter v =>
      mkS (fupd v None (a_par a))
          (fun r => match a_res a r with
                    | Some (c, l, vs) => if in_dec Z.eq_dec v vs then None else Some (c, l, vs)
                    | None => None
                    end)
  | OSetConstant v => upd_par v (fun i => mkI (i_size i) true (i_man i) (i_lo i) (i_hi i)) a
  | OSetVariable v => upd_par v (fun i => mkI (i_size i) false (i_man i) (i_lo i) (i_hi i)) a
  | OSetManifold v m ok => upd_par v (with_manifold m) a
  | OSetLower v k x => upd_par v (fun i => mkI (i_size i) (i_const i) (i_man i) (fupd k x (i_lo i)) (i_hi i)) a
  | OSetUpper v k x => upd_par v (fun i => mkI (i_size i) (i_const i) (i_man i) (i_lo i) (fupd k x (i_hi i))) a
  | OEvaluate _ _ _ _ => a
  end.

(** Things the caller must not do / cannot happen, which the library does not
    check: negative coordinate for a bound, evaluating a residual block that is
    not in the problem, an allocator handing out a live address. *)
Definition sane (o : op) (a : pspec) : Prop :=
  match o with
  | OAddResidual r _ _ _ => r <> 0 /\ a_res a r = None
  | OSetLower _ k _ | OSetUpper _ k _ => 0 <= k
  | OEvaluate _ _ rs _ => forall r, In r rs -> a_res a r <> None
  | _ => True
  end.

(** A value reported for a lower (upper) bound when [x] was set: the value
    itself, except that "no bound" values may be reported as -/+DBL_MAX. *)
Definition reports_lo (x y : dbl) : Prop := y = x \/ (dle x DBL_LOWEST = true /\ y = DBL_LOWEST).
Definition reports_hi (x y : dbl) : Prop := y = x \/ (dle DBL_MAX x = true /\ y = DBL_MAX).

(** A history of accepted calls. *)
Fixpoint accepted (os : list op) (a : pspec) : Prop :=
  match os with
  | [] => True
  | o :: os' => sane o a /\ allows o a /\ accepted os' (effect o a)
  end.
Fixpoint effects (os : list op) (a : pspec) : pspec :=
  match os with [] => a | o :: os' => effects os' (effect o a) end.

(** Cost (loss) function [c] is used by a live residual block. *)
Definition uses_cost (a : pspec) (c : Z) : Prop := exists r l vs, a_res a r = Some (c, l, vs).
Definition uses_loss (a : pspec) (l : Z) : Prop := l <> 0 /\ exists r c vs, a_res a r = Some (c, l, vs).

(** Cost functions, loss functions and manifolds handed over by a call. *)
Definition man_given (o : op) : list Z :=
  match o with
  | OAddParameterManifold _ _ m _ | OSetManifold _ m _ => if m =? 0 then [] else [m]
  | _ => []
  end.

Definition cost_given (o : op) : list Z := match o with OAddResidual _ c _ _ => [c] | _ => [] end.
Definition loss_given (o : op) : list Z := match o with OAddResidual _ _ l _ => if l =? 0 then [] else [l] | _ => [] end.

(** The user does not hand over again a cost or loss function that the
    problem has already destroyed ([cs], [ls]: those handed over so far). *)
Fixpoint no_reuse (cs ls : list Z) (os : list op) (a : pspec) : Prop :=
  match os with
  | [] => True
  | o :: os' =>
      (forall c, In c (cost_given o) -> In c cs -> uses_cost a c) /\
      (forall l, In l (loss_given o) -> In l ls -> uses_loss a l) /\
      no_reuse (cs ++ cost_given o) (ls ++ loss_given o) os' (effect o a)
  end.
End Spec.

