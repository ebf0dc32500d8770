(** Armijo and Wolfe line searches.
    Source: internal/ceres/line_search.cc 92-882, internal/ceres/function_sample.cc.

    Step sizes, costs and directional derivatives are doubles with IEEE arithmetic
    (DblArith.v).  The evaluator, the manifold and the vector operations are
    arbitrary functions, and so is MinimizeInterpolatingPolynomial
    (PolynomialModel.v has it over the reals).
    Not modelled: timings, log messages, the text of Summary::error (only whether it
    is set). *)
Require Import List ZArith Bool.
From Verif Require Import Dbl DblArith.
Import ListNotations.
Open Scope Z_scope.

(** types.h LineSearchInterpolationType *)
Inductive interpolation := BISECTION | QUADRATIC | CUBIC.

(** the sample fields used by the polynomial *)
Record psample := mkPS { ps_x : dbl; ps_value : option dbl; ps_gradient : option dbl }.

Record ls_env := mkLEnv {
  pt : Type;                         (* points *)
  vec : Type;                        (* tangent vectors *)
  scale : dbl -> vec -> vec;         (* x * direction *)
  plus : pt -> vec -> option pt;     (* Evaluator::Plus; None = false *)
  eval : pt -> bool -> option (dbl * vec);  (* Evaluator::Evaluate with or without gradient; None = false *)
  dot : vec -> vec -> dbl;
  inf_norm : vec -> dbl;             (* lpNorm<Infinity>() *)
  poly_min : list psample -> dbl -> dbl -> dbl }.  (* MinimizeInterpolatingPolynomial *)

(** line_search.h:75-165 LineSearch::Options *)
Record ls_options := mkLO {
  lo_interpolation : interpolation;
  lo_decrease : dbl;            (* sufficient_decrease *)
  lo_max_contraction : dbl;     (* max_step_contraction *)
  lo_min_contraction : dbl;     (* min_step_contraction *)
  lo_min_step : dbl;            (* min_step_size *)
  lo_max_iter : Z;              (* max_num_iterations *)
  lo_curvature : dbl;           (* sufficient_curvature_decrease *)
  lo_expansion : dbl }.         (* max_step_expansion *)

(** std::isfinite *)
Definition is_fin (a : dbl) : bool := match a with Fin _ => true | _ => false end.

(** a run that ends, that dies in a CHECK, or that has used up its fuel *)
Inductive outcome (A : Type) := Done (a : A) | Aborted | Looping.
Arguments Done {A}. Arguments Aborted {A}. Arguments Looping {A}.

Section LS.
Variable E : ls_env.
Variable Op : ls_options.

(** function_sample.h:51-94 FunctionSample; the vectors are None when not valid *)
Record sample := mkFS {
  fs_x : dbl;
  fs_vector_x : option (pt E);
  fs_value : dbl; fs_value_valid : bool;
  fs_vector_gradient : option (vec E);
  fs_gradient : dbl; fs_gradient_valid : bool }.

(** function_sample.cc:37-44 FunctionSample() *)
Definition empty_sample : sample := mkFS (Fin 0) None (Fin 0) false None (Fin 0) false.

Variable position : pt E.       (* LineSearchFunction::position_ *)
Variable direction : vec E.     (* LineSearchFunction::direction_ *)

(** line_search.cc:103-144 LineSearchFunction::Evaluate, writing into [old]; and the
    point at which the evaluator was called, if it was *)
Definition ls_evaluate (x : dbl) (evaluate_gradient : bool) (old : sample) : sample * list (pt E) :=
  match plus E position (scale E x direction) with
  | None => (mkFS x None (fs_value old) false None (fs_gradient old) false, [])
  | Some y =>
      match eval E y evaluate_gradient with
      | None => (mkFS x (Some y) (fs_value old) false None (fs_gradient old) false, [y])
      | Some (v, g) =>
          if negb (is_fin v) then (mkFS x (Some y) v false None (fs_gradient old) false, [y])
          else if negb evaluate_gradient then (mkFS x (Some y) v true None (fs_gradient old) false, [y])
          else
            let d := dot E direction g in
            if negb (is_fin d) then (mkFS x (Some y) v true None d false, [y])
            else (mkFS x (Some y) v true (Some g) d true, [y])
      end
  end.

(** line_search.cc:146-148 *)
Definition direction_norm : dbl := inf_norm E direction.

(** a sample as the polynomial sees it (polynomial.cc:347-366) *)
Definition to_poly (s : sample) : psample :=
  mkPS (fs_x s) (if fs_value_valid s then Some (fs_value s) else None)
       (if fs_gradient_valid s then Some (fs_gradient s) else None).
(** FunctionSample(x, value) *)
Definition value_only (s : sample) : psample := mkPS (fs_x s) (Some (fs_value s)) None.

(** line_search.cc:211-276 InterpolatingPolynomialMinimizingStepSize; None = CHECK fails *)
Definition interp_step (lowerbound previous current : sample) (min_step max_step : dbl) : option dbl :=
  let half := dmin (dmax (dmul (fs_x current) (dq 1 2)) min_step) max_step in
  if negb (fs_value_valid current) then Some half
  else match lo_interpolation Op with
  | BISECTION =>
      if dle max_step (fs_x current) then Some half
      else if dlt (fs_x current) max_step then Some max_step else None
  | QUADRATIC =>
      if negb (fs_value_valid lowerbound) then None
      else Some (poly_min E ([to_poly lowerbound; value_only current] ++
                  (if fs_value_valid previous then [value_only previous] else [])) min_step max_step)
  | CUBIC =>
      if negb (fs_value_valid lowerbound) then None
      else Some (poly_min E ([to_poly lowerbound; to_poly current] ++
                  (if fs_value_valid previous then [to_poly previous] else [])) min_step max_step)
  end.

(** line_search.h:167-184 Summary *)
Record summary := mkSum {
  su_success : bool;
  su_optimal : sample;
  su_feval : Z;             (* num_function_evaluations *)
  su_geval : Z;             (* num_gradient_evaluations *)
  su_iter : Z;              (* num_iterations *)
  su_error : bool;          (* error is set *)
  su_steps : list dbl;      (* observer: steps evaluated, in order *)
  su_points : list (pt E) }. (* observer: points at which the evaluator was called, in order *)
Definition new_sum : summary := mkSum false empty_sample 0 0 0 false [] [].

Definition count_eval (g : bool) (x : dbl) (pts : list (pt E)) (s : summary) : summary :=
  mkSum (su_success s) (su_optimal s) (su_feval s + 1) (if g then su_geval s + 1 else su_geval s)
        (su_iter s) (su_error s) (su_steps s ++ [x]) (su_points s ++ pts).
Definition count_iter (s : summary) : summary :=
  mkSum (su_success s) (su_optimal s) (su_feval s) (su_geval s) (su_iter s + 1) (su_error s) (su_steps s) (su_points s).
Definition set_error (s : summary) : summary :=
  mkSum (su_success s) (su_optimal s) (su_feval s) (su_geval s) (su_iter s) true (su_steps s) (su_points s).
Definition succeed (o : sample) (s : summary) : summary :=
  mkSum true o (su_feval s) (su_geval s) (su_iter s) (su_error s) (su_steps s) (su_points s).

Variable initial_cost initial_gradient : dbl.

(** FunctionSample(0.0, initial_cost, initial_gradient) with vector_x = position
    (line_search.cc:290-295, 388-393) *)
Definition initial_position : sample := mkFS (Fin 0) (Some position) initial_cost true None initial_gradient true.

(** initial_cost + sufficient_decrease * initial_gradient * x *)
Definition armijo_bound (x : dbl) : dbl :=
  dadd initial_cost (dmul (dmul (lo_decrease Op) initial_gradient) x).

(** ** ArmijoLineSearch *)
Definition cubic : bool := match lo_interpolation Op with CUBIC => true | _ => false end.

(** line_search.cc:313-362, the loop, after [current] has been evaluated *)
Fixpoint armijo_loop (fuel : nat) (previous current : sample) (s : summary) : outcome summary :=
  if negb (fs_value_valid current) || dlt (armijo_bound (fs_x current)) (fs_value current) then
    match fuel with
    | O => Looping
    | S f =>
        let s := count_iter s in
        if lo_max_iter Op <=? su_iter s then Done (set_error s)
        else
          match interp_step initial_position previous current
                  (dmul (lo_max_contraction Op) (fs_x current)) (dmul (lo_min_contraction Op) (fs_x current)) with
          | None => Aborted
          | Some step =>
              if dlt (dmul step direction_norm) (lo_min_step Op) then Done (set_error s)
              else
                let '(next, pts) := ls_evaluate step cubic current in
                armijo_loop f current next (count_eval cubic step pts s)
          end
    end
  else Done (succeed current s).

(** line_search.cc:281-366 ArmijoLineSearch::DoSearch *)
Definition armijo_search (fuel : nat) (step_size_estimate : dbl) : outcome summary :=
  if dle (Fin 0) step_size_estimate && dlt (Fin 0) (lo_decrease Op) && dlt (lo_decrease Op) (dz 1) && (0 <? lo_max_iter Op) then
    let '(current, pts) := ls_evaluate step_size_estimate cubic empty_sample in
    armijo_loop fuel empty_sample current (count_eval cubic step_size_estimate pts new_sum)
  else Aborted.

(** ** WolfeLineSearch *)
(** -sufficient_curvature_decrease * initial_position.gradient *)
Definition curvature_bound : dbl := dmul (dneg (lo_curvature Op)) initial_gradient.

(** what BracketingPhase returns: its result, the bracket and do_zoom_search *)
Record bracket := mkBr { br_ok : bool; br_low : sample; br_high : sample; br_zoom : bool; br_sum : summary }.

(** line_search.cc:681-692, after the loop *)
Definition bracket_done (low high : sample) (zoom : bool) (s : summary) : outcome bracket :=
  Done (mkBr true low high
    (zoom && negb (dlt (dmul (dabs (dsub (fs_x high) (fs_x low))) direction_norm) (lo_min_step Op))) s).

(** line_search.cc:529-679, the loop after [current] has been evaluated; [low] is *bracket_low
    on entry, [high] *bracket_high *)
Fixpoint bracket_loop (fuel : nat) (low high previous current : sample) (s : summary) : outcome bracket :=
  let s := count_iter s in
  let valid := fs_value_valid current in
  if valid && (dlt (armijo_bound (fs_x current)) (fs_value current)
               || (fs_value_valid previous && dlt (fs_value previous) (fs_value current)))
  then bracket_done previous current true s
  else if valid && dle (dabs (fs_gradient current)) curvature_bound
  then bracket_done current current false s
  else if valid && dle (Fin 0) (fs_gradient current)
  then bracket_done current previous true s
  else if valid && dlt (dmul (dabs (dsub (fs_x current) (fs_x previous))) direction_norm) (lo_min_step Op)
  then bracket_done current high false s
  else if lo_max_iter Op <=? su_iter s
  then bracket_done (if valid && dlt (fs_value current) (fs_value low) then current else low) high false (set_error s)
  else
    match fuel with
    | O => Looping
    | S f =>
        let min_step := if valid then fs_x current else fs_x previous in
        let max_step := if valid then dmul (fs_x current) (lo_expansion Op) else fs_x current in
        match interp_step previous empty_sample current min_step max_step with
        | None => Aborted
        | Some step =>
            if dlt (dmul step direction_norm) (lo_min_step Op)
            then Done (mkBr false low high false (set_error s))
            else
              let previous' := if valid then current else previous in
              let '(next, pts) := ls_evaluate step true current in
              bracket_loop f low high previous' next (count_eval true step pts s)
        end
    end.

(** line_search.cc:491-693 BracketingPhase *)
Definition bracketing_phase (fuel : nat) (step_size_estimate : dbl) : outcome bracket :=
  let '(current, pts) := ls_evaluate step_size_estimate true empty_sample in
  bracket_loop fuel initial_position empty_sample initial_position current
    (count_eval true step_size_estimate pts new_sum).

(** line_search.cc:757-878, the loop of ZoomPhase: result, solution, summary *)
Fixpoint zoom_loop (fuel : nat) (low high : sample) (s : summary) : outcome (bool * sample * summary) :=
  if lo_max_iter Op <=? su_iter s then Done (false, low, set_error s)
  else if dlt (dmul (dabs (dsub (fs_x high) (fs_x low))) direction_norm) (lo_min_step Op)
  then Done (false, low, set_error s)
  else
    match fuel with
    | O => Looping
    | S f =>
        let s := count_iter s in
        let lower := if dlt (fs_x low) (fs_x high) then low else high in
        let upper := if dlt (fs_x low) (fs_x high) then high else low in
        match interp_step lower empty_sample upper (fs_x lower) (fs_x upper) with
        | None => Aborted
        | Some step =>
            let '(sol, pts) := ls_evaluate step true low in
            let s := count_eval true step pts s in
            if negb (fs_value_valid sol) || negb (fs_gradient_valid sol) then Done (false, sol, set_error s)
            else if dlt (armijo_bound (fs_x sol)) (fs_value sol) || dle (fs_value low) (fs_value sol)
            then zoom_loop f low sol s
            else if dle (dabs (fs_gradient sol)) curvature_bound then Done (true, sol, s)
            else if dle (Fin 0) (dmul (fs_gradient sol) (dsub (fs_x high) (fs_x low)))
            then zoom_loop f sol low s
            else zoom_loop f sol high s
        end
    end.

(** line_search.cc:699-882 ZoomPhase; on the early failure *solution is left empty *)
Definition zoom_phase (fuel : nat) (low high : sample) (s : summary) : outcome (bool * sample * summary) :=
  if fs_value_valid low && fs_gradient_valid low && fs_value_valid high then
    if dle (Fin 0) (dmul (fs_gradient low) (dsub (fs_x high) (fs_x low)))
    then Done (false, empty_sample, set_error s)
    else zoom_loop fuel low high s
  else Aborted.

(** line_search.cc:371-489 WolfeLineSearch::DoSearch *)
Definition wolfe_search (fuel : nat) (step_size_estimate : dbl) : outcome summary :=
  if dle (Fin 0) step_size_estimate && dlt (Fin 0) (lo_decrease Op) && dlt (lo_decrease Op) (lo_curvature Op)
     && dlt (lo_curvature Op) (dz 1) && dlt (dz 1) (lo_expansion Op) then
    match bracketing_phase fuel step_size_estimate with
    | Aborted => Aborted
    | Looping => Looping
    | Done b =>
        if negb (br_ok b) then Done (br_sum b)
        else if negb (br_zoom b) then Done (succeed (br_low b) (br_sum b))
        else
          match zoom_phase fuel (br_low b) (br_high b) (br_sum b) with
          | Aborted => Aborted
          | Looping => Looping
          | Done (ok, sol, s) =>
              if negb ok && negb (fs_value_valid sol) then Done s
              else if negb (fs_value_valid sol) || dlt (fs_value (br_low b)) (fs_value sol)
              then Done (succeed (br_low b) s)
              else Done (succeed sol s)
          end
    end
  else Aborted.
End LS.
