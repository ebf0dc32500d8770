(** Model of internal/ceres/problem_impl.cc and of the parts of
    internal/ceres/parameter_block.h and internal/ceres/program.cc it uses. *)
Require Import ZArith List Lia Bool.
From Verif Require Import ZMap Dbl.
Import ListNotations.
Open Scope Z_scope.

(** Outcome of a call.  [Abort]: a CHECK or LOG(FATAL) stopped the program.
    [Crash]: undefined behaviour (dereferencing a missing object, erasing
    end(), writing outside an array).  [Impossible]: the operation's oracle
    inputs are not a real execution (the allocator returned a live address). *)
Inductive res (A : Type) := Ok (a : A) | Abort | Crash | Impossible.
Arguments Ok {A} _. Arguments Abort {A}. Arguments Crash {A}. Arguments Impossible {A}.

Definition bind {A B} (r : res A) (f : A -> res B) : res B :=
  match r with Ok a => f a | Abort => Abort | Crash => Crash | Impossible => Impossible end.
Notation "'do' x <- r ; f" := (bind r (fun x => f)) (at level 200, x binder, r at level 100).
Definition check (b : bool) : res unit := if b then Ok tt else Abort.
Definition deref {A} (o : option A) : res A := match o with Some a => Ok a | None => Crash end.

(** Problem::Options (problem.h), the fields that matter here. *)
Record options := mkOpts {
  o_fast : bool;        (* enable_fast_removal *)
  o_nochecks : bool;    (* disable_all_safety_checks *)
  o_cost_own : bool;    (* cost_function_ownership == TAKE_OWNERSHIP *)
  o_loss_own : bool;    (* loss_function_ownership == TAKE_OWNERSHIP *)
  o_man_own : bool }.   (* manifold_ownership == TAKE_OWNERSHIP *)

(** ParameterBlock, parameter_block.h:345-381.  [b_user] says whether
    [state_ == user_state_]; offsets and the Plus Jacobian are not modelled.
    Pointers are integers, 0 is nullptr. *)
Record pblock := mkPB {
  b_addr : Z; b_size : Z; b_index : Z; b_const : bool; b_man : Z;
  b_lo : option (list dbl); b_hi : option (list dbl);
  b_deps : option zset; b_user : bool }.

(** ResidualBlock, residual_block.h: cost function, loss function, parameter
    block pointers, index. *)
Record rblock := mkRB { r_cost : Z; r_loss : Z; r_params : list Z; r_index : Z }.

(** Objects destroyed by the Problem. *)
Inductive freed := FCost (c : Z) | FLoss (l : Z) | FManifold (m : Z).

(** ProblemImpl (problem_impl.h) with the heap objects it points to.  The
    identity of a ParameterBlock is a counter value never reused (these
    pointers are never visible to the user); the identity of a ResidualBlock,
    which is the user-visible ResidualBlockId, is chosen by the allocator and
    may be reused after deletion. *)
Record problem := mkP {
  p_opts : options;
  p_pheap : zmap pblock;      (* live ParameterBlock objects *)
  p_rheap : zmap rblock;      (* live ResidualBlock objects *)
  p_pvec : list Z;            (* program_->parameter_blocks_ *)
  p_rvec : list Z;            (* program_->residual_blocks_ *)
  p_pmap : zmap Z;            (* parameter_block_map_ *)
  p_rset : zset;              (* residual_block_set_ *)
  p_cref : zmap Z;            (* cost_function_ref_count_ *)
  p_lref : zmap Z;            (* loss_function_ref_count_ *)
  p_mdel : list Z;            (* manifolds_to_delete_ *)
  p_next : Z;                 (* next ParameterBlock identity *)
  p_log : list freed }.       (* objects destroyed so far, oldest first *)

(** Record updates (no counterpart in the code). *)
Definition set_pheap s x := mkP (p_opts s) x (p_rheap s) (p_pvec s) (p_rvec s) (p_pmap s) (p_rset s) (p_cref s) (p_lref s) (p_mdel s) (p_next s) (p_log s).
Definition set_rheap s x := mkP (p_opts s) (p_pheap s) x (p_pvec s) (p_rvec s) (p_pmap s) (p_rset s) (p_cref s) (p_lref s) (p_mdel s) (p_next s) (p_log s).
Definition set_pvec s x := mkP (p_opts s) (p_pheap s) (p_rheap s) x (p_rvec s) (p_pmap s) (p_rset s) (p_cref s) (p_lref s) (p_mdel s) (p_next s) (p_log s).
Definition set_rvec s x := mkP (p_opts s) (p_pheap s) (p_rheap s) (p_pvec s) x (p_pmap s) (p_rset s) (p_cref s) (p_lref s) (p_mdel s) (p_next s) (p_log s).
Definition set_pmap s x := mkP (p_opts s) (p_pheap s) (p_rheap s) (p_pvec s) (p_rvec s) x (p_rset s) (p_cref s) (p_lref s) (p_mdel s) (p_next s) (p_log s).
Definition set_rset s x := mkP (p_opts s) (p_pheap s) (p_rheap s) (p_pvec s) (p_rvec s) (p_pmap s) x (p_cref s) (p_lref s) (p_mdel s) (p_next s) (p_log s).
Definition set_cref s x := mkP (p_opts s) (p_pheap s) (p_rheap s) (p_pvec s) (p_rvec s) (p_pmap s) (p_rset s) x (p_lref s) (p_mdel s) (p_next s) (p_log s).
Definition set_lref s x := mkP (p_opts s) (p_pheap s) (p_rheap s) (p_pvec s) (p_rvec s) (p_pmap s) (p_rset s) (p_cref s) x (p_mdel s) (p_next s) (p_log s).
Definition set_mdel s x := mkP (p_opts s) (p_pheap s) (p_rheap s) (p_pvec s) (p_rvec s) (p_pmap s) (p_rset s) (p_cref s) (p_lref s) x (p_next s) (p_log s).
Definition set_next s x := mkP (p_opts s) (p_pheap s) (p_rheap s) (p_pvec s) (p_rvec s) (p_pmap s) (p_rset s) (p_cref s) (p_lref s) (p_mdel s) x (p_log s).
Definition set_log s x := mkP (p_opts s) (p_pheap s) (p_rheap s) (p_pvec s) (p_rvec s) (p_pmap s) (p_rset s) (p_cref s) (p_lref s) (p_mdel s) (p_next s) x.
Definition with_index b i := mkPB (b_addr b) (b_size b) i (b_const b) (b_man b) (b_lo b) (b_hi b) (b_deps b) (b_user b).
Definition with_const b c := mkPB (b_addr b) (b_size b) (b_index b) c (b_man b) (b_lo b) (b_hi b) (b_deps b) (b_user b).
Definition with_man b m := mkPB (b_addr b) (b_size b) (b_index b) (b_const b) m (b_lo b) (b_hi b) (b_deps b) (b_user b).
Definition with_lo b x := mkPB (b_addr b) (b_size b) (b_index b) (b_const b) (b_man b) x (b_hi b) (b_deps b) (b_user b).
Definition with_hi b x := mkPB (b_addr b) (b_size b) (b_index b) (b_const b) (b_man b) (b_lo b) x (b_deps b) (b_user b).
Definition with_deps b x := mkPB (b_addr b) (b_size b) (b_index b) (b_const b) (b_man b) (b_lo b) (b_hi b) x (b_user b).
Definition with_user b x := mkPB (b_addr b) (b_size b) (b_index b) (b_const b) (b_man b) (b_lo b) (b_hi b) (b_deps b) x.

(** [ProblemImpl(options)], problem_impl.cc:234-238. *)
Definition new_problem (o : options) : problem := mkP o [] [] [] [] [] [] [] [] [] 1 [].

(** RegionsAlias, problem_impl.cc:71-73.  Addresses count doubles. *)
Definition regions_alias (a sa b sb : Z) : bool :=
  if a <? b then b <? a + sa else a <? b + sb.

(** The map entry just before [v] and the first one not before it, i.e.
    [--lower_bound(v)] and [lower_bound(v)] (problem_impl.cc:145-158). *)
Fixpoint prev_entry {A} (v : Z) (m : zmap A) : option (Z * A) :=
  match m with
  | [] => None
  | (k, x) :: m' => if k <? v then match prev_entry v m' with Some e => Some e | None => Some (k, x) end else None
  end.
Fixpoint lower_bound {A} (v : Z) (m : zmap A) : option (Z * A) :=
  match m with
  | [] => None
  | (k, x) :: m' => if k <? v then lower_bound v m' else Some (k, x)
  end.

Section Model.
(** Oracles for user supplied objects: sizes declared by a cost function
    (CostFunction::parameter_block_sizes), ambient and tangent size of a
    manifold; [hash_order] is the (arbitrary) iteration order of a
    flat_hash_set. *)
Variables (cf_sizes : Z -> list Z) (mf_amb mf_tan : Z -> Z) (hash_order : list Z -> list Z).

(** CheckForNoAliasing, problem_impl.cc:75-86, against one map entry. *)
Definition check_no_alias (s : problem) (e : option (Z * Z)) (v size : Z) : res unit :=
  match e with
  | None => Ok tt
  | Some (a, p) =>
      do b <- deref (zfind p (p_pheap s));
      check (negb (regions_alias a (b_size b) v size))
  end.

(** InternalAddParameterBlock, problem_impl.cc:123-175; returns the block. *)
Definition internal_add (v size : Z) (s : problem) : res (problem * Z) :=
  do _ <- check (negb (v =? 0));
  match zfind v (p_pmap s) with
  | Some p =>
      do b <- deref (zfind p (p_pheap s));
      do _ <- (if o_nochecks (p_opts s) then Ok tt else check (size =? b_size b));
      Ok (s, p)
  | None =>
      do _ <- (if o_nochecks (p_opts s) then Ok tt
               else do _ <- check_no_alias s (prev_entry v (p_pmap s)) v size;
                    check_no_alias s (lower_bound v (p_pmap s)) v size);
      let p := p_next s in
      let b := mkPB v size (Z.of_nat (length (p_pvec s))) false 0 None None
                    (if o_fast (p_opts s) then Some [] else None) true in
      let s := set_next s (p + 1) in
      let s := set_pheap s (zput p b (p_pheap s)) in
      let s := set_pmap s (zput v p (p_pmap s)) in
      Ok (set_pvec s (p_pvec s ++ [p]), p)
  end.

(** vector assignment [vec[i] = x]. *)
Fixpoint set_nth (i : nat) (x : Z) (l : list Z) : list Z :=
  match l, i with
  | [], _ => []
  | _ :: l', O => x :: l'
  | y :: l', S i' => y :: set_nth i' x l'
  end.

(** DecrementValueOrDeleteKey, problem_impl.cc:88-98; [true]: key deleted. *)
Definition decrement (k : Z) (m : zmap Z) : res (zmap Z * bool) :=
  do n <- deref (zfind k m);
  if n =? 1 then Ok (zerase k m, true) else Ok (zput k (n - 1) m, false).

(** DeleteBlock(ResidualBlock), problem_impl.cc:202-220. *)
Definition delete_residual (r : Z) (s : problem) : res problem :=
  do rb <- deref (zfind r (p_rheap s));
  do s <- (if o_cost_own (p_opts s) then
             do '(m, d) <- decrement (r_cost rb) (p_cref s);
             let s := set_cref s m in
             Ok (if d then set_log s (p_log s ++ [FCost (r_cost rb)]) else s)
           else Ok s);
  do s <- (if o_loss_own (p_opts s) && negb (r_loss rb =? 0) then
             do '(m, d) <- decrement (r_loss rb) (p_lref s);
             let s := set_lref s m in
             Ok (if d then set_log s (p_log s ++ [FLoss (r_loss rb)]) else s)
           else Ok s);
  Ok (set_rheap s (zerase r (p_rheap s))).

(** DeleteBlockInVector<ResidualBlock>, problem_impl.cc:383-404. *)
Definition delete_residual_in_vector (r : Z) (s : problem) : res problem :=
  do rb <- deref (zfind r (p_rheap s));
  let i := Z.to_nat (r_index rb) in
  do x <- deref (nth_error (p_rvec s) i);
  do _ <- check (x =? r);
  do tmp <- deref (hd_error (rev (p_rvec s)));
  do tb <- deref (zfind tmp (p_rheap s));
  let s := set_rheap s (zput tmp (mkRB (r_cost tb) (r_loss tb) (r_params tb) (r_index rb)) (p_rheap s)) in
  let s := set_rvec s (set_nth i tmp (p_rvec s)) in
  do s <- delete_residual r s;
  Ok (set_rvec s (removelast (p_rvec s))).

(** DeleteBlock(ParameterBlock), problem_impl.cc:224-227. *)
Definition delete_parameter (p : Z) (s : problem) : res problem :=
  do b <- deref (zfind p (p_pheap s));
  let s := set_pmap s (zerase (b_addr b) (p_pmap s)) in
  Ok (set_pheap s (zerase p (p_pheap s))).

(** DeleteBlockInVector<ParameterBlock>, problem_impl.cc:383-404. *)
Definition delete_parameter_in_vector (p : Z) (s : problem) : res problem :=
  do b <- deref (zfind p (p_pheap s));
  let i := Z.to_nat (b_index b) in
  do x <- deref (nth_error (p_pvec s) i);
  do _ <- check (x =? p);
  do tmp <- deref (hd_error (rev (p_pvec s)));
  do tb <- deref (zfind tmp (p_pheap s));
  let s := set_pheap s (zput tmp (with_index tb (b_index b)) (p_pheap s)) in
  let s := set_pvec s (set_nth i tmp (p_pvec s)) in
  do s <- delete_parameter p s;
  Ok (set_pvec s (removelast (p_pvec s))).

(** ParameterBlock::RemoveResidualBlock, parameter_block.h:286-293. *)
Definition pb_remove_residual (r p : Z) (s : problem) : res problem :=
  do b <- deref (zfind p (p_pheap s));
  match b_deps b with
  | None => Abort
  | Some d =>
      do _ <- check (zsmem r d);
      Ok (set_pheap s (zput p (with_deps b (Some (zsrem r d))) (p_pheap s)))
  end.

(** ParameterBlock::AddResidualBlock, parameter_block.h:279-284. *)
Definition pb_add_residual (r p : Z) (s : problem) : res problem :=
  do b <- deref (zfind p (p_pheap s));
  match b_deps b with
  | None => Abort
  | Some d => Ok (set_pheap s (zput p (with_deps b (Some (zsadd r d))) (p_pheap s)))
  end.

Fixpoint foreach {A} (f : A -> problem -> res problem) (l : list A) (s : problem) : res problem :=
  match l with
  | [] => Ok s
  | x :: l' => do s <- f x s; foreach f l' s
  end.

(** InternalRemoveResidualBlock, problem_impl.cc:177-195. *)
Definition internal_remove_residual (r : Z) (s : problem) : res problem :=
  do s <- (if o_fast (p_opts s) then
             do rb <- deref (zfind r (p_rheap s));
             do s <- foreach (pb_remove_residual r) (r_params rb) s;
             if zsmem r (p_rset s) then Ok (set_rset s (zsrem r (p_rset s))) else Crash
           else Ok s);
  delete_residual_in_vector r s.

(** RemoveResidualBlock, problem_impl.cc:406-434. *)
Definition remove_residual (r : Z) (s : problem) : res problem :=
  do _ <- check (negb (r =? 0));
  do _ <- (if o_fast (p_opts s) then check (zsmem r (p_rset s))
           else check (existsb (Z.eqb r) (p_rvec s)));
  internal_remove_residual r s.

(** The backward scan of RemoveParameterBlock, problem_impl.cc:458-469;
    [n] is [i + 1]. *)
Fixpoint scan_remove (p : Z) (n : nat) (s : problem) : res problem :=
  match n with
  | O => Ok s
  | S i =>
      do r <- deref (nth_error (p_rvec s) i);
      do rb <- deref (zfind r (p_rheap s));
      do s <- (if existsb (Z.eqb p) (r_params rb) then internal_remove_residual r s else Ok s);
      scan_remove p i s
  end.

(** RemoveParameterBlock, problem_impl.cc:436-472. *)
Definition remove_parameter (v : Z) (s : problem) : res problem :=
  match zfind v (p_pmap s) with
  | None => Abort
  | Some p =>
      do s <- (if o_fast (p_opts s) then
                 do b <- deref (zfind p (p_pheap s));
                 do d <- deref (b_deps b);
                 foreach internal_remove_residual (hash_order (zkeys d)) s
               else scan_remove p (length (p_rvec s)) s);
      delete_parameter_in_vector p s
  end.

(** [FindWithDefault(parameter_block_map_, values, nullptr)] followed by
    LOG(FATAL) when null; used by every accessor
    (e.g. problem_impl.cc:474-483). *)
Definition find_block (v : Z) (s : problem) : res (Z * pblock) :=
  match zfind v (p_pmap s) with
  | None => Abort
  | Some p => do b <- deref (zfind p (p_pheap s)); Ok (p, b)
  end.

(** TangentSize, parameter_block.h:155-157. *)
Definition tangent_size (b : pblock) : Z := if b_man b =? 0 then b_size b else mf_tan (b_man b).
(** IsConstant, parameter_block.h:121. *)
Definition is_constant (b : pblock) : bool := b_const b || (tangent_size b =? 0).

(** SetParameterBlockConstant / SetParameterBlockVariable,
    problem_impl.cc:474-484, 495-505. *)
Definition set_constant (c : bool) (v : Z) (s : problem) : res problem :=
  do '(p, b) <- find_block v s;
  Ok (set_pheap s (zput p (with_const b c) (p_pheap s))).

(** ParameterBlock::SetManifold, parameter_block.h:161-189; [ok] is the result
    of UpdatePlusJacobian (user code). *)
Definition pb_set_manifold (m : Z) (ok : bool) (b : pblock) : res pblock :=
  if m =? b_man b then Ok b
  else if m =? 0 then Ok (with_man b 0)
  else
    do _ <- check (mf_amb m =? b_size b);
    do _ <- check (mf_tan m >=? 0);
    do _ <- check ok;
    Ok (with_man b m).

(** InternalSetManifold, problem_impl.cc:363-370. *)
Definition internal_set_manifold (p m : Z) (ok : bool) (s : problem) : res problem :=
  let s := if negb (m =? 0) && o_man_own (p_opts s) then set_mdel s (p_mdel s ++ [m]) else s in
  do b <- deref (zfind p (p_pheap s));
  do b' <- pb_set_manifold m ok b;
  Ok (set_pheap s (zput p b' (p_pheap s))).

(** SetManifold, problem_impl.cc:507-517. *)
Definition set_manifold (v m : Z) (ok : bool) (s : problem) : res problem :=
  do '(p, _) <- find_block v s; internal_set_manifold p m ok s.

(** AddParameterBlock, problem_impl.cc:359-361. *)
Definition add_parameter (v size : Z) (s : problem) : res problem :=
  do '(s, _) <- internal_add v size s; Ok s.

(** AddParameterBlock with a manifold, problem_impl.cc:372-377. *)
Definition add_parameter_manifold (v size m : Z) (ok : bool) (s : problem) : res problem :=
  do '(s, p) <- internal_add v size s; internal_set_manifold p m ok s.

(** Array write in a bounds array; out of range is undefined behaviour. *)
Fixpoint write_dbl (i : nat) (x : dbl) (l : list dbl) : option (list dbl) :=
  match l, i with
  | [], _ => None
  | _ :: l', O => Some (x :: l')
  | y :: l', S i' => match write_dbl i' x l' with Some l2 => Some (y :: l2) | None => None end
  end.

(** ParameterBlock::SetLowerBound, parameter_block.h:208-223.  Only
    [index < size_] is checked, a negative index is not. *)
Definition pb_set_lower (i : Z) (x : dbl) (b : pblock) : res pblock :=
  do _ <- check (i <? b_size b);
  match b_lo b with
  | None =>
      if dle x DBL_LOWEST then Ok b
      else if i <? 0 then Crash
      else do l <- deref (write_dbl (Z.to_nat i) x (repeat DBL_LOWEST (Z.to_nat (b_size b))));
           Ok (with_lo b (Some l))
  | Some l =>
      if i <? 0 then Crash
      else do l <- deref (write_dbl (Z.to_nat i) x l); Ok (with_lo b (Some l))
  end.

(** ParameterBlock::SetUpperBound, parameter_block.h:191-206. *)
Definition pb_set_upper (i : Z) (x : dbl) (b : pblock) : res pblock :=
  do _ <- check (i <? b_size b);
  match b_hi b with
  | None =>
      if dle DBL_MAX x then Ok b
      else if i <? 0 then Crash
      else do l <- deref (write_dbl (Z.to_nat i) x (repeat DBL_MAX (Z.to_nat (b_size b))));
           Ok (with_hi b (Some l))
  | Some l =>
      if i <? 0 then Crash
      else do l <- deref (write_dbl (Z.to_nat i) x l); Ok (with_hi b (Some l))
  end.

(** ParameterBlock::LowerBound / UpperBound, parameter_block.h:123-131. *)
Definition pb_lower (b : pblock) (i : nat) : option dbl :=
  match b_lo b with None => Some DBL_LOWEST | Some l => nth_error l i end.
Definition pb_upper (b : pblock) (i : nat) : option dbl :=
  match b_hi b with None => Some DBL_MAX | Some l => nth_error l i end.

(** SetParameterLowerBound / SetParameterUpperBound, problem_impl.cc:535-560. *)
Definition set_lower (v i : Z) (x : dbl) (s : problem) : res problem :=
  do '(p, b) <- find_block v s;
  do b' <- pb_set_lower i x b;
  Ok (set_pheap s (zput p b' (p_pheap s))).
Definition set_upper (v i : Z) (x : dbl) (s : problem) : res problem :=
  do '(p, b) <- find_block v s;
  do b' <- pb_set_upper i x b;
  Ok (set_pheap s (zput p b' (p_pheap s))).

(** [++count[key]], problem_impl.cc:348, 353. *)
Definition increment (k : Z) (m : zmap Z) : zmap Z :=
  match zfind k m with Some n => zput k (n + 1) m | None => zput k 1 m end.

(** Loop converting [double*] to parameter blocks, problem_impl.cc:306-310. *)
Fixpoint add_all (vs szs : list Z) (s : problem) : res (problem * list Z) :=
  match vs, szs with
  | v :: vs', z :: szs' =>
      do '(s, p) <- internal_add v z s;
      do '(s, ps) <- add_all vs' szs' s;
      Ok (s, p :: ps)
  | _, _ => Ok (s, [])
  end.

(** The size comparison, problem_impl.cc:312-323. *)
Fixpoint check_sizes (ps szs : list Z) (s : problem) : res unit :=
  match ps, szs with
  | p :: ps', z :: szs' =>
      do b <- deref (zfind p (p_pheap s));
      do _ <- check (z =? b_size b);
      check_sizes ps' szs' s
  | _, _ => Ok tt
  end.

Fixpoint nodupb (l : list Z) : bool :=
  match l with [] => true | x :: l' => negb (existsb (Z.eqb x) l') && nodupb l' end.

(** AddResidualBlock, problem_impl.cc:268-357; [r] is the address the
    allocator returns for the new ResidualBlock.  The duplicate test is stated
    directly instead of by sorting (lines 285-293). *)
Definition add_residual (r c l : Z) (vs : list Z) (s : problem) : res problem :=
  if (r =? 0) || zmem r (p_rheap s) then Impossible
  else
  do _ <- check (negb (c =? 0));
  do _ <- check (Z.of_nat (length vs) =? Z.of_nat (length (cf_sizes c)));
  do _ <- (if o_nochecks (p_opts s) then Ok tt else check (nodupb vs));
  do '(s, ps) <- add_all vs (cf_sizes c) s;
  do _ <- (if o_nochecks (p_opts s) then Ok tt else check_sizes ps (cf_sizes c) s);
  let s := set_rheap s (zput r (mkRB c l ps (Z.of_nat (length (p_rvec s)))) (p_rheap s)) in
  do s <- (if o_fast (p_opts s) then foreach (pb_add_residual r) ps s else Ok s);
  let s := set_rvec s (p_rvec s ++ [r]) in
  let s := if o_fast (p_opts s) then set_rset s (zsadd r (p_rset s)) else s in
  let s := if o_cost_own (p_opts s) then set_cref s (increment c (p_cref s)) else s in
  let s := if o_loss_own (p_opts s) && negb (l =? 0) then set_lref s (increment l (p_lref s)) else s in
  Ok s.

(** Program::SetParameterOffsetsAndIndex, program.cc:144-162 (index part), for
    a program made of residual blocks [rs] and parameter blocks [ps]. *)
Definition set_index (i p : Z) (s : problem) : res problem :=
  do b <- deref (zfind p (p_pheap s));
  Ok (set_pheap s (zput p (with_index b i) (p_pheap s))).
Fixpoint number_blocks (i : Z) (ps : list Z) (s : problem) : res problem :=
  match ps with
  | [] => Ok s
  | p :: ps' => do s <- set_index i p s; number_blocks (i + 1) ps' s
  end.
Definition unmark_residual (r : Z) (s : problem) : res problem :=
  do rb <- deref (zfind r (p_rheap s));
  foreach (set_index (-1)) (r_params rb) s.
Definition set_offsets_and_index (rs ps : list Z) (s : problem) : res problem :=
  do s <- foreach unmark_residual rs s;
  number_blocks 0 ps s.

(** SetParameterBlockStatePtrsToUserStatePtrs / StateVectorToParameterBlocks,
    program.cc:81-89, 104-112: point every non-constant block of [ps] at the
    user's memory ([u = true]) or at the evaluator's vector; [jac a] is the
    success of the manifold's Plus Jacobian for the block at address [a], the
    first failure ends the loop. *)
Fixpoint set_states (jac : Z -> bool) (u : bool) (ps : list Z) (s : problem) : res (problem * bool) :=
  match ps with
  | [] => Ok (s, true)
  | p :: ps' =>
      do b <- deref (zfind p (p_pheap s));
      if is_constant b then set_states jac u ps' s
      else
        let s := set_pheap s (zput p (with_user b u) (p_pheap s)) in
        if (b_man b =? 0) || jac (b_addr b) then set_states jac u ps' s
        else Ok (s, false)
  end.

Fixpoint lookup_all (vs : list Z) (s : problem) : res (list Z) :=
  match vs with
  | [] => Ok []
  | v :: vs' => do '(p, _) <- find_block v s; do ps <- lookup_all vs' s; Ok (p :: ps)
  end.

(** The loop marking excluded variable blocks constant, problem_impl.cc:657-662;
    returns the state and [variable_parameter_blocks]. *)
Fixpoint freeze (ps : list Z) (s : problem) : res (problem * list Z) :=
  match ps with
  | [] => Ok (s, [])
  | p :: ps' =>
      do b <- deref (zfind p (p_pheap s));
      if is_constant b then freeze ps' s
      else
        let s := set_pheap s (zput p (with_const b true) (p_pheap s)) in
        do '(s, fs) <- freeze ps' s;
        Ok (s, p :: fs)
  end.

Definition thaw (p : Z) (s : problem) : res problem :=
  do b <- deref (zfind p (p_pheap s));
  Ok (set_pheap s (zput p (with_const b false) (p_pheap s))).

(** Problem::Evaluate, problem_impl.cc:586-748.  [rs] / [vs] are
    EvaluateOptions::residual_blocks / parameter_blocks, [jac] as above,
    [eval] is the success of the residual evaluation, which is given the state
    in which it runs (so that "who varies" can be observed).  Numerical outputs
    are not part of this model.  The excluded blocks are visited in vector
    order instead of sorted pointer order. *)
Definition evaluate (jac : Z -> bool) (eval : problem -> list Z -> bool)
    (rs vs : list Z) (s : problem) : res (problem * bool) :=
  let rvec := match rs with [] => p_rvec s | _ => rs end in
  do '(s, ps, frozen) <-
    match vs with
    | [] => Ok (s, p_pvec s, [])
    | _ =>
        do ps <- lookup_all vs s;
        do '(s, fs) <- freeze (filter (fun p => negb (existsb (Z.eqb p) ps)) (p_pvec s)) s;
        Ok (s, ps, fs)
    end;
  do s <- set_offsets_and_index rvec ps s;
  do '(s, _) <- set_states jac true ps s;
  do '(s, ok) <- set_states jac false ps s;
  let status := ok && eval s ps in
  do s <- foreach thaw frozen s;
  do '(s, _) <- set_states jac true (p_pvec s) s;
  do s <- set_offsets_and_index (p_rvec s) (p_pvec s) s;
  Ok (s, status).

(** ~ProblemImpl, problem_impl.cc:240-266: owned cost and loss functions in
    key order, then each owned manifold once (STLDeleteUniqueContainerPointers
    sorts and removes duplicates; its order is not observable here). *)
Definition destroy (s : problem) : list freed :=
  p_log s
  ++ (if o_cost_own (p_opts s) then map FCost (zkeys (p_cref s)) else [])
  ++ (if o_loss_own (p_opts s) then map FLoss (zkeys (p_lref s)) else [])
  ++ map FManifold (nodup Z.eq_dec (p_mdel s)).

(** One public call. *)
Inductive op :=
  | OAddParameter (v size : Z)
  | OAddParameterManifold (v size m : Z) (ok : bool)
  | OAddResidual (r c l : Z) (vs : list Z)
  | ORemoveResidual (r : Z)
  | ORemoveParameter (v : Z)
  | OSetConstant (v : Z)
  | OSetVariable (v : Z)
  | OSetManifold (v m : Z) (ok : bool)
  | OSetLower (v i : Z) (x : dbl)
  | OSetUpper (v i : Z) (x : dbl)
  | OEvaluate (jac : Z -> bool) (eval : problem -> list Z -> bool) (rs vs : list Z).

Definition step (o : op) (s : problem) : res problem :=
  match o with
  | OAddParameter v size => add_parameter v size s
  | OAddParameterManifold v size m ok => add_parameter_manifold v size m ok s
  | OAddResidual r c l vs => add_residual r c l vs s
  | ORemoveResidual r => remove_residual r s
  | ORemoveParameter v => remove_parameter v s
  | OSetConstant v => set_constant true v s
  | OSetVariable v => set_constant false v s
  | OSetManifold v m ok => set_manifold v m ok s
  | OSetLower v i x => set_lower v i x s
  | OSetUpper v i x => set_upper v i x s
  | OEvaluate jac eval rs vs => do '(s, _) <- evaluate jac eval rs vs s; Ok s
  end.

Fixpoint run (os : list op) (s : problem) : res problem :=
  match os with
  | [] => Ok s
  | o :: os' => do s <- step o s; run os' s
  end.

(** Observers.  GetParameterBlocks / GetResidualBlocks / counts
    (problem_impl.cc:788-843). *)
Definition get_parameter_blocks (s : problem) : list Z := zkeys (p_pmap s).
Definition get_residual_blocks (s : problem) : list Z := p_rvec s.
Definition num_parameter_blocks (s : problem) : Z := Z.of_nat (length (p_pvec s)).
Definition num_residual_blocks (s : problem) : Z := Z.of_nat (length (p_rvec s)).

(** GetParameterBlocksForResidualBlock, GetCostFunctionForResidualBlock,
    GetLossFunctionForResidualBlock (problem_impl.cc:845-865). *)
Definition user_states (ps : list Z) (s : problem) : option (list Z) :=
  fold_right (fun p acc => match zfind p (p_pheap s), acc with
                           | Some b, Some l => Some (b_addr b :: l) | _, _ => None end)
             (Some []) ps.
Definition get_residual (r : Z) (s : problem) : res (Z * Z * list Z) :=
  do rb <- deref (zfind r (p_rheap s));
  do vs <- deref (user_states (r_params rb) s);
  Ok (r_cost rb, r_loss rb, vs).

(** GetResidualBlocksForParameterBlock, problem_impl.cc:867-903. *)
Fixpoint scan_uses (p : Z) (rs : list Z) (s : problem) : res (list Z) :=
  match rs with
  | [] => Ok []
  | r :: rs' =>
      do rb <- deref (zfind r (p_rheap s));
      do l <- scan_uses p rs' s;
      Ok (if existsb (Z.eqb p) (r_params rb) then r :: l else l)
  end.
Definition get_residuals_for (v : Z) (s : problem) : res (list Z) :=
  do '(p, b) <- find_block v s;
  if o_fast (p_opts s) then do d <- deref (b_deps b); Ok (hash_order (zkeys d))
  else scan_uses p (p_rvec s) s.

(** ParameterBlockSize, ParameterBlockTangentSize, IsParameterBlockConstant,
    GetManifold, GetParameterLowerBound/UpperBound
    (problem_impl.cc:486-493, 519-529, 562-584, 800-822). *)
Definition get_size (v : Z) (s : problem) : res Z := do '(_, b) <- find_block v s; Ok (b_size b).
Definition get_tangent_size (v : Z) (s : problem) : res Z := do '(_, b) <- find_block v s; Ok (tangent_size b).
Definition get_constant (v : Z) (s : problem) : res bool := do '(_, b) <- find_block v s; Ok (is_constant b).
Definition get_manifold (v : Z) (s : problem) : res Z := do '(_, b) <- find_block v s; Ok (b_man b).
Definition get_lower (v : Z) (i : nat) (s : problem) : res dbl :=
  do '(_, b) <- find_block v s; deref (pb_lower b i).
Definition get_upper (v : Z) (i : nat) (s : problem) : res dbl :=
  do '(_, b) <- find_block v s; deref (pb_upper b i).

(** ParameterBlock::Plus after the manifold (or Euclidean) update produced
    [x]: the projection of parameter_block.h:238-252, coordinate by
    coordinate.  std::clamp / std::max / std::min on doubles. *)
Definition dclamp (x lo hi : dbl) : dbl := if dlt x lo then lo else if dlt hi x then hi else x.
Definition dmax (a b : dbl) : dbl := if dlt a b then b else a.
Definition dmin (a b : dbl) : dbl := if dlt b a then b else a.
Definition project1 (lo hi : option (list dbl)) (i : nat) (x : dbl) : option dbl :=
  match lo, hi with
  | Some l, Some h => match nth_error l i, nth_error h i with
                      | Some a, Some b => Some (dclamp x a b) | _, _ => None end
  | Some l, None => match nth_error l i with Some a => Some (dmax x a) | None => None end
  | None, Some h => match nth_error h i with Some b => Some (dmin x b) | None => None end
  | None, None => Some x
  end.
Fixpoint project_from (i : nat) (lo hi : option (list dbl)) (xs : list dbl) : option (list dbl) :=
  match xs with
  | [] => Some []
  | x :: xs' => match project1 lo hi i x, project_from (S i) lo hi xs' with
                | Some y, Some ys => Some (y :: ys) | _, _ => None end
  end.
Definition project (b : pblock) (xs : list dbl) : option (list dbl) := project_from 0 (b_lo b) (b_hi b) xs.
End Model.
