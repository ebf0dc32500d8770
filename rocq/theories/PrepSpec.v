(* Specification for C81. *)
From Coq Require Import ZArith List Arith Bool Permutation Sorting.Sorted.
From Verif Require Import OrderedGroupsModel SchurModel JacobianModel SchurSpec SolveOrderingSpec PrepModel.
Import ListNotations.
Open Scope nat_scope.

(* Residual block r depends on the variable block b *)
Definition uses (F : Facts) (r : Res) (b : Z) : Prop := In b (res_args r) /\ constant F b = false.
(* every block's index is its place *)
Definition indexed_by_place (p : Prg) : Prop := forall i b, nth_error (blocks p) i = Some b -> index p b = Z.of_nat i.
(* What is left by the reduction: the variable blocks some residual block uses, each once; residual
   blocks with at least one of them and no parameter block twice *)
Record reduced (F : Facts) (p : Prg) : Prop := {
  rd_some : blocks p <> [];
  rd_nodup : NoDup (blocks p);
  rd_blocks : forall b, In b (blocks p) <-> exists r, In r (residuals p) /\ uses F r b;
  rd_args : forall r, In r (residuals p) -> NoDup (res_args r);
  rd_uses : forall r, In r (residuals p) -> exists b, uses F r b;
  rd_index : indexed_by_place p }.
(* the ordering has exactly the blocks of the program *)
Definition covers (o : og) (p : Prg) : Prop := built o /\ forall b, has o b <-> In b (blocks p).

(* b is in the first group *)
Definition in_first (o : og) (b : Z) : Prop := has o b /\ forall b', has o b' -> (group_id b o <= group_id b' o)%Z.
Definition one_group (o : og) : Prop := forall b b', has o b -> has o b' -> group_id b o = group_id b' o.
(* no residual block depends on two blocks of the set *)
Definition independent (F : Facts) (p : Prg) (S : Z -> Prop) : Prop :=
  forall r a b, In r (residuals p) -> uses F r a -> uses F r b -> S a -> S b -> a = b.
Definition maximal (F : Facts) (p : Prg) (S : Z -> Prop) : Prop :=
  forall b, In b (blocks p) -> ~ S b -> exists r a, In r (residuals p) /\ S a /\ uses F r a /\ uses F r b.

(* what the libraries promise: permutations; that of CAMD goes through the constraint sets in
   increasing order; std::partition puts those with the property first *)
Definition is_permutation (n : nat) (l : list nat) : Prop := Permutation l (seq 0 n).
Definition follows (constraints l : list nat) : Prop :=
  forall i j, i < j -> j < length l -> nth (nth i l 0) constraints 0 <= nth (nth j l 0) constraints 0.
Record sound_tools (T : Tools) : Prop := {
  st_camd : forall n P C l, length C = n -> camd T n P C = Some l -> is_permutation n l /\ follows C l;
  st_amd : forall n P l, amd T n P = Some l -> is_permutation n l;
  st_nesdis : forall n P l, nesdis T n P = Some l -> is_permutation n l;
  st_eigen_schur : forall a n k P, is_permutation (n - k) (eigen_schur T a n k P);
  st_eigen_order : forall a n P, is_permutation n (eigen_order T a n P);
  st_partition : forall f l, exists yes no, partition T f l = yes ++ no /\ Permutation (partition T f l) l /\
    (forall r, In r yes -> f r = true) /\ forall r, In r no -> f r = false }.
(* they do not fail *)
Definition working (T : Tools) : Prop :=
  (forall n P C, camd T n P C <> None) /\ (forall n P, amd T n P <> None) /\ (forall n P, nesdis T n P <> None).

(* the same program in another order *)
Definition rearranged (p p' : Prg) : Prop :=
  Permutation (blocks p') (blocks p) /\ Permutation (residuals p') (residuals p) /\ indexed_by_place p'.
(* b comes before b' *)
Definition before {A} (l : list A) (b b' : A) : Prop := exists l1 l2 l3, l = l1 ++ b :: l2 ++ b' :: l3.

(* the program as the Jacobian writers see it (C66) *)
Definition to_jacobian (F : Facts) (p : Prg) : Program :=
  mkProgram (map (size_of F) (blocks p))
    (map (fun r => mkRBlock (res_num r) (map (fun a => if constant F a then Constant (size_of F a) else Varying (Z.to_nat (index p a))) (res_args r))) (residuals p)).

(* can be solved with this solver, library and build: as in Solver::Options::IsValid *)
Definition supported (B : Build) (s : Solver) (lib : Library) (is_amd : bool) : Prop :=
  match s with
  | NormalCholesky false | CgnrSubset _ =>
    match lib with
    | SuiteSparse => has_suitesparse B = true /\ (is_amd = false -> has_nesdis B = true)
    | EigenSparse => has_eigen B = true
    | NoSparse => False
    | _ => True
    end
  | _ => True
  end.
Definition schur_type (s : Solver) : Prop := s = SparseSchur \/ s = DenseSchur \/ s = IterativeSchur.
