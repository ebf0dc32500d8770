(** Model of internal/ceres/partition_range_for_parallel_for.h and of
    internal/ceres/parallel_utils.cc. *)
Require Import ZArith List Lia.
From Verif Require Import OrderedGroupsModel. (* INT_MAX *)
Import ListNotations.
Open Scope Z_scope.

(** Result of a C++ call: value, undefined behaviour (signed overflow), or the
    model ran out of loop fuel (proved impossible). *)
Inductive outcome (A : Type) := Ok (a : A) | UB | NoFuel.
Arguments Ok {A} _. Arguments UB {A}. Arguments NoFuel {A}.

(** [std::partition_point] over indices [lo, lo+n): the first index whose
    cumulative cost exceeds [target] (partition_range_for_parallel_for.h:67-74).
    Simplified: a linear scan; on a range that is not partitioned by the
    predicate the library's binary search may return another index. *)
Fixpoint partition_point (c : Z -> Z) (target : Z) (lo : Z) (n : nat) : Z :=
  match n with
  | O => lo
  | S n' => if c lo <=? target then partition_point c target (lo + 1) n' else lo
  end.

(** The while loop of MaxPartitionCostIsFeasible
    (partition_range_for_parallel_for.h:61-86).  [part] is the vector
    [*partition]. *)
Fixpoint feasible_loop (c : Z -> Z) (end_ m cost : Z) (fuel : nat)
         (pstart coff : Z) (part : list Z) : outcome (bool * list Z) :=
  if pstart <? end_ then
    match fuel with
    | O => NoFuel
    | S fuel' =>
        if Z.of_nat (length part) >? m then Ok (false, part)         (* :63-65 *)
        else
          let target := cost + coff in                               (* :66 *)
          if target >? INT_MAX then UB
          else
            let pend := partition_point c target pstart (Z.to_nat (end_ - pstart)) in
            if pend =? pstart then Ok (false, part)                  (* :76-78 *)
            else
              let cost_last := c (pend - 1) in                       (* :80-81 *)
              feasible_loop c end_ m cost fuel' pend cost_last (part ++ [pend])
    end
  else Ok (true, part).

(** MaxPartitionCostIsFeasible, partition_range_for_parallel_for.h:47-87. *)
Definition max_partition_cost_is_feasible (c : Z -> Z)
   (start end_ m cost offset : Z) : outcome (bool * list Z) :=
  feasible_loop c end_ m cost (Z.to_nat (end_ - start)) start offset [start].

(** The binary search loop, partition_range_for_parallel_for.h:124-144. *)
Fixpoint search_loop (c : Z -> Z) (start end_ m offset : Z) (fuel : nat)
         (lower upper : Z) (part_upper : list Z) : outcome (list Z) :=
  if upper - lower >? 1 then
    match fuel with
    | O => NoFuel
    | S fuel' =>
        let cost := lower + (upper - lower) / 2 in
        match max_partition_cost_is_feasible c start end_ m cost offset with
        | Ok (true, p) => search_loop c start end_ m offset fuel' lower cost p
        | Ok (false, _) => search_loop c start end_ m offset fuel' cost upper part_upper
        | UB => UB
        | NoFuel => NoFuel
        end
    end
  else Ok part_upper.

(** PartitionRangeForParallelFor, partition_range_for_parallel_for.h:94-147.
    [c i] is [cumulative_cost_fun(cumulative_cost_data[i])].  C++ integer
    division of the non-negative total cost (line 113) is [Z.quot]. *)
Definition partition_range (c : Z -> Z) (start end_ m : Z) : outcome (list Z) :=
  let last := c (end_ - 1) in
  let offset := if start =? 0 then 0 else c (start - 1) in
  let total := last - offset in
  let lower := Z.quot total m - 1 in
  search_loop c start end_ m offset (Z.to_nat (total - lower)) lower total [start; end_].

(** LinearIndexToUpperTriangularIndex, parallel_utils.cc:35-86; returns (i, j).
    Arguments are non-negative ints; overflow is impossible for them because
    every intermediate value is at most max(k, 2n). *)
Definition linear_to_upper (k n : Z) : Z * Z :=
  if Z.odd n then
    let w := n in
    let i0 := Z.quot k w in
    let j0 := Z.rem k w in
    if j0 >=? i0 then (i0, j0)
    else let i := n - i0 in (i, i + j0)
  else
    let w := n + 1 in
    let i0 := Z.quot k w in
    let j0 := Z.rem k w in
    if j0 >? i0 then (i0, j0 - 1)
    else let i := n - 1 - i0 in (i, i + j0).
