(** Model of ApplyOrdering and LexicographicallyOrderResidualBlocks,
    internal/ceres/reorder_program.cc. *)
Require Import ZArith List Lia Bool.
From Verif Require Import ZMap OrderedGroupsModel.
Import ListNotations.
Open Scope Z_scope.

(** v[i] = x; out of range is undefined behaviour ([None]). *)
Fixpoint set_nth {A} (l : list A) (i : nat) (x : A) : option (list A) :=
  match l, i with
  | [], _ => None
  | _ :: r, O => Some (x :: r)
  | y :: r, S i' => match set_nth r i' x with Some r' => Some (y :: r') | None => None end
  end.

(** ** ApplyOrdering, reorder_program.cc:217-276.  Parameter blocks are their
    user state addresses; the program keeps [blocks] when nothing is stored. *)
Inductive apply_result :=
  | AOk (blocks : list Z)            (* true *)
  | AFail (why : nat) (blocks : list Z)   (* false; which of the three errors; the program's blocks afterwards *)
  | AUndef.                          (* store outside the vector *)

(** Lines 256-261: group_to_index. *)
Fixpoint group_starts (gs : list (Z * zset)) (cursor : Z) : zmap Z :=
  match gs with
  | [] => []
  | (g, es) :: r => zput g cursor (group_starts r (cursor + Z.of_nat (length es)))
  end.

(** Lines 262-273. *)
Fixpoint place_blocks (old : list Z) (e2g : zmap Z) (idx : zmap Z) (new : list Z) : apply_result :=
  match old with
  | [] => AOk new
  | b :: r =>
      match zfind b e2g with
      | None => AFail 3 new
      | Some g =>
          let i := match zfind g idx with Some i => i | None => 0 end in
          match (if i <? 0 then None else set_nth new (Z.to_nat i) b) with
          | None => AUndef
          | Some new' => place_blocks r e2g (zput g (i + 1) idx) new'
          end
      end
  end.

Definition apply_ordering (parameter_map : list Z) (o : og) (blocks : list Z) : apply_result :=
  if negb (num_elements o =? Z.of_nat (length blocks)) then AFail 1 blocks
  else if negb (forallb (fun e => existsb (Z.eqb e) parameter_map) (zkeys (e2g o))) then AFail 2 blocks
  else place_blocks blocks (e2g o) (group_starts (g2e o) 0) blocks.

(** ** LexicographicallyOrderResidualBlocks, reorder_program.cc:278-359.
    A residual block: its name and, per parameter block, constness and index. *)
Record rblock := mkR { r_name : nat; r_params : list (bool * Z) }.

(** MinParameterBlock, lines 79-93; [None]: CHECK_NE failed. *)
Fixpoint min_block (ps : list (bool * Z)) (m : Z) : option Z :=
  match ps with
  | [] => Some m
  | (true, _) :: r => min_block r m
  | (false, i) :: r => if i =? -1 then None else min_block r (Z.min i m)
  end.

Fixpoint add_at (l : list nat) (i : nat) : option (list nat) :=
  match l, i with
  | [], _ => None
  | x :: r, O => Some (S x :: r)
  | x :: r, S i' => match add_at r i' with Some r' => Some (x :: r') | None => None end
  end.

(** Lines 293-300: positions and counts. *)
Fixpoint count_blocks (n : nat) (rs : list rblock) (counts : list nat) : option (list nat * list nat) :=
  match rs with
  | [] => Some ([], counts)
  | r :: rs' =>
      match min_block (r_params r) (Z.of_nat n) with
      | None => None
      | Some p =>
          if p <? 0 then None
          else
            match add_at counts (Z.to_nat p) with
            | None => None
            | Some counts' =>
                match count_blocks n rs' counts' with
                | Some (ps, c) => Some (Z.to_nat p :: ps, c)
                | None => None
                end
            end
      end
  end.

(** std::partial_sum, lines 306-308. *)
Fixpoint partial_sums (acc : nat) (l : list nat) : list nat :=
  match l with [] => [] | x :: r => (acc + x)%nat :: partial_sums (acc + x) r end.

(** Lines 328-340. *)
Fixpoint fill (rs : list rblock) (ps offsets : list nat) (out : list (option rblock))
  : option (list nat * list (option rblock)) :=
  match rs, ps with
  | r :: rs', p :: ps' =>
      match nth_error offsets p with
      | Some (S o) =>
          match set_nth offsets p o with
          | None => None
          | Some offsets' =>
              match nth_error out o with
              | Some None =>
                  match set_nth out o (Some r) with
                  | None => None
                  | Some out' => fill rs' ps' offsets' out'
                  end
              | _ => None
              end
          end
      | _ => None
      end
  | _, _ => Some (offsets, out)
  end.

Fixpoint all_some {A} (l : list (option A)) : option (list A) :=
  match l with
  | [] => Some []
  | Some x :: r => match all_some r with Some r' => Some (x :: r') | None => None end
  | None :: _ => None
  end.

(** Lines 344-348. *)
Definition offsets_ok (n : nat) (counts offsets : list nat) : bool :=
  forallb (fun i => Z.of_nat (nth i counts 0%nat) =? Z.of_nat (nth (S i) offsets 0%nat) - Z.of_nat (nth i offsets 0%nat)) (seq 0 n).

(** [None]: some CHECK failed (or an index was out of range). *)
Definition lexicographic_order (n : nat) (rs : list rblock) : option (list rblock) :=
  if (n <? 1)%nat then None
  else
    match count_blocks n rs (repeat 0%nat (n + 1)) with
    | None => None
    | Some (ps, counts) =>
        let offsets := partial_sums 0 counts in
        if negb (last offsets 0%nat =? length rs)%nat then None
        else if existsb (fun c => (c =? 0)%nat) (firstn n counts) then None
        else
          match fill rs ps offsets (repeat None (length rs)) with
          | None => None
          | Some (offsets', out) => if offsets_ok n counts offsets' then all_some out else None
          end
    end.
