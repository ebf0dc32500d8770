(** Model of include/ceres/ordered_groups.h (class OrderedGroups).
    The element type T is an address ([Z]); [ParameterBlockOrdering] is
    [OrderedGroups<double*>] (ordered_groups.h:195). *)
Require Import ZArith List Lia Bool.
From Verif Require Import ZMap.
Import ListNotations.
Open Scope Z_scope.

(** Largest value of C++ [int] (32 bits). *)
Definition INT_MAX : Z := 2147483647.

(** ordered_groups.h:190-191.  [element_to_group_] is an unordered_map in the
    code; its iteration order is never used by the modelled functions, so a
    sorted map is used. *)
Record og := mkOG { g2e : zmap zset; e2g : zmap Z }.

(** Default constructed object: two empty maps (ordered_groups.h:190-191). *)
Definition og_empty : og := mkOG [] [].

(** [group_to_elements_[g]] used as an rvalue: operator[] default-constructs an
    empty set when absent (ordered_groups.h:75-77, 82, 99-101). *)
Definition group_get (g : Z) (m : zmap zset) : zset :=
  match zfind g m with Some s => s | None => [] end.

(** The "erase element from its group; erase the group if it became empty"
    sequence (ordered_groups.h:75-78 and 99-104). *)
Definition erase_from_group (e g : Z) (m : zmap zset) : zmap zset :=
  let s' := zsrem e (group_get g m) in
  match s' with
  | [] => zerase g (zput g s' m)
  | _ :: _ => zput g s' m
  end.

(** AddElementToGroup, ordered_groups.h:63-84. *)
Definition add_element (e g : Z) (s : og) : og * bool :=
  if g <? 0 then (s, false)
  else
    match zfind e (e2g s) with
    | Some g0 =>
        if g0 =? g then (s, true)
        else
          let m := erase_from_group e g0 (g2e s) in
          (mkOG (zput g (zsadd e (group_get g m)) m) (zput e g (e2g s)), true)
    | None =>
        let m := g2e s in
        (mkOG (zput g (zsadd e (group_get g m)) m) (zput e g (e2g s)), true)
    end.

(** Clear, ordered_groups.h:86-89. *)
Definition clear (s : og) : og := mkOG [] [].

(** GroupId, ordered_groups.h:148-154. *)
Definition group_id (e : Z) (s : og) : Z :=
  match zfind e (e2g s) with Some g => g | None => -1 end.

(** Remove(element), ordered_groups.h:93-108. *)
Definition remove (e : Z) (s : og) : og * bool :=
  let g := group_id e s in
  if g <? 0 then (s, false)
  else (mkOG (erase_from_group e g (g2e s)) (zerase e (e2g s)), true).

(** NumElements / NumGroups, ordered_groups.h:168, 171. *)
Definition num_elements (s : og) : Z := Z.of_nat (length (e2g s)).
Definition num_groups (s : og) : Z := Z.of_nat (length (g2e s)).

(** The loop of bulk Remove, ordered_groups.h:117-121. *)
Fixpoint remove_all (es : list Z) (n : Z) (s : og) : og * Z :=
  match es with
  | [] => (s, n)
  | e :: es' =>
      let '(s', b) := remove e s in
      remove_all es' (if b then n + 1 else n) s'
  end.

(** Remove(vector), ordered_groups.h:112-122.  The counter's overflow is not
    modelled (it would need 2^31 elements). *)
Definition remove_bulk (es : list Z) (s : og) : og * Z :=
  if (num_elements s =? 0) || (Z.of_nat (length es) =? 0) then (s, 0)
  else remove_all es 0 s.

(** The loop of Reverse, ordered_groups.h:135-141, followed by the swap
    (line 143).  [None] is signed overflow of [new_group_id++] (undefined
    behaviour). *)
Fixpoint reverse_loop (rest : list (Z * zset)) (id : Z)
         (newg : zmap zset) (m : zmap Z) : option og :=
  match rest with
  | [] => Some (mkOG newg m)
  | (_, es) :: rest' =>
      let m' := fold_left (fun acc e => zput e id acc) (zkeys es) m in
      let newg' := zput id es newg in
      if id + 1 >? INT_MAX then None
      else reverse_loop rest' (id + 1) newg' m'
  end.

(** Reverse, ordered_groups.h:125-144.  Note that [it->first + 1] is computed
    even when there is a single group (line 134). *)
Definition reverse (s : og) : option og :=
  match rev (g2e s) with
  | [] => Some s
  | (g0, es0) :: rest =>
      if g0 + 1 >? INT_MAX then None
      else reverse_loop rest (g0 + 1) [(g0, es0)] (e2g s)
  end.

(** IsMember, ordered_groups.h:156-159. *)
Definition is_member (e : Z) (s : og) : bool := zmem e (e2g s).

(** GroupSize, ordered_groups.h:163-166. *)
Definition group_size (g : Z) (s : og) : Z :=
  match zfind g (g2e s) with Some es => Z.of_nat (length es) | None => 0 end.

(** MinNonZeroGroup, ordered_groups.h:176-179; [None] is the CHECK failure. *)
Definition min_nonzero_group (s : og) : option Z :=
  match g2e s with [] => None | (g, _) :: _ => Some g end.

(** One call of the public mutating interface and its return value. *)
Inductive op :=
  | OAdd (e g : Z)
  | ORemove (e : Z)
  | ORemoveBulk (es : list Z)
  | OClear
  | OReverse.

Inductive ret := RBool (b : bool) | RInt (n : Z) | RVoid.

(** Dispatch of one call (the interface of ordered_groups.h:55-192). *)
Definition step (o : op) (s : og) : option (og * ret) :=
  match o with
  | OAdd e g => let '(s', b) := add_element e g s in Some (s', RBool b)
  | ORemove e => let '(s', b) := remove e s in Some (s', RBool b)
  | ORemoveBulk es => let '(s', n) := remove_bulk es s in Some (s', RInt n)
  | OClear => Some (clear s, RVoid)
  | OReverse => match reverse s with Some s' => Some (s', RVoid) | None => None end
  end.

(** A history of calls from a freshly constructed object; [None] if some call
    was undefined behaviour. *)
Fixpoint run (os : list op) (s : og) : option (og * list ret) :=
  match os with
  | [] => Some (s, [])
  | o :: os' =>
      match step o s with
      | None => None
      | Some (s', r) =>
          match run os' s' with
          | None => None
          | Some (s'', rs) => Some (s'', r :: rs)
          end
      end
  end.
