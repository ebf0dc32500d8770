(** What a user of OrderedGroups believes: it is a partial function from
    elements to group ids.  This file does not use the model's functions,
    only the vocabulary of calls ([op], [ret]). *)
Require Import ZArith List Lia.
From Verif Require Import OrderedGroupsModel.
Import ListNotations.
Open Scope Z_scope.

(** Which group an element is in, if any. *)
Definition groups := Z -> option Z.

Definition no_groups : groups := fun _ => None.
Definition upd (e : Z) (v : option Z) (f : groups) : groups :=
  fun e' => if Z.eqb e' e then v else f e'.

(** [n] elements satisfy [P]. *)
Definition count_is (P : Z -> Prop) (n : Z) : Prop :=
  exists l : list Z, NoDup l /\ (forall x, In x l <-> P x) /\ n = Z.of_nat (length l).

(** The groups of [f'] are those of [f] in the opposite order. *)
Definition order_reversed (f f' : groups) : Prop :=
  (forall e, f e = None <-> f' e = None) /\
  (forall e1 e2 g1 g2 h1 h2,
      f e1 = Some g1 -> f e2 = Some g2 -> f' e1 = Some h1 -> f' e2 = Some h2 ->
      (h1 < h2 <-> g2 < g1)).

(** Meaning of each call: old grouping, call, returned value, new grouping. *)
Inductive spec_step : groups -> op -> ret -> groups -> Prop :=
  | SAddBad : forall f e g, g < 0 -> spec_step f (OAdd e g) (RBool false) f
  | SAdd : forall f e g, 0 <= g -> spec_step f (OAdd e g) (RBool true) (upd e (Some g) f)
  | SRemoveYes : forall f e g, f e = Some g ->
      spec_step f (ORemove e) (RBool true) (upd e None f)
  | SRemoveNo : forall f e, f e = None -> spec_step f (ORemove e) (RBool false) f
  | SRemoveBulk : forall f es n f',
      count_is (fun e => In e es /\ f e <> None) n ->
      (forall e, f' e = if in_dec Z.eq_dec e es then None else f e) ->
      spec_step f (ORemoveBulk es) (RInt n) f'
  | SClear : forall f, spec_step f OClear RVoid no_groups
  | SReverse : forall f f', order_reversed f f' -> spec_step f OReverse RVoid f'.

Inductive spec_run : groups -> list op -> list ret -> groups -> Prop :=
  | SRnil : forall f f', (forall e, f e = f' e) -> spec_run f [] [] f'
  | SRcons : forall f o r f1 f2 os rs f',
      spec_step f o r f1 -> (forall e, f1 e = f2 e) ->
      spec_run f2 os rs f' -> spec_run f (o :: os) (r :: rs) f'.
