(* Model for C87: execution_summary.h 43-86.  Names are numbers; times are whole numbers, the clock
   readings are given. *)
From Coq Require Import List Arith ZArith.
Import ListNotations.
Open Scope Z_scope.

(* execution_summary.h 44-48 CallStatistics *)
Definition CallStatistics : Type := (Z * Z)%type.
(* execution_summary.h 69-81 ScopedExecutionTimer: a scope with a timer of this name, the readings of
   the clock in its constructor (72) and destructor (75), and the timed scopes inside it *)
Inductive Scope : Type := scope (name : nat) (start stop : Z) (body : list Scope).
(* what a thread executes: the constructor (71-72) and the destructor (74-76), which belongs to the last
   timer that was constructed and not yet destroyed *)
Inductive Op : Type := Construct (name : nat) (now : Z) | Destroy (now : Z).
(* the order in which C++ runs constructors and destructors of nested scopes (execution_summary.h
   71-76) *)
Fixpoint code (s : Scope) : list Op :=
  match s with scope name start stop body => Construct name start :: flat_map code body ++ [Destroy stop] end.
(* execution_summary.h 54-59, where a thread is in IncrementTimeBy *)
Inductive Pc : Type :=
| Outside
| Lock (name : nat) (delta : Z)
| Find (name : nat) (delta : Z)
| LoadTime (name : nat) (delta : Z)
| StoreTime (name : nat) (delta : Z) (loaded : Z)
| LoadCalls (name : nat)
| StoreCalls (name : nat) (loaded : Z)
| Unlock.
Record Thread : Type := mkThread { ops : list Op; timers : list (nat * Z); pc : Pc }.
(* execution_summary.h 66-67 mutex_, statistics_ *)
Record State : Type := mkState { mutex : option nat; statistics : nat -> option CallStatistics; threads : list Thread }.

(* std::map::operator[] (execution_summary.h 56) *)
Definition put (m : nat -> option CallStatistics) (n : nat) (v : CallStatistics) : nat -> option CallStatistics :=
  fun k => if (k =? n)%nat then Some v else m k.
Definition value (m : nat -> option CallStatistics) (n : nat) : CallStatistics :=
  match m n with Some v => v | None => (0, 0) end.
(* one step of thread i (execution_summary.h 54-59, 71-76); None: it is finished or has to wait *)
Definition thread_step (i : nat) (mu : option nat) (m : nat -> option CallStatistics) (t : Thread) : option (option nat * (nat -> option CallStatistics) * Thread) :=
  match pc t with
  | Outside =>
    match ops t with
    | [] => None
    | Construct n now :: r => Some (mu, m, mkThread r ((n, now) :: timers t) Outside)
    | Destroy now :: r =>
      match timers t with
      | [] => Some (mu, m, mkThread r [] Outside)
      | (n, start) :: ts => Some (mu, m, mkThread r ts (Lock n (now - start)))
      end
    end
  | Lock n d => match mu with None => Some (Some i, m, mkThread (ops t) (timers t) (Find n d)) | Some _ => None end
  | Find n d => Some (mu, put m n (value m n), mkThread (ops t) (timers t) (LoadTime n d))
  | LoadTime n d => Some (mu, m, mkThread (ops t) (timers t) (StoreTime n d (fst (value m n))))
  | StoreTime n d v => Some (mu, put m n (v + d, snd (value m n)), mkThread (ops t) (timers t) (LoadCalls n))
  | LoadCalls n => Some (mu, m, mkThread (ops t) (timers t) (StoreCalls n (snd (value m n))))
  | StoreCalls n v => Some (mu, put m n (fst (value m n), v + 1), mkThread (ops t) (timers t) Unlock)
  | Unlock => Some (None, m, mkThread (ops t) (timers t) Outside)
  end.
(* replace element i of a list (execution_summary.h 53-59: one thread moves) *)
Fixpoint set_at {X} (i : nat) (x : X) (l : list X) : list X :=
  match l, i with [] , _ => [] | _ :: l', O => x :: l' | y :: l', S j => y :: set_at j x l' end.
Definition step (i : nat) (s : State) : option State :=
  match nth_error (threads s) i with
  | None => None
  | Some t => match thread_step i (mutex s) (statistics s) t with
    | None => None
    | Some (mu, m, t') => Some (mkState mu m (set_at i t' (threads s)))
    end
  end.
(* a schedule: the threads that are given a turn; one that has to wait does nothing
   (execution_summary.h 53-59) *)
Fixpoint run (schedule : list nat) (s : State) : State :=
  match schedule with [] => s | i :: r => run r (match step i s with Some s' => s' | None => s end) end.
(* execution_summary.h 66-67: nothing timed yet; thread i runs the i-th list of scopes *)
Definition start (work : list (list Scope)) : State :=
  mkState None (fun _ => None) (map (fun l => mkThread (flat_map code l) [] Outside) work).
Definition finished (s : State) : Prop := Forall (fun t => ops t = [] /\ pc t = Outside) (threads s).
