(** Model of internal/ceres/concurrent_queue.h, thread_token_provider.cc and
    thread_pool.cc: interleavings of critical sections. *)
Require Import List Arith Bool.
Import ListNotations.

(** class ConcurrentQueue, concurrent_queue.h:76-151.  [q_asleep]: threads
    blocked on work_pending_condition_.  [q_awake]: threads inside Wait that
    are going to (re-)test the predicate. *)
Record cq (A : Type) := mkQ { q_items : list A; q_wait : bool; q_asleep : list nat; q_awake : list nat }.
Arguments mkQ {A}. Arguments q_items {A}. Arguments q_wait {A}. Arguments q_asleep {A}. Arguments q_awake {A}.

(** Members, lines 148-151 (wait_ initially true). *)
Definition q_new {A} : cq A := mkQ [] true [] [].

(** Remove the k-th element of a list. *)
Fixpoint pick (k : nat) (l : list nat) : option (nat * list nat) :=
  match l, k with
  | [], _ => None
  | x :: l', O => Some (x, l')
  | x :: l', S k' => match pick k' l' with Some (y, r) => Some (y, x :: r) | None => None end
  end.

(** notify_one: one sleeper, chosen by the scheduler ([k] modulo the number
    of sleepers), is woken, if there is one. *)
Definition notify_one {A} (k : nat) (q : cq A) : cq A :=
  match pick (k mod length (q_asleep q)) (q_asleep q) with
  | Some (t, rest) => mkQ (q_items q) (q_wait q) rest (t :: q_awake q)
  | None => q
  end.

(** Push, lines 84-88: one critical section. *)
Definition q_push {A} (x : A) (k : nat) (q : cq A) : cq A :=
  notify_one k (mkQ (q_items q ++ [x]) (q_wait q) (q_asleep q) (q_awake q)).

(** PopUnlocked, lines 131-140 (Pop, lines 92-97, is PopUnlocked under the lock). *)
Definition pop_unlocked {A} (q : cq A) : option A * cq A :=
  match q_items q with
  | [] => (None, q)
  | x :: r => (Some x, mkQ r (q_wait q) (q_asleep q) (q_awake q))
  end.

(** Wait, lines 102-110: a thread calls it and is about to test the predicate. *)
Definition q_enter {A} (t : nat) (q : cq A) : cq A :=
  mkQ (q_items q) (q_wait q) (q_asleep q) (t :: q_awake q).

Definition remove1 (t : nat) (l : list nat) : list nat := remove Nat.eq_dec t l.

(** Wait: thread [t] holds the lock and tests the predicate
    !(wait_ && queue_.empty()), line 107.  [None]: it goes to sleep;
    [Some r]: PopUnlocked's result is returned. *)
Definition q_test {A} (t : nat) (q : cq A) : option (option A) * cq A :=
  let awake := remove1 t (q_awake q) in
  if negb (q_wait q && match q_items q with [] => true | _ => false end)
  then let '(r, q') := pop_unlocked q in
       (Some r, mkQ (q_items q') (q_wait q') (q_asleep q') awake)
  else (None, mkQ (q_items q) (q_wait q) (t :: q_asleep q) awake).

(** StopWaiters, lines 115-119; notify_all. *)
Definition q_stop {A} (q : cq A) : cq A := mkQ (q_items q) false [] (q_asleep q ++ q_awake q).
(** EnableWaiters, lines 122-125. *)
Definition q_enable {A} (q : cq A) : cq A := mkQ (q_items q) true (q_asleep q) (q_awake q).
(** Spurious wake-up of the k-th sleeper. *)
Definition q_spurious {A} (k : nat) (q : cq A) : option (cq A) :=
  match pick k (q_asleep q) with
  | Some (t, rest) => Some (mkQ (q_items q) (q_wait q) rest (t :: q_awake q))
  | None => None
  end.

Definition in_wait {A} (t : nat) (q : cq A) : bool := existsb (Nat.eqb t) (q_asleep q ++ q_awake q).
Definition is_awake {A} (t : nat) (q : cq A) : bool := existsb (Nat.eqb t) (q_awake q).

(** What a history of the queue shows to its users. *)
Inductive qevent (A : Type) :=
  | EPush (x : A) | EPop (t : nat) (r : option A) | EWait (t : nat) (r : option A) | EStop | EEnable.
Arguments EPush {A}. Arguments EPop {A}. Arguments EWait {A}. Arguments EStop {A}. Arguments EEnable {A}.

(** Anything any thread can do with the queue. A thread inside Wait can do
    nothing else. *)
Inductive qact (A : Type) :=
  | QPush (x : A) (k : nat) | QPop (t : nat) | QEnter (t : nat) | QTest (t : nat) | QStop | QEnable | QSpurious (k : nat).
Arguments QPush {A}. Arguments QPop {A}. Arguments QEnter {A}. Arguments QTest {A}. Arguments QStop {A}. Arguments QEnable {A}. Arguments QSpurious {A}.

Definition q_step {A} (a : qact A) (q : cq A) : option (cq A * list (qevent A)) :=
  match a with
  | QPush x k => Some (q_push x k q, [EPush x])
  | QPop t => if in_wait t q then None else let '(r, q') := pop_unlocked q in Some (q', [EPop t r])
  | QEnter t => if in_wait t q then None else Some (q_enter t q, [])
  | QTest t => if is_awake t q then
                 match q_test t q with
                 | (Some r, q') => Some (q', [EWait t r])
                 | (None, q') => Some (q', [])
                 end
               else None
  | QStop => Some (q_stop q, [EStop])
  | QEnable => Some (q_enable q, [EEnable])
  | QSpurious k => match q_spurious k q with Some q' => Some (q', []) | None => None end
  end.

Fixpoint q_exec {A} (acts : list (qact A)) (q : cq A) : option (cq A * list (qevent A)) :=
  match acts with
  | [] => Some (q, [])
  | a :: acts' =>
      match q_step a q with
      | None => None
      | Some (q1, e1) => match q_exec acts' q1 with Some (q2, e2) => Some (q2, e1 ++ e2) | None => None end
      end
  end.

(** ** ThreadTokenProvider, thread_token_provider.cc:37-49.
    [t_held]: which thread holds which token.  [t_failed]: CHECK of line 45. *)
Record tok := mkTok { t_q : cq nat; t_held : list (nat * nat); t_failed : bool }.

Definition t_new (num_threads : nat) : tok :=
  mkTok (fold_left (fun q i => q_push i 0 q) (seq 0 num_threads) q_new) [] false.

Inductive tact := TAcquire (t : nat) | TWake (t : nat) | TRelease (t token k : nat) | TSpurious (k : nat).

(** Release is called only with a token the thread holds
    (scoped_thread_token.h:41-57). *)
Definition t_step (a : tact) (s : tok) : option tok :=
  match a with
  | TAcquire t => if in_wait t (t_q s) then None else Some (mkTok (q_enter t (t_q s)) (t_held s) (t_failed s))
  | TWake t =>
      if is_awake t (t_q s) then
        match q_test t (t_q s) with
        | (Some (Some x), q') => Some (mkTok q' ((t, x) :: t_held s) (t_failed s))
        | (Some None, q') => Some (mkTok q' (t_held s) true)
        | (None, q') => Some (mkTok q' (t_held s) (t_failed s))
        end
      else None
  | TRelease t x k =>
      if in_wait t (t_q s) then None
      else if existsb (fun p => (fst p =? t) && (snd p =? x)) (t_held s)
      then Some (mkTok (q_push x k (t_q s)) (filter (fun p => negb ((fst p =? t) && (snd p =? x))) (t_held s)) (t_failed s))
      else None
  | TSpurious k => match q_spurious k (t_q s) with Some q' => Some (mkTok q' (t_held s) (t_failed s)) | None => None end
  end.
Fixpoint t_exec (acts : list tact) (s : tok) : option tok :=
  match acts with [] => Some s | a :: acts' => match t_step a s with Some s' => t_exec acts' s' | None => None end end.

(** ** ThreadPool.  A task has a name and adds the tasks [subs] to the pool
    while it runs; it terminates and does nothing else with the pool. *)
Inductive task := Task (name : nat) (subs : list task).
Definition t_name (t : task) := match t with Task n _ => n end.
Definition t_subs (t : task) := match t with Task _ l => l end.

(** ThreadMainLoop, thread_pool.cc:95-100: about to call Wait, inside Wait,
    running a task with [todo] still to be added, returned. *)
Inductive wpc := WOut | WIn | WRun (me : task) (todo : list task) | WExit.
(** The destructor, lines 60-68: not called, in the join loop, returned. *)
Inductive dpc := DNot | DJoin | DDone.
Record pool := mkPool {
  p_q : cq task; p_w : list wpc; p_d : dpc;
  p_begun : list task;      (* tasks whose call has begun, oldest first *)
  p_ended : list task }.    (* tasks whose call has returned *)
Definition p_new : pool := mkPool q_new [] DNot [] [].

Fixpoint setw (l : list wpc) (n : nat) (w : wpc) : list wpc :=
  match l, n with [], _ => [] | _ :: l', O => w :: l' | x :: l', S n' => x :: setw l' n' w end.

Inductive pact :=
  | PAdd (t : task) (k : nat)        (* AddTask from outside, lines 86-88 *)
  | PResize (n max : nat)            (* Resize, lines 70-84; max = MaxNumThreadsAvailable *)
  | PWork (w k : nat)                (* worker w takes a step *)
  | PSpur (k : nat)
  | PStop                            (* destructor: Stop() *)
  | PJoined.                         (* destructor: all joins returned *)

(** Calls from outside after the destructor has started are not allowed. *)
Definition p_step (a : pact) (s : pool) : option pool :=
  match a with
  | PAdd t k => match p_d s with DNot => Some (mkPool (q_push t k (p_q s)) (p_w s) (p_d s) (p_begun s) (p_ended s)) | _ => None end
  | PResize n max =>
      match p_d s with
      | DNot => Some (if n <=? length (p_w s) then s
                      else mkPool (p_q s) (p_w s ++ repeat WOut (Nat.min n max - length (p_w s))) (p_d s) (p_begun s) (p_ended s))
      | _ => None
      end
  | PWork w k =>
      match nth_error (p_w s) w with
      | Some WOut => Some (mkPool (q_enter w (p_q s)) (setw (p_w s) w WIn) (p_d s) (p_begun s) (p_ended s))
      | Some WIn =>
          if is_awake w (p_q s) then
            match q_test w (p_q s) with
            | (Some (Some t), q') => Some (mkPool q' (setw (p_w s) w (WRun t (t_subs t))) (p_d s) (p_begun s ++ [t]) (p_ended s))
            | (Some None, q') => Some (mkPool q' (setw (p_w s) w WExit) (p_d s) (p_begun s) (p_ended s))
            | (None, q') => Some (mkPool q' (p_w s) (p_d s) (p_begun s) (p_ended s))
            end
          else None
      | Some (WRun me (c :: todo)) => Some (mkPool (q_push c k (p_q s)) (setw (p_w s) w (WRun me todo)) (p_d s) (p_begun s) (p_ended s))
      | Some (WRun me []) => Some (mkPool (p_q s) (setw (p_w s) w WOut) (p_d s) (p_begun s) (p_ended s ++ [me]))
      | _ => None
      end
  | PSpur k => match q_spurious k (p_q s) with Some q' => Some (mkPool q' (p_w s) (p_d s) (p_begun s) (p_ended s)) | None => None end
  | PStop => match p_d s with DNot => Some (mkPool (q_stop (p_q s)) (p_w s) DJoin (p_begun s) (p_ended s)) | _ => None end
  | PJoined =>
      match p_d s with
      | DJoin => if forallb (fun w => match w with WExit => true | _ => false end) (p_w s)
                 then Some (mkPool (p_q s) (p_w s) DDone (p_begun s) (p_ended s)) else None
      | _ => None
      end
  end.
Fixpoint p_exec (acts : list pact) (s : pool) : option pool :=
  match acts with [] => Some s | a :: acts' => match p_step a s with Some s' => p_exec acts' s' | None => None end end.
