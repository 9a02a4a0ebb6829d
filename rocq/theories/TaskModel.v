(* Model of the task queue of include/task.h (lines 108-320): one client thread that calls
   enqueue, drain, force_single_threaded and the destructor, and any number of workers.

   Every transition is one critical section, or one step outside of the mutex that another
   thread can see.  The flags are atomic and are read inside of critical sections by the
   workers.  A task is the number of its enqueue call.

   Simplifications:
   - callbacks and tasks do not call the queue themselves;
   - creating the result entry does not fail (the catch of lines 222-233);
   - running a task is one step: the packaged task stores its value or exception in the
     future, which is then ready;
   - after an exception the client may call the queue again. *)
From Coq Require Import List Bool Arith.
From Verif Require Import Base.
Import ListNotations.
Local Open Scope nat_scope.

Section Task.
(* which tasks throw, and which callbacks *)
Variables tthrows cthrows : nat -> bool.

(* a worker: about to lock and look at the predicate (line 206), asleep in the condition
   variable, with a task taken (line 215), returned *)
Inductive wstate : Type := WCheck | WBlocked | WGot (t : nat) | WDead.
(* the client: outside; in enqueue before result(false) (line 180); at the top of the loop
   of drain; before its result(true) (line 161); in getresult waiting for the future with
   the mutex held (line 273); before the callback (line 245) in enqueue or in drain; in the
   loop of the destructor; joining; after the destructor.  d: called by the destructor. *)
Inductive mpc : Type :=
| MIdle
| MEnqRes
| MDrainTop (d : bool)
| MDrainRes (done d : bool)
| MWait (done d : bool)
| MCall (t : nat) (k : option (bool * bool))
| MDestTop
| MJoin
| MGone.
Record tq : Type := Tq {
  tasks : list nat; results : list nat; ready : list nat;
  ws : list wstate;
  exiting : bool; emptyf : bool; abort : bool; single : bool;
  pc : mpc;
  next : nat;         (* tasks accepted so far *)
  ran : list nat;     (* tasks run, in that order *)
  cbs : list nat }.   (* callbacks made, in that order *)

(* lines 113-119 *)
Definition tq_new (workers : nat) : tq :=
  Tq [] [] [] (repeat WCheck (Nat.max 1 workers)) false false false false MIdle 0 [] [].

Definition is_nil {A} (l : list A) : bool := match l with [] => true | _ => false end.
(* notify_one: some sleeping worker, if there is one; notify_all *)
Inductive notify_one : list wstate -> list wstate -> Prop :=
| notify_none w : ~ In WBlocked w -> notify_one w w
| notify_some w i : nth_error w i = Some WBlocked -> notify_one w (upd w i WCheck).
Definition wake (x : wstate) : wstate := match x with WBlocked => WCheck | _ => x end.

Definition set_pc (s : tq) (p : mpc) : tq :=
  Tq (tasks s) (results s) (ready s) (ws s) (exiting s) (emptyf s) (abort s) (single s) p (next s) (ran s) (cbs s).
Definition set_ws (s : tq) (w : list wstate) : tq :=
  Tq (tasks s) (results s) (ready s) w (exiting s) (emptyf s) (abort s) (single s) (pc s) (next s) (ran s) (cbs s).
(* the loop of drain goes on or is left *)
Definition after (done d : bool) : mpc :=
  if done then (if d then MGone else MIdle) else MDrainTop d.

(* who makes the step; for the client also what can be seen from outside *)
Inductive event : Type := Tau | Submit (t : nat) | Refused | Callback (t : nat) | Thrown (t : nat) | Returned.
Inductive label : Type := ByMain (e : event) | ByWorker (i : nat) | Spurious (i : nat).

Inductive step : label -> tq -> tq -> Prop :=
(* lines 165-171 *)
| s_enq_refused s : pc s = MIdle -> exiting s || emptyf s || abort s = true ->
    step (ByMain Refused) s s
(* lines 172-176 with 75-78: the client runs the task itself *)
| s_enq_direct_throw s : pc s = MIdle -> exiting s || emptyf s || abort s = false -> single s = true ->
    tthrows (next s) = true ->
    step (ByMain (Thrown (next s))) s
      (Tq (tasks s) (results s) (ready s) (ws s) (exiting s) (emptyf s) (abort s) (single s) MIdle (S (next s)) (ran s ++ [next s]) (cbs s))
| s_enq_direct s : pc s = MIdle -> exiting s || emptyf s || abort s = false -> single s = true ->
    tthrows (next s) = false ->
    step (ByMain (if cthrows (next s) then Thrown (next s) else Callback (next s))) s
      (Tq (tasks s) (results s) (ready s) (ws s) (exiting s) (emptyf s) (abort s) (single s) MIdle (S (next s)) (ran s ++ [next s]) (cbs s ++ [next s]))
(* lines 177-181 *)
| s_enq s w : pc s = MIdle -> exiting s || emptyf s || abort s = false -> single s = false ->
    notify_one (ws s) w ->
    step (ByMain (Submit (next s))) s
      (Tq (tasks s ++ [next s]) (results s) (ready s) w (exiting s) (emptyf s) (abort s) (single s)
         (if is_nil (results s) then MIdle else MEnqRes) (S (next s)) (ran s) (cbs s))
(* lines 182, 236-242, 276-280: nothing there or not ready *)
| s_enqres_none s : pc s = MEnqRes ->
    match results s with [] => True | t :: _ => ~ In t (ready s) end ->
    step (ByMain Tau) s (set_pc s MIdle)
| s_enqres_some s t r : pc s = MEnqRes -> results s = t :: r -> In t (ready s) ->
    step (ByMain Tau) s
      (Tq (tasks s) r (ready s) (ws s) (exiting s) (emptyf s) (abort s) (single s)
         (if abort s then MIdle else MCall t None) (next s) (ran s) (cbs s))
(* lines 149, 185-188 *)
| s_drain s : pc s = MIdle -> step (ByMain Tau) s (set_pc s (MDrainTop false))
| s_force s : pc s = MIdle ->
    step (ByMain Tau) s
      (Tq (tasks s) (results s) (ready s) (ws s) (exiting s) (emptyf s) (abort s) true (MDrainTop false) (next s) (ran s) (cbs s))
(* lines 152-160 *)
| s_drain_top s d w : pc s = MDrainTop d ->
    (if negb (emptyf s) && negb (is_nil (tasks s)) then notify_one (ws s) w else w = ws s) ->
    step (ByMain Tau) s (set_pc (set_ws s w) (MDrainRes (is_nil (tasks s) && is_nil (results s)) d))
(* lines 161, 236-240, 269-270 *)
| s_drain_res_none s fin d : pc s = MDrainRes fin d -> results s = [] ->
    step (ByMain (if fin then Returned else Tau)) s (set_pc s (after fin d))
| s_drain_res_wait s fin d : pc s = MDrainRes fin d -> results s <> [] ->
    step (ByMain Tau) s (set_pc s (MWait fin d))
(* lines 271-273, 281-283 and the test of abort, line 240 *)
| s_wait_pop s fin d t r : pc s = MWait fin d -> results s = t :: r -> In t (ready s) ->
    step (ByMain Tau) s
      (Tq (tasks s) r (ready s) (ws s) (exiting s) (emptyf s) (abort s) (single s)
         (if abort s then after fin d else MCall t (Some (fin, d))) (next s) (ran s) (cbs s))
(* lines 241-249 with 68-70, 88-91; the destructor catches (line 140) *)
| s_call_task_threw s t k : pc s = MCall t k -> tthrows t = true ->
    step (ByMain (Thrown t)) s
      (Tq (tasks s) (results s) (ready s) (ws s) (exiting s) (emptyf s) true (single s)
         (match k with Some (_, true) => MGone | _ => MIdle end) (next s) (ran s) (cbs s))
| s_call_cb_threw s t k : pc s = MCall t k -> tthrows t = false -> cthrows t = true ->
    step (ByMain (Thrown t)) s
      (Tq (tasks s) (results s) (ready s) (ws s) (exiting s) (emptyf s) true (single s)
         (match k with Some (_, true) => MGone | _ => MIdle end) (next s) (ran s) (cbs s ++ [t]))
| s_call s t k : pc s = MCall t k -> tthrows t = false -> cthrows t = false ->
    step (ByMain (Callback t)) s
      (Tq (tasks s) (results s) (ready s) (ws s) (exiting s) (emptyf s) (abort s) (single s)
         (match k with None => MIdle | Some (fin, d) => after fin d end) (next s) (ran s) (cbs s ++ [t]))
(* lines 123-125 *)
| s_destroy s : pc s = MIdle ->
    step (ByMain Tau) s
      (Tq (tasks s) (results s) (ready s) (ws s) true (emptyf s) (abort s) (single s) MDestTop (next s) (ran s) (cbs s))
(* lines 126-136 *)
| s_dest_loop s : pc s = MDestTop -> tasks s <> [] ->
    step (ByMain Tau) s (set_ws s (map wake (ws s)))
| s_dest_done s : pc s = MDestTop -> tasks s = [] ->
    step (ByMain Tau) s
      (Tq (tasks s) (results s) (ready s) (map wake (ws s)) (exiting s) true (abort s) (single s) MJoin (next s) (ran s) (cbs s))
(* lines 137-139 *)
| s_join s : pc s = MJoin -> (forall x, In x (ws s) -> x = WDead) ->
    step (ByMain Tau) s (set_pc s (MDrainTop true))
(* lines 206-221; the mutex is free *)
| s_sleep s i : nth_error (ws s) i = Some WCheck -> (forall fin d, pc s <> MWait fin d) ->
    exiting s || emptyf s || abort s || negb (is_nil (tasks s)) = false ->
    step (ByWorker i) s (set_ws s (upd (ws s) i WBlocked))
| s_die s i : nth_error (ws s) i = Some WCheck -> (forall fin d, pc s <> MWait fin d) ->
    emptyf s || abort s = true \/ (exiting s = true /\ tasks s = []) ->
    step (ByWorker i) s (set_ws s (upd (ws s) i WDead))
| s_take s i t r : nth_error (ws s) i = Some WCheck -> (forall fin d, pc s <> MWait fin d) ->
    emptyf s || abort s = false -> tasks s = t :: r ->
    step (ByWorker i) s
      (Tq r (results s ++ [t]) (ready s) (upd (ws s) i (WGot t)) (exiting s) (emptyf s) (abort s) (single s) (pc s) (next s) (ran s) (cbs s))
| s_run s i t : nth_error (ws s) i = Some (WGot t) ->
    step (ByWorker i) s
      (Tq (tasks s) (results s) (t :: ready s) (upd (ws s) i WCheck) (exiting s) (emptyf s) (abort s) (single s) (pc s) (next s) (ran s ++ [t]) (cbs s))
(* a condition variable may wake up by itself *)
| s_spurious s i : nth_error (ws s) i = Some WBlocked ->
    step (Spurious i) s (set_ws s (upd (ws s) i WCheck)).

Inductive steps : tq -> tq -> Prop :=
| steps_refl s : steps s s
| steps_cons l s1 s2 s3 : step l s1 s2 -> steps s2 s3 -> steps s1 s3.
Definition reachable (workers : nat) (s : tq) : Prop := steps (tq_new workers) s.

(* An execution of unlimited length.  None: nothing happens (so that an execution may also
   come to a halt). *)
Definition execution (e : nat -> tq) (lab : nat -> option label) : Prop :=
  forall n, match lab n with
            | Some l => step l (e n) (e (S n))
            | None => e (S n) = e n
            end.
(* A thread that can go on from some moment at all times does so. *)
Definition fair (e : nat -> tq) (lab : nat -> option label) : Prop :=
  (forall n, (forall m, n <= m -> exists ev s', step (ByMain ev) (e m) s') ->
     exists m ev, n <= m /\ lab m = Some (ByMain ev)) /\
  (forall i n, (forall m, n <= m -> exists s', step (ByWorker i) (e m) s') ->
     exists m, n <= m /\ lab m = Some (ByWorker i)).
End Task.
