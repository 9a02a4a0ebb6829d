(* Model of the event dispatch of include/listen.h: dispatcher (lines 88-157) with its
   singly linked list of sinks, and listener (lines 166-222) with its list of removers.

   Simplifications:
   - memory is a list of cells, an address is an index into it; a deleted sink leaves an
     empty cell whose address is not given out again;
   - `new` succeeds;
   - a handler is an element of H; what it does to the program when called is the function
     cb (a std::function); the arguments of the message are not represented, every handler
     called is recorded;
   - the remover of lines 113-124 is the pair of the captured values (this, t);
   - `source` objects (lines 205-221) are kept in a list in the order of their chain. *)
From Coq Require Import List ZArith Bool Arith.
From Verif Require Import Base.
Import ListNotations.
Local Open Scope nat_scope.

Section Listen.
Context {H : Type}.

(* lines 143-156 *)
Record sink : Type := Sink { shandler : H; snext : option nat }.
(* heap of sinks, dispatchers (their head, or None when destroyed), listeners (their
   removers, or None when destroyed) *)
Record world : Type := World {
  sinks : list (option sink);
  heads : list (option (option nat));
  lists : list (option (list (nat * nat))) }.
Definition wnew : world := World [] [] [].

Definition load_sink (h : list (option sink)) (a : nat) : outcome sink :=
  match nth_error h a with
  | Some (Some s) => Ok s
  | _ => UB UseAfterFree
  end.
Definition head_of (w : world) (d : nat) : outcome (option nat) :=
  match nth_error (heads w) d with
  | Some (Some p) => Ok p
  | _ => UB UseAfterFree
  end.

(* a `sink **`: &head of a dispatcher or &a->next *)
Inductive slot : Set := SHead (d : nat) | SNext (a : nat).
Definition read (w : world) (s : slot) : outcome (option nat) :=
  match s with
  | SHead d => head_of w d
  | SNext a => let* k := load_sink (sinks w) a in Ok (snext k)
  end.
Definition write (w : world) (s : slot) (v : option nat) : outcome world :=
  match s with
  | SHead d =>
    let* _ := head_of w d in
    let* hs := aset (heads w) d (Some v) in
    Ok (World (sinks w) hs (lists w))
  | SNext a =>
    let* k := load_sink (sinks w) a in
    let* h := aset (sinks w) a (Some (Sink (shandler k) v)) in
    Ok (World h (heads w) (lists w))
  end.
Definition same_p (x y : option nat) : bool :=
  match x, y with
  | Some a, Some b => a =? b
  | None, None => true
  | _, _ => false
  end.

(* lines 105-109: the loop that finds the place, t is `before` *)
Fixpoint find_slot (fuel : nat) (w : world) (s : slot) (t : option nat) : outcome slot :=
  match fuel with
  | O => UB OutOfFuel
  | S fuel =>
    let* v := read w s in
    if same_p v t then Ok s
    else match v with
         | None => UB NullDeref
         | Some a =>
           let s := SNext a in
           let* v := read w s in
           match v, t with
           | None, Some _ => Throw RuntimeError
           | _, _ => find_slot fuel w s t
           end
         end
  end.
(* lines 100-125; returns the remover *)
Definition attach (w : world) (d : nat) (h : H) (before : option nat) : outcome (world * (nat * nat)) :=
  let* s := find_slot (S (S (length (sinks w)))) w (SHead d) before in
  let a := length (sinks w) in
  let w := World (sinks w ++ [Some (Sink h before)]) (heads w) (lists w) in
  let* w := write w s (Some a) in
  Ok (w, (d, a)).

(* lines 114-123 *)
Fixpoint remover_loop (fuel : nat) (w : world) (s : slot) (t : nat) : outcome world :=
  match fuel with
  | O => UB OutOfFuel
  | S fuel =>
    let* v := read w s in
    match v with
    | None => Ok w
    | Some a =>
      if a =? t then
        let* k := load_sink (sinks w) t in
        let* w := write w s (snext k) in
        let* h := aset (sinks w) t None in
        Ok (World h (heads w) (lists w))
      else remover_loop fuel w (SNext a) t
    end
  end.
Definition remover (w : world) (r : nat * nat) : outcome world :=
  remover_loop (S (S (length (sinks w)))) w (SHead (fst r)) (snd r).

(* lines 138-144 *)
Variable cb : H -> world -> outcome world.
Fixpoint dispatch_loop (fuel : nat) (w : world) (s : option nat) (log : list H) : outcome (world * list H) :=
  match fuel with
  | O => UB OutOfFuel
  | S fuel =>
    match s with
    | None => Ok (w, log)
    | Some a =>
      let* k := load_sink (sinks w) a in
      let* w := cb (shandler k) w in
      let* k' := load_sink (sinks w) a in
      dispatch_loop fuel w (snext k') (log ++ [shandler k])
    end
  end.
Definition dispatch (fuel : nat) (w : world) (d : nat) : outcome (world * list H) :=
  let* p := head_of w d in
  dispatch_loop fuel w p [].

(* lines 191-199 *)
Definition listen (w : world) (l d : nat) (h : H) (before : option nat) : outcome world :=
  match nth_error (lists w) l with
  | Some (Some _) =>
    let* (w, r) := attach w d h before in
    match nth_error (lists w) l with
    | Some (Some rs) =>
      let* ls := aset (lists w) l (Some (rs ++ [r])) in
      Ok (World (sinks w) (heads w) ls)
    | _ => UB UseAfterFree
    end
  | _ => UB UseAfterFree
  end.
(* lines 181-188 with 211-216 *)
Fixpoint removers (w : world) (rs : list (nat * nat)) : outcome world :=
  match rs with
  | [] => Ok w
  | r :: rs => let* w := remover w r in removers w rs
  end.
Definition destroy_listener (w : world) (l : nat) : outcome world :=
  match nth_error (lists w) l with
  | Some (Some rs) =>
    let* w := removers w rs in
    let* ls := aset (lists w) l None in
    Ok (World (sinks w) (heads w) ls)
  | _ => UB UseAfterFree
  end.
(* lines 133-136 (the assertion is not compiled into a release build) *)
Definition destroy_dispatcher (w : world) (d : nat) : outcome world :=
  let* _ := head_of w d in
  let* hs := aset (heads w) d None in
  Ok (World (sinks w) hs (lists w)).
(* line 180: the defaulted move constructor of a listener copies the pointer and leaves
   the one moved from as it is *)
Definition move_listener (w : world) (l : nat) : outcome world :=
  match nth_error (lists w) l with
  | Some (Some rs) => Ok (World (sinks w) (heads w) (lists w ++ [Some rs]))
  | _ => UB UseAfterFree
  end.

Inductive lnop : Type :=
| NewDispatcher
| NewListener
| Listen (l d : nat) (h : H) (before : option nat)
| Dispatch (d : nat)
| DestroyListener (l : nat)
| DestroyDispatcher (d : nat).
(* what the caller sees *)
Inductive lnout : Type :=
| Done
| Rejected                (* an exception *)
| Called (hs : list H).   (* the handlers called, in order *)

Definition lstep (w : world) (o : lnop) : outcome (world * lnout) :=
  match o with
  | NewDispatcher => Ok (World (sinks w) (heads w ++ [Some None]) (lists w), Done)
  | NewListener => Ok (World (sinks w) (heads w) (lists w ++ [Some []]), Done)
  | Listen l d h b =>
    match listen w l d h b with
    | Ok w' => Ok (w', Done)
    | Throw _ => Ok (w, Rejected)  (* attach throws before it changes anything *)
    | UB f => UB f
    end
  | Dispatch d =>
    let* (w, log) := dispatch (S (length (sinks w))) w d in Ok (w, Called log)
  | DestroyListener l => let* w := destroy_listener w l in Ok (w, Done)
  | DestroyDispatcher d => let* w := destroy_dispatcher w d in Ok (w, Done)
  end.
Fixpoint lrun (w : world) (ops : list lnop) : outcome (world * list lnout) :=
  match ops with
  | [] => Ok (w, [])
  | o :: ops =>
    let* (w, x) := lstep w o in
    let* (w, xs) := lrun w ops in
    Ok (w, x :: xs)
  end.
End Listen.
Arguments sink : clear implicits.
Arguments world : clear implicits.
Arguments lnop : clear implicits.
Arguments lnout : clear implicits.
