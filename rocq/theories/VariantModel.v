(* Model of include/variant.h: variant<Ts...> and vunctor<Ts...>, with the type tags of
   include/ctti.h.

   Types are numbers.  What the templates decide at compile time is a parameter:
   - tag T: OP::type_index(OP::type_id<T>()), compared by hash only (ctti.h, lines 149-154);
   - setable U T, castable U T: compare_v (variant.h, lines 202-219);
   - conv U T x: the C++ conversion of a value of type U to type T;
   - triv T: T is a scalar other than a pointer, so that assigning to storage in which
     nothing was constructed is harmless.
   Pointers (wrap_type deletes them) are not modelled. *)
From Coq Require Import ZArith List Bool Arith.
From Verif Require Import Base.
Import ListNotations.
Local Open Scope nat_scope.

Section Variant.
Variable val : Type.
Variable tag : nat -> Z.
Variables setable castable : nat -> nat -> bool.
Variable conv : nat -> nat -> val -> val.
Variable triv : nat -> bool.
Variable dflt : nat -> val.
Variable Ts : list nat.      (* the template parameters, in their order *)

(* The recursion over the union: the first slot whose type satisfies p. *)
Definition pick (p : nat -> bool) : option nat := find p Ts.

(* The union: in which slot an object lives, and its value. *)
Definition cell : Type := option (nat * val).
(* t.set(x) of slot T (lines 113-117) *)
Definition write (c : cell) (T : nat) (x : val) : outcome cell :=
  if triv T then Ok (Some (T, x))
  else match c with
       | Some (T', _) => if T' =? T then Ok (Some (T, x)) else UB Uninit
       | None => UB Uninit
       end.
(* T(t) of slot T *)
Definition read_t (c : cell) (T : nat) : outcome val :=
  match c with
  | Some (T', x) => if T' =? T then Ok x else UB Uninit
  | None => UB Uninit
  end.

(* ---- variant, lines 816-989 ---- *)
Record variant : Type := Var { vk : Z; vs : cell }.
(* lines 839-849, 942-945: from a value *)
Definition v_new (U : nat) (u : val) : outcome variant :=
  match pick (setable U) with
  | Some T => Ok (Var (tag T) (Some (T, conv U T u)))
  | None => Throw RuntimeError
  end.
(* lines 854-865, 977-981; the tail of the recursion throws *)
Definition v_get (v : variant) (U : nat) : outcome val :=
  match pick (castable U) with
  | Some T => if (vk v =? tag T)%Z then let* x := read_t (vs v) T in Ok (conv T U x) else Throw RuntimeError
  | None => Throw RuntimeError
  end.
(* lines 867-878, 967-976 *)
Definition v_set (v : variant) (U : nat) (u : val) : outcome variant :=
  match pick (setable U) with
  | Some T => if (vk v =? tag T)%Z then let* c := write (vs v) T (conv U T u) in Ok (Var (vk v) c) else Throw RuntimeError
  | None => Throw RuntimeError
  end.
(* set(d,v), lines 880-891: the slot with that tag; the copy is from slot T of v.  A move
   is the same, since it moves from a copy (line 888) *)
Definition v_set_store (c : cell) (d : Z) (from : cell) : outcome cell :=
  match pick (fun T => (d =? tag T)%Z) with
  | Some T => let* x := read_t from T in write c T x
  | None => Throw RuntimeError
  end.
(* lines 833-838, 936-941: copy and move construction; nothing is constructed in the union
   before set *)
Definition v_copy (w : variant) : outcome variant :=
  let* c := v_set_store None (vk w) (vs w) in Ok (Var (vk w) c).
(* lines 955-966; the pointers of the moved-from variant are not modelled *)
Definition v_assign (v w : variant) : outcome variant :=
  if (vk v =? vk w)%Z then let* c := v_set_store (vs v) (vk v) (vs w) in Ok (Var (vk v) c)
  else Throw RuntimeError.

(* ---- vunctor, lines 339-657 ---- *)
(* what f is: nothing, a function that always returns the same value, or a chain to
   another variable (line 446) *)
Inductive fsrc : Type := FNone | FFun (x : val) | FChain (j : nat).
Record vun : Type := Vun { k : Z; s : cell; f : fsrc; rd : bool; wr : bool; us : bool }.
(* all variables of the program; None: destroyed *)
Definition world : Type := list (option vun).
Definition wget (w : world) (i : nat) : outcome vun :=
  match nth_error w i with
  | Some (Some v) => Ok v
  | Some None => UB UseAfterFree
  | None => UB OutOfBounds
  end.
Definition wset (w : world) (i : nat) (v : vun) : world := upd w i (Some v).
(* get<T>(d) of the store of variable i in slot T, lines 383-390: mark it as read, return
   the result of the function or the value *)
Fixpoint get_slot (fuel : nat) (w : world) (i : nat) (d : Z) (T : nat) : outcome (world * val) :=
  match fuel with
  | O => UB OutOfFuel
  | S fuel =>
      if negb (d =? tag T)%Z then Throw RuntimeError else
      let* v := wget w i in
      let w := wset w i (Vun (k v) (s v) (f v) true (wr v) (us v)) in
      match f v with
      | FFun x => Ok (w, x)
      | FChain j => get_slot fuel w j d T
      | FNone => let* x := read_t (s v) T in Ok (w, x)
      end
  end.
(* lines 383-395, 617-626 *)
Definition get (fuel : nat) (w : world) (i U : nat) : outcome (world * val) :=
  let* v := wget w i in
  match pick (castable U) with
  | Some T => let* (w, x) := get_slot fuel w i (k v) T in Ok (w, conv T U x)
  | None => Throw RuntimeError
  end.
(* lines 368-378, 551-554: from a value (no markings are set) *)
Definition new_value (w : world) (U : nat) (u : val) : outcome world :=
  match pick (setable U) with
  | Some T => Ok (w ++ [Some (Vun (tag T) (Some (T, conv U T u)) FNone false false false)])
  | None => Throw RuntimeError
  end.
(* set(d,v), lines 426-433: copies what get returns and drops the function *)
Definition set_store (fuel : nat) (w : world) (i j : nat) : outcome world :=
  let* v := wget w i in
  match pick (fun T => (k v =? tag T)%Z) with
  | Some T =>
      let* (w, x) := get_slot fuel w j (k v) T in
      let* v := wget w i in      (* its own markings may have changed: j may be i *)
      let* c := write (s v) T x in
      Ok (wset w i (Vun (k v) c FNone (rd v) true (us v)))
  | None => Throw RuntimeError
  end.
(* lines 359-362, 543-545: the first slot is constructed, then set *)
Definition new_copy (fuel : nat) (w : world) (j : nat) : outcome world :=
  let* v := wget w j in
  let T0 := hd 0 Ts in
  set_store fuel (w ++ [Some (Vun (k v) (Some (T0, dflt T0)) FNone false false false)]) (length w) j.
(* lines 563-568: there is no test of used *)
Definition assign (fuel : nat) (w : world) (i j : nat) : outcome world :=
  let* v := wget w i in let* v' := wget w j in
  if (k v =? k v')%Z then set_store fuel w i j else Throw RuntimeError.
(* lines 434-441, 569-574: the value is copied, the function moved; v is not marked as read *)
Definition move_assign (w : world) (i j : nat) : outcome world :=
  let* v := wget w i in let* v' := wget w j in
  if negb (k v =? k v')%Z then Throw RuntimeError else
  match pick (fun T => (k v =? tag T)%Z) with
  | Some T =>
      let* x := read_t (s v') T in
      let* c := write (s v) T x in
      let w := wset w j (Vun (k v') (s v') FNone (rd v') (wr v') (us v')) in
      let* v := wget w i in
      Ok (wset w i (Vun (k v) c (f v') (rd v) true (us v)))
  | None => Throw RuntimeError
  end.
(* lines 397-410, 576-583, 592-599 *)
Definition set_value (w : world) (i U : nat) (u : val) : outcome world :=
  let* v := wget w i in
  if us v then Throw RuntimeError else
  match pick (setable U) with
  | Some T =>
      if (k v =? tag T)%Z
      then let* c := write (s v) T (conv U T u) in Ok (wset w i (Vun (k v) c FNone (rd v) true (us v)))
      else Throw RuntimeError
  | None => Throw RuntimeError
  end.
(* lines 412-424, 584-591, 600-607; the function returns a U, the slot calls it for a T *)
Definition set_fun (w : world) (i U : nat) (u : val) : outcome world :=
  let* v := wget w i in
  if us v then Throw RuntimeError else
  match pick (setable U) with
  | Some T =>
      if (k v =? tag T)%Z
      then Ok (wset w i (Vun (k v) (s v) (FFun (conv U T u)) (rd v) true (us v)))
      else Throw RuntimeError
  | None => Throw RuntimeError
  end.
(* lines 443-449, 608-615 *)
Definition chain (w : world) (i j : nat) : outcome world :=
  let* v := wget w i in let* v' := wget w j in
  if us v then Throw RuntimeError else
  if negb (k v =? k v')%Z then Throw RuntimeError else
  match pick (fun T => (k v =? tag T)%Z) with
  | Some T => Ok (wset w i (Vun (k v) (s v) (FChain j) (rd v) true (us v)))
  | None => Throw RuntimeError
  end.
(* lines 640-642, 644-646, 648-655 *)
Definition mark_reset (w : world) (i : nat) : outcome world :=
  let* v := wget w i in Ok (wset w i (Vun (k v) (s v) (f v) false false false)).
Definition unmark_self_reads (w : world) (i : nat) : outcome world :=
  let* v := wget w i in Ok (wset w i (Vun (k v) (s v) (f v) false (wr v) (us v))).
Definition mark_read_as_used (w : world) (i : nat) : outcome world :=
  let* v := wget w i in
  if wr v && (us v || rd v) then Throw RuntimeError
  else if rd v then Ok (wset w i (Vun (k v) (s v) (f v) false (wr v) true))
  else Ok w.
(* lines 560-562 *)
Definition destroy (w : world) (i : nat) : outcome world :=
  let* v := wget w i in Ok (upd w i None).
End Variant.
