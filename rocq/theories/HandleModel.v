(* Model of the reference counted handles of include/randomvar.h: randomvar (lines 301-357),
   realization (lines 115-185), the construction and destruction of realized (lines 531-549)
   and the store of house (lines 215-232).

   Objects are numbered in order of allocation and None marks a freed one; program variables
   holding handles are numbered in order of construction and None marks a destroyed one.
   Reference counts are unbounded (the code has 2^32 of them).  A house whose destructor has
   run is not alive; its members are destroyed in the order mutex, dice, store (lines
   230-232). *)
From Coq Require Import ZArith List Bool Arith.
From Verif Require Import Base.
Import ListNotations.

(* realized, lines 104-110: the counted object behind a realization *)
Record robj := { rcnt : nat; rdealer : nat; rrv : nat; rrolled : bool }.
Record hobj := { alive : bool; store : list nat }.
(* randomvar: lines 354-356 *)
Record vhandle := { vdealer : nat; vptr : option nat }.
Record st := {
  houses : list hobj;
  randoms : list (option nat);          (* reference counts *)
  reals : list (option robj);
  vvars : list (option vhandle);
  rvars : list (option (option nat)) }.

Definition set_houses (s : st) x := {| houses := x; randoms := randoms s; reals := reals s; vvars := vvars s; rvars := rvars s |}.
Definition set_randoms (s : st) x := {| houses := houses s; randoms := x; reals := reals s; vvars := vvars s; rvars := rvars s |}.
Definition set_reals (s : st) x := {| houses := houses s; randoms := randoms s; reals := x; vvars := vvars s; rvars := rvars s |}.
Definition set_vvars (s : st) x := {| houses := houses s; randoms := randoms s; reals := reals s; vvars := x; rvars := rvars s |}.
Definition set_rvars (s : st) x := {| houses := houses s; randoms := randoms s; reals := reals s; vvars := vvars s; rvars := x |}.

(* reading an object or a variable that was destroyed *)
Definition live {A} (l : list (option A)) (i : nat) : outcome A :=
  let* x := aget l i in match x with Some a => Ok a | None => UB UseAfterFree end.
Definition deref (p : option nat) : outcome nat :=
  match p with Some p => Ok p | None => UB NullDeref end.
Definition house_at (s : st) (h : nat) : outcome hobj :=
  let* x := aget (houses s) h in if alive x then Ok x else UB UseAfterFree.

(* rv->ref_cnt++ and "if (rv && --rv->ref_cnt == 0) delete rv" *)
Definition inc_random (s : st) (p : option nat) : outcome st :=
  let* p := deref p in
  let* c := live (randoms s) p in
  let* l := aset (randoms s) p (Some (S c)) in Ok (set_randoms s l).
Definition dec_random (s : st) (p : option nat) : outcome st :=
  match p with
  | None => Ok s
  | Some p =>
      let* c := live (randoms s) p in
      let* l := aset (randoms s) p (if c =? 1 then None else Some (c - 1)) in
      Ok (set_randoms s l)
  end.

Definition with_cnt (o : robj) c :=
  {| rcnt := c; rdealer := rdealer o; rrv := rrv o; rrolled := rrolled o |}.
Definition with_rolled (o : robj) :=
  {| rcnt := rcnt o; rdealer := rdealer o; rrv := rrv o; rrolled := true |}.
Definition inc_real (s : st) (p : option nat) : outcome st :=
  let* p := deref p in
  let* o := live (reals s) p in
  let* l := aset (reals s) p (Some (with_cnt o (S (rcnt o)))) in Ok (set_reals s l).
(* the destructor of realized, lines 541-549: rem_realization looks the object up in the
   store of the house; what it removes there is the handle of the store, which counts the
   object down again, below zero *)
Definition delete_real (s : st) (p : nat) (o : robj) : outcome st :=
  let* h := house_at s (rdealer o) in
  let* l := aset (houses s) (rdealer o)
     {| alive := true; store := filter (fun q => negb (q =? p)) (store h) |} in
  let* r := aset (reals s) p None in
  Ok (set_reals (set_houses s l) r).
Definition dec_real (s : st) (p : option nat) : outcome st :=
  match p with
  | None => Ok s
  | Some p =>
      let* o := live (reals s) p in
      if rcnt o =? 1 then delete_real s p o
      else let* l := aset (reals s) p (Some (with_cnt o (rcnt o - 1))) in Ok (set_reals s l)
  end.

(* the store of a dying house releases its handles one after the other; the mutex and the
   dice are gone by then, so a realized that dies here locks a destroyed mutex (line 221) *)
Fixpoint release (s : st) (l : list nat) : outcome st :=
  match l with
  | [] => Ok s
  | p :: l => let* s := dec_real s (Some p) in release s l
  end.
(* realized::rolldice for every realisation of the store, lines 551-574 *)
Fixpoint roll (s : st) (l : list nat) : outcome st :=
  match l with
  | [] => Ok s
  | p :: l =>
      let* o := live (reals s) p in
      let* s := (if rrolled o then Ok s
                 else let* _ := live (randoms s) (rrv o) in
                      let* m := aset (reals s) p (Some (with_rolled o)) in Ok (set_reals s m)) in
      roll s l
  end.

Inductive op :=
  | VNew (h : nat)              (* house::make_rv *)
  | VCopy (s : nat) | VMove (s : nat) | VAssign (d s : nat) | VMoveAssign (d s : nat) | VKill (d : nat)
  | Realize (s : nat)           (* randomvar::realize *)
  | RNull | RCopy (s : nat) | RMove (s : nat) | RAssign (d s : nat) | RMoveAssign (d s : nat)
  | RKill (d : nat)
  | RRead (s : nat)             (* the conversions to float *)
  | Roll (h : nat) | HNew | HKill (h : nat).

Definition step (s : st) (o : op) : outcome st :=
  match o with
  | VNew h =>                                        (* lines 319-324 *)
      let* _ := house_at s h in
      let p := length (randoms s) in
      Ok (set_vvars (set_randoms s (randoms s ++ [Some 1]))
                    (vvars s ++ [Some {| vdealer := h; vptr := Some p |}]))
  | VCopy i =>                                       (* lines 311-314 *)
      let* v := live (vvars s) i in
      let* s := inc_random s (vptr v) in
      Ok (set_vvars s (vvars s ++ [Some v]))
  | VMove i =>                                       (* lines 315-318 *)
      let* v := live (vvars s) i in
      let* l := aset (vvars s) i (Some {| vdealer := vdealer v; vptr := None |}) in
      Ok (set_vvars s (l ++ [Some v]))
  | VAssign d i =>                                   (* lines 325-331; dealer is not assigned *)
      let* w := live (vvars s) d in
      let* v := live (vvars s) i in
      let* s := dec_random s (vptr w) in
      let* l := aset (vvars s) d (Some {| vdealer := vdealer w; vptr := vptr v |}) in
      inc_random (set_vvars s l) (vptr v)
  | VMoveAssign d i =>                               (* lines 332-336 *)
      let* w := live (vvars s) d in
      let* v := live (vvars s) i in
      let* l := aset (vvars s) d (Some v) in
      let* l := aset l i (Some w) in
      Ok (set_vvars s l)
  | VKill d =>                                       (* lines 337-340 *)
      let* w := live (vvars s) d in
      let* s := dec_random s (vptr w) in
      let* l := aset (vvars s) d None in
      Ok (set_vvars s l)
  | Realize i =>                                     (* lines 341-344 and 531-538 *)
      let* v := live (vvars s) i in
      let* p := deref (vptr v) in
      let* _ := live (randoms s) p in
      let* h := house_at s (vdealer v) in
      let q := length (reals s) in
      let* l := aset (houses s) (vdealer v) {| alive := true; store := store h ++ [q] |} in
      Ok (set_rvars (set_houses (set_reals s (reals s ++
            [Some {| rcnt := 2; rdealer := vdealer v; rrv := p; rrolled := false |}])) l)
            (rvars s ++ [Some (Some q)]))
  | RNull => Ok (set_rvars s (rvars s ++ [Some None]))
  | RCopy i =>                                       (* lines 126-129 *)
      let* v := live (rvars s) i in
      let* s := inc_real s v in
      Ok (set_rvars s (rvars s ++ [Some v]))
  | RMove i =>                                       (* lines 130-133 *)
      let* v := live (rvars s) i in
      let* l := aset (rvars s) i (Some None) in
      Ok (set_rvars s (l ++ [Some v]))
  | RAssign d i =>                                   (* lines 138-144 *)
      let* w := live (rvars s) d in
      let* v := live (rvars s) i in
      let* s := dec_real s w in
      let* l := aset (rvars s) d (Some v) in
      inc_real (set_rvars s l) v
  | RMoveAssign d i =>                               (* lines 145-148 *)
      let* w := live (rvars s) d in
      let* v := live (rvars s) i in
      let* l := aset (rvars s) d (Some v) in
      let* l := aset l i (Some w) in
      Ok (set_rvars s l)
  | RKill d =>                                       (* lines 149-152 *)
      let* w := live (rvars s) d in
      let* s := dec_real s w in
      let* l := aset (rvars s) d None in
      Ok (set_rvars s l)
  | RRead i =>                                       (* lines 153-158 *)
      let* v := live (rvars s) i in
      let* p := deref v in
      let* _ := live (reals s) p in Ok s
  | Roll h => let* x := house_at s h in roll s (store x)
  | HNew => Ok (set_houses s (houses s ++ [{| alive := true; store := [] |}]))
  | HKill h =>
      let* x := house_at s h in
      let* l := aset (houses s) h {| alive := false; store := store x |} in
      release (set_houses s l) (store x)
  end.

Definition start : st := {| houses := []; randoms := []; reals := []; vvars := []; rvars := [] |}.
Fixpoint run (s : st) (ops : list op) : outcome st :=
  match ops with
  | [] => Ok s
  | o :: ops => let* s := step s o in run s ops
  end.
