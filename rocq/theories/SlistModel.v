(* Model of the singly linked list of include/list.h (listelement_s lines 69-85, list_single
   lines 92-178) and of the owning pointer of include/autodelete.h (lines 40-82).

   Simplifications:
   - memory is a list of cells, an address is an index into it; a deleted element leaves an
     empty cell, whose address is not given out again;
   - an element is its next pointer; the rest of T is not looked at by the list;
   - a pointer to a pointer is the place it points to: the head of the list or the next
     member of an element;
   - `new` succeeds; lists are not moved (lines 104-112);
   - a loop of the code may take as many rounds as there are cells, plus one. *)
From Coq Require Import List Bool Arith.
From Verif Require Import Base.
Import ListNotations.

Definition ptr : Set := option nat.
(* line 95; the heap belongs to the whole program *)
Record slist : Set := Sl { cells : list (option ptr); shead : ptr }.
Definition snew : slist := Sl [] None.

(* e->next *)
Definition rd_next (h : list (option ptr)) (e : ptr) : outcome ptr :=
  match e with
  | None => UB NullDeref
  | Some a => match nth_error h a with Some (Some x) => Ok x | _ => UB UseAfterFree end
  end.
Definition wr_next (h : list (option ptr)) (e x : ptr) : outcome (list (option ptr)) :=
  match e with
  | None => UB NullDeref
  | Some a => match nth_error h a with Some (Some _) => aset h a (Some x) | _ => UB UseAfterFree end
  end.
Inductive place : Set := Head | NextOf (a : nat).
Definition rd (st : slist) (p : place) : outcome ptr :=
  match p with Head => Ok (shead st) | NextOf a => rd_next (cells st) (Some a) end.
Definition wr (st : slist) (p : place) (x : ptr) : outcome slist :=
  match p with
  | Head => Ok (Sl (cells st) x)
  | NextOf a => let* h := wr_next (cells st) (Some a) x in Ok (Sl h (shead st))
  end.
Definition peqb (x y : ptr) : bool :=
  match x, y with Some a, Some b => a =? b | None, None => true | _, _ => false end.

Definition fuel_of (st : slist) : nat := S (length (cells st)).

(* lines 118-130 *)
Fixpoint ins_loop (fuel : nat) (st : slist) (e : nat) (t l : place) : outcome slist :=
  match fuel with
  | O => UB OutOfFuel
  | S fuel =>
    let* x := rd st t in
    match x with
    | None => wr st t (Some e)
    | Some y =>
      let* n := rd_next (cells st) (Some e) in
      if negb (peqb n None) && peqb n x then
        let* z := rd st l in
        let* h := wr_next (cells st) z (Some e) in
        Ok (Sl h (shead st))
      else ins_loop fuel st e (NextOf y) t
    end
  end.
Definition sinsert (st : slist) (e : ptr) : outcome (slist * ptr) :=
  match e with
  | None => Ok (st, None)
  | Some a => let* st := ins_loop (fuel_of st) st a Head Head in Ok (st, e)
  end.

(* lines 132-143 *)
Fixpoint rem_loop (fuel : nat) (st : slist) (e : ptr) (t l : place) : outcome (slist * ptr) :=
  match fuel with
  | O => UB OutOfFuel
  | S fuel =>
    let* x := rd st t in
    match x with
    | None => let* z := rd st l in Ok (st, z)
    | Some y =>
      if negb (peqb e None) && peqb x e then
        let* n := rd_next (cells st) e in
        let* st := wr st l n in
        let* h := wr_next (cells st) e None in
        Ok (Sl h (shead st), e)
      else rem_loop fuel st e (NextOf y) t
    end
  end.
Definition sremove (st : slist) (e : ptr) : outcome (slist * ptr) :=
  rem_loop (fuel_of st) st e Head Head.

(* lines 145-153 *)
Fixpoint push_loop (fuel : nat) (st : slist) (t : place) : outcome slist :=
  match fuel with
  | O => UB OutOfFuel
  | S fuel =>
    let* x := rd st t in
    match x with
    | None => wr st t (shead st)
    | Some y => push_loop fuel st (NextOf y)
    end
  end.
Definition spush (st : slist) (e : ptr) : outcome (slist * ptr) :=
  match e with
  | None => Ok (st, None)
  | Some a => let* st := push_loop (fuel_of st) st (NextOf a) in Ok (Sl (cells st) e, e)
  end.

(* lines 155-160 *)
Definition spop (st : slist) : outcome (slist * ptr) :=
  let e := shead st in
  let* n := rd_next (cells st) e in
  let* h := wr_next (cells st) e None in
  Ok (Sl h n, e).

(* lines 162-164 *)
Definition sisempty (st : slist) : bool := peqb (shead st) None.

(* lines 166-172 *)
Fixpoint slen_loop (fuel : nat) (h : list (option ptr)) (t : ptr) (s : nat) : outcome nat :=
  match t with
  | None => Ok s
  | Some _ =>
    match fuel with
    | O => UB OutOfFuel
    | S fuel => let* n := rd_next h t in slen_loop fuel h n (S s)
    end
  end.
Definition slength (st : slist) : outcome nat := slen_loop (fuel_of st) (cells st) (shead st) 0.

(* lines 174-177; `delete` runs the empty destructor and frees the element *)
Definition sdelete (st : slist) (e : ptr) : outcome slist :=
  match e with
  | None => Ok st
  | Some a =>
    match nth_error (cells st) a with
    | Some (Some _) => let* h := aset (cells st) a None in Ok (Sl h (shead st))
    | _ => UB UseAfterFree
    end
  end.
Fixpoint sempty_loop (fuel : nat) (st : slist) : outcome slist :=
  if sisempty st then Ok st
  else
    match fuel with
    | O => UB OutOfFuel
    | S fuel =>
      let* (st, e) := spop st in
      let* st := sdelete st e in
      sempty_loop fuel st
    end.
Definition sempty (st : slist) : outcome slist := sempty_loop (fuel_of st) st.

(* lines 74-76: a new element in front of n *)
Definition snew_elem (st : slist) (n : ptr) : slist * nat :=
  (Sl (cells st ++ [Some n]) (shead st), length (cells st)).

(* ---- include/autodelete.h: arrays by number, dead or alive ---- *)
Record aheap : Set := AH { arrays : list bool; aptrs : list ptr }.   (* alive; the ptr of each object *)
Definition afree (l : list bool) (p : ptr) : outcome (list bool) :=
  match p with
  | None => Ok l
  | Some a => match nth_error l a with Some true => aset l a false | _ => UB UseAfterFree end
  end.
Inductive aop : Set :=
| ANew                     (* lines 44-46: an object around a new array *)
| AMoveNew (i : nat)       (* lines 51-54: a new object from object i *)
| AMove (i j : nat)        (* lines 56-60: object i = std::move(object j) *)
| ADrop.                   (* lines 47-49: the youngest object leaves its scope *)
Definition astep (s : aheap) (o : aop) : outcome aheap :=
  match o with
  | ANew => Ok (AH (arrays s ++ [true]) (aptrs s ++ [Some (length (arrays s))]))
  | AMoveNew i =>
    let* p := aget (aptrs s) i in
    Ok (AH (arrays s) (upd (aptrs s) i None ++ [p]))
  | AMove i j =>
    let* p := aget (aptrs s) j in
    let* l := aset (aptrs s) i p in
    let* l := aset l j None in
    Ok (AH (arrays s) l)
  | ADrop =>
    match rev (aptrs s) with
    | [] => UB OutOfBounds
    | p :: r => let* a := afree (arrays s) p in Ok (AH a (rev r))
    end
  end.
Fixpoint arun (s : aheap) (ops : list aop) : outcome aheap :=
  match ops with
  | [] => Ok s
  | o :: ops => let* s := astep s o in arun s ops
  end.
