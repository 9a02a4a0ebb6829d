(* Model of the doubly linked, owned list of include/list.h (listelement_d lines 186-227,
   list_double 235-336, listelement_o 344-398) and of the layer list kept with it by
   LEsystem (src/pavement.cpp lines 185-228).

   Simplifications:
   - memory is a list of cells, an address is an index into it; a deleted element leaves
     an empty cell, whose address is not given out again (C++ may reuse it, but the code
     keeps no copies of addresses);
   - `new` succeeds;
   - the members of an element besides the links are one payload. *)
From Coq Require Import List ZArith Bool Arith.
From Verif Require Import Base.
Import ListNotations.
Local Open Scope nat_scope.

Section Dll.
Context {P : Type}.

(* include/list.h lines 189-190 *)
Record elem : Type := Elem { eprev : option nat; enext : option nat; epay : P }.
(* include/list.h lines 238-239; the heap belongs to the whole program *)
Record owner : Type := Owner { heap : list (option elem); first : option nat; last : option nat }.
Definition onew : owner := Owner [] None None.

(* `x->...` *)
Definition load (h : list (option elem)) (o : option nat) : outcome elem :=
  match o with
  | None => UB NullDeref
  | Some a => match nth_error h a with
              | Some (Some e) => Ok e
              | _ => UB UseAfterFree
              end
  end.
Definition set_prev (h : list (option elem)) (o : option nat) (x : option nat) : outcome (list (option elem)) :=
  let* e := load h o in
  match o with Some a => aset h a (Some (Elem x (enext e) (epay e))) | None => UB NullDeref end.
Definition set_next (h : list (option elem)) (o : option nat) (x : option nat) : outcome (list (option elem)) :=
  let* e := load h o in
  match o with Some a => aset h a (Some (Elem (eprev e) x (epay e))) | None => UB NullDeref end.

Definition same_ptr (x y : option nat) : bool :=
  match x, y with
  | Some a, Some b => a =? b
  | None, None => true
  | _, _ => false
  end.
Definition is_null (x : option nat) : bool := match x with None => true | Some _ => false end.

(* include/list.h lines 194-212: the constructor of the element links it in; this is the
   address of the new element *)
Definition link_d (h : list (option elem)) (this : nat) (p n : option nat) : outcome (list (option elem)) :=
  if negb (is_null n) then
    let* en := load h n in
    let* h :=
      match eprev en with
      | Some q =>
        if negb (is_null p) && negb (same_ptr p (Some q)) then Throw RuntimeError
        else
          let* h := set_prev h (Some this) (Some q) in
          set_next h (Some q) (Some this)
      | None => if negb (is_null p) then Throw RuntimeError else Ok h
      end in
    set_prev h n (Some this)
  else if negb (is_null p) then
    let* ep := load h p in
    let* h :=
      match enext ep with
      | Some x =>
        let* h := set_next h (Some this) (Some x) in
        set_prev h (Some x) (Some this)
      | None => Ok h
      end in
    set_next h p (Some this)
  else Ok h.

(* include/list.h lines 352-370 (the owner is not null) *)
Definition link_o (st : owner) (this : nat) : outcome owner :=
  let* e := load (heap st) (Some this) in
  let* h :=
    if is_null (eprev e) && is_null (enext e) then
      let* h := set_prev (heap st) (Some this) (last st) in
      if negb (is_null (last st)) then set_next h (last st) (Some this) else Ok h
    else Ok (heap st) in
  let st := Owner h (first st) (last st) in
  let* e := load (heap st) (Some this) in
  let* st :=
    if is_null (eprev e) then
      if negb (same_ptr (first st) (enext e)) then Throw RuntimeError
      else Ok (Owner (heap st) (Some this) (last st))
    else Ok st in
  if is_null (enext e) then
    if negb (same_ptr (last st) (eprev e)) then Throw RuntimeError
    else Ok (Owner (heap st) (first st) (Some this))
  else Ok st.
Definition new_elem (st : owner) (p n : option nat) (x : P) : outcome owner :=
  let this := length (heap st) in
  let* h := link_d (heap st ++ [Some (Elem p n x)]) this p n in
  link_o (Owner h (first st) (last st)) this.

(* include/list.h lines 378-385 and then 219-224 (base class), and the storage is freed *)
Definition delete_elem (st : owner) (o : option nat) : outcome owner :=
  match o with
  | None => Ok st
  | Some a =>
    let* e := load (heap st) o in
    let st := if is_null (eprev e) then Owner (heap st) (enext e) (last st) else st in
    let st := if is_null (enext e) then Owner (heap st) (first st) (eprev e) else st in
    let* h := if is_null (eprev e) then Ok (heap st) else set_next (heap st) (eprev e) (enext e) in
    let* h := if is_null (enext e) then Ok h else set_prev h (enext e) (eprev e) in
    let* h := aset h a None in
    Ok (Owner h (first st) (last st))
  end.

(* include/list.h lines 324-330 *)
Fixpoint olength_loop (fuel : nat) (h : list (option elem)) (t : option nat) : outcome nat :=
  match t with
  | None => Ok 0
  | Some _ =>
    match fuel with
    | O => UB OutOfFuel
    | S fuel => let* e := load h t in let* n := olength_loop fuel h (enext e) in Ok (S n)
    end
  end.
Definition olength (st : owner) : outcome nat := olength_loop (length (heap st)) (heap st) (first st).
(* include/list.h lines 332-335 *)
Fixpoint oempty_loop (fuel : nat) (st : owner) : outcome owner :=
  match first st with
  | None => Ok st
  | Some _ =>
    match fuel with
    | O => UB OutOfFuel
    | S fuel => let* st := delete_elem st (first st) in oempty_loop fuel st
    end
  end.

(* src/pavement.cpp lines 194-196: while (i++ < p && pl->next != nullptr) pl = pl->next; n
   is what is left of p - i *)
Fixpoint walk_inside (n : nat) (h : list (option elem)) (pl : option nat) : outcome (option nat) :=
  match n with
  | O => Ok pl
  | S n =>
    let* e := load h pl in
    if is_null (enext e) then Ok pl else walk_inside n h (enext e)
  end.
(* src/pavement.cpp lines 185-198; None is p == UINT_MAX *)
Definition addlayer (st : owner) (x : P) (p : option nat) : outcome owner :=
  let* pl := match p with
             | None => Ok None
             | Some p => if is_null (first st) then Ok None else walk_inside p (heap st) (first st)
             end in
  new_elem st (if is_null pl then last st else None) pl x.
(* src/pavement.cpp lines 205-207: while (i++ < l && pl != nullptr) pl = pl->next *)
Fixpoint walk_out (n : nat) (h : list (option elem)) (pl : option nat) : outcome (option nat) :=
  match n with
  | O => Ok pl
  | S n => if is_null pl then Ok None else let* e := load h pl in walk_out n h (enext e)
  end.
(* src/pavement.cpp lines 200-210 *)
Definition removelayer (st : owner) (l : nat) : outcome owner :=
  let* pl := walk_out l (heap st) (first st) in
  delete_elem st pl.
(* src/pavement.cpp lines 212-217 *)
Definition removelayers (st : owner) : outcome owner := oempty_loop (length (heap st)) st.
(* src/pavement.cpp lines 219-228 *)
Definition layer (st : owner) (l : nat) : outcome P :=
  let* pl := walk_inside l (heap st) (first st) in
  let* e := load (heap st) pl in Ok (epay e).

(* Walking over all elements along next or along prev, as the loops of
   src/pavement.cpp do (e.g. line 338). *)
Fixpoint trace (dir : elem -> option nat) (fuel : nat) (h : list (option elem)) (t : option nat) : outcome (list P) :=
  match t with
  | None => Ok []
  | Some _ =>
    match fuel with
    | O => UB OutOfFuel
    | S fuel => let* e := load h t in let* l := trace dir fuel h (dir e) in Ok (epay e :: l)
    end
  end.
Definition forward (st : owner) : outcome (list P) := trace enext (length (heap st)) (heap st) (first st).
Definition backward (st : owner) : outcome (list P) := trace eprev (length (heap st)) (heap st) (last st).

Inductive lop : Type := LAdd (x : P) (p : option nat) | LRemove (l : nat) | LEmpty.
Definition lstep (st : owner) (o : lop) : outcome owner :=
  match o with
  | LAdd x p => addlayer st x p
  | LRemove l => removelayer st l
  | LEmpty => removelayers st
  end.
Fixpoint lrun (st : owner) (ops : list lop) : outcome owner :=
  match ops with
  | [] => Ok st
  | o :: ops => let* st := lstep st o in lrun st ops
  end.
End Dll.
Arguments elem : clear implicits.
Arguments owner : clear implicits.
Arguments lop : clear implicits.
