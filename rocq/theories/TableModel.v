(* Model of the n-dimensional table of include/table.h (lines 72-276).

   Simplifications:
   - the axes only tell the table, through axis_message events, that position p was
     added to or removed from dimension d, or that the axis was emptied (lines 146-161);
   - indices are natural numbers: the model is meant for tables whose cell count stays
     below the limit of bufsize (2^29), for which no unsigned product wraps;
   - a cell is Some value or None (no object there, or unspecified bits); memmove moves
     objects, so a source cell that is not overwritten holds no object afterwards;
   - the parameter v of add() is always nullptr in the code (lines 150, 244) and is dropped;
   - realloc succeeds. *)
From Coq Require Import List ZArith Bool Arith.
From Verif Require Import Base SetModel.
Import ListNotations.
Local Open Scope nat_scope.

Section Table.
Context {V : Type}.
(* Some d: V has a default constructor making d.  None: V is POD and a new cell keeps
   whatever bits are there (lines 223-238). *)
Variable ctor : option V.

(* lines 119-136; sizes[0] belongs to the last template argument *)
Record table : Type := Tab { sizes : list nat; blklen : Z; buf : list (option V) }.

Definition prod (l : list nat) : nat := fold_right Nat.mul 1 l.
(* lines 109-114 *)
Definition tlength (szs : list nat) (d : nat) : nat := prod (firstn d szs).
(* lines 184-189 *)
Definition tstep (szs : list nat) (d : nat) : nat := prod (skipn (S d) szs).
(* lines 165-172; sizes and indices in argument order, i.e. sizes reversed *)
Fixpoint make_index (p : nat) (szs is : list nat) : nat :=
  match szs, is with
  | s :: szs, i :: is => make_index (p * s + i) szs is
  | _, _ => p
  end.

(* lines 195-217, growing and shrinking the buffer; freeing it destroys the cells *)
Definition destroy_all (szs : list nat) (m : list (option V)) : outcome unit :=
  match ctor with
  | None => Ok tt
  | Some _ => if forallb (fun c => match c with Some _ => true | None => false end)
                         (firstn (tlength szs (length szs)) m)
                 && (tlength szs (length szs) <=? length m)
              then Ok tt else UB Uninit
  end.
Definition allocate (st : table) (s : nat) : outcome table :=
  let* (blk, b) := bufsize (blklen st) (Z.of_nat s) in
  let b := Z.to_nat b in
  if b =? length (buf st) then Ok (Tab (sizes st) blk (buf st))
  else if b =? 0 then
    let* _ := destroy_all (sizes st) (buf st) in
    Ok (Tab (sizes st) blk [])
  else Ok (Tab (sizes st) blk (firstn b (buf st) ++ repeat None (b - length (buf st)))).
(* lines 218-222 *)
Definition tempty (st : table) : outcome table :=
  let* st := allocate st 0 in
  Ok (Tab (repeat 0 (length (sizes st))) (blklen st) (buf st)).

Definition overwrite {A} (m : list A) (k : nat) (xs : list A) : list A :=
  firstn k m ++ xs ++ skipn (k + length xs) m.
Definition memmove (m : list (option V)) (to from n : nat) : outcome (list (option V)) :=
  if n =? 0 then Ok m
  else if (from + n <=? length m) && (to + n <=? length m) then
    Ok (overwrite (overwrite m from (repeat None n)) to (firstn n (skipn from m)))
  else UB OutOfBounds.
(* lines 223-238 with v == nullptr, for n cells from k *)
Definition initelems (m : list (option V)) (k n : nat) : outcome (list (option V)) :=
  if k + n <=? length m then
    Ok (match ctor with None => m | Some d => overwrite m k (repeat (Some d) n) end)
  else if n =? 0 then Ok m else UB OutOfBounds.
(* lines 270-271: destructor calls on n cells from k *)
Definition destroy (m : list (option V)) (k n : nat) : outcome (list (option V)) :=
  if k + n <=? length m then
    match ctor with
    | None => Ok m
    | Some _ => if forallb (fun c => match c with Some _ => true | None => false end) (firstn n (skipn k m))
                then Ok (overwrite m k (repeat None n)) else UB Uninit
    end
  else if n =? 0 then Ok m else UB OutOfBounds.

(* lines 251-258 *)
Fixpoint add_loop (i : nat) (m : list (option V)) (bs os ss p : nat) : outcome (list (option V)) :=
  match i with
  | O => Ok m
  | S i' =>
    let ob := (i' * os + p) * bs in
    let nb := (i' * (os + 1) + p + 1) * bs in
    let ln := if i =? ss then os - p else os in
    let* m := memmove m nb ob (ln * bs) in
    let* m := initelems m (nb - bs) bs in
    add_loop i' m bs os ss p
  end.
(* lines 244-259 *)
Definition add (st : table) (d p : nat) : outcome table :=
  let bs := tlength (sizes st) d in
  let ss := tstep (sizes st) d in
  let* os := aget (sizes st) d in
  let szs := upd (sizes st) d (S os) in
  let* st := allocate (Tab szs (blklen st) (buf st)) (tlength szs (length szs)) in
  let* m := add_loop ss (buf st) bs os ss p in
  Ok (Tab szs (blklen st) m).

(* lines 266-273: rounds i .. ss-1 *)
Fixpoint remove_loop (n i : nat) (m : list (option V)) (bs os ss p : nat) : outcome (list (option V)) :=
  match n with
  | O => Ok m
  | S n =>
    let ob := (i * os + p + 1) * bs in
    let nb := (i * (os - 1) + p) * bs in
    let ln := if i =? ss - 1 then os - p - 1 else os in
    let* m := destroy m nb bs in
    let* m := memmove m nb ob (ln * bs) in
    remove_loop n (S i) m bs os ss p
  end.
(* lines 261-275 *)
Definition remove (st : table) (d p : nat) : outcome table :=
  let bs := tlength (sizes st) d in
  let ss := tstep (sizes st) d in
  let* os := aget (sizes st) d in
  let szs := upd (sizes st) d (os - 1) in
  let* m := remove_loop ss 0 (buf st) bs os ss p in
  allocate (Tab szs (blklen st) m) (tlength szs (length szs)).

(* lines 75-80 with DFLT_BLK = 64: nothing is constructed *)
Definition tnew (szs : list nat) : outcome table :=
  allocate (Tab szs 64 []) (prod szs).

(* lines 95-100, indices in argument order *)
Definition tget (st : table) (is : list nat) : outcome (option V) :=
  aget (buf st) (make_index 0 (rev (sizes st)) is).
Definition tset (st : table) (is : list nat) (v : V) : outcome table :=
  let* m := aset (buf st) (make_index 0 (rev (sizes st)) is) (Some v) in
  Ok (Tab (sizes st) (blklen st) m).

Inductive top : Type := TAdd (d p : nat) | TRemove (d p : nat) | TSet (is : list nat) (v : V).
Definition trun1 (st : table) (o : top) : outcome table :=
  match o with
  | TAdd d p => add st d p
  | TRemove d p => remove st d p
  | TSet is v => tset st is v
  end.
Fixpoint trun (st : table) (ops : list top) : outcome table :=
  match ops with
  | [] => Ok st
  | o :: ops => let* st := trun1 st o in trun st ops
  end.
End Table.
Arguments table : clear implicits.
Arguments top : clear implicits.
