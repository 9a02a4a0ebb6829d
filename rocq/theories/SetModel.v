(* Model of the array containers of include/set.h: the sizing rule of class `set`
   (lines 80-133), the fixed set `fset` (lines 141-249) and the sizeable set `sset`
   (lines 286-378).

   Simplifications:
   - unsigned values are integers in [0,2^32); wrap-around is written out (u32) where
     the code computes a sum or product;
   - memory is a list of cells, [Raw] (never constructed or destroyed) or [Live v];
     `buffer` is the length of that list: the code updates `value` and `buffer`
     together (lines 216-219, 222-231);
   - realloc succeeds, keeps the common prefix, and the source of an insertion is not
     part of the container itself;
   - [prim] tells whether V is one of int, unsigned, float, double, for which
     init(i,nullptr) does nothing (lines 254-277) and the destructor is trivial. *)
From Coq Require Import List ZArith Bool Arith.
From Verif Require Import Base.
Import ListNotations.
Open Scope Z_scope.

(* include/set.h lines 122-128, with the wrap of `8*block` and `block *= 8`.  The
   result is (new block, buffer size). *)
Fixpoint grow_block (fuel : nat) (s block : Z) : outcome Z :=
  match fuel with
  | O => UB OutOfFuel
  | S fuel =>
    if u32 (8 * block) <? s then grow_block fuel s (u32 (block * 8)) else Ok block
  end.
Definition bufsize_fuel (fuel : nat) (block s : Z) : outcome (Z * Z) :=
  let* block := grow_block fuel s block in
  if block =? 0 then UB DivByZero
  else Ok (block, u32 (block * (s / block + (if s mod block =? 0 then 0 else 1)))).
(* The block grows eightfold per round, so sixteen rounds exceed any 32-bit value. *)
Definition bufsize (block s : Z) : outcome (Z * Z) := bufsize_fuel 16 block s.

Section Sset.
Context {V : Type}.
Variable dflt : V.     (* what the default constructor V() makes *)
Variable prim : bool.

Inductive cell : Type := Raw | Live (v : V).

(* lines 95-97, 130-131, 195 *)
Record sset : Type := SSet { size : Z; block : Z; value : list cell }.
Definition buffer (st : sset) : Z := Z.of_nat (length (value st)).

Definition set_size (st : sset) (s : Z) := SSet s (block st) (value st).
Definition set_value (st : sset) (m : list cell) := SSet (size st) (block st) m.

Definition zget (m : list cell) (i : Z) : outcome cell :=
  if i <? 0 then UB OutOfBounds else aget m (Z.to_nat i).
Definition zset (m : list cell) (i : Z) (c : cell) : outcome (list cell) :=
  if i <? 0 then UB OutOfBounds else aset m (Z.to_nat i) c.

(* Destructor call on one slot: destroying a slot that holds no object is undefined
   unless the destructor is trivial. *)
Definition destroy (m : list cell) (i : Z) : outcome (list cell) :=
  let* c := zget m i in
  match c with
  | Live _ => zset m i (if prim then c else Raw)
  | Raw => if prim then Ok m else UB Uninit
  end.
(* for (i = from; i < to; i++) value[i].~V() *)
Fixpoint destroy_range (fuel : nat) (m : list cell) (from to : Z) : outcome (list cell) :=
  if from <? to then
    match fuel with
    | O => UB OutOfFuel
    | S fuel => let* m := destroy m from in destroy_range fuel m (from + 1) to
    end
  else Ok m.

(* lines 222-231 *)
Definition deallocate (st : sset) : outcome sset :=
  let* _ := destroy_range (S (length (value st))) (value st) 0 (size st) in
  Ok (SSet 0 (block st) []).

(* realloc(value, b*sizeof(V)) *)
Definition realloc (m : list cell) (b : Z) : list cell :=
  firstn (Z.to_nat b) m ++ repeat Raw (Z.to_nat b - length m).

(* lines 208-221 *)
Definition allocate (st : sset) (s : Z) : outcome sset :=
  let* (blk, b) := bufsize (block st) s in
  let st := SSet (size st) blk (value st) in
  if b =? buffer st then Ok st
  else if s =? 0 then deallocate st
  else Ok (set_value st (realloc (value st) b)).

(* lines 232-237, 254-277 *)
Definition init (m : list cell) (i : Z) (v : option V) : outcome (list cell) :=
  match v with
  | Some v => zset m i (Live v)
  | None =>
    if prim then let* _ := zget m i in Ok m else zset m i (Live dflt)
  end.

(* Where new elements come from: an array, or the null pointer with a count. *)
Inductive source : Type := Array (vs : list V) | Default (s : Z).
Definition count (src : source) : Z :=
  match src with Array vs => Z.of_nat (length vs) | Default s => s end.
Definition nth_source (src : source) (i : nat) : outcome (option V) :=
  match src with
  | Array vs => let* v := aget vs i in Ok (Some v)
  | Default _ => Ok None
  end.

(* for (i = from; i < to; i++) init(i,nullptr) *)
Fixpoint init_range (fuel : nat) (m : list cell) (from to : Z) : outcome (list cell) :=
  if from <? to then
    match fuel with
    | O => UB OutOfFuel
    | S fuel => let* m := init m from None in init_range fuel m (from + 1) to
    end
  else Ok m.

(* for (i = 0; i < s; i++) init(p+i, v ? &v[i] : nullptr) *)
Fixpoint fill (fuel : nat) (m : list cell) (p : Z) (src : source) (i : nat) : outcome (list cell) :=
  if Z.of_nat i <? count src then
    match fuel with
    | O => UB OutOfFuel
    | S fuel =>
      let* v := nth_source src i in
      let* m := init m (p + Z.of_nat i) v in
      fill fuel m p src (S i)
    end
  else Ok m.

(* memmove(&value[dst],&value[src],n*sizeof(V)) *)
Definition memmove (m : list cell) (dst src n : Z) : outcome (list cell) :=
  if (dst + n <=? Z.of_nat (length m)) && (src + n <=? Z.of_nat (length m)) && (0 <=? n) then
    let d := Z.to_nat dst in
    let chunk := firstn (Z.to_nat n) (skipn (Z.to_nat src) m) in
    Ok (firstn d m ++ chunk ++ skipn (d + length chunk) m)
  else UB OutOfBounds.

(* lines 338-355; all other add overloads (lines 319-337) call this one with p = size
   or with one element *)
Definition add (st : sset) (p : Z) (src : source) : outcome sset :=
  let s := count src in
  if s =? 0 then Throw InvalidArgument
  else if size st <=? p then
    let* st := allocate st (u32 (p + s)) in
    let* m := if 0 <? p then init_range (S (length (value st))) (value st) (size st) (p - 1)
              else Ok (value st) in
    let st := SSet (u32 (p + s)) (block st) m in
    let* m := fill (S (length (value st))) (value st) p src 0 in
    Ok (set_value st m)
  else
    let* st := allocate st (u32 (size st + s)) in
    let* m := memmove (value st) (u32 (p + s)) p (size st - p) in
    let st := SSet (u32 (size st + s)) (block st) m in
    let* m := fill (S (length (value st))) (value st) p src 0 in
    Ok (set_value st m).

(* lines 361-374 *)
Definition remove (st : sset) (p s : Z) : outcome sset :=
  if negb (p <? size st) then Throw OutOfRange
  else if s =? 0 then Throw InvalidArgument
  else
    let s := if size st <? u32 (p + s) then size st - p else s in
    let* m := destroy_range (S (length (value st))) (value st) p (p + s) in
    let* m := if s <? u32 (size st - p) then memmove m p (p + s) (size st - p - s) else Ok m in
    let st := SSet (u32 (size st - s)) (block st) m in
    allocate st (size st).
(* lines 357-359 *)
Definition remove_last (st : sset) : outcome sset := remove st (u32 (size st - 1)) 1.
(* lines 375-377 *)
Definition empty (st : sset) : outcome sset := deallocate st.

(* lines 238-241 *)
Definition copy (st : sset) (src : source) : outcome sset :=
  let* m := fill (S (length (value st))) (value st) (size st) src 0 in
  Ok (SSet (size st + count src) (block st) m).

(* lines 243-246 and 290-292: the empty set; DFLT_BLK is set.h line 58 *)
Definition new (blk : Z) : sset := SSet 0 (if 1 <? blk then blk else 1) [].

(* lines 173-178 *)
Definition resize (st : sset) (s : Z) : outcome sset :=
  let* st := deallocate st in
  let* st := allocate st s in
  copy st (Default s).

(* The elements [0,n) of a set, as an array that can be read. *)
Fixpoint read_cells (m : list cell) (n : nat) {struct n} : outcome (list V) :=
  match n with
  | O => Ok []
  | S n =>
    match m with
    | [] => UB OutOfBounds
    | Raw :: _ => UB Uninit
    | Live v :: m => let* l := read_cells m n in Ok (v :: l)
    end
  end.

(* lines 167-172 for two different objects *)
Definition assign (st other : sset) : outcome sset :=
  let* st := deallocate st in
  let* st := allocate st (size other) in
  let* vs := read_cells (value other) (Z.to_nat (size other)) in
  copy st (Array vs).
(* lines 167-172 for `x = x`: the argument is read after deallocate() *)
Definition assign_self (st : sset) : outcome sset :=
  let* st := deallocate st in
  let* st := allocate st (size st) in
  let* vs := read_cells (value st) (Z.to_nat (size st)) in
  copy st (Array vs).

(* lines 180-186, reading one element *)
Definition at_ (st : sset) (p : Z) : outcome V :=
  if negb (p <? size st) then UB OutOfBounds else
  let* c := zget (value st) p in
  match c with Live v => Ok v | Raw => UB Uninit end.

(* The calls a user can make. *)
Inductive op : Type :=
| AddAt (p : Z) (src : source)
| AddEnd (src : source)
| RemoveAt (p s : Z)
| RemoveLast
| Empty
| Resize (s : Z).
Definition step (st : sset) (o : op) : outcome sset :=
  match o with
  | AddAt p src => add st p src
  | AddEnd src => add st (size st) src
  | RemoveAt p s => remove st p s
  | RemoveLast => remove_last st
  | Empty => empty st
  | Resize s => resize st s
  end.
(* A call that throws does so before it changes anything, so the caller goes on with
   the old set. *)
Fixpoint run (st : sset) (ops : list op) : outcome (sset * list (option exn)) :=
  match ops with
  | [] => Ok (st, [])
  | o :: ops =>
    match step st o with
    | Ok st' => let* (st', es) := run st' ops in Ok (st', None :: es)
    | Throw e => let* (st', es) := run st ops in Ok (st', Some e :: es)
    | UB f => UB f
    end
  end.

End Sset.
Arguments cell : clear implicits.
Arguments sset : clear implicits.
Arguments source : clear implicits.
Arguments op : clear implicits.
