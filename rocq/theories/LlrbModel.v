(* Model of the left-leaning red/black tree `ktree_llrb` of include/tree.h (lines
   869-1147).

   Simplifications:
   - links are [option nat]; [None] is UINT_MAX;
   - `value[0..size)` is the list [larr]; buffer growth (lines 989-1004) is not
     modelled here (see SetModel for the shared sizing rule);
   - `order` is an exact integer (the theorems show that it is always the size of
     the left subtree, so the unsigned subtraction of line 1019 never wraps);
   - a reference parameter `unsigned & r` is passed by value and handed back as a
     result stored by the caller; nothing reads the referenced link in between;
   - V contains its key K (the code casts V to K), so overwriting `_v` replaces both;
   - the private member `remove` (lines 1049-1134) is not modelled: it cannot be
     instantiated (it applies -> to unsigned operands) and nothing calls it. *)
From Coq Require Import List ZArith Bool Arith.
From Verif Require Import Base.
Import ListNotations.
Open Scope Z_scope.

Section Llrb.
Context {K V : Type}.
Variable kcmp : K -> K -> comparison.

(* tree.h lines 971-986 *)
Record lnode : Type := LNode {
  lkey : K;
  lval : V;
  lorder : Z;
  lleft : option nat;
  lright : option nat;
  lred : bool
}.
(* tree.h lines 967-970 *)
Record llrb_state : Type := Llrb { larr : list lnode; lroot : option nat }.

Definition lset_left (o : option nat) (n : lnode) := LNode (lkey n) (lval n) (lorder n) o (lright n) (lred n).
Definition lset_right (o : option nat) (n : lnode) := LNode (lkey n) (lval n) (lorder n) (lleft n) o (lred n).
Definition lset_order (x : Z) (n : lnode) := LNode (lkey n) (lval n) x (lleft n) (lright n) (lred n).
Definition lset_red (b : bool) (n : lnode) := LNode (lkey n) (lval n) (lorder n) (lleft n) (lright n) b.
Definition lset_kv (k : K) (v : V) (n : lnode) := LNode k v (lorder n) (lleft n) (lright n) (lred n).

Definition lmodify (a : list lnode) (i : nat) (f : lnode -> lnode) : outcome (list lnode) :=
  let* n := aget a i in aset a i (f n).

(* `value[x]` through a link: UINT_MAX is out of bounds. *)
Definition lderef (o : option nat) : outcome nat :=
  match o with Some i => Ok i | None => UB OutOfBounds end.

(* tree.h lines 887-889 *)
Definition llrb_new : llrb_state := Llrb [] None.
(* tree.h lines 896-898 *)
Definition llrb_length (t : llrb_state) : nat := length (larr t).

(* `x != UINT_MAX && value[x].red` *)
Definition link_red (a : list lnode) (o : option nat) : outcome bool :=
  match o with
  | None => Ok false
  | Some x => let* n := aget a x in Ok (lred n)
  end.

(* tree.h lines 1014-1024: split double reds on the way down; returns the new r. *)
Definition split (a : list lnode) (r : nat) : outcome (list lnode * nat) :=
  let* n := aget a r in
  match lleft n with
  | None => Ok (a, r)
  | Some x =>
    let* nx := aget a x in
    if lred nx then
      let* dbl := link_red a (lleft nx) in
      if dbl then
        let* a := lmodify a r (lset_left (lright nx)) in
        let* a := lmodify a x (lset_right (Some r)) in
        let* mx := aget a x in
        let* a := lmodify a r (fun n => lset_order (lorder n - (lorder mx + 1)) n) in
        let* mx := aget a x in
        let* y := lderef (lleft mx) in
        let* a := lmodify a y (lset_red false) in
        Ok (a, x)
      else Ok (a, r)
    else Ok (a, r)
  end.

(* tree.h lines 1038-1046: lean left on the way up; returns the new r. *)
Definition lean (a : list lnode) (r : nat) : outcome (list lnode * nat) :=
  let* n := aget a r in
  match lright n with
  | None => Ok (a, r)
  | Some x =>
    let* nx := aget a x in
    if lred nx then
      let* a := lmodify a r (lset_right (lleft nx)) in
      let* a := lmodify a x (lset_left (Some r)) in
      let* n := aget a r in
      let* a := lmodify a x (fun m => lset_order (lorder m + (lorder n + 1)) m) in
      let* mx := aget a x in
      let* y := lderef (lleft mx) in
      let* ny := aget a y in
      let* a := lmodify a x (lset_red (lred ny)) in
      let* a := lmodify a y (lset_red true) in
      Ok (a, x)
    else Ok (a, r)
  end.

(* tree.h lines 1005-1048; the result is (value, r, grew).  [grew] is false on entry
   of every call, since it is only set when the recursion ends. *)
Fixpoint lappend (fuel : nat) (a : list lnode) (o : option nat) (k : K) (v : V)
  : outcome (list lnode * nat * bool) :=
  match fuel with
  | O => UB OutOfFuel
  | S fuel =>
    match o with
    | None => Ok (a ++ [LNode k v 0 None None true], length a, true)
    | Some r =>
      let* (a, r) := split a r in
      let* n := aget a r in
      match kcmp k (lkey n) with
      | Eq =>
        let* a := lmodify a r (lset_kv k v) in Ok (a, r, false)
      | Lt =>
        let* (a, l, grew) := lappend fuel a (lleft n) k v in
        let* a := lmodify a r (lset_left (Some l)) in
        let* a := if grew : bool then lmodify a r (fun n => lset_order (lorder n + 1) n) else Ok a in
        let* (a, r) := lean a r in Ok (a, r, grew)
      | Gt =>
        let* (a, l, grew) := lappend fuel a (lright n) k v in
        let* a := lmodify a r (lset_right (Some l)) in
        let* (a, r) := lean a r in Ok (a, r, grew)
      end
    end
  end.

(* tree.h lines 949-956 *)
Definition ladd (st : llrb_state) (k : K) (v : V) : outcome llrb_state :=
  let* (a, r, _) := lappend (S (length (larr st))) (larr st) (lroot st) k v in
  let* a := lmodify a r (lset_red false) in
  Ok (Llrb a (Some r)).

(* tree.h lines 900-912 *)
Fixpoint lhaskey_loop (fuel : nat) (a : list lnode) (x : option nat) (k : K) : outcome (option nat) :=
  match fuel with
  | O => UB OutOfFuel
  | S fuel =>
    match x with
    | None => Ok None
    | Some i =>
      let* n := aget a i in
      match kcmp k (lkey n) with
      | Eq => Ok (Some i)
      | Lt => lhaskey_loop fuel a (lleft n) k
      | Gt => lhaskey_loop fuel a (lright n) k
      end
    end
  end.
Definition lhaskey (st : llrb_state) (k : K) : outcome (option nat) :=
  lhaskey_loop (S (length (larr st))) (larr st) (lroot st) k.

(* tree.h lines 914-916, with unchecked index *)
Definition lgetat (st : llrb_state) (p : nat) : outcome V :=
  let* n := aget (larr st) p in Ok (lval n).

(* tree.h lines 918-931; the final `value[x]` with x = UINT_MAX is out of bounds *)
Fixpoint lgetindex_loop (fuel : nat) (a : list lnode) (x : option nat) (order i : Z) : outcome V :=
  match fuel with
  | O => UB OutOfFuel
  | S fuel =>
    match x with
    | None => UB OutOfBounds
    | Some j =>
      let* n := aget a j in
      if i =? order + lorder n then Ok (lval n)
      else if i <? order + lorder n then lgetindex_loop fuel a (lleft n) order i
      else lgetindex_loop fuel a (lright n) (order + (lorder n + 1)) i
    end
  end.
Definition lgetindex (st : llrb_state) (i : Z) : outcome V :=
  lgetindex_loop (S (length (larr st))) (larr st) (lroot st) 0 i.

(* tree.h lines 933-948 *)
Fixpoint lgetorder_loop (fuel : nat) (a : list lnode) (x : option nat) (order : Z) (k : K) : outcome Z :=
  match fuel with
  | O => UB OutOfFuel
  | S fuel =>
    match x with
    | None => Ok order
    | Some j =>
      let* n := aget a j in
      match kcmp k (lkey n) with
      | Eq => Ok (order + lorder n)
      | Lt => lgetorder_loop fuel a (lleft n) order k
      | Gt => lgetorder_loop fuel a (lright n) (order + (lorder n + 1)) k
      end
    end
  end.
Definition lgetorder (st : llrb_state) (p : nat) : outcome Z :=
  let* n := aget (larr st) p in
  lgetorder_loop (S (length (larr st))) (larr st) (lroot st) 0 (lkey n).

Fixpoint lrun (st : llrb_state) (ops : list (K * V)) : outcome llrb_state :=
  match ops with
  | [] => Ok st
  | (k, v) :: ops => let* st := ladd st k v in lrun st ops
  end.

End Llrb.
Arguments lnode : clear implicits.
Arguments llrb_state : clear implicits.
