(* Model of the index-based trees of include/tree.h: the storage base class `tree`
   (lines 259-576) and the AVL tree `ktree_avl` (lines 587-867).

   Simplifications, common to the whole file:
   - links are [option nat]; [None] is the value UINT_MAX the code uses for "no
     node" (so sizes are below UINT_MAX);
   - `value[0..size)` is the list [arr]; the unused rest of the buffer and its
     growth (`allocate`) are not modelled here (see BufModel for bufsize);
   - weight is an exact integer (the code's unsigned arithmetic is exact modulo
     2^32 and all true weights are below 2^32);
   - a reference parameter `unsigned & r` is passed by value and handed back as a
     result, which the caller stores at once: nothing reads the referenced link
     in between;
   - the three-way comparison of keys is a function to [comparison]; the call
     `value[x].compare(k)` of the code is the reversed one, i.e. `k` compared
     with the key of node x (tree.h lines 450-459). *)
From Coq Require Import List ZArith Lia Bool Arith.
From Verif Require Import Base.
Import ListNotations.
Open Scope Z_scope.

Section Avl.
Context {K V : Type}.
Variable kcmp : K -> K -> comparison.
(* [merged] is the trait merged_v<K,V> of include/meta.h: the key is part of (or is
   convertible from) the value and is not stored separately (tree.h lines 366-428).
   In the merged case the field [nkey] is the key inside the value, so that every
   operation on `_v` moves it too. *)
Variable merged : bool.

(* tree.h lines 360-366 (_node_base), 367-428 (_node_val), 706-708 (height). *)
Record node : Type := Node {
  nkey : K;
  nval : V;
  nleft : option nat;
  nright : option nat;
  nweight : Z;
  nheight : Z
}.

(* tree.h lines 353-358: value[0..size) and root. *)
Record tree_state : Type := Tree {
  arr : list node;
  root : option nat
}.

Definition set_left (n : node) (l : option nat) :=
  Node (nkey n) (nval n) l (nright n) (nweight n) (nheight n).
Definition set_right (n : node) (r : option nat) :=
  Node (nkey n) (nval n) (nleft n) r (nweight n) (nheight n).
Definition set_weight (n : node) (w : Z) :=
  Node (nkey n) (nval n) (nleft n) (nright n) w (nheight n).
Definition set_height (n : node) (h : Z) :=
  Node (nkey n) (nval n) (nleft n) (nright n) (nweight n) h.
Definition set_kv (n : node) (k : K) (v : V) :=
  Node k v (nleft n) (nright n) (nweight n) (nheight n).

(* Access through a link: `value[x]` with x = UINT_MAX is out of bounds. *)
Definition deref (o : option nat) : outcome nat :=
  match o with Some i => Ok i | None => UB OutOfBounds end.

(* tree.h lines 263-265, an empty tree: lines 354-357 *)
Definition tree_new : tree_state := Tree [] None.
Definition tree_length (t : tree_state) : nat := length (arr t).

(* tree.h lines 544-546 *)
Definition weight (a : list node) (r : option nat) : outcome Z :=
  match r with
  | None => Ok 0
  | Some i => let* n := aget a i in Ok (nweight n)
  end.
(* tree.h lines 548-550 *)
Definition order (a : list node) (r : option nat) : outcome Z :=
  match r with
  | None => Ok 0
  | Some i => let* n := aget a i in weight a (nleft n)
  end.
(* tree.h lines 552-554 *)
Definition new_weight (a : list node) (i : nat) : outcome Z :=
  let* n := aget a i in
  let* wl := weight a (nleft n) in
  let* wr := weight a (nright n) in
  Ok (wl + wr + 1).

(* tree.h lines 710-712 *)
Definition height (a : list node) (r : option nat) : outcome Z :=
  match r with
  | None => Ok 0
  | Some i => let* n := aget a i in Ok (nheight n)
  end.
(* tree.h lines 713-715 *)
Definition balance (a : list node) (i : nat) : outcome Z :=
  let* n := aget a i in
  let* hr := height a (nright n) in
  let* hl := height a (nleft n) in
  Ok (hr - hl).
(* tree.h lines 716-718 *)
Definition new_height (a : list node) (i : nat) : outcome Z :=
  let* n := aget a i in
  let* hl := height a (nleft n) in
  let* hr := height a (nright n) in
  Ok (Z.max hl hr + 1).

(* `value[i].f = ...` *)
Definition modify (a : list node) (i : nat) (f : node -> node) : outcome (list node) :=
  let* n := aget a i in aset a i (f n).

(* tree.h lines 812-821; r is the index of the node rotated; returns the new
   content of the link. *)
Definition rotate_left (a : list node) (r : nat) : outcome (list node * nat) :=
  let* n := aget a r in
  let* x := deref (nright n) in
  let* nx := aget a x in
  let* a := modify a r (fun n => set_right n (nleft nx)) in
  let* wx := weight a (Some x) in
  let* wxl := weight a (nleft nx) in
  let* a := modify a r (fun n => set_weight n (nweight n - (wx - wxl))) in
  let* h := new_height a r in
  let* a := modify a r (fun n => set_height n h) in
  let* wr := weight a (Some r) in
  let* wxl := weight a (nleft nx) in
  let* a := modify a x (fun n => set_weight n (nweight n + (wr - wxl))) in
  let* a := modify a x (fun n => set_left n (Some r)) in
  let* h := new_height a x in
  let* a := modify a x (fun n => set_height n h) in
  Ok (a, x).

(* tree.h lines 822-831 *)
Definition rotate_right (a : list node) (r : nat) : outcome (list node * nat) :=
  let* n := aget a r in
  let* x := deref (nleft n) in
  let* nx := aget a x in
  let* a := modify a r (fun n => set_left n (nright nx)) in
  let* wx := weight a (Some x) in
  let* wxr := weight a (nright nx) in
  let* a := modify a r (fun n => set_weight n (nweight n - (wx - wxr))) in
  let* h := new_height a r in
  let* a := modify a r (fun n => set_height n h) in
  let* wr := weight a (Some r) in
  let* wxr := weight a (nright nx) in
  let* a := modify a x (fun n => set_weight n (nweight n + (wr - wxr))) in
  let* a := modify a x (fun n => set_right n (Some r)) in
  let* h := new_height a x in
  let* a := modify a x (fun n => set_height n h) in
  Ok (a, x).

(* tree.h lines 786-811 (the TEST_TREES assertions left out) *)
Definition rebalance (a : list node) (r : option nat)
  : outcome (list node * option nat) :=
  match r with
  | None => Ok (a, None)
  | Some i =>
    let* n := aget a i in
    if nheight n <? 2 then Ok (a, Some i) else
    let* b := balance a i in
    if b <? -1 then
      let* l := deref (nleft n) in
      let* bl := balance a l in
      let* a :=
        (if bl >? 0 then
           let* (a, l') := rotate_left a l in
           modify a i (fun n => set_left n (Some l'))
         else Ok a) in
      let* (a, i') := rotate_right a i in
      Ok (a, Some i')
    else if b >? 1 then
      let* x := deref (nright n) in
      let* br := balance a x in
      let* a :=
        (if br <? 0 then
           let* (a, x') := rotate_right a x in
           modify a i (fun n => set_right n (Some x'))
         else Ok a) in
      let* (a, i') := rotate_left a i in
      Ok (a, Some i')
    else Ok (a, Some i)
  end.

(* The update `value[r].weight = new_weight(r); value[r].height = new_height(r);`
   of tree.h lines 740-743 and 776-779. *)
Definition refresh (a : list node) (i : nat) : outcome (list node) :=
  let* w := new_weight a i in
  let* a := modify a i (fun n => set_weight n w) in
  let* h := new_height a i in
  modify a i (fun n => set_height n h).

(* tree.h lines 722-749.  The result is (array, new link, *p). The condition
   `*p != UINT_MAX` of line 740 is the test on the returned option. *)
Fixpoint append (fuel : nat) (a : list node) (r : option nat) (k : K) (v : V)
  : outcome (list node * option nat * option nat) :=
  match fuel with
  | O => UB OutOfFuel
  | S fuel =>
    match r with
    | None =>
      (* insert, lines 518-525 *)
      let i := length a in
      Ok (a ++ [Node k v None None 1 1], Some i, Some i)
    | Some i =>
      let* n := aget a i in
      match kcmp k (nkey n) with
      | Eq =>
        let* a := modify a i (fun n => set_kv n (if merged then k else nkey n) v) in
        Ok (a, Some i, Some i)
      | Lt =>
        let* (a, l', p) := append fuel a (nleft n) k v in
        let* a := modify a i (fun n => set_left n l') in
        let* a := match p with Some _ => refresh a i | None => Ok a end in
        let* (a, r') := rebalance a (Some i) in
        Ok (a, r', p)
      | Gt =>
        let* (a, x', p) := append fuel a (nright n) k v in
        let* a := modify a i (fun n => set_right n x') in
        let* a := match p with Some _ => refresh a i | None => Ok a end in
        let* (a, r') := rebalance a (Some i) in
        Ok (a, r', p)
      end
    end
  end.

(* The loop of tree.h lines 764-766. *)
Fixpoint leftmost (fuel : nat) (a : list node) (x : nat) : outcome nat :=
  match fuel with
  | O => UB OutOfFuel
  | S fuel =>
    let* n := aget a x in
    match nleft n with
    | None => Ok x
    | Some l => leftmost fuel a l
    end
  end.

(* `swap(value[r]._v,value[x]._v)`, tree.h line 767.  The key moves with the value
   only if it is merged into it. *)
Definition swap_v (a : list node) (r x : nat) : outcome (list node) :=
  let* nr := aget a r in
  let* nx := aget a x in
  let* a := modify a r (fun n => set_kv n (if merged then nkey nx else nkey n) (nval nx)) in
  modify a x (fun n => set_kv n (if merged then nkey nr else nkey n) (nval nr)).

(* tree.h lines 750-785; the result is (array, new link, *p). *)
Fixpoint remove (fuel : nat) (a : list node) (r : option nat) (k : K)
  : outcome (list node * option nat * option nat) :=
  match fuel with
  | O => UB OutOfFuel
  | S fuel =>
    match r with
    | None => Ok (a, None, None)
    | Some i =>
      let* n := aget a i in
      let finish (a : list node) (p : option nat) :=
        let* a := match p with Some _ => refresh a i | None => Ok a end in
        let* (a, r') := rebalance a (Some i) in
        Ok (a, r', p) in
      match kcmp k (nkey n) with
      | Eq =>
        match nright n with
        | None =>
          let* a := modify a i (fun n => set_left n None) in
          Ok (a, nleft n, Some i)
        | Some x0 =>
          let* x := leftmost (S (length a)) a x0 in
          let* a := swap_v a i x in
          let* (a, x', p) := remove fuel a (Some x0) k in
          let* a := modify a i (fun n => set_right n x') in
          finish a p
        end
      | Lt =>
        let* (a, l', p) := remove fuel a (nleft n) k in
        let* a := modify a i (fun n => set_left n l') in
        finish a p
      | Gt =>
        let* (a, x', p) := remove fuel a (nright n) k in
        let* a := modify a i (fun n => set_right n x') in
        finish a p
      end
    end
  end.

(* The renumbering of one link in tree.h lines 534-541. *)
Definition relink (p : nat) (o : option nat) : option nat :=
  match o with
  | Some i => Some (if (p <? i)%nat then (i - 1)%nat else i)
  | None => None
  end.

(* tree.h lines 526-542 *)
Definition expunge (t : tree_state) (p : nat) : outcome tree_state :=
  if (p <? length (arr t))%nat then
    let a := firstn p (arr t) ++ skipn (S p) (arr t) in
    Ok (Tree (map (fun n => set_right (set_left n (relink p (nleft n)))
                                      (relink p (nright n))) a)
             (relink p (root t)))
  else UB OutOfBounds.

(* tree.h lines 629-668: add(v) and add(k,v) *)
Definition add (t : tree_state) (k : K) (v : V) : outcome tree_state :=
  let* (a, r, _) := append (S (S (length (arr t)))) (arr t) (root t) k v in
  Ok (Tree a r).

(* tree.h lines 670-680 *)
Definition remove_key (t : tree_state) (k : K) : outcome tree_state :=
  let* (a, r, p) := remove (S (S (length (arr t)))) (arr t) (root t) k in
  match p with
  | None => Ok (Tree a r)
  | Some p => expunge (Tree a r) p
  end.

(* tree.h lines 295-307 *)
Fixpoint getposition_loop (fuel : nat) (a : list node) (x : option nat) (k : K)
  : outcome (option nat) :=
  match fuel with
  | O => UB OutOfFuel
  | S fuel =>
    match x with
    | None => Ok None
    | Some i =>
      let* n := aget a i in
      match kcmp k (nkey n) with
      | Eq => Ok (Some i)
      | Lt => getposition_loop fuel a (nleft n) k
      | Gt => getposition_loop fuel a (nright n) k
      end
    end
  end.
Definition getposition (t : tree_state) (k : K) : outcome (option nat) :=
  getposition_loop (S (length (arr t))) (arr t) (root t) k.

(* tree.h lines 271-273 *)
Definition haskey (t : tree_state) (k : K) : outcome bool :=
  let* p := getposition t k in
  Ok (match p with Some _ => true | None => false end).

(* tree.h lines 275-279 and 284-288: the element stored at a position *)
Definition getkey (t : tree_state) (p : nat) : outcome K :=
  match nth_error (arr t) p with
  | Some n => Ok (nkey n)
  | None => Throw OutOfRange
  end.
Definition getatposition (t : tree_state) (p : nat) : outcome V :=
  match nth_error (arr t) p with
  | Some n => Ok (nval n)
  | None => Throw OutOfRange
  end.

(* tree.h lines 308-310: the position UINT_MAX is out of range. *)
Definition get (t : tree_state) (k : K) : outcome V :=
  let* p := getposition t k in
  match p with
  | Some p => getatposition t p
  | None => Throw OutOfRange
  end.

(* tree.h lines 315-330; returns the position of the node found *)
Fixpoint getatorder_loop (fuel : nat) (a : list node) (x : option nat) (o i : Z)
  : outcome (option nat) :=
  match fuel with
  | O => UB OutOfFuel
  | S fuel =>
    match x with
    | None => Ok None
    | Some j =>
      let* ord := order a (Some j) in
      let* n := aget a j in
      if i =? o + ord then Ok (Some j)
      else if i <? o + ord then getatorder_loop fuel a (nleft n) o i
      else getatorder_loop fuel a (nright n) (o + (ord + 1)) i
    end
  end.
Definition getatorder (t : tree_state) (i : Z) : outcome V :=
  let* x := getatorder_loop (S (length (arr t))) (arr t) (root t) 0 i in
  match x with
  | Some j => let* n := aget (arr t) j in Ok (nval n)
  | None => Throw OutOfRange
  end.

(* tree.h lines 332-349; None is UINT_MAX *)
Fixpoint getorderof_loop (fuel : nat) (a : list node) (x : option nat) (o : Z) (k : K)
  : outcome (option Z) :=
  match fuel with
  | O => UB OutOfFuel
  | S fuel =>
    match x with
    | None => Ok None
    | Some j =>
      let* n := aget a j in
      let* ord := order a (Some j) in
      match kcmp k (nkey n) with
      | Eq => Ok (Some (o + ord))
      | Lt => getorderof_loop fuel a (nleft n) o k
      | Gt => getorderof_loop fuel a (nright n) (o + (ord + 1)) k
      end
    end
  end.
Definition getorderof (t : tree_state) (k : K) : outcome (option Z) :=
  getorderof_loop (S (length (arr t))) (arr t) (root t) 0 k.

(* The public mutators as one operation type, to state properties of histories. *)
Inductive op : Type :=
| Add (k : K) (v : V)
| Remove (k : K).

Definition step (t : tree_state) (o : op) : outcome tree_state :=
  match o with
  | Add k v => add t k v
  | Remove k => remove_key t k
  end.

Fixpoint run (t : tree_state) (ops : list op) : outcome tree_state :=
  match ops with
  | [] => Ok t
  | o :: ops => let* t := step t o in run t ops
  end.

End Avl.

Arguments node : clear implicits.
Arguments tree_state : clear implicits.
Arguments op : clear implicits.
