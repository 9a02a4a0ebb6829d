(* Model of the two-level axis of include/axis.h: a top level axis<K1> (lines 264-332) and
   an axis<K2,K1> that depends on it (lines 110-254) and listens to its messages.

   Simplifications:
   - the trees `me` are those of AvlModel; the whole element is the key (ktree_avl<axis_key>,
     merged), so the value component is unit;
   - key comparison is a three-way function on each level (compare() or the operators,
     lines 239-250 and 318-327);
   - one dependent axis listens to the top level one; what both dispatch is recorded;
   - `unsigned` positions are integers; i-- followed by the i++ of the for loop (line 135)
     leaves i as it was, also when it wraps at 0. *)
From Coq Require Import List ZArith Bool Arith.
From Verif Require Import Base AvlModel.
Import ListNotations.
Local Open Scope Z_scope.

(* axis.h lines 99-101; the position that goes with `empty` is UINT_MAX and left out *)
Inductive amsg : Set := MAdd (p : Z) | MRemove (p : Z) | MEmpty.

Section Axis.
Context {K1 K2 : Type}.
Variable cmp1 : K1 -> K1 -> comparison.
Variable cmp2 : K2 -> K2 -> comparison.

(* axis.h lines 230-250: pi and key, ordered by both *)
Definition akey : Type := (Z * K2)%type.
Definition acmp (a b : akey) : comparison :=
  if fst a =? fst b then cmp2 (snd a) (snd b)
  else if fst a <? fst b then Lt else Gt.

Record axes : Type := Axes { par : tree_state K1 unit; chi : tree_state akey unit }.
Definition axes_new : axes := Axes tree_new tree_new.

(* tree.h lines 750-785 called as me.remove(a) where a refers to value[j]._v itself
   (axis.h line 134): the key is read from there at every comparison.  Otherwise the same
   as AvlModel.remove. *)
Fixpoint remove_ref (fuel : nat) (a : list (node akey unit)) (r : option nat) (j : nat)
  : outcome (list (node akey unit) * option nat * option nat) :=
  match fuel with
  | O => UB OutOfFuel
  | S fuel =>
    match r with
    | None => Ok (a, None, None)
    | Some i =>
      let* n := aget a i in
      let* k := aget a j in
      let finish (a : list (node akey unit)) (p : option nat) :=
        let* a := match p with Some _ => refresh a i | None => Ok a end in
        let* (a, r') := rebalance a (Some i) in
        Ok (a, r', p) in
      match acmp (nkey k) (nkey n) with
      | Eq =>
        match nright n with
        | None =>
          let* a := modify a i (fun n => set_left n None) in
          Ok (a, nleft n, Some i)
        | Some x0 =>
          let* x := leftmost (S (length a)) a x0 in
          let* a := swap_v true a i x in
          let* (a, x', p) := remove_ref fuel a (Some x0) j in
          let* a := modify a i (fun n => set_right n x') in
          finish a p
        end
      | Lt =>
        let* (a, l', p) := remove_ref fuel a (nleft n) j in
        let* a := modify a i (fun n => set_left n l') in
        finish a p
      | Gt =>
        let* (a, x', p) := remove_ref fuel a (nright n) j in
        let* a := modify a i (fun n => set_right n x') in
        finish a p
      end
    end
  end.
(* tree.h lines 670-680 *)
Definition remove_key_ref (t : tree_state akey unit) (j : nat) : outcome (tree_state akey unit) :=
  let* (a, r, p) := remove_ref (S (S (length (arr t)))) (arr t) (root t) j in
  match p with
  | None => Ok (Tree a r)
  | Some p => expunge (Tree a r) p
  end.

Definition set_pi (n : node akey unit) (pi : Z) : node akey unit := set_kv n (pi, snd (nkey n)) (nval n).

(* axis.h lines 123-127: the parent has got a new position p; n elements from i on are left *)
Fixpoint on_add (n : nat) (t : tree_state akey unit) (p : Z) (i : nat) : outcome (tree_state akey unit) :=
  match n with
  | O => Ok t
  | S n =>
    let* e := aget (arr t) i in
    let* a := if p <=? fst (nkey e) then aset (arr t) i (set_pi e (fst (nkey e) + 1)) else Ok (arr t) in
    on_add n (Tree a (root t)) p (S i)
  end.

(* axis.h lines 130-138, one round of the loop: None when it is over, else the tree, the
   next i and what is dispatched *)
Definition on_remove_round (t : tree_state akey unit) (p i : Z)
  : outcome (option (tree_state akey unit * Z * list amsg)) :=
  if i <? Z.of_nat (tree_length t) then
    let* x := getatorder_loop (S (length (arr t))) (arr t) (root t) 0 i in
    match x with
    | None => Throw OutOfRange
    | Some j =>
      let* e := aget (arr t) j in
      if fst (nkey e) =? p then
        let* t := remove_key_ref t j in
        Ok (Some (t, i, [MRemove i]))
      else if p <? fst (nkey e) then
        let* a := aset (arr t) j (set_pi e (fst (nkey e) - 1)) in
        Ok (Some (Tree a (root t), i + 1, []))
      else Ok (Some (t, i + 1, []))
    end
  else Ok None.
Fixpoint on_remove (fuel : nat) (t : tree_state akey unit) (p i : Z) (log : list amsg)
  : outcome (tree_state akey unit * list amsg) :=
  match fuel with
  | O => UB OutOfFuel
  | S fuel =>
    let* r := on_remove_round t p i in
    match r with
    | None => Ok (t, log)
    | Some (t, i, ms) => on_remove fuel t p i (log ++ ms)
    end
  end.

(* axis.h lines 303-305, 316-320, 312-314 *)
Definition p_haskey (x : axes) (k : K1) : outcome bool := haskey cmp1 (par x) k.
Definition p_getorderof (x : axes) (k : K1) : outcome Z :=
  let* b := p_haskey x k in
  if negb b then Throw RuntimeError else
  let* o := getorderof cmp1 (par x) k in
  match o with Some o => Ok o | None => Ok UINT_MAX end.
Definition p_at (x : axes) (i : Z) : outcome K1 :=
  if negb ((0 <=? i) && (i <? Z.of_nat (tree_length (par x)))) then Throw OutOfRange else
  let* j := getatorder_loop (S (length (arr (par x)))) (arr (par x)) (root (par x)) 0 i in
  match j with
  | Some j => let* n := aget (arr (par x)) j in Ok (nkey n)
  | None => Throw OutOfRange
  end.
(* axis.h lines 232-237 *)
Definition axis_key (x : axes) (c : K2) (k : K1) : outcome akey :=
  let* pi := p_getorderof x k in
  if pi =? UINT_MAX then Throw RuntimeError else Ok (pi, c).
(* axis.h lines 178-182 *)
Definition c_haskey (x : axes) (c : K2) (k : K1) : outcome bool :=
  let* b := p_haskey x k in
  if negb b then Ok false else
  let* a := axis_key x c k in
  haskey acmp (chi x) a.
(* axis.h lines 203-207 *)
Definition c_getorderof (x : axes) (c : K2) (k : K1) : outcome Z :=
  let* b := c_haskey x c k in
  if negb b then Throw RuntimeError else
  let* a := axis_key x c k in
  let* o := getorderof acmp (chi x) a in
  match o with Some o => Ok o | None => Ok UINT_MAX end.
(* axis.h lines 193-201 *)
Definition c_at (x : axes) (i : Z) : outcome (K2 * K1) :=
  if negb ((0 <=? i) && (i <? Z.of_nat (tree_length (chi x)))) then Throw OutOfRange else
  let* j := getatorder_loop (S (length (arr (chi x)))) (arr (chi x)) (root (chi x)) 0 i in
  match j with
  | Some j => let* n := aget (arr (chi x)) j in
              let* k := p_at x (fst (nkey n)) in
              Ok (snd (nkey n), k)
  | None => Throw OutOfRange
  end.

(* state, messages of the top level axis, messages of the dependent axis *)
Definition ares : Type := (axes * list amsg * list amsg)%type.
(* axis.h lines 280-286 *)
Definition p_add (x : axes) (k : K1) : outcome ares :=
  let* b := p_haskey x k in
  if b then Throw RuntimeError else
  let* t := add cmp1 true (par x) k tt in
  let* o := getorderof cmp1 t k in
  let p := match o with Some o => o | None => UINT_MAX end in
  let* c := on_add (tree_length (chi x)) (chi x) p 0 in
  Ok (Axes t c, [MAdd p], []).
(* axis.h lines 287-293 *)
Definition p_remove (fuel : nat) (x : axes) (k : K1) : outcome ares :=
  let* b := p_haskey x k in
  if negb b then Throw RuntimeError else
  let* o := getorderof cmp1 (par x) k in
  let p := match o with Some o => o | None => UINT_MAX end in
  let* (c, ms) := on_remove fuel (chi x) p 0 [] in
  let* t := remove_key cmp1 true (par x) k in
  Ok (Axes t c, [MRemove p], ms).
(* axis.h lines 321-324 with 139-142 *)
Definition p_empty (x : axes) : outcome ares := Ok (Axes tree_new tree_new, [MEmpty], [MEmpty]).
(* axis.h lines 155-163 *)
Definition c_add (x : axes) (c : K2) (k : K1) : outcome ares :=
  let* b := p_haskey x k in
  if negb b then Throw RuntimeError else
  let* b := c_haskey x c k in
  if b then Throw RuntimeError else
  let* a := axis_key x c k in
  let* t := add acmp true (chi x) a tt in
  let* o := getorderof acmp t a in
  let p := match o with Some o => o | None => UINT_MAX end in
  Ok (Axes (par x) t, [], [MAdd p]).
(* axis.h lines 164-170 *)
Definition c_remove (x : axes) (c : K2) (k : K1) : outcome ares :=
  let* b := c_haskey x c k in
  if negb b then Throw RuntimeError else
  let* a := axis_key x c k in
  let* o := getorderof acmp (chi x) a in
  let p := match o with Some o => o | None => UINT_MAX end in
  let* t := remove_key acmp true (chi x) a in
  Ok (Axes (par x) t, [], [MRemove p]).
(* axis.h lines 211-214 *)
Definition c_empty (x : axes) : outcome ares := Ok (Axes (par x) tree_new, [], [MEmpty]).

Inductive aop : Type :=
| PAdd (k : K1) | PRemove (k : K1) | PEmpty
| CAdd (c : K2) (k : K1) | CRemove (c : K2) (k : K1) | CEmpty.
Definition acall (fuel : nat) (x : axes) (o : aop) : outcome ares :=
  match o with
  | PAdd k => p_add x k
  | PRemove k => p_remove fuel x k
  | PEmpty => p_empty x
  | CAdd c k => c_add x c k
  | CRemove c k => c_remove x c k
  | CEmpty => c_empty x
  end.
(* None: the call threw; all of them do so before anything is changed *)
Definition aout : Type := option (list amsg * list amsg).
Definition astep (fuel : nat) (x : axes) (o : aop) : outcome (axes * aout) :=
  match acall fuel x o with
  | Ok (x', pm, cm) => Ok (x', Some (pm, cm))
  | Throw _ => Ok (x, None)
  | UB f => UB f
  end.
(* the loop of on_remove is granted one round per element of the dependent axis, and one more *)
Fixpoint arun (x : axes) (ops : list aop) : outcome (axes * list aout) :=
  match ops with
  | [] => Ok (x, [])
  | o :: ops =>
    let* (x, r) := astep (S (tree_length (chi x))) x o in
    let* (x, rs) := arun x ops in
    Ok (x, r :: rs)
  end.
End Axis.
Arguments axes : clear implicits.
Arguments aop : clear implicits.
