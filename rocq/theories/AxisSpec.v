(* Specification of a pair of axes, without trees: two sorted lists. *)
From Coq Require Import List ZArith Bool.
From Verif Require Import AxisModel.
Import ListNotations.
Local Open Scope Z_scope.

Section Ordered.
Context {K : Type}.
Variable kcmp : K -> K -> comparison.
Definition is_eq (x y : K) : bool := match kcmp x y with Eq => true | _ => false end.
Definition is_lt (x y : K) : bool := match kcmp x y with Lt => true | _ => false end.
Definition member (k : K) (l : list K) : bool := existsb (is_eq k) l.
(* number of smaller elements: the position of k in a sorted list *)
Definition position (k : K) (l : list K) : Z := Z.of_nat (length (filter (fun x => is_lt x k) l)).
(* k put in its place *)
Fixpoint insert (k : K) (l : list K) : list K :=
  match l with
  | [] => [k]
  | x :: l => if is_lt k x then k :: x :: l else x :: insert k l
  end.
Definition delete (k : K) (l : list K) : list K := filter (fun x => negb (is_eq k x)) l.
End Ordered.

Section Spec.
Context {K1 K2 : Type}.
Variable cmp1 : K1 -> K1 -> comparison.
Variable cmp2 : K2 -> K2 -> comparison.
(* entries of the dependent axis: (key, parent key), ordered by parent key, then key *)
Definition ecmp (a b : K2 * K1) : comparison :=
  match cmp1 (snd a) (snd b) with
  | Eq => cmp2 (fst a) (fst b)
  | c => c
  end.
Record sax : Type := Sax { parents : list K1; entries : list (K2 * K1) }.
Definition sax_new : sax := Sax [] [].
Definition child_of (k : K1) (e : K2 * K1) : bool := is_eq cmp1 k (snd e).
(* messages sent when the entries of a parent position disappear one after the other *)
Definition removals (k : K1) (es : list (K2 * K1)) : list amsg :=
  map (fun _ => MRemove (Z.of_nat (length (filter (fun e => is_lt cmp1 (snd e) k) es)))) (filter (child_of k) es).

Definition sax_step (s : sax) (o : aop K1 K2) : sax * @aout :=
  match o with
  | PAdd k =>
    if member cmp1 k (parents s) then (s, None)
    else (Sax (insert cmp1 k (parents s)) (entries s), Some ([MAdd (position cmp1 k (parents s))], []))
  | PRemove k =>
    if member cmp1 k (parents s)
    then (Sax (delete cmp1 k (parents s)) (filter (fun e => negb (child_of k e)) (entries s)),
          Some ([MRemove (position cmp1 k (parents s))], removals k (entries s)))
    else (s, None)
  | PEmpty => (Sax [] [], Some ([MEmpty], [MEmpty]))
  | CAdd c k =>
    if negb (member cmp1 k (parents s)) || member ecmp (c, k) (entries s) then (s, None)
    else (Sax (parents s) (insert ecmp (c, k) (entries s)), Some ([], [MAdd (position ecmp (c, k) (entries s))]))
  | CRemove c k =>
    if member ecmp (c, k) (entries s)
    then (Sax (parents s) (delete ecmp (c, k) (entries s)), Some ([], [MRemove (position ecmp (c, k) (entries s))]))
    else (s, None)
  | CEmpty => (Sax (parents s) [], Some ([], [MEmpty]))
  end.
Fixpoint sax_run (s : sax) (ops : list (aop K1 K2)) : sax * list aout :=
  match ops with
  | [] => (s, [])
  | o :: ops =>
    let (s, r) := sax_step s o in
    let (s, rs) := sax_run s ops in (s, r :: rs)
  end.
End Spec.
Arguments sax : clear implicits.
