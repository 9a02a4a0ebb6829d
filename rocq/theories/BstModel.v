(* Model of the pointer based left-leaning red/black tree `BST` of include/tree.h (lines 60-246).

   Simplifications:
   - every node is pointed to by exactly one parent (or root), so a pointer is the tree below
     it and nullptr is Null; using nullptr is NullDeref;
   - `k == x` and `k < x` are read off one three-way comparison;
   - `order` is an exact integer (the code's is unsigned);
   - `new` succeeds;
   - the key of line 226 is passed by reference; it is that of a leaf, which nothing
     overwrites before it is deleted, so it is passed by value here;
   - the recursions take fuel (OutOfFuel if there is not enough); the theorems show that one
     more than the number of nodes is enough. *)
From Coq Require Import List ZArith Bool.
From Verif Require Import Base.
Import ListNotations.

Section Bst.
Context {K V : Type}.
Variable kcmp : K -> K -> comparison.

(* lines 107-120 *)
Inductive tree : Type :=
| Null : tree
| Node (red : bool) (order : Z) (left : tree) (key : K) (value : V) (right : tree) : tree.

Definition eqk (k k' : K) : bool := match kcmp k k' with Eq => true | _ => false end.
Definition ltk (k k' : K) : bool := match kcmp k k' with Lt => true | _ => false end.
(* x->red *)
Definition red_of (t : tree) : outcome bool := match t with Null => UB NullDeref | Node c _ _ _ _ _ => Ok c end.
(* x->left *)
Definition left_of (t : tree) : outcome tree := match t with Null => UB NullDeref | Node _ _ l _ _ _ => Ok l end.
Definition right_of (t : tree) : outcome tree := match t with Null => UB NullDeref | Node _ _ _ _ _ r => Ok r end.
Definition key_of (t : tree) : outcome K := match t with Null => UB NullDeref | Node _ _ _ k _ _ => Ok k end.
Definition set_red (b : bool) (t : tree) : outcome tree :=
  match t with Null => UB NullDeref | Node _ o l k v r => Ok (Node b o l k v r) end.
Definition set_left (x : tree) (t : tree) : outcome tree :=
  match t with Null => UB NullDeref | Node c o _ k v r => Ok (Node c o x k v r) end.
Definition set_right (x : tree) (t : tree) : outcome tree :=
  match t with Null => UB NullDeref | Node c o l k v _ => Ok (Node c o l k v x) end.
(* x != nullptr && x->red *)
Definition is_red (t : tree) : bool := match t with Null => false | Node c _ _ _ _ _ => c end.
Definition left_red (b : bool) (t : tree) : outcome tree :=
  let* l := left_of t in let* l := set_red b l in set_left l t.
Definition right_red (b : bool) (t : tree) : outcome tree :=
  let* r := right_of t in let* r := set_red b r in set_right r t.

(* lines 68-79 *)
Fixpoint get (t : tree) (k : K) : option V :=
  match t with
  | Null => None
  | Node _ _ l x v r => if eqk k x then Some v else if ltk k x then get l k else get r k
  end.

(* lines 153-159 *)
Definition rotL (h : tree) : outcome tree :=
  match h with
  | Null => UB NullDeref
  | Node c o l k v Null => UB NullDeref
  | Node c o l k v (Node c' o' l' k' v' r') => Ok (Node c' (o' + (o + 1))%Z (Node c o l k v l') k' v' r')
  end.
(* lines 160-166 *)
Definition rotR (h : tree) : outcome tree :=
  match h with
  | Null => UB NullDeref
  | Node c o Null k v r => UB NullDeref
  | Node c o (Node c' o' l' k' v' r') k v r => Ok (Node c' o' l' k' v' (Node c (o - (o' + 1))%Z r' k v r))
  end.
(* lines 167-172 *)
Definition leanLeft (h : tree) : outcome tree :=
  let* h := rotL h in
  let* l := left_of h in
  let* c := red_of l in
  let* h := set_red c h in
  left_red true h.
(* lines 173-178 *)
Definition leanRight (h : tree) : outcome tree :=
  let* h := rotR h in
  let* r := right_of h in
  let* c := red_of r in
  let* h := set_red c h in
  right_red true h.
(* lines 148-150 and 229-231 *)
Definition fixup (h : tree) : outcome tree :=
  let* r := right_of h in
  if is_red r then leanLeft h else Ok h.

(* lines 128-134 *)
Definition split4 (h : tree) : outcome tree :=
  let* l := left_of h in
  match l with
  | Null => Ok h
  | Node c _ ll _ _ _ =>
    if c && is_red ll then let* h := rotR h in left_red false h else Ok h
  end.
(* lines 122-151; the second result is *o *)
Fixpoint ins (fuel : nat) (h : tree) (k : K) (v : V) (o : bool) : outcome (tree * bool) :=
  match fuel with
  | O => UB OutOfFuel
  | S fuel =>
    match h with
    | Null => Ok (Node true 0 Null k v Null, true)
    | _ =>
      let* h := split4 h in
      match h with
      | Null => UB NullDeref
      | Node c n l x w r =>
        let* (h, o) :=
          if eqk k x then Ok (Node c n l x v r, o)
          else if ltk k x then
            let* (l, o) := ins fuel l k v o in
            Ok (Node c (if o : bool then n + 1 else n)%Z l x w r, o)
          else
            let* (r, o) := ins fuel r k v o in
            Ok (Node c n l x w r, o) in
        let* h := fixup h in
        Ok (h, o)
      end
    end
  end.
Fixpoint size (t : tree) : nat := match t with Null => 0 | Node _ _ l _ _ r => S (size l + size r) end.
(* lines 80-84 *)
Definition insert (t : tree) (k : K) (v : V) : outcome tree :=
  let* (t, _) := ins (S (size t)) t k v false in
  set_red false t.

(* lines 185-195: move a red link to the left *)
Definition move_left (h : tree) : outcome tree :=
  let* l := left_of h in
  let* c := red_of l in
  let* ll := left_of l in
  if negb c && negb (is_red ll) then
    let* h := set_red false h in
    let* h := left_red true h in
    let* r := right_of h in
    let* rl := left_of r in
    if is_red rl then
      let* r := rotR r in
      let* h := set_right r h in
      rotL h
    else right_red true h
  else Ok h.
(* lines 207-218 *)
Definition move_right (h : tree) : outcome tree :=
  let* r := right_of h in
  let* c := red_of r in
  let* rl := left_of r in
  if negb c && negb (is_red rl) then
    let* h := set_red false h in
    let* h := right_red true h in
    let* l := left_of h in
    let* ll := left_of l in
    if is_red ll then
      let* h := rotR h in
      let* h := set_red true h in
      left_red false h
    else left_red true h
  else Ok h.
(* lines 223-225: key and value of the first node *)
Fixpoint first (t : tree) (k : K) (v : V) : K * V :=
  match t with Null => (k, v) | Node _ _ l k v _ => first l k v end.
(* lines 179-233 *)
Fixpoint del (fuel : nat) (h : tree) (k : K) : outcome tree :=
  match fuel with
  | O => UB OutOfFuel
  | S fuel =>
    let* x := key_of h in
    if ltk k x then
      let* l := left_of h in
      match l with
      | Null => Ok h
      | _ =>
        let* h := move_left h in
        let* l := left_of h in
        let* l := del fuel l k in
        let* h := set_left l h in
        fixup h
      end
    else
      let* l := left_of h in
      let* h := if is_red l then leanRight h else Ok h in
      let* x := key_of h in
      let* r := right_of h in
      match r, eqk k x with
      | Null, true => Ok Null
      | _, _ =>
        let* h := move_right h in
        match h with
        | Null => UB NullDeref
        | Node c o l x v r =>
          let* h :=
            if eqk k x then
              match r with
              | Null => UB NullDeref
              | Node _ _ rl rk rv _ =>
                let '(mk, mv) := first rl rk rv in
                let* r := del fuel r mk in
                Ok (Node c o l mk mv r)
              end
            else
              let* r := del fuel r k in
              Ok (Node c o l x v r) in
          fixup h
        end
      end
  end.
(* lines 85-91 *)
Definition remove (t : tree) (k : K) : outcome tree :=
  match t with
  | Null => Ok Null
  | _ =>
    let* t := del (S (size t)) t k in
    match t with Null => Ok Null | _ => set_red false t end
  end.

(* a program *)
Inductive op : Type := Insert (k : K) (v : V) | Remove (k : K).
Fixpoint run (t : tree) (ops : list op) : outcome tree :=
  match ops with
  | [] => Ok t
  | Insert k v :: ops => let* t := insert t k v in run t ops
  | Remove k :: ops => let* t := remove t k in run t ops
  end.
End Bst.
Arguments tree : clear implicits.
Arguments op : clear implicits.
