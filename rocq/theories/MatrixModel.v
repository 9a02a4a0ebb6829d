(* Model of include/matrix.h and include/tmatrix.h: dense matrices, the matrices that are
   expressions to be evaluated later, and the expression templates.
   The elements are numbers of an ordered field.  A matrix is its dimensions and a list with its
   elements, row by row. *)
From Coq Require Import List Lia Bool Arith.
From Verif Require Import Base LinBase.
Import ListNotations.

Section Matrix.
Context {K : ofield}.
Local Open Scope lin_scope.

(* what a const T & may refer to: a number elsewhere, or an element of the matrix that is
   being changed *)
Inductive scal : Type := Val (d : K) | Elem (p : nat).
Definition sval (l : list K) (s : scal) : outcome K := match s with Val d => Ok d | Elem p => aget l p end.

(* ================= tmatrix.h ================= *)

(* lines 323-334: data[r][c] of a T[M][N] *)
Definition tget (N : nat) (l : list K) (r c : nat) : outcome K :=
  if c <? N then aget l (r * N + c) else UB OutOfBounds.
Definition tset (N : nat) (l : list K) (r c : nat) (x : K) : outcome (list K) :=
  if c <? N then aset l (r * N + c) x else UB OutOfBounds.

(* lines 56-147, meta_assign<I,J>: f is the new value of an element, computed with the matrix
   as it is then; the six pairs of functions differ in f only *)
Fixpoint assignR (N : nat) (f : list K -> nat -> nat -> outcome K) (i j : nat) (l : list K) : outcome (list K) :=
  match j with
  | O => Ok l
  | S j' =>
    let* l := assignR N f i j' l in
    let* x := f l (i - 1)%nat j' in
    tset N l (i - 1) j' x
  end.
Fixpoint assign (N : nat) (f : list K -> nat -> nat -> outcome K) (i j : nat) (l : list K) : outcome (list K) :=
  match i with
  | O => Ok l
  | S i' =>
    let* l := assign N f i' j l in
    assignR N f (S i') j l
  end.
(* the loops with NO_METAPROGS *)
Definition assign_loop (M N : nat) (f : list K -> nat -> nat -> outcome K) (l : list K) : outcome (list K) :=
  for_up 0 M (fun i l => for_up 0 N (fun j l =>
    let* x := f l i j in tset N l i j x) l) l.

(* the expression templates; each holds copies of its parts (const E m_e) *)
Inductive expr : Type :=
| Mat (M N : nat) (l : list K)            (* tmatrix<T,M,N> *)
| Trans (e : expr)                        (* 377-400 *)
| Neg (e : expr)                          (* 402-426 *)
| AddD (e : expr) (d : K)                 (* 428-478; matrix - d is AddD with -d *)
| SubD (e : expr) (d : K)                 (* 480-505 *)
| MulD (e : expr) (d : K)                 (* 507-545 *)
| DivD (e : expr) (d : K)                 (* 547-573 *)
| DDiv (e : expr) (d : K)                 (* 575-601 *)
| Add (e1 e2 : expr)                      (* 603-641 *)
| Sub (e1 e2 : expr)                      (* 643-681 *)
| Prod (e1 e2 : expr)                     (* 703-745 *)
| Diag (e : expr).                        (* 747-769 *)

(* the M and N of the tmatrix or tmatrix_expr, where the operators take the operands: their
   sizes are template parameters.  Lines 568-573, the division of an expression by a number,
   declare another type of result than they return and can not be compiled. *)
Fixpoint shape (e : expr) : option (nat * nat) :=
  match e with
  | Mat M N _ => Some (M, N)
  | Trans e => match shape e with Some (M, N) => Some (N, M) | None => None end
  | Neg e | AddD e _ | SubD e _ | MulD e _ | DDiv e _ => shape e
  | DivD (Mat M N _) _ => Some (M, N)
  | DivD _ _ => None
  | Add e1 e2 | Sub e1 e2 =>
    match shape e1, shape e2 with
    | Some (M, N), Some (M', N') => if (M =? M') && (N =? N') then Some (M, N) else None
    | _, _ => None
    end
  | Prod e1 e2 =>
    match shape e1, shape e2 with
    | Some (M, L), Some (L', N) => if L =? L' then Some (M, N) else None
    | _, _ => None
    end
  | Diag e => match shape e with Some (M, N) => if M =? N then Some (N, 1) else None | None => None end
  end.
Definition ncols (e : expr) : nat := match shape e with Some (_, N) => N | None => 0 end.

(* lines 683-701, meta_multiply<T,k>::prod *)
Fixpoint meta_prod (f g : nat -> nat -> outcome K) (k i j : nat) : outcome K :=
  match k with
  | O =>
    let* x := f i 0 in
    let* y := g 0 j in
    Ok (x * y)
  | S k' =>
    let* x := f i k in
    let* y := g k j in
    let* z := meta_prod f g k' i j in
    Ok (x * y + z)
  end.
(* lines 708-711 with NO_METAPROGS *)
Definition loop_prod (f g : nat -> nat -> outcome K) (n i j : nat) : outcome K :=
  for_up 0 n (fun k m =>
    let* x := f i k in
    let* y := g k j in
    Ok (m + x * y)) f0.
(* operator () of the expressions; meta is whether NO_METAPROGS is not defined.  With no columns
   the recursion of meta_multiply would start from -1; there are no such matrices. *)
Fixpoint ev (meta : bool) (e : expr) (i j : nat) : outcome K :=
  match e with
  | Mat M N l => tget N l i j
  | Trans e => ev meta e j i
  | Neg e => let* x := ev meta e i j in Ok (- x)
  | AddD e d => let* x := ev meta e i j in Ok (x + d)
  | SubD e d => let* x := ev meta e i j in Ok (d - x)
  | MulD e d => let* x := ev meta e i j in Ok (d * x)
  | DivD e d => let* r := divc f1 d in let* x := ev meta e i j in Ok (x * r)
  | DDiv e d => let* x := ev meta e i j in divc d x
  | Add e1 e2 => let* x := ev meta e1 i j in let* y := ev meta e2 i j in Ok (x + y)
  | Sub e1 e2 => let* x := ev meta e1 i j in let* y := ev meta e2 i j in Ok (x - y)
  | Prod e1 e2 =>
    match ncols e1 with
    | O => UB OutOfFuel
    | S k => if meta then meta_prod (ev meta e1) (ev meta e2) k i j else loop_prod (ev meta e1) (ev meta e2) (S k) i j
    end
  | Diag e => ev meta e i i
  end.
(* lines 161-163 and 326-328: element i of all *)
Definition ev1 (meta : bool) (N : nat) (e : expr) (i : nat) : outcome K := ev meta e (i / N)%nat (i mod N)%nat.

Definition run (meta : bool) (M N : nat) (f : list K -> nat -> nat -> outcome K) (l : list K) : outcome (list K) :=
  if meta then assign N f M N l else assign_loop M N f l.
(* lines 192-201 and 223-233: a matrix made from, or set to, an expression *)
Definition set_expr (meta : bool) (M N : nat) (l : list K) (e : expr) : outcome (list K) :=
  run meta M N (fun _ i j => ev meta e i j) l.
(* lines 244-254 and 275-285 *)
Definition add_expr (meta : bool) (M N : nat) (l : list K) (e : expr) : outcome (list K) :=
  run meta M N (fun l i j => let* y := ev meta e i j in let* x := tget N l i j in Ok (x + y)) l.
Definition sub_expr (meta : bool) (M N : nat) (l : list K) (e : expr) : outcome (list K) :=
  run meta M N (fun l i j => let* y := ev meta e i j in let* x := tget N l i j in Ok (x - y)) l.
(* lines 185-191, 205-212, 234-243 and 265-274: the argument may be the matrix itself (None) *)
Definition from (N : nat) (src : option (list K)) (l : list K) (i j : nat) : outcome K :=
  match src with None => tget N l i j | Some a => tget N a i j end.
Definition set_mat (M N : nat) (l : list K) (src : option (list K)) : outcome (list K) :=
  run true M N (fun l i j => from N src l i j) l.
Definition add_mat (meta : bool) (M N : nat) (l : list K) (src : option (list K)) : outcome (list K) :=
  run meta M N (fun l i j => let* y := from N src l i j in let* x := tget N l i j in Ok (x + y)) l.
Definition sub_mat (meta : bool) (M N : nat) (l : list K) (src : option (list K)) : outcome (list K) :=
  run meta M N (fun l i j => let* y := from N src l i j in let* x := tget N l i j in Ok (x - y)) l.
(* lines 177-181 *)
Definition fill (M N : nat) (l : list K) (d : K) (eye : bool) : outcome (list K) :=
  run false M N (fun _ i j => Ok (if negb eye || (i =? j) then d else f0)) l.
(* lines 213-222 *)
Definition set_d (meta : bool) (M N : nat) (l : list K) (s : scal) : outcome (list K) :=
  run meta M N (fun l i j => sval l s) l.
(* lines 255-264 *)
Definition add_d (meta : bool) (M N : nat) (l : list K) (s : scal) : outcome (list K) :=
  run meta M N (fun l i j => let* d := sval l s in let* x := tget N l i j in Ok (x + d)) l.
(* lines 286-295: -d is a new number, d is not *)
Definition sub_d (meta : bool) (M N : nat) (l : list K) (s : scal) : outcome (list K) :=
  if meta then let* d := sval l s in add_d true M N l (Val (- d))
  else run false M N (fun l i j => let* d := sval l s in let* x := tget N l i j in Ok (x - d)) l.
(* lines 296-305 *)
Definition mul_d (meta : bool) (M N : nat) (l : list K) (s : scal) : outcome (list K) :=
  run meta M N (fun l i j => let* d := sval l s in let* x := tget N l i j in Ok (x * d)) l.
(* lines 306-316 *)
Definition div_d (meta : bool) (M N : nat) (l : list K) (s : scal) : outcome (list K) :=
  let* d := sval l s in
  let* t := divc f1 d in
  run meta M N (fun l i j => let* x := tget N l i j in Ok (x * t)) l.
(* lines 355-374: a number from a 1x1 expression *)
Definition to_scalar (meta : bool) (e : expr) : outcome K := ev meta e 0 0.

(* ================= matrix.h ================= *)

Record dense : Type := { dm : nat; dn : nat; dd : list K }.
(* data[i*N+j]: the array is flat, so a column out of range may be found in another row *)
Definition dget (a : dense) (i j : nat) : outcome K := aget (dd a) (i * dn a + j).
(* lines 200-219: a new matrix, filled; raw is what is in the new memory.  The memset and the
   loops before the last overwrite all of it, and are overwritten. *)
Definition new_fill (m n : nat) (raw : list K) (d : K) (mkdiag : bool) : outcome dense :=
  let* l := for_up 0 m (fun i l => for_up 0 n (fun j l =>
    aset l (i * n + j) (if negb mkdiag || (i =? j) then d else f0)) l) raw in
  Ok {| dm := m; dn := n; dd := l |}.
(* t(i,j) = f(i,j) for all elements of a new m x n matrix *)
Definition new_by (m n : nat) (raw : list K) (f : nat -> nat -> outcome K) : outcome dense :=
  let* l := for_up 0 m (fun i l => for_up 0 n (fun j l =>
    let* x := f i j in aset l (i * n + j) x) l) raw in
  Ok {| dm := m; dn := n; dd := l |}.
(* lines 243-247 *)
Definition dense_addd (a : dense) (s : scal) : outcome dense :=
  let* l := for_up 0 (dm a * dn a) (fun i l =>
    let* d := sval l s in
    if feqb d f0 then Ok l else let* x := aget l i in aset l i (x + d)) (dd a) in
  Ok {| dm := dm a; dn := dn a; dd := l |}.
(* lines 248-259; None is the matrix itself.  Lines 249 and 255 assert that the sizes are equal. *)
Definition other (l : list K) (b : option dense) (i : nat) : outcome K :=
  match b with None => aget l i | Some b => aget (dd b) i end.
Definition dense_acc (op : K -> K -> K) (a : dense) (b : option dense) : outcome dense :=
  let* l := for_up 0 (dm a * dn a) (fun i l =>
    let* y := other l b i in
    let* x := aget l i in aset l i (op x y)) (dd a) in
  Ok {| dm := dm a; dn := dn a; dd := l |}.
(* lines 260-268; the memset is a loop here *)
Definition dense_muld (a : dense) (s : scal) : outcome dense :=
  let* d := sval (dd a) s in
  let* l := if feqb d f0
    then for_up 0 (dm a * dn a) (fun i l => aset l i f0) (dd a)
    else for_up 0 (dm a * dn a) (fun i l =>
      let* d := sval l s in let* x := aget l i in aset l i (x * d)) (dd a) in
  Ok {| dm := dm a; dn := dn a; dd := l |}.
(* lines 303-310 and 312-319 *)
Definition dense_trans (a : dense) (raw : list K) : outcome dense := new_by (dn a) (dm a) raw (fun i j => dget a j i).
Definition dense_neg (a : dense) (raw : list K) : outcome dense :=
  new_by (dm a) (dn a) raw (fun i j => let* x := dget a i j in Ok (- x)).
(* lines 321-369; t is a copy *)
Definition dense_plus (a : dense) (d : K) : outcome dense := dense_addd a (Val d).
Definition dense_rsub (a : dense) (d : K) (raw : list K) : outcome dense :=
  new_by (dm a) (dn a) raw (fun i j => let* x := dget a i j in Ok (d - x)).
Definition dense_times (a : dense) (d : K) : outcome dense := dense_muld a (Val d).
Definition dense_over (a : dense) (d : K) : outcome dense := let* r := divc f1 d in dense_times a r.
Definition dense_rdiv (a : dense) (d : K) (raw : list K) : outcome dense :=
  new_by (dm a) (dn a) raw (fun i j => let* x := dget a i j in divc d x).
(* lines 371-396 *)
Definition dense_add (a b : dense) : outcome dense := dense_acc fadd a (Some b).
Definition dense_sub (a b : dense) : outcome dense := dense_acc fsub a (Some b).
Definition dense_mul (a b : dense) (raw : list K) : outcome dense :=
  new_by (dm a) (dn b) raw (fun i j => for_up 0 (dn a) (fun k t =>
    let* x := dget a i k in
    let* y := dget b k j in
    Ok (t + x * y)) f0).

(* lines 400-593: the classes of storage.  The pointers of an operator may be null
   (None); what they point to does not change, so sharing does not matter to the values. *)
Inductive op_t : Type := Oref | Ounref | Oneg | Otrans | Oadd | Osub | Omul | Oinv.
Inductive store : Type :=
| SDense (a : dense)
| SZero (m n : nat)
| SEye (n : nat)
| SOp (op : op_t) (op1 op2 : option store).

(* lines 491-534.  The scalar flag is never set by the code. *)
Fixpoint rows_cols (s : store) (col : bool) : outcome nat :=
  match s with
  | SDense a => Ok (if col then dn a else dm a)
  | SZero m n => Ok (if col then n else m)
  | SEye n => Ok n
  | SOp op op1 op2 =>
    let at1 col := match op1 with Some s => rows_cols s col | None => UB NullDeref end in
    let at2 col := match op2 with Some s => rows_cols s col | None => UB NullDeref end in
    match op with
    | Oref | Ounref | Oneg | Oadd | Osub | Oinv => at1 col
    | Otrans => at1 (negb col)
    | Omul => if col then at2 true else at1 false
    end
  end.
(* lines 535-557 with 572-592: evaluate does nothing *)
Fixpoint at_ (s : store) (i j : nat) : outcome K :=
  match s with
  | SDense a => dget a i j
  | SZero _ _ => Ok f0
  | SEye _ => Ok (if i =? j then f1 else f0)
  | SOp op op1 _ =>
    match op1 with
    | None => UB NullDeref
    | Some s =>
      match op with
      | Oref | Ounref | Oadd | Osub | Omul | Oinv => at_ s i j
      | Oneg => let* x := at_ s i j in Ok (- x)
      | Otrans => at_ s j i
      end
    end
  end.
(* lines 287-289, 418-420, 451-453 and 558-565 *)
Definition getdense (s : store) (raw : list K) : outcome dense :=
  match s with
  | SDense a => Ok a
  | SZero m n => new_fill m n raw f0 false
  | SEye n => new_fill n n raw f1 true
  | SOp _ op1 _ =>
    let* m := rows_cols s false in
    let* n := rows_cols s true in
    new_by m n raw (fun i j => match op1 with Some s => at_ s i j | None => UB NullDeref end)
  end.

(* class matrix, lines 598-665: a pointer to storage *)
Definition mtx : Type := option store.
Definition mrows (x : mtx) (col : bool) : outcome nat :=
  match x with Some s => rows_cols s col | None => UB NullDeref end.
Definition mat_at (x : mtx) (i j : nat) : outcome K := match x with Some s => at_ s i j | None => UB NullDeref end.
(* lines 641-653; the comparisons stop at the first difference *)
Fixpoint same_row (x y : mtx) (i j k : nat) : outcome bool :=
  match k with
  | O => Ok true
  | S k =>
    let* a := mat_at x i j in
    let* b := mat_at y i j in
    if feqb a b then same_row x y i (j + 1) k else Ok false
  end.
Fixpoint same_rows (x y : mtx) (i n k : nat) : outcome bool :=
  match k with
  | O => Ok true
  | S k => let* r := same_row x y i 0 n in if r then same_rows x y (i + 1) n k else Ok false
  end.
Definition mat_eq (x y : mtx) : outcome bool :=
  let* m := mrows x false in
  let* n := mrows x true in
  let* m' := mrows y false in
  if negb (m =? m') then Ok false
  else
    let* n' := mrows y true in
    if negb (n =? n') then Ok false else same_rows x y 0 n m.
(* lines 671-690: what the three operators return; ! also leaves its argument without storage *)
Definition mat_unref (x : mtx) : mtx * mtx := (Some (SOp Ounref x None), None).
Definition mat_trans (x : mtx) : mtx := Some (SOp Otrans x None).
Definition mat_neg (x : mtx) : mtx := Some (SOp Oneg x None).
End Matrix.
