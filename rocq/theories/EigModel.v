(* Model of the eigenvalue decomposition of symmetric matrices (src/linalg.cpp, lines 1014-1251):
   reduction to tridiagonal form, QL iteration, sorting and the solution of equations with the
   decomposition.

   Doubles are elements of an ordered field; sq is sqrt and hypot(x,y) is sq(x*x+y*y).  A sum that
   the code accumulates in an array element is accumulated in a variable and stored at the end;
   the arrays are distinct, so nothing reads the element in between.  (c ? -1 : 1)*x is written
   as a choice between -x and x.  while(1) takes fuel: running out of it is OutOfFuel. *)
From Coq Require Import List ZArith Bool Arith.
From Verif Require Import Base LinBase.
Import ListNotations.
Local Open Scope nat_scope.

Section Eig.
Context {K : ofield}.
Local Open Scope lin_scope.
Variable sq : K -> K.
Notation two := (@f1 K + f1).
Definition hypot (x y : K) : K := sq (x * x + y * y).

(* ---------- tridiag_hh ---------- *)

(* the turn for row i of the first loop, lines 1024-1054 *)
Definition hh_round (n i : nat) (st : list K * list K * list K) : outcome (list K * list K * list K) :=
  let '(a, d, e) := st in
  let* d := aset d i f0 in
  let* scale := for_up 0 (i - 1) (fun j scale =>
    let* x := aget a (i * n + j) in Ok (scale + fabs x)) f0 in
  if feqb scale f0 then
    let* x := aget a (i * n + (i - 1)) in
    let* e := aset e i x in
    Ok (a, d, e)
  else
    let* x := aget a (i * n + (i - 1)) in
    let scale := scale + fabs x in
    let* (a, di) := for_up 0 i (fun j (s : list K * K) =>
      let (a, di) := s in
      let* x := aget a (i * n + j) in
      let* v := divc x scale in
      let* a := aset a (i * n + j) v in
      Ok (a, di + v * v)) (a, f0) in
    let* x := aget a (i * n + (i - 1)) in
    let f := if fle f0 x then - sq di else sq di in
    let* e := aset e i (scale * f) in
    let di := di - x * f in
    let* d := aset d i di in
    let* a := aset a (i * n + (i - 1)) (x - f) in
    let* (a, e, f) := for_up 0 i (fun j (s : list K * list K * K) =>
      let '(a, e, f) := s in
      let* x := aget a (i * n + j) in
      let* v := divc x di in
      let* a := aset a (j * n + i) v in
      let* v := for_up 0 (j + 1) (fun k v =>
        let* x := aget a (j * n + k) in
        let* y := aget a (i * n + k) in
        Ok (v + x * y)) f0 in
      let* v := for_up (j + 1) i (fun k v =>
        let* x := aget a (k * n + j) in
        let* y := aget a (i * n + k) in
        Ok (v + x * y)) v in
      let* v := divc v di in
      let* e := aset e j v in
      let* x := aget a (i * n + j) in
      Ok (a, e, f + v * x)) (a, e, f0) in
    let* (a, e) := for_up 0 i (fun j (s : list K * list K) =>
      let (a, e) := s in
      let* v := aget e j in
      let* x := aget a (i * n + j) in
      let* h := divc f (two * di) in
      let* e := aset e j (v - h * x) in
      let* a := for_up 0 (j + 1) (fun k a =>
        let* y := aget a (j * n + k) in
        let* x := aget a (i * n + j) in
        let* ek := aget e k in
        let* ej := aget e j in
        let* z := aget a (i * n + k) in
        aset a (j * n + k) (y - (x * ek + ej * z))) a in
      Ok (a, e)) (a, e) in
    Ok (a, d, e).

(* the turn for row i of the second loop, lines 1057-1069 *)
Definition hh_back (n i : nat) (st : list K * list K) : outcome (list K * list K) :=
  let (a, d) := st in
  let* h := aget d i in
  let* a :=
    (if feqb h f0 then Ok a
     else for_up 0 i (fun j a =>
       let* f := for_up 0 i (fun k f =>
         let* x := aget a (i * n + k) in
         let* y := aget a (k * n + j) in
         Ok (f + x * y)) f0 in
       for_up 0 i (fun k a =>
         let* y := aget a (k * n + j) in
         let* x := aget a (k * n + i) in
         aset a (k * n + j) (y - f * x)) a) a) in
  let* x := aget a (i * n + i) in
  let* d := aset d i x in
  let* a := aset a (i * n + i) f1 in
  let* a := for_up 0 i (fun j a =>
    let* a := aset a (i * n + j) f0 in
    aset a (j * n + i) f0) a in
  Ok (a, d).

Definition tridiag_hh (n : nat) (a d e : list K) : outcome (list K * list K * list K) :=
  if n =? 0 then Ok (a, d, e)
  else
    let* (a, d, e) := for_down (n - 1) 0 (hh_round n) (a, d, e) in
    let* e := aset e 0 f0 in
    let* d := aset d 0 f0 in
    let* (a, d) := for_up 0 n (hh_back n) (a, d) in
    Ok (a, d, e).

(* ---------- eig_tri_ql ---------- *)

(* for (m = i; m < n-1; m++), left at the first negligible e[m+1], lines 1087-1091;
   k turns are left *)
Fixpoint ql_split (k m : nat) (d e : list K) : outcome nat :=
  match k with
  | O => Ok m
  | S k =>
    let* x := aget d m in
    let* y := aget d (m + 1) in
    let g := fabs x + fabs y in
    let* z := aget e (m + 1) in
    if feqb (fabs z + g) g then Ok m else ql_split k (m + 1) d e
  end.

(* the loop over j, lines 1098-1115; k = j - i turns are left.  The flag says that the loop ended
   with j = i *)
Fixpoint ql_sweep (n k j : nat) (d e a : list K) (s c p g : K)
  : outcome (list K * list K * list K * K * K * bool) :=
  match k with
  | O => Ok (d, e, a, p, g, true)
  | S k =>
    let* ej := aget e j in
    let f := s * ej in
    let b := c * ej in
    let r := hypot f g in
    let* e := aset e (if j + 1 <? n then j + 1 else 0)%nat r in
    if feqb r f0 then
      let* dj := aget d j in
      let* d := aset d j (dj - p) in
      Ok (d, e, a, p, g, false)
    else
      let* c := divc g r in
      let* s := divc f r in
      let* dj := aget d j in
      let* d := aset d j (dj - p) in
      let* dl := aget d (j - 1) in
      let* dj := aget d j in
      let r := (dl - dj) * s + two * c * b in
      let p := s * r in
      let* d := aset d j (dj + p) in
      let g := c * r - b in
      let* a := for_up 0 n (fun k a =>
        let* r := aget a (k * n + j) in
        let* x := aget a (k * n + (j - 1)) in
        let* a := aset a (k * n + j) (s * x + c * r) in
        let* x := aget a (k * n + (j - 1)) in
        aset a (k * n + (j - 1)) (c * x - s * r)) a in
      ql_sweep n k (j - 1) d e a s c p g
  end.

(* one turn of while(1): None when it is left *)
Definition ql_step (n i : nat) (st : list K * list K * list K)
  : outcome (option (list K * list K * list K)) :=
  let '(d, e, a) := st in
  let* m := ql_split (n - 1 - i) i d e in
  if m =? i then Ok None
  else
    let* d1 := aget d (i + 1) in
    let* d0 := aget d i in
    let* e1 := aget e (i + 1) in
    let* g := divc (d1 - d0) (two * e1) in
    let r := if fltb f0 g then sq (g * g + f1) else - sq (g * g + f1) in
    let* dm := aget d m in
    let* t := divc e1 (g + r) in
    let g := dm - d0 + t in
    let* (d, e, a, p, g, whole) := ql_sweep n (m - i) m d e a f1 f1 f0 g in
    let* e := aset e (if m + 1 <? n then m + 1 else 0)%nat f0 in
    if whole then
      let* x := aget d i in
      let* d := aset d i (x - p) in
      let* e := aset e (i + 1) g in
      Ok (Some (d, e, a))
    else Ok (Some (d, e, a)).
Fixpoint ql_while (fuel n i : nat) (st : list K * list K * list K) : outcome (list K * list K * list K) :=
  match fuel with
  | O => UB OutOfFuel
  | S fuel =>
    let* r := ql_step n i st in
    match r with
    | None => Ok st
    | Some st => ql_while fuel n i st
    end
  end.
Definition eig_tri_ql (fuel n : nat) (d e a : list K) : outcome (list K * list K * list K) :=
  if n =? 0 then Ok (d, e, a)
  else for_up 0 n (fun i st => ql_while fuel n i st) (d, e, a).

(* ---------- eig_ql ---------- *)

(* lines 1138-1152 *)
Definition eig_sort (n : nat) (a d : list K) : outcome (list K * list K) :=
  for_up 0 (n - 1) (fun i (st : list K * list K) =>
    let (a, d) := st in
    let* t := aget d i in
    let* (k, t) := for_up (i + 1) n (fun j (s : nat * K) =>
      let (k, t) := s in
      let* x := aget d j in
      Ok (if fle t x then (j, x) else (k, t))) (i, t) in
    if k =? i then Ok (a, d)
    else
      let* x := aget d i in
      let* d := aset d k x in
      let* d := aset d i t in
      let* a := for_up 0 n (fun j a =>
        let* t := aget a (j * n + i) in
        let* x := aget a (j * n + k) in
        let* a := aset a (j * n + i) x in
        aset a (j * n + k) t) a in
      Ok (a, d)) (a, d).
(* e is the memory of the array of the same name *)
Definition eig_ql (fuel n : nat) (a d e : list K) (sorted : bool) : outcome (list K * list K) :=
  if n =? 0 then Ok (a, d)
  else
    let* (a, d, e) := tridiag_hh n a d e in
    let* (d, e, a) := eig_tri_ql fuel n d e a in
    if sorted then eig_sort n a d else Ok (a, d).

(* ---------- solutions ---------- *)

(* lines 1155-1176; the second loop writes b[j], whatever p and c are *)
Definition bksub_eig (n : nat) (q d b : list K) (p c : nat) : outcome (list K) :=
  if n =? 0 then Ok b
  else
    let* tmp := for_up 0 n (fun j tmp =>
      let* dj := aget d j in
      if feqb dj f0 then Ok tmp
      else
        let* t := aget tmp j in
        let* t := for_up 0 n (fun i t =>
          let* x := aget q (i * n + j) in
          let* y := aget b (i * p + c) in
          Ok (t + x * y)) t in
        let* t := divc t dj in
        aset tmp j t) (repeat f0 n) in
    for_up 0 n (fun j b =>
      let* v := for_up 0 n (fun i v =>
        let* x := aget q (j * n + i) in
        let* y := aget tmp i in
        Ok (v + x * y)) f0 in
      aset b j v) b.

(* the eigenvalues below tol times the largest in magnitude are set to zero, lines 1200-1207 *)
Definition eig_clip (tol : K) (n : nat) (d : list K) : outcome (list K) :=
  let* mx := for_up 0 n (fun i mx =>
    let* x := aget d i in
    Ok (if fltb mx (fabs x) then fabs x else mx)) f0 in
  let mx := mx * tol in
  for_up 0 n (fun i d =>
    let* x := aget d i in
    if fltb (fabs x) mx then aset d i f0 else Ok d) d.

(* x, d0, e0, r0 are the memory of the arrays *)
Definition equ_eig (fuel : nat) (tol : K) (n : nat) (A b x d0 e0 r0 : list K) : outcome (list K) :=
  if n =? 0 then Ok x
  else
    let* (q, d, e) := tridiag_hh n A d0 e0 in
    let* (d, e, q) := eig_tri_ql fuel n d e q in
    let* d := eig_clip tol n d in
    let* x := bksub_eig n q d b 1 0 in
    let* r := for_up 0 n (fun i r =>
      let* y := aget b i in
      let* v := for_up 0 n (fun j v =>
        let* z := aget A (i * n + j) in
        let* y := aget x j in
        Ok (v + z * y)) (- y) in
      aset r i v) r0 in
    let* r := bksub_eig n q d r 1 0 in
    for_up 0 n (fun i x =>
      let* y := aget x i in
      let* z := aget r i in
      aset x i (y - z)) x.

Definition inv_eig (fuel : nat) (tol : K) (n : nat) (A d0 e0 : list K) : outcome (list K) :=
  if n =? 0 then Ok A
  else
    let* (q, d, e) := tridiag_hh n A d0 e0 in
    let* (d, e, q) := eig_tri_ql fuel n d e q in
    let* d := eig_clip tol n d in
    for_up 0 n (fun i A =>
      for_up 0 n (fun j A =>
        let* v := for_up 0 n (fun k v =>
          let* dk := aget d k in
          if feqb dk f0 then Ok v
          else
            let* x := aget q (i * n + k) in
            let* y := aget q (j * n + k) in
            let* z := divc (x * y) dk in
            Ok (v + z)) f0 in
        aset A (i * n + j) v) A) A.
End Eig.
