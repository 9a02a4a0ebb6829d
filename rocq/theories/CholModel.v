(* Model of the Cholesky and LDL' factorisations, their substitutions and solvers
   (src/linalg.cpp, lines 340-654).

   Doubles are elements of an ordered field; sq is sqrt.  The three factorisations by
   Cholesky (dense, packed triangle, packed band) are the same loops over another storage:
   ix i j is the place of the element (i,j), i <= j, and the rows that meet column j are
   those from lo j.  recip says what is kept on the diagonal: 1/sqrt(sum) (dense
   and band) or sqrt(sum) (packed triangle).  Each
   function is then an instance.  std::runtime_error is RuntimeError. *)
From Coq Require Import List ZArith Bool Arith.
From Verif Require Import Base LinBase GaussModel TransposeModel.
Import ListNotations.
Local Open Scope nat_scope.

Section Chol.
Context {K : ofield}.
Local Open Scope lin_scope.
Variable sq : K -> K.
Variable eps : K.

Section Generic.
Variable ix : nat -> nat -> nat.       (* place of (i,j), i <= j *)
Variable lo : nat -> nat.              (* first row stored in column j *)
Variable hi : nat -> nat.              (* one past the last column stored in row i *)
Variable recip : bool.

(* sum = A(i,j) - sum of A(k,i)*A(k,j), lo j <= k < i *)
Definition chol_sum (i j : nat) (a : list K) : outcome K :=
  let* s := aget a (ix i j) in
  for_up (lo j) i (fun k s =>
    let* x := aget a (ix k i) in
    let* y := aget a (ix k j) in
    Ok (s - x * y)) s.
(* one round of the loop over j *)
Definition chol_elem (i j : nat) (a : list K) : outcome (list K) :=
  let* s := chol_sum i j a in
  if i =? j then
    if fle s f0 then Throw RuntimeError
    else if recip then
      let* v := divc f1 (sq s) in aset a (ix i i) v
    else aset a (ix i i) (sq s)
  else
    let* d := aget a (ix i i) in
    if recip then aset a (ix i j) (s * d)
    else let* v := divc s d in aset a (ix i j) v.
Definition chol_gen (n : nat) (a : list K) : outcome (list K) :=
  for_up 0 n (fun i a => for_up i (hi i) (fun j a => chol_elem i j a) a) a.

(* substitution for the column c of the m columns of b *)
Definition cholsub_gen (n m c : nat) (a b : list K) : outcome (list K) :=
  let* b := for_up 0 n (fun i b =>
    let* b := for_up (lo i) i (fun k b =>
      let* x := aget b (i * m + c) in
      let* v := aget a (ix k i) in
      let* y := aget b (k * m + c) in
      aset b (i * m + c) (x - v * y)) b in
    let* x := aget b (i * m + c) in
    let* v := aget a (ix i i) in
    aset b (i * m + c) (x * v)) b in
  for_down n 0 (fun i b =>
    let r := (i - 1)%nat in
    let* b := for_up i (hi r) (fun k b =>
      let* x := aget b (r * m + c) in
      let* v := aget a (ix r k) in
      let* y := aget b (k * m + c) in
      aset b (r * m + c) (x - v * y)) b in
    let* x := aget b (r * m + c) in
    let* v := aget a (ix r r) in
    aset b (r * m + c) (x * v)) b.
End Generic.

(* dense, lines 345-364 and 424-440: element (i,j), i <= j, is A[j*n+i] *)
Definition dix (n i j : nat) : nat := (j * n + i)%nat.
Definition decmp_chol (n : nat) (a : list K) : outcome (list K) :=
  chol_gen (dix n) (fun _ => O) (fun _ => n) true n a.
Definition bksub_chol (n : nat) (a b : list K) (m c : nat) : outcome (list K) :=
  cholsub_gen (dix n) (fun _ => O) (fun _ => n) n m c a b.
(* packed triangle, lines 371-390 *)
Definition decmp_chol_tri (n : nat) (a : list K) : outcome (list K) :=
  chol_gen T_IDX (fun _ => O) (fun _ => n) false n a.
(* packed band, lines 398-416 and 446-462: the rows from j-w, the columns to i+w *)
Definition blo (w j : nat) : nat := if j <? w then O else (j - w)%nat.
Definition bhi (n w i : nat) : nat := min (i + w + 1) n.
Definition decmp_chol_band (n w : nat) (a : list K) : outcome (list K) :=
  chol_gen (B_IDX n w) (blo w) (bhi n w) true n a.
Definition bksub_chol_band (n w : nat) (a b : list K) (m c : nat) : outcome (list K) :=
  cholsub_gen (B_IDX n w) (blo w) (bhi n w) n m c a b.

(* lines 468-494 *)
Definition equ_chol (n : nat) (A b x : list K) : outcome (list K) :=
  if n =? 0 then Ok x
  else
    let* a := decmp_chol n A in
    bksub_chol n a b 1 0.
(* lines 502-540: one element of the residual by compensated summation, fma(a,b,-c) is
   a*b-c; the state is (r[i], c) *)
Definition kahan (v y : K) (s : K * K) : K * K :=
  let (r, c) := s in
  let y := v * y - c in
  let t := r + y in
  (t, t - r - y).
Definition band_residual (n w : nat) (A b x r : list K) : outcome (list K * K) :=
  let* (r, dot, _) := for_up 0 n (fun i (s : list K * K * K) =>
    let '(r, dot, c1) := s in
    let* y := aget b i in
    let* s := for_up (blo w i) i (fun j s =>
      let* v := aget A (B_IDX n w j i) in
      let* y := aget x j in
      Ok (kahan v y s)) (- y, f0) in
    let* s := for_up i (bhi n w i) (fun j s =>
      let* v := aget A (B_IDX n w i j) in
      let* y := aget x j in
      Ok (kahan v y s)) s in
    let ri := fst s in
    let* r := aset r i ri in
    let (dot, c1) := kahan ri ri (dot, c1) in
    Ok (r, dot, c1)) (r, f0, f0) in
  Ok (r, dot).
(* the loop at lines 519-539: imax is ITER_MAX, tol is ERR_TOL *)
Fixpoint refine (imax : nat) (tol : K) (n w : nat) (A a b : list K) (fuel iter : nat) (x r : list K)
  : outcome (list K) :=
  match fuel with
  | O => UB OutOfFuel
  | S fuel =>
      let* (r, dot) := band_residual n w A b x r in
      let iter := (iter + 1)%nat in
      if (imax <? iter) || fle (sq dot) tol then Ok x
      else
        let* r := bksub_chol_band n w a r 1 0 in
        let* x := for_up 0 n (fun i x =>
          let* y := aget x i in
          let* z := aget r i in
          aset x i (y - z)) x in
        refine imax tol n w A a b fuel iter x r
  end.
Definition equ_chol_band (imax : nat) (tol : K) (n w : nat) (A b x r0 : list K) : outcome (list K) :=
  if n =? 0 then Ok x
  else
    let* a := decmp_chol_band n w A in
    let* x := bksub_chol_band n w a b 1 0 in
    refine imax tol n w A a b (imax + 1) 0 x r0.

(* lines 546-571 *)
Definition inv_chol (n : nat) (A : list K) : outcome (list K) :=
  let* a := decmp_chol n A in
  let* a := for_up 0 n (fun i a =>
    for_up (i + 1) n (fun j a =>
      let* s := for_up i j (fun k s =>
        let* x := aget a (j * n + k) in
        let* y := aget a (k * n + i) in
        Ok (s - x * y)) f0 in
      let* d := aget a (j * n + j) in
      aset a (j * n + i) (s * d)) a) a in
  for_up 0 n (fun i a =>
    let* d := aget a (i * n + i) in
    let* a := aset a (i * n + i) (d * d) in
    let* a := for_up (i + 1) n (fun j a =>
      let* d := aget a (i * n + i) in
      let* x := aget a (j * n + i) in
      aset a (i * n + i) (d + x * x)) a in
    for_up (i + 1) n (fun j a =>
      let* a := aset a (i * n + j) f0 in
      let* a := for_up j n (fun k a =>
        let* s := aget a (i * n + j) in
        let* x := aget a (k * n + i) in
        let* y := aget a (k * n + j) in
        aset a (i * n + j) (s + x * y)) a in
      let* s := aget a (i * n + j) in
      aset a (j * n + i) s) a) a.

(* lines 580-599 *)
Definition decmp_ldl (n : nat) (a : list K) : outcome (list K) :=
  for_up 0 n (fun i a =>
    let* s := for_up 0 i (fun k s =>
      let* d := aget a (k * n + k) in
      let* x := aget a (i * n + k) in
      Ok (s + d * (x * x))) f0 in
    let* d := aget a (i * n + i) in
    let* a := aset a (i * n + i) (d - s) in
    let* d := aget a (i * n + i) in
    if fltb (fabs d) eps then Throw RuntimeError
    else
      for_up (i + 1) n (fun j a =>
        let* s := for_up 0 i (fun k s =>
          let* d := aget a (k * n + k) in
          let* x := aget a (i * n + k) in
          let* y := aget a (j * n + k) in
          Ok (s + d * (x * y))) f0 in
        let* x := aget a (j * n + i) in
        let* d := aget a (i * n + i) in
        let* q := divc (x - s) d in
        aset a (j * n + i) q) a) a.

(* lines 607-625 *)
Definition bksub_ldl (n : nat) (a b : list K) (m c : nat) : outcome (list K) :=
  let* b := for_up 0 n (fun i b =>
    let* s := for_up 0 i (fun k s =>
      let* v := aget a (i * n + k) in
      let* y := aget b (k * m + c) in
      Ok (s + v * y)) f0 in
    let* x := aget b (i * m + c) in
    aset b (i * m + c) (x - s)) b in
  for_down n 0 (fun i b =>
    let r := (i - 1)%nat in
    let* x := aget b (r * m + c) in
    let* v := aget a (r * n + r) in
    let* q := divc x v in
    let* b := aset b (r * m + c) q in
    let* s := for_up i n (fun k s =>
      let* v := aget a (k * n + r) in
      let* y := aget b (k * m + c) in
      Ok (s + v * y)) f0 in
    let* x := aget b (r * m + c) in
    aset b (r * m + c) (x - s)) b.

(* lines 633-654 *)
Definition equ_ldl (n : nat) (A b x r0 : list K) : outcome (list K) :=
  if n =? 0 then Ok x
  else
    let* a := decmp_ldl n A in
    let* x := bksub_ldl n a b 1 0 in
    let* r := for_up 0 n (fun i r =>
      let* y := aget b i in
      let* r := aset r i (- y) in
      for_up 0 n (fun j r =>
        let* s := aget r i in
        let* v := aget A (i * n + j) in
        let* y := aget x j in
        aset r i (s + v * y)) r) r0 in
    let* r := bksub_ldl n a r 1 0 in
    for_up 0 n (fun i x =>
      let* y := aget x i in
      let* z := aget r i in
      aset x i (y - z)) x.
End Chol.
