(* Model of decmp_lu, bksub_lu, equ_lu, inv_mul_lu and inv_lu (src/linalg.cpp, lines
   176-338).

   Doubles are elements of an ordered field, eps is DBL_EPSILON.  Memory from new[] has
   arbitrary contents: it is an argument of the model (wk for work, ix for idx, r0 for r),
   so the theorems hold for all contents.  std::range_error is a std::runtime_error.  The
   loop conditions that repeat "i < n" or "k <= i" are dropped where they cannot fail. *)
From Coq Require Import List ZArith Bool Arith.
From Verif Require Import Base LinBase GaussModel.
Import ListNotations.
Local Open Scope nat_scope.

Section Lu.
Context {K : ofield}.
Local Open Scope lin_scope.
Variable eps : K.

(* lines 197-200: the largest magnitude in row i *)
Definition row_max (n i : nat) (a : list K) : outcome K :=
  for_up 0 n (fun j max =>
    let* v := aget a (i * n + j) in
    Ok (if fltb max (fabs v) then fabs v else max)) f0.
(* lines 196-204 *)
Definition lu_scales (n : nat) (a wk : list K) : outcome (list K) :=
  for_up 0 n (fun i wk =>
    let* max := row_max n i a in
    if fltb max eps then Throw RuntimeError else aset wk i max) wk.

(* A[j*n+i] -= sum of A[j*n+k]*A[k*n+i] over k < hi, lines 207-208 and 212-213 *)
Definition lu_reduce (n i j hi : nat) (a : list K) : outcome (list K) :=
  for_up 0 hi (fun k a =>
    let* x := aget a (j * n + i) in
    let* y := aget a (j * n + k) in
    let* z := aget a (k * n + i) in
    aset a (j * n + i) (x - y * z)) a.

(* lines 211-217: the result is (A, max, idx) *)
Definition lu_pivot (n i : nat) (wk : list K) (s : list K * K * list nat)
  : outcome (list K * K * list nat) :=
  for_up i n (fun j (s : list K * K * list nat) =>
    let '(a, max, ix) := s in
    let* a := lu_reduce n i j i a in
    let* v := aget a (j * n + i) in
    let* w := aget wk j in
    let* tmp := divc (fabs v) w in
    if fle max tmp then
      let* ix := aset ix i j in
      Ok (a, tmp, ix)
    else Ok (a, max, ix)) s.

(* one round of the loop at lines 205-229: the state is (A, idx, work, d) *)
Definition lu_round (n i : nat) (s : list K * list nat * list K * Z)
  : outcome (list K * list nat * list K * Z) :=
  let '(a, ix, wk, d) := s in
  let* a := for_up 0 i (fun j a => lu_reduce n i j j a) a in
  let* (a, _, ix) := lu_pivot n i wk (a, f0, ix) in
  let* p := aget ix i in
  let* (a, wk, d) :=
    (if i =? p then Ok (a, wk, d)
     else
       let* a := for_up 0 n (fun j a => aswap a (p * n + j) (i * n + j)) a in
       let* wk := aswap wk p i in
       Ok (a, wk, (d * -1)%Z)) in
  let* v := aget a (i * n + i) in
  if feqb v f0 then Throw RuntimeError
  else
    let* a := for_up (i + 1) n (fun j a =>
      let* x := aget a (j * n + i) in
      let* y := aget a (i * n + i) in
      let* q := divc x y in
      aset a (j * n + i) q) a in
    Ok (a, ix, wk, d).

(* lines 185-230: the result is (A, idx, d) *)
Definition decmp_lu (n : nat) (a : list K) (ix : list nat) (d : Z) (wk : list K)
  : outcome (list K * list nat * Z) :=
  if n =? 0 then Ok (a, ix, d)
  else
    let* wk := lu_scales n a wk in
    let* (a, ix, _, d) := for_up 0 n (lu_round n) (a, ix, wk, 1%Z) in
    Ok (a, ix, d).

(* lines 247-257: the state is (b, k) *)
Definition lu_forward (n m c : nat) (a : list K) (ix : list nat) (b : list K)
  : outcome (list K * nat) :=
  for_up 0 n (fun i (s : list K * nat) =>
    let (b, k) := s in
    let* j := aget ix i in
    let* sum := aget b (j * m + c) in
    let* x := aget b (i * m + c) in
    let* b := aset b (j * m + c) x in
    let* (sum, k) :=
      (if 0 <? k then
         let* sum := for_up (k - 1) (if k <=? i then i else k - 1) (fun j sum =>
           let* v := aget a (i * n + j) in
           let* y := aget b (j * m + c) in
           Ok (sum - v * y)) sum in
         Ok (sum, k)
       else if negb (feqb sum f0) then Ok (sum, (i + 1)%nat) else Ok (sum, k)) in
    let* b := aset b (i * m + c) sum in
    Ok (b, k)) (b, 0).
(* lines 258-262 *)
Definition lu_back (n m c : nat) (a b : list K) : outcome (list K) :=
  for_down n 0 (fun i b =>
    let r := (i - 1)%nat in
    let* b := for_up i n (fun j b =>
      let* x := aget b (r * m + c) in
      let* v := aget a (r * n + j) in
      let* y := aget b (j * m + c) in
      aset b (r * m + c) (x - v * y)) b in
    let* x := aget b (r * m + c) in
    let* v := aget a (r * n + r) in
    let* q := divc x v in
    aset b (r * m + c) q) b.
(* lines 241-263 *)
Definition bksub_lu (n : nat) (a : list K) (ix : list nat) (b : list K) (m c : nat)
  : outcome (list K) :=
  let* (b, _) := lu_forward n m c a ix b in
  lu_back n m c a b.

(* lines 271-294; d is not initialised there *)
Definition equ_lu (n : nat) (A b x : list K) (ix : list nat) (d : Z) (wk r0 : list K)
  : outcome (list K) :=
  if n =? 0 then Ok x
  else
    let* (a, ix, _) := decmp_lu n A ix d wk in
    let* x := bksub_lu n a ix b 1 0 in
    let* r := for_up 0 n (fun i r =>
      let* y := aget b i in
      let* r := aset r i (- y) in
      for_up 0 n (fun j r =>
        let* s := aget r i in
        let* v := aget A (i * n + j) in
        let* y := aget x j in
        aset r i (s + v * y)) r) r0 in
    let* r := bksub_lu n a ix r 1 0 in
    for_up 0 n (fun i x =>
      let* y := aget x i in
      let* z := aget r i in
      aset x i (y - z)) x.

(* an int as a double *)
Definition of_int (d : Z) : K :=
  match d with
  | Z0 => f0
  | Zpos p => Pos.iter (fadd f1) f0 p
  | Zneg p => - Pos.iter (fadd f1) f0 p
  end.

(* lines 300-316: the result is B and the value returned *)
Definition inv_mul_lu (n m : nat) (a b : list K) (ix : list nat) (d : Z) (wk : list K)
  : outcome (list K * K) :=
  if n =? 0 then Ok (b, f0)
  else
    let* (a, ix, d) := decmp_lu n a ix d wk in
    let* det := for_up 0 n (fun i det =>
      let* v := aget a (i * n + i) in Ok (det * v)) (of_int d) in
    let* b := for_up 0 m (fun i b => bksub_lu n a ix b m i) b in
    Ok (b, det).

(* lines 321-338 *)
Definition inv_lu (n : nat) (A : list K) (ix : list nat) (d : Z) (wk : list K)
  : outcome (list K) :=
  if n =? 0 then Ok A
  else
    let* x := for_up 0 n (fun i x => aset x (i * n + i) f1) (repeat f0 (n * n)) in
    let* (a, ix, _) := decmp_lu n A ix d wk in
    for_up 0 n (fun i x => bksub_lu n a ix x n i) x.
End Lu.
