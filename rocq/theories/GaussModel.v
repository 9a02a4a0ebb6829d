(* Model of equ_gauss and inv_mul_gauss (src/linalg.cpp, lines 87-174).

   Doubles are elements of an ordered field (exact arithmetic), eps is DBL_EPSILON, and
   a division by zero would be reported.  std::range_error is a std::runtime_error.  The
   loop conditions that repeat "i < n" are dropped.  The copies made by memcpy are the
   arguments themselves: the model is given the arrays and returns the new ones. *)
From Coq Require Import List Bool Arith.
From Verif Require Import Base LinBase.
Import ListNotations.
Local Open Scope nat_scope.

Section Gauss.
Context {K : ofield}.
Local Open Scope lin_scope.
Variable eps : K.

(* swap(l[p],l[q]) *)
Definition aswap (l : list K) (p q : nat) : outcome (list K) :=
  let* x := aget l p in
  let* y := aget l q in
  let* l := aset l p y in
  aset l q x.

(* lines 105-109 and 144-148: the search for a pivot in column i, from row j on; the
   result is where the loop stopped and the last element looked at *)
Fixpoint pivot (n i : nat) (a : list K) (k j : nat) (pvt : K) : outcome (nat * K) :=
  match k with
  | O => Ok (j, pvt)
  | S k =>
      let* v := aget a (j * n + i) in
      if fle eps (fabs v) then Ok (j, v) else pivot n i a k (j + 1)%nat v
  end.

(* lines 119-120 and 160-161: a[k*n+j] -= tmp*a[i*n+j] *)
Definition elim_row (n i k : nat) (tmp : K) (a : list K) : outcome (list K) :=
  for_up (i + 1) n (fun j a =>
    let* x := aget a (k * n + j) in
    let* y := aget a (i * n + j) in
    aset a (k * n + j) (x - tmp * y)) a.

(* one round of the loop at lines 104-123 *)
Definition gauss_round (n i : nat) (s : list K * list K) : outcome (list K * list K) :=
  let (a, x) := s in
  let* (j, pvt) := pivot n i a (n - i) i f0 in
  if j =? n then Throw RuntimeError
  else
    let* (a, x) :=
      (if j =? i then Ok (a, x)
       else
         let* a := for_up 0 n (fun k a => aswap a (j * n + k) (i * n + k)) a in
         let* x := aswap x j i in
         Ok (a, x)) in
    for_up (i + 1) n (fun k (s : list K * list K) =>
      let (a, x) := s in
      let* v := aget a (k * n + i) in
      let* tmp := divc v pvt in
      let* a := elim_row n i k tmp a in
      let* xk := aget x k in
      let* xi := aget x i in
      let* x := aset x k (xk - tmp * xi) in
      Ok (a, x)) (a, x).

(* lines 124-128 *)
Definition gauss_back (n : nat) (a x : list K) : outcome (list K) :=
  for_down n 0 (fun i x =>
    let r := (i - 1)%nat in
    let* x := for_up i n (fun j x =>
      let* xr := aget x r in
      let* v := aget a (r * n + j) in
      let* xj := aget x j in
      aset x r (xr - v * xj)) x in
    let* xr := aget x r in
    let* v := aget a (r * n + r) in
    let* q := divc xr v in
    aset x r q) x.

(* lines 92-129; n = 0 returns at once, x is then what it was *)
Definition equ_gauss (n : nat) (a b x : list K) : outcome (list K) :=
  if n =? 0 then Ok x
  else
    let* (a, x) := for_up 0 n (gauss_round n) (a, b) in
    gauss_back n a x.

(* one round of the loop at lines 143-165 *)
Definition img_round (n m i : nat) (s : list K * list K * K) : outcome (list K * list K * K) :=
  let '(a, b, d) := s in
  let* (j, pvt) := pivot n i a (n - i) i f0 in
  if j =? n then Throw RuntimeError
  else
    let* (a, b) :=
      (if j =? i then Ok (a, b)
       else
         let* a := for_up 0 n (fun k a => aswap a (j * n + k) (i * n + k)) a in
         let* b := for_up 0 m (fun k b => aswap b (j * m + k) (i * m + k)) b in
         Ok (a, b)) in
    let d := d * pvt in
    let* (a, b) := for_up (i + 1) n (fun k (s : list K * list K) =>
      let (a, b) := s in
      let* v := aget a (k * n + i) in
      let* tmp := divc v pvt in
      let* a := elim_row n i k tmp a in
      let* b := for_up 0 m (fun j b =>
        let* x := aget b (k * m + j) in
        let* y := aget b (i * m + j) in
        aset b (k * m + j) (x - tmp * y)) b in
      Ok (a, b)) (a, b) in
    Ok (a, b, d).

(* lines 166-172 *)
Definition img_back (n m : nat) (a b : list K) : outcome (list K) :=
  for_down n 0 (fun i b =>
    let r := (i - 1)%nat in
    let* b := for_up i n (fun j b =>
      for_up 0 m (fun k b =>
        let* x := aget b (r * m + k) in
        let* v := aget a (r * n + j) in
        let* y := aget b (j * m + k) in
        aset b (r * m + k) (x - v * y)) b) b in
    for_up 0 m (fun k b =>
      let* x := aget b (r * m + k) in
      let* v := aget a (r * n + r) in
      let* q := divc x v in
      aset b (r * m + k) q) b) b.

(* lines 137-174: the result is B and the value returned *)
Definition inv_mul_gauss (n m : nat) (a b : list K) : outcome (list K * K) :=
  let* (a, b, d) := for_up 0 n (img_round n m) (a, b, f1) in
  let* b := img_back n m a b in
  Ok (b, d).
End Gauss.
