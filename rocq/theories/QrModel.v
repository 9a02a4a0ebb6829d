(* Model of the Gram-Schmidt orthonormalisation (src/linalg.cpp, lines 62-85) and of the QR
   decomposition with its back substitution (src/linalg.cpp, lines 942-1012).

   Doubles are elements of an ordered field; sq is sqrt.  pow(x,2) is x*x. *)
From Coq Require Import List ZArith Bool Arith.
From Verif Require Import Base LinBase.
Import ListNotations.
Local Open Scope nat_scope.

Section Qr.
Context {K : ofield}.
Local Open Scope lin_scope.
Variable sq : K -> K.

(* break leaves the loop with the array as it is: the flag says that it has been left *)
Definition orth_gs (n : nat) (q : list K) : outcome (list K) :=
  let* (q, _) := for_up 0 n (fun k (s : list K * bool) =>
    let (q, stop) := s in
    if stop then Ok (q, true)
    else
      let* r := for_up 0 n (fun i r =>
        let* x := aget q (i * n + k) in
        Ok (r + x * x)) f0 in
      let r := sq r in
      if feqb r f0 then Ok (q, true)
      else
        let* q := for_up 0 n (fun i q =>
          let* x := aget q (i * n + k) in
          let* v := divc x r in
          aset q (i * n + k) v) q in
        let* q := for_up (k + 1) n (fun j q =>
          let* r := for_up 0 n (fun i r =>
            let* x := aget q (i * n + k) in
            let* y := aget q (i * n + j) in
            Ok (r + x * y)) f0 in
          for_up 0 n (fun i q =>
            let* y := aget q (i * n + j) in
            let* x := aget q (i * n + k) in
            aset q (i * n + j) (y - r * x)) q) q in
        Ok (q, false)) (q, false) in
  Ok q.

(* the reflection of column k, lines 955-981; s and d are the output arrays *)
Definition qr_round (n k : nat) (st : list K * list K * list K * bool)
  : outcome (list K * list K * list K * bool) :=
  let '(a, s, d, rv) := st in
  let* scale := for_up k n (fun i scale =>
    let* x := aget a (i * n + k) in
    Ok (if fltb scale (fabs x) then fabs x else scale)) f0 in
  if feqb scale f0 then
    let* d := aset d k f0 in
    let* s := aset s k f0 in
    Ok (a, s, d, false)
  else
    let* (a, sum) := for_up k n (fun i (t : list K * K) =>
      let (a, sum) := t in
      let* x := aget a (i * n + k) in
      let* v := divc x scale in
      let* a := aset a (i * n + k) v in
      let* v := aget a (i * n + k) in
      Ok (a, sum + v * v)) (a, f0) in
    let* x := aget a (k * n + k) in
    let sum := if fltb x f0 then - sq sum else sq sum in
    let* a := aset a (k * n + k) (x + sum) in
    let* x := aget a (k * n + k) in
    let* s := aset s k (sum * x) in
    let* d := aset d k (- scale * sum) in
    let* a := for_up (k + 1) n (fun j a =>
      let* sum := for_up k n (fun i sum =>
        let* x := aget a (i * n + k) in
        let* y := aget a (i * n + j) in
        Ok (sum + x * y)) f0 in
      let* sk := aget s k in
      let* sum := divc sum sk in
      for_up k n (fun i a =>
        let* y := aget a (i * n + j) in
        let* x := aget a (i * n + k) in
        aset a (i * n + j) (y - sum * x)) a) a in
    Ok (a, s, d, rv).
Definition decmp_qr (n : nat) (a s d : list K) : outcome (list K * list K * list K * bool) :=
  if n =? 0 then Ok (a, s, d, true)
  else
    let* (a, s, d, rv) := for_up 0 (n - 1) (fun k st => qr_round n k st) (a, s, d, true) in
    let* x := aget a (n * n - 1) in
    let* d := aset d (n - 1) x in
    let* x := aget d (n - 1) in
    Ok (a, s, d, if feqb x f0 then false else rv).

(* lines 992-1012; last is the bound of the loop over the reflections, n in the code *)
Definition bksub_qr_to (last n : nat) (a s d b : list K) (m c : nat) : outcome (list K) :=
  let* b := for_up 0 last (fun j b =>
    let* sum := for_up j n (fun i sum =>
      let* x := aget a (i * n + j) in
      let* y := aget b (i * m + c) in
      Ok (sum + x * y)) f0 in
    let* sj := aget s j in
    let* sum := divc sum sj in
    for_up j n (fun i b =>
      let* y := aget b (i * m + c) in
      let* x := aget a (i * n + j) in
      aset b (i * m + c) (y - sum * x)) b) b in
  for_down n 0 (fun i b =>
    let r := (i - 1)%nat in
    let* sum := for_up i n (fun j sum =>
      let* x := aget a (r * n + j) in
      let* y := aget b (j * m + c) in
      Ok (sum + x * y)) f0 in
    let* y := aget b (r * m + c) in
    let* dr := aget d r in
    let* v := divc (y - sum) dr in
    aset b (r * m + c) v) b.
Definition bksub_qr (n : nat) (a s d b : list K) (m c : nat) : outcome (list K) :=
  bksub_qr_to n n a s d b m c.
End Qr.
