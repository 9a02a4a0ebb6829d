(* Model of LEbackcalc::deflgrad, src/pavement.cpp 2040-2131: the step of the backcalculation along
   the gradients of the deflections, found by conjugate gradients.

   Simplifications:
   - doubles are the elements of an ordered field and sq is sqrt; a division by zero stops the run;
   - measured, calculated and the gradients of the deflections (result(d).deflgrad) are given;
   - a loop which does several things to separate arrays is written as several loops, and a sum the
     code accumulates in an array element is accumulated in a variable and stored at the end;
   - the work arrays of the cache are arguments of whatever contents (see PropsCalcCache for the
     cache); Q is always given. *)
From Coq Require Import List ZArith Bool Arith.
From Verif Require Import Base LinBase QrModel BowlModel KalmanModel.
Import ListNotations.
Local Open Scope nat_scope.

Section Deflgrad.
Context {K : ofield}.
Local Open Scope lin_scope.
Variable sq : K -> K.

(* lines 2072-2073 *)
Definition dg_sq (nl : nat) (PG : list K) (j : nat) : outcome K :=
  acc nl (fun i => let* x := aget PG (j * nl + i)%nat in Ok (x * x)).
(* lines 2067-2079: CD, MD, PG and DG *)
Definition dg_setup (dl nl : nat) (D : defls (K := K)) (pg0 md0 cd0 dg0 : list K) : outcome (list K * list K * list K * list K) :=
  let* CD := fill1 dl (fun j => aget (calculated D) j) cd0 in
  let* MD := fill1 dl (fun j => aget (measured D) j) md0 in
  let* PG := fill dl nl (gradat D) pg0 in
  let* DG := fill1 dl (dg_sq nl PG) dg0 in
  let* gg := acc dl (fun j => let* x := aget DG j in divc f1 (sq x)) in
  let* c := divc (fnat dl * fnat dl) (gg * gg) in
  let* DG := fill1 dl (fun j => let* x := aget DG j in Ok (x * c)) DG in
  Ok (CD, MD, PG, DG).

(* the variables of the loop *)
Record dgs : Type := Dgs { dD : list K; dG : list K; dW : list K; dCD : list K; dQ : list K; ddgg : K; dgg0 : K; ddd : K }.

(* lines 2084-2092: the unit direction, q and p *)
Definition dg_unit (nl : nat) (Dl : list K) : outcome (list K) :=
  let* r := acc nl (fun i => let* d := aget Dl i in Ok (d * d)) in
  let r := sq r in
  fill1 nl (fun i => let* d := aget Dl i in divc d r) Dl.
Definition dg_along (nl : nat) (PG Dl : list K) (j : nat) : outcome K :=
  acc nl (fun i => let* x := aget PG (j * nl + i)%nat in let* d := aget Dl i in Ok (x * d)).
Definition dg_q (dl nl : nat) (PG MD DG CD Dl : list K) : outcome K :=
  acc dl (fun j =>
    let* r := dg_along nl PG Dl j in
    let* c := aget CD j in let* m := aget MD j in let* w := aget DG j in
    divc ((c - m) * r) w).
Definition dg_p (dl nl : nat) (PG DG Dl : list K) : outcome K :=
  acc dl (fun j =>
    let* r := dg_along nl PG Dl j in
    let* w := aget DG j in
    divc (r * r) w).
(* lines 2094-2101: the step, its length with W and the deflections after it *)
Definition dg_move (dl nl : nat) (PG CD W Dl : list K) (x : K) : outcome (list K * K * list K) :=
  let* Dl := fill1 nl (fun i => let* d := aget Dl i in Ok (d * x)) Dl in
  let* r := acc nl (fun i => let* w := aget W i in let* d := aget Dl i in Ok ((w + d) * (w + d))) in
  let* CD := fill1 dl (fun j => let* c := aget CD j in let* y := dg_along nl PG Dl j in Ok (c + y)) CD in
  Ok (Dl, r, CD).
(* lines 2081-2108; true if the step was shortened *)
Definition dg_step (dl nl : nat) (PG MD DG : list K) (k : nat) (s : dgs) : outcome (dgs * bool) :=
  let* G := fill1 nl (fun i => aget (dD s) i) (dG s) in
  let* Dl := dg_unit nl (dD s) in
  let* q := dg_q dl nl PG MD DG (dCD s) Dl in
  let* p := dg_p dl nl PG DG Dl in
  let* x := divc (- q) p in
  let* Q := for_up 0 nl (fun i Q => let* d := aget Dl i in aset Q (i * nl + (k - 1))%nat d) (dQ s) in
  let* (Dl, r, CD) := dg_move dl nl PG (dCD s) (dW s) Dl x in
  if fltb f1 r then
    let* y := divc (f1 - ddd s) r in
    let r := sq y in
    let* W := fill1 nl (fun i => let* w := aget (dW s) i in let* d := aget Dl i in Ok (w + r * d)) (dW s) in
    Ok (Dgs Dl G W CD Q (ddgg s) (dgg0 s) (ddd s), true)
  else
    let* W := fill1 nl (fun i => let* w := aget (dW s) i in let* d := aget Dl i in Ok (w + d)) (dW s) in
    Ok (Dgs Dl G W CD Q (ddgg s) (dgg0 s) r, false).
(* lines 2110-2115 *)
Definition dg_grad (dl nl : nat) (PG MD DG : list K) (s : dgs) : outcome dgs :=
  let* Dl := fill1 nl (fun i =>
    let* x := acc dl (fun j =>
      let* c := aget (dCD s) j in let* m := aget MD j in let* g := aget PG (j * nl + i)%nat in let* w := aget DG j in
      divc ((f1 + f1) * (c - m) * g) w) in
    Ok (- x)) (dD s) in
  let* dgg := acc nl (fun i => let* d := aget Dl i in Ok (d * d)) in
  Ok (Dgs Dl (dG s) (dW s) (dCD s) (dQ s) dgg (ddgg s) (ddd s)).
(* lines 2119-2120 *)
Definition dg_conj (nl : nat) (s : dgs) : outcome dgs :=
  if feqb (dgg0 s) f0 then Ok s
  else
    let* Dl := fill1 nl (fun i => let* d := aget (dD s) i in let* g := aget (dG s) i in let* y := divc (ddgg s * g) (dgg0 s) in Ok (d + y)) (dD s) in
    Ok (Dgs Dl (dG s) (dW s) (dCD s) (dQ s) (ddgg s) (dgg0 s) (ddd s)).
(* lines 2080-2121: turns is nl+1-k; true if a step was shortened *)
Fixpoint dg_loop (turns : nat) (dl nl : nat) (precision : K) (PG MD DG : list K) (k : nat) (s : dgs) : outcome (dgs * bool) :=
  match turns with
  | O => Ok (s, false)
  | S turns =>
    let* (s, stop) := if negb (feqb (ddgg s) f0) then dg_step dl nl PG MD DG k s else Ok (s, false) in
    if (stop : bool) then Ok (s, true)
    else
      let* s := dg_grad dl nl PG MD DG s in
      if fle (ddgg s) precision then Ok (s, false)
      else
        let* s := dg_conj nl s in
        dg_loop turns dl nl precision PG MD DG (S k) s
  end.

(* lines 2040-2131: the step, P and Q *)
Definition deflgrad_step (nl : nat) (precision lo hi : K) (D : defls (K := K)) (P Q pg0 md0 cd0 dg0 d0 g0 w0 : list K) : outcome (K * list K * list K) :=
  let dl := length (measured D) in
  let* W := fill1 nl (fun _ => Ok f0) w0 in
  let* (CD, MD, PG, DG) := dg_setup dl nl D pg0 md0 cd0 dg0 in
  let* (s, _) := dg_loop (S nl) dl nl precision PG MD DG 0 (Dgs d0 g0 W CD Q f0 f0 f0) in
  let* step := len2 nl (dW s) in
  let* P := fill1 nl (fun i => let* p := aget P i in let* w := aget (dW s) i in Ok (clamp lo hi (p + w))) P in
  let* Q := orth_gs sq nl (dQ s) in
  Ok (sq step, P, Q).
End Deflgrad.
