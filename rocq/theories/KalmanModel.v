(* Model of the steps of the backcalculation that solve a linear problem, src/pavement.cpp:
   gaussnewton (2137-2181) and kalman (2190-2243).

   Simplifications:
   - doubles are the elements of an ordered field; the one operation that can divide by zero,
     min(step,1.0)/step, gives no number then (None), which stands for the NaN of the code;
   - measured, calculated and the gradients of the deflections (result(d).deflgrad) are given;
   - inv_eig and equ_eig are those of EigModel.v;
   - the work arrays of the cache and the local arrays of inv_eig and equ_eig are arguments of
     whatever contents (see PropsCalcCache for the cache);
   - a sum that the code accumulates in an array element is accumulated in a variable and stored
     at the end. *)
From Coq Require Import List ZArith Bool Arith.
From Verif Require Import Base LinBase EigModel BowlModel.
Import ListNotations.
Local Open Scope nat_scope.

Section Kalman.
Context {K : ofield}.
Local Open Scope lin_scope.
Variable sq : K -> K.

(* for (i..n) for (j..m) l[i*m+j] = body *)
Definition fill (n m : nat) (body : nat -> nat -> outcome K) (l : list K) : outcome (list K) :=
  for_up 0 n (fun i l => for_up 0 m (fun j l => let* x := body i j in aset l (i * m + j)%nat x) l) l.
Definition fill1 (n : nat) (body : nat -> outcome K) (l : list K) : outcome (list K) :=
  for_up 0 n (fun i l => let* x := body i in aset l i x) l.
(* for (k..n) v += body *)
Definition acc (n : nat) (body : nat -> outcome K) : outcome K :=
  for_up 0 n (fun k v => let* x := body k in Ok (v + x)) f0.

(* what is known of the deflections: measured, calculated and gradient of each *)
Record defls : Type := Defls { measured : list K; calculated : list K; deflgrad : list (list K) }.
Definition gradat (D : defls) (j i : nat) : outcome K :=
  let* g := aget (deflgrad D) j in aget g i.
Definition misfit (D : defls) (j : nat) : outcome K :=
  let* m := aget (measured D) j in
  let* c := aget (calculated D) j in
  Ok (m - c).

(* lines 2205-2211 *)
Definition kal_H (dl nl : nat) (D : defls) (h0 : list K) : outcome (list K) := fill dl nl (gradat D) h0.
Definition kal_Y (dl : nat) (D : defls) (y0 : list K) : outcome (list K) := fill1 dl (misfit D) y0.
(* lines 2212-2220; s is noise*noise + precision*precision/3 *)
Definition kal_S (dl nl : nat) (wt s : K) (H s0 : list K) : outcome (list K) :=
  let* Sm := fill dl dl (fun i j =>
    let* v := acc nl (fun k =>
      let* x := aget H (i * nl + k)%nat in
      let* y := aget H (j * nl + k)%nat in
      Ok (x * y)) in
    Ok (v * wt)) s0 in
  for_up 0 dl (fun i Sm =>
    let* x := aget Sm (i * dl + i)%nat in
    aset Sm (i * dl + i)%nat (x + s)) Sm.
(* lines 2222-2227 *)
Definition kal_K (dl nl : nat) (wt : K) (H Si k0 : list K) : outcome (list K) :=
  fill nl dl (fun i j => acc dl (fun k =>
    let* x := aget H (k * nl + i)%nat in
    let* y := aget Si (k * dl + j)%nat in
    Ok (x * y * wt))) k0.
(* lines 2228-2232: W and step *)
Definition kal_W (dl nl : nat) (Kg Y w0 : list K) : outcome (list K) :=
  fill1 nl (fun i => acc dl (fun j =>
    let* x := aget Kg (i * dl + j)%nat in
    let* y := aget Y j in
    Ok (x * y))) w0.
Definition len2 (nl : nat) (W : list K) : outcome K := acc nl (fun i => let* w := aget W i in Ok (w * w)).
(* line 2234 *)
Definition shorten (step : K) : option K :=
  if feqb step f0 then None else Some ((if fltb f1 step then f1 else step) / step).
(* line 2239; std::max(1.0,NaN) is 1.0 *)
Definition moved (lo hi : K) (a : option K) (p w : K) : K :=
  match a with Some a => clamp lo hi (p + a * w) | None => lo end.

(* lines 2190-2243: the step and P; a0 .. are the arrays *)
Definition kalman (fuel : nat) (tol : K) (nl : nat) (wt s lo hi : K) (D : defls) (P h0 s0 k0 y0 w0 d0 e0 : list K) : outcome (K * list K) :=
  let dl := length (measured D) in
  let* Y := kal_Y dl D y0 in
  let* H := kal_H dl nl D h0 in
  let* Sm := kal_S dl nl wt s H s0 in
  let* Sm := inv_eig sq fuel tol dl Sm d0 e0 in
  let* Kg := kal_K dl nl wt H Sm k0 in
  let* W := kal_W dl nl Kg Y w0 in
  let* step := len2 nl W in
  let step := sq step in
  let a := shorten step in
  let* P := fill1 nl (fun i => let* p := aget P i in let* w := aget W i in Ok (moved lo hi a p w)) P in
  Ok (step, P).

(* lines 2137-2181 *)
Definition gn_Y (dl nl : nat) (D : defls) (y0 : list K) : outcome (list K) :=
  fill1 nl (fun i => acc dl (fun j =>
    let* e := misfit D j in
    let* h := gradat D j i in
    Ok (e * h))) y0.
Definition gn_S (dl nl : nat) (H s0 : list K) : outcome (list K) :=
  fill nl nl (fun i j => acc dl (fun k =>
    let* x := aget H (k * nl + i)%nat in
    let* y := aget H (k * nl + j)%nat in
    Ok (x * y))) s0.
Definition gaussnewton (fuel : nat) (tol : K) (nl : nat) (lo hi : K) (D : defls) (P h0 s0 w0 y0 d0 e0 r0 : list K) : outcome (K * list K) :=
  let dl := length (measured D) in
  let* H := kal_H dl nl D h0 in
  let* Y := gn_Y dl nl D y0 in
  let* Sm := gn_S dl nl H s0 in
  let* W := equ_eig sq fuel tol nl Sm Y w0 d0 e0 r0 in
  let* step := len2 nl W in
  let* P := fill1 nl (fun i => let* p := aget P i in let* w := aget W i in Ok (clamp lo hi (p + w))) P in
  Ok (sq step, P).
End Kalman.
