(* Model of the principal values of a stress or strain tensor, fem3d/fem3d.cpp: principle (lines 192-251).

   Simplifications: doubles are the elements of an ordered field; eps is 1e-30; hyp is hypot; the loop takes
   its number of rounds; only the upper half of the tensor is read, so it has six entries. *)
From Coq Require Import List ZArith Bool Arith.
From Verif Require Import Base LinBase SmatModel IncholModel PcgModel ShapeModel.
Import ListNotations.
Local Open Scope nat_scope.

Section Princ.
Context {K : ofield}.
Local Open Scope lin_scope.
Variable hyp : K -> K -> K.

Record sym : Type := Sym { p00 : K; p11 : K; p22 : K; p01 : K; p02 : K; p12 : K }.
(* lines 206-208, 220-222 and 230-232 *)
Definition turn (d b : K) : outcome K :=
  let t2 := (if fltb d f0 then - num 2 else num 2) * b in
  divc t2 (fabs d + hyp d t2).
(* lines 205-217 *)
Definition clear02 (p : sym) : outcome sym :=
  if feqb (p02 p) f0 then Ok p else
  let* t1 := turn (p22 p - p00 p) (p02 p) in
  let a := p00 p - t1 * p02 p in
  let c := p22 p + t1 * p02 p in
  let* t2 := divc f1 (hyp t1 f1) in
  let w := p12 p * t2 in
  let u := p01 p * t2 in
  let t2 := u in
  let u := u - t1 * w in
  let w := w + t1 * t2 in
  Ok (Sym a (p11 p) c u f0 w).
(* lines 218-227 *)
Definition clear01 (p : sym) : outcome sym :=
  if feqb (p01 p) f0 then Ok p else
  let* t1 := turn (p11 p - p00 p) (p01 p) in
  let a := p00 p - t1 * p01 p in
  let c := p11 p + t1 * p01 p in
  let* w := divc (p12 p) (hyp t1 f1) in
  Ok (Sym a c (p22 p) f0 (- t1 * w) w).
(* lines 228-237 *)
Definition clear12 (p : sym) : outcome sym :=
  if feqb (p12 p) f0 then Ok p else
  let* t1 := turn (p22 p - p11 p) (p12 p) in
  let a := p11 p - t1 * p12 p in
  let c := p22 p + t1 * p12 p in
  let* w := divc (p02 p) (hyp t1 f1) in
  Ok (Sym (p00 p) a c (- t1 * w) w f0).
(* lines 204-239 *)
Fixpoint rounds (eps : K) (n : nat) (t1 : K) (p : sym) : outcome sym :=
  if fltb eps t1 then
    match n with
    | O => UB OutOfFuel
    | S n =>
      let* p := clear02 p in
      let* p := clear01 p in
      let* p := clear12 p in
      rounds eps n (p01 p * p01 p + p02 p * p02 p) p
    end
  else Ok p.
(* lines 243-248 *)
Definition sort2 (x y : K) : K * K := if fltb y x then (y, x) else (x, y).
Definition principle (eps : K) (n : nat) (s : sym) : outcome (K * K * K) :=
  let* p := rounds eps n (p01 s * p01 s + p02 s * p02 s + p12 s * p12 s) s in
  let '(x, y, z) := (p00 p, p11 p, p22 p) in
  let '(x, y) := sort2 x y in
  let '(x, z) := sort2 x z in
  let '(y, z) := sort2 y z in
  Ok (x, y, z).
End Princ.
Arguments sym : clear implicits.
