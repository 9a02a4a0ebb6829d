(* Model of the superposition of load responses (src/pavement.cpp, lines 486-529) and of the
   principal stresses and the strains at a point (lines 46-131; src/pavement.h, lines 308-400).

   Doubles are elements of an ordered field; sq is sqrt and hypot(x,y) is sq(x*x+y*y).  A row of
   data[9][3] is a triple, so that no index can be out of bounds; the sorting loops over i < 2,
   i < j < 3 are unrolled.  The pressure of a load is kept instead of its force and radius.  The
   assertion at line 493 is not modelled; tol is 1e-30.  The while loop takes fuel: running out of
   it is OutOfFuel.  A division by zero is reported, not computed. *)
From Coq Require Import List ZArith Bool Arith.
From Verif Require Import Base LinBase EigModel.
Import ListNotations.
Local Open Scope nat_scope.

Section Stress.
Context {K : ofield}.
Local Open Scope lin_scope.
Notation two := (@f1 K + f1).

Record v3 : Type := V3 { e0 : K; e1 : K; e2 : K }.
(* a point: the rows data[0] to data[8] and deflgrad *)
Record point : Type := Point { px : K; py : K;
  normal : v3; shear : v3; pnormal : v3; pshear : v3; deflect : v3;
  strain : v3; sstrain : v3; pstrain : v3; psstrain : v3; deflgrad : list K }.
Definition with_normal (d : point) v := Point (px d) (py d) v (shear d) (pnormal d) (pshear d) (deflect d) (strain d) (sstrain d) (pstrain d) (psstrain d) (deflgrad d).
Definition with_shear (d : point) v := Point (px d) (py d) (normal d) v (pnormal d) (pshear d) (deflect d) (strain d) (sstrain d) (pstrain d) (psstrain d) (deflgrad d).
Definition with_deflect (d : point) v := Point (px d) (py d) (normal d) (shear d) (pnormal d) (pshear d) v (strain d) (sstrain d) (pstrain d) (psstrain d) (deflgrad d).
Definition with_grad (d : point) v := Point (px d) (py d) (normal d) (shear d) (pnormal d) (pshear d) (deflect d) (strain d) (sstrain d) (pstrain d) (psstrain d) v.
Definition inc0 (v : v3) x := V3 (e0 v + x) (e1 v) (e2 v).
Definition inc1 (v : v3) x := V3 (e0 v) (e1 v + x) (e2 v).
Definition inc2 (v : v3) x := V3 (e0 v) (e1 v) (e2 v + x).
Definition add_normal0 d x := with_normal d (inc0 (normal d) x).
Definition add_normal1 d x := with_normal d (inc1 (normal d) x).
Definition add_normal2 d x := with_normal d (inc2 (normal d) x).
Definition add_shear0 d x := with_shear d (inc0 (shear d) x).
Definition add_shear1 d x := with_shear d (inc1 (shear d) x).
Definition add_shear2 d x := with_shear d (inc2 (shear d) x).
Definition add_deflect0 d x := with_deflect d (inc0 (deflect d) x).
Definition add_deflect1 d x := with_deflect d (inc1 (deflect d) x).
Definition add_deflect2 d x := with_deflect d (inc2 (deflect d) x).

(* ---- axialdata::addtodata, src/pavement.cpp lines 486-529 ---- *)
Record load : Type := Load { lx : K; ly : K; pressure : K }.
Record axial : Type := Axial { vdp : K; vse : K; rse : K; tse : K; sse : K; rdp : K }.
(* std::copysign(1.0,x) *)
Definition sign (x : K) : K := if fle f0 x then f1 else - f1.
(* disp is res & LEsystem::disp; gl = UINT_MAX is None *)
Definition addtodata (s : axial) (disp : bool) (d : point) (l : load) (r : K) (gl : option nat) : outcome point :=
  let p := pressure l in
  match gl with
  | Some gl =>
    let* x := aget (deflgrad d) gl in
    let* g := aset (deflgrad d) gl (x + p * vdp s) in
    Ok (with_grad d g)
  | None =>
    let d := add_deflect2 d (p * vdp s) in
    if disp then Ok d
    else
      let d := add_normal2 d (p * vse s) in
      if feqb r f0 then
        let d := add_normal0 d (p * (rse s + tse s) / two) in
        let d := add_normal1 d (p * (rse s + tse s) / two) in
        Ok (add_shear1 d (p * sse s))
      else
        let sint := (py d - ly l) / r in
        let cost := (px d - lx l) / r in
        if feqb cost f0 then
          let d := add_normal0 d (p * tse s) in
          let d := add_normal1 d (p * rse s) in
          let d := add_shear2 d (p * sign sint * sse s) in
          Ok (add_deflect1 d (p * sign sint * rdp s))
        else if feqb sint f0 then
          let d := add_normal0 d (p * rse s) in
          let d := add_normal1 d (p * tse s) in
          let d := add_shear1 d (p * sign cost * sse s) in
          Ok (add_deflect0 d (p * sign cost * rdp s))
        else
          let d := add_normal0 d (p * (cost * cost * rse s + sint * sint * tse s)) in
          let d := add_normal1 d (p * (cost * cost * tse s + sint * sint * rse s)) in
          let d := add_shear0 d (p * cost * sint * (rse s - tse s)) in
          let d := add_shear1 d (p * cost * sse s) in
          let d := add_shear2 d (p * sint * sse s) in
          let d := add_deflect0 d (p * cost * rdp s) in
          Ok (add_deflect1 d (p * sint * rdp s))
  end.

(* ---- pavedata::principle, lines 46-131 ---- *)
Variable sq : K -> K.
Variable tol : K.
(* the tangent of the angle by which the plane of the normal stresses x and y and the shear
   stress h is turned, lines 63-65, 76-78 and 86-88 *)
Definition tangent (x y h : K) : outcome K :=
  let t1 := y - x in
  let t2 := (if fltb t1 f0 then - two else two) * h in
  divc t2 (fabs t1 + hypot sq t1 t2).

(* lines 62-74: n is data[2], s is data[3] *)
Definition turn_xz (n s : v3) : outcome (v3 * v3) :=
  if feqb (e1 s) f0 then Ok (n, s)
  else
    let* t1 := tangent (e0 n) (e2 n) (e1 s) in
    let n := V3 (e0 n - t1 * e1 s) (e1 n) (e2 n + t1 * e1 s) in
    let* t2 := divc f1 (hypot sq t1 f1) in
    let yz := e2 s * t2 in
    let xy := e0 s * t2 in
    let t2 := xy in
    let xy := xy - t1 * yz in
    let yz := yz + t1 * t2 in
    Ok (n, V3 xy f0 yz).
(* lines 75-84 *)
Definition turn_xy (n s : v3) : outcome (v3 * v3) :=
  if feqb (e0 s) f0 then Ok (n, s)
  else
    let* t1 := tangent (e0 n) (e1 n) (e0 s) in
    let n := V3 (e0 n - t1 * e0 s) (e1 n + t1 * e0 s) (e2 n) in
    let* yz := divc (e2 s) (hypot sq t1 f1) in
    Ok (n, V3 f0 (- t1 * yz) yz).
(* lines 85-94 *)
Definition turn_yz (n s : v3) : outcome (v3 * v3) :=
  if feqb (e2 s) f0 then Ok (n, s)
  else
    let* t1 := tangent (e1 n) (e2 n) (e2 s) in
    let n := V3 (e0 n) (e1 n - t1 * e2 s) (e2 n + t1 * e2 s) in
    let* xz := divc (e1 s) (hypot sq t1 f1) in
    Ok (n, V3 (- t1 * xz) xz f0).
(* lines 61-96; t1 is the value tested *)
Fixpoint rounds (fuel : nat) (t1 : K) (n s : v3) : outcome (v3 * v3) :=
  if fltb tol t1 then
    match fuel with
    | O => UB OutOfFuel
    | S fuel =>
      let* (n, s) := turn_xz n s in
      let* (n, s) := turn_xy n s in
      let* (n, s) := turn_yz n s in
      rounds fuel (e0 s * e0 s + e1 s * e1 s) n s
    end
  else Ok (n, s).
(* lines 100-107 and 123-130 *)
Definition order (x y : K) : K * K := if fltb y x then (y, x) else (x, y).
Definition sort3 (v : v3) : v3 :=
  let (a, b) := order (e0 v) (e1 v) in
  let (a, c) := order a (e2 v) in
  let (b, c) := order b c in
  V3 a b c.
Definition hooke (v t2 : K) (s : v3) : v3 :=
  V3 ((e0 s - v * (e1 s + e2 s)) * t2) ((e1 s - v * (e2 s + e0 s)) * t2) ((e2 s - v * (e0 s + e1 s)) * t2).
Definition principle (fuel : nat) (d : point) (v E : K) : outcome point :=
  let n := normal d in
  let s := shear d in
  let t1 := e0 s * e0 s + e1 s * e1 s + e2 s * e2 s in
  let* (n, s) := rounds fuel t1 n s in
  let h := V3 (fabs (e0 n - e2 n) / two) (fabs (e0 n - e1 n) / two) (fabs (e1 n - e2 n) / two) in
  let n := sort3 n in
  let h := sort3 h in
  let* t1 := divc (two * (v + f1)) E in
  let* t2 := divc f1 E in
  let st := hooke v t2 (normal d) in
  let ss := V3 (t1 * e0 (shear d)) (t1 * e1 (shear d)) (t1 * e2 (shear d)) in
  let pst := sort3 (hooke v t2 n) in
  let pss := sort3 (V3 (t1 * e0 h) (t1 * e1 h) (t1 * e2 h)) in
  Ok (Point (px d) (py d) (normal d) (shear d) n h (deflect d) st ss pst pss (deflgrad d)).
End Stress.
