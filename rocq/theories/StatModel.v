(* Model of src/statistics.cpp (lines 40-243) and of the distributions of include/randomvar.h
   (lines 68-75, 242-292 and 374-526), over exact numbers with infinities and NaN.

   Simplifications:
   - float and double are the numbers of Dbl.v: no rounding; decimal constants have the value
     that is written, not that of the nearest double;
   - log, exp, sqrt, sin and cos are the real functions;
   - the generator rand() is a list of the numbers it will return;
   - M_2PI is 2 pi; the statics of stdnormal_rnd are a state that is passed along (one thread). *)
From Coq Require Import Reals ZArith List Bool.
From Verif Require Import Base Dbl.
Import ListNotations.
Local Open Scope dbl_scope.

(* include/mathplus.h 117-128 *)
Definition M_SQRT2PI : R := 2.50662827463100050242%R.
Definition M_1_SQRT2PI : R := 0.398942280401432677940%R.

(* (((l0*y + l1)*y + l2)*y + ...) *)
Definition horner (l : list R) (y : dbl) : dbl :=
  match l with
  | [] => #0
  | c :: l => fold_left (fun r c => r * y + Fin c) l (Fin c)
  end.

(* ---- lines 40-62: the two numbers of one round ---- *)
Record rnd_state := { ri : bool; ru : R * R }.   (* ri: i == 1 *)
Definition stdnormal_rnd (rand_max : Z) (s : rnd_state) (rands : list Z) : outcome (R * rnd_state * list Z) :=
  if ri s then
    match rands with
    | x :: y :: rands =>
      let r0 := sqrt (-2 * ln ((IZR x + 1) / (IZR rand_max + 1))) in
      let r1 := (2 * PI * (IZR y + 1) / (IZR rand_max + 1))%R in
      Ok ((r0 * sin r1)%R, {| ri := false; ru := (r0 * sin r1, r0 * cos r1)%R |}, rands)
    | _ => UB OutOfFuel
    end
  else Ok (snd (ru s), {| ri := true; ru := ru s |}, rands).

(* ---- lines 67-71 ---- *)
Definition stdnormal_pdf (u : dbl) : dbl := dexp (- u * u / #2) / Fin M_SQRT2PI.

(* ---- lines 85-108 ---- *)
Definition cdf_a : list R :=
  [1.161110663653770e-002; 3.951404679838207e-001; 2.846603853776254e+001;
   1.887426188426510e+002; 3.209377589138469e+003]%R.
Definition cdf_b : list R :=
  [1.767766952966369e-001; 8.344316438579620e+000; 1.725514762600375e+002;
   1.813893686502485e+003; 8.044716608901563e+003]%R.
Definition cdf_c : list R :=
  [1.07655767737201917e-8; 3.98941512088134664e-1; 8.88314979438837682e00;
   9.35066561321778664e01; 5.97270276394800248e02; 2.49453758529037214e03;
   6.84819045053628270e03; 1.16026514376473497e04; 9.84271483838397762e03]%R.
Definition cdf_d : list R :=
  [1.00000000000000000e00; 2.22666880443281165e01; 2.35387901782624994e02;
   1.51937759940755473e03; 6.48555829826676108e03; 1.86155716408850967e04;
   3.49009527211459790e04; 3.89120032860932697e04; 1.96854296768599925e04]%R.
Definition cdf_p : list R :=
  [2.30734417649401738e-2; 2.15898534057957003e-1; 1.27401161160247384e-1;
   2.22352778706498104e-2; 1.42161919322789337e-3; 2.91128749511687932e-5]%R.
Definition cdf_q : list R :=
  [1.00000000000000000e00; 1.28426009614491110e00; 4.68238212480865112e-1;
   6.59881378689285564e-2; 3.78239633202758245e-3; 7.29751555083966178e-5]%R.
(* lines 82-136 *)
Definition stdnormal_cdf (u : dbl) : dbl :=
  if isnan u then NaN
  else if negb (isfinite u) then (if u <? #0 then #0 else #1)
  else
    let y := dabs u in
    if y <=? #0.662912607362388 then
      let y := u * u in
      let y := u * horner cdf_a y / horner cdf_b y in
      #0.5 + y
    else
      let y :=
        if y <=? #5.65685424949238 then horner cdf_c y / horner cdf_d y
        else
          let z := #1.0 / y in
          let y := z * z in
          let y := y * (horner cdf_p y / horner cdf_q y) in
          z * (Fin M_1_SQRT2PI - y) in
      let z := dfloor (u * #16) / #16 in
      let y := y * (dexp (#(-0.5) * z * z) * dexp (#(-0.5) * (u - z) * (u + z))) in
      if u <? #0.0 then y else #1 - y.

(* ---- lines 150-200 ---- *)
Definition inv_a : list R :=
  [-3.969683028665376e+01; 2.209460984245205e+02; -2.759285104469687e+02;
   1.383577518672690e+02; -3.066479806614716e+01; 2.506628277459239e+00]%R.
(* with the last coefficient, 1, that the code writes out *)
Definition inv_b : list R :=
  [-5.447609879822406e+01; 1.615858368580409e+02; -1.556989798598866e+02;
   6.680131188771972e+01; -1.328068155288572e+01; 1]%R.
Definition inv_c : list R :=
  [-7.784894002430293e-03; -3.223964580411365e-01; -2.400758277161838e+00;
   -2.549732539343734e+00; 4.374664141464968e+00; 2.938163982698783e+00]%R.
Definition inv_d : list R :=
  [7.784695709041462e-03; 3.224671290700398e-01; 2.445134137142996e+00;
   3.754408661907416e+00; 1]%R.
Definition dmin (x y : dbl) : dbl := if y <? x then y else x.
Definition stdnormal_inv (p : dbl) : dbl :=
  if isnan p || (#1.0 <? p) || (p <? #0.0) then NaN
  else if p =? #0.0 then NInf
  else if p =? #1.0 then PInf
  else
    let q := dmin p (#1 - p) in
    let u :=
      if #0.02425 <? q then
        let u := q - #0.5 in
        let t := u * u in
        u * horner inv_a t / horner inv_b t
      else
        let t := dsqrt (#(-2) * dlog q) in
        horner inv_c t / horner inv_d t in
    let t := stdnormal_cdf u - q in
    let t := t * (Fin M_SQRT2PI * dexp (u * u / #2)) in
    let u := u - t / (#1 + u * t / #2) in
    if #0.5 <? p then - u else u.

(* ---- include/randomvar.h 68-75, 242-292 ---- *)
Inductive distribution : Set := normal | lognormal | uniform | dirac | discrete.
(* the type and the parameters d[0] and d[1]; d[2] and d[3] stay NaN and are not read *)
Record random := { rtype : distribution; d0 : dbl; d1 : dbl }.

(* lines 377-381 *)
Definition rv_normal (m s : dbl) : random := {| rtype := normal; d0 := m; d1 := s |}.
(* lines 406-414: param(1) is set first *)
Definition rv_lognormal (m s : dbl) : random :=
  let bad := isnan m || isnan s || (m <=? #0) || (s <? #0) in
  let p1 := if isinf m then NaN else if bad then NaN else dsqrt (dlog (#1 + s * s / m / m)) in
  let p0 := if isinf m then PInf else if bad then NaN else dlog m - p1 * p1 / #2 in
  {| rtype := lognormal; d0 := p0; d1 := p1 |}.
(* lines 443-447 *)
Definition rv_uniform (a b : dbl) : random := {| rtype := uniform; d0 := a; d1 := b |}.
(* lines 473-476 *)
Definition rv_dirac (a : dbl) : random := {| rtype := dirac; d0 := a; d1 := NaN |}.
(* lines 501-507; NaN differs from itself *)
Definition rv_discrete (a b : dbl) : outcome random :=
  if negb (dceil a =? a) || negb (dceil b =? b) then Throw RuntimeError
  else Ok {| rtype := discrete; d0 := a; d1 := b |}.
(* statistics.cpp 203-221; the copy of lines 223-241 keeps type and parameters *)
Definition make_rv (d : distribution) (m s : dbl) : outcome random :=
  match d with
  | normal => Ok (rv_normal m s)
  | lognormal => Ok (rv_lognormal m s)
  | uniform => Ok (rv_uniform m s)
  | dirac => Ok (rv_dirac m)
  | discrete => rv_discrete m s
  end.

(* lines 382, 415, 448, 477, 508 *)
Definition mean (r : random) : dbl :=
  match rtype r with
  | normal | dirac => d0 r
  | lognormal => if isinf (d0 r) then PInf else if isnan (d0 r) then NaN else dexp (d0 r + d1 r * d1 r / #2)
  | uniform | discrete => (d0 r + d1 r) / #2
  end.
(* lines 385, 419, 451, 480, 511 *)
Definition stddev (r : random) : dbl :=
  match rtype r with
  | normal => d1 r
  | lognormal =>
    if isinf (d0 r) || isnan (d0 r) then NaN else if isnan (d1 r) then NaN
    else mean r * dsqrt (dexp (d1 r * d1 r) - #1)
  | uniform => (d1 r - d0 r) / (#2 * dsqrt #3)
  | dirac => #0
  | discrete => (dsqrt (d1 r - d0 r + #1) - #1) / (#2 * dsqrt #3)
  end.
(* lines 388, 423, 454, 483, 514 *)
Definition randomizable (r : random) : bool :=
  match rtype r with
  | normal | lognormal => isfinite (d0 r) && isfinite (d1 r)
  | uniform | discrete => isfinite (d0 r) && isfinite (d1 r) && negb (d1 r =? d0 r)
  | dirac => false
  end.
(* lines 391, 426, 458, 486, 518 *)
Definition scale_stdnormal (r : random) (z : dbl) : dbl :=
  match rtype r with
  | normal => d0 r + d1 r * z
  | lognormal =>
    if isinf (d0 r) then PInf else if isnan (d0 r) || isnan (d1 r) then NaN else dexp (d0 r + d1 r * z)
  | uniform => d0 r + (d1 r - d0 r) * stdnormal_cdf z
  | dirac => d0 r
  | discrete => d0 r - #1 + dceil ((d1 r - d0 r + #1) * stdnormal_cdf z)
  end.
(* realized::rolldice, lines 551-562 *)
Definition roll (r : random) (z : dbl) : dbl := if randomizable r then scale_stdnormal r z else mean r.
