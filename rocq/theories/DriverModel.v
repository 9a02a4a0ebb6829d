(* Model of LEbackcalc::backcalc and LEbackcalc::seed, src/pavement.cpp 1789-1993: the driver of the
   backcalculation.

   Simplifications:
   - doubles are the elements of an ordered field, sq is sqrt, lg is log10 and pw is pow(10,.); the
     quotients tstep/step and tstep/ostep follow the code when their divisor is zero (infinite, or a
     NaN which is not above anything);
   - calculate and result are given: calc_at is the deflection and grad_at its gradients for given
     moduli, a load group and a point; fast and slow calculations are the same; see LeModel.v for
     the cache of the results and for the evaluation points, of which only what becomes of them is
     kept here (restored);
   - the sum of pressure times quad8_vdp over the loads of a group (line 1984) is given (surf);
   - deflgrad, dsm and kalman are those of DeflgradModel.v, BowlModel.v and KalmanModel.v; junk n is
     whatever an array of n doubles holds before it is written;
   - the products maxsteps*nl do not wrap. *)
From Coq Require Import List ZArith Bool Arith.
From Verif Require Import Base LinBase QrModel BowlModel KalmanModel DeflgradModel.
Import ListNotations.
Local Open Scope nat_scope.

Section Driver.
Context {K : ofield}.
Local Open Scope lin_scope.
Variables sq lg pw : K -> K.
Variable junk : nat -> list K.

(* defldata, src/pavement.h 588-609; the point is a number *)
Record meas : Type := Meas { mlg : nat; mpt : nat; mval : K }.
Record world : Type := World {
  calc_at : list K -> nat -> nat -> K;
  grad_at : option (list K) -> list K -> nat -> nat -> list K;
  surf : nat -> nat -> K }.
(* the members set by setup, lines 629-635, the groups, the default group and the limits of the
   loops of inv_eig and dsm *)
Record conf : Type := Conf {
  precision : K; noise : K; tolerance : K; maxsteps : nat;
  groups : nat; clg : nat;
  fuel : nat; etol : K; weight : nat -> K }.
Record outp : Type := Out { ret : bool; emods : list K; calcs : option (list K); restored : bool; grads : nat; kals : nat }.

Variable C : conf.
Variable W : world.
Variable ms : list meas.

Definition lo : K := f1.
Definition hi : K := fnat 9.
Definition tenth : K := f1 / fnat 10.
Definition half : K := f1 / two.
Definition hundred : K := fnat 100.
(* std::exp(-(5.0+ksteps)) is weight (S ksteps) and the 1.0 of line 1842 is weight 0 *)
Definition noises : K := noise C * noise C + precision C * precision C / (two + f1).

(* result(d.lg,d) and result(d), src/pavement.h 522-537: the second is of the default group *)
Definition deflections (E : list K) : list K := map (fun m => calc_at W E (mlg m) (mpt m)) ms.
Definition look (q : option (list K)) (E : list K) : outcome (defls (K := K)) :=
  if (clg C <? groups C)%nat then
    Ok (Defls (map mval ms) (deflections E) (map (fun m => grad_at W q E (clg C) (mpt m)) ms))
  else UB OutOfBounds.

(* lines 1970-1993 *)
Definition fminv (x y : K) : K := if fltb y x then y else x.
Definition seed_sum : K :=
  fold_left (fun e m => if fle (mval m) f0 then e else e + surf W (mlg m) (mpt m) / fmax (mval m) (f1 / fnat (10 * 1000))) ms f0.
Definition negdefl : bool := existsb (fun m => fle (mval m) f0) ms.
Definition seed (nl : nat) : outcome (list K) :=
  let* e := divc seed_sum (fnat (length ms)) in
  let E := lg (fminv (fmax (fnat 1000) e) (fnat 1000 * fnat 1000)) in
  Ok (repeat (if negdefl then two else E) nl).

(* the calls *)
Definition call_kalman (nl : nat) (wt : K) (E P : list K) : outcome (K * list K) :=
  let dl := length ms in
  let* D := look None E in
  kalman sq (fuel C) (etol C) nl wt noises lo hi D P (junk (dl * nl)) (junk (dl * dl)) (junk (nl * dl)) (junk dl) (junk nl) (junk dl) (junk dl).
Definition call_deflgrad (nl : nat) (P Q : list K) : outcome (K * list K * list K) :=
  let dl := length ms in
  let* D := look (Some Q) (map pw P) in
  deflgrad_step sq nl (precision C) lo hi D P Q (junk (dl * nl)) (junk dl) (junk dl) (junk dl) (junk nl) (junk nl) (junk nl).
Definition bowl_at (P : list K) : K :=
  match bowlerror sq (fun p => deflections (map pw p)) (map mval ms) P with Ok e => e | _ => f0 end.
Definition call_dsm (P : list K) : outcome (list K) :=
  let* (_, P) := dsm bowl_at (fuel C) sq tenth (hundred * tolerance C) lo hi P in
  Ok P.

(* x/y > c *)
Definition above (x y c : K) : bool := if feqb y f0 then fltb f0 x else fltb c (x / y).
(* lines 1855-1908; turns is maxsteps*nl minus steps, n counts the calls *)
Fixpoint grad_loop (turns n nl : nat) (O P Q : list K) (tstep step : K) : outcome (nat * nat * list K * K) :=
  match turns with
  | O => Ok (0%nat, n, P, step)
  | S turns =>
    let T := P in
    let astep := step in
    let* (step, P, Q) := call_deflgrad nl P Q in
    let tstep := tstep + step in
    if fltb astep tenth && fltb astep step && fle (tolerance C) step then Ok (turns, S n, T, step)
    else
      let ostep := step_len sq O P in
      if fltb step (hundred * tolerance C) || above tstep step (fnat 60) || above tstep ostep (fnat 6) then Ok (turns, S n, P, step)
      else grad_loop turns (S n) nl O P Q tstep step
  end.
(* lines 1912-1944 *)
Fixpoint kal_loop (turns n nl : nat) (P : list K) (step : K) : outcome (nat * list K * K) :=
  match turns with
  | O => Ok (n, P, step)
  | S turns =>
    let* (step, P) := call_kalman nl (weight C (S n)) (map pw P) P in
    if fltb step (tolerance C) then Ok (S n, P, step)
    else kal_loop turns (S n) nl P step
  end.

(* lines 1828-1835 *)
Definition seeded (E : list K) : bool := forallb (fun e => negb (fle e f0)) E.
Definition unitm (nl : nat) : list K := map (fun k => if (k / nl =? k mod nl)%nat then f1 else f0) (seq 0 (nl * nl)).
(* lines 1855-1963, from the starting point O and the step so far *)
Definition settle (nl : nat) (O P : list K) (step : K) : outcome outp :=
  let* (turns, g, P, step) := grad_loop (maxsteps C * nl) 0 nl O P (unitm nl) f0 step in
  let* P := if fle tenth step then call_dsm P else Ok P in
  let* (k, P, step) := kal_loop turns 0 nl P step in
  let E := map pw P in
  Ok (Out (fle step (tolerance C)) E (Some (deflections E)) true g k).
(* lines 1792-1964 *)
Definition backcalc (E : list K) : outcome outp :=
  let nl := length E in
  if (nl =? 0)%nat then Ok (Out false E None true 0 0)
  else if (length ms =? 0)%nat then Ok (Out false E None true 0 0)
  else if negb (forallb (fun m => mlg m <? groups C)%nat ms) then Throw RuntimeError
  else if seeded E then
    let P0 := map lg E in
    let* (step, P) := call_kalman nl (weight C 0) E P0 in
    if fltb step (tolerance C) then Ok (Out true E (Some (deflections E)) false 0 0)
    else if fltb half step then
      let* P := seed nl in
      settle nl P P step
    else settle nl P0 P step
  else
    let* P := seed nl in
    settle nl P P f1.
End Driver.
