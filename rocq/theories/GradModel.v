(* Model of the loop over load radii of LEsystem::calculate with its goto gradloop
   (src/pavement.cpp lines 1160-1380), as far as one evaluation point and its vertical
   deflection are concerned.

   Simplifications:
   - Env stands for the array E[] of layer moduli; base is its content on entry (lines
     1102-1105) and stepped gl its content after lines 1356-1363;
   - resp ia E is the vertical deflection that all loads of radius number ia cause at the
     point with moduli E (lines 1252-1346, p*vdp summed over those loads);
   - deflections are integers, so that sums are exact, and the division by GRADSTEP is left
     out: grads holds the differences. *)
From Coq Require Import List ZArith Bool Arith.
From Verif Require Import Base.
Import ListNotations.
Local Open Scope Z_scope.

Section Grad.
Context {Env : Type}.
Variable base : Env.
Variable stepped : nat -> Env.
Variable resp : nat -> Env -> Z.
Variable nl : nat.

(* E[], d.data[4][2], d.deflgrad[], gl (None is UINT_MAX) *)
Record gst : Type := Gst { ge : Env; defl : Z; dgrad : list Z; gl : option nat }.

(* lines 1343-1345 with addtodata (lines 493-497) *)
Definition add_response (st : gst) (ia : nat) : outcome gst :=
  match gl st with
  | Some k =>
    let* d := aget (dgrad st) k in
    let* ds := aset (dgrad st) k (d + resp ia (ge st)) in
    Ok (Gst (ge st) (defl st) ds (gl st))
  | None => Ok (Gst (ge st) (defl st + resp ia (ge st)) (dgrad st) (gl st))
  end.
(* from the label gradloop to the end of the body, lines 1249-1367 *)
Fixpoint gradloop (fuel : nat) (st : gst) (ia : nat) : outcome gst :=
  match fuel with
  | O => UB OutOfFuel
  | S fuel =>
    let* st := add_response st ia in
    let k := match gl st with None => 0%nat | Some k => S k end in
    if negb (k =? nl)%nat
    then gradloop fuel (Gst (stepped k) (defl st) (dgrad st) (Some k)) ia
    else Ok (Gst (ge st) (defl st) (dgrad st) None)
  end.
(* line 1160 *)
Fixpoint radii (n : nat) (st : gst) (ia : nat) : outcome gst :=
  match n with
  | O => Ok st
  | S n => let* st := gradloop (S nl) st ia in radii n st (S ia)
  end.
(* lines 1132-1144 (zeroing), the loop and lines 1376-1378; the result is the deflection,
   the differences and the moduli left for principle() (line 1374) *)
Definition calc_grad (na : nat) : outcome (Z * list Z * Env) :=
  let* st := radii na (Gst base 0 (repeat 0 nl) None) 0 in
  Ok (defl st, map (fun d => d - defl st) (dgrad st), ge st).
End Grad.
