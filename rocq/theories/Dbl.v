(* Numbers with infinities and NaN, and exact arithmetic between them.

   Simplifications: no rounding, no overflow and no underflow; there is one zero (dividing a
   nonzero number by it gives the infinity of the sign of that number). *)
From Coq Require Import Reals ZArith List Bool.
Import ListNotations.
Local Open Scope R_scope.

Inductive dbl : Type := Fin (r : R) | PInf | NInf | NaN.

Definition rltb (a b : R) : bool := if Rlt_dec a b then true else false.
Definition rleb (a b : R) : bool := if Rle_dec a b then true else false.
Definition reqb (a b : R) : bool := if Req_EM_T a b then true else false.

Definition isnan (x : dbl) : bool := match x with NaN => true | _ => false end.
Definition isinf (x : dbl) : bool := match x with PInf | NInf => true | _ => false end.
Definition isfinite (x : dbl) : bool := match x with Fin _ => true | _ => false end.

(* infinity times the sign of a number *)
Definition signed_inf (r : R) : dbl := if rltb 0 r then PInf else if rltb r 0 then NInf else NaN.

Definition dneg (x : dbl) : dbl := match x with Fin a => Fin (- a) | PInf => NInf | NInf => PInf | NaN => NaN end.
Definition dadd (x y : dbl) : dbl :=
  match x, y with
  | NaN, _ | _, NaN | PInf, NInf | NInf, PInf => NaN
  | Fin a, Fin b => Fin (a + b)
  | PInf, _ | _, PInf => PInf
  | NInf, _ | _, NInf => NInf
  end.
Definition dsub (x y : dbl) : dbl := dadd x (dneg y).
Definition dmul (x y : dbl) : dbl :=
  match x, y with
  | NaN, _ | _, NaN => NaN
  | Fin a, Fin b => Fin (a * b)
  | Fin a, PInf | PInf, Fin a => signed_inf a
  | Fin a, NInf | NInf, Fin a => signed_inf (- a)
  | PInf, PInf | NInf, NInf => PInf
  | _, _ => NInf
  end.
Definition ddiv (x y : dbl) : dbl :=
  match x, y with
  | NaN, _ | _, NaN => NaN
  | Fin a, Fin b => if reqb b 0 then signed_inf a else Fin (a / b)
  | Fin a, _ => Fin 0
  | PInf, Fin b => if rltb b 0 then NInf else PInf
  | NInf, Fin b => if rltb b 0 then PInf else NInf
  | _, _ => NaN
  end.
Definition dabs (x : dbl) : dbl := match x with Fin a => Fin (Rabs a) | NaN => NaN | _ => PInf end.
Definition dsqrt (x : dbl) : dbl :=
  match x with Fin a => if rltb a 0 then NaN else Fin (sqrt a) | PInf => PInf | _ => NaN end.
Definition dlog (x : dbl) : dbl :=
  match x with Fin a => if rltb 0 a then Fin (ln a) else if reqb a 0 then NInf else NaN | PInf => PInf | _ => NaN end.
Definition dexp (x : dbl) : dbl := match x with Fin a => Fin (exp a) | PInf => PInf | NInf => Fin 0 | NaN => NaN end.
Definition dfloor (x : dbl) : dbl := match x with Fin a => Fin (IZR (Int_part a)) | _ => x end.
Definition dceil (x : dbl) : dbl := match x with Fin a => Fin (- IZR (Int_part (- a))) | _ => x end.
(* comparisons with NaN are false *)
Definition dltb (x y : dbl) : bool :=
  match x, y with
  | NaN, _ | _, NaN => false
  | Fin a, Fin b => rltb a b
  | NInf, NInf | PInf, _ | _, NInf => false
  | _, _ => true
  end.
Definition deqb (x y : dbl) : bool :=
  match x, y with Fin a, Fin b => reqb a b | PInf, PInf | NInf, NInf => true | _, _ => false end.
Definition dleb (x y : dbl) : bool := dltb x y || deqb x y.

Declare Scope dbl_scope.
Delimit Scope dbl_scope with dbl.
Notation "x + y" := (dadd x y) : dbl_scope.
Notation "x - y" := (dsub x y) : dbl_scope.
Notation "x * y" := (dmul x y) : dbl_scope.
Notation "x / y" := (ddiv x y) : dbl_scope.
Notation "- x" := (dneg x) : dbl_scope.
Notation "x <? y" := (dltb x y) : dbl_scope.
Notation "x <=? y" := (dleb x y) : dbl_scope.
Notation "x =? y" := (deqb x y) : dbl_scope.
Notation "# r" := (Fin r%R) (at level 1, format "# r") : dbl_scope.
