(* Model of choose and of the rounding macros of include/mathplus.h, and of the fixed point
   class of include/fixed.h.  double and float are exact rationals (rounding is not
   modelled); int has 32 bits and its overflow is undefined, as is the conversion of a
   double that does not fit. *)
From Coq Require Import ZArith QArith List Bool SpecFloat.
From Verif Require Import Base.
Local Open Scope Z_scope.

Definition INT_MIN : Z := - 2^31.
Definition INT_MAX : Z := 2^31 - 1.
Definition int_ok (x : Z) : bool := (INT_MIN <=? x) && (x <=? INT_MAX).
(* the result of an int operation *)
Definition i32 (x : Z) : outcome Z := if int_ok x then Ok x else UB SignedOverflow.
(* int(x) of a double: towards zero *)
Definition trunc (x : Q) : Z := Z.quot (Qnum x) (Zpos (Qden x)).
Definition to_int (x : Q) : outcome Z := i32 (trunc x).

(* ---- mathplus.h, lines 218-229 ---- *)
(* lines 226-227: for (i = 2; i <= k; i++) c = c*++j/i; rounds is the number left *)
Fixpoint choose_loop (rounds : nat) (i j c : Z) : outcome Z :=
  match rounds with
  | O => Ok c
  | S rounds =>
      let* j := i32 (j + 1) in
      let* cj := i32 (c * j) in
      choose_loop rounds (i + 1) j (Z.quot cj i)
  end.
Definition choose (n k : Z) : outcome Z :=
  let* nk := i32 (n - k) in
  let* j := i32 (nk + 1) in          (* line 221, before the tests *)
  if (k <? 0) || (n <? k) then Ok 0
  else if (k =? 0) || (k =? n) then Ok 1
  else choose_loop (Z.to_nat (k - 1)) 2 j j.

(* ---- mathplus.h, lines 154-156 ---- *)
Definition FLOOR (x : Q) : outcome Z :=
  let* a := to_int x in let* b := i32 (1 - a) in
  let* c := to_int (x + inject_Z b) in i32 (c - b).
Definition CEIL (x : Q) : outcome Z :=
  let* a := to_int x in let* b := i32 (2 + a) in
  let* c := to_int (inject_Z b - x) in i32 (b - c).
Definition ROUND (x : Q) : outcome Z :=
  if Qle_bool 0 x then to_int (x + (1#2))
  else let* a := to_int ((1#2) - x) in i32 (- a).

(* The same macros on IEEE binary64 numbers, with the rounding of Coq's SpecFloat. *)
Definition d_trunc (x : spec_float) : outcome Z :=
  match x with
  | S754_zero _ => Ok 0
  | S754_finite s m e =>
      let a := if 0 <=? e then Zpos m * 2 ^ e else Zpos m / 2 ^ (- e) in
      i32 (if s then - a else a)
  | _ => UB SignedOverflow
  end.
Definition d_of_Z (z : Z) : spec_float := binary_normalize 53 1024 z 0 false.
Definition d_half : spec_float := binary_normalize 53 1024 1 (-1) false.
Definition d_add := SFadd 53 1024.
Definition d_sub := SFsub 53 1024.
Definition FLOOR_d (x : spec_float) : outcome Z :=
  let* a := d_trunc x in let* b := i32 (1 - a) in
  let* c := d_trunc (d_add x (d_of_Z b)) in i32 (c - b).
Definition CEIL_d (x : spec_float) : outcome Z :=
  let* a := d_trunc x in let* b := i32 (2 + a) in
  let* c := d_trunc (d_sub (d_of_Z b) x) in i32 (b - c).
Definition ROUND_d (x : spec_float) : outcome Z :=
  if SFleb (S754_zero false) x then d_trunc (d_add x d_half)
  else let* a := d_trunc (d_sub d_half x) in i32 (- a).

(* ---- fixed.h, class fixed<P>, lines 54-201; the state is value ---- *)
Section Fixed.
Variable P : Z.
Definition scale : Z := 2 ^ P.
(* lines 63-65, 103-106: a left shift; the shift of a negative number is what the compilers
   make of it *)
Definition of_int (i : Z) : outcome Z := i32 (i * scale).
(* lines 66-68: the unsigned result is converted to int modulo 2^32 *)
Definition of_unsigned (i : Z) : Z :=
  let u := u32 (i * scale) in if u <=? INT_MAX then u else u - 2^32.
(* lines 69-76, 107-111 *)
Definition of_double (d : Q) : outcome Z :=
  if Qle_bool 0 d then to_int (d * inject_Z scale + (1#2))
  else let* a := to_int ((1#2) - d * inject_Z scale) in i32 (- a).
(* lines 112-114: an arithmetic shift *)
Definition as_int (v : Z) : Z := Z.shiftr v P.
(* lines 115-120 *)
Definition as_double (v : Z) : Q := inject_Z v / inject_Z scale.
(* lines 85-92, 143-157 *)
Definition f_add (a b : Z) : outcome Z := i32 (a + b).
Definition f_sub (a b : Z) : outcome Z := i32 (a - b).
Definition f_neg (a : Z) : outcome Z := i32 (- a).
(* lines 93-100, 158-165; dividing by zero gives an infinity, which does not fit *)
Definition f_mul (a b : Z) : outcome Z := of_double (as_double a * as_double b).
Definition f_div (a b : Z) : outcome Z :=
  if b =? 0 then UB SignedOverflow else of_double (as_double a / as_double b).
(* lines 123-140 *)
Definition f_eq (a b : Z) : bool := a =? b.
Definition f_ne (a b : Z) : bool := negb (a =? b).
Definition f_lt (a b : Z) : bool := a <? b.
Definition f_le (a b : Z) : bool := a <=? b.
Definition f_gt (a b : Z) : bool := b <? a.
Definition f_ge (a b : Z) : bool := b <=? a.
(* lines 168-183 *)
Definition f_inc (a : Z) : outcome Z := i32 (a + scale).
Definition f_dec (a : Z) : outcome Z := i32 (a - scale).
(* lines 194-201 *)
Definition f_abs (a : Z) : outcome Z := i32 (Z.abs a).
End Fixed.
