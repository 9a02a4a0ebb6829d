(* Model of transpose (src/linalg.cpp, lines 40-61) and of the packed index macros
   (include/linalg.h, lines 57-77). *)
From Coq Require Import ZArith List Bool Arith.
From Verif Require Import Base.
Import ListNotations.
Local Open Scope nat_scope.

Section Transpose.
Context {A : Type}.
Variables m n : nat.
(* j = (j%m)*n+j/m, lines 49 and 55; the loops are not entered when m is 0 *)
Definition next (j : nat) : nat := (j mod m) * n + j / m.

(* lines 47-50: do { i++; j = next(j) } while (j > s); the result is (i, j) *)
Fixpoint follow (fuel : nat) (s i j : nat) : outcome (nat * nat) :=
  match fuel with
  | O => UB OutOfFuel
  | S fuel => let j := next j in
      if s <? j then follow fuel s (S i) j else Ok (S i, j)
  end.
(* lines 54-58 *)
Fixpoint cycle (fuel : nat) (s : nat) (tmp : A) (a : list A) (j : nat) : outcome (list A) :=
  match fuel with
  | O => UB OutOfFuel
  | S fuel =>
      let i := next j in
      let* x := (if i =? s then Ok tmp else aget a i) in
      let* a := aset a j x in
      if s <? i then cycle fuel s tmp a i else Ok a
  end.
(* one round of the for loop, lines 46-59 *)
Definition round (fuel : nat) (a : list A) (s : nat) : outcome (list A) :=
  let* (i, j) := follow fuel s 0 s in
  if (j <? s) || (i =? 1) then Ok a
  else let* tmp := aget a s in cycle fuel s tmp a s.
Fixpoint rounds (fuel : nat) (a : list A) (s : nat) (k : nat) : outcome (list A) :=
  match k with
  | O => Ok a
  | S k => let* a := round fuel a s in rounds fuel a (S s) k
  end.
(* The number of rounds is m*n as an unsigned int.  fuel bounds each of the inner loops. *)
Definition transpose (fuel : nat) (a : list A) : outcome (list A) :=
  rounds fuel a 0 (Z.to_nat (u32 (Z.of_nat m * Z.of_nat n))).
End Transpose.

(* linalg.h, lines 60, 65, 70 and 75-76 (unsigned wrap is not modelled) *)
Definition T_SIZE (n : nat) : nat := n * (n + 1) / 2.
Definition T_IDX (i j : nat) : nat := j * (j + 1) / 2 + i.
Definition B_SIZE (n w : nat) : nat := (w + 1) * n - w * (w + 1) / 2.
Definition B_IDX (n w i j : nat) : nat :=
  if j <=? w then j * (j + 1) / 2 + i else (j + 1) * w + i - w * (w + 1) / 2.
