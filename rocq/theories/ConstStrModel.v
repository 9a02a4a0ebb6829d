(* Model of include/conststr.h: constant strings, their hash and their comparisons.

   A string is the list of its len bytes, each in 0..255 (class conststr, lines 83-213: str
   and len; the memory outside of the len bytes is never read by the functions here).
   hash_t is std::size_t with 8 bytes. *)
From Coq Require Import ZArith List Bool.
From Verif Require Import Base.
Import ListNotations.
Local Open Scope Z_scope.

Section ConstStr.
(* is char a signed type?  (it is for gcc and clang on x86) *)
Variable schar : bool.

(* lines 200-203 *)
Definition basis : Z := 14695981039346656037.
Definition prime : Z := 1099511628211.
(* static_cast<hash_t>( *str), line 207: a negative char is sign extended *)
Definition char_hash_t (c : Z) : Z := if schar && (128 <=? c) then c - 256 + 2^64 else c.
(* lines 204-208 *)
Fixpoint fnv1a_hash (str : list Z) (hash : Z) : Z :=
  match str with
  | [] => hash
  | c :: s => fnv1a_hash s ((Z.lxor hash (char_hash_t c) * prime) mod 2^64)
  end.

(* lines 196-199 *)
Record conststr : Type := CS { str : list Z; hash : Z }.
Definition len (s : conststr) : nat := length (str s).
(* lines 91-99: from an array or a pointer with a length; 108-118 are the same *)
Definition cs_new (s : list Z) : conststr := CS s (fnv1a_hash s basis).
(* lines 210-212: calclen reads up to the null; mem is what the pointer points to *)
Fixpoint calclen (mem : list Z) : outcome nat :=
  match mem with
  | [] => UB OutOfBounds
  | c :: m => if c =? 0 then Ok 0%nat else let* n := calclen m in Ok (S n)
  end.
(* lines 101-103 *)
Definition cs_of_ptr (mem : list Z) : outcome conststr :=
  let* l := calclen mem in Ok (cs_new (firstn l mem)).
(* lines 130-132 *)
Definition hash_code (s : conststr) : Z := hash s.
(* lines 162-164 *)
Definition cs_at (s : conststr) (i : nat) : outcome Z := aget (str s) i.
(* lines 166-168: a piece [b,e) of the string *)
Definition cs_sub (s : conststr) (b e : nat) : outcome conststr :=
  if (b <=? e)%nat && (e <=? len s)%nat
  then Ok (cs_new (firstn (e - b) (skipn b (str s))))
  else UB OutOfBounds.

(* strncmp: compares at most n bytes as unsigned chars, stops after a null in both.
   Only the sign of its result is specified. *)
Fixpoint strncmp (a b : list Z) (n : nat) : Z :=
  match n, a, b with
  | S n, x :: a, y :: b =>
      if x =? y then (if x =? 0 then 0 else strncmp a b n) else (if x <? y then -1 else 1)
  | _, _, _ => 0
  end.
(* lines 170-173 *)
Definition compare (s k : conststr) : Z :=
  let c := strncmp (str s) (str k) (Nat.min (len s) (len k)) in
  if (len s =? len k)%nat then c
  else if c =? 0 then (if (len s <? len k)%nat then -1 else 1) else c.
(* lines 174-191 *)
Definition cs_eq (s k : conststr) : bool := (hash s =? hash k) && (compare s k =? 0).
Definition cs_ne (s k : conststr) : bool := negb (hash s =? hash k) && negb (compare s k =? 0).
Definition cs_lt (s k : conststr) : bool := compare s k <? 0.
Definition cs_le (s k : conststr) : bool := compare s k <=? 0.
Definition cs_gt (s k : conststr) : bool := compare s k >? 0.
Definition cs_ge (s k : conststr) : bool := compare s k >=? 0.
End ConstStr.
