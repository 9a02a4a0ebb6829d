(* Model of class rng (include/rng.h, lines 78-183), without stdnormal.  The union array
   status is a list of 64 bit words; the 32 bit words of the seeding are laid out little
   endian.  A double is read back from its bits as an exact rational; the subtractions of
   the draws are exact for the numbers in question. *)
From Coq Require Import ZArith QArith List Bool.
From Verif Require Import Base.
Import ListNotations.
Local Open Scope Z_scope.

(* lines 78-91 *)
Definition DSFMT_N : nat := 191.     (* (19937-128)/104 + 1 *)
Definition LOW_MASK : Z := 0x000FFFFFFFFFFFFF.
Definition HIGH_CONST : Z := 0x3FF0000000000000.
Definition SR : Z := 12.
Definition POS1 : nat := 117.
Definition SL1 : Z := 19.
Definition MSK1 : Z := 0x000ffafffffffb3f.
Definition MSK2 : Z := 0x000ffdfffc90fffd.
Definition FIX1 : Z := 0x90014964b32f4329.
Definition FIX2 : Z := 0x3b8d12ac548a7c7a.
Definition PCV1 : Z := 0x3d84e1ac0dc82880.
Definition PCV2 : Z := 0x0000000000000001.

Record rng := { idx : nat; status : list Z }.

(* lines 102-107: the 32 bit words i, i+1, ... after the word x *)
Fixpoint seed_words (k : nat) (i : Z) (x : Z) : list Z :=
  match k with
  | O => []
  | S k =>
      let y := u32 (1812433253 * (Z.lxor x (Z.shiftr x 30)) + i) in
      y :: seed_words k (i + 1) y
  end.
Definition words32 (seed : Z) : list Z := seed :: seed_words ((DSFMT_N + 1) * 4 - 1) 1 seed.
(* the same memory as 64 bit words *)
Fixpoint pair_words (l : list Z) : list Z :=
  match l with
  | a :: b :: l => a + b * 2^32 :: pair_words l
  | _ => []
  end.
(* lines 109-110 *)
Definition mask_word (u : Z) : Z := Z.lor (Z.land u LOW_MASK) HIGH_CONST.
Definition masked (l : list Z) : list Z :=
  map mask_word (firstn (DSFMT_N * 2) l) ++ skipn (DSFMT_N * 2) l.
(* lines 113-114: i = 32, 16, 8, 4, 2, 1 *)
Definition fold_bits (x : Z) : Z :=
  fold_left (fun x i => Z.lxor x (Z.shiftr x i)) [32; 16; 8; 4; 2; 1] x.
(* lines 99-119 *)
Definition make_rng (seed : Z) : outcome rng :=
  let st := masked (pair_words (words32 seed)) in
  let* u0 := aget st (DSFMT_N * 2) in
  let* u1 := aget st (DSFMT_N * 2 + 1) in
  let inner := Z.land (Z.lxor u0 FIX1) PCV1 in
  let inner := Z.lxor inner (Z.land (Z.lxor u1 FIX2) PCV2) in
  let inner := Z.land (fold_bits inner) 1 in
  let* st := (if negb (inner =? 1) then aset st (DSFMT_N * 2 + 1) (Z.lxor u1 1) else Ok st) in
  Ok {| idx := DSFMT_N * 2; status := st |}.

(* regen, lines 167-182: one round *)
Definition regen_step (st : list Z) (i : nat) : outcome (list Z) :=
  let* t0 := aget st (i * 2) in
  let* t1 := aget st (i * 2 + 1) in
  let* L0 := aget st (DSFMT_N * 2) in
  let* L1 := aget st (DSFMT_N * 2 + 1) in
  let* b0 := aget st ((i + POS1) mod DSFMT_N * 2) in
  let n0 := Z.lxor (Z.lxor (Z.lxor (u64 (Z.shiftl t0 SL1)) (Z.shiftr L1 32))
                           (u64 (Z.shiftl L1 32))) b0 in
  let* st := aset st (DSFMT_N * 2) n0 in
  let* b1 := aget st ((i + POS1) mod DSFMT_N * 2 + 1) in
  let n1 := Z.lxor (Z.lxor (Z.lxor (u64 (Z.shiftl t1 SL1)) (Z.shiftr L0 32))
                           (u64 (Z.shiftl L0 32))) b1 in
  let* st := aset st (DSFMT_N * 2 + 1) n1 in
  let* st := aset st (i * 2) (Z.lxor (Z.lxor (Z.shiftr n0 SR) (Z.land n0 MSK1)) t0) in
  aset st (i * 2 + 1) (Z.lxor (Z.lxor (Z.shiftr n1 SR) (Z.land n1 MSK2)) t1).
Fixpoint regen_loop (k i : nat) (st : list Z) : outcome (list Z) :=
  match k with
  | O => Ok st
  | S k => let* st := regen_step st i in regen_loop k (S i) st
  end.
Definition regen (st : list Z) : outcome (list Z) := regen_loop DSFMT_N 0 st.

(* c1o2, lines 120-127: the bits of the number and the new state *)
Definition draw (r : rng) : outcome (Z * rng) :=
  let* r := (if (DSFMT_N * 2 <=? idx r)%nat
             then let* st := regen (status r) in Ok {| idx := 0; status := st |}
             else Ok r) in
  if (idx r <? DSFMT_N * 2)%nat then
    let* u := aget (status r) (idx r) in
    Ok (u, {| idx := S (idx r); status := status r |})
  else UB OutOfBounds.

(* the double with the bits u (sign 0, exponent field e neither 0 nor 2047) *)
Definition double_of (u : Z) : Q :=
  let e := Z.shiftr u 52 - 1023 in
  let m := (inject_Z (2^52 + Z.land u LOW_MASK) / inject_Z (2^52))%Q in
  (m * (if (0 <=? e)%Z then inject_Z (2 ^ e) else / inject_Z (2 ^ (- e))))%Q.

(* lines 120-142 *)
Definition c1o2 (r : rng) : outcome (Q * rng) :=
  let* (u, r) := draw r in Ok (double_of u, r).
Definition c0o1 (r : rng) : outcome (Q * rng) :=
  let* (x, r) := c1o2 r in Ok ((x - 1)%Q, r).
Definition o0c1 (r : rng) : outcome (Q * rng) :=
  let* (x, r) := c1o2 r in Ok ((2 - x)%Q, r).
Definition o0o1 (r : rng) : outcome (Q * rng) :=
  let* (u, r) := draw r in Ok ((double_of (Z.lor u 1) - 1)%Q, r).
