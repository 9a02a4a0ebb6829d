(* Model of include/fft.h: the complex and the real fast Fourier transforms.
   An array of doubles is a list of numbers of an ordered field; a complex array is such a list
   too, with the real part of element i at 2i and the imaginary part at 2i+1, which is what the
   reinterpret_casts rely on.  The size template parameter N is 2^k, and k is the argument here.
   The constants M_SQRT1_2 and SIN<A,B>::sin() are parameters; SIN is modelled on its own below. *)
From Coq Require Import List Lia Bool Arith.
From Verif Require Import Base LinBase.
Import ListNotations.

Section Fft.
Context {K : ofield}.
Local Open Scope lin_scope.
(* the number n *)
Fixpoint fn (n : nat) : K := match n with O => f0 | S n => fn n + f1 end.
Variable h : K.                   (* M_SQRT1_2 *)
Variable sn : nat -> nat -> K.    (* SIN<A,B>::sin() *)

(* a reference to a complex, by the place of its real part *)
Definition cget (m : list K) (p : nat) : outcome (K * K) :=
  let* x := aget m p in
  let* y := aget m (p + 1) in
  Ok (x, y).
Definition cset (m : list K) (p : nat) (z : K * K) : outcome (list K) :=
  let* m := aset m p (fst z) in
  aset m (p + 1) (snd z).

(* lines 67-88, TRANSFORM; the four references are to different numbers in all of its uses,
   so all can be read first and written last *)
Definition transform (p0 p1 p2 p3 : nat) (wr wi : K) (m : list K) : outcome (list K) :=
  let* (a0r, a0i) := cget m p0 in
  let* (a1r, a1i) := cget m p1 in
  let* (a2r, a2i) := cget m p2 in
  let* (a3r, a3i) := cget m p3 in
  let t1 := a0r - a2r in
  let t2 := a0i - a2i in
  let t3 := a1r - a3r in
  let t4 := a1i - a3i in
  let t5 := t1 - t4 in
  let t6 := t2 + t3 in
  let t7 := t1 + t4 in
  let t8 := t2 - t3 in
  let* m := cset m p0 (a0r + a2r, a0i + a2i) in
  let* m := cset m p1 (a1r + a3r, a1i + a3i) in
  let* m := cset m p2 (t5 * wr - t6 * wi, t6 * wr + t5 * wi) in
  cset m p3 (t7 * wr + t8 * wi, t8 * wr - t7 * wi).
(* lines 171-192, UNTRANSFORM *)
Definition untransform (p0 p1 p2 p3 : nat) (wr wi : K) (m : list K) : outcome (list K) :=
  let* (a0r, a0i) := cget m p0 in
  let* (a1r, a1i) := cget m p1 in
  let* (a2r, a2i) := cget m p2 in
  let* (a3r, a3i) := cget m p3 in
  let t5 := a2r * wr + a2i * wi in
  let t6 := a2i * wr - a2r * wi in
  let t7 := a3r * wr - a3i * wi in
  let t8 := a3i * wr + a3r * wi in
  let t1 := t5 + t7 in
  let t2 := t6 + t8 in
  let t3 := t6 - t8 in
  let t4 := t7 - t5 in
  let* m := cset m p2 (a0r - t1, a0i - t2) in
  let* m := cset m p3 (a1r - t3, a1i - t4) in
  let* m := cset m p0 (a0r + t1, a0i + t2) in
  cset m p1 (a1r + t3, a1i + t4).

(* the factors: lines 97-100, 146-149, 204-207 and 254-257 are the same *)
Definition wpr (k : nat) : K := let wt := - sn 1 (2 ^ k) in - (f1 + f1) * wt * wt.
Definition wpi (k : nat) : K := - sn 2 (2 ^ k).
Definition next (k : nat) (w : K * K) : K * K :=
  let '(wr, wi) := w in
  let wt := wr in
  let wr := wr + (wr * wpr k - wi * wpi k) in
  (wr, wi + (wi * wpr k + wt * wpi k)).

(* lines 94-103 and 201-210: all the butterflies of one level; off is where the array starts *)
Definition level (tr : nat -> nat -> nat -> nat -> K -> K -> list K -> outcome (list K))
  (k off : nat) (m : list K) : outcome (list K) :=
  let n := (2 ^ (k - 3))%nat in
  let at_ i := (off + 2 * i)%nat in
  let* m := tr (at_ 0) (at_ (2 * n)%nat) (at_ (4 * n)%nat) (at_ (6 * n)%nat) f1 f0 m in
  let* m := tr (at_ n) (at_ (3 * n)%nat) (at_ (5 * n)%nat) (at_ (7 * n)%nat) h h m in
  let* (_, m) := for_up 1 n (fun i '(w, m) =>
    let '(wr, wi) := next k w in
    let* m := tr (at_ i) (at_ (2 * n + i)%nat) (at_ (4 * n + i)%nat) (at_ (6 * n + i)%nat) wr (- wi) m in
    let* m := tr (at_ (2 * n - i)%nat) (at_ (4 * n - i)%nat) (at_ (6 * n - i)%nat) (at_ (8 * n - i)%nat) (- wi) wr m in
    Ok ((wr, wi), m)) ((f1, f0), m) in
  Ok m.

(* lines 108-115 and 212-219 *)
Definition fftc2 (off : nat) (m : list K) : outcome (list K) :=
  let* (a0r, a0i) := cget m off in
  let* (a1r, a1i) := cget m (off + 2) in
  let* m := cset m off (a0r + a1r, a0i + a1i) in
  cset m (off + 2) (a0r - a1r, a0i - a1i).

(* lines 90-122; there is no transform of size 1 *)
Fixpoint fftc (k off : nat) (m : list K) : outcome (list K) :=
  match k with
  | 0 => UB OutOfFuel
  | S k1 =>
    match k1 with
    | 0 => fftc2 off m
    | S k2 =>
      match k2 with
      | 0 =>
        let* m := transform off (off + 2) (off + 4) (off + 6) f1 f0 m in
        fftc2 off m
      | S _ =>
        let N := (2 ^ k)%nat in
        let* m := level transform k off m in
        let* m := fftc k1 off m in
        let* m := fftc k2 (off + 2 * (N / 2))%nat m in
        fftc k2 (off + 2 * (3 * N / 4))%nat m
      end
    end
  end.
(* lines 194-226 *)
Fixpoint fftc_un (k off : nat) (m : list K) : outcome (list K) :=
  match k with
  | 0 => UB OutOfFuel
  | S k1 =>
    match k1 with
    | 0 => fftc2 off m
    | S k2 =>
      match k2 with
      | 0 =>
        let* m := fftc2 off m in
        untransform off (off + 2) (off + 4) (off + 6) f1 f0 m
      | S _ =>
        let N := (2 ^ k)%nat in
        let* m := fftc_un k1 off m in
        let* m := fftc_un k2 (off + 2 * (N / 2))%nat m in
        let* m := fftc_un k2 (off + 2 * (3 * N / 4))%nat m in
        level untransform k off m
      end
    end
  end.

(* lines 124-137, R; the four references are to different numbers in all of its uses *)
Definition rstep (p0 p1 q0 q1 : nat) (wr wi : K) (m : list K) : outcome (list K) :=
  let* a0 := aget m p0 in
  let* a1 := aget m p1 in
  let* b0 := aget m q0 in
  let* b1 := aget m q1 in
  let t1 := a0 - a1 in
  let t2 := b0 - b1 in
  let t3 := a0 + a1 in
  let t4 := b0 + b1 in
  let* m := aset m q0 (t1 * wr - t2 * wi) in
  let* m := aset m q1 (t2 * wr + t1 * wi) in
  let* m := aset m p0 t3 in
  aset m p1 t4.
(* lines 228-243, V *)
Definition vstep (p0 p1 q0 q1 : nat) (wr wi : K) (m : list K) : outcome (list K) :=
  let* a0 := aget m p0 in
  let* a1 := aget m p1 in
  let* b0 := aget m q0 in
  let* b1 := aget m q1 in
  let t5 := b0 * wr + b1 * wi in
  let t6 := b1 * wr - b0 * wi in
  let t1 := a0 + t5 in
  let t2 := a0 - t5 in
  let t3 := a1 + t6 in
  let t4 := a1 - t6 in
  let* m := aset m p0 t1 in
  let* m := aset m p1 t2 in
  let* m := aset m q0 t3 in
  aset m q1 t4.

(* lines 143-152 and 251-260 *)
Definition rlevel (tr : nat -> nat -> nat -> nat -> K -> K -> list K -> outcome (list K))
  (k off : nat) (m : list K) : outcome (list K) :=
  let n := (2 ^ (k - 3))%nat in
  let* m := tr (off + 0)%nat (off + 1)%nat (off + 4 * n)%nat (off + (4 * n + 1))%nat f1 f0 m in
  let* m := tr (off + 2 * n)%nat (off + (2 * n + 1))%nat (off + 6 * n)%nat (off + (6 * n + 1))%nat h h m in
  let* (_, m) := for_up 1 n (fun i '(w, m) =>
    let '(wr, wi) := next k w in
    let* m := tr (off + 2 * i)%nat (off + (1 + 2 * i))%nat (off + (4 * n + 2 * i))%nat (off + (4 * n + 1 + 2 * i))%nat
      wr (- wi) m in
    let* m := tr (off + (4 * n - 2 * i))%nat (off + (4 * n + 1 - 2 * i))%nat (off + (8 * n - 2 * i))%nat
      (off + (8 * n + 1 - 2 * i))%nat (- wi) wr m in
    Ok ((wr, wi), m)) ((f1, f0), m) in
  Ok m.
(* lines 156-162 and 262-268 *)
Definition fftr2 (off : nat) (m : list K) : outcome (list K) :=
  let* a0 := aget m off in
  let* a1 := aget m (off + 1) in
  let* m := aset m off (a0 + a1) in
  aset m (off + 1) (a0 - a1).
(* lines 139-169 *)
Fixpoint fftr (k off : nat) (m : list K) : outcome (list K) :=
  match k with
  | 0 => UB OutOfFuel
  | S k1 =>
    match k1 with
    | 0 => fftr2 off m
    | S k2 =>
      match k2 with
      | 0 =>
        let* m := rstep off (off + 1) (off + 2) (off + 3) f1 f0 m in
        fftr2 off m
      | S _ =>
        let* m := rlevel rstep k off m in
        let* m := fftr k1 off m in
        fftc k2 (off + 2 ^ k / 2)%nat m
      end
    end
  end.
(* lines 245-275 *)
Fixpoint fftr_un (k off : nat) (m : list K) : outcome (list K) :=
  match k with
  | 0 => UB OutOfFuel
  | S k1 =>
    match k1 with
    | 0 => fftr2 off m
    | S k2 =>
      match k2 with
      | 0 =>
        let* m := fftr2 off m in
        vstep off (off + 1) (off + 2) (off + 3) f1 f0 m
      | S _ =>
        let* m := fftc_un k2 (off + 2 ^ k / 2)%nat m in
        let* m := fftr_un k1 off m in
        rlevel vstep k off m
      end
    end
  end.

(* lines 277-284 *)
Definition fftc_scale (k : nat) (m : list K) : outcome (list K) :=
  let* n := divc f1 (fn (2 ^ k)) in
  for_up 0 (2 ^ k) (fun i m =>
    let* (x, y) := cget m (2 * i) in
    cset m (2 * i) (x * n, y * n)) m.
(* lines 286-295 *)
Definition fftr_scale (k : nat) (m : list K) : outcome (list K) :=
  let* x := aget m 0 in
  let* x := divc x (fn (2 ^ k)) in
  let* m := aset m 0 x in
  let* y := aget m 1 in
  let* y := divc y (fn (2 ^ k)) in
  let* m := aset m 1 y in
  let* n := divc (f1 + f1) (fn (2 ^ k)) in
  for_up 2 (2 ^ k) (fun i m =>
    let* x := aget m i in
    aset m i (x * n)) m.
(* lines 297-306; n is the size *)
Definition fftc_mul (n : nat) (a b : list K) : outcome (list K) :=
  for_up 0 n (fun i a =>
    let* (t1, t2) := cget a (2 * i) in
    let* (b1, b2) := cget b (2 * i) in
    cset a (2 * i) (t1 * b1 - t2 * b2, t1 * b2 + t2 * b1)) a.
(* lines 308-323 *)
Definition fftr_mul (k : nat) (a b : list K) : outcome (list K) :=
  match k with
  | 1 =>
    let* a0 := aget a 0 in
    let* b0 := aget b 0 in
    let* a := aset a 0 (a0 * b0) in
    let* a1 := aget a 1 in
    let* b1 := aget b 1 in
    aset a 1 (a1 * b1)
  | _ =>
    let* a0 := aget a 0 in
    let* b0 := aget b 0 in
    let* a1 := aget a 1 in
    let* b1 := aget b 1 in
    let* a := fftc_mul (2 ^ k / 2) a b in
    let* a := aset a 0 (a0 * b0) in
    aset a 1 (a1 * b1)
  end.

(* lines 52-65, SIN<A,B>: x is A*M_PI/B; the argument M runs from 2 to N = 34 in steps of 2,
   and c is how many steps are left *)
Fixpoint series (x : K) (c M : nat) : K :=
  match c with
  | 0 => f1
  | S c => f1 - x * x / fn M / (fn M + f1) * series x c (M + 2)
  end.
Definition sin_series (x : K) : K := x * series x 16 2.
End Fft.
