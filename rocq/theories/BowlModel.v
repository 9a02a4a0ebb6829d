(* Model of the searches of the backcalculation, src/pavement.cpp: step_len (1779-1786), bowlerror
   (2002-2019), brent (2258-2347), conjgrad (2356-2400) and dsm (2403-2515).

   Simplifications:
   - doubles are the elements of an ordered field, so the arithmetic is exact;
   - the deflections that calculate() and result() give for moduli 10^P[i] are an arbitrary
     function of the vector P; brent, conjgrad and dsm see it only through bowlerror, which is an
     arbitrary function in their models; sqrt and log10 are functions of which only what is stated
     with a theorem is used;
   - the golden section constant GC is any number; GR = 1/(1-GC);
   - a loop of the code runs as often as the given fuel allows;
   - the work arrays of the cache are fresh lists (see PropsCalcCache for the cache), printed
     output is left out. *)
From Coq Require Import List ZArith Bool Arith.
From Verif Require Import Base LinBase.
Import ListNotations.
Local Open Scope lin_scope.

Section Bowl.
Context {K : ofield}.

Fixpoint map2 {A B C} (f : A -> B -> C) (l : list A) (m : list B) : list C :=
  match l, m with
  | a :: l, b :: m => f a b :: map2 f l m
  | _, _ => []
  end.
Definition lsum (l : list K) : K := fold_left (fun s x => s + x) l f0.
Fixpoint fnat (n : nat) : K := match n with O => f0 | S n => fnat n + f1 end.

(* lines 1779-1786 *)
Definition step_len (sq : K -> K) (O P : list K) : K := sq (lsum (map2 (fun o p => (o - p) * (o - p)) O P)).

(* lines 2002-2019 without s and D; the deflections are defl[i].measured and what calculate gives *)
Definition bowlerror (sq : K -> K) (calc : list K -> list K) (measured : list K) (P : list K) : outcome K :=
  let* e := divc (lsum (map2 (fun m c => (m - c) * (m - c)) measured (calc P))) (fnat (length measured)) in
  Ok (sq e).

Variable bowl : list K -> K.
Variables (gc tol h : K).   (* GC, TOL and the first step of 0.05 *)

(* lines 2008-2009: the point at distance s along D *)
Definition along (P : list K) (s : K) (D : list K) : list K := map2 (fun p d => p + s * d) P D.

Definition gr : K := f1 / (f1 - gc).
Definition two : K := f1 + f1.

Record brk : Type := Brk { ba : K; bb : K; bc : K; bA : K; bB : K; bC : K }.

(* lines 2284-2313; e is the error along D *)
Definition vertex1 (s : brk) : K :=
  let r := (bb s - ba s) * (bB s - bC s) in
  let q := (bb s - bc s) * (bB s - bA s) in
  if negb (feqb r q) then bb s - ((bb s - ba s) * r - (bb s - bc s) * q) / (two * (q - r)) else f1.
Fixpoint bracket (fuel : nat) (e : K -> K) (s : brk) : outcome brk :=
  if fle (bB s) (bA s) && fle (bC s) (bB s) then
    match fuel with
    | O => UB OutOfFuel
    | S fuel =>
      let x := vertex1 s in
      let '(Brk a b c A B C) := s in
      if fltb b x && fltb x c then
        let X := e x in
        if fltb X C then bracket fuel e (Brk b x c B X C)
        else if fltb B X then bracket fuel e (Brk a b x A B X)
        else bracket fuel e (Brk b c x B C X)
      else if fltb c x then
        let X := e x in
        if fltb X C then
          let x' := x + (x - c) * gr in
          bracket fuel e (Brk c x x' C X (e x'))
        else bracket fuel e (Brk b c x B C X)
      else
        let x := c + (c - b) * gr in
        bracket fuel e (Brk b c x B C (e x))
    end
  else Ok s.

(* lines 2322-2343 *)
Record mins : Type := Mins { ma : K; mb : K; mc : K; my : K; mz : K; mB : K; mY : K; mZ : K }.
Definition vertex2 (s : mins) : K :=
  let r := (mb s - mz s) * (mB s - mY s) in
  let q := (mb s - my s) * (mB s - mZ s) in
  if negb (feqb r q) then mb s - ((mb s - mz s) * r - (mb s - my s) * q) / (two * (r - q)) else f0.
Definition trial (s : mins) : K :=
  let x := vertex2 s in
  let '(Mins a b c _ _ _ _ _) := s in
  if feqb x f0 || fltb x ((a + b) / two) || fltb ((b + c) / two) x
  then b + gc * (if fltb (c - b) (b - a) then a - b else c - b)
  else x.
Definition tighten (e : K -> K) (s : mins) : mins :=
  let x := trial s in
  let X := e x in
  let '(Mins a b c y z B Y Z) := s in
  if fle X B then
    if fltb x b then Mins a x b b y X B Y else Mins b x c b y X B Y
  else
    let a' := if fltb x b then x else a in
    let c' := if fltb x b then c else x in
    if fle X Y || feqb x y then Mins a' b c' x y B X Y
    else if fle X Z || feqb x z || feqb y z then Mins a' b c' y x B Y x   (* Z = x, not X *)
    else Mins a' b c' y z B Y Z.
Fixpoint hunt (fuel : nat) (e : K -> K) (s : mins) : outcome mins :=
  if fltb (tol * (f1 + mb s)) (mc s - ma s) then
    match fuel with
    | O => UB OutOfFuel
    | S fuel => hunt fuel e (tighten e s)
    end
  else Ok s.

(* lines 2268-2281 *)
Definition brent_start (P D : list K) : list K * brk :=
  let B := bowl (along P f0 D) in
  let a := - h in
  let A := bowl (along P a D) in
  if fltb A B then
    let D := map (fun d => - d) D in
    let c := - a in
    let a := - c / gr in
    (D, Brk a f0 c (bowl (along P a D)) B A)
  else
    let c := - a * gr in
    (D, Brk a f0 c A B (bowl (along P c D))).
(* lines 2258-2347: the value returned, P and D afterwards *)
Definition brent_min (fuel : nat) (e : K -> K) (s : brk) : outcome mins :=
  let* s := bracket fuel e s in
  let '(Brk a b c A B C) := s in
  hunt fuel e (if fltb C A then Mins a b c c a B C A else Mins a b c a c B A C).
Definition brent (fuel : nat) (P D : list K) : outcome (K * list K * list K) :=
  let (D, s) := brent_start P D in
  let* m := brent_min fuel (fun x => bowl (along P x D)) s in
  Ok (mb m, along P (mb m) D, D).

(* std::min(std::max(1.0,x),9.0) with the limits lo and hi *)
Definition clamp (lo hi x : K) : K :=
  let y := if fltb lo x then x else lo in
  if fltb hi y then hi else y.

(* lines 2356-2400; grad gives the sum of 2*(calculated-measured)*deflgrad[i], lim is maxsteps*nl;
   errors are compared through lg = log10, the first one with DBL_MAX *)
Record cgs : Type := Cgs { cW : list K; cD : list K; cdgg : K; cstep : K; cerr : K }.
Definition cg_round (fuel : nat) (grad : list K -> list K) (lg : K -> K) (small tolerance : K) (s : cgs) : outcome (cgs * bool) :=
  let* (step, W, D) :=
    if negb (feqb (cdgg s) f0) then
      let* (b, W, D) := brent fuel (cW s) (cD s) in Ok (cdgg s * b, W, D)
    else Ok (cstep s, cW s, cD s) in
  let gg := cdgg s in
  let G := D in
  let D := map (fun x => - x) (grad W) in
  let dgg := lsum (map (fun x => x * x) D) in
  let oerr := cerr s in
  let derr := bowl W in
  if feqb dgg f0 || fltb (lg oerr - lg derr) small || fltb step tolerance
  then Ok (Cgs W D dgg step derr, true)
  else
    let D := if negb (feqb gg f0) then map2 (fun d g => d + dgg * g / gg) D G else D in
    Ok (Cgs W D dgg step derr, false).
(* turns is the number of turns left: k <= maxsteps*nl *)
Fixpoint cg_loop (turns fuel : nat) (grad : list K -> list K) (lg : K -> K) (small tolerance : K) (s : cgs) : outcome cgs :=
  match turns with
  | O => Ok s
  | S turns =>
    let* (s, stop) := cg_round fuel grad lg small tolerance s in
    if (stop : bool) then Ok s else cg_loop turns fuel grad lg small tolerance s
  end.
Definition conjgrad (sq : K -> K) (lim fuel : nat) (grad : list K -> list K) (lg : K -> K) (dbl_max small tolerance lo hi : K) (P : list K) : outcome (K * list K) :=
  let* s := cg_loop (S lim) fuel grad lg small tolerance (Cgs P (map (fun _ => f0) P) f0 f1 dbl_max) in
  Ok (step_len sq P (cW s), map (clamp lo hi) (cW s)).

(* ---- dsm: a vertex is its point and its error ---- *)
Definition vtx : Type := (list K * K)%type.
Definition ev (p : list K) : vtx := (p, bowl p).
(* lines 2436-2440; d is 0.1 *)
Definition shift1 (i : nat) (d : K) (P : list K) : list K := upd P i (nth i P f0 + d).
Definition simplex0 (d : K) (P : list K) : list vtx :=
  let nl := length P in
  ev P :: map (fun i => ev (shift1 (i - 1) (if (i <? nl / 2)%nat then d else - d) P)) (seq 1 nl).
(* lines 2443-2451 *)
Definition swap_row (i j : nat) (V : list vtx) : outcome (list vtx) :=
  let* vi := aget V i in
  let* vj := aget V j in
  let* V := aset V i vj in
  aset V j vi.
Definition cmp_swap (i : nat) (V : list vtx) (j : nat) : outcome (list vtx) :=
  let* vi := aget V i in
  let* vj := aget V j in
  if fltb (snd vj) (snd vi) then swap_row i j V else Ok V.
Fixpoint foldo {A B} (f : A -> B -> outcome A) (a : A) (l : list B) : outcome A :=
  match l with
  | [] => Ok a
  | b :: l => let* a := f a b in foldo f a l
  end.
Definition sort_rows (V : list vtx) : outcome (list vtx) :=
  let n := length V in
  foldo (fun V i => foldo (cmp_swap i) V (seq (S i) (n - S i))) V (seq 0 n).
(* lines 2452-2455 *)
Definition fmax (x y : K) : K := if fltb x y then y else x.
Fixpoint pairs {A} (l : list A) : list (A * A) :=
  match l with
  | [] => []
  | x :: l => map (pair x) l ++ pairs l
  end.
Definition diam (sq : K -> K) (V : list vtx) : K :=
  fold_left (fun a p => fmax a (step_len sq (fst (fst p)) (fst (snd p)))) (pairs V) f0.
(* lines 2410-2421 *)
Definition midpoint (A B : list K) : vtx := ev (map2 (fun a b => (a + b) / two) A B).
Definition reflect_at (A P : list K) (c : K) : vtx := ev (map2 (fun a p => p + c * (p - a)) A P).
(* lines 2462-2475: the mean of all points but the last *)
Definition mean_at (V : list vtx) (nl i : nat) : K :=
  lsum (map (fun v => nth i (fst v) f0) (firstn nl V)) / fnat nl.
Definition centroid (V : list vtx) (nl : nat) : list K := map (mean_at V nl) (seq 0 nl).
(* lines 2476-2498; V is sorted *)
Definition dsm_move (nl : nat) (V : list vtx) : outcome (list vtx) :=
  let D := centroid V nl in
  let* best := aget V 0 in
  let* worst := aget V nl in
  let R := reflect_at (fst worst) D f1 in
  let* V := if fltb (snd R) (snd worst) then aset V nl R else Ok V in
  if fltb (snd R) (snd best) then
    let E := reflect_at (fst R) D (- two) in
    if fltb (snd E) (snd R) then aset V nl E else Ok V
  else
    let* second := aget V (nl - 1) in
    if fle (snd second) (snd R) then
      let* last := aget V nl in
      let C := reflect_at (fst last) D (- (f1 / two)) in
      if fltb (snd C) (snd last) then aset V nl C
      else
        let* b := aget V 0 in
        Ok (b :: map (fun v => midpoint (fst b) (fst v)) (tl V))
    else Ok V.
(* lines 2441-2511; first: c == 0 *)
Fixpoint dsm_loop (fuel : nat) (sq : K -> K) (lim : K) (nl : nat) (first : bool) (V : list vtx) : outcome (list vtx) :=
  match fuel with
  | O => UB OutOfFuel
  | S fuel =>
    let* V := sort_rows V in
    if negb first && fltb (diam sq V) lim then Ok V
    else
      let* V := dsm_move nl V in
      dsm_loop fuel sq lim nl false V
  end.
(* lines 2403-2515; lim is 1e2*tolerance *)
Definition dsm (fuel : nat) (sq : K -> K) (d lim lo hi : K) (P : list K) : outcome (K * list K) :=
  let* V := dsm_loop fuel sq lim (length P) true (simplex0 d P) in
  let* b := aget V 0 in
  Ok (step_len sq P (fst b), map (clamp lo hi) (fst b)).
End Bowl.
