(* The one-dimensional finite element model of the temperature in a pavement:
   src/thermal.h and src/thermal.cpp.

   The numbers are those of an ordered field and sq is the square root.  The sizes are
   natural numbers: w+1, n-w and the indices do not wrap around.  An array made by new is
   the list of its elements, zero to start with; every element is written before it is
   read.  std::logic_error is InvalidArgument (which in C++ is derived from it) and
   std::range_error is OutOfRange.  A division by zero is reported as undefined
   behaviour; for doubles it gives an infinity or a NaN.  What the destructor and the
   autodelete of lb release is not modelled, nor that memory may run out. *)
From Coq Require Import List ZArith Lia Bool Arith Field QArith Qcanon.
From Verif Require Import Base LinBase TransposeModel CholModel.
Import ListNotations.
Local Close Scope Qc_scope.
Local Close Scope Q_scope.
Local Open Scope nat_scope.

(* the element matrices, thermal.cpp lines 43-76, as rational numbers *)
Definition Ke1 : list (list Q) := [
  [  1#2; -1#2 ];
  [ -1#2;  1#2 ]]%Q.
Definition Fe1 : list (list Q) := [
  [  2#3;  1#3 ];
  [  1#3;  2#3 ]]%Q.
Definition Ke2 : list (list Q) := [
  [  7#6; -4#3;  1#6 ];
  [ -4#3;  8#3; -4#3 ];
  [  1#6; -4#3;  7#6 ]]%Q.
Definition Fe2 : list (list Q) := [
  [  4#15;  2#15; -1#15 ];
  [  2#15; 16#15;  2#15 ];
  [ -1#15;  2#15;  4#15 ]]%Q.
Definition Ke4 : list (list Q) := [
  [   985#378;  -3424#945;   508#315;  -736#945;   347#1890 ];
  [ -3424#945;   1664#189; -2368#315;  2944#945;  -736#945 ];
  [   508#315;  -2368#315;    248#21; -2368#315;   508#315 ];
  [  -736#945;   2944#945; -2368#315;  1664#189; -3424#945 ];
  [   347#1890;  -736#945;   508#315; -3424#945;   985#378 ]]%Q.
Definition Fe4 : list (list Q) := [
  [ 292#2835;  296#2835;  -58#945;    8#405;  -29#2835 ];
  [ 296#2835;  256#405;  -128#945;  256#2835;   8#405 ];
  [ -58#945;  -128#945;   208#315; -128#945;  -58#945 ];
  [   8#405;   256#2835; -128#945;  256#405;  296#2835 ];
  [ -29#2835;    8#405;   -58#945;  296#2835; 292#2835 ]]%Q.

Section Thermal.
Context {K : ofield}.
Variable sq : K -> K.
Local Open Scope lin_scope.

(* the rational numbers among those of the code *)
Fixpoint fpos (p : positive) : K :=
  match p with
  | xH => f1
  | xO p => (f1 + f1) * fpos p
  | xI p => f1 + (f1 + f1) * fpos p
  end.
Definition fz (z : Z) : K :=
  match z with
  | Z0 => f0
  | Zpos p => fpos p
  | Zneg p => - fpos p
  end.
Definition fq (q : Q) : K := fz (Qnum q) / fpos (Qden q).
Definition el2 (M : list (list Q)) (i k : nat) : outcome K :=
  let* r := aget M i in
  let* q := aget r k in
  Ok (fq q).

(* thermal.h: the members of FEMthermal *)
Record thermal : Type := {
  t_n : nat; t_w : nat; t_dt : K;
  t_nd : list K; t_nt : list K; t_ng : list K;
  t_KK : list K; t_FF : list K; t_Kt : list K; t_Kb : list K }.

(* ---------- the constructor, lines 78-168 ---------- *)

(* lines 101-105 *)
Definition bottoms (nl : nat) (lh nd : list K) : outcome (list K) :=
  for_up 0 nl (fun i lb =>
    let* h := aget lh i in
    if fle h f0 then Throw OutOfRange
    else
      let* b := if i =? 0 then aget nd 0 else aget lb (i - 1) in
      aset lb i (b + h)) (repeat f0 nl).

(* lines 115-116: while (lb[il] <= x) il++ *)
Fixpoint find_layer (fuel : nat) (lb : list K) (x : K) (il : nat) : outcome nat :=
  match fuel with
  | O => UB OutOfFuel
  | S fuel =>
      let* b := aget lb il in
      if fle b x then find_layer fuel lb x (il + 1) else Ok il
  end.

(* a[B_IDX(n,w,i,j)] += x *)
Definition badd (n w : nat) (a : list K) (i j : nat) (x : K) : outcome (list K) :=
  let* y := aget a (B_IDX n w i j) in
  aset a (B_IDX n w i j) (y + x).
(* lines 123-128, and the same for the other orders *)
Definition assemble (n w j : nat) (Ke Fe : list (list Q)) (d f : K) (s : list K * list K) :
  outcome (list K * list K) :=
  for_up 0 (w + 1) (fun i s =>
    for_up i (w + 1) (fun k '(KK, FF) =>
      let* x := el2 Ke i k in
      let* KK := badd n w KK (j + i) (j + k) (d * x) in
      let* y := el2 Fe i k in
      let* FF := badd n w FF (j + i) (j + k) (f * y) in
      Ok (KK, FF)) s) s.
(* lines 121-146 *)
Definition element (n w j : nat) (d f : K) (s : list K * list K) : outcome (list K * list K) :=
  match w with
  | 1 => assemble n 1 j Ke1 Fe1 d f s
  | 2 => assemble n 2 j Ke2 Fe2 d f s
  | 4 => assemble n 4 j Ke4 Fe4 d f s
  | _ => Throw InvalidArgument
  end.
(* lines 114-147: the loop for (j = 0; j < n-w; j += w); since w divides n-1 there are
   (n-1)/w rounds *)
Definition elements (nl : nat) (lh ld : list K) (n w : nat) (nd lb : list K) :
  outcome (list K * list K) :=
  let* (_, s) := for_up 0 ((n - 1) / w) (fun e '(il, s) =>
    let j := (e * w)%nat in
    let* x := aget nd j in
    let* il := find_layer (nl + 1) lb x il in
    let* b := aget lb il in
    let* h := aget lh il in
    let* y := aget nd (j + w)%nat in
    if fltb x (b - h) || fltb b y then Throw InvalidArgument
    else
      let* c := aget ld il in
      let* d := divc (c * (f1 + f1)) (y - x) in
      let* f := divc (y - x) (f1 + f1) in
      let* s := element n w j d f s in
      Ok (il, s)) (O, (repeat f0 (B_SIZE n w), repeat f0 (B_SIZE n w))) in
  Ok s.
(* lines 151-152 *)
Definition combine (n w : nat) (dt : K) (KK FF : list K) : outcome (list K) :=
  for_up 0 (B_SIZE n w) (fun i KK =>
    let* x := aget KK i in
    let* y := aget FF i in
    let* z := divc ((f1 + f1) * y) dt in
    aset KK i (x + z)) KK.
(* lines 154-157 *)
Definition strip_top (n w : nat) (KK Kt : list K) : outcome (list K * list K) :=
  for_up 0 (w + 1) (fun i '(KK, Kt) =>
    let* x := aget KK (B_IDX n w 0 i) in
    let* Kt := aset Kt i x in
    let* KK := aset KK (B_IDX n w 0 i) (if i =? 0 then f1 else f0) in
    Ok (KK, Kt)) (KK, Kt).
(* lines 158-161 *)
Definition strip_bottom (n w : nat) (KK Kb : list K) : outcome (list K * list K) :=
  for_up (n - w - 1) n (fun i '(KK, Kb) =>
    let* x := aget KK (B_IDX n w i (n - 1)) in
    let* Kb := aset Kb i x in
    let* KK := aset KK (B_IDX n w i (n - 1)) (if i =? n - 1 then f1 else f0) in
    Ok (KK, Kb)) (KK, Kb).

Definition new_thermal (nl : nat) (lh ld : list K) (n : nat) (nd nt : list K) (dt : K) (w : nat) :
  outcome thermal :=
  if n <? w + 1 then Throw InvalidArgument
  else if w =? 0 then UB DivByZero                                  (* (n-1)%w *)
  else if negb ((n - 1) mod w =? 0) then Throw InvalidArgument
  else
    let* lb := bottoms nl lh nd in
    let* (KK, FF) := elements nl lh ld n w nd lb in
    let* KK := combine n w dt KK FF in
    let* (KK, Kt) := strip_top n w KK (repeat f0 n) in
    let* (KK, Kb) := strip_bottom n w KK (repeat f0 n) in
    let* KK := decmp_chol_band sq n w KK in
    let* ng := for_up 0 n (fun i ng =>                              (* lines 165-167 *)
      let* x := aget nt i in
      let* z := divc ((f1 + f1) * x) dt in
      aset ng i z) (repeat f0 n) in
    Ok {| t_n := n; t_w := w; t_dt := dt; t_nd := nd; t_nt := nt; t_ng := ng;
          t_KK := KK; t_FF := FF; t_Kt := Kt; t_Kb := Kb |}.

(* ---------- step, lines 170-196 ---------- *)

Definition vadd (a : list K) (i : nat) (x : K) : outcome (list K) :=
  let* y := aget a i in
  aset a i (y + x).

Definition step (t : thermal) (tp tb : K) : outcome thermal :=
  let n := t_n t in
  let w := t_w t in
  let nt := repeat f0 n in
  let* nt := aset nt 0 tp in
  let* nt := for_up 1 (w + 1) (fun i nt =>
    let* k := aget (t_Kt t) i in
    vadd nt i (- (tp * k))) nt in
  let* nt := for_up 1 (n - 1) (fun i nt =>
    let* nt := for_up (if w <? i then i - w else 0)%nat i (fun j nt =>
      let* x := aget (t_FF t) (B_IDX n w j i) in
      let* g := aget (t_ng t) j in
      vadd nt i (x * g)) nt in
    for_up i (min (i + w + 1) n) (fun j nt =>
      let* x := aget (t_FF t) (B_IDX n w i j) in
      let* g := aget (t_ng t) j in
      vadd nt i (x * g)) nt) nt in
  let* nt := for_up (n - w - 1) (n - 1) (fun i nt =>
    let* k := aget (t_Kb t) i in
    vadd nt i (- (tb * k))) nt in
  let* nt := aset nt (n - 1) tb in
  let* nt := bksub_chol_band n w (t_KK t) nt 1 0 in
  let* ng := for_up 0 n (fun i ng =>
    let* g := aget ng i in
    let* x := aget nt i in
    let* z := divc ((f1 + f1) * (f1 + f1) * x) (t_dt t) in
    aset ng i (- g + z)) (t_ng t) in
  Ok {| t_n := n; t_w := w; t_dt := t_dt t; t_nd := t_nd t; t_nt := nt; t_ng := ng;
        t_KK := t_KK t; t_FF := t_FF t; t_Kt := t_Kt t; t_Kb := t_Kb t |}.

(* any number of steps, with the temperatures of the top and the bottom in each *)
Fixpoint steps (t : thermal) (l : list (K * K)) : outcome thermal :=
  match l with
  | [] => Ok t
  | (tp, tb) :: l => let* t := step t tp tb in steps t l
  end.

(* ---------- interpolate, lines 198-242 ---------- *)

(* lines 214-215: while (x > nd[j]) j += w *)
Fixpoint find_node (fuel : nat) (nd : list K) (w : nat) (x : K) (j : nat) : outcome nat :=
  match fuel with
  | O => UB OutOfFuel
  | S fuel =>
      let* y := aget nd j in
      if fltb y x then find_node fuel nd w x (j + w)%nat else Ok j
  end.
(* a[j-k]: below the start when k > j *)
Definition agetm (a : list K) (j k : nat) : outcome K :=
  if j <? k then UB OutOfBounds else aget a (j - k).
(* lines 220-240: the shape functions on [-1,1] *)
Definition shape (w : nat) (nt : list K) (j : nat) (z : K) : outcome K :=
  match w with
  | 1 =>
      let* a := agetm nt j 0 in
      let* b := agetm nt j 1 in
      divc ((z + f1) * a - (z - f1) * b) (f1 + f1)
  | 2 =>
      let* a := agetm nt j 2 in
      let* b := agetm nt j 1 in
      let* c := agetm nt j 0 in
      let* p := divc ((z - f1) * z * a) (f1 + f1) in
      let* r := divc ((z + f1) * z * c) (f1 + f1) in
      Ok (p + (f1 - z * z) * b + r)
  | 4 =>
      let* a := agetm nt j 4 in
      let* b := agetm nt j 3 in
      let* c := agetm nt j 2 in
      let* d := agetm nt j 1 in
      let* e := agetm nt j 0 in
      let zz := fz 4 * z * z in
      let* p := divc (z * (z - f1) * (zz - f1) * a) (fz 6) in
      let* q := divc (z * ((f1 + f1) * z - f1) * (zz - fz 4) * b) (fz 3) in
      let* s := divc (z * ((f1 + f1) * z + f1) * (zz - fz 4) * d) (fz 3) in
      let* t := divc (z * (z + f1) * (zz - f1) * e) (fz 6) in
      Ok (p - q + (z * z - f1) * (zz - f1) * c - s + t)
  | _ => Throw InvalidArgument
  end.
(* lines 205-240: one depth; the state of the loop is j, the result pt[i] *)
Definition interp1 (t : thermal) (x : K) (j : nat) : outcome (nat * K) :=
  let n := t_n t in
  let w := t_w t in
  let* a := aget (t_nd t) 0 in
  if fle x a then let* y := aget (t_nt t) 0 in Ok (j, y)
  else
    let* b := aget (t_nd t) (n - 1) in
    if fle b x then let* y := aget (t_nt t) (n - 1) in Ok (j, y)
    else
      let* j := find_node (n + 1) (t_nd t) w x j in
      let* c := aget (t_nd t) j in
      if feqb x c then let* y := aget (t_nt t) j in Ok (j, y)
      else
        let* p := agetm (t_nd t) j w in
        let* z := divc ((f1 + f1) * (x - p)) (c - p) in
        let* y := shape w (t_nt t) j (z - f1) in
        Ok (j, y).
Fixpoint interp (t : thermal) (j : nat) (pd : list K) : outcome (list K) :=
  match pd with
  | [] => Ok []
  | x :: pd =>
      let* (j, y) := interp1 t x j in
      let* l := interp t j pd in
      Ok (y :: l)
  end.
Definition interpolate (t : thermal) (pd : list K) : outcome (list K) := interp t 0 pd.
End Thermal.
Arguments thermal : clear implicits.
