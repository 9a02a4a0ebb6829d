(* Model of the stiffness of an element of fem3d/fem3d.cpp: the material (lines 95-190 and 253-285),
   inv_mul_gauss (lines 632-668) and element_base::buildKe (lines 1046-1154).

   Simplifications: doubles are the elements of an ordered field; the templates of meta_stiffness are
   unrolled; a range_error is the RuntimeError it derives from; the coordinates of the nodes (buildxe)
   and the shape functions (buildSF) are given; buildEe gives every node the modulus of the material,
   so that emod is the sum of N[k]*0 and pow(10,emod) is one; the printing before the exception is
   left out. *)
From Coq Require Import List ZArith Bool Arith.
From Verif Require Import Base LinBase SmatModel IncholModel PcgModel BcModel ShapeModel.
Import ListNotations.
Local Open Scope nat_scope.

Section Stiff.
Context {K : ofield}.
Local Open Scope lin_scope.

(* lines 95-103 *)
Definition delta (i j : nat) : K := if Nat.eqb i j then f1 else f0.
(* lines 116-119 and 137-140 *)
Definition tensor (l m : K) (i j k n : nat) : K := l * delta i j * delta k n + m * (delta i k * delta j n + delta i n * delta j k).
(* E[i][k](j,n), lines 113-134 *)
Definition stiff (l m : K) (i k : nat) : m3 K := gen3 (fun j n => tensor l m i j k n).
(* lines 135-156 *)
Definition mulE (l m : K) (e : m3 K) : m3 K :=
  gen3 (fun i j => sumr 0 3 (fun k => sumr 0 3 (fun n => tensor l m i j k n * get3 e k n))).
(* lines 260-285 *)
Record material : Type := Mat { emod : K; poi : K }.
Definition lambda (a : material) : outcome K :=
  let* p := divc (poi a * emod a) (f1 + poi a) in divc p (f1 - num 2 * poi a).
Definition mu (a : material) : outcome K := divc (emod a / num 2) (f1 + poi a).
Definition pointstiffness (a : material) : outcome (nat -> nat -> m3 K) :=
  let* l := lambda a in let* m := mu a in Ok (stiff l m).
Definition pointstress (a : material) (e : m3 K) : outcome (m3 K) :=
  let* l := lambda a in let* m := mu a in Ok (mulE l m e).

(* lines 639-667; eps is DBL_EPSILON *)
Definition rows (nnd : nat) (f : v3 K -> outcome (v3 K)) (B : list (v3 K)) : outcome (list (v3 K)) :=
  for_up 0 nnd (fun j B => let* b := aget B j in let* b := f b in aset B j b) B.
Definition inv_mul_gauss (eps : K) (nnd : nat) (J : m3 K) (B : list (v3 K)) : outcome (K * list (v3 K)) :=
  let* (det, J, B) := for_up 0 3 (fun i '(det, J, B) =>
    let pvt := get3 J i i in
    if fltb (fabs pvt) eps then Throw RuntimeError else
    let det := det * pvt in
    let* (J, B) := for_up (i + 1) 3 (fun k '(J, B) =>
      let* tmp := divc (get3 J k i) pvt in
      let* J := for_up (i + 1) 3 (fun j J => Ok (set3 J k j (get3 J k j - tmp * get3 J i j))) J in
      let* B := rows nnd (fun b => Ok (setv b k (gv b k - tmp * gv b i))) B in
      Ok (J, B)) (J, B) in
    Ok (det, J, B)) (f1, J, B) in
  let* B := for_up 0 3 (fun q B =>
    let i := (3 - q)%nat in
    let* B := for_up i 3 (fun j B => rows nnd (fun b => Ok (setv b (i - 1) (gv b (i - 1) - get3 J (i - 1) j * gv b j))) B) B in
    rows nnd (fun b => let* x := divc (gv b (i - 1)) (get3 J (i - 1) (i - 1)) in Ok (setv b (i - 1) x)) B) B in
  Ok (det, B).

(* lines 1082-1088 *)
Definition jacobian (nnd : nat) (d xe : list (v3 K)) : outcome (m3 K) :=
  for_up 0 3 (fun i J => for_up 0 3 (fun j J =>
    for_up 0 nnd (fun k J =>
      let* a := aget d k in
      let* x := aget xe k in
      Ok (set3 J i j (get3 J i j + gv a i * gv x j))) (set3 J i j f0)) J) zero3.
(* lines 1143-1150 *)
Definition addKe (nnd : nat) (E : nat -> nat -> m3 K) (d : list (v3 K)) (gw : K) (Ke : list (m3 K)) : outcome (list (m3 K)) :=
  for_up 0 nnd (fun i Ke => for_up i nnd (fun j Ke =>
    for_up 0 3 (fun k Ke => for_up 0 3 (fun n Ke =>
      let* a := aget d i in
      let* b := aget d j in
      let* q := kget Ke i j in
      aset Ke (kidx i j) (add3 q (gen3 (fun s t => get3 (E k n) s t * (gv a k * gv b n * gw))))) Ke) Ke) Ke) Ke.
(* lines 1046-1154; sf m x y z is buildSF *)
Definition buildKe (eps : K) (a : material) (inf : bool) (sf : bool -> K -> K -> K -> outcome (list K * list (v3 K)))
    (nnd : nat) (xe : list (v3 K)) (gx gy gz : list (K * K)) : outcome (list (m3 K)) :=
  let* E := pointstiffness a in
  each gx (fun px Ke => each gy (fun py Ke => each gz (fun pz Ke =>
    let gw := snd px * snd py * snd pz in
    let* (_, d) := sf true (fst px) (fst py) (fst pz) in
    let* J := jacobian nnd d xe in
    let* d := (if inf then let* (_, d) := sf false (fst px) (fst py) (fst pz) in Ok d else Ok d) in
    let* (det, d) := inv_mul_gauss eps nnd J d in
    let gw := gw * det in
    if fle gw f0 then Throw RuntimeError else addKe nnd E d gw Ke) Ke) Ke) (repeat zero3 (nnd * (nnd + 1) / 2)).
End Stiff.
Arguments material : clear implicits.
