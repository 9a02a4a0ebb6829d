(* Model of how an element finds its nodes, fem3d/fem3d.cpp: coord_sort (lines 1258-1288) and coord_add
   (lines 1289-1314).

   Simplifications: the coordinates and the doubles are the elements of an ordered field, so that the
   rounding to fixed<8> is left out; coord_add gives the list of the coordinates handed to addnode
   (whose numbering is that of MeshModel); the loop of coord_sort takes its number of rounds. *)
From Coq Require Import List ZArith Bool Arith.
From Verif Require Import Base LinBase SmatModel IncholModel PcgModel ShapeModel.
Import ListNotations.
Local Open Scope nat_scope.

Section Coord.
Context {K : ofield}.
Local Open Scope lin_scope.

Definition swapc (cc : list (v3 K)) (i j : nat) : outcome (list (v3 K)) :=
  let* a := aget cc i in
  let* b := aget cc j in
  let* cc := aset cc i b in
  aset cc j a.
Definition sum4 (cc : list (v3 K)) (c i j k l : nat) : outcome K :=
  let* a := aget cc i in
  let* b := aget cc j in
  let* d := aget cc k in
  let* e := aget cc l in
  Ok (gv a c + gv b c + gv d c + gv e c).
(* lines 1258-1288 *)
Fixpoint coord_sort (rounds : nat) (cc : list (v3 K)) : outcome (list (v3 K)) :=
  match rounds with
  | O => UB OutOfFuel
  | S rounds =>
    let* mx := sum4 cc 0 0 1 4 5 in
    let* px := sum4 cc 0 2 3 6 7 in
    let* my := sum4 cc 1 0 2 4 6 in
    let* py := sum4 cc 1 1 3 5 7 in
    let* mz := sum4 cc 2 0 1 2 3 in
    let* pz := sum4 cc 2 4 5 6 7 in
    if fltb mx px && fltb my py && fltb mz pz then Ok cc else
    if fltb px mx then
      let* cc := swapc cc 0 2 in let* cc := swapc cc 4 6 in let* cc := swapc cc 1 3 in let* cc := swapc cc 5 7 in
      coord_sort rounds cc
    else if fltb py my then
      let* cc := swapc cc 0 1 in let* cc := swapc cc 4 5 in let* cc := swapc cc 2 3 in let* cc := swapc cc 6 7 in
      coord_sort rounds cc
    else if fltb pz mz then
      let* cc := swapc cc 0 4 in let* cc := swapc cc 2 6 in let* cc := swapc cc 1 5 in let* cc := swapc cc 3 7 in
      coord_sort rounds cc
    else Throw RuntimeError
  end.

Definition cnt (n : nat) : K := num (Z.of_nat n).
(* lines 1297-1307 *)
Definition place (mz mx my i j k : K) (cc : list (v3 K)) : outcome (v3 K) :=
  for_up 0 8 (fun l v =>
    let* s := divc ((if (l <? 4)%nat then mz - i else i) * (if (l mod 4 <? 2)%nat then mx - j else j) * (if (l mod 2 <? 1)%nat then my - k else k)) (mz * mx * my) in
    let* p := aget cc l in
    Ok (V3 (c0 v + s * c0 p) (c1 v + s * c1 p) (c2 v + s * c2 p))) zerov.
(* lines 1289-1314 *)
Definition coord_add (sz sx sy : shape) (cc : list (v3 K)) : outcome (list (v3 K)) :=
  for_up 0 (getn sz) (fun i xe => for_up 0 (getn sx) (fun j xe => for_up 0 (getn sy) (fun k xe =>
    let* v := place (cnt (getn sz) - f1) (cnt (getn sx) - f1) (cnt (getn sy) - f1) (cnt i) (cnt j) (cnt k) cc in
    Ok (xe ++ [v])) xe) xe) [].
End Coord.
