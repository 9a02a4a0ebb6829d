(* Model of the shape functions of the elements with optional nodes, fem3d/fem3d.cpp: buildSF_variable
   (lines 915-991) and buildSF_adaptor (lines 992-1045).

   Simplifications: doubles are the elements of an ordered field; N[l] and dNdr[l] are kept as one
   pair; a mask index below zero counts as OutOfBounds. *)
From Coq Require Import List ZArith Bool Arith.
From Verif Require Import Base LinBase SmatModel IncholModel PcgModel ShapeModel.
Import ListNotations.
Local Open Scope nat_scope.

Section Var.
Context {K : ofield}.
Local Open Scope lin_scope.

(* N[l] with dNdr[l] *)
Definition entry : Type := (K * v3 K)%type.
(* N[l] += a*N[j] with its slopes *)
Definition plus (a : K) (x y : entry) : entry :=
  (fst x + a * fst y, V3 (c0 (snd x) + a * c0 (snd y)) (c1 (snd x) + a * c1 (snd y)) (c2 (snd x) + a * c2 (snd y))).
Definition product (X Y Z : K * K) : entry :=
  (fst X * fst Y * fst Z, V3 (snd X * fst Y * fst Z) (fst X * snd Y * fst Z) (fst X * fst Y * snd Z)).
Definition both (f d : outcome K) : outcome (K * K) := let* x := f in let* y := d in Ok (x, y).
Definition lin (n : nat) (r : K) := both (N_2 n r) (dN_2 n r).
Definition hat (n : nat) (r : K) := both (N_A n r) (dN_A n r).
Definition quad (n : nat) (r : K) := both (N_3 n r) (dN_3 n r).
Definition add_to (a : K) (l j : nat) (N : list entry) : outcome (list entry) :=
  let* x := aget N l in let* y := aget N j in aset N l (plus a x y).
Definition jump (l : nat) : Z := match (l mod 4)%nat with 0%nat => 2 | 1%nat => -1 | 2%nat => 1 | _ => -2 end%Z.
Definition maskz (mask : list nat) (z : Z) : outcome nat := if (z <? 0)%Z then UB OutOfBounds else aget mask (Z.to_nat z).

(* lines 926-957 *)
Definition var_raw (sz : shape) (gx gy gz : K) (mask : list nat) (N : list entry) : outcome (list entry) :=
  let nz := getn sz in
  for_up 0 nz (fun i N =>
    let* Z := both (getN sz i gz true) (getdN sz i gz true) in
    let* N := for_up 0 4 (fun l N =>
      let* X := lin (l / 2) gx in
      let* Y := lin (l mod 2) gy in
      let* N := aset N (i * 4 + l) (product X Y Z) in
      let* j := aget mask (i * 4 + l) in
      if j =? 0 then Ok N else
      if (l =? 0) || (l =? 3) then let* Y := hat 1 gy in aset N j (product X Y Z)
      else let* X := hat 1 gx in aset N j (product X Y Z)) N in
    let* j := aget mask (4 * nz + i) in
    if j =? 0 then Ok N else
    let* X := hat 1 gx in
    let* Y := hat 1 gy in
    aset N j (product X Y Z)) N.
(* lines 960-981 *)
Definition var_corners (sz : shape) (mask : list nat) (N : list entry) : outcome (list entry) :=
  let nz := getn sz in
  for_up 0 (4 * nz) (fun l N =>
    let* j := aget mask l in
    let* N := if j =? 0 then Ok N else add_to (- half) l j N in
    let* j := maskz mask (Z.of_nat l + jump l)%Z in
    let* N := if j =? 0 then Ok N else add_to (- half) l j N in
    let* j := aget mask (4 * nz + l / 4) in
    if j =? 0 then Ok N else add_to (f1 / num 4) l j N) N.
(* lines 982-990 *)
Definition var_edges (sz : shape) (mask : list nat) (N : list entry) : outcome (list entry) :=
  let nz := getn sz in
  for_up 0 (4 * nz) (fun l N =>
    let* j := aget mask (4 * nz + l / 4) in
    if j =? 0 then Ok N else let* m := aget mask l in add_to (- half) m j N) N.
(* lines 915-991 *)
Definition buildSF_variable (sz : shape) (gx gy gz : K) (mask : list nat) (N : list entry) : outcome (list entry) :=
  let* N := var_raw sz gx gy gz mask N in
  let* N := var_corners sz mask N in
  var_edges sz mask N.

(* lines 992-1045 *)
Definition jump_x (l : nat) : Z := match l with 0%nat => 2 | 3%nat => -2 | _ => 0 end%Z.
Definition jump_y (l : nat) : Z := match l with 1%nat => -1 | 2%nat => 1 | _ => 0 end%Z.
Definition buildSF_adaptor (sz : shape) (gx gy gz : K) (mask : list nat) (N : list entry) : outcome (list entry) :=
  let nz := getn sz in
  for_up 0 nz (fun i N =>
    let* Z := both (getN sz i gz true) (getdN sz i gz true) in
    let* N := for_up 0 4 (fun l N =>
      let* jx := maskz mask (Z.of_nat (i * 4 + l) + jump_x l)%Z in
      let* X := if jx =? 0 then lin (l / 2) gx else quad (2 * (l / 2)) gx in
      let* jy := maskz mask (Z.of_nat (i * 4 + l) + jump_y l)%Z in
      let* Y := if jy =? 0 then lin (l mod 2) gy else quad (2 * (l mod 2)) gy in
      let* N := aset N (i * 4 + l) (product X Y Z) in
      let* j := aget mask (i * 4 + l) in
      if j =? 0 then Ok N else
      if (l =? 0) || (l =? 3) then let* Y := quad 1 gy in aset N j (product X Y Z)
      else let* X := quad 1 gx in aset N j (product X Y Z)) N in
    let* j := aget mask (4 * nz + i) in
    if j =? 0 then Ok N else
    let* X := quad 1 gx in
    let* Y := quad 1 gy in
    aset N j (product X Y Z)) N.
End Var.
Arguments entry : clear implicits.
