(* Model of the assembly of the system in mesh::solve (fem3d/fem3d.cpp, lines 2563-2655) and of
   the element matrix smatrix_elem (lines 597-630), on the models SmatModel, IncholModel and PcgModel.

   Simplifications: the sets f_ext and disp_bc are the lists of their entries; an element is its
   table l2g and the matrix its stiffness() returns; a failed assertion counts as OutOfBounds. *)
From Coq Require Import List ZArith Bool Arith.
From Verif Require Import Base LinBase SmatModel IncholModel PcgModel.
Import ListNotations.
Local Open Scope nat_scope.

Section Bc.
Context {K : ofield}.
Local Open Scope lin_scope.

(* lines 2074-2084 *)
Record bc : Type := Bc { bn : nat; bdof : nat; bd : K }.
(* an element and its stiffness; lines 597-630 *)
Record felem : Type := El { el2g : list nat; eke : list (m3 K) }.
Definition ennd (e : felem) : nat := length (el2g e).
(* lines 627-629 *)
Definition kidx (i j : nat) : nat := (j * (j + 1) / 2 + i)%nat.
(* lines 611-614 *)
Definition kget (l : list (m3 K)) (i j : nat) : outcome (m3 K) := if (j <? i)%nat then UB OutOfBounds else aget l (kidx i j).
Definition kset (l : list (m3 K)) (i j s t : nat) (v : K) : outcome (list (m3 K)) :=
  if (j <? i)%nat then UB OutOfBounds else let* b := aget l (kidx i j) in aset l (kidx i j) (set3 b s t v).

Fixpoint each {X S} (l : list X) (f : X -> S -> outcome S) (s : S) : outcome S :=
  match l with [] => Ok s | x :: l => let* s := f x s in each l f s end.
(* V(n)(i) = d *)
Definition setc (V : svec K) (n i : nat) (d : K) : outcome (svec K) := let* v := aget V n in aset V n (setv v i d).

(* lines 2563-2567 *)
Definition forces (n2o : list nat) (fext : list bc) (F : svec K) : outcome (svec K) :=
  each fext (fun f F => let* n := aget n2o (bn f) in setc F n (bdof f) (bd f)) F.
(* lines 2575-2586 *)
Definition fixings (n2o : list nat) (dbc : list bc) (s : list Z * svec K) : outcome (list Z * svec K) :=
  each dbc (fun u '(fixed, P) =>
    let* x := aget fixed (bn u) in
    let x := Z.lor x (Z.shiftl 1 (Z.of_nat (bdof u))) in
    let* fixed := aset fixed (bn u) x in
    if negb (feqb (bd u) f0) then
      let* fixed := aset fixed (bn u) (Z.lor x (Z.shiftl 1 3)) in
      let* n := aget n2o (bn u) in
      let* P := setc P n (bdof u) (bd u) in
      Ok (fixed, P)
    else Ok (fixed, P)) s.

(* lines 2596-2610 *)
Definition el_force (n2o : list nat) (fixed : list Z) (P : svec K) (e : felem) (F : svec K) : outcome (svec K) :=
  for_up 0 (ennd e) (fun i F =>
    let* gi := aget (el2g e) i in
    let* ni := aget n2o gi in
    let* x := aget fixed gi in
    if negb (Z.eqb (Z.land x (Z.shiftl 1 3)) 0) then
      for_up 0 (ennd e) (fun j F =>
        let* gj := aget (el2g e) j in
        let* nj := aget n2o gj in
        let* p := aget P ni in
        let* f := aget F nj in
        if (j <? i)%nat then
          let* k := kget (eke e) j i in aset F nj (subv f (mulv k p))
        else
          let* k := kget (eke e) i j in aset F nj (subv f (mulv (tr3 k) p))) F
    else Ok F) F.
(* lines 2611-2630 *)
Definition el_zero (fixed : list Z) (e : felem) : outcome felem :=
  let* l := for_up 0 (ennd e) (fun i l =>
    let* gi := aget (el2g e) i in
    let* x := aget fixed gi in
    if Z.eqb (Z.land x 7) 0 || Z.eqb (Z.land x 7) 7 then Ok l else
    for_up 0 (ennd e) (fun j l =>
      for_up 0 3 (fun k l =>
        if Z.eqb (Z.land x (Z.shiftl 1 (Z.of_nat k))) 0 then Ok l else
        for_up 0 3 (fun t l =>
          let* l := if (j <=? i)%nat then kset l j i t k f0 else Ok l in
          if (i <=? j)%nat then kset l i j k t f0 else Ok l) l) l) l) (eke e) in
  Ok (El (el2g e) l).
(* lines 2631-2645 *)
Definition el_asm (lim : Z) (n2o : list nat) (fixed : list Z) (e : felem) (A : smat (m3 K)) : outcome (smat (m3 K)) :=
  for_up 0 (ennd e) (fun i A =>
    let* gi := aget (el2g e) i in
    let* ni := aget n2o gi in
    let* x := aget fixed gi in
    if Z.eqb (Z.land x 7) 7 then Ok A else
    for_up i (ennd e) (fun j A =>
      let* gj := aget (el2g e) j in
      let* y := aget fixed gj in
      if Z.eqb (Z.land y 7) 7 then Ok A else
      let* nj := aget n2o gj in
      let* k := kget (eke e) i j in
      append add3 tr3 lim A ni nj k) A) A.
(* lines 2588-2649 *)
Definition elements (lim : Z) (n2o : list nat) (fixed : list Z) (P : svec K) (es : list felem) (s : smat (m3 K) * svec K) : outcome (smat (m3 K) * svec K) :=
  each es (fun e '(A, F) =>
    let* F := el_force n2o fixed P e F in
    let* e := el_zero fixed e in
    let* A := el_asm lim n2o fixed e A in
    Ok (A, F)) s.
(* lines 2650-2655 *)
Definition finish (n2o : list nat) (dbc : list bc) (s : smat (m3 K) * svec K * svec K) : outcome (smat (m3 K) * svec K * svec K) :=
  each dbc (fun u '(A, F, U) =>
    let* n := aget n2o (bn u) in
    let* U := setc U n (bdof u) (bd u) in
    let* F := setc F n (bdof u) (bd u) in
    let* d := aget A n in
    let* A := setdiag A n (set3 (dk d) (bdof u) (bdof u) f1) in
    Ok (A, F, U)) s.

(* lines 2516-2655; u0 are the displacements kept in the nodes, fixed0 their marks *)
Definition initial (n2o : list nat) (u0 : list (v3 K)) (U : svec K) : outcome (svec K) :=
  for_up 0 (length u0) (fun i U => let* u := aget u0 i in let* n := aget n2o i in aset U n u) U.
Definition assemble (lim : Z) (n2o : list nat) (fext dbc : list bc) (es : list felem) (u0 : list (v3 K)) (fixed0 : list Z) : outcome (smat (m3 K) * svec K * svec K * svec K) :=
  let m := length u0 in
  let* F := forces n2o fext (svec_new m) in
  let* U := initial n2o u0 (svec_new m) in
  let* (fixed, P) := fixings n2o dbc (fixed0, svec_new m) in
  let* (A, F) := elements lim n2o fixed P es (smat_new zero3 m, F) in
  let* (A, F, U) := finish n2o dbc (A, F, U) in
  Ok (A, F, U, P).
(* lines 2516-2776 without the ordering of the nodes *)
Definition mesh_solve (sq : K -> K) (eps : K) (lim : Z) (n2o : list nat) (fext dbc : list bc) (es : list felem) (u0 : list (v3 K)) (fixed0 : list Z) (tol : K) : outcome (svec K * svec K * nat) :=
  let* (A, F, U, P) := assemble lim n2o fext dbc es u0 fixed0 in
  solve_sys sq eps lim A F U P tol.
End Bc.
Arguments bc : clear implicits.
Arguments felem : clear implicits.
