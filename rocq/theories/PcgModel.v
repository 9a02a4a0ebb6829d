(* Model of the solution of the assembled system in mesh::solve (fem3d/fem3d.cpp, lines 2657-2776):
   tidy, copy, fill in, incomplete Cholesky, then conjugate gradients with the decomposition as
   preconditioner, on the matrix of SmatModel with the blocks of IncholModel.

   Doubles are elements of an ordered field.  A failed assertion (line 2750) counts as DivByZero,
   since the lines after it divide by the same number.  Printing is left out. *)
From Coq Require Import List ZArith Bool Arith.
From Verif Require Import Base LinBase SmatModel IncholModel.
Import ListNotations.
Local Open Scope nat_scope.

Section Pcg.
Context {K : ofield}.
Local Open Scope lin_scope.

(* line 92: svector_dof *)
Record v3 : Type := V3 { c0 : K; c1 : K; c2 : K }.
Definition gv (v : v3) (i : nat) : K := match i with O => c0 v | S O => c1 v | _ => c2 v end.
Definition genv (f : nat -> K) : v3 := V3 (f 0%nat) (f 1%nat) (f 2%nat).
Definition setv (v : v3) (i : nat) (x : K) : v3 := genv (fun a => if Nat.eqb a i then x else gv v a).
Definition zerov : v3 := V3 f0 f0 f0.
Definition mulv (m : m3 K) (v : v3) : v3 := genv (fun i => get3 m i 0 * gv v 0 + get3 m i 1 * gv v 1 + get3 m i 2 * gv v 2).
Definition addv (a b : v3) : v3 := genv (fun i => gv a i + gv b i).
Definition subv (a b : v3) : v3 := genv (fun i => gv a i - gv b i).
Definition scalev (s : K) (a : v3) : v3 := genv (fun i => s * gv a i).
Definition dotv (a b : v3) : K := gv a 0 * gv b 0 + gv a 1 * gv b 1 + gv a 2 * gv b 2.
(* lines 2027-2050 *)
Definition svec : Type := list v3.
Definition svec_new (n : nat) : svec := repeat zerov n.

(* lines 2681-2682, the same in 2699-2700, 2721-2722 and 2741-2742: the nodes from col_head on, by their places *)
Definition walk {S} (d : dcol (m3 K)) (f : node (m3 K) -> S -> outcome S) (s : S) : outcome S :=
  for_up 0 (nnz d) (fun k s =>
    match dhead d with
    | None => UB NullDeref
    | Some h => let* p := aget (dnodes d) (h + k) in f p s
    end) s.
(* lines 2678-2687 and 2738-2747: the product with the matrix; op is - or + *)
Definition spmv (op : v3 -> v3 -> v3) (ini : nat -> v3 -> outcome v3) (A : smat (m3 K)) (Y X : svec) : outcome svec :=
  for_up 0 (length A) (fun i X =>
    let* d := aget A i in
    let* y := aget Y i in
    let* x := ini i (mulv (dk d) y) in
    let* X := aset X i x in
    walk d (fun p X =>
      let* xi := aget X i in
      let* yr := aget Y (nrow p) in
      let* X := aset X i (op xi (mulv (tr3 (nk p)) yr)) in
      let* xr := aget X (nrow p) in
      aset X (nrow p) (op xr (mulv (nk p) y))) X) X.
Definition residual (A : smat (m3 K)) (F U R : svec) : outcome svec :=
  spmv subv (fun i t => let* f := aget F i in Ok (subv f t)) A U R.
Definition product (A : smat (m3 K)) (P W : svec) : outcome svec := spmv addv (fun _ t => Ok t) A P W.
(* lines 2669-2670, 2688-2689, 2728-2729 and 2748-2749 *)
Definition dots (m : nat) (X Y : svec) : outcome K :=
  for_up 0 m (fun i r => let* x := aget X i in let* y := aget Y i in Ok (r + dotv x y)) f0.

(* lines 2696-2710: forward substitution *)
Definition fsolve (d : m3 K) (t : v3) : outcome v3 :=
  for_up 0 3 (fun i t =>
    let* t := for_up 0 i (fun j t => Ok (setv t i (gv t i - gv t j * get3 d j i))) t in
    Ok (setv t i (gv t i * get3 d i i))) t.
Definition forward (M : smat (m3 K)) (R V : svec) : outcome svec :=
  for_up 0 (length M) (fun n V =>
    let* d := aget M n in
    let* t := aget R n in
    let* t := walk d (fun p t => let* v := aget V (nrow p) in Ok (subv t (mulv (tr3 (nk p)) v))) t in
    let* t := fsolve (dk d) t in
    aset V n t) V.
(* lines 2712-2726: backward substitution *)
Definition bsolve (d : m3 K) (t : v3) : outcome v3 :=
  for_down 3 0 (fun i t =>
    let* t := for_up i 3 (fun j t => Ok (setv t (i - 1) (gv t (i - 1)%nat - gv t j * get3 d (i - 1) j))) t in
    Ok (setv t (i - 1) (gv t (i - 1)%nat * get3 d (i - 1) (i - 1)))) t.
Definition backward (M : smat (m3 K)) (V : svec) : outcome svec :=
  for_down (length M) 0 (fun n V =>
    let* d := aget M (n - 1) in
    let* t := aget V (n - 1) in
    let* t := bsolve (dk d) t in
    let* V := aset V (n - 1) t in
    walk d (fun p V => let* v := aget V (nrow p) in aset V (nrow p) (subv v (mulv (nk p) t))) V) V.

(* lines 2730-2736 *)
Definition direction (it : nat) (m : nat) (V : svec) (r ro : K) (P : svec) : outcome svec :=
  if Nat.eqb it 0 then for_up 0 m (fun i P => let* v := aget V i in aset P i v) P
  else for_up 0 m (fun i P =>
    let* v := aget V i in
    let* q := divc r ro in
    let* p := aget P i in
    aset P i (addv v (scalev q p))) P.
(* lines 2752-2755 *)
Definition update (m : nat) (ro a : K) (P W : svec) (s : svec * svec) : outcome (svec * svec) :=
  for_up 0 m (fun i '(U, R) =>
    let* q := divc ro a in
    let* p := aget P i in
    let* w := aget W i in
    let* u := aget U i in
    let* U := aset U i (addv u (scalev q p)) in
    let* r := aget R i in
    let* R := aset R i (subv r (scalev q w)) in
    Ok (U, R)) s.

(* lines 2676-2771; R is already the residual of U *)
Fixpoint pcg (fuel : nat) (A M : smat (m3 K)) (m : nat) (tol ri : K) (it : nat) (U R P V W : svec) (ro : K) : outcome (svec * svec * nat) :=
  match fuel with
  | O => UB OutOfFuel
  | S fuel =>
    let* r := dots m R R in
    if fltb r (tol * ri) || (m * 3 <=? it)%nat then Ok (U, R, it)
    else
      let* V := forward M R V in
      let* V := backward M V in
      let* r := dots m V R in
      let* P := direction it m V r ro P in
      let* W := product A P W in
      let* a := dots m W P in
      if negb (fltb f0 a) then UB DivByZero else
      let ro := r in
      let* (U, R) := update m ro a P W (U, R) in
      pcg fuel A M m tol ri (it + 1) U R P V W ro
  end.

(* lines 2657-2772; P is what the boundary conditions left in it *)
Definition solve_sys (sq : K -> K) (eps : K) (lim : Z) (A : smat (m3 K)) (F U P : svec) (tol : K) : outcome (svec * svec * nat) :=
  let m := length A in
  let* A := tidy (S m) A in
  let* M := copy zero3 add3 tr3 lim A in
  let* M := fillin zero3 lim (S m) M in
  let* M := incchol sq eps M in
  let* ri := dots m F F in
  let* R := residual A F U (svec_new m) in
  pcg (S (m * 3)) A M m tol ri 0 U R P (svec_new m) (svec_new m) f0.
End Pcg.
Arguments v3 : clear implicits.
Arguments svec : clear implicits.
