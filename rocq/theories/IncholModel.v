(* Model of smatrix::incchol (fem3d/fem3d.cpp, lines 1919-1974): the incomplete Cholesky
   decomposition by blocks, on the matrix of SmatModel with blocks of NDOF = 3 rows and columns.

   Doubles are elements of an ordered field, sq is sqrt and eps is DBL_EPSILON.  The loops over
   linked nodes take fuel.  std::range_error is RuntimeError. *)
From Coq Require Import List ZArith Bool Arith.
From Verif Require Import Base LinBase SmatModel.
Import ListNotations.
Local Open Scope nat_scope.

Section Inchol.
Context {K : ofield}.
Local Open Scope lin_scope.
Variable sq : K -> K.
Variable eps : K.

(* line 91: smatrix_dof, by rows *)
Record m3 : Type := M3 { e00 : K; e01 : K; e02 : K; e10 : K; e11 : K; e12 : K; e20 : K; e21 : K; e22 : K }.
Definition get3 (m : m3) (i j : nat) : K :=
  match i, j with
  | 0, 0 => e00 m | 0, 1 => e01 m | 0, _ => e02 m
  | 1, 0 => e10 m | 1, 1 => e11 m | 1, _ => e12 m
  | _, 0 => e20 m | _, 1 => e21 m | _, _ => e22 m
  end%nat.
Definition gen3 (f : nat -> nat -> K) : m3 :=
  M3 (f 0 0) (f 0 1) (f 0 2) (f 1 0) (f 1 1) (f 1 2) (f 2 0) (f 2 1) (f 2 2)%nat.
Definition set3 (m : m3) (i j : nat) (v : K) : m3 :=
  gen3 (fun a b => if Nat.eqb a i && Nat.eqb b j then v else get3 m a b).
Definition zero3 : m3 := gen3 (fun _ _ => f0).
Definition add3 (a b : m3) : m3 := gen3 (fun i j => get3 a i j + get3 b i j).
Definition tr3 (a : m3) : m3 := gen3 (fun i j => get3 a j i).
Definition mul3 (a b : m3) : m3 :=
  gen3 (fun i j => get3 a i 0 * get3 b 0 j + get3 a i 1 * get3 b 1 j + get3 a i 2 * get3 b 2 j).
Definition sub3 (a b : m3) : m3 := gen3 (fun i j => get3 a i j - get3 b i j).

(* lines 1943-1949; d is diag[p->i].K *)
Definition off_solve (d x : m3) : outcome m3 :=
  for_up 0 3 (fun i x => for_up 0 3 (fun j x =>
    let* x := for_up 0 i (fun k x => Ok (set3 x i j (get3 x i j - get3 d k i * get3 x k j))) x in
    Ok (set3 x i j (get3 x i j * get3 d i i))) x) x.
(* lines 1954-1971 *)
Definition diag_chol (d : m3) : outcome m3 :=
  for_up 0 3 (fun i d =>
    let* d := for_up 0 i (fun k d => Ok (set3 d i i (get3 d i i - get3 d k i * get3 d k i))) d in
    if fltb (get3 d i i) eps then Throw RuntimeError else
    let* v := divc f1 (sq (get3 d i i)) in
    let d := set3 d i i v in
    for_up (i + 1) 3 (fun j d =>
      let* d := for_up 0 i (fun k d => Ok (set3 d i j (get3 d i j - get3 d k i * get3 d k j))) d in
      let d := set3 d i j (get3 d i j * get3 d i i) in
      Ok (set3 d j i f0)) d) d.

(* the node q of column n, and its block *)
Definition nodeat (A : smat m3) (n q : nat) : outcome (node m3) := let* d := aget A n in aget (dnodes d) q.
Definition setblock (A : smat m3) (n q : nat) (k : m3) : outcome (smat m3) :=
  let* d := aget A n in
  let* l := set_k (dnodes d) q k in
  aset A n (Dc (dk d) (dhead d) l (dcap d)).
Definition setdiag (A : smat m3) (n : nat) (k : m3) : outcome (smat m3) :=
  let* d := aget A n in aset A n (Dc k (dhead d) (dnodes d) (dcap d)).

(* lines 1931-1941: p is node q of column n, pi runs through column r = p->i, pj through column n *)
Fixpoint merge (fuel : nat) (A : smat m3) (n q r : nat) (pi pj : option nat) : outcome (smat m3) :=
  match fuel with
  | O => UB OutOfFuel
  | S fuel =>
    match pi, pj with
    | Some qi, Some qj =>
      let* x := nodeat A r qi in
      let* y := nodeat A n qj in
      if nrow y <? nrow x then merge fuel A n q r pi (nnext y)
      else if nrow x <? nrow y then merge fuel A n q r (nnext x) pj
      else
        let* p := nodeat A n q in
        let* A := setblock A n q (sub3 (nk p) (mul3 (tr3 (nk x)) (nk y))) in
        merge fuel A n q r (nnext x) (nnext y)
    | _, _ => Ok A
    end
  end%nat.
(* lines 1924-1952 *)
Fixpoint inc_col (fuel : nat) (A : smat m3) (n : nat) (p : option nat) : outcome (smat m3) :=
  match fuel with
  | O => UB OutOfFuel
  | S fuel =>
    match p with
    | None => Ok A
    | Some q =>
      let* x := nodeat A n q in
      let r := nrow x in
      let* di := aget A r in
      let* d := aget A n in
      let* A := merge (S (nnz di + nnz d)) A n q r (dhead di) (dhead d) in
      let* x := nodeat A n q in
      let* di := aget A r in
      let* k := off_solve (dk di) (nk x) in
      let* A := setblock A n q k in
      let* d := aget A n in
      let* A := setdiag A n (sub3 (dk d) (mul3 (tr3 k) k)) in
      let* x := nodeat A n q in
      inc_col fuel A n (nnext x)
    end
  end.
(* lines 1923-1973 *)
Definition incchol (A : smat m3) : outcome (smat m3) :=
  for_up 0 (length A) (fun n A =>
    let* d := aget A n in
    let* A := inc_col (S (nnz d)) A n (dhead d) in
    let* d := aget A n in
    let* k := diag_chol (dk d) in
    setdiag A n k) A.
End Inchol.
Arguments m3 : clear implicits.
