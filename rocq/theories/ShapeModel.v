(* Model of the shape functions of the elements of fem3d/fem3d.cpp (lines 1370-1485), of their
   products in a block (lines 891-917) and of the Gauss points (lines 340-358, 1345-1355).

   Simplifications: doubles are the elements of an ordered field; a failed assertion counts as
   OutOfBounds; the arrays have the size given by alloca in the callers. *)
From Coq Require Import List ZArith Bool Arith Field.
From Verif Require Import Base LinBase PcgModel.
Import ListNotations.
Local Open Scope nat_scope.

(* lines 694-703 *)
Inductive shape : Type := Linear | Quadratic | Cubic | Absolute | InfPos | InfNeg.

Section Shape.
Context {K : ofield}.
Local Open Scope lin_scope.

(* the numbers of the code *)
Fixpoint nump (p : positive) : K :=
  match p with
  | xH => f1 | xO xH => f1 + f1 | xI xH => f1 + (f1 + f1)
  | xO p => (f1 + f1) * nump p | xI p => f1 + (f1 + f1) * nump p
  end.
Definition num (z : Z) : K := match z with Z0 => f0 | Zpos p => nump p | Zneg p => - nump p end.
Definition half : K := f1 / num 2.
Definition bad : outcome K := UB OutOfBounds.

(* lines 1357-1369 *)
Definition N_2 (n : nat) (r : K) : outcome K :=
  match n with 0 => Ok (half * (f1 - r)) | 1 => Ok (half * (f1 + r)) | _ => bad end.
Definition dN_2 (n : nat) (r : K) : outcome K :=
  match n with 0 => Ok (- half) | 1 => Ok half | _ => bad end.
(* lines 1370-1384 *)
Definition N_A (n : nat) (r : K) : outcome K :=
  match n with
  | 0 => Ok (if fltb r f0 then - r else f0)
  | 1 => Ok (f1 - fabs r)
  | 2 => Ok (if fltb f0 r then r else f0)
  | _ => bad
  end.
Definition dN_A (n : nat) (r : K) : outcome K :=
  match n with
  | 0 => Ok (if fltb r f0 then - f1 else if fltb f0 r then f0 else - half)
  | 1 => Ok (if fltb r f0 then f1 else if fltb f0 r then - f1 else f0)
  | 2 => Ok (if fltb r f0 then f0 else if fltb f0 r then f1 else half)
  | _ => bad
  end.
(* lines 1385-1399 *)
Definition N_3 (n : nat) (r : K) : outcome K :=
  match n with 0 => Ok (half * r * (r - f1)) | 1 => Ok (f1 - r * r) | 2 => Ok (half * r * (r + f1)) | _ => bad end.
Definition dN_3 (n : nat) (r : K) : outcome K :=
  match n with 0 => Ok (r - half) | 1 => Ok (- num 2 * r) | 2 => Ok (r + half) | _ => bad end.
(* lines 1400-1417 *)
Definition sixteenth : K := f1 / num 16.
Definition N_4 (n : nat) (r : K) : outcome K :=
  match n with
  | 0 => Ok (sixteenth * (- f1 + num 9 * r * r) * (f1 - r))
  | 1 => Ok (sixteenth * (num 9 - num 9 * r * r) * (f1 - num 3 * r))
  | 2 => Ok (sixteenth * (num 9 - num 9 * r * r) * (f1 + num 3 * r))
  | 3 => Ok (sixteenth * (- f1 + num 9 * r * r) * (f1 + r))
  | _ => bad
  end.
Definition dN_4 (n : nat) (r : K) : outcome K :=
  match n with
  | 0 => Ok (sixteenth * (num 18 * r * (f1 - r) - (- f1 + num 9 * r * r)))
  | 1 => Ok (sixteenth * (- num 18 * r * (f1 - num 3 * r) - num 3 * (num 9 - num 9 * r * r)))
  | 2 => Ok (sixteenth * (- num 18 * r * (f1 + num 3 * r) + num 3 * (num 9 - num 9 * r * r)))
  | 3 => Ok (sixteenth * (num 18 * r * (f1 + r) + (- f1 + num 9 * r * r)))
  | _ => bad
  end.
(* lines 1411-1436 *)
Definition Mpi (n : nat) (r : K) : outcome K :=
  match n with 0 => divc (- num 2 * r) (f1 - r) | 1 => divc (f1 + r) (f1 - r) | _ => bad end.
Definition dMpi (n : nat) (r : K) : outcome K :=
  match n with 0 => divc (- num 2) ((f1 - r) * (f1 - r)) | 1 => divc (num 2) ((f1 - r) * (f1 - r)) | _ => bad end.
Definition Mni (n : nat) (r : K) : outcome K :=
  match n with 0 => divc (f1 - r) (f1 + r) | 1 => divc (num 2 * r) (f1 + r) | _ => bad end.
Definition dMni (n : nat) (r : K) : outcome K :=
  match n with 0 => divc (- num 2) ((f1 + r) * (f1 + r)) | 1 => divc (num 2) ((f1 + r) * (f1 + r)) | _ => bad end.
(* lines 1437-1449 *)
Definition Npi := N_3.
Definition dNpi := dN_3.
Definition Nni (n : nat) (r : K) : outcome K := N_3 (n + 1) r.
Definition dNni (n : nat) (r : K) : outcome K := dN_3 (n + 1) r.
(* lines 1450-1460 *)
Definition getn (s : shape) : nat := match s with Linear => 2 | Absolute => 3 | Quadratic => 3 | Cubic => 4 | InfPos => 2 | InfNeg => 2 end.
(* lines 1461-1484 *)
Definition getN (s : shape) (n : nat) (r : K) (ismap : bool) : outcome K :=
  match s with
  | Linear => N_2 n r | Absolute => N_A n r | Quadratic => N_3 n r | Cubic => N_4 n r
  | InfPos => if ismap then Mpi n r else Npi n r
  | InfNeg => if ismap then Mni n r else Nni n r
  end.
Definition getdN (s : shape) (n : nat) (r : K) (ismap : bool) : outcome K :=
  match s with
  | Linear => dN_2 n r | Absolute => dN_A n r | Quadratic => dN_3 n r | Cubic => dN_4 n r
  | InfPos => if ismap then dMpi n r else dNpi n r
  | InfNeg => if ismap then dMni n r else dNni n r
  end.

(* lines 891-917 *)
Definition buildSF_block (sz sx sy : shape) (ismap : bool) (gx gy gz : K) (st : list K * list (v3 K)) : outcome (list K * list (v3 K)) :=
  let ny := getn sy in let my := 1%nat in
  let nx := getn sx in let mx := (my * ny)%nat in
  let nz := getn sz in let mz := (mx * nx)%nat in
  for_up 0 nz (fun i st =>
    let* Nz := getN sz i gz ismap in
    let* dNdz := getdN sz i gz ismap in
    for_up 0 nx (fun j st =>
      let* Nx := getN sx j gx ismap in
      let* dNdx := getdN sx j gx ismap in
      for_up 0 ny (fun k st =>
        let '(N, dNdr) := st in
        let* Ny := getN sy k gy ismap in
        let* dNdy := getdN sy k gy ismap in
        let l := (mz * i + mx * j + my * k)%nat in
        let* N := aset N l (Nx * Ny * Nz) in
        let* dNdr := aset dNdr l (V3 (dNdx * Ny * Nz) (Nx * dNdy * Nz) (Nx * Ny * dNdz)) in
        Ok (N, dNdr)) st) st) st.

(* lines 340-358 *)
Variable sq : K -> K.
Definition gp_2 : list (K * K) := [(- (f1 / sq (num 3)), f1); (f1 / sq (num 3), f1)].
Definition gp_3 : list (K * K) := [(- sq (num 3 / num 5), num 5 / num 9); (f0, num 8 / num 9); (sq (num 3 / num 5), num 5 / num 9)].
Definition gp_4 : list (K * K) :=
  [(- (sq (num 525 + num 70 * sq (num 30)) / num 35), (num 18 - sq (num 30)) / num 36);
   (- (sq (num 525 - num 70 * sq (num 30)) / num 35), (num 18 + sq (num 30)) / num 36);
   (sq (num 525 - num 70 * sq (num 30)) / num 35, (num 18 + sq (num 30)) / num 36);
   (sq (num 525 + num 70 * sq (num 30)) / num 35, (num 18 - sq (num 30)) / num 36)].
Definition gp_A : list (K * K) :=
  [(- ((f1 + f1 / sq (num 3)) / num 2), f1 / num 2); (- ((f1 - f1 / sq (num 3)) / num 2), f1 / num 2);
   ((f1 - f1 / sq (num 3)) / num 2, f1 / num 2); ((f1 + f1 / sq (num 3)) / num 2, f1 / num 2)].
Definition gl_4 : list (K * K) :=
  [(- f1, f1 / num 6); (- (sq (num 5) / num 5), num 5 / num 6); (sq (num 5) / num 5, num 5 / num 6); (f1, f1 / num 6)].
(* lines 1345-1355 *)
Definition getgauss (s : shape) : list (K * K) :=
  match s with Linear => gp_2 | Quadratic => gp_3 | Cubic => gp_4 | Absolute => gp_A | InfPos | InfNeg => gp_4 end.
End Shape.
