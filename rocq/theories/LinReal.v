(* The real numbers are an ordered field with square roots, so the hypotheses of the theorems
   about the Cholesky factorisations can be met. *)
From Coq Require Import Reals Lra RealField List Lia.
From Verif Require Import Base LinBase PropsGauss PropsChol CholModel PropsLu PropsQr QrModel PropsEig EigModel.
Import ListNotations.
Local Open Scope R_scope.

Definition Rleb (x y : R) : bool := if Rle_dec x y then true else false.
Lemma Rleb_iff x y : Rleb x y = true <-> x <= y.
Proof. unfold Rleb. destruct (Rle_dec x y); split; intros; auto; discriminate || contradiction. Qed.
Definition RF : ofield.
Proof.
  refine {| car := R; f0 := 0; f1 := 1; fadd := Rplus; fmul := Rmult; fsub := Rminus; fopp := Ropp;
            fdiv := Rdiv; finv := Rinv; fle := Rleb; f_th := Rfield |}.
  - intros x y. rewrite !Rleb_iff. lra.
  - intros x y z. rewrite !Rleb_iff. lra.
  - intros x y. rewrite !Rleb_iff. lra.
  - intros x y z. rewrite !Rleb_iff. lra.
  - intros x y. rewrite !Rleb_iff. apply Rmult_le_pos.
Defined.
Lemma RF_sqrt : has_sqrt (K := RF) sqrt.
Proof.
  intros x P. apply fltb_spec in P. destruct P as [P _]. apply Rleb_iff in P. apply sqrt_sqrt. exact P.
Qed.

Lemma RF_is_sqrt : is_sqrt (K := RF) sqrt.
Proof.
  intros x P. apply Rleb_iff in P. split; [exact (sqrt_sqrt x P)|]. apply Rleb_iff. apply sqrt_pos.
Qed.
(* C66 for the real numbers *)
Theorem C66_gram_schmidt_real : forall n (a : list R), length a = (n * n)%nat -> regular (K := RF) n a ->
  match orth_gs (K := RF) sqrt n a with Ok q => orthonormal (K := RF) n n q | _ => False end.
Proof. intros. apply (C66_regular_orthonormal RF sqrt); auto. apply RF_is_sqrt. Qed.

(* C43 for the real numbers *)
Theorem C43_eig_ql_real_partial : forall fuel n (a d e : list R) sorted, length a = (n * n)%nat ->
  symmetric (K := RF) n (el (K := RF) n a) -> length d = n -> length e = n ->
  match eig_ql (K := RF) sqrt fuel n a d e sorted with
  | Ok (q, v) => eigenpairs (K := RF) n a q v /\ (sorted = true -> descending (K := RF) n v)
  | Throw _ => False
  | UB f => f = OutOfFuel
  end.
Proof. intros. apply (C43_eig_ql_partial RF sqrt); auto. apply RF_is_sqrt. Qed.

(* all of C41 for the real numbers and the real square root *)
Theorem C41_chol_solves_real : forall n (A b x : list R),
  length A = (n * n)%nat -> symmetric (K := RF) n (el (K := RF) n A) -> length b = n -> length x = n ->
  match equ_chol (K := RF) sqrt n A b x with
  | Ok r => positive_definite (K := RF) n (el (K := RF) n A) /\ is_solution (K := RF) n (el (K := RF) n A) r b
  | Throw e => e = RuntimeError /\ ~ positive_definite (K := RF) n (el (K := RF) n A)
  | UB _ => False
  end.
Proof. intros. apply (C41_chol_solves RF sqrt); auto. apply RF_sqrt. Qed.
(* a symmetric positive definite matrix of order 2 over the reals *)
Example real_pd : symmetric (K := RF) 2 (el (K := RF) 2 [2; 1; 1; 3]) /\
  positive_definite (K := RF) 2 (el (K := RF) 2 [2; 1; 1; 3]).
Proof.
  split.
  - intros i j I J. destruct i as [|[|]], j as [|[|]]; try lia; reflexivity.
  - intros y (i & L & N). apply fltb_spec.
    set (u := y 0%nat : R). set (v := y 1%nat : R).
    change (Rleb 0 (0 + (0 + u * 2 * u + u * 1 * v) + (0 + v * 1 * u + v * 3 * v)) = true /\
            0 <> 0 + (0 + u * 2 * u + u * 1 * v) + (0 + v * 1 * u + v * 3 * v)).
    assert (P : 0 < 2 * (u * u) + 2 * (u * v) + 3 * (v * v)).
    { pose proof (Rle_0_sqr (u + v)) as S1. unfold Rsqr in S1.
      pose proof (Rle_0_sqr u) as S2. unfold Rsqr in S2. pose proof (Rle_0_sqr v) as S3. unfold Rsqr in S3.
      destruct i as [|[|]]; try lia.
      - assert (0 < u * u) by (apply Rsqr_pos_lt in N; exact N). nra.
      - assert (0 < v * v) by (apply Rsqr_pos_lt in N; exact N). nra. }
    rewrite Rleb_iff. split; lra.
Qed.
Print Assumptions C43_eig_ql_real_partial.
Print Assumptions C66_gram_schmidt_real.
Print Assumptions C41_chol_solves_real.
