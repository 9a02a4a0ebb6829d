(* The hypotheses of the theorems about the singular value decomposition can be met. *)
From Coq Require Import Reals Lra List Lia Arith.
From Verif Require Import Base LinBase PropsGauss PropsLu PropsQr LinReal SvdModel SvdUse PropsSvd.
Import ListNotations.
Local Open Scope R_scope.

(* the real numbers and the real square root: up to two columns *)
Theorem C70_two_columns_real_partial : forall m n (rv a w v : list R),
  (0 < n <= m)%nat -> (n <= 2)%nat -> length a = (m * n)%nat -> length w = n -> length v = (n * n)%nat -> length rv = S n ->
  full_rank (K := RF) m n a ->
  exists u s q, decmp_svd (K := RF) sqrt m n rv a w v = Ok (u, s, q, true) /\ is_svd (K := RF) m n a u s q.
Proof. intros. apply (C70_two_columns_partial RF sqrt); auto. apply RF_is_sqrt. Qed.
(* a matrix with three rows and two columns that meets them *)
Example real_full_rank : full_rank (K := RF) 3 2 [1; 2; 3; 4; 5; 6].
Proof.
  intros y H c L. pose proof (H 0%nat ltac:(lia)) as H0. pose proof (H 1%nat ltac:(lia)) as H1. clear H.
  cbv in H0, H1.
  change (0 + (1) * y 0%nat + (1 + 1) * y 1%nat = 0) in H0.
  change (0 + (1 + (1 + 1)) * y 0%nat + ((1 + 1) * (1 + 1)) * y 1%nat = 0) in H1.
  change (y c = 0). destruct c as [|[|]]; try lia; lra.
Qed.
Example real_svd : exists u s q, decmp_svd (K := RF) sqrt 3 2 [0; 0; 0] [1; 2; 3; 4; 5; 6] [0; 0] [0; 0; 0; 0] = Ok (u, s, q, true) /\
  is_svd (K := RF) 3 2 [1; 2; 3; 4; 5; 6] u s q.
Proof. apply C70_two_columns_real_partial; auto. apply real_full_rank. Qed.
(* a matrix of order two for the solver, the inverse and the orthogonalisation: never given up *)
Example real_square : full_rank (K := RF) 2 2 [1; 2; 3; 4] /\ ~ gives_up (K := RF) sqrt 2 2 [0; 0; 0] [1; 2; 3; 4] [0; 0] [0; 0; 0; 0].
Proof.
  assert (F : full_rank (K := RF) 2 2 [1; 2; 3; 4]).
  { intros y H c L. pose proof (H 0%nat ltac:(lia)) as H0. pose proof (H 1%nat ltac:(lia)) as H1. clear H.
    cbv in H0, H1.
    change (0 + (1) * y 0%nat + (1 + 1) * y 1%nat = 0) in H0.
    change (0 + (1 + (1 + 1)) * y 0%nat + ((1 + 1) * (1 + 1)) * y 1%nat = 0) in H1.
    change (y c = 0). destruct c as [|[|]]; try lia; lra. }
  split; auto.
  apply (two_columns (K := RF) sqrt 2 2 [0; 0; 0] [1; 2; 3; 4] [0; 0] [0; 0; 0; 0] (el (K := RF) 2 [1; 2; 3; 4])); auto.
  - apply is_sqrt_pos. apply RF_is_sqrt.
  - now apply mat_el0.
Qed.
(* a decomposition with a singular value that is zero, for the back substitution *)
Local Close Scope R_scope.
Example rank_one : is_svd (K := QcF) 3 2 [qz 3; qz 0; qz 0; qz 0; qz 0; qz 0]
  [qz 1; qz 0; qz 0; qz 1; qz 0; qz 0] [qz 3; qz 0] [qz 1; qz 0; qz 0; qz 1].
Proof.
  repeat split.
  - intros r c R C. destruct r as [|[|[|]]], c as [|[|]]; try lia; apply Qcanon.Qc_is_canon; reflexivity.
  - intros i j I J. destruct i as [|[|]], j as [|[|]]; try lia; apply Qcanon.Qc_is_canon; reflexivity.
  - intros i j I J. destruct i as [|[|]], j as [|[|]]; try lia; apply Qcanon.Qc_is_canon; reflexivity.
  - intros i j I J. destruct i as [|[|]], j as [|[|]]; try lia; apply Qcanon.Qc_is_canon; reflexivity.
  - intros k Lk. destruct k as [|[|]]; try lia; reflexivity.
Qed.

Print Assumptions C70_two_columns_real_partial.
Print Assumptions real_svd.
