(* The thermal model over the real numbers: the hypotheses of its theorems can be met. *)
From Coq Require Import Reals Lra List Lia.
From Verif Require Import Base LinBase CholModel PropsChol LinReal ThermalModel ThermalAsm ThermalInterp PropsThermal.
Import ListNotations.
Local Open Scope R_scope.

Lemma Rltb_iff (x y : R) : fltb (K := RF) x y = true <-> x < y.
Proof.
  rewrite fltb_spec. cbn. rewrite Rleb_iff. split.
  - intros [A B]. destruct A; auto. contradiction.
  - intros H. split; lra.
Qed.
(* two layers, an element with uneven nodes in each *)
Definition r_nodes : list R := [0; 3/10; 1; 2; 3].
Example real_valid : valid (K := RF) 2 [1; 2] [3; 6] 2 5 r_nodes (1/2) 2.
Proof.
  repeat split; auto; try lia.
  - intros [|[|]] H; try lia; apply Rltb_iff; cbn; lra.
  - intros [|[|]] H; try lia; apply Rleb_iff; cbn; lra.
  - intros [|[|]] H; try lia; apply Rltb_iff; cbn; lra.
  - intros [|[|]] H; try lia; [exists 0%nat|exists 1%nat]; split; auto; split; apply Rleb_iff; cbn; lra.
  - apply Rltb_iff. cbn. lra.
Qed.
(* C46: the constructor accepts it *)
Theorem C46_uneven_accepted : ~ even (K := RF) 2 2 r_nodes /\
  exists t, new_thermal (K := RF) sqrt 2 [1; 2] [3; 6] 5 r_nodes [5; 5; 5; 5; 5] (1/2) 2 = Ok t.
Proof.
  split.
  - intros H. specialize (H 0%nat 1%nat ltac:(lia) ltac:(lia)). cbn in H. lra.
  - apply (C47_valid_accepted RF sqrt 2 [1; 2] [3; 6] 2); auto. apply RF_sqrt. apply real_valid.
Qed.
(* C45 for the real numbers *)
Theorem C45_uniform_real : forall nl (lh ld : list R) m n nd dt w (T : R), valid (K := RF) nl lh ld m n nd dt w ->
  exists t, new_thermal (K := RF) sqrt nl lh ld n nd (repeat T n) dt w = Ok t /\
    forall k, exists t', steps (K := RF) t (repeat (T, T) k) = Ok t' /\ t_nt t' = repeat T n.
Proof. intros. apply (C45_uniform RF sqrt nl lh ld m); auto. apply RF_sqrt. Qed.
(* C68: half as steep in the layer that conducts twice as well *)
Example real_steady : exists t,
  new_thermal (K := RF) sqrt 2 [1; 2] [3; 6] 5 [0; 1/2; 1; 2; 3] [10; 11; 12; 13; 14] (1/2) 2 = Ok t /\
  forall k, exists t', steps (K := RF) t (repeat (10, 14) k) = Ok t' /\ t_nt t' = [10; 11; 12; 13; 14].
Proof.
  apply (C68_steady_flux RF sqrt 2 [1; 2] [3; 6] 2 5 [0; 1/2; 1; 2; 3] [10; 11; 12; 13; 14] (1/2) 2
    6 (fun e => match e with O => 2 | _ => 1 end)); auto.
  - apply RF_sqrt.
  - repeat split; auto; try lia.
    + intros [|[|]] H; try lia; apply Rltb_iff; cbn; lra.
    + intros [|[|]] H; try lia; apply Rleb_iff; cbn; lra.
    + intros [|[|]] H; try lia; apply Rltb_iff; cbn; lra.
    + intros [|[|]] H; try lia; [exists 0%nat|exists 1%nat]; split; auto; split; apply Rleb_iff; cbn; lra.
    + apply Rltb_iff. cbn. lra.
  - intros [|[|]] k H1 H2; try lia; destruct k as [|[|]]; try lia; cbn; lra.
  - intros [|[|]] k H1 H2; try lia; destruct k as [|[|[|]]]; try lia; cbn; lra.
  - intros [|[|]] [|[|]] H1 H2 [I1 I2]; try lia; cbn; try lra.
    + apply Rleb_iff in I1. cbn in I1. lra.
    + apply Rleb_iff in I2. cbn in I2. lra.
Qed.
Print Assumptions C46_uneven_accepted.
Print Assumptions C45_uniform_real.
