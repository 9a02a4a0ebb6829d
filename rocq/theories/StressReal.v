(* C33 over the real numbers: the loop ends for every tensor. *)
From Coq Require Import Reals Lra List Lia.
From Verif Require Import Base LinBase QrProofs PropsEig EigModel LinReal StressModel StressProofs PropsStress.
Import ListNotations.
Local Open Scope R_scope.

Lemma RF_sqrt_pos : QrProofs.sqrt_pos (K := RF) sqrt.
Proof.
  intros x P. apply fltb_spec in P as [P N]. apply Rleb_iff in P. split; [exact (sqrt_sqrt x P)|].
  apply fltb_spec. split; [exact (proj2 (Rleb_iff 0 (sqrt x)) (R_sqrt.sqrt_pos x))|]. cbn in *. intros E. symmetry in E.
  apply sqrt_eq_0 in E; auto.
Qed.
Lemma twice_pow k (x : R) : twice (K := RF) k x = 2 ^ k * x.
Proof. induction k as [|k IH]; cbn [twice pow]; [cbn; lra|]. rewrite IH. cbn. lra. Qed.
Theorem C33_ends_real : forall (tol : R) (d : @point RF) (v E : R), 0 < tol -> E <> 0 ->
  exists fuel d', principle (K := RF) sqrt tol fuel d v E = Ok d' /\
    increasing (K := RF) (pnormal d') /\ trace (pnormal d') = trace (normal d) /\ increasing (pshear d') /\
    exists U, basis (K := RF) U /\
      eigen_up_to (K := RF) tol (stress d) (e0 (pnormal d')) (U 0%nat) /\
      eigen_up_to (K := RF) tol (stress d) (e1 (pnormal d')) (U 1%nat) /\
      eigen_up_to (K := RF) tol (stress d) (e2 (pnormal d')) (U 2%nat).
Proof.
  intros tol d v E T N. set (q := off (shear d) : R).
  destruct (Pow_x_infinity 2 ltac:(rewrite Rabs_right; lra) (q / tol)) as [k H].
  specialize (H k (Nat.le_refl k)). rewrite Rabs_right in H by (apply Rle_ge, pow_le; lra). apply Rge_le in H.
  destruct (C33_principal RF sqrt tol k d v E RF_sqrt_pos N) as (d' & R & A & B & C & D & _).
  - apply Rleb_iff. fold q. rewrite twice_pow.
    replace q with (q / tol * tol) by (field; lra). apply Rmult_le_compat_r; lra.
  - exists k, d'. auto.
Qed.
Print Assumptions C33_ends_real.
