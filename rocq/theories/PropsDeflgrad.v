(* C80: the deflection gradient step of the backcalculation. *)
From Coq Require Import List ZArith QArith Qcanon Bool Arith Lia Field Reals Lra.
From Verif Require Import Base LinBase LinReal PropsGauss PropsQr BowlModel KalmanModel KalmanProofs DeflgradModel CgProofs DeflgradProofs
  PropsBrentReal PropsDsm PropsKalman.
Import ListNotations.
Local Close Scope R_scope.
Local Open Scope nat_scope.
Local Open Scope lin_scope.

(* ---- what the step should do ---- *)
Section Spec.
Context {K : ofield}.
Definition gradient (D : defls (K := K)) (j : nat) : nat -> K := fun i => nth i (nth j (deflgrad D) []) f0.
(* sum of the squared distances from the change w to the planes on which a deflection fits *)
Definition distance2 (nl : nat) (D : defls (K := K)) (w : nat -> K) : K :=
  sumr 0 (length (measured D)) (fun j => remaining nl D w j * remaining nl D w j / length2 nl (gradient D j)).
(* its derivative with respect to w i *)
Definition slope (nl : nat) (D : defls (K := K)) (w : nat -> K) (i : nat) : K :=
  sumr 0 (length (measured D)) (fun j => - ((f1 + f1) * remaining nl D w j * gradient D j i / length2 nl (gradient D j))).
(* the square of the harmonic mean of the lengths of the gradients *)
Definition mean2 (sq : K -> K) (nl : nat) (D : defls (K := K)) : K :=
  fnat (length (measured D)) * fnat (length (measured D)) /
  (sumr 0 (length (measured D)) (fun j => f1 / sq (length2 nl (gradient D j))) * sumr 0 (length (measured D)) (fun j => f1 / sq (length2 nl (gradient D j)))).
Definition least (nl : nat) (D : defls (K := K)) (w : nat -> K) : Prop := forall u, fle (distance2 nl D w) (distance2 nl D u) = true.
End Spec.

Section Proofs.
Context {K : ofield}.
Add Field Kf50 : (f_th K).
Variable sq : K -> K.
Hypothesis Sq : is_sqrt sq.
Variables (nl : nat) (D : defls (K := K)).
Notation dl := (length (measured D)).
Hypothesis Dl : 0 < dl.
Hypothesis Nz : forall j, j < dl -> length2 nl (gradient D j) <> f0.

Notation dgerr := (err dl nl (hmat D) (dgm sq dl nl D) (dgc D)).
Notation dggr := (gr dl nl (hmat D) (dgm sq dl nl D) (dgc D)).
Lemma cst_nz : dgcst sq dl nl D <> f0.
Proof. apply fpos_nz. now apply dgcst_pos. Qed.
Lemma cst_mean : dgcst sq dl nl D = mean2 sq nl D.
Proof. reflexivity. Qed.
Lemma rem_lin w j : remaining nl D w j = - (dgc D j + lin nl (hmat D) w j).
Proof. unfold remaining, dgc, lin, hmat. ring. Qed.
Lemma err_dist w : distance2 nl D w = mean2 sq nl D * dgerr w.
Proof.
  rewrite <- cst_mean. unfold distance2, err. rewrite <- sumr_scale. apply sumr_ext. intros j J. rewrite rem_lin. unfold dgm.
  change (sqs nl (hmat D j)) with (length2 nl (gradient D j)). pose proof (Nz j ltac:(lia)) as N. pose proof cst_nz as Nc. field. auto.
Qed.
Lemma gr_slope w i : slope nl D w i = mean2 sq nl D * dggr w i.
Proof.
  rewrite <- cst_mean. unfold slope, gr. rewrite <- sumr_scale. apply sumr_ext. intros j J. rewrite rem_lin. unfold dgm.
  change (sqs nl (hmat D j)) with (length2 nl (gradient D j)). pose proof (Nz j ltac:(lia)) as N. pose proof cst_nz as Nc. unfold gradient, hmat. field. auto.
Qed.
Lemma mean_pos : fltb f0 (mean2 sq nl D) = true.
Proof. rewrite <- cst_mean. now apply dgcst_pos. Qed.
Lemma dist_le u v : fle (dgerr u) (dgerr v) = true <-> fle (distance2 nl D u) (distance2 nl D v) = true.
Proof.
  rewrite !err_dist. pose proof mean_pos as P. pose proof P as P1. apply fltb_spec in P1 as (P1 & _). set (a := dgerr u). set (b := dgerr v). set (k := mean2 sq nl D) in *. split; intros H.
  - apply (proj2 (fle_sub _ _)). replace (k * b - k * a) with (k * (b - a)) by ring. apply fle_mul; auto. now apply (proj1 (fle_sub _ _)).
  - apply (proj2 (fle_sub _ _)). apply (pos_le k _ P). replace (k * (b - a)) with (k * b - k * a) by ring. now apply (proj1 (fle_sub _ _)).
Qed.

(* The step w found does not increase the sum of the squared distances.  Either no minimum of it
   is within a distance of 1, and the step is not longer than the square root of 2; or the step
   is not longer than 1 and its slope is within the precision, made from the gradients. *)
Theorem C80_deflgrad precision lo hi (P Q pg0 md0 cd0 dg0 d0 g0 w0 : list K) :
  complete nl D -> fle f0 precision = true -> fle lo hi = true ->
  length P = nl -> length Q = (nl * nl)%nat -> length pg0 = (dl * nl)%nat -> length md0 = dl -> length cd0 = dl -> length dg0 = dl ->
  length d0 = nl -> length g0 = nl -> length w0 = nl ->
  match deflgrad_step sq nl precision lo hi D P Q pg0 md0 cd0 dg0 d0 g0 w0 with
  | Ok (r, P', Q') => exists w,
      r * r = length2 nl w /\ fle f0 r = true /\ length Q' = (nl * nl)%nat /\
      length P' = nl /\ (forall i, i < nl -> limited lo hi (nth i P f0 + w i) (nth i P' f0)) /\
      fle (distance2 nl D w) (distance2 nl D (fun _ => f0)) = true /\
      ((fle r f1 = true /\
        fle (sumr 0 nl (fun i => slope nl D w i * slope nl D w i)) (mean2 sq nl D * mean2 sq nl D * precision) = true /\
        (precision = f0 -> least nl D w /\ forall u, least nl D u -> fle (length2 nl w) (length2 nl u) = true)) \/
       (fle (length2 nl w) (f1 + f1) = true /\ forall u, least nl D u -> fltb f1 (length2 nl u) = true))
  | _ => False
  end.
Proof.
  intros (Lc & Lg & Hg) Pp Lim LP LQ L1 L2 L3 L4 L5 L6 L7.
  pose proof (deflgrad_wp sq Sq dl nl precision lo hi D P Q pg0 md0 cd0 dg0 d0 g0 w0 Dl (conj eq_refl (conj Lc (conj Lg Hg))) Nz Pp LP LQ L1 L2 L3 L4 L5 L6 L7) as W.
  destruct (deflgrad_step _ _ _ _ _ _ _ _ _ _ _ _ _ _ _) as [[[r P'] Q']|e|f]; cbn [wp] in W; auto.
  destruct W as (w & b & Er & B1 & B2 & -> & V & LQ'). apply vec_list in V as (LP' & V).
  destruct (Sq (sqs nl w) (sqs_nonneg nl w)) as (Q1 & Q2).
  exists w. split; [exact Q1|]. split; auto. split; auto. split; auto. split; [intros i I; rewrite V by auto; now apply clamp_limited|].
  split; [now apply dist_le|].
  assert (LE : forall u, least nl D u <-> forall v, fle (dgerr u) (dgerr v) = true) by (intros u; split; intros H v; apply dist_le; apply H).
  destruct b.
  - right. destruct B2 as (A & B); auto. split; [exact A|]. intros u U. apply B. now apply LE.
  - left. destruct B1 as (A & B & C); auto. split; [|split].
    + destruct (fle_total K (sq (sqs nl w)) f1) as [|G]; auto.
      assert (X : sq (sqs nl w) = f1); [|rewrite X; apply fle_refl].
      set (r := sq (sqs nl w)) in *. change (sqs nl w) with (ip nl w w) in Q1. rewrite <- Q1 in A.
      apply fle_antisym; auto. apply (proj2 (fle_sub _ _)). apply (pos_le (f1 + r)).
      * apply fltb_spec. split; [apply fadd_nonneg; auto; apply f0_le_f1|]. intros E. symmetry in E. apply fadd_0_nonneg in E as (E & _); auto using f0_le_f1. now apply (F_1_neq_0 (f_th K)) in E.
      * replace ((f1 + r) * (f1 - r)) with (f1 - r * r) by ring. now apply (proj1 (fle_sub _ _)).
    + rewrite (sumr_ext 0 nl _ (fun i => mean2 sq nl D * mean2 sq nl D * (dggr w i * dggr w i))) by (intros; rewrite gr_slope; ring).
      rewrite sumr_scale. change (sumr 0 nl (fun i => dggr w i * dggr w i)) with (ip nl (dggr w) (dggr w)). set (k := mean2 sq nl D). set (y := ip nl (dggr w) (dggr w)) in *.
      apply (proj2 (fle_sub _ _)). replace (k * k * precision - k * k * y) with (k * k * (precision - y)) by ring. apply fle_mul; [apply fsqr_nonneg|]. now apply (proj1 (fle_sub _ _)).
    + intros ->. assert (Z : forall i, i < nl -> dggr w i = f0).
      { apply ip_0. apply fle_antisym; auto. apply ip_nonneg. }
      pose proof (err_least dl nl (hmat D) (dgm sq dl nl D) (dgc D) (dgm_pos sq Sq dl nl D Dl Nz) w Z) as Le.
      split; [apply LE; auto|]. intros u U. pose proof (proj1 (LE u) U) as U1.
      apply (row_short dl nl (hmat D) (dgm sq dl nl D) (dgc D) (dgm_pos sq Sq dl nl D Dl Nz) w Z C u). apply fle_antisym; auto.
Qed.
End Proofs.

(* A step longer than 1: the shortening scales the last part only, by the wrong factor.  The
   gradients of two deflections are (5,0), of three (3,4); all square roots but that of the length
   of the step are exact. *)
Definition dg_d (x : Z) : defls (K := QcF) := Defls (map (fun v => qz v / qz 100) [x; x; 0; 0; 0]%Z) (nums [0; 0; 0; 0; 0]%Z)
  [nums [5; 0]%Z; nums [5; 0]%Z; nums [3; 4]%Z; nums [3; 4]%Z; nums [3; 4]%Z].
Definition dg_run (x : Z) := deflgrad_step qsqrt 2 (qz 0) (qz 1) (qz 9) (dg_d x) (nums [3; 3]%Z) (nums [1; 0; 0; 1]%Z)
  (kal_z 10) (kal_z 5) (kal_z 5) (kal_z 5) (kal_z 2) (kal_z 2) (kal_z 2).
Definition moved_by (o : outcome (QcF * list QcF * list QcF)) : list Q := match o with Ok (_, l, _) => map (fun x => this (x - qz 3)) l | _ => [] end.
Example C80_deflgrad_demo : moved_by (dg_run 308) = [77 # 125; -231 # 500]%Q.
Proof. vm_compute. reflexivity. Qed.
Theorem C80_length_refuted : exists a b, moved_by (dg_run 616) = [a; b]%Q /\ (1 < a * a + b * b)%Q.
Proof. do 2 eexists. split; [vm_compute; reflexivity|]. vm_compute. reflexivity. Qed.
(* A deflection without any gradient stops the run (inf and NaN in the code). *)
Theorem C80_flat_refuted : 
  deflgrad_step qsqrt 1 (qz 0) (qz 1) (qz 9) (Defls (nums [1]%Z) (nums [1]%Z) [nums [0]%Z] : defls (K := QcF)) (nums [3]%Z) (nums [1]%Z) 
  (kal_z 1) (kal_z 1) (kal_z 1) (kal_z 1) (kal_z 1) (kal_z 1) (kal_z 1) = UB DivByZero.
Proof. vm_compute. reflexivity. Qed.
(* the hypotheses hold over the reals *)
Example C80_hypotheses : is_sqrt (K := RF) sqrt /\ 0 < length (measured kal_dr) /\ complete 2 kal_dr /\
  forall j, j < length (measured kal_dr) -> length2 2 (gradient kal_dr j) <> 0%R.
Proof.
  split; [apply C78_hypotheses|]. split; [cbn; lia|]. split; [apply C78_hypotheses|].
  intros j J. cbn in J. destruct j as [|[|j]]; [| |lia]; unfold length2, sumr; cbn; lra.
Qed.

Print Assumptions C80_deflgrad.
Print Assumptions C80_length_refuted.
Print Assumptions C80_flat_refuted.
