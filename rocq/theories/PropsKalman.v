(* C78: the Kalman and Gauss-Newton steps of the backcalculation. *)
From Coq Require Import List ZArith QArith Qcanon Bool Arith Lia Field Reals Lra.
From Verif Require Import Base LinBase LinReal PropsGauss PropsQr PropsEig QlProofs BowlModel KalmanModel KalmanProofs PropsBrentReal PropsDsm.
Import ListNotations.
Local Close Scope R_scope.
Local Open Scope nat_scope.
Local Open Scope lin_scope.

(* ---- what the steps should do ---- *)
Section Spec.
Context {K : ofield}.
(* the deflections are all there, with a gradient for each of the nl layers *)
Definition complete (nl : nat) (D : defls (K := K)) : Prop :=
  length (calculated D) = length (measured D) /\ length (deflgrad D) = length (measured D) /\
  forall g, In g (deflgrad D) -> length g = nl.
(* the deflection j, if linear, after a change w of the log moduli: what remains of its misfit *)
Definition remaining (nl : nat) (D : defls (K := K)) (w : nat -> K) (j : nat) : K :=
  nth j (measured D) f0 - nth j (calculated D) f0 - sumr 0 nl (fun i => nth i (nth j (deflgrad D) []) f0 * w i).
Definition length2 (nl : nat) (w : nat -> K) : K := sumr 0 nl (fun i => w i * w i).
(* weighted sum of the squares of the misfits and of the change *)
Definition loss (nl : nat) (wt s : K) (D : defls (K := K)) (w : nat -> K) : K :=
  wt * sumr 0 (length (measured D)) (fun j => remaining nl D w j * remaining nl D w j) + s * length2 nl w.
(* w makes the loss least and is the shortest which does *)
Definition best_step (nl : nat) (wt s : K) (D : defls (K := K)) (w : nat -> K) : Prop :=
  (forall u, fle (loss nl wt s D w) (loss nl wt s D u) = true) /\
  (forall u, loss nl wt s D u = loss nl wt s D w -> fle (length2 nl w) (length2 nl u) = true).
(* y is x brought into [lo,hi] *)
Definition limited (lo hi x y : K) : Prop :=
  fle lo y = true /\ fle y hi = true /\ (y = x \/ (fltb x lo = true /\ y = lo) \/ (fltb hi x = true /\ y = hi)).
(* the sum of the squares of all gradients *)
Definition gradients2 (nl : nat) (D : defls (K := K)) : K :=
  sumr 0 nl (fun i => sumr 0 (length (measured D)) (fun j => nth i (nth j (deflgrad D) []) f0 * nth i (nth j (deflgrad D) []) f0)).
(* no eigenvalue but zero of the matrix that is inverted is below tol times another *)
Definition kalman_spread (tol : K) (nl : nat) (wt s : K) (D : defls (K := K)) : Prop :=
  let dl := length (measured D) in
  forall a, length a = (dl * dl)%nat ->
    (forall i j, i < dl -> j < dl -> el dl a i j =
       sumr 0 nl (fun k => nth k (nth i (deflgrad D) []) f0 * nth k (nth j (deflgrad D) []) f0) * wt + (if i =? j then s else f0)) ->
    PropsEig.spread tol dl a.
Definition newton_spread (tol : K) (nl : nat) (D : defls (K := K)) : Prop :=
  forall a, length a = (nl * nl)%nat ->
    (forall i j, i < nl -> j < nl -> el nl a i j =
       sumr 0 (length (measured D)) (fun k => nth i (nth k (deflgrad D) []) f0 * nth j (nth k (deflgrad D) []) f0)) ->
    PropsEig.spread tol nl a.
End Spec.

Section Proofs.
Context {K : ofield}.
Add Field Kf47 : (f_th K).

Lemma loss_cost nl wt s (D : defls (K := K)) w : loss nl wt s D w = cost (length (measured D)) nl wt s (hmat D) (mis D) w.
Proof. reflexivity. Qed.
Lemma clamp_limited (lo hi x : K) : fle lo hi = true -> limited lo hi x (clamp lo hi x).
Proof.
  intros L. unfold limited, clamp. destruct (fltb lo x) eqn:A.
  - destruct (fltb hi x) eqn:B.
    + repeat split; auto using fle_refl.
    + unfold fltb in *. repeat split; auto. { destruct (fle_total K lo x); auto. rewrite H in A. discriminate. } now destruct (fle x hi).
  - destruct (fltb hi lo) eqn:B; [unfold fltb in B; rewrite L in B; discriminate|]. repeat split; auto using fle_refl.
    destruct (feqb_spec lo x); auto. right. left. split; auto. apply fltb_spec. split; auto. unfold fltb in A. now destruct (fle x lo).
Qed.
Lemma best_normal nl wt s (D : defls (K := K)) W z : fltb f0 wt = true -> fle f0 s = true ->
  (forall k, k < nl -> wt * sumr 0 (length (measured D)) (fun j => hmat D j k * (mis D j - app nl (hmat D) W j)) = s * W k) ->
  (forall k, k < nl -> W k = sumr 0 (length (measured D)) (fun j => hmat D j k * z j)) -> best_step nl wt s D W.
Proof.
  intros Pw Ps N Z. split.
  - intros u. rewrite !loss_cost. apply cost_least; auto. apply fltb_spec in Pw. tauto.
  - intros u E. rewrite !loss_cost in E. eapply cost_short; eauto.
Qed.
Lemma shorten_spec (r : K) : fle f0 r = true -> r <> f0 ->
  exists a, shorten r = Some a /\ fltb f0 a = true /\ fle a f1 = true /\ (fle r f1 = true -> a = f1) /\ fle (a * r) f1 = true.
Proof.
  intros P N. unfold shorten. destruct (feqb_spec r f0) as [|_]; [contradiction|].
  assert (Pr : fltb f0 r = true) by (apply fltb_spec; auto).
  assert (One : @fltb K f0 f1 = true) by (apply fltb_spec; split; [apply f0_le_f1|intros E; symmetry in E; now apply (F_1_neq_0 (f_th K)) in E]).
  eexists. split; [reflexivity|]. destruct (fltb f1 r) eqn:B.
  - assert (Pi : fltb f0 (f1 / r) = true).
    { apply fltb_spec. split.
      - apply (pos_le r); auto. replace (r * (f1 / r)) with (@f1 K) by (field; auto). apply f0_le_f1.
      - intros E. apply (F_1_neq_0 (f_th K)). replace (@f1 K) with (r * (f1 / r)) by (field; auto). rewrite <- E. ring. }
    repeat split; auto.
    + apply (proj2 (fle_sub _ _)). apply (pos_le r); auto. replace (r * (f1 - f1 / r)) with (r - f1) by (field; auto).
      apply (proj1 (fle_sub _ _)). apply fltb_spec in B. tauto.
    + intros L. unfold fltb in B. rewrite L in B. discriminate.
    + replace (f1 / r * r) with (@f1 K) by (field; auto). apply fle_refl.
  - replace (r / r) with (@f1 K) by (field; auto). repeat split; auto using fle_refl.
    replace (f1 * r) with r by ring. unfold fltb in B. now destruct (fle r f1).
Qed.
Lemma vec_list nl (l : list K) F : vec nl l F -> length l = nl /\ forall i, i < nl -> nth i l f0 = F i.
Proof. intros [L V]. split; auto. intros i I. apply nth_error_nth. auto. Qed.

Lemma sq_0 (sq : K -> K) : is_sqrt sq -> sq f0 = f0.
Proof. intros S. destruct (S f0 (fle_refl _)) as (A & _). now apply fsqr_0 in A. Qed.

(* The step of the filter is the best step.  It is given in full if not longer than 1, else made 1
   long; then the log moduli are brought into the limits.  If the best step is none at all the
   moduli are all set to the lower limit. *)
Theorem C78_kalman_partial sq fuel tol nl wt s lo hi D (P h0 s0 k0 y0 w0 d0 e0 : list K) :
  let dl := length (measured D) in
  is_sqrt sq -> measured D <> [] -> complete nl D -> fltb f0 wt = true -> fle f0 s = true -> fle lo hi = true ->
  kalman_spread tol nl wt s D ->
  length P = nl -> length h0 = (dl * nl)%nat -> length s0 = (dl * dl)%nat -> length k0 = (nl * dl)%nat -> length y0 = dl ->
  length w0 = nl -> length d0 = dl -> length e0 = dl ->
  match kalman sq fuel tol nl wt s lo hi D P h0 s0 k0 y0 w0 d0 e0 with
  | Ok (r, P') => exists W, best_step nl wt s D W /\ r * r = length2 nl W /\ fle f0 r = true /\ length P' = nl /\
      (r <> f0 -> exists a, fltb f0 a = true /\ fle a f1 = true /\ fle (a * r) f1 = true /\ (fle r f1 = true -> a = f1) /\
         forall i, i < nl -> limited lo hi (nth i P f0 + a * W i) (nth i P' f0)) /\
      (r = f0 -> forall i, i < nl -> nth i P' f0 = lo)
  | Throw _ => False
  | UB f => f = OutOfFuel
  end.
Proof.
  intros dl Sq Nz (Lc & Lg & Hg) Pw Ps Lim Sp LP Lh Ls Lk Ly Lw Ld Le.
  assert (Wp := kalman_wp sq fuel tol dl nl wt s lo hi D P h0 s0 k0 y0 w0 d0 e0 Sq).
  assert (Dl : 0 < dl) by (subst dl; destruct (measured D); cbn; [congruence|lia]).
  specialize (Wp Dl (conj eq_refl (conj Lc (conj Lg Hg))) Pw Ps Sp LP Lh Ls Lk Ly Lw Ld Le).
  destruct (kalman _ _ _ _ _ _ _ _ _ _ _ _ _ _ _ _ _) as [[r P']|e|f]; cbn [wpf] in Wp; [|contradiction|destruct f; auto; contradiction].
  destruct Wp as (W & z & N & Z & -> & V). apply vec_list in V as (L & V).
  destruct (Sq (sqs nl W) (sqs_nonneg nl W)) as (Q1 & Q2).
  exists W. split; [eapply best_normal; eauto|]. split; [exact Q1|]. split; auto. split; auto. split.
  - intros Nr. destruct (shorten_spec _ Q2 Nr) as (a & Ha & A1 & A2 & A3 & A4). exists a. split; [|split; [|split; [|split]]]; auto.
    intros i I. rewrite V, Ha by auto. now apply clamp_limited.
  - intros E i I. rewrite V by auto. rewrite E. unfold shorten. destruct (feqb_spec f0 (@f0 K)); [reflexivity|congruence].
Qed.

(* The condition on the eigenvalues holds as soon as the noise is not too small. *)
Theorem C78_noise_suffices tol nl (wt s : K) D : fle f0 tol = true -> fle f0 wt = true -> fle f0 s = true ->
  fle ((s + wt * gradients2 nl D) * tol) s = true -> kalman_spread tol nl wt s D.
Proof. intros A B C E. exact (noise_spread tol (length (measured D)) nl wt s D A B C E). Qed.

(* Where every deflection already fits, the filter throws the fit away: all log moduli become the
   lower limit, and the step it reports is 0. *)
Theorem C78_kalman_fit sq fuel tol nl wt s lo hi D (P h0 s0 k0 y0 w0 d0 e0 : list K) :
  let dl := length (measured D) in
  is_sqrt sq -> measured D <> [] -> complete nl D -> fltb f0 wt = true -> fle f0 s = true -> fle lo hi = true ->
  kalman_spread tol nl wt s D ->
  length P = nl -> length h0 = (dl * nl)%nat -> length s0 = (dl * dl)%nat -> length k0 = (nl * dl)%nat -> length y0 = dl ->
  length w0 = nl -> length d0 = dl -> length e0 = dl ->
  calculated D = measured D ->
  match kalman sq fuel tol nl wt s lo hi D P h0 s0 k0 y0 w0 d0 e0 with
  | Ok (r, P') => r = f0 /\ P' = repeat lo nl
  | Throw _ => False
  | UB f => f = OutOfFuel
  end.
Proof.
  intros dl Sq Nz Cp Pw Ps Lim Sp LP Lh Ls Lk Ly Lw Ld Le Fit.
  pose proof (C78_kalman_partial sq fuel tol nl wt s lo hi D P h0 s0 k0 y0 w0 d0 e0 Sq Nz Cp Pw Ps Lim Sp LP Lh Ls Lk Ly Lw Ld Le) as T.
  destruct (kalman _ _ _ _ _ _ _ _ _ _ _ _ _ _ _ _ _) as [[r P']|e|f]; auto.
  destruct T as (W & (B1 & B2) & R2 & R0 & L & _ & T).
  assert (Z0 : loss nl wt s D (fun _ => f0) = f0).
  { unfold loss, length2. rewrite (sumr_zero 0 nl) by (intros; ring). rewrite sumr_zero; [ring|]. intros j J. unfold remaining. rewrite Fit.
    rewrite (sumr_zero 0 nl) by (intros; ring). ring. }
  assert (E : loss nl wt s D (fun _ => f0) = loss nl wt s D W).
  { apply fle_antisym; auto. rewrite Z0. rewrite loss_cost. unfold cost. apply fltb_spec in Pw as (Pw & _). apply fadd_nonneg; apply fle_mul; auto; apply sqs_nonneg. }
  specialize (B2 _ E). assert (r = f0).
  { apply fsqr_0. rewrite R2. apply fle_antisym; [|apply sqs_nonneg]. eapply fle_trans; [exact B2|]. unfold length2. rewrite sumr_zero by (intros; ring). apply fle_refl. }
  split; auto. specialize (T H). apply nth_ext with (d := f0) (d' := f0). { now rewrite repeat_length. }
  intros i I. rewrite T by lia. rewrite L in I. clear - I. revert i I. induction nl as [|n IH]; intros i I; [lia|]. cbn. destruct i; auto. apply IH. lia.
Qed.

(* The Gauss-Newton step is the shortest least squares step; the log moduli are then brought into
   the limits. *)
Theorem C78_gaussnewton_partial sq fuel tol nl lo hi D (P h0 s0 w0 y0 d0 e0 r0 : list K) :
  let dl := length (measured D) in
  is_sqrt sq -> 0 < nl -> complete nl D -> fle lo hi = true -> newton_spread tol nl D ->
  length P = nl -> length h0 = (dl * nl)%nat -> length s0 = (nl * nl)%nat -> length y0 = nl ->
  length d0 = nl -> length e0 = nl -> length r0 = nl ->
  match gaussnewton sq fuel tol nl lo hi D P h0 s0 w0 y0 d0 e0 r0 with
  | Ok (r, P') => exists W, best_step nl f1 f0 D W /\ r * r = length2 nl W /\ fle f0 r = true /\ length P' = nl /\
      forall i, i < nl -> limited lo hi (nth i P f0 + W i) (nth i P' f0)
  | Throw _ => False
  | UB f => f = OutOfFuel
  end.
Proof.
  intros dl Sq Nl (Lc & Lg & Hg) Lim Sp LP Lh Ls Ly Ld Le Lr.
  assert (Wp := gaussnewton_wp sq fuel tol dl nl lo hi D P h0 s0 w0 y0 d0 e0 r0 Sq Nl).
  specialize (Wp (conj eq_refl (conj Lc (conj Lg Hg))) Sp LP Lh Ls Ly Ld Le Lr).
  destruct (gaussnewton _ _ _ _ _ _ _ _ _ _ _ _ _ _ _) as [[r P']|e|f]; cbn [wpf] in Wp; [|contradiction|destruct f; auto; contradiction].
  destruct Wp as (W & z & N & Z & -> & V). apply vec_list in V as (L & V).
  destruct (Sq (sqs nl W) (sqs_nonneg nl W)) as (Q1 & Q2).
  exists W. split.
  { eapply best_normal; eauto using fle_refl. apply fltb_spec. split; [apply f0_le_f1|]. intros E. symmetry in E. now apply (F_1_neq_0 (f_th K)) in E. }
  split; [exact Q1|]. split; auto. split; auto. intros i I. rewrite V by auto. now apply clamp_limited.
Qed.
(* and so a fit stays as it is *)
Theorem C78_gaussnewton_fit sq fuel tol nl lo hi D (P h0 s0 w0 y0 d0 e0 r0 : list K) :
  let dl := length (measured D) in
  is_sqrt sq -> 0 < nl -> complete nl D -> fle lo hi = true -> newton_spread tol nl D ->
  length P = nl -> length h0 = (dl * nl)%nat -> length s0 = (nl * nl)%nat -> length y0 = nl ->
  length d0 = nl -> length e0 = nl -> length r0 = nl ->
  calculated D = measured D -> (forall p, In p P -> fle lo p = true /\ fle p hi = true) ->
  match gaussnewton sq fuel tol nl lo hi D P h0 s0 w0 y0 d0 e0 r0 with
  | Ok (r, P') => r = f0 /\ P' = P
  | Throw _ => False
  | UB f => f = OutOfFuel
  end.
Proof.
  intros dl Sq Nl Cp Lim Sp LP Lh Ls Ly Ld Le Lr Fit In0.
  pose proof (C78_gaussnewton_partial sq fuel tol nl lo hi D P h0 s0 w0 y0 d0 e0 r0 Sq Nl Cp Lim Sp LP Lh Ls Ly Ld Le Lr) as T.
  destruct (gaussnewton _ _ _ _ _ _ _ _ _ _ _ _ _ _ _) as [[r P']|e|f]; auto.
  destruct T as (W & (B1 & B2) & R2 & R0 & L & T).
  assert (Z0 : loss nl f1 f0 D (fun _ => f0) = f0).
  { unfold loss, length2. rewrite (sumr_zero 0 nl) by (intros; ring). rewrite sumr_zero; [ring|]. intros j J. unfold remaining. rewrite Fit.
    rewrite (sumr_zero 0 nl) by (intros; ring). ring. }
  assert (E : loss nl f1 f0 D (fun _ => f0) = loss nl f1 f0 D W).
  { apply fle_antisym; auto. rewrite Z0. rewrite loss_cost. unfold cost. apply fadd_nonneg; apply fle_mul; auto using f0_le_f1, fle_refl; apply sqs_nonneg. }
  specialize (B2 _ E). 
  assert (Z : length2 nl W = f0).
  { apply fle_antisym; [|apply sqs_nonneg]. eapply fle_trans; [exact B2|]. unfold length2. rewrite sumr_zero by (intros; ring). apply fle_refl. }
  split. { apply fsqr_0. now rewrite R2. }
  apply nth_ext with (d := f0) (d' := f0); [congruence|]. intros i I. rewrite L in I.
  destruct (T i I) as (A & B & C). assert (Wz : W i = f0) by (apply (sqs_0 nl W Z); auto). rewrite Wz in C.
  replace (nth i P f0 + f0) with (nth i P f0) in C by ring. destruct (In0 (nth i P f0)) as (P1 & P2). { apply nth_In. lia. }
  destruct C as [C|[(C & _)|(C & _)]]; auto; unfold fltb in C; rewrite ?P1, ?P2 in C; discriminate.
Qed.
End Proofs.

(* two deflections, two layers; (3 4; 4 -3) (0.1, 0.2) = (1.1, -0.2) *)
Definition kal_d (f : Z) : defls (K := QcF) := Defls (nums [10; 20]%Z) [qz 10 - qz f * qz 11 / qz 10; qz 20 + qz f * qz 2 / qz 10] [nums [3; 4]%Z; nums [4; -3]%Z].
Definition kal_z (n : nat) : list QcF := repeat (qz 7) n.
Definition kal_run (f : Z) (s : QcF) := kalman qsqrt 5 (qz 1 / qz (10 ^ 17)) 2 (qz 1) s (qz 1) (qz 9) (kal_d f) (nums [3; 2]%Z) (kal_z 4) (kal_z 4) (kal_z 4) (kal_z 2) (kal_z 2) (kal_z 2) (kal_z 2).
Definition gn_run (f : Z) := gaussnewton qsqrt 5 (qz 1 / qz (10 ^ 17)) 2 (qz 1) (qz 9) (kal_d f) (nums [3; 2]%Z) (kal_z 4) (kal_z 4) (kal_z 2) (kal_z 2) (kal_z 2) (kal_z 2) (kal_z 2).
Definition out2 (o : outcome (QcF * list QcF)) : list Q := match o with Ok (_, l) => map this l | _ => [] end.
Example C78_kalman_demo : out2 (kal_run 1 (qz 0)) = [31 # 10; 11 # 5]%Q.
Proof. vm_compute. reflexivity. Qed.
(* half of it with a noise as large as the eigenvalues *)
Example C78_kalman_noise_demo : out2 (kal_run 1 (qz 25)) = [61 # 20; 21 # 10]%Q.
Proof. vm_compute. reflexivity. Qed.
Example C78_gaussnewton_demo : out2 (gn_run 1) = [31 # 10; 11 # 5]%Q.
Proof. vm_compute. reflexivity. Qed.
Theorem C78_kalman_fit_refuted : calculated (kal_d 0) = measured (kal_d 0) /\ complete 2 (kal_d 0) /\
  out2 (kal_run 0 (qz 1)) = [1; 1]%Q /\ out2 (gn_run 0) = [3; 2]%Q.
Proof.
  split; [|split; [|split; vm_compute; reflexivity]].
  - cbn [kal_d calculated measured]. unfold nums. cbn [map]. repeat (apply f_equal2; [apply Qc_is_canon; vm_compute; reflexivity|]). reflexivity.
  - split; [reflexivity|split; [reflexivity|]]. intros g [<-|[<-|[]]]; reflexivity.
Qed.

(* the hypotheses hold over the reals, with the square root *)
Definition kal_dr : defls (K := RF) := Defls (K := RF) [10; 20]%R [9; 20]%R [[3; 4]; [4; -3]]%R.
Lemma kal_le (x y : R) : (x <= y)%R -> @fle RF x y = true.
Proof. intros L. destruct (Rfle_spec x y); auto; lra. Qed.
Example C78_hypotheses : is_sqrt (K := RF) sqrt /\ complete 2 kal_dr /\ @fltb RF 0%R 1%R = true /\
  kalman_spread (K := RF) (/ 1000)%R 2 1%R 25%R kal_dr.
Proof.
  split; [|split; [|split]].
  - intros x Hx. change (@f0 RF) with 0%R in *. destruct (Rfle_spec 0 x) as [Hp|]; [|discriminate]. split; [now apply sqrt_sqrt|]. apply kal_le. apply sqrt_pos.
  - split; [reflexivity|split; [reflexivity|]]. intros g [<-|[<-|[]]]; reflexivity.
  - destruct (Rfltb_spec 0 1); auto; lra.
  - apply C78_noise_suffices; apply kal_le; cbn; try lra.
Qed.

Print Assumptions C78_kalman_partial.
Print Assumptions C78_noise_suffices.
Print Assumptions C78_kalman_fit.
Print Assumptions C78_kalman_fit_refuted.
Print Assumptions C78_gaussnewton_partial.
Print Assumptions C78_gaussnewton_fit.
