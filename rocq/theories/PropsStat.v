(* C72-C75: the normal distribution, its inverse, the distributions of random variables and the
   generator of src/statistics.cpp, over the reals. *)
From Coq Require Import Reals ZArith List Bool Lra Lia.
From Verif Require Import Base Dbl StatModel StatPoly StatCdf StatInv.
Import ListNotations.
Local Open Scope R_scope.

(* ==== C72: the distribution function ==== *)
(* a strictly increasing, symmetric function with values between 0 and 1, for every number *)
Theorem C72_cdf_is_distribution : exists F : R -> R,
  (forall u, stdnormal_cdf (Fin u) = Fin (F u)) /\
  (forall u, 0 < F u < 1) /\
  (forall u v, u < v -> F u < F v) /\
  (forall u, F (- u) = 1 - F u) /\ F 0 = 1 / 2.
Proof.
  exists cdfR. split; [apply cdf_fin|]. split; [apply cdf_range|]. split; [apply cdf_incr|]. split; [apply cdf_sym|]. rewrite cdf_0. lra.
Qed.
(* with the limits 0 and 1, reached at infinity; NaN stays *)
Theorem C72_cdf_limits :
  stdnormal_cdf NInf = Fin 0 /\ stdnormal_cdf PInf = Fin 1 /\ stdnormal_cdf NaN = NaN /\
  forall eps, 0 < eps -> exists w, forall u, w < u -> exists a b,
    stdnormal_cdf (Fin (- u)) = Fin a /\ stdnormal_cdf (Fin u) = Fin b /\ a < eps /\ 1 - eps < b.
Proof.
  split; [reflexivity|]. split; [reflexivity|]. split; [reflexivity|]. intros eps E. exists (1 + 1 / eps). intros u U.
  exists (cdfR (- u)), (cdfR u). rewrite !cdf_fin. split; auto. split; auto.
  assert (I : 0 < 1 / eps) by (apply Rdiv_lt_0_compat; lra).
  assert (S : cdfR (- u) < eps).
  { rewrite cdf_left by (unfold t1; lra). rewrite Ropp_involutive. unfold side. pose proof (mills_fac u ltac:(lra)) as M. pose proof (fac_pos u ltac:(lra)).
    assert (E1 : exp (- (u * u) / 2) < 1) by (rewrite <- exp_0; apply exp_increasing; nra). pose proof (exp_pos (- (u * u) / 2)).
    apply Rlt_trans with (fac u); [nra|]. assert (G : 1 < u * eps).
    { apply Rle_lt_trans with (1 / eps * eps); [right; field; lra|]. apply Rmult_lt_compat_r; lra. }
    nra. }
  split; auto. rewrite cdf_sym in S. lra.
Qed.
(* the density is positive, symmetric and falls on both sides *)
Theorem C72_pdf : exists f : R -> R,
  (forall u, stdnormal_pdf (Fin u) = Fin (f u)) /\ (forall u, 0 < f u) /\ (forall u, f (- u) = f u) /\
  (forall u v, 0 <= u -> u < v -> f v < f u).
Proof.
  exists (fun u => exp (- u * u / 2) / M_SQRT2PI). assert (M : 0 < M_SQRT2PI) by (unfold M_SQRT2PI; lra). split.
  - intros u. unfold stdnormal_pdf. cbn [dneg dmul]. rewrite ddiv_fin by lra. cbn [dexp]. rewrite ddiv_fin by lra. reflexivity.
  - split; [|split].
    + intros u. apply Rdiv_lt_0_compat; auto. apply exp_pos.
    + intros u. do 2 f_equal. field.
    + intros u v U V. apply Rmult_lt_compat_r; [now apply Rinv_0_lt_compat|]. apply exp_increasing. nra.
Qed.

(* ==== C73: the inverse ==== *)
(* defined for every probability, antisymmetric about 1/2 and with the right sign *)
Theorem C73_inv_defined_partial : exists G : R -> R,
  (forall p, 0 < p < 1 -> stdnormal_inv (Fin p) = Fin (G p)) /\
  (forall p, 0 < p < 1 -> G (1 - p) = - G p) /\
  (forall p, 0 < p < 1 / 2 -> G p < 0) /\ G (1 / 2) = 0 /\ (forall p, 1 / 2 < p < 1 -> 0 < G p).
Proof.
  exists invR. split; [apply inv_fin|]. split; [apply inv_antisym|]. split; [intros p P; apply inv_sign; lra|].
  split; [replace (1 / 2) with 0.5 by lra; apply inv_half|]. intros p P. pose proof (inv_sign (1 - p) ltac:(lra)) as H. rewrite inv_antisym in H by lra. lra.
Qed.
Theorem C73_inv_special :
  stdnormal_inv (Fin 0) = NInf /\ stdnormal_inv (Fin 1) = PInf /\ stdnormal_inv NaN = NaN /\ stdnormal_inv PInf = NaN /\ stdnormal_inv NInf = NaN /\
  (forall p, p < 0 \/ 1 < p -> stdnormal_inv (Fin p) = NaN).
Proof.
  assert (L : forall a b, dltb (Fin a) (Fin b) = if Rlt_dec a b then true else false) by reflexivity.
  assert (Q : forall a b, deqb (Fin a) (Fin b) = if Req_EM_T a b then true else false) by reflexivity.
  split; [|split; [|split; [reflexivity|split; [reflexivity|split; [reflexivity|]]]]].
  - unfold stdnormal_inv. rewrite !L, Q. cbn [isnan orb]. destruct (Rlt_dec 1.0 0); [lra|]. destruct (Rlt_dec 0 0.0); [lra|]. cbn [orb].
    destruct (Req_EM_T 0 0.0); [reflexivity|lra].
  - unfold stdnormal_inv. rewrite !L, !Q. cbn [isnan orb]. destruct (Rlt_dec 1.0 1); [lra|]. destruct (Rlt_dec 1 0.0); [lra|]. cbn [orb].
    destruct (Req_EM_T 1 0.0); [lra|]. destruct (Req_EM_T 1 1.0); [reflexivity|lra].
  - intros p P. unfold stdnormal_inv. rewrite !L. cbn [isnan orb]. destruct (Rlt_dec 1.0 p), (Rlt_dec p 0.0); try reflexivity. lra.
Qed.

(* ==== C74: the distributions ==== *)
(* the mean and the standard deviation that were asked for *)
Theorem C74_normal : forall m s z, let r := rv_normal (Fin m) (Fin s) in
  mean r = Fin m /\ stddev r = Fin s /\ randomizable r = true /\ roll r (Fin z) = Fin (m + s * z).
Proof. intros. repeat split. Qed.
Theorem C74_dirac : forall a z, let r := rv_dirac (Fin a) in
  mean r = Fin a /\ stddev r = Fin 0 /\ randomizable r = false /\ roll r z = Fin a.
Proof. intros. repeat split. Qed.
Lemma rltb_t a b : a < b -> rltb a b = true.
Proof. unfold rltb. now destruct (Rlt_dec a b). Qed.
Lemma rltb_f a b : b <= a -> rltb a b = false.
Proof. unfold rltb. destruct (Rlt_dec a b); auto. lra. Qed.
Lemma lognormal_is m s : 0 < m -> 0 <= s -> let v := ln (1 + s * s / m / m) in
  0 <= v /\ rv_lognormal (Fin m) (Fin s) = {| rtype := lognormal; d0 := Fin (ln m - v / 2); d1 := Fin (sqrt v) |}.
Proof.
  intros M S v. assert (P : 0 <= s * s / m / m). { unfold Rdiv. assert (0 < / m) by now apply Rinv_0_lt_compat. repeat apply Rmult_le_pos; lra. }
  assert (V : 0 <= v). { unfold v. rewrite <- ln_1. destruct (Req_dec (s * s / m / m) 0) as [E|E]; [rewrite E, Rplus_0_r; lra|]. left. apply ln_increasing; lra. }
  split; auto. unfold rv_lognormal. cbn [isinf isnan orb]. rewrite dleb_fin. destruct (Rle_dec m 0); [lra|]. cbn [dltb orb]. rewrite !(rltb_f s 0) by lra.
  cbn [dmul]. rewrite !(ddiv_fin (s * s)) by lra. rewrite !(ddiv_fin _ m) by lra. cbn [dadd dlog]. rewrite !rltb_t by lra. fold v. cbn [dsqrt].
  rewrite !rltb_f by lra. cbn [dmul]. rewrite ddiv_fin by lra. cbn [dsub dneg dadd]. rewrite sqrt_sqrt by auto. reflexivity.
Qed.
Theorem C74_lognormal : forall m s z, 0 < m -> 0 <= s -> let r := rv_lognormal (Fin m) (Fin s) in
  mean r = Fin m /\ stddev r = Fin s /\ randomizable r = true /\ exists x, roll r (Fin z) = Fin x /\ 0 < x.
Proof.
  intros m s z M S r. destruct (lognormal_is m s M S) as [V E]. unfold r. rewrite E. clear E r. set (v := ln (1 + s * s / m / m)) in *.
  assert (Me : mean {| rtype := lognormal; d0 := Fin (ln m - v / 2); d1 := Fin (sqrt v) |} = Fin m).
  { unfold mean. cbn [rtype d0 d1 isinf isnan dmul]. rewrite ddiv_fin by lra. cbn [dadd dexp]. rewrite sqrt_sqrt by auto.
    replace (ln m - v / 2 + v / 2) with (ln m) by ring. now rewrite exp_ln. }
  split; auto. split; [|split].
  - unfold stddev. cbn [rtype]. rewrite Me. cbn [d0 d1 isinf isnan orb dmul dexp dsub dneg dadd dsqrt]. rewrite sqrt_sqrt by auto.
    assert (P : 0 <= s * s / m / m). { unfold Rdiv. assert (0 < / m) by now apply Rinv_0_lt_compat. repeat apply Rmult_le_pos; lra. }
    unfold v. rewrite exp_ln by lra. replace (1 + s * s / m / m + - (1)) with (s / m * (s / m)) by (field; lra).
    assert (Q : 0 <= s / m). { unfold Rdiv. apply Rmult_le_pos; auto. left. now apply Rinv_0_lt_compat. }
    unfold rltb. destruct (Rlt_dec (s / m * (s / m)) 0); [nra|]. cbn [dmul]. rewrite sqrt_square by auto. f_equal. field. lra.
  - reflexivity.
  - eexists. split; [reflexivity|]. apply exp_pos.
Qed.
(* not so with an infinite deviation: the mean is lost *)
Theorem C74_lognormal_infinite_refuted : exists m, 0 < m /\ mean (rv_lognormal (Fin m) PInf) = PInf.
Proof.
  exists 1. split; [lra|]. unfold rv_lognormal. cbn [isinf isnan orb]. rewrite dleb_fin. destruct (Rle_dec 1 0); [lra|]. cbn [dltb orb dmul ddiv].
  do 2 (rewrite !(rltb_f 1 0) by lra; cbn [dadd dlog dsqrt dmul ddiv]).
  rewrite !(rltb_f 2 0), !(rltb_t 0 1) by lra. reflexivity.
Qed.

(* between two limits *)
Theorem C74_uniform_partial : forall a b z, a < b -> let r := rv_uniform (Fin a) (Fin b) in
  mean r = Fin ((a + b) / 2) /\ (exists s, stddev r = Fin s /\ 0 < s /\ s * s = (b - a) * (b - a) / 12) /\
  randomizable r = true /\ exists x, roll r (Fin z) = Fin x /\ a < x < b /\ stdnormal_cdf (Fin z) = Fin ((x - a) / (b - a)).
Proof.
  intros a b z H r. unfold r, mean, stddev, roll, scale_stdnormal, randomizable. cbn [rtype rv_uniform d0 d1 isfinite andb dadd]. split; [now rewrite ddiv_fin by lra|].
  assert (S3 : 0 < sqrt 3) by (apply sqrt_lt_R0; lra). split; [|].
  - eexists. cbn [dsqrt dsub dneg dadd]. unfold rltb. destruct (Rlt_dec 3 0); [lra|]. cbn [dmul]. rewrite ddiv_fin by lra. split; [reflexivity|]. split; [apply Rdiv_lt_0_compat; lra|].
    replace ((b + - a) / (2 * sqrt 3) * ((b + - a) / (2 * sqrt 3))) with ((b - a) * (b - a) / (4 * (sqrt 3 * sqrt 3))) by (field; lra). rewrite sqrt_sqrt by lra. field.
  - cbn [deqb]. unfold reqb. destruct (Req_EM_T b a); [lra|]. cbn [negb]. split; auto. rewrite cdf_fin. cbn [dsub dneg dadd dmul]. eexists. split; [reflexivity|].
    pose proof (cdf_range z) as C. split; [nra|]. f_equal. field. lra.
Qed.
Theorem C74_uniform_order_refuted : exists a b s, stddev (rv_uniform (Fin a) (Fin b)) = Fin s /\ s < 0 /\ randomizable (rv_uniform (Fin a) (Fin b)) = true.
Proof.
  exists 1, 0. assert (S3 : 0 < sqrt 3) by (apply sqrt_lt_R0; lra). eexists. split; [|split].
  - unfold stddev. cbn [rtype rv_uniform d0 d1 dsqrt dsub dneg dadd]. unfold rltb. destruct (Rlt_dec 3 0); [lra|]. cbn [dmul]. rewrite ddiv_fin by lra. reflexivity.
  - unfold Rdiv. assert (0 < / (2 * sqrt 3)) by (apply Rinv_0_lt_compat; lra). lra.
  - unfold randomizable. cbn. unfold reqb. destruct (Req_EM_T 0 1); [lra|reflexivity].
Qed.

(* whole numbers: the average over a list and the mean square deviation from it *)
Definition ints (i : Z) (n : nat) : list R := map (fun k => IZR i + INR k) (seq 0 n).
Definition sum (l : list R) : R := fold_right Rplus 0 l.
Definition average (l : list R) : R := sum l / INR (length l).
Definition variance (l : list R) : R := average (map (fun x => (x - average l) * (x - average l)) l).

Lemma sum_app a b : sum (a ++ b) = sum a + sum b.
Proof. unfold sum. induction a as [|x a IH]; cbn [app fold_right]; [lra|]. rewrite IH. lra. Qed.
Lemma ints_S i n : ints i (S n) = ints i n ++ [IZR i + INR n].
Proof. unfold ints. rewrite seq_S, map_app. reflexivity. Qed.
Lemma sum_ints i n : sum (ints i n) = INR n * IZR i + INR n * (INR n - 1) / 2.
Proof. induction n as [|n IH]; [cbn; lra|]. rewrite ints_S, sum_app, IH, S_INR. cbn [sum fold_right]. field. Qed.
Lemma sum_sq i n c : sum (map (fun x => (x - c) * (x - c)) (ints i n)) =
  INR n * (IZR i - c) * (IZR i - c) + (IZR i - c) * (INR n * (INR n - 1)) + (INR n - 1) * INR n * (2 * INR n - 1) / 6.
Proof. induction n as [|n IH]; [cbn; lra|]. rewrite ints_S, map_app, sum_app, IH, S_INR. cbn [sum fold_right map]. field. Qed.
Lemma ints_len i n : length (ints i n) = n. Proof. unfold ints. now rewrite map_length, seq_length. Qed.
Lemma average_ints i n : (0 < n)%nat -> average (ints i n) = IZR i + (INR n - 1) / 2.
Proof. intros N. apply lt_0_INR in N. unfold average. rewrite sum_ints, ints_len. field. lra. Qed.
Lemma variance_ints i n : (0 < n)%nat -> variance (ints i n) = (INR n * INR n - 1) / 12.
Proof.
  intros N. unfold variance. rewrite average_ints by auto. unfold average. rewrite map_length, ints_len, sum_sq. apply lt_0_INR in N. field. lra.
Qed.
Lemma ceil_int i : dceil (Fin (IZR i)) = Fin (IZR i).
Proof.
  unfold dceil. rewrite <- opp_IZR. destruct (base_Int_part (IZR (- i))) as [A B]. f_equal. rewrite <- opp_IZR. apply f_equal.
  rewrite <- minus_IZR in B. apply le_IZR in A. apply Rgt_lt, lt_IZR in B. lia.
Qed.
Lemma discrete_ok i j : rv_discrete (Fin (IZR i)) (Fin (IZR j)) = Ok {| rtype := discrete; d0 := Fin (IZR i); d1 := Fin (IZR j) |}.
Proof.
  unfold rv_discrete. rewrite !ceil_int. cbn [deqb]. unfold reqb. destruct (Req_EM_T (IZR i) (IZR i)); [|contradiction].
  destruct (Req_EM_T (IZR j) (IZR j)); [|contradiction]. reflexivity.
Qed.
(* n numbers from i on: the right mean, only these numbers, each for an n-th of the probability *)
Theorem C74_discrete_partial : forall (i : Z) (n : nat), (1 < n)%nat -> let j := (i + Z.of_nat n - 1)%Z in
  exists r, make_rv discrete (Fin (IZR i)) (Fin (IZR j)) = Ok r /\ mean r = Fin (average (ints i n)) /\ randomizable r = true /\
  forall z, exists k, (k < n)%nat /\ roll r (Fin z) = Fin (IZR i + INR k) /\
    exists c, stdnormal_cdf (Fin z) = Fin c /\ INR k / INR n < c <= INR (S k) / INR n.
Proof.
  intros i n N j. assert (Nr : 1 < INR n) by (apply lt_1_INR; auto).
  assert (J : IZR j = IZR i + INR n - 1). { unfold j. rewrite minus_IZR, plus_IZR, <- INR_IZR_INZ. reflexivity. }
  eexists. cbn [make_rv]. rewrite discrete_ok. split; [reflexivity|]. unfold roll, mean, randomizable, scale_stdnormal. cbn [rtype d0 d1 isfinite andb dadd].
  rewrite ddiv_fin by lra. rewrite average_ints by lia. split; [f_equal; rewrite J; field|].
  assert (Q : (#(IZR j) =? #(IZR i))%dbl = false). { cbn [deqb]. unfold reqb. destruct (Req_EM_T (IZR j) (IZR i)); auto. lra. }
  rewrite Q. cbn [negb]. split; auto. intros z. rewrite cdf_fin. cbn [dsub dneg dadd dmul dceil]. pose proof (cdf_range z) as C. set (c := cdfR z) in *. clearbody c.
  replace (IZR j + - IZR i + 1) with (INR n) by (rewrite J; ring).
  destruct (base_Int_part (- (INR n * c))) as [A B]. set (f := Int_part (- (INR n * c))) in *.
  assert (P : 0 < INR n * c < INR n) by nra.
  assert (F1 : (f < 0)%Z) by (apply lt_IZR; lra). assert (F2 : (- Z.of_nat n - 1 < f)%Z) by (apply lt_IZR; rewrite minus_IZR, opp_IZR, <- INR_IZR_INZ; lra).
  exists (Z.to_nat (- f - 1)). assert (K : INR (Z.to_nat (- f - 1)) = - IZR f - 1).
  { rewrite INR_IZR_INZ, Z2Nat.id by lia. rewrite minus_IZR, opp_IZR. reflexivity. }
  split; [lia|]. split; [f_equal; rewrite K; ring|]. exists c. split; auto. rewrite S_INR, K. split.
  - apply (Rmult_lt_reg_r (INR n)); [lra|]. unfold Rdiv. rewrite Rmult_assoc, Rinv_l by lra. lra.
  - apply (Rmult_le_reg_r (INR n)); [lra|]. unfold Rdiv. rewrite Rmult_assoc, Rinv_l by lra. lra.
Qed.
(* but for all of them the standard deviation is too small *)
Theorem C74_discrete_deviation_refuted : forall (i : Z) (n : nat), (1 < n)%nat -> let j := (i + Z.of_nat n - 1)%Z in
  exists r s, make_rv discrete (Fin (IZR i)) (Fin (IZR j)) = Ok r /\ stddev r = Fin s /\ s * s < variance (ints i n).
Proof.
  intros i n N j. assert (Nr : 2 <= INR n) by (replace 2 with (INR 2) by (cbn; lra); apply le_INR; lia).
  assert (J : IZR j = IZR i + INR n - 1). { unfold j. rewrite minus_IZR, plus_IZR, <- INR_IZR_INZ. reflexivity. }
  assert (S3 : 0 < sqrt 3) by (apply sqrt_lt_R0; lra).
  eexists. exists ((sqrt (INR n) - 1) / (2 * sqrt 3)). cbn [make_rv]. rewrite discrete_ok. split; [reflexivity|]. unfold stddev. cbn [rtype d0 d1 dsub dneg dadd].
  replace (IZR j + - IZR i + 1) with (INR n) by (rewrite J; ring). cbn [dsqrt]. unfold rltb. destruct (Rlt_dec (INR n) 0); [lra|]. destruct (Rlt_dec 3 0); [lra|].
  cbn [dsub dneg dadd dmul]. rewrite ddiv_fin by lra. split; [reflexivity|]. rewrite variance_ints by lia.
  replace ((sqrt (INR n) - 1) / (2 * sqrt 3) * ((sqrt (INR n) - 1) / (2 * sqrt 3))) with ((sqrt (INR n) - 1) * (sqrt (INR n) - 1) / (4 * (sqrt 3 * sqrt 3))) by (field; lra).
  rewrite sqrt_sqrt by lra. assert (Q : sqrt (INR n) * sqrt (INR n) = INR n) by (apply sqrt_sqrt; lra). assert (0 < sqrt (INR n)) by (apply sqrt_lt_R0; lra). nra.
Qed.
(* parameters that are not whole numbers are refused *)
Theorem C74_discrete_refused : forall a b, (forall i, a <> IZR i) \/ (forall i, b <> IZR i) -> make_rv discrete (Fin a) (Fin b) = Throw RuntimeError.
Proof.
  assert (C : forall a, (forall i, a <> IZR i) -> (dceil (Fin a) =? Fin a)%dbl = false).
  { intros a H. cbn [dceil deqb]. unfold reqb. destruct (Req_EM_T (- IZR (Int_part (- a))) a) as [E|E]; auto. rewrite <- opp_IZR in E. exfalso. apply (H _ (eq_sym E)). }
  intros a b [H|H]; cbn [make_rv]; unfold rv_discrete; rewrite (C _ H); [reflexivity|]. cbn [negb]. now rewrite orb_true_r.
Qed.

(* ==== C75: the generator ==== *)
Fixpoint rnds (rmax : Z) (k : nat) (s : rnd_state) (l : list Z) : outcome (list R) :=
  match k with
  | O => Ok []
  | S k => let* (x, s, l) := stdnormal_rnd rmax s l in let* xs := rnds rmax k s l in Ok (x :: xs)
  end.
Definition rnd_init : rnd_state := {| ri := true; ru := (0, 0) |}.
(* two by two on a circle *)
Definition polar (m : Z) (a b : R) (x y : Z) : Prop := let r := sqrt (-2 * ln ((IZR x + 1) / (IZR m + 1))) in let w := 2 * PI * ((IZR y + 1) / (IZR m + 1)) in
  a = r * sin w /\ b = r * cos w /\ 0 < (IZR x + 1) / (IZR m + 1) <= 1 /\ a * a + b * b <= 2 * ln (IZR m + 1).
Fixpoint circles (m : Z) (xs : list R) (l : list Z) : Prop :=
  match xs, l with
  | a :: b :: xs, x :: y :: l => polar m a b x y /\ circles m xs l
  | [a], x :: y :: _ => exists b, polar m a b x y
  | [], _ => True
  | _, _ => False
  end.
Lemma unit_arg m x : (0 <= x <= m)%Z -> 0 < (IZR x + 1) / (IZR m + 1) <= 1 /\ / (IZR m + 1) <= (IZR x + 1) / (IZR m + 1).
Proof.
  intros [A B]. apply IZR_le in A, B. assert (I : 0 < / (IZR m + 1)) by (apply Rinv_0_lt_compat; lra). unfold Rdiv. split; [split|].
  - apply Rmult_lt_0_compat; lra.
  - apply (Rmult_le_reg_r (IZR m + 1)); [lra|]. rewrite Rmult_assoc, Rinv_l by lra. lra.
  - nra.
Qed.
Lemma polar_ok m x y : (0 <= x <= m)%Z -> let r := sqrt (-2 * ln ((IZR x + 1) / (IZR m + 1))) in let w := 2 * PI * (IZR y + 1) / (IZR m + 1) in
  polar m (r * sin w) (r * cos w) x y.
Proof.
  intros X r w. destruct (unit_arg m x X) as [U L]. assert (M : 0 < IZR m + 1) by (destruct X as [A B]; apply IZR_le in A, B; lra). unfold polar. fold r.
  assert (W : w = 2 * PI * ((IZR y + 1) / (IZR m + 1))) by (unfold w; field; lra). rewrite <- W. split; auto. split; auto. split; auto.
  assert (Ln : 0 <= -2 * ln ((IZR x + 1) / (IZR m + 1)) <= 2 * ln (IZR m + 1)).
  { split.
    - destruct U as [U1 [U2|U2]]; [apply ln_increasing in U2; auto; rewrite ln_1 in U2; lra|rewrite U2, ln_1; lra].
    - assert (- ln (IZR m + 1) <= ln ((IZR x + 1) / (IZR m + 1))); [|lra]. rewrite <- ln_Rinv by auto.
      destruct L as [L|L]; [left; apply ln_increasing; auto; now apply Rinv_0_lt_compat|rewrite L; lra]. }
  replace (r * sin w * (r * sin w) + r * cos w * (r * cos w)) with (r * r * (Rsqr (sin w) + Rsqr (cos w))) by (unfold Rsqr; ring).
  rewrite sin2_cos2, Rmult_1_r. unfold r. rewrite sqrt_sqrt; lra.
Qed.
Theorem C75_rnd_pairs : forall (m : Z) (k : nat) (l : list Z), Forall (fun x => 0 <= x <= m)%Z l -> (k + 1 <= length l)%nat ->
  exists xs, rnds m k rnd_init l = Ok xs /\ length xs = k /\ circles m xs l.
Proof.
  intros m k. assert (G : forall k l u, (forall k', (k' < k)%nat -> True) -> Forall (fun x => 0 <= x <= m)%Z l -> (k + 1 <= length l)%nat ->
    exists xs, rnds m k {| ri := true; ru := u |} l = Ok xs /\ length xs = k /\ circles m xs l).
  { clear k. intros k. induction k as [k IH] using lt_wf_ind. intros l u _ F L. destruct k as [|[|k]].
    - exists []. repeat split. 
    - destruct l as [|x [|y l]]; cbn in L; try lia. inversion F as [|? ? X F']; subst. cbn [rnds stdnormal_rnd ri bind]. eexists. split; [reflexivity|]. split; auto.
      cbn [circles]. eexists. apply (polar_ok m x y X).
    - destruct l as [|x [|y l]]; cbn in L; try lia. inversion F as [|? ? X F']; subst. inversion F' as [|? ? Y F2]; subst.
      cbn [rnds]. unfold stdnormal_rnd at 1. cbn [ri bind]. unfold stdnormal_rnd at 1. cbn [ri ru snd bind].
      match goal with |- context [rnds m k {| ri := true; ru := ?w |} l] => destruct (IH k ltac:(lia) l w (fun _ _ => I) F2 ltac:(lia)) as (xs & E & Le & C) end.
      rewrite E. cbn [bind]. eexists. split; [reflexivity|]. split; [cbn; lia|]. cbn [circles]. split; auto. apply (polar_ok m x y X). }
  intros l F L. apply (G k l (0, 0)); auto.
Qed.

(* ==== examples ==== *)
Example C72_demo : exists a b, stdnormal_cdf (Fin (-1)) = Fin a /\ stdnormal_cdf (Fin 1) = Fin b /\ 0.11 <= a /\ a < 1 / 2 /\ b = 1 - a.
Proof.
  exists (cdfR (-1)), (cdfR 1). rewrite !cdf_fin. split; auto. split; auto. replace (-1) with (- (1)) by ring. split; [apply cdf_m1|].
  split; [|rewrite cdf_sym; ring]. replace (1 / 2) with (cdfR 0) by (rewrite cdf_0; lra). apply cdf_incr. lra.
Qed.
(* both sides of a place where two formulas meet *)
Example C72_demo_joint : exists a b, stdnormal_cdf (Fin (-0.662912607362389)) = Fin a /\ stdnormal_cdf (Fin (-0.662912607362388)) = Fin b /\ a < b /\
  a = side 0.662912607362389 /\ b = 0.5 + cen (-0.662912607362388).
Proof.
  exists (cdfR (-0.662912607362389)), (cdfR (-0.662912607362388)). rewrite !cdf_fin. split; auto. split; auto. split; [apply cdf_incr; lra|]. split.
  - rewrite cdf_left by (unfold t1; lra). f_equal. lra.
  - apply cdf_mid. unfold t1. lra.
Qed.
Example C73_demo : exists a b, stdnormal_inv (Fin (1 / 100)) = Fin a /\ stdnormal_inv (Fin (1 - 1 / 100)) = Fin b /\ a < 0 /\ 0 < b /\ b = - a.
Proof.
  exists (invR (1 / 100)), (invR (1 - 1 / 100)). rewrite !inv_fin by lra. split; auto. split; auto. pose proof (inv_sign (1 / 100) ltac:(lra)).
  rewrite inv_antisym by lra. repeat split; lra.
Qed.
(* a die *)
(* what house::make_rv makes: the kind and the mean that were asked for *)
Theorem C74_make_rv : forall m s, 
  (exists r, make_rv normal (Fin m) (Fin s) = Ok r /\ rtype r = normal /\ mean r = Fin m /\ stddev r = Fin s) /\
  (0 < m -> 0 <= s -> exists r, make_rv lognormal (Fin m) (Fin s) = Ok r /\ rtype r = lognormal /\ mean r = Fin m /\ stddev r = Fin s) /\
  (m < s -> exists r, make_rv uniform (Fin m) (Fin s) = Ok r /\ rtype r = uniform /\ mean r = Fin ((m + s) / 2)) /\
  (exists r, make_rv dirac (Fin m) (Fin s) = Ok r /\ rtype r = dirac /\ mean r = Fin m /\ stddev r = Fin 0).
Proof.
  intros m s. split; [|split; [|split]].
  - eexists. split; [reflexivity|]. repeat split.
  - intros A B. exists (rv_lognormal (Fin m) (Fin s)). split; [reflexivity|]. destruct (C74_lognormal m s 0 A B) as (C & D & _).
    destruct (lognormal_is m s A B) as (_ & E). split; [rewrite E; reflexivity|auto].
  - intros A. exists (rv_uniform (Fin m) (Fin s)). split; [reflexivity|]. destruct (C74_uniform_partial m s 0 A) as (C & _). auto.
  - eexists. split; [reflexivity|]. repeat split.
Qed.
Example C74_demo : exists r, make_rv discrete (Fin 1) (Fin 6) = Ok r /\ mean r = Fin 3.5 /\ roll r (Fin 0) = Fin 3.
Proof.
  destruct (C74_discrete_partial 1 6 ltac:(lia)) as (r & E & M & _ & R). exists r. split; [exact E|]. split.
  - rewrite M, average_ints by lia. f_equal. cbn. lra.
  - destruct (R 0) as (k & K & Ro & c & C & B). rewrite Ro. f_equal. rewrite cdf_fin, cdf_0 in C. injection C as <-.
    assert (k = 2%nat) as ->; [|cbn; lra]. destruct k as [|[|[|[|[|[|k]]]]]]; try lia; exfalso; cbn in B; lra.
Qed.
Example C74_demo_lognormal : let r := rv_lognormal (Fin 100) (Fin 20) in mean r = Fin 100 /\ stddev r = Fin 20.
Proof. destruct (C74_lognormal 100 20 0) as (A & B & _); [lra|lra|]. split; auto. Qed.
Example C75_demo : exists a b c, rnds 9 3 rnd_init [4; 2; 9; 0]%Z = Ok [a; b; c] /\ polar 9 a b 4 2 /\ (exists d, polar 9 c d 9 0).
Proof.
  destruct (C75_rnd_pairs 9 3 [4; 2; 9; 0]%Z) as (xs & E & L & C); [repeat constructor; lia|cbn; lia|].
  destruct xs as [|a [|b [|c [|]]]]; try discriminate. exists a, b, c. split; auto.
Qed.

Print Assumptions C72_cdf_is_distribution.
Print Assumptions C72_cdf_limits.
Print Assumptions C72_pdf.
Print Assumptions C73_inv_defined_partial.
Print Assumptions C73_inv_special.
Print Assumptions C74_normal.
Print Assumptions C74_dirac.
Print Assumptions C74_make_rv.
Print Assumptions C74_lognormal.
Print Assumptions C74_lognormal_infinite_refuted.
Print Assumptions C74_uniform_partial.
Print Assumptions C74_uniform_order_refuted.
Print Assumptions C74_discrete_partial.
Print Assumptions C74_discrete_deviation_refuted.
Print Assumptions C74_discrete_refused.
Print Assumptions C75_rnd_pairs.
