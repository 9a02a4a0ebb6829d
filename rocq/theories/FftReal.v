(* The transforms over the real numbers, with the sines and cosines (C56), and how far the
   series of SIN is from the sine. *)
From Coq Require Import Reals Lra Lia List ZArith.
From Verif Require Import Base LinBase LinReal FftModel FftSpec FftProofs PropsFft.
Import ListNotations.
Local Open Scope R_scope.

Definition hR : R := / sqrt 2.
Definition snR (A B : nat) : R := sin (INR A * PI / INR B).
(* the angle of a full turn divided by 2^k *)
Definition ang (k : nat) : R := 2 * PI / INR (2 ^ k).

Lemma pow2_pos k : 0 < INR (2 ^ k).
Proof. apply lt_0_INR. pose proof (pow2pos k). lia. Qed.
Lemma ang_S k : ang k = 2 * ang (S k).
Proof. unfold ang. rewrite pow2S, mult_INR. pose proof (pow2_pos k). replace (INR 2) with 2 by (cbn; lra). field. lra. Qed.
Lemma hR2 : hR * hR + hR * hR = 1.
Proof.
  unfold hR. pose proof (Rlt_sqrt2_0). assert (S : sqrt 2 * sqrt 2 = 2) by (apply sqrt_sqrt; lra).
  assert (E : / sqrt 2 * / sqrt 2 = / (sqrt 2 * sqrt 2)) by (field; lra). rewrite E, S. lra.
Qed.
Lemma pairR (a b c d : R) : a = c -> b = d -> (a, b) = (c, d).
Proof. congruence. Qed.
Lemma omega_R k : omega (K := RF) hR snR k = (cos (ang k), sin (ang k)).
Proof.
  destruct k as [|[|[|[|k]]]].
  - unfold ang. cbn [Nat.pow]. replace (2 * PI / INR 1) with (2 * PI) by (cbn; field). now rewrite cos_2PI, sin_2PI.
  - unfold ang. replace (2 * PI / INR (2 ^ 1)) with PI by (cbn; field). now rewrite cos_PI, sin_PI.
  - unfold ang. replace (2 * PI / INR (2 ^ 2)) with (PI / 2) by (cbn; field). now rewrite cos_PI2, sin_PI2.
  - unfold ang. replace (2 * PI / INR (2 ^ 3)) with (PI / 4) by (cbn; field). rewrite cos_PI4, sin_PI4. unfold hR.
    cbn. f_equal; unfold Rdiv; ring.
  - set (j := S (S (S (S k)))). change (omega (K := RF) hR snR j) with (1 - (1 + 1) * snR 1 (2 ^ j) * snR 1 (2 ^ j), snR 2 (2 ^ j)).
    pose proof (pow2_pos j). apply pairR.
    + unfold ang, snR. replace (2 * PI / INR (2 ^ j)) with (2 * (INR 1 * PI / INR (2 ^ j))) by (cbn [INR]; field; lra).
      rewrite cos_2a_sin. ring.
    + unfold ang, snR. replace (INR 2) with 2 by (cbn; lra). reflexivity.
Qed.
(* the constants are right for the real numbers *)
Theorem C56_constants_real : exact_constants (K := RF) hR snR.
Proof.
  assert (P : forall x, cos x * cos x + sin x * sin x = 1).
  { intros x. pose proof (sin2_cos2 x) as S. unfold Rsqr in S. lra. }
  split; [split|].
  - apply hR2.
  - intros k L. pose proof (omega_R k) as O. destruct k as [|[|[|[|k]]]]; try lia.
    change (let z := omega (K := RF) hR snR (S (S (S (S k)))) in (fst z * fst z + snd z * snd z)%R = 1).
    rewrite O. apply P.
  - intros k _. rewrite !omega_R, (ang_S k). apply ceq; cbn.
    + rewrite cos_2a. ring.
    + rewrite sin_2a. ring.
Qed.

(* ---------- the transform in terms of sines and cosines ---------- *)

Fixpoint sumR (n : nat) (f : nat -> R) : R := match n with O => 0 | S n => sumR n f + f n end.
(* the real and imaginary parts of sum_l a(l) exp(2 pi i l f/N) *)
Definition fourier_re (N : nat) (a : nat -> R * R) (f : nat) : R :=
  sumR N (fun l => fst (a l) * cos (2 * PI * INR l * INR f / INR N) - snd (a l) * sin (2 * PI * INR l * INR f / INR N)).
Definition fourier_im (N : nat) (a : nat -> R * R) (f : nat) : R :=
  sumR N (fun l => fst (a l) * sin (2 * PI * INR l * INR f / INR N) + snd (a l) * cos (2 * PI * INR l * INR f / INR N)).
Definition celR (m : list R) (i : nat) : R * R := (nth (2 * i) m 0, nth (2 * i + 1) m 0).

Lemma moivre x n : cpow (K := RF) (cos x, sin x) n = (cos (INR n * x), sin (INR n * x)).
Proof.
  induction n. { cbn. rewrite Rmult_0_l, cos_0, sin_0. reflexivity. }
  cbn [cpow]. rewrite IHn, S_INR. replace ((INR n + 1) * x) with (x + INR n * x) by ring. rewrite cos_plus, sin_plus.
  apply ceq; cbn; ring.
Qed.
Lemma dft_R k (a : nat -> R * R) f : dft (K := RF) (2 ^ k) (omega (K := RF) hR snR k) a f =
  (fourier_re (2 ^ k) a f, fourier_im (2 ^ k) a f).
Proof.
  rewrite omega_R. unfold dft, fourier_re, fourier_im. set (N := (2 ^ k)%nat).
  assert (A : forall n, csum (K := RF) n (fun l => cmul (K := RF) (a l) (cpow (K := RF) (cos (ang k), sin (ang k)) (l * f))) =
    (sumR n (fun l => fst (a l) * cos (2 * PI * INR l * INR f / INR N) - snd (a l) * sin (2 * PI * INR l * INR f / INR N)),
     sumR n (fun l => fst (a l) * sin (2 * PI * INR l * INR f / INR N) + snd (a l) * cos (2 * PI * INR l * INR f / INR N)))).
  { induction n; cbn [csum sumR]; auto. rewrite IHn, moivre. unfold ang. fold N.
    replace (INR (n * f) * (2 * PI / INR N)) with (2 * PI * INR n * INR f / INR N).
    - apply ceq; cbn; ring.
    - rewrite mult_INR. pose proof (pow2_pos k) as P. fold N in P. field. lra. }
  apply A.
Qed.
(* the complex transform of N = 2^k numbers computes sum_l a(l) exp(2 pi i l f/N) for all f < N *)
Theorem C56_fourier_real k (m : list R) : (1 <= k)%nat -> length m = (2 * 2 ^ k)%nat ->
  exists m', fftc (K := RF) hR snR k 0 m = Ok m' /\ length m' = length m /\
    forall p, (p < 2 ^ k)%nat -> celR m' p = (fourier_re (2 ^ k) (celR m) (freq k p), fourier_im (2 ^ k) (celR m) (freq k p)).
Proof.
  intros Hk L. destruct (C56_transform (K := RF) hR snR k m C56_constants_real Hk L) as (m' & E & L' & G).
  exists m'. split; auto. split; auto. intros p Lp. specialize (G p Lp). rewrite dft_R in G. exact G.
Qed.
Theorem C56_roundtrip_real k (m : list R) : (1 <= k)%nat -> length m = (2 * 2 ^ k)%nat ->
  (let* m1 := fftc (K := RF) hR snR k 0 m in let* m2 := fftc_un (K := RF) hR snR k 0 m1 in fftc_scale (K := RF) k m2) = Ok m.
Proof. intros Hk L. apply (C56_roundtrip (K := RF) hR snR k m); auto. apply C56_constants_real. Qed.
Theorem C56_real_roundtrip_real k (m : list R) : (1 <= k)%nat -> length m = (2 ^ k)%nat ->
  (let* m1 := fftr (K := RF) hR snR k 0 m in let* m2 := fftr_scale (K := RF) k m1 in fftr_un (K := RF) hR snR k 0 m2) = Ok m.
Proof. intros Hk L. apply (C56_real_roundtrip (K := RF) hR snR k m); auto. apply C56_constants_real. Qed.

(* ---------- the series of SIN ---------- *)

Lemma fn_R n : fn (K := RF) n = INR n.
Proof. induction n. { reflexivity. } rewrite S_INR. cbn [fn]. rewrite IHn. reflexivity. Qed.
Fixpoint serR (x : R) (c M : nat) : R :=
  match c with O => 1 | S c => 1 - x * x / INR M / (INR M + 1) * serR x c (M + 2) end.
Lemma series_R x c : forall M, series (K := RF) x c M = serR x c M.
Proof. induction c; intros M. { reflexivity. } cbn [series serR]. rewrite IHc, fn_R. reflexivity. Qed.
Lemma series_sum x c : forall M, (1 <= M)%nat ->
  serR x c M = sum_f_R0 (fun i => (-1) ^ i * (x ^ (2 * i) * INR (fact (M - 1)) / INR (fact (M - 1 + 2 * i)))) c.
Proof.
  induction c; intros M HM.
  - cbn [serR sum_f_R0]. replace (2 * 0)%nat with 0%nat by lia. rewrite Nat.add_0_r. pose proof (INR_fact_neq_0 (M - 1)).
    cbn [pow]. field. auto.
  - cbn [serR]. rewrite decomp_sum by lia. replace (2 * 0)%nat with 0%nat by lia. rewrite Nat.add_0_r.
    pose proof (INR_fact_neq_0 (M - 1)). cbn [pred]. rewrite IHc by lia.
    replace (sum_f_R0 (fun i => (-1) ^ S i * (x ^ (2 * S i) * INR (fact (M - 1)) / INR (fact (M - 1 + 2 * S i)))) c)
      with (sum_f_R0 (fun i => (-1) ^ i * (x ^ (2 * i) * INR (fact (M + 2 - 1)) / INR (fact (M + 2 - 1 + 2 * i))) *
              - (x * x / INR M / (INR M + 1))) c).
    + rewrite <- scal_sum. cbn [pow]. field_simplify_eq; [ring|]. repeat split; auto; pose proof (lt_0_INR M ltac:(lia)); lra.
    + apply sum_eq. intros i _.
      replace (M - 1 + 2 * S i)%nat with (M + 2 - 1 + 2 * i)%nat by lia. replace (2 * S i)%nat with (S (S (2 * i))) by lia.
      replace (M + 2 - 1)%nat with (S (S (M - 1))) at 1 by lia. rewrite !fact_simpl, !mult_INR.
      replace (S (M - 1)) with M by lia. rewrite (S_INR M). pose proof (lt_0_INR M ltac:(lia)).
      pose proof (INR_fact_neq_0 (M + 2 - 1 + 2 * i)). cbn [pow]. field. repeat split; auto; lra.
Qed.
Lemma sin_series_sum x : sin_series (K := RF) x = sin_approx x 16.
Proof.
  unfold sin_series, sin_approx. rewrite series_R, series_sum by lia. change (fmul (o := RF)) with Rmult. rewrite scal_sum.
  apply sum_eq. intros i _. unfold sin_term. replace (2 - 1 + 2 * i)%nat with (2 * i + 1)%nat by lia.
  rewrite pow_add. replace (fact (2 - 1)) with 1%nat by reflexivity. cbn [INR pow]. pose proof (INR_fact_neq_0 (2 * i + 1)). field. auto.
Qed.
(* the series is never less than the sine, and its error is at most the first term left out *)
Theorem C56_sin_series x : 0 <= x <= PI -> 0 <= sin_series (K := RF) x - sin x <= x ^ 35 / INR (fact 35).
Proof.
  intros [X0 X1]. rewrite sin_series_sum.
  destruct (sin_bound x 7 X0 X1) as [_ H1]. destruct (sin_bound x 8 X0 X1) as [H2 _].
  replace (2 * (7 + 1))%nat with 16%nat in H1 by lia. replace (2 * 8 + 1)%nat with 17%nat in H2 by lia.
  split. { lra. }
  assert (E : sin_approx x 17 = sin_approx x 16 + sin_term x 17) by reflexivity. rewrite E in H2. unfold sin_term in H2.
  replace (2 * 17 + 1)%nat with 35%nat in H2 by lia. replace ((-1) ^ 17) with (-1) in H2 by (cbn [pow]; ring).
  lra.
Qed.
Fixpoint zfact (n : nat) : Z := match n with O => 1%Z | S m => (Z.of_nat n * zfact m)%Z end.
Lemma zfact_ok n : INR (fact n) = IZR (zfact n).
Proof. induction n. { reflexivity. } rewrite fact_simpl, mult_INR, IHn. cbn [zfact]. now rewrite mult_IZR, <- INR_IZR_INZ. Qed.
(* all the sines that are used, sin(pi/N) and sin(2 pi/N) for N >= 16, are right to fifty digits *)
Theorem C56_sin_digits A k : (A <= 2)%nat -> (4 <= k)%nat ->
  Rabs (sin_series (K := RF) (INR A * PI / INR (2 ^ k)) - snR A (2 ^ k)) <= 1 / IZR (10 ^ 50).
Proof.
  intros HA Hk. set (x := INR A * PI / INR (2 ^ k)). change (snR A (2 ^ k)) with (sin x).
  assert (B : INR (2 ^ 4) <= INR (2 ^ k)) by (apply le_INR, Nat.pow_le_mono_r; lia).
  assert (A2 : INR A <= INR 2) by (apply le_INR; lia). pose proof (pos_INR A) as A0.
  replace (INR (2 ^ 4)) with 16 in B by (cbn; lra). replace (INR 2) with 2 in A2 by (cbn; lra).
  pose proof PI_4 as P4. pose proof PI_RGT_0 as P0.
  assert (X : 0 <= x <= 1 / 2).
  { unfold x. split.
    - apply Rmult_le_pos. + apply Rmult_le_pos; lra. + left. apply Rinv_0_lt_compat. lra.
    - apply (Rmult_le_reg_r (INR (2 ^ k))); [lra|]. unfold Rdiv at 1. rewrite Rmult_assoc, Rinv_l, Rmult_1_r by lra.
      apply Rle_trans with (2 * 4); [|lra]. apply Rmult_le_compat; lra. }
  assert (XP : x <= PI). { pose proof PI2_1. lra. }
  destruct (C56_sin_series x ltac:(lra)) as [L U]. rewrite Rabs_right by lra. eapply Rle_trans; [exact U|].
  rewrite zfact_ok. assert (F : 0 < IZR (zfact 35)) by (apply IZR_lt; vm_compute; reflexivity).
  apply Rle_trans with ((1 / 2) ^ 35 / IZR (zfact 35)).
  - apply Rmult_le_compat_r. { left. now apply Rinv_0_lt_compat. } apply pow_incr. exact X.
  - replace ((1 / 2) ^ 35) with (/ IZR (2 ^ 35)).
    2:{ unfold Rdiv. rewrite Rmult_1_l, pow_inv. f_equal. change (2 ^ 35)%Z with (2 ^ Z.of_nat 35)%Z. now rewrite <- pow_IZR. }
    unfold Rdiv. rewrite <- Rinv_mult, Rmult_1_l.
    apply Rinv_le_contravar. { apply IZR_lt. vm_compute. reflexivity. }
    rewrite <- mult_IZR. apply IZR_le. vm_compute. discriminate.
Qed.

(* the hypotheses are met by a transform of eight numbers, which uses the constants: the
   transform of (1, 0, .., 0) is 1 everywhere *)
Example C56_fourier_ex : exists m', fftc (K := RF) hR snR 3 0 [1;0; 0;0; 0;0; 0;0; 0;0; 0;0; 0;0; 0;0] = Ok m' /\
  forall p, (p < 8)%nat -> celR m' p = (1, 0).
Proof.
  destruct (C56_fourier_real 3 [1;0; 0;0; 0;0; 0;0; 0;0; 0;0; 0;0; 0;0] ltac:(lia) eq_refl) as (m' & E & _ & G).
  exists m'. split; auto. intros p Lp. rewrite (G p Lp). unfold fourier_re, fourier_im, celR.
  cbn [Nat.pow Nat.mul Nat.add sumR nth fst snd INR]. replace (2 * PI * 0 * INR (freq 3 p) / _) with 0 by (unfold Rdiv; ring).
  rewrite cos_0, sin_0. f_equal; ring.
Qed.

Print Assumptions C56_constants_real.
Print Assumptions C56_fourier_real.
Print Assumptions C56_roundtrip_real.
Print Assumptions C56_real_roundtrip_real.
Print Assumptions C56_sin_series.
Print Assumptions C56_sin_digits.
