(* The inverse of the normal distribution function over the reals: defined and antisymmetric. *)
From Coq Require Import Reals ZArith List Bool Lra Lia.
From Verif Require Import Base Dbl StatModel StatPoly StatCdf.
Import ListNotations.
Local Open Scope R_scope.

(* ---- Mills' ratio, with a rough constant ---- *)
Lemma mid_mills y : 0 <= y <= t2 -> y * pol pc y <= 0.75 * pol pd y.
Proof.
  intros [Y1 Y2]. unfold pc, cdf_c. cbn [rev app].
  apply Rle_trans with (pol [0; 9.84271483838397762e03; 1.16026514376473497e04; 6.84819045053628270e03; 2.49453758529037214e03; 5.97270276394800248e02; 9.35066561321778664e01; 8.88314979438837682e00; 3.98941512088134664e-1 + 6 * 1.07655767737201917e-8] y).
  - cbn [pol]. assert (P : y * 1.07655767737201917e-8 <= 6 * 1.07655767737201917e-8) by (unfold t2 in Y2; lra).
    assert (H : forall a b c, b <= c -> a + y * b <= a + y * c) by (intros; apply Rplus_le_compat_l, Rmult_le_compat_l; auto).
    rewrite Rplus_0_l. apply Rmult_le_compat_l; auto. repeat apply H. lra.
  - apply pol_le; auto. unfold pd, cdf_d. cbn [rev app]. repeat constructor; lra.
Qed.
Lemma mills_fac y : 0 < y -> y * fac y <= 0.75.
Proof.
  intros Y. unfold fac. destruct (Rle_dec y t2).
  - pose proof (mid_mills y ltac:(lra)). pose proof (d_low y ltac:(lra)).
    apply (Rmult_le_reg_r (pol pd y)); [lra|]. replace (y * (pol pc y / pol pd y) * pol pd y) with (y * pol pc y) by (field; lra). lra.
  - pose proof (small_z y ltac:(lra)) as [Z1 Z2]. unfold tailq. replace (y * (1 / y * (M_1_SQRT2PI - 1 / y * (1 / y) * (pol pp (1 / y * (1 / y)) / pol pq (1 / y * (1 / y))))))
      with (M_1_SQRT2PI - 1 / y * (1 / y) * (pol pp (1 / y * (1 / y)) / pol pq (1 / y * (1 / y)))).
    2:{ set (w := M_1_SQRT2PI - _). field. lra. }
    assert (W : 0 <= 1 / y * (1 / y)) by nra. pose proof (p_low _ W). pose proof (q_low _ W).
    assert (0 < pol pp (1 / y * (1 / y)) / pol pq (1 / y * (1 / y))) by (apply Rdiv_lt_0_compat; lra).
    unfold M_1_SQRT2PI. nra.
Qed.
Lemma exp_frac n x k : (0 < n)%nat -> INR n * x = 1 -> 0 <= k -> 3 <= k ^ n -> exp x <= k.
Proof.
  intros N X K H. destruct (Rle_dec (exp x) k); auto. exfalso. apply Rnot_le_lt in n0.
  assert (E : forall m, exp (INR m * x) = exp x ^ m).
  { induction m as [|m IH]; [cbn; rewrite Rmult_0_l; apply exp_0|]. rewrite S_INR, Rmult_plus_distr_r, Rmult_1_l, exp_plus, IH. cbn [pow]. ring. }
  specialize (E n). rewrite X in E. pose proof exp_le_3.
  assert (k ^ n < exp x ^ n). { destruct n as [|n]; [lia|]. clear - K n0. induction n as [|n IH]; [cbn; lra|]. cbn [pow] in *.
    apply Rmult_le_0_lt_compat; auto. pose proof (pow_le k n K). nra. }
  lra.
Qed.
Lemma exp_quarter x : x <= 1 / 4 -> exp x <= 2.
Proof.
  intros X. apply Rle_trans with (exp (1 / 4)); [destruct X as [X|X]; [left; now apply exp_increasing|rewrite X; lra]|].
  apply (exp_frac 4); [lia| | |]; cbn; lra.
Qed.
Lemma mills u : u <= 0 -> - u * cdfR u * (M_SQRT2PI * exp (u * u / 2)) <= 1.9.
Proof.
  intros U. destruct (Rlt_dec u (- t1)) as [L|L].
  - rewrite cdf_left by auto. unfold side. pose proof (mills_fac (- u) ltac:(unfold t1 in L; lra)).
    replace (- u * (fac (- u) * exp (- (- u * - u) / 2)) * (M_SQRT2PI * exp (u * u / 2)))
      with (- u * fac (- u) * M_SQRT2PI * (exp (- (- u * - u) / 2) * exp (u * u / 2))) by ring.
    rewrite <- exp_plus. replace (- (- u * - u) / 2 + u * u / 2) with 0 by field. rewrite exp_0. unfold M_SQRT2PI. lra.
  - rewrite cdf_mid by (unfold t1 in *; lra).
    assert (C : cen u <= 0). { destruct (Req_dec u 0) as [->|]; [unfold cen; pose proof (b_low (0 * 0) ltac:(lra)); right; field; lra|].
      left. replace 0 with (cen 0) by (unfold cen; pose proof (b_low (0 * 0) ltac:(lra)); field; lra). apply cen_incr; unfold t1 in *; lra. }
    pose proof (cdf_range u) as [G _]. rewrite cdf_mid in G by (unfold t1 in *; lra).
    assert (Eu : exp (u * u / 2) <= 2). { apply exp_quarter. unfold t1 in L. nra. } pose proof (exp_pos (u * u / 2)).
    assert (A : - u * (0.5 + cen u) <= 0.34) by (unfold t1 in L; nra).
    assert (B : 0 < M_SQRT2PI * exp (u * u / 2) <= 5.1) by (unfold M_SQRT2PI; lra).
    assert (0 <= - u * (0.5 + cen u)) by (apply Rmult_le_pos; lra). nra.
Qed.

(* ---- the starting value ---- *)
Definition ia := rev inv_a. Definition ib := rev inv_b.
Definition ic := rev inv_c. Definition id := rev inv_d.
(* Bernstein form on [0, T] *)
Definition T5 : R := 0.2263380625.
Lemma bern (b0 b1 b2 b3 b4 b5 m t : R) : 0 <= t <= T5 -> m <= b0 -> m <= b1 -> m <= b2 -> m <= b3 -> m <= b4 -> m <= b5 ->
  m * T5 ^ 5 <= b0 * (T5 - t) ^ 5 + 5 * b1 * t * (T5 - t) ^ 4 + 10 * b2 * t ^ 2 * (T5 - t) ^ 3 + 10 * b3 * t ^ 3 * (T5 - t) ^ 2 + 5 * b4 * t ^ 4 * (T5 - t) + b5 * t ^ 5.
Proof.
  intros [A B] H0 H1 H2 H3 H4 H5. set (s := T5 - t). assert (S : 0 <= s) by (unfold s; lra).
  replace (m * T5 ^ 5) with (m * s ^ 5 + 5 * m * t * s ^ 4 + 10 * m * t ^ 2 * s ^ 3 + 10 * m * t ^ 3 * s ^ 2 + 5 * m * t ^ 4 * s + m * t ^ 5) by (unfold s; ring).
  clearbody s. assert (K : forall c k b i j, 0 <= c -> k <= b -> c * k * t ^ i * s ^ j <= c * b * t ^ i * s ^ j).
  { intros. apply Rmult_le_compat_r; [now apply pow_le|]. apply Rmult_le_compat_r; [now apply pow_le|]. nra. }
  pose proof (K 1 m b0 0%nat 5%nat ltac:(lra) H0). pose proof (K 5 m b1 1%nat 4%nat ltac:(lra) H1). pose proof (K 10 m b2 2%nat 3%nat ltac:(lra) H2).
  pose proof (K 10 m b3 3%nat 2%nat ltac:(lra) H3). pose proof (K 5 m b4 4%nat 1%nat ltac:(lra) H4). pose proof (K 1 m b5 5%nat 0%nat ltac:(lra) H5).
  cbn [pow] in *. lra.
Qed.
Lemma bern_low (p0 p1 p2 p3 p4 p5 m t : R) : 0 <= t <= T5 ->
  m <= p0 -> m <= p0 + 1/5 * p1 * T5 -> m <= p0 + 2/5 * p1 * T5 + 1/10 * p2 * T5 ^ 2 ->
  m <= p0 + 3/5 * p1 * T5 + 3/10 * p2 * T5 ^ 2 + 1/10 * p3 * T5 ^ 3 ->
  m <= p0 + 4/5 * p1 * T5 + 6/10 * p2 * T5 ^ 2 + 4/10 * p3 * T5 ^ 3 + 1/5 * p4 * T5 ^ 4 ->
  m <= p0 + p1 * T5 + p2 * T5 ^ 2 + p3 * T5 ^ 3 + p4 * T5 ^ 4 + p5 * T5 ^ 5 ->
  m <= pol [p0; p1; p2; p3; p4; p5] t.
Proof.
  intros Ht H0 H1 H2 H3 H4 H5. pose proof (bern _ _ _ _ _ _ m t Ht H0 H1 H2 H3 H4 H5) as B. clear - B.
  apply (Rmult_le_reg_r (T5 ^ 5)); [apply pow_lt; unfold T5; lra|]. eapply Rle_trans; [exact B|]. right. clear B. cbn [pol]. generalize T5. intros T. field.
Qed.
Lemma ib_low t : 0 <= t <= T5 -> 0.001 <= pol ib t.
Proof. intros H. unfold ib, inv_b. cbn [rev app]. apply bern_low; auto; unfold T5; lra. Qed.
Lemma ia_low t : 0 <= t <= T5 -> 0.001 <= pol ia t.
Proof. intros H. unfold ia, inv_a. cbn [rev app]. apply bern_low; auto; unfold T5; lra. Qed.
(* the quotient is between 2.5 and 5 *)
Lemma ia_ib t : 0 <= t <= T5 -> pol ia t <= 5 * pol ib t.
Proof.
  intros H. unfold ia, ib, inv_a, inv_b. cbn [rev app].
  assert (B : 0 <= pol [5 * 1 - 2.506628277459239e+00; 5 * -1.328068155288572e+01 - -3.066479806614716e+01; 5 * 6.680131188771972e+01 - 1.383577518672690e+02;
     5 * -1.556989798598866e+02 - -2.759285104469687e+02; 5 * 1.615858368580409e+02 - 2.209460984245205e+02; 5 * -5.447609879822406e+01 - -3.969683028665376e+01] t)
    by (apply bern_low; auto; unfold T5; lra).
  cbn [pol] in *. lra.
Qed.
Lemma id_low t : 0 <= t -> 1 <= pol id t.
Proof. intros H. apply (pol_pos 1); auto. unfold pos, inv_d. cbn. repeat constructor; lra. Qed.
(* far out the starting value is below -3/2 *)
Lemma start_tail t : 2.5 <= t -> pol ic t / pol id t <= -1.5.
Proof.
  intros H. pose proof (id_low t ltac:(lra)) as D.
  apply (Rmult_le_reg_r (pol id t)); [lra|]. unfold Rdiv. rewrite Rmult_assoc, Rinv_l by lra. rewrite Rmult_1_r.
  replace t with (2.5 + (t - 2.5)) by lra. set (s := t - 2.5). assert (S : 0 <= s) by (unfold s; lra). clearbody s. clear D H.
  unfold ic, id, inv_c, inv_d. cbn [rev app pol].
  assert (0 <= s * s) by nra. assert (0 <= s * s * s) by (apply Rmult_le_pos; auto). assert (0 <= s * s * s * s) by (apply Rmult_le_pos; auto).
  assert (0 <= s * s * s * s * s) by (apply Rmult_le_pos; auto). lra.
Qed.
Lemma log_far q : 0 < q -> q <= 0.02425 -> 2.5 <= sqrt (-2 * ln q).
Proof.
  intros Q L. replace 2.5 with (sqrt (2.5 * 2.5)) by (apply sqrt_square; lra). apply sqrt_le_1_alt.
  assert (E : exp 3.125 <= 31.05).
  { replace 3.125 with (1 + 1 + 1 + 1 / 8) by lra. rewrite !exp_plus. pose proof exp_le_3. pose proof (exp_pos 1).
    assert (exp (1 / 8) <= 1.15) by (apply (exp_frac 8); [lia| | |]; cbn; lra). pose proof (exp_pos (1 / 8)).
    assert (exp 1 * exp 1 <= 9) by nra. assert (exp 1 * exp 1 * exp 1 <= 27) by nra. assert (0 < exp 1 * exp 1 * exp 1) by (repeat apply Rmult_lt_0_compat; auto). nra. }
  assert (ln q <= - (3.125)).
  { rewrite <- (ln_exp (- (3.125))). assert (W : q <= exp (- (3.125))); [|destruct W as [W|W]; [left; now apply ln_increasing|rewrite W; lra]]. eapply Rle_trans; [exact L|]. rewrite exp_Ropp.
    apply Rle_trans with (/ 31.05); [|apply Rinv_le_contravar; [apply exp_pos|auto]]. lra. }
  lra.
Qed.
Definition start (q : R) : R :=
  if Rlt_dec 0.02425 q then (q - 0.5) * pol ia ((q - 0.5) * (q - 0.5)) / pol ib ((q - 0.5) * (q - 0.5))
  else pol ic (sqrt (-2 * ln q)) / pol id (sqrt (-2 * ln q)).
Definition step (q u : R) : R :=
  let t := (cdfR u - q) * (M_SQRT2PI * exp (u * u / 2)) in u - t / (1 + u * t / 2).
Definition invR (p : R) : R := if Rlt_dec 0.5 p then - step (1 - p) (start (1 - p)) else step p (start p).

Lemma start_neg q : 0 < q -> q < 0.5 -> start q < 0.
Proof.
  intros Q H. unfold start. destruct (Rlt_dec 0.02425 q) as [L|L].
  - assert (T : 0 <= (q - 0.5) * (q - 0.5) <= T5) by (unfold T5; nra). pose proof (ia_low _ T). pose proof (ib_low _ T).
    assert (0 < pol ia ((q - 0.5) * (q - 0.5)) / pol ib ((q - 0.5) * (q - 0.5))) by (apply Rdiv_lt_0_compat; lra).
    unfold Rdiv in *. nra.
  - pose proof (start_tail _ (log_far q Q ltac:(lra))). lra.
Qed.
Lemma start_half : start 0.5 = 0.
Proof.
  unfold start. destruct (Rlt_dec 0.02425 0.5) as [L|L]; [|lra]. replace (0.5 - 0.5) with 0 by lra. pose proof (ib_low (0 * 0) ltac:(unfold T5; lra)). field. lra.
Qed.
Lemma cdf_0 : cdfR 0 = 0.5.
Proof. pose proof (cdf_sym 0) as H. rewrite Ropp_0 in H. lra. Qed.
Lemma M_pos e : 0 < e -> 0 < M_SQRT2PI * e.
Proof. intros E. apply Rmult_lt_0_compat; auto. unfold M_SQRT2PI. lra. Qed.
Lemma denominator q u : 0 <= q -> u <= 0 -> 0 < 1 + u * ((cdfR u - q) * (M_SQRT2PI * exp (u * u / 2))) / 2.
Proof.
  intros Q U. pose proof (mills u U) as M. pose proof (exp_pos (u * u / 2)).
  assert (0 <= - u * q * (M_SQRT2PI * exp (u * u / 2))) by (apply Rmult_le_pos; [nra|left; now apply M_pos]). lra.
Qed.

(* ---- the code computes invR ---- *)
Lemma start_fin q : 0 < q <= 0.5 ->
  (if (#0.02425 <? Fin q)%dbl then (Fin q - #0.5) * horner inv_a ((Fin q - #0.5) * (Fin q - #0.5)) / horner inv_b ((Fin q - #0.5) * (Fin q - #0.5))
   else horner inv_c (dsqrt (#(-2) * dlog (Fin q))) / horner inv_d (dsqrt (#(-2) * dlog (Fin q))))%dbl = Fin (start q).
Proof.
  intros Q. unfold start. cbn [dltb]. unfold rltb. destruct (Rlt_dec 0.02425 q) as [L|L].
  - cbn [dsub dneg dadd dmul]. change (q + - (0.5)) with (q - 0.5). rewrite !horner_fin. fold ia ib.
    assert (T : 0 <= (q - 0.5) * (q - 0.5) <= T5) by (unfold T5; nra). pose proof (ib_low _ T). cbn [dmul]. rewrite ddiv_fin by lra. reflexivity.
  - cbn [dlog]. unfold rltb. destruct (Rlt_dec 0 q) as [_|N]; [|lra]. cbn [dmul dsqrt].
    pose proof (log_far q ltac:(lra) ltac:(lra)) as F.
    assert (P : 0 <= -2 * ln q). { destruct (Rle_dec 0 (-2 * ln q)); auto. rewrite sqrt_neg_0 in F by lra. lra. }
    unfold rltb. destruct (Rlt_dec (-2 * ln q) 0); [lra|]. rewrite !horner_fin. fold ic id. pose proof (id_low (sqrt (-2 * ln q)) ltac:(lra)).
    rewrite ddiv_fin by lra. reflexivity.
Qed.
Lemma step_fin q u : 0 <= q -> u <= 0 ->
  (Fin u - (stdnormal_cdf (Fin u) - Fin q) * (Fin M_SQRT2PI * dexp (Fin u * Fin u / #2)) /
     (#1 + Fin u * ((stdnormal_cdf (Fin u) - Fin q) * (Fin M_SQRT2PI * dexp (Fin u * Fin u / #2))) / #2))%dbl = Fin (step q u).
Proof.
  intros Q U. rewrite cdf_fin. cbn [dmul]. rewrite (ddiv_fin (u * u)) by lra. cbn [dsub dneg dadd dmul dexp].
  rewrite (ddiv_fin (u * _)) by lra. cbn [dadd]. pose proof (denominator q u Q U) as D. fold (cdfR u - q).
  rewrite ddiv_fin. 2:{ lra. } reflexivity.
Qed.
Lemma start_le q : 0 < q <= 0.5 -> start q <= 0.
Proof. intros [Q1 [Q2|Q2]]; [left; now apply start_neg|subst q; rewrite start_half; lra]. Qed.
Lemma inv_fin p : 0 < p < 1 -> stdnormal_inv (Fin p) = Fin (invR p).
Proof.
  intros P. unfold stdnormal_inv.
  replace (isnan (Fin p) || (#1.0 <? Fin p)%dbl || (Fin p <? #0.0)%dbl)%bool with false
    by (cbn [isnan dltb orb]; unfold rltb; destruct (Rlt_dec 1.0 p), (Rlt_dec p 0.0); auto; lra).
  replace (Fin p =? #0.0)%dbl with false by (cbn [deqb]; unfold reqb; destruct (Req_EM_T p 0.0); auto; lra).
  replace (Fin p =? #1.0)%dbl with false by (cbn [deqb]; unfold reqb; destruct (Req_EM_T p 1.0); auto; lra).
  assert (M : dmin (Fin p) (#1 - Fin p)%dbl = Fin (if Rlt_dec 0.5 p then 1 - p else p)).
  { unfold dmin. cbn [dsub dneg dadd dltb]. unfold rltb. destruct (Rlt_dec (1 + - p) p), (Rlt_dec 0.5 p); auto; lra. }
  rewrite M. clear M. cbn zeta. set (q := if Rlt_dec 0.5 p then 1 - p else p).
  assert (Q : 0 < q <= 0.5) by (unfold q; destruct (Rlt_dec 0.5 p); lra).
  rewrite start_fin by auto. rewrite step_fin by (try apply start_le; lra). unfold invR, q. cbn [dltb]. unfold rltb. destruct (Rlt_dec 0.5 p); reflexivity.
Qed.
Lemma step_half : step 0.5 0 = 0.
Proof. unfold step. rewrite cdf_0. replace ((0.5 - 0.5) * _) with 0 by ring. field. Qed.
Lemma inv_antisym p : 0 < p < 1 -> invR (1 - p) = - invR p.
Proof.
  intros P. unfold invR. destruct (Rlt_dec 0.5 (1 - p)), (Rlt_dec 0.5 p); try lra.
  - replace (1 - (1 - p)) with p by ring. reflexivity.
  - assert (p = 0.5) by lra. subst p. replace (1 - 0.5) with 0.5 by lra. rewrite start_half, step_half. ring.
Qed.

(* ---- its sign ---- *)
Lemma exp_above x : 1 + x <= exp x.
Proof. destruct (Req_dec x 0) as [->|N]; [rewrite exp_0; lra|]. left. now apply exp_ineq1. Qed.
Lemma half_exp x : 0 <= x -> exp x * (1 - x) <= 1.
Proof.
  intros X. pose proof (exp_above (- x)) as H. rewrite exp_Ropp in H. pose proof (exp_pos x).
  apply (Rmult_le_compat_l (exp x)) in H; [|lra]. rewrite Rinv_r in H by lra. lra.
Qed.
Lemma cdf_m1 : 0.11 <= cdfR (- (1)).
Proof.
  rewrite cdf_left by (unfold t1; lra). rewrite Ropp_involutive. unfold side, fac. destruct (Rle_dec 1 t2) as [_|N]; [|exfalso; apply N; unfold t2; lra].
  pose proof (exp_above (- (1 * 1) / 2)). pose proof (d_low 1 ltac:(lra)). pose proof (c_low 1 ltac:(lra)).
  assert (0.25 <= pol pc 1 / pol pd 1).
  { apply (Rmult_le_reg_r (pol pd 1)); [lra|]. replace (pol pc 1 / pol pd 1 * pol pd 1) with (pol pc 1) by (field; lra).
    unfold pc, pd, cdf_c, cdf_d. cbn [rev app pol]. lra. }
  nra.
Qed.
(* the starting value is not too far from the inverse *)
Lemma close q : 0.02425 < q -> q < 0.5 -> q < cdfR (start q) + - start q * 0.3989.
Proof.
  intros Q H. pose proof (start_neg q ltac:(lra) H) as N.
  assert (T : 0 <= (q - 0.5) * (q - 0.5) <= T5) by (unfold T5; nra). pose proof (ia_low _ T). pose proof (ib_low _ T). pose proof (ia_ib _ T) as R5.
  assert (E : - start q <= 5 * (0.5 - q)).
  { unfold start. destruct (Rlt_dec 0.02425 q); [|lra]. set (x := (q - 0.5) * (q - 0.5)) in *.
    assert (pol ia x / pol ib x <= 5). { apply (Rmult_le_reg_r (pol ib x)); [lra|]. unfold Rdiv. rewrite Rmult_assoc, Rinv_l by lra. lra. }
    unfold Rdiv in *. nra. }
  set (u := start q) in *. clearbody u. clear - E N H Q.
  (* q <= 0.5 + u / 5 *)
  destruct (Rlt_dec u (- t1)) as [L|L].
  - pose proof (cdf_range u) as [C _]. destruct (Rle_dec (- (1)) u).
    + assert (cdfR (- (1)) <= cdfR u) by (destruct (Req_dec u (- (1))) as [->|]; [lra|left; apply cdf_incr; lra]). pose proof cdf_m1. unfold t1 in L. lra.
    + lra.
  - rewrite cdf_mid by (unfold t1 in *; lra). unfold cen. assert (Y : 0 <= u * u) by nra. pose proof (b_low _ Y). pose proof (ab _ Y). pose proof (a_low _ Y).
    assert (pol pa (u * u) / pol pb (u * u) <= 0.4). { apply (Rmult_le_reg_r (pol pb (u * u))); [lra|]. unfold Rdiv. rewrite Rmult_assoc, Rinv_l by lra. lra. }
    unfold Rdiv in *. nra.
Qed.
Lemma mills3 u : u <= - 1.2 -> - u * cdfR u * (M_SQRT2PI * exp (u * u / 2)) <= 1.9. Proof. intros. apply mills. lra. Qed.
Lemma step_neg q : 0 < q -> q < 0.5 -> step q (start q) < 0.
Proof.
  intros Q H. pose proof (start_neg q Q H) as N. pose proof (denominator q (start q) ltac:(lra) ltac:(lra)) as D.
  pose proof (mills (start q) ltac:(lra)) as M. unfold step. cbn zeta.
  assert (G : start q * start q < 2 -> (q - cdfR (start q)) < - start q * 0.3989).
  { intros S. destruct (Rlt_dec 0.02425 q) as [L|L]; [pose proof (close q L H); lra|].
    exfalso. unfold start in S. destruct (Rlt_dec 0.02425 q); [contradiction|].
    pose proof (start_tail _ (log_far q Q ltac:(lra))). nra. }
  set (u := start q) in *. clearbody u. set (c := cdfR u) in *. pose proof (cdf_range u) as [C _]. fold c in C. clearbody c.
  pose proof (exp_pos (u * u / 2)) as X. pose proof (half_exp (u * u / 2) ltac:(nra)) as HX. set (e := exp (u * u / 2)) in *. clearbody e.
  set (t := (c - q) * (M_SQRT2PI * e)) in *.
  assert (W : u + t * (u * u / 2 - 1) < 0).
  { destruct (Rlt_dec (u * u) 2) as [S|S].
    - specialize (G S). unfold t. destruct (Rle_dec (q - c) 0).
      + assert (0 <= (c - q) * (M_SQRT2PI * e)) by (apply Rmult_le_pos; [lra|left; now apply M_pos]). nra.
      + assert ((q - c) * (M_SQRT2PI * (e * (1 - u * u / 2))) <= (q - c) * (M_SQRT2PI * 1)) by (apply Rmult_le_compat_l; [lra|]; apply Rmult_le_compat_l; [unfold M_SQRT2PI|]; lra).
        unfold M_SQRT2PI in *. lra.
    - assert (t <= c * (M_SQRT2PI * e)). { unfold t. apply Rmult_le_compat_r; [unfold M_SQRT2PI; nra|lra]. }
      assert (t * (u * u / 2 - 1) <= c * (M_SQRT2PI * e) * (u * u / 2 - 1)) by (apply Rmult_le_compat_r; lra).
      assert (K : 0 < c * (M_SQRT2PI * e)) by (apply Rmult_lt_0_compat; auto; now apply M_pos).
      set (k := c * (M_SQRT2PI * e)) in *. assert (M' : - u * k <= 1.9) by (unfold k; lra). clearbody k. nra. }
  apply (Rmult_lt_reg_r (1 + u * t / 2)); auto. rewrite Rmult_0_l.
  replace ((u - t / (1 + u * t / 2)) * (1 + u * t / 2)) with (u + t * (u * u / 2 - 1)) by (field; lra). auto.
Qed.
Lemma inv_sign p : 0 < p < 0.5 -> invR p < 0.
Proof. intros P. unfold invR. destruct (Rlt_dec 0.5 p); [lra|]. now apply step_neg. Qed.
Lemma inv_half : invR 0.5 = 0.
Proof. unfold invR. destruct (Rlt_dec 0.5 0.5); [lra|]. now rewrite start_half, step_half. Qed.
