(* The normal distribution function over the reals: defined, symmetric, increasing. *)
From Coq Require Import Reals ZArith List Bool Lra Lia.
From Verif Require Import Base Dbl StatModel StatPoly.
Import ListNotations.
Local Open Scope R_scope.

Definition t1 : R := 0.662912607362388.
Definition t2 : R := 5.65685424949238.
Definition pa := rev cdf_a. Definition pb := rev cdf_b.
Definition pc := rev cdf_c. Definition pd := rev cdf_d.
Definition pp := rev cdf_p. Definition pq := rev cdf_q.
Definition cen (u : R) : R := u * pol pa (u * u) / pol pb (u * u).
Definition tailq (z : R) : R := z * (M_1_SQRT2PI - z * z * (pol pp (z * z) / pol pq (z * z))).
Definition fac (y : R) : R := if Rle_dec y t2 then pol pc y / pol pd y else tailq (1 / y).
Definition side (y : R) : R := fac y * exp (- (y * y) / 2).
Definition cdfR (u : R) : R :=
  if Rle_dec (Rabs u) t1 then 0.5 + cen u else if Rlt_dec u 0 then side (- u) else 1 - side u.

Ltac allpos := unfold pos, pa, pb, pc, pd, pp, pq, cdf_a, cdf_b, cdf_c, cdf_d, cdf_p, cdf_q; cbn [rev app]; repeat constructor; lra.
Lemma pos_a : pos pa. Proof. allpos. Qed.
Lemma pos_b : pos pb. Proof. allpos. Qed.
Lemma pos_c : pos pc. Proof. allpos. Qed.
Lemma pos_d : pos pd. Proof. allpos. Qed.
Lemma pos_p : pos pp. Proof. allpos. Qed.
Lemma pos_q : pos pq. Proof. allpos. Qed.
Lemma cd_falling : falling pc pd.
Proof. unfold pc, pd, cdf_c, cdf_d; cbn [rev app falling]; repeat split; repeat constructor; lra. Qed.
Lemma pq_falling : falling pp pq.
Proof. unfold pp, pq, cdf_p, cdf_q; cbn [rev app falling]; repeat split; repeat constructor; lra. Qed.
Lemma b_low y : 0 <= y -> 8044 <= pol pb y.
Proof. intros H. eapply Rle_trans; [|apply (pol_pos 8.044716608901563e+003)]; auto; [lra|]. apply pos_b. Qed.
Lemma a_low y : 0 <= y -> 3209 <= pol pa y.
Proof. intros H. eapply Rle_trans; [|apply (pol_pos 3.209377589138469e+003)]; auto; [lra|]. apply pos_a. Qed.
Lemma c_low y : 0 <= y -> 9842 <= pol pc y.
Proof. intros H. eapply Rle_trans; [|apply (pol_pos 9.84271483838397762e03)]; auto; [lra|]. apply pos_c. Qed.
Lemma d_low y : 0 <= y -> 19685 <= pol pd y.
Proof. intros H. eapply Rle_trans; [|apply (pol_pos 1.96854296768599925e04)]; auto; [lra|]. apply pos_d. Qed.
Lemma p_low y : 0 <= y -> 0 < pol pp y.
Proof. intros H. eapply Rlt_le_trans; [|apply (pol_pos 2.91128749511687932e-5)]; auto; [lra|]. apply pos_p. Qed.
Lemma q_low y : 0 <= y -> 0 < pol pq y.
Proof. intros H. eapply Rlt_le_trans; [|apply (pol_pos 7.29751555083966178e-5)]; auto; [lra|]. apply pos_q. Qed.
Lemma ab y : 0 <= y -> pol pa y <= 0.4 * pol pb y.
Proof. intros H. apply pol_le; auto. unfold pa, pb, cdf_a, cdf_b; cbn [rev app]; repeat constructor; lra. Qed.
Lemma cd y : 0 <= y -> pol pc y <= 0.5 * pol pd y.
Proof. intros H. apply pol_le; auto. unfold pc, pd, cdf_c, cdf_d; cbn [rev app]; repeat constructor; lra. Qed.
Lemma pq04 y : 0 <= y -> pol pp y <= 0.4 * pol pq y.
Proof. intros H. apply pol_le; auto. unfold pp, pq, cdf_p, cdf_q; cbn [rev app]; repeat constructor; lra. Qed.

(* ---- the code computes cdfR ---- *)
Lemma dleb_fin a b : dleb (Fin a) (Fin b) = if Rle_dec a b then true else false.
Proof.
  unfold dleb, dltb, deqb, rltb, reqb. destruct (Rlt_dec a b), (Req_EM_T a b), (Rle_dec a b); auto; lra.
Qed.
Lemma ddiv_fin a b : b <> 0 -> ddiv (Fin a) (Fin b) = Fin (a / b).
Proof. intros H. cbn. unfold reqb. destruct (Req_EM_T b 0); [contradiction|auto]. Qed.
Lemma exp_split u z : exp (-0.5 * z * z) * exp (-0.5 * (u + - z) * (u + z)) = exp (- (u * u) / 2).
Proof. rewrite <- exp_plus. apply (f_equal exp). lra. Qed.
Lemma cdf_fin u : stdnormal_cdf (Fin u) = Fin (cdfR u).
Proof.
  unfold stdnormal_cdf, cdfR. cbn [isnan isfinite negb dabs]. rewrite !dleb_fin. fold t1 t2.
  destruct (Rle_dec (Rabs u) t1) as [L|L].
  - cbn [dmul]. rewrite !horner_fin. cbn [dmul]. fold pa pb. assert (0 <= u * u) by nra. pose proof (b_low (u * u) H).
    rewrite ddiv_fin by lra. reflexivity.
  - assert (N : 0 < Rabs u) by (unfold t1 in L; lra).
    assert (E : (if Rle_dec (Rabs u) t2 then (horner cdf_c (Fin (Rabs u)) / horner cdf_d (Fin (Rabs u)))%dbl
        else (#1.0 / Fin (Rabs u) * (Fin M_1_SQRT2PI - #1.0 / Fin (Rabs u) * (#1.0 / Fin (Rabs u)) *
          (horner cdf_p (#1.0 / Fin (Rabs u) * (#1.0 / Fin (Rabs u))) / horner cdf_q (#1.0 / Fin (Rabs u) * (#1.0 / Fin (Rabs u))))))%dbl) = Fin (fac (Rabs u))).
    { unfold fac. destruct (Rle_dec (Rabs u) t2).
      - rewrite !horner_fin. fold pc pd. pose proof (d_low (Rabs u)). rewrite ddiv_fin by lra. reflexivity.
      - rewrite ddiv_fin by lra. cbn [dmul]. rewrite !horner_fin. fold pp pq.
        replace (1.0 / Rabs u) with (1 / Rabs u) by (f_equal; lra).
        assert (0 <= 1 / Rabs u * (1 / Rabs u)) by nra. pose proof (q_low _ H).
        rewrite ddiv_fin by lra. cbn [dmul dsub dneg dadd]. unfold tailq. reflexivity. }
    cbn zeta. destruct (Rle_dec (Rabs u) t2) as [M|M]; rewrite E; cbn [dmul dfloor]; rewrite ddiv_fin by lra; cbn [dmul dsub dneg dadd dexp dltb]; rewrite exp_split;
      unfold rltb, side, cen; (replace (IZR (Z.of_nat 0) : R) with 0%R by auto || idtac);
      destruct (Rlt_dec u 0.0), (Rlt_dec u 0); try lra; cbn [dneg dadd].
    all: f_equal; try (rewrite Rabs_left by lra; replace (- u * - u) with (u * u) by ring; ring).
    all: rewrite Rabs_pos_eq by lra; ring.
Qed.

(* ---- symmetry ---- *)
Lemma cen_odd u : cen (- u) = - cen u.
Proof. unfold cen. replace (- u * - u) with (u * u) by ring. pose proof (b_low (u * u)). assert (0 <= u * u) by nra. field. lra. Qed.
Lemma cdf_sym u : cdfR (- u) = 1 - cdfR u.
Proof.
  unfold cdfR. rewrite Rabs_Ropp. destruct (Rle_dec (Rabs u) t1) as [L|L].
  - rewrite cen_odd. lra.
  - destruct (Rlt_dec (- u) 0), (Rlt_dec u 0); try lra.
    + rewrite Ropp_involutive. ring.
    + exfalso. apply L. assert (u = 0) by lra. subst. rewrite Rabs_R0. unfold t1. lra.
Qed.

(* ---- the factor is positive, at most 1/2 and falls ---- *)
Lemma tailq_pos z : 0 < z <= 1 / 5 -> 0 < tailq z.
Proof.
  intros Z. unfold tailq. apply Rmult_lt_0_compat; [lra|]. assert (Y : 0 <= z * z <= 1 / 25) by nra.
  pose proof (q_low (z * z)). pose proof (p_low (z * z)). pose proof (pq04 (z * z)).
  assert (Q : pol pp (z * z) / pol pq (z * z) <= 0.4).
  { apply (Rmult_le_reg_r (pol pq (z * z))); [lra|]. unfold Rdiv. rewrite Rmult_assoc, Rinv_l by lra. lra. }
  assert (0 < pol pp (z * z) / pol pq (z * z)) by (apply Rdiv_lt_0_compat; lra).
  unfold M_1_SQRT2PI. nra.
Qed.
Lemma tailq_half z : 0 < z <= 1 / 5 -> tailq z <= 1 / 2.
Proof.
  intros Z. unfold tailq. assert (Y : 0 <= z * z) by nra.
  assert (0 < pol pp (z * z) / pol pq (z * z)) by (apply Rdiv_lt_0_compat; [now apply p_low|now apply q_low]).
  unfold M_1_SQRT2PI. assert (0 <= z * z * (pol pp (z * z) / pol pq (z * z))) by nra. nra.
Qed.
Lemma tailq_incr x y : 0 < x -> x < y -> y <= 1 / 5 -> tailq x < tailq y.
Proof.
  intros X XY Y. unfold tailq.
  assert (F : pol pp (y * y) / pol pq (y * y) <= pol pp (x * x) / pol pq (x * x)).
  { apply quotient_falls; [apply pq_falling|apply pos_q|discriminate|nra]. }
  assert (P : 0 < pol pp (y * y) / pol pq (y * y)) by (apply Rdiv_lt_0_compat; [apply p_low; nra|apply q_low; nra]).
  assert (B : pol pp (x * x) / pol pq (x * x) <= 0.4).
  { pose proof (q_low (x * x)). pose proof (pq04 (x * x)). assert (0 <= x * x) by nra.
    apply (Rmult_le_reg_r (pol pq (x * x))); [lra|]. unfold Rdiv. rewrite Rmult_assoc, Rinv_l by lra. lra. }
  set (f := pol pp (x * x) / pol pq (x * x)) in *. set (g := pol pp (y * y) / pol pq (y * y)) in *.
  assert (C : y * (y * y * g) - x * (x * x * f) <= 0.4 * (y * y * y - x * x * x)).
  { assert (y * y * y * g <= y * y * y * f) by (apply Rmult_le_compat_l; [repeat apply Rmult_le_pos; lra|lra]).
    assert (x * x * x <= y * y * y). { assert (x * x <= y * y) by nra. nra. }
    assert (f * (y * y * y - x * x * x) <= 0.4 * (y * y * y - x * x * x)) by (apply Rmult_le_compat_r; lra). lra. }
  assert (D : y * y * y - x * x * x <= (y - x) * (3 / 25)).
  { replace (y * y * y - x * x * x) with ((y - x) * (y * y + x * y + x * x)) by ring.
    apply Rmult_le_compat_l; [lra|]. assert (y * y <= 1 / 25) by nra. assert (x * y <= 1 / 25) by nra. assert (x * x <= 1 / 25) by nra. lra. }
  unfold M_1_SQRT2PI. nra.
Qed.
Lemma rev6 a b c d e f y : y <> 0 -> pol [f; e; d; c; b; a] (1 / y * (1 / y)) = pol [a; b; c; d; e; f] (y * y) / (y * y) ^ 5.
Proof. intros H. cbn [pol]. field. auto. Qed.
Lemma tailq_at y : y <> 0 -> pol cdf_q (y * y) <> 0 ->
  tailq (1 / y) = (M_1_SQRT2PI * (y * y) * pol cdf_q (y * y) - pol cdf_p (y * y)) / (y * (y * y) * pol cdf_q (y * y)).
Proof.
  intros H N. unfold tailq. unfold pp, pq, cdf_p, cdf_q in *. cbn [rev app]. rewrite !rev6 by auto.
  set (P := pol _ (y * y)). set (Q := pol _ (y * y)) in *. field. repeat split; auto.
Qed.
Lemma joint2 : tailq (1 / t2) <= pol pc t2 / pol pd t2.
Proof.
  pose proof (d_low t2) as D. assert (T : 0 < t2) by (unfold t2; lra).
  assert (Q : 0 < pol cdf_q (t2 * t2)).
  { apply Rlt_le_trans with 1.00000000000000000e00; [lra|]. apply (pol_pos 1.00000000000000000e00); [|nra]. unfold pos, cdf_q. repeat constructor; lra. }
  rewrite tailq_at by lra.
  assert (B : (M_1_SQRT2PI * (t2 * t2) * pol cdf_q (t2 * t2) - pol cdf_p (t2 * t2)) * pol pd t2 <= pol pc t2 * (t2 * (t2 * t2) * pol cdf_q (t2 * t2))).
  { unfold M_1_SQRT2PI, t2, pc, pd, cdf_c, cdf_d, cdf_p, cdf_q. cbn [rev app pol]. lra. }
  assert (W : 0 < t2 * (t2 * t2) * pol cdf_q (t2 * t2)) by (clear - T Q; set (tt := t2) in *; clearbody tt; assert (0 < tt * (tt * tt)) by (repeat apply Rmult_lt_0_compat; auto); now apply Rmult_lt_0_compat).
  apply (Rmult_le_reg_r (t2 * (t2 * t2) * pol cdf_q (t2 * t2) * pol pd t2)); [apply Rmult_lt_0_compat; lra|].
  eapply Rle_trans; [apply Req_le|eapply Rle_trans; [exact B|apply Req_le]]; field; lra.
Qed.
Lemma fac_pos y : 0 < y -> 0 < fac y.
Proof.
  intros Y. unfold fac. destruct (Rle_dec y t2).
  - apply Rdiv_lt_0_compat; [pose proof (c_low y)|pose proof (d_low y)]; lra.
  - apply tailq_pos. split; [apply Rdiv_lt_0_compat; lra|]. apply (Rmult_le_reg_r y); auto. unfold Rdiv at 1. rewrite Rmult_assoc, Rinv_l by lra. unfold t2 in *. lra.
Qed.
Lemma small_z y : t2 <= y -> 0 < 1 / y <= 1 / 5.
Proof.
  intros Y. assert (0 < y) by (unfold t2 in Y; lra). split; [apply Rdiv_lt_0_compat; lra|]. apply (Rmult_le_reg_r y); auto.
  unfold Rdiv at 1. rewrite Rmult_assoc, Rinv_l by lra. unfold t2 in *. lra.
Qed.
Lemma inv_le x y : 0 < x -> x <= y -> 1 / y <= 1 / x.
Proof. intros X XY. unfold Rdiv. rewrite !Rmult_1_l. now apply Rinv_le_contravar. Qed.
Lemma tailq_mono x y : t2 <= x -> x <= y -> tailq (1 / y) <= tailq (1 / x).
Proof.
  intros X XY. destruct (Req_dec x y) as [->|N]; [lra|]. pose proof (small_z x X). pose proof (small_z y (Rle_trans _ _ _ X XY)).
  assert (1 / y < 1 / x). { assert (0 < x) by (unfold t2 in X; lra). unfold Rdiv. rewrite !Rmult_1_l. apply Rinv_lt_contravar; [apply Rmult_lt_0_compat|]; lra. }
  left. apply tailq_incr; lra.
Qed.
Lemma fac_falls x y : 0 < x -> x <= y -> fac y <= fac x.
Proof.
  intros X XY. unfold fac. destruct (Rle_dec y t2) as [Y|Y], (Rle_dec x t2) as [Z|Z]; try lra.
  - apply quotient_falls; [apply cd_falling|apply pos_d|discriminate|lra].
  - apply Rle_trans with (tailq (1 / t2)); [apply tailq_mono; lra|]. eapply Rle_trans; [apply joint2|].
    apply quotient_falls; [apply cd_falling|apply pos_d|discriminate|lra].
  - apply tailq_mono; lra.
Qed.
Lemma fac_half y : 0 < y -> fac y <= 1 / 2.
Proof.
  intros Y. unfold fac. destruct (Rle_dec y t2).
  - pose proof (d_low y). pose proof (cd y). apply (Rmult_le_reg_r (pol pd y)); [lra|]. unfold Rdiv at 1. rewrite Rmult_assoc, Rinv_l by lra. lra.
  - apply tailq_half, small_z. lra.
Qed.
Lemma side_pos y : 0 < y -> 0 < side y.
Proof. intros Y. apply Rmult_lt_0_compat; [now apply fac_pos|apply exp_pos]. Qed.
Lemma side_falls x y : 0 < x -> x < y -> side y < side x.
Proof.
  intros X XY. unfold side. pose proof (fac_falls x y X (Rlt_le _ _ XY)). pose proof (fac_pos y ltac:(lra)). pose proof (fac_pos x X).
  assert (E : exp (- (y * y) / 2) < exp (- (x * x) / 2)) by (apply exp_increasing; nra).
  pose proof (exp_pos (- (y * y) / 2)). nra.
Qed.
Lemma side_half y : 0 < y -> side y < 1 / 2.
Proof.
  intros Y. unfold side. pose proof (fac_half y Y). pose proof (fac_pos y Y). pose proof (exp_pos (- (y * y) / 2)).
  assert (E : exp (- (y * y) / 2) < 1) by (rewrite <- exp_0; apply exp_increasing; nra). nra.
Qed.
(* ---- the middle ---- *)
Lemma cen_bound u : Rabs u <= t1 -> - (1 / 2) < cen u < 1 / 2.
Proof.
  intros U. unfold cen. assert (Y : 0 <= u * u) by nra. pose proof (b_low _ Y). pose proof (a_low _ Y). pose proof (ab _ Y).
  assert (Q : 0 < pol pa (u * u) / pol pb (u * u) <= 0.4).
  { split; [apply Rdiv_lt_0_compat; lra|]. apply (Rmult_le_reg_r (pol pb (u * u))); [lra|]. unfold Rdiv. rewrite Rmult_assoc, Rinv_l by lra. lra. }
  replace (u * pol pa (u * u) / pol pb (u * u)) with (u * (pol pa (u * u) / pol pb (u * u))) by (field; lra).
  revert U. unfold Rabs, t1. destruct (Rcase_abs u); nra.
Qed.
Lemma b_slope x y : 0 <= x -> x <= y -> y <= 1 / 2 -> pol pb y - pol pb x <= 2000 * (y - x).
Proof.
  intros X XY Y. unfold pb, cdf_b. cbn [rev app pol].
  assert (Y2 : y * y - x * x <= 1 * (y - x)). { replace (y * y - x * x) with ((y + x) * (y - x)) by ring. apply Rmult_le_compat_r; lra. }
  assert (Y3 : y * (y * y) - x * (x * x) <= 1 * (y - x)).
  { replace (y * (y * y) - x * (x * x)) with ((y * y + x * y + x * x) * (y - x)) by ring. apply Rmult_le_compat_r; [lra|]. nra. }
  assert (Y4 : y * (y * (y * y)) - x * (x * (x * x)) <= 1 * (y - x)).
  { replace (y * (y * (y * y)) - x * (x * (x * x))) with ((y * y + x * x) * (y + x) * (y - x)) by ring. apply Rmult_le_compat_r; [lra|].
    assert (y * y + x * x <= 1) by nra. assert (0 <= y * y + x * x) by nra. nra. }
  nra.
Qed.
Lemma cen_incr0 u v : 0 <= u -> u < v -> v <= t1 -> cen u < cen v.
Proof.
  intros U UV V. unfold cen. assert (V' : v <= 0.7) by (unfold t1 in V; lra).
  assert (W : 0 <= u * u <= v * v) by nra. assert (W2 : v * v <= 1 / 2) by nra.
  pose proof (b_low (u * u) (proj1 W)) as B1. pose proof (a_low (u * u) (proj1 W)) as A1.
  pose proof (b_slope (u * u) (v * v) (proj1 W) (proj2 W) W2) as S. pose proof (pol_incr pa (u * u) (v * v) pos_a W) as I.
  pose proof (b_low (v * v) ltac:(lra)) as B2.
  set (a1 := pol pa (u * u)) in *. set (a2 := pol pa (v * v)) in *. set (b1 := pol pb (u * u)) in *. set (b2 := pol pb (v * v)) in *.
  clearbody a1 a2 b1 b2.
  apply (Rmult_lt_reg_r (b1 * b2)); [apply Rmult_lt_0_compat; lra|].
  replace (u * a1 / b1 * (b1 * b2)) with (u * a1 * b2) by (field; lra).
  replace (v * a2 / b2 * (b1 * b2)) with (v * a2 * b1) by (field; lra).
  assert (C : u * b2 < v * b1).
  { assert (u * (b2 - b1) <= u * (2000 * (v * v - u * u))) by (apply Rmult_le_compat_l; lra).
    assert (u * (2000 * (v * v - u * u)) <= 2000 * (v - u)).
    { replace (u * (2000 * (v * v - u * u))) with (2000 * ((u * (v + u)) * (v - u))) by ring.
      apply Rmult_le_compat_l; [lra|]. rewrite <- (Rmult_1_l (v - u)) at 2. apply Rmult_le_compat_r; [lra|]. nra. }
    assert (8044 * (v - u) <= b1 * (v - u)) by (apply Rmult_le_compat_r; lra). lra. }
  apply Rlt_le_trans with (a1 * (v * b1)).
  - replace (u * a1 * b2) with (a1 * (u * b2)) by ring. apply Rmult_lt_compat_l; lra.
  - replace (v * a2 * b1) with (a2 * (v * b1)) by ring. apply Rmult_le_compat_r; [apply Rmult_le_pos; lra|lra].
Qed.
Lemma cen_incr u v : - t1 <= u -> u < v -> v <= t1 -> cen u < cen v.
Proof.
  intros U UV V. destruct (Rle_dec 0 u).
  - now apply cen_incr0.
  - destruct (Rle_dec 0 v).
    + assert (Z : cen 0 = 0) by (unfold cen; pose proof (b_low (0 * 0)); assert (0 <= 0 * 0) by lra; field; lra).
      assert (cen (- - u) < 0). { rewrite cen_odd. assert (cen 0 < cen (- u)) by (apply cen_incr0; lra). lra. }
      rewrite Ropp_involutive in H. destruct (Req_dec v 0) as [->|]; [lra|]. assert (cen 0 < cen v) by (apply cen_incr0; lra). lra.
    + assert (cen (- v) < cen (- u)) by (apply cen_incr0; lra). rewrite !cen_odd in H. lra.
Qed.
(* ---- where the pieces meet ---- *)
Lemma exp_low x n : 0 <= x -> sum_f_R0 (fun i => / INR (fact i) * x ^ i) n <= exp x.
Proof.
  intros X. unfold exp. destruct (exist_exp x) as [l L]. cbn. apply sum_incr; auto.
  intros k. apply Rmult_le_pos; [left; apply Rinv_0_lt_compat, INR_fact_lt_0|now apply pow_le].
Qed.
Fixpoint term (x : R) (i : nat) : R := match i with O => 1 | S j => term x j * x / INR i end.
Lemma term_eq x i : term x i = / INR (fact i) * x ^ i.
Proof.
  induction i as [|i IH]; [cbn; lra|]. cbn [term]. rewrite IH. change (fact (S i)) with (S i * fact i)%nat. rewrite mult_INR. cbn [pow].
  field. split; [apply INR_fact_neq_0|apply not_0_INR; lia].
Qed.
Lemma exp_x0 : 1.2457360530604888611379 <= exp 0.2197265624999997983911.
Proof.
  eapply Rle_trans; [|apply (exp_low _ 13); lra].
  rewrite (sum_eq _ (term 0.2197265624999997983911)) by (intros; now rewrite term_eq).
  cbn [sum_f_R0 term INR]. lra.
Qed.
Lemma joint1 : side t1 <= 0.5 - cen t1.
Proof.
  assert (X : 0.2197265624999997983911 <= t1 * t1 / 2) by (unfold t1; lra). pose proof exp_x0 as S.
  assert (S' : exp 0.2197265624999997983911 <= exp (t1 * t1 / 2)) by (destruct X as [L|L]; [left; now apply exp_increasing|rewrite L; lra]).
  unfold side, fac, cen. destruct (Rle_dec t1 t2) as [_|N]; [|exfalso; apply N; unfold t1, t2; lra].
  replace (- (t1 * t1) / 2) with (- (t1 * t1 / 2)) by lra. rewrite exp_Ropp.
  set (e := exp (t1 * t1 / 2)) in *. assert (E : 1.2457360530604888611379 <= e) by lra. clearbody e. clear S S' X.
  pose proof (d_low t1 ltac:(unfold t1; lra)) as D. pose proof (b_low (t1 * t1) ltac:(unfold t1; lra)) as B.
  pose proof (c_low t1 ltac:(unfold t1; lra)) as C.
  apply Rle_trans with (pol pc t1 / pol pd t1 * / 1.2457360530604888611379).
  { apply Rmult_le_compat_l; [left; apply Rdiv_lt_0_compat; lra|]. apply Rinv_le_contravar; lra. }
  assert (G : 2 * pol pc t1 * pol pb (t1 * t1) <= (pol pb (t1 * t1) - 2 * (t1 * pol pa (t1 * t1))) * (pol pd t1 * 1.2457360530604888611379)).
  { unfold t1, pa, pb, pc, pd, cdf_a, cdf_b, cdf_c, cdf_d. cbn [rev app pol]. lra. }
  replace 0.5 with (1 / 2) by lra. set (s := 1.2457360530604888611379) in *. assert (S : 0 < s) by (unfold s; lra). clearbody s.
  apply (Rmult_le_reg_r (2 * pol pd t1 * s * pol pb (t1 * t1))); [repeat apply Rmult_lt_0_compat; lra|].
  eapply Rle_trans; [apply Req_le|eapply Rle_trans; [exact G|apply Req_le]]; field; lra.
Qed.

(* ---- the whole function ---- *)
Lemma cdf_range u : 0 < cdfR u < 1.
Proof.
  unfold cdfR. destruct (Rle_dec (Rabs u) t1) as [L|L].
  - pose proof (cen_bound u L). lra.
  - assert (N : u <> 0) by (intros ->; apply L; rewrite Rabs_R0; unfold t1; lra). destruct (Rlt_dec u 0).
    + pose proof (side_pos (- u) ltac:(lra)). pose proof (side_half (- u) ltac:(lra)). lra.
    + pose proof (side_pos u ltac:(lra)). pose proof (side_half u ltac:(lra)). lra.
Qed.
Lemma cdf_left u : u < - t1 -> cdfR u = side (- u).
Proof.
  intros U. unfold cdfR. destruct (Rle_dec (Rabs u) t1) as [L|L].
  - revert L. unfold Rabs. destruct (Rcase_abs u); unfold t1 in *; lra.
  - destruct (Rlt_dec u 0); auto. unfold t1 in U. lra.
Qed.
Lemma cdf_mid u : - t1 <= u <= t1 -> cdfR u = 0.5 + cen u.
Proof. intros U. unfold cdfR. destruct (Rle_dec (Rabs u) t1) as [L|L]; auto. exfalso. apply L. now apply Rabs_le. Qed.
Lemma cdf_incr0 u v : u < v -> v <= t1 -> cdfR u < cdfR v.
Proof.
  intros UV V. destruct (Rlt_dec v (- t1)).
  - rewrite !cdf_left by lra. apply side_falls; unfold t1 in *; lra.
  - rewrite (cdf_mid v) by lra. destruct (Rlt_dec u (- t1)).
    + rewrite cdf_left by auto. apply Rlt_le_trans with (side t1); [apply side_falls; unfold t1 in *; lra|].
      eapply Rle_trans; [apply joint1|]. assert (cen (- t1) <= cen v). { destruct (Req_dec v (- t1)) as [->|]; [lra|left; apply cen_incr; lra]. }
      rewrite cen_odd in H. lra.
    + rewrite cdf_mid by lra. pose proof (cen_incr u v ltac:(lra) UV V). lra.
Qed.
Lemma cdf_incr u v : u < v -> cdfR u < cdfR v.
Proof.
  intros UV. destruct (Rle_dec v t1); [now apply cdf_incr0|]. destruct (Rlt_dec u (- t1)).
  - apply Rlt_le_trans with (cdfR 0); [apply cdf_incr0; unfold t1 in *; lra|].
    assert (H : cdfR (- v) < cdfR 0) by (apply cdf_incr0; unfold t1 in *; lra). rewrite cdf_sym in H.
    assert (Z : cdfR (- 0) = 1 - cdfR 0) by apply cdf_sym. rewrite Ropp_0 in Z. lra.
  - assert (H : cdfR (- v) < cdfR (- u)) by (apply cdf_incr0; lra). rewrite !cdf_sym in H. lra.
Qed.
