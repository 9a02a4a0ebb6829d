(* C65: the normal numbers (include/rng.h, stdnormal), over the reals. *)
From Coq Require Import ZArith QArith Reals Qreals List Lia Lra.
From Verif Require Import Base RngModel PropsRng.
Import ListNotations.
Local Open Scope R_scope.

(* lines 143-157.  n and ni are the members of these names; the four library functions are
   the real ones, rounding is not modelled. *)
Record normal_rng := { gen : rng; ni : nat; nrm : R * R }.
Definition stdnormal (g : normal_rng) : outcome (R * normal_rng) :=
  if Nat.eqb (ni g) 1 then
    let* (x, r) := o0c1 (gen g) in
    let* (y, r) := o0c1 r in
    let r0 := sqrt (- 2 * ln (Q2R x)) in
    let r1 := 2 * PI * Q2R y in
    Ok (r0 * sin r1, {| gen := r; ni := 0; nrm := (r0 * sin r1, r0 * cos r1) |})
  else
    Ok (snd (nrm g), {| gen := gen g; ni := 1; nrm := nrm g |}).
Definition make_normal (seed : Z) (junk : R * R) : outcome normal_rng :=
  let* r := make_rng seed in Ok {| gen := r; ni := 1; nrm := junk |}.
Fixpoint normals (k : nat) (g : normal_rng) : outcome (list R * normal_rng) :=
  match k with
  | O => Ok ([], g)
  | S k => let* (x, g) := stdnormal g in let* (l, g) := normals k g in Ok (x :: l, g)
  end.

(* ---- specification: pairs on a circle whose radius comes from one uniform number ---- *)
Definition bound : R := sqrt (104 * ln 2).
Definition box_muller (a b : R) : Prop :=
  exists u v, 0 < u <= 1 /\ 0 < v <= 1 /\
    a * a + b * b = - 2 * ln u /\
    a = sqrt (- 2 * ln u) * sin (2 * PI * v) /\ b = sqrt (- 2 * ln u) * cos (2 * PI * v).
(* consecutive numbers pair up *)
Fixpoint paired (l : list R) : Prop :=
  match l with
  | a :: b :: l => box_muller a b /\ paired l
  | [a] => exists b, box_muller a b
  | [] => True
  end.

(* ---- proofs ---- *)
Lemma open0_min : forall x, in_interval Open0Closed1 x -> grid x -> (1 / inject_Z (2 ^ 52) <= x)%Q.
Proof.
  intros x [H1 H2] [k E]. assert (P : (0 < inject_Z (2 ^ 52))%Q) by reflexivity.
  rewrite E in H1 |- *. apply Qle_shift_div_l; auto.
  assert (K : (0 < k)%Z).
  { assert (0 < inject_Z k)%Q as K.
    { setoid_replace (inject_Z k) with (inject_Z k / inject_Z (2 ^ 52) * inject_Z (2 ^ 52))%Q.
      - apply Qmult_lt_0_compat; auto.
      - field. discriminate. }
    change 0%Q with (inject_Z 0) in K. now rewrite <- Zlt_Qlt in K. }
  setoid_replace (1 / inject_Z (2 ^ 52) * inject_Z (2 ^ 52))%Q with 1%Q
    by (field; discriminate).
  change 1%Q with (inject_Z 1). rewrite <- Zle_Qle. lia.
Qed.
Lemma open0_R : forall x, in_interval Open0Closed1 x -> grid x -> (/ 2) ^ 52 <= Q2R x <= 1.
Proof.
  intros x I G. pose proof (open0_min x I G) as M. destruct I as [_ I2].
  apply Qle_Rle in M. apply Qle_Rle in I2. rewrite RMicromega.Q2R_1 in I2. split; [|auto].
  eapply Rle_trans; [|exact M]. apply Req_le. rewrite Q2R_div by discriminate.
  unfold inject_Z, Q2R. cbn [Qnum Qden]. rewrite !Rinv_1, !Rmult_1_r.
  replace (IZR (2 ^ 52)) with (2 ^ 52) by (rewrite pow_IZR; reflexivity).
  rewrite pow_inv. unfold Rdiv. now rewrite Rmult_1_l.
Qed.
Lemma ln_pow : forall n x, 0 < x -> ln (x ^ n) = INR n * ln x.
Proof.
  induction n; intros x H.
  - cbn [pow]. rewrite ln_1. cbn [INR]. lra.
  - cbn [pow]. rewrite ln_mult, IHn, S_INR; auto; [lra|now apply pow_lt].
Qed.
Lemma radius : forall u, (/ 2) ^ 52 <= u <= 1 -> 0 <= - 2 * ln u <= 104 * ln 2.
Proof.
  intros u [H1 H2]. assert (P : 0 < (/ 2) ^ 52) by (apply pow_lt; lra). split.
  - assert (ln u <= 0); [|lra]. rewrite <- ln_1.
    destruct H2 as [H2 | ->]; [apply Rlt_le; apply ln_increasing; lra | lra].
  - assert (L : ln ((/ 2) ^ 52) <= ln u).
    { destruct H1 as [H1 | <-]; [apply Rlt_le; now apply ln_increasing | lra]. }
    rewrite ln_pow, ln_Rinv in L by lra. replace (INR 52) with 52 in L by (cbn; lra). lra.
Qed.

(* the state between calls: either nothing is stored or the partner of the last number *)
Definition nstate (g : normal_rng) : Prop :=
  alive (gen g) /\ (ni g = 1%nat \/ ni g = 0%nat /\
    box_muller (fst (nrm g)) (snd (nrm g)) /\ Rabs (snd (nrm g)) <= bound).

Lemma bm_bound : forall r2 t, 0 <= r2 <= 104 * ln 2 ->
  Rabs (sqrt r2 * sin t) <= bound /\ Rabs (sqrt r2 * cos t) <= bound.
Proof.
  intros r2 t H. pose proof (sqrt_pos r2). pose proof (sqrt_le_1 r2 (104 * ln 2) ltac:(lra) ltac:(lra) ltac:(lra)).
  unfold bound. split; rewrite Rabs_mult, (Rabs_right (sqrt r2)) by lra.
  - pose proof (SIN_bound t). assert (Rabs (sin t) <= 1) by (apply Rabs_le; lra).
    pose proof (Rabs_pos (sin t)). nra.
  - pose proof (COS_bound t). assert (Rabs (cos t) <= 1) by (apply Rabs_le; lra).
    pose proof (Rabs_pos (cos t)). nra.
Qed.
Lemma make_pair : forall g, alive (gen g) -> ni g = 1%nat ->
  exists a g', stdnormal g = Ok (a, g') /\ nstate g' /\ ni g' = 0%nat /\
    a = fst (nrm g') /\ Rabs a <= bound.
Proof.
  intros g A N. unfold stdnormal. rewrite N. cbn [Nat.eqb].
  destruct (draw_in Open0Closed1 (gen g) A) as (x & r1 & E1 & I1 & G1 & A1).
  cbn [draw_fun] in E1. rewrite E1. cbn [bind].
  destruct (draw_in Open0Closed1 r1 A1) as (y & r2 & E2 & I2 & G2 & A2).
  cbn [draw_fun] in E2. rewrite E2. cbn [bind].
  pose proof (open0_R x I1 G1) as X. pose proof (open0_R y I2 G2) as Y.
  pose proof (radius _ X) as RX.
  destruct (bm_bound _ (2 * PI * Q2R y) RX) as [B1 B2].
  assert (P : 0 < (/ 2) ^ 52) by (apply pow_lt; lra).
  do 2 eexists. split; [reflexivity|]. cbn [gen ni nrm fst snd]. split; [|auto].
  split; [auto|]. right. split; [auto|]. split; [|auto].
  exists (Q2R x), (Q2R y). split; [lra|]. split; [lra|]. split; [|auto].
  cbn [nrm fst snd]. set (s := sqrt _). set (t := 2 * PI * Q2R y).
  replace (s * sin t * (s * sin t) + s * cos t * (s * cos t))
    with (s * s * ((sin t)² + (cos t)²)) by (unfold Rsqr; ring).
  rewrite sin2_cos2, Rmult_1_r. apply sqrt_sqrt. lra.
Qed.
Lemma normals_ok : forall k g, nstate g ->
  exists l g', normals k g = Ok (l, g') /\ length l = k /\ Forall (fun x => Rabs x <= bound) l /\
    paired (if Nat.eqb (ni g) 1 then l
            else match l with [] => [] | _ => fst (nrm g) :: l end).
Proof.
  induction k; intros g [A S]; cbn [normals].
  - exists [], g. repeat split; auto. destruct (Nat.eqb (ni g) 1); exact I.
  - destruct S as [N | (N & B & Bd)].
    + destruct (make_pair g A N) as (a & g1 & E & S1 & N1 & Ea & Ba). rewrite E. cbn [bind].
      destruct (IHk g1 S1) as (l & g2 & E2 & L & F & P). rewrite E2. cbn [bind].
      exists (a :: l), g2. split; [auto|]. split; [cbn; now rewrite L|]. split; [auto|].
      rewrite N. cbn [Nat.eqb]. rewrite N1 in P. cbn [Nat.eqb] in P.
      destruct S1 as [_ [N1'|(_ & B1 & _)]]; [congruence|].
      destruct l as [|b l]; [|now rewrite Ea]. cbn [paired]. exists (snd (nrm g1)).
      now rewrite Ea.
    + unfold stdnormal. rewrite N. cbn [Nat.eqb bind].
      set (g1 := {| gen := gen g; ni := 1; nrm := nrm g |}).
      destruct (IHk g1) as (l & g2 & E2 & L & F & P); [split; auto|].
      rewrite E2. cbn [bind]. eexists; exists g2. split; [reflexivity|].
      split; [cbn; now rewrite L|]. split; [auto|]. cbn [paired]. split; [auto|].
      exact P.
Qed.

(* C65: from every seed, however many are drawn, no draw fails, the logarithm and the root are
   always taken inside their domains, the numbers come in Box-Muller pairs and none is larger
   than sqrt(104 ln 2). *)
Theorem C65_normals : forall seed junk k, (0 <= seed < 2 ^ 32)%Z ->
  exists g l g', make_normal seed junk = Ok g /\ normals k g = Ok (l, g') /\
    length l = k /\ paired l /\ Forall (fun x => Rabs x <= bound) l.
Proof.
  intros seed junk k H. destruct (make_ok seed H) as (r & E & A & _).
  unfold make_normal. rewrite E. cbn [bind]. eexists.
  destruct (normals_ok k {| gen := r; ni := 1; nrm := junk |}) as (l & g' & E2 & L & F & P).
  { split; auto. }
  exists l, g'. split; [reflexivity|]. cbn [ni Nat.eqb] in P. auto.
Qed.
(* the bound is about 8.49 *)
Theorem C65_bound : bound < 9.
Proof.
  unfold bound. rewrite <- (sqrt_square 9) by lra. apply sqrt_lt_1.
  - pose proof (ln_lt_2). lra.
  - lra.
  - assert (ln 2 < 0.75); [|lra]. rewrite <- (ln_exp 0.75). apply ln_increasing; [lra|].
    replace 0.75 with (/4 + (/4 + /4)) by lra. rewrite !exp_plus.
    assert (B : 1 + /4 + /64 <= exp (/4)).
    { replace (/4) with (/8 + /8) at 2 by lra. rewrite exp_plus.
      pose proof (exp_ineq1 (/8) ltac:(lra)). nra. }
    assert (B2 : (1 + /4 + /64) * (1 + /4 + /64) <= exp (/4) * exp (/4)) by nra. nra.
Qed.
Print Assumptions C65_normals.
Print Assumptions C65_bound.
