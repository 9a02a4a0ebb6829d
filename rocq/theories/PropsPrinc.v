(* C91: the principal values are those of the tensor. *)
From Coq Require Import List ZArith Bool Arith Lia Field QArith Qcanon Permutation Reals Lra.
From Verif Require Import Base LinBase SmatModel SmatProofs IncholModel IncholProofs PropsQr PcgModel PcgProofs BcModel BcProofs PropsBc ShapeModel PropsShape StiffModel StiffProofs PropsStiff PrincModel LinReal.
Import ListNotations.
Local Open Scope nat_scope.

(* ---- specification ---- *)
Section Spec.
Context {K : ofield}.
Local Open Scope lin_scope.
Definition is_hypot (hyp : K -> K -> K) : Prop := forall x y, fle f0 (hyp x y) = true /\ hyp x y * hyp x y = x * x + y * y.
Definition det6 (p : sym K) : K := p00 p * (p11 p * p22 p - p12 p * p12 p) - p01 p * (p01 p * p22 p - p12 p * p02 p) + p02 p * (p01 p * p12 p - p11 p * p02 p).
(* the characteristic polynomial, whose roots are the principal values *)
Definition chi (p : sym K) (x : K) : K := det6 (Sym (p00 p - x) (p11 p - x) (p22 p - x) (p01 p) (p02 p) (p12 p)).
Definition off (p : sym K) : K := p01 p * p01 p + p02 p * p02 p + p12 p * p12 p.
Definition trace6 (p : sym K) : K := p00 p + p11 p + p22 p.
Definition norm2 (p : sym K) : K := p00 p * p00 p + p11 p * p11 p + p22 p * p22 p + num 2 * off p.
Definition alike (p q : sym K) : Prop := (forall x, chi p x = chi q x) /\ trace6 p = trace6 q /\ norm2 p = norm2 q.
End Spec.

Section Proofs.
Context {K : ofield}.
Local Open Scope lin_scope.
Add Field Kf77 : (f_th K).
Ltac nz := first [assumption | match goal with |- ?e <> _ => first [ exact (nump_nz 1) | exact (nump_nz 2) | exact (nump_nz 4) | exact (nump_nz 8) | exact (nump_nz 3) | exact (nump_nz 16)] end].
Ltac fld := cbn [num nump]; field; repeat split; nz.

Lemma fle_trans' (x y z : K) : fle x y = true -> fle y z = true -> fle x z = true.
Proof. intros A B. rewrite fle_sub in A. rewrite fle_sub in B. rewrite fle_sub. replace (z - x) with ((y - x) + (z - y)) by ring. now apply nn_add. Qed.
Lemma fle_anti' (x y : K) : fle x y = true -> fle y x = true -> x = y.
Proof. intros A B. rewrite fle_sub in A. rewrite fle_sub in B. assert (S : (y - x) + (x - y) = f0) by ring. destruct (nn_zero _ _ A B S) as (_ & E). replace x with (x - y + y) by ring. rewrite E. ring. Qed.
Lemma fle_eq (x y : K) : x = y -> fle x y = true.
Proof. intros ->. apply fle_refl. Qed.
Lemma fle_add_r (x y : K) : fle f0 y = true -> fle x (x + y) = true.
Proof. intros A. rewrite fle_sub. replace (x + y - x) with y by ring. exact A. Qed.
Lemma two_nz : (num 2 : K) <> f0.
Proof. exact (nump_nz 2). Qed.

Section Hyp.
Variable hyp : K -> K -> K.
Hypothesis HY : is_hypot hyp.

Lemma turn_ok d b : b <> f0 -> exists t, turn hyp d b = Ok t /\ b * (t * t) + d * t - b = f0 /\ fle (t * t) f1 = true.
Proof.
  intros B. unfold turn. set (s := if fltb d f0 then - num 2 else num 2 : K).
  assert (S2 : s * s = num 4) by (unfold s; destruct (fltb d f0); cbn [num nump]; ring).
  assert (SD : s * d = num 2 * fabs d).
  { unfold s. destruct (sgn3 d) as [(E1 & _ & E2)|[(E1 & _ & E2)|E]].
    - rewrite E1, E2. ring.
    - rewrite E1, E2. ring.
    - subst d. rewrite fltb_irr. assert (fabs f0 = (f0 : K)) as -> by (now apply fabs_0). ring. }
  assert (AD : fabs d * fabs d = d * d) by (destruct (sgn3 d) as [(_ & _ & ->)|[(_ & _ & ->)| ->]]; [ring|ring|]; assert (fabs f0 = (f0 : K)) as -> by (now apply fabs_0); ring).
  destruct (HY d (s * b)) as (H1 & H2). set (h := hyp d (s * b)) in *. pose proof (fabs_nonneg d) as H3. set (e := fabs d) in *.
  assert (DN : e + h <> f0).
  { intros E. destruct (nn_zero e h H3 H1 E) as (_ & E0). rewrite E0 in H2. assert (X : d * d + (s * b) * (s * b) = f0) by (rewrite <- H2; ring).
    destruct (nn_zero _ _ (fsqr_nonneg d) (fsqr_nonneg (s * b)) X) as (_ & X2). apply fsqr_0 in X2. revert X2. apply fmul_nz; auto. intros S0. rewrite S0 in S2. apply (nump_nz 4 : @nump K 4 <> f0). change (nump 4) with (num 4 : K). rewrite <- S2. ring. }
  rewrite divc_ok by auto. exists (s * b / (e + h)). split; [reflexivity|]. set (w := f1 / (e + h)). assert (W : w * (e + h) = f1) by (unfold w; field; auto).
  replace (s * b / (e + h)) with (s * b * w) by (unfold w; field; auto).
  assert (DD : (e + h) * (e + h) = num 2 * (d * d) + num 2 * (e * h) + num 4 * (b * b)).
  { transitivity (e * e + num 2 * (e * h) + h * h); [cbn [num nump]; ring|]. rewrite AD, H2. transitivity (num 2 * (d * d) + num 2 * (e * h) + (s * s) * (b * b)); [cbn [num nump]; ring|]. rewrite S2. ring. }
  split.
  - transitivity (b * (w * w) * ((s * s) * (b * b)) + (s * d) * b * w - b * (w * (e + h)) * (w * (e + h))); [rewrite W; ring|]. rewrite S2, SD.
    transitivity (b * (w * w) * (num 4 * (b * b)) + num 2 * e * b * w * (w * (e + h)) - b * (w * (e + h)) * (w * (e + h))); [rewrite W; ring|].
    transitivity (b * (w * w) * (num 4 * (b * b) - (e + h) * (e + h)) + num 2 * e * b * w * (w * (e + h))); [ring|]. rewrite DD.
    transitivity (num 2 * b * (w * w) * (e * e - d * d)); [cbn [num nump]; ring|]. rewrite AD. ring.
  - rewrite fle_sub. replace (f1 - s * b * w * (s * b * w)) with ((w * w) * (num 2 * (d * d) + num 2 * (e * h))).
    + apply mul_nonneg; [apply fsqr_nonneg|]. apply nn_add; apply mul_nonneg; try (apply pos_nn; exact (pos_num 2)); [apply fsqr_nonneg|now apply mul_nonneg].
    + transitivity ((w * (e + h)) * (w * (e + h)) - (s * s) * (b * b) * (w * w)); [|rewrite W; ring]. rewrite S2. transitivity ((w * w) * ((e + h) * (e + h) - num 4 * (b * b))); [rewrite DD; ring|ring].
Qed.
Lemma cos_ok t : exists k, hyp t f1 <> f0 /\ f1 / hyp t f1 = k /\ (forall x, x / hyp t f1 = x * k) /\ k * k * (f1 + t * t) = f1.
Proof.
  destruct (HY t f1) as (H1 & H2). assert (N : hyp t f1 <> f0).
  { intros E. rewrite E in H2. assert (X : f1 * f1 + t * t = f0) by (transitivity (f0 * f0 : K); [rewrite H2|]; ring). destruct (nn_zero _ _ (fsqr_nonneg f1) (fsqr_nonneg t) X) as (X1 & _). apply fsqr_0 in X1. exact (nump_nz 1 X1). }
  exists (f1 / hyp t f1). repeat split; auto. { intros x. field. auto. }
  replace (f1 + t * t) with (hyp t f1 * hyp t f1) by (rewrite H2; ring). field. auto.
Qed.
(* one turn in the plane of a and c, which clears b *)
Lemma rot (a c b e u w t k : K) : b * (t * t) + (c - a) * t - b = f0 -> k * k * (f1 + t * t) = f1 ->
  let a' := a - t * b in let c' := c + t * b in let u' := k * (u - t * w) in let w' := k * (w + t * u) in
  a' * c' = a * c - b * b /\ a' * (w' * w') + c' * (u' * u') = a * (w * w) + c * (u * u) - num 2 * b * u * w /\ u' * u' + w' * w' = u * u + w * w /\ a' * a' + c' * c' = a * a + c * c + num 2 * (b * b).
Proof.
  intros R Kk a' c' u' w'. unfold a', c', u', w'. repeat split.
  - transitivity (a * c - b * b - b * (b * (t * t) + (c - a) * t - b)); [ring|rewrite R; ring].
  - transitivity (k * k * ((f1 + t * t) * (a * (w * w) + c * (u * u) - num 2 * b * u * w) + (b * (t * t) + (c - a) * t - b) * (t * (w * w) - t * (u * u) - num 2 * u * w))); [cbn [num nump]; ring|].
    rewrite R. transitivity (k * k * (f1 + t * t) * (a * (w * w) + c * (u * u) - num 2 * b * u * w)); [ring|]. rewrite Kk. ring.
  - transitivity (k * k * (f1 + t * t) * (u * u + w * w)); [ring|]. rewrite Kk. ring.
  - transitivity (a * a + c * c + num 2 * (b * b) + num 2 * b * (b * (t * t) + (c - a) * t - b)); [cbn [num nump]; ring|]. rewrite R. ring.
Qed.
Lemma shift (a c x t b : K) : b * (t * t) + (c - a) * t - b = f0 -> b * (t * t) + ((c - x) - (a - x)) * t - b = f0.
Proof. intros <-. ring. Qed.
Lemma alike_refl (p : sym K) : alike p p.
Proof. repeat split. Qed.
Lemma alike_trans (p q r : sym K) : alike p q -> alike q r -> alike p r.
Proof. intros (A1 & A2 & A3) (B1 & B2 & B3). repeat split; try congruence. Qed.
Lemma clear02_ok p : exists p', clear02 hyp p = Ok p' /\ alike p p' /\ p02 p' = f0 /\ off p' = off p - p02 p * p02 p /\
  (p12 p = f0 -> fle (num 2 * (p12 p' * p12 p')) (p01 p * p01 p) = true).
Proof.
  unfold clear02. destruct (feqb (p02 p) f0) eqn:E.
  - exists p. apply feqb_true in E. repeat split; auto; [rewrite E; ring|]. intros ->. replace (num 2 * (f0 * f0)) with (f0 : K) by ring. apply fsqr_nonneg.
  - apply feqb_false in E. destruct p as [a e c u b w]. cbn [p00 p11 p22 p01 p02 p12] in *. destruct (turn_ok (c - a) b E) as (t & Et & R & T1). rewrite Et. cbn [bind].
    destruct (cos_ok t) as (k & N & Ek & _ & Kk). rewrite divc_ok by auto. rewrite Ek. cbn [bind]. eexists. split; [reflexivity|].
    destruct (rot a c b e u w t k R Kk) as (R1 & R2 & R3 & R4). cbv zeta in R1, R2, R3, R4. set (a' := a - t * b) in *. set (c' := c + t * b) in *. 
    replace (u * k - t * (w * k)) with (k * (u - t * w)) by ring. replace (w * k + t * (u * k)) with (k * (w + t * u)) by ring. unfold alike, off, trace6, norm2, off. cbn [p00 p11 p22 p01 p02 p12]. repeat split.
    + intros x. destruct (rot (a - x) (c - x) b e u w t k (shift _ _ _ _ _ R) Kk) as (Q1 & Q2 & _ & _). cbv zeta in Q1, Q2. unfold chi, det6. cbn [p00 p11 p22 p01 p02 p12]. set (u' := k * (u - t * w)) in *. set (w' := k * (w + t * u)) in *.
      replace (a - x - t * b) with (a' - x) in * by (unfold a'; ring). replace (c - x + t * b) with (c' - x) in * by (unfold c'; ring).
      transitivity (((a - x) * (c - x) - b * b) * (e - x) - ((a - x) * (w * w) + (c - x) * (u * u) - num 2 * b * u * w)); [cbn [num nump]; ring|]. rewrite <- Q1, <- Q2. ring.
    + unfold a', c'. ring.
    + transitivity ((a * a + c * c + num 2 * (b * b)) + e * e + num 2 * (u * u + w * w)); [ring|]. rewrite <- R4, <- R3. ring.
    + transitivity (k * (u - t * w) * (k * (u - t * w)) + k * (w + t * u) * (k * (w + t * u))); [ring|]. rewrite R3. ring.
    + intros ->. rewrite fle_sub. replace (u * u - num 2 * (k * (f0 + t * u) * (k * (f0 + t * u)))) with ((k * k) * ((u * u) * (f1 - t * t))).
      * apply mul_nonneg; [apply fsqr_nonneg|]. apply mul_nonneg; [apply fsqr_nonneg|]. now rewrite <- fle_sub.
      * transitivity (u * u * (k * k * (f1 + t * t)) - num 2 * (k * k * (t * t) * (u * u))); [cbn [num nump]; ring|]. rewrite Kk. ring.
Qed.
Lemma clear01_ok p : p02 p = f0 -> exists p', clear01 hyp p = Ok p' /\ alike p p' /\ p01 p' = f0 /\ off p' = off p - p01 p * p01 p.
Proof.
  intros Z. unfold clear01. destruct (feqb (p01 p) f0) eqn:E.
  - exists p. apply feqb_true in E. repeat split; auto. rewrite E; ring.
  - apply feqb_false in E. destruct p as [a c e b u w]. cbn [p00 p11 p22 p01 p02 p12] in *. subst u. destruct (turn_ok (c - a) b E) as (t & Et & R & T1). rewrite Et. cbn [bind].
    destruct (cos_ok t) as (k & N & _ & Ek & Kk). rewrite divc_ok by auto. rewrite Ek. cbn [bind]. eexists. split; [reflexivity|].
    destruct (rot a c b e f0 w t k R Kk) as (R1 & R2 & R3 & R4). cbv zeta in R1, R2, R3, R4. set (a' := a - t * b) in *. set (c' := c + t * b) in *.
    replace (- t * (w * k)) with (k * (f0 - t * w)) by ring. replace (w * k) with (k * (w + t * f0)) by ring. unfold alike, off, trace6, norm2, off. cbn [p00 p11 p22 p01 p02 p12]. repeat split.
    + intros x. destruct (rot (a - x) (c - x) b e f0 w t k (shift _ _ _ _ _ R) Kk) as (Q1 & Q2 & _ & _). cbv zeta in Q1, Q2. unfold chi, det6. cbn [p00 p11 p22 p01 p02 p12]. set (u' := k * (f0 - t * w)) in *. set (w' := k * (w + t * f0)) in *.
      replace (a - x - t * b) with (a' - x) in * by (unfold a'; ring). replace (c - x + t * b) with (c' - x) in * by (unfold c'; ring).
      transitivity (((a - x) * (c - x) - b * b) * (e - x) - ((a - x) * (w * w) + (c - x) * (f0 * f0) - num 2 * b * f0 * w)); [cbn [num nump]; ring|]. rewrite <- Q1, <- Q2. ring.
    + unfold a', c'. ring.
    + transitivity ((a * a + c * c + num 2 * (b * b)) + e * e + num 2 * (f0 * f0 + w * w)); [ring|]. rewrite <- R4, <- R3. ring.
    + transitivity (k * (f0 - t * w) * (k * (f0 - t * w)) + k * (w + t * f0) * (k * (w + t * f0))); [ring|]. rewrite R3. ring.
Qed.
Lemma clear12_ok p : p01 p = f0 -> exists p', clear12 hyp p = Ok p' /\ alike p p' /\ p12 p' = f0 /\ off p' = off p - p12 p * p12 p.
Proof.
  intros Z. unfold clear12. destruct (feqb (p12 p) f0) eqn:E.
  - exists p. apply feqb_true in E. repeat split; auto. rewrite E; ring.
  - apply feqb_false in E. destruct p as [e a c u w b]. cbn [p00 p11 p22 p01 p02 p12] in *. subst u. destruct (turn_ok (c - a) b E) as (t & Et & R & T1). rewrite Et. cbn [bind].
    destruct (cos_ok t) as (k & N & _ & Ek & Kk). rewrite divc_ok by auto. rewrite Ek. cbn [bind]. eexists. split; [reflexivity|].
    destruct (rot a c b e f0 w t k R Kk) as (R1 & R2 & R3 & R4). cbv zeta in R1, R2, R3, R4. set (a' := a - t * b) in *. set (c' := c + t * b) in *.
    replace (- t * (w * k)) with (k * (f0 - t * w)) by ring. replace (w * k) with (k * (w + t * f0)) by ring. unfold alike, off, trace6, norm2, off. cbn [p00 p11 p22 p01 p02 p12]. repeat split.
    + intros x. destruct (rot (a - x) (c - x) b e f0 w t k (shift _ _ _ _ _ R) Kk) as (Q1 & Q2 & _ & _). cbv zeta in Q1, Q2. unfold chi, det6. cbn [p00 p11 p22 p01 p02 p12]. set (u' := k * (f0 - t * w)) in *. set (w' := k * (w + t * f0)) in *.
      replace (a - x - t * b) with (a' - x) in * by (unfold a'; ring). replace (c - x + t * b) with (c' - x) in * by (unfold c'; ring).
      transitivity (((a - x) * (c - x) - b * b) * (e - x) - ((a - x) * (w * w) + (c - x) * (f0 * f0) - num 2 * b * f0 * w)); [cbn [num nump]; ring|]. rewrite <- Q1, <- Q2. ring.
    + unfold a', c'. ring.
    + transitivity ((a * a + c * c + num 2 * (b * b)) + e * e + num 2 * (f0 * f0 + w * w)); [ring|]. rewrite <- R4, <- R3. ring.
    + transitivity (k * (f0 - t * w) * (k * (f0 - t * w)) + k * (w + t * f0) * (k * (w + t * f0))); [ring|]. rewrite R3. ring.
Qed.
(* Every round keeps the principal values, and every round but the first halves what is off the diagonal. *)
Theorem C91_round : forall p, exists p1 p2 p3, clear02 hyp p = Ok p1 /\ clear01 hyp p1 = Ok p2 /\ clear12 hyp p2 = Ok p3 /\
  alike p p3 /\ p12 p3 = f0 /\ fle (off p3) (off p) = true /\ (p12 p = f0 -> fle (num 2 * off p3) (off p) = true).
Proof.
  intros p. destruct (clear02_ok p) as (p1 & E1 & A1 & Z1 & O1 & T1). destruct (clear01_ok p1 Z1) as (p2 & E2 & A2 & Z2 & O2). destruct (clear12_ok p2 Z2) as (p3 & E3 & A3 & Z3 & O3).
  exists p1, p2, p3. repeat split; auto; try (apply (alike_trans p p1 p3); [auto|now apply (alike_trans p1 p2 p3)]).
  - rewrite O3, O2, O1, fle_sub. replace (off p - (off p - p02 p * p02 p - p01 p1 * p01 p1 - p12 p2 * p12 p2)) with (p02 p * p02 p + (p01 p1 * p01 p1 + p12 p2 * p12 p2)) by ring. repeat apply nn_add; apply fsqr_nonneg.
  - intros Z. specialize (T1 Z). assert (X : off p2 = p12 p1 * p12 p1) by (rewrite O2; unfold off; rewrite Z1; ring).
    apply (fle_trans' _ (num 2 * off p2)); [|apply (fle_trans' _ (p01 p * p01 p))].
    + rewrite fle_sub. rewrite O3. replace (num 2 * off p2 - num 2 * (off p2 - p12 p2 * p12 p2)) with (num 2 * (p12 p2 * p12 p2)) by ring. apply mul_nonneg; [apply pos_nn; exact (pos_num 2)|apply fsqr_nonneg].
    + rewrite X. exact T1.
    + rewrite fle_sub. unfold off. rewrite Z. replace (p01 p * p01 p + p02 p * p02 p + f0 * f0 - p01 p * p01 p) with (p02 p * p02 p) by ring. apply fsqr_nonneg.
Qed.
Lemma not_less (x y : K) : fltb x y = false -> fle y x = true.
Proof. intros E. unfold fltb in E. now apply negb_false_iff in E. Qed.
Lemma rounds_small eps n p : p12 p = f0 -> fle (off p) (power (num 2) n * eps) = true ->
  exists q, rounds hyp eps n (p01 p * p01 p + p02 p * p02 p) p = Ok q /\ alike p q /\ fle (off q) eps = true.
Proof.
  revert p. induction n as [|n IH]; intros p Z O; assert (EO : p01 p * p01 p + p02 p * p02 p = off p) by (unfold off; rewrite Z; ring); rewrite EO; cbn [rounds]; destruct (fltb eps (off p)) eqn:E.
  - exfalso. apply fltb_spec in E as (E1 & E2). apply E2. cbn [power] in O. replace (f1 * eps) with eps in O by ring. now apply fle_anti'.
  - exists p. repeat split. now apply not_less.
  - destruct (C91_round p) as (p1 & p2 & p3 & E1 & E2 & E3 & A3 & Z3 & _ & T3). rewrite E1. cbn [bind]. rewrite E2. cbn [bind]. rewrite E3. cbn [bind].
    destruct (IH p3 Z3) as (q & Eq & Aq & Oq).
    + pose proof (fle_trans' _ _ _ (T3 Z) O) as X. cbn [power] in X. rewrite fle_sub in X |- *.
      replace (power (num 2) n * eps - off p3) with (half * (num 2 * power (num 2) n * eps - num 2 * off p3)) by (unfold half; fld). apply mul_nonneg; auto. apply pos_nn. unfold half. apply pos_div; [exact pos1|exact (pos_num 2)].
    + exists q. split; [exact Eq|]. split; [now apply (alike_trans p p3 q)|exact Oq].
  - exists p. repeat split. now apply not_less.
Qed.
Definition three_of (x y z : K) (p : sym K) : Prop := Permutation [x; y; z] [p00 p; p11 p; p22 p].
(* The loop ends, and the result is the diagonal, in order, of a tensor with the same principal values and next to nothing off the diagonal. *)
Theorem C91_principle : forall eps n s, fle (off s) (power (num 2) n * eps) = true -> 
  exists x y z q, principle hyp eps (S n) s = Ok (x, y, z) /\ fle x y = true /\ fle y z = true /\ three_of x y z q /\ alike s q /\ fle (off q) eps = true.
Proof.
  intros eps n s O. unfold principle. assert (E : exists q, rounds hyp eps (S n) (off s) s = Ok q /\ alike s q /\ fle (off q) eps = true).
  { cbn [rounds]. destruct (fltb eps (off s)) eqn:E; [|exists s; repeat split; now apply not_less].
    destruct (C91_round s) as (p1 & p2 & p3 & E1 & E2 & E3 & A3 & Z3 & O3 & _). rewrite E1. cbn [bind]. rewrite E2. cbn [bind]. rewrite E3. cbn [bind].
    destruct (rounds_small eps n p3 Z3) as (q & Eq & Aq & Oq); [now apply (fle_trans' _ (off s))|]. exists q. split; [exact Eq|]. split; [now apply (alike_trans s p3 q)|exact Oq]. }
  destruct E as (q & E & A & OQ). unfold off in E. rewrite E. clear E. cbn [bind].
  assert (TOT : forall x y : K, fltb x y = true -> fle x y = true) by (intros x y X; now apply fltb_spec in X).
  destruct q as [a b c u v w]. cbn [p00 p11 p22]. unfold sort2, three_of.
  repeat (match goal with |- context [if fltb ?x ?y then _ else _] => let E := fresh "E" in destruct (fltb x y) eqn:E end; cbv beta iota); try congruence; do 3 eexists; exists (Sym a b c u v w); (split; [reflexivity|]);
    repeat match goal with X : fltb _ _ = true |- _ => apply TOT in X | X : fltb _ _ = false |- _ => apply not_less in X end;
    (split; [eauto using fle_trans'|]); (split; [eauto using fle_trans'|]); (split; [cbn [p00 p11 p22]|split; [exact A|exact OQ]]).
  all: match goal with |- Permutation _ _ => idtac end.
  all: try apply Permutation_refl; try (apply perm_swap); try (apply perm_skip; apply perm_swap);
    try (eapply perm_trans; [apply perm_swap|apply perm_skip; apply perm_swap]); try (eapply perm_trans; [apply perm_skip; apply perm_swap|apply perm_swap]);
    try (eapply perm_trans; [apply perm_swap|]; eapply perm_trans; [apply perm_skip; apply perm_swap|apply perm_swap]).
Qed.

Lemma root_le (u r : K) : fle f0 r = true -> fle (u * u) (r * r) = true -> fle f0 (r - u) = true.
Proof.
  intros R U. destruct (fltb r u) eqn:E; [|apply not_less in E; now rewrite fle_sub in E].
  exfalso. apply fltb_spec in E as (E1 & E2). rewrite fle_sub in E1. rewrite fle_sub in U.
  assert (P : fle f0 ((u - r) * ((u - r) + (r + r))) = true) by (apply mul_nonneg; auto; repeat apply nn_add; auto).
  assert (S : (r * r - u * u) + (u - r) * ((u - r) + (r + r)) = f0) by ring.
  destruct (nn_zero _ _ U P S) as (_ & Z). assert (N : u - r <> f0) by (intros N; apply E2; replace u with (u - r + r) by ring; rewrite N; ring).
  revert Z. apply fmul_nz; auto. intros Z. destruct (nn_zero _ _ E1 (nn_add _ _ R R) Z) as (Z1 & _). now apply N.
Qed.
Lemma cube_le (r u s w : K) : fle f0 (r - u) = true -> fle f0 (r + u) = true -> fle f0 (r * (s * s + w * w) - num 2 * (u * s * w)) = true.
Proof.
  intros A B. replace (r * (s * s + w * w) - num 2 * (u * s * w)) with (half * ((r - u) * ((s + w) * (s + w)) + (r + u) * ((s - w) * (s - w)))) by (unfold half; fld).
  apply mul_nonneg; [apply pos_nn; unfold half; apply pos_div; [exact pos1|exact (pos_num 2)]|]. apply nn_add; apply mul_nonneg; auto; apply fsqr_nonneg.
Qed.
Definition within (M d : K) : Prop := fle f0 (M + d) = true /\ fle f0 (M - d) = true.
(* So the three add up to the trace and their squares to the norm but for twice eps, and the product of their distances from v is the characteristic polynomial at v but for (M + r) eps, where M is the largest of these distances and r a root of eps. *)
Theorem C91_bounds : forall eps n s x y z, fle (off s) (power (num 2) n * eps) = true -> principle hyp eps (S n) s = Ok (x, y, z) ->
  x + y + z = trace6 s /\ fle (x * x + y * y + z * z) (norm2 s) = true /\ fle (norm2 s) (x * x + y * y + z * z + num 2 * eps) = true /\
  (forall v M r, fle f0 r = true -> fle eps (r * r) = true -> (forall d, In d [x; y; z] -> within M (d - v)) -> within ((M + r) * eps) (chi s v - (x - v) * (y - v) * (z - v))).
Proof.
  intros eps n s x y z O E. destruct (C91_principle eps n s O) as (x' & y' & z' & q & E' & _ & _ & P & (A1 & A2 & A3) & OQ). rewrite E' in E. injection E as -> -> ->.
  assert (S : forall f : K -> K, f x + f y + f z = f (p00 q) + f (p11 q) + f (p22 q)).
  { intros f. unfold three_of in P. apply (Permutation_map f) in P. assert (X : forall l l' : list K, Permutation l l' -> fold_right fadd f0 l = fold_right fadd f0 l') by (induction 1; cbn [fold_right]; try congruence; ring).
    apply X in P. cbn [map fold_right] in P. transitivity (f x + (f y + (f z + f0))); [ring|]. rewrite P. ring. }
  assert (NQ : fle f0 (off q) = true) by (unfold off; repeat apply nn_add; apply fsqr_nonneg).
  assert (N2 : norm2 s = x * x + y * y + z * z + num 2 * off q) by (rewrite A3; unfold norm2; rewrite (S (fun v => v * v)); reflexivity).
  split; [rewrite A2; exact (S (fun v => v))|]. split; [|split].
  - rewrite N2. apply fle_add_r. apply mul_nonneg; auto. apply pos_nn. exact (pos_num 2).
  - rewrite N2, fle_sub. replace (x * x + y * y + z * z + num 2 * eps - (x * x + y * y + z * z + num 2 * off q)) with (num 2 * (eps - off q)) by ring. apply mul_nonneg; [apply pos_nn; exact (pos_num 2)|]. now rewrite <- fle_sub.
  - intros v M r Hr He HM. 
    assert (PR : (x - v) * (y - v) * (z - v) = (p00 q - v) * (p11 q - v) * (p22 q - v)).
    { unfold three_of in P. apply (Permutation_map (fun w => w - v)) in P. assert (X : forall l l' : list K, Permutation l l' -> fold_right fmul f1 l = fold_right fmul f1 l') by (induction 1; cbn [fold_right]; try congruence; ring).
      apply X in P. cbn [map fold_right] in P. transitivity ((x - v) * ((y - v) * ((z - v) * f1))); [ring|]. rewrite P. ring. }
    rewrite PR, A1. unfold chi, det6. cbn [p00 p11 p22 p01 p02 p12].
    assert (W : forall d, In d [p00 q; p11 q; p22 q] -> within M (d - v)) by (intros d I; apply HM; eapply Permutation_in; [apply Permutation_sym; exact P|exact I]).
    destruct (W (p00 q)) as (Wa & Wa'); [cbn; auto|]. destruct (W (p11 q)) as (Wb & Wb'); [cbn; auto|]. destruct (W (p22 q)) as (Wc & Wc'); [cbn; auto|]. clear W HM PR P S N2 A1 A2 A3.
    assert (M0 : fle f0 M = true).
    { replace M with (half * ((M + (p00 q - v)) + (M - (p00 q - v)))) by (unfold half; fld). apply mul_nonneg; [apply pos_nn; unfold half; apply pos_div; [exact pos1|exact (pos_num 2)]|now apply nn_add]. }
    assert (UU : fle (p01 q * p01 q) (r * r) = true).
    { apply (fle_trans' _ (off q)); [|now apply (fle_trans' _ eps)]. unfold off. replace (p01 q * p01 q + p02 q * p02 q + p12 q * p12 q) with (p01 q * p01 q + (p02 q * p02 q + p12 q * p12 q)) by ring. apply fle_add_r. apply nn_add; apply fsqr_nonneg. }
    pose proof (root_le _ _ Hr UU) as U1. assert (U2 : fle f0 (r + p01 q) = true).
    { replace (r + p01 q) with (r - (- p01 q)) by ring. apply root_le; auto. now replace (- p01 q * - p01 q) with (p01 q * p01 q) by ring. }
    pose proof (cube_le r (p01 q) (p02 q) (p12 q) U1 U2) as C1.
    assert (C2 : fle f0 (r * (p02 q * p02 q + p12 q * p12 q) - num 2 * (- p01 q * p02 q * p12 q)) = true).
    { apply cube_le; [now replace (r - - p01 q) with (r + p01 q) by ring|now replace (r + - p01 q) with (r - p01 q) by ring]. }
    assert (T : fle f0 ((M + r) * (eps - off q)) = true) by (apply mul_nonneg; [now apply nn_add|now rewrite <- fle_sub]).
    assert (T0 : fle f0 (r * (p01 q * p01 q)) = true) by (apply mul_nonneg; auto; apply fsqr_nonneg).
    pose proof (fun (t d : K) (Q : fle f0 t = true) => mul_nonneg t (d * d) Q (fsqr_nonneg d)) as MS.
    set (a := p00 q) in *. set (b := p11 q) in *. set (c := p22 q) in *. unfold off in T. set (u := p01 q) in *. set (t := p02 q) in *. set (w := p12 q) in *.
    split.
    + match goal with |- fle f0 ?e = true => replace e with ((M + r) * (eps - (u * u + t * t + w * w)) + ((M - (a - v)) * (w * w) + (M - (b - v)) * (t * t) + (M - (c - v)) * (u * u)) + r * (u * u) + (r * (t * t + w * w) - num 2 * (- u * t * w))) by (cbn [num nump]; ring) end.
      repeat apply nn_add; auto.
    + match goal with |- fle f0 ?e = true => replace e with ((M + r) * (eps - (u * u + t * t + w * w)) + ((M + (a - v)) * (w * w) + (M + (b - v)) * (t * t) + (M + (c - v)) * (u * u)) + r * (u * u) + (r * (t * t + w * w) - num 2 * (u * t * w))) by (cbn [num nump]; ring) end.
      repeat apply nn_add; auto.
Qed.
End Hyp.
End Proofs.

Definition rhyp (x y : R) : R := sqrt (x * x + y * y).
Example C91_hypotheses : is_hypot (K := RF) rhyp /\ fle (off (K := RF) (Sym f0 f1 f0 f1 f1 f0)) (fmul (power (num 2) 1) f1) = true.
Proof.
  split.
  - intros x y. assert (P : (0 <= x * x + y * y)%R) by (apply Rplus_le_le_0_compat; apply Rle_0_sqr). split; [apply Rleb_iff; apply sqrt_pos|]. exact (sqrt_sqrt _ P).
  - apply Rleb_iff. unfold off. cbn. lra.
Qed.
(* a tensor whose turn has rational entries *)
Definition qhyp (x y : QcF) : QcF := if feqb (fadd (fmul x x) (fmul y y)) (qz 25) then qz 5 else if feqb (fadd (fmul x x) (fmul y y)) (fdiv (qz 5) (qz 4)) then f1 else f0.
Example C91_demo : match clear02 qhyp (Sym f0 (qz 7) (qz 3) f0 (qz 2) f0) with Ok p => feqb (p00 p) (qz (-1)) && feqb (p22 p) (qz 4) && feqb (p11 p) (qz 7) && feqb (p02 p) f0 | _ => false end = true.
Proof. vm_compute. reflexivity. Qed.
Print Assumptions C91_round.
Print Assumptions C91_principle.
Print Assumptions C91_bounds.
Print Assumptions C91_hypotheses.
