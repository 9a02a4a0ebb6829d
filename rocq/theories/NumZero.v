(* Proofs about the root finder. *)
From Coq Require Import List ZArith Bool QArith Qabs Lia Lqa.
From Verif Require Import Base NumModel NumProofs.
Import ListNotations.
Local Open Scope Q_scope.

Section Z.
Variable f : Q -> Q.
Variable eps : Q -> Q.
Hypothesis eps_nonneg : forall x, 0 <= eps x.
Variable sqrtq : Q -> Q.

Definition within (ll lr : option Q) (x : Q) : Prop :=
  match ll with Some l => l <= x | None => True end /\ match lr with Some l => x <= l | None => True end.
Lemma within_between ll lr x c t : within ll lr x -> within ll lr c -> (x <= t <= c \/ c <= t <= x) -> within ll lr t.
Proof. unfold within. destruct ll, lr; simpl; lra. Qed.

Lemma pos_iff x : pos x = true <-> 0 < x.
Proof. apply qlt_iff. Qed.
Lemma pos_false x : pos x = false <-> x <= 0.
Proof. apply qlt_false. Qed.
Lemma abs_zero x : Qabs x <= 0 -> x == 0.
Proof. intros H. apply Qabs_Qle_condition in H. lra. Qed.
Lemma zero_abs x : x == 0 -> Qabs x == 0.
Proof. intros E. rewrite E. reflexivity. Qed.

(* (x,X), (y,Y) and (z,Z) after the search for a bracket *)
Definition bracketed (ll lr : option Q) (k : nat) (r : Q * Q * Q * Q * Q * Q * nat) : Prop :=
  let '(x, X, y, Y, z, Z, k') := r in
  X = f x /\ Y = f y /\ within ll lr x /\ within ll lr y /\ xorb (pos X) (pos Y) = true /\
  (~ X == 0 -> ~ Y == 0 /\ ~ Z == 0) /\ (k' <= k)%nat.

Lemma bracket_spec ll lr : forall k x X y Y z Z,
  X = f x -> Y = f y -> within ll lr x -> within ll lr y -> (Z == 0 -> X == 0 \/ Y == 0) ->
  spec (within ll lr) k (bracket f eps k ll lr x X y Y z Z) (bracketed ll lr k).
Proof.
  induction k as [|k IH]; intros x0 X0 y0 Y0 z Z EX0 EY0 Wx0 Wy0 HZ0; cbn [bracket].
  all: set (sw := if qlt (Qabs Y0) (Qabs X0) then (y0, Y0, x0, X0) else (x0, X0, y0, Y0)).
  all: assert (SW : exists x X y Y, sw = (x, X, y, Y) /\ X = f x /\ Y = f y /\ within ll lr x /\ within ll lr y /\
     Qabs X <= Qabs Y /\ (Z == 0 -> X == 0)).
  1,3: unfold sw; destruct (qlt_spec (Qabs Y0) (Qabs X0)) as [L|L];
     [exists y0, Y0, x0, X0|exists x0, X0, y0, Y0]; repeat split; auto; try (apply Wx0); try (apply Wy0); try lra;
     intros Z0; destruct (HZ0 Z0) as [Q0|Q0]; auto; apply abs_zero; pose proof (zero_abs _ Q0); lra.
  all: destruct SW as (x & X & y & Y & -> & EX & EY & Wx & Wy & AB & HZ); clear EX0 EY0 Wx0 Wy0 HZ0; cbn beta iota.
  all: assert (Out : forall k', xorb (pos Y) (pos X) = true -> (k' <= k')%nat -> bracketed ll lr k' (x, X, y, Y, z, Z, k')).
  1,3: intros k' XO _; unfold bracketed; refine (conj EX (conj EY (conj Wx (conj Wy (conj _ (conj _ (le_n _)))))));
    [rewrite xorb_comm; exact XO | intros N0; split; intros Z0; apply N0; auto; apply abs_zero; rewrite Z0 in AB; exact AB].
  - destruct (xorb (pos Y) (pos X)) eqn:XO; [|apply spec_fail]. apply spec_ret. apply Out; auto.
  - destruct (xorb (pos Y) (pos X)) eqn:XO. { apply spec_ret. apply Out; auto. }
    set (e1 := if below (x + 2 * (x - y)) ll then _ else _).
    set (e := if above (x + 2 * e1) lr then _ else _). clearbody e. clear e1.
    assert (D : exists d, (if qeq Y X then Ok ((105 # 100) * e)
       else let* d := divq (- X * e) (X - Y) in Ok ((105 # 100) * d)) = Ok d).
    { destruct (qeq_spec Y X) as [E|E]; [eauto|]. rewrite divq_ok; [cbn [bind]; eauto|]. intros E0. apply E. lra. }
    destruct D as (d & ->). eapply spec_lift_bind; [reflexivity|].
    set (x' := if qlt (eps e) (Qabs d) && qlt (Qabs d) (8 * Qabs e) && inside (x + d) ll lr then _ else _).
    clearbody x'. destruct (below x' ll) eqn:Be; [apply spec_fail|]. cbn [orb].
    destruct (above x' lr) eqn:Ab; [apply spec_fail|].
    assert (W' : within ll lr x').
    { unfold within, below, above in *. destruct ll, lr; try apply qlt_false in Be; try apply qlt_false in Ab; auto. }
    apply spec_eval; [exact W'|]. eapply spec_mono; [apply IH; auto|auto|auto|].
    + intros Ye. right. apply abs_zero. rewrite Ye in AB. exact AB.
    + intros [[[[[[a1 a2] a3] a4] a5] a6] k']. unfold bracketed. intuition.
Qed.

Lemma bind_some {A B} (m : outcome A) (g : A -> outcome B) :
  (exists a, m = Ok a) -> (forall a, exists b, g a = Ok b) -> exists b, bind m g = Ok b.
Proof. intros (a & ->) H. apply H. Qed.
Lemma divq_some x y : ~ y == 0 -> exists q, divq x y = Ok q.
Proof. intros. rewrite divq_ok by auto. eauto. Qed.

Lemma fit_ok x X y Y z Z C m e w : ~ Y == 0 -> ~ Z == 0 -> ~ C == 0 -> 0 < w ->
  exists r, fit sqrtq x X y Y z Z C m e w = Ok r.
Proof.
  intros NY NZ NC W. unfold fit.
  destruct (qeq_spec y z) as [E1|E1]; cbn [negb andb].
  2: destruct (qeq_spec y x) as [E2|E2]; cbn [negb andb].
  3: destruct (qeq_spec x z) as [E3|E3]; cbn [negb andb].
  1,2,3: apply bind_some; [now apply divq_some|]; intros s;
      destruct (_ || _); [|eauto]; apply bind_some; [|eauto]; apply divq_some; nra.
  match goal with |- context [let '(p, q) := ?b in _] => destruct b as [p q] end.
  match goal with |- context [let '(p, q) := ?b in _] => destruct b as [p' q'] end.
  apply bind_some.
  - destruct (_ && _); [|eauto].
    apply bind_some; [apply divq_some; lra|]. intros p1.
    apply bind_some; [apply divq_some; lra|]. intros q1.
    apply bind_some; [apply divq_some; lra|]. intros r1.
    destruct (qle 0 _); eauto.
  - intros [p2 q2]. destruct (qeq p2 0); [|eauto].
    apply bind_some; [now apply divq_some|]. intros s1.
    apply bind_some; [now apply divq_some|]. intros q1.
    apply bind_some; [now apply divq_some|]. intros r1. eauto.
Qed.

(* the step that is taken stays inside the bracket *)
Lemma step_inside p q m tol : 0 < p -> ~ q == 0 -> 2 * p < (3 # 2) * m * q - Qabs (tol * q) ->
  (0 < p / q /\ p / q < m) \/ (m < p / q /\ p / q < 0).
Proof.
  intros P N H. pose proof (Qabs_nonneg (tol * q)) as A.
  assert (H' : 2 * p < (3 # 2) * (m * q)) by lra.
  destruct (Qlt_le_dec 0 q) as [Q0|Q0].
  - left. assert (0 < m) by nra. split.
    + apply Qlt_shift_div_l; lra.
    + apply Qlt_shift_div_r; [lra|]. nra.
  - right. assert (Q1 : q < 0) by (apply Qle_lteq in Q0; destruct Q0; auto; contradiction).
    assert (m < 0) by nra.
    assert (E : p / q == - (p / - q)) by (field; lra).
    assert (0 < p / - q) by (apply Qlt_shift_div_l; lra).
    assert (p / - q < - m) by (apply Qlt_shift_div_r; [lra|nra]).
    lra.
Qed.

Definition root (ll lr : option Q) (r : Q) : Prop :=
  within ll lr r /\
  (f r == 0 \/ exists c, within ll lr c /\ xorb (pos (f r)) (pos (f c)) = true /\ Qabs (r - c) <= 2 * tolerance eps r).

Lemma tol_nonneg x : 0 <= tolerance eps x.
Proof. unfold tolerance. pose proof (eps_nonneg (qmax (Qabs x) (1 # 1000000))). lra. Qed.
Lemma sign_same a b : eqb (pos a) (pos b) = negb (xorb (pos a) (pos b)).
Proof. destruct (pos a), (pos b); reflexivity. Qed.

Lemma refine_spec ll lr : forall k x X y Y z Z c C e d fp,
  X = f x -> Y = f y -> C = f c -> within ll lr x -> within ll lr c -> xorb (pos X) (pos C) = true ->
  (~ X == 0 -> ~ Y == 0 /\ ~ Z == 0 /\ ~ C == 0) -> (d == 0 -> x == c) ->
  spec (within ll lr) (2 * k) (refine f eps sqrtq k x X y Y z Z c C e d fp) (root ll lr).
Proof.
  induction k as [|k IH]; intros x X y Y z Z c C e d fp EX EY EC Wx Wc Sg NZ D0; cbn [refine].
  all: destruct (qeq_spec X 0) as [X0|X0]; cbn [negb andb];
    [apply spec_ret; split; [exact Wx|left; rewrite <- EX; exact X0]|].
  all: destruct (qeq_spec d 0) as [d0|d0]; cbn [negb];
    [apply spec_ret; split; [exact Wx|right; exists c; split; [exact Wc|]; split; [congruence|]];
     pose proof (tol_nonneg x); specialize (D0 d0);
     assert (E0 : x - c == 0) by lra; rewrite E0; cbn; lra |].
  all: destruct (NZ X0) as (NY & NZ' & NC); clear NZ.
  all: assert (Wt : exists w, (if fp then let* s := divq X Y in Ok (if qle (1 - s) (1 # 10) then half else 1 - s) else Ok 1) = Ok w /\ 0 < w).
  1,3: destruct fp; [rewrite divq_ok by exact NY; cbn [bind]; eexists; split; [reflexivity|];
       destruct (qle_spec (1 - X / Y) (1 # 10)); unfold half; lra | exists 1; split; [reflexivity|lra]].
  all: destruct Wt as (w & -> & W0); eapply spec_lift_bind; [reflexivity|].
  - apply spec_fail.
  - set (m := c - x). set (tol := tolerance eps x).
    pose proof (tol_nonneg x) as T0. fold tol in T0.
    destruct (qle_spec (Qabs m) (2 * tol)) as [Le|Gt].
    { apply spec_ret. split; [exact Wx|]. right. exists c. split; [exact Wc|]. split; [congruence|].
      assert (E0 : Qabs (x - c) == Qabs m) by (rewrite Qabs_Qminus; reflexivity). rewrite E0. exact Le. }
    assert (m0 : ~ m == 0).
    { intros E0. apply Gt. rewrite E0. cbn. lra. }
    destruct (fit_ok x X y Y z Z C m e w NY NZ' NC W0) as ([[p0 q0] fp1] & ->).
    eapply spec_lift_bind; [reflexivity|]. cbn beta iota.
    set (sw := if qlt 0 p0 then (p0, - q0) else (- p0, q0)).
    assert (SW : exists p q, sw = (p, q) /\ 0 <= p).
    { unfold sw. destruct (qlt_spec 0 p0); do 2 eexists; (split; [reflexivity|lra]). }
    destruct SW as (p & q & -> & P0). cbn beta iota.
    set (st := if negb (qeq p 0) && _ && _ && _ then _ else _).
    assert (ST : exists e1 d1 fp2, st = Ok (e1, d1, fp2) /\ ((0 < d1 /\ d1 < m) \/ (m < d1 /\ d1 < 0))).
    { unfold st.
      assert (Bi : (0 < half * m /\ half * m < m) \/ (m < half * m /\ half * m < 0)) by (unfold half; lra).
      destruct (qeq_spec p 0) as [p1|p1]; cbn [negb andb]; [do 3 eexists; split; [reflexivity|exact Bi]|].
      destruct (qeq_spec q 0) as [q1|q1]; cbn [negb andb]; [do 3 eexists; split; [reflexivity|exact Bi]|].
      destruct (qlt_spec (2 * p) ((3 # 2) * m * q - Qabs (tol * q))) as [L1|L1]; cbn [andb];
        [|do 3 eexists; split; [reflexivity|exact Bi]].
      destruct (qlt_spec (2 * p) (Qabs (e * q))); [|do 3 eexists; split; [reflexivity|exact Bi]].
      rewrite divq_ok by exact q1. cbn [bind]. do 3 eexists. split; [reflexivity|].
      apply (step_inside p q m tol); auto. lra. }
    destruct ST as (e1 & d1 & fp2 & -> & In1). eapply spec_lift_bind; [reflexivity|]. cbn beta iota.
    assert (Wm : forall t, ((0 < t /\ t < m) \/ (m < t /\ t < 0)) -> within ll lr (x + t)).
    { intros t Ht. apply (within_between ll lr x c); auto. unfold m in Ht. lra. }
    replace (2 * S k)%nat with (S (1 + 2 * k)) by lia.
    apply spec_eval; [auto|].
    assert (d1n : ~ d1 == 0) by lra.
    apply spec_bind with (R := fun r => let '(x2, X2, e2, d2, fp3) := r in X2 = f x2 /\ within ll lr x2 /\ ~ d2 == 0).
    { destruct (qlt (Qabs d1) tol && qlt (eps C) (Qabs (f (x + d1)))).
      - assert (Wh : within ll lr (x + half * m)) by (apply Wm; unfold half; lra).
        apply spec_eval; [exact Wh|]. apply spec_ret. split; [reflexivity|]. split; [exact Wh|]. unfold half. lra.
      - apply spec_ret. split; [reflexivity|]. split; [auto|exact d1n]. }
    intros [[[[x2 X2] e2] d2] fp3] (EX2 & W2 & d2n).
    rewrite sign_same. destruct (xorb (pos X2) (pos C)) eqn:S2; cbn [negb].
    + cbn beta iota. rewrite sign_same, S2. cbn [negb].
      apply IH; auto. intros Q0. contradiction.
    + destruct (qlt_spec (Qabs X) (Qabs X2)) as [L|L]; cbn beta iota.
      * assert (Sg' : xorb (pos X) (pos X2) = true).
        { destruct (pos X), (pos X2), (pos C); simpl in *; congruence. }
        rewrite sign_same, Sg'. cbn [negb].
        assert (X2n : ~ X2 == 0).
        { intros E0. rewrite E0 in L. cbn in L. pose proof (Qabs_nonneg X). lra. }
        apply IH; auto. intros Q0. lra.
      * assert (Sg' : xorb (pos X2) (pos X) = true).
        { destruct (pos X), (pos X2), (pos C); simpl in *; congruence. }
        rewrite sign_same, Sg'. cbn [negb].
        apply IH; auto. intros Q0. lra.
Qed.

Lemma fzero_core_spec ll lr x y : within ll lr x -> within ll lr y ->
  spec (within ll lr) 212 (fzero_core f eps sqrtq x y ll lr) (root ll lr).
Proof.
  intros Wx Wy. unfold fzero_core. change 212%nat with (S (S (10 + 200))).
  apply spec_eval; [exact Wx|]. apply spec_eval; [exact Wy|].
  eapply spec_bind; [apply bracket_spec; auto|].
  intros [[[[[[x1 X1] y1] Y1] z1] Z1] k] (EX & EY & W1 & W2 & Sg & NZ & L).
  eapply spec_mono; [apply (refine_spec ll lr); auto|auto|lia|auto].
  - intros N. destruct (NZ N). auto.
  - intros E. lra.
Qed.
End Z.
