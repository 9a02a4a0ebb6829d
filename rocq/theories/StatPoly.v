(* Polynomials with given coefficients. *)
From Coq Require Import Reals ZArith List Bool Lra Lia.
From Verif Require Import Base Dbl StatModel.
Import ListNotations.
Local Open Scope R_scope.

(* lowest coefficient first *)
Fixpoint pol (l : list R) (y : R) : R := match l with [] => 0 | c :: l => c + y * pol l y end.
Lemma horner_snoc l : forall c (y : R), fold_left (fun r c => (r * Fin y + Fin c)%dbl) l (Fin c) = Fin (fold_left (fun r c => r * y + c) l c).
Proof. induction l as [|x l IH]; intros c y; auto. cbn [fold_left dmul dadd]. apply IH. Qed.
Lemma fold_pol y l : forall c, fold_left (fun r c => r * y + c) l c = pol (rev (c :: l)) y.
Proof.
  induction l as [|x l IH] using rev_ind; intros c.
  - cbn. ring.
  - rewrite fold_left_app. cbn [fold_left]. rewrite IH. rewrite app_comm_cons, rev_app_distr. cbn [rev app pol]. ring.
Qed.
Lemma horner_fin l y : horner l (Fin y) = Fin (pol (rev l) y).
Proof. destruct l as [|c l]; [reflexivity|]. unfold horner. now rewrite horner_snoc, fold_pol. Qed.

Definition pos (l : list R) : Prop := Forall (fun c => 0 < c) l.
Lemma pol_nonneg l y : pos l -> 0 <= y -> 0 <= pol l y.
Proof. intros P Y. induction P as [|c l H P IH]; cbn; [lra|]. pose proof (Rmult_le_pos _ _ Y IH). lra. Qed.
Lemma pol_pos c l y : pos (c :: l) -> 0 <= y -> c <= pol (c :: l) y.
Proof. intros P Y. inversion P; subst. cbn. pose proof (Rmult_le_pos _ _ Y (pol_nonneg l y H2 Y)). lra. Qed.
(* coefficients below a multiple of others *)
Lemma pol_le k (l m : list R) y : Forall2 (fun a b => a <= k * b) l m -> 0 <= y -> pol l y <= k * pol m y.
Proof.
  intros F Y. induction F as [|a b l m H F IH]; cbn; [lra|].
  pose proof (Rmult_le_compat_l y _ _ Y IH). lra.
Qed.
(* increasing *)
Lemma pol_incr l x y : pos l -> 0 <= x <= y -> pol l x <= pol l y.
Proof.
  intros P Y. induction P as [|c l H P IH]; cbn; [lra|].
  assert (0 <= pol l x) by (apply pol_nonneg; auto; lra).
  assert (x * pol l x <= y * pol l y) by (apply Rmult_le_compat; lra). lra.
Qed.
(* a quotient whose coefficients have falling quotients falls *)
Fixpoint falling (l m : list R) : Prop :=
  match l, m with
  | c :: l, d :: m => Forall2 (fun a b => a * d <= c * b) l m /\ falling l m
  | [], [] => True
  | _, _ => False
  end.
Lemma grow (c d x y : R) (l m : list R) : Forall2 (fun a b => a * d <= c * b) l m -> 0 <= x <= y ->
  d * (pol l y - pol l x) <= c * (pol m y - pol m x) /\ d * pol l x <= c * pol m x.
Proof.
  intros F Y. induction F as [|a b l m H F IH]; cbn; [lra|]. destruct IH as [I1 I2].
  assert (J : d * pol l y <= c * pol m y) by lra. split.
  - replace (d * (a + y * pol l y - (a + x * pol l x))) with (x * (d * (pol l y - pol l x)) + (y - x) * (d * pol l y)) by ring.
    replace (c * (b + y * pol m y - (b + x * pol m x))) with (x * (c * (pol m y - pol m x)) + (y - x) * (c * pol m y)) by ring.
    apply Rplus_le_compat; apply Rmult_le_compat_l; lra.
  - assert (K : x * (d * pol l x) <= x * (c * pol m x)) by (apply Rmult_le_compat_l; lra). lra.
Qed.
Lemma pol_falling l : forall m x y, falling l m -> 0 <= x <= y -> pol l y * pol m x <= pol l x * pol m y.
Proof.
  induction l as [|c l IH]; intros [|d m] x y F Y; try contradiction; cbn; [lra|].
  destruct F as [F1 F2]. specialize (IH m x y F2 Y). destruct (grow c d x y l m F1 Y) as [G1 G2].
  assert (J : d * pol l y <= c * pol m y) by lra.
  assert (A : x * y * (pol l y * pol m x) <= x * y * (pol l x * pol m y)).
  { apply Rmult_le_compat_l; auto. apply Rmult_le_pos; lra. }
  assert (B : x * (d * (pol l y - pol l x)) <= x * (c * (pol m y - pol m x))) by (apply Rmult_le_compat_l; lra).
  assert (C : (y - x) * (d * pol l y) <= (y - x) * (c * pol m y)) by (apply Rmult_le_compat_l; lra).
  nra.
Qed.
(* and the quotient of sums of powers, strictly with another falling factor *)
Lemma quotient_falls l m x y : falling l m -> pos m -> m <> [] -> 0 <= x <= y -> pol l y / pol m y <= pol l x / pol m x.
Proof.
  intros F P N Y. destruct m as [|d m]; [contradiction|].
  assert (Px : 0 < pol (d :: m) x) by (pose proof (pol_pos d m x P); inversion P; subst; lra).
  assert (Py : 0 < pol (d :: m) y) by (pose proof (pol_pos d m y P); inversion P; subst; lra).
  apply (Rmult_le_reg_r (pol (d :: m) x * pol (d :: m) y)); [now apply Rmult_lt_0_compat|].
  replace (pol l y / pol (d :: m) y * (pol (d :: m) x * pol (d :: m) y)) with (pol l y * pol (d :: m) x) by (field; lra).
  replace (pol l x / pol (d :: m) x * (pol (d :: m) x * pol (d :: m) y)) with (pol l x * pol (d :: m) y) by (field; lra).
  now apply pol_falling.
Qed.
