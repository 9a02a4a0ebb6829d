(* C57, C58 and C61. *)
From Coq Require Import ZArith QArith Qround Qabs List Bool Lia Lqa SpecFloat.
From Verif Require Import Base MathModel.
Local Open Scope Z_scope.

(* ---- helpers ---- *)
Lemma i32_ok : forall x, INT_MIN <= x <= INT_MAX -> i32 x = Ok x.
Proof.
  intros x [H1 H2]. unfold i32, int_ok.
  apply Z.leb_le in H1. apply Z.leb_le in H2. now rewrite H1, H2.
Qed.
Lemma i32_bad : forall x, ~ (INT_MIN <= x <= INT_MAX) -> i32 x = UB SignedOverflow.
Proof.
  intros x H. unfold i32, int_ok.
  destruct (INT_MIN <=? x) eqn:E1; auto. destruct (x <=? INT_MAX) eqn:E2; auto.
  apply Z.leb_le in E1. apply Z.leb_le in E2. exfalso; auto.
Qed.
Lemma i32_inv : forall x y, i32 x = Ok y -> y = x /\ INT_MIN <= x <= INT_MAX.
Proof.
  intros x y H. unfold i32, int_ok in H.
  destruct (INT_MIN <=? x) eqn:E1; destruct (x <=? INT_MAX) eqn:E2; inversion H; subst.
  apply Z.leb_le in E1. apply Z.leb_le in E2. auto.
Qed.
Lemma bounds : INT_MIN = -2147483648 /\ INT_MAX = 2147483647.
Proof. now split. Qed.

(* ================= C57 ================= *)
(* Pascal's triangle *)
Fixpoint binom (n k : nat) : Z :=
  match k, n with
  | O, _ => 1
  | S _, O => 0
  | S k', S n' => binom n' k' + binom n' k
  end.

Lemma binom_nonneg : forall n k, 0 <= binom n k.
Proof. induction n; destruct k; cbn [binom]; try lia. pose proof (IHn k). pose proof (IHn (S k)). lia. Qed.
Lemma binom_big : forall n k, (n < k)%nat -> binom n k = 0.
Proof. induction n; destruct k; cbn [binom]; intros; try lia. rewrite !IHn; lia. Qed.
Lemma binom_pos : forall n k, (k <= n)%nat -> 1 <= binom n k.
Proof.
  induction n; destruct k; cbn [binom]; intros; try lia.
  pose proof (IHn k ltac:(lia)). pose proof (binom_nonneg n (S k)). lia.
Qed.
Lemma binom_1 : forall n, binom n 1 = Z.of_nat n.
Proof. induction n; [easy|]. cbn [binom]. rewrite IHn. destruct n; cbn [binom]; lia. Qed.
Lemma binom_diag : forall n, binom n n = 1.
Proof. induction n; cbn [binom]; auto. rewrite IHn, binom_big by lia. lia. Qed.
(* k C(n,k) = n C(n-1,k-1) *)
Lemma binom_absorb : forall n k,
  Z.of_nat (S k) * binom (S n) (S k) = Z.of_nat (S n) * binom n k.
Proof.
  induction n; intros k.
  - destruct k; cbn [binom]; [lia|]. destruct k; cbn [binom]; lia.
  - destruct k.
    + rewrite binom_1. cbn [binom]. lia.
    + change (binom (S (S n)) (S (S k))) with (binom (S n) (S k) + binom (S n) (S (S k))).
      pose proof (IHn k) as H1. pose proof (IHn (S k)) as H2.
      assert (H3 : binom (S n) (S k) = binom n k + binom n (S k)) by reflexivity.
      set (a := binom (S n) (S k)) in *. set (b := binom (S n) (S (S k))) in *.
      set (c := binom n k) in *. set (d := binom n (S k)) in *.
      clearbody a b c d. clear IHn.
      replace (Z.of_nat (S (S n))) with (Z.of_nat n + 2) by lia.
      replace (Z.of_nat (S n)) with (Z.of_nat n + 1) in * by lia.
      replace (Z.of_nat (S (S k))) with (Z.of_nat k + 2) in * by lia.
      replace (Z.of_nat (S k)) with (Z.of_nat k + 1) in * by lia.
      subst a. nia.
Qed.
(* the column of i C(m+i,i) grows *)
Lemma step_mono : forall m i i', (1 <= i <= i')%nat ->
  Z.of_nat i * binom (m + i) i <= Z.of_nat i' * binom (m + i') i'.
Proof.
  intros m i i' [H1 H2]. induction H2; [lia|].
  eapply Z.le_trans; [apply IHle|]. 
  replace (m + S m0)%nat with (S (m + m0)) by lia. rewrite binom_absorb.
  pose proof (binom_nonneg (m+m0) m0). nia.
Qed.

(* after round i-1 the accumulator is C(n-k+i,i) *)
Lemma choose_loop_ok : forall r m i,
  (1 <= i)%nat ->
  Z.of_nat (m + (i + r)) <= INT_MAX ->
  (r = 0%nat \/ Z.of_nat (i + r) * binom (m + (i + r)) (i + r) <= INT_MAX) ->
  choose_loop r (Z.of_nat (S i)) (Z.of_nat (m + i)) (binom (m + i) i)
  = Ok (binom (m + (i + r)) (i + r)).
Proof.
  induction r; intros m i Hi Hn Hf.
  - cbn [choose_loop]. now rewrite Nat.add_0_r.
  - cbn [choose_loop]. destruct bounds as [B1 B2].
    rewrite i32_ok by lia. cbn [bind].
    assert (E : binom (m+i) i * (Z.of_nat (m+i) + 1) = Z.of_nat (S i) * binom (m + S i) (S i)).
    { replace (m + S i)%nat with (S (m + i)) by lia. rewrite binom_absorb. lia. }
    rewrite E.
    destruct Hf as [Hf|Hf]; [lia|].
    assert (M := step_mono m (S i) (i + S r) ltac:(lia)).
    pose proof (binom_nonneg (m + S i) (S i)).
    rewrite i32_ok by nia. cbn [bind].
    rewrite Z.mul_comm, Z.quot_mul by lia.
    replace (Z.of_nat (S i) + 1) with (Z.of_nat (S (S i))) by lia.
    replace (Z.of_nat (m + i) + 1) with (Z.of_nat (m + S i)) by lia.
    rewrite IHr.
    + now replace (S i + r)%nat with (i + S r)%nat by lia.
    + lia.
    + replace (S i + r)%nat with (i + S r)%nat by lia. lia.
    + right. now replace (S i + r)%nat with (i + S r)%nat by lia.
Qed.
Lemma choose_loop_bad : forall r m i,
  (1 <= i)%nat -> (0 < r)%nat ->
  Z.of_nat (m + (i + r)) <= INT_MAX ->
  INT_MAX < Z.of_nat (i + r) * binom (m + (i + r)) (i + r) ->
  choose_loop r (Z.of_nat (S i)) (Z.of_nat (m + i)) (binom (m + i) i) = UB SignedOverflow.
Proof.
  induction r; intros m i Hi Hr Hn Hf; [lia|].
  cbn [choose_loop]. destruct bounds as [B1 B2].
  rewrite i32_ok by lia. cbn [bind].
  assert (E : binom (m+i) i * (Z.of_nat (m+i) + 1) = Z.of_nat (S i) * binom (m + S i) (S i)).
  { replace (m + S i)%nat with (S (m + i)) by lia. rewrite binom_absorb. lia. }
  rewrite E.
  destruct (Z_le_gt_dec (Z.of_nat (S i) * binom (m + S i) (S i)) INT_MAX) as [L|L].
  - pose proof (binom_nonneg (m + S i) (S i)).
    rewrite i32_ok by nia. cbn [bind].
    rewrite Z.mul_comm, Z.quot_mul by lia.
    destruct r.
    { replace (i + 1)%nat with (S i) in Hf by lia. lia. }
    replace (Z.of_nat (S i) + 1) with (Z.of_nat (S (S i))) by lia.
    replace (Z.of_nat (m + i) + 1) with (Z.of_nat (m + S i)) by lia.
    apply IHr.
    + lia.
    + lia.
    + replace (S i + S r)%nat with (i + S (S r))%nat by lia. lia.
    + replace (S i + S r)%nat with (i + S (S r))%nat by lia. lia.
  - rewrite i32_bad by lia. reflexivity.
Qed.

(* What the code needs of its arguments: n-k, n-k+1 and the last product fit. *)
Definition fits_choose (n k : Z) : Prop :=
  INT_MIN <= n - k /\ n - k + 1 <= INT_MAX /\
  (0 <= k <= n -> k = n \/ k < 2 \/ k * binom (Z.to_nat n) (Z.to_nat k) <= INT_MAX).

Theorem C57_choose_partial : forall n k, INT_MIN <= n <= INT_MAX -> INT_MIN <= k <= INT_MAX ->
  fits_choose n k ->
  (0 <= k <= n -> choose n k = Ok (binom (Z.to_nat n) (Z.to_nat k))) /\
  (~ (0 <= k <= n) -> choose n k = Ok 0).
Proof.
  intros n k Hn Hk (F1 & F2 & F3). destruct bounds as [B1 B2].
  unfold choose.
  split; intros R.
  - rewrite i32_ok by lia. cbn [bind]. rewrite i32_ok by lia. cbn [bind].
    destruct (Z.ltb_spec k 0); [lia|]. destruct (Z.ltb_spec n k); [lia|]. cbn [orb].
    destruct (Z.eqb_spec k 0).
    { subst. cbn [orb]. now destruct (Z.to_nat n). }
    destruct (Z.eqb_spec k n).
    { subst. cbn [orb]. now rewrite binom_diag. }
    cbn [orb].
    set (m := Z.to_nat (n - k)).
    set (r := Z.to_nat (k - 1)).
    pose proof (choose_loop_ok r m 1 ltac:(lia)) as L.
    replace (1 + r)%nat with (Z.to_nat k) in L by lia.
    replace (m + Z.to_nat k)%nat with (Z.to_nat n) in L by lia.
    rewrite binom_1 in L.
    replace (Z.of_nat (m + 1)) with (n - k + 1) in L by lia.
    change (Z.of_nat 2) with 2 in L.
    apply L; [lia|].
    destruct (F3 R) as [F|[F|F]]; [lia| left; lia | right].
    now rewrite Z2Nat.id by lia.
  - rewrite i32_ok by lia. cbn [bind]. rewrite i32_ok by lia. cbn [bind].
    destruct (Z.ltb_spec k 0); [reflexivity|]. destruct (Z.ltb_spec n k); [reflexivity|]. lia.
Qed.
(* Outside of that it overflows: the condition is exact. *)
Theorem C57_choose_exact : forall n k, INT_MIN <= n <= INT_MAX -> INT_MIN <= k <= INT_MAX ->
  ~ fits_choose n k -> choose n k = UB SignedOverflow.
Proof.
  intros n k Hn Hk F. destruct bounds as [B1 B2].
  unfold choose.
  destruct (Z_le_dec INT_MIN (n - k)) as [A|A].
  2:{ now rewrite i32_bad by lia. }
  destruct (Z_le_dec (n - k) INT_MAX) as [A'|A'].
  2:{ now rewrite i32_bad by lia. }
  rewrite i32_ok by lia. cbn [bind].
  destruct (Z_le_dec (n - k + 1) INT_MAX) as [D|D].
  2:{ now rewrite i32_bad by lia. }
  rewrite i32_ok by lia. cbn [bind].
  destruct (Z.ltb_spec k 0). { exfalso. apply F. unfold fits_choose. lia. }
  destruct (Z.ltb_spec n k). { exfalso. apply F. unfold fits_choose. lia. }
  cbn [orb].
  destruct (Z.eqb_spec k 0). { exfalso. apply F. unfold fits_choose. lia. }
  destruct (Z.eqb_spec k n). { exfalso. apply F. unfold fits_choose. lia. }
  cbn [orb].
  destruct (Z_lt_dec k 2) as [K|K]. { exfalso. apply F. unfold fits_choose. lia. }
  destruct (Z_le_dec (k * binom (Z.to_nat n) (Z.to_nat k)) INT_MAX) as [E|E].
  { exfalso. apply F. unfold fits_choose. lia. }
  set (m := Z.to_nat (n - k)).
  set (r := Z.to_nat (k - 1)).
  pose proof (choose_loop_bad r m 1 ltac:(lia) ltac:(lia)) as L.
  replace (1 + r)%nat with (Z.to_nat k) in L by lia.
  replace (m + Z.to_nat k)%nat with (Z.to_nat n) in L by lia.
  rewrite binom_1 in L.
  replace (Z.of_nat (m + 1)) with (n - k + 1) in L by lia.
  change (Z.of_nat 2) with 2 in L.
  apply L; lia.
Qed.
(* Arguments whose answer is 0 or 1 but whose evaluation is undefined. *)
Theorem C57_edges_refuted :
  choose INT_MAX 0 = UB SignedOverflow /\ choose INT_MAX (-1) = UB SignedOverflow /\
  choose INT_MIN INT_MAX = UB SignedOverflow /\ binom 5 0 = 1.
Proof. repeat split. Qed.
(* ... and an answer that fits, whose products do not *)
Theorem C57_products_refuted :
  binom (Z.to_nat 46342) 2 = 1073767311 /\ 1073767311 <= INT_MAX /\
  choose 46342 2 = UB SignedOverflow.
Proof.
  split; [|split; [easy|reflexivity]].
  assert (E : Z.to_nat 46342 = S (Z.to_nat 46341)) by lia. rewrite E.
  pose proof (binom_absorb (Z.to_nat 46341) 1) as A. rewrite binom_1 in A.
  rewrite <- E in *. rewrite !Z2Nat.id in A by lia. lia.
Qed.
Example C57_demo : choose 10 4 = Ok 210 /\ binom 10 4 = 210 /\ fits_choose 10 4 /\
  choose 4 10 = Ok 0 /\ choose (-3) 2 = Ok 0.
Proof.
  repeat split; try reflexivity; intros; try (vm_compute; congruence).
  right. right. vm_compute. congruence.
Qed.
Print Assumptions C57_choose_partial.
Print Assumptions C57_choose_exact.

(* ================= C58 ================= *)
Definition is_floor (x : Q) (z : Z) : Prop := (inject_Z z <= x /\ x < inject_Z (z + 1))%Q.
Definition is_ceil (x : Q) (z : Z) : Prop := (inject_Z (z - 1) < x /\ x <= inject_Z z)%Q.
(* the nearest integer, halves away from zero *)
Definition is_round (x : Q) (z : Z) : Prop :=
  (Qabs (x - inject_Z z) <= 1#2)%Q /\
  ((Qabs (x - inject_Z z) == 1#2)%Q -> (Qabs x < Qabs (inject_Z z))%Q).

Lemma trunc_pos : forall x, (0 <= x)%Q -> is_floor x (trunc x).
Proof.
  intros [p q] H. unfold Qle in H. cbn in H. rewrite Z.mul_1_r in H.
  unfold is_floor, trunc, Qle, Qlt. cbn -[Z.quot Z.mul Z.add].
  pose proof (Z.quot_rem' p (Zpos q)). pose proof (Z.rem_bound_pos p (Zpos q) H ltac:(lia)). nia.
Qed.
Lemma trunc_opp : forall x, trunc (- x) = - trunc x.
Proof. intros [p q]. unfold trunc. cbn -[Z.quot]. apply Z.quot_opp_l. lia. Qed.
Lemma trunc_neg : forall x, (x <= 0)%Q -> is_ceil x (trunc x).
Proof.
  intros x H. assert (H' : (0 <= - x)%Q) by lra.
  destruct (trunc_pos _ H') as [A B]. rewrite trunc_opp in *.
  unfold is_ceil. rewrite inject_Z_plus, inject_Z_opp in *.
  unfold Z.sub. rewrite inject_Z_plus. change (inject_Z (-(1))) with (- (1))%Q.
  change (inject_Z 1) with 1%Q in *. lra.
Qed.
Lemma inj_lt : forall a b, (inject_Z a < inject_Z b)%Q -> a < b.
Proof. intros a b H. now rewrite <- Zlt_Qlt in H. Qed.
Lemma inj_le : forall a b, (inject_Z a <= inject_Z b)%Q -> a <= b.
Proof. intros a b H. now rewrite <- Zle_Qle in H. Qed.
Lemma inj_S : forall a, (inject_Z (a + 1) == inject_Z a + 1)%Q.
Proof. intros. now rewrite inject_Z_plus. Qed.
Lemma inj_P : forall a, (inject_Z (a - 1) == inject_Z a - 1)%Q.
Proof. intros. unfold Z.sub. rewrite inject_Z_plus. reflexivity. Qed.
Lemma inj_m : forall a b, (inject_Z (a - b) == inject_Z a - inject_Z b)%Q.
Proof. intros. unfold Z.sub. now rewrite inject_Z_plus, inject_Z_opp. Qed.

Lemma trunc_between : forall x lo hi,
  (inject_Z lo - 1 < x)%Q -> (x < inject_Z hi + 1)%Q -> lo <= 0 <= hi -> lo <= trunc x <= hi.
Proof.
  intros x lo hi Hl Hh H0.
  destruct (Qlt_le_dec x 0) as [N|N].
  - destruct (trunc_neg x ltac:(lra)) as [A B]. rewrite inj_P in A.
    assert (lo - 1 < trunc x) by (apply inj_lt; rewrite inj_P; lra).
    assert (trunc x - 1 < 0) by (apply inj_lt; rewrite inj_P; change (inject_Z 0) with 0%Q; lra).
    lia.
  - destruct (trunc_pos x N) as [A B]. rewrite inj_S in B.
    assert (trunc x < hi + 1) by (apply inj_lt; rewrite inj_S; lra).
    assert (0 < trunc x + 1) by (apply inj_lt; rewrite inj_S; change (inject_Z 0) with 0%Q; lra).
    lia.
Qed.
Lemma trunc_near : forall x, (x - 1 < inject_Z (trunc x) /\ inject_Z (trunc x) < x + 1)%Q.
Proof.
  intros x. destruct (Qlt_le_dec x 0) as [N|N].
  - destruct (trunc_neg x ltac:(lra)) as [A B]. rewrite inj_P in A. lra.
  - destruct (trunc_pos x N) as [A B]. rewrite inj_S in B. lra.
Qed.

Theorem C58_floor_partial : forall x,
  (inject_Z (INT_MIN + 1) < x)%Q -> (x < inject_Z (INT_MAX + 1))%Q ->
  exists z, FLOOR x = Ok z /\ is_floor x z.
Proof.
  intros x Hl Hh. destruct bounds as [B1 B2]. unfold FLOOR, to_int.
  assert (T : INT_MIN + 2 <= trunc x <= INT_MAX).
  { apply trunc_between; [| |lia].
    - replace (INT_MIN + 2) with (INT_MIN + 1 + 1) by lia. rewrite (inj_S (INT_MIN+1)). lra.
    - rewrite inj_S in Hh. lra. }
  rewrite i32_ok by lia. cbn [bind]. rewrite i32_ok by lia. cbn [bind].
  destruct (trunc_near x) as [N1 N2].
  set (y := (x + inject_Z (1 - trunc x))%Q).
  assert (Y : (0 < y)%Q /\ (y < 2)%Q).
  { unfold y. rewrite inj_m. change (inject_Z 1) with 1%Q. split; lra. }
  assert (C : 0 <= trunc y <= 1).
  { apply trunc_between; [| |lia].
    - change (inject_Z 0) with 0%Q. lra.
    - change (inject_Z 1) with 1%Q. lra. }
  destruct (trunc_pos y ltac:(lra)) as [P1 P2].
  assert (F : is_floor x (trunc y - (1 - trunc x))).
  { assert (E : (y == x + (1 - inject_Z (trunc x)))%Q) by (unfold y; now rewrite inj_m).
    unfold is_floor. rewrite inj_S in *. rewrite !inj_m.
    change (inject_Z 1) with 1%Q. clearbody y. lra. }
  rewrite i32_ok by lia. cbn [bind]. rewrite i32_ok.
  - eauto.
  - destruct F as [F1 F2]. rewrite inj_S in F2.
    assert (trunc y - (1 - trunc x) < INT_MAX + 1) by (apply inj_lt; lra).
    assert (INT_MIN + 1 < trunc y - (1 - trunc x) + 1)
      by (apply inj_lt; rewrite (inj_S (trunc y - (1 - trunc x))); lra).
    lia.
Qed.
Theorem C58_ceil_partial : forall x,
  (inject_Z (INT_MIN - 1) < x)%Q -> (x < inject_Z (INT_MAX - 1))%Q ->
  exists z, CEIL x = Ok z /\ is_ceil x z.
Proof.
  intros x Hl Hh. destruct bounds as [B1 B2]. unfold CEIL, to_int.
  assert (T : INT_MIN <= trunc x <= INT_MAX - 2).
  { apply trunc_between; [| |lia].
    - rewrite inj_P in Hl. lra.
    - replace (INT_MAX - 2) with (INT_MAX - 1 - 1) by lia. rewrite (inj_P (INT_MAX-1)). lra. }
  rewrite i32_ok by lia. cbn [bind]. rewrite i32_ok by lia. cbn [bind].
  destruct (trunc_near x) as [N1 N2].
  set (y := (inject_Z (2 + trunc x) - x)%Q).
  assert (Y : (1 < y)%Q /\ (y < 3)%Q).
  { unfold y. rewrite inject_Z_plus. change (inject_Z 2) with 2%Q. split; lra. }
  assert (C : 0 <= trunc y <= 2).
  { apply trunc_between; [| |lia].
    - change (inject_Z 0) with 0%Q. lra.
    - change (inject_Z 2) with 2%Q. lra. }
  destruct (trunc_pos y ltac:(lra)) as [P1 P2].
  assert (F : is_ceil x (2 + trunc x - trunc y)).
  { assert (E : (y == 2 + inject_Z (trunc x) - x)%Q)
      by (unfold y; now rewrite inject_Z_plus).
    unfold is_ceil. rewrite inj_S in *. rewrite inj_P, inj_m, inject_Z_plus.
    change (inject_Z 2) with 2%Q. clearbody y. lra. }
  rewrite i32_ok by lia. cbn [bind]. rewrite i32_ok.
  - eauto.
  - destruct F as [F1 F2]. rewrite inj_P in F1.
    assert (2 + trunc x - trunc y - 1 < INT_MAX - 1)
      by (apply inj_lt; rewrite (inj_P (2 + trunc x - trunc y)); lra).
    assert (INT_MIN - 1 < 2 + trunc x - trunc y) by (apply inj_lt; lra).
    lia.
Qed.

(* rounding y + 1/2 towards zero *)
Lemma round_pos : forall x, (0 <= x)%Q ->
  let z := trunc (x + (1#2)) in
  0 <= z /\ (inject_Z z - (1#2) <= x)%Q /\ (x < inject_Z z + (1#2))%Q.
Proof.
  intros x H z. destruct (trunc_pos (x + (1#2)) ltac:(lra)) as [A B]. fold z in A, B.
  rewrite inj_S in B. repeat split; try lra.
  assert (0 < z + 1) by (apply inj_lt; rewrite inj_S; change (inject_Z 0) with 0%Q; lra). lia.
Qed.
Lemma is_round_pos : forall x z, (0 <= x)%Q -> 0 <= z ->
  (inject_Z z - (1#2) <= x)%Q -> (x < inject_Z z + (1#2))%Q -> is_round x z.
Proof.
  intros x z Hx Hz H1 H2.
  assert (Z0 : (0 <= inject_Z z)%Q) by (change 0%Q with (inject_Z 0); now rewrite <- Zle_Qle).
  unfold is_round. split.
  - apply Qabs_Qle_condition. lra.
  - intros E. rewrite (Qabs_pos x), (Qabs_pos (inject_Z z)) by lra.
    destruct (Qlt_le_dec x (inject_Z z)) as [L|L]; [auto|].
    rewrite Qabs_pos in E by lra. lra.
Qed.
Lemma is_round_neg : forall x z, is_round (- x) z -> is_round x (- z).
Proof.
  intros x z [H1 H2].
  assert (E : (x - inject_Z (- z) == - (- x - inject_Z z))%Q) by (rewrite inject_Z_opp; ring).
  split.
  - rewrite E, Qabs_opp. exact H1.
  - rewrite E, Qabs_opp. intros H. specialize (H2 H).
    rewrite inject_Z_opp, Qabs_opp. rewrite Qabs_opp in H2. exact H2.
Qed.
Theorem C58_round_partial : forall x,
  (inject_Z INT_MIN + (1#2) < x)%Q -> (x < inject_Z INT_MAX + (1#2))%Q ->
  exists z, ROUND x = Ok z /\ is_round x z.
Proof.
  intros x Hl Hh. destruct bounds as [B1 B2]. unfold ROUND, to_int.
  destruct (Qle_bool 0 x) eqn:E.
  - apply Qle_bool_iff in E. destruct (round_pos x E) as (R0 & R1 & R2).
    set (z := trunc (x + (1#2))) in *. rewrite i32_ok.
    + exists z. split; [reflexivity|]. now apply is_round_pos.
    + assert (z - 1 < INT_MAX) by (apply inj_lt; rewrite inj_P; lra). lia.
  - assert (N : (x < 0)%Q).
    { apply Qnot_le_lt. intros H. apply Qle_bool_iff in H. congruence. }
    assert (N' : (0 <= - x)%Q) by lra.
    destruct (round_pos (- x) N') as (R0 & R1 & R2).
    assert (T : trunc ((1#2) - x) = trunc (- x + (1#2))).
    { destruct (trunc_pos ((1#2) - x) ltac:(lra)) as [A1 A2].
      destruct (trunc_pos (- x + (1#2)) ltac:(lra)) as [A3 A4]. rewrite inj_S in *.
      assert (trunc ((1#2) - x) < trunc (- x + (1#2)) + 1) by (apply inj_lt; rewrite inj_S; lra).
      assert (trunc (- x + (1#2)) < trunc ((1#2) - x) + 1) by (apply inj_lt; rewrite inj_S; lra).
      lia. }
    rewrite T. set (z := trunc (- x + (1#2))) in *.
    assert (z < INT_MAX + 1).
    { apply inj_lt. rewrite inj_S. replace INT_MIN with (- (INT_MAX + 1)) in Hl by lia.
      rewrite inject_Z_opp, inj_S in Hl. lra. }
    rewrite i32_ok by lia. cbn [bind]. rewrite i32_ok by lia.
    exists (- z). split; [reflexivity|]. apply is_round_neg. now apply is_round_pos.
Qed.
(* Each macro is undefined on a sliver of arguments whose answer fits an int. *)
Theorem C58_edges_refuted :
  FLOOR (inject_Z INT_MIN) = UB SignedOverflow /\ is_floor (inject_Z INT_MIN) INT_MIN /\
  CEIL (inject_Z INT_MAX) = UB SignedOverflow /\ is_ceil (inject_Z INT_MAX) INT_MAX /\
  ROUND (inject_Z INT_MIN) = UB SignedOverflow /\ is_round (inject_Z INT_MIN) INT_MIN.
Proof.
  repeat split; try reflexivity; try (vm_compute; congruence).
Qed.
Example C58_demo : FLOOR (-7#2) = Ok (-4) /\ CEIL (-7#2) = Ok (-3) /\ ROUND (-7#2) = Ok (-4) /\
  FLOOR (7#2) = Ok 3 /\ CEIL (7#2) = Ok 4 /\ ROUND (7#2) = Ok 4 /\ FLOOR (-4#1) = Ok (-4).
Proof. repeat split. Qed.
Print Assumptions C58_floor_partial.
Print Assumptions C58_ceil_partial.
Print Assumptions C58_round_partial.

(* With the rounding of double the macros are wrong near the integers from below (floor),
   above (ceiling) and just under one half (round). *)
Definition d_value (x : spec_float) : Q :=
  match x with
  | S754_finite s m e =>
      let a := if 0 <=? e then inject_Z (Zpos m * 2 ^ e) else Zpos m # Z.to_pos (2 ^ (- e)) in
      if s then (- a)%Q else a
  | _ => 0%Q
  end.
Definition d_make (m e : Z) : spec_float := binary_normalize 53 1024 m e false.
Theorem C58_double_refuted :
  (d_value (d_make (-1) (-60)) == -1 # 2^60)%Q /\
  FLOOR_d (d_make (-1) (-60)) = Ok 0 /\ is_floor (-1 # 2^60) (-1) /\
  (d_value (d_make (2^53 - 1) (-53)) == 1 - (1 # 2^53))%Q /\
  FLOOR_d (d_make (2^53 - 1) (-53)) = Ok 1 /\ is_floor (1 - (1 # 2^53)) 0 /\
  (d_value (d_make 1 (-60)) == 1 # 2^60)%Q /\
  CEIL_d (d_make 1 (-60)) = Ok 0 /\ is_ceil (1 # 2^60) 1 /\
  (d_value (d_make (2^53 - 1) (-54)) == (1#2) - (1 # 2^54))%Q /\
  ROUND_d (d_make (2^53 - 1) (-54)) = Ok 1 /\ is_round ((1#2) - (1 # 2^54)) 0.
Proof. repeat split; try (vm_compute; congruence). Qed.
Example C58_double_demo :
  FLOOR_d (d_make (-7) (-1)) = Ok (-4) /\ CEIL_d (d_make (-7) (-1)) = Ok (-3) /\
  ROUND_d (d_make (-7) (-1)) = Ok (-4) /\ ROUND_d (d_make 7 (-1)) = Ok 4.
Proof. repeat split. Qed.
Print Assumptions C58_double_refuted.

(* ================= C61 ================= *)
Section FixedProps.
Variable P : Z.
Hypothesis HP : 0 <= P <= 30.
(* the number a stored value stands for *)
Definition represents (v : Z) (x : Q) : Prop := (inject_Z v == x * inject_Z (2 ^ P))%Q.
(* the stored value nearest to x, halves away from zero *)
Definition nearest (v : Z) (x : Q) : Prop := is_round (x * inject_Z (2 ^ P)) v.

Lemma pow_pos : 0 < 2 ^ P.
Proof. apply Z.pow_pos_nonneg; lia. Qed.
Lemma powQ : (0 < inject_Z (2 ^ P))%Q.
Proof. change 0%Q with (inject_Z 0). rewrite <- Zlt_Qlt. apply pow_pos. Qed.
Lemma as_double_rep : forall v, represents v (as_double P v).
Proof.
  intros v. unfold represents, as_double, scale. pose proof powQ. field. lra.
Qed.
Lemma rep_eq : forall v x y, represents v x -> represents v y -> (x == y)%Q.
Proof.
  unfold represents. intros v x y H1 H2. pose proof powQ as H.
  apply (Qmult_inj_r x y (inject_Z (2 ^ P))); [lra|]. rewrite <- H1. exact H2.
Qed.

Lemma C61_int : forall i, INT_MIN <= i * 2 ^ P <= INT_MAX ->
  exists v, of_int P i = Ok v /\ represents v (inject_Z i) /\ as_int P v = i.
Proof.
  intros i H. unfold of_int, scale. rewrite i32_ok by auto.
  eexists. split; [reflexivity|]. split.
  - unfold represents. rewrite inject_Z_mult. reflexivity.
  - unfold as_int. rewrite Z.shiftr_div_pow2 by lia. apply Z.div_mul. pose proof pow_pos. lia.
Qed.
Lemma C61_to_int : forall v x, represents v x -> is_floor x (as_int P v).
Proof.
  intros v x H. unfold as_int. rewrite Z.shiftr_div_pow2 by lia.
  pose proof pow_pos as Hp. pose proof powQ as Hq.
  pose proof (Z.div_mod v (2 ^ P) ltac:(lia)) as D.
  pose proof (Z.mod_pos_bound v (2 ^ P) Hp) as M.
  unfold represents in H. unfold is_floor. split.
  - apply (Qmult_le_r _ _ _ Hq). rewrite <- H, <- inject_Z_mult, <- Zle_Qle. nia.
  - apply (Qmult_lt_r _ _ _ Hq). rewrite <- H, <- inject_Z_mult, <- Zlt_Qlt. nia.
Qed.
Lemma C61_add : forall a b x y, represents a x -> represents b y ->
  INT_MIN <= a + b <= INT_MAX ->
  exists v, f_add a b = Ok v /\ represents v (x + y).
Proof.
  unfold represents. intros a b x y Ha Hb H. unfold f_add. rewrite i32_ok by auto.
  eexists. split; [reflexivity|]. rewrite inject_Z_plus, Ha, Hb. ring.
Qed.
Lemma C61_sub : forall a b x y, represents a x -> represents b y ->
  INT_MIN <= a - b <= INT_MAX ->
  exists v, f_sub a b = Ok v /\ represents v (x - y).
Proof.
  unfold represents. intros a b x y Ha Hb H. unfold f_sub. rewrite i32_ok by auto.
  eexists. split; [reflexivity|]. rewrite inj_m, Ha, Hb. ring.
Qed.
Lemma C61_neg : forall a x, represents a x -> INT_MIN < a <= INT_MAX ->
  exists v, f_neg a = Ok v /\ represents v (- x).
Proof.
  unfold represents. intros a x Ha H. destruct bounds. unfold f_neg. rewrite i32_ok by lia.
  eexists. split; [reflexivity|]. rewrite inject_Z_opp, Ha. ring.
Qed.
Lemma C61_abs : forall a x, represents a x -> INT_MIN < a <= INT_MAX ->
  exists v, f_abs a = Ok v /\ represents v (Qabs x).
Proof.
  unfold represents. intros a x Ha H. destruct bounds. unfold f_abs. rewrite i32_ok by lia.
  eexists. split; [reflexivity|]. pose proof powQ as Hq.
  assert (E : (inject_Z (Z.abs a) == Qabs (inject_Z a))%Q) by reflexivity.
  rewrite E, Ha, Qabs_Qmult, (Qabs_pos (inject_Z (2 ^ P))) by lra. reflexivity.
Qed.
Lemma C61_inc : forall a x, represents a x -> INT_MIN <= a + 2 ^ P <= INT_MAX ->
  exists v, f_inc P a = Ok v /\ represents v (x + 1).
Proof.
  unfold represents. intros a x Ha H. unfold f_inc, scale. rewrite i32_ok by lia.
  eexists. split; [reflexivity|]. rewrite inject_Z_plus, Ha. ring.
Qed.
Lemma C61_dec : forall a x, represents a x -> INT_MIN <= a - 2 ^ P <= INT_MAX ->
  exists v, f_dec P a = Ok v /\ represents v (x - 1).
Proof.
  unfold represents. intros a x Ha H. unfold f_dec, scale. rewrite i32_ok by lia.
  eexists. split; [reflexivity|]. rewrite inj_m, Ha. ring.
Qed.
Lemma rep_lt : forall a b x y, represents a x -> represents b y -> (a < b <-> (x < y)%Q).
Proof.
  unfold represents. intros a b x y Ha Hb. rewrite Zlt_Qlt, Ha, Hb. apply Qmult_lt_r, powQ.
Qed.
Lemma rep_le : forall a b x y, represents a x -> represents b y -> (a <= b <-> (x <= y)%Q).
Proof.
  unfold represents. intros a b x y Ha Hb. rewrite Zle_Qle, Ha, Hb. apply Qmult_le_r, powQ.
Qed.
Lemma rep_eqv : forall a b x y, represents a x -> represents b y -> (a = b <-> (x == y)%Q).
Proof.
  intros a b x y Ha Hb. pose proof (rep_le a b x y Ha Hb). pose proof (rep_le b a y x Hb Ha).
  split; intros H1.
  - apply Qle_antisym; [apply H|apply H0]; lia.
  - assert (a <= b) by (apply H; lra). assert (b <= a) by (apply H0; lra). lia.
Qed.
Lemma C61_order : forall a b x y, represents a x -> represents b y ->
  (f_lt a b = true <-> (x < y)%Q) /\ (f_le a b = true <-> (x <= y)%Q) /\
  (f_gt a b = true <-> (y < x)%Q) /\ (f_ge a b = true <-> (y <= x)%Q) /\
  (f_eq a b = true <-> (x == y)%Q) /\ (f_ne a b = true <-> ~ (x == y)%Q).
Proof.
  intros a b x y Ha Hb. unfold f_lt, f_le, f_gt, f_ge, f_eq, f_ne.
  rewrite !Z.ltb_lt, !Z.leb_le, negb_true_iff, Z.eqb_neq, Z.eqb_eq.
  rewrite (rep_lt a b x y), (rep_le a b x y), (rep_lt b a y x), (rep_le b a y x) by auto.
  rewrite (rep_eqv a b x y) by auto. tauto.
Qed.
(* conversion from double: the nearest representable number *)
Lemma of_double_round : forall d, of_double P d = ROUND (d * inject_Z (2 ^ P)).
Proof.
  intros d. unfold of_double, ROUND, scale. pose proof powQ as Hq.
  replace (Qle_bool 0 (d * inject_Z (2 ^ P))) with (Qle_bool 0 d); [reflexivity|].
  apply eq_true_iff_eq. rewrite !Qle_bool_iff.
  rewrite <- (Qmult_le_r 0 d _ Hq). rewrite Qmult_0_l. reflexivity.
Qed.
Definition in_range (x : Q) : Prop :=
  (inject_Z INT_MIN + (1#2) < x * inject_Z (2 ^ P))%Q /\
  (x * inject_Z (2 ^ P) < inject_Z INT_MAX + (1#2))%Q.
Lemma C61_double : forall d, in_range d -> exists v, of_double P d = Ok v /\ nearest v d.
Proof. intros d [H1 H2]. rewrite of_double_round. now apply C58_round_partial. Qed.
Lemma in_range_ext : forall x y, (x == y)%Q -> in_range x -> in_range y.
Proof. unfold in_range. intros x y E. now rewrite E. Qed.
Lemma nearest_ext : forall v x y, (x == y)%Q -> nearest v x -> nearest v y.
Proof. unfold nearest, is_round. intros v x y E. now rewrite E. Qed.
Lemma C61_mul : forall a b x y, represents a x -> represents b y -> in_range (x * y) ->
  exists v, f_mul P a b = Ok v /\ nearest v (x * y).
Proof.
  intros a b x y Ha Hb R. unfold f_mul.
  assert (E : (x * y == as_double P a * as_double P b)%Q).
  { rewrite (rep_eq a x (as_double P a)), (rep_eq b y (as_double P b)); auto using as_double_rep.
    reflexivity. }
  destruct (C61_double _ (in_range_ext _ _ E R)) as (v & V1 & V2).
  exists v. split; [exact V1|]. symmetry in E. eapply nearest_ext; eauto.
Qed.
Lemma C61_div : forall a b x y, represents a x -> represents b y -> ~ (y == 0)%Q ->
  in_range (x / y) -> exists v, f_div P a b = Ok v /\ nearest v (x / y).
Proof.
  intros a b x y Ha Hb Hy R. unfold f_div.
  destruct (Z.eqb_spec b 0) as [->|Nb].
  { exfalso. apply Hy. unfold represents in Hb. pose proof powQ as Hq.
    change (inject_Z 0) with 0%Q in Hb.
    apply (Qmult_inj_r y 0 (inject_Z (2 ^ P))); [lra|]. rewrite <- Hb. ring. }
  assert (E : (x / y == as_double P a / as_double P b)%Q).
  { rewrite (rep_eq a x (as_double P a)), (rep_eq b y (as_double P b)); auto using as_double_rep.
    reflexivity. }
  destruct (C61_double _ (in_range_ext _ _ E R)) as (v & V1 & V2).
  exists v. split; [exact V1|]. symmetry in E. eapply nearest_ext; eauto.
Qed.
(* an unsigned below 2^(31-P) converts exactly *)
Lemma C61_unsigned : forall i, 0 <= i -> i * 2 ^ P <= INT_MAX ->
  of_int P i = Ok (of_unsigned P i).
Proof.
  intros i H1 H2. destruct bounds as [B1 B2]. pose proof pow_pos.
  unfold of_int, of_unsigned, scale. rewrite i32_ok by nia.
  unfold u32. rewrite Z.mod_small by (cbn; nia).
  destruct (Z.leb_spec (i * 2 ^ P) INT_MAX); [reflexivity|lia].
Qed.
End FixedProps.

Theorem C61_fixed : forall P, 0 <= P <= 30 ->
  (* every stored value stands for exactly one number, which operator double returns *)
  (forall v, represents P v (as_double P v)) /\
  (forall v x y, represents P v x -> represents P v y -> (x == y)%Q) /\
  (* int conversions *)
  (forall i, INT_MIN <= i * 2 ^ P <= INT_MAX ->
     exists v, of_int P i = Ok v /\ represents P v (inject_Z i) /\ as_int P v = i) /\
  (forall v x, represents P v x -> is_floor x (as_int P v)) /\
  (* arithmetic *)
  (forall a b x y, represents P a x -> represents P b y -> INT_MIN <= a + b <= INT_MAX ->
     exists v, f_add a b = Ok v /\ represents P v (x + y)) /\
  (forall a b x y, represents P a x -> represents P b y -> INT_MIN <= a - b <= INT_MAX ->
     exists v, f_sub a b = Ok v /\ represents P v (x - y)) /\
  (forall a x, represents P a x -> INT_MIN < a <= INT_MAX ->
     (exists v, f_neg a = Ok v /\ represents P v (- x)) /\
     (exists v, f_abs a = Ok v /\ represents P v (Qabs x))) /\
  (forall a x, represents P a x -> INT_MIN <= a + 2 ^ P <= INT_MAX ->
     exists v, f_inc P a = Ok v /\ represents P v (x + 1)) /\
  (forall a x, represents P a x -> INT_MIN <= a - 2 ^ P <= INT_MAX ->
     exists v, f_dec P a = Ok v /\ represents P v (x - 1)) /\
  (* order *)
  (forall a b x y, represents P a x -> represents P b y ->
     (f_lt a b = true <-> (x < y)%Q) /\ (f_le a b = true <-> (x <= y)%Q) /\
     (f_gt a b = true <-> (y < x)%Q) /\ (f_ge a b = true <-> (y <= x)%Q) /\
     (f_eq a b = true <-> (x == y)%Q) /\ (f_ne a b = true <-> ~ (x == y)%Q)).
Proof.
  intros P HP.
  split; [now apply as_double_rep|]. split; [now apply rep_eq|].
  split; [now apply C61_int|]. split; [now apply C61_to_int|].
  split; [now apply C61_add|]. split; [now apply C61_sub|].
  split; [intros a x H1 H2; split; [now apply C61_neg | now apply C61_abs]|].
  split; [now apply C61_inc|]. split; [now apply C61_dec|].
  now apply C61_order.
Qed.
(* Products, quotients and doubles give the nearest representable number. *)
Theorem C61_rounding : forall P, 0 <= P <= 30 ->
  (forall d, in_range P d -> exists v, of_double P d = Ok v /\ nearest P v d) /\
  (forall a b x y, represents P a x -> represents P b y -> in_range P (x * y) ->
     exists v, f_mul P a b = Ok v /\ nearest P v (x * y)) /\
  (forall a b x y, represents P a x -> represents P b y -> ~ (y == 0)%Q ->
     in_range P (x / y) -> exists v, f_div P a b = Ok v /\ nearest P v (x / y)) /\
  (forall i, 0 <= i -> i * 2 ^ P <= INT_MAX -> of_int P i = Ok (of_unsigned P i)).
Proof.
  intros P HP.
  split; [now apply C61_double|]. split; [now apply C61_mul|].
  split; [now apply C61_div|]. now apply C61_unsigned.
Qed.
(* Beyond that: overflow is undefined, and a large unsigned silently becomes another
   number, here -1 for 16777215 with eight fraction bits. *)
Theorem C61_overflow :
  f_add INT_MAX 1 = UB SignedOverflow /\ f_neg INT_MIN = UB SignedOverflow /\
  f_abs INT_MIN = UB SignedOverflow /\ of_int 8 8388608 = UB SignedOverflow /\
  f_div 8 256 0 = UB SignedOverflow /\
  represents 8 (of_unsigned 8 16777215) (inject_Z (-1)).
Proof. repeat split. Qed.
Example C61_demo :
  of_int 8 3 = Ok 768 /\ of_double 8 (-3#2) = Ok (-384) /\ as_int 8 (-384) = -2 /\
  f_mul 8 768 (-384) = Ok (-1152) /\ represents 8 (-1152) (-9#2) /\
  f_div 8 768 (-512) = Ok (-384) /\ f_lt (-384) 768 = true /\ in_range 8 (-9#2).
Proof. repeat split. Qed.
Print Assumptions C61_fixed.
Print Assumptions C61_rounding.
