(* C52 and C53: the random number generator. *)
From Coq Require Import ZArith QArith List Bool Lia Lqa.
From Verif Require Import Base RngModel.
Import ListNotations.
Local Open Scope Z_scope.

(* ---- specification ---- *)
(* which of the four functions is called *)
Inductive draw_kind := Closed1Open2 | Closed0Open1 | Open0Closed1 | Open0Open1.
Definition draw_fun (k : draw_kind) : rng -> outcome (Q * rng) :=
  match k with
  | Closed1Open2 => c1o2 | Closed0Open1 => c0o1 | Open0Closed1 => o0c1 | Open0Open1 => o0o1
  end.
Definition in_interval (k : draw_kind) (x : Q) : Prop :=
  match k with
  | Closed1Open2 => (1 <= x)%Q /\ (x < 2)%Q
  | Closed0Open1 => (0 <= x)%Q /\ (x < 1)%Q
  | Open0Closed1 => (0 < x)%Q /\ (x <= 1)%Q
  | Open0Open1 => (0 < x)%Q /\ (x < 1)%Q
  end.
(* a multiple of 2^-52, so that the subtractions of the code are exact *)
Definition grid (x : Q) : Prop := exists k, (x == inject_Z k / inject_Z (2 ^ 52))%Q.
Fixpoint draws (ks : list draw_kind) (r : rng) : outcome (list Q * rng) :=
  match ks with
  | [] => Ok ([], r)
  | k :: ks => let* (x, r) := draw_fun k r in let* (l, r) := draws ks r in Ok (x :: l, r)
  end.

(* ---- words ---- *)
Definition word (u : Z) : Prop := 0 <= u < 2 ^ 64.
(* a number of [1,2): sign and exponent fields 0x3FF *)
Definition unit_word (u : Z) : Prop := 0 <= u /\ Z.shiftr u 52 = 0x3FF.

Lemma word_bits : forall n u, 0 <= n -> 0 <= u ->
  (u < 2 ^ n <-> forall i, n <= i -> Z.testbit u i = false).
Proof.
  intros n u Hn Hu. split.
  - intros H i Hi. destruct (Z.eq_dec u 0) as [->|N]; [apply Z.bits_0|].
    apply Z.bits_above_log2; [lia|]. apply Z.log2_lt_pow2 in H; lia.
  - intros H. destruct (Z.eq_dec u 0) as [->|N]; [apply Z.pow_pos_nonneg; lia|].
    apply Z.log2_lt_pow2; [lia|]. destruct (Z_lt_le_dec (Z.log2 u) n); [auto|].
    specialize (H _ l). rewrite Z.bit_log2 in H by lia. discriminate.
Qed.
Lemma lxor_word : forall a b, word a -> word b -> word (Z.lxor a b).
Proof.
  intros a b [A1 A2] [B1 B2]. assert (P : 0 <= Z.lxor a b) by (apply Z.lxor_nonneg; tauto).
  split; [auto|]. apply word_bits; try lia. intros i Hi. rewrite Z.lxor_spec.
  rewrite (word_bits 64) in A2, B2 by lia. now rewrite A2, B2.
Qed.
Lemma shiftr_word : forall a k, 0 <= k -> word a -> word (Z.shiftr a k).
Proof.
  intros a k Hk [A1 A2]. split; [now apply Z.shiftr_nonneg|].
  rewrite Z.shiftr_div_pow2 by auto. assert (0 < 2 ^ k) by (apply Z.pow_pos_nonneg; lia).
  eapply Z.le_lt_trans; [|exact A2]. apply Z.div_le_upper_bound; [auto|]. nia.
Qed.
Lemma u64_word : forall a, word (u64 a).
Proof. intros a. unfold word, u64. apply Z.mod_pos_bound. reflexivity. Qed.
Lemma unit_is_word : forall u, unit_word u -> word u.
Proof.
  intros u [H1 H2]. split; [auto|]. rewrite Z.shiftr_div_pow2 in H2 by lia.
  pose proof (Z.div_mod u (2 ^ 52) ltac:(lia)). pose proof (Z.mod_pos_bound u (2 ^ 52) ltac:(lia)).
  rewrite H2 in H. change (2 ^ 64) with (4096 * 2 ^ 52). lia.
Qed.
Lemma mask_unit : forall u, 0 <= u -> unit_word (mask_word u).
Proof.
  intros u Hu. unfold mask_word. split.
  - apply Z.lor_nonneg. split; [|easy]. apply Z.land_nonneg. auto.
  - rewrite Z.shiftr_lor, Z.shiftr_land. change (Z.shiftr LOW_MASK 52) with 0.
    rewrite Z.land_0_r. reflexivity.
Qed.
(* the recursion keeps the exponent field *)
Lemma step_unit : forall n t m, word n -> unit_word t -> 0 <= m -> Z.shiftr m 52 = 0 ->
  unit_word (Z.lxor (Z.lxor (Z.shiftr n 12) (Z.land n m)) t).
Proof.
  intros n t m [N1 N2] [T1 T2] Hm Hm'. split.
  - apply Z.lxor_nonneg. split; auto. intros _. apply Z.lxor_nonneg.
    split; intros _; [apply Z.land_nonneg; auto | apply Z.shiftr_nonneg; auto].
  - rewrite !Z.shiftr_lxor, Z.shiftr_shiftr, Z.shiftr_land, Hm', T2 by lia.
    rewrite Z.land_0_r. change (12 + 52) with 64.
    rewrite (Z.shiftr_div_pow2 n 64), Z.div_small by lia. reflexivity.
Qed.

(* ---- the state ---- *)
Record good (st : list Z) : Prop := {
  g_len : length st = 384%nat;
  g_unit : forall i u, (i < 382)%nat -> nth_error st i = Some u -> unit_word u;
  g_word : forall i u, nth_error st i = Some u -> word u }.
Lemma good_get : forall st i, good st -> (i < 384)%nat ->
  exists u, aget st i = Ok u /\ word u /\ ((i < 382)%nat -> unit_word u).
Proof.
  intros st i [G1 G2 G3] Hi. destruct (nth_error st i) as [u|] eqn:E.
  2:{ apply nth_error_None in E. lia. }
  exists u. split; [now apply aget_ok|]. split; [eauto|]. intros. eauto.
Qed.
Lemma good_set : forall st i u, good st -> (i < 384)%nat -> word u ->
  ((i < 382)%nat -> unit_word u) -> exists st', aset st i u = Ok st' /\ good st'.
Proof.
  intros st i u [G1 G2 G3] Hi W U. rewrite aset_ok by lia. eexists. split; [reflexivity|].
  constructor.
  - now rewrite length_upd.
  - intros j v Hj E. destruct (Nat.eq_dec i j) as [<-|N].
    + rewrite nth_error_upd_eq in E by lia. inversion E; subst. auto.
    + rewrite nth_error_upd_ne in E by auto. eauto.
  - intros j v E. rewrite nth_error_upd in E.
    destruct ((i =? j)%nat && (i <? length st)%nat)%bool; [|eauto]. inversion E; subst. auto.
Qed.
Lemma regen_step_good : forall st i, good st -> (i < 191)%nat ->
  exists st', regen_step st i = Ok st' /\ good st'.
Proof.
  intros st i G Hi. unfold regen_step, DSFMT_N, POS1.
  assert (M : ((i + 117) mod 191 < 191)%nat) by (apply Nat.mod_upper_bound; lia).
  set (q := ((i + 117) mod 191)%nat) in *. clearbody q.
  destruct (good_get st (i * 2) G ltac:(lia)) as (t0 & E0 & W0 & U0). rewrite E0. cbn [bind].
  destruct (good_get st (i * 2 + 1) G ltac:(lia)) as (t1 & E1 & W1 & U1). rewrite E1. cbn [bind].
  change (191 * 2)%nat with 382%nat. change (382 + 1)%nat with 383%nat.
  destruct (good_get st 382 G ltac:(lia)) as (L0 & E2 & W2 & _). rewrite E2. cbn [bind].
  destruct (good_get st 383 G ltac:(lia)) as (L1 & E3 & W3 & _). rewrite E3. cbn [bind].
  destruct (good_get st (q * 2) G ltac:(lia)) as (b0 & E4 & W4 & _). rewrite E4. cbn [bind].
  set (n0 := Z.lxor (Z.lxor (Z.lxor (u64 (Z.shiftl t0 SL1)) (Z.shiftr L1 32))
                           (u64 (Z.shiftl L1 32))) b0).
  assert (N0 : word n0).
  { unfold n0. repeat apply lxor_word; auto using u64_word. apply shiftr_word; auto. lia. }
  destruct (good_set st 382 n0 G ltac:(lia) N0 ltac:(lia)) as (st1 & S1 & G1). rewrite S1. cbn [bind].
  destruct (good_get st1 (q * 2 + 1) G1 ltac:(lia)) as (b1 & E5 & W5 & _). rewrite E5. cbn [bind].
  set (n1 := Z.lxor (Z.lxor (Z.lxor (u64 (Z.shiftl t1 SL1)) (Z.shiftr L0 32))
                           (u64 (Z.shiftl L0 32))) b1).
  assert (N1 : word n1).
  { unfold n1. repeat apply lxor_word; auto using u64_word. apply shiftr_word; auto. lia. }
  destruct (good_set st1 383 n1 G1 ltac:(lia) N1 ltac:(lia)) as (st2 & S2 & G2).
  rewrite S2. cbn [bind].
  assert (V0 : unit_word (Z.lxor (Z.lxor (Z.shiftr n0 SR) (Z.land n0 MSK1)) t0)).
  { apply step_unit; auto; [apply U0; lia|easy]. }
  assert (V1 : unit_word (Z.lxor (Z.lxor (Z.shiftr n1 SR) (Z.land n1 MSK2)) t1)).
  { apply step_unit; auto; [apply U1; lia|easy]. }
  destruct (good_set st2 (i * 2) _ G2 ltac:(lia) (unit_is_word _ V0) (fun _ => V0))
    as (st3 & S3 & G3).
  rewrite S3. cbn [bind].
  apply (good_set st3 (i * 2 + 1) _ G3 ltac:(lia) (unit_is_word _ V1) (fun _ => V1)).
Qed.
Lemma regen_loop_good : forall k i st, good st -> (i + k <= 191)%nat ->
  exists st', regen_loop k i st = Ok st' /\ good st'.
Proof.
  induction k; intros i st G H; cbn [regen_loop]; [eauto|].
  destruct (regen_step_good st i G ltac:(lia)) as (st1 & E & G1). rewrite E. cbn [bind].
  apply IHk; auto. lia.
Qed.

(* ---- seeding ---- *)
Lemma length_seed : forall k i x, length (seed_words k i x) = k.
Proof. induction k; intros; cbn [seed_words length]; auto. Qed.
Lemma seed_range : forall k i x, Forall (fun u => 0 <= u < 2 ^ 32) (seed_words k i x).
Proof.
  induction k; intros i x; cbn [seed_words]; constructor; auto.
  unfold u32. apply Z.mod_pos_bound. reflexivity.
Qed.
Lemma pair_spec : forall n l, (length l <= n)%nat -> Forall (fun u => 0 <= u < 2 ^ 32) l ->
  length (pair_words l) = Nat.div2 (length l) /\ Forall word (pair_words l).
Proof.
  induction n; intros l Hl Hf.
  - destruct l; [|cbn in Hl; lia]. cbn. auto.
  - destruct l as [|a [|b l]]; cbn [pair_words length Nat.div2]; auto.
    cbn [length] in Hl. inversion Hf as [|? ? Ha Hf1]; subst. inversion Hf1 as [|? ? Hb Hf2]; subst.
    destruct (IHn l ltac:(lia) Hf2) as [H1 H2]. split; [now rewrite H1|].
    constructor; auto. unfold word. change (2 ^ 64) with (2 ^ 32 * 2 ^ 32). nia.
Qed.
Lemma masked_good : forall l, length l = 384%nat -> Forall word l -> good (masked l).
Proof.
  intros l L F. unfold masked, DSFMT_N. change (191 * 2)%nat with 382%nat.
  assert (Lf : length (firstn 382 l) = 382%nat) by (rewrite firstn_length; lia).
  assert (U : forall i u, (i < 382)%nat ->
    nth_error (map mask_word (firstn 382 l) ++ skipn 382 l) i = Some u -> unit_word u).
  { intros i u Hi E. rewrite nth_error_app1 in E by (rewrite map_length; lia).
    apply nth_error_In in E. apply in_map_iff in E. destruct E as (x & <- & Hx).
    apply mask_unit.
    assert (In x l) by (rewrite <- (firstn_skipn 382 l); apply in_or_app; auto).
    rewrite Forall_forall in F. apply F in H. destruct H. auto. }
  constructor.
  - rewrite app_length, map_length, skipn_length. lia.
  - exact U.
  - intros i u E. destruct (lt_dec i 382) as [Hi|Hi]; [apply unit_is_word; eauto|].
    rewrite nth_error_app2 in E by (rewrite map_length; lia).
    apply nth_error_In in E.
    assert (In u l) by (rewrite <- (firstn_skipn 382 l); apply in_or_app; auto).
    rewrite Forall_forall in F. auto.
Qed.

(* ---- parity ---- *)
(* the parity of the bits below n *)
Fixpoint parity (n : nat) (u : Z) : bool :=
  match n with O => false | S n => xorb (parity n u) (Z.testbit u (Z.of_nat n)) end.
(* dSFMT period certification: the lung, fixed up, has odd parity on the PCV bits *)
Definition certified (u0 u1 : Z) : Prop :=
  xorb (parity 64 (Z.land (Z.lxor u0 FIX1) PCV1)) (parity 64 (Z.land (Z.lxor u1 FIX2) PCV2)) = true.

Lemma parity_xor : forall n a b, parity n (Z.lxor a b) = xorb (parity n a) (parity n b).
Proof.
  induction n; intros a b; cbn [parity]; [reflexivity|]. rewrite IHn, Z.lxor_spec.
  destruct (parity n a), (parity n b), (Z.testbit a (Z.of_nat n)), (Z.testbit b (Z.of_nat n));
    reflexivity.
Qed.
Lemma parity_add : forall k n u,
  parity (n + k) u = xorb (parity n u) (parity k (Z.shiftr u (Z.of_nat n))).
Proof.
  induction k; intros n u; cbn [parity].
  - rewrite Nat.add_0_r. now destruct (parity n u).
  - rewrite Nat.add_succ_r. cbn [parity]. rewrite IHk, Z.shiftr_spec by lia.
    replace (Z.of_nat k + Z.of_nat n) with (Z.of_nat (n + k)) by lia.
    now rewrite xorb_assoc.
Qed.
Lemma parity_fold : forall n u,
  parity n (Z.lxor u (Z.shiftr u (Z.of_nat n))) = parity (n + n) u.
Proof. intros n u. rewrite parity_xor. symmetry. apply parity_add. Qed.
Lemma fold_parity : forall u, Z.testbit (fold_bits u) 0 = parity 64 u.
Proof.
  assert (S : forall n k u, k = Z.of_nat n ->
    parity (n + n) u = parity n (Z.lxor u (Z.shiftr u k)))
    by (intros n k v ->; symmetry; apply parity_fold).
  intros u. unfold fold_bits. cbn [fold_left].
  change 64%nat with (32 + 32)%nat. rewrite (S 32%nat 32 u eq_refl). generalize (Z.lxor u (Z.shiftr u 32)). clear u. intros u.
  change 32%nat with (16 + 16)%nat. rewrite (S 16%nat 16 u eq_refl). generalize (Z.lxor u (Z.shiftr u 16)). clear u. intros u.
  change 16%nat with (8 + 8)%nat. rewrite (S 8%nat 8 u eq_refl). generalize (Z.lxor u (Z.shiftr u 8)). clear u. intros u.
  change 8%nat with (4 + 4)%nat. rewrite (S 4%nat 4 u eq_refl). generalize (Z.lxor u (Z.shiftr u 4)). clear u. intros u.
  change 4%nat with (2 + 2)%nat. rewrite (S 2%nat 2 u eq_refl). generalize (Z.lxor u (Z.shiftr u 2)). clear u. intros u.
  change 2%nat with (1 + 1)%nat. rewrite (S 1%nat 1 u eq_refl). generalize (Z.lxor u (Z.shiftr u 1)). clear u. intros u.
  cbn [parity]. symmetry. apply xorb_false_l.
Qed.
Lemma land_1 : forall u, Z.land u 1 = if Z.testbit u 0 then 1 else 0.
Proof.
  intros u. change 1 with (Z.ones 1). rewrite Z.land_ones by lia. change (2 ^ 1) with 2.
  rewrite <- Z.bit0_mod. destruct (Z.testbit u 0); reflexivity.
Qed.
Lemma parity_flip : forall u, parity 64 (Z.land (Z.lxor (Z.lxor u 1) FIX2) PCV2)
  = negb (parity 64 (Z.land (Z.lxor u FIX2) PCV2)).
Proof.
  intros u.
  replace (Z.land (Z.lxor (Z.lxor u 1) FIX2) PCV2)
    with (Z.lxor (Z.land (Z.lxor u FIX2) PCV2) 1).
  - rewrite parity_xor. change (parity 64 1) with true. apply xorb_true_r.
  - apply Z.bits_inj'. intros i Hi.
    rewrite !Z.lxor_spec, !Z.land_spec, !Z.lxor_spec. unfold PCV2.
    destruct (Z.eq_dec i 0) as [->|N].
    + change (Z.testbit 1 0) with true. rewrite !andb_true_r.
      destruct (Z.testbit u 0), (Z.testbit FIX2 0); reflexivity.
    + assert (E : Z.testbit 1 i = false) by (change 1 with (2 ^ 0); apply Z.pow2_bits_false; lia).
      rewrite E, !andb_false_r. reflexivity.
Qed.

(* ---- the theorems ---- *)
Definition fresh_ok (r : rng) : Prop :=
  exists u0 u1, nth_error (status r) 382 = Some u0 /\ nth_error (status r) 383 = Some u1 /\
    certified u0 u1.
Record alive (r : rng) : Prop := { a_good : good (status r); a_idx : (idx r <= 382)%nat }.

Lemma make_ok : forall seed, 0 <= seed < 2 ^ 32 ->
  exists r, make_rng seed = Ok r /\ alive r /\ fresh_ok r.
Proof.
  intros seed Hs. unfold make_rng.
  assert (F : Forall (fun u => 0 <= u < 2 ^ 32) (words32 seed))
    by (constructor; [auto|apply seed_range]).
  assert (L : length (words32 seed) = 768%nat).
  { unfold words32. cbn [length]. rewrite length_seed. reflexivity. }
  destruct (pair_spec 768 (words32 seed) ltac:(lia) F) as [L2 W]. rewrite L in L2.
  change (Nat.div2 768) with 384%nat in L2.
  generalize dependent (pair_words (words32 seed)). intros ws L2 W. clear F L.
  pose proof (masked_good ws L2 W) as G. set (st := masked ws) in *. clearbody st.
  unfold DSFMT_N. change (191 * 2)%nat with 382%nat. change (382 + 1)%nat with 383%nat.
  destruct (good_get st 382 G ltac:(lia)) as (u0 & E0 & W0 & _). rewrite E0. cbn [bind].
  destruct (good_get st 383 G ltac:(lia)) as (u1 & E1 & W1 & _). rewrite E1. cbn [bind].
  apply aget_ok in E0. apply aget_ok in E1.
  rewrite land_1, fold_parity, parity_xor.
  destruct (xorb (parity 64 (Z.land (Z.lxor u0 FIX1) PCV1))
                 (parity 64 (Z.land (Z.lxor u1 FIX2) PCV2))) eqn:P.
  - change (negb (1 =? 1)) with false. cbn [bind]. eexists. split; [reflexivity|].
    split; [constructor; cbn; auto|]. exists u0, u1. auto.
  - change (negb (0 =? 1)) with true. cbv iota.
    destruct (good_set st 383 (Z.lxor u1 1) G ltac:(lia)) as (st' & S' & G').
    + apply lxor_word; auto. unfold word. lia.
    + lia.
    + rewrite S'. cbn [bind]. eexists. split; [reflexivity|].
      split; [constructor; cbn; auto|].
      destruct G as [GL _ _]. rewrite aset_ok in S' by lia. inversion S'; subst.
      exists u0, (Z.lxor u1 1). cbn [status]. split; [|split].
      * rewrite nth_error_upd_ne by lia. exact E0.
      * rewrite nth_error_upd_eq by lia. reflexivity.
      * unfold certified. rewrite parity_flip.
        destruct (parity 64 (Z.land (Z.lxor u0 FIX1) PCV1)),
          (parity 64 (Z.land (Z.lxor u1 FIX2) PCV2)); cbn in *; congruence.
Qed.

(* C53: every seed is certified. *)
Theorem C53_certified : forall seed, 0 <= seed < 2 ^ 32 ->
  exists r u0 u1, make_rng seed = Ok r /\
    nth_error (status r) 382 = Some u0 /\ nth_error (status r) 383 = Some u1 /\
    certified u0 u1.
Proof.
  intros seed H. destruct (make_ok seed H) as (r & E & _ & u0 & u1 & H1 & H2 & H3).
  exists r, u0, u1. auto.
Qed.

Lemma draw_ok : forall r, alive r ->
  exists u r', draw r = Ok (u, r') /\ unit_word u /\ alive r'.
Proof.
  intros r [G I]. unfold draw, DSFMT_N. change (191 * 2)%nat with 382%nat.
  destruct (Nat.leb_spec 382 (idx r)).
  - unfold regen. destruct (regen_loop_good DSFMT_N 0 (status r) G ltac:(unfold DSFMT_N; lia))
      as (st & E & G'). rewrite E. cbn [bind idx status].
    destruct (Nat.ltb_spec 0 382); [|lia].
    destruct (good_get st 0 G' ltac:(lia)) as (u & Eu & _ & U). rewrite Eu. cbn [bind].
    do 2 eexists. split; [reflexivity|]. split; [apply U; lia|].
    constructor; cbn [status idx]; auto.
  - cbn [bind]. destruct (Nat.ltb_spec (idx r) 382); [|lia].
    destruct (good_get (status r) (idx r) G ltac:(lia)) as (u & Eu & _ & U). rewrite Eu.
    cbn [bind]. do 2 eexists. split; [reflexivity|]. split; [apply U; lia|].
    constructor; cbn [status idx]; auto.
Qed.

Lemma unit_double : forall u, unit_word u ->
  exists m, 0 <= m < 2 ^ 52 /\ u = 0x3FF * 2 ^ 52 + m /\
    (double_of u == 1 + inject_Z m / inject_Z (2 ^ 52))%Q.
Proof.
  intros u [H1 H2]. exists (u mod 2 ^ 52).
  pose proof (Z.mod_pos_bound u (2 ^ 52) ltac:(lia)) as B. split; [auto|].
  assert (D : u / 2 ^ 52 = 0x3FF) by (rewrite <- Z.shiftr_div_pow2; [auto|lia]).
  pose proof (Z.div_mod u (2 ^ 52) ltac:(lia)) as M. split; [lia|].
  unfold double_of. rewrite H2. change (0 <=? 0x3FF - 1023) with true. cbv iota.
  change (2 ^ (0x3FF - 1023)) with 1.
  change LOW_MASK with (Z.ones 52). rewrite Z.land_ones by lia.
  rewrite inject_Z_plus. change (inject_Z 1) with 1%Q. field.
  intros E. discriminate.
Qed.
Lemma frac_range : forall m, 0 <= m < 2 ^ 52 ->
  (0 <= inject_Z m / inject_Z (2 ^ 52))%Q /\ (inject_Z m / inject_Z (2 ^ 52) < 1)%Q /\
  (0 < m -> (0 < inject_Z m / inject_Z (2 ^ 52))%Q).
Proof.
  intros m [H1 H2]. assert (P : (0 < inject_Z (2 ^ 52))%Q) by reflexivity.
  split; [|split].
  - apply Qle_shift_div_l; auto. rewrite Qmult_0_l. change 0%Q with (inject_Z 0).
    now rewrite <- Zle_Qle.
  - apply Qlt_shift_div_r; auto. rewrite Qmult_1_l. now rewrite <- Zlt_Qlt.
  - intros H. apply Qlt_shift_div_l; auto. rewrite Qmult_0_l. change 0%Q with (inject_Z 0).
    now rewrite <- Zlt_Qlt.
Qed.
Lemma or1_unit : forall u, unit_word u -> unit_word (Z.lor u 1).
Proof.
  intros u [H1 H2]. split; [apply Z.lor_nonneg; split; [auto|lia]|].
  rewrite Z.shiftr_lor, H2. reflexivity.
Qed.
Lemma grid_shift : forall x k m, (x == inject_Z k + inject_Z m / inject_Z (2 ^ 52))%Q -> grid x.
Proof.
  intros x k m E. exists (k * 2 ^ 52 + m). rewrite E, inject_Z_plus, inject_Z_mult. field. discriminate.
Qed.
Lemma draw_in : forall k r, alive r ->
  exists x r', draw_fun k r = Ok (x, r') /\ in_interval k x /\ grid x /\ alive r'.
Proof.
  intros k r A. destruct (draw_ok r A) as (u & r' & E & U & A').
  destruct (unit_double u U) as (m & M & Eu & V).
  destruct (frac_range m M) as (R1 & R2 & R3).
  destruct k; cbn [draw_fun in_interval]; unfold c0o1, o0c1, o0o1, c1o2; rewrite E; cbn [bind];
    do 2 eexists; (split; [reflexivity|]).
  - split; [split; lra|]. split; [|auto]. apply (grid_shift _ 1 m).
    rewrite V. reflexivity.
  - split; [split; lra|]. split; [|auto]. apply (grid_shift _ 0 m).
    rewrite V. change (inject_Z 0) with 0%Q. ring.
  - split; [split; lra|]. split; [|auto]. apply (grid_shift _ 1 (- m)).
    rewrite V, inject_Z_opp. change (inject_Z 1) with 1%Q. field. discriminate.
  - destruct (unit_double _ (or1_unit u U)) as (m1 & M1 & Eu1 & V1).
    destruct (frac_range m1 M1) as (Q1 & Q2 & Q3).
    assert (Pm : 0 < m1).
    { destruct (Z.eq_dec m1 0) as [Z0|]; [|lia]. exfalso.
      assert (B : Z.testbit (Z.lor u 1) 0 = true).
      { rewrite Z.lor_spec. change (Z.testbit 1 0) with true. apply orb_true_r. }
      rewrite Eu1, Z0 in B. discriminate. }
    specialize (Q3 Pm). split; [split; lra|]. split; [|auto].
    apply (grid_shift _ 0 m1). rewrite V1. change (inject_Z 0) with 0%Q. ring.
Qed.

(* C52: any number of draws of any kind after any seed. *)
Theorem C52_intervals : forall seed ks, 0 <= seed < 2 ^ 32 ->
  exists r l r', make_rng seed = Ok r /\ draws ks r = Ok (l, r') /\
    Forall2 in_interval ks l /\ Forall grid l.
Proof.
  intros seed ks H. destruct (make_ok seed H) as (r & E & A & _).
  exists r.
  assert (G : forall ks r, alive r -> exists l r', draws ks r = Ok (l, r') /\
    Forall2 in_interval ks l /\ Forall grid l).
  { clear. induction ks as [|k ks IH]; intros r A; cbn [draws].
    - exists [], r. auto.
    - destruct (draw_in k r A) as (x & r1 & E1 & I1 & G1 & A1). rewrite E1. cbn [bind].
      destruct (IH r1 A1) as (l & r2 & E2 & I2 & G2). rewrite E2. cbn [bind].
      exists (x :: l), r2. auto. }
  destruct (G ks r A) as (l & r' & E' & I & Gr). exists l, r'. auto.
Qed.

(* a seed whose lung has to be repaired, and the same lung without the repair *)
Example C53_demo : exists u0 u1,
  nth_error (masked (pair_words (words32 0))) 382 = Some u0 /\
  nth_error (masked (pair_words (words32 0))) 383 = Some u1 /\
  ~ certified u0 u1 /\ certified u0 (Z.lxor u1 1).
Proof.
  do 2 eexists. split; [vm_compute; reflexivity|]. split; [vm_compute; reflexivity|].
  unfold certified. split; [vm_compute; discriminate | vm_compute; reflexivity].
Qed.
Example C52_demo : exists r r', make_rng 12345 = Ok r /\
  draws [Closed1Open2; Open0Closed1] r = Ok ([double_of 4608549129774403280;
    (2 - double_of 4608049684289310443)%Q], r').
Proof.
  do 2 eexists. split; [vm_compute; reflexivity|]. vm_compute. reflexivity.
Qed.

Print Assumptions C53_certified.
Print Assumptions C52_intervals.
