(* C50, C51 and C64: the axle counts of a survey. *)
From Coq Require Import ZArith QArith List Bool Lia Arith.
From Verif Require Import Base MathModel TrafficModel PropsTraffic.
Import ListNotations.
Local Open Scope Z_scope.

(* ================= C50 ================= *)
(* the axles a lane's counts stand for: bogeys count one per group, except for those of more
   than three axles *)
Definition cell (wg : list Z) (j t i : nat) : Z := nth ((j * 5 + t) * 21 + i) wg 0.
Definition groups (wg : list Z) (j t : nat) : Z :=
  zsum (map (cell wg j t) (seq 0 21)).
Definition axles (wg : list Z) (j : nat) : Z :=
  groups wg j STEER + groups wg j DUAL + 2 * groups wg j TANDEM + 3 * groups wg j TRIDEM
  + groups wg j BEDA.

Definition ascii (c : Z) : Prop := 0 <= c <= 126.

Lemma loop_total : forall w b p n r, Forall ascii b -> (p + w <= length b)%nat -> (w <= 6)%nat ->
  Z.abs r <= 10 ^ Z.of_nat (6 - w) - 1 ->
  exists n' r', digit_loop w b p n r = Ok (n', r') /\ Z.abs r' <= 999999.
Proof.
  induction w; intros b p n r Ha Hp Hw Hr; cbn [digit_loop].
  - exists n, r. split; [reflexivity|]. change (10 ^ Z.of_nat (6 - 0)) with 1000000 in Hr. lia.
  - destruct (nth_error b p) as [c|] eqn:E.
    2:{ apply nth_error_None in E. lia. }
    rewrite (proj2 (aget_ok _ _ _) E). cbn [bind].
    assert (Hc : ascii c) by (rewrite Forall_forall in Ha; apply Ha; eapply nth_error_In; eauto).
    unfold ascii in Hc.
    assert (P : 10 ^ Z.of_nat (6 - w) = 10 * 10 ^ Z.of_nat (6 - S w)).
    { replace (Z.of_nat (6 - w)) with (Z.succ (Z.of_nat (6 - S w))) by lia.
      apply Z.pow_succ_r. lia. }
    assert (P2 : 10 ^ Z.of_nat (6 - S w) <= 100000).
    { change 100000 with (10 ^ 5). apply Z.pow_le_mono_r; lia. }
    assert (INT_MIN = -2147483648 /\ INT_MAX = 2147483647) as [B1 B2] by (split; reflexivity).
    rewrite i32_in by lia. cbn [bind]. rewrite i32_in by lia. cbn [bind].
    rewrite i32_in by lia. cbn [bind].
    destruct (Z.eqb_spec r 0), (Z.eqb_spec c 45); cbn [andb].
    1: { apply IHw; auto; lia. }
    all: rewrite ctype_ok by lia; cbn [bind]; destruct (is_digit c) eqn:D; cbn [negb].
    all: try (apply is_digit_spec in D; unfold digit in D; apply IHw; auto; lia).
    all: exists n, r; split; [reflexivity|lia].
Qed.
Lemma skip_total : forall w b p, Forall ascii b -> (p + w <= length b)%nat ->
  exists w' p', skip_blanks w b p = Ok (w', p') /\ (w' <= w)%nat /\ (p' + w' = p + w)%nat.
Proof.
  induction w; intros b p Ha Hp; cbn [skip_blanks].
  - exists 0%nat, p. auto.
  - destruct (nth_error b p) as [c|] eqn:E.
    2:{ apply nth_error_None in E. lia. }
    rewrite (proj2 (aget_ok _ _ _) E). cbn [bind].
    assert (Hc : ascii c) by (rewrite Forall_forall in Ha; apply Ha; eapply nth_error_In; eauto).
    unfold ascii in Hc. rewrite ctype_ok by lia. cbn [bind].
    destruct (is_space c).
    + destruct (IHw b (S p) Ha ltac:(lia)) as (w' & p' & E' & H1 & H2).
      exists w', p'. split; [exact E'|]. lia.
    + exists (S w), p. auto.
Qed.
Lemma str2int_total : forall w b p, Forall ascii b -> (p + w <= length b)%nat -> (w <= 6)%nat ->
  exists v, str2int b p w = Ok v /\ Z.abs v <= 999999.
Proof.
  intros w b p Ha Hp Hw. unfold str2int.
  destruct (skip_total w b p Ha Hp) as (w' & p' & E & H1 & H2). rewrite E. cbn [bind].
  destruct (loop_total w' b p' false 0 Ha ltac:(lia) ltac:(lia)) as (n & r & E' & Hr).
  { assert (0 < 10 ^ Z.of_nat (6 - w')) by (apply Z.pow_pos_nonneg; lia). lia. }
  rewrite E'. cbn [bind].
  assert (INT_MIN = -2147483648 /\ INT_MAX = 2147483647) as [B1 B2] by (split; reflexivity).
  destruct n; [rewrite i32_in by lia|]; eexists; split; try reflexivity; lia.
Qed.

(* counting *)
Lemma nth_upd : forall (l : list Z) i j x, (i < length l)%nat ->
  nth j (upd l i x) 0 = if (i =? j)%nat then x else nth j l 0.
Proof.
  induction l as [|y l IH]; intros i j x H; cbn in H; [lia|].
  destruct i, j; cbn; auto. apply IH. lia.
Qed.
Lemma sum_upd : forall n s base wg k x, (k < length wg)%nat ->
  zsum (map (fun i => nth (base + i) (upd wg k x) 0) (seq s n))
  = zsum (map (fun i => nth (base + i) wg 0) (seq s n))
    + (if ((base + s <=? k) && (k <? base + s + n))%nat then x - nth k wg 0 else 0).
Proof.
  induction n; intros s base wg k x Hk; cbn [seq map zsum fold_right].
  - destruct (Nat.leb_spec (base + s) k), (Nat.ltb_spec k (base + s + 0)); cbn [andb]; lia.
  - fold (zsum (map (fun i => nth (base + i) (upd wg k x) 0) (seq (S s) n))).
    fold (zsum (map (fun i => nth (base + i) wg 0) (seq (S s) n))).
    rewrite IHn by auto. rewrite nth_upd by auto.
    destruct (Nat.eqb_spec k (base + s)) as [->|N].
    + destruct (Nat.leb_spec (base + S s) (base + s)); [lia|].
      destruct (Nat.leb_spec (base + s) (base + s)); [|lia].
      destruct (Nat.ltb_spec (base + s) (base + s + S n)); [|lia]. cbn [andb]. lia.
    + destruct (Nat.leb_spec (base + S s) k), (Nat.ltb_spec k (base + S s + n)),
        (Nat.leb_spec (base + s) k), (Nat.ltb_spec k (base + s + S n)); cbn [andb]; lia.
Qed.
Lemma groups_upd : forall wg j t il at_ l x,
  length wg = 630%nat -> (il < 6)%nat -> (at_ < 5)%nat -> (l < 21)%nat -> (t < 5)%nat ->
  let k := ((il * 5 + at_) * 21 + l)%nat in
  groups (upd wg k x) j t = groups wg j t + (if ((il =? j) && (at_ =? t))%nat then x - nth k wg 0 else 0).
Proof.
  intros wg j t il at_ l x L H1 H2 H3 H4 k. unfold groups, cell.
  rewrite sum_upd by (unfold k; lia). f_equal.
  destruct (Nat.eqb_spec il j), (Nat.eqb_spec at_ t); cbn [andb].
  all: destruct (Nat.leb_spec ((j * 5 + t) * 21 + 0) k), (Nat.ltb_spec k ((j * 5 + t) * 21 + 0 + 21));
    cbn [andb]; try reflexivity; unfold k in *; exfalso; try lia.
Qed.
Definition weight (t : nat) : Z := match t with 2%nat => 2 | 3%nat => 3 | _ => 1 end.
Lemma axles_incr : forall wg il at_ l j,
  length wg = 630%nat -> (il < 6)%nat -> (at_ < 5)%nat -> (l < 21)%nat ->
  exists wg', (let* k := wg_index il at_ l in incr wg k) = Ok wg' /\ length wg' = 630%nat /\
    axles wg' j = axles wg j + (if (il =? j)%nat then weight at_ else 0).
Proof.
  intros wg il at_ l j L H1 H2 H3. unfold wg_index, MAX_LANES, AXLE_TYPES, LOADS.
  destruct (Nat.ltb_spec il 6); [|lia]. destruct (Nat.ltb_spec at_ 5); [|lia].
  destruct (Nat.ltb_spec l 21); [|lia]. cbn [andb bind].
  set (k := ((il * 5 + at_) * 21 + l)%nat).
  assert (Hk : (k < length wg)%nat) by (unfold k; lia).
  unfold incr. rewrite (proj2 (aget_ok _ _ _) (nth_error_nth' wg 0 Hk)). cbn [bind].
  rewrite aset_ok by lia. eexists. split; [reflexivity|]. split; [now rewrite length_upd|].
  unfold axles, STEER, DUAL, TANDEM, TRIDEM, BEDA.
  unfold k. rewrite !groups_upd by lia. fold k.
  destruct (il =? j)%nat; cbn [andb]; [|lia].
  destruct at_ as [|[|[|[|[|]]]]]; cbn [Nat.eqb weight]; lia.
Qed.
(* the same for all lanes at once *)
Lemma axles_incr_all : forall wg il at_ l,
  length wg = 630%nat -> (il < 6)%nat -> (at_ < 5)%nat -> (l < 21)%nat ->
  exists wg', (let* k := wg_index il at_ l in incr wg k) = Ok wg' /\ length wg' = 630%nat /\
    forall j, axles wg' j = axles wg j + (if (il =? j)%nat then weight at_ else 0).
Proof.
  intros wg il at_ l L H1 H2 H3.
  destruct (axles_incr wg il at_ l 0 L H1 H2 H3) as (wg' & E & L' & _).
  exists wg'. split; [exact E|]. split; [exact L'|]. intros j.
  destruct (axles_incr wg il at_ l j L H1 H2 H3) as (wg'' & E' & _ & A). congruence.
Qed.

Section Vehicle.
Context {D : Type} (Dp : dops D).
Variable mktime : Z -> Z -> Z -> Z.

Lemma load_group_le : forall k l W, (load_group Dp k l W <= l + k)%nat.
Proof.
  induction k; intros l W; cbn [load_group]; [lia|].
  destruct (dlt Dp W _); [lia|]. specialize (IHk (S l) W). lia.
Qed.
Lemma bogey_ok : forall fuel AS na ia ib, (na <= length AS)%nat ->
  (1 <= ib)%nat -> (ia + ib <= na)%nat -> (na - (ia + ib) < fuel)%nat ->
  exists ib', bogey Dp fuel AS na ia ib = Ok ib' /\ (1 <= ib')%nat /\ (ia + ib' <= na)%nat.
Proof.
  induction fuel; intros AS na ia ib HL H1 H2 HF; [lia|]. cbn [bogey].
  destruct (Nat.ltb_spec (ia + ib) na); [|eauto].
  destruct (nth_error AS (ia + ib)) as [s|] eqn:E.
  2:{ apply nth_error_None in E. lia. }
  rewrite (proj2 (aget_ok _ _ _) E). cbn [bind].
  destruct (dle Dp s _); [|eauto]. apply IHfuel; lia.
Qed.
Lemma add_each_ok : forall k il i AW wg, (il < 6)%nat -> (i + k <= length AW)%nat ->
  length wg = 630%nat ->
  exists wg', add_each Dp k il BEDA i AW wg = Ok wg' /\ length wg' = 630%nat /\
    forall j, axles wg' j = axles wg j + (if (il =? j)%nat then Z.of_nat k else 0).
Proof.
  induction k; intros il i AW wg Hil Hi HL; cbn [add_each].
  - exists wg. split; [reflexivity|]. split; [auto|]. intros j. destruct (il =? j)%nat; lia.
  - destruct (nth_error AW i) as [w|] eqn:E.
    2:{ apply nth_error_None in E. lia. }
    rewrite (proj2 (aget_ok _ _ _) E). cbn [bind].
    pose proof (load_group_le (LOADS - 1) 0 w) as G. unfold LOADS in G at 2. cbn [Nat.sub Nat.add] in G.
    destruct (axles_incr_all wg il BEDA (load_group Dp (LOADS - 1) 0 w) HL Hil
      ltac:(unfold BEDA; lia) ltac:(lia)) as (wg1 & E1 & L1 & A1).
    destruct (wg_index il BEDA (load_group Dp (LOADS - 1) 0 w)) as [k0| |] eqn:Ek;
      cbn [bind] in E1 |- *; try discriminate.
    rewrite E1. cbn [bind].
    destruct (IHk il (S i) AW wg1 Hil ltac:(lia) L1) as (wg2 & E2 & L2 & A2).
    exists wg2. split; [exact E2|]. split; [auto|]. intros j. rewrite A2, A1.
    destruct (il =? j)%nat; [|lia]. change (weight BEDA) with 1. lia.
Qed.
Lemma sum_w_ok : forall k i AW W, (i + k <= length AW)%nat ->
  exists W', sum_w Dp k i AW W = Ok W'.
Proof.
  induction k; intros i AW W H; cbn [sum_w]; [eauto|].
  destruct (nth_error AW i) as [w|] eqn:E.
  2:{ apply nth_error_None in E. lia. }
  rewrite (proj2 (aget_ok _ _ _) E). cbn [bind]. apply IHk. lia.
Qed.
Lemma add_spacing_ok : forall k i AS ib at_ aas, (i + k <= length AS)%nat ->
  (at_ < length aas)%nat ->
  exists aas', add_spacing Dp k i AS ib at_ aas = Ok aas' /\ length aas' = length aas.
Proof.
  induction k; intros i AS ib at_ aas H Ha; cbn [add_spacing]; [eauto|].
  destruct (nth_error AS i) as [w|] eqn:E.
  2:{ apply nth_error_None in E. lia. }
  rewrite (proj2 (aget_ok _ _ _) E). cbn [bind].
  destruct (nth_error aas at_) as [a|] eqn:Ea.
  2:{ apply nth_error_None in Ea. lia. }
  rewrite (proj2 (aget_ok _ _ _) Ea). cbn [bind]. rewrite aset_ok by auto. cbn [bind].
  destruct (IHk (S i) AS ib at_
    (upd aas at_ (dadd Dp a (ddiv Dp w (dz Dp (Z.of_nat ib - 1)))))) as (aas' & E' & L').
  - lia.
  - now rewrite length_upd.
  - exists aas'. rewrite length_upd in L'. auto.
Qed.
Lemma add_bogey_ok : forall il na ia ib AS AW wg aas,
  (il < 6)%nat -> (1 <= ib)%nat -> (ia + ib <= na)%nat -> (na <= length AS)%nat ->
  (na <= length AW)%nat -> length wg = 630%nat -> length aas = 5%nat ->
  exists wg' aas', add_bogey Dp il na ia ib AS AW wg aas = Ok (wg', aas') /\
    length wg' = 630%nat /\ length aas' = 5%nat /\
    forall j, axles wg' j = axles wg j + (if (il =? j)%nat then Z.of_nat ib else 0).
Proof.
  intros il na ia ib AS AW wg aas Hil Hib Hn HS HW HL HA. unfold add_bogey.
  destruct (Nat.eqb_spec (axle_type na ia ib) BEDA) as [Eb|Nb].
  - rewrite Eb. destruct (add_each_ok ib il ia AW wg Hil ltac:(lia) HL) as (wg' & E & L & A).
    rewrite E. cbn [bind]. exists wg', aas. auto.
  - destruct (sum_w_ok ib ia AW (dlit Dp 0) ltac:(lia)) as (W & E). rewrite E. cbn [bind].
    set (lg := load_group Dp (LOADS - 1) 0 (ddiv Dp W (dz Dp (Z.of_nat ib)))).
    assert (G : (lg <= 20)%nat) by (apply (load_group_le (LOADS - 1) 0)).
    assert (T : (axle_type na ia ib < 5)%nat /\ weight (axle_type na ia ib) = Z.of_nat ib).
    { clear -Hib Nb. unfold axle_type, BEDA, TRIDEM, TANDEM, STEER, DUAL in *.
      destruct (Nat.ltb_spec 3 ib); [contradiction|].
      destruct (Nat.eqb_spec ib 3) as [->|]; [split; [lia|reflexivity]|].
      destruct (Nat.eqb_spec ib 2) as [->|]; [split; [lia|reflexivity]|].
      assert (ib = 1%nat) by lia. subst.
      destruct ((ia =? 0)%nat && (1 <? na)%nat); split; try lia; reflexivity. }
    destruct T as [T1 T2].
    destruct (axles_incr_all wg il (axle_type na ia ib) lg HL Hil T1 ltac:(lia))
      as (wg1 & E1 & L1 & A1).
    destruct (wg_index il (axle_type na ia ib) lg) as [k0| |] eqn:Ek;
      cbn [bind] in E1 |- *; try discriminate.
    rewrite E1. cbn [bind].
    destruct (add_spacing_ok (ib - 1) (ia + 1) AS ib (axle_type na ia ib) aas
      ltac:(lia) ltac:(lia)) as (aas' & E2 & L2).
    rewrite E2. cbn [bind]. exists wg1, aas'. split; [reflexivity|]. split; [auto|].
    split; [lia|]. intros j. rewrite A1, T2. reflexivity.
Qed.
Lemma add_bogeys_ok : forall fuel il na ia AS AW wg aas,
  (il < 6)%nat -> (ia <= na)%nat -> (na - ia <= fuel)%nat -> (na <= length AS)%nat ->
  (na <= length AW)%nat -> length wg = 630%nat -> length aas = 5%nat ->
  exists wg' aas', add_bogeys Dp fuel il na ia AS AW wg aas = Ok (wg', aas') /\
    length wg' = 630%nat /\ length aas' = 5%nat /\
    forall j, axles wg' j = axles wg j + (if (il =? j)%nat then Z.of_nat (na - ia) else 0).
Proof.
  induction fuel; intros il na ia AS AW wg aas Hil Hia Hf HS HW HL HA; cbn [add_bogeys].
  - destruct (Nat.ltb_spec ia na); [lia|]. exists wg, aas. split; [reflexivity|].
    repeat split; auto. intros j. destruct (il =? j)%nat; lia.
  - destruct (Nat.ltb_spec ia na).
    + destruct (bogey_ok (S na) AS na ia 1 HS ltac:(lia) ltac:(lia) ltac:(lia))
        as (ib & Eb & Hb1 & Hb2).
      rewrite Eb. cbn [bind].
      destruct (add_bogey_ok il na ia ib AS AW wg aas Hil Hb1 Hb2 HS HW HL HA)
        as (wg1 & aas1 & E1 & L1 & LA1 & A1).
      rewrite E1. cbn [bind].
      destruct (IHfuel il na (ia + ib)%nat AS AW wg1 aas1 Hil Hb2 ltac:(lia) HS HW L1 LA1)
        as (wg2 & aas2 & E2 & L2 & LA2 & A2).
      exists wg2, aas2. split; [exact E2|]. repeat split; auto.
      intros j. rewrite A2, A1. destruct (il =? j)%nat; lia.
    + exists wg, aas. split; [reflexivity|]. repeat split; auto.
      intros j. destruct (il =? j)%nat; lia.
Qed.
Lemma read_axles_ok : forall k ia b off w f, Forall ascii b -> (w <= 6)%nat ->
  (off + (ia + k) * 9 + w <= length b)%nat ->
  exists l, read_axles Dp k ia b off w f = Ok l /\ length l = k.
Proof.
  induction k; intros ia b off w f Ha Hw Hb; cbn [read_axles]; [eauto|].
  destruct (str2int_total w b (off + ia * 9) Ha ltac:(lia) Hw) as (v & E & _).
  rewrite E. cbn [bind]. destruct (IHk (S ia) b off w f Ha Hw ltac:(lia)) as (l & El & L).
  rewrite El. cbn [bind]. eexists. split; [reflexivity|]. cbn. lia.
Qed.

(* the shape of the structure *)
Record shaped (st : @wim D) : Prop := {
  sh_lv : length (LVPL st) = 6%nat; sh_hv : length (HVPL st) = 6%nat;
  sh_wg : length (WG st) = 630%nat; sh_aas : length (AAS st) = 5%nat }.
Definition bump (l l' : list Z) (j : nat) : Prop :=
  length l' = length l /\ forall i, nth i l' 0 = nth i l 0 + (if (i =? j)%nat then 1 else 0).
Lemma incr_ok : forall l j, (j < length l)%nat -> exists l', incr l j = Ok l' /\ bump l l' j.
Proof.
  intros l j H. unfold incr. rewrite (proj2 (aget_ok _ _ _) (nth_error_nth' l 0 H)). cbn [bind].
  rewrite aset_ok by auto. eexists. split; [reflexivity|]. split; [apply length_upd|].
  intros i. rewrite nth_upd by auto. rewrite (Nat.eqb_sym j i).
  destruct (Nat.eqb_spec i j); subst; lia.
Qed.

(* what a record does *)
Inductive outcome_of (st : @wim D) (b : list Z) : bool -> @wim D -> Prop :=
| rejected : outcome_of st b false st
| short_vehicle : forall st', SV st' = SV st + 1 -> LVPL st' = LVPL st -> HVPL st' = HVPL st ->
    WG st' = WG st -> AAS st' = AAS st -> day st' = day st -> outcome_of st b true st'
| light_vehicle : forall st' j, (j < 6)%nat -> bump (LVPL st) (LVPL st') j ->
    SV st' = SV st -> HVPL st' = HVPL st -> WG st' = WG st -> AAS st' = AAS st ->
    day st' = day st -> outcome_of st b true st'
| heavy_vehicle : forall st' j na, (j < 6)%nat -> 0 < na <= 15 ->
    (* the fields of the record *)
    str2int b 24 2 = Ok (Z.of_nat j + 1) -> str2int b 51 2 = Ok na ->
    bump (HVPL st) (HVPL st') j -> SV st' = SV st -> LVPL st' = LVPL st -> day st' = day st ->
    (forall i, axles (WG st') i = axles (WG st) i + (if (j =? i)%nat then na else 0)) ->
    outcome_of st b true st'.

Theorem C50_axles : forall st b, shaped st -> Forall ascii b -> length b = 256%nat ->
  exists r st', AddRSAVehicle Dp mktime st b = Ok (r, st') /\ outcome_of st b r st' /\ shaped st'.
Proof.
  intros st b [S1 S2 S3 S4] Ha Lb. unfold AddRSAVehicle.
  unfold str2time. destruct (str2int_total 6 b 5 Ha ltac:(lia) ltac:(lia)) as (d & Ed & _).
  rewrite Ed. cbn [bind].
  match goal with |- context [if d =? 0 then Ok (-1) else Ok ?x] =>
    assert (Et : exists t, (if d =? 0 then Ok (-1) else Ok x) = Ok t)
      by (destruct (d =? 0); eauto) end.
  destruct Et as [t Et]. rewrite Et. cbn [bind].
  destruct (negb (t =? day st)).
  { do 2 eexists. split; [reflexivity|]. split; [constructor|constructor; auto]. }
  destruct (str2int_total 2 b 24 Ha ltac:(lia) ltac:(lia)) as (il & Eil & _).
  rewrite Eil. cbn [bind]. unfold MAX_LANES at 1.
  destruct (Z.ltb_spec (il - 1) 0).
  { do 2 eexists. split; [reflexivity|]. split; [constructor|constructor; auto]. }
  destruct (Z.leb_spec (Z.of_nat 6) (il - 1)); cbn [orb].
  { do 2 eexists. split; [reflexivity|]. split; [constructor|constructor; auto]. }
  destruct (str2int_total 4 b 33 Ha ltac:(lia) ltac:(lia)) as (L & EL & _).
  rewrite EL. cbn [bind]. destruct (dlt Dp _ _).
  { do 2 eexists. split; [reflexivity|].
    split; [apply short_vehicle; reflexivity|constructor; auto]. }
  destruct (str2int_total 2 b 51 Ha ltac:(lia) ltac:(lia)) as (na & En & _).
  rewrite En. cbn [bind].
  destruct (Z.ltb_spec na 0); cbn [orb].
  { do 2 eexists. split; [reflexivity|]. split; [constructor|constructor; auto]. }
  unfold MAX_AXLES. destruct (Z.ltb_spec 15 na).
  { do 2 eexists. split; [reflexivity|]. split; [constructor|constructor; auto]. }
  destruct (read_axles_ok (Z.to_nat na) 0 b 54 3 (dlit Dp (1#10)) Ha ltac:(lia) ltac:(lia))
    as (AW & EW & LW).
  rewrite EW. cbn [bind].
  destruct (read_axles_ok (Z.to_nat na - 1) 1 b 49 4 (dlit Dp (1#100)) Ha ltac:(lia) ltac:(lia))
    as (ASt & ES & LS).
  rewrite ES. cbn [bind].
  set (corr := (na =? 2) && _ && _).
  set (AW' := if corr then map _ AW else AW).
  assert (LW' : length AW' = Z.to_nat na).
  { unfold AW'. destruct corr; [rewrite map_length|]; auto. }
  set (j := Z.to_nat (il - 1)).
  assert (Hj : (j < 6)%nat) by (unfold j; lia).
  destruct (is_light Dp na _ _) eqn:El.
  - destruct (incr_ok (LVPL st) j ltac:(lia)) as (lv & Elv & B). rewrite Elv. cbn [bind].
    do 2 eexists. split; [reflexivity|].
    split; [eapply light_vehicle; eauto|]. constructor; cbn; auto. destruct B; lia.
  - destruct (incr_ok (HVPL st) j ltac:(lia)) as (hv & Ehv & B). rewrite Ehv. cbn [bind].
    assert (Pos : 0 < na).
    { destruct (Z.eq_dec na 0) as [->|]; [|lia]. cbn in El. discriminate. }
    destruct (add_bogeys_ok (Z.to_nat na) j (Z.to_nat na) 0 (dlit Dp 0 :: ASt) AW' (WG st) (AAS st))
      as (wg & aas & Eb & Lw & La & A); auto; try lia.
    { cbn [length]. lia. }
    rewrite Eb. cbn [bind]. do 2 eexists. split; [reflexivity|].
    split.
    + apply heavy_vehicle with (j := j) (na := na); cbn; auto; try lia.
      * rewrite Eil. f_equal. unfold j. lia.
      * intros i. rewrite A. destruct (j =? i)%nat; lia.
    + constructor; cbn; auto. destruct B; lia.
Qed.
End Vehicle.
Print Assumptions C50_axles.

(* A concrete record: exact arithmetic with a NaN for divisions by zero. *)
Definition lift2 (f : Q -> Q -> Q) (a b : option Q) : option Q :=
  match a, b with Some x, Some y => Some (f x y) | _, _ => None end.
Definition QD : dops (option Q) := {|
  dz := fun z => Some (inject_Z z); dlit := fun q => Some q;
  dadd := lift2 Qplus; dmul := lift2 Qmult;
  ddiv := fun a b => match a, b with
    | Some x, Some y => if Qeq_bool y 0 then None else Some (x / y)%Q | _, _ => None end;
  dlt := fun a b => match a, b with Some x, Some y => negb (Qle_bool y x) | _, _ => false end;
  dle := fun a b => match a, b with Some x, Some y => Qle_bool x y | _, _ => false end |}.
Fixpoint put (p : nat) (s b : list Z) : list Z :=
  match s with [] => b | c :: s => put (S p) s (upd b p c) end.
(* 1 January 2001, lane 2, 9 m, three axles of 6, 8 and 8 tonne, 3.5 and 1.3 m apart *)
Definition demo_record : list Z :=
  put 5 [48;49;48;49;48;49] (put 24 [32;50] (put 33 [48;57;48;48] (put 51 [32;51]
  (put 54 [48;54;48] (put 58 [48;51;53;48] (put 63 [48;56;48] (put 67 [48;49;51;48]
  (put 72 [48;56;48] (repeat 32 256))))))))).
Definition demo_mktime (y m d : Z) : Z := y * 10000 + m * 100 + d.
Example C50_demo :
  Forall ascii demo_record /\ length demo_record = 256%nat /\
  exists st', AddRSAVehicle QD demo_mktime (cleared QD 1010001) demo_record = Ok (true, st') /\
    nth 1 (HVPL st') 0 = 1 /\ groups (WG st') 1 STEER = 1 /\ groups (WG st') 1 TANDEM = 1 /\
    axles (WG st') 1 = 3 /\ axles (WG st') 0 = 0.
Proof.
  split; [|split; [reflexivity|]].
  - apply Forall_forall. intros c H.
    assert (G : forallb (fun c => (0 <=? c) && (c <=? 126)) demo_record = true) by reflexivity.
    rewrite forallb_forall in G. specialize (G c H). apply andb_true_iff in G.
    rewrite !Z.leb_le in G. exact G.
  - destruct (AddRSAVehicle QD demo_mktime (cleared QD 1010001) demo_record)
      as [[r st']| |] eqn:E; vm_compute in E; try discriminate.
    inversion E; subst. eexists. split; [reflexivity|]. repeat split.
Qed.

(* ================= C51 ================= *)
Section Reading.
Context {D : Type} (Dp : dops D).
(* every count of the structure *)
Inductive counter := c_SV | c_LV (j : nat) | c_HV (j : nat) | c_WG (k : nat).
Definition count (c : counter) (d : @wim D) : Z :=
  match c with
  | c_SV => SV d
  | c_LV j => nth j (LVPL d) 0
  | c_HV j => nth j (HVPL d) 0
  | c_WG k => nth k (WG d) 0
  end.
Lemma nth_zip : forall a b k, length a = length b ->
  nth k (zip Z.add a b) 0 = nth k a 0 + nth k b 0.
Proof.
  induction a as [|x a IH]; intros [|y b] k H; cbn in H; try discriminate.
  - now destruct k.
  - destruct k; cbn; auto.
Qed.
Lemma length_zip : forall a b, length a = length b -> length (zip Z.add a b) = length a.
Proof. induction a; intros [|y b] H; cbn in *; auto; try discriminate. Qed.
Lemma add_shaped : forall a d, shaped a -> shaped d -> shaped (add_day Dp a d).
Proof.
  intros a d [A1 A2 A3 A4] [D1 D2 D3 D4].
  constructor; cbn; rewrite ?length_zip; congruence.
Qed.
Lemma add_count : forall a d c, shaped a -> shaped d ->
  count c (add_day Dp a d) = count c a + count c d.
Proof.
  intros a d c [A1 A2 A3 A4] [D1 D2 D3 D4].
  destruct c; cbn [count add_day SV LVPL HVPL WG]; auto; apply nth_zip; congruence.
Qed.
Lemma cleared_shaped : forall t, shaped (cleared Dp t).
Proof. intros t. constructor; reflexivity. Qed.
Lemma nth_zeros : forall n k, nth k (repeat 0 n) 0 = 0.
Proof. induction n; destruct k; cbn; auto. Qed.
Lemma cleared_count : forall t c, count c (cleared Dp t) = 0.
Proof. intros t c. destruct c; cbn [count cleared SV LVPL HVPL WG]; auto; apply nth_zeros. Qed.

Definition in_period (s e : Z) (d : @wim D) : bool := (s <=? day d) && (day d <=? e).
Definition total (c : counter) (l : list (@wim D)) : Z := zsum (map (count c) l).

Lemma read_loop_ok : forall l fuel s e d sv, (length l < fuel)%nat ->
  shaped d -> shaped sv -> Forall shaped l ->
  exists r, read_loop Dp fuel s e {| recs := l; d_eof := false |} d sv = Ok r /\ shaped r /\
    forall c, count c r = count c sv + total c (filter (in_period s e) (l ++ [last l d])).
Proof.
  induction l as [|x l IH]; intros fuel s e d sv Hf Hd Hs Hl; destruct fuel as [|fuel];
    cbn [length] in Hf; try lia; cbn [read_loop d_eof read_rec recs].
  - fold (in_period s e d).
    assert (E : forall q, read_loop Dp fuel s e {| recs := []; d_eof := true |} d q = Ok q)
      by (destruct fuel; reflexivity).
    rewrite E. eexists. split; [reflexivity|]. cbn [app last filter].
    destruct (in_period s e d); split; auto using add_shaped; intros c; unfold total; cbn.
    + rewrite add_count by auto. lia.
    + lia.
  - fold (in_period s e x). inversion Hl; subst.
    set (sv' := if in_period s e x then add_day Dp sv x else sv).
    assert (Hs' : shaped sv') by (unfold sv'; destruct (in_period s e x); auto using add_shaped).
    destruct (IH fuel s e x sv' ltac:(lia) H1 Hs' H2) as (r & E & Hr & C).
    exists r. split; [exact E|]. split; [auto|]. intros c. rewrite C.
    assert (La : last (x :: l) d = last l x).
    { clear. revert x d. induction l as [|y l IHl]; intros; [reflexivity|].
      change (last (x :: y :: l) d) with (last (y :: l) d). rewrite IHl.
      symmetry. apply IHl. }
    rewrite La. cbn [app filter]. unfold sv'.
    destruct (in_period s e x).
    + rewrite add_count by auto. unfold total. cbn [map zsum fold_right].
      fold (zsum (map (count c) (filter (in_period s e) (l ++ [last l x])))). lia.
    + reflexivity.
Qed.

(* What reading computes: every day of the period, and the last record of the file again. *)
Theorem C51_reads : forall l s e sv, Forall shaped l -> shaped sv ->
  exists r, survey_read Dp s e l sv = Ok r /\ shaped r /\
    forall c, count c r = count c sv + total c (filter (in_period s e) l)
      + match l with
        | [] => 0
        | x :: _ => if in_period s e (last l x) then count c (last l x) else 0
        end.
Proof.
  intros l s e sv Hl Hs. unfold survey_read.
  destruct (read_loop_ok l (S (length l)) s e (cleared Dp (-1)) sv ltac:(lia)
    (cleared_shaped _) Hs Hl) as (r & E & Hr & C).
  exists r. split; [exact E|]. split; [auto|]. intros c. rewrite C.
  rewrite filter_app. unfold total. rewrite map_app.
  assert (Za : forall a b, zsum (a ++ b) = zsum a + zsum b).
  { unfold zsum. induction a; intros b; cbn [app fold_right]; [lia|]. rewrite IHa. lia. }
  rewrite Za. destruct l as [|x l].
  - cbn [filter last map]. 
    destruct (in_period s e (cleared Dp (-1))); cbn [map]; unfold zsum; cbn [fold_right].
    + pose proof (cleared_count (-1) c). lia.
    + lia.
  - assert (La : forall (y : @wim D) z, last (x :: l) y = last (x :: l) z).
    { clear. revert x. induction l as [|w l IH]; intros; [reflexivity|].
      change (last (w :: l) y = last (w :: l) z). apply IH. }
    rewrite (La (cleared Dp (-1)) x).
    set (T := zsum (map (count c) (filter (in_period s e) (x :: l)))).
    set (y := last (x :: l) x). cbn [filter].
    destruct (in_period s e y); cbn [map]; unfold zsum; cbn [fold_right]; lia.
Qed.
(* So the sums are right exactly when the last record has nothing to add. *)
Theorem C51_sums_partial : forall l s e sv, Forall shaped l -> shaped sv ->
  (forall x, nth_error l (length l - 1) = Some x -> in_period s e x = false) ->
  exists r, survey_read Dp s e l sv = Ok r /\
    forall c, count c r = count c sv + total c (filter (in_period s e) l).
Proof.
  intros l s e sv Hl Hs Hlast. destruct (C51_reads l s e sv Hl Hs) as (r & E & _ & C).
  exists r. split; [exact E|]. intros c. rewrite C. destruct l as [|x l]; [lia|].
  rewrite (Hlast (last (x :: l) x)); [lia|].
  clear. cbn [length]. rewrite Nat.sub_0_r || (replace (S (length l) - 1)%nat with (length l) by lia).
  assert (G : forall (l : list (@wim D)) x d, nth_error (x :: l) (length l) = Some (last (x :: l) d)).
  { clear. induction l as [|y l IH]; intros x d; [reflexivity|].
    change (nth_error (y :: l) (length l) = Some (last (y :: l) d)). apply IH. }
  apply G.
Qed.
End Reading.

(* A file of one day in the period: its vehicle is counted twice. *)
Definition one_day : @wim (option Q) :=
  {| day := 5; SV := 1; LVPL := repeat 0 6; HVPL := repeat 0 6; WG := repeat 0 630;
     AAS := repeat (Some 0%Q) 5 |}.
Theorem C51_last_day_twice_refuted :
  shaped one_day /\
  total c_SV (filter (in_period 0 9) [one_day]) = 1 /\
  exists r, survey_read QD 0 9 [one_day] (cleared QD (-1)) = Ok r /\ count c_SV r = 2.
Proof.
  split; [constructor; reflexivity|]. split; [reflexivity|].
  eexists. split; [reflexivity|]. reflexivity.
Qed.
Example C51_demo :
  exists r, survey_read QD 0 4 [cleared QD 3; one_day] (cleared QD (-1)) = Ok r /\ count c_SV r = 0.
Proof. eexists. split; [reflexivity|]. reflexivity. Qed.
Print Assumptions C51_reads.
Print Assumptions C51_sums_partial.

(* ================= C64 ================= *)
(* The average axle spacing of two days together, in exact arithmetic. *)
Definition groups_of (d : @wim (option Q)) (t : nat) : Z := AxC d t.
Definition spacing (d : @wim (option Q)) (t : nat) : option Q := nth t (AAS d) None.
Theorem C64_weighted_partial : forall a d t x y, (t < 5)%nat ->
  spacing a t = Some x -> spacing d t = Some y -> groups_of a t + groups_of d t <> 0 ->
  exists z, spacing (add_day QD a d) t = Some z /\
    (z * inject_Z (groups_of a t + groups_of d t)
     == inject_Z (groups_of a t) * x + inject_Z (groups_of d t) * y)%Q.
Proof.
  intros a d t x y Ht Hx Hy N. unfold spacing, groups_of in *.
  assert (E : nth t (AAS (add_day QD a d)) None = add_aas QD a d t).
  { cbn [add_day AAS]. destruct t as [|[|[|[|[|]]]]]; try reflexivity; exfalso; lia. }
  rewrite E. unfold add_aas.
  assert (Nx : nth t (AAS a) (dlit QD 0) = Some x).
  { destruct (lt_dec t (length (AAS a))).
    - rewrite (nth_indep _ _ None) by auto. exact Hx.
    - rewrite nth_overflow in Hx by lia. discriminate. }
  assert (Ny : nth t (AAS d) (dlit QD 0) = Some y).
  { destruct (lt_dec t (length (AAS d))).
    - rewrite (nth_indep _ _ None) by auto. exact Hy.
    - rewrite nth_overflow in Hy by lia. discriminate. }
  rewrite Nx, Ny. cbn [dz dmul dadd ddiv QD lift2].
  assert (Nz : ~ (inject_Z (AxC a t + AxC d t) == 0)%Q).
  { change 0%Q with (inject_Z 0). rewrite <- inject_Z_injective in N. exact N. }
  destruct (Qeq_bool _ 0) eqn:Eq; [apply Qeq_bool_iff in Eq; contradiction|].
  eexists. split; [reflexivity|]. field. exact Nz.
Qed.
(* Two days without an axle of some type make its average a NaN, for good. *)
Lemma spacing_add : forall a d t, (t < 5)%nat -> length (AAS a) = 5%nat ->
  spacing a t = None -> spacing (add_day QD a d) t = None.
Proof.
  intros a d t Ht L H. unfold spacing in *.
  assert (E : nth t (AAS (add_day QD a d)) None = add_aas QD a d t).
  { cbn [add_day AAS]. destruct t as [|[|[|[|[|]]]]]; try reflexivity; exfalso; lia. }
  rewrite E. unfold add_aas.
  rewrite (nth_indep _ (dlit QD 0) None) by lia. rewrite H. reflexivity.
Qed.
Theorem C64_nan_refuted : forall a d ds t, (t < 5)%nat -> length (AAS a) = 5%nat ->
  groups_of a t = 0 -> groups_of d t = 0 ->
  spacing (fold_left (add_day QD) ds (add_day QD a d)) t = None.
Proof.
  intros a d ds t Ht L H1 H2.
  assert (N : spacing (add_day QD a d) t = None).
  { unfold spacing, groups_of in *.
    assert (E : nth t (AAS (add_day QD a d)) None = add_aas QD a d t).
    { cbn [add_day AAS]. destruct t as [|[|[|[|[|]]]]]; try reflexivity; exfalso; lia. }
    rewrite E. unfold add_aas. rewrite H1, H2. cbn [dz dmul dadd ddiv QD].
    destruct (lift2 _ _ _); reflexivity. }
  assert (L' : length (AAS (add_day QD a d)) = 5%nat) by reflexivity.
  revert N L'. generalize (add_day QD a d). induction ds as [|x ds IH]; intros s N L'; [exact N|].
  cbn [fold_left]. apply IH; [now apply spacing_add|reflexivity].
Qed.
(* And the number kept for a day is the sum of the spacings, not their average: two tandems
   1.3 m apart give 2.6. *)
Theorem C64_sum_refuted :
  exists s2,
    (let* r := AddRSAVehicle QD demo_mktime (cleared QD 1010001) demo_record in
     AddRSAVehicle QD demo_mktime (snd r) demo_record) = Ok (true, s2) /\
    groups_of s2 TANDEM = 2 /\
    exists q, spacing s2 TANDEM = Some q /\ (q == 26#10)%Q.
Proof.
  destruct (let* r := AddRSAVehicle QD demo_mktime (cleared QD 1010001) demo_record in
     AddRSAVehicle QD demo_mktime (snd r) demo_record) as [[r s2]| |] eqn:E;
    vm_compute in E; try discriminate.
  inversion E; subst. eexists. split; [reflexivity|]. split; [reflexivity|].
  eexists. split; [reflexivity|]. reflexivity.
Qed.
Print Assumptions C64_weighted_partial.
Print Assumptions C64_nan_refuted.
Print Assumptions C64_sum_refuted.
