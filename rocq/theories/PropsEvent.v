(* C62: nested progress reporting. *)
From Coq Require Import ZArith QArith Qabs List Bool Lia Lqa.
From Verif Require Import Base EventModel.
Import ListNotations.
Local Open Scope Z_scope.

(* ---- specification ---- *)
(* what may happen inside a started bar, and outside of any *)
Inductive inside : list event -> Prop :=
| in_nil : inside []
| in_update : forall m l, inside l -> inside (Update m :: l)
| in_bar : forall M k b l, M <> 0 -> inside b -> inside l ->
    inside (Start M :: b ++ Stop k :: l).
Inductive well_nested : list event -> Prop :=
| wn_nil : well_nested []
| wn_bar : forall M k b l, M <> 0 -> inside b -> well_nested l ->
    well_nested (Start M :: b ++ Stop k :: l).
Definition fraction_ok (d : dbl) : Prop := exists q, d = Num q /\ (0 <= q)%Q /\ (q <= 1)%Q.

(* ---- proofs ---- *)
Lemma shown_num : forall q, fraction_ok (shown (Num q)).
Proof.
  intros q. unfold fraction_ok. cbn [shown].
  destruct (Qle_bool 0 q) eqn:E1; cbn [negb].
  - destruct (Qle_bool q 1) eqn:E2; cbn [negb].
    + apply Qle_bool_iff in E1. apply Qle_bool_iff in E2. eauto.
    + exists 1%Q. repeat split; lra.
  - exists 0%Q. repeat split; lra.
Qed.

Definition at_ (l : list Z) (i : nat) : Z := nth i l 0.
Record inv (s : progress) : Prop := {
  inv_max : length (pmax s) = 3%nat;
  inv_mark : length (pmark s) = 3%nat;
  inv_lev : -1 <= level s;
  inv_used : forall i, (i < 3)%nat -> Z.of_nat i <= level s -> at_ (pmax s) i <> 0;
  inv_free : forall i, (i < 3)%nat -> level s < Z.of_nat i ->
    at_ (pmax s) i = 0 /\ at_ (pmark s) i = 0 }.

Lemma iget_ok : forall l i, 0 <= i -> i < Z.of_nat (length l) ->
  iget l i = Ok (at_ l (Z.to_nat i)).
Proof.
  intros l i H1 H2. unfold iget. destruct (Z.ltb_spec i 0); [lia|].
  unfold at_. apply aget_ok. apply nth_error_nth'. lia.
Qed.
Lemma iset_ok : forall l i x, 0 <= i -> i < Z.of_nat (length l) ->
  iset l i x = Ok (upd l (Z.to_nat i) x).
Proof.
  intros l i x H1 H2. unfold iset. destruct (Z.ltb_spec i 0); [lia|].
  apply aset_ok. lia.
Qed.
Lemma at_upd : forall l i j x, (i < length l)%nat ->
  at_ (upd l i x) j = if (i =? j)%nat then x else at_ l j.
Proof.
  intros l i j x H. unfold at_.
  destruct (Nat.eqb_spec i j) as [->|N].
  - apply nth_error_nth. now rewrite nth_error_upd_eq.
  - destruct (nth_error l j) eqn:E.
    + rewrite (nth_error_nth l j 0 E). apply nth_error_nth. now rewrite nth_error_upd_ne.
    + rewrite !nth_overflow; auto; [|rewrite length_upd]; now apply nth_error_None.
Qed.

Lemma p_loop_num : forall r i mx mk p m,
  0 <= i -> length mx = 3%nat -> length mk = 3%nat -> i + Z.of_nat r <= 3 ->
  (forall j, i <= Z.of_nat j < i + Z.of_nat r -> at_ mx j <> 0) ->
  exists p' m', p_loop r i mx mk (Num p) (Num m) = Ok (Num p', Num m').
Proof.
  induction r; intros i mx mk p m Hi L1 L2 Hr Hm; cbn [p_loop]; [eauto|].
  rewrite !iget_ok by lia. cbn [bind].
  assert (N : at_ mx (Z.to_nat i) <> 0) by (apply Hm; lia).
  cbn [d_mult d_divi d_plus]. destruct (Z.eqb_spec (at_ mx (Z.to_nat i)) 0); [contradiction|].
  cbn [d_mult d_divi d_plus]. apply IHr; auto; try lia. intros j Hj. apply Hm. lia.
Qed.

Lemma start_ok : forall s M, inv s -> M <> 0 ->
  exists s' sh, event_progress s (Start M) = Ok (s', sh) /\ inv s' /\
    level s' = level s + 1 /\ Forall fraction_ok sh.
Proof.
  intros s M [I1 I2 I3 I4 I5] HM. cbn [event_progress].
  destruct (Z.ltb_spec (level s + 1) 3).
  - rewrite !iset_ok by lia. cbn [bind]. do 2 eexists. split; [reflexivity|].
    split; [|split; [reflexivity|constructor; [apply shown_num|constructor]]].
    constructor; cbn [pmax pmark level]; rewrite ?length_upd; auto; try lia; intros i H3 Hl;
      rewrite ?at_upd by lia; destruct (Nat.eqb_spec (Z.to_nat (level s + 1)) i);
      try lia; (apply I4 || apply I5); lia.
  - do 2 eexists. split; [reflexivity|].
    split; [|split; [reflexivity|constructor; [apply shown_num|constructor]]].
    constructor; cbn [pmax pmark level]; auto; try lia.
    intros i H3 Hl. apply I4; lia.
Qed.
Lemma update_ok : forall s m, inv s -> 0 <= level s ->
  exists s' sh, event_progress s (Update m) = Ok (s', sh) /\ inv s' /\
    level s' = level s /\ Forall fraction_ok sh.
Proof.
  intros s m [I1 I2 I3 I4 I5] HL. cbn [event_progress].
  destruct (Z.ltb_spec (level s) 0); [lia|].
  destruct (Z.ltb_spec (level s) 3).
  - rewrite !iset_ok by lia. cbn [bind].
    set (mk := upd (pmark s) (Z.to_nat (level s)) m).
    assert (Lk : length mk = 3%nat) by (unfold mk; rewrite length_upd; auto).
    destruct (p_loop_num (Z.to_nat (level s)) 0 (pmax s) mk 0 1) as (p' & m' & E); try lia; auto.
    { intros j Hj. apply I4; lia. }
    rewrite E. cbn [bind fst snd]. rewrite !iget_ok by lia. cbn [bind].
    assert (N : at_ (pmax s) (Z.to_nat (level s)) <> 0) by (apply I4; lia).
    cbn [d_mult d_divi d_plus].
    destruct (Z.eqb_spec (at_ (pmax s) (Z.to_nat (level s))) 0); [contradiction|].
    cbn [d_mult d_divi d_plus].
    do 2 eexists. split; [reflexivity|].
    split; [|split; [reflexivity|constructor; [apply shown_num|constructor]]].
    constructor; cbn [pmax pmark level]; auto; try lia.
    intros i H3 Hl. unfold mk. rewrite at_upd by lia.
    destruct (Nat.eqb_spec (Z.to_nat (level s)) i); [lia|]. apply I5; lia.
  - do 2 eexists. split; [reflexivity|]. split; [constructor; auto|]. split; [reflexivity|constructor].
Qed.
Lemma stop_ok : forall s k, inv s -> 0 <= level s ->
  exists s' sh, event_progress s (Stop k) = Ok (s', sh) /\ inv s' /\
    level s' = level s - 1 /\ Forall fraction_ok sh.
Proof.
  intros s k [I1 I2 I3 I4 I5] HL. cbn [event_progress].
  destruct (Z.ltb_spec (level s) 3).
  - rewrite !iset_ok by lia. cbn [bind]. do 2 eexists. split; [reflexivity|].
    split; [|split; [reflexivity|constructor; [apply shown_num|constructor]]].
    constructor; cbn [pmax pmark level]; rewrite ?length_upd; auto; try lia; intros i H3 Hl;
      rewrite ?at_upd by lia; destruct (Nat.eqb_spec (Z.to_nat (level s)) i);
      try lia; (apply I4 || apply I5); lia.
  - do 2 eexists. split; [reflexivity|].
    split; [|split; [reflexivity|constructor; [apply shown_num|constructor]]].
    constructor; cbn [pmax pmark level]; auto; try lia; intros i H3 Hl; apply I4; lia.
Qed.

Lemma run_app : forall l1 l2 s s1 sh1, run_events s l1 = Ok (s1, sh1) ->
  run_events s (l1 ++ l2) =
  (let* r := run_events s1 l2 in Ok (fst r, sh1 ++ snd r)).
Proof.
  induction l1 as [|e l1 IH]; intros l2 s s1 sh1 H; cbn [run_events app] in *.
  - inversion H; subst. destruct (run_events s1 l2) as [[? ?]| |]; reflexivity.
  - destruct (event_progress s e) as [[s' sh]| |]; cbn [bind] in *; try discriminate.
    cbn [fst snd] in *.
    destruct (run_events s' l1) as [[s'' sh'']| |] eqn:E; cbn [bind] in *; try discriminate.
    cbn [fst snd] in *. inversion H; subst.
    rewrite (IH l2 _ _ _ E). destruct (run_events s1 l2) as [[? ?]| |]; cbn [bind fst snd]; auto.
    now rewrite app_assoc.
Qed.

Definition goes (s : progress) (l : list event) : Prop :=
  exists s' sh, run_events s l = Ok (s', sh) /\ inv s' /\ level s' = level s /\
    Forall fraction_ok sh.
Lemma goes_bar : forall s M k b l, inv s -> M <> 0 ->
  (forall s, inv s -> 0 <= level s -> goes s b) ->
  (forall s', inv s' -> level s' = level s -> goes s' l) ->
  goes s (Start M :: b ++ Stop k :: l).
Proof.
  intros s M k b l I HM Hb Hl. unfold goes.
  destruct (start_ok s M I HM) as (s1 & sh1 & E1 & I1 & L1 & F1).
  assert (0 <= level s1) by (destruct I; lia).
  destruct (Hb s1 I1 H) as (s2 & sh2 & E2 & I2 & L2 & F2).
  destruct (stop_ok s2 k I2 ltac:(lia)) as (s3 & sh3 & E3 & I3 & L3 & F3).
  destruct (Hl s3 I3 ltac:(lia)) as (s4 & sh4 & E4 & I4 & L4 & F4).
  exists s4, (sh1 ++ sh2 ++ sh3 ++ sh4). split; [|split; [auto|split; [lia|]]].
  - cbn [run_events]. rewrite E1. cbn [bind fst snd].
    rewrite (run_app _ _ _ _ _ E2). cbn [run_events]. rewrite E3. cbn [bind fst snd].
    rewrite E4. cbn [bind fst snd]. reflexivity.
  - rewrite !Forall_app. auto.
Qed.
Lemma goes_inside : forall l, inside l -> forall s, inv s -> 0 <= level s -> goes s l.
Proof.
  induction 1; intros s I HL.
  - exists s, []. cbn. auto.
  - destruct (update_ok s m I HL) as (s1 & sh1 & E1 & I1 & L1 & F1).
    destruct (IHinside s1 I1 ltac:(lia)) as (s2 & sh2 & E2 & I2 & L2 & F2).
    exists s2, (sh1 ++ sh2). cbn [run_events]. rewrite E1. cbn [bind fst snd].
    rewrite E2. cbn [bind fst snd]. split; [reflexivity|]. split; [auto|]. split; [lia|].
    apply Forall_app. auto.
  - apply goes_bar; auto. intros s' I' L'. apply IHinside2; auto. lia.
Qed.
Lemma inv_idle : inv idle.
Proof.
  constructor; cbn; auto; try lia.
  intros i H _. destruct i as [|[|[|i]]]; cbn; auto; lia.
Qed.
Lemma idle_inv : forall s, inv s -> level s = -1 -> s = idle.
Proof.
  intros [lv mx mk] [I1 I2 I3 I4 I5] L. cbn [level pmax pmark] in *. subst lv.
  destruct mx as [|x0 [|x1 [|x2 [|]]]]; try discriminate.
  destruct mk as [|y0 [|y1 [|y2 [|]]]]; try discriminate.
  destruct (I5 0%nat ltac:(lia) ltac:(lia)) as [A1 A2].
  destruct (I5 1%nat ltac:(lia) ltac:(lia)) as [B1 B2].
  destruct (I5 2%nat ltac:(lia) ltac:(lia)) as [C1 C2].
  cbn in *. subst. reflexivity.
Qed.
Lemma goes_top : forall l, well_nested l -> goes idle l.
Proof.
  induction 1.
  - exists idle, []. split; [reflexivity|]. split; [apply inv_idle|]. auto.
  - apply goes_bar; auto using inv_idle.
    + intros s I HL. now apply goes_inside.
    + intros s' I' L'. rewrite (idle_inv s' I' L'). exact IHwell_nested.
Qed.

(* Every well nested sequence runs, shows fractions from 0 to 1 only and ends idle. *)
Theorem C62_well_nested : forall l, well_nested l ->
  exists sh, run_events idle l = Ok (idle, sh) /\ Forall fraction_ok sh.
Proof.
  intros l H. destruct (goes_top l H) as (s & sh & E & I & L & F).
  rewrite (idle_inv s I L) in E. eauto.
Qed.

(* An update outside a bar, and an unknown event anywhere, are rejected ... *)
Theorem C62_rejected_partial : forall l m r, well_nested l ->
  run_events idle (l ++ Update m :: r) = Throw RuntimeError.
Proof.
  intros l m r H. destruct (C62_well_nested l H) as (sh & E & _).
  rewrite (run_app _ _ _ _ _ E). reflexivity.
Qed.
Theorem C62_unknown_rejected : forall s t, event_progress s (Other t) = Throw InvalidArgument.
Proof. reflexivity. Qed.
(* ... but a stop outside a bar writes in front of the arrays ... *)
Theorem C62_stop_refuted : forall l k r, well_nested l ->
  run_events idle (l ++ Stop k :: r) = UB OutOfBounds.
Proof.
  intros l k r H. destruct (C62_well_nested l H) as (sh & E & _).
  rewrite (run_app _ _ _ _ _ E). reflexivity.
Qed.
(* ... and a bar of length zero shows NaN. *)
Theorem C62_zero_length_refuted :
  exists sh, run_events idle [Start 0; Update 0; Stop 0] = Ok (idle, sh) /\
    ~ Forall fraction_ok sh.
Proof.
  eexists. split; [reflexivity|]. intros F.
  inversion F as [|? ? _ F1]; subst. inversion F1 as [|? ? (q & Hq & _) _]; subst. discriminate.
Qed.

(* The number shown by an update: the part done by the outer bars' marks plus this bar's
   share of one outer step. *)
Fixpoint share (l : list (Z * Z)) : Q :=
  match l with
  | [] => 0
  | (mk, mx) :: l => (inject_Z mk + share l) / inject_Z mx
  end.
(* all outer bars between two of their marks, this one at or before its end *)
Fixpoint marks_ok (l : list (Z * Z)) : Prop :=
  match l with
  | [] => True
  | [(mk, mx)] => 0 < mx /\ 0 <= mk <= mx
  | (mk, mx) :: l => 0 < mx /\ 0 <= mk < mx /\ marks_ok l
  end.
Lemma share_range : forall l, marks_ok l -> (0 <= share l)%Q /\ (share l <= 1)%Q.
Proof.
  induction l as [|[mk mx] l IH]; intros H; cbn [share]; [lra|].
  assert (G : 0 < mx /\ 0 <= mk /\
    (0 <= inject_Z mk + share l)%Q /\ (inject_Z mk + share l <= inject_Z mx)%Q).
  { destruct l as [|p l].
    - cbn in H. cbn [share]. destruct H as [H1 [H2 H3]].
      rewrite Zle_Qle in H2, H3. change (inject_Z 0) with 0%Q in *.
      repeat split; try lra; auto; now rewrite Zle_Qle.
    - destruct H as (H1 & [H2 H3] & H4). destruct (IH H4) as [S1 S2].
      assert (H2' := H2). assert (H3' : mk + 1 <= mx) by lia.
      rewrite Zle_Qle in H2', H3'. rewrite inject_Z_plus in H3'.
      change (inject_Z 0) with 0%Q in *. change (inject_Z 1) with 1%Q in *.
      repeat split; auto; lra. }
  destruct G as (G1 & G2 & G3 & G4). rewrite Zlt_Qlt in G1. change (inject_Z 0) with 0%Q in G1.
  split.
  - apply Qle_shift_div_l; lra.
  - apply Qle_shift_div_r; lra.
Qed.
Definition same_dbl (a b : dbl) : Prop :=
  match a, b with Num x, Num y => (x == y)%Q | Inf s, Inf t => s = t | NaN, NaN => True
  | _, _ => False end.
Lemma shown_id : forall x y, (x == y)%Q -> (0 <= y)%Q -> (y <= 1)%Q ->
  same_dbl (shown (Num x)) (Num y).
Proof.
  intros x y E H1 H2. cbn [shown].
  assert (H1' : (0 <= x)%Q) by lra. assert (H2' : (x <= 1)%Q) by lra.
  apply Qle_bool_iff in H1'. apply Qle_bool_iff in H2'. rewrite H1', H2'. exact E.
Qed.
(* the bars that count: (mark, max) of the first level+1 levels, with the new mark *)
Definition bars (s : progress) (m : Z) : list (Z * Z) :=
  firstn (S (Z.to_nat (level s)))
    (combine (upd (pmark s) (Z.to_nat (level s)) m) (pmax s)).
Lemma pos_Q : forall z, 0 < z -> ~ (inject_Z z == 0)%Q.
Proof. intros z H E. rewrite Zlt_Qlt in H. change (inject_Z 0) with 0%Q in H. lra. Qed.
Lemma d_divi_num : forall x n, n <> 0 -> d_divi (Num x) n = Num (x / inject_Z n).
Proof. intros x n H. cbn [d_divi]. now destruct (Z.eqb_spec n 0). Qed.
Theorem C62_shown : forall s m, length (pmax s) = 3%nat -> length (pmark s) = 3%nat ->
  0 <= level s <= 2 -> marks_ok (bars s m) ->
  exists s' d, event_progress s (Update m) = Ok (s', [d]) /\
    same_dbl d (Num (share (bars s m))) /\ pmax s' = pmax s /\ level s' = level s.
Proof.
  intros [lv mx mk] m L1 L2 HL HM. pose proof (share_range _ HM) as [R1 R2].
  cbn [pmax pmark level] in *.
  destruct mx as [|x0 [|x1 [|x2 [|]]]]; try discriminate.
  destruct mk as [|y0 [|y1 [|y2 [|]]]]; try discriminate.
  assert (C : lv = 0 \/ lv = 1 \/ lv = 2) by lia.
  destruct C as [-> | [-> | ->]]; cbn in HM.
  - destruct HM as (A & _).
    unfold event_progress. cbn [level pmax pmark].
    change (iset [y0;y1;y2] 0 m) with (@Ok (list Z) [m;y1;y2]). cbn -[Z.eqb shown share bars inject_Z Qmult Qplus Qdiv].
    destruct (Z.eqb_spec x0 0); [lia|].
    do 2 eexists. split; [reflexivity|]. split; [|auto].
    repeat (cbn [fst snd d_mult d_plus]; rewrite ?d_divi_num by assumption).
    apply shown_id; auto. cbn [bars level pmark pmax Z.to_nat upd combine firstn share].
    pose proof (pos_Q x0 A). field. auto.
  - destruct HM as (A & _ & B & _).
    unfold event_progress. cbn [level pmax pmark].
    change (iset [y0;y1;y2] 1 m) with (@Ok (list Z) [y0;m;y2]). cbn -[Z.eqb shown share bars inject_Z Qmult Qplus Qdiv].
    destruct (Z.eqb_spec x0 0); [lia|]. destruct (Z.eqb_spec x1 0); [lia|].
    do 2 eexists. split; [reflexivity|]. split; [|auto].
    repeat (cbn [fst snd d_mult d_plus]; rewrite ?d_divi_num by assumption).
    apply shown_id; auto. 
    change (share (bars _ m)) with (share [(y0,x0);(m,x1)]). cbn [share].
    pose proof (pos_Q x0 A). pose proof (pos_Q x1 B). field. auto.
  - destruct HM as (A & _ & B & _ & C & _).
    unfold event_progress. cbn [level pmax pmark].
    change (iset [y0;y1;y2] 2 m) with (@Ok (list Z) [y0;y1;m]). cbn -[Z.eqb shown share bars inject_Z Qmult Qplus Qdiv].
    destruct (Z.eqb_spec x0 0); [lia|]. destruct (Z.eqb_spec x1 0); [lia|].
    destruct (Z.eqb_spec x2 0); [lia|].
    do 2 eexists. split; [reflexivity|]. split; [|auto].
    repeat (cbn [fst snd d_mult d_plus]; rewrite ?d_divi_num by assumption).
    apply shown_id; auto. 
    change (share (bars _ m)) with (share [(y0,x0);(y1,x1);(m,x2)]). cbn [share].
    pose proof (pos_Q x0 A). pose proof (pos_Q x1 B). pose proof (pos_Q x2 C). field. auto.
Qed.

Example C62_demo : well_nested [Start 4; Update 1; Start 2; Update 1; Stop 0; Update 2; Stop 0]
  /\ exists a b c d e f g, run_events idle
       [Start 4; Update 1; Start 2; Update 1; Stop 0; Update 2; Stop 0]
     = Ok (idle, [a;b;c;d;e;f;g]) /\ same_dbl b (Num (1#4)) /\ same_dbl d (Num (3#8)) /\
       same_dbl f (Num (1#2)).
Proof.
  split.
  - apply (wn_bar 4 0 [Update 1; Start 2; Update 1; Stop 0; Update 2] []); try lia; [|constructor].
    constructor. apply (in_bar 2 0 [Update 1] [Update 2]); try lia; repeat constructor.
  - do 7 eexists. split; [reflexivity|]. repeat split.
Qed.
Print Assumptions C62_well_nested.
Print Assumptions C62_rejected_partial.
Print Assumptions C62_stop_refuted.
Print Assumptions C62_shown.
