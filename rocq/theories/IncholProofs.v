(* Proofs about IncholModel. *)
From Coq Require Import List ZArith Bool Arith Lia Permutation Sorting.Sorted Ring Field.
From Verif Require Import Base LinBase SmatModel SmatProofs SmatFill IncholModel.
Import ListNotations.
Local Open Scope nat_scope.

(* ---- the linked nodes of a column, by place in the sorted list ---- *)
Section Col.
Context {B : Type}.
Definition colrep (d : dcol B) (c : list nat) (L : list (nat * B)) : Prop :=
  seg (dnodes d) (dhead d) c None /\ at_ (dnodes d) c L.
Lemma seg_nth (l : list (node B)) : forall c p j q, seg l p c None -> nth_error c j = Some q ->
  exists x, nth_error l q = Some x /\ nnext x = nth_error c (S j).
Proof.
  induction c as [|a c IH]; intros p [|j] q S E; cbn [nth_error] in *; try discriminate; destruct S as (-> & x & X & S).
  - injection E as <-. exists x; split; auto. destruct c; [exact S|]. destruct S as (-> & _). reflexivity.
  - eapply IH; eauto.
Qed.
Lemma at_nth' (l : list (node B)) c L : at_ l c L -> forall j q, nth_error c j = Some q ->
  exists x, nth_error l q = Some x /\ nth_error L j = Some (cell x).
Proof.
  induction 1 as [|a y c L (x & X & Y) H IH]; intros [|j] q E; cbn [nth_error] in *; try discriminate.
  - injection E as <-. exists x. subst; auto.
  - eauto.
Qed.
Lemma colrep_node d c L j q : colrep d c L -> nth_error c j = Some q ->
  exists x, nth_error (dnodes d) q = Some x /\ nth_error L j = Some (nrow x, nk x) /\ nnext x = nth_error c (S j).
Proof.
  intros (S & A) E. destruct (seg_nth _ _ _ _ _ S E) as (x & X & N). destruct (at_nth' _ _ _ A _ _ E) as (y & Y & L1).
  assert (y = x) by congruence. subst. eauto.
Qed.
Lemma colrep_head d c L : colrep d c L -> dhead d = nth_error c 0.
Proof. intros (S & _). destruct c; [exact S|]. now destruct S as (-> & _). Qed.
Lemma colrep_len d c L : colrep d c L -> length c = length L.
Proof. intros (_ & A). eapply Forall2_length'; eauto. Qed.
Lemma seg_k (l : list (node B)) q x k : nth_error l q = Some x ->
  forall c p m, seg l p c m -> seg (upd l q (Nd k (nrow x) (nnext x))) p c m.
Proof.
  intros X. induction c as [|a c IH]; intros p m S; cbn in *; auto. destruct S as (-> & y & Y & S). split; auto.
  destruct (Nat.eq_dec q a) as [->|N].
  - eexists. split; [apply nth_error_upd_eq; eapply nth_error_lt; eauto|]. cbn. assert (y = x) by congruence. subst. auto.
  - exists y. rewrite nth_error_upd_ne by auto. auto.
Qed.
Lemma at_k (l : list (node B)) q x k : nth_error l q = Some x ->
  forall c L j, at_ l c L -> NoDup c -> nth_error c j = Some q -> at_ (upd l q (Nd k (nrow x) (nnext x))) c (upd L j (nrow x, k)).
Proof.
  intros X c L j A. revert j. induction A as [|a y c L (z & Z0 & Y) H IH]; intros j ND E; [destruct j; discriminate|].
  inversion ND; subst. destruct j as [|j]; cbn [nth_error upd] in *.
  - injection E as ->. constructor.
    + eexists. split; [apply nth_error_upd_eq; eapply nth_error_lt; eauto|]. reflexivity.
    + eapply at_ext; [|exact H]. intros a I. apply nth_error_upd_ne. intros ->. auto.
  - constructor; [|apply IH; auto]. exists z. split; auto. rewrite nth_error_upd_ne; auto.
    intros ->. apply H2. eapply nth_error_In; eauto.
Qed.
Lemma colrep_k d c L j q x k : colrep d c L -> NoDup c -> nth_error c j = Some q -> nth_error (dnodes d) q = Some x ->
  colrep (Dc (dk d) (dhead d) (upd (dnodes d) q (Nd k (nrow x) (nnext x))) (dcap d)) c (upd L j (nrow x, k)).
Proof. intros (S & A) ND E X. split; cbn; [apply seg_k; auto|eapply at_k; eauto]. Qed.
End Col.

Section IncP.
Context {K : ofield}.
Local Open Scope lin_scope.
Add Field Kf54 : (f_th K).


(* the block in row k of a column, zero if there is none *)
Definition blk (L : list (nat * m3 K)) (k : nat) : m3 K := match lookup L k with Some x => x | None => zero3 end.
(* entry (i,j) of ~a*b *)
Definition dot3 (a b : m3 K) (i j : nat) : K :=
  get3 a 0 i * get3 b 0 j + get3 a 1 i * get3 b 1 j + get3 a 2 i * get3 b 2 j.
Ltac three i := destruct i as [|[|[|i]]]; [| | |lia].
Lemma get_gen (f : nat -> nat -> K) i j : (i < 3)%nat -> (j < 3)%nat -> get3 (gen3 f) i j = f i j.
Proof. intros I J. three i; three j; reflexivity. Qed.
Lemma get_sub (a b : m3 K) i j : (i < 3)%nat -> (j < 3)%nat -> get3 (sub3 a b) i j = get3 a i j - get3 b i j.
Proof. intros; unfold sub3; now rewrite get_gen. Qed.
Lemma get_mult (a b : m3 K) i j : (i < 3)%nat -> (j < 3)%nat -> get3 (mul3 (tr3 a) b) i j = dot3 a b i j.
Proof. intros I J; unfold mul3, dot3, tr3; rewrite !get_gen by lia. reflexivity. Qed.
Lemma get_zero i j : get3 (zero3 : m3 K) i j = f0.
Proof. destruct i as [|[|i]], j as [|[|j]]; reflexivity. Qed.
Lemma add3_0 (x : m3 K) : add3 zero3 x = x.
Proof. destruct x. unfold add3, gen3; cbn. f_equal; ring. Qed.

(* ---- the small block operations ---- *)
(* the upper triangle held by a diagonal block, whose own diagonal holds reciprocals *)
Definition tri (d : m3 K) (i j : nat) : K :=
  if Nat.eqb i j then f1 / get3 d i i else if Nat.ltb i j then get3 d i j else f0.
Definition tdot (d x : m3 K) (i j : nat) : K :=
  tri d 0 i * get3 x 0 j + tri d 1 i * get3 x 1 j + tri d 2 i * get3 x 2 j.
Definition ttdot (d : m3 K) (i j : nat) : K :=
  tri d 0 i * tri d 0 j + tri d 1 i * tri d 1 j + tri d 2 i * tri d 2 j.

Lemma off_solve_ok (d x : m3 K) : (forall i, (i < 3)%nat -> get3 d i i <> f0) ->
  exists x', off_solve d x = Ok x' /\ forall i j, (i < 3)%nat -> (j < 3)%nat -> tdot d x' i j = get3 x i j.
Proof.
  intros NZ. pose proof (NZ 0%nat ltac:(lia)) as N0. pose proof (NZ 1%nat ltac:(lia)) as N1. pose proof (NZ 2%nat ltac:(lia)) as N2.
  destruct d, x. cbn in N0, N1, N2. eexists. split. { cbv -[fmul fadd fsub f0 f1 fdiv fopp car]. reflexivity. }
  intros i j I J. three i; three j; unfold tdot, tri; cbn; field; auto.
Qed.

Definition diag_post (d d' : m3 K) : Prop :=
  (forall i j, (i <= j < 3)%nat -> ttdot d' i j = get3 d i j) /\
  (forall i, (i < 3)%nat -> fltb f0 (get3 d' i i) = true) /\
  (forall i j, (j < i < 3)%nat -> get3 d' i j = f0).
(* at pivot i the triangle t has been found for the pivots before, and the pivot is below eps *)
Definition diag_fail (eps : K) (d : m3 K) (i : nat) (t : nat -> nat -> K) : Prop :=
  (i < 3)%nat /\ (forall a, (a < i)%nat -> t a a <> f0) /\ (forall a b, (b < a)%nat -> t a b = f0) /\
  (forall a b, (a < i)%nat -> (a <= b <= i)%nat -> sumr 0 i (fun s => t s a * t s b) = get3 d a b) /\
  fltb (get3 d i i - sumr 0 i (fun s => t s i * t s i)) eps = true.
Lemma diag_chol_wp (sq : K -> K) eps (d : m3 K) : (forall z, fle f0 z = true -> sq z * sq z = z /\ fle f0 (sq z) = true) -> fltb f0 eps = true ->
  wp (diag_chol sq eps d) (diag_post d) (fun e => e = RuntimeError /\ exists i t, diag_fail eps d i t).
Proof.
  intros SQ EP.
  assert (P : forall z, fltb z eps = false -> sq z <> f0 /\ sq z * sq z = z /\ fltb f0 (f1 / sq z) = true).
  { intros z Z0. unfold fltb in Z0. apply negb_false_iff in Z0. apply fltb_spec in EP as (E1 & E2).
    assert (Z1 : fle f0 z = true) by (eapply fle_trans; eauto). destruct (SQ z Z1) as (S1 & S2).
    assert (S3 : sq z <> f0).
    { intros S3. rewrite S3 in S1. apply E2. apply fle_antisym; auto. replace f0 with z; auto. rewrite <- S1. ring. }
    repeat split; auto. apply fltb_spec. split.
    - replace (f1 / sq z) with (sq z * (f1 / sq z * (f1 / sq z))) by (field; auto). apply fle_mul; auto using fsqr_nonneg.
    - intros Q. apply (@f1_neq_f0 K). replace (@f1 K) with (f1 / sq z * sq z) by (field; auto). rewrite <- Q. ring. }
  destruct d. unfold diag_chol.
  cbv -[fmul fadd fsub f0 f1 fdiv fopp car fltb feqb wp diag_post diag_fail].
  destruct (fltb e00 eps) eqn:C0.
  { split; auto. exists O, (fun _ _ => f0). split; [lia|]. split; [intros; lia|]. split; [auto|]. split; [intros; lia|]. rewrite sumr_nil by lia. cbn. rewrite <- C0. f_equal. ring. }
  destruct (P _ C0) as (N0 & Q0 & R0).
  destruct (feqb_spec (sq e00) f0) as [|_]; [contradiction|].
  destruct (fltb (e11 - e01 * (f1 / sq e00) * (e01 * (f1 / sq e00))) eps) eqn:C1.
  { split; auto. exists 1%nat, (fun a b : nat => match a, b with O, O => sq e00 | O, S O => e01 * (f1 / sq e00) | _, _ => f0 end).
    split; [lia|]. split. { intros [|a] H; [auto|lia]. } split. { intros [|a] [|b] H; auto; lia. } split.
    - intros [|a] b A B; [|lia]. rewrite sumr_S, sumr_nil by lia. destruct b as [|[|b]]; [| |lia]; cbn; [rewrite Q0; ring|field; auto].
    - rewrite sumr_S, sumr_nil by lia. cbn. rewrite <- C1. f_equal. ring. }
  destruct (P _ C1) as (N1 & Q1 & R1).
  destruct (feqb_spec (sq (e11 - e01 * (f1 / sq e00) * (e01 * (f1 / sq e00)))) f0) as [|_]; [contradiction|].
  set (s1 := sq (e11 - _)) in *. set (s0 := sq e00) in *.
  match goal with |- context [fltb ?z eps] => destruct (fltb z eps) eqn:C2; [|destruct (P _ C2) as (N2 & Q2 & R2); destruct (feqb_spec (sq z) f0) as [|_]; [contradiction|]; set (s2 := sq z) in *] end.
  { split; auto. exists 2%nat, (fun a b : nat => match a, b with O, O => s0 | O, S O => e01 * (f1 / s0) | O, S (S O) => e02 * (f1 / s0) | S O, S O => s1
       | S O, S (S O) => (e12 - e01 * (f1 / s0) * (e02 * (f1 / s0))) * (f1 / s1) | _, _ => f0 end).
    split; [lia|]. split. { intros [|[|a]] H; [auto|auto|lia]. } split. { intros [|[|a]] [|[|b]] H; auto; lia. } split.
    - intros a b A B. rewrite !sumr_S, sumr_nil by lia. destruct a as [|[|a]]; [| |lia]; (destruct b as [|[|[|b]]]; [| | |lia]); try lia; cbn.
      + rewrite Q0. ring.
      + field; auto.
      + field; auto.
      + rewrite Q1. ring.
      + field; auto.
    - rewrite !sumr_S, sumr_nil by lia. cbn. rewrite <- C2. f_equal. ring. }
  cbn [wp]. clearbody s0 s1 s2. clear - Q0 Q1 Q2 N0 N1 N2 R0 R1 R2.
  assert (F0 : f1 / s0 <> f0) by (now apply fpos_nz). assert (F1 : f1 / s1 <> f0) by (now apply fpos_nz). assert (F2 : f1 / s2 <> f0) by (now apply fpos_nz).
  assert (E11 : e11 = s1 * s1 + e01 * (f1 / s0) * (e01 * (f1 / s0))) by (rewrite Q1; ring).
  match type of Q2 with _ = _ - ?u - ?v => assert (E22 : e22 = s2 * s2 + u + v) by (rewrite Q2; ring) end.
  split; [|split].
  - intros i j (I & J). three i; three j; try lia; unfold ttdot, tri; cbn; try rewrite <- Q0; try rewrite E11; try rewrite E22; field; repeat split; auto; apply (@f1_neq_f0 K).
  - intros i I. three i; auto.
  - intros i j (I & J). three i; three j; try lia; reflexivity.
Qed.

(* ---- looking up in sorted lists ---- *)
Lemma lookup_app (L1 L2 : list (nat * m3 K)) k : lookup (L1 ++ L2) k = match lookup L1 k with Some x => Some x | None => lookup L2 k end.
Proof. induction L1 as [|[r x] L1 IH]; cbn [lookup app]; auto. destruct (Nat.eqb r k); auto. Qed.
Lemma lookup_low (L : list (nat * m3 K)) k : Forall (fun y => (k < fst y)%nat) L -> lookup L k = None.
Proof. intros F. apply lookup_none. rewrite Forall_forall in F. intros y Y. specialize (F y Y). lia. Qed.
Lemma sorted_skipn (L : list (nat * m3 K)) b rb y : StronglySorted lt1 L -> nth_error L b = Some (rb, y) ->
  skipn b L = (rb, y) :: skipn (S b) L /\ Forall (fun z => (rb < fst z)%nat) (skipn (S b) L).
Proof.
  intros S. revert b. induction S as [|[r x] L S IH F]; intros [|b] E; cbn [nth_error] in E; try discriminate.
  - injection E as -> ->. cbn. split; auto.
  - apply IH in E as (E1 & E2). split; [exact E1|exact E2].
Qed.
Lemma lookup_nth (L : list (nat * m3 K)) j r x : StronglySorted lt1 L -> nth_error L j = Some (r, x) ->
  lookup L r = Some x /\ lookup (firstn j L) r = None.
Proof.
  intros S. revert j. induction S as [|[r' x'] L S IH F]; intros [|j] E; cbn [nth_error] in E; try discriminate.
  - injection E as -> ->. cbn. rewrite Nat.eqb_refl. auto.
  - cbn [lookup firstn]. assert (r' < r)%nat.
    { rewrite Forall_forall in F. apply (F (r, x)). eapply nth_error_In; eauto. }
    destruct (Nat.eqb_spec r' r); [lia|]. auto.
Qed.
Lemma lookup_upd (L : list (nat * m3 K)) : forall j b r x y k, nth_error L j = Some (r, x) -> k <> r ->
  lookup (skipn b (upd L j (r, y))) k = lookup (skipn b L) k.
Proof.
  induction L as [|[r' x'] L IH]; intros [|j] b r x y k E N; cbn [nth_error] in E; try discriminate.
  - injection E as -> ->. destruct b; cbn; auto. destruct (Nat.eqb_spec r k); auto. lia.
  - destruct b; cbn.
    + destruct (Nat.eqb r' k); auto. apply (IH j 0%nat r x y k E N).
    + eapply IH; eauto.
Qed.
Lemma dot_zero_l (y : m3 K) i j : dot3 zero3 y i j = f0.
Proof. unfold dot3. rewrite !get_zero. ring. Qed.
Lemma dot_zero_r (y : m3 K) i j : dot3 y zero3 i j = f0.
Proof. unfold dot3. rewrite !get_zero. ring. Qed.
Definition agree (A A' : smat (m3 K)) (n : nat) (d : dcol (m3 K)) : Prop :=
  length A' = length A /\ nth_error A' n = Some d /\ forall r, r <> n -> nth_error A' r = nth_error A r.
Lemma agree_upd (A : smat (m3 K)) n d : (n < length A)%nat -> agree A (upd A n d) n d.
Proof.
  intros N. split; [apply length_upd|]. split; [now apply nth_error_upd_eq|]. intros. apply nth_error_upd_ne. auto.
Qed.
Lemma agree_trans (A A' A'' : smat (m3 K)) n d d' : agree A A' n d -> agree A' A'' n d' -> agree A A'' n d'.
Proof. intros (L1 & E1 & H1) (L2 & E2 & H2). split; [congruence|]. split; auto. intros. rewrite H2, H1; auto. Qed.

Lemma merge_ok n r jp q cr cn (Lr : list (nat * m3 K)) dr : (r < n)%nat -> colrep dr cr Lr -> StronglySorted lt1 Lr ->
  Forall (fun y => (fst y < r)%nat) Lr -> NoDup cn -> nth_error cn jp = Some q ->
  forall fuel (A : smat (m3 K)) dn Ln K0 a b,
  nth_error A r = Some dr -> nth_error A n = Some dn -> colrep dn cn Ln -> StronglySorted lt1 Ln ->
  nth_error Ln jp = Some (r, K0) -> (length cr - a + (length cn - b) < fuel)%nat ->
  exists A' dn' K1, merge fuel A n q r (nth_error cr a) (nth_error cn b) = Ok A' /\ agree A A' n dn' /\
    dk dn' = dk dn /\ dhead dn' = dhead dn /\ dcap dn' = dcap dn /\ nnz dn' = nnz dn /\
    colrep dn' cn (upd Ln jp (r, K1)) /\
    forall i j, (i < 3)%nat -> (j < 3)%nat ->
      get3 K1 i j = get3 K0 i j - sumr 0 r (fun k => dot3 (blk (skipn a Lr) k) (blk (skipn b Ln) k) i j).
Proof.
  intros RN CR SR FR ND JP. induction fuel; intros A dn Ln K0 a b AR AN CN SN LJ FU; [lia|].
  assert (STOP : (forall k, (k < r)%nat -> blk (skipn a Lr) k = zero3 \/ blk (skipn b Ln) k = zero3) -> exists A' dn' K1, Ok A = Ok A' /\ agree A A' n dn' /\
    dk dn' = dk dn /\ dhead dn' = dhead dn /\ dcap dn' = dcap dn /\ nnz dn' = nnz dn /\
    colrep dn' cn (upd Ln jp (r, K1)) /\
    forall i j, (i < 3)%nat -> (j < 3)%nat ->
      get3 K1 i j = get3 K0 i j - sumr 0 r (fun k => dot3 (blk (skipn a Lr) k) (blk (skipn b Ln) k) i j)).
  { intros Z0. exists A, dn, K0. split; auto. split; [repeat split; auto|]. repeat (split; [solve [auto]|]). split.
    - rewrite upd_same; auto.
    - intros i j I J. rewrite sumr_zero; [ring|]. intros k Kk. destruct (Z0 k ltac:(lia)) as [->| ->]; auto using dot_zero_l, dot_zero_r. }
  cbn [merge]. destruct (nth_error cr a) as [qi|] eqn:EA.
  2:{ apply STOP. intros k _. left. unfold blk. rewrite skipn_all2; auto. rewrite <- (colrep_len _ _ _ CR). now apply nth_error_None. }
  destruct (nth_error cn b) as [qj|] eqn:EB.
  2:{ apply STOP. intros k _. right. unfold blk. rewrite skipn_all2; auto. rewrite <- (colrep_len _ _ _ CN). now apply nth_error_None. }
  clear STOP.
  destruct (colrep_node _ _ _ _ _ CR EA) as (x & X & LX & NX). destruct (colrep_node _ _ _ _ _ CN EB) as (y & Y & LY & NY).
  unfold nodeat. rewrite (aget_some _ _ _ AR), (aget_some _ _ _ AN). cbn [bind]. rewrite (aget_some _ _ _ X), (aget_some _ _ _ Y). cbn [bind].
  destruct (sorted_skipn _ _ _ _ SR LX) as (SX & FX). destruct (sorted_skipn _ _ _ _ SN LY) as (SY & FY).
  pose proof (nth_error_lt _ _ _ EA). pose proof (nth_error_lt _ _ _ EB).
  assert (RX : (nrow x < r)%nat) by (rewrite Forall_forall in FR; apply (FR (nrow x, nk x)); eapply nth_error_In; eauto).
  rewrite NX, NY.
  destruct (Nat.ltb_spec (nrow y) (nrow x)) as [C1|C1]; [|destruct (Nat.ltb_spec (nrow x) (nrow y)) as [C2|C2]].
  - destruct (IHfuel A dn Ln K0 a (S b) AR AN CN SN LJ ltac:(lia)) as (A' & dn' & K1 & G1 & G2 & G3 & G4 & G5 & G6 & G7 & G8).
    exists A', dn', K1. rewrite <- EA. repeat (split; [solve [auto]|]). intros i j I J. rewrite (G8 i j I J). f_equal.
    apply sumr_ext. intros k Kk. rewrite SY. unfold blk at 4. cbn [lookup]. destruct (Nat.eqb_spec (nrow y) k); auto.
    subst k. unfold blk. rewrite SX. cbn [lookup]. destruct (Nat.eqb_spec (nrow x) (nrow y)); [lia|].
    rewrite (lookup_low (skipn (S a) Lr)). 2:{ eapply Forall_impl; [|exact FX]. cbn; intros; lia. } now rewrite !dot_zero_l.
  - destruct (IHfuel A dn Ln K0 (S a) b AR AN CN SN LJ ltac:(lia)) as (A' & dn' & K1 & G1 & G2 & G3 & G4 & G5 & G6 & G7 & G8).
    exists A', dn', K1. rewrite <- EB. repeat (split; [solve [auto]|]). intros i j I J. rewrite (G8 i j I J). f_equal.
    apply sumr_ext. intros k Kk. rewrite SX. unfold blk at 3. cbn [lookup]. destruct (Nat.eqb_spec (nrow x) k); auto.
    subst k. unfold blk. rewrite SY. cbn [lookup]. destruct (Nat.eqb_spec (nrow y) (nrow x)); [lia|].
    rewrite (lookup_low (skipn (S b) Ln)). 2:{ eapply Forall_impl; [|exact FY]. cbn; intros; lia. } now rewrite !dot_zero_r.
  - assert (EQ : nrow y = nrow x) by lia.
    destruct (colrep_node _ _ _ _ _ CN JP) as (p & P & LP & NP). assert (PE : (nrow p, nk p) = (r, K0)) by congruence.
    injection PE as PR PK. rewrite (aget_some _ _ _ P). cbn [bind]. unfold setblock. rewrite (aget_some _ _ _ AN). cbn [bind].
    unfold set_k. rewrite (aget_some _ _ _ P). cbn [bind]. rewrite aset_ok by (eapply nth_error_lt; eauto). cbn [bind].
    rewrite aset_ok by (eapply nth_error_lt; eauto). cbn [bind].
    set (K1 := sub3 (nk p) (mul3 (tr3 (nk x)) (nk y))).
    set (dn1 := Dc (dk dn) (dhead dn) (upd (dnodes dn) q (Nd K1 (nrow p) (nnext p))) (dcap dn)).
    pose proof (agree_upd A n dn1 (nth_error_lt _ _ _ AN)) as AG. pose proof AG as (AL & AE & AO).
    pose proof (colrep_k dn cn Ln jp q p K1 CN ND JP P) as CN1. fold dn1 in CN1. rewrite PR in CN1.
    pose proof (nth_error_lt _ _ _ LJ) as LJ1.
    assert (SN1 : StronglySorted lt1 (upd Ln jp (r, K1))).
    { clear - SN LJ. revert jp LJ. induction SN as [|[r' x'] L S IH F]; intros [|jp] E; cbn [nth_error upd] in *; try discriminate.
      - injection E as -> ->. constructor; auto.
      - constructor; auto. rewrite Forall_forall in *. intros z Z0. apply In_nth_error in Z0 as (m & Z0).
        destruct (Nat.eq_dec m jp) as [->|NE].
        + rewrite nth_error_upd_eq in Z0 by (eapply nth_error_lt; eauto). injection Z0 as <-. apply (F (r, K0)). eapply nth_error_In; eauto.
        + rewrite nth_error_upd_ne in Z0 by auto. apply F. eapply nth_error_In; eauto. }
    destruct (IHfuel (upd A n dn1) dn1 (upd Ln jp (r, K1)) K1 (S a) (S b)) as (A' & dn' & K2 & G1 & G2 & G3 & G4 & G5 & G6 & G7 & G8); auto.
    { rewrite AO by lia. auto. } { rewrite nth_error_upd_eq; auto. } { lia. }
    exists A', dn', K2. split; [auto|]. split; [eapply agree_trans; eauto|]. split; [auto|]. split; [auto|]. split; [auto|].
    split. { rewrite G6. unfold nnz, dn1; cbn. now rewrite length_upd. }
    split. { replace (upd Ln jp (r, K2)) with (upd (upd Ln jp (r, K1)) jp (r, K2)); auto. clear. revert jp. induction Ln; intros [|jp]; cbn; f_equal; auto. }
    intros i j I J. rewrite (G8 i j I J).
    assert (GK : get3 K1 i j = get3 K0 i j - dot3 (nk x) (nk y) i j) by (unfold K1; rewrite get_sub, get_mult, PK by auto; reflexivity).
    rewrite GK. clearbody K1.
    rewrite (sumr_ext 0 r (fun k => dot3 (blk (skipn a Lr) k) (blk (skipn b Ln) k) i j)
      (fun k => (if Nat.eqb k (nrow x) then dot3 (nk x) (nk y) i j else f0) + dot3 (blk (skipn (S a) Lr) k) (blk (skipn (S b) (upd Ln jp (r, K1))) k) i j)).
    + rewrite sumr_add. rewrite (sumr_one 0 r (fun k => if Nat.eqb k (nrow x) then dot3 (nk x) (nk y) i j else f0) (nrow x)); [rewrite Nat.eqb_refl; ring|lia|].
      intros k _ NE. destruct (Nat.eqb_spec k (nrow x)); [contradiction|auto].
    + intros k Kk. unfold blk. rewrite (lookup_upd Ln jp (S b) r K0) by (auto; lia). rewrite SX, SY. cbn [lookup]. rewrite EQ, (Nat.eqb_sym k).
      destruct (Nat.eqb_spec (nrow x) k); [|ring]. subst k.
      rewrite (lookup_low (skipn (S a) Lr)) by auto. rewrite dot_zero_l. ring.
Qed.

(* ---- one column ---- *)
Definition offeq (Lr Ln : list (nat * m3 K)) (Dr A0 : m3 K) (r : nat) : Prop :=
  forall i j, (i < 3)%nat -> (j < 3)%nat ->
    get3 A0 i j = sumr 0 r (fun k => dot3 (blk Lr k) (blk Ln k) i j) + tdot Dr (blk Ln r) i j.
Definition diageq (L : list (nat * m3 K)) (D0 Dn : m3 K) (n : nat) : Prop :=
  forall i j, (i <= j < 3)%nat ->
    get3 D0 i j = sumr 0 n (fun k => dot3 (blk L k) (blk L k) i j) + ttdot Dn i j.
Lemma sorted_fst (L L' : list (nat * m3 K)) : map fst L = map fst L' -> StronglySorted lt1 L -> StronglySorted lt1 L'.
Proof.
  intros E S. revert L' E. induction S as [|x L S IH F]; intros [|y L'] E; cbn in E; try discriminate; constructor.
  - injection E as _ E. auto.
  - injection E as E1 E. rewrite Forall_forall in *. intros z Z0. apply (in_map fst) in Z0. rewrite <- E in Z0.
    apply in_map_iff in Z0 as (w & W & W2). specialize (F w W2). unfold lt1 in *. lia.
Qed.
Lemma low_fst (L L' : list (nat * m3 K)) n : map fst L = map fst L' -> Forall (fun y => (fst y < n)%nat) L -> Forall (fun y => (fst y < n)%nat) L'.
Proof.
  intros E F. rewrite Forall_forall in *. intros z Z0. apply (in_map fst) in Z0. rewrite <- E in Z0.
  apply in_map_iff in Z0 as (w & <- & W2). auto.
Qed.
Lemma map_fst_upd (L : list (nat * m3 K)) : forall j r x y, nth_error L j = Some (r, x) -> map fst (upd L j (r, y)) = map fst L.
Proof. induction L as [|z L IH]; intros [|j] r x y E; cbn in *; try discriminate. - injection E as ->. auto. - f_equal; eauto. Qed.
Lemma firstn_upd (L : list (nat * m3 K)) : forall j z, (j < length L)%nat -> firstn (S j) (upd L j z) = firstn j L ++ [z].
Proof. induction L as [|y L IH]; intros [|j] z E; cbn [length] in E; try lia; auto. cbn [upd]. rewrite firstn_cons. cbn [firstn app]. f_equal. apply IH. lia. Qed.
Lemma lookup_in (L : list (nat * m3 K)) r x : lookup L r = Some x -> exists j, nth_error L j = Some (r, x).
Proof.
  induction L as [|[r' y] L IH]; cbn [lookup]; [discriminate|]. destruct (Nat.eqb_spec r' r).
  - intros E. injection E as <-. subst. exists O. auto.
  - intros E. destruct (IH E) as (j & J). exists (S j). auto.
Qed.

Definition inv_col (n : nat) (D : nat -> m3 K) (C : nat -> list (nat * m3 K)) (D0 : m3 K) (L0 : list (nat * m3 K)) (j : nat) (dn : dcol (m3 K)) (L : list (nat * m3 K)) : Prop :=
  map fst L = map fst L0 /\
  (forall j', (j <= j')%nat -> nth_error L j' = nth_error L0 j') /\
  (forall j' r x, (j' < j)%nat -> nth_error L j' = Some (r, x) -> offeq (C r) L (D r) (blk L0 r) r) /\
  (forall i k, (i < 3)%nat -> (k < 3)%nat -> get3 (dk dn) i k = get3 D0 i k - sumr 0 n (fun q => dot3 (blk (firstn j L) q) (blk (firstn j L) q) i k)).

Lemma inc_col_ok n (D : nat -> m3 K) C D0 L0 c cap h :
  NoDup c -> StronglySorted lt1 L0 -> Forall (fun y => (fst y < n)%nat) L0 ->
  (forall r, (r < n)%nat -> StronglySorted lt1 (C r) /\ Forall (fun y => (fst y < r)%nat) (C r) /\ forall i, (i < 3)%nat -> get3 (D r) i i <> f0) ->
  forall fuel A dn L j,
  (forall r, (r < n)%nat -> exists dr cr, nth_error A r = Some dr /\ colrep dr cr (C r) /\ dk dr = D r /\ nnz dr = length cr) ->
  nth_error A n = Some dn -> colrep dn c L -> nnz dn = length c -> dcap dn = cap -> dhead dn = h -> inv_col n D C D0 L0 j dn L ->
  (length c - j < fuel)%nat -> (j <= length c)%nat ->
  exists A' dn' L', inc_col fuel A n (nth_error c j) = Ok A' /\ agree A A' n dn' /\ colrep dn' c L' /\ nnz dn' = length c /\ dcap dn' = cap /\
    dhead dn' = h /\ inv_col n D C D0 L0 (length c) dn' L'.
Proof.
  intros ND S0 F0 HC. induction fuel; intros A dn L j HA AN CN NZ CAP HD INV FU JL; [lia|]. cbn [inc_col].
  destruct (nth_error c j) as [q|] eqn:EJ.
  2:{ apply nth_error_None in EJ. replace j with (length c) in INV by lia. exists A, dn, L. split; auto. split; [repeat split; auto|]. split; [auto|]. repeat (split; [solve [auto]|]). auto. }
  pose proof (nth_error_lt _ _ _ EJ) as JC.
  destruct INV as (I1 & I2 & I3 & I4).
  assert (SL : StronglySorted lt1 L) by (eapply sorted_fst; [symmetry; exact I1|auto]).
  assert (FL : Forall (fun y => (fst y < n)%nat) L) by (eapply low_fst; [symmetry; exact I1|auto]).
  destruct (colrep_node _ _ _ _ _ CN EJ) as (x & X & LX & NX).
  assert (RN : (nrow x < n)%nat) by (rewrite Forall_forall in FL; apply (FL (nrow x, nk x)); eapply nth_error_In; eauto).
  set (r := nrow x) in *. set (K0 := nk x) in *.
  destruct (HA r RN) as (dr & cr & AR & CR & DR & NR). destruct (HC r RN) as (SR & FR & NZR).
  unfold nodeat at 1. rewrite (aget_some _ _ _ AN). cbn [bind]. rewrite (aget_some _ _ _ X). cbn [bind]. fold r.
  rewrite (aget_some _ _ _ AR). cbn [bind]. rewrite ?(aget_some _ _ _ AN). cbn [bind].
  rewrite (colrep_head _ _ _ CR), (colrep_head _ _ _ CN), NR, NZ.
  destruct (merge_ok n r j q cr c (C r) dr RN CR SR FR ND EJ (S (length cr + length c)) A dn L K0 0 0 AR AN CN SL LX ltac:(lia))
    as (A1 & d1 & K1 & G1 & G2 & G3 & G4 & G5 & G6 & G7 & G8).
  rewrite G1. cbn [bind]. clear G1.
  destruct G2 as (GL & GN & GO).
  assert (LJ : (j < length L)%nat) by (eapply nth_error_lt; eauto).
  assert (LX1 : nth_error (upd L j (r, K1)) j = Some (r, K1)) by (rewrite nth_error_upd_eq; auto).
  destruct (colrep_node _ _ _ _ _ G7 EJ) as (x1 & X1 & LX1' & NX1).
  assert (XE : (nrow x1, nk x1) = (r, K1)) by congruence. injection XE as XR XK.
  unfold nodeat. rewrite (aget_some _ _ _ GN). cbn [bind]. rewrite (aget_some _ _ _ X1). cbn [bind].
  assert (AR1 : nth_error A1 r = Some dr) by (rewrite GO; auto; lia). rewrite (aget_some _ _ _ AR1). cbn [bind].
  rewrite DR, XK. destruct (off_solve_ok (D r) K1 NZR) as (K2 & -> & OS). cbn [bind].
  unfold setblock. rewrite (aget_some _ _ _ GN). cbn [bind]. unfold set_k. rewrite (aget_some _ _ _ X1). cbn [bind].
  rewrite aset_ok by (eapply nth_error_lt; eauto). cbn [bind]. rewrite aset_ok by (eapply nth_error_lt; eauto). cbn [bind].
  pose proof (colrep_k d1 c _ j q x1 K2 G7 ND EJ X1) as CN2. rewrite XR in CN2 |- *.
  set (d2 := Dc (dk d1) (dhead d1) (upd (dnodes d1) q (Nd K2 r (nnext x1))) (dcap d1)) in *.
  assert (UU : upd (upd L j (r, K1)) j (r, K2) = upd L j (r, K2)).
  { clear. revert j. induction L; intros [|j]; cbn; f_equal; auto. }
  rewrite UU in CN2.
  pose proof (agree_upd A1 n d2 (nth_error_lt _ _ _ GN)) as (AL2 & AN2 & AO2).
  rewrite (aget_some _ _ _ AN2). cbn [bind]. unfold setdiag. rewrite (aget_some _ _ _ AN2). cbn [bind].
  rewrite aset_ok by (eapply nth_error_lt; eauto). cbn [bind].
  set (d3 := Dc (sub3 (dk d2) (mul3 (tr3 K2) K2)) (dhead d2) (dnodes d2) (dcap d2)).
  pose proof (agree_upd (upd A1 n d2) n d3 (nth_error_lt _ _ _ AN2)) as (AL3 & AN3 & AO3).
  rewrite (aget_some _ _ _ AN3). cbn [bind].
  assert (CN3 : colrep d3 c (upd L j (r, K2))) by exact CN2.
  destruct (colrep_node _ _ _ _ _ CN3 EJ) as (x3 & X3 & LX3 & NX3). rewrite (aget_some _ _ _ X3). cbn [bind]. rewrite NX3.
  set (L' := upd L j (r, K2)) in *.
  assert (B1 : forall k, k <> r -> blk L' k = blk L k).
  { intros k NE. unfold blk, L'. pose proof (lookup_upd L j 0 r K0 K2 k LX NE) as Q. cbn [skipn] in Q. now rewrite Q. }
  assert (ML : map fst L' = map fst L0) by (unfold L'; rewrite (map_fst_upd _ _ _ K0) by auto; auto).
  assert (SL' : StronglySorted lt1 L') by (eapply sorted_fst; [symmetry; exact ML|auto]).
  assert (LX' : nth_error L' j = Some (r, K2)) by (unfold L'; now rewrite nth_error_upd_eq).
  assert (B2 : blk L' r = K2) by (unfold blk; now rewrite (proj1 (lookup_nth _ _ _ _ SL' LX'))).
  assert (B0 : blk L0 r = K0) by (unfold blk; rewrite I2 in LX by lia; now rewrite (proj1 (lookup_nth _ _ _ _ S0 LX))).
  destruct (IHfuel (upd (upd A1 n d2) n d3) d3 L' (S j)) as (A' & dn' & Lf & H1 & (H2a & H2b & H2c) & H3 & H4 & H5 & H6 & H7); auto.
  - intros r' R'. destruct (HA r' R') as (dr' & cr' & E1 & E2). exists dr', cr'. split; auto.
    rewrite AO3, AO2, GO by lia. auto.
  - unfold nnz, d3, d2. cbn. rewrite length_upd. unfold nnz in *. lia.
  - unfold d3, d2; cbn. congruence.
  - unfold d3, d2; cbn. congruence.
  - split; [exact ML|]. split; [|split].
    + intros j' J'. unfold L'. rewrite nth_error_upd_ne by lia. apply I2. lia.
    + intros j' r' y J' E'. destruct (Nat.eq_dec j' j) as [->|NE].
      * assert (r' = r) by congruence. subst r'. intros i k I Kk. rewrite B0, B2, (OS i k I Kk), (G8 i k I Kk).
        cbn [skipn]. rewrite (sumr_ext 0 r (fun k0 => dot3 (blk (C r) k0) (blk L' k0) i k) (fun k0 => dot3 (blk (C r) k0) (blk L k0) i k)). { ring. }
        intros k0 Hk. rewrite B1 by lia. reflexivity.
      * assert (E0 : nth_error L j' = Some (r', y)) by (unfold L' in E'; now rewrite nth_error_upd_ne in E' by auto).
        assert (RR : (r' < r)%nat).
        { assert (G : forall a b ya yb, (a < b)%nat -> nth_error L a = Some ya -> nth_error L b = Some yb -> (fst ya < fst yb)%nat).
          { clear - SL. induction SL as [|z L S IH F]; intros [|a] [|b] ya yb AB Ea Eb; cbn [nth_error] in *; try discriminate; try lia.
            - injection Ea as <-. rewrite Forall_forall in F. apply F. eapply nth_error_In; eauto.
            - apply (IH a b); auto. lia. }
          apply (G j' j (r', y) (r, K0)); auto. lia. }
        intros i k I Kk. rewrite (I3 j' r' y ltac:(lia) E0 i k I Kk). rewrite (B1 r') by lia.
        f_equal. apply sumr_ext. intros k0 Hk. rewrite B1 by lia. reflexivity.
    + intros i k I Kk. unfold d3. cbn [dk]. rewrite get_sub, get_mult by auto. unfold d2. cbn [dk]. rewrite G3, (I4 i k I Kk).
      unfold L'. rewrite firstn_upd by auto.
      rewrite (sumr_ext 0 n (fun q0 => dot3 (blk (firstn j L ++ [(r, K2)]) q0) (blk (firstn j L ++ [(r, K2)]) q0) i k)
        (fun q0 => (if Nat.eqb q0 r then dot3 K2 K2 i k else f0) + dot3 (blk (firstn j L) q0) (blk (firstn j L) q0) i k)).
      * rewrite sumr_add. rewrite (sumr_one 0 n (fun q0 => if Nat.eqb q0 r then dot3 K2 K2 i k else f0) r); [rewrite Nat.eqb_refl; ring|lia|].
        intros q0 _ NE. destruct (Nat.eqb_spec q0 r); [contradiction|auto].
      * intros q0 _. unfold blk. rewrite lookup_app. cbn [lookup]. rewrite (Nat.eqb_sym q0 r). destruct (Nat.eqb_spec r q0).
        -- subst q0. rewrite (proj2 (lookup_nth _ _ _ _ SL LX)), dot_zero_l. ring.
        -- destruct (lookup (firstn j L) q0); ring.
  - lia.
  - exists A', dn', Lf. split; [exact H1|]. split. { split; [congruence|]. split; auto. intros r' R'. rewrite H2c, AO3, AO2, GO by auto. auto. }
    repeat (split; [solve [auto]|]). auto.
Qed.

(* ---- the whole matrix ---- *)
Definition done_col (C0 : nat -> list (nat * m3 K)) (D0 : nat -> m3 K) (C : nat -> list (nat * m3 K)) (D : nat -> m3 K) (n : nat) : Prop :=
  map fst (C n) = map fst (C0 n) /\
  (forall i, (i < 3)%nat -> fltb f0 (get3 (D n) i i) = true) /\ (forall i j, (j < i < 3)%nat -> get3 (D n) i j = f0) /\
  (forall r x, lookup (C n) r = Some x -> offeq (C r) (C n) (D r) (blk (C0 n) r) r) /\
  diageq (C n) (D0 n) (D n) n.
(* column n fails in its diagonal block *)
Definition inc_fail (eps : K) (C0 : nat -> list (nat * m3 K)) (D0 : nat -> m3 K) (C : nat -> list (nat * m3 K)) (D : nat -> m3 K) (n : nat) : Prop :=
  (forall k, (k < n)%nat -> done_col C0 D0 C D k) /\ map fst (C n) = map fst (C0 n) /\
  (forall r x, lookup (C n) r = Some x -> offeq (C r) (C n) (D r) (blk (C0 n) r) r) /\
  (forall i k, (i < 3)%nat -> (k < 3)%nat -> get3 (D n) i k = get3 (D0 n) i k - sumr 0 n (fun q => dot3 (blk (C n) q) (blk (C n) q) i k)) /\
  exists i t, diag_fail eps (D n) i t.
Lemma incchol_wp (sq : K -> K) eps (A : smat (m3 K)) m D0 C0 :
  (forall z, fle f0 z = true -> sq z * sq z = z /\ fle f0 (sq z) = true) -> fltb f0 eps = true ->
  holds A m D0 C0 ->
  wp (incchol sq eps A) (fun A' => exists D C, holds A' m D C /\ forall n, (n < m)%nat -> done_col C0 D0 C D n)
    (fun e => e = RuntimeError /\ exists n D C, (n < m)%nat /\ inc_fail eps C0 D0 C D n).
Proof.
  intros SQ EP H0. pose proof H0 as (LA & _). unfold incchol. rewrite LA.
  apply wp_mono with (P := fun A' => exists D C, holds A' m D C /\ (forall n, (n < m)%nat -> done_col C0 D0 C D n) /\ (forall n, (m <= n < m)%nat -> D n = D0 n /\ C n = C0 n)).
  2:{ intros A' (D & C & G1 & G2 & _). eauto. }
  apply (wp_for 0 m _ A (fun n A' => exists D C, holds A' m D C /\ (forall k, (k < n)%nat -> done_col C0 D0 C D k) /\ (forall k, (n <= k < m)%nat -> D k = D0 k /\ C k = C0 k))).
  - lia.
  - exists D0, C0. split; [auto|]. split; [lia|auto].
  - intros n A' N (D & C & HH & HD & HU). pose proof HH as (LA' & HC). destruct (HC n ltac:(lia)) as (dn & AN & RP & DN).
    destruct (HU n ltac:(lia)) as (UD & UC).
    rewrite (aget_some _ _ _ AN). cbn [bind].
    pose proof RP as ((c & SG & AT & PM) & SS & FF & CP).
    assert (CR : colrep dn c (C n)) by (split; auto).
    assert (LC : length c = nnz dn) by (apply Permutation_length in PM; now rewrite seq_length in PM).
    rewrite (colrep_head _ _ _ CR).
    destruct (inc_col_ok n D C (D0 n) (C0 n) c (dcap dn) (dhead dn) (nodup_perm _ _ PM)) with (fuel := S (nnz dn)) (A := A') (dn := dn) (L := C n) (j := 0%nat)
      as (A1 & d1 & L1 & G1 & G2 & G3 & G4 & G5 & G6 & G7); auto; try lia.
    + now rewrite <- UC.
    + now rewrite <- UC.
    + intros r R. destruct (holds_low _ _ _ _ HH r ltac:(lia)) as (Q1 & Q2). split; auto. split; auto. intros i I.
      destruct (HD r R) as (_ & P & _). apply fpos_nz. auto.
    + intros r R. destruct (HC r ltac:(lia)) as (dr & AR & RPR & DR). pose proof RPR as ((cr & SGr & ATr & PMr) & _).
      exists dr, cr. split; auto. split; [split; auto|]. split; auto. apply Permutation_length in PMr. now rewrite seq_length in PMr.
    + split; [now rewrite UC|]. split; [now rewrite UC|]. split; [lia|]. intros i k I Kk. rewrite DN, UD. cbn [firstn].
      rewrite sumr_zero; [ring|]. intros. apply dot_zero_l.
    + rewrite G1. cbn [bind]. destruct G2 as (AL & AE & AO). rewrite (aget_some _ _ _ AE). cbn [bind].
      destruct G7 as (J1 & _ & J3 & J4).
      assert (SL : StronglySorted lt1 L1) by (eapply sorted_fst; [symmetry; exact J1|now rewrite <- UC]).
      assert (FL : Forall (fun y => (fst y < n)%nat) L1) by (eapply low_fst; [symmetry; exact J1|now rewrite <- UC]).
      assert (UL : updf C n L1 n = L1) by (unfold updf; now rewrite Nat.eqb_refl).
      assert (UK : forall k, updf D n k n = k) by (intros; unfold updf; now rewrite Nat.eqb_refl).
      assert (STAB : forall k r, (r < n)%nat -> done_col C0 D0 (updf C n L1) (updf D n k) r).
      { intros k r R. destruct (HD r ltac:(lia)) as (Q1 & Q2 & Q3 & Q4 & Q5). unfold done_col, updf. destruct (Nat.eqb_spec r n); [lia|].
        split; [auto|]. split; [auto|]. split; [auto|]. split; [|auto]. intros r' x LK.
        assert (RN : (r' < r)%nat).
        { destruct (holds_low _ _ _ _ HH r ltac:(lia)) as (F & _). destruct (lookup_in _ _ _ LK) as (j & J).
          rewrite Forall_forall in F. apply (F (r', x)). eapply nth_error_In; eauto. }
        destruct (Nat.eqb_spec r' n); [lia|]. eauto. }
      assert (OFF : forall k r x, lookup L1 r = Some x -> offeq (updf C n L1 r) L1 (updf D n k r) (blk (C0 n) r) r).
      { intros k r x LK. destruct (lookup_in _ _ _ LK) as (j & J).
        assert (RN : (r < n)%nat) by (rewrite Forall_forall in FL; apply (FL (r, x)); eapply nth_error_In; eauto).
        unfold updf. destruct (Nat.eqb_spec r n); [lia|]. eapply J3; eauto. rewrite (colrep_len _ _ _ G3). eapply nth_error_lt; eauto. }
      assert (DG : forall i k, (i < 3)%nat -> (k < 3)%nat -> get3 (dk d1) i k = get3 (D0 n) i k - sumr 0 n (fun q => dot3 (blk L1 q) (blk L1 q) i k)).
      { intros i k I Kk. rewrite (J4 i k I Kk), (colrep_len _ _ _ G3), firstn_all. reflexivity. }
      pose proof (diag_chol_wp sq eps (dk d1) SQ EP) as W. destruct (diag_chol sq eps (dk d1)) as [k|e|f]; cbn [wp bind] in W |- *; [|destruct W as (-> & i & t & W)|tauto].
      2:{ split; auto. exists n, (updf D n (dk d1)), (updf C n L1). split; [lia|]. split; [auto|]. rewrite UL, UK. split; [auto|].
          split; [exact (OFF (dk d1))|]. split; [exact DG|]. exists i, t. exact W. }
      destruct W as (P1 & P2 & P3).
      unfold setdiag. rewrite (aget_some _ _ _ AE). cbn [bind]. rewrite aset_ok by (eapply nth_error_lt; eauto). cbn [wp].
      set (d2 := Dc k (dhead d1) (dnodes d1) (dcap d1)).
      assert (RP2 : rep n d2 L1).
      { destruct G3 as (SG1 & AT1). split; [|split; [auto|split; [auto|]]].
        - exists c. split; [exact SG1|]. split; [exact AT1|]. unfold nnz, d2; cbn. change (length (dnodes d1)) with (nnz d1). now rewrite G4, LC.
        - unfold nnz, d2; cbn. change (length (dnodes d1)) with (nnz d1). rewrite G4, LC, G5. auto. }
      exists (updf D n k), (updf C n L1). split.
      { split; [now rewrite length_upd, AL|]. intros r R. unfold updf. destruct (Nat.eqb_spec r n) as [->|NE].
        - exists d2. rewrite nth_error_upd_eq by (eapply nth_error_lt; eauto). auto.
        - destruct (HC r R) as (dr & AR & RPR & DR). exists dr. rewrite nth_error_upd_ne, AO by auto. auto. }
      split.
      * intros r R. destruct (Nat.eq_dec r n) as [->|NE].
        -- unfold done_col. rewrite UL, UK.
           split; [auto|]. split; [auto|]. split; [auto|]. split; [exact (OFF k)|].
           intros i j IJ. rewrite (P1 i j IJ), (DG i j) by lia. ring.
        -- apply STAB. lia.
      * intros r R. unfold updf. destruct (Nat.eqb_spec r n); [lia|]. apply HU. lia.
Qed.
End IncP.
