(* Copying and filling in the matrix. *)
From Coq Require Import List ZArith Bool Arith Lia Permutation Sorting.Sorted.
From Verif Require Import Base LinBase SmatModel SmatProofs.
Import ListNotations.
Local Open Scope nat_scope.
Local Arguments Nat.ltb : simpl never.
Local Arguments Nat.eqb : simpl never.

Section SmatF.
Context {B : Type}.
Variable b0 : B.
Variable badd : B -> B -> B.
Variable btr : B -> B.
Variable lim : Z.
Hypothesis badd_0 : forall x, badd b0 x = x.
Notation node := (node B).
Notation dcol := (dcol B).

Lemma expand_wp n (d : dcol) L k : rep n d L -> nnz d + k <= n -> (Z.of_nat n < 2 ^ 32)%Z ->
  wp (expand lim d (Z.of_nat k))
    (fun d' => rep n d' L /\ dk d' = dk d /\ dnodes d' = dnodes d /\ dhead d' = dhead d /\ (Z.of_nat (nnz d + k) <= dcap d')%Z)
    (fun e => e = BadAlloc /\ (lim < Z.of_nat n)%Z).
Proof.
  intros (R1 & R2 & R3 & R4) K U. unfold expand.
  assert (E : u32 (Z.of_nat (nnz d) + Z.of_nat k) = Z.of_nat (nnz d + k)) by (unfold u32; rewrite Z.mod_small; lia).
  rewrite E. destruct (Z.ltb_spec (dcap d) (Z.of_nat (nnz d + k))).
  - destruct (Z.ltb_spec lim (Z.of_nat (nnz d + k))); cbn. { split; auto; lia. }
    unfold rep, nnz in *; cbn. repeat split; auto; lia.
  - cbn. unfold rep, nnz in *. repeat split; auto.
Qed.
Lemma addin_end r t (L : list (nat * B)) : Forall (fun y => fst y < r) L -> addin badd r t L = L ++ [(r, t)].
Proof. intros H. rewrite <- (app_nil_r L) at 1. rewrite addin_low by auto. reflexivity. Qed.
Lemma updf_same {X} (f : nat -> X) i x y j : updf (updf f i x) i y j = updf f i y j.
Proof. unfold updf. destruct (j =? i); auto. Qed.

Lemma copy_col_wp l i m D : forall c fuel p L1 L2 M C, seg l p c None -> at_ l c L2 -> length c < fuel ->
  StronglySorted lt1 (L1 ++ L2) -> Forall (fun y => fst y < i) L2 -> i < m -> (Z.of_nat m < 2 ^ 32)%Z ->
  holds M m D (updf C i L1) ->
  wp (copy_col badd btr lim fuel l p i M) (fun M' => holds M' m D (updf C i (L1 ++ L2)))
    (fun e => e = BadAlloc /\ (lim < Z.of_nat m)%Z).
Proof.
  induction c as [|q c IH]; intros fuel p L1 L2 M C HS HA F SS FL I U H; destruct fuel; try (cbn in F; lia).
  - inversion HA; subst. cbn in HS; subst p. cbn. now rewrite app_nil_r.
  - cbn in HS. destruct HS as (-> & x & X & HS). inversion HA as [|? y ? L2' (x' & X' & <-) A']; subst.
    assert (x' = x) by congruence. subst x'. cbn [copy_col]. rewrite (aget_some _ _ _ X). cbn [bind].
    inversion FL as [|? ? F0 FL']; subst. cbn in F0.
    destruct (sorted_app_inv _ _ _ SS) as (S1 & S2 & S3).
    eapply wp_seq; [apply (append_wp badd btr lim M m D _ (nrow x) i (nk x) H); auto; lia|].
    cbn beta. intros M' H'. destruct (Nat.eqb_spec (nrow x) i); [lia|].
    destruct (Nat.ltb_spec i (nrow x)); [lia|].
    rewrite Nat.max_r, Nat.min_l in H' by lia.
    replace (updf C i L1 i) with L1 in H' by (unfold updf; now rewrite Nat.eqb_refl).
    rewrite addin_end in H'.
    2:{ apply Forall_forall. intros y Y. apply (S3 y (cell x) Y). cbn; auto. }
    change (cell x :: L2') with ([cell x] ++ L2'). rewrite app_assoc.
    apply IH; auto.
    + cbn in F; lia.
    + rewrite <- app_assoc. exact SS.
    + eapply holds_ext; [|exact H']. intros k N. split; auto. apply updf_same.
Qed.
Lemma copy_wp A m D C : holds A m D C -> (Z.of_nat m < 2 ^ 32)%Z ->
  wp (copy b0 badd btr lim A) (fun M => holds M m D C) (fun e => e = BadAlloc /\ (lim < Z.of_nat m)%Z).
Proof.
  intros (E & H) U. unfold copy. rewrite E.
  apply wp_mono with (P := fun M => holds M m (fun n => if n <? m then D n else b0) (fun n => if n <? m then C n else [])).
  2:{ intros M G. eapply holds_ext; [|exact G]. intros n N. cbn. destruct (Nat.ltb_spec n m); auto; lia. }
  apply (wp_for 0 m _ (smat_new b0 m) (fun k M => holds M m (fun n => if n <? k then D n else b0) (fun n => if n <? k then C n else []))).
  - lia.
  - apply holds_new.
  - intros i M I G. destruct (H i ltac:(lia)) as (d & X & R & K). rewrite (aget_some _ _ _ X). cbn [bind].
    destruct (proj2 G i ltac:(lia)) as (d1 & X1 & R1 & K1). rewrite (aget_some _ _ _ X1). cbn [bind].
    rewrite Nat.ltb_irrefl in R1, K1.
    pose proof (rep_len _ _ _ R1) as Z1. cbn in Z1.
    pose proof (rep_len _ _ _ R) as Z2.
    pose proof R as ((c & HS & HA & HP) & SS & FL & CP).
    pose proof (sorted_len _ _ SS FL) as LN.
    eapply wp_seq.
    { eapply wp_conseq; [apply (expand_wp i d1 [] (nnz d)); auto; lia|intros a Ha; exact Ha|]. cbn. intros e (-> & ?). split; auto; lia. }
    cbn. intros d2 (R2 & K2 & _). rewrite aset_ok by (rewrite (proj1 G); lia). cbn [bind].
    pose proof (holds_upd M m _ _ i d2 [] b0 G ltac:(lia) R2 ltac:(congruence)) as GU.
    eapply wp_seq; [apply (append_wp badd btr lim (upd M i d2) m _ _ i i (dk d) GU); auto; lia|].
    cbn beta. intros M2 G2. rewrite Nat.eqb_refl in G2.
    assert (LC : length c < S (nnz d)) by (apply Permutation_length in HP; rewrite seq_length in HP; lia).
    eapply wp_mono; [apply (copy_col_wp (dnodes d) i m (fun n => if n <? i + 1 then D n else b0) c (S (nnz d)) (dhead d) [] (C i) M2
       (fun n => if n <? i then C n else [])); auto|].
    + lia.
    + eapply holds_ext; [|exact G2]. intros n N. unfold updf. split; auto.
      rewrite Nat.eqb_refl, badd_0. destruct (Nat.eqb_spec n i).
      * subst n. destruct (Nat.ltb_spec i (i + 1)); [congruence|lia].
      * destruct (Nat.ltb_spec n i), (Nat.ltb_spec n (i + 1)); auto; lia.
    + intros M' G'. eapply holds_ext; [|exact G']. intros n N. split; auto. unfold updf. cbn [app].
      destruct (Nat.eqb_spec n i).
      * subst n. destruct (Nat.ltb_spec i (i + 1)); auto; lia.
      * destruct (Nat.ltb_spec n i), (Nat.ltb_spec n (i + 1)); auto; lia.
Qed.

(* ---- fillin: the lists of the rows ---- *)
Definition has (L : list (nat * B)) (i : nat) : bool := match lookup L i with Some _ => true | None => false end.
Lemma has_in L i : has L i = true <-> exists y, In y L /\ fst y = i.
Proof.
  unfold has. induction L as [|[r x] L IH]; cbn.
  - split; [discriminate|intros (y & [] & _)].
  - destruct (Nat.eqb_spec r i).
    + split; auto. intros _. exists (r, x). auto.
    + rewrite IH. split; intros (y & Y); [exists y; tauto|]. destruct Y as ([<-|Y] & E); [cbn in E; tauto|eauto].
Qed.
Lemma has_app L1 L2 i : has (L1 ++ L2) i = has L1 i || has L2 i.
Proof.
  unfold has. induction L1 as [|[r x] L1 IH]; cbn; auto. destruct (r =? i); auto.
Qed.

(* the columns in cols are met from p on; their entries are at places m <= q < h *)
Fixpoint rpath (rows : list rowp) (m h : nat) (p : option nat) (cols : list nat) : Prop :=
  match cols with
  | [] => p = None
  | j :: cols => exists q x, p = Some q /\ m <= q < h /\ nth_error rows q = Some x /\ rcol x = Z.of_nat j /\ rpath rows m h (rprev x) cols
  end.
Lemma rpath_ext rows rows' m h h' p cols : h <= h' -> (forall q, m <= q < h -> nth_error rows' q = nth_error rows q) ->
  rpath rows m h p cols -> rpath rows' m h' p cols.
Proof.
  intros Hh E. revert p; induction cols; cbn; auto. intros p (q & x & -> & Q & X & R & G).
  exists q, x. repeat split; auto; try lia. rewrite E; auto.
Qed.
Definition view (rows : list rowp) (m T h : nat) (mk : nat -> Z) (G : nat -> list nat) : Prop :=
  length rows = m + T /\
  forall i, i < m -> exists x, nth_error rows i = Some x /\ rcol x = mk i /\ rpath rows m h (rprev x) (G i).
Lemma view_ext rows m T h mk G mk' G' : view rows m T h mk G -> (forall i, i < m -> mk i = mk' i /\ G i = G' i) -> view rows m T h mk' G'.
Proof. intros (L & H) X. split; auto. intros i I. destruct (H i I) as (x & Hx). destruct (X i I) as (<- & <-). eauto. Qed.
(* writing a head *)
Lemma view_head rows m T h mk G i z p js : view rows m T h mk G -> i < m -> rpath rows m h p js ->
  view (upd rows i (Rp z p)) m T h (updf mk i z) (updf G i js).
Proof.
  intros (L & H) I P. split. { now rewrite length_upd. }
  assert (X : forall q, m <= q < h -> nth_error (upd rows i (Rp z p)) q = nth_error rows q).
  { intros q Q. apply nth_error_upd_ne. lia. }
  intros k Hk. unfold updf. destruct (Nat.eqb_spec k i).
  - subst k. exists (Rp z p). split; [apply nth_error_upd_eq; lia|]. split; auto. cbn. eapply rpath_ext; eauto.
  - destruct (H k Hk) as (x & X1 & X2 & X3). exists x. rewrite nth_error_upd_ne by auto. repeat split; auto. eapply rpath_ext; eauto.
Qed.
Lemma rows_col_wp l n m T : forall c fuel p L1 L2 rows h G0, seg l p c None -> at_ l c L2 -> length c < fuel ->
  StronglySorted lt1 (L1 ++ L2) -> Forall (fun y => fst y < m) L2 -> h + length L2 <= m + T -> m <= h ->
  view rows m T h (fun _ => 0%Z) (fun i => if has L1 i then n :: G0 i else G0 i) ->
  exists rows', rows_col fuel l p n (rows, h) = Ok (rows', h + length L2) /\
    view rows' m T (h + length L2) (fun _ => 0%Z) (fun i => if has (L1 ++ L2) i then n :: G0 i else G0 i).
Proof.
  induction c as [|q c IH]; intros fuel p L1 L2 rows h G0 HS HA F SS FL HT MH V; destruct fuel; try (cbn in F; lia).
  - inversion HA; subst. cbn in HS; subst p. cbn. exists rows. rewrite Nat.add_0_r, app_nil_r. auto.
  - cbn in HS. destruct HS as (-> & x & X & HS). inversion HA as [|? y ? L2' (x' & X' & <-) A']; subst.
    assert (x' = x) by congruence. subst x'. cbn [rows_col]. rewrite (aget_some _ _ _ X). cbn [bind].
    inversion FL as [|? ? F0 FL']; subst. cbn in F0. cbn [length] in *.
    destruct (sorted_app_inv _ _ _ SS) as (S1 & S2 & S3).
    pose proof V as (LV & HV). destruct (HV _ F0) as (hd & H1 & H2 & H3).
    assert (NH : has L1 (nrow x) = false).
    { destruct (has L1 (nrow x)) eqn:Q; auto. apply has_in in Q as (y & Y & E).
      specialize (S3 y (cell x) Y (or_introl eq_refl)). unfold lt1 in S3. cbn in S3. lia. }
    rewrite NH in H3.
    rewrite (aget_some _ _ _ H1). cbn [bind]. rewrite aset_ok by lia. cbn [bind].
    set (e := Rp (Z.of_nat n) (rprev hd)). set (rows1 := upd rows h e).
    assert (O1 : forall q, q <> h -> nth_error rows1 q = nth_error rows q) by (intros; apply nth_error_upd_ne; auto).
    assert (X1 : nth_error rows1 (nrow x) = Some hd) by (rewrite O1; auto; lia).
    rewrite (aget_some _ _ _ X1). cbn [bind]. rewrite aset_ok by (unfold rows1; rewrite length_upd; lia). cbn [bind].
    assert (V1 : view rows1 m T (S h) (fun _ => 0%Z) (fun i => if has L1 i then n :: G0 i else G0 i)).
    { split. { unfold rows1; now rewrite length_upd. }
      intros i I. destruct (HV i I) as (x0 & Y1 & Y2 & Y3). exists x0. rewrite O1 by lia. repeat split; auto.
      eapply rpath_ext; [| |exact Y3]; [lia|]. intros; apply O1; lia. }
    assert (P1 : rpath rows1 m (S h) (Some h) (n :: G0 (nrow x))).
    { cbn. exists h, e. repeat split; auto; try lia. { apply nth_error_upd_eq; lia. }
      cbn. eapply rpath_ext; [| |exact H3]; [lia|]. intros; apply O1; lia. }
    assert (RC : rcol hd = 0%Z) by auto. rewrite RC.
    pose proof (view_head _ _ _ _ _ _ (nrow x) 0%Z (Some h) _ V1 F0 P1) as V2.
    destruct (IH fuel (nnext x) (L1 ++ [cell x]) L2' (upd rows1 (nrow x) (Rp 0 (Some h))) (S h) G0) as (rows' & E & V'); auto; try lia.
    + rewrite <- app_assoc. exact SS.
    + eapply view_ext; [exact V2|]. intros i I. unfold updf. rewrite has_app. destruct (Nat.eqb_spec i (nrow x)).
      * subst i. split; auto. rewrite NH. unfold has. cbn. now rewrite Nat.eqb_refl.
      * split; auto. assert (has [cell x] i = false) as ->.
        { unfold has; cbn. destruct (Nat.eqb_spec (nrow x) i); auto. congruence. }
        now rewrite orb_false_r.
    + exists rows'. replace (h + S (length L2')) with (S h + length L2') by lia. split; auto.
      rewrite <- app_assoc in V'. exact V'.
Qed.

Section Cols.
Variable C : nat -> list (nat * B).
(* the columns before k with a block in row i, the last first *)
Fixpoint cols_of (i k : nat) : list nat :=
  match k with O => [] | S k => if has (C k) i then k :: cols_of i k else cols_of i k end.
Lemma cols_in i k j : In j (cols_of i k) <-> j < k /\ has (C j) i = true.
Proof.
  induction k; cbn. { split; [tauto|lia]. }
  destruct (has (C k) i) eqn:E; cbn; rewrite ?IHk; split.
  - intros [<-|H]; auto with arith. destruct H; auto with arith.
  - intros (H1 & H2). destruct (Nat.eq_dec j k); subst; auto. right; split; auto; lia.
  - intros (H1 & H2); auto with arith.
  - intros (H1 & H2). destruct (Nat.eq_dec j k); subst; [congruence|]. split; auto; lia.
Qed.
Lemma cols_len i k : length (cols_of i k) <= k.
Proof. induction k; cbn; auto. destruct (has (C k) i); cbn; lia. Qed.
End Cols.

Lemma total_firstn (A : smat B) n d : nth_error A n = Some d -> total (firstn (S n) A) = total (firstn n A) + nnz d.
Proof.
  revert n; induction A; destruct n; cbn; intros H; try discriminate.
  - injection H as ->. lia.
  - rewrite <- Nat.add_assoc. f_equal. apply (IHA n H).
Qed.
Lemma total_le (A : smat B) n : total (firstn n A) <= total A.
Proof. revert n; induction A; destruct n; cbn; try lia. specialize (IHA n). unfold total in IHA. lia. Qed.
Lemma nth_repeat_rowp k z i : i < k -> nth_error (repeat (Rp z None) k) i = Some (Rp z None).
Proof. revert i; induction k; destruct i; cbn; intros; try lia; auto. apply IHk; lia. Qed.
Lemma rows_of_wp A m D C : holds A m D C -> exists rows, rows_of A = Ok rows /\
  view rows m (total A) (m + total A) (fun _ => 0%Z) (fun i => cols_of C i m).
Proof.
  intros (E & H). unfold rows_of. rewrite E.
  assert (W : wp (for_up 0 m (fun n s => let* d := aget A n in rows_col (S (nnz d)) (dnodes d) (dhead d) n s)
      (repeat (Rp 0 None) (m + total A), m))
    (fun s => snd s = m + total (firstn m A) /\ view (fst s) m (total A) (snd s) (fun _ => 0%Z) (fun i => cols_of C i m)) (fun _ => False)).
  { apply (wp_for 0 m _ _ (fun n s => snd s = m + total (firstn n A) /\
      view (fst s) m (total A) (snd s) (fun _ => 0%Z) (fun i => cols_of C i n))).
    - lia.
    - cbn. split; [lia|]. split. { apply repeat_length. }
      intros i I. exists (Rp 0 None). split; [apply nth_repeat_rowp; lia|]. cbn. auto.
    - intros n [rows h] N (Hh & V). cbn in Hh, V. destruct (H n ltac:(lia)) as (d & X & R & K).
      rewrite (aget_some _ _ _ X). cbn [bind].
      pose proof (rep_len _ _ _ R) as RL. pose proof R as ((c & HS & HA & HP) & SS & FL & CP).
      pose proof (total_firstn _ _ _ X) as TF. pose proof (total_le A (S n)) as TL.
      destruct (rows_col_wp (dnodes d) n m (total A) c (S (nnz d)) (dhead d) [] (C n) rows h (fun i => cols_of C i n)) as (rows' & E' & V'); auto; try lia.
      + apply Permutation_length in HP. rewrite seq_length in HP. lia.
      + eapply Forall_impl; [|exact FL]. cbn. intros; lia.
      + rewrite E'. cbn. rewrite Nat.add_1_r. split; [lia|]. cbn in V'. exact V'. }
  destruct (for_up 0 m _ _) as [[rows h]| |]; cbn in W; try tauto. destruct W as (W1 & W2). subst h.
  cbn. exists rows. split; auto. rewrite <- E, firstn_all in W2. rewrite E in W2. exact W2.
Qed.

(* ---- fillin: the marks ---- *)
Lemma set_mark_wp rows m T h mk G k v : view rows m T h mk G -> k < m ->
  exists rows', set_mark rows (Z.of_nat k) v = Ok rows' /\ view rows' m T h (updf mk k v) G /\ length rows' = length rows /\
    (forall q, m <= q -> nth_error rows' q = nth_error rows q).
Proof.
  intros V K. pose proof V as (L & H). destruct (H k K) as (x & X1 & X2 & X3).
  unfold set_mark, zget. destruct (Z.ltb_spec (Z.of_nat k) 0); [lia|]. rewrite Nat2Z.id.
  rewrite (aget_some _ _ _ X1). cbn [bind]. rewrite aset_ok by lia.
  eexists; split; [reflexivity|]. split; [|split].
  - eapply view_ext; [apply (view_head _ _ _ _ _ _ k v (rprev x) (G k) V K X3)|].
    intros i I. split; auto. unfold updf. destruct (Nat.eqb_spec i k); subst; auto.
  - apply length_upd.
  - intros q Q. apply nth_error_upd_ne. lia.
Qed.
Lemma mark_row_wp n m T h G : n < m -> forall js fuel p rows mk, view rows m T h mk G -> rpath rows m h p js ->
  (forall j, In j js -> j < n) -> length js < fuel ->
  exists rows', mark_row fuel n p rows = Ok rows' /\
    view rows' m T h (fun k => if existsb (fun j => k =? n - 1 - j) js then (-1)%Z else mk k) G /\ length rows' = length rows /\
    (forall q, m <= q -> nth_error rows' q = nth_error rows q).
Proof.
  intros NM. induction js as [|j js IH]; intros fuel p rows mk V P J F; destruct fuel; try (cbn in F; lia).
  - cbn in P; subst p. cbn. exists rows. auto.
  - cbn in P. destruct P as (q & x & -> & Q & X & R & P). cbn [mark_row]. rewrite (aget_some _ _ _ X). cbn [bind]. rewrite R.
    pose proof (J j (or_introl eq_refl)) as JN.
    replace (Z.of_nat n - Z.of_nat j - 1)%Z with (Z.of_nat (n - 1 - j)) by lia.
    destruct (set_mark_wp rows m T h mk G (n - 1 - j) (-1) V ltac:(lia)) as (r1 & E1 & V1 & L1 & O1).
    rewrite E1. cbn [bind]. rewrite (aget_some r1 q x) by (rewrite O1; auto; lia). cbn [bind].
    destruct (IH fuel (rprev x) r1 _ V1) as (r2 & E2 & V2 & L2 & O2).
    + eapply rpath_ext; [| |exact P]; auto. intros; apply O1; lia.
    + intros; apply J; cbn; auto.
    + cbn in F; lia.
    + exists r2. split; auto. split; [|split; [lia|]].
      * eapply view_ext; [exact V2|]. intros i I. split; auto. cbn [existsb]. unfold updf.
        destruct (Nat.eqb_spec i (n - 1 - j)); cbn; auto. destruct (existsb _ js); auto.
      * intros q' Q'. rewrite O2, O1; auto.
Qed.

Section Marks.
Variable C : nat -> list (nat * B).
Hypothesis C_low : forall j, Forall (fun y => fst y < j) (C j).
Lemma has_low j i : has (C j) i = true -> i < j.
Proof.
  intros H. apply has_in in H as (y & Y & <-). pose proof (C_low j) as F. rewrite Forall_forall in F. now apply F.
Qed.
(* the mark of row n-1-k of column n when the rows of L1 are done *)
Definition mk1 (n : nat) (L1 : list (nat * B)) (k : nat) : Z :=
  if n <=? k then 0%Z
  else if has L1 (n - 1 - k) then 1%Z
  else if existsb (fun y => has (C (n - 1 - k)) (fst y)) L1 then (-1)%Z else 0%Z.
Lemma existsb_cols i n k : k < n -> existsb (fun j => k =? n - 1 - j) (cols_of C i n) = has (C (n - 1 - k)) i.
Proof.
  intros K. destruct (has (C (n - 1 - k)) i) eqn:E.
  - apply existsb_exists. exists (n - 1 - k). split. { apply (proj2 (cols_in C i n (n - 1 - k))); split; [lia|auto]. } apply Nat.eqb_eq; lia.
  - apply not_true_is_false. intros Q. apply existsb_exists in Q as (j & J & Q). apply Nat.eqb_eq in Q.
    apply cols_in in J as (J1 & J2). assert (j = n - 1 - k) by lia. congruence.
Qed.
Lemma mark_col_wp l n m T h : n < m -> forall c fuel p L1 L2 rows, seg l p c None -> at_ l c L2 -> length c < fuel ->
  L1 ++ L2 = C n -> StronglySorted lt1 (C n) ->
  view rows m T h (mk1 n L1) (fun i => if has L1 i then cols_of C i n else cols_of C i (S n)) ->
  exists rows', mark_col fuel l p n rows = Ok rows' /\
    view rows' m T h (mk1 n (C n)) (fun i => if has (C n) i then cols_of C i n else cols_of C i (S n)).
Proof.
  intros NM. induction c as [|q c IH]; intros fuel p L1 L2 rows HS HA F EC SS V; destruct fuel; try (cbn in F; lia).
  - inversion HA; subst. cbn in HS; subst p. rewrite app_nil_r in EC. subst L1. cbn. eauto.
  - cbn in HS. destruct HS as (-> & x & X & HS). inversion HA as [|? y ? L2' (x' & X' & <-) A']; subst.
    assert (x' = x) by congruence. subst x'. cbn [mark_col]. rewrite (aget_some _ _ _ X). cbn [bind].
    set (i := nrow x) in *.
    assert (HN : has (C n) i = true).
    { rewrite <- EC, has_app. unfold has at 2; cbn. fold i. rewrite Nat.eqb_refl. apply orb_true_r. }
    pose proof (has_low _ _ HN) as IN.
    pose proof SS as SS0. rewrite <- EC in SS. destruct (sorted_app_inv _ _ _ SS) as (S1 & S2 & S3).
    assert (LT : forall r, has L1 r = true -> r < i).
    { intros r Q. apply has_in in Q as (y & Y & <-). apply (S3 y (cell x) Y). cbn; auto. }
    assert (NH : has L1 i = false).
    { destruct (has L1 i) eqn:Q; auto. apply LT in Q. lia. }
    replace (Z.of_nat n - Z.of_nat i - 1)%Z with (Z.of_nat (n - 1 - i)) by lia.
    destruct (set_mark_wp rows m T h _ _ (n - 1 - i) 1 V ltac:(lia)) as (r1 & E1 & V1 & LL1 & O1).
    rewrite E1. cbn [bind].
    pose proof V1 as (LV & HV). destruct (HV i ltac:(lia)) as (hd & H1 & H2 & H3).
    rewrite (aget_some _ _ _ H1). cbn [bind]. rewrite NH in H3. cbn [cols_of] in H3. rewrite HN in H3.
    destruct H3 as (e & ex & -> & He & Hx & Hc & P). rewrite (aget_some _ _ _ Hx). cbn [bind].
    rewrite aset_ok by lia. cbn [bind].
    pose proof (view_head _ _ _ _ _ _ i (rcol hd) (rprev ex) _ V1 ltac:(lia) P) as V2.
    set (r2 := upd r1 i (Rp (rcol hd) (rprev ex))) in *.
    assert (P2 : rpath r2 m h (rprev ex) (cols_of C i n)).
    { eapply rpath_ext; [| |exact P]; auto. intros. apply nth_error_upd_ne. lia. }
    destruct (mark_row_wp n m T h _ NM (cols_of C i n) (S (length r2)) (rprev ex) r2 _ V2 P2) as (r3 & E3 & V3 & _).
    { intros j J. apply cols_in in J. tauto. }
    { pose proof (cols_len C i n). unfold r2. rewrite length_upd, LV. lia. }
    rewrite E3. cbn [bind].
    apply (IH fuel (nnext x) (L1 ++ [cell x]) L2' r3); auto.
    + cbn in F; lia.
    + rewrite <- app_assoc. exact EC.
    + eapply view_ext; [exact V3|]. intros k K.
      assert (HX : forall r, has [cell x] r = (i =? r)). { intros r. unfold has; cbn. fold i. destruct (i =? r); auto. }
      split.
      * (* the marks *)
        unfold updf. destruct (Nat.leb_spec n k).
        { unfold mk1. destruct (Nat.leb_spec n k); [|lia].
          replace (existsb (fun j => k =? n - 1 - j) (cols_of C i n)) with false.
          2:{ symmetry. apply not_true_is_false. intros Q. apply existsb_exists in Q as (j & J & Q). apply Nat.eqb_eq in Q. lia. }
          destruct (Nat.eqb_spec k i).
          - rewrite H2. unfold updf. destruct (Nat.eqb_spec i (n - 1 - i)); [lia|]. subst k. lia.
          - destruct (Nat.eqb_spec k (n - 1 - i)); [lia|auto]. }
        rewrite existsb_cols by auto.
        assert (MK : (if k =? i then rcol hd else if k =? n - 1 - i then 1%Z else mk1 n L1 k) = (if k =? n - 1 - i then 1%Z else mk1 n L1 k)).
        { destruct (Nat.eqb_spec k i); auto. subst k. rewrite H2. unfold updf. auto. }
        rewrite MK. clear MK. unfold mk1. destruct (Nat.leb_spec n k); [lia|].
        rewrite has_app, HX, existsb_app. cbn [existsb]. change (fst (cell x)) with i. rewrite orb_false_r.
        destruct (Nat.eqb_spec i (n - 1 - k)).
        -- rewrite orb_true_r. destruct (Nat.eqb_spec k (n - 1 - i)); [|lia].
           destruct (has (C (n - 1 - k)) i) eqn:Q; auto. apply has_low in Q. lia.
        -- rewrite orb_false_r. destruct (Nat.eqb_spec k (n - 1 - i)); [lia|].
           destruct (has (C (n - 1 - k)) i) eqn:Q.
           ++ apply has_low in Q. destruct (has L1 (n - 1 - k)) eqn:Q1. { apply LT in Q1. lia. } now rewrite orb_true_r.
           ++ rewrite orb_false_r. auto.
      * unfold updf. rewrite has_app, HX. destruct (Nat.eqb_spec k i).
        -- subst k. rewrite Nat.eqb_refl, orb_true_r. auto.
        -- destruct (Nat.eqb_spec i k); [congruence|]. now rewrite orb_false_r.
Qed.
End Marks.

(* ---- fillin: the new nodes ---- *)
Lemma count_wp rows m T h mk G k : view rows m T h mk G -> k <= m ->
  exists c, count_marks rows k = Ok c /\ c = length (filter (fun i => (mk i =? -1)%Z) (seq 0 k)).
Proof.
  intros (L & H) K. unfold count_marks.
  assert (W : wp (for_up 0 k (fun i c => let* r := aget rows i in Ok (if (rcol r =? -1)%Z then S c else c)) 0)
    (fun c => c = length (filter (fun i => (mk i =? -1)%Z) (seq 0 k))) (fun _ => False)).
  { apply (wp_for 0 k _ _ (fun n c => c = length (filter (fun i => (mk i =? -1)%Z) (seq 0 n)))).
    - lia.
    - reflexivity.
    - intros i c I ->. destruct (H i ltac:(lia)) as (x & X1 & X2 & _). rewrite (aget_some _ _ _ X1). cbn [bind wp].
      rewrite Nat.add_1_r, seq_S, filter_app, app_length. cbn. rewrite X2. destruct (mk i =? -1)%Z; cbn; lia. }
  destruct (for_up 0 k _ 0); cbn in W; try tauto. eauto.
Qed.
(* the rows to add, the least first, of those with marks below k *)
Fixpoint fills (mk : nat -> Z) (n k : nat) : list nat :=
  match k with O => [] | S k => if (mk k =? -1)%Z then (n - 1 - k) :: fills mk n k else fills mk n k end.
Lemma fills_len mk n k : length (fills mk n k) = length (filter (fun i => (mk i =? -1)%Z) (seq 0 k)).
Proof.
  induction k; cbn [fills]; auto. rewrite seq_S, filter_app, app_length. cbn. destruct (mk k =? -1)%Z; cbn; lia.
Qed.
Lemma fills_in mk n k r : k <= n -> (In r (fills mk n k) <-> r < n /\ n - 1 - r < k /\ mk (n - 1 - r) = (-1)%Z).
Proof.
  induction k; intros K; cbn [fills]. { cbn. split; [tauto|lia]. }
  destruct (Z.eqb_spec (mk k) (-1)); cbn [In]; rewrite ?IHk by lia.
  - split.
    + intros [<-|H]; [|intuition lia]. replace (n - 1 - (n - 1 - k)) with k by lia. repeat split; auto; lia.
    + intros (H1 & H2 & H3). destruct (Nat.eq_dec (n - 1 - r) k); [left; lia|right]. repeat split; auto; lia.
  - split; [intuition lia|]. intros (H1 & H2 & H3). repeat split; auto.
    assert (n - 1 - r <> k) by (intros Q; rewrite Q in H3; auto). lia.
Qed.
Lemma fills_nodup mk n k : k <= n -> NoDup (fills mk n k).
Proof.
  induction k; cbn [fills]; intros K; [constructor|]. destruct (mk k =? -1)%Z; auto with arith. constructor; auto with arith.
  rewrite fills_in by lia. lia.
Qed.
Definition newnode (r : nat) : node := Nd b0 r None.
(* lines 1907-1911 *)
Lemma fill_loop_wp z (l0 : list node) rows m T h mk G n k : view rows m T h mk G -> k <= m -> k <= n -> length l0 = z ->
  wp (for_up 0 k (fun i s =>
      let '(l, rows, j) := s in
      let* r := aget rows i in
      let* (l, j) :=
        if (rcol r =? -1)%Z then
          let* x := aget l (j - 1 + z) in
          let* l := aset l (j - 1 + z) (Nd (nk x) (n - 1 - i) (nnext x)) in
          Ok (l, j - 1)
        else Ok (l, j) in
      let* rows := aset rows i (Rp 0 (rprev r)) in
      Ok (l, rows, j)) (l0 ++ repeat (Nd b0 0 None) (length (fills mk n k)), rows, length (fills mk n k)))
    (fun s => fst (fst s) = l0 ++ map newnode (fills mk n k) /\
       view (snd (fst s)) m T h (fun i => if i <? k then 0%Z else mk i) G) (fun _ => False).
Proof.
  intros V KM KN EL.
  apply wp_mono with (P := fun s => let '(l, rows, j) := s in
    l = l0 ++ repeat (Nd b0 0 None) j ++ map newnode (fills mk n k) /\ j + length (fills mk n k) = length (fills mk n k) /\
    view rows m T h (fun i => if i <? k then 0%Z else mk i) G).
  2:{ intros [[l r] j] (E & J & W). assert (j = 0) by lia. subst j. cbn. auto. }
  set (N := length (fills mk n k)) at 1 2 4.
  apply (wp_for 0 k _ _ (fun i s => let '(l, rows, j) := s in
    l = l0 ++ repeat (Nd b0 0 None) j ++ map newnode (fills mk n i) /\ j + length (fills mk n i) = N /\
    view rows m T h (fun q => if q <? i then 0%Z else mk q) G)).
  - lia.
  - cbn. rewrite app_nil_r. repeat split; auto. { destruct V; auto. }
    intros i I. destruct V as (_ & V). apply V; auto.
  - intros i [[l rw] j] I (-> & J & W). destruct (proj2 W i ltac:(lia)) as (x & X1 & X2 & X3).
    rewrite Nat.ltb_irrefl in X2. rewrite (aget_some _ _ _ X1). cbn [bind].
    pose proof (view_head _ _ _ _ _ _ i 0%Z (rprev x) (G i) W ltac:(lia) X3) as W2.
    assert (V2 : view (upd rw i (Rp 0 (rprev x))) m T h (fun q => if q <? i + 1 then 0%Z else mk q) G).
    { eapply view_ext; [exact W2|]. intros q Q. unfold updf. destruct (Nat.eqb_spec q i).
      - subst q. destruct (Nat.ltb_spec i (i + 1)); [auto|lia].
      - destruct (Nat.ltb_spec q i), (Nat.ltb_spec q (i + 1)); auto; lia. }
    assert (LR : i < length rw) by (rewrite (proj1 W); lia).
    rewrite X2. rewrite Nat.add_1_r in *. cbn [fills]. destruct (mk i =? -1)%Z eqn:MI.
    + assert (JP : j <> 0).
      { intros ->. assert (LT : length (fills mk n (S i)) <= length (fills mk n k)).
        { rewrite !fills_len. replace (seq 0 k) with (seq 0 (S i) ++ seq (S i) (k - S i)) by (rewrite <- seq_app; f_equal; lia).
          rewrite filter_app, app_length. lia. }
        cbn [fills] in LT. rewrite MI in LT. cbn in LT. unfold N in J. lia. }
      destruct j as [|j]; [lia|]. replace (S j - 1) with j by lia.
      cbn [repeat]. rewrite repeat_cons, <- !app_assoc. cbn [app].
      assert (NX : nth_error (l0 ++ repeat (Nd b0 0 None) j ++ Nd b0 0 None :: map newnode (fills mk n i)) (j + z) = Some (Nd b0 0 None)).
      { rewrite app_assoc. apply nth_mid. rewrite app_length, repeat_length. lia. }
      rewrite (aget_some _ _ _ NX). cbn [bind]. rewrite aset_ok by (eapply nth_error_lt; eauto). cbn [bind].
      rewrite aset_ok by auto. cbn [bind wp]. split; [|split; auto].
      * rewrite app_assoc, upd_mid by (rewrite app_length, repeat_length; lia). rewrite <- app_assoc. reflexivity.
      * cbn [length]. lia.
    + cbn [bind]. rewrite aset_ok by auto. cbn [bind wp]. auto.
Qed.

(* the blocks of column n with the rows of R added *)
Definition addrows (R : list nat) (L : list (nat * B)) : list (nat * B) := fold_right (fun r L => addin badd r b0 L) L R.
Lemma addin_perm r t L : has L r = false -> Permutation (addin badd r t L) ((r, t) :: L).
Proof.
  unfold has. induction L as [|[r' x] L IH]; cbn; intros H; auto. destruct (Nat.eqb_spec r' r); [discriminate|].
  destruct (Nat.ltb_spec r' r); auto. etransitivity; [constructor; apply IH; auto|]. apply perm_swap.
Qed.
Lemma addrows_props R L n : StronglySorted lt1 L -> NoDup R -> (forall r, In r R -> has L r = false /\ r < n) -> Forall (fun y => fst y < n) L ->
  StronglySorted lt1 (addrows R L) /\ Permutation (map (@cell B) (map newnode R) ++ L) (addrows R L) /\ Forall (fun y => fst y < n) (addrows R L) /\
  (forall r, lookup (addrows R L) r = if existsb (Nat.eqb r) R then Some b0 else lookup L r).
Proof.
  intros S. induction R as [|r R IH]; intros ND H F.
  - cbn. repeat split; auto.
  - inversion ND; subst. destruct IH as (G1 & G2 & G3 & G4); auto. { intros; apply H; cbn; auto. }
    destruct (H r (or_introl eq_refl)) as (Hr & HN).
    assert (HR : lookup (addrows R L) r = None).
    { rewrite G4. replace (existsb (Nat.eqb r) R) with false.
      { unfold has in Hr. destruct (lookup L r); auto; discriminate. }
      symmetry. apply not_true_is_false. intros Q. apply existsb_exists in Q as (z & Z1 & Z2). apply Nat.eqb_eq in Z2. subst z. auto. }
    change (addrows (r :: R) L) with (addin badd r b0 (addrows R L)). split; [|split; [|split]].
    + apply addin_sorted; auto.
    + cbn [map app]. etransitivity; [|symmetry; apply addin_perm; unfold has; now rewrite HR]. constructor. exact G2.
    + apply Forall_forall. intros y I. apply addin_in in I as [->|I]; auto. rewrite Forall_forall in G3. auto.
    + intros q. rewrite lookup_addin by auto. cbn [existsb]. rewrite HR.
      destruct (Nat.eqb_spec q r); cbn; auto.
Qed.

(* row r of column n is filled if some row is in both columns *)
Definition meets (C : nat -> list (nat * B)) (n r : nat) : bool := existsb (fun y => has (C r) (fst y)) (C n).
Definition filled (C : nat -> list (nat * B)) (n : nat) : list (nat * B) :=
  match C n with
  | [] => []
  | y :: _ => addrows (fills (mk1 C n (C n)) n (n - fst y)) (C n)
  end.
Definition prepared (d : dcol) (n : nat) (D : nat -> B) (L : list (nat * B)) : Prop :=
  dk d = D n /\ Permutation (map cell (dnodes d)) L /\ StronglySorted lt1 L /\ Forall (fun y => fst y < n) L /\
  (dhead d = None <-> dnodes d = []) /\ (Z.of_nat (nnz d) <= dcap d)%Z.
Section Fill.
Variable C : nat -> list (nat * B).
Hypothesis C_low : forall j, Forall (fun y => fst y < j) (C j).
Hypothesis C_sorted : forall j, StronglySorted lt1 (C j).

Lemma fills_new n y L : C n = y :: L -> forall r, In r (fills (mk1 C n (C n)) n (n - fst y)) <->
  r < n /\ has (C n) r = false /\ meets C n r = true.
Proof.
  intros E r. pose proof (C_low n) as CL. rewrite Forall_forall in CL.
  pose proof (CL y ltac:(rewrite E; cbn; auto)) as YN. rewrite fills_in by lia.
  unfold mk1, meets. split.
  - intros (H1 & H2 & H3). destruct (Nat.leb_spec n (n - 1 - r)); [lia|].
    replace (n - 1 - (n - 1 - r)) with r in H3 by lia. destruct (has (C n) r); [discriminate|].
    destruct (existsb _ (C n)) eqn:Q; [|discriminate]. auto.
  - intros (H1 & H2 & H3). destruct (Nat.leb_spec n (n - 1 - r)); [lia|].
    replace (n - 1 - (n - 1 - r)) with r by lia. rewrite H2, H3. repeat split; auto.
    apply existsb_exists in H3 as (z & Z1 & Z2). apply (has_low C C_low) in Z2.
    assert (fst y <= fst z).
    { pose proof (C_sorted n) as S. rewrite E in S, Z1. destruct Z1 as [->|Z1]; auto.
      inversion S as [|? ? _ F]; subst. rewrite Forall_forall in F. specialize (F z Z1). unfold lt1 in F. lia. }
    lia.
Qed.
Lemma filled_props n : StronglySorted lt1 (filled C n) /\ Forall (fun y => fst y < n) (filled C n) /\
  (forall r, r < n -> lookup (filled C n) r = match lookup (C n) r with Some x => Some x | None => if meets C n r then Some b0 else None end).
Proof.
  unfold filled. destruct (C n) as [|y L] eqn:E.
  - repeat split; try constructor. intros r _. unfold meets. rewrite E. reflexivity.
  - rewrite <- E. destruct (addrows_props (fills (mk1 C n (C n)) n (n - fst y)) (C n) n) as (G1 & _ & G3 & G4); auto.
    + apply fills_nodup. lia.
    + intros r R. apply (fills_new n y L E) in R. tauto.
    + repeat split; auto. intros r R. rewrite G4.
      destruct (existsb (Nat.eqb r) _) eqn:Q.
      * apply existsb_exists in Q as (z & Z1 & Z2). apply Nat.eqb_eq in Z2. subst z.
        apply (fills_new n y L E) in Z1 as (_ & Z1 & Z2). unfold has in Z1. destruct (lookup (C n) r); [discriminate|]. now rewrite Z2.
      * destruct (lookup (C n) r) eqn:Q1; auto. destruct (meets C n r) eqn:Q2; auto.
        assert (In r (fills (mk1 C n (C n)) n (n - fst y))).
        { apply (fills_new n y L E). unfold has. rewrite Q1. auto. }
        rewrite <- not_true_iff_false in Q. exfalso. apply Q. apply existsb_exists. exists r. split; auto. apply Nat.eqb_refl.
Qed.
Lemma fill_col_wp n m T h D d rows : n < m -> (Z.of_nat m < 2 ^ 32)%Z -> rep n d (C n) -> dk d = D n ->
  view rows m T h (fun _ => 0%Z) (fun i => cols_of C i (S n)) ->
  wp (fill_col b0 lim n d rows)
    (fun s => prepared (fst s) n D (filled C n) /\ view (snd s) m T h (fun _ => 0%Z) (fun i => cols_of C i n))
    (fun e => e = BadAlloc /\ (lim < Z.of_nat m)%Z).
Proof.
  intros NM U R K V. unfold fill_col.
  pose proof (rep_perm _ _ _ R) as PM. pose proof (rep_head _ _ _ R) as HH. pose proof (rep_len _ _ _ R) as LN.
  pose proof R as ((c & HS & HA & HP) & SS & FL & CP).
  destruct (dhead d) as [q|] eqn:HD.
  2:{ assert (CN : C n = []). { rewrite (proj1 HH eq_refl) in PM. cbn in PM. now apply Permutation_nil in PM. }
      cbn. split.
      - unfold prepared, filled. rewrite CN, HD. rewrite CN in PM. repeat split; auto; try constructor; apply HH.
      - eapply view_ext; [exact V|]. intros i I. split; auto. cbn [cols_of]. rewrite CN. reflexivity. }
  destruct c as [|q' c]; [cbn in HS; discriminate|]. pose proof HS as (HQ & x & X & HS'). injection HQ as <-.
  assert (EC : exists L, cell x :: L = C n).
  { clear - HA X. remember (C n) as CC eqn:Q. clear Q. inversion HA as [|? y ? L (x' & X' & EY) A']; subst.
    assert (x' = x) by congruence. subst x'. eauto. }
  destruct EC as (L & EC).
  rewrite (aget_some _ _ _ X). cbn [bind].
  assert (XN : nrow x < n). { rewrite Forall_forall in FL. apply (FL (cell x)). rewrite <- EC. cbn; auto. }
  destruct (mark_col_wp C C_low (dnodes d) n m T h NM (q :: c) (S (nnz d)) (Some q) [] (C n) rows) as (r1 & E1 & V1); auto.
  { apply Permutation_length in HP. rewrite seq_length in HP. lia. }
  { eapply view_ext; [exact V|]. intros i I. split; auto. unfold mk1. cbn. destruct (n <=? i); auto. }
  rewrite E1. cbn [bind].
  destruct (count_wp r1 m T h _ _ (n - nrow x) V1 ltac:(lia)) as (add & E2 & A2). rewrite E2. cbn [bind].
  rewrite <- (fills_len _ n) in A2.
  set (F := fills (mk1 C n (C n)) n (n - nrow x)) in *.
  destruct (addrows_props F (C n) n) as (G1 & G2 & G3 & G4); auto.
  { apply fills_nodup. lia. }
  { intros r I. apply (fills_new n (cell x) L) in I; [tauto|auto]. }
  assert (FE : filled C n = addrows F (C n)). { unfold filled. rewrite <- EC at 1. reflexivity. }
  assert (LA : nnz d + add <= n).
  { pose proof (sorted_len _ _ G1 G3) as Q. apply Permutation_length in G2. rewrite app_length, !map_length in G2. lia. }
  eapply wp_seq.
  { eapply wp_conseq; [apply (expand_wp n d (C n) add R LA)|intros a Ha; exact Ha|]; [lia|]. cbn. intros e (-> & ?). split; auto; lia. }
  cbn. intros d2 (R2 & K2 & D2 & H2 & C2).
  assert (Z2 : nnz d2 = nnz d) by (unfold nnz; now rewrite D2). rewrite Z2, D2, H2.
  destruct (Z.ltb_spec (dcap d2) (Z.of_nat (nnz d + add))); [lia|].
  rewrite A2. eapply wp_seq.
  { eapply wp_conseq; [apply (fill_loop_wp (nnz d) (dnodes d) r1 m T h _ _ n (n - nrow x) V1); auto; lia|intros a Ha; exact Ha|tauto]. }
  intros [[l rw] j] (EL & VL). cbn in EL, VL. cbn [wp fst snd]. split.
  - unfold prepared. cbn [dk dhead dnodes dcap]. rewrite FE. subst l. fold F. split; [congruence|]. split; [|split; [auto|split; [auto|split]]].
    + rewrite map_app. etransitivity; [apply Permutation_app_comm|]. etransitivity; [|exact G2]. apply Permutation_app_head; exact PM.
    + rewrite HD. split; [discriminate|]. intros Q. apply app_eq_nil in Q as (Q & _). apply HH in Q. discriminate.
    + unfold nnz in *. cbn [dnodes]. rewrite app_length, map_length. fold F in A2. rewrite <- A2. auto.
  - eapply view_ext; [exact VL|]. intros i I. split.
    + destruct (Nat.ltb_spec i (n - nrow x)) as [LT|GE]; auto. unfold mk1. destruct (Nat.leb_spec n i); auto.
      assert (Q : n - 1 - i < nrow x) by lia.
      assert (ALL : forall z, In z (C n) -> nrow x <= fst z).
      { intros z Z. rewrite <- EC in Z. destruct Z as [<-|Z]; auto. pose proof (C_sorted n) as S. rewrite <- EC in S.
        inversion S as [|? ? _ FF]; subst. rewrite Forall_forall in FF. specialize (FF z Z). unfold lt1 in FF; cbn in FF. lia. }
      destruct (has (C n) (n - 1 - i)) eqn:Q1. { apply has_in in Q1 as (z & Z & ZE). specialize (ALL z Z). lia. }
      destruct (existsb _ (C n)) eqn:Q2; auto. apply existsb_exists in Q2 as (z & Z & ZE). apply (has_low C C_low) in ZE.
      specialize (ALL z Z). lia.
    + cbn [cols_of]. destruct (has (C n) i); auto.
Qed.
End Fill.

Lemma holds_low (A : smat B) m D C : holds A m D C -> forall j, j < m -> Forall (fun y => fst y < j) (C j) /\ StronglySorted lt1 (C j).
Proof. intros (_ & H) j J. destruct (H j J) as (d & _ & (_ & S & F & _) & _). auto. Qed.

Lemma fillin_wp fuel A m D C : holds A m D C -> (Z.of_nat m < 2 ^ 16)%Z -> m < fuel ->
  wp (fillin b0 lim fuel A) (fun A' => holds_tidy A' m D (filled C))
    (fun e => e = BadAlloc /\ (lim < Z.of_nat m)%Z).
Proof.
  intros H0 U Fu.
  (* columns past the matrix do not matter *)
  set (C' := fun j => if j <? m then C j else []).
  assert (H : holds A m D C').
  { eapply holds_ext; [|exact H0]. intros n N. split; auto. unfold C'. destruct (Nat.ltb_spec n m); auto; lia. }
  assert (CL : forall j, Forall (fun y => fst y < j) (C' j)).
  { intros j. unfold C'. destruct (Nat.ltb_spec j m); [|constructor]. apply (holds_low _ _ _ _ H0 j H1). }
  assert (CS : forall j, StronglySorted lt1 (C' j)).
  { intros j. unfold C'. destruct (Nat.ltb_spec j m); [|constructor]. apply (holds_low _ _ _ _ H0 j H1). }
  unfold fillin. destruct (rows_of_wp A m D C' H) as (rows & E & V). rewrite E. cbn [bind].
  pose proof H as (LA & HA). rewrite LA.
  eapply wp_seq.
  - apply (wp_down m 0 _ (A, rows) (fun k s => length (fst s) = m /\
      (forall n, n < k -> nth_error (fst s) n = nth_error A n) /\
      (forall n, k <= n < m -> exists d, nth_error (fst s) n = Some d /\ prepared d n D (filled C' n)) /\
      view (snd s) m (total A) (m + total A) (fun _ => 0%Z) (fun i => cols_of C' i k))).
    + lia.
    + cbn. repeat split; auto; try (intros; lia). { apply V. } intros i I. destruct V as (_ & V). apply V; auto.
    + intros i [A1 r1] I (G1 & G2 & G3 & G4). cbn [fst snd] in *.
      destruct (HA (i - 1) ltac:(lia)) as (d & X & R & K).
      rewrite (aget_some A1 (i - 1) d) by (rewrite G2 by lia; auto). cbn [bind].
      eapply wp_seq; [apply (fill_col_wp C' CL CS (i - 1) m (total A) (m + total A) D d r1); auto; try lia|].
      { eapply view_ext; [exact G4|]. intros q Q. split; auto. f_equal. lia. }
      intros [d2 r2] (P & V2). cbn [fst snd] in *. rewrite aset_ok by lia. cbn [bind wp fst snd]. rewrite length_upd.
      repeat split; auto.
      * intros n N. rewrite nth_error_upd_ne by lia. apply G2. lia.
      * intros n N. destruct (Nat.eq_dec n (i - 1)).
        -- subst n. exists d2. split; auto. apply nth_error_upd_eq. lia.
        -- rewrite nth_error_upd_ne by lia. apply G3. lia.
      * apply V2.
      * apply V2.
  - intros [A1 r1] (G1 & _ & G3 & _). cbn [fst snd] in *.
    eapply wp_conseq; [apply (tidy_wp fuel A1 m D (filled C')); auto| |intros e []].
    + intros n N. destruct (G3 n ltac:(lia)) as (d & X & P1 & P2 & P3 & P4 & P5 & P6). exists d. auto 10.
    + intros A2 (L2 & H2). split; auto. intros n N. destruct (H2 n N) as (d & X & T & K). exists d. split; [auto|]. split; [|auto].
      assert (FE : filled C' n = filled C n); [|rewrite <- FE; exact T].
      unfold filled. assert (EN : C' n = C n) by (unfold C'; destruct (Nat.ltb_spec n m); auto; lia). rewrite EN.
      destruct (C n) as [|y L] eqn:EC; auto. f_equal. rewrite <- EC.
      assert (forall k, k <= n -> fills (mk1 C' n (C n)) n k = fills (mk1 C n (C n)) n k).
      { induction k; intros Hk; cbn [fills]; auto. rewrite IHk by lia.
        assert (QQ : mk1 C' n (C n) k = mk1 C n (C n) k); [|now rewrite QQ].
        unfold mk1, C'. destruct (Nat.ltb_spec (n - 1 - k) m); auto; lia. }
      apply H1. lia.
Qed.
End SmatF.
