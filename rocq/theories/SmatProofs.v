(* The columns of smatrix as sorted lists of rows and blocks. *)
From Coq Require Import List ZArith Bool Arith Lia Permutation Sorting.Sorted.
From Verif Require Import Base LinBase SmatModel.
Import ListNotations.
Local Open Scope nat_scope.
Local Arguments Nat.ltb : simpl never.
Local Arguments Nat.eqb : simpl never.

Section SmatP.
Context {B : Type}.
Notation node := (node B).
Notation dcol := (dcol B).

Definition cell (x : node) : nat * B := (nrow x, nk x).

Lemma Forall2_length' {X Y} (R : X -> Y -> Prop) l l' : Forall2 R l l' -> length l = length l'.
Proof. induction 1; cbn; auto. Qed.
(* the path of places c leads from p to m *)
Fixpoint seg (l : list node) (p : option nat) (c : list nat) (m : option nat) : Prop :=
  match c with
  | [] => p = m
  | q :: c => p = Some q /\ exists x, nth_error l q = Some x /\ seg l (nnext x) c m
  end.
Lemma seg_app l p c1 c2 m : seg l p (c1 ++ c2) m <-> exists k, seg l p c1 k /\ seg l k c2 m.
Proof.
  revert p; induction c1; intros; cbn.
  - split; [eauto|intros (k & -> & H); auto].
  - split.
    + intros (-> & x & X & H). apply IHc1 in H as (k & H1 & H2). exists k; eauto 6.
    + intros (k & (-> & x & X & H1) & H2). split; auto. exists x; split; auto. apply IHc1; eauto.
Qed.
Lemma seg_ext l l' p c m : (forall q, In q c -> nth_error l' q = nth_error l q) -> seg l p c m -> seg l' p c m.
Proof.
  revert p; induction c; cbn; intros; auto. destruct H0 as (-> & x & X & S).
  split; auto. exists x. rewrite H by auto. split; auto.
Qed.
Lemma seg_lt l p c m q : seg l p c m -> In q c -> q < length l.
Proof.
  revert p; induction c; cbn; [tauto|]. intros p (-> & x & X & S) [<-|I]; eauto using nth_error_lt.
Qed.
Lemma seg_snoc l p c o k k' x : seg l p (c ++ [o]) k -> ~ In o c -> nth_error l o = Some x ->
  seg (upd l o (Nd (nk x) (nrow x) k')) p (c ++ [o]) k'.
Proof.
  intros S N X. apply seg_app in S as (m & S1 & S2). apply seg_app. exists m; split.
  - eapply seg_ext; [|exact S1]. intros q I. apply nth_error_upd_ne. intros ->; auto.
  - cbn in S2 |- *. destruct S2 as (-> & _). split; auto.
    eexists; split. { apply nth_error_upd_eq. eapply nth_error_lt; eauto. } reflexivity.
Qed.

(* what is stored along a path *)
Definition at_ (l : list node) (c : list nat) (L : list (nat * B)) : Prop :=
  Forall2 (fun q y => exists x, nth_error l q = Some x /\ cell x = y) c L.
Definition lt1 (a b : nat * B) : Prop := fst a < fst b.

Definition rep (n : nat) (d : dcol) (L : list (nat * B)) : Prop :=
  (exists c, seg (dnodes d) (dhead d) c None /\ at_ (dnodes d) c L /\ Permutation c (seq 0 (nnz d))) /\
  StronglySorted lt1 L /\ Forall (fun y => fst y < n) L /\ (Z.of_nat (nnz d) <= dcap d)%Z.

Lemma at_ext l l' c L : (forall q, In q c -> nth_error l' q = nth_error l q) -> at_ l c L -> at_ l' c L.
Proof.
  intros H A; induction A; constructor.
  - destruct H0 as (z & Z1 & Z2). exists z. rewrite H by (cbn; auto). auto.
  - apply IHA. intros; apply H; cbn; auto.
Qed.
Lemma at_app l c1 c2 L : at_ l (c1 ++ c2) L <-> exists L1 L2, L = L1 ++ L2 /\ at_ l c1 L1 /\ at_ l c2 L2.
Proof.
  split.
  - intros H. apply Forall2_app_inv_l in H as (L1 & L2 & H1 & H2 & ->). eauto 6.
  - intros (L1 & L2 & -> & H1 & H2). apply Forall2_app; auto.
Qed.

(* the walk of lines 1794 and 1817 *)
Lemma seek_wp l i c : forall fuel o p L, seg l p c None -> at_ l c L -> StronglySorted lt1 L -> length c < fuel ->
  exists c1 c2 L1 L2, c = c1 ++ c2 /\ L = L1 ++ L2 /\ at_ l c1 L1 /\ at_ l c2 L2 /\
    Forall (fun y => fst y < i) L1 /\ (forall y, In y L2 -> i <= fst y) /\
    seek fuel l i o p = Ok (match rev c1 with [] => o | q :: _ => Some q end, match c2 with [] => None | q :: _ => Some q end).
Proof.
  induction c as [|q c IH]; intros fuel o p L S A SS F; destruct fuel; try (cbn in F; lia).
  - inversion A; subst. cbn in S; subst p. exists [], [], [], []. cbn. repeat split; auto; try constructor; try tauto.
  - cbn in S. destruct S as (-> & x & X & S). inversion A as [|q' y c' L' (z & Z1 & Z2) A']; subst.
    rewrite X in Z1; injection Z1 as <-. cbn [seek]. unfold aget. rewrite X. cbn [bind].
    inversion SS as [|? ? SS' F']; subst.
    destruct (Nat.ltb_spec (nrow x) i).
    + destruct (IH fuel (Some q) (nnext x) L' S A' SS' ltac:(cbn in F; lia)) as (c1 & c2 & L1 & L2 & -> & -> & A1 & A2 & F1 & F2 & E).
      exists (q :: c1), c2, (cell x :: L1), L2. rewrite E. repeat split; auto.
      * constructor; eauto.
      * f_equal. f_equal. cbn [rev]. destruct (rev c1) eqn:R; cbn; auto.
    + exists [], (q :: c), [], (cell x :: L'). cbn. repeat split; auto; try constructor.
      intros y [<-|I]; auto. rewrite Forall_forall in F'. specialize (F' _ I). unfold lt1 in F'. cbn in F'. lia.
Qed.

(* the blocks of a column by row *)
Fixpoint lookup (L : list (nat * B)) (i : nat) : option B :=
  match L with [] => None | (r, x) :: L => if r =? i then Some x else lookup L i end.
Lemma lookup_none L i : (forall y, In y L -> fst y <> i) -> lookup L i = None.
Proof.
  induction L as [|[r x] L IH]; cbn; intros; auto.
  destruct (Nat.eqb_spec r i). { exfalso; apply (H (r, x)); auto. } apply IH; intros; apply H; auto.
Qed.
Lemma sorted_len n L : StronglySorted lt1 L -> Forall (fun y => fst y < n) L -> length L <= n.
Proof.
  intros S F. rewrite <- (map_length fst), <- (seq_length n 0). apply NoDup_incl_length.
  - clear F. induction S as [|y L S IH F]; cbn; constructor; auto.
    intros I. apply in_map_iff in I as (z & E & I). rewrite Forall_forall in F. specialize (F z I). unfold lt1 in F; lia.
  - intros y I. apply in_map_iff in I as (z & <- & I). rewrite Forall_forall in F. apply in_seq. specialize (F z I); lia.
Qed.
Lemma rep_len n d L : rep n d L -> length L = nnz d.
Proof.
  intros ((c & _ & A & P) & _). apply Forall2_length' in A. apply Permutation_length in P.
  rewrite seq_length in P. lia.
Qed.
Lemma aget_some {A} (l : list A) q x : nth_error l q = Some x -> aget l q = Ok x.
Proof. apply aget_ok. Qed.
Lemma nodup_perm (c : list nat) k : Permutation c (seq 0 k) -> NoDup c.
Proof. intros P. eapply Permutation_NoDup; [apply Permutation_sym; eauto|apply seq_NoDup]. Qed.
Lemma at_nth l c1 q c2 L1 y L2 : at_ l (c1 ++ q :: c2) (L1 ++ y :: L2) -> length c1 = length L1 ->
  exists x, nth_error l q = Some x /\ cell x = y.
Proof.
  revert L1; induction c1; destruct L1; cbn; intros H E; try lia; inversion H; subst; eauto.
Qed.
Lemma seg_lastk l p c q k m : seg l p (c ++ [q]) k -> seg l p (c ++ [q]) m -> k = m.
Proof.
  revert p; induction c; cbn.
  - intros p (_ & x & X & <-) (_ & y & Y & <-). congruence.
  - intros p (_ & x & X & H) (_ & y & Y & H'). assert (x = y) by congruence. subst. eauto.
Qed.
Lemma perm_snoc (c1 c2 : list nat) k : Permutation (c1 ++ c2) (seq 0 k) -> Permutation (c1 ++ k :: c2) (seq 0 (S k)).
Proof.
  intros P. rewrite seq_S. cbn. etransitivity. { symmetry; apply Permutation_middle. }
  etransitivity. { constructor; exact P. } apply Permutation_cons_append.
Qed.
End SmatP.

Section SmatAdd.
Context {B : Type}.
Variable badd : B -> B -> B.
Variable lim : Z.
Notation node := (node B).
Notation dcol := (dcol B).
(* add t at row i *)
Fixpoint addin (i : nat) (t : B) (L : list (nat * B)) : list (nat * B) :=
  match L with
  | [] => [(i, t)]
  | (r, x) :: L' => if r <? i then (r, x) :: addin i t L' else if r =? i then (r, badd x t) :: L' else (i, t) :: L
  end.
Lemma addin_low i t L1 L2 : Forall (fun y => fst y < i) L1 -> addin i t (L1 ++ L2) = L1 ++ addin i t L2.
Proof.
  induction 1 as [|[r x] L1 H _ IHForall]; cbn; auto. cbn in H.
  destruct (Nat.ltb_spec r i); [|lia]. now rewrite IHForall.
Qed.
Lemma addin_sorted i t L : StronglySorted lt1 L -> StronglySorted lt1 (addin i t L).
Proof.
  induction 1 as [|[r x] L S IH F]; cbn.
  - repeat constructor.
  - destruct (Nat.ltb_spec r i).
    + constructor; auto. clear IH S. rewrite Forall_forall in *. intros y I.
      revert F. induction L as [|[r' x'] L IL]; cbn in I |- *; intros F.
      * destruct I as [<-|[]]; auto.
      * destruct (r' <? i) eqn:E1; [|destruct (r' =? i) eqn:E2].
        -- destruct I as [<-|I]; [apply F; auto|]. apply IL; auto.
        -- destruct I as [<-|I]; [|apply F; auto]. apply (F (r', x')); auto.
        -- destruct I as [<-|[<-|I]]; auto.
    + destruct (Nat.eqb_spec r i).
      * constructor; auto. 
      * constructor. { constructor; auto. }
        constructor. { unfold lt1; cbn; lia. }
        rewrite Forall_forall in *. intros y I. specialize (F y I). unfold lt1 in *; cbn in *; lia.
Qed.
Lemma addin_in i t L y : In y (addin i t L) -> fst y = i \/ In y L.
Proof.
  induction L as [|[r x] L IH]; cbn; [intros [<-|[]]; auto|].
  destruct (Nat.ltb_spec r i); [|destruct (Nat.eqb_spec r i)]; cbn; intros [<-|I]; auto.
  destruct (IH I); auto.
Qed.
Lemma lookup_addin i t L j : StronglySorted lt1 L ->
  lookup (addin i t L) j =
  if j =? i then Some (match lookup L i with Some x => badd x t | None => t end) else lookup L j.
Proof.
  induction 1 as [|[r x] L S IH F]; cbn.
  - rewrite (Nat.eqb_sym j i). reflexivity.
  - assert (N : r >= i -> lookup L i = None).
    { intros G. apply lookup_none. rewrite Forall_forall in F. intros y I E. specialize (F y I). unfold lt1 in F; cbn in F. lia. }
    destruct (Nat.ltb_spec r i); [|destruct (Nat.eqb_spec r i)]; cbn.
    + rewrite IH. destruct (Nat.eqb_spec r j), (Nat.eqb_spec j i), (Nat.eqb_spec r i); subst; auto; lia.
    + subst. rewrite (Nat.eqb_sym j i). destruct (i =? j); reflexivity.
    + rewrite N by lia. rewrite (Nat.eqb_sym j i). reflexivity.
Qed.


Notation append_col := (append_col badd lim).

Lemma link_wp n (d : dcol) c1 c2 L1 L2 r t :
  seg (dnodes d) (dhead d) (c1 ++ c2) None -> at_ (dnodes d) c1 L1 -> at_ (dnodes d) c2 L2 ->
  Permutation (c1 ++ c2) (seq 0 (nnz d)) -> StronglySorted lt1 (L1 ++ L2) ->
  Forall (fun y => fst y < n) (L1 ++ L2) -> (Z.of_nat (nnz d) <= dcap d)%Z ->
  Forall (fun y => fst y < r) L1 -> (forall y, In y L2 -> r < fst y) -> r < n -> (Z.of_nat n < 2 ^ 32)%Z ->
  wp (let* d1 := expand lim d 1 in
      let* d1 := push d1 (Nd t r None) in
      let* (o, p) := seek (S (nnz d1)) (dnodes d1) r None (dhead d1) in
      let* d1 :=
        match o with
        | None => Ok (Dc (dk d1) (Some (nnz d)) (dnodes d1) (dcap d1))
        | Some o => let* l := set_next (dnodes d1) o (Some (nnz d)) in Ok (Dc (dk d1) (dhead d1) l (dcap d1))
        end in
      let* l := set_next (dnodes d1) (nnz d) p in
      Ok (Dc (dk d1) (dhead d1) l (dcap d1)))
    (fun d' => rep n d' (L1 ++ (r, t) :: L2) /\ dk d' = dk d)
    (fun e => e = BadAlloc /\ (lim < Z.of_nat n)%Z).
Proof.
  intros HS A1 A2 P SS FL CAP F1 GT Hr Hn.
  assert (SN : StronglySorted lt1 (L1 ++ (r, t) :: L2)).
  { pose proof (addin_sorted r t _ SS) as G. rewrite addin_low in G by auto.
    replace (addin r t L2) with ((r, t) :: L2) in G; auto.
    destruct L2 as [|[r' x'] L2]; cbn; auto. specialize (GT _ (or_introl eq_refl)); cbn in GT.
    destruct (Nat.ltb_spec r' r); [lia|]. destruct (Nat.eqb_spec r' r); [lia|]. reflexivity. }
  assert (FN : Forall (fun y => fst y < n) (L1 ++ (r, t) :: L2)).
  { apply Forall_app in FL as (G1 & G2). apply Forall_app; split; auto. }
  pose proof (sorted_len _ _ SN FN) as LN. rewrite app_length in LN; cbn in LN.
  pose proof (Forall2_length' _ _ _ A1) as K1. pose proof (Forall2_length' _ _ _ A2) as K2.
  pose proof (Permutation_length P) as KP. rewrite seq_length, app_length in KP.
  pose proof (nodup_perm _ _ P) as ND.
  assert (U : u32 (Z.of_nat (nnz d) + 1) = Z.of_nat (S (nnz d))) by (unfold u32; rewrite Z.mod_small; lia).
  assert (X : exists cap, (Z.of_nat (S (nnz d)) <= cap)%Z /\
    ((lim < Z.of_nat n)%Z /\ expand lim d 1 = Throw BadAlloc \/ expand lim d 1 = Ok (Dc (dk d) (dhead d) (dnodes d) cap))).
  { unfold expand. rewrite U. destruct (Z.ltb_spec (dcap d) (Z.of_nat (S (nnz d)))).
    - exists (Z.of_nat (S (nnz d))). split; [lia|]. destruct (Z.ltb_spec lim (Z.of_nat (S (nnz d)))); [left; split; auto; lia|auto].
    - exists (dcap d). split; auto. right. destruct d; auto. }
  destruct X as (cap & LC & [(LL & X)|X]); rewrite X; cbn [bind]. { cbn; auto. }
  unfold push. cbn [nnz dnodes dcap]. change (nnz (Dc (dk d) (dhead d) (dnodes d) cap)) with (nnz d).
  destruct (Z.ltb_spec (Z.of_nat (nnz d)) cap); [|lia]. cbn [bind dnodes dhead dk dcap].
  set (l1 := dnodes d ++ [Nd t r None]).
  assert (OLD : forall q, In q (c1 ++ c2) -> nth_error l1 q = nth_error (dnodes d) q).
  { intros q I. unfold l1. apply nth_error_app1. eapply seg_lt; eauto. }
  assert (NEW : nth_error l1 (nnz d) = Some (Nd t r None)).
  { unfold l1, nnz. rewrite nth_error_app2 by lia. now rewrite Nat.sub_diag. }
  assert (HS1 : seg l1 (dhead d) (c1 ++ c2) None) by (eapply seg_ext; [exact OLD|exact HS]).
  assert (B1 : at_ l1 c1 L1) by (eapply at_ext; [|exact A1]; intros; apply OLD; apply in_or_app; auto).
  assert (B2 : at_ l1 c2 L2) by (eapply at_ext; [|exact A2]; intros; apply OLD; apply in_or_app; auto).
  assert (LL1 : length l1 = S (nnz d)) by (unfold l1; rewrite app_length; cbn; unfold nnz; lia).
  change (nnz (Dc (dk d) (dhead d) l1 cap)) with (length l1). rewrite LL1.
  destruct (seek_wp l1 r (c1 ++ c2) (S (S (nnz d))) None (dhead d) (L1 ++ L2) HS1 ltac:(apply Forall2_app; auto) SS ltac:(rewrite app_length; lia))
    as (c1' & c2' & L1' & L2' & EC & EL & A1' & A2' & F1' & F2' & E).
  (* the walk stops at the same place *)
  assert (L1' = L1 /\ L2' = L2) as (-> & ->).
  { clear - EL F1 F1' F2' GT. revert L1' EL F1'. induction L1 as [|y L1 IH]; intros L1' EL F1'.
    - destruct L1' as [|z L1']; auto. cbn in EL. subst L2. inversion F1'; subst.
      specialize (GT z (or_introl eq_refl)). lia.
    - inversion F1; subst. destruct L1' as [|z L1'].
      + cbn in EL. subst L2'. specialize (F2' y (or_introl eq_refl)). lia.
      + injection EL as <- EL. inversion F1'; subst. destruct (IH ltac:(auto) L1' EL ltac:(auto)) as (-> & ->). auto. }
  assert (c1' = c1 /\ c2' = c2) as (-> & ->).
  { apply Forall2_length' in A1'. assert (Q : length c1' = length c1) by lia. clear - EC Q.
    revert c1' EC Q. induction c1; destruct c1'; cbn; intros; try lia; auto.
    injection EC as -> EC. destruct (IHc1 c1' EC ltac:(lia)) as (-> & ->). auto. }
  rewrite E. cbn [bind].
  apply seg_app in HS1 as (k & S1 & S2).
  assert (HK : k = match c2 with [] => None | q :: _ => Some q end).
  { destruct c2; cbn in S2; [auto|tauto]. }
  assert (NN : ~ In (nnz d) (c1 ++ c2)).
  { intros I. apply (Permutation_in _ P) in I. apply in_seq in I. lia. }
  assert (NN1 : ~ In (nnz d) c1) by (intros I; apply NN; apply in_or_app; auto).
  assert (NN2 : ~ In (nnz d) c2) by (intros I; apply NN; apply in_or_app; auto).
  assert (FIN : forall h l2, seg l2 h c1 (Some (nnz d)) -> seg l2 k c2 None -> at_ l2 c1 L1 -> at_ l2 c2 L2 ->
    nth_error l2 (nnz d) = Some (Nd t r None) -> length l2 = S (nnz d) ->
    wp (let* l := set_next l2 (nnz d) match c2 with [] => None | q :: _ => Some q end in Ok (Dc (dk d) h l cap))
       (fun d' => rep n d' (L1 ++ (r, t) :: L2) /\ dk d' = dk d) (fun e => e = BadAlloc /\ (lim < Z.of_nat n)%Z)).
  { intros h l2 T1 T2 T3 T4 T5 T6. unfold set_next. rewrite (aget_some _ _ _ T5). cbn [bind].
    rewrite aset_ok by lia. cbn [bind wp]. split; auto. rewrite <- HK.
    assert (OLD2 : forall q x, In q (c1 ++ c2) -> nth_error (upd l2 (nnz d) x) q = nth_error l2 q).
    { intros q x I. apply nth_error_upd_ne. intros <-; auto. }
    split; [exists (c1 ++ nnz d :: c2); split; [|split]|split; [|split]]; cbn [dnodes dhead dcap]; auto.
    - apply seg_app. exists (Some (nnz d)). split.
      + eapply seg_ext; [|exact T1]. intros; apply OLD2, in_or_app; auto.
      + cbn. split; auto. eexists; split. { apply nth_error_upd_eq; lia. } cbn.
        eapply seg_ext; [|exact T2]. intros; apply OLD2, in_or_app; auto.
    - apply Forall2_app; [|constructor].
      + eapply at_ext; [|exact T3]. intros; apply OLD2, in_or_app; auto.
      + eexists; split. { apply nth_error_upd_eq; lia. } reflexivity.
      + eapply at_ext; [|exact T4]. intros; apply OLD2, in_or_app; auto.
    - unfold nnz at 2. cbn. rewrite length_upd, T6. apply perm_snoc; auto.
    - unfold nnz at 1. cbn [dnodes]. rewrite length_upd, T6. lia. }
  destruct (rev c1) as [|o c1r] eqn:RV.
  - cbn [bind dnodes dhead dk dcap]. assert (c1 = []) as -> by (rewrite <- (rev_involutive c1), RV; auto).
    apply FIN; auto. cbn; auto.
  - assert (C1 : c1 = rev c1r ++ [o]) by (rewrite <- (rev_involutive c1), RV; reflexivity).
    assert (OI : In o c1) by (rewrite C1; apply in_or_app; cbn; auto).
    assert (OX : exists x, nth_error l1 o = Some x).
    { destruct (nth_error l1 o) eqn:Q; eauto. apply nth_error_None in Q.
      assert (o < length l1) by (eapply seg_lt; [exact S1|auto]). lia. }
    destruct OX as (x & OX). unfold set_next at 1. rewrite (aget_some _ _ _ OX). cbn [bind].
    rewrite aset_ok by (eapply nth_error_lt; eauto). cbn [bind dnodes dhead dk dcap].
    assert (ON1 : ~ In o (rev c1r)).
    { rewrite C1 in ND. rewrite <- app_assoc in ND. apply NoDup_remove_2 in ND. intros I; apply ND, in_or_app; auto. }
    assert (ON2 : ~ In o c2).
    { rewrite C1 in ND. rewrite <- app_assoc in ND. apply NoDup_remove_2 in ND. intros I; apply ND, in_or_app; auto. }
    apply FIN.
    + rewrite C1 in S1 |- *. eapply seg_snoc; eauto.
    + eapply seg_ext; [|exact S2]. intros; apply nth_error_upd_ne. intros ->; auto.
    + clear - B1 OX. unfold at_ in *. induction B1; constructor; auto. destruct H as (z & Z1 & Z2).
      destruct (Nat.eq_dec o x0).
      * subst x0. eexists; split. { apply nth_error_upd_eq. eapply nth_error_lt; eauto. }
        assert (z = x) by congruence. subst z. exact Z2.
      * exists z. rewrite nth_error_upd_ne by auto. auto.
    + eapply at_ext; [|exact B2]. intros; apply nth_error_upd_ne. intros ->; auto.
    + rewrite nth_error_upd_ne; auto. intros ->; auto.
    + now rewrite length_upd.
Qed.
Lemma append_col_wp n d L r t : rep n d L -> r < n -> (Z.of_nat n < 2 ^ 32)%Z ->
  wp (append_col d r t)
    (fun d' => rep n d' (addin r t L) /\ dk d' = dk d)
    (fun e => e = BadAlloc /\ (lim < Z.of_nat n)%Z).
Proof.
  intros R Hr Hn. pose proof (rep_len _ _ _ R) as LEN.
  destruct R as ((c & S & A & P) & SS & FL & CAP).
  pose proof (sorted_len _ _ SS FL) as LN.
  assert (LC : length c = nnz d) by (apply Permutation_length in P; now rewrite seq_length in P).
  destruct (seek_wp (dnodes d) r c (Datatypes.S (nnz d)) None (dhead d) L S A SS ltac:(lia))
    as (c1 & c2 & L1 & L2 & -> & -> & A1 & A2 & F1 & F2 & E).
  unfold append_col. rewrite E. cbn [bind].
  pose proof (nodup_perm _ _ P) as ND.
  assert (K1 : length c1 = length L1) by (now apply Forall2_length' in A1).
  destruct c2 as [|q c2].
  1: inversion A2; subst; cbn [bind].
  2: inversion A2 as [|? y ? L2' (x & X & CX) A2' ]; subst; rewrite (aget_some _ _ _ X); cbn [bind];
     destruct (Nat.eqb_spec (nrow x) r) as [EQ|NE].
  2:{ (* the row is there *)
    unfold set_k. cbn [bind]. rewrite (aget_some _ _ _ X). cbn [bind].
    rewrite aset_ok by (eapply nth_error_lt; eauto). cbn [bind wp]. split; auto.
    rewrite addin_low by auto. cbn [addin cell]. rewrite EQ, Nat.ltb_irrefl, Nat.eqb_refl.
    assert (KN : forall z, In z c1 \/ In z c2 -> z <> q).
    { intros z I ->. apply NoDup_remove_2 in ND. apply ND. apply in_or_app; tauto. }
    split; [exists (c1 ++ q :: c2); split; [|split]|split; [|split]]; cbn [dnodes dhead dcap].
    - apply seg_app in S as (k & S1 & S2). apply seg_app. exists k; split.
      + eapply seg_ext; [|exact S1]. intros; apply nth_error_upd_ne. intros ->; eapply KN; eauto.
      + cbn in S2 |- *. destruct S2 as (-> & x' & X' & S2). split; auto.
        eexists; split. { apply nth_error_upd_eq. eapply nth_error_lt; eauto. } cbn.
        assert (x' = x) by congruence; subst x'. eapply seg_ext; [|exact S2].
        intros; apply nth_error_upd_ne. intros ->; eapply KN; eauto.
    - apply Forall2_app.
      + eapply at_ext; [|exact A1]. intros; apply nth_error_upd_ne. intros ->; eapply KN; eauto.
      + constructor. { eexists; split. { apply nth_error_upd_eq. eapply nth_error_lt; eauto. } unfold cell; cbn; congruence. }
        eapply at_ext; [|exact A2']. intros; apply nth_error_upd_ne. intros ->; eapply KN; eauto.
    - unfold nnz in *. cbn. rewrite length_upd. auto.
    - pose proof (addin_sorted r t _ SS) as G. rewrite addin_low in G by auto. cbn [addin cell] in G.
      rewrite EQ, Nat.ltb_irrefl, Nat.eqb_refl in G. exact G.
    - apply Forall_app in FL as (G1 & G2). apply Forall_app; split; auto.
      inversion G2; subst. constructor; auto.
    - unfold nnz in *. cbn. rewrite length_upd. auto. }
  1: cbn [bind]. all: cbn [bind].
  - eapply wp_mono; [apply (link_wp n d c1 [] L1 [] r t); auto; cbn; tauto|].
    cbn. intros d' (G & K). rewrite addin_low by auto. auto.
  - assert (GT : forall y, In y (cell x :: L2') -> r < fst y).
    { intros y I. pose proof (F2 y I).
      assert (SS2 : StronglySorted lt1 (cell x :: L2')).
      { clear - SS. induction L1; cbn in SS; auto. inversion SS; auto. }
      inversion SS2 as [|? ? _ H6]; subst. destruct I as [<-|I]; [cbn in *; lia|].
      rewrite Forall_forall in H6. specialize (H6 _ I). unfold lt1, cell in H6; cbn in H6.
      pose proof (F2 _ (or_introl eq_refl)) as F3. cbn in F3. lia. }
    eapply wp_mono; [apply (link_wp n d c1 (q :: c2) L1 (cell x :: L2') r t); auto|].
    cbn beta. intros d' (G & K). rewrite addin_low by auto. cbn [addin cell].
    pose proof (GT _ (or_introl eq_refl)) as G1. cbn in G1.
    destruct (Nat.ltb_spec (nrow x) r); [lia|]. destruct (Nat.eqb_spec (nrow x) r); [lia|]. auto.
Qed.

End SmatAdd.

(* ---- tidy ---- *)
Section SmatTidy.
Context {B : Type}.
Notation node := (node B).
Notation dcol := (dcol B).
Definition le1 (a b : node) : Prop := nrow a <= nrow b.
Lemma sorted_app_inv {X} (R : X -> X -> Prop) l1 l2 : StronglySorted R (l1 ++ l2) ->
  StronglySorted R l1 /\ StronglySorted R l2 /\ (forall a b, In a l1 -> In b l2 -> R a b).
Proof.
  induction l1; cbn; intros H. { repeat split; auto; try constructor. intros ? ? []. }
  inversion H as [|? ? S F]; subst. destruct (IHl1 S) as (H1 & H2 & H3). repeat split; auto.
  - constructor; auto. apply Forall_app in F; tauto.
  - intros x y [<-|I] J; auto. rewrite Forall_forall in F. apply F, in_or_app; auto.
Qed.
Lemma sorted_app {X} (R : X -> X -> Prop) l1 l2 : StronglySorted R l1 -> StronglySorted R l2 ->
  (forall a b, In a l1 -> In b l2 -> R a b) -> StronglySorted R (l1 ++ l2).
Proof.
  induction 1; cbn; intros S2 H1; auto. constructor.
  - apply IHStronglySorted; auto; intros; apply H1; cbn; auto.
  - apply Forall_app; split; auto. apply Forall_forall. intros y I. apply H1; cbn; auto.
Qed.
Lemma upd_mid {X} (l1 l2 : list X) a b k : length l1 = k -> upd (l1 ++ a :: l2) k b = l1 ++ b :: l2.
Proof. intros <-. induction l1; cbn; auto. now rewrite IHl1. Qed.
Lemma nth_mid {X} (l1 l2 : list X) a k : length l1 = k -> nth_error (l1 ++ a :: l2) k = Some a.
Proof. intros <-. induction l1; cbn; auto. Qed.
Lemma sink_wp : forall l1 b l2, StronglySorted le1 l1 ->
  exists l1', sink (length l1) (l1 ++ b :: l2) = Ok (l1' ++ l2) /\ Permutation l1' (l1 ++ [b]) /\ StronglySorted le1 l1'.
Proof.
  induction l1 as [|a l1 IH] using rev_ind; intros b l2 S.
  - exists [b]. cbn. repeat constructor.
  - rewrite app_length. cbn [length]. rewrite Nat.add_1_r. cbn [sink].
    assert (G1 : nth_error ((l1 ++ [a]) ++ b :: l2) (length l1) = Some a).
    { rewrite <- app_assoc. cbn. now apply nth_mid. }
    assert (G2 : nth_error ((l1 ++ [a]) ++ b :: l2) (Datatypes.S (length l1)) = Some b).
    { apply nth_mid. rewrite app_length; cbn; lia. }
    rewrite (aget_some _ _ _ G1), (aget_some _ _ _ G2). cbn [bind].
    destruct (sorted_app_inv _ _ _ S) as (S1 & _ & SA).
    destruct (Nat.ltb_spec (nrow b) (nrow a)).
    + rewrite aset_ok by (rewrite !app_length; cbn; lia). cbn [bind].
      rewrite aset_ok by (rewrite length_upd, !app_length; cbn; lia). cbn [bind].
      rewrite <- app_assoc. cbn [app]. rewrite (upd_mid l1 (b :: l2) a b) by auto.
      replace (upd (l1 ++ b :: b :: l2) (Datatypes.S (length l1)) a) with (l1 ++ b :: a :: l2).
      2:{ change (l1 ++ b :: b :: l2) with (l1 ++ [b] ++ b :: l2). rewrite app_assoc.
          rewrite upd_mid by (rewrite app_length; cbn; lia). now rewrite <- app_assoc. }
      destruct (IH b (a :: l2) S1) as (l1' & E & P & S'). rewrite E.
      exists (l1' ++ [a]). rewrite <- app_assoc. cbn. repeat split.
      * etransitivity. { apply Permutation_app_tail; exact P. } rewrite <- !app_assoc.
        apply Permutation_app_head. cbn. apply perm_swap.
      * apply sorted_app; auto. { repeat constructor. }
        intros x y I [<-|[]]. apply (Permutation_in _ P) in I. apply in_app_or in I as [I|[<-|[]]].
        { apply SA; cbn; auto. } unfold le1; lia.
    + exists (l1 ++ [a; b]). rewrite <- !app_assoc. cbn. repeat split; auto.
      change [a; b] with ([a] ++ [b]). rewrite app_assoc. apply sorted_app; auto. { repeat constructor. }
      intros x y I [<-|[]]. apply in_app_or in I as [I|[<-|[]]]; unfold le1 in *; [|lia].
      specialize (SA x a I ltac:(cbn; auto)). lia.
Qed.
Lemma isort_wp (l : list node) :
  wp (for_up 1 (length l) (fun j l => sink j l) l) (fun l' => Permutation l' l /\ StronglySorted le1 l') (fun _ => False).
Proof.
  destruct l as [|x0 l0]. { cbn. split; constructor. }
  set (l := x0 :: l0).
  apply wp_mono with (P := fun l' => exists l1 l2, l' = l1 ++ l2 /\ length l1 = length l /\ StronglySorted le1 l1 /\ Permutation l' l).
  - apply (wp_for 1 (length l) (fun j l => sink j l) l
      (fun j l' => exists l1 l2, l' = l1 ++ l2 /\ length l1 = j /\ StronglySorted le1 l1 /\ Permutation l' l)).
    + cbn; lia.
    + exists [x0], l0. repeat split; auto. repeat constructor.
    + intros j l' Hj (l1 & l2 & -> & E & SS & P).
      destruct l2 as [|b l2]. { apply Permutation_length in P. rewrite app_nil_r in P. lia. }
      destruct (sink_wp l1 b l2 SS) as (l1' & E' & P' & S'). rewrite E in E'. rewrite E'. cbn.
      exists l1', l2. repeat split; auto.
      * apply Permutation_length in P'. rewrite app_length in P'; cbn in P'. lia.
      * etransitivity; [|exact P]. etransitivity. { apply Permutation_app_tail; exact P'. } now rewrite <- app_assoc.
  - intros l' (l1 & l2 & -> & E & SS & P).
    assert (l2 = []) as ->.
    { apply Permutation_length in P. rewrite app_length in P. destruct l2; auto. cbn [length] in P. lia. }
    rewrite app_nil_r in *. auto.
Qed.

(* the pointers after tidy *)
Definition inline (l : list node) : Prop :=
  forall q x, nth_error l q = Some x -> nnext x = if S q =? length l then None else Some (S q).
Lemma map_cell_next (l : list node) q x p : nth_error l q = Some x -> map cell (upd l q (Nd (nk x) (nrow x) p)) = map cell l.
Proof. intros E. rewrite map_upd. apply upd_same. rewrite nth_error_map, E. reflexivity. Qed.
Lemma relink_wp : forall fuel k l, k <= length l -> (Z.of_nat (length l) < 2 ^ 16)%Z -> length l - k < fuel ->
  (forall q x, q < k -> nth_error l q = Some x -> nnext x = if S q =? length l then None else Some (S q)) ->
  exists l', relink fuel (Z.of_nat k) l = Ok l' /\ map cell l' = map cell l /\ inline l'.
Proof.
  induction fuel; intros k l K U F H; [lia|]. cbn [relink].
  destruct (Z.ltb_spec (Z.of_nat k) (Z.of_nat (length l))).
  - rewrite Nat2Z.id. assert (X : exists x, nth_error l k = Some x).
    { destruct (nth_error l k) eqn:E; eauto. apply nth_error_None in E. lia. }
    destruct X as (x & X). unfold set_next. rewrite (aget_some _ _ _ X). cbn [bind].
    rewrite aset_ok by lia. cbn [bind].
    set (l1 := upd l k _).
    assert (E1 : length l1 = length l) by (unfold l1; apply length_upd).
    assert (M : ((Z.of_nat k + 1) mod 2 ^ 16 = Z.of_nat (S k))%Z) by (rewrite Z.mod_small; lia).
    rewrite M.
    destruct (IHfuel (S k) l1) as (l' & G1 & G2 & G3); try (rewrite E1; lia); try lia.
    + intros q y Q Y. rewrite E1. unfold l1 in Y. rewrite nth_error_upd in Y.
      destruct (Nat.eqb_spec k q).
      * subst q. destruct (Nat.ltb_spec k (length l)); [|lia]. cbn in Y. injection Y as <-. cbn.
        destruct (Z.eqb_spec (Z.of_nat k) (Z.of_nat (length l) - 1)), (Nat.eqb_spec (S k) (length l)); auto; lia.
      * cbn in Y. apply H; auto. lia.
    + exists l'. repeat split; auto. rewrite G2. unfold l1. now apply map_cell_next.
  - assert (k = length l) by lia. subst k. exists l. repeat split; auto.
    intros q x E. apply H; auto. eapply nth_error_lt; eauto.
Qed.

(* a column after tidy *)
Definition tidied (n : nat) (d : dcol) (L : list (nat * B)) : Prop :=
  map cell (dnodes d) = L /\ inline (dnodes d) /\ dhead d = (match L with [] => None | _ => Some 0 end) /\
  StronglySorted lt1 L /\ Forall (fun y => fst y < n) L /\ (Z.of_nat (nnz d) <= dcap d)%Z.
Lemma inline_seg (l : list node) : inline l -> forall k, k < length l -> seg l (Some k) (seq k (length l - k)) None.
Proof.
  intros H k. remember (length l - k) as m. revert k Heqm. induction m; intros k E K; [lia|].
  cbn. split; auto. destruct (nth_error l k) as [x|] eqn:X; [|apply nth_error_None in X; lia].
  exists x; split; auto. rewrite (H _ _ X). destruct (Nat.eqb_spec (S k) (length l)).
  - replace m with 0 by lia. reflexivity.
  - apply IHm; lia.
Qed.
Lemma at_seq (l : list node) : forall k l0, l0 ++ l = l0 ++ l -> length l0 = k -> at_ (l0 ++ l) (seq k (length l)) (map cell l).
Proof.
  induction l as [|x l IH]; intros k l0 _ E; cbn; constructor.
  - exists x. split; auto. now apply nth_mid.
  - change (x :: l) with ([x] ++ l). rewrite app_assoc. apply IH; auto. rewrite app_length; cbn; lia.
Qed.
Lemma tidied_rep n (d : dcol) L : tidied n d L -> rep n d L.
Proof.
  intros (M & I & H & S & F & C). split; [|auto]. exists (seq 0 (nnz d)). repeat split; auto.
  - rewrite H. unfold nnz. destruct (dnodes d) as [|x l] eqn:E.
    + cbn in M. subst L. reflexivity.
    + rewrite <- M. cbn [map]. rewrite <- E in *. rewrite <- (Nat.sub_0_r (length (dnodes d))). apply inline_seg; auto.
      rewrite E; cbn; lia.
  - rewrite <- M. apply (at_seq (dnodes d) 0 []); auto.
Qed.
Lemma sorted_perm_eq (L1 L2 : list (nat * B)) : StronglySorted lt1 L1 -> StronglySorted lt1 L2 -> Permutation L1 L2 -> L1 = L2.
Proof.
  intros S1; revert L2. induction S1 as [|y L1 S1 IH F1]; intros L2 S2 P.
  - apply Permutation_nil in P. now subst.
  - destruct S2 as [|z L2 S2 F2]. { apply Permutation_sym, Permutation_nil in P. discriminate. }
    assert (y = z).
    { rewrite Forall_forall in F1, F2.
      pose proof (Permutation_in y P (or_introl eq_refl)) as [Y|Y]; auto.
      pose proof (Permutation_in z (Permutation_sym P) (or_introl eq_refl)) as [Z|Z]; auto.
      specialize (F1 _ Z). specialize (F2 _ Y). unfold lt1 in *. lia. }
    subst z. f_equal. apply IH; auto. eapply Permutation_cons_inv; eauto.
Qed.
Lemma strict_of_le (l : list node) L : StronglySorted le1 l -> Permutation (map cell l) L -> StronglySorted lt1 L -> map cell l = L.
Proof.
  intros S P SL. apply sorted_perm_eq; auto.
  assert (ND : NoDup (map fst (map cell l))).
  { eapply Permutation_NoDup. { apply Permutation_map, Permutation_sym; exact P. }
    clear - SL. induction SL as [|y L S IH F]; cbn; constructor; auto.
    intros I. apply in_map_iff in I as (z & E & I). rewrite Forall_forall in F. specialize (F z I). unfold lt1 in F; lia. }
  clear P SL. induction S as [|x l S IH F]; cbn in *; constructor.
  - apply IH. now inversion ND.
  - inversion ND; subst. apply Forall_forall. intros y I. apply in_map_iff in I as (z & <- & I).
    rewrite Forall_forall in F. specialize (F z I). unfold le1, lt1, cell in *; cbn in *.
    assert (nrow x <> nrow z). { intros E. apply H1. rewrite E. apply in_map_iff. exists (cell z). split; auto. now apply in_map. }
    lia.
Qed.
Lemma tidy_col_wp fuel n (d : dcol) L :
  Permutation (map cell (dnodes d)) L -> StronglySorted lt1 L -> Forall (fun y => fst y < n) L ->
  (dhead d = None <-> dnodes d = []) -> (Z.of_nat (nnz d) <= dcap d)%Z -> (Z.of_nat (nnz d) < 2 ^ 16)%Z -> nnz d < fuel ->
  wp (tidy_col fuel d) (fun d' => tidied n d' L /\ dk d' = dk d /\ nnz d' = nnz d) (fun _ => False).
Proof.
  intros P S F H C U Fu. unfold tidy_col. eapply wp_seq; [apply isort_wp|].
  intros l (PL & SL). pose proof (Permutation_length PL) as E.
  destruct (relink_wp fuel 0 l) as (l' & G1 & G2 & G3); try (unfold nnz in *; rewrite ?E; lia).
  change (Z.of_nat 0) with 0%Z in G1. rewrite G1. cbn [bind wp].
  assert (M : map cell l = L).
  { apply strict_of_le; auto. etransitivity; [apply Permutation_map; exact PL|exact P]. }
  assert (E' : length l' = length (dnodes d)).
  { rewrite <- E, <- (map_length cell l'), G2, map_length. auto. }
  unfold tidied, nnz in *; cbn [dnodes dhead dk dcap]. rewrite E'. repeat split; auto.
  - congruence.
  - destruct (dhead d).
    + destruct L; auto. apply Permutation_sym, Permutation_nil in P. apply map_eq_nil in P. destruct H as (_ & H). discriminate (H P).
    + destruct H as (H & _). rewrite (H eq_refl) in P. cbn in P. apply Permutation_nil in P. now subst L.
Qed.
Lemma at_map (b0 : B) l c L : at_ l c L -> L = map (fun q => nth q (map cell l) (0, b0)) c.
Proof.
  induction 1 as [|q y c L (x & X & <-) A IH]; cbn; auto. f_equal; auto.
  symmetry. apply nth_error_nth. now rewrite nth_error_map, X.
Qed.
Lemma rep_perm n (d : dcol) L : rep n d L -> Permutation (map cell (dnodes d)) L.
Proof.
  intros ((c & S & A & P) & _). destruct (dnodes d) as [|x0 l0] eqn:E.
  { unfold nnz in P. rewrite E in P. apply Permutation_sym, Permutation_nil in P. subst c. inversion A. constructor. }
  rewrite <- E in *. rewrite (at_map (nk x0) _ _ _ A).
  rewrite (at_map (nk x0) _ _ _ (at_seq (dnodes d) 0 [] eq_refl eq_refl)) at 1. apply Permutation_map, Permutation_sym, P.
Qed.
Lemma rep_head n (d : dcol) L : rep n d L -> (dhead d = None <-> dnodes d = []).
Proof.
  intros ((c & S & A & P) & _). split.
  - intros H. rewrite H in S. destruct c; [|destruct S; discriminate]. apply Permutation_nil in P.
    destruct (dnodes d) eqn:E; auto. unfold nnz in P. rewrite E in P. discriminate.
  - intros H. unfold nnz in P. rewrite H in P. apply Permutation_sym, Permutation_nil in P. subst c. auto.
Qed.

(* ---- the whole matrix ---- *)
(* D and E are the diagonal blocks and the blocks stored above the diagonal *)
Definition holds (A : smat B) (m : nat) (D : nat -> B) (C : nat -> list (nat * B)) : Prop :=
  length A = m /\ forall n, n < m -> exists d, nth_error A n = Some d /\ rep n d (C n) /\ dk d = D n.
Definition holds_tidy (A : smat B) (m : nat) (D : nat -> B) (C : nat -> list (nat * B)) : Prop :=
  length A = m /\ forall n, n < m -> exists d, nth_error A n = Some d /\ tidied n d (C n) /\ dk d = D n.
Lemma holds_of_tidy (A : smat B) m D C : holds_tidy A m D C -> holds A m D C.
Proof. intros (L & H). split; auto. intros n N. destruct (H n N) as (d & E & T & K). exists d; auto using tidied_rep. Qed.

Definition updf {X} (f : nat -> X) (i : nat) (x : X) : nat -> X := fun j => if j =? i then x else f j.
Lemma holds_upd (A : smat B) m D C n d L k : holds A m D C -> n < m -> rep n d L -> dk d = k ->
  holds (upd A n d) m (updf D n k) (updf C n L).
Proof.
  intros (E & H) N R K. split. { now rewrite length_upd. }
  intros q Q. unfold updf. destruct (Nat.eqb_spec q n).
  - subst q. exists d. split; auto. apply nth_error_upd_eq; lia.
  - destruct (H q Q) as (d' & G). exists d'. rewrite nth_error_upd_ne by auto. auto.
Qed.
Lemma holds_ext (A : smat B) m D C D' C' : (forall n, n < m -> D n = D' n /\ C n = C' n) -> holds A m D C -> holds A m D' C'.
Proof.
  intros X (E & H). split; auto. intros n N. destruct (H n N) as (d & G). destruct (X n N) as (<- & <-). eauto.
Qed.
Lemma holds_new (b0 : B) m : holds (smat_new b0 m) m (fun _ => b0) (fun _ => []).
Proof.
  split. { apply repeat_length. }
  intros n N. exists (Dc b0 None [] 0). split.
  - unfold smat_new. rewrite (nth_error_nth' _ (Dc b0 None [] 0)) by (rewrite repeat_length; auto). f_equal. apply nth_repeat.
  - repeat split; cbn; auto; try constructor; try lia. exists []. repeat split; constructor.
Qed.
Lemma tidy_wp fuel (A : smat B) m D C : (Z.of_nat m < 2 ^ 16)%Z -> m < fuel ->
  length A = m -> (forall n, n < m -> exists d, nth_error A n = Some d /\ dk d = D n /\
     Permutation (map cell (dnodes d)) (C n) /\ StronglySorted lt1 (C n) /\ Forall (fun y => fst y < n) (C n) /\
     (dhead d = None <-> dnodes d = []) /\ (Z.of_nat (nnz d) <= dcap d)%Z) ->
  wp (tidy fuel A) (fun A' => holds_tidy A' m D C) (fun _ => False).
Proof.
  intros U Fu E H. unfold tidy. rewrite E.
  apply wp_mono with (P := fun A' => length A' = m /\
    (forall n, n < m -> exists d, nth_error A' n = Some d /\ tidied n d (C n) /\ dk d = D n) /\ forall n, m <= n < m -> nth_error A' n = nth_error A n).
  2:{ intros A' (G1 & G2 & _). split; auto. }
  apply (wp_for 0 m (fun i A => let* d := aget A i in let* d0 := tidy_col fuel d in aset A i d0) A
    (fun k A' => length A' = m /\ (forall n, n < k -> exists d, nth_error A' n = Some d /\ tidied n d (C n) /\ dk d = D n) /\
      forall n, k <= n < m -> nth_error A' n = nth_error A n)).
  - lia.
  - repeat split; auto. intros; lia.
  - intros i A' I (G1 & G2 & G3). destruct (H i ltac:(lia)) as (d & X & K & P & S & F & HD & CP).
    rewrite (aget_some A' i d) by (rewrite G3 by lia; auto). cbn [bind].
    assert (LN : nnz d <= i).
    { pose proof (sorted_len _ _ S F). apply Permutation_length in P. rewrite map_length in P. unfold nnz. lia. }
    eapply wp_seq; [apply (tidy_col_wp fuel i d (C i)); auto; lia|].
    cbn. intros d' (T & K' & _). rewrite aset_ok by lia. cbn [wp]. rewrite length_upd. repeat split; auto.
    + intros n N. destruct (Nat.eq_dec n i).
      * subst n. exists d'. split; [apply nth_error_upd_eq; lia|]. split; auto. congruence.
      * rewrite nth_error_upd_ne by auto. apply G2. lia.
    + intros n N. rewrite nth_error_upd_ne by lia. apply G3. lia.
Qed.
Lemma tidy_holds fuel (A : smat B) m D C : (Z.of_nat m < 2 ^ 16)%Z -> m < fuel -> holds A m D C ->
  wp (tidy fuel A) (fun A' => holds_tidy A' m D C) (fun _ => False).
Proof.
  intros U Fu (E & H). apply tidy_wp; auto. intros n N. destruct (H n N) as (d & X & R & K).
  exists d. split; auto. split; auto. split. { eapply rep_perm; eauto. }
  pose proof (rep_head _ _ _ R). destruct R as (_ & S & F & CP). auto.
Qed.
End SmatTidy.

Section SmatAppend.
Context {B : Type}.
Variable badd : B -> B -> B.
Variable btr : B -> B.
Variable lim : Z.
Lemma append_wp A m D C i j t : holds A m D C -> i < m -> j < m -> (Z.of_nat m < 2 ^ 32)%Z ->
  wp (append badd btr lim A i j t)
    (fun A' => if i =? j then holds A' m (updf D i (badd (D i) t)) C
               else holds A' m D (updf C (Nat.max i j) (addin badd (Nat.min i j) (if j <? i then btr t else t) (C (Nat.max i j)))))
    (fun e => e = BadAlloc /\ (lim < Z.of_nat m)%Z).
Proof.
  intros H I J U. unfold append. destruct (Nat.eqb_spec i j).
  - subst j. destruct (proj2 H i I) as (d & E & R & K). rewrite (aget_some _ _ _ E). cbn [bind].
    rewrite aset_ok by (rewrite (proj1 H); auto). cbn [wp].
    eapply holds_ext; [|apply (holds_upd A m D C i (Dc (badd (dk d) t) (dhead d) (dnodes d) (dcap d)) (C i) (badd (D i) t)); auto].
    + intros n N. unfold updf. destruct (Nat.eqb_spec n i); subst; auto.
    + cbn. congruence.
  - destruct (proj2 H (Nat.max i j) ltac:(lia)) as (d & E & R & K). rewrite (aget_some _ _ _ E). cbn [bind].
    eapply wp_seq.
    + eapply wp_conseq; [apply append_col_wp; [exact R|lia|lia]|intros a G; exact G|]. cbn. intros e (-> & G). split; auto. lia.
    + cbn. intros d' (R' & K'). rewrite aset_ok by (rewrite (proj1 H); lia). cbn [wp].
      eapply holds_ext; [|eapply holds_upd; [exact H| |exact R'|exact K']]; [|lia].
      intros q Q. unfold updf. destruct (Nat.eqb_spec q (Nat.max i j)); subst; auto.
Qed.
End SmatAppend.
