(* Removal and renumbering in the AVL tree of AvlModel (merged keys). *)
From Coq Require Import List ZArith Lia Bool Arith Permutation Sorted.
From Verif Require Import Base AvlModel AvlProofs.
Import ListNotations.
Open Scope Z_scope.

Section AvlRemove.
Context {K V : Type}.
Variable kcmp : K -> K -> comparison.
Hypothesis TO : total_preorder kcmp.
Notation tr := (@tr K V).
Notation kof e := (fst (snd e)).

Definition klt (e f : nat * (K * V)) : Prop := kcmp (kof e) (kof f) = Lt.
Definition sorted (t : tr) : Prop := StronglySorted klt (elems t).

(* ---- sorted lists ---- *)
Lemma ss_app {A} (R : A -> A -> Prop) xs ys :
  StronglySorted R (xs ++ ys) <->
  StronglySorted R xs /\ StronglySorted R ys /\
  (forall x y, In x xs -> In y ys -> R x y).
Proof.
  induction xs; simpl.
  - split; [intros H; repeat split; auto; try constructor; intros; tauto|tauto].
  - split.
    + intros H; inversion H; subst. apply IHxs in H2. destruct H2 as (H4 & H5 & H6).
      rewrite Forall_forall in H3. repeat split; auto.
      * constructor; auto. apply Forall_forall. intros; apply H3; rewrite in_app_iff; auto.
      * intros x y [->|Hx] Hy; auto. apply H3; rewrite in_app_iff; auto.
    + intros (H1 & H2 & H3). inversion H1; subst. constructor.
      * apply IHxs; repeat split; auto.
      * rewrite Forall_forall in *. intros x Hx. rewrite in_app_iff in Hx.
        destruct Hx; auto.
Qed.

Lemma ss_cons {A} (R : A -> A -> Prop) x ys :
  StronglySorted R (x :: ys) <-> StronglySorted R ys /\ (forall y, In y ys -> R x y).
Proof.
  split.
  - intros H; inversion H; subst. rewrite Forall_forall in *; auto.
  - intros [H1 H2]; constructor; auto. apply Forall_forall; auto.
Qed.

Lemma sorted_T l i k v r :
  sorted (T l i k v r) <->
  sorted l /\ sorted r /\
  (forall e, In e (elems l) -> kcmp (kof e) k = Lt) /\
  (forall e, In e (elems r) -> kcmp k (kof e) = Lt).
Proof.
  unfold sorted; simpl. rewrite ss_app, ss_cons. unfold klt at 3 4; simpl. split.
  - intros (H1 & (H2 & H3) & H4). repeat split; auto.
    intros e He. specialize (H4 e (i,(k,v)) He). simpl in H4; auto.
  - intros (H1 & H2 & H3 & H4). repeat split; auto.
    intros x y Hx [<-|Hy]; simpl; auto. eapply (cmp_trans _ TO); eauto.
Qed.

(* ---- the leftmost node ---- *)
Lemma elems_nonempty (t : tr) : t <> E -> exists e rest, elems t = e :: rest.
Proof.
  destruct t as [|l i k v r]; [congruence|]. intros _. simpl.
  destruct (elems l); simpl; eauto.
Qed.

Lemma rep_some (a : list (node K V)) o t : rep a o t -> t <> E ->
  exists i, o = Some i.
Proof. destruct t; [congruence|]. intros [-> _]; eauto. Qed.

Lemma leftmost_rep (t : tr) : forall fuel (a : list (node K V)) x j kv rest,
  rep a (Some x) t -> ht t <= Z.of_nat fuel -> elems t = (j, kv) :: rest ->
  leftmost fuel a x = Ok j.
Proof.
  induction t as [|l IHl i k v r IHr]; intros fuel a x j kv rest Hrep Hf He.
  - discriminate.
  - destruct Hrep as (Hx & n & Hn & _ & _ & _ & _ & Hl & _). injection Hx as ->.
    pose proof (ht_nonneg l); pose proof (ht_nonneg r). simpl in Hf.
    destruct fuel as [|fuel]; [lia|]. simpl.
    rewrite (aget_some _ _ _ Hn); simpl.
    destruct l as [|ll il kl vl lr].
    + simpl in Hl; rewrite Hl. simpl in He. congruence.
    + destruct (elems_nonempty (T ll il kl vl lr)) as (e & rest' & E'); [congruence|].
      destruct (rep_some _ _ _ Hl) as (y & Hy); [congruence|]. rewrite Hy in *.
      destruct e as [j' kv']. cbn [elems] in He. cbn [elems] in E'. rewrite E' in He.
      injection He as -> -> _.
      eapply IHl; eauto. lia.
Qed.

Fixpoint setmin (t : tr) (k : K) (v : V) : tr :=
  match t with
  | E => E
  | T E i _ _ r => T E i k v r
  | T l i k' v' r => T (setmin l k v) i k' v' r
  end.

Lemma setmin_T l i k' v' r k v :
  l <> E -> setmin (T l i k' v' r) k v = T (setmin l k v) i k' v' r.
Proof. destruct l; [congruence|reflexivity]. Qed.

Lemma setmin_ht (t : tr) k v : ht (setmin t k v) = ht t.
Proof.
  induction t as [|l IHl i k' v' r IHr]; auto.
  destruct l as [|l1 i1 k1 v1 r1]; [reflexivity|].
  rewrite setmin_T by congruence. cbn [ht] in *. rewrite IHl; auto.
Qed.
Lemma setmin_size (t : tr) k v : size (setmin t k v) = size t.
Proof.
  induction t as [|l IHl i k' v' r IHr]; auto.
  destruct l as [|l1 i1 k1 v1 r1]; [reflexivity|].
  rewrite setmin_T by congruence. cbn [size] in *. rewrite IHl; auto.
Qed.
Lemma setmin_elems (t : tr) k v j kv rest :
  elems t = (j, kv) :: rest -> elems (setmin t k v) = (j, (k, v)) :: rest.
Proof.
  revert j kv rest; induction t as [|l IHl i k' v' r IHr]; intros j kv rest; [discriminate|].
  destruct l as [|l1 i1 k1 v1 r1].
  - simpl. congruence.
  - rewrite setmin_T by congruence. cbn [elems].
    destruct (elems_nonempty (T l1 i1 k1 v1 r1)) as ([j' kv'] & rest' & E'); [congruence|].
    cbn [elems] in E'. rewrite E'. intros He; injection He as -> -> <-.
    cbn [elems] in IHl. erewrite IHl by eauto. reflexivity.
Qed.
Lemma setmin_idx (t : tr) k v : idx (setmin t k v) = idx t.
Proof.
  destruct t as [|l i k' v' r]; auto. unfold idx.
  destruct (elems_nonempty (T l i k' v' r)) as ([j kv] & rest & E'); [congruence|].
  rewrite (setmin_elems _ _ _ _ _ _ E'), E'. reflexivity.
Qed.

Lemma setmin_rep (t : tr) : forall a o j kv rest nj k v,
  rep a o t -> NoDup (idx t) -> elems t = (j, kv) :: rest -> nth_error a j = Some nj ->
  rep (upd a j (set_kv nj k v)) o (setmin t k v).
Proof.
  induction t as [|l IHl i k' v' r IHr]; intros a o j kv rest nj k v Hrep ND He Hj; [discriminate|].
  pose proof (proj1 (nodup_T _ _ _ _ _) ND) as (NDl & NDr & Nil & Nir & D).
  destruct Hrep as (-> & n & Hn & Hk & Hv & Hw & Hh & Hl & Hr).
  assert (Lj : (j < length a)%nat) by (eapply nth_error_lt; eauto).
  destruct l as [|l1 i1 k1 v1 r1].
  - simpl in He. injection He as <- <- <-. rewrite Hn in Hj; injection Hj as <-.
    split; auto. eexists. split; [apply nth_error_upd_eq; auto|].
    simpl. repeat split; auto. apply rep_upd; auto.
  - rewrite setmin_T by congruence.
    destruct (elems_nonempty (T l1 i1 k1 v1 r1)) as ([j' kv'] & rest' & E'); [congruence|].
    cbn [elems] in He, E'. rewrite E' in He. injection He as -> -> He.
    assert (Hjl : In j (idx (T l1 i1 k1 v1 r1))).
    { unfold idx. cbn [elems]. rewrite E'. simpl; auto. }
    assert (i <> j) by (intros ->; tauto).
    assert (j <> i) by auto.
    set (l := T l1 i1 k1 v1 r1) in *.
    change (elems l1 ++ (i1, (k1, v1)) :: elems r1) with (elems l) in E'.
    split; auto. exists n. rewrite nth_error_upd_ne by auto. repeat split; auto.
    + rewrite Hw. cbn [size]. rewrite setmin_size; auto.
    + rewrite Hh. cbn [ht]. rewrite setmin_ht; auto.
    + eapply IHl; eauto.
    + apply rep_upd; auto. intros Hx; eapply D; eauto.
Qed.

(* ---- removing the leftmost payload ---- *)
Definition mink (t : tr) (d : K * V) : K * V :=
  match elems t with [] => d | (_, kv) :: _ => kv end.

Fixpoint rmmin (t : tr) : tr * nat :=
  match t with
  | E => (E, O)
  | T E i k v r =>
    match r with
    | E => (E, i)
    | T _ _ _ _ _ =>
      let kv := mink r (k, v) in
      let (r', p) := rmmin r in (bal E i (fst kv) (snd kv) r', p)
    end
  | T l i k v r => let (l', p) := rmmin l in (bal l' i k v r, p)
  end.

Lemma rmmin_left l i k v r :
  l <> E -> rmmin (T l i k v r) = let (l', p) := rmmin l in (bal l' i k v r, p).
Proof. destruct l; [congruence|reflexivity]. Qed.

Lemma rmmin_elems (t : tr) : t <> E ->
  map snd (elems (fst (rmmin t))) = tl (map snd (elems t)) /\
  Permutation (snd (rmmin t) :: idx (fst (rmmin t))) (idx t).
Proof.
  induction t as [|l IHl i k v r IHr]; [congruence|intros _].
  destruct l as [|l1 i1 k1 v1 r1].
  - destruct r as [|r1 j1 k1 v1 r2].
    + simpl. auto.
    + set (r := T r1 j1 k1 v1 r2) in *.
      destruct IHr as [H1 H2]; [discriminate|].
      replace (rmmin (T E i k v r)) with
        (let kv := mink r (k,v) in let (r', p) := rmmin r in (bal E i (fst kv) (snd kv) r', p)) by reflexivity.
      unfold mink. destruct (elems_nonempty r) as ([j kv] & rest & E'); [discriminate|].
      rewrite E' in *. cbn zeta. destruct (rmmin r) as [r' p]. cbn [fst snd] in *.
      rewrite elems_bal, idx_bal, idx_T. cbn [elems app map snd tl idx]. split.
      * rewrite H1, E'. destruct kv; reflexivity.
      * unfold idx in *; simpl. rewrite perm_swap. constructor. auto.
  - rewrite rmmin_left by congruence. set (l := T l1 i1 k1 v1 r1) in *.
    destruct IHl as [H1 H2]; [discriminate|].
    destruct (rmmin l) as [l' p]. cbn [fst snd] in *.
    rewrite elems_bal, idx_bal, !idx_T. cbn [elems]. rewrite !map_app, H1. split.
    + destruct (elems_nonempty l) as (e & rest & E'); [discriminate|]. rewrite E'. reflexivity.
    + rewrite app_comm_cons. apply Permutation_app_tail; auto.
Qed.

Lemma rmmin_avl (t : tr) : avl t -> t <> E ->
  avl (fst (rmmin t)) /\ ht t - 1 <= ht (fst (rmmin t)) <= ht t.
Proof.
  induction t as [|l IHl i k v r IHr]; [congruence|].
  intros (B & Al & Ar) _.
  destruct l as [|l1 i1 k1 v1 r1].
  - destruct r as [|r1 j1 k1 v1 r2].
    + simpl; lia.
    + set (r := T r1 j1 k1 v1 r2) in *.
      destruct IHr as [H1 H2]; auto; [discriminate|].
      replace (rmmin (T E i k v r)) with
        (let kv := mink r (k,v) in let (r', p) := rmmin r in (bal E i (fst kv) (snd kv) r', p)) by reflexivity.
      destruct (rmmin r) as [r' p]. cbn [fst snd] in *. cbn [ht] in *.
      pose proof (ht_nonneg r'). pose proof (ht_nonneg r).
      destruct (bal_avl_r E i (fst (mink r (k,v))) (snd (mink r (k,v))) r') as (A1 & H3 & H4); auto;
        cbn [ht] in *; try lia.
      split; auto. lia.
  - rewrite rmmin_left by congruence. set (l := T l1 i1 k1 v1 r1) in *.
    destruct IHl as [H1 H2]; auto; [discriminate|].
    destruct (rmmin l) as [l' p]. cbn [fst snd ht] in *.
    destruct (bal_avl_r l' i k v r) as (A1 & H3 & H4); auto; try lia.
    split; auto. lia.
Qed.

Lemma rep_size_le (a : list (node K V)) o t : rep a o t -> NoDup (idx t) -> size t <= Z.of_nat (length a).
Proof.
  intros H ND. rewrite size_elems. apply inj_le.
  replace (length (elems t)) with (length (idx t)) by (unfold idx; apply map_length).
  rewrite <- (seq_length (length a) 0).
  apply NoDup_incl_length; auto.
  intros x Hx. apply in_seq. pose proof (rep_bound _ _ _ _ H Hx). lia.
Qed.

Lemma swap_v_rep a i n l x k v r j kq vq rest :
  nth_error a i = Some n -> nkey n = k -> nval n = v ->
  nright n = Some x -> rep a (Some x) r -> rep a (nleft n) l ->
  NoDup (idx (T l i k v r)) ->
  elems r = (j, (kq, vq)) :: rest ->
  exists a', swap_v true a i j = Ok a' /\
    nth_error a' i = Some (set_kv n kq vq) /\
    rep a' (Some x) (setmin r k v) /\ rep a' (nleft n) l /\
    same_except (fun y => y = i \/ In y (idx r)) a a'.
Proof.
  intros Hi Hk Hv Hx Hr Hl ND He.
  pose proof (proj1 (nodup_T _ _ _ _ _) ND) as (NDl & NDr & Nil & Nir & D).
  assert (Hjr : In j (idx r)) by (unfold idx; rewrite He; simpl; auto).
  assert (Hij : i <> j) by (intros ->; tauto).
  assert (Li : (i < length a)%nat) by (eapply nth_error_lt; eauto).
  assert (Hn : exists nj, nth_error a j = Some nj /\ nkey nj = kq /\ nval nj = vq).
  { assert (G : forall t o j kv, rep a o t -> In (j, kv) (elems t) ->
      exists nj, nth_error a j = Some nj /\ nkey nj = fst kv /\ nval nj = snd kv).
    { induction t as [|tl IHtl ti tk tv trr IHtr]; simpl; [tauto|].
      intros o j0 kv (_ & m & Hm & Km & Vm & _ & _ & Rl & Rr) Hin.
      rewrite in_app_iff in Hin; simpl in Hin. destruct Hin as [Hin|[Hin|Hin]]; eauto.
      injection Hin as <- <-. exists m; auto. }
    apply (G r (Some x) j (kq, vq)); auto. rewrite He; simpl; auto. }
  destruct Hn as (nj & Hj & Kj & Vj).
  unfold swap_v. rewrite (aget_some _ _ _ Hi); cbn [bind].
  rewrite (aget_some _ _ _ Hj); cbn [bind].
  rewrite (modify_ok _ _ _ _ Hi); cbn [bind].
  set (n' := set_kv n (nkey nj) (nval nj)).
  assert (Hj1 : nth_error (upd a i n') j = Some nj) by (rewrite nth_error_upd_ne; auto).
  rewrite (modify_ok _ _ _ _ Hj1).
  eexists; split; [reflexivity|]. split; [|split; [|split]].
  - rewrite nth_error_upd_ne by auto. rewrite nth_error_upd_eq by auto.
    unfold n'. rewrite Kj, Vj; reflexivity.
  - rewrite Hk, Hv. eapply setmin_rep; eauto. apply rep_upd; auto.
  - apply rep_upd. { intros Hy; eapply D; eauto. } apply rep_upd; auto.
  - eapply same_except_trans;
      [apply (same_except_upd (fun y => y = i)); auto
      |apply (same_except_upd (fun y => y = j)); auto| |].
    + intros y ->; auto.
    + intros y ->; auto.
Qed.

Lemma remove_min_rep (t : tr) : forall fuel a o k k0 v0,
  t <> E ->
  rep a o (setmin t k0 v0) -> NoDup (idx t) -> ht t < Z.of_nat fuel ->
  kcmp k k0 = Eq -> (forall e, In e (tl (elems t)) -> kcmp k (kof e) = Lt) ->
  exists a' o',
    remove kcmp true fuel a o k = Ok (a', o', Some (snd (rmmin t))) /\
    rep a' o' (fst (rmmin t)) /\
    same_except (fun x => In x (idx t)) a a'.
Proof.
  induction t as [|l IHl i k' v' r IHr]; intros fuel a o k k0 v0 NE Hrep ND Hf Ck Hlt; [congruence|].
  clear NE.
  pose proof (proj1 (nodup_T _ _ _ _ _) ND) as (NDl & NDr & Nil & Nir & D).
  pose proof (ht_nonneg l); pose proof (ht_nonneg r). cbn [ht] in Hf.
  destruct fuel as [|fuel]; [lia|].
  destruct l as [|l1 i1 k1 v1 r1].
  - cbn [setmin] in Hrep.
    assert (Rsz : size (T E i k0 v0 r) <= Z.of_nat (length a)).
    { eapply rep_size_le; eauto. }
    destruct Hrep as (-> & n & Hn & Hk & Hv & Hw & Hh & Hl & Hr).
    assert (Li : (i < length a)%nat) by (eapply nth_error_lt; eauto).
    cbn [remove]. rewrite (aget_some _ _ _ Hn); cbn [bind]. rewrite Hk, Ck.
    destruct r as [|r1 j1 k1 v1 r2].
    + simpl in Hr; rewrite Hr. simpl in Hl.
      rewrite (modify_ok _ _ _ _ Hn); cbn [bind]. rewrite Hl.
      eexists _, _. split; [reflexivity|]. split; [reflexivity|].
      apply same_except_upd. simpl; auto.
    + set (r := T r1 j1 k1 v1 r2) in *.
      destruct (rep_some _ _ _ Hr) as (x & Hx); [discriminate|]. rewrite Hx in *.
      destruct (elems_nonempty r) as ([j [kq vq]] & rest & He); [discriminate|].
      rewrite (leftmost_rep r _ _ _ j (kq,vq) rest Hr); [|cbn [size] in Rsz; pose proof (ht_le_size r); simpl in *; lia|auto].
      cbn [bind].
      assert (ND0 : NoDup (idx (T E i k0 v0 r))) by exact ND.
      destruct (swap_v_rep a i n E x k0 v0 r j kq vq rest) as (a1 & E1 & Hi1 & R1 & Rl1 & S1); auto.
      rewrite E1; cbn [bind].
      destruct (IHr fuel a1 (Some x) k k0 v0) as (a2 & o2 & E2 & R2 & S2); auto; try discriminate; try lia.
      { intros e He'. apply Hlt. cbn [elems app tl]. rewrite He in *. simpl in *; auto. }
      rewrite E2; cbn [bind].
      assert (Hi2 : nth_error a2 i = Some (set_kv n kq vq)) by (rewrite (proj2 S2); auto).
      rewrite (modify_ok _ _ _ _ Hi2); cbn [bind].
      set (n3 := set_right (set_kv n kq vq) o2).
      assert (Li2 : (i < length a2)%nat) by (eapply nth_error_lt; eauto).
      destruct (rmmin_elems r) as (_ & PI); [discriminate|].
      assert (Ni2 : ~ In i (idx (fst (rmmin r)))).
      { intros Hy. apply Nir. eapply Permutation_in; [exact PI|]. simpl; auto. }
      assert (Hi3 : nth_error (upd a2 i n3) i = Some n3) by (apply nth_error_upd_eq; auto).
      assert (R3 : rep (upd a2 i n3) (nright n3) (fst (rmmin r))) by (apply rep_upd; auto).
      assert (Rl3 : rep (upd a2 i n3) (nleft n3) E) by exact Hl.
      destruct (finish_rep (upd a2 i n3) i n3 E (fst (rmmin r)) Hi3 Rl3 R3)
        as (a4 & a5 & o5 & E4 & E5 & R5 & S5).
      { apply nodup_T. repeat split; auto.
        - apply Permutation_sym in PI. apply (Permutation_NoDup PI) in NDr. inversion NDr; auto. }
      rewrite E4; cbn [bind]. rewrite E5; cbn [bind].
      replace (rmmin (T E i k' v' r)) with
        (let kv := mink r (k',v') in let (r', p) := rmmin r in (bal E i (fst kv) (snd kv) r', p)) by reflexivity.
      unfold mink. rewrite He. cbn zeta. destruct (rmmin r) as [r' p]. cbn [fst snd] in *.
      eexists _, _. split; [reflexivity|]. split; [exact R5|].
      eapply same_except_trans; [exact S1| | | intros y Hy; exact Hy].
      2:{ intros y [->|Hy]; rewrite idx_T; simpl; auto. }
      eapply same_except_trans; [exact S2| | intros y Hy; rewrite idx_T; simpl; auto | intros y Hy; exact Hy].
      eapply same_except_trans; [apply (same_except_upd (fun y => y = i)); auto|exact S5| |].
      * intros y ->; rewrite idx_T; simpl; auto.
      * intros y Hy. rewrite idx_T in *. simpl in *. destruct Hy as [Hy|Hy]; auto.
        right. eapply Permutation_in; [exact PI|]. simpl; auto.
  - set (l := T l1 i1 k1 v1 r1) in *.
    assert (NEl : l <> E) by discriminate.
    rewrite setmin_T in Hrep by auto.
    destruct Hrep as (-> & n & Hn & Hk & Hv & Hw & Hh & Hl & Hr).
    assert (Li : (i < length a)%nat) by (eapply nth_error_lt; eauto).
    cbn [remove]. rewrite (aget_some _ _ _ Hn); cbn [bind]. rewrite Hk.
    destruct (elems_nonempty l) as (e & rest & He); [auto|].
    assert (Clt : kcmp k k' = Lt).
    { apply (Hlt (i, (k', v'))). cbn [elems]. rewrite He. simpl. rewrite in_app_iff; simpl; auto. }
    rewrite Clt.
    destruct (IHl fuel a (nleft n) k k0 v0) as (a2 & o2 & E2 & R2 & S2); auto; try lia.
    { intros e' He'. apply Hlt. cbn [elems]. rewrite He in *. simpl in *. rewrite in_app_iff; auto. }
    rewrite E2; cbn [bind].
    assert (Hi2 : nth_error a2 i = Some n) by (rewrite (proj2 S2); auto).
    rewrite (modify_ok _ _ _ _ Hi2); cbn [bind].
    set (n3 := set_left n o2).
    assert (Li2 : (i < length a2)%nat) by (eapply nth_error_lt; eauto).
    destruct (rmmin_elems l) as (_ & PI); [auto|].
    assert (Ni2 : ~ In i (idx (fst (rmmin l)))).
    { intros Hy. apply Nil. eapply Permutation_in; [exact PI|]. simpl; auto. }
    assert (Hi3 : nth_error (upd a2 i n3) i = Some n3) by (apply nth_error_upd_eq; auto).
    assert (R3 : rep (upd a2 i n3) (nleft n3) (fst (rmmin l))) by (apply rep_upd; auto).
    assert (Rr3 : rep (upd a2 i n3) (nright n3) r).
    { apply rep_upd; auto. eapply rep_same; [exact S2| |exact Hr]. intros y Hy Hz; eapply D; eauto. }
    destruct (finish_rep (upd a2 i n3) i n3 (fst (rmmin l)) r Hi3 R3 Rr3)
      as (a4 & a5 & o5 & E4 & E5 & R5 & S5).
    { apply nodup_T. repeat split; auto.
      - apply Permutation_sym in PI. apply (Permutation_NoDup PI) in NDl. inversion NDl; auto.
      - intros y Hy Hz. apply (D y); auto. eapply Permutation_in; [exact PI|]. simpl; auto. }
    rewrite E4; cbn [bind]. rewrite E5; cbn [bind].
    rewrite rmmin_left by auto. destruct (rmmin l) as [l' p]. cbn [fst snd] in *.
    eexists _, _. split; [reflexivity|]. split.
    + change (nkey n3) with (nkey n) in R5. change (nval n3) with (nval n) in R5.
      rewrite Hk, Hv in R5. exact R5.
    + eapply same_except_trans; [exact S2| | intros y Hy; rewrite idx_T, in_app_iff; simpl; auto | intros y Hy; exact Hy].
      eapply same_except_trans; [apply (same_except_upd (fun y => y = i)); auto|exact S5| |].
      * intros y ->; rewrite idx_T, in_app_iff; simpl; auto.
      * intros y Hy. rewrite idx_T, in_app_iff in *. simpl in *. destruct Hy as [Hy|[Hy|Hy]]; auto.
        left. eapply Permutation_in; [exact PI|]. simpl; auto.
Qed.

(* ---- removing a key ---- *)
Fixpoint rem (t : tr) (k : K) : tr * option nat :=
  match t with
  | E => (E, None)
  | T l i k' v' r =>
    match kcmp k k' with
    | Eq =>
      match r with
      | E => (l, Some i)
      | T _ _ _ _ _ =>
        let kv := mink r (k', v') in
        let (r', p) := rmmin r in (bal l i (fst kv) (snd kv) r', Some p)
      end
    | Lt => let (l', p) := rem l k in (bal l' i k' v' r, p)
    | Gt => let (r', p) := rem r k in (bal l i k' v' r', p)
    end
  end.

Lemma bal_balanced l i k v r : -1 <= ht r - ht l <= 1 -> @bal K V l i k v r = T l i k v r.
Proof.
  intros H; unfold bal. destruct (Z.ltb_spec (ht r - ht l) (-1)); [lia|].
  rewrite Z.gtb_ltb. destruct (Z.ltb_spec 1 (ht r - ht l)); [lia|]. reflexivity.
Qed.

(* What removal does to the in-order content. *)
Lemma rem_elems (t : tr) k : sorted t -> avl t ->
  match snd (rem t k) with
  | None => fst (rem t k) = t /\ (forall e, In e (elems t) -> kcmp k (kof e) <> Eq)
  | Some p =>
    (exists xs i kv ys, elems t = xs ++ (i, kv) :: ys /\ kcmp k (fst kv) = Eq /\
       map snd (elems (fst (rem t k))) = map snd (xs ++ ys) /\
       (ys = [] -> p = i /\ elems (fst (rem t k)) = xs)) /\
    Permutation (p :: idx (fst (rem t k))) (idx t)
  end.
Proof.
  induction t as [|l IHl i k' v' r IHr]; intros S A.
  - simpl. split; auto.
  - pose proof (proj1 (sorted_T _ _ _ _ _) S) as (Sl & Sr & Hl & Hr).
    destruct A as (B & Al & Ar). cbn [rem].
    destruct (kcmp k k') eqn:C.
    + destruct r as [|r1 j1 k1 v1 r2].
      * cbn [fst snd]. split.
        -- exists (elems l), i, (k',v'), []. cbn [elems]. rewrite app_nil_r; auto 6.
        -- rewrite idx_T. cbn. apply Permutation_cons_append.
      * set (r := T r1 j1 k1 v1 r2) in *.
        destruct (rmmin_elems r) as (M & P); [discriminate|].
        unfold mink. destruct (elems_nonempty r) as ([j kv] & rest & He); [discriminate|].
        rewrite He in *. cbn zeta. destruct (rmmin r) as [r' p]. cbn [fst snd] in *.
        rewrite idx_bal, elems_bal. split.
        -- exists (elems l), i, (k',v'), (elems r). cbn [elems]. rewrite He.
           repeat split; auto.
           ++ rewrite !map_app. cbn [map snd]. rewrite M. destruct kv; reflexivity.
           ++ discriminate.
           ++ discriminate.
        -- rewrite !idx_T. rewrite Permutation_middle. apply Permutation_app_head.
           rewrite perm_swap. constructor. auto.
    + specialize (IHl Sl Al). destruct (rem l k) as [l' [p|]]; cbn [fst snd] in *.
      * destruct IHl as ((xs & i' & kv & ys & E1 & C1 & M & L) & P).
        rewrite idx_bal, elems_bal. split.
        -- exists xs, i', kv, (ys ++ (i,(k',v')) :: elems r).
           cbn [elems]. rewrite E1, <- app_assoc. repeat split; auto.
           ++ rewrite map_app, M, <- map_app, <- !app_assoc. reflexivity.
           ++ destruct ys; discriminate.
           ++ destruct ys; discriminate.
        -- rewrite !idx_T. rewrite app_comm_cons. apply Permutation_app_tail; auto.
      * destruct IHl as (-> & Hne). split.
        -- apply bal_balanced; auto.
        -- intros e He. cbn [elems] in He. rewrite in_app_iff in He. simpl in He.
           destruct He as [He|[<-|He]]; auto.
           ++ simpl. congruence.
           ++ rewrite (cmp_trans _ TO _ _ _ C (Hr _ He)). congruence.
    + specialize (IHr Sr Ar). destruct (rem r k) as [r' [p|]]; cbn [fst snd] in *.
      * destruct IHr as ((xs & i' & kv & ys & E1 & C1 & M & L) & P).
        rewrite idx_bal, elems_bal. split.
        -- exists (elems l ++ (i,(k',v')) :: xs), i', kv, ys.
           cbn [elems]. rewrite E1, <- app_assoc. repeat split; auto.
           ++ rewrite <- app_assoc, (map_app _ (elems l)). cbn [map]. rewrite M.
              rewrite (map_app _ (elems l)); reflexivity.
           ++ apply L; auto.
           ++ destruct (L H) as [_ ->]; auto.
        -- rewrite !idx_T. rewrite Permutation_middle. apply Permutation_app_head.
           rewrite perm_swap. constructor; auto.
      * destruct IHr as (-> & Hne). split.
        -- apply bal_balanced; auto.
        -- intros e He. cbn [elems] in He. rewrite in_app_iff in He. simpl in He.
           destruct He as [He|[<-|He]]; auto.
           ++ specialize (Hl _ He). apply (cmp_gt_lt _ _ _ TO) in C.
              pose proof (cmp_trans _ TO _ _ _ Hl C) as L.
              rewrite (cmp_lt_gt _ _ _ TO L). congruence.
           ++ simpl. congruence.
Qed.

Lemma rem_avl (t : tr) k : avl t ->
  avl (fst (rem t k)) /\ ht t - 1 <= ht (fst (rem t k)) <= ht t.
Proof.
  induction t as [|l IHl i k' v' r IHr]; intros A.
  - simpl; lia.
  - destruct A as (B & Al & Ar). cbn [rem].
    pose proof (ht_nonneg l); pose proof (ht_nonneg r).
    destruct (kcmp k k') eqn:C.
    + destruct r as [|r1 j1 k1 v1 r2].
      * cbn [fst ht] in *. split; auto. lia.
      * set (r := T r1 j1 k1 v1 r2) in *.
        destruct (rmmin_avl r) as (A1 & H1); auto; [discriminate|].
        destruct (rmmin r) as [r' p]. cbn [fst snd ht] in *.
        destruct (bal_avl_r l i (fst (mink r (k',v'))) (snd (mink r (k',v'))) r') as (A2 & H3 & H4); auto; try lia.
        split; auto. lia.
    + destruct (IHl Al) as (A1 & H1). destruct (rem l k) as [l' p]. cbn [fst snd ht] in *.
      destruct (bal_avl_r l' i k' v' r) as (A2 & H3 & H4); auto; try lia. split; auto; lia.
    + destruct (IHr Ar) as (A1 & H1). destruct (rem r k) as [r' p]. cbn [fst snd ht] in *.
      destruct (bal_avl_r l i k' v' r') as (A2 & H3 & H4); auto; try lia. split; auto; lia.
Qed.

Lemma remove_rep (t : tr) : forall fuel a o k,
  rep a o t -> NoDup (idx t) -> sorted t -> avl t -> ht t < Z.of_nat fuel ->
  exists a' o',
    remove kcmp true fuel a o k = Ok (a', o', snd (rem t k)) /\
    rep a' o' (fst (rem t k)) /\
    same_except (fun x => In x (idx t)) a a'.
Proof.
  induction t as [|l IHl i k' v' r IHr]; intros fuel a o k Hrep ND S A Hf.
  - destruct fuel as [|fuel]; [simpl in Hf; lia|]. simpl in Hrep; subst o. simpl.
    exists a, None. repeat split; auto.
  - pose proof (rep_size_le _ _ _ Hrep ND) as Rsz. cbn [size] in Rsz.
    pose proof (proj1 (nodup_T _ _ _ _ _) ND) as (NDl & NDr & Nil & Nir & D).
    pose proof (proj1 (sorted_T _ _ _ _ _) S) as (Sl & Sr & HSl & HSr).
    destruct A as (B & Al & Ar).
    pose proof (ht_nonneg l); pose proof (ht_nonneg r). cbn [ht] in Hf.
    destruct fuel as [|fuel]; [lia|].
    destruct Hrep as (-> & n & Hn & Hk & Hv & Hw & Hh & Hl & Hr).
    assert (Li : (i < length a)%nat) by (eapply nth_error_lt; eauto).
    cbn [remove rem]. rewrite (aget_some _ _ _ Hn); cbn [bind]. rewrite Hk.
    destruct (kcmp k k') eqn:C.
    + destruct r as [|r1 j1 k1 v1 r2].
      * simpl in Hr; rewrite Hr. rewrite (modify_ok _ _ _ _ Hn); cbn [bind fst snd].
        eexists _, _. split; [reflexivity|]. split; [apply rep_upd; auto|].
        apply same_except_upd. rewrite idx_T, in_app_iff; simpl; auto.
      * set (r := T r1 j1 k1 v1 r2) in *.
        destruct (rep_some _ _ _ Hr) as (x & Hx); [discriminate|]. rewrite Hx in *.
        destruct (elems_nonempty r) as ([j [kq vq]] & rest & He); [discriminate|].
        rewrite (leftmost_rep r _ _ _ j (kq,vq) rest Hr);
          [|pose proof (ht_le_size r); pose proof (size_nonneg l); lia|auto].
        cbn [bind].
        destruct (swap_v_rep a i n l x k' v' r j kq vq rest) as (a1 & E1 & Hi1 & R1 & Rl1 & S1); auto.
        rewrite E1; cbn [bind].
        destruct (remove_min_rep r fuel a1 (Some x) k k' v') as (a2 & o2 & E2 & R2 & S2); auto; try discriminate; try lia.
        { intros e He'. rewrite (cmp_cong _ TO _ _ _ C). apply HSr.
          rewrite He in *. simpl in *; auto. }
        rewrite E2; cbn [bind].
        assert (Hi2 : nth_error a2 i = Some (set_kv n kq vq)) by (rewrite (proj2 S2); auto).
        rewrite (modify_ok _ _ _ _ Hi2); cbn [bind].
        set (n3 := set_right (set_kv n kq vq) o2).
        assert (Li2 : (i < length a2)%nat) by (eapply nth_error_lt; eauto).
        destruct (rmmin_elems r) as (_ & PI); [discriminate|].
        assert (Ni2 : ~ In i (idx (fst (rmmin r)))).
        { intros Hy. apply Nir. eapply Permutation_in; [exact PI|]. simpl; auto. }
        assert (Hi3 : nth_error (upd a2 i n3) i = Some n3) by (apply nth_error_upd_eq; auto).
        assert (R3 : rep (upd a2 i n3) (nright n3) (fst (rmmin r))) by (apply rep_upd; auto).
        assert (Rl3 : rep (upd a2 i n3) (nleft n3) l).
        { apply rep_upd; auto. eapply rep_same; [exact S2| |exact Rl1]. intros y Hy Hz; eapply D; eauto. }
        destruct (finish_rep (upd a2 i n3) i n3 l (fst (rmmin r)) Hi3 Rl3 R3)
          as (a4 & a5 & o5 & E4 & E5 & R5 & S5).
        { apply nodup_T. repeat split; auto.
          - apply Permutation_sym in PI. apply (Permutation_NoDup PI) in NDr. inversion NDr; auto.
          - intros y Hy Hz. apply (D y); auto. eapply Permutation_in; [exact PI|]. simpl; auto. }
        rewrite E4; cbn [bind]. rewrite E5; cbn [bind].
        unfold mink. rewrite He. cbn zeta. destruct (rmmin r) as [r' p]. cbn [fst snd] in *.
        eexists _, _. split; [reflexivity|]. split; [exact R5|].
        eapply same_except_trans; [exact S1| | | intros y Hy; exact Hy].
        2:{ intros y [->|Hy]; rewrite idx_T, in_app_iff; simpl; auto. }
        eapply same_except_trans; [exact S2| | intros y Hy; rewrite idx_T, in_app_iff; simpl; auto | intros y Hy; exact Hy].
        eapply same_except_trans; [apply (same_except_upd (fun y => y = i)); auto|exact S5| |].
        -- intros y ->; rewrite idx_T, in_app_iff; simpl; auto.
        -- intros y Hy. rewrite idx_T, in_app_iff in *. simpl in *. destruct Hy as [Hy|[Hy|Hy]]; auto.
           right; right. eapply Permutation_in; [exact PI|]. simpl; auto.
    + destruct (IHl fuel a (nleft n) k) as (a2 & o2 & E2 & R2 & S2); auto; try lia.
      rewrite E2; cbn [bind].
      assert (Hi2 : nth_error a2 i = Some n) by (rewrite (proj2 S2); auto).
      rewrite (modify_ok _ _ _ _ Hi2); cbn [bind].
      set (n3 := set_left n o2).
      assert (Li2 : (i < length a2)%nat) by (eapply nth_error_lt; eauto).
      pose proof (rem_elems l k Sl Al) as RE.
      assert (Inc : forall y, In y (idx (fst (rem l k))) -> In y (idx l)).
      { destruct (snd (rem l k)).
        - destruct RE as (_ & PI). intros y Hy; eapply Permutation_in; [exact PI|]; simpl; auto.
        - destruct RE as (-> & _); auto. }
      assert (NDl' : NoDup (idx (fst (rem l k)))).
      { destruct (snd (rem l k)).
        - destruct RE as (_ & PI). apply Permutation_sym in PI.
          apply (Permutation_NoDup PI) in NDl. inversion NDl; auto.
        - destruct RE as (-> & _); auto. }
      assert (Hi3 : nth_error (upd a2 i n3) i = Some n3) by (apply nth_error_upd_eq; auto).
      assert (R3 : rep (upd a2 i n3) (nleft n3) (fst (rem l k))) by (apply rep_upd; auto).
      assert (Rr3 : rep (upd a2 i n3) (nright n3) r).
      { apply rep_upd; auto. eapply rep_same; [exact S2| |exact Hr]. intros y Hy Hz; eapply D; eauto. }
      assert (ND3 : NoDup (idx (T (fst (rem l k)) i (nkey n3) (nval n3) r))).
      { apply nodup_T. repeat split; auto. intros y Hy Hz. apply (D y); auto. }
      assert (Fin : exists a5 o5,
        (let* a0 := match snd (rem l k) with Some _ => refresh (upd a2 i n3) i | None => Ok (upd a2 i n3) end in
         let* (a1, r') := rebalance a0 (Some i) in Ok (a1, r', snd (rem l k))) = Ok (a5, o5, snd (rem l k)) /\
        rep a5 o5 (bal (fst (rem l k)) i (nkey n3) (nval n3) r) /\
        same_except (fun x => In x (idx (T (fst (rem l k)) i (nkey n3) (nval n3) r))) (upd a2 i n3) a5).
      { destruct (snd (rem l k)) eqn:Sn.
        - destruct (finish_rep (upd a2 i n3) i n3 (fst (rem l k)) r Hi3 R3 Rr3 ND3)
            as (a4 & a5 & o5 & E4 & E5 & R5 & S5).
          rewrite E4; cbn [bind]. rewrite E5; cbn [bind]. eauto 6.
        - destruct RE as (RE & _). cbn [bind].
          destruct (rebalance_rep (upd a2 i n3) i n3 (fst (rem l k)) r Hi3 R3 Rr3)
            as (a5 & o5 & E5 & R5 & S5); auto.
          + rewrite RE. exact Hw.
          + rewrite RE. exact Hh.
          + rewrite E5; cbn [bind]. eauto 6. }
      destruct Fin as (a5 & o5 & E5 & R5 & S5). rewrite E5.
      destruct (rem l k) as [l' p]. cbn [fst snd] in *.
      eexists _, _. split; [reflexivity|]. split.
      * change (nkey n3) with (nkey n) in R5. change (nval n3) with (nval n) in R5.
        rewrite Hk, Hv in R5. exact R5.
      * eapply same_except_trans; [exact S2| | intros y Hy; rewrite idx_T, in_app_iff; simpl; auto | intros y Hy; exact Hy].
        eapply same_except_trans; [apply (same_except_upd (fun y => y = i)); auto|exact S5| |].
        -- intros y ->; rewrite idx_T, in_app_iff; simpl; auto.
        -- intros y Hy. rewrite idx_T, in_app_iff in *. simpl in *. destruct Hy as [Hy|[Hy|Hy]]; auto.
    + destruct (IHr fuel a (nright n) k) as (a2 & o2 & E2 & R2 & S2); auto; try lia.
      rewrite E2; cbn [bind].
      assert (Hi2 : nth_error a2 i = Some n) by (rewrite (proj2 S2); auto).
      rewrite (modify_ok _ _ _ _ Hi2); cbn [bind].
      set (n3 := set_right n o2).
      assert (Li2 : (i < length a2)%nat) by (eapply nth_error_lt; eauto).
      pose proof (rem_elems r k Sr Ar) as RE.
      assert (Inc : forall y, In y (idx (fst (rem r k))) -> In y (idx r)).
      { destruct (snd (rem r k)).
        - destruct RE as (_ & PI). intros y Hy; eapply Permutation_in; [exact PI|]; simpl; auto.
        - destruct RE as (-> & _); auto. }
      assert (NDr' : NoDup (idx (fst (rem r k)))).
      { destruct (snd (rem r k)).
        - destruct RE as (_ & PI). apply Permutation_sym in PI.
          apply (Permutation_NoDup PI) in NDr. inversion NDr; auto.
        - destruct RE as (-> & _); auto. }
      assert (Hi3 : nth_error (upd a2 i n3) i = Some n3) by (apply nth_error_upd_eq; auto).
      assert (R3 : rep (upd a2 i n3) (nright n3) (fst (rem r k))) by (apply rep_upd; auto).
      assert (Rl3 : rep (upd a2 i n3) (nleft n3) l).
      { apply rep_upd; auto. eapply rep_same; [exact S2| |exact Hl]. intros y Hy Hz; eapply D; eauto. }
      assert (ND3 : NoDup (idx (T l i (nkey n3) (nval n3) (fst (rem r k))))).
      { apply nodup_T. repeat split; auto. intros y Hy Hz. apply (D y); auto. }
      assert (Fin : exists a5 o5,
        (let* a0 := match snd (rem r k) with Some _ => refresh (upd a2 i n3) i | None => Ok (upd a2 i n3) end in
         let* (a1, r') := rebalance a0 (Some i) in Ok (a1, r', snd (rem r k))) = Ok (a5, o5, snd (rem r k)) /\
        rep a5 o5 (bal l i (nkey n3) (nval n3) (fst (rem r k))) /\
        same_except (fun x => In x (idx (T l i (nkey n3) (nval n3) (fst (rem r k))))) (upd a2 i n3) a5).
      { destruct (snd (rem r k)) eqn:Sn.
        - destruct (finish_rep (upd a2 i n3) i n3 l (fst (rem r k)) Hi3 Rl3 R3 ND3)
            as (a4 & a5 & o5 & E4 & E5 & R5 & S5).
          rewrite E4; cbn [bind]. rewrite E5; cbn [bind]. eauto 6.
        - destruct RE as (RE & _). cbn [bind].
          destruct (rebalance_rep (upd a2 i n3) i n3 l (fst (rem r k)) Hi3 Rl3 R3)
            as (a5 & o5 & E5 & R5 & S5); auto.
          + rewrite RE. exact Hw.
          + rewrite RE. exact Hh.
          + rewrite E5; cbn [bind]. eauto 6. }
      destruct Fin as (a5 & o5 & E5 & R5 & S5). rewrite E5.
      destruct (rem r k) as [r' p]. cbn [fst snd] in *.
      eexists _, _. split; [reflexivity|]. split.
      * change (nkey n3) with (nkey n) in R5. change (nval n3) with (nval n) in R5.
        rewrite Hk, Hv in R5. exact R5.
      * eapply same_except_trans; [exact S2| | intros y Hy; rewrite idx_T, in_app_iff; simpl; auto | intros y Hy; exact Hy].
        eapply same_except_trans; [apply (same_except_upd (fun y => y = i)); auto|exact S5| |].
        -- intros y ->; rewrite idx_T, in_app_iff; simpl; auto.
        -- intros y Hy. rewrite idx_T, in_app_iff in *. simpl in *. destruct Hy as [Hy|[Hy|Hy]]; auto.
Qed.

(* ---- expunge ---- *)
Definition dec (p i : nat) : nat := if (p <? i)%nat then (i - 1)%nat else i.

Fixpoint remap (p : nat) (t : tr) : tr :=
  match t with
  | E => E
  | T l i k v r => T (remap p l) (dec p i) k v (remap p r)
  end.

Lemma remap_size p (t : tr) : size (remap p t) = size t.
Proof. induction t; simpl; congruence. Qed.
Lemma remap_ht p (t : tr) : ht (remap p t) = ht t.
Proof. induction t; simpl; congruence. Qed.
Lemma remap_avl p (t : tr) : avl t -> avl (remap p t).
Proof. induction t; simpl; auto. rewrite !remap_ht; tauto. Qed.
Lemma remap_elems p (t : tr) : elems (remap p t) = map (fun e => (dec p (fst e), snd e)) (elems t).
Proof. induction t; simpl; auto. rewrite map_app; simpl. congruence. Qed.
Lemma remap_idx p (t : tr) : idx (remap p t) = map (dec p) (idx t).
Proof. unfold idx; rewrite remap_elems, !map_map; reflexivity. Qed.

Lemma nth_error_delete {A} (a : list A) p i :
  (p < length a)%nat -> i <> p ->
  nth_error (firstn p a ++ skipn (S p) a) (dec p i) = nth_error a i.
Proof.
  intros Lp Hip. unfold dec.
  assert (Lf : length (firstn p a) = p) by (rewrite firstn_length; lia).
  destruct (Nat.ltb_spec p i).
  - rewrite nth_error_app2 by lia. rewrite Lf.
    rewrite <- (firstn_skipn (S p) a) at 2.
    assert (Lf' : length (firstn (S p) a) = S p) by (rewrite firstn_length; lia).
    rewrite nth_error_app2 by lia. rewrite Lf'. f_equal. lia.
  - rewrite nth_error_app1 by lia.
    rewrite <- (firstn_skipn p a) at 2. rewrite nth_error_app1 by lia. reflexivity.
Qed.

Lemma expunge_rep a o t p :
  rep a o t -> ~ In p (idx t) -> (p < length a)%nat ->
  exists a', expunge (Tree a o) p = Ok (Tree a' (relink p o)) /\
    rep a' (relink p o) (remap p t) /\ length a' = pred (length a).
Proof.
  intros Hr Hp Lp. unfold expunge; cbn [arr root].
  destruct (Nat.ltb_spec p (length a)); [|lia].
  eexists; split; [reflexivity|].
  split.
  2:{ rewrite map_length, app_length, firstn_length. rewrite skipn_length. lia. }
  set (a' := map _ _).
  revert o Hr Hp. induction t as [|l IHl i k v r IHr]; intros o Hr Hp.
  - simpl in *; subst; reflexivity.
  - destruct Hr as (-> & n & Hn & Hk & Hv & Hw & Hh & Hl & Hr).
    rewrite idx_T, in_app_iff in Hp; simpl in Hp.
    simpl. split; auto.
    exists (set_right (set_left n (relink p (nleft n))) (relink p (nright n))).
    rewrite !remap_size, !remap_ht. repeat split; auto.
    + unfold a'. rewrite nth_error_map. fold (dec p i).
      rewrite nth_error_delete by (auto; intros ->; tauto). rewrite Hn. reflexivity.
    + apply IHl; auto.
    + apply IHr; auto.
Qed.

(* ---- the representation invariant of the whole tree ---- *)
Definition inv (st : tree_state K V) (t : tr) : Prop :=
  rep (arr st) (root st) t /\
  Permutation (idx t) (seq 0 (length (arr st))) /\
  avl t /\ sorted t.

Lemma inv_nodup st t : inv st t -> NoDup (idx t).
Proof.
  intros (_ & P & _). eapply Permutation_NoDup; [apply Permutation_sym, P|apply seq_NoDup].
Qed.

Lemma inv_size st t : inv st t -> size t = Z.of_nat (length (arr st)).
Proof.
  intros (_ & P & _). rewrite size_elems. f_equal.
  rewrite <- (seq_length (length (arr st)) 0), <- (Permutation_length P). unfold idx.
  rewrite map_length; auto.
Qed.

Lemma sorted_of_snd (xs ys : list (nat * (K * V))) :
  map snd xs = map snd ys -> StronglySorted klt xs -> StronglySorted klt ys.
Proof.
  revert ys; induction xs; destruct ys; simpl; try discriminate; auto.
  intros H S. injection H as H1 H2. rewrite ss_cons in *. destruct S as [S1 S2].
  split; [auto|]. intros y Hy. unfold klt in *. rewrite <- H1.
  apply (in_map snd) in Hy. rewrite <- H2 in Hy. apply in_map_iff in Hy.
  destruct Hy as (z & Ez & Hz). rewrite <- Ez. apply S2; auto.
Qed.

Lemma dec_perm p n l : (p < n)%nat ->
  Permutation (p :: l) (seq 0 n) -> Permutation (map (dec p) l) (seq 0 (pred n)).
Proof.
  intros Hp P.
  assert (P' : Permutation l (seq 0 p ++ seq (S p) (n - S p))).
  { apply (Permutation_cons_inv (a := p)). rewrite P.
    replace n with (p + S (n - S p))%nat at 1 by lia.
    rewrite seq_app. simpl. symmetry. apply Permutation_middle. }
  rewrite P'. rewrite map_app.
  replace (pred n) with (p + (n - S p))%nat by lia. rewrite seq_app. simpl.
  apply Permutation_app.
  - erewrite map_ext_in; [rewrite map_id; reflexivity|].
    intros x Hx. apply in_seq in Hx. unfold dec. destruct (Nat.ltb_spec p x); lia.
  - replace (seq p (n - S p)) with (map pred (seq (S p) (n - S p))).
    + erewrite map_ext_in; [reflexivity|].
      intros x Hx. apply in_seq in Hx. unfold dec. destruct (Nat.ltb_spec p x); lia.
    + rewrite <- seq_shift, map_map. simpl. apply map_id.
Qed.

Lemma remove_key_inv st t k :
  inv st t ->
  exists st', remove_key kcmp true st k = Ok st' /\
    inv st' (match snd (rem t k) with
             | Some p => remap p (fst (rem t k))
             | None => fst (rem t k) end).
Proof.
  intros I. pose proof (inv_nodup _ _ I) as ND. pose proof (inv_size _ _ I) as Sz.
  destruct I as (R & P & A & S).
  pose proof (rem_avl t k A) as (A' & _).
  pose proof (rem_elems t k S A) as RE.
  destruct (remove_rep t (Datatypes.S (Datatypes.S (length (arr st)))) (arr st) (root st) k R ND S A)
    as (a' & o' & E1 & R1 & S1).
  { pose proof (ht_le_size t). lia. }
  unfold remove_key. rewrite E1; cbn [bind].
  destruct (snd (rem t k)) as [p|].
  - destruct RE as ((xs & i & kv & ys & E2 & C & M & _) & PI).
    assert (Hp : (p < length (arr st))%nat).
    { assert (Hin : In p (idx t)) by (eapply Permutation_in; [exact PI|simpl; auto]).
      eapply rep_bound; eauto. }
    assert (Np : ~ In p (idx (fst (rem t k)))).
    { apply (Permutation_NoDup (Permutation_sym PI)) in ND. inversion ND; auto. }
    destruct (expunge_rep a' o' (fst (rem t k)) p R1 Np) as (a2 & E3 & R3 & L3).
    { rewrite (proj1 S1); auto. }
    exists (Tree a2 (relink p o')). split; auto.
    split; [exact R3|]. cbn [arr root]. split; [|split].
    + rewrite remap_idx, L3, (proj1 S1). apply dec_perm; auto.
      rewrite PI; auto.
    + apply remap_avl; auto.
    + unfold sorted. apply (sorted_of_snd (xs ++ ys)).
      * rewrite remap_elems, map_map. simpl. rewrite <- M. reflexivity.
      * unfold sorted in S. rewrite E2 in S. rewrite ss_app in *.
        destruct S as (Sx & Sy & Sxy). rewrite ss_cons in Sy. repeat split; try tauto.
        intros; apply Sxy; simpl; auto.
  - destruct RE as (E2 & _). exists (Tree a' o'). split; auto.
    rewrite E2 in *. split; [exact R1|]. cbn [arr root]. rewrite (proj1 S1). auto.
Qed.

End AvlRemove.
