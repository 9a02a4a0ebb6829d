(* Proofs about SortModel. *)
From Coq Require Import List ZArith Lia Bool Arith Permutation.
From Verif Require Import Base SortModel.
Import ListNotations.
Local Open Scope nat_scope.

(* ---- swapping ---- *)
Section Swap.
Context {V : Type}.

Lemma upd_split (v : list V) a x y : nth_error v a = Some x ->
  exists v1 v2, v = v1 ++ x :: v2 /\ upd v a y = v1 ++ y :: v2 /\ length v1 = a.
Proof.
  revert a. induction v as [|z v IH]; intros [|a] H; simpl in H; try discriminate.
  - injection H as ->. exists [], v. auto.
  - destruct (IH _ H) as (v1 & v2 & -> & E & L). exists (z :: v1), v2.
    simpl. rewrite E, L. auto.
Qed.

Lemma Permutation_upd (v : list V) a x y : nth_error v a = Some x ->
  Permutation (y :: v) (x :: upd v a y).
Proof.
  intros H. destruct (upd_split v a x y H) as (v1 & v2 & -> & -> & _).
  transitivity (y :: x :: v1 ++ v2).
  - constructor. symmetry. apply Permutation_middle.
  - transitivity (x :: y :: v1 ++ v2); [constructor|]. constructor. apply Permutation_middle.
Qed.

Definition swapped (v : list V) (a b : nat) (x y : V) : list V := upd (upd v a y) b x.

Lemma swapped_perm v a b x y : nth_error v a = Some x -> nth_error v b = Some y ->
  Permutation v (swapped v a b x y).
Proof.
  intros Ha Hb. unfold swapped. apply (Permutation_cons_inv (a := y)).
  apply (Permutation_trans (l' := x :: upd v a y)).
  - apply Permutation_upd; auto.
  - apply Permutation_upd. destruct (Nat.eq_dec a b) as [<-|N].
    + rewrite Ha in Hb. injection Hb as ->. apply nth_error_upd_eq.
      apply nth_error_lt in Ha; auto.
    + rewrite nth_error_upd_ne; auto.
Qed.

Lemma swapped_nth v a b x y i : nth_error v a = Some x -> nth_error v b = Some y ->
  nth_error (swapped v a b x y) i =
    if i =? b then Some x else if i =? a then Some y else nth_error v i.
Proof.
  intros Ha Hb. pose proof (nth_error_lt _ _ _ Ha). pose proof (nth_error_lt _ _ _ Hb).
  unfold swapped. rewrite !nth_error_upd, length_upd.
  destruct (Nat.ltb_spec b (length v)); [|lia]. destruct (Nat.ltb_spec a (length v)); [|lia].
  rewrite !andb_true_r. rewrite (Nat.eqb_sym b i), (Nat.eqb_sym a i). auto.
Qed.

Lemma swap_ok v a b x y : nth_error v a = Some x -> nth_error v b = Some y ->
  swap v a b = Ok (swapped v a b x y).
Proof.
  intros Ha Hb. pose proof (nth_error_lt _ _ _ Ha). pose proof (nth_error_lt _ _ _ Hb).
  unfold swap, aget. rewrite Ha, Hb; cbn [bind]. rewrite aset_ok by auto; cbn [bind].
  rewrite aset_ok by (rewrite length_upd; auto). reflexivity.
Qed.

(* Rearrangement of the elements in [l,r). *)
Definition rearr (l r : nat) (v v' : list V) : Prop :=
  Permutation v v' /\ forall x, x < l \/ r <= x -> nth_error v' x = nth_error v x.

Lemma rearr_refl l r v : rearr l r v v.
Proof. split; auto. Qed.
Lemma rearr_trans l r v1 v2 v3 : rearr l r v1 v2 -> rearr l r v2 v3 -> rearr l r v1 v3.
Proof.
  intros [P1 O1] [P2 O2]. split.
  - eapply Permutation_trans; eauto.
  - intros x Hx. rewrite O2, O1; auto.
Qed.
Lemma rearr_weaken l r l' r' v v' : l' <= l -> r <= r' -> rearr l r v v' -> rearr l' r' v v'.
Proof. intros H1 H2 [P O]. split; auto. intros x Hx. apply O. lia. Qed.
Lemma rearr_length l r v v' : rearr l r v v' -> length v' = length v.
Proof. intros [P _]. symmetry. apply Permutation_length; auto. Qed.

Lemma nth_error_ext' (l1 l2 : list V) : (forall i, nth_error l1 i = nth_error l2 i) -> l1 = l2.
Proof.
  revert l2. induction l1 as [|x l1 IH]; intros [|y l2] H; auto.
  - specialize (H 0); discriminate.
  - specialize (H 0); discriminate.
  - pose proof (H 0) as H0. simpl in H0. injection H0 as ->. f_equal. apply IH.
    intros i. apply (H (S i)).
Qed.

Lemma nth_error_skipn (l : list V) n i : nth_error (skipn n l) i = nth_error l (n + i).
Proof. revert l; induction n; intros [|x l]; simpl; auto. destruct i; auto. Qed.
Lemma nth_error_firstn (l : list V) n i : i < n -> nth_error (firstn n l) i = nth_error l i.
Proof. revert n i; induction l; intros [|n] [|i] H; simpl; auto; try lia. apply IHl; lia. Qed.

(* Every element of the rearranged segment comes from the segment. *)
Lemma rearr_from l r v v' x a : l <= r <= length v -> rearr l r v v' -> l <= x < r ->
  nth_error v' x = Some a -> exists y, l <= y < r /\ nth_error v y = Some a.
Proof.
  intros Hr R Hx Ha. pose proof (rearr_length _ _ _ _ R) as L. destruct R as [P O].
  assert (F : firstn l v' = firstn l v).
  { apply nth_error_ext'. intros i. destruct (Nat.lt_ge_cases i l).
    - rewrite !nth_error_firstn by auto. apply O; lia.
    - transitivity (@None V); [|symmetry]; apply nth_error_None; rewrite firstn_length; lia. }
  assert (K : skipn r v' = skipn r v).
  { apply nth_error_ext'. intros i. rewrite !nth_error_skipn. apply O; lia. }
  assert (D : forall w : list V, length w = length v -> w = firstn l w ++ firstn (r - l) (skipn l w) ++ skipn r w).
  { intros w Lw. rewrite <- (firstn_skipn l w) at 1. f_equal.
    rewrite <- (firstn_skipn (r - l) (skipn l w)) at 1. f_equal.
    apply nth_error_ext'. intros i. rewrite !nth_error_skipn. f_equal. lia. }
  rewrite (D v eq_refl) in P. rewrite (D v' L) in P. rewrite F, K in P.
  apply Permutation_app_inv_l, Permutation_app_inv_r in P.
  assert (I : In a (firstn (r - l) (skipn l v'))).
  { apply (nth_error_In _ (x - l)). rewrite nth_error_firstn by lia.
    rewrite nth_error_skipn. rewrite <- Ha. f_equal. lia. }
  apply (Permutation_in _ (Permutation_sym P)) in I. apply In_nth_error in I.
  destruct I as (i & Hi).
  assert (i < r - l).
  { apply nth_error_lt in Hi. rewrite firstn_length in Hi. lia. }
  rewrite nth_error_firstn, nth_error_skipn in Hi by auto. exists (l + i). split; [lia|auto].
Qed.

Lemma rearr_swapped l r v a b x y : nth_error v a = Some x -> nth_error v b = Some y ->
  l <= a < r -> l <= b < r -> rearr l r v (swapped v a b x y).
Proof.
  intros Ha Hb H1 H2. split; [apply swapped_perm; auto|].
  intros i Hi. rewrite swapped_nth by auto.
  destruct (Nat.eqb_spec i b); [lia|]. destruct (Nat.eqb_spec i a); [lia|]. auto.
Qed.

Lemma nth_some (v : list V) i : i < length v -> exists x, nth_error v i = Some x.
Proof. intros H. destruct (nth_error v i) eqn:E; eauto. apply nth_error_None in E. lia. Qed.
End Swap.

Section Sort.
Context {V : Type}.
Variable cmp : V -> V -> comparison.
Hypothesis TO : total_preorder cmp.

Definition le (x y : V) : Prop := cmp x y <> Gt.
Lemma le_refl x : le x x.
Proof. unfold le. rewrite cmp_refl by auto. discriminate. Qed.
Lemma le_trans x y z : le x y -> le y z -> le x z.
Proof.
  unfold le. intros H1 H2 H3.
  destruct (cmp x y) eqn:E1; [| |congruence].
  - rewrite (cmp_cong _ TO x y z E1) in H3. auto.
  - destruct (cmp y z) eqn:E2; [| |congruence].
    + rewrite (cmp_cong_r _ y z x TO E2) in E1. congruence.
    + rewrite (cmp_trans _ TO x y z) in H3 by auto. congruence.
Qed.
Lemma gt_le x y : cmp x y = Gt -> le y x.
Proof. intros H. unfold le. rewrite (cmp_gt_lt _ x y TO H). discriminate. Qed.
Lemma ngt_le x y : (match cmp x y with Gt => true | _ => false end) = false -> le x y.
Proof. unfold le. destruct (cmp x y); congruence. Qed.
Lemma gt_gt x y : (match cmp x y with Gt => true | _ => false end) = true -> cmp x y = Gt.
Proof. destruct (cmp x y); congruence. Qed.

(* value[a] <= value[b] *)
Definition le_at (v : list V) (a b : nat) : Prop :=
  forall x y, nth_error v a = Some x -> nth_error v b = Some y -> le x y.
Definition sorted_on (v : list V) (l r : nat) : Prop :=
  forall a b, l <= a -> a < b -> b < r -> le_at v a b.

Lemma le_at_eq v v' a b a' b' : le_at v a b ->
  nth_error v' a' = nth_error v a -> nth_error v' b' = nth_error v b -> le_at v' a' b'.
Proof. intros H E1 E2 x y Hx Hy. rewrite E1 in Hx; rewrite E2 in Hy. auto. Qed.

Lemma gt_at_ok v a b x y : nth_error v a = Some x -> nth_error v b = Some y ->
  gt_at cmp v a b = Ok (match cmp x y with Gt => true | _ => false end).
Proof. intros Ha Hb. unfold gt_at, aget. rewrite Ha, Hb. reflexivity. Qed.

Lemma cswap_ok v a b : a < length v -> b < length v ->
  exists v', cswap cmp v a b = Ok v' /\ exists x y, nth_error v a = Some x /\ nth_error v b = Some y /\
    ((v' = v /\ le x y) \/ (v' = swapped v a b x y /\ cmp x y = Gt)).
Proof.
  intros Ha Hb. destruct (nth_some v a Ha) as (x & Hx). destruct (nth_some v b Hb) as (y & Hy).
  unfold cswap. rewrite (gt_at_ok v a b x y) by auto; cbn [bind].
  destruct (cmp x y) eqn:E; cbn [bind].
  - exists v. split; auto. exists x, y. repeat split; auto. left. split; auto. unfold le; congruence.
  - exists v. split; auto. exists x, y. repeat split; auto. left. split; auto. unfold le; congruence.
  - rewrite (swap_ok v a b x y) by auto. eexists; split; [reflexivity|]. exists x, y. auto.
Qed.

(* ---- median of three ---- *)
Lemma median v l p r : l <= p < r -> r <= length v -> p = l + (r - 1 - l) / 2 ->
  exists v', (let* v := cswap cmp v l p in let* v := cswap cmp v l (r - 1) in cswap cmp v p (r - 1)) = Ok v' /\
    rearr l r v v' /\ le_at v' l p /\ le_at v' p (r - 1).
Proof.
  intros Hp Hr Ep.
  assert (Hd : (r - 1 - l) / 2 <= r - 1 - l) by (apply Nat.div_le_upper_bound; lia).
  assert (Pr : p <= r - 1) by lia.
  destruct (cswap_ok v l p) as (v1 & -> & x0 & y0 & Hx0 & Hy0 & C1); try lia. cbn [bind].
  assert (R1 : rearr l r v v1).
  { destruct C1 as [[-> _]|[-> _]]; [apply rearr_refl|apply rearr_swapped; auto; lia]. }
  pose proof (rearr_length _ _ _ _ R1) as L1.
  assert (A1 : le_at v1 l p).
  { intros x y Hx Hy. destruct C1 as [[-> H]|[-> H]].
    - rewrite Hx0 in Hx; rewrite Hy0 in Hy. congruence.
    - rewrite swapped_nth in Hx, Hy by auto. rewrite Nat.eqb_refl in Hy. injection Hy as <-.
      destruct (Nat.eqb_spec l p).
      + injection Hx as <-. apply le_refl.
      + rewrite Nat.eqb_refl in Hx. injection Hx as <-. apply gt_le; auto. }
  clear C1 Hx0 Hy0 x0 y0.
  destruct (cswap_ok v1 l (r - 1)) as (v2 & -> & x0 & y0 & Hx0 & Hy0 & C2); try lia. cbn [bind].
  assert (R2 : rearr l r v1 v2).
  { destruct C2 as [[-> _]|[-> _]]; [apply rearr_refl|apply rearr_swapped; auto; lia]. }
  pose proof (rearr_length _ _ _ _ R2) as L2.
  assert (A2 : le_at v2 l p /\ le_at v2 l (r - 1)).
  { destruct C2 as [[-> H]|[-> H]].
    - split; auto. intros x y Hx Hy. rewrite Hx0 in Hx; rewrite Hy0 in Hy. congruence.
    - assert (Q : le_at (swapped v1 l (r - 1) x0 y0) l (r - 1)).
      { intros x y Hx Hy. rewrite swapped_nth in Hx, Hy by auto.
        rewrite Nat.eqb_refl in Hy. injection Hy as <-.
        destruct (Nat.eqb_spec l (r - 1)).
        - injection Hx as <-. apply le_refl.
        - rewrite Nat.eqb_refl in Hx. injection Hx as <-. apply gt_le; auto. }
      split; auto. intros x y Hx Hy.
      destruct (Nat.eq_dec p (r - 1)) as [E|N]; [subst p; apply Q; auto; congruence|].
      destruct (Nat.eq_dec p l) as [E|N2].
      { rewrite E in Hy. replace y with x by congruence. apply le_refl. }
      rewrite swapped_nth in Hx, Hy by auto.
      destruct (Nat.eqb_spec p (r - 1)); [lia|]. destruct (Nat.eqb_spec p l); [lia|].
      destruct (Nat.eqb_spec l (r - 1)); [lia|]. rewrite Nat.eqb_refl in Hx. injection Hx as <-.
      apply (le_trans y0 x0 y); [apply gt_le; auto|]. apply (A1 x0 y); auto. }
  clear A1 C2 Hx0 Hy0 x0 y0. destruct A2 as [A2 B2].
  destruct (cswap_ok v2 p (r - 1)) as (v3 & -> & x0 & y0 & Hx0 & Hy0 & C3); try lia.
  assert (R3 : rearr l r v2 v3).
  { destruct C3 as [[-> _]|[-> _]]; [apply rearr_refl|apply rearr_swapped; auto; lia]. }
  exists v3. split; auto. split.
  { eapply rearr_trans; eauto. eapply rearr_trans; eauto. }
  destruct C3 as [[-> H]|[-> H]].
  - split; auto. intros x y Hx Hy. rewrite Hx0 in Hx; rewrite Hy0 in Hy. congruence.
  - assert (Nl : p <> l).
    { intros E. subst l. apply (B2 x0 y0); auto. }
    assert (Np : p <> r - 1).
    { intros E. rewrite <- E in Hy0. replace y0 with x0 in H by congruence.
      rewrite cmp_refl in H by auto. discriminate. }
    split; intros x y Hx Hy; rewrite swapped_nth in Hx, Hy by auto.
    + destruct (Nat.eqb_spec l (r - 1)); [lia|]. destruct (Nat.eqb_spec l p); [lia|].
      destruct (Nat.eqb_spec p (r - 1)); [lia|]. rewrite Nat.eqb_refl in Hy. injection Hy as <-.
      apply (B2 x y0); auto.
    + rewrite Nat.eqb_refl in Hy. injection Hy as <-.
      destruct (Nat.eqb_spec p (r - 1)); [lia|]. rewrite Nat.eqb_refl in Hx. injection Hx as <-.
      apply gt_le; auto.
Qed.

(* ---- partition ---- *)
Lemma scan_up_ok v p : p < length v -> forall fuel i, i < p -> p - i <= fuel ->
  exists i', scan_up cmp fuel v i p = Ok i' /\ i < i' <= p /\
    (forall x, i < x < i' -> le_at v x p) /\
    (i' < p -> exists a b, nth_error v i' = Some a /\ nth_error v p = Some b /\ cmp a b = Gt).
Proof.
  intros Hp. induction fuel as [|fuel IH]; intros i Hi Hf; [lia|]. cbn [scan_up].
  destruct (Nat.ltb_spec (S i) p).
  - destruct (nth_some v (S i)) as (a & Ha); [lia|]. destruct (nth_some v p Hp) as (b & Hb).
    rewrite (gt_at_ok v (S i) p a b) by auto; cbn [bind]. destruct (cmp a b) eqn:E.
    1,2: destruct (IH (S i)) as (i' & E' & H1 & H2 & H3); try lia;
      exists i'; split; auto; split; [lia|]; split; auto;
      intros x Hx; destruct (Nat.eq_dec x (S i)) as [->|];
        [intros a' b' Ha' Hb'; rewrite Ha in Ha'; rewrite Hb in Hb'; unfold le; congruence|apply H2; lia].
    exists (S i). split; auto. split; [lia|]. split; [intros; lia|]. eauto.
  - exists (S i). split; auto. split; [lia|]. split; [intros; lia|]. intros; lia.
Qed.

Lemma scan_down_ok v p : forall fuel j, p < j -> j <= length v -> j - p <= fuel ->
  exists j', scan_down cmp fuel v p j = Ok j' /\ p <= j' < j /\
    (forall x, j' < x < j -> le_at v p x) /\
    (p < j' -> exists a b, nth_error v p = Some a /\ nth_error v j' = Some b /\ cmp a b = Gt).
Proof.
  induction fuel as [|fuel IH]; intros j Hj Hl Hf; [lia|]. cbn [scan_down].
  destruct (Nat.ltb_spec p (j - 1)).
  - destruct (nth_some v p) as (a & Ha); [lia|]. destruct (nth_some v (j - 1)) as (b & Hb); [lia|].
    rewrite (gt_at_ok v p (j - 1) a b) by auto; cbn [bind]. destruct (cmp a b) eqn:E.
    1,2: destruct (IH (j - 1)) as (j' & E' & H1 & H2 & H3); try lia;
      exists j'; split; auto; split; [lia|]; split; auto;
      intros x Hx; destruct (Nat.eq_dec x (j - 1)) as [->|];
        [intros a' b' Ha' Hb'; rewrite Ha in Ha'; rewrite Hb in Hb'; unfold le; congruence|apply H2; lia].
    exists (j - 1). split; auto. split; [lia|]. split; [intros; lia|]. eauto.
  - exists (j - 1). split; auto. split; [lia|]. split; [intros; lia|]. intros; lia.
Qed.

(* Around the pivot: everything before is not larger, everything after not smaller. *)
Definition split_at (v : list V) (l r p : nat) : Prop :=
  (forall x, l <= x < p -> le_at v x p) /\ (forall x, p < x < r -> le_at v p x).

Lemma partition_ok l r : forall fuel v i j p k,
  l <= i < p -> p < j < r -> r <= length v -> j - i <= fuel ->
  (forall x, l <= x <= i -> le_at v x p) -> (forall x, j <= x < r -> le_at v p x) ->
  exists v' p' k', partition cmp fuel v i j p k = Ok (v', p', k') /\
    rearr l r v v' /\ l < p' < r - 1 /\ split_at v' l r p'.
Proof.
  induction fuel as [|fuel IH]; intros v i j p k Hi Hj Hr Hf Hlo Hhi; [lia|].
  cbn [partition].
  destruct (scan_up_ok v p ltac:(lia) (S (length v)) i) as (i' & -> & Bi & Li & Gi); try lia. cbn [bind].
  destruct (scan_down_ok v p (S (length v)) j) as (j' & -> & Bj & Lj & Gj); try lia. cbn [bind].
  assert (Lo : forall x, l <= x < i' -> le_at v x p).
  { intros x Hx. destruct (Nat.le_gt_cases x i); [apply Hlo; lia|apply Li; lia]. }
  assert (Hh : forall x, j' < x < r -> le_at v p x).
  { intros x Hx. destruct (Nat.le_gt_cases j x); [apply Hhi; lia|apply Lj; lia]. }
  destruct (Nat.leb_spec j' i').
  - assert (i' = p) by lia. assert (j' = p) by lia. subst i' j'.
    exists v, p, k. split; auto. split; [apply rearr_refl|]. split; [lia|]. split; auto.
  - destruct (nth_some v i') as (a & Ha); [lia|]. destruct (nth_some v j') as (b & Hb); [lia|].
    destruct (nth_some v p) as (c & Hc); [lia|].
    rewrite (swap_ok v i' j' a b) by auto; cbn [bind].
    set (v1 := swapped v i' j' a b).
    assert (R1 : rearr l r v v1) by (apply rearr_swapped; auto; lia).
    pose proof (rearr_length _ _ _ _ R1) as L1.
    assert (N : forall x, nth_error v1 x = if x =? j' then Some a else if x =? i' then Some b else nth_error v x)
      by (intros; apply swapped_nth; auto).
    clearbody v1.
    destruct (Nat.eqb_spec p i'); [|destruct (Nat.eqb_spec p j')].
    + subst i'. assert (a = c) by congruence. subst a. clear Ha.
      assert (Gb : cmp c b = Gt).
      { destruct Gj as (a' & b' & H1 & H2 & H3); [lia|]. congruence. }
      destruct (IH v1 p (j' + 1) j' (k + 1)) as (v' & p' & k' & E & R & B & S'); try lia.
      * intros x Hx y z Hy Hz. rewrite N in Hy, Hz.
        rewrite Nat.eqb_refl in Hz. injection Hz as <-.
        destruct (Nat.eqb_spec x j'); [lia|]. destruct (Nat.eqb_spec x p).
        { injection Hy as <-. apply gt_le; auto. }
        apply (Lo x ltac:(lia) y c); auto.
      * intros x Hx y z Hy Hz. rewrite N in Hy, Hz.
        rewrite Nat.eqb_refl in Hy. injection Hy as <-.
        destruct (Nat.eqb_spec x j'); [lia|]. destruct (Nat.eqb_spec x p); [lia|].
        apply (Hh x ltac:(lia) c z); auto.
      * exists v', p', k'. split; auto. split; auto. eapply rearr_trans; eauto.
    + subst j'. assert (b = c) by congruence. subst b. clear Hb.
      assert (Ga : cmp a c = Gt).
      { destruct Gi as (a' & b' & H1 & H2 & H3); [lia|]. congruence. }
      destruct (IH v1 (i' - 1) p i' (k + 1)) as (v' & p' & k' & E & R & B & S'); try lia.
      * intros x Hx y z Hy Hz. rewrite N in Hy, Hz.
        destruct (Nat.eqb_spec i' p); [lia|]. rewrite Nat.eqb_refl in Hz. injection Hz as <-.
        destruct (Nat.eqb_spec x p); [lia|]. destruct (Nat.eqb_spec x i'); [lia|].
        apply (Lo x ltac:(lia) y c); auto.
      * intros x Hx y z Hy Hz. rewrite N in Hy, Hz.
        destruct (Nat.eqb_spec i' p); [lia|]. rewrite Nat.eqb_refl in Hy. injection Hy as <-.
        destruct (Nat.eqb_spec x p).
        { injection Hz as <-. apply gt_le; auto. }
        destruct (Nat.eqb_spec x i'); [lia|].
        apply (Hh x ltac:(lia) c z); auto.
      * exists v', p', k'. split; auto. split; auto. eapply rearr_trans; eauto.
    + assert (Ga : cmp a c = Gt).
      { destruct Gi as (a' & b' & H1 & H2 & H3); [lia|]. congruence. }
      assert (Gb : cmp c b = Gt).
      { destruct Gj as (a' & b' & H1 & H2 & H3); [lia|]. congruence. }
      destruct (IH v1 i' j' p (k + 1)) as (v' & p' & k' & E & R & B & S'); try lia.
      * intros x Hx y z Hy Hz. rewrite N in Hy, Hz.
        destruct (Nat.eqb_spec p j'); [lia|]. destruct (Nat.eqb_spec p i'); [lia|].
        replace z with c by congruence.
        destruct (Nat.eqb_spec x j'); [lia|]. destruct (Nat.eqb_spec x i').
        { injection Hy as <-. apply gt_le; auto. }
        apply (Lo x ltac:(lia) y c); auto.
      * intros x Hx y z Hy Hz. rewrite N in Hy, Hz.
        destruct (Nat.eqb_spec p j'); [lia|]. destruct (Nat.eqb_spec p i'); [lia|].
        replace y with c by congruence.
        destruct (Nat.eqb_spec x j').
        { injection Hz as <-. apply gt_le; auto. }
        destruct (Nat.eqb_spec x i'); [lia|].
        apply (Hh x ltac:(lia) c z); auto.
      * exists v', p', k'. split; auto. split; auto. eapply rearr_trans; eauto.
Qed.

(* ---- insertion sort ---- *)
Lemma sink_ok l i : forall fuel v j, l <= j <= i -> i < length v -> j - l < fuel ->
  (forall a b, l <= a -> a < b -> b <= i -> b <> j -> le_at v a b) ->
  exists v', sink cmp fuel v l j = Ok v' /\ rearr l (i + 1) v v' /\ sorted_on v' l (i + 1).
Proof.
  induction fuel as [|fuel IH]; intros v j Hj Hi Hf Hs; [lia|]. cbn [sink].
  destruct (Nat.ltb_spec l j).
  - destruct (nth_some v (j - 1)) as (x & Hx); [lia|]. destruct (nth_some v j) as (y & Hy); [lia|].
    rewrite (gt_at_ok v (j - 1) j x y) by auto; cbn [bind].
    assert (Dn : le x y -> sorted_on v l (i + 1)).
    { intros G a b Ha Hab Hb. destruct (Nat.eq_dec b j) as [->|]; [|apply Hs; lia].
      intros p q Hp Hq. replace q with y by congruence. destruct (Nat.eq_dec a (j - 1)) as [->|].
      - replace p with x by congruence. auto.
      - apply (le_trans p x y); auto. apply (Hs a (j - 1)); auto; lia. }
    destruct (cmp x y) eqn:E.
    + exists v. split; auto. split; [apply rearr_refl|]. apply Dn. unfold le; congruence.
    + exists v. split; auto. split; [apply rearr_refl|]. apply Dn. unfold le; congruence.
    + rewrite (swap_ok v (j - 1) j x y) by auto; cbn [bind].
      set (v1 := swapped v (j - 1) j x y).
      assert (R1 : rearr l (i + 1) v v1) by (apply rearr_swapped; auto; lia).
      pose proof (rearr_length _ _ _ _ R1) as L1.
      assert (N : forall z, nth_error v1 z = if z =? j then Some x else if z =? j - 1 then Some y else nth_error v z)
        by (intros; apply swapped_nth; auto).
      destruct (IH v1 (j - 1)) as (v' & E' & R & S'); try lia.
      * intros a b Ha Hab Hb Nb p q Hp Hq. rewrite N in Hp, Hq.
        destruct (Nat.eqb_spec b (j - 1)); [lia|].
        destruct (Nat.eqb_spec b j).
        { injection Hq as <-. destruct (Nat.eqb_spec a j); [lia|].
          destruct (Nat.eqb_spec a (j - 1)).
          - injection Hp as <-. apply gt_le; auto.
          - apply (Hs a (j - 1)); auto; lia. }
        destruct (Nat.eqb_spec a j).
        { injection Hp as <-. apply (Hs (j - 1) b); auto; lia. }
        destruct (Nat.eqb_spec a (j - 1)).
        { injection Hp as <-. apply (Hs j b); auto; lia. }
        apply (Hs a b); auto.
      * exists v'. split; auto. split; auto. eapply rearr_trans; eauto.
  - assert (j = l) by lia. subst j. exists v. split; auto. split; [apply rearr_refl|].
    intros a b Ha Hab Hb. apply Hs; lia.
Qed.

Lemma isort_loop_ok l r : forall fuel v i, l <= i -> r <= length v -> r - i <= fuel -> 0 < fuel ->
  (i < r -> sorted_on v l (i + 1)) -> i < r \/ r <= l ->
  exists v', isort_loop cmp fuel v l r i = Ok v' /\ rearr l r v v' /\ sorted_on v' l r.
Proof.
  induction fuel as [|fuel IH]; intros v i Hi Hr Hf Hf0 Hs Hlr; [lia|]. cbn [isort_loop].
  destruct (Nat.ltb_spec l r); cbn [andb].
  2:{ exists v. split; auto. split; [apply rearr_refl|]. intros a b; lia. }
  destruct (Nat.ltb_spec i (r - 1)).
  - destruct (sink_ok l (i + 1) (S (i + 1)) v (i + 1)) as (v1 & -> & R1 & S1); try lia.
    { intros a b Ha Hab Hb Nb. apply Hs; lia. }
    cbn [bind]. pose proof (rearr_length _ _ _ _ R1) as L1.
    destruct (IH v1 (i + 1)) as (v' & E & R & S'); try lia; auto.
    exists v'. split; auto. split; auto. eapply rearr_trans; eauto.
    eapply rearr_weaken; [| |exact R1]; lia.
  - exists v. split; auto. split; [apply rearr_refl|].
    intros a b Ha Hab Hb. apply Hs; lia.
Qed.

Lemma isort_ok v l r : r <= length v ->
  exists v', isort cmp v l r = Ok v' /\ rearr l r v v' /\ sorted_on v' l r.
Proof.
  intros Hr. unfold isort. apply isort_loop_ok; try lia. intros H a b; lia.
Qed.

(* ---- putting the halves together ---- *)
Lemma rearr_le_l l p v v' q : l <= p <= q -> q < length v -> rearr l p v v' ->
  (forall x, l <= x < p -> le_at v x q) -> forall x, l <= x < p -> le_at v' x q.
Proof.
  intros Hp Hq R H x Hx a b Ha Hb.
  destruct (rearr_from l p v v' x a) as (y & Hy & E); auto; try lia.
  destruct R as [_ O]. rewrite O in Hb by lia. apply (H y Hy a b); auto.
Qed.
Lemma rearr_le_r l r v v' q : q < l -> l <= r <= length v -> rearr l r v v' ->
  (forall x, l <= x < r -> le_at v q x) -> forall x, l <= x < r -> le_at v' q x.
Proof.
  intros Hp Hq R H x Hx a b Ha Hb.
  destruct (rearr_from l r v v' x b) as (y & Hy & E); auto; try lia.
  destruct R as [_ O]. rewrite O in Ha by lia. apply (H y Hy a b); auto.
Qed.

Lemma glue l r p v v1 v2 : l < p < r -> r <= length v -> split_at v l r p ->
  rearr l p v v1 -> sorted_on v1 l p -> rearr (p + 1) r v1 v2 -> sorted_on v2 (p + 1) r ->
  rearr l r v v2 /\ sorted_on v2 l r.
Proof.
  intros Hp Hr [Slo Shi] R1 S1 R2 S2.
  pose proof (rearr_length _ _ _ _ R1) as L1. pose proof (rearr_length _ _ _ _ R2) as L2.
  split.
  { eapply rearr_trans; [eapply rearr_weaken; [| |exact R1]; lia|eapply rearr_weaken; [| |exact R2]; lia]. }
  assert (A1 : forall x, l <= x < p -> le_at v1 x p).
  { apply (rearr_le_l l p v v1 p); auto; lia. }
  assert (B1 : forall x, p < x < r -> le_at v1 p x).
  { intros x Hx a b Ha Hb. destruct R1 as [_ O1]. rewrite O1 in Ha, Hb by lia.
    apply (Shi x Hx a b); auto. }
  assert (A2 : forall x, l <= x < p -> le_at v2 x p).
  { intros x Hx a b Ha Hb. destruct R2 as [_ O2]. rewrite O2 in Ha, Hb by lia.
    apply (A1 x Hx a b); auto. }
  assert (B2 : forall x, p + 1 <= x < r -> le_at v2 p x).
  { apply (rearr_le_r (p + 1) r v1 v2 p); auto; try lia. intros x Hx. apply B1; lia. }
  intros a b Ha Hab Hb. destruct (Nat.lt_trichotomy a p) as [H|[->|H]].
  - destruct (Nat.lt_trichotomy b p) as [H'|[->|H']].
    + destruct R2 as [_ O2]. eapply le_at_eq; [apply (S1 a b); lia| |]; apply O2; lia.
    + apply A2; lia.
    + destruct (nth_some v2 p) as (c & Hc); [lia|]. intros x y Hx Hy.
      apply (le_trans x c y); [apply (A2 a ltac:(lia) x c)|apply (B2 b ltac:(lia) c y)]; auto.
  - apply B2; lia.
  - apply S2; lia.
Qed.

Lemma qsort_ok : forall fuel v l r, r <= length v -> r - l < fuel ->
  exists v', qsort cmp fuel v l r = Ok v' /\ rearr l r v v' /\ sorted_on v' l r.
Proof.
  induction fuel as [|fuel IH]; intros v l r Hr Hf; [lia|]. cbn [qsort].
  destruct (Nat.leb_spec r l).
  { exists v. split; auto. split; [apply rearr_refl|]. intros a b; lia. }
  set (p := l + (r - 1 - l) / 2).
  assert (Hd : (r - 1 - l) / 2 <= r - 1 - l) by (apply Nat.div_le_upper_bound; lia).
  destruct (median v l p r) as (v1 & E1 & R1 & A & B); auto; try (unfold p; lia).
  pose proof (rearr_length _ _ _ _ R1) as L1.
  assert (E : forall T (f : list V -> outcome T),
    (let* v := cswap cmp v l p in let* v := cswap cmp v l (r - 1) in
     let* v := cswap cmp v p (r - 1) in f v) =
    let* v := (let* v := cswap cmp v l p in let* v := cswap cmp v l (r - 1) in cswap cmp v p (r - 1)) in f v).
  { intros T f. destruct (cswap cmp v l p); cbn [bind]; auto.
    destruct (cswap cmp a l (r - 1)); cbn [bind]; auto. }
  rewrite E, E1; cbn [bind]. clear E E1.
  destruct (Nat.leb_spec (r - 1 - l) 2).
  - exists v1. split; auto. split; auto. intros a b Ha Hab Hb x y Hx Hy.
    assert (M : (r - 1 - l) / 2 = 0 /\ r - 1 - l <= 1 \/ (r - 1 - l) / 2 = 1 /\ r - 1 - l = 2).
    { destruct (r - 1 - l) as [|[|[|n]]]; cbn in *; lia. }
    destruct M as [[M1 M2]|[M1 M2]].
    + assert (a = p) by (unfold p; lia). assert (b = r - 1) by lia. subst a b. apply B; auto.
    + destruct (nth_some v1 p) as (c & Hc); [unfold p; lia|].
      destruct (Nat.eq_dec a l) as [->|].
      * destruct (Nat.eq_dec b p) as [->|]; [apply A; auto|].
        assert (b = r - 1) by (unfold p in *; lia). subst b.
        apply (le_trans x c y); [apply A|apply B]; auto.
      * assert (a = p) by (unfold p in *; lia). assert (b = r - 1) by (unfold p in *; lia).
        subst a b. apply B; auto.
  - assert (Hp : 1 <= (r - 1 - l) / 2 < r - 1 - l).
    { split; [apply Nat.div_le_lower_bound; lia|apply Nat.div_lt; lia]. }
    destruct (partition_ok l r (S (length v1)) v1 l (r - 1) p 0) as (v2 & q & k & -> & R2 & Bq & Sq);
      try (unfold p; lia).
    { intros x Hx. assert (x = l) by lia. subst x. auto. }
    { intros x Hx. assert (x = r - 1) by lia. subst x. auto. }
    cbn [bind]. pose proof (rearr_length _ _ _ _ R2) as L2.
    assert (G : forall (f g : list V -> outcome (list V)),
      (forall v, length v = length v2 -> exists v', f v = Ok v' /\ rearr l q v v' /\ sorted_on v' l q) ->
      (forall v, length v = length v2 -> exists v', g v = Ok v' /\ rearr (q + 1) r v v' /\ sorted_on v' (q + 1) r) ->
      exists v', (let* v := f v2 in g v) = Ok v' /\ rearr l r v v' /\ sorted_on v' l r).
    { intros f g Hf' Hg. destruct (Hf' v2 eq_refl) as (v3 & -> & R3 & S3). cbn [bind].
      pose proof (rearr_length _ _ _ _ R3) as L3.
      destruct (Hg v3 L3) as (v4 & -> & R4 & S4). exists v4. split; auto.
      destruct (glue l r q v2 v3 v4) as [R5 S5]; auto; try lia.
      split; auto. eapply rearr_trans; [exact R1|]. eapply rearr_trans; eauto. }
    destruct (k =? 0);
      [apply (G (fun v => isort cmp v l q) (fun v => isort cmp v (q + 1) r))
      |apply (G (fun v => qsort cmp fuel v l q) (fun v => qsort cmp fuel v (q + 1) r))]; intros w Lw.
    + apply isort_ok; lia.
    + apply isort_ok; lia.
    + apply IH; lia.
    + apply IH; lia.
Qed.

(* In words of lists: sorted means every earlier element is not larger. *)
Lemma sort_ok v : exists v', sort cmp v = Ok v' /\ Permutation v v' /\ sorted_on v' 0 (length v').
Proof.
  unfold sort. destruct (qsort_ok (S (length v)) v 0 (length v)) as (v' & E & R & S'); try lia.
  exists v'. split; auto. rewrite (rearr_length _ _ _ _ R). split; auto. apply R.
Qed.

(* ---- binary search ---- *)
Lemma bsearch_ok v x : sorted_on v 0 (length v) -> forall fuel l r, l <= r <= length v -> r - l < fuel ->
  (forall i y, i < l -> nth_error v i = Some y -> cmp y x = Lt) ->
  (forall i y, r <= i -> nth_error v i = Some y -> cmp y x <> Lt) ->
  exists p, bsearch cmp fuel v x l r = Ok p /\ p <= length v /\
    (forall i y, i < p -> nth_error v i = Some y -> cmp y x = Lt) /\
    (forall i y, p <= i -> nth_error v i = Some y -> cmp y x <> Lt).
Proof.
  intros S. induction fuel as [|fuel IH]; intros l r Hr Hf Hlo Hhi; [lia|]. cbn [bsearch].
  destruct (Nat.ltb_spec l r).
  - assert (Hd : (r - l) / 2 < r - l) by (apply Nat.div_lt; lia).
    set (i := l + (r - l) / 2). destruct (nth_some v i) as (y & Hy); [unfold i; lia|].
    unfold aget. rewrite Hy; cbn [bind].
    assert (Hge : cmp y x <> Lt -> forall k z, i <= k -> nth_error v k = Some z -> cmp z x <> Lt).
    { intros Ny k z Hk Hz. destruct (Nat.eq_dec k i) as [->|]; [congruence|].
      pose proof (nth_error_lt _ _ _ Hz).
      pose proof (S i k ltac:(lia) ltac:(lia) ltac:(lia) y z Hy Hz) as L.
      intros C. apply (cmp_lt_gt _ _ _ TO) in C.
      assert (G : le x y). { unfold le. intros G. apply Ny. apply cmp_gt_lt; auto. }
      apply (le_trans x y z G L). auto. }
    destruct (cmp y x) eqn:E.
    + apply IH; try (unfold i; lia); auto. apply Hge. congruence.
    + apply IH; try (unfold i; lia); auto.
      intros k z Hk Hz. destruct (Nat.eq_dec k i) as [->|]; [congruence|].
      pose proof (S k i ltac:(lia) ltac:(lia) ltac:(unfold i; lia) z y Hz Hy) as L.
      destruct (cmp z x) eqn:G; auto; exfalso.
      * rewrite (cmp_cong_r cmp x z y TO (cmp_eq_sym _ _ _ TO G)) in E.
        apply L. apply cmp_lt_gt; auto.
      * apply (cmp_gt_lt _ _ _ TO) in G.
        pose proof (cmp_trans _ TO _ _ _ E G). apply L. apply cmp_lt_gt; auto.
    + apply IH; try (unfold i; lia); auto. apply Hge. congruence.
  - assert (r = l) by lia. subst r. exists l. split; auto. split; [lia|]. auto.
Qed.

Lemma findvalue_ok v x : sorted_on v 0 (length v) ->
  (exists p y, findvalue cmp v x = Ok (Z.of_nat p) /\ nth_error v p = Some y /\ cmp y x = Eq) \/
  (findvalue cmp v x = Ok UINT_MAX /\ forall y, In y v -> cmp y x <> Eq).
Proof.
  intros S. unfold findvalue.
  destruct (bsearch_ok v x S (Datatypes.S (length v)) 0 (length v)) as (p & -> & Hp & Lo & Hi); try lia.
  { intros i y Hi Hy. apply nth_error_lt in Hy. lia. }
  cbn [bind].
  assert (NF : (forall y, nth_error v p = Some y -> cmp y x <> Eq) -> forall y, In y v -> cmp y x <> Eq).
  { intros Np y Hy E. apply In_nth_error in Hy. destruct Hy as (k & Hk).
    destruct (Nat.lt_trichotomy k p) as [H|[->|H]].
    - rewrite (Lo k y H Hk) in E. discriminate.
    - apply (Np y); auto.
    - pose proof (nth_error_lt _ _ _ Hk). destruct (nth_some v p) as (z & Hz); [lia|].
      pose proof (Hi p z (Nat.le_refl _) Hz) as H1. pose proof (Np z Hz) as H2.
      pose proof (S p k ltac:(lia) H ltac:(lia) z y Hz Hk) as L.
      rewrite <- (cmp_cong_r cmp y x z TO E) in H1, H2.
      unfold le in L. destruct (cmp z y); congruence. }
  destruct (Nat.ltb_spec p (length v)).
  - destruct (nth_some v p) as (y & Hy); [lia|]. unfold aget. rewrite Hy; cbn [bind].
    destruct (cmp y x) eqn:E.
    + left. exists p, y. auto.
    + right. split; auto. apply NF. intros z Hz. congruence.
    + right. split; auto. apply NF. intros z Hz. congruence.
  - right. split; auto. apply NF. intros z Hz. apply nth_error_lt in Hz. lia.
Qed.


(* ---- compaction ---- *)
Definition eqv (x y : V) : bool := match cmp x y with Eq => true | _ => false end.

(* Drop every element equivalent to the last one kept. *)
Fixpoint uniq_from (z : V) (l : list V) : list V :=
  match l with
  | [] => []
  | x :: l => if eqv z x then uniq_from z l else x :: uniq_from x l
  end.

Lemma aget_at {A} (l1 l2 : list A) x i : i = length l1 -> aget (l1 ++ x :: l2) i = Ok x.
Proof. intros ->. unfold aget. rewrite nth_error_app2, Nat.sub_diag by lia. reflexivity. Qed.
Lemma aset_at {A} (l1 l2 : list A) x y i : i = length l1 -> aset (l1 ++ x :: l2) i y = Ok (l1 ++ y :: l2).
Proof.
  intros ->. rewrite aset_ok by (rewrite app_length; simpl; lia).
  rewrite upd_app_r, Nat.sub_diag by lia. reflexivity.
Qed.

Notation somes := (map (@Some V)).
Notation holes := (repeat (@None V)).

Lemma holes_snoc g : holes g ++ [None] = holes (g + 1).
Proof. rewrite repeat_app. reflexivity. Qed.

(* Compare the last kept element with the first remaining one. *)
Lemma eq_at_gap d z g x rest j i : j = length d -> i = length d + 1 + g ->
  eq_at cmp (somes (d ++ [z]) ++ holes g ++ somes (x :: rest)) j i = Ok (eqv z x).
Proof.
  intros -> ->. unfold eq_at.
  rewrite map_app, <- app_assoc. cbn [map app].
  rewrite aget_at by (rewrite map_length; auto). cbn [bind].
  change (somes d ++ Some z :: holes g ++ Some x :: somes rest) with
    (somes d ++ ((Some z :: holes g) ++ Some x :: somes rest)).
  rewrite app_assoc. rewrite aget_at.
  2:{ rewrite app_length, map_length. simpl. rewrite repeat_length. lia. }
  reflexivity.
Qed.

Lemma len_gap d z g rest :
  length (somes (d ++ [z]) ++ holes g ++ somes rest) = length d + 1 + g + length rest.
Proof. rewrite !app_length, !map_length, app_length, repeat_length. simpl. lia. Qed.

Lemma drop_equal_ok d z : forall rest x g fuel i, i = length d + 1 + g -> length rest < fuel ->
  exists es rest', rest = es ++ rest' /\ Forall (fun y => eqv z y = true) es /\
    match rest' with [] => True | y :: _ => eqv z y = false end /\
    drop_equal cmp fuel (somes (d ++ [z]) ++ holes g ++ somes (x :: rest)) i (length d) =
      Ok (somes (d ++ [z]) ++ holes (g + 1 + length es) ++ somes rest', i + 1 + length es).
Proof.
  induction rest as [|y rest IH]; intros x g fuel i Hi Hf; (destruct fuel as [|fuel]; [lia|]);
    cbn [drop_equal].
  - assert (K : kill (somes (d ++ [z]) ++ holes g ++ somes [x]) i =
       Ok (somes (d ++ [z]) ++ holes (g + 1) ++ somes [])).
    { unfold kill. rewrite app_assoc. cbn [map].
      rewrite aget_at by (rewrite app_length, map_length, app_length, repeat_length; simpl; lia).
      cbn [bind]. rewrite aset_at by (rewrite app_length, map_length, app_length, repeat_length; simpl; lia).
      rewrite <- app_assoc. rewrite <- holes_snoc, app_nil_r. reflexivity. }
    rewrite K; cbn [bind]. rewrite len_gap. simpl length.
    destruct (Nat.ltb_spec (i + 1) (length d + 1 + (g + 1) + 0)); [lia|].
    exists [], []. repeat split; auto. simpl. rewrite !Nat.add_0_r. auto.
  - assert (K : kill (somes (d ++ [z]) ++ holes g ++ somes (x :: y :: rest)) i =
       Ok (somes (d ++ [z]) ++ holes (g + 1) ++ somes (y :: rest))).
    { unfold kill. rewrite app_assoc. cbn [map].
      rewrite aget_at by (rewrite app_length, map_length, app_length, repeat_length; simpl; lia).
      cbn [bind]. rewrite aset_at by (rewrite app_length, map_length, app_length, repeat_length; simpl; lia).
      rewrite <- app_assoc. rewrite <- holes_snoc, <- app_assoc. reflexivity. }
    rewrite K; cbn [bind]. rewrite len_gap. simpl length.
    destruct (Nat.ltb_spec (i + 1) (length d + 1 + (g + 1) + S (length rest))); [|lia].
    rewrite eq_at_gap by lia. cbn [bind]. destruct (eqv z y) eqn:E.
    + destruct (IH y (g + 1) fuel (i + 1)) as (es & rest' & -> & F & H' & ->); try lia.
      { simpl in Hf. lia. }
      exists (y :: es), rest'. repeat split; auto. simpl length.
      replace (g + 1 + S (length es)) with (g + 1 + 1 + length es) by lia.
      replace (i + 1 + S (length es)) with (i + 1 + 1 + length es) by lia. reflexivity.
    + exists [], (y :: rest). repeat split; auto. simpl length. rewrite !Nat.add_0_r. auto.
Qed.

Lemma last_cons t : forall y x : V, last (y :: t) x = last t y.
Proof.
  induction t as [|a t IH]; intros y x; auto.
  change (last (y :: a :: t) x) with (last (a :: t) x). rewrite !IH. auto.
Qed.

(* A run of adjacent distinct elements. *)
Fixpoint run_of (x : V) (t : list V) : Prop :=
  match t with [] => True | y :: t => eqv x y = false /\ run_of y t end.

Lemma run_end_ok : forall t (B : list (option V)) x fuel s, s = length B -> length t < fuel ->
  exists t1 t2, t = t1 ++ t2 /\ run_of x t1 /\
    match t2 with [] => True | y :: _ => eqv (last t1 x) y = true end /\
    run_end cmp fuel (B ++ somes (x :: t)) s = Ok (s + length t1).
Proof.
  induction t as [|y t IH]; intros B x fuel s -> Hf; (destruct fuel as [|fuel]; [lia|]); cbn [run_end].
  - rewrite app_length. simpl length.
    destruct (Nat.ltb_spec (length B) (length B + 1 - 1)); [lia|].
    exists [], []. simpl. repeat split; auto.
  - rewrite app_length, map_length. simpl length in *.
    destruct (Nat.ltb_spec (length B) (length B + S (S (length t)) - 1)); [|lia].
    assert (Eq : eq_at cmp (B ++ somes (x :: y :: t)) (length B) (length B + 1) = Ok (eqv x y)).
    { unfold eq_at. cbn [map]. rewrite aget_at by auto. cbn [bind].
      change (B ++ Some x :: Some y :: somes t) with (B ++ [Some x] ++ Some y :: somes t).
      rewrite app_assoc. rewrite aget_at by (rewrite app_length; auto). reflexivity. }
    rewrite Eq; cbn [bind]. destruct (eqv x y) eqn:E.
    + exists [], (y :: t). simpl. repeat split; auto.
    + change (B ++ somes (x :: y :: t)) with (B ++ [Some x] ++ somes (y :: t)). rewrite app_assoc.
      destruct (IH (B ++ [Some x]) y fuel (length B + 1)) as (t1 & t2 & -> & R & H' & ->); try lia.
      { rewrite app_length. auto. }
      exists (y :: t1), t2. repeat split; auto.
      * destruct t2; auto. rewrite last_cons. auto.
      * simpl length. f_equal. lia.
Qed.

Lemma relocate_ok (A C D : list (option V)) g n dst src :
  dst = length A -> src = length A + g -> n = length C ->
  relocate (A ++ holes g ++ C ++ D) dst src n = Ok (A ++ C ++ holes g ++ D).
Proof.
  intros -> -> ->. unfold relocate.
  destruct (Nat.leb_spec (length A + length C) (length (A ++ holes g ++ C ++ D)));
    rewrite !app_length, repeat_length in *; [|lia].
  destruct (Nat.leb_spec (length A + g + length C) (length A + (g + (length C + length D)))); [|lia].
  cbn [andb]. f_equal.
  set (m := A ++ holes g ++ C ++ D).
  assert (E1 : firstn (length C) (skipn (length A + g) m) = C).
  { unfold m. rewrite app_assoc. rewrite skipn_app, skipn_all2.
    2:{ rewrite app_length, repeat_length. lia. }
    rewrite app_length, repeat_length, Nat.sub_diag. simpl.
    rewrite firstn_app, firstn_all, Nat.sub_diag, firstn_O, app_nil_r. auto. }
  assert (E2 : firstn (length A + g) m = A ++ holes g).
  { unfold m. rewrite app_assoc. rewrite firstn_app, firstn_all2.
    2:{ rewrite app_length, repeat_length. lia. }
    rewrite app_length, repeat_length, Nat.sub_diag. rewrite firstn_O, app_nil_r. auto. }
  assert (E3 : skipn (length A + g + length C) m = D).
  { unfold m. rewrite !app_assoc. rewrite skipn_app, skipn_all2.
    2:{ rewrite !app_length, repeat_length. lia. }
    rewrite !app_length, repeat_length. replace (_ - _) with 0 by lia. auto. }
  rewrite E1, E2, E3. rewrite <- app_assoc.
  rewrite firstn_app, firstn_all, Nat.sub_diag, firstn_O, app_nil_r. f_equal. f_equal.
  rewrite (app_assoc (holes g)), <- repeat_app.
  replace (g + length C) with (length C + g) by lia. rewrite repeat_app, <- app_assoc.
  rewrite app_assoc. rewrite skipn_app, skipn_all2.
  2:{ rewrite app_length, repeat_length. lia. }
  rewrite app_length, repeat_length, Nat.sub_diag. reflexivity.
Qed.

Lemma objects_ok l : forall m, objects (somes l ++ m) (length l) = Ok l.
Proof. induction l as [|x l IH]; intros m; simpl; auto. rewrite IH. reflexivity. Qed.

Lemma uniq_skip z es rest : Forall (fun y => eqv z y = true) es ->
  uniq_from z (es ++ rest) = uniq_from z rest.
Proof. induction 1; simpl; auto. rewrite H. auto. Qed.
Lemma uniq_run : forall t1 x t2, run_of x t1 ->
  uniq_from x (t1 ++ t2) = t1 ++ uniq_from (last t1 x) t2.
Proof.
  induction t1 as [|y t1 IH]; intros x t2 R; auto. destruct R as [E R].
  rewrite (last_cons t1 y x). simpl. rewrite E, (IH y t2 R). auto.
Qed.

Lemma last_split (x : V) t : exists d, x :: t = d ++ [last t x].
Proof.
  revert x. induction t as [|y t IH]; intros x; [exists []; auto|].
  destruct (IH y) as (d & E). exists (x :: d). rewrite last_cons. simpl app. rewrite <- E. auto.
Qed.

Lemma compact_loop_ok : forall n rest d z g fuel i, length rest <= n -> n < fuel -> i = length d + 1 + g ->
  (g = 0 \/ match rest with [] => True | x :: _ => eqv z x = true end) ->
  exists d' z' m, compact_loop cmp fuel (somes (d ++ [z]) ++ holes g ++ somes rest) i (length d) =
      Ok (somes (d' ++ [z']) ++ m, length d') /\
    d' ++ [z'] = d ++ z :: uniq_from z rest.
Proof.
  induction n as [|n IH]; intros rest d z g fuel i Hn Hf Hi Hg; (destruct fuel as [|fuel]; [lia|]);
    cbn [compact_loop]; rewrite len_gap.
  - destruct rest; [|simpl in Hn; lia]. simpl length. subst i.
    destruct (Nat.ltb_spec (length d + 1 + g) (length d + 1 + g + 0)); [lia|].
    exists d, z, (holes g ++ somes []). auto.
  - destruct rest as [|x rest].
    { simpl length. subst i.
      destruct (Nat.ltb_spec (length d + 1 + g) (length d + 1 + g + 0)); [lia|].
      exists d, z, (holes g ++ somes []). auto. }
    simpl length in Hn. simpl length.
    destruct (Nat.ltb_spec i (length d + 1 + g + S (length rest))); [|lia].
    rewrite eq_at_gap by auto. cbn [bind].
    destruct (eqv z x) eqn:Ez.
    + destruct (Nat.eqb_spec (length d) i); [lia|].
      destruct (drop_equal_ok d z rest x g (S (length d + 1 + g + S (length rest))) i)
        as (es & rest' & -> & F & Hd & ->); auto; try lia.
      cbn [bind]. rewrite len_gap.
      destruct rest' as [|y rest'].
      * (* everything that was left was equal *)
        assert (RE : forall m s f, length m - 1 <= s -> run_end cmp (S f) m s = Ok s).
        { intros m s f Hs. cbn [run_end]. destruct (Nat.ltb_spec s (length m - 1)); auto; lia. }
        rewrite RE.
        2:{ rewrite len_gap. simpl length. lia. }
        cbn [bind]. rewrite ?len_gap. simpl length.
        destruct (Nat.ltb_spec (i + 1 + length es) (length d + 1 + (g + 1 + length es) + 0)); [lia|].
        destruct fuel as [|fuel]; [lia|]. cbn [compact_loop]. rewrite len_gap. simpl length.
        destruct (Nat.ltb_spec (i + 1 + length es + 1) (length d + 1 + (g + 1 + length es) + 0)); [lia|].
        exists d, z, (holes (g + 1 + length es) ++ somes []). split; auto.
        cbn [uniq_from]. rewrite Ez, uniq_skip by auto. auto.
      * set (G := g + 1 + length es). rewrite app_length in *. simpl length in *.
        destruct (run_end_ok rest' (somes (d ++ [z]) ++ holes G) y (S (length d + 1 + G + S (length rest')))
          (i + 1 + length es)) as (t1 & t2 & -> & R & Ht & E).
        { rewrite app_length, map_length, app_length, repeat_length. simpl. unfold G. lia. }
        { lia. }
        rewrite <- app_assoc in E. rewrite E. cbn [bind]. clear E.
        rewrite app_length in *.
        destruct (Nat.ltb_spec (i + 1 + length es) (length d + 1 + G + S (length t1 + length t2)));
          [|unfold G in *; lia].
        change (y :: t1 ++ t2) with ((y :: t1) ++ t2). rewrite (map_app Some (y :: t1)).
        rewrite relocate_ok.
        2:{ rewrite map_length, app_length. simpl. lia. }
        2:{ rewrite map_length, app_length. simpl. unfold G. lia. }
        2:{ rewrite map_length. simpl. lia. }
        cbn [bind].
        destruct (last_split y t1) as (d2 & E2). rewrite E2.
        replace (somes (d ++ [z]) ++ somes (d2 ++ [last t1 y]) ++ holes G ++ somes t2)
          with (somes (((d ++ [z]) ++ d2) ++ [last t1 y]) ++ holes G ++ somes t2)
          by (rewrite !map_app, <- !app_assoc; reflexivity).
        assert (L2 : length d2 = length t1).
        { apply (f_equal (@length V)) in E2. rewrite app_length in E2. simpl in E2. lia. }
        replace (i + 1 + length es + length t1 - (i + 1 + length es - (length d + 1)))
          with (length ((d ++ [z]) ++ d2)) by (rewrite !app_length; simpl; unfold G in *; lia).
        destruct (IH t2 ((d ++ [z]) ++ d2) (last t1 y) G fuel (i + 1 + length es + length t1 + 1))
          as (d' & z' & m & E & Er); try lia.
        { rewrite !app_length; simpl. unfold G. lia. }
        { right. exact Ht. }
        exists d', z', m. split; auto. rewrite Er. cbn [uniq_from]. rewrite Ez, uniq_skip by auto.
        rewrite <- ?E2. cbn [uniq_from app]. rewrite Hd, uniq_run by auto. rewrite <- !app_assoc. simpl. f_equal. f_equal.
        change (y :: t1 ++ uniq_from (last t1 y) t2) with ((y :: t1) ++ uniq_from (last t1 y) t2).
        rewrite E2, <- app_assoc. reflexivity.
    + destruct Hg as [->|C]; [|congruence]. simpl holes.
      destruct (Nat.eqb_spec (length d + 1) i); [|lia].
      replace (somes (d ++ [z]) ++ [] ++ somes (x :: rest))
        with (somes ((d ++ [z]) ++ [x]) ++ holes 0 ++ somes rest)
        by (rewrite !map_app, <- !app_assoc; reflexivity).
      replace (length d + 1) with (length (d ++ [z])) by (rewrite app_length; auto).
      destruct (IH rest (d ++ [z]) x 0 fuel (i + 1)) as (d' & z' & m & E & Er); try lia; auto.
      { rewrite app_length; simpl; lia. }
      exists d', z', m. split; auto. rewrite Er. cbn [uniq_from]. rewrite Ez, <- app_assoc. reflexivity.
Qed.

Definition uniq (l : list V) : list V :=
  match l with [] => [] | x :: l => x :: uniq_from x l end.

Lemma compact_ok v : compact cmp v = Ok (uniq v).
Proof.
  unfold compact. destruct (Nat.leb_spec (length v) 1).
  - destruct v as [|x [|y v]]; simpl in *; auto; lia.
  - destruct v as [|x v]; simpl in H; [lia|].
    destruct (compact_loop_ok (length v) v [] x 0 (S (length (x :: v))) 1) as (d' & z' & m & E & Er);
      simpl length; auto; try lia.
    change (compact_loop cmp (S (length (x :: v))) (map Some (x :: v)) 1 0 = Ok (somes (d' ++ [z']) ++ m, length d')) in E.
    cbn [length] in *. rewrite E. cbn [bind].
    replace (length d' + 1) with (length (d' ++ [z'])) by (rewrite app_length; auto).
    rewrite objects_ok, Er. reflexivity.
Qed.

(* uniq of a sorted list *)
Lemma uniq_from_sub z l x : In x (uniq_from z l) -> In x l.
Proof.
  revert z. induction l as [|y l IH]; intros z; simpl; auto.
  destruct (eqv z y); simpl; intuition eauto.
Qed.
Lemma eqv_spec x y : eqv x y = true <-> cmp x y = Eq.
Proof. unfold eqv. destruct (cmp x y); split; congruence. Qed.
Lemma uniq_from_keeps l : forall z x, In x l ->
  cmp x z = Eq \/ exists y, In y (uniq_from z l) /\ cmp x y = Eq.
Proof.
  induction l as [|y l IH]; intros z x; simpl; [tauto|]. intros [->|H].
  - destruct (eqv z x) eqn:E.
    + left. apply eqv_spec in E. apply cmp_eq_sym; auto.
    + right. exists x. split; [left; auto|]. apply cmp_refl; auto.
  - destruct (eqv z y) eqn:E.
    + apply IH; auto.
    + right. destruct (IH y x H) as [E'|(w & Hw & E')].
      * exists y. split; [left|]; auto.
      * exists w. split; [right|]; auto.
Qed.

Inductive incr : list V -> Prop :=
| incr_nil : incr []
| incr_cons x l : (forall y, In y l -> cmp x y = Lt) -> incr l -> incr (x :: l).

Lemma uniq_from_incr l : forall z, (forall y, In y l -> le z y) -> (forall a b t, l = t ++ a :: b -> forall y, In y b -> le a y) ->
  incr (uniq_from z l) /\ forall y, In y (uniq_from z l) -> cmp z y = Lt.
Proof.
  induction l as [|x l IH]; intros z Hz Hs; simpl; [split; [constructor|tauto]|].
  destruct (eqv z x) eqn:E.
  - apply IH; [intros; apply Hz; right; auto|].
    intros a b t -> y Hy. apply (Hs a b (x :: t)); auto.
  - destruct (IH x) as [I1 I2].
    + intros y Hy. apply (Hs x l []); auto.
    + intros a b t -> y Hy. apply (Hs a b (x :: t)); auto.
    + assert (Lx : cmp z x = Lt).
      { pose proof (Hz x (or_introl eq_refl)) as L. unfold le in L. unfold eqv in E.
        destruct (cmp z x); congruence. }
      split; [constructor; auto|]. intros y [->|Hy]; auto. apply (cmp_trans _ TO z x y); auto.
Qed.

Lemma sorted_on_split v : sorted_on v 0 (length v) ->
  forall a b t, v = t ++ a :: b -> forall y, In y b -> le a y.
Proof.
  intros Hs a b t -> y Hy. apply In_nth_error in Hy. destruct Hy as (k & Hk).
  apply (Hs (length t) (length t + S k)); try lia.
  - rewrite app_length. simpl. apply nth_error_lt in Hk. lia.
  - rewrite nth_error_app2, Nat.sub_diag by lia. auto.
  - rewrite nth_error_app2 by lia. replace (length t + S k - length t) with (S k) by lia. auto.
Qed.

Lemma csort_ok v : exists v', csort cmp v = Ok v' /\ incr v' /\
  (forall x, In x v' -> In x v) /\ (forall x, In x v -> exists y, In y v' /\ cmp x y = Eq).
Proof.
  destruct (sort_ok v) as (s & E & P & Hs). unfold csort. rewrite E; cbn [bind].
  rewrite compact_ok. exists (uniq s). split; auto.
  pose proof (sorted_on_split s Hs) as SS.
  destruct s as [|x s]; simpl.
  - split; [constructor|]. split; [tauto|]. intros x Hx. apply (Permutation_in _ P) in Hx. destruct Hx.
  - destruct (uniq_from_incr s x) as [I1 I2].
    { intros y Hy. apply (SS x s []); auto. }
    { intros a b t -> y Hy. apply (SS a b (x :: t)); auto. }
    split; [constructor; auto|]. split.
    + intros y Hy. apply (Permutation_in _ (Permutation_sym P)). destruct Hy as [->|Hy]; [left; auto|].
      right. eapply uniq_from_sub; eauto.
    + intros y Hy. apply (Permutation_in _ P) in Hy. destruct Hy as [->|Hy].
      * exists y. split; [left; auto|]. apply cmp_refl; auto.
      * destruct (uniq_from_keeps s x y Hy) as [H|(w & Hw & H)].
        -- exists x. split; [left|]; auto.
        -- exists w. split; [right|]; auto.
Qed.

End Sort.
