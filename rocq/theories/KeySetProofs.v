(* Proofs about KeySetModel. *)
From Coq Require Import List ZArith Lia Bool Arith Permutation.
From Verif Require Import Base MapSpec SortModel SortProofs KeySetModel.
Import ListNotations.
Local Open Scope nat_scope.

Section Kset.
Context {K V : Type}.
Variable kcmp : K -> K -> comparison.
Hypothesis TO : total_preorder kcmp.
Notation elt := (K * V)%type.
Notation same := (same kcmp).

Lemma same_sym a b : same a b = same b a.
Proof.
  unfold MapSpec.same. rewrite (cmp_sym _ TO a b). destruct (kcmp a b); reflexivity.
Qed.
Lemma same_spec a b : same a b = true <-> kcmp a b = Eq.
Proof. unfold MapSpec.same. destruct (kcmp a b); split; congruence. Qed.
Lemma same_refl a : same a a = true.
Proof. apply same_spec, cmp_refl, TO. Qed.
Lemma same_cong a b c : same a b = true -> same a c = same b c.
Proof. rewrite same_spec. unfold MapSpec.same. intros H. rewrite (cmp_cong _ TO a b c H). auto. Qed.
Lemma keq_same a b : keq kcmp a b = same b a.
Proof. rewrite same_sym. reflexivity. Qed.

(* Pairwise different keys. *)
Definition distinct (l : list elt) : Prop :=
  forall l1 e l2, l = l1 ++ e :: l2 -> forall e', In e' (l1 ++ l2) -> same (fst e) (fst e') = false.

Lemma haskey_split (l : list elt) k i :
  match haskey_from kcmp l i k with
  | Some p => exists l1 e l2, l = l1 ++ e :: l2 /\ p = i + length l1 /\ same k (fst e) = true /\
                (forall e', In e' l1 -> same k (fst e') = false)
  | None => forall e, In e l -> same k (fst e) = false
  end.
Proof.
  revert i. induction l as [|e l IH]; intros i; simpl; [tauto|].
  rewrite keq_same. destruct (same k (fst e)) eqn:E.
  - exists [], e, l. simpl. repeat split; auto; tauto.
  - specialize (IH (S i)). destruct (haskey_from kcmp l (S i) k) as [p|].
    + destruct IH as (l1 & e1 & l2 & -> & -> & H1 & H2). exists (e :: l1), e1, l2.
      simpl. repeat split; auto; try lia. intros e' [<-|H]; auto.
    + intros e' [<-|H]; auto.
Qed.

Lemma haskey_distinct (l : list elt) k : distinct l ->
  match haskey kcmp l k with
  | Some p => exists l1 e l2, l = l1 ++ e :: l2 /\ p = length l1 /\ same k (fst e) = true /\
                (forall e', In e' (l1 ++ l2) -> same k (fst e') = false) /\ m_has kcmp l k = true
  | None => (forall e, In e l -> same k (fst e) = false) /\ m_has kcmp l k = false
  end.
Proof.
  intros D. unfold haskey. pose proof (haskey_split l k 0) as H.
  destruct (haskey_from kcmp l 0 k) as [p|].
  - destruct H as (l1 & e & l2 & -> & -> & H1 & H2). exists l1, e, l2. repeat split; auto.
    + intros e' He'. rewrite (same_cong k (fst e) (fst e') H1). apply (D l1 e l2); auto.
    + unfold m_has. rewrite existsb_app. simpl. rewrite H1, orb_true_r. auto.
  - split; auto. unfold m_has. destruct (existsb _ l) eqn:E; auto.
    apply existsb_exists in E. destruct E as (e & He & E). rewrite (H e He) in E. discriminate.
Qed.

Lemma map_id_on {A} (f : A -> A) l : (forall x, In x l -> f x = x) -> map f l = l.
Proof. induction l; simpl; intros H; auto. rewrite H, IHl; auto. Qed.
Lemma filter_id_on {A} (f : A -> bool) l : (forall x, In x l -> f x = true) -> filter f l = l.
Proof. induction l; simpl; intros H; auto. rewrite H, IHl; auto. Qed.

Lemma Forall2_length {A B} (P : A -> B -> Prop) l l' : Forall2 P l l' -> length l = length l'.
Proof. induction 1; simpl; auto. Qed.
Lemma upd_split {A} (l : list A) i x y : nth_error l i = Some x ->
  exists l1 l2, l = l1 ++ x :: l2 /\ upd l i y = l1 ++ y :: l2 /\ length l1 = i.
Proof.
  revert i. induction l as [|a l IH]; intros [|i] H; simpl in H; try discriminate.
  - injection H as ->. exists [], l. auto.
  - destruct (IH i H) as (l1 & l2 & -> & E & <-). exists (a :: l1), l2. simpl. rewrite E. auto.
Qed.
Lemma upd_mid {A} (l1 l2 : list A) x y : upd (l1 ++ x :: l2) (length l1) y = l1 ++ y :: l2.
Proof. rewrite upd_app_r, Nat.sub_diag by lia. reflexivity. Qed.
Lemma drop_mid {A} (l1 l2 : list A) x : drop_at (l1 ++ x :: l2) (length l1) = l1 ++ l2.
Proof.
  unfold drop_at. rewrite firstn_app, firstn_all, Nat.sub_diag, firstn_O, app_nil_r. f_equal.
  rewrite skipn_app, skipn_all2 by lia. replace (S (length l1) - length l1) with 1 by lia. reflexivity.
Qed.

Lemma m_add_mid b l1 (e0 : elt) l2 k v : same k (fst e0) = true ->
  (forall e, In e (l1 ++ l2) -> same k (fst e) = false) ->
  m_add kcmp b (l1 ++ e0 :: l2) k v = l1 ++ ((if b then k else fst e0), v) :: l2.
Proof.
  intros H0 H. unfold m_add. assert (M : m_has kcmp (l1 ++ e0 :: l2) k = true).
  { unfold m_has. rewrite existsb_app. simpl. rewrite H0, orb_true_r. auto. }
  rewrite M, map_app. simpl. rewrite H0.
  rewrite !map_id_on; auto; intros x Hx; rewrite H; auto; apply in_app_iff; auto.
Qed.
Lemma m_remove_mid l1 (e0 : elt) l2 k : same k (fst e0) = true ->
  (forall e, In e (l1 ++ l2) -> same k (fst e) = false) ->
  m_remove kcmp (l1 ++ e0 :: l2) k = l1 ++ l2.
Proof.
  intros H0 H. unfold m_remove. rewrite filter_app. simpl. rewrite H0. simpl.
  rewrite !filter_id_on; auto; intros x Hx; rewrite H; auto; apply in_app_iff; auto.
Qed.

Lemma app_cons_inv {A} (l1 l2 m1 m2 : list A) x y : l1 ++ x :: l2 = m1 ++ y :: m2 ->
  (l1 = m1 /\ x = y /\ l2 = m2) \/
  (exists t, m1 = l1 ++ x :: t /\ l2 = t ++ y :: m2) \/
  (exists t, l1 = m1 ++ y :: t /\ m2 = t ++ x :: l2).
Proof.
  revert m1. induction l1 as [|a l1 IH]; intros [|b m1] E; simpl in E; injection E as -> E.
  - auto.
  - right; left. exists m1. subst. auto.
  - right; right. exists l1. subst. auto.
  - destruct (IH _ E) as [(-> & -> & ->)|[(t & -> & ->)|(t & -> & ->)]]; eauto.
    + right; left. exists t. auto.
    + right; right. exists t. auto.
Qed.

Lemma distinct_mid l1 (e0 e1 : elt) l2 : same (fst e0) (fst e1) = true ->
  distinct (l1 ++ e0 :: l2) -> distinct (l1 ++ e1 :: l2).
Proof.
  intros H D m1 e m2 E e' He'.
  destruct (app_cons_inv _ _ _ _ _ _ E) as [(-> & -> & ->)|[(t & -> & ->)|(t & -> & ->)]].
  - rewrite <- (same_cong (fst e0) (fst e) (fst e') H). apply (D m1 e0 m2); auto.
  - (* e after e0's place *)
    rewrite <- app_assoc in He'. apply in_app_iff in He'.
    assert (D' : forall x, In x (l1 ++ e0 :: t ++ m2) -> same (fst e) (fst x) = false).
    { intros x Hx. apply (D (l1 ++ e0 :: t) e m2); rewrite <- app_assoc; auto. }
    destruct He' as [He'|[<-|He']].
    + apply D'. apply in_app_iff. auto.
    + rewrite same_sym, <- (same_cong _ _ (fst e) H), same_sym. apply D'.
      apply in_app_iff. right; left; auto.
    + apply D'. apply in_app_iff. right; right; auto.
  - assert (D' : forall x, In x (m1 ++ t ++ e0 :: l2) -> same (fst e) (fst x) = false).
    { intros x Hx. apply (D m1 e (t ++ e0 :: l2)); rewrite <- ?app_assoc; auto. }
    rewrite app_assoc in He'. apply in_app_iff in He'. destruct He' as [He'|[<-|He']].
    + apply D'. rewrite app_assoc. apply in_app_iff. auto.
    + rewrite same_sym, <- (same_cong _ _ (fst e) H), same_sym. apply D'.
      rewrite app_assoc. apply in_app_iff. right; left; auto.
    + apply D'. rewrite app_assoc. apply in_app_iff. right; right; auto.
Qed.

Lemma distinct_snoc l (e : elt) : distinct l -> (forall x, In x l -> same (fst e) (fst x) = false) ->
  distinct (l ++ [e]).
Proof.
  intros D H m1 x m2 E e' He'.
  destruct (app_cons_inv _ _ _ _ _ _ E) as [(-> & -> & <-)|[(t & -> & C)|(t & -> & ->)]].
  - rewrite app_nil_r in He'. auto.
  - destruct t; discriminate.
  - rewrite app_assoc in He'. apply in_app_iff in He'. destruct He' as [He'|[<-|[]]].
    + apply (D m1 x t); auto.
    + rewrite same_sym. apply H. apply in_app_iff. right; left; auto.
Qed.

Lemma distinct_drop l1 e l2 : distinct (l1 ++ e :: l2) -> distinct (l1 ++ l2).
Proof.
  intros D m1 x m2 E e' He'.
  assert (exists n1 n2, l1 ++ e :: l2 = n1 ++ x :: n2 /\ incl (m1 ++ m2) (n1 ++ n2)) as (n1 & n2 & E' & I).
  { clear e' He' D. revert m1 E. induction l1 as [|a l1 IH]; intros m1 E; simpl in *.
    - subst l2. exists (e :: m1), m2. split; auto. intros y Hy. right; auto.
    - destruct m1 as [|b m1]; simpl in E; injection E as -> E.
      + exists [], (l1 ++ e :: l2). split; auto. simpl. subst m2. intros y Hy.
        apply in_app_iff in Hy. apply in_app_iff. simpl. tauto.
      + destruct (IH m1) as (n1 & n2 & -> & I); auto. exists (b :: n1), n2. split; auto.
        intros y [->|Hy]; [left; auto|right; apply I; auto]. }
  apply (D n1 x n2); auto.
Qed.

Lemma put_ok l (e : elt) : distinct l -> put kcmp l e = m_add kcmp true l (fst e) (snd e) /\ distinct (put kcmp l e).
Proof.
  intros D. unfold put. pose proof (haskey_distinct l (fst e) D) as H.
  destruct (haskey kcmp l (fst e)) as [p|].
  - destruct H as (l1 & e0 & l2 & -> & -> & H1 & H2 & H3). rewrite upd_mid, m_add_mid by auto.
    destruct e; simpl in *. split; auto. eapply distinct_mid; eauto. simpl. rewrite same_sym; auto.
  - destruct H as [H1 H2]. unfold m_add. rewrite H2. destruct e; simpl in *. split; auto.
    apply distinct_snoc; auto.
Qed.

Lemma aput_ok l (e : elt) : distinct l -> aput kcmp l e = m_add kcmp false l (fst e) (snd e) /\ distinct (aput kcmp l e).
Proof.
  intros D. unfold aput. pose proof (haskey_distinct l (fst e) D) as H.
  destruct (haskey kcmp l (fst e)) as [p|].
  - destruct H as (l1 & [k0 v0] & l2 & -> & -> & H1 & H2 & H3).
    rewrite nth_error_app2, Nat.sub_diag by lia. cbn [nth_error].
    rewrite upd_mid, m_add_mid by auto. cbn [fst snd]. split; auto.
    apply (distinct_mid l1 (k0, v0) (k0, snd e) l2); [apply same_refl|exact D].
  - destruct H as [H1 H2]. unfold m_add. rewrite H2. destruct e; simpl in *. split; auto.
    apply distinct_snoc; auto.
Qed.

Lemma fold_put_ok es : forall l : list elt, distinct l ->
  fold_left (put kcmp) es l = fold_left (fun m e => m_add kcmp true m (fst e) (snd e)) es l /\
  distinct (fold_left (put kcmp) es l).
Proof.
  induction es as [|e es IH]; intros l D; simpl; auto.
  destruct (put_ok l e D) as [E D']. rewrite E in *. auto.
Qed.
Lemma fold_aput_ok es : forall l : list elt, distinct l ->
  fold_left (aput kcmp) es l = fold_left (fun m e => m_add kcmp false m (fst e) (snd e)) es l /\
  distinct (fold_left (aput kcmp) es l).
Proof.
  induction es as [|e es IH]; intros l D; simpl; auto.
  destruct (aput_ok l e D) as [E D']. rewrite E in *. auto.
Qed.

Lemma lookup_ok (l : list elt) k : distinct l ->
  match m_find kcmp l k with
  | Some v => exists k' p, lookup kcmp l k = Ok (k', v) /\ same k k' = true /\ haskey kcmp l k = Some p /\
       nth_error l p = Some (k', v)
  | None => haskey kcmp l k = None /\ m_has kcmp l k = false
  end.
Proof.
  intros D. unfold lookup. pose proof (haskey_distinct l k D) as H. unfold m_find.
  destruct (haskey kcmp l k) as [p|].
  - destruct H as (l1 & [k' v'] & l2 & -> & -> & H1 & H2 & H3).
    assert (F : find (fun e : elt => same k (fst e)) (l1 ++ (k', v') :: l2) = Some (k', v')).
    { clear - H1 H2. induction l1 as [|a l1 IH]; simpl.
      - simpl in H1. rewrite H1. auto.
      - rewrite (H2 a) by (left; auto). apply IH. intros e He. apply H2. right; auto. }
    rewrite F. simpl. exists k', (length l1). unfold aget.
    rewrite nth_error_app2, Nat.sub_diag by lia. simpl. auto.
  - destruct H as [H1 H2]. destruct (find _ l) as [e|] eqn:F; simpl; auto.
    apply find_some in F. destruct F as [F1 F2]. rewrite H1 in F2; auto. discriminate.
Qed.
End Kset.

(* ------------------------------------------------------------------ iset *)
Section Iset.
Context {V : Type}.
Variable cmp : V -> V -> comparison.
Hypothesis TO : total_preorder cmp.
Notation iset := (iset V).

(* What the elements look like in sorted order. *)
Definition view (st : iset) (sv : list V) : Prop :=
  Forall2 (fun i v => nth_error (vals st) i = Some v) (idx st) sv.

Lemma view_nth st sv i : view st sv ->
  match nth_error sv i with
  | Some v => exists k, nth_error (idx st) i = Some k /\ nth_error (vals st) k = Some v
  | None => nth_error (idx st) i = None
  end.
Proof.
  unfold view. intros F. revert i. induction F; intros [|i]; simpl; eauto.
  apply IHF.
Qed.

Lemma ifind_bsearch st sv x : view st sv -> forall fuel l r,
  ifind cmp fuel st x l r = bsearch cmp fuel sv x l r.
Proof.
  intros W. induction fuel as [|fuel IH]; intros l r; cbn [ifind bsearch]; auto.
  destruct (l <? r); auto. pose proof (view_nth st sv (l + (r - l) / 2) W) as N.
  unfold aget. destruct (nth_error sv (l + (r - l) / 2)) as [v|].
  - destruct N as (k & -> & Hv). cbn [bind]. rewrite Hv; cbn [bind].
    destruct (cmp v x); apply IH.
  - rewrite N. reflexivity.
Qed.

(* Representation: idx is a permutation of the positions and sorts the values strictly. *)
Definition irep (st : iset) (sv : list V) : Prop :=
  view st sv /\ NoDup (idx st) /\ (forall i, In i (idx st) <-> i < length (vals st)) /\ incr cmp sv.

Lemma idx_length st sv : irep st sv -> length (idx st) = length (vals st).
Proof.
  intros (_ & N & I & _). apply Nat.le_antisymm.
  - replace (length (vals st)) with (length (seq 0 (length (vals st)))) by apply seq_length.
    apply NoDup_incl_length; auto. intros i Hi. apply in_seq. apply I in Hi. lia.
  - replace (length (vals st)) with (length (seq 0 (length (vals st)))) by apply seq_length.
    apply NoDup_incl_length; [apply seq_NoDup|]. intros i Hi. apply in_seq in Hi. apply I. lia.
Qed.
Lemma view_length st sv : view st sv -> length (idx st) = length sv.
Proof. intros F. eapply Forall2_length; eauto. Qed.

Lemma incr_sorted_on (sv : list V) : incr cmp sv -> sorted_on cmp sv 0 (length sv).
Proof.
  induction 1 as [|x l Hx I IH]; intros a b Ha Hab Hb; [simpl in Hb; lia|].
  destruct b as [|b]; [lia|]. intros p q Hp Hq. simpl in Hq. destruct a as [|a]; simpl in Hp.
  - injection Hp as <-. apply nth_error_In in Hq. unfold le. rewrite (Hx q Hq). discriminate.
  - apply (IH a b); simpl in Hb; auto; lia.
Qed.

Lemma ifindvalue_ok st sv x : irep st sv ->
  exists p, ifindvalue cmp st x = Ok p /\ p <= length sv /\
    (forall i y, i < p -> nth_error sv i = Some y -> cmp y x = Lt) /\
    (forall i y, p <= i -> nth_error sv i = Some y -> cmp y x <> Lt).
Proof.
  intros R. pose proof R as (W & _ & _ & I). unfold ifindvalue. rewrite (ifind_bsearch st sv x W).
  rewrite <- (idx_length _ _ R), (view_length _ _ W).
  apply bsearch_ok; auto; try lia. apply incr_sorted_on; auto.
  intros i y Hi Hy. apply nth_error_lt in Hy. lia.
Qed.

Lemma nth_error_Forall2_In st sv v : view st sv -> In v sv -> In v (vals st).
Proof.
  intros W H. apply In_nth_error in H. destruct H as (i & Hi). pose proof (view_nth st sv i W) as N.
  rewrite Hi in N. destruct N as (k & _ & Hk). eapply nth_error_In; eauto.
Qed.
Lemma vals_in_view st sv k v : irep st sv -> nth_error (vals st) k = Some v ->
  exists i, nth_error (idx st) i = Some k /\ nth_error sv i = Some v.
Proof.
  intros R Hk. pose proof R as (W & _ & I & _).
  assert (In k (idx st)) as Hin by (apply I; eapply nth_error_lt; eauto).
  apply In_nth_error in Hin. destruct Hin as (i & Hi). exists i. split; auto.
  pose proof (view_nth st sv i W) as N. destruct (nth_error sv i) as [w|]; [|congruence].
  destruct N as (k' & Hk' & Hw). congruence.
Qed.

Lemma incr_lt sv : incr cmp sv -> forall i j x y, i < j -> nth_error sv i = Some x -> nth_error sv j = Some y ->
  cmp x y = Lt.
Proof.
  induction 1 as [|z l Hz I IH]; intros i j x y Hij Hx Hy; [destruct i; discriminate|].
  destruct j as [|j]; [lia|]. simpl in Hy. destruct i as [|i]; simpl in Hx.
  - injection Hx as <-. apply Hz. eapply nth_error_In; eauto.
  - apply (IH i j); auto; lia.
Qed.

Lemma hasvalue_ok st sv x : irep st sv ->
  (exists k y, hasvalue cmp st x = Ok (Some k) /\ nth_error (vals st) k = Some y /\ cmp y x = Eq) \/
  (hasvalue cmp st x = Ok None /\ forall y, In y (vals st) -> cmp y x <> Eq).
Proof.
  intros R. pose proof R as (W & _ & _ & I). pose proof (idx_length _ _ R) as L1.
  pose proof (view_length _ _ W) as L2.
  unfold hasvalue. destruct (ifindvalue_ok st sv x R) as (p & -> & Hp & Lo & Hi). cbn [bind].
  assert (NF : (forall y, nth_error sv p = Some y -> cmp y x <> Eq) -> forall y, In y (vals st) -> cmp y x <> Eq).
  { intros Np y Hy E. apply In_nth_error in Hy. destruct Hy as (k & Hk).
    destruct (vals_in_view st sv k y R Hk) as (i & Hi1 & Hi2).
    destruct (Nat.lt_trichotomy i p) as [H|[->|H]].
    - rewrite (Lo i y H Hi2) in E. discriminate.
    - apply (Np y); auto.
    - pose proof (nth_error_lt _ _ _ Hi2). destruct (nth_some sv p) as (z & Hz); [lia|].
      pose proof (Hi p z (Nat.le_refl _) Hz) as H1.
      pose proof (incr_lt sv I p i z y H Hz Hi2) as H2.
      rewrite (cmp_cong_r cmp y x z TO E) in H2. congruence. }
  destruct (Nat.ltb_spec p (length (vals st))).
  - pose proof (view_nth st sv p W) as N. destruct (nth_some sv p) as (y & Hy); [lia|].
    rewrite Hy in N. destruct N as (k & Hk & Hv). unfold aget. rewrite Hk; cbn [bind]. rewrite Hv; cbn [bind].
    destruct (cmp y x) eqn:E.
    + left. exists k, y. auto.
    + right. split; auto. apply NF. congruence.
    + right. split; auto. apply NF. congruence.
  - right. split; auto. apply NF. intros z Hz. apply nth_error_lt in Hz. lia.
Qed.

Lemma Forall2_impl {A B} (P Q : A -> B -> Prop) l l' :
  (forall a b, In a l -> P a b -> Q a b) -> Forall2 P l l' -> Forall2 Q l l'.
Proof.
  intros H F. revert H. induction F; intros H'; constructor.
  - apply H'; [left|]; auto.
  - apply IHF. intros a b Ha. apply H'. right; auto.
Qed.
Lemma Forall2_firstn {A B} (P : A -> B -> Prop) l l' n : Forall2 P l l' -> Forall2 P (firstn n l) (firstn n l').
Proof. intros F. revert n. induction F; intros [|n]; simpl; constructor; auto. Qed.
Lemma Forall2_skipn {A B} (P : A -> B -> Prop) l l' n : Forall2 P l l' -> Forall2 P (skipn n l) (skipn n l').
Proof. intros F. revert n. induction F; intros [|n]; simpl; auto. Qed.

Lemma NoDup_insert {A} (l : list A) p x : NoDup l -> ~ In x l -> NoDup (insert_at l p x).
Proof.
  intros N H. unfold insert_at. apply (Permutation_NoDup (l := x :: l)).
  - rewrite <- (firstn_skipn p l) at 1. apply Permutation_middle.
  - constructor; auto.
Qed.
Lemma In_insert {A} (l : list A) p x y : In y (insert_at l p x) <-> y = x \/ In y l.
Proof.
  unfold insert_at. rewrite in_app_iff. simpl. rewrite <- (firstn_skipn p l) at 3.
  rewrite in_app_iff. intuition congruence.
Qed.

Lemma incr_app l1 l2 : incr cmp l1 -> incr cmp l2 -> (forall x y, In x l1 -> In y l2 -> cmp x y = Lt) ->
  incr cmp (l1 ++ l2).
Proof.
  induction 1 as [|x l Hx I IH]; intros I2 H; simpl; auto. constructor.
  - intros y Hy. apply in_app_iff in Hy. destruct Hy; [auto|apply H; auto; left; auto].
  - apply IH; auto. intros; apply H; auto. right; auto.
Qed.
Lemma incr_split l1 l2 : incr cmp (l1 ++ l2) ->
  incr cmp l1 /\ incr cmp l2 /\ forall x y, In x l1 -> In y l2 -> cmp x y = Lt.
Proof.
  induction l1 as [|a l1 IH]; simpl; intros H.
  - split; [constructor|]. split; auto. tauto.
  - inversion H as [|? ? H1 H2]; subst. destruct (IH H2) as (I1 & I2 & I3).
    split; [|split; auto].
    + constructor; auto. intros y Hy. apply H1, in_app_iff; auto.
    + intros x y [->|Hx] Hy; [apply H1, in_app_iff|]; auto.
Qed.

Lemma iinit_ok st sv v : irep st sv -> (forall y, In y (vals st) -> cmp y v <> Eq) ->
  exists st' sv', iinit cmp st v = Ok st' /\ irep st' sv' /\ vals st' = vals st ++ [v].
Proof.
  intros R Hv. pose proof R as (W & N & I & S). unfold iinit.
  destruct (ifindvalue_ok st sv v R) as (p & -> & Hp & Lo & Hi). cbn [bind].
  eexists _, (insert_at sv p v). split; [reflexivity|]. split; [|reflexivity].
  split; [|split; [|split]]; cbn [idx vals].
  - unfold view, insert_at; cbn [idx vals]. apply Forall2_app.
    + apply Forall2_firstn. eapply Forall2_impl; [|exact W]. intros i w _ Hw. cbn.
      rewrite nth_error_app1; [exact Hw|exact (nth_error_lt _ _ _ Hw)].
    + constructor.
      * rewrite nth_error_app2, Nat.sub_diag by lia. auto.
      * apply Forall2_skipn. eapply Forall2_impl; [|exact W]. intros i w _ Hw. cbn.
        rewrite nth_error_app1; [exact Hw|exact (nth_error_lt _ _ _ Hw)].
  - apply NoDup_insert; auto. rewrite I. lia.
  - intros i. rewrite In_insert, I, app_length. simpl. lia.
  - unfold insert_at. rewrite <- (firstn_skipn p sv) in S. apply incr_split in S.
    destruct S as (S1 & S2 & S3). apply incr_app; auto.
    + constructor; auto. intros y Hy. apply In_nth_error in Hy. destruct Hy as (i & Hy).
      rewrite nth_error_skipn in Hy.
      pose proof (Hi (p + i) y ltac:(lia) Hy) as H1.
      assert (H2 : cmp y v <> Eq) by (apply Hv, (nth_error_Forall2_In st sv); auto; eapply nth_error_In; eauto).
      rewrite (cmp_sym _ TO y v). destruct (cmp y v); simpl; congruence.
    + intros x y Hx [<-|Hy].
      * apply In_nth_error in Hx. destruct Hx as (i & Hx).
        pose proof (nth_error_lt _ _ _ Hx) as Hl. rewrite firstn_length in Hl.
        rewrite nth_error_firstn in Hx by lia. apply (Lo i x); auto; lia.
      * apply S3; auto.
Qed.

Lemma replace_ok st sv k y v : irep st sv -> nth_error (vals st) k = Some y -> cmp y v = Eq ->
  exists sv', irep (ISet (idx st) (upd (vals st) k v)) sv'.
Proof.
  intros R Hk E. pose proof R as (W & N & I & S).
  destruct (vals_in_view st sv k y R Hk) as (i & Hi1 & Hi2).
  exists (upd sv i v). split; [|split; [|split]]; cbn [idx vals]; auto.
  - unfold view in *; cbn [idx vals].
    assert (G : forall ix s j, Forall2 (fun i v => nth_error (vals st) i = Some v) ix s ->
      NoDup ix -> nth_error ix j = Some k ->
      Forall2 (fun i w => nth_error (upd (vals st) k v) i = Some w) ix (upd s j v)).
    { clear - Hk. induction ix as [|a ix IH]; intros s j F N H; [destruct j; discriminate|].
      inversion F as [|? b ? s' Fa Fs]; subst. inversion N as [|? ? Na Ns]; subst.
      destruct j as [|j]; simpl in H |- *.
      - injection H as ->. constructor.
        + apply nth_error_upd_eq. eapply nth_error_lt; eauto.
        + eapply Forall2_impl; [|exact Fs]. intros i w Hi Hw. cbn.
          rewrite nth_error_upd_ne; auto. intros <-. auto.
      - constructor; auto. rewrite nth_error_upd_ne; auto. intros <-. apply Na.
        eapply nth_error_In; eauto. }
    apply G; auto.
  - rewrite length_upd. auto.
  - clear - S Hi2 E TO. revert i Hi2. induction S as [|x l Hx S IH]; intros [|i] Hi; simpl in *; try discriminate.
    + injection Hi as <-. constructor; auto. intros z Hz.
      rewrite <- (cmp_cong _ TO x v z E). auto.
    + constructor; auto. intros z Hz.
      destruct (upd_split l i y v Hi) as (l1 & l2 & -> & U & _). rewrite U in Hz.
      apply in_app_iff in Hz. destruct Hz as [Hz|[<-|Hz]].
      * apply Hx, in_app_iff; auto.
      * rewrite <- (cmp_cong_r cmp y v x TO E). apply Hx, in_app_iff. right; left; auto.
      * apply Hx, in_app_iff. right; right; auto.
Qed.

(* ---- removal ---- *)
Lemma renumber_ok ix p : forall i q0, NoDup ix ->
  renumber ix p i q0 =
    (map (fun k => if p <? k then k - 1 else k) ix,
     match find (fun jk => snd jk =? p) (combine (seq i (length ix)) ix) with
     | Some (j, _) => Some j | None => q0 end).
Proof.
  induction ix as [|k ix IH]; intros i q0 N; cbn [renumber map length seq combine find]; auto.
  inversion N as [|? ? Nk N']; subst. cbn [snd]. destruct (Nat.eqb_spec k p) as [->|Hn].
  - rewrite IH by auto. rewrite Nat.ltb_irrefl. f_equal.
    destruct (find _ (combine (seq (S i) (length ix)) ix)) as [[j w]|] eqn:F; auto. exfalso.
    apply find_some in F. destruct F as [F1 F2]. simpl in F2. apply Nat.eqb_eq in F2. subst w.
    apply in_combine_r in F1. auto.
  - rewrite IH by auto. reflexivity.
Qed.

Lemma find_pos ix p : NoDup ix -> forall i j, nth_error ix j = Some p ->
  find (fun jk => snd jk =? p) (combine (seq i (length ix)) ix) = Some (i + j, p).
Proof.
  induction 1 as [|k ix Nk N IH]; intros i [|j] H; simpl in *; try discriminate.
  - injection H as ->. rewrite Nat.eqb_refl, Nat.add_0_r. auto.
  - destruct (Nat.eqb_spec k p) as [->|].
    + exfalso. apply Nk. eapply nth_error_In; eauto.
    + rewrite (IH (S i) j H). do 2 f_equal. lia.
Qed.

Definition dec (p k : nat) : nat := if p <? k then k - 1 else k.

Lemma nth_drop {A} (l : list A) p k : k <> p -> p < length l -> nth_error (drop_at l p) (dec p k) = nth_error l k.
Proof.
  intros H Hp. unfold drop_at, dec. destruct (Nat.ltb_spec p k).
  - rewrite nth_error_app2; rewrite firstn_length; [|lia].
    replace (k - 1 - Nat.min p (length l)) with (k - S p) by lia.
    rewrite nth_error_skipn. f_equal. lia.
  - rewrite nth_error_app1 by (rewrite firstn_length; lia). apply nth_error_firstn. lia.
Qed.
Lemma drop_last {A} (l : list A) p : p = length l - 1 -> p < length l -> firstn (length l - 1) l = drop_at l p.
Proof.
  intros -> H. unfold drop_at. rewrite skipn_all2 by lia. rewrite app_nil_r. auto.
Qed.
Lemma drop_length {A} (l : list A) p : p < length l -> length (drop_at l p) = length l - 1.
Proof. intros H. unfold drop_at. rewrite app_length, firstn_length, skipn_length. lia. Qed.

Lemma iremove_ok st sv v k y : irep st sv -> hasvalue cmp st v = Ok (Some k) ->
  nth_error (vals st) k = Some y ->
  exists st' sv', iremove cmp st v = Ok st' /\ irep st' sv' /\ vals st' = drop_at (vals st) k.
Proof.
  intros R H Hk. pose proof R as (W & N & I & S). pose proof (idx_length _ _ R) as L1.
  pose proof (view_length _ _ W) as L2.
  destruct (vals_in_view st sv k y R Hk) as (q & Hq1 & Hq2).
  pose proof (nth_error_lt _ _ _ Hk) as Lk. pose proof (nth_error_lt _ _ _ Hq1) as Lq.
  unfold iremove. rewrite H; cbn [bind].
  rewrite renumber_ok by auto. rewrite (find_pos (idx st) k N 0 q Hq1). cbn [Nat.add].
  fold (dec k). change (fun k0 => if k <? k0 then k0 - 1 else k0) with (dec k).
  set (ix := map (dec k) (idx st)).
  assert (Lix : length ix = length (idx st)) by apply map_length.
  replace (if k <? length (vals st) - 1 then drop_at (vals st) k else firstn (length (vals st) - 1) (vals st))
    with (drop_at (vals st) k).
  2:{ destruct (Nat.ltb_spec k (length (vals st) - 1)); auto. symmetry. apply drop_last; lia. }
  replace (if q <? length (vals st) - 1 then drop_at ix q else firstn (length (vals st) - 1) ix)
    with (drop_at ix q).
  2:{ destruct (Nat.ltb_spec q (length (vals st) - 1)); auto.
      rewrite <- L1, <- Lix. symmetry. apply drop_last; lia. }
  assert (Q : exists a b, idx st = a ++ k :: b /\ length a = q).
  { destruct (upd_split (idx st) q k k Hq1) as (a & b & E1 & _ & E2). eauto. }
  destruct Q as (a & b & Eab & La).
  assert (Eix : drop_at ix q = map (dec k) (a ++ b)).
  { unfold ix. rewrite Eab, map_app. cbn [map].
    replace q with (length (map (dec k) a)) by (rewrite map_length; auto). rewrite drop_mid, map_app. auto. }
  assert (Ds : exists sa sb, sv = sa ++ y :: sb /\ length sa = q).
  { destruct (upd_split sv q y y Hq2) as (sa & sb & E1 & _ & E2). eauto. }
  destruct Ds as (sa & sb & -> & Lsa).
  assert (Nab : NoDup (a ++ b) /\ ~ In k (a ++ b)).
  { rewrite Eab in N. apply NoDup_remove in N. auto. }
  destruct Nab as [Nab Nk].
  eexists _, (sa ++ sb). split; [reflexivity|]. split; [|reflexivity].
  rewrite Eix. split; [|split; [|split]]; cbn [idx vals].
  - unfold view in *; cbn [idx vals]. rewrite Eab in W.
    assert (Wab : Forall2 (fun i v => nth_error (vals st) i = Some v) (a ++ b) (sa ++ sb)).
    { apply Forall2_app_inv_l in W. destruct W as (s1 & s2 & W1 & W2 & E).
      pose proof (Forall2_length _ _ _ W1). inversion W2 as [|? y' ? s2' W3 W4]; subst.
      assert (s1 = sa /\ sb = s2').
      { destruct (app_cons_inv _ _ _ _ _ _ E) as [(-> & _ & ->)|[(t & -> & _)|(t & -> & _)]]; auto;
        exfalso; rewrite app_length in *; simpl in *; lia. }
      destruct H1 as [-> ->]. apply Forall2_app; auto. }
    clear - Wab Nk Lk. induction Wab; simpl; constructor.
    + rewrite nth_drop; auto. intros ->. apply Nk. left; auto.
    + apply IHWab. intros C. apply Nk. right; auto.
  - assert (G : forall l, NoDup l -> ~ In k l -> NoDup (map (dec k) l)).
    { clear. induction 1 as [|x l Nx N IH]; intros H; simpl; constructor.
      - intros C. apply in_map_iff in C. destruct C as (z & E & Hz).
        assert (z <> x) by (intros ->; auto). assert (z <> k) by (intros ->; apply H; right; auto).
        assert (x <> k) by (intros ->; apply H; left; auto).
        unfold dec in E. destruct (Nat.ltb_spec k z), (Nat.ltb_spec k x); lia.
      - apply IH. intros C. apply H. right; auto. }
    apply G; auto.
  - intros i. rewrite drop_length by auto. split.
    + intros Hi. apply in_map_iff in Hi. destruct Hi as (z & <- & Hz).
      assert (Hz' : In z (idx st)) by (rewrite Eab; apply in_app_iff; apply in_app_iff in Hz; simpl; tauto).
      apply I in Hz'. assert (z <> k) by (intros ->; auto).
      unfold dec. destruct (Nat.ltb_spec k z); lia.
    + intros Hi. set (z := if i <? k then i else Datatypes.S i).
      assert (Hz : In z (idx st)) by (apply I; unfold z; destruct (Nat.ltb_spec i k); lia).
      assert (z <> k) by (unfold z; destruct (Nat.ltb_spec i k); lia).
      apply in_map_iff. exists z. split.
      * unfold dec, z. destruct (Nat.ltb_spec i k); [destruct (Nat.ltb_spec k i)|destruct (Nat.ltb_spec k (Datatypes.S i))]; lia.
      * rewrite Eab in Hz. apply in_app_iff in Hz. apply in_app_iff. simpl in Hz. intuition congruence.
  - apply incr_split in S. destruct S as (S1 & S2 & S3). inversion S2; subst.
    apply incr_app; auto. intros x z Hx Hz. apply S3; auto. right; auto.
Qed.

End Iset.
