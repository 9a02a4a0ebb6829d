(* Proofs about AvlModel: the array-indexed tree represents an inductive search tree;
   add and remove are simulated by functions on that tree. *)
From Coq Require Import List ZArith Lia Bool Arith Permutation.
From Verif Require Import Base AvlModel.
Import ListNotations.
Open Scope Z_scope.

Section AvlProofs.
Context {K V : Type}.

(* ---------------------------------------------------------------- *)
(* Inductive trees whose nodes remember their storage position.      *)

Inductive tr : Type :=
| E
| T (l : tr) (i : nat) (k : K) (v : V) (r : tr).

Fixpoint size (t : tr) : Z :=
  match t with E => 0 | T l _ _ _ r => size l + size r + 1 end.
Fixpoint ht (t : tr) : Z :=
  match t with E => 0 | T l _ _ _ r => Z.max (ht l) (ht r) + 1 end.
Fixpoint elems (t : tr) : list (nat * (K * V)) :=
  match t with E => [] | T l i k v r => elems l ++ (i, (k, v)) :: elems r end.
Definition idx (t : tr) : list nat := map fst (elems t).

Fixpoint rep (a : list (node K V)) (o : option nat) (t : tr) : Prop :=
  match t with
  | E => o = None
  | T l i k v r =>
    o = Some i /\
    exists n, nth_error a i = Some n /\ nkey n = k /\ nval n = v /\
      nweight n = size t /\ nheight n = ht t /\
      rep a (nleft n) l /\ rep a (nright n) r
  end.

Fixpoint avl (t : tr) : Prop :=
  match t with
  | E => True
  | T l _ _ _ r => -1 <= ht r - ht l <= 1 /\ avl l /\ avl r
  end.

Lemma idx_T l i k v r : idx (T l i k v r) = idx l ++ i :: idx r.
Proof. unfold idx; simpl; rewrite map_app; reflexivity. Qed.

Lemma size_nonneg t : 0 <= size t.
Proof. induction t; simpl; lia. Qed.
Lemma ht_nonneg t : 0 <= ht t.
Proof. induction t; simpl; lia. Qed.
Lemma ht_zero t : ht t = 0 -> t = E.
Proof. destruct t as [|l i k v r]; auto; simpl; pose proof (ht_nonneg l); pose proof (ht_nonneg r); lia. Qed.
Lemma ht_le_size t : ht t <= size t.
Proof.
  induction t as [|l IHl i k v r IHr]; simpl; [lia|].
  pose proof (size_nonneg l); pose proof (size_nonneg r); lia.
Qed.
Lemma size_elems t : size t = Z.of_nat (length (elems t)).
Proof. induction t; simpl; auto. rewrite app_length; simpl; lia. Qed.

Lemma rep_frame a a' o t :
  (forall i, In i (idx t) -> nth_error a' i = nth_error a i) ->
  rep a o t -> rep a' o t.
Proof.
  revert o; induction t as [|l IHl i k v r IHr]; simpl; auto.
  intros o Hf (Ho & n & Hn & Hk & Hv & Hw & Hh & Hl & Hr).
  rewrite idx_T in Hf.
  split; auto. exists n. repeat split; auto.
  - rewrite Hf; auto. rewrite in_app_iff; simpl; auto.
  - apply IHl; auto. intros; apply Hf; rewrite in_app_iff; auto.
  - apply IHr; auto. intros; apply Hf; rewrite in_app_iff; simpl; auto.
Qed.

Lemma rep_upd a o t i x : ~ In i (idx t) -> rep a o t -> rep (upd a i x) o t.
Proof.
  intros Hi Hr; apply (rep_frame a); auto.
  intros; rewrite nth_error_upd_ne; auto. congruence.
Qed.

Lemma rep_weight a o t : rep a o t -> weight a o = Ok (size t).
Proof.
  destruct t; simpl; intros H; [subst; reflexivity|].
  destruct H as (-> & n & Hn & _ & _ & Hw & _). simpl.
  unfold aget; rewrite Hn; simpl; congruence.
Qed.
Lemma rep_height a o t : rep a o t -> height a o = Ok (ht t).
Proof.
  destruct t; simpl; intros H; [subst; reflexivity|].
  destruct H as (-> & n & Hn & _ & _ & _ & Hh & _). simpl.
  unfold aget; rewrite Hn; simpl; congruence.
Qed.

Lemma rep_bound a o t i : rep a o t -> In i (idx t) -> (i < length a)%nat.
Proof.
  revert o; induction t as [|l IHl j k v r IHr]; intros o; [simpl; tauto|].
  intros (Ho & n & Hn & _ & _ & _ & _ & Hl & Hr).
  rewrite idx_T, in_app_iff; simpl; intros [Hi|[<-|Hi]]; eauto.
  eapply nth_error_lt; eauto.
Qed.

Lemma aget_some {A} (a : list A) i x : nth_error a i = Some x -> aget a i = Ok x.
Proof. intros H; apply aget_ok; auto. Qed.

Lemma modify_ok (a : list (node K V)) i n f :
  nth_error a i = Some n -> modify a i f = Ok (upd a i (f n)).
Proof.
  intros H; unfold modify. rewrite (aget_some _ _ _ H). simpl.
  apply aset_ok. eapply nth_error_lt; eauto.
Qed.

Lemma weight_node (a : list (node K V)) i n :
  nth_error a i = Some n -> weight a (Some i) = Ok (nweight n).
Proof. intros H; simpl; rewrite (aget_some _ _ _ H); reflexivity. Qed.

Lemma new_height_rep a i n l r :
  nth_error a i = Some n -> rep a (nleft n) l -> rep a (nright n) r ->
  new_height a i = Ok (Z.max (ht l) (ht r) + 1).
Proof.
  intros H Hl Hr; unfold new_height. rewrite (aget_some _ _ _ H); simpl.
  rewrite (rep_height _ _ _ Hl); simpl. rewrite (rep_height _ _ _ Hr); reflexivity.
Qed.
Lemma new_weight_rep a i n l r :
  nth_error a i = Some n -> rep a (nleft n) l -> rep a (nright n) r ->
  new_weight a i = Ok (size l + size r + 1).
Proof.
  intros H Hl Hr; unfold new_weight. rewrite (aget_some _ _ _ H); simpl.
  rewrite (rep_weight _ _ _ Hl); simpl. rewrite (rep_weight _ _ _ Hr); reflexivity.
Qed.
Lemma balance_rep a i n l r :
  nth_error a i = Some n -> rep a (nleft n) l -> rep a (nright n) r ->
  balance a i = Ok (ht r - ht l).
Proof.
  intros H Hl Hr; unfold balance. rewrite (aget_some _ _ _ H); simpl.
  rewrite (rep_height _ _ _ Hr); simpl. rewrite (rep_height _ _ _ Hl); reflexivity.
Qed.

Lemma upd_upd {A} (l : list A) i x y : upd (upd l i x) i y = upd l i y.
Proof. revert i; induction l; destruct i; simpl; f_equal; auto. Qed.

Definition same_except (P : nat -> Prop) (a a' : list (node K V)) :=
  length a' = length a /\ forall x, ~ P x -> nth_error a' x = nth_error a x.

Lemma rotate_left_rep a i n j m l rl rr :
  nth_error a i = Some n -> nright n = Some j -> nth_error a j = Some m ->
  i <> j ->
  rep a (nleft n) l -> rep a (nleft m) rl -> rep a (nright m) rr ->
  ~ In i (idx l) -> ~ In i (idx rl) -> ~ In i (idx rr) ->
  ~ In j (idx l) -> ~ In j (idx rl) -> ~ In j (idx rr) ->
  nweight n = size l + (size rl + size rr + 1) + 1 ->
  nweight m = size rl + size rr + 1 ->
  exists a', rotate_left a i = Ok (a', j) /\
    rep a' (Some j) (T (T l i (nkey n) (nval n) rl) j (nkey m) (nval m) rr) /\
    same_except (fun x => x = i \/ x = j) a a'.
Proof.
  intros Hi Hj Hm Hij Hl Hrl Hrr Nil Nirl Nirr Njl Njrl Njrr Wn Wm.
  assert (Li : (i < length a)%nat) by (eapply nth_error_lt; eauto).
  assert (Lj : (j < length a)%nat) by (eapply nth_error_lt; eauto).
  unfold rotate_left.
  rewrite (aget_some _ _ _ Hi); cbn [bind]. rewrite Hj; cbn [bind deref].
  rewrite (aget_some _ _ _ Hm); cbn [bind].
  rewrite (modify_ok _ _ _ _ Hi); cbn [bind].
  set (n1 := set_right n (nleft m)). set (a1 := upd a i n1).
  assert (Hm1 : nth_error a1 j = Some m) by (unfold a1; rewrite nth_error_upd_ne; auto).
  assert (Hi1 : nth_error a1 i = Some n1) by (unfold a1; rewrite nth_error_upd_eq; auto).
  rewrite (weight_node _ _ _ Hm1); cbn [bind].
  rewrite (rep_weight a1 _ rl) by (apply rep_upd; auto). cbn [bind].
  rewrite (modify_ok _ _ _ _ Hi1); cbn [bind]. unfold a1; rewrite upd_upd.
  set (n2 := set_weight n1 _). set (a2 := upd a i n2).
  assert (Hi2 : nth_error a2 i = Some n2) by (unfold a2; rewrite nth_error_upd_eq; auto).
  rewrite (new_height_rep a2 i n2 l rl Hi2) by (apply rep_upd; auto). cbn [bind].
  rewrite (modify_ok _ _ _ _ Hi2); cbn [bind]. unfold a2; rewrite upd_upd.
  set (n3 := set_height n2 _). set (a3 := upd a i n3).
  assert (Hi3 : nth_error a3 i = Some n3) by (unfold a3; rewrite nth_error_upd_eq; auto).
  assert (Hm3 : nth_error a3 j = Some m) by (unfold a3; rewrite nth_error_upd_ne; auto).
  rewrite (weight_node _ _ _ Hi3); cbn [bind].
  rewrite (rep_weight a3 _ rl) by (apply rep_upd; auto). cbn [bind].
  rewrite (modify_ok _ _ _ _ Hm3); cbn [bind].
  set (m4 := set_weight m _).
  assert (Hm4 : nth_error (upd a3 j m4) j = Some m4)
    by (rewrite nth_error_upd_eq; auto; unfold a3; rewrite length_upd; auto).
  rewrite (modify_ok _ _ _ _ Hm4); cbn [bind]. rewrite upd_upd.
  set (m5 := set_left m4 _). set (a5 := upd a3 j m5).
  assert (L3 : (j < length a3)%nat) by (unfold a3; rewrite length_upd; auto).
  assert (Hm5 : nth_error a5 j = Some m5) by (unfold a5; rewrite nth_error_upd_eq; auto).
  assert (Hi5 : nth_error a5 i = Some n3) by (unfold a5; rewrite nth_error_upd_ne; auto).
  assert (Wn3 : nweight n3 = size l + size rl + 1).
  { unfold n3, n2, n1; simpl. rewrite Wn, Wm. lia. }
  assert (Repi5 : rep a5 (Some i) (T l i (nkey n) (nval n) rl)).
  { simpl; split; auto. exists n3; repeat split; auto.
    - unfold a5; apply rep_upd; auto. apply rep_upd; auto.
    - unfold a5; apply rep_upd; auto. apply rep_upd; auto. }
  rewrite (new_height_rep a5 j m5 (T l i (nkey n) (nval n) rl) rr Hm5); auto.
  2:{ unfold a5; apply rep_upd; auto. apply rep_upd; auto. }
  cbn [bind]. rewrite (modify_ok _ _ _ _ Hm5); cbn [bind]. unfold a5; rewrite upd_upd.
  set (m6 := set_height m5 _).
  eexists; split; [reflexivity|]. split.
  - split; auto. exists m6. refine (conj _ (conj eq_refl (conj eq_refl (conj _ (conj eq_refl (conj _ _)))))).
    + rewrite nth_error_upd_eq; auto.
    + unfold m6, m5, m4; simpl. rewrite Wm.
      unfold n3, n2, n1 in Wn3; simpl in Wn3. lia.
    + unfold m6, m5, m4. simpl nleft.
      split; auto. exists n3; repeat split; auto.
      * rewrite nth_error_upd_ne; auto.
      * apply rep_upd; auto. apply rep_upd; auto.
      * apply rep_upd; auto. apply rep_upd; auto.
    + unfold m6, m5, m4; simpl nright. apply rep_upd; auto. apply rep_upd; auto.
  - split.
    + unfold a3; rewrite !length_upd; auto.
    + intros x Hx. unfold a3; rewrite !nth_error_upd_ne; auto.
Qed.

Lemma rotate_right_rep a i n j m l r lr :
  nth_error a i = Some n -> nleft n = Some j -> nth_error a j = Some m ->
  i <> j ->
  rep a (nright n) r -> rep a (nleft m) l -> rep a (nright m) lr ->
  ~ In i (idx l) -> ~ In i (idx lr) -> ~ In i (idx r) ->
  ~ In j (idx l) -> ~ In j (idx lr) -> ~ In j (idx r) ->
  nweight n = (size l + size lr + 1) + size r + 1 ->
  nweight m = size l + size lr + 1 ->
  exists a', rotate_right a i = Ok (a', j) /\
    rep a' (Some j) (T l j (nkey m) (nval m) (T lr i (nkey n) (nval n) r)) /\
    same_except (fun x => x = i \/ x = j) a a'.
Proof.
  intros Hi Hj Hm Hij Hr Hl Hlr Nil Nilr Nir Njl Njlr Njr Wn Wm.
  assert (Li : (i < length a)%nat) by (eapply nth_error_lt; eauto).
  assert (Lj : (j < length a)%nat) by (eapply nth_error_lt; eauto).
  unfold rotate_right.
  rewrite (aget_some _ _ _ Hi); cbn [bind]. rewrite Hj; cbn [bind deref].
  rewrite (aget_some _ _ _ Hm); cbn [bind].
  rewrite (modify_ok _ _ _ _ Hi); cbn [bind].
  set (n1 := set_left n (nright m)). set (a1 := upd a i n1).
  assert (Hm1 : nth_error a1 j = Some m) by (unfold a1; rewrite nth_error_upd_ne; auto).
  assert (Hi1 : nth_error a1 i = Some n1) by (unfold a1; rewrite nth_error_upd_eq; auto).
  rewrite (weight_node _ _ _ Hm1); cbn [bind].
  rewrite (rep_weight a1 _ lr) by (apply rep_upd; auto). cbn [bind].
  rewrite (modify_ok _ _ _ _ Hi1); cbn [bind]. unfold a1; rewrite upd_upd.
  set (n2 := set_weight n1 _). set (a2 := upd a i n2).
  assert (Hi2 : nth_error a2 i = Some n2) by (unfold a2; rewrite nth_error_upd_eq; auto).
  rewrite (new_height_rep a2 i n2 lr r Hi2) by (apply rep_upd; auto). cbn [bind].
  rewrite (modify_ok _ _ _ _ Hi2); cbn [bind]. unfold a2; rewrite upd_upd.
  set (n3 := set_height n2 _). set (a3 := upd a i n3).
  assert (Hi3 : nth_error a3 i = Some n3) by (unfold a3; rewrite nth_error_upd_eq; auto).
  assert (Hm3 : nth_error a3 j = Some m) by (unfold a3; rewrite nth_error_upd_ne; auto).
  rewrite (weight_node _ _ _ Hi3); cbn [bind].
  rewrite (rep_weight a3 _ lr) by (apply rep_upd; auto). cbn [bind].
  rewrite (modify_ok _ _ _ _ Hm3); cbn [bind].
  set (m4 := set_weight m _).
  assert (Hm4 : nth_error (upd a3 j m4) j = Some m4)
    by (rewrite nth_error_upd_eq; auto; unfold a3; rewrite length_upd; auto).
  rewrite (modify_ok _ _ _ _ Hm4); cbn [bind]. rewrite upd_upd.
  set (m5 := set_right m4 _). set (a5 := upd a3 j m5).
  assert (L3 : (j < length a3)%nat) by (unfold a3; rewrite length_upd; auto).
  assert (Hm5 : nth_error a5 j = Some m5) by (unfold a5; rewrite nth_error_upd_eq; auto).
  assert (Hi5 : nth_error a5 i = Some n3) by (unfold a5; rewrite nth_error_upd_ne; auto).
  assert (Wn3 : nweight n3 = size lr + size r + 1).
  { unfold n3, n2, n1; simpl. rewrite Wn, Wm. lia. }
  assert (Repi5 : rep a5 (Some i) (T lr i (nkey n) (nval n) r)).
  { simpl; split; auto. exists n3; repeat split; auto.
    - unfold a5; apply rep_upd; auto. apply rep_upd; auto.
    - unfold a5; apply rep_upd; auto. apply rep_upd; auto. }
  rewrite (new_height_rep a5 j m5 l (T lr i (nkey n) (nval n) r) Hm5); auto.
  2:{ unfold a5; apply rep_upd; auto. apply rep_upd; auto. }
  cbn [bind]. rewrite (modify_ok _ _ _ _ Hm5); cbn [bind]. unfold a5; rewrite upd_upd.
  set (m6 := set_height m5 _).
  eexists; split; [reflexivity|]. split.
  - split; auto. exists m6. refine (conj _ (conj eq_refl (conj eq_refl (conj _ (conj eq_refl (conj _ _)))))).
    + rewrite nth_error_upd_eq; auto.
    + unfold m6, m5, m4; simpl. rewrite Wm.
      unfold n3, n2, n1 in Wn3; simpl in Wn3. lia.
    + unfold m6, m5, m4; simpl nleft. apply rep_upd; auto. apply rep_upd; auto.
    + unfold m6, m5, m4. simpl nright.
      split; auto. exists n3; repeat split; auto.
      * rewrite nth_error_upd_ne; auto.
      * apply rep_upd; auto. apply rep_upd; auto.
      * apply rep_upd; auto. apply rep_upd; auto.
  - split.
    + unfold a3; rewrite !length_upd; auto.
    + intros x Hx. unfold a3; rewrite !nth_error_upd_ne; auto.
Qed.

(* ---------------------------------------------------------------- *)
(* Rebalancing.                                                      *)

Definition rotl (t : tr) : tr :=
  match t with
  | T l i k v (T rl j k' v' rr) => T (T l i k v rl) j k' v' rr
  | _ => t
  end.
Definition rotr (t : tr) : tr :=
  match t with
  | T (T l j k' v' lr) i k v r => T l j k' v' (T lr i k v r)
  | _ => t
  end.
Definition leans_right (t : tr) : bool :=
  match t with E => false | T l _ _ _ r => ht r - ht l >? 0 end.
Definition leans_left (t : tr) : bool :=
  match t with E => false | T l _ _ _ r => ht r - ht l <? 0 end.
Definition bal (l : tr) (i : nat) (k : K) (v : V) (r : tr) : tr :=
  if ht r - ht l <? -1 then
    rotr (T (if leans_right l then rotl l else l) i k v r)
  else if ht r - ht l >? 1 then
    rotl (T l i k v (if leans_left r then rotr r else r))
  else T l i k v r.

Lemma elems_rotl t : elems (rotl t) = elems t.
Proof.
  destruct t as [|l i k v [|rl j k' v' rr]]; simpl; auto.
  rewrite <- app_assoc; reflexivity.
Qed.
Lemma elems_rotr t : elems (rotr t) = elems t.
Proof.
  destruct t as [|[|l j k' v' lr] i k v r]; simpl; auto.
  rewrite <- app_assoc; reflexivity.
Qed.
Lemma idx_rotl t : idx (rotl t) = idx t.
Proof. unfold idx; rewrite elems_rotl; auto. Qed.
Lemma idx_rotr t : idx (rotr t) = idx t.
Proof. unfold idx; rewrite elems_rotr; auto. Qed.
Lemma elems_bal l i k v r : elems (bal l i k v r) = elems (T l i k v r).
Proof.
  unfold bal.
  destruct (_ <? _); [|destruct (_ >? _)]; auto.
  - rewrite elems_rotr; simpl. destruct (leans_right l); rewrite ?elems_rotl; auto.
  - rewrite elems_rotl; simpl. destruct (leans_left r); rewrite ?elems_rotr; auto.
Qed.
Lemma idx_bal l i k v r : idx (bal l i k v r) = idx (T l i k v r).
Proof. unfold idx; rewrite elems_bal; auto. Qed.

Lemma nodup_T l i k v r :
  NoDup (idx (T l i k v r)) <->
  NoDup (idx l) /\ NoDup (idx r) /\ ~ In i (idx l) /\ ~ In i (idx r) /\
  (forall x, In x (idx l) -> In x (idx r) -> False).
Proof.
  rewrite idx_T. generalize (idx l) (idx r). clear. intros L R. split.
  - intros H. pose proof (NoDup_remove_1 _ _ _ H) as H1.
    pose proof (NoDup_remove_2 _ _ _ H) as H2.
    rewrite in_app_iff in H2.
    repeat split; auto.
    + clear H H2. induction L; [constructor|]. inversion H1; subst.
      constructor; [rewrite in_app_iff in *; tauto | auto].
    + clear H H2. induction L; auto. inversion H1; auto.
    + clear H H2. induction L; simpl; intros x Hx Hy; auto.
      inversion H1; subst. destruct Hx as [<-|Hx]; [|eauto].
      rewrite in_app_iff in *; tauto.
  - intros (HL & HR & HiL & HiR & D).
    apply NoDup_Add with (a := i) (l := L ++ R).
    + apply Add_app.
    + split; [|rewrite in_app_iff; tauto].
      clear HiL HiR. induction L; simpl; auto. inversion HL; subst.
      constructor.
      * rewrite in_app_iff; intros [?|?]; auto. apply (D a); simpl; auto.
      * apply IHL; auto. intros; eapply D; simpl; eauto.
Qed.

Lemma same_except_trans (P Q R : nat -> Prop) a b c :
  same_except P a b -> same_except Q b c ->
  (forall x, P x -> R x) -> (forall x, Q x -> R x) -> same_except R a c.
Proof.
  intros [L1 F1] [L2 F2] HP HQ; split; [congruence|].
  intros x Hx. rewrite F2, F1; auto.
Qed.

Lemma rep_same P a b o t :
  same_except P a b -> (forall x, In x (idx t) -> ~ P x) -> rep a o t -> rep b o t.
Proof.
  intros [_ F] H. apply rep_frame. intros; apply F; auto.
Qed.

Lemma same_except_upd (P : nat -> Prop) a i x :
  P i -> same_except P a (upd a i x).
Proof.
  intros HP; split; [apply length_upd|].
  intros y Hy. rewrite nth_error_upd_ne; auto. intros ->; auto.
Qed.

Ltac mem :=
  repeat (rewrite ?idx_T, ?in_app_iff in *; cbn [In] in *).
Ltac nin :=
  intros; try assumption; try reflexivity; try congruence;
  mem; try tauto;
  try (intros ->; tauto);
  try (intro; exfalso; subst;
       first [ tauto
             | match goal with
               | D : forall x, _ -> _ -> False, H : In _ _ |- _ =>
                 eapply D; [|exact H]; mem; tauto
               | D : forall x, _ -> _ -> False, H : In _ _ |- _ =>
                 eapply D; [exact H|]; mem; tauto
               end ]).

Lemma rebalance_rep a i n l r :
  nth_error a i = Some n ->
  rep a (nleft n) l -> rep a (nright n) r ->
  nweight n = size l + size r + 1 ->
  nheight n = Z.max (ht l) (ht r) + 1 ->
  NoDup (idx (T l i (nkey n) (nval n) r)) ->
  exists a' o', rebalance a (Some i) = Ok (a', o') /\
    rep a' o' (bal l i (nkey n) (nval n) r) /\
    same_except (fun x => In x (idx (T l i (nkey n) (nval n) r))) a a'.
Proof.
  intros Hi Hl Hr Hw Hh ND.
  assert (Li : (i < length a)%nat) by (eapply nth_error_lt; eauto).
  pose proof (proj1 (nodup_T _ _ _ _ _) ND) as (NDl & NDr & Nil & Nir & D).
  assert (Self : rep a (Some i) (T l i (nkey n) (nval n) r)).
  { split; auto. exists n; repeat split; auto. }
  unfold rebalance. rewrite (aget_some _ _ _ Hi); cbn [bind].
  pose proof (ht_nonneg l) as Pl. pose proof (ht_nonneg r) as Pr.
  destruct (Z.ltb_spec (nheight n) 2).
  { exists a, (Some i). split; auto. unfold bal.
    destruct (Z.ltb_spec (ht r - ht l) (-1)); [lia|].
    rewrite Z.gtb_ltb. destruct (Z.ltb_spec 1 (ht r - ht l)); [lia|].
    split; auto. split; auto. }
  rewrite (balance_rep _ _ _ _ _ Hi Hl Hr); cbn [bind]. unfold bal.
  destruct (Z.ltb_spec (ht r - ht l) (-1)).
  - destruct l as [|ll j kj vj lr]; [simpl in *; lia|].
    destruct Hl as (Hlj & m & Hm & Km & Vm & Wm & Hm' & Hll & Hlr).
    rewrite Hlj; cbn [deref bind].
    rewrite (balance_rep _ _ _ _ _ Hm Hll Hlr); cbn [bind].
    pose proof (proj1 (nodup_T _ _ _ _ _) NDl) as (NDll & NDlr & Njll & Njlr & D').
    assert (Njr : ~ In j (idx r)) by (clear Self; nin).
    assert (Nij : i <> j) by (clear Self; nin).
    assert (Nill : ~ In i (idx ll)) by (clear Self; nin).
    assert (Nilr : ~ In i (idx lr)) by (clear Self; nin).
    clear Self ND. subst kj vj.
    simpl leans_right. destruct (Z.gtb_spec (ht lr - ht ll) 0).
    + destruct lr as [|lrl q kq vq lrr]; [simpl in *; pose proof (ht_nonneg ll); lia|].
      destruct Hlr as (Hq & mq & Hmq & Kq & Vq & Wq & Hq' & Hlrl & Hlrr).
      pose proof (proj1 (nodup_T _ _ _ _ _) NDlr) as (NDlrl & NDlrr & Nqlrl & Nqlrr & D'').
      subst kq vq.
      assert (Njq : j <> q) by nin.
      assert (Niq : i <> q) by nin.
      assert (Nqll : ~ In q (idx ll)) by nin.
      assert (Nqr : ~ In q (idx r)) by nin.
      destruct (rotate_left_rep a j m q mq ll lrl lrr) as (a1 & E1 & R1 & S1); [nin .. |].
      rewrite E1; cbn [bind].
      assert (Hi1 : nth_error a1 i = Some n).
      { rewrite (proj2 S1); auto. intros [->| ->]; tauto. }
      rewrite (modify_ok _ _ _ _ Hi1); cbn [bind].
      set (n2 := set_left n (Some q)).
      assert (L1 : (i < length a1)%nat) by (eapply nth_error_lt; eauto).
      assert (Hi2 : nth_error (upd a1 i n2) i = Some n2) by (rewrite nth_error_upd_eq; auto).
      assert (R2 : rep (upd a1 i n2) (Some q)
                (T (T ll j (nkey m) (nval m) lrl) q (nkey mq) (nval mq) lrr)).
      { apply rep_upd; auto. mem. intuition congruence. }
      destruct R2 as (_ & m2 & Hm2 & K2 & V2 & W2 & Ht2 & R2l & R2r).
      assert (Hr2 : rep (upd a1 i n2) (nright n2) r).
      { apply rep_upd; auto. eapply rep_same; eauto.
        intros x Hx [->| ->]; tauto. }
      destruct (rotate_right_rep (upd a1 i n2) i n2 q m2
                  (T ll j (nkey m) (nval m) lrl) r lrr) as (a3 & E3 & R3 & S3); auto.
      { mem. intuition congruence. }
      { nin. }
      { mem. intuition congruence. }
      { unfold n2; simpl. rewrite Hw; simpl; lia. }
      rewrite E3; cbn [bind]. exists a3, (Some q). split; auto. split.
      * rewrite K2, V2 in R3. exact R3.
      * eapply same_except_trans; [exact S1| |intros x [->| ->]|intros x Hx; exact Hx].
        2,3: clear -j; mem; tauto.
        eapply same_except_trans; [apply (same_except_upd (fun x => x = i)); auto|exact S3| |].
        -- intros x ->. clear -i; mem; tauto.
        -- intros x [->| ->]; clear -i; mem; tauto.
    + cbn [bind].
      destruct (rotate_right_rep a i n j m ll r lr) as (a1 & E1 & R1 & S1); auto; try tauto.
      rewrite E1; cbn [bind]. exists a1, (Some j). split; auto. split; [exact R1|].
      eapply same_except_trans; [exact S1| |intros x [->| ->]|intros x Hx; exact Hx].
      * split; auto.
      * mem; tauto.
      * mem; tauto.
  - rewrite Z.gtb_ltb. destruct (Z.ltb_spec 1 (ht r - ht l)).
    2:{ exists a, (Some i). split; auto. split; auto. split; auto. }
    destruct r as [|rl j kj vj rr]; [simpl in *; lia|].
    destruct Hr as (Hrj & m & Hm & Km & Vm & Wm & Hm' & Hrl & Hrr).
    rewrite Hrj; cbn [deref bind].
    rewrite (balance_rep _ _ _ _ _ Hm Hrl Hrr); cbn [bind].
    pose proof (proj1 (nodup_T _ _ _ _ _) NDr) as (NDrl & NDrr & Njrl & Njrr & D').
    assert (Njl : ~ In j (idx l)) by (clear Self; nin).
    assert (Nij : i <> j) by (clear Self; nin).
    assert (Nirl : ~ In i (idx rl)) by (clear Self; nin).
    assert (Nirr : ~ In i (idx rr)) by (clear Self; nin).
    clear Self ND. subst kj vj.
    simpl leans_left. destruct (Z.ltb_spec (ht rr - ht rl) 0).
    + destruct rl as [|rll q kq vq rlr]; [simpl in *; pose proof (ht_nonneg rr); lia|].
      destruct Hrl as (Hq & mq & Hmq & Kq & Vq & Wq & Hq' & Hrll & Hrlr).
      pose proof (proj1 (nodup_T _ _ _ _ _) NDrl) as (NDrll & NDrlr & Nqrll & Nqrlr & D'').
      subst kq vq.
      assert (Njq : j <> q) by nin.
      assert (Niq : i <> q) by nin.
      assert (Nqrr : ~ In q (idx rr)) by nin.
      assert (Nql : ~ In q (idx l)) by nin.
      destruct (rotate_right_rep a j m q mq rll rr rlr) as (a1 & E1 & R1 & S1); [nin .. |].
      rewrite E1; cbn [bind].
      assert (Hi1 : nth_error a1 i = Some n).
      { rewrite (proj2 S1); auto. intros [->| ->]; tauto. }
      rewrite (modify_ok _ _ _ _ Hi1); cbn [bind].
      set (n2 := set_right n (Some q)).
      assert (L1 : (i < length a1)%nat) by (eapply nth_error_lt; eauto).
      assert (Hi2 : nth_error (upd a1 i n2) i = Some n2) by (rewrite nth_error_upd_eq; auto).
      assert (R2 : rep (upd a1 i n2) (Some q)
                (T rll q (nkey mq) (nval mq) (T rlr j (nkey m) (nval m) rr))).
      { apply rep_upd; auto. mem. intuition congruence. }
      destruct R2 as (_ & m2 & Hm2 & K2 & V2 & W2 & Ht2 & R2l & R2r).
      assert (Hl2 : rep (upd a1 i n2) (nleft n2) l).
      { apply rep_upd; auto. eapply rep_same; eauto.
        intros x Hx [->| ->]; tauto. }
      destruct (rotate_left_rep (upd a1 i n2) i n2 q m2
                  l rll (T rlr j (nkey m) (nval m) rr)) as (a3 & E3 & R3 & S3); auto.
      { nin. }
      { mem. intuition congruence. }
      { mem. intuition congruence. }
      { unfold n2; simpl. rewrite Hw; simpl; lia. }
      rewrite E3; cbn [bind]. exists a3, (Some q). split; auto. split.
      * rewrite K2, V2 in R3. exact R3.
      * eapply same_except_trans; [exact S1| |intros x [->| ->]|intros x Hx; exact Hx].
        2,3: clear -j; mem; tauto.
        eapply same_except_trans; [apply (same_except_upd (fun x => x = i)); auto|exact S3| |].
        -- intros x ->. clear -i; mem; tauto.
        -- intros x [->| ->]; clear -i; mem; tauto.
    + cbn [bind].
      destruct (rotate_left_rep a i n j m l rl rr) as (a1 & E1 & R1 & S1); auto; try tauto.
      rewrite E1; cbn [bind]. exists a1, (Some j). split; auto. split; [exact R1|].
      eapply same_except_trans; [exact S1| |intros x [->| ->]|intros x Hx; exact Hx].
      * split; auto.
      * mem; tauto.
      * mem; tauto.
Qed.

Lemma finish_rep a i n l r :
  nth_error a i = Some n ->
  rep a (nleft n) l -> rep a (nright n) r ->
  NoDup (idx (T l i (nkey n) (nval n) r)) ->
  exists a1 a' o', refresh a i = Ok a1 /\ rebalance a1 (Some i) = Ok (a', o') /\
    rep a' o' (bal l i (nkey n) (nval n) r) /\
    same_except (fun x => In x (idx (T l i (nkey n) (nval n) r))) a a'.
Proof.
  intros Hi Hl Hr ND.
  assert (Li : (i < length a)%nat) by (eapply nth_error_lt; eauto).
  pose proof (proj1 (nodup_T _ _ _ _ _) ND) as (_ & _ & Nil & Nir & _).
  unfold refresh. rewrite (new_weight_rep _ _ _ _ _ Hi Hl Hr); cbn [bind].
  rewrite (modify_ok _ _ _ _ Hi); cbn [bind].
  set (n1 := set_weight n _).
  assert (Hi1 : nth_error (upd a i n1) i = Some n1) by (rewrite nth_error_upd_eq; auto).
  rewrite (new_height_rep _ _ _ l r Hi1) by (apply rep_upd; auto); cbn [bind].
  rewrite (modify_ok _ _ _ _ Hi1), upd_upd.
  set (n2 := set_height n1 _).
  assert (Hi2 : nth_error (upd a i n2) i = Some n2) by (rewrite nth_error_upd_eq; auto).
  destruct (rebalance_rep (upd a i n2) i n2 l r) as (a' & o' & E' & R' & S'); auto;
    try (apply rep_upd; auto).
  exists (upd a i n2), a', o'. split; auto. split; auto. split; auto.
  eapply same_except_trans;
    [apply (same_except_upd (fun x => x = i)); auto|exact S'| |intros x Hx; exact Hx].
  intros x ->. rewrite idx_T, in_app_iff; simpl; tauto.
Qed.

(* ---------------------------------------------------------------- *)
(* Insertion.                                                        *)

Variable kcmp : K -> K -> comparison.
Variable merged : bool.

Fixpoint ins (t : tr) (n : nat) (k : K) (v : V) : tr :=
  match t with
  | E => T E n k v E
  | T l i k' v' r =>
    match kcmp k k' with
    | Eq => T l i (if merged then k else k') v r
    | Lt => bal (ins l n k v) i k' v' r
    | Gt => bal l i k' v' (ins r n k v)
    end
  end.

Fixpoint hit (t : tr) (k : K) : bool :=
  match t with
  | E => false
  | T l i k' v' r =>
    match kcmp k k' with
    | Eq => true
    | Lt => hit l k
    | Gt => hit r k
    end
  end.

Lemma ins_elems t n k v :
  (hit t k = true /\ exists xs i k' v' ys,
     elems t = xs ++ (i, (k', v')) :: ys /\ kcmp k k' = Eq /\
     elems (ins t n k v) = xs ++ (i, ((if merged then k else k'), v)) :: ys) \/
  (hit t k = false /\ exists xs ys,
     elems t = xs ++ ys /\ elems (ins t n k v) = xs ++ (n, (k, v)) :: ys).
Proof.
  induction t as [|l IHl i k' v' r IHr]; simpl.
  - right; split; auto. exists [], []; auto.
  - destruct (kcmp k k') eqn:C.
    + left; split; auto. exists (elems l), i, k', v', (elems r); auto.
    + rewrite elems_bal; simpl.
      destruct IHl as [(H & xs & j & kj & vj & ys & E1 & C1 & E2)|(H & xs & ys & E1 & E2)].
      * left; split; auto. exists xs, j, kj, vj, (ys ++ (i,(k',v')) :: elems r).
        rewrite E1, E2, <- !app_assoc; simpl; auto.
      * right; split; auto. exists xs, (ys ++ (i,(k',v')) :: elems r).
        rewrite E1, E2, <- !app_assoc; simpl; auto.
    + rewrite elems_bal; simpl.
      destruct IHr as [(H & xs & j & kj & vj & ys & E1 & C1 & E2)|(H & xs & ys & E1 & E2)].
      * left; split; auto. exists (elems l ++ (i,(k',v')) :: xs), j, kj, vj, ys.
        rewrite E1, E2, <- !app_assoc; simpl; auto.
      * right; split; auto. exists (elems l ++ (i,(k',v')) :: xs), ys.
        rewrite E1, E2, <- !app_assoc; simpl; auto.
Qed.

Lemma ins_idx t n k v :
  if hit t k then idx (ins t n k v) = idx t
  else exists xs ys, idx t = xs ++ ys /\ idx (ins t n k v) = xs ++ n :: ys.
Proof.
  unfold idx.
  destruct (ins_elems t n k v) as [(-> & xs & j & kj & vj & ys & E1 & C1 & E2)|(-> & xs & ys & E1 & E2)].
  - rewrite E1, E2, !map_app; reflexivity.
  - exists (map fst xs), (map fst ys). rewrite E1, E2, !map_app; auto.
Qed.

Lemma ins_idx_in t n k v x : In x (idx (ins t n k v)) -> In x (idx t) \/ (x = n /\ hit t k = false).
Proof.
  pose proof (ins_idx t n k v) as H. destruct (hit t k).
  - rewrite H; auto.
  - destruct H as (xs & ys & E1 & E2). rewrite E1, E2, !in_app_iff; simpl. intuition.
Qed.

Lemma ins_nodup t n k v : NoDup (idx t) -> ~ In n (idx t) -> NoDup (idx (ins t n k v)).
Proof.
  pose proof (ins_idx t n k v) as H. intros ND Nn. destruct (hit t k).
  - rewrite H; auto.
  - destruct H as (xs & ys & E1 & E2). rewrite E1 in *. rewrite E2.
    apply NoDup_Add with (a := n) (l := xs ++ ys); auto. apply Add_app.
Qed.

Lemma append_rep t : forall fuel a o k v,
  rep a o t -> NoDup (idx t) -> ht t < Z.of_nat fuel ->
  exists a' o' p,
    append kcmp merged fuel a o k v = Ok (a', o', Some p) /\
    rep a' o' (ins t (length a) k v) /\
    length a' = (length a + if hit t k then 0 else 1)%nat /\
    (forall x, (x < length a)%nat -> ~ In x (idx t) -> nth_error a' x = nth_error a x).
Proof.
  induction t as [|l IHl i k' v' r IHr]; intros fuel a o k v Hrep ND Hf.
  - simpl in Hrep; subst o. destruct fuel as [|fuel]; [simpl in Hf; lia|]. simpl.
    eexists _, _, _. split; [reflexivity|]. split; [|split].
    + split; auto. exists (Node k v None None 1 1). simpl; repeat split; auto.
      rewrite nth_error_app2, Nat.sub_diag; auto.
    + rewrite app_length; simpl; lia.
    + intros x Hx _. rewrite nth_error_app1; auto.
  - pose proof (ht_nonneg l); pose proof (ht_nonneg r).
    destruct fuel as [|fuel]; [simpl in Hf; lia|].
    destruct Hrep as (-> & n & Hn & Hk & Hv & Hw & Hh & Hl & Hr).
    pose proof (proj1 (nodup_T _ _ _ _ _) ND) as (NDl & NDr & Nil & Nir & D).
    assert (Li : (i < length a)%nat) by (eapply nth_error_lt; eauto).
    cbn [append ins hit]. rewrite (aget_some _ _ _ Hn); cbn [bind]. rewrite Hk.
    destruct (kcmp k k') eqn:C.
    + rewrite (modify_ok _ _ _ _ Hn); cbn [bind].
      eexists _, _, _. split; [reflexivity|]. split; [|split].
      * split; auto. rewrite Hk. eexists; split; [apply nth_error_upd_eq; auto|].
        simpl; repeat split; auto; apply rep_upd; auto.
      * rewrite length_upd; lia.
      * intros x Hx Nx. rewrite nth_error_upd_ne; auto. intros ->; apply Nx; mem; auto.
    + destruct (IHl fuel a (nleft n) k v Hl NDl) as (a1 & l' & p & E1 & R1 & L1 & F1);
        [simpl in Hf; lia|].
      rewrite E1; cbn [bind].
      assert (Hn1 : nth_error a1 i = Some n) by (rewrite F1; auto).
      assert (Li1 : (i < length a1)%nat) by (eapply nth_error_lt; eauto).
      rewrite (modify_ok _ _ _ _ Hn1); cbn [bind].
      set (n2 := set_left n l'). set (a2 := upd a1 i n2).
      assert (Hn2 : nth_error a2 i = Some n2) by (apply nth_error_upd_eq; auto).
      assert (Nnl : ~ In (length a) (idx l)).
      { intros Hx. apply (rep_bound _ _ _ _ Hl) in Hx; lia. }
      assert (Nnr : ~ In (length a) (idx r)).
      { intros Hx. apply (rep_bound _ _ _ _ Hr) in Hx; lia. }
      assert (Rl2 : rep a2 (nleft n2) (ins l (length a) k v)).
      { apply rep_upd; auto. intros Hx. apply ins_idx_in in Hx. intuition lia. }
      assert (Rr2 : rep a2 (nright n2) r).
      { apply rep_upd; auto. apply (rep_frame a); auto.
        intros x Hx. apply F1; [eapply rep_bound; eauto|]. intros Hy; eapply D; eauto. }
      assert (ND2 : NoDup (idx (T (ins l (length a) k v) i (nkey n2) (nval n2) r))).
      { apply nodup_T. repeat split; auto.
        - apply ins_nodup; auto.
        - intros Hx. apply ins_idx_in in Hx. intuition lia.
        - intros x Hx Hy. apply ins_idx_in in Hx. destruct Hx as [Hx|[-> _]]; auto. eapply D; eauto. }
      destruct (finish_rep a2 i n2 _ _ Hn2 Rl2 Rr2 ND2) as (a3 & a' & o' & E3 & E4 & R4 & S4).
      rewrite E3; cbn [bind]. rewrite E4; cbn [bind].
      exists a', o', p. split; auto. split; [|split].
      * change (nkey n2) with (nkey n) in R4; change (nval n2) with (nval n) in R4.
        rewrite Hk, Hv in R4. exact R4.
      * rewrite (proj1 S4). unfold a2; rewrite length_upd, L1. reflexivity.
      * intros x Hx Nx. rewrite idx_T, in_app_iff in Nx; simpl in Nx.
        rewrite (proj2 S4).
        -- unfold a2. rewrite nth_error_upd_ne; [|tauto]. apply F1; tauto.
        -- rewrite idx_T, in_app_iff; simpl. intros [Hy|Hy]; [|tauto].
           apply ins_idx_in in Hy. intuition lia.
    + destruct (IHr fuel a (nright n) k v Hr NDr) as (a1 & r' & p & E1 & R1 & L1 & F1);
        [simpl in Hf; lia|].
      rewrite E1; cbn [bind].
      assert (Hn1 : nth_error a1 i = Some n) by (rewrite F1; auto).
      assert (Li1 : (i < length a1)%nat) by (eapply nth_error_lt; eauto).
      rewrite (modify_ok _ _ _ _ Hn1); cbn [bind].
      set (n2 := set_right n r'). set (a2 := upd a1 i n2).
      assert (Hn2 : nth_error a2 i = Some n2) by (apply nth_error_upd_eq; auto).
      assert (Nnl : ~ In (length a) (idx l)).
      { intros Hx. apply (rep_bound _ _ _ _ Hl) in Hx; lia. }
      assert (Nnr : ~ In (length a) (idx r)).
      { intros Hx. apply (rep_bound _ _ _ _ Hr) in Hx; lia. }
      assert (Rr2 : rep a2 (nright n2) (ins r (length a) k v)).
      { apply rep_upd; auto. intros Hx. apply ins_idx_in in Hx. intuition lia. }
      assert (Rl2 : rep a2 (nleft n2) l).
      { apply rep_upd; auto. apply (rep_frame a); auto.
        intros x Hx. apply F1. - exact (rep_bound _ _ _ _ Hl Hx). - intros Hy; eapply D; eauto. }
      assert (ND2 : NoDup (idx (T l i (nkey n2) (nval n2) (ins r (length a) k v)))).
      { apply nodup_T. repeat split; auto.
        - apply ins_nodup; auto.
        - intros Hx. apply ins_idx_in in Hx. intuition lia.
        - intros x Hx Hy. apply ins_idx_in in Hy. destruct Hy as [Hy|[-> _]]; auto. eapply D; eauto. }
      destruct (finish_rep a2 i n2 _ _ Hn2 Rl2 Rr2 ND2) as (a3 & a' & o' & E3 & E4 & R4 & S4).
      rewrite E3; cbn [bind]. rewrite E4; cbn [bind].
      exists a', o', p. split; auto. split; [|split].
      * change (nkey n2) with (nkey n) in R4; change (nval n2) with (nval n) in R4.
        rewrite Hk, Hv in R4. exact R4.
      * rewrite (proj1 S4). unfold a2; rewrite length_upd, L1. reflexivity.
      * intros x Hx Nx. rewrite idx_T, in_app_iff in Nx; simpl in Nx.
        rewrite (proj2 S4).
        -- unfold a2. rewrite nth_error_upd_ne; [|tauto]. apply F1; tauto.
        -- rewrite idx_T, in_app_iff; simpl. intros [Hy|[Hy|Hy]]; [tauto|tauto|].
           apply ins_idx_in in Hy. intuition lia.
Qed.

(* Balance: adding to an AVL tree gives an AVL tree whose height grows by at most 1. *)
Lemma bal_avl_r l i k v r :
  avl l -> avl r -> -2 <= ht r - ht l <= 2 ->
  avl (bal l i k v r) /\
  Z.max (ht l) (ht r) <= ht (bal l i k v r) <= Z.max (ht l) (ht r) + 1 /\
  (-1 <= ht r - ht l <= 1 -> ht (bal l i k v r) = Z.max (ht l) (ht r) + 1).
Proof.
  clear kcmp merged. intros Al Ar Hb. unfold bal.
  destruct (Z.ltb_spec (ht r - ht l) (-1)).
  - destruct l as [|ll j k' v' lr]; [simpl in *; pose proof (ht_nonneg r); lia|].
    simpl in Al. destruct Al as (Bl & All & Alr). simpl leans_right.
    destruct (Z.gtb_spec (ht lr - ht ll) 0).
    + destruct lr as [|lrl q kq vq lrr]; [simpl in *; pose proof (ht_nonneg ll); lia|].
      simpl in *. repeat split; try tauto; lia.
    + simpl in *. repeat split; try tauto; lia.
  - rewrite Z.gtb_ltb. destruct (Z.ltb_spec 1 (ht r - ht l)).
    + destruct r as [|rl j k' v' rr]; [simpl in *; pose proof (ht_nonneg l); lia|].
      simpl in Ar. destruct Ar as (Br & Arl & Arr). simpl leans_left.
      destruct (Z.ltb_spec (ht rr - ht rl) 0).
      * destruct rl as [|rll q kq vq rlr]; [simpl in *; pose proof (ht_nonneg rr); lia|].
        simpl in *. repeat split; try tauto; lia.
      * simpl in *. repeat split; try tauto; lia.
    + simpl. repeat split; auto; lia.
Qed.

Lemma ins_avl t n k v :
  avl t -> avl (ins t n k v) /\ ht t <= ht (ins t n k v) <= ht t + 1.
Proof.
  induction t as [|l IHl i k' v' r IHr]; simpl.
  - intros _. repeat split; auto; lia.
  - intros (B & Al & Ar).
    destruct (kcmp k k'); simpl.
    + repeat split; auto; lia.
    + destruct (IHl Al) as [A1 H1].
      destruct (bal_avl_r (ins l n k v) i k' v' r A1 Ar) as (A2 & H2 & H3); [lia|].
      split; auto. lia.
    + destruct (IHr Ar) as [A1 H1].
      destruct (bal_avl_r l i k' v' (ins r n k v) Al A1) as (A2 & H2 & H3); [lia|].
      split; auto. lia.
Qed.
End AvlProofs.
