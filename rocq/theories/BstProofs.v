(* Proofs about the pointer based red/black tree. *)
From Coq Require Import List ZArith Lia Bool Arith Sorted Permutation.
From Verif Require Import Base MapSpec BstModel.
Import ListNotations.

Section Lists.
Context {K V : Type}.
Variable kcmp : K -> K -> comparison.
Hypothesis TO : total_preorder kcmp.
Notation elist := (list (K * V)).
Definition srt : elist -> Prop := StronglySorted (fun a b => kcmp (fst a) (fst b) = Lt).
Lemma srt_app (a b : elist) : srt (a ++ b) <-> srt a /\ srt b /\ forall p q, In p a -> In q b -> kcmp (fst p) (fst q) = Lt.
Proof.
  unfold srt. induction a as [|e a IH]; cbn.
  - split; [intros; repeat split; auto; [constructor|contradiction]|tauto].
  - split.
    + intros H. apply StronglySorted_inv in H. destruct H as [H F]. apply IH in H. destruct H as (H1 & H2 & H3).
      rewrite Forall_app in F. destruct F as [F1 F2]. repeat split; auto; [now constructor|].
      intros p q [<-|Ip] Iq; auto. rewrite Forall_forall in F2. auto.
    + intros (H1 & H2 & H3). apply StronglySorted_inv in H1. destruct H1 as [H1 F]. constructor.
      * apply IH. repeat split; auto.
      * apply Forall_app. split; auto. apply Forall_forall. intros q Iq. apply (H3 e q); auto.
Qed.
Lemma srt_cons (e : K * V) (b : elist) : srt (e :: b) <-> srt b /\ forall q, In q b -> kcmp (fst e) (fst q) = Lt.
Proof.
  change (e :: b) with ([e] ++ b). rewrite srt_app. split.
  - intros (_ & H & H2). split; auto. intros. apply H2; cbn; auto.
  - intros [H H2]. split; [repeat constructor|]. split; auto. intros p q [<-|[]] Iq. auto.
Qed.
Lemma srt_mid (a b : elist) x : srt (a ++ x :: b) <-> srt a /\ srt b /\ (forall p, In p a -> kcmp (fst p) (fst x) = Lt) /\
  (forall q, In q b -> kcmp (fst x) (fst q) = Lt).
Proof.
  rewrite srt_app, srt_cons. split.
  - intros (H1 & (H2 & H3) & H4). repeat split; auto. intros p Ip. apply H4; cbn; auto.
  - intros (H1 & H2 & H3 & H4). repeat split; auto. intros p q Ip [<-|Iq]; auto.
    apply (cmp_trans _ TO) with (fst x); auto.
Qed.
(* put an element in its place *)
Fixpoint put (k : K) (v : V) (l : elist) : elist :=
  match l with
  | [] => [(k, v)]
  | (x, w) :: l' => match kcmp k x with Lt => (k, v) :: l | Eq => (x, v) :: l' | Gt => (x, w) :: put k v l' end
  end.
Definition drop (k : K) (l : elist) : elist := filter (fun e => negb (same kcmp k (fst e))) l.
Lemma put_left k v (a b : elist) x : kcmp k (fst x) = Lt -> put k v (a ++ x :: b) = put k v a ++ x :: b.
Proof.
  intros H. induction a as [|[y w] a IH]; cbn.
  - destruct x as [x w]. cbn in *. now rewrite H.
  - destruct (kcmp k y); auto. now rewrite IH.
Qed.
Lemma put_gt k v (a b : elist) : (forall p, In p a -> kcmp k (fst p) = Gt) -> put k v (a ++ b) = a ++ put k v b.
Proof.
  intros H. induction a as [|[y w] a IH]; cbn; auto. pose proof (H (y, w) (or_introl eq_refl)) as E. cbn in E. rewrite E.
  rewrite IH; auto. intros. apply H. cbn. auto.
Qed.
Lemma put_right k v (a b : elist) x w : srt (a ++ (x, w) :: b) -> kcmp k x = Gt ->
  put k v (a ++ (x, w) :: b) = a ++ (x, w) :: put k v b.
Proof.
  intros Hs H. apply srt_mid in Hs. destruct Hs as (_ & _ & Ha & _).
  rewrite put_gt. { cbn. now rewrite H. }
  intros p Ip. apply cmp_lt_gt; auto. apply (cmp_trans _ TO) with x; [apply Ha; auto|]. now apply cmp_gt_lt.
Qed.
Lemma put_eq k v (a b : elist) x w : srt (a ++ (x, w) :: b) -> kcmp k x = Eq ->
  put k v (a ++ (x, w) :: b) = a ++ (x, v) :: b.
Proof.
  intros Hs H. apply srt_mid in Hs. destruct Hs as (_ & _ & Ha & _).
  rewrite put_gt. { cbn. now rewrite H. }
  intros p Ip. rewrite (cmp_cong _ TO k x) by auto. apply cmp_lt_gt; auto.
Qed.
Lemma same_lt k x : kcmp k x = Lt -> same kcmp k x = false.
Proof. unfold same. now intros ->. Qed.
Lemma same_gt k x : kcmp k x = Gt -> same kcmp k x = false.
Proof. unfold same. now intros ->. Qed.
Lemma same_eq k x : kcmp k x = Eq -> same kcmp k x = true.
Proof. unfold same. now intros ->. Qed.
Lemma drop_none k (a : elist) : (forall p, In p a -> kcmp k (fst p) <> Eq) -> drop k a = a.
Proof.
  induction a as [|e a IH]; cbn; intros H; auto. unfold same at 1. destruct (kcmp k (fst e)) eqn:E; cbn.
  - exfalso. apply (H e); auto.
  - f_equal. apply IH; auto.
  - f_equal. apply IH; auto.
Qed.
Lemma drop_app k (a b : elist) : drop k (a ++ b) = drop k a ++ drop k b.
Proof. apply filter_app. Qed.
Lemma drop_cons k (e : K * V) (b : elist) : drop k (e :: b) = if same kcmp k (fst e) then drop k b else e :: drop k b.
Proof. unfold drop. cbn. now destruct (same kcmp k (fst e)). Qed.
Lemma above k x (b : elist) : (forall q, In q b -> kcmp x (fst q) = Lt) -> kcmp k x <> Gt -> forall q, In q b -> kcmp k (fst q) = Lt.
Proof.
  intros H G q Iq. destruct (kcmp k x) eqn:E; try contradiction.
  - rewrite (cmp_cong _ TO k x) by auto. auto.
  - apply (cmp_trans _ TO) with x; auto.
Qed.
Lemma under k x (a : elist) : (forall p, In p a -> kcmp (fst p) x = Lt) -> kcmp k x <> Lt -> forall p, In p a -> kcmp k (fst p) = Gt.
Proof.
  intros H G p Ip. destruct (kcmp k x) eqn:E; try contradiction.
  - rewrite (cmp_cong _ TO k x) by auto. apply cmp_lt_gt; auto.
  - apply cmp_lt_gt; auto. apply (cmp_trans _ TO) with x; auto. now apply cmp_gt_lt.
Qed.
Lemma drop_left k (a b : elist) x w : srt (a ++ (x, w) :: b) -> kcmp k x = Lt -> drop k (a ++ (x, w) :: b) = drop k a ++ (x, w) :: b.
Proof.
  intros Hs H. apply srt_mid in Hs. destruct Hs as (_ & _ & _ & Hb). rewrite drop_app. f_equal. apply drop_none.
  intros p [<-|Ip]; cbn; [congruence|]. rewrite (above k x b) by (auto; congruence). congruence.
Qed.
Lemma drop_right k (a b : elist) x w : srt (a ++ (x, w) :: b) -> kcmp k x = Gt -> drop k (a ++ (x, w) :: b) = a ++ (x, w) :: drop k b.
Proof.
  intros Hs H. apply srt_mid in Hs. destruct Hs as (_ & _ & Ha & _). rewrite drop_app, drop_cons. cbn [fst]. rewrite same_gt by auto.
  f_equal. apply drop_none. intros p Ip. rewrite (under k x a) by (auto; congruence). congruence.
Qed.
Lemma drop_eq k (a b : elist) x w : srt (a ++ (x, w) :: b) -> kcmp k x = Eq -> drop k (a ++ (x, w) :: b) = a ++ b.
Proof.
  intros Hs H. apply srt_mid in Hs. destruct Hs as (_ & _ & Ha & Hb). rewrite drop_app, drop_cons. cbn [fst]. rewrite same_eq by auto.
  f_equal; apply drop_none; intros p Ip.
  - rewrite (under k x a) by (auto; congruence). congruence.
  - rewrite (above k x b) by (auto; congruence). congruence.
Qed.
Definition absent (k : K) (l : elist) : Prop := forall e, In e l -> kcmp k (fst e) <> Eq.
Lemma absent_left k (a b : elist) x w : srt (a ++ (x, w) :: b) -> kcmp k x = Lt -> absent k a -> absent k (a ++ (x, w) :: b).
Proof.
  intros Hs H A e Ie. apply srt_mid in Hs. destruct Hs as (_ & _ & _ & Hb). apply in_app_or in Ie. destruct Ie as [Ie|[<-|Ie]]; auto.
  - cbn. congruence.
  - rewrite (above k x b) by (auto; congruence). congruence.
Qed.
Lemma absent_right k (a b : elist) x w : srt (a ++ (x, w) :: b) -> kcmp k x = Gt -> absent k b -> absent k (a ++ (x, w) :: b).
Proof.
  intros Hs H A e Ie. apply srt_mid in Hs. destruct Hs as (_ & _ & Ha & _). apply in_app_or in Ie. destruct Ie as [Ie|[<-|Ie]]; auto.
  - rewrite (under k x a) by (auto; congruence). congruence.
  - cbn. congruence.
Qed.
Lemma put_in k v (l : elist) e : In e (put k v l) -> kcmp (fst e) k = Eq \/ In e l.
Proof.
  induction l as [|[x w] l IH]; cbn.
  - intros [<-|[]]. left. now apply cmp_refl.
  - destruct (kcmp k x) eqn:E.
    + intros [<-|I]; auto. left. cbn. now apply cmp_eq_sym.
    + intros [<-|I]; auto. left. cbn. now apply cmp_refl.
    + intros [<-|I]; auto. destruct (IH I); auto.
Qed.
Lemma put_srt k v (l : elist) : srt l -> srt (put k v l).
Proof.
  induction l as [|[x w] l IH]; intros Hs; cbn.
  - repeat constructor.
  - apply srt_cons in Hs. destruct Hs as [Hs F]. destruct (kcmp k x) eqn:E.
    + apply srt_cons. auto.
    + apply srt_cons. split; [now apply srt_cons|]. intros q [<-|Iq]; auto. apply (cmp_trans _ TO) with x; auto.
    + apply srt_cons. split; auto. intros q Iq. cbn. apply put_in in Iq. destruct Iq as [Iq|Iq]; [|now apply F].
      rewrite (cmp_cong_r _ (fst q) k) by auto. now apply cmp_gt_lt.
Qed.
Lemma drop_srt k (l : elist) : srt l -> srt (drop k l).
Proof.
  induction l as [|e l IH]; intros Hs; cbn; auto. apply srt_cons in Hs. destruct Hs as [Hs F].
  destruct (negb _); auto. apply srt_cons. split; auto. intros q Iq. apply F. now apply filter_In in Iq.
Qed.
Lemma has_in (l : elist) k : m_has kcmp l k = true <-> exists e, In e l /\ kcmp k (fst e) = Eq.
Proof.
  unfold m_has. rewrite existsb_exists. unfold same. split; intros (e & Ie & E); exists e; split; auto.
  - now destruct (kcmp k (fst e)).
  - now rewrite E.
Qed.
Lemma has_absent (l : elist) k : m_has kcmp l k = false <-> absent k l.
Proof.
  split.
  - intros H e Ie E. assert (X : m_has kcmp l k = true) by (apply has_in; eauto). congruence.
  - intros A. destruct (m_has kcmp l k) eqn:E; auto. apply has_in in E. destruct E as (e & Ie & E). now apply A in E.
Qed.
Lemma put_len k v (l : elist) : srt l -> length (put k v l) = length l + if m_has kcmp l k then 0 else 1.
Proof.
  induction l as [|[x w] l IH]; intros Hs; cbn; auto. apply srt_cons in Hs. destruct Hs as [Hs F]. cbn in F.
  unfold m_has in *. cbn. unfold same at 1. destruct (kcmp k x) eqn:E; cbn; try lia.
  - change (existsb (fun e => same kcmp k (fst e)) l) with (m_has kcmp l k).
    rewrite (proj2 (has_absent l k)); [lia|]. intros e Ie. rewrite (above k x l) by (auto; congruence). congruence.
  - rewrite IH; auto.
Qed.
End Lists.

Section Shape.
Context {K V : Type}.
Notation tree := (tree K V).
Fixpoint elems (t : tree) : list (K * V) := match t with Null => [] | Node _ _ l k v r => elems l ++ (k, v) :: elems r end.
(* a black node of a 2-3-4 tree with black height n: the red nodes that belong to it hang on the left *)
Inductive blk : nat -> tree -> Prop :=
| blk_null : blk 0 Null
| blk_2 n o l k v r : blk n l -> blk n r -> blk (S n) (Node false o l k v r)
| blk_3 n o l k v r : red1 n l -> blk n r -> blk (S n) (Node false o l k v r)
| blk_4 n o l k v r : red2 n l -> blk n r -> blk (S n) (Node false o l k v r)
with red1 : nat -> tree -> Prop :=
| red_1 n o l k v r : blk n l -> blk n r -> red1 n (Node true o l k v r)
with red2 : nat -> tree -> Prop :=
| red_2 n o l k v r : red1 n l -> blk n r -> red2 n (Node true o l k v r).
(* every node knows how many come before it below it *)
Fixpoint orders (t : tree) : Prop :=
  match t with Null => True | Node _ o l _ _ r => o = Z.of_nat (size l) /\ orders l /\ orders r end.
Lemma size_elems (t : tree) : size t = length (elems t).
Proof. induction t; cbn; auto. rewrite app_length. cbn. lia. Qed.
Lemma blk_not_red n (t : tree) : blk n t -> is_red t = false.
Proof. now destruct 1. Qed.
Lemma blk_0 (t : tree) : blk 0 t -> t = Null.
Proof. now inversion 1. Qed.
Lemma red1_red n (t : tree) : red1 n t -> is_red t = true.
Proof. now destruct 1. Qed.

Definition keeps (t t' : tree) : Prop := elems t' = elems t /\ (orders t -> orders t').
Lemma keeps_refl (t : tree) : keeps t t.
Proof. split; auto. Qed.
Lemma fixup_id c o l k v (r : tree) : is_red r = false -> fixup (Node c o l k v r) = Ok (Node c o l k v r).
Proof. intros H. unfold fixup. cbn. now rewrite H. Qed.
Lemma fixup_red c o l k v o' l' k' v' (r' : tree) : exists o2,
  fixup (Node c o l k v (Node true o' l' k' v' r')) = Ok (Node c o2 (Node true o l k v l') k' v' r') /\
  keeps (Node c o l k v (Node true o' l' k' v' r')) (Node c o2 (Node true o l k v l') k' v' r').
Proof.
  eexists. split; [reflexivity|]. split.
  - cbn. now rewrite <- app_assoc.
  - cbn [orders size]. intros (-> & Ol & -> & Ol' & Or'). repeat split; auto. lia.
Qed.
(* fixup of a node whose right child may be red *)
Definition fixes (Q : tree -> Prop) (t : tree) : Prop := exists t', fixup t = Ok t' /\ keeps t t' /\ Q t'.
Lemma fixes_id (Q : tree -> Prop) c o l k v (r : tree) : is_red r = false -> Q (Node c o l k v r) -> fixes Q (Node c o l k v r).
Proof. intros H q. eexists. split; [now apply fixup_id|]. split; auto. apply keeps_refl. Qed.
Lemma fixes_red (Q : tree -> Prop) c o l k v o' l' k' v' (r' : tree) :
  (forall o2, Q (Node c o2 (Node true o l k v l') k' v' r')) -> fixes Q (Node c o l k v (Node true o' l' k' v' r')).
Proof. intros q. destruct (fixup_red c o l k v o' l' k' v' r') as (o2 & E & H). eexists. split; [exact E|]. auto. Qed.
End Shape.

Section Insert.
Context {K V : Type}.
Variable kcmp : K -> K -> comparison.
Hypothesis TO : total_preorder kcmp.
Notation tree := (tree K V).

Lemma get_spec (t : tree) k : srt kcmp (elems t) -> get kcmp t k = m_find kcmp (elems t) k.
Proof.
  induction t as [|c o l IHl x v r IHr]; cbn [get elems]; intros Hs; auto.
  pose proof Hs as Hs'. apply srt_mid in Hs'; auto. destruct Hs' as (Hl & Hr & Hp & Hq). cbn in Hp, Hq.
  assert (F : forall f (a b : list (K * V)), find f (a ++ b) = match find f a with Some e => Some e | None => find f b end).
  { intros f a b. induction a; cbn; auto. destruct (f a); auto. }
  assert (N : forall a : list (K * V), (forall p, In p a -> kcmp k (fst p) <> Eq) -> find (fun e => same kcmp k (fst e)) a = None).
  { intros a H. destruct (find _ a) as [e|] eqn:E; auto. apply find_some in E. destruct E as [I E].
    unfold same in E. exfalso. apply (H e); auto. now destruct (kcmp k (fst e)). }
  unfold m_find. rewrite F. cbn [find fst]. unfold eqk, ltk, same at 2. destruct (kcmp k x) eqn:E.
  - rewrite N; auto. intros p Ip. rewrite (under kcmp TO k x (elems l)) by (auto; congruence). congruence.
  - rewrite IHl by auto. unfold m_find. destruct (find _ (elems l)); auto. rewrite N; auto.
    intros p Ip. rewrite (above kcmp TO k x (elems r)) by (auto; congruence). congruence.
  - rewrite IHr by auto. unfold m_find. rewrite (N (elems l)); auto.
    intros p Ip. rewrite (under kcmp TO k x (elems l)) by (auto; congruence). congruence.
Qed.

(* what inserting k, v in t gives *)
Definition inserts (k : K) (v : V) (t : tree) (Q : tree -> Prop) (m : outcome (tree * bool)) : Prop :=
  exists t', m = Ok (t', negb (m_has kcmp (elems t) k)) /\ elems t' = put kcmp k v (elems t) /\ (orders t -> orders t') /\ Q t'.
Definition desc (fuel : nat) (k : K) (v : V) (h : tree) : outcome (tree * bool) :=
  match h with
  | Null => UB NullDeref
  | Node c n l x w r =>
    let* (h, o) :=
      if eqk kcmp k x then Ok (Node c n l x v r, false)
      else if ltk kcmp k x then
        let* (l, o) := ins kcmp fuel l k v false in
        Ok (Node c (if o : bool then n + 1 else n)%Z l x w r, o)
      else
        let* (r, o) := ins kcmp fuel r k v false in
        Ok (Node c n l x w r, o) in
    let* h := fixup h in
    Ok (h, o)
  end.
Lemma ins_desc fuel c o l x w r k v : ins kcmp (S fuel) (Node c o l x w r) k v false = let* h := split4 (Node c o l x w r) in desc fuel k v h.
Proof. reflexivity. Qed.
Lemma has_mid (a b : list (K * V)) x w k : srt kcmp (a ++ (x, w) :: b) ->
  m_has kcmp (a ++ (x, w) :: b) k = match kcmp k x with Eq => true | Lt => m_has kcmp a k | Gt => m_has kcmp b k end.
Proof.
  intros Hs. destruct (kcmp k x) eqn:E.
  - apply has_in. exists (x, w). split; auto. apply in_or_app. cbn. auto.
  - destruct (m_has kcmp a k) eqn:Ha.
    + apply has_in in Ha. destruct Ha as (e & Ie & H). apply has_in. exists e. split; auto. apply in_or_app. auto.
    + apply has_absent. apply has_absent in Ha. now apply absent_left.
  - destruct (m_has kcmp b k) eqn:Ha.
    + apply has_in in Ha. destruct Ha as (e & Ie & H). apply has_in. exists e. split; auto. apply in_or_app. cbn. auto.
    + apply has_absent. apply has_absent in Ha. now apply absent_right.
Qed.
Lemma desc_ok fuel k v c n l x w r (Q Ql Qr : tree -> Prop) : srt kcmp (elems (Node c n l x w r)) ->
  inserts k v l Ql (ins kcmp fuel l k v false) -> inserts k v r Qr (ins kcmp fuel r k v false) ->
  (forall v', fixes Q (Node c n l x v' r)) ->
  (forall n' l', Ql l' -> fixes Q (Node c n' l' x w r)) -> (forall r', Qr r' -> fixes Q (Node c n l x w r')) ->
  inserts k v (Node c n l x w r) Q (desc fuel k v (Node c n l x w r)).
Proof.
  intros Hs (l' & El & Eel & Ol & ql) (r' & Er & Eer & Or & qr) F0 Fl Fr. cbn [elems] in Hs.
  assert (Cut : forall a t1, (orders (Node c n l x w r) -> orders t1) -> elems t1 = put kcmp k v (elems (Node c n l x w r)) ->
    a = negb (m_has kcmp (elems (Node c n l x w r)) k) -> fixes Q t1 ->
    inserts k v (Node c n l x w r) Q (let* h := fixup t1 in Ok (h, a))).
  { intros a t1 Ot Et -> (t' & E & (Ek & Ok') & q). rewrite E. cbn [bind]. exists t'. split; auto. split; [congruence|]. split; auto. }
  unfold desc, eqk, ltk. pose proof (has_mid _ _ x w k Hs) as Hm. apply srt_mid in Hs as Hs'; auto. destruct Hs' as (Hl & Hr & _ & _).
  destruct (kcmp k x) eqn:E; cbn [bind].
  - apply Cut; auto.
    + cbn [elems]. symmetry. now apply put_eq.
    + cbn [elems]. now rewrite Hm.
  - rewrite El. cbn [bind]. apply Cut; auto.
    + cbn [orders]. intros (-> & H1 & H2). repeat split; auto. rewrite !size_elems, Eel, put_len by auto.
      destruct (m_has kcmp (elems l) k); cbn [negb]; lia.
    + cbn [elems]. rewrite Eel. symmetry. now apply put_left.
    + cbn [elems]. now rewrite Hm.
  - rewrite Er. cbn [bind]. apply Cut; auto.
    + cbn [orders]. intros (-> & H1 & H2). repeat split; auto.
    + cbn [elems]. rewrite Eer. symmetry. now apply put_right.
    + cbn [elems]. now rewrite Hm.
Qed.
Lemma split4_id c o l x w (r : tree) : is_red l = false \/ (exists n, red1 n l) -> split4 (Node c o l x w r) = Ok (Node c o l x w r).
Proof.
  intros H. unfold split4. cbn. destruct l as [|c' o' ll x' w' lr]; auto. destruct H as [H|(n & H)]; cbn in *.
  - now rewrite H.
  - inversion H as [n' o'' l'' k'' v'' r'' Bl Br]. subst. rewrite (blk_not_red n ll) by auto. now rewrite andb_false_r.
Qed.
Definition small2 (t : tree) : Prop := match t with Node _ _ l _ _ _ => is_red l = false \/ exists n, red1 n l | Null => False end.
Lemma fixes_blk n (c : bool) o l x w (r : tree) : blk n l -> blk n r \/ red1 n r -> fixes (fun t => if c then red1 n t \/ red2 n t else blk (S n) t) (Node c o l x w r).
Proof.
  intros Bl [Br|Rr].
  - apply fixes_id; [now apply blk_not_red in Br|]. destruct c; [left|]; now constructor.
  - inversion Rr as [n' o' l' k' v' r' Bl' Br']. subst. apply fixes_red. intros o2. destruct c.
    + right. constructor; auto. now constructor.
    + apply blk_3; auto. now constructor.
Qed.
Lemma fixes_3 n o l x w (r : tree) : red1 n l -> blk n r \/ red1 n r -> fixes (blk (S n)) (Node false o l x w r).
Proof.
  intros Rl [Br|Rr].
  - apply fixes_id; [now apply blk_not_red in Br|]. now apply blk_3.
  - inversion Rr as [n' o' l' k' v' r' Bl' Br']. subst. apply fixes_red. intros o2. apply blk_4; auto. now constructor.
Qed.
Lemma fixes_4 n o l x w (r : tree) : red2 n l -> blk n r -> fixes (blk (S n)) (Node false o l x w r).
Proof. intros Rl Br. apply fixes_id; [now apply blk_not_red in Br|]. now apply blk_4. Qed.

Lemma ins_ok fuel : forall t n k v, size t < fuel -> srt kcmp (elems t) ->
  (blk n t -> inserts k v t (fun t' => (blk n t' \/ red1 n t') /\ (small2 t -> blk n t')) (ins kcmp fuel t k v false)) /\
  (red1 n t -> inserts k v t (fun t' => red1 n t' \/ red2 n t') (ins kcmp fuel t k v false)).
Proof.
  induction fuel as [|fuel IH]; intros t n k v Hf Hs; [lia|].
  assert (IB : forall s m, size s < size t -> srt kcmp (elems s) -> blk m s ->
    inserts k v s (fun t' => (blk m t' \/ red1 m t') /\ (small2 s -> blk m t')) (ins kcmp fuel s k v false)).
  { intros s m Ls Ss B. apply (IH s m k v); auto. lia. }
  assert (IR : forall s m, size s < size t -> srt kcmp (elems s) -> red1 m s ->
    inserts k v s (fun t' => red1 m t' \/ red2 m t') (ins kcmp fuel s k v false)).
  { intros s m Ls Ss B. apply (IH s m k v); auto. lia. }
  clear IH. split; intros B.
  - destruct B as [|n o l x w r Bl Br|n o l x w r Rl Br|n o l x w r Rl Br].
    + cbn. eexists. split; [reflexivity|]. split; auto. cbn. repeat split; auto; try tauto. right. repeat constructor.
    + rewrite ins_desc, split4_id by (left; now apply blk_not_red in Bl). cbn [bind].
      pose proof Hs as Hs'. cbn [elems] in Hs'. apply srt_mid in Hs'; auto. destruct Hs' as (Sl & Sr & _).
      cut (inserts k v (Node false o l x w r) (blk (S n)) (desc fuel k v (Node false o l x w r))).
      { intros (t' & E1 & E2 & E3 & E4). exists t'. repeat (split; auto). }
      eapply desc_ok; auto; [apply (IB l n); auto; cbn; lia|apply (IB r n); auto; cbn; lia| | |].
      * intros v'. apply (fixes_blk n false); auto.
      * intros n' l' [[Bl'|Rl'] _]; [apply (fixes_blk n false); auto|apply fixes_3; auto].
      * intros r' [Br' _]. apply (fixes_blk n false); auto.
    + rewrite ins_desc, split4_id by (right; eauto). cbn [bind].
      pose proof Hs as Hs'. cbn [elems] in Hs'. apply srt_mid in Hs'; auto. destruct Hs' as (Sl & Sr & _).
      cut (inserts k v (Node false o l x w r) (blk (S n)) (desc fuel k v (Node false o l x w r))).
      { intros (t' & E1 & E2 & E3 & E4). exists t'. repeat (split; auto). }
      eapply desc_ok; auto; [apply (IR l n); auto; cbn; lia|apply (IB r n); auto; cbn; lia| | |].
      * intros v'. apply fixes_3; auto.
      * intros n' l' [Rl'|Rl']; [apply fixes_3; auto|apply fixes_4; auto].
      * intros r' [Br' _]. apply fixes_3; auto.
    + inversion Rl as [n' o' ll lx lw lr Rll Blr]. subst. inversion Rll as [n' o'' lll lxx lww llr Blll Bllr]. subst.
      rewrite ins_desc. cbn [split4 left_of bind is_red andb rotR left_red set_red set_left].
      set (h := Node true o' (Node false o'' lll lxx lww llr) lx lw (Node false (o - (o' + 1))%Z lr x w r)).
      cut (inserts k v h (red1 (S n)) (desc fuel k v h)).
      { intros (t' & E1 & E2 & E3 & E4). exists t'. split.
        - rewrite E1. do 3 f_equal. subst h. cbn. now rewrite <- !app_assoc.
        - split; [rewrite E2; subst h; cbn; now rewrite <- !app_assoc|]. split; [|split; auto].
          + intros (-> & (-> & (-> & H1 & H2) & H3) & H4). apply E3. subst h. cbn [orders size]. repeat split; auto. cbn [size]. lia.
          + intros [H|(m & H)]; [discriminate|]. inversion H as [? ? ? ? ? ? X]. inversion X. }
      assert (Sh : srt kcmp (elems h)) by (subst h; revert Hs; cbn; now rewrite <- !app_assoc).
      pose proof Sh as Sh'. subst h. cbn [elems] in Sh'. apply srt_mid in Sh'; auto. destruct Sh' as (Sl & Sr & _).
      assert (B1 : blk (S n) (Node false o'' lll lxx lww llr)) by now constructor.
      assert (B2 : blk (S n) (Node false (o - (o' + 1))%Z lr x w r)) by now constructor.
      eapply desc_ok; auto; [apply (IB _ (S n)); auto; cbn; lia|apply (IB _ (S n)); auto; cbn; lia| | |].
      * intros v'. apply fixes_id; auto. now constructor.
      * intros n' l' [_ B']. apply fixes_id; auto. constructor; auto. apply B'. left. now apply blk_not_red in Blll.
      * intros r' [_ B']. specialize (B' (or_introl (blk_not_red _ _ Blr))). apply fixes_id; [now apply blk_not_red in B'|]. now constructor.
  - destruct B as [n o l x w r Bl Br]. rewrite ins_desc, split4_id by (left; now apply blk_not_red in Bl). cbn [bind].
    pose proof Hs as Hs'. cbn [elems] in Hs'. apply srt_mid in Hs'; auto. destruct Hs' as (Sl & Sr & _).
    eapply desc_ok; auto; [apply (IB l n); auto; cbn; lia|apply (IB r n); auto; cbn; lia| | |].
    + intros v'. apply (fixes_blk n true); auto.
    + intros n' l' [[Bl'|Rl'] _]; [apply (fixes_blk n true); auto|]. apply fixes_id; [now apply blk_not_red in Br|]. right. now constructor.
    + intros r' [Br' _]. apply (fixes_blk n true); auto.
Qed.
Lemma insert_ok (t : tree) n k v : blk n t -> srt kcmp (elems t) ->
  exists t' n', insert kcmp t k v = Ok t' /\ elems t' = put kcmp k v (elems t) /\ blk n' t' /\ (orders t -> orders t').
Proof.
  intros B Hs. unfold insert. destruct (proj1 (ins_ok (S (size t)) t n k v (le_n _) Hs) B) as (t' & E & Ee & Eo & [[Bt|Rt] _]).
  - rewrite E. cbn [bind]. destruct Bt.
    + exfalso. cbn in Ee. destruct (elems t) as [|[x w] e]; cbn in Ee; [discriminate|]. destruct (kcmp k x); discriminate.
    + cbn [set_red]. eexists _, (S n). split; [reflexivity|]. split; [exact Ee|]. split; [|exact Eo]. solve [apply blk_2; auto|apply blk_3; auto|apply blk_4; auto].
    + cbn [set_red]. eexists _, (S n). split; [reflexivity|]. split; [exact Ee|]. split; [|exact Eo]. solve [apply blk_2; auto|apply blk_3; auto|apply blk_4; auto].
    + cbn [set_red]. eexists _, (S n). split; [reflexivity|]. split; [exact Ee|]. split; [|exact Eo]. solve [apply blk_2; auto|apply blk_3; auto|apply blk_4; auto].
  - rewrite E. cbn [bind]. destruct Rt. cbn [set_red]. eexists _, (S n). split; [reflexivity|]. split; [exact Ee|]. split; [|exact Eo]. solve [apply blk_2; auto|apply blk_3; auto|apply blk_4; auto].
Qed.
End Insert.
