(* Queries and histories of the AVL tree related to MapSpec. *)
From Coq Require Import List ZArith Lia Bool Arith Permutation Sorted.
From Verif Require Import Base MapSpec AvlModel AvlProofs AvlRemove.
Import ListNotations.
Open Scope Z_scope.

Section Q.
Context {K V : Type}.
Variable kcmp : K -> K -> comparison.
Hypothesis TO : total_preorder kcmp.
Variable merged : bool.
Notation tr := (@tr K V).
Notation kof e := (fst (snd e)).
Notation sorted := (sorted kcmp).
Notation inv := (inv kcmp).

Definition payload (n : node K V) : K * V := (nkey n, nval n).

(* ---- positions and elements ---- *)
Lemma rep_elems (t : tr) : forall a o i kv, rep a o t -> In (i, kv) (elems t) ->
  exists n, nth_error a i = Some n /\ payload n = kv.
Proof.
  induction t as [|l IHl j k v r IHr]; simpl; [tauto|].
  intros a o i kv (_ & n & Hn & Hk & Hv & _ & _ & Hl & Hr) Hin.
  rewrite in_app_iff in Hin; simpl in Hin. destruct Hin as [Hin|[Hin|Hin]]; eauto.
  injection Hin as <- <-. exists n; split; auto. unfold payload; congruence.
Qed.

Lemma inv_payload st t i kv : inv st t ->
  In (i, kv) (elems t) <-> nth_error (map payload (arr st)) i = Some kv.
Proof.
  intros I. pose proof (inv_nodup _ _ _ I) as ND. destruct I as (R & P & _).
  split.
  - intros H. destruct (rep_elems _ _ _ _ _ R H) as (n & Hn & Hp).
    rewrite nth_error_map, Hn; simpl; congruence.
  - intros H. assert (Hi : In i (idx t)).
    { eapply Permutation_in; [apply Permutation_sym, P|]. apply in_seq.
      apply nth_error_lt in H. rewrite map_length in H. lia. }
    unfold idx in Hi. apply in_map_iff in Hi. destruct Hi as ([i' kv'] & E1 & H1).
    simpl in E1; subst i'. destruct (rep_elems _ _ _ _ _ R H1) as (n & Hn & Hp).
    rewrite nth_error_map, Hn in H; simpl in H. congruence.
Qed.

Lemma NoDup_map_fst_inj {A B} (l : list (A * B)) : NoDup (map fst l) -> NoDup l.
Proof. apply NoDup_map_inv. Qed.

Definition indexed {A} (l : list A) : list (nat * A) := combine (seq 0 (length l)) l.

Lemma in_indexed_aux {A} (l : list A) : forall s i x,
  In (i, x) (combine (seq s (length l)) l) <-> (s <= i)%nat /\ nth_error l (i - s) = Some x.
Proof.
  induction l as [|y l IH]; intros s i x; simpl.
  - split; [tauto|]. intros [_ H]; destruct (i - s)%nat; discriminate.
  - rewrite IH. split.
    + intros [H|[H1 H2]].
      * injection H as -> ->. split; auto. rewrite Nat.sub_diag; auto.
      * split; [lia|]. replace (i - s)%nat with (S (i - S s)) by lia. auto.
    + intros [H1 H2]. destruct (Nat.eq_dec i s).
      * subst. rewrite Nat.sub_diag in H2. simpl in H2. left; congruence.
      * right. split; [lia|]. replace (i - s)%nat with (S (i - S s)) in H2 by lia. auto.
Qed.
Lemma in_indexed {A} (l : list A) i x : In (i, x) (indexed l) <-> nth_error l i = Some x.
Proof.
  unfold indexed. rewrite in_indexed_aux. rewrite Nat.sub_0_r.
  split; [tauto|]. intros; split; auto; lia.
Qed.
Lemma map_snd_combine {A B} (l : list A) (l' : list B) :
  length l = length l' -> map snd (combine l l') = l'.
Proof. revert l'; induction l; destruct l'; simpl; intros; try discriminate; f_equal; auto. Qed.
Lemma map_fst_combine {A B} (l : list A) (l' : list B) :
  length l = length l' -> map fst (combine l l') = l.
Proof. revert l'; induction l; destruct l'; simpl; intros; try discriminate; f_equal; auto. Qed.

Lemma inv_perm st t : inv st t ->
  Permutation (elems t) (indexed (map payload (arr st))).
Proof.
  intros I. apply NoDup_Permutation.
  - apply NoDup_map_inv with (f := fst). exact (inv_nodup _ _ _ I).
  - apply NoDup_map_inv with (f := fst). unfold indexed.
    rewrite map_fst_combine by (rewrite seq_length; auto). apply seq_NoDup.
  - intros [i kv]. rewrite in_indexed. apply inv_payload; auto.
Qed.

Lemma inv_perm_payload st t : inv st t ->
  Permutation (map snd (elems t)) (map payload (arr st)).
Proof.
  intros I. rewrite (inv_perm _ _ I). unfold indexed.
  rewrite map_snd_combine; auto. apply seq_length.
Qed.

(* ---- lookups on the inductive tree ---- *)
Fixpoint look (t : tr) (k : K) : option nat :=
  match t with
  | E => None
  | T l i k' v' r =>
    match kcmp k k' with Eq => Some i | Lt => look l k | Gt => look r k end
  end.

Lemma getposition_rep (t : tr) : forall fuel a o k,
  rep a o t -> ht t < Z.of_nat fuel -> getposition_loop kcmp fuel a o k = Ok (look t k).
Proof.
  induction t as [|l IHl i k' v' r IHr]; intros fuel a o k R Hf.
  - destruct fuel; [simpl in Hf; lia|]. simpl in R; subst. reflexivity.
  - destruct R as (-> & n & Hn & Hk & Hv & _ & _ & Hl & Hr).
    pose proof (ht_nonneg l); pose proof (ht_nonneg r). cbn [ht] in Hf.
    destruct fuel; [lia|]. cbn [getposition_loop look].
    rewrite (aget_some _ _ _ Hn); cbn [bind]. rewrite Hk.
    destruct (kcmp k k'); auto; [apply IHl|apply IHr]; auto; lia.
Qed.

Lemma look_elems (t : tr) k : sorted t ->
  match look t k with
  | Some i => exists kv, In (i, kv) (elems t) /\ kcmp k (fst kv) = Eq
  | None => forall e, In e (elems t) -> kcmp k (kof e) <> Eq
  end.
Proof.
  induction t as [|l IHl i k' v' r IHr]; intros S.
  - simpl; tauto.
  - apply (sorted_T _ TO) in S. destruct S as (Sl & Sr & Hl & Hr). simpl.
    destruct (kcmp k k') eqn:C.
    + exists (k', v'). split; auto. rewrite in_app_iff; simpl; auto.
    + specialize (IHl Sl). destruct (look l k).
      * destruct IHl as (kv & H1 & H2). exists kv; split; auto. rewrite in_app_iff; auto.
      * intros e He. rewrite in_app_iff in He; simpl in He. destruct He as [He|[<-|He]]; auto.
        -- simpl; congruence.
        -- rewrite (cmp_trans _ TO _ _ _ C (Hr _ He)). congruence.
    + specialize (IHr Sr). destruct (look r k).
      * destruct IHr as (kv & H1 & H2). exists kv; split; auto. rewrite in_app_iff; simpl; auto.
      * intros e He. rewrite in_app_iff in He; simpl in He. destruct He as [He|[<-|He]]; auto.
        -- specialize (Hl _ He). apply (cmp_gt_lt _ _ _ TO) in C.
           rewrite (cmp_lt_gt _ _ _ TO (cmp_trans _ TO _ _ _ Hl C)). congruence.
        -- simpl; congruence.
Qed.

(* ---- order statistics ---- *)
Lemma order_rep a i n (l : tr) : nth_error a i = Some n -> rep a (nleft n) l ->
  order a (Some i) = Ok (size l).
Proof.
  intros Hn Hl. unfold order. rewrite (aget_some _ _ _ Hn); cbn [bind].
  apply rep_weight; auto.
Qed.

Lemma getatorder_rep (t : tr) : forall fuel a o base i,
  rep a o t -> ht t < Z.of_nat fuel ->
  getatorder_loop fuel a o base i =
    Ok (if (base <=? i) then option_map fst (nth_error (elems t) (Z.to_nat (i - base))) else None).
Proof.
  induction t as [|l IHl j k' v' r IHr]; intros fuel a o base i R Hf.
  - destruct fuel; [simpl in Hf; lia|]. simpl in R; subst. simpl.
    destruct (base <=? i); auto. destruct (Z.to_nat (i - base)); reflexivity.
  - destruct R as (-> & n & Hn & Hk & Hv & _ & _ & Hl & Hr).
    pose proof (ht_nonneg l); pose proof (ht_nonneg r). cbn [ht] in Hf.
    destruct fuel; [lia|]. cbn [getatorder_loop elems].
    rewrite (order_rep _ _ _ _ Hn Hl); cbn [bind].
    rewrite (aget_some _ _ _ Hn); cbn [bind].
    pose proof (size_elems l) as Sl. pose proof (size_nonneg l).
    destruct (Z.eqb_spec i (base + size l)).
    + destruct (Z.leb_spec base i); [|lia].
      rewrite nth_error_app2 by lia.
      replace (Z.to_nat (i - base) - length (elems l))%nat with 0%nat by lia. reflexivity.
    + destruct (Z.ltb_spec i (base + size l)).
      * rewrite (IHl fuel) by (auto; lia).
        destruct (Z.leb_spec base i); auto. rewrite nth_error_app1 by lia. reflexivity.
      * rewrite (IHr fuel) by (auto; lia).
        destruct (Z.leb_spec (base + (size l + 1)) i); [|lia].
        destruct (Z.leb_spec base i); [|lia].
        rewrite nth_error_app2 by lia.
        replace (Z.to_nat (i - base) - length (elems l))%nat with
          (S (Z.to_nat (i - (base + (size l + 1)))))%nat by lia. reflexivity.
Qed.

Definition below (t : tr) (k : K) : nat :=
  length (filter (fun e => less kcmp (kof e) k) (elems t)).

Lemma filter_all {A} (f : A -> bool) l : (forall x, In x l -> f x = true) -> filter f l = l.
Proof.
  induction l; simpl; auto. intros H. rewrite H by auto. f_equal; auto.
Qed.
Lemma filter_none {A} (f : A -> bool) l : (forall x, In x l -> f x = false) -> filter f l = [].
Proof. induction l; simpl; auto. intros H. rewrite H by auto. auto. Qed.

Lemma below_T l i k' v' r k : sorted (T l i k' v' r) ->
  below (T l i k' v' r) k =
  match kcmp k k' with
  | Eq => length (elems l)
  | Lt => below l k
  | Gt => (length (elems l) + 1 + below r k)%nat
  end.
Proof.
  intros S. apply (sorted_T _ TO) in S. destruct S as (Sl & Sr & Hl & Hr).
  unfold below. cbn [elems]. rewrite filter_app, app_length. simpl. unfold less at 2. cbn [fst snd].
  destruct (kcmp k k') eqn:C.
  - rewrite (cmp_eq_sym _ _ _ TO C). rewrite filter_all.
    + rewrite filter_none; [simpl; lia|]. intros e He. unfold less.
      rewrite (cmp_cong_r _ _ _ (kof e) TO C).
      rewrite (cmp_lt_gt _ _ _ TO (Hr _ He)). auto.
    + intros e He. unfold less. rewrite (cmp_cong_r _ _ _ (kof e) TO C). rewrite (Hl _ He). auto.
  - rewrite (cmp_lt_gt _ _ _ TO C). rewrite (filter_none _ (elems r)).
    + simpl; lia.
    + intros e He. unfold less. rewrite (cmp_lt_gt _ _ _ TO (cmp_trans _ TO _ _ _ C (Hr _ He))). auto.
  - rewrite (cmp_gt_lt _ _ _ TO C). rewrite (filter_all _ (elems l)).
    + simpl. lia.
    + intros e He. unfold less. rewrite (cmp_trans _ TO _ _ _ (Hl _ He) (cmp_gt_lt _ _ _ TO C)). auto.
Qed.

Lemma getorderof_rep (t : tr) : forall fuel a o base k,
  rep a o t -> sorted t -> ht t < Z.of_nat fuel ->
  getorderof_loop kcmp fuel a o base k =
    Ok (match look t k with Some _ => Some (base + Z.of_nat (below t k)) | None => None end).
Proof.
  induction t as [|l IHl j k' v' r IHr]; intros fuel a o base k R S Hf.
  - destruct fuel; [simpl in Hf; lia|]. simpl in R; subst. reflexivity.
  - rewrite (below_T _ _ _ _ _ _ S).
    pose proof (proj1 (sorted_T _ TO _ _ _ _ _) S) as (Sl & Sr & _ & _).
    destruct R as (-> & n & Hn & Hk & Hv & _ & _ & Hl & Hr).
    pose proof (ht_nonneg l); pose proof (ht_nonneg r). cbn [ht] in Hf.
    destruct fuel; [lia|]. cbn [getorderof_loop look].
    rewrite (aget_some _ _ _ Hn); cbn [bind].
    rewrite (order_rep _ _ _ _ Hn Hl); cbn [bind]. rewrite Hk, size_elems.
    destruct (kcmp k k').
    + reflexivity.
    + apply IHl; auto; lia.
    + rewrite (IHr fuel) by (auto; lia). destruct (look r k); auto. do 2 f_equal. lia.
Qed.

(* ---- add ---- *)
Lemma ins_sorted (t : tr) n k v : sorted t -> sorted (ins kcmp merged t n k v).
Proof.
  induction t as [|l IHl i k' v' r IHr]; intros S; cbn [ins].
  - unfold AvlRemove.sorted; simpl. repeat constructor.
  - pose proof (proj1 (sorted_T _ TO _ _ _ _ _) S) as (Sl & Sr & Hl & Hr).
    destruct (kcmp k k') eqn:C.
    + apply (sorted_T _ TO). repeat split; auto.
      * intros e He. destruct merged; auto. rewrite (cmp_cong_r _ _ _ (kof e) TO C); auto.
      * intros e He. destruct merged; auto. rewrite (cmp_cong _ TO _ _ _ C); auto.
    + unfold AvlRemove.sorted. rewrite elems_bal. fold (sorted (T (ins kcmp merged l n k v) i k' v' r)).
      apply (sorted_T _ TO). repeat split; auto.
      intros e He.
      destruct (ins_elems kcmp merged l n k v) as [(_ & xs & j & kj & vj & ys & E1 & C1 & E2)|(_ & xs & ys & E1 & E2)];
        rewrite E2 in He; rewrite in_app_iff in He; simpl in He;
        destruct He as [He|[<-|He]]; try (apply Hl; rewrite E1, in_app_iff; simpl; auto; fail).
      * simpl. destruct merged; auto. apply (Hl (j,(kj,vj))). rewrite E1, in_app_iff; simpl; auto.
      * simpl; auto.
    + unfold AvlRemove.sorted. rewrite elems_bal. fold (sorted (T l i k' v' (ins kcmp merged r n k v))).
      apply (sorted_T _ TO). repeat split; auto.
      intros e He.
      destruct (ins_elems kcmp merged r n k v) as [(_ & xs & j & kj & vj & ys & E1 & C1 & E2)|(_ & xs & ys & E1 & E2)];
        rewrite E2 in He; rewrite in_app_iff in He; simpl in He;
        destruct He as [He|[<-|He]]; try (apply Hr; rewrite E1, in_app_iff; simpl; auto; fail).
      * simpl. destruct merged.
        -- apply (cmp_gt_lt _ _ _ TO); auto.
        -- apply (Hr (j,(kj,vj))). rewrite E1, in_app_iff; simpl; auto.
      * simpl. apply (cmp_gt_lt _ _ _ TO); auto.
Qed.

Lemma hit_look (t : tr) k : hit kcmp t k = match look t k with Some _ => true | None => false end.
Proof. induction t as [|l IHl i k' v' r IHr]; simpl; auto. destruct (kcmp k k'); auto. Qed.

Lemma add_inv (st : tree_state K V) t k v : inv st t ->
  exists st', add kcmp merged st k v = Ok st' /\
    inv st' (ins kcmp merged t (length (arr st)) k v) /\
    length (arr st') = (length (arr st) + if hit kcmp t k then 0 else 1)%nat.
Proof.
  intros I. pose proof (inv_nodup _ _ _ I) as ND. pose proof (inv_size _ _ _ I) as Sz.
  destruct I as (R & P & A & S).
  destruct (append_rep kcmp merged t (Datatypes.S (Datatypes.S (length (arr st)))) (arr st) (root st) k v R ND)
    as (a' & o' & p & E1 & R1 & L1 & F1).
  { pose proof (ht_le_size t). lia. }
  unfold add. rewrite E1; cbn [bind]. eexists; split; [reflexivity|].
  split; [|exact L1]. split; [exact R1|]. cbn [arr root]. split; [|split].
  - rewrite L1. pose proof (ins_idx kcmp merged t (length (arr st)) k v) as HI.
    destruct (hit kcmp t k).
    + rewrite HI, Nat.add_0_r. auto.
    + destruct HI as (xs & ys & E3 & E4). rewrite E4.
      rewrite <- Permutation_middle, <- E3, P.
      rewrite Nat.add_1_r, seq_S. simpl. apply Permutation_cons_append.
  - apply ins_avl; auto.
  - apply ins_sorted; auto.
Qed.

(* ---- relation to the specification ---- *)
Definition abs (st : tree_state K V) (m : list (K * V)) : Prop :=
  exists t, inv st t /\ Permutation (map snd (elems t)) m.

Definition distinct (m : list (K * V)) : Prop :=
  forall e f, In e m -> In f m -> kcmp (fst e) (fst f) = Eq -> e = f.

Lemma sorted_distinct (l : list (nat * (K * V))) :
  StronglySorted (klt kcmp) l -> distinct (map snd l) /\ NoDup (map snd l).
Proof.
  induction l as [|x l IH]; intros S.
  - split; [intros e f []|constructor].
  - apply ss_cons in S. destruct S as [S Hx]. destruct (IH S) as [D N].
    assert (Lt1 : forall e, In e (map snd l) -> kcmp (kof x) (fst e) = Lt).
    { intros e He. apply in_map_iff in He. destruct He as (y & <- & Hy). apply Hx; auto. }
    split.
    + intros e f [<-|He] [<-|Hf] C; auto.
      * rewrite Lt1 in C by auto. discriminate.
      * rewrite (cmp_lt_gt _ _ _ TO (Lt1 _ He)) in C. discriminate.
    + simpl. constructor; auto. intros Hin. apply Lt1 in Hin.
      rewrite (cmp_refl _ _ TO) in Hin; discriminate.
Qed.

Lemma abs_distinct st m : abs st m -> distinct m /\ NoDup m.
Proof.
  intros (t & (_ & _ & _ & S) & P). destruct (sorted_distinct _ S) as [D N]. split.
  - intros e f He Hf. apply D; eapply Permutation_in; try (apply Permutation_sym, P); auto.
  - eapply Permutation_NoDup; eauto.
Qed.

Lemma m_find_some m k v : distinct m ->
  (m_find kcmp m k = Some v <-> exists k', In (k', v) m /\ kcmp k k' = Eq).
Proof.
  intros D. unfold m_find. destruct (find (fun e => same kcmp k (fst e)) m) as [[k1 v1]|] eqn:F; simpl.
  - apply find_some in F. destruct F as [F1 F2]. unfold same in F2; simpl in F2.
    destruct (kcmp k k1) eqn:C; try discriminate. split.
    + intros H; injection H as <-. eauto.
    + intros (k' & H1 & H2).
      assert (C' : kcmp k1 k' = Eq).
      { rewrite <- (cmp_cong _ TO _ _ _ C). auto. }
      pose proof (D _ _ F1 H1 C') as Q. congruence.
  - split; [discriminate|]. intros (k' & H1 & H2).
    pose proof (find_none _ _ F _ H1) as Q. unfold same in Q; simpl in Q. rewrite H2 in Q; discriminate.
Qed.

Lemma m_has_find (m : list (K * V)) k :
  m_has kcmp m k = match m_find kcmp m k with Some _ => true | None => false end.
Proof.
  unfold m_has, m_find. induction m as [|e m IH]; simpl; auto.
  destruct (same kcmp k (fst e)); simpl; auto.
Qed.

Lemma m_has_true (m : list (K * V)) k :
  m_has kcmp m k = true <-> exists e, In e m /\ kcmp k (fst e) = Eq.
Proof.
  unfold m_has. rewrite existsb_exists. unfold same. split.
  - intros (e & H1 & H2). destruct (kcmp k (fst e)) eqn:C; try discriminate. eauto.
  - intros (e & H1 & H2). exists e. rewrite H2; auto.
Qed.

Lemma m_has_false (m : list (K * V)) k :
  m_has kcmp m k = false <-> forall e, In e m -> kcmp k (fst e) <> Eq.
Proof.
  split.
  - intros H e He C. assert (m_has kcmp m k = true) by (apply m_has_true; eauto). congruence.
  - intros H. destruct (m_has kcmp m k) eqn:Q; auto. apply m_has_true in Q.
    destruct Q as (e & He & C). destruct (H e He C).
Qed.

Lemma abs_look st t m k : inv st t -> Permutation (map snd (elems t)) m ->
  match look t k with
  | Some i => exists kv, In (i, kv) (elems t) /\ In kv m /\ kcmp k (fst kv) = Eq /\
                nth_error (map payload (arr st)) i = Some kv
  | None => m_has kcmp m k = false
  end.
Proof.
  intros I P. pose proof (look_elems t k) as L.
  pose proof I as (R & PI & A & S). specialize (L S).
  destruct (look t k).
  - destruct L as (kv & H1 & H2). exists kv. repeat split; auto.
    + eapply Permutation_in; [exact P|]. apply (in_map snd) in H1; auto.
    + apply (inv_payload _ _ _ _ I); auto.
  - apply m_has_false. intros e He. apply (Permutation_in _ (Permutation_sym P)) in He.
    apply in_map_iff in He. destruct He as (x & <- & Hx). auto.
Qed.

Lemma getposition_inv st t k : inv st t -> getposition kcmp st k = Ok (look t k).
Proof.
  intros I. pose proof (inv_size _ _ _ I) as Sz. destruct I as (R & _).
  unfold getposition. apply getposition_rep; auto. pose proof (ht_le_size t). lia.
Qed.

Lemma haskey_abs st m k : abs st m -> haskey kcmp st k = Ok (m_has kcmp m k).
Proof.
  intros Hm. destruct Hm as (t & I & P). unfold haskey. rewrite (getposition_inv _ _ _ I). cbn [bind].
  pose proof (abs_look _ _ _ k I P) as L. destruct (look t k).
  - destruct L as (kv & _ & H1 & H2 & _). f_equal. symmetry. apply m_has_true; eauto.
  - rewrite L; auto.
Qed.

Lemma get_abs st m k : abs st m ->
  get kcmp st k = match m_find kcmp m k with Some v => Ok v | None => Throw OutOfRange end.
Proof.
  intros Hm. pose proof (abs_distinct _ _ Hm) as [D _].
  destruct Hm as (t & I & P). unfold get. rewrite (getposition_inv _ _ _ I). cbn [bind].
  pose proof (abs_look _ _ _ k I P) as L. destruct (look t k) as [i|].
  - destruct L as ([k1 v1] & _ & H1 & H2 & H3). simpl in H2.
    assert (F : m_find kcmp m k = Some v1) by (apply m_find_some; eauto).
    rewrite F. unfold getatposition. rewrite nth_error_map in H3.
    destruct (nth_error (arr st) i) as [n|]; simpl in H3; [|discriminate].
    injection H3 as H4. unfold payload in H4. congruence.
  - rewrite m_has_find in L. destruct (m_find kcmp m k); [discriminate|auto].
Qed.

Lemma length_abs st m : abs st m -> tree_length st = length m.
Proof.
  intros (t & I & P). unfold tree_length.
  rewrite <- (Permutation_length P), (Permutation_length (inv_perm_payload _ _ I)).
  rewrite map_length; auto.
Qed.

Lemma Permutation_filter {A} (f : A -> bool) l l' :
  Permutation l l' -> Permutation (filter f l) (filter f l').
Proof.
  induction 1; simpl; auto.
  - destruct (f x); auto.
  - destruct (f x), (f y); auto. apply perm_swap.
  - etransitivity; eauto.
Qed.

Lemma filter_map_snd (f : K * V -> bool) (l : list (nat * (K * V))) :
  filter f (map snd l) = map snd (filter (fun e => f (snd e)) l).
Proof. induction l; simpl; auto. destruct (f (snd a)); simpl; congruence. Qed.

Lemma below_rank (t : tr) m k : Permutation (map snd (elems t)) m -> below t k = m_rank kcmp m k.
Proof.
  intros P. unfold below, m_rank.
  rewrite <- (Permutation_length (Permutation_filter _ _ _ P)).
  rewrite filter_map_snd, map_length. reflexivity.
Qed.

Lemma getorderof_abs st m k : abs st m ->
  getorderof kcmp st k = Ok (if m_has kcmp m k then Some (Z.of_nat (m_rank kcmp m k)) else None).
Proof.
  intros (t & I & P). pose proof (inv_size _ _ _ I) as Sz.
  unfold getorderof. pose proof I as (R & PI & A & S).
  rewrite (getorderof_rep t) by (auto; pose proof (ht_le_size t); lia).
  rewrite (below_rank _ _ _ P).
  pose proof (abs_look _ _ _ k I P) as L. destruct (look t k).
  - destruct L as (kv & _ & H1 & H2 & _).
    assert (Q : m_has kcmp m k = true) by (apply m_has_true; eauto). rewrite Q. reflexivity.
  - rewrite L; auto.
Qed.

Lemma sorted_nth_below (l : list (nat * (K * V))) i e :
  StronglySorted (klt kcmp) l -> nth_error l i = Some e ->
  length (filter (fun f => less kcmp (kof f) (kof e)) l) = i.
Proof.
  intros S H. apply nth_error_split in H. destruct H as (xs & ys & -> & <-).
  apply ss_app in S. destruct S as (S1 & S2 & S3). apply ss_cons in S2. destruct S2 as [S2 S4].
  rewrite filter_app, app_length. simpl. unfold less at 2. rewrite (cmp_refl _ _ TO).
  rewrite filter_all, filter_none; simpl; auto.
  - intros x Hx. unfold less. rewrite (cmp_lt_gt _ _ _ TO (S4 _ Hx)). auto.
  - intros x Hx. unfold less. rewrite (S3 x e Hx); simpl; auto.
Qed.

Lemma getatorder_abs st m i : abs st m ->
  (0 <= i < Z.of_nat (length m) ->
     exists k v, In (k, v) m /\ Z.of_nat (m_rank kcmp m k) = i /\ getatorder st i = Ok v) /\
  (i < 0 \/ Z.of_nat (length m) <= i -> getatorder st i = Throw OutOfRange).
Proof.
  intros (t & I & P). pose proof (inv_size _ _ _ I) as Sz.
  assert (Len : length (elems t) = length m).
  { rewrite <- (Permutation_length P), map_length; auto. }
  unfold getatorder. pose proof I as (R & PI & A & S).
  rewrite (getatorder_rep t) by (auto; pose proof (ht_le_size t); lia). cbn [bind].
  rewrite Z.sub_0_r. split.
  - intros Hi. destruct (Z.leb_spec 0 i); [|lia].
    destruct (nth_error (elems t) (Z.to_nat i)) as [[j [k v]]|] eqn:N.
    2:{ apply nth_error_None in N. lia. }
    exists k, v. split; [|split].
    + eapply Permutation_in; [exact P|]. apply nth_error_In in N. apply (in_map snd) in N; auto.
    + rewrite <- (below_rank _ _ _ P). unfold below.
      pose proof (sorted_nth_below _ _ _ S N) as B. simpl in B. rewrite B. lia.
    + simpl. pose proof (nth_error_In _ _ N) as Hin.
      destruct (rep_elems _ _ _ _ _ R Hin) as (n & Hn & Hp).
      rewrite (aget_some _ _ _ Hn). cbn [bind]. unfold payload in Hp. congruence.
  - intros Hi. destruct (Z.leb_spec 0 i); auto.
    assert (N : nth_error (elems t) (Z.to_nat i) = None) by (apply nth_error_None; lia).
    rewrite N. reflexivity.
Qed.

(* ---- steps ---- *)
Lemma abs_new : abs tree_new [].
Proof.
  exists E. split; [|constructor]. split; [reflexivity|]. split; [constructor|].
  split; [exact Logic.I|]. constructor.
Qed.

Lemma map_replace xs (e : K * V) ys k e' :
  distinct (xs ++ e :: ys) -> NoDup (xs ++ e :: ys) -> kcmp k (fst e) = Eq ->
  map (fun f => if same kcmp k (fst f) then e' f else f) (xs ++ e :: ys) = xs ++ e' e :: ys.
Proof.
  intros D N C. rewrite map_app. simpl. unfold same at 2. rewrite C.
  assert (H : forall f, In f (xs ++ ys) -> same kcmp k (fst f) = false).
  { intros f Hf. unfold same. destruct (kcmp k (fst f)) eqn:C'; auto.
    assert (e = f).
    { apply D.
      - rewrite in_app_iff; simpl; auto.
      - rewrite in_app_iff in *; simpl; tauto.
      - rewrite <- (cmp_cong _ TO _ _ _ C). auto. }
    subst f. apply NoDup_remove_2 in N. contradiction. }
  f_equal; [|f_equal].
  - erewrite map_ext_in; [apply map_id|]. intros f Hf. rewrite H; auto. rewrite in_app_iff; auto.
  - erewrite map_ext_in; [apply map_id|]. intros f Hf. rewrite H; auto. rewrite in_app_iff; auto.
Qed.

Lemma Permutation_m_add (m m' : list (K * V)) k v : Permutation m m' ->
  Permutation (m_add kcmp merged m k v) (m_add kcmp merged m' k v).
Proof.
  intros P. unfold m_add.
  assert (H : m_has kcmp m k = m_has kcmp m' k).
  { apply eq_true_iff_eq. rewrite !m_has_true.
    split; intros (e & He & C); exists e; (split; [|auto]).
    - eapply Permutation_in; [exact P|auto].
    - eapply Permutation_in; [apply Permutation_sym, P|auto]. }
  rewrite H. destruct (m_has kcmp m' k).
  - apply Permutation_map; auto.
  - apply Permutation_app_tail; auto.
Qed.

Lemma add_abs st m k v : abs st m ->
  exists st', add kcmp merged st k v = Ok st' /\ abs st' (m_add kcmp merged m k v).
Proof.
  intros (t & I & P). destruct (add_inv st t k v I) as (st' & E1 & I' & _).
  exists st'. split; auto. exists (ins kcmp merged t (length (arr st)) k v). split; auto.
  rewrite <- (Permutation_m_add _ _ k v P).
  destruct I as (R & PI & A & S).
  destruct (sorted_distinct _ S) as [D N].
  pose proof (look_elems t k S) as L. pose proof (hit_look t k) as HL.
  unfold m_add.
  destruct (ins_elems kcmp merged t (length (arr st)) k v)
    as [(H & xs & j & kj & vj & ys & E2 & C & E3)|(H & xs & ys & E2 & E3)].
  - assert (Q : m_has kcmp (map snd (elems t)) k = true).
    { apply m_has_true. exists (kj, vj). split; auto. rewrite E2, map_app, in_app_iff; simpl; auto. }
    rewrite Q. rewrite E2 in *. rewrite E3. rewrite (map_app snd) in D, N. rewrite !(map_app snd).
    cbn [map snd] in D, N. cbn [map snd].
    rewrite (map_replace _ _ _ k (fun e => ((if merged then k else fst e), v))); auto.
  - assert (Q : m_has kcmp (map snd (elems t)) k = false).
    { apply m_has_false. intros e He. rewrite H in HL. destruct (look t k); [discriminate|].
      apply in_map_iff in He. destruct He as (x & <- & Hx). auto. }
    rewrite Q, E2, E3, !map_app. simpl. rewrite <- app_assoc.
    apply Permutation_app_head. apply Permutation_cons_append.
Qed.

End Q.

Section R.
Context {K V : Type}.
Variable kcmp : K -> K -> comparison.
Hypothesis TO : total_preorder kcmp.
Notation inv := (@inv K V kcmp).
Notation abs := (@abs K V kcmp).

Lemma Permutation_m_remove (m m' : list (K * V)) k : Permutation m m' ->
  Permutation (m_remove kcmp m k) (m_remove kcmp m' k).
Proof. apply Permutation_filter. Qed.

Lemma remove_abs st m k : abs st m ->
  exists st', remove_key kcmp true st k = Ok st' /\ abs st' (m_remove kcmp m k).
Proof.
  intros (t & I & P). destruct (remove_key_inv _ TO st t k I) as (st' & E1 & I').
  exists st'. split; auto. eexists. split; [exact I'|].
  rewrite <- (Permutation_m_remove _ _ k P).
  destruct I as (R & PI & A & S).
  destruct (sorted_distinct _ TO _ S) as [D N].
  pose proof (rem_elems _ TO t k S A) as RE.
  unfold m_remove. destruct (snd (rem kcmp t k)) as [p|].
  - destruct RE as ((xs & i & kv & ys & E2 & C & M & _) & _).
    rewrite remap_elems, map_map. simpl. 
    replace (map (fun x => snd x) (elems (fst (rem kcmp t k)))) with (map snd (elems (fst (rem kcmp t k)))) by reflexivity.
    rewrite M, E2, !map_app. simpl.
    rewrite filter_app. simpl. unfold same at 2. rewrite C. simpl.
    assert (H : forall f, In f (map snd xs ++ map snd ys) -> negb (same kcmp k (fst f)) = true).
    { rewrite E2, map_app in D, N. simpl in D, N.
      intros f Hf. unfold same. destruct (kcmp k (fst f)) eqn:C'; auto.
      assert (kv = f).
      { apply D.
        - rewrite in_app_iff; simpl; auto.
        - rewrite in_app_iff in *; simpl; tauto.
        - rewrite <- (cmp_cong _ TO _ _ _ C). auto. }
      subst f. apply NoDup_remove_2 in N. contradiction. }
    rewrite !filter_all; auto; intros f Hf; apply H; rewrite in_app_iff; auto.
  - destruct RE as (-> & H). rewrite filter_all; auto.
    intros e He. apply in_map_iff in He. destruct He as (x & <- & Hx).
    specialize (H _ Hx). unfold same. destruct (kcmp k (fst (snd x))); auto; congruence.
Qed.

(* Histories. *)
Definition m_step (rekey : bool) (m : list (K * V)) (o : op K V) : list (K * V) :=
  match o with
  | Add k v => m_add kcmp rekey m k v
  | Remove k => m_remove kcmp m k
  end.

Definition adds_only (ops : list (op K V)) : Prop :=
  forall o, In o ops -> match o with Add _ _ => True | Remove _ => False end.

Lemma run_abs merged ops : (merged = true \/ adds_only ops) ->
  forall st m, abs st m ->
  exists st', run kcmp merged st ops = Ok st' /\ abs st' (fold_left (m_step merged) ops m).
Proof.
  intros Hm. induction ops as [|o ops IH]; intros st m A; simpl.
  - eauto.
  - assert (Hm' : merged = true \/ adds_only ops).
    { destruct Hm; auto. right. intros o' Ho'. apply H. simpl; auto. }
    assert (S : exists st', step kcmp merged st o = Ok st' /\ abs st' (m_step merged m o)).
    { destruct o as [k v|k]; simpl.
      - apply add_abs; auto.
      - destruct Hm as [->|Ha]; [apply remove_abs; auto|].
        destruct (Ha (Remove k)); simpl; auto. }
    destruct S as (st1 & E1 & A1). rewrite E1; cbn [bind]. apply IH; auto.
Qed.

(* Reachable states satisfy the invariant (used for statements about one step). *)
Lemma run_inv merged ops st : (merged = true \/ adds_only ops) ->
  run kcmp merged tree_new ops = Ok st -> exists t, inv st t.
Proof.
  intros Hm H. destruct (run_abs merged ops Hm tree_new [] (abs_new _)) as (st' & E1 & t & I & _).
  exists t. congruence.
Qed.

(* ---- storage positions ---- *)
Lemma payload_ext (l l' : list (K * V)) :
  (forall i e, nth_error l i = Some e <-> nth_error l' i = Some e) -> l = l'.
Proof.
  revert l'; induction l as [|x l IH]; destruct l' as [|y l']; auto; intros H.
  - specialize (H 0%nat y). simpl in H. destruct H as [_ H]. discriminate (H eq_refl).
  - specialize (H 0%nat x). simpl in H. destruct H as [H _]. discriminate (H eq_refl).
  - f_equal.
    + pose proof (proj1 (H 0%nat x) eq_refl) as Q. simpl in Q. congruence.
    + apply IH. intros i e. apply (H (S i) e).
Qed.

Lemma add_positions merged st t k v : inv st t ->
  exists st', add kcmp merged st k v = Ok st' /\ inv st' (ins kcmp merged t (length (arr st)) k v) /\
    map payload (arr st') = m_add kcmp merged (map payload (arr st)) k v.
Proof.
  intros I. destruct (add_inv _ TO merged st t k v I) as (st' & E1 & I' & L').
  exists st'. split; auto. split; auto.
  pose proof (inv_perm_payload _ _ _ I) as PP.
  pose proof I as I0. destruct I0 as (R & PI & A & S).
  destruct (sorted_distinct _ TO _ S) as [D N].
  pose proof (look_elems _ TO t k S) as L. pose proof (hit_look kcmp t k) as HL.
  pose proof (inv_nodup _ _ _ I) as ND. pose proof (inv_nodup _ _ _ I') as ND'.
  assert (Dp : distinct kcmp (map payload (arr st))).
  { intros e f He Hf. apply D; eapply Permutation_in; try (apply Permutation_sym, PP); auto. }
  assert (Np : NoDup (map payload (arr st))) by (eapply Permutation_NoDup; eauto).
  unfold m_add.
  destruct (ins_elems kcmp merged t (length (arr st)) k v)
    as [(H & xs & j & kj & vj & ys & E2 & C & E3)|(H & xs & ys & E2 & E3)].
  - assert (Hj : nth_error (map payload (arr st)) j = Some (kj, vj)).
    { apply (inv_payload _ _ _ _ _ I). rewrite E2, in_app_iff; simpl; auto. }
    assert (Q : m_has kcmp (map payload (arr st)) k = true).
    { apply m_has_true. exists (kj, vj). split; auto. eapply nth_error_In; eauto. }
    rewrite Q.
    apply payload_ext. intros i e. rewrite <- (inv_payload _ _ _ _ _ I'). rewrite E3.
    rewrite nth_error_map.
    rewrite H, Nat.add_0_r in L'.
    split.
    + intros Hin. rewrite in_app_iff in Hin. simpl in Hin.
      assert (Q' : (i, e) = (j, (if merged then k else kj, v)) \/ (In (i, e) (elems t) /\ i <> j)).
      { destruct Hin as [Hin|[Hin|Hin]]; auto; right; (split; [rewrite E2, in_app_iff; simpl; auto|]);
          intros ->; unfold idx in ND; rewrite E2, map_app in ND; simpl in ND;
          apply NoDup_remove_2 in ND; apply ND; rewrite in_app_iff;
          apply (in_map fst) in Hin; simpl in Hin; auto. }
      destruct Q' as [Q'|[Q' Nj]].
      * injection Q' as -> ->. rewrite Hj. simpl. unfold same. rewrite C. reflexivity.
      * apply (inv_payload _ _ _ _ _ I) in Q'. rewrite Q'. simpl.
        unfold same. destruct (kcmp k (fst e)) eqn:C'; auto.
        assert (W : (kj, vj) = e).
        { apply Dp; try (eapply nth_error_In; eauto). rewrite <- (cmp_cong _ TO _ _ _ C). auto. }
        subst e. exfalso. apply Nj.
        apply (NoDup_nth_error (map payload (arr st))); auto.
        -- apply nth_error_lt in Q'; auto.
        -- congruence.
    + intros Hin. destruct (nth_error (map payload (arr st)) i) as [f|] eqn:F; [|discriminate].
      simpl in Hin. unfold same in Hin. destruct (kcmp k (fst f)) eqn:C'.
      * injection Hin as <-.
        assert (W : (kj, vj) = f).
        { apply Dp; try (eapply nth_error_In; eauto). rewrite <- (cmp_cong _ TO _ _ _ C). auto. }
        subst f. assert (i = j).
        { apply (NoDup_nth_error (map payload (arr st))); auto.
          - apply nth_error_lt in F; auto.
          - congruence. }
        subst i. rewrite in_app_iff; simpl. auto.
      * injection Hin as <-. apply (inv_payload _ _ _ _ _ I) in F. rewrite E2, in_app_iff in F.
        simpl in F. rewrite in_app_iff; simpl. destruct F as [F|[F|F]]; auto.
        injection F as <- <-. simpl in C'; congruence.
      * injection Hin as <-. apply (inv_payload _ _ _ _ _ I) in F. rewrite E2, in_app_iff in F.
        simpl in F. rewrite in_app_iff; simpl. destruct F as [F|[F|F]]; auto.
        injection F as <- <-. simpl in C'; congruence.
  - assert (Q : m_has kcmp (map payload (arr st)) k = false).
    { apply m_has_false. intros e He. rewrite H in HL. destruct (look kcmp t k); [discriminate|].
      apply (Permutation_in _ (Permutation_sym PP)) in He.
      apply in_map_iff in He. destruct He as (x & <- & Hx). auto. }
    rewrite Q. rewrite H in L'.
    apply payload_ext. intros i e. rewrite <- (inv_payload _ _ _ _ _ I'). rewrite E3.
    assert (LP : length (map payload (arr st)) = length (arr st)) by apply map_length.
    split.
    + intros Hin. rewrite in_app_iff in Hin. simpl in Hin.
      assert (Q' : (i, e) = (length (arr st), (k, v)) \/ In (i, e) (elems t)).
      { rewrite E2, in_app_iff. destruct Hin as [?|[?|?]]; auto. }
      destruct Q' as [Q'|Q'].
      * injection Q' as -> ->. rewrite nth_error_app2 by lia. rewrite LP, Nat.sub_diag. reflexivity.
      * apply (inv_payload _ _ _ _ _ I) in Q'. rewrite nth_error_app1; auto. eapply nth_error_lt; eauto.
    + intros Hin. destruct (Nat.lt_ge_cases i (length (arr st))).
      * rewrite nth_error_app1 in Hin by lia. apply (inv_payload _ _ _ _ _ I) in Hin.
        rewrite E2, in_app_iff in Hin. rewrite in_app_iff; simpl. tauto.
      * rewrite nth_error_app2 in Hin by lia. rewrite LP in Hin.
        destruct (i - length (arr st))%nat eqn:Ei.
        -- simpl in Hin. injection Hin as <-. rewrite in_app_iff; simpl. right; left. f_equal. lia.
        -- destruct n; discriminate.
Qed.

(* Removing the largest key: its position disappears, the later ones move down. *)
Lemma remove_max_positions st t k p : inv st t ->
  look kcmp t k = Some p ->
  (forall e, In e (map payload (arr st)) -> kcmp k (fst e) <> Lt) ->
  exists st', remove_key kcmp true st k = Ok st' /\
    map payload (arr st') = firstn p (map payload (arr st)) ++ skipn (S p) (map payload (arr st)).
Proof.
  intros I HL Hmax. destruct (remove_key_inv _ TO st t k I) as (st' & E1 & I').
  exists st'. split; auto.
  pose proof (inv_perm_payload _ _ _ I) as PP.
  pose proof I as I0. destruct I0 as (R & PI & A & S).
  pose proof (inv_nodup _ _ _ I) as ND.
  destruct (sorted_distinct _ TO _ S) as [D N].
  pose proof (look_elems _ TO t k S) as L. rewrite HL in L. destruct L as (kv & L1 & L2).
  pose proof (rem_elems _ TO t k S A) as RE.
  destruct (snd (rem kcmp t k)) as [q|].
  2:{ destruct RE as (_ & RE). destruct (RE _ L1 L2). }
  destruct RE as ((xs & i & kv' & ys & E2 & C & M & Y) & _).
  assert (ys = []).
  { destruct ys as [|y ys]; auto. exfalso.
    unfold sorted in S. rewrite E2 in S. apply ss_app in S. destruct S as (_ & S & _).
    apply ss_cons in S. destruct S as [_ S]. specialize (S y (or_introl eq_refl)).
    unfold klt in S. simpl in S. apply (Hmax (snd y)).
    - eapply Permutation_in; [exact PP|]. apply in_map. rewrite E2, in_app_iff; simpl; auto.
    - rewrite (cmp_cong _ TO _ _ _ C). auto. }
  destruct (Y H) as [-> Ex]. subst ys.
  assert (HH : i = p /\ kv' = kv).
  { assert (Hin : In (i, kv') (elems t)) by (rewrite E2, in_app_iff; simpl; auto).
    assert (kv' = kv).
    { apply D.
      - apply (in_map snd) in Hin; auto.
      - apply (in_map snd) in L1; auto.
      - rewrite <- (cmp_cong _ TO _ _ _ C). auto. }
    subst kv'. split; auto.
    apply (inv_payload _ _ _ _ _ I) in Hin. apply (inv_payload _ _ _ _ _ I) in L1.
    assert (Np : NoDup (map payload (arr st))) by (eapply Permutation_NoDup; eauto).
    apply (NoDup_nth_error (map payload (arr st))); auto.
    + eapply nth_error_lt; eauto.
    + congruence. }
  destruct HH as [-> ->].
  assert (Hp : nth_error (map payload (arr st)) p = Some kv) by (apply (inv_payload _ _ _ _ _ I); auto).
  assert (Lp : (p < length (map payload (arr st)))%nat) by (eapply nth_error_lt; eauto).
  assert (Np : ~ In p (map fst xs)).
  { unfold idx in ND. rewrite E2, map_app in ND. simpl in ND. apply NoDup_remove_2 in ND.
    rewrite app_nil_r in ND. auto. }
  apply payload_ext. intros j e. rewrite <- (inv_payload _ _ _ _ _ I').
  rewrite remap_elems, Ex. split.
  - intros Hin. apply in_map_iff in Hin. destruct Hin as ([j' e'] & Ej & Hx).
    cbn [fst snd] in Ej. injection Ej as <- <-.
    rewrite nth_error_delete; auto.
    + apply (inv_payload _ _ _ _ _ I). rewrite E2, in_app_iff; auto.
    + intros ->. apply Np. apply (in_map fst) in Hx; auto.
  - intros Hin.
    assert (Hj : exists j', j' <> p /\ dec p j' = j).
    { unfold dec. destruct (Nat.lt_ge_cases j p).
      - exists j. split; [lia|]. destruct (Nat.ltb_spec p j); lia.
      - exists (j + 1)%nat. split; [lia|]. destruct (Nat.ltb_spec p (j + 1)); lia. }
    destruct Hj as (j' & Nj & <-).
    rewrite nth_error_delete in Hin by auto.
    apply (inv_payload _ _ _ _ _ I) in Hin. rewrite E2, in_app_iff in Hin. simpl in Hin.
    apply in_map_iff. exists (j', e). split; auto.
    destruct Hin as [Hin|[Hin|[]]]; auto. injection Hin as -> _. congruence.
Qed.

(* ---- depth ---- *)
Fixpoint fib (n : nat) : Z :=
  match n with
  | O => 0
  | S m => match m with O => 1 | S p => fib m + fib p end
  end.

Lemma fib_SS n : fib (S (S n)) = fib (S n) + fib n.
Proof. reflexivity. Qed.
Lemma fib_nonneg n : 0 <= fib n /\ 0 < fib (S n).
Proof.
  induction n; [simpl; lia|]. rewrite fib_SS. lia.
Qed.
Lemma fib_le n : fib (S n) <= fib (S (S n)).
Proof. rewrite fib_SS. pose proof (fib_nonneg n). lia. Qed.

Lemma avl_size (t : @tr K V) : avl t -> fib (Z.to_nat (ht t) + 2) <= size t + 1.
Proof.
  induction t as [|l IHl i k v r IHr]; intros A.
  - simpl. lia.
  - destruct A as (B & Al & Ar). specialize (IHl Al). specialize (IHr Ar).
    pose proof (ht_nonneg l); pose proof (ht_nonneg r). cbn [ht size].
    set (hl := Z.to_nat (ht l)) in *. set (hr := Z.to_nat (ht r)) in *.
    assert (C : (hl = hr \/ hr = S hl \/ hl = S hr)%nat) by lia.
    destruct C as [C|[C|C]].
    + replace (Z.to_nat (Z.max (ht l) (ht r) + 1) + 2)%nat with (S (S (S hl))) by lia.
      rewrite (fib_SS (S hl)). rewrite <- C in IHr. rewrite Nat.add_comm in IHl, IHr. simpl plus in *.
      pose proof (fib_le hl). lia.
    + replace (Z.to_nat (Z.max (ht l) (ht r) + 1) + 2)%nat with (S (S (hl + 2))) by lia.
      rewrite fib_SS. rewrite C in IHr. replace (S hl + 2)%nat with (S (hl + 2)) in IHr by lia. lia.
    + replace (Z.to_nat (Z.max (ht l) (ht r) + 1) + 2)%nat with (S (S (hr + 2))) by lia.
      rewrite fib_SS. rewrite C in IHl. replace (S hr + 2)%nat with (S (hr + 2)) in IHl by lia. lia.
Qed.

Lemma depth_bound st t : inv st t ->
  exists h : nat, fib (h + 2) <= Z.of_nat (length (arr st)) + 1 /\
    forall k, exists p, getposition_loop kcmp (S h) (arr st) (root st) k = Ok p.
Proof.
  intros I. pose proof (inv_size _ _ _ I) as Sz. destruct I as (R & _ & A & _).
  exists (Z.to_nat (ht t)). split.
  - rewrite <- Sz. apply avl_size; auto.
  - intros k. exists (look kcmp t k). apply getposition_rep; auto.
    pose proof (ht_nonneg t). lia.
Qed.

Lemma fib_pow n : 2 ^ Z.of_nat n <= fib (n + 2) * fib (n + 2).
Proof.
  enough (H : 2 ^ Z.of_nat n <= fib (n + 2) * fib (n + 2) /\
              2 ^ Z.of_nat (S n) <= fib (S n + 2) * fib (S n + 2)) by tauto.
  induction n.
  - simpl. lia.
  - destruct IHn as [H1 H2]. split; auto.
    replace (S (S n) + 2)%nat with (S (S (n + 2))) by lia. rewrite fib_SS.
    replace (S n + 2)%nat with (S (n + 2)) in * by lia.
    rewrite Nat2Z.inj_succ, Z.pow_succ_r by lia.
    rewrite Nat2Z.inj_succ, Z.pow_succ_r in * by lia.
    pose proof (fib_nonneg (n + 2)). 
    assert (fib (n + 2) <= fib (S (n + 2))).
    { replace (n + 2)%nat with (S (n + 1)) by lia. apply fib_le. }
    nia.
Qed.
End R.

(* ---- separate keys: removals that never reach the value swap ---- *)
Section NoSwap.
Context {K V : Type}.
Variable kcmp : K -> K -> comparison.
Hypothesis TO : total_preorder kcmp.
Notation inv := (@inv K V kcmp).
Notation abs := (@abs K V kcmp).

Fixpoint noswap (t : @tr K V) (k : K) : Prop :=
  match t with
  | E => True
  | T l _ k' _ r =>
    match kcmp k k' with
    | Eq => r = E
    | Lt => noswap l k
    | Gt => noswap r k
    end
  end.

Lemma remove_noswap t : forall fuel a o k, rep a o t -> noswap t k ->
  remove kcmp false fuel a o k = remove kcmp true fuel a o k.
Proof.
  induction t as [|l IHl i k' v' r IHr]; intros fuel a o k R N.
  - simpl in R; subst o. destruct fuel; reflexivity.
  - destruct R as (-> & n & Hn & Hk & Hv & _ & _ & Hl & Hr).
    destruct fuel as [|fuel]; [reflexivity|]. cbn [remove].
    rewrite (aget_some _ _ _ Hn); cbn [bind]. rewrite Hk. cbn [noswap] in N.
    destruct (kcmp k k').
    + subst r. simpl in Hr. rewrite Hr. reflexivity.
    + rewrite (IHl fuel a (nleft n) k) by auto. reflexivity.
    + rewrite (IHr fuel a (nright n) k) by auto. reflexivity.
Qed.

Lemma noswap_max t k : sorted kcmp t ->
  (forall e, In e (elems t) -> kcmp k (fst (snd e)) = Eq ->
     forall f, In f (elems t) -> kcmp k (fst (snd f)) <> Lt) -> noswap t k.
Proof.
  induction t as [|l IHl i k' v' r IHr]; intros S H; simpl; auto.
  pose proof (proj1 (sorted_T _ TO _ _ _ _ _) S) as (Sl & Sr & Hl & Hr).
  destruct (kcmp k k') eqn:C.
  - destruct r as [|r1 j1 k1 v1 r2]; auto. exfalso.
    set (r := T r1 j1 k1 v1 r2) in *.
    destruct (elems_nonempty r) as (e & rest & Er); [discriminate|].
    apply (H (i,(k',v'))) with (f := e).
    + cbn [elems]. rewrite in_app_iff; simpl; auto.
    + auto.
    + cbn [elems]. rewrite Er, in_app_iff; simpl; auto.
    + rewrite (cmp_cong _ TO _ _ _ C). apply Hr. rewrite Er; simpl; auto.
  - apply IHl; auto. intros e He Ce f Hf. apply (H e); auto; cbn [elems]; rewrite in_app_iff; auto.
  - apply IHr; auto. intros e He Ce f Hf. apply (H e); auto; cbn [elems]; rewrite in_app_iff; simpl; auto.
Qed.

Lemma remove_abs_noswap st m k : abs st m ->
  (m_has kcmp m k = true -> forall e, In e m -> kcmp k (fst e) <> Lt) ->
  exists st', remove_key kcmp false st k = Ok st' /\ abs st' (m_remove kcmp m k).
Proof.
  intros A H. destruct (remove_abs _ TO st m k A) as (st' & E1 & A').
  exists st'. split; auto. rewrite <- E1. unfold remove_key.
  destruct A as (t & I & P). pose proof I as (R & _ & _ & S).
  rewrite (remove_noswap t _ _ _ _ R); auto.
  apply noswap_max; auto. intros e He Ce f Hf.
  apply H.
  - apply m_has_true. exists (snd e). split; auto. eapply Permutation_in; [exact P|]. apply in_map; auto.
  - eapply Permutation_in; [exact P|]. apply in_map; auto.
Qed.

(* Histories in which only the largest present key is removed. *)
Fixpoint removes_largest (m : list (K * V)) (ops : list (op K V)) : Prop :=
  match ops with
  | [] => True
  | o :: ops =>
    match o with
    | Add _ _ => True
    | Remove k => m_has kcmp m k = true -> forall e, In e m -> kcmp k (fst e) <> Lt
    end /\ removes_largest (m_step kcmp false m o) ops
  end.

Lemma run_abs_noswap ops : forall st m, abs st m -> removes_largest m ops ->
  exists st', run kcmp false st ops = Ok st' /\ abs st' (fold_left (m_step kcmp false) ops m).
Proof.
  induction ops as [|o ops IH]; intros st m A Hr; simpl.
  - eauto.
  - destruct Hr as [H1 H2].
    assert (S : exists st', step kcmp false st o = Ok st' /\ abs st' (m_step kcmp false m o)).
    { destruct o as [k v|k]; simpl.
      - apply add_abs; auto.
      - apply remove_abs_noswap; auto. }
    destruct S as (st1 & E1 & A1). rewrite E1; cbn [bind]. apply IH; auto.
Qed.
End NoSwap.
