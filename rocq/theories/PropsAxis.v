(* C20: a dependent axis against the specification AxisSpec. *)
From Coq Require Import List ZArith Bool Arith Lia Permutation Sorted.
From Verif Require Import Base MapSpec AvlModel AvlProofs AvlRemove AvlQueries AxisModel AxisSpec AxisProofs.
Import ListNotations.
Local Open Scope Z_scope.

Section Pos.
Context {K : Type}.
Variable cmp : K -> K -> comparison.
Hypothesis TO : total_preorder cmp.
Hypothesis AS : forall x y, cmp x y = Eq -> x = y.
Let lt := @AxisProofs.lt K cmp.

Lemma position_nonneg k l : 0 <= position cmp k l.
Proof. unfold position. lia. Qed.
Lemma position_le_length k l : position cmp k l <= Z.of_nat (length l).
Proof.
  unfold position. induction l as [|x l IH]; simpl; [lia|].
  destruct (is_lt cmp x k); simpl; lia.
Qed.
Lemma position_cons k x l : position cmp k (x :: l) = (if is_lt cmp x k then 1 else 0) + position cmp k l.
Proof. unfold position. cbn [filter]. destruct (is_lt cmp x k); cbn [length]; lia. Qed.
Lemma is_lt_trans x y z : lt x y -> lt y z -> is_lt cmp x z = true.
Proof. intros A B. apply is_lt_iff. eapply lt_trans; eauto. Qed.
Lemma position_mono x y l : lt x y -> position cmp x l <= position cmp y l.
Proof.
  intros L. induction l as [|z l IH]; [unfold position; simpl; lia|].
  rewrite !position_cons. destruct (is_lt cmp z x) eqn:A.
  - apply is_lt_iff in A. rewrite (is_lt_trans _ _ _ A L). lia.
  - destruct (is_lt cmp z y); lia.
Qed.
Lemma position_strict x y l : lt x y -> In x l -> position cmp x l < position cmp y l.
Proof.
  intros L. induction l as [|z l IH]; [intros []|]. intros I. rewrite !position_cons.
  destruct (is_lt cmp z x) eqn:A.
  - pose proof A as A'. apply is_lt_iff in A. rewrite (is_lt_trans _ _ _ A L).
    destruct I as [->|I]; [apply (lt_irrefl _ TO) in A; tauto|]. specialize (IH I). lia.
  - destruct I as [->|I].
    + assert (is_lt cmp x y = true) as -> by (apply is_lt_iff; exact L).
      pose proof (position_mono x y l L). lia.
    + specialize (IH I). destruct (is_lt cmp z y); lia.
Qed.
Lemma position_lt_length k l : In k l -> position cmp k l < Z.of_nat (length l).
Proof.
  induction l as [|x l IH]; [intros []|]. intros I. rewrite position_cons. simpl length.
  destruct (is_lt cmp x k) eqn:A.
  - destruct I as [->|I]; [apply is_lt_iff in A; apply (lt_irrefl _ TO) in A; tauto|]. specialize (IH I). lia.
  - pose proof (position_le_length k l). lia.
Qed.
Lemma position_cmp x y l : In x l -> In y l -> cmp x y = Z.compare (position cmp x l) (position cmp y l).
Proof.
  intros X Y. destruct (tri _ TO AS x y) as [L|[->|L]].
  - rewrite L. symmetry. apply Z.compare_lt_iff, position_strict; auto.
  - rewrite (cmp_refl _ _ TO), Z.compare_refl. reflexivity.
  - rewrite (cmp_lt_gt _ _ _ TO L). symmetry. apply Z.compare_gt_iff, position_strict; auto.
Qed.
Lemma position_perm k l l' : Permutation l l' -> position cmp k l = position cmp k l'.
Proof. intros P. unfold position. rewrite (Permutation_length (Permutation_filter _ _ _ P)). reflexivity. Qed.
Lemma position_insert k q l : position cmp k (insert cmp q l) = (if is_lt cmp q k then 1 else 0) + position cmp k l.
Proof. rewrite (position_perm _ _ _ (insert_perm cmp q l)). apply position_cons. Qed.
Lemma position_self_insert k l : position cmp k (insert cmp k l) = position cmp k l.
Proof.
  rewrite position_insert. destruct (is_lt cmp k k) eqn:A; [|lia].
  apply is_lt_iff in A. apply (lt_irrefl _ TO) in A. tauto.
Qed.
Lemma position_delete k q l : NoDup l -> In q l -> position cmp k (delete cmp q l) = position cmp k l - (if is_lt cmp q k then 1 else 0).
Proof.
  induction l as [|x l IH]; [intros _ []|]. intros ND I. inversion ND as [|? ? N1 N2]; subst.
  unfold delete. simpl. destruct (is_eq cmp q x) eqn:E.
  - apply is_eq_iff in E; auto. subst x. cbn [negb]. rewrite position_cons.
    replace (filter (fun x => negb (is_eq cmp q x)) l) with l; [destruct (is_lt cmp q k); lia|].
    clear -N1 TO AS. induction l as [|y l IH]; simpl; auto. destruct (is_eq cmp q y) eqn:E.
    + apply is_eq_iff in E; auto. subst. simpl in N1. tauto.
    + simpl. f_equal. apply IH. simpl in N1. tauto.
  - cbn [negb]. rewrite !position_cons. change (filter _ l) with (delete cmp q l).
    destruct I as [->|I]; [assert (is_eq cmp q q = true) by (apply is_eq_iff; auto); congruence|].
    rewrite IH by auto. destruct (is_lt cmp x k), (is_lt cmp q k); lia.
Qed.
Lemma ss_nodup l : StronglySorted lt l -> NoDup l.
Proof.
  induction l as [|x l IH]; intros S; [constructor|]. apply ss_cons in S. destruct S as [S F].
  constructor; auto. intros I. apply (lt_irrefl _ TO x). apply F; exact I.
Qed.
Lemma nth_position l : StronglySorted lt l -> forall k, In k l -> nth_error l (Z.to_nat (position cmp k l)) = Some k.
Proof.
  induction l as [|x l IH]; intros S k I; [destruct I|]. apply ss_cons in S. destruct S as [S F].
  rewrite position_cons. destruct I as [->|I].
  - assert (is_lt cmp k k = false) as -> by (apply not_true_iff_false; rewrite is_lt_iff; apply (lt_irrefl _ TO)).
    assert (position cmp k l = 0) as ->; [|reflexivity].
    clear -F TO. unfold position. induction l as [|y l IH]; simpl; auto.
    assert (is_lt cmp y k = false) as ->.
    { apply not_true_iff_false. rewrite is_lt_iff. intros B. apply (lt_irrefl _ TO k).
      eapply lt_trans; [exact TO|apply F; left; reflexivity|exact B]. }
    apply IH. intros; apply F; right; auto.
  - assert (is_lt cmp x k = true) as -> by (apply is_lt_iff; apply F; exact I).
    rewrite Z2Nat.inj_add by (try lia; apply position_nonneg). simpl. apply IH; auto.
Qed.
End Pos.

Section C20.
Context {K1 K2 : Type}.
Variable cmp1 : K1 -> K1 -> comparison.
Variable cmp2 : K2 -> K2 -> comparison.
Hypothesis TO1 : total_preorder cmp1.
Hypothesis TO2 : total_preorder cmp2.
Hypothesis AS1 : forall x y, cmp1 x y = Eq -> x = y.
Hypothesis AS2 : forall x y, cmp2 x y = Eq -> x = y.
Notation acmp := (@acmp K2 cmp2).
Notation ecmp := (@ecmp K1 K2 cmp1 cmp2).

Lemma acmp_alt a b : acmp a b = match Z.compare (fst a) (fst b) with Eq => cmp2 (snd a) (snd b) | c => c end.
Proof.
  unfold AxisModel.acmp. destruct (Z.eqb_spec (fst a) (fst b)) as [->|N]; [rewrite Z.compare_refl; reflexivity|].
  destruct (Z.ltb_spec (fst a) (fst b)) as [L|L].
  - rewrite (proj2 (Z.compare_lt_iff _ _) L). reflexivity.
  - rewrite (proj2 (Z.compare_gt_iff _ _)) by lia. reflexivity.
Qed.
Lemma lex_total {A B} (c1 : A -> A -> comparison) (c2 : B -> B -> comparison) (X : Type) (f : X -> A) (g : X -> B) :
  total_preorder c1 -> total_preorder c2 ->
  total_preorder (fun x y => match c1 (f x) (f y) with Eq => c2 (g x) (g y) | c => c end).
Proof.
  intros T1 T2. constructor.
  - intros x y. rewrite (cmp_sym _ T1 (f x) (f y)). destruct (c1 (f x) (f y)); simpl; auto. apply (cmp_sym _ T2).
  - intros x y z. destruct (c1 (f x) (f y)) eqn:E1; try discriminate; destruct (c1 (f y) (f z)) eqn:E2; try discriminate; intros.
    + rewrite (cmp_cong _ T1 _ _ _ E1), E2. eapply (cmp_trans _ T2); eauto.
    + rewrite (cmp_cong _ T1 _ _ _ E1), E2. reflexivity.
    + rewrite <- (cmp_cong_r _ _ _ (f x) T1 E2), E1. reflexivity.
    + rewrite (cmp_trans _ T1 _ _ _ E1 E2). reflexivity.
  - intros x y z. destruct (c1 (f x) (f y)) eqn:E1; try discriminate. intros E2.
    rewrite (cmp_cong _ T1 _ _ _ E1). destruct (c1 (f y) (f z)); auto. apply (cmp_cong _ T2 _ _ _ E2).
Qed.
Lemma TOa : total_preorder acmp.
Proof.
  destruct (lex_total Z.compare cmp2 _ fst snd Zcompare_total TO2) as [A B C].
  constructor; intros *; rewrite !acmp_alt; [apply A|apply B|apply C].
Qed.
Lemma ASa a b : acmp a b = Eq -> a = b.
Proof.
  rewrite acmp_alt. destruct (Z.compare (fst a) (fst b)) eqn:E; try discriminate. intros H.
  apply Z.compare_eq in E. apply AS2 in H. destruct a, b; simpl in *; congruence.
Qed.
Lemma TOe : total_preorder ecmp.
Proof. apply (lex_total cmp1 cmp2 _ snd fst TO1 TO2). Qed.
Lemma ASe a b : ecmp a b = Eq -> a = b.
Proof.
  unfold AxisSpec.ecmp. destruct (cmp1 (snd a) (snd b)) eqn:E; try discriminate. intros H.
  apply AS1 in E. apply AS2 in H. destruct a, b; simpl in *; congruence.
Qed.

(* what the dependent axis stores for an entry *)
Definition stored (P : list K1) (e : K2 * K1) : akey := (position cmp1 (snd e) P, fst e).
Lemma stored_cmp P e f : In (snd e) P -> In (snd f) P -> acmp (stored P e) (stored P f) = ecmp e f.
Proof.
  intros A B. rewrite acmp_alt. unfold stored, AxisSpec.ecmp. cbn [fst snd].
  rewrite (position_cmp cmp1 TO1 AS1 (snd e) (snd f) P A B). reflexivity.
Qed.
Definition below (P : list K1) (es : list (K2 * K1)) : Prop := forall e, In e es -> In (snd e) P.
Lemma below_cons P e es : below P (e :: es) <-> In (snd e) P /\ below P es.
Proof.
  unfold below. simpl. split.
  - intros A. split; [apply A; auto|intros f I; apply A; auto].
  - intros [A B] f [<-|I]; auto.
Qed.
Lemma stored_sorted P es : below P es ->
  StronglySorted (lt ecmp) es <-> StronglySorted (lt acmp) (map (stored P) es).
Proof.
  induction es as [|e es IH]; intros B; simpl; [split; constructor|].
  apply below_cons in B. destruct B as [B1 B2]. rewrite !ss_cons, (IH B2).
  split; intros [S F]; split; auto.
  - intros y I. apply in_map_iff in I. destruct I as (f & <- & I). unfold lt. rewrite stored_cmp by auto. apply F; auto.
  - intros f I. unfold lt. rewrite <- (stored_cmp P) by auto. apply F. apply in_map; auto.
Qed.
Lemma stored_member P es e : below P es -> In (snd e) P -> member acmp (stored P e) (map (stored P) es) = member ecmp e es.
Proof.
  induction es as [|f es IH]; intros B I; simpl; auto. apply below_cons in B. destruct B as [B1 B2].
  unfold member in *. simpl. rewrite (IH B2 I). unfold is_eq. rewrite stored_cmp by auto. reflexivity.
Qed.
Lemma stored_position P es e : below P es -> In (snd e) P -> position acmp (stored P e) (map (stored P) es) = position ecmp e es.
Proof.
  induction es as [|f es IH]; intros B I; simpl; auto. apply below_cons in B. destruct B as [B1 B2].
  rewrite !position_cons, (IH B2 I). unfold is_lt. rewrite stored_cmp by auto. reflexivity.
Qed.
Lemma stored_insert P es e : below P es -> In (snd e) P -> insert acmp (stored P e) (map (stored P) es) = map (stored P) (insert ecmp e es).
Proof.
  induction es as [|f es IH]; intros B I; simpl; auto. apply below_cons in B. destruct B as [B1 B2].
  unfold is_lt. rewrite stored_cmp by auto. destruct (ecmp e f); simpl; try rewrite (IH B2 I); reflexivity.
Qed.
Lemma stored_delete P es e : below P es -> In (snd e) P -> delete acmp (stored P e) (map (stored P) es) = map (stored P) (delete ecmp e es).
Proof.
  induction es as [|f es IH]; intros B I; simpl; auto. apply below_cons in B. destruct B as [B1 B2].
  unfold delete in *. cbn [filter]. rewrite (IH B2 I).
  assert (is_eq acmp (stored P e) (stored P f) = is_eq ecmp e f) as -> by (unfold is_eq; rewrite stored_cmp by auto; reflexivity).
  destruct (is_eq ecmp e f); reflexivity.
Qed.

(* the axes stand for a specification state *)
Record R (x : axes K1 K2) (s : sax K1 K2) : Prop := {
  r_par : holds cmp1 (par x) (parents s);
  r_chi : holds acmp (chi x) (map (stored (parents s)) (entries s));
  r_below : below (parents s) (entries s);
  r_sorted : StronglySorted (lt ecmp) (entries s) }.

Lemma R_new : R axes_new sax_new.
Proof.
  constructor; simpl.
  - apply holds_new.
  - apply holds_new.
  - intros e [].
  - constructor.
Qed.

(* ---- queries ---- *)
Section Queries.
Variables (x : axes K1 K2) (s : sax K1 K2).
Hypothesis H : R x s.
Hypothesis small : Z.of_nat (length (parents s)) < UINT_MAX.

Lemma q_phas k : p_haskey cmp1 x k = Ok (member cmp1 k (parents s)).
Proof. apply holds_haskey; [exact TO1|apply (r_par _ _ H)]. Qed.
Lemma q_porder k : p_getorderof cmp1 x k = if member cmp1 k (parents s) then Ok (position cmp1 k (parents s)) else Throw RuntimeError.
Proof.
  unfold p_getorderof. rewrite q_phas. cbn [bind]. destruct (member cmp1 k (parents s)) eqn:M; cbn [negb]; auto.
  rewrite (holds_order _ TO1 _ _ k (r_par _ _ H)), M. reflexivity.
Qed.
Lemma q_key c k : member cmp1 k (parents s) = true -> axis_key cmp1 x c k = Ok (stored (parents s) (c, k)).
Proof.
  intros M. unfold axis_key. rewrite q_porder, M. cbn [bind].
  apply (member_in _ TO1 AS1) in M. pose proof (position_lt_length cmp1 TO1 k _ M).
  destruct (Z.eqb_spec (position cmp1 k (parents s)) UINT_MAX); [lia|]. reflexivity.
Qed.
Lemma q_chas c k : c_haskey cmp1 cmp2 x c k = Ok (member ecmp (c, k) (entries s)).
Proof.
  unfold c_haskey. rewrite q_phas. cbn [bind]. destruct (member cmp1 k (parents s)) eqn:M; cbn [negb].
  - rewrite (q_key c k M). cbn [bind]. rewrite (holds_haskey _ TOa _ _ _ (r_chi _ _ H)).
    rewrite stored_member; auto; [apply (r_below _ _ H)|]. apply (member_in _ TO1 AS1); exact M.
  - f_equal. symmetry. apply (member_false _ TOe ASe). intros I. apply (r_below _ _ H) in I.
    apply (member_in _ TO1 AS1) in I. simpl in I. congruence.
Qed.
Lemma mem_parent c k : member ecmp (c, k) (entries s) = true -> In k (parents s).
Proof. intros M. apply (member_in _ TOe ASe) in M. apply (r_below _ _ H) in M. exact M. Qed.
Lemma q_corder c k : c_getorderof cmp1 cmp2 x c k =
  if member ecmp (c, k) (entries s) then Ok (position ecmp (c, k) (entries s)) else Throw RuntimeError.
Proof.
  unfold c_getorderof. rewrite q_chas. cbn [bind]. destruct (member ecmp (c, k) (entries s)) eqn:M; cbn [negb]; auto.
  pose proof (mem_parent _ _ M) as I. rewrite q_key by (apply (member_in _ TO1 AS1); exact I). cbn [bind].
  rewrite (holds_order _ TOa _ _ _ (r_chi _ _ H)), stored_member, M by (auto; apply (r_below _ _ H)). cbn [bind].
  rewrite stored_position by (auto; apply (r_below _ _ H)). reflexivity.
Qed.
Lemma q_pat i : 0 <= i -> p_at x i =
  match nth_error (parents s) (Z.to_nat i) with Some k => Ok k | None => Throw OutOfRange end.
Proof.
  intros P. unfold p_at. rewrite (holds_length _ _ _ (r_par _ _ H)).
  pose proof (holds_at _ _ _ i (r_par _ _ H) P) as A.
  destruct (Z.leb_spec 0 i); [|lia]. cbn [andb]. destruct (Z.ltb_spec i (Z.of_nat (length (parents s)))) as [L|L]; cbn [negb].
  - destruct (nth_error (parents s) (Z.to_nat i)) as [k|] eqn:N.
    + destruct A as (j & n & E1 & E2 & E3). rewrite E1. cbn [bind]. rewrite (aget_some _ _ _ E2). cbn [bind]. congruence.
    + apply nth_error_None in N. lia.
  - rewrite (proj2 (nth_error_None _ _)) by lia. reflexivity.
Qed.
Lemma q_cat i : 0 <= i -> c_at x i =
  match nth_error (entries s) (Z.to_nat i) with Some e => Ok e | None => Throw OutOfRange end.
Proof.
  intros P. unfold c_at. rewrite (holds_length _ _ _ (r_chi _ _ H)), map_length.
  pose proof (holds_at _ _ _ i (r_chi _ _ H) P) as A. rewrite nth_error_map in A.
  destruct (Z.leb_spec 0 i); [|lia]. cbn [andb]. destruct (Z.ltb_spec i (Z.of_nat (length (entries s)))) as [L|L]; cbn [negb].
  - destruct (nth_error (entries s) (Z.to_nat i)) as [[c k]|] eqn:N; cbn [option_map] in A.
    + destruct A as (j & n & E1 & E2 & E3). rewrite E1. cbn [bind]. rewrite (aget_some _ _ _ E2). cbn [bind].
      rewrite E3. unfold stored. cbn [fst snd]. rewrite q_pat by apply position_nonneg.
      rewrite nth_position; auto; [apply (holds_sorted _ _ _ (r_par _ _ H))|].
      apply (r_below _ _ H (c, k)). apply nth_error_In in N. exact N.
    + apply nth_error_None in N. lia.
  - rewrite (proj2 (nth_error_None _ _)) by lia. reflexivity.
Qed.
End Queries.

(* ---- the listener: a new parent position ---- *)
Definition shift_up (p : Z) (a : @akey K2) : akey := if p <=? fst a then (fst a + 1, snd a) else a.
Lemma set_kv_same {K V} (n : node K V) : set_kv n (nkey n) (nval n) = n.
Proof. destruct n; reflexivity. Qed.
Lemma on_add_nth n : forall (t : tree_state akey unit) p i, (i + n = length (arr t))%nat ->
  exists a', on_add n t p i = Ok (Tree a' (root t)) /\ length a' = length (arr t) /\
    forall j, nth_error a' j = option_map (fun e => set_kv e (if (i <=? j)%nat then shift_up p (nkey e) else nkey e) (nval e)) (nth_error (arr t) j).
Proof.
  induction n as [|n IH]; intros t p i L; cbn [on_add].
  - exists (arr t). split; [destruct t; reflexivity|]. split; auto. intros j.
    destruct (nth_error (arr t) j) as [e|] eqn:N; auto. simpl. f_equal.
    apply nth_error_lt in N. destruct (Nat.leb_spec i j); [lia|]. symmetry. apply set_kv_same.
  - destruct (nth_error (arr t) i) as [e|] eqn:N; [|apply nth_error_None in N; lia].
    rewrite (aget_some _ _ _ N). cbn [bind].
    assert (exists a1, (if p <=? fst (nkey e) then aset (arr t) i (set_pi e (fst (nkey e) + 1)) else Ok (arr t)) = Ok a1 /\
      a1 = upd (arr t) i (set_kv e (shift_up p (nkey e)) (nval e))) as (a1 & -> & ->).
    { unfold shift_up. destruct (p <=? fst (nkey e)) eqn:C.
      - eexists. split; [apply aset_ok; lia|]. reflexivity.
      - eexists. split; [reflexivity|]. rewrite set_kv_same. symmetry. apply upd_same; exact N. }
    cbn [bind]. destruct (IH (Tree (upd (arr t) i (set_kv e (shift_up p (nkey e)) (nval e))) (root t)) p (S i)) as (a' & E1 & E2 & E3).
    { cbn [arr]. rewrite length_upd. lia. }
    cbn [arr root] in *. rewrite length_upd in E2. exists a'. split; [exact E1|]. split; [exact E2|].
    intros j. rewrite E3, nth_error_upd. destruct (Nat.eqb_spec i j) as [<-|NE].
    + rewrite (proj2 (Nat.ltb_lt i (length (arr t)))) by lia. cbn [andb option_map]. rewrite N. cbn [option_map].
      rewrite Nat.leb_refl. destruct (Nat.leb_spec (S i) i); [lia|]. reflexivity.
    + cbn [andb]. destruct (Nat.leb_spec (S i) j), (Nat.leb_spec i j); try lia; reflexivity.
Qed.

Lemma holds_tmap (f : akey -> akey) st l a' : holds acmp st l ->
  (forall j, nth_error a' j = option_map (fun e => set_kv e (f (nkey e)) (nval e)) (nth_error (arr st) j)) ->
  length a' = length (arr st) -> StronglySorted (lt acmp) (map f l) ->
  holds acmp (Tree a' (root st)) (map f l).
Proof.
  intros (t & I & <-) E1 E2 S. exists (tmap (fun _ => f) t). split.
  - apply tmap_inv; auto. unfold keys in S. rewrite map_map in S. exact S.
  - unfold keys. rewrite tmap_elems, !map_map. reflexivity.
Qed.

Lemma step_padd x s k : R x s -> ~ In k (parents s) ->
  exists x', p_add cmp1 x k = Ok (x', [MAdd (position cmp1 k (parents s))], []) /\
             R x' (Sax (insert cmp1 k (parents s)) (entries s)).
Proof.
  intros Rx NI. unfold p_add. rewrite (q_phas _ _ Rx), (proj2 (member_false _ TO1 AS1 _ _) NI). cbn [bind].
  destruct (holds_add _ TO1 AS1 _ _ k (r_par _ _ Rx) NI) as (t' & -> & Ht). cbn [bind].
  rewrite (holds_order _ TO1 _ _ k Ht). cbn [bind].
  assert (Ik : In k (insert cmp1 k (parents s))) by (eapply Permutation_in; [symmetry; apply insert_perm|left; reflexivity]).
  rewrite (proj2 (member_in _ TO1 AS1 _ _) Ik), position_self_insert by auto.
  destruct (on_add_nth (tree_length (chi x)) (chi x) (position cmp1 k (parents s)) 0 eq_refl) as (a' & -> & L & N).
  cbn [bind]. eexists. split; [reflexivity|]. constructor; cbn [par chi parents entries].
  - exact Ht.
  - assert (E1 : map (stored (insert cmp1 k (parents s))) (entries s) =
                 map (shift_up (position cmp1 k (parents s))) (map (stored (parents s)) (entries s))).
    { rewrite map_map. apply map_ext_in. intros [c q] I. unfold stored, shift_up. cbn [fst snd].
      apply (r_below _ _ Rx) in I. cbn [snd] in I. rewrite position_insert.
      destruct (tri _ TO1 AS1 k q) as [T|[->|T]]; [|tauto|].
      - rewrite (proj2 (is_lt_iff _ _ _) T). pose proof (position_mono cmp1 TO1 k q (parents s) T).
        destruct (Z.leb_spec (position cmp1 k (parents s)) (position cmp1 q (parents s))); [|lia]. f_equal. lia.
      - pose proof (position_strict cmp1 TO1 q k (parents s) T I).
        destruct (Z.leb_spec (position cmp1 k (parents s)) (position cmp1 q (parents s))); [lia|].
        destruct (is_lt cmp1 k q) eqn:B; [|reflexivity]. apply is_lt_iff in B.
        exfalso. apply (lt_irrefl _ TO1 k). eapply lt_trans; eauto. }
    assert (B : below (insert cmp1 k (parents s)) (entries s)).
    { intros e I. eapply Permutation_in; [symmetry; apply insert_perm|]. right. apply (r_below _ _ Rx). exact I. }
    rewrite E1. apply holds_tmap; auto; [apply (r_chi _ _ Rx)|].
    rewrite <- E1. apply stored_sorted; auto. apply (r_sorted _ _ Rx).
  - intros e I. eapply Permutation_in; [symmetry; apply insert_perm|]. right. apply (r_below _ _ Rx). exact I.
  - apply (r_sorted _ _ Rx).
Qed.

Lemma step_cadd x s c k : R x s -> Z.of_nat (length (parents s)) < UINT_MAX -> In k (parents s) -> ~ In (c, k) (entries s) ->
  exists x', c_add cmp1 cmp2 x c k = Ok (x', [], [MAdd (position ecmp (c, k) (entries s))]) /\
             R x' (Sax (parents s) (insert ecmp (c, k) (entries s))).
Proof.
  intros Rx Sm Ik NI. unfold c_add. rewrite (q_phas _ _ Rx), (proj2 (member_in _ TO1 AS1 _ _) Ik). cbn [bind negb].
  rewrite (q_chas _ _ Rx Sm), (proj2 (member_false _ TOe ASe _ _) NI). cbn [bind].
  rewrite (q_key _ _ Rx Sm) by (apply (member_in _ TO1 AS1); exact Ik). cbn [bind].
  pose proof (r_below _ _ Rx) as B.
  assert (NI' : ~ In (stored (parents s) (c, k)) (map (stored (parents s)) (entries s))).
  { rewrite <- (member_in _ TOa ASa), stored_member by auto. rewrite (member_in _ TOe ASe). exact NI. }
  destruct (holds_add _ TOa ASa _ _ _ (r_chi _ _ Rx) NI') as (t' & -> & Ht). cbn [bind].
  rewrite (holds_order _ TOa _ _ _ Ht). cbn [bind].
  rewrite (proj2 (member_in _ TOa ASa _ _)) by (eapply Permutation_in; [symmetry; apply insert_perm|left; reflexivity]).
  rewrite position_self_insert by apply TOa. rewrite stored_position by auto.
  eexists. split; [reflexivity|]. rewrite stored_insert in Ht by auto.
  constructor; cbn [par chi parents entries]; auto.
  - apply (r_par _ _ Rx).
  - intros e I. apply (Permutation_in _ (insert_perm _ _ _)) in I. destruct I as [<-|I]; auto.
  - apply (insert_sorted _ TOe ASe); [apply (r_sorted _ _ Rx)|exact NI].
Qed.

Lemma step_cremove x s c k : R x s -> Z.of_nat (length (parents s)) < UINT_MAX -> In (c, k) (entries s) ->
  exists x', c_remove cmp1 cmp2 x c k = Ok (x', [], [MRemove (position ecmp (c, k) (entries s))]) /\
             R x' (Sax (parents s) (delete ecmp (c, k) (entries s))).
Proof.
  intros Rx Sm I. unfold c_remove. pose proof (r_below _ _ Rx) as B. pose proof (B _ I) as Ik. cbn [snd] in Ik.
  rewrite (q_chas _ _ Rx Sm), (proj2 (member_in _ TOe ASe _ _) I). cbn [bind negb].
  rewrite (q_key _ _ Rx Sm) by (apply (member_in _ TO1 AS1); exact Ik). cbn [bind].
  rewrite (holds_order _ TOa _ _ _ (r_chi _ _ Rx)), stored_member, (proj2 (member_in _ TOe ASe _ _) I) by auto. cbn [bind].
  rewrite stored_position by auto.
  destruct (holds_remove _ TOa _ _ (stored (parents s) (c, k)) (r_chi _ _ Rx)) as (t' & -> & Ht). cbn [bind].
  eexists. split; [reflexivity|]. rewrite stored_delete in Ht by auto.
  constructor; cbn [par chi parents entries]; auto.
  - apply (r_par _ _ Rx).
  - intros e I'. apply filter_In in I'. apply B. tauto.
  - apply filter_sorted. apply (r_sorted _ _ Rx).
Qed.

(* ---- the listener: a parent position goes away ---- *)
Definition weak (st : tree_state (@akey K2) unit) (t : @tr akey unit) : Prop :=
  rep (arr st) (root st) t /\ Permutation (idx t) (seq 0 (length (arr st))) /\ avl t.
Lemma weak_nodup st t : weak st t -> NoDup (idx t).
Proof. intros (_ & P & _). eapply Permutation_NoDup; [symmetry; exact P|apply seq_NoDup]. Qed.
Lemma weak_length st t : weak st t -> tree_length st = length (keys t).
Proof.
  intros (_ & P & _). apply Permutation_length in P. rewrite seq_length in P. unfold tree_length, idx, keys in *.
  rewrite map_length in *. auto.
Qed.
Lemma weak_at st t i : weak st t ->
  getatorder_loop (S (length (arr st))) (arr st) (root st) 0 (Z.of_nat i) = Ok (option_map fst (nth_error (elems t) i)).
Proof.
  intros W. pose proof (weak_length _ _ W) as L. destruct W as (Hr & P & A).
  rewrite (getatorder_rep t).
  - destruct (Z.leb_spec 0 (Z.of_nat i)); [|lia]. rewrite Z.sub_0_r, Nat2Z.id. reflexivity.
  - exact Hr.
  - pose proof (ht_le_size t). rewrite size_elems in *. unfold tree_length, keys in L. rewrite map_length in L. lia.
Qed.
Lemma upd_map_at {A B} (f : A -> B) (l : list A) i e : nth_error l i = Some e -> map f l = upd (map f l) i (f e).
Proof. intros N. symmetry. apply upd_same. rewrite nth_error_map, N. reflexivity. Qed.
Lemma weak_upd st t i j k v n k' : weak st t -> nth_error (elems t) i = Some (j, (k, v)) -> nth_error (arr st) j = Some n ->
  exists t', weak (Tree (upd (arr st) j (set_kv n k' (nval n))) (root st)) t' /\ keys t' = upd (keys t) i k'.
Proof.
  intros W N Hn. pose proof (weak_nodup _ _ W) as ND. destruct W as (Hr & P & A).
  set (f := fun j' (k0 : @akey K2) => if (j' =? j)%nat then k' else k0).
  exists (tmap f t). split.
  - split; [|split]; cbn [arr root].
    + eapply tmap_rep; [|exact Hr]. intros q. rewrite nth_error_upd. unfold f.
      destruct (Nat.eqb_spec j q) as [<-|NE].
      * rewrite (proj2 (Nat.ltb_lt j (length (arr st)))) by (eapply nth_error_lt; eauto).
        rewrite Hn, Nat.eqb_refl. reflexivity.
      * cbn [andb]. destruct (nth_error (arr st) q) as [m|]; auto. simpl. f_equal.
        destruct (Nat.eqb_spec q j); [congruence|]. symmetry. apply set_kv_same.
    + rewrite tmap_idx, length_upd. exact P.
    + apply tmap_avl; exact A.
  - unfold keys. rewrite tmap_elems, map_map. cbn [fst snd]. unfold idx in ND.
    revert i N ND. induction (elems t) as [|e l IH]; intros [|i] N ND; try discriminate; simpl in *; inversion ND; subst.
    + injection N as ->. unfold f. simpl. rewrite Nat.eqb_refl. f_equal. apply map_ext_in. intros [j2 [k2 v2]] I. simpl.
      destruct (Nat.eqb_spec j2 j); auto. subst. exfalso. apply H1. apply in_map_iff. eexists; split; [|exact I]. reflexivity.
    + f_equal; [|apply IH; auto]. unfold f. destruct (Nat.eqb_spec (fst e) j) as [E1|NE]; auto.
      exfalso. apply H1. rewrite E1. apply nth_error_In in N. apply in_map_iff. eexists; split; [|exact N]. reflexivity.
Qed.

Definition shift_down (p : Z) (a : @akey K2) : akey := if p <? fst a then (fst a - 1, snd a) else a.
Lemma on_remove_prefix l2 : forall fuel st t p i log l1 l3,
  weak st t -> keys t = l1 ++ l2 ++ l3 -> length l1 = i -> (forall a, In a l2 -> fst a <> p) ->
  exists st' t', on_remove cmp2 (length l2 + fuel) st p (Z.of_nat i) log = on_remove cmp2 fuel st' p (Z.of_nat (i + length l2)) log /\
    weak st' t' /\ keys t' = l1 ++ map (shift_down p) l2 ++ l3.
Proof.
  induction l2 as [|a l2 IH]; intros fuel st t p i log l1 l3 W Hk L Np.
  - exists st, t. simpl. rewrite Nat.add_0_r. auto.
  - cbn [length Nat.add on_remove]. unfold on_remove_round.
    pose proof (weak_length _ _ W) as Lt.
    assert (Na : nth_error (keys t) i = Some a) by (rewrite Hk, nth_error_app2, <- L, Nat.sub_diag by lia; reflexivity).
    assert (Li : (i < tree_length st)%nat) by (rewrite Lt; eapply nth_error_lt; eauto).
    destruct (Z.ltb_spec (Z.of_nat i) (Z.of_nat (tree_length st))); [|lia].
    rewrite (weak_at _ _ i W). unfold keys in Na. rewrite nth_error_map in Na.
    destruct (nth_error (elems t) i) as [[j [k v]]|] eqn:N; [|discriminate]. cbn [option_map fst snd] in Na. injection Na as ->.
    cbn [bind option_map fst]. destruct (rep_elems t _ _ _ _ (proj1 W) (nth_error_In _ _ N)) as (n & Hn & Hp).
    rewrite (aget_some _ _ _ Hn). cbn [bind]. unfold payload in Hp. injection Hp as Hp1 Hp2. rewrite Hp1.
    destruct (Z.eqb_spec (fst a) p) as [E1|_]; [exfalso; apply (Np a); [left; reflexivity|exact E1]|].
    assert (exists st1 t1, weak st1 t1 /\ keys t1 = (l1 ++ [shift_down p a]) ++ l2 ++ l3 /\
      (if p <? fst a then let* a0 := aset (arr st) j (set_pi n (fst a - 1)) in Ok (Some (Tree a0 (root st), Z.of_nat i + 1, @nil amsg))
       else Ok (Some (st, Z.of_nat i + 1, []))) = Ok (Some (st1, Z.of_nat i + 1, []))) as (st1 & t1 & W1 & K1' & E1).
    { unfold shift_down. destruct (p <? fst a) eqn:C.
      - destruct (weak_upd st t i j a v n (fst a - 1, snd a) W N Hn) as (t1 & W1 & K1').
        eexists _, t1. split; [exact W1|]. split.
        + rewrite K1', Hk, upd_app_r, <- L, Nat.sub_diag by lia. cbn [upd app]. rewrite <- app_assoc. reflexivity.
        + rewrite aset_ok by (eapply nth_error_lt; eauto). cbn [bind]. unfold set_pi. rewrite Hp1. reflexivity.
      - exists st, t. split; [exact W|]. split; [|reflexivity]. rewrite Hk, <- app_assoc. reflexivity. }
    rewrite E1. cbn [bind]. rewrite app_nil_r.
    destruct (IH fuel st1 t1 p (S i) log (l1 ++ [shift_down p a]) l3) as (st' & t' & E2 & W2 & K2').
    { exact W1. } { exact K1'. } { rewrite app_length. simpl. lia. } { intros b I. apply Np. right. exact I. }
    exists st', t'. split.
    + replace (Z.of_nat i + 1) with (Z.of_nat (S i)) by lia. rewrite E2. do 2 f_equal. lia.
    + split; [exact W2|]. rewrite K2', <- app_assoc. reflexivity.
Qed.

Lemma remove_ref_noswap t : forall fuel a o j nj, rep a o t -> nth_error a j = Some nj -> noswap acmp t (nkey nj) ->
  remove_ref cmp2 fuel a o j = remove acmp true fuel a o (nkey nj).
Proof.
  induction t as [|l IHl i k' v' r IHr]; intros fuel a o j nj Hr Hj N.
  - simpl in Hr; subst o. destruct fuel; reflexivity.
  - destruct Hr as (-> & n & Hn & Hk & Hv & _ & _ & Hl & Hr).
    destruct fuel as [|fuel]; [reflexivity|]. cbn [remove_ref remove].
    rewrite (aget_some _ _ _ Hn), (aget_some _ _ _ Hj); cbn [bind]. rewrite Hk. cbn [noswap] in N.
    destruct (acmp (nkey nj) k').
    + subst r. simpl in Hr. rewrite Hr. reflexivity.
    + rewrite (IHl fuel a (nleft n) j nj) by auto. reflexivity.
    + rewrite (IHr fuel a (nright n) j nj) by auto. reflexivity.
Qed.

(* no entry of parent k, or only the last entry of the axis *)
Definition removable (k : K1) (es : list (K2 * K1)) : Prop :=
  filter (child_of cmp1 k) es = [] \/
  exists es0 c, es = es0 ++ [(c, k)] /\ filter (child_of cmp1 k) es0 = [].

Lemma no_child k (es : list (K2 * K1)) : filter (child_of cmp1 k) es = [] <-> forall e, In e es -> snd e <> k.
Proof.
  split.
  - intros F e I E1. assert (In e (filter (child_of cmp1 k) es)) as A.
    { apply filter_In. split; auto. unfold child_of. apply is_eq_iff; auto. }
    rewrite F in A. destruct A.
  - intros N. induction es as [|e es IH]; simpl; auto. destruct (child_of cmp1 k e) eqn:C.
    + unfold child_of in C. apply is_eq_iff in C; auto. exfalso. apply (N e); simpl; auto.
    + apply IH. intros f I. apply N. right; auto.
Qed.
Lemma no_child_keep k (es : list (K2 * K1)) : (forall e, In e es -> snd e <> k) -> filter (fun e => negb (child_of cmp1 k e)) es = es.
Proof.
  induction es as [|e es IH]; simpl; intros N; auto. destruct (child_of cmp1 k e) eqn:C; simpl.
  - unfold child_of in C. apply is_eq_iff in C; auto. exfalso. apply (N e); simpl; auto.
  - f_equal. apply IH. intros f I. apply N. right; auto.
Qed.
Lemma stored_down P k es : NoDup P -> In k P -> below P es -> (forall e, In e es -> snd e <> k) ->
  map (shift_down (position cmp1 k P)) (map (stored P) es) = map (stored (delete cmp1 k P)) es.
Proof.
  intros ND Ik B N. rewrite map_map. apply map_ext_in. intros [c q] I. unfold stored, shift_down. cbn [fst snd].
  rewrite (position_delete cmp1 TO1 AS1) by auto. specialize (B _ I). cbn [snd] in B.
  destruct (tri _ TO1 AS1 k q) as [T|[->|T]].
  - rewrite (proj2 (is_lt_iff _ _ _) T). pose proof (position_strict cmp1 TO1 k q P T Ik).
    destruct (Z.ltb_spec (position cmp1 k P) (position cmp1 q P)); [reflexivity|lia].
  - exfalso. apply (N _ I). reflexivity.
  - pose proof (position_strict cmp1 TO1 q k P T B).
    destruct (Z.ltb_spec (position cmp1 k P) (position cmp1 q P)); [lia|].
    destruct (is_lt cmp1 k q) eqn:L; [|f_equal; lia]. apply is_lt_iff in L.
    exfalso. apply (lt_irrefl _ TO1 k). eapply lt_trans; eauto.
Qed.
Lemma below_delete P k es : below P es -> (forall e, In e es -> snd e <> k) -> below (delete cmp1 k P) es.
Proof.
  intros B N e I. unfold delete. apply filter_In. split; [apply B; exact I|].
  destruct (is_eq cmp1 k (snd e)) eqn:E1; auto. apply is_eq_iff in E1; auto. exfalso. apply (N _ I). auto.
Qed.
Lemma weak_holds st t l : weak st t -> keys t = l -> StronglySorted (lt acmp) l -> holds acmp st l.
Proof.
  intros (A & B & C) E1 S. exists t. split; auto. repeat split; auto. apply sorted_of_keys. rewrite E1. exact S.
Qed.

Lemma step_premove x s k : R x s -> In k (parents s) -> removable k (entries s) ->
  exists x', p_remove cmp1 cmp2 (S (tree_length (chi x))) x k =
      Ok (x', [MRemove (position cmp1 k (parents s))], removals cmp1 k (entries s)) /\
    R x' (Sax (delete cmp1 k (parents s)) (filter (fun e => negb (child_of cmp1 k e)) (entries s))).
Proof.
  intros Rx Ik Hrem. unfold p_remove. rewrite (q_phas _ _ Rx), (proj2 (member_in _ TO1 AS1 _ _) Ik). cbn [bind negb].
  rewrite (holds_order _ TO1 _ _ k (r_par _ _ Rx)), (proj2 (member_in _ TO1 AS1 _ _) Ik). cbn [bind].
  destruct (holds_remove _ TO1 _ _ k (r_par _ _ Rx)) as (t' & E0 & Ht).
  pose proof (r_below _ _ Rx) as B. pose proof (r_sorted _ _ Rx) as Se.
  pose proof (ss_nodup _ TO1 _ (holds_sorted _ _ _ (r_par _ _ Rx))) as ND.
  destruct (r_chi _ _ Rx) as (t & I & Hk). assert (W : weak (chi x) t) by (destruct I as (A1 & A2 & A3 & _); repeat split; auto).
  set (p := position cmp1 k (parents s)) in *.
  assert (Np : forall es, below (parents s) es -> (forall e, In e es -> snd e <> k) -> forall a, In a (map (stored (parents s)) es) -> fst a <> p).
  { intros es Bes N a Ia E1. apply in_map_iff in Ia. destruct Ia as (e & <- & Ie). unfold stored in E1. cbn [fst] in E1.
    apply (N e Ie). pose proof (position_cmp cmp1 TO1 AS1 (snd e) k (parents s) (Bes e Ie) Ik) as C.
    unfold p in E1. rewrite E1, Z.compare_refl in C. apply AS1; exact C. }
  destruct Hrem as [F|(es0 & c & Ees & F)]; rewrite no_child in F.
  - (* no entries *)
    destruct (on_remove_prefix (map (stored (parents s)) (entries s)) 1 (chi x) t p 0 [] [] []) as (st' & t1 & E1 & W1 & K1').
    { exact W. } { rewrite app_nil_r. exact Hk. } { reflexivity. } { apply Np; auto. }
    assert (tree_length (chi x) = length (map (stored (parents s)) (entries s))) as TL by (rewrite (weak_length _ _ W), Hk; reflexivity).
    rewrite TL. replace (S (length (map (stored (parents s)) (entries s)))) with (length (map (stored (parents s)) (entries s)) + 1)%nat by lia.
    change 0 with (Z.of_nat 0). rewrite E1. cbn [on_remove]. unfold on_remove_round.
    pose proof (weak_length _ _ W1) as L1. rewrite K1' in L1. rewrite app_nil_r in *. cbn [app] in *. rewrite map_length in L1. rewrite L1.
    rewrite Z.ltb_irrefl. cbn [bind]. rewrite E0. cbn [bind].
    eexists. split.
    + unfold removals. rewrite (proj2 (no_child k (entries s)) F). reflexivity.
    + rewrite no_child_keep by auto. unfold p in K1'. rewrite stored_down in K1' by auto.
      constructor; cbn [par chi parents entries]; auto.
      * apply (weak_holds _ _ _ W1 K1'). apply stored_sorted; auto. apply below_delete; auto.
      * apply below_delete; auto.
  - (* only the last one *)
    assert (B0 : below (parents s) es0) by (intros e Ie; apply B; rewrite Ees; apply in_or_app; auto).
    rewrite Ees in Se. pose proof (proj1 (ss_app _ _ _) Se) as (S0 & _ & S1).
    assert (Low : forall e, In e es0 -> lt cmp1 (snd e) k).
    { intros e Ie. specialize (S1 e (c, k) Ie (or_introl eq_refl)). unfold lt, AxisSpec.ecmp in S1. cbn [fst snd] in S1.
      destruct (cmp1 (snd e) k) eqn:C; try discriminate; [|exact C]. apply AS1 in C. exfalso. apply (F e Ie C). }
    destruct (on_remove_prefix (map (stored (parents s)) es0) 2 (chi x) t p 0 [] [] [stored (parents s) (c, k)]) as (st' & t1 & E1 & W1 & K1').
    { exact W. } { rewrite Hk, Ees, map_app. reflexivity. } { reflexivity. } { apply Np; auto. }
    assert (tree_length (chi x) = S (length (map (stored (parents s)) es0))) as TL.
    { rewrite (weak_length _ _ W), Hk, Ees, map_app, app_length. simpl. lia. }
    rewrite TL. replace (S (S (length (map (stored (parents s)) es0)))) with (length (map (stored (parents s)) es0) + 2)%nat by lia.
    change 0 with (Z.of_nat 0). rewrite E1. cbn [app Nat.add] in *.
    assert (Same : map (shift_down p) (map (stored (parents s)) es0) = map (stored (parents s)) es0).
    { rewrite map_map. apply map_ext_in. intros e Ie. unfold shift_down, stored. cbn [fst].
      pose proof (position_strict cmp1 TO1 _ _ (parents s) (Low e Ie) (B0 e Ie)). unfold p.
      destruct (Z.ltb_spec (position cmp1 k (parents s)) (position cmp1 (snd e) (parents s))); [lia|reflexivity]. }
    rewrite Same in K1'. set (L0 := map (stored (parents s)) es0) in *.
    pose proof (weak_length _ _ W1) as L1. rewrite K1', app_length in L1. cbn [length] in L1.
    cbn [on_remove]. unfold on_remove_round at 1. rewrite L1.
    destruct (Z.ltb_spec (Z.of_nat (length L0)) (Z.of_nat (length L0 + 1))); [|lia].
    rewrite (weak_at _ _ (length L0) W1).
    assert (Na : nth_error (keys t1) (length L0) = Some (stored (parents s) (c, k))) by (rewrite K1', nth_error_app2, Nat.sub_diag by lia; reflexivity).
    pose proof Na as Na'. unfold keys in Na. rewrite nth_error_map in Na. destruct (nth_error (elems t1) (length L0)) as [[j [ka v]]|] eqn:N; [|discriminate].
    cbn [option_map fst snd] in Na. injection Na as ->. cbn [bind option_map fst].
    destruct (rep_elems t1 _ _ _ _ (proj1 W1) (nth_error_In _ _ N)) as (n & Hn & Hp).
    rewrite (aget_some _ _ _ Hn). cbn [bind]. unfold payload in Hp. injection Hp as Hp1 Hp2. rewrite Hp1.
    unfold stored at 1. cbn [fst snd]. change (position cmp1 k (parents s)) with p. rewrite Z.eqb_refl.
    assert (Hst : holds acmp st' (L0 ++ [stored (parents s) (c, k)])).
    { apply (weak_holds _ _ _ W1 K1'). change [stored (parents s) (c, k)] with (map (stored (parents s)) [(c, k)]).
      unfold L0. rewrite <- map_app. apply stored_sorted; auto. rewrite <- Ees. exact B. }
    assert (remove_key_ref cmp2 st' j = remove_key acmp true st' (stored (parents s) (c, k))) as ->.
    { unfold remove_key_ref, remove_key. rewrite (remove_ref_noswap t1 _ _ _ j n (proj1 W1) Hn); [rewrite Hp1; reflexivity|].
      assert (St1 : sorted acmp t1) by (apply sorted_of_keys; rewrite K1'; apply (holds_sorted _ _ _ Hst)).
      apply (noswap_max _ TOa); auto. intros e Ie Ce f If. rewrite Hp1.
      assert (If' : In (fst (snd f)) (keys t1)) by (unfold keys; apply in_map_iff; exists f; auto).
      rewrite K1' in If'. apply in_app_iff in If'. destruct If' as [If'|[<-|[]]].
      - pose proof (holds_sorted _ _ _ Hst) as SS. apply ss_app in SS. destruct SS as (_ & _ & SS).
        specialize (SS _ _ If' (or_introl eq_refl)). unfold lt in SS. rewrite (cmp_lt_gt _ _ _ TOa SS). discriminate.
      - rewrite (cmp_refl _ _ TOa). discriminate. }
    destruct (holds_remove _ TOa _ _ (stored (parents s) (c, k)) Hst) as (st2 & E2 & H2). rewrite E2. cbn [bind].
    assert (D : delete acmp (stored (parents s) (c, k)) (L0 ++ [stored (parents s) (c, k)]) = L0).
    { unfold delete. rewrite filter_app. cbn [filter]. rewrite (proj2 (is_eq_iff _ TOa ASa _ _) eq_refl). cbn [negb]. rewrite app_nil_r.
      pose proof (holds_sorted _ _ _ Hst) as SS. apply ss_app in SS. destruct SS as (_ & _ & SS). clear -SS TO2 AS2.
      induction L0 as [|y L0 IH]; simpl; auto. destruct (is_eq acmp (stored (parents s) (c, k)) y) eqn:C.
      - apply (is_eq_iff _ TOa ASa) in C. subst y. exfalso.
        apply (lt_irrefl _ TOa (stored (parents s) (c, k))). apply SS; simpl; auto.
      - simpl. f_equal. apply IH. intros a b Ia Ib. apply SS; simpl; auto. }
    rewrite D in H2. unfold on_remove_round. rewrite (holds_length _ _ _ H2), Z.ltb_irrefl. cbn [bind]. rewrite E0. cbn [bind app].
    eexists. split.
    + do 2 f_equal. unfold removals. rewrite Ees, !filter_app. cbn [filter child_of snd]. rewrite (proj2 (no_child k es0) F).
      unfold child_of. cbn [snd]. rewrite (proj2 (is_eq_iff _ TO1 AS1 k k) eq_refl). cbn [app map]. do 3 f_equal.
      assert (filter (fun e => is_lt cmp1 (snd e) k) es0 = es0) as ->.
      { clear -Low. induction es0 as [|e es0 IH]; simpl; auto.
        rewrite (proj2 (is_lt_iff _ _ _)) by (apply Low; simpl; auto). f_equal. apply IH. intros; apply Low; simpl; auto. }
      assert (is_lt cmp1 k k = false) as -> by (apply not_true_iff_false; rewrite is_lt_iff; apply (lt_irrefl _ TO1)).
      rewrite app_nil_r. unfold L0. rewrite map_length. reflexivity.
    + rewrite Ees, filter_app. cbn [filter]. unfold child_of at 2. cbn [snd].
      rewrite (proj2 (is_eq_iff _ TO1 AS1 k k) eq_refl). cbn [negb]. rewrite app_nil_r, no_child_keep by auto.
      constructor; cbn [par chi parents entries]; auto.
      * rewrite <- stored_down by auto. fold p L0. rewrite Same. exact H2.
      * apply below_delete; auto.
Qed.

(* ---- histories ---- *)
Fixpoint removals_ok (s : sax K1 K2) (ops : list (aop K1 K2)) : Prop :=
  match ops with
  | [] => True
  | o :: ops =>
    match o with PRemove k => removable k (entries s) | _ => True end /\
    removals_ok (fst (sax_step cmp1 cmp2 s o)) ops
  end.

Lemma astep_R x s o : R x s -> Z.of_nat (length (parents s)) < UINT_MAX ->
  match o with PRemove k => removable k (entries s) | _ => True end ->
  exists x', astep cmp1 cmp2 (S (tree_length (chi x))) x o = Ok (x', snd (sax_step cmp1 cmp2 s o)) /\
    R x' (fst (sax_step cmp1 cmp2 s o)).
Proof.
  intros Rx Sm Hr. unfold astep. destruct o as [k|k| |c k|c k|]; cbn [acall sax_step].
  - destruct (member cmp1 k (parents s)) eqn:M; cbn [fst snd].
    + unfold p_add. rewrite (q_phas _ _ Rx), M. cbn [bind]. eauto.
    + apply (member_false _ TO1 AS1) in M. destruct (step_padd x s k Rx M) as (x' & -> & R'). eauto.
  - destruct (member cmp1 k (parents s)) eqn:M; cbn [fst snd].
    + apply (member_in _ TO1 AS1) in M. destruct (step_premove x s k Rx M Hr) as (x' & -> & R'). eauto.
    + unfold p_remove. rewrite (q_phas _ _ Rx), M. cbn [bind negb]. eauto.
  - eexists. split; [reflexivity|]. apply R_new.
  - destruct (member cmp1 k (parents s)) eqn:M; cbn [negb orb].
    + destruct (member ecmp (c, k) (entries s)) eqn:M2; cbn [fst snd].
      * unfold c_add. rewrite (q_phas _ _ Rx), M. cbn [bind negb]. rewrite (q_chas _ _ Rx Sm), M2. cbn [bind]. eauto.
      * apply (member_in _ TO1 AS1) in M. apply (member_false _ TOe ASe) in M2.
        destruct (step_cadd x s c k Rx Sm M M2) as (x' & -> & R'). eauto.
    + unfold c_add. rewrite (q_phas _ _ Rx), M. cbn [bind negb]. eauto.
  - destruct (member ecmp (c, k) (entries s)) eqn:M2; cbn [fst snd].
    + apply (member_in _ TOe ASe) in M2. destruct (step_cremove x s c k Rx Sm M2) as (x' & -> & R'). eauto.
    + unfold c_remove. rewrite (q_chas _ _ Rx Sm), M2. cbn [bind negb]. eauto.
  - eexists. split; [reflexivity|]. constructor; cbn [par chi parents entries fst].
    + apply (r_par _ _ Rx).
    + apply holds_new.
    + intros e [].
    + constructor.
Qed.
Lemma parents_grow s o : (length (parents (fst (sax_step cmp1 cmp2 s o))) <= S (length (parents s)))%nat.
Proof.
  destruct o; cbn [sax_step]; repeat match goal with |- context [if ?b then _ else _] => destruct b end; cbn [fst parents length]; auto.
  - rewrite (Permutation_length (insert_perm cmp1 k (parents s))). simpl. lia.
  - unfold delete. clear. induction (parents s) as [|x l IH]; simpl; [lia|]. destruct (negb (is_eq cmp1 k x)); simpl; lia.
  - lia.
Qed.
Lemma arun_R ops : forall x s, R x s -> Z.of_nat (length (parents s) + length ops) < UINT_MAX -> removals_ok s ops ->
  exists x', arun cmp1 cmp2 x ops = Ok (x', snd (sax_run cmp1 cmp2 s ops)) /\ R x' (fst (sax_run cmp1 cmp2 s ops)) /\
    Z.of_nat (length (parents (fst (sax_run cmp1 cmp2 s ops)))) < UINT_MAX.
Proof.
  induction ops as [|o ops IH]; intros x s Rx Sm Ho.
  - exists x. simpl in *. split; [reflexivity|]. split; [exact Rx|lia].
  - destruct Ho as [H1 H2]. cbn [length] in Sm.
    destruct (astep_R x s o Rx ltac:(lia) H1) as (x1 & E1 & R1).
    pose proof (parents_grow s o) as G.
    cbn [arun sax_run]. rewrite E1. cbn [bind]. destruct (sax_step cmp1 cmp2 s o) as [s1 r1]. cbn [fst snd] in *.
    destruct (IH x1 s1 R1 ltac:(lia) H2) as (x2 & E2 & R2 & S2). rewrite E2. cbn [bind].
    destruct (sax_run cmp1 cmp2 s1 ops) as [s2 rs]. cbn [fst snd] in *. eauto.
Qed.

(* C20 for every history that removes only parents without entries or whose only entry is
   the last one of the dependent axis: the events sent, and then every query. *)
Theorem C20_dependent_axis_partial : forall ops,
  Z.of_nat (length ops) < UINT_MAX -> removals_ok sax_new ops ->
  let s := fst (sax_run cmp1 cmp2 sax_new ops) in
  exists x, arun cmp1 cmp2 axes_new ops = Ok (x, snd (sax_run cmp1 cmp2 sax_new ops)) /\
    (forall i, 0 <= i -> p_at x i = match nth_error (parents s) (Z.to_nat i) with Some k => Ok k | None => Throw OutOfRange end) /\
    (forall i, 0 <= i -> c_at x i = match nth_error (entries s) (Z.to_nat i) with Some e => Ok e | None => Throw OutOfRange end) /\
    (forall k, p_haskey cmp1 x k = Ok (member cmp1 k (parents s))) /\
    (forall c k, c_haskey cmp1 cmp2 x c k = Ok (member ecmp (c, k) (entries s))) /\
    (forall c k, c_getorderof cmp1 cmp2 x c k =
       if member ecmp (c, k) (entries s) then Ok (position ecmp (c, k) (entries s)) else Throw RuntimeError) /\
    (* entries stand in order of parent, then key; every one has its parent *)
    StronglySorted (fun e f => ecmp e f = Lt) (entries s) /\
    (forall e, In e (entries s) -> In (snd e) (parents s)).
Proof.
  intros ops Sm Ho s. destruct (arun_R ops axes_new sax_new R_new Sm Ho) as (x & E1 & Rx & S1).
  fold s in Rx, S1. exists x. split; [exact E1|].
  split; [apply (q_pat _ _ Rx)|]. split; [apply (q_cat _ _ Rx)|]. split; [apply (q_phas _ _ Rx)|].
  split; [apply (q_chas _ _ Rx S1)|]. split; [apply (q_corder _ _ Rx S1)|].
  split; [apply (r_sorted _ _ Rx)|apply (r_below _ _ Rx)].
Qed.
End C20.
Print Assumptions C20_dependent_axis_partial.

(* The hypotheses hold for a history with parents added before others, a cascaded removal
   and shifted entries. *)
Definition demo_ops : list (aop Z Z) :=
  [PAdd 20; PAdd 10; CAdd 5 20; CAdd 7 10; CAdd 1 20; PAdd 15; CAdd 9 30; CRemove 1 20; PRemove 20; CAdd 3 15; PRemove 15; PAdd 5].
Example C20_demo :
  removals_ok Z.compare Z.compare sax_new demo_ops /\
  sax_run Z.compare Z.compare sax_new demo_ops =
    (Sax [5; 10] [(7, 10)],
     [Some ([MAdd 0], []); Some ([MAdd 0], []); Some ([], [MAdd 0]); Some ([], [MAdd 0]); Some ([], [MAdd 1]);
      Some ([MAdd 1], []); None; Some ([], [MRemove 1]); Some ([MRemove 2], [MRemove 1]); Some ([], [MAdd 1]);
      Some ([MRemove 1], [MRemove 1]); Some ([MAdd 0], [])]).
Proof.
  split; [|vm_compute; reflexivity].
  unfold demo_ops. cbn [removals_ok]. repeat split; try exact Logic.I.
  - right. vm_compute. exists [(7, 10)], 5. auto.
  - right. vm_compute. exists [(7, 10)], 3. auto.
Qed.

(* The claim is false for other removals: with one entry under each of three parents,
   removing the middle parent never returns, however many rounds the loop is given. *)
Definition bad_ops : list (aop Z Z) := [PAdd 10; PAdd 20; PAdd 30; CAdd 1 10; CAdd 2 20; CAdd 3 30].
Theorem C20_parent_remove_refuted :
  exists x outs, arun Z.compare Z.compare axes_new bad_ops = Ok (x, outs) /\
    forall fuel, p_remove Z.compare Z.compare fuel x 20 = UB OutOfFuel.
Proof.
  destruct (arun Z.compare Z.compare axes_new bad_ops) as [[x outs]| |] eqn:E1; [|vm_compute in E1; discriminate..].
  exists x, outs. split; [reflexivity|]. intros fuel.
  vm_compute in E1. injection E1 as <- <-.
  unfold p_remove.
  match goal with |- context [p_haskey Z.compare ?x 20] => assert (p_haskey Z.compare x 20 = Ok true) as -> by (vm_compute; reflexivity) end.
  cbn [bind negb par chi].
  match goal with |- context [getorderof Z.compare ?x 20] => assert (getorderof Z.compare x 20 = Ok (Some 1)) as -> by (vm_compute; reflexivity) end.
  cbn [bind].
  match goal with |- context [on_remove Z.compare fuel ?t 1 0 []] => set (t0 := t) end.
  assert (on_remove Z.compare fuel t0 1 0 [] = UB OutOfFuel) as ->; [|reflexivity].
  destruct fuel as [|fuel]; [reflexivity|]. cbn [on_remove].
  assert (exists t1, on_remove_round Z.compare t0 1 0 = Ok (Some (t1, 1, [])) /\
    exists t2, on_remove_round Z.compare t1 1 1 = Ok (Some (t2, 1, [MRemove 1])) /\
    exists t3, on_remove_round Z.compare t2 1 1 = Ok (Some (t3, 2, [])) /\
    on_remove_round Z.compare t3 1 2 = Ok (Some (t3, 2, [MRemove 2]))) as (t1 & -> & t2 & E2 & t3 & E3 & E4).
  { eexists. split; [vm_compute; reflexivity|]. eexists. split; [vm_compute; reflexivity|].
    eexists. split; [vm_compute; reflexivity|]. vm_compute; reflexivity. }
  cbn [bind]. destruct fuel as [|fuel]; [reflexivity|]. cbn [on_remove]. rewrite E2. cbn [bind].
  destruct fuel as [|fuel]; [reflexivity|]. cbn [on_remove]. rewrite E3. cbn [bind]. clear -E4.
  generalize (((([] ++ []) ++ [MRemove 1]) ++ [])). induction fuel as [|fuel IH]; intros log; [reflexivity|].
  cbn [on_remove]. rewrite E4. cbn [bind]. apply IH.
Qed.
Print Assumptions C20_parent_remove_refuted.
