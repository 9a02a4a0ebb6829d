(* Proofs about MeshModel: the order of the nodes, the node list, the sets of conditions. *)
From Coq Require Import List ZArith Lia Bool Arith Permutation Sorted Field.
From Verif Require Import Base LinBase MapSpec LlrbModel AvlProofs AvlRemove AvlQueries LlrbProofs PropsLlrb KeySetModel KeySetProofs PropsKeySet SmatModel IncholModel PcgModel BcModel BcProofs PropsBc MeshModel.
Import ListNotations.
Local Open Scope nat_scope.

(* ---- the order of the coordinates ---- *)
Definition lex (p q : coord) : comparison :=
  match Z.compare (cz q) (cz p) with Eq => match Z.compare (cx p) (cx q) with Eq => Z.compare (cy p) (cy q) | r => r end | r => r end.
Lemma ccmp_lex p q : ccmp p q = lex p q.
Proof.
  unfold ccmp, lex. destruct p as [x y z], q as [x' y' z']. cbn [cx cy cz].
  destruct (Z.eqb_spec x x'), (Z.eqb_spec y y'), (Z.eqb_spec z z'); cbn [andb]; destruct (Z.ltb_spec z' z), (Z.ltb_spec z z'), (Z.ltb_spec x x'), (Z.ltb_spec x' x), (Z.ltb_spec y y'); try lia;
  destruct (Z.compare_spec z' z); try lia; auto; destruct (Z.compare_spec x x'); try lia; auto; destruct (Z.compare_spec y y'); auto; lia.
Qed.
Lemma ccmp_total : total_preorder ccmp.
Proof.
  constructor.
  - intros [x y z] [x' y' z']. rewrite !ccmp_lex. unfold lex. cbn [cx cy cz].
    rewrite (Z.compare_antisym z' z), (Z.compare_antisym x x'), (Z.compare_antisym y y').
    destruct (Z.compare z' z); cbn [CompOpp]; auto. destruct (Z.compare x x'); cbn [CompOpp]; auto.
  - intros [x y z] [x' y' z'] [x'' y'' z'']. rewrite !ccmp_lex. unfold lex. cbn [cx cy cz].
    destruct (Z.compare_spec z' z), (Z.compare_spec z'' z'), (Z.compare_spec z'' z); try lia; try discriminate; auto;
    destruct (Z.compare_spec x x'), (Z.compare_spec x' x''), (Z.compare_spec x x''); try lia; try discriminate; auto; rewrite !Z.compare_lt_iff; lia.
  - intros [x y z] [x' y' z'] [x'' y'' z'']. rewrite !ccmp_lex. unfold lex. cbn [cx cy cz].
    destruct (Z.compare_spec z' z); try discriminate. destruct (Z.compare_spec x x'); try discriminate. destruct (Z.compare_spec y y'); try discriminate. now subst.
Qed.
Lemma ccmp_eq p q : ccmp p q = Eq <-> p = q.
Proof.
  split; [|intros ->; apply cmp_refl, ccmp_total]. rewrite ccmp_lex. destruct p as [x y z], q as [x' y' z']. unfold lex. cbn [cx cy cz].
  destruct (Z.compare_spec z' z); try discriminate. destruct (Z.compare_spec x x'); try discriminate. destruct (Z.compare_spec y y'); try discriminate. now subst.
Qed.

(* ---- the node list ---- *)
Section Nodes.
Context {V : Type}.
Notation node := (lnode coord V).
Lemma nl_append_grow fuel : forall (a : list node) o c v a' r, lappend ccmp fuel a o c v = Ok (a', r, true) -> nl_append fuel a o c v = Ok (a', r).
Proof.
  induction fuel as [|fuel IH]; intros a o c v a' r E; [discriminate|]. cbn [lappend nl_append] in *. destruct o as [r0|]; [|congruence].
  destruct (split a r0) as [[a1 r1]| |]; cbn [bind] in *; try discriminate. destruct (aget a1 r1) as [n| |]; cbn [bind] in *; try discriminate.
  destruct (ccmp c (lkey n)).
  - destruct (lmodify a1 r1 (lset_kv c v)); cbn [bind] in E; discriminate.
  - destruct (lappend ccmp fuel a1 (lleft n) c v) as [[[a2 l] g]| |] eqn:E2; cbn [bind] in E; try discriminate.
    destruct (lmodify a2 r1 (lset_left (Some l))) as [a3| |] eqn:E3; cbn [bind] in E; try discriminate.
    destruct g.
    + rewrite (IH _ _ _ _ _ _ E2). cbn [bind]. rewrite E3. cbn [bind]. destruct (lmodify a3 r1 (fun n0 => lset_order (lorder n0 + 1) n0)) as [a4| |]; cbn [bind] in *; try discriminate.
      destruct (lean a4 r1) as [[a5 r5]| |]; cbn [bind] in *; try discriminate. congruence.
    + cbn [bind] in E. destruct (lean a3 r1) as [[a5 r5]| |]; cbn [bind] in E; discriminate.
  - destruct (lappend ccmp fuel a1 (lright n) c v) as [[[a2 l] g]| |] eqn:E2; cbn [bind] in E; try discriminate.
    destruct (lmodify a2 r1 (lset_right (Some l))) as [a3| |] eqn:E3; cbn [bind] in E; try discriminate.
    destruct (lean a3 r1) as [[a5 r5]| |] eqn:E5; cbn [bind] in E; try discriminate. injection E as <- <- ->.
    rewrite (IH _ _ _ _ _ _ E2). cbn [bind]. rewrite E3. exact E5.
Qed.
Lemma llook_hit (t : @ct coord V) k : llook ccmp t k = None -> lhit ccmp t k = false.
Proof. induction t as [|c l IHl i k' v' r IHr]; cbn [llook lhit]; auto. destruct (ccmp k k'); auto; discriminate. Qed.
Definition tree_ok (st : llrb_state coord V) : Prop := exists t, linv ccmp st t.
Definition keys (st : llrb_state coord V) : list coord := map lkey (larr st).
Lemma keys_payload (st : llrb_state coord V) : keys st = map fst (map lpayload (larr st)).
Proof. unfold keys. rewrite map_map. apply map_ext. reflexivity. Qed.
Lemma keys_nodup st : tree_ok st -> NoDup (keys st).
Proof.
  intros (t & I). pose proof I as (R & P & S & _). rewrite keys_payload. pose proof (linv_perm_payload ccmp st t I) as PP.
  apply (Permutation_NoDup (l := map fst (map snd (lelems t)))); [apply Permutation_map; auto|].
  clear - S. unfold csorted in S. induction S as [|e l S IH F]; cbn [map]; constructor; auto.
  intros Q. apply in_map_iff in Q as (e1 & Q1 & Q2). apply in_map_iff in Q2 as (e2 & Q3 & Q4). rewrite Forall_forall in F. specialize (F e2 Q4). unfold klt in F.
  subst e1. rewrite Q1 in F. rewrite (cmp_refl _ _ ccmp_total) in F. discriminate.
Qed.
Lemma haskey_ok st c : tree_ok st -> exists k, lhaskey ccmp st c = Ok k /\
  match k with Some k => nth_error (keys st) k = Some c | None => ~ In c (keys st) end.
Proof.
  intros (t & I). exists (llook ccmp t c). split.
  - unfold lhaskey. pose proof (linv_size _ _ _ I) as Sz. pose proof (lht_le_size t). destruct I as (R & _). apply lhaskey_rep; auto. lia.
  - pose proof (llook_abs ccmp ccmp_total st t _ c I eq_refl) as L. destruct (llook ccmp t c) as [k|].
    + destruct L as (kv & _ & N & C). rewrite keys_payload, nth_error_map, N. cbn [option_map]. f_equal. symmetry. now apply ccmp_eq.
    + rewrite keys_payload. intros Q. apply in_map_iff in Q as (e & Q1 & Q2). apply (L e Q2). now apply ccmp_eq.
Qed.
Lemma nl_add_ok st c v : tree_ok st -> ~ In c (keys st) -> exists st', nl_add st c v = Ok st' /\ tree_ok st' /\
  map lpayload (larr st') = map lpayload (larr st) ++ [(c, v)].
Proof.
  intros (t & I) N. destruct (ladd_positions ccmp ccmp_total st t c v I) as (st' & t' & E & I' & M).
  exists st'. split; [|split; [exists t'; exact I'|]].
  - assert (H : lhit ccmp t c = false).
    { apply llook_hit. pose proof (llook_abs ccmp ccmp_total st t _ c I eq_refl) as L. destruct (llook ccmp t c) as [k|]; auto. exfalso.
      destruct L as (kv & _ & Q & C). apply N. rewrite keys_payload. apply ccmp_eq in C. rewrite C. apply in_map. eapply nth_error_In; eauto. }
    pose proof (linv_nodup _ _ _ I) as ND. pose proof (linv_size _ _ _ I) as Sz. pose proof I as (R & P & S & _).
    destruct (lappend_rep ccmp ccmp_total (Datatypes.S (length (larr st))) t (larr st) (lroot st) c v R ND S ltac:(lia)) as (a' & r' & E1 & _). rewrite H in E1. cbn [negb] in E1.
    unfold ladd in E. rewrite E1 in E. cbn [bind] in E. unfold nl_add. rewrite (nl_append_grow _ _ _ _ _ _ _ E1). exact E.
  - rewrite M. unfold m_add. replace (m_has ccmp (map lpayload (larr st)) c) with false; auto. symmetry. apply m_has_false. intros e He C.
    apply N. rewrite keys_payload. apply ccmp_eq in C. rewrite C. now apply in_map.
Qed.
Lemma getorder_ok st i c : tree_ok st -> nth_error (keys st) i = Some c ->
  lgetorder ccmp st i = Ok (Z.of_nat (length (filter (fun d => match ccmp d c with Lt => true | _ => false end) (keys st)))).
Proof.
  intros (t & I) N. pose proof I as (R & P & S & b & B). pose proof (linv_size _ _ _ I) as Sz. pose proof (lht_le_size t) as Hh. pose proof (linv_perm_payload ccmp st t I) as PP.
  unfold keys in N. rewrite nth_error_map in N. destruct (nth_error (larr st) i) as [n|] eqn:Hn; [|discriminate]. cbn [option_map] in N. injection N as N.
  unfold lgetorder. rewrite (aget_some _ _ _ Hn). cbn [bind]. rewrite N. rewrite (lgetorder_rep ccmp ccmp_total t); auto; try lia.
  - f_equal. rewrite Z.add_0_l. f_equal. rewrite (below_rank ccmp (plain t) (map lpayload (larr st))) by (rewrite plain_elems; auto). unfold m_rank, keys, less. clear. induction (larr st) as [|n l IH]; cbn [map filter length]; auto. unfold lpayload at 1. cbn [fst].
    destruct (ccmp (lkey n) c); cbn [length]; auto.
  - pose proof (llook_abs ccmp ccmp_total st t _ c I eq_refl) as L. destruct (llook ccmp t c); [discriminate|]. exfalso.
    apply (L (lpayload n)); [apply in_map; eapply nth_error_In; eauto|]. unfold lpayload. cbn [fst]. rewrite N. apply cmp_refl, ccmp_total.
Qed.

(* other values in the same nodes *)
Fixpoint reval (w : nat -> V) (t : @ct coord V) : ct :=
  match t with LE => LE | LT c l i k v r => LT c (reval w l) i k (w i) (reval w r) end.
Lemma reval_size w t : lsize (reval w t) = lsize t.
Proof. induction t; cbn [reval lsize]; auto. Qed.
Lemma reval_elems w t : lelems (reval w t) = map (fun e => (fst e, (fst (snd e), w (fst e)))) (lelems t).
Proof. induction t as [|c l IHl i k v r IHr]; cbn [reval lelems]; auto. rewrite map_app. cbn [map fst snd]. congruence. Qed.
Lemma reval_shape w : (forall n t, bt n t -> bt n (reval w t)) /\ (forall n t, rt1 n t -> rt1 n (reval w t)) /\ (forall n t, rt2 n t -> rt2 n (reval w t)).
Proof. apply shape_mind; cbn [reval]; intros; econstructor; eauto; fail. Qed.
Definition shape (n n' : node) : Prop := lkey n' = lkey n /\ lorder n' = lorder n /\ lleft n' = lleft n /\ lright n' = lright n /\ lred n' = lred n.
Lemma reval_rep (w : nat -> V) a a' : (forall i n, nth_error a i = Some n -> exists n', nth_error a' i = Some n' /\ shape n n' /\ lval n' = w i) ->
  forall t o, lrep a o t -> lrep a' o (reval w t).
Proof.
  intros H. induction t as [|c l IHl i k v r IHr]; intros o R; cbn [reval lrep] in *; auto.
  destruct R as (-> & n & Hn & Hk & Hv & Hw & Hc & Hl & Hr). split; auto. destruct (H i n Hn) as (n' & Hn' & (S1 & S2 & S3 & S4 & S5) & W).
  exists n'. rewrite S1, S2, S3, S4, S5, reval_size. repeat (split; [solve [auto]|]). auto.
Qed.
Lemma tree_reval st st' : tree_ok st -> lroot st' = lroot st -> length (larr st') = length (larr st) ->
  (forall i n n', nth_error (larr st) i = Some n -> nth_error (larr st') i = Some n' -> shape n n') -> tree_ok st'.
Proof.
  intros (t & R & P & S & b & B) ER EL SH.
  destruct (larr st) as [|n0 a] eqn:EA.
  { exists t. split; [|split; [|split; [auto|eauto]]].
    - rewrite ER. destruct (larr st') as [|]; [|discriminate]. exact R.
    - rewrite EL. exact P. }
  rewrite <- EA in *. clear EA. set (w := fun i => match nth_error (larr st') i with Some n' => lval n' | None => lval n0 end).
  exists (reval w t). split; [|split; [|split]].
  - rewrite ER. apply (reval_rep w (larr st)); auto. intros i n Hn. assert (L : i < length (larr st')) by (rewrite EL; eapply nth_error_lt; eauto).
    destruct (nth_error (larr st') i) as [n'|] eqn:Hn'; [|apply nth_error_None in Hn'; lia]. exists n'. split; auto. split; [eauto|]. unfold w. now rewrite Hn'.
  - unfold lidx. rewrite reval_elems, map_map. cbn [fst]. rewrite EL. exact P.
  - unfold csorted in *. rewrite reval_elems. clear - S. induction S as [|e l S IH F]; cbn [map]; constructor; auto.
    rewrite Forall_forall in *. intros x X. apply in_map_iff in X as (y & <- & Y). specialize (F y Y). exact F.
  - exists b. now apply reval_shape.
Qed.
End Nodes.
