(* C13, C14, C15: indexed, keyed and associative sets of include/set.h. *)
From Coq Require Import List ZArith Lia Bool Arith Permutation.
From Verif Require Import Base MapSpec SortModel SortProofs KeySetModel KeySetProofs.
Import ListNotations.
Local Open Scope nat_scope.

(* ------------------------------------------------------------------ C14 *)
(* What an insertion-ordered map does with each operation: the new contents and the
   exception thrown, if any. *)
Section MapHist.
Context {K V : Type}.
Variable kcmp : K -> K -> comparison.
Definition map_step (m : list (K * V)) (o : kop K V) : list (K * V) * option exn :=
  match o with
  | KAdd [] => (m, Some InvalidArgument)
  | KAdd es => (fold_left (fun m e => m_add kcmp true m (fst e) (snd e)) es m, None)
  | KRemove k => if m_has kcmp m k then (m_remove kcmp m k, None) else (m, Some InvalidArgument)
  | KReplace (k, v) => if m_has kcmp m k then (m_add kcmp true m k v, None) else (m, Some InvalidArgument)
  | KEmpty => ([], None)
  end.
Fixpoint map_run (m : list (K * V)) (ops : list (kop K V)) : list (K * V) * list (option exn) :=
  match ops with
  | [] => (m, [])
  | o :: ops => let '(m1, e) := map_step m o in let '(m2, es) := map_run m1 ops in (m2, e :: es)
  end.
(* No two positions hold equivalent keys. *)
Definition unique_keys (m : list (K * V)) : Prop :=
  forall i j a b, nth_error m i = Some a -> nth_error m j = Some b -> kcmp (fst a) (fst b) = Eq -> i = j.
End MapHist.

Lemma nth_split' {A} (l : list A) i x : nth_error l i = Some x ->
  exists l1 l2, l = l1 ++ x :: l2 /\ length l1 = i.
Proof.
  intros H. destruct (upd_split l i x x H) as (l1 & l2 & E & _ & L). eauto.
Qed.

Lemma distinct_unique {K V} (kcmp : K -> K -> comparison) (m : list (K * V)) :
  distinct kcmp m -> unique_keys kcmp m.
Proof.
  intros D i j a b Ha Hb E. destruct (nth_split' m i a Ha) as (l1 & l2 & -> & L).
  destruct (Nat.eq_dec i j) as [|N]; auto. exfalso.
  assert (In b (l1 ++ l2)) as I.
  { destruct (Nat.lt_ge_cases j (length l1)).
    - rewrite nth_error_app1 in Hb by auto. apply in_app_iff. left. eapply nth_error_In; eauto.
    - rewrite nth_error_app2 in Hb by auto. destruct (j - length l1) as [|q] eqn:Q; [lia|].
      simpl in Hb. apply in_app_iff. right. eapply nth_error_In; eauto. }
  specialize (D l1 a l2 eq_refl b I). unfold same in D. rewrite E in D. discriminate.
Qed.

Lemma kstep_ok {K V} (kcmp : K -> K -> comparison) : total_preorder kcmp ->
  forall (l : list (K * V)) o, distinct kcmp l ->
  distinct kcmp (fst (map_step kcmp l o)) /\
  kstep kcmp l o = match snd (map_step kcmp l o) with
                   | None => Ok (fst (map_step kcmp l o))
                   | Some e => Throw e end /\
  (snd (map_step kcmp l o) <> None -> fst (map_step kcmp l o) = l).
Proof.
  intros TO l o D. destruct o as [es|k|[k v]|]; cbn [kstep map_step].
  - destruct es as [|e es]; cbn [kadd fst snd]; auto.
    destruct (fold_put_ok kcmp TO (e :: es) l D) as [E D']. rewrite E in *. auto.
    split; auto. split; auto. congruence.
  - unfold kremove. pose proof (haskey_distinct kcmp TO l k D) as H.
    destruct (haskey kcmp l k) as [p|].
    + destruct H as (l1 & e & l2 & -> & -> & H1 & H2 & H3). rewrite H3. cbn [fst snd].
      rewrite drop_mid, m_remove_mid by auto. split; [|split; congruence].
      eapply distinct_drop; eauto.
    + destruct H as [_ H]. rewrite H. auto.
  - unfold kreplace. cbn [fst]. pose proof (haskey_distinct kcmp TO l k D) as H.
    destruct (haskey kcmp l k) as [p|].
    + destruct H as (l1 & e & l2 & -> & -> & H1 & H2 & H3). rewrite H3. cbn [fst snd].
      rewrite m_add_mid by auto. unfold aset. rewrite app_length. cbn [length].
      destruct (Nat.ltb_spec (length l1) (length l1 + S (length l2))); [|lia].
      rewrite upd_mid. split; [|split; congruence].
      eapply distinct_mid; eauto. simpl. rewrite same_sym; auto.
    + destruct H as [_ H]. rewrite H. auto.
  - cbn [fst snd]. split; [|split; congruence]. intros l1 e l2 E. destruct l1; discriminate.
Qed.

Lemma krun_ok {K V} (kcmp : K -> K -> comparison) : total_preorder kcmp ->
  forall ops (l : list (K * V)), distinct kcmp l ->
  krun kcmp l ops = Ok (map_run kcmp l ops) /\ distinct kcmp (fst (map_run kcmp l ops)).
Proof.
  intros TO. induction ops as [|o ops IH]; intros l D; cbn [krun map_run]; auto.
  destruct (kstep_ok kcmp TO l o D) as (D1 & E1 & S1). rewrite E1.
  destruct (map_step kcmp l o) as [m1 e]. cbn [fst snd] in *.
  destruct (IH m1 D1) as [E2 D2]. destruct (map_run kcmp m1 ops) as [m2 es] eqn:R.
  cbn [fst] in *. destruct e as [e|].
  - rewrite S1 in E2 by congruence. rewrite E2. cbn [bind]. auto.
  - rewrite E2. cbn [bind]. auto.
Qed.

Theorem C14_keyed_set_is_map : forall (K V : Type) (kcmp : K -> K -> comparison), total_preorder kcmp ->
  forall ops : list (kop K V),
  exists m exns, map_run kcmp [] ops = (m, exns) /\ krun kcmp [] ops = Ok (m, exns) /\
    unique_keys kcmp m /\
    forall k, match m_find kcmp m k with
              | Some v => exists k' p, lookup kcmp m k = Ok (k', v) /\ kcmp k k' = Eq /\
                            haskey kcmp m k = Some p /\ nth_error m p = Some (k', v)
              | None => haskey kcmp m k = None /\ m_has kcmp m k = false
              end.
Proof.
  intros K V kcmp TO ops.
  assert (D0 : distinct kcmp (@nil (K * V))) by (intros l1 e l2 E; destruct l1; discriminate).
  destruct (krun_ok kcmp TO ops [] D0) as [E D].
  destruct (map_run kcmp [] ops) as [m exns]. cbn [fst] in D. exists m, exns.
  split; auto. split; auto. split; [apply distinct_unique; auto|]. intros k.
  pose proof (lookup_ok kcmp TO m k D) as L. destruct (m_find kcmp m k); auto.
  destruct L as (k' & p & L1 & L2 & L3 & L4). exists k', p. repeat split; auto.
  apply same_spec; auto.
Qed.
Example C14_demo :
  krun Z.compare [] [KAdd [(1,10);(2,20);(3,30)]; KAdd [(2,21)]; KReplace (9,0); KRemove 1; KRemove 1;
                     KReplace (3,31); KAdd []; KAdd [(1,11)]]%Z
  = Ok ([(2,21);(3,31);(1,11)]%Z,
        [None;None;Some InvalidArgument;None;Some InvalidArgument;None;Some InvalidArgument;None]) /\
  lookup Z.compare [(2,21);(3,31);(1,11)]%Z 3%Z = Ok (3,31)%Z.
Proof. split; vm_compute; reflexivity. Qed.

(* ------------------------------------------------------------------ C15 *)
(* The claim: removing a present key gives the map without it. *)
Theorem C15_remove_refuted :
  exists (l : list (Z * Z)) (k : Z) (l' : list (Z * Z)),
    unique_keys Z.compare l /\ m_has Z.compare l k = true /\
    asremove Z.compare l k = Ok l' /\ l' <> m_remove Z.compare l k /\
    m_find Z.compare l' k = m_find Z.compare l k.
Proof.
  exists [(1,10);(2,20);(3,30)]%Z, 1%Z, [(1,10);(3,30)]%Z.
  split.
  { intros [|[|[|i]]] [|[|[|j]]] a b Ha Hb E; simpl in *; auto;
      try (destruct i; discriminate); try (destruct j; discriminate);
      injection Ha as <-; injection Hb as <-; discriminate. }
  split; [reflexivity|]. split; [reflexivity|]. split; [discriminate|reflexivity].
Qed.

(* What remove does for every set and key: it keeps the requested element and removes
   the one stored after it, or destroys an object that does not exist when there is none. *)
Theorem C15_remove_always_wrong : forall (K V : Type) (kcmp : K -> K -> comparison), total_preorder kcmp ->
  forall (l : list (K * V)) k,
  (m_has kcmp l k = false /\ asremove kcmp l k = Throw InvalidArgument) \/
  (exists l1 e l2, l = l1 ++ e :: l2 /\ kcmp k (fst e) = Eq /\
    asremove kcmp l k = match l2 with [] => UB Uninit | _ :: l3 => Ok (l1 ++ e :: l3) end).
Proof.
  intros K V kcmp TO l k. unfold asremove, haskey. pose proof (haskey_split kcmp TO l k 0) as H.
  destruct (haskey_from kcmp l 0 k) as [p|].
  - right. destruct H as (l1 & e & l2 & -> & -> & H1 & H2). exists l1, e, l2. split; auto.
    split; [apply same_spec; auto|]. cbn [Nat.add].
    rewrite nth_error_app2 by lia. replace (S (length l1) - length l1) with 1 by lia. cbn [nth_error].
    rewrite app_length. cbn [length].
    destruct l2 as [|e2 l3]; [reflexivity|]. cbn [nth_error bind length]. f_equal.
    replace (l1 ++ e :: e2 :: l3) with ((l1 ++ [e]) ++ e2 :: l3) by (rewrite <- app_assoc; auto).
    replace (l1 ++ e :: l3) with ((l1 ++ [e]) ++ l3) by (rewrite <- app_assoc; auto).
    replace (S (length l1)) with (length (l1 ++ [e])) by (rewrite app_length; simpl; lia).
    destruct (Nat.ltb_spec (length (l1 ++ [e])) (length l1 + S (S (length l3)) - 1)) as [|Hge].
    + apply drop_mid.
    + rewrite app_length in Hge. simpl in Hge. destruct l3 as [|]; [|simpl in Hge; lia].
      replace (length l1 + S (S (length (@nil (K*V)))) - 1) with (length (l1 ++ [e]))
        by (rewrite app_length; simpl; lia).
      rewrite firstn_app, firstn_all, Nat.sub_diag. reflexivity.
  - left. split; auto. unfold m_has. destruct (existsb _ l) eqn:E; auto.
    apply existsb_exists in E. destruct E as (e & He & E). rewrite (H e He) in E. discriminate.
Qed.
Example C15_demo :
  asremove Z.compare [(1,10);(2,20)]%Z 1%Z = Ok [(1,10)]%Z /\
  asremove Z.compare [(1,10);(2,20)]%Z 2%Z = UB Uninit /\
  asremove Z.compare [(1,10);(2,20)]%Z 7%Z = Throw InvalidArgument.
Proof. repeat split. Qed.

(* Without removal an associative set is an insertion-ordered map. *)
Theorem C15_add_replace_partial : forall (K V : Type) (kcmp : K -> K -> comparison), total_preorder kcmp ->
  forall (adds : list (list (K * V))) k v,
  let m := fold_left (fun m e => m_add kcmp false m (fst e) (snd e)) (concat adds) [] in
  fold_left (fun r es => let* l := r in match asadd kcmp l es with Throw _ => Ok l | r => r end) adds (Ok [])
    = Ok m /\ unique_keys kcmp m /\
  (forall k, (exists p, haskey kcmp m k = Some p) <-> m_has kcmp m k = true) /\
  asreplace kcmp m k v =
    (if m_has kcmp m k then Ok (m_add kcmp false m k v) else Throw InvalidArgument).
Proof.
  intros K V kcmp TO adds k v m.
  assert (D0 : distinct kcmp (@nil (K * V))) by (intros l1 e l2 E; destruct l1; discriminate).
  assert (G : forall adds (l : list (K * V)), distinct kcmp l ->
    fold_left (fun r es => let* l := r in match asadd kcmp l es with Throw _ => Ok l | r => r end) adds (Ok l)
      = Ok (fold_left (fun m e => m_add kcmp false m (fst e) (snd e)) (concat adds) l) /\
    distinct kcmp (fold_left (fun m e => m_add kcmp false m (fst e) (snd e)) (concat adds) l)).
  { clear adds m. intros adds. induction adds as [|es adds IH]; intros l D; cbn [fold_left concat]; auto.
    rewrite fold_left_app. cbn [bind].
    destruct (fold_aput_ok kcmp TO es l D) as [E D']. rewrite E in D'.
    destruct es as [|e es]; [apply IH; auto|].
    unfold asadd. rewrite E. apply IH; auto. }
  destruct (G adds [] D0) as [E D]. fold m in E, D. split; auto.
  split; [apply distinct_unique; auto|]. split.
  - intros k'. pose proof (haskey_distinct kcmp TO m k' D) as H.
    destruct (haskey kcmp m k') as [p|].
    + destruct H as (l1 & e & l2 & _ & _ & _ & _ & H). split; eauto.
    + destruct H as [_ H]. rewrite H. split; [intros (p & C)|]; discriminate.
  - unfold asreplace. pose proof (haskey_distinct kcmp TO m k D) as H.
    destruct (haskey kcmp m k) as [p|].
    + destruct H as (l1 & e & l2 & -> & -> & H1 & H2 & H3). rewrite H3.
      rewrite m_add_mid by auto. unfold aget.
      rewrite nth_error_app2, Nat.sub_diag by lia. cbn [nth_error bind].
      unfold aset. rewrite app_length. cbn [length].
      destruct (Nat.ltb_spec (length l1) (length l1 + S (length l2))); [|lia].
      rewrite upd_mid. auto.
    + destruct H as [_ H]. rewrite H. auto.
Qed.

(* ------------------------------------------------------------------ C13 *)
Section ListHist.
Context {V : Type}.
Variable cmp : V -> V -> comparison.
Definition eqb_v (x y : V) : bool := match cmp x y with Eq => true | _ => false end.
(* A duplicate-free list in order of first insertion. *)
Definition l_add (l : list V) (v : V) : list V :=
  if existsb (eqb_v v) l then map (fun y => if eqb_v v y then v else y) l else l ++ [v].
Definition l_step (l : list V) (o : iop V) : list V * option exn :=
  match o with
  | IAdd [] => (l, Some InvalidArgument)
  | IAdd vs => (fold_left l_add vs l, None)
  | IRemove v => if existsb (eqb_v v) l then (filter (fun y => negb (eqb_v v y)) l, None)
                 else (l, Some InvalidArgument)
  | IEmpty => ([], None)
  end.
Fixpoint l_run (l : list V) (ops : list (iop V)) : list V * list (option exn) :=
  match ops with
  | [] => (l, [])
  | o :: ops => let '(l1, e) := l_step l o in let '(l2, es) := l_run l1 ops in (l2, e :: es)
  end.
(* Number of elements strictly below x. *)
Definition rank_v (l : list V) (x : V) : nat :=
  length (filter (fun y => match cmp y x with Lt => true | _ => false end) l).

Definition unique_v (l : list V) : Prop :=
  forall i j x y, nth_error l i = Some x -> nth_error l j = Some y -> cmp x y = Eq -> i = j.

Hypothesis TO : total_preorder cmp.

Lemma irep_unique st sv : irep cmp st sv -> unique_v (vals st).
Proof.
  intros R i j x y Hx Hy E. pose proof R as (W & N & I & S).
  destruct (vals_in_view cmp st sv i x R Hx) as (a & A1 & A2).
  destruct (vals_in_view cmp st sv j y R Hy) as (b & B1 & B2).
  destruct (Nat.lt_trichotomy a b) as [H|[->|H]]; [|congruence|].
  - rewrite (incr_lt cmp sv S a b x y H A2 B2) in E. discriminate.
  - pose proof (incr_lt cmp sv S b a y x H B2 A2) as L.
    rewrite (cmp_cong_r cmp x y y TO E), (cmp_refl _ _ TO) in L. discriminate.
Qed.

Lemma eqb_v_spec x y : eqb_v x y = true <-> cmp x y = Eq.
Proof. unfold eqb_v. destruct (cmp x y); split; congruence. Qed.
Lemma eqb_v_sym x y : eqb_v x y = true <-> cmp y x = Eq.
Proof. rewrite eqb_v_spec. split; apply (cmp_eq_sym cmp _ _ TO). Qed.

Lemma existsb_nth l v : existsb (eqb_v v) l = true <-> exists k y, nth_error l k = Some y /\ cmp y v = Eq.
Proof.
  rewrite existsb_exists. split.
  - intros (y & Hy & E). apply In_nth_error in Hy. destruct Hy as (k & Hk). exists k, y.
    split; auto. apply eqb_v_sym; auto.
  - intros (k & y & Hk & E). exists y. split; [eapply nth_error_In; eauto|]. apply eqb_v_sym; auto.
Qed.

Lemma upd_is_map l k y v : unique_v l -> nth_error l k = Some y -> cmp y v = Eq ->
  upd l k v = map (fun y => if eqb_v v y then v else y) l.
Proof.
  intros U Hk E. apply nth_error_ext'. intros i. rewrite nth_error_map.
  destruct (Nat.eq_dec i k) as [->|N].
  - rewrite nth_error_upd_eq by (eapply nth_error_lt; eauto). rewrite Hk. simpl.
    rewrite (proj2 (eqb_v_sym v y) E). auto.
  - rewrite nth_error_upd_ne by auto. destruct (nth_error l i) as [z|] eqn:Hz; auto. simpl.
    destruct (eqb_v v z) eqn:B; auto. exfalso. apply N. apply (U i k z y Hz Hk).
    apply eqb_v_sym in B. rewrite (cmp_cong_r cmp y v z TO E). auto.
Qed.
Lemma drop_is_filter l k y v : unique_v l -> nth_error l k = Some y -> cmp y v = Eq ->
  drop_at l k = filter (fun y => negb (eqb_v v y)) l.
Proof.
  intros U Hk E. destruct (nth_split' l k y Hk) as (l1 & l2 & -> & <-). rewrite drop_mid, filter_app.
  cbn [filter]. rewrite (proj2 (eqb_v_sym v y) E). cbn [negb].
  assert (F : forall i z, nth_error (l1 ++ y :: l2) i = Some z -> i <> length l1 -> negb (eqb_v v z) = true).
  { intros i z Hz N. destruct (eqb_v v z) eqn:B; auto. exfalso. apply N.
    apply (U i (length l1) z y Hz Hk). apply eqb_v_sym in B. rewrite (cmp_cong_r cmp y v z TO E). auto. }
  rewrite !filter_id_on; auto.
  - intros z Hz. apply In_nth_error in Hz. destruct Hz as (i & Hz).
    apply (F (S (length l1) + i)); [|lia]. rewrite nth_error_app2 by lia.
    replace (S (length l1) + i - length l1) with (S i) by lia. auto.
  - intros z Hz. apply In_nth_error in Hz. destruct Hz as (i & Hz). pose proof (nth_error_lt _ _ _ Hz).
    apply (F i); [|lia]. rewrite nth_error_app1; auto.
Qed.

Lemma icopy_ok vs : forall st sv, irep cmp st sv ->
  exists st' sv', icopy cmp st vs = Ok st' /\ irep cmp st' sv' /\ vals st' = fold_left l_add vs (vals st).
Proof.
  induction vs as [|v vs IH]; intros st sv R; cbn [icopy fold_left].
  - exists st, sv. auto.
  - destruct (hasvalue_ok cmp TO st sv v R) as [(k & y & E & Hk & C)|(E & Hn)]; rewrite E; cbn [bind].
    + unfold aset. pose proof (nth_error_lt _ _ _ Hk) as L. destruct (Nat.ltb_spec k (length (vals st))); [|lia].
      cbn [bind]. destruct (replace_ok cmp TO st sv k y v R Hk C) as (sv1 & R1).
      destruct (IH _ _ R1) as (st' & sv' & E' & R' & V'). exists st', sv'. split; auto. split; auto.
      rewrite V'. cbn [vals]. f_equal. unfold l_add.
      rewrite (proj2 (existsb_nth (vals st) v)) by eauto.
      eapply upd_is_map; eauto. eapply irep_unique; eauto.
    + destruct (iinit_ok cmp TO st sv v R Hn) as (st1 & sv1 & E1 & R1 & V1). rewrite E1. cbn [bind].
      destruct (IH _ _ R1) as (st' & sv' & E' & R' & V'). exists st', sv'. split; auto. split; auto.
      rewrite V', V1. f_equal. unfold l_add. destruct (existsb (eqb_v v) (vals st)) eqn:B; auto.
      apply existsb_nth in B. destruct B as (k & y & Hk & C). exfalso. apply (Hn y); auto.
      eapply nth_error_In; eauto.
Qed.

Lemma istep_ok st sv o : irep cmp st sv ->
  match snd (l_step (vals st) o) with
  | None => exists st' sv', istep cmp st o = Ok st' /\ irep cmp st' sv' /\ vals st' = fst (l_step (vals st) o)
  | Some e => istep cmp st o = Throw e /\ fst (l_step (vals st) o) = vals st
  end.
Proof.
  intros R. destruct o as [vs|v|]; cbn [istep l_step].
  - destruct vs as [|v vs]; cbn [snd fst iadd]; auto. apply (icopy_ok (v :: vs) st sv R).
  - destruct (hasvalue_ok cmp TO st sv v R) as [(k & y & E & Hk & C)|(E & Hn)].
    + rewrite (proj2 (existsb_nth (vals st) v)) by eauto. cbn [fst snd].
      destruct (iremove_ok cmp st sv v k y R E Hk) as (st' & sv' & E' & R' & V').
      exists st', sv'. split; auto. split; auto. rewrite V'. eapply drop_is_filter; eauto.
      eapply irep_unique; eauto.
    + destruct (existsb (eqb_v v) (vals st)) eqn:B.
      * apply existsb_nth in B. destruct B as (k & y & Hk & C). exfalso. apply (Hn y); auto.
        eapply nth_error_In; eauto.
      * cbn [fst snd]. unfold iremove. rewrite E. auto.
  - cbn [fst snd]. exists inew, []. split; auto. split; auto.
    split; [constructor|]. split; [constructor|]. split; [|constructor]. simpl. intros i. split; [tauto|lia].
Qed.

Lemma irun_ok ops : forall st sv, irep cmp st sv ->
  exists st' sv', irun cmp st ops = Ok (st', snd (l_run (vals st) ops)) /\ irep cmp st' sv' /\
    vals st' = fst (l_run (vals st) ops).
Proof.
  induction ops as [|o ops IH]; intros st sv R; cbn [irun l_run].
  - exists st, sv. auto.
  - pose proof (istep_ok st sv o R) as H. destruct (l_step (vals st) o) as [l1 e]. cbn [fst snd] in H.
    destruct e as [e|].
    + destruct H as [-> ->]. destruct (IH st sv R) as (st' & sv' & E & R' & V').
      rewrite E. cbn [bind]. exists st', sv'. destruct (l_run (vals st) ops). auto.
    + destruct H as (st1 & sv1 & -> & R1 & V1). destruct (IH st1 sv1 R1) as (st' & sv' & E & R' & V').
      rewrite E. cbn [bind]. exists st', sv'. rewrite V1 in *. destruct (l_run l1 ops). auto.
Qed.

Lemma rank_perm l l' x : Permutation l l' -> rank_v l x = rank_v l' x.
Proof.
  intros P. unfold rank_v. induction P; simpl; auto.
  - destruct (cmp x0 x); simpl; auto.
  - destruct (cmp y x), (cmp x0 x); auto.
  - congruence.
Qed.
Lemma rank_incr sv i y : incr cmp sv -> nth_error sv i = Some y -> rank_v sv y = i.
Proof.
  intros S. revert i. induction S as [|x l Hx S IH]; intros i H; [destruct i; discriminate|].
  unfold rank_v in *. cbn [filter]. destruct i as [|i]; simpl in H.
  - injection H as <-. rewrite (cmp_refl _ _ TO).
    replace (filter (fun z => match cmp z x with Lt => true | _ => false end) l) with (@nil V); auto.
    clear - Hx TO. induction l as [|z l IH]; simpl; auto. rewrite <- IH by (intros; apply Hx; right; auto).
    rewrite (cmp_lt_gt cmp x z TO); auto. apply Hx; left; auto.
  - rewrite (Hx y) by (eapply nth_error_In; eauto). simpl. rewrite (IH i H). auto.
Qed.

Lemma view_perm st sv : irep cmp st sv -> Permutation sv (vals st).
Proof.
  intros R. pose proof R as (W & N & I & S).
  assert (P : Permutation (idx st) (seq 0 (length (vals st)))).
  { apply NoDup_Permutation; auto; [apply seq_NoDup|]. intros i. rewrite I, in_seq. lia. }
  assert (E1 : map Some sv = map (nth_error (vals st)) (idx st)).
  { unfold view in W. clear - W. induction W; simpl; auto. rewrite H, IHW. auto. }
  assert (E2 : map (nth_error (vals st)) (seq 0 (length (vals st))) = map Some (vals st)).
  { clear. induction (vals st) as [|x l IH] using rev_ind; auto.
    rewrite app_length. simpl. rewrite Nat.add_1_r, seq_S, !map_app. simpl.
    rewrite nth_error_app2, Nat.sub_diag by lia. simpl. f_equal. rewrite <- IH.
    apply map_ext_in. intros i Hi. apply in_seq in Hi. apply nth_error_app1. lia. }
  apply (Permutation_map (nth_error (vals st))) in P. rewrite <- E1, E2 in P.
  apply Permutation_map_inv in P. destruct P as (l & E & P).
  assert (l = sv). { clear - E. revert l E. induction sv; intros [|] E; simpl in E; try discriminate; auto.
    injection E as -> E. f_equal; auto. }
  subst l. apply Permutation_sym; auto.
Qed.
End ListHist.

Theorem C13_indexed_set : forall (V : Type) (cmp : V -> V -> comparison), total_preorder cmp ->
  forall ops : list (iop V),
  exists l exns st, l_run cmp [] ops = (l, exns) /\ irun cmp inew ops = Ok (st, exns) /\
    unique_v cmp l /\
    (* by position: insertion order *)
    (forall p, iget st p = match nth_error l p with Some x => Ok x | None => UB OutOfBounds end) /\
    (* by sorted index: the element of that rank *)
    (forall i, i < length l -> exists x, igetindex st i = Ok x /\ In x l /\ rank_v cmp l x = i) /\
    (* search *)
    (forall x p, hasvalue cmp st x = Ok (Some p) <-> exists y, nth_error l p = Some y /\ cmp y x = Eq) /\
    (forall x, hasvalue cmp st x = Ok None <-> forall y, In y l -> cmp y x <> Eq) /\
    (* position to rank, kiset only *)
    (forall p x, nth_error l p = Some x -> kiset_getorder cmp st p = Ok (rank_v cmp l x)).
Proof.
  intros V cmp TO ops.
  assert (R0 : irep cmp (@inew V) []).
  { split; [constructor|]. split; [constructor|]. split; [|constructor]. simpl. intros i. split; [tauto|lia]. }
  destruct (irun_ok cmp TO ops inew [] R0) as (st & sv & E & R & VE). cbn [vals inew] in *.
  destruct (l_run cmp [] ops) as [l exns]. cbn [fst snd] in *. subst l.
  exists (vals st), exns, st. split; auto. split; auto.
  pose proof (irep_unique cmp TO st sv R) as U. split; auto.
  pose proof R as (W & N & I & S). pose proof (idx_length cmp st sv R) as L1.
  pose proof (view_length st sv W) as L2. pose proof (view_perm cmp st sv R) as P.
  split; [intros p; unfold iget, aget; auto|]. split; [|split; [|split]].
  - intros i Hi. destruct (nth_some sv i) as (x & Hx); [lia|]. exists x.
    pose proof (view_nth st sv i W) as H. rewrite Hx in H. destruct H as (k & Hk & Hv).
    unfold igetindex, aget. rewrite Hk. cbn [bind]. rewrite Hv. split; auto. split; [eapply nth_error_In; eauto|].
    rewrite <- (rank_perm cmp sv (vals st) x P). apply (rank_incr cmp TO sv i x S Hx).
  - intros x p. destruct (hasvalue_ok cmp TO st sv x R) as [(k & y & Eh & Hk & C)|(Eh & Hn)]; rewrite Eh.
    + split.
      * intros H. injection H as <-. eauto.
      * intros (y' & Hy' & C'). do 2 f_equal. apply (U k p y y' Hk Hy').
        apply (cmp_eq_sym cmp _ _ TO) in C'. rewrite (cmp_cong cmp TO y x y' C). auto.
    + split; [discriminate|]. intros (y & Hy & C). exfalso. apply (Hn y); auto. eapply nth_error_In; eauto.
  - intros x. destruct (hasvalue_ok cmp TO st sv x R) as [(k & y & Eh & Hk & C)|(Eh & Hn)]; rewrite Eh.
    + split; [discriminate|]. intros H. exfalso. apply (H y); auto. eapply nth_error_In; eauto.
    + split; auto.
  - intros p x Hp. unfold kiset_getorder, aget. rewrite Hp. cbn [bind].
    destruct (ifindvalue_ok cmp TO st sv x R) as (q & Eq & Hq & Lo & Hi). rewrite Eq. f_equal.
    destruct (vals_in_view cmp st sv p x R Hp) as (a & A1 & A2).
    rewrite <- (rank_perm cmp sv (vals st) x P), (rank_incr cmp TO sv a x S A2).
    destruct (Nat.lt_trichotomy q a) as [H|[->|H]]; auto; exfalso.
    + pose proof (nth_error_lt _ _ _ A2). destruct (nth_some sv q) as (z & Hz); [lia|].
      apply (Hi q z (Nat.le_refl _) Hz). apply (incr_lt cmp sv S q a z x H Hz A2).
    + pose proof (Lo a x H A2) as C. rewrite (cmp_refl _ _ TO) in C. discriminate.
Qed.
Example C13_demo :
  irun Z.compare inew [IAdd [5;3;9;1]; IAdd [3]; IRemove 5; IRemove 5; IAdd [4;0]]%Z
    = Ok (ISet [4;2;0;3;1] [3;9;1;4;0]%Z, [None;None;None;Some InvalidArgument;None]) /\
  kiset_getorder Z.compare (ISet [4;2;0;3;1] [3;9;1;4;0]%Z) 1 = Ok 4 /\
  igetindex (ISet [4;2;0;3;1] [3;9;1;4;0]%Z) 1 = Ok 1%Z.
Proof. repeat split; vm_compute; reflexivity. Qed.

(* iset::getorder (lines 641-647) is not kiset's: it returns the position of the element
   of rank i, not the rank of the element at position i. *)
Theorem C13_iset_getorder_refuted :
  exists (ops : list (iop Z)) st es p x,
    irun Z.compare inew ops = Ok (st, es) /\ iget st p = Ok x /\
    exists r, iset_getorder st p = Ok r /\ r <> rank_v Z.compare (vals st) x.
Proof.
  exists [IAdd [20;30;10]]%Z, (ISet [2;0;1] [20;30;10]%Z), [None], 0, 20%Z.
  split; [vm_compute; reflexivity|]. split; [reflexivity|]. exists 2. split; [reflexivity|]. vm_compute. lia.
Qed.

Print Assumptions C13_indexed_set.
Print Assumptions C13_iset_getorder_refuted.
Print Assumptions C14_keyed_set_is_map.
Print Assumptions C15_remove_refuted.
Print Assumptions C15_remove_always_wrong.
Print Assumptions C15_add_replace_partial.
