(* C01-C05: the AVL tree of include/tree.h. *)
From Coq Require Import List ZArith Lia Bool Arith.
From Verif Require Import Base MapSpec AvlModel AvlProofs AvlRemove AvlQueries.
Import ListNotations.
Open Scope Z_scope.

(* The map a history of calls is supposed to produce (MapSpec only). *)
Definition spec_step {K V} (kcmp : K -> K -> comparison) (rekey : bool)
    (m : list (K * V)) (o : op K V) : list (K * V) :=
  match o with
  | Add k v => m_add kcmp rekey m k v
  | Remove k => m_remove kcmp m k
  end.
Definition spec_run {K V} (kcmp : K -> K -> comparison) (rekey : bool)
    (ops : list (op K V)) : list (K * V) :=
  fold_left (spec_step kcmp rekey) ops [].

(* ---- C01: the tree is a finite map, for every history ---- *)
Theorem C01_tree_is_map :
  forall (K V : Type) (kcmp : K -> K -> comparison), total_preorder kcmp ->
  forall ops : list (op K V),
  exists st, run kcmp true tree_new ops = Ok st /\
    let m := spec_run kcmp true ops in
    tree_length st = length m /\
    (forall k, haskey kcmp st k = Ok (m_has kcmp m k)) /\
    (forall k, get kcmp st k =
       match m_find kcmp m k with Some v => Ok v | None => Throw OutOfRange end).
Proof.
  intros K V kcmp TO ops.
  destruct (run_abs kcmp TO true ops (or_introl eq_refl) tree_new [] (abs_new kcmp))
    as (st & E & A).
  exists st. split; [exact E|]. cbn zeta.
  change (spec_run kcmp true ops) with (fold_left (m_step kcmp true) ops []).
  split; [apply (length_abs kcmp); auto|]. split; intros k.
  - apply haskey_abs; auto.
  - apply get_abs; auto.
Qed.

(* The same for trees with separately stored keys, as long as nothing is removed. *)
Theorem C01_tree_is_map_separate_keys :
  forall (K V : Type) (kcmp : K -> K -> comparison), total_preorder kcmp ->
  forall ops : list (op K V), adds_only ops ->
  exists st, run kcmp false tree_new ops = Ok st /\
    let m := spec_run kcmp false ops in
    tree_length st = length m /\
    (forall k, haskey kcmp st k = Ok (m_has kcmp m k)) /\
    (forall k, get kcmp st k =
       match m_find kcmp m k with Some v => Ok v | None => Throw OutOfRange end).
Proof.
  intros K V kcmp TO ops Ha.
  destruct (run_abs kcmp TO false ops (or_intror Ha) tree_new [] (abs_new kcmp))
    as (st & E & A).
  exists st. split; [exact E|]. cbn zeta.
  change (spec_run kcmp false ops) with (fold_left (m_step kcmp false) ops []).
  split; [apply (length_abs kcmp); auto|]. split; intros k.
  - apply haskey_abs; auto.
  - apply get_abs; auto.
Qed.

(* A history with rotations, overwriting and a two-child removal. *)
Definition demo_ops : list (op Z Z) :=
  [Add 5 50; Add 3 30; Add 8 80; Add 1 10; Add 4 40; Add 7 70; Add 9 90; Add 2 20;
   Add 4 41; Remove 5; Remove 6; Add 6 60; Remove 3].
Example C01_demo :
  total_preorder Z.compare /\
  spec_run Z.compare true demo_ops =
    [(8, 80); (1, 10); (4, 41); (7, 70); (9, 90); (2, 20); (6, 60)] /\
  exists st, run Z.compare true tree_new demo_ops = Ok st /\
    get Z.compare st 4 = Ok 41 /\ get Z.compare st 5 = Throw OutOfRange /\
    tree_length st = 7%nat.
Proof.
  split; [exact Zcompare_total|]. split; [vm_compute; reflexivity|].
  eexists. split; [vm_compute; reflexivity|]. vm_compute. auto.
Qed.

(* ---- C02: order statistics ---- *)
Lemma filter_length_le' {A} (f : A -> bool) l : (length (filter f l) <= length l)%nat.
Proof. induction l as [|x l IH]; simpl; [lia|]. destruct (f x); simpl; lia. Qed.

Theorem C02_order_statistics :
  forall (K V : Type) (kcmp : K -> K -> comparison), total_preorder kcmp ->
  forall ops : list (op K V),
  exists st, run kcmp true tree_new ops = Ok st /\
    let m := spec_run kcmp true ops in
    let n := Z.of_nat (length m) in
    (* the order of a key is the number of smaller keys; a missing key has none *)
    (forall k, getorderof kcmp st k =
       Ok (if m_has kcmp m k then Some (Z.of_nat (m_rank kcmp m k)) else None)) /\
    (* the element at order i is the one with exactly i smaller keys *)
    (forall i, 0 <= i < n -> exists k v,
       In (k, v) m /\ Z.of_nat (m_rank kcmp m k) = i /\ getatorder st i = Ok v) /\
    (* every element is found at its order *)
    (forall k v, In (k, v) m ->
       0 <= Z.of_nat (m_rank kcmp m k) < n /\ getatorder st (Z.of_nat (m_rank kcmp m k)) = Ok v) /\
    (* orders out of range are rejected *)
    (forall i, i < 0 \/ n <= i -> getatorder st i = Throw OutOfRange).
Proof.
  intros K V kcmp TO ops.
  destruct (run_abs kcmp TO true ops (or_introl eq_refl) tree_new [] (abs_new kcmp))
    as (st & E & A).
  exists st. split; [exact E|]. cbn zeta.
  change (spec_run kcmp true ops) with (fold_left (m_step kcmp true) ops []).
  set (m := fold_left (m_step kcmp true) ops []) in *.
  split; [intros k; apply getorderof_abs; auto|].
  split; [intros i Hi; apply (getatorder_abs kcmp TO st m i A); auto|].
  split; [|intros i Hi; apply (getatorder_abs kcmp TO st m i A); auto].
  intros k v Hin.
  assert (Hb : 0 <= Z.of_nat (m_rank kcmp m k) < Z.of_nat (length m)).
  { split; [lia|]. apply inj_lt. unfold m_rank.
    apply in_split in Hin. destruct Hin as (xs & ys & ->).
    rewrite filter_app. simpl. unfold less at 2. rewrite (cmp_refl _ _ TO).
    rewrite !app_length. simpl.
    pose proof (filter_length_le' (fun e : K * V => less kcmp (fst e) k) xs).
    pose proof (filter_length_le' (fun e : K * V => less kcmp (fst e) k) ys). lia. }
  split; auto.
  destruct (proj1 (getatorder_abs kcmp TO st m _ A) Hb) as (k' & v' & H1 & H2 & H3).
  rewrite H3. f_equal.
  destruct (abs_distinct kcmp TO st m A) as [D _].
  (* equal ranks mean equal keys *)
  assert (C : kcmp k k' = Eq).
  { apply Nat2Z.inj in H2. unfold m_rank in H2.
    assert (Mono : forall a va b vb, In (a, va) m -> In (b, vb) m -> kcmp a b = Lt ->
      (length (filter (fun e : K * V => less kcmp (fst e) a) m) <
       length (filter (fun e : K * V => less kcmp (fst e) b) m))%nat).
    { intros a va b vb Ha Hb' C. clear - TO Ha C. unfold less.
      induction m as [|e m' IH]; [destruct Ha|].
      simpl. destruct Ha as [->|Ha].
      - simpl. rewrite (cmp_refl _ _ TO), C. simpl.
        clear - TO C. induction m' as [|e m' IH]; simpl; [lia|].
        destruct (kcmp (fst e) a) eqn:Ca.
        + destruct (kcmp (fst e) b); simpl; lia.
        + rewrite (cmp_trans _ TO _ _ _ Ca C). simpl. lia.
        + destruct (kcmp (fst e) b); simpl; lia.
      - specialize (IH Ha). destruct (kcmp (fst e) a) eqn:Ca.
        + destruct (kcmp (fst e) b); simpl; lia.
        + rewrite (cmp_trans _ TO _ _ _ Ca C). simpl. lia.
        + destruct (kcmp (fst e) b); simpl; lia. }
    destruct (kcmp k k') eqn:C; auto; exfalso.
    - pose proof (Mono _ _ _ _ Hin H1 C). lia.
    - pose proof (Mono _ _ _ _ H1 Hin (cmp_gt_lt _ _ _ TO C)). lia. }
  pose proof (D _ _ Hin H1 C) as Q. congruence.
Qed.

Example C02_demo :
  exists st, run Z.compare true tree_new demo_ops = Ok st /\
    map (fun i => getatorder st i) [-1; 0; 1; 2; 3; 4; 5; 6; 7] =
      [Throw OutOfRange; Ok 10; Ok 20; Ok 41; Ok 60; Ok 70; Ok 80; Ok 90; Throw OutOfRange] /\
    getorderof Z.compare st 7 = Ok (Some 4) /\ getorderof Z.compare st 3 = Ok None.
Proof. eexists. split; [vm_compute; reflexivity|]. vm_compute. auto. Qed.

(* ---- C03: logarithmic depth ---- *)
(* A lookup in a tree of n elements needs at most h+1 rounds of its loop, where the
   Fibonacci number F(h+2) is at most n+1, and hence 2^h <= (n+1)^2. *)
Theorem C03_lookup_depth :
  forall (K V : Type) (kcmp : K -> K -> comparison), total_preorder kcmp ->
  forall ops : list (op K V),
  exists st h, run kcmp true tree_new ops = Ok st /\
    let n := Z.of_nat (tree_length st) in
    fib (h + 2) <= n + 1 /\
    2 ^ Z.of_nat h <= (n + 1) * (n + 1) /\
    forall k, exists p, getposition_loop kcmp (S h) (arr st) (root st) k = Ok p.
Proof.
  intros K V kcmp TO ops.
  destruct (run_abs kcmp TO true ops (or_introl eq_refl) tree_new [] (abs_new kcmp))
    as (st & E & (t & I & _)).
  destruct (depth_bound kcmp st t I) as (h & H1 & H2).
  exists st, h. split; [exact E|]. cbn zeta. unfold tree_length. split; [exact H1|].
  split; [|exact H2].
  pose proof (fib_pow h). pose proof (fib_nonneg (h + 2)). nia.
Qed.

Definition seq_ops (n : nat) : list (op Z Z) :=
  map (fun i => Add (Z.of_nat i) (Z.of_nat i)) (seq 0 n).
Example C03_demo :
  exists st, run Z.compare true tree_new (seq_ops 100) = Ok st /\
    tree_length st = 100%nat /\ fib (7 + 2) <= 101 /\
    getposition_loop Z.compare 7 (arr st) (root st) 99 = Ok (Some 99%nat).
Proof. eexists. split; [vm_compute; reflexivity|]. vm_compute. repeat split; congruence. Qed.

(* ---- C04: storage positions ---- *)
(* What an API user sees at the storage positions: position p holds (key, value) or
   the access is rejected. *)
Definition shows {K V} (st : tree_state K V) (l : list (K * V)) : Prop :=
  tree_length st = length l /\
  forall p, match nth_error l p with
            | Some (k, v) => getkey st p = Ok k /\ getatposition st p = Ok v
            | None => getkey st p = Throw OutOfRange /\ getatposition st p = Throw OutOfRange
            end.

Lemma shows_payload {K V} (st : tree_state K V) : shows st (map payload (arr st)).
Proof.
  split; [unfold tree_length; rewrite map_length; auto|].
  intros p. rewrite nth_error_map. unfold getkey, getatposition.
  destruct (nth_error (arr st) p); simpl; auto.
Qed.

(* Adding: a new key goes to the end, an existing one keeps its position, everything
   else stays where it is; in every state reached by adds and removes. *)
Theorem C04_add_positions_partial :
  forall (K V : Type) (kcmp : K -> K -> comparison), total_preorder kcmp ->
  forall (merged : bool) (ops : list (op K V)) st l k v,
  merged = true \/ adds_only ops ->
  run kcmp merged tree_new ops = Ok st -> shows st l ->
  exists st', add kcmp merged st k v = Ok st' /\ shows st' (m_add kcmp merged l k v).
Proof.
  intros K V kcmp TO merged ops st l k v Hm E Hs.
  destruct (run_inv kcmp TO merged ops st Hm E) as (t & I).
  destruct (add_positions kcmp TO merged st t k v I) as (st' & E1 & _ & E2).
  exists st'. split; auto.
  assert (l = map payload (arr st)) as ->.
  { apply payload_ext. intros i e.
    destruct Hs as [_ Hs]. destruct (shows_payload st) as [_ Hp].
    specialize (Hs i). specialize (Hp i).
    destruct (nth_error l i) as [[k1 v1]|], (nth_error (map payload (arr st)) i) as [[k2 v2]|];
      destruct Hs as [A1 A2], Hp as [B1 B2]; rewrite ?A1, ?A2 in *; split; congruence. }
  rewrite <- E2. apply shows_payload.
Qed.

(* Removing the largest key: exactly its position disappears. *)
Theorem C04_remove_largest_positions_partial :
  forall (K V : Type) (kcmp : K -> K -> comparison), total_preorder kcmp ->
  forall (ops : list (op K V)) st l k p,
  run kcmp true tree_new ops = Ok st -> shows st l ->
  getposition kcmp st k = Ok (Some p) ->
  (forall e, In e l -> kcmp k (fst e) <> Lt) ->
  exists st', remove_key kcmp true st k = Ok st' /\
    shows st' (firstn p l ++ skipn (S p) l).
Proof.
  intros K V kcmp TO ops st l k p E Hs Hp Hmax.
  destruct (run_inv kcmp TO true ops st (or_introl eq_refl) E) as (t & I).
  rewrite (getposition_inv kcmp st t k I) in Hp. injection Hp as Hp.
  assert (l = map payload (arr st)) as ->.
  { apply payload_ext. intros i e.
    destruct Hs as [_ Hs]. destruct (shows_payload st) as [_ Hpl].
    specialize (Hs i). specialize (Hpl i).
    destruct (nth_error l i) as [[k1 v1]|], (nth_error (map payload (arr st)) i) as [[k2 v2]|];
      destruct Hs as [A1 A2], Hpl as [B1 B2]; rewrite ?A1, ?A2 in *; split; congruence. }
  destruct (remove_max_positions kcmp TO st t k p I Hp Hmax) as (st' & E1 & E2).
  exists st'. split; auto. rewrite <- E2. apply shows_payload.
Qed.

Example C04_demo :
  exists st, run Z.compare true tree_new demo_ops = Ok st /\
    getposition Z.compare st 9 = Ok (Some 5%nat) /\
    exists st', remove_key Z.compare true st 9 = Ok st' /\
    map payload (arr st) = [(7, 70); (4, 41); (8, 80); (1, 10); (6, 60); (9, 90); (2, 20)] /\
    map payload (arr st') = [(7, 70); (4, 41); (8, 80); (1, 10); (6, 60); (2, 20)].
Proof. eexists. split; [vm_compute; reflexivity|]. split; [vm_compute; reflexivity|].
  eexists. split; [vm_compute; reflexivity|]. vm_compute. auto. Qed.

(* The full claim for removal is false: the element removed had position 0, yet the
   element before at position 2 is moved to position 0, in front of the one at 1. *)
Theorem C04_remove_positions_refuted :
  exists (ops : list (op Z Z)) st st' k p,
    run Z.compare true tree_new ops = Ok st /\
    getposition Z.compare st k = Ok (Some p) /\
    remove_key Z.compare true st k = Ok st' /\
    map (getkey st) (seq 0 (tree_length st)) = [Ok 2; Ok 1; Ok 3] /\ p = 0%nat /\
    map (getkey st') (seq 0 (tree_length st')) = [Ok 3; Ok 1].
Proof.
  exists [Add 2 20; Add 1 10; Add 3 30]. eexists. eexists. exists 2, 0%nat.
  split; [vm_compute; reflexivity|]. split; [vm_compute; reflexivity|].
  split; [vm_compute; reflexivity|]. vm_compute. auto.
Qed.

(* ---- C05: removal with separately stored keys ---- *)
(* After adding 1, 2 and 3, removing 2 removes nothing: key 2 now yields the value of
   key 3 and key 3 the value of key 2. *)
Theorem C05_remove_separate_keys_refuted :
  exists (ops : list (op Z Z)) st st' k,
    run Z.compare false tree_new ops = Ok st /\
    remove_key Z.compare false st k = Ok st' /\
    haskey Z.compare st' k = Ok true /\
    (exists k' v v', k' <> k /\ get Z.compare st k' = Ok v /\
       get Z.compare st' k' = Ok v' /\ v <> v').
Proof.
  exists [Add 1 10; Add 2 20; Add 3 30]. eexists. eexists. exists 2.
  split; [vm_compute; reflexivity|]. split; [vm_compute; reflexivity|].
  split; [vm_compute; reflexivity|].
  exists 3, 30, 20. vm_compute. repeat split; congruence.
Qed.

(* It does hold for every history in which a key is removed only while it is absent
   or the largest one present. *)
Theorem C05_remove_largest_separate_keys_partial :
  forall (K V : Type) (kcmp : K -> K -> comparison), total_preorder kcmp ->
  forall ops : list (op K V), removes_largest kcmp [] ops ->
  exists st, run kcmp false tree_new ops = Ok st /\
    let m := spec_run kcmp false ops in
    tree_length st = length m /\
    (forall k, haskey kcmp st k = Ok (m_has kcmp m k)) /\
    (forall k, get kcmp st k =
       match m_find kcmp m k with Some v => Ok v | None => Throw OutOfRange end).
Proof.
  intros K V kcmp TO ops Hr.
  destruct (run_abs_noswap kcmp TO ops tree_new [] (abs_new kcmp) Hr)
    as (st & E & A).
  exists st. split; [exact E|]. cbn zeta.
  change (spec_run kcmp false ops) with (fold_left (m_step kcmp false) ops []).
  split; [apply (length_abs kcmp); auto|]. split; intros k.
  - apply haskey_abs; auto.
  - apply get_abs; auto.
Qed.

Example C05_demo :
  removes_largest Z.compare [] [Add 1 10; Add 3 30; Add 2 20; Remove 7; Remove 3; Add 4 40; Remove 4].
Proof.
  simpl. repeat split; vm_compute; intros; try congruence;
    repeat match goal with H : _ \/ _ |- _ => destruct H end; subst; try congruence; try contradiction.
Qed.

Print Assumptions C01_tree_is_map.
Print Assumptions C01_tree_is_map_separate_keys.
Print Assumptions C02_order_statistics.
Print Assumptions C03_lookup_depth.
Print Assumptions C04_add_positions_partial.
Print Assumptions C04_remove_largest_positions_partial.
Print Assumptions C04_remove_positions_refuted.
Print Assumptions C05_remove_separate_keys_refuted.
Print Assumptions C05_remove_largest_separate_keys_partial.
