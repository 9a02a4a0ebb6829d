(* C71: the pointer based red/black tree of include/tree.h. *)
From Coq Require Import List ZArith Lia Bool Arith Sorted Permutation.
From Verif Require Import Base MapSpec BstModel BstProofs BstRemove BstHist.
Import ListNotations.
Open Scope Z_scope.

(* The map a history is supposed to produce (MapSpec only). *)
Definition bst_step {K V} (kcmp : K -> K -> comparison) (m : list (K * V)) (o : op K V) : list (K * V) :=
  match o with Insert k v => m_add kcmp false m k v | Remove k => m_remove kcmp m k end.
Definition bst_spec {K V} (kcmp : K -> K -> comparison) (ops : list (op K V)) : list (K * V) := fold_left (bst_step kcmp) ops [].
(* only keys that are there are removed, or the container is empty *)
Fixpoint careful {K V} (kcmp : K -> K -> comparison) (m : list (K * V)) (ops : list (op K V)) : Prop :=
  match ops with
  | [] => True
  | o :: ops =>
    match o with Insert _ _ => True | Remove k => m = [] \/ m_has kcmp m k = true end /\
    careful kcmp (bst_step kcmp m o) ops
  end.
Definition inserts_only {K V} (ops : list (op K V)) : Prop := Forall (fun o => match o with Insert _ _ => True | _ => False end) ops.
(* nodes from left to right, and the longest path *)
Fixpoint in_order {K V} (t : tree K V) : list (K * V) :=
  match t with Null => [] | Node _ _ l k v r => in_order l ++ (k, v) :: in_order r end.
Fixpoint longest {K V} (t : tree K V) : nat := match t with Null => O | Node _ _ l _ _ r => S (Nat.max (longest l) (longest r)) end.
(* every node holds the number of nodes to its left *)
Fixpoint ranked {K V} (t : tree K V) : Prop :=
  match t with Null => True | Node _ o l _ _ r => o = Z.of_nat (length (in_order l)) /\ ranked l /\ ranked r end.

Lemma in_order_elems {K V} (t : tree K V) : in_order t = elems t.
Proof. induction t; cbn; congruence. Qed.
Lemma longest_depth {K V} (t : tree K V) : longest t = depth t.
Proof. induction t; cbn; congruence. Qed.
Lemma ranked_orders {K V} (t : tree K V) : ranked t <-> orders t.
Proof. induction t; cbn [ranked orders]; [tauto|]. rewrite in_order_elems, size_elems. tauto. Qed.

Lemma run_good {K V} (kcmp : K -> K -> comparison) (TO : total_preorder kcmp) (ops : list (op K V)) :
  forall t m, good kcmp t m -> careful kcmp m ops -> exists t', run kcmp t ops = Ok t' /\ good kcmp t' (fold_left (bst_step kcmp) ops m) /\
    (inserts_only ops -> orders t -> orders t').
Proof.
  induction ops as [|[k v|k] ops IH]; intros t m G C.
  - exists t. auto.
  - destruct C as [_ C]. destruct (good_insert kcmp TO t m k v G) as (t' & E & G' & O). destruct (IH t' _ G' C) as (t2 & E2 & G2 & O2).
    exists t2. cbn [run]. rewrite E. repeat (split; auto). intros I. inversion I; subst. auto.
  - destruct C as [C1 C]. destruct (good_remove kcmp TO t m k G C1) as (t' & E & G'). destruct (IH t' _ G' C) as (t2 & E2 & G2 & O2).
    exists t2. cbn [run]. rewrite E. repeat (split; auto). intros I. inversion I; subst. contradiction.
Qed.

(* every careful history runs without undefined behaviour and gives the map *)
Theorem C71_bst_is_map_partial : forall (K V : Type) (kcmp : K -> K -> comparison), total_preorder kcmp ->
  forall ops : list (op K V), careful kcmp [] ops ->
  exists t, run kcmp Null ops = Ok t /\
    (forall k, get kcmp t k = m_find kcmp (bst_spec kcmp ops) k) /\
    Permutation (in_order t) (bst_spec kcmp ops) /\
    StronglySorted (fun a b => kcmp (fst a) (fst b) = Lt) (in_order t).
Proof.
  intros K V kcmp TO ops C. destruct (run_good kcmp TO ops Null [] (good_nil kcmp) C) as (t & E & (B & S & P) & _).
  exists t. split; auto. rewrite in_order_elems. repeat split; auto.
  intros k. rewrite get_spec by auto. symmetry. now apply find_perm.
Qed.

(* and the tree stays flat: three times the binary logarithm *)
Theorem C71_bst_height_partial : forall (K V : Type) (kcmp : K -> K -> comparison), total_preorder kcmp ->
  forall ops : list (op K V), careful kcmp [] ops ->
  exists t, run kcmp Null ops = Ok t /\ (longest t <= 3 * Nat.log2 (S (length (bst_spec kcmp ops))))%nat.
Proof.
  intros K V kcmp TO ops C. destruct (run_good kcmp TO ops Null [] (good_nil kcmp) C) as (t & E & ((n & B) & S & P) & _).
  exists t. split; auto. rewrite longest_depth. apply (proj1 (depth_bound t)) in B. destruct B as [D L].
  change (fold_left (bst_step kcmp) ops []) with (bst_spec kcmp ops) in P.
  rewrite size_elems, (Permutation_length P) in L. apply Nat.log2_le_mono in L. rewrite Nat.log2_pow2 in L by lia. lia.
Qed.

(* the order of every node is its rank in its own tree while nothing is removed *)
Theorem C71_order_is_rank_partial : forall (K V : Type) (kcmp : K -> K -> comparison), total_preorder kcmp ->
  forall ops : list (op K V), inserts_only ops -> exists t, run kcmp Null ops = Ok t /\ ranked t.
Proof.
  intros K V kcmp TO ops I.
  assert (C : forall m : list (K * V), careful kcmp m ops). { induction I as [|[k v|k] ops H I IH]; cbn; auto. }
  destruct (run_good kcmp TO ops Null [] (good_nil kcmp) (C [])) as (t & E & _ & O).
  exists t. split; auto. apply ranked_orders. now apply O.
Qed.
(* but not once something was *)
Theorem C71_order_after_remove_refuted :
  exists (ops : list (op Z Z)) t, careful Z.compare [] ops /\ run Z.compare Null ops = Ok t /\ ~ ranked t.
Proof.
  exists [Insert 1 1; Insert 2 2; Insert 3 3; Remove 1]. eexists. split; [cbn; tauto|]. split; [vm_compute; reflexivity|].
  cbn. intuition discriminate.
Qed.

(* removing any key, there or not: the contents without it, or a null pointer is used, and then the
   key was not there *)
Theorem C71_remove_any_key_partial : forall (K V : Type) (kcmp : K -> K -> comparison), total_preorder kcmp ->
  forall (ops : list (op K V)) t k, careful kcmp [] ops -> run kcmp Null ops = Ok t ->
  (exists t', remove kcmp t k = Ok t' /\ Permutation (in_order t') (m_remove kcmp (bst_spec kcmp ops) k) /\
     forall k', get kcmp t' k' = m_find kcmp (m_remove kcmp (bst_spec kcmp ops) k) k') \/
  (remove kcmp t k = UB NullDeref /\ bst_spec kcmp ops <> [] /\ m_has kcmp (bst_spec kcmp ops) k = false).
Proof.
  intros K V kcmp TO ops t k C E. destruct (run_good kcmp TO ops Null [] (good_nil kcmp) C) as (t1 & E1 & ((n & B) & S & P) & _).
  assert (t1 = t) by congruence. subst t1. change (fold_left (bst_step kcmp) ops []) with (bst_spec kcmp ops) in P.
  pose proof (remove_any kcmp TO t n k B S) as R. destruct (remove kcmp t k) as [t'| |[]]; try contradiction.
  - left. destruct R as (Ee & _). exists t'. split; auto. rewrite in_order_elems.
    assert (P' : Permutation (elems t') (m_remove kcmp (bst_spec kcmp ops) k)) by (rewrite Ee; now apply remove_perm).
    split; auto. intros k'. assert (S' : srt kcmp (elems t')) by (rewrite Ee; now apply drop_srt).
    rewrite get_spec by auto. symmetry. now apply find_perm.
  - right. destruct R as [N A]. split; auto. split.
    + intros Em. rewrite Em in P. apply Permutation_sym, Permutation_nil in P. apply N. destruct t; auto. cbn in P. now destruct (elems t1).
    + apply has_absent in A. rewrite <- A. symmetry. now apply has_perm.
Qed.
(* a key above all others always uses a null pointer, whatever the tree *)
Theorem C71_remove_above_refuted : forall (K V : Type) (kcmp : K -> K -> comparison), total_preorder kcmp ->
  forall (ops : list (op K V)) t k, careful kcmp [] ops -> run kcmp Null ops = Ok t ->
  bst_spec kcmp ops <> [] -> (forall e, In e (bst_spec kcmp ops) -> kcmp (fst e) k = Lt) ->
  remove kcmp t k = UB NullDeref.
Proof.
  intros K V kcmp TO ops t k C E N A. destruct (run_good kcmp TO ops Null [] (good_nil kcmp) C) as (t1 & E1 & ((n & B) & S & P) & _).
  assert (t1 = t) by congruence. subst t1. change (fold_left (bst_step kcmp) ops []) with (bst_spec kcmp ops) in P.
  apply (remove_above kcmp TO t n); auto.
  - intros ->. apply Permutation_nil in P. contradiction.
  - intros e He. apply cmp_lt_gt; auto. apply A. eapply Permutation_in; eauto.
Qed.

(* ---- examples ---- *)
Definition demo : list (op Z Z) :=
  [Insert 5 50; Insert 2 20; Insert 8 80; Insert 1 10; Insert 9 90; Insert 2 21; Insert 7 70; Insert 3 30; Remove 5; Remove 2; Insert 6 60; Remove 9].
Example C71_demo : careful Z.compare [] demo /\ bst_spec Z.compare demo = [(8, 80); (1, 10); (7, 70); (3, 30); (6, 60)] /\
  exists t, run Z.compare Null demo = Ok t /\ get Z.compare t 3 = Some 30 /\ get Z.compare t 2 = None /\
    in_order t = [(1, 10); (3, 30); (6, 60); (7, 70); (8, 80)] /\ longest t = 4%nat.
Proof.
  split; [vm_compute; intuition|]. split; [reflexivity|]. eexists. split; [vm_compute; reflexivity|]. repeat split.
Qed.
Example C71_demo_rank : exists t, run Z.compare Null (map (fun i => Insert i (2 * i)) [4; 1; 7; 3; 9; 2; 8]) = Ok t /\ ranked t /\ longest t = 4%nat.
Proof. eexists. split; [vm_compute; reflexivity|]. vm_compute. intuition. Qed.
(* one node, one other key: a crash; below the node nothing happens *)
Example C71_demo_absent : run Z.compare Null [Insert 1 10; Remove 2] = UB NullDeref /\
  run Z.compare Null [Insert 1 10; Remove 0] = Ok (Node false 0 Null 1 10 Null).
Proof. split; reflexivity. Qed.

Print Assumptions C71_bst_is_map_partial.
Print Assumptions C71_bst_height_partial.
Print Assumptions C71_order_is_rank_partial.
Print Assumptions C71_order_after_remove_refuted.
Print Assumptions C71_remove_any_key_partial.
Print Assumptions C71_remove_above_refuted.
