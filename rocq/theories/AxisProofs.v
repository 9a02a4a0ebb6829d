(* Proofs about AxisModel. *)
From Coq Require Import List ZArith Bool Arith Lia Permutation Sorted.
From Verif Require Import Base MapSpec AvlModel AvlProofs AvlRemove AvlQueries AxisModel AxisSpec.
Import ListNotations.
Local Open Scope Z_scope.

(* ---- a tree of keys holds a sorted list ---- *)
Section Holds.
Context {K : Type}.
Variable kcmp : K -> K -> comparison.
Hypothesis TO : total_preorder kcmp.
Hypothesis AS : forall x y, kcmp x y = Eq -> x = y.

Definition lt (x y : K) : Prop := kcmp x y = Lt.
Definition keys (t : @tr K unit) : list K := map (fun e => fst (snd e)) (elems t).
Definition holds (st : tree_state K unit) (l : list K) : Prop := exists t, inv kcmp st t /\ keys t = l.
Definition pairs (l : list K) : list (K * unit) := map (fun k => (k, tt)) l.

Lemma lt_irrefl x : ~ lt x x.
Proof. unfold lt. rewrite (cmp_refl _ _ TO). discriminate. Qed.
Lemma lt_trans x y z : lt x y -> lt y z -> lt x z.
Proof. apply (cmp_trans _ TO). Qed.
Lemma is_eq_iff x y : is_eq kcmp x y = true <-> x = y.
Proof.
  unfold is_eq. split.
  - destruct (kcmp x y) eqn:C; try discriminate. intros _; apply AS; exact C.
  - intros ->. rewrite (cmp_refl _ _ TO). reflexivity.
Qed.
Lemma is_lt_iff x y : is_lt kcmp x y = true <-> lt x y.
Proof. unfold is_lt, lt. destruct (kcmp x y); split; congruence. Qed.
Lemma tri x y : lt x y \/ x = y \/ lt y x.
Proof.
  unfold lt. destruct (kcmp x y) eqn:C; auto. right; right. apply (cmp_gt_lt _ _ _ TO C).
Qed.

Lemma sorted_perm_eq l : forall l', StronglySorted lt l -> StronglySorted lt l' -> Permutation l l' -> l = l'.
Proof.
  induction l as [|x l IH]; intros l' S S' P.
  - apply Permutation_nil in P. auto.
  - destruct l' as [|y l']; [symmetry in P; apply Permutation_nil in P; discriminate|].
    apply ss_cons in S. apply ss_cons in S'. destruct S as [S F], S' as [S' F'].
    assert (x = y).
    { assert (IX : In x (y :: l')) by (eapply Permutation_in; [exact P|left; reflexivity]).
      assert (IY : In y (x :: l)) by (eapply Permutation_in; [symmetry; exact P|left; reflexivity]).
      destruct IX as [->|IX]; auto. destruct IY as [->|IY]; auto.
      exfalso. apply (lt_irrefl x). eapply lt_trans; [apply F; exact IY|apply F'; exact IX]. }
    subst y. f_equal. apply IH; auto. eapply Permutation_cons_inv; exact P.
Qed.

Lemma keys_sorted t : sorted kcmp t -> StronglySorted lt (keys t).
Proof.
  unfold sorted, keys. induction (elems t) as [|e l IH]; intros S; [constructor|].
  apply ss_cons in S. destruct S as [S F]. simpl. constructor; [auto|].
  apply Forall_forall. intros y I. apply in_map_iff in I. destruct I as (f & <- & I). exact (F f I).
Qed.
Lemma sorted_of_keys t : StronglySorted lt (keys t) -> sorted kcmp t.
Proof.
  unfold sorted, keys. induction (elems t) as [|e l IH]; intros S; [constructor|].
  simpl in S. inversion S as [|? ? S1 F]; subst. constructor; [auto|].
  rewrite Forall_forall in *. intros f I. unfold klt. apply F. apply in_map_iff. exists f; auto.
Qed.
Lemma holds_sorted st l : holds st l -> StronglySorted lt l.
Proof. intros (t & I & <-). apply keys_sorted. apply I. Qed.

Lemma pairs_snd t : map snd (elems t) = pairs (keys t).
Proof. unfold pairs, keys. rewrite map_map. apply map_ext. intros [i [k []]]; reflexivity. Qed.
Lemma holds_abs st l : holds st l -> abs kcmp st (pairs l).
Proof. intros (t & I & <-). exists t. split; auto. rewrite pairs_snd. reflexivity. Qed.
Lemma pairs_fst l : map fst (pairs l) = l.
Proof. unfold pairs. rewrite map_map. apply map_id. Qed.
Lemma abs_holds st m : abs kcmp st m -> exists l, holds st l /\ Permutation l (map fst m).
Proof.
  intros (t & I & P). exists (keys t). split; [exists t; auto|].
  apply (Permutation_map fst) in P. rewrite pairs_snd, pairs_fst in P. exact P.
Qed.
Lemma holds_new : holds tree_new [].
Proof.
  exists E. split; [|reflexivity]. repeat split; constructor.
Qed.
Lemma holds_length st l : holds st l -> tree_length st = length l.
Proof. intros Hl. rewrite (length_abs kcmp st _ (holds_abs _ _ Hl)). unfold pairs. apply map_length. Qed.

Lemma has_pairs l k : m_has kcmp (pairs l) k = member kcmp k l.
Proof. unfold m_has, pairs, member. induction l; simpl; [reflexivity|]. rewrite IHl. reflexivity. Qed.
Lemma rank_pairs l k : Z.of_nat (m_rank kcmp (pairs l) k) = position kcmp k l.
Proof.
  unfold m_rank, pairs, position. f_equal. induction l as [|x l IH]; simpl; [reflexivity|].
  unfold less at 1, is_lt at 1. simpl. destruct (kcmp x k); simpl; auto.
Qed.
Lemma holds_haskey st l k : holds st l -> haskey kcmp st k = Ok (member kcmp k l).
Proof. intros Hl. rewrite (haskey_abs kcmp TO _ _ k (holds_abs _ _ Hl)), has_pairs. reflexivity. Qed.
Lemma holds_order st l k : holds st l ->
  getorderof kcmp st k = Ok (if member kcmp k l then Some (position kcmp k l) else None).
Proof.
  intros Hl. rewrite (getorderof_abs kcmp TO _ _ k (holds_abs _ _ Hl)), has_pairs, rank_pairs. reflexivity.
Qed.

Lemma member_in k l : member kcmp k l = true <-> In k l.
Proof.
  unfold member. rewrite existsb_exists. split.
  - intros (x & I & E). apply is_eq_iff in E. subst; auto.
  - intros I. exists k. split; auto. apply is_eq_iff; auto.
Qed.
Lemma member_false k l : member kcmp k l = false <-> ~ In k l.
Proof. rewrite <- member_in. destruct (member kcmp k l); split; congruence. Qed.

Lemma insert_perm k l : Permutation (insert kcmp k l) (k :: l).
Proof.
  induction l as [|x l IH]; simpl; [reflexivity|]. destruct (is_lt kcmp k x); [reflexivity|].
  rewrite IH. apply perm_swap.
Qed.
Lemma insert_sorted k l : StronglySorted lt l -> ~ In k l -> StronglySorted lt (insert kcmp k l).
Proof.
  induction l as [|x l IH]; simpl; intros S NI; [repeat constructor|].
  pose proof S as S0. apply ss_cons in S. destruct S as [S F]. destruct (is_lt kcmp k x) eqn:L.
  - apply is_lt_iff in L. constructor; [exact S0|]. constructor; [exact L|].
    apply Forall_forall. intros y I. eapply lt_trans; [exact L|auto].
  - constructor; [apply IH; tauto|]. apply Forall_forall. intros y I.
    apply (Permutation_in _ (insert_perm k l)) in I. destruct I as [<-|I]; [|auto].
    destruct (tri x k) as [T|[T|T]]; auto; [subst; tauto|]. apply is_lt_iff in T. congruence.
Qed.
Lemma holds_add st l k : holds st l -> ~ In k l ->
  exists st', add kcmp true st k tt = Ok st' /\ holds st' (insert kcmp k l).
Proof.
  intros Hl NI. destruct (add_abs kcmp TO true st _ k tt (holds_abs _ _ Hl)) as (st' & E1 & A).
  exists st'. split; auto. destruct (abs_holds _ _ A) as (l' & Hl' & P).
  replace (insert kcmp k l) with l'; [exact Hl'|].
  apply sorted_perm_eq; [apply (holds_sorted _ _ Hl')|apply insert_sorted; [apply (holds_sorted _ _ Hl)|exact NI]|].
  rewrite P. unfold m_add. rewrite has_pairs, (proj2 (member_false _ _) NI), map_app, pairs_fst. simpl.
  rewrite insert_perm. symmetry. apply Permutation_cons_append.
Qed.
Lemma filter_sorted f l : StronglySorted lt l -> StronglySorted lt (filter f l).
Proof.
  induction l as [|x l IH]; simpl; intros S; [constructor|]. apply ss_cons in S. destruct S as [S F].
  destruct (f x); auto. constructor; auto. apply Forall_forall. intros y I. apply filter_In in I. apply F; tauto.
Qed.
Lemma holds_remove st l k : holds st l ->
  exists st', remove_key kcmp true st k = Ok st' /\ holds st' (delete kcmp k l).
Proof.
  intros Hl. destruct (remove_abs kcmp TO st _ k (holds_abs _ _ Hl)) as (st' & E1 & A).
  exists st'. split; auto. destruct (abs_holds _ _ A) as (l' & Hl' & P).
  replace (delete kcmp k l) with l'; [exact Hl'|].
  apply sorted_perm_eq; [apply (holds_sorted _ _ Hl')|apply filter_sorted, (holds_sorted _ _ Hl)|].
  rewrite P. unfold m_remove, pairs, delete. clear. induction l as [|x l IH]; simpl; [reflexivity|].
  unfold same at 1, is_eq at 1. simpl. destruct (kcmp k x); simpl; auto.
Qed.

(* the element at an order *)
Lemma holds_at st l i : holds st l -> 0 <= i ->
  match nth_error l (Z.to_nat i) with
  | Some k => exists j n, getatorder_loop (S (length (arr st))) (arr st) (root st) 0 i = Ok (Some j) /\
      nth_error (arr st) j = Some n /\ nkey n = k
  | None => getatorder_loop (S (length (arr st))) (arr st) (root st) 0 i = Ok None
  end.
Proof.
  intros (t & I & <-) P. pose proof (inv_size _ _ _ I) as Sz. pose proof I as (R & PI & A & S).
  rewrite (getatorder_rep t) by (auto; pose proof (ht_le_size t); lia).
  rewrite (proj2 (Z.leb_le 0 i) P), Z.sub_0_r. unfold keys. rewrite nth_error_map.
  destruct (nth_error (elems t) (Z.to_nat i)) as [[j [k v]]|] eqn:N; simpl; [|reflexivity].
  destruct (rep_elems t _ _ _ _ R (nth_error_In _ _ N)) as (n & Hn & Hp).
  exists j, n. repeat split; auto. unfold payload in Hp. congruence.
Qed.

(* changing keys in place *)
Fixpoint tmap (f : nat -> K -> K) (t : @tr K unit) : @tr K unit :=
  match t with
  | E => E
  | T l i k v r => T (tmap f l) i (f i k) v (tmap f r)
  end.
Lemma tmap_size f t : size (tmap f t) = size t.
Proof. induction t; simpl; congruence. Qed.
Lemma tmap_ht f t : ht (tmap f t) = ht t.
Proof. induction t; simpl; congruence. Qed.
Lemma tmap_avl f t : avl t -> avl (tmap f t).
Proof. induction t; simpl; auto. rewrite !tmap_ht. tauto. Qed.
Lemma tmap_elems f t : elems (tmap f t) = map (fun e => (fst e, (f (fst e) (fst (snd e)), snd (snd e)))) (elems t).
Proof. induction t; simpl; auto. rewrite map_app, IHt1, IHt2. reflexivity. Qed.
Lemma tmap_idx f t : idx (tmap f t) = idx t.
Proof. unfold idx. rewrite tmap_elems, map_map. apply map_ext. reflexivity. Qed.
Lemma tmap_rep f a a' t : forall o,
  (forall i, nth_error a' i = option_map (fun n => set_kv n (f i (nkey n)) (nval n)) (nth_error a i)) ->
  rep a o t -> rep a' o (tmap f t).
Proof.
  induction t as [|l IHl i k v r IHr]; intros o E R; simpl in *; [exact R|].
  destruct R as (-> & n & Hn & Hk & Hv & Hw & Hh & Hl & Hr). split; [reflexivity|].
  eexists. rewrite E, Hn. cbn [option_map]. split; [reflexivity|].
  cbn [set_kv nkey nval nweight nheight nleft nright].
  rewrite !tmap_size, !tmap_ht, Hk. repeat split; auto.
Qed.
Lemma tmap_inv f st t a' :
  (forall i, nth_error a' i = option_map (fun n => set_kv n (f i (nkey n)) (nval n)) (nth_error (arr st) i)) ->
  length a' = length (arr st) ->
  inv kcmp st t -> StronglySorted lt (map (fun e => f (fst e) (fst (snd e))) (elems t)) ->
  inv kcmp (Tree a' (root st)) (tmap f t).
Proof.
  intros E L (R & P & A & S) SS. unfold inv. cbn [arr root]. split; [|split; [|split]].
  - eapply tmap_rep; eauto.
  - rewrite tmap_idx, L. exact P.
  - apply tmap_avl; exact A.
  - apply sorted_of_keys. unfold keys. rewrite tmap_elems, map_map. exact SS.
Qed.
End Holds.
