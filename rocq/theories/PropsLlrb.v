(* C06: the left-leaning red/black tree of include/tree.h. *)
From Coq Require Import List ZArith Lia Bool Arith Permutation.
From Verif Require Import Base MapSpec LlrbModel AvlProofs AvlRemove AvlQueries LlrbProofs.
Import ListNotations.
Open Scope Z_scope.

(* The map a sequence of adds is supposed to produce, in order of first insertion. *)
Definition adds {K V} (kcmp : K -> K -> comparison) (ops : list (K * V)) : list (K * V) :=
  fold_left (fun m kv => m_add kcmp true m (fst kv) (snd kv)) ops [].

Section L.
Context {K V : Type}.
Variable kcmp : K -> K -> comparison.
Hypothesis TO : total_preorder kcmp.

Lemma llook_abs (st : llrb_state K V) t m k : linv kcmp st t -> m = map lpayload (larr st) ->
  match llook kcmp t k with
  | Some i => exists kv, In (i, kv) (lelems t) /\ nth_error m i = Some kv /\ kcmp k (fst kv) = Eq
  | None => forall e, In e m -> kcmp k (fst e) <> Eq
  end.
Proof.
  intros I ->. pose proof I as (R & P & S & _).
  pose proof (look_elems kcmp TO (plain t) k (plain_sorted kcmp t S)) as L.
  rewrite plain_look, plain_elems in L. destruct (llook kcmp t k).
  - destruct L as (kv & H1 & H2). exists kv. repeat split; auto.
    apply (linv_payload kcmp st t); auto.
  - intros e He. apply (Permutation_in _ (Permutation_sym (linv_perm_payload kcmp st t I))) in He.
    apply in_map_iff in He. destruct He as (x & <- & Hx). auto.
Qed.

Lemma llrb_full (ops : list (K * V)) :
  exists st, lrun kcmp llrb_new ops = Ok st /\
    let m := adds kcmp ops in
    let n := Z.of_nat (length m) in
    llrb_length st = length m /\
    (forall k, exists r, lhaskey kcmp st k = Ok r /\
       match r with
       | Some p => exists k' v, nth_error m p = Some (k', v) /\ kcmp k k' = Eq
       | None => m_has kcmp m k = false
       end) /\
    (forall p k v, nth_error m p = Some (k, v) ->
       lgetat st p = Ok v /\ lgetorder kcmp st p = Ok (Z.of_nat (m_rank kcmp m k))) /\
    (forall i, 0 <= i < n -> exists k v,
       In (k, v) m /\ Z.of_nat (m_rank kcmp m k) = i /\ lgetindex st i = Ok v) /\
    (exists black h, (h <= 3 * black)%nat /\ 2 ^ Z.of_nat black <= n + 1 /\
       forall k, exists p, lhaskey_loop kcmp (S h) (larr st) (lroot st) k = Ok p) /\
    (forall i, n <= i -> lgetindex st i = UB OutOfBounds).
Proof.
  destruct (lrun_inv kcmp TO ops llrb_new LE (linv_new kcmp)) as (st & t & E & I & Em).
  exists st. split; auto. cbn zeta.
  change (adds kcmp ops) with
    (fold_left (fun m kv => m_add kcmp true m (fst kv) (snd kv)) ops (map lpayload (larr (@llrb_new K V)))).
  rewrite <- Em. clear Em. set (m := map lpayload (larr st)).
  pose proof (linv_size _ _ _ I) as Sz. pose proof (lht_le_size t) as Hh.
  pose proof I as (R & P & S & b & B).
  pose proof (linv_perm_payload kcmp st t I) as PP. fold m in PP.
  assert (Lm : length m = length (larr st)) by apply map_length.
  assert (Rk : forall k, below kcmp (plain t) k = m_rank kcmp m k).
  { intros k. apply below_rank. rewrite plain_elems. auto. }
  split; [unfold llrb_length; auto|]. split; [|split; [|split; [|split]]].
  - intros k. exists (llook kcmp t k). split.
    + unfold lhaskey. apply lhaskey_rep; auto. lia.
    + pose proof (llook_abs st t m k I eq_refl) as L. destruct (llook kcmp t k).
      * destruct L as ([k' v'] & _ & H1 & H2). eauto.
      * apply m_has_false. auto.
  - intros p k v Hp. unfold m in Hp. rewrite nth_error_map in Hp.
    destruct (nth_error (larr st) p) as [n|] eqn:Hn; [|discriminate].
    simpl in Hp. injection Hp as Hk Hv. unfold lgetat, lgetorder.
    rewrite (aget_some _ _ _ Hn); cbn [bind]. split; [congruence|]. rewrite Hk.
    rewrite (lgetorder_rep kcmp TO t); auto; try lia.
    + rewrite Rk. reflexivity.
    + pose proof (llook_abs st t m k I eq_refl) as L. destruct (llook kcmp t k); [discriminate|].
      exfalso. apply (L (k, v)); [|apply cmp_refl; auto].
      unfold m. apply in_map_iff. exists n. split; [unfold lpayload; congruence|].
      eapply nth_error_In; eauto.
  - intros i Hi. unfold lgetindex. rewrite (lgetindex_rep t) by (auto; lia).
    rewrite Z.sub_0_r. destruct (Z.leb_spec 0 i); [|lia].
    pose proof (lsize_elems t).
    destruct (nth_error (lelems t) (Z.to_nat i)) as [[j [k v]]|] eqn:N.
    2:{ apply nth_error_None in N. lia. }
    exists k, v. split; [|split; auto].
    + eapply Permutation_in; [exact PP|]. apply nth_error_In in N. apply (in_map snd) in N; auto.
    + rewrite <- Rk. unfold below. rewrite plain_elems.
      pose proof (sorted_nth_below kcmp TO _ _ _ S N) as Q. simpl in Q. rewrite Q. lia.
  - exists b, (lht t). destruct (@shape_bounds K V) as (SB & _ & _). destruct (SB _ _ B) as [H1 H2].
    split; [auto|]. split; [lia|]. intros k. exists (llook kcmp t k). apply lhaskey_rep; auto.
  - intros i Hi. unfold lgetindex. rewrite (lgetindex_rep t) by (auto; lia).
    rewrite Z.sub_0_r. pose proof (lsize_elems t).
    assert (N : nth_error (lelems t) (Z.to_nat i) = None) by (apply nth_error_None; lia).
    rewrite N. destruct (0 <=? i); auto.
Qed.
End L.

(* Membership, access by position, rank and access by rank agree with the map built
   by the adds, and lookups take at most 3*log2(n+1)+1 rounds. *)
Theorem C06_llrb_is_ordered_map :
  forall (K V : Type) (kcmp : K -> K -> comparison), total_preorder kcmp ->
  forall ops : list (K * V),
  exists st, lrun kcmp llrb_new ops = Ok st /\
    let m := adds kcmp ops in
    let n := Z.of_nat (length m) in
    llrb_length st = length m /\
    (forall k, exists r, lhaskey kcmp st k = Ok r /\
       match r with
       | Some p => exists k' v, nth_error m p = Some (k', v) /\ kcmp k k' = Eq
       | None => m_has kcmp m k = false
       end) /\
    (forall p k v, nth_error m p = Some (k, v) ->
       lgetat st p = Ok v /\ lgetorder kcmp st p = Ok (Z.of_nat (m_rank kcmp m k))) /\
    (forall i, 0 <= i < n -> exists k v,
       In (k, v) m /\ Z.of_nat (m_rank kcmp m k) = i /\ lgetindex st i = Ok v) /\
    (exists black h, (h <= 3 * black)%nat /\ 2 ^ Z.of_nat black <= n + 1 /\
       forall k, exists p, lhaskey_loop kcmp (S h) (larr st) (lroot st) k = Ok p).
Proof.
  intros K V kcmp TO ops. destruct (llrb_full kcmp TO ops) as (st & H).
  exists st. cbn zeta in *. tauto.
Qed.

(* Asking for the element at an order past the end leaves the array: the code marks
   this with "XXX throw". *)
Theorem C06_getindex_out_of_range_refuted :
  exists (ops : list (Z * Z)) st i, lrun Z.compare llrb_new ops = Ok st /\
    lgetindex st i = UB OutOfBounds.
Proof. exists [(1,10)]. eexists. exists 1. split; vm_compute; reflexivity. Qed.

(* The factor 2 between depth and black height known from red/black trees does not
   hold: after adding 3, 2, 1 a path of three nodes has one black node. *)
Theorem C06_depth_twice_black_height_refuted :
  exists (ops : list (Z * Z)) st, lrun Z.compare llrb_new ops = Ok st /\
    map lred (larr st) = [false; true; true] /\
    map lleft (larr st) = [Some 1%nat; Some 2%nat; None] /\ lroot st = Some 0%nat.
Proof. exists [(3,30);(2,20);(1,10)]. eexists. split; vm_compute; auto. Qed.

Example C06_demo :
  exists st, lrun Z.compare llrb_new
     (map (fun k => (k, 10 * k)) [5;3;8;1;4;7;9;2;6;10;11;12;13;14;15;0;3]) = Ok st /\
    llrb_length st = 16%nat /\
    map (lgetindex st) [0;1;2;3;4;5;6;7;8;9;10;11;12;13;14;15] =
    map (fun k => Ok (10 * k)) [0;1;2;3;4;5;6;7;8;9;10;11;12;13;14;15] /\
    lhaskey Z.compare st 12 = Ok (Some 11%nat) /\ lgetorder Z.compare st 11 = Ok 12 /\
    lhaskey Z.compare st 16 = Ok None.
Proof. eexists. split; [vm_compute; reflexivity|]. vm_compute. auto. Qed.

Print Assumptions C06_llrb_is_ordered_map.
Print Assumptions C06_getindex_out_of_range_refuted.
Print Assumptions C06_depth_twice_black_height_refuted.
