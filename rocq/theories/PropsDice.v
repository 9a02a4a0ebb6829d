(* C54: Monte Carlo realisations do not depend on the order of their creation. *)
From Coq Require Import ZArith List Bool Lia Permutation Sorted.
From Verif Require Import Base SortModel PropsSort DiceModel.
Import ListNotations.

Section D.
Variables G N V K : Type.
Variable next : G -> N * G.
Variable kcmp : K -> K -> comparison.
Hypothesis TO : total_preorder kcmp.
Notation realized := (DiceModel.realized N V K).
Notation cmp := (realized_cmp N V K kcmp).
Notation roll_one := (DiceModel.roll_one G N V K next).
Notation roll_all := (DiceModel.roll_all G N V K next).

(* ---- specification ---- *)
(* the generator after n normal numbers, and the n-th of them *)
Fixpoint after (n : nat) (g : G) : G := match n with O => g | S n => after n (snd (next g)) end.
Definition normal (n : nat) (g : G) : N := fst (next (after n g)).
(* a realisation which needs a number *)
Definition hungry (r : realized) : bool := negb (rolled r) && randomizable (rv r).
(* a comes before b in the ordering of (trial, key) *)
Definition before (a b : realized) : Prop :=
  (trial a < trial b)%Z \/ trial a = trial b /\ kcmp (sortkey a) (sortkey b) = Lt.
Definition beforeb (a b : realized) : bool :=
  (trial a <? trial b)%Z ||
  (trial a =? trial b)%Z && match kcmp (sortkey a) (sortkey b) with Lt => true | _ => false end.
(* identities are pairwise different *)
Definition distinct (l : list realized) : Prop :=
  ForallOrdPairs (fun a b => before a b \/ before b a) l.
(* the value of x: the number whose index is the rank of x among those who need one *)
Definition dealt (g : G) (l : list realized) (x : realized) : V :=
  if rolled x then v x
  else if randomizable (rv x)
  then scale (rv x) (normal (length (filter (fun y => hungry y && beforeb y x) l)) g)
  else mean (rv x).
Definition settle (g : G) (l : list realized) (x : realized) : realized :=
  {| trial := trial x; sortkey := sortkey x; rv := rv x; v := dealt g l x; rolled := true |}.

(* ---- proofs ---- *)
Lemma cmp_total : total_preorder cmp.
Proof.
  constructor; unfold realized_cmp.
  - intros x y. rewrite (Z.compare_antisym (trial x) (trial y)).
    destruct (Z.compare (trial x) (trial y)); cbn [CompOpp]; auto. apply (cmp_sym _ TO).
  - intros x y z. destruct (Z.compare_spec (trial x) (trial y)) as [E|E|E];
      destruct (Z.compare_spec (trial y) (trial z)) as [F|F|F]; try discriminate; intros A B.
    + rewrite E, F, Z.compare_refl. apply (cmp_trans _ TO _ _ _ A B).
    + rewrite E. apply Z.compare_lt_iff in F. now rewrite F.
    + rewrite <- F. apply Z.compare_lt_iff in E. now rewrite E.
    + assert (trial x < trial z)%Z as H by lia. apply Z.compare_lt_iff in H. now rewrite H.
  - intros x y z. destruct (Z.compare_spec (trial x) (trial y)) as [E|E|E]; try discriminate.
    intros A. rewrite E, (cmp_cong _ TO _ _ _ A). reflexivity.
Qed.
Lemma before_cmp : forall a b, before a b <-> cmp a b = Lt.
Proof.
  intros a b. unfold before, realized_cmp.
  destruct (Z.compare_spec (trial a) (trial b)); split; intros H'; try discriminate; auto; try lia.
  - destruct H'; [lia|tauto].
Qed.
Lemma beforeb_spec : forall a b, beforeb a b = true <-> before a b.
Proof.
  intros a b. unfold beforeb, before.
  destruct (Z.ltb_spec (trial a) (trial b)); cbn [orb]; [split; auto|].
  destruct (Z.eqb_spec (trial a) (trial b)); cbn [andb].
  - destruct (kcmp (sortkey a) (sortkey b)); split; auto; try discriminate; intros [?|[? ?]];
      try lia; discriminate.
  - split; [discriminate|]. intros [?|[? ?]]; lia.
Qed.
Lemma distinct_perm : forall l l', Permutation l l' -> distinct l -> distinct l'.
Proof.
  induction 1; intros D; auto.
  - inversion D as [|? ? F D']; subst. constructor; [|now apply IHPermutation].
    rewrite Forall_forall in *. intros y Hy. apply F.
    eapply Permutation_in; [apply Permutation_sym; eassumption|auto].
  - inversion D as [|? ? F D']; subst. inversion D' as [|? ? F' D'']; subst.
    inversion F as [|? ? H F'']; subst. constructor; [|constructor; auto].
    constructor; [tauto|auto].
Qed.
Lemma filter_length_perm : forall (f : realized -> bool) l l', Permutation l l' ->
  length (filter f l) = length (filter f l').
Proof.
  induction 1; cbn [filter]; auto.
  - destruct (f x); cbn [length]; auto.
  - destruct (f x), (f y); auto.
  - congruence.
Qed.
Lemma settle_perm : forall g l l' x, Permutation l l' -> settle g l x = settle g l' x.
Proof.
  intros g l l' x P. unfold settle, dealt. now rewrite (filter_length_perm _ l l' P).
Qed.

(* rolling a sorted list, some of which lies behind *)
Lemma roll_sorted : forall g0 l done,
  StronglySorted (fun a b => cmp a b = Lt) (done ++ l) ->
  roll_all (after (length (filter hungry done)) g0) l =
    (map (settle g0 (done ++ l)) l, after (length (filter hungry (done ++ l))) g0).
Proof.
  intros g0. induction l as [|x l IH]; intros done S.
  - cbn. now rewrite app_nil_r.
  - assert (R : length (filter (fun y => hungry y && beforeb y x) (done ++ x :: l))
                = length (filter hungry done)).
    { rewrite filter_app, app_length.
      assert (A : filter (fun y => hungry y && beforeb y x) done = filter hungry done).
      { apply filter_ext_in. intros y Hy.
        assert (B : beforeb y x = true).
        { apply beforeb_spec, before_cmp. clear - S Hy.
          induction done as [|d done IHd]; [easy|]. cbn [app] in S.
          inversion S as [|? ? S' F]; subst. destruct Hy as [->|Hy]; [|auto].
          rewrite Forall_forall in F. apply F. apply in_or_app. right. now left. }
        rewrite B. apply andb_true_r. }
      assert (B : filter (fun y => hungry y && beforeb y x) (x :: l) = []).
      { assert (forall y, In y (x :: l) -> beforeb y x = false) as B.
        { intros y Hy. destruct (beforeb y x) eqn:E; auto. exfalso.
          apply beforeb_spec, before_cmp in E. destruct Hy as [->|Hy].
          - rewrite (cmp_refl _ _ cmp_total) in E. discriminate.
          - assert (S' : StronglySorted (fun a b => cmp a b = Lt) (x :: l)).
            { clear - S. induction done; auto. inversion S; auto. }
            inversion S' as [|? ? S'' F]; subst. rewrite Forall_forall in F.
            specialize (F y Hy). apply (cmp_lt_gt _ _ _ cmp_total) in F. congruence. }
        clear - B. induction (x :: l) as [|z m IHm]; auto. cbn [filter].
        rewrite (B z (or_introl eq_refl)), andb_false_r. apply IHm. intros; apply B; now right. }
      rewrite A, B. cbn. lia. }
    cbn [DiceModel.roll_all map].
    specialize (IH (done ++ [x])). rewrite <- app_assoc in IH. cbn [app] in IH.
    specialize (IH S). rewrite filter_app, app_length in IH. cbn [filter] in IH.
    unfold DiceModel.roll_one.
    unfold settle at 1. unfold dealt. rewrite R. 
    change (hungry x) with (negb (rolled x) && randomizable (rv x)) in IH.
    destruct (rolled x) eqn:Ex; cbn [negb andb] in *.
    + cbn [length] in IH. rewrite Nat.add_0_r in IH. rewrite IH. reflexivity.
    + destruct (randomizable (rv x)); cbn [length] in IH.
      * assert (A : forall n g, after (n + 1) g = snd (next (after n g))).
        { clear. induction n; intros g; [reflexivity|]. cbn [Nat.add after]. apply IHn. }
        rewrite A in IH. unfold normal.
        destruct (next (after (length (filter hungry done)) g0)) as [z g1]. cbn [fst snd] in *.
        rewrite IH. reflexivity.
      * rewrite Nat.add_0_r in IH. rewrite IH. reflexivity.
Qed.
Lemma nondec_strict : forall l, nondecreasing cmp l -> distinct l ->
  StronglySorted (fun a b => cmp a b = Lt) l.
Proof.
  induction l as [|x l IH]; intros S D; [constructor|].
  inversion S as [|? ? S' F]; subst. inversion D as [|? ? F' D']; subst.
  constructor; [auto|]. rewrite Forall_forall in *. intros y Hy.
  specialize (F y Hy). specialize (F' y Hy). destruct F' as [H|H]; [now apply before_cmp|].
  apply before_cmp in H. apply (cmp_lt_gt _ _ _ cmp_total) in H. contradiction.
Qed.
Lemma strict_unique : forall l l', StronglySorted (fun a b => cmp a b = Lt) l ->
  StronglySorted (fun a b => cmp a b = Lt) l' -> Permutation l l' -> l = l'.
Proof.
  induction l as [|x l IH]; intros l' S S' P.
  - now apply Permutation_nil in P.
  - destruct l' as [|y l']; [now apply Permutation_sym, Permutation_nil in P|].
    inversion S as [|? ? S1 F1]; subst. inversion S' as [|? ? S2 F2]; subst.
    rewrite Forall_forall in F1, F2.
    assert (E : x = y).
    { assert (Hx : In x (y :: l')) by (eapply Permutation_in; [exact P|now left]).
      assert (Hy : In y (x :: l)).
      { eapply Permutation_in; [apply Permutation_sym; exact P|now left]. }
      destruct Hx as [|Hx]; [auto|]. destruct Hy as [|Hy]; [auto|].
      specialize (F1 _ Hy). specialize (F2 _ Hx).
      apply (cmp_lt_gt _ _ _ cmp_total) in F2. congruence. }
    subst y. f_equal. apply IH; auto. eapply Permutation_cons_inv; eauto.
Qed.
End D.

(* C54: with pairwise different identities every realisation gets the value which its rank
   and the generator determine; rolled values are kept. *)
Theorem C54_dealt_by_rank_partial : forall (G N V K : Type) (next : G -> N * G)
  (kcmp : K -> K -> comparison), total_preorder kcmp ->
  forall g store, distinct N V K kcmp store ->
  exists st', rolldice G N V K next kcmp g store =
      Ok (st', after G N next (length (filter (hungry N V K) store)) g) /\
    Permutation (map (settle G N V K next kcmp g store) store) st'.
Proof.
  intros G N V K next kcmp TO g store D. unfold rolldice.
  destruct (C10_sort_sorts _ _ (cmp_total N V K kcmp TO) store) as (st & E & P & S).
  rewrite E. cbn [bind].
  pose proof (roll_sorted G N V K next kcmp TO g st [] (nondec_strict N V K kcmp TO st S
    (distinct_perm N V K kcmp _ _ P D))) as R. cbn [filter length after app] in R.
  eexists. rewrite R. split.
  - rewrite (filter_length_perm N V K (hungry N V K) store st P). reflexivity.
  - rewrite (map_ext _ (settle G N V K next kcmp g st)).
    + now apply Permutation_map.
    + intros x. now apply settle_perm.
Qed.
(* any two orders of creation give the same store and the same generator *)
Theorem C54_creation_order_partial : forall (G N V K : Type) (next : G -> N * G)
  (kcmp : K -> K -> comparison), total_preorder kcmp ->
  forall g store store', Permutation store store' -> distinct N V K kcmp store ->
  rolldice G N V K next kcmp g store = rolldice G N V K next kcmp g store'.
Proof.
  intros G N V K next kcmp TO g store store' P D. unfold rolldice.
  destruct (C10_sort_sorts _ _ (cmp_total N V K kcmp TO) store) as (st & E & P1 & S1).
  destruct (C10_sort_sorts _ _ (cmp_total N V K kcmp TO) store') as (st' & E' & P2 & S2).
  rewrite E, E'. cbn [bind]. do 2 f_equal.
  apply (strict_unique N V K kcmp TO).
  - apply nondec_strict; auto. eapply distinct_perm; eauto.
  - apply nondec_strict; auto. eapply distinct_perm; [|exact D]. exact (Permutation_trans P P2).
  - etransitivity; [apply Permutation_sym; exact P1|]. exact (Permutation_trans P P2).
Qed.
(* a second roll changes nothing, whatever the keys *)
Theorem C54_rolled_kept : forall (G N V K : Type) (next : G -> N * G)
  (kcmp : K -> K -> comparison), total_preorder kcmp ->
  forall g store, (forall r, In r store -> rolled r = true) ->
  exists st', rolldice G N V K next kcmp g store = Ok (st', g) /\ Permutation store st'.
Proof.
  intros G N V K next kcmp TO g store H. unfold rolldice.
  destruct (C10_sort_sorts _ _ (cmp_total N V K kcmp TO) store) as (st & E & P & S).
  rewrite E. cbn [bind]. exists st. split; [|auto]. f_equal.
  assert (H' : forall r, In r st -> rolled r = true).
  { intros r Hr. apply H. eapply Permutation_in; [apply Permutation_sym; exact P|auto]. }
  clear - H'. induction st as [|x st IH]; [reflexivity|]. cbn [roll_all].
  unfold roll_one. rewrite (H' x (or_introl eq_refl)). cbn [negb].
  rewrite IH by (intros; apply H'; now right). f_equal. f_equal.
  unfold with_value. specialize (H' x (or_introl eq_refl)). destruct x; cbn in *. now subst.
Qed.

(* Realisations whose identity was never set all carry trial UINT_MAX and the default key
   (constructor, line 534): their values depend on the order of creation. *)
Definition plain (mean : Z) : DiceModel.realized Z Z Z :=
  {| trial := UINT_MAX; sortkey := 0%Z; v := mean; rolled := false;
     rv := {| randomizable := true; scale := fun z => (mean + z)%Z; mean := mean |} |}.
Theorem C54_unset_keys_refuted :
  let next := fun g : Z => (g, (g + 1)%Z) in
  let rolled_values l := match rolldice Z Z Z Z next Z.compare 1%Z l with
                         | Ok (st, _) => map v st | _ => [] end in
  rolled_values [plain 100; plain 200] = [101; 202]%Z /\
  rolled_values [plain 200; plain 100] = [201; 102]%Z.
Proof. split; reflexivity. Qed.

Example C54_demo :
  let next := fun g : Z => (g, (g + 1)%Z) in
  let mk t k m b := {| trial := t; sortkey := k; v := m; rolled := b;
    rv := {| randomizable := true; scale := fun z => (m + z)%Z; mean := m |} |} in
  let l := [mk 2 1 100; mk 1 5 200; mk 1 2 300]%Z in
  distinct Z Z Z Z.compare (map (fun f => f false) l) /\
  match rolldice Z Z Z Z next Z.compare 1%Z (map (fun f => f false) l) with
  | Ok (st, _) => map v st = [301; 202; 103]%Z | _ => False end.
Proof.
  split; [|reflexivity]. repeat constructor; cbn; lia.
Qed.
Print Assumptions C54_dealt_by_rank_partial.
Print Assumptions C54_creation_order_partial.
Print Assumptions C54_rolled_kept.
Print Assumptions C54_unset_keys_refuted.
