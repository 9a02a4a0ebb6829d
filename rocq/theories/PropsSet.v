(* C07, C08, C09, C16: the sizing rule and the sequence set of include/set.h. *)
From Coq Require Import List ZArith Lia Bool Arith.
From Verif Require Import Base SetModel SetProofs.
Import ListNotations.
Open Scope Z_scope.

(* ------------------------------------------------------------------ C07 *)
(* The capacity for s elements: covers s, is a multiple of the (possibly grown) block,
   and the slack is below the block, which is either the configured one or below s. *)
Theorem C07_capacity : forall block s, 1 <= block < 2 ^ 29 -> 0 <= s <= 2 ^ 29 ->
  exists k b, 0 <= k /\ bufsize block s = Ok (block * 8 ^ k, b) /\
    s <= b /\ b - s < block * 8 ^ k /\ b mod (block * 8 ^ k) = 0 /\
    (k = 0 \/ block * 8 ^ k < s) /\ s <= 8 * (block * 8 ^ k) /\
    b - s < Z.max block s.
Proof.
  intros block s Hb Hs.
  destruct (bufsize_ok block s Hb Hs) as (k & blk & b & Hk & E & -> & [C1 C2] & D & G & I).
  exists k, b. repeat split; auto; try lia.
  destruct G as [G|G]; [|auto]. left.
  destruct (Z.eq_dec k 0); auto. exfalso.
  assert (8 <= 8 ^ k) by (apply (Z.pow_le_mono_r 8 1 k); lia). nia.
Qed.

Theorem C07_capacity_monotone : forall block s t blk1 b1 blk2 b2,
  1 <= block < 2 ^ 29 -> 0 <= s <= t -> t <= 2 ^ 29 ->
  bufsize block s = Ok (blk1, b1) -> bufsize block t = Ok (blk2, b2) -> b1 <= b2.
Proof. intros; eapply bufsize_monotone; eauto. Qed.

(* With the default block the sizing loop never stops for more than 2^30 elements: the
   block overflows to zero. *)
Theorem C07_huge_refuted : forall s fuel, 2 ^ 30 < s -> bufsize_fuel fuel 64 s = UB OutOfFuel.
Proof. intros s fuel Hs. unfold bufsize_fuel. rewrite grow_block_diverges by auto. reflexivity. Qed.

Example C07_demo : bufsize 64 63 = Ok (64, 64) /\ bufsize 64 600 = Ok (512, 1024) /\
  bufsize 3 1000 = Ok (192, 1152) /\ bufsize 64 0 = Ok (64, 0).
Proof. vm_compute. auto. Qed.

(* ------------------------------------------------------------------ C08 *)
Section C08.
Context {V : Type}.
Variable dflt : V.
Variable prim : bool.

(* What each call should do to a plain list, and which exception it should raise.  The
   elements supplied by a call with a null array are default ones. *)
Definition supplied (src : source V) : list V :=
  match src with Array vs => vs | Default s => repeat dflt (Z.to_nat s) end.
Definition edit (l : list V) (o : op V) : list V * option exn :=
  match o with
  | AddAt p src =>
      match supplied src with
      | [] => (l, Some InvalidArgument)
      | vs => (firstn (Z.to_nat p) l ++ vs ++ skipn (Z.to_nat p) l, None)
      end
  | AddEnd src =>
      match supplied src with
      | [] => (l, Some InvalidArgument)
      | vs => (l ++ vs, None)
      end
  | RemoveAt p s =>
      if Z.of_nat (length l) <=? p then (l, Some OutOfRange)
      else if s =? 0 then (l, Some InvalidArgument)
      else (firstn (Z.to_nat p) l ++ skipn (Z.to_nat (p + s)) l, None)
  | RemoveLast =>
      match l with [] => ([], Some OutOfRange) | _ => (removelast l, None) end
  | Empty => ([], None)
  | Resize s => (repeat dflt (Z.to_nat s), None)
  end.
(* The calls covered: positions up to the end, sizes up to 2^29, no wrap in p+s; no
   default elements when the element type is a built-in number. *)
Definition src_fine (src : source V) : Prop :=
  match src with Array _ => True | Default s => 0 <= s /\ prim = false end.
Definition covered (l : list V) (o : op V) : Prop :=
  match o with
  | AddAt p src => src_fine src /\ 0 <= p <= Z.of_nat (length l) /\
                   Z.of_nat (length l) + Z.of_nat (length (supplied src)) <= 2 ^ 29
  | AddEnd src => src_fine src /\ Z.of_nat (length l) + Z.of_nat (length (supplied src)) <= 2 ^ 29
  | RemoveAt p s => 0 <= p /\ 0 <= s /\ p + s < 2 ^ 32
  | RemoveLast | Empty => True
  | Resize s => 0 <= s <= 2 ^ 29 /\ prim = false
  end.
Fixpoint edits (l : list V) (ops : list (op V)) : list V * list (option exn) :=
  match ops with
  | [] => (l, [])
  | o :: ops => let '(l1, e) := edit l o in
                let '(l2, es) := edits l1 ops in (l2, e :: es)
  end.
Fixpoint all_covered (l : list V) (ops : list (op V)) : Prop :=
  match ops with
  | [] => True
  | o :: ops => covered l o /\ all_covered (fst (edit l o)) ops
  end.

Lemma step_edit st l o : rep st l -> covered l o ->
  match edit l o with
  | (l', None) => exists st', step dflt prim st o = Ok st' /\ rep st' l'
  | (l', Some e) => step dflt prim st o = Throw e /\ l' = l
  end.
Proof.
  intros R C. pose proof R as (Hs & Hl & Hb & Hv). unfold LIM in *.
  destruct o as [p src|src|p s| | |s]; cbn [edit step covered] in *.
  - destruct C as (Ho & Hp & Hc).
    assert (CL : Z.of_nat (length (supplied src)) = count src)
      by (apply (contents_length dflt prim); auto).
    destruct (supplied src) as [|v vs] eqn:Es.
    + unfold add. rewrite <- CL. simpl. auto.
    + rewrite <- Es. apply add_ok; auto; rewrite <- CL; simpl in *; unfold LIM; try lia.
  - destruct C as (Ho & Hc).
    assert (CL : Z.of_nat (length (supplied src)) = count src)
      by (apply (contents_length dflt prim); auto).
    destruct (supplied src) as [|v vs] eqn:Es.
    + unfold add. rewrite <- CL. simpl. auto.
    + rewrite <- Es. destruct (add_ok dflt prim st l (size st) src) as (st' & E & R'); auto;
        rewrite ?Hs, <- ?CL; simpl in *; unfold LIM; try lia.
      rewrite Hs in *. rewrite Nat2Z.id, firstn_all, skipn_all, app_nil_r in R'. eauto.
  - destruct (Z.leb_spec (Z.of_nat (length l)) p).
    { unfold remove. rewrite Hs. destruct (Z.ltb_spec p (Z.of_nat (length l))); [lia|]. auto. }
    destruct (Z.eqb_spec s 0).
    { unfold remove. rewrite Hs. destruct (Z.ltb_spec p (Z.of_nat (length l))); [|lia].
      simpl. subst s. auto. }
    apply remove_ok; auto; lia.
  - unfold remove_last. rewrite Hs. destruct l as [|v l].
    + unfold remove. rewrite Hs. simpl. auto.
    + rewrite u32_id by (simpl length in *; lia).
      destruct (remove_ok prim st (v :: l) (Z.of_nat (length (v :: l)) - 1) 1) as (st' & E & R'); auto;
        try (simpl length in *; lia).
      exists st'. split; auto. rewrite removelast_firstn_len.
      replace (Z.to_nat (Z.of_nat (length (v :: l)) - 1)) with (pred (length (v :: l))) in R'
        by (simpl length; lia).
      rewrite (skipn_all2 (v :: l)) in R' by (simpl length; lia). rewrite app_nil_r in R'. auto.
  - unfold empty. rewrite (deallocate_ok prim st l R). eexists; split; [reflexivity|].
    repeat split; cbn [size block value length]; auto; unfold LIM; simpl; try lia. exists []; auto.
  - destruct C. eapply resize_ok; eauto.
Qed.

Lemma run_edits ops : forall st l, rep st l -> all_covered l ops ->
  exists st', run dflt prim st ops = Ok (st', snd (edits l ops)) /\ rep st' (fst (edits l ops)).
Proof.
  induction ops as [|o ops IH]; intros st l R C; cbn [run edits all_covered] in *.
  - eauto.
  - destruct C as [C1 C2]. pose proof (step_edit st l o R C1) as SE.
    destruct (edit l o) as [l' [e|]]; simpl in C2.
    + destruct SE as [-> ->]. destruct (IH st l R C2) as (st' & E & R').
      rewrite E; cbn [bind]. exists st'. destruct (edits l ops). auto.
    + destruct SE as (st1 & -> & R1). destruct (IH st1 l' R1 C2) as (st' & E & R').
      rewrite E; cbn [bind]. exists st'. destruct (edits l' ops). auto.
Qed.

(* Any history of calls on a new sequence set has exactly the effect of the list edits,
   call by call including the exceptions; afterwards every element can be read, nothing
   beyond the end can, and the buffer covers the content. *)
Theorem C08_sequence_set_is_list : forall blk ops, blk < 2 ^ 29 -> all_covered [] ops ->
  let l := fst (edits [] ops) in
  exists st, run dflt prim (new blk) ops = Ok (st, snd (edits [] ops)) /\
    size st = Z.of_nat (length l) /\ size st <= buffer st /\
    (forall p, 0 <= p -> at_ st p =
       match nth_error l (Z.to_nat p) with Some v => Ok v | None => UB OutOfBounds end).
Proof.
  intros blk ops Hb C l.
  assert (R0 : rep (@new V blk) []).
  { unfold new, rep, LIM. cbn [size block value length].
    repeat split; try (destruct (Z.ltb_spec 1 blk); lia); simpl; try lia. exists []; auto. }
  destruct (run_edits ops _ _ R0 C) as (st & E & R). fold l in R.
  exists st. split; auto. pose proof R as (Hs & _ & _ & rest & Hv). split; auto. split.
  - unfold buffer. rewrite Hs, Hv, app_length, map_length. lia.
  - intros p Hp. apply at_ok; auto.
Qed.

End C08.

Example C08_demo :
  run 0 false (new 4) [AddEnd (Array [1;2;3]); AddAt 1 (Array [7;8]); RemoveAt 0 2; RemoveAt 9 1;
                       AddAt 0 (Default 2); RemoveLast; RemoveAt 1 0; RemoveAt 2 100; AddEnd (Array [])]
  = Ok (SSet 2 4 [Live 0; Live 0; Raw; Raw],
        [None; None; None; Some OutOfRange; None; None; Some InvalidArgument; None; Some InvalidArgument])
  /\ all_covered 0 false [] [AddEnd (Array [1;2;3]); AddAt 1 (Array [7;8]); RemoveAt 0 2; RemoveAt 9 1;
                       AddAt 0 (Default 2); RemoveLast; RemoveAt 1 0; RemoveAt 2 100; AddEnd (Array [])].
Proof. split; [vm_compute; reflexivity|]. vm_compute. repeat split; try discriminate; auto. Qed.

(* A count large enough to wrap p+s is not clamped: the code destroys objects beyond
   the end. *)
Theorem C08_remove_count_wrap_refuted :
  exists (st : sset Z), run 0 false (new 4) [AddEnd (Array [1;2;3])] = Ok (st, [None]) /\
    remove false st 1 UINT_MAX = UB Uninit.
Proof. eexists; split; [vm_compute; reflexivity|]. vm_compute; reflexivity. Qed.

(* ------------------------------------------------------------------ C09 *)
(* Inserting beyond the end: the last element of the gap is never constructed. *)
Theorem C09_gap_refuted :
  exists (st st' : sset Z), run 0 false (new 4) [AddEnd (Array [1])] = Ok (st, [None]) /\
    add 0 false st 3 (Array [5]) = Ok st' /\ size st' = 4 /\
    at_ st' 0 = Ok 1 /\ at_ st' 1 = Ok 0 /\ at_ st' 2 = UB Uninit /\ at_ st' 3 = Ok 5.
Proof.
  eexists _, _. split; [vm_compute; reflexivity|]. split; [vm_compute; reflexivity|].
  repeat split; vm_compute; reflexivity.
Qed.

(* What holds: everything but the last element of the gap is default constructed. *)
Theorem C09_gap_partial : forall (V : Type) (dflt : V) st l p vs,
  rep st l -> vs <> [] ->
  Z.of_nat (length l) < p -> p + Z.of_nat (length vs) <= 2 ^ 29 ->
  exists st', add dflt false st p (Array vs) = Ok st' /\ size st' = p + Z.of_nat (length vs) /\
    (forall i, 0 <= i < Z.of_nat (length l) -> at_ st' i =
       match nth_error l (Z.to_nat i) with Some v => Ok v | None => UB OutOfBounds end) /\
    (forall i, Z.of_nat (length l) <= i < p - 1 -> at_ st' i = Ok dflt) /\
    (forall i, p <= i < p + Z.of_nat (length vs) -> at_ st' i =
       match nth_error vs (Z.to_nat (i - p)) with Some v => Ok v | None => UB OutOfBounds end).
Proof.
  intros V dflt st l p vs R Hn Hp Hl.
  destruct (add_beyond dflt false st l p (Array vs) R eq_refl Logic.I) as (st' & c & rest & E & S' & B & V'); auto.
  { simpl. destruct vs; simpl; [congruence|lia]. }
  cbn [count contents] in *. exists st'. split; auto. split; auto.
  set (g := Z.to_nat (p - 1 - Z.of_nat (length l))) in *.
  assert (A : forall i, 0 <= i < p + Z.of_nat (length vs) ->
    at_ st' i = let* c := aget (value st') (Z.to_nat i) in
                match c with Live v => Ok v | Raw => UB Uninit end).
  { intros i Hi. unfold at_, zget. rewrite S'.
    destruct (Z.ltb_spec i (p + Z.of_nat (length vs))); [|lia].
    destruct (Z.ltb_spec i 0); [lia|]. reflexivity. }
  repeat split.
  - intros i Hi. rewrite A by lia. rewrite V'. unfold aget.
    rewrite nth_error_app1 by (rewrite map_length, app_length; lia).
    rewrite nth_error_map, nth_error_app1 by lia.
    destruct (nth_error l (Z.to_nat i)); reflexivity.
  - intros i Hi. rewrite A by lia. rewrite V'. unfold aget.
    rewrite nth_error_app1 by (rewrite map_length, app_length, repeat_length; unfold g; lia).
    rewrite nth_error_map, nth_error_app2 by lia.
    rewrite nth_error_repeat by (unfold g; lia). reflexivity.
  - intros i Hi. rewrite A by lia. rewrite V'. unfold aget.
    rewrite nth_error_app2 by (rewrite map_length, app_length, repeat_length; unfold g; lia).
    rewrite map_length, app_length, repeat_length.
    replace (Z.to_nat i - (length l + g))%nat with (S (Z.to_nat (i - p))) by (unfold g; lia).
    cbn [app nth_error]. rewrite nth_error_app1 by (rewrite map_length; lia).
    rewrite nth_error_map. destruct (nth_error vs (Z.to_nat (i - p))); reflexivity.
Qed.

(* ------------------------------------------------------------------ C16 *)
Theorem C16_self_assignment_refuted : forall (V : Type) (dflt : V) prim st l, rep st l ->
  exists st', assign_self dflt prim st = Ok st' /\ size st' = 0.
Proof.
  intros V dflt prim st l R. destruct (assign_self_empty dflt prim st l R) as (st' & E & S' & _).
  eauto.
Qed.
Theorem C16_assignment_copies_partial : forall (V : Type) (dflt : V) prim st l other l',
  rep st l -> rep other l' ->
  exists st', assign dflt prim st other = Ok st' /\ size st' = size other /\
    forall p, 0 <= p -> at_ st' p = at_ other p.
Proof.
  intros V dflt prim st l other l' R R'.
  destruct (assign_ok dflt prim st l other l' R R') as (st' & E & R1).
  exists st'. split; auto. split.
  - destruct R1 as [-> _], R' as [-> _]. auto.
  - intros p Hp. rewrite (at_ok st' l'), (at_ok other l'); auto.
Qed.
Example C16_demo :
  exists (st e : sset Z), run 0 false (new 4) [AddEnd (Array [1;2;3])] = Ok (st, [None]) /\
    rep st [1;2;3] /\ assign_self 0 false st = Ok e /\ size e = 0 /\
    exists c, assign 0 false (new 4) st = Ok c /\ at_ c 2 = Ok 3.
Proof.
  eexists _, _. split; [vm_compute; reflexivity|]. split.
  - unfold rep, LIM. cbn. repeat split; try lia. exists [Raw]. reflexivity.
  - split; [vm_compute; reflexivity|]. split; [reflexivity|].
    eexists. split; [vm_compute; reflexivity|]. vm_compute; reflexivity.
Qed.

Print Assumptions C07_capacity.
Print Assumptions C07_capacity_monotone.
Print Assumptions C07_huge_refuted.
Print Assumptions C08_sequence_set_is_list.
Print Assumptions C08_remove_count_wrap_refuted.
Print Assumptions C09_gap_refuted.
Print Assumptions C09_gap_partial.
Print Assumptions C16_self_assignment_refuted.
Print Assumptions C16_assignment_copies_partial.
