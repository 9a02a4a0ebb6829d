(* C55: handles of random variables and realisations. *)
From Coq Require Import ZArith List Bool Arith Lia.
From Verif Require Import Base HandleModel.
Import ListNotations.

(* ---- specification, in terms of the program's variables ---- *)
(* variable i is a random variable handle onto object p / a realisation handle onto q *)
Definition vrefers (s : st) (i p : nat) : Prop :=
  exists h, nth_error (vvars s) i = Some (Some {| vdealer := h; vptr := Some p |}).
Definition rrefers (s : st) (i q : nat) : Prop := nth_error (rvars s) i = Some (Some (Some q)).
Definition vlive (s : st) (i : nat) : Prop := exists v, nth_error (vvars s) i = Some (Some v).
Definition rlive (s : st) (i : nat) : Prop := exists v, nth_error (rvars s) i = Some (Some v).
Definition hlive (s : st) (h : nat) : Prop := exists x, nth_error (houses s) h = Some x /\ alive x = true.
Definition in_house (s : st) (h q : nat) : Prop :=
  exists x, nth_error (houses s) h = Some x /\ alive x = true /\ In q (store x).
Definition allocated {A} (l : list (option A)) (p : nat) (a : A) : Prop := nth_error l p = Some (Some a).
(* how many variables refer to an object *)
Definition count {A} (f : A -> bool) (l : list (option A)) : nat :=
  length (filter (fun x => match x with Some a => f a | None => false end) l).
Definition vpoints (p : nat) (v : vhandle) : bool :=
  match vptr v with Some q => q =? p | None => false end.
Definition rpoints (q : nat) (v : option nat) : bool :=
  match v with Some x => x =? q | None => false end.
Definition vrefs (s : st) p := count (vpoints p) (vvars s).
Definition rrefs (s : st) q := count (rpoints q) (rvars s).

(* what a program has to keep to *)
Definition legal (s : st) (o : op) : Prop :=
  match o with
  | VNew h => hlive s h
  | VCopy i => exists p, vrefers s i p
  | VMove i | VKill i => vlive s i
  | VAssign d i => vlive s d /\ exists p, vrefers s i p /\ (d = i -> exists j, j <> d /\ vrefers s j p)
  | VMoveAssign d i => vlive s d /\ vlive s i
  | Realize i => exists h p,
      nth_error (vvars s) i = Some (Some {| vdealer := h; vptr := Some p |}) /\ hlive s h
  | RNull | HNew => True
  | RCopy i | RRead i => exists q, rrefers s i q
  | RMove i => rlive s i
  | RAssign d i => rlive s d /\ (exists q, rrefers s i q) /\
      forall q, rrefers s d q -> exists h, in_house s h q
  | RMoveAssign d i => rlive s d /\ rlive s i
  | RKill d => rlive s d /\ forall q, rrefers s d q -> exists h, in_house s h q
  | Roll h => hlive s h /\ forall q o, in_house s h q -> allocated (reals s) q o -> rrolled o = false ->
      exists i, vrefers s i (rrv o)
  | HKill h => hlive s h /\ forall q, in_house s h q -> exists i, rrefers s i q
  end.

(* ---- counting ---- *)
Definition w {A} (f : A -> bool) (x : option A) : nat :=
  match x with Some a => if f a then 1 else 0 | None => 0 end.
Lemma count_cons {A} (f : A -> bool) x l : count f (x :: l) = w f x + count f l.
Proof. unfold count. cbn [filter]. destruct x as [a|]; cbn [w]; [destruct (f a)|]; reflexivity. Qed.
Lemma count_app {A} (f : A -> bool) l m : count f (l ++ m) = count f l + count f m.
Proof. unfold count. now rewrite filter_app, app_length. Qed.
Lemma count_one {A} (f : A -> bool) x : count f [x] = w f x.
Proof. rewrite count_cons. unfold count. cbn. lia. Qed.
Lemma count_upd {A} (f : A -> bool) : forall l i x y, nth_error l i = Some x ->
  count f (upd l i y) + w f x = count f l + w f y.
Proof.
  induction l as [|a l IH]; intros i x y E; [destruct i; discriminate|].
  destruct i; cbn [nth_error upd] in *.
  - inversion E; subst. rewrite !count_cons. lia.
  - rewrite !count_cons. specialize (IH i x y E). lia.
Qed.
Lemma count_pos {A} (f : A -> bool) : forall l, 0 < count f l <->
  exists i a, nth_error l i = Some (Some a) /\ f a = true.
Proof.
  induction l as [|x l IH].
  - split; [cbn; lia|]. intros (i & a & E & _). destruct i; discriminate.
  - rewrite count_cons. split.
    + intros H. destruct x as [a|]; cbn [w] in H.
      * destruct (f a) eqn:E; [exists 0, a; auto|].
        destruct IH as [IH _]. destruct (IH ltac:(lia)) as (i & b & Ei & Fb). exists (S i), b. auto.
      * destruct IH as [IH _]. destruct (IH ltac:(lia)) as (i & b & Ei & Fb). exists (S i), b. auto.
    + intros (i & a & E & F). destruct i; cbn [nth_error] in E.
      * inversion E; subst. cbn [w]. rewrite F. lia.
      * assert (0 < count f l) by (apply IH; eauto). lia.
Qed.
Lemma count_two {A} (f : A -> bool) : forall l i j a b, i <> j ->
  nth_error l i = Some (Some a) -> f a = true -> nth_error l j = Some (Some b) -> f b = true ->
  2 <= count f l.
Proof.
  intros l i j a b N Ea Fa Eb Fb.
  pose proof (count_upd f l i (Some a) None Ea) as U. cbn [w] in U. rewrite Fa in U.
  assert (0 < count f (upd l i None)); [|lia].
  apply count_pos. exists j, b. rewrite nth_error_upd_ne by auto. auto.
Qed.
Lemma vrefs_pos : forall s p, 0 < vrefs s p <-> exists i, vrefers s i p.
Proof.
  intros s p. unfold vrefs. rewrite count_pos. split.
  - intros (i & v & E & F). exists i. unfold vrefers, vpoints in *. destruct v as [h [q|]]; [|easy].
    cbn in F. apply Nat.eqb_eq in F. subst. eauto.
  - intros (i & h & E). exists i. eexists. split; [exact E|]. unfold vpoints. cbn. apply Nat.eqb_refl.
Qed.
Lemma rrefs_pos : forall s q, 0 < rrefs s q <-> exists i, rrefers s i q.
Proof.
  intros s q. unfold rrefs. rewrite count_pos. split.
  - intros (i & v & E & F). exists i. unfold rrefers, rpoints in *. destruct v as [x|]; [|easy].
    apply Nat.eqb_eq in F. now subst.
  - intros (i & E). exists i. eexists. split; [exact E|]. unfold rpoints. apply Nat.eqb_refl.
Qed.

(* ---- the invariant of all histories without undefined behaviour ---- *)
Definition b2n (b : bool) : nat := if b then 1 else 0.
Record inv (s : st) : Prop := {
  i_v : forall p c, allocated (randoms s) p c -> c = vrefs s p /\ 0 < c;
  i_vd : forall p, (forall c, ~ allocated (randoms s) p c) -> vrefs s p = 0;
  i_r : forall q, q < length (reals s) -> exists o x, allocated (reals s) q o /\
          nth_error (houses s) (rdealer o) = Some x /\
          rcnt o = rrefs s q + b2n (alive x) /\ 0 < rcnt o /\ (alive x = true -> In q (store x));
  i_rd : forall q, length (reals s) <= q -> rrefs s q = 0;
  i_h : forall h x, nth_error (houses s) h = Some x -> alive x = true ->
          NoDup (store x) /\ forall q, In q (store x) -> exists o, allocated (reals s) q o /\ rdealer o = h }.

Lemma start_inv : inv start.
Proof.
  constructor; cbn; unfold allocated; intros; try lia; auto.
  - destruct p; discriminate.
  - destruct h; discriminate.
Qed.

(* ---- inversion of the primitives ---- *)
Lemma bind_ok {A B} (m : outcome A) (k : A -> outcome B) r :
  (let* x := m in k x) = Ok r -> exists x, m = Ok x /\ k x = Ok r.
Proof. destruct m; cbn; intros; try discriminate. eauto. Qed.
Lemma live_ok {A} (l : list (option A)) i a : live l i = Ok a <-> nth_error l i = Some (Some a).
Proof.
  unfold live, aget. destruct (nth_error l i) as [[x|]|]; cbn [bind]; split; intros H; inversion H; auto.
Qed.
Lemma aset_inv {A} (l : list A) i x m : aset l i x = Ok m -> i < length l /\ m = upd l i x.
Proof.
  intros H. destruct (lt_dec i (length l)) as [L|L].
  - rewrite aset_ok in H by auto. inversion H. auto.
  - exfalso. revert H. unfold aset. destruct (i <? length l) eqn:E; [apply Nat.ltb_lt in E; lia|].
    discriminate.
Qed.
Lemma house_ok s h x : house_at s h = Ok x <-> nth_error (houses s) h = Some x /\ alive x = true.
Proof.
  unfold house_at, aget. destruct (nth_error (houses s) h) as [y|]; cbn [bind].
  - destruct (alive y) eqn:E; split; intros H.
    + inversion H; subst; auto. + destruct H as [H _]. inversion H; auto.
    + discriminate. + destruct H as [H A]. inversion H; subst. congruence.
  - split; [discriminate|]. intros [H _]. discriminate.
Qed.
Lemma nth_lt {A} (l : list A) i x : nth_error l i = Some x -> i < length l.
Proof. intros H. apply nth_error_Some. congruence. Qed.

Ltac inv_bind H :=
  let x := fresh "x" in let E := fresh "E" in
  apply bind_ok in H; destruct H as (x & E & H).

(* counts of a changed state *)
Lemma vrefs_set s l p : vrefs (set_vvars s l) p = count (vpoints p) l. Proof. reflexivity. Qed.
Lemma rrefs_set s l p : rrefs (set_rvars s l) p = count (rpoints p) l. Proof. reflexivity. Qed.

(* moving the variables only: the counts of every object stay *)
Lemma inv_vvars s l : inv s -> (forall p, count (vpoints p) l = vrefs s p) -> inv (set_vvars s l).
Proof.
  intros [A B C D E] H. constructor; auto.
  - intros p c Hp. rewrite vrefs_set, H. auto.
  - intros p Hp. rewrite vrefs_set, H. auto.
Qed.
Lemma inv_rvars s l : inv s -> (forall p, count (rpoints p) l = rrefs s p) -> inv (set_rvars s l).
Proof.
  intros [A B C D E] H. constructor; auto.
  - intros q Hq. destruct (C q Hq) as (o & x & H1 & H2 & H3 & H4 & H5). exists o, x.
    rewrite rrefs_set, H. auto.
  - intros q Hq. rewrite rrefs_set, H. auto.
Qed.

(* one object counted up or down together with the variables *)
Lemma inv_random s l m p : inv s ->
  (forall q, q <> p -> count (vpoints q) l = vrefs s q) ->
  (forall q, q <> p -> nth_error m q = nth_error (randoms s) q) ->
  (match nth_error m p with
   | Some (Some c) => c = count (vpoints p) l /\ 0 < c
   | _ => count (vpoints p) l = 0 end) ->
  inv (set_vvars (set_randoms s m) l).
Proof.
  intros [A B C D E] H1 H2 H3. constructor; auto.
  - intros q c Hq. unfold allocated in Hq. cbn [randoms set_vvars set_randoms] in Hq. rewrite vrefs_set.
    destruct (Nat.eq_dec q p) as [->|N]; [now rewrite Hq in H3|].
    rewrite H1 by auto. rewrite H2 in Hq by auto. auto.
  - intros q Hq. unfold allocated in Hq. cbn [randoms set_vvars set_randoms] in Hq. rewrite vrefs_set.
    destruct (Nat.eq_dec q p) as [->|N].
    + destruct (nth_error m p) as [[c|]|] eqn:Em; auto. exfalso. apply (Hq c). auto.
    + rewrite H1 by auto. apply B. intros c Hc. apply (Hq c). rewrite H2 by auto. auto.
Qed.
(* the same for realisations *)
Lemma inv_real s l m q o' : inv s ->
  (forall x, x <> q -> count (rpoints x) l = rrefs s x) ->
  length m = length (reals s) ->
  (forall x, x <> q -> nth_error m x = nth_error (reals s) x) ->
  q < length (reals s) -> nth_error m q = Some (Some o') ->
  (forall o, allocated (reals s) q o -> rdealer o' = rdealer o /\
     rcnt o' + rrefs s q = count (rpoints q) l + rcnt o) ->
  0 < rcnt o' ->
  inv (set_rvars (set_reals s m) l).
Proof.
  intros [A B C D E] H1 H2 H3 H4 H5 H6 H7. constructor; auto.
  - intros x Hx. cbn [reals set_rvars set_reals] in Hx. rewrite H2 in Hx.
    destruct (C x Hx) as (o & y & K1 & K2 & K3 & K4 & K5).
    destruct (Nat.eq_dec x q) as [->|N].
    + destruct (H6 o K1) as [G1 G2]. exists o', y. cbn [reals houses set_rvars set_reals].
      rewrite rrefs_set, G1. unfold allocated. repeat split; auto. lia.
    + exists o, y. cbn [reals houses set_rvars set_reals]. rewrite rrefs_set, H1 by auto.
      unfold allocated. rewrite H3 by auto. auto.
  - intros x Hx. cbn [reals set_rvars set_reals] in Hx. rewrite H2 in Hx.
    rewrite rrefs_set, H1 by lia. auto.
  - intros h x Hh Ha. cbn [reals houses set_rvars set_reals] in *. destruct (E h x Hh Ha) as [F G].
    split; [auto|]. intros y Hy. destruct (G y Hy) as (o & K1 & K2).
    destruct (Nat.eq_dec y q) as [->|N].
    + exists o'. destruct (H6 o K1) as [G1 _]. unfold allocated. split; [auto|congruence].
    + exists o. unfold allocated. rewrite H3 by auto. auto.
Qed.

Lemma vpoints_ne p q h : q <> p -> w (vpoints q) (Some {| vdealer := h; vptr := Some p |}) = 0.
Proof. intros N. cbn. destruct (Nat.eqb_spec p q); [congruence|auto]. Qed.
Lemma vpoints_eq p h : w (vpoints p) (Some {| vdealer := h; vptr := Some p |}) = 1.
Proof. cbn. now rewrite Nat.eqb_refl. Qed.
Lemma vpoints_null p h : w (vpoints p) (Some {| vdealer := h; vptr := None |}) = 0.
Proof. reflexivity. Qed.
Lemma vpoints_dealer p h h' q : w (vpoints p) (Some {| vdealer := h; vptr := q |})
  = w (vpoints p) (Some {| vdealer := h'; vptr := q |}).
Proof. reflexivity. Qed.
Lemma rpoints_ne p q : q <> p -> w (rpoints q) (Some (Some p)) = 0.
Proof. intros N. cbn. destruct (Nat.eqb_spec p q); [congruence|auto]. Qed.
Lemma rpoints_eq p : w (rpoints p) (Some (Some p)) = 1.
Proof. cbn. now rewrite Nat.eqb_refl. Qed.

(* dropping one variable's random *)
Lemma drop_random s d v s' y : inv s -> nth_error (vvars s) d = Some (Some v) ->
  dec_random s (vptr v) = Ok s' -> (forall p, w (vpoints p) y = 0) ->
  inv (set_vvars s' (upd (vvars s) d y)) /\ vvars s' = vvars s.
Proof.
  intros I E H Y. destruct v as [h [p|]]; cbn [vptr dec_random] in H.
  - inv_bind H. inv_bind H. apply live_ok in E0. apply aset_inv in E1 as [L ->]. inversion H; subst. clear H.
    split; [|reflexivity].
    destruct (i_v s I p x E0) as [C1 C2].
    apply (inv_random s _ _ p); auto.
    + intros q N. pose proof (count_upd (vpoints q) _ _ _ y E) as U.
      rewrite (vpoints_ne p q h N), Y in U. unfold vrefs. lia.
    + intros q N. now rewrite nth_error_upd_ne by auto.
    + rewrite nth_error_upd_eq by auto.
      pose proof (count_upd (vpoints p) _ _ _ y E) as U. rewrite vpoints_eq, Y in U.
      unfold vrefs in C1. destruct (Nat.eqb_spec x 1); [lia|]. lia.
  - inversion H; subst. split; [|reflexivity]. apply inv_vvars; auto. intros p.
    pose proof (count_upd (vpoints p) _ _ _ y E) as U. rewrite vpoints_null, Y in U. unfold vrefs. lia.
Qed.
Lemma take_random s s' d h p y : inv s -> nth_error (vvars s) d = Some y -> (forall p, w (vpoints p) y = 0) ->
  inc_random (set_vvars s (upd (vvars s) d (Some {| vdealer := h; vptr := Some p |}))) (Some p) = Ok s' ->
  inv s'.
Proof.
  intros I E Y H. unfold inc_random in H. cbn [deref bind randoms set_vvars] in H.
  inv_bind H. inv_bind H. apply live_ok in E0. apply aset_inv in E1 as [L ->].
  inversion H; subst. clear H. destruct (i_v s I p x E0) as [C1 C2].
  change (inv (set_vvars (set_randoms s (upd (randoms s) p (Some (S x))))
    (upd (vvars s) d (Some {| vdealer := h; vptr := Some p |})))).
  apply (inv_random s _ _ p); auto.
  - intros q N. pose proof (count_upd (vpoints q) _ _ _ (Some {| vdealer := h; vptr := Some p |}) E) as U.
    rewrite (vpoints_ne p q h N), Y in U. unfold vrefs. lia.
  - intros q N. now rewrite nth_error_upd_ne by auto.
  - rewrite nth_error_upd_eq by auto.
    pose proof (count_upd (vpoints p) _ _ _ (Some {| vdealer := h; vptr := Some p |}) E) as U.
    rewrite vpoints_eq, Y in U. unfold vrefs in C1. lia.
Qed.
Lemma drop_real s d v s' y : inv s -> nth_error (rvars s) d = Some (Some v) ->
  dec_real s v = Ok s' -> (forall p, w (rpoints p) y = 0) ->
  inv (set_rvars s' (upd (rvars s) d y)) /\ rvars s' = rvars s.
Proof.
  intros I E H Y. destruct v as [q|]; cbn [dec_real] in H.
  - inv_bind H. apply live_ok in E0. pose proof (nth_lt _ _ _ E0) as L.
    destruct (i_r s I q L) as (o & z & K1 & K2 & K3 & K4 & K5). unfold allocated in K1.
    rewrite E0 in K1. inversion K1; subst. clear K1.
    assert (R : 0 < rrefs s q) by (apply rrefs_pos; exists d; exact E).
    destruct (Nat.eqb_spec (rcnt o) 1) as [One|N1].
    + exfalso. unfold delete_real in H. inv_bind H. apply house_ok in E1 as [K6 K7].
      rewrite K2 in K6. inversion K6; subst. rewrite K7 in K3. cbn in K3. lia.
    + inv_bind H. apply aset_inv in E1 as [L' ->]. inversion H; subst. clear H.
      split; [|reflexivity].
      apply (inv_real s _ _ q (with_cnt o (rcnt o - 1))); auto.
      * intros x N. pose proof (count_upd (rpoints x) _ _ _ y E) as U.
        rewrite (rpoints_ne q x N), Y in U. unfold rrefs. lia.
      * now rewrite length_upd.
      * intros x N. now rewrite nth_error_upd_ne by auto.
      * now rewrite nth_error_upd_eq by auto.
      * intros o2 K1. unfold allocated in K1. rewrite E0 in K1. inversion K1; subst. split; [reflexivity|].
        pose proof (count_upd (rpoints q) _ _ _ y E) as U. rewrite rpoints_eq, Y in U.
        cbn [rcnt with_cnt]. unfold rrefs in *. lia.
      * cbn [rcnt with_cnt]. lia.
  - inversion H; subst. split; [|reflexivity]. apply inv_rvars; auto. intros p.
    pose proof (count_upd (rpoints p) _ _ _ y E) as U. cbn [w rpoints] in U. rewrite Y in U. unfold rrefs. lia.
Qed.
Lemma take_real s s' d p y : inv s -> nth_error (rvars s) d = Some y -> (forall p, w (rpoints p) y = 0) ->
  inc_real (set_rvars s (upd (rvars s) d (Some (Some p)))) (Some p) = Ok s' -> inv s'.
Proof.
  intros I E Y H. unfold inc_real in H. cbn [deref bind reals set_rvars] in H.
  inv_bind H. inv_bind H. apply live_ok in E0. apply aset_inv in E1 as [L ->].
  inversion H; subst. clear H.
  change (inv (set_rvars (set_reals s (upd (reals s) p (Some (with_cnt x (S (rcnt x))))))
    (upd (rvars s) d (Some (Some p))))).
  apply (inv_real s _ _ p (with_cnt x (S (rcnt x)))); auto.
  - intros q N. pose proof (count_upd (rpoints q) _ _ _ (Some (Some p)) E) as U.
    rewrite (rpoints_ne p q N), Y in U. unfold rrefs. lia.
  - now rewrite length_upd.
  - intros q N. now rewrite nth_error_upd_ne by auto.
  - now rewrite nth_error_upd_eq by auto.
  - intros o K1. unfold allocated in K1. rewrite E0 in K1. inversion K1; subst. split; [reflexivity|].
    pose proof (count_upd (rpoints p) _ _ _ (Some (Some p)) E) as U. rewrite rpoints_eq, Y in U.
    cbn [rcnt with_cnt]. unfold rrefs. lia.
  - cbn [rcnt with_cnt]. lia.
Qed.

(* ---- a dying house ---- *)
Lemma set_houses_rrefs s l q : rrefs (set_houses s l) q = rrefs s q. Proof. reflexivity. Qed.
Lemma release_ok : forall l s s' h, NoDup l ->
  (forall q, In q l -> exists o, allocated (reals s) q o /\ rdealer o = h /\ 0 < rcnt o) ->
  (forall x, nth_error (houses s) h = Some x -> alive x = false) ->
  release s l = Ok s' ->
  (exists m, s' = set_reals s m) /\ length (reals s') = length (reals s) /\
  (forall q o, ~ In q l -> nth_error (reals s) q = o -> nth_error (reals s') q = o) /\
  (forall q o, In q l -> allocated (reals s) q o ->
     exists o', allocated (reals s') q o' /\ rdealer o' = h /\ S (rcnt o') = rcnt o /\ 0 < rcnt o').
Proof.
  induction l as [|p l IH]; intros s s' h ND A D H.
  - cbn in H. inversion H; subst. split; [exists (reals s'); now destruct s'|]. repeat split; auto; easy.
  - cbn [release] in H. inv_bind H. rename x into s1. rename E into E1.
    inversion ND as [|? ? NI ND']; subst.
    destruct (A p (or_introl eq_refl)) as (o & K1 & K2 & K3).
    cbn [dec_real] in E1. inv_bind E1. apply live_ok in E. unfold allocated in K1. rewrite E in K1.
    inversion K1; subst. clear K1.
    destruct (Nat.eqb_spec (rcnt o) 1) as [One|N1].
    { exfalso. unfold delete_real in E1. inv_bind E1. apply house_ok in E0 as [K6 K7].
      apply D in K6. congruence. }
    inv_bind E1. apply aset_inv in E0 as [L ->]. inversion E1; subst. clear E1.
    set (s1 := set_reals s (upd (reals s) p (Some (with_cnt o (rcnt o - 1))))) in *.
    destruct (IH s1 s' (rdealer o) ND') as ((m & M) & LL & Keep & Dec); auto.
    + intros q Hq. destruct (A q (or_intror Hq)) as (o2 & F1 & F2 & F3). exists o2. split; [|auto].
      unfold allocated. unfold s1; cbn [reals set_reals]. rewrite nth_error_upd_ne; [auto|]. intros ->. auto.
    + unfold s1 in LL; cbn [reals set_reals] in LL. rewrite length_upd in LL. split; [|split; [auto|split]].
      * exists m. rewrite M. reflexivity.
      * intros q o2 Hq E2. apply Keep; [intros F; apply Hq; now right|].
        unfold s1; cbn [reals set_reals]. rewrite nth_error_upd_ne; [auto|]. intros ->. apply Hq. now left.
      * intros q o2 [->|Hq] E2.
        -- unfold allocated in E2. rewrite E in E2. inversion E2; subst.
           exists (with_cnt o2 (rcnt o2 - 1)). split.
           ++ unfold allocated. apply Keep; auto. unfold s1; cbn [reals set_reals]. now rewrite nth_error_upd_eq.
           ++ cbn [rdealer rcnt with_cnt]. split; [auto|]. lia.
        -- apply Dec; auto. unfold allocated. unfold s1; cbn [reals set_reals]. rewrite nth_error_upd_ne; [auto|].
           intros ->. auto.
Qed.
(* rolling touches only the flags *)
Lemma roll_ok : forall l s s', inv s -> roll s l = Ok s' -> inv s'.
Proof.
  induction l as [|p l IH]; intros s s' I H; cbn [roll] in H; [inversion H; now subst|].
  inv_bind H. inv_bind H. apply live_ok in E. apply (IH x0); auto.
  destruct (rrolled x); [inversion E0; now subst|].
  inv_bind E0. inv_bind E0. apply aset_inv in E2 as [L ->]. inversion E0; subst. clear E0.
  replace (set_reals s (upd (reals s) p (Some (with_rolled x))))
    with (set_rvars (set_reals s (upd (reals s) p (Some (with_rolled x)))) (rvars s)) by reflexivity.
  apply (inv_real s _ _ p (with_rolled x)); auto.
  - now rewrite length_upd.
  - intros y N. now rewrite nth_error_upd_ne by auto.
  - now rewrite nth_error_upd_eq by auto.
  - intros o K. unfold allocated in K. rewrite E in K. inversion K; subst. split; [reflexivity|].
    cbn [rcnt with_rolled]. unfold rrefs. lia.
  - destruct (i_r s I p L) as (o & z & K1 & K2 & K3 & K4 & K5). unfold allocated in K1.
    rewrite E in K1. inversion K1; subst. auto.
Qed.

Lemma count_swap {A} (f : A -> bool) l d i x y : nth_error l d = Some x -> nth_error l i = Some y ->
  count f (upd (upd l d y) i x) = count f l.
Proof.
  intros Ed Ei. pose proof (count_upd f l d x y Ed) as U.
  assert (F : nth_error (upd l d y) i = Some y).
  { destruct (Nat.eq_dec d i) as [->|N]; [apply nth_error_upd_eq; eapply nth_lt; eauto|].
    now rewrite nth_error_upd_ne by auto. }
  pose proof (count_upd f (upd l d y) i y x F). lia.
Qed.
Lemma upd_upd {A} : forall (l : list A) i x y, upd (upd l i x) i y = upd l i y.
Proof. induction l; destruct i; cbn; intros; auto. now rewrite IHl. Qed.

Lemma step_inv : forall s o s', inv s -> step s o = Ok s' -> inv s'.
Proof.
  intros s o s' I H. destruct o; cbn [step] in H.
  - (* VNew *) inv_bind H. inversion H; subst. clear H E x.
    assert (Z : vrefs s (length (randoms s)) = 0).
    { apply (i_vd s I). intros c K. apply nth_lt in K. lia. }
    apply (inv_random s _ _ (length (randoms s))); auto.
    + intros q N. rewrite count_app, count_one, vpoints_ne by auto. unfold vrefs. lia.
    + intros q N. destruct (lt_dec q (length (randoms s))).
      * now rewrite nth_error_app1 by auto.
      * replace (nth_error (randoms s) q) with (@None (option nat))
          by (symmetry; apply nth_error_None; lia).
        apply nth_error_None. rewrite app_length. cbn. lia.
    + rewrite nth_error_app2, Nat.sub_diag by lia. cbn [nth_error].
      rewrite count_app, count_one, vpoints_eq. unfold vrefs in Z. lia.
  - (* VCopy *) inv_bind H. apply live_ok in E. inv_bind H. inversion H; subst. clear H.
    destruct x as [h [p|]]; cbn [vptr] in E0; unfold inc_random in E0; cbn [deref bind] in E0; [|discriminate].
    inv_bind E0. inv_bind E0. apply live_ok in E1. apply aset_inv in E2 as [L ->]. inversion E0; subst. clear E0.
    cbn [vvars set_randoms]. destruct (i_v s I p x E1) as [C1 C2].
    apply (inv_random s _ _ p); auto.
    + intros q N. rewrite count_app, count_one, vpoints_ne by auto. unfold vrefs. lia.
    + intros q N. now rewrite nth_error_upd_ne by auto.
    + rewrite nth_error_upd_eq by auto. rewrite count_app, count_one, vpoints_eq.
      unfold vrefs in C1. lia.
  - (* VMove *) inv_bind H. apply live_ok in E. inv_bind H. apply aset_inv in E0 as [L ->].
    inversion H; subst. clear H. apply inv_vvars; auto. intros p. rewrite count_app, count_one.
    pose proof (count_upd (vpoints p) _ _ _ (Some {| vdealer := vdealer x; vptr := None |}) E) as U.
    rewrite vpoints_null in U. unfold vrefs. lia.
  - (* VAssign *) inv_bind H. apply live_ok in E. inv_bind H. apply live_ok in E0. inv_bind H. inv_bind H.
    apply aset_inv in E2 as [L ->]. rename x1 into s1.
    destruct (drop_random s d x s1 (Some {| vdealer := vdealer x; vptr := None |}) I E E1) as [I1 V1];
      [intros; apply vpoints_null|].
    destruct x0 as [h0 [p|]]; [|unfold inc_random in H; cbn [vptr deref bind] in H; discriminate].
    cbn [vptr] in H. rewrite V1 in L, H.
    apply (take_random _ s' d (vdealer x) p (Some {| vdealer := vdealer x; vptr := None |}) I1);
      [cbn [vvars set_vvars]; now apply nth_error_upd_eq|intros; apply vpoints_null|].
    cbn [vvars set_vvars]. rewrite upd_upd. exact H.
  - (* VMoveAssign *) inv_bind H. apply live_ok in E. inv_bind H. apply live_ok in E0.
    inv_bind H. apply aset_inv in E1 as [L ->]. inv_bind H. apply aset_inv in E1 as [L' ->].
    inversion H; subst. clear H. apply inv_vvars; auto. intros p. unfold vrefs. now apply count_swap.
  - (* VKill *) inv_bind H. apply live_ok in E. inv_bind H. inv_bind H. apply aset_inv in E1 as [L ->].
    inversion H; subst. clear H.
    destruct (drop_random s d x x0 None I E E0) as [I1 V1]; [reflexivity|]. now rewrite V1.
  - (* Realize *) inv_bind H. apply live_ok in E. inv_bind H. inv_bind H. inv_bind H. inv_bind H.
    apply house_ok in E2 as [Hh Ha]. apply aset_inv in E3 as [L ->]. inversion H; subst. clear H.
    rename x2 into hx. set (hh := vdealer x) in *. set (q := length (reals s)).
    set (o := {| rcnt := 2; rdealer := hh; rrv := x0; rrolled := false |}).
    destruct I as [A B C D F].
    assert (Old : forall z, z <> q -> count (rpoints z) (rvars s ++ [Some (Some q)]) = rrefs s z).
    { intros z N. rewrite count_app, count_one, rpoints_ne by auto. unfold rrefs. lia. }
    constructor; cbn [randoms reals houses vvars rvars set_rvars set_houses set_reals]; auto.
    + intros z Hz. rewrite app_length in Hz. cbn [length] in Hz.
      destruct (Nat.eq_dec z q) as [->|N].
      * exists o, {| alive := true; store := store hx ++ [q] |}. unfold allocated.
        rewrite nth_error_app2, Nat.sub_diag by (unfold q; lia). split; [reflexivity|].
        cbn [rdealer o]. rewrite nth_error_upd_eq by auto. split; [reflexivity|].
        unfold rrefs. cbn [rvars set_rvars]. rewrite count_app, count_one, rpoints_eq.
        assert (R0 : count (rpoints q) (rvars s) = 0) by (apply D; unfold q; lia).
        cbn. split; [lia|]. split; [lia|]. intros _. apply in_or_app. right. now left.
      * destruct (C z ltac:(unfold q in N; lia)) as (oz & xz & K1 & K2 & K3 & K4 & K5).
        exists oz. unfold rrefs in *. cbn [rvars set_rvars].
        assert (K1' : allocated (reals s ++ [Some o]) z oz).
        { unfold allocated. rewrite nth_error_app1; auto. unfold q in N; lia. }
        destruct (Nat.eq_dec hh (rdealer oz)) as [Eh|Nh].
        -- exists {| alive := true; store := store hx ++ [q] |}. rewrite <- Eh in *.
           rewrite nth_error_upd_eq by auto. rewrite Hh in K2. inversion K2; subst. rewrite Ha in *.
           split; [auto|]. split; [auto|]. rewrite Old by auto. cbn [alive b2n] in *. split; [auto|].
           split; [auto|]. intros _. apply in_or_app. left. auto.
        -- exists xz. rewrite nth_error_upd_ne by auto. rewrite Old by auto. auto.
    + intros z Hz. rewrite app_length in Hz. cbn [length] in Hz. unfold rrefs. cbn [rvars set_rvars].
      rewrite Old by (unfold q; lia). apply D. lia.
    + intros h xh Hx Hax. destruct (Nat.eq_dec hh h) as [Eh|Nh].
      * rewrite <- Eh in *. rewrite nth_error_upd_eq in Hx by auto. inversion Hx; subst xh. cbn [store].
        destruct (F _ _ Hh Ha) as [ND Mem]. split.
        -- apply NoDup_Add with (a := q) (l := store hx); [|split; auto].
           ++ replace (store hx) with (store hx ++ []) at 1 by apply app_nil_r. apply Add_app.
           ++ intros Hq. destruct (Mem q Hq) as (oq & K & _). apply nth_lt in K. unfold q in K. lia.
        -- intros z Hz. apply in_app_or in Hz. destruct Hz as [Hz|[<-|[]]].
           ++ destruct (Mem z Hz) as (oz & K & Kd). exists oz. split; [|auto]. unfold allocated.
              rewrite nth_error_app1; auto. eapply nth_lt; eauto.
           ++ exists o. split; [|reflexivity]. unfold allocated.
              now rewrite nth_error_app2, Nat.sub_diag by (unfold q; lia).
      * rewrite nth_error_upd_ne in Hx by auto. destruct (F _ _ Hx Hax) as [ND Mem]. split; [auto|].
        intros z Hz. destruct (Mem z Hz) as (oz & K & Kd). exists oz. split; [|auto]. unfold allocated.
        rewrite nth_error_app1; auto. eapply nth_lt; eauto.
  - (* RNull *) inversion H; subst. apply inv_rvars; auto. intros p. rewrite count_app, count_one.
    cbn. unfold rrefs. lia.
  - (* RCopy *) inv_bind H. apply live_ok in E. inv_bind H. inversion H; subst. clear H.
    destruct x as [p|]; unfold inc_real in E0; cbn [deref bind] in E0; [|discriminate].
    inv_bind E0. inv_bind E0. apply live_ok in E1. apply aset_inv in E2 as [L ->]. inversion E0; subst. clear E0.
    cbn [rvars set_reals].
    apply (inv_real s _ _ p (with_cnt x (S (rcnt x)))); auto.
    + intros q N. rewrite count_app, count_one, rpoints_ne by auto. unfold rrefs. lia.
    + now rewrite length_upd.
    + intros q N. now rewrite nth_error_upd_ne by auto.
    + now rewrite nth_error_upd_eq by auto.
    + intros o K. unfold allocated in K. rewrite E1 in K. inversion K; subst. split; [reflexivity|].
      rewrite count_app, count_one, rpoints_eq. cbn [rcnt with_cnt]. unfold rrefs. lia.
    + cbn. lia.
  - (* RMove *) inv_bind H. apply live_ok in E. inv_bind H. apply aset_inv in E0 as [L ->].
    inversion H; subst. clear H. apply inv_rvars; auto. intros p. rewrite count_app, count_one.
    pose proof (count_upd (rpoints p) _ _ _ (Some None) E) as U. cbn [w rpoints] in U |- *.
    unfold rrefs. lia.
  - (* RAssign *) inv_bind H. apply live_ok in E. inv_bind H. apply live_ok in E0. inv_bind H. inv_bind H.
    apply aset_inv in E2 as [L ->]. rename x1 into s1.
    destruct (drop_real s d x s1 (Some None) I E E1) as [I1 V1]; [reflexivity|].
    destruct x0 as [p|]; [|unfold inc_real in H; cbn [deref bind] in H; discriminate].
    rewrite V1 in L, H.
    apply (take_real _ s' d p (Some None) I1);
      [cbn [rvars set_rvars]; now apply nth_error_upd_eq|reflexivity|].
    cbn [rvars set_rvars]. rewrite upd_upd. exact H.
  - (* RMoveAssign *) inv_bind H. apply live_ok in E. inv_bind H. apply live_ok in E0.
    inv_bind H. apply aset_inv in E1 as [L ->]. inv_bind H. apply aset_inv in E1 as [L' ->].
    inversion H; subst. clear H. apply inv_rvars; auto. intros p. unfold rrefs. now apply count_swap.
  - (* RKill *) inv_bind H. apply live_ok in E. inv_bind H. inv_bind H. apply aset_inv in E1 as [L ->].
    inversion H; subst. clear H.
    destruct (drop_real s d x x0 None I E E0) as [I1 V1]; [reflexivity|]. now rewrite V1.
  - (* RRead *) inv_bind H. inv_bind H. inv_bind H. inversion H; now subst.
  - (* Roll *) inv_bind H. eapply roll_ok; eauto.
  - (* HNew *) inversion H; subst. clear H. destruct I as [A B C D F].
    constructor; cbn [randoms reals houses vvars rvars set_houses]; auto.
    + intros q Hq. destruct (C q Hq) as (o & x & K1 & K2 & K3). exists o, x. split; [auto|].
      split; [|auto]. rewrite nth_error_app1; auto. eapply nth_lt; eauto.
    + intros h x Hh Ha. destruct (lt_dec h (length (houses s))) as [L|L].
      * rewrite nth_error_app1 in Hh by auto. apply (F h x Hh Ha).
      * assert (h = length (houses s)) as ->.
        { apply nth_lt in Hh. rewrite app_length in Hh. cbn in Hh. lia. }
        rewrite nth_error_app2, Nat.sub_diag in Hh by lia. inversion Hh; subst. cbn. split; [constructor|easy].
  - (* HKill *) inv_bind H. apply house_ok in E as [Hh Ha]. inv_bind H. apply aset_inv in E as [L ->].
    destruct I as [A B C D F]. destruct (F h x Hh Ha) as [ND Mem].
    assert (Pos : forall q, In q (store x) -> exists o, allocated (reals s) q o /\ rdealer o = h /\ 0 < rcnt o).
    { intros q Hq. destruct (Mem q Hq) as (o & K1 & K2). exists o. split; [auto|]. split; [auto|].
      destruct (C q (nth_lt _ _ _ K1)) as (o2 & z & J1 & _ & _ & J4 & _). unfold allocated in *. congruence. }
    destruct (release_ok (store x) (set_houses s (upd (houses s) h {| alive := false; store := store x |}))
      s' h ND Pos) as ((m & M) & LL & Keep & Dec).
    { intros z Hz. cbn [houses set_houses] in Hz. rewrite nth_error_upd_eq in Hz by auto. inversion Hz. reflexivity. }
    { exact H. }
    subst s'. cbn [reals set_reals set_houses] in *.
    assert (Ref : forall q, rrefs (set_reals (set_houses s (upd (houses s) h {| alive := false; store := store x |})) m) q = rrefs s q)
      by reflexivity.
    constructor; cbn [randoms reals houses vvars rvars set_houses set_reals]; auto.
    + intros q Hq. rewrite LL in Hq. destruct (C q Hq) as (o & z & K1 & K2 & K3 & K4 & K5). rewrite Ref.
      destruct (in_dec Nat.eq_dec q (store x)) as [Iq|Nq].
      * destruct (Dec q o Iq K1) as (o' & J1 & J2 & J3 & J4).
        exists o', {| alive := false; store := store x |}. split; [exact J1|]. rewrite J2.
        rewrite nth_error_upd_eq by auto. split; [reflexivity|]. cbn [alive b2n].
        destruct (Mem q Iq) as (o2 & G1 & G2). unfold allocated in *. assert (o2 = o) by congruence. subst o2.
        rewrite G2, Hh in K2. inversion K2; subst. rewrite Ha in K3. cbn [b2n] in K3.
        split; [lia|]. split; [auto|]. discriminate.
      * exists o, z. split; [apply (Keep q _ Nq); auto|].
        assert (Nh : h <> rdealer o).
        { intros ->. rewrite Hh in K2. inversion K2; subst. auto. }
        rewrite nth_error_upd_ne by auto. auto.
    + intros q Hq. rewrite LL in Hq. rewrite Ref. auto.
    + intros h2 z Hz Haz. destruct (Nat.eq_dec h h2) as [<-|N].
      { rewrite nth_error_upd_eq in Hz by auto. inversion Hz; subst. discriminate. }
      rewrite nth_error_upd_ne in Hz by auto. destruct (F h2 z Hz Haz) as [ND2 Mem2]. split; [auto|].
      intros q Hq. destruct (Mem2 q Hq) as (o & K1 & K2). exists o. split; [|auto].
      apply (Keep q _); auto. intros Hq'. destruct (Mem q Hq') as (o2 & G1 & G2).
      unfold allocated in *. congruence.
Qed.
Lemma run_inv : forall ops s s', inv s -> run s ops = Ok s' -> inv s'.
Proof.
  induction ops as [|o ops IH]; intros s s' I H; cbn [run] in H; [inversion H; now subst|].
  inv_bind H. apply (IH x s'); auto. eapply step_inv; eauto.
Qed.

(* ---- legal steps succeed ---- *)
Lemma random_live s i p : inv s -> vrefers s i p -> exists c, nth_error (randoms s) p = Some (Some c).
Proof.
  intros I R. destruct (nth_error (randoms s) p) as [[c|]|] eqn:E; [eauto| |];
    exfalso; assert (P : 0 < vrefs s p) by (apply vrefs_pos; eauto);
    rewrite (i_vd s I p) in P; try lia; intros c K; unfold allocated in K; congruence.
Qed.
Lemma real_live s i q : inv s -> rrefers s i q -> exists o, nth_error (reals s) q = Some (Some o).
Proof.
  intros I R. assert (P : 0 < rrefs s q) by (apply rrefs_pos; eauto).
  destruct (lt_dec q (length (reals s))) as [L|L].
  - destruct (i_r s I q L) as (o & x & K & _). eauto.
  - rewrite (i_rd s I q) in P by lia. lia.
Qed.
Lemma live_some {A} (l : list (option A)) i a : nth_error l i = Some (Some a) -> live l i = Ok a.
Proof. apply live_ok. Qed.
Lemma dec_random_ok s v : (forall p, vptr v = Some p -> exists c, nth_error (randoms s) p = Some (Some c)) ->
  exists s', dec_random s (vptr v) = Ok s' /\ vvars s' = vvars s.
Proof.
  intros H. unfold dec_random. destruct (vptr v) as [p|]; [|eauto].
  destruct (H p eq_refl) as (c & E). rewrite (live_some _ _ _ E). cbn [bind].
  rewrite aset_ok by (eapply nth_lt; eauto). cbn [bind]. eexists. split; reflexivity.
Qed.
Lemma dec_real_ok s d v : inv s -> nth_error (rvars s) d = Some (Some v) ->
  (forall q, v = Some q -> exists h, in_house s h q) ->
  exists s', dec_real s v = Ok s' /\ rvars s' = rvars s /\ length (reals s') = length (reals s) /\
    (forall q o, nth_error (reals s) q = Some (Some o) -> exists o', nth_error (reals s') q = Some (Some o')).
Proof.
  intros I E H. unfold dec_real. destruct v as [q|]; [|exists s; eauto].
  destruct (real_live s d q I E) as (o & K). rewrite (live_some _ _ _ K). cbn [bind].
  assert (P : 0 < rrefs s q) by (apply rrefs_pos; exists d; exact E).
  destruct (i_r s I q (nth_lt _ _ _ K)) as (o2 & x & K1 & K2 & K3 & K4 & K5).
  unfold allocated in K1. assert (o2 = o) by congruence. subst o2.
  destruct (H q eq_refl) as (h & y & Y1 & Y2 & Y3).
  destruct (i_h s I h y Y1 Y2) as [_ Mem]. destruct (Mem q Y3) as (o2 & J1 & J2).
  unfold allocated in J1. assert (o2 = o) by congruence. subst o2.
  rewrite J2, Y1 in K2. inversion K2; subst. rewrite Y2 in K3. cbn [b2n] in K3.
  destruct (Nat.eqb_spec (rcnt o) 1); [lia|].
  rewrite aset_ok by (eapply nth_lt; eauto). cbn [bind]. eexists. split; [reflexivity|].
  cbn [rvars reals set_reals]. split; [auto|]. rewrite length_upd. split; [auto|].
  intros z oz Ez. destruct (Nat.eq_dec q z) as [->|N].
  - rewrite nth_error_upd_eq by (eapply nth_lt; eauto). eauto.
  - rewrite nth_error_upd_ne by auto. eauto.
Qed.
Lemma roll_progress : forall l s h, inv s -> hlive s h ->
  (forall q, In q l -> in_house s h q) ->
  (forall q o, in_house s h q -> allocated (reals s) q o -> rrolled o = false -> exists i, vrefers s i (rrv o)) ->
  exists s', roll s l = Ok s'.
Proof.
  induction l as [|p l IH]; intros s h I Hh Hin Hv; cbn [roll]; [eauto|].
  destruct (Hin p (or_introl eq_refl)) as (x & X1 & X2 & X3).
  destruct (i_h s I h x X1 X2) as [_ Mem]. destruct (Mem p X3) as (o & K1 & K2).
  unfold allocated in K1. rewrite (live_some _ _ _ K1). cbn [bind].
  destruct (rrolled o) eqn:Ro.
  - cbn [bind]. apply (IH s h); auto. intros; apply Hin; now right.
  - destruct (Hv p o (Hin p (or_introl eq_refl)) K1 Ro) as (i & Vi).
    destruct (random_live s i _ I Vi) as (c & Ec). rewrite (live_some _ _ _ Ec). cbn [bind].
    pose proof (nth_lt _ _ _ K1) as L. rewrite aset_ok by auto. cbn [bind].
    apply (IH _ h).
    + apply (roll_ok [p] s); auto. cbn [roll]. rewrite (live_some _ _ _ K1). cbn [bind]. rewrite Ro.
      rewrite (live_some _ _ _ Ec). cbn [bind]. now rewrite aset_ok by auto.
    + exact Hh.
    + intros q Hq. apply (Hin q (or_intror Hq)).
    + intros q o2 Hq Ho Hr. unfold allocated in Ho. cbn [reals set_reals] in Ho.
      destruct (Nat.eq_dec p q) as [->|N].
      * rewrite nth_error_upd_eq in Ho by auto. inversion Ho; subst. discriminate.
      * rewrite nth_error_upd_ne in Ho by auto. apply (Hv q o2); auto.
Qed.
Lemma release_progress : forall l s h, NoDup l ->
  (forall q, In q l -> exists o, allocated (reals s) q o /\ rdealer o = h /\ 2 <= rcnt o) ->
  exists s', release s l = Ok s'.
Proof.
  induction l as [|p l IH]; intros s h ND A; cbn [release]; [eauto|].
  inversion ND as [|? ? NI ND']; subst.
  destruct (A p (or_introl eq_refl)) as (o & K1 & K2 & K3). unfold allocated in K1.
  cbn [dec_real]. rewrite (live_some _ _ _ K1). cbn [bind].
  destruct (Nat.eqb_spec (rcnt o) 1); [lia|]. rewrite aset_ok by (eapply nth_lt; eauto). cbn [bind].
  apply (IH _ h ND'). intros q Hq. destruct (A q (or_intror Hq)) as (o2 & J).
  exists o2. unfold allocated. cbn [reals set_reals]. rewrite nth_error_upd_ne; [exact J|]. intros ->. auto.
Qed.
Lemma inc_random_live s p c : nth_error (randoms s) p = Some (Some c) -> exists s', inc_random s (Some p) = Ok s'.
Proof.
  intros E. unfold inc_random. cbn [deref bind]. rewrite (live_some _ _ _ E). cbn [bind].
  rewrite aset_ok by (eapply nth_lt; eauto). cbn [bind]. eauto.
Qed.
Lemma inc_real_live s p o : nth_error (reals s) p = Some (Some o) -> exists s', inc_real s (Some p) = Ok s'.
Proof.
  intros E. unfold inc_real. cbn [deref bind]. rewrite (live_some _ _ _ E). cbn [bind].
  rewrite aset_ok by (eapply nth_lt; eauto). cbn [bind]. eauto.
Qed.
Ltac go E := rewrite (live_some _ _ _ E); cbn [bind].
Lemma legal_step : forall s o, inv s -> legal s o -> exists s', step s o = Ok s'.
Proof.
  intros s o I H. destruct o; cbn [legal step] in *.
  - destruct H as (x & X). apply house_ok in X. rewrite X. cbn [bind]. eauto.
  - destruct H as (p & h & E). go E. cbn [vptr].
    destruct (random_live s _ p I (ex_intro _ h E)) as (c & Ec).
    destruct (inc_random_live s p c Ec) as (s' & Es). rewrite Es. cbn [bind]. eauto.
  - destruct H as (v & E). go E. rewrite aset_ok by (eapply nth_lt; eauto). cbn [bind]. eauto.
  - destruct H as ((wv & Ed) & p & (h & E) & Other). go Ed. go E.
    destruct (dec_random_ok s wv) as (s1 & E1 & V1).
    { intros q Hq. destruct wv as [hw q']; cbn [vptr] in Hq; subst q'.
      apply (random_live s d q I). eexists. exact Ed. }
    rewrite E1. cbn [bind]. rewrite V1. rewrite aset_ok by (eapply nth_lt; eauto). cbn [bind vptr].
    destruct (random_live s _ p I (ex_intro _ h E)) as (c & Ec).
    (* the source's object is still there *)
    assert (Alive : exists c', nth_error (randoms s1) p = Some (Some c')).
    { destruct wv as [hw [q|]]; cbn [vptr dec_random] in E1.
      - inv_bind E1. inv_bind E1. apply live_ok in E0. apply aset_inv in E2 as [L ->].
        inversion E1; subst. cbn [randoms set_randoms].
        destruct (Nat.eq_dec q p) as [->|N]; [|rewrite nth_error_upd_ne by auto; eauto].
        rewrite nth_error_upd_eq by auto. destruct (i_v s I p x E0) as [C1 C2].
        assert (Two : 2 <= vrefs s p).
        { destruct (Nat.eq_dec d s0) as [->|Nd].
          - destruct (Other eq_refl) as (j & Nj & hj & Ej).
            eapply (count_two (vpoints p) _ j s0); eauto; cbn; apply Nat.eqb_refl.
          - eapply (count_two (vpoints p) _ d s0); eauto; cbn; apply Nat.eqb_refl. }
        destruct (Nat.eqb_spec x 1); [lia|]. eauto.
      - inversion E1; subst. eauto. }
    destruct Alive as (c' & Ec').
    eapply inc_random_live. cbn [randoms set_vvars]. exact Ec'.
  - destruct H as ((v & Ev) & (v2 & E2)). go Ev. go E2.
    rewrite aset_ok by (eapply nth_lt; eauto). cbn [bind].
    rewrite aset_ok by (rewrite length_upd; eapply nth_lt; eauto). cbn [bind]. eauto.
  - destruct H as (v & E). go E. destruct (dec_random_ok s v) as (s1 & E1 & V1).
    { intros q Hq. destruct v as [hw q']; cbn [vptr] in Hq; subst q'.
      apply (random_live s d q I). eexists. exact E. }
    rewrite E1. cbn [bind]. rewrite V1, aset_ok by (eapply nth_lt; eauto). cbn [bind]. eauto.
  - destruct H as (h & p & E & x & Xh & Xa). go E. cbn [vptr deref bind vdealer].
    destruct (random_live s _ p I (ex_intro _ h E)) as (c & Ec). go Ec.
    rewrite (proj2 (house_ok s h x) (conj Xh Xa)). cbn [bind].
    rewrite aset_ok by (eapply nth_lt; eauto). cbn [bind]. eauto.
  - eauto.
  - destruct H as (q & E). go E. destruct (real_live s _ q I E) as (o & Eo).
    destruct (inc_real_live s q o Eo) as (s' & Es). rewrite Es. cbn [bind]. eauto.
  - destruct H as (v & E). go E. rewrite aset_ok by (eapply nth_lt; eauto). cbn [bind]. eauto.
  - destruct H as ((wv & Ed) & (q & E) & Hs). go Ed. go E.
    destruct (dec_real_ok s d wv I Ed) as (s1 & E1 & V1 & L1 & Al).
    { intros z ->. apply Hs. exact Ed. }
    rewrite E1. cbn [bind]. rewrite V1, aset_ok by (eapply nth_lt; eauto). cbn [bind].
    destruct (real_live s _ q I E) as (o & Eo). destruct (Al q o Eo) as (o' & Eo').
    eapply inc_real_live. cbn [reals set_rvars]. exact Eo'.
  - destruct H as ((v & Ev) & (v2 & E2)). go Ev. go E2.
    rewrite aset_ok by (eapply nth_lt; eauto). cbn [bind].
    rewrite aset_ok by (rewrite length_upd; eapply nth_lt; eauto). cbn [bind]. eauto.
  - destruct H as ((wv & Ed) & Hs). go Ed.
    destruct (dec_real_ok s d wv I Ed) as (s1 & E1 & V1 & L1 & Al).
    { intros z ->. apply Hs. exact Ed. }
    rewrite E1. cbn [bind]. rewrite V1, aset_ok by (eapply nth_lt; eauto). cbn [bind]. eauto.
  - destruct H as (q & E). go E. cbn [deref bind]. destruct (real_live s _ q I E) as (o & Eo). go Eo. eauto.
  - destruct H as ((x & Xh & Xa) & Hv). rewrite (proj2 (house_ok s h x) (conj Xh Xa)). cbn [bind].
    apply (roll_progress (store x) s h); auto; [exists x; auto|]. intros q Hq. exists x. auto.
  - eauto.
  - destruct H as ((x & Xh & Xa) & Hr). rewrite (proj2 (house_ok s h x) (conj Xh Xa)). cbn [bind].
    rewrite aset_ok by (eapply nth_lt; eauto). cbn [bind].
    destruct (i_h s I h x Xh Xa) as [ND Mem].
    apply (release_progress (store x) _ h ND). intros q Hq. destruct (Mem q Hq) as (o & K1 & K2).
    exists o. split; [exact K1|]. split; [auto|].
    destruct (i_r s I q (nth_lt _ _ _ K1)) as (o2 & z & J1 & J2 & J3 & _).
    unfold allocated in *. assert (o2 = o) by congruence. subst o2.
    assert (0 < rrefs s q).
    { apply rrefs_pos. apply Hr. exists x. auto. }
    rewrite K2, Xh in J2. inversion J2; subst. rewrite Xa in J3. cbn [b2n] in J3. lia.
Qed.

(* ---- the theorems ---- *)
(* C55: in every history without undefined behaviour the counts are exact: a random variable
   is allocated as long as some handle refers to it and no longer; a realisation is counted
   once for each handle and once for its house. *)
Theorem C55_counts_exact : forall ops s, run start ops = Ok s ->
  (forall p, (exists c, allocated (randoms s) p c) <-> exists i, vrefers s i p) /\
  (forall p c, allocated (randoms s) p c -> c = vrefs s p) /\
  (forall q, q < length (reals s) -> exists o, allocated (reals s) q o /\
     exists x, nth_error (houses s) (rdealer o) = Some x /\ rcnt o = rrefs s q + b2n (alive x)).
Proof.
  intros ops s H. pose proof (run_inv ops start s start_inv H) as I. split; [|split].
  - intros p. rewrite <- vrefs_pos. split.
    + intros (c & K). destruct (i_v s I p c K). lia.
    + intros P. destruct (nth_error (randoms s) p) as [[c|]|] eqn:E; [exists c; exact E| |];
        rewrite (i_vd s I p) in P; try lia; intros c K; unfold allocated in K; congruence.
  - intros p c K. apply (i_v s I p c K).
  - intros q L. destruct (i_r s I q L) as (o & x & K1 & K2 & K3 & _). exists o. split; [auto|].
    exists x. auto.
Qed.
(* legal histories have no undefined behaviour *)
Fixpoint legal_run (s : st) (ops : list op) : Prop :=
  match ops with
  | [] => True
  | o :: ops => legal s o /\ forall s', step s o = Ok s' -> legal_run s' ops
  end.
Theorem C55_legal_histories_partial : forall ops, legal_run start ops -> exists s, run start ops = Ok s.
Proof.
  assert (G : forall ops s, inv s -> legal_run s ops -> exists s', run s ops = Ok s').
  { induction ops as [|o ops IH]; intros s I H; cbn [run legal_run] in *; [eauto|].
    destruct H as [L N]. destruct (legal_step s o I L) as (s1 & E). rewrite E. cbn [bind].
    apply IH; auto. eapply step_inv; eauto. }
  intros ops. apply G. apply start_inv.
Qed.
(* assignment: the target refers to the object of the source *)
Theorem C55_assign_realisation : forall ops s s' d i q, run start ops = Ok s -> rrefers s i q ->
  step s (RAssign d i) = Ok s' -> rrefers s' d q /\ (d <> i -> rrefers s' i q).
Proof.
  intros ops s s' d i q H R E. unfold rrefers in *. cbn [step] in E.
  inv_bind E. apply live_ok in E0. inv_bind E. apply live_ok in E1. inv_bind E. inv_bind E.
  apply aset_inv in E3 as [L ->]. rewrite R in E1. inversion E1; subst x0.
  assert (V1 : rvars x1 = rvars s).
  { revert E2. unfold dec_real. destruct x as [z|]; [|intros K; inversion K; auto].
    intros K. inv_bind K. destruct (rcnt x =? 1).
    - unfold delete_real in K. inv_bind K. inv_bind K. inv_bind K. inversion K. reflexivity.
    - inv_bind K. inversion K. reflexivity. }
  assert (V2 : rvars s' = upd (rvars s) d (Some (Some q))).
  { unfold inc_real in E. cbn [deref bind] in E. inv_bind E. inv_bind E. inversion E. cbn. now rewrite V1. }
  rewrite V1 in L. rewrite V2. split; [now apply nth_error_upd_eq|].
  intros N. now rewrite nth_error_upd_ne by auto.
Qed.
Theorem C55_assign_variable_partial : forall ops s s' d i hd pd h p, run start ops = Ok s ->
  nth_error (vvars s) d = Some (Some {| vdealer := hd; vptr := pd |}) ->
  nth_error (vvars s) i = Some (Some {| vdealer := h; vptr := Some p |}) ->
  step s (VAssign d i) = Ok s' ->
  nth_error (vvars s') d = Some (Some {| vdealer := hd; vptr := Some p |}).
Proof.
  intros ops s s' d i hd pd h p H Rd R E. cbn [step] in E.
  rewrite (live_some _ _ _ Rd), (live_some _ _ _ R) in E. cbn [bind vptr vdealer] in E.
  inv_bind E. inv_bind E. apply aset_inv in E1 as [L ->].
  assert (V1 : vvars x = vvars s).
  { revert E0. unfold dec_random. destruct pd as [z|]; [|intros K; inversion K; auto].
    intros K. inv_bind K. inv_bind K. inversion K. reflexivity. }
  unfold inc_random in E. cbn [deref bind] in E. inv_bind E. inv_bind E. inversion E. cbn. rewrite V1 in *.
  now apply nth_error_upd_eq.
Qed.
(* the house is not assigned: after d = i the realisations of d go to the old house of d *)
Theorem C55_assign_keeps_house_refuted : exists ops s s1 s2,
  run start ops = Ok s /\ legal s (VAssign 0 1) /\
  step s (VAssign 0 1) = Ok s1 /\ step s1 (Realize 0) = Ok s2 /\
  in_house s2 0 0 /\ ~ in_house s2 1 0 /\
  (exists s3, step s1 (Realize 1) = Ok s3 /\ in_house s3 1 0).
Proof.
  exists [HNew; HNew; VNew 0; VNew 1]. do 3 eexists. split; [vm_compute; reflexivity|]. split.
  { split; [eexists; reflexivity|]. exists 1. split; [eexists; reflexivity|]. discriminate. }
  split; [vm_compute; reflexivity|]. split; [vm_compute; reflexivity|]. split; [|split].
  - eexists. split; [reflexivity|]. cbn. auto.
  - intros (x & E & _ & I). cbn in E. injection E as <-. easy.
  - eexists. split; [vm_compute; reflexivity|]. eexists. split; [reflexivity|]. cbn. auto.
Qed.
(* assigning the only handle of a variable to itself uses it after freeing it *)
Theorem C55_self_assignment_refuted : forall ops s d p, run start ops = Ok s ->
  vrefers s d p -> (forall j, vrefers s j p -> j = d) -> step s (VAssign d d) = UB UseAfterFree.
Proof.
  intros ops s d p H (h & E) Only. pose proof (run_inv ops start s start_inv H) as I.
  cbn [step]. go E. cbn [vptr vdealer dec_random].
  destruct (random_live s d p I (ex_intro _ h E)) as (c & Ec). go Ec.
  pose proof (nth_lt _ _ _ Ec) as L.
  assert (c = 1).
  { destruct (i_v s I p c Ec) as [C1 C2].
    pose proof (count_upd (vpoints p) (vvars s) d _ None E) as U. rewrite vpoints_eq in U. cbn [w] in U.
    destruct (Nat.eq_dec (count (vpoints p) (upd (vvars s) d None)) 0); [unfold vrefs in C1; lia|].
    exfalso. destruct (proj1 (count_pos (vpoints p) (upd (vvars s) d None)) ltac:(lia)) as (j & v & Ej & Fv).
    destruct (Nat.eq_dec d j) as [<-|N].
    - rewrite nth_error_upd_eq in Ej by (eapply nth_lt; eauto). discriminate.
    - rewrite nth_error_upd_ne in Ej by auto. apply N. symmetry. apply Only.
      destruct v as [hv [z|]]; cbn in Fv; [|discriminate]. apply Nat.eqb_eq in Fv. subst. exists hv. auto. }
  subst c. cbn [Nat.eqb]. rewrite aset_ok by auto. cbn [bind vvars set_randoms].
  rewrite aset_ok by (eapply nth_lt; eauto). cbn [bind]. unfold inc_random.
  cbn [deref bind randoms set_vvars set_randoms]. unfold live, aget.
  rewrite nth_error_upd_eq by auto. reflexivity.
Qed.
(* copying or assigning from a moved-from handle dereferences null *)
Theorem C55_null_source_refuted : forall s i h,
  (nth_error (vvars s) i = Some (Some {| vdealer := h; vptr := None |}) -> step s (VCopy i) = UB NullDeref) /\
  (nth_error (rvars s) i = Some (Some None) ->
     step s (RCopy i) = UB NullDeref /\ step s (RAssign i i) = UB NullDeref).
Proof.
  intros s i h. split.
  - intros E. cbn [step]. go E. reflexivity.
  - intros E. cbn [step]. go E. split; [reflexivity|]. cbn [dec_real bind].
    rewrite aset_ok by (eapply nth_lt; eauto). reflexivity.
Qed.
(* no history which ever realised a variable can destroy all its houses and handles: either the
   house dies first and a handle's last death calls into it, or the handles die first and the
   house's store locks the mutex which is already destroyed *)
Theorem C55_teardown_refuted : forall ops s, run start ops = Ok s -> 0 < length (reals s) ->
  ~ ((forall h, ~ hlive s h) /\ (forall i, ~ rlive s i)).
Proof.
  intros ops s H L [Nh Nr]. pose proof (run_inv ops start s start_inv H) as I.
  destruct (i_r s I 0 L) as (o & x & K1 & K2 & K3 & K4 & _).
  destruct (alive x) eqn:A.
  - apply (Nh (rdealer o)). exists x. auto.
  - cbn [b2n] in K3. assert (P : 0 < rrefs s 0) by lia. apply rrefs_pos in P as (i & E).
    apply (Nr i). eexists. exact E.
Qed.
(* a variable that dies before the dice are rolled leaves its realisations dangling *)
Theorem C55_roll_dangling_refuted : run start [HNew; VNew 0; Realize 0; VKill 0; Roll 0] = UB UseAfterFree.
Proof. reflexivity. Qed.

Example C55_demo : exists s,
  run start [HNew; VNew 0; VCopy 0; Realize 1; RCopy 0; VKill 0; Roll 0; RAssign 0 1; RKill 1; VKill 1] = Ok s /\
  legal_run start [HNew; VNew 0; VCopy 0; Realize 1; RCopy 0] /\ randoms s = [None] /\
  map (fun o => match o with Some o => rcnt o | None => 0 end) (reals s) = [2].
Proof.
  eexists. split; [vm_compute; reflexivity|]. split; [|split; reflexivity].
  split; [exact I|]. intros s1 E1. vm_compute in E1; injection E1 as <-.
  split; [eexists; split; reflexivity|]. intros s2 E2. vm_compute in E2; injection E2 as <-.
  split; [exists 0; eexists; reflexivity|]. intros s3 E3. vm_compute in E3; injection E3 as <-.
  split; [exists 0, 0; split; [reflexivity|eexists; split; reflexivity]|]. intros s4 E4. vm_compute in E4; injection E4 as <-.
  split; [exists 0; reflexivity|]. intros s5 _. exact I.
Qed.
Print Assumptions C55_counts_exact.
Print Assumptions C55_legal_histories_partial.
Print Assumptions C55_assign_realisation.
Print Assumptions C55_assign_variable_partial.
Print Assumptions C55_assign_keeps_house_refuted.
Print Assumptions C55_self_assignment_refuted.
Print Assumptions C55_null_source_refuted.
Print Assumptions C55_teardown_refuted.
Print Assumptions C55_roll_dangling_refuted.
