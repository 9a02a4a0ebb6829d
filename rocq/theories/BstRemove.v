(* Proofs about removal from the pointer based red/black tree. *)
From Coq Require Import List ZArith Lia Bool Arith Sorted Permutation.
From Verif Require Import Base MapSpec BstModel BstProofs.
Import ListNotations.

Section Remove.
Context {K V : Type}.
Variable kcmp : K -> K -> comparison.
Hypothesis TO : total_preorder kcmp.
Notation tree := (tree K V).

(* the key is gone, or it was not there and a null pointer was used *)
Definition okr (k : K) (t : tree) (Q : tree -> Prop) (m : outcome tree) : Prop :=
  match m with
  | Ok t' => elems t' = drop kcmp k (elems t) /\ Q t'
  | UB NullDeref => absent kcmp k (elems t)
  | _ => False
  end.
Lemma okr_mono k t (Q Q' : tree -> Prop) m : (forall t', Q t' -> Q' t') -> okr k t Q m -> okr k t Q' m.
Proof. intros H. destruct m as [t'| |f]; cbn; auto. intros [E q]. auto. Qed.
Lemma okr_elems k t t2 (Q : tree -> Prop) m : elems t = elems t2 -> okr k t Q m -> okr k t2 Q m.
Proof. intros E. unfold okr. now rewrite E. Qed.
Definition dtail (fuel : nat) (k : K) (h : tree) : outcome tree :=
  match h with
  | Null => UB NullDeref
  | Node c o l x v r =>
    let* h :=
      if eqk kcmp k x then
        match r with
        | Null => UB NullDeref
        | Node _ _ rl rk rv _ =>
          let '(mk, mv) := first rl rk rv in
          let* r := del kcmp fuel r mk in
          Ok (Node c o l mk mv r)
        end
      else
        let* r := del kcmp fuel r k in
        Ok (Node c o l x v r) in
    fixup h
  end.
Definition dge (fuel : nat) (k : K) (h : tree) : outcome tree :=
  let* x := key_of h in
  let* r := right_of h in
  match r, eqk kcmp k x with
  | Null, true => Ok Null
  | _, _ => let* h := move_right h in dtail fuel k h
  end.
Lemma del_lt f c o c' o' ll lx lv lr x (v : V) r k : kcmp k x = Lt ->
  del kcmp (S f) (Node c o (Node c' o' ll lx lv lr) x v r) k =
  let* h := move_left (Node c o (Node c' o' ll lx lv lr) x v r) in
  let* l := left_of h in let* l := del kcmp f l k in let* h := set_left l h in fixup h.
Proof. intros E. cbn [del key_of bind left_of]. unfold ltk. now rewrite E. Qed.
Lemma del_ge f c o l x (v : V) r k : kcmp k x <> Lt ->
  del kcmp (S f) (Node c o l x v r) k =
  let* h := if is_red l then leanRight (Node c o l x v r) else Ok (Node c o l x v r) in dge f k h.
Proof. intros E. cbn [del key_of bind left_of]. unfold ltk. destruct (kcmp k x); try contradiction; reflexivity. Qed.
Lemma first_spec (t : tree) : forall c o l x w r, t = Node c o l x w r -> exists rest, elems t = first l x w :: rest.
Proof.
  induction t as [|c o l IH x w r _]; intros c' o' l' x' w' r' E; [discriminate|]. injection E as <- <- <- <- <- <-.
  destruct l as [|lc lo ll lx lw lr]; cbn [first elems].
  - now eexists.
  - destruct (IH lc lo ll lx lw lr eq_refl) as (rest & H). cbn [elems first] in H. rewrite H. now eexists.
Qed.
Lemma left_ok f k c o l x v r (Q Ql : tree -> Prop) : srt kcmp (elems (Node c o l x v r)) -> kcmp k x = Lt ->
  okr k l Ql (del kcmp f l k) -> (forall l', Ql l' -> fixes Q (Node c o l' x v r)) ->
  okr k (Node c o l x v r) Q (let* l := del kcmp f l k in let* h := set_left l (Node c o l x v r) in fixup h).
Proof.
  intros Hs E H F. cbn [elems] in Hs. unfold okr in H. destruct (del kcmp f l k) as [l'| |[]]; cbn [bind]; try contradiction.
  - destruct H as [H q]. cbn [set_left bind]. destruct (F l' q) as (t' & E1 & (E2 & _) & q'). rewrite E1. split; auto.
    rewrite E2. cbn [elems]. rewrite H. symmetry. now apply drop_left.
  - cbn [okr elems]. now apply absent_left.
Qed.
Lemma right_ok f k c o l x v r (Q Qr : tree -> Prop) : srt kcmp (elems (Node c o l x v r)) -> kcmp k x <> Lt ->
  (kcmp k x = Gt -> okr k r Qr (del kcmp f r k)) ->
  (kcmp k x = Eq -> r <> Null /\ forall k', okr k' r Qr (del kcmp f r k')) ->
  (forall r' x' v', Qr r' -> fixes Q (Node c o l x' v' r')) ->
  okr k (Node c o l x v r) Q (dtail f k (Node c o l x v r)).
Proof.
  intros Hs E Hg He F. cbn [elems] in Hs. unfold dtail, eqk. destruct (kcmp k x) eqn:C; try contradiction.
  - destruct (He eq_refl) as [N Hr]. destruct r as [|rc ro rl rx rv rr]; [contradiction|].
    destruct (first_spec (Node rc ro rl rx rv rr) _ _ _ _ _ _ eq_refl) as (rest & Ef).
    destruct (first rl rx rv) as [mk mv]. specialize (Hr mk). apply srt_mid in Hs as Hs'; auto. destruct Hs' as (_ & Sr & _).
    unfold okr in Hr. rewrite Ef in Hr, Sr. destruct (del kcmp f (Node rc ro rl rx rv rr) mk) as [r'| |[]]; cbn [bind]; try contradiction.
    + destruct Hr as [H q]. destruct (F r' mk mv q) as (t' & E1 & (E2 & _) & q'). rewrite E1. split; auto.
      rewrite E2. cbn [elems] in *. rewrite H. rewrite (drop_eq kcmp TO k (elems l)) by auto.
      f_equal. rewrite Ef. pose proof (drop_eq kcmp TO mk [] rest mk mv Sr (cmp_refl kcmp mk TO)) as D. cbn [app] in D. now rewrite D.
    + exfalso. apply (Hr (mk, mv)); [now left|]. now apply cmp_refl.
  - specialize (Hg eq_refl). unfold okr in Hg. destruct (del kcmp f r k) as [r'| |[]]; cbn [bind]; try contradiction.
    + destruct Hg as [H q]. destruct (F r' x v q) as (t' & E1 & (E2 & _) & q'). rewrite E1. split; auto.
      rewrite E2. cbn [elems]. rewrite H. symmetry. now apply drop_right.
    + cbn [okr elems]. now apply absent_right.
Qed.

(* a red link leaned to the right *)
Lemma lean_tail f k c o lo ll lx lv lr x v r (Q Qr : tree -> Prop) :
  srt kcmp (elems (Node c o (Node true lo ll lx lv lr) x v r)) -> kcmp k x <> Lt ->
  (forall o', okr k (Node true o' lr x v r) Qr (del kcmp f (Node true o' lr x v r) k)) ->
  (forall r' x' v', Qr r' -> fixes Q (Node c lo ll x' v' r')) ->
  okr k (Node c o (Node true lo ll lx lv lr) x v r) Q
    (let* h := if is_red (Node true lo ll lx lv lr) then leanRight (Node c o (Node true lo ll lx lv lr) x v r) else Ok (Node c o (Node true lo ll lx lv lr) x v r) in dge f k h).
Proof.
  intros Hs E Rec F. cbn [is_red leanRight rotR bind right_of red_of set_red right_red set_right dge key_of move_right left_of negb andb].
  set (o' := (o - (lo + 1))%Z).
  assert (Eh : elems (Node c lo ll lx lv (Node true o' lr x v r)) = elems (Node c o (Node true lo ll lx lv lr) x v r)).
  { cbn [elems]. rewrite <- ?app_assoc. reflexivity. }
  apply (okr_elems k (Node c lo ll lx lv (Node true o' lr x v r))); auto.
  assert (Ex : kcmp k lx = Gt).
  { pose proof Hs as Hs'. cbn [elems] in Hs'. apply srt_mid in Hs'; auto. destruct Hs' as (_ & _ & Lp & _).
    apply (under kcmp TO k x _ Lp E (lx, lv)). apply in_or_app. cbn. auto. }
  destruct (eqk kcmp k lx); apply right_ok with (Qr := Qr); try congruence; auto.
Qed.
(* the trees that the recursion is called with, and what comes back *)
Inductive entry (k : K) : tree -> (tree -> Prop) -> Prop :=
| ent_2 n c o l x v r : blk n l -> blk n r ->
    entry k (Node c o l x v r) (fun t => blk n t \/ red1 n t \/ (c = false /\ blk (S n) t))
| ent_red2 n t : red2 n t -> entry k t (fun t => red1 n t \/ red2 n t)
| ent_34 n o l x v r : red1 n l \/ red2 n l -> blk n r -> entry k (Node false o l x v r) (blk (S n))
| ent_right n o l x v r : blk n l -> red1 n r -> kcmp k x <> Lt -> entry k (Node false o l x v r) (blk (S n))
| ent_left n o l x v r : red1 n l -> blk n r \/ red1 n r -> kcmp k x = Lt -> entry k (Node false o l x v r) (blk (S n)).
Definition all_blk n t := @blk K V n t \/ red1 n t \/ red2 n t.
Lemma fixes_l n o l x v (r : tree) : all_blk n l -> blk n r -> fixes (blk (S n)) (Node false o l x v r).
Proof.
  intros Hl Br. apply fixes_id; [now apply blk_not_red in Br|].
  destruct Hl as [H|[H|H]]; [now apply blk_2|now apply blk_3|now apply blk_4].
Qed.
Lemma fixes_r n o l x v (r : tree) : blk n l \/ red1 n l -> blk n r \/ red1 n r -> fixes (blk (S n)) (Node false o l x v r).
Proof.
  intros Hl [Br|Rr].
  - apply fixes_l; auto. destruct Hl; red; auto.
  - inversion Rr as [n' o' l' k' v' r' Bl' Br']. subst. apply fixes_red. intros o2.
    destruct Hl; [apply blk_3|apply blk_4]; auto; now constructor.
Qed.
Lemma fixes_red1 n o l x v (r : tree) : blk n l -> blk n r \/ red1 n r -> fixes (fun t => red1 n t \/ red2 n t) (Node true o l x v r).
Proof. intros Hl H. apply (fixes_blk n true); auto. Qed.
(* both children black and no red children below: flip *)
Ltac nored := repeat match goal with H : blk ?n ?t |- context [is_red ?t] => rewrite (blk_not_red n t H) end.

Lemma del_ok fuel : forall t k Q, size t < fuel -> srt kcmp (elems t) -> entry k t Q -> okr k t Q (del kcmp fuel t k).
Proof.
  induction fuel as [|fuel IH]; intros t k Q Hf Hs En; [lia|].
  assert (IE : forall s k' Q' (Q2 : tree -> Prop), size s < size t -> srt kcmp (elems s) -> entry k' s Q' -> (forall t', Q' t' -> Q2 t') -> okr k' s Q2 (del kcmp fuel s k')).
  { intros s k' Q' Q2 Ls Ss E M. apply (okr_mono k' s Q'); auto. apply IH; auto. lia. }
  clear IH.
  assert (Sub : forall c o l x v r, elems (Node c o l x v r) = elems t -> srt kcmp (elems (Node c o l x v r)) /\ srt kcmp (elems l) /\ srt kcmp (elems r) /\
    (forall p, In p (elems l) -> kcmp (fst p) x = Lt)).
  { intros c o l x v r E. rewrite <- E in Hs. split; auto. cbn [elems] in Hs. apply srt_mid in Hs; auto. tauto. }
  (* two subtrees of one size *)
  destruct En as [n c o l x v r Bl Br|n t R|n o l x v r Rl Br|n o l x v r Bl Rr Ck|n o l x v r Rl Rr Ck].
  - destruct (Sub _ _ _ _ _ _ eq_refl) as (S0 & Sl & Sr & Lp). cbn [size] in *.
    assert (Self : blk n l -> blk n r -> forall o (l r : tree) x (v : V), blk n l -> blk n r -> fixes (fun t => blk n t \/ red1 n t \/ (c = false /\ blk (S n) t)) (Node c o l x v r)).
    { intros _ _ o1 l1 r1 x1 v1 B1 B2. apply fixes_id; [now apply blk_not_red in B2|]. destruct c; [right; left; now constructor|].
      right. right. split; auto. now apply blk_2. }
    assert (D : kcmp k x = Lt \/ kcmp k x <> Lt) by (destruct (kcmp k x); auto; right; discriminate).
    destruct D as [E|E].
    { (* left *)
      destruct Bl as [|n lo ll lx lv lr Bll Blr|n lo ll lx lv lr Rll Blr|n lo ll lx lv lr Rll Blr].
      - apply blk_0 in Br. subst r. cbn [del key_of bind left_of]. unfold ltk. rewrite E. split.
        + cbn. now rewrite same_lt by auto.
        + destruct c; [right; left; repeat constructor|]. right. right. split; auto. repeat constructor.
      - rewrite del_lt by auto. cbn [move_left left_of bind red_of negb andb]. nored. cbn [negb set_red left_red set_left bind left_of right_of].
        assert (Rl : red1 n (Node true lo ll lx lv lr)) by now constructor.
        inversion Br as [|n' ro rl rx rv rr Brl Brr|n' ro rl rx rv rr Rrl Brr|n' ro rl rx rv rr Rrl Brr]; subst.
        + cbn [left_of bind]. nored. cbn [right_red right_of set_red set_right bind left_of].
          refine (okr_elems k (Node false o (Node true lo ll lx lv lr) x v (Node true ro rl rx rv rr)) _ _ _ eq_refl _).
          destruct (Sub false o (Node true lo ll lx lv lr) x v (Node true ro rl rx rv rr) eq_refl) as (T0 & T1 & T2 & _).
          apply left_ok with (Ql := fun t => blk n t \/ red1 n t); auto.
          * eapply IE; [cbn; lia|auto|apply (ent_2 k n); auto|]. intros t' [H|[H|[H _]]]; auto. discriminate.
          * intros l' Hl. destruct (fixes_r n o l' x v (Node true ro rl rx rv rr)) as (t' & F1 & F2 & F3); auto. { right. now constructor. }
            exists t'. auto.
        + inversion Rrl as [n' rlo rll rlx rlv rlr Brll Brlr]. subst. cbn [left_of bind is_red rotR rotL set_right].
          set (h := Node true (rlo + (o + 1))%Z (Node false o (Node true lo ll lx lv lr) x v rll) rlx rlv (Node false (ro - (rlo + 1))%Z rlr rx rv rr)).
          assert (Eh : elems h = elems (Node c o (Node false lo ll lx lv lr) x v (Node false ro (Node true rlo rll rlx rlv rlr) rx rv rr))).
          { unfold h. cbn [elems]. rewrite <- !app_assoc. cbn [app]. rewrite <- ?app_assoc; reflexivity. }
          apply (okr_elems k h); auto. destruct (Sub _ _ _ _ _ _ Eh) as (T0 & T1 & T2 & Tp).
          assert (Ex : kcmp k rlx = Lt). { apply (cmp_trans _ TO) with x; auto. apply (Tp (x, v)). cbn [elems]. apply in_or_app. cbn. auto. }
          unfold h in *. cbn [left_of bind]. apply left_ok with (Ql := blk (S n)); auto.
          * eapply IE; [cbn; lia|auto|apply (ent_left k n); auto|auto].
          * intros l' Hl. apply fixes_id; auto. right. left. constructor; auto. now apply blk_2.
        + inversion Rrl as [n' rlo rll rlx rlv rlr Rrll Brlr]. subst. cbn [left_of bind is_red rotR rotL set_right].
          set (h := Node true (rlo + (o + 1))%Z (Node false o (Node true lo ll lx lv lr) x v rll) rlx rlv (Node false (ro - (rlo + 1))%Z rlr rx rv rr)).
          assert (Eh : elems h = elems (Node c o (Node false lo ll lx lv lr) x v (Node false ro (Node true rlo rll rlx rlv rlr) rx rv rr))).
          { unfold h. cbn [elems]. rewrite <- !app_assoc. cbn [app]. rewrite <- ?app_assoc; reflexivity. }
          apply (okr_elems k h); auto. destruct (Sub _ _ _ _ _ _ Eh) as (T0 & T1 & T2 & Tp).
          assert (Ex : kcmp k rlx = Lt). { apply (cmp_trans _ TO) with x; auto. apply (Tp (x, v)). cbn [elems]. apply in_or_app. cbn. auto. }
          unfold h in *. cbn [left_of bind]. apply left_ok with (Ql := blk (S n)); auto.
          * eapply IE; [cbn; lia|auto|apply (ent_left k n); auto|auto].
          * intros l' Hl. apply fixes_id; auto. right. left. constructor; auto. now apply blk_2.
      - rewrite del_lt by auto. cbn [move_left left_of bind red_of negb andb]. rewrite (red1_red n ll) by auto. cbn [negb bind left_of].
        apply left_ok with (Ql := blk (S n)); auto.
        + eapply IE; [cbn; lia|auto|apply (ent_34 k n); auto|auto].
        + intros l' Hl. apply Self; auto. now apply blk_3.
      - rewrite del_lt by auto. cbn [move_left left_of bind red_of negb andb]. assert (X : is_red ll = true) by now destruct Rll. rewrite X. cbn [negb bind left_of].
        apply left_ok with (Ql := blk (S n)); auto.
        + eapply IE; [cbn; lia|auto|apply (ent_34 k n); auto|auto].
        + intros l' Hl. apply Self; auto. now apply blk_4. }
    (* right *)
    rewrite del_ge by auto. nored. cbn [bind dge key_of right_of].
    destruct Br as [|n ro rl rx rv rr Brl Brr|n ro rl rx rv rr Rrl Brr|n ro rl rx rv rr Rrl Brr].
    + apply blk_0 in Bl. subst l. unfold eqk. destruct (kcmp k x) eqn:C; try contradiction.
      * split; [|left; constructor]. cbn. now rewrite same_eq by auto.
      * cbn. intros e [<-|[]]. cbn. congruence.
    + cbn [move_right right_of bind red_of left_of]. nored. cbn [negb andb set_red right_red right_of set_right bind left_of].
      assert (Rr : red1 n (Node true ro rl rx rv rr)) by now constructor.
      inversion Bl as [|n' lo ll lx lv lr Bll Blr|n' lo ll lx lv lr Rll Blr|n' lo ll lx lv lr Rll Blr]; subst.
      * cbn [left_of bind]. nored. cbn [left_red left_of set_red set_left bind].
        destruct (Sub false o (Node true lo ll lx lv lr) x v (Node true ro rl rx rv rr) eq_refl) as (T0 & T1 & T2 & _).
        refine (okr_elems k (Node false o (Node true lo ll lx lv lr) x v (Node true ro rl rx rv rr)) _ _ _ eq_refl _).
        assert (Rec : forall k', okr k' (Node true ro rl rx rv rr) (fun t => blk n t \/ red1 n t) (del kcmp fuel (Node true ro rl rx rv rr) k')).
        { intros k'. eapply IE; [cbn; lia|auto|apply (ent_2 k' n); auto|]. intros t' [H|[H|[H _]]]; auto. discriminate. }
        apply right_ok with (Qr := fun t => blk n t \/ red1 n t); auto. { split; auto. discriminate. }
        intros r' x' v' Hr. destruct (fixes_r n o (Node true lo ll lx lv lr) x' v' r') as (t' & F1 & F2 & F3); auto. { right. now constructor. }
        exists t'. auto.
      * inversion Rll as [n' llo lll llx llv llr Blll Bllr]. subst.
        cbn [left_of bind is_red rotR set_red left_red set_left].
        set (h := Node true lo (Node false llo lll llx llv llr) lx lv (Node false (o - (lo + 1))%Z lr x v (Node true ro rl rx rv rr))).
        assert (Eh : elems h = elems (Node c o (Node false lo (Node true llo lll llx llv llr) lx lv lr) x v (Node false ro rl rx rv rr))).
        { unfold h. cbn [elems]. rewrite <- !app_assoc. cbn [app]. rewrite <- ?app_assoc; reflexivity. }
        apply (okr_elems k h); auto. destruct (Sub _ _ _ _ _ _ Eh) as (T0 & T1 & T2 & Tp).
        assert (Ex : kcmp k lx = Gt).
        { apply (under kcmp TO k x (elems (Node false lo (Node true llo lll llx llv llr) lx lv lr)) Lp E (lx, lv)). cbn [elems]. apply in_or_app. cbn. auto. }
        unfold h in *. apply right_ok with (Qr := blk (S n)); auto.
        -- congruence.
        -- intros _. eapply IE; [cbn; lia|auto|apply (ent_right k n); auto|auto].
        -- congruence.
        -- intros r' x' v' Hr. apply fixes_id; [now apply blk_not_red in Hr|]. right. left. constructor; auto. now apply blk_2.
      * inversion Rll as [n' llo lll llx llv llr Rlll Bllr]. subst.
        cbn [left_of bind is_red rotR set_red left_red set_left].
        set (h := Node true lo (Node false llo lll llx llv llr) lx lv (Node false (o - (lo + 1))%Z lr x v (Node true ro rl rx rv rr))).
        assert (Eh : elems h = elems (Node c o (Node false lo (Node true llo lll llx llv llr) lx lv lr) x v (Node false ro rl rx rv rr))).
        { unfold h. cbn [elems]. rewrite <- !app_assoc. cbn [app]. rewrite <- ?app_assoc; reflexivity. }
        apply (okr_elems k h); auto. destruct (Sub _ _ _ _ _ _ Eh) as (T0 & T1 & T2 & Tp).
        assert (Ex : kcmp k lx = Gt).
        { apply (under kcmp TO k x (elems (Node false lo (Node true llo lll llx llv llr) lx lv lr)) Lp E (lx, lv)). cbn [elems]. apply in_or_app. cbn. auto. }
        unfold h in *. apply right_ok with (Qr := blk (S n)); auto.
        -- congruence.
        -- intros _. eapply IE; [cbn; lia|auto|apply (ent_right k n); auto|auto].
        -- congruence.
        -- intros r' x' v' Hr. apply fixes_id; [now apply blk_not_red in Hr|]. right. left. constructor; auto. now apply blk_3.
    + cbn [move_right right_of bind red_of left_of]. rewrite (red1_red n rl) by auto. cbn [negb andb bind].
      apply right_ok with (Qr := blk (S n)); auto.
      * intros _. eapply IE; [cbn; lia|auto|apply (ent_34 k n); auto|auto].
      * intros _. split; [discriminate|]. intros k'. eapply IE; [cbn; lia|auto|apply (ent_34 k' n); auto|auto].
      * intros r' x' v' Hr. apply Self; auto. now apply blk_3.
    + cbn [move_right right_of bind red_of left_of]. assert (X : is_red rl = true) by now destruct Rrl. rewrite X. cbn [negb andb bind].
      apply right_ok with (Qr := blk (S n)); auto.
      * intros _. eapply IE; [cbn; lia|auto|apply (ent_34 k n); auto|auto].
      * intros _. split; [discriminate|]. intros k'. eapply IE; [cbn; lia|auto|apply (ent_34 k' n); auto|auto].
      * intros r' x' v' Hr. apply Self; auto. now apply blk_4.
  - destruct R as [n o l x v r Rl Br]. inversion Rl as [n' lo ll lx lv lr Bll Blr]. subst.
    destruct (Sub _ _ _ _ _ _ eq_refl) as (S0 & Sl & Sr & Lp). cbn [size] in *.
    assert (D : kcmp k x = Lt \/ kcmp k x <> Lt) by (destruct (kcmp k x); auto; right; discriminate). destruct D as [E|E].
    + rewrite del_lt by auto. cbn [move_left left_of bind red_of negb andb].
      apply left_ok with (Ql := fun t => blk n t \/ red1 n t); auto.
      * eapply IE; [cbn; lia|auto|apply (ent_2 k n); auto|]. intros t' [H|[H|[H _]]]; auto. discriminate.
      * intros l' [H|H]; (apply fixes_id; [now apply blk_not_red in Br|]); [left|right]; now constructor.
    + rewrite del_ge by auto. apply lean_tail with (Qr := fun t => blk n t \/ red1 n t); auto.
      * intros o'. eapply IE; [cbn; lia| |apply (ent_2 k n); auto|]. 2:{ intros t' [H|[H|[H _]]]; auto. discriminate. }
        clear - S0 TO. cbn [elems] in *. rewrite <- app_assoc in S0. cbn [app] in S0. apply srt_mid in S0; auto. tauto.
      * intros r' x' v' Hr. now apply fixes_red1.
  - destruct (Sub _ _ _ _ _ _ eq_refl) as (S0 & Sl & Sr & Lp). cbn [size] in *.
    assert (L : exists lo ll lx lv lr, l = Node true lo ll lx lv lr /\ (blk n ll \/ red1 n ll) /\ blk n lr).
    { destruct Rl as [Rl|Rl]; inversion Rl; subst; repeat eexists; eauto. }
    destruct L as (lo & ll & lx & lv & lr & -> & Hll & Blr). cbn [size] in *.
    assert (D : kcmp k x = Lt \/ kcmp k x <> Lt) by (destruct (kcmp k x); auto; right; discriminate). destruct D as [E|E].
    + rewrite del_lt by auto. cbn [move_left left_of bind red_of negb andb].
      apply left_ok with (Ql := all_blk n); auto.
      * destruct Hll as [H|H].
        -- eapply IE; [cbn; lia|auto|apply (ent_2 k n); auto|]. intros t' [H1|[H1|[H1 _]]]; [left|right;left|discriminate]; auto.
        -- eapply IE; [cbn; lia|auto|apply (ent_red2 k n); now constructor|]. intros t' [H1|H1]; right; auto.
      * intros l' Hl. apply fixes_l; auto.
    + rewrite del_ge by auto. apply lean_tail with (Qr := fun t => blk n t \/ red1 n t); auto.
      * intros o'. eapply IE; [cbn; lia| |apply (ent_2 k n); auto|]. 2:{ intros t' [H|[H|[H _]]]; auto. discriminate. }
        clear - S0 TO. cbn [elems] in *. rewrite <- app_assoc in S0. cbn [app] in S0. apply srt_mid in S0; auto. tauto.
      * intros r' x' v' Hr. now apply fixes_r.
  - destruct (Sub _ _ _ _ _ _ eq_refl) as (S0 & Sl & Sr & Lp). cbn [size] in *.
    rewrite del_ge by auto. nored. inversion Rr as [n' ro rl rx rv rr Brl Brr]. subst.
    cbn [bind dge key_of right_of move_right red_of left_of negb andb].
    assert (Rec : forall k', okr k' (Node true ro rl rx rv rr) (fun t => blk n t \/ red1 n t) (del kcmp fuel (Node true ro rl rx rv rr) k')).
    { intros k'. eapply IE; [cbn; lia|auto|apply (ent_2 k' n); auto|]. intros t' [H|[H|[H _]]]; auto. discriminate. }
    apply right_ok with (Qr := fun t => blk n t \/ red1 n t); auto. { split; auto. discriminate. }
    intros r' x' v' Hr. apply fixes_r; auto.
  - destruct (Sub _ _ _ _ _ _ eq_refl) as (S0 & Sl & Sr & Lp). cbn [size] in *.
    inversion Rl as [n' lo ll lx lv lr Bll Blr]. subst. rewrite del_lt by auto. cbn [move_left left_of bind red_of negb andb].
    apply left_ok with (Ql := fun t => blk n t \/ red1 n t); auto.
    + eapply IE; [cbn; lia|auto|apply (ent_2 k n); auto|]. intros t' [H|[H|[H _]]]; auto. discriminate.
    + intros l' Hl. apply fixes_r; auto.
Qed.
End Remove.
