(* Whole histories of the pointer based red/black tree. *)
From Coq Require Import List ZArith Lia Bool Arith Sorted Permutation.
From Verif Require Import Base MapSpec BstModel BstProofs BstRemove.
Import ListNotations.

Section Hist.
Context {K V : Type}.
Variable kcmp : K -> K -> comparison.
Hypothesis TO : total_preorder kcmp.
Notation tree := (tree K V).
Notation elist := (list (K * V)).

(* ---- one removal ---- *)
Definition settled (t : tree) : Prop := t = Null \/ exists c o l x v r, t = Node c o l x v r /\ exists n, blk (S n) (Node false o l x v r).
Lemma blk_black n c o l x v (r : tree) : blk n (Node c o l x v r) -> exists n, blk (S n) (Node false o l x v r).
Proof. inversion 1; subst; eexists; eauto using blk_2, blk_3, blk_4. Qed.
Lemma red1_black n c o l x v (r : tree) : red1 n (Node c o l x v r) -> exists n, blk (S n) (Node false o l x v r).
Proof. inversion 1; subst; eexists; eauto using blk_2, blk_3, blk_4. Qed.
Lemma settled_blk n (t : tree) : blk n t -> settled t.
Proof. intros H. destruct t as [|c o l x v r]; [now left|right]. exists c, o, l, x, v, r. split; auto. now apply blk_black in H. Qed.
Lemma settled_red1 n (t : tree) : red1 n t -> settled t.
Proof. intros H. destruct t as [|c o l x v r]; [now left|right]. exists c, o, l, x, v, r. split; auto. now apply red1_black in H. Qed.
Lemma del_root (t : tree) n k : t <> Null -> blk n t -> srt kcmp (elems t) -> okr kcmp k t settled (del kcmp (S (size t)) t k).
Proof.
  intros N B Hs. inversion B as [|m o l x v r Bl Br|m o l x v r Bl Br|m o l x v r Bl Br]; subst; [contradiction| | |].
  - eapply okr_mono; [|apply (del_ok kcmp TO); [lia|exact Hs|apply ent_2 with (n := m); auto]].
    intros t' [H|[H|[_ H]]]; [now apply settled_blk in H|now apply settled_red1 in H|now apply settled_blk in H].
  - eapply okr_mono; [|apply (del_ok kcmp TO); [lia|exact Hs|apply ent_34 with (n := m); auto]].
    intros t' H. now apply settled_blk in H.
  - eapply okr_mono; [|apply (del_ok kcmp TO); [lia|exact Hs|apply ent_34 with (n := m); auto]].
    intros t' H. now apply settled_blk in H.
Qed.
Lemma remove_any (t : tree) n k : blk n t -> srt kcmp (elems t) ->
  match remove kcmp t k with
  | Ok t' => elems t' = drop kcmp k (elems t) /\ exists n', blk n' t'
  | UB NullDeref => t <> Null /\ absent kcmp k (elems t)
  | _ => False
  end.
Proof.
  intros B Hs. destruct t as [|c o l x v r]; [cbn; split; auto; exists 0; constructor|].
  assert (N : Node c o l x v r <> Null) by discriminate.
  pose proof (del_root _ _ k N B Hs) as H. unfold remove.
  destruct (del kcmp (S (size (Node c o l x v r))) (Node c o l x v r) k) as [t'| |[]]; cbn [bind okr] in *; try contradiction; auto.
  destruct H as [E [->|(c' & o' & l' & x' & v' & r' & -> & n' & B')]].
  - split; auto. exists 0. constructor.
  - cbn [set_red]. split; [exact E|]. eauto.
Qed.
Lemma remove_ok (t : tree) n k : blk n t -> srt kcmp (elems t) -> t = Null \/ m_has kcmp (elems t) k = true ->
  exists t' n', remove kcmp t k = Ok t' /\ elems t' = drop kcmp k (elems t) /\ blk n' t'.
Proof.
  intros B Hs H. pose proof (remove_any t n k B Hs) as R. destruct (remove kcmp t k) as [t'| |[]]; try contradiction.
  - destruct R as (E & n' & B'). now exists t', n'.
  - exfalso. destruct R as [N A]. destruct H as [H|H]; [contradiction|]. apply has_absent in A; auto. congruence.
Qed.

(* ---- a key above all others ---- *)
Lemma bind_ok {A B} (m : outcome A) (f : A -> outcome B) b : bind m f = Ok b -> exists a, m = Ok a /\ f a = Ok b.
Proof. destruct m; cbn; try discriminate. intros H. now eexists. Qed.
Lemma set_red_elems b (t t' : tree) : set_red b t = Ok t' -> elems t' = elems t.
Proof. destruct t; [discriminate|]. now injection 1 as <-. Qed.
Lemma left_red_elems b (t t' : tree) : left_red b t = Ok t' -> elems t' = elems t.
Proof.
  destruct t as [|c o [|c' o' l' k' v' r'] k v r]; try discriminate. cbn [left_red left_of bind set_red set_left].
  now injection 1 as <-.
Qed.
Lemma right_red_elems b (t t' : tree) : right_red b t = Ok t' -> elems t' = elems t.
Proof.
  destruct t as [|c o l k v [|c' o' l' k' v' r']]; try discriminate. cbn [right_red right_of bind set_red set_right].
  now injection 1 as <-.
Qed.
Lemma rotR_elems (t t' : tree) : rotR t = Ok t' -> elems t' = elems t.
Proof.
  destruct t as [|c o [|c' o' l' k' v' r'] k v r]; try discriminate. cbn [rotR].
  injection 1 as <-. cbn [elems]. rewrite <- ?app_assoc. reflexivity.
Qed.
Lemma leanRight_elems (t t' : tree) : leanRight t = Ok t' -> elems t' = elems t.
Proof.
  unfold leanRight. intros H. apply bind_ok in H as (a & H1 & H). apply bind_ok in H as (b & H2 & H). apply bind_ok in H as (c & H3 & H).
  apply bind_ok in H as (d & H4 & H). apply rotR_elems in H1. apply set_red_elems in H4. apply right_red_elems in H. congruence.
Qed.
Lemma move_right_elems (t t' : tree) : move_right t = Ok t' -> elems t' = elems t.
Proof.
  unfold move_right. intros H. apply bind_ok in H as (r & H1 & H). apply bind_ok in H as (c & H2 & H). apply bind_ok in H as (rl & H3 & H).
  destruct (negb c && negb (is_red rl)); [|now injection H as <-].
  apply bind_ok in H as (a & H4 & H). apply bind_ok in H as (b & H5 & H). apply bind_ok in H as (l & H6 & H). apply bind_ok in H as (ll & H7 & H).
  apply set_red_elems in H4. apply right_red_elems in H5. destruct (is_red ll).
  - apply bind_ok in H as (d & H8 & H). apply bind_ok in H as (e & H9 & H).
    apply rotR_elems in H8. apply set_red_elems in H9. apply left_red_elems in H. congruence.
  - apply left_red_elems in H. congruence.
Qed.
Lemma del_above fuel : forall (t : tree) k t', (forall e, In e (elems t) -> kcmp k (fst e) = Gt) -> del kcmp fuel t k <> Ok t'.
Proof.
  induction fuel as [|fuel IH]; intros t k t' G H; [discriminate|].
  destruct t as [|c o l x v r]; [discriminate|].
  assert (Ex : kcmp k x = Gt). { apply (G (x, v)). cbn [elems]. apply in_or_app. right. now left. }
  cbn [del key_of bind left_of] in H. unfold ltk at 1 in H. rewrite Ex in H.
  apply bind_ok in H as (h & H1 & H).
  assert (Eh : elems h = elems (Node c o l x v r)). { destruct (is_red l); [now apply leanRight_elems|now injection H1 as <-]. }
  rewrite <- Eh in G. clear H1 Eh c o l x v r Ex. destruct h as [|c o l x v r]; [discriminate|].
  assert (Ex : kcmp k x = Gt). { apply (G (x, v)). cbn [elems]. apply in_or_app. right. now left. }
  cbn [key_of bind right_of] in H. unfold eqk at 1 in H. rewrite Ex in H.
  assert (H' : (let* h := move_right (Node c o l x v r) in
    match h with
    | Null => UB NullDeref
    | Node c o l x v r =>
      let* h := if eqk kcmp k x then
          match r with
          | Null => UB NullDeref
          | Node _ _ rl rk rv _ => let '(mk, mv) := first rl rk rv in let* r := del kcmp fuel r mk in Ok (Node c o l mk mv r)
          end
        else let* r := del kcmp fuel r k in Ok (Node c o l x v r) in
      fixup h
    end) = Ok t') by (destruct r; exact H).
  clear H. apply bind_ok in H' as (h & H1 & H). apply move_right_elems in H1. rewrite <- H1 in G. clear H1 Ex c o l x v r.
  destruct h as [|c o l x v r]; [discriminate|].
  assert (Ex : kcmp k x = Gt). { apply (G (x, v)). cbn [elems]. apply in_or_app. right. now left. }
  unfold eqk at 1 in H. rewrite Ex in H. apply bind_ok in H as (h & H & _). apply bind_ok in H as (r' & H & _).
  revert H. apply IH. intros e He. apply G. cbn [elems]. apply in_or_app. right. now right.
Qed.
Lemma remove_above (t : tree) n k : blk n t -> srt kcmp (elems t) -> t <> Null -> (forall e, In e (elems t) -> kcmp k (fst e) = Gt) ->
  remove kcmp t k = UB NullDeref.
Proof.
  intros B Hs N G. pose proof (del_root t n k N B Hs) as H. unfold remove. destruct t as [|c o l x v r]; [contradiction|].
  pose proof (fun t' => del_above (S (size (Node c o l x v r))) _ k t' G) as A.
  destruct (del kcmp (S (size (Node c o l x v r))) (Node c o l x v r) k) as [t'| |[]]; cbn [okr] in H; try contradiction; auto.
  exfalso. now apply (A t').
Qed.

(* ---- the reference map ---- *)
Lemma put_perm k v (l : elist) : srt kcmp l -> Permutation (put kcmp k v l) (m_add kcmp false l k v).
Proof.
  induction l as [|[x w] l IH]; intros S; [apply Permutation_refl|].
  apply srt_cons in S. destruct S as [Sl Lx]. cbn [fst] in Lx. specialize (IH Sl).
  unfold m_add in *. cbn [put m_has existsb map fst]. unfold m_has in IH. unfold same at 1 3. destruct (kcmp k x) eqn:C; cbn [orb].
  - apply Permutation_refl'. f_equal. symmetry. rewrite <- (map_id l) at 2. apply map_ext_in. intros e He.
    assert (E : kcmp k (fst e) = Lt) by (apply (above kcmp TO k x l Lx); auto; congruence). unfold same. now rewrite E.
  - assert (A : existsb (fun e => same kcmp k (fst e)) l = false).
    { apply has_absent. intros e He. assert (E : kcmp k (fst e) = Lt) by (apply (above kcmp TO k x l Lx); auto; congruence). congruence. }
    rewrite A. apply Permutation_cons_append.
  - destruct (existsb _ l); cbn [app]; now apply perm_skip.
Qed.
Lemma has_perm (l m : elist) k : Permutation l m -> m_has kcmp l k = m_has kcmp m k.
Proof.
  intros P. apply eq_true_iff_eq. rewrite !has_in by auto. split; intros (e & He & C); exists e; (split; [|auto]).
  - eapply Permutation_in; eauto.
  - eapply Permutation_in; [apply Permutation_sym|]; eauto.
Qed.
Lemma find_perm (l m : elist) k : srt kcmp l -> Permutation l m -> m_find kcmp m k = m_find kcmp l k.
Proof.
  intros S P. unfold m_find.
  assert (U : forall e f, In e l -> In f l -> kcmp k (fst e) = Eq -> kcmp k (fst f) = Eq -> e = f).
  { clear P. induction S as [|a l S IH F]; [contradiction|]. rewrite Forall_forall in F.
    intros e f [<-|He] [<-|Hf] Ce Cf; auto; exfalso.
    - specialize (F f Hf). rewrite (cmp_cong kcmp TO _ _ _ Ce) in Cf. congruence.
    - specialize (F e He). rewrite (cmp_cong kcmp TO _ _ _ Cf) in Ce. congruence. }
  destruct (find _ m) as [e|] eqn:E1, (find _ l) as [f|] eqn:E2; auto.
  - apply find_some in E1, E2. destruct E1 as [I1 C1], E2 as [I2 C2]. cbn. f_equal. f_equal. apply U; auto.
    + eapply Permutation_in; [apply Permutation_sym|]; eauto.
    + unfold same in C1. now destruct (kcmp k (fst e)).
    + unfold same in C2. now destruct (kcmp k (fst f)).
  - apply find_some in E1. destruct E1 as [I1 C1]. pose proof (find_none _ _ E2 e) as H. cbn in H. rewrite H in C1; [discriminate|].
    eapply Permutation_in; [apply Permutation_sym|]; eauto.
  - apply find_some in E2. destruct E2 as [I2 C2]. pose proof (find_none _ _ E1 f) as H. cbn in H. rewrite H in C2; [discriminate|].
    eapply Permutation_in; eauto.
Qed.
Lemma add_perm (m m' : elist) k v : Permutation m m' -> Permutation (m_add kcmp false m k v) (m_add kcmp false m' k v).
Proof.
  intros P. unfold m_add. rewrite (has_perm _ _ k P). destruct (m_has kcmp m' k).
  - now apply Permutation_map.
  - now apply Permutation_app_tail.
Qed.
Lemma remove_perm (m m' : elist) k : Permutation m m' -> Permutation (drop kcmp k m) (m_remove kcmp m' k).
Proof.
  intros P. unfold drop, m_remove. induction P; cbn; auto.
  - destruct (negb _); auto.
  - destruct (negb _), (negb _); auto using perm_swap.
  - etransitivity; [exact IHP1|].
    clear - IHP2. exact IHP2.
Qed.

(* ---- height ---- *)
Fixpoint depth (t : tree) : nat := match t with Null => 0 | Node _ _ l _ _ r => S (Nat.max (depth l) (depth r)) end.
Lemma depth_bound (t : tree) :
  (forall n, blk n t -> depth t <= 3 * n /\ 2 ^ n <= S (size t)) /\
  (forall n, red1 n t -> depth t <= 3 * n + 1 /\ 2 ^ n <= size t) /\
  (forall n, red2 n t -> depth t <= 3 * n + 2 /\ 2 ^ n <= size t).
Proof.
  induction t as [|c o l IHl k v r IHr].
  - repeat split; try (inversion H; fail). all: inversion H; cbn; lia.
  - destruct IHl as (A1 & A2 & A3), IHr as (B1 & B2 & B3). split; [|split]; intros n H; inversion H; subst; cbn [depth size]; rewrite ?Nat.pow_succ_r';
    repeat match goal with
    | H : blk _ l |- _ => apply A1 in H
    | H : red1 _ l |- _ => apply A2 in H
    | H : red2 _ l |- _ => apply A3 in H
    | H : blk _ r |- _ => apply B1 in H
    end; lia.
Qed.

(* ---- histories ---- *)
Definition good (t : tree) (m : elist) : Prop := (exists n, blk n t) /\ srt kcmp (elems t) /\ Permutation (elems t) m.
Lemma good_nil : good Null [].
Proof. split; [exists 0; constructor|]. split; [constructor|apply perm_nil]. Qed.
Lemma good_insert t m k v : good t m -> exists t', insert kcmp t k v = Ok t' /\ good t' (m_add kcmp false m k v) /\ (orders t -> orders t').
Proof.
  intros ((n & B) & S & P). destruct (insert_ok kcmp TO t n k v B S) as (t' & n' & E & Ee & B' & O). exists t'. split; auto. split; auto.
  split; [eauto|]. rewrite Ee. split; [now apply put_srt|]. rewrite put_perm by auto. now apply add_perm.
Qed.
Lemma good_null t m : good t m -> m = [] -> t = Null.
Proof.
  intros (_ & _ & P) ->. apply Permutation_sym, Permutation_nil in P. destruct t; auto. cbn in P. now destruct (elems t1).
Qed.
Lemma good_remove t m k : good t m -> m = [] \/ m_has kcmp m k = true -> exists t', remove kcmp t k = Ok t' /\ good t' (m_remove kcmp m k).
Proof.
  intros G H. assert (H' : t = Null \/ m_has kcmp (elems t) k = true).
  { destruct H as [H|H]; [left; now apply (good_null t m)|right]. rewrite (has_perm _ _ k (proj2 (proj2 G))). auto. }
  destruct G as ((n & B) & S & P). destruct (remove_ok t n k B S H') as (t' & n' & E & Ee & B'). exists t'. split; auto.
  split; [eauto|]. rewrite Ee. split; [now apply drop_srt|]. now apply remove_perm.
Qed.
End Hist.
