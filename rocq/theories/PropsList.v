(* C28: the layer list of include/list.h and src/pavement.cpp behaves as a list. *)
From Coq Require Import List ZArith Bool Arith Lia.
From Verif Require Import Base ListModel.
Import ListNotations.
Local Open Scope nat_scope.

(* ---- specification: edits of a list, nothing taken from the model ---- *)
Section Spec.
Context {P : Type}.
(* x becomes element k *)
Definition insert_at (k : nat) (x : P) (l : list P) : list P := firstn k l ++ x :: skipn k l.
(* element k, if there is one, is taken out *)
Definition remove_at (k : nat) (l : list P) : list P := firstn k l ++ skipn (S k) l.

Definition edit (l : list P) (o : lop P) : list P :=
  match o with
  | LAdd x None => l ++ [x]
  | LAdd x (Some p) => insert_at p x l
  | LRemove k => remove_at k l
  | LEmpty => []
  end.
(* Positions given to an insertion are those of existing layers (any position will do
   when there is none). *)
Fixpoint positions_ok (l : list P) (ops : list (lop P)) : Prop :=
  match ops with
  | [] => True
  | o :: ops =>
    match o with
    | LAdd _ (Some p) => l = [] \/ p < length l
    | _ => True
    end /\ positions_ok (edit l o) ops
  end.
End Spec.

(* ---- the chain of elements ---- *)
Section Seg.
Context {P : Type}.
Notation heap_t := (list (option (elem P))).

Definition hdo (l : list (nat * P)) (nx : option nat) : option nat :=
  match l with [] => nx | (a, _) :: _ => Some a end.
Fixpoint lasto (pr : option nat) (l : list (nat * P)) : option nat :=
  match l with [] => pr | (a, _) :: t => lasto (Some a) t end.
Fixpoint seg (h : heap_t) (pr : option nat) (l : list (nat * P)) (nx : option nat) : Prop :=
  match l with
  | [] => True
  | (a, p) :: t => nth_error h a = Some (Some (Elem pr (hdo t nx) p)) /\ seg h (Some a) t nx
  end.

Lemma hdo_app l1 l2 nx : hdo (l1 ++ l2) nx = hdo l1 (hdo l2 nx).
Proof. destruct l1 as [|[a p] t]; reflexivity. Qed.
Lemma lasto_app pr l1 l2 : lasto pr (l1 ++ l2) = lasto (lasto pr l1) l2.
Proof. revert pr; induction l1 as [|[a p] t IH]; intros; simpl; auto. Qed.
Lemma seg_app h pr l1 l2 nx :
  seg h pr (l1 ++ l2) nx <-> seg h pr l1 (hdo l2 nx) /\ seg h (lasto pr l1) l2 nx.
Proof.
  revert pr; induction l1 as [|[a p] t IH]; intros; simpl; [tauto|].
  rewrite IH, hdo_app. tauto.
Qed.
Lemma seg_ext h h' pr l nx :
  (forall a, In a (map fst l) -> nth_error h' a = nth_error h a) -> seg h pr l nx -> seg h' pr l nx.
Proof.
  revert pr; induction l as [|[a p] t IH]; simpl; intros pr H S; [exact I|].
  destruct S as [S1 S2]. split.
  - rewrite H; auto.
  - apply IH; auto.
Qed.
Lemma seg_lt h pr l nx a : seg h pr l nx -> In a (map fst l) -> a < length h.
Proof.
  revert pr; induction l as [|[b p] t IH]; simpl; intros pr S H; [tauto|].
  destruct S as [S1 S2], H as [<-|H].
  - apply nth_error_Some. rewrite S1. discriminate.
  - eauto.
Qed.

Record good (st : owner P) (l : list (nat * P)) : Prop := {
  g_seg : seg (heap st) None l None;
  g_first : first st = hdo l None;
  g_last : last st = lasto None l;
  g_nodup : NoDup (map fst l) }.

Lemma load_some (h : heap_t) a e : nth_error h a = Some (Some e) -> load h (Some a) = Ok e.
Proof. intros E; simpl; rewrite E; reflexivity. Qed.

Lemma set_prev_ok (h : heap_t) a e x :
  nth_error h a = Some (Some e) ->
  set_prev h (Some a) x = Ok (upd h a (Some (Elem x (enext e) (epay e)))).
Proof.
  intros E. unfold set_prev. rewrite (load_some _ _ _ E). cbn [bind].
  unfold aset. rewrite (proj2 (Nat.ltb_lt _ _)); [reflexivity|].
  apply nth_error_Some. rewrite E. discriminate.
Qed.
Lemma set_next_ok (h : heap_t) a e x :
  nth_error h a = Some (Some e) ->
  set_next h (Some a) x = Ok (upd h a (Some (Elem (eprev e) x (epay e)))).
Proof.
  intros E. unfold set_next. rewrite (load_some _ _ _ E). cbn [bind].
  unfold aset. rewrite (proj2 (Nat.ltb_lt _ _)); [reflexivity|].
  apply nth_error_Some. rewrite E. discriminate.
Qed.

(* The cells of the chain with the last element's next or the first one's prev changed. *)
Lemma seg_set_last h pr l nx a p nx' :
  seg h pr (l ++ [(a, p)]) nx -> ~ In a (map fst l) ->
  seg (upd h a (Some (Elem (lasto pr l) nx' p))) pr (l ++ [(a, p)]) nx'.
Proof.
  rewrite !seg_app. intros [S1 [S2 _]] H. split.
  - apply seg_ext with h; [|exact S1]. intros b B. apply nth_error_upd_ne. intros ->. auto.
  - simpl. split; [|exact I]. apply nth_error_upd_eq. apply nth_error_Some. rewrite S2. discriminate.
Qed.
Lemma seg_set_first h pr l nx a p pr' :
  seg h pr ((a, p) :: l) nx -> ~ In a (map fst l) ->
  seg (upd h a (Some (Elem pr' (hdo l nx) p))) pr' ((a, p) :: l) nx.
Proof.
  simpl. intros [S1 S2] H. split.
  - apply nth_error_upd_eq. apply nth_error_Some. rewrite S1. discriminate.
  - apply seg_ext with h; [|exact S2]. intros b B. apply nth_error_upd_ne. intros ->. auto.
Qed.
End Seg.

Section Proofs.
Context {P : Type}.
Notation heap_t := (list (option (elem P))).

Lemma app_last_inv {A} (l : list A) : l = [] \/ exists l' x, l = l' ++ [x].
Proof.
  destruct l as [|a l]; [left; auto|right].
  destruct (exists_last (l := a :: l)) as (l' & x & E); [discriminate|]. eauto.
Qed.

Lemma nth_app_new {A} (h : list A) x b : b < length h -> nth_error (h ++ [x]) b = nth_error h b.
Proof. apply nth_error_app1. Qed.

(* ---- construction ---- *)

(* append: the previous element is the last one, there is no next one *)
Lemma new_elem_append (st : owner P) l x :
  good st l ->
  exists st' a, new_elem st (last st) None x = Ok st' /\ good st' (l ++ [(a, x)]).
Proof.
  intros [S F L N]. unfold new_elem. set (this := length (heap st)).
  assert (T : ~ In this (map fst l)).
  { intros H. pose proof (seg_lt _ _ _ _ _ S H). unfold this in *. lia. }
  destruct (app_last_inv l) as [->|(l' & [q pq] & ->)].
  - simpl in F, L. rewrite L. cbn [link_d is_null negb bind].
    unfold link_o. cbn [heap first last].
    assert (E : nth_error (heap st ++ [Some (Elem None None x)]) this = Some (Some (Elem None None x))).
    { unfold this. rewrite nth_error_app2, Nat.sub_diag; [reflexivity|lia]. }
    rewrite (load_some _ _ _ E). cbn [bind eprev enext is_null andb].
    rewrite (set_prev_ok _ _ _ _ E). cbn [bind enext epay is_null negb heap first last].
    assert (E' : nth_error (upd (heap st ++ [Some (Elem None None x)]) this (Some (Elem None None x))) this = Some (Some (Elem None None x))).
    { apply nth_error_upd_eq. rewrite app_length; simpl; unfold this; lia. }
    rewrite (load_some _ _ _ E'). cbn [bind eprev enext is_null].
    rewrite F. cbn [same_ptr negb bind heap first last].
    rewrite ?L. cbn [same_ptr negb bind heap first last].
    do 2 eexists. split; [reflexivity|]. split; cbn [heap first last].
    + split; [exact E'|exact I].
    + reflexivity.
    + reflexivity.
    + constructor; [intros []|constructor].
  - rewrite lasto_app in L. simpl in L. rewrite L.
    pose proof S as S0. apply seg_app in S0. destruct S0 as [S1 [S2 _]]. simpl in S2.
    assert (Q : q < length (heap st)) by (apply nth_error_Some; rewrite S2; discriminate).
    assert (QT : q <> this) by (unfold this; lia).
    assert (NQ : ~ In q (map fst l')).
    { rewrite map_app in N. apply NoDup_remove_2 in N. rewrite app_nil_r in N. exact N. }
    set (h0 := heap st ++ [Some (Elem (Some q) None x)]).
    assert (E0 : nth_error h0 q = Some (Some (Elem (lasto None l') None pq))).
    { unfold h0. rewrite nth_app_new by exact Q. exact S2. }
    assert (E1 : nth_error h0 this = Some (Some (Elem (Some q) None x))).
    { unfold h0, this. rewrite nth_error_app2, Nat.sub_diag; [reflexivity|lia]. }
    unfold link_d. cbn [is_null negb].
    rewrite (load_some _ _ _ E0). cbn [bind enext].
    rewrite (set_next_ok _ _ _ _ E0). cbn [bind eprev epay].
    set (h1 := upd h0 q _).
    assert (E2 : nth_error h1 this = Some (Some (Elem (Some q) None x))).
    { unfold h1. rewrite nth_error_upd_ne by congruence. exact E1. }
    unfold link_o. cbn [heap first last].
    rewrite (load_some _ _ _ E2). cbn [bind eprev enext is_null andb heap first last].
    rewrite (load_some _ _ _ E2). cbn [bind eprev enext is_null heap first last].
    cbn [same_ptr]. rewrite Nat.eqb_refl. cbn [negb].
    do 2 eexists. split; [reflexivity|].
    assert (SS : seg h0 None (l' ++ [(q, pq)]) None).
    { apply seg_ext with (heap st); [|exact S]. intros b B. unfold h0. apply nth_app_new.
      exact (seg_lt _ _ _ _ _ S B). }
    split; cbn [heap first last].
    + apply seg_app. split.
      * apply (seg_set_last _ _ _ _ _ _ (Some this)) with (1 := SS) (2 := NQ).
      * rewrite lasto_app. simpl. split; [exact E2|exact I].
    + rewrite F. rewrite !hdo_app. destruct l' as [|[? ?] ?]; reflexivity.
    + rewrite !lasto_app. reflexivity.
    + rewrite map_app. simpl.
      rewrite <- (rev_involutive (map fst (l' ++ [(q, pq)]) ++ [this])).
      apply NoDup_rev. rewrite rev_app_distr. simpl. constructor.
      * rewrite <- in_rev. exact T.
      * apply NoDup_rev. exact N.
Qed.

(* insertion before the element n *)
Lemma new_elem_before (st : owner P) l1 n pn l2 x :
  good st (l1 ++ (n, pn) :: l2) ->
  exists st' a, new_elem st None (Some n) x = Ok st' /\ good st' (l1 ++ (a, x) :: (n, pn) :: l2).
Proof.
  intros [S F L N]. unfold new_elem. set (this := length (heap st)).
  assert (T : ~ In this (map fst (l1 ++ (n, pn) :: l2))).
  { intros H. pose proof (seg_lt _ _ _ _ _ S H). unfold this in *. lia. }
  assert (NN : ~ In n (map fst l1) /\ ~ In n (map fst l2)).
  { rewrite map_app in N. simpl in N. apply NoDup_remove_2 in N. rewrite in_app_iff in N. tauto. }
  set (h0 := heap st ++ [Some (Elem None (Some n) x)]).
  assert (E1 : nth_error h0 this = Some (Some (Elem None (Some n) x))).
  { unfold h0, this. rewrite nth_error_app2, Nat.sub_diag; [reflexivity|lia]. }
  assert (SS : seg h0 None (l1 ++ (n, pn) :: l2) None).
  { apply seg_ext with (heap st); [|exact S]. intros b B. unfold h0. apply nth_app_new.
    exact (seg_lt _ _ _ _ _ S B). }
  assert (NT : n <> this).
  { intros ->. apply T. rewrite map_app. simpl. rewrite in_app_iff. simpl. auto. }
  assert (ND : NoDup (map fst (l1 ++ (this, x) :: (n, pn) :: l2))).
  { rewrite map_app in *. simpl in *.
    apply NoDup_Add with (a := this) (l := map fst l1 ++ n :: map fst l2).
    - apply Add_app.
    - auto. }
  pose proof SS as S0. apply seg_app in S0. destruct S0 as [S1 S2].
  pose proof S2 as [S3 S4].
  destruct (app_last_inv l1) as [->|(l' & [q pq] & ->)].
  - (* new first element *)
    cbn [map fst lasto app hdo] in *.
    unfold link_d. cbn [is_null negb].
    rewrite (load_some _ _ _ S3). cbn [bind eprev].
    rewrite (set_prev_ok _ _ _ _ S3). cbn [bind enext epay].
    set (h1 := upd h0 n _).
    assert (E2 : nth_error h1 this = Some (Some (Elem None (Some n) x))).
    { unfold h1. rewrite nth_error_upd_ne by congruence. exact E1. }
    unfold link_o. cbn [heap first last].
    rewrite (load_some _ _ _ E2). cbn [bind eprev enext is_null andb heap first last].
    rewrite (load_some _ _ _ E2). cbn [bind eprev enext is_null heap first last].
    rewrite F. cbn [hdo same_ptr]. rewrite Nat.eqb_refl. cbn [negb bind heap first last].
    do 2 eexists. split; [reflexivity|]. split; cbn [heap first last].
    + split; [exact E2|]. apply (seg_set_first _ _ _ _ _ _ (Some this) SS). tauto.
    + reflexivity.
    + rewrite L. reflexivity.
    + exact ND.
  - rewrite map_app in NN. cbn [map fst] in NN. rewrite in_app_iff in NN. cbn [In] in NN.
    rewrite lasto_app in S3, S2. cbn [lasto] in S3, S2.
    assert (NQ : ~ In q (map fst l')).
    { rewrite <- app_assoc in N. rewrite map_app in N. cbn [map fst app] in N.
      apply NoDup_remove_2 in N. rewrite in_app_iff in N. tauto. }
    assert (QT : q <> this).
    { intros ->. apply T. rewrite !map_app, !in_app_iff. simpl. auto. }
    assert (QL2 : ~ In q (map fst l2)).
    { rewrite <- app_assoc in N. rewrite map_app in N. cbn [map fst app] in N.
      apply NoDup_remove_2 in N. rewrite in_app_iff in N. simpl in N. tauto. }
    assert (TL : ~ In this (map fst l') /\ ~ In this (map fst l2)).
    { rewrite !map_app, !in_app_iff in T. simpl in T. tauto. }
    unfold link_d. cbn [is_null negb].
    rewrite (load_some _ _ _ S3). cbn [bind eprev andb].
    rewrite (set_prev_ok _ _ _ _ E1). cbn [bind enext epay].
    set (h1 := upd h0 this _).
    assert (H1 : forall b, b <> this -> nth_error h1 b = nth_error h0 b).
    { intros b B. unfold h1. apply nth_error_upd_ne. congruence. }
    pose proof S1 as S5. apply seg_app in S5. destruct S5 as [S5 [S6 _]].
    cbn [hdo] in S5, S6.
    assert (E3 : nth_error h1 q = Some (Some (Elem (lasto None l') (Some n) pq))).
    { rewrite H1 by congruence. exact S6. }
    rewrite (set_next_ok _ _ _ _ E3). cbn [bind eprev epay].
    set (h2 := upd h1 q _).
    assert (E4 : nth_error h2 n = Some (Some (Elem (Some q) (hdo l2 None) pn))).
    { unfold h2. rewrite nth_error_upd_ne by (intros ->; tauto). rewrite H1 by congruence. exact S3. }
    rewrite (set_prev_ok _ _ _ _ E4). cbn [bind enext epay].
    set (h3 := upd h2 n _).
    assert (E5 : nth_error h3 this = Some (Some (Elem (Some q) (Some n) x))).
    { unfold h3. rewrite nth_error_upd_ne by congruence. unfold h2. rewrite nth_error_upd_ne by congruence.
      unfold h1. apply nth_error_upd_eq. unfold h0. rewrite app_length. simpl. unfold this. lia. }
    unfold link_o. cbn [heap first last].
    rewrite (load_some _ _ _ E5). cbn [bind eprev enext is_null andb heap first last].
    rewrite (load_some _ _ _ E5). cbn [bind eprev enext is_null heap first last].
    do 2 eexists. split; [reflexivity|]. split; cbn [heap first last].
    + apply seg_app. split.
      * apply seg_app. split.
        -- apply seg_ext with h0; [|exact S5]. intros b B. unfold h3.
           rewrite nth_error_upd_ne by (intros ->; tauto).
           unfold h2. rewrite nth_error_upd_ne by (intros ->; tauto).
           apply H1. intros ->. tauto.
        -- split; [|exact I]. unfold h3. rewrite nth_error_upd_ne by (intros ->; tauto).
           unfold h2. apply nth_error_upd_eq. apply nth_error_Some. rewrite E3. discriminate.
      * rewrite lasto_app. cbn [lasto]. split; [exact E5|]. split.
        -- unfold h3. apply nth_error_upd_eq. apply nth_error_Some. rewrite E4. discriminate.
        -- apply seg_ext with h0; [|exact S4]. intros b B. unfold h3.
           rewrite nth_error_upd_ne by (intros ->; tauto).
           unfold h2. rewrite nth_error_upd_ne by (intros ->; tauto).
           apply H1. intros ->. tauto.
    + rewrite F. rewrite !hdo_app. destruct l' as [|[? ?] ?]; reflexivity.
    + rewrite L. rewrite !lasto_app. reflexivity.
    + exact ND.
Qed.

(* ---- destruction ---- *)
Lemma delete_elem_ok (st : owner P) l1 n pn l2 :
  good st (l1 ++ (n, pn) :: l2) ->
  exists st', delete_elem st (Some n) = Ok st' /\ good st' (l1 ++ l2).
Proof.
  intros [S F L N].
  assert (ND : NoDup (map fst (l1 ++ l2))).
  { rewrite map_app in *. simpl in N. eapply NoDup_remove_1; eauto. }
  assert (NN : ~ In n (map fst l1) /\ ~ In n (map fst l2)).
  { rewrite map_app in N. simpl in N. apply NoDup_remove_2 in N. rewrite in_app_iff in N. tauto. }
  pose proof S as S0. apply seg_app in S0. destruct S0 as [S1 [S3 S4]]. cbn [hdo] in S1.
  unfold delete_elem. rewrite (load_some _ _ _ S3). cbn [bind eprev enext].
  assert (NL : n < length (heap st)) by (apply nth_error_Some; rewrite S3; discriminate).
  destruct (app_last_inv l1) as [->|(l' & [q pq] & ->)].
  - cbn [lasto is_null].
    destruct l2 as [|[m pm] l2].
    + cbn [hdo is_null heap first last bind].
      unfold aset. rewrite (proj2 (Nat.ltb_lt _ _)) by exact NL. cbn [bind].
      eexists. split; [reflexivity|]. split; simpl; auto; constructor.
    + cbn [hdo is_null heap first last bind].
      cbn [map fst In] in NN.
      pose proof S4 as [S6 S7].
      rewrite (set_prev_ok _ _ _ _ S6). cbn [bind enext epay].
      unfold aset. rewrite (proj2 (Nat.ltb_lt _ _)) by (rewrite length_upd; exact NL). cbn [bind].
      eexists. split; [reflexivity|]. split; cbn [heap first last]; auto.
      * apply seg_ext with (upd (heap st) m (Some (Elem None (hdo l2 None) pm))).
        -- intros b B. apply nth_error_upd_ne. intros ->. cbn [app map fst In] in B. tauto.
        -- apply (seg_set_first _ _ _ _ _ _ None S4).
           simpl in ND. inversion ND; auto.
  - rewrite map_app in NN. cbn [map fst] in NN. rewrite in_app_iff in NN. cbn [In] in NN.
    rewrite lasto_app. cbn [lasto is_null].
    pose proof S1 as S5. apply seg_app in S5. destruct S5 as [S5 [S6 _]].
    cbn [hdo] in S5, S6.
    assert (NQ : ~ In q (map fst l') /\ ~ In q (map fst l2)).
    { rewrite <- app_assoc in N. rewrite map_app in N. cbn [map fst app] in N.
      apply NoDup_remove_2 in N. rewrite in_app_iff in N. cbn [In] in N. tauto. }
    destruct l2 as [|[m pm] l2].
    + cbn [hdo is_null heap first last bind].
      rewrite (set_next_ok _ _ _ _ S6). cbn [bind eprev epay].
      unfold aset. rewrite (proj2 (Nat.ltb_lt _ _)) by (rewrite length_upd; exact NL). cbn [bind].
      eexists. split; [reflexivity|]. split; cbn [heap first last]; auto.
      * rewrite app_nil_r.
        apply seg_ext with (upd (heap st) q (Some (Elem (lasto None l') None pq))).
        -- intros b B. apply nth_error_upd_ne. intros ->. rewrite map_app, in_app_iff in B. simpl in B. tauto.
        -- apply (seg_set_last _ _ _ _ _ _ None S1). tauto.
      * rewrite F, !hdo_app. destruct l' as [|[? ?] ?]; reflexivity.
      * rewrite app_nil_r, lasto_app. reflexivity.
    + cbn [map fst In] in NN, NQ. cbn [hdo is_null heap first last bind].
      rewrite (set_next_ok _ _ _ _ S6). cbn [bind eprev epay].
      set (h1 := upd (heap st) q _).
      pose proof S4 as [S7 S8].
      assert (NM : ~ In m (map fst l') /\ ~ In m (map fst l2)).
      { rewrite map_app in ND. cbn [map fst app] in ND.
        apply NoDup_remove_2 in ND. rewrite map_app, !in_app_iff in ND. cbn [In map fst] in ND. tauto. }
      assert (E1 : nth_error h1 m = Some (Some (Elem (Some n) (hdo l2 None) pm))).
      { unfold h1. rewrite nth_error_upd_ne by (intros ->; tauto). exact S7. }
      rewrite (set_prev_ok _ _ _ _ E1). cbn [bind enext epay].
      unfold aset. rewrite (proj2 (Nat.ltb_lt _ _)) by (unfold h1; rewrite !length_upd; exact NL). cbn [bind].
      set (h2 := upd h1 m _).
      eexists. split; [reflexivity|]. split; cbn [heap first last]; auto.
      * apply seg_ext with h2.
        { intros b B. apply nth_error_upd_ne. intros ->.
          rewrite !map_app, !in_app_iff in B. cbn [In map fst] in B. tauto. }
        apply seg_app. split.
        -- apply seg_app. split.
           ++ apply seg_ext with (heap st); [|exact S5]. intros b B. unfold h2, h1.
              rewrite !nth_error_upd_ne by (intros ->; tauto). reflexivity.
           ++ split; [|exact I]. unfold h2. rewrite nth_error_upd_ne by (intros ->; tauto).
              unfold h1. apply nth_error_upd_eq. apply nth_error_Some. rewrite S6. discriminate.
        -- rewrite lasto_app. cbn [lasto]. split.
           ++ unfold h2. apply nth_error_upd_eq. apply nth_error_Some. rewrite E1. discriminate.
           ++ apply seg_ext with (heap st); [|exact S8]. intros b B. unfold h2, h1.
              rewrite !nth_error_upd_ne by (intros ->; tauto). reflexivity.
      * rewrite F, !hdo_app. destruct l' as [|[? ?] ?]; reflexivity.
      * rewrite L, !lasto_app. reflexivity.
Qed.

(* ---- walks ---- *)
Lemma walk_inside_ok (h : heap_t) pr l n :
  seg h pr l None -> l <> [] ->
  exists l1 a p l2, l = l1 ++ (a, p) :: l2 /\ length l1 = Nat.min n (pred (length l)) /\
    walk_inside n h (hdo l None) = Ok (Some a).
Proof.
  revert pr l; induction n; intros pr l S H.
  - destruct l as [|[a p] t]; [congruence|]. exists [], a, p, t. auto.
  - destruct l as [|[a p] t]; [congruence|]. destruct S as [S1 S2].
    cbn [walk_inside hdo]. rewrite (load_some _ _ _ S1). cbn [bind enext].
    destruct t as [|[b q] t].
    + exists [], a, p, []. simpl. auto.
    + destruct (IHn _ _ S2) as (l1 & c & pc & l2 & E & EL & W); [discriminate|].
      exists ((a, p) :: l1), c, pc, l2. split; [simpl; f_equal; exact E|].
      split; [cbn [length pred] in *; lia|].
      cbn [hdo is_null] in *. exact W.
Qed.
Lemma walk_out_ok (h : heap_t) pr l n :
  seg h pr l None ->
  walk_out n h (hdo l None) = Ok (option_map fst (nth_error l n)).
Proof.
  revert pr l; induction n; intros pr l S.
  - destruct l as [|[a p] t]; reflexivity.
  - destruct l as [|[a p] t]; [reflexivity|]. destruct S as [S1 S2].
    cbn [walk_out hdo is_null]. rewrite (load_some _ _ _ S1). cbn [bind enext nth_error]. eauto.
Qed.
Lemma trace_forward (h : heap_t) pr l fuel :
  seg h pr l None -> length l <= fuel -> trace enext fuel h (hdo l None) = Ok (map snd l).
Proof.
  revert pr l; induction fuel; intros pr l S H; destruct l as [|[a p] t]; simpl in H; try lia; auto.
  destruct S as [S1 S2]. cbn [trace hdo]. rewrite (load_some _ _ _ S1). cbn [bind enext epay].
  rewrite (IHfuel _ _ S2) by lia. reflexivity.
Qed.
Lemma trace_backward (h : heap_t) l : forall nx fuel,
  seg h None l nx -> length l <= fuel -> trace eprev fuel h (lasto None l) = Ok (rev (map snd l)).
Proof.
  induction l as [|[a p] l IH] using rev_ind; intros nx fuel S H.
  - destruct fuel; reflexivity.
  - rewrite app_length in H. simpl in H. destruct fuel; [lia|].
    apply seg_app in S. destruct S as [S1 [S2 _]].
    rewrite lasto_app. cbn [lasto trace]. rewrite (load_some _ _ _ S2). cbn [bind eprev epay].
    rewrite (IH _ _ S1) by lia. cbn [bind]. rewrite map_app, rev_app_distr. reflexivity.
Qed.
Lemma olength_loop_ok (h : heap_t) pr l fuel :
  seg h pr l None -> length l <= fuel -> olength_loop fuel h (hdo l None) = Ok (length l).
Proof.
  revert pr l; induction fuel; intros pr l S H; destruct l as [|[a p] t]; simpl in H; try lia; auto.
  destruct S as [S1 S2]. cbn [olength_loop hdo]. rewrite (load_some _ _ _ S1). cbn [bind enext].
  rewrite (IHfuel _ _ S2) by lia. reflexivity.
Qed.
Lemma oempty_loop_ok fuel : forall (st : owner P) l,
  good st l -> length l <= fuel -> exists st', oempty_loop fuel st = Ok st' /\ good st' [].
Proof.
  induction fuel; intros st l G H; destruct l as [|[a p] t]; simpl in H; try lia.
  - pose proof (g_first _ _ G) as F. simpl in F. cbn [oempty_loop]. rewrite F. eauto.
  - pose proof (g_first _ _ G) as F. simpl in F. cbn [oempty_loop]. rewrite F. eauto.
  - pose proof (g_first _ _ G) as F. simpl in F. cbn [oempty_loop]. rewrite F.
    destruct (delete_elem_ok st [] a p t G) as (st' & E & G').
    rewrite E. cbn [bind]. apply (IHfuel st' t); [exact G'|lia].
Qed.
Lemma good_length (st : owner P) l : good st l -> length l <= length (heap st).
Proof.
  intros [S _ _ N]. rewrite <- (map_length fst l), <- (seq_length (length (heap st)) 0).
  apply NoDup_incl_length; [exact N|]. intros a A. apply in_seq.
  pose proof (seg_lt _ _ _ _ _ S A). lia.
Qed.

Lemma good_new : good (onew : owner P) [].
Proof. split; simpl; auto. constructor. Qed.

Lemma addlayer_ok (st : owner P) l x p :
  good st l ->
  exists st' l', addlayer st x p = Ok st' /\ good st' l' /\
    map snd l' = match p with
                 | None => map snd l ++ [x]
                 | Some p => insert_at (Nat.min p (pred (length l))) x (map snd l)
                 end.
Proof.
  intros G. unfold addlayer. pose proof (g_first _ _ G) as F.
  destruct p as [p|].
  - destruct l as [|[a pa] t] eqn:EL.
    + simpl in F. rewrite F. cbn [is_null bind].
      destruct (new_elem_append st [] x G) as (st' & b & E & G').
      do 2 eexists. split; [exact E|]. split; [exact G'|].
      rewrite Nat.min_0_r. reflexivity.
    + rewrite <- EL in *. rewrite F.
      assert (NE : l <> []) by (rewrite EL; discriminate).
      assert (H : is_null (hdo l None) = false) by (rewrite EL; reflexivity).
      rewrite H.
      destruct (walk_inside_ok _ None l p (g_seg _ _ G) NE) as (l1 & n & pn & l2 & E & LL & W).
      rewrite W. cbn [bind is_null].
      clear EL. subst l. destruct (new_elem_before st l1 n pn l2 x G) as (st' & b & EE & G').
      do 2 eexists. split; [exact EE|]. split; [exact G'|].
      unfold insert_at. rewrite <- LL, !map_app.
      rewrite <- (map_length snd l1). rewrite firstn_app, skipn_app, Nat.sub_diag.
      rewrite firstn_all, skipn_all. simpl. rewrite app_nil_r. reflexivity.
  - cbn [bind is_null]. destruct (new_elem_append st l x G) as (st' & b & E & G').
    do 2 eexists. split; [exact E|]. split; [exact G'|]. rewrite map_app. reflexivity.
Qed.
Lemma removelayer_ok (st : owner P) l k :
  good st l ->
  exists st' l', removelayer st k = Ok st' /\ good st' l' /\ map snd l' = remove_at k (map snd l).
Proof.
  intros G. unfold removelayer. rewrite (g_first _ _ G).
  rewrite (walk_out_ok _ None l k (g_seg _ _ G)). cbn [bind].
  destruct (nth_error l k) as [[n pn]|] eqn:E; cbn [option_map fst].
  - apply nth_error_split in E. destruct E as (l1 & l2 & -> & LL).
    destruct (delete_elem_ok st l1 n pn l2 G) as (st' & EE & G').
    do 2 eexists. split; [exact EE|]. split; [exact G'|].
    unfold remove_at. rewrite !map_app. cbn [map]. rewrite <- LL, <- (map_length snd l1).
    rewrite firstn_app, Nat.sub_diag, firstn_all. simpl firstn. rewrite app_nil_r.
    f_equal. rewrite skipn_app. rewrite skipn_all2 by lia.
    replace (S (length (map snd l1)) - length (map snd l1)) with 1 by lia. reflexivity.
  - exists st, l. split; [reflexivity|]. split; [exact G|].
    apply nth_error_None in E. unfold remove_at.
    rewrite firstn_all2, skipn_all2 by (rewrite map_length; lia). rewrite app_nil_r. reflexivity.
Qed.

(* The edit with the position limited to the last layer. *)
Definition edit' (l : list P) (o : lop P) : list P :=
  match o with
  | LAdd x (Some p) => insert_at (Nat.min p (pred (length l))) x l
  | _ => edit l o
  end.
Lemma lstep_ok (st : owner P) l o :
  good st l -> exists st' l', lstep st o = Ok st' /\ good st' l' /\ map snd l' = edit' (map snd l) o.
Proof.
  intros G. destruct o as [x p|k|]; cbn [lstep edit' edit].
  - destruct (addlayer_ok st l x p G) as (st' & l' & E & G' & M).
    do 2 eexists. split; [exact E|]. split; [exact G'|]. rewrite map_length. destruct p; exact M.
  - apply removelayer_ok; exact G.
  - unfold removelayers. destruct (oempty_loop_ok _ _ _ G (good_length _ _ G)) as (st' & E & G').
    exists st', []. auto.
Qed.
Lemma lrun_ok ops : forall (st : owner P) l,
  good st l -> positions_ok (map snd l) ops ->
  exists st' l', lrun st ops = Ok st' /\ good st' l' /\ map snd l' = fold_left edit ops (map snd l).
Proof.
  induction ops as [|o ops IH]; intros st l G W; cbn [lrun fold_left].
  - eauto.
  - destruct W as [W1 W2].
    destruct (lstep_ok st l o G) as (st' & l' & E & G' & M).
    assert (EE : edit' (map snd l) o = edit (map snd l) o).
    { destruct o as [x [p|]|k|]; try reflexivity. cbn [edit' edit].
      destruct W1 as [W1|W1].
      - rewrite W1. simpl. unfold insert_at. rewrite !firstn_nil, !skipn_nil. reflexivity.
      - rewrite Nat.min_l by lia. reflexivity. }
    rewrite EE in M. rewrite E. cbn [bind].
    rewrite <- M in W2. destruct (IH st' l' G' W2) as (st2 & l2 & E2 & G2 & M2).
    do 2 eexists. split; [exact E2|]. split; [exact G2|]. rewrite M2, M. reflexivity.
Qed.
Lemma lrun_safe ops : forall (st : owner P) l,
  good st l -> exists st' l', lrun st ops = Ok st' /\ good st' l' /\ map snd l' = fold_left edit' ops (map snd l).
Proof.
  induction ops as [|o ops IH]; intros st l G; cbn [lrun fold_left]; [eauto|].
  destruct (lstep_ok st l o G) as (st' & l' & E & G' & M). rewrite E. cbn [bind].
  destruct (IH st' l' G') as (st2 & l2 & E2 & G2 & M2).
  do 2 eexists. split; [exact E2|]. split; [exact G2|]. rewrite M2, M. reflexivity.
Qed.
Lemma good_observe (st : owner P) l :
  good st l ->
  forward st = Ok (map snd l) /\ backward st = Ok (rev (map snd l)) /\ olength st = Ok (length (map snd l)) /\
  forall k x, nth_error (map snd l) k = Some x -> layer st k = Ok x.
Proof.
  intros G. pose proof (good_length _ _ G) as GL. destruct G as [S F L N].
  unfold forward, backward, olength, layer. rewrite F, L.
  split; [eapply trace_forward; eauto|]. split; [eapply trace_backward; eauto|].
  split; [rewrite map_length; eapply olength_loop_ok; eauto|].
  intros k x K.
  assert (NE : l <> []) by (intros ->; destruct k; discriminate).
  destruct (walk_inside_ok _ None l k S NE) as (l1 & n & pn & l2 & E & LL & W).
  rewrite W. cbn [bind].
  assert (k < length l).
  { rewrite <- (map_length snd). apply nth_error_Some. rewrite K. discriminate. }
  rewrite Nat.min_l in LL by lia. subst l.
  apply seg_app in S. destruct S as [_ [S _]].
  rewrite (load_some _ _ _ S). cbn [bind epay].
  rewrite map_app in K. rewrite nth_error_app2 in K by (rewrite map_length; lia).
  rewrite map_length, LL, Nat.sub_diag in K. simpl in K. congruence.
Qed.
End Proofs.

(* C28.  Every history of edits, with insertions at positions of existing layers, runs
   without a fault; the layers are then those of the same edits of a list, in the same
   order along next and in the reverse order along prev; layer k is element k. *)
Theorem C28_layer_list :
  forall (P : Type) (ops : list (lop P)),
  positions_ok [] ops ->
  exists st, lrun onew ops = Ok st /\
    forward st = Ok (fold_left edit ops []) /\
    backward st = Ok (rev (fold_left edit ops [])) /\
    olength st = Ok (length (fold_left edit ops [])) /\
    forall k x, nth_error (fold_left edit ops []) k = Some x -> layer st k = Ok x.
Proof.
  intros P ops H.
  destruct (lrun_ok ops onew [] good_new H) as (st & l & E & G & M).
  exists st. split; [exact E|]. cbn [map] in M. rewrite <- M. apply good_observe. exact G.
Qed.
Print Assumptions C28_layer_list.
Example C28_layer_list_ex :
  let ops := [LAdd 10 None; LAdd 20 None; LAdd 30 (Some 1); LAdd 40 (Some 0); LRemove 2; LRemove 7; LAdd 50 None] in
  positions_ok [] ops /\ fold_left edit ops [] = [40; 10; 20; 50] /\
  bind (lrun onew ops) backward = Ok [50; 20; 10; 40].
Proof. cbn [positions_ok edit]. repeat split; try (right; simpl; lia); reflexivity. Qed.

(* No position at all makes the list unsound: it runs without a fault and the links along
   next and prev stay mutually consistent. *)
Theorem C28_links_consistent :
  forall (P : Type) (ops : list (lop P)),
  exists st l, lrun onew ops = Ok st /\ forward st = Ok l /\ backward st = Ok (rev l) /\ olength st = Ok (length l).
Proof.
  intros P ops. destruct (lrun_safe ops onew [] good_new) as (st & l & E & G & _).
  destruct (good_observe st l G) as (A & B & C & _).
  exists st, (map snd l). auto.
Qed.
Print Assumptions C28_links_consistent.
Example C28_links_consistent_ex :
  bind (lrun onew [LAdd 1 (Some 9); LAdd 2 (Some 9); LEmpty; LAdd 3 None; LAdd 4 (Some 5)]) forward = Ok [4; 3].
Proof. reflexivity. Qed.

(* A position one past the last layer inserts before the last layer, not at that position. *)
Theorem C28_position_past_end_refuted :
  exists (ops : list (lop nat)) (p : nat),
    positions_ok [] ops /\ p = length (fold_left edit ops []) /\
    bind (lrun onew (ops ++ [LAdd 3 (Some p)])) forward <> Ok (fold_left edit (ops ++ [LAdd 3 (Some p)]) []).
Proof.
  exists [LAdd 1 None; LAdd 2 None], 2. split; [cbn; auto|]. split; [reflexivity|].
  vm_compute. congruence.
Qed.
(* Asking an empty system for a layer dereferences a null pointer. *)
Theorem C28_layer_of_empty_refuted :
  exists k, layer (@onew nat) k = UB NullDeref.
Proof. exists 1. reflexivity. Qed.
