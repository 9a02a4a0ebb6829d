(* Proofs about LlrbModel: simulation by an inductive coloured tree, the 2-3-4 tree
   invariant, and queries. *)
From Coq Require Import List ZArith Lia Bool Arith Permutation Sorted.
From Verif Require Import Base MapSpec LlrbModel AvlProofs AvlRemove AvlQueries.
Import ListNotations.
Open Scope Z_scope.

Section P.
Context {K V : Type}.
Notation lnode := (lnode K V).

Inductive ct : Type :=
| LE
| LT (c : bool) (l : ct) (i : nat) (k : K) (v : V) (r : ct).

Fixpoint lsize (t : ct) : nat :=
  match t with LE => 0 | LT _ l _ _ _ r => lsize l + lsize r + 1 end%nat.
Fixpoint lht (t : ct) : nat :=
  match t with LE => 0 | LT _ l _ _ _ r => Nat.max (lht l) (lht r) + 1 end%nat.
Fixpoint lelems (t : ct) : list (nat * (K * V)) :=
  match t with LE => [] | LT _ l i k v r => lelems l ++ (i, (k, v)) :: lelems r end.
Definition lidx (t : ct) : list nat := map fst (lelems t).

Fixpoint lrep (a : list lnode) (o : option nat) (t : ct) : Prop :=
  match t with
  | LE => o = None
  | LT c l i k v r =>
    o = Some i /\
    exists n, nth_error a i = Some n /\ lkey n = k /\ lval n = v /\
      lorder n = Z.of_nat (lsize l) /\ lred n = c /\
      lrep a (lleft n) l /\ lrep a (lright n) r
  end.

Lemma lsize_elems t : lsize t = length (lelems t).
Proof. induction t; simpl; auto. rewrite app_length; simpl; lia. Qed.
Lemma lidx_T c l i k v r : lidx (LT c l i k v r) = lidx l ++ i :: lidx r.
Proof. unfold lidx; simpl; rewrite map_app; reflexivity. Qed.
Lemma lht_le_size t : (lht t <= lsize t)%nat.
Proof. induction t; simpl; lia. Qed.

Lemma lrep_frame a a' o t :
  (forall i, In i (lidx t) -> nth_error a' i = nth_error a i) ->
  lrep a o t -> lrep a' o t.
Proof.
  revert o; induction t as [|c l IHl i k v r IHr]; simpl; auto.
  intros o Hf (Ho & n & Hn & Hk & Hv & Hw & Hh & Hl & Hr).
  rewrite lidx_T in Hf.
  split; auto. exists n. repeat split; auto.
  - rewrite Hf; auto. rewrite in_app_iff; simpl; auto.
  - apply IHl; auto. intros; apply Hf; rewrite in_app_iff; auto.
  - apply IHr; auto. intros; apply Hf; rewrite in_app_iff; simpl; auto.
Qed.

Lemma lrep_upd a o t i x : ~ In i (lidx t) -> lrep a o t -> lrep (upd a i x) o t.
Proof.
  intros Hi Hr; apply (lrep_frame a); auto.
  intros; rewrite nth_error_upd_ne; auto. congruence.
Qed.

Lemma lrep_bound a o t i : lrep a o t -> In i (lidx t) -> (i < length a)%nat.
Proof.
  revert o; induction t as [|c l IHl j k v r IHr]; intros o; [simpl; tauto|].
  intros (Ho & n & Hn & _ & _ & _ & _ & Hl & Hr).
  rewrite lidx_T, in_app_iff; simpl; intros [Hi|[<-|Hi]]; eauto.
  eapply nth_error_lt; eauto.
Qed.

Lemma lmodify_ok (a : list lnode) i n f :
  nth_error a i = Some n -> lmodify a i f = Ok (upd a i (f n)).
Proof.
  intros H; unfold lmodify. rewrite (aget_some _ _ _ H). simpl.
  apply aset_ok. eapply nth_error_lt; eauto.
Qed.

Lemma nodup_LT c l i k v r :
  NoDup (lidx (LT c l i k v r)) <->
  NoDup (lidx l) /\ NoDup (lidx r) /\ ~ In i (lidx l) /\ ~ In i (lidx r) /\
  (forall x, In x (lidx l) -> In x (lidx r) -> False).
Proof.
  rewrite lidx_T. generalize (lidx l) (lidx r). clear. intros L R. split.
  - intros H. pose proof (NoDup_remove_1 _ _ _ H) as H1.
    pose proof (NoDup_remove_2 _ _ _ H) as H2.
    rewrite in_app_iff in H2.
    repeat split; auto.
    + clear H H2. induction L; [constructor|]. inversion H1; subst.
      constructor; [rewrite in_app_iff in *; tauto | auto].
    + clear H H2. induction L; auto. inversion H1; auto.
    + clear H H2. induction L; simpl; intros x Hx Hy; auto.
      inversion H1; subst. destruct Hx as [<-|Hx]; [|eauto].
      rewrite in_app_iff in *; tauto.
  - intros (HL & HR & HiL & HiR & D).
    apply NoDup_Add with (a := i) (l := L ++ R).
    + apply Add_app.
    + split; [|rewrite in_app_iff; tauto].
      clear HiL HiR. induction L; simpl; auto. inversion HL; subst.
      constructor.
      * rewrite in_app_iff; intros [?|?]; auto. apply (D a); simpl; auto.
      * apply IHL; auto. intros; eapply D; simpl; eauto.
Qed.

(* ---- split and lean on trees ---- *)
Definition splitt (t : ct) : ct :=
  match t with
  | LT c (LT true (LT true a y ky vy b) x kx vx d) i k v r =>
    LT true (LT false a y ky vy b) x kx vx (LT c d i k v r)
  | _ => t
  end.
Definition leant (t : ct) : ct :=
  match t with
  | LT c l i k v (LT true rl x kx vx rr) => LT c (LT true l i k v rl) x kx vx rr
  | _ => t
  end.

Lemma splitt_elems t : lelems (splitt t) = lelems t.
Proof.
  destruct t as [|c [|[] [|[] a y ky vy b] x kx vx d] i k v r]; simpl; auto.
  rewrite <- !app_assoc; simpl; rewrite <- ?app_assoc; reflexivity.
Qed.
Lemma leant_elems t : lelems (leant t) = lelems t.
Proof.
  destruct t as [|c l i k v [|[] rl x kx vx rr]]; simpl; auto.
  rewrite <- !app_assoc; simpl; reflexivity.
Qed.
Lemma splitt_idx t : lidx (splitt t) = lidx t.
Proof. unfold lidx; rewrite splitt_elems; auto. Qed.
Lemma leant_idx t : lidx (leant t) = lidx t.
Proof. unfold lidx; rewrite leant_elems; auto. Qed.

Definition lsame (t : ct) (a a' : list lnode) :=
  length a' = length a /\ forall x, ~ In x (lidx t) -> nth_error a' x = nth_error a x.

Ltac lmem := repeat (rewrite ?lidx_T, ?in_app_iff in *; cbn [In] in *).
Ltac node7 := refine (conj _ (conj _ (conj _ (conj _ (conj _ (conj _ _)))))).
Ltac lookup :=
  repeat first
    [ rewrite nth_error_upd_eq by (rewrite ?length_upd; auto)
    | rewrite nth_error_upd_ne by (auto || congruence) ]; auto.

Lemma split_rep a o t : lrep a o t -> NoDup (lidx t) -> t <> LE ->
  exists r a' r', o = Some r /\ split a r = Ok (a', r') /\ lrep a' (Some r') (splitt t) /\ lsame t a a'.
Proof.
  intros R ND Ht. destruct t as [|c l i k v r]; [congruence|].
  pose proof R as (-> & n & Hn & Hk & Hv & Hw & Hc & Hl & Hr).
  exists i. unfold split. rewrite (aget_some _ _ _ Hn); cbn [bind].
  destruct l as [|cl ll x kx vx lr].
  { simpl in Hl. rewrite Hl. exists a, i. split; [reflexivity|]. try (split; [reflexivity|]). split; [exact R|]. split; auto. }
  pose proof Hl as (-> & nx & Hnx & Hkx & Hvx & Hwx & Hcx & Hll & Hlr).
  rewrite (aget_some _ _ _ Hnx); cbn [bind]. rewrite Hcx.
  destruct cl.
  2:{ exists a, i. split; [reflexivity|]. try (split; [reflexivity|]). split; [exact R|]. split; auto. }
  destruct ll as [|cy A y ky vy B].
  { simpl in Hll. rewrite Hll. cbn [link_red bind]. exists a, i. split; [reflexivity|]. try (split; [reflexivity|]). split; [exact R|]. split; auto. }
  pose proof Hll as (Ey & ny & Hny & Hky & Hvy & Hwy & Hcy & HA & HB).
  rewrite Ey. unfold link_red. rewrite (aget_some _ _ _ Hny); cbn [bind]. rewrite Hcy.
  destruct cy.
  2:{ exists a, i. split; [reflexivity|]. try (split; [reflexivity|]). split; [exact R|]. split; auto. }
  pose proof (proj1 (nodup_LT _ _ _ _ _ _) ND) as (ND1 & NDr & N1 & N2 & D1).
  pose proof (proj1 (nodup_LT _ _ _ _ _ _) ND1) as (ND3 & ND4 & N3 & N4 & D2).
  pose proof (proj1 (nodup_LT _ _ _ _ _ _) ND3) as (ND5 & ND6 & N5 & N6 & D3).
  assert (Hix : i <> x) by (intros ->; apply N1; lmem; tauto).
  assert (Hiy : i <> y) by (intros ->; apply N1; lmem; tauto).
  assert (Hxy : x <> y) by (intros ->; apply N3; lmem; tauto).
  assert (iA : ~ In i (lidx A)) by (intros Q; apply N1; lmem; tauto).
  assert (iB : ~ In i (lidx B)) by (intros Q; apply N1; lmem; tauto).
  assert (iD : ~ In i (lidx lr)) by (intros Q; apply N1; lmem; tauto).
  assert (xA : ~ In x (lidx A)) by (intros Q; apply N3; lmem; tauto).
  assert (xB : ~ In x (lidx B)) by (intros Q; apply N3; lmem; tauto).
  assert (xr : ~ In x (lidx r)) by (intros Q; apply (D1 x); lmem; tauto).
  assert (yr : ~ In y (lidx r)) by (intros Q; apply (D1 y); lmem; tauto).
  assert (yD : ~ In y (lidx lr)) by (intros Q; apply (D2 y); lmem; tauto).
  assert (Li : (i < length a)%nat) by (eapply nth_error_lt; eauto).
  assert (Lx : (x < length a)%nat) by (eapply nth_error_lt; eauto).
  assert (Ly : (y < length a)%nat) by (eapply nth_error_lt; eauto).
  rewrite (lmodify_ok _ _ _ _ Hn); cbn [bind].
  set (n1 := lset_left (lright nx) n). set (a1 := upd a i n1).
  assert (Hx1 : nth_error a1 x = Some nx) by (unfold a1; lookup).
  rewrite (lmodify_ok _ _ _ _ Hx1); cbn [bind].
  set (nx1 := lset_right (Some i) nx). set (a2 := upd a1 x nx1).
  assert (Hx2 : nth_error a2 x = Some nx1) by (unfold a2, a1; lookup).
  rewrite (aget_some _ _ _ Hx2); cbn [bind].
  assert (Hi2 : nth_error a2 i = Some n1) by (unfold a2, a1; lookup).
  rewrite (lmodify_ok _ _ _ _ Hi2); cbn [bind].
  set (n2 := lset_order _ n1). set (a3 := upd a2 i n2).
  assert (Hx3 : nth_error a3 x = Some nx1) by (unfold a3; lookup).
  rewrite (aget_some _ _ _ Hx3); cbn [bind].
  change (lleft nx1) with (lleft nx). rewrite Ey; cbn [lderef bind].
  assert (Hy3 : nth_error a3 y = Some ny) by (unfold a3, a2, a1; lookup).
  rewrite (lmodify_ok _ _ _ _ Hy3); cbn [bind].
  set (ny1 := lset_red false ny). set (a4 := upd a3 y ny1).
  exists a4, x. split; auto. split; auto.
  assert (Li2 : (i < length a2)%nat) by (unfold a2, a1; rewrite !length_upd; auto).
  assert (F : forall z, z <> i -> z <> x -> z <> y -> nth_error a4 z = nth_error a z).
  { intros z ? ? ?. unfold a4, a3, a2, a1. rewrite !nth_error_upd_ne; auto. }
  assert (Hi4 : nth_error a4 i = Some n2) by (unfold a4, a3; lookup).
  assert (Hx4 : nth_error a4 x = Some nx1) by (unfold a4; lookup).
  assert (Hy4 : nth_error a4 y = Some ny1).
  { unfold a4. rewrite nth_error_upd_eq; auto. unfold a3, a2, a1; rewrite !length_upd; auto. }
  split.
  - cbn [splitt]. split; auto. exists nx1. node7; auto.
    + split; auto. exists ny1. node7; auto.
      * apply (lrep_frame a); auto. intros z Hz. apply F; intros ->; auto.
      * apply (lrep_frame a); auto. intros z Hz. apply F; intros ->; auto.
    + split; auto. exists n2. node7; auto.
      * unfold n2, n1, nx1; simpl. rewrite Hw, Hwx. cbn [lsize]. lia.
      * apply (lrep_frame a); auto. intros z Hz. apply F; intros ->; auto.
      * apply (lrep_frame a); auto. intros z Hz. apply F; intros ->; auto.
  - split.
    + unfold a4, a3, a2, a1. rewrite !length_upd; auto.
    + intros z Hz. apply F; intros ->; apply Hz; lmem; tauto.
Qed.

Lemma lean_rep a t c l i k v r : t = LT c l i k v r -> lrep a (Some i) t -> NoDup (lidx t) ->
  exists a' r', lean a i = Ok (a', r') /\ lrep a' (Some r') (leant t) /\ lsame t a a'.
Proof.
  intros -> R ND.
  pose proof R as (_ & n & Hn & Hk & Hv & Hw & Hc & Hl & Hr).
  unfold lean. rewrite (aget_some _ _ _ Hn); cbn [bind].
  destruct r as [|cr rl x kx vx rr].
  { simpl in Hr. rewrite Hr. exists a, i. split; [reflexivity|]. try (split; [reflexivity|]). split; [exact R|]. split; auto. }
  pose proof Hr as (Ex & nx & Hnx & Hkx & Hvx & Hwx & Hcx & Hrl & Hrr).
  rewrite Ex. rewrite (aget_some _ _ _ Hnx); cbn [bind]. rewrite Hcx.
  destruct cr.
  2:{ exists a, i. split; [reflexivity|]. try (split; [reflexivity|]). split; [exact R|]. split; auto. }
  pose proof (proj1 (nodup_LT _ _ _ _ _ _) ND) as (NDl & NDr & N1 & N2 & D1).
  pose proof (proj1 (nodup_LT _ _ _ _ _ _) NDr) as (ND3 & ND4 & N3 & N4 & D2).
  assert (Hix : i <> x) by (intros ->; apply N2; lmem; tauto).
  assert (irl : ~ In i (lidx rl)) by (intros Q; apply N2; lmem; tauto).
  assert (irr : ~ In i (lidx rr)) by (intros Q; apply N2; lmem; tauto).
  assert (xl : ~ In x (lidx l)) by (intros Q; apply (D1 x); lmem; tauto).
  assert (Li : (i < length a)%nat) by (eapply nth_error_lt; eauto).
  assert (Lx : (x < length a)%nat) by (eapply nth_error_lt; eauto).
  rewrite (lmodify_ok _ _ _ _ Hn); cbn [bind].
  set (n1 := lset_right (lleft nx) n). set (a1 := upd a i n1).
  assert (Hx1 : nth_error a1 x = Some nx) by (unfold a1; lookup).
  rewrite (lmodify_ok _ _ _ _ Hx1); cbn [bind].
  set (nx1 := lset_left (Some i) nx). set (a2 := upd a1 x nx1).
  assert (Hi2 : nth_error a2 i = Some n1) by (unfold a2, a1; lookup).
  rewrite (aget_some _ _ _ Hi2); cbn [bind].
  assert (Hx2 : nth_error a2 x = Some nx1) by (unfold a2, a1; lookup).
  rewrite (lmodify_ok _ _ _ _ Hx2); cbn [bind].
  set (nx2 := lset_order _ nx1). set (a3 := upd a2 x nx2).
  assert (Lx2 : (x < length a2)%nat) by (eapply nth_error_lt; eauto).
  assert (Hx3 : nth_error a3 x = Some nx2) by (unfold a3; lookup).
  rewrite (aget_some _ _ _ Hx3); cbn [bind].
  change (lleft nx2) with (Some i); cbn [lderef bind].
  assert (Hi3 : nth_error a3 i = Some n1) by (unfold a3; lookup).
  rewrite (aget_some _ _ _ Hi3); cbn [bind].
  rewrite (lmodify_ok _ _ _ _ Hx3); cbn [bind].
  set (nx3 := lset_red _ nx2). set (a4 := upd a3 x nx3).
  assert (Hi4 : nth_error a4 i = Some n1) by (unfold a4; lookup).
  rewrite (lmodify_ok _ _ _ _ Hi4); cbn [bind].
  set (n2 := lset_red true n1). set (a5 := upd a4 i n2).
  exists a5, x. split; auto.
  assert (Li4 : (i < length a4)%nat) by (eapply nth_error_lt; eauto).
  assert (Hi5 : nth_error a5 i = Some n2) by (unfold a5; lookup).
  assert (Lx3 : (x < length a3)%nat) by (eapply nth_error_lt; eauto).
  assert (Hx5 : nth_error a5 x = Some nx3) by (unfold a5, a4; lookup).
  assert (F : forall z, z <> i -> z <> x -> nth_error a5 z = nth_error a z).
  { intros z ? ?. unfold a5, a4, a3, a2, a1. rewrite !nth_error_upd_ne; auto. }
  split.
  - cbn [leant]. split; auto. exists nx3. node7; auto.
    + unfold nx3, nx2, nx1, n1; simpl. rewrite Hw, Hwx. lia.
    + split; auto. exists n2. node7; auto.
      * apply (lrep_frame a); auto. intros z Hz. apply F; intros ->; auto.
      * apply (lrep_frame a); auto. intros z Hz. apply F; intros ->; auto.
    + apply (lrep_frame a); auto. intros z Hz. apply F; intros ->; auto.
  - split.
    + unfold a5, a4, a3, a2, a1. rewrite !length_upd; auto.
    + intros z Hz. apply F; intros ->; apply Hz; lmem; tauto.
Qed.

(* ---- insertion on trees ---- *)
Variable kcmp : K -> K -> comparison.

Fixpoint lins (fuel : nat) (t : ct) (n : nat) (k : K) (v : V) : ct :=
  match fuel with
  | O => LE
  | S fuel =>
    match splitt t with
    | LE => LT true LE n k v LE
    | LT c l i k' v' r =>
      match kcmp k k' with
      | Eq => LT c l i k v r
      | Lt => leant (LT c (lins fuel l n k v) i k' v' r)
      | Gt => leant (LT c l i k' v' (lins fuel r n k v))
      end
    end
  end.

(* whether the key is present, following the same path *)
Fixpoint lhit (t : ct) (k : K) : bool :=
  match t with
  | LE => false
  | LT _ l _ k' _ r =>
    match kcmp k k' with Eq => true | Lt => lhit l k | Gt => lhit r k end
  end.

Notation kof e := (fst (snd e)).
Definition csorted (t : ct) : Prop := StronglySorted (klt kcmp) (lelems t).
Hypothesis TO : total_preorder kcmp.

Lemma csorted_T c l i k v r :
  csorted (LT c l i k v r) <->
  csorted l /\ csorted r /\
  (forall e, In e (lelems l) -> kcmp (kof e) k = Lt) /\
  (forall e, In e (lelems r) -> kcmp k (kof e) = Lt).
Proof.
  unfold csorted; simpl. rewrite ss_app, ss_cons. unfold klt at 3 4; simpl. split.
  - intros (H1 & (H2 & H3) & H4). repeat split; auto.
    intros e He. specialize (H4 e (i,(k,v)) He). simpl in H4; auto.
  - intros (H1 & H2 & H3 & H4). repeat split; auto.
    intros x y Hx [<-|Hy]; simpl; auto. eapply (cmp_trans _ TO); eauto.
Qed.

Definition has (t : ct) (k : K) : Prop := exists e, In e (lelems t) /\ kcmp k (kof e) = Eq.

Lemma lhit_has t k : csorted t -> lhit t k = true <-> has t k.
Proof.
  induction t as [|c l IHl i k' v' r IHr]; intros S; simpl.
  - split; [discriminate|intros (e & [] & _)].
  - apply csorted_T in S. destruct S as (Sl & Sr & Hl & Hr).
    unfold has; simpl. destruct (kcmp k k') eqn:C.
    + split; auto. intros _. exists (i,(k',v')). rewrite in_app_iff; simpl; auto.
    + rewrite (IHl Sl). split; intros (e & He & Ce).
      * exists e; split; auto. rewrite in_app_iff; auto.
      * rewrite in_app_iff in He; simpl in He. destruct He as [He|[<-|He]].
        -- exists e; auto.
        -- simpl in Ce; congruence.
        -- rewrite (cmp_trans _ TO _ _ _ C (Hr _ He)) in Ce; discriminate.
    + rewrite (IHr Sr). split; intros (e & He & Ce).
      * exists e; split; auto. rewrite in_app_iff; simpl; auto.
      * rewrite in_app_iff in He; simpl in He. destruct He as [He|[<-|He]].
        -- rewrite (cmp_lt_gt _ _ _ TO (cmp_trans _ TO _ _ _ (Hl _ He) (cmp_gt_lt _ _ _ TO C))) in Ce; discriminate.
        -- simpl in Ce; congruence.
        -- exists e; auto.
Qed.

Lemma has_elems t t' k : lelems t = lelems t' -> has t k -> has t' k.
Proof. unfold has; intros ->; auto. Qed.

Lemma lhit_elems t t' k : csorted t -> lelems t = lelems t' -> lhit t k = lhit t' k.
Proof.
  intros S E1. assert (S' : csorted t') by (unfold csorted; rewrite <- E1; auto).
  apply eq_true_iff_eq. rewrite !lhit_has by auto.
  split; apply has_elems; auto.
Qed.

Lemma splitt_size t c l i k v r : splitt t = LT c l i k v r ->
  (lsize l < lsize t)%nat /\ (lsize r < lsize t)%nat.
Proof.
  destruct t as [|c0 [|[] [|[] A y ky vy B] x kx vx d] i0 k0 v0 r0]; simpl; intros H;
    try discriminate; injection H; intros; subst; simpl; lia.
Qed.

Lemma splitt_LE t : splitt t = LE -> t = LE.
Proof. destruct t as [|c0 [|[] [|[] A y ky vy B] x kx vx d] i0 k0 v0 r0]; simpl; congruence. Qed.

Lemma lins_elems fuel : forall t n k v, csorted t -> (lsize t < fuel)%nat ->
  (lhit t k = true /\ exists xs i k' v' ys,
     lelems t = xs ++ (i, (k', v')) :: ys /\ kcmp k k' = Eq /\
     lelems (lins fuel t n k v) = xs ++ (i, (k, v)) :: ys) \/
  (lhit t k = false /\ exists xs ys,
     lelems t = xs ++ ys /\ lelems (lins fuel t n k v) = xs ++ (n, (k, v)) :: ys).
Proof.
  induction fuel as [|fuel IH]; intros t n k v S Hf; [lia|].
  cbn [lins]. destruct (splitt t) as [|c l i k' v' r] eqn:Sp.
  - apply splitt_LE in Sp; subst. right; split; auto. exists [], []; auto.
  - destruct (splitt_size _ _ _ _ _ _ _ Sp) as [Sl Sr].
    assert (E1 : lelems t = lelems l ++ (i, (k', v')) :: lelems r).
    { rewrite <- (splitt_elems t), Sp. reflexivity. }
    assert (S' : csorted (LT c l i k' v' r)).
    { rewrite <- Sp. unfold csorted. rewrite splitt_elems. auto. }
    rewrite (lhit_elems t (LT c l i k' v' r) k S) by (rewrite <- Sp, splitt_elems; auto).
    rewrite E1. apply csorted_T in S'. destruct S' as (SL & SR & _ & _). cbn [lhit].
    destruct (kcmp k k') eqn:C.
    + left; split; auto. exists (lelems l), i, k', v', (lelems r). repeat split; auto.
    + rewrite (leant_elems (LT c (lins fuel l n k v) i k' v' r)). cbn [lelems].
      destruct (IH l n k v SL ltac:(lia)) as [(H & xs & j & kj & vj & ys & E2 & C1 & E3)|(H & xs & ys & E2 & E3)].
      * left; split; auto. exists xs, j, kj, vj, (ys ++ (i,(k',v')) :: lelems r).
        rewrite E2, E3, <- !app_assoc; simpl; auto.
      * right; split; auto. exists xs, (ys ++ (i,(k',v')) :: lelems r).
        rewrite E2, E3, <- !app_assoc; simpl; auto.
    + rewrite (leant_elems (LT c l i k' v' (lins fuel r n k v))). cbn [lelems].
      destruct (IH r n k v SR ltac:(lia)) as [(H & xs & j & kj & vj & ys & E2 & C1 & E3)|(H & xs & ys & E2 & E3)].
      * left; split; auto. exists (lelems l ++ (i,(k',v')) :: xs), j, kj, vj, ys.
        rewrite E2, E3, <- !app_assoc; simpl; auto.
      * right; split; auto. exists (lelems l ++ (i,(k',v')) :: xs), ys.
        rewrite E2, E3, <- !app_assoc; simpl; auto.
Qed.

Lemma lins_idx fuel t n k v : csorted t -> (lsize t < fuel)%nat ->
  if lhit t k then lidx (lins fuel t n k v) = lidx t
  else exists xs ys, lidx t = xs ++ ys /\ lidx (lins fuel t n k v) = xs ++ n :: ys.
Proof.
  intros S Hf. unfold lidx.
  destruct (lins_elems fuel t n k v S Hf) as [(-> & xs & j & kj & vj & ys & E1 & C1 & E2)|(-> & xs & ys & E1 & E2)].
  - rewrite E1, E2, !map_app; reflexivity.
  - exists (map fst xs), (map fst ys). rewrite E1, E2, !map_app; auto.
Qed.

Lemma lins_idx_in fuel t n k v x : csorted t -> (lsize t < fuel)%nat ->
  In x (lidx (lins fuel t n k v)) -> In x (lidx t) \/ x = n.
Proof.
  intros S Hf. pose proof (lins_idx fuel t n k v S Hf) as H. destruct (lhit t k).
  - rewrite H; auto.
  - destruct H as (xs & ys & E1 & E2). rewrite E1, E2, !in_app_iff; simpl. intuition.
Qed.

Lemma lins_nodup fuel t n k v : csorted t -> (lsize t < fuel)%nat ->
  NoDup (lidx t) -> ~ In n (lidx t) -> NoDup (lidx (lins fuel t n k v)).
Proof.
  intros S Hf ND Nn. pose proof (lins_idx fuel t n k v S Hf) as H. destruct (lhit t k).
  - rewrite H; auto.
  - destruct H as (xs & ys & E1 & E2). rewrite E1 in *. rewrite E2.
    apply NoDup_Add with (a := n) (l := xs ++ ys); auto. apply Add_app.
Qed.

Lemma lins_size fuel t n k v : csorted t -> (lsize t < fuel)%nat ->
  lsize (lins fuel t n k v) = (lsize t + if lhit t k then 0 else 1)%nat.
Proof.
  intros S Hf. rewrite !lsize_elems.
  destruct (lins_elems fuel t n k v S Hf) as [(-> & xs & j & kj & vj & ys & E1 & C1 & E2)|(-> & xs & ys & E1 & E2)];
    rewrite E1, E2, !app_length; simpl; lia.
Qed.

Lemma lappend_rep fuel : forall t a o k v,
  lrep a o t -> NoDup (lidx t) -> csorted t -> (lsize t < fuel)%nat ->
  exists a' r',
    lappend kcmp fuel a o k v = Ok (a', r', negb (lhit t k)) /\
    lrep a' (Some r') (lins fuel t (length a) k v) /\
    length a' = (length a + if lhit t k then 0 else 1)%nat /\
    (forall x, (x < length a)%nat -> ~ In x (lidx t) -> nth_error a' x = nth_error a x).
Proof.
  induction fuel as [|fuel IH]; intros t a o k v R ND S Hf; [lia|].
  destruct t as [|c0 l0 i0 k0 v0 r0].
  { simpl in R; subst o. cbn [lappend lins splitt lhit negb].
    exists (a ++ [LNode k v 0 None None true]), (length a). split; auto. split; [|split].
    - split; auto. exists (LNode k v 0 None None true). simpl; repeat split; auto.
      rewrite nth_error_app2, Nat.sub_diag; auto.
    - rewrite app_length; simpl; lia.
    - intros x Hx _. rewrite nth_error_app1; auto. }
  set (t := LT c0 l0 i0 k0 v0 r0) in *.
  destruct (split_rep a o t R ND) as (r1 & a1 & q & -> & E1 & R1 & S1); [discriminate|].
  cbn [lappend lins]. rewrite E1; cbn [bind].
  destruct (splitt t) as [|c l i k' v' r] eqn:Sp; [apply splitt_LE in Sp; discriminate|].
  destruct (splitt_size _ _ _ _ _ _ _ Sp) as [Sl Sr].
  assert (Ee : lelems t = lelems (LT c l i k' v' r)) by (rewrite <- Sp, splitt_elems; auto).
  assert (S' : csorted (LT c l i k' v' r)) by (unfold csorted; rewrite <- Ee; auto).
  assert (Ei : lidx t = lidx (LT c l i k' v' r)) by (unfold lidx; rewrite Ee; auto).
  rewrite (lhit_elems t (LT c l i k' v' r) k S Ee). cbn [lhit].
  assert (Bnd : forall x, In x (lidx t) -> (x < length a)%nat) by (intros x Hx; eapply lrep_bound; eauto).
  rewrite Ei in Bnd, ND.
  assert (S1l : length a1 = length a) by apply S1.
  assert (S1f : forall x, ~ In x (lidx (LT c l i k' v' r)) -> nth_error a1 x = nth_error a x)
    by (intros x Hx; apply S1; rewrite Ei; auto).
  setoid_rewrite Ei. clear S1 E1 R Ei Ee S. clearbody t. clear c0 l0 i0 k0 v0 r0.
  destruct R1 as (Q & n & Hn & Hk & Hv & Hw & Hc & Hl & Hr). injection Q as ->.
  rewrite (aget_some _ _ _ Hn); cbn [bind]. rewrite Hk.
  pose proof (proj1 (nodup_LT _ _ _ _ _ _) ND) as (NDl & NDr & Nil & Nir & D).
  pose proof (proj1 (csorted_T _ _ _ _ _ _) S') as (SL & SR & HL & HR).
  assert (Li : (i < length a1)%nat) by (eapply nth_error_lt; eauto).
  rewrite <- S1l.
  assert (Nnl : ~ In (length a1) (lidx l)).
  { intros Hx. apply (lrep_bound _ _ _ _ Hl) in Hx; lia. }
  assert (Nnr : ~ In (length a1) (lidx r)).
  { intros Hx. apply (lrep_bound _ _ _ _ Hr) in Hx; lia. }
  destruct (kcmp k k') eqn:C.
  - rewrite (lmodify_ok _ _ _ _ Hn); cbn [bind negb].
    eexists _, _. split; [reflexivity|]. split; [|split].
    + split; auto. eexists; split; [apply nth_error_upd_eq; auto|].
      simpl; repeat split; auto; apply lrep_upd; auto.
    + rewrite length_upd; lia.
    + intros x Hx Nx. rewrite nth_error_upd_ne; [|intros ->; apply Nx; lmem; auto]. apply S1f; auto.
  - destruct (IH l a1 (lleft n) k v Hl NDl SL ltac:(lia)) as (a2 & l' & E2 & R2 & L2 & F2).
    rewrite E2; cbn [bind].
    assert (Hn2 : nth_error a2 i = Some n) by (rewrite F2; auto).
    assert (Li2 : (i < length a2)%nat) by (eapply nth_error_lt; eauto).
    rewrite (lmodify_ok _ _ _ _ Hn2); cbn [bind].
    set (t' := LT c (lins fuel l (length a1) k v) i k' v' r).
    assert (G : exists a3, (if negb (lhit l k) then
         lmodify (upd a2 i (lset_left (Some l') n)) i (fun n => lset_order (lorder n + 1) n)
         else Ok (upd a2 i (lset_left (Some l') n))) = Ok a3 /\
        lrep a3 (Some i) t' /\ length a3 = length a2 /\
        (forall x, x <> i -> nth_error a3 x = nth_error a2 x)).
    { assert (Rl : forall y, lrep (upd a2 i y) (Some l') (lins fuel l (length a1) k v)).
      { intros y. apply lrep_upd; auto. intros Hx. apply lins_idx_in in Hx; auto; try lia.
        destruct Hx; auto. lia. }
      assert (Rr : forall y, lrep (upd a2 i y) (lright n) r).
      { intros y. apply lrep_upd; auto. apply (lrep_frame a1); auto. intros x Hx. apply F2.
        - eapply lrep_bound; eauto.
        - intros Hy; eapply D; eauto. }
      pose proof (lins_size fuel l (length a1) k v SL ltac:(lia)) as SZ.
      destruct (lhit l k); cbn [negb].
      - eexists; split; [reflexivity|]. split; [|split; [rewrite length_upd; auto|intros; apply nth_error_upd_ne; auto]].
        split; auto. eexists; split; [apply nth_error_upd_eq; auto|]. simpl; repeat split; auto.
        rewrite SZ, Nat.add_0_r. auto.
      - assert (Hn3 : nth_error (upd a2 i (lset_left (Some l') n)) i = Some (lset_left (Some l') n))
          by (apply nth_error_upd_eq; auto).
        rewrite (lmodify_ok _ _ _ _ Hn3), upd_upd.
        eexists; split; [reflexivity|]. split; [|split; [rewrite length_upd; auto|intros; apply nth_error_upd_ne; auto]].
        split; auto. eexists; split; [apply nth_error_upd_eq; auto|]. simpl; repeat split; auto.
        rewrite SZ. rewrite Hw. lia. }
    destruct G as (a3 & -> & R3 & L3 & F3). cbn [bind].
    assert (ND3 : NoDup (lidx t')).
    { apply nodup_LT. repeat split; auto.
      - apply lins_nodup; auto; lia.
      - intros Hx. apply lins_idx_in in Hx; auto; try lia. destruct Hx; auto. lia.
      - intros x Hx Hy. apply lins_idx_in in Hx; auto; try lia.
        destruct Hx as [Hx| ->]; auto. eapply D; eauto. }
    destruct (lean_rep a3 t' _ _ _ _ _ _ eq_refl R3 ND3) as (a4 & r' & E4 & R4 & S4 & F4).
    rewrite E4; cbn [bind]. exists a4, r'. split; auto. split; auto. split.
    + rewrite S4, L3, L2. reflexivity.
    + intros x Hx Nx. rewrite lidx_T, in_app_iff in Nx; simpl in Nx.
      rewrite F4.
      * rewrite F3 by (intros ->; tauto). rewrite F2 by (try lia; tauto).
        apply S1f. rewrite lidx_T, in_app_iff; simpl; tauto.
      * unfold t'. rewrite lidx_T, in_app_iff; simpl. intros [Hy|Hy]; [|tauto].
        apply lins_idx_in in Hy; auto; try lia. destruct Hy; [tauto|lia].
  - destruct (IH r a1 (lright n) k v Hr NDr SR ltac:(lia)) as (a2 & l' & E2 & R2 & L2 & F2).
    rewrite E2; cbn [bind].
    assert (Hn2 : nth_error a2 i = Some n) by (rewrite F2; auto).
    assert (Li2 : (i < length a2)%nat) by (eapply nth_error_lt; eauto).
    rewrite (lmodify_ok _ _ _ _ Hn2); cbn [bind].
    set (t' := LT c l i k' v' (lins fuel r (length a1) k v)).
    set (a3 := upd a2 i (lset_right (Some l') n)).
    assert (R3 : lrep a3 (Some i) t').
    { split; auto. eexists; split; [apply nth_error_upd_eq; auto|]. simpl; repeat split; auto.
      - apply lrep_upd; auto. apply (lrep_frame a1); auto. intros x Hx. apply F2.
        + exact (lrep_bound _ _ _ _ Hl Hx).
        + intros Hy; eapply D; eauto.
      - apply lrep_upd; auto. intros Hx. apply lins_idx_in in Hx; auto; try lia.
        destruct Hx; auto. lia. }
    assert (ND3 : NoDup (lidx t')).
    { apply nodup_LT. repeat split; auto.
      - apply lins_nodup; auto; lia.
      - intros Hx. apply lins_idx_in in Hx; auto; try lia. destruct Hx; auto. lia.
      - intros x Hx Hy. apply lins_idx_in in Hy; auto; try lia.
        destruct Hy as [Hy| ->]; auto. eapply D; eauto. }
    destruct (lean_rep a3 t' _ _ _ _ _ _ eq_refl R3 ND3) as (a4 & r' & E4 & R4 & S4 & F4).
    rewrite E4; cbn [bind]. exists a4, r'. split; auto. split; auto. split.
    + rewrite S4. unfold a3. rewrite length_upd, L2. reflexivity.
    + intros x Hx Nx. rewrite lidx_T, in_app_iff in Nx; simpl in Nx.
      rewrite F4.
      * unfold a3. rewrite nth_error_upd_ne by (intros ->; tauto).
        rewrite F2 by (try lia; tauto).
        apply S1f. rewrite lidx_T, in_app_iff; simpl; tauto.
      * unfold t'. rewrite lidx_T, in_app_iff; simpl. intros [Hy|[Hy|Hy]]; [tauto|tauto|].
        apply lins_idx_in in Hy; auto; try lia. destruct Hy; [tauto|lia].
Qed.

Lemma lins_sorted fuel : forall t n k v, csorted t -> (lsize t < fuel)%nat ->
  csorted (lins fuel t n k v).
Proof.
  induction fuel as [|fuel IH]; intros t n k v S Hf; [lia|].
  cbn [lins]. destruct (splitt t) as [|c l i k' v' r] eqn:Sp.
  - unfold csorted; simpl. repeat constructor.
  - destruct (splitt_size _ _ _ _ _ _ _ Sp) as [Sl Sr].
    assert (S' : csorted (LT c l i k' v' r)).
    { rewrite <- Sp. unfold csorted. rewrite splitt_elems. auto. }
    apply csorted_T in S'. destruct S' as (SL & SR & HL & HR).
    destruct (kcmp k k') eqn:C.
    + apply csorted_T. repeat split; auto.
      * intros e He. rewrite (cmp_cong_r _ _ _ (kof e) TO C); auto.
      * intros e He. rewrite (cmp_cong _ TO _ _ _ C); auto.
    + unfold csorted. rewrite leant_elems. fold (csorted (LT c (lins fuel l n k v) i k' v' r)).
      apply csorted_T. repeat split; auto.
      * apply IH; auto; lia.
      * intros e He.
        destruct (lins_elems fuel l n k v SL ltac:(lia)) as [(_ & xs & j & kj & vj & ys & E1 & C1 & E2)|(_ & xs & ys & E1 & E2)];
        rewrite E2 in He; rewrite in_app_iff in He; simpl in He;
        destruct He as [He|[<-|He]]; try (apply HL; rewrite E1, in_app_iff; simpl; auto; fail); auto.
    + unfold csorted. rewrite leant_elems. fold (csorted (LT c l i k' v' (lins fuel r n k v))).
      apply csorted_T. repeat split; auto.
      * apply IH; auto; lia.
      * intros e He.
        destruct (lins_elems fuel r n k v SR ltac:(lia)) as [(_ & xs & j & kj & vj & ys & E1 & C1 & E2)|(_ & xs & ys & E1 & E2)];
        rewrite E2 in He; rewrite in_app_iff in He; simpl in He;
        destruct He as [He|[<-|He]]; try (apply HR; rewrite E1, in_app_iff; simpl; auto; fail);
        simpl; apply (cmp_gt_lt _ _ _ TO); auto.
Qed.

(* ---- 2-3-4 tree shape ---- *)
Inductive bt : nat -> ct -> Prop :=
| bt_E : bt 0 LE
| bt_2 n l i k v r : bt n l -> bt n r -> bt (S n) (LT false l i k v r)
| bt_3 n l i k v r : rt1 n l -> bt n r -> bt (S n) (LT false l i k v r)
| bt_4 n l i k v r : rt2 n l -> bt n r -> bt (S n) (LT false l i k v r)
with rt1 : nat -> ct -> Prop :=
| rt1_i n l i k v r : bt n l -> bt n r -> rt1 n (LT true l i k v r)
with rt2 : nat -> ct -> Prop :=
| rt2_i n l i k v r : rt1 n l -> bt n r -> rt2 n (LT true l i k v r).

Definition is4 (t : ct) : Prop :=
  match t with LT _ (LT true (LT true _ _ _ _ _) _ _ _ _) _ _ _ _ => True | _ => False end.

Lemma bt_black n t : bt n t -> match t with LT true _ _ _ _ _ => False | _ => True end.
Proof. destruct 1; auto. Qed.

Lemma leant_black c l i k v r n : bt n r -> leant (LT c l i k v r) = LT c l i k v r.
Proof. intros H. destruct r as [|[] ? ? ? ? ?]; auto. destruct (bt_black _ _ H). Qed.

Lemma splitt_no4 t : ~ is4 t -> splitt t = t.
Proof.
  destruct t as [|c [|[] [|[] A y ky vy B] x kx vx d] i k v r]; simpl; auto; tauto.
Qed.

Lemma lins_shape fuel : forall t m k v, (lsize t < fuel)%nat ->
  (forall n, bt n t -> ~ is4 t -> t <> LE -> bt n (lins fuel t m k v)) /\
  (forall n, bt n t -> bt n (lins fuel t m k v) \/ rt1 n (lins fuel t m k v)) /\
  (forall n, rt1 n t -> rt1 n (lins fuel t m k v) \/ rt2 n (lins fuel t m k v)).
Proof.
  induction fuel as [|fuel IH]; intros t m k v Hf; [lia|].
  assert (P1 : forall n, bt n t -> ~ is4 t -> t <> LE -> bt n (lins (S fuel) t m k v)).
  { intros n B N4 NE. cbn [lins]. rewrite (splitt_no4 _ N4).
    destruct t as [|c l i k' v' r]; [congruence|]. simpl in Hf.
    destruct (IH l m k v ltac:(lia)) as (_ & IHl1 & IHl2).
    destruct (IH r m k v ltac:(lia)) as (_ & IHr1 & _).
    inversion B as [|n0 ? ? ? ? ? Bl Br|n0 ? ? ? ? ? Bl Br|n0 ? ? ? ? ? Bl Br]; subst.
    - destruct (kcmp k k').
      + apply bt_2; auto.
      + rewrite (leant_black _ _ _ _ _ _ _ Br).
        destruct (IHl1 _ Bl); [apply bt_2|apply bt_3]; auto.
      + destruct (IHr1 _ Br) as [H|H].
        * rewrite (leant_black _ _ _ _ _ _ _ H). apply bt_2; auto.
        * inversion H; subst. cbn [leant]. apply bt_3; auto. constructor; auto.
    - destruct (kcmp k k').
      + apply bt_3; auto.
      + rewrite (leant_black _ _ _ _ _ _ _ Br).
        destruct (IHl2 _ Bl); [apply bt_3|apply bt_4]; auto.
      + destruct (IHr1 _ Br) as [H|H].
        * rewrite (leant_black _ _ _ _ _ _ _ H). apply bt_3; auto.
        * inversion H; subst. cbn [leant]. apply bt_4; auto. constructor; auto.
    - exfalso. apply N4. inversion Bl as [? ? ? ? ? ? R1 ?]; subst. inversion R1; subst. exact Logic.I. }
  split; [exact P1|]. split.
  - intros n B. destruct t as [|c l i k' v' r].
    + cbn [lins splitt]. right. inversion B; subst. constructor; constructor.
    + assert (Dec : is4 (LT c l i k' v' r) \/ ~ is4 (LT c l i k' v' r)).
      { destruct l as [|[] [|[] A y ky vy B'] x kx vx d]; simpl; tauto. }
      destruct Dec as [H4|H4].
      2:{ left. apply P1; auto. discriminate. }
      right. cbn [lins].
      destruct l as [|[] [|[] A y ky vy B'] x kx vx d]; simpl in H4; try tauto.
      cbn [splitt]. cbn [lsize] in Hf.
      inversion B as [|? ? ? ? ? ? Bl Br|? ? ? ? ? ? Bl Br|n0 ? ? ? ? ? Bl Br]; subst.
      1:{ inversion Bl. }
      1:{ inversion Bl as [? ? ? ? ? ? Q ?]; subst. inversion Q. }
      inversion Bl as [? ? ? ? ? ? R1 Bd]; subst. inversion R1 as [? ? ? ? ? ? BA BB]; subst.
      assert (X1 : bt (S n0) (LT false A y ky vy B')) by (apply bt_2; auto).
      assert (X2 : bt (S n0) (LT false d i k' v' r)) by (apply bt_2; auto).
      destruct (IH (LT false A y ky vy B') m k v) as (I1 & _ & _); [simpl; lia|].
      destruct (IH (LT false d i k' v' r) m k v) as (I2 & _ & _); [simpl; lia|].
      assert (Y1 : bt (S n0) (lins fuel (LT false A y ky vy B') m k v)).
      { apply I1; auto; [|discriminate]. destruct A as [|[] ? ? ? ? ?]; simpl; auto.
        inversion BA. }
      assert (Y2 : bt (S n0) (lins fuel (LT false d i k' v' r) m k v)).
      { apply I2; auto; [|discriminate]. destruct d as [|[] ? ? ? ? ?]; simpl; auto.
        inversion Bd. }
      destruct (kcmp k kx).
      * constructor; auto.
      * rewrite (leant_black _ _ _ _ _ _ _ X2). constructor; auto.
      * rewrite (leant_black _ _ _ _ _ _ _ Y2). constructor; auto.
  - intros n R. inversion R as [? l i k' v' r Bl Br]; subst. cbn [lins]. simpl in Hf.
    rewrite splitt_no4.
    2:{ destruct l as [|[] ? ? ? ? ?]; simpl; auto. inversion Bl. }
    destruct (IH l m k v ltac:(lia)) as (_ & IHl1 & _).
    destruct (IH r m k v ltac:(lia)) as (_ & IHr1 & _).
    destruct (kcmp k k').
    + left; constructor; auto.
    + rewrite (leant_black _ _ _ _ _ _ _ Br).
      destruct (IHl1 _ Bl); [left|right]; constructor; auto.
    + destruct (IHr1 _ Br) as [H|H].
      * rewrite (leant_black _ _ _ _ _ _ _ H). left; constructor; auto.
      * inversion H; subst. cbn [leant]. right. constructor; auto. constructor; auto.
Qed.

Scheme bt_mind := Minimality for bt Sort Prop
  with rt1_mind := Minimality for rt1 Sort Prop
  with rt2_mind := Minimality for rt2 Sort Prop.
Combined Scheme shape_mind from bt_mind, rt1_mind, rt2_mind.

Lemma shape_bounds :
  (forall n t, bt n t -> (lht t <= 3 * n)%nat /\ 2 ^ Z.of_nat n <= Z.of_nat (lsize t) + 1) /\
  (forall n t, rt1 n t -> (lht t <= 3 * n + 1)%nat /\ 2 ^ Z.of_nat n <= Z.of_nat (lsize t)+ 1) /\
  (forall n t, rt2 n t -> (lht t <= 3 * n + 2)%nat /\ 2 ^ Z.of_nat n <= Z.of_nat (lsize t) + 1).
Proof.
  apply shape_mind; cbn [lht lsize]; intros; rewrite ?Nat2Z.inj_succ, ?Z.pow_succ_r by lia; simpl Z.of_nat; lia.
Qed.

(* ---- states ---- *)
Definition blacken (t : ct) : ct :=
  match t with LE => LE | LT _ l i k v r => LT false l i k v r end.

Definition linv (st : llrb_state K V) (t : ct) : Prop :=
  lrep (larr st) (lroot st) t /\ Permutation (lidx t) (seq 0 (length (larr st))) /\
  csorted t /\ exists n, bt n t.

Lemma linv_new : linv llrb_new LE.
Proof. split; [reflexivity|]. split; [constructor|]. split; [constructor|]. exists 0%nat; constructor. Qed.

Lemma linv_size st t : linv st t -> lsize t = length (larr st).
Proof.
  intros (_ & P & _). rewrite lsize_elems. apply Permutation_length in P.
  unfold lidx in P. rewrite map_length, seq_length in P. auto.
Qed.
Lemma linv_nodup st t : linv st t -> NoDup (lidx t).
Proof. intros (_ & P & _). eapply Permutation_NoDup; [apply Permutation_sym, P|apply seq_NoDup]. Qed.

Lemma ladd_inv st t k v : linv st t ->
  exists st', ladd kcmp st k v = Ok st' /\
    linv st' (blacken (lins (S (length (larr st))) t (length (larr st)) k v)).
Proof.
  intros I. pose proof (linv_nodup _ _ I) as ND. pose proof (linv_size _ _ I) as Sz.
  destruct I as (R & P & S & n & B).
  destruct (lappend_rep (Datatypes.S (length (larr st))) t (larr st) (lroot st) k v R ND S ltac:(lia))
    as (a' & r' & E1 & R1 & L1 & F1).
  unfold ladd. rewrite E1; cbn [bind].
  set (t' := lins _ t _ k v) in *.
  pose proof (lins_sorted (Datatypes.S (length (larr st))) t (length (larr st)) k v S ltac:(lia)) as S'.
  pose proof (lins_nodup (Datatypes.S (length (larr st))) t (length (larr st)) k v S ltac:(lia) ND) as ND'.
  pose proof (lins_idx (Datatypes.S (length (larr st))) t (length (larr st)) k v S ltac:(lia)) as HI.
  destruct (lins_shape (Datatypes.S (length (larr st))) t (length (larr st)) k v ltac:(lia)) as (_ & Sh & _).
  specialize (Sh n B). fold t' in S', ND', HI, Sh.
  assert (ND1 : NoDup (lidx t')).
  { apply ND'. intros Hx. apply (lrep_bound _ _ _ _ R) in Hx. lia. }
  destruct t' as [|c l i k' v' r] eqn:Et; [simpl in R1; discriminate|].
  pose proof R1 as (Q & m & Hm & Hk & Hv & Hw & Hc & Hl & Hr). injection Q as ->.
  pose proof (proj1 (nodup_LT _ _ _ _ _ _) ND1) as (_ & _ & Nil & Nir & _).
  rewrite (lmodify_ok _ _ _ _ Hm); cbn [bind].
  eexists; split; [reflexivity|]. cbn [blacken]. split; [|split; [|split]]; cbn [larr lroot].
  - split; auto. eexists; split; [apply nth_error_upd_eq; eapply nth_error_lt; eauto|].
    simpl; repeat split; auto; apply lrep_upd; auto.
  - rewrite length_upd, L1.
    change (lidx (LT false l i k' v' r)) with (lidx (LT c l i k' v' r)).
    destruct (lhit t k).
    + rewrite HI, Nat.add_0_r. auto.
    + destruct HI as (xs & ys & E3 & E4). rewrite E4.
      rewrite <- Permutation_middle, <- E3, P.
      rewrite Nat.add_1_r, seq_S. simpl. apply Permutation_cons_append.
  - exact S'.
  - destruct Sh as [H|H].
    + exists n. inversion H; subst; econstructor; eauto; fail.
    + exists (Datatypes.S n). inversion H; subst. apply bt_2; auto.
Qed.

Lemma blacken_elems t : lelems (blacken t) = lelems t.
Proof. destruct t; reflexivity. Qed.

(* ---- queries ---- *)
Fixpoint llook (t : ct) (k : K) : option nat :=
  match t with
  | LE => None
  | LT _ l i k' v' r =>
    match kcmp k k' with Eq => Some i | Lt => llook l k | Gt => llook r k end
  end.

Lemma lhaskey_rep t : forall fuel a o k,
  lrep a o t -> (lht t < fuel)%nat -> lhaskey_loop kcmp fuel a o k = Ok (llook t k).
Proof.
  induction t as [|c l IHl i k' v' r IHr]; intros fuel a o k R Hf.
  - destruct fuel; [lia|]. simpl in R; subst. reflexivity.
  - destruct R as (-> & n & Hn & Hk & Hv & _ & _ & Hl & Hr). cbn [lht] in Hf.
    destruct fuel; [lia|]. cbn [lhaskey_loop llook].
    rewrite (aget_some _ _ _ Hn); cbn [bind]. rewrite Hk.
    destruct (kcmp k k'); auto; [apply IHl|apply IHr]; auto; lia.
Qed.

(* A coloured tree as a plain tree, to reuse the facts about lookups and ranks. *)
Fixpoint plain (t : ct) : @tr K V :=
  match t with LE => E | LT _ l i k v r => T (plain l) i k v (plain r) end.
Lemma plain_elems t : elems (plain t) = lelems t.
Proof. induction t; simpl; congruence. Qed.
Lemma plain_look t k : look kcmp (plain t) k = llook t k.
Proof. induction t as [|c l IHl i k' v' r IHr]; simpl; auto. destruct (kcmp k k'); auto. Qed.
Lemma plain_sorted t : csorted t -> AvlRemove.sorted kcmp (plain t).
Proof. unfold csorted, AvlRemove.sorted. rewrite plain_elems; auto. Qed.

Lemma lgetindex_rep t : forall fuel a o base i,
  lrep a o t -> (lht t < fuel)%nat ->
  lgetindex_loop fuel a o base i =
    (if (base <=? i) then
       match nth_error (lelems t) (Z.to_nat (i - base)) with
       | Some e => Ok (snd (snd e)) | None => UB OutOfBounds end
     else UB OutOfBounds).
Proof.
  induction t as [|c l IHl j k' v' r IHr]; intros fuel a o base i R Hf.
  - destruct fuel; [lia|]. simpl in R; subst. simpl.
    destruct (base <=? i); auto. destruct (Z.to_nat (i - base)); reflexivity.
  - destruct R as (-> & n & Hn & Hk & Hv & Hw & _ & Hl & Hr). cbn [lht] in Hf.
    destruct fuel; [lia|]. cbn [lgetindex_loop lelems].
    rewrite (aget_some _ _ _ Hn); cbn [bind]. rewrite Hw.
    pose proof (lsize_elems l) as Sl.
    destruct (Z.eqb_spec i (base + Z.of_nat (lsize l))).
    + destruct (Z.leb_spec base i); [|lia].
      rewrite nth_error_app2 by lia.
      replace (Z.to_nat (i - base) - length (lelems l))%nat with 0%nat by lia. simpl. congruence.
    + destruct (Z.ltb_spec i (base + Z.of_nat (lsize l))).
      * rewrite (IHl fuel) by (auto; lia).
        destruct (Z.leb_spec base i); auto. rewrite nth_error_app1 by lia. reflexivity.
      * rewrite (IHr fuel) by (auto; lia).
        destruct (Z.leb_spec (base + (Z.of_nat (lsize l) + 1)) i); [|lia].
        destruct (Z.leb_spec base i); [|lia].
        rewrite nth_error_app2 by lia.
        replace (Z.to_nat (i - base) - length (lelems l))%nat with
          (S (Z.to_nat (i - (base + (Z.of_nat (lsize l) + 1)))))%nat by lia. reflexivity.
Qed.

Lemma lgetorder_rep t : forall fuel a o base k,
  lrep a o t -> csorted t -> (lht t < fuel)%nat -> llook t k <> None ->
  lgetorder_loop kcmp fuel a o base k = Ok (base + Z.of_nat (below kcmp (plain t) k)).
Proof.
  induction t as [|c l IHl j k' v' r IHr]; intros fuel a o base k R S Hf Hk'.
  - destruct fuel; [lia|]. simpl in Hk'; congruence.
  - cbn [plain]. rewrite (below_T _ TO _ _ _ _ _ _ (plain_sorted _ S)).
    pose proof (proj1 (csorted_T _ _ _ _ _ _) S) as (Sl & Sr & _ & _).
    destruct R as (-> & n & Hn & Hk & Hv & Hw & _ & Hl & Hr). cbn [lht] in Hf.
    destruct fuel; [lia|]. cbn [lgetorder_loop]. cbn [llook] in Hk'.
    rewrite (aget_some _ _ _ Hn); cbn [bind]. rewrite Hk, Hw, plain_elems, lsize_elems.
    destruct (kcmp k k').
    + reflexivity.
    + apply IHl; auto; lia.
    + rewrite (IHr fuel) by (auto; lia). f_equal. unfold below. rewrite !plain_elems. lia.
Qed.

(* ---- specification ---- *)
Definition lpayload (n : lnode) : K * V := (lkey n, lval n).

Lemma lrep_elems t : forall a o i kv, lrep a o t -> In (i, kv) (lelems t) ->
  exists n, nth_error a i = Some n /\ lpayload n = kv.
Proof.
  induction t as [|c l IHl j k v r IHr]; simpl; [tauto|].
  intros a o i kv (_ & n & Hn & Hk & Hv & _ & _ & Hl & Hr) Hin.
  rewrite in_app_iff in Hin; simpl in Hin. destruct Hin as [Hin|[Hin|Hin]]; eauto.
  injection Hin as <- <-. exists n; split; auto. unfold lpayload; congruence.
Qed.

Lemma linv_payload st t i kv : linv st t ->
  In (i, kv) (lelems t) <-> nth_error (map lpayload (larr st)) i = Some kv.
Proof.
  intros I. destruct I as (R & P & _).
  split.
  - intros H. destruct (lrep_elems _ _ _ _ _ R H) as (n & Hn & Hp).
    rewrite nth_error_map, Hn; simpl; congruence.
  - intros H. assert (Hi : In i (lidx t)).
    { eapply Permutation_in; [apply Permutation_sym, P|]. apply in_seq.
      apply nth_error_lt in H. rewrite map_length in H. lia. }
    unfold lidx in Hi. apply in_map_iff in Hi. destruct Hi as ([i' kv'] & E1 & H1).
    simpl in E1; subst i'. destruct (lrep_elems _ _ _ _ _ R H1) as (n & Hn & Hp).
    rewrite nth_error_map, Hn in H; simpl in H. congruence.
Qed.

Lemma linv_perm_payload st t : linv st t ->
  Permutation (map snd (lelems t)) (map lpayload (larr st)).
Proof.
  intros I.
  assert (P : Permutation (lelems t) (indexed (map lpayload (larr st)))).
  { apply NoDup_Permutation.
    - apply NoDup_map_inv with (f := fst). exact (linv_nodup _ _ I).
    - apply NoDup_map_inv with (f := fst). unfold indexed.
      rewrite map_fst_combine by (rewrite seq_length; auto). apply seq_NoDup.
    - intros [i kv]. rewrite in_indexed. apply linv_payload; auto. }
  rewrite P. unfold indexed. rewrite map_snd_combine; auto. apply seq_length.
Qed.

(* What the storage holds, position by position, is exactly the specification map:
   first insertions append, repeated keys overwrite in place. *)
Lemma ladd_positions st t k v : linv st t ->
  exists st' t', ladd kcmp st k v = Ok st' /\ linv st' t' /\
    map lpayload (larr st') = m_add kcmp true (map lpayload (larr st)) k v.
Proof.
  intros I. destruct (ladd_inv st t k v I) as (st' & E1 & I').
  exists st', (blacken (lins (S (length (larr st))) t (length (larr st)) k v)).
  split; auto. split; auto.
  pose proof (linv_size _ _ I) as Sz.
  pose proof I as (R & P & S & _).
  destruct (sorted_distinct kcmp TO _ S) as [D N].
  pose proof (linv_perm_payload _ _ I) as PP.
  assert (D' : distinct kcmp (map lpayload (larr st))).
  { intros e f He Hf. apply D; eapply Permutation_in; try (apply Permutation_sym, PP); auto. }
  assert (N' : NoDup (map lpayload (larr st))) by (eapply Permutation_NoDup; eauto).
  unfold m_add.
  destruct (lins_elems (Datatypes.S (length (larr st))) t (length (larr st)) k v S ltac:(lia))
    as [(H & xs & j & kj & vj & ys & E2 & C & E3)|(H & xs & ys & E2 & E3)].
  - assert (Hj : nth_error (map lpayload (larr st)) j = Some (kj, vj)).
    { apply (linv_payload _ _ _ _ I). rewrite E2, in_app_iff; simpl; auto. }
    assert (Q : m_has kcmp (map lpayload (larr st)) k = true).
    { apply m_has_true. exists (kj, vj). split; auto. eapply nth_error_In; eauto. }
    rewrite Q.
    assert (NI : NoDup (map fst (xs ++ (j, (kj, vj)) :: ys))).
    { rewrite <- E2. exact (linv_nodup _ _ I). }
    apply payload_ext. intros i e. rewrite <- (linv_payload _ _ _ _ I'), blacken_elems, E3.
    rewrite nth_error_map.
    assert (Sj : forall i e, nth_error (map lpayload (larr st)) i = Some e -> i <> j -> same kcmp k (fst e) = false).
    { intros i0 e0 H0 Hne. unfold same. destruct (kcmp k (fst e0)) eqn:C0; auto. exfalso. apply Hne.
      assert (e0 = (kj, vj)).
      { apply D'; try (eapply nth_error_In; eauto).
        simpl. rewrite (cmp_cong_r _ _ _ (fst e0) TO (cmp_eq_sym _ _ _ TO C)).
        apply (cmp_eq_sym _ _ _ TO). auto. }
      subst e0. eapply (proj1 (NoDup_nth_error _) N').
      - apply nth_error_lt in H0; auto.
      - congruence. }
    rewrite in_app_iff. cbn [In].
    destruct (Nat.eq_dec i j) as [->|Hne].
    + rewrite Hj. cbn [option_map fst]. unfold same. rewrite C.
      split.
      * intros [Hx|[Hx|Hx]].
        -- exfalso. rewrite map_app in NI. apply NoDup_remove_2 in NI. apply NI.
           rewrite in_app_iff. left. apply (in_map fst) in Hx; auto.
        -- congruence.
        -- exfalso. rewrite map_app in NI. apply NoDup_remove_2 in NI. apply NI.
           rewrite in_app_iff. right. apply (in_map fst) in Hx; auto.
      * intros Hx. injection Hx as <-. auto.
    + assert (X : In (i, e) xs \/ In (i, e) ys <-> nth_error (map lpayload (larr st)) i = Some e).
      { rewrite <- (linv_payload _ _ _ _ I), E2, in_app_iff. cbn [In].
        split; [tauto|]. intros [?|[Hx|?]]; auto. congruence. }
      split.
      * intros Hx. assert (Hx' : In (i, e) xs \/ In (i, e) ys).
        { destruct Hx as [?|[Hx|?]]; auto. congruence. }
        apply X in Hx'. rewrite Hx'. simpl. rewrite (Sj _ _ Hx' Hne). auto.
      * intros Hx. destruct (nth_error (map lpayload (larr st)) i) as [e0|] eqn:E0; [|discriminate].
        simpl in Hx. rewrite (Sj _ _ E0 Hne) in Hx. injection Hx as ->.
        destruct (proj2 X eq_refl); auto.
  - assert (Q : m_has kcmp (map lpayload (larr st)) k = false).
    { apply m_has_false. intros e He C.
      assert (Hh : lhit t k = true).
      { apply lhit_has; auto. apply (Permutation_in _ (Permutation_sym PP)) in He.
        apply in_map_iff in He. destruct He as (x & <- & Hx). exists x; auto. }
      congruence. }
    rewrite Q.
    apply payload_ext. intros i e. rewrite <- (linv_payload _ _ _ _ I'), blacken_elems, E3.
    rewrite in_app_iff. cbn [In].
    assert (X : In (i, e) xs \/ In (i, e) ys <-> nth_error (map lpayload (larr st)) i = Some e).
    { rewrite <- (linv_payload _ _ _ _ I), E2, in_app_iff. tauto. }
    destruct (Nat.lt_ge_cases i (length (map lpayload (larr st)))) as [Hi|Hi].
    + rewrite nth_error_app1 by auto. rewrite <- X. split; [|tauto].
      intros [?|[Hx|?]]; auto. rewrite map_length in Hi. injection Hx as Hx _. lia.
    + rewrite nth_error_app2 by auto.
      assert (Z0 : nth_error (map lpayload (larr st)) i = None) by (apply nth_error_None; auto).
      rewrite Z0 in X. split.
      * intros [Hx|[Hx|Hx]].
        -- exfalso. assert (Y : None = Some e) by (apply X; auto). discriminate.
        -- injection Hx as <- <-. rewrite map_length, Nat.sub_diag. reflexivity.
        -- exfalso. assert (Y : None = Some e) by (apply X; auto). discriminate.
      * intros Hx. right; left.
        rewrite map_length in *.
        destruct (i - length (larr st))%nat eqn:Ed; simpl in Hx.
        -- injection Hx as <-. assert (i = length (larr st)) as -> by lia. reflexivity.
        -- destruct n; discriminate.
Qed.

Lemma lrun_inv ops : forall st t, linv st t ->
  exists st' t', lrun kcmp st ops = Ok st' /\ linv st' t' /\
    map lpayload (larr st') =
      fold_left (fun m kv => m_add kcmp true m (fst kv) (snd kv)) ops (map lpayload (larr st)).
Proof.
  induction ops as [|[k v] ops IH]; intros st t I; simpl.
  - eauto.
  - destruct (ladd_positions st t k v I) as (st1 & t1 & E1 & I1 & E2).
    rewrite E1; cbn [bind]. destruct (IH st1 t1 I1) as (st' & t' & E3 & I3 & E4).
    exists st', t'. rewrite E4, E2. auto.
Qed.

End P.
