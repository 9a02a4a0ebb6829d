(* The loops of PcgModel as sums over the rows of the matrix. *)
From Coq Require Import List ZArith Bool Arith Lia Permutation Sorting.Sorted Ring Field.
From Verif Require Import Base LinBase SmatModel SmatProofs SmatFill PropsSmat IncholModel IncholProofs PcgModel.
Import ListNotations.
Local Open Scope nat_scope.

Section Lists.
Lemma aget_nth {X} (l : list X) n d : n < length l -> aget l n = Ok (nth n l d).
Proof. intros L. unfold aget. now rewrite (nth_error_nth' l d L). Qed.
Lemma nth_upd {X} (l : list X) k n v d : k < length l -> nth n (upd l k v) d = if n =? k then v else nth n l d.
Proof.
  revert k n. induction l as [|x l IH]; intros k n L; cbn in L; [lia|]. destruct k, n; cbn; auto. apply IH; lia.
Qed.
End Lists.

Section Walk.
Context {K : ofield} {S : Type}.
Fixpoint wl (l : list (node (m3 K))) (f : node (m3 K) -> S -> outcome S) (s : S) : outcome S :=
  match l with [] => Ok s | p :: l => let* s := f p s in wl l f s end.
Lemma loop_wl (f : node (m3 K) -> S -> outcome S) (l : list (node (m3 K))) : forall pre s,
  loopn (length l) (length pre) (fun k s => let* p := aget (pre ++ l) k in f p s) s = wl l f s.
Proof.
  induction l as [|p l IH]; intros pre s; cbn [loopn length wl]; auto.
  unfold aget at 1. rewrite nth_error_app2 by lia. rewrite Nat.sub_diag. cbn [nth_error bind].
  destruct (f p s) as [s'|e|u]; cbn [bind]; auto. specialize (IH (pre ++ [p]) s').
  rewrite <- app_assoc in IH. cbn [app] in IH. rewrite app_length in IH. cbn [length] in IH.
  replace (Datatypes.S (length pre)) with (length pre + 1) by lia. exact IH.
Qed.
(* the nodes of a column start at its head *)
Definition flatcol (n : nat) (d : dcol (m3 K)) (L : list (nat * m3 K)) : Prop :=
  dhead d = (match dnodes d with [] => None | _ => Some 0 end) /\ NoDup (map nrow (dnodes d)) /\
  Forall (fun p => nrow p < n) (dnodes d) /\ forall k, lookup (map cell (dnodes d)) k = lookup L k.
Lemma walk_wl n d L f (s : S) : flatcol n d L -> walk d f s = wl (dnodes d) f s.
Proof.
  intros (H & _). unfold walk. destruct (dnodes d) as [|x l] eqn:E.
  - unfold nnz. rewrite E. reflexivity.
  - rewrite H. unfold for_up, nnz. rewrite Nat.sub_0_r, E. apply (loop_wl f (x :: l) []).
Qed.
End Walk.

Definition flat_holds {K : ofield} (A : smat (m3 K)) (m : nat) (D : nat -> m3 K) (C : nat -> list (nat * m3 K)) : Prop :=
  length A = m /\ forall n, n < m -> exists d, nth_error A n = Some d /\ flatcol n d (C n) /\ dk d = D n.

Section P.
Context {K : ofield}.
Local Open Scope lin_scope.
Add Field Kf59 : (f_th K).
Ltac three i := destruct i as [|[|[|i]]]; [| | |lia].

Lemma nodup_rows (l : list (node (m3 K))) : map nrow l = map fst (map cell l).
Proof. rewrite map_map. apply map_ext. auto. Qed.
Lemma sorted_nodup (L : list (nat * m3 K)) : StronglySorted lt1 L -> NoDup (map fst L).
Proof.
  induction 1 as [|y L S IH F]; cbn; constructor; auto.
  intros I. apply in_map_iff in I as (z & E & I). rewrite Forall_forall in F. specialize (F z I). unfold lt1 in F; lia.
Qed.
Lemma flat_tidy (A : smat (m3 K)) m D C : holds_tidy A m D C -> flat_holds A m D C.
Proof.
  intros (L & H). split; auto. intros n N. destruct (H n N) as (d & E & (T1 & T2 & T3 & T4 & T5 & T6) & DK). exists d. split; auto. split; auto.
  split; [|split; [|split]].
  - rewrite T3, <- T1. destruct (dnodes d); auto.
  - rewrite nodup_rows, T1. now apply sorted_nodup.
  - rewrite <- T1 in T5. clear - T5. induction (dnodes d); inversion T5; subst; constructor; auto.
  - now rewrite T1.
Qed.
Lemma flat_rep n (d : dcol (m3 K)) L : rep n d L -> dhead d = None \/ dhead d = Some 0%nat -> flatcol n d L.
Proof.
  intros R H. pose proof (rep_perm _ _ _ R) as P. pose proof (rep_head _ _ _ R) as HN. destruct R as (_ & S & F & _). pose proof (sorted_nodup _ S) as N.
  assert (N' : NoDup (map fst (map cell (dnodes d)))) by (eapply Permutation_NoDup; [apply Permutation_map, Permutation_sym; eauto|auto]).
  split; [|split; [|split]].
  - destruct H as [H|H]; rewrite H.
    + apply HN in H. now rewrite H.
    + destruct (dnodes d); auto. destruct HN as (_ & HN). rewrite HN in H by auto. discriminate.
  - now rewrite nodup_rows.
  - rewrite Forall_forall in *. intros p I. apply (F (cell p)). eapply Permutation_in; eauto. now apply in_map.
  - intros k. now apply lookup_perm.
Qed.

(* ---- entries of vectors ---- *)
Definition vw (X : svec K) (n i : nat) : K := gv (nth n X zerov) i.
Lemma gv_gen (f : nat -> K) i : (i < 3)%nat -> gv (genv f) i = f i.
Proof. intros I. three i; reflexivity. Qed.
Lemma gv_zero i : gv (zerov : v3 K) i = f0.
Proof. destruct i as [|[|i]]; reflexivity. Qed.
Definition bv (b : m3 K) (v : nat -> K) (i : nat) : K := get3 b i 0 * v 0%nat + get3 b i 1 * v 1%nat + get3 b i 2 * v 2%nat.
Definition btv (b : m3 K) (v : nat -> K) (i : nat) : K := get3 b 0 i * v 0%nat + get3 b 1 i * v 1%nat + get3 b 2 i * v 2%nat.
Lemma gv_mulv b v i : (i < 3)%nat -> gv (mulv b v) i = bv b (gv v) i.
Proof. intros I. unfold mulv. now rewrite gv_gen. Qed.
Lemma gv_multv b v i : (i < 3)%nat -> gv (mulv (tr3 b) v) i = btv b (gv v) i.
Proof. intros I. unfold mulv, tr3. rewrite gv_gen by auto. unfold btv. now rewrite !get_gen by lia. Qed.
Lemma bv_zero v i : bv zero3 v i = f0.
Proof. unfold bv. rewrite !get_zero. ring. Qed.
Lemma btv_zero v i : btv zero3 v i = f0.
Proof. unfold btv. rewrite !get_zero. ring. Qed.

Lemma blk_cons (p : node (m3 K)) l r : ~ In (nrow p) (map nrow l) ->
  blk (map cell (p :: l)) r = (if Nat.eqb r (nrow p) then nk p else blk (map cell l) r) /\ blk (map cell l) (nrow p) = zero3.
Proof.
  intros N. split.
  - unfold blk, cell. cbn. rewrite (Nat.eqb_sym r). destruct (Nat.eqb (nrow p) r); auto.
  - unfold blk. rewrite lookup_none; auto. intros y I. apply in_map_iff in I as (z & <- & I). cbn. intros E. apply N. rewrite <- E. now apply in_map.
Qed.
(* a sum over the rows of a column with one node more *)
Lemma sum_cons (p : node (m3 K)) l k (g : m3 K -> nat -> K) : ~ In (nrow p) (map nrow l) -> (nrow p < k)%nat -> (forall r, g zero3 r = f0) ->
  sumr 0 k (fun r => g (blk (map cell (p :: l)) r) r) = g (nk p) (nrow p) + sumr 0 k (fun r => g (blk (map cell l) r) r).
Proof.
  intros N L Z.
  rewrite (sumr_ext 0 k _ (fun r => (if Nat.eqb r (nrow p) then g (nk p) (nrow p) else f0) + g (blk (map cell l) r) r)).
  - rewrite sumr_add. f_equal. rewrite (sumr_one 0 k _ (nrow p)); [now rewrite Nat.eqb_refl|lia|].
    intros t T Nt. destruct (Nat.eqb_spec t (nrow p)); [congruence|auto].
  - intros r R. destruct (blk_cons p l r N) as (-> & E). destruct (Nat.eqb_spec r (nrow p)) as [->|]; [rewrite E, Z|]; ring.
Qed.

(* ---- the product with the matrix ---- *)
Section Spmv.
Variables (op : v3 K -> v3 K -> v3 K) (s : K).
Hypothesis opok : forall a b i, (i < 3)%nat -> gv (op a b) i = gv a i + s * gv b i.
Lemma spmv_col k (Y : svec K) y : (k < length Y)%nat -> forall l (X : svec K), NoDup (map nrow l) -> Forall (fun p => nrow p < k)%nat l -> (k < length X)%nat ->
  exists X', wl l (fun p X =>
      let* xi := aget X k in
      let* yr := aget Y (nrow p) in
      let* X := aset X k (op xi (mulv (tr3 (nk p)) yr)) in
      let* xr := aget X (nrow p) in
      aset X (nrow p) (op xr (mulv (nk p) y))) X = Ok X' /\ length X' = length X /\
    (forall i, (i < 3)%nat -> vw X' k i = vw X k i + s * sumr 0 k (fun r => btv (blk (map cell l) r) (vw Y r) i)) /\
    (forall n i, (n < k)%nat -> (i < 3)%nat -> vw X' n i = vw X n i + s * bv (blk (map cell l) n) (gv y) i) /\
    (forall n, (k < n)%nat -> nth n X' zerov = nth n X zerov).
Proof.
  intros LY. induction l as [|p l IH]; intros X ND F LX.
  - exists X. cbn [wl map]. split; auto. split; auto. split; [|split; auto].
    + intros i I. rewrite sumr_zero; [ring|]. intros; apply btv_zero.
    + intros n i N I. unfold blk. cbn. rewrite bv_zero. ring.
  - cbn [map] in ND. inversion ND as [|? ? NI ND']; subst. inversion F as [|? ? FP F']; subst. cbn [wl].
    rewrite (aget_nth X k zerov LX). cbn [bind]. rewrite (aget_nth Y (nrow p) zerov) by lia. cbn [bind]. rewrite aset_ok by lia. cbn [bind].
    rewrite (aget_nth _ (nrow p) zerov) by (rewrite length_upd; lia). cbn [bind]. rewrite aset_ok by (rewrite length_upd; lia). cbn [bind].
    match goal with |- context [wl l _ ?X] => set (X1 := X) end.
    assert (L1 : length X1 = length X) by (unfold X1; now rewrite !length_upd).
    destruct (IH X1 ND' F' ltac:(lia)) as (X' & E & L' & H1 & H2 & H3).
    exists X'. split; auto. split; [lia|].
    assert (NX : forall n, nth n X1 zerov = if Nat.eqb n (nrow p) then op (nth (nrow p) X zerov) (mulv (nk p) y) else if Nat.eqb n k then op (nth k X zerov) (mulv (tr3 (nk p)) (nth (nrow p) Y zerov)) else nth n X zerov).
    { intros n. unfold X1. rewrite nth_upd by (rewrite length_upd; lia). rewrite !nth_upd by lia. destruct (Nat.eqb_spec (nrow p) k); [lia|]. auto. }
    split; [|split].
    + intros i I. rewrite H1 by auto. rewrite (sum_cons p l k (fun b r => btv b (vw Y r) i) NI FP) by (intros; apply btv_zero).
      unfold vw at 1. rewrite NX. destruct (Nat.eqb_spec k (nrow p)); [lia|]. rewrite Nat.eqb_refl. rewrite opok, gv_multv by auto.
      change (gv (nth k X zerov) i) with (vw X k i). change (btv (nk p) (gv (nth (nrow p) Y zerov)) i) with (btv (nk p) (vw Y (nrow p)) i). ring.
    + intros n i N I. rewrite H2 by auto. destruct (blk_cons p l n NI) as (-> & EZ). unfold vw at 1. rewrite NX. destruct (Nat.eqb_spec n (nrow p)) as [->|].
      * rewrite opok, gv_mulv by auto. rewrite EZ, bv_zero. change (gv (nth (nrow p) X zerov) i) with (vw X (nrow p) i). ring.
      * destruct (Nat.eqb_spec n k); [lia|]. reflexivity.
    + intros n N. rewrite H3, NX by auto. destruct (Nat.eqb_spec n (nrow p)); [lia|]. destruct (Nat.eqb_spec n k); [lia|]. auto.
Qed.
Lemma blk_flat n (d : dcol (m3 K)) L r : flatcol n d L -> blk (map cell (dnodes d)) r = blk L r.
Proof. intros (_ & _ & _ & H). unfold blk. now rewrite H. Qed.
Lemma spmv_wp (A : smat (m3 K)) m D C (ini : nat -> v3 K -> outcome (v3 K)) (base : nat -> v3 K) (Y X : svec K) :
  flat_holds A m D C -> length Y = m -> length X = m ->
  (forall n, (n < m)%nat -> ini n (mulv (D n) (nth n Y zerov)) = Ok (base n)) ->
  exists X', spmv op ini A Y X = Ok X' /\ length X' = m /\ forall n i, (n < m)%nat -> (i < 3)%nat ->
    vw X' n i = gv (base n) i + s * (sumr 0 n (fun r => btv (blk (C n) r) (vw Y r) i) + sumr (S n) m (fun c => bv (blk (C c) n) (vw Y c) i)).
Proof.
  intros (LA & HA) LY LX HI.
  assert (W : wp (spmv op ini A Y X) (fun X' => length X' = m /\ forall n i, (n < m)%nat -> (i < 3)%nat ->
    vw X' n i = gv (base n) i + s * (sumr 0 n (fun r => btv (blk (C n) r) (vw Y r) i) + sumr (S n) m (fun c => bv (blk (C c) n) (vw Y c) i))) (fun _ => False)).
  2:{ destruct (spmv op ini A Y X); cbn in W; try tauto. eauto. }
  unfold spmv. rewrite LA.
  apply (wp_for 0 m _ X (fun k X' => length X' = m /\ forall n i, (n < k)%nat -> (i < 3)%nat ->
    vw X' n i = gv (base n) i + s * (sumr 0 n (fun r => btv (blk (C n) r) (vw Y r) i) + sumr (S n) k (fun c => bv (blk (C c) n) (vw Y c) i)))).
  - lia.
  - split; auto. intros; lia.
  - intros k X1 Kk (L1 & H1). destruct (HA k ltac:(lia)) as (d & E & FC & DK).
    unfold aget at 1. rewrite E. cbn [bind]. rewrite (aget_nth Y k zerov) by lia. cbn [bind]. rewrite DK, HI by lia. cbn [bind].
    rewrite aset_ok by lia. cbn [bind]. rewrite (walk_wl _ _ _ _ _ FC).
    pose proof FC as (_ & ND & FR & _).
    destruct (spmv_col k Y (nth k Y zerov) ltac:(lia) (dnodes d) (upd X1 k (base k)) ND FR ltac:(rewrite length_upd; lia)) as (X2 & -> & L2 & G1 & G2 & G3).
    cbn [wp]. rewrite length_upd in L2. split; [lia|]. intros n i N I. destruct (Nat.eq_dec n k) as [->|NE].
    + rewrite G1 by auto. unfold vw at 1. rewrite nth_upd, Nat.eqb_refl by lia. rewrite (sumr_nil (S k)) by lia.
      rewrite (sumr_ext 0 k _ (fun r => btv (blk (C k) r) (vw Y r) i)) by (intros; now rewrite (blk_flat _ _ _ _ FC)). ring.
    + rewrite G2 by (auto; lia). unfold vw at 1. rewrite nth_upd by lia. destruct (Nat.eqb_spec n k); [lia|]. change (gv (nth n X1 zerov) i) with (vw X1 n i).
      rewrite H1 by (auto; lia). rewrite Nat.add_1_r, (sumr_S (S n) k) by lia. rewrite (blk_flat _ _ _ _ FC).
      change (bv (blk (C k) n) (gv (nth k Y zerov)) i) with (bv (blk (C k) n) (vw Y k) i). ring.
Qed.
End Spmv.

(* ---- the substitutions ---- *)
Lemma fsolve_ok (d : m3 K) (t : v3 K) : (forall i, (i < 3)%nat -> get3 d i i <> f0) ->
  exists t', fsolve d t = Ok t' /\ forall i, (i < 3)%nat -> tri d 0 i * gv t' 0 + tri d 1 i * gv t' 1 + tri d 2 i * gv t' 2 = gv t i.
Proof.
  intros NZ. pose proof (NZ 0%nat ltac:(lia)) as N0. pose proof (NZ 1%nat ltac:(lia)) as N1. pose proof (NZ 2%nat ltac:(lia)) as N2.
  destruct d, t. cbn in N0, N1, N2. eexists. split. { cbv -[fmul fadd fsub f0 f1 fdiv fopp car]. reflexivity. }
  intros i I. three i; unfold tri; cbn; field; auto.
Qed.
Lemma bsolve_ok (d : m3 K) (t : v3 K) : (forall i, (i < 3)%nat -> get3 d i i <> f0) ->
  exists t', bsolve d t = Ok t' /\ forall i, (i < 3)%nat -> tri d i 0 * gv t' 0 + tri d i 1 * gv t' 1 + tri d i 2 * gv t' 2 = gv t i.
Proof.
  intros NZ. pose proof (NZ 0%nat ltac:(lia)) as N0. pose proof (NZ 1%nat ltac:(lia)) as N1. pose proof (NZ 2%nat ltac:(lia)) as N2.
  destruct d, t. cbn in N0, N1, N2. eexists. split. { cbv -[fmul fadd fsub f0 f1 fdiv fopp car]. reflexivity. }
  intros i I. three i; unfold tri; cbn; field; auto.
Qed.
Definition ttv (d : m3 K) (v : nat -> K) (i : nat) : K := tri d 0 i * v 0%nat + tri d 1 i * v 1%nat + tri d 2 i * v 2%nat.
Definition tv (d : m3 K) (v : nat -> K) (i : nat) : K := tri d i 0 * v 0%nat + tri d i 1 * v 1%nat + tri d i 2 * v 2%nat.

Lemma fwd_col k (V : svec K) : (k <= length V)%nat -> forall l (t : v3 K), NoDup (map nrow l) -> Forall (fun p => nrow p < k)%nat l ->
  exists t', wl l (fun p t => let* v := aget V (nrow p) in Ok (subv t (mulv (tr3 (nk p)) v))) t = Ok t' /\
    forall i, (i < 3)%nat -> gv t' i = gv t i - sumr 0 k (fun r => btv (blk (map cell l) r) (vw V r) i).
Proof.
  intros LV. induction l as [|p l IH]; intros t ND F.
  - exists t. split; auto. intros i I. rewrite sumr_zero; [ring|]. intros; apply btv_zero.
  - cbn [map] in ND. inversion ND as [|? ? NI ND']; subst. inversion F as [|? ? FP F']; subst. cbn [wl].
    rewrite (aget_nth V (nrow p) zerov) by lia. cbn [bind].
    destruct (IH (subv t (mulv (tr3 (nk p)) (nth (nrow p) V zerov))) ND' F') as (t' & E & H). exists t'. split; auto.
    intros i I. rewrite H by auto. rewrite (sum_cons p l k (fun b r => btv b (vw V r) i) NI FP) by (intros; apply btv_zero).
    unfold subv at 1. rewrite gv_gen, gv_multv by auto.
    change (btv (nk p) (gv (nth (nrow p) V zerov)) i) with (btv (nk p) (vw V (nrow p)) i). ring.
Qed.
Lemma forward_wp (M : smat (m3 K)) m D C (R V : svec K) : flat_holds M m D C -> (forall n i, (n < m)%nat -> (i < 3)%nat -> get3 (D n) i i <> f0) ->
  length R = m -> length V = m ->
  exists V', forward M R V = Ok V' /\ length V' = m /\ forall n i, (n < m)%nat -> (i < 3)%nat ->
    sumr 0 n (fun r => btv (blk (C n) r) (vw V' r) i) + ttv (D n) (vw V' n) i = vw R n i.
Proof.
  intros (LM & HM) NZ LR LV.
  assert (W : wp (forward M R V) (fun V' => length V' = m /\ forall n i, (n < m)%nat -> (i < 3)%nat ->
    sumr 0 n (fun r => btv (blk (C n) r) (vw V' r) i) + ttv (D n) (vw V' n) i = vw R n i) (fun _ => False)).
  2:{ destruct (forward M R V); cbn in W; try tauto. eauto. }
  unfold forward. rewrite LM.
  apply (wp_for 0 m _ V (fun k V' => length V' = m /\ forall n i, (n < k)%nat -> (i < 3)%nat ->
    sumr 0 n (fun r => btv (blk (C n) r) (vw V' r) i) + ttv (D n) (vw V' n) i = vw R n i)).
  - lia.
  - split; auto. intros; lia.
  - intros k V1 Kk (L1 & H1). destruct (HM k ltac:(lia)) as (d & E & FC & DK).
    unfold aget at 1. rewrite E. cbn [bind]. rewrite (aget_nth R k zerov) by lia. cbn [bind]. rewrite (walk_wl _ _ _ _ _ FC).
    pose proof FC as (_ & ND & FR & _).
    destruct (fwd_col k V1 ltac:(lia) (dnodes d) (nth k R zerov) ND FR) as (t & -> & G). cbn [bind].
    rewrite DK. destruct (fsolve_ok (D k) t) as (t' & -> & S). { intros; apply NZ; auto; lia. } cbn [bind].
    rewrite aset_ok by lia. cbn [wp]. rewrite length_upd. split; auto.
    assert (NV : forall r, nth r (upd V1 k t') zerov = if Nat.eqb r k then t' else nth r V1 zerov) by (intros; apply nth_upd; lia).
    intros n i N I. destruct (Nat.eq_dec n k) as [->|NE].
    + rewrite (sumr_ext 0 k _ (fun r => btv (blk (map cell (dnodes d)) r) (vw V1 r) i)).
      * unfold ttv, vw at 2 3 4. rewrite !NV, Nat.eqb_refl. rewrite S, G by auto. unfold vw. ring.
      * intros r Rr. rewrite (blk_flat _ _ _ _ FC). unfold vw. rewrite NV. destruct (Nat.eqb_spec r k); [lia|auto].
    + rewrite <- (H1 n i) by (auto; lia). f_equal.
      * apply sumr_ext. intros r Rr. unfold vw. rewrite NV. destruct (Nat.eqb_spec r k); [lia|auto].
      * unfold vw. rewrite NV. destruct (Nat.eqb_spec n k); [lia|auto].
Qed.

Lemma bwd_col k (t : v3 K) : forall l (V : svec K), NoDup (map nrow l) -> Forall (fun p => nrow p < k)%nat l -> (k <= length V)%nat ->
  exists V', wl l (fun p V => let* v := aget V (nrow p) in aset V (nrow p) (subv v (mulv (nk p) t))) V = Ok V' /\ length V' = length V /\
    (forall n i, (n < k)%nat -> (i < 3)%nat -> vw V' n i = vw V n i - bv (blk (map cell l) n) (gv t) i) /\
    (forall n, (k <= n)%nat -> nth n V' zerov = nth n V zerov).
Proof.
  induction l as [|p l IH]; intros V ND F LV.
  - exists V. split; auto. split; auto. split; auto. intros n i N I. unfold blk. cbn. rewrite bv_zero. ring.
  - cbn [map] in ND. inversion ND as [|? ? NI ND']; subst. inversion F as [|? ? FP F']; subst. cbn [wl].
    rewrite (aget_nth V (nrow p) zerov) by lia. cbn [bind]. rewrite aset_ok by lia. cbn [bind].
    match goal with |- context [wl l _ ?X] => set (V1 := X) end.
    assert (NV : forall r, nth r V1 zerov = if Nat.eqb r (nrow p) then subv (nth (nrow p) V zerov) (mulv (nk p) t) else nth r V zerov) by (intros; apply nth_upd; lia).
    assert (L1 : length V1 = length V) by apply length_upd.
    destruct (IH V1 ND' F' ltac:(lia)) as (V' & E & L' & H1 & H2). exists V'. split; auto. split; [lia|]. split.
    + intros n i N I. rewrite H1 by auto. destruct (blk_cons p l n NI) as (-> & EZ). unfold vw at 1. rewrite NV. destruct (Nat.eqb_spec n (nrow p)) as [->|].
      * unfold subv. rewrite gv_gen, gv_mulv by auto. rewrite EZ, bv_zero. change (gv (nth (nrow p) V zerov) i) with (vw V (nrow p) i). ring.
      * reflexivity.
    + intros n N. rewrite H2, NV by auto. destruct (Nat.eqb_spec n (nrow p)); [lia|auto].
Qed.
Lemma backward_wp (M : smat (m3 K)) m D C (V : svec K) : flat_holds M m D C -> (forall n i, (n < m)%nat -> (i < 3)%nat -> get3 (D n) i i <> f0) ->
  length V = m ->
  exists V', backward M V = Ok V' /\ length V' = m /\ forall n i, (n < m)%nat -> (i < 3)%nat ->
    tv (D n) (vw V' n) i + sumr (S n) m (fun c => bv (blk (C c) n) (vw V' c) i) = vw V n i.
Proof.
  intros (LM & HM) NZ LV.
  assert (W : wp (backward M V) (fun V' => length V' = m /\ (forall n i, (0 <= n < m)%nat -> (i < 3)%nat ->
    tv (D n) (vw V' n) i + sumr (S n) m (fun c => bv (blk (C c) n) (vw V' c) i) = vw V n i) /\
    (forall n i, (n < 0)%nat -> (i < 3)%nat -> vw V' n i + sumr 0 m (fun c => bv (blk (C c) n) (vw V' c) i) = vw V n i)) (fun _ => False)).
  2:{ destruct (backward M V) as [V'|e|f]; cbn in W; try tauto. exists V'. split; auto. destruct W as (W1 & W2 & _). split; auto. intros; apply W2; auto. lia. }
  unfold backward. rewrite LM.
  apply (wp_down m 0 _ V (fun k V' => length V' = m /\ (forall n i, (k <= n < m)%nat -> (i < 3)%nat ->
    tv (D n) (vw V' n) i + sumr (S n) m (fun c => bv (blk (C c) n) (vw V' c) i) = vw V n i) /\
    (forall n i, (n < k)%nat -> (i < 3)%nat -> vw V' n i + sumr k m (fun c => bv (blk (C c) n) (vw V' c) i) = vw V n i))).
  - lia.
  - split; auto. split; [intros; lia|]. intros n i N I. rewrite sumr_nil by lia. ring.
  - intros k1 V1 Kk (L1 & H1 & H2). set (k := (k1 - 1)%nat) in *. assert (Ek : k1 = S k) by (unfold k; lia).
    destruct (HM k ltac:(lia)) as (d & E & FC & DK).
    unfold aget at 1. rewrite E. cbn [bind]. rewrite (aget_nth V1 k zerov) by lia. cbn [bind]. rewrite DK.
    destruct (bsolve_ok (D k) (nth k V1 zerov)) as (t & -> & S). { intros; apply NZ; auto; lia. } cbn [bind].
    rewrite aset_ok by lia. cbn [bind]. rewrite (walk_wl _ _ _ _ _ FC).
    pose proof FC as (_ & ND & FR & _).
    assert (NV : forall r, nth r (upd V1 k t) zerov = if Nat.eqb r k then t else nth r V1 zerov) by (intros; apply nth_upd; lia).
    destruct (bwd_col k t (dnodes d) (upd V1 k t) ND FR ltac:(rewrite length_upd; lia)) as (V2 & -> & L2 & G1 & G2). rewrite length_upd in L2.
    cbn [wp]. split; [lia|].
    assert (V2k : nth k V2 zerov = t) by (rewrite G2, NV, Nat.eqb_refl by lia; auto).
    assert (V2c : forall c, (k < c)%nat -> nth c V2 zerov = nth c V1 zerov) by (intros c Cc; rewrite G2, NV by lia; destruct (Nat.eqb_spec c k); [lia|auto]).
    assert (SUM : forall a n i, (k < a)%nat -> sumr a m (fun c => bv (blk (C c) n) (vw V2 c) i) = sumr a m (fun c => bv (blk (C c) n) (vw V1 c) i)).
    { intros a n i La. apply sumr_ext. intros c Cc. unfold vw. rewrite V2c by lia. auto. }
    split.
    + intros n i N I. rewrite SUM by lia. destruct (Nat.eq_dec n k) as [->|NE].
      * unfold tv, vw at 1 2 3. rewrite V2k, S by auto. rewrite <- (H2 k i) by (auto; lia). rewrite Ek. reflexivity.
      * rewrite <- (H1 n i) by (auto; lia). f_equal. unfold vw. rewrite V2c by lia. auto.
    + intros n i N I. rewrite G1 by auto. rewrite (blk_flat _ _ _ _ FC). unfold vw at 1. rewrite NV. destruct (Nat.eqb_spec n k); [lia|].
      rewrite (sumr_first k m) by lia. rewrite SUM by lia. change (bv (blk (C k) n) (vw V2 k) i) with (bv (blk (C k) n) (gv (nth k V2 zerov)) i). rewrite V2k.
      rewrite <- (H2 n i) by (auto; lia). rewrite Ek. unfold vw. ring.
Qed.

(* ---- sums and updates ---- *)
Lemma dots_wp m (X Y : svec K) : length X = m -> length Y = m -> dots m X Y = Ok (sumr 0 m (fun n => dotv (nth n X zerov) (nth n Y zerov))).
Proof.
  intros LX LY. assert (W : wp (dots m X Y) (fun r => r = sumr 0 m (fun n => dotv (nth n X zerov) (nth n Y zerov))) (fun _ => False)).
  2:{ destruct (dots m X Y); cbn in W; try tauto. now rewrite W. }
  unfold dots. apply (wp_for 0 m _ f0 (fun k r => r = sumr 0 k (fun n => dotv (nth n X zerov) (nth n Y zerov)))).
  - lia.
  - now rewrite sumr_nil by lia.
  - intros k r Kk ->. rewrite (aget_nth X k zerov), (aget_nth Y k zerov) by lia. cbn. now rewrite Nat.add_1_r, sumr_S by lia.
Qed.
Lemma direction_wp it m (V P : svec K) r ro : length V = m -> length P = m -> (it = O \/ ro <> f0) ->
  exists P', direction it m V r ro P = Ok P' /\ length P' = m /\ forall n i, (n < m)%nat -> (i < 3)%nat ->
    vw P' n i = if Nat.eqb it 0 then vw V n i else vw V n i + r / ro * vw P n i.
Proof.
  intros LV LP HI.
  set (h := fun n => if Nat.eqb it 0 then nth n V zerov else addv (nth n V zerov) (scalev (r / ro) (nth n P zerov))).
  assert (W : wp (direction it m V r ro P) (fun P' => length P' = m /\ (forall n, (n < m)%nat -> nth n P' zerov = h n) /\ (forall n, (m <= n)%nat -> nth n P' zerov = nth n P zerov)) (fun _ => False)).
  2:{ destruct (direction it m V r ro P) as [P'|e|f]; cbn in W; try tauto. destruct W as (W1 & W2 & _). exists P'. split; auto. split; auto.
      intros n i N I. unfold vw. rewrite W2 by auto. unfold h. destruct (Nat.eqb it 0); auto. unfold addv, scalev. now rewrite !gv_gen by auto. }
  unfold direction. destruct (Nat.eqb_spec it 0) as [->|NI].
  - apply (wp_for 0 m _ P (fun k P' => length P' = m /\ (forall n, (n < k)%nat -> nth n P' zerov = h n) /\ (forall n, (k <= n)%nat -> nth n P' zerov = nth n P zerov))).
    + lia.
    + split; auto. split; auto. intros; lia.
    + intros k P1 Kk (L1 & H1 & H2). rewrite (aget_nth V k zerov) by lia. cbn [bind]. rewrite aset_ok by lia. cbn [wp]. rewrite length_upd. split; auto.
      split; intros n N; rewrite nth_upd by lia; destruct (Nat.eqb_spec n k) as [->|]; auto; try lia; [apply H1; lia|apply H2; lia].
  - destruct HI as [|HI]; [lia|].
    apply (wp_for 0 m _ P (fun k P' => length P' = m /\ (forall n, (n < k)%nat -> nth n P' zerov = h n) /\ (forall n, (k <= n)%nat -> nth n P' zerov = nth n P zerov))).
    + lia.
    + split; auto. split; auto. intros; lia.
    + intros k P1 Kk (L1 & H1 & H2). rewrite (aget_nth V k zerov) by lia. cbn [bind]. unfold divc. destruct (feqb_spec ro f0); [contradiction|]. cbn [bind].
      rewrite (aget_nth P1 k zerov) by lia. cbn [bind]. rewrite aset_ok by lia. cbn [wp]. rewrite length_upd. split; auto.
      split; intros n' N'; rewrite nth_upd by lia; destruct (Nat.eqb_spec n' k) as [->|]; auto; try lia.
      * rewrite H2 by lia. reflexivity.
      * apply H1; lia.
      * apply H2; lia.
Qed.
Lemma update_wp m ro a (P W U R : svec K) : length P = m -> length W = m -> length U = m -> length R = m -> a <> f0 ->
  exists U' R', update m ro a P W (U, R) = Ok (U', R') /\ length U' = m /\ length R' = m /\ forall n i, (n < m)%nat -> (i < 3)%nat ->
    vw U' n i = vw U n i + ro / a * vw P n i /\ vw R' n i = vw R n i - ro / a * vw W n i.
Proof.
  intros LP LW LU LR NA.
  set (hU := fun n => addv (nth n U zerov) (scalev (ro / a) (nth n P zerov))). set (hR := fun n => subv (nth n R zerov) (scalev (ro / a) (nth n W zerov))).
  assert (Wp : wp (update m ro a P W (U, R)) (fun '(U', R') => length U' = m /\ length R' = m /\ (forall n, (n < m)%nat -> nth n U' zerov = hU n /\ nth n R' zerov = hR n) /\
    (forall n, (m <= n)%nat -> nth n U' zerov = nth n U zerov /\ nth n R' zerov = nth n R zerov)) (fun _ => False)).
  2:{ destruct (update m ro a P W (U, R)) as [[U' R']|e|f]; cbn in Wp; try tauto. destruct Wp as (W1 & W2 & W3 & _). exists U', R'. split; auto. split; auto. split; auto.
      intros n i N I. destruct (W3 n N) as (E1 & E2). unfold vw. rewrite E1, E2. unfold hU, hR, addv, subv, scalev. rewrite !gv_gen by auto. auto. }
  unfold update. apply (wp_for 0 m _ (U, R) (fun k '(U', R') => length U' = m /\ length R' = m /\ (forall n, (n < k)%nat -> nth n U' zerov = hU n /\ nth n R' zerov = hR n) /\
    (forall n, (k <= n)%nat -> nth n U' zerov = nth n U zerov /\ nth n R' zerov = nth n R zerov))).
  - lia.
  - split; auto. split; auto. split; auto. intros; lia.
  - intros k [U1 R1] Kk (L1 & L2 & H1 & H2). unfold divc. destruct (feqb_spec a f0); [contradiction|]. cbn [bind].
    rewrite (aget_nth P k zerov), (aget_nth W k zerov), (aget_nth U1 k zerov) by lia. cbn [bind]. rewrite aset_ok by lia. cbn [bind].
    rewrite (aget_nth R1 k zerov) by lia. cbn [bind]. rewrite aset_ok by lia. cbn [bind wp]. rewrite !length_upd. split; auto. split; auto.
    destruct (H2 k ltac:(lia)) as (E1 & E2).
    split; intros n' N'; rewrite !nth_upd by lia; destruct (Nat.eqb_spec n' k) as [->|]; auto; try lia.
    + rewrite E1, E2. auto.
    + apply H1; lia.
    + apply H2; lia.
Qed.
End P.
