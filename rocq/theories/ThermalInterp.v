(* Lemmas about the interpolation of temperatures between the nodes. *)
From Coq Require Import List ZArith Lia Bool Arith Field QArith Qcanon.
From Verif Require Import Base LinBase TransposeModel CholModel ThermalModel ThermalProofs ThermalAsm.
Import ListNotations.
Local Close Scope Qc_scope.
Local Close Scope Q_scope.
Local Open Scope nat_scope.

Section Interp.
Context {K : ofield}.
Local Open Scope lin_scope.
Add Field Kf24 : (f_th K).

(* c0 + c1 x + c2 x^2 + ... *)
Fixpoint peval (c : list K) (x : K) : K :=
  match c with
  | [] => f0
  | a :: c => a + x * peval c x
  end.
Definition increasing (n : nat) (nd : list K) : Prop :=
  forall i, i + 1 < n -> fltb (ndv nd i) (ndv nd (i + 1)%nat) = true.
(* the nodes inside an element are evenly spaced *)
Definition even (m w : nat) (nd : list K) : Prop :=
  forall e k, e < m -> k < w -> ndv nd (e * w + k + 1)%nat - ndv nd (e * w + k)%nat = ndv nd (e * w + 1)%nat - ndv nd (e * w)%nat.

Lemma fltb_trans (x y z : K) : fltb x y = true -> fltb y z = true -> fltb x z = true.
Proof.
  intros A B. apply fltb_spec in A, B. destruct A as [A N], B as [B M]. apply fltb_spec. split.
  - eapply fle_trans; eauto.
  - intros ->. apply M. apply fle_antisym; auto.
Qed.
Lemma lt_le (x y : K) : fltb x y = true -> fle x y = true.
Proof. intros A. now apply fltb_spec in A. Qed.
Lemma inc_lt n nd : increasing n nd -> forall i j, i < j -> j < n -> fltb (ndv nd i) (ndv nd j) = true.
Proof.
  intros I i j L. induction L; intros J.
  - rewrite <- Nat.add_1_r. apply I. lia.
  - eapply fltb_trans; [apply IHL; lia|]. rewrite <- (Nat.add_1_r m). apply I. lia.
Qed.
Lemma lt_not_le (x y : K) : fltb x y = true -> fle y x = true -> False.
Proof. unfold fltb. intros A B. rewrite B in A. discriminate. Qed.
Lemma inc_le_inv n nd : increasing n nd -> forall i j, i < n -> j < n -> fle (ndv nd i) (ndv nd j) = true -> i <= j.
Proof.
  intros I i j Li Lj L. destruct (Nat.le_gt_cases i j); auto. exfalso.
  eapply lt_not_le; [apply (inc_lt n nd I j i); auto|auto].
Qed.
Lemma inc_lt_inv n nd : increasing n nd -> forall i j, i < n -> j < n -> fltb (ndv nd i) (ndv nd j) = true -> i < j.
Proof.
  intros I i j Li Lj L. destruct (Nat.lt_ge_cases i j); auto. exfalso.
  destruct (Nat.eq_dec i j) as [->|]. { now rewrite fltb_irr in L. }
  eapply lt_not_le; [exact L|]. apply lt_le, (inc_lt n nd I j i); auto. lia.
Qed.
Lemma le_lt_trans (x y z : K) : fle x y = true -> fltb y z = true -> fltb x z = true.
Proof.
  intros A B. destruct (f_eq_dec x y) as [->|N]; auto. eapply fltb_trans; eauto. now apply fltb_spec.
Qed.
Lemma lt_le_trans (x y z : K) : fltb x y = true -> fle y z = true -> fltb x z = true.
Proof.
  intros A B. destruct (f_eq_dec y z) as [->|N]; auto. eapply fltb_trans; eauto. now apply fltb_spec.
Qed.

(* ---------- the search ---------- *)

Lemma find_node_wp n w m (nd : list K) (x : K) E : n = (m * w + 1)%nat -> 1 <= w -> length nd = n -> fltb x (ndv nd (n - 1)%nat) = true ->
  forall fuel e, e <= m -> m < fuel + e ->
  wp (find_node fuel nd w x (e * w)) (fun j => exists e', j = (e' * w)%nat /\ e <= e' <= m /\
    fle x (ndv nd j) = true /\ forall k, e <= k < e' -> fltb (ndv nd (k * w)%nat) x = true) E.
Proof.
  intros En W Ln Lx. induction fuel; intros e Le Lf. { lia. }
  assert (Lj : e * w < n) by nia.
  cbn [find_node]. rewrite aget_nth by lia. cbn [bind]. fold (ndv nd (e * w)).
  destruct (fltb (ndv nd (e * w)%nat) x) eqn:Ex.
  - assert (e <> m).
    { intros ->. replace (m * w)%nat with (n - 1)%nat in Ex by lia.
      eapply lt_not_le; [exact Ex|]. now apply lt_le. }
    replace (e * w + w)%nat with ((e + 1) * w)%nat by lia.
    eapply wp_mono; [apply IHfuel; lia|]. intros j (e' & Ej & L & F & P). exists e'. split; auto. split; [lia|].
    split; auto. intros k Lk. destruct (Nat.eq_dec k e) as [->|]; auto. apply P. lia.
  - cbn [wp]. exists e. split; auto. split; [lia|]. split; [|lia].
    unfold fltb in Ex. now apply negb_false_iff in Ex.
Qed.

(* ---------- the shape functions ---------- *)

Lemma agetm_ok (l : list K) j k i : j = (i + k)%nat -> j < length l -> agetm l j k = Ok (nth i l f0).
Proof.
  intros -> L. unfold agetm. replace (i + k <? k) with false by (symmetry; apply Nat.ltb_ge; lia).
  rewrite Nat.add_sub. apply aget_nth. lia.
Qed.
Lemma fz_nz p : @fz K (Zpos p) <> f0.
Proof. apply fpos_nz'. Qed.
Lemma fz4 : @fz K 4 = (f1 + f1) * (f1 + f1).
Proof. cbn. ring. Qed.
Lemma fz3 : @fz K 3 = f1 + f1 + f1.
Proof. cbn. ring. Qed.
Lemma fz6 : @fz K 6 = (f1 + f1) * (f1 + f1 + f1).
Proof. cbn. ring. Qed.
Lemma f3_nz : @f1 K + f1 + f1 <> f0.
Proof. rewrite <- fz3. apply fz_nz. Qed.

(* the three shape polynomials *)
Definition shp (w : nat) (v : nat -> K) (z : K) : K :=
  let two := f1 + f1 in let three := f1 + f1 + f1 in
  match w with
  | 1 => ((z + f1) * v 1 - (z - f1) * v 0) / two
  | 2 => (z - f1) * z * v 0 / two + (f1 - z * z) * v 1 + (z + f1) * z * v 2 / two
  | _ => let zz := two * two * z * z in
      z * (z - f1) * (zz - f1) * v 0 / (two * three) - z * (two * z - f1) * (zz - two * two) * v 1 / three
      + (z * z - f1) * (zz - f1) * v 2 - z * (two * z + f1) * (zz - two * two) * v 3 / three
      + z * (z + f1) * (zz - f1) * v 4 / (two * three)
  end.
Lemma shape_ok w (nt : list K) i z : order w -> i + w < length nt ->
  shape w nt (i + w) z = Ok (shp w (fun k => nth (i + k) nt f0) z).
Proof.
  intros [->|[->| ->]] L; cbn [shape shp].
  - rewrite (agetm_ok nt _ 0 (i + 1)) by lia. rewrite (agetm_ok nt _ 1 i) by lia. cbn [bind].
    rewrite divc_ok by apply f2_nz. now rewrite Nat.add_0_r.
  - rewrite (agetm_ok nt _ 2 i) by lia. rewrite (agetm_ok nt _ 1 (i + 1)) by lia.
    rewrite (agetm_ok nt _ 0 (i + 2)) by lia. cbn [bind].
    rewrite !divc_ok by apply f2_nz. now rewrite Nat.add_0_r.
  - rewrite (agetm_ok nt _ 4 i) by lia. rewrite (agetm_ok nt _ 3 (i + 1)) by lia.
    rewrite (agetm_ok nt _ 2 (i + 2)) by lia. rewrite (agetm_ok nt _ 1 (i + 3)) by lia.
    rewrite (agetm_ok nt _ 0 (i + 4)) by lia. cbn [bind].
    rewrite !divc_ok by apply fz_nz. cbn [bind]. rewrite fz4, fz3, fz6, Nat.add_0_r. auto.
Qed.

(* the same without divisions, t counts the nodes from the top of the element *)
Definition two : K := f1 + f1.
Definition three : K := f1 + f1 + f1.
Definition four : K := two * two.
Definition cden (w : nat) : K := match w with 1 => f1 | 2 => two | _ => four * (two * three) end.
Definition spoly (w : nat) (v : nat -> K) (t : K) : K :=
  match w with
  | 1 => (f1 - t) * v 0 + t * v 1
  | 2 => (t - two) * (t - f1) * v 0 + two * t * (two - t) * v 1 + t * (t - f1) * v 2
  | _ => let u := t - two in
      u * (u - two) * (u * u - f1) * v 0 - four * u * (u - f1) * (u * u - four) * v 1
      + two * three * (u * u - four) * (u * u - f1) * v 2 - four * u * (u + f1) * (u * u - four) * v 3
      + u * (u + two) * (u * u - f1) * v 4
  end.
Definition ford (w : nat) : K := match w with 1 => f1 | 2 => two | _ => four end.
Lemma lin6 (A B C D E : K) : four * (two * three) * (A / (two * three) - B / three + C - D / three + E / (two * three)) =
  four * A - four * two * B + four * (two * three) * C - four * two * D + four * E.
Proof. assert (N2 : two <> f0) by apply f2_nz. assert (N3 : three <> f0) by apply f3_nz. field. auto. Qed.
Lemma shp_spoly w v t z : order w -> ford w * (z + f1) = two * t -> cden w * shp w v z = spoly w v t.
Proof.
  assert (N2 : two <> f0) by apply f2_nz.
  intros [->|[->| ->]] E; cbn [ford cden shp spoly] in *; fold two; change (two + f1) with three.
  - replace z with (two * t - f1) by (rewrite <- E; ring).
    unfold two in *. field. auto.
  - replace t with (z + f1).
    2:{ replace (z + f1) with (two * (z + f1) / two) by (field; auto). rewrite E. field. auto. }
    unfold two in *. field. auto.
  - replace t with (two * z + two).
    2:{ replace (two * z + two) with (four * (z + f1) / two) by (unfold four; field; auto). rewrite E. field. auto. }
    rewrite lin6. unfold four, three, two. ring.
Qed.
Lemma cden_nz w : order w -> cden w <> f0.
Proof.
  assert (N2 : two <> f0) by apply f2_nz. assert (N3 : three <> f0) by apply f3_nz.
  intros [->|[->| ->]]; cbn [cden]; auto. { apply f1_neq_f0. } unfold four. repeat apply fmul_nz; auto.
Qed.
Lemma cancel (c x y : K) : c <> f0 -> c * x = c * y -> x = y.
Proof. intros N E. replace x with (c * x / c) by (field; auto). rewrite E. field. auto. Qed.

(* at node r *)
Definition nf (k : nat) : K := sumr 0 k (fun _ => f1).
Lemma nf_S k : nf (S k) = nf k + f1.
Proof. unfold nf. now rewrite sumr_S by lia. Qed.
Lemma nf_0 : nf 0 = f0.
Proof. apply sumr_nil. lia. Qed.
Lemma spoly_node w v r : order w -> r <= w -> spoly w v (nf r) = cden w * v r.
Proof.
  intros [->|[->| ->]] L; cbn [spoly cden];
    repeat (destruct r as [|r]; [rewrite ?nf_S, nf_0; unfold four, three, two; ring|try lia]).
Qed.
(* along a polynomial *)
Lemma spoly_poly w c a s t : order w -> length c <= w + 1 ->
  spoly w (fun k => peval c (a + nf k * s)) t = cden w * peval c (a + t * s).
Proof.
  intros [->|[->| ->]] L; cbn [spoly cden];
    repeat (destruct c as [|? c]; [cbn [peval]; rewrite ?nf_S, ?nf_0; unfold four, three, two; ring|cbn in L; try lia]).
Qed.

(* ---------- one depth ---------- *)

Lemma even_nodes m w (nd : list K) e : even m w nd -> e < m -> forall k, k <= w ->
  ndv nd (e * w + k) = ndv nd (e * w) + nf k * (ndv nd (e * w + 1) - ndv nd (e * w)).
Proof.
  intros Ev Le. induction k; intros Lk.
  - rewrite Nat.add_0_r, nf_0. ring.
  - pose proof (Ev e k Le ltac:(lia)) as X. rewrite nf_S. specialize (IHk ltac:(lia)).
    replace (e * w + S k)%nat with (e * w + k + 1)%nat by lia.
    replace (ndv nd (e * w + k + 1)) with (ndv nd (e * w + k + 1) - ndv nd (e * w + k) + ndv nd (e * w + k)) by ring.
    rewrite X, IHk. ring.
Qed.
Lemma ford_nf w : order w -> ford w = nf w.
Proof. intros [->|[->| ->]]; cbn [ford]; rewrite !nf_S, nf_0; unfold four, two; ring. Qed.
Lemma ford_nz w : order w -> ford w <> f0.
Proof.
  assert (N2 : two <> f0) by apply f2_nz.
  intros [->|[->| ->]]; cbn [ford]; auto. { apply f1_neq_f0. } unfold four. now apply fmul_nz.
Qed.

(* what the temperature at depth x has to be *)
Definition value_at (n m w : nat) (nd nt : list K) (x y : K) : Prop :=
  (fle x (ndv nd 0) = true -> y = nth 0 nt f0) /\
  (fle (ndv nd (n - 1)) x = true -> y = nth (n - 1) nt f0) /\
  (forall k, k < n -> x = ndv nd k -> y = nth k nt f0) /\
  (forall e c, e < m -> length c <= w + 1 ->
     (forall k, k <= w -> nth (e * w + k) nt f0 = peval c (ndv nd (e * w + k))) ->
     fle (ndv nd (e * w)) x = true -> fle x (ndv nd (e * w + w)) = true -> y = peval c x).

Lemma interp1_wp n m w (t : thermal K) x e E : order w -> n = (m * w + 1)%nat -> 1 <= m ->
  t_n t = n -> t_w t = w -> length (t_nd t) = n -> length (t_nt t) = n ->
  increasing n (t_nd t) -> even m w (t_nd t) ->
  e <= m -> (e = 0 \/ fltb (ndv (t_nd t) ((e - 1) * w)) x = true) ->
  wp (interp1 t x (e * w)) (fun '(j, y) => exists e', j = (e' * w)%nat /\ e' <= m /\
    (e' = 0 \/ fltb (ndv (t_nd t) ((e' - 1) * w)) x = true) /\ value_at n m w (t_nd t) (t_nt t) x y) E.
Proof.
  intros O En Hm Tn Tw Ld Lt Inc Ev Le He.
  assert (W : 1 <= w) by (destruct O as [->|[->| ->]]; lia).
  unfold interp1. rewrite Tn, Tw. set (nd := t_nd t) in *. set (nt := t_nt t) in *.
  assert (N2 : 2 <= n) by nia.
  assert (In : forall e, e < m -> (e * w + w < n)%nat) by (intros; nia).
  rewrite (aget_nth nd) by lia. cbn [bind]. fold (ndv nd 0).
  destruct (fle x (ndv nd 0)) eqn:E0.
  { rewrite (aget_nth nt) by lia. cbn [bind wp]. exists e. split; auto. split; auto. split; auto.
    split; [auto|]. split; [|split].
    - intros H. exfalso. pose proof (fle_trans _ _ _ _ H E0) as X. apply (inc_le_inv n nd Inc) in X; lia.
    - intros k Lk ->. apply (inc_le_inv n nd Inc) in E0; try lia. f_equal. lia.
    - intros e1 c L1 Lc Hc B1 B2. specialize (In e1 L1).
      pose proof (fle_trans _ _ _ _ B1 E0) as X. apply (inc_le_inv n nd Inc) in X; try lia.
      assert (e1 = 0) by nia. subst e1. cbn [Nat.mul Nat.add] in *.
      assert (x = ndv nd 0) by (apply fle_antisym; auto). subst x. apply (Hc 0 ltac:(lia)). }
  rewrite (aget_nth nd) by lia. cbn [bind]. fold (ndv nd (n - 1)).
  destruct (fle (ndv nd (n - 1)) x) eqn:E1.
  { rewrite (aget_nth nt) by lia. cbn [bind wp]. exists e. split; auto. split; auto. split; auto.
    split; [congruence|]. split; [auto|split].
    - intros k Lk ->. apply (inc_le_inv n nd Inc) in E1; try lia. f_equal. lia.
    - intros e1 c L1 Lc Hc B1 B2. specialize (In e1 L1).
      pose proof (fle_trans _ _ _ _ E1 B2) as X. apply (inc_le_inv n nd Inc) in X; try lia.
      assert (Eq : (e1 * w + w = n - 1)%nat) by nia.
      assert (x = ndv nd (n - 1)) by (apply fle_antisym; auto; now rewrite <- Eq). subst x.
      rewrite <- Eq. apply (Hc w ltac:(lia)). }
  assert (Lx : fltb x (ndv nd (n - 1)) = true) by (unfold fltb; now rewrite E1).
  assert (Gx : fltb (ndv nd 0) x = true) by (unfold fltb; now rewrite E0).
  eapply wp_seq. { apply (find_node_wp n w m nd x _ En W Ld Lx (n + 1) e Le). nia. }
  intros j (e' & Ej & Le' & Fx & Pk). subst j.
  assert (Ne' : e' <> 0). { intros ->. cbn in Fx. congruence. }
  assert (Pr : fltb (ndv nd ((e' - 1) * w)) x = true).
  { destruct (Nat.eq_dec e' e) as [->|]; [destruct He; [lia|auto]|]. apply Pk. lia. }
  assert (Lj : (e' * w < n)%nat) by nia.
  rewrite (aget_nth nd) by lia. cbn [bind]. fold (ndv nd (e' * w)).
  destruct (feqb_spec x (ndv nd (e' * w))) as [Ex|Nx].
  { rewrite (aget_nth nt) by lia. cbn [bind wp]. exists e'. split; auto. split; [lia|]. split; auto.
    split; [congruence|]. split; [congruence|]. split.
    - intros k Lk Ek. f_equal. rewrite Ex in Ek.
      assert (fle (ndv nd (e' * w)) (ndv nd k) = true) by (rewrite Ek; apply fle_refl).
      assert (fle (ndv nd k) (ndv nd (e' * w)) = true) by (rewrite Ek; apply fle_refl).
      assert (e' * w <= k)%nat by (apply (inc_le_inv n nd Inc); auto).
      assert (k <= e' * w)%nat by (apply (inc_le_inv n nd Inc); auto). lia.
    - intros e1 c L1 Lc Hc B1 B2. specialize (In e1 L1). rewrite Ex in B1, B2.
      apply (inc_le_inv n nd Inc) in B1, B2; try lia. rewrite Ex.
      assert (e1 = e' \/ e' = e1 + 1)%nat as [->| ->] by nia.
      + specialize (Hc 0 ltac:(lia)). now rewrite Nat.add_0_r in Hc.
      + specialize (Hc w ltac:(lia)). now replace ((e1 + 1) * w)%nat with (e1 * w + w)%nat by lia. }
  set (e0 := (e' - 1)%nat). assert (Ee : (e' * w = e0 * w + w)%nat) by (unfold e0; nia).
  assert (L0 : e0 < m) by (unfold e0; lia).
  fold e0 in Pr. rewrite Ee in *.
  rewrite (agetm_ok nd (e0 * w + w) w (e0 * w)) by lia. cbn [bind]. fold (ndv nd (e0 * w)).
  pose proof (even_nodes m w nd e0 Ev L0) as Nod.
  set (a := ndv nd (e0 * w)) in *. set (s := ndv nd (e0 * w + 1) - a) in *.
  assert (Ps : fltb f0 s = true). { apply fsub_pos. apply Inc. lia. }
  pose proof (fpos_nz _ Ps) as Ns. pose proof (ford_nz w O) as Nf.
  assert (Ec : ndv nd (e0 * w + w) - a = ford w * s). { rewrite Nod by lia. rewrite ford_nf by auto. ring. }
  rewrite Ec. rewrite divc_ok by now apply fmul_nz. cbn [bind].
  rewrite shape_ok by (auto; lia). cbn [bind wp].
  set (tt := (x - a) / s). assert (Ext : x = a + tt * s). { unfold tt. field. auto. }
  set (y := shp w _ _).
  assert (Ey : cden w * y = spoly w (fun k => nth (e0 * w + k) nt f0) tt).
  { unfold y. apply shp_spoly; auto. unfold tt, two. field. auto. }
  assert (Nc := cden_nz w O).
  exists e'. split; auto. split; [lia|]. split; [right; exact Pr|].
  split; [congruence|]. split; [congruence|]. split.
  - intros k Lk Ek.
    assert (Lo : (e0 * w < k)%nat). { apply (inc_lt_inv n nd Inc); try lia. now rewrite <- Ek. }
    assert (Hi : (k <= e0 * w + w)%nat). { apply (inc_le_inv n nd Inc); try lia. now rewrite <- Ek. }
    assert (Er : exists r, (k = e0 * w + r)%nat /\ r <= w). { exists (k - e0 * w)%nat. lia. }
    destruct Er as (r & -> & Lr). apply (cancel (cden w)); auto. rewrite Ey.
    replace tt with (nf r). { rewrite spoly_node by auto. auto. }
    unfold tt. rewrite Ek, Nod by auto. field. auto.
  - intros e1 c L1 Lc Hc B1 B2. specialize (In e1 L1).
    assert (X1 : fltb a (ndv nd (e1 * w + w)) = true) by (eapply lt_le_trans; eauto).
    assert (X2 : fltb (ndv nd (e1 * w)) (ndv nd (e0 * w + w)) = true).
    { eapply le_lt_trans; [exact B1|]. apply fltb_spec. auto. }
    apply (inc_lt_inv n nd Inc) in X1, X2; try lia. assert (e1 = e0) by nia. subst e1.
    apply (cancel (cden w)); auto. rewrite Ey, Ext.
    rewrite <- spoly_poly by auto.
    assert (Sx : forall u v, (forall k, k <= w -> u k = v k) -> spoly w u tt = spoly w v tt).
    { intros u v Huv. destruct O as [->|[->| ->]]; cbn [spoly]; rewrite ?Huv by lia; auto. }
    apply Sx. intros k Lk. rewrite Hc by auto. rewrite Nod by auto. auto.
Qed.

(* the depths go down *)
Fixpoint depths_sorted (pd : list K) : Prop :=
  match pd with
  | [] => True
  | x :: pd => (forall y, In y pd -> fle x y = true) /\ depths_sorted pd
  end.
Lemma interp_wp n m w (t : thermal K) E : order w -> n = (m * w + 1)%nat -> 1 <= m ->
  t_n t = n -> t_w t = w -> length (t_nd t) = n -> length (t_nt t) = n ->
  increasing n (t_nd t) -> even m w (t_nd t) ->
  forall pd e, e <= m -> depths_sorted pd ->
  (e = 0 \/ forall x, In x pd -> fltb (ndv (t_nd t) ((e - 1) * w)) x = true) ->
  wp (interp t (e * w) pd) (fun l => Forall2 (value_at n m w (t_nd t) (t_nt t)) pd l) E.
Proof.
  intros O En Hm Tn Tw Ld Lt Inc Ev. induction pd as [|x pd IH]; intros e Le So He; cbn [interp].
  { constructor. }
  destruct So as [Sx So].
  eapply wp_seq.
  { apply (interp1_wp n m w t x e); auto. destruct He as [He|He]; auto. right. apply He. now left. }
  intros [j y] (e' & -> & Le' & He' & V).
  eapply wp_seq.
  { apply IH; auto. destruct He' as [He'|He']; auto. right. intros z Iz.
    eapply lt_le_trans; [exact He'|]. auto. }
  intros l F. cbn [wp]. now constructor.
Qed.
End Interp.
