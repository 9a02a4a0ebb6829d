(* decmp_svd: the iteration keeps A = U B V'. *)
From Coq Require Import List Lia Bool Arith Field.
From Verif Require Import Base LinBase QrProofs SvdModel SvdMath SvdHouse SvdBidiag.
Import ListNotations.
Local Open Scope nat_scope.

Section Qr.
Context {K : ofield}.
Local Open Scope lin_scope.
Add Field Kf36 : (f_th K).
Notation matrix := (nat -> nat -> K).
Notation vect := (nat -> K).

Lemma small_spec (x an : K) : small x an = true <-> x = f0.
Proof.
  unfold small. destruct (feqb_spec (fabs x + an) an) as [E|N]; split; try discriminate; auto.
  - intros _. apply fabs_0. transitivity (fabs x + an - an); [ring|rewrite E; ring].
  - intros ->. exfalso. apply N. rewrite (proj2 (fabs_0 f0) eq_refl). ring.
Qed.
Lemma hyp_spec sq (x y : K) : sqrt_pos sq -> x <> f0 \/ y <> f0 -> hyp sq x y * hyp sq x y = x * x + y * y /\ hyp sq x y <> f0.
Proof.
  intros Sp N. unfold hyp. assert (P : fltb f0 (x * x + y * y) = true).
  { apply fltb_spec. split; [apply fadd_nonneg; apply fsqr_nonneg|]. intros E. symmetry in E.
    apply fadd_0_nonneg in E; try apply fsqr_nonneg. destruct E as [E1 E2]. apply fsqr_0 in E1, E2. tauto. }
  destruct (Sp _ P) as [E1 E2]. split; auto. apply fpos_nz in E2. auto.
Qed.

(* ---------- no zero on the diagonal ---------- *)
Lemma P3_apply n (U B V : matrix) (y : vect) r N :
  sumr 0 N (fun t => P3 n U B V r t * y t) = sumr 0 n (fun l => U r l * sumr 0 n (fun k => B l k * sumr 0 N (fun t => V t k * y t))).
Proof.
  unfold P3.
  rewrite (sumr_ext 0 N _ (fun t => sumr 0 n (fun l => sumr 0 n (fun k => U r l * B l k * V t k * y t)))).
  2:{ intros t T. rewrite <- sumr_scale_r. apply sumr_ext. intros l Ll. rewrite <- sumr_scale_r. auto. }
  rewrite sumr_swap. apply sumr_ext. intros l Ll.
  rewrite sumr_swap. rewrite <- sumr_scale. apply sumr_ext. intros k Lk.
  rewrite <- !sumr_scale. apply sumr_ext. intros. ring.
Qed.
Lemma bid_inj m n (A0 U : matrix) W e V : bidiag m n A0 U W e V -> injective m n A0 -> injective n n (bid W e).
Proof.
  intros (HA & Ou & Ov) Inj x X c C.
  set (y := fun t => sumr 0 n (fun k => V t k * x k)).
  assert (Vy : forall k, k < n -> sumr 0 n (fun t => V t k * y t) = x k).
  { intros k Lk. unfold y. rewrite (sumr_ext 0 n _ (fun t => sumr 0 n (fun l => V t k * V t l * x l))).
    2:{ intros t T. rewrite <- sumr_scale. apply sumr_ext. intros. ring. }
    rewrite sumr_swap. rewrite (sumr_one 0 n _ k); [|lia|].
    - rewrite sumr_scale_r, Ov by auto. unfold delta. rewrite Nat.eqb_refl. ring.
    - intros l Ll Nl. rewrite sumr_scale_r, Ov by (auto; lia). unfold delta. bcases. ring. }
  rewrite <- Vy by auto. apply sumr_zero. intros t T.
  rewrite (Inj y); [ring| |lia].
  intros r R. rewrite (sumr_ext 0 n _ (fun t => P3 n U (bid W e) V r t * y t)) by (intros; rewrite HA by lia; auto).
  rewrite P3_apply. apply sumr_zero. intros l Ll.
  rewrite (sumr_ext 0 n _ (fun k => bid W e l k * x k)) by (intros; rewrite Vy by lia; auto).
  rewrite X by lia. ring.
Qed.
Lemma bid_nz m n (A0 U : matrix) W e V : bidiag m n A0 U W e V -> injective m n A0 -> forall k, k < n -> W k <> f0.
Proof.
  intros H Inj k. pose proof (bid_inj _ _ _ _ _ _ _ H Inj) as Ib.
  induction k as [k IH] using (well_founded_induction Wf_nat.lt_wf). intros Lk Z.
  apply (bidiag_diag n n (bid W e) k); auto.
  - intros r c R C N1 N2. unfold bid. bcases. auto.
  - intros c C. unfold bid. rewrite Nat.eqb_refl. apply IH; auto. lia.
  - intros _. unfold bid. now rewrite Nat.eqb_refl.
Qed.

(* ---------- where the matrix splits ---------- *)
Lemma split_wp n an w rv (W R : vect) i Ex : i < n -> vec n w W -> vec (S n) rv R -> R 0%nat = f0 -> (forall k, k < n -> W k <> f0) ->
  wp (split an w rv (i + 1)) (fun st => exists q, st = (q, false) /\ q <= i /\ R q = f0 /\ forall t, q < t <= i -> R t <> f0) Ex.
Proof.
  intros Li VW VR R0 Wn. rewrite Nat.add_1_r. induction i as [|i IH]; cbn [split].
  - apply wp_bind. eapply (wp_vget _ _ VR); [lia|]. rewrite (proj2 (small_spec (R 0%nat) an) R0). cbn [wp].
    exists 0%nat. repeat split; auto. intros; lia.
  - apply wp_bind. eapply (wp_vget _ _ VR); [lia|]. destruct (small (R (S i)) an) eqn:Sm.
    + cbn [wp]. apply small_spec in Sm. exists (S i). repeat split; auto. intros; lia.
    + apply wp_bind. eapply (wp_vget _ _ VW); [lia|].
      destruct (small (W i) an) eqn:Sw. { apply small_spec in Sw. exfalso. revert Sw. apply Wn. lia. }
      eapply wp_mono; [apply IH; lia|]. cbn beta. intros st (q & -> & Lq & Rq & H). exists q. repeat split; auto.
      intros t T. destruct (Nat.eq_dec t (S i)) as [->|]; [|apply H; lia].
      intros Z. apply (small_spec _ an) in Z. congruence.
Qed.

(* ---------- one step ---------- *)
Lemma rotate_wp rows n c d C s a (A : matrix) Ex : c < n -> d < n -> c <> d -> mat rows n a A ->
  wp (rotate rows n c d C s a) (fun a' => mat rows n a' (rc c d C s A)) Ex.
Proof.
  intros Lc Ld Ncd M. unfold rotate.
  eapply wp_mono; [apply wp_for with (P := fun k a' => mat rows n a' (fun r x => if r <? k then rc c d C s A r x else A r x)) | cbn beta].
  - lia.
  - eapply mat_ext; [exact M|]. intros r x R X. bcases; auto.
  - intros k a1 Lk M1. apply wp_bind. eapply (wp_mget _ _ M1); [lia|lia|]. apply wp_bind. eapply (wp_mget _ _ M1); [lia|lia|].
    bcases. apply wp_bind. eapply (wp_mset _ _ M1); [lia|lia|]. intros a2 M2.
    eapply (wp_mset _ _ M2); [lia|lia|]. intros a3 M3. eapply mat_ext; [exact M3|].
    intros r x R X. unfold updm, rc. bcases; subst; auto.
  - intros a1 M1. eapply mat_ext; [exact M1|]. intros r x R X. bcases; auto.
Qed.

(* the matrix between two steps *)
Definition bu (q j : nat) (C S F X : K) (W e : vect) : matrix := fun r k =>
  if r =? k then (if k =? j then X else W k)
  else if r + 1 =? k then (if k =? q then f0 else if k =? j then F else if k =? j + 1 then C * e k else e k)
  else if r + 2 =? k then (if (k =? j + 1) && (q <? j) then S * e k else f0)
  else f0.

Lemma bu_step n q j i C S F X (W e W' e' : vect) z C1 S1 F1 G1 H1 Y1 z1 C2 S2 : q <= j -> j < i -> i < n ->
  z <> f0 -> z * z = F * F + (S * e (j + 1)%nat) * (S * e (j + 1)%nat) -> C1 = F / z -> S1 = S * e (j + 1)%nat / z ->
  F1 = C * e (j + 1)%nat * S1 + X * C1 -> G1 = C * e (j + 1)%nat * C1 - X * S1 -> H1 = W (j + 1)%nat * S1 -> Y1 = W (j + 1)%nat * C1 ->
  z1 <> f0 -> z1 * z1 = F1 * F1 + H1 * H1 -> C2 = F1 / z1 -> S2 = H1 / z1 ->
  (forall k, W' k = if k =? j then z1 else W k) -> (forall k, e' k = if k =? j then z else e k) ->
  forall r k, r < n -> k < n ->
  rr j (j + 1) C2 S2 (rc j (j + 1) C1 S1 (bu q j C S F X W e)) r k = bu q (j + 1) C2 S2 (S2 * Y1 + C2 * G1) (C2 * Y1 - S2 * G1) W' e' r k.
Proof.
  intros Lq Lj Li Nz Ez EC1 ES1 EF1 EG1 EH1 EY1 Nz1 Ez1 EC2 ES2 HW He.
  set (B := bu q j C S F X W e).
  set (M := rc j (j + 1) C1 S1 B).
  assert (RF : F = C1 * z) by (rewrite EC1; field; auto).
  assert (RH : S * e (j + 1)%nat = S1 * z) by (rewrite ES1; field; auto).
  assert (CS1 : C1 * C1 + S1 * S1 = f1).
  { rewrite EC1, ES1. transitivity ((F * F + S * e (j + 1)%nat * (S * e (j + 1)%nat)) / (z * z)); [field; auto|]. rewrite <- Ez. field; auto. }
  assert (RF1 : F1 = C2 * z1) by (rewrite EC2; field; auto).
  assert (RH1 : H1 = S2 * z1) by (rewrite ES2; field; auto).
  assert (CS2 : C2 * C2 + S2 * S2 = f1).
  { rewrite EC2, ES2. transitivity ((F1 * F1 + H1 * H1) / (z1 * z1)); [field; auto|]. rewrite <- Ez1. field; auto. }
  assert (CC1 : C1 * C1 = f1 - S1 * S1) by (rewrite <- CS1; ring).
  assert (CC2 : C2 * C2 = f1 - S2 * S2) by (rewrite <- CS2; ring).
  (* after the columns *)
  assert (Mjj : M j j = F1). { unfold M, rc, B, bu. bcases. rewrite EF1. ring. }
  assert (Mjd : M j (j + 1)%nat = G1). { unfold M, rc, B, bu. bcases. rewrite EG1. ring. }
  assert (Mdj : M (j + 1)%nat j = H1). { unfold M, rc, B, bu. bcases. rewrite EH1. ring. }
  assert (Mdd : M (j + 1)%nat (j + 1)%nat = Y1). { unfold M, rc, B, bu. bcases. rewrite EY1. ring. }
  assert (Mo : forall k, k < n -> k <> j -> k <> (j + 1)%nat -> M j k = f0 /\ M (j + 1)%nat k = if k =? j + 2 then e k else f0).
  { intros k Lk N1 N2. unfold M, rc, B, bu. bcases; auto. }
  assert (Mr : forall r, r <> j -> r <> (j + 1)%nat -> M r j = (if (r + 1 =? j) && (q <? j) then z else f0) /\ M r (j + 1)%nat = f0).
  { intros r N1 N2. unfold M, rc, B, bu. bcases; split; try ring.
    - rewrite RH, RF. ring [CC1].
    - rewrite RH, RF. ring. }
  assert (Mrk : forall r k, r <> j -> r <> (j + 1)%nat -> k <> j -> k <> (j + 1)%nat -> M r k = B r k).
  { intros r k N1 N2 N3 N4. unfold M, rc. bcases. auto. }
  intros r k R Kk. unfold rr. fold M.
  destruct (Nat.eq_dec r j) as [->|Nr]; [|destruct (Nat.eq_dec r (j + 1)) as [->|Nr']].
  - unfold rc at 1. rewrite Nat.eqb_refl.
    destruct (Nat.eq_dec k j) as [->|Nk]; [|destruct (Nat.eq_dec k (j + 1)) as [->|Nk']].
    + rewrite Mjj, Mdj. unfold bu. bcases. rewrite HW. bcases. rewrite RF1, RH1. ring [CC2].
    + rewrite Mjd, Mdd. unfold bu. bcases. ring.
    + destruct (Mo k Kk Nk Nk') as [-> ->]. unfold bu. bcases; try ring. rewrite He. bcases. ring.
  - unfold rc at 1. replace (j + 1 =? j) with false by (symmetry; apply Nat.eqb_neq; lia). rewrite Nat.eqb_refl.
    destruct (Nat.eq_dec k j) as [->|Nk]; [|destruct (Nat.eq_dec k (j + 1)) as [->|Nk']].
    + rewrite Mjj, Mdj. unfold bu. bcases. rewrite RF1, RH1. ring.
    + rewrite Mjd, Mdd. unfold bu. bcases. ring.
    + destruct (Mo k Kk Nk Nk') as [-> ->]. unfold bu. bcases; try ring. rewrite He. bcases. ring.
  - unfold rc at 1. replace (r =? j) with false by (symmetry; apply Nat.eqb_neq; lia).
    replace (r =? j + 1) with false by (symmetry; apply Nat.eqb_neq; lia).
    destruct (Nat.eq_dec k j) as [->|Nk]; [|destruct (Nat.eq_dec k (j + 1)) as [->|Nk']].
    + destruct (Mr r Nr Nr') as [-> _]. unfold bu. rewrite He. bcases; auto.
    + destruct (Mr r Nr Nr') as [_ ->]. unfold bu. bcases; auto.
    + rewrite Mrk by auto. unfold B, bu. rewrite HW, He. bcases; auto.
Qed.

Definition sinv (m n : nat) (A0 : matrix) (W0 R0 : vect) (q j : nat)
  (st : K * K * K * K * list K * list K * list K * list K) : Prop :=
  let '(C, s, F, X, w, rv, a, v) := st in
  exists U W R V, mat m n a U /\ vec n w W /\ vec (S n) rv R /\ mat n n v V /\
    (forall r c, r < m -> c < n -> A0 r c = P3 n U (bu q j C s F X W R) V r c) /\ ocols m n U /\ ocols n n V /\
    s <> f0 /\ (forall k, k < n -> k < q \/ j < k -> W k = W0 k /\ R k = R0 k).
Lemma qr_step_wp sq m n (A0 : matrix) (W0 R0 : vect) q i j st Ex : sqrt_pos sq -> q <= j -> j < i -> i < n ->
  (forall k, q < k <= i -> R0 k <> f0) -> (forall k, k < n -> W0 k <> f0) ->
  sinv m n A0 W0 R0 q j st -> wp (qr_step sq m n j st) (sinv m n A0 W0 R0 q (j + 1)) Ex.
Proof.
  destruct st as [[[[[[[C s] F] X] w] rv] a] v].
  intros Sp Lq Lj Li Rn Wn (U & W & R & V & MU & VW & VR & MV & HA & Ou & Ov & Ns & Keep). unfold qr_step.
  apply wp_bind. eapply (wp_vget _ _ VR); [lia|]. cbv zeta.
  assert (Nr : R (j + 1)%nat <> f0). { destruct (Keep (j + 1)%nat ltac:(lia) ltac:(lia)) as [_ ->]. apply Rn. lia. }
  assert (Nw : W (j + 1)%nat <> f0). { destruct (Keep (j + 1)%nat ltac:(lia) ltac:(lia)) as [-> _]. apply Wn. lia. }
  set (H := s * R (j + 1)%nat). assert (NH : H <> f0) by (apply fmul_nz; auto).
  destruct (hyp_spec sq F H Sp (or_intror NH)) as [Ez Nz]. set (z := hyp sq F H) in *.
  apply wp_bind. eapply (wp_vset _ _ VR); [lia|]. intros rv1 VR1.
  apply wp_bind. apply wp_divc; auto. apply wp_bind. apply wp_divc; auto.
  set (C1 := F / z). set (S1 := H / z).
  set (F1 := C * R (j + 1)%nat * S1 + X * C1). set (G1 := C * R (j + 1)%nat * C1 - X * S1).
  apply wp_bind. eapply (wp_vget _ _ VW); [lia|].
  set (H1 := W (j + 1)%nat * S1). set (Y1 := W (j + 1)%nat * C1).
  assert (NS1 : S1 <> f0). { unfold S1. intros E. apply NH. replace H with (H / z * z) by (field; auto). rewrite E. ring. }
  assert (NH1 : H1 <> f0) by (apply fmul_nz; auto).
  eapply wp_seq. { eapply (rotate_wp n n j (j + 1)); eauto; lia. } intros v1 MV1.
  destruct (hyp_spec sq F1 H1 Sp (or_intror NH1)) as [Ez1 Nz1]. set (z1 := hyp sq F1 H1) in *.
  apply wp_bind. eapply (wp_vset _ _ VW); [lia|]. intros w1 VW1.
  destruct (feqb_spec z1 f0) as [|_]; [contradiction|].
  apply wp_bind. apply wp_bind. apply wp_divc; auto. apply wp_bind. apply wp_divc; auto. cbn [wp].
  set (C2 := F1 / z1). set (S2 := H1 / z1).
  eapply wp_seq. { eapply (rotate_wp m n j (j + 1)); eauto; lia. } intros a1 MA1. cbn [wp sinv].
  assert (CS1 : C1 * C1 + S1 * S1 = f1).
  { unfold C1, S1. transitivity ((F * F + H * H) / (z * z)); [field; auto|]. rewrite <- Ez. field; auto. }
  assert (CS2 : C2 * C2 + S2 * S2 = f1).
  { unfold C2, S2. transitivity ((F1 * F1 + H1 * H1) / (z1 * z1)); [field; auto|]. rewrite <- Ez1. field; auto. }
  exists (rc j (j + 1) C2 S2 U), (updv W j z1), (updv R j z), (rc j (j + 1) C1 S1 V).
  do 4 (split; [auto|]). split; [|split; [|split; [|split]]].
  - intros r c Rr Cc. rewrite HA by auto.
    rewrite <- (P3_rc_right n j (j + 1) C1 S1) by (auto; lia).
    rewrite <- (P3_rc_left n j (j + 1) C2 S2) by (auto; lia).
    apply P3_ext; auto. intros l k Ll Lk.
    apply (bu_step n q j i) with (z := z) (z1 := z1) (F1 := F1) (G1 := G1) (H1 := H1) (Y1 := Y1); auto.
  - apply ocols_rc; auto; lia.
  - apply ocols_rc; auto; lia.
  - unfold S2. intros E. apply NH1. replace H1 with (H1 / z1 * z1) by (field; auto). rewrite E. ring.
  - intros k Lk D. unfold updv. bcases. apply Keep; auto. lia.
Qed.

Definition rinv (m n : nat) (A0 : matrix) (i : nat) (w rv a v : list K) (W R : vect) : Prop :=
  exists U V, mat m n a U /\ vec n w W /\ vec (S n) rv R /\ mat n n v V /\ bidiag m n A0 U W R V /\ R 0%nat = f0 /\
    (forall k, i <= k < n -> R k = f0 /\ fle f0 (W k) = true).

Lemma sweep_wp sq m n (A0 : matrix) q i w rv a v W R Ex : sqrt_pos sq -> q < i -> i < n -> injective m n A0 ->
  rinv m n A0 (S i) w rv a v W R -> R q = f0 -> (forall k, q < k <= i -> R k <> f0) ->
  wp (sweep sq m n q i w rv a v) (fun st => let '(w', rv', a', v') := st in exists W' R', rinv m n A0 (S i) w' rv' a' v' W' R') Ex.
Proof.
  intros Sp Lq Li Inj (U & V & MU & VW & VR & MV & Bd & R0 & Rt) Rq Rn. unfold sweep.
  pose proof (bid_nz _ _ _ _ _ _ _ Bd Inj) as Wn. destruct Bd as (HA & Ou & Ov).
  apply wp_bind. eapply (wp_vget _ _ VW); [lia|]. apply wp_bind. eapply (wp_vget _ _ VW); [lia|].
  apply wp_bind. eapply (wp_vget _ _ VR); [lia|]. apply wp_bind. eapply (wp_vget _ _ VR); [lia|].
  apply wp_bind. apply wp_divc.
  { apply fmul_nz; [apply fmul_nz|]; [|apply Rn; lia|apply Wn; lia].
    intros E. apply (fadd_pos_nz (f1 : K) (f1 : K)); auto; [apply f0_le_f1|].
    apply fltb_spec. split; [apply f0_le_f1|]. intros Z. symmetry in Z. now apply f1_neq_f0 in Z. }
  match goal with |- context [hyp sq ?x f1] => set (F0 := x) end. cbv zeta.
  apply wp_bind. eapply (wp_vget _ _ VW); [lia|].
  destruct (hyp_spec sq F0 f1 Sp (or_intror f1_neq_f0)) as [Eh Nh].
  apply wp_bind. apply wp_divc.
  { intros E. apply (@f1_neq_f0 K). destruct (fltb F0 f0).
    - assert (X : hyp sq F0 f1 = F0). { transitivity (F0 - (F0 + - f1 * hyp sq F0 f1)); [ring|rewrite E; ring]. }
      rewrite X in Eh. transitivity (F0 * F0 + f1 * f1 - F0 * F0); [ring|rewrite <- Eh; ring].
    - assert (X : hyp sq F0 f1 = - F0). { transitivity (F0 + f1 * hyp sq F0 f1 - F0); [ring|rewrite E; ring]. }
      rewrite X in Eh. transitivity (F0 * F0 + f1 * f1 - - F0 * - F0); [ring|rewrite <- Eh; ring]. }
  apply wp_bind. apply wp_divc. { apply Wn. lia. }
  match goal with |- context [(f1, f1, ?x, W q, w, rv, a, v)] => set (F1 := x) end.
  eapply wp_seq.
  { apply wp_for with (P := sinv m n A0 W R q); [lia| |].
    - exists U, W, R, V. do 4 (split; [auto|]). split; [|split; [auto|split; [auto|split; [apply f1_neq_f0|auto]]]].
      intros r c Rr Cc. rewrite HA by auto. apply P3_ext; auto. intros l k Ll Lk. unfold bid, bu. bcases; auto; try ring.
      + now subst.
    - intros j st Lj H. apply (qr_step_wp sq m n A0 W R q i j); auto; lia. }
  intros [[[[[[[C s] F] X] w1] rv1] a1] v1] (U1 & W1 & R1 & V1 & MU1 & VW1 & VR1 & MV1 & HA1 & Ou1 & Ov1 & _ & Keep).
  apply wp_bind. eapply (wp_vset _ _ VR1); [lia|]. intros rv2 VR2.
  apply wp_bind. eapply (wp_vset _ _ VR2); [lia|]. intros rv3 VR3.
  apply wp_bind. eapply (wp_vset _ _ VW1); [lia|]. intros w2 VW2. cbn [wp].
  exists (updv W1 i X), (updv (updv R1 q f0) i F).
  exists U1, V1. do 4 (split; [auto|]). split; [|split].
  - split; [|auto]. intros r c Rr Cc. rewrite HA1 by auto. apply P3_ext; auto. intros l k Ll Lk.
      unfold bu, bid, updv. bcases; auto; subst; try lia.
    + replace (l + 1)%nat with (i + 1)%nat by lia. destruct (Keep (i + 1)%nat ltac:(lia) ltac:(lia)) as [_ ->]. rewrite (proj1 (Rt (i + 1)%nat ltac:(lia))). ring.
    + replace (l + 2)%nat with (i + 1)%nat by lia. destruct (Keep (i + 1)%nat ltac:(lia) ltac:(lia)) as [_ ->]. rewrite (proj1 (Rt (i + 1)%nat ltac:(lia))). ring.
  - unfold updv. bcases; auto. destruct (Keep 0%nat ltac:(lia) ltac:(lia)) as [_ ->]. auto.
  - intros k Lk. unfold updv. bcases. destruct (Keep k ltac:(lia) ltac:(lia)) as [-> ->]. auto.
Qed.

(* ---------- until it converges ---------- *)
Lemma flip_bidiag m n (A0 U V : matrix) (W R : vect) i : i < n -> R i = f0 -> bidiag m n A0 U W R V ->
  bidiag m n A0 U (updv W i (W i * - f1)) R (fun r c => if c =? i then V r c * - f1 else V r c).
Proof.
  intros Li Ri (HA & Ou & Ov). split; [|split; auto].
  - intros r c Rr Cc. rewrite HA by auto. apply sumr_ext. intros l Ll. apply sumr_ext. intros k Lk.
    unfold bid, updv. bcases; subst; try ring. rewrite Ri. ring.
  - intros a b La Lb. rewrite <- (Ov a b La Lb).
    destruct (Nat.eqb_spec a i) as [->|Na], (Nat.eqb_spec b i) as [->|Nb].
    + apply sumr_ext. intros. ring.
    + rewrite (sumr_ext 0 n _ (fun t => - f1 * (V t i * V t b))) by (intros; ring). rewrite sumr_scale, (Ov i b) by auto.
      unfold delta. bcases. ring.
    + rewrite (sumr_ext 0 n _ (fun t => - f1 * (V t a * V t i))) by (intros; ring). rewrite sumr_scale, (Ov a i) by auto.
      unfold delta. bcases. ring.
    + reflexivity.
Qed.
Lemma svd_iter_wp sq m n (A0 : matrix) i an rounds w rv a v W R Ex : sqrt_pos sq -> i < n -> injective m n A0 ->
  rinv m n A0 (S i) w rv a v W R ->
  wp (svd_iter sq m n i an rounds w rv a v) (fun st => let '(w', rv', a', v', c) := st in
    c = true -> exists W' R', rinv m n A0 i w' rv' a' v' W' R') Ex.
Proof.
  intros Sp Li Inj. revert w rv a v W R. induction rounds as [|rounds IH]; intros w rv a v W R H; cbn [svd_iter].
  { cbn [wp]. discriminate. }
  pose proof H as (U & V & MU & VW & VR & MV & Bd & R0 & Rt).
  pose proof (bid_nz _ _ _ _ _ _ _ Bd Inj) as Wn.
  eapply wp_seq. { eapply split_wp; eauto. }
  cbn beta. intros st (q & -> & Lq & Rq & Rn). cbn [bind].
  destruct (Nat.eqb_spec q i) as [->|Nq].
  - apply wp_bind. eapply (wp_vget _ _ VW); [lia|].
    destruct (fltb (W i) f0) eqn:Sg.
    + apply wp_bind. eapply (wp_vset _ _ VW); [lia|]. intros w' VW'.
      eapply wp_seq with (P := fun v' => mat n n v' (fun r c => if c =? i then V r c * - f1 else V r c)).
      { eapply wp_mono; [apply wp_for with (P := fun k v' => mat n n v' (fun r c => if (c =? i) && (r <? k) then V r c * - f1 else V r c)) | cbn beta].
        - lia.
        - eapply mat_ext; [exact MV|]. intros r c Rr Cc. bcases; auto.
        - intros k v1 Lk M1. apply wp_bind. eapply (wp_mget _ _ M1); [lia|lia|]. bcases. eapply (wp_mset _ _ M1); [lia|lia|].
          intros v2 M2. eapply mat_ext; [exact M2|]. intros r c Rr Cc. unfold updm. bcases; subst; auto.
        - intros v1 M1. eapply mat_ext; [exact M1|]. intros r c Rr Cc. bcases; auto. }
      intros v' MV'. cbn [wp]. intros _. exists (updv W i (W i * - f1)), R, U, (fun r c => if c =? i then V r c * - f1 else V r c).
      do 4 (split; [auto|]). split; [now apply flip_bidiag|]. split; auto.
      intros k Lk. destruct (Nat.eq_dec k i) as [->|Nk].
      * split; auto. unfold updv. bcases. apply fltb_spec in Sg. destruct Sg as [Sg _].
        apply fle_sub in Sg. replace (W i * - f1) with (f0 - W i) by ring. auto.
      * unfold updv. bcases. apply Rt. lia.
    + cbn [wp]. intros _. exists W, R, U, V. do 6 (split; [auto|]). intros k Lk.
      destruct (Nat.eq_dec k i) as [->|Nk]; [|apply Rt; lia]. split; auto.
      unfold fltb in Sg. now apply negb_false_iff in Sg.
  - eapply wp_seq. { eapply (sweep_wp sq m n A0 q i); eauto. lia. }
    intros [[[w' rv'] a'] v'] (W' & R' & H'). eapply IH; eauto.
Qed.

(* ---------- all singular values ---------- *)
Lemma loopd_last {S : Type} k i body (s : S) : loopd (Datatypes.S k) i body s = bind (loopd k i body s) (body (i - k)%nat).
Proof.
  revert i s. induction k as [|k IH]; intros i s.
  - cbn [loopd bind]. rewrite Nat.sub_0_r. destruct (body i s); auto.
  - change (bind (body i s) (loopd (Datatypes.S k) (i - 1) body) = bind (bind (body i s) (loopd k (i - 1) body)) (body (i - Datatypes.S k)%nat)).
    destruct (body i s) as [s'| |]; cbn [bind]; auto. rewrite IH. f_equal. f_equal. lia.
Qed.
Lemma for_down_last {S : Type} hi lo body (s : S) : lo < hi ->
  for_down hi lo body s = bind (for_down hi (lo + 1) body s) (body (lo + 1)%nat).
Proof.
  intros L. unfold for_down. replace (hi - lo)%nat with (Datatypes.S (hi - (lo + 1))) by lia.
  rewrite loopd_last. f_equal. f_equal. lia.
Qed.
(* the loop over the singular values n - 1, ..., i *)
Definition values (sq : K -> K) (m n : nat) (an : K) (i : nat) (st : list K * list K * list K * list K * bool) :=
  for_down n i (fun i '(W, rv, A, V, ok) =>
    let* (W, rv, A, V, c) := svd_iter sq m n (i - 1) an 30 W rv A V in
    Ok (W, rv, A, V, ok && c)) st.
Lemma values_0 sq m n an W rv A V : diagonalise sq m n an W rv A V = values sq m n an 0 (W, rv, A, V, true).
Proof. reflexivity. Qed.
Lemma values_wp sq m n (A0 : matrix) an w rv a v W R i : sqrt_pos sq -> injective m n A0 -> i <= n ->
  rinv m n A0 n w rv a v W R ->
  (exists w' rv' a' v' W' R', values sq m n an i (w, rv, a, v, true) = Ok (w', rv', a', v', true) /\ rinv m n A0 i w' rv' a' v' W' R') \/
  (exists j w' rv' a' v', i <= j < n /\ values sq m n an j (w, rv, a, v, true) = Ok (w', rv', a', v', false)).
Proof.
  intros Sp Inj Li H. remember (n - i)%nat as d eqn:Ed. revert i Li Ed.
  induction d as [|d IH]; intros i Li Ed.
  - left. replace i with n by lia. unfold values, for_down. rewrite Nat.sub_diag. cbn [loopd].
    exists w, rv, a, v, W, R. auto.
  - destruct (IH (i + 1)%nat ltac:(lia) ltac:(lia)) as [(w1 & rv1 & a1 & v1 & W1 & R1 & E1 & H1)|(j & w1 & rv1 & a1 & v1 & Lj & E1)].
    2:{ right. exists j, w1, rv1, a1, v1. split; [lia|auto]. }
    assert (X : values sq m n an i (w, rv, a, v, true) = 
      let* (W, rv, A, V, c) := svd_iter sq m n i an 30 w1 rv1 a1 v1 in Ok (W, rv, A, V, c)).
    { unfold values in *. rewrite for_down_last by lia. rewrite E1. cbn [bind]. rewrite Nat.add_sub. reflexivity. }
    rewrite Nat.add_1_r in H1.
    pose proof (svd_iter_wp sq m n A0 i an 30 w1 rv1 a1 v1 W1 R1 (fun _ => False) Sp ltac:(lia) Inj H1) as P.
    destruct (svd_iter sq m n i an 30 w1 rv1 a1 v1) as [[[[[w2 rv2] a2] v2] c]| |]; cbn [wp bind] in P, X; try contradiction.
    destruct c.
    + left. destruct (P eq_refl) as (W2 & R2 & H2). exists w2, rv2, a2, v2, W2, R2. auto.
    + right. exists i, w2, rv2, a2, v2. split; [lia|auto].
Qed.
End Qr.
