(* bksub_svd, equ_svd and inv_svd. *)
From Coq Require Import List Lia Bool Arith Field.
From Verif Require Import Base LinBase LdlProofs QrProofs EigProofs SvdModel SvdMath SvdHouse SvdBidiag SvdQr SvdUse.
Import ListNotations.
Local Open Scope nat_scope.

Section Solve.
Context {K : ofield}.
Local Open Scope lin_scope.
Add Field Kf38 : (f_th K).
Notation matrix := (nat -> nat -> K).
Notation vect := (nat -> K).

Definition coef (m : nat) (U : matrix) (W b : vect) (i : nat) : K :=
  if feqb (W i) f0 then f0 else sumr 0 m (fun t => U t i * b t) / W i.
Definition sol (m n : nat) (U : matrix) (W : vect) (V : matrix) (b : vect) (k : nat) : K :=
  sumr 0 n (fun i => V k i * coef m U W b i).

Lemma bksub_wp m n p c u w v b tmp (U V B : matrix) (W : vect) Ex : 0 < n -> n <= m -> c < p ->
  mat m n u U -> vec n w W -> mat n n v V -> mat m p b B -> length tmp = n ->
  wp (bksub_svd m n u w v b tmp p c) (fun b' => mat m p b' (fun r k =>
    if (k =? c) && (r <? n) then sol m n U W V (fun t => B t c) r else B r k)) Ex.
Proof.
  intros Pn Lm Lc MU VW MV MB Lt. unfold bksub_svd.
  replace ((m =? 0) || (n =? 0)) with false. 2:{ symmetry. apply orb_false_iff. split; apply Nat.eqb_neq; lia. }
  set (bc := fun t => B t c).
  apply wp_seq with (P := fun t => vec n t (coef m U W bc)).
  { eapply wp_mono; [apply wp_for with (P := fun j t => vec n t (fun i => if i <? j then coef m U W bc i else nth i tmp f0)) | cbn beta].
    - lia.
    - eapply vec_ext; [now apply vec_of|]. intros i Li. bcases; auto.
    - intros j t Lj V1. apply wp_bind. eapply (wp_vget _ _ VW); [lia|].
      destruct (feqb_spec (W j) f0) as [E|N].
      + eapply (wp_vset _ _ V1); [lia|]. intros t' V2. eapply vec_ext; [exact V2|]. intros i Li.
        unfold updv. bcases; try subst i; auto. unfold coef. destruct (feqb_spec (W j) f0); [auto|contradiction].
      + rewrite (dot_loop 0 m u b (fun i => (i * n + j)%nat) (fun i => (i * p + c)%nat) (fun i => U i j) bc).
        2:{ intros k Lk. apply (mat_get m n u U); auto; lia. }
        2:{ intros k Lk. apply (mat_get m p b B); auto; lia. }
        cbn [bind]. apply wp_bind. apply wp_divc; auto.
        eapply (wp_vset _ _ V1); [lia|]. intros t' V2. eapply vec_ext; [exact V2|]. intros i Li.
        unfold updv. bcases; try subst i; auto. unfold coef. destruct (feqb_spec (W j) f0); [contradiction|auto].
    - intros t V1. eapply vec_ext; [exact V1|]. intros i Li. bcases. auto. }
  intros t Vt.
  eapply wp_mono; [apply wp_for with (P := fun j b' => mat m p b' (fun r k =>
    if (k =? c) && (r <? j) then sol m n U W V bc r else B r k)) | auto].
  - lia.
  - eapply mat_ext; [exact MB|]. intros r k R Kk. bcases; auto.
  - intros j b1 Lj M1.
    rewrite (dot_loop 0 n v t (fun i => (j * n + i)%nat) (fun i => i) (fun i => V j i) (coef m U W bc)).
    2:{ intros k Lk. apply (mat_get n n v V); auto; lia. }
    2:{ intros k Lk. apply (vec_get n t); auto; lia. }
    cbn [bind]. eapply (wp_mset _ _ M1); [lia|lia|]. intros b2 M2. eapply mat_ext; [exact M2|].
    intros r k R Kk. unfold updm. bcases; subst; auto.
Qed.

(* ---------- what it solves ---------- *)
Definition app (n : nat) (A : matrix) (x : vect) (r : nat) : K := sumr 0 n (fun k => A r k * x k).
Lemma V_sol m n U W V b i : ocols n n V -> i < n -> sumr 0 n (fun k => V k i * sol m n U W V b k) = coef m U W b i.
Proof.
  intros Ov Li. unfold sol.
  rewrite (sumr_ext 0 n _ (fun k => sumr 0 n (fun j => V k i * V k j * coef m U W b j))).
  2:{ intros k Lk. rewrite <- sumr_scale. apply sumr_ext. intros. ring. }
  rewrite sumr_swap. rewrite (sumr_one 0 n _ i); [|lia|].
  - rewrite sumr_scale_r, Ov by auto. unfold delta. rewrite Nat.eqb_refl. ring.
  - intros j Lj Nj. rewrite sumr_scale_r, Ov by (auto; lia). unfold delta. bcases. ring.
Qed.
Lemma usv_app m n (A U : matrix) W V (x : vect) r : usv m n A U W V -> r < m ->
  app n A x r = sumr 0 n (fun i => U r i * (W i * sumr 0 n (fun k => V k i * x k))).
Proof.
  intros (HA & _) R. unfold app.
  rewrite (sumr_ext 0 n _ (fun k => sumr 0 n (fun i => U r i * W i * V k i * x k))).
  2:{ intros k Lk. rewrite HA by (auto; lia). rewrite <- sumr_scale_r. auto. }
  rewrite sumr_swap. apply sumr_ext. intros i Li. rewrite <- !sumr_scale. apply sumr_ext. intros. ring.
Qed.
Lemma U_app m n (A U : matrix) W V (x : vect) j : usv m n A U W V -> j < n ->
  sumr 0 m (fun r => U r j * app n A x r) = W j * sumr 0 n (fun k => V k j * x k).
Proof.
  intros Us Lj. pose proof Us as (_ & Ou & _).
  rewrite (sumr_ext 0 m _ (fun r => sumr 0 n (fun i => U r j * U r i * (W i * sumr 0 n (fun k => V k i * x k))))).
  2:{ intros r R. rewrite (usv_app m n A U W V) by (auto; lia). rewrite <- sumr_scale. apply sumr_ext. intros. ring. }
  rewrite sumr_swap. rewrite (sumr_one 0 n _ j); [|lia|].
  - rewrite sumr_scale_r, Ou by auto. unfold delta. rewrite Nat.eqb_refl. ring.
  - intros i Li Ni. rewrite sumr_scale_r, Ou by (auto; lia). unfold delta. bcases. ring.
Qed.
(* a kept subset of the singular values: W' i is W i or 0 *)
Definition part (n : nat) (W W' : vect) : Prop := forall i, i < n -> W' i = W i \/ W' i = f0.
Lemma residual m n (A U : matrix) W W' V b j : usv m n A U W V -> part n W W' -> j < n -> W' j <> f0 ->
  sumr 0 m (fun r => U r j * (app n A (sol m n U W' V b) r - b r)) = f0.
Proof.
  intros Us Pt Lj N. pose proof Us as (_ & Ou & Ov & _).
  rewrite (sumr_ext 0 m _ (fun r => U r j * app n A (sol m n U W' V b) r - U r j * b r)) by (intros; ring).
  rewrite sumr_sub, (U_app m n A U W V) by auto. rewrite V_sol by auto. unfold coef.
  destruct (feqb_spec (W' j) f0); [contradiction|]. destruct (Pt j Lj) as [E|E]; [|contradiction].
  rewrite <- E. field. auto.
Qed.
Lemma least_squares m n (A U : matrix) W V b c : usv m n A U W V -> c < n ->
  sumr 0 m (fun r => A r c * (app n A (sol m n U W V b) r - b r)) = f0.
Proof.
  intros Us Lc. pose proof Us as (HA & _).
  rewrite (sumr_ext 0 m _ (fun r => sumr 0 n (fun j => U r j * (app n A (sol m n U W V b) r - b r) * (W j * V c j)))).
  2:{ intros r R. rewrite HA by (auto; lia). rewrite <- sumr_scale_r. apply sumr_ext. intros. ring. }
  rewrite sumr_swap. apply sumr_zero. intros j Lj. rewrite sumr_scale_r.
  destruct (f_eq_dec (W j) f0) as [E|N]. { rewrite E. ring. }
  rewrite (residual m n A U W W V) by (auto; try lia; intros i Li; auto). ring.
Qed.
Lemma least_norm m n (A U : matrix) W V b (y : vect) : usv m n A U W V -> (forall r, r < m -> app n A y r = f0) ->
  sumr 0 n (fun k => sol m n U W V b k * y k) = f0.
Proof.
  intros Us Hy. unfold sol.
  rewrite (sumr_ext 0 n _ (fun k => sumr 0 n (fun i => V k i * y k * coef m U W b i))).
  2:{ intros k Lk. rewrite <- sumr_scale_r. apply sumr_ext. intros. ring. }
  rewrite sumr_swap. apply sumr_zero. intros i Li. rewrite sumr_scale_r. unfold coef.
  destruct (feqb_spec (W i) f0) as [E|N]; [ring|].
  pose proof (U_app m n A U W V y i Us ltac:(lia)) as Q.
  rewrite (sumr_zero 0 m) in Q by (intros r R; rewrite Hy by lia; ring). symmetry in Q.
  apply fmul_0 in Q. destruct Q as [Q|Q]; [contradiction|]. rewrite Q. ring.
Qed.
Lemma ocols_rows n (U : matrix) : ocols n n U -> forall i j, i < n -> j < n -> sumr 0 n (fun k => U i k * U j k) = delta i j.
Proof. intros O i j I J. now apply (orth_rows n U). Qed.
Lemma exact_solution n (A U : matrix) W V b r : usv n n A U W V -> (forall k, k < n -> W k <> f0) -> r < n ->
  app n A (sol n n U W V b) r = b r.
Proof.
  intros Us Nw R. pose proof Us as (_ & Ou & Ov & _). rewrite (usv_app n n A U W V) by auto.
  rewrite (sumr_ext 0 n _ (fun i => sumr 0 n (fun t => U r i * U t i * b t))).
  2:{ intros i Li. rewrite V_sol by (auto; lia). unfold coef. destruct (feqb_spec (W i) f0) as [E|_]; [now apply Nw in E; [|lia]|].
      replace (W i * (sumr 0 n (fun t => U t i * b t) / W i)) with (sumr 0 n (fun t => U t i * b t)).
      2:{ field. apply Nw. lia. }
      rewrite <- sumr_scale. apply sumr_ext. intros. ring. }
  rewrite sumr_swap. rewrite (sumr_one 0 n _ r); [|lia|].
  - rewrite sumr_scale_r, ocols_rows by auto. unfold delta. rewrite Nat.eqb_refl. ring.
  - intros t Lt Nt. rewrite sumr_scale_r, ocols_rows by (auto; lia). unfold delta. bcases. ring.
Qed.
Lemma sol_0 m n U W V b k : (forall i, i < n -> W i <> f0 -> sumr 0 m (fun t => U t i * b t) = f0) -> k < n -> sol m n U W V b k = f0.
Proof.
  intros H Lk. unfold sol. apply sumr_zero. intros i Li. unfold coef.
  destruct (feqb_spec (W i) f0) as [E|N]; [ring|]. rewrite H by (auto; lia). field. auto.
Qed.

(* ---------- the small singular values ---------- *)
Definition biggest (n : nat) (W : vect) (mx : K) : Prop :=
  (forall i, i < n -> fle (W i) mx = true) /\ fle f0 mx = true /\ (mx = f0 \/ exists i, i < n /\ mx = W i).
Definition clipped (tol mx : K) (W : vect) (i : nat) : K := if fltb (W i) (mx * tol) then f0 else W i.
Lemma clip_wp tol n w (W : vect) Ex : vec n w W ->
  wp (clip tol n w) (fun w' => exists mx, biggest n W mx /\ vec n w' (clipped tol mx W)) Ex.
Proof.
  intros VW. unfold clip.
  apply wp_seq with (P := biggest n W).
  { apply wp_for with (P := fun k mx => biggest k W mx); [lia| |].
    - split; [intros; lia|]. split; [apply fle_refl|auto].
    - intros i mx Li (H1 & H2 & H3). apply wp_bind. eapply (wp_vget _ _ VW); [lia|]. cbn [wp].
      destruct (fltb mx (W i)) eqn:F.
      + apply fltb_spec in F. destruct F as [F _]. split; [|split].
        * intros j Lj. destruct (Nat.eq_dec j i) as [->|]; [apply fle_refl|]. eapply fle_trans; [apply H1; lia|auto].
        * eapply fle_trans; eauto.
        * right. exists i. split; [lia|auto].
      + unfold fltb in F. apply negb_false_iff in F. split; [|split; auto].
        * intros j Lj. destruct (Nat.eq_dec j i) as [->|]; auto. apply H1. lia.
        * destruct H3 as [H3|(j & Lj & H3)]; auto. right. exists j. split; [lia|auto]. }
  intros mx Hm.
  eapply wp_mono; [apply wp_for with (P := fun k w' => vec n w' (fun i => if i <? k then clipped tol mx W i else W i)) | cbn beta].
  - lia.
  - eapply vec_ext; [exact VW|]. intros i Li. bcases; auto.
  - intros i w1 Li V1. apply wp_bind. eapply (wp_vget _ _ V1); [lia|]. bcases.
    destruct (fltb (W i) (mx * tol)) eqn:F.
    + eapply (wp_vset _ _ V1); [lia|]. intros w2 V2. eapply vec_ext; [exact V2|]. intros k Lk. unfold updv. bcases; auto.
      subst k. unfold clipped. now rewrite F.
    + cbn [wp]. eapply vec_ext; [exact V1|]. intros k Lk. bcases; auto. replace k with i by lia. unfold clipped. now rewrite F.
  - intros w1 V1. exists mx. split; auto. eapply vec_ext; [exact V1|]. intros i Li. bcases. auto.
Qed.
Lemma clipped_part n tol mx W : part n W (clipped tol mx W).
Proof. intros i Li. unfold clipped. destruct (fltb (W i) (mx * tol)); auto. Qed.

(* ---------- equ_svd ---------- *)
Lemma equ_wp sq tol n rv w v tmp tmp' r0 a b (A : matrix) (B : vect) : sqrt_pos sq -> 0 < n -> mat n n a A -> injective n n A ->
  vec n b B -> length rv = S n -> length w = n -> length v = (n * n)%nat -> length tmp = n -> length tmp' = n -> length r0 = n ->
  ~ gives_up sq n n rv a w v ->
  exists x U W V mx u s q, decmp_svd sq n n rv a w v = Ok (u, s, q, true) /\ mat n n u U /\ vec n s W /\ mat n n q V /\ equ_svd sq tol n rv w v tmp tmp' r0 a b = Ok x /\ usv n n A U W V /\ biggest n W mx /\
    vec n x (sol n n U (clipped tol mx W) V B).
Proof.
  intros Sp Pn M Inj VB Lr Lw Lv Lt Lt' Lr0 Ng. unfold equ_svd.
  replace (n =? 0) with false by (symmetry; apply Nat.eqb_neq; lia).
  destruct (decmp_wp sq n n rv a w v A Sp Pn (le_n n) M Inj Lw Lr Lv) as [(a' & w' & v' & U & W & V & E & MU & VW & MV & Us)|G]; [|contradiction].
  rewrite E. cbn [bind].
  pose proof (clip_wp tol n w' W (fun _ => False) VW) as C.
  destruct (clip tol n w') as [w2| |]; cbn [wp] in C; try contradiction. destruct C as (mx & Hm & VW2). cbn [bind].
  set (W' := clipped tol mx W) in *.
  cut (wp (let* x := bksub_svd n n a' w2 v' b tmp 1 0 in
    let* r := for_up 0 n (fun i r =>
      let* y := aget b i in
      let* s := for_up 0 n (fun j s =>
        let* a := aget a (i * n + j) in
        let* z := aget x j in
        Ok (s + a * z)) (- y) in
      aset r i s) r0 in
    let* r := bksub_svd n n a' w2 v' r tmp' 1 0 in
    for_up 0 n (fun i x =>
      let* z := aget x i in
      let* y := aget r i in
      aset x i (z - y)) x) (fun x => vec n x (sol n n U W' V B)) (fun _ => False)).
  { intros X. match type of X with wp ?o _ _ => destruct o as [x| |] end; cbn [wp] in X; try contradiction.
    exists x, U, W, V, mx, a', w', v'. repeat (split; auto). }
  eapply wp_seq. { apply (bksub_wp n n 1 0); eauto. apply vec_mat. exact VB. }
  cbn beta. intros x Mx. set (xs := sol n n U W' V B).
  assert (Vx : vec n x xs).
  { apply vec_mat. eapply mat_ext; [exact Mx|]. intros i j I J. cbn beta. bcases. auto. }
  apply wp_seq with (P := fun r => vec n r (fun i => app n A xs i - B i)).
  { eapply wp_mono; [apply wp_for with (P := fun k r => vec n r (fun i => if i <? k then app n A xs i - B i else nth i r0 f0)) | cbn beta].
    - lia.
    - eapply vec_ext; [now apply vec_of|]. intros i Li. bcases; auto.
    - intros i r Li V1. apply wp_bind. eapply (wp_vget _ _ VB); [lia|].
      rewrite (sum_loop 0 n _ (fun k => A i k * xs k)).
      2:{ intros k s Lk. rewrite (mat_get n n a A) by (auto; lia). cbn [bind]. rewrite (vec_get n x xs) by (auto; lia). auto. }
      cbn [bind]. eapply (wp_vset _ _ V1); [lia|]. intros r2 V2. eapply vec_ext; [exact V2|]. intros k Lk. unfold updv. bcases; auto.
      subst k. unfold app. ring.
    - intros r V1. eapply vec_ext; [exact V1|]. intros i Li. bcases. auto. }
  intros r Vr. eapply wp_seq. { apply (bksub_wp n n 1 0); eauto. apply vec_mat. exact Vr. }
  cbn beta. intros r2 M2.
  assert (V2 : vec n r2 (fun _ => f0)).
  { apply vec_mat. eapply mat_ext; [exact M2|]. intros i j I J. cbn beta. bcases.
    apply sol_0; auto. intros k Lk Nk. apply (residual n n A U W W' V); auto. apply clipped_part. }
  eapply wp_mono; [apply wp_for with (P := fun k x => vec n x xs) | auto].
  - lia.
  - auto.
  - intros i x1 Li V1. apply wp_bind. eapply (wp_vget _ _ V1); [lia|]. apply wp_bind. eapply (wp_vget _ _ V2); [lia|].
    eapply (wp_vset _ _ V1); [lia|]. intros x2 V3. eapply vec_ext; [exact V3|]. intros k Lk. unfold updv. bcases; auto. subst. ring.
Qed.

(* ---------- inv_svd ---------- *)
Definition pinv (n : nat) (U : matrix) (W : vect) (V : matrix) : matrix := fun i j =>
  sumr 0 n (fun k => if feqb (W k) f0 then f0 else V i k * U j k / W k).
Lemma inv_wp sq tol n rv w v a (A : matrix) : sqrt_pos sq -> 0 < n -> mat n n a A -> injective n n A ->
  length rv = S n -> length w = n -> length v = (n * n)%nat -> ~ gives_up sq n n rv a w v ->
  exists x U W V mx u s q, decmp_svd sq n n rv a w v = Ok (u, s, q, true) /\ mat n n u U /\ vec n s W /\ mat n n q V /\ inv_svd sq tol n rv w v a = Ok x /\ usv n n A U W V /\ biggest n W mx /\
    mat n n x (pinv n U (clipped tol mx W) V).
Proof.
  intros Sp Pn M Inj Lr Lw Lv Ng. unfold inv_svd.
  replace (n =? 0) with false by (symmetry; apply Nat.eqb_neq; lia).
  destruct (decmp_wp sq n n rv a w v A Sp Pn (le_n n) M Inj Lw Lr Lv) as [(a' & w' & v' & U & W & V & E & MU & VW & MV & Us)|G]; [|contradiction].
  rewrite E. cbn [bind].
  pose proof (clip_wp tol n w' W (fun _ => False) VW) as C.
  destruct (clip tol n w') as [w2| |]; cbn [wp] in C; try contradiction. destruct C as (mx & Hm & VW2). cbn [bind].
  set (W' := clipped tol mx W) in *.
  match goal with |- exists x U W V mx u s q, _ /\ _ /\ _ /\ _ /\ ?o = Ok x /\ _ => cut (wp o (fun x => mat n n x (pinv n U W' V)) (fun _ => False)) end.
  { intros X. match type of X with wp ?o _ _ => destruct o as [x| |] end; cbn [wp] in X; try contradiction.
    exists x, U, W, V, mx, a', w', v'. repeat (split; auto). }
  eapply wp_mono; [apply wp_for with (P := fun k x => mat n n x (fun i j => if i <? k then pinv n U W' V i j else A i j)) | cbn beta].
  - lia.
  - eapply mat_ext; [exact M|]. intros i j I J. bcases; auto.
  - intros i a1 Li M1.
    eapply wp_mono; [apply wp_for with (P := fun k x => mat n n x (fun i' j => if (i' <? i) || ((i' =? i) && (j <? k)) then pinv n U W' V i' j else A i' j)) | cbn beta].
    + lia.
    + eapply mat_ext; [exact M1|]. intros r j R J. bcases; auto.
    + intros j a2 Lj M2.
      rewrite (sum_loop 0 n _ (fun k => if feqb (W' k) f0 then f0 else V i k * U j k / W' k)).
      2:{ intros k s Lk. rewrite (vec_get n w2 W') by (auto; lia). cbn [bind]. destruct (feqb_spec (W' k) f0) as [Z|N].
          - f_equal. ring.
          - rewrite (mat_get n n v' V) by (auto; lia). cbn [bind]. rewrite (mat_get n n a' U) by (auto; lia). cbn [bind].
            rewrite divc_ok by auto. reflexivity. }
      cbn [bind]. eapply (wp_mset _ _ M2); [lia|lia|]. intros a3 M3. eapply mat_ext; [exact M3|].
      intros r c R C. unfold updm. bcases; auto. subst. unfold pinv. ring.
    + intros a2 M2. eapply mat_ext; [exact M2|]. intros r j R J. bcases; auto.
  - intros a1 M1. eapply mat_ext; [exact M1|]. intros r j R J. bcases; auto.
Qed.
Lemma pinv_sol n U W V i j : j < n -> pinv n U W V i j = sol n n U W V (fun t => delta t j) i.
Proof.
  intros Lj. unfold pinv, sol. apply sumr_ext. intros k Lk. unfold coef. destruct (feqb_spec (W k) f0); [ring|].
  rewrite (sumr_one 0 n _ j); [|lia|].
  - unfold delta. rewrite Nat.eqb_refl. field. auto.
  - intros t T Nt. unfold delta. bcases. ring.
Qed.
Lemma pinv_right n (A U : matrix) W V i j : usv n n A U W V -> (forall k, k < n -> W k <> f0) -> i < n -> j < n ->
  sumr 0 n (fun k => A i k * pinv n U W V k j) = delta i j.
Proof.
  intros Us Nw I J. rewrite (sumr_ext 0 n _ (fun k => A i k * sol n n U W V (fun t => delta t j) k)).
  2:{ intros k Lk. now rewrite pinv_sol by auto. }
  apply (exact_solution n A U W V (fun t => delta t j)); auto.
Qed.
Lemma pinv_left n (A U : matrix) W V i j : usv n n A U W V -> (forall k, k < n -> W k <> f0) -> i < n -> j < n ->
  sumr 0 n (fun k => pinv n U W V i k * A k j) = delta i j.
Proof.
  intros Us Nw I J. pose proof Us as (HA & Ou & Ov & _).
  rewrite (sumr_ext 0 n _ (fun k => sumr 0 n (fun p => U k p * app n A (fun t => delta t j) k * (V i p / W p)))).
  2:{ intros k Lk. unfold app. rewrite (sumr_one 0 n (fun t => A k t * delta t j) j); [|lia|].
      - unfold pinv. rewrite <- sumr_scale_r. apply sumr_ext. intros p Lp. destruct (feqb_spec (W p) f0) as [E|_].
        + exfalso. now apply Nw in E; [|lia].
        + unfold delta. rewrite Nat.eqb_refl. field. apply Nw. lia.
      - intros t T Nt. unfold delta. bcases. ring. }
  rewrite sumr_swap. rewrite (sumr_ext 0 n _ (fun p => V i p * V j p)).
  2:{ intros p Lp. rewrite sumr_scale_r, (U_app n n A U W V) by (auto; lia).
      rewrite (sumr_one 0 n _ j); [|lia|].
      - unfold delta. rewrite Nat.eqb_refl. field. apply Nw. lia.
      - intros t T Nt. unfold delta. bcases. ring. }
  now apply ocols_rows.
Qed.
Lemma usv_nz m n (A U : matrix) W V : usv m n A U W V -> injective m n A -> forall k, k < n -> W k <> f0.
Proof.
  intros (HA & Ou & Ov & _) Inj. apply (bid_nz m n A U W (fun _ => f0) V); auto. split; [|auto].
  intros r c R C. rewrite HA by auto. unfold P3. apply sumr_ext. intros l Ll. rewrite (sumr_one 0 n _ l); [|lia|].
  - unfold bid. now rewrite Nat.eqb_refl.
  - intros k Lk Nk. unfold bid. bcases; ring.
Qed.
End Solve.
