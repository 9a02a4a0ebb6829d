(* Singular value decomposition (C70). *)
From Coq Require Import List ZArith Lia Bool Arith Field QArith Qcanon.
From Verif Require Import Base LinBase PropsGauss PropsLu QrProofs PropsQr SvdModel SvdMath SvdHouse SvdBidiag SvdQr SvdUse SvdSolve.
Import ListNotations.
Local Close Scope Qc_scope.
Local Close Scope Q_scope.
Local Open Scope nat_scope.

(* ---------- specification ---------- *)

(* column i of the n x m array q times column j *)
Definition cols_dot {K : ofield} (n m : nat) (q : list K) (i j : nat) : K :=
  sumr 0 n (fun t => fmul (el m q t i) (el m q t j)).
Definition orthonormal_columns {K : ofield} (n m : nat) (q : list K) : Prop :=
  length q = (n * m)%nat /\ forall i j, i < m -> j < m -> cols_dot n m q i j = if i =? j then f1 else f0.
Definition orthonormal_rows {K : ofield} (n : nat) (q : list K) : Prop :=
  forall i j, i < n -> j < n -> sumr 0 n (fun k => fmul (el n q i k) (el n q j k)) = if i =? j then f1 else f0.
(* the m x n array a is u diag(w) v' *)
Definition is_product {K : ofield} (m n : nat) (a u w v : list K) : Prop :=
  forall r c, r < m -> c < n -> el n a r c = sumr 0 n (fun k => fmul (fmul (el n u r k) (nth k w f0)) (el n v c k)).
Definition is_svd {K : ofield} (m n : nat) (a u w v : list K) : Prop :=
  is_product m n a u w v /\ orthonormal_columns m n u /\ orthonormal_columns n n v /\ orthonormal_rows n v /\
  length w = n /\ forall k, k < n -> fle f0 (nth k w f0) = true.
(* only the zero vector is taken to zero *)
Definition full_rank {K : ofield} (m n : nat) (a : list K) : Prop :=
  forall y : nat -> K, (forall r, r < m -> sumr 0 n (fun c => fmul (el n a r c) (y c)) = f0) -> forall c, c < n -> y c = f0.
Definition residual_at {K : ofield} (n : nat) (a : list K) (x b : nat -> K) (r : nat) : K :=
  fsub (sumr 0 n (fun c => fmul (el n a r c) (x c))) (b r).

Section Proofs.
Context {K : ofield}.
Local Open Scope lin_scope.
Add Field Kf39 : (f_th K).
Lemma mat_fn n m l (A : nat -> nat -> K) r c : mat n m l A -> r < n -> c < m -> el m l r c = A r c.
Proof. intros [_ E] R C. unfold el. apply nth_error_nth. auto. Qed.
Lemma vec_fn n l (v : nat -> K) r : vec n l v -> r < n -> nth r l f0 = v r.
Proof. intros [_ E] R. apply nth_error_nth. auto. Qed.
Lemma sub_self (x : K) : x - x = f0.
Proof. ring. Qed.
Lemma usv_is m n (a u w v : list K) U W V : mat m n u U -> vec n w W -> mat n n v V -> usv m n (el n a) U W V -> is_svd m n a u w v.
Proof.
  intros MU VW MV (HA & Ou & Ov & Wp). split; [|split; [|split; [|split; [|split]]]].
  - intros r c R C. rewrite HA by auto. apply sumr_ext. intros k Lk.
    now rewrite (mat_fn m n u U), (vec_fn n w W), (mat_fn n n v V) by (auto; lia).
  - split; [apply MU|]. intros i j I J. change (if i =? j then f1 else f0) with (@delta K i j). rewrite <- (Ou i j I J).
    apply sumr_ext. intros t T. now rewrite !(mat_fn m n u U) by (auto; lia).
  - split; [apply MV|]. intros i j I J. change (if i =? j then f1 else f0) with (@delta K i j). rewrite <- (Ov i j I J).
    apply sumr_ext. intros t T. now rewrite !(mat_fn n n v V) by (auto; lia).
  - intros i j I J. change (if i =? j then f1 else f0) with (@delta K i j). rewrite <- (ocols_rows n V Ov i j I J).
    apply sumr_ext. intros t T. now rewrite !(mat_fn n n v V) by (auto; lia).
  - apply VW.
  - intros k Lk. rewrite (vec_fn n w W) by auto. auto.
Qed.
Lemma is_usv m n (a u w v : list K) : is_svd m n a u w v -> usv m n (el n a) (el n u) (fun k => nth k w f0) (el n v).
Proof. intros (HA & (_ & Ou) & (_ & Ov) & _ & _ & Wp). split; [exact HA|]. split; [exact Ou|]. split; [exact Ov|auto]. Qed.
End Proofs.

(* ---------- what holds ---------- *)

(* with one word more behind the work array, the result is a singular value decomposition, unless
   30 rounds are not enough for one of the values *)
Theorem C70_decomposes_partial : forall (K : ofield) (sq : K -> K) m n (rv a w v : list K), is_sqrt sq ->
  0 < n <= m -> length a = (m * n)%nat -> length w = n -> length v = (n * n)%nat -> length rv = S n ->
  full_rank m n a ->
  (exists u s q, decmp_svd sq m n rv a w v = Ok (u, s, q, true) /\ is_svd m n a u s q) \/ gives_up sq m n rv a w v.
Proof.
  intros K sq m n rv a w v Sq Ln La Lw Lv Lr Fr.
  destruct (decmp_wp sq m n rv a w v (el n a)) as [(a' & w' & v' & U & W & V & E & MU & VW & MV & Us)|G]; auto; try lia.
  - now apply is_sqrt_pos.
  - now apply mat_el0.
  - left. exists a', w', v'. split; auto. now apply (usv_is m n a a' w' v' U W V).
Qed.
(* the same for a result that is said to be complete *)
Theorem C70_result_partial : forall (K : ofield) (sq : K -> K) m n (rv a w v u s q : list K), is_sqrt sq ->
  0 < n <= m -> length a = (m * n)%nat -> length w = n -> length v = (n * n)%nat -> length rv = S n ->
  full_rank m n a -> ~ gives_up sq m n rv a w v -> forall ok, decmp_svd sq m n rv a w v = Ok (u, s, q, ok) ->
  ok = true /\ is_svd m n a u s q.
Proof.
  intros K sq m n rv a w v u s q Sq Ln La Lw Lv Lr Fr Ng ok E.
  destruct (C70_decomposes_partial K sq m n rv a w v) as [(u' & s' & q' & E' & H)|G]; auto; [|contradiction].
  rewrite E in E'. inversion E'. subst. auto.
Qed.
(* up to two columns it never gives up *)
Theorem C70_two_columns_partial : forall (K : ofield) (sq : K -> K) m n (rv a w v : list K), is_sqrt sq ->
  0 < n <= m -> n <= 2 -> length a = (m * n)%nat -> length w = n -> length v = (n * n)%nat -> length rv = S n ->
  full_rank m n a ->
  exists u s q, decmp_svd sq m n rv a w v = Ok (u, s, q, true) /\ is_svd m n a u s q.
Proof.
  intros K sq m n rv a w v Sq Ln L2 La Lw Lv Lr Fr.
  destruct (C70_decomposes_partial K sq m n rv a w v) as [H|G]; auto. exfalso. revert G.
  apply (two_columns sq m n rv a w v (el n a)); auto; try lia.
  - now apply is_sqrt_pos.
  - now apply mat_el0.
Qed.
(* back substitution gives the least squares solution of least norm, whatever the rank *)
Theorem C70_least_squares : forall (K : ofield) m n p c (a u w v b tmp : list K), 0 < n <= m -> c < p ->
  is_svd m n a u w v -> length b = (m * p)%nat -> length tmp = n ->
  exists x, bksub_svd m n u w v b tmp p c = Ok x /\ length x = length b /\
    (forall r k, r < m -> k < p -> (k <> c \/ n <= r) -> el p x r k = el p b r k) /\
    (forall k, k < n -> sumr 0 m (fun r => fmul (el n a r k) (residual_at n a (fun t => el p x t c) (fun t => el p b t c) r)) = f0) /\
    (forall y, (forall r, r < m -> sumr 0 n (fun k => fmul (el n a r k) (y k)) = f0) -> sumr 0 n (fun k => fmul (el p x k c) (y k)) = f0) /\
    (m = n -> full_rank m n a -> forall r, r < n -> residual_at n a (fun t => el p x t c) (fun t => el p b t c) r = f0).
Proof.
  intros K m n p c a u w v b tmp Ln Lc H Lb Lt.
  pose proof (is_usv m n a u w v H) as Us. destruct H as (HA & (Lu & Ou) & (Lv & Ov) & _ & Lw & Wp).
  pose proof (bksub_wp m n p c u w v b tmp (el n u) (el n v) (el p b) (fun k => nth k w f0) (fun _ => False) ltac:(lia) ltac:(lia) Lc
    (mat_el0 _ _ _ Lu) (vec_of _ _ Lw) (mat_el0 _ _ _ Lv) (mat_el0 _ _ _ Lb) Lt) as B.
  destruct (bksub_svd m n u w v b tmp p c) as [x| |]; cbn [wp] in B; try contradiction.
  exists x. split; auto. split. { destruct B as [B _]. congruence. }
  set (xs := sol m n (el n u) (fun k => nth k w f0) (el n v) (fun t => el p b t c)) in *.
  assert (Ex : forall k, k < n -> el p x k c = xs k).
  { intros k Lk. rewrite (mat_fn m p x _ _ _ B) by lia. bcases. auto. }
  assert (Ea : forall r, sumr 0 n (fun k => fmul (el n a r k) (el p x k c)) = app n (el n a) xs r).
  { intros r. apply sumr_ext. intros k Lk. now rewrite Ex by lia. }
  split; [|split; [|split]].
  - intros r k R Kk D. rewrite (mat_fn m p x _ _ _ B) by lia. bcases; auto.
  - intros k Lk. rewrite <- (least_squares m n (el n a) (el n u) (fun k => nth k w f0) (el n v) (fun t => el p b t c) k Us Lk).
    apply sumr_ext. intros r R. unfold residual_at. now rewrite Ea.
  - intros y Hy. rewrite <- (least_norm m n (el n a) (el n u) (fun k => nth k w f0) (el n v) (fun t => el p b t c) y Us Hy).
    apply sumr_ext. intros k Lk. now rewrite Ex by lia.
  - intros -> Fr r R. unfold residual_at. rewrite Ea. unfold xs.
    rewrite (exact_solution n (el n a) (el n u)); auto. { apply sub_self. }
    apply (usv_nz n n (el n a) (el n u) _ (el n v) Us Fr).
Qed.

(* the singular values below tol times the biggest are dropped, the others kept *)
Definition truncated {K : ofield} (tol : K) (n : nat) (s t : list K) : Prop :=
  length t = n /\ exists mx, (forall i, i < n -> fle (nth i s f0) mx = true) /\ fle f0 mx = true /\
    (mx = f0 \/ exists i, i < n /\ mx = nth i s f0) /\
    forall k, k < n -> (fle (fmul mx tol) (nth k s f0) = true /\ nth k t f0 = nth k s f0) \/
                       (fle (fmul mx tol) (nth k s f0) = false /\ nth k t f0 = f0).
(* the solver gives the least squares solution of least norm of the truncated product *)
Definition pseudo {K : ofield} (n : nat) (u t v : list K) (i j : nat) : K :=
  sumr 0 n (fun k => if feqb (nth k t f0) f0 then f0 else fdiv (fmul (el n v i k) (el n u j k)) (nth k t f0)).

Section Lists.
Context {K : ofield}.
Local Open Scope lin_scope.
Add Field Kf40 : (f_th K).
Lemma of_fun n (f : nat -> K) : exists l, vec n l f.
Proof.
  exists (map f (seq 0 n)). split. { now rewrite map_length, seq_length. }
  intros i Li. rewrite nth_error_map, (nth_error_nth' _ 0) by (rewrite seq_length; lia). cbn. now rewrite seq_nth by lia.
Qed.
Lemma truncated_is tol n s t (W : nat -> K) mx : vec n s W -> biggest n W mx -> vec n t (clipped tol mx W) -> truncated tol n s t.
Proof.
  intros Vs (H1 & H2 & H3) Vt. split; [apply Vt|]. exists mx. split; [|split; [|split]]; auto.
  - intros i Li. rewrite (vec_fn n s W) by auto. auto.
  - destruct H3 as [H3|(i & Li & H3)]; auto. right. exists i. split; auto. now rewrite (vec_fn n s W) by auto.
  - intros k Lk. rewrite (vec_fn n s W), (vec_fn n t _ k Vt) by auto. unfold clipped, fltb.
    destruct (fle (mx * tol) (W k)); cbn; auto.
Qed.
Lemma pseudo_is n u t v (U : nat -> nat -> K) T V i j : mat n n u U -> vec n t T -> mat n n v V -> i < n -> j < n ->
  pseudo n u t v i j = pinv n U T V i j.
Proof.
  intros MU VT MV I J. apply sumr_ext. intros k Lk.
  now rewrite (vec_fn n t T), (mat_fn n n u U), (mat_fn n n v V) by (auto; lia).
Qed.
Lemma sol_pinv n U T V (b : nat -> K) i : i < n -> sol n n U T V b i = sumr 0 n (fun j => pinv n U T V i j * b j).
Proof.
  intros I. unfold sol, coef, pinv.
  rewrite (sumr_ext 0 n (fun j => sumr 0 n (fun k => if feqb (T k) f0 then f0 else V i k * U j k / T k) * b j)
    (fun j => sumr 0 n (fun k => if feqb (T k) f0 then f0 else V i k * U j k / T k * b j))).
  2:{ intros j Lj. rewrite <- sumr_scale_r. apply sumr_ext. intros k Lk. destruct (feqb _ _); ring. }
  rewrite sumr_swap. apply sumr_ext. intros k Lk. cbn beta. destruct (feqb_spec (T k) f0) as [E|N].
  - rewrite sumr_zero; auto. ring.
  - rewrite (sumr_ext 0 n (fun j => V i k * U j k / T k * b j) (fun j => V i k / T k * (U j k * b j))). 2:{ intros j Lj. now field. }
    rewrite sumr_scale. now field.
Qed.
End Lists.

Theorem C70_equ_svd_partial : forall (K : ofield) (sq : K -> K) tol n (rv a b w v tmp tmp' r : list K), is_sqrt sq ->
  0 < n -> length a = (n * n)%nat -> length b = n -> length w = n -> length v = (n * n)%nat -> length rv = S n ->
  length tmp = n -> length tmp' = n -> length r = n -> full_rank n n a -> ~ gives_up sq n n rv a w v ->
  exists x u s q t, equ_svd sq tol n rv w v tmp tmp' r a b = Ok x /\ length x = n /\
    is_svd n n a u s q /\ truncated tol n s t /\
    (forall i, i < n -> nth i x f0 = sumr 0 n (fun j => fmul (pseudo n u t q i j) (nth j b f0))) /\
    (t = s -> forall i, i < n -> sumr 0 n (fun k => fmul (el n a i k) (nth k x f0)) = nth i b f0).
Proof.
  intros K sq tol n rv a b w v tmp tmp' r Sq Pn La Lb Lw Lv Lr Lt Lt' Lr' Fr Ng.
  destruct (equ_wp sq tol n rv w v tmp tmp' r a b (el n a) (fun i => nth i b f0)) as
    (x & U & W & V & mx & u & s & q & E & MU & VW & MV & Ex & Us & Hm & Vx); auto using is_sqrt_pos, mat_el0, vec_of.
  destruct (of_fun n (clipped tol mx W)) as [t Vt].
  exists x, u, s, q, t. split; auto. split; [apply Vx|]. split; [now apply (usv_is n n a u s q U W V)|].
  split; [now apply (truncated_is tol n s t W mx)|]. split.
  - intros i Li. rewrite (vec_fn n x _ i Vx Li), sol_pinv by auto. apply sumr_ext. intros j Lj.
    now rewrite (pseudo_is n u t q U (clipped tol mx W) V) by (auto; lia).
  - intros -> i Li. rewrite <- (exact_solution n (el n a) U W V (fun i => nth i b f0) i Us) by (auto; apply (usv_nz n n (el n a) U W V Us Fr)).
    apply sumr_ext. intros k Lk. rewrite (vec_fn n x _ k Vx) by lia. f_equal.
    unfold sol. apply sumr_ext. intros j Lj. unfold coef.
    replace (clipped tol mx W j) with (W j); auto. rewrite <- (vec_fn n s W j VW), <- (vec_fn n s _ j Vt) by lia. auto.
Qed.
Theorem C70_inv_svd_partial : forall (K : ofield) (sq : K -> K) tol n (rv a w v : list K), is_sqrt sq ->
  0 < n -> length a = (n * n)%nat -> length w = n -> length v = (n * n)%nat -> length rv = S n ->
  full_rank n n a -> ~ gives_up sq n n rv a w v ->
  exists x u s q t, inv_svd sq tol n rv w v a = Ok x /\ length x = (n * n)%nat /\
    is_svd n n a u s q /\ truncated tol n s t /\
    (forall i j, i < n -> j < n -> el n x i j = pseudo n u t q i j) /\
    (t = s -> is_inverse n a x).
Proof.
  intros K sq tol n rv a w v Sq Pn La Lw Lv Lr Fr Ng.
  destruct (inv_wp sq tol n rv w v a (el n a)) as
    (x & U & W & V & mx & u & s & q & E & MU & VW & MV & Ex & Us & Hm & Mx); auto using is_sqrt_pos, mat_el0.
  destruct (of_fun n (clipped tol mx W)) as [t Vt].
  exists x, u, s, q, t. split; auto. split; [apply Mx|]. split; [now apply (usv_is n n a u s q U W V)|].
  split; [now apply (truncated_is tol n s t W mx)|]. split.
  - intros i j Li Lj. rewrite (mat_fn n n x _ i j Mx), (pseudo_is n u t q U (clipped tol mx W) V) by auto. auto.
  - intros ->. assert (Ep : forall i j, i < n -> j < n -> el n x i j = pinv n U W V i j).
    { intros i j Li Lj. rewrite (mat_fn n n x _ i j Mx) by auto. apply sumr_ext. intros k Lk.
      replace (clipped tol mx W k) with (W k); auto. rewrite <- (vec_fn n s W k VW), <- (vec_fn n s _ k Vt) by lia. auto. }
    pose proof (usv_nz n n (el n a) U W V Us Fr) as Nz.
    split; [apply Mx|]. split; intros i j Li Lj.
    + change (if i =? j then f1 else f0) with (@delta K i j). rewrite <- (pinv_right n (el n a) U W V i j Us Nz Li Lj).
      apply sumr_ext. intros k Lk. now rewrite Ep by lia.
    + change (if i =? j then f1 else f0) with (@delta K i j). rewrite <- (pinv_left n (el n a) U W V i j Us Nz Li Lj).
      apply sumr_ext. intros k Lk. now rewrite Ep by lia.
Qed.
Theorem C70_orth_svd_partial : forall (K : ofield) (sq : K -> K) n (rv a w v : list K), is_sqrt sq ->
  0 < n -> length a = (n * n)%nat -> length w = n -> length v = (n * n)%nat -> length rv = S n ->
  full_rank n n a -> ~ gives_up sq n n rv a w v ->
  exists u, orth_svd sq n rv w v a = Ok u /\ orthonormal_columns n n u.
Proof.
  intros K sq n rv a w v Sq Pn La Lw Lv Lr Fr Ng.
  destruct (C70_decomposes_partial K sq n n rv a w v) as [(u & s & q & E & H)|G]; auto; [|contradiction].
  exists u. split; [|apply H]. unfold orth_svd. rewrite E. destruct (n =? 0) eqn:Z; auto. apply Nat.eqb_eq in Z. lia.
Qed.

(* ---------- what fails ---------- *)

(* with the work array as the code makes it, the element behind its end is read: whatever the matrix *)
Theorem C70_in_bounds_refuted : forall (K : ofield) (sq : K -> K) m n (rv a w v : list K), is_sqrt sq ->
  0 < m -> 0 < n -> length a = (m * n)%nat -> length w = n -> length rv = n ->
  decmp_svd sq m n rv a w v = UB OutOfBounds.
Proof.
  intros K sq m n rv a w v Sq Pm Pn La Lw Lr. unfold decmp_svd.
  replace (m =? 0) with false by (symmetry; apply Nat.eqb_neq; lia).
  replace (n =? 0) with false by (symmetry; apply Nat.eqb_neq; lia). cbn [orb].
  pose proof (house_loop_len sq m n n (a, w, rv, f0, f0, f0) (fun _ => False) (is_sqrt_pos sq Sq) (le_n n)) as H.
  destruct (for_up 0 n (house sq m n) (a, w, rv, f0, f0, f0)) as [[[[[[a1 w1] r1] s1] g1] an]| |]; cbn [wp] in H.
  - cbn [bind]. destruct H as (_ & _ & Lr1). { repeat split; auto. }
    destruct n as [|n]; [lia|]. unfold for_down. rewrite Nat.sub_0_r. cbn [loopd]. unfold acc_right at 1. replace (aget r1 (S n)) with (@UB K OutOfBounds); auto.
    unfold aget. rewrite (proj2 (nth_error_None r1 (S n))) by lia. auto.
  - exfalso. apply H. repeat split; auto.
  - exfalso. apply H. repeat split; auto.
Qed.

(* a column that is zero leaves its singular value unset *)
Definition sq_ex (x : QcF) : QcF := if feqb x (qz 25) then qz 5 else x.
Theorem C70_singular_refuted : exists u s q : list QcF,
  decmp_svd sq_ex 1 1 [qz 0; qz 0] [qz 0] [qz 7] [qz 0] = Ok (u, s, q, true) /\ ~ is_product 1 1 [qz 0] u s q.
Proof.
  assert (H : exists u s q : list QcF, decmp_svd sq_ex 1 1 [qz 0; qz 0] [qz 0] [qz 7] [qz 0] = Ok (u, s, q, true) /\
    u = [qz 1] /\ s = [qz 7] /\ q = [qz 1]).
  { destruct (decmp_svd sq_ex 1 1 [qz 0; qz 0] [qz 0] [qz 7] [qz 0]) as [[[[u s] q] ok]| |] eqn:E.
    2,3: vm_compute in E; discriminate.
    exists u, s, q. vm_compute in E. inversion E. repeat split; f_equal; apply Qc_is_canon; reflexivity. }
  destruct H as (u & s & q & E & -> & -> & ->). exists [qz 1], [qz 7], [qz 1]. split; auto.
  intros P. specialize (P 0 0 (le_n 1) (le_n 1)). vm_compute in P. discriminate.
Qed.
(* element (k, c) of the upper bidiagonal matrix with diagonal w and e above it *)
Definition upper {K : ofield} (w e : list K) (k c : nat) : K :=
  if c =? k then nth k w f0 else if c =? k + 1 then nth c e f0 else f0.
(* the cancellation of an element next to a zero singular value: the rotation of the columns of U is
   not made up for in the elements above the diagonal, whatever is put in place of the cancelled one *)
Theorem C70_cancellation_refuted : exists (w rv u : list QcF) q i, sq_ex (qz 25) = qz 5 /\
  exists w' u', cancel sq_ex 3 3 q i (qz 12) w rv u = Ok (w', u') /\
    forall x, ~ forall r c, r < 3 -> c < 3 ->
      sumr 0 3 (fun k => fmul (el 3 u' r k) (upper w' [qz 0; x; nth 2 rv f0] k c)) =
      sumr 0 3 (fun k => fmul (el 3 u r k) (upper w rv k c)).
Proof.
  exists [qz 0; qz 4; qz 4], [qz 0; qz 3; qz 5], [qz 1; qz 0; qz 0; qz 0; qz 1; qz 0; qz 0; qz 0; qz 1], 1, 2.
  split. { apply Qc_is_canon. reflexivity. }
  destruct (cancel sq_ex 3 3 1 2 (qz 12) [qz 0; qz 4; qz 4] [qz 0; qz 3; qz 5] [qz 1; qz 0; qz 0; qz 0; qz 1; qz 0; qz 0; qz 0; qz 1])
    as [[w' u']| |] eqn:E.
  2,3: vm_compute in E; discriminate.
  exists w', u'. split; auto. intros x H. specialize (H 0 2 ltac:(lia) ltac:(lia)).
  vm_compute in E. inversion E. subst w' u'. clear E.
  cbv [sumr upper el nth Nat.eqb Nat.add Nat.mul fold_left fold_right seq Nat.sub map] in H.
  match type of H with ?a = ?b => assert (D : feqb a b = true) by (rewrite H; destruct (feqb_spec b b); congruence) end.
  vm_compute in D. discriminate.
Qed.

Print Assumptions C70_decomposes_partial.
Print Assumptions C70_result_partial.
Print Assumptions C70_two_columns_partial.
Print Assumptions C70_least_squares.
Print Assumptions C70_equ_svd_partial.
Print Assumptions C70_inv_svd_partial.
Print Assumptions C70_orth_svd_partial.
Print Assumptions C70_in_bounds_refuted.
Print Assumptions C70_singular_refuted.
Print Assumptions C70_cancellation_refuted.
