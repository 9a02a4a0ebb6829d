(* QR decomposition and Gram-Schmidt (C42, C66). *)
From Coq Require Import List ZArith Lia Bool Arith Field QArith Qcanon.
From Verif Require Import Base LinBase LinDet GaussModel GaussProofs PropsGauss LuModel LuProofs PropsLu
  QrModel QrProofs.
Import ListNotations.
Local Close Scope Qc_scope.
Local Close Scope Q_scope.
Local Open Scope nat_scope.

(* ---------- specification ---------- *)

(* the square root, which is not negative *)
Definition is_sqrt {K : ofield} (sq : K -> K) : Prop :=
  forall x, fle f0 x = true -> fmul (sq x) (sq x) = x /\ fle f0 (sq x) = true.
(* y solves A y = column c of the n x m array b *)
Definition solves_column {K : ofield} (n : nat) (a : list K) (y : nat -> K) (m c : nat) (b : list K) : Prop :=
  forall r, r < n -> sumr 0 n (fun k => fmul (el n a r k) (y k)) = el m b r c.
Definition other_columns {K : ofield} (n m c : nat) (b x : list K) : Prop :=
  length x = length b /\ forall r k, r < n -> k < m -> k <> c -> el m x r k = el m b r k.
(* the columns before k have length one and are perpendicular to each other *)
Definition orthonormal {K : ofield} (n k : nat) (q : list K) : Prop :=
  forall i j, i < k -> j < k ->
    sumr 0 n (fun t => fmul (el n q t i) (el n q t j)) = if i =? j then f1 else f0.

Section Proofs.
Context {K : ofield}.
Local Open Scope lin_scope.
Add Field Kf12 : (f_th K).
Notation matrix := (nat -> nat -> K).

Lemma is_sqrt_pos sq : is_sqrt (K := K) sq -> sqrt_pos sq.
Proof.
  intros H x P. apply fltb_spec in P. destruct P as [P N]. destruct (H x P) as [E Q]. split; auto.
  apply fltb_spec. split; auto. intros Z. rewrite <- Z in E. apply N. rewrite <- E. ring.
Qed.
Lemma regular_no_kernel n (a : list K) : regular n a -> ~ has_kernel n (el n a).
Proof. intros G (y & (i & I & N) & Z). apply N. apply G; auto. Qed.
Lemma mat_el0 n m (l : list K) : length l = (n * m)%nat -> mat n m l (el m l).
Proof.
  intros L. split; auto. intros i j I J. unfold el. apply nth_error_nth'. rewrite L. nia.
Qed.
Lemma qrfact_regular n (a : list K) A sv dv : qrfact n (el n a) A sv dv -> regular n a.
Proof.
  intros (D & _ & _ & T) y Hy i I.
  assert (Z : solv n (el n a) (fun _ => f0) (fun _ => f0)).
  { intros r R. unfold dot. apply sumr_zero. intros. ring. }
  assert (Y : solv n (el n a) y (fun _ => f0)) by (intros r R; apply Hy; auto).
  apply T in Z. apply T in Y. apply (eff_unique n A dv y (fun _ => f0) _ D Y Z i I).
Qed.

Lemma decides_wp (sq : K -> K) n (a s d : list K) E : is_sqrt sq -> length a = (n * n)%nat -> length s = n -> length d = n ->
  wp (decmp_qr sq n a s d)
     (fun '(a', s', d', rv) => length a' = (n * n)%nat /\ length s' = n /\ length d' = n /\
        nth_error s' (n - 1) = nth_error s (n - 1) /\ (rv = true <-> regular n a)) E.
Proof.
  intros Sq La Ls Ld. destruct (Nat.eq_dec n 0) as [->|N].
  { unfold decmp_qr. cbn. repeat split; auto. intros y H i I. lia. }
  eapply wp_mono. { apply (decmp_qr_wp sq n a s d (el n a)); auto using mat_el0, is_sqrt_pos; lia. }
  intros [[[a' s'] d'] rv] (A & sv & dv & M & Ps & Vd & Hs & T & F).
  split; [apply M|]. split; [apply Ps|]. split; [apply Vd|]. split; [auto|]. split.
  - intros R. eapply qrfact_regular. eauto.
  - intros G. destruct rv; auto. exfalso. eapply regular_no_kernel; eauto.
Qed.

(* what the substitution leaves in column c when the reflections up to last are applied *)
Lemma run_wp (sq : K -> K) n m c last (a s d b : list K) E : is_sqrt sq -> length a = (n * n)%nat -> length s = n -> length d = n ->
  length b = (n * m)%nat -> c < m -> 0 < n -> last = (n - 1)%nat \/ last = n -> regular n a ->
  nth (n - 1) s f0 <> f0 ->
  wp (let* (a', s', d', _) := decmp_qr sq n a s d in bksub_qr_to last n a' s' d' b m c)
     (fun x => other_columns n m c b x /\ exists A sv dv,
        (forall r, r < n -> dv r <> f0) /\ dv (n - 1)%nat = A (n - 1)%nat (n - 1)%nat /\
        (forall y b, solv n (el n a) y b <-> solv n (eff n A dv) y (app n (n - 1) A sv b)) /\
        sv (n - 1)%nat = nth (n - 1) s f0 /\
        solv n (eff n A dv) (fun r => el m x r c) (app n last A sv (fun r => el m b r c))) E.
Proof.
  intros Sq La Ls Ld Lb C N0 Hl G Nw. set (w := nth (n - 1) s f0) in *.
  apply wp_bind. eapply wp_mono. { apply (decmp_qr_wp sq n a s d (el n a)); auto using mat_el0, is_sqrt_pos. }
  intros [[[a' s'] d'] rv] (A & sv & dv & M & Ps & Vd & Hs & T & F).
  destruct rv. 2:{ exfalso. eapply regular_no_kernel; eauto. }
  destruct (T eq_refl) as (D & Sn & Dl & T').
  set (sw := fun i => if i =? (n - 1)%nat then w else sv i).
  assert (Pw : pvec n n s' sw).
  { split; [apply Ps|]. intros i I. unfold sw. destruct (Nat.eqb_spec i (n - 1)) as [->|].
    - rewrite Hs. apply nth_error_nth'. lia.
    - apply (proj2 Ps). lia. }
  assert (Pl : pvec last n s' sw).
  { split; [apply Ps|]. intros i I. apply (proj2 Pw). lia. }
  eapply wp_mono. { apply (bksub_qr_wp n m c last a' s' d' b A (el m b) sw dv); auto using mat_el0; try lia.
    intros r R. unfold sw. bcases; auto. apply Sn. lia. }
  intros x (y & Mx & Sol). split.
  - split. { rewrite Lb. apply Mx. } intros r k R Kk Nk. rewrite (mat_el n m x _ Mx) by auto.
    unfold setcol. bcases. auto.
  - exists A, sw, dv. split; auto. split; auto. split; [|split].
    + intros y' b'. rewrite T'. apply solv_eq; auto. intros r R. apply app_ext; auto; try lia.
      intros j J. unfold sw. bcases. auto.
    + unfold sw. now rewrite Nat.eqb_refl.
    + intros r R. rewrite <- (Sol r R). unfold dot. apply sumr_ext. intros k Lk. f_equal.
      rewrite (mat_el n m x _ Mx) by lia. now rewrite setcol_eq.
Qed.

Lemma eff_last_row n (A : matrix) dv (y : nat -> K) : 0 < n ->
  dot n (eff n A dv) (n - 1) y = dv (n - 1)%nat * y (n - 1)%nat.
Proof.
  intros N. unfold dot. rewrite (sumr_one 0 n _ (n - 1)).
  - unfold eff. bcases. auto.
  - lia.
  - intros k Lk Nk. unfold eff. bcases; ring.
Qed.
Lemma app_last n (A : matrix) sv b : 0 < n -> app n n A sv b =
  refl n (n - 1) (fun i => A i (n - 1)%nat) (sv (n - 1)%nat) (app n (n - 1) A sv b).
Proof. intros N. destruct n; [lia|]. replace (S n - 1)%nat with n by lia. reflexivity. Qed.
Lemma last_part (sq : K -> K) n m c (a s d b : list K) (z : nat -> K) E :
  is_sqrt sq -> length a = (n * n)%nat -> length s = n -> length d = n -> length b = (n * m)%nat -> c < m ->
  0 < n -> regular n a -> nth (n - 1) s f0 <> f0 -> solves_column n a z m c b ->
  wp (let* (a', s', d', _) := decmp_qr sq n a s d in bksub_qr n a' s' d' b m c)
     (fun x => other_columns n m c b x /\
      (exists r, r <> f0 /\ el m x (n - 1) c =
         z (n - 1)%nat - z (n - 1)%nat * (r * r / nth (n - 1) s f0)) /\
      (solves_column n a (fun r => el m x r c) m c b <-> z (n - 1)%nat = f0)) E.
Proof.
  intros Sq La Ls Ld Lb C N G Nw Hz.
  eapply wp_mono. { apply (run_wp sq n m c n a s d b E Sq La Ls Ld Lb C N (or_intror eq_refl) G Nw). }
  intros x (O & A & sv & dv & D & Dl & T & Sw & So). split; auto.
  set (y := fun r => el m x r c) in *. change (el m x (n - 1) c) with (y (n - 1)%nat).
  change (solv n (el n a) z (fun r => el m b r c)) in Hz. pose proof Hz as Hz'. apply T in Hz'.
  rewrite app_last in So by auto.
  set (Y := app n (n - 1) A sv (fun r => el m b r c)) in *. set (w := nth (n - 1) s f0) in *.
  assert (Dn : dv (n - 1)%nat <> f0) by (apply D; lia).
  pose proof (Hz' (n - 1)%nat ltac:(lia)) as E1. pose proof (So (n - 1)%nat ltac:(lia)) as E2.
  rewrite eff_last_row in E1, E2 by auto.
  assert (R : forall i, i < n -> refl n (n - 1) (fun i => A i (n - 1)%nat) (sv (n - 1)%nat) Y i =
     if i =? (n - 1)%nat then Y i - dv i * Y i / w * dv i else Y i).
  { intros i I. unfold refl. rewrite Sw. destruct (Nat.eqb_spec i (n - 1)) as [->|Ni]; bcases; auto.
    replace (sumr (n - 1) n (fun t => A t (n - 1)%nat * Y t)) with (A (n - 1)%nat (n - 1)%nat * Y (n - 1)%nat).
    - rewrite Dl. auto.
    - rewrite (sumr_first (n - 1) n), sumr_nil by lia. ring. }
  rewrite R, Nat.eqb_refl in E2 by lia.
  assert (Ex : y (n - 1)%nat = z (n - 1)%nat - z (n - 1)%nat * (dv (n - 1)%nat * dv (n - 1)%nat / w)).
  { replace (y (n - 1)%nat) with (dv (n - 1)%nat * y (n - 1)%nat / dv (n - 1)%nat) by (field; auto).
    rewrite E2, <- E1. field. auto. }
  split. { eexists. split; [exact Dn|exact Ex]. }
  split.
  - intros H. change (solv n (el n a) y (fun r => el m b r c)) in H. apply T in H.
    assert (Ey : y (n - 1)%nat = z (n - 1)%nat). { apply (eff_unique n A dv y z _ D H Hz'). lia. }
    rewrite Ex in Ey.
    assert (Q : dv (n - 1)%nat * dv (n - 1)%nat / w <> f0).
    { intros Q. apply (fmul_nz (dv (n - 1)%nat) (dv (n - 1)%nat) Dn Dn).
      replace (dv (n - 1)%nat * dv (n - 1)%nat) with (dv (n - 1)%nat * dv (n - 1)%nat / w * w) by (field; auto).
      rewrite Q. ring. }
    set (q := dv (n - 1)%nat * dv (n - 1)%nat / w) in *.
    replace (z (n - 1)%nat) with ((z (n - 1)%nat - (z (n - 1)%nat - z (n - 1)%nat * q)) / q) by (field; auto).
    rewrite Ey. field. auto.
  - intros Zz. apply (proj2 (T y (fun r => el m b r c))). fold Y. intros i I. rewrite (So i I), R by auto.
    bcases; auto. subst i. rewrite <- E1, Zz. field. auto.
Qed.

Lemma mat_el_fun n (l : list K) Q : mat n n l Q -> forall i j, i < n -> j < n -> Q i j = el n l i j.
Proof. intros M i j I J. symmetry. now apply (mat_el n n l). Qed.

(* the first k columns are independent; column k, if there is one, is in their span *)
Lemma orth_part (sq : K -> K) n (a : list K) E : is_sqrt sq -> length a = (n * n)%nat ->
  wp (orth_gs sq n a)
     (fun q => length q = (n * n)%nat /\ exists (R : matrix) k, k <= n /\ orthonormal n k q /\
        (forall i, i < k -> fltb f0 (R i i) = true) /\
        (forall t j, t < n -> j < k -> el n a t j = sumr 0 (S j) (fun i => el n q t i * R i j)) /\
        (k < n -> forall t, t < n -> el n a t k = sumr 0 k (fun i => el n q t i * R i k)) /\
        (k = n <-> regular n a)) E.
Proof.
  intros Sq La. eapply wp_mono. { apply (orth_gs_wp sq n a (el n a)); auto using mat_el0. }
  intros q (Q & R & k & M & Lk & G & Z). pose proof G as (O1 & O2 & D & Lo & Hi).
  split; [apply M|]. exists R, k. split; auto.
  assert (On : orthonormal n k q).
  { intros i j Li Lj. rewrite <- O1 by auto. unfold inner. apply sumr_ext. intros t Lt.
    rewrite !(mat_el n n q Q M) by lia. auto. }
  assert (Lo' : forall t j, t < n -> j < k -> el n a t j = sumr 0 (S j) (fun i => el n q t i * R i j)).
  { intros t j Lt Lj. rewrite (Lo t j) by auto. apply sumr_ext. intros i Li.
    rewrite (mat_el n n q Q M) by lia. auto. }
  split; auto. split; auto. split; auto. split.
  { intros L t Lt. rewrite (Hi t k) by lia. rewrite (Z L t Lt).
    rewrite (sumr_ext 0 k _ (fun i => el n q t i * R i k)); [ring|]. intros i Li.
    rewrite (mat_el n n q Q M) by lia. auto. }
  split.
  - intros ->. intros y Hy.
    (* Q'A = R, so R y = 0 *)
    assert (Ry : solv n (zeroed n R) y (fun _ => f0)).
    { intros i I. unfold dot.
      transitivity (sumr 0 n (fun t => el n q t i * sumr 0 n (fun j => el n a t j * y j))).
      2:{ apply sumr_zero. intros t Lt. rewrite Hy by lia. ring. }
      rewrite (sumr_ext 0 n (fun t => el n q t i * _)
        (fun t => sumr 0 n (fun j => el n q t i * (el n a t j * y j)))).
      2:{ intros. now rewrite sumr_scale. }
      rewrite sumr_swap. apply sumr_ext. intros j Lj.
      rewrite (sumr_ext 0 n (fun t => el n q t i * (el n a t j * y j))
        (fun t => sumr 0 n (fun p => el n q t i * el n q t p * zeroed n R p j * y j))).
      2:{ intros t Lt. rewrite (Lo' t j) by lia. rewrite (sumr_split 0 (S j) n) by lia.
          rewrite (sumr_zero (S j) n).
          2:{ intros p Lp. unfold zeroed. bcases. ring. }
          rewrite <- sumr_scale_r, <- sumr_scale.
          match goal with |- _ = ?u + f0 => replace (u + f0) with u by ring end.
          apply sumr_ext. intros p Lp. unfold zeroed. bcases. ring. }
      rewrite sumr_swap. rewrite (sumr_one 0 n _ i).
      - rewrite (sumr_ext 0 n _ (fun t => el n q t i * el n q t i * (zeroed n R i j * y j))).
        2:{ intros. ring. }
        rewrite sumr_scale_r. pose proof (On i i I I) as X. rewrite Nat.eqb_refl in X. rewrite X. ring.
      - lia.
      - intros p Lp Np. rewrite (sumr_ext 0 n _ (fun t => el n q t i * el n q t p * (zeroed n R p j * y j))).
        2:{ intros. ring. }
        rewrite sumr_scale_r. rewrite (On i p) by lia. bcases. ring. }
    assert (D' : forall r, r < n -> R r r <> f0) by (intros; apply fpos_nz; auto).
    intros i I. apply (upper_unique n R y (fun _ => f0) (fun _ => f0)); auto.
    intros r Lr. unfold dot. apply sumr_zero. intros. ring.
  - intros Rg. destruct (Nat.eq_dec k n) as [|Nk]; auto. exfalso.
    apply (regular_no_kernel n a Rg). apply (gst_kernel n k (el n a) Q R); auto; try lia.
    intros t Lt. apply Z; auto. lia.
Qed.

Lemma refuted_part (sq : K -> K) : length [@f1 K] = 1 /\ regular 1 [@f1 K] /\
  forall s d, length s = 1 -> length d = 1 ->
  match (let* (a', s', d', _) := decmp_qr sq 1 [f1] s d in bksub_qr 1 a' s' d' [f1] 1 0) with
  | Ok x => ~ solves_column 1 [f1] (fun r => el 1 x r 0) 1 0 [f1]
  | Throw _ => False
  | UB f => f = DivByZero /\ nth 0 s f0 = f0
  end.
Proof.
  split; auto. split.
  { intros y H i I. assert (i = 0) by lia. subst i. specialize (H 0 (le_n 1)).
    unfold sumr in H. cbn in H. rewrite <- H. unfold el. cbn. ring. }
  intros s d Ls Ld. destruct s as [|v [|]]; try discriminate. destruct d as [|u [|]]; try discriminate.
  unfold decmp_qr, bksub_qr, bksub_qr_to. cbn -[feqb]. unfold divc.
  destruct (feqb_spec v f0) as [->|N]; cbn -[feqb]; auto.
  destruct (feqb_spec (@f1 K) f0) as [Z|_]; [now apply f1_neq_f0 in Z|]. cbn -[feqb].
  unfold solves_column. intros H. specialize (H 0 (le_n 1)). unfold sumr, el in H. cbn in H.
  assert (Q : f1 / v = f0).
  { replace (f1 / v) with (f1 - (f0 + f1 * ((f1 - (f0 + f1 * f1) / v * f1 - f0) / f1))).
    - rewrite H. ring.
    - field. split; auto. apply f1_neq_f0. }
  apply (@f1_neq_f0 K). replace (@f1 K) with (f1 / v * v) by (field; auto). rewrite Q. ring.
Qed.
End Proofs.

(* ---------- C42 ---------- *)

(* The flag says whether the matrix is regular; the last place of s is left as the caller had it. *)
Theorem C42_qr_decides : forall (K : ofield) (sq : K -> K) n a s d,
  is_sqrt sq -> length a = n * n -> length s = n -> length d = n ->
  match decmp_qr sq n a s d with
  | Ok (a', s', d', rv) => length a' = n * n /\ length s' = n /\ length d' = n /\
      nth_error s' (n - 1) = nth_error s (n - 1) /\ (rv = true <-> regular n a)
  | _ => False
  end.
Proof.
  intros. pose proof (decides_wp sq n a s d (fun _ => False)) as W.
  destruct (decmp_qr sq n a s d); apply W; auto.
Qed.

(* The reflections and the triangle are right: without the last turn of the loop in bksub_qr the
   requested column is the solution.  This is not what the code does, see below. *)
Theorem C42_qr_reflections_partial : forall (K : ofield) (sq : K -> K) n m c a s d b,
  is_sqrt sq -> length a = n * n -> length s = n -> length d = n -> length b = n * m -> c < m -> 0 < n ->
  regular n a -> nth (n - 1) s f0 <> f0 ->
  match (let* (a', s', d', _) := decmp_qr sq n a s d in bksub_qr_to (n - 1) n a' s' d' b m c) with
  | Ok x => solves_column n a (fun r => el m x r c) m c b /\ other_columns n m c b x
  | _ => False
  end.
Proof.
  intros K sq n m c a s d b Sq La Ls Ld Lb C N G Nw.
  pose proof (run_wp sq n m c (n - 1) a s d b (fun _ => False) Sq La Ls Ld Lb C N (or_introl eq_refl) G Nw) as W.
  destruct (let* (a', s', d', _) := decmp_qr sq n a s d in bksub_qr_to (n - 1) n a' s' d' b m c); try exact W.
  destruct W as (O & A & sv & dv & D & Dl & T & Sw & S). split; auto. apply T in S. exact S.
Qed.

(* The code as it is: s[n-1], which the decomposition does not set, changes the last component of
   the solution z by a part of itself, so the result is right only when that component is zero. *)
Theorem C42_qr_last_partial : forall (K : ofield) (sq : K -> K) n m c a s d b (z : nat -> K),
  is_sqrt sq -> length a = n * n -> length s = n -> length d = n -> length b = n * m -> c < m -> 0 < n ->
  regular n a -> nth (n - 1) s f0 <> f0 -> solves_column n a z m c b ->
  match (let* (a', s', d', _) := decmp_qr sq n a s d in bksub_qr n a' s' d' b m c) with
  | Ok x => other_columns n m c b x /\
      (exists r, r <> f0 /\ el m x (n - 1) c =
         fsub (z (n - 1)) (fmul (z (n - 1)) (fdiv (fmul r r) (nth (n - 1) s f0)))) /\
      (solves_column n a (fun r => el m x r c) m c b <-> z (n - 1) = f0)
  | _ => False
  end.
Proof.
  intros K sq n m c a s d b z Sq La Ls Ld Lb C N G Nw Hz.
  now apply (last_part sq n m c a s d b z (fun _ => False)).
Qed.

(* Whatever the caller's s holds, the system [1] x = [1] is not solved. *)
Theorem C42_qr_refuted : exists n, forall (K : ofield) (sq : K -> K), exists a b : list K,
  length a = n * n /\ regular n a /\ forall s d, length s = n -> length d = n ->
  match (let* (a', s', d', _) := decmp_qr sq n a s d in bksub_qr n a' s' d' b 1 0) with
  | Ok x => ~ solves_column n a (fun r => el 1 x r 0) 1 0 b
  | Throw _ => False
  | UB f => f = DivByZero /\ nth 0 s f0 = f0
  end.
Proof. exists 1. intros K sq. exists [f1], [f1]. apply refuted_part. Qed.

(* ---------- C66 ---------- *)

(* There is a number k of independent leading columns: the result has these orthonormalised,
   the triangle R with its positive diagonal gives them back, and column k (if k < n), which
   stops the run, depends on them.  All columns are done exactly when the matrix is regular. *)
Theorem C66_gram_schmidt : forall (K : ofield) (sq : K -> K) n a,
  is_sqrt sq -> length a = n * n ->
  match orth_gs sq n a with
  | Ok q => length q = n * n /\ exists (R : nat -> nat -> K) k, k <= n /\ orthonormal n k q /\
      (forall i, i < k -> fltb f0 (R i i) = true) /\
      (forall t j, t < n -> j < k -> el n a t j = sumr 0 (S j) (fun i => fmul (el n q t i) (R i j))) /\
      (k < n -> forall t, t < n -> el n a t k = sumr 0 k (fun i => fmul (el n q t i) (R i k))) /\
      (k = n <-> regular n a)
  | _ => False
  end.
Proof. intros. now apply (orth_part sq n a (fun _ => False)). Qed.
(* so a regular matrix becomes orthogonal *)
Theorem C66_regular_orthonormal : forall (K : ofield) (sq : K -> K) n a,
  is_sqrt sq -> length a = n * n -> regular n a ->
  match orth_gs sq n a with Ok q => orthonormal n n q | _ => False end.
Proof.
  intros K sq n a Sq La G. pose proof (C66_gram_schmidt K sq n a Sq La) as H.
  destruct (orth_gs sq n a) as [q|e|f]; try exact H.
  destruct H as (_ & R & k & _ & O & _ & _ & _ & Hk). apply Hk in G. now subst.
Qed.

(* ---------- cases over the rationals ---------- *)

Definition root5 (x : QcF) : QcF :=
  if feqb x (qz 25) then qz 5 else if feqb x (qz 1) then qz 1 else if feqb x (qz 4) then qz 2
  else if feqb x (fdiv (qz 25) (qz 16)) then fdiv (qz 5) (qz 4) else f0.
(* [3 1; 4 3] = [3 -4; 4 3]/5 * [5 3; 0 1] *)
Example gs_run : same (orth_gs root5 2 (nums [3; 1; 4; 3]%Z))
  (map (fun q => fdiv q (qz 5)) (nums [3; -4; 4; 3]%Z)) = true.
Proof. vm_compute. reflexivity. Qed.
(* the second column is twice the first: it is left as zero *)
Example gs_stop : same (orth_gs root5 2 (nums [3; 6; 4; 8]%Z))
  [fdiv (qz 3) (qz 5); qz 0; fdiv (qz 4) (qz 5); qz 0] = true.
Proof. vm_compute. reflexivity. Qed.
(* [3 1; 4 3] x = (4, 7) has the solution (1, 1); the last turn with s[1] = 1 spoils it, while
   (3, 4), with the solution (1, 0), comes out right *)
Definition qr_solve last s1 b := let* (a, s, d, _) :=
  decmp_qr root5 2 (nums [3; 1; 4; 3]%Z) [qz 0; s1] (nums [0; 0]%Z) in bksub_qr_to last 2 a s d b 1 0.
Example qr_right : same (qr_solve 1 (qz 7) (nums [4; 7]%Z)) (nums [1; 1]%Z) = true.
Proof. vm_compute. reflexivity. Qed.
Example qr_wrong : same (qr_solve 2 (qz 1) (nums [4; 7]%Z)) (nums [1; 1]%Z) = false.
Proof. vm_compute. reflexivity. Qed.
Example qr_lucky : same (qr_solve 2 (qz 7) (nums [3; 4]%Z)) (nums [1; 0]%Z) = true.
Proof. vm_compute. reflexivity. Qed.

Print Assumptions C42_qr_decides.
Print Assumptions C42_qr_reflections_partial.
Print Assumptions C42_qr_last_partial.
Print Assumptions C42_qr_refuted.
Print Assumptions C66_gram_schmidt.
Print Assumptions C66_regular_orthonormal.
