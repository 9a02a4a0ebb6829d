(* Gaussian elimination (C38, C39). *)
From Coq Require Import List ZArith Lia Bool Arith Field QArith Qcanon.
From Verif Require Import Base LinBase LinDet GaussModel GaussProofs.
Import ListNotations.
Local Close Scope Qc_scope.
Local Close Scope Q_scope.
Local Open Scope nat_scope.

(* ---------- specification ---------- *)

(* element (i,j) of the n x m matrix stored in l *)
Definition el {K : ofield} (m : nat) (l : list K) (i j : nat) : K := nth (i * m + j) l f0.
(* A x = b, for the flat arrays *)
Definition solves {K : ofield} (n : nat) (a x b : list K) : Prop :=
  length x = n /\
  forall i, i < n -> sumr 0 n (fun k => fmul (el n a i k) (nth k x f0)) = nth i b f0.
(* A X = B, with m right-hand sides *)
Definition solves_all {K : ofield} (n m : nat) (a x b : list K) : Prop :=
  length x = n * m /\
  forall i c, i < n -> c < m ->
    sumr 0 n (fun k => fmul (el n a i k) (el m x k c)) = el m b i c.
(* N A = I and the largest row sum of |N| is at most 1/eps *)
Definition well_conditioned {K : ofield} (eps : K) (n : nat) (a : list K) : Prop :=
  exists N : nat -> nat -> K,
    (forall i j, i < n -> j < n ->
       sumr 0 n (fun k => fmul (N i k) (el n a k j)) = if i =? j then f1 else f0) /\
    (forall i, i < n -> fle (fmul eps (sumr 0 n (fun k => fabs (N i k)))) f1 = true).

Section Proofs.
Context {K : ofield}.
Local Open Scope lin_scope.
Add Field Kf4 : (f_th K).
Notation matrix := (nat -> nat -> K).

(* ---------- absolute values ---------- *)

Lemma fabs_cases (x : K) : (fle f0 x = true /\ fabs x = x) \/ (fle x f0 = true /\ fabs x = - x).
Proof.
  unfold fabs. destruct (fle f0 x) eqn:E; auto. right. split; auto.
  destruct (fle_total K f0 x); congruence.
Qed.
Lemma fle_opp (x : K) : fle x f0 = true <-> fle f0 (- x) = true.
Proof. rewrite fle_sub. now replace (f0 - x) with (- x) by ring. Qed.
Lemma fabs_mul (x y : K) : fabs (x * y) = fabs x * fabs y.
Proof.
  assert (U : forall z w : K, fle f0 z = true -> (z = w \/ z = - w) -> fabs w = z).
  { intros z w Z [->|E]; unfold fabs.
    - now rewrite Z.
    - destruct (fle f0 w) eqn:F; auto. assert (w = - z) as -> by (rewrite E; ring).
      apply fle_antisym. { apply fle_trans with f0; auto. apply fle_opp.
        now replace (- - z) with z by ring. }
      apply fle_trans with f0; auto. apply fle_opp. auto. }
  apply U.
  - apply fle_mul; apply fabs_nonneg.
  - destruct (fabs_cases x) as [[_ ->]|[_ ->]], (fabs_cases y) as [[_ ->]|[_ ->]];
      ((left; ring) || (right; ring)).
Qed.
Lemma fle_fabs (x : K) : fle x (fabs x) = true.
Proof.
  destruct (fabs_cases x) as [[A ->]|[A ->]]. apply fle_refl.
  apply fle_trans with f0; auto. now apply fle_opp.
Qed.
Lemma fabs_opp (x : K) : fabs (- x) = fabs x.
Proof.
  destruct (fabs_cases x) as [[A E]|[A E]], (fabs_cases (- x)) as [[B F]|[B F]]; rewrite E, F; auto.
  - apply fle_opp in B. replace (- - x) with x in B by ring.
    assert (x = f0). { apply fle_antisym; auto; apply fle_opp; auto. }
    subst. ring.
  - ring.
  - apply fle_opp in B. replace (- - x) with x in B by ring.
    assert (x = f0) by (apply fle_antisym; auto). subst. ring.
Qed.
Lemma fle_plus (a b c d : K) : fle a b = true -> fle c d = true -> fle (a + c) (b + d) = true.
Proof.
  intros A C. apply fle_trans with (b + c). { now apply fle_add. }
  replace (b + c) with (c + b) by ring. replace (b + d) with (d + b) by ring. now apply fle_add.
Qed.
Lemma fabs_add (x y : K) : fle (fabs (x + y)) (fabs x + fabs y) = true.
Proof.
  destruct (fabs_cases (x + y)) as [[_ ->]|[_ ->]].
  - apply fle_plus; apply fle_fabs.
  - replace (- (x + y)) with (- x + - y) by ring. rewrite <- (fabs_opp x), <- (fabs_opp y).
    apply fle_plus; apply fle_fabs.
Qed.
Lemma fabs_f0 : fabs f0 = @f0 K.
Proof. now apply fabs_0. Qed.
Lemma fabs_sumr lo hi (f : nat -> K) : fle (fabs (sumr lo hi f)) (sumr lo hi (fun k => fabs (f k))) = true.
Proof.
  unfold sumr. induction (hi - lo)%nat; cbn.
  - rewrite fabs_f0. apply fle_refl.
  - eapply fle_trans; [apply fabs_add|]. apply fle_add. auto.
Qed.
Lemma sumr_le lo hi (f g : nat -> K) :
  (forall k, lo <= k < hi -> fle (f k) (g k) = true) -> fle (sumr lo hi f) (sumr lo hi g) = true.
Proof.
  intros H. apply fle_sub. rewrite <- sumr_sub. apply sumr_nonneg.
  intros. apply fle_sub. replace (g k - f k - f0) with (g k - f k) by ring.
  apply (proj1 (fle_sub _ _)). auto.
Qed.
Lemma sumr_nonneg_0 lo hi (f : nat -> K) : (forall k, lo <= k < hi -> fle f0 (f k) = true) ->
  sumr lo hi f = f0 -> forall k, lo <= k < hi -> f k = f0.
Proof.
  induction hi; intros P E k L. { lia. }
  rewrite sumr_S in E by lia.
  assert (N : fle f0 (sumr lo hi f) = true). { apply sumr_nonneg. intros; apply P; lia. }
  assert (N2 : fle f0 (f hi) = true). { apply P; lia. }
  destruct (fadd_0_nonneg _ _ N N2 E) as [A B].
  destruct (Nat.eq_dec k hi) as [->|]; auto. apply IHhi; auto; try lia. intros; apply P; lia.
Qed.

Lemma near_singular_not_well eps n (A : matrix) a : mat n n a A ->
  near_singular eps n A -> ~ well_conditioned eps n a.
Proof.
  intros M (i & y & I & Y1 & Y0 & R) (N & Inv & Nrm).
  assert (El : forall r c, r < n -> c < n -> el n a r c = A r c).
  { intros r c X Y. destruct M as [_ M]. unfold el. specialize (M r c X Y).
    apply nth_error_nth with (d := f0) in M. auto. }
  assert (Y : sumr 0 n (fun k => N i k * dot n A k y) = f1).
  { unfold dot.
    rewrite (sumr_ext 0 n _ (fun k => sumr 0 n (fun j => N i k * (A k j * y j)))).
    2:{ intros k Lk. now rewrite sumr_scale. }
    rewrite sumr_swap.
    rewrite (sumr_ext 0 n _ (fun j => (if i =? j then f1 else f0) * y j)).
    2:{ intros j Lj. rewrite <- Inv by lia. rewrite <- sumr_scale_r. apply sumr_ext.
        intros k Lk. rewrite El by lia. ring. }
    rewrite (sumr_one _ _ _ i) by (try lia; intros; bcases; ring).
    rewrite Nat.eqb_refl, Y1. ring. }
  (* 1 <= sum |N| |r| <= sum |N| eps <= 1 *)
  assert (S1 : fle f1 (sumr 0 n (fun k => fabs (N i k) * fabs (dot n A k y))) = true).
  { rewrite <- Y. eapply fle_trans; [apply fle_fabs|]. eapply fle_trans; [apply fabs_sumr|].
    rewrite (sumr_ext 0 n _ (fun k => fabs (N i k) * fabs (dot n A k y))). { apply fle_refl. }
    intros. apply fabs_mul. }
  assert (P : forall k, 0 <= k < n ->
            fle f0 (fabs (N i k) * (eps - fabs (dot n A k y))) = true).
  { intros k Lk. apply fle_mul. apply fabs_nonneg. apply (proj1 (fle_sub _ _)).
    apply (fltb_spec _ _). apply R; lia. }
  assert (E : sumr 0 n (fun k => fabs (N i k) * (eps - fabs (dot n A k y))) = f0).
  { apply fle_antisym; [|now apply sumr_nonneg].
    rewrite (sumr_ext 0 n _ (fun k => eps * fabs (N i k) - fabs (N i k) * fabs (dot n A k y)))
      by (intros; ring).
    rewrite sumr_sub, sumr_scale. apply fle_sub.
    replace (f0 - (eps * sumr 0 n (fun k => fabs (N i k)) -
                   sumr 0 n (fun k => fabs (N i k) * fabs (dot n A k y))))
      with (sumr 0 n (fun k => fabs (N i k) * fabs (dot n A k y)) -
            eps * sumr 0 n (fun k => fabs (N i k))) by ring.
    apply (proj1 (fle_sub _ _)). eapply fle_trans; [apply Nrm; auto|auto]. }
  assert (Z : forall k, 0 <= k < n -> N i k = f0).
  { intros k Lk. pose proof (sumr_nonneg_0 _ _ _ P E k Lk) as Q. cbn beta in Q.
    apply fmul_0 in Q as [Q|Q]. { now apply fabs_0. }
    exfalso. assert (L : fltb (fabs (dot n A k y)) eps = true) by (apply R; lia).
    apply fltb_spec in L as [_ L]. apply L.
    replace eps with (eps - fabs (dot n A k y) + fabs (dot n A k y)) by ring. rewrite Q. ring. }
  apply (@f1_neq_f0 K). rewrite <- Y. apply sumr_zero. intros k Lk. rewrite Z by lia. ring.
Qed.

(* ---------- equ_gauss ---------- *)

Lemma solv_proper n (A : matrix) y b b' : (forall r, r < n -> b r = b' r) ->
  solv n A y b -> solv n A y b'.
Proof. intros H S r R. rewrite <- H by auto. auto. Qed.

Definition gstate (eps : K) (n i : nat) (A0 : matrix) (b0 : nat -> K) (s : list K * list K) : Prop :=
  exists A b, mat n n (fst s) A /\ vec n (snd s) b /\ reached n i A0 A /\
    forall y, solv n A0 y b0 <-> solv n (zeroed i A) y b.

Lemma gauss_round_wp eps n i A0 b0 s : fltb f0 eps = true -> i < n -> gstate eps n i A0 b0 s ->
  wp (gauss_round eps n i s) (gstate eps n (i + 1) A0 b0)
     (fun e => e = RuntimeError /\ near_singular eps n A0).
Proof.
  intros Pe I (A & b & M & V & Re & Sol). destruct s as [a x]. cbn [fst snd] in *.
  unfold gauss_round.
  eapply wp_seq. { apply (pivot_wp n i a A eps _ M I (n - i) i f0). lia. }
  intros [j v] (Lj & Fj & St). destruct (Nat.eqb_spec j n) as [->|Nj].
  { cbn. split; auto. apply reached_stuck with i A; auto. }
  destruct Fj as [-> Big]. { lia. }
  apply wp_seq with (P := fun s => exists A' b', mat n n (fst s) A' /\ vec n (snd s) b' /\
     reached n i A0 A' /\ (forall y, solv n A0 y b0 <-> solv n (zeroed i A') y b') /\
     A' i i = A j i).
  - destruct (Nat.eqb_spec j i) as [->|Ni].
    + cbn. exists A, b. auto.
    + eapply wp_seq. { apply (swap_rows_wp n n a A i j); auto; lia. }
      intros a1 M1. eapply wp_seq. { apply (vswap_wp n x b i j); auto; lia. }
      intros x1 V1. cbn [wp fst snd]. exists (swaprows i j A), (swapv i j b).
      split; auto. split; auto. split. { apply reached_swap; auto; lia. }
      split. { intros y. rewrite Sol. symmetry. apply solv_swap; lia. }
      unfold swaprows. now rewrite Nat.eqb_refl.
  - intros [a1 x1] (A' & b' & M1 & V1 & Re1 & Sol1 & Piv). cbn [fst snd] in *.
    assert (N : A' i i <> f0). { rewrite Piv. now apply big_nz with eps. }
    eapply wp_mono. { apply (elim_loop_wp n i (A j i) a1 x1 A' b'); auto. }
    intros [a2 x2] (M2 & V2). cbn [fst snd] in *. exists (elim i A'), (elimv i A' b').
    rewrite Nat.add_1_r. split; auto. split; auto. split. { now apply reached_elim. }
    intros y. rewrite Sol1. symmetry. apply solv_elim; auto.
Qed.

Lemma upper_unique n (A : matrix) y z b : (forall r, r < n -> A r r <> f0) ->
  solv n (zeroed n A) y b -> solv n (zeroed n A) z b -> forall r, r < n -> y r = z r.
Proof.
  intros N Y Z. pose proof (proj2 (solv_upper n A y b N) Y) as HY.
  pose proof (proj2 (solv_upper n A z b N) Z) as HZ.
  assert (H : forall t r, n - t <= r < n -> y r = z r).
  { induction t; intros r R. { lia. }
    rewrite HY, HZ by lia. f_equal. f_equal. apply sumr_ext. intros k Lk. rewrite IHt; auto. lia. }
  intros r R. apply (H n). lia.
Qed.

Lemma equ_gauss_wp (eps : K) n (a b x : list K) : fltb f0 eps = true ->
  length a = (n * n)%nat -> length b = n -> length x = n ->
  wp (equ_gauss eps n a b x)
     (fun x' => solves n a x' b /\
        forall z, length z = n -> solves n a z b -> z = x')
     (fun e => e = RuntimeError /\ near_singular eps n (el n a)).
Proof.
  intros Pe La Lb Lx. unfold equ_gauss. destruct (Nat.eqb_spec n 0) as [->|Nn].
  { cbn. split; [split; auto; intros; lia|]. intros z Lz _. destruct x, z; auto; discriminate. }
  pose proof (mat_of n n a La) as M. pose proof (vec_of n b Lb) as V.
  eapply wp_seq.
  { apply wp_for with (P := fun i => gstate eps n i (el n a) (fun i => nth i b f0)).
    - lia.
    - exists (el n a), (fun i => nth i b f0). split; auto. split; auto.
      split. { apply reached_start. }
      intros y. apply solv_ext. intros. now rewrite zeroed_0.
    - intros i s Li G. apply gauss_round_wp; auto. lia. }
  intros [a1 x1] (A & b1 & M1 & V1 & [D _] & Sol). cbn [fst snd] in *.
  eapply wp_mono. { apply (gauss_back_wp n a1 x1 A b1); auto. }
  intros x2 (y & V2 & Y). pose proof (proj2 (Sol y) Y) as S0.
  assert (Ny : forall k, k < n -> nth k x2 f0 = y k).
  { intros k Lk. destruct V2 as [_ V2]. apply nth_error_nth. auto. }
  split.
  - split. { apply (proj1 V2). }
    intros i I. rewrite <- (S0 i I). unfold dot. apply sumr_ext. intros k Lk.
    rewrite Ny by lia. auto.
  - intros z Lz [_ Sz].
    assert (Z : solv n (zeroed n A) (fun k => nth k z f0) b1).
    { apply Sol. intros r R. apply Sz. auto. }
    apply nth_ext with f0 f0. { rewrite Lz. symmetry. apply (proj1 V2). }
    intros k Lk. rewrite Lz in Lk. rewrite Ny by auto.
    apply (upper_unique n A (fun k => nth k z f0) y b1); auto.
Qed.
End Proofs.

(* C38: for every order, matrix and right-hand side: no undefined behaviour and no
   division by zero; if the matrix is accepted the vector returned is the solution of
   A x = b, and the only one *)
Theorem C38_gauss_solves : forall (K : ofield) (eps : K) n a b x x', fltb f0 eps = true ->
  length a = n * n -> length b = n -> length x = n ->
  equ_gauss eps n a b x = Ok x' ->
  solves n a x' b /\ forall z, solves n a z b -> z = x'.
Proof.
  intros K eps n a b x x' Pe La Lb Lx E.
  pose proof (equ_gauss_wp eps n a b x Pe La Lb Lx) as H. rewrite E in H. cbn in H.
  destruct H as [H1 H2]. split; auto. intros z Z. apply H2; auto. apply (proj1 Z).
Qed.
Theorem C38_gauss_safe : forall (K : ofield) (eps : K) n a b x, fltb f0 eps = true ->
  length a = n * n -> length b = n -> length x = n ->
  (exists x', equ_gauss eps n a b x = Ok x') \/ equ_gauss eps n a b x = Throw RuntimeError.
Proof.
  intros K eps n a b x Pe La Lb Lx.
  pose proof (equ_gauss_wp eps n a b x Pe La Lb Lx) as H.
  destruct (equ_gauss eps n a b x); cbn in H; eauto.
  - destruct H as [-> _]. auto.
  - destruct H.
Qed.
(* a matrix that is rejected maps some vector with a component 1 to a vector with all
   components below the threshold; so a matrix whose inverse has row sums of at most
   1/DBL_EPSILON is accepted *)
Theorem C38_gauss_rejects : forall (K : ofield) (eps : K) n a b x e, fltb f0 eps = true ->
  length a = n * n -> length b = n -> length x = n ->
  equ_gauss eps n a b x = Throw e ->
  exists y : nat -> K, (exists i, i < n /\ y i = f1) /\
    forall r, r < n -> fltb (fabs (sumr 0 n (fun k => fmul (el n a r k) (y k)))) eps = true.
Proof.
  intros K eps n a b x e Pe La Lb Lx E.
  pose proof (equ_gauss_wp eps n a b x Pe La Lb Lx) as H. rewrite E in H. cbn in H.
  destruct H as (_ & i & y & I & Y1 & _ & R). exists y. split; eauto.
Qed.
Theorem C38_gauss_accepts : forall (K : ofield) (eps : K) n a b x, fltb f0 eps = true ->
  length a = n * n -> length b = n -> length x = n ->
  well_conditioned eps n a -> exists x', equ_gauss eps n a b x = Ok x' /\ solves n a x' b.
Proof.
  intros K eps n a b x Pe La Lb Lx W.
  pose proof (equ_gauss_wp eps n a b x Pe La Lb Lx) as H.
  destruct (equ_gauss eps n a b x); cbn in H.
  - exists a0. tauto.
  - exfalso. destruct H as [_ H].
    apply (near_singular_not_well eps n (el n a) a); auto. now apply mat_of.
  - destruct H.
Qed.

(* ---------- inv_mul_gauss ---------- *)

(* every leading minor is, up to the threshold, large next to the one before it: then
   the elements on the diagonal serve as pivots and no rows are exchanged *)
Definition leading {K : ofield} (eps : K) (n : nat) (A : nat -> nat -> K) : Prop :=
  forall k, k < n -> fle (fmul eps (fabs (det k A))) (fabs (det (S k) A)) = true.

Section Img.
Context {K : ofield}.
Local Open Scope lin_scope.
Add Field Kf5 : (f_th K).
Notation matrix := (nat -> nat -> K).

Definition istate (eps : K) (n m i : nat) (A0 B0 : matrix) (s : list K * list K * K) : Prop :=
  exists A B, mat n n (fst (fst s)) A /\ mat n m (snd (fst s)) B /\ reached n i A0 A /\
    (forall c y, c < m -> solv n A0 y (fun r => B0 r c) <-> solv n (zeroed i A) y (fun r => B r c)) /\
    (exists p, det n A0 = sgn p * det n (zeroed i A)) /\
    snd s = prodr i (fun r => A r r) /\
    (leading eps n A0 -> forall k, k <= n -> det k A0 = det k (zeroed i A)).

Lemma fle_mul_cancel (a x y : K) : fltb f0 a = true -> fle (x * a) (y * a) = true -> fle x y = true.
Proof.
  intros P L. destruct (fle x y) eqn:F; auto. exfalso.
  assert (G : fle y x = true). { destruct (fle_total K x y); congruence. }
  apply fltb_spec in P as [P N]. apply fle_sub in G.
  pose proof (fle_mul K _ _ G P) as H. replace ((x - y) * a) with (x * a - y * a) in H by ring.
  assert (E : x * a = y * a). { apply fle_antisym; auto. now apply fle_sub. }
  assert (x = y).
  { replace x with (x * a / a) by (field; auto). rewrite E. field; auto. }
  subst. rewrite fle_refl in F. discriminate.
Qed.
Lemma fabs_pos (x : K) : x <> f0 -> fltb f0 (fabs x) = true.
Proof.
  intros N. apply fltb_spec. split. apply fabs_nonneg. intros E. apply N. apply fabs_0. auto.
Qed.

Lemma img_round_wp eps n m i A0 B0 s : fltb f0 eps = true -> i < n -> istate eps n m i A0 B0 s ->
  wp (img_round eps n m i s) (istate eps n m (i + 1) A0 B0)
     (fun e => e = RuntimeError /\ near_singular eps n A0).
Proof.
  intros Pe I (A & B & M & V & Re & Sol & (p & Det) & Ed & Lead).
  destruct s as [[a b] d]. cbn [fst snd] in *. unfold img_round.
  eapply wp_seq. { apply (pivot_wp n i a A eps _ M I (n - i) i f0). lia. }
  intros [j v] (Lj & Fj & St). destruct (Nat.eqb_spec j n) as [->|Nj].
  { cbn. split; auto. apply reached_stuck with i A; auto. }
  destruct Fj as [-> Big]. { lia. }
  apply wp_seq with (P := fun s => exists A' B', mat n n (fst s) A' /\ mat n m (snd s) B' /\
     reached n i A0 A' /\
     (forall c y, c < m -> solv n A0 y (fun r => B0 r c) <-> solv n (zeroed i A') y (fun r => B' r c)) /\
     (exists p, det n A0 = sgn p * det n (zeroed i A')) /\
     d = prodr i (fun r => A' r r) /\
     (leading eps n A0 -> forall k, k <= n -> det k A0 = det k (zeroed i A')) /\
     A' i i = A j i).
  - destruct (Nat.eqb_spec j i) as [->|Ni].
    + cbn. exists A, B. repeat (split; auto). eauto.
    + eapply wp_seq. { apply (swap_rows_wp n n a A i j); auto; lia. }
      intros a1 M1. eapply wp_seq. { apply (swap_rows_wp n m b B i j); auto; lia. }
      intros x1 V1. cbn [wp fst snd]. exists (swaprows i j A), (swaprows i j B).
      split; auto. split; auto. split. { apply reached_swap; auto; lia. }
      split. { intros c y C. rewrite Sol by auto. symmetry.
               apply (solv_swap n i j A y (fun r => B r c)); lia. }
      split. { exists (S p). rewrite det_zeroed_swap, Det by lia. cbn [sgn]. ring. }
      split. { rewrite Ed. apply prodr_ext. intros r R. unfold swaprows. bcases. auto. }
      split.
      * (* with large leading minors there is no exchange *)
        intros Ld. exfalso.
        assert (Nz : prodr i (fun r => A r r) <> f0). { apply prodr_nz. apply (re_diag _ _ _ _ Re). }
        pose proof (Ld i I) as H. rewrite !(Lead Ld), !det_zeroed_lead in H by lia.
        cbn [prodr] in H. rewrite fabs_mul in H.
        assert (Q : fle eps (fabs (A i i)) = true).
        { apply (fle_mul_cancel (fabs (prodr i (fun r => A r r)))). { now apply fabs_pos. }
          now replace (fabs (A i i) * fabs (prodr i (fun r => A r r)))
            with (fabs (prodr i (fun r => A r r)) * fabs (A i i)) by ring. }
        rewrite St in Q by lia. discriminate.
      * unfold swaprows. now rewrite Nat.eqb_refl.
  - intros [a1 b1] (A' & B' & M1 & V1 & Re1 & Sol1 & (p1 & Det1) & Ed1 & Lead1 & Piv).
    cbn [fst snd] in *.
    assert (N : A' i i <> f0). { rewrite Piv. now apply big_nz with eps. }
    eapply wp_seq. { apply (elim_loop_m_wp n m i (A j i) a1 b1 A' B'); auto. }
    intros [a2 b2] (M2 & V2). cbn [fst snd wp] in *.
    exists (elim i A'), (fun r c => elimv i A' (fun r => B' r c) r). cbn [fst snd].
    rewrite Nat.add_1_r. split; auto. split; auto. split. { now apply reached_elim. }
    split. { intros c y C. rewrite Sol1 by auto. symmetry. apply solv_elim; auto. }
    split. { exists p1. now rewrite det_elim. }
    split.
    { cbn [prodr]. rewrite Ed1, <- Piv. unfold elim at 2. bcases. f_equal.
      apply prodr_ext. intros r R. unfold elim. bcases. auto. }
    intros Ld k Lk. rewrite det_elim by auto. now apply Lead1.
Qed.

Lemma sgn_cases p : @sgn K p = f1 \/ @sgn K p = - f1.
Proof.
  induction p as [|p [IH|IH]]; cbn; auto; rewrite IH; auto. left. ring.
Qed.

Lemma img_wp (eps : K) n m (a b : list K) : fltb f0 eps = true ->
  length a = (n * n)%nat -> length b = (n * m)%nat ->
  wp (inv_mul_gauss eps n m a b)
     (fun '(x, d) => solves_all n m a x b /\ d <> f0 /\
        (det n (el n a) = d \/ det n (el n a) = - d) /\
        (leading eps n (el n a) -> d = det n (el n a)))
     (fun e => e = RuntimeError /\ near_singular eps n (el n a)).
Proof.
  intros Pe La Lb. unfold inv_mul_gauss.
  pose proof (mat_of n n a La) as M. pose proof (mat_of n m b Lb) as V.
  eapply wp_seq.
  { apply wp_for with (P := fun i => istate eps n m i (el n a) (el m b)).
    - lia.
    - exists (el n a), (el m b). split; auto. split; auto.
      split. { apply reached_start. }
      assert (Z : forall k, det k (el n a) = det k (zeroed 0 (el n a))).
      { intros k. apply det_ext. intros. now rewrite zeroed_0. }
      split. { intros c y C. apply solv_ext. intros. now rewrite zeroed_0. }
      split. { exists O. cbn [sgn]. transitivity (det n (zeroed 0 (el n a))); [apply Z|ring]. }
      split; auto.
    - intros i s Li G. apply img_round_wp; auto. lia. }
  intros [[a1 b1] d] (A & B & M1 & V1 & Re & Sol & (p & Det) & Ed & Lead). cbn [fst snd] in *.
  pose proof (re_diag _ _ _ _ Re) as D.
  eapply wp_seq. { apply (img_back_wp n m a1 b1 A B); auto. }
  intros x (Y & V2 & HY). cbn [wp].
  assert (Ez : det n (zeroed n A) = d). { rewrite Ed. apply det_zeroed_lead. lia. }
  split; [|split; [|split]].
  - split. { apply (proj1 V2). }
    intros i c I C. rewrite <- (proj2 (Sol c _ C) (HY c C) i I). unfold dot.
    apply sumr_ext. intros k Lk. f_equal.
    apply (mat_fun n m x); auto; try lia. apply mat_of. apply (proj1 V2).
  - rewrite Ed. now apply prodr_nz.
  - rewrite Det, Ez. destruct (sgn_cases p) as [-> | ->]; [left|right]; ring.
  - intros Ld. rewrite (Lead Ld) by auto. auto.
Qed.
End Img.

(* the same for m right-hand sides *)
Theorem C38_img_solves : forall (K : ofield) (eps : K) n m a b x d, fltb f0 eps = true ->
  length a = n * n -> length b = n * m ->
  inv_mul_gauss eps n m a b = Ok (x, d) -> solves_all n m a x b.
Proof.
  intros K eps n m a b x d Pe La Lb E.
  pose proof (img_wp eps n m a b Pe La Lb) as H. rewrite E in H. apply H.
Qed.
Theorem C38_img_safe : forall (K : ofield) (eps : K) n m a b, fltb f0 eps = true ->
  length a = n * n -> length b = n * m ->
  (exists r, inv_mul_gauss eps n m a b = Ok r) \/ inv_mul_gauss eps n m a b = Throw RuntimeError.
Proof.
  intros K eps n m a b Pe La Lb.
  pose proof (img_wp eps n m a b Pe La Lb) as H.
  destruct (inv_mul_gauss eps n m a b); cbn in H; eauto.
  - destruct H as [-> _]. auto.
  - destruct H.
Qed.
Theorem C38_img_accepts : forall (K : ofield) (eps : K) n m a b, fltb f0 eps = true ->
  length a = n * n -> length b = n * m ->
  well_conditioned eps n a -> exists r, inv_mul_gauss eps n m a b = Ok r.
Proof.
  intros K eps n m a b Pe La Lb W.
  pose proof (img_wp eps n m a b Pe La Lb) as H.
  destruct (inv_mul_gauss eps n m a b); cbn in H; eauto.
  - exfalso. destruct H as [_ H].
    apply (near_singular_not_well eps n (el n a) a); auto. now apply mat_of.
  - destruct H.
Qed.

(* C39, what does hold: the value returned is the determinant up to its sign, it is not
   zero, and it is the determinant if the leading minors are such that no rows have to
   be exchanged.  Missing: the sign after an odd number of exchanges (see below). *)
Theorem C39_img_det_partial : forall (K : ofield) (eps : K) n m a b x d, fltb f0 eps = true ->
  length a = n * n -> length b = n * m ->
  inv_mul_gauss eps n m a b = Ok (x, d) ->
  d <> f0 /\ (det n (el n a) = d \/ det n (el n a) = fopp d) /\
  (leading eps n (el n a) -> d = det n (el n a)).
Proof.
  intros K eps n m a b x d Pe La Lb E.
  pose proof (img_wp eps n m a b Pe La Lb) as H. rewrite E in H. apply H.
Qed.

(* ---------- cases over the rationals ---------- *)

Definition dbl_eps : QcF := Q2Qc (1 # (2 ^ 52)).
Definition nums (l : list Z) : list QcF := map qz l.
Definition same {K : ofield} (o : outcome (list K)) (l : list K) : bool :=
  match o with
  | Ok r => (length r =? length l) && forallb (fun p => feqb (fst p) (snd p)) (combine r l)
  | _ => false
  end.
Example dbl_eps_pos : fltb f0 dbl_eps = true.
Proof. vm_compute. reflexivity. Qed.

(* 3 equations that need an exchange of rows: x = (1, 2, 3) *)
Example gauss_run : same (equ_gauss dbl_eps 3 (nums [0; 2; 1;  1; 1; 1;  2; 0; 5]%Z)
   (nums [7; 6; 17]%Z) (nums [0; 0; 0]%Z)) (nums [1; 2; 3]%Z) = true.
Proof. vm_compute. reflexivity. Qed.
(* a singular matrix, and a matrix that is not singular but below the threshold *)
Example gauss_singular : equ_gauss dbl_eps 2 (nums [1; 2; 2; 4]%Z) (nums [1; 1]%Z) (nums [0; 0]%Z)
  = Throw RuntimeError.
Proof. vm_compute. reflexivity. Qed.
Theorem C38_gauss_threshold_refuted : exists n (a b x : list QcF),
  length a = n * n /\ length b = n /\ length x = n /\ det n (el n a) <> f0 /\
  equ_gauss dbl_eps n a b x = Throw RuntimeError.
Proof.
  exists 1, [Q2Qc (1 # (2 ^ 53))], [qz 1], [qz 0]. split; [|split; [|split; [|split]]]; auto.
  - intros C. apply (f_equal this) in C. vm_compute in C. discriminate.
Qed.
(* the hypotheses of C38_gauss_accepts hold for a matrix that needs an exchange of rows *)
Example gauss_run_conditioned : well_conditioned dbl_eps 2 (nums [0; 1; 1; 0]%Z).
Proof.
  exists (fun i j => if i =? j then f0 else f1). split.
  - intros i j I J. destruct i as [|[|]], j as [|[|]]; try lia; vm_compute; reflexivity.
  - intros i I. destruct i as [|[|]]; try lia; vm_compute; reflexivity.
Qed.
(* hypotheses of the last clause of C39_img_det_partial *)
Example leading_case : leading dbl_eps 2 (el 2 (nums [2; 1; 1; 3]%Z)).
Proof. intros k Lk. destruct k as [|[|]]; try lia; vm_compute; reflexivity. Qed.

(* C39 is false: one exchange of rows and the sign is lost; [[0,1],[1,0]] has the
   determinant -1, the function returns 1 *)
Theorem C39_img_det_refuted : exists n m (a b x : list QcF) d,
  length a = n * n /\ length b = n * m /\
  inv_mul_gauss dbl_eps n m a b = Ok (x, d) /\ d <> det n (el n a).
Proof.
  exists 2, 1, (nums [0; 1; 1; 0]%Z), (nums [1; 2]%Z).
  destruct (inv_mul_gauss dbl_eps 2 1 (nums [0; 1; 1; 0]%Z) (nums [1; 2]%Z)) as [[x d]| |] eqn:E;
    try (vm_compute in E; discriminate).
  exists x, d. split; auto. split; auto. split; auto.
  assert (D : feqb d (qz 1) = true).
  { change d with (snd (x, d)).
    replace (feqb (snd (x, d)) (qz 1)) with
      (match inv_mul_gauss dbl_eps 2 1 (nums [0; 1; 1; 0]%Z) (nums [1; 2]%Z) with
       | Ok r => feqb (snd r) (qz 1) | _ => false end) by now rewrite E.
    vm_compute. reflexivity. }
  destruct (feqb_spec d (qz 1)) as [->|]; [|discriminate].
  intros C. assert (F : feqb (qz 1) (det 2 (el 2 (nums [0; 1; 1; 0]%Z))) = false)
    by (vm_compute; reflexivity).
  rewrite <- C in F. destruct (feqb_spec (qz 1) (qz 1)); [discriminate|tauto].
Qed.

Print Assumptions C38_gauss_solves.
Print Assumptions C38_gauss_safe.
Print Assumptions C38_gauss_rejects.
Print Assumptions C38_gauss_accepts.
Print Assumptions C38_img_solves.
Print Assumptions C38_img_safe.
Print Assumptions C38_img_accepts.
Print Assumptions C39_img_det_partial.
Print Assumptions C39_img_det_refuted.
Print Assumptions C38_gauss_threshold_refuted.
