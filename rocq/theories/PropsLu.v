(* LU decomposition, solution, inverse and determinant (C40). *)
From Coq Require Import List ZArith Lia Bool Arith Field QArith Qcanon.
From Verif Require Import Base LinBase LinDet GaussModel GaussProofs PropsGauss LuModel LuProofs.
Import ListNotations.
Local Close Scope Qc_scope.
Local Close Scope Q_scope.
Local Open Scope nat_scope.

(* ---------- specification (solves, solves_all, el are in PropsGauss) ---------- *)

(* every row has an element that is not below the threshold *)
Definition rows_above {K : ofield} (eps : K) (n : nat) (a : list K) : Prop :=
  forall r, r < n -> exists c, c < n /\ fle eps (fabs (el n a r c)) = true.
(* A y = 0 only for y = 0 *)
Definition regular {K : ofield} (n : nat) (a : list K) : Prop :=
  forall y : nat -> K, (forall r, r < n -> sumr 0 n (fun k => fmul (el n a r k) (y k)) = f0) ->
    forall i, i < n -> y i = f0.
Definition is_inverse {K : ofield} (n : nat) (a x : list K) : Prop :=
  length x = n * n /\
  (forall i j, i < n -> j < n ->
     sumr 0 n (fun k => fmul (el n a i k) (el n x k j)) = if i =? j then f1 else f0) /\
  (forall i j, i < n -> j < n ->
     sumr 0 n (fun k => fmul (el n x i k) (el n a k j)) = if i =? j then f1 else f0).

Section Proofs.
Context {K : ofield}.
Local Open Scope lin_scope.
Add Field Kf7 : (f_th K).
Notation matrix := (nat -> nat -> K).

Definition lu_fails (eps : K) (n : nat) (a : list K) (e : exn) : Prop :=
  e = RuntimeError /\ ~ (rows_above eps n a /\ regular n a).

Lemma fails_spec (eps : K) n a e :
  (e = RuntimeError /\
    ((exists r, r < n /\ forall c, c < n -> fltb (fabs (el n a r c)) eps = true) \/
     has_kernel n (el n a))) -> lu_fails eps n a e.
Proof.
  intros [-> H]. split; auto. intros [R G]. destruct H as [(r & Lr & H)|(y & (i & Li & N) & Z)].
  - destruct (R r Lr) as (c & Lc & X). specialize (H c Lc). unfold fltb in H.
    rewrite X in H. discriminate.
  - apply N. apply G; auto.
Qed.

Lemma mat_el n m (l : list K) A : mat n m l A -> forall i j, i < n -> j < m -> el m l i j = A i j.
Proof. intros [_ M] i j I J. unfold el. apply nth_error_nth. auto. Qed.

(* B has m columns, of which those before c have been solved *)
Lemma columns_wp n m a ix b (A0 A B : matrix) q E : mat n n a A -> pvec n n ix q -> mat n m b B ->
  lufact n A0 A q ->
  wp (for_up 0 m (fun i b => bksub_lu n a ix b m i) b)
     (fun x => exists Y, mat n m x Y /\
        forall c, c < m -> solv n A0 (fun r => Y r c) (fun r => B r c)) E.
Proof.
  intros M Px Mb Fa.
  eapply wp_mono; [apply wp_for with
    (P := fun t x => exists Y, mat n m x Y /\ (forall r c, r < n -> t <= c < m -> Y r c = B r c) /\
        forall c, c < t -> solv n A0 (fun r => Y r c) (fun r => B r c)) | cbn beta].
  - lia.
  - exists B. split; auto. split; auto. intros; lia.
  - intros t x Lt (Y & MY & Rest & Done).
    eapply wp_mono. { apply (bksub_lu_wp n m t a ix x A0 A Y q); auto. lia. }
    intros x' (y & Mx & S). exists (setcol t y Y). split; auto. split.
    + intros r c R C. unfold setcol. bcases. apply Rest; lia.
    + intros c C r R. destruct (Nat.eq_dec c t) as [->|N].
      * rewrite <- (Rest r t) by lia. rewrite <- S by auto. unfold dot. apply sumr_ext.
        intros k Lk. now rewrite setcol_eq.
      * rewrite <- (Done c) by (auto; lia). unfold dot. apply sumr_ext.
        intros k Lk. unfold setcol. bcases. auto.
  - intros x (Y & MY & _ & Done). eauto.
Qed.

Lemma solves_of n (a x b : list K) y : length b = n -> vec n x y ->
  solv n (el n a) y (fun i => nth i b f0) -> solves n a x b.
Proof.
  intros Lb V S. split. { apply (proj1 V). }
  intros i I. rewrite <- (S i I). unfold dot. apply sumr_ext. intros k Lk.
  f_equal. destruct V as [_ V]. apply nth_error_nth. apply V. lia.
Qed.

Lemma equ_lu_wp (eps : K) n (A b x wk r0 : list K) ix d : fltb f0 eps = true ->
  length A = (n * n)%nat -> length b = n -> length x = n -> length ix = n -> length wk = n ->
  length r0 = n ->
  wp (equ_lu eps n A b x ix d wk r0)
     (fun x' => solves n A x' b /\ forall z, solves n A z b -> z = x')
     (lu_fails eps n A).
Proof.
  intros Pe LA Lb Lx Li Lw Lr. unfold equ_lu. destruct (Nat.eqb_spec n 0) as [->|Nn].
  { cbn. split; [split; auto; intros; lia|]. intros z [Lz _]. destruct x, z; auto; discriminate. }
  pose proof (mat_of n n A LA) as M. pose proof (vec_of n b Lb) as V.
  eapply wp_seq.
  { eapply wp_conseq. apply (decmp_lu_wp eps n A ix d wk (el n A)); auto.
    intros r H; exact H. intros e H. now apply fails_spec. }
  intros [[a1 ix1] d1] (LU & q & M1 & P1 & Fa & _).
  assert (Vb : mat n 1 b (fun i _ => nth i b f0)) by now apply vec_mat.
  eapply wp_seq. { apply (bksub_lu_wp n 1 0 a1 ix1 b (el n A) LU (fun i _ => nth i b f0) q); auto. }
  intros x1 (y & Mx & S1). cbn beta in *.
  assert (Vx : vec n x1 y).
  { apply vec_mat. eapply mat_ext; eauto. intros i j I J. replace j with O by lia. apply setcol_eq. }
  (* the residual is zero *)
  apply wp_seq with (P := fun r => vec n r (fun _ => f0)).
  { eapply wp_mono; [apply wp_for with
      (P := fun i r => vec n r (fun k => if k <? i then f0 else nth k r0 f0)) | cbn beta].
    - lia.
    - eapply vec_ext. { apply vec_of. auto. } intros. bcases. auto.
    - intros i r Lri Vr. apply wp_bind. eapply wp_vget; eauto; try lia.
      apply wp_bind. eapply wp_vset; eauto; try lia. intros r1 V1.
      eapply wp_mono; [apply wp_for with
        (P := fun j r => vec n r (fun k => if k <? i then f0 else if k =? i then
            - nth i b f0 + sumr 0 j (fun k => el n A i k * y k) else nth k r0 f0)) | cbn beta].
      + lia.
      + eapply vec_ext; eauto. intros k Lk. unfold updv. bcases; auto.
        rewrite sumr_nil by lia. ring.
      + intros j r2 Lj V2. apply wp_bind. eapply wp_vget; eauto; try lia.
        apply wp_bind. eapply wp_mget; eauto; try lia.
        apply wp_bind. eapply wp_vget; eauto; try lia.
        eapply wp_vset; eauto; try lia. intros r3 V3. eapply vec_ext; eauto.
        intros k Lk. unfold updv. bcases; auto.
        rewrite Nat.add_1_r, sumr_S by lia. unfold el. ring.
      + intros r2 V2. eapply vec_ext; eauto. intros k Lk. bcases; auto.
        subst k. specialize (S1 i). unfold dot in S1. rewrite S1 by lia. cbn beta. ring.
    - intros r Vr. eapply vec_ext; eauto. intros; cbn beta; bcases; auto. }
  intros r Vr.
  assert (Mr : mat n 1 r (fun _ _ => f0)) by now apply vec_mat.
  eapply wp_seq. { apply (bksub_lu_wp n 1 0 a1 ix1 r (el n A) LU (fun _ _ => f0) q); auto. }
  intros r1 (z & Mz & S2). cbn beta in *.
  assert (Vz : vec n r1 z).
  { apply vec_mat. eapply mat_ext; eauto. intros i j I J. replace j with O by lia. apply setcol_eq. }
  eapply wp_mono; [apply wp_for with
    (P := fun i x => vec n x (fun k => if k <? i then y k - z k else y k)) | cbn beta].
  - lia.
  - eapply vec_ext; eauto; intros; bcases; auto.
  - intros i x2 Lx2 V2. apply wp_bind. eapply wp_vget; eauto; try lia.
    apply wp_bind. eapply wp_vget; eauto; try lia.
    eapply wp_vset; eauto; try lia. intros x3 V3. eapply vec_ext; eauto.
    intros k Lk. unfold updv. bcases; subst; auto.
  - intros x2 V2.
    assert (S : solv n (el n A) (fun k => y k - z k) (fun i => nth i b f0)).
    { intros i I. unfold dot.
      rewrite (sumr_ext 0 n _ (fun k => el n A i k * y k - el n A i k * z k)) by (intros; ring).
      rewrite sumr_sub. pose proof (S1 i I) as X1. pose proof (S2 i I) as X2. unfold dot in X1, X2.
      rewrite X1, X2. cbn beta. ring. }
    assert (V3 : vec n x2 (fun k => y k - z k)).
    { eapply vec_ext; eauto. intros. bcases. auto. }
    split. { eapply solves_of; eauto. }
    intros w [Lw' Sw]. apply nth_ext with f0 f0. { rewrite Lw'. symmetry. apply (proj1 V3). }
    intros k Lk. rewrite Lw' in Lk. rewrite (nth_error_nth x2 k f0 (proj2 V3 k Lk)).
    apply (lufact_unique n (el n A) LU q (fun k => nth k w f0) (fun k => y k - z k)
             (fun i => nth i b f0)); auto.
Qed.

Lemma inv_mul_lu_wp (eps : K) n m (a b wk : list K) ix d : fltb f0 eps = true ->
  length a = (n * n)%nat -> length b = (n * m)%nat -> length ix = n -> length wk = n ->
  wp (inv_mul_lu eps n m a b ix d wk)
     (fun '(x, dt) => solves_all n m a x b /\ (n <> 0 -> dt = det n (el n a)))
     (lu_fails eps n a).
Proof.
  intros Pe La Lb Li Lw. unfold inv_mul_lu. destruct (Nat.eqb_spec n 0) as [->|Nn].
  { cbn [wp]. split; [split; auto; intros; lia|]. tauto. }
  pose proof (mat_of n n a La) as M. pose proof (mat_of n m b Lb) as V.
  eapply wp_seq.
  { eapply wp_conseq. apply (decmp_lu_wp eps n a ix d wk (el n a)); auto.
    intros r H; exact H. intros e H. now apply fails_spec. }
  intros [[a1 ix1] d1] (LU & q & M1 & P1 & Fa & Det).
  apply wp_seq with (P := fun dt => dt = det n (el n a)).
  { rewrite Det.
    apply wp_for with (P := fun i dt => dt = of_int d1 * prodr i (fun r => LU r r)).
    - lia.
    - cbn [prodr]. ring.
    - intros i dt Ld ->. apply wp_bind. eapply wp_mget; eauto; try lia. cbn [wp].
      rewrite Nat.add_1_r. cbn [prodr]. ring. }
  intros dt ->.
  eapply wp_seq. { apply (columns_wp n m a1 ix1 b (el n a) LU (el m b) q); auto. }
  intros x (Y & MY & S). cbn [wp]. split; auto. split. { apply (proj1 MY). }
  intros i c I C. pose proof (S c C i I) as X. unfold dot in X.
  rewrite <- X. apply sumr_ext. intros k Lk. f_equal. apply (mat_el n m); auto. lia.
Qed.

Lemma inv_lu_wp (eps : K) n (A wk : list K) ix d : fltb f0 eps = true ->
  length A = (n * n)%nat -> length ix = n -> length wk = n ->
  wp (inv_lu eps n A ix d wk) (fun x => is_inverse n A x) (lu_fails eps n A).
Proof.
  intros Pe LA Li Lw. unfold inv_lu. destruct (Nat.eqb_spec n 0) as [->|Nn].
  { cbn [wp]. split; auto. split; intros; lia. }
  pose proof (mat_of n n A LA) as M.
  apply wp_seq with (P := fun x => mat n n x (fun i j => if i =? j then f1 else f0)).
  { eapply wp_mono; [apply wp_for with
      (P := fun t x => mat n n x (fun i j => if (i =? j) && (i <? t) then f1 else f0)) | cbn beta].
    - lia.
    - split. { now rewrite repeat_length. }
      intros i j I J. replace ((i =? j) && (i <? 0)) with false by bcases.
      pose proof (idx_lt n n i j I J). now apply nth_error_repeat.
    - intros t x Lt Mx. eapply wp_mset; eauto; try lia. intros x' Mx'. eapply mat_ext; eauto.
      intros i j I J. unfold updm. bcases; auto.
    - intros x Mx. eapply mat_ext; eauto; intros; bcases; auto. }
  intros x0 M0.
  eapply wp_seq.
  { eapply wp_conseq. apply (decmp_lu_wp eps n A ix d wk (el n A)); auto.
    intros r H; exact H. intros e H. now apply fails_spec. }
  intros [[a1 ix1] d1] (LU & q & M1 & P1 & Fa & _).
  eapply wp_mono. { apply (columns_wp n n a1 ix1 x0 (el n A) LU (fun i j => if i =? j then f1 else f0) q); auto. }
  intros x (Y & MY & S).
  assert (R : forall i j, i < n -> j < n ->
     sumr 0 n (fun k => el n A i k * Y k j) = if i =? j then f1 else f0).
  { intros i j I J. apply (S j J i I). }
  split. { apply (proj1 MY). } split.
  - intros i j I J. rewrite <- R by auto. apply sumr_ext. intros k Lk. f_equal.
    apply (mat_el n n); auto. lia.
  - (* A (X A) = A, so X A = I *)
    intros i j I J.
    rewrite (sumr_ext 0 n _ (fun k => Y i k * el n A k j)).
    2:{ intros k Lk. f_equal. apply (mat_el n n); auto. lia. }
    apply (lufact_unique n (el n A) LU q (fun i => sumr 0 n (fun k => Y i k * el n A k j))
             (fun i => if i =? j then f1 else f0) (fun i => el n A i j)); auto.
    + intros r Rr. unfold dot.
      rewrite (sumr_ext 0 n _ (fun k => sumr 0 n (fun l => el n A r k * Y k l * el n A l j))).
      2:{ intros k Lk. rewrite <- sumr_scale. apply sumr_ext. intros; ring. }
      rewrite sumr_swap.
      rewrite (sumr_ext 0 n _ (fun l => (if r =? l then f1 else f0) * el n A l j)).
      2:{ intros l Ll. rewrite sumr_scale_r, R by lia. auto. }
      rewrite (sumr_one _ _ _ r) by (try lia; intros; bcases; ring).
      rewrite Nat.eqb_refl. ring.
    + intros r Rr. unfold dot. rewrite (sumr_one _ _ _ j) by (try lia; intros; bcases; ring).
      rewrite Nat.eqb_refl. ring.
Qed.

Lemma reg_fst (x y : K) : f0 + f1 * x + f0 * y = f0 -> x = f0.
Proof. intros <-. ring. Qed.
Lemma reg_snd (x y : K) : f0 + f0 * x + f1 * y = f0 -> y = f0.
Proof. intros <-. ring. Qed.
End Proofs.

(* C40: for every order, matrix and right-hand side, whatever the contents of the fresh
   memory: an accepted system is solved, and its solution is the only one *)
Theorem C40_lu_solves : forall (K : ofield) (eps : K) n A b x ix d wk r0 x',
  fltb f0 eps = true -> length A = n * n -> length b = n -> length x = n ->
  length ix = n -> length wk = n -> length r0 = n ->
  equ_lu eps n A b x ix d wk r0 = Ok x' ->
  solves n A x' b /\ forall z, solves n A z b -> z = x'.
Proof.
  intros K eps n A b x ix d wk r0 x' Pe LA Lb Lx Li Lw Lr E.
  pose proof (equ_lu_wp eps n A b x wk r0 ix d Pe LA Lb Lx Li Lw Lr) as H.
  rewrite E in H. exact H.
Qed.
(* no undefined behaviour, and a regular matrix without rows below the threshold is
   accepted *)
Theorem C40_lu_accepts : forall (K : ofield) (eps : K) n A b x ix d wk r0,
  fltb f0 eps = true -> length A = n * n -> length b = n -> length x = n ->
  length ix = n -> length wk = n -> length r0 = n ->
  (exists x', equ_lu eps n A b x ix d wk r0 = Ok x') \/
  (equ_lu eps n A b x ix d wk r0 = Throw RuntimeError /\ ~ (rows_above eps n A /\ regular n A)).
Proof.
  intros K eps n A b x ix d wk r0 Pe LA Lb Lx Li Lw Lr.
  pose proof (equ_lu_wp eps n A b x wk r0 ix d Pe LA Lb Lx Li Lw Lr) as H.
  destruct (equ_lu eps n A b x ix d wk r0); cbn in H; eauto.
  - destruct H as [-> H]. auto.
  - destruct H.
Qed.
(* m right-hand sides and the determinant, with its sign *)
Theorem C40_lu_mul : forall (K : ofield) (eps : K) n m a b ix d wk x dt,
  fltb f0 eps = true -> length a = n * n -> length b = n * m -> length ix = n -> length wk = n ->
  inv_mul_lu eps n m a b ix d wk = Ok (x, dt) ->
  solves_all n m a x b /\ (n <> 0 -> dt = det n (el n a)).
Proof.
  intros K eps n m a b ix d wk x dt Pe La Lb Li Lw E.
  pose proof (inv_mul_lu_wp eps n m a b wk ix d Pe La Lb Li Lw) as H. rewrite E in H. exact H.
Qed.
Theorem C40_lu_mul_accepts : forall (K : ofield) (eps : K) n m a b ix d wk,
  fltb f0 eps = true -> length a = n * n -> length b = n * m -> length ix = n -> length wk = n ->
  (exists r, inv_mul_lu eps n m a b ix d wk = Ok r) \/
  (inv_mul_lu eps n m a b ix d wk = Throw RuntimeError /\ ~ (rows_above eps n a /\ regular n a)).
Proof.
  intros K eps n m a b ix d wk Pe La Lb Li Lw.
  pose proof (inv_mul_lu_wp eps n m a b wk ix d Pe La Lb Li Lw) as H.
  destruct (inv_mul_lu eps n m a b ix d wk); cbn in H; eauto.
  - destruct H as [-> H]. auto.
  - destruct H.
Qed.
(* the determinant of the empty matrix is 1, the code returns 0 *)
Theorem C40_lu_empty_refuted : forall (K : ofield) (eps : K) ix d wk,
  inv_mul_lu eps 0 0 [] [] ix d wk = Ok ([], f0) /\ det 0 (el 0 (@nil K)) <> f0.
Proof. intros. split; auto. apply f1_neq_f0. Qed.
(* the inverse, from both sides *)
Theorem C40_lu_inverse : forall (K : ofield) (eps : K) n A ix d wk x,
  fltb f0 eps = true -> length A = n * n -> length ix = n -> length wk = n ->
  inv_lu eps n A ix d wk = Ok x -> is_inverse n A x.
Proof.
  intros K eps n A ix d wk x Pe LA Li Lw E.
  pose proof (inv_lu_wp eps n A wk ix d Pe LA Li Lw) as H. rewrite E in H. exact H.
Qed.
Theorem C40_lu_inverse_accepts : forall (K : ofield) (eps : K) n A ix d wk,
  fltb f0 eps = true -> length A = n * n -> length ix = n -> length wk = n ->
  (exists x, inv_lu eps n A ix d wk = Ok x) \/
  (inv_lu eps n A ix d wk = Throw RuntimeError /\ ~ (rows_above eps n A /\ regular n A)).
Proof.
  intros K eps n A ix d wk Pe LA Li Lw.
  pose proof (inv_lu_wp eps n A wk ix d Pe LA Li Lw) as H.
  destruct (inv_lu eps n A ix d wk); cbn in H; eauto.
  - destruct H as [-> H]. auto.
  - destruct H.
Qed.

(* ---------- cases over the rationals ---------- *)

Definition lu_mat : list QcF := nums [0; 2; 1;  1; 1; 1;  2; 0; 5]%Z.
Example lu_run : same (equ_lu dbl_eps 3 lu_mat (nums [7; 6; 17]%Z) (nums [9; 9; 9]%Z)
  [7; 7; 7] 5%Z (nums [3; 3; 3]%Z) (nums [4; 4; 4]%Z)) (nums [1; 2; 3]%Z) = true.
Proof. vm_compute. reflexivity. Qed.
Example lu_det_run : match inv_mul_lu dbl_eps 3 1 lu_mat (nums [7; 6; 17]%Z)
    [7; 7; 7] 5%Z (nums [3; 3; 3]%Z) with
  | Ok (x, d) => feqb d (qz (-8)) | _ => false end = true.
Proof. vm_compute. reflexivity. Qed.
Example lu_leading_zeros : same (equ_lu dbl_eps 3 lu_mat (nums [0; 0; 16]%Z) (nums [9; 9; 9]%Z)
  [7; 7; 7] 5%Z (nums [3; 3; 3]%Z) (nums [4; 4; 4]%Z)) (nums [-2; -2; 4]%Z) = true.
Proof. vm_compute. reflexivity. Qed.
Example lu_singular : equ_lu dbl_eps 2 (nums [1; 2; 2; 4]%Z) (nums [1; 1]%Z) (nums [0; 0]%Z)
  [7; 7] 5%Z (nums [3; 3]%Z) (nums [4; 4]%Z) = Throw RuntimeError.
Proof. vm_compute. reflexivity. Qed.
(* hypotheses of the acceptance *)
Example lu_accepts_case : rows_above dbl_eps 2 (nums [0; 1; 1; 0]%Z) /\ regular 2 (nums [0; 1; 1; 0]%Z).
Proof.
  split.
  - intros r R. destruct r as [|[|]]; try lia; [exists 1|exists 0]; split; try lia;
      vm_compute; reflexivity.
  - intros y H i I.
    assert (H0 : (f0 + f0 * y 0 + f1 * y 1)%lin = f0) by exact (H 0 ltac:(lia)).
    assert (H1 : (f0 + f1 * y 0 + f0 * y 1)%lin = f0) by exact (H 1 ltac:(lia)).
    destruct i as [|[|]]; try lia.
    + now apply reg_fst in H1.
    + now apply reg_snd in H0.
Qed.

Print Assumptions C40_lu_solves.
Print Assumptions C40_lu_accepts.
Print Assumptions C40_lu_mul.
Print Assumptions C40_lu_mul_accepts.
Print Assumptions C40_lu_empty_refuted.
Print Assumptions C40_lu_inverse.
Print Assumptions C40_lu_inverse_accepts.
