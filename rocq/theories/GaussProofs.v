(* Proofs about Gaussian elimination: what each loop does to the matrix and to the
   right-hand side, and that this keeps the solutions. *)
From Coq Require Import List ZArith Lia Bool Arith Field.
From Verif Require Import Base LinBase LinDet GaussModel.
Import ListNotations.
Local Open Scope nat_scope.

Section Proofs.
Context {K : ofield}.
Local Open Scope lin_scope.
Add Field Kf3 : (f_th K).
Notation matrix := (nat -> nat -> K).

(* row r of A times y *)
Definition dot (n : nat) (A : matrix) (r : nat) (y : nat -> K) : K :=
  sumr 0 n (fun k => A r k * y k).
(* A y = b *)
Definition solv (n : nat) (A : matrix) (y b : nat -> K) : Prop :=
  forall r, r < n -> dot n A r y = b r.

Lemma dot_ext n A B r y : (forall c, c < n -> A r c = B r c) -> dot n A r y = dot n B r y.
Proof. intros H. apply sumr_ext. intros. rewrite H; auto. lia. Qed.
Lemma solv_ext n A B y b : (forall r c, r < n -> c < n -> A r c = B r c) ->
  solv n A y b <-> solv n B y b.
Proof.
  intros H. split; intros S r R; rewrite <- (S r R); apply dot_ext; intros; auto.
  symmetry; auto.
Qed.

(* ---------- the loops ---------- *)

Lemma aswap_wp n m l (A : matrix) p q k E : mat n m l A -> p < n -> q < n -> k < m ->
  wp (aswap l (p * m + k) (q * m + k))
     (fun l' => mat n m l' (updm (updm A p k (A q k)) q k (A p k))) E.
Proof.
  intros M P Q Kk. unfold aswap.
  apply wp_bind. eapply wp_mget; eauto.
  apply wp_bind. eapply wp_mget; eauto.
  apply wp_bind. eapply wp_mset; eauto. intros l1 M1.
  eapply wp_mset; eauto.
Qed.
Lemma swap_rows_wp n m l (A : matrix) i j E : mat n m l A -> i < n -> j < n ->
  wp (for_up 0 m (fun k a => aswap a (j * m + k) (i * m + k)) l)
     (fun l' => mat n m l' (swaprows i j A)) E.
Proof.
  intros M I J.
  eapply wp_mono; [apply wp_for with
    (P := fun k l => mat n m l (fun r c => if c <? k then swaprows i j A r c else A r c))
    | cbn beta].
  - lia.
  - eapply mat_ext; eauto; intros; bcases; auto.
  - intros k l1 Lk M1. eapply wp_mono; [apply (aswap_wp n m); eauto; lia| cbn beta].
    intros l2 M2. eapply mat_ext; eauto. intros r c R C.
    unfold updm, swaprows. bcases; subst; auto.
  - intros l1 M1. eapply mat_ext; eauto; intros; cbn beta; bcases; auto.
Qed.
Lemma vswap_wp n l (v : nat -> K) i j E : vec n l v -> i < n -> j < n ->
  wp (aswap l j i) (fun l' => vec n l' (fun r => v (if r =? i then j else if r =? j then i else r))) E.
Proof.
  intros M I J. unfold aswap.
  apply wp_bind. eapply wp_vget; eauto.
  apply wp_bind. eapply wp_vget; eauto.
  apply wp_bind. eapply wp_vset; eauto. intros l1 M1.
  eapply wp_vset; eauto. intros l2 M2. eapply vec_ext; eauto.
  intros r R. unfold updv. bcases; subst; auto.
Qed.

Lemma pivot_wp n i a (A : matrix) eps E : mat n n a A -> i < n -> forall k j pvt, (j + k = n)%nat ->
  wp (pivot eps n i a k j pvt)
     (fun '(j', v) => j <= j' <= n /\
        (j' < n -> v = A j' i /\ fle eps (fabs v) = true) /\
        (forall r, j <= r < j' -> fle eps (fabs (A r i)) = false)) E.
Proof.
  intros M I. induction k as [|k IH]; intros j pvt L; cbn [pivot].
  - split; [lia|]. split; intros; lia.
  - apply wp_bind. eapply wp_mget; eauto. { lia. }
    destruct (fle eps (fabs (A j i))) eqn:F.
    + split; [lia|]. split; auto. intros; lia.
    + eapply wp_mono; [apply IH; lia| cbn beta]. intros [j' v] (B1 & B2 & B3).
      split; [lia|]. split; auto. intros r R.
      destruct (Nat.eq_dec r j) as [->|]; auto. apply B3; lia.
Qed.

Lemma elim_row_wp n i k t l (A : matrix) E : mat n n l A -> i < k -> k < n ->
  wp (elim_row n i k t l)
     (fun l' => mat n n l' (fun r c => if (r =? k) && (i <? c) then A r c - t * A i c else A r c)) E.
Proof.
  intros M I Kn. unfold elim_row.
  eapply wp_mono; [apply wp_for with
    (P := fun j l => mat n n l (fun r c =>
       if (r =? k) && (i <? c) && (c <? j) then A r c - t * A i c else A r c)) | cbn beta].
  - lia.
  - eapply mat_ext; eauto; intros; bcases; auto.
  - intros j l1 Lj M1. apply wp_bind. eapply wp_mget; eauto; try lia.
    apply wp_bind. eapply wp_mget; eauto; try lia.
    eapply wp_mset; eauto; try lia. intros l2 M2. eapply mat_ext; eauto.
    intros r c R C. unfold updm. bcases; subst; auto.
  - intros l1 M1. eapply mat_ext; eauto; intros; cbn beta; bcases; auto.
Qed.

(* the matrix after elimination with row i, and the right-hand side *)
Definition elim (i : nat) (A : matrix) : matrix :=
  fun r c => if (i <? r) && (i <? c) then A r c - A r i / A i i * A i c else A r c.
Definition elimv (i : nat) (A : matrix) (b : nat -> K) : nat -> K :=
  fun r => if i <? r then b r - A r i / A i i * b i else b r.
(* the part of the matrix that is still meant: zero below the diagonal in the columns
   before i *)
Definition zeroed (i : nat) (A : matrix) : matrix :=
  fun r c => if (c <? i) && (c <? r) then f0 else A r c.
Definition swapv (i j : nat) (b : nat -> K) : nat -> K :=
  fun r => b (if r =? i then j else if r =? j then i else r).

Lemma elim_loop_wp n i pvt a x (A : matrix) (b : nat -> K) E :
  mat n n a A -> vec n x b -> i < n -> pvt = A i i -> A i i <> f0 ->
  wp (for_up (i + 1) n (fun k (s : list K * list K) =>
      let (a, x) := s in
      let* v := aget a (k * n + i) in
      let* tmp := divc v pvt in
      let* a := elim_row n i k tmp a in
      let* xk := aget x k in
      let* xi := aget x i in
      let* x := aset x k (xk - tmp * xi) in
      Ok (a, x)) (a, x))
    (fun s => mat n n (fst s) (elim i A) /\ vec n (snd s) (elimv i A b)) E.
Proof.
  intros M V I Ep N. subst pvt.
  eapply wp_mono; [apply wp_for with
    (P := fun k (s : list K * list K) =>
       mat n n (fst s) (fun r c => if r <? k then elim i A r c else A r c) /\
       vec n (snd s) (fun r => if r <? k then elimv i A b r else b r)) | cbn beta].
  - lia.
  - cbn [fst snd]. split; [eapply mat_ext; eauto|eapply vec_ext; eauto]; intros;
      unfold elim, elimv; bcases; auto.
  - intros k [a1 x1] Lk (M1 & V1). cbn [fst snd] in *.
    apply wp_bind. eapply wp_mget; eauto; try lia.
    apply wp_bind. apply wp_divc; auto.
    apply wp_bind. eapply wp_mono; [apply elim_row_wp; eauto; lia| cbn beta].
    intros a2 M2. cbn beta in M2.
    apply wp_bind. eapply wp_vget; eauto; try lia.
    apply wp_bind. eapply wp_vget; eauto; try lia.
    apply wp_bind. eapply wp_vset; eauto; try lia. intros x2 V2. cbn [wp fst snd].
    split; [eapply mat_ext; eauto|eapply vec_ext; eauto]; intros; unfold updv, elim, elimv.
    all: bcases; subst; auto.
  - intros [a1 x1] (M1 & V1). cbn [fst snd] in *.
    split; [eapply mat_ext; eauto|eapply vec_ext; eauto]; intros; cbn beta; bcases; auto.
Qed.

(* ---------- the solutions are kept ---------- *)

Lemma dot_swap n i j (A : matrix) r y :
  dot n (swaprows i j A) r y = dot n A (if r =? i then j else if r =? j then i else r) y.
Proof. reflexivity. Qed.
Lemma zeroed_swap n i j (A : matrix) r c : i <= j -> j < n -> r < n -> c < n ->
  zeroed i (swaprows i j A) r c = swaprows i j (zeroed i A) r c.
Proof. intros. unfold zeroed, swaprows. bcases; auto. Qed.
Lemma dot_zeroed_swap n i j (A : matrix) r y : i <= j -> j < n -> r < n ->
  dot n (zeroed i (swaprows i j A)) r y =
  dot n (zeroed i A) (if r =? i then j else if r =? j then i else r) y.
Proof.
  intros. rewrite <- dot_swap. apply dot_ext. intros. now apply zeroed_swap with n.
Qed.
Lemma solv_swap n i j A y b : i <= j -> j < n ->
  solv n (zeroed i (swaprows i j A)) y (swapv i j b) <-> solv n (zeroed i A) y b.
Proof.
  intros I J. split; intros S r R.
  - set (r' := if r =? i then j else if r =? j then i else r).
    assert (R' : r' < n) by (unfold r'; bcases).
    pose proof (S r' R') as X. rewrite dot_zeroed_swap in X by auto. unfold swapv in X.
    replace (if r' =? i then j else if r' =? j then i else r') with r in X; auto.
    unfold r'. bcases.
  - rewrite dot_zeroed_swap by auto. unfold swapv. apply S. bcases.
Qed.

Lemma dot_elim n i (A : matrix) r y : i < n -> r < n -> A i i <> f0 -> i < r ->
  dot n (zeroed (S i) (elim i A)) r y =
  dot n (zeroed i A) r y - A r i / A i i * dot n (zeroed i A) i y.
Proof.
  intros I R N L. unfold dot. rewrite <- sumr_scale, <- sumr_sub. apply sumr_ext.
  intros k Lk. unfold zeroed, elim. bcases; try ring.
  assert (k = i) by lia. subst. field. auto.
Qed.
Lemma dot_elim_le n i (A : matrix) r y : r <= i -> r < n ->
  dot n (zeroed (S i) (elim i A)) r y = dot n (zeroed i A) r y.
Proof. intros. apply dot_ext. intros. unfold zeroed, elim. bcases; auto. Qed.
Lemma solv_elim n i A y b : i < n -> A i i <> f0 ->
  solv n (zeroed (S i) (elim i A)) y (elimv i A b) <-> solv n (zeroed i A) y b.
Proof.
  intros I N. split; intros S r R.
  - pose proof (S r R) as X. unfold elimv in X.
    pose proof (S i I) as Xi. unfold elimv in Xi.
    rewrite dot_elim_le in Xi by lia. destruct (Nat.ltb_spec i i) as [C|_]; [lia|].
    destruct (Nat.ltb_spec i r).
    + rewrite dot_elim, Xi in X by auto.
      replace (b r) with (b r - A r i / A i i * b i + A r i / A i i * b i) by ring.
      rewrite <- X. ring.
    + rewrite dot_elim_le in X by auto. auto.
  - unfold elimv. destruct (Nat.ltb_spec i r).
    + rewrite dot_elim by auto. rewrite !S by auto. auto.
    + rewrite dot_elim_le by auto. auto.
Qed.

(* an upper triangular system *)
Lemma solv_upper n (A : matrix) y b : (forall r, r < n -> A r r <> f0) ->
  (forall r, r < n -> y r = (b r - sumr (S r) n (fun k => A r k * y k)) / A r r) <->
  solv n (zeroed n A) y b.
Proof.
  intros N.
  assert (D : forall r, r < n -> dot n (zeroed n A) r y =
                A r r * y r + sumr (S r) n (fun k => A r k * y k)).
  { intros r R. unfold dot. rewrite (sumr_split 0 r), (sumr_first r) by lia.
    rewrite (sumr_zero 0 r).
    2:{ intros k Lk. unfold zeroed. bcases. ring. }
    rewrite (sumr_ext (S r) n _ (fun k => A r k * y k)).
    2:{ intros k Lk. unfold zeroed. bcases; auto. }
    unfold zeroed. bcases. ring. }
  split; intros H r R.
  - rewrite D by auto. rewrite (H r R) at 1. field. auto.
  - rewrite <- (H r R), D by auto. field. auto.
Qed.

(* every upper triangular system has a solution *)
Lemma upper_solvable n (A : matrix) b : (forall r, r < n -> A r r <> f0) ->
  exists y, solv n (zeroed n A) y b.
Proof.
  intros N.
  assert (H : forall t, t <= n -> exists y,
    (forall r, n - t <= r < n -> y r = (b r - sumr (S r) n (fun k => A r k * y k)) / A r r)).
  { induction t as [|t IH]; intros L. { exists (fun _ => f0). intros; lia. }
    destruct IH as (y & Hy). { lia. }
    set (q := (n - S t)%nat).
    exists (updv y q ((b q - sumr (S q) n (fun k => A q k * y k)) / A q q)).
    intros r R. unfold updv at 1. destruct (Nat.eqb_spec r q) as [->|Nq].
    - f_equal. f_equal. apply sumr_ext. intros k Lk. unfold updv. bcases. auto.
    - rewrite (Hy r) by (unfold q in *; lia). f_equal. f_equal. apply sumr_ext. intros k Lk.
      unfold updv. unfold q in *. bcases. auto. }
  destruct (H n) as (y & Hy). { lia. }
  exists y. apply solv_upper; auto. intros r R. apply Hy. lia.
Qed.

(* ---------- back substitution ---------- *)

Lemma gauss_back_wp n a x (A : matrix) b E : mat n n a A -> vec n x b ->
  (forall r, r < n -> A r r <> f0) ->
  wp (gauss_back n a x) (fun x' => exists y, vec n x' y /\ solv n (zeroed n A) y b) E.
Proof.
  intros M V N. unfold gauss_back.
  eapply wp_mono; [apply wp_down with
    (P := fun i x => exists y, vec n x y /\ (forall r, r < i -> y r = b r) /\
       (forall r, i <= r < n -> y r = (b r - sumr (S r) n (fun k => A r k * y k)) / A r r)) | cbn beta].
  - lia.
  - exists b. split; [auto|]. split; intros; auto. lia.
  - intros i x1 Li (y & V1 & Lo & Hi).
    apply wp_seq with (P := fun x => vec n x (updv y (i - 1)
        (b (i - 1)%nat - sumr i n (fun k => A (i - 1)%nat k * y k)))).
    + eapply wp_mono; [apply wp_for with
        (P := fun j x => vec n x (updv y (i - 1)
           (b (i - 1)%nat - sumr i j (fun k => A (i - 1)%nat k * y k)))) | cbn beta].
      * lia.
      * eapply vec_ext; eauto. intros r R. unfold updv. bcases; subst; auto.
        rewrite Lo, sumr_nil by lia. ring.
      * intros j x2 Lj V2. apply wp_bind. eapply wp_vget; eauto; try lia.
        apply wp_bind. eapply wp_mget; eauto; try lia.
        apply wp_bind. eapply wp_vget; eauto; try lia.
        eapply wp_vset; eauto; try lia. intros x3 V3.
        eapply vec_ext; eauto. intros r R. unfold updv. bcases; subst; auto.
        rewrite Nat.add_1_r, sumr_S by lia. ring.
      * auto.
    + intros x2 V2. apply wp_bind. eapply wp_vget; eauto; try lia.
      apply wp_bind. eapply wp_mget; eauto; try lia.
      apply wp_bind. apply wp_divc. { apply N; lia. }
      eapply wp_vset; eauto; try lia. intros x3 V3.
      eexists. split; [exact V3|]. split; intros r R; unfold updv.
      * bcases. apply Lo. lia.
      * destruct (Nat.eqb_spec r (i - 1)) as [->|Nr].
        -- rewrite Nat.eqb_refl. replace (S (i - 1)) with i by lia. f_equal. f_equal.
           apply sumr_ext. intros k Lk. bcases. auto.
        -- rewrite Hi by lia. f_equal. f_equal. apply sumr_ext. intros k Lk. bcases. auto.
  - intros x' (y & V' & _ & H). exists y. split; auto. apply solv_upper; auto.
    intros r R. apply H. lia.
Qed.

(* ---------- what an elimination has reached ---------- *)

(* The state before round i, in terms of the system (A0, b0) at the start: the same
   solutions; and the residual of any y that satisfies the rows already used is, up to
   the order of the rows, the residual in the original matrix. *)
Record reached (n i : nat) (A0 A : matrix) : Prop := {
  re_diag : forall r, r < i -> A r r <> f0;
  re_res : exists p, (forall r, r < n -> p r < n) /\
     (forall s, s < n -> exists r, r < n /\ p r = s) /\
     forall y, (forall r, r < i -> dot n (zeroed i A) r y = f0) ->
       forall r, r < n -> dot n A0 (p r) y = dot n (zeroed i A) r y }.

Lemma zeroed_0 (A : matrix) r c : zeroed 0 A r c = A r c.
Proof. unfold zeroed. bcases; auto. Qed.
Lemma reached_start n A0 : reached n 0 A0 A0.
Proof.
  constructor. { intros; lia. }
  exists (fun r => r). split; auto. split. { intros s S. exists s. auto. }
  intros y _ r R. apply dot_ext. intros. now rewrite zeroed_0.
Qed.
Lemma reached_swap n i j A0 A : i <= j -> j < n ->
  reached n i A0 A -> reached n i A0 (swaprows i j A).
Proof.
  intros I J [D (p & P1 & P2 & P3)]. constructor.
  - intros r R. unfold swaprows. bcases. auto.
  - exists (fun r => p (if r =? i then j else if r =? j then i else r)). split; [|split].
    + intros r R. apply P1. bcases.
    + intros s S. destruct (P2 s S) as (r & R & <-).
      exists (if r =? i then j else if r =? j then i else r). split. { bcases. }
      f_equal. bcases.
    + intros y Hy r R. rewrite dot_zeroed_swap by auto. apply P3.
      * intros q Q. rewrite <- (Hy q Q), dot_zeroed_swap by lia.
        replace (if q =? i then j else if q =? j then i else q) with q; auto. bcases.
      * bcases.
Qed.
Lemma reached_elim n i A0 A : i < n -> A i i <> f0 ->
  reached n i A0 A -> reached n (S i) A0 (elim i A).
Proof.
  intros I N [D (p & P1 & P2 & P3)]. constructor.
  - intros r R. unfold elim. bcases. destruct (Nat.eq_dec r i) as [->|]; auto. apply D; lia.
  - exists p. split; auto. split; auto. intros y Hy r R.
    rewrite P3; auto.
    + destruct (le_lt_dec r i). { now rewrite dot_elim_le. }
      rewrite dot_elim by auto.
      replace (dot n (zeroed i A) i y) with (@f0 K). { ring. }
      rewrite <- (Hy i) by lia. now rewrite dot_elim_le.
    + intros q Q. rewrite <- (Hy q) by lia. rewrite dot_elim_le by lia. auto.
Qed.

(* A is within eps of being singular: it maps a vector whose last nonzero component is 1
   to a vector with all components below eps *)
Definition near_singular (eps : K) (n : nat) (A : matrix) : Prop :=
  exists i y, i < n /\ y i = f1 /\ (forall k, i < k -> y k = f0) /\
    forall r, r < n -> fltb (fabs (dot n A r y)) eps = true.

Lemma reached_stuck eps n i A0 A : i < n -> fltb f0 eps = true -> reached n i A0 A ->
  (forall r, i <= r < n -> fle eps (fabs (A r i)) = false) -> near_singular eps n A0.
Proof.
  intros I Pe [D (p & P1 & P2 & P3)] St.
  destruct (upper_solvable i A (fun r => - A r i) D) as (z & Hz).
  set (y := fun k => if k <? i then z k else if k =? i then f1 else f0).
  exists i, y. split; auto. split. { unfold y. bcases. auto. }
  split. { intros k L. unfold y. bcases. auto. }
  assert (Dy : forall r, r < n -> dot n (zeroed i A) r y =
             sumr 0 i (fun k => zeroed i A r k * z k) + A r i).
  { intros r R. unfold dot. rewrite (sumr_split 0 i), (sumr_first i) by lia.
    rewrite (sumr_zero (S i) n).
    2:{ intros k Lk. unfold y. bcases. ring. }
    rewrite (sumr_ext 0 i _ (fun k => zeroed i A r k * z k)).
    2:{ intros k Lk. unfold y. bcases. auto. }
    unfold y, zeroed. bcases. ring. }
  assert (Z : forall r, r < i -> dot n (zeroed i A) r y = f0).
  { intros r R. rewrite Dy by lia. specialize (Hz r R). unfold dot in Hz.
    rewrite Hz. ring. }
  intros s S. destruct (P2 s S) as (r & R & <-). rewrite P3 by auto.
  destruct (le_lt_dec i r) as [L|L].
  - rewrite Dy by auto. rewrite (sumr_zero 0 i).
    2:{ intros k Lk. unfold zeroed. bcases. ring. }
    replace (f0 + A r i) with (A r i) by ring. unfold fltb. rewrite St by lia. auto.
  - rewrite Z by auto. replace (fabs f0) with (@f0 K); auto. symmetry. now apply fabs_0.
Qed.

(* the elements of an accepted pivot *)
Lemma big_nz (eps v : K) : fltb f0 eps = true -> fle eps (fabs v) = true -> v <> f0.
Proof.
  intros P B ->. replace (fabs f0) with (@f0 K) in B by (symmetry; now apply fabs_0).
  unfold fltb in P. rewrite B in P. discriminate.
Qed.

(* ---------- the loops over m right-hand sides ---------- *)

Lemma elim_loop_m_wp n m i pvt a b (A B : matrix) E :
  mat n n a A -> mat n m b B -> i < n -> pvt = A i i -> A i i <> f0 ->
  wp (for_up (i + 1) n (fun k (s : list K * list K) =>
      let (a, b) := s in
      let* v := aget a (k * n + i) in
      let* tmp := divc v pvt in
      let* a := elim_row n i k tmp a in
      let* b := for_up 0 m (fun j b =>
        let* x := aget b (k * m + j) in
        let* y := aget b (i * m + j) in
        aset b (k * m + j) (x - tmp * y)) b in
      Ok (a, b)) (a, b))
    (fun s => mat n n (fst s) (elim i A) /\
              mat n m (snd s) (fun r c => elimv i A (fun r => B r c) r)) E.
Proof.
  intros M V I Ep N. subst pvt.
  eapply wp_mono; [apply wp_for with
    (P := fun k (s : list K * list K) =>
       mat n n (fst s) (fun r c => if r <? k then elim i A r c else A r c) /\
       mat n m (snd s) (fun r c => if r <? k then elimv i A (fun r => B r c) r else B r c)) | cbn beta].
  - lia.
  - cbn [fst snd]. split; eapply mat_ext; eauto; intros; unfold elim, elimv; bcases; auto.
  - intros k [a1 x1] Lk (M1 & V1). cbn [fst snd] in *.
    apply wp_bind. eapply wp_mget; eauto; try lia.
    apply wp_bind. apply wp_divc; auto.
    apply wp_bind. eapply wp_mono; [apply elim_row_wp; eauto; lia| cbn beta].
    intros a2 M2.
    set (t := (if k <? k then elim i A k i else A k i) / A i i).
    apply wp_seq with (P := fun b => mat n m b (fun r c =>
        if r <? k + 1 then elimv i A (fun r => B r c) r else B r c)).
    + eapply wp_mono; [apply wp_for with
        (P := fun j b => mat n m b (fun r c =>
          if r <? k then elimv i A (fun r => B r c) r
          else if (r =? k) && (c <? j) then B r c - t * B i c else B r c)) | cbn beta].
      * lia.
      * eapply mat_ext; eauto; intros; bcases; auto.
      * intros j b1 Lj W1.
        apply wp_bind. eapply wp_mget; eauto; try lia.
        apply wp_bind. eapply wp_mget; eauto; try lia.
        eapply wp_mset; eauto; try lia. intros b2 W2. eapply mat_ext; eauto.
        intros r c R C. unfold updm, elimv. bcases; subst; auto.
      * intros b1 W1. eapply mat_ext; eauto. intros r c R C. unfold t, elimv.
        bcases; subst; auto.
    + intros b1 W1. cbn [wp fst snd]. split; auto.
      eapply mat_ext; eauto; intros; unfold elim. bcases; subst; auto.
  - intros [a1 x1] (M1 & V1). cbn [fst snd] in *.
    split; eapply mat_ext; eauto; intros; cbn beta; bcases; auto.
Qed.

Lemma img_back_wp n m a b (A B : matrix) E : mat n n a A -> mat n m b B ->
  (forall r, r < n -> A r r <> f0) ->
  wp (img_back n m a b) (fun x => exists Y, mat n m x Y /\
     forall c, c < m -> solv n (zeroed n A) (fun r => Y r c) (fun r => B r c)) E.
Proof.
  intros M V N. unfold img_back.
  eapply wp_mono; [apply wp_down with
    (P := fun i x => exists Y, mat n m x Y /\ (forall r c, r < i -> c < m -> Y r c = B r c) /\
       (forall r c, i <= r < n -> c < m ->
          Y r c = (B r c - sumr (S r) n (fun k => A r k * Y k c)) / A r r)) | cbn beta].
  - lia.
  - exists B. split; [auto|]. split; intros; auto. lia.
  - intros i x1 Li (Y & V1 & Lo & Hi).
    apply wp_seq with (P := fun x => mat n m x (fun r c => if r =? i - 1 then
        B r c - sumr i n (fun k => A r k * Y k c) else Y r c)).
    + eapply wp_mono; [apply wp_for with
        (P := fun j x => mat n m x (fun r c => if r =? i - 1 then
           B r c - sumr i j (fun k => A r k * Y k c) else Y r c)) | cbn beta].
      * lia.
      * eapply mat_ext; eauto; intros r c R C. bcases; subst; auto.
        rewrite Lo, sumr_nil by lia. ring.
      * intros j x2 Lj V2. eapply wp_mono; [apply wp_for with
          (P := fun k x => mat n m x (fun r c => if r =? i - 1 then
             (if c <? k then B r c - sumr i (j + 1) (fun k => A r k * Y k c)
              else B r c - sumr i j (fun k => A r k * Y k c)) else Y r c)) | cbn beta].
        -- lia.
        -- eapply mat_ext; eauto; intros r c R C; bcases; auto.
        -- intros k x3 Lk V3.
           apply wp_bind. eapply wp_mget; eauto; try lia.
           apply wp_bind. eapply wp_mget; eauto; try lia.
           apply wp_bind. eapply wp_mget; eauto; try lia.
           eapply wp_mset; eauto; try lia. intros x4 V4.
           eapply mat_ext; eauto. intros r c R C. unfold updm. bcases; subst; auto.
           rewrite Nat.add_1_r, sumr_S by lia. ring.
        -- intros x3 V3. eapply mat_ext; eauto. intros r c R C. bcases; auto.
      * auto.
    + intros x2 V2. eapply wp_mono; [apply wp_for with
        (P := fun k x => mat n m x (fun r c => if r =? i - 1 then
           (if c <? k then (B r c - sumr i n (fun k => A r k * Y k c)) / A r r
            else B r c - sumr i n (fun k => A r k * Y k c)) else Y r c)) | cbn beta].
      * lia.
      * eapply mat_ext; eauto; intros r c R C; bcases; auto.
      * intros k x3 Lk V3.
        apply wp_bind. eapply wp_mget; eauto; try lia.
        apply wp_bind. eapply wp_mget; eauto; try lia.
        apply wp_bind. apply wp_divc. { apply N; lia. }
        eapply wp_mset; eauto; try lia. intros x4 V4.
        eapply mat_ext; eauto. intros r c R C. unfold updm. bcases; subst; auto.
      * intros x3 V3. eexists. split; [exact V3|]. split; intros r c R C; cbn beta.
        -- bcases. apply Lo; lia.
        -- destruct (Nat.eqb_spec r (i - 1)) as [->|Nr].
           ++ destruct (Nat.ltb_spec c m); [|lia]. replace (S (i - 1)) with i by lia. f_equal. f_equal.
              apply sumr_ext. intros k Lk. bcases. auto.
           ++ rewrite Hi by lia. f_equal. f_equal. apply sumr_ext. intros k Lk. bcases. auto.
  - intros x' (Y & V' & _ & H). exists Y. split; auto. intros c C. apply solv_upper; auto.
    intros r R. apply H; auto. lia.
Qed.

(* ---------- determinants ---------- *)

Lemma det_elim k i (A : matrix) : A i i <> f0 ->
  det k (zeroed (S i) (elim i A)) = det k (zeroed i A).
Proof.
  intros N. destruct (le_lt_dec k i) as [L|L].
  { apply det_ext. intros r c R C. unfold zeroed, elim. bcases; auto. }
  assert (H : forall t, (i + t < k)%nat ->
    det k (fun r c => if (i <? r) && (r <=? i + t) then
        zeroed i A r c - A r i / A i i * zeroed i A i c else zeroed i A r c) = det k (zeroed i A)).
  { induction t as [|t IH]; intros Lt.
    - apply det_ext. intros r c R C. bcases; auto.
    - rewrite <- IH by lia.
      set (M := fun r c => if (i <? r) && (r <=? i + t) then
        zeroed i A r c - A r i / A i i * zeroed i A i c else zeroed i A r c).
      rewrite <- (det_addrow k M (i + S t) i (- (A (i + S t)%nat i / A i i))) by lia.
      apply det_ext. intros r c R C. unfold setrow, M. bcases; subst; auto. ring. }
  rewrite <- (H (k - 1 - i)%nat) by lia. apply det_ext. intros r c R C.
  unfold zeroed, elim. bcases; auto; try ring.
  assert (c = i) by lia. subst. field. auto.
Qed.
Lemma det_zeroed_swap n i j (A : matrix) : i < j -> j < n ->
  det n (zeroed i (swaprows i j A)) = - det n (zeroed i A).
Proof.
  intros I J. rewrite <- (det_swap n _ i j I J). apply det_ext. intros.
  apply zeroed_swap with n; auto. lia.
Qed.
Lemma det_zeroed_lead i k (A : matrix) : k <= S i -> det k (zeroed i A) = prodr k (fun r => A r r).
Proof.
  intros L. rewrite det_triangular.
  - apply prodr_ext. intros r R. unfold zeroed. bcases; auto.
  - intros r c C R. unfold zeroed. bcases. auto.
Qed.
End Proofs.
