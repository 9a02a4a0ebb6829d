(* The determinant, by expansion along the first column, and the laws of row
   operations. *)
From Coq Require Import List ZArith Lia Bool Arith Field.
From Verif Require Import Base LinBase.
Import ListNotations.
Local Open Scope nat_scope.

Section Det.
Context {K : ofield}.
Local Open Scope lin_scope.
Add Field Kf2 : (f_th K).

Notation matrix := (nat -> nat -> K).

Fixpoint sgn (k : nat) : K := match k with O => f1 | S k => - sgn k end.
(* A without row i and column 0 *)
Definition minor0 (i : nat) (A : matrix) : matrix :=
  fun r c => A (if r <? i then r else S r) (S c).
Fixpoint det (n : nat) (A : matrix) : K :=
  match n with
  | O => f1
  | S m => sumr 0 (S m) (fun i => sgn i * A i 0%nat * det m (minor0 i A))
  end.

(* product of the diagonal *)
Fixpoint prodr (n : nat) (f : nat -> K) : K :=
  match n with O => f1 | S n => prodr n f * f n end.
Lemma prodr_ext n f g : (forall k, k < n -> f k = g k) -> prodr n f = prodr n g.
Proof. induction n; cbn; intros H; auto. rewrite IHn, H; auto. Qed.
Lemma prodr_first n f : prodr (S n) f = f 0%nat * prodr n (fun k => f (S k)).
Proof. induction n; cbn in *. ring. rewrite IHn. ring. Qed.
Lemma prodr_nz n f : (forall k, k < n -> f k <> f0) -> prodr n f <> f0.
Proof.
  induction n; cbn; intros H. { apply f1_neq_f0. }
  apply fmul_nz; auto.
Qed.

Lemma det_ext n : forall A B : matrix,
  (forall i j, i < n -> j < n -> A i j = B i j) -> det n A = det n B.
Proof.
  induction n as [|n IH]; intros A B H; auto. cbn [det]. apply sumr_ext. intros k L.
  rewrite H by lia. f_equal. apply IH. intros i j I J. unfold minor0.
  apply H; bcases; lia.
Qed.

(* A with row r replaced by u *)
Definition setrow (r : nat) (u : nat -> K) (A : matrix) : matrix :=
  fun i j => if i =? r then u j else A i j.

Lemma minor0_setrow_lt i r u A x y : r < i ->
  minor0 i (setrow r u A) x y = setrow r (fun c => u (S c)) (minor0 i A) x y.
Proof. intros. unfold minor0, setrow. bcases; auto. Qed.
Lemma minor0_setrow_gt i r u A x y : i < r ->
  minor0 i (setrow r u A) x y = setrow (r - 1) (fun c => u (S c)) (minor0 i A) x y.
Proof. intros. unfold minor0, setrow. bcases; auto. Qed.
Lemma minor0_setrow_eq r u A x y : minor0 r (setrow r u A) x y = minor0 r A x y.
Proof. unfold minor0, setrow. bcases; auto. Qed.

(* linear in each row *)
Theorem det_linear n : forall A r u v a b, r < n ->
  det n (setrow r (fun c => a * u c + b * v c) A) =
  a * det n (setrow r u A) + b * det n (setrow r v A).
Proof.
  induction n as [|n IH]; intros A r u v a b L. { lia. }
  cbn [det]. rewrite <- !sumr_scale, <- sumr_add. apply sumr_ext. intros i I.
  destruct (lt_eq_lt_dec i r) as [[H|H]|H].
  - rewrite !(det_ext n (minor0 i (setrow r _ A)) _
      (fun x y _ _ => minor0_setrow_gt i r _ A x y H)).
    rewrite (IH (minor0 i A) (r - 1)%nat (fun c => u (S c)) (fun c => v (S c))) by lia.
    unfold setrow. bcases. ring.
  - subst i. rewrite !(det_ext n (minor0 r (setrow r _ A)) _
      (fun x y _ _ => minor0_setrow_eq r _ A x y)).
    unfold setrow. bcases. ring.
  - rewrite !(det_ext n (minor0 i (setrow r _ A)) _
      (fun x y _ _ => minor0_setrow_lt i r _ A x y H)).
    rewrite (IH (minor0 i A) r (fun c => u (S c)) (fun c => v (S c))) by lia.
    unfold setrow. bcases. ring.
Qed.

(* two equal neighbouring rows *)
Lemma det_adjacent n : forall (A : matrix) r, S r < n ->
  (forall c, c < n -> A r c = A (S r) c) -> det n A = f0.
Proof.
  induction n as [|n IH]; intros A r L E. { lia. }
  cbn [det].
  rewrite (sumr_split 0 r), (sumr_first r), (sumr_first (S r)) by lia.
  rewrite (sumr_zero 0 r), (sumr_zero (S (S r)) (S n)).
  - cbn [sgn]. rewrite E by lia.
    rewrite (det_ext n (minor0 (S r) A) (minor0 r A)). { ring. }
    intros i j I J. unfold minor0. bcases; auto.
    replace i with r by lia. apply E; lia.
  - intros k Lk. rewrite (IH (minor0 k A) r); try lia. { ring. }
    intros c C. unfold minor0. bcases. apply E; lia.
  - intros k Lk. rewrite (IH (minor0 k A) (r - 1)%nat); try lia. { ring. }
    intros c C. unfold minor0. bcases.
    replace (S (r - 1)) with r by lia. apply E; lia.
Qed.

Definition swaprows (p q : nat) (A : matrix) : matrix :=
  fun i j => A (if i =? p then q else if i =? q then p else i) j.

Lemma det_swap_adjacent n A p : S p < n -> det n (swaprows p (S p) A) = - det n A.
Proof.
  intros L.
  set (M := fun u v => setrow p u (setrow (S p) v A)).
  set (a := A p). set (b := A (S p)).
  assert (Z : forall u, det n (M u u) = f0).
  { intros u. apply det_adjacent with p; auto. intros c C. unfold M, setrow. bcases. auto. }
  assert (ADD1 : forall u v w, det n (M (fun c => f1 * u c + f1 * v c) w) =
            det n (M u w) + det n (M v w)).
  { intros. unfold M. rewrite det_linear by lia. ring. }
  assert (COMM : forall u v, det n (M u v) = det n (setrow (S p) v (setrow p u A))).
  { intros. apply det_ext. intros i j I J. unfold M, setrow. bcases; auto. }
  assert (ADD2 : forall u v w, det n (M w (fun c => f1 * u c + f1 * v c)) =
            det n (M w u) + det n (M w v)).
  { intros. rewrite !COMM, det_linear by lia. ring. }
  pose proof (Z (fun c => f1 * a c + f1 * b c)) as S0.
  rewrite ADD1, !ADD2, !Z in S0.
  rewrite (det_ext n (swaprows p (S p) A) (M b a)).
  2:{ intros i j I J. unfold swaprows, M, setrow, a, b. bcases; subst; auto. }
  rewrite (det_ext n A (M a b)).
  2:{ intros i j I J. unfold M, setrow, a, b. bcases; subst; auto. }
  replace (det n (M b a)) with (f0 + det n (M a b) + (det n (M b a) + f0) - det n (M a b)) by ring.
  rewrite S0. ring.
Qed.

Theorem det_swap n : forall A p q, p < q -> q < n -> det n (swaprows p q A) = - det n A.
Proof.
  intros A p q. remember (q - p)%nat as d eqn:Ed. revert A p q Ed.
  induction d as [|d IH]; intros A p q Ed L Lq. { lia. }
  destruct (Nat.eq_dec q (S p)) as [->|N]. { now apply det_swap_adjacent. }
  rewrite (det_ext n _ (swaprows p (S p) (swaprows (S p) q (swaprows p (S p) A)))).
  2:{ intros i j I J. unfold swaprows. bcases; subst; auto. }
  rewrite det_swap_adjacent, (IH _ (S p) q), det_swap_adjacent by lia. ring.
Qed.

Lemma f2_nz (x : K) : x = - x -> x = f0.
Proof.
  intros E. assert (S : x + x = f0). { rewrite E at 2. ring. }
  destruct (fmul_0 (f1 + f1) x) as [C|C]; auto.
  - rewrite <- S. ring.
  - exfalso. assert (@f1 K = f0 /\ @f1 K = f0) as [C1 _].
    { apply fadd_0_nonneg; auto using f0_le_f1. }
    exact (f1_neq_f0 C1).
Qed.
Lemma det_equal_rows n A p q : p < q -> q < n ->
  (forall c, c < n -> A p c = A q c) -> det n A = f0.
Proof.
  intros L Lq E. apply f2_nz. rewrite <- (det_swap n A p q) by auto.
  apply det_ext. intros i j I J. unfold swaprows. bcases; subst; auto. symmetry; auto.
Qed.

(* adding a multiple of another row *)
Theorem det_addrow n A k i t : k < n -> i < n -> k <> i ->
  det n (setrow k (fun c => A k c + t * A i c) A) = det n A.
Proof.
  intros L Li N.
  rewrite (det_ext n _ (setrow k (fun c => f1 * A k c + t * A i c) A)).
  2:{ intros x y X Y. unfold setrow. bcases; auto. ring. }
  rewrite det_linear by auto.
  rewrite (det_ext n (setrow k (A k) A) A).
  2:{ intros x y X Y. unfold setrow. bcases; subst; auto. }
  assert (Z : det n (setrow k (A i) A) = f0).
  { destruct (lt_dec k i).
    - apply det_equal_rows with k i; auto. intros. unfold setrow. bcases. auto.
    - apply det_equal_rows with i k; auto; try lia. intros. unfold setrow. bcases. auto. }
  rewrite Z. ring.
Qed.

(* adding a combination of the rows before it *)
Lemma det_addrows n A k (t : nat -> K) m : k < n -> m <= k ->
  det n (setrow k (fun c => A k c + sumr 0 m (fun i => t i * A i c)) A) = det n A.
Proof.
  intros L. induction m as [|m IH]; intros Lm.
  - apply det_ext. intros i j I J. unfold setrow. bcases; subst; auto.
    rewrite sumr_nil by lia. ring.
  - rewrite <- IH by lia.
    rewrite <- (det_addrow n (setrow k (fun c => A k c + sumr 0 m (fun i => t i * A i c)) A)
                  k m (t m)) by lia.
    apply det_ext. intros i j I J. unfold setrow. bcases; auto.
    rewrite sumr_S by lia. ring.
Qed.

(* a zero row; upper triangular matrices *)
Theorem det_triangular n : forall A : matrix,
  (forall i j, j < i -> i < n -> A i j = f0) -> det n A = prodr n (fun i => A i i).
Proof.
  induction n as [|n IH]; intros A Z; auto.
  rewrite prodr_first. cbn [det]. rewrite (sumr_one _ _ _ 0%nat); try lia.
  - cbn [sgn]. rewrite IH. { unfold minor0. cbn [Nat.ltb Nat.leb]. ring. }
    intros i j L Ln. unfold minor0. bcases. apply Z; lia.
  - intros k Lk N. rewrite (Z k 0%nat) by lia. ring.
Qed.

(* the product of a unit lower triangular matrix and U has the determinant of U *)
Theorem det_unit_lower n (Lo U : matrix) :
  (forall i, i < n -> Lo i i = f1) ->
  det n (fun i j => sumr 0 (S i) (fun k => Lo i k * U k j)) = det n U.
Proof.
  intros D.
  assert (H : forall t, t <= n ->
    det n (fun i j => if n - t <=? i then sumr 0 (S i) (fun k => Lo i k * U k j) else U i j) =
    det n U).
  { induction t as [|t IH]; intros L.
    - apply det_ext. intros i j I J. bcases; auto.
    - rewrite <- IH by lia.
      set (k := (n - S t)%nat).
      set (M := fun i j => if n - t <=? i then sumr 0 (S i) (fun k => Lo i k * U k j) else U i j).
      rewrite <- (det_addrows n M k (fun i => Lo k i) k) by (unfold k; lia).
      apply det_ext. intros i j I J. unfold setrow, M. fold k.
      destruct (Nat.eqb_spec i k) as [->|N].
      + replace (n - t <=? k) with false by (symmetry; apply Nat.leb_gt; unfold k; lia).
        rewrite Nat.leb_refl. rewrite sumr_S by lia. rewrite D by lia.
        rewrite (sumr_ext 0 k (fun i => Lo k i * U i j) (fun i => Lo k i *
          (if n - t <=? i then sumr 0 (S i) (fun k0 => Lo i k0 * U k0 j) else U i j))). { ring. }
        intros x X. replace (n - t <=? x) with false; auto. symmetry. apply Nat.leb_gt.
        unfold k in *; lia.
      + unfold k in *. bcases; auto. }
  rewrite <- (H n) by lia. apply det_ext. intros i j I J.
  replace (n - n <=? i) with true; auto. symmetry. apply Nat.leb_le. lia.
Qed.

(* a matrix with a nonzero kernel vector is told by its determinant *)
Lemma det_setrow_zero n A r : r < n -> det n (setrow r (fun _ => f0) A) = f0.
Proof.
  intros L. rewrite (det_ext n _ (setrow r (fun c => f0 * f0 + f0 * f0) A)).
  - rewrite (det_linear n A r (fun _ => f0) (fun _ => f0)) by auto. ring.
  - intros. unfold setrow. bcases; auto. ring.
Qed.
End Det.
