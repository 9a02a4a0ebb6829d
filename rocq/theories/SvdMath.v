(* Reflections and rotations, for the singular value decomposition. *)
From Coq Require Import List Lia Bool Arith Field.
From Verif Require Import Base LinBase.
Import ListNotations.
Local Open Scope nat_scope.

Section Math.
Context {K : ofield}.
Local Open Scope lin_scope.
Add Field Kf33 : (f_th K).
Notation matrix := (nat -> nat -> K).
Notation vect := (nat -> K).

Definition delta (i j : nat) : K := if i =? j then f1 else f0.

(* (I + v v'/h) M, with v of size N *)
Definition RL (N : nat) (v : vect) (h : K) (M : matrix) : matrix :=
  fun r c => M r c + v r * sumr 0 N (fun t => v t * M t c) / h.
(* M (I + v v'/h) *)
Definition RR (N : nat) (v : vect) (h : K) (M : matrix) : matrix := fun r c => RL N v h (fun a b => M b a) c r.
(* a reflection, or nothing *)
Definition refok (N : nat) (v : vect) (h : K) : Prop :=
  (h <> f0 /\ sumr 0 N (fun t => v t * v t) = - (h + h)) \/ (forall t, t < N -> v t = f0).

Lemma div_0 (x h : K) : x = f0 -> x / h = f0.
Proof. intros ->. rewrite (Field_theory.Fdiv_def (f_th K)). ring. Qed.
Lemma RL_trivial N v h (M : matrix) r c : (forall t, t < N -> v t = f0) -> r < N -> RL N v h M r c = M r c.
Proof. intros Z R. unfold RL. rewrite div_0. { ring. } rewrite Z by auto. ring. Qed.
Lemma RL_ext N v h (M M' : matrix) r c : r < N -> (forall t, t < N -> M t c = M' t c) -> RL N v h M r c = RL N v h M' r c.
Proof.
  intros R H. unfold RL. rewrite H by auto. rewrite (sumr_ext 0 N _ (fun t => v t * M' t c)); auto.
  intros t Lt. now rewrite H by lia.
Qed.
Lemma RL_ext_v N v v' h (M : matrix) r c : r < N -> (forall t, t < N -> v t = v' t) -> RL N v h M r c = RL N v' h M r c.
Proof.
  intros R H. unfold RL. rewrite H by auto. rewrite (sumr_ext 0 N _ (fun t => v' t * M t c)); auto.
  intros t Lt. now rewrite H by lia.
Qed.
Lemma refok_ext N v v' h : (forall t, t < N -> v t = v' t) -> refok N v h -> refok N v' h.
Proof.
  intros H [[Z S]|Z]; [left|right].
  - split; auto. rewrite <- S. apply sumr_ext. intros t Lt. rewrite H by lia. reflexivity.
  - intros t T. rewrite <- H; auto.
Qed.
Lemma RL_dotv N v h (M : matrix) c : refok N v h -> h <> f0 ->
  sumr 0 N (fun t => v t * RL N v h M t c) = - sumr 0 N (fun t => v t * M t c).
Proof.
  intros Hr Hh. unfold RL. set (s := sumr 0 N (fun t => v t * M t c)).
  rewrite (sumr_ext 0 N _ (fun t => v t * M t c + s / h * (v t * v t))) by (intros; field; auto).
  rewrite sumr_add, sumr_scale. fold s. destruct Hr as [[_ ->]|Z].
  - field. auto.
  - rewrite (sumr_zero 0 N (fun t => v t * v t)) by (intros t Lt; rewrite Z by lia; ring).
    assert (s = f0) as ->. { apply sumr_zero. intros t Lt. rewrite Z by lia. ring. } field. auto.
Qed.
Lemma RL_RL N v h (M : matrix) r c : refok N v h -> r < N -> RL N v h (RL N v h M) r c = M r c.
Proof.
  intros Hr R. destruct (f_eq_dec h f0) as [Eh|Hh].
  - destruct Hr as [[X _]|Z]; [contradiction|]. rewrite !RL_trivial by auto. auto.
  - unfold RL at 1. rewrite RL_dotv by auto. unfold RL. field. auto.
Qed.
(* inner products of columns are kept *)
Lemma RL_inner N v h (M M' : matrix) c d : refok N v h ->
  sumr 0 N (fun t => RL N v h M t c * RL N v h M' t d) = sumr 0 N (fun t => M t c * M' t d).
Proof.
  intros Hr. destruct (f_eq_dec h f0) as [Eh|Hh].
  - destruct Hr as [[X _]|Z]; [contradiction|].
    apply sumr_ext. intros t Lt. rewrite !RL_trivial by (auto; lia). auto.
  - set (s := sumr 0 N (fun t => v t * M t c)).
    rewrite (sumr_ext 0 N _ (fun t => M t c * RL N v h M' t d + s / h * (v t * RL N v h M' t d))).
    2:{ intros t Lt. unfold RL at 1. fold s. field. auto. }
    rewrite sumr_add, sumr_scale, RL_dotv by auto. set (s' := sumr 0 N (fun t => v t * M' t d)).
    rewrite (sumr_ext 0 N _ (fun t => M t c * M' t d + s' / h * (v t * M t c))).
    2:{ intros t Lt. unfold RL. fold s'. field. auto. }
    rewrite sumr_add, sumr_scale. fold s. field. auto.
Qed.

(* U B V', with B of size n x n *)
Definition P3 (n : nat) (U B V : matrix) : matrix := fun r t =>
  sumr 0 n (fun l => sumr 0 n (fun k => U r l * B l k * V t k)).
Lemma P3_ext n (U U' B B' V V' : matrix) r t :
  (forall l, l < n -> U r l = U' r l) -> (forall l k, l < n -> k < n -> B l k = B' l k) ->
  (forall k, k < n -> V t k = V' t k) -> P3 n U B V r t = P3 n U' B' V' r t.
Proof.
  intros HU HB HV. apply sumr_ext. intros l Ll. apply sumr_ext. intros k Lk.
  rewrite HU, HB, HV by lia. reflexivity.
Qed.
Lemma P3_flip n (U B V : matrix) r t : P3 n U B V r t = P3 n V (fun a b => B b a) U t r.
Proof.
  unfold P3. rewrite sumr_swap. apply sumr_ext. intros l Ll. apply sumr_ext. intros k Lk. ring.
Qed.
Lemma P3_left N n v h (U B V : matrix) r t : RL N v h (P3 n U B V) r t = P3 n (RL N v h U) B V r t.
Proof.
  unfold RL, P3.
  transitivity (sumr 0 n (fun l => sumr 0 n (fun k => U r l * B l k * V t k)) +
    sumr 0 n (fun l => sumr 0 n (fun k => v r * sumr 0 N (fun p => v p * U p l) / h * B l k * V t k))).
  2:{ rewrite <- sumr_add. apply sumr_ext. intros l Ll. rewrite <- sumr_add. apply sumr_ext. intros k Lk. ring. }
  f_equal.
  rewrite (sumr_ext 0 N _ (fun p => sumr 0 n (fun l => sumr 0 n (fun k => v p * U p l * (B l k * V t k))))).
  2:{ intros p Lp. rewrite <- sumr_scale. apply sumr_ext. intros l Ll. rewrite <- sumr_scale. apply sumr_ext. intros k Lk. ring. }
  rewrite sumr_swap.
  rewrite (Field_theory.Fdiv_def (f_th K)), <- sumr_scale, <- sumr_scale_r. apply sumr_ext. intros l Ll.
  rewrite sumr_swap, <- sumr_scale, <- sumr_scale_r. apply sumr_ext. intros k Lk.
  rewrite sumr_scale_r. rewrite (Field_theory.Fdiv_def (f_th K)). ring.
Qed.
Lemma P3_right N n v h (U B V : matrix) r t : RR N v h (P3 n U B V) r t = P3 n U B (RL N v h V) r t.
Proof.
  rewrite P3_flip, <- P3_left. unfold RR, RL. rewrite P3_flip. f_equal. f_equal. f_equal.
  apply sumr_ext. intros p Lp. f_equal. apply P3_flip.
Qed.
Lemma P3_delta n (B : matrix) r t : r < n -> t < n -> P3 n delta B delta r t = B r t.
Proof.
  intros R T. unfold P3. rewrite (sumr_one 0 n _ r); [|lia|].
  - rewrite (sumr_one 0 n _ t); [|lia|].
    + unfold delta. rewrite !Nat.eqb_refl. ring.
    + intros k Lk Nk. unfold delta. destruct (Nat.eqb_spec t k); [lia|]. ring.
  - intros l Ll Nl. apply sumr_zero. intros k Lk. unfold delta. destruct (Nat.eqb_spec r l); [lia|]. ring.
Qed.
Lemma P3_delta_0 n (B V : matrix) r t : n <= r -> P3 n delta B V r t = f0.
Proof.
  intros R. unfold P3. apply sumr_zero. intros l Ll. apply sumr_zero. intros k Lk.
  unfold delta. destruct (Nat.eqb_spec r l); [lia|]. ring.
Qed.

(* columns c and d, turned *)
Definition rc (c d : nat) (C S : K) (M : matrix) : matrix := fun r k =>
  if k =? c then M r d * S + M r c * C else if k =? d then M r d * C - M r c * S else M r k.
Lemma sumr_two n c d (f : vect) : c < n -> d < n -> c <> d ->
  sumr 0 n f = f c + f d + sumr 0 n (fun k => if k =? c then f0 else if k =? d then f0 else f k).
Proof.
  intros Lc Ld N.
  assert (E : sumr 0 n f = sumr 0 n (fun k => if k =? c then f k else f0) + sumr 0 n (fun k => if k =? d then f k else f0)
    + sumr 0 n (fun k => if k =? c then f0 else if k =? d then f0 else f k)).
  { rewrite <- !sumr_add. apply sumr_ext. intros k Lk.
    destruct (Nat.eqb_spec k c), (Nat.eqb_spec k d); try lia; ring. }
  rewrite E, (sumr_one 0 n _ c), (sumr_one 0 n _ d); try lia.
  - now rewrite !Nat.eqb_refl.
  - intros k Lk Nk. destruct (Nat.eqb_spec k d); [lia|auto].
  - intros k Lk Nk. destruct (Nat.eqb_spec k c); [lia|auto].
Qed.
Lemma rc_dot n c d C S (M M' : matrix) r t : c < n -> d < n -> c <> d -> C * C + S * S = f1 ->
  sumr 0 n (fun k => rc c d C S M r k * rc c d C S M' t k) = sumr 0 n (fun k => M r k * M' t k).
Proof.
  intros Lc Ld N E. rewrite (sumr_two n c d) by auto. rewrite (sumr_two n c d (fun k => M r k * M' t k)) by auto.
  f_equal.
  - unfold rc. rewrite !Nat.eqb_refl. destruct (Nat.eqb_spec d c); [lia|].
    transitivity ((M r c * M' t c + M r d * M' t d) * (C * C + S * S)); [ring|rewrite E; ring].
  - apply sumr_ext. intros k Lk. unfold rc. destruct (Nat.eqb_spec k c); auto. destruct (Nat.eqb_spec k d); auto.
Qed.
(* turned in V and the columns of B *)
Lemma P3_rc_right n c d C S (U B V : matrix) r t : c < n -> d < n -> c <> d -> C * C + S * S = f1 ->
  P3 n U (rc c d C S B) (rc c d C S V) r t = P3 n U B V r t.
Proof.
  intros Lc Ld N E. unfold P3. apply sumr_ext. intros l Ll.
  rewrite (sumr_ext 0 n _ (fun k => U r l * (rc c d C S B l k * rc c d C S V t k))) by (intros; ring).
  rewrite sumr_scale, rc_dot, <- sumr_scale by auto. apply sumr_ext. intros. ring.
Qed.
Definition rr (c d : nat) (C S : K) (M : matrix) : matrix := fun r k => rc c d C S (fun a b => M b a) k r.
(* turned in U and the rows of B *)
Lemma P3_rc_left n c d C S (U B V : matrix) r t : c < n -> d < n -> c <> d -> C * C + S * S = f1 ->
  P3 n (rc c d C S U) (rr c d C S B) V r t = P3 n U B V r t.
Proof.
  intros Lc Ld N E. rewrite P3_flip. rewrite (P3_flip n U). unfold rr. now apply P3_rc_right.
Qed.
(* columns of U stay orthonormal *)
Definition ocols (N n : nat) (U : matrix) : Prop :=
  forall i j, i < n -> j < n -> sumr 0 N (fun t => U t i * U t j) = delta i j.
Lemma ocols_rc N n c d C S U : c < n -> d < n -> c <> d -> C * C + S * S = f1 -> ocols N n U -> ocols N n (rc c d C S U).
Proof.
  intros Lc Ld Ncd E O i j Li Lj.
  assert (X : forall p q, sumr 0 N (fun t => (U t d * p + U t c * q) * (U t d * p + U t c * q)) = p * p + q * q).
  { intros p q. rewrite (sumr_ext 0 N _ (fun t => p * p * (U t d * U t d) + ((p * q + p * q) * (U t c * U t d) + q * q * (U t c * U t c)))) by (intros; ring).
    rewrite !sumr_add, !sumr_scale, !O by auto. unfold delta. rewrite !Nat.eqb_refl.
    destruct (Nat.eqb_spec c d); [lia|]. ring. }
  assert (Y : forall p q k, k < n -> k <> c -> k <> d -> sumr 0 N (fun t => (U t d * p + U t c * q) * U t k) = f0).
  { intros p q k Lk N1 N2. rewrite (sumr_ext 0 N _ (fun t => p * (U t d * U t k) + q * (U t c * U t k))) by (intros; ring).
    rewrite !sumr_add, !sumr_scale, !O by auto. unfold delta.
    destruct (Nat.eqb_spec c k), (Nat.eqb_spec d k); try lia. ring. }
  assert (Z : sumr 0 N (fun t => (U t d * S + U t c * C) * (U t d * C - U t c * S)) = f0).
  { rewrite (sumr_ext 0 N _ (fun t => S * C * (U t d * U t d) + ((C * C - S * S) * (U t c * U t d) + - (S * C) * (U t c * U t c)))) by (intros; ring).
    rewrite !sumr_add, !sumr_scale, !O by auto. unfold delta. rewrite !Nat.eqb_refl.
    destruct (Nat.eqb_spec c d); [lia|]. ring. }
  unfold rc, delta. destruct (Nat.eqb_spec i c) as [->|Nic], (Nat.eqb_spec j c) as [->|Njc].
  - rewrite Nat.eqb_refl, X. rewrite <- E. ring.
  - destruct (Nat.eqb_spec c j); [lia|]. destruct (Nat.eqb_spec j d) as [->|Njd]; [exact Z|]. now apply Y.
  - destruct (Nat.eqb_spec i c); [lia|]. destruct (Nat.eqb_spec i d) as [->|Nid].
    + rewrite <- Z. apply sumr_ext. intros. ring.
    + rewrite <- (Y S C i) by auto. apply sumr_ext. intros. ring.
  - destruct (Nat.eqb_spec i d) as [->|Nid], (Nat.eqb_spec j d) as [->|Njd].
    + rewrite Nat.eqb_refl. transitivity (sumr 0 N (fun t => (U t d * C + U t c * - S) * (U t d * C + U t c * - S))).
      { apply sumr_ext. intros. ring. } rewrite X. rewrite <- E. ring.
    + destruct (Nat.eqb_spec d j); [lia|]. rewrite <- (Y C (- S) j) by auto. apply sumr_ext. intros. ring.
    + destruct (Nat.eqb_spec i d); [lia|]. rewrite <- (Y C (- S) i) by auto. apply sumr_ext. intros. ring.
    + rewrite O by auto. reflexivity.
Qed.
Lemma ocols_RL N n v h U : refok N v h -> ocols N n U -> ocols N n (RL N v h U).
Proof. intros H O i j I J. rewrite RL_inner by auto. now apply O. Qed.

(* a matrix whose columns up to i are bidiagonal, with a zero on the diagonal at i only, takes
   some vector other than 0 to 0 *)
Definition injective (m n : nat) (M : matrix) : Prop :=
  forall x : vect, (forall r, r < m -> sumr 0 n (fun c => M r c * x c) = f0) -> forall c, c < n -> x c = f0.
Fixpoint kvec (M : matrix) (i k : nat) : K :=  (* x (i - k) *)
  match k with O => f1 | S k' => - (M (i - k)%nat (i - k + 1)%nat * kvec M i k' / M (i - k)%nat (i - k)%nat) end.
Lemma bidiag_diag m n (M : matrix) i : i < n -> injective m n M ->
  (forall r c, r < m -> c <= i -> r <> c -> (r + 1)%nat <> c -> M r c = f0) ->
  (forall c, c < i -> M c c <> f0) -> (i < m -> M i i = f0) -> False.
Proof.
  intros I Inj B D Z.
  set (x := fun c => if c <=? i then kvec M i (i - c) else f0).
  assert (X : x i = f0).
  { apply Inj; auto. intros r R.
    destruct (Nat.lt_ge_cases r i) as [Lr|Ge].
    - rewrite (sumr_two n r (r + 1)) by lia. rewrite sumr_zero.
      + unfold x. destruct (Nat.leb_spec r i), (Nat.leb_spec (r + 1) i); try lia.
        replace (i - r)%nat with (S (i - (r + 1))) by lia. cbn [kvec].
        replace (i - S (i - (r + 1)))%nat with r by lia. field. auto.
      + intros k Lk. destruct (Nat.eqb_spec k r); auto. destruct (Nat.eqb_spec k (r + 1)); auto.
        unfold x. destruct (Nat.leb_spec k i); [rewrite B by lia; ring|ring].
    - apply sumr_zero. intros c Lc. unfold x. destruct (Nat.leb_spec c i); [|ring].
      destruct (Nat.eq_dec r c) as [->|Nr].
      + replace c with i by lia. rewrite Z by lia. ring.
      + rewrite B by lia. ring. }
  unfold x in X. rewrite Nat.leb_refl, Nat.sub_diag in X. cbn in X. now apply f1_neq_f0 in X.
Qed.
Lemma injective_ext m n (M M' : matrix) : (forall r c, r < m -> c < n -> M r c = M' r c) -> injective m n M -> injective m n M'.
Proof.
  intros H Inj x X. apply Inj. intros r R. rewrite <- (X r R). apply sumr_ext. intros c Lc. rewrite H by lia. auto.
Qed.
Lemma RL_0 N v h r c : RL N v h (fun _ _ => f0) r c = f0.
Proof.
  unfold RL. rewrite (sumr_zero 0 N) by (intros; ring). rewrite div_0 by ring. ring.
Qed.
Lemma RL_apply N n v h (M : matrix) (x : vect) r :
  sumr 0 n (fun c => RL N v h M r c * x c) = RL N v h (fun t _ => sumr 0 n (fun c => M t c * x c)) r 0%nat.
Proof.
  unfold RL. rewrite (sumr_ext 0 n _ (fun c => M r c * x c + v r / h * (sumr 0 N (fun t => v t * M t c) * x c))).
  2:{ intros c Lc. rewrite !(Field_theory.Fdiv_def (f_th K)). ring. }
  rewrite sumr_add, sumr_scale. f_equal.
  rewrite (sumr_ext 0 n _ (fun c => sumr 0 N (fun t => v t * (M t c * x c)))).
  2:{ intros c Lc. rewrite <- sumr_scale_r. apply sumr_ext. intros. ring. }
  rewrite sumr_swap. rewrite (sumr_ext 0 N _ (fun t => v t * sumr 0 n (fun c => M t c * x c))) by (intros; now rewrite sumr_scale).
  rewrite !(Field_theory.Fdiv_def (f_th K)). ring.
Qed.
Lemma injective_RL m n v h (M : matrix) : refok m v h -> injective m n M -> injective m n (RL m v h M).
Proof.
  intros Hr Inj x X. apply Inj. intros r R.
  rewrite <- (RL_RL m v h (fun t _ => sumr 0 n (fun c => M t c * x c)) r 0%nat) by auto.
  rewrite (RL_ext m v h _ (fun _ _ => f0)); auto.
  - apply RL_0.
  - intros t T. rewrite <- RL_apply. auto.
Qed.
Lemma RR_apply n v h (M : matrix) (x : vect) r :
  sumr 0 n (fun c => RR n v h M r c * x c) = sumr 0 n (fun c => M r c * RL n v h (fun t _ => x t) c 0%nat).
Proof.
  unfold RR, RL.
  rewrite (sumr_ext 0 n _ (fun c => M r c * x c + sumr 0 n (fun t => v t * M r t) / h * (v c * x c))).
  2:{ intros c Lc. rewrite !(Field_theory.Fdiv_def (f_th K)). ring. }
  rewrite (sumr_ext 0 n (fun c => M r c * (x c + _)) (fun c => M r c * x c + sumr 0 n (fun t => v t * x t) / h * (v c * M r c))).
  2:{ intros c Lc. rewrite !(Field_theory.Fdiv_def (f_th K)). ring. }
  rewrite !sumr_add, !sumr_scale. rewrite !(Field_theory.Fdiv_def (f_th K)). ring.
Qed.
Lemma injective_RR m n v h (M : matrix) : refok n v h -> injective m n M -> injective m n (RR n v h M).
Proof.
  intros Hr Inj x X c C.
  rewrite <- (RL_RL n v h (fun t _ => x t) c 0%nat) by auto.
  rewrite (RL_ext n v h _ (fun _ _ => f0)); auto. { apply RL_0. }
  intros t T. apply (Inj (fun c => RL n v h (fun t _ => x t) c 0%nat)); auto.
  intros r R. rewrite <- RR_apply. auto.
Qed.
End Math.
