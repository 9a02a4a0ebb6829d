(* Common vocabulary of the linear algebra models: ordered fields, finite sums,
   counted loops with a rule for their invariants, and matrices stored row by row in
   a flat array.

   Doubles are modelled as the elements of an ordered field: the arithmetic is exact.
   A field is passed around as a record, so each theorem holds for the rationals, the
   reals and any other ordered field.  Index arithmetic is unbounded (the code uses 32
   bits: n*n < 2^32 is assumed). *)
From Coq Require Import List ZArith Lia Bool Arith Field QArith Qcanon.
From Verif Require Import Base.
Import ListNotations.
Local Close Scope Qc_scope.
Local Close Scope Q_scope.
Local Open Scope nat_scope.

Record ofield : Type := {
  car :> Type;
  f0 : car; f1 : car;
  fadd : car -> car -> car; fmul : car -> car -> car; fsub : car -> car -> car;
  fopp : car -> car; fdiv : car -> car -> car; finv : car -> car;
  fle : car -> car -> bool;
  f_th : field_theory f0 f1 fadd fmul fsub fopp fdiv finv (@eq car);
  fle_antisym : forall x y, fle x y = true -> fle y x = true -> x = y;
  fle_trans : forall x y z, fle x y = true -> fle y z = true -> fle x z = true;
  fle_total : forall x y, fle x y = true \/ fle y x = true;
  fle_add : forall x y z, fle x y = true -> fle (fadd x z) (fadd y z) = true;
  fle_mul : forall x y, fle f0 x = true -> fle f0 y = true -> fle f0 (fmul x y) = true }.
Arguments f0 {o}. Arguments f1 {o}.
Arguments fadd {o}. Arguments fmul {o}. Arguments fsub {o}. Arguments fopp {o}.
Arguments fdiv {o}. Arguments finv {o}. Arguments fle {o}.

Declare Scope lin_scope.
Delimit Scope lin_scope with lin.
Notation "x + y" := (fadd x y) : lin_scope.
Notation "x * y" := (fmul x y) : lin_scope.
Notation "x - y" := (fsub x y) : lin_scope.
Notation "- x" := (fopp x) : lin_scope.
Notation "x / y" := (fdiv x y) : lin_scope.

Section Field.
Context {K : ofield}.
Local Open Scope lin_scope.
Add Field Kf : (f_th K).

(* ==, < and fabs of the code *)
Definition feqb (x y : K) : bool := fle x y && fle y x.
Definition fltb (x y : K) : bool := negb (fle y x).
Definition fabs (x : K) : K := if fle f0 x then x else - x.
(* a division of the code; by zero it is reported, not computed *)
Definition divc (x y : K) : outcome K := if feqb y f0 then UB DivByZero else Ok (x / y).

Lemma fle_refl x : @fle K x x = true.
Proof. destruct (fle_total K x x); auto. Qed.
Lemma feqb_spec (x y : K) : reflect (x = y) (feqb x y).
Proof.
  unfold feqb. destruct (fle x y) eqn:A, (fle y x) eqn:B; cbn; constructor.
  - apply fle_antisym; auto.
  - intros ->. rewrite fle_refl in *; discriminate.
  - intros ->. rewrite fle_refl in *; discriminate.
  - intros ->. rewrite fle_refl in *; discriminate.
Qed.
Lemma f_eq_dec (x y : K) : {x = y} + {x <> y}.
Proof. destruct (feqb_spec x y); auto. Qed.
Lemma f1_neq_f0 : @f1 K <> f0.
Proof. exact (F_1_neq_0 (f_th K)). Qed.
Lemma fmul_0 (x y : K) : x * y = f0 -> x = f0 \/ y = f0.
Proof.
  intros E. destruct (f_eq_dec x f0) as [|N]; auto. right.
  replace y with ((x * y) / x) by (field; auto). rewrite E. field; auto.
Qed.
Lemma fmul_nz (x y : K) : x <> f0 -> y <> f0 -> x * y <> f0.
Proof. intros A B E. destruct (fmul_0 _ _ E); auto. Qed.
Lemma fle_sub x y : @fle K x y = true <-> fle f0 (y - x) = true.
Proof.
  split; intros A.
  - apply fle_add with (z := - x) in A.
    replace (x + - x) with (@f0 K) in A by ring. now replace (y - x) with (y + - x) by ring.
  - apply fle_add with (z := x) in A.
    replace (f0 + x) with x in A by ring. now replace (y - x + x) with y in A by ring.
Qed.
Lemma fltb_spec (x y : K) : fltb x y = true <-> fle x y = true /\ x <> y.
Proof.
  unfold fltb. rewrite negb_true_iff. split.
  - intros A. split. { destruct (fle_total K x y); congruence. }
    intros ->. rewrite fle_refl in A; discriminate.
  - intros [A B]. destruct (fle y x) eqn:C; auto. destruct B. apply fle_antisym; auto.
Qed.
Lemma fltb_irr (x : K) : fltb x x = false.
Proof. unfold fltb. now rewrite fle_refl. Qed.
Lemma fsqr_nonneg (x : K) : fle f0 (x * x) = true.
Proof.
  destruct (fle_total K f0 x) as [A|A]. { now apply fle_mul. }
  apply fle_sub in A. replace (x * x) with ((f0 - x) * (f0 - x)) by ring. now apply fle_mul.
Qed.
Lemma f0_le_f1 : @fle K f0 f1 = true.
Proof. replace (@f1 K) with (@f1 K * f1) by ring. apply fsqr_nonneg. Qed.
Lemma fpos_nz (x : K) : fltb f0 x = true -> x <> f0.
Proof. intros A ->. now rewrite fltb_irr in A. Qed.
Lemma fadd_nonneg (x y : K) : fle f0 x = true -> fle f0 y = true -> fle f0 (x + y) = true.
Proof.
  intros A B. apply fle_trans with y; auto.
  replace y with (f0 + y) at 1 by ring. now apply fle_add.
Qed.
Lemma fadd_0_nonneg (x y : K) :
  fle f0 x = true -> fle f0 y = true -> x + y = f0 -> x = f0 /\ y = f0.
Proof.
  intros A B E. assert (x = f0).
  { apply fle_antisym; auto. apply fle_sub. replace (f0 - x) with y; auto.
    rewrite <- E. ring. }
  split; auto. subst. rewrite <- E. ring.
Qed.
Lemma fsqr_0 (x : K) : x * x = f0 -> x = f0.
Proof. intros E. destruct (fmul_0 _ _ E); auto. Qed.
Lemma fabs_0 (x : K) : fabs x = f0 <-> x = f0.
Proof.
  unfold fabs. destruct (fle f0 x); [tauto|]. split; intros E.
  - replace x with (- - x) by ring. rewrite E. ring.
  - rewrite E. ring.
Qed.
Lemma fabs_nonneg (x : K) : fle f0 (fabs x) = true.
Proof.
  unfold fabs. destruct (fle f0 x) eqn:E; auto.
  destruct (fle_total K f0 x) as [A|A]; [congruence|].
  apply fle_sub in A. now replace (f0 - x) with (- x) in A by ring.
Qed.
Lemma divc_ok (x y : K) : y <> f0 -> divc x y = Ok (x / y).
Proof. unfold divc. destruct (feqb_spec y f0); tauto. Qed.

(* ---------- sums over lo <= k < hi ---------- *)

Fixpoint sumr_aux (lo k : nat) (f : nat -> K) : K :=
  match k with
  | O => f0
  | S k => sumr_aux lo k f + f (lo + k)%nat
  end.
Definition sumr (lo hi : nat) (f : nat -> K) : K := sumr_aux lo (hi - lo) f.

Lemma sumr_nil lo hi f : hi <= lo -> sumr lo hi f = f0.
Proof. unfold sumr. intros A. now replace (hi - lo)%nat with O by lia. Qed.
Lemma sumr_S lo hi f : lo <= hi -> sumr lo (S hi) f = sumr lo hi f + f hi.
Proof.
  unfold sumr. intros A. replace (S hi - lo)%nat with (S (hi - lo)) by lia. cbn.
  now replace (lo + (hi - lo))%nat with hi by lia.
Qed.
Lemma sumr_ext lo hi f g :
  (forall k, lo <= k < hi -> f k = g k) -> sumr lo hi f = sumr lo hi g.
Proof.
  destruct (le_lt_dec hi lo) as [L|L]. { now rewrite !sumr_nil. }
  intros A. unfold sumr. assert (B : forall k, k < hi - lo -> f (lo + k)%nat = g (lo + k)%nat).
  { intros. apply A. lia. }
  clear A. induction (hi - lo)%nat as [|d IH]; cbn; auto. rewrite IH, B; auto.
Qed.
Lemma sumr_split lo mid hi f : lo <= mid <= hi ->
  sumr lo hi f = sumr lo mid f + sumr mid hi f.
Proof.
  intros [A B]. induction B.
  - rewrite (sumr_nil mid) by lia. ring.
  - rewrite !sumr_S by lia. rewrite IHB. ring.
Qed.
Lemma sumr_first lo hi f : lo < hi -> sumr lo hi f = f lo + sumr (S lo) hi f.
Proof.
  intros A. rewrite (sumr_split lo (S lo)) by lia. rewrite sumr_S, sumr_nil by lia. ring.
Qed.
Lemma sumr_add lo hi f g :
  sumr lo hi (fun k => f k + g k) = sumr lo hi f + sumr lo hi g.
Proof. unfold sumr. induction (hi - lo)%nat; cbn. ring. rewrite IHn. ring. Qed.
Lemma sumr_sub lo hi f g :
  sumr lo hi (fun k => f k - g k) = sumr lo hi f - sumr lo hi g.
Proof. unfold sumr. induction (hi - lo)%nat; cbn. ring. rewrite IHn. ring. Qed.
Lemma sumr_scale lo hi c f : sumr lo hi (fun k => c * f k) = c * sumr lo hi f.
Proof. unfold sumr. induction (hi - lo)%nat; cbn. ring. rewrite IHn. ring. Qed.
Lemma sumr_scale_r lo hi c f : sumr lo hi (fun k => f k * c) = sumr lo hi f * c.
Proof. unfold sumr. induction (hi - lo)%nat; cbn. ring. rewrite IHn. ring. Qed.
Lemma sumr_zero lo hi f : (forall k, lo <= k < hi -> f k = f0) -> sumr lo hi f = f0.
Proof.
  intros A. rewrite (sumr_ext _ _ _ (fun _ => f0) A).
  unfold sumr. induction (hi - lo)%nat; cbn; auto. rewrite IHn. ring.
Qed.
Lemma sumr_swap lo hi lo' hi' f :
  sumr lo hi (fun k => sumr lo' hi' (fun l => f k l)) =
  sumr lo' hi' (fun l => sumr lo hi (fun k => f k l)).
Proof.
  induction hi as [|hi IH].
  - rewrite sumr_nil by lia. symmetry. apply sumr_zero. intros. apply sumr_nil. lia.
  - destruct (le_lt_dec lo hi).
    + rewrite sumr_S, IH, <- sumr_add by lia. apply sumr_ext. intros. now rewrite sumr_S.
    + rewrite sumr_nil by lia. symmetry. apply sumr_zero. intros. apply sumr_nil. lia.
Qed.
Lemma sumr_one lo hi f i : lo <= i < hi -> (forall k, lo <= k < hi -> k <> i -> f k = f0) ->
  sumr lo hi f = f i.
Proof.
  intros A B. rewrite (sumr_split lo i hi), (sumr_first i hi) by lia.
  rewrite (sumr_zero lo i), (sumr_zero (S i) hi).
  - ring.
  - intros; apply B; lia.
  - intros; apply B; lia.
Qed.
Lemma sumr_nonneg lo hi f :
  (forall k, lo <= k < hi -> fle f0 (f k) = true) -> fle f0 (sumr lo hi f) = true.
Proof.
  unfold sumr. intros A. assert (B : forall k, k < hi - lo -> fle f0 (f (lo + k)%nat) = true).
  { intros. apply A. lia. }
  clear A. induction (hi - lo)%nat as [|d IH]; cbn. { apply fle_refl. }
  apply fadd_nonneg; auto.
Qed.
Lemma sumr_sq_0 lo hi f :
  sumr lo hi (fun k => f k * f k) = f0 -> forall k, lo <= k < hi -> f k = f0.
Proof.
  destruct (le_lt_dec hi lo). { lia. }
  induction hi; intros E k L. { lia. }
  destruct (Nat.eq_dec lo hi) as [->|].
  - rewrite sumr_S, sumr_nil in E by lia. replace k with hi by lia. apply fsqr_0.
    rewrite <- E. ring.
  - rewrite sumr_S in E by lia. apply fadd_0_nonneg in E.
    + destruct E as [E1 E2]. destruct (Nat.eq_dec k hi) as [->|]; [now apply fsqr_0|].
      apply IHhi; auto; lia.
    + apply sumr_nonneg. intros. apply fsqr_nonneg.
    + apply fsqr_nonneg.
Qed.

(* ---------- matrices in flat arrays ---------- *)

(* the array l holds the n x m matrix A, row by row *)
Definition mat (n m : nat) (l : list K) (A : nat -> nat -> K) : Prop :=
  length l = (n * m)%nat /\ forall i j, i < n -> j < m -> nth_error l (i * m + j) = Some (A i j).
(* the array l holds the vector v *)
Definition vec (n : nat) (l : list K) (v : nat -> K) : Prop :=
  length l = n /\ forall i, i < n -> nth_error l i = Some (v i).

Definition updm (A : nat -> nat -> K) (i j : nat) (x : K) : nat -> nat -> K :=
  fun r c => if (r =? i) && (c =? j) then x else A r c.
Definition updv (v : nat -> K) (i : nat) (x : K) : nat -> K :=
  fun r => if r =? i then x else v r.

Lemma idx_lt n m i j : i < n -> j < m -> (i * m + j < n * m)%nat.
Proof. nia. Qed.
Lemma idx_inj m i j i' j' : j < m -> j' < m -> (i * m + j = i' * m + j')%nat -> i = i' /\ j = j'.
Proof. intros. assert (i = i') by nia. subst. lia. Qed.

Lemma mat_ext n m l A B : mat n m l A -> (forall i j, i < n -> j < m -> A i j = B i j) -> mat n m l B.
Proof. intros [L E] X. split; auto. intros. rewrite E, X; auto. Qed.
Lemma vec_ext n l A B : vec n l A -> (forall i, i < n -> A i = B i) -> vec n l B.
Proof. intros [L E] X. split; auto. intros. rewrite E, X; auto. Qed.
Lemma mat_fun n m l A B : mat n m l A -> mat n m l B ->
  forall i j, i < n -> j < m -> A i j = B i j.
Proof. intros [_ E] [_ F] i j X Y. specialize (E i j X Y). rewrite F in E by auto. congruence. Qed.
Lemma vec_fun n l A B : vec n l A -> vec n l B -> forall i, i < n -> A i = B i.
Proof. intros [_ E] [_ F] i X. specialize (E i X). rewrite F in E by auto. congruence. Qed.
Lemma mat_get n m l A i j : mat n m l A -> i < n -> j < m -> aget l (i * m + j) = Ok (A i j).
Proof. intros [_ E] X Y. apply aget_ok. auto. Qed.
Lemma vec_get n l v i : vec n l v -> i < n -> aget l i = Ok (v i).
Proof. intros [_ E] X. apply aget_ok. auto. Qed.
Lemma mat_set n m l A i j x : mat n m l A -> i < n -> j < m ->
  exists l', aset l (i * m + j) x = Ok l' /\ mat n m l' (updm A i j x).
Proof.
  intros [L E] X Y. pose proof (idx_lt n m i j X Y).
  exists (upd l (i * m + j) x). split. { apply aset_ok. lia. }
  split. { now rewrite length_upd. }
  intros r c R C. unfold updm.
  destruct (Nat.eqb_spec r i), (Nat.eqb_spec c j); subst; cbn [andb];
    try (apply nth_error_upd_eq; lia);
    (rewrite nth_error_upd_ne; [now apply E|]); intros Q; apply idx_inj in Q; lia.
Qed.
Lemma vec_set n l v i x : vec n l v -> i < n ->
  exists l', aset l i x = Ok l' /\ vec n l' (updv v i x).
Proof.
  intros [L E] X. exists (upd l i x). split. { apply aset_ok. lia. }
  split. { now rewrite length_upd. }
  intros r R. unfold updv. destruct (Nat.eqb_spec r i); subst.
  - apply nth_error_upd_eq. lia.
  - rewrite nth_error_upd_ne by auto. auto.
Qed.
Lemma mat_of n m (l : list K) : length l = (n * m)%nat ->
  mat n m l (fun i j => nth (i * m + j) l f0).
Proof.
  intros L. split; auto. intros i j I J. apply nth_error_nth'. rewrite L. now apply idx_lt.
Qed.
Lemma vec_of n (l : list K) : length l = n -> vec n l (fun i => nth i l f0).
Proof. intros L. split; auto. intros i I. apply nth_error_nth'. lia. Qed.
Lemma vec_mat n l v : vec n l v <-> mat n 1 l (fun i _ => v i).
Proof.
  unfold vec, mat. rewrite Nat.mul_1_r. split; intros [A B]; split; auto.
  - intros i j I J. replace (i * 1 + j)%nat with i by lia. auto.
  - intros i I. specialize (B i 0%nat I). replace (i * 1 + 0)%nat with i in B by lia. auto.
Qed.
End Field.

(* ---------- loops and what holds of their outcome ---------- *)

(* for (i = lo; i < hi; i++) s = body(i, s) *)
Fixpoint loopn {S : Type} (k i : nat) (body : nat -> S -> outcome S) (s : S) : outcome S :=
  match k with
  | O => Ok s
  | S k => let* s := body i s in loopn k (i + 1) body s
  end.
Definition for_up {S : Type} (lo hi : nat) (body : nat -> S -> outcome S) (s : S) : outcome S :=
  loopn (hi - lo) lo body s.
(* for (i = hi; i > lo; i--) s = body(i, s) *)
Fixpoint loopd {S : Type} (k i : nat) (body : nat -> S -> outcome S) (s : S) : outcome S :=
  match k with
  | O => Ok s
  | S k => let* s := body i s in loopd k (i - 1) body s
  end.
Definition for_down {S : Type} (hi lo : nat) (body : nat -> S -> outcome S) (s : S) : outcome S :=
  loopd (hi - lo) hi body s.

(* no undefined behaviour; Q of the value returned, E of the exception thrown *)
Definition wp {A} (m : outcome A) (Q : A -> Prop) (E : exn -> Prop) : Prop :=
  match m with Ok a => Q a | Throw e => E e | UB _ => False end.

Lemma wp_ok {A} (a : A) (Q : A -> Prop) E : Q a -> wp (Ok a) Q E.
Proof. auto. Qed.
Lemma wp_bind {A B} (m : outcome A) (k : A -> outcome B) (Q : B -> Prop) E :
  wp m (fun a => wp (k a) Q E) E -> wp (bind m k) Q E.
Proof. destruct m; cbn; auto. Qed.
Lemma wp_conseq {A} (m : outcome A) (P Q : A -> Prop) (E F : exn -> Prop) :
  wp m P E -> (forall a, P a -> Q a) -> (forall e, E e -> F e) -> wp m Q F.
Proof. destruct m; cbn; auto. Qed.
Lemma wp_mono {A} (m : outcome A) (P Q : A -> Prop) (E : exn -> Prop) :
  wp m P E -> (forall a, P a -> Q a) -> wp m Q E.
Proof. destruct m; cbn; auto. Qed.
Lemma wp_seq {A B} (m : outcome A) (k : A -> outcome B) (P : A -> Prop) (Q : B -> Prop) E :
  wp m P E -> (forall a, P a -> wp (k a) Q E) -> wp (bind m k) Q E.
Proof. destruct m; cbn; auto. Qed.
Lemma wp_for {S : Type} lo hi body (s : S) (P : nat -> S -> Prop) E :
  lo <= hi -> P lo s ->
  (forall i s, lo <= i < hi -> P i s -> wp (body i s) (P (i + 1)) E) ->
  wp (for_up lo hi body s) (P hi) E.
Proof.
  unfold for_up. intros L P0 H.
  remember (hi - lo) as k eqn:Ek. revert lo s L P0 H Ek.
  induction k; intros lo s L P0 H Ek; cbn.
  - now replace hi with lo by lia.
  - apply wp_seq with (P := P (lo + 1)). { apply H; auto. lia. }
    intros a Pa. apply IHk; auto; try lia. intros. apply H; auto. lia.
Qed.
Lemma wp_down {S : Type} hi lo body (s : S) (P : nat -> S -> Prop) E :
  lo <= hi -> P hi s ->
  (forall i s, lo < i <= hi -> P i s -> wp (body i s) (P (i - 1)) E) ->
  wp (for_down hi lo body s) (P lo) E.
Proof.
  unfold for_down. intros L P0 H.
  remember (hi - lo) as k eqn:Ek. revert hi s L P0 H Ek.
  induction k; intros hi s L P0 H Ek; cbn.
  - now replace lo with hi by lia.
  - apply wp_seq with (P := P (hi - 1)). { apply H; auto. lia. }
    intros a Pa. apply IHk; auto; try lia. intros. apply H; auto. lia.
Qed.
(* a loop that is not entered *)
Lemma for_up_nil {S : Type} lo hi body (s : S) : hi <= lo -> for_up lo hi body s = Ok s.
Proof. unfold for_up. intros. now replace (hi - lo) with 0 by lia. Qed.

(* reads and writes *)
Lemma wp_mget {K : ofield} {n m} {l : list K} {A i j} (Q : K -> Prop) E :
  mat n m l A -> i < n -> j < m -> Q (A i j) -> wp (aget l (i * m + j)) Q E.
Proof. intros X I J H. rewrite (mat_get n m l A) by auto. exact H. Qed.
Lemma wp_vget {K : ofield} {n} {l : list K} {v i} (Q : K -> Prop) E :
  vec n l v -> i < n -> Q (v i) -> wp (aget l i) Q E.
Proof. intros X I H. rewrite (vec_get n l v) by auto. exact H. Qed.
Lemma wp_mset {K : ofield} {n m} {l : list K} {A i j x} (Q : list K -> Prop) E :
  mat n m l A -> i < n -> j < m ->
  (forall l', mat n m l' (updm A i j x) -> Q l') -> wp (aset l (i * m + j) x) Q E.
Proof.
  intros X I J H. destruct (mat_set n m l A i j x X I J) as (l' & -> & M). cbn. auto.
Qed.
Lemma wp_vset {K : ofield} {n} {l : list K} {v i x} (Q : list K -> Prop) E :
  vec n l v -> i < n ->
  (forall l', vec n l' (updv v i x) -> Q l') -> wp (aset l i x) Q E.
Proof.
  intros X I H. destruct (vec_set n l v i x X I) as (l' & -> & M). cbn. auto.
Qed.
Lemma wp_divc {K : ofield} (x y : K) (Q : K -> Prop) E :
  y <> f0 -> Q (fdiv x y) -> wp (divc x y) Q E.
Proof. intros N H. rewrite divc_ok by auto. exact H. Qed.

(* decide the comparisons of indices in a goal *)
Ltac noif a := lazymatch a with context [if _ then _ else _] => fail | _ => idtac end.
Ltac bcases := cbn beta;
  repeat (match goal with
  | |- context [Nat.eqb ?a ?b] => noif a; noif b; destruct (Nat.eqb_spec a b)
  | |- context [Nat.ltb ?a ?b] => noif a; noif b; destruct (Nat.ltb_spec a b)
  | |- context [Nat.leb ?a ?b] => noif a; noif b; destruct (Nat.leb_spec a b)
  end; cbn [andb orb negb]; try lia).

(* ---------- the rationals ---------- *)

Definition Qc_le (x y : Qc) : bool := Qle_bool x y.
Lemma Qc_le_iff x y : Qc_le x y = true <-> (x <= y)%Qc.
Proof. unfold Qc_le. apply Qle_bool_iff. Qed.
Definition QcF : ofield.
Proof.
  refine {| car := Qc; f0 := Q2Qc 0; f1 := Q2Qc 1; fadd := Qcplus; fmul := Qcmult;
            fsub := Qcminus; fopp := Qcopp; fdiv := Qcdiv; finv := Qcinv; fle := Qc_le;
            f_th := Qcft |}.
  - intros x y A B. apply Qcle_antisym; now apply Qc_le_iff.
  - intros x y z A B. apply Qc_le_iff. apply Qcle_trans with y; now apply Qc_le_iff.
  - intros x y. rewrite !Qc_le_iff. destruct (Qclt_le_dec x y) as [C|C]; auto.
    left. now apply Qclt_le_weak.
  - intros x y z A. apply Qc_le_iff. apply Qcplus_le_compat. now apply Qc_le_iff.
    apply Qcle_refl.
  - intros x y A B. apply Qc_le_iff. apply Qc_le_iff in A, B.
    replace (Q2Qc 0) with (Q2Qc 0 * y)%Qc by ring. now apply Qcmult_le_compat_r.
Defined.
Definition qz (z : Z) : QcF := Q2Qc (inject_Z z).
