(* Common vocabulary of all models: outcomes with undefined behaviour kept as a
   separate result, checked array access, 32-bit unsigned wrap. *)
From Coq Require Import List ZArith Lia Bool Arith Permutation.
Import ListNotations.

(* Ways in which C++ code can leave defined behaviour. *)
Inductive fault : Set :=
| OutOfBounds      (* array access outside the live elements *)
| NullDeref        (* dereference of a null pointer *)
| Uninit           (* use of an element that was never constructed *)
| UseAfterFree     (* access to a destroyed object *)
| SignedOverflow   (* int arithmetic outside [-2^31,2^31) *)
| DivByZero
| OutOfFuel.       (* the loop or recursion of the code does not stop in the
                      number of rounds the model grants it *)

(* Exceptions the code throws. *)
Inductive exn : Set :=
| OutOfRange
| InvalidArgument
| RuntimeError
| BadAlloc.

Inductive outcome (A : Type) : Type :=
| Ok (a : A)
| Throw (e : exn)
| UB (f : fault).
Arguments Ok {A} a.
Arguments Throw {A} e.
Arguments UB {A} f.

Definition bind {A B} (m : outcome A) (k : A -> outcome B) : outcome B :=
  match m with
  | Ok a => k a
  | Throw e => Throw e
  | UB f => UB f
  end.

Notation "'let*' x ':=' m 'in' k" := (bind m (fun x => k))
  (at level 200, x pattern, m at level 100, k at level 200, right associativity).

(* Checked array read and write. *)
Definition aget {A} (l : list A) (i : nat) : outcome A :=
  match nth_error l i with
  | Some x => Ok x
  | None => UB OutOfBounds
  end.

Fixpoint upd {A} (l : list A) (i : nat) (x : A) : list A :=
  match l, i with
  | [], _ => []
  | _ :: t, O => x :: t
  | h :: t, S j => h :: upd t j x
  end.

Definition aset {A} (l : list A) (i : nat) (x : A) : outcome (list A) :=
  if i <? length l then Ok (upd l i x) else UB OutOfBounds.

(* Wrap to an unsigned 32-bit int. *)
Definition u32 (x : Z) : Z := Z.modulo x (2 ^ 32).
Definition UINT_MAX : Z := (2 ^ 32 - 1)%Z.
Definition u64 (x : Z) : Z := Z.modulo x (2 ^ 64).

(* ---- facts ---- *)

Lemma bind_ok {A B} (m : outcome A) (k : A -> outcome B) b :
  bind m k = Ok b <-> exists a, m = Ok a /\ k a = Ok b.
Proof.
  destruct m; simpl; split.
  - intros; eexists; split; eauto.
  - intros (a' & E & H); injection E as <-; exact H.
  - discriminate.
  - intros (? & ? & ?); discriminate.
  - discriminate.
  - intros (? & ? & ?); discriminate.
Qed.

Lemma length_upd {A} (l : list A) i x : length (upd l i x) = length l.
Proof. revert i; induction l; destruct i; simpl; auto. Qed.

Lemma nth_error_upd_eq {A} (l : list A) i x :
  i < length l -> nth_error (upd l i x) i = Some x.
Proof. revert i; induction l; destruct i; simpl; intros; try lia; auto; apply IHl; lia. Qed.

Lemma nth_error_upd_ne {A} (l : list A) i j x :
  i <> j -> nth_error (upd l i x) j = nth_error l j.
Proof.
  revert i j; induction l; destruct i, j; simpl; intros; auto; try lia.
Qed.

Lemma nth_error_upd {A} (l : list A) i j x :
  nth_error (upd l i x) j =
  if (i =? j) && (i <? length l) then Some x else nth_error l j.
Proof.
  destruct (Nat.eqb_spec i j).
  - subst; destruct (Nat.ltb_spec j (length l)); simpl.
    + apply nth_error_upd_eq; auto.
    + assert (L : length (upd l j x) <= j) by (rewrite length_upd; lia).
      apply nth_error_None in L; rewrite L.
      symmetry; apply nth_error_None; lia.
  - simpl; apply nth_error_upd_ne; auto.
Qed.

Lemma aget_ok {A} (l : list A) i x : aget l i = Ok x <-> nth_error l i = Some x.
Proof. unfold aget; destruct (nth_error l i); split; congruence. Qed.

Lemma aset_ok {A} (l : list A) i x :
  i < length l -> aset l i x = Ok (upd l i x).
Proof. unfold aset; intros; destruct (Nat.ltb_spec i (length l)); auto; lia. Qed.

Lemma nth_error_lt {A} (l : list A) i x : nth_error l i = Some x -> i < length l.
Proof. intros; apply nth_error_Some; congruence. Qed.

Lemma map_upd {A B} (f : A -> B) l i x : map f (upd l i x) = upd (map f l) i (f x).
Proof. revert i; induction l; destruct i; simpl; f_equal; auto. Qed.

Lemma upd_same {A} (l : list A) i x : nth_error l i = Some x -> upd l i x = l.
Proof. revert i; induction l; destruct i; simpl; intros; try congruence; f_equal; auto. Qed.

Lemma upd_app_r {A} (l1 l2 : list A) i x :
  length l1 <= i -> upd (l1 ++ l2) i x = l1 ++ upd l2 (i - length l1) x.
Proof.
  revert i; induction l1; simpl; intros.
  - f_equal; lia.
  - destruct i; simpl; [lia|]. f_equal. apply IHl1; lia.
Qed.

Lemma upd_app_l {A} (l1 l2 : list A) i x :
  i < length l1 -> upd (l1 ++ l2) i x = upd l1 i x ++ l2.
Proof.
  revert i; induction l1; simpl; intros; [lia|].
  destruct i; simpl; auto. f_equal. apply IHl1; lia.
Qed.

(* A three-way comparison that is a total preorder: what every keyed container of
   the code requires of its key type. *)
Record total_preorder {K : Type} (kcmp : K -> K -> comparison) : Prop := {
  cmp_sym : forall x y, kcmp y x = CompOpp (kcmp x y);
  cmp_trans : forall x y z, kcmp x y = Lt -> kcmp y z = Lt -> kcmp x z = Lt;
  cmp_cong : forall x y z, kcmp x y = Eq -> kcmp x z = kcmp y z
}.

Lemma cmp_refl {K} (kcmp : K -> K -> comparison) x :
  total_preorder kcmp -> kcmp x x = Eq.
Proof.
  intros H; pose proof (cmp_sym _ H x x) as E; destruct (kcmp x x); simpl in E; congruence.
Qed.

Lemma cmp_cong_r {K} (kcmp : K -> K -> comparison) x y z :
  total_preorder kcmp -> kcmp x y = Eq -> kcmp z x = kcmp z y.
Proof.
  intros H E. rewrite (cmp_sym _ H x z), (cmp_sym _ H y z).
  f_equal. apply (cmp_cong _ H); auto.
Qed.

Lemma cmp_gt_lt {K} (kcmp : K -> K -> comparison) x y :
  total_preorder kcmp -> kcmp x y = Gt -> kcmp y x = Lt.
Proof. intros H E. rewrite (cmp_sym _ H x y), E; reflexivity. Qed.
Lemma cmp_lt_gt {K} (kcmp : K -> K -> comparison) x y :
  total_preorder kcmp -> kcmp x y = Lt -> kcmp y x = Gt.
Proof. intros H E. rewrite (cmp_sym _ H x y), E; reflexivity. Qed.
Lemma cmp_eq_sym {K} (kcmp : K -> K -> comparison) x y :
  total_preorder kcmp -> kcmp x y = Eq -> kcmp y x = Eq.
Proof. intros H E. rewrite (cmp_sym _ H x y), E; reflexivity. Qed.

Lemma Zcompare_total : total_preorder Z.compare.
Proof.
  constructor.
  - intros; apply Z.compare_antisym.
  - intros x y z; rewrite !Z.compare_lt_iff; lia.
  - intros x y z; rewrite Z.compare_eq_iff; intros ->; reflexivity.
Qed.
