(* Lemmas about the thermal model: the element matrices, what the constructor assembles,
   and what one step solves. *)
From Coq Require Import List ZArith Lia Bool Arith Field QArith Qcanon.
From Verif Require Import Base LinBase LinDet GaussModel GaussProofs PropsGauss
  TransposeModel PropsTranspose CholModel CholProofs LdlProofs PropsChol ThermalModel.
Import ListNotations.
Local Close Scope Qc_scope.
Local Close Scope Q_scope.
Local Open Scope nat_scope.

Section Thermal.
Context {K : ofield}.
Local Open Scope lin_scope.
Add Field Kf21 : (f_th K).
Notation matrix := (nat -> nat -> K).

(* ---------- the rationals in an ordered field ---------- *)

Lemma fadd_pos (x y : K) : fltb f0 x = true -> fle f0 y = true -> fltb f0 (x + y) = true.
Proof.
  intros A B. apply fltb_spec in A. destruct A as [A N]. apply fltb_spec. split.
  - now apply fadd_nonneg.
  - intros E. symmetry in E. apply fadd_0_nonneg in E; auto. destruct E; congruence.
Qed.
Lemma fmul_pos (x y : K) : fltb f0 x = true -> fltb f0 y = true -> fltb f0 (x * y) = true.
Proof.
  intros A B. apply fltb_spec in A, B. destruct A as [A N], B as [B M]. apply fltb_spec. split.
  - now apply fle_mul.
  - intros E. symmetry in E. apply fmul_0 in E. destruct E; congruence.
Qed.
Lemma pos_le (x : K) : fltb f0 x = true -> fle f0 x = true.
Proof. intros A. now apply fltb_spec in A. Qed.
Lemma f1_pos : fltb f0 (@f1 K) = true.
Proof. apply fltb_spec. split. { apply f0_le_f1. } intros E. now apply (@f1_neq_f0 K). Qed.
Lemma f2_pos : fltb f0 (@f1 K + f1) = true.
Proof. apply fadd_pos. { apply f1_pos. } apply f0_le_f1. Qed.
Lemma f2_nz : @f1 K + f1 <> f0.
Proof. apply fpos_nz, f2_pos. Qed.
Lemma finv_pos (x : K) : fltb f0 x = true -> fltb f0 (f1 / x) = true.
Proof.
  intros A. pose proof (fpos_nz _ A) as N. apply fltb_spec. split.
  - replace (f1 / x) with (x * ((f1 / x) * (f1 / x))) by (field; auto).
    apply fle_mul. { now apply pos_le. } apply fsqr_nonneg.
  - intros E. apply (@f1_neq_f0 K). replace f1 with (f1 / x * x) by (field; auto). rewrite <- E. ring.
Qed.
Lemma fdiv_pos (x y : K) : fltb f0 x = true -> fltb f0 y = true -> fltb f0 (x / y) = true.
Proof.
  intros A B. replace (x / y) with (x * (f1 / y)) by (field; now apply fpos_nz).
  apply fmul_pos; auto. now apply finv_pos.
Qed.
Lemma fsub_pos (x y : K) : fltb x y = true -> fltb f0 (y - x) = true.
Proof.
  intros A. apply fltb_spec in A. destruct A as [A N]. apply fltb_spec. split.
  - now apply (proj1 (fle_sub _ _)).
  - intros E. apply N. replace y with (y - x + x) by ring. rewrite <- E. ring.
Qed.

Lemma fpos_pos p : fltb f0 (@fpos K p) = true.
Proof.
  induction p; cbn [fpos].
  - apply fadd_pos. { apply f1_pos. } apply fle_mul; apply pos_le; auto. apply f2_pos.
  - apply fmul_pos; auto. apply f2_pos.
  - apply f1_pos.
Qed.
Lemma fpos_nz' p : @fpos K p <> f0.
Proof. apply fpos_nz, fpos_pos. Qed.
Lemma fpos_succ p : @fpos K (Pos.succ p) = f1 + fpos p.
Proof. induction p; cbn [fpos Pos.succ]; rewrite ?IHp; ring. Qed.
Lemma fpos_add p q : @fpos K (p + q)%positive = fpos p + fpos q.
Proof.
  induction p using Pos.peano_ind.
  - rewrite Pos.add_1_l, fpos_succ. auto.
  - rewrite Pos.add_succ_l, !fpos_succ, IHp. ring.
Qed.
Lemma fpos_mul p q : @fpos K (p * q)%positive = fpos p * fpos q.
Proof.
  induction p using Pos.peano_ind.
  - rewrite Pos.mul_1_l. cbn [fpos]. ring.
  - rewrite Pos.mul_succ_l, fpos_add, fpos_succ, IHp. ring.
Qed.
Lemma fz_pos_sub p q : @fz K (Z.pos_sub p q) = fpos p - fpos q.
Proof.
  rewrite Z.pos_sub_spec. destruct (Pos.compare_spec p q) as [->|L|L].
  - cbn. ring.
  - cbn [fz]. replace (fpos q) with (@fpos K (p + (q - p))%positive) by (f_equal; lia).
    rewrite fpos_add. ring.
  - cbn [fz]. replace (fpos p) with (@fpos K (q + (p - q))%positive) by (f_equal; lia).
    rewrite fpos_add. ring.
Qed.
Lemma fz_add x y : @fz K (x + y) = fz x + fz y.
Proof.
  destruct x as [|p|p], y as [|q|q]; cbn [Z.add]; rewrite ?fz_pos_sub; cbn [fz]; rewrite ?fpos_add; ring.
Qed.
Lemma fz_mul x y : @fz K (x * y) = fz x * fz y.
Proof. destruct x as [|p|p], y as [|q|q]; cbn [Z.mul fz]; rewrite ?fpos_mul; ring. Qed.
Lemma fq_add x y : @fq K (x + y)%Q = fq x + fq y.
Proof.
  unfold fq, Qplus. cbn [Qnum Qden]. rewrite fz_add, !fz_mul, fpos_mul. cbn [fz].
  field. split; apply fpos_nz'.
Qed.
Lemma fq_mul x y : @fq K (x * y)%Q = fq x * fq y.
Proof.
  unfold fq, Qmult. cbn [Qnum Qden]. rewrite fz_mul, fpos_mul. field. split; apply fpos_nz'.
Qed.
Lemma fq_eq x y : (x == y)%Q -> @fq K x = fq y.
Proof.
  unfold Qeq, fq. intros E. apply (f_equal (@fz K)) in E. rewrite !fz_mul in E. cbn [fz] in E.
  assert (A := fpos_nz' (Qden x)). assert (B := fpos_nz' (Qden y)).
  transitivity (@fz K (Qnum x) * fpos (Qden y) / (fpos (Qden x) * fpos (Qden y))). { field. auto. }
  rewrite E. field. auto.
Qed.
Lemma fq_0 x : (x == 0)%Q -> @fq K x = f0.
Proof. intros E. rewrite (fq_eq _ _ E). unfold fq. cbn. field. apply f1_neq_f0. Qed.
Lemma fq_pos x : (0 < x)%Q -> fltb f0 (@fq K x) = true.
Proof.
  unfold Qlt, fq. cbn. intros L. apply fdiv_pos; [|apply fpos_pos].
  destruct (Qnum x) as [|p|p]; [lia|apply fpos_pos|lia].
Qed.
Lemma fq_nonneg x : (0 <= x)%Q -> fle f0 (@fq K x) = true.
Proof.
  intros L. apply Qle_lteq in L. destruct L as [L|E].
  - apply pos_le. now apply fq_pos.
  - rewrite fq_0 by (symmetry; auto). apply fle_refl.
Qed.

(* ---------- the element matrices ---------- *)

Definition qel (M : list (list Q)) (i k : nat) : Q := nth k (nth i M []) 0%Q.
Definition KeM (w : nat) : list (list Q) := match w with 1 => Ke1 | 2 => Ke2 | _ => Ke4 end.
Definition FeM (w : nat) : list (list Q) := match w with 1 => Fe1 | 2 => Fe2 | _ => Fe4 end.
Definition order (w : nat) : Prop := w = 1 \/ w = 2 \/ w = 4.

Definition qsq (w : nat) (M : list (list Q)) : Prop :=
  length M = (w + 1)%nat /\ forall i, i <= w -> length (nth i M []) = (w + 1)%nat.
Lemma el2_ok w M i k : qsq w M -> i <= w -> k <= w -> el2 M i k = Ok (@fq K (qel M i k)).
Proof.
  intros [L R] I J. specialize (R i I). unfold el2.
  assert (A : aget M i = Ok (nth i M [])) by (apply aget_ok, nth_error_nth'; lia).
  assert (B : aget (nth i M []) k = Ok (qel M i k)) by (apply aget_ok, nth_error_nth'; lia).
  rewrite A. cbn [bind]. now rewrite B.
Qed.
Lemma Ke_sq w : order w -> qsq w (KeM w).
Proof.
  intros [->|[->| ->]]; split; auto; intros i L;
    repeat (destruct i as [|i]; [reflexivity|try lia]).
Qed.
Lemma Fe_sq w : order w -> qsq w (FeM w).
Proof.
  intros [->|[->| ->]]; split; auto; intros i L;
    repeat (destruct i as [|i]; [reflexivity|try lia]).
Qed.

(* facts about matrices of rationals that can be computed *)
Definition all_upto (w : nat) (f : nat -> bool) : bool := forallb f (seq 0 (w + 1)).
Lemma all_upto_ok w f : all_upto w f = true -> forall i, i <= w -> f i = true.
Proof. unfold all_upto. rewrite forallb_forall. intros H i L. apply H. apply in_seq. lia. Qed.
Fixpoint qsum (k : nat) (f : nat -> Q) : Q :=
  match k with O => 0%Q | S k => (qsum k f + f k)%Q end.
Lemma fq_sum k f : sumr 0 k (fun i => @fq K (f i)) = fq (qsum k f).
Proof.
  induction k; cbn [qsum].
  - rewrite sumr_nil by lia. rewrite fq_0; [auto|reflexivity].
  - rewrite sumr_S, IHk, fq_add by lia. auto.
Qed.

Definition sym_b (w : nat) (M : list (list Q)) : bool :=
  all_upto w (fun i => all_upto w (fun k => Qeq_bool (qel M i k) (qel M k i))).
Lemma sym_ok w M : sym_b w M = true -> forall i k, i <= w -> k <= w -> @fq K (qel M i k) = fq (qel M k i).
Proof.
  intros H i k I J. apply fq_eq. apply Qeq_bool_iff.
  apply (all_upto_ok w _ (all_upto_ok w _ H i I) k J).
Qed.
Definition rows0_b (w : nat) (M : list (list Q)) : bool :=
  all_upto w (fun i => Qeq_bool (qsum (w + 1) (qel M i)) 0).
Lemma rows0_ok w M : rows0_b w M = true -> forall i, i <= w ->
  sumr 0 (w + 1)%nat (fun k => @fq K (qel M i k)) = f0.
Proof.
  intros H i I. rewrite (fq_sum _ (qel M i)). apply fq_0. apply Qeq_bool_iff.
  apply (all_upto_ok w _ H i I).
Qed.
(* M = L' D L *)
Definition ldl_b (w : nat) (M : list (list Q)) (D : list Q) (L : list (list Q)) : bool :=
  all_upto w (fun i => all_upto w (fun k =>
    Qeq_bool (qel M i k) (qsum (w + 1) (fun r => nth r D 0 * qel L r i * qel L r k)%Q))).
Definition quad (w : nat) (M : list (list Q)) (x : nat -> K) : K :=
  sumr 0 (w + 1)%nat (fun i => sumr 0 (w + 1)%nat (fun k => x i * fq (qel M i k) * x k)).
Lemma ldl_ok w M D L : ldl_b w M D L = true -> forall x,
  quad w M x = sumr 0 (w + 1)%nat (fun r => fq (nth r D 0%Q) *
    (sumr 0 (w + 1)%nat (fun i => fq (qel L r i) * x i) * sumr 0 (w + 1)%nat (fun i => fq (qel L r i) * x i))).
Proof.
  intros H x. unfold quad.
  transitivity (sumr 0 (w + 1)%nat (fun i => sumr 0 (w + 1)%nat (fun k => sumr 0 (w + 1)%nat (fun r =>
    fq (nth r D 0%Q) * ((fq (qel L r i) * x i) * (fq (qel L r k) * x k)))))).
  - apply sumr_ext. intros i I. apply sumr_ext. intros k J.
    rewrite (fq_eq (qel M i k) (qsum (w + 1) (fun r => nth r D 0 * qel L r i * qel L r k)%Q)).
    2:{ apply Qeq_bool_iff. apply (all_upto_ok w _ (all_upto_ok w _ H i ltac:(lia)) k ltac:(lia)). }
    rewrite <- fq_sum. transitivity ((x i * x k) * sumr 0 (w + 1)%nat
      (fun r => fq (nth r D 0 * qel L r i * qel L r k)%Q)). { ring. }
    rewrite <- sumr_scale. apply sumr_ext. intros r R. rewrite !fq_mul. ring.
  - erewrite sumr_ext. 2:{ intros i I. apply sumr_swap. }
    rewrite sumr_swap. apply sumr_ext. intros r R. rewrite <- sumr_scale_r, <- sumr_scale.
    apply sumr_ext. intros i I. rewrite <- !sumr_scale. apply sumr_ext. intros. ring.
Qed.
Definition nonneg_b (w : nat) (D : list Q) : bool := all_upto w (fun r => Qle_bool 0 (nth r D 0%Q)).
Lemma ldl_nonneg w M D L : ldl_b w M D L = true -> nonneg_b w D = true -> forall x, fle f0 (quad w M x) = true.
Proof.
  intros H N x. rewrite (ldl_ok w M D L H). apply sumr_nonneg. intros r R. apply fle_mul.
  - apply fq_nonneg. apply Qle_bool_iff. apply (all_upto_ok w _ N). lia.
  - apply fsqr_nonneg.
Qed.
Lemma sumr_0_terms lo hi (f : nat -> K) : (forall k, lo <= k < hi -> fle f0 (f k) = true) ->
  sumr lo hi f = f0 -> forall k, lo <= k < hi -> f k = f0.
Proof.
  intros N E k L. rewrite (sumr_split lo k hi), (sumr_first k hi) in E by lia.
  apply fadd_0_nonneg in E.
  - destruct E as [_ E]. apply fadd_0_nonneg in E; try tauto. { apply N; lia. }
    apply sumr_nonneg. intros; apply N; lia.
  - apply sumr_nonneg. intros; apply N; lia.
  - apply fadd_nonneg. { apply N; lia. } apply sumr_nonneg. intros; apply N; lia.
Qed.
Definition pos_b (w : nat) (D : list Q) : bool := all_upto w (fun r => negb (Qle_bool (nth r D 0%Q) 0)).
(* L is upper triangular with ones on the diagonal *)
Definition unit_b (w : nat) (L : list (list Q)) : bool :=
  all_upto w (fun r => Qeq_bool (qel L r r) 1 &&
    all_upto w (fun i => if i <? r then Qeq_bool (qel L r i) 0 else true)).
Lemma ldl_definite w M D L : ldl_b w M D L = true -> pos_b w D = true -> unit_b w L = true ->
  forall x, quad w M x = f0 -> forall i, i <= w -> x i = f0.
Proof.
  intros H N U x E.
  assert (P : forall r, r <= w -> (0 < nth r D 0)%Q).
  { intros r R. pose proof (all_upto_ok w _ N r R) as X. cbn beta in X. apply negb_true_iff in X.
    apply Qnot_le_lt. intros Y. apply Qle_bool_iff in Y. congruence. }
  assert (Z : forall r, r <= w -> sumr 0 (w + 1)%nat (fun i => fq (qel L r i) * x i) = f0).
  { intros r R. rewrite (ldl_ok w M D L H) in E.
    assert (T : fq (nth r D 0%Q) *
      (sumr 0 (w + 1)%nat (fun i => fq (qel L r i) * x i) * sumr 0 (w + 1)%nat (fun i => fq (qel L r i) * x i)) = f0).
    { refine (sumr_0_terms 0 (w + 1)%nat _ _ E r _); [|lia]. intros k L'. apply fle_mul.
      - apply pos_le, fq_pos, P. lia. - apply fsqr_nonneg. }
    apply fmul_0 in T. destruct T as [T|T]. { now apply (fpos_nz _ (fq_pos _ (P r R))) in T. }
    now apply fsqr_0. }
  (* from the last component up *)
  assert (B : forall d i, d <= w -> w - d <= i <= w -> x i = f0).
  { induction d; intros i Dw Li.
    - assert (i = w) by lia. subst i. pose proof (Z w ltac:(lia)) as Zw.
      rewrite (sumr_one 0 (w + 1)%nat _ w) in Zw; try lia.
      + pose proof (all_upto_ok w _ U w ltac:(lia)) as X. apply andb_true_iff in X. destruct X as [X _].
        rewrite (fq_eq _ _ (proj1 (Qeq_bool_iff _ _) X)) in Zw. apply fmul_0 in Zw.
        destruct Zw as [Zw|Zw]; auto. exfalso. apply (fpos_nz (@fq K 1)) in Zw; auto.
        apply fq_pos. reflexivity.
      + intros k L1 L2. pose proof (all_upto_ok w _ U w ltac:(lia)) as X. apply andb_true_iff in X.
        destruct X as [_ X]. pose proof (all_upto_ok w _ X k ltac:(lia)) as Y. cbn beta in Y.
        replace (k <? w) with true in Y by (symmetry; apply Nat.ltb_lt; lia).
        rewrite fq_0 by (now apply Qeq_bool_iff). ring.
    - destruct (Nat.eq_dec i (w - S d)) as [Ei|Ni]; [|apply IHd; lia].
      pose proof (Z i ltac:(lia)) as Zi.
      rewrite (sumr_one 0 (w + 1)%nat _ i) in Zi; try lia.
      + pose proof (all_upto_ok w _ U i ltac:(lia)) as X. apply andb_true_iff in X. destruct X as [X _].
        rewrite (fq_eq _ _ (proj1 (Qeq_bool_iff _ _) X)) in Zi. apply fmul_0 in Zi.
        destruct Zi as [Zi|Zi]; auto. exfalso. apply (fpos_nz (@fq K 1)) in Zi; auto.
        apply fq_pos. reflexivity.
      + intros k L1 L2. destruct (Nat.lt_ge_cases k i) as [Lk|Lk].
        * pose proof (all_upto_ok w _ U i ltac:(lia)) as X. apply andb_true_iff in X.
          destruct X as [_ X]. pose proof (all_upto_ok w _ X k ltac:(lia)) as Y. cbn beta in Y.
          replace (k <? i) with true in Y by (symmetry; apply Nat.ltb_lt; lia).
          rewrite fq_0 by (now apply Qeq_bool_iff). ring.
        * rewrite IHd by lia. ring. }
  intros i I. apply (B w); lia.
Qed.

Definition FD (w : nat) : list Q := match w with
  | 1 => [2#3; 1#2]%Q | 2 => [4#15; 1#1; 2#9]%Q
  | _ => [292#2835; 36304#68985; 146176#238245; 1024#1713; 2#25]%Q end.
Definition FL (w : nat) : list (list Q) := match w with
  | 1 => [[1; 1#2]; [0; 1]]%Q
  | 2 => [[1; 1#2; -1#4]; [0; 1; 1#6]; [0; 0; 1]]%Q
  | _ => [[1; 74#73; -87#146; 14#73; -29#292]; [0; 1; -1263#9076; 303#2269; 1039#18152];
          [0; 0; 1; -106#571; -3769#36544]; [0; 0; 0; 1; 97#640]; [0; 0; 0; 0; 1]]%Q end.
Definition KD (w : nat) : list Q := match w with
  | 1 => [1#2; 0]%Q | 2 => [7#6; 8#7; 0]%Q
  | _ => [985#378; 834688#221625; 111608#32605; 32768#13951; 0]%Q end.
Definition KL (w : nat) : list (list Q) := match w with
  | 1 => [[1; -1]; [0; 1]]%Q
  | 2 => [[1; -8#7; 1#7]; [0; 1; -1]; [0; 0; 1]]%Q
  | _ => [[1; -6848#4925; 3048#4925; -1472#4925; 347#4925]; [0; 1; -18267#13042; 3519#6521; -1813#13042];
          [0; 0; 1; -17072#13951; 3121#13951]; [0; 0; 0; 1; -1]; [0; 0; 0; 0; 1]]%Q end.
Lemma Ke_sym w : order w -> forall i k, i <= w -> k <= w -> @fq K (qel (KeM w) i k) = fq (qel (KeM w) k i).
Proof. intros [->|[->| ->]]; apply sym_ok; vm_compute; auto. Qed.
Lemma Fe_sym w : order w -> forall i k, i <= w -> k <= w -> @fq K (qel (FeM w) i k) = fq (qel (FeM w) k i).
Proof. intros [->|[->| ->]]; apply sym_ok; vm_compute; auto. Qed.
Lemma Ke_rows w : order w -> forall i, i <= w -> sumr 0 (w + 1)%nat (fun k => @fq K (qel (KeM w) i k)) = f0.
Proof. intros [->|[->| ->]]; apply rows0_ok; vm_compute; auto. Qed.
Lemma Ke_nonneg w : order w -> forall x, fle f0 (quad w (KeM w) x) = true.
Proof.
  intros O. apply (ldl_nonneg w (KeM w) (KD w) (KL w)); destruct O as [->|[->| ->]]; vm_compute; auto.
Qed.
Lemma Fe_nonneg w : order w -> forall x, fle f0 (quad w (FeM w) x) = true.
Proof.
  intros O. apply (ldl_nonneg w (FeM w) (FD w) (FL w)); destruct O as [->|[->| ->]]; vm_compute; auto.
Qed.
Lemma Fe_definite w : order w -> forall x, quad w (FeM w) x = f0 -> forall i, i <= w -> x i = f0.
Proof.
  intros O. apply (ldl_definite w (FeM w) (FD w) (FL w)); destruct O as [->|[->| ->]]; vm_compute; auto.
Qed.
End Thermal.
