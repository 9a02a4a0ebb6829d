(* Cholesky and LDL' factorisations (C41). *)
From Coq Require Import List ZArith Lia Bool Arith Field QArith Qcanon.
From Verif Require Import Base LinBase LinDet GaussModel GaussProofs PropsGauss LuModel LuProofs PropsLu
  TransposeModel PropsTranspose CholModel CholProofs LdlProofs.
Import ListNotations.
Local Close Scope Qc_scope.
Local Close Scope Q_scope.
Local Open Scope nat_scope.

(* ---------- specification ---------- *)

(* the matrix is given by its elements; what the packed arrays stand for *)
Definition tri_el {K : ofield} (a : list K) (i j : nat) : K :=
  nth (T_IDX (Nat.min i j) (Nat.max i j)) a f0.
Definition band_el {K : ofield} (n w : nat) (a : list K) (i j : nat) : K :=
  if Nat.max i j <=? Nat.min i j + w then nth (B_IDX n w (Nat.min i j) (Nat.max i j)) a f0 else f0.
Definition symmetric {K : ofield} (n : nat) (S : nat -> nat -> K) : Prop :=
  forall i j, i < n -> j < n -> S i j = S j i.
Definition is_solution {K : ofield} (n : nat) (S : nat -> nat -> K) (x b : list K) : Prop :=
  length x = n /\ forall i, i < n -> sumr 0 n (fun k => fmul (S i k) (nth k x f0)) = nth i b f0.
(* y' S y > 0 for all y other than zero *)
Definition positive_definite {K : ofield} (n : nat) (S : nat -> nat -> K) : Prop :=
  forall y : nat -> K, (exists i, i < n /\ y i <> f0) ->
    fltb f0 (sumr 0 n (fun i => sumr 0 n (fun j => fmul (fmul (y i) (S i j)) (y j)))) = true.
(* S = U'U, U upper triangular *)
Definition upper_factor {K : ofield} (n : nat) (S U : nat -> nat -> K) : Prop :=
  (forall i, i < n -> U i i <> f0) /\ (forall i j, j < i -> U i j = f0) /\
  forall i j, i < n -> j < n -> S i j = sumr 0 n (fun k => fmul (U k i) (U k j)).
(* the leading part of order i+1 takes a vector that ends in 1 to (0, .., 0, v), v small: the
   last pivot is v, so without the threshold only singular leading parts would be refused *)
Definition small_pivot {K : ofield} (eps : K) (n : nat) (S0 : nat -> nat -> K) : Prop :=
  exists i (y : nat -> K), i < n /\ y i = f1 /\
    (forall r, r < i -> sumr 0 (S i) (fun c => fmul (S0 r c) (y c)) = f0) /\
    fltb (fabs (sumr 0 (S i) (fun c => fmul (S0 i c) (y c)))) eps = true.
(* square roots of what is positive *)
Definition has_sqrt {K : ofield} (sq : K -> K) : Prop :=
  forall x, fltb f0 x = true -> fmul (sq x) (sq x) = x.

Section Proofs.
Context {K : ofield}.
Local Open Scope lin_scope.
Add Field Kf10 : (f_th K).
Notation matrix := (nat -> nat -> K).

Lemma pd_ext n (S T : matrix) : (forall i j, i < n -> j < n -> S i j = T i j) ->
  positive_definite n S -> positive_definite n T.
Proof.
  intros E P y H. rewrite <- (P y H). f_equal. apply sumr_ext. intros i Li. apply sumr_ext.
  intros j Lj. now rewrite E by lia.
Qed.

Section Inst.
Variable n N : nat.
Variable ix : nat -> nat -> nat.
Variables lo hi : nat -> nat.
Variable sq : K -> K.
Hypothesis sqok : has_sqrt sq.
Hypothesis ix_in : forall i j, dom n lo i j -> ix i j < N.
Hypothesis ix_inj : forall i j i' j', dom n lo i j -> dom n lo i' j' -> ix i j = ix i' j' -> i = i' /\ j = j'.
Hypothesis lo_hi : forall i j, i <= j < n -> (lo j <= i <-> j < hi i).
Hypothesis hi_n : forall i, hi i <= n.
Hypothesis lo_mono : forall i j, i <= j -> lo i <= lo j.
Hypothesis lo_le : forall j, lo j <= j.

(* the elements that are stored, and the matrix they make *)
Definition raw (a : list K) : matrix := fun i j => nth (ix i j) a f0.
Lemma sto_raw a : length a = N -> sto n N ix lo a (raw a).
Proof.
  intros L. split; auto. intros i j D. unfold raw. apply nth_error_nth'. rewrite L. auto.
Qed.
Lemma sto_raw_eq a A i j : sto n N ix lo a A -> dom n lo i j -> raw a i j = A i j.
Proof. intros [_ H] D. unfold raw. apply nth_error_nth. auto. Qed.

Lemma inst_decmp recip a : length a = N ->
  wp (chol_gen sq ix lo hi recip n a)
     (fun a' => exists A, sto n N ix lo a' A /\ cfact n lo recip (raw a) A)
     (fun e => e = RuntimeError /\ ~ positive_definite n (full lo (raw a))).
Proof.
  intros L. eapply wp_conseq.
  - apply (chol_gen_wp n N ix lo hi recip sq); auto. apply sto_raw; auto.
  - intros r H; exact H.
  - intros e [-> S]. split; auto. apply (stuck_not_pd n lo recip lo_le _ S).
Qed.
Lemma fact_upper recip (A0 A : matrix) : cfact n lo recip A0 A -> upper_factor n (full lo A0) (U lo recip A).
Proof.
  intros Fa. pose proof Fa as [D _]. split; [|split].
  - intros i I. rewrite U_diag. unfold dg. pose proof (D i I). destruct recip; auto.
    intros Z. apply (@f1_neq_f0 K). replace (@f1 K) with (f1 / A i i * A i i) by (field; auto).
    rewrite Z. ring.
  - intros i j J. now apply U_below.
  - intros i j I J. apply (full_fact n lo recip); auto.
Qed.
End Inst.

Lemma Fmul_assoc_aux (x y z : K) : x * y * z = x * (y * z).
Proof. ring. Qed.
Lemma Fmul_sub_aux (s x y : K) : s * (x - y) = s * x - s * y.
Proof. ring. Qed.
Lemma Fzero_aux (x y : K) : x * (y - y) = f0.
Proof. ring. Qed.
Lemma Fsub_aux (x y : K) : x - y = f0 -> x = y.
Proof. intros H. replace x with (x - y + y) by ring. rewrite H. ring. Qed.

(* ---------- the three storages ---------- *)

Lemma dense_in n i j : dom n (fun _ => 0) i j -> dix n i j < n * n.
Proof. intros [[A B] _]. unfold dix. apply idx_lt; lia. Qed.
Lemma dense_inj n i j i' j' : dom n (fun _ => 0) i j -> dom n (fun _ => 0) i' j' ->
  dix n i j = dix n i' j' -> i = i' /\ j = j'.
Proof. intros [[A B] _] [[A' B'] _] E. unfold dix in E. apply idx_inj in E; lia. Qed.
Lemma plain_lo_hi n i j : i <= j < n -> (0 <= i <-> j < n).
Proof. lia. Qed.
Lemma tri_in n i j : dom n (fun _ => 0) i j -> T_IDX i j < T_SIZE n.
Proof. intros [D _]. now apply C37_packed_triangle. Qed.
Lemma tri_inj n i j i' j' : dom n (fun _ => 0) i j -> dom n (fun _ => 0) i' j' ->
  T_IDX i j = T_IDX i' j' -> i = i' /\ j = j'.
Proof. intros [D _] [D' _]. now apply (C37_packed_triangle n). Qed.
Lemma band_dom n w i j : dom n (blo w) i j -> banded n w i j.
Proof. intros [D L]. unfold blo in L. split; auto. destruct (Nat.ltb_spec j w); lia. Qed.
Lemma band_in n w : w <= n -> forall i j, dom n (blo w) i j -> B_IDX n w i j < B_SIZE n w.
Proof. intros W i j D. apply (C37_packed_band n w W). now apply band_dom. Qed.
Lemma band_inj n w : w <= n -> forall i j i' j', dom n (blo w) i j -> dom n (blo w) i' j' ->
  B_IDX n w i j = B_IDX n w i' j' -> i = i' /\ j = j'.
Proof. intros W i j i' j' D D'. apply (C37_packed_band n w W); now apply band_dom. Qed.
Lemma band_lo_hi n w i j : i <= j < n -> (blo w j <= i <-> j < bhi n w i).
Proof. intros L. unfold blo, bhi. destruct (Nat.ltb_spec j w); lia. Qed.
Lemma band_hi n w i : bhi n w i <= n.
Proof. unfold bhi. lia. Qed.
Lemma band_mono w i j : i <= j -> blo w i <= blo w j.
Proof. intros. unfold blo. destruct (Nat.ltb_spec i w), (Nat.ltb_spec j w); lia. Qed.
Lemma band_le w j : blo w j <= j.
Proof. unfold blo. destruct (Nat.ltb_spec j w); lia. Qed.

Lemma full_dense n a : symmetric n (el n a) -> forall i j, i < n -> j < n ->
  full (fun _ => 0) (raw (dix n) a) i j = el (K := K) n a i j.
Proof.
  intros Sy i j I J. unfold full, raw, dix. cbn [Nat.leb].
  change (el n a (Nat.max i j) (Nat.min i j) = el n a i j).
  destruct (Nat.le_ge_cases i j).
  - rewrite Nat.max_r, Nat.min_l by lia. auto.
  - rewrite Nat.max_l, Nat.min_r by lia. auto.
Qed.
Lemma full_tri (a : list K) i j : full (fun _ => 0) (raw T_IDX a) i j = tri_el a i j.
Proof. reflexivity. Qed.
Lemma full_band n w (a : list K) i j : full (blo w) (raw (B_IDX n w) a) i j = band_el n w a i j.
Proof.
  unfold full, band_el, raw, blo.
  replace ((if Nat.max i j <? w then 0 else Nat.max i j - w)%nat <=? Nat.min i j)
    with (Nat.max i j <=? Nat.min i j + w); auto.
  destruct (Nat.ltb_spec (Nat.max i j) w).
  - replace (Nat.max i j <=? Nat.min i j + w) with true by (symmetry; apply Nat.leb_le; lia). auto.
  - destruct (Nat.leb_spec (Nat.max i j) (Nat.min i j + w)); symmetry;
      [apply Nat.leb_le|apply Nat.leb_gt]; lia.
Qed.
Lemma solution_of n (S : matrix) (x b : list K) y : length b = n -> vec n x y ->
  solv n S y (fun i => nth i b f0) -> is_solution n S x b.
Proof.
  intros Lb V Hs. split. { apply (proj1 V). }
  intros i I. rewrite <- (Hs i I). unfold dot. apply sumr_ext. intros k Lk.
  f_equal. destruct V as [_ V]. apply nth_error_nth. apply V. lia.
Qed.

(* ---------- dense ---------- *)

Lemma decmp_chol_wp sq n a : has_sqrt sq -> length a = (n * n)%nat -> symmetric n (el n a) ->
  wp (decmp_chol sq n a)
     (fun a' => exists A : matrix, sto n (n * n) (dix n) (fun _ => 0) a' A /\
        cfact n (fun _ => 0) true (raw (dix n) a) A)
     (fun e => e = RuntimeError /\ ~ positive_definite n (el n a)).
Proof.
  intros Sq La Sy. eapply wp_conseq.
  - apply (inst_decmp n (n * n) (dix n) (fun _ => 0) (fun _ => n) sq Sq (dense_in n) (dense_inj n)
      (plain_lo_hi n) (fun _ => Nat.le_refl n) (fun _ _ _ => Nat.le_0_l 0) Nat.le_0_l true a La).
  - intros r H; exact H.
  - intros e [-> Np]. split; auto. intros P. apply Np. eapply pd_ext; [|exact P].
    intros. symmetry. now apply full_dense.
Qed.
Lemma chol_column_wp sq n m c a b : has_sqrt sq -> length a = (n * n)%nat -> symmetric n (el n a) ->
  length b = (n * m)%nat -> c < m ->
  wp (let* a' := decmp_chol sq n a in bksub_chol n a' b m c)
     (fun x => positive_definite n (el n a) /\ exists y : nat -> K,
        mat n m x (setcol c y (el m b)) /\ solv n (el n a) y (fun r => el m b r c) /\
        (forall z, solv n (el n a) z (fun r => el m b r c) -> forall r, r < n -> z r = y r))
     (fun e => e = RuntimeError /\ ~ positive_definite n (el n a)).
Proof.
  intros Sq La Sy Lb C. eapply wp_seq. { apply decmp_chol_wp; auto. }
  intros a' (A & M & Fa).
  eapply wp_mono.
  { apply (cholsub_wp n (n * n) (dix n) (fun _ => 0) (fun _ => n) true (plain_lo_hi n)
      (fun _ => Nat.le_refl n) Nat.le_0_l m c a' b (raw (dix n) a) A (el m b)); auto.
    now apply mat_of. }
  intros x (y & Mx & Hs). split.
  { eapply pd_ext; [|apply (cfact_pd n (fun _ => 0) true Nat.le_0_l _ _ Fa)].
    intros. now apply full_dense. }
  exists y. split; auto.
  pose proof (full_dense n a Sy) as Fd.
  assert (T : forall z w, solv n (full (fun _ => 0) (raw (dix n) a)) z w <-> solv n (el n a) z w).
  { intros z w. split; intros H r R; rewrite <- (H r R); apply dot_ext; intros; rewrite Fd; auto. }
  split. { now apply T. }
  intros z Hz r R. apply (cfact_unique n (fun _ => 0) true Nat.le_0_l _ _ z y (fun r => el m b r c) Fa); auto. now apply T.
Qed.

Lemma equ_chol_wp (sq : K -> K) n (A b x : list K) : has_sqrt sq -> length A = (n * n)%nat -> symmetric n (el n A) ->
  length b = n -> length x = n ->
  wp (equ_chol sq n A b x)
     (fun r => positive_definite n (el n A) /\ is_solution n (el n A) r b)
     (fun e => e = RuntimeError /\ ~ positive_definite n (el n A)).
Proof.
  intros Sq La Sy Lb Lx. unfold equ_chol. destruct (Nat.eqb_spec n 0) as [->|Nn].
  { cbn [wp]. split. { intros y (i & L & _). lia. } split; auto. intros; lia. }
  eapply wp_mono. { apply (chol_column_wp sq n 1 0 A b); auto; lia. }
  intros r (P & y & Mx & Hs & _). split; auto. apply (solution_of n (el n A) r b y Lb).
  - apply vec_mat. eapply mat_ext; eauto. intros i j I J. unfold setcol. bcases. auto.
  - intros i I. rewrite (Hs i I). unfold el. f_equal. lia.
Qed.

(* ---------- band ---------- *)

Lemma decmp_band_wp (sq : K -> K) n w (a : list K) : has_sqrt sq -> w <= n -> length a = B_SIZE n w ->
  wp (decmp_chol_band sq n w a)
     (fun a' => exists A : matrix, sto n (B_SIZE n w) (B_IDX n w) (blo w) a' A /\
        cfact n (blo w) true (raw (B_IDX n w) a) A)
     (fun e => e = RuntimeError /\ ~ positive_definite n (band_el n w a)).
Proof.
  intros Sq W La. eapply wp_conseq.
  - apply (inst_decmp n (B_SIZE n w) (B_IDX n w) (blo w) (bhi n w) sq Sq (band_in n w W)
      (band_inj n w W) (band_lo_hi n w) (band_hi n w) (band_mono w) (band_le w) true a La).
  - intros r H; exact H.
  - intros e [-> Np]. split; auto. intros P. apply Np. eapply pd_ext; [|exact P].
    intros. symmetry. apply full_band.
Qed.
Lemma bksub_band_wp n w m c a b (A0 A B : matrix) E :
  sto n (B_SIZE n w) (B_IDX n w) (blo w) a A -> cfact n (blo w) true A0 A -> mat n m b B -> c < m ->
  wp (bksub_chol_band n w a b m c)
     (fun x => exists y, mat n m x (setcol c y B) /\ solv n (full (blo w) A0) y (fun r => B r c)) E.
Proof.
  intros M Fa Mb C.
  apply (cholsub_wp n (B_SIZE n w) (B_IDX n w) (blo w) (bhi n w) true (band_lo_hi n w) (band_hi n w)
     (band_le w) m c a b A0 A B); auto.
Qed.

(* the residual of a solution is zero *)
Lemma kahan_exact (v y r : K) : kahan v y (r, f0) = (r + v * y, f0).
Proof. unfold kahan. f_equal; ring. Qed.
Lemma residual_wp n w A b x r (A0 : matrix) y bv E : w <= n ->
  sto n (B_SIZE n w) (B_IDX n w) (blo w) A A0 -> vec n b bv -> vec n x y -> length r = n ->
  solv n (full (blo w) A0) y bv ->
  wp (band_residual n w A b x r) (fun '(r', _) => vec n r' (fun _ => f0)) E.
Proof.
  intros W MA Vb Vx Lr Hs. unfold band_residual.
  apply wp_seq with (P := fun s : list K * K * K => vec n (fst (fst s)) (fun _ => f0)).
  2:{ intros [[r' d] c1] V. exact V. }
  pose proof (vec_of n r Lr) as V0.
  eapply wp_mono; [apply wp_for with
    (P := fun i (s : list K * K * K) =>
       vec n (fst (fst s)) (fun k => if k <? i then f0 else nth k r f0)) | cbn beta].
  - lia.
  - cbn [fst]. eapply vec_ext; eauto.
  - intros i [[r1 d1] c1] Li V1. cbn [fst] in V1.
    apply wp_bind. eapply wp_vget; eauto; try lia.
    pose proof (band_le w i). pose proof (band_hi n w i). pose proof (hi_i n (blo w) (bhi n w) (band_lo_hi n w) (band_le w) i ltac:(lia)).
    assert (Fl : forall k, k < n -> k <= i -> blo w i <= k -> full (blo w) A0 i k = A0 k i).
    { intros k Kn Ki Bk. unfold full. rewrite Nat.max_l, Nat.min_r by lia.
      replace (blo w i <=? k) with true by (symmetry; apply Nat.leb_le; lia). auto. }
    assert (Fh : forall k, i <= k -> k < bhi n w i -> full (blo w) A0 i k = A0 i k).
    { intros k Ki Bk. assert (blo w k <= i) by (apply (band_lo_hi n w); auto; lia).
      unfold full. rewrite Nat.max_r, Nat.min_l by lia.
      replace (blo w k <=? i) with true by (symmetry; apply Nat.leb_le; lia). auto. }
    assert (Z : forall k, k < n -> k < blo w i \/ bhi n w i <= k -> full (blo w) A0 i k = f0).
    { intros k Kn [Bk|Bk]; unfold full.
      - pose proof (band_le w i). rewrite Nat.max_l, Nat.min_r by lia.
        replace (blo w i <=? k) with false by (symmetry; apply Nat.leb_gt; lia). auto.
      - rewrite Nat.max_r, Nat.min_l by lia.
        destruct (Nat.leb_spec (blo w k) i) as [X|X]; auto.
        apply (band_lo_hi n w) in X; lia. }
    set (D := fun t => sumr 0 t (fun k => full (blo w) A0 i k * y k)).
    apply wp_seq with (P := fun s => s = (- bv i + D i, f0)).
    { eapply wp_mono; [apply wp_for with (P := fun t s => s = (- bv i + D t, f0)) | auto].
      - apply band_le.
      - f_equal. unfold D. rewrite sumr_zero. { ring. } intros k Lk. rewrite Z by lia. ring.
      - intros k s Lk ->.
        assert (Dk : dom n (blo w) k i) by (split; lia).
        apply wp_bind. apply (wp_sget n (B_SIZE n w) (B_IDX n w) (blo w) A A0 k i _ _ MA Dk).
        apply wp_bind. eapply wp_vget; eauto; try lia. cbn [wp]. rewrite kahan_exact. f_equal.
        unfold D. rewrite Nat.add_1_r, sumr_S by lia. rewrite Fl by lia. ring. }
    intros s ->.
    apply wp_seq with (P := fun s => s = (f0, f0)).
    { eapply wp_mono; [apply wp_for with (P := fun t s => s = (- bv i + D t, f0)) | cbn beta].
      - lia.
      - auto.
      - intros k s Lk ->.
        assert (Dk : dom n (blo w) i k) by (apply (dom_hi n (blo w) (bhi n w) (band_lo_hi n w) (band_hi n w)); lia).
        apply wp_bind. apply (wp_sget n (B_SIZE n w) (B_IDX n w) (blo w) A A0 i k _ _ MA Dk).
        apply wp_bind. eapply wp_vget; eauto; try lia. cbn [wp]. rewrite kahan_exact. f_equal.
        unfold D. rewrite Nat.add_1_r, sumr_S by lia. rewrite Fh by lia. ring.
      - intros s ->. f_equal. rewrite <- (Hs i) by lia. unfold D, dot.
        rewrite (sumr_split 0 (bhi n w i) n), (sumr_zero (bhi n w i) n); try lia. { ring. }
        intros k Lk. rewrite Z by lia. ring. }
    intros s ->. cbn [fst]. apply wp_bind. eapply wp_vset; eauto; try lia. intros r2 V2.
    unfold kahan. cbn [wp fst]. eapply vec_ext; eauto. intros k Lk. unfold updv. bcases; auto.
  - intros [[r' d] c1] V. cbn [fst] in *. eapply vec_ext; eauto. intros; bcases; auto.
Qed.

Lemma refine_wp sq imax tol n w A a b (A0 A1 : matrix) y bv E : w <= n ->
  sto n (B_SIZE n w) (B_IDX n w) (blo w) A A0 -> sto n (B_SIZE n w) (B_IDX n w) (blo w) a A1 ->
  cfact n (blo w) true A0 A1 -> vec n b bv -> solv n (full (blo w) A0) y bv ->
  forall fuel iter x r, imax < fuel + iter -> 1 <= fuel -> vec n x y -> length r = n ->
  wp (refine sq imax tol n w A a b fuel iter x r) (fun x' => vec n x' y) E.
Proof.
  intros W MA Ma Fa Vb Hs. induction fuel; intros iter x r Fu F1 Vx Lr. { lia. }
  cbn [refine]. eapply wp_seq.
  { apply (residual_wp n w A b x r A0 y bv _ W MA Vb Vx Lr Hs). }
  intros [r' d] Vr.
  destruct (Nat.ltb_spec imax (iter + 1)) as [Li|Li]; cbn [orb]. { exact Vx. }
  destruct (fle (sq d) tol). { exact Vx. }
  eapply wp_seq.
  { apply (bksub_band_wp n w 1 0 a r' A0 A1 (fun _ _ => f0)); auto. now apply vec_mat. }
  intros r2 (z & M2 & Hz).
  assert (Z0 : forall k, k < n -> z k = f0).
  { intros k Lk. apply (cfact_unique n (blo w) true (band_le w) A0 A1 z (fun _ => f0) (fun _ => f0)); auto.
    intros q Lq. unfold dot. apply sumr_zero. intros. ring. }
  assert (V2 : vec n r2 (fun _ => f0)).
  { apply vec_mat. eapply mat_ext; eauto. intros i j I J. unfold setcol. bcases. auto. }
  eapply wp_seq.
  - apply wp_for with (P := fun _ x => vec n x y). { lia. } { exact Vx. }
    intros i x1 Lx V1. apply wp_bind. eapply wp_vget; eauto; try lia.
    apply wp_bind. eapply wp_vget; eauto; try lia.
    eapply wp_vset; eauto; try lia. intros x2 V3. eapply vec_ext; eauto.
    intros k Lk. unfold updv. bcases; subst; auto. ring.
  - intros x1 V1. apply IHfuel; auto; try lia. apply (proj1 V2).
Qed.

Lemma equ_band_wp (sq : K -> K) imax tol n w (A b x r0 : list K) : has_sqrt sq -> w <= n -> length A = B_SIZE n w ->
  length b = n -> length x = n -> length r0 = n ->
  wp (equ_chol_band sq imax tol n w A b x r0)
     (fun r => positive_definite n (band_el n w A) /\ is_solution n (band_el n w A) r b)
     (fun e => e = RuntimeError /\ ~ positive_definite n (band_el n w A)).
Proof.
  intros Sq W LA Lb Lx Lr. unfold equ_chol_band. destruct (Nat.eqb_spec n 0) as [->|Nn].
  { cbn [wp]. split. { intros y (i & L & _). lia. } split; auto. intros; lia. }
  eapply wp_seq. { apply decmp_band_wp; auto. }
  intros a (A1 & Ma & Fa).
  pose proof (vec_of n b Lb) as Vb.
  eapply wp_seq.
  { apply (bksub_band_wp n w 1 0 a b (raw (B_IDX n w) A) A1 (fun r _ => nth r b f0)); auto.
    now apply vec_mat. }
  intros x1 (y & Mx & Hs).
  assert (Vx : vec n x1 y).
  { apply vec_mat. eapply mat_ext; eauto. intros i j I J. unfold setcol. bcases. auto. }
  eapply wp_mono.
  { apply (refine_wp sq imax tol n w A a b (raw (B_IDX n w) A) A1 y (fun r => nth r b f0)); auto; try lia.
    apply sto_raw; auto. apply band_in; auto. }
  intros x2 V2. split.
  - eapply pd_ext; [|apply (cfact_pd n (blo w) true (band_le w) _ _ Fa)]. intros. apply full_band.
  - apply (solution_of n _ x2 b y Lb V2). intros i I. rewrite <- (Hs i I). apply dot_ext. intros.
    symmetry. apply full_band.
Qed.

(* ---------- inverse ---------- *)

Lemma inv_chol_wp (sq : K -> K) n (a : list K) : has_sqrt sq -> length a = (n * n)%nat -> symmetric n (el n a) ->
  wp (inv_chol sq n a)
     (fun x => positive_definite n (el n a) /\ is_inverse n a x)
     (fun e => e = RuntimeError /\ ~ positive_definite n (el n a)).
Proof.
  intros Sq La Sy. unfold inv_chol. eapply wp_seq. { apply decmp_chol_wp; auto. }
  intros a1 (A & M1 & Fa). pose proof Fa as [D _].
  set (L := fun r k => U (fun _ => 0) true A k r).
  set (A1 := fun r c => nth (r * n + c) a1 f0).
  assert (Mt : mat n n a1 A1). { apply mat_of. apply (proj1 M1). }
  assert (E1 : forall r c, c <= r -> r < n -> A1 r c = A c r).
  { intros r c C R. apply (sto_raw_eq n (n * n) (dix n) (fun _ => 0) a1 A c r M1). split; lia. }
  assert (I1 : inv1 n 0 L A1).
  { split; [|split].
    - intros r R. rewrite E1 by lia. unfold L. rewrite U_diag. unfold dg. field. auto.
    - intros r c C R _. rewrite E1 by lia. unfold L. rewrite U_in by lia. auto.
    - intros; lia. }
  eapply wp_seq. { apply (inv1_wp n a1 L A1); auto. }
  intros a2 (A2 & M2 & D2 & _ & F2).
  eapply wp_mono. { apply (inv2_wp n a2 A2 _ M2). }
  intros x Mx.
  set (Mi := fun r c => if c <=? r then A2 r c else f0).
  assert (LT : lowtri n L).
  { split.
    - intros r c R. unfold L. now apply U_below.
    - intros r R Z. pose proof (D2 r R) as X. rewrite Z in X. apply (@f1_neq_f0 K). rewrite <- X. ring. }
  assert (LM : forall r c, r < n -> c < n -> mprod n L Mi r c = ident r c).
  { intros r c R C. unfold mprod, ident.
    rewrite (lowtri_cut n L (fun k => Mi k c) r LT R).
    destruct (Nat.lt_trichotomy r c) as [Rc|[->|Rc]].
    - unfold Mi at 2. rewrite sumr_zero.
      2:{ intros k Lk. unfold Mi. bcases; ring. }
      bcases; ring.
    - rewrite sumr_zero.
      2:{ intros k Lk. unfold Mi. bcases; ring. }
      unfold Mi. bcases. rewrite <- (D2 c C). ring.
    - rewrite <- (sumr_S 0 r (fun k => L r k * Mi k c)) by lia.
      rewrite (sumr_split 0 c (S r)), (sumr_zero 0 c) by
        (try lia; intros k Lk; unfold Mi; bcases; ring).
      rewrite (sumr_ext c (S r) _ (fun k => L r k * A2 k c)).
      2:{ intros k Lk. unfold Mi. bcases. auto. }
      rewrite F2 by lia. bcases. ring. }
  assert (XM : forall r c, r < n -> c < n -> el n x r c = sumr 0 n (fun k => Mi k r * Mi k c)).
  { intros r c R C. rewrite (mat_el n n x _ Mx) by auto. unfold xprod.
    rewrite (sumr_split 0 (Nat.max r c) n), (sumr_zero 0 (Nat.max r c)) by
      (try lia; intros k Lk; unfold Mi; bcases; ring).
    rewrite (sumr_ext (Nat.max r c) n (fun k => Mi k r * Mi k c) (fun k => A2 k r * A2 k c)).
    - ring.
    - intros k Lk. unfold Mi. bcases. auto. }
  assert (AL : forall r c, r < n -> c < n -> el n a r c = sumr 0 n (fun k => L r k * L c k)).
  { intros r c R C. rewrite <- (full_dense n a Sy) by auto.
    apply (full_fact n (fun _ => 0) true Nat.le_0_l _ A Fa); auto. }
  assert (AX : forall r c, r < n -> c < n ->
     sumr 0 n (fun k => el n a r k * el n x k c) = if r =? c then f1 else f0).
  { intros r c R C. change (mprod n (el n a) (el n x) r c = ident r c).
    rewrite <- (chol_inverse n L Mi LT LM r c R C).
    apply mprod_ext; intros k Lk; [apply AL|apply XM]; auto. }
  split.
  { eapply pd_ext; [|apply (cfact_pd n (fun _ => 0) true Nat.le_0_l _ _ Fa)].
    intros. now apply full_dense. }
  split. { apply (proj1 Mx). }
  split; auto.
  intros i j I J.
  rewrite (sumr_ext 0 n _ (fun k => el n a j k * el n x k i)).
  - rewrite AX by auto. now rewrite Nat.eqb_sym.
  - intros k Lk. rewrite (Sy j k) by lia.
    assert (el n x i k = el n x k i) as ->.
    { rewrite !XM by lia. apply sumr_ext. intros; ring. }
    ring.
Qed.

(* ---------- LDL' ---------- *)

Lemma symm_el n (a : list K) : symmetric n (el n a) -> forall i j, i < n -> j < n ->
  symm (el n a) i j = el (K := K) n a i j.
Proof.
  intros Sy i j I J. unfold symm. destruct (Nat.le_ge_cases i j).
  - rewrite Nat.max_r, Nat.min_l by lia. auto.
  - rewrite Nat.max_l, Nat.min_r by lia. auto.
Qed.
Lemma ldl_wp (eps : K) n (a : list K) : fltb f0 eps = true -> length a = (n * n)%nat -> symmetric n (el n a) ->
  wp (decmp_ldl eps n a)
     (fun a' => exists A : matrix, mat n n a' A /\ ldlfact n (el n a) A)
     (fun e => e = RuntimeError /\ lead_small eps n (el n a)).
Proof.
  intros Ep La Sy. eapply wp_conseq. { apply (decmp_ldl_wp eps n a (el n a) Ep). now apply mat_of. }
  - intros a' (A & M & D & F & _). exists A. split; auto. split.
    + intros r R. apply D; auto.
    + intros r c C R. apply F; auto. lia.
  - intros e [-> H]. split; auto. apply lstuck_small in H.
    destruct H as (i & y & I & Y & Z & Sm). exists i, y. split; auto. split; auto.
    assert (E : forall r, r <= i -> sumr 0 (S i) (fun c => symm (el n a) r c * y c) =
        sumr 0 (S i) (fun c => el n a r c * y c)).
    { intros r R. apply sumr_ext. intros c C. rewrite symm_el by (auto; lia). auto. }
    split.
    + intros r R. rewrite <- E by lia. auto.
    + rewrite <- E by lia. auto.
Qed.
Lemma ldl_column_wp (eps : K) n m c (a b : list K) : fltb f0 eps = true -> length a = (n * n)%nat ->
  symmetric n (el n a) -> length b = (n * m)%nat -> c < m ->
  wp (let* a' := decmp_ldl eps n a in bksub_ldl n a' b m c)
     (fun x => exists y : nat -> K,
        mat n m x (setcol c y (el m b)) /\ solv n (el n a) y (fun r => el m b r c) /\
        (forall z, solv n (el n a) z (fun r => el m b r c) -> forall r, r < n -> z r = y r))
     (fun e => e = RuntimeError /\ lead_small eps n (el n a)).
Proof.
  intros Ep La Sy Lb C. eapply wp_seq. { apply ldl_wp; auto. }
  intros a' (A & M & Fa). eapply wp_mono.
  { apply (bksub_ldl_wp n m c a' b (el n a) A (el m b)); auto. now apply mat_of. }
  intros x (y & Mx & Hs). exists y. split; auto.
  assert (T : forall z w, solv n (symm (el n a)) z w <-> solv n (el n a) z w).
  { intros z w. split; intros H r R; rewrite <- (H r R); apply dot_ext; intros; rewrite symm_el; auto. }
  split. { now apply T. }
  intros z Hz r R. apply (ldl_unique n (el n a) A z y (fun r => el m b r c) Fa); auto. now apply T.
Qed.

Lemma equ_ldl_wp (eps : K) n (A b x r0 : list K) : fltb f0 eps = true -> length A = (n * n)%nat ->
  symmetric n (el n A) -> length b = n -> length x = n -> length r0 = n ->
  wp (equ_ldl eps n A b x r0)
     (fun x' => is_solution n (el n A) x' b)
     (fun e => e = RuntimeError /\ lead_small eps n (el n A)).
Proof.
  intros Ep LA Sy Lb Lx Lr. unfold equ_ldl. destruct (Nat.eqb_spec n 0) as [->|Nn].
  { cbn [wp]. split; auto. intros; lia. }
  eapply wp_seq. { apply ldl_wp; auto. }
  intros a (A1 & Ma & Fa).
  assert (T : forall z w, solv n (symm (el n A)) z w <-> solv n (el n A) z w).
  { intros z w. split; intros H r R; rewrite <- (H r R); apply dot_ext; intros; rewrite symm_el; auto. }
  pose proof (vec_of n b Lb) as Vb. pose proof (mat_of n n A LA) as MA.
  eapply wp_seq.
  { apply (bksub_ldl_wp n 1 0 a b (el n A) A1 (fun r _ => nth r b f0)); auto. { now apply vec_mat. } }
  intros x1 (y & Mx & Hs). rewrite T in Hs.
  assert (Vx : vec n x1 y).
  { apply vec_mat. eapply mat_ext; eauto. intros i j I J. unfold setcol. bcases. auto. }
  (* the residual is zero *)
  apply wp_seq with (P := fun r => vec n r (fun _ => f0)).
  { eapply wp_mono; [apply wp_for with
      (P := fun i r => vec n r (fun k => if k <? i then f0 else nth k r0 f0)) | cbn beta].
    - lia.
    - eapply vec_ext. { apply (vec_of n r0 Lr). } auto.
    - intros i r Li Vr. apply wp_bind. eapply wp_vget; eauto; try lia.
      apply wp_bind. eapply wp_vset; eauto; try lia. intros r1 V1.
      eapply wp_mono; [apply wp_for with
        (P := fun t r => vec n r (updv (fun k => if k <? i then f0 else nth k r0 f0) i
            (- nth i b f0 + sumr 0 t (fun k => el n A i k * y k)))) | cbn beta].
      + lia.
      + rewrite sumr_nil by lia. eapply vec_ext; eauto. intros k Lk. unfold updv. bcases; auto. ring.
      + intros j r2 Lj V2. apply wp_bind. eapply wp_vget; eauto; try lia.
        apply wp_bind. eapply wp_mget; eauto; try lia.
        apply wp_bind. eapply wp_vget; eauto; try lia.
        eapply wp_vset; eauto; try lia. intros r3 V3. eapply vec_ext; eauto.
        intros k Lk. unfold updv. rewrite Nat.add_1_r, sumr_S by lia.
        bcases; auto. unfold el. ring.
      + intros r2 V2. eapply vec_ext; eauto. intros k Lk. unfold updv. bcases; auto.
        pose proof (Hs i ltac:(lia)) as X. unfold dot in X. rewrite X. ring.
    - intros r Vr. eapply vec_ext; eauto. intros; bcases; auto. }
  intros r Vr.
  eapply wp_seq.
  { apply (bksub_ldl_wp n 1 0 a r (el n A) A1 (fun _ _ => f0)); auto. now apply vec_mat. }
  intros r2 (z & M2 & Hz). rewrite T in Hz.
  assert (Z0 : forall k, k < n -> z k = f0).
  { intros k Lk. apply (ldl_unique n (el n A) A1 z (fun _ => f0) (fun _ => f0) Fa); auto; apply T; auto.
    intros q Lq. unfold dot. apply sumr_zero. intros. ring. }
  assert (V2 : vec n r2 (fun _ => f0)).
  { apply vec_mat. eapply mat_ext; eauto. intros i j I J. unfold setcol. bcases. auto. }
  eapply wp_mono; [apply wp_for with (P := fun _ x => vec n x y) | cbn beta].
  - lia.
  - exact Vx.
  - intros i x2 Lx2 V1. apply wp_bind. eapply wp_vget; eauto; try lia.
    apply wp_bind. eapply wp_vget; eauto; try lia.
    eapply wp_vset; eauto; try lia. intros x3 V3. eapply vec_ext; eauto.
    intros k Lk. unfold updv. bcases; subst; auto. ring.
  - intros x2 V3. apply (solution_of n _ x2 b y Lb V3). exact Hs.
Qed.
End Proofs.

(* ---------- C41 ---------- *)

(* the dense solver: a symmetric matrix is accepted exactly when it is positive definite, and
   then the result is the solution; nothing is read or written out of bounds *)
Theorem C41_chol_solves : forall (K : ofield) (sq : K -> K) n A b x,
  has_sqrt sq -> length A = n * n -> symmetric n (el n A) -> length b = n -> length x = n ->
  match equ_chol sq n A b x with
  | Ok r => positive_definite n (el n A) /\ is_solution n (el n A) r b
  | Throw e => e = RuntimeError /\ ~ positive_definite n (el n A)
  | UB _ => False
  end.
Proof. intros. now apply equ_chol_wp. Qed.

(* one column of many right hand sides; the others stay *)
Theorem C41_chol_column : forall (K : ofield) (sq : K -> K) n m c A b,
  has_sqrt sq -> length A = n * n -> symmetric n (el n A) -> length b = n * m -> c < m ->
  match (let* a := decmp_chol sq n A in bksub_chol n a b m c) with
  | Ok r => positive_definite n (el n A) /\ length r = n * m /\
      (forall i j, i < n -> j < m -> j <> c -> el m r i j = el m b i j) /\
      forall i, i < n -> sumr 0 n (fun k => fmul (el n A i k) (el m r k c)) = el m b i c
  | Throw e => e = RuntimeError /\ ~ positive_definite n (el n A)
  | UB _ => False
  end.
Proof.
  intros K sq n m c A b Sq La Sy Lb C. pose proof (chol_column_wp sq n m c A b Sq La Sy Lb C) as H.
  destruct (let* a := decmp_chol sq n A in bksub_chol n a b m c) as [r|e|f]; auto.
  destruct H as (P & y & M & Hs & _). split; auto. split. { apply (proj1 M). }
  pose proof (mat_el n m r _ M) as E. split.
  - intros i j I J N. rewrite E by auto. unfold setcol. bcases. auto.
  - intros i I. pose proof (Hs i I) as Q. cbn beta in Q. rewrite <- Q. unfold dot.
    apply sumr_ext. intros k Lk. f_equal. rewrite E by (auto; lia). now rewrite setcol_eq.
Qed.

(* the solution of a positive definite system is the only one *)
Theorem C41_positive_definite_unique : forall (K : ofield) n (S : nat -> nat -> K) x y b,
  positive_definite n S -> is_solution n S x b -> is_solution n S y b -> x = y.
Proof.
  intros K n S x y b P [Lx Hx] [Ly Hy].
  assert (E : forall i, i < n -> nth i x f0 = nth i y f0).
  { intros i I. destruct (f_eq_dec (nth i x f0) (nth i y f0)) as [|N]; auto. exfalso.
    set (d := fun k => fsub (nth k x f0) (nth k y f0)).
    assert (Z : sumr 0 n (fun i => sumr 0 n (fun j => fmul (fmul (d i) (S i j)) (d j))) = f0).
    { apply sumr_zero. intros r Lr.
      rewrite (sumr_ext 0 n _ (fun j => fmul (d r) (fmul (S r j) (d j)))).
      2:{ intros. rewrite Fmul_assoc_aux. reflexivity. }
      rewrite sumr_scale.
      rewrite (sumr_ext 0 n _ (fun j => fsub (fmul (S r j) (nth j x f0)) (fmul (S r j) (nth j y f0)))).
      2:{ intros. apply Fmul_sub_aux. }
      rewrite sumr_sub, Hx, Hy by lia. apply Fzero_aux. }
    assert (Nz : exists i, i < n /\ d i <> f0).
    { exists i. split; auto. intros Q. apply N. apply Fsub_aux. exact Q. }
    pose proof (P d Nz) as X. rewrite Z, fltb_irr in X. discriminate. }
  apply (nth_ext x y f0 f0). { congruence. } intros i I. apply E. congruence.
Qed.

(* packed triangle: the factor is left in place *)
Theorem C41_tri_factor : forall (K : ofield) (sq : K -> K) n A,
  has_sqrt sq -> length A = T_SIZE n ->
  match decmp_chol_tri sq n A with
  | Ok a => length a = T_SIZE n /\ positive_definite n (tri_el A) /\
      upper_factor n (tri_el A) (fun i j => if i <=? j then nth (T_IDX i j) a f0 else f0)
  | Throw e => e = RuntimeError /\ ~ positive_definite n (tri_el A)
  | UB _ => False
  end.
Proof.
  intros K sq n A Sq LA.
  pose proof (inst_decmp n (T_SIZE n) T_IDX (fun _ => 0) (fun _ => n) sq Sq (tri_in n) (tri_inj n)
      (plain_lo_hi n) (fun _ => Nat.le_refl n) (fun _ _ _ => Nat.le_0_l 0) Nat.le_0_l false A LA) as H.
  unfold decmp_chol_tri. destruct (chol_gen sq T_IDX (fun _ => 0) (fun _ => n) false n A) as [a|e|f]; auto.
  destruct H as (B & M & Fa). split. { apply (proj1 M). } split.
  { apply (cfact_pd n (fun _ => 0) false Nat.le_0_l _ _ Fa). }
  destruct (fact_upper n (fun _ => 0) Nat.le_0_l false _ B Fa) as (D & Z & F).
  assert (E : forall i j, i < n -> j < n ->
     (if i <=? j then nth (T_IDX i j) a f0 else f0) = U (fun _ => 0) false B i j).
  { intros i j I J. unfold U, dg. bcases; subst; auto.
    - apply (sto_raw_eq n (T_SIZE n) T_IDX (fun _ => 0) a B j j M). split; lia.
    - apply (sto_raw_eq n (T_SIZE n) T_IDX (fun _ => 0) a B i j M). split; lia. }
  split; [|split].
  - intros i I. rewrite E by auto. auto.
  - intros i j J. bcases. auto.
  - intros i j I J. rewrite <- full_tri, F by auto. apply sumr_ext. intros k Lk. now rewrite !E by lia.
Qed.
(* dense and band: the diagonal is left as its reciprocal *)
Theorem C41_dense_factor : forall (K : ofield) (sq : K -> K) n A,
  has_sqrt sq -> length A = n * n -> symmetric n (el n A) ->
  match decmp_chol sq n A with
  | Ok a => length a = n * n /\ positive_definite n (el n A) /\
      (forall i, i < n -> el n a i i <> f0) /\
      upper_factor n (el n A) (fun i j =>
        if i =? j then fdiv f1 (el n a i i) else if i <? j then el n a j i else f0)
  | Throw e => e = RuntimeError /\ ~ positive_definite n (el n A)
  | UB _ => False
  end.
Proof.
  intros K sq n A Sq LA Sy. pose proof (decmp_chol_wp sq n A Sq LA Sy) as H.
  destruct (decmp_chol sq n A) as [a|e|f]; auto. destruct H as (B & M & Fa).
  split. { apply (proj1 M). } split.
  { eapply pd_ext; [|apply (cfact_pd n (fun _ => 0) true Nat.le_0_l _ _ Fa)].
    intros. now apply full_dense. }
  destruct (fact_upper n (fun _ => 0) Nat.le_0_l true _ B Fa) as (D & Z & F).
  assert (R : forall i j, i <= j < n -> el n a j i = B i j).
  { intros i j L. apply (sto_raw_eq n (n * n) (dix n) (fun _ => 0) a B i j M). split; lia. }
  split. { intros i I. rewrite R by lia. apply (proj1 Fa). auto. }
  assert (E : forall i j, i < n -> j < n ->
     (if i =? j then fdiv f1 (el n a i i) else if i <? j then el n a j i else f0)
       = U (fun _ => 0) true B i j).
  { intros i j I J. unfold U, dg. bcases; auto; rewrite R by lia; auto. }
  split; [|split].
  - intros i I. rewrite E by auto. auto.
  - intros i j J. bcases. auto.
  - intros i j I J. rewrite <- (full_dense n A Sy), F by auto. apply sumr_ext. intros k Lk.
    now rewrite !E by lia.
Qed.
Theorem C41_band_factor : forall (K : ofield) (sq : K -> K) n w A,
  has_sqrt sq -> w <= n -> length A = B_SIZE n w ->
  match decmp_chol_band sq n w A with
  | Ok a => length a = B_SIZE n w /\ positive_definite n (band_el n w A) /\
      (forall i, i < n -> band_el n w a i i <> f0) /\
      upper_factor n (band_el n w A) (fun i j =>
        if i =? j then fdiv f1 (band_el n w a i i) else if i <? j then band_el n w a i j else f0)
  | Throw e => e = RuntimeError /\ ~ positive_definite n (band_el n w A)
  | UB _ => False
  end.
Proof.
  intros K sq n w A Sq W LA. pose proof (decmp_band_wp sq n w A Sq W LA) as H.
  destruct (decmp_chol_band sq n w A) as [a|e|f]; auto. destruct H as (B & M & Fa).
  split. { apply (proj1 M). } split.
  { eapply pd_ext; [|apply (cfact_pd n (blo w) true (band_le w) _ _ Fa)]. intros. apply full_band. }
  destruct (fact_upper n (blo w) (band_le w) true _ B Fa) as (D & Z & F).
  assert (R : forall i j, i <= j < n -> band_el n w a i j = if blo w j <=? i then B i j else f0).
  { intros i j L. rewrite <- full_band. unfold full. rewrite Nat.max_r, Nat.min_l by lia.
    destruct (Nat.leb_spec (blo w j) i); auto.
    apply (sto_raw_eq n (B_SIZE n w) (B_IDX n w) (blo w) a B i j M). split; lia. }
  assert (Rd : forall i, i < n -> band_el n w a i i = B i i).
  { intros i I. rewrite R by lia. pose proof (band_le w i). bcases. auto. }
  split. { intros i I. rewrite Rd by lia. apply (proj1 Fa). auto. }
  assert (E : forall i j, i < n -> j < n ->
     (if i =? j then fdiv f1 (band_el n w a i i) else if i <? j then band_el n w a i j else f0)
       = U (blo w) true B i j).
  { intros i j I J. unfold U, dg. destruct (Nat.eqb_spec i j) as [->|]. { now rewrite Rd by lia. }
    destruct (Nat.ltb_spec i j); cbn [andb]; auto. now rewrite R by lia. }
  split; [|split].
  - intros i I. rewrite E by auto. auto.
  - intros i j J. bcases. auto.
  - intros i j I J. rewrite <- full_band, F by auto. apply sumr_ext. intros k Lk.
    now rewrite !E by lia.
Qed.

(* the banded solver, with its compensated residual and any number of refinements *)
Theorem C41_band_solves : forall (K : ofield) (sq : K -> K) imax tol n w A b x r0,
  has_sqrt sq -> w <= n -> length A = B_SIZE n w -> length b = n -> length x = n -> length r0 = n ->
  match equ_chol_band sq imax tol n w A b x r0 with
  | Ok r => positive_definite n (band_el n w A) /\ is_solution n (band_el n w A) r b
  | Throw e => e = RuntimeError /\ ~ positive_definite n (band_el n w A)
  | UB _ => False
  end.
Proof. intros. now apply equ_band_wp. Qed.
(* a band wider than the matrix is stored in too few elements: the read is out of bounds *)
Theorem C41_wide_band_refuted : exists (K : ofield) (sq : K -> K) n w A b x r0,
  length A = B_SIZE n w /\ length b = n /\ length x = n /\ length r0 = n /\
  equ_chol_band sq 0 f0 n w A b x r0 = UB OutOfBounds.
Proof.
  exists QcF, (fun x => x), 1, 2, [], (nums [1%Z]), (nums [0%Z]), (nums [0%Z]). repeat split.
Qed.

Theorem C41_chol_inverse : forall (K : ofield) (sq : K -> K) n A,
  has_sqrt sq -> length A = n * n -> symmetric n (el n A) ->
  match inv_chol sq n A with
  | Ok x => positive_definite n (el n A) /\ is_inverse n A x
  | Throw e => e = RuntimeError /\ ~ positive_definite n (el n A)
  | UB _ => False
  end.
Proof. intros. now apply inv_chol_wp. Qed.

Theorem C41_ldl_column : forall (K : ofield) (eps : K) n m c A b,
  fltb f0 eps = true -> length A = n * n -> symmetric n (el n A) -> length b = n * m -> c < m ->
  match (let* a := decmp_ldl eps n A in bksub_ldl n a b m c) with
  | Ok r => length r = n * m /\ (forall i j, i < n -> j < m -> j <> c -> el m r i j = el m b i j) /\
      forall i, i < n -> sumr 0 n (fun k => fmul (el n A i k) (el m r k c)) = el m b i c
  | Throw e => e = RuntimeError /\ small_pivot eps n (el n A)
  | UB _ => False
  end.
Proof.
  intros K eps n m c A b Ep La Sy Lb C. pose proof (ldl_column_wp eps n m c A b Ep La Sy Lb C) as H.
  destruct (let* a := decmp_ldl eps n A in bksub_ldl n a b m c) as [r|e|f]; auto.
  destruct H as (y & M & Hs & _). split. { apply (proj1 M). }
  pose proof (mat_el n m r _ M) as E. split.
  - intros i j I J N. rewrite E by auto. unfold setcol. bcases. auto.
  - intros i I. pose proof (Hs i I) as Q. cbn beta in Q. rewrite <- Q. unfold dot.
    apply sumr_ext. intros k Lk. f_equal. rewrite E by (auto; lia). now rewrite setcol_eq.
Qed.
Theorem C41_ldl_solves : forall (K : ofield) (eps : K) n A b x r0,
  fltb f0 eps = true -> length A = n * n -> symmetric n (el n A) ->
  length b = n -> length x = n -> length r0 = n ->
  match equ_ldl eps n A b x r0 with
  | Ok r => is_solution n (el n A) r b
  | Throw e => e = RuntimeError /\ small_pivot eps n (el n A)
  | UB _ => False
  end.
Proof. intros. now apply equ_ldl_wp. Qed.

(* ---------- cases over the rationals; the roots that occur are 1, 2 and 3 ---------- *)

Definition root (x : QcF) : QcF :=
  if feqb x (qz 4) then qz 2 else if feqb x (qz 9) then qz 3 else if feqb x (qz 1) then qz 1 else f0.
Definition spd : list QcF := nums [4; 2; 6;  2; 10; 0;  6; 0; 14]%Z.
Example chol_run : same (equ_chol root 3 spd (nums [12; 12; 20]%Z) (nums [0; 0; 0]%Z)) (nums [1; 1; 1]%Z) = true.
Proof. vm_compute. reflexivity. Qed.
Example chol_inv_run : match inv_chol root 3 spd with
  | Ok x => same (Ok x) (map (fun q => fdiv q (qz 144)) (nums [140; -28; -60; -28; 20; 12; -60; 12; 36]%Z))
  | _ => false end = true.
Proof. vm_compute. reflexivity. Qed.
Example tri_run : same (decmp_chol_tri root 3 (nums [4; 2; 10; 6; 0; 14]%Z)) (nums [2; 1; 3; 3; -1; 2]%Z) = true.
Proof. vm_compute. reflexivity. Qed.
Example band_run : same (equ_chol_band root 0 f0 3 1 (nums [4; 2; 10; 3; 5]%Z) (nums [6; 15; 8]%Z)
  (nums [0; 0; 0]%Z) (nums [7; 7; 7]%Z)) (nums [1; 1; 1]%Z) = true.
Proof. vm_compute. reflexivity. Qed.
Example band_refine_run : same (equ_chol_band root 3 (qz (-1)) 3 1 (nums [4; 2; 10; 3; 5]%Z)
  (nums [6; 15; 8]%Z) (nums [0; 0; 0]%Z) (nums [7; 7; 7]%Z)) (nums [1; 1; 1]%Z) = true.
Proof. vm_compute. reflexivity. Qed.
Example ldl_run : same (equ_ldl dbl_eps 3 (nums [2; 1; 0;  1; -3; 4;  0; 4; 1]%Z) (nums [3; 2; 5]%Z)
  (nums [0; 0; 0]%Z) (nums [7; 7; 7]%Z)) (nums [1; 1; 1]%Z) = true.
Proof. vm_compute. reflexivity. Qed.
(* [0 1; 1 0] is regular, but its first pivot is zero *)
Example ldl_refused : equ_ldl dbl_eps 2 (nums [0; 1; 1; 0]%Z) (nums [1; 1]%Z) (nums [0; 0]%Z)
  (nums [0; 0]%Z) = Throw RuntimeError.
Proof. vm_compute. reflexivity. Qed.
Example spd_symmetric : symmetric 3 (el 3 spd).
Proof.
  intros i j I J. destruct i as [|[|[|]]], j as [|[|[|]]]; try lia; vm_compute; reflexivity.
Qed.

Print Assumptions C41_chol_solves.
Print Assumptions C41_chol_column.
Print Assumptions C41_positive_definite_unique.
Print Assumptions C41_tri_factor.
Print Assumptions C41_dense_factor.
Print Assumptions C41_band_factor.
Print Assumptions C41_band_solves.
Print Assumptions C41_wide_band_refuted.
Print Assumptions C41_chol_inverse.
Print Assumptions C41_ldl_column.
Print Assumptions C41_ldl_solves.
