(* C43: the eigen-decomposition of symmetric matrices, the order of the eigenpairs and the solution
   of equations with them.  The QL iteration has no bound on its turns, so what is said of whole
   runs is said of those that end: UB OutOfFuel stands for a run that does not. *)
From Coq Require Import List ZArith Lia Bool Arith Field QArith Qcanon.
From Verif Require Import Base LinBase GaussProofs PropsGauss LuProofs PropsLu LdlProofs PropsChol QrProofs PropsQr
  EigModel EigProofs QlProofs EigUse.
Import ListNotations.
Local Open Scope nat_scope.

(* ---------- the specification ---------- *)

(* the columns of q are orthonormal eigenvectors of a, the values d belong to them *)
Definition eigenpairs {K : ofield} (n : nat) (a q d : list K) : Prop :=
  length q = n * n /\ length d = n /\ orthonormal n n q /\
  forall r c, r < n -> c < n ->
    sumr 0 n (fun t => fmul (el n a r t) (el n q t c)) = fmul (nth c d f0) (el n q r c).
Definition eigenvalue {K : ofield} (n : nat) (a : list K) (l : K) : Prop :=
  exists y : nat -> K, (exists i, i < n /\ y i <> f0) /\
    forall r, r < n -> sumr 0 n (fun t => fmul (el n a r t) (y t)) = fmul l (y r).
Definition descending {K : ofield} (n : nat) (d : list K) : Prop :=
  forall i j, i < j -> j < n -> fle (nth j d f0) (nth i d f0) = true.
(* the columns and the values were moved together *)
Definition rearranged {K : ofield} (n : nat) (a d a' d' : list K) : Prop :=
  length a' = n * n /\ length d' = n /\
  exists p : nat -> nat, (forall i, i < n -> p i < n) /\ (forall i j, i < n -> j < n -> p i = p j -> i = j) /\
    (forall i, i < n -> nth i d' f0 = nth (p i) d f0) /\
    forall r i, r < n -> i < n -> el n a' r i = el n a r (p i).
Definition solvable {K : ofield} (n : nat) (a b : list K) : Prop := exists x, solves n a x b.
(* no eigenvalue but zero is below tol times another *)
Definition spread {K : ofield} (tol : K) (n : nat) (a : list K) : Prop :=
  forall l m, eigenvalue n a l -> eigenvalue n a m -> l <> f0 -> fle (fmul (fabs m) tol) (fabs l) = true.

Section Proofs.
Context {K : ofield}.
Local Open Scope lin_scope.
Add Field Kf17 : (f_th K).
Notation matrix := (nat -> nat -> K).
Notation vect := (nat -> K).

Lemma symlow_sym n (a : list K) r c : symmetric n (el n a) -> r < n -> c < n -> symlow (el n a) r c = el n a r c.
Proof.
  intros S R C. unfold symlow. destruct (le_lt_dec c r).
  - rewrite Nat.max_l, Nat.min_r by lia. auto.
  - rewrite Nat.max_r, Nat.min_l by lia. apply S; auto.
Qed.
Lemma eigd_symlow n (a : list K) Q D : symmetric n (el n a) -> eigd n (symlow (el n a)) Q D -> eigd n (el n a) Q D.
Proof.
  intros S [O H]. split; auto. intros r c R C. rewrite <- H by auto. apply mprod_ext; auto.
  intros k Lk. symmetry. now apply symlow_sym.
Qed.
Lemma eigd_pairs n (a q d : list K) Q D : mat n n q Q -> vec n d D -> eigd n (el n a) Q D -> eigenpairs n a q d.
Proof.
  intros Hq Hd [O H]. pose proof (mat_el n n q Q Hq) as Eq.
  assert (Ed : forall i, i < n -> nth i d f0 = D i).
  { intros i I. destruct Hd as [_ Hd]. apply nth_error_nth. now apply Hd. }
  split; [apply Hq|]. split; [apply Hd|]. split.
  - intros i j I J. change (if i =? j then f1 else f0) with (@ident K i j). rewrite <- O by auto.
    apply sumr_ext. intros t T. rewrite !Eq by lia. auto.
  - intros r c R C. rewrite Ed, Eq, <- H by auto. unfold mprod. apply sumr_ext. intros t T. rewrite Eq by lia. auto.
Qed.
Lemma pairs_eigd n (a q d : list K) : eigenpairs n a q d ->
  mat n n q (el n q) /\ vec n d (fun i => nth i d f0) /\ eigd n (el n a) (el n q) (fun i => nth i d f0).
Proof.
  intros (Lq & Ld & O & H). split; [now apply mat_el0|]. split; [now apply vec_of|]. split; auto.
Qed.
Lemma zero_dec n (f : vect) : {i | i < n /\ f i <> f0} + {forall i, i < n -> f i = f0}.
Proof.
  induction n as [|n [(i & I & N)|Z]]. { right. lia. } { left. exists i. split; auto. }
  destruct (f_eq_dec (f n) f0) as [E|E].
  - right. intros i I. destruct (Nat.eq_dec i n) as [->|]; auto. apply Z. lia.
  - left. exists n. split; auto.
Qed.
Lemma eigd_value n (a : list K) Q D c : eigd n (el n a) Q D -> c < n -> eigenvalue n a (D c).
Proof.
  intros [O H] C. exists (fun t => Q t c). split.
  - destruct (zero_dec n (fun i => Q i c)) as [(i & I & N)|Z]; [eauto|].
    specialize (O c c C C). unfold inner, ident in O. rewrite Nat.eqb_refl in O.
    exfalso. apply (@f1_neq_f0 K). rewrite <- O. apply sumr_zero. intros t T. rewrite Z by lia. ring.
  - intros r R. apply H; auto.
Qed.

Lemma complete_part n (a q d : list K) l : symmetric n (el n a) -> eigenpairs n a q d ->
  (eigenvalue n a l <-> exists c, c < n /\ nth c d f0 = l).
Proof.
  intros Sy P. destruct (pairs_eigd n a q d P) as (Hq & Hd & E). split.
  2:{ intros (c & C & <-). now apply (eigd_value n a (el n q) (fun i => nth i d f0)). }
  intros (y & (i & I & N) & H). set (Q := el n q) in *. set (D := fun i => nth i d f0) in *.
  assert (X : forall c, c < n -> (D c - l) * sumr 0 n (fun t => Q t c * y t) = f0).
  { intros c C.
    assert (H1 : sumr 0 n (fun t => Q t c * (l * y t)) = D c * sumr 0 n (fun t => Q t c * y t)).
    { rewrite (sumr_ext 0 n _ (fun t => sumr 0 n (fun u => el n a u t * Q t c * y u))).
      2:{ intros t T. rewrite <- H by lia. rewrite <- sumr_scale. apply sumr_ext. intros u U.
          rewrite (Sy t u) by lia. ring. }
      rewrite sumr_swap. rewrite <- sumr_scale. apply sumr_ext. intros u U. rewrite sumr_scale_r.
      change (sumr 0 n (fun k => el n a u k * Q k c)) with (mprod n (el n a) Q u c). destruct E as [_ E]. rewrite E by lia. ring. }
    replace ((D c - l) * sumr 0 n (fun t => Q t c * y t))
      with (D c * sumr 0 n (fun t => Q t c * y t) - l * sumr 0 n (fun t => Q t c * y t)) by ring.
    rewrite <- H1, <- sumr_scale, <- sumr_sub. apply sumr_zero. intros. ring. }
  assert (Y : forall k, k <= n -> (exists c, c < k /\ D c = l) \/ forall c, c < k -> sumr 0 n (fun t => Q t c * y t) = f0).
  { induction k; intros Lk. { right. lia. }
    destruct IHk as [(c & C & W)|Z]; [lia| |].
    - left. exists c. split; auto.
    - destruct (f_eq_dec (D k) l) as [W|W]. { left. exists k. auto. }
      right. intros c C. destruct (Nat.eq_dec c k) as [->|]; [|apply Z; lia].
      destruct (fmul_0 _ _ (X k ltac:(lia))) as [W'|W']; auto. exfalso. apply W.
      replace (D k) with (D k - l + l) by ring. rewrite W'. ring. }
  destruct (Y n) as [R|Z]; auto. exfalso. apply N.
  transitivity (sumr 0 n (fun t => sumr 0 n (fun c => Q i c * Q t c) * y t)).
  - rewrite (sumr_one 0 n _ i); [|lia|].
    + rewrite (orth_rows' n Q i i) by (auto; apply E). unfold ident. rewrite Nat.eqb_refl. ring.
    + intros k Lk Nk. rewrite (orth_rows' n Q i k) by (auto; try lia; apply E). unfold ident. bcases. ring.
  - rewrite (sumr_ext 0 n _ (fun t => sumr 0 n (fun c => Q i c * Q t c * y t))) by (intros; now rewrite sumr_scale_r).
    rewrite sumr_swap. apply sumr_zero. intros c C.
    rewrite (sumr_ext 0 n _ (fun t => Q i c * (Q t c * y t))) by (intros; ring). rewrite sumr_scale, Z by lia. ring.
Qed.

Lemma wpf_match {A} (m : outcome A) (Q : A -> Prop) : wpf m Q ->
  match m with Ok a => Q a | Throw _ => False | UB f => f = OutOfFuel end.
Proof. destruct m as [|e|f]; cbn; auto. destruct f; auto; contradiction. Qed.

Lemma ql_part (sq : K -> K) fuel n (a d e : list K) sorted : is_sqrt sq -> length a = (n * n)%nat ->
  symmetric n (el n a) -> length d = n -> length e = n ->
  wpf (eig_ql sq fuel n a d e sorted) (fun '(q, v) => eigenpairs n a q v /\ (sorted = true -> descending n v)).
Proof.
  intros Sq La Sy Ld Le. destruct (Nat.eq_dec n 0) as [->|N].
  { unfold eig_ql. cbn. split. { refine (conj La (conj Ld (conj _ _))); intros i j I J; lia. }
    intros _ i j I J. lia. }
  eapply wpf_mono. { apply (eig_ql_wp sq fuel n a d e (el n a)); auto; try lia. { now apply is_sqrt_pos. } now apply mat_el0. }
  intros [q v] (D & Q & Hd & Hq & E & S). apply eigd_symlow in E; auto. split. { now apply (eigd_pairs n a q v Q D). }
  intros T i j L J. destruct Hd as [_ Hd].
  rewrite (nth_error_nth v i f0 (Hd i ltac:(lia))), (nth_error_nth v j f0 (Hd j ltac:(lia))). now apply S.
Qed.

Lemma sort_part n (a d : list K) Ex : length a = (n * n)%nat -> length d = n ->
  wp (eig_sort n a d) (fun '(a', d') => rearranged n a d a' d' /\ descending n d') Ex.
Proof.
  intros La Ld. eapply wp_mono. { apply (eig_sort_wp n a d (el n a) (fun i => nth i d f0)); [now apply mat_el0|now apply vec_of]. }
  intros [a' d'] (p & [P1 P2] & Ha & Hd & S).
  assert (Ed : forall i, i < n -> nth i d' f0 = nth (p i) d f0).
  { intros i I. destruct Hd as [_ Hd]. apply nth_error_nth. now apply Hd. }
  split.
  - split; [apply Ha|]. split; [apply Hd|]. exists p. repeat split; auto.
    intros r i R I. now rewrite (mat_el n n a' _ Ha).
  - intros i j L J. rewrite !Ed by lia. auto.
Qed.

Lemma back_part n (a q d b : list K) Ex : symmetric n (el n a) -> eigenpairs n a q d -> length b = n ->
  wp (bksub_eig n q d b 1 0) (fun x => length x = n /\ (solvable n a b -> solves n a x b) /\
    forall r, r < n -> sumr 0 n (fun t => el n a r t *
      (nth t b f0 - sumr 0 n (fun u => el n a t u * nth u x f0))) = f0) Ex.
Proof.
  intros Sy P Lb. destruct (pairs_eigd n a q d P) as (Hq & Hd & E).
  eapply wp_mono. { apply (bksub_eig_1_wp n q d b (el n q) (fun i => nth i d f0) (fun i => nth i b f0)); [exact Hq|exact Hd|now apply vec_of]. }
  intros x Hx. cbn beta in Hx.
  assert (Ex' : forall i, i < n -> nth i x f0 = esol n (el n q) (fun i => nth i d f0) (fun i => nth i b f0) i).
  { intros i I. destruct Hx as [_ Hx]. apply nth_error_nth. now apply Hx. }
  split; [apply Hx|]. split.
  - intros (z & Lz & Hz). split; [apply Hx|]. intros i I.
    transitivity (dot n (el n a) i (esol n (el n q) (fun i => nth i d f0) (fun i => nth i b f0))).
    { apply sumr_ext. intros k Lk. rewrite Ex' by lia. auto. }
    apply (esol_solv n (el n a) (el n q) (fun i => nth i d f0)); auto.
    intros c C Z. apply (eigd_range n (el n a) _ (fun i => nth i d f0) (fun i => nth i z f0)); auto.
  - intros r R. refine (eq_trans _ (esol_lsq n (el n a) (el n q) (fun i => nth i d f0) (fun i => nth i b f0) r E R)).
   
    apply sumr_ext. intros t T. do 2 f_equal. apply sumr_ext. intros u U. rewrite Ex' by lia. auto.
Qed.

Lemma clip_keeps n (a : list K) Q D mx tol i : eigd n (el n a) Q D -> largest n D mx -> spread tol n a -> i < n ->
  clipped mx tol D i = D i.
Proof.
  intros E (M & m & Lm & ->) S I. unfold clipped. destruct (fltb (fabs (D i)) (fabs (D m) * tol)) eqn:C; auto.
  destruct (f_eq_dec (D i) f0) as [Z|N]; [congruence|]. exfalso.
  pose proof (S (D i) (D m) (eigd_value n a Q D i E I) (eigd_value n a Q D m E Lm) N) as W.
  unfold fltb in C. rewrite W in C. discriminate.
Qed.

Lemma equ_part (sq : K -> K) fuel tol n (a b x d e r : list K) : is_sqrt sq -> length a = (n * n)%nat ->
  symmetric n (el n a) -> length b = n -> length d = n -> length e = n -> length r = n -> length x = n ->
  spread tol n a -> solvable n a b ->
  wpf (equ_eig sq fuel tol n a b x d e r) (fun y => solves n a y b).
Proof.
  intros Sq La Sy Lb Ld Le Lr Lx Sp (z & Lz & Hz). destruct (Nat.eq_dec n 0) as [->|N].
  { unfold equ_eig. cbn. split; [auto|]. intros i I. lia. }
  eapply wpf_mono. { apply (equ_eig_wp sq fuel tol n a b x d e r (el n a) (fun i => nth i b f0)); auto; try lia.
    { now apply is_sqrt_pos. } { now apply mat_el0. } now apply vec_of. }
  intros y (D & Q & mx & E & Lg & Hy). apply eigd_symlow in E; auto. cbv zeta in Hy.
  set (b' := fun i => nth i b f0) in *. set (s := esol n Q (clipped mx tol D) b') in *.
  assert (So : solv n (el n a) s b').
  { apply (esol_solv n (el n a) Q D); auto.
    - intros i I. left. now apply (clip_keeps n a Q).
    - intros i I Zi. rewrite (clip_keeps n a Q) in Zi by auto.
      apply (eigd_range n (el n a) Q D (fun i => nth i z f0)); auto. }
  split; [apply Hy|]. intros i I. transitivity (dot n (el n a) i s); [|apply So; auto].
  apply sumr_ext. intros k Lk. f_equal. destruct Hy as [_ Hy].
  rewrite (nth_error_nth y k f0 (Hy k ltac:(lia))).
  rewrite esol_zero.
  { ring. } intros t T. rewrite So by auto. unfold b'. ring.
Qed.

Lemma inv_part (sq : K -> K) fuel tol n (a d e : list K) : is_sqrt sq -> length a = (n * n)%nat ->
  symmetric n (el n a) -> length d = n -> length e = n -> spread tol n a -> regular n a ->
  wpf (inv_eig sq fuel tol n a d e) (fun x => is_inverse n a x).
Proof.
  intros Sq La Sy Ld Le Sp Rg. destruct (Nat.eq_dec n 0) as [->|N].
  { unfold inv_eig. cbn. repeat split; auto; intros; lia. }
  eapply wpf_mono. { apply (inv_eig_wp sq fuel tol n a d e (el n a)); auto; try lia.
    { now apply is_sqrt_pos. } now apply mat_el0. }
  intros x (D & Q & mx & E & Lg & Hx). apply eigd_symlow in E; auto.
  assert (Nz : forall i, i < n -> D i <> f0).
  { intros i I Z. destruct (eigd_value n a Q D i E I) as (y & (j & J & Ny) & H). apply Ny. apply Rg; auto.
    intros r R. rewrite H by auto. rewrite Z. ring. }
  set (X := fun r c => esol n Q (clipped mx tol D) (fun t => ident t c) r) in *.
  pose proof (mat_el n n x X Hx) as Ex.
  assert (R1 : forall i j, i < n -> j < n -> sumr 0 n (fun k => el n a i k * X k j) = ident i j).
  { intros i j I J. apply (esol_solv n (el n a) Q D (clipped mx tol D) (fun t => ident t j)); auto.
    - intros k Lk. left. now apply (clip_keeps n a Q).
    - intros k Lk Z. rewrite (clip_keeps n a Q) in Z by auto. now apply Nz in Z. }
  assert (Xs : forall i j, i < n -> j < n -> X i j = X j i).
  { intros i j I J. unfold X, esol. apply sumr_ext. intros k Lk. unfold coef.
    rewrite (clip_keeps n a Q) by (auto; lia). destruct (feqb_spec (D k) f0) as [Z|Z]; [ring|].
    rewrite (sumr_one 0 n _ j), (sumr_one 0 n _ i); try lia.
    - unfold ident. rewrite !Nat.eqb_refl. field. auto.
    - intros t T Nt. unfold ident. bcases. ring.
    - intros t T Nt. unfold ident. bcases. ring. }
  split; [apply Hx|]. split.
  - intros i j I J. rewrite (sumr_ext 0 n _ (fun k => el n a i k * X k j)) by (intros; rewrite Ex by lia; auto).
    apply R1; auto.
  - intros i j I J. rewrite (sumr_ext 0 n _ (fun k => el n a j k * X k i)).
    2:{ intros k Lk. rewrite Ex by lia. rewrite (Xs i k), (Sy k j) by lia. ring. }
    rewrite R1 by auto. unfold ident. rewrite Nat.eqb_sym. auto.
Qed.
End Proofs.

(* ---------- the theorems ---------- *)

(* a run of eig_ql that ends returns an orthonormal matrix of eigenvectors and their values, in
   descending order when asked to sort; the arrays d and e are arbitrary before.  That the runs
   end is not shown. *)
Theorem C43_eig_ql_partial : forall (K : ofield) (sq : K -> K) fuel n (a d e : list K) sorted,
  is_sqrt sq -> length a = n * n -> symmetric n (el n a) -> length d = n -> length e = n ->
  match eig_ql sq fuel n a d e sorted with
  | Ok (q, v) => eigenpairs n a q v /\ (sorted = true -> descending n v)
  | Throw _ => False
  | UB f => f = OutOfFuel
  end.
Proof. intros K sq fuel n a d e sorted H1 H2 H3 H4 H5. pose proof (wpf_match _ _ (ql_part sq fuel n a d e sorted H1 H2 H3 H4 H5)) as W.
  destruct (eig_ql sq fuel n a d e sorted) as [[q v]|x|x]; auto. Qed.

(* the sorting alone: for all arrays the values come out in descending order, and the columns
   move with them *)
Theorem C43_sort_keeps_pairs : forall (K : ofield) n (a d : list K), length a = n * n -> length d = n ->
  match eig_sort n a d with
  | Ok (a', d') => rearranged n a d a' d' /\ descending n d'
  | _ => False
  end.
Proof.
  intros K n a d La Ld. pose proof (sort_part n a d (fun _ => False) La Ld) as W.
  destruct (eig_sort n a d) as [[a' d']|x|x]; auto.
Qed.

(* the values of a decomposition are the eigenvalues of the matrix, all of them *)
Theorem C43_eigenvalues_complete : forall (K : ofield) n (a q d : list K) l,
  symmetric n (el n a) -> eigenpairs n a q d -> (eigenvalue n a l <-> exists c, c < n /\ nth c d f0 = l).
Proof. intros. now apply (complete_part n a q d). Qed.

(* one right-hand side: the solution if there is one, else a solution of the normal equations *)
Theorem C43_bksub_eig_one_column : forall (K : ofield) n (a q d b : list K),
  symmetric n (el n a) -> eigenpairs n a q d -> length b = n ->
  match bksub_eig n q d b 1 0 with
  | Ok x => length x = n /\ (solvable n a b -> solves n a x b) /\
      forall r, r < n -> sumr 0 n (fun t => fmul (el n a r t)
        (fsub (nth t b f0) (sumr 0 n (fun u => fmul (el n a t u) (nth u x f0))))) = f0
  | _ => False
  end.
Proof. intros K n a q d b H1 H2 H3. exact (back_part n a q d b (fun _ => False) H1 H2 H3). Qed.

(* with p right-hand sides the solution for column c does not go to column c: it is written over
   the first n elements of the array, and the others are kept *)
Theorem C43_bksub_eig_partial : forall (K : ofield) n (a q d b : list K) p c,
  symmetric n (el n a) -> eigenpairs n a q d -> length b = n * p -> c < p ->
  match bksub_eig n q d b p c, bksub_eig n q d (map (fun i => el p b i c) (seq 0 n)) 1 0 with
  | Ok x, Ok y => x = y ++ skipn n b
  | _, _ => False
  end.
Proof.
  intros K n a q d b p c Sy P Lb Lc. destruct (pairs_eigd n a q d P) as (Hq & Hd & _).
  set (b1 := map (fun i => el p b i c) (seq 0 n)).
  assert (Hb1 : vec n b1 (fun i => el p b i c)).
  { split. { unfold b1. now rewrite map_length, seq_length. }
    intros i I. unfold b1. rewrite nth_error_map. rewrite (nth_error_nth' _ 0) by (rewrite seq_length; lia).
    rewrite seq_nth by lia. reflexivity. }
  pose proof (bksub_eig_wp n q d b p c (el n q) (el p b) _ (fun _ => False) Hq Hd (mat_el0 n p b Lb) Lc) as W1.
  pose proof (bksub_eig_1_wp n q d b1 (el n q) _ _ (fun _ => False) Hq Hd Hb1) as W2.
  destruct (bksub_eig n q d b p c) as [x| |]; cbn [wp] in W1; try contradiction.
  destruct (bksub_eig n q d b1 1 0) as [y| |]; cbn [wp] in W2; try contradiction.
  destruct W1 as [Lx Hx]. destruct W2 as [Ly Hy].
  assert (Ln : n <= length b) by (rewrite Lb; destruct p; [lia|nia]).
  apply nth_ext with (d := f0) (d' := f0). { rewrite app_length, skipn_length. lia. }
  intros k Lk. destruct (lt_dec k n) as [I|I].
  - rewrite app_nth1 by lia. specialize (Hx k ltac:(lia)). rewrite (proj2 (Nat.ltb_lt k n)) in Hx by auto.
    specialize (Hy k I). rewrite (nth_error_nth _ _ f0 Hx), (nth_error_nth _ _ f0 Hy). reflexivity.
  - rewrite app_nth2 by lia. specialize (Hx k ltac:(lia)). rewrite (proj2 (Nat.ltb_ge k n)) in Hx by lia.
    rewrite Ly. rewrite <- (firstn_skipn n b) in Hx. rewrite nth_error_app2 in Hx by (rewrite firstn_length; lia).
    rewrite firstn_length, Nat.min_l in Hx by lia.
    destruct (nth_error (skipn n b) (k - n)) as [v|] eqn:V.
    + rewrite (nth_error_nth _ _ f0 Hx), (nth_error_nth _ _ f0 V). reflexivity.
    + apply nth_error_None in V. rewrite skipn_length in V. lia.
Qed.

(* so the claim is false for two columns *)
Theorem C43_bksub_eig_refuted : exists n (a q d b x : list QcF) p c,
  symmetric n (el n a) /\ eigenpairs n a q d /\ length b = n * p /\ c < p /\ bksub_eig n q d b p c = Ok x /\
  ~ solves_column n a (fun r => el p x r c) p c b /\ ~ other_columns n p c b x.
Proof.
  exists 2, (nums [1; 0; 0; 1]%Z), (nums [1; 0; 0; 1]%Z), (nums [1; 1]%Z), (nums [5; 7; 6; 8]%Z).
  eexists _, 2, 1. 
  assert (S : forall i, i < 2 -> i = 0 \/ i = 1) by lia.
  split. { intros i j I J. destruct (S i I) as [->| ->], (S j J) as [->| ->]; apply Qc_is_canon; reflexivity. }
  split. { split; [reflexivity|]. split; [reflexivity|]. split.
    - intros i j I J. destruct (S i I) as [->| ->], (S j J) as [->| ->]; apply Qc_is_canon; vm_compute; reflexivity.
    - intros i j I J. destruct (S i I) as [->| ->], (S j J) as [->| ->]; apply Qc_is_canon; vm_compute; reflexivity. }
  split; [reflexivity|]. split; [lia|]. split; [vm_compute; reflexivity|]. split.
  - intros H. specialize (H 0 ltac:(lia)). apply (f_equal this) in H. vm_compute in H. discriminate.
  - intros [_ H]. specialize (H 0 0 ltac:(lia) ltac:(lia) ltac:(lia)). apply (f_equal this) in H. vm_compute in H. discriminate.
Qed.

(* runs that end give the solution and the inverse, unless an eigenvalue other than zero is set to
   zero for being small *)
Theorem C43_equ_eig_partial : forall (K : ofield) (sq : K -> K) fuel tol n (a b x d e r : list K),
  is_sqrt sq -> length a = n * n -> symmetric n (el n a) -> length b = n -> length x = n ->
  length d = n -> length e = n -> length r = n -> spread tol n a -> solvable n a b ->
  match equ_eig sq fuel tol n a b x d e r with
  | Ok y => solves n a y b
  | Throw _ => False
  | UB f => f = OutOfFuel
  end.
Proof. intros. apply wpf_match. now apply equ_part. Qed.
Theorem C43_inv_eig_partial : forall (K : ofield) (sq : K -> K) fuel tol n (a d e : list K),
  is_sqrt sq -> length a = n * n -> symmetric n (el n a) -> length d = n -> length e = n ->
  spread tol n a -> regular n a ->
  match inv_eig sq fuel tol n a d e with
  | Ok x => is_inverse n a x
  | Throw _ => False
  | UB f => f = OutOfFuel
  end.
Proof. intros. apply wpf_match. now apply inv_part. Qed.

(* ---------- examples ---------- *)

Definition root25 (x : QcF) : QcF :=
  if feqb x (qz 400) then qz 20 else if feqb x (qz 1) then qz 1
  else if feqb x (fdiv (qz 625) (qz 576)) then fdiv (qz 25) (qz 24) else f0.
(* [9 12; 12 16] has the eigenvalues 25 and 0 *)
Definition ex_a : list QcF := nums [9; 12; 12; 16]%Z.
Definition ex_run (sorted : bool) := eig_ql root25 5 2 ex_a (nums [7; 7]%Z) (nums [8; 8]%Z) sorted.
Definition same2 (o : outcome (list QcF * list QcF)) (q d : list QcF) : bool :=
  match o with Ok (x, y) => same (Ok x) q && same (Ok y) d | _ => false end.
Definition fifths (l : list Z) : list QcF := map (fun x => fdiv x (qz 5)) (nums l).
Example eig_sorted : same2 (ex_run true) (fifths [3; 4; 4; -3]%Z) (nums [25; 0]%Z) = true.
Proof. vm_compute. reflexivity. Qed.
Example eig_unsorted : same2 (ex_run false) (fifths [4; 3; -3; 4]%Z) (nums [0; 25]%Z) = true.
Proof. vm_compute. reflexivity. Qed.
(* with too little fuel the run does not end *)
Example eig_fuel : eig_ql root25 1 2 ex_a (nums [7; 7]%Z) (nums [8; 8]%Z) false = UB OutOfFuel.
Proof. vm_compute. reflexivity. Qed.
Example sort_three : same2 (eig_sort 3 (nums [1; 2; 3; 4; 5; 6; 7; 8; 9]%Z) (nums [5; 7; 5]%Z))
  (nums [2; 3; 1; 5; 6; 4; 8; 9; 7]%Z) (nums [7; 5; 5]%Z) = true.
Proof. vm_compute. reflexivity. Qed.
Definition eig_tol : QcF := fdiv (qz 1) (qz (10 ^ 17)).
Definition ex_b : list QcF := nums [10; 12; 12; 17]%Z.
(* (10 12; 12 17) (2, -1) = (8, 7) *)
Example equ_run : same (equ_eig root25 5 eig_tol 2 ex_b (nums [8; 7]%Z) (nums [0; 0]%Z) (nums [7; 7]%Z)
  (nums [8; 8]%Z) (nums [9; 9]%Z)) (nums [2; -1]%Z) = true.
Proof. vm_compute. reflexivity. Qed.
Example inv_run : same (inv_eig root25 5 eig_tol 2 ex_b (nums [7; 7]%Z) (nums [8; 8]%Z))
  (map (fun x => fdiv x (qz 26)) (nums [17; -12; -12; 10]%Z)) = true.
Proof. vm_compute. reflexivity. Qed.
(* the hypothesis spread holds for it: the eigenvalues are 26 and 1 *)
Example ex_spread : symmetric 2 (el 2 ex_b) /\ spread eig_tol 2 ex_b.
Proof.
  assert (S : forall i, i < 2 -> i = 0 \/ i = 1) by lia.
  assert (Sy : symmetric 2 (el 2 ex_b)).
  { intros i j I J. destruct (S i I) as [->| ->], (S j J) as [->| ->]; apply Qc_is_canon; reflexivity. }
  split; auto.
  assert (P : eigenpairs 2 ex_b (fifths [3; 4; 4; -3]%Z) (nums [26; 1]%Z)).
  { split; [reflexivity|]. split; [reflexivity|]. split; intros i j I J;
    destruct (S i I) as [->| ->], (S j J) as [->| ->]; apply Qc_is_canon; vm_compute; reflexivity. }
  intros l m Hl Hm _. apply (C43_eigenvalues_complete QcF 2 _ _ _ _ Sy P) in Hl as (i & I & <-).
  apply (C43_eigenvalues_complete QcF 2 _ _ _ _ Sy P) in Hm as (j & J & <-).
  destruct (S i I) as [->| ->], (S j J) as [->| ->]; vm_compute; reflexivity.
Qed.

Print Assumptions C43_eig_ql_partial.
Print Assumptions C43_sort_keeps_pairs.
Print Assumptions C43_eigenvalues_complete.
Print Assumptions C43_bksub_eig_one_column.
Print Assumptions C43_bksub_eig_partial.
Print Assumptions C43_bksub_eig_refuted.
Print Assumptions C43_equ_eig_partial.
Print Assumptions C43_inv_eig_partial.
