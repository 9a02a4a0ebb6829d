(* C83: the incomplete Cholesky decomposition of the stiffness matrix of fem3d.cpp. *)
From Coq Require Import List ZArith QArith Qcanon Reals Lra Bool Arith Lia Permutation Sorting.Sorted Ring Field.
From Verif Require Import Base LinBase SmatModel SmatProofs SmatFill PropsSmat IncholModel IncholProofs FftProofs PropsQr LinReal.
Import ListNotations.
Local Open Scope nat_scope.

(* ---- specification ---- *)
(* a matrix made by the operations of the class *)
Inductive built {B : Type} (b0 : B) badd btr (lim : Z) (m : nat) : smat B -> Prop :=
| built_new : built b0 badd btr lim m (smat_new b0 m)
| built_append A i j t A' : built b0 badd btr lim m A -> i < m -> j < m -> append badd btr lim A i j t = Ok A' -> built b0 badd btr lim m A'
| built_tidy A A' : built b0 badd btr lim m A -> tidy (S m) A = Ok A' -> built b0 badd btr lim m A'
| built_copy A A' : built b0 badd btr lim m A -> copy b0 badd btr lim A = Ok A' -> built b0 badd btr lim m A'
| built_fillin A A' : built b0 badd btr lim m A -> fillin b0 lim (S m) A = Ok A' -> built b0 badd btr lim m A'
| built_diag A n k d : built b0 badd btr lim m A -> nth_error A n = Some d -> built b0 badd btr lim m (upd A n (Dc k (dhead d) (dnodes d) (dcap d))).

Section Spec.
Context {K : ofield}.
Local Open Scope lin_scope.
(* entry (i,j) of the block in row r and column c of the symmetric matrix, r <= c *)
Definition entry (A : smat (m3 K)) (r c i j : nat) : K :=
  match (if Nat.eqb r c then diagonal A r else stored A r c) with Some x => get3 x i j | None => f0 end.
(* the same of the triangle U: the diagonal is kept as reciprocals, below it U is zero *)
Definition uentry (A : smat (m3 K)) (r c i j : nat) : K :=
  if Nat.ltb r c then entry A r c i j
  else if Nat.eqb r c then
    if Nat.eqb i j then f1 / entry A r r i i else if Nat.ltb i j then entry A r r i j else f0
  else f0.
(* entry (i,j) of block (r,c) of U'U *)
Definition utu (A : smat (m3 K)) (m r c i j : nat) : K :=
  sumr 0 m (fun k => sumr 0 3 (fun s => uentry A k r s i * uentry A k c s j)).
(* entry (p,q) of the symmetric matrix, by single rows and columns *)
Definition scal (A : smat (m3 K)) (p q : nat) : K :=
  if Nat.leb p q then entry A (p / 3) (q / 3) (p mod 3) (q mod 3) else entry A (q / 3) (p / 3) (q mod 3) (p mod 3).
Definition quad (A : smat (m3 K)) (m : nat) (x : nat -> K) : K :=
  sumr 0 (3 * m) (fun p => sumr 0 (3 * m) (fun q => x p * scal A p q * x q)).
End Spec.
(* no block is missing where two blocks above it in the columns meet *)
Definition closed {B} (A : smat B) (m : nat) : Prop :=
  forall k r c, k < r -> r < c -> c < m -> stored A k r <> None -> stored A k c <> None -> stored A r c <> None.

Lemma built_holds {B : Type} (b0 : B) badd btr lim m A : (forall x, badd b0 x = x) -> (Z.of_nat m < 2 ^ 16)%Z ->
  built b0 badd btr lim m A -> exists D C, holds A m D C.
Proof.
  intros Z0 U. induction 1 as [|A i j t A' H (D & C & IH) I J E|A A' H (D & C & IH) E|A A' H (D & C & IH) E|A A' H (D & C & IH) E|A n k d H (D & C & IH) E].
  - exists (fun _ => b0), (fun _ => []). apply holds_new.
  - pose proof (append_wp badd btr lim A m D C i j t IH I J ltac:(lia)) as W. rewrite E in W. cbn [wp] in W.
    destruct (i =? j); eauto.
  - pose proof (tidy_holds (S m) A m D C U ltac:(lia) IH) as W. rewrite E in W. cbn [wp] in W. eauto using holds_of_tidy.
  - pose proof (copy_wp b0 badd btr lim Z0 A m D C IH ltac:(lia)) as W. rewrite E in W. cbn [wp] in W. eauto.
  - pose proof (fillin_wp b0 badd btr lim (S m) A m D C IH U ltac:(lia)) as W. rewrite E in W. cbn [wp] in W. eauto using holds_of_tidy.
  - assert (N : n < m) by (rewrite <- (proj1 IH); eapply nth_error_lt; eauto). destruct (proj2 IH n N) as (d' & E' & R & _). assert (d' = d) by congruence. subst d'.
    exists (updf D n k), (updf C n (C n)). apply holds_upd; auto.
Qed.

Section Proofs.
Context {K : ofield}.
Local Open Scope lin_scope.
Add Field Kf55 : (f_th K).
Lemma sum3 (f : nat -> K) : sumr 0 3 f = f 0%nat + f 1%nat + f 2%nat.
Proof. rewrite !sumr_S by lia. rewrite sumr_nil by lia. ring. Qed.
Lemma entry_blk (A : smat (m3 K)) m D C r c i j : holds A m D C -> (r < c < m)%nat -> entry A r c i j = get3 (blk (C c) r) i j.
Proof.
  intros H R. unfold entry. destruct (Nat.eqb_spec r c); [lia|]. rewrite (holds_stored _ _ _ _ _ _ H) by lia. unfold blk.
  destruct (lookup (C c) r); auto. now rewrite get_zero.
Qed.
Lemma entry_diag (A : smat (m3 K)) m D C r i j : holds A m D C -> (r < m)%nat -> entry A r r i j = get3 (D r) i j.
Proof. intros H R. unfold entry. rewrite Nat.eqb_refl, (holds_diagonal _ _ _ _ _ H R). auto. Qed.
Lemma uentry_diag (A : smat (m3 K)) m D C r i j : holds A m D C -> (r < m)%nat -> uentry A r r i j = tri (D r) i j.
Proof.
  intros H R. unfold uentry, tri. rewrite Nat.ltb_irrefl, Nat.eqb_refl, !(entry_diag _ _ _ _ _ _ _ H R). auto.
Qed.
Lemma uentry_up (A : smat (m3 K)) m D C r c i j : holds A m D C -> (r < c < m)%nat -> uentry A r c i j = get3 (blk (C c) r) i j.
Proof. intros H R. unfold uentry. replace (Nat.ltb r c) with true by (symmetry; apply Nat.ltb_lt; lia). eapply entry_blk; eauto. Qed.
Lemma uentry_low (A : smat (m3 K)) r c i j : (c < r)%nat -> uentry A r c i j = f0.
Proof. intros R. unfold uentry. destruct (Nat.ltb_spec r c); [lia|]. destruct (Nat.eqb_spec r c); [lia|auto]. Qed.
Lemma utu_off (A : smat (m3 K)) m D C r c i j : holds A m D C -> (r < c < m)%nat ->
  utu A m r c i j = sumr 0 r (fun k => dot3 (blk (C r) k) (blk (C c) k) i j) + tdot (D r) (blk (C c) r) i j.
Proof.
  intros H R. unfold utu. rewrite (sumr_split 0 r m), (sumr_first r m) by lia. rewrite (sumr_zero (S r) m).
  - rewrite sum3, !(uentry_diag _ _ _ _ _ _ _ H) by lia. rewrite !(uentry_up _ _ _ _ _ _ _ _ H) by lia.
    rewrite (sumr_ext 0 r _ (fun k => dot3 (blk (C r) k) (blk (C c) k) i j)).
    + unfold tdot. ring.
    + intros k Kk. rewrite sum3, !(uentry_up _ _ _ _ _ _ _ _ H) by lia. reflexivity.
  - intros k Kk. rewrite sum3, !(uentry_low _ k r) by lia. ring.
Qed.
Lemma utu_diag (A : smat (m3 K)) m D C r i j : holds A m D C -> (r < m)%nat ->
  utu A m r r i j = sumr 0 r (fun k => dot3 (blk (C r) k) (blk (C r) k) i j) + ttdot (D r) i j.
Proof.
  intros H R. unfold utu. rewrite (sumr_split 0 r m), (sumr_first r m) by lia. rewrite (sumr_zero (S r) m).
  - rewrite sum3, !(uentry_diag _ _ _ _ _ _ _ H) by lia.
    rewrite (sumr_ext 0 r _ (fun k => dot3 (blk (C r) k) (blk (C r) k) i j)).
    + unfold ttdot. ring.
    + intros k Kk. rewrite sum3, !(uentry_up _ _ _ _ _ _ _ _ H) by lia. reflexivity.
  - intros k Kk. rewrite sum3, !(uentry_low _ k r) by lia. ring.
Qed.
Lemma lookup_fst (L L' : list (nat * m3 K)) k : map fst L = map fst L' -> (lookup L k = None <-> lookup L' k = None).
Proof.
  revert L'. induction L as [|[r x] L IH]; intros [|[r' x'] L'] E; cbn in E; try discriminate; [tauto|].
  injection E as -> E. cbn. destruct (Nat.eqb r' k); [split; discriminate|auto].
Qed.
Lemma tdot_zero (d : m3 K) i j : tdot d zero3 i j = f0.
Proof. unfold tdot. rewrite !get_zero. ring. Qed.

(* a triangle found up to row N leaves the Schur complement z: some x with last component 1 gives it *)
Lemma back_subst (u : nat -> nat -> K) N : (forall p, (p < N)%nat -> u p p <> f0) -> (forall p q, (q < p)%nat -> u p q = f0) ->
  forall k, (k <= N)%nat -> exists x : nat -> K, x N = f1 /\ (forall p, (N < p)%nat -> x p = f0) /\
    forall s, (k <= s < N)%nat -> sumr 0 (S N) (fun p => u s p * x p) = f0.
Proof.
  intros UD UL k KN. remember (N - k)%nat as t eqn:T. revert k KN T. induction t as [|t IH]; intros k KN T.
  - exists (fun p => if Nat.eqb p N then f1 else f0). split; [now rewrite Nat.eqb_refl|]. split; [|lia].
    intros p P. destruct (Nat.eqb_spec p N); [lia|auto].
  - destruct (IH (S k) ltac:(lia) ltac:(lia)) as (x & X1 & X2 & X3).
    set (y := fun p => if Nat.eqb p k then f0 - sumr (S k) (S N) (fun p => u k p * x p) / u k k else x p).
    exists y. split. { unfold y. destruct (Nat.eqb_spec N k); [lia|auto]. }
    split. { intros p P. unfold y. destruct (Nat.eqb_spec p k); [lia|auto]. }
    intros s S. destruct (Nat.eq_dec s k) as [->|NE].
    + rewrite (sumr_split 0 k (Datatypes.S N)), (sumr_first k (Datatypes.S N)) by lia.
      rewrite (sumr_zero 0 k). 2:{ intros p P. rewrite UL by lia. ring. }
      rewrite (sumr_ext (Datatypes.S k) (Datatypes.S N) _ (fun p => u k p * x p)).
      * unfold y at 1. rewrite Nat.eqb_refl. field. apply UD. lia.
      * intros p P. unfold y. destruct (Nat.eqb_spec p k); [lia|auto].
    + rewrite <- (X3 s ltac:(lia)). apply sumr_ext. intros p P. unfold y. destruct (Nat.eqb_spec p k); auto. subst. rewrite UL by lia. ring.
Qed.
Lemma schur (u a : nat -> nat -> K) N z : (forall p, (p < N)%nat -> u p p <> f0) -> (forall p q, (q < p)%nat -> u p q = f0) ->
  (forall p q, (p < N)%nat -> (p <= q <= N)%nat -> sumr 0 N (fun s => u s p * u s q) = a p q) ->
  a N N - sumr 0 N (fun s => u s N * u s N) = z ->
  exists x : nat -> K, x N = f1 /\ (forall p, (N < p)%nat -> x p = f0) /\
    sumr 0 (S N) (fun p => sumr 0 (S N) (fun q => x p * (if Nat.leb p q then a p q else a q p) * x q)) = z.
Proof.
  intros UD UL UA Z0. destruct (back_subst u N UD UL 0 ltac:(lia)) as (x & X1 & X2 & X3).
  exists x. split; [auto|]. split; [auto|].
  set (g := fun p q => sumr 0 N (fun s => u s p * u s q)).
  assert (GA : forall p q, (p <= N)%nat -> (q <= N)%nat -> (if Nat.leb p q then a p q else a q p) = g p q + (if Nat.eqb p N && Nat.eqb q N then z else f0)).
  { intros p q P Q. destruct (Nat.leb_spec p q).
    - destruct (Nat.eqb_spec p N); [|rewrite <- UA by lia; unfold g; cbn; ring]. subst p. replace q with N by lia. rewrite Nat.eqb_refl. cbn.
      rewrite <- Z0. unfold g. ring.
    - rewrite <- UA by lia. destruct (Nat.eqb_spec q N); [lia|]. rewrite andb_false_r. unfold g.
      rewrite (sumr_ext 0 N (fun s => u s q * u s p) (fun s => u s p * u s q)) by (intros; ring). ring. }
  rewrite (sumr_ext 0 (S N) _ (fun p => sumr 0 N (fun s => (u s p * x p) * sumr 0 (S N) (fun q => u s q * x q)) + (if Nat.eqb p N then z else f0))).
  - rewrite sumr_add, (sumr_one 0 (S N) (fun p => if Nat.eqb p N then z else f0) N); [|lia|].
    2:{ intros k _ NE. destruct (Nat.eqb_spec k N); [contradiction|auto]. }
    rewrite Nat.eqb_refl. rewrite (sumr_zero 0 (S N)). { ring. }
    intros p P. apply sumr_zero. intros s S. rewrite X3 by lia. ring.
  - intros p P.
    rewrite (sumr_ext 0 (S N) _ (fun q => x p * g p q * x q + (if Nat.eqb p N && Nat.eqb q N then z else f0))).
    2:{ intros q Q. rewrite GA by lia. destruct (Nat.eqb_spec p N), (Nat.eqb_spec q N); cbn; try ring. subst. rewrite X1. ring. }
    rewrite sumr_add. f_equal.
    + rewrite (sumr_ext 0 N _ (fun s => sumr 0 (S N) (fun q => u s p * x p * (u s q * x q)))) by (intros; now rewrite sumr_scale).
      rewrite sumr_swap. apply sumr_ext. intros q Q. unfold g. rewrite <- sumr_scale, <- sumr_scale_r. apply sumr_ext. intros; ring.
    + destruct (Nat.eqb_spec p N); cbn [andb].
      * rewrite (sumr_one 0 (S N) _ N); [now rewrite Nat.eqb_refl|lia|]. intros k _ NE. destruct (Nat.eqb_spec k N); [contradiction|auto].
      * apply sumr_zero. auto.
Qed.
Lemma sum_blocks (f : nat -> K) n i : sumr 0 (3 * n + i) f = sumr 0 n (fun k => f (3 * k)%nat + f (3 * k + 1)%nat + f (3 * k + 2)%nat) + sumr 0 i (fun s => f (3 * n + s)%nat).
Proof.
  induction i.
  - rewrite (sumr_nil 0 0) by lia. induction n.
    + rewrite !sumr_nil by lia. ring.
    + replace (3 * S n + 0)%nat with (S (S (S (3 * n + 0)))) by lia. rewrite !sumr_S by lia. rewrite IHn.
      replace (S (3 * n + 0)) with (3 * n + 1)%nat by lia. replace (S (3 * n + 1)) with (3 * n + 2)%nat by lia.
      replace (3 * n + 0)%nat with (3 * n)%nat by lia. ring.
  - replace (3 * n + S i)%nat with (S (3 * n + i)) by lia. rewrite !sumr_S, IHi by lia. ring.
Qed.
Lemma div3 k s : (s < 3)%nat -> ((3 * k + s) / 3 = k /\ (3 * k + s) mod 3 = s)%nat.
Proof. intros S. split; [symmetry; apply Nat.div_unique with s; lia|symmetry; apply Nat.mod_unique with k; lia]. Qed.
End Proofs.

(* ---- theorems ---- *)
(* U'U agrees with the matrix on its diagonal and wherever it has a block; U has blocks in the same
   places.  On failure the only outcome is the exception. *)
Theorem C83_incchol : forall (K : ofield) (sq : K -> K) eps lim m (A : smat (m3 K)),
  is_sqrt sq -> fltb f0 eps = true -> (Z.of_nat m < 2 ^ 16)%Z -> built zero3 add3 tr3 lim m A ->
  incchol sq eps A = Throw RuntimeError \/
  exists U, incchol sq eps A = Ok U /\ length U = m /\
    (forall r c, r < c < m -> stored U r c = None <-> stored A r c = None) /\
    (forall r i, r < m -> i < 3 -> fltb f0 (entry U r r i i) = true) /\
    (forall r i j, r < m -> i <= j < 3 -> utu U m r r i j = entry A r r i j) /\
    (forall r c i j, r < c < m -> i < 3 -> j < 3 -> stored A r c <> None -> utu U m r c i j = entry A r c i j).
Proof.
  intros K sq eps lim m A SQ EP U HB. destruct (built_holds zero3 add3 tr3 lim m A add3_0 U HB) as (D0 & C0 & H0).
  pose proof (incchol_wp sq eps A m D0 C0 SQ EP H0) as W.
  destruct (incchol sq eps A) as [A'|e|f]; cbn in W; [right|left; destruct W as (-> & _); auto|tauto].
  destruct W as (D & C & H & DN). exists A'. split; auto. split; [apply H|]. split; [|split; [|split]].
  - intros r c R. rewrite (holds_stored _ _ _ _ _ _ H), (holds_stored _ _ _ _ _ _ H0) by lia. apply lookup_fst.
    apply (DN c); lia.
  - intros r i R I. rewrite (entry_diag _ _ _ _ _ _ _ H R). apply (DN r R); auto.
  - intros r i j R I. rewrite (utu_diag _ _ _ _ _ _ _ H R), (entry_diag _ _ _ _ _ _ _ H0 R). symmetry. apply (DN r R); auto.
  - intros r c i j R I J S. rewrite (utu_off _ _ _ _ _ _ _ _ H R), (entry_blk _ _ _ _ _ _ _ _ H0 R).
    rewrite (holds_stored _ _ _ _ _ _ H0) in S by lia. destruct (DN c ltac:(lia)) as (Q1 & _ & _ & Q4 & _).
    destruct (lookup (C c) r) as [x|] eqn:E; [|exfalso; apply S; now apply (lookup_fst _ _ r Q1)].
    symmetry. apply (Q4 r x E); auto.
Qed.
(* Where the matrix has no block to be missed, U'U is the matrix. *)
Theorem C83_exact : forall (K : ofield) (sq : K -> K) eps lim m (A U : smat (m3 K)),
  is_sqrt sq -> fltb f0 eps = true -> (Z.of_nat m < 2 ^ 16)%Z -> built zero3 add3 tr3 lim m A -> closed A m ->
  incchol sq eps A = Ok U ->
  forall r c i j, r <= c < m -> i < 3 -> j < 3 -> (r = c -> i <= j) -> utu U m r c i j = entry A r c i j.
Proof.
  intros K sq eps lim m A A' SQ EP U HB CL E r c i j R I J IJ.
  destruct (C83_incchol K sq eps lim m A SQ EP U HB) as [E'|(U' & E' & LU & PT & _ & G1 & G2)]; [congruence|].
  assert (U' = A') by congruence. subst U'.
  destruct (Nat.eq_dec r c) as [->|NE]. { apply G1; lia. }
  destruct (stored A r c) as [x|] eqn:S. { apply G2; auto; try lia. congruence. }
  destruct (built_holds zero3 add3 tr3 lim m A add3_0 U HB) as (D0 & C0 & H0).
  pose proof (incchol_wp sq eps A m D0 C0 SQ EP H0) as W. rewrite E in W. cbn in W. destruct W as (D & C & H & _).
  rewrite (utu_off _ _ _ _ _ _ _ _ H) by lia. unfold entry. destruct (Nat.eqb_spec r c); [lia|]. rewrite S.
  assert (SU : stored A' r c = None) by (apply PT; auto; lia).
  rewrite (holds_stored _ _ _ _ _ _ H) in SU by lia.
  rewrite sumr_zero.
  - unfold blk. rewrite SU, tdot_zero. apply (Radd_0_l (F_R (f_th K))).
  - intros k Kk. destruct (stored A k r) eqn:S1; [destruct (stored A k c) eqn:S2|].
    + exfalso. apply (CL k r c); auto; try lia; congruence.
    + assert (S3 : stored A' k c = None) by (apply PT; auto; lia). rewrite (holds_stored _ _ _ _ _ _ H) in S3 by lia.
      unfold blk at 2. rewrite S3. apply dot_zero_r.
    + assert (S3 : stored A' k r = None) by (apply PT; auto; lia). rewrite (holds_stored _ _ _ _ _ _ H) in S3 by lia.
      unfold blk at 1. rewrite S3. apply dot_zero_l.
Qed.

Section Fail.
Context {K : ofield}.
Local Open Scope lin_scope.
Add Field Kf56 : (f_th K).
Lemma fail_form (eps : K) (A : smat (m3 K)) m D0 C0 n D C : holds A m D0 C0 -> closed A m -> (n < m)%nat -> inc_fail eps C0 D0 C D n ->
  exists N x, (N < 3 * m)%nat /\ x N = f1 /\ fltb (quad A m x) eps = true.
Proof.
  intros H0 CL NM (HD & MN & HO & HG & i & t & (I3 & TD & TL & TA & TZ)).
  assert (PT : forall c r, (c <= n)%nat -> lookup (C c) r = None <-> lookup (C0 c) r = None).
  { intros c r Cn. apply lookup_fst. destruct (Nat.eq_dec c n) as [->|]; auto. apply (HD c). lia. }
  assert (EX : forall r c a b, (r < c <= n)%nat -> (a < 3)%nat -> (b < 3)%nat ->
    sumr 0 r (fun k => dot3 (blk (C r) k) (blk (C c) k) a b) + tdot (D r) (blk (C c) r) a b = get3 (blk (C0 c) r) a b).
  { intros r c a b R Ia Ib. destruct (lookup (C c) r) as [x|] eqn:E.
    - symmetry. destruct (Nat.eq_dec c n) as [->|]; [apply (HO r x E a b Ia Ib)|].
      destruct (HD c ltac:(lia)) as (_ & _ & _ & Q & _). apply (Q r x E a b Ia Ib).
    - assert (E0 : lookup (C0 c) r = None) by (apply PT; auto; lia). unfold blk at 3 4. rewrite E, E0, tdot_zero, get_zero.
      rewrite sumr_zero; [ring|]. intros k Kk.
      destruct (lookup (C0 r) k) as [y|] eqn:E1; [destruct (lookup (C0 c) k) as [z|] eqn:E2|].
      + exfalso. apply (CL k r c); try lia; rewrite (holds_stored _ _ _ _ _ _ H0) by lia; congruence.
      + apply PT in E2; [|lia]. unfold blk at 2. rewrite E2. apply dot_zero_r.
      + apply PT in E1; [|lia]. unfold blk at 1. rewrite E1. apply dot_zero_l. }
  set (ub := fun k c s j => if Nat.ltb k c then get3 (blk (C c) k) s j else if Nat.eqb k c then (if Nat.eqb c n then t s j else tri (D c) s j) else f0).
  set (u := fun p q => ub (p / 3)%nat (q / 3)%nat (p mod 3)%nat (q mod 3)%nat).
  set (N := (3 * n + i)%nat).
  assert (UB : forall k c s j, (s < 3)%nat -> (j < 3)%nat -> u (3 * k + s)%nat (3 * c + j)%nat = ub k c s j).
  { intros k c s j S J. unfold u. destruct (div3 k s S) as (-> & ->). destruct (div3 c j J) as (-> & ->). reflexivity. }
  assert (SP : forall p, exists k s, (s < 3)%nat /\ p = (3 * k + s)%nat).
  { intros p. exists (p / 3)%nat, (p mod 3)%nat. split; [apply Nat.mod_upper_bound; lia|apply Nat.div_mod; lia]. }
  assert (U1 : forall k c s j, (k < c)%nat -> ub k c s j = get3 (blk (C c) k) s j).
  { intros k c s j L. unfold ub. now replace (Nat.ltb k c) with true by (symmetry; apply Nat.ltb_lt; lia). }
  assert (U2 : forall k c s j, (c < k)%nat -> ub k c s j = f0).
  { intros k c s j L. unfold ub. destruct (Nat.ltb_spec k c); [lia|]. destruct (Nat.eqb_spec k c); [lia|auto]. }
  assert (U3 : forall k s j, (k < n)%nat -> ub k k s j = tri (D k) s j).
  { intros k s j L. unfold ub. rewrite Nat.ltb_irrefl, Nat.eqb_refl. destruct (Nat.eqb_spec k n); [lia|auto]. }
  assert (U4 : forall s j, ub n n s j = t s j) by (intros; unfold ub; now rewrite Nat.ltb_irrefl, !Nat.eqb_refl).
  assert (SUM : forall r c a b, (a < 3)%nat -> (b < 3)%nat -> sumr 0 N (fun s => u s (3 * r + a)%nat * u s (3 * c + b)%nat) =
    sumr 0 n (fun k => ub k r 0%nat a * ub k c 0%nat b + ub k r 1%nat a * ub k c 1%nat b + ub k r 2%nat a * ub k c 2%nat b) + sumr 0 i (fun s => ub n r s a * ub n c s b)).
  { intros r c a b Ia Ib. unfold N. rewrite sum_blocks. f_equal; apply sumr_ext; intros k Kk.
    - replace (3 * k)%nat with (3 * k + 0)%nat at 1 2 by lia. rewrite !UB by lia. reflexivity.
    - rewrite !UB by lia. reflexivity. }
  assert (OFFS : forall r c a b, (r < c <= n)%nat -> (a < 3)%nat -> (b < 3)%nat ->
    sumr 0 n (fun k => ub k r 0%nat a * ub k c 0%nat b + ub k r 1%nat a * ub k c 1%nat b + ub k r 2%nat a * ub k c 2%nat b) = get3 (blk (C0 c) r) a b).
  { intros r c a b R Ia Ib. rewrite <- EX by auto. rewrite (sumr_split 0 r n), (sumr_first r n) by lia. rewrite (sumr_zero (S r) n).
    - rewrite !U3, !U1 by lia. rewrite (sumr_ext 0 r _ (fun k => dot3 (blk (C r) k) (blk (C c) k) a b)).
      + unfold tdot. ring.
      + intros k Kk. rewrite !U1 by lia. reflexivity.
    - intros k Kk. rewrite !(U2 k r) by lia. ring. }
  destruct (schur u (scal A) N (get3 (D n) i i - sumr 0 i (fun s => t s i * t s i))) as (x & X1 & X2 & X3).
  - intros p P. destruct (SP p) as (k & s & S & ->). rewrite UB by auto. unfold N in P. destruct (Nat.eq_dec k n) as [->|NE].
    + rewrite U4. apply TD. lia.
    + rewrite U3 by lia. unfold tri. rewrite Nat.eqb_refl. destruct (HD k ltac:(lia)) as (_ & Q & _).
      specialize (Q s S). apply fpos_nz in Q. intros E. apply (@f1_neq_f0 K). replace (@f1 K) with (f1 / get3 (D k) s s * get3 (D k) s s) by (field; auto). rewrite E. ring.
  - intros p q P. destruct (SP p) as (k & s & S & ->). destruct (SP q) as (c & j & J & ->). rewrite UB by auto.
    destruct (Nat.eq_dec k c) as [->|NE]; [|apply U2; lia]. assert (j < s)%nat by lia. unfold ub. rewrite Nat.ltb_irrefl, Nat.eqb_refl.
    destruct (Nat.eqb c n); [apply TL; auto|]. unfold tri. destruct (Nat.eqb_spec s j); [lia|]. destruct (Nat.ltb_spec s j); [lia|auto].
  - intros p q P Q. assert (LE : Nat.leb p q = true) by (apply Nat.leb_le; lia).
    unfold scal. rewrite LE. destruct (SP p) as (r & a & Ia & ->). destruct (SP q) as (c & b & Ib & ->). unfold N in P, Q.
    destruct (div3 r a Ia) as (-> & ->). destruct (div3 c b Ib) as (-> & ->). rewrite SUM by auto.
    destruct (Nat.eq_dec r c) as [->|NE].
    + rewrite (entry_diag _ _ _ _ _ _ _ H0) by lia. destruct (Nat.eq_dec c n) as [->|NE].
      * rewrite (sumr_ext 0 i _ (fun s => t s a * t s b)) by (intros; now rewrite !U4). rewrite TA by lia. rewrite HG by lia.
        rewrite (sumr_ext 0 n _ (fun k => dot3 (blk (C n) k) (blk (C n) k) a b)). { ring. }
        intros k Kk. rewrite !U1 by lia. reflexivity.
      * rewrite (sumr_zero 0 i) by (intros; rewrite !(U2 n c) by lia; ring).
        destruct (HD c ltac:(lia)) as (_ & _ & _ & _ & G). rewrite (G a b ltac:(lia)).
        rewrite (sumr_split 0 c n), (sumr_first c n) by lia. rewrite (sumr_zero (S c) n) by (intros; rewrite !(U2 _ c) by lia; ring).
        rewrite !U3 by lia. rewrite (sumr_ext 0 c _ (fun k => dot3 (blk (C c) k) (blk (C c) k) a b)). { unfold ttdot. ring. }
        intros k Kk. rewrite !U1 by lia. reflexivity.
    + rewrite OFFS by lia. rewrite (sumr_zero 0 i) by (intros; rewrite (U2 n r) by lia; ring).
      rewrite (entry_blk _ _ _ _ _ _ _ _ H0) by lia. ring.
  - unfold scal. rewrite Nat.leb_refl. unfold N at 1 2 3 4. destruct (div3 n i I3) as (-> & ->). rewrite (entry_diag _ _ _ _ _ _ _ H0) by lia.
    unfold N. fold N. change (sumr 0 N (fun s => u s N * u s N)) with (sumr 0 N (fun s => u s (3 * n + i)%nat * u s (3 * n + i)%nat)). rewrite SUM by auto.
    rewrite (sumr_ext 0 i _ (fun s => t s i * t s i)) by (intros; now rewrite !U4). rewrite HG by lia.
    rewrite (sumr_ext 0 n _ (fun k => dot3 (blk (C n) k) (blk (C n) k) i i)). { ring. }
    intros k Kk. rewrite !U1 by lia. reflexivity.
  - exists N, x. split; [unfold N; lia|]. split; [auto|]. rewrite <- TZ, <- X3. f_equal. unfold quad.
    assert (NB : (S N <= 3 * m)%nat) by (unfold N; lia).
    rewrite (sumr_split 0 (S N) (3 * m)) by lia. rewrite (sumr_zero (S N) (3 * m)).
    2:{ intros p P. apply sumr_zero. intros q Q. rewrite (X2 p) by lia. ring. }
    rewrite <- (sumr_add 0 (S N)) || idtac.
    match goal with |- ?a + f0 = _ => replace (a + f0) with a by ring end.
    apply sumr_ext. intros p P. rewrite (sumr_split 0 (S N) (3 * m)) by lia. rewrite (sumr_zero (S N) (3 * m)).
    2:{ intros q Q. rewrite (X2 q) by lia. ring. }
    match goal with |- ?a + f0 = _ => replace (a + f0) with a by ring end.
    apply sumr_ext. intros q Q. unfold scal. destruct (Nat.leb_spec p q), (Nat.leb_spec q p); auto; try lia; now rewrite ?Nat.leb_refl.
Qed.
End Fail.

(* On a pattern with nothing to miss the exception shows a direction in which the matrix is not positive. *)
Theorem C83_fails_only : forall (K : ofield) (sq : K -> K) eps lim m (A : smat (m3 K)),
  is_sqrt sq -> fltb f0 eps = true -> (Z.of_nat m < 2 ^ 16)%Z -> built zero3 add3 tr3 lim m A -> closed A m ->
  incchol sq eps A = Throw RuntimeError -> exists N x, N < 3 * m /\ x N = f1 /\ fltb (quad A m x) eps = true.
Proof.
  intros K sq eps lim m A SQ EP U HB CL E. destruct (built_holds zero3 add3 tr3 lim m A add3_0 U HB) as (D0 & C0 & H0).
  pose proof (incchol_wp sq eps A m D0 C0 SQ EP H0) as W. rewrite E in W. cbn in W. destruct W as (_ & n & D & C & N & F).
  eapply fail_form; eauto.
Qed.
Corollary C83_no_exception : forall (K : ofield) (sq : K -> K) eps lim m (A : smat (m3 K)),
  is_sqrt sq -> fltb f0 eps = true -> (Z.of_nat m < 2 ^ 16)%Z -> built zero3 add3 tr3 lim m A -> closed A m ->
  (forall N x, N < 3 * m -> x N = f1 -> fle eps (quad A m x) = true) ->
  exists U, incchol sq eps A = Ok U /\ forall r c i j, r <= c < m -> i < 3 -> j < 3 -> (r = c -> i <= j) -> utu U m r c i j = entry A r c i j.
Proof.
  intros K sq eps lim m A SQ EP U HB CL P. destruct (C83_incchol K sq eps lim m A SQ EP U HB) as [E|(V & E & _)].
  - destruct (C83_fails_only K sq eps lim m A SQ EP U HB CL E) as (N & x & L & X & F).
    specialize (P N x L X). unfold fltb in F. rewrite P in F. discriminate.
  - exists V. split; auto. intros r c i j R I J D. apply (C83_exact K sq eps lim m A V); auto.
Qed.

(* ---- examples ---- *)
Section SqExt.
Context {K : ofield}.
Lemma incchol_sq (sq sq' : K -> K) eps A : (forall z, sq z = sq' z) -> incchol sq eps A = incchol sq' eps A.
Proof.
  intros E. unfold incchol. apply for_up_ext. intros n A' _. destruct (aget A' n) as [d|e|f]; auto. cbn [bind].
  destruct (inc_col _ A' n (dhead d)) as [A''|e|f]; auto. cbn [bind]. destruct (aget A'' n) as [d'|e|f]; auto. cbn [bind]. f_equal.
  unfold diag_chol. apply for_up_ext. intros i x _. destruct (for_up 0 i _ x) as [y|e|f]; auto. cbn [bind]. now rewrite E.
Qed.
End SqExt.

Section Ex.
Context {K : ofield}.
Local Open Scope lin_scope.
Definition dg (v : K) : m3 K := M3 v f0 f0 f0 f1 f0 f0 f0 f1.
Definition of (v : K) : m3 K := M3 v f0 f0 f0 f0 f0 f0 f0 f0.
Lemma appends_built lim m ops : forall A A', built (@zero3 K) add3 tr3 lim m A -> valid_ops m ops -> appends add3 tr3 lim A ops = Ok A' -> built zero3 add3 tr3 lim m A'.
Proof.
  induction ops as [|[[i j] t] ops IH]; cbn [appends]; intros A A' H V E; [now inversion E; subst|].
  apply bind_ok in E. destruct E as (A1 & E1 & E2). assert (V1 : (i < m /\ j < m)%nat) by (apply (V i j t); now left).
  apply (IH A1); auto. { eapply built_append; eauto; apply V1. } intros a b x I. apply (V a b x). now right.
Qed.
Add Field Kf57 : (f_th K).
(* a ring of four nodes: the block between the second and the fourth is not stored *)
Definition ringops : list (nat * nat * m3 K) :=
  [(0%nat, 0%nat, dg f1); (0%nat, 1%nat, of f1); (0%nat, 3%nat, of f1); (1%nat, 1%nat, dg (f1 + f1)); (1%nat, 2%nat, of (- (f1 + f1))); (2%nat, 2%nat, dg (f1 + f1 + f1 + f1 + f1)); (2%nat, 3%nat, of (f1 + f1)); (3%nat, 3%nat, dg (f1 + f1 + f1 + f1))].
Definition ringtab (p q : nat) : K :=
  match (match p, q with
  | 0, 0 => 1 | 0, 3 => 1 | 3, 0 => 1 | 0, 9 => 1 | 9, 0 => 1 | 3, 3 => 2 | 3, 6 => 6 | 6, 3 => 6 | 6, 6 => 5 | 6, 9 => 2 | 9, 6 => 2 | 9, 9 => 4
  | _, _ => if Nat.eqb p q then 1 else 0 end)%nat with
  | O => f0 | S O => f1 | S (S O) => f1 + f1 | S (S (S (S O))) => f1 + f1 + f1 + f1 | S (S (S (S (S O)))) => f1 + f1 + f1 + f1 + f1 | _ => - (f1 + f1)
  end.
Definition sqr (a : K) : K := a * a.
Lemma ringform (x : nat -> K) : sumr 0 12 (fun p => sumr 0 12 (fun q => x p * ringtab p q * x q)) =
  sqr (x 0%nat + x 3%nat + x 9%nat) + sqr (x 3%nat - (f1 + f1) * x 6%nat - x 9%nat) + sqr (x 6%nat) + (sqr (x 9%nat) + sqr (x 9%nat)) +
  (sqr (x 1%nat) + sqr (x 2%nat) + sqr (x 4%nat) + sqr (x 5%nat) + sqr (x 7%nat) + sqr (x 8%nat) + sqr (x 10%nat) + sqr (x 11%nat)).
Proof.
  unfold sqr. rewrite !sumr_S by lia. rewrite !sumr_nil by lia. cbv beta iota delta [ringtab Nat.eqb]. ring.
Qed.
Lemma sqr_nonneg a : fle f0 (sqr a) = true.
Proof. apply fsqr_nonneg. Qed.
Lemma add_nonneg (a b : K) : fle f0 a = true -> fle f0 b = true -> fle f0 (a + b) = true.
Proof.
  intros A B. apply fle_trans with b; auto. apply fle_sub. replace (a + b - b) with a by ring. auto.
Qed.
Lemma add_zero (a b : K) : fle f0 a = true -> fle f0 b = true -> a + b = f0 -> a = f0 /\ b = f0.
Proof.
  intros A B E. assert (a = f0). { apply fle_antisym; auto. rewrite <- E. apply fle_sub. replace (a + b - a) with b by ring. auto. }
  subst a. split; auto. rewrite <- E. ring.
Qed.
Lemma sqr_zero a : sqr a = f0 -> a = f0.
Proof.
  intros E. unfold sqr in E. destruct (f_eq_dec a f0) as [|N]; auto.
  replace a with (f1 / a * (a * a)) by (field; auto). rewrite E. ring.
Qed.
Lemma ringback (a b c d : K) : a + b + d = f0 -> b - (f1 + f1) * c - d = f0 -> c = f0 -> d = f0 -> b = f0 /\ a = f0.
Proof.
  intros A B -> ->. assert (b = f0) by (rewrite <- B; ring). subst b. split; auto. rewrite <- A. ring.
Qed.
End Ex.
Definition badm : smat (m3 QcF) := match appends add3 tr3 100 (smat_new zero3 4) ringops with Ok A => A | _ => [] end.
Definition ieps : QcF := fdiv f1 (qz (2 ^ 52)).
Lemma badm_scal p q : p < 12 -> q < 12 -> scal badm p q = ringtab p q.
Proof.
  assert (E : forallb (fun p => forallb (fun q => feqb (scal badm p q) (ringtab p q)) (seq 0 12)) (seq 0 12) = true) by (vm_compute; reflexivity).
  intros P Q. rewrite forallb_forall in E. specialize (E p). rewrite forallb_forall in E by (apply in_seq; lia).
  specialize (E ltac:(apply in_seq; lia) q ltac:(apply in_seq; lia)). destruct (feqb_spec (scal badm p q) (ringtab p q)); congruence.
Qed.

(* A positive definite matrix can be refused all the same where a block is missing. *)
Theorem C83_positive_refuted : exists (A : smat (m3 QcF)), built zero3 add3 tr3 100 4 A /\
  (forall x, fle f0 (quad A 4 x) = true) /\
  (forall x, quad A 4 x = f0 -> forall p, p < 12 -> x p = f0) /\
  forall sq, sq f1 = f1 -> incchol sq ieps A = Throw RuntimeError.
Proof.
  exists badm. assert (Q : forall x, quad badm 4 x = sumr 0 12 (fun p => sumr 0 12 (fun q => fmul (fmul (x p) (ringtab p q)) (x q)))).
  { intros x. unfold quad. change (3 * 4) with 12. apply sumr_ext. intros p P. apply sumr_ext. intros q R. now rewrite badm_scal by lia. }
  split; [|split; [|split]].
  - apply (appends_built 100 4 ringops (smat_new zero3 4)); [constructor| |].
    + intros i j t H. cbn in H. repeat (destruct H as [H|H]; [injection H as <- <- _; lia|]). destruct H.
    + assert (E : match appends add3 tr3 100 (smat_new (@zero3 QcF) 4) ringops with Ok _ => true | _ => false end = true) by (vm_compute; reflexivity).
      unfold badm. destruct (appends add3 tr3 100 (smat_new zero3 4) ringops); congruence.
  - intros x. rewrite Q, ringform. repeat (apply add_nonneg || apply sqr_nonneg).
  - intros x Z. rewrite Q, ringform in Z.
    repeat match goal with H : fadd _ _ = f0 |- _ => apply add_zero in H; [destruct H|solve [repeat (apply add_nonneg || apply sqr_nonneg)]|solve [repeat (apply add_nonneg || apply sqr_nonneg)]] end.
    repeat match goal with H : sqr _ = f0 |- _ => apply sqr_zero in H end.
    destruct (ringback _ _ _ _ H H11 H10 H9) as (B3 & B0).
    intros p P. do 12 (destruct p as [|p]; [auto|]). lia.
  - intros sq S. rewrite (incchol_sq sq (fun z => if feqb z f1 then f1 else sq z)).
    + vm_compute. reflexivity.
    + intros z. destruct (feqb_spec z f1) as [->|]; auto.
Qed.

(* two nodes, every block 2I or I: the hypotheses of the theorems are met *)
Definition eye (v : R) : m3 RF := M3 (v : RF) f0 f0 f0 (v : RF) f0 f0 f0 (v : RF).
Definition pairops : list (nat * nat * m3 RF) := [(1%nat, 0%nat, eye 1); (0%nat, 0%nat, eye 2); (1%nat, 1%nat, eye 2)].
Example C83_hypotheses : exists A : smat (m3 RF), built zero3 add3 tr3 100 2 A /\ closed A 2 /\
  forall N (x : nat -> RF), N < 3 * 2 -> x N = f1 -> fle ((1 / 4)%R : RF) (quad A 2 x) = true.
Proof.
  destruct (appends add3 tr3 100 (smat_new (@zero3 RF) 2) pairops) as [A|e|f] eqn:E.
  2,3: cbn in E; discriminate.
  exists A. split; [|split].
  - apply (appends_built 100 2 pairops (smat_new zero3 2)); [constructor| |auto].
    intros i j t H. cbn in H. repeat (destruct H as [H|H]; [injection H as <- <- _; lia|]). destruct H.
  - intros k r c. lia.
  - assert (EA : Ok A = Ok A) by auto. rewrite <- E in EA at 1.
    intros N x LN XN.
    assert (Q : quad A 2 x = (x 0%nat * x 0%nat + x 3%nat * x 3%nat + (x 0%nat + x 3%nat) * (x 0%nat + x 3%nat)
      + (x 1%nat * x 1%nat + x 4%nat * x 4%nat + (x 1%nat + x 4%nat) * (x 1%nat + x 4%nat))
      + (x 2%nat * x 2%nat + x 5%nat * x 5%nat + (x 2%nat + x 5%nat) * (x 2%nat + x 5%nat)))%R).
    { cbn in E. injection E as <-. unfold quad. change (3 * 2) with 6. rewrite !sumr_S by lia. rewrite !sumr_nil by lia. cbn. ring. }
    rewrite Q. apply Rleb_iff. clear Q E EA.
    pose proof (Rle_0_sqr (x 0%nat)). pose proof (Rle_0_sqr (x 1%nat)). pose proof (Rle_0_sqr (x 2%nat)).
    pose proof (Rle_0_sqr (x 3%nat)). pose proof (Rle_0_sqr (x 4%nat)). pose proof (Rle_0_sqr (x 5%nat)).
    pose proof (Rle_0_sqr (x 0%nat + x 3%nat)%R). pose proof (Rle_0_sqr (x 1%nat + x 4%nat)%R). pose proof (Rle_0_sqr (x 2%nat + x 5%nat)%R).
    unfold Rsqr in *. assert (X : (x N * x N = 1)%R) by (rewrite XN; cbn; lra).
    do 6 (destruct N as [|N]; [lra|]). lia.
Qed.
Example C83_real : is_sqrt (K := RF) sqrt.
Proof. exact RF_is_sqrt. Qed.

(* computed over the rationals with pivots 4, 1 and 9, all squares *)
Definition qsq (z : QcF) : QcF := if feqb z (qz 4) then qz 2 else if feqb z (qz 9) then qz 3 else z.
Definition demoops : list (nat * nat * m3 QcF) :=
  [(0%nat, 0%nat, M3 (qz 4) (qz 2) (qz 0) (qz 2) (qz 2) (qz 1) (qz 0) (qz 1) (qz 10));
   (1%nat, 1%nat, M3 (qz 5) (qz 0) (qz 0) (qz 0) (qz 5) (qz 0) (qz 0) (qz 0) (qz 9));
   (0%nat, 1%nat, M3 (qz 2) (qz 0) (qz 0) (qz 1) (qz 1) (qz 0) (qz 0) (qz 1) (qz 0))].
Definition demo : smat (m3 QcF) := match appends add3 tr3 100 (smat_new zero3 2) demoops with Ok A => A | _ => [] end.
Example C83_demo :
  match incchol qsq ieps demo with
  | Ok U => forallb (fun r => forallb (fun c => forallb (fun i => forallb (fun j =>
      (c <? r) || ((r =? c) && (j <? i)) || feqb (utu U 2 r c i j) (entry demo r c i j)) (seq 0 3)) (seq 0 3)) (seq 0 2)) (seq 0 2)
  | _ => false
  end = true.
Proof. vm_compute. reflexivity. Qed.

Print Assumptions C83_incchol.
Print Assumptions C83_exact.
Print Assumptions C83_fails_only.
Print Assumptions C83_no_exception.
Print Assumptions C83_positive_refuted.
