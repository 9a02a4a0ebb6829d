(* C32: the superposition of load responses is a rotation of the stress tensor.
   C33: principal stresses. *)
From Coq Require Import List ZArith Lia Bool Arith Field Permutation QArith Qcanon.
From Verif Require Import Base LinBase EigModel QrProofs StressModel StressProofs.
Import ListNotations.
Local Close Scope Qc_scope.
Local Close Scope Q_scope.
Local Open Scope nat_scope.

Section Spec.
Context {K : ofield}.
Local Open Scope lin_scope.
Notation two := (@f1 K + f1).
(* the unit vectors along the radius (c,s), across it and down *)
Definition er (c s : K) (i : nat) : K := match i with 0 => c | 1 => s | _ => f0 end.
Definition et (c s : K) (i : nat) : K := match i with 0 => - s | 1 => c | _ => f0 end.
Definition ez (i : nat) : K := match i with 0 => f0 | 1 => f0 | _ => f1 end.
(* the tensor with radial, tangential, vertical and shear components given along them *)
Definition cartesian (a : axial) (c s : K) (i j : nat) : K :=
  rse a * (er c s i * er c s j) + tse a * (et c s i * et c s j) + vse a * (ez i * ez j) +
  sse a * (er c s i * ez j + ez i * er c s j).
Definition displacement (a : axial) (c s : K) (i : nat) : K := rdp a * er c s i + vdp a * ez i.
(* data[0] holds xx, yy, zz and data[1] holds xy, xz, yz *)
Definition stress (d : point) (i j : nat) : K :=
  match i, j with
  | 0, 0 => e0 (normal d) | 1, 1 => e1 (normal d) | 2, 2 => e2 (normal d)
  | 0, 1 | 1, 0 => e0 (shear d)
  | 0, 2 | 2, 0 => e1 (shear d)
  | 1, 2 | 2, 1 => e2 (shear d)
  | _, _ => f0
  end.
Definition moved (d : point) (i : nat) : K := match i with 0 => e0 (deflect d) | 1 => e1 (deflect d) | _ => e2 (deflect d) end.
Definition same_rest (d d' : @point K) : Prop :=
  px d' = px d /\ py d' = py d /\ pnormal d' = pnormal d /\ pshear d' = pshear d /\ strain d' = strain d /\
  sstrain d' = sstrain d /\ pstrain d' = pstrain d /\ psstrain d' = psstrain d /\ deflgrad d' = deflgrad d.
(* d' is d with the response a turned into the direction (c,s) and scaled by p added *)
Definition adds (d d' : point) (p : K) (a : axial) (c s : K) : Prop :=
  (forall i j, i < 3 -> j < 3 -> stress d' i j = stress d i j + p * cartesian a c s i j) /\
  (forall i, i < 3 -> moved d' i = moved d i + p * displacement a c s i) /\ same_rest d d'.
Definition unit (c s : K) : Prop := c * c + s * s = f1.

(* C33 *)
Definition items (v : v3) : list K := [e0 v; e1 v; e2 v].
Definition increasing (v : @v3 K) : Prop := fle (e0 v) (e1 v) = true /\ fle (e1 v) (e2 v) = true.
Definition s3 (f : nat -> K) : K := f 0%nat + f 1%nat + f 2%nat.
(* three unit vectors at right angles *)
Definition basis (U : nat -> nat -> K) : Prop :=
  forall k l, k < 3 -> l < 3 -> s3 (fun i => U k i * U l i) = if k =? l then f1 else f0.
(* x is an eigenvector with value m up to an error whose square is at most tol *)
Definition eigen_up_to (tol : K) (S : nat -> nat -> K) (m : K) (x : nat -> K) : Prop :=
  fle (s3 (fun i => (s3 (fun j => S i j * x j) - m * x i) * (s3 (fun j => S i j * x j) - m * x i))) tol = true.
Fixpoint twice (k : nat) (x : K) : K := match k with O => x | S k => two * twice k x end.
End Spec.

Section Proofs.
Context {K : ofield}.
Local Open Scope lin_scope.
Add Field Kf19 : (f_th K).
Notation two := (@f1 K + f1).
Ltac each3 k := destruct k as [|[|[|k]]]; [| | |exfalso; lia].

Lemma sign_unit (x : K) : x * x = f1 -> sign x = x.
Proof.
  intros E. assert (H : (x - f1) * (x + f1) = f0) by (transitivity (x * x - f1); [ring|rewrite E; ring]).
  unfold sign. apply fmul_0 in H as [H|H].
  - replace x with (x - f1 + f1) by ring. rewrite H. replace (f0 + f1) with (@f1 K) by ring. now rewrite f0_le_f1.
  - replace x with (x + f1 - f1) by ring. rewrite H. replace (f0 - f1) with (- @f1 K) by ring.
    destruct (fle f0 (- f1)) eqn:L; auto. exfalso. apply (@f1_neq_f0 K).
    pose proof (fle_add K _ _ f1 L) as M. replace (f0 + f1) with (@f1 K) in M by ring. replace (- f1 + f1) with (@f0 K) in M by ring.
    apply fle_antisym; auto. apply f0_le_f1.
Qed.
Lemma add_ok (a : @axial K) d l r : r <> f0 -> r * r = (px d - lx l) * (px d - lx l) + (py d - ly l) * (py d - ly l) ->
  let c := (px d - lx l) / r in let s := (py d - ly l) / r in
  unit c s /\ exists d', addtodata a false d l r None = Ok d' /\ adds d d' (pressure l) a c s.
Proof.
  intros N E c s.
  assert (U : unit c s).
  { unfold unit, c, s. transitivity (((px d - lx l) * (px d - lx l) + (py d - ly l) * (py d - ly l)) / (r * r)); [field; auto|].
    rewrite <- E. field; auto. }
  split; [exact U|]. unfold addtodata. destruct (feqb_spec r f0) as [|_]; [tauto|].
  cbn [px py add_deflect2 add_normal2 with_deflect with_normal]. fold c s. clearbody c s. unfold unit in U. clear E N.
  destruct d as [dx dy [n0 n1 n2] [h0 h1 h2] d2 d3 [w0 w1 w2] d5 d6 d7 d8 g]. cbn [px py] in *.
  destruct (feqb_spec c f0) as [->|Nc]; [|destruct (feqb_spec s f0) as [->|Ns]].
  - assert (S2 : s * s = f1) by (rewrite <- U; ring). rewrite (sign_unit s S2).
    eexists. split; [reflexivity|]. split; [|split].
    + intros i j Hi Hj. each3 i; each3 j; unfold cartesian; cbn; try ring.
      * transitivity (n0 + pressure l * (tse a * f1)); [ring|]. rewrite <- S2. ring.
      * transitivity (n1 + pressure l * (rse a * f1)); [ring|]. rewrite <- S2. ring.
    + intros i Hi. each3 i; unfold displacement; cbn; ring.
    + repeat split.
  - assert (S2 : c * c = f1) by (rewrite <- U; ring). rewrite (sign_unit c S2).
    eexists. split; [reflexivity|]. split; [|split].
    + intros i j Hi Hj. each3 i; each3 j; unfold cartesian; cbn; try ring.
      * transitivity (n0 + pressure l * (rse a * f1)); [ring|]. rewrite <- S2. ring.
      * transitivity (n1 + pressure l * (tse a * f1)); [ring|]. rewrite <- S2. ring.
    + intros i Hi. each3 i; unfold displacement; cbn; ring.
    + repeat split.
  - eexists. split; [reflexivity|]. split; [|split].
    + intros i j Hi Hj. each3 i; each3 j; unfold cartesian; cbn; ring.
    + intros i Hi. each3 i; unfold displacement; cbn; ring.
    + repeat split.
Qed.
Lemma adds_trans d d1 d2 : same_rest d d1 -> same_rest d1 d2 -> @same_rest K d d2.
Proof. unfold same_rest. intuition congruence. Qed.

(* ---------- sorting ---------- *)
Lemma order_spec (x y a b : K) : order x y = (a, b) -> fle a b = true /\ Permutation [a; b] [x; y] /\
  (forall z, fle z x = true -> fle z y = true -> fle z a = true) /\ fle a x = true /\ fle a y = true.
Proof.
  unfold order, fltb. destruct (fle x y) eqn:E; cbn [negb]; intros [= <- <-].
  - repeat split; auto. apply fle_refl.
  - destruct (fle_total K x y) as [|F]; [congruence|]. repeat split; auto; [apply perm_swap|apply fle_refl].
Qed.
Lemma sort3_spec (v : @v3 K) : increasing (sort3 v) /\ Permutation (items (sort3 v)) (items v).
Proof.
  destruct v as [x y z]. unfold sort3. cbn [e0 e1 e2].
  destruct (order x y) as [a b] eqn:E1. destruct (order a z) as [a' c] eqn:E2. destruct (order b c) as [b' c'] eqn:E3.
  apply order_spec in E1 as (L1 & P1 & G1 & M1 & M1'). apply order_spec in E2 as (L2 & P2 & G2 & M2 & M2'). apply order_spec in E3 as (L3 & P3 & G3 & M3 & M3').
  unfold increasing, items. cbn [e0 e1 e2]. split.
  - split; auto. apply G3; auto. apply fle_trans with (y := a); auto.
  - transitivity [a'; b; c]; [constructor; exact P3|]. transitivity [a'; c; b]; [constructor; constructor|].
    transitivity [a; z; b]; [exact (Permutation_app_tail [b] P2)|]. transitivity [a; b; z]; [constructor; constructor|].
    exact (Permutation_app_tail [z] P1).
Qed.
Lemma pow2_twice k (x : K) : pow2 k * x = twice k x.
Proof. induction k as [|k IH]; cbn [pow2 twice]; [ring|]. rewrite <- IH. ring. Qed.

(* the rows of a frame are approximate eigenvectors *)
Lemma frame_eigen (S : nat -> nat -> K) U n s tol k : frame S U (tens n s) -> k < 3 -> fle (off s) tol = true ->
  eigen_up_to tol S (tens n s k k) (U k).
Proof.
  intros [O F] Hk L. unfold eigen_up_to.
  set (w := fun l => if l =? k then f0 else tens n s k l).
  assert (R : forall i, i < 3 -> s3 (fun j => S i j * U k j) - tens n s k k * U k i =
    s3 (fun l => w l * U l i)).
  { intros i Hi. transitivity (sum3 (fun l => tens n s k l * U l i) - tens n s k k * U k i).
    { rewrite <- (F k i Hk Hi). reflexivity. }
    unfold sum3, s3, w. each3 k; cbn [Nat.eqb]; ring. }
  assert (G : forall m n, m < 3 -> n < 3 -> U m 0%nat * U n 0%nat + U m 1%nat * U n 1%nat + U m 2%nat * U n 2%nat = delta m n)
    by (intros a b; apply (O a b)).
  replace (s3 _) with (w 0%nat * w 0%nat + w 1%nat * w 1%nat + w 2%nat * w 2%nat).
  - apply fle_trans with (y := off s); auto. apply fle_sub. unfold off, w.
    each3 k; cbn -[fadd]; match goal with |- fle f0 ?e = true =>
      first [replace e with (e2 s * e2 s) by ring; apply fsqr_nonneg | replace e with (e1 s * e1 s) by ring; apply fsqr_nonneg
            |replace e with (e0 s * e0 s) by ring; apply fsqr_nonneg] end.
  - unfold s3 at 1. rewrite !R by lia.
    transitivity (sum3 (fun m => sum3 (fun n => w m * w n *
      (U m 0%nat * U n 0%nat + U m 1%nat * U n 1%nat + U m 2%nat * U n 2%nat)))); [|unfold sum3, s3; ring].
    unfold sum3. rewrite !G by lia. unfold delta. cbn -[w]. ring.
Qed.
End Proofs.

Section More.
Context {K : ofield}.
Local Open Scope lin_scope.
Add Field Kf20 : (f_th K).
Notation two := (@f1 K + f1).
Ltac each3 k := destruct k as [|[|[|k]]]; [| | |exfalso; lia].

Lemma centre_ok (a : @axial K) d l : rse a = tse a -> sse a = f0 -> rdp a = f0 ->
  exists d', addtodata a false d l f0 None = Ok d' /\ forall c s, unit c s -> adds d d' (pressure l) a c s.
Proof.
  intros E1 E2 E3. unfold addtodata. destruct (feqb_spec (@f0 K) f0) as [_|]; [|tauto].
  destruct a as [vd vs rs ts ss rd], d as [dx dy [n0 n1 n2] [h0 h1 h2] d2 d3 [w0 w1 w2] d5 d6 d7 d8 g]. cbn in E1, E2, E3. subst rs ss rd.
  eexists. split; [reflexivity|]. unfold unit. intros c s U. pose proof (@two_nz K) as T. split; [|split].
  - intros i j Hi Hj. each3 i; each3 j; unfold cartesian; cbn; try (field; auto; fail).
    + transitivity (n0 + pressure l * (ts * f1)); [field; auto|]. rewrite <- U. ring.
    + transitivity (n1 + pressure l * (ts * f1)); [field; auto|]. rewrite <- U. ring.
  - intros i Hi. each3 i; unfold displacement; cbn; ring.
  - repeat split.
Qed.
Lemma centre_no (a : @axial K) d l : rse a <> tse a -> pressure l <> f0 ->
  exists d', addtodata a false d l f0 None = Ok d' /\ forall c s, unit c s -> ~ adds d d' (pressure l) a c s.
Proof.
  intros N P. unfold addtodata. destruct (feqb_spec (@f0 K) f0) as [_|]; [|tauto].
  eexists. split; [reflexivity|]. intros c s U (A & _). unfold unit in U.
  pose proof (A 0 0 ltac:(lia) ltac:(lia))%nat as E0. pose proof (A 0 1 ltac:(lia) ltac:(lia))%nat as E1.
  destruct a as [vd vs rs ts ss rd], d as [dx dy [n0 n1 n2] [h0 h1 h2] d2 d3 [w0 w1 w2] d5 d6 d7 d8 g], l as [x y p].
  unfold cartesian in E0, E1. cbn in E0, E1, N, P. pose proof (@two_nz K) as T.
  assert (Ns : rs - ts <> f0). { intros Z. apply N. replace rs with (rs - ts + ts) by ring. rewrite Z. ring. }
  assert (X1 : p * (rs - ts) * (c * s) = f0).
  { transitivity (h0 + p * (rs * (c * s) + ts * (- s * c) + vs * (f0 * f0) + ss * (c * f0 + f0 * s)) - h0); [ring|]. rewrite <- E1. ring. }
  assert (X0 : p * (rs - ts) * (c * c - s * s) = f0).
  { transitivity (two * (n0 + p * (rs * (c * c) + ts * (- s * - s) + vs * (f0 * f0) + ss * (c * f0 + f0 * c)) - n0) - p * (rs + ts) * (c * c + s * s)); [ring|].
    rewrite <- E0, U. field. auto. }
  assert (Y : p * (rs - ts) <> f0) by now apply fmul_nz.
  apply fmul_0 in X1 as [|X1]; [tauto|]. apply fmul_0 in X0 as [|X0]; [tauto|].
  apply fmul_0 in X1 as [->| ->].
  - assert (Z : s * s = f0) by (transitivity (- (f0 * f0 - s * s)); [ring|rewrite X0; ring]).
    apply (@f1_neq_f0 K). rewrite <- U, Z. ring.
  - assert (Z : c * c = f0) by (transitivity (c * c - f0 * f0); [ring|exact X0]).
    apply (@f1_neq_f0 K). rewrite <- U, Z. ring.
Qed.
Lemma plane_ok (a : @axial K) c s : unit c s ->
  cartesian a c s 0 0 + cartesian a c s 1 1 = rse a + tse a /\
  cartesian a c s 0 0 * cartesian a c s 1 1 - cartesian a c s 0 1 * cartesian a c s 1 0 = rse a * tse a /\
  cartesian a c s 0 2 * cartesian a c s 0 2 + cartesian a c s 1 2 * cartesian a c s 1 2 = sse a * sse a /\
  cartesian a c s 2 2 = vse a.
Proof.
  unfold unit. intros U. unfold cartesian. cbn. repeat split.
  - transitivity ((rse a + tse a) * (c * c + s * s)); [ring|]. rewrite U. ring.
  - transitivity (rse a * tse a * ((c * c + s * s) * (c * c + s * s))); [ring|]. rewrite U. ring.
  - transitivity (sse a * sse a * (c * c + s * s)); [ring|]. rewrite U. ring.
  - ring.
Qed.

Lemma hooke_law (v E : K) (s : v3) : E <> f0 -> hooke v (f1 / E) s =
  V3 ((e0 s - v * (e1 s + e2 s)) / E) ((e1 s - v * (e0 s + e2 s)) / E) ((e2 s - v * (e0 s + e1 s)) / E).
Proof. intros N. unfold hooke. f_equal; field; auto. Qed.

Section Principle.
Variable sq : K -> K.
Hypothesis sqok : sqrt_pos sq.
Variable tol : K.
Lemma rounds_principal (n s : v3) fuel : fle (off s) (twice fuel tol) = true ->
  exists n' s', rounds sq tol fuel (off s) n s = Ok (n', s') /\ same n s n' s' /\ fle (off s') tol = true.
Proof. rewrite <- pow2_twice. now apply rounds_ok. Qed.
Lemma sort3_pick (n s : @v3 K) : exists i j k, i < 3 /\ j < 3 /\ k < 3 /\ i <> j /\ i <> k /\ j <> k /\
  e0 (sort3 n) = tens n s i i /\ e1 (sort3 n) = tens n s j j /\ e2 (sort3 n) = tens n s k k.
Proof.
  destruct n as [n0 n1 n2]. unfold sort3, order. cbn [e0 e1 e2].
  destruct (fltb n1 n0); repeat match goal with |- context [if fltb ?x ?y then _ else _] => destruct (fltb x y) end; cbn [e0 e1 e2];
  first [now exists 0%nat, 1%nat, 2%nat; repeat split; auto | now exists 0%nat, 2%nat, 1%nat; repeat split; auto
        |now exists 1%nat, 0%nat, 2%nat; repeat split; auto | now exists 1%nat, 2%nat, 0%nat; repeat split; auto
        |now exists 2%nat, 0%nat, 1%nat; repeat split; auto | now exists 2%nat, 1%nat, 0%nat; repeat split; auto].
Qed.
Lemma frame_pick (S : nat -> nat -> K) V n s : frame S V (tens n s) -> fle (off s) tol = true ->
  exists U, basis U /\ eigen_up_to tol S (e0 (sort3 n)) (U 0%nat) /\ eigen_up_to tol S (e1 (sort3 n)) (U 1%nat) /\
    eigen_up_to tol S (e2 (sort3 n)) (U 2%nat).
Proof.
  intros F L. destruct (sort3_pick n s) as (i & j & k & Hi & Hj & Hk & N1 & N2 & N3 & -> & -> & ->).
  exists (fun t => match t with 0 => V i | 1 => V j | _ => V k end). split; [|repeat split; now apply frame_eigen].
  destruct F as [O _].
  assert (E : forall x y, x < 3 -> y < 3 -> s3 (fun t => V x t * V y t) = if x =? y then f1 else f0) by (intros; now apply O).
  intros a b Ha Hb. each3 a; each3 b; cbn; rewrite E by auto;
    repeat match goal with |- context [?x =? ?y] => destruct (Nat.eqb_spec x y); try lia end; auto.
Qed.
Lemma fabs_swap (x y : K) : fabs (x - y) = fabs (y - x).
Proof.
  unfold fabs. destruct (fle f0 (x - y)) eqn:A, (fle f0 (y - x)) eqn:B; try ring.
  - assert (E : x = y) by (apply fle_antisym; apply fle_sub; auto). rewrite E. ring.
  - exfalso. destruct (fle_total K x y) as [C|C]; apply fle_sub in C; congruence.
Qed.
Lemma fabs_le (x y : K) : fle x y = true -> fabs (y - x) = y - x.
Proof. intros H. unfold fabs. apply fle_sub in H. now rewrite H. Qed.
(* sorted half differences of sorted values *)
Definition gaps (n : v3) : v3 := V3 (fabs (e0 n - e2 n) / two) (fabs (e0 n - e1 n) / two) (fabs (e1 n - e2 n) / two).
Lemma perm3 (a b c : K) : Permutation [a; b; c] [a; b; c] /\ Permutation [a; b; c] [a; c; b] /\ Permutation [a; b; c] [b; a; c] /\
  Permutation [a; b; c] [b; c; a] /\ Permutation [a; b; c] [c; a; b] /\ Permutation [a; b; c] [c; b; a].
Proof.
  split; [reflexivity|]. split; [constructor; constructor|]. split; [constructor|]. split.
  { transitivity [b; a; c]; [constructor|constructor; constructor]. }
  split. { transitivity [a; c; b]; [constructor; constructor|constructor]. }
  transitivity [b; a; c]; [constructor|]. transitivity [b; c; a]; [constructor; constructor|constructor].
Qed.
Lemma gaps_perm (n : v3) : Permutation (items (gaps n)) (items (gaps (sort3 n))).
Proof.
  destruct n as [a b c]. unfold gaps, items, sort3, order. cbn [e0 e1 e2].
  destruct (fltb b a); repeat match goal with |- context [if fltb ?x ?y then _ else _] => destruct (fltb x y) end; cbn [e0 e1 e2];
  rewrite ?(fabs_swap b a), ?(fabs_swap c a), ?(fabs_swap c b); apply perm3.
Qed.
Lemma sort3_id (v : @v3 K) : increasing v -> sort3 v = v.
Proof.
  destruct v as [a b c]. intros [A B]. cbn [e0 e1 e2] in *. unfold sort3, order, fltb. cbn [e0 e1 e2]. rewrite A. cbn [negb].
  rewrite (fle_trans K a b c A B). cbn [negb]. rewrite B. reflexivity.
Qed.
Lemma hooke_inc (v t : K) (n : v3) : increasing n -> fle f0 ((v + f1) * t) = true -> increasing (hooke v t n).
Proof.
  destruct n as [a b c]. unfold increasing, hooke. cbn [e0 e1 e2]. intros [A B] T. apply fle_sub in A, B. split; apply fle_sub.
  - match goal with |- fle f0 ?e = true => replace e with ((v + f1) * t * (b - a)) by ring end. now apply fle_mul.
  - match goal with |- fle f0 ?e = true => replace e with ((v + f1) * t * (c - b)) by ring end. now apply fle_mul.
Qed.
Lemma scale_inc (t : K) (h : v3) : increasing h -> fle f0 t = true -> increasing (V3 (t * e0 h) (t * e1 h) (t * e2 h)).
Proof. intros [A B] T. split; cbn [e0 e1 e2]; now apply fle_mul_l. Qed.

Lemma principle_ok fuel d v E : E <> f0 -> fle (off (shear d)) (twice fuel tol) = true ->
  exists d', principle sq tol fuel d v E = Ok d' /\
    (* stresses *)
    increasing (pnormal d') /\ trace (pnormal d') = trace (normal d) /\
    (exists U, basis U /\ eigen_up_to tol (stress d) (e0 (pnormal d')) (U 0%nat) /\ eigen_up_to tol (stress d) (e1 (pnormal d')) (U 1%nat) /\
      eigen_up_to tol (stress d) (e2 (pnormal d')) (U 2%nat)) /\
    increasing (pshear d') /\
    Permutation (items (pshear d')) [(e2 (pnormal d') - e0 (pnormal d')) / two; (e1 (pnormal d') - e0 (pnormal d')) / two;
      (e2 (pnormal d') - e1 (pnormal d')) / two] /\
    (* strains *)
    strain d' = hooke v (f1 / E) (normal d) /\
    sstrain d' = V3 (two * (v + f1) / E * e0 (shear d)) (two * (v + f1) / E * e1 (shear d)) (two * (v + f1) / E * e2 (shear d)) /\
    increasing (pstrain d') /\ Permutation (items (pstrain d')) (items (hooke v (f1 / E) (pnormal d'))) /\
    increasing (psstrain d') /\ Permutation (items (psstrain d')) (map (fmul (two * (v + f1) / E)) (items (pshear d'))) /\
    (fltb f0 E = true -> fle f0 (v + f1) = true ->
      pstrain d' = hooke v (f1 / E) (pnormal d') /\ items (psstrain d') = map (fmul (two * (v + f1) / E)) (items (pshear d'))) /\
    (* the rest *)
    px d' = px d /\ py d' = py d /\ normal d' = normal d /\ shear d' = shear d /\ deflect d' = deflect d /\ deflgrad d' = deflgrad d.
Proof.
  intros N L. destruct (rounds_principal (normal d) (shear d) fuel L) as (n & s & R & S & O).
  unfold principle. fold (off (shear d)). rewrite R. cbn [bind]. rewrite !divc_ok by auto. cbn [bind].
  fold (gaps n). destruct (sort3_spec n) as [In Pn]. destruct (sort3_spec (gaps n)) as [Ig Pg].
  eexists. split; [reflexivity|]. cbn [pnormal pshear strain sstrain pstrain psstrain px py normal shear deflect deflgrad].
  destruct S as (T & Q & D & F).
  refine (conj In (conj _ (conj _ (conj Ig (conj _ (conj eq_refl (conj eq_refl (conj _ (conj _ (conj _ (conj _ (conj _ _)))))))))))).
  - rewrite <- T. unfold trace.
    destruct n as [a b c]. unfold sort3, order. cbn [e0 e1 e2].
    destruct (fltb b a); repeat match goal with |- context [if fltb ?x ?y then _ else _] => destruct (fltb x y) end; cbn [e0 e1 e2]; ring.
  - destruct (F (tens (normal d) (shear d)) delta (frame_start _ _)) as [V G].
    destruct (frame_pick _ _ _ _ G O) as (U & B & X0 & X1 & X2). now exists U.
  - etransitivity; [exact Pg|]. etransitivity; [apply gaps_perm|]. unfold gaps, items. cbn [e0 e1 e2]. destruct In as [I1 I2].
    rewrite (fabs_swap (e0 (sort3 n)) (e2 (sort3 n))), (fabs_swap (e0 (sort3 n)) (e1 (sort3 n))), (fabs_swap (e1 (sort3 n)) (e2 (sort3 n))).
    rewrite (fabs_le (e0 (sort3 n)) (e2 (sort3 n))) by (eapply fle_trans; eauto). rewrite !fabs_le by auto. reflexivity.
  - apply sort3_spec.
  - apply sort3_spec.
  - apply sort3_spec.
  - apply sort3_spec.
  - intros Ep Vp. assert (T1 : fle f0 (f1 / E) = true) by now apply fle_inv. split.
    + apply sort3_id. apply hooke_inc; auto. now apply fle_mul.
    + rewrite sort3_id; [reflexivity|]. apply scale_inc; auto. pose proof (@two_pos K) as W. apply fltb_spec in W as [W _].
      replace (two * (v + f1) / E) with (two * (v + f1) * (f1 / E)) by (field; auto). apply fle_mul; auto. now apply fle_mul.
  - repeat split.
Qed.
End Principle.
End More.

(* ---------- C32 ---------- *)

(* Away from the axis of the load the response is turned into the direction of the point; the
   directions along the axes are no exception. *)
Theorem C32_rotates : forall (K : ofield) (a : @axial K) (d : point) (l : load) (r : K),
  r <> f0 ->
  fmul r r = fadd (fmul (fsub (px d) (lx l)) (fsub (px d) (lx l))) (fmul (fsub (py d) (ly l)) (fsub (py d) (ly l))) ->
  let c := fdiv (fsub (px d) (lx l)) r in let s := fdiv (fsub (py d) (ly l)) r in
  unit c s /\ exists d', addtodata a false d l r None = Ok d' /\ adds d d' (pressure l) a c s.
Proof. intros. now apply add_ok. Qed.
(* On the axis any direction will do for a response that has none. *)
Theorem C32_centre_partial : forall (K : ofield) (a : @axial K) (d : point) (l : load),
  rse a = tse a -> sse a = f0 -> rdp a = f0 ->
  exists d', addtodata a false d l f0 None = Ok d' /\ forall c s, unit c s -> adds d d' (pressure l) a c s.
Proof. intros. now apply centre_ok. Qed.
(* Otherwise what is added there is no rotation of the response. *)
Theorem C32_centre_refuted : forall (K : ofield) (a : @axial K) (d : point) (l : load),
  rse a <> tse a -> pressure l <> f0 ->
  exists d', addtodata a false d l f0 None = Ok d' /\ forall c s, unit c s -> ~ adds d d' (pressure l) a c s.
Proof. intros. now apply centre_no. Qed.
(* Turning keeps the sum and the determinant of the stresses in the plane. *)
Theorem C32_invariants : forall (K : ofield) (a : @axial K) (c s : K), unit c s ->
  fadd (cartesian a c s 0 0) (cartesian a c s 1 1) = fadd (rse a) (tse a) /\
  fsub (fmul (cartesian a c s 0 0) (cartesian a c s 1 1)) (fmul (cartesian a c s 0 1) (cartesian a c s 1 0)) = fmul (rse a) (tse a) /\
  fadd (fmul (cartesian a c s 0 2) (cartesian a c s 0 2)) (fmul (cartesian a c s 1 2) (cartesian a c s 1 2)) = fmul (sse a) (sse a) /\
  cartesian a c s 2 2 = vse a.
Proof. intros. now apply plane_ok. Qed.
(* The response of many loads is the sum of the turned responses.  Each load comes with the
   response at its distance. *)
Fixpoint add_all {K : ofield} (d : @point K) (ls : list (@load K * @axial K * K)) : outcome point :=
  match ls with
  | [] => Ok d
  | (l, a, r) :: ls => let* d := addtodata a false d l r None in add_all d ls
  end.
Definition at_distance {K : ofield} (d : @point K) (e : @load K * @axial K * K) : Prop :=
  let '(l, _, r) := e in r <> f0 /\
  fmul r r = fadd (fmul (fsub (px d) (lx l)) (fsub (px d) (lx l))) (fmul (fsub (py d) (ly l)) (fsub (py d) (ly l))).
Definition part {K : ofield} (d : @point K) (i j : nat) (e : @load K * @axial K * K) : K :=
  let '(l, a, r) := e in
  fmul (pressure l) (cartesian a (fdiv (fsub (px d) (lx l)) r) (fdiv (fsub (py d) (ly l)) r) i j).
Theorem C32_superposition : forall (K : ofield) (d : @point K) (ls : list (@load K * @axial K * K)),
  Forall (at_distance d) ls ->
  exists d', add_all d ls = Ok d' /\ px d' = px d /\ py d' = py d /\
    forall i j, i < 3 -> j < 3 -> stress d' i j = fold_left fadd (map (part d i j) ls) (stress d i j).
Proof.
  intros K d ls. revert d. induction ls as [|[[l a] r] ls IH]; intros d F.
  - exists d. repeat split.
  - inversion F as [|? ? D F']. subst. destruct D as [N E]. cbn [add_all].
    destruct (C32_rotates K a d l r N E) as (U & d1 & -> & A & _ & R). cbn [bind].
    assert (X : px d1 = px d) by apply R. assert (Y : py d1 = py d) by apply R.
    destruct (IH d1) as (d' & E' & X' & Y' & H).
    { eapply Forall_impl; [|exact F']. intros [[l' a'] r']. unfold at_distance. rewrite X, Y. auto. }
    exists d'. repeat split; try congruence. intros i j Hi Hj. rewrite (H i j Hi Hj), (A i j Hi Hj). cbn [map fold_left part].
    f_equal. apply map_ext. intros [[l' a'] r']. unfold part. now rewrite X, Y.
Qed.
(* When only deflections are wanted only the vertical one is touched; with a place for a gradient
   only that place is. *)
Theorem C32_deflection : forall (K : ofield) (a : @axial K) (d : point) (l : load) (r : K),
  (exists d', addtodata a true d l r None = Ok d' /\ normal d' = normal d /\ shear d' = shear d /\ same_rest d d' /\
    moved d' 0 = moved d 0 /\ moved d' 1 = moved d 1 /\ moved d' 2 = fadd (moved d 2) (fmul (pressure l) (vdp a))) /\
  forall gl g disp, nth_error (deflgrad d) gl = Some g ->
    exists d', addtodata a disp d l r (Some gl) = Ok d' /\ normal d' = normal d /\ shear d' = shear d /\ deflect d' = deflect d /\
      nth_error (deflgrad d') gl = Some (fadd g (fmul (pressure l) (vdp a))) /\
      forall k, k <> gl -> nth_error (deflgrad d') k = nth_error (deflgrad d) k.
Proof.
  intros K a d l r. split.
  - eexists. split; [reflexivity|]. repeat split.
  - intros gl g disp G. unfold addtodata. unfold aget. rewrite G. cbn [bind].
    assert (L : gl < length (deflgrad d)) by (apply nth_error_Some; congruence).
    rewrite (aset_ok _ _ _ L). cbn [bind]. eexists. split; [reflexivity|]. cbn. repeat split; auto.
    + apply nth_error_upd_eq; auto.
    + intros k Nk. apply nth_error_upd_ne. auto.
Qed.

(* ---------- C33 ---------- *)

(* Each of the three turns keeps the sum of the normal stresses, the sum of the squares of all nine
   components and the determinant; it fails on no tensor that the loop hands to it. *)
Theorem C33_turns : forall (K : ofield) (sq : K -> K) (n s : v3), sqrt_pos sq ->
  (exists n' s', turn_xz sq n s = Ok (n', s') /\ e1 s' = f0 /\
    trace n' = trace n /\ squares n' s' = squares n s /\ det3 n' s' = det3 n s) /\
  (e1 s = f0 -> exists n' s', turn_xy sq n s = Ok (n', s') /\ e0 s' = f0 /\
    trace n' = trace n /\ squares n' s' = squares n s /\ det3 n' s' = det3 n s) /\
  (e0 s = f0 -> exists n' s', turn_yz sq n s = Ok (n', s') /\ e2 s' = f0 /\
    trace n' = trace n /\ squares n' s' = squares n s /\ det3 n' s' = det3 n s).
Proof.
  intros K sq n s Q. split; [|split].
  - destruct (turn_xz_ok sq Q n s) as (n' & s' & E & (A & B & C & _) & Z & _). exists n', s'. auto.
  - intros Z0. destruct (turn_xy_ok sq Q n s Z0) as (n' & s' & E & (A & B & C & _) & Z & _). exists n', s'. auto.
  - intros Z0. destruct (turn_yz_ok sq Q n s Z0) as (n' & s' & E & (A & B & C & _) & Z & _). exists n', s'. auto.
Qed.
(* The loop ends, after at most fuel rounds if the squares of the shear stresses are at most
   2^fuel times the tolerance.  The principal stresses are in order and are eigenvalues, up to the
   tolerance, for three directions at right angles; the principal shears are their half
   differences in order; the strains follow from Hooke's law. *)
Theorem C33_principal : forall (K : ofield) (sq : K -> K) (tol : K) fuel (d : point) (v E : K),
  sqrt_pos sq -> E <> f0 -> fle (off (shear d)) (twice fuel tol) = true ->
  exists d', principle sq tol fuel d v E = Ok d' /\
    increasing (pnormal d') /\ trace (pnormal d') = trace (normal d) /\
    (exists U, basis U /\ eigen_up_to tol (stress d) (e0 (pnormal d')) (U 0) /\ eigen_up_to tol (stress d) (e1 (pnormal d')) (U 1) /\
      eigen_up_to tol (stress d) (e2 (pnormal d')) (U 2)) /\
    increasing (pshear d') /\
    Permutation (items (pshear d')) [fdiv (fsub (e2 (pnormal d')) (e0 (pnormal d'))) (fadd f1 f1);
      fdiv (fsub (e1 (pnormal d')) (e0 (pnormal d'))) (fadd f1 f1); fdiv (fsub (e2 (pnormal d')) (e1 (pnormal d'))) (fadd f1 f1)] /\
    normal d' = normal d /\ shear d' = shear d /\ deflect d' = deflect d /\ deflgrad d' = deflgrad d.
Proof.
  intros K sq tol fuel d v E Q N L. destruct (principle_ok sq Q tol fuel d v E N L) as (d' & R & A). exists d'. split; auto.
  intuition.
Qed.
(* Principal strains come from principal stresses by Hooke's law; in the usual range of the
   elastic constants they have the same order. *)
Theorem C33_strains : forall (K : ofield) (sq : K -> K) (tol : K) fuel (d : point) (v E : K) d',
  sqrt_pos sq -> E <> f0 -> fle (off (shear d)) (twice fuel tol) = true ->
  principle sq tol fuel d v E = Ok d' ->
  let g := fdiv (fmul (fadd f1 f1) (fadd v f1)) E in
  let law := fun s => V3 (fdiv (fsub (e0 s) (fmul v (fadd (e1 s) (e2 s)))) E) (fdiv (fsub (e1 s) (fmul v (fadd (e0 s) (e2 s)))) E)
                         (fdiv (fsub (e2 s) (fmul v (fadd (e0 s) (e1 s)))) E) in
  strain d' = law (normal d) /\ items (sstrain d') = map (fmul g) (items (shear d)) /\
  increasing (pstrain d') /\ Permutation (items (pstrain d')) (items (law (pnormal d'))) /\
  increasing (psstrain d') /\ Permutation (items (psstrain d')) (map (fmul g) (items (pshear d'))) /\
  (fltb f0 E = true -> fle f0 (fadd v f1) = true ->
    pstrain d' = law (pnormal d') /\ items (psstrain d') = map (fmul g) (items (pshear d'))).
Proof.
  intros K sq tol fuel d v E d' Q N L R g law.
  destruct (principle_ok sq Q tol fuel d v E N L) as (d0 & R0 & A). rewrite R in R0. injection R0 as <-.
  assert (H : forall s, hooke v (fdiv f1 E) s = law s) by (intros s; apply hooke_law; auto).
  rewrite !H in A. destruct A as (_ & _ & _ & _ & _ & A1 & A2 & A3 & A4 & A5 & A6 & A7 & _).
  rewrite A2. intuition.
Qed.

(* ---------- cases over the rationals; the only root that matters is that of 25 ---------- *)
Definition root25 (x : QcF) : QcF := if feqb x (qz 25) then qz 5 else f1.
Definition zero3 : @v3 QcF := V3 f0 f0 f0.
Definition blank (n s : @v3 QcF) : point := Point (qz 3) (qz 4) n s zero3 zero3 zero3 zero3 zero3 zero3 zero3 [].
Example C33_ex :
  match principle root25 f1 5 (blank (V3 (qz 3) (qz 7) f0) (V3 f0 (qz 2) f0)) f0 (qz 2) with
  | Ok d => items (pnormal d) = [qz (-1); qz 4; qz 7] /\ items (pstrain d) = [fdiv (qz (-1)) (qz 2); qz 2; fdiv (qz 7) (qz 2)] /\
      items (pshear d) = [fdiv (qz 3) (qz 2); fdiv (qz 5) (qz 2); qz 4]
  | _ => False
  end.
Proof. vm_compute. repeat split; repeat (apply (f_equal2 cons); [apply Qc_is_canon; reflexivity|]); reflexivity. Qed.
Example C32_ex :
  let d := blank zero3 zero3 in
  let a := Axial f0 f0 (qz 25) f0 (qz 5) f0 in
  at_distance d (Load f0 f0 f1, a, qz 5) /\
  match addtodata a false d (Load f0 f0 f1) (qz 5) None with
  | Ok d => items (normal d) = [qz 9; qz 16; f0] /\ items (shear d) = [qz 12; qz 3; qz 4]
  | _ => False
  end.
Proof.
  split.
  - split; [intros E; apply (f_equal this) in E; discriminate|apply Qc_is_canon; reflexivity].
  - vm_compute. repeat split; repeat (apply (f_equal2 cons); [apply Qc_is_canon; reflexivity|]); reflexivity.
Qed.

Print Assumptions C32_rotates.
Print Assumptions C32_centre_partial.
Print Assumptions C32_centre_refuted.
Print Assumptions C32_invariants.
Print Assumptions C32_superposition.
Print Assumptions C32_deflection.
Print Assumptions C33_turns.
Print Assumptions C33_principal.
Print Assumptions C33_strains.
