(* The turns of the stress tensor are rotations; the loop ends. *)
From Coq Require Import List ZArith Lia Bool Arith Field.
From Verif Require Import Base LinBase EigModel QrProofs StressModel.
Import ListNotations.
Local Open Scope nat_scope.

Section Proofs.
Context {K : ofield}.
Local Open Scope lin_scope.
Add Field Kf18 : (f_th K).
Notation two := (@f1 K + f1).
Notation matrix := (nat -> nat -> K).

Definition sum3 (f : nat -> K) : K := f 0%nat + f 1%nat + f 2%nat.
(* the symmetric tensor with the given normal and shear components *)
Definition tens (n s : v3) : matrix := fun i j =>
  match i, j with
  | 0, 0 => e0 n | 1, 1 => e1 n | 2, 2 => e2 n
  | 0, 1 | 1, 0 => e0 s
  | 0, 2 | 2, 0 => e1 s
  | 1, 2 | 2, 1 => e2 s
  | _, _ => f0
  end.
Definition delta (i j : nat) : K := if i =? j then f1 else f0.
Definition orthonormal (U : matrix) : Prop :=
  forall k l, k < 3 -> l < 3 -> sum3 (fun i => U k i * U l i) = delta k l.
(* M is the matrix of S in the basis of the rows of U *)
Definition frame (S U M : matrix) : Prop := orthonormal U /\
  forall k i, k < 3 -> i < 3 -> sum3 (fun j => S i j * U k j) = sum3 (fun l => M k l * U l i).
Definition off (s : v3) : K := e0 s * e0 s + e1 s * e1 s + e2 s * e2 s.

(* ---------- order ---------- *)
Lemma fle_add2 (a b c d : K) : fle a b = true -> fle c d = true -> fle (a + c) (b + d) = true.
Proof.
  intros A B. apply fle_sub. replace (b + d - (a + c)) with ((b - a) + (d - c)) by ring.
  apply fadd_nonneg; apply (proj1 (fle_sub _ _)); auto.
Qed.
Lemma fle_mul_l (a b c : K) : fle f0 a = true -> fle b c = true -> fle (a * b) (a * c) = true.
Proof.
  intros A B. apply fle_sub. replace (a * c - a * b) with (a * (c - b)) by ring. apply fle_mul; auto. apply (proj1 (fle_sub _ _)); auto.
Qed.
Lemma two_pos : fltb f0 two = true.
Proof.
  apply fltb_spec. split. { apply fadd_nonneg; apply f0_le_f1. }
  intros E. symmetry in E. apply fadd_0_nonneg in E as [E _]; try apply f0_le_f1. now apply f1_neq_f0 in E.
Qed.
Lemma two_nz : two <> f0.
Proof. apply fpos_nz, two_pos. Qed.
Lemma fle_inv (x : K) : fltb f0 x = true -> fle f0 (f1 / x) = true.
Proof.
  intros H. pose proof (fpos_nz _ H) as N. apply fltb_spec in H as [H _].
  replace (f1 / x) with (x * ((f1 / x) * (f1 / x))) by (field; auto). apply fle_mul; auto. apply fsqr_nonneg.
Qed.
Lemma fle_cancel (a b c : K) : fltb f0 a = true -> fle (a * b) (a * c) = true -> fle b c = true.
Proof.
  intros A H. pose proof (fpos_nz _ A) as N. apply (fle_mul_l (f1 / a)) in H; [|now apply fle_inv].
  replace (f1 / a * (a * b)) with b in H by (field; auto). now replace (f1 / a * (a * c)) with c in H by (field; auto).
Qed.
Lemma fabs_sq (x : K) : fabs x * fabs x = x * x.
Proof. unfold fabs. destruct (fle f0 x); ring. Qed.

(* ---------- the tangent ---------- *)
Section Turn.
Variable sq : K -> K.
Hypothesis sqok : sqrt_pos sq.

Lemma tangent_ok x y h : h <> f0 ->
  exists t, tangent sq x y h = Ok t /\ h * (f1 - t * t) = (y - x) * t /\ fle (t * t) f1 = true.
Proof.
  intros N. unfold tangent. set (a := y - x). set (g := (if fltb a f0 then - two else two) * h).
  assert (Ng : g <> f0).
  { unfold g. apply fmul_nz; auto. destruct (fltb a f0); [|apply two_nz].
    intros E. apply two_nz. replace two with (- - two) by ring. rewrite E. ring. }
  assert (Hp : sq (a * a + g * g) * sq (a * a + g * g) = a * a + g * g /\ fltb f0 (sq (a * a + g * g)) = true).
  { apply sqok. apply fltb_spec. split. { apply fadd_nonneg; apply fsqr_nonneg. }
    intros E. symmetry in E. apply fadd_0_nonneg in E as [_ E]; try apply fsqr_nonneg. now apply fsqr_0 in E. }
  unfold hypot. set (H := sq (a * a + g * g)) in *. destruct Hp as [HH Hp].
  pose proof (fabs_nonneg a) as Aa. pose proof (fabs_sq a) as As.
  assert (Dp : fltb f0 (fabs a + H) = true).
  { apply fltb_spec. apply fltb_spec in Hp as [H1 H2]. split; [now apply fadd_nonneg|].
    intros E. symmetry in E. apply fadd_0_nonneg in E as [_ E]; auto. }
  pose proof (fpos_nz _ Dp) as Dn.
  exists (g / (fabs a + H)). split; [now apply divc_ok|].
  assert (Gh : exists s, s * s = f1 /\ g = s * two * h /\ s * a = fabs a).
  { unfold g, fabs, fltb. destruct (fle f0 a); cbn [negb].
    - exists f1. repeat split; ring.
    - exists (- f1). repeat split; ring. }
  destruct Gh as (s & Ss & Gg & Sa). split.
  - assert (Q : (fabs a + H) * (fabs a + H) - g * g = two * fabs a * (fabs a + H)).
    { replace ((fabs a + H) * (fabs a + H)) with (fabs a * fabs a + two * fabs a * H + H * H) by ring. rewrite HH.
      replace (a * a) with (fabs a * fabs a) by auto. ring. }
    replace (h * (f1 - g / (fabs a + H) * (g / (fabs a + H))))
      with (h * ((fabs a + H) * (fabs a + H) - g * g) / ((fabs a + H) * (fabs a + H))) by (field; auto).
    rewrite Q, Gg. rewrite <- Sa at 1.
    replace (a * (s * two * h / (fabs a + H))) with (h * (two * (s * a) * (fabs a + H)) / ((fabs a + H) * (fabs a + H))) by (field; auto).
    field; auto.
  - apply (fle_cancel ((fabs a + H) * (fabs a + H))).
    { apply fltb_spec. split; [apply fsqr_nonneg|]. intros E. symmetry in E. now apply fsqr_0 in E. }
    replace ((fabs a + H) * (fabs a + H) * (g / (fabs a + H) * (g / (fabs a + H)))) with (g * g) by (field; auto).
    apply fle_sub. replace ((fabs a + H) * (fabs a + H) * f1 - g * g) with (fabs a * fabs a + two * (fabs a * H) + (H * H - g * g)) by ring.
    rewrite HH. replace (a * a + g * g - g * g) with (a * a) by ring.
    apply fltb_spec in Hp as [H1 _]. pose proof two_pos as T. apply fltb_spec in T as [T _].
    repeat apply fadd_nonneg; try apply fsqr_nonneg. apply fle_mul; auto. apply fle_mul; auto.
Qed.
(* the cosine *)
Lemma cosine_ok t : exists c, hypot sq t f1 <> f0 /\ f1 / hypot sq t f1 = c /\ c * c * (f1 + t * t) = f1.
Proof.
  assert (P : fltb f0 (t * t + f1 * f1) = true).
  { apply fltb_spec. split. { apply fadd_nonneg; apply fsqr_nonneg. }
    intros E. symmetry in E. apply fadd_0_nonneg in E as [_ E]; try apply fsqr_nonneg. apply fsqr_0 in E. now apply f1_neq_f0 in E. }
  destruct (sqok _ P) as [B A]. unfold hypot. pose proof (fpos_nz _ A) as N. eexists. split; [exact N|]. split; [reflexivity|].
  set (h := sq (t * t + f1 * f1)) in *. clearbody h. replace (f1 + t * t) with (t * t + f1 * f1) by ring. rewrite <- B. field. auto.
Qed.

(* what the turn of a plane by tangent t does: x and y are the normal components, h the shear *)
Lemma turn_eqs x y h t c : h * (f1 - t * t) = (y - x) * t -> c * c * (f1 + t * t) = f1 ->
  let s := t * c in
  c * x - s * h = (x - t * h) * c /\ c * h - s * y = - (x - t * h) * s /\
  s * x + c * h = (y + t * h) * s /\ s * h + c * y = (y + t * h) * c /\ c * c + s * s = f1 /\
  (x - t * h) * (x - t * h) + (y + t * h) * (y + t * h) = x * x + y * y + two * (h * h) /\
  (x - t * h) * (y + t * h) = x * y - h * h.
Proof.
  intros Q C s.
  assert (Q' : h = t * (y - x) + t * t * h).
  { replace h with (h * (f1 - t * t) + t * t * h) at 1 by ring. rewrite Q. ring. }
  split; [unfold s; ring|]. split.
  { unfold s. replace (- (x - t * h) * (t * c)) with (c * (t * t * h) - c * t * x) by ring.
    replace (t * t * h) with (h - t * (y - x)) by (rewrite Q' at 1; ring). ring. }
  split.
  { unfold s. replace ((y + t * h) * (t * c)) with (c * (t * (y - x) + t * t * h) + c * t * x) by ring.
    rewrite <- Q'. ring. }
  split; [unfold s; ring|]. split; [unfold s; rewrite <- C; ring|]. split.
  - replace ((x - t * h) * (x - t * h) + (y + t * h) * (y + t * h))
      with (x * x + y * y + two * h * (t * (y - x) + t * t * h)) by ring. rewrite <- Q'. ring.
  - replace ((x - t * h) * (y + t * h)) with (x * y - h * (t * (y - x) + t * t * h)) by ring. rewrite <- Q'. ring.
Qed.

(* ---------- frames ---------- *)
Ltac each3 k := destruct k as [|[|[|k]]]; [| | |exfalso; lia].
Lemma frame_start n s : frame (tens n s) delta (tens n s).
Proof.
  split.
  - intros k l Hk Hl. each3 k; each3 l; unfold sum3, delta; cbn; ring.
  - intros k i Hk Hi. each3 k; each3 i; unfold sum3, delta; cbn; ring.
Qed.
Definition prod (A B : matrix) : matrix := fun i j => sum3 (fun k => A i k * B k j).
Lemma frame_turn S U M V M' : frame S U M -> orthonormal V ->
  (forall i j, i < 3 -> j < 3 -> prod V M i j = prod M' V i j) -> frame S (prod V U) M'.
Proof.
  intros [O F] W E. split.
  - intros k l Hk Hl. rewrite <- (W k l Hk Hl).
    assert (G : forall m n, m < 3 -> n < 3 -> U m 0%nat * U n 0%nat + U m 1%nat * U n 1%nat + U m 2%nat * U n 2%nat = delta m n)
      by (intros m n; apply (O m n)).
    unfold prod, sum3.
    transitivity (sum3 (fun m => sum3 (fun n => V k m * V l n *
      (U m 0%nat * U n 0%nat + U m 1%nat * U n 1%nat + U m 2%nat * U n 2%nat)))); [unfold sum3; ring|].
    unfold sum3. rewrite !G by lia. unfold delta. cbn. ring.
  - intros k i Hk Hi.
    transitivity (sum3 (fun m => V k m * sum3 (fun j => S i j * U m j))); [unfold prod, sum3; ring|].
    transitivity (sum3 (fun m => V k m * sum3 (fun l => M m l * U l i))).
    { unfold sum3 at 1 3. rewrite !F by lia. reflexivity. }
    transitivity (sum3 (fun l => prod V M k l * U l i)); [unfold prod, sum3; ring|].
    transitivity (sum3 (fun l => prod M' V k l * U l i)); [unfold sum3; rewrite !E by lia; reflexivity|].
    unfold prod, sum3. ring.
Qed.

(* the rotations *)
Definition rxz (c s : K) : matrix := fun i j =>
  match i, j with 0, 0 => c | 0, 2 => - s | 1, 1 => f1 | 2, 0 => s | 2, 2 => c | _, _ => f0 end.
Definition rxy (c s : K) : matrix := fun i j =>
  match i, j with 0, 0 => c | 0, 1 => - s | 1, 0 => s | 1, 1 => c | 2, 2 => f1 | _, _ => f0 end.
Definition ryz (c s : K) : matrix := fun i j =>
  match i, j with 0, 0 => f1 | 1, 1 => c | 1, 2 => - s | 2, 1 => s | 2, 2 => c | _, _ => f0 end.
Lemma rot_orth c s : c * c + s * s = f1 -> orthonormal (rxz c s) /\ orthonormal (rxy c s) /\ orthonormal (ryz c s).
Proof.
  intros E. repeat split; intros k l Hk Hl; each3 k; each3 l; unfold sum3, delta; cbn; try ring;
    (transitivity (c * c + s * s); [ring|exact E]).
Qed.

(* the invariants of a tensor *)
Definition trace (n : v3) : K := e0 n + e1 n + e2 n.
Definition squares (n s : v3) : K :=
  e0 n * e0 n + e1 n * e1 n + e2 n * e2 n + two * (e0 s * e0 s + e1 s * e1 s + e2 s * e2 s).
Definition det3 (n s : v3) : K :=
  e0 n * (e1 n * e2 n - e2 s * e2 s) - e0 s * (e0 s * e2 n - e2 s * e1 s) + e1 s * (e0 s * e2 s - e1 n * e1 s).
Definition same (n s n' s' : v3) : Prop :=
  trace n' = trace n /\ squares n' s' = squares n s /\ det3 n' s' = det3 n s /\
  forall S U, frame S U (tens n s) -> exists V, frame S V (tens n' s').
Lemma same_refl n s : same n s n s.
Proof. repeat split. intros S U F. now exists U. Qed.
Lemma same_trans n s n' s' n'' s'' : same n s n' s' -> same n' s' n'' s'' -> same n s n'' s''.
Proof.
  intros (A & B & C & D) (A' & B' & C' & D'). repeat split; try congruence.
  intros S U F. destruct (D S U F) as [V G]. exact (D' S V G).
Qed.

Definition dm (A : matrix) : K :=
  A 0%nat 0%nat * (A 1%nat 1%nat * A 2%nat 2%nat - A 1%nat 2%nat * A 2%nat 1%nat)
  - A 0%nat 1%nat * (A 1%nat 0%nat * A 2%nat 2%nat - A 1%nat 2%nat * A 2%nat 0%nat)
  + A 0%nat 2%nat * (A 1%nat 0%nat * A 2%nat 1%nat - A 1%nat 1%nat * A 2%nat 0%nat).
Lemma dm_prod A B : dm (prod A B) = dm A * dm B.
Proof. unfold dm, prod, sum3. ring. Qed.
Lemma dm_ext A B : (forall i j, i < 3 -> j < 3 -> A i j = B i j) -> dm A = dm B.
Proof. intros E. unfold dm. rewrite !E by lia. reflexivity. Qed.
Lemma dm_tens n s : dm (tens n s) = det3 n s.
Proof. unfold dm, det3. cbn. ring. Qed.
Lemma turn_same n s n' s' V : orthonormal V -> dm V = f1 ->
  (forall i j, i < 3 -> j < 3 -> prod V (tens n s) i j = prod (tens n' s') V i j) ->
  trace n' = trace n -> squares n' s' = squares n s -> same n s n' s'.
Proof.
  intros O D E T Q. split; [exact T|]. split; [exact Q|]. split.
  - apply dm_ext in E. rewrite !dm_prod, D, !dm_tens in E. replace (det3 n' s') with (det3 n' s' * f1) by ring. rewrite <- E. ring.
  - intros S U F. exists (prod V U). eapply frame_turn; eauto.
Qed.
Ltac byE E := match type of E with ?l = ?r => transitivity l; [ring|transitivity r; [exact E|ring]] end.

Ltac byC c t C w := transitivity (w * (c * c * (f1 + t * t))); [rewrite C; ring|ring].

Lemma turn_xz_ok n s : exists n' s', turn_xz sq n s = Ok (n', s') /\ same n s n' s' /\ e1 s' = f0 /\
  e0 s' * e0 s' + e2 s' * e2 s' = e0 s * e0 s + e2 s * e2 s.
Proof.
  destruct n as [x y z], s as [xy xz yz]. unfold turn_xz. cbn [e0 e1 e2].
  destruct (feqb_spec xz f0) as [->|N]. { eexists _, _. split; [reflexivity|]. split; [apply same_refl|]. split; reflexivity. }
  destruct (tangent_ok x z xz N) as (t & -> & Q & L). destruct (cosine_ok t) as (c & Hn & Hc & C).
  cbn [bind]. rewrite (divc_ok _ _ Hn), Hc. cbn [bind]. eexists _, _. split; [reflexivity|]. cbn [e0 e1 e2].
  destruct (turn_eqs x z xz t c Q C) as (E1 & E2 & E3 & E4 & E5 & E6 & E7).
  assert (P : (xy * c - t * (yz * c)) * (xy * c - t * (yz * c)) + (yz * c + t * (xy * c)) * (yz * c + t * (xy * c)) = xy * xy + yz * yz).
  { transitivity (c * c * (f1 + t * t) * (xy * xy + yz * yz)); [ring|]. rewrite C. ring. }
  split; [|split; [reflexivity|exact P]].
  apply (turn_same _ _ _ _ (rxz c (t * c))).
  - now apply rot_orth.
  - unfold dm. cbn. byE E5.
  - intros i j Hi Hj. each3 i; each3 j; unfold prod, sum3; cbn; first [ring|byE E2|byE E3|byC c t C xy|byC c t C yz].
  - unfold trace. cbn. ring.
  - unfold squares. cbn [e0 e1 e2].
    transitivity ((x - t * xz) * (x - t * xz) + (z + t * xz) * (z + t * xz) + y * y + two *
       ((xy * c - t * (yz * c)) * (xy * c - t * (yz * c)) + (yz * c + t * (xy * c)) * (yz * c + t * (xy * c)))); [ring|].
    rewrite E6, P. ring.
Qed.
Lemma half_sine t c : fle (t * t) f1 = true -> c * c * (f1 + t * t) = f1 ->
  forall w, fle (two * ((t * (w * c)) * (t * (w * c)))) (w * w) = true.
Proof.
  intros L C w. apply fle_sub.
  replace (w * w - two * ((t * (w * c)) * (t * (w * c)))) with (w * w * (c * c * (f1 + t * t)) - two * ((t * (w * c)) * (t * (w * c)))) by (rewrite C; ring).
  replace (w * w * (c * c * (f1 + t * t)) - two * ((t * (w * c)) * (t * (w * c)))) with ((w * c) * (w * c) * (f1 - t * t)) by ring.
  apply fle_mul; [apply fsqr_nonneg|]. apply (proj1 (fle_sub _ _)). exact L.
Qed.
Lemma turn_xy_ok n s : e1 s = f0 -> exists n' s', turn_xy sq n s = Ok (n', s') /\ same n s n' s' /\ e0 s' = f0 /\
  fle (two * (e1 s' * e1 s')) (e2 s * e2 s) = true.
Proof.
  destruct n as [x y z], s as [xy xz yz]. unfold turn_xy. cbn [e0 e1 e2]. intros ->.
  destruct (feqb_spec xy f0) as [->|N].
  { eexists _, _. split; [reflexivity|]. split; [apply same_refl|]. split; [reflexivity|]. cbn.
    replace (two * (f0 * f0)) with (@f0 K) by ring. apply fsqr_nonneg. }
  destruct (tangent_ok x y xy N) as (t & -> & Q & L). destruct (cosine_ok t) as (c & Hn & Hc & C).
  cbn [bind]. rewrite (divc_ok _ _ Hn). cbn [bind]. replace (yz / hypot sq t f1) with (yz * c) by (rewrite <- Hc; field; auto).
  eexists _, _. split; [reflexivity|]. cbn [e0 e1 e2].
  destruct (turn_eqs x y xy t c Q C) as (E1 & E2 & E3 & E4 & E5 & E6 & E7).
  split; [|split; [reflexivity|]].
  2:{ replace (- t * (yz * c) * (- t * (yz * c))) with (t * (yz * c) * (t * (yz * c))) by ring. now apply half_sine. }
  apply (turn_same _ _ _ _ (rxy c (t * c))).
  - now apply rot_orth.
  - unfold dm. cbn. byE E5.
  - intros i j Hi Hj. each3 i; each3 j; unfold prod, sum3; cbn; first [ring|byE E2|byE E3|byC c t C yz].
  - unfold trace. cbn. ring.
  - unfold squares. cbn [e0 e1 e2].
    transitivity ((x - t * xy) * (x - t * xy) + (y + t * xy) * (y + t * xy) + z * z + two * (yz * yz * (c * c * (f1 + t * t)))); [ring|].
    rewrite E6, C. ring.
Qed.
Lemma turn_yz_ok n s : e0 s = f0 -> exists n' s', turn_yz sq n s = Ok (n', s') /\ same n s n' s' /\ e2 s' = f0 /\
  e0 s' * e0 s' + e1 s' * e1 s' = e1 s * e1 s.
Proof.
  destruct n as [x y z], s as [xy xz yz]. unfold turn_yz. cbn [e0 e1 e2]. intros ->.
  destruct (feqb_spec yz f0) as [->|N].
  { eexists _, _. split; [reflexivity|]. split; [apply same_refl|]. split; [reflexivity|]. cbn. ring. }
  destruct (tangent_ok y z yz N) as (t & -> & Q & L). destruct (cosine_ok t) as (c & Hn & Hc & C).
  cbn [bind]. rewrite (divc_ok _ _ Hn). cbn [bind]. replace (xz / hypot sq t f1) with (xz * c) by (rewrite <- Hc; field; auto).
  eexists _, _. split; [reflexivity|]. cbn [e0 e1 e2].
  destruct (turn_eqs y z yz t c Q C) as (E1 & E2 & E3 & E4 & E5 & E6 & E7).
  assert (P : - t * (xz * c) * (- t * (xz * c)) + xz * c * (xz * c) = xz * xz).
  { transitivity (c * c * (f1 + t * t) * (xz * xz)); [ring|]. rewrite C. ring. }
  split; [|split; [reflexivity|exact P]].
  apply (turn_same _ _ _ _ (ryz c (t * c))).
  - now apply rot_orth.
  - unfold dm. cbn. byE E5.
  - intros i j Hi Hj. each3 i; each3 j; unfold prod, sum3; cbn; first [ring|byE E2|byE E3|byC c t C xz].
  - unfold trace. cbn. ring.
  - unfold squares. cbn [e0 e1 e2].
    transitivity ((y - t * yz) * (y - t * yz) + (z + t * yz) * (z + t * yz) + x * x + two *
       (- t * (xz * c) * (- t * (xz * c)) + xz * c * (xz * c))); [ring|].
    rewrite E6, P. ring.
Qed.

Fixpoint pow2 (k : nat) : K := match k with O => f1 | S k => two * pow2 k end.
Variable tol : K.
Lemma rounds_ok fuel : forall n s, fle (off s) (pow2 fuel * tol) = true ->
  exists n' s', rounds sq tol fuel (off s) n s = Ok (n', s') /\ same n s n' s' /\ fle (off s') tol = true.
Proof.
  induction fuel as [|fuel IH]; intros n s L; cbn [rounds].
  - cbn in L. replace (f1 * tol) with tol in L by ring. unfold fltb. rewrite L. cbn [negb].
    eexists _, _. split; [reflexivity|]. split; [apply same_refl|exact L].
  - unfold fltb. destruct (fle (off s) tol) eqn:E; cbn [negb].
    { eexists _, _. split; [reflexivity|]. split; [apply same_refl|exact E]. }
    destruct (turn_xz_ok n s) as (n1 & s1 & -> & S1 & Z1 & O1). cbn [bind].
    destruct (turn_xy_ok n1 s1 Z1) as (n2 & s2 & -> & S2 & Z2 & O2). cbn [bind].
    destruct (turn_yz_ok n2 s2 Z2) as (n3 & s3 & -> & S3 & Z3 & O3). cbn [bind].
    assert (T : e0 s3 * e0 s3 + e1 s3 * e1 s3 = off s3) by (unfold off; rewrite Z3; ring). rewrite T.
    destruct (IH n3 s3) as (n' & s' & -> & S' & O').
    + apply (fle_cancel two); [apply two_pos|]. rewrite <- T, O3.
      apply fle_trans with (y := e2 s1 * e2 s1); [exact O2|].
      apply fle_trans with (y := off s).
      * apply fle_trans with (y := e0 s * e0 s + e2 s * e2 s).
        -- rewrite <- O1. apply fle_sub. replace (e0 s1 * e0 s1 + e2 s1 * e2 s1 - e2 s1 * e2 s1) with (e0 s1 * e0 s1) by ring. apply fsqr_nonneg.
        -- apply fle_sub. unfold off. replace (e0 s * e0 s + e1 s * e1 s + e2 s * e2 s - (e0 s * e0 s + e2 s * e2 s)) with (e1 s * e1 s) by ring. apply fsqr_nonneg.
      * cbn [pow2] in L. now replace (two * (pow2 fuel * tol)) with (two * pow2 fuel * tol) by ring.
    + eexists _, _. split; [reflexivity|]. split; auto.
      eapply same_trans; [exact S1|]. eapply same_trans; [exact S2|]. eapply same_trans; [exact S3|exact S'].
Qed.
End Turn.
End Proofs.
