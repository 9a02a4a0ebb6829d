(* Conjugate gradients on a weighted least squares problem, for C80. *)
From Coq Require Import List ZArith Bool Arith Lia Field.
From Verif Require Import Base LinBase PropsGauss LdlProofs QrProofs PropsQr EigProofs KalmanProofs.
Import ListNotations.
Local Open Scope nat_scope.

Section Cg.
Context {K : ofield}.
Local Open Scope lin_scope.
Add Field Kf48 : (f_th K).
Notation vect := (nat -> K).
Notation two := (@f1 K + f1).

Definition ip (n : nat) (u v : vect) : K := sumr 0 n (fun i => u i * v i).
Lemma ip_comm n u v : ip n u v = ip n v u.
Proof. apply sumr_ext. intros. ring. Qed.
Lemma ip_ext n u v u' v' : (forall i, i < n -> u i = u' i) -> (forall i, i < n -> v i = v' i) -> ip n u v = ip n u' v'.
Proof. intros A B. apply sumr_ext. intros i I. rewrite A, B by lia. auto. Qed.
Lemma ip_add n u v w : ip n u (fun i => v i + w i) = ip n u v + ip n u w.
Proof. unfold ip. rewrite <- sumr_add. apply sumr_ext. intros. ring. Qed.
Lemma ip_scale n u v a : ip n u (fun i => a * v i) = a * ip n u v.
Proof. unfold ip. rewrite <- sumr_scale. apply sumr_ext. intros. ring. Qed.
Lemma ip_lin n u v w a : ip n u (fun i => v i + a * w i) = ip n u v + a * ip n u w.
Proof. rewrite (ip_add n u v (fun i => a * w i)), ip_scale. auto. Qed.
Lemma ip_nonneg n u : fle f0 (ip n u u) = true.
Proof. apply sqs_nonneg. Qed.
Lemma ip_0 n u : ip n u u = f0 -> forall i, i < n -> u i = f0.
Proof. apply sqs_0. Qed.

Lemma fop_nth {A} (R : A -> A -> Prop) l d : ForallOrdPairs R l -> forall a b, a < b -> b < length l -> R (nth a l d) (nth b l d).
Proof.
  induction 1 as [|x l Fx Op IH]; intros a b Ab Bn; cbn [length] in *; [lia|].
  destruct a, b; cbn [nth]; try lia. - rewrite Forall_forall in Fx. apply Fx. apply nth_In. lia. - apply IH; lia.
Qed.
(* a vector that n mutually orthogonal vectors are orthogonal to is zero *)
Lemma orth_full (sq : K -> K) n (gs : list vect) g : is_sqrt sq -> length gs = n -> ForallOrdPairs (fun a b => ip n a b = f0) gs ->
  Forall (fun a => ip n a a <> f0 /\ ip n g a = f0) gs -> forall i, i < n -> g i = f0.
Proof.
  intros Sq L Op Fa i I.
  set (col := fun c => nth c gs (fun _ => f0)).
  assert (Nz : forall c, c < n -> ip n (col c) (col c) <> f0 /\ ip n g (col c) = f0).
  { intros c C. rewrite Forall_forall in Fa. apply Fa. apply nth_In. lia. }
  assert (Rt : forall c, sq (ip n (col c) (col c)) * sq (ip n (col c) (col c)) = ip n (col c) (col c)) by (intros; apply Sq; apply ip_nonneg).
  assert (Rn : forall c, c < n -> sq (ip n (col c) (col c)) <> f0).
  { intros c C E. destruct (Nz c C) as (A & _). apply A. rewrite <- Rt, E by auto. ring. }
  set (Q := fun r c => col c r / sq (ip n (col c) (col c))).
  assert (Ord : forall a b, a < n -> b < n -> a <> b -> ip n (col a) (col b) = f0).
  { intros a b An Bn N. destruct (Nat.lt_ge_cases a b).
    - apply (fop_nth _ gs (fun _ => f0) Op); lia.
    - rewrite ip_comm. apply (fop_nth _ gs (fun _ => f0) Op); lia. }
  assert (O : forall a b, a < n -> b < n -> inner n Q a b = ident a b).
  { intros a b An Bn. unfold inner, Q.
    rewrite (sumr_ext 0 n _ (fun k => f1 / (sq (ip n (col a) (col a)) * sq (ip n (col b) (col b))) * (col a k * col b k))).
    2: { intros k Kk. field. auto. }
    rewrite sumr_scale. change (sumr 0 n (fun k => col a k * col b k)) with (ip n (col a) (col b)).
    unfold ident. destruct (Nat.eqb_spec a b) as [->|N]; [|rewrite (Ord a b) by auto; field; split; apply Rn; auto].
    rewrite <- (Rt b) at 3. field. auto. }
  pose proof (orth_rows n Q O) as Rw.
  assert (G : g i = sumr 0 n (fun k => Q i k * sumr 0 n (fun t => Q t k * g t))).
  { rewrite (sumr_ext 0 n _ (fun k => sumr 0 n (fun t => Q i k * Q t k * g t))) by (intros; rewrite <- sumr_scale; apply sumr_ext; intros; ring).
    rewrite sumr_swap, (sumr_one 0 n _ i); [|lia|].
    - rewrite sumr_scale_r, Rw by auto. unfold ident. rewrite Nat.eqb_refl. ring.
    - intros t T Nt. rewrite sumr_scale_r, Rw by (auto; lia). unfold ident. destruct (Nat.eqb_spec i t); [congruence|ring]. }
  rewrite G. apply sumr_zero. intros k Kk.
  assert (Z : sumr 0 n (fun t => Q t k * g t) = f0).
  { unfold Q. rewrite (sumr_ext 0 n _ (fun t => f1 / sq (ip n (col k) (col k)) * (g t * col k t))) by (intros; field; apply Rn; lia).
    rewrite sumr_scale. change (sumr 0 n (fun t => g t * col k t)) with (ip n g (col k)). destruct (Nz k) as (_ & ->); [lia|]. ring. }
  rewrite Z. ring.
Qed.

(* ---- the problem: sum over j of (c j + F j . w)^2 / m j ---- *)
Variables (dl nl : nat) (F : nat -> nat -> K) (m c : vect).
Hypothesis mpos : forall j, j < dl -> fltb f0 (m j) = true.

Definition lin (v : vect) (j : nat) : K := sumr 0 nl (fun i => F j i * v i).
Definition gr (v : vect) (i : nat) : K := sumr 0 dl (fun j => two * (c j + lin v j) * F j i / m j).
Definition Ap (v : vect) (i : nat) : K := sumr 0 dl (fun j => two * lin v j * F j i / m j).
Definition bi (u v : vect) : K := sumr 0 dl (fun j => two * (lin u j * lin v j / m j)).
Definition err (v : vect) : K := sumr 0 dl (fun j => (c j + lin v j) * (c j + lin v j) / m j).

Lemma m_nz j : j < dl -> m j <> f0.
Proof. intros J. apply fpos_nz. auto. Qed.
Lemma lin_lin u v a j : lin (fun i => u i + a * v i) j = lin u j + a * lin v j.
Proof. apply (ip_lin nl (F j)). Qed.
Lemma lin_ext u v j : (forall i, i < nl -> u i = v i) -> lin u j = lin v j.
Proof. intros E. apply sumr_ext. intros. rewrite E by lia. auto. Qed.
Lemma bi_comm u v : bi u v = bi v u.
Proof. apply sumr_ext. intros j J. pose proof (m_nz j ltac:(lia)). field. auto. Qed.
Lemma bi_ext u v u' v' : (forall i, i < nl -> u i = u' i) -> (forall i, i < nl -> v i = v' i) -> bi u v = bi u' v'.
Proof. intros A B. apply sumr_ext. intros j J. rewrite (lin_ext u u'), (lin_ext v v') by auto. auto. Qed.
Lemma bi_lin u v w a : bi u (fun i => v i + a * w i) = bi u v + a * bi u w.
Proof.
  unfold bi. rewrite <- sumr_scale, <- sumr_add. apply sumr_ext. intros j J. rewrite lin_lin. pose proof (m_nz j ltac:(lia)). field. auto.
Qed.
Lemma bi_Ap u v : ip nl u (Ap v) = bi u v.
Proof.
  unfold ip, Ap, bi.
  rewrite (sumr_ext 0 nl _ (fun i => sumr 0 dl (fun j => two * (lin v j / m j) * (F j i * u i)))).
  2: { intros i I. rewrite <- sumr_scale. apply sumr_ext. intros j J. pose proof (m_nz j ltac:(lia)). field. auto. }
  rewrite sumr_swap. apply sumr_ext. intros j J. rewrite sumr_scale. change (sumr 0 nl (fun i => F j i * u i)) with (lin u j). pose proof (m_nz j ltac:(lia)). field. auto.
Qed.
Lemma gr_move v u a i : gr (fun i => v i + a * u i) i = gr v i + a * Ap u i.
Proof.
  unfold gr, Ap. rewrite <- sumr_scale, <- sumr_add. apply sumr_ext. intros j J. rewrite lin_lin. pose proof (m_nz j ltac:(lia)). field. auto.
Qed.
Lemma gr_ext u v i : (forall i, i < nl -> u i = v i) -> gr u i = gr v i.
Proof. intros E. apply sumr_ext. intros j J. now rewrite (lin_ext u v). Qed.
Lemma bi_nonneg u : fle f0 (bi u u) = true.
Proof.
  apply sumr_nonneg. intros j J. apply fle_mul; [apply fadd_nonneg; apply f0_le_f1|]. apply (pos_le (m j)); [apply mpos; lia|].
  replace (m j * (lin u j * lin u j / m j)) with (lin u j * lin u j) by (field; apply m_nz; lia). apply fsqr_nonneg.
Qed.
Lemma ip_gr v u : ip nl (gr v) u = sumr 0 dl (fun j => two * (c j + lin v j) * lin u j / m j).
Proof.
  unfold ip, gr.
  rewrite (sumr_ext 0 nl _ (fun i => sumr 0 dl (fun j => two * ((c j + lin v j) / m j) * (F j i * u i)))).
  2: { intros i I. rewrite <- sumr_scale_r. apply sumr_ext. intros j J. pose proof (m_nz j ltac:(lia)). field. auto. }
  rewrite sumr_swap. apply sumr_ext. intros j J. rewrite sumr_scale. change (sumr 0 nl (fun i => F j i * u i)) with (lin u j). pose proof (m_nz j ltac:(lia)). field. auto.
Qed.
(* the error at a distance; doubled to avoid a half *)
Lemma err_move v u a : two * err (fun i => v i + a * u i) = two * err v + two * a * ip nl (gr v) u + a * a * bi u u.
Proof.
  rewrite ip_gr. unfold err, bi. rewrite <- !sumr_scale, <- !sumr_add. apply sumr_ext. intros j J. rewrite lin_lin. pose proof (m_nz j ltac:(lia)). field. auto.
Qed.
Lemma err_ext u v : (forall i, i < nl -> u i = v i) -> err u = err v.
Proof. intros E. apply sumr_ext. intros j J. now rewrite (lin_ext u v). Qed.
Lemma two_pos : fltb f0 two = true.
Proof. apply fltb_spec. split; [apply fadd_nonneg; apply f0_le_f1|]. intros E. symmetry in E. now apply two_nz in E. Qed.
Lemma err_least v : (forall i, i < nl -> gr v i = f0) -> forall u, fle (err v) (err u) = true.
Proof.
  intros Z u. pose proof (err_move v (fun i => u i - v i) f1) as M.
  rewrite (err_ext _ u) in M by (intros; ring).
  assert (I0 : ip nl (gr v) (fun i => u i - v i) = f0) by (apply sumr_zero; intros; rewrite Z by lia; ring). rewrite I0 in M.
  apply (proj2 (fle_sub _ _)). apply (pos_le two _ two_pos). replace (two * (err u - err v)) with (two * err u - two * err v) by ring. rewrite M.
  set (b := bi _ _). replace (two * err v + two * f1 * f0 + f1 * f1 * b - two * err v) with b by ring. apply bi_nonneg.
Qed.

(* ---- the invariant ---- *)
Record cginv (hist : list (vect * vect)) (W g d : vect) : Prop := Cginv {
  i_g : forall i, i < nl -> g i = gr W i;
  i_hist : Forall (fun h => ip nl g (snd h) = f0 /\ ip nl g (fst h) = f0 /\ bi d (fst h) = f0 /\ ip nl (snd h) (snd h) <> f0) hist;
  i_dg : ip nl d g = - ip nl g g;
  i_A : forall x, ip nl x g = f0 -> Forall (fun h => ip nl x (snd h) = f0) hist -> Forall (fun h => bi x (fst h) = f0) hist /\ bi x W = f0;
  i_G : forall x, ip nl x d = f0 -> Forall (fun h => ip nl x (fst h) = f0) hist -> ip nl x g = f0 /\ Forall (fun h => ip nl x (snd h) = f0) hist;
  i_o : ForallOrdPairs (fun a b => ip nl (snd a) (snd b) = f0) hist;
  i_gW : ip nl g W = f0;
  i_dW : bi d W = f0;
  i_pos : fle f0 (ip nl d W) = true;
  i_row : forall x, (forall j, j < dl -> lin x j = f0) -> ip nl x W = f0 /\ ip nl x d = f0 }.

Lemma bi_0 x v : (forall i, i < nl -> v i = f0) -> bi x v = f0.
Proof.
  intros Z. apply sumr_zero. intros j J. assert (L : lin v j = f0) by (apply sumr_zero; intros i I; rewrite Z by lia; ring).
  rewrite L. pose proof (m_nz j ltac:(lia)). field. auto.
Qed.
Lemma ip_z n x v : (forall i, i < n -> v i = f0) -> ip n x v = f0.
Proof. intros Z. apply sumr_zero. intros i I. rewrite Z by lia. ring. Qed.
Lemma ip_gr_row x v : (forall j, j < dl -> lin x j = f0) -> ip nl x (gr v) = f0.
Proof.
  intros X. rewrite ip_comm, ip_gr. apply sumr_zero. intros j J. rewrite X by lia. pose proof (m_nz j ltac:(lia)). field. auto.
Qed.
Lemma cg_start W g d : (forall i, i < nl -> W i = f0) -> (forall i, i < nl -> g i = gr W i) -> (forall i, i < nl -> d i = - g i) -> cginv [] W g d.
Proof.
  intros Zw Eg Ed.
  assert (Dg : forall x, ip nl x d = - ip nl x g).
  { intros x. rewrite (ip_ext nl x d x (fun i => - f1 * g i)) by (auto; intros; rewrite Ed by auto; ring). rewrite ip_scale. ring. }
  constructor; auto.
  - rewrite ip_comm, Dg. auto.
  - intros x _ _. split; auto. now apply bi_0.
  - intros x E _. rewrite Dg in E. split; auto. replace (ip nl x g) with (- - ip nl x g) by ring. rewrite E. ring.
  - constructor.
  - now apply ip_z.
  - now apply bi_0.
  - rewrite ip_z by auto. apply fle_refl.
  - intros x X. split; [now apply ip_z|]. rewrite Dg, (ip_ext nl x g x (gr W)), ip_gr_row by auto. ring.
Qed.

(* along the direction the error curves upwards *)
Lemma cg_curv hist W g d : cginv hist W g d -> ip nl g g <> f0 -> fltb f0 (bi d d) = true.
Proof.
  intros I N. apply fltb_spec. split; [apply bi_nonneg|]. intros E. symmetry in E. apply N.
  assert (Z : forall j, j < dl -> lin d j = f0).
  { intros j J. unfold bi in E.
    assert (T : two * (lin d j * lin d j / m j) = f0).
    { apply (sumr_nonneg_0 0 dl (fun j => two * (lin d j * lin d j / m j))); auto; [|lia]. intros t T. apply fle_mul; [apply fadd_nonneg; apply f0_le_f1|]. apply (pos_le (m t)); [apply mpos; lia|].
      replace (m t * (lin d t * lin d t / m t)) with (lin d t * lin d t) by (field; apply m_nz; lia). apply fsqr_nonneg. }
    apply fmul_0 in T as [T|T]; [now apply two_nz in T|]. apply fsqr_0.
    replace (lin d j * lin d j) with (m j * (lin d j * lin d j / m j)) by (field; apply m_nz; lia). rewrite T. ring. }
  replace (ip nl g g) with (- ip nl d g) by (rewrite (i_dg _ _ _ _ I); ring).
  rewrite (ip_ext nl d g d (gr W)) by (auto; apply (i_g _ _ _ _ I)). rewrite ip_comm, ip_gr.
  rewrite sumr_zero; [ring|]. intros j J. rewrite Z by lia. pose proof (m_nz j ltac:(lia)). field. auto.
Qed.

(* one step: the new gradient is orthogonal to all before *)
Definition cg_a (g d : vect) : K := ip nl g g / bi d d.
Lemma cg_orth hist W g d W' g' : cginv hist W g d -> ip nl g g <> f0 ->
  (forall i, i < nl -> W' i = W i + cg_a g d * d i) -> (forall i, i < nl -> g' i = gr W' i) ->
  (forall x, ip nl x g' = ip nl x g + cg_a g d * bi x d) /\ ip nl g' d = f0 /\ ip nl g' g = f0 /\
  Forall (fun h => ip nl g' (fst h) = f0 /\ ip nl g' (snd h) = f0) hist.
Proof.
  intros I N Ew Eg. pose proof (cg_curv _ _ _ _ I N) as Cv. pose proof (fpos_nz _ Cv) as Nc.
  assert (Mv : forall x, ip nl x g' = ip nl x g + cg_a g d * bi x d).
  { intros x. rewrite <- bi_Ap, <- ip_lin. apply ip_ext; auto. intros i Ii. rewrite Eg, (i_g _ _ _ _ I) by auto.
    rewrite (gr_ext W' (fun i => W i + cg_a g d * d i)) by auto. apply gr_move. }
  assert (Gd : ip nl g' d = f0).
  { rewrite ip_comm, Mv, (i_dg _ _ _ _ I). unfold cg_a. field. auto. }
  assert (Gh : Forall (fun h => ip nl g' (fst h) = f0) hist).
  { pose proof (i_hist _ _ _ _ I) as H. rewrite Forall_forall in *. intros h Hh. destruct (H h Hh) as (_ & A & B & _).
    rewrite ip_comm, Mv, (ip_comm nl (fst h) g), A, (bi_comm (fst h) d), B. ring. }
  destruct (i_G _ _ _ _ I g' Gd Gh) as (Gg & Gs). repeat split; auto.
  rewrite Forall_forall in *. auto.
Qed.

Lemma cg_step hist W g d W' g' d' : cginv hist W g d -> ip nl g g <> f0 ->
  (forall i, i < nl -> W' i = W i + cg_a g d * d i) -> (forall i, i < nl -> g' i = gr W' i) ->
  (forall i, i < nl -> d' i = - g' i + ip nl g' g' / ip nl g g * d i) ->
  cginv ((d, g) :: hist) W' g' d'.
Proof.
  intros I N Ew Eg Ed. pose proof (cg_curv _ _ _ _ I N) as Cv. pose proof (fpos_nz _ Cv) as Nc.
  destruct (cg_orth _ _ _ _ _ _ I N Ew Eg) as (Mv & Gd & Gg & Gh).
  assert (Na : cg_a g d <> f0).
  { unfold cg_a. intros E. apply N. replace (ip nl g g) with (ip nl g g / bi d d * bi d d) by (field; auto). rewrite E. ring. }
  set (b := ip nl g' g' / ip nl g g) in *.
  assert (Dx : forall x, ip nl x d' = - ip nl x g' + b * ip nl x d).
  { intros x. rewrite (ip_ext nl x d' x (fun i => (- f1 * g' i) + b * d i)) by (auto; intros; rewrite Ed by auto; ring). rewrite ip_lin, ip_scale. ring. }
  assert (Bx : forall x, bi x d' = - bi x g' + b * bi x d).
  { intros x. rewrite (bi_ext x d' x (fun i => (b * d i) + - f1 * g' i)) by (auto; intros; rewrite Ed by auto; ring). rewrite bi_lin.
    rewrite (bi_ext x (fun i => b * d i) x (fun i => f0 + b * d i)) by (auto; intros; ring). rewrite bi_lin, (bi_0 x (fun _ => f0)) by auto. ring. }
  assert (Wx : forall x, ip nl x W' = ip nl x W + cg_a g d * ip nl x d).
  { intros x. rewrite <- ip_lin. apply ip_ext; auto. }
  assert (BWx : forall x, bi x W' = bi x W + cg_a g d * bi x d).
  { intros x. rewrite <- bi_lin. apply bi_ext; auto. }
  assert (Gs : Forall (fun h => ip nl g' (snd h) = f0) hist) by (eapply Forall_impl; [|exact Gh]; cbn; tauto).
  destruct (i_A _ _ _ _ I g' Gg Gs) as (Bh & BW).
  assert (Bgd : bi g' d = ip nl g' g' / cg_a g d).
  { pose proof (Mv g') as E. rewrite Gg in E. replace (bi g' d) with ((f0 + cg_a g d * bi g' d) / cg_a g d) by (field; auto). rewrite <- E. auto. }
  assert (Bdd : bi d' d = f0).
  { rewrite bi_comm, Bx, (bi_comm d g'), Bgd. unfold b, cg_a. field. repeat split; auto. }
  assert (GW : ip nl g' W = f0).
  { rewrite ip_comm, Mv, (ip_comm nl W g), (i_gW _ _ _ _ I), (bi_comm W d), (i_dW _ _ _ _ I). ring. }
  constructor.
  - auto.
  - constructor; [cbn [fst snd]; auto|]. pose proof (i_hist _ _ _ _ I) as H. rewrite Forall_forall in *. intros h Hh.
    destruct (H h Hh) as (_ & _ & B & Nh). destruct (Gh h Hh) as (G1 & G2). repeat split; auto.
    rewrite bi_comm, Bx, (bi_comm (fst h) g'), (Bh h Hh), (bi_comm (fst h) d), B. ring.
  - rewrite ip_comm, Dx, Gd. ring.
  - intros x X1 X2. inversion X2 as [|? ? X3 X4]; subst. cbn [snd] in X3. destruct (i_A _ _ _ _ I x X3 X4) as (Y1 & Y2).
    assert (Bxd : bi x d = f0).
    { pose proof (Mv x) as E. rewrite X1, X3 in E. replace (bi x d) with ((f0 + cg_a g d * bi x d) / cg_a g d) by (field; auto). rewrite <- E. field. auto. }
    split; [constructor; auto|]. rewrite BWx, Y2, Bxd. ring.
  - intros x X1 X2. inversion X2 as [|? ? X3 X4]; subst. cbn [fst] in X3. destruct (i_G _ _ _ _ I x X3 X4) as (Y1 & Y2).
    split; [|constructor; auto]. rewrite Dx, X3 in X1. replace (ip nl x g') with (- (- ip nl x g' + b * f0)) by ring. rewrite X1. ring.
  - constructor; [|apply (i_o _ _ _ _ I)]. cbn [snd]. pose proof (i_hist _ _ _ _ I) as H. rewrite Forall_forall in *. intros h Hh. now destruct (H h Hh).
  - rewrite Wx, GW, Gd. ring.
  - rewrite BWx, Bdd, (bi_comm d' W), Bx, (bi_comm W g'), BW, (bi_comm W d), (i_dW _ _ _ _ I). ring.
  - rewrite ip_comm, Dx. rewrite (ip_comm nl W' g'), Wx, GW, Gd, (ip_comm nl W' d), Wx.
    replace (- (f0 + cg_a g d * f0) + b * (ip nl d W + cg_a g d * ip nl d d)) with (b * (ip nl d W + cg_a g d * ip nl d d)) by ring.
    assert (P1 : fltb f0 (ip nl g g) = true) by (apply fltb_spec; split; [apply ip_nonneg|congruence]).
    apply fle_mul.
    + apply (pos_le _ _ P1). unfold b. replace (ip nl g g * (ip nl g' g' / ip nl g g)) with (ip nl g' g') by (field; auto). apply ip_nonneg.
    + apply fadd_nonneg; [apply (i_pos _ _ _ _ I)|]. apply fle_mul; [|apply ip_nonneg].
      apply (pos_le _ _ Cv). unfold cg_a. replace (bi d d * (ip nl g g / bi d d)) with (ip nl g g) by (field; auto). apply ip_nonneg.
  - intros x X. destruct (i_row _ _ _ _ I x X) as (A & B). rewrite Wx, Dx, A, B, (ip_ext nl x g' x (gr W')), ip_gr_row by auto. split; ring.
Qed.
(* in a step of part t of the whole the error falls *)
Lemma cg_fall hist W g d W' t : cginv hist W g d -> ip nl g g <> f0 -> fle f0 t = true -> fle t f1 = true ->
  (forall i, i < nl -> W' i = W i + t * (cg_a g d * d i)) -> fle (err W') (err W) = true.
Proof.
  intros I N T0 T1 Ew. pose proof (cg_curv _ _ _ _ I N) as Cv. pose proof (fpos_nz _ Cv) as Nc.
  pose proof (err_move W d (t * cg_a g d)) as M. rewrite (err_ext _ W') in M by (intros; rewrite Ew by auto; ring).
  rewrite (ip_ext nl (gr W) d g d), ip_comm, (i_dg _ _ _ _ I) in M by (auto; intros; symmetry; apply (i_g _ _ _ _ I); auto).
  apply (proj2 (fle_sub _ _)). apply (pos_le two _ two_pos). replace (two * (err W - err W')) with (two * err W - two * err W') by ring. rewrite M.
  set (G := ip nl g g) in *. set (e := err W).
  replace (two * e - (two * e + two * (t * cg_a g d) * - G + t * cg_a g d * (t * cg_a g d) * bi d d)) with (t * (f1 + (f1 - t)) * (G * cg_a g d)) by (unfold cg_a; fold G; field; auto).
  apply fle_mul; [apply fle_mul; auto; apply fadd_nonneg; [apply f0_le_f1|now apply (proj1 (fle_sub _ _))]|].
  apply fle_mul; [apply ip_nonneg|]. apply (pos_le _ _ Cv). unfold cg_a. fold G. replace (bi d d * (G / bi d d)) with G by (field; auto). apply ip_nonneg.
Qed.

(* a point without gradient made from the rows of F is the shortest of the best *)
Lemma row_short W : (forall i, i < nl -> gr W i = f0) -> (forall x, (forall j, j < dl -> lin x j = f0) -> ip nl x W = f0) ->
  forall u, err u = err W -> fle (ip nl W W) (ip nl u u) = true.
Proof.
  intros Z Rw u E. set (x := fun i => u i - W i).
  pose proof (err_move W x f1) as M. rewrite (err_ext _ u) in M by (intros; unfold x; ring).
  assert (I0 : ip nl (gr W) x = f0) by (rewrite ip_comm; apply ip_z; auto). rewrite I0, E in M.
  assert (B0 : bi x x = f0).
  { set (e := two * err W) in *. replace (bi x x) with (e + two * f1 * f0 + f1 * f1 * bi x x - e) by ring. rewrite <- M. ring. }
  assert (X : forall j, j < dl -> lin x j = f0).
  { intros j J. assert (T : two * (lin x j * lin x j / m j) = f0).
    { apply (sumr_nonneg_0 0 dl (fun j => two * (lin x j * lin x j / m j))); auto; [|lia]. intros t T. apply fle_mul; [apply fadd_nonneg; apply f0_le_f1|].
      apply (pos_le (m t)); [apply mpos; lia|]. replace (m t * (lin x t * lin x t / m t)) with (lin x t * lin x t) by (field; apply m_nz; lia). apply fsqr_nonneg. }
    apply fmul_0 in T as [T|T]; [now apply two_nz in T|]. apply fsqr_0.
    replace (lin x j * lin x j) with (m j * (lin x j * lin x j / m j)) by (field; apply m_nz; lia). rewrite T. ring. }
  pose proof (Rw x X) as O.
  assert (Q : ip nl u u = ip nl W W + ip nl x x).
  { replace (ip nl W W + ip nl x x) with (ip nl W W + ip nl x x + two * ip nl x W) by (rewrite O; ring).
    unfold ip. rewrite <- sumr_scale, <- !sumr_add. apply sumr_ext. intros. unfold x. ring. }
  rewrite Q. apply (proj2 (fle_sub _ _)). replace (ip nl W W + ip nl x x - ip nl W W) with (ip nl x x) by ring. apply ip_nonneg.
Qed.
(* from every state the best point can be reached, and it is no nearer than the next point *)
Lemma cg_reach (sq : K -> K) : is_sqrt sq -> forall n hist W g d, (n + length hist)%nat = nl -> cginv hist W g d -> ip nl g g <> f0 ->
  exists B, (forall i, i < nl -> gr B i = f0) /\ (forall x, (forall j, j < dl -> lin x j = f0) -> ip nl x B = f0) /\
    fle (ip nl (fun i => W i + cg_a g d * d i) (fun i => W i + cg_a g d * d i)) (ip nl B B) = true.
Proof.
  intros Sq n. induction n as [|n IH]; intros hist W g d L I N.
  - exfalso. apply N. apply ip_z. intros i Ii. apply (orth_full sq nl (map snd hist) g Sq); auto.
    + rewrite map_length. lia.
    + pose proof (i_o _ _ _ _ I) as O. clear - O. induction O as [|h l A O IH]; cbn; constructor; auto. clear - A. induction A; cbn; constructor; auto.
    + pose proof (i_hist _ _ _ _ I) as O. clear - O. induction O as [|h l A O IH]; cbn; constructor; auto. tauto.
  - set (W' := fun i => W i + cg_a g d * d i).
    destruct (f_eq_dec (ip nl (gr W') (gr W')) f0) as [Z|Z].
    + exists W'. split; [now apply ip_0|]. split; [|apply fle_refl]. intros x X. destruct (i_row _ _ _ _ I x X) as (A & B).
      unfold W'. rewrite ip_lin, A, B. ring.
    + pose proof (cg_step hist W g d W' (gr W') (fun i => - gr W' i + ip nl (gr W') (gr W') / ip nl g g * d i) I N) as I'.
      specialize (I' ltac:(auto) ltac:(auto) ltac:(auto)). set (d' := fun i => - gr W' i + ip nl (gr W') (gr W') / ip nl g g * d i) in *.
      destruct (IH ((d, g) :: hist) W' (gr W') d' ltac:(cbn [length]; lia) I' Z) as (B & B1 & B2 & B3). exists B. split; auto. split; auto. eapply fle_trans; [|exact B3].
      pose proof (cg_curv _ _ _ _ I' Z) as Cv. pose proof (fpos_nz _ Cv) as Nc.
      assert (Pa : fle f0 (cg_a (gr W') d') = true).
      { apply (pos_le _ _ Cv). unfold cg_a. replace (bi d' d' * (ip nl (gr W') (gr W') / bi d' d')) with (ip nl (gr W') (gr W')) by (field; auto). apply ip_nonneg. }
      set (a := cg_a (gr W') d') in *. apply (proj2 (fle_sub _ _)).
      assert (E : ip nl (fun i => W' i + a * d' i) (fun i => W' i + a * d' i) - ip nl W' W' = two * (a * ip nl d' W') + a * a * ip nl d' d').
      { unfold ip. rewrite <- !sumr_scale, <- sumr_sub, <- sumr_add. apply sumr_ext. intros. ring. }
      rewrite E. apply fadd_nonneg.
      * apply fle_mul; [apply fadd_nonneg; apply f0_le_f1|]. apply fle_mul; auto. apply (i_pos _ _ _ _ I').
      * apply fle_mul; [apply fsqr_nonneg|apply ip_nonneg].
Qed.
End Cg.
