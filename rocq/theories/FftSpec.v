(* Complex numbers over a field, sums, the discrete Fourier transform, and the recursive
   transforms on functions that the loops of include/fft.h carry out. *)
From Coq Require Import List Lia Bool Arith Ring Field.
From Verif Require Import Base LinBase FftModel.
Import ListNotations.

(* induction two steps at a time *)
Lemma ind2 (P : nat -> Prop) : P 0 -> P 1 -> (forall k, P (S k) -> P k -> P (S (S k))) -> forall k, P k.
Proof.
  intros H0 H1 H k. assert (G : P k /\ P (S k)). { induction k; [auto|]. destruct IHk. auto. } tauto.
Qed.

Section Spec.
Context {K : ofield}.
Add Field Kf28 : (f_th K).
Local Open Scope lin_scope.
Definition C : Type := (K * K)%type.
Definition c0 : C := (f0, f0).
Definition c1 : C := (f1, f0).
Definition ci : C := (f0, f1).
Definition cadd (x y : C) : C := (fst x + fst y, snd x + snd y).
Definition csub (x y : C) : C := (fst x - fst y, snd x - snd y).
Definition copp (x : C) : C := (- fst x, - snd x).
Definition cmul (x y : C) : C := (fst x * fst y - snd x * snd y, fst x * snd y + snd x * fst y).
Definition conj (x : C) : C := (fst x, - snd x).
Lemma ceq (x y : C) : fst x = fst y -> snd x = snd y -> x = y.
Proof. destruct x, y. cbn. congruence. Qed.
Lemma c_rt : ring_theory c0 c1 cadd cmul csub copp (@eq C).
Proof. constructor; intros; apply ceq; cbn; ring. Qed.
Add Ring Cr : c_rt.
Declare Scope c_scope.
Delimit Scope c_scope with C.
Infix "+" := cadd : c_scope.
Infix "-" := csub : c_scope.
Infix "*" := cmul : c_scope.
Notation "- x" := (copp x) : c_scope.
Local Open Scope c_scope.
Local Close Scope lin_scope.
Local Close Scope lin_scope.

Fixpoint cpow (z : C) (n : nat) : C := match n with O => c1 | S n => z * cpow z n end.
Fixpoint csum (n : nat) (f : nat -> C) : C := match n with O => c0 | S n => csum n f + f n end.
Fixpoint cn (n : nat) : C := match n with O => c0 | S n => cn n + c1 end.

Lemma cpow_add z a b : cpow z (a + b) = cpow z a * cpow z b.
Proof. induction a; cbn [cpow Nat.add]; [ring|rewrite IHa; ring]. Qed.
Lemma cpow_mul z a b : cpow z (a * b) = cpow (cpow z a) b.
Proof. induction b. { now rewrite Nat.mul_0_r. } rewrite Nat.mul_succ_r, Nat.add_comm, cpow_add, IHb. reflexivity. Qed.
Lemma cpow_base x y n : cpow (x * y) n = cpow x n * cpow y n.
Proof. induction n; cbn [csum cpow cn]; [ring|rewrite IHn; ring]. Qed.
Lemma cpow_c1 n : cpow c1 n = c1.
Proof. induction n; cbn [csum cpow cn]; auto. rewrite IHn. ring. Qed.
Lemma cpow_1 z : cpow z 1 = z.
Proof. cbn. ring. Qed.
Lemma conj_mul x y : conj (x * y) = conj x * conj y.
Proof. apply ceq; cbn; ring. Qed.
Lemma conj_conj x : conj (conj x) = x.
Proof. apply ceq; cbn; ring. Qed.
Lemma conj_pow x n : conj (cpow x n) = cpow (conj x) n.
Proof. induction n; cbn [cpow]. { apply ceq; cbn; ring. } now rewrite conj_mul, IHn. Qed.
Lemma ci_sq : ci * ci = - c1.
Proof. apply ceq; cbn; ring. Qed.
Lemma cn_add a b : cn (a + b) = cn a + cn b.
Proof. induction a; cbn [cn Nat.add]; [ring|rewrite IHa; ring]. Qed.

Lemma csum_ext n f g : (forall i, i < n -> f i = g i) -> csum n f = csum n g.
Proof. intros H. induction n; cbn [csum cpow cn]; auto. rewrite IHn by (intros; apply H; lia). now rewrite H by lia. Qed.
Lemma csum_add n f g : csum n (fun i => f i + g i) = csum n f + csum n g.
Proof. induction n; cbn [csum cpow cn]; [ring|rewrite IHn; ring]. Qed.
Lemma csum_mull n c f : csum n (fun i => c * f i) = c * csum n f.
Proof. induction n; cbn [csum cpow cn]; [ring|rewrite IHn; ring]. Qed.
Lemma csum_mulr n c f : csum n (fun i => f i * c) = csum n f * c.
Proof. induction n; cbn [csum cpow cn]; [ring|rewrite IHn; ring]. Qed.
Lemma csum_0 n : csum n (fun _ => c0) = c0.
Proof. induction n; cbn [csum cpow cn]; auto. rewrite IHn. ring. Qed.
Lemma csum_split n m f : csum (n + m) f = csum n f + csum m (fun i => f (n + i)%nat).
Proof.
  induction m. { rewrite Nat.add_0_r. cbn [csum]. ring. } rewrite Nat.add_succ_r. cbn [csum]. rewrite IHm. ring.
Qed.
Lemma csum_swap n m (f : nat -> nat -> C) :
  csum n (fun i => csum m (fun j => f i j)) = csum m (fun j => csum n (fun i => f i j)).
Proof.
  induction n; cbn [csum]. { symmetry. apply csum_0. } rewrite IHn, csum_add. reflexivity.
Qed.
Lemma csum_S n f : csum (S n) f = csum n f + f n.
Proof. reflexivity. Qed.

(* the discrete Fourier transform of size n, with the root of unity w, at frequency f *)
Definition dft (n : nat) (w : C) (a : nat -> C) (f : nat) : C := csum n (fun l => a l * cpow w (l * f)).
(* cyclic convolution *)
Definition conv (n : nat) (a b : nat -> C) (l : nat) : C :=
  csum n (fun i => a i * b ((l + (n - i)) mod n)).

Lemma dft_ext n w a b f : (forall i, i < n -> a i = b i) -> dft n w a f = dft n w b f.
Proof. intros H. apply csum_ext. intros i Li. now rewrite H. Qed.
Lemma dft_freq n w a f : cpow w n = c1 -> dft n w a (f mod n) = dft n w a f.
Proof.
  intros W. apply csum_ext. intros i Li. f_equal.
  destruct (Nat.eq_dec n 0) as [->|N]; [lia|].
  rewrite (Nat.div_mod f n N) at 2. rewrite Nat.mul_add_distr_l, cpow_add.
  replace (i * (n * (f / n)))%nat with (n * (i * (f / n)))%nat by lia.
  rewrite (cpow_mul w n), W, cpow_c1. ring.
Qed.
Lemma csum_shift n i g : i <= n -> csum n (fun l => g ((l + (n - i)) mod n)) = csum n g.
Proof.
  intros L. replace n with (i + (n - i))%nat at 1 by lia. rewrite csum_split.
  replace (csum n g) with (csum (n - i + i) g) by (f_equal; lia). rewrite csum_split.
  rewrite (csum_ext i _ (fun l => g (n - i + l)%nat)).
  2:{ intros l Ll. f_equal. rewrite Nat.mod_small; lia. }
  rewrite (csum_ext (n - i) _ g).
  2:{ intros l Ll. f_equal. replace (i + l + (n - i))%nat with (l + 1 * n)%nat by lia.
      rewrite Nat.mod_add by lia. apply Nat.mod_small. lia. }
  ring.
Qed.
Lemma dft_conv n w a b f : cpow w n = c1 -> dft n w (conv n a b) f = dft n w a f * dft n w b f.
Proof.
  intros W. unfold dft at 1, conv.
  rewrite (csum_ext n _ (fun l => csum n (fun i => a i * (b ((l + (n - i)) mod n) * cpow w (l * f))))).
  2:{ intros l Ll. rewrite <- csum_mulr. apply csum_ext. intros i Li. ring. }
  rewrite csum_swap. unfold dft at 1. rewrite <- csum_mulr. apply csum_ext. intros i Li.
  rewrite csum_mull. rewrite (csum_ext n _ (fun l => cpow w (i * f) * (b ((l + (n - i)) mod n) * cpow w (((l + (n - i)) mod n) * f)))).
  - rewrite csum_mull, (csum_shift n i (fun j => b j * cpow w (j * f))) by lia. unfold dft. ring.
  - intros l Ll. assert (E : cpow w (l * f) = cpow w (i * f) * cpow w (((l + (n - i)) mod n) * f)).
    { rewrite <- cpow_add, <- Nat.mul_add_distr_r. destruct (le_lt_dec i l).
      - f_equal. f_equal. replace (l + (n - i))%nat with (l - i + 1 * n)%nat by lia. rewrite Nat.mod_add by lia.
        rewrite Nat.mod_small by lia. lia.
      - rewrite Nat.mod_small by lia. replace (i + (l + (n - i)))%nat with (l + n)%nat by lia.
        rewrite Nat.mul_add_distr_r, cpow_add, (cpow_mul w n f), W, cpow_c1. ring. }
    rewrite E. ring.
Qed.

Lemma dft_even M w a f : cpow w (2 * M) = c1 ->
  dft (2 * M) w a (2 * f) = dft M (w * w) (fun l => a l + a (M + l)%nat) f.
Proof.
  intros W. unfold dft. replace (2 * M)%nat with (M + M)%nat by lia. rewrite csum_split, <- csum_add.
  apply csum_ext. intros l Ll.
  replace ((M + l) * (2 * f))%nat with (2 * M * f + 2 * (l * f))%nat by lia.
  replace (l * (2 * f))%nat with (2 * (l * f))%nat by lia.
  rewrite cpow_add, (cpow_mul w (2 * M)), W, cpow_c1, (cpow_mul w 2). cbn [cpow].
  replace (w * (w * c1)) with (w * w) by ring. ring.
Qed.
Definition w4 (w : C) : C := w * w * (w * w).
Lemma cpow_4 w n : cpow w (4 * n) = cpow (w4 w) n.
Proof. rewrite cpow_mul. f_equal. unfold w4. cbn. ring. Qed.
Lemma quarters Q f : csum (4 * Q) f = csum Q (fun l => f l + f (Q + l)%nat + f (2 * Q + l)%nat + f (3 * Q + l)%nat).
Proof.
  replace (4 * Q)%nat with (Q + (Q + (Q + Q)))%nat by lia. rewrite !csum_split, !csum_add.
  rewrite (csum_ext Q (fun i => f (Q + (Q + i))%nat) (fun i => f (2 * Q + i)%nat)) by (intros; f_equal; lia).
  rewrite (csum_ext Q (fun i => f (Q + (Q + (Q + i)))%nat) (fun i => f (3 * Q + i)%nat)) by (intros; f_equal; lia).
  ring.
Qed.
Definition z2 (Q : nat) (a : nat -> C) (j : nat) : C := a j - a (2 * Q + j)%nat + ci * (a (Q + j)%nat - a (3 * Q + j)%nat).
Definition z3 (Q : nat) (a : nat -> C) (j : nat) : C := a j - a (2 * Q + j)%nat - ci * (a (Q + j)%nat - a (3 * Q + j)%nat).
Lemma ci_3 : ci * ci * ci = - ci.
Proof. apply ceq; cbn; ring. Qed.
Lemma ci_4 : ci * (ci * ci) * ci = c1.
Proof. apply ceq; cbn; ring. Qed.
Lemma dft_odd Q w a f : cpow w Q = ci ->
  dft (4 * Q) w a (4 * f + 1) = dft Q (w4 w) (fun l => z2 Q a l * cpow w l) f.
Proof.
  intros W. unfold dft. rewrite quarters. apply csum_ext. intros l Ll. unfold z2.
  assert (E : forall c, cpow w ((c * Q + l) * (4 * f + 1)) = cpow ci c * (cpow w l * cpow (w4 w) (l * f))).
  { intros c. replace ((c * Q + l) * (4 * f + 1))%nat with (Q * (4 * (c * f) + c) + (l + 4 * (l * f)))%nat by lia.
    rewrite !cpow_add, (cpow_mul w Q), W, !cpow_add, !cpow_4. f_equal.
    assert (X : w4 ci = c1) by (unfold w4; rewrite !ci_sq; ring). rewrite X, cpow_c1. ring. }
  rewrite (E 2), (E 3). replace (Q + l)%nat with (1 * Q + l)%nat by lia. rewrite (E 1).
  replace (l * (4 * f + 1))%nat with ((0 * Q + l) * (4 * f + 1))%nat by lia. rewrite (E 0).
  cbn [cpow]. replace (ci * (ci * (ci * c1))) with (- ci) by (rewrite <- ci_3; ring).
  replace (ci * (ci * c1)) with (- c1) by (rewrite <- ci_sq; ring). ring.
Qed.
Lemma dft_odd' Q w a f : cpow w Q = ci -> w * conj w = c1 ->
  dft (4 * Q) w a (4 * f + (4 * Q - 1)) = dft Q (w4 w) (fun l => z3 Q a l * conj (cpow w l)) f.
Proof.
  intros W U. unfold dft. rewrite quarters. apply csum_ext. intros l Ll. unfold z3.
  assert (X : w4 ci = c1) by (unfold w4; rewrite !ci_sq; ring).
  assert (N : cpow w (4 * Q) = c1). { rewrite Nat.mul_comm, (cpow_mul w Q 4), W. transitivity (ci * (ci * ci) * ci); [cbn [cpow]; ring|apply ci_4]. }
  assert (V : forall n, n <= 4 * (n * Q) -> cpow w (4 * (n * Q) - n) = conj (cpow w n)).
  { intros n Ln.
    assert (S0 : cpow w (4 * (n * Q) - n) * cpow w n = c1).
    { rewrite <- cpow_add. replace (4 * (n * Q) - n + n)%nat with (4 * Q * n)%nat by lia. now rewrite cpow_mul, N, cpow_c1. }
    assert (S1 : cpow w n * conj (cpow w n) = c1). { rewrite conj_pow, <- cpow_base, U. apply cpow_c1. }
    transitivity (cpow w (4 * (n * Q) - n) * (cpow w n * conj (cpow w n))). { rewrite S1. ring. }
    transitivity (cpow w (4 * (n * Q) - n) * cpow w n * conj (cpow w n)). { ring. } rewrite S0. ring. }
  assert (Ci : cpow w (4 * Q * Q - Q) = - ci).
  { replace (4 * Q * Q - Q)%nat with (4 * (Q * Q) - Q)%nat by lia. rewrite V by nia. rewrite W. apply ceq; cbn; ring. }
  assert (E : forall c, cpow w ((c * Q + l) * (4 * f + (4 * Q - 1))) = cpow (- ci) c * (conj (cpow w l) * cpow (w4 w) (l * f))).
  { intros c. replace ((c * Q + l) * (4 * f + (4 * Q - 1)))%nat
      with ((4 * Q * Q - Q) * c + Q * (4 * (c * f)) + ((4 * (l * Q) - l) + 4 * (l * f)))%nat by nia.
    rewrite !cpow_add, (cpow_mul w (4 * Q * Q - Q)), Ci, (cpow_mul w Q), W, !cpow_4, X, cpow_c1, V by nia. ring. }
  rewrite (E 2), (E 3). replace (Q + l)%nat with (1 * Q + l)%nat by lia. rewrite (E 1).
  replace (l * (4 * f + (4 * Q - 1)))%nat with ((0 * Q + l) * (4 * f + (4 * Q - 1)))%nat by lia. rewrite (E 0).
  cbn [cpow].
  replace (- ci * (- ci * (- ci * c1))) with ci by (transitivity (- (ci * ci * ci)); [rewrite ci_3; ring|ring]).
  replace (- ci * (- ci * c1)) with (- c1) by (rewrite <- ci_sq; ring). ring.
Qed.

(* ---------- the transforms as functions ---------- *)

Variable tw : nat -> nat -> C.    (* the factor of butterfly j in a transform of size 2^k *)

Fixpoint Fc (k : nat) (a : nat -> C) (p : nat) : C :=
  match k with
  | 0 => a p
  | S k1 =>
    match k1 with
    | 0 => if p =? 0 then a 0 + a 1 else a 0 - a 1
    | S k2 =>
      let Q := 2 ^ k2 in
      if p <? 2 * Q then Fc k1 (fun j => a j + a (2 * Q + j)%nat) p
      else if p <? 3 * Q then Fc k2 (fun j => z2 Q a j * tw k j) (p - 2 * Q)
      else Fc k2 (fun j => z3 Q a j * conj (tw k j)) (p - 3 * Q)
    end
  end.
Fixpoint Fu (k : nat) (a : nat -> C) (p : nat) : C :=
  match k with
  | 0 => a p
  | S k1 =>
    match k1 with
    | 0 => if p =? 0 then a 0 + a 1 else a 0 - a 1
    | S k2 =>
      let Q := 2 ^ k2 in
      let b := Fu k1 a in
      let x j := Fu k2 (fun i => a (2 * Q + i)%nat) j * conj (tw k j) in
      let y j := Fu k2 (fun i => a (3 * Q + i)%nat) j * tw k j in
      if p <? Q then b p + (x p + y p)
      else if p <? 2 * Q then b p - ci * (x (p - Q)%nat - y (p - Q)%nat)
      else if p <? 3 * Q then b (p - 2 * Q)%nat - (x (p - 2 * Q)%nat + y (p - 2 * Q)%nat)
      else b (p - 2 * Q)%nat + ci * (x (p - 3 * Q)%nat - y (p - 3 * Q)%nat)
    end
  end.

Lemma pow2S k : (2 ^ S k = 2 * 2 ^ k)%nat.
Proof. reflexivity. Qed.
Lemma pow2pos k : 1 <= 2 ^ k.
Proof. pose proof (Nat.pow_nonzero 2 k). lia. Qed.
Lemma Fc_SS k a p : Fc (S (S k)) a p =
  if p <? 2 * 2 ^ k then Fc (S k) (fun j => a j + a (2 * 2 ^ k + j)%nat) p
  else if p <? 3 * 2 ^ k then Fc k (fun j => z2 (2 ^ k) a j * tw (S (S k)) j) (p - 2 * 2 ^ k)
  else Fc k (fun j => z3 (2 ^ k) a j * conj (tw (S (S k)) j)) (p - 3 * 2 ^ k).
Proof. reflexivity. Qed.
Definition ux k a j := Fu k (fun i => a (2 * 2 ^ k + i)%nat) j * conj (tw (S (S k)) j).
Definition uy k a j := Fu k (fun i => a (3 * 2 ^ k + i)%nat) j * tw (S (S k)) j.
Lemma Fu_SS k a p : Fu (S (S k)) a p =
  if p <? 2 ^ k then Fu (S k) a p + (ux k a p + uy k a p)
  else if p <? 2 * 2 ^ k then Fu (S k) a p - ci * (ux k a (p - 2 ^ k) - uy k a (p - 2 ^ k))
  else if p <? 3 * 2 ^ k then Fu (S k) a (p - 2 * 2 ^ k) - (ux k a (p - 2 * 2 ^ k) + uy k a (p - 2 * 2 ^ k))
  else Fu (S k) a (p - 2 * 2 ^ k) + ci * (ux k a (p - 3 * 2 ^ k) - uy k a (p - 3 * 2 ^ k)).
Proof. reflexivity. Qed.

Lemma Fc_ext k : forall a b p, (forall i, i < 2 ^ k -> a i = b i) -> p < 2 ^ k -> Fc k a p = Fc k b p.
Proof.
  induction k using ind2; intros a b p H Lp.
  - cbn in *. apply H. lia.
  - cbn in *. rewrite !H by lia. reflexivity.
  - rewrite !Fc_SS. rewrite ?pow2S in *. bcases.
    + apply IHk; [|lia]. intros i Li. rewrite ?pow2S in Li. now rewrite !H by lia.
    + apply IHk0; [|lia]. intros i Li. unfold z2. now rewrite !H by lia.
    + apply IHk0; [|lia]. intros i Li. unfold z3. now rewrite !H by lia.
Qed.
Lemma Fu_ext k : forall a b p, (forall i, i < 2 ^ k -> a i = b i) -> p < 2 ^ k -> Fu k a p = Fu k b p.
Proof.
  induction k using ind2; intros a b p H Lp.
  - cbn in *. apply H. lia.
  - cbn in *. rewrite !H by lia. reflexivity.
  - rewrite !Fu_SS. rewrite ?pow2S in *.
    assert (X : forall j, j < 2 ^ k -> ux k a j = ux k b j).
    { intros j Lj. unfold ux. f_equal. apply IHk0; auto. intros i Li. apply H. lia. }
    assert (Y : forall j, j < 2 ^ k -> uy k a j = uy k b j).
    { intros j Lj. unfold uy. f_equal. apply IHk0; auto. intros i Li. apply H. lia. }
    assert (B : forall j, j < 2 * 2 ^ k -> Fu (S k) a j = Fu (S k) b j).
    { intros j Lj. apply IHk; auto. rewrite ?pow2S. intros i Li. apply H. lia. }
    bcases; rewrite ?X, ?Y, ?B by lia; reflexivity.
Qed.
Lemma Fu_scale k : forall c a p, Fu k (fun i => c * a i) p = c * Fu k a p.
Proof.
  induction k using ind2; intros c a p.
  - reflexivity.
  - cbn. destruct (p =? 0); ring.
  - rewrite !Fu_SS.
    assert (X : forall j, ux k (fun i => c * a i) j = c * ux k a j).
    { intros j. unfold ux. rewrite (IHk0 c (fun i => a (2 * 2 ^ k + i)%nat)). ring. }
    assert (Y : forall j, uy k (fun i => c * a i) j = c * uy k a j).
    { intros j. unfold uy. rewrite (IHk0 c (fun i => a (3 * 2 ^ k + i)%nat)). ring. }
    rewrite !X, !Y, !IHk. destruct (p <? 2 ^ k), (p <? 2 * 2 ^ k), (p <? 3 * 2 ^ k); ring.
Qed.
Lemma Fc_scale k : forall c a p, p < 2 ^ k -> Fc k (fun i => c * a i) p = c * Fc k a p.
Proof.
  induction k using ind2; intros c a p Lp.
  - reflexivity.
  - cbn [Fc]. destruct (p =? 0); ring.
  - rewrite !Fc_SS. rewrite ?pow2S in *. bcases.
    + rewrite <- IHk by (rewrite ?pow2S; lia). apply Fc_ext; [|rewrite ?pow2S; lia]. intros i Li. ring.
    + rewrite <- IHk0 by lia. apply Fc_ext; [|lia]. intros i Li. unfold z2. ring.
    + rewrite <- IHk0 by lia. apply Fc_ext; [|lia]. intros i Li. unfold z3. ring.
Qed.

(* ---------- the inverse ---------- *)

Definition unit_tw : Prop := forall k j, tw k j * conj (tw k j) = c1.
Definition two : C := c1 + c1.
Lemma cn2 n : cn (2 * n) = two * cn n.
Proof. replace (2 * n)%nat with (n + n)%nat by lia. rewrite cn_add. unfold two. ring. Qed.

Theorem un_fft k : unit_tw -> forall a p, p < 2 ^ k -> Fu k (Fc k a) p = cn (2 ^ k) * a p.
Proof.
  intros U. induction k using ind2; intros a p Lp.
  - cbn [Fu Fc Nat.pow cn]. ring.
  - cbn [Fu Fc Nat.pow cn Nat.mul Nat.add Nat.eqb]. cbn in Lp.
    destruct (Nat.eqb_spec p 0) as [->|]; [ring|]. replace p with 1 by lia. ring.
  - set (A := Fc (S (S k)) a). rewrite pow2S in Lp. rewrite pow2S in Lp. pose proof (pow2pos k) as P.
    assert (B : forall j, j < 2 * 2 ^ k -> Fu (S k) A j = cn (2 * 2 ^ k) * (a j + a (2 * 2 ^ k + j)%nat)).
    { intros j Lj. rewrite (Fu_ext (S k) A (Fc (S k) (fun j => a j + a (2 * 2 ^ k + j)%nat))).
      - rewrite IHk by (rewrite ?pow2S; lia). reflexivity.
      - rewrite ?pow2S. intros i Li. unfold A. rewrite Fc_SS. bcases. reflexivity.
      - rewrite ?pow2S. auto. }
    assert (X : forall j, j < 2 ^ k -> ux k A j = cn (2 ^ k) * z2 (2 ^ k) a j).
    { intros j Lj. unfold ux. rewrite (Fu_ext k _ (Fc k (fun j => z2 (2 ^ k) a j * tw (S (S k)) j))); auto.
      - rewrite IHk0 by auto. transitivity (cn (2 ^ k) * z2 (2 ^ k) a j * (tw (S (S k)) j * conj (tw (S (S k)) j))).
        { ring. } rewrite U. ring.
      - intros i Li. unfold A. rewrite Fc_SS. bcases. f_equal. lia. }
    assert (Y : forall j, j < 2 ^ k -> uy k A j = cn (2 ^ k) * z3 (2 ^ k) a j).
    { intros j Lj. unfold uy. rewrite (Fu_ext k _ (Fc k (fun j => z3 (2 ^ k) a j * conj (tw (S (S k)) j)))); auto.
      - rewrite IHk0 by auto. transitivity (cn (2 ^ k) * z3 (2 ^ k) a j * (tw (S (S k)) j * conj (tw (S (S k)) j))).
        { ring. } rewrite U. ring.
      - intros i Li. unfold A. rewrite Fc_SS. bcases. f_equal. lia. }
    rewrite Fu_SS. rewrite !pow2S, !cn2.
    bcases; rewrite ?B, ?X, ?Y by lia; rewrite ?cn2; unfold z2, z3, two.
    + ring.
    + replace (2 ^ k + (p - 2 ^ k))%nat with p by lia. replace (3 * 2 ^ k + (p - 2 ^ k))%nat with (2 * 2 ^ k + p)%nat by lia.
      generalize (cn (2 ^ k)); intros c. apply ceq; cbn; ring.
    + replace (2 * 2 ^ k + (p - 2 * 2 ^ k))%nat with p by lia. ring.
    + replace (3 * 2 ^ k + (p - 3 * 2 ^ k))%nat with p by lia. replace (2 ^ k + (p - 3 * 2 ^ k))%nat with (p - 2 * 2 ^ k)%nat by lia.
      replace (2 * 2 ^ k + (p - 2 * 2 ^ k))%nat with p by lia.
      generalize (cn (2 ^ k)); intros c. apply ceq; cbn; ring.
Qed.

Theorem fft_un k : unit_tw -> forall a p, p < 2 ^ k -> Fc k (Fu k a) p = cn (2 ^ k) * a p.
Proof.
  intros U. induction k using ind2; intros a p Lp.
  - cbn [Fu Fc Nat.pow cn]. ring.
  - cbn [Fu Fc Nat.pow cn Nat.mul Nat.add Nat.eqb]. cbn in Lp.
    destruct (Nat.eqb_spec p 0) as [->|]; [ring|]. replace p with 1 by lia. ring.
  - set (B := Fu (S (S k)) a). rewrite pow2S in Lp. rewrite pow2S in Lp. pose proof (pow2pos k) as P.
    rewrite Fc_SS. rewrite !pow2S, !cn2.
    assert (Z2 : forall j, j < 2 ^ k -> z2 (2 ^ k) B j = two * two * ux k a j).
    { intros j Lj. unfold z2, B. rewrite !Fu_SS. bcases.
      replace (2 ^ k + j - 2 ^ k)%nat with j by lia. replace (3 * 2 ^ k + j - 3 * 2 ^ k)%nat with j by lia.
      replace (2 * 2 ^ k + j - 2 * 2 ^ k)%nat with j by lia. replace (3 * 2 ^ k + j - 2 * 2 ^ k)%nat with (2 ^ k + j)%nat by lia.
      generalize (Fu (S k) a j), (Fu (S k) a (2 ^ k + j)), (ux k a j), (uy k a j). intros. apply ceq; cbn; ring. }
    assert (Z3 : forall j, j < 2 ^ k -> z3 (2 ^ k) B j = two * two * uy k a j).
    { intros j Lj. unfold z3, B. rewrite !Fu_SS. bcases.
      replace (2 ^ k + j - 2 ^ k)%nat with j by lia. replace (3 * 2 ^ k + j - 3 * 2 ^ k)%nat with j by lia.
      replace (2 * 2 ^ k + j - 2 * 2 ^ k)%nat with j by lia. replace (3 * 2 ^ k + j - 2 * 2 ^ k)%nat with (2 ^ k + j)%nat by lia.
      generalize (Fu (S k) a j), (Fu (S k) a (2 ^ k + j)), (ux k a j), (uy k a j). intros. apply ceq; cbn; ring. }
    bcases.
    + rewrite (Fc_ext (S k) _ (fun j => two * Fu (S k) a j)).
      * rewrite Fc_scale, IHk by (rewrite ?pow2S; lia). rewrite pow2S, cn2. ring.
      * rewrite ?pow2S. intros j Lj. unfold B. rewrite !Fu_SS. bcases.
        -- replace (2 * 2 ^ k + j - 2 * 2 ^ k)%nat with j by lia. unfold two. ring.
        -- replace (2 * 2 ^ k + j - 2 * 2 ^ k)%nat with j by lia.
           replace (2 * 2 ^ k + j - 3 * 2 ^ k)%nat with (j - 2 ^ k)%nat by lia. unfold two. ring.
      * rewrite ?pow2S. lia.
    + rewrite (Fc_ext k _ (fun j => two * two * Fu k (fun i => a (2 * 2 ^ k + i)%nat) j)); [|intros j Lj|lia].
      * rewrite Fc_scale, IHk0 by lia. replace (2 * 2 ^ k + (p - 2 * 2 ^ k))%nat with p by lia. ring.
      * rewrite Z2 by auto. unfold ux. set (x := Fu k _ j).
        transitivity (two * two * x * (tw (S (S k)) j * conj (tw (S (S k)) j))). { ring. } rewrite U. ring.
    + rewrite (Fc_ext k _ (fun j => two * two * Fu k (fun i => a (3 * 2 ^ k + i)%nat) j)); [|intros j Lj|lia].
      * rewrite Fc_scale, IHk0 by lia. replace (3 * 2 ^ k + (p - 3 * 2 ^ k))%nat with p by lia. ring.
      * rewrite Z3 by auto. unfold uy. set (x := Fu k _ j).
        transitivity (two * two * x * (tw (S (S k)) j * conj (tw (S (S k)) j))). { ring. } rewrite U. ring.
Qed.

(* ---------- what the transform is ---------- *)

(* om k is a root of unity of order 2^k and the factors are its powers *)
Definition roots (om : nat -> C) : Prop :=
  om 1 = - c1 /\ om 2 = ci /\ (forall k, om (S k) * om (S k) = om k) /\
  (forall k, om k * conj (om k) = c1) /\
  (forall k j, j < 2 ^ k -> tw (S (S k)) j = cpow (om (S (S k))) j).
(* the frequency found at place p *)
Fixpoint freq (k p : nat) : nat :=
  match k with
  | 0 => 0
  | S k1 =>
    match k1 with
    | 0 => p
    | S k2 =>
      let Q := (2 ^ k2)%nat in
      if p <? 2 * Q then (2 * freq k1 p)%nat
      else if p <? 3 * Q then (4 * freq k2 (p - 2 * Q) + 1)%nat
      else ((4 * freq k2 (p - 3 * Q) + (4 * Q - 1)) mod (4 * Q))%nat
    end
  end.
Lemma freq_SS k p : freq (S (S k)) p =
  (if p <? 2 * 2 ^ k then 2 * freq (S k) p
   else if p <? 3 * 2 ^ k then 4 * freq k (p - 2 * 2 ^ k) + 1
   else (4 * freq k (p - 3 * 2 ^ k) + (4 * 2 ^ k - 1)) mod (4 * 2 ^ k))%nat.
Proof. reflexivity. Qed.
Lemma freq_lt k : forall p, p < 2 ^ k -> freq k p < 2 ^ k.
Proof.
  induction k using ind2; intros p Lp.
  - cbn. lia.
  - cbn in *. lia.
  - rewrite freq_SS. rewrite ?pow2S in *. pose proof (pow2pos k). bcases.
    + specialize (IHk p ltac:(lia)). lia.
    + specialize (IHk0 (p - 2 * 2 ^ k)%nat ltac:(lia)). lia.
    + pose proof (Nat.mod_upper_bound (4 * freq k (p - 3 * 2 ^ k) + (4 * 2 ^ k - 1)) (4 * 2 ^ k) ltac:(lia)). lia.
Qed.
(* f - 1 for f > 0, and the last frequency for f = 0 *)
Lemma freq_pred Q f : 1 <= Q -> f < Q ->
  ((4 * f + (4 * Q - 1)) mod (4 * Q) = if f =? 0 then 4 * Q - 1 else 4 * f - 1)%nat.
Proof.
  intros P L. bcases.
  - subst. rewrite Nat.mod_small; lia.
  - replace (4 * f + (4 * Q - 1))%nat with (4 * f - 1 + 1 * (4 * Q))%nat by lia.
    rewrite Nat.mod_add by lia. apply Nat.mod_small. lia.
Qed.
Lemma freq_inj k : forall p q, p < 2 ^ k -> q < 2 ^ k -> freq k p = freq k q -> p = q.
Proof.
  induction k using ind2; intros p q Lp Lq.
  - cbn in *. lia.
  - cbn in *. lia.
  - rewrite !freq_SS. pose proof (freq_lt k) as F. pose proof (pow2pos k).
    rewrite ?pow2S in *.
    destruct (Nat.ltb_spec p (2 * 2 ^ k)), (Nat.ltb_spec q (2 * 2 ^ k)).
    1:{ intros E. apply IHk; lia. }
    + destruct (Nat.ltb_spec q (3 * 2 ^ k)); [lia|]. rewrite freq_pred by (auto; apply F; lia). bcases; lia.
    + destruct (Nat.ltb_spec p (3 * 2 ^ k)); [lia|]. rewrite freq_pred by (auto; apply F; lia). bcases; lia.
    + destruct (Nat.ltb_spec p (3 * 2 ^ k)), (Nat.ltb_spec q (3 * 2 ^ k)); intros E.
      * assert ((p - 2 * 2 ^ k = q - 2 * 2 ^ k)%nat) by (apply IHk0; lia). lia.
      * rewrite freq_pred in E by (auto; apply F; lia). revert E. bcases; lia.
      * rewrite freq_pred in E by (auto; apply F; lia). revert E. bcases; lia.
      * rewrite !freq_pred in E by (auto; apply F; lia). pose proof (F (p - 3 * 2 ^ k)%nat ltac:(lia)). pose proof (F (q - 3 * 2 ^ k)%nat ltac:(lia)).
        assert ((p - 3 * 2 ^ k = q - 3 * 2 ^ k)%nat) by (apply IHk0; try lia; revert E; bcases; lia). lia.
Qed.

Section Meaning.
Variable om : nat -> C.
Hypothesis R : roots om.
Lemma om_1 : om 0 = c1.
Proof. destruct R as (H1 & _ & H & _). rewrite <- (H 0), H1. ring. Qed.
Lemma om_order k : cpow (om k) (2 ^ k) = c1.
Proof.
  induction k. { rewrite om_1. apply cpow_c1. }
  destruct R as (_ & _ & H & _). rewrite pow2S, cpow_mul. cbn [cpow]. replace (om (S k) * (om (S k) * c1)) with (om k).
  - auto. - rewrite <- (H k). ring.
Qed.
Lemma om_quarter k : cpow (om (S (S k))) (2 ^ k) = ci.
Proof.
  destruct R as (_ & H2 & H & _). induction k. { rewrite H2. cbn [cpow Nat.pow]. ring. }
  rewrite pow2S, cpow_mul. cbn [cpow]. rewrite <- IHk. f_equal. rewrite <- (H (S (S k))). ring.
Qed.
Lemma om_w4 k : w4 (om (S (S k))) = om k.
Proof. destruct R as (_ & _ & H & _). unfold w4. now rewrite !H. Qed.

Theorem Fc_dft k : forall a p, p < 2 ^ k -> Fc k a p = dft (2 ^ k) (om k) a (freq k p).
Proof.
  pose proof R as (R1 & R2 & R3 & R4 & R5).
  induction k using ind2; intros a p Lp.
  - cbn in Lp. replace p with 0 by lia. unfold dft. cbn [Fc freq Nat.pow csum Nat.mul cpow]. ring.
  - unfold dft. cbn [Fc freq Nat.pow csum]. cbn [Nat.mul Nat.add csum]. rewrite R1. cbn in Lp.
    destruct (Nat.eqb_spec p 0) as [->|]; cbn [Nat.add cpow]. { ring. }
    replace p with 1 by lia. cbn [Nat.add cpow]. ring.
  - rewrite Fc_SS, freq_SS. rewrite ?pow2S in Lp. pose proof (pow2pos k).
    replace (2 ^ S (S k))%nat with (4 * 2 ^ k)%nat by (cbn [Nat.pow]; lia). bcases.
    + rewrite IHk by (rewrite ?pow2S; lia). rewrite !pow2S.
      replace (4 * 2 ^ k)%nat with (2 * (2 * 2 ^ k))%nat by lia. rewrite dft_even.
      * now rewrite R3.
      * rewrite <- !pow2S. apply om_order.
    + rewrite IHk0 by lia. rewrite dft_odd by apply om_quarter. rewrite om_w4. apply dft_ext. intros i Li. now rewrite R5.
    + rewrite IHk0 by lia. rewrite dft_freq, dft_odd'; auto using om_quarter.
      * rewrite om_w4. apply dft_ext. intros i Li. now rewrite R5.
      * replace (4 * 2 ^ k)%nat with (2 ^ S (S k))%nat by (cbn [Nat.pow]; lia). apply om_order.
Qed.
(* products of transforms are transforms of convolutions *)
Theorem Fc_conv k a b p : p < 2 ^ k -> Fc k (conv (2 ^ k) a b) p = Fc k a p * Fc k b p.
Proof. intros L. rewrite !Fc_dft by auto. apply dft_conv, om_order. Qed.
End Meaning.

(* ---------- the real transforms as functions ---------- *)

Definition rb (Q : nat) (a : nat -> K) (j : nat) : C :=
  (fsub (a (2 * j)%nat) (a (2 * j + 1)%nat), fsub (a (2 * Q + 2 * j)%nat) (a (2 * Q + 2 * j + 1)%nat)).
Definition rlo (Q : nat) (a : nat -> K) (i : nat) : K :=
  if Nat.even i then fadd (a i) (a (i + 1)%nat) else fadd (a (2 * Q + i - 1)%nat) (a (2 * Q + i)%nat).
Definition part (z : C) (i : nat) : K := if Nat.even i then fst z else snd z.
Fixpoint Fr (k : nat) (a : nat -> K) (p : nat) : K :=
  match k with
  | 0 => a p
  | S k1 =>
    match k1 with
    | 0 => if p =? 0 then fadd (a 0) (a 1) else fsub (a 0) (a 1)
    | S k2 =>
      let Q := (2 ^ k2)%nat in
      if p <? 2 * Q then Fr k1 (rlo Q a) p
      else part (Fc k2 (fun j => rb Q a j * tw k j) ((p - 2 * Q) / 2)) p
    end
  end.
Fixpoint Fru (k : nat) (a : nat -> K) (p : nat) : K :=
  match k with
  | 0 => a p
  | S k1 =>
    match k1 with
    | 0 => if p =? 0 then fadd (a 0) (a 1) else fsub (a 0) (a 1)
    | S k2 =>
      let Q := (2 ^ k2)%nat in
      let b := Fru k1 a in
      let z j := Fu k2 (fun i => (a (2 * Q + 2 * i)%nat, a (2 * Q + 2 * i + 1)%nat)) j * conj (tw k j) in
      if p <? 2 * Q then
        let j := (p / 2)%nat in
        if Nat.even p then fadd (b (2 * j)%nat) (fst (z j)) else fsub (b (2 * j)%nat) (fst (z j))
      else
        let j := ((p - 2 * Q) / 2)%nat in
        if Nat.even p then fadd (b (2 * j + 1)%nat) (snd (z j)) else fsub (b (2 * j + 1)%nat) (snd (z j))
    end
  end.
Lemma Fr_SS k a p : Fr (S (S k)) a p =
  if p <? 2 * 2 ^ k then Fr (S k) (rlo (2 ^ k) a) p
  else part (Fc k (fun j => rb (2 ^ k) a j * tw (S (S k)) j) ((p - 2 * 2 ^ k) / 2)) p.
Proof. reflexivity. Qed.
Definition uz k (a : nat -> K) j : C :=
  Fu k (fun i => (a (2 * 2 ^ k + 2 * i)%nat, a (2 * 2 ^ k + 2 * i + 1)%nat)) j * conj (tw (S (S k)) j).
Lemma Fru_SS k a p : Fru (S (S k)) a p =
  if p <? 2 * 2 ^ k then
    if Nat.even p then fadd (Fru (S k) a (2 * (p / 2))) (fst (uz k a (p / 2)))
    else fsub (Fru (S k) a (2 * (p / 2))) (fst (uz k a (p / 2)))
  else
    if Nat.even p then fadd (Fru (S k) a (2 * ((p - 2 * 2 ^ k) / 2) + 1)) (snd (uz k a ((p - 2 * 2 ^ k) / 2)))
    else fsub (Fru (S k) a (2 * ((p - 2 * 2 ^ k) / 2) + 1)) (snd (uz k a ((p - 2 * 2 ^ k) / 2))).
Proof. reflexivity. Qed.
Lemma halves p : exists j, (p = 2 * j)%nat \/ (p = 2 * j + 1)%nat.
Proof. exists (p / 2)%nat. pose proof (Nat.div_mod p 2 ltac:(lia)). pose proof (Nat.mod_upper_bound p 2 ltac:(lia)). lia. Qed.
Lemma even_2 j : Nat.even (2 * j) = true.
Proof. rewrite Nat.even_mul. reflexivity. Qed.
Lemma even_21 j : Nat.even (2 * j + 1) = false.
Proof. rewrite Nat.even_add, even_2. reflexivity. Qed.
Lemma div_2 j : (2 * j / 2 = j)%nat.
Proof. rewrite Nat.mul_comm. now apply Nat.div_mul. Qed.
Lemma div_21 j : ((2 * j + 1) / 2 = j)%nat.
Proof. symmetry. apply (Nat.div_unique _ _ _ 1); lia. Qed.

Lemma Fr_ext k : forall a b p, (forall i, i < 2 ^ k -> a i = b i) -> p < 2 ^ k -> Fr k a p = Fr k b p.
Proof.
  induction k using ind2; intros a b p H Lp.
  - cbn in *. apply H. lia.
  - cbn in *. rewrite !H by lia. reflexivity.
  - rewrite !Fr_SS. clear IHk0. rewrite ?pow2S in *. bcases.
    + apply IHk; [|lia]. intros i Li. unfold rlo. destruct (halves i) as [j [E|E]]; subst i; rewrite ?even_2, ?even_21, !H by lia; reflexivity.
    + f_equal. apply Fc_ext. { intros i Li. unfold rb. now rewrite !H by lia. }
      apply Nat.div_lt_upper_bound; lia.
Qed.
Lemma Fru_ext k : forall a b p, (forall i, i < 2 ^ k -> a i = b i) -> p < 2 ^ k -> Fru k a p = Fru k b p.
Proof.
  induction k using ind2; intros a b p H Lp.
  - cbn in *. apply H. lia.
  - cbn in *. rewrite !H by lia. reflexivity.
  - rewrite !Fru_SS. clear IHk0. rewrite ?pow2S in *.
    assert (B : forall j, j < 2 * 2 ^ k -> Fru (S k) a j = Fru (S k) b j).
    { intros j Lj. apply IHk; auto. intros i Li. apply H. lia. }
    assert (Z : forall j, j < 2 ^ k -> uz k a j = uz k b j).
    { intros j Lj. unfold uz. f_equal. apply Fu_ext; auto. intros i Li. rewrite !H by lia. reflexivity. }
    assert (D1 : p < 2 * 2 ^ k -> p / 2 < 2 ^ k) by (intros; apply Nat.div_lt_upper_bound; lia).
    assert (D2 : p < 2 * (2 * 2 ^ k) -> (p - 2 * 2 ^ k) / 2 < 2 ^ k) by (intros; apply Nat.div_lt_upper_bound; lia).
    bcases; rewrite ?B, ?Z by lia; reflexivity.
Qed.
Lemma Fru_scale k : forall (c : K) a p, p < 2 ^ k -> Fru k (fun i => fmul c (a i)) p = fmul c (Fru k a p).
Proof.
  induction k using ind2; intros c a p Lp.
  - reflexivity.
  - cbn [Fru]. destruct (p =? 0); ring.
  - rewrite !Fru_SS. clear IHk0. rewrite ?pow2S in *.
    assert (Z : forall j, j < 2 ^ k -> uz k (fun i => fmul c (a i)) j = (c, f0) * uz k a j).
    { intros j Lj. unfold uz.
      rewrite (Fu_ext k _ (fun i => (c, f0) * (a (2 * 2 ^ k + 2 * i)%nat, a (2 * 2 ^ k + 2 * i + 1)%nat))) by (auto; intros; apply ceq; cbn; ring).
      rewrite (Fu_scale k (c, f0)). ring. }
    assert (D1 : p < 2 * 2 ^ k -> p / 2 < 2 ^ k) by (intros; apply Nat.div_lt_upper_bound; lia).
    assert (D2 : p < 2 * (2 * 2 ^ k) -> (p - 2 * 2 ^ k) / 2 < 2 ^ k) by (intros; apply Nat.div_lt_upper_bound; lia).
    bcases; rewrite IHk, Z by lia; destruct (Nat.even p); cbn; ring.
Qed.

(* what fftr_scale does, times the size *)
Definition dbl (a : nat -> K) (p : nat) : K := if p <? 2 then a p else fmul (fadd f1 f1) (a p).
Lemma cn_fn n : cn n = (fn n, f0).
Proof. induction n; cbn [cn fn]; auto. rewrite IHn. apply ceq; cbn; ring. Qed.
Lemma fn_add a b : @fn K (a + b) = fadd (fn a) (fn b).
Proof. induction a; cbn [fn Nat.add]. { ring. } rewrite IHa. ring. Qed.

Theorem un_fftr k : unit_tw -> forall a p, 1 <= k -> p < 2 ^ k -> Fru k (dbl (Fr k a)) p = fmul (fn (2 ^ k)) (a p).
Proof.
  intros U. induction k using ind2; intros a p Hk Lp.
  - lia.
  - cbn [Fru dbl Fr Nat.pow Nat.mul Nat.add fn Nat.eqb]. unfold dbl. cbn [Nat.ltb Nat.leb]. cbn in Lp.
    destruct (Nat.eqb_spec p 0) as [->|]; cbn [Nat.eqb]; [ring|]. replace p with 1 by lia. ring.
  - clear IHk0. specialize (IHk (rlo (2 ^ k) a)). set (A := Fr (S (S k)) a).
    rewrite ?pow2S in *. pose proof (pow2pos k) as P.
    assert (B : forall j, j < 2 * 2 ^ k -> Fru (S k) (dbl A) j = fmul (fn (2 * 2 ^ k)) (rlo (2 ^ k) a j)).
    { intros j Lj. rewrite <- IHk by lia. apply Fru_ext; [|rewrite ?pow2S; auto].
      rewrite ?pow2S. intros i Li. unfold dbl, A. rewrite Fr_SS. bcases; reflexivity. }
    assert (Z : forall j, j < 2 ^ k -> uz k (dbl A) j = two * cn (2 ^ k) * rb (2 ^ k) a j).
    { intros j Lj. unfold uz.
      rewrite (Fu_ext k _ (fun i => two * Fc k (fun j => rb (2 ^ k) a j * tw (S (S k)) j) i)); auto.
      - rewrite Fu_scale, un_fft by auto. transitivity (two * cn (2 ^ k) * rb (2 ^ k) a j * (tw (S (S k)) j * conj (tw (S (S k)) j))).
        { ring. } rewrite U. ring.
      - intros i Li. unfold dbl, A. rewrite !Fr_SS.
        assert (X1 : ((2 * 2 ^ k + 2 * i - 2 * 2 ^ k) / 2 = i)%nat). { replace (2 * 2 ^ k + 2 * i - 2 * 2 ^ k)%nat with (2 * i)%nat by lia. apply div_2. }
        assert (X2 : ((2 * 2 ^ k + 2 * i + 1 - 2 * 2 ^ k) / 2 = i)%nat). { replace (2 * 2 ^ k + 2 * i + 1 - 2 * 2 ^ k)%nat with (2 * i + 1)%nat by lia. apply div_21. }
        rewrite X1, X2. unfold part.
        replace (2 * 2 ^ k + 2 * i)%nat with (2 * (2 ^ k + i))%nat by lia. rewrite even_2, even_21.
        bcases. apply ceq; cbn; ring. }
    rewrite Fru_SS. rewrite (cn_fn (2 ^ k)) in Z.
    assert (D1 : p < 2 * 2 ^ k -> p / 2 < 2 ^ k) by (intros; apply Nat.div_lt_upper_bound; lia).
    assert (D2 : p < 2 * (2 * 2 ^ k) -> (p - 2 * 2 ^ k) / 2 < 2 ^ k) by (intros; apply Nat.div_lt_upper_bound; lia).
    assert (N2 : @fn K (2 * 2 ^ k) = fmul (fadd f1 f1) (fn (2 ^ k))).
    { replace (2 * 2 ^ k)%nat with (2 ^ k + 2 ^ k)%nat by lia. rewrite fn_add. ring. }
    assert (N4 : @fn K (2 * (2 * 2 ^ k)) = fmul (fadd f1 f1) (fmul (fadd f1 f1) (fn (2 ^ k)))).
    { rewrite <- N2. replace (2 * (2 * 2 ^ k))%nat with (2 * 2 ^ k + 2 * 2 ^ k)%nat by lia. rewrite fn_add. ring. }
    rewrite N4. bcases; rewrite B, Z by lia; rewrite N2; unfold rlo; rewrite ?even_2, ?even_21.
    + set (j := (p / 2)%nat) in *. assert (Ej : (p = 2 * j \/ p = 2 * j + 1)%nat).
      { destruct (halves p) as [i [->| ->]]; unfold j; rewrite ?div_2, ?div_21; auto. }
      clearbody j. unfold rb, two. destruct Ej as [Ej|Ej]; rewrite Ej, ?even_2, ?even_21; cbn; ring.
    + set (j := ((p - 2 * 2 ^ k) / 2)%nat) in *. assert (Ej : (p = 2 * (2 ^ k + j) \/ p = 2 * (2 ^ k + j) + 1)%nat).
      { destruct (halves (p - 2 * 2 ^ k)) as [i [E|E]]; unfold j; rewrite E, ?div_2, ?div_21; lia. }
      unfold rb, two. replace (2 * 2 ^ k + (2 * j + 1) - 1)%nat with (2 * (2 ^ k + j))%nat by lia.
      replace (2 * 2 ^ k + (2 * j + 1))%nat with (2 * (2 ^ k + j) + 1)%nat by lia.
      replace (2 * 2 ^ k + 2 * j + 1)%nat with (2 * (2 ^ k + j) + 1)%nat by lia.
      replace (2 * 2 ^ k + 2 * j)%nat with (2 * (2 ^ k + j))%nat by lia.
      destruct Ej as [E|E]; rewrite E, ?even_2, ?even_21; cbn; ring.
Qed.

(* ---------- what the real transform is ---------- *)

(* the sequence whose element l is at 2l, and element M+l at 2l+1; and the array of a sequence *)
Definition rx (M : nat) (a : nat -> K) (l : nat) : K := if l <? M then a (2 * l)%nat else a (2 * (l - M) + 1)%nat.
Definition lay (M : nat) (x : nat -> K) (i : nat) : K := if Nat.even i then x (i / 2)%nat else x (M + i / 2)%nat.
Definition emb (x : K) : C := (x, f0).
Lemma rx_lay M x l : l < 2 * M -> rx M (lay M x) l = x l.
Proof.
  intros L. unfold rx, lay. bcases.
  - now rewrite even_2, div_2.
  - rewrite even_21, div_21. f_equal. lia.
Qed.
Lemma lay_rx M a i : i < 2 * M -> lay M (rx M a) i = a i.
Proof.
  intros L. unfold rx, lay. destruct (halves i) as [j [->| ->]]; rewrite ?even_2, ?even_21, ?div_2, ?div_21; bcases; f_equal; lia.
Qed.
Fixpoint rfreq (k q : nat) : nat :=
  match k with
  | 0 => 0
  | S k1 =>
    match k1 with
    | 0 => 0
    | S k2 => if q <? 2 ^ k2 then (2 * rfreq k1 q)%nat else (4 * freq k2 (q - 2 ^ k2) + 1)%nat
    end
  end.
Lemma rfreq_SS k q : rfreq (S (S k)) q = (if q <? 2 ^ k then 2 * rfreq (S k) q else 4 * freq k (q - 2 ^ k) + 1)%nat.
Proof. reflexivity. Qed.
(* the frequencies between 0 and half the size, other than the ends, in one of the two
   directions: none is found twice, and none is the opposite of another *)
Lemma rfreq_lt k : forall q, 1 <= q < 2 ^ k -> 0 < rfreq (S k) q < 2 * 2 ^ k /\ rfreq (S k) q <> (2 ^ k)%nat.
Proof.
  induction k; intros q L. { cbn in L. lia. }
  rewrite rfreq_SS. rewrite ?pow2S in *. bcases.
  - specialize (IHk q ltac:(lia)). lia.
  - pose proof (freq_lt k (q - 2 ^ k) ltac:(lia)). lia.
Qed.
Lemma rfreq_inj k : forall p q, 1 <= p < 2 ^ k -> 1 <= q < 2 ^ k -> rfreq (S k) p = rfreq (S k) q -> p = q.
Proof.
  induction k; intros p q Lp Lq. { cbn in Lp. lia. }
  rewrite !rfreq_SS. rewrite ?pow2S in *. bcases; try lia.
  - intros E. apply IHk; lia.
  - intros E. assert ((p - 2 ^ k = q - 2 ^ k)%nat) by (apply (freq_inj k); lia). lia.
Qed.
Lemma rfreq_opp k : forall p q, 1 <= p < 2 ^ k -> 1 <= q < 2 ^ k -> (rfreq (S k) p + rfreq (S k) q <> 2 * 2 ^ k)%nat.
Proof.
  induction k; intros p q Lp Lq. { cbn in Lp. lia. }
  rewrite !rfreq_SS. rewrite ?pow2S in *. bcases; try lia.
  - specialize (IHk p q ltac:(lia) ltac:(lia)). lia.
Qed.

Section RMeaning.
Variable om : nat -> C.
Hypothesis R : roots om.
Lemma Fr_dft k : forall a, 1 <= k ->
  let X := dft (2 ^ k) (om k) (fun l => emb (rx (2 ^ (k - 1)) a l)) in
  emb (Fr k a 0) = X 0 /\ emb (Fr k a 1) = X (2 ^ (k - 1))%nat /\
  forall q, 1 <= q < 2 ^ (k - 1) -> (Fr k a (2 * q), Fr k a (2 * q + 1)) = X (rfreq k q).
Proof.
  pose proof R as (R1 & R2 & R3 & R4 & R5).
  induction k using ind2; intros a Hk X.
  - lia.
  - unfold X, dft. cbn [Fr Nat.pow csum Nat.mul Nat.add Nat.sub cpow Nat.eqb]. rewrite R1. unfold rx. cbn [Nat.ltb Nat.leb Nat.mul Nat.sub Nat.add].
    split; [|split]. + apply ceq; cbn; ring. + apply ceq; cbn; ring. + cbn. lia.
  - specialize (IHk (rlo (2 ^ k) a) ltac:(lia)). clear IHk0. cbn beta zeta in IHk.
    replace (S k - 1)%nat with k in IHk by lia. unfold X. clear X. replace (S (S k) - 1)%nat with (S k) by lia.
    pose proof (pow2pos k) as P.
    set (x := fun l => emb (rx (2 ^ S k) a l)).
    assert (E : forall f, dft (2 ^ S k) (om (S k)) (fun l => emb (rx (2 ^ k) (rlo (2 ^ k) a) l)) f =
      dft (2 ^ S (S k)) (om (S (S k))) x (2 * f)).
    { intros f. rewrite (pow2S (S k)), dft_even by (rewrite <- pow2S; apply om_order; auto). rewrite R3. apply dft_ext.
      rewrite !pow2S. intros l Ll. unfold x, emb, rx, rlo. rewrite !pow2S. bcases; rewrite ?even_2, ?even_21.
      - apply ceq; cbn [fst snd cadd]; [|ring]. f_equal. f_equal. lia.
      - apply ceq; cbn [fst snd cadd]; [|ring]. f_equal; f_equal; lia. }
    rewrite !E in IHk. destruct IHk as (I0 & I1 & I2).
    assert (Fl : forall p, p < 2 * 2 ^ k -> Fr (S (S k)) a p = Fr (S k) (rlo (2 ^ k) a) p).
    { intros p Lp. rewrite Fr_SS. bcases. reflexivity. }
    split; [|split].
    + rewrite Fl by lia. exact I0.
    + rewrite Fl by lia. rewrite pow2S. exact I1.
    + intros q Lq. rewrite pow2S in Lq. rewrite rfreq_SS. destruct (Nat.ltb_spec q (2 ^ k)).
      * rewrite !Fl, I2 by lia. rewrite E. reflexivity.
      * rewrite !Fr_SS. bcases. unfold part. rewrite even_2, even_21.
        replace (2 * q - 2 * 2 ^ k)%nat with (2 * (q - 2 ^ k))%nat by lia.
        replace (2 * q + 1 - 2 * 2 ^ k)%nat with (2 * (q - 2 ^ k) + 1)%nat by lia. rewrite div_2, div_21.
        rewrite <- surjective_pairing. rewrite (Fc_dft om R) by lia.
        replace (2 ^ S (S k))%nat with (4 * 2 ^ k)%nat by (cbn [Nat.pow]; lia).
        rewrite dft_odd by (apply om_quarter; auto). rewrite om_w4 by auto. apply dft_ext. intros i Li. rewrite R5 by auto. f_equal.
        unfold rb, z2, x, emb, rx. rewrite !pow2S. bcases. apply ceq; cbn [fst snd cadd csub cmul ci].
        -- replace (2 * 2 ^ k + i - 2 * 2 ^ k)%nat with i by lia. ring.
        -- replace (2 * (3 * 2 ^ k + i - 2 * 2 ^ k))%nat with (2 * 2 ^ k + 2 * i)%nat by lia.
           replace (2 * (2 ^ k + i))%nat with (2 * 2 ^ k + 2 * i)%nat by lia. ring.
Qed.

(* real convolution, and the product of two packed transforms *)
Definition rsum := fix rsum (n : nat) (f : nat -> K) : K := match n with O => f0 | S n => fadd (rsum n f) (f n) end.
Definition rconv (n : nat) (a b : nat -> K) (l : nat) : K := rsum n (fun i => fmul (a i) (b ((l + (n - i)) mod n)%nat)).
Lemma emb_sum n f : emb (rsum n f) = csum n (fun i => emb (f i)).
Proof. induction n; cbn [rsum csum]; auto. rewrite <- IHn. apply ceq; cbn; ring. Qed.
Lemma emb_conv n a b l : emb (rconv n a b l) = conv n (fun i => emb (a i)) (fun i => emb (b i)) l.
Proof. unfold rconv, conv. rewrite emb_sum. apply csum_ext. intros. apply ceq; cbn; ring. Qed.
Definition pmul (a b : nat -> K) (p : nat) : K :=
  if p <? 2 then fmul (a p) (b p)
  else let j := (2 * (p / 2))%nat in part ((a j, a (j + 1)%nat) * (b j, b (j + 1)%nat)) p.
Theorem Fr_conv k a b p : 1 <= k -> p < 2 ^ k ->
  Fr k (lay (2 ^ (k - 1)) (rconv (2 ^ k) (rx (2 ^ (k - 1)) a) (rx (2 ^ (k - 1)) b))) p = pmul (Fr k a) (Fr k b) p.
Proof.
  intros Hk Lp. set (M := (2 ^ (k - 1))%nat). set (c := lay M _).
  assert (EN : (2 ^ k = 2 * M)%nat). { unfold M. rewrite <- pow2S. f_equal. lia. }
  assert (EX : forall f, dft (2 ^ k) (om k) (fun l => emb (rx M c l)) f =
    dft (2 ^ k) (om k) (fun l => emb (rx M a l)) f * dft (2 ^ k) (om k) (fun l => emb (rx M b l)) f).
  { intros f. rewrite <- dft_conv by (apply om_order; auto). apply dft_ext. intros i Li. unfold c.
    rewrite rx_lay by lia. apply emb_conv. }
  destruct (Fr_dft k c Hk) as (C0 & C1 & C2). destruct (Fr_dft k a Hk) as (A0 & A1 & A2). destruct (Fr_dft k b Hk) as (B0 & B1 & B2).
  fold M in C0, C1, C2, A0, A1, A2, B0, B1, B2. rewrite EX in C0, C1. rewrite <- A0, <- B0 in C0. rewrite <- A1, <- B1 in C1.
  unfold pmul. destruct (Nat.ltb_spec p 2) as [L|L].
  - assert (G : forall x y z, emb x = emb y * emb z -> x = fmul y z).
    { intros x y z E. apply (f_equal fst) in E. cbn in E. rewrite E. ring. }
    destruct p as [|[|]]; [apply (G _ _ _ C0)|apply (G _ _ _ C1)|lia].
  - destruct (halves p) as [q Eq].
    assert (Lq : 1 <= q < M) by lia. specialize (C2 q Lq). rewrite EX, <- (A2 q Lq), <- (B2 q Lq) in C2.
    destruct Eq as [-> | ->]; rewrite ?div_2, ?div_21; unfold part; rewrite ?even_2, ?even_21; rewrite <- C2; reflexivity.
Qed.
End RMeaning.
End Spec.
