(* The fast Fourier transforms: what they compute, round trips and convolution (C56). *)
From Coq Require Import List ZArith Lia Bool Arith Ring Field QArith Qcanon.
From Verif Require Import Base LinBase PropsGauss FftModel FftSpec FftProofs.
Import ListNotations.
Local Close Scope Qc_scope.
Local Close Scope Q_scope.
Local Open Scope nat_scope.

Lemma nodup_map {A B} (f : A -> B) l : (forall x y, In x l -> In y l -> f x = f y -> x = y) -> NoDup l -> NoDup (map f l).
Proof.
  intros I N. induction N as [|x l H N IH]; cbn; constructor.
  - intros J. apply in_map_iff in J. destruct J as (y & E & Hy). apply I in E; cbn; auto. now subst.
  - apply IH. intros. apply I; cbn; auto.
Qed.

(* ---------- specification ---------- *)

Section Spec.
Context {K : ofield}.
Local Open Scope lin_scope.
(* element i of an array of complex numbers *)
Definition cel (m : list K) (i : nat) : K * K := (nth (2 * i) m f0, nth (2 * i + 1) m f0).
(* what the round trips need of the constants: (h,h) is on the unit circle, and so are the
   numbers (1 - 2 sin^2(pi/N), sin(2 pi/N)) *)
Definition unit_constants (h : K) (sn : nat -> nat -> K) : Prop :=
  h * h + h * h = f1 /\
  forall k, 4 <= k ->
    let c := f1 - (f1 + f1) * sn 1 (2 ^ k) * sn 1 (2 ^ k) in
    let s := sn 2 (2 ^ k) in c * c + s * s = f1.
(* the root of unity of order 2^k that is used *)
Definition omega (h : K) (sn : nat -> nat -> K) (k : nat) : K * K :=
  match k with
  | 0 => (f1, f0)
  | 1 => (- f1, f0)
  | 2 => (f0, f1)
  | 3 => (h, h)
  | _ => (f1 - (f1 + f1) * sn 1 (2 ^ k) * sn 1 (2 ^ k), sn 2 (2 ^ k))
  end.
(* what is needed for the result to be the Fourier transform: each is a square root of the one before *)
Definition exact_constants (h : K) (sn : nat -> nat -> K) : Prop :=
  unit_constants h sn /\ forall k, 3 <= k -> cmul (omega h sn (S k)) (omega h sn (S k)) = omega h sn k.
(* The real transforms take the sequence x(0), .., x(2M-1) as x(0), x(M), x(1), x(M+1), ..,
   x(M-1), x(2M-1). *)
Definition seq_el (m : list K) (l : nat) : K :=
  let M := (length m / 2)%nat in if l <? M then nth (2 * l) m f0 else nth (2 * (l - M) + 1) m f0.
Definition real (x : K) : K * K := (x, f0).
(* cyclic convolution of sequences of n numbers *)
Definition cyclic (n : nat) (x y : nat -> K) (l : nat) : K := rsum n (fun i => x i * y ((l + (n - i)) mod n)).
End Spec.

Section Proofs.
Context {K : ofield}.
Local Open Scope lin_scope.
Add Field Kf30 : (f_th K).
Notation C := (@C K).
Variable h : K.
Variable sn : nat -> nat -> K.

(* ---------- the factors ---------- *)

Lemma cnj1 : cmul (@c1 K) (conj c1) = c1.
Proof. apply ceq; cbn; ring. Qed.
Lemma unit_mul (x y : C) : cmul x (conj x) = c1 -> cmul y (conj y) = c1 -> cmul (cmul x y) (conj (cmul x y)) = c1.
Proof.
  intros A B. rewrite (conj_mul x y). transitivity (cmul (cmul x (conj x)) (cmul y (conj y))).
  - apply ceq; cbn; ring.
  - rewrite A, B. apply ceq; cbn; ring.
Qed.
Lemma unit_pow (x : C) n : cmul x (conj x) = c1 -> cmul (cpow x n) (conj (cpow x n)) = c1.
Proof. intros A. induction n; cbn [cpow]. { apply cnj1. } now apply unit_mul. Qed.
Lemma unit_swap (x : C) : cmul x (conj x) = c1 -> cmul (swap x) (conj (swap x)) = c1.
Proof.
  intros A. assert (B : fst x * fst x + snd x * snd x = f1). { apply (f_equal fst) in A. cbn in A. rewrite <- A. ring. }
  apply ceq; cbn; [|ring]. rewrite <- B. ring.
Qed.
Lemma unit_of (x y : K) : x * x + y * y = f1 -> cmul (x, y) (conj (x, y)) = c1.
Proof. intros A. apply ceq; cbn; [|ring]. rewrite <- A. ring. Qed.
Lemma units : unit_constants h sn -> unit_tw (tws h sn).
Proof.
  intros [Hh Hc] k j. unfold tws. destruct (Nat.ltb_spec k 3) as [L|L]. { apply cnj1. }
  unfold twl. assert (D : k = 3 \/ 4 <= k) by lia. destruct D as [->|L4].
  - change (2 ^ (3 - 3))%nat with 1. destruct (Nat.ltb_spec j 1); [|destruct (Nat.eqb_spec j 1)].
    + replace j with 0 by lia. apply cnj1.
    + now apply unit_of.
    + replace (2 * 1 - j)%nat with 0 by lia. apply unit_swap, cnj1.
  - assert (U : cmul (omk sn k) (conj (omk sn k)) = c1) by (apply unit_of, Hc; auto).
    destruct (Nat.ltb_spec j (2 ^ (k - 3))); [|destruct (Nat.eqb_spec j (2 ^ (k - 3)))].
    + now apply unit_pow.
    + now apply unit_of.
    + apply unit_swap. now apply unit_pow.
Qed.
Lemma factor_roots : exact_constants h sn -> roots (tws h sn) (omega h sn).
Proof.
  intros [[Hh Hc] Hs].
  assert (O3 : cmul (omega h sn 3) (omega h sn 3) = omega h sn 2).
  { apply ceq; cbn; [ring|]. rewrite <- Hh. ring. }
  assert (Sq : forall k, cmul (omega h sn (S k)) (omega h sn (S k)) = omega h sn k).
  { intros k. assert (D : k = 0 \/ k = 1 \/ k = 2 \/ 3 <= k) by lia. destruct D as [->|[->|[->|L]]]; auto.
    - apply ceq; cbn; ring. - apply ceq; cbn; ring. }
  assert (Un : forall k, cmul (omega h sn k) (conj (omega h sn k)) = c1).
  { intros k. destruct k as [|[|[|[|k]]]]; try (apply ceq; cbn; ring). - now apply unit_of. - apply unit_of, Hc. lia. }
  split; [|split; [|split; [|split]]]; auto.
  - apply ceq; cbn; ring.
  - intros k j Lj. unfold tws. destruct k as [|[|k]].
    + cbn in Lj. replace j with 0 by lia. reflexivity.
    + cbn in Lj. cbn [Nat.ltb Nat.leb]. unfold twl. change (2 ^ (3 - 3))%nat with 1.
      destruct (Nat.ltb_spec j 1); [|destruct (Nat.eqb_spec j 1); [|lia]].
      * replace j with 0 by lia. reflexivity.
      * replace j with 1 by lia. apply ceq; cbn; ring.
    + destruct (Nat.ltb_spec (S (S (S (S k)))) 3); [lia|]. unfold twl. replace (S (S (S (S k))) - 3)%nat with (S k) by lia.
      set (n := (2 ^ S k)%nat) in *. assert (En : (2 ^ S (S k) = 2 * n)%nat) by reflexivity. rewrite En in Lj.
      change (omk sn (S (S (S (S k))))) with (omega h sn (S (S (S (S k))))).
      assert (Pw : forall i, cpow (omega h sn (S (S (S i)))) (2 ^ i) = omega h sn 3).
      { induction i. { cbn [Nat.pow cpow]. apply ceq; cbn; ring. }
        rewrite pow2S, cpow_mul. replace (cpow (omega h sn (S (S (S (S i))))) 2) with (omega h sn (S (S (S i)))); auto.
        rewrite <- (Sq (S (S (S i)))). cbn [cpow]. generalize (omega h sn (S (S (S (S i))))). intros x. apply ceq; cbn; ring. }
      destruct (Nat.ltb_spec j n); [|destruct (Nat.eqb_spec j n) as [Ej|Nj]].
      * reflexivity.
      * subst j. symmetry. apply (Pw (S k)).
      * set (w := omega h sn (S (S (S (S k))))) in *. set (i := (2 * n - j)%nat).
        assert (Wq : cpow w (2 * n) = ci). { rewrite (Nat.mul_comm 2 n), cpow_mul. unfold w, n. rewrite (Pw (S k)). cbn [cpow].
          replace (cmul (omega h sn 3) (cmul (omega h sn 3) c1)) with (cmul (omega h sn 3) (omega h sn 3)) by (apply ceq; cbn; ring).
          rewrite O3. reflexivity. }
        assert (Wi : cmul (cpow w i) (conj (cpow w i)) = c1) by (apply unit_pow, Un).
        replace (2 * n)%nat with (i + j)%nat in Wq by (unfold i; lia). rewrite cpow_add in Wq.
        transitivity (cmul ci (conj (cpow w i))). { apply ceq; cbn; ring. }
        rewrite <- Wq. transitivity (cmul (cmul (cpow w i) (conj (cpow w i))) (cpow w j)).
        { apply ceq; cbn; ring. } rewrite Wi. apply ceq; cbn; ring.
Qed.

(* ---------- from functions to lists ---------- *)

Lemma cel_cv L (m : list K) v i : vec L m v -> 2 * i + 1 < L -> cel m i = cv v 0 i.
Proof.
  intros [_ H] B. unfold cel, cv. cbn [Nat.add]. f_equal; apply nth_error_nth, H; lia.
Qed.
Lemma cwin_cel k v f (m' : list K) : cwin (2 * 2 ^ k) 0 (2 ^ k) v f m' ->
  length m' = (2 * 2 ^ k)%nat /\ forall i, i < 2 ^ k -> cel m' i = f i.
Proof.
  intros (v' & V & G & _). split. { apply V. } intros i Li. rewrite (cel_cv _ _ _ _ V), G by lia. reflexivity.
Qed.
Lemma list_cel k (a b : list K) : length a = (2 * 2 ^ k)%nat -> length b = (2 * 2 ^ k)%nat ->
  (forall i, i < 2 ^ k -> cel a i = cel b i) -> a = b.
Proof.
  intros La Lb H. apply (nth_ext a b f0 f0). { congruence. } intros p Lp. rewrite La in Lp.
  destruct (halves p) as [i [->| ->]]; specialize (H i ltac:(lia)); unfold cel in H; congruence.
Qed.
Lemma run {A} (x : outcome A) (P : A -> Prop) : wp x P (fun _ => False) -> exists a, x = Ok a /\ P a.
Proof. destruct x; cbn; intros H; [eauto|contradiction|contradiction]. Qed.
Lemma run_fftc k (m : list K) : 1 <= k -> length m = (2 * 2 ^ k)%nat ->
  exists m', fftc h sn k 0 m = Ok m' /\ length m' = (2 * 2 ^ k)%nat /\ forall p, p < 2 ^ k -> cel m' p = Fc (tws h sn) k (cel m) p.
Proof.
  intros Hk Lm. destruct k as [|k]; [lia|]. pose proof (vec_of _ m Lm) as V.
  destruct (run _ _ (fftc_wp h sn k 0 (2 * 2 ^ S k) _ m (fun _ => False) ltac:(lia) V)) as (m' & E & W).
  apply cwin_cel in W. destruct W as [L' W]. exists m'. split; auto.
Qed.
Lemma run_un k (m : list K) : 1 <= k -> length m = (2 * 2 ^ k)%nat ->
  exists m', fftc_un h sn k 0 m = Ok m' /\ length m' = (2 * 2 ^ k)%nat /\ forall p, p < 2 ^ k -> cel m' p = Fu (tws h sn) k (cel m) p.
Proof.
  intros Hk Lm. destruct k as [|k]; [lia|]. pose proof (vec_of _ m Lm) as V.
  destruct (run _ _ (fftc_un_wp h sn k 0 (2 * 2 ^ S k) _ m (fun _ => False) ltac:(lia) V)) as (m' & E & W).
  apply cwin_cel in W. destruct W as [L' W]. exists m'. split; auto.
Qed.
Lemma run_scale k (m : list K) : length m = (2 * 2 ^ k)%nat ->
  exists m', fftc_scale k m = Ok m' /\ length m' = (2 * 2 ^ k)%nat /\ forall p, p < 2 ^ k -> cel m' p = cmul (f1 / fn (2 ^ k), f0) (cel m p).
Proof.
  intros Lm. pose proof (vec_of _ m Lm) as V.
  destruct (run _ _ (fftc_scale_wp k (2 * 2 ^ k) _ m (fun _ => False) ltac:(lia) V)) as (m' & E & W).
  apply cwin_cel in W. destruct W as [L' W]. exists m'. split; auto.
Qed.
Lemma run_mul k (a b : list K) : length a = (2 * 2 ^ k)%nat -> length b = (2 * 2 ^ k)%nat ->
  exists m', fftc_mul (2 ^ k) a b = Ok m' /\ length m' = (2 * 2 ^ k)%nat /\ forall p, p < 2 ^ k -> cel m' p = cmul (cel a p) (cel b p).
Proof.
  intros La Lb. pose proof (vec_of _ a La) as V. pose proof (vec_of _ b Lb) as U.
  destruct (run _ _ (fftc_mul_wp (2 ^ k) (2 * 2 ^ k) _ a _ b (fun _ => False) ltac:(lia) V U)) as (m' & E & W).
  apply cwin_cel in W. destruct W as [L' W]. exists m'. split; auto.
Qed.
Lemma scaled k (x : C) : cmul (f1 / fn (2 ^ k), f0) (cmul (cn (2 ^ k)) x) = x.
Proof.
  rewrite cn_fn. assert (N : @fn K (2 ^ k) <> f0) by (apply fn_pos, pow2pos). apply ceq; cbn; field; auto.
Qed.

(* ---------- the complex transform ---------- *)

(* element p of the result is the Fourier transform at frequency freq k p *)
Theorem C56_transform k (m : list K) : exact_constants h sn -> 1 <= k -> length m = (2 * 2 ^ k)%nat ->
  exists m', fftc h sn k 0 m = Ok m' /\ length m' = length m /\
    forall p, p < 2 ^ k -> cel m' p = dft (2 ^ k) (omega h sn k) (cel m) (freq k p).
Proof.
  intros X Hk Lm. destruct (run_fftc k m Hk Lm) as (m' & E & L' & G). exists m'. split; auto. split. { congruence. }
  intros p Lp. rewrite G by auto. now apply (Fc_dft _ _ (factor_roots X)).
Qed.
(* every frequency is found in one place *)
Theorem C56_frequencies k : (forall p, p < 2 ^ k -> freq k p < 2 ^ k) /\
  (forall p q, p < 2 ^ k -> q < 2 ^ k -> freq k p = freq k q -> p = q) /\
  (forall f, f < 2 ^ k -> exists p, p < 2 ^ k /\ freq k p = f).
Proof.
  split; [|split].
  - apply freq_lt.
  - apply freq_inj.
  - intros f Lf. set (l := map (freq k) (seq 0 (2 ^ k))).
    assert (ND : NoDup l). { unfold l. apply nodup_map; [|apply seq_NoDup].
      intros p q Hp Hq. apply in_seq in Hp, Hq. apply (freq_inj k); lia. }
    assert (I : incl (seq 0 (2 ^ k)) l).
    { apply NoDup_length_incl; auto.
      - unfold l. rewrite map_length, !seq_length. lia.
      - intros x Hx. apply in_map_iff in Hx. destruct Hx as (p & <- & Hp). apply in_seq in Hp. apply in_seq. pose proof (freq_lt k p). lia. }
    assert (H : In f l) by (apply I, in_seq; lia). apply in_map_iff in H. destruct H as (p & E & Hp). apply in_seq in Hp. exists p. split; auto. lia.
Qed.
(* the root of unity is of order 2^k and no less *)
Theorem C56_root k : exact_constants h sn ->
  cpow (omega h sn k) (2 ^ k) = c1 /\ cpow (omega h sn (S k)) (2 ^ k) = copp c1.
Proof.
  intros X. pose proof (factor_roots X) as R. split. { apply (om_order _ _ R). }
  induction k. { cbn [Nat.pow cpow]. apply ceq; cbn; ring. }
  rewrite pow2S, cpow_mul. replace (cpow (omega h sn (S (S k))) 2) with (omega h sn (S k)); auto.
  destruct R as (_ & _ & Sq & _). rewrite <- (Sq (S k)). cbn [cpow]. generalize (omega h sn (S (S k))). intros x. apply ceq; cbn; ring.
Qed.

(* fftc, fftc_un and fftc_scale one after the other change nothing; and the other order *)
Theorem C56_roundtrip k (m : list K) : unit_constants h sn -> 1 <= k -> length m = (2 * 2 ^ k)%nat ->
  (let* m1 := fftc h sn k 0 m in let* m2 := fftc_un h sn k 0 m1 in fftc_scale k m2) = Ok m /\
  (let* m1 := fftc_un h sn k 0 m in let* m2 := fftc h sn k 0 m1 in fftc_scale k m2) = Ok m.
Proof.
  intros U Hk Lm. apply units in U. split.
  - destruct (run_fftc k m Hk Lm) as (m1 & E1 & L1 & G1). rewrite E1. cbn [bind].
    destruct (run_un k m1 Hk L1) as (m2 & E2 & L2 & G2). rewrite E2. cbn [bind].
    destruct (run_scale k m2 L2) as (m3 & E3 & L3 & G3). rewrite E3. f_equal. apply (list_cel k); auto.
    intros i Li. rewrite G3, G2 by auto. rewrite (Fu_ext _ k _ (Fc (tws h sn) k (cel m))) by auto.
    rewrite un_fft by auto. apply scaled.
  - destruct (run_un k m Hk Lm) as (m1 & E1 & L1 & G1). rewrite E1. cbn [bind].
    destruct (run_fftc k m1 Hk L1) as (m2 & E2 & L2 & G2). rewrite E2. cbn [bind].
    destruct (run_scale k m2 L2) as (m3 & E3 & L3 & G3). rewrite E3. f_equal. apply (list_cel k); auto.
    intros i Li. rewrite G3, G2 by auto. rewrite (Fc_ext _ k _ (Fu (tws h sn) k (cel m))) by auto.
    rewrite fft_un by auto. apply scaled.
Qed.

Lemma conv_ext n (a b a' b' : nat -> C) l : (forall i, i < n -> a i = a' i) -> (forall i, i < n -> b i = b' i) -> l < n ->
  conv n a b l = conv n a' b' l.
Proof.
  intros A B Ll. apply csum_ext. intros i Li. rewrite A, B; auto. apply Nat.mod_upper_bound. lia.
Qed.
(* as in test/test_fft.cpp: the second argument is transformed and scaled, the first is
   transformed and multiplied, and transformed back *)
Theorem C56_convolution k (x y : list K) : exact_constants h sn -> 1 <= k ->
  length x = (2 * 2 ^ k)%nat -> length y = (2 * 2 ^ k)%nat ->
  exists z, (let* y := fftc h sn k 0 y in let* y := fftc_scale k y in let* x := fftc h sn k 0 x in
             let* x := fftc_mul (2 ^ k) x y in fftc_un h sn k 0 x) = Ok z /\
    length z = length x /\ forall l, l < 2 ^ k -> cel z l = conv (2 ^ k) (cel x) (cel y) l.
Proof.
  intros X Hk Lx Ly. pose proof (factor_roots X) as R. destruct X as [U _]. apply units in U.
  destruct (run_fftc k y Hk Ly) as (y1 & E1 & L1 & G1). rewrite E1. cbn [bind].
  destruct (run_scale k y1 L1) as (y2 & E2 & L2 & G2). rewrite E2. cbn [bind].
  destruct (run_fftc k x Hk Lx) as (x1 & E3 & L3 & G3). rewrite E3. cbn [bind].
  destruct (run_mul k x1 y2 L3 L2) as (z1 & E4 & L4 & G4). rewrite E4. cbn [bind].
  destruct (run_un k z1 Hk L4) as (z & E5 & L5 & G5). rewrite E5. exists z. split; auto. split. { congruence. }
  intros l Ll. rewrite G5 by auto.
  rewrite (Fu_ext _ k _ (fun i => cmul (f1 / fn (2 ^ k), f0) (Fc (tws h sn) k (conv (2 ^ k) (cel x) (cel y)) i))); auto.
  - rewrite Fu_scale, un_fft by auto. apply scaled.
  - intros i Li. rewrite G4, G3, G2, G1 by auto. rewrite (Fc_conv _ _ R) by auto.
    generalize (Fc (tws h sn) k (cel x) i), (Fc (tws h sn) k (cel y) i). intros u w. apply ceq; cbn; ring.
Qed.
(* scaling at the end does as well *)
Theorem C56_convolution_last k (x y : list K) : exact_constants h sn -> 1 <= k ->
  length x = (2 * 2 ^ k)%nat -> length y = (2 * 2 ^ k)%nat ->
  exists z, (let* y := fftc h sn k 0 y in let* x := fftc h sn k 0 x in
             let* x := fftc_mul (2 ^ k) x y in let* x := fftc_un h sn k 0 x in fftc_scale k x) = Ok z /\
    length z = length x /\ forall l, l < 2 ^ k -> cel z l = conv (2 ^ k) (cel x) (cel y) l.
Proof.
  intros X Hk Lx Ly. pose proof (factor_roots X) as R. destruct X as [U _]. apply units in U.
  destruct (run_fftc k y Hk Ly) as (y1 & E1 & L1 & G1). rewrite E1. cbn [bind].
  destruct (run_fftc k x Hk Lx) as (x1 & E3 & L3 & G3). rewrite E3. cbn [bind].
  destruct (run_mul k x1 y1 L3 L1) as (z1 & E4 & L4 & G4). rewrite E4. cbn [bind].
  destruct (run_un k z1 Hk L4) as (z2 & E5 & L5 & G5). rewrite E5. cbn [bind].
  destruct (run_scale k z2 L5) as (z & E2 & L2 & G2). rewrite E2. exists z. split; auto. split. { congruence. }
  intros l Ll. rewrite G2, G5 by auto.
  rewrite (Fu_ext _ k _ (Fc (tws h sn) k (conv (2 ^ k) (cel x) (cel y)))); auto.
  - rewrite un_fft by auto. apply scaled.
  - intros i Li. rewrite G4, G3, G1 by auto. now rewrite (Fc_conv _ _ R) by auto.
Qed.

(* ---------- the real transform ---------- *)

Notation el := (fun (m : list K) i => nth i m f0).
Lemma rwin_el k v f (m' : list K) : rwin (2 ^ k) 0 (2 ^ k) v f m' ->
  length m' = (2 ^ k)%nat /\ forall i, i < 2 ^ k -> el m' i = f i.
Proof.
  intros (v' & [V1 V2] & G & _). split; auto. intros i Li. rewrite <- G by auto. apply nth_error_nth, V2. lia.
Qed.
Lemma rrun_fftr k (m : list K) : 1 <= k -> length m = (2 ^ k)%nat ->
  exists m', fftr h sn k 0 m = Ok m' /\ length m' = (2 ^ k)%nat /\ forall p, p < 2 ^ k -> el m' p = Fr (tws h sn) k (el m) p.
Proof.
  intros Hk Lm. destruct k as [|k]; [lia|]. pose proof (vec_of _ m Lm) as V.
  destruct (run _ _ (fftr_wp h sn k 0 (2 ^ S k) _ m (fun _ => False) ltac:(lia) V)) as (m' & E & W).
  apply rwin_el in W. destruct W as [L' W]. exists m'. split; auto.
Qed.
Lemma rrun_un k (m : list K) : 1 <= k -> length m = (2 ^ k)%nat ->
  exists m', fftr_un h sn k 0 m = Ok m' /\ length m' = (2 ^ k)%nat /\ forall p, p < 2 ^ k -> el m' p = Fru (tws h sn) k (el m) p.
Proof.
  intros Hk Lm. destruct k as [|k]; [lia|]. pose proof (vec_of _ m Lm) as V.
  destruct (run _ _ (fftr_un_wp h sn k 0 (2 ^ S k) _ m (fun _ => False) ltac:(lia) V)) as (m' & E & W).
  apply rwin_el in W. destruct W as [L' W]. exists m'. split; auto.
Qed.
Lemma rrun_scale k (m : list K) : 1 <= k -> length m = (2 ^ k)%nat ->
  exists m', fftr_scale k m = Ok m' /\ length m' = (2 ^ k)%nat /\ forall p, p < 2 ^ k -> el m' p = f1 / fn (2 ^ k) * dbl (el m) p.
Proof.
  intros Hk Lm. pose proof (vec_of _ m Lm) as V.
  destruct (run _ _ (fftr_scale_wp k (2 ^ k) _ m (fun _ => False) Hk ltac:(lia) V)) as (m' & E & W).
  apply rwin_el in W. destruct W as [L' W]. exists m'. split; auto.
Qed.
Lemma rrun_mul k (a b : list K) : 1 <= k -> length a = (2 ^ k)%nat -> length b = (2 ^ k)%nat ->
  exists m', fftr_mul k a b = Ok m' /\ length m' = (2 ^ k)%nat /\ forall p, p < 2 ^ k -> el m' p = pmul (el a) (el b) p.
Proof.
  intros Hk La Lb. pose proof (vec_of _ a La) as V. pose proof (vec_of _ b Lb) as U.
  destruct (run _ _ (fftr_mul_wp k (2 ^ k) _ a _ b (fun _ => False) Hk ltac:(lia) V U)) as (m' & E & W).
  apply rwin_el in W. destruct W as [L' W]. exists m'. split; auto.
Qed.
Lemma half k : 1 <= k -> (2 ^ k = 2 * 2 ^ (k - 1) /\ 2 ^ k / 2 = 2 ^ (k - 1))%nat.
Proof. intros H. assert (E : (2 ^ k = 2 * 2 ^ (k - 1))%nat) by (rewrite <- pow2S; f_equal; lia). split; auto. rewrite E. apply div_2. Qed.
Lemma rx_el k (m : list K) l : 1 <= k -> length m = (2 ^ k)%nat -> rx (2 ^ (k - 1)) (el m) l = seq_el m l.
Proof. intros Hk L. unfold rx, seq_el. rewrite L. destruct (half k Hk) as [_ ->]. reflexivity. Qed.

(* The real transform of a sequence packs half of the Fourier transform: the first two numbers
   are frequencies 0 and half the size, both real, and then follow complex numbers. *)
Theorem C56_real_transform k (m : list K) : exact_constants h sn -> 1 <= k -> length m = (2 ^ k)%nat ->
  exists m', fftr h sn k 0 m = Ok m' /\ length m' = length m /\
    let X := dft (2 ^ k) (omega h sn k) (fun l => real (seq_el m l)) in
    real (nth 0 m' f0) = X 0 /\ real (nth 1 m' f0) = X (2 ^ (k - 1))%nat /\
    forall q, 1 <= q < 2 ^ (k - 1) -> cel m' q = X (rfreq k q).
Proof.
  intros X Hk Lm. destruct (rrun_fftr k m Hk Lm) as (m' & E & L' & G). exists m'. split; auto. split. { congruence. }
  intros Y. destruct (half k Hk) as [EN _]. pose proof (pow2pos (k - 1)) as P.
  destruct (Fr_dft _ _ (factor_roots X) k (el m) Hk) as (A & B & D). cbn beta zeta in A, B, D.
  assert (EY : forall f, dft (2 ^ k) (omega h sn k) (fun l => emb (rx (2 ^ (k - 1)) (el m) l)) f = Y f).
  { intros f. apply dft_ext. intros i Li. rewrite rx_el by auto. reflexivity. }
  rewrite EY in A, B. split; [|split].
  - rewrite <- A, <- G by lia. reflexivity.
  - rewrite <- B, <- G by lia. reflexivity.
  - intros q Lq. rewrite <- EY, <- D by auto. unfold cel. rewrite <- !G by lia. reflexivity.
Qed.
(* the other half of the transform of real numbers is the conjugate of this one: of every pair
   of opposite frequencies there is one *)
Theorem C56_real_frequencies k : 1 <= k ->
  (forall q, 1 <= q < 2 ^ (k - 1) -> 0 < rfreq k q < 2 ^ k /\ rfreq k q <> (2 ^ (k - 1))%nat) /\
  (forall p q, 1 <= p < 2 ^ (k - 1) -> 1 <= q < 2 ^ (k - 1) -> rfreq k p = rfreq k q -> p = q) /\
  (forall p q, 1 <= p < 2 ^ (k - 1) -> 1 <= q < 2 ^ (k - 1) -> (rfreq k p + rfreq k q <> 2 ^ k)%nat).
Proof.
  intros Hk. destruct k as [|k]; [lia|]. replace (S k - 1)%nat with k by lia. rewrite pow2S. split; [|split].
  - intros q Lq. now apply rfreq_lt.
  - intros p q Lp Lq. now apply rfreq_inj.
  - intros p q Lp Lq. now apply rfreq_opp.
Qed.
(* the scaling of the real transform has to come before the inverse *)
Theorem C56_real_roundtrip k (m : list K) : unit_constants h sn -> 1 <= k -> length m = (2 ^ k)%nat ->
  (let* m1 := fftr h sn k 0 m in let* m2 := fftr_scale k m1 in fftr_un h sn k 0 m2) = Ok m.
Proof.
  intros U Hk Lm. apply units in U.
  destruct (rrun_fftr k m Hk Lm) as (m1 & E1 & L1 & G1). rewrite E1. cbn [bind].
  destruct (rrun_scale k m1 Hk L1) as (m2 & E2 & L2 & G2). rewrite E2. cbn [bind].
  destruct (rrun_un k m2 Hk L2) as (m3 & E3 & L3 & G3). rewrite E3. f_equal.
  apply (nth_ext m3 m f0 f0). { congruence. } intros p Lp. rewrite L3 in Lp. rewrite G3 by auto.
  rewrite (Fru_ext _ k _ (fun i => f1 / fn (2 ^ k) * dbl (Fr (tws h sn) k (el m)) i)); auto.
  - rewrite Fru_scale, un_fftr by auto. assert (N : @fn K (2 ^ k) <> f0) by (apply fn_pos, pow2pos). field. auto.
  - intros i Li. rewrite G2 by auto. unfold dbl. now rewrite !G1 by auto.
Qed.
Theorem C56_real_convolution k (x y : list K) : exact_constants h sn -> 1 <= k ->
  length x = (2 ^ k)%nat -> length y = (2 ^ k)%nat ->
  exists z, (let* y := fftr h sn k 0 y in let* y := fftr_scale k y in let* x := fftr h sn k 0 x in
             let* x := fftr_mul k x y in fftr_un h sn k 0 x) = Ok z /\
    length z = length x /\ forall l, l < 2 ^ k -> seq_el z l = cyclic (2 ^ k) (seq_el x) (seq_el y) l.
Proof.
  intros X Hk Lx Ly. pose proof (factor_roots X) as R. destruct X as [U _]. apply units in U.
  destruct (half k Hk) as [EN _]. pose proof (pow2pos (k - 1)) as P.
  destruct (rrun_fftr k y Hk Ly) as (y1 & E1 & L1 & G1). rewrite E1. cbn [bind].
  destruct (rrun_scale k y1 Hk L1) as (y2 & E2 & L2 & G2). rewrite E2. cbn [bind].
  destruct (rrun_fftr k x Hk Lx) as (x1 & E3 & L3 & G3). rewrite E3. cbn [bind].
  destruct (rrun_mul k x1 y2 Hk L3 L2) as (z1 & E4 & L4 & G4). rewrite E4. cbn [bind].
  destruct (rrun_un k z1 Hk L4) as (z & E5 & L5 & G5). rewrite E5. exists z. split; auto. split. { congruence. }
  set (M := (2 ^ (k - 1))%nat) in *. set (c := lay M (rconv (2 ^ k) (rx M (el x)) (rx M (el y)))).
  assert (Z : forall p, p < 2 ^ k -> el z p = c p).
  { intros p Lp. rewrite G5 by auto.
    rewrite (Fru_ext _ k _ (fun i => f1 / fn (2 ^ k) * dbl (Fr (tws h sn) k c) i)); auto.
    - rewrite Fru_scale, un_fftr by auto. assert (N : @fn K (2 ^ k) <> f0) by (apply fn_pos, pow2pos). field. auto.
    - intros i Li. rewrite G4 by auto. unfold c, M. unfold dbl. rewrite (Fr_conv _ _ R) by auto. fold M.
      unfold pmul. destruct (Nat.ltb_spec i 2) as [L|L].
      + rewrite G3, G2 by auto. unfold dbl. destruct (Nat.ltb_spec i 2); [|lia]. rewrite G1 by auto. ring.
      + destruct (halves i) as [j Ej]. assert (Lj : (2 * j + 1 < 2 ^ k)%nat) by lia.
        destruct Ej as [->| ->]; rewrite ?div_2, ?div_21; unfold part; rewrite ?even_2, ?even_21; rewrite !G3, !G2 by lia;
        unfold dbl; bcases; rewrite !G1 by lia; cbn; ring. }
  intros l Ll. rewrite <- (rx_el k) by auto. fold M.
  transitivity (rx M c l). { unfold rx. bcases; apply Z; lia. }
  unfold c. rewrite rx_lay by lia. unfold rconv, cyclic.
  assert (Ex : forall n (f g : nat -> K), (forall i, i < n -> f i = g i) -> rsum n f = rsum n g).
  { induction n; intros f g H; cbn [rsum]; auto. rewrite (IHn f g) by auto. now rewrite H by lia. }
  apply Ex. intros i Li. unfold M. now rewrite (rx_el k x), (rx_el k y) by auto.
Qed.
End Proofs.

(* ---------- examples ---------- *)

(* the small transforms use no constants, so can be computed over the rationals *)
Definition shown (x : outcome (list QcF)) (l : list Z) : bool := same x (nums l).
Definition h0 : QcF := qz 0.
Definition sn0 : nat -> nat -> QcF := fun _ _ => qz 0.

(* (1+2i, 3, 5-i, 4i) has the transform below; the places hold the frequencies 0, 2, 1, 3 *)
Example C56_transform_ex :
  shown (fftc h0 sn0 2 0 (nums [1; 2; 3; 0; 5; -1; 0; 4]%Z)) [9; 5; 3; -3; 0; 6; -8; 0]%Z = true.
Proof. vm_compute. reflexivity. Qed.
Example C56_frequencies_ex : map (freq 2) (seq 0 4) = [0; 2; 1; 3] /\ map (freq 3) (seq 0 8) = [0; 4; 2; 6; 1; 5; 7; 3].
Proof. split; reflexivity. Qed.
Example C56_roundtrip_ex :
  shown (let* m1 := fftc h0 sn0 2 0 (nums [1; 2; 3; 0; 5; -1; 0; 4]%Z) in let* m2 := fftc_un h0 sn0 2 0 m1 in fftc_scale 2 m2)
    [1; 2; 3; 0; 5; -1; 0; 4]%Z = true.
Proof. vm_compute. reflexivity. Qed.
(* (1, 2, 0, 0) with (3, 0, 0, i) *)
Example C56_convolution_ex :
  shown (let* y := fftc h0 sn0 2 0 (nums [3; 0; 0; 0; 0; 0; 0; 1]%Z) in let* y := fftc_scale 2 y in
         let* x := fftc h0 sn0 2 0 (nums [1; 0; 2; 0; 0; 0; 0; 0]%Z) in
         let* x := fftc_mul 4 x y in fftc_un h0 sn0 2 0 x) [3; 2; 6; 0; 0; 0; 0; 1]%Z = true.
Proof. vm_compute. reflexivity. Qed.
(* the sequence 1, 2, 3, 4 *)
Example C56_real_transform_ex : shown (fftr h0 sn0 2 0 (nums [1; 3; 2; 4]%Z)) [10; -2; -2; -2]%Z = true /\ rfreq 2 1 = 1.
Proof. split; vm_compute; reflexivity. Qed.
Example C56_real_roundtrip_ex :
  shown (let* m1 := fftr h0 sn0 2 0 (nums [1; 3; 2; 4]%Z) in let* m2 := fftr_scale 2 m1 in fftr_un h0 sn0 2 0 m2) [1; 3; 2; 4]%Z = true.
Proof. vm_compute. reflexivity. Qed.
(* with the scaling last, as for the complex transform, the real transforms are no inverses *)
Theorem C56_real_scale_last_refuted : ~ forall m : list QcF, length m = 4 ->
  (let* m1 := fftr h0 sn0 2 0 m in let* m2 := fftr_un h0 sn0 2 0 m1 in fftr_scale 2 m2) = Ok m.
Proof.
  intros H. specialize (H (nums [1; 3; 2; 4]%Z) eq_refl).
  assert (E : shown (Ok (nums [1; 3; 2; 4]%Z)) [1; 3; 2; 4]%Z = true) by (vm_compute; reflexivity).
  rewrite <- H in E. vm_compute in E. discriminate.
Qed.
(* (1, 2, 0, 0) with (3, 0, 0, 5) is (3 + 10, 6, 0, 5) *)
Example C56_real_convolution_ex :
  shown (let* y := fftr h0 sn0 2 0 (nums [3; 0; 0; 5]%Z) in let* y := fftr_scale 2 y in let* x := fftr h0 sn0 2 0 (nums [1; 0; 2; 0]%Z) in
         let* x := fftr_mul 2 x y in fftr_un h0 sn0 2 0 x) [13; 0; 6; 5]%Z = true.
Proof. vm_compute. reflexivity. Qed.

Print Assumptions C56_transform.
Print Assumptions C56_frequencies.
Print Assumptions C56_root.
Print Assumptions C56_roundtrip.
Print Assumptions C56_convolution.
Print Assumptions C56_convolution_last.
Print Assumptions C56_real_transform.
Print Assumptions C56_real_frequencies.
Print Assumptions C56_real_roundtrip.
Print Assumptions C56_real_scale_last_refuted.
Print Assumptions C56_real_convolution.
