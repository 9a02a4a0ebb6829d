(* Proofs about the inverse by Cholesky, the refinement of the banded solver and the LDL'
   factorisation. *)
From Coq Require Import List ZArith Lia Bool Arith Field.
From Verif Require Import Base LinBase LinDet GaussModel GaussProofs LuProofs TransposeModel
  CholModel CholProofs.
Import ListNotations.
Local Open Scope nat_scope.

Section Proofs.
Context {K : ofield}.
Local Open Scope lin_scope.
Add Field Kf9 : (f_th K).
Notation matrix := (nat -> nat -> K).

(* a lower triangular matrix without zeros on the diagonal *)
Definition lowtri (n : nat) (L : matrix) : Prop :=
  (forall r c, r < c -> L r c = f0) /\ (forall r, r < n -> L r r <> f0).
Definition mprod (n : nat) (A B : matrix) : matrix := fun r c => sumr 0 n (fun k => A r k * B k c).
Definition ident (r c : nat) : K := if r =? c then f1 else f0.

Lemma lowtri_cut n L (y : nat -> K) r : lowtri n L -> r < n ->
  sumr 0 n (fun k => L r k * y k) = sumr 0 r (fun k => L r k * y k) + L r r * y r.
Proof.
  intros [Z _] R. rewrite (sumr_split 0 (S r) n), (sumr_zero (S r) n) by
    (try lia; intros k Lk; rewrite (Z r k) by lia; ring).
  rewrite sumr_S by lia. ring.
Qed.
Lemma lowtri_inj n L (y z : nat -> K) : lowtri n L ->
  (forall r, r < n -> sumr 0 n (fun k => L r k * y k) = sumr 0 n (fun k => L r k * z k)) ->
  forall r, r < n -> y r = z r.
Proof.
  intros LT H. assert (G : forall t r, r < t -> r < n -> y r = z r).
  { induction t; intros r T R. { lia. }
    destruct (Nat.eq_dec r t) as [->|]; [|apply IHt; lia].
    pose proof (H t R) as E. rewrite !(lowtri_cut n L) in E by auto.
    rewrite (sumr_ext 0 t _ (fun k => L t k * z k)) in E.
    2:{ intros k Lk. rewrite IHt by lia. auto. }
    destruct LT as [_ D]. pose proof (D t R).
    set (p := sumr 0 t (fun k => L t k * z k)) in *.
    replace (y t) with ((p + L t t * y t - p) / L t t) by (field; auto).
    rewrite E. field. auto. }
  intros r R. apply (G (S r)); lia.
Qed.
Lemma mprod_assoc n (A B C : matrix) r c : mprod n A (mprod n B C) r c = mprod n (mprod n A B) C r c.
Proof.
  unfold mprod.
  rewrite (sumr_ext 0 n _ (fun k => sumr 0 n (fun j => A r k * B k j * C j c))).
  2:{ intros k Lk. rewrite <- sumr_scale. apply sumr_ext. intros; ring. }
  rewrite sumr_swap. apply sumr_ext. intros j Lj. now rewrite sumr_scale_r.
Qed.
Lemma mprod_ext n (A B A' B' : matrix) r c :
  (forall k, k < n -> A r k = A' r k) -> (forall k, k < n -> B k c = B' k c) ->
  mprod n A B r c = mprod n A' B' r c.
Proof. intros H1 H2. apply sumr_ext. intros k Lk. now rewrite H1, H2 by lia. Qed.
Lemma mprod_id_l n (A : matrix) r c : r < n -> mprod n ident A r c = A r c.
Proof.
  intros R. unfold mprod. rewrite (sumr_one 0 n (fun k => ident r k * A k c) r).
  - unfold ident. rewrite Nat.eqb_refl. ring.
  - lia.
  - intros k Lk N. unfold ident. bcases; ring.
Qed.
Lemma mprod_id_r n (A : matrix) r c : c < n -> mprod n A ident r c = A r c.
Proof.
  intros R. unfold mprod. rewrite (sumr_one 0 n (fun k => A r k * ident k c) c).
  - unfold ident. rewrite Nat.eqb_refl. ring.
  - lia.
  - intros k Lk N. unfold ident. bcases; ring.
Qed.
Lemma lowtri_left n L M : lowtri n L -> (forall r c, r < n -> c < n -> mprod n L M r c = ident r c) ->
  forall r c, r < n -> c < n -> mprod n M L r c = ident r c.
Proof.
  intros LT H r c R C. apply (lowtri_inj n L (fun k => mprod n M L k c) (fun k => ident k c) LT); auto.
  intros s Hs. change (mprod n L (mprod n M L) s c = mprod n L ident s c).
  rewrite mprod_assoc, mprod_id_r by auto.
  rewrite (mprod_ext n (mprod n L M) L ident L) by auto. now apply mprod_id_l.
Qed.
(* (L L')(M' M) = I when L M = I *)
Lemma chol_inverse n (L M : matrix) : lowtri n L ->
  (forall r c, r < n -> c < n -> mprod n L M r c = ident r c) ->
  forall r c, r < n -> c < n ->
  mprod n (fun i j => sumr 0 n (fun k => L i k * L j k)) (fun i j => sumr 0 n (fun k => M k i * M k j)) r c
    = ident r c.
Proof.
  intros LT H r c R C. pose proof (lowtri_left n L M LT H) as HL.
  set (Lt := fun i j => L j i). set (Mt := fun i j => M j i).
  change (mprod n (mprod n L Lt) (mprod n Mt M) r c = ident r c).
  rewrite <- mprod_assoc.
  rewrite (mprod_ext n L (mprod n Lt (mprod n Mt M)) L M); auto.
  intros k Lk. rewrite mprod_assoc. rewrite (mprod_ext n (mprod n Lt Mt) M ident M); auto.
  - now apply mprod_id_l.
  - intros j Lj. unfold Lt, Mt. unfold mprod.
    rewrite (sumr_ext 0 n _ (fun q => M j q * L q k)) by (intros; ring).
    change (mprod n M L j k = ident k j). rewrite HL by auto. unfold ident. now rewrite Nat.eqb_sym.
Qed.

(* ---------- the first part of inv_chol: L becomes its inverse ---------- *)

Definition inv1 (n i : nat) (L A : matrix) : Prop :=
  (forall r, r < n -> A r r * L r r = f1) /\
  (forall r c, c < r -> r < n -> i <= c -> A r c = L r c) /\
  (forall r c, c < r -> r < n -> c < i -> sumr c (S r) (fun k => L r k * A k c) = f0).

Lemma inv1_wp n a (L A0 : matrix) E : mat n n a A0 -> inv1 n 0 L A0 ->
  wp (for_up 0 n (fun i a =>
    for_up (i + 1) n (fun j a =>
      let* s := for_up i j (fun k s =>
        let* x := aget a (j * n + k) in
        let* y := aget a (k * n + i) in
        Ok (s - x * y)) f0 in
      let* d := aget a (j * n + j) in
      aset a (j * n + i) (s * d)) a) a)
    (fun a => exists A, mat n n a A /\ inv1 n n L A) E.
Proof.
  intros M I0. eapply wp_mono; [apply wp_for with
    (P := fun i a => exists A, mat n n a A /\ inv1 n i L A) | auto].
  - lia.
  - eauto.
  - intros i a1 Li (A & M1 & D1 & R1 & F1).
    eapply wp_mono; [apply wp_for with
      (P := fun j a => exists B, mat n n a B /\ (forall r, r < n -> B r r * L r r = f1) /\
        (forall r c, c < r -> r < n -> i <= c -> (i < c \/ j <= r) -> B r c = L r c) /\
        (forall r c, c < r -> r < n -> (c < i \/ (c = i /\ r < j)) ->
           sumr c (S r) (fun k => L r k * B k c) = f0)) | cbn beta].
    + lia.
    + exists A. split; auto. split; auto. split.
      * intros. apply R1; lia.
      * intros. apply F1; lia.
    + intros j a2 Lj (B & M2 & D2 & R2 & F2).
      apply wp_seq with (P := fun s => s = - sumr i j (fun k => L j k * B k i)).
      { eapply wp_mono; [apply wp_for with (P := fun t s => s = - sumr i t (fun k => L j k * B k i)) | auto].
        - lia.
        - rewrite sumr_nil by lia. ring.
        - intros k s Lk ->. apply wp_bind. eapply wp_mget; eauto; try lia.
          apply wp_bind. eapply wp_mget; eauto; try lia. cbn [wp].
          rewrite Nat.add_1_r, sumr_S by lia. rewrite (R2 j k) by lia. ring. }
      intros s ->. apply wp_bind. eapply wp_mget; eauto; try lia.
      eapply wp_mset; eauto; try lia. intros a3 M3. set (s := sumr i j (fun k => L j k * B k i)) in *.
      exists (updm B j i (- s * B j j)). split; auto. split; [|split].
      * intros r R. unfold updm. bcases; auto.
      * intros r c C R Ic Or. unfold updm. bcases; apply R2; auto; lia.
      * intros r c C R Or. destruct (Nat.eq_dec r j) as [->|Nr].
        -- destruct (Nat.eq_dec c i) as [->|Nc].
           ++ rewrite sumr_S by lia. rewrite (sumr_ext i j _ (fun k => L j k * B k i)).
              2:{ intros k Lk. unfold updm. bcases; auto. }
              fold s. unfold updm. rewrite !Nat.eqb_refl. cbn [andb].
              replace (s + L j j * (- s * B j j)) with (s - s * (B j j * L j j)) by ring.
              rewrite D2 by lia. ring.
           ++ rewrite <- (F2 j c) by lia. apply sumr_ext. intros k Lk. unfold updm. bcases; auto.
        -- rewrite <- (F2 r c) by lia. apply sumr_ext. intros k Lk. unfold updm. bcases; auto.
    + intros a2 (B & M2 & D2 & R2 & F2). exists B. split; auto. split; auto. split.
      * intros. apply R2; auto; lia.
      * intros. apply F2; auto. lia.
Qed.

(* ---------- the second part: the product of the inverse with its transpose ---------- *)

Definition xprod (n : nat) (M : matrix) : matrix := fun r c =>
  sumr (Nat.max r c) n (fun k => M k r * M k c).
Definition inv2 (n i : nat) (M A : matrix) : Prop :=
  (forall r c, r < n -> c < n -> Nat.min r c < i -> A r c = xprod n M r c) /\
  (forall r c, r < n -> i <= c <= r -> A r c = M r c).
Lemma xprod_sym n M r c : xprod n M r c = xprod n M c r.
Proof. unfold xprod. rewrite Nat.max_comm. apply sumr_ext. intros; ring. Qed.

Lemma inv2_wp n a (M : matrix) E : mat n n a M ->
  wp (for_up 0 n (fun i a =>
    let* d := aget a (i * n + i) in
    let* a := aset a (i * n + i) (d * d) in
    let* a := for_up (i + 1) n (fun j a =>
      let* d := aget a (i * n + i) in
      let* x := aget a (j * n + i) in
      aset a (i * n + i) (d + x * x)) a in
    for_up (i + 1) n (fun j a =>
      let* a := aset a (i * n + j) f0 in
      let* a := for_up j n (fun k a =>
        let* s := aget a (i * n + j) in
        let* x := aget a (k * n + i) in
        let* y := aget a (k * n + j) in
        aset a (i * n + j) (s + x * y)) a in
      let* s := aget a (i * n + j) in
      aset a (j * n + i) s) a) a)
    (fun a => mat n n a (xprod n M)) E.
Proof.
  intros M0. eapply wp_mono; [apply wp_for with
    (P := fun i a => exists A, mat n n a A /\ inv2 n i M A) | cbn beta].
  - lia.
  - exists M. split; auto. split; auto. intros; lia.
  - intros i a1 Li (A & M1 & X1 & R1).
    apply wp_bind. eapply wp_mget; eauto; try lia.
    apply wp_bind. eapply wp_mset; eauto; try lia. intros a2 M2.
    apply wp_seq with (P := fun a => mat n n a (updm A i i (xprod n M i i))).
    { eapply wp_mono; [apply wp_for with
        (P := fun t a => mat n n a (updm A i i (sumr i t (fun k => M k i * M k i)))) | cbn beta].
      - lia.
      - eapply mat_ext; eauto. intros r c R C. unfold updm. bcases; subst; auto.
        rewrite R1 by lia. rewrite Nat.add_1_r, sumr_S, sumr_nil by lia. ring.
      - intros j a3 Lj M3. apply wp_bind. eapply wp_mget; eauto; try lia.
        apply wp_bind. eapply wp_mget; eauto; try lia.
        eapply wp_mset; eauto; try lia. intros a4 M4. eapply mat_ext; eauto.
        intros r c R C. unfold updm. bcases; subst; auto.
        rewrite (Nat.add_1_r j), sumr_S by lia. rewrite (R1 j i) by lia. ring.
      - intros a3 M3. eapply mat_ext; eauto. intros r c R C. unfold updm. bcases; auto.
        unfold xprod. now rewrite Nat.max_id. }
    intros a3 M3.
    eapply wp_mono; [apply wp_for with
      (P := fun j a => exists B, mat n n a B /\
         (forall r c, r < n -> c < n -> (Nat.min r c < i \/ (Nat.min r c = i /\ Nat.max r c < j)) ->
            B r c = xprod n M r c) /\
         (forall r c, r < n -> c <= r -> (i < c \/ (i = c /\ j <= r)) -> B r c = M r c)) | cbn beta].
    + lia.
    + eexists. split; [exact M3|]. split.
      * intros r c R C Or. unfold updm. destruct Or as [Or|[Or1 Or2]].
        -- bcases; apply X1; auto.
        -- replace r with i by lia. replace c with i by lia. rewrite !Nat.eqb_refl. reflexivity.
      * intros r c R C Or. unfold updm. bcases; apply R1; lia.
    + intros j a4 Lj (B & M4 & X4 & R4).
      apply wp_bind. eapply wp_mset; eauto; try lia. intros a5 M5.
      apply wp_seq with (P := fun a => mat n n a (updm B i j (sumr j n (fun k => M k i * M k j)))).
      { apply wp_for with (P := fun t a => mat n n a (updm B i j (sumr j t (fun k => M k i * M k j)))).
        - lia.
        - rewrite sumr_nil by lia. exact M5.
        - intros k a6 Lk M6. apply wp_bind. eapply wp_mget; eauto; try lia.
          apply wp_bind. eapply wp_mget; eauto; try lia.
          apply wp_bind. eapply wp_mget; eauto; try lia.
          eapply wp_mset; eauto; try lia. intros a7 M7. eapply mat_ext; eauto.
          intros r c R C. unfold updm. bcases; subst; auto.
          rewrite Nat.add_1_r, sumr_S by lia. rewrite (R4 k i), (R4 k j) by lia. ring. }
      intros a6 M6. apply wp_bind. eapply wp_mget; eauto; try lia.
      eapply wp_mset; eauto; try lia. intros a7 M7.
      eexists. split; [exact M7|].
      assert (Xij : sumr j n (fun k => M k i * M k j) = xprod n M i j).
      { unfold xprod. now rewrite Nat.max_r by lia. }
      split.
      * intros r c R C Or. unfold updm. bcases; subst; rewrite ?Xij; auto;
          try (apply xprod_sym); apply X4; auto; lia.
      * intros r c R C Or. unfold updm. bcases; apply R4; auto; lia.
    + intros a4 (B & M4 & X4 & R4). exists B. split; auto. split.
      * intros r c R C Or. apply X4; auto. lia.
      * intros r c R C. apply R4; lia.
  - intros a1 (A & M1 & X1 & _). eapply mat_ext; eauto. intros. apply X1; auto. lia.
Qed.

(* ---------- LDL' ---------- *)

Definition Ld (A : matrix) (r k : nat) : K := if k <? r then A r k else if k =? r then f1 else f0.
Lemma Ld_diag A r : Ld A r r = f1.
Proof. unfold Ld. bcases; auto. Qed.
Lemma Ld_in A r k : k < r -> Ld A r k = A r k.
Proof. intros. unfold Ld. bcases; auto. Qed.
Lemma Ld_out A r k : r < k -> Ld A r k = f0.
Proof. intros. unfold Ld. bcases; auto. Qed.
(* element (r,c), r >= c, of L D L' *)
Definition ldl (A : matrix) (r c : nat) : K :=
  sumr 0 (S c) (fun k => A k k * (Ld A r k * Ld A c k)).

(* columns before i are final, in column i those above row j *)
Definition lst (n : nat) (A0 : matrix) (i j : nat) (A : matrix) : Prop :=
  (forall r, r < n -> r < i \/ (r = i /\ r < j) -> A r r <> f0) /\
  (forall r c, c <= r -> r < n -> c < i \/ (c = i /\ r < j) -> A0 r c = ldl A r c) /\
  (forall r c, c <= r -> r < n -> ~ (c < i \/ (c = i /\ r < j)) -> A r c = A0 r c).
Definition lstuck (eps : K) (n : nat) (A0 : matrix) : Prop :=
  exists i A, i < n /\
    (forall r c, c <= r -> r <= i -> A0 r c = ldl A r c) /\ fltb (fabs (A i i)) eps = true.

Lemma ldl_ext A B r c : (forall k, k <= c -> A k k = B k k) -> (forall k, k <= c -> Ld A r k = Ld B r k) ->
  (forall k, k <= c -> Ld A c k = Ld B c k) -> ldl A r c = ldl B r c.
Proof. intros H1 H2 H3. apply sumr_ext. intros k Lk. now rewrite H1, H2, H3 by lia. Qed.

(* what writing the next element does *)
Lemma lst_diag n A0 i A v : i < n -> lst n A0 i i A -> v = A0 i i - sumr 0 i (fun k => A k k * (A i k * A i k)) ->
  (forall r c, c <= r -> r <= i -> A0 r c = ldl (updm A i i v) r c) /\
  (v <> f0 -> lst n A0 i (i + 1) (updm A i i v)).
Proof.
  intros I (D & F & R) ->. set (v := A0 i i - _).
  assert (O : forall r c, c <= r -> r < n -> c < i -> ldl (updm A i i v) r c = ldl A r c).
  { intros r c C Rn Ci. apply ldl_ext; intros k Lk; unfold Ld, updm; bcases; auto. }
  assert (Z : A0 i i = ldl (updm A i i v) i i).
  { unfold ldl. rewrite sumr_S by lia. rewrite (sumr_ext 0 i _ (fun k => A k k * (A i k * A i k))).
    2:{ intros k Lk. unfold Ld, updm. bcases; auto. }
    rewrite Ld_diag. unfold updm. rewrite Nat.eqb_refl. cbn [andb]. unfold v. ring. }
  split.
  - intros r c C Ri. destruct (Nat.eq_dec c i) as [->|].
    + replace r with i by lia. exact Z.
    + rewrite O by lia. apply F; lia.
  - intros Nz. split; [|split].
    + intros r Rn Or. unfold updm. bcases; auto. apply D; auto. lia.
    + intros r c C Rn Or. destruct (Nat.eq_dec c i) as [->|].
      * replace r with i by lia. exact Z.
      * rewrite O by lia. apply F; auto. lia.
    + intros r c C Rn Or. unfold updm. bcases. apply R; auto. lia.
Qed.
Lemma lst_below n A0 i j A v : i < j -> j < n -> lst n A0 i j A ->
  v = (A0 j i - sumr 0 i (fun k => A k k * (A i k * A j k))) / A i i ->
  lst n A0 i (j + 1) (updm A j i v).
Proof.
  intros I J (D & F & R) ->. set (v := _ / A i i).
  assert (Dg : forall k, updm A j i v k k = A k k). { intros. unfold updm. bcases; auto. }
  split; [|split].
  - intros r Rn Or. rewrite Dg. apply D; auto. lia.
  - intros r c C Rn Or. destruct (Nat.eq_dec r j) as [->|Nr].
    + destruct (Nat.eq_dec c i) as [->|Nc].
      * unfold ldl. rewrite sumr_S by lia.
        rewrite (sumr_ext 0 i _ (fun k => A k k * (A i k * A j k))).
        2:{ intros k Lk. rewrite Dg. unfold Ld, updm. bcases; ring. }
        rewrite Dg, Ld_diag, Ld_in by lia. unfold updm. rewrite !Nat.eqb_refl. cbn [andb].
        unfold v. field. apply D; lia.
      * rewrite (F j c) by lia. apply ldl_ext; intros k Lk; rewrite ?Dg; auto; unfold Ld, updm; bcases; auto.
    + rewrite (F r c) by lia. apply ldl_ext; intros k Lk; rewrite ?Dg; auto; unfold Ld, updm; bcases; auto.
  - intros r c C Rn Or. unfold updm. bcases; apply R; auto; lia.
Qed.

Lemma decmp_ldl_wp eps n a A0 : fltb f0 eps = true -> mat n n a A0 ->
  wp (decmp_ldl eps n a) (fun a' => exists A, mat n n a' A /\ lst n A0 n n A)
     (fun e => e = RuntimeError /\ lstuck eps n A0).
Proof.
  intros Ep M. unfold decmp_ldl.
  eapply wp_mono; [apply wp_for with (P := fun i a => exists A, mat n n a A /\ lst n A0 i i A) | cbn beta].
  - lia.
  - exists A0. split; auto. split; [|split]; intros; auto; lia.
  - intros i a1 Li (A & M1 & S1).
    apply wp_seq with (P := fun s => s = sumr 0 i (fun k => A k k * (A i k * A i k))).
    { eapply wp_mono; [apply wp_for with
        (P := fun t s => s = sumr 0 t (fun k => A k k * (A i k * A i k))) | auto].
      - lia.
      - now rewrite sumr_nil by lia.
      - intros k s Lk ->. apply wp_bind. eapply wp_mget; eauto; try lia.
        apply wp_bind. eapply wp_mget; eauto; try lia. cbn [wp].
        rewrite Nat.add_1_r, sumr_S by lia. ring. }
    intros s ->. apply wp_bind. eapply wp_mget; eauto; try lia.
    pose proof S1 as (D1 & F1 & R1). rewrite (R1 i i) by lia.
    set (v := A0 i i - sumr 0 i (fun k => A k k * (A i k * A i k))).
    apply wp_bind. eapply wp_mset; eauto; try lia. intros a2 M2.
    apply wp_bind. eapply wp_mget; eauto; try lia.
    destruct (lst_diag n A0 i A v) as [G1 G2]; auto; try lia.
    assert (Ev : updm A i i v i i = v). { unfold updm. bcases; auto. }
    destruct (fltb (fabs (updm A i i v i i)) eps) eqn:Ve.
    { cbn. split; auto. exists i, (updm A i i v). split; [lia|]. split; auto. }
    rewrite Ev in Ve.
    assert (Nv : v <> f0).
    { intros Z. rewrite Z, (proj2 (fabs_0 f0) eq_refl) in Ve. congruence. }
    specialize (G2 Nv). clear G1.
    eapply wp_mono; [apply wp_for with (P := fun j a => exists B, mat n n a B /\ lst n A0 i j B) | cbn beta].
    + lia.
    + eauto.
    + intros j a3 Lj (B & M3 & S3). pose proof S3 as (D3 & F3 & R3).
      apply wp_seq with (P := fun s => s = sumr 0 i (fun k => B k k * (B i k * B j k))).
      { eapply wp_mono; [apply wp_for with
          (P := fun t s => s = sumr 0 t (fun k => B k k * (B i k * B j k))) | auto].
        - lia.
        - now rewrite sumr_nil by lia.
        - intros k s Lk ->. apply wp_bind. eapply wp_mget; eauto; try lia.
          apply wp_bind. eapply wp_mget; eauto; try lia.
          apply wp_bind. eapply wp_mget; eauto; try lia. cbn [wp].
          rewrite Nat.add_1_r, sumr_S by lia. ring. }
      intros s ->. apply wp_bind. eapply wp_mget; eauto; try lia.
      apply wp_bind. eapply wp_mget; eauto; try lia.
      apply wp_bind. apply wp_divc. { apply D3; lia. }
      eapply wp_mset; eauto; try lia. intros a4 M4. eexists. split; [exact M4|].
      apply lst_below; auto; try lia. rewrite (R3 j i) by lia. reflexivity.
    + intros a3 (B & M3 & D3 & F3 & R3). exists B. split; auto. split; [|split].
      * intros r Rn Or. apply D3; auto. lia.
      * intros r c C Rn Or. apply F3; auto. lia.
      * intros r c C Rn Or. apply R3; auto. lia.
  - intros a1 (A & M1 & S1). eauto.
Qed.

(* the symmetric matrix of the lower triangle *)
Definition symm (A0 : matrix) : matrix := fun r c => A0 (Nat.max r c) (Nat.min r c).
Definition ldlfact (n : nat) (A0 A : matrix) : Prop :=
  (forall r, r < n -> A r r <> f0) /\ (forall r c, c <= r -> r < n -> A0 r c = ldl A r c).
Lemma ldl_full n A0 A : (forall r c, c <= r -> r < n -> A0 r c = ldl A r c) ->
  forall r c, r < n -> c < n ->
  symm A0 r c = sumr 0 n (fun k => Ld A r k * (A k k * Ld A c k)).
Proof.
  intros F. assert (H : forall r c, c <= r -> r < n ->
    symm A0 r c = sumr 0 n (fun k => Ld A r k * (A k k * Ld A c k))).
  { intros r c C R. unfold symm. rewrite Nat.max_l, Nat.min_r by lia. rewrite F by auto. unfold ldl.
    rewrite (sumr_split 0 (S c) n), (sumr_zero (S c) n) by
      (try lia; intros k Lk; rewrite (Ld_out A c k) by lia; ring).
    rewrite (sumr_ext 0 (S c) _ (fun k => Ld A r k * (A k k * Ld A c k))) by (intros; ring). ring. }
  intros r c R C. destruct (le_lt_dec c r). { now apply H. }
  replace (symm A0 r c) with (symm A0 c r).
  - rewrite H by lia. apply sumr_ext. intros; ring.
  - unfold symm. now rewrite Nat.max_comm, Nat.min_comm.
Qed.
Lemma ldl_dot n A0 A y r : (forall r c, c <= r -> r < n -> A0 r c = ldl A r c) -> r < n ->
  dot n (symm A0) r y = sumr 0 n (fun k => Ld A r k * (A k k * sumr 0 n (fun c => Ld A c k * y c))).
Proof.
  intros F R. unfold dot.
  rewrite (sumr_ext 0 n _ (fun c => sumr 0 n (fun k => Ld A r k * (A k k * Ld A c k) * y c))).
  - rewrite sumr_swap. apply sumr_ext. intros k Lk. rewrite <- !sumr_scale.
    apply sumr_ext. intros; ring.
  - intros c Lc. rewrite (ldl_full n A0 A) by (auto; lia). now rewrite sumr_scale_r.
Qed.

Lemma bksub_ldl_wp n m c a b (A0 A B : matrix) E : mat n n a A -> ldlfact n A0 A -> mat n m b B -> c < m ->
  wp (bksub_ldl n a b m c)
     (fun x => exists y, mat n m x (setcol c y B) /\ solv n (symm A0) y (fun r => B r c)) E.
Proof.
  intros M [D F] Mb C. unfold bksub_ldl.
  apply wp_seq with (P := fun x => exists Y, mat n m x (setcol c Y B) /\
     forall r, r < n -> sumr 0 n (fun k => Ld A r k * Y k) = B r c).
  { eapply wp_mono; [apply wp_for with
      (P := fun i x => exists Y, mat n m x (setcol c Y B) /\
         (forall r, r < i -> sumr 0 (S r) (fun k => Ld A r k * Y k) = B r c) /\
         (forall r, i <= r < n -> Y r = B r c)) | cbn beta].
    - lia.
    - exists (fun r => B r c). split.
      + eapply mat_ext; eauto. intros r k R Kk. unfold setcol. bcases; subst; auto.
      + split; intros; auto. lia.
    - intros i x Li (Y & Mx & Done & Rest).
      apply wp_seq with (P := fun s => s = sumr 0 i (fun k => A i k * Y k)).
      { eapply wp_mono; [apply wp_for with (P := fun t s => s = sumr 0 t (fun k => A i k * Y k)) | auto].
        - lia.
        - now rewrite sumr_nil by lia.
        - intros k s Lk ->. apply wp_bind. eapply wp_mget; eauto; try lia.
          apply wp_bind. eapply wp_mget; eauto; try lia. cbn [wp].
          rewrite setcol_eq, Nat.add_1_r, sumr_S by lia. auto. }
      intros s ->. apply wp_bind. eapply wp_mget; eauto; try lia.
      eapply wp_mset; eauto; try lia. intros x2 M2. rewrite setcol_eq, (Rest i) in M2 by lia.
      exists (updv Y i (B i c - sumr 0 i (fun k => A i k * Y k))). split; [|split].
      + eapply mat_ext; eauto. intros r j R J. unfold updm, setcol, updv. bcases; subst; auto.
      + intros r R. destruct (Nat.eq_dec r i) as [->|].
        * rewrite sumr_S by lia. rewrite (sumr_ext 0 i _ (fun k => A i k * Y k)).
          2:{ intros k Lk. unfold updv, Ld. bcases; auto. }
          unfold updv. rewrite Nat.eqb_refl, Ld_diag. ring.
        * rewrite <- (Done r) by lia. apply sumr_ext. intros k Lk. unfold updv. bcases; auto.
      + intros r R. unfold updv. bcases. apply Rest. lia.
    - intros x (Y & Mx & Done & _). exists Y. split; auto. intros r R.
      rewrite (sumr_split 0 (S r) n), (sumr_zero (S r) n) by
        (try lia; intros k Lk; rewrite (Ld_out A r k) by lia; ring).
      rewrite Done by auto. ring. }
  intros x0 (Y & M0 & HY).
  eapply wp_mono; [apply wp_down with
    (P := fun i x => exists y, mat n m x (setcol c y B) /\ (forall r, r < i -> y r = Y r) /\
       (forall r, i <= r < n -> A r r * sumr r n (fun k => Ld A k r * y k) = Y r)) | cbn beta].
  - lia.
  - exists Y. split; auto. split; intros; auto. lia.
  - intros i x Li (y & Mx & Rest & Done). assert (Eq : i = S (i - 1)) by lia.
    remember (i - 1)%nat as q eqn:Hq0. clear Hq0.
    assert (Nz : A q q <> f0) by (apply D; lia).
    apply wp_bind. eapply wp_mget; eauto; try lia.
    apply wp_bind. eapply wp_mget; eauto; try lia. rewrite setcol_eq, Rest by lia.
    apply wp_bind. apply wp_divc; auto.
    apply wp_bind. eapply wp_mset; eauto; try lia. intros x1 M1.
    apply wp_seq with (P := fun s => s = sumr i n (fun k => A k q * y k)).
    { eapply wp_mono; [apply wp_for with (P := fun t s => s = sumr i t (fun k => A k q * y k)) | auto].
      - lia.
      - now rewrite sumr_nil by lia.
      - intros k s Lk ->. apply wp_bind. eapply wp_mget; eauto; try lia.
        apply wp_bind. eapply wp_mget; eauto; try lia. cbn [wp].
        replace (updm (setcol c y B) q c (Y q / A q q) k c) with (y k)
          by (unfold updm, setcol; bcases; auto).
        rewrite Nat.add_1_r, sumr_S by lia. auto. }
    intros s ->. set (p := sumr i n (fun k => A k q * y k)).
    apply wp_bind. eapply wp_mget; eauto; try lia.
    eapply wp_mset; eauto; try lia. intros x2 M2.
    exists (updv y q (Y q / A q q - p)). split; [|split].
    + eapply mat_ext; eauto. intros r j R J. unfold updm, setcol, updv. bcases; subst; auto.
    + intros r R. unfold updv. bcases. apply Rest. lia.
    + intros r R. destruct (Nat.eq_dec r q) as [->|].
      * rewrite (sumr_first q n) by lia. rewrite <- Eq.
        rewrite (sumr_ext i n (fun k => Ld A k q * updv y q (Y q / A q q - p) k) (fun k => A k q * y k)).
        2:{ intros k Lk. unfold updv, Ld. bcases; auto. }
        fold p. unfold updv. rewrite Nat.eqb_refl, Ld_diag. field. auto.
      * rewrite <- (Done r) by lia. f_equal. apply sumr_ext. intros k Lk. unfold updv. bcases; auto.
  - intros x (y & Mx & _ & Done). exists y. split; auto. intros r R.
    rewrite (ldl_dot n A0 A y r F R). rewrite <- HY by auto. apply sumr_ext. intros k Lk. f_equal.
    rewrite (sumr_split 0 k n), (sumr_zero 0 k) by
        (try lia; intros j Lj; rewrite (Ld_out A j k) by lia; ring).
    rewrite <- (Done k) by lia. f_equal. ring.
Qed.

(* a vector that L' takes to the unit vector i; it ends at i *)
Lemma unit_back A i : exists y : nat -> K, y i = f1 /\ (forall k, i < k -> y k = f0) /\
  forall k, k < i -> sumr 0 (S i) (fun c => Ld A c k * y c) = f0.
Proof.
  destruct (upper_solvable i (fun k c => Ld A c k) (fun k => - Ld A i k)) as (z & Hz).
  { intros r R. rewrite Ld_diag. apply f1_neq_f0. }
  exists (fun k => if k <? i then z k else if k =? i then f1 else f0). split; [|split].
  - bcases; auto.
  - intros. bcases; auto.
  - intros k Lk. rewrite sumr_S by lia. rewrite Nat.ltb_irrefl, Nat.eqb_refl.
    pose proof (Hz k Lk) as Z. unfold dot in Z.
    rewrite (sumr_ext 0 i _ (fun c => zeroed i (fun k c => Ld A c k) k c * z c)).
    + rewrite Z. ring.
    + intros c Lc. unfold zeroed. bcases; auto. rewrite Ld_out by lia. ring.
Qed.
(* the leading part of the matrix takes some vector with y_i = 1 nearly to zero *)
Definition lead_small (eps : K) (n : nat) (S0 : matrix) : Prop :=
  exists i y, i < n /\ y i = f1 /\
    (forall r, r < i -> sumr 0 (S i) (fun c => S0 r c * y c) = f0) /\
    fltb (fabs (sumr 0 (S i) (fun c => S0 i c * y c))) eps = true.
Lemma lstuck_small eps n A0 : lstuck eps n A0 -> lead_small eps n (symm A0).
Proof.
  intros (i & A & I & F & Sm). destruct (unit_back A i) as (y & Y1 & Y0 & Yk).
  exists i, y. split; auto. split; auto.
  assert (H : forall r, r <= i -> sumr 0 (S i) (fun c => symm A0 r c * y c) = Ld A r i * A i i).
  { intros r R. change (dot (S i) (symm A0) r y = Ld A r i * A i i).
    rewrite (ldl_dot (S i) A0 A y r); [|intros; apply F; lia|lia].
    rewrite sumr_S by lia. rewrite sumr_zero.
    2:{ intros k Lk. rewrite Yk by lia. ring. }
    rewrite sumr_S by lia. rewrite sumr_zero.
    2:{ intros k Lk. rewrite Ld_out by lia. ring. }
    rewrite Ld_diag, Y1. ring. }
  split.
  - intros r R. rewrite H by lia. rewrite Ld_out by lia. ring.
  - rewrite H by lia. rewrite Ld_diag. now replace (f1 * A i i) with (A i i) by ring.
Qed.

(* uniqueness *)
Lemma ldl_unique n A0 A y z b : ldlfact n A0 A -> solv n (symm A0) y b -> solv n (symm A0) z b ->
  forall r, r < n -> y r = z r.
Proof.
  intros [D F] Y Z.
  assert (LT : lowtri n (Ld A)).
  { split; [intros; now apply Ld_out|]. intros. rewrite Ld_diag. apply f1_neq_f0. }
  set (u := fun (y : nat -> K) k => sumr 0 n (fun c => Ld A c k * y c)).
  assert (H1 : forall r, r < n -> A r r * u y r = A r r * u z r).
  { apply (lowtri_inj n (Ld A) (fun r => A r r * u y r) (fun r => A r r * u z r) LT). intros r R.
    pose proof (Y r R) as E1. pose proof (Z r R) as E2.
    rewrite (ldl_dot n A0 A) in E1, E2 by auto. unfold u. rewrite E1, E2. auto. }
  assert (H2 : forall r, r < n -> u y r = u z r).
  { intros r R. pose proof (D r R). replace (u y r) with (A r r * u y r / A r r) by (field; auto).
    rewrite H1 by auto. field. auto. }
  assert (G : forall t r, n - t <= r < n -> y r = z r).
  { induction t; intros r R. { lia. }
    pose proof (H2 r ltac:(lia)) as E. unfold u in E.
    assert (Cut : forall f : nat -> K, sumr 0 n (fun k => Ld A k r * f k) = f r + sumr (S r) n (fun k => Ld A k r * f k)).
    { intros f. rewrite (sumr_split 0 r n), (sumr_zero 0 r) by
        (try lia; intros k Lk; rewrite (Ld_out A k r) by lia; ring).
      rewrite sumr_first by lia. rewrite Ld_diag. ring. }
    rewrite !Cut in E.
    rewrite (sumr_ext (S r) n _ (fun k => Ld A k r * z k)) in E.
    2:{ intros k Lk. rewrite IHt by lia. auto. }
    set (p := sumr (S r) n (fun k => Ld A k r * z k)) in *.
    replace (y r) with (y r + p - p) by ring. rewrite E. ring. }
  intros r R. apply (G n). lia.
Qed.
End Proofs.
