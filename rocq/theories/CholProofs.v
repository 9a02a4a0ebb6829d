(* Proofs about the Cholesky factorisation over a generic storage. *)
From Coq Require Import List ZArith Lia Bool Arith Field.
From Verif Require Import Base LinBase LinDet GaussModel GaussProofs LuProofs TransposeModel CholModel.
Import ListNotations.
Local Open Scope nat_scope.

Section Proofs.
Context {K : ofield}.
Local Open Scope lin_scope.
Add Field Kf8 : (f_th K).
Notation matrix := (nat -> nat -> K).

(* what is needed of sqrt *)
Definition sqrt_ok (sq : K -> K) : Prop := forall x, fltb f0 x = true -> sq x * sq x = x.

(* the quadratic form of a symmetric matrix *)
Definition quad (n : nat) (S : matrix) (y : nat -> K) : K :=
  sumr 0 n (fun r => sumr 0 n (fun c => y r * S r c * y c)).
Definition pos_def (n : nat) (S : matrix) : Prop :=
  forall y, (exists i, i < n /\ y i <> f0) -> fltb f0 (quad n S y) = true.

Section Generic.
Variable n N : nat.
Variable ix : nat -> nat -> nat.
Variables lo hi : nat -> nat.
Variable recip : bool.
Variable sq : K -> K.
(* the stored elements *)
Definition dom (i j : nat) : Prop := i <= j < n /\ lo j <= i.
Hypothesis sqok : sqrt_ok sq.
Hypothesis ix_in : forall i j, dom i j -> ix i j < N.
Hypothesis ix_inj : forall i j i' j', dom i j -> dom i' j' -> ix i j = ix i' j' -> i = i' /\ j = j'.
Hypothesis lo_hi : forall i j, i <= j < n -> (lo j <= i <-> j < hi i).
Hypothesis hi_n : forall i, hi i <= n.
Hypothesis lo_mono : forall i j, i <= j -> lo i <= lo j.
Hypothesis lo_le : forall j, lo j <= j.

Lemma hi_i i : i < n -> i < hi i.
Proof. intros L. apply lo_hi; auto. Qed.
Lemma dom_hi i j : i < n -> i <= j -> j < hi i -> dom i j.
Proof.
  intros L I J. pose proof (hi_n i). split; [lia|]. apply lo_hi; auto. lia.
Qed.
Lemma dom_diag i : i < n -> dom i i.
Proof. intros. split; auto. Qed.

(* the array holds A, where it is stored *)
Definition sto (l : list K) (A : matrix) : Prop :=
  length l = N /\ forall i j, dom i j -> nth_error l (ix i j) = Some (A i j).
Lemma sto_ext l A B : sto l A -> (forall i j, dom i j -> A i j = B i j) -> sto l B.
Proof. intros [L E] X. split; auto. intros. rewrite E, X; auto. Qed.
Lemma wp_sget l A i j (Q : K -> Prop) E : sto l A -> dom i j -> Q (A i j) -> wp (aget l (ix i j)) Q E.
Proof. intros [_ H] D q. unfold aget. rewrite H; auto. Qed.
Lemma wp_sset l A i j x (Q : list K -> Prop) E : sto l A -> dom i j ->
  (forall l', sto l' (updm A i j x) -> Q l') -> wp (aset l (ix i j) x) Q E.
Proof.
  intros [L H] D q. pose proof (ix_in i j D). rewrite aset_ok by lia. cbn. apply q. split.
  - now rewrite length_upd.
  - intros r c Dr. unfold updm.
    destruct (Nat.eqb_spec r i), (Nat.eqb_spec c j); subst; cbn [andb];
      try (apply nth_error_upd_eq; lia);
      (rewrite nth_error_upd_ne; [now apply H|]); intros Q'; apply ix_inj in Q'; auto; lia.
Qed.

(* the factor: element (k,c) of U *)
Definition dg (A : matrix) (i : nat) : K := if recip then f1 / A i i else A i i.
Definition U (A : matrix) (k c : nat) : K :=
  if k =? c then dg A k else if (k <? c) && (lo c <=? k) then A k c else f0.
Lemma U_below A k c : c < k -> U A k c = f0.
Proof. intros. unfold U. bcases. auto. Qed.
Lemma U_out A k c : k < c -> k < lo c -> U A k c = f0.
Proof. intros. unfold U. bcases. auto. Qed.
Lemma U_in A k c : k < c -> lo c <= k -> U A k c = A k c.
Proof. intros. unfold U. bcases. auto. Qed.
Lemma U_diag A k : U A k k = dg A k.
Proof. unfold U. bcases. auto. Qed.
Lemma U_ext A B k c : (forall j, A k j = B k j) -> U A k c = U B k c.
Proof. intros H. unfold U, dg. now rewrite !H. Qed.

(* rows before i are those of U, the others are as they were *)
Definition cst (A0 : matrix) (i j : nat) (A : matrix) : Prop :=
  (forall r, r < i -> A r r <> f0) /\
  (i < j -> A i i <> f0) /\
  (forall r c, dom r c -> r < i \/ (r = i /\ c < j) ->
     A0 r c = sumr 0 (S r) (fun k => U A k r * U A k c)) /\
  (forall r c, dom r c -> ~ (r < i \/ (r = i /\ c < j)) -> A r c = A0 r c).

(* what a failure at row i says *)
Definition stuck (A0 : matrix) : Prop :=
  exists i A, i < n /\ (forall r, r < i -> A r r <> f0) /\
    (forall r c, dom r c -> r < i -> A0 r c = sumr 0 (S r) (fun k => U A k r * U A k c)) /\
    fle (A0 i i - sumr 0 i (fun k => U A k i * U A k i)) f0 = true.

Lemma chol_sum_wp A0 i j a A E : sto a A -> cst A0 i j A -> dom i j ->
  wp (chol_sum ix lo i j a) (fun s => s = A0 i j - sumr 0 i (fun k => U A k i * U A k j)) E.
Proof.
  intros M (D0 & D1 & F & R) D. unfold chol_sum. pose proof D as [[Ij Jn] Lo].
  apply wp_bind. apply (wp_sget a A i j _ _ M D).
  rewrite R by (auto; lia).
  eapply wp_mono; [apply wp_for with
    (P := fun t s => s = A0 i j - sumr 0 t (fun k => U A k i * U A k j)) | auto].
  - lia.
  - rewrite sumr_zero. { ring. } intros k Lk. rewrite (U_out A k j) by lia. ring.
  - intros k s Lk ->. pose proof (lo_mono i j).
    assert (D1' : dom k i) by (split; lia). assert (D2' : dom k j) by (split; lia).
    apply wp_bind. apply (wp_sget a A k i _ _ M D1').
    apply wp_bind. apply (wp_sget a A k j _ _ M D2'). cbn [wp].
    rewrite Nat.add_1_r, sumr_S by lia. rewrite (U_in A k i), (U_in A k j) by lia. ring.
Qed.

Lemma sqrt_nz x : fle x f0 = false -> sq x * sq x = x /\ sq x <> f0.
Proof.
  intros H. assert (P : fltb f0 x = true) by (unfold fltb; now rewrite H).
  pose proof (sqok x P) as E. split; auto. intros Z. rewrite Z in E.
  apply (fpos_nz x P). rewrite <- E. ring.
Qed.

Lemma chol_elem_wp A0 i j a A : sto a A -> cst A0 i j A -> i < n -> i <= j -> j < hi i ->
  wp (chol_elem sq ix lo recip i j a)
     (fun a' => exists A', sto a' A' /\ cst A0 i (j + 1) A')
     (fun e => e = RuntimeError /\ stuck A0).
Proof.
  intros M C I Ij Jh. pose proof (dom_hi i j I Ij Jh) as D. pose proof (dom_diag i I) as Di.
  unfold chol_elem. eapply wp_seq. { apply (chol_sum_wp A0 i j a A _ M C D). }
  intros s ->. pose proof C as (D0 & D1 & F & R).
  set (s := A0 i j - sumr 0 i (fun k => U A k i * U A k j)).
  (* writing v at (i,j): the new matrix satisfies the invariant if U comes out right *)
  assert (W : forall v a', sto a' (updm A i j v) -> (i = j -> v <> f0) ->
     U (updm A i j v) i i * U (updm A i j v) i j = s ->
     exists A', sto a' A' /\ cst A0 i (j + 1) A').
  { intros v a' M' Nz Ep. exists (updm A i j v). split; auto.
    assert (Uo : forall k c, k < i -> U (updm A i j v) k c = U A k c).
    { intros k c Lk. apply U_ext. intros x. unfold updm. bcases. auto. }
    split; [|split; [|split]].
    - intros r Lr. unfold updm. bcases. auto.
    - intros _. unfold updm. bcases; auto.
      apply D1. lia.
    - intros r c Dr Hr.
      destruct (Nat.eq_dec r i) as [->|Nr].
      + rewrite sumr_S by lia. rewrite (sumr_ext 0 i _ (fun k => U A k i * U A k c)).
        2:{ intros k Lk. rewrite !Uo by lia. auto. }
        destruct (Nat.eq_dec c j) as [->|Nc].
        * rewrite Ep. unfold s. ring.
        * rewrite (F i c Dr) by lia. rewrite sumr_S by lia. f_equal.
          destruct (Nat.eq_dec i j) as [->|Nij]. { destruct Dr. lia. }
          assert (Ui : forall x, x <> j -> U (updm A i j v) i x = U A i x).
          { intros x Nx. unfold U, dg, updm. bcases; auto. }
          rewrite !Ui by auto. auto.
      + rewrite (F r c Dr) by lia. apply sumr_ext. intros k Lk. rewrite !Uo by lia. auto.
    - intros r c Dr Hr. unfold updm. bcases; try lia; apply R; auto; lia. }
  destruct (Nat.eqb_spec i j) as [<-|Nij].
  - destruct (fle s f0) eqn:Sp.
    { cbn. split; auto. exists i, A. repeat split; auto. }
    destruct (sqrt_nz s Sp) as [Sq Nq].
    assert (W' : forall v a', sto a' (updm A i i v) -> v <> f0 ->
        (if recip then f1 / v else v) = sq s -> exists A', sto a' A' /\ cst A0 i (i + 1) A').
    { intros v a' M' Nv Ev. apply (W v a'); auto. rewrite U_diag. unfold dg.
      replace (updm A i i v i i) with v by (unfold updm; bcases; auto).
      rewrite Ev. exact Sq. }
    destruct recip.
    + apply wp_bind. apply wp_divc; auto. apply (wp_sset a A i i _ _ _ M Di).
      intros a' M'. apply (W' _ a' M').
      * intros Z. apply (@f1_neq_f0 K). replace (@f1 K) with (f1 / sq s * sq s) by (field; auto).
        rewrite Z. ring.
      * field. split; auto. apply f1_neq_f0.
    + apply (wp_sset a A i i _ _ _ M Di). intros a' M'. apply (W' _ a' M'); auto.
  - assert (N0 : A i i <> f0). { apply D1. lia. }
    apply wp_bind. apply (wp_sget a A i i _ _ M Di).
    assert (W' : forall v a', sto a' (updm A i j v) -> dg A i * v = s ->
        exists A', sto a' A' /\ cst A0 i (j + 1) A').
    { intros v a' M' Ev. apply (W v a'); [exact M'|intros; contradiction|].
      rewrite U_diag. destruct D. rewrite U_in by lia.
      replace (updm A i j v i j) with v by (unfold updm; bcases; auto).
      replace (dg (updm A i j v) i) with (dg A i). { exact Ev. }
      unfold dg, updm. bcases. auto. }
    destruct recip eqn:Er.
    + apply (wp_sset a A i j _ _ _ M D). intros a' M'. apply (W' _ a' M'). unfold dg. rewrite Er.
      field. auto.
    + apply wp_bind. apply wp_divc; auto. apply (wp_sset a A i j _ _ _ M D).
      intros a' M'. apply (W' _ a' M'). unfold dg. rewrite Er. field. auto.
Qed.

(* A0, where it is stored, is U'U *)
Definition cfact (A0 A : matrix) : Prop :=
  (forall r, r < n -> A r r <> f0) /\
  (forall r c, dom r c -> A0 r c = sumr 0 (S r) (fun k => U A k r * U A k c)).

Lemma chol_gen_wp A0 a : sto a A0 ->
  wp (chol_gen sq ix lo hi recip n a) (fun a' => exists A, sto a' A /\ cfact A0 A)
     (fun e => e = RuntimeError /\ stuck A0).
Proof.
  intros M. unfold chol_gen.
  eapply wp_mono; [apply wp_for with
    (P := fun i a => exists A, sto a A /\ cst A0 i i A) | cbn beta].
  - lia.
  - exists A0. split; auto. split; [intros; lia|]. split; [intros; lia|]. split; intros; auto. lia.
  - intros i a1 Li (A & M1 & C1). pose proof (hi_i i ltac:(lia)) as Hi. pose proof (hi_n i) as Hn.
    eapply wp_mono; [apply wp_for with (P := fun j a => exists A, sto a A /\ cst A0 i j A) | cbn beta].
    + lia.
    + eauto.
    + intros j a2 Lj (B & M2 & C2). apply (chol_elem_wp A0 i j a2 B M2 C2); lia.
    + intros a2 (B & M2 & D0 & D1 & F & R). exists B. split; auto.
      assert (X : forall r c, dom r c -> r = i -> c < hi i).
      { intros r c [Dr Dl] ->. apply lo_hi; auto. }
      rewrite Nat.add_1_r. split; [|split; [|split]].
      * intros r Lr. destruct (Nat.eq_dec r i) as [->|]; [apply D1; lia|apply D0; lia].
      * intros; lia.
      * intros r c Dr Hr. pose proof Dr as [? ?]. apply F; auto.
        destruct (Nat.eq_dec r i); [right; split; auto; apply (X r c); auto|left; lia].
      * intros r c Dr Hr. apply R; auto. lia.
  - intros a1 (A & M1 & D0 & _ & F & _). exists A. split; auto. split; auto.
    intros r c Dr. apply F; auto. left. destruct Dr. lia.
Qed.

(* ---------- the symmetric matrix that is stored ---------- *)

Definition full (A0 : matrix) : matrix := fun r c =>
  if lo (Nat.max r c) <=? Nat.min r c then A0 (Nat.min r c) (Nat.max r c) else f0.
Lemma full_fact A0 A : cfact A0 A -> forall r c, r < n -> c < n ->
  full A0 r c = sumr 0 n (fun k => U A k r * U A k c).
Proof.
  intros [_ F].
  assert (H : forall r c, r <= c -> c < n -> full A0 r c = sumr 0 n (fun k => U A k r * U A k c)).
  { intros r c Rc C. unfold full. rewrite Nat.max_r, Nat.min_l by lia.
    rewrite (sumr_split 0 (S r) n), (sumr_zero (S r) n) by
      (try lia; intros k Lk; rewrite (U_below A k r) by lia; ring).
    destruct (Nat.leb_spec (lo c) r).
    - rewrite (F r c) by (split; auto). ring.
    - rewrite sumr_zero. { ring. } intros k Lk.
      destruct (Nat.eq_dec r c) as [->|]. { pose proof (lo_le c). lia. }
      rewrite (U_out A k c) by lia. ring. }
  intros r c R C. destruct (le_lt_dec r c). { now apply H. }
  assert (Sy : full A0 r c = full A0 c r) by (unfold full; rewrite Nat.max_comm, Nat.min_comm; auto).
  rewrite Sy, H by lia. apply sumr_ext. intros. ring.
Qed.
Lemma dot_full A0 A y r : cfact A0 A -> r < n ->
  dot n (full A0) r y = sumr 0 n (fun k => U A k r * dot n (U A) k y).
Proof.
  intros F R. unfold dot at 1.
  rewrite (sumr_ext 0 n _ (fun c => sumr 0 n (fun k => U A k r * U A k c * y c))).
  - rewrite sumr_swap. apply sumr_ext. intros k Lk. unfold dot. rewrite <- sumr_scale.
    apply sumr_ext. intros; ring.
  - intros c Lc. rewrite (full_fact A0 A) by (auto; lia). now rewrite sumr_scale_r.
Qed.

(* a failure means that the matrix is not positive definite *)
Lemma stuck_not_pd A0 : stuck A0 -> ~ pos_def n (full A0).
Proof.
  intros (i & A & I & D & F & Le) P.
  assert (Du : forall r, r < i -> U A r r <> f0).
  { intros r R. rewrite U_diag. unfold dg. pose proof (D r R). destruct recip; auto.
    intros Z. apply (@f1_neq_f0 K). replace (@f1 K) with (f1 / A r r * A r r) by (field; auto).
    rewrite Z. ring. }
  destruct (upper_solvable i (U A) (fun r => - U A r i) Du) as (z & Hz).
  set (y := fun k => if k <? i then z k else if k =? i then f1 else f0).
  set (s := A0 i i - sumr 0 i (fun k => U A k i * U A k i)) in *.
  assert (Uy : forall k, k < i -> sumr 0 (S i) (fun c => U A k c * y c) = f0).
  { intros k Lk. rewrite sumr_S by lia. unfold y at 2. bcases.
    rewrite (sumr_ext 0 i _ (fun c => zeroed i (U A) k c * z c)).
    - specialize (Hz k Lk). unfold dot in Hz. rewrite Hz. ring.
    - intros c Lc. unfold y, zeroed. bcases; auto. rewrite U_below by lia. ring. }
  (* elements of the leading part *)
  assert (S1 : forall r c, r <= i -> c <= i -> full A0 r c =
     sumr 0 i (fun k => U A k r * U A k c) + (if (r =? i) && (c =? i) then s else f0)).
  { assert (H : forall r c, r <= c -> c <= i -> full A0 r c =
       sumr 0 i (fun k => U A k r * U A k c) + (if (r =? i) && (c =? i) then s else f0)).
    { intros r c Rc C. unfold full. rewrite Nat.max_r, Nat.min_l by lia.
      destruct (Nat.eq_dec r i) as [->|Nr].
      - replace c with i by lia. pose proof (lo_le i). replace (lo i <=? i) with true by bcases.
        rewrite !Nat.eqb_refl. cbn [andb]. unfold s. ring.
      - replace (r =? i) with false by bcases. cbn [andb].
        rewrite (sumr_split 0 (S r) i), (sumr_zero (S r) i) by
          (try lia; intros k Lk; rewrite (U_below A k r) by lia; ring).
        destruct (Nat.leb_spec (lo c) r).
        + rewrite (F r c) by (try split; lia). ring.
        + rewrite sumr_zero. { ring. } intros k Lk.
          destruct (Nat.eq_dec r c) as [->|]. { pose proof (lo_le c). lia. }
          rewrite (U_out A k c) by lia. ring. }
    intros r c R C. destruct (le_lt_dec r c). { now apply H. }
    assert (Sy : full A0 r c = full A0 c r) by (unfold full; rewrite Nat.max_comm, Nat.min_comm; auto).
    rewrite Sy, H by lia. rewrite andb_comm. f_equal. apply sumr_ext. intros. ring. }
  assert (Q : quad n (full A0) y = s).
  { unfold quad.
    assert (Cut : forall f : nat -> K, (forall k, i < k -> f k = f0) -> sumr 0 n f = sumr 0 (S i) f).
    { intros f Hf. rewrite (sumr_split 0 (S i) n), (sumr_zero (S i) n). ring.
      intros; apply Hf; lia. lia. }
    assert (Y0 : forall k, i < k -> y k = f0). { intros. unfold y. bcases. auto. }
    rewrite Cut.
    2:{ intros k Lk. apply sumr_zero. intros. rewrite (Y0 k) by auto. ring. }
    rewrite (sumr_ext 0 (S i) _ (fun r => if r =? i then s else f0)).
    - rewrite (sumr_one _ _ _ i) by (try lia; intros; bcases; auto). now rewrite Nat.eqb_refl.
    - intros r Lr. rewrite Cut.
      2:{ intros k Lk. rewrite (Y0 k) by auto. ring. }
      rewrite (sumr_ext 0 (S i) _ (fun c => sumr 0 i (fun k => y r * U A k r * (U A k c * y c)) +
                 (if c =? i then (if r =? i then s else f0) * y r else f0))).
      + rewrite sumr_add, sumr_swap.
        rewrite (sumr_zero 0 i).
        2:{ intros k Lk. rewrite sumr_scale, Uy by lia. ring. }
        rewrite (sumr_one 0 (S i) (fun c => if c =? i then (if r =? i then s else f0) * y r else f0) i)
          by (try lia; intros; bcases; auto).
        rewrite Nat.eqb_refl. destruct (Nat.eqb_spec r i) as [->|]; [|ring].
        unfold y. bcases. ring.
      + intros c Lc. rewrite S1 by lia.
        rewrite (sumr_ext 0 i (fun k => y r * U A k r * (U A k c * y c))
                   (fun k => y r * (U A k r * U A k c) * y c)) by (intros; ring).
        rewrite sumr_scale_r, sumr_scale.
        destruct (Nat.eqb_spec r i), (Nat.eqb_spec c i); cbn [andb]; subst; try ring.
        assert (y i = f1) as -> by (unfold y; bcases; auto). ring. }
  assert (N1 : exists k, k < n /\ y k <> f0).
  { exists i. split; auto. unfold y. bcases. apply f1_neq_f0. }
  pose proof (P y N1) as G. rewrite Q in G. unfold fltb in G. rewrite Le in G. discriminate.
Qed.

(* ---------- substitution ---------- *)

Lemma cholsub_wp m c a b A0 A B E : recip = true -> sto a A -> cfact A0 A -> mat n m b B -> c < m ->
  wp (cholsub_gen ix lo hi n m c a b)
     (fun x => exists y, mat n m x (setcol c y B) /\ solv n (full A0) y (fun r => B r c)) E.
Proof.
  intros Er M Fa Mb C. unfold cholsub_gen. pose proof Fa as [D _].
  assert (Dd : forall r, r < n -> dg A r * A r r = f1).
  { intros r R. unfold dg. rewrite Er. field. auto. }
  apply wp_seq with (P := fun x => exists Y, mat n m x (setcol c Y B) /\
     forall r, r < n -> sumr 0 n (fun k => U A k r * Y k) = B r c).
  { eapply wp_mono; [apply wp_for with
      (P := fun i x => exists Y, mat n m x (setcol c Y B) /\
         (forall r, r < i -> sumr 0 (S r) (fun k => U A k r * Y k) = B r c) /\
         (forall r, i <= r < n -> Y r = B r c)) | cbn beta].
    - lia.
    - exists (fun r => B r c). split.
      + eapply mat_ext; eauto. intros r k R Kk. unfold setcol. bcases; subst; auto.
      + split; intros; auto. lia.
    - intros i x Li (Y & Mx & Done & Rest).
      apply wp_seq with (P := fun x => mat n m x (setcol c (updv Y i
          (B i c - sumr 0 i (fun k => U A k i * Y k))) B)).
      + eapply wp_mono; [apply wp_for with
          (P := fun t x => mat n m x (setcol c (updv Y i
             (B i c - sumr 0 t (fun k => U A k i * Y k))) B)) | auto].
        * pose proof (lo_le i). lia.
        * eapply mat_ext; eauto. intros r k R Kk. unfold setcol, updv. bcases; subst; auto.
          rewrite Rest by lia. rewrite sumr_zero. { ring. }
          intros k Lk. pose proof (lo_le i). rewrite U_out by lia. ring.
        * intros k x1 Lk M1. assert (Dk : dom k i) by (split; lia).
          apply wp_bind. eapply wp_mget; eauto; try lia.
          apply wp_bind. apply (wp_sget a A k i _ _ M Dk).
          apply wp_bind. eapply wp_mget; eauto; try lia.
          eapply wp_mset; eauto; try lia. intros x2 M2. eapply mat_ext; eauto.
          intros r j R J. unfold updm, setcol, updv. bcases; subst; auto.
          rewrite Nat.add_1_r, sumr_S by lia. rewrite U_in by lia. ring.
      + intros x1 M1. pose proof (dom_diag i ltac:(lia)) as Di.
        apply wp_bind. eapply wp_mget; eauto; try lia.
        apply wp_bind. apply (wp_sget a A i i _ _ M Di).
        eapply wp_mset; eauto; try lia. intros x2 M2.
        exists (updv Y i ((B i c - sumr 0 i (fun k => U A k i * Y k)) * A i i)). split; [|split].
        * eapply mat_ext; eauto. intros r j R J. unfold updm, setcol, updv. bcases; subst; auto.
        * intros r R. destruct (Nat.eq_dec r i) as [->|].
          -- rewrite sumr_S by lia. rewrite (sumr_ext 0 i _ (fun k => U A k i * Y k)).
             2:{ intros k Lk. unfold updv. bcases. auto. }
             unfold updv. rewrite Nat.eqb_refl, U_diag.
             set (q := sumr 0 i (fun k => U A k i * Y k)).
             replace (dg A i * ((B i c - q) * A i i)) with ((B i c - q) * (dg A i * A i i)) by ring.
             rewrite Dd by lia. ring.
          -- rewrite <- (Done r) by lia. apply sumr_ext. intros k Lk. unfold updv. bcases. auto.
        * intros r R. unfold updv. bcases. apply Rest. lia.
    - intros x (Y & Mx & Done & _). exists Y. split; auto. intros r R.
      rewrite (sumr_split 0 (S r) n), (sumr_zero (S r) n) by
        (try lia; intros k Lk; rewrite (U_below A k r) by lia; ring).
      rewrite Done by auto. ring. }
  intros x0 (Y & M0 & HY).
  eapply wp_mono; [apply wp_down with
    (P := fun i x => exists y, mat n m x (setcol c y B) /\ (forall r, r < i -> y r = Y r) /\
       (forall r, i <= r < n -> sumr r n (fun k => U A r k * y k) = Y r)) | cbn beta].
  - lia.
  - exists Y. split; auto. split; intros; auto. lia.
  - intros i x Li (y & Mx & Rest & Done). assert (Eq : i = S (i - 1)) by lia.
    remember (i - 1)%nat as q eqn:Hq0. clear Hq0.
    pose proof (hi_i q ltac:(lia)) as Hq. pose proof (hi_n q) as Hn.
    apply wp_seq with (P := fun x => mat n m x (setcol c (updv y q
        (Y q - sumr i n (fun k => U A q k * y k))) B)).
    + eapply wp_mono; [apply wp_for with
        (P := fun t x => mat n m x (setcol c (updv y q
           (Y q - sumr i t (fun k => U A q k * y k))) B)) | cbn beta].
      * lia.
      * eapply mat_ext; eauto. intros r k R Kk. unfold setcol, updv. bcases; subst; auto.
        rewrite Rest by lia. rewrite sumr_nil by lia. ring.
      * intros k x1 Lk M1. assert (Dk : dom q k) by (apply dom_hi; lia).
        apply wp_bind. eapply wp_mget; eauto; try lia.
        apply wp_bind. apply (wp_sget a A q k _ _ M Dk).
        apply wp_bind. eapply wp_mget; eauto; try lia.
        eapply wp_mset; eauto; try lia. intros x2 M2. eapply mat_ext; eauto.
        intros r j R J. unfold updm, setcol, updv. bcases; subst; auto.
        rewrite Nat.add_1_r, sumr_S by lia. destruct Dk. rewrite U_in by lia. ring.
      * intros x1 M1. eapply mat_ext; eauto. intros r j R J. unfold setcol, updv. bcases; auto.
        f_equal. rewrite (sumr_split i (hi q) n), (sumr_zero (hi q) n); try lia. { ring. }
        intros k Lk. rewrite U_out; try lia. { ring. }
        destruct (le_lt_dec (lo k) q); auto. exfalso.
        assert (k < hi q) by (apply lo_hi; auto; lia). lia.
    + intros x1 M1. pose proof (dom_diag q ltac:(lia)) as Di.
      apply wp_bind. eapply wp_mget; eauto; try lia.
      apply wp_bind. apply (wp_sget a A q q _ _ M Di).
      eapply wp_mset; eauto; try lia. intros x2 M2.
      exists (updv y q ((Y q - sumr i n (fun k => U A q k * y k)) * A q q)). split; [|split].
      * eapply mat_ext; eauto. intros r j R J. unfold updm, setcol, updv. bcases; subst; auto.
      * intros r R. unfold updv. bcases. apply Rest. lia.
      * intros r R. destruct (Nat.eq_dec r q) as [->|].
        -- rewrite (sumr_first q n) by lia. rewrite <- Eq.
           set (p := sumr i n (fun k => U A q k * y k)).
           rewrite (sumr_ext i n (fun k => U A q k * updv y q ((Y q - p) * A q q) k)
                      (fun k => U A q k * y k)).
           2:{ intros k Lk. unfold updv. bcases. auto. }
           unfold updv. rewrite Nat.eqb_refl, U_diag.
           fold p.
           replace (dg A q * ((Y q - p) * A q q)) with ((Y q - p) * (dg A q * A q q)) by ring.
           rewrite Dd by lia. ring.
        -- rewrite <- (Done r) by lia. apply sumr_ext. intros k Lk. unfold updv. bcases. auto.
  - intros x (y & Mx & _ & Done). exists y. split; auto. intros r R.
    rewrite (dot_full A0 A y r Fa R). rewrite <- HY by auto. apply sumr_ext. intros k Lk. f_equal.
    unfold dot. rewrite (sumr_split 0 k n), (sumr_zero 0 k) by
        (try lia; intros j Lj; rewrite (U_below A k j) by lia; ring).
    rewrite Done by lia. ring.
Qed.

(* uniqueness *)
Lemma cfact_unique A0 A y z b : cfact A0 A -> solv n (full A0) y b -> solv n (full A0) z b ->
  forall r, r < n -> y r = z r.
Proof.
  intros Fa Y Z. pose proof Fa as [D _].
  assert (Du : forall r, r < n -> U A r r <> f0).
  { intros r R. rewrite U_diag. unfold dg. pose proof (D r R). destruct recip; auto.
    intros Q. apply (@f1_neq_f0 K). replace (@f1 K) with (f1 / A r r * A r r) by (field; auto).
    rewrite Q. ring. }
  assert (H : forall t r, r < t -> t <= n -> dot n (U A) r y = dot n (U A) r z).
  { induction t; intros r R L. { lia. }
    destruct (Nat.eq_dec r t) as [->|]; [|apply IHt; lia].
    pose proof (Y t L) as Ey. pose proof (Z t L) as Ez.
    rewrite (dot_full A0 A) in Ey, Ez by (auto; lia).
    assert (Cut : forall f : nat -> K, sumr 0 n (fun k => U A k t * f k) = sumr 0 t (fun k => U A k t * f k) + U A t t * f t).
    { intros f. rewrite (sumr_split 0 (S t) n), (sumr_zero (S t) n) by
        (try lia; intros k Lk; rewrite (U_below A k t) by lia; ring).
      rewrite sumr_S by lia. ring. }
    rewrite Cut in Ey, Ez.
    rewrite (sumr_ext 0 t _ (fun k => U A k t * dot n (U A) k z)) in Ey.
    2:{ intros k Lk. rewrite IHt by lia. auto. }
    set (p := sumr 0 t (fun k => U A k t * dot n (U A) k z)) in *.
    pose proof (Du t L).
    replace (dot n (U A) t y) with ((p + U A t t * dot n (U A) t y - p) / U A t t) by (field; auto).
    rewrite Ey, <- Ez. field. auto. }
  assert (G : forall t r, n - t <= r < n -> y r = z r).
  { induction t; intros r R. { lia. }
    pose proof (H n r ltac:(lia) ltac:(lia)) as E. unfold dot in E.
    assert (Cut : forall f : nat -> K, sumr 0 n (fun k => U A r k * f k) = U A r r * f r + sumr (S r) n (fun k => U A r k * f k)).
    { intros f. rewrite (sumr_split 0 r n), (sumr_zero 0 r) by
        (try lia; intros k Lk; rewrite (U_below A r k) by lia; ring).
      rewrite sumr_first by lia. ring. }
    rewrite !Cut in E.
    rewrite (sumr_ext (S r) n _ (fun k => U A r k * z k)) in E.
    2:{ intros k Lk. rewrite IHt by lia. auto. }
    set (p := sumr (S r) n (fun k => U A r k * z k)) in *.
    pose proof (Du r ltac:(lia)).
    replace (y r) with ((U A r r * y r + p - p) / U A r r) by (field; auto).
    rewrite E. field. auto. }
  intros r R. apply (G n). lia.
Qed.

(* and a success that it is *)
Lemma cfact_pd A0 A : cfact A0 A -> pos_def n (full A0).
Proof.
  intros Fa y (i & Li & Ny).
  assert (Q : quad n (full A0) y = sumr 0 n (fun k => dot n (U A) k y * dot n (U A) k y)).
  { unfold quad.
    rewrite (sumr_ext 0 n _ (fun r => sumr 0 n (fun k => y r * U A k r * dot n (U A) k y))).
    - rewrite sumr_swap. apply sumr_ext. intros k Lk. rewrite sumr_scale_r. f_equal.
      unfold dot. apply sumr_ext. intros; ring.
    - intros r R. rewrite (sumr_ext 0 n _ (fun c => y r * (full A0 r c * y c))) by (intros; ring).
      rewrite sumr_scale. change (sumr 0 n (fun c => full A0 r c * y c)) with (dot n (full A0) r y).
      rewrite (dot_full A0 A) by (auto; lia). rewrite <- sumr_scale. apply sumr_ext. intros; ring. }
  rewrite Q. apply fltb_spec. split. { apply sumr_nonneg. intros. apply fsqr_nonneg. }
  intros E. symmetry in E. pose proof (sumr_sq_0 0 n (fun k => dot n (U A) k y) E) as Z.
  apply Ny. apply (cfact_unique A0 A y (fun _ => f0) (fun _ => f0) Fa); auto.
  - intros r R. rewrite (dot_full A0 A) by auto. apply sumr_zero. intros k Lk.
    rewrite Z by auto. ring.
  - intros r R. unfold dot. apply sumr_zero. intros. ring.
Qed.
End Generic.
End Proofs.
