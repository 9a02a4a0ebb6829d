(* Reduction of a symmetric matrix to tridiagonal form. *)
From Coq Require Import List ZArith Lia Bool Arith Field.
From Verif Require Import Base LinBase GaussProofs PropsGauss LuProofs LdlProofs QrProofs EigModel.
Import ListNotations.
Local Open Scope nat_scope.

Section Proofs.
Context {K : ofield}.
Local Open Scope lin_scope.
Add Field Kf14 : (f_th K).
Notation matrix := (nat -> nat -> K).
Notation vect := (nat -> K).
Notation two := (@f1 K + f1).

Lemma two_nz : two <> f0.
Proof.
  intros E. apply (@f1_neq_f0 K). apply fadd_0_nonneg in E; [tauto| |];
  replace (@f1 K) with (@f1 K * f1) by ring; apply fsqr_nonneg.
Qed.

(* ---------- orthonormal columns make orthonormal rows ---------- *)

Lemma orth_rows n (Q : matrix) : (forall i j, i < n -> j < n -> inner n Q i j = ident i j) ->
  forall i j, i < n -> j < n -> sumr 0 n (fun k => Q i k * Q j k) = ident i j.
Proof.
  intros O.
  set (P := fun i j => sumr 0 n (fun k => Q i k * Q j k)).
  set (R := fun i j => ident i j - P i j).
  assert (PP : forall i j, i < n -> j < n -> sumr 0 n (fun t => P i t * P t j) = P i j).
  { intros i j I J. unfold P.
    rewrite (sumr_ext 0 n _ (fun t => sumr 0 n (fun k => Q i k * sumr 0 n (fun l => Q t k * Q t l * Q j l)))).
    2:{ intros t Lt. rewrite <- sumr_scale_r. apply sumr_ext. intros k Lk.
        rewrite <- !sumr_scale. apply sumr_ext. intros. ring. }
    rewrite sumr_swap. apply sumr_ext. intros k Lk. rewrite sumr_scale. f_equal.
    rewrite sumr_swap. rewrite (sumr_one 0 n _ k).
    - rewrite sumr_scale_r. pose proof (O k k ltac:(lia) ltac:(lia)) as E. unfold inner in E. rewrite E.
      unfold ident. rewrite Nat.eqb_refl. ring.
    - lia.
    - intros l Ll Nl. rewrite sumr_scale_r. pose proof (O k l ltac:(lia) ltac:(lia)) as E. unfold inner in E.
      rewrite E. unfold ident. bcases. ring. }
  assert (Ps : forall i j, P i j = P j i).
  { intros. unfold P. apply sumr_ext. intros. ring. }
  assert (RR : forall i, i < n -> sumr 0 n (fun t => R i t * R i t) = R i i).
  { intros i I. unfold R.
    rewrite (sumr_ext 0 n _ (fun t => ident i t * ident i t - two * (ident i t * P i t) + P i t * P t i)).
    2:{ intros t Lt. rewrite (Ps t i). ring. }
    rewrite sumr_add, sumr_sub, sumr_scale, PP by auto.
    rewrite !(sumr_one 0 n _ i); try lia.
    - unfold ident. rewrite Nat.eqb_refl. ring.
    - intros k Lk Nk. unfold ident. bcases. ring.
    - intros k Lk Nk. unfold ident. bcases. ring. }
  assert (Tr : sumr 0 n (fun i => R i i) = f0).
  { unfold R. rewrite sumr_sub. unfold P at 1. rewrite sumr_swap.
    rewrite (sumr_ext 0 n (fun k => sumr 0 n _) (fun k => ident k k)).
    - ring.
    - intros k Lk. rewrite <- O by lia. reflexivity. }
  assert (Rz : forall i j, i < n -> j < n -> R i j = f0).
  { intros i j I J.
    apply (sumr_sq_0 0 n (fun t => R i t)); [|lia]. rewrite RR by auto.
    apply (sumr_nonneg_0 0 n (fun i => R i i)); auto; try lia.
    intros k Lk. rewrite <- RR by lia. apply sumr_nonneg. intros. apply fsqr_nonneg. }
  intros i j I J. pose proof (Rz i j I J) as E. unfold R in E.
  change (P i j = ident i j). replace (P i j) with (ident i j - (ident i j - P i j)) by ring. rewrite E. ring.
Qed.

(* ---------- reflections ---------- *)

Definition hP (i : nat) (u : vect) (h : K) : matrix := fun r c =>
  ident r c - (if (r <? i) && (c <? i) then u r * u c / h else f0).
Lemma hP_l n i u h (M : matrix) r c : i <= n -> r < n -> h <> f0 ->
  mprod n (hP i u h) M r c = M r c - (if r <? i then u r * sumr 0 i (fun t => u t * M t c) / h else f0).
Proof.
  intros I R N. unfold mprod, hP.
  rewrite (sumr_ext 0 n _ (fun k => ident r k * M k c -
    (if (r <? i) && (k <? i) then u r * u k / h else f0) * M k c)) by (intros; ring).
  rewrite sumr_sub. f_equal.
  - apply (mprod_id_l n M r c R).
  - destruct (Nat.ltb_spec r i); cbn [andb].
    + rewrite (sumr_split 0 i n), (sumr_zero i n) by (try lia; intros; bcases; ring).
      rewrite (sumr_ext 0 i _ (fun k => u r / h * (u k * M k c))).
      2:{ intros. bcases. field. auto. }
      rewrite sumr_scale. field. auto.
    + apply sumr_zero. intros. ring.
Qed.
Lemma hP_r n i u h (M : matrix) r c : i <= n -> c < n -> h <> f0 ->
  mprod n M (hP i u h) r c = M r c - (if c <? i then sumr 0 i (fun t => M r t * u t) / h * u c else f0).
Proof.
  intros I R N. unfold mprod, hP.
  rewrite (sumr_ext 0 n _ (fun k => M r k * ident k c -
    M r k * (if (k <? i) && (c <? i) then u k * u c / h else f0))) by (intros; ring).
  rewrite sumr_sub. f_equal.
  - apply (mprod_id_r n M r c R).
  - destruct (Nat.ltb_spec c i).
    + rewrite (sumr_split 0 i n), (sumr_zero i n) by (try lia; intros; bcases; ring).
      rewrite (sumr_ext 0 i _ (fun k => M r k * u k * (u c / h))).
      2:{ intros. bcases. field. auto. }
      rewrite sumr_scale_r. field. auto.
    + apply sumr_zero. intros. rewrite andb_false_r. ring.
Qed.
Lemma hP_hP n i u h r c : i <= n -> r < n -> c < n -> h <> f0 -> sumr 0 i (fun t => u t * u t) = h + h ->
  mprod n (hP i u h) (hP i u h) r c = ident r c.
Proof.
  intros I R C N U. rewrite hP_l by auto. destruct (Nat.ltb_spec r i).
  2:{ unfold hP. bcases. ring. }
  rewrite (sumr_ext 0 i _ (fun t => u t * ident t c - (if c <? i then u t * u t * (u c / h) else f0))).
  2:{ intros t Lt. unfold hP. bcases; field; auto. }
  rewrite sumr_sub. destruct (Nat.ltb_spec c i).
  - rewrite sumr_scale_r, U. rewrite (sumr_one 0 i _ c); try lia.
    2:{ intros k Lk Nk. unfold ident. bcases. ring. }
    unfold hP, ident. bcases; field; auto.
  - rewrite !sumr_zero; auto.
    2:{ intros t Lt. unfold ident. bcases. ring. }
    unfold hP. bcases. field. auto.
Qed.
Lemma hP_sym i u h r c : h <> f0 -> hP i u h r c = hP i u h c r.
Proof. intros N. unfold hP, ident. bcases; subst; auto; field; auto. Qed.

Notation eqm n M N := (forall r c, r < n -> c < n -> M r c = N r c).
Lemma mprod_eq n (M M' N N' : matrix) : eqm n M M' -> eqm n N N' -> eqm n (mprod n M N) (mprod n M' N').
Proof. intros E F r c R C. apply mprod_ext; auto. Qed.
(* S = P S' P *)
Lemma conj_swap n (P S S' : matrix) : eqm n (mprod n P P) ident -> eqm n (mprod n P S) (mprod n S' P) ->
  eqm n (mprod n S P) (mprod n P S').
Proof.
  intros PP E r c R C.
  rewrite <- (mprod_id_l n (mprod n S P) r c R).
  rewrite (mprod_eq n ident (mprod n P P) (mprod n S P) (mprod n S P)) by (auto; intros; now rewrite PP).
  rewrite <- mprod_assoc. rewrite (mprod_eq n P P (mprod n P (mprod n S P)) S') by (auto;
    intros r' c' R' C'; rewrite mprod_assoc, (mprod_eq n (mprod n P S) (mprod n S' P) P P) by auto;
    rewrite <- mprod_assoc, (mprod_eq n S' S' (mprod n P P) ident) by auto; now apply mprod_id_r).
  auto.
Qed.

(* ---------- the first loop ---------- *)

Definition Tm (m : nat) (A : matrix) (E : vect) : matrix := fun r c =>
  let hi := Nat.max r c in let lo := Nat.min r c in
  if hi <? m then A hi lo else if lo =? hi then A hi hi else if hi =? S lo then E hi else f0.
Definition refok (n i : nat) (A : matrix) (D : vect) (Sm : nat -> matrix) : Prop :=
  (D i = f0 /\ eqm n (Sm (S i)) (Sm i)) \/
  (D i <> f0 /\ sumr 0 i (fun k => A i k * A i k) = D i + D i /\
   (forall k, k < i -> A k i = A i k / D i) /\
   eqm n (mprod n (hP i (A i) (D i)) (Sm (S i))) (mprod n (Sm i) (hP i (A i) (D i)))).
Definition hst (n m : nat) (A0 : matrix) (st : list K * list K * list K) : Prop :=
  let '(a, d, e) := st in
  exists A D E Sm, mat n n a A /\ vec n d D /\ vec n e E /\
    eqm n (Sm n) (fun r c => A0 (Nat.max r c) (Nat.min r c)) /\
    (forall i, m <= i < n -> refok n i A D Sm) /\
    eqm n (Sm m) (Tm m A E).

Lemma refok_ext n i A D Sm A' D' Sm' : D i = D' i -> (forall k, k < i -> A i k = A' i k /\ A k i = A' k i) ->
  (eqm n (Sm i) (Sm' i)) -> eqm n (Sm (S i)) (Sm' (S i)) -> i < n -> refok n i A D Sm -> refok n i A' D' Sm'.
Proof.
  intros ED EA S0 S1 Li [[Z H]|(N & U & C & H)].
  - left. rewrite <- ED. split; auto. intros r c R Cc. rewrite <- S0, <- S1 by auto. auto.
  - right. rewrite <- ED. split; auto. split; [|split].
    + rewrite <- U. apply sumr_ext. intros k Lk. now rewrite (proj1 (EA k ltac:(lia))).
    + intros k Lk. destruct (EA k Lk) as [E1 E2]. rewrite <- E1, <- E2. auto.
    + assert (Ep : forall r c, hP i (A' i) (D i) r c = hP i (A i) (D i) r c).
      { intros r c. unfold hP. destruct ((r <? i) && (c <? i)) eqn:B; auto.
        apply andb_true_iff in B. destruct B as [B1 B2]. apply Nat.ltb_lt in B1, B2.
        now rewrite (proj1 (EA r B1)), (proj1 (EA c B2)). }
      intros r c R Cc.
      rewrite (mprod_eq n _ (hP i (A i) (D i)) _ (Sm (S i))) by (auto; intros; rewrite ?S1; auto).
      rewrite H by auto. apply mprod_eq; auto. 
Qed.

Lemma hh_small n i A E E' : i < n -> 0 < i -> (forall j, j < i - 1 -> A i j = f0) ->
  E' i = A i (i - 1)%nat -> (forall k, i < k -> E' k = E k) ->
  eqm n (Tm (S i) A E) (Tm i A E').
Proof.
  intros Li Pi Z Ei Ek r c R C. unfold Tm.
  assert (Hc : (r = c \/ r < c \/ c < r)) by lia.
  destruct Hc as [->|[L|L]].
  - rewrite Nat.max_id, Nat.min_id. bcases; auto.
  - rewrite Nat.max_r, Nat.min_l by lia. bcases; auto.
    + transitivity (A i (i - 1)%nat); [f_equal; lia|]. rewrite <- Ei. f_equal. lia.
    + symmetry. apply Ek. lia.
    + replace c with i by lia. apply Z. lia.
  - rewrite Nat.max_l, Nat.min_r by lia. bcases; auto.
    + transitivity (A i (i - 1)%nat); [f_equal; lia|]. rewrite <- Ei. f_equal. lia.
    + symmetry. apply Ek. lia.
    + replace r with i by lia. apply Z. lia.
Qed.

Lemma hh_conj n i (A A' : matrix) (E E' u p q : vect) h scale f kap : 0 < i -> i < n -> scale <> f0 -> h <> f0 ->
  (forall k, k < i -> A i k = scale * (u k + (if k =? (i - 1)%nat then f else f0))) ->
  sumr 0 i (fun k => u k * u k) = h + h ->
  f * u (i - 1)%nat = - h ->
  (forall j, j < i -> p j = sumr 0 i (fun k => A (Nat.max j k) (Nat.min j k) * u k) / h) ->
  sumr 0 i (fun k => p k * u k) = two * h * kap ->
  (forall j, j < i -> q j = p j - kap * u j) ->
  (forall r c, c <= r -> r < i -> A' r c = A r c - (u r * q c + q r * u c)) ->
  (forall k, i <= k -> A' k k = A k k) -> E' i = scale * f -> (forall k, i < k -> E' k = E k) ->
  eqm n (mprod n (hP i u h) (Tm (S i) A E)) (mprod n (Tm i A' E') (hP i u h)).
Proof.
  intros Pi Li Nsc Nh Ha U Fu Hp Kp Hq HA' Hd Ei Ek.
  set (S1 := Tm (S i) A E). set (S2 := Tm i A' E').
  set (B := fun r c => A (Nat.max r c) (Nat.min r c)).
  assert (Bs : forall r c, B r c = B c r) by (intros; unfold B; now rewrite Nat.max_comm, Nat.min_comm).
  assert (S1b : forall r c, r < i -> c < i -> S1 r c = B r c).
  { intros. unfold S1, Tm. cbv zeta. rewrite (proj2 (Nat.ltb_lt _ _)) by lia. auto. }
  assert (S2b : forall r c, r < i -> c < i -> S2 r c = B r c - (u r * q c + q r * u c)).
  { intros r c R C. unfold S2, Tm, B. cbv zeta. rewrite (proj2 (Nat.ltb_lt _ _)), HA' by lia.
    destruct (le_lt_dec c r); [rewrite Nat.max_l, Nat.min_r by lia | rewrite Nat.max_r, Nat.min_l by lia]; ring. }
  assert (S1i : forall r, r < i -> S1 r i = A i r /\ S1 i r = A i r).
  { intros r R. unfold S1, Tm. rewrite Nat.max_r, Nat.min_l, Nat.max_l, Nat.min_r by lia. bcases; auto. }
  assert (S2i : forall r, r < i -> S2 r i = (if r =? (i - 1)%nat then scale * f else f0) /\
                                   S2 i r = (if r =? (i - 1)%nat then scale * f else f0)).
  { intros r R. unfold S2, Tm. rewrite Nat.max_r, Nat.min_l, Nat.max_l, Nat.min_r by lia. bcases; auto. }
  assert (Z : forall r c, r < i -> i < c -> S1 r c = f0 /\ S1 c r = f0 /\ S2 r c = f0 /\ S2 c r = f0).
  { intros r c R C. unfold S1, S2, Tm. rewrite Nat.max_r, Nat.min_l, Nat.max_l, Nat.min_r by lia. bcases; auto. }
  assert (Hi : forall r c, i <= r -> i <= c -> S1 r c = S2 r c).
  { intros r c R C. unfold S1, S2, Tm. bcases; auto.
    - replace (Nat.min r c) with (Nat.max r c) by lia. symmetry. apply Hd. lia.
    - symmetry. apply Hd. lia.
    - symmetry. apply Ek. lia. }
  assert (Uq : sumr 0 i (fun k => u k * q k) = f0).
  { rewrite (sumr_ext 0 i _ (fun k => p k * u k - kap * (u k * u k))).
    2:{ intros. rewrite Hq by lia. ring. }
    rewrite sumr_sub, sumr_scale, Kp, U. ring. }
  assert (Ua : sumr 0 i (fun k => u k * A i k) = scale * h).
  { rewrite (sumr_ext 0 i _ (fun k => scale * (u k * u k) + (if k =? (i - 1)%nat then scale * (f * u k) else f0))).
    2:{ intros. rewrite Ha by lia. bcases; ring. }
    rewrite sumr_add, sumr_scale, U. rewrite (sumr_one 0 i _ (i - 1)%nat).
    - rewrite Nat.eqb_refl, Fu. ring.
    - lia.
    - intros. bcases; auto. }
  intros r c R C. rewrite hP_l, hP_r by (auto; lia).
  destruct (lt_eq_lt_dec r i) as [[Lr|Lr]|Lr]; destruct (lt_eq_lt_dec c i) as [[Lc|Lc]|Lc];
    try subst r; try subst c; bcases.
  - (* within the block *)
    rewrite S1b, S2b by auto.
    rewrite (sumr_ext 0 i (fun t => u t * S1 t c) (fun k => B c k * u k)).
    2:{ intros t Lt. rewrite S1b, Bs by lia. ring. }
    rewrite (sumr_ext 0 i (fun t => S2 r t * u t)
      (fun t => B r t * u t - u r * (u t * q t) - q r * (u t * u t))).
    2:{ intros t Lt. rewrite S2b by lia. ring. }
    rewrite !sumr_sub, !sumr_scale, Uq, U.
    pose proof (Hp r Lr) as Pr. pose proof (Hp c Lc) as Pc. fold (B r) in Pr. fold (B c) in Pc.
    rewrite (Hq r), (Hq c) by auto.
    assert (X : forall j, j < i -> sumr 0 i (fun k => B j k * u k) = h * p j).
    { intros j Lj. rewrite (Hp j Lj). unfold B. field. auto. }
    rewrite !X by auto. field. auto.
  - (* column i *)
    rewrite (proj1 (S1i r Lr)), (proj1 (S2i r Lr)).
    rewrite (sumr_ext 0 i _ (fun k => u k * A i k)).
    2:{ intros t Lt. now rewrite (proj1 (S1i t ltac:(lia))). }
    rewrite Ua, Ha by auto. bcases; field; auto.
  - destruct (Z r c Lr Lc) as (Z1 & _ & Z2 & _). rewrite Z1, Z2. rewrite sumr_zero.
    + field. auto.
    + intros t Lt. destruct (Z t c ltac:(lia) Lc) as (Zt & _). rewrite Zt. ring.
  - (* row i *)
    rewrite (proj2 (S1i c Lc)), (proj2 (S2i c Lc)).
    rewrite (sumr_one 0 i _ (i - 1)%nat).
    + rewrite (proj2 (S2i (i - 1)%nat ltac:(lia))), Nat.eqb_refl.
      replace (scale * f * u (i - 1)%nat) with (scale * (f * u (i - 1)%nat)) by ring.
      rewrite Fu, Ha by auto. bcases; field; auto.
    + lia.
    + intros t Lt Nt. rewrite (proj2 (S2i t ltac:(lia))). bcases. ring.
  - rewrite Hi by lia. ring.
  - rewrite Hi by lia. ring.
  - destruct (Z c r Lc Lr) as (_ & Z1 & _ & Z2). rewrite Z1, Z2. rewrite sumr_zero.
    + field. auto.
    + intros t Lt. destruct (Z t r ltac:(lia) Lr) as (_ & _ & _ & Zt). rewrite Zt. ring.
  - rewrite Hi by lia. ring.
  - rewrite Hi by lia. ring.
Qed.

Lemma hh_round_wp sq n i A0 st Ex : sqrt_pos sq -> 0 < i -> i < n -> hst n (S i) A0 st ->
  wp (hh_round sq n i st) (hst n i A0) Ex.
Proof.
  intros Sp Pi Li. destruct st as [[a d] e]. intros (A & D & E & Sm & M & Vd & Ve & S0 & Rf & St).
  unfold hh_round. apply wp_bind. eapply wp_vset; eauto. intros d1 Vd1.
  apply wp_seq with (P := fun sc => sc = sumr 0 (i - 1) (fun j => fabs (A i j))).
  { eapply wp_mono; [apply wp_for with (P := fun t sc => sc = sumr 0 t (fun j => fabs (A i j))) | auto].
    - lia.
    - auto.
    - intros j sc Lj ->. apply wp_bind. eapply wp_mget; eauto; try lia. cbn [wp].
      rewrite Nat.add_1_r, sumr_S by lia. auto. }
  intros sc0 Esc. destruct (feqb_spec sc0 f0) as [Zs|Ns].
  { rewrite Zs in Esc. symmetry in Esc.
    assert (Z : forall j, j < i - 1 -> A i j = f0).
    { intros j Lj. apply fabs_0. apply (sumr_nonneg_0 0 (i - 1) (fun j => fabs (A i j))); auto; try lia.
      intros. apply fabs_nonneg. }
    apply wp_bind. eapply wp_mget; eauto; try lia.
    apply wp_bind. eapply wp_vset; eauto. intros e1 Ve1. cbn [wp hst].
    set (E1 := updv E i (A i (i - 1)%nat)).
    exists A, (updv D i f0), E1, (fun m => if m =? i then Tm i A E1 else Sm m).
    split; auto. split; auto. split; auto. split; [|split].
    - intros r c R C. bcases; auto.
    - intros k Lk. destruct (Nat.eq_dec k i) as [->|].
      + left. unfold updv. rewrite !Nat.eqb_refl. split; auto. intros r c R C. bcases.
        rewrite St by auto. apply (hh_small n i A E E1); auto.
        * unfold E1, updv. now rewrite Nat.eqb_refl.
        * intros k Lk'. unfold E1, updv. bcases; auto.
      + apply (refok_ext n k A D Sm); auto; try lia.
        * unfold updv. bcases; auto.
        * intros r c R C. bcases; auto.
        * intros r c R C. bcases; auto.
        * apply Rf. lia.
    - intros r c R C. rewrite Nat.eqb_refl. auto. }
  apply wp_bind. eapply wp_mget; eauto; try lia.
  cbv zeta. set (scale := sc0 + fabs (A i (i - 1)%nat)).
  assert (Psc : fle f0 sc0 = true). { rewrite Esc. apply sumr_nonneg. intros. apply fabs_nonneg. }
  assert (Nsc : scale <> f0).
  { intros Q. apply fadd_0_nonneg in Q; auto using fabs_nonneg. tauto. }
  set (w := fun j => A i j / scale).
  apply wp_seq with (P := fun t : list K * K =>
     mat n n (fst t) (fun r c => if (r =? i) && (c <? i) then w c else A r c) /\
     snd t = sumr 0 i (fun j => w j * w j)).
  { apply wp_for with (P := fun u (t : list K * K) =>
       mat n n (fst t) (fun r c => if (r =? i) && (c <? u) then w c else A r c) /\
       snd t = sumr 0 u (fun j => w j * w j)).
    - lia.
    - cbn [fst snd]. split; auto. eapply mat_ext; eauto. intros r c R C. bcases; auto.
    - intros j [a1 di] Lj [M1 D1]. cbn [fst snd] in *. apply wp_bind. eapply wp_mget; eauto; try lia.
      apply wp_bind. apply wp_divc; auto.
      apply wp_bind. eapply wp_mset; eauto; try lia. intros a2 M2. cbn [wp fst snd].
      assert (X : (if (i =? i) && (j <? j) then w j else A i j) / scale = w j).
      { bcases. reflexivity. }
      rewrite X in *. split.
      + eapply mat_ext; eauto. intros r c R C. unfold updm. bcases; subst; auto.
      + rewrite Nat.add_1_r, sumr_S, D1 by lia. auto. }
  intros [a2 di] [M2 Edi]. cbn [fst snd] in M2, Edi.
  apply wp_bind. eapply wp_mget; eauto; try lia.
  assert (X : (if (i =? i) && (i - 1 <? i) then w (i - 1)%nat else A i (i - 1)%nat) = w (i - 1)%nat).
  { bcases; auto. }
  cbn beta. rewrite X. clear X. set (x := w (i - 1)%nat).
  set (f := if fle f0 x then - sq di else sq di).
  (* the sum of the squares is positive *)
  assert (Pdi : fltb f0 di = true).
  { apply fltb_spec. rewrite Edi. split. { apply sumr_nonneg. intros. apply fsqr_nonneg. }
    intros Q. symmetry in Q. pose proof (sumr_sq_0 0 i w Q) as Z. apply Ns. rewrite Esc.
    apply sumr_zero. intros j Lj. apply fabs_0.
    replace (A i j) with (w j * scale) by (unfold w; field; auto). rewrite Z by lia. ring. }
  destruct (Sp di Pdi) as [Sq Pq].
  assert (Ff : f * f = di). { unfold f. transitivity (sq di * sq di); auto. destruct (fle f0 x); ring. }
  assert (Nf : f <> f0). { intros Q. apply (fpos_nz di Pdi). rewrite <- Ff, Q. ring. }
  assert (Nx : x - f <> f0).
  { unfold f. destruct (fle f0 x) eqn:Fx.
    - replace (x - - sq di) with (x + sq di) by ring. now apply fadd_pos_nz.
    - destruct (fle_total K f0 x) as [Q|Q]; [congruence|]. intros H.
      apply (fadd_pos_nz (- x) (sq di)); auto.
      + apply fle_sub in Q. now replace (f0 - x) with (- x) in Q by ring.
      + replace (- x + sq di) with (- (x - sq di)) by ring. rewrite H. ring. }
  set (h := di - x * f).
  assert (Eh : f * (x - f) = - h). { unfold h. rewrite <- Ff. ring. }
  assert (Nh : h <> f0).
  { intros Q. apply (fmul_nz f (x - f)); auto. rewrite Eh, Q. ring. }
  apply wp_bind. eapply wp_vset; eauto. intros e1 Ve1.
  apply wp_bind. eapply wp_vset; eauto. intros d2 Vd2.
  apply wp_bind. eapply wp_mset; eauto; try lia. intros a3 M3.
  set (u := fun j => if j =? (i - 1)%nat then x - f else w j).
  set (A3 := fun r c => if (r =? i) && (c <? i) then u c else A r c).
  assert (M3' : mat n n a3 A3).
  { eapply mat_ext; eauto. intros r c R C. unfold updm, A3, u. bcases; subst; auto. }
  clear M3.
  assert (U : sumr 0 i (fun k => u k * u k) = h + h).
  { replace i with (S (i - 1)) at 1 by lia. rewrite sumr_S by lia.
    rewrite (sumr_ext 0 (i - 1) _ (fun k => w k * w k)).
    2:{ intros k Lk. unfold u. bcases; auto. }
    replace (sumr 0 (i - 1) (fun k => w k * w k)) with (di - x * x).
    - unfold u. rewrite Nat.eqb_refl. unfold h. rewrite <- Ff. ring.
    - rewrite Edi. replace i with (S (i - 1)) at 1 by lia. rewrite sumr_S by lia. fold x. ring. }
  set (p := fun j => sumr 0 i (fun k => A (Nat.max j k) (Nat.min j k) * u k) / h).
  set (E1 := updv E i (scale * f)) in *.
  apply wp_seq with (P := fun t : list K * list K * K => let '(a, e, f) := t in
     mat n n a (fun r c => if (c =? i) && (r <? i) then u r / h else A3 r c) /\
     vec n e (fun k => if k <? i then p k else E1 k) /\ f = sumr 0 i (fun k => p k * u k)).
  { apply wp_for with (P := fun t (st : list K * list K * K) => let '(a, e, f) := st in
     mat n n a (fun r c => if (c =? i) && (r <? t) then u r / h else A3 r c) /\
     vec n e (fun k => if k <? t then p k else E1 k) /\ f = sumr 0 t (fun k => p k * u k)).
    - lia.
    - split; [|split; [|auto]].
      + eapply mat_ext; eauto. intros r c R C. bcases; auto.
      + eapply vec_ext; eauto.
    - intros j [[a4 e4] f4] Lj (M4 & V4 & F4).
      apply wp_bind. eapply wp_mget; eauto; try lia. apply wp_bind. apply wp_divc; auto.
      apply wp_bind. eapply wp_mset; eauto; try lia. intros a5 M5.
      assert (M5' : mat n n a5 (fun r c => if (c =? i) && (r <? j + 1) then u r / h else A3 r c)).
      { eapply mat_ext; eauto. intros r c R C. unfold updm, A3. bcases; subst; auto. }
      clear M5.
      apply wp_seq with (P := fun v => v = sumr 0 (j + 1) (fun k => A (Nat.max j k) (Nat.min j k) * u k)).
      { apply wp_for with (P := fun t v => v = sumr 0 t (fun k => A (Nat.max j k) (Nat.min j k) * u k)).
        - lia.
        - auto.
        - intros k v Lk ->. apply wp_bind. eapply wp_mget; eauto; try lia.
          apply wp_bind. eapply wp_mget; eauto; try lia. cbn [wp].
          rewrite (Nat.add_1_r k), sumr_S by lia. f_equal. unfold A3.
          rewrite Nat.max_l, Nat.min_r by lia. bcases; auto. }
      intros v ->.
      apply wp_seq with (P := fun v => v = sumr 0 i (fun k => A (Nat.max j k) (Nat.min j k) * u k)).
      { apply wp_for with (P := fun t v => v = sumr 0 t (fun k => A (Nat.max j k) (Nat.min j k) * u k)).
        - lia.
        - auto.
        - intros k v Lk ->. apply wp_bind. eapply wp_mget; eauto; try lia.
          apply wp_bind. eapply wp_mget; eauto; try lia. cbn [wp].
          rewrite (Nat.add_1_r k), sumr_S by lia. f_equal. unfold A3.
          rewrite Nat.max_r, Nat.min_l by lia. bcases; auto. }
      intros v ->. apply wp_bind. apply wp_divc; auto. fold (p j).
      apply wp_bind. eapply wp_vset; eauto; try lia. intros e5 V5.
      apply wp_bind. eapply wp_mget; eauto; try lia. cbn [wp].
      split; auto. split.
      + eapply vec_ext; eauto. intros k Lk. unfold updv. bcases; subst; auto.
      + rewrite (Nat.add_1_r j), sumr_S, F4 by lia. unfold A3. bcases; auto. }
  intros [[a4 e4] f4] (M4 & V4 & F4).
  set (A4 := fun r c => if (c =? i) && (r <? i) then u r / h else A3 r c) in *.
  set (kap := f4 / (two * h)). set (q := fun j => p j - kap * u j).
  assert (N2h : two * h <> f0). { apply fmul_nz; auto. apply two_nz. }
  set (A5 := fun r c => if (r <? i) && (c <=? r) then A4 r c - (u r * q c + q r * u c) else A4 r c).
  apply wp_seq with (P := fun t : list K * list K => mat n n (fst t) A5 /\
     vec n (snd t) (fun k => if k <? i then q k else E1 k)).
  { eapply wp_mono; [apply wp_for with (P := fun t (st : list K * list K) =>
     mat n n (fst st) (fun r c => if (r <? t) && (c <=? r) then A4 r c - (u r * q c + q r * u c) else A4 r c) /\
     vec n (snd st) (fun k => if k <? t then q k else if k <? i then p k else E1 k)) | cbn beta].
    - lia.
    - cbn [fst snd]. split.
      + eapply mat_ext; eauto.
      + eapply vec_ext; eauto.
    - intros j [a5 e5] Lj [M5 V5]. cbn [fst snd] in M5, V5.
      apply wp_bind. eapply wp_vget; eauto; try lia. apply wp_bind. eapply wp_mget; eauto; try lia.
      apply wp_bind. apply wp_divc; auto. fold kap.
      apply wp_bind. eapply wp_vset; eauto; try lia. intros e6 V6.
      assert (V6' : vec n e6 (fun k => if k <? j + 1 then q k else if k <? i then p k else E1 k)).
      { eapply vec_ext; eauto. intros k Lk. unfold updv, A4, A3. bcases; subst; auto. }
      clear V6.
      apply wp_seq with (P := fun a => mat n n a (fun r c => if (r <? j + 1) && (c <=? r)
         then A4 r c - (u r * q c + q r * u c) else A4 r c)).
      2:{ intros a6 M6. cbn [wp fst snd]. auto. }
      eapply wp_mono; [apply wp_for with (P := fun t a => mat n n a (fun r c =>
        if ((r <? j) || ((r =? j) && (c <? t))) && (c <=? r)
         then A4 r c - (u r * q c + q r * u c) else A4 r c)) | cbn beta].
      + lia.
      + eapply mat_ext; eauto. intros r c R C. bcases; auto.
      + intros k a6 Lk M6. apply wp_bind. eapply wp_mget; eauto; try lia.
        apply wp_bind. eapply wp_mget; eauto; try lia.
        apply wp_bind. eapply wp_vget; eauto; try lia. apply wp_bind. eapply wp_vget; eauto; try lia.
        apply wp_bind. eapply wp_mget; eauto; try lia. eapply wp_mset; eauto; try lia.
        intros a7 M7. eapply mat_ext; eauto. intros r c R C. unfold updm.
        assert (Au : forall t, t < i -> A4 i t = u t). { intros t Lt. unfold A4, A3. bcases; auto. }
        assert (Kj : k <= j) by lia. clear M7 M6.
        destruct (Nat.eqb_spec r j) as [->|Nr]; cbn [andb orb].
        * destruct (Nat.eqb_spec c k) as [->|Nc].
          -- replace ((j <? j) || (k <? k)) with false by (bcases; auto).
             replace ((i <? j) || (i =? j) && (j <? k)) with false by (bcases; auto).
             replace ((i <? j) || (i =? j) && (k <? k)) with false by (bcases; auto).
             cbn [andb]. rewrite !Au by lia. bcases; ring.
          -- bcases; auto.
        * bcases; auto.
      + intros a6 M6. eapply mat_ext; eauto. intros r c R C. bcases; auto.
    - intros [a5 e5] [M5 V5]. cbn [fst snd] in *. split; auto.
      eapply vec_ext; eauto. intros k Lk. bcases; auto. }
  intros [a5 e5] [M5 V5]. cbn [wp fst snd hst] in *.
  set (E5 := fun k => if k <? i then q k else E1 k) in *.
  set (D5 := updv (updv D i f0) i h) in *.
  exists A5, D5, E5, (fun m => if m =? i then Tm i A5 E5 else Sm m).
  split; auto. split; auto. split; auto. split; [|split].
  - intros r c R C. bcases; auto.
  - intros k Lk. destruct (Nat.eq_dec k i) as [->|].
    + assert (Di : D5 i = h). { unfold D5, updv. now rewrite Nat.eqb_refl. }
      assert (Au : forall t, t < i -> A5 i t = u t). { intros t Lt. unfold A5, A4, A3. bcases; auto. }
      right. rewrite Di. split; auto. split; [|split].
      * rewrite <- U. apply sumr_ext. intros t Lt. now rewrite Au by lia.
      * intros t Lt. rewrite Au by auto. unfold A5, A4. bcases; auto.
      * assert (EP : forall r c, hP i (A5 i) h r c = hP i u h r c).
        { intros r c. unfold hP. destruct ((r <? i) && (c <? i)) eqn:B; auto.
          apply andb_true_iff in B. destruct B as [B1 B2]. apply Nat.ltb_lt in B1, B2. now rewrite !Au. }
        intros r c R C. rewrite Nat.eqb_refl. replace (S i =? i) with false by (bcases; auto).
        rewrite (mprod_eq n _ (hP i u h) (Sm (S i)) (Tm (S i) A E)) by auto.
        rewrite (mprod_eq n (Tm i A5 E5) (Tm i A5 E5) _ (hP i u h)) by auto.
        apply (hh_conj n i A A5 E E5 u p q h scale f kap); auto.
        -- intros j Lj. unfold u, x, w. bcases; [|field; auto].
           assert (j = (i - 1)%nat) by lia. subst j. field. auto.
        -- unfold u. rewrite Nat.eqb_refl. auto.
        -- rewrite <- F4. unfold kap. field. split; auto. apply two_nz.
        -- intros r' c' Lc Lr. unfold A5, A4, A3. bcases; auto.
        -- intros j Lj. unfold A5, A4, A3. bcases; auto.
        -- unfold E5, E1, updv. rewrite Nat.ltb_irrefl, Nat.eqb_refl. auto.
        -- intros j Lj. unfold E5, E1, updv. bcases; auto.
    + apply (refok_ext n k A D Sm); auto; try lia.
      * unfold D5, updv. bcases; auto.
      * intros j Lj. unfold A5, A4, A3. bcases; auto.
      * intros r c R C. bcases; auto.
      * intros r c R C. bcases; auto.
      * apply Rf. lia.
  - intros r c R C. rewrite Nat.eqb_refl. auto.
Qed.

(* ---------- the second loop ---------- *)

Definition tri (D E : vect) : matrix := fun r c =>
  let hi := Nat.max r c in let lo := Nat.min r c in
  if lo =? hi then D hi else if hi =? S lo then E hi else f0.
Definition orth (n : nat) (Q : matrix) : Prop := forall i j, i < n -> j < n -> inner n Q i j = ident i j.
Definition symlow (A0 : matrix) : matrix := fun r c => A0 (Nat.max r c) (Nat.min r c).

Definition led (i : nat) (A : matrix) : matrix := fun r c => if (r <? i) && (c <? i) then A r c else ident r c.

Lemma orth_hP n i u h F : i <= n -> h <> f0 -> sumr 0 i (fun t => u t * u t) = h + h -> orth n F ->
  orth n (mprod n (hP i u h) F).
Proof.
  intros I N U O p q Lp Lq. rewrite <- O by auto. unfold inner.
  transitivity (mprod n (fun a b => F b a) (mprod n (hP i u h) (mprod n (hP i u h) F)) p q).
  - unfold mprod at 3. rewrite (sumr_ext 0 n (fun k => F k p * _)
      (fun k => sumr 0 n (fun t => F k p * hP i u h k t * mprod n (hP i u h) F t q))).
    2:{ intros k Lk. unfold mprod at 1. rewrite <- sumr_scale. apply sumr_ext. intros. ring. }
    rewrite sumr_swap. apply sumr_ext. intros t Lt. rewrite sumr_scale_r. f_equal.
    unfold mprod. apply sumr_ext. intros k Lk. rewrite (hP_sym i u h k t) by auto. ring.
  - unfold mprod at 1. apply sumr_ext. intros k Lk. f_equal.
    rewrite mprod_assoc. rewrite (mprod_eq n _ ident F F) by (auto; try lia; intros; now apply hP_hP).
    apply mprod_id_l. lia.
Qed.
Lemma orth_eq n (F G : matrix) : eqm n F G -> orth n F -> orth n G.
Proof.
  intros E O i j I J. rewrite <- O by auto. unfold inner. apply sumr_ext. intros t Lt. now rewrite !E by lia.
Qed.

Lemma hh_back_wp n i a d (A1 A : matrix) (D1 D : vect) (Sm : nat -> matrix) T Ex : i < n ->
  mat n n a A -> vec n d D ->
  (forall k, k < i -> D k = A1 k k) -> (forall k, i <= k -> D k = D1 k) ->
  (forall r c, r < n -> c < n -> i <= r \/ i <= c -> A r c = A1 r c) ->
  orth n (led i A) -> eqm n (mprod n (Sm i) (led i A)) (mprod n (led i A) T) ->
  refok n i A1 D1 Sm ->
  wp (hh_back n i (a, d)) (fun '(a', d') => exists A' D', mat n n a' A' /\ vec n d' D' /\
     (forall k, k < S i -> D' k = A1 k k) /\ (forall k, S i <= k -> D' k = D1 k) /\
     (forall r c, r < n -> c < n -> S i <= r \/ S i <= c -> A' r c = A1 r c) /\
     orth n (led (S i) A') /\ eqm n (mprod n (Sm (S i)) (led (S i) A')) (mprod n (led (S i) A') T)) Ex.
Proof.
  intros Li M Vd Dl Dh Ah O C Rf. unfold hh_back.
  apply wp_bind. eapply wp_vget; eauto. rewrite Dh by lia.
  (* the block after the product *)
  apply wp_seq with (P := fun a => exists A2, mat n n a A2 /\
     (forall r c, r < n -> c < n -> i <= r \/ i <= c -> A2 r c = A1 r c) /\
     orth n (led i A2) /\ eqm n (mprod n (Sm (S i)) (led i A2)) (mprod n (led i A2) T)).
  { destruct (feqb_spec (D1 i) f0) as [Z|N].
    - cbn [wp]. exists A. split; auto. split; auto. split; auto.
      destruct Rf as [[_ H]|[H _]]; [|contradiction]. intros r c R Cc.
      rewrite (mprod_eq n _ (Sm i) _ (led i A)) by auto. auto.
    - destruct Rf as [[H _]|(_ & U & Cl & H)]; [contradiction|]. set (h := D1 i) in *.
      set (f := fun j => sumr 0 i (fun k => A1 i k * A k j)).
      set (A2 := fun t r c => if (r <? i) && (c <? t) then A r c - f c * (A1 i r / h) else A r c).
      eapply wp_mono; [apply wp_for with (P := fun t a => mat n n a (A2 t)) | cbn beta].
      + lia.
      + eapply mat_ext; eauto. intros r c R Cc. unfold A2. bcases; auto.
      + intros j a1 Lj M1.
        apply wp_seq with (P := fun v => v = f j).
        { apply wp_for with (P := fun t v => v = sumr 0 t (fun k => A1 i k * A k j)).
          - lia.
          - auto.
          - intros k v Lk ->. apply wp_bind. eapply wp_mget; eauto; try lia.
            apply wp_bind. eapply wp_mget; eauto; try lia. cbn [wp].
            rewrite Nat.add_1_r, sumr_S by lia. f_equal. unfold A2. bcases. rewrite Ah by lia. auto. }
        intros v ->.
        eapply wp_mono; [apply wp_for with (P := fun t a => mat n n a (fun r c =>
          if (r <? t) && (c =? j) then A r c - f c * (A1 i r / h) else A2 j r c)) | cbn beta].
        * lia.
        * eapply mat_ext; eauto.
        * intros k a2 Lk M2. apply wp_bind. eapply wp_mget; eauto; try lia.
          apply wp_bind. eapply wp_mget; eauto; try lia. eapply wp_mset; eauto; try lia.
          intros a3 M3. eapply mat_ext; eauto. intros r c R Cc. unfold updm, A2.
          bcases; subst; auto. rewrite (Ah k i), Cl by lia. auto.
        * intros a2 M2. eapply mat_ext; eauto. intros r c R Cc. unfold A2. bcases; subst; auto.
      + intros a1 M1. exists (A2 i). split; auto.
        assert (L2 : eqm n (led i (A2 i)) (mprod n (hP i (A1 i) h) (led i A))).
        { intros r c R Cc. rewrite hP_l by (auto; lia). unfold led at 1 2. bcases; try ring.
          - unfold A2, f. bcases. rewrite (sumr_ext 0 i (fun t => A1 i t * led i A t c) (fun k => A1 i k * A k c)).
            2:{ intros t Lt. unfold led. bcases; auto. }
            field. auto.
          - rewrite sumr_zero. { field. auto. }
            intros t Lt. unfold led, ident. bcases. ring. }
        split; [|split].
        * intros r c R Cc Hh. unfold A2. bcases; auto.
        * eapply orth_eq. { intros r c R Cc. symmetry. apply L2; auto. } apply orth_hP; auto. lia.
        * assert (PP : eqm n (mprod n (hP i (A1 i) h) (hP i (A1 i) h)) ident).
          { intros r c R Cc. apply hP_hP; auto. lia. }
          pose proof (conj_swap n _ _ _ PP H) as W. intros r c R Cc.
          rewrite (mprod_eq n (Sm (S i)) (Sm (S i)) _ (mprod n (hP i (A1 i) h) (led i A))) by auto.
          rewrite mprod_assoc. rewrite (mprod_eq n _ (mprod n (hP i (A1 i) h) (Sm i)) (led i A) (led i A)) by auto.
          rewrite <- mprod_assoc. rewrite (mprod_eq n _ (hP i (A1 i) h) _ (mprod n (led i A) T)) by auto.
          rewrite mprod_assoc. apply mprod_eq; auto. intros. symmetry. auto. }
  intros a1 (A2 & M2 & H2 & O2 & C2).
  apply wp_bind. eapply wp_mget; eauto. apply wp_bind. eapply wp_vset; eauto. intros d1 Vd1.
  apply wp_bind. eapply wp_mset; eauto. intros a2 M3.
  apply wp_seq with (P := fun a => mat n n a (fun r c => if (r <? i) && (c <? i) then A2 r c
     else if (r <? S i) && (c <? S i) then ident r c else A2 r c)).
  { eapply wp_mono; [apply wp_for with (P := fun t a => mat n n a (fun r c =>
      if ((r =? i) && (c <? t)) || ((c =? i) && (r <? t)) then f0 else updm A2 i i f1 r c)) | cbn beta].
    - lia.
    - eapply mat_ext; eauto. intros r c R Cc. bcases; auto.
    - intros j a3 Lj M4. apply wp_bind. eapply wp_mset; eauto; try lia. intros a4 M5.
      eapply wp_mset; eauto; try lia. intros a5 M6. eapply mat_ext; eauto. intros r c R Cc.
      unfold updm. bcases; subst; auto.
    - intros a3 M4. eapply mat_ext; eauto. intros r c R Cc. unfold updm, ident. bcases; subst; auto. }
  intros a3 M4. cbn [wp]. eexists. eexists. split; [exact M4|]. split; [exact Vd1|].
  split; [|split; [|split]].
  - intros k Lk. unfold updv. bcases; subst; auto.
    apply Dl. lia.
  - intros k Lk. unfold updv. bcases. apply Dh. lia.
  - intros r c R Cc Hh. bcases; auto; apply H2; auto; lia.
  - assert (L3 : forall r c, led i A2 r c = led (S i) (fun r c => if (r <? i) && (c <? i) then A2 r c
     else if (r <? S i) && (c <? S i) then ident r c else A2 r c) r c).
    { intros r c. unfold led. bcases; auto. }
    split.
    + eapply orth_eq; [|exact O2]. auto.
    + intros r c R Cc. rewrite <- (mprod_eq n (Sm (S i)) (Sm (S i)) (led i A2)) by auto.
      rewrite <- (mprod_eq n (led i A2) _ T T) by auto. auto.
Qed.

Lemma tridiag_wp sq n a d e (A0 : matrix) Ex : sqrt_pos sq -> 0 < n -> mat n n a A0 -> length d = n -> length e = n ->
  wp (tridiag_hh sq n a d e)
     (fun '(a', d', e') => exists Q D E, mat n n a' Q /\ vec n d' D /\ vec n e' E /\ orth n Q /\
        eqm n (mprod n (symlow A0) Q) (mprod n Q (tri D E))) Ex.
Proof.
  intros Sp Pn M Ld Le. unfold tridiag_hh. destruct (Nat.eqb_spec n 0); [lia|].
  apply wp_seq with (P := hst n 1 A0).
  { apply wp_down with (P := fun i st => hst n (S i) A0 st).
    - lia.
    - replace (S (n - 1)) with n by lia.
      exists A0, (fun i => nth i d f0), (fun i => nth i e f0), (fun _ => symlow A0).
      split; auto. split. { now apply vec_of. } split. { now apply vec_of. }
      split; auto. split. { intros; lia. }
      intros r c R C. unfold Tm, symlow. cbv zeta. rewrite (proj2 (Nat.ltb_lt _ _)) by lia. auto.
    - intros i st Li H. replace (S (i - 1)) with i by lia. apply hh_round_wp; auto; lia. }
  intros [[a1 d1] e1] (A1 & D1 & E1 & Sm & M1 & Vd1 & Ve1 & S0 & Rf & St).
  apply wp_bind. eapply wp_vset; eauto. intros e2 Ve2.
  apply wp_bind. eapply wp_vset; eauto. intros d2 Vd2.
  set (D2 := updv D1 0 f0) in *. set (Sm2 := fun m => if m =? 0 then Sm 1 else Sm m).
  set (T := tri (fun k => A1 k k) (updv E1 0 f0)).
  assert (ET : eqm n (Sm2 0) T).
  { intros r c R C. unfold Sm2. cbn [Nat.eqb]. rewrite St by auto. unfold Tm, T, tri, updv. bcases; auto. }
  apply wp_seq with (P := fun '(a, d) => exists A D, mat n n a A /\ vec n d D /\
     (forall k, k < n -> D k = A1 k k) /\ orth n (led n A) /\ eqm n (mprod n (Sm2 n) (led n A)) (mprod n (led n A) T)).
  { eapply wp_mono; [apply wp_for with (P := fun i '(a, d) => exists A D, mat n n a A /\ vec n d D /\
      (forall k, k < i -> D k = A1 k k) /\ (forall k, i <= k -> D k = D2 k) /\
      (forall r c, r < n -> c < n -> i <= r \/ i <= c -> A r c = A1 r c) /\
      orth n (led i A) /\ eqm n (mprod n (Sm2 i) (led i A)) (mprod n (led i A) T)) | cbn beta].
    - lia.
    - exists A1, D2. split; auto. split; auto. split. { intros; lia. } split; auto. split; auto. split.
      + intros i j I J. unfold inner, led. cbn. rewrite (sumr_one 0 n _ i).
        * unfold ident. rewrite Nat.eqb_refl. ring.
        * lia.
        * intros k Lk Nk. unfold ident. bcases; ring.
      + intros r c R C.
        rewrite (mprod_eq n _ T _ ident), mprod_id_r by auto.
        rewrite (mprod_eq n _ ident T T), mprod_id_l by auto. auto.
    - intros i [a3 d3] Li (A & D & M3 & V3 & Dl & Dh & Ah & O & C). rewrite Nat.add_1_r.
      apply (hh_back_wp n i a3 d3 A1 A D2 D Sm2 T); auto; try lia.
      destruct (Nat.eq_dec i 0) as [->|].
      + left. unfold D2, updv. cbn. split; auto.
      + apply (refok_ext n i A1 D1 Sm); auto; try lia.
        * unfold D2, updv. bcases. auto.
        * intros r c R Cc. unfold Sm2. bcases. auto.
        * apply Rf. lia.
    - intros [a3 d3] (A & D & M3 & V3 & Dl & _ & _ & O & C). exists A, D. auto. }
  intros [a3 d3] (A & D & M3 & V3 & Dl & O & C). cbn [wp].
  exists A, D, (updv E1 0 f0). split; auto. split; auto. split; auto.
  assert (L : eqm n (led n A) A). { intros r c R Cc. unfold led. bcases. auto. }
  split. { eapply orth_eq; eauto. }
  intros r c R Cc. rewrite (mprod_eq n _ (Sm2 n) A (led n A)); auto.
  - rewrite C by auto. apply mprod_eq; auto. intros r' c' R' C'. unfold T, tri. bcases; auto.
    symmetry. apply Dl. lia.
  - intros r' c' R' C'. unfold Sm2. bcases. symmetry. apply S0; auto.
  - intros r' c' R' C'. symmetry. auto.
Qed.
End Proofs.
