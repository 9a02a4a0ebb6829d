(* The QL iteration keeps the decomposition A = Q T Q'. *)
From Coq Require Import List ZArith Lia Bool Arith Field.
From Verif Require Import Base LinBase GaussProofs PropsGauss LuProofs LdlProofs QrProofs EigModel EigProofs.
Import ListNotations.
Local Open Scope nat_scope.

(* as wp, but the fuel may run out *)
Definition wpf {A} (m : outcome A) (Q : A -> Prop) : Prop :=
  match m with Ok a => Q a | UB OutOfFuel => True | _ => False end.
Lemma wpf_wp {A} (m : outcome A) Q : wp m Q (fun _ => False) -> wpf m Q.
Proof. destruct m as [|e|f]; cbn; auto; try contradiction. Qed.
Lemma wpf_seq {A B} (m : outcome A) (k : A -> outcome B) (P : A -> Prop) (Q : B -> Prop) :
  wpf m P -> (forall a, P a -> wpf (k a) Q) -> wpf (bind m k) Q.
Proof. destruct m as [|e|f]; cbn; auto; try contradiction. Qed.
Lemma wpf_mono {A} (m : outcome A) (P Q : A -> Prop) : wpf m P -> (forall a, P a -> Q a) -> wpf m Q.
Proof. destruct m as [|e|f]; cbn; auto. Qed.
Lemma wpf_for {S : Type} lo hi body (s : S) (P : nat -> S -> Prop) :
  lo <= hi -> P lo s -> (forall i s, lo <= i < hi -> P i s -> wpf (body i s) (P (i + 1))) ->
  wpf (for_up lo hi body s) (P hi).
Proof.
  unfold for_up. intros L P0 H.
  remember (hi - lo) as k eqn:Ek. revert lo s L P0 H Ek.
  induction k; intros lo s L P0 H Ek; cbn [loopn].
  - now replace hi with lo by lia.
  - apply wpf_seq with (P := P (lo + 1)). { apply H; auto. lia. }
    intros a Pa. apply IHk; auto; try lia. intros. apply H; auto. lia.
Qed.

Section Proofs.
Context {K : ofield}.
Local Open Scope lin_scope.
Add Field Kf15 : (f_th K).
Notation matrix := (nat -> nat -> K).
Notation vect := (nat -> K).
Notation two := (@f1 K + f1).
Notation eqm n M N := (forall r c, r < n -> c < n -> M r c = N r c).

(* ---------- rotations of the columns j-1 and j ---------- *)

Definition rotc (j : nat) (c s : K) (M : matrix) : matrix := fun r k =>
  if k =? j then s * M r (j - 1)%nat + c * M r j
  else if k =? (j - 1)%nat then c * M r (j - 1)%nat - s * M r j else M r k.
Definition rotr (j : nat) (c s : K) (M : matrix) : matrix := fun r k =>
  if r =? j then s * M (j - 1)%nat k + c * M j k
  else if r =? (j - 1)%nat then c * M (j - 1)%nat k - s * M j k else M r k.
Definition G (j : nat) (c s : K) : matrix := rotc j c s ident.
Lemma sum_two n j (f : vect) : 0 < j -> j < n -> (forall k, k < n -> k <> j -> k <> (j - 1)%nat -> f k = f0) ->
  sumr 0 n f = f (j - 1)%nat + f j.
Proof.
  intros P L Z. rewrite (sumr_split 0 j n) by lia. rewrite (sumr_one 0 j f (j - 1)), (sumr_one j n f j); auto; try lia.
  - intros. apply Z; lia.
  - intros. apply Z; lia.
Qed.
Lemma mprod_G n j c s (M : matrix) r k : 0 < j -> j < n -> k < n ->
  mprod n M (G j c s) r k = rotc j c s M r k.
Proof.
  intros P L Lk. unfold mprod. unfold rotc. destruct (Nat.eqb_spec k j) as [->|N1]; [|destruct (Nat.eqb_spec k (j - 1)) as [->|N2]].
  - rewrite (sum_two n j) by (auto; intros; unfold G, rotc, ident; bcases; ring).
    unfold G, rotc, ident. bcases; ring.
  - rewrite (sum_two n j) by (auto; intros; unfold G, rotc, ident; bcases; ring).
    unfold G, rotc, ident. bcases; ring.
  - rewrite (sumr_one 0 n _ k); [|lia|].
    + unfold G, rotc, ident. bcases; ring.
    + intros t Lt Nt. unfold G, rotc, ident. bcases; ring.
Qed.
Lemma mprod_Gt n j c s (M : matrix) r k : 0 < j -> j < n -> r < n ->
  mprod n (fun a b => G j c s b a) M r k = rotr j c s M r k.
Proof.
  intros P L Lr. transitivity (rotc j c s (fun a b => M b a) k r).
  - rewrite <- (mprod_G n) by auto. unfold mprod. apply sumr_ext. intros. ring.
  - unfold rotc, rotr. bcases; auto.
Qed.
Lemma rotr_G n j c s : 0 < j -> j < n -> c * c + s * s = f1 ->
  eqm n (mprod n (fun a b => G j c s b a) (G j c s)) ident /\
  eqm n (mprod n (G j c s) (fun a b => G j c s b a)) ident.
Proof.
  intros P L E.
  assert (Ec : c * c = f1 - s * s) by (rewrite <- E; ring).
  split; intros r k R Kk.
  - rewrite mprod_Gt by auto. unfold rotr, G, rotc, ident. bcases; subst; try ring; ring [Ec].
  - transitivity (mprod n (fun a b => G j c (- s) b a) (G j c (- s)) r k).
    + apply mprod_ext; intros t Lt; unfold G, rotc, ident; bcases; subst; try ring.
    + rewrite mprod_Gt by auto. unfold rotr, G, rotc, ident. bcases; subst; try ring; ring [Ec].
Qed.
Lemma orth_mprod n (Q H : matrix) : orth n Q -> eqm n (mprod n (fun a b => H b a) H) ident -> orth n (mprod n Q H).
Proof.
  intros O E p q Lp Lq. rewrite <- E by auto. unfold inner.
  unfold mprod at 3. 
  transitivity (sumr 0 n (fun k => H k p * mprod n (fun a b => Q b a) (mprod n Q H) k q)).
  - unfold mprod at 3. rewrite (sumr_ext 0 n (fun k => H k p * sumr 0 n _)
      (fun k => sumr 0 n (fun t => Q t k * H k p * mprod n Q H t q))).
    2:{ intros k Lk. rewrite <- sumr_scale. apply sumr_ext. intros. ring. }
    rewrite sumr_swap. apply sumr_ext. intros t Lt. rewrite sumr_scale_r. reflexivity.
  - apply sumr_ext. intros k Lk. f_equal. rewrite mprod_assoc.
    rewrite (mprod_eq n _ ident H H) by (auto; try lia; intros; apply O; auto).
    apply mprod_id_l. lia.
Qed.
Lemma rot_step n j c s (A0 Q T : matrix) : 0 < j -> j < n -> c * c + s * s = f1 ->
  orth n Q -> eqm n (mprod n A0 Q) (mprod n Q T) ->
  orth n (rotc j c s Q) /\ eqm n (mprod n A0 (rotc j c s Q)) (mprod n (rotc j c s Q) (rotr j c s (rotc j c s T))).
Proof.
  intros P L E O H. destruct (rotr_G n j c s P L E) as [G1 G2].
  assert (EQ : eqm n (mprod n Q (G j c s)) (rotc j c s Q)) by (intros; apply mprod_G; auto).
  split.
  - eapply orth_eq; [exact EQ|]. apply orth_mprod; auto.
  - intros r k R Kk.
    rewrite <- (mprod_eq n A0 A0 (mprod n Q (G j c s))) by auto.
    rewrite mprod_assoc. rewrite (mprod_eq n _ (mprod n Q T) (G j c s) (G j c s)) by auto.
    rewrite <- mprod_assoc.
    rewrite <- (mprod_eq n (mprod n Q (G j c s)) (rotc j c s Q)
      (mprod n (fun a b => G j c s b a) (mprod n T (G j c s)))); auto.
    2:{ intros r' k' R' K'. rewrite mprod_Gt by auto. unfold rotr.
        rewrite !(mprod_G n) by auto. auto. }
    rewrite <- (mprod_assoc n Q (G j c s)). apply mprod_ext; auto. intros t Lt.
    rewrite mprod_assoc. rewrite (mprod_eq n _ ident (mprod n T (G j c s)) (mprod n T (G j c s))) by auto.
    symmetry. apply mprod_id_l. auto.
Qed.

(* ---------- the tridiagonal matrix with the bulge at j ---------- *)

Definition bulge (j m : nat) (D E : vect) (s c p g : K) : matrix := fun r k =>
  let hi := Nat.max r k in let lo := Nat.min r k in
  if lo =? hi then (if hi =? j then D j - p else D hi)
  else if hi =? S lo then
    (if hi =? j then c * E j else if hi =? S j then (if j =? m then f0 else g)
     else if hi =? S m then f0 else E hi)
  else if hi =? S (S lo) then (if (hi =? S j) && (j <? m) then s * E j else f0)
  else f0.
Lemma bulge_sym j m D E s c p g r k : bulge j m D E s c p g r k = bulge j m D E s c p g k r.
Proof. unfold bulge. now rewrite Nat.max_comm, Nat.min_comm. Qed.

Lemma bulge_step n j m (D E D' E' : vect) s c p g r b c' s' r2 p' : 0 < j -> j <= m -> m < n ->
  r <> f0 -> r * r = s * E j * (s * E j) + g * g -> b = c * E j -> c' = g / r -> s' = s * E j / r ->
  r2 = (D (j - 1)%nat - (D j - p)) * s' + two * c' * b -> p' = s' * r2 ->
  (forall t, D' t = if t =? j then D j - p + p' else D t) ->
  (forall t, 0 < t -> t < n -> E' t = if t =? S j then r else E t) ->
  eqm n (rotr j c' s' (rotc j c' s' (bulge j m D E s c p g))) (bulge (j - 1) m D' E' s' c' p' (c' * r2 - b)).
Proof.
  intros Pj Ljm Lm Nr Rr Eb Ec Es Er Ep HD HE.
  set (T := bulge j m D E s c p g). set (f := s * E j) in *.
  assert (Rg : g = c' * r) by (rewrite Ec; field; auto).
  assert (Rf : f = s' * r) by (rewrite Es; field; auto).
  assert (CS : c' * c' = f1 - s' * s').
  { rewrite Ec, Es. assert (Hg : g * g = r * r - f * f) by (rewrite Rr; ring).
    transitivity (g * g / (r * r)); [field; auto|]. rewrite Hg. field. auto. }
  assert (Tjj : T j j = D j - p).
  { unfold T, bulge. rewrite Nat.max_id, Nat.min_id, !Nat.eqb_refl. auto. }
  assert (Tll : T (j - 1)%nat (j - 1)%nat = D (j - 1)%nat).
  { unfold T, bulge. rewrite Nat.max_id, Nat.min_id, !Nat.eqb_refl. bcases. auto. }
  assert (Tlj : T (j - 1)%nat j = b).
  { unfold T, bulge. rewrite Nat.max_r, Nat.min_l by lia. bcases. auto. }
  assert (Tjl : T j (j - 1)%nat = b). { unfold T. rewrite bulge_sym. exact Tlj. }
  assert (Toj : forall o, o <> j -> o <> (j - 1)%nat -> T o j = if (o =? S j) && (j <? m) then g else f0).
  { intros o N1 N2. unfold T, bulge. destruct (le_lt_dec o j).
    - rewrite Nat.max_r, Nat.min_l by lia. bcases; auto.
    - rewrite Nat.max_l, Nat.min_r by lia. bcases; auto. }
  assert (Tol : forall o, o <> j -> o <> (j - 1)%nat -> T o (j - 1)%nat =
     if (o =? S j) && (j <? m) then f else if S (S o) =? j then E (j - 1)%nat else f0).
  { intros o N1 N2. unfold T, bulge. destruct (le_lt_dec o j).
    - rewrite Nat.max_r, Nat.min_l by lia. bcases; auto.
    - rewrite Nat.max_l, Nat.min_r by lia. bcases; auto. }
  assert (Tjo : forall o, T j o = T o j) by (intros; apply bulge_sym).
  assert (Tlo : forall o, T (j - 1)%nat o = T o (j - 1)%nat) by (intros; apply bulge_sym).
  set (T' := bulge (j - 1) m D' E' s' c' p' (c' * r2 - b)).
  assert (T'jj : T' j j = D j - p + p').
  { unfold T', bulge. rewrite Nat.max_id, Nat.min_id, !Nat.eqb_refl. bcases. rewrite HD. bcases. auto. }
  assert (T'll : T' (j - 1)%nat (j - 1)%nat = D (j - 1)%nat - p').
  { unfold T', bulge. rewrite Nat.max_id, Nat.min_id, !Nat.eqb_refl. rewrite HD. bcases. auto. }
  assert (T'lj : T' (j - 1)%nat j = c' * r2 - b).
  { unfold T', bulge. rewrite Nat.max_r, Nat.min_l by lia. bcases. auto. }
  assert (T'jl : T' j (j - 1)%nat = c' * r2 - b). { unfold T'. rewrite bulge_sym. exact T'lj. }
  assert (T'oj : forall o, o < n -> o <> j -> o <> (j - 1)%nat -> T' o j =
     if (o =? S j) && (j <? m) then r else if S (S o) =? j then s' * E (j - 1)%nat else f0).
  { intros o Lo N1 N2. unfold T', bulge. destruct (le_lt_dec o j).
    - rewrite Nat.max_r, Nat.min_l by lia. bcases; auto. rewrite HE by lia. bcases. auto.
    - rewrite Nat.max_l, Nat.min_r by lia. bcases; auto. rewrite HE by lia. bcases. auto. }
  assert (T'ol : forall o, o < n -> o <> j -> o <> (j - 1)%nat -> T' o (j - 1)%nat =
     if S (S o) =? j then c' * E (j - 1)%nat else f0).
  { intros o Lo N1 N2. unfold T', bulge. destruct (le_lt_dec o j).
    - rewrite Nat.max_r, Nat.min_l by lia. bcases; auto. rewrite HE by lia. bcases. auto.
    - rewrite Nat.max_l, Nat.min_r by lia. bcases; auto. }
  assert (T'jo : forall o, T' j o = T' o j) by (intros; apply bulge_sym).
  assert (T'lo : forall o, T' (j - 1)%nat o = T' o (j - 1)%nat) by (intros; apply bulge_sym).
  intros x y X Y. unfold rotr, rotc.
  destruct (Nat.eqb_spec x j) as [->|Nx]; [|destruct (Nat.eqb_spec x (j - 1)) as [->|Nx']];
  (destruct (Nat.eqb_spec y j) as [->|Ny]; [|destruct (Nat.eqb_spec y (j - 1)) as [->|Ny']]).
  - rewrite Tll, Tlj, Tjl, Tjj, T'jj, Ep, Er. ring [CS].
  - rewrite Tll, Tlj, Tjl, Tjj, T'jl, Er. ring [CS].
  - rewrite Tlo, Tjo, T'jo, Toj, Tol, T'oj by auto. bcases; rewrite ?Rg, ?Rf; try ring; ring [CS].
  - rewrite Tll, Tlj, Tjl, Tjj, T'lj, Er. ring [CS].
  - rewrite Tll, Tlj, Tjl, Tjj, T'll, Ep, Er. ring [CS].
  - rewrite Tlo, Tjo, T'lo, Toj, Tol, T'ol by auto. bcases; rewrite ?Rg, ?Rf; ring.
  - rewrite Toj, Tol, T'oj by auto. bcases; rewrite ?Rg, ?Rf; try ring; ring [CS].
  - rewrite Toj, Tol, T'ol by auto. bcases; rewrite ?Rg, ?Rf; ring.
  - unfold T, T', bulge. cbv zeta.
    destruct (Nat.eqb_spec (Nat.min x y) (Nat.max x y)). { rewrite !HD. bcases; auto. }
    destruct (Nat.eqb_spec (Nat.max x y) (S (Nat.min x y))).
    { destruct (Nat.eqb_spec (Nat.max x y) (j - 1)) as [Q|Q]; [lia|]. rewrite (HE (Nat.max x y)) by lia. bcases; auto. }
    bcases; auto.
Qed.

(* ---------- the code ---------- *)

Lemma ql_split_wp n d e (D E : vect) Ex : vec n d D -> vec n e E -> forall k m, (m + k)%nat = (n - 1)%nat ->
  wp (ql_split k m d e) (fun m' => m <= m' /\ (m' <= m + k)%nat /\ (forall t, m < t -> t <= m' -> E t <> f0) /\
    ((m' + 1 < n)%nat -> E (m' + 1)%nat = f0)) Ex.
Proof.
  intros Hd He. induction k; intros m Em; cbn [ql_split].
  - apply wp_ok. repeat split; try lia.
  - apply wp_bind. apply (wp_vget _ _ Hd); [lia|].
    apply wp_bind. apply (wp_vget _ _ Hd); [lia|].
    apply wp_bind. apply (wp_vget _ _ He); [lia|]. cbv zeta.
    set (g := fabs (D m) + fabs (D (m + 1)%nat)).
    destruct (feqb_spec (fabs (E (m + 1)%nat) + g) g) as [Z|Z].
    + apply wp_ok. repeat split; try lia. intros _. apply fabs_0.
      replace (fabs (E (m + 1)%nat)) with (fabs (E (m + 1)%nat) + g - g) by ring. rewrite Z. ring.
    + eapply wp_mono. { apply IHk. lia. }
      intros m' (A & B & C & F). repeat split; try lia; auto.
      intros t T1 T2. destruct (Nat.eq_dec t (m + 1)) as [->|].
      * intros Y. apply Z. apply fabs_0 in Y. rewrite Y. ring.
      * apply C; lia.
Qed.

Lemma hypot_pos sq (f g : K) : sqrt_pos sq -> f <> f0 ->
  hypot sq f g <> f0 /\ hypot sq f g * hypot sq f g = f * f + g * g.
Proof.
  intros S N. unfold hypot. destruct (S (f * f + g * g)) as [A B].
  - apply fltb_spec. split. { apply fadd_nonneg; apply fsqr_nonneg. }
    intros Z. symmetry in Z. apply fadd_0_nonneg in Z as [Z _]; try apply fsqr_nonneg. now apply fsqr_0 in Z.
  - split; auto. now apply fpos_nz.
Qed.

Lemma rot_loop_wp n j a (Q : matrix) s c Ex : 0 < j -> j < n -> mat n n a Q ->
  wp (for_up 0 n (fun k a =>
        let* r := aget a (k * n + j) in
        let* x := aget a (k * n + (j - 1)) in
        let* a := aset a (k * n + j) (s * x + c * r) in
        let* x := aget a (k * n + (j - 1)) in
        aset a (k * n + (j - 1)) (c * x - s * r)) a) (fun a => mat n n a (rotc j c s Q)) Ex.
Proof.
  intros Pj Lj Ha.
  eapply wp_mono. { apply (wp_for 0 n _ a (fun k a => mat n n a (fun r t => if r <? k then rotc j c s Q r t else Q r t))).
    - lia.
    - eapply mat_ext; [exact Ha|]. intros. bcases; auto.
    - intros k a' Lk Hk.
      apply wp_bind. apply (wp_mget _ _ Hk); [lia|lia|]. cbn beta.
      apply wp_bind. apply (wp_mget _ _ Hk); [lia|lia|]. cbn beta.
      apply wp_bind. apply (wp_mset _ _ Hk); [lia|lia|]. intros a2 H2.
      apply wp_bind. apply (wp_mget _ _ H2); [lia|lia|]. cbn beta.
      apply (wp_mset _ _ H2); [lia|lia|]. intros a3 H3.
      eapply mat_ext; [exact H3|]. intros r t R T. unfold updm, rotc. bcases; subst; auto. }
  intros a' H. eapply mat_ext; [exact H|]. intros. cbn beta. bcases; auto.
Qed.

(* the state in the sweep *)
Definition swp (n i j m : nat) (A0 : matrix) (d e a : list K) (s c p g : K) : Prop :=
  exists D E Q, vec n d D /\ vec n e E /\ mat n n a Q /\ orth n Q /\
    eqm n (mprod n A0 Q) (mprod n Q (bulge j m D E s c p g)) /\
    (forall t, 0 < t -> t <= i -> t < n -> E t = f0) /\ (forall t, i < t -> t <= j -> E t <> f0).

Lemma ql_sweep_wp sq n i m A0 Ex : sqrt_pos sq -> m < n -> forall k j d e a s c p g,
  j = (i + k)%nat -> j <= m -> s <> f0 -> swp n i j m A0 d e a s c p g ->
  wp (ql_sweep sq n k j d e a s c p g) (fun '(d, e, a, p, g, whole) => whole = true /\
    exists s c, swp n i i m A0 d e a s c p g) Ex.
Proof.
  intros Sq Lm. induction k; intros j d e a s c p g Ej Ljm Ns (D & E & Q & Hd & He & Ha & O & H & Z & NZ);
    cbn [ql_sweep].
  - apply wp_ok. split; auto. exists s, c. replace j with i in * by lia. exists D, E, Q. auto 10.
  - apply wp_bind. apply (wp_vget _ _ He); [lia|]. cbv zeta.
    assert (Nf : s * E j <> f0) by (apply fmul_nz; auto; apply NZ; lia).
    destruct (hypot_pos sq (s * E j) g Sq Nf) as [Nr Rr]. set (r := hypot sq (s * E j) g) in *.
    apply wp_bind. apply (wp_vset _ _ He). { bcases. } intros e1 He1.
    destruct (feqb_spec r f0) as [|_]; [contradiction|].
    apply wp_bind. apply wp_divc; auto.
    apply wp_bind. apply wp_divc; auto.
    apply wp_bind. apply (wp_vget _ _ Hd); [lia|].
    apply wp_bind. apply (wp_vset _ _ Hd); [lia|]. intros d1 Hd1.
    apply wp_bind. apply (wp_vget _ _ Hd1); [lia|].
    apply wp_bind. apply (wp_vget _ _ Hd1); [lia|]. cbn beta.
    assert (U1 : updv D j (D j - p) (j - 1)%nat = D (j - 1)%nat) by (unfold updv; bcases; auto).
    assert (U2 : updv D j (D j - p) j = D j - p) by (unfold updv; bcases; auto).
    rewrite U1, U2.
    set (c' := g / r). set (s' := s * E j / r).
    set (r2 := (D (j - 1)%nat - (D j - p)) * s' + two * c' * (c * E j)).
    apply wp_bind. apply (wp_vset _ _ Hd1); [lia|]. intros d2 Hd2.
    eapply wp_seq. { apply rot_loop_wp; [lia|lia|exact Ha]. }
    intros a1 Ha1.
    assert (CS : c' * c' + s' * s' = f1).
    { unfold c', s'. transitivity ((s * E j * (s * E j) + g * g) / (r * r)); [field; auto|].
      rewrite <- Rr. field. auto. }
    destruct (rot_step n j c' s' A0 Q _ ltac:(lia) ltac:(lia) CS O H) as [O' H'].
    apply IHk; try lia.
    { unfold s'. intros Y. apply Nf. replace (s * E j) with (s * E j / r * r) by (field; auto). rewrite Y. ring. }
    exists (updv (updv D j (D j - p)) j (D j - p + s' * r2)),
      (updv E (if j + 1 <? n then j + 1 else 0)%nat r), (rotc j c' s' Q).
    repeat split; try apply Hd2; try apply He1; try apply Ha1; auto.
    + intros x y X Y. rewrite H' by auto. apply mprod_ext; auto. intros t Lt.
      apply (bulge_step n j m D E) with (r := r) (b := c * E j) (r2 := r2); auto; try lia.
      * intros u. unfold updv. bcases; auto.
      * intros u U V. unfold updv. bcases; auto.
    + intros t T1 T2 T3. unfold updv. bcases; auto.
    + intros t T1 T2. unfold updv. bcases; apply NZ; lia.
Qed.

(* the state between the sweeps for row i *)
Definition qls (n i : nat) (A0 : matrix) (st : list K * list K * list K) : Prop :=
  let '(d, e, a) := st in
  exists D E Q, vec n d D /\ vec n e E /\ mat n n a Q /\ orth n Q /\
    eqm n (mprod n A0 Q) (mprod n Q (tri D E)) /\ (forall t, 0 < t -> t <= i -> t < n -> E t = f0).

Lemma bulge_start n m D E g : m < n -> ((m + 1 < n)%nat -> E (m + 1)%nat = f0) ->
  eqm n (tri D E) (bulge m m D E f1 f1 f0 g).
Proof.
  intros Lm Z r c R C. unfold tri, bulge. cbv zeta.
  assert (Lh : Nat.max r c < n) by lia. set (hi := Nat.max r c) in *. set (lo := Nat.min r c).
  assert (Z' : hi = S m -> E hi = f0). { intros ->. rewrite <- Nat.add_1_r. apply Z. lia. }
  destruct (Nat.eqb_spec lo hi). { destruct (Nat.eqb_spec hi m) as [->|]; auto. ring. }
  destruct (Nat.eqb_spec hi (S lo)).
  - destruct (Nat.eqb_spec hi m) as [->|]. { ring. }
    bcases; auto.
  - bcases; auto.
Qed.
Lemma bulge_end n i m (D E D' E' : vect) s c p g : i < m -> m < n ->
  (forall t, 0 < t -> t <= i -> t < n -> E t = f0) ->
  (forall t, D' t = if t =? i then D i - p else D t) ->
  (forall t, 0 < t -> t < n -> E' t = if t =? S i then g else if t =? S m then f0 else E t) ->
  eqm n (bulge i m D E s c p g) (tri D' E').
Proof.
  intros Lim Lm Z HD HE r k R Kk. unfold tri, bulge. cbv zeta.
  assert (Lh : Nat.max r k < n) by lia.
  assert (Lo : Nat.min r k <= Nat.max r k) by lia.
  set (hi := Nat.max r k) in *. set (lo := Nat.min r k) in *.
  destruct (Nat.eqb_spec lo hi). { rewrite HD. auto. }
  destruct (Nat.eqb_spec hi (S lo)).
  - rewrite HE by lia. bcases; auto. replace hi with i by lia. rewrite Z by lia. ring.
  - bcases; auto. rewrite Z by lia. ring.
Qed.
Lemma ql_pivot sq (g : K) : sqrt_pos sq ->
  g + (if fltb f0 g then sq (g * g + f1) else - sq (g * g + f1)) <> f0.
Proof.
  intros Sq. destruct (Sq (g * g + f1)) as [_ P].
  { apply fltb_spec. split. { apply fadd_nonneg; [apply fsqr_nonneg|apply f0_le_f1]. }
    intros E. symmetry in E. apply fadd_0_nonneg in E as [_ E]; [|apply fsqr_nonneg|apply f0_le_f1].
    now apply f1_neq_f0 in E. }
  destruct (fltb f0 g) eqn:G.
  - apply fadd_pos_nz; auto. now apply fltb_spec in G.
  - intros E. apply (fadd_pos_nz (- g) (sq (g * g + f1))); auto.
    + unfold fltb in G. apply negb_false_iff in G. apply fle_sub in G. now replace (f0 - g) with (- g) in G by ring.
    + replace (- g + sq (g * g + f1)) with (- (g + - sq (g * g + f1))) by ring. rewrite E. ring.
Qed.

Lemma ql_step_wp sq n i A0 st Ex : sqrt_pos sq -> i < n -> qls n i A0 st ->
  wp (ql_step sq n i st) (fun r => match r with None => qls n (i + 1) A0 st | Some st => qls n i A0 st end) Ex.
Proof.
  intros Sq Li. destruct st as [[d e] a]. intros (D & E & Q & Hd & He & Ha & O & H & Z). unfold ql_step.
  eapply wp_seq. { apply (ql_split_wp n d e D E Ex Hd He). lia. }
  intros m (A & B & C & F).
  destruct (Nat.eqb_spec m i) as [->|Nm].
  - apply wp_ok. exists D, E, Q. repeat split; try apply Hd; try apply He; try apply Ha; auto.
    intros t T1 T2 T3. destruct (Nat.eq_dec t (i + 1)) as [->|]; auto. apply Z; auto. lia.
  - apply wp_bind. apply (wp_vget _ _ Hd); [lia|].
    apply wp_bind. apply (wp_vget _ _ Hd); [lia|].
    apply wp_bind. apply (wp_vget _ _ He); [lia|].
    assert (Ne : E (i + 1)%nat <> f0) by (apply C; lia).
    apply wp_bind. apply wp_divc. { apply fmul_nz; auto. apply two_nz. }
    cbv zeta. apply wp_bind. apply (wp_vget _ _ Hd); [lia|].
    apply wp_bind. apply wp_divc. { now apply ql_pivot. }
    eapply wp_seq. { apply (ql_sweep_wp sq n i m A0 Ex Sq); try lia. { apply f1_neq_f0. }
      exists D, E, Q. repeat split; try apply Hd; try apply He; try apply Ha; auto.
      intros x y X Y. rewrite H by auto. apply mprod_ext; auto. intros t Lt.
      apply (bulge_start n); auto. lia. }
    intros [[[[[d1 e1] a1] p1] g1] whole] (-> & s1 & c1 & D1 & E1 & Q1 & Hd1 & He1 & Ha1 & O1 & H1 & Z1 & _).
    apply wp_bind. apply (wp_vset _ _ He1). { bcases. } intros e2 He2.
    apply wp_bind. apply (wp_vget _ _ Hd1); [lia|].
    apply wp_bind. apply (wp_vset _ _ Hd1); [lia|]. intros d2 Hd2.
    apply wp_bind. apply (wp_vset _ _ He2); [lia|]. intros e3 He3.
    apply wp_ok. eexists _, _, Q1. split; [exact Hd2|]. split; [exact He3|]. split; [exact Ha1|]. split; [auto|]. split.
    + intros x y X Y. rewrite H1 by auto. apply mprod_ext; auto. intros t Lt.
      apply (bulge_end n i m D1 E1); auto; try lia.
      * intros u U V. unfold updv. bcases; auto.
    + intros t T1 T2 T3. unfold updv. bcases; auto.
Qed.

Lemma ql_while_wp sq n i A0 : sqrt_pos sq -> i < n -> forall fuel st, qls n i A0 st ->
  wpf (ql_while sq fuel n i st) (qls n (i + 1) A0).
Proof.
  intros Sq Li. induction fuel; intros st H; cbn [ql_while]. { exact I. }
  eapply wpf_seq. { apply wpf_wp. apply (ql_step_wp sq n i A0); auto. }
  intros [st'|] H'; auto.
Qed.
Lemma eig_tri_ql_wp sq fuel n A0 d e a : sqrt_pos sq -> 0 < n -> qls n 0 A0 (d, e, a) ->
  wpf (eig_tri_ql sq fuel n d e a) (fun '(d, e, a) => exists D Q, vec n d D /\ mat n n a Q /\ orth n Q /\
    forall r c, r < n -> c < n -> mprod n A0 Q r c = D c * Q r c).
Proof.
  intros Sq P H. unfold eig_tri_ql. destruct (Nat.eqb_spec n 0); [lia|].
  eapply wpf_mono. { apply wpf_for with (P := fun i st => qls n i A0 st); [lia|exact H|].
    intros i st Li Hi. apply ql_while_wp; auto. lia. }
  intros [[d' e'] a'] (D & E & Q & Hd & He & Ha & O & H' & Z). exists D, Q. repeat split; try apply Hd; try apply Ha; auto.
  intros r c R C. rewrite H' by auto. unfold mprod. rewrite (sumr_one 0 n _ c); [|lia|].
  - unfold tri. rewrite Nat.max_id, Nat.min_id, Nat.eqb_refl. ring.
  - intros k Lk Nk. unfold tri. cbv zeta. bcases; [|ring]. rewrite Z by lia. ring.
Qed.

End Proofs.
