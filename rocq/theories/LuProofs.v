(* Proofs about the LU decomposition: the loops, the factors, the substitutions. *)
From Coq Require Import List ZArith Lia Bool Arith Field.
From Verif Require Import Base LinBase LinDet GaussModel GaussProofs LuModel.
Import ListNotations.
Local Open Scope nat_scope.

(* the first t elements of the array *)
Definition pvec {A} (t n : nat) (l : list A) (f : nat -> A) : Prop :=
  length l = n /\ forall i, i < t -> nth_error l i = Some (f i).
Lemma pvec_get {A} t n (l : list A) f i (Q : A -> Prop) E :
  pvec t n l f -> i < t -> Q (f i) -> wp (aget l i) Q E.
Proof. intros [_ H] I q. unfold aget. rewrite H; auto. Qed.
Lemma pvec_set {A} t n (l : list A) f i x (Q : list A -> Prop) E :
  pvec t n l f -> t <= i -> i < n ->
  (forall l', pvec t n l' f -> nth_error l' i = Some x -> Q l') -> wp (aset l i x) Q E.
Proof.
  intros [L H] T I q. rewrite aset_ok by lia. cbn. apply q.
  - split. { now rewrite length_upd. }
    intros k Lk. rewrite nth_error_upd_ne by lia. auto.
  - apply nth_error_upd_eq. lia.
Qed.

(* the row of the original matrix that is in row r after the exchanges 0..i-1 *)
Fixpoint perm (q : nat -> nat) (i : nat) (r : nat) : nat :=
  match i with
  | O => r
  | S i => perm q i (if r =? i then q i else if r =? q i then i else r)
  end.
Lemma perm_lt q n i : (forall k, k < i -> q k < n) -> i <= n -> forall r, r < n -> perm q i r < n.
Proof.
  induction i; intros Q L r R; cbn; auto. apply IHi; try lia.
  - intros; apply Q; lia.
  - pose proof (Q i). bcases.
Qed.
Lemma perm_surj q n i : (forall k, k < i -> q k < n) -> i <= n ->
  forall s, s < n -> exists r, r < n /\ perm q i r = s.
Proof.
  induction i; intros Q L s S; cbn. { eauto. }
  destruct (IHi (fun k H => Q k (Nat.lt_lt_succ_r _ _ H))) with (s := s) as (r & R & E); try lia.
  pose proof (Q i). exists (if r =? i then q i else if r =? q i then i else r).
  split. { bcases. }
  rewrite <- E. f_equal. bcases.
Qed.
Lemma perm_stable q i : forall t r, (forall k, k < t -> k <= q k) -> r < i -> i <= t ->
  perm q t r = perm q i r.
Proof.
  induction t; intros r Q R L. { lia. }
  destruct (Nat.eq_dec i (S t)) as [->|]; auto. cbn.
  pose proof (Q t). replace (if r =? t then q t else if r =? q t then t else r) with r by bcases.
  apply IHt; try lia. intros; apply Q; lia.
Qed.

Section Proofs.
Context {K : ofield}.
Local Open Scope lin_scope.
Add Field Kf6 : (f_th K).
Notation matrix := (nat -> nat -> K).

(* element (r,c) of the product of the factors stored in A *)
Definition lu (A : matrix) (r c : nat) : K :=
  sumr 0 (min r c) (fun k => A r k * A k c) + (if r <=? c then A r c else A r c * A c c).
(* L with its unit diagonal; U is the matrix with zeros below the diagonal *)
Definition lower (A : matrix) (r k : nat) : K :=
  if k <? r then A r k else if k =? r then f1 else f0.

Lemma lu_product n (A : matrix) r c : r < n -> c < n ->
  lu A r c = sumr 0 n (fun k => lower A r k * zeroed n A k c).
Proof.
  intros R C. unfold lu. destruct (Nat.leb_spec r c).
  - rewrite Nat.min_l by lia. rewrite (sumr_split 0 r n), (sumr_first r n) by lia.
    rewrite (sumr_zero (S r) n).
    2:{ intros k Lk. unfold lower. bcases. ring. }
    rewrite (sumr_ext 0 r (fun k => lower A r k * zeroed n A k c) (fun k => A r k * A k c)).
    2:{ intros k Lk. unfold lower, zeroed. bcases. auto. }
    unfold lower, zeroed. bcases. ring.
  - rewrite Nat.min_r by lia. rewrite (sumr_split 0 c n), (sumr_first c n) by lia.
    rewrite (sumr_zero (S c) n).
    2:{ intros k Lk. unfold zeroed. bcases. ring. }
    rewrite (sumr_ext 0 c (fun k => lower A r k * zeroed n A k c) (fun k => A r k * A k c)).
    2:{ intros k Lk. unfold lower, zeroed. bcases. auto. }
    unfold lower, zeroed. bcases. ring.
Qed.

(* ---------- decomposition ---------- *)

Lemma lu_reduce_wp n i j hi l (A : matrix) E : mat n n l A -> i < n -> j < n -> hi <= i -> hi <= j ->
  wp (lu_reduce n i j hi l)
     (fun l' => mat n n l' (updm A j i (A j i - sumr 0 hi (fun k => A j k * A k i)))) E.
Proof.
  intros M I J H1 H2. unfold lu_reduce.
  eapply wp_mono; [apply wp_for with
    (P := fun t l => mat n n l (updm A j i (A j i - sumr 0 t (fun k => A j k * A k i)))) | auto].
  - lia.
  - eapply mat_ext; eauto. intros r c R C. unfold updm. bcases; subst; auto.
    rewrite sumr_nil by lia. ring.
  - intros k l1 Lk M1.
    apply wp_bind. eapply wp_mget; eauto; try lia.
    apply wp_bind. eapply wp_mget; eauto; try lia.
    apply wp_bind. eapply wp_mget; eauto; try lia.
    eapply wp_mset; eauto; try lia. intros l2 M2. eapply mat_ext; eauto.
    intros r c R C. unfold updm. bcases; subst; auto.
    rewrite Nat.add_1_r, sumr_S by lia. ring.
Qed.

(* column i after the reduction of its first j elements *)
Definition colred (n i j : nat) (A : matrix) (V : nat -> K) (l : list K) : Prop :=
  (forall r, r < j -> V r = A r i - sumr 0 (min r i) (fun k => A r k * V k)) /\
  mat n n l (fun r c => if (c =? i) && (r <? j) then V r else A r c).
Lemma colred_step n i j hi A V l E : colred n i j A V l -> i < n -> j < n -> hi = min j i ->
  wp (lu_reduce n i j hi l)
     (fun l' => exists V', colred n i (j + 1) A V' l' /\ (forall r, r < j -> V' r = V r)) E.
Proof.
  intros [HV M] I J Hh. eapply wp_mono. { apply (lu_reduce_wp n i j hi l _ _ M); auto; lia. }
  intros l' M'. cbn beta in *.
  exists (updv V j (A j i - sumr 0 hi (fun k => A j k * V k))). split.
  - split.
    + intros r R. unfold updv at 1. destruct (Nat.eqb_spec r j) as [->|N].
      * subst hi. f_equal. apply sumr_ext. intros k Lk. unfold updv. bcases. auto.
      * rewrite HV by lia. f_equal. apply sumr_ext. intros k Lk. unfold updv. bcases. auto.
    + eapply mat_ext; eauto. intros r c R C. unfold updm, updv. bcases; subst; auto.
      f_equal. apply sumr_ext. intros k Lk. bcases. auto.
  - intros r R. unfold updv. bcases. auto.
Qed.

(* the largest scaled element *)
Definition pvstate (n i j : nat) (A : matrix) (q : nat -> nat) (w : nat -> K)
  (s : list K * K * list nat) : Prop :=
  let '(l, max, ix) := s in
  exists V, colred n i j A V l /\ pvec i n ix q /\ fle f0 max = true /\
    (forall r, i <= r < j -> fle (fabs (V r) / w r) max = true) /\
    (j = i -> max = f0) /\
    (i < j -> exists pv, nth_error ix i = Some pv /\ i <= pv < j /\ max = fabs (V pv) / w pv).

Lemma fdiv_nonneg (x y : K) : fle f0 x = true -> fltb f0 y = true -> fle f0 (x / y) = true.
Proof.
  intros X Y. apply fltb_spec in Y as [Y N].
  replace (x / y) with (x * y * (f1 / y * (f1 / y))) by (field; auto).
  apply fle_mul. { now apply fle_mul. } apply fsqr_nonneg.
Qed.

Lemma lu_pivot_wp n i wk w A q l V ix E : vec n wk w -> (forall r, r < n -> fltb f0 (w r) = true) ->
  i < n -> colred n i i A V l -> pvec i n ix q ->
  wp (lu_pivot n i wk (l, f0, ix)) (pvstate n i n A q w) E.
Proof.
  intros W Wp I C Px. unfold lu_pivot.
  apply wp_for with (P := fun j => pvstate n i j A q w).
  - lia.
  - exists V. split; auto. split; auto. split. { apply fle_refl. }
    split. { intros; lia. } split; auto. intros; lia.
  - intros j [[l1 max] ix1] Lj (V1 & C1 & Px1 & Mx & Le & M0 & Pv). cbn [fst snd].
    eapply wp_seq. { apply (colred_step n i j i A V1 l1 _ C1); lia. }
    intros l2 (V2 & C2 & Same). cbn beta in *.
    apply wp_bind. eapply wp_mget; [apply (proj2 C2)|lia|lia|].
    cbn beta. replace ((i =? i) && (j <? j + 1)) with true by bcases.
    apply wp_bind. eapply wp_vget; eauto; try lia.
    apply wp_bind. apply wp_divc. { apply fpos_nz. apply Wp; lia. }
    destruct (fle max (fabs (V2 j) / w j)) eqn:F.
    + apply wp_bind. eapply pvec_set; eauto; try lia. intros ix2 Px2 E2. cbn [wp].
      exists V2. split; auto. split; auto.
      split. { apply fdiv_nonneg. apply fabs_nonneg. apply Wp; lia. }
      split.
      { intros r R. destruct (Nat.eq_dec r j) as [->|]. apply fle_refl.
        rewrite Same by lia. eapply fle_trans; eauto. apply Le; lia. }
      split. { intros; lia. } intros _. exists j. repeat split; auto; lia.
    + cbn [wp]. assert (H : fle (fabs (V2 j) / w j) max = true).
      { destruct (fle_total K max (fabs (V2 j) / w j)); congruence. }
      exists V2. split; auto. split; auto. split; auto.
      split.
      { intros r R. destruct (Nat.eq_dec r j) as [->|]; auto. rewrite Same by lia. apply Le; lia. }
      split. { intros; lia. } intros _.
      destruct (Nat.eq_dec i j) as [->|].
      { exfalso. rewrite M0 in F by auto.
        rewrite fdiv_nonneg in F; [discriminate|apply fabs_nonneg|apply Wp; lia]. }
      destruct Pv as (pv & Ep & Lp & Em). { lia. }
      exists pv. rewrite Same by lia. repeat split; auto; lia.
Qed.

Record lust (n i : nat) (A0 : matrix) (s : list K * list nat * list K * Z) : Prop := mklust {
  ls_ex : exists A q w,
    mat n n (fst (fst (fst s))) A /\ pvec i n (snd (fst (fst s))) q /\ vec n (snd (fst s)) w /\
    (forall r, r < n -> fltb f0 (w r) = true) /\
    (forall k, k < i -> k <= q k < n) /\
    (forall c, c < i -> A c c <> f0) /\
    (forall r c, r < n -> c < n -> A0 (perm q i r) c = if c <? i then lu A r c else A r c) /\
    (snd s = 1%Z \/ snd s = (-1)%Z) /\
    det n (fun r c => A0 (perm q i r) c) = of_int (snd s) * det n A0 }.

(* A0 is singular *)
Definition has_kernel (n : nat) (A : matrix) : Prop :=
  exists y, (exists i, i < n /\ y i <> f0) /\ forall r, r < n -> dot n A r y = f0.

Lemma lu_stuck n i (A0 A : matrix) q V : i < n ->
  (forall k, k < i -> k <= q k < n) ->
  (forall c, c < i -> A c c <> f0) ->
  (forall r c, r < n -> c < n -> A0 (perm q i r) c = if c <? i then lu A r c else A r c) ->
  (forall r, r < n -> V r = A r i - sumr 0 (min r i) (fun k => A r k * V k)) ->
  (forall r, i <= r < n -> V r = f0) -> has_kernel n A0.
Proof.
  intros I Q D F HV Z.
  destruct (upper_solvable i A (fun r => - V r) D) as (z & Hz).
  set (y := fun k => if k <? i then z k else if k =? i then f1 else f0).
  exists y. split. { exists i. split; auto. unfold y. bcases. apply f1_neq_f0. }
  intros s Ls. destruct (perm_surj q n i) with (s := s) as (r & R & <-); auto; try lia.
  { intros k Lk. apply Q; auto. }
  unfold dot. rewrite (sumr_split 0 i), (sumr_first i) by lia.
  rewrite (sumr_zero (S i) n).
  2:{ intros k Lk. unfold y. bcases. ring. }
  assert (E1 : sumr 0 i (fun c => A0 (perm q i r) c * y c) =
               sumr 0 i (fun k => lower A r k * dot i (zeroed i A) k z)).
  { rewrite (sumr_ext 0 i _ (fun c => sumr 0 i (fun k => lower A r k * zeroed i A k c * z c))).
    - rewrite sumr_swap. apply sumr_ext. intros k Lk. unfold dot. rewrite <- sumr_scale.
      apply sumr_ext. intros. ring.
    - intros c Lc. rewrite F by lia. unfold y. bcases. rewrite sumr_scale_r. f_equal.
      rewrite (lu_product n) by lia. rewrite (sumr_split 0 i n) by lia.
      rewrite (sumr_zero i n).
      2:{ intros k Lk. unfold zeroed. bcases. ring. }
      rewrite (sumr_ext 0 i _ (fun k => lower A r k * zeroed i A k c)). { ring. }
      intros k Lk. unfold zeroed. bcases; auto. }
  assert (E2 : A0 (perm q i r) i = sumr 0 i (fun k => lower A r k * V k)).
  { rewrite F by lia. rewrite Nat.ltb_irrefl.
    assert (E3 : A r i = V r + sumr 0 (min r i) (fun k => A r k * V k)).
    { rewrite (HV r R). ring. }
    rewrite E3. destruct (le_lt_dec i r).
    - rewrite Z, Nat.min_r by lia.
      rewrite (sumr_ext 0 i (fun k => lower A r k * V k) (fun k => A r k * V k)). { ring. }
      intros k Lk. unfold lower. bcases. auto.
    - rewrite Nat.min_l by lia. rewrite (sumr_split 0 r i), (sumr_first r i) by lia.
      rewrite (sumr_zero (S r) i).
      2:{ intros k Lk. unfold lower. bcases. ring. }
      rewrite (sumr_ext 0 r (fun k => lower A r k * V k) (fun k => A r k * V k)).
      2:{ intros k Lk. unfold lower. bcases. auto. }
      unfold lower. bcases. ring. }
  rewrite E1, E2. unfold y at 1. bcases.
  rewrite (sumr_ext 0 i (fun k => lower A r k * dot i (zeroed i A) k z)
             (fun k => lower A r k * - V k)).
  2:{ intros k Lk. rewrite Hz by lia. auto. }
  rewrite (sumr_ext 0 i (fun k => lower A r k * - V k) (fun k => (- f1) * (lower A r k * V k)))
    by (intros; ring).
  rewrite sumr_scale. ring.
Qed.

Lemma of_int_neg d : d = 1%Z \/ d = (-1)%Z -> @of_int K (d * -1)%Z = - of_int d.
Proof. intros [-> | ->]; cbn; ring. Qed.

Lemma lu_round_wp n i A0 s : i < n -> lust n i A0 s ->
  wp (lu_round n i s) (lust n (i + 1) A0) (fun e => e = RuntimeError /\ has_kernel n A0).
Proof.
  intros I [(A & q & w & M & Px & W & Wp & Q & D & F & Sd & Det)].
  destruct s as [[[a ix] wk] d]. cbn [fst snd] in *. unfold lu_round.
  apply wp_seq with (P := fun l => exists V, colred n i i A V l).
  { apply wp_for with (P := fun j l => exists V, colred n i j A V l).
    - lia.
    - exists (fun _ => f0). split. { intros; lia. }
      eapply mat_ext; eauto; intros; bcases; auto.
    - intros j l Lj (V & C). eapply wp_mono. { apply (colred_step n i j j A V l _ C); lia. }
      intros l' (V' & C' & _). eauto. }
  intros a1 (V0 & C0).
  eapply wp_seq. { apply (lu_pivot_wp n i wk w A q a1 V0 ix); auto. }
  intros [[a2 max] ix2] (V & [HV M2] & Px2 & Mx & Le & _ & Pv).
  destruct Pv as (pv & Ep & Lp & Em). { lia. }
  apply wp_bind. unfold aget at 1. rewrite Ep. cbn [wp].
  set (B := fun r c => if (c =? i) && (r <? n) then V r else A r c) in *.
  set (q2 := fun k => if k =? i then pv else q k).
  assert (Eq : forall r, perm q2 i r = perm q i r).
  { assert (G : forall t, t <= i -> forall r, perm q2 t r = perm q t r).
    { induction t; intros L r; cbn; auto. rewrite IHt by lia. unfold q2. bcases; auto. }
    apply G. auto. }
  assert (Eq1 : forall r, perm q2 (S i) r = perm q i (if r =? i then pv else if r =? pv then i else r)).
  { intros r. cbn. rewrite Eq. unfold q2. now rewrite Nat.eqb_refl. }
  assert (Px3 : pvec (S i) n ix2 q2).
  { split. { apply (proj1 Px2). } intros k Lk. unfold q2. destruct (Nat.eqb_spec k i) as [->|]; auto.
    apply (proj2 Px2). lia. }
  (* the zero pivot *)
  assert (Stuck : V pv = f0 -> has_kernel n A0).
  { intros Z. apply lu_stuck with i A q V; auto. intros r R.
    pose proof (Le r R) as L. rewrite Em, Z in L.
    assert (A00 : fabs f0 = @f0 K) by now apply fabs_0. rewrite A00 in L.
    assert (fltb f0 (w r) = true) by (apply Wp; lia).
    assert (Nw : w r <> f0) by now apply fpos_nz.
    assert (Np : w pv <> f0) by (apply fpos_nz; apply Wp; lia).
    replace (f0 / w pv) with (@f0 K) in L by (field; auto).
    apply fabs_0. replace (fabs (V r)) with (fabs (V r) / w r * w r) by (field; auto).
    replace (fabs (V r) / w r) with (@f0 K). { ring. }
    apply fle_antisym; auto. apply fdiv_nonneg; auto. apply fabs_nonneg. }
  (* after the exchange, whether or not it was needed *)
  apply wp_seq with (P := fun s : list K * list K * Z =>
     mat n n (fst (fst s)) (swaprows i pv B) /\
     vec n (snd (fst s)) (fun r => w (if r =? i then pv else if r =? pv then i else r)) /\
     (snd s = 1%Z \/ snd s = (-1)%Z) /\
     det n (fun r c => A0 (perm q2 (S i) r) c) = of_int (snd s) * det n A0).
  { destruct (Nat.eqb_spec i pv) as [->|Ni].
    - cbn [wp fst snd]. split. { eapply mat_ext; eauto; intros. unfold swaprows. bcases; subst; auto. }
      split. { eapply vec_ext; eauto; intros. bcases; subst; auto. }
      split; auto. rewrite <- Det. apply det_ext. intros r c R C. rewrite Eq1.
      f_equal. f_equal. bcases.
    - eapply wp_seq. { apply (swap_rows_wp n n a2 B i pv); auto; lia. }
      intros a3 M3. eapply wp_seq. { apply (vswap_wp n wk w i pv); auto; lia. }
      intros wk3 W3. cbn [wp fst snd]. split; auto. split; auto.
      split. { destruct Sd as [-> | ->]; auto. }
      rewrite of_int_neg by auto.
      rewrite (det_ext n _ (swaprows i pv (fun r c => A0 (perm q i r) c))).
      + rewrite det_swap, Det by lia. ring.
      + intros r c R C. unfold swaprows. rewrite Eq1. auto. }
  intros [[a3 wk3] d3] (M3 & W3 & Sd3 & Det3). cbn [fst snd] in *.
  apply wp_bind. eapply wp_mget; eauto.
  assert (Ev : swaprows i pv B i i = V pv).
  { unfold swaprows, B. rewrite !Nat.eqb_refl. bcases; auto. }
  rewrite Ev. destruct (feqb_spec (V pv) f0) as [Z|Nz]. { cbn. auto. }
  (* the division *)
  set (C := fun r c => if (c =? i) && (i <? r) then swaprows i pv B r c / V pv else swaprows i pv B r c).
  apply wp_seq with (P := fun a => mat n n a C).
  { eapply wp_mono; [apply wp_for with
      (P := fun j l => mat n n l (fun r c => if (c =? i) && (i <? r) && (r <? j)
          then swaprows i pv B r c / V pv else swaprows i pv B r c)) | cbn beta].
    - lia.
    - eapply mat_ext; eauto; intros; bcases; auto.
    - intros j l Lj Ml.
      apply wp_bind. eapply wp_mget; eauto; try lia.
      apply wp_bind. eapply wp_mget; eauto; try lia.
      cbn beta. replace ((i =? i) && (i <? i) && (i <? j)) with false by bcases. rewrite Ev.
      apply wp_bind. apply wp_divc; auto.
      eapply wp_mset; eauto; try lia. intros l2 Ml2. eapply mat_ext; eauto.
      intros r c R Cc. unfold updm. bcases; subst; auto.
    - intros l Ml. eapply mat_ext; eauto; intros. unfold C. bcases; auto. }
  intros a4 M4. cbn [wp]. rewrite Nat.add_1_r. constructor. cbn [fst snd].
  exists C, q2, (fun r => w (if r =? i then pv else if r =? pv then i else r)).
  split; auto. split; auto. split; auto.
  split. { intros r R. apply Wp. bcases. }
  split. { intros k Lk. unfold q2. bcases. apply Q. lia. }
  split.
  { intros c Lc. unfold C. replace ((c =? i) && (i <? c)) with false by bcases.
    destruct (Nat.eq_dec c i) as [->|]. { rewrite Ev; auto. }
    unfold swaprows, B. bcases. apply D. lia. }
  split; auto.
  intros r c R Cc. rewrite Eq1.
  set (r' := if r =? i then pv else if r =? pv then i else r) in *.
  assert (R' : r' < n) by (unfold r'; bcases).
  rewrite F by auto.
  assert (CB : forall x k, k <> i -> C x k = A (if x =? i then pv else if x =? pv then i else x) k).
  { intros x k Nk. unfold C, swaprows, B. bcases; auto. }
  assert (CA : forall x k, x < i -> k <> i -> C x k = A x k).
  { intros x k Lx Nk. rewrite CB by auto. f_equal. bcases. }
  assert (CV : forall x, x < i -> C x i = V x).
  { intros x Lx. unfold C, swaprows, B. bcases; auto. }
  assert (Cr : forall k, k <> i -> C r k = A r' k) by (intros; now rewrite CB).
  destruct (lt_eq_lt_dec c i) as [[Lc|Ec]|Gc].
  - (* an earlier column *)
    replace (c <? i) with true by bcases. replace (c <? S i) with true by bcases.
    unfold lu. rewrite Cr by lia.
    destruct (lt_dec r i) as [Lr|Gr].
    + replace r' with r by (unfold r'; bcases).
      f_equal.
      * apply sumr_ext. intros k Lk. rewrite !CA by lia. auto.
      * bcases; auto. now rewrite CA by lia.
    + assert (i <= r') by (unfold r'; bcases).
      rewrite !Nat.min_r by lia. f_equal.
      * apply sumr_ext. intros k Lk. rewrite Cr, CA by lia. auto.
      * bcases; auto. now rewrite CA by lia.
  - (* this column *)
    subst c. rewrite Nat.ltb_irrefl. replace (i <? S i) with true by bcases.
    assert (EA : A r' i = V r' + sumr 0 (min r' i) (fun k => A r' k * V k)).
    { rewrite (HV r' R'). ring. }
    rewrite EA. unfold lu. destruct (lt_dec r i) as [Lr|Gr].
    + replace r' with r in * by (unfold r'; bcases). rewrite !Nat.min_l by lia.
      replace (r <=? i) with true by bcases. rewrite CV by auto.
      rewrite (sumr_ext 0 r (fun k => C r k * C k i) (fun k => A r k * V k)). { ring. }
      intros k Lk. rewrite Cr, CV by lia. auto.
    + assert (i <= r') by (unfold r'; bcases). rewrite !Nat.min_r by lia.
      rewrite (sumr_ext 0 i (fun k => C r k * C k i) (fun k => A r' k * V k)).
      2:{ intros k Lk. rewrite Cr, CV by lia. auto. }
      assert (Ci : C i i = V pv).
      { unfold C. rewrite Nat.ltb_irrefl, andb_false_r. exact Ev. }
      assert (Sr : swaprows i pv B r i = V r').
      { unfold swaprows. fold r'. unfold B. rewrite Nat.eqb_refl. bcases. auto. }
      destruct (Nat.eq_dec r i) as [->|Nr].
      * replace (i <=? i) with true by bcases. rewrite Ci.
        replace r' with pv by (unfold r'; bcases). ring.
      * replace (r <=? i) with false by bcases. rewrite Ci.
        unfold C. rewrite Nat.eqb_refl. replace (i <? r) with true by bcases. cbn [andb].
        rewrite Sr. field. auto.
  - (* a later column *)
    replace (c <? i) with false by bcases. replace (c <? S i) with false by bcases.
    rewrite Cr by lia. auto.
Qed.

(* ---------- the whole decomposition ---------- *)

Lemma lu_scales_wp eps n a wk (A : matrix) : mat n n a A -> length wk = n -> fltb f0 eps = true ->
  wp (lu_scales eps n a wk)
     (fun wk => exists w, vec n wk w /\ forall r, r < n -> fltb f0 (w r) = true)
     (fun e => e = RuntimeError /\ exists r, r < n /\ forall c, c < n -> fltb (fabs (A r c)) eps = true).
Proof.
  intros M L Pe. unfold lu_scales.
  eapply wp_mono; [apply wp_for with
    (P := fun i wk => exists w, vec n wk w /\ forall r, r < i -> fltb f0 (w r) = true) | auto].
  - lia.
  - exists (fun i => nth i wk f0). split. { now apply vec_of. } intros; lia.
  - intros i wk1 Li (w & W & Wp).
    apply wp_seq with (P := fun max => fle f0 max = true /\
        forall c, c < n -> fle (fabs (A i c)) max = true).
    { unfold row_max. eapply wp_mono; [apply wp_for with
        (P := fun j max => fle f0 max = true /\ forall c, c < j -> fle (fabs (A i c)) max = true) | auto].
      - lia.
      - split. { apply fle_refl. } intros; lia.
      - intros j max Lj (M0 & Mx). apply wp_bind. eapply wp_mget; eauto; try lia. cbn [wp].
        destruct (fltb max (fabs (A i j))) eqn:Lt.
        + split. { apply fabs_nonneg. } intros c C. apply fltb_spec in Lt as [Lt _].
          destruct (Nat.eq_dec c j) as [->|]. apply fle_refl.
          eapply fle_trans; eauto. apply Mx. lia.
        + split; auto. intros c C. unfold fltb in Lt. apply negb_false_iff in Lt.
          destruct (Nat.eq_dec c j) as [->|]; auto. apply Mx. lia. }
    intros max (M0 & Mx). destruct (fltb max eps) eqn:Lt.
    + cbn. split; auto. exists i. split. { lia. } intros c C.
      unfold fltb in *. apply negb_true_iff in Lt. apply negb_true_iff.
      destruct (fle eps (fabs (A i c))) eqn:G; auto.
      rewrite (fle_trans _ _ _ _ G (Mx c C)) in Lt. discriminate.
    + eapply wp_vset; eauto; try lia. intros wk2 W2. eexists. split; [exact W2|].
      intros r R. unfold updv. bcases. 2:{ apply Wp; lia. }
      unfold fltb in *. apply negb_true_iff. apply negb_false_iff in Lt. apply negb_true_iff in Pe.
      destruct (fle max f0) eqn:G; auto. rewrite (fle_trans _ _ _ _ Lt G) in Pe. discriminate.
Qed.

(* the factors of the rows of A0 as exchanged *)
Definition lufact (n : nat) (A0 A : matrix) (q : nat -> nat) : Prop :=
  (forall k, k < n -> k <= q k < n) /\ (forall c, c < n -> A c c <> f0) /\
  (forall r c, r < n -> c < n -> A0 (perm q n r) c = lu A r c).

Lemma decmp_lu_wp eps n a ix d wk (A0 : matrix) : mat n n a A0 -> length ix = n -> length wk = n ->
  fltb f0 eps = true -> n <> 0%nat ->
  wp (decmp_lu eps n a ix d wk)
     (fun '(a, ix, d) => exists A q, mat n n a A /\ pvec n n ix q /\ lufact n A0 A q /\
        det n A0 = of_int d * prodr n (fun r => A r r))
     (fun e => e = RuntimeError /\
        ((exists r, r < n /\ forall c, c < n -> fltb (fabs (A0 r c)) eps = true) \/ has_kernel n A0)).
Proof.
  intros M Lx Lw Pe Nn. unfold decmp_lu. destruct (Nat.eqb_spec n 0); [tauto|].
  apply wp_seq with (P := fun wk => exists w, vec n wk w /\ forall r, r < n -> fltb f0 (w r) = true).
  { eapply wp_conseq. apply (lu_scales_wp eps n a wk A0); auto. auto. intros e [-> H]. auto. }
  intros wk1 (w & W & Wp).
  apply wp_seq with (P := lust n n A0).
  { apply wp_for with (P := fun i => lust n i A0).
    - lia.
    - constructor. cbn [fst snd]. exists A0, (fun _ => O), w.
      split; auto. split. { split; auto. intros; lia. }
      split; auto. split; auto. split. { intros; lia. } split. { intros; lia. }
      split. { intros; auto. } split; auto. cbn [of_int Pos.iter perm]. change (fun r c => A0 r c) with A0. ring.
    - intros i s Li H. eapply wp_conseq. { apply (lu_round_wp n i A0 s); auto. lia. }
      { auto. } intros e [-> H']. auto. }
  intros [[[a1 ix1] wk2] d1] [(A & q & w' & M1 & P1 & _ & _ & Q & D & F & Sd & Det)].
  cbn [fst snd wp] in *. exists A, q. split; auto. split; auto.
  assert (Fa : lufact n A0 A q).
  { split; auto. split; auto. intros r c R C. rewrite F by auto. bcases. auto. }
  split; auto.
  assert (E : det n (fun r c => A0 (perm q n r) c) = prodr n (fun r => A r r)).
  { rewrite (det_ext n _ (fun i j => sumr 0 (S i) (fun k => lower A i k * zeroed n A k j))).
    - rewrite det_unit_lower. { apply det_zeroed_lead. lia. }
      intros i Li. unfold lower. bcases. auto.
    - intros r c R C. destruct Fa as (_ & _ & Fa). rewrite Fa, (lu_product n) by auto.
      rewrite (sumr_split 0 (S r) n) by lia. rewrite (sumr_zero (S r) n). { ring. }
      intros k Lk. unfold lower. bcases. ring. }
  rewrite <- E, Det. destruct Sd as [-> | ->]; cbn [of_int Pos.iter]; ring.
Qed.

(* ---------- substitution ---------- *)

(* the column c of B is replaced by y *)
Definition setcol (c : nat) (y : nat -> K) (B : matrix) : matrix :=
  fun r k => if k =? c then y r else B r k.

Lemma setcol_eq c y (B : matrix) r : setcol c y B r c = y r.
Proof. unfold setcol. now rewrite Nat.eqb_refl. Qed.
Lemma lu_forward_wp n m c a ix b (A B : matrix) q E : mat n n a A -> pvec n n ix q -> mat n m b B ->
  c < m -> (forall k, k < n -> k <= q k < n) ->
  wp (lu_forward n m c a ix b) (fun s => exists Y, mat n m (fst s) (setcol c Y B) /\
      forall r, r < n -> Y r + sumr 0 r (fun k => A r k * Y k) = B (perm q n r) c) E.
Proof.
  intros M Px Mb C Q. unfold lu_forward.
  eapply wp_mono; [apply wp_for with
    (P := fun i (s : list K * nat) => exists Y,
       mat n m (fst s) (setcol c (fun r => if r <? i then Y r else B (perm q i r) c) B) /\
       (forall r, r < i -> Y r + sumr 0 r (fun k => A r k * Y k) = B (perm q n r) c) /\
       (snd s = O -> forall r, r < i -> Y r = f0) /\
       (0 < snd s -> snd s - 1 < i /\ forall r, r < snd s - 1 -> Y r = f0)) | cbn beta].
  - lia.
  - exists (fun _ => f0). cbn [fst snd]. split.
    { eapply mat_ext; eauto. intros r k R Kk. unfold setcol. bcases; subst; auto. }
    split. { intros; lia. } split; intros; lia.
  - intros i [b1 k] Li (Y & M1 & HY & K0 & K1). cbn [fst snd] in *.
    pose proof (Q i) as Qi.
    apply wp_bind. eapply pvec_get; eauto. { lia. }
    apply wp_bind. eapply wp_mget; eauto; try lia. cbn beta. rewrite setcol_eq.
    replace (q i <? i) with false by bcases.
    apply wp_bind. eapply wp_mget; eauto; try lia. cbn beta. rewrite setcol_eq, Nat.ltb_irrefl.
    apply wp_bind. eapply wp_mset; eauto; try lia. intros b2 M2.
    set (sum := B (perm q i (q i)) c) in *.
    assert (Es : sum = B (perm q n i) c).
    { unfold sum. rewrite (perm_stable q (S i) n i); try lia.
      - cbn. now rewrite Nat.eqb_refl.
      - intros; apply Q; auto. }
    set (y := sum - sumr 0 i (fun k => A i k * Y k)).
    apply wp_seq with (P := fun s : K * nat => fst s = y /\
      (snd s = O -> y = f0 /\ k = O) /\ (0 < snd s -> (k = snd s \/ k = O /\ snd s = (i + 1)%nat))).
    + destruct (Nat.ltb_spec 0 k).
      * destruct (K1 H) as [Lk Yz].
        replace (k <=? i) with true by bcases.
        eapply wp_seq.
        { eapply wp_for with (P := fun j s => s = sum - sumr (k - 1) j (fun k => A i k * Y k)).
          - lia.
          - rewrite sumr_nil by lia. ring.
          - intros j s Lj ->. apply wp_bind. eapply wp_mget; eauto; try lia.
            apply wp_bind. eapply wp_mget; eauto; try lia. cbn [wp].
            unfold updm, setcol. rewrite Nat.eqb_refl.
            replace (j =? q i) with false by bcases. replace (j <? i) with true by bcases.
            cbn [andb]. rewrite Nat.add_1_r, sumr_S by lia. ring. }
        intros s ->. cbn [wp fst snd]. split; [|split].
        -- unfold y. rewrite (sumr_split 0 (k - 1) i) by lia. rewrite (sumr_zero 0 (k - 1)).
           { ring. } intros r R. rewrite Yz by lia. ring.
        -- lia.
        -- auto.
      * assert (k = O) by lia. subst k.
        assert (Ey : y = sum).
        { unfold y. rewrite sumr_zero. { ring. } intros r R. rewrite K0 by (auto; lia). ring. }
        destruct (feqb_spec sum f0); cbn [negb wp fst snd].
        -- split; auto. split; [|lia]. intros _. rewrite Ey. auto.
        -- split; auto. split; [lia|]. auto.
    + intros [s k'] (Ey & H0 & H1). cbn [fst snd] in *. subst s.
      apply wp_bind. eapply wp_mset; eauto; try lia. intros b3 M3. cbn [wp fst snd].
      exists (updv Y i y).
      assert (Su : forall r, r <= i -> sumr 0 r (fun k => A r k * updv Y i y k) =
                                       sumr 0 r (fun k => A r k * Y k)).
      { intros r R. apply sumr_ext. intros j Lj. unfold updv. bcases. auto. }
      split; [|split; [|split]].
      * eapply mat_ext; eauto. intros r k0 R Kk. unfold updm, setcol, updv.
        destruct (Nat.eqb_spec k0 c) as [->|]; [|bcases; auto].
        rewrite Nat.add_1_r. cbn [perm]. bcases; subst; auto.
      * intros r R. rewrite Su by lia. unfold updv. bcases. 2:{ apply HY; lia. }
        subst r. rewrite <- Es. unfold y. ring.
      * intros Z r R. destruct (H0 Z) as [Y0 ->]. unfold updv. bcases; auto.
        apply K0; auto. lia.
      * intros P. destruct (H1 P) as [<-|[-> ->]].
        -- destruct (K1 P) as [L1 L2]. split; [lia|]. intros r R. unfold updv. bcases. auto.
        -- split; [lia|]. intros r R. unfold updv. bcases. apply K0; auto. lia.
  - intros [b1 k] (Y & M1 & HY & _). cbn [fst snd] in *. exists Y. split; auto.
    eapply mat_ext; eauto. intros r j R J. unfold setcol. bcases; auto.
Qed.

Lemma lu_back_wp n m c a b (A B : matrix) Y E : mat n n a A -> mat n m b (setcol c Y B) -> c < m ->
  (forall r, r < n -> A r r <> f0) ->
  wp (lu_back n m c a b) (fun x => exists y, mat n m x (setcol c y B) /\ solv n (zeroed n A) y Y) E.
Proof.
  intros M V C N. unfold lu_back.
  eapply wp_mono; [apply wp_down with
    (P := fun i x => exists y, mat n m x (setcol c y B) /\ (forall r, r < i -> y r = Y r) /\
       (forall r, i <= r < n -> y r = (Y r - sumr (S r) n (fun k => A r k * y k)) / A r r)) | cbn beta].
  - lia.
  - exists Y. split; [auto|]. split; intros; auto. lia.
  - intros i x1 Li (y & V1 & Lo & Hi).
    apply wp_seq with (P := fun x => mat n m x (setcol c (updv y (i - 1)
        (Y (i - 1)%nat - sumr i n (fun k => A (i - 1)%nat k * y k))) B)).
    + eapply wp_mono; [apply wp_for with
        (P := fun j x => mat n m x (setcol c (updv y (i - 1)
           (Y (i - 1)%nat - sumr i j (fun k => A (i - 1)%nat k * y k))) B)) | auto].
      * lia.
      * eapply mat_ext; eauto; intros r k R Kk. unfold setcol, updv. bcases; subst; auto.
        rewrite Lo, sumr_nil by lia. ring.
      * intros j x2 Lj V2.
        apply wp_bind. eapply wp_mget; eauto; try lia.
        apply wp_bind. eapply wp_mget; eauto; try lia.
        apply wp_bind. eapply wp_mget; eauto; try lia.
        eapply wp_mset; eauto; try lia. intros x3 V3.
        eapply mat_ext; eauto. intros r k R Kk. unfold updm, setcol, updv. bcases; subst; auto.
        rewrite Nat.add_1_r, sumr_S by lia. ring.
    + intros x2 V2. apply wp_bind. eapply wp_mget; eauto; try lia.
      apply wp_bind. eapply wp_mget; eauto; try lia.
      apply wp_bind. apply wp_divc. { apply N; lia. }
      eapply wp_mset; eauto; try lia. intros x3 V3.
      exists (updv y (i - 1) ((Y (i - 1)%nat - sumr i n (fun k => A (i - 1)%nat k * y k)) /
                              A (i - 1)%nat (i - 1)%nat)).
      split; [|split].
      * eapply mat_ext; eauto. intros r k R Kk. unfold updm, setcol, updv. bcases; subst; auto.
      * intros r R. unfold updv. bcases. apply Lo. lia.
      * intros r R. unfold updv at 1. destruct (Nat.eqb_spec r (i - 1)) as [->|Nr].
        -- replace (S (i - 1)) with i by lia. f_equal. f_equal.
           apply sumr_ext. intros k Lk. unfold updv. bcases. auto.
        -- rewrite Hi by lia. f_equal. f_equal. apply sumr_ext. intros k Lk. unfold updv. bcases. auto.
  - intros x' (y & V' & _ & H). exists y. split; auto. apply solv_upper; auto.
    intros r R. apply H. lia.
Qed.

Lemma lufact_dot n A0 A q r y : lufact n A0 A q -> r < n ->
  dot n A0 (perm q n r) y = sumr 0 n (fun k => lower A r k * dot n (zeroed n A) k y).
Proof.
  intros (Q & D & F) R. unfold dot at 1.
  rewrite (sumr_ext 0 n _ (fun c => sumr 0 n (fun k => lower A r k * zeroed n A k c * y c))).
  - rewrite sumr_swap. apply sumr_ext. intros k Lk. unfold dot. rewrite <- sumr_scale.
    apply sumr_ext. intros. ring.
  - intros c Lc. rewrite F, (lu_product n) by lia. now rewrite sumr_scale_r.
Qed.
Lemma lower_sum n A r w : r < n ->
  sumr 0 n (fun k => lower A r k * w k) = w r + sumr 0 r (fun k => A r k * w k).
Proof.
  intros R. rewrite (sumr_split 0 r n), (sumr_first r n) by lia.
  rewrite (sumr_zero (S r) n).
  2:{ intros k Lk. unfold lower. bcases. ring. }
  rewrite (sumr_ext 0 r _ (fun k => A r k * w k)).
  2:{ intros k Lk. unfold lower. bcases. auto. }
  unfold lower. bcases. ring.
Qed.

Lemma bksub_lu_wp n m c a ix b (A0 A B : matrix) q E : mat n n a A -> pvec n n ix q -> mat n m b B ->
  c < m -> lufact n A0 A q ->
  wp (bksub_lu n a ix b m c)
     (fun x => exists y, mat n m x (setcol c y B) /\ solv n A0 y (fun r => B r c)) E.
Proof.
  intros M Px Mb C Fa. unfold bksub_lu. pose proof Fa as (Q & D & F).
  eapply wp_seq. { apply (lu_forward_wp n m c a ix b A B q); auto. }
  intros [b1 k] (Y & M1 & HY). cbn [fst] in *.
  eapply wp_mono. { apply (lu_back_wp n m c a b1 A B Y); auto. }
  intros x (y & Mx & S). exists y. split; auto. intros s Ls.
  destruct (perm_surj q n n) with (s := s) as (r & R & <-); auto.
  { intros j Lj. apply Q; auto. }
  rewrite (lufact_dot n A0 A q r y Fa R).
  rewrite (sumr_ext 0 n _ (fun k => lower A r k * Y k)).
  - rewrite lower_sum by auto. auto.
  - intros j Lj. rewrite S by lia. auto.
Qed.

(* a factorised matrix has one solution at most *)
Lemma lufact_unique n A0 A q y z b : lufact n A0 A q -> solv n A0 y b -> solv n A0 z b ->
  forall r, r < n -> y r = z r.
Proof.
  intros Fa Y Z. pose proof Fa as (Q & D & F).
  assert (H : forall r, r < n -> dot n (zeroed n A) r y = dot n (zeroed n A) r z).
  { assert (G : forall t r, r < t -> t <= n -> dot n (zeroed n A) r y = dot n (zeroed n A) r z).
    { induction t; intros r R L. { lia. }
      destruct (Nat.eq_dec r t) as [->|]; [|apply IHt; lia].
      assert (P : perm q n t < n). { apply perm_lt; auto. intros k Lk. apply Q; auto. }
      pose proof (Y _ P) as Ey. pose proof (Z _ P) as Ez.
      rewrite (lufact_dot n A0 A q), lower_sum in Ey, Ez by (auto; lia).
      rewrite (sumr_ext 0 t _ (fun k => A t k * dot n (zeroed n A) k z)) in Ey.
      2:{ intros k Lk. rewrite IHt by lia. auto. }
      replace (dot n (zeroed n A) t y) with
        (dot n (zeroed n A) t y + sumr 0 t (fun k => A t k * dot n (zeroed n A) k z) -
         sumr 0 t (fun k => A t k * dot n (zeroed n A) k z)) by ring.
      rewrite Ey, <- Ez. ring. }
    intros r R. apply (G n); auto. }
  pose proof (proj2 (solv_upper n A y (fun r => dot n (zeroed n A) r z) D)) as HY.
  pose proof (proj2 (solv_upper n A z (fun r => dot n (zeroed n A) r z) D)) as HZ.
  assert (HY' := HY (fun r R => H r R)). assert (HZ' := HZ (fun r R => eq_refl)).
  assert (G : forall t r, n - t <= r < n -> y r = z r).
  { induction t; intros r R. { lia. }
    rewrite HY', HZ' by lia. f_equal. f_equal. apply sumr_ext. intros k Lk. rewrite IHt; auto. lia. }
  intros r R. apply (G n). lia.
Qed.
Lemma lufact_no_kernel n A0 A q : lufact n A0 A q -> ~ has_kernel n A0.
Proof.
  intros Fa (y & (i & I & N) & Z). apply N.
  apply (lufact_unique n A0 A q y (fun _ => f0) (fun _ => f0)); auto.
  intros r R. unfold dot. apply sumr_zero. intros. ring.
Qed.
End Proofs.
