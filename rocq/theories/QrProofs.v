(* Proofs about the QR decomposition. *)
From Coq Require Import List ZArith Lia Bool Arith Field.
From Verif Require Import Base LinBase LinDet GaussModel GaussProofs LuProofs QrModel.
Import ListNotations.
Local Open Scope nat_scope.

Section Proofs.
Context {K : ofield}.
Local Open Scope lin_scope.
Add Field Kf11 : (f_th K).
Notation matrix := (nat -> nat -> K).
Notation vect := (nat -> K).

(* the root is positive too *)
Definition sqrt_pos (sq : K -> K) : Prop :=
  forall x, fltb f0 x = true -> sq x * sq x = x /\ fltb f0 (sq x) = true.

(* ---------- reflections ---------- *)

Definition refl (n k : nat) (v : vect) (s : K) (b : vect) : vect := fun i =>
  if k <=? i then b i - sumr k n (fun t => v t * b t) / s * v i else b i.
Lemma refl_ext n k v s b b' : k <= n -> (forall i, i < n -> b i = b' i) ->
  forall i, i < n -> refl n k v s b i = refl n k v s b' i.
Proof.
  intros Lk H i I. unfold refl. rewrite (H i I).
  rewrite (sumr_ext k n _ (fun t => v t * b' t)); auto. intros t Lt. now rewrite H by lia.
Qed.
Lemma refl_refl n k v s b : s <> f0 -> sumr k n (fun t => v t * v t) = s + s ->
  forall i, refl n k v s (refl n k v s b) i = b i.
Proof.
  intros N V i. unfold refl. destruct (Nat.leb_spec k i); auto.
  set (q := sumr k n (fun t => v t * b t)).
  rewrite (sumr_ext k n _ (fun t => v t * b t - q / s * (v t * v t))).
  - rewrite sumr_sub, sumr_scale, V. fold q. field. auto.
  - intros t Lt. bcases. field. auto.
Qed.
Lemma refl_dot n k v s (M : matrix) y r : s <> f0 -> r < n ->
  dot n (fun i c => refl n k v s (fun t => M t c) i) r y = refl n k v s (fun i => dot n M i y) r.
Proof.
  intros N R. unfold refl, dot. destruct (Nat.leb_spec k r); auto.
  rewrite (sumr_ext 0 n _ (fun c => M r c * y c - sumr k n (fun t => v t * M t c) * (v r / s * y c))).
  2:{ intros. field. auto. }
  rewrite sumr_sub. f_equal.
  rewrite (sumr_ext 0 n _ (fun c => sumr k n (fun t => v t * M t c * (v r / s * y c)))).
  2:{ intros. now rewrite sumr_scale_r. }
  rewrite sumr_swap.
  rewrite (sumr_ext k n _ (fun t => v t * sumr 0 n (fun c => M t c * y c) * (v r / s))).
  2:{ intros t Lt. rewrite <- sumr_scale, <- sumr_scale_r. apply sumr_ext. intros. field. auto. }
  rewrite sumr_scale_r. field. auto.
Qed.
Lemma refl_solv n k v s (M : matrix) y b : k <= n -> s <> f0 -> sumr k n (fun t => v t * v t) = s + s ->
  (solv n M y b <-> solv n (fun i c => refl n k v s (fun t => M t c) i) y (refl n k v s b)).
Proof.
  intros Lk N V. split; intros H r R.
  - rewrite refl_dot by auto. apply refl_ext; auto.
  - rewrite <- (refl_refl n k v s (fun i => dot n M i y) N V r).
    rewrite <- (refl_refl n k v s b N V r). apply refl_ext; auto.
    intros i I. rewrite <- refl_dot by auto. auto.
Qed.

(* the reflections stored in the columns of A *)
Fixpoint app (n k : nat) (A : matrix) (s : vect) (b : vect) : vect :=
  match k with
  | O => b
  | S k => refl n k (fun i => A i k) (s k) (app n k A s b)
  end.
Lemma refl_ext_v n k v v' s b : (forall i, k <= i < n -> v i = v' i) ->
  forall i, i < n -> refl n k v s b i = refl n k v' s b i.
Proof.
  intros H i I. unfold refl. destruct (Nat.leb_spec k i); auto.
  rewrite (H i) by lia. rewrite (sumr_ext k n _ (fun t => v' t * b t)); auto.
  intros t Lt. now rewrite H by lia.
Qed.
Lemma app_ext n k A A' s s' b : k <= n -> (forall i j, j < k -> j <= i < n -> A i j = A' i j) ->
  (forall j, j < k -> s j = s' j) -> forall i, i < n -> app n k A s b i = app n k A' s' b i.
Proof.
  induction k; intros Lk HA Hs i I; cbn [app]; auto.
  rewrite (Hs k) by lia. rewrite (refl_ext_v n k (fun i => A i k) (fun i => A' i k)); auto.
  apply refl_ext; auto; try lia. intros. apply IHk; auto; lia.
Qed.

(* the triangle and what is not yet reduced *)
Definition eff (k : nat) (A : matrix) (d : vect) : matrix := fun r c =>
  if c <? k then (if r <? c then A r c else if r =? c then d r else f0) else A r c.

(* w is what the last place of s holds: it is never written *)
Definition qst (n k : nat) (A0 : matrix) (w : option K) (st : list K * list K * list K * bool) : Prop :=
  let '(a, s, d, rv) := st in
  exists A sv dv, mat n n a A /\ pvec k n s sv /\ pvec k n d dv /\
    (forall y, solv n A0 y (fun _ => f0) <-> solv n (eff k A dv) y (fun _ => f0)) /\
    (rv = true -> (forall r, r < k -> dv r <> f0 /\ sv r <> f0) /\
       forall y b, solv n A0 y b <-> solv n (eff k A dv) y (app n k A sv b)) /\
    (rv = false -> exists r, r < k /\ dv r = f0) /\ nth_error s (n - 1) = w.

Lemma pvec_push {A} k n (l : list A) f x (Q : list A -> Prop) E : pvec k n l f -> k < n ->
  (forall l' g, pvec (S k) n l' g -> g k = x -> (forall i, i < k -> g i = f i) ->
     (forall i, i <> k -> nth_error l' i = nth_error l i) -> Q l') ->
  wp (aset l k x) Q E.
Proof.
  intros [Ll P] L q. rewrite aset_ok by lia. cbn [wp].
  apply (q _ (fun i => if i =? k then x else f i)).
  - split. { now rewrite length_upd. } intros i I. destruct (Nat.eqb_spec i k) as [->|].
    + apply nth_error_upd_eq. lia.
    + rewrite nth_error_upd_ne by lia. apply P. lia.
  - now rewrite Nat.eqb_refl.
  - intros i I. bcases. auto.
  - intros i I. now rewrite nth_error_upd_ne by lia.
Qed.

Lemma solv_eq n (M M' : matrix) y b b' : (forall r c, r < n -> c < n -> M r c = M' r c) ->
  (forall r, r < n -> b r = b' r) -> (solv n M y b <-> solv n M' y b').
Proof.
  intros HM Hb. split; intros H r R; [rewrite <- (Hb r R)|rewrite (Hb r R)]; rewrite <- (H r R);
    apply dot_ext; intros; rewrite HM; auto.
Qed.

(* the column that is reflected *)
Lemma refl_column n k (a v : vect) sum scale :
  k < n -> scale <> f0 -> sum * (a k / scale + sum) <> f0 ->
  sumr k n (fun i => a i / scale * (a i / scale)) = sum * sum ->
  (forall i, k <= i < n -> v i = if i =? k then a i / scale + sum else a i / scale) ->
  sumr k n (fun i => v i * v i) = sum * (a k / scale + sum) + sum * (a k / scale + sum) /\
  forall i, k <= i < n -> refl n k v (sum * (a k / scale + sum)) a i = if i =? k then - scale * sum else f0.
Proof.
  intros Lk Ns Nz Sq V. set (s := sum * (a k / scale + sum)) in *.
  assert (Vk : v k = a k / scale + sum). { rewrite V by lia. now rewrite Nat.eqb_refl. }
  rewrite (sumr_first k n) in Sq by lia.
  set (R := sumr (S k) n (fun i => a i / scale * (a i / scale))) in *.
  assert (Rv : sumr (S k) n (fun i => v i * v i) = R).
  { apply sumr_ext. intros i Li. rewrite V by lia. bcases. auto. }
  assert (Ra : sumr (S k) n (fun i => v i * a i) = scale * R).
  { unfold R. rewrite <- sumr_scale. apply sumr_ext. intros i Li. rewrite V by lia. bcases. field. auto. }
  assert (ER : R = sum * sum - a k / scale * (a k / scale)).
  { rewrite <- Sq. ring. }
  split.
  - rewrite (sumr_first k n), Rv, Vk, ER by lia. unfold s. ring.
  - intros i Li. unfold refl. replace (k <=? i) with true by (symmetry; apply Nat.leb_le; lia).
    assert (Q : sumr k n (fun t => v t * a t) = scale * s).
    { rewrite (sumr_first k n), Ra, Vk, ER by lia. unfold s. field. auto. }
    rewrite Q. replace (scale * s / s) with scale by (field; auto).
    rewrite V by lia. destruct (Nat.eqb_spec i k) as [->|]; field; auto.
Qed.

Lemma fadd_pos_nz (x y : K) : fle f0 x = true -> fltb f0 y = true -> x + y <> f0.
Proof.
  intros X Y Z. apply fltb_spec in Y. destruct Y as [Y N]. apply fadd_0_nonneg in Z; auto.
  destruct Z as [_ Z]. congruence.
Qed.

Lemma qr_round_wp sq n k A0 w st E : sqrt_pos sq -> k + 1 < n -> qst n k A0 w st ->
  wp (qr_round sq n k st) (qst n (k + 1) A0 w) E.
Proof.
  intros Sp Lk. destruct st as [[[a s] d] rv]. intros (A & sv & dv & M & Ps & Pd & Ke & Ok & Bad & Hw).
  unfold qr_round.
  apply wp_seq with (P := fun scale => fle f0 scale = true /\
    (scale = f0 -> forall i, k <= i < n -> A i k = f0) /\
    (scale <> f0 -> exists i, k <= i < n /\ A i k <> f0)).
  { eapply wp_mono; [apply wp_for with
      (P := fun t scale => fle f0 scale = true /\
        (scale = f0 -> forall i, k <= i < t -> A i k = f0) /\
        (scale <> f0 -> exists i, k <= i < t /\ A i k <> f0)) | auto].
    - lia.
    - split. { apply fle_refl. } split; [intros; lia|congruence].
    - intros i sc Li (P0 & P1 & P2). apply wp_bind. eapply wp_mget; eauto; try lia. cbn [wp].
      destruct (fltb sc (fabs (A i k))) eqn:F.
      + split. { apply fabs_nonneg. } split.
        * intros Z. exfalso. rewrite Z in F. unfold fltb in F. rewrite P0 in F. discriminate.
        * intros N. exists i. split; [lia|]. intros Z. apply N. apply fabs_0. auto.
      + split; auto. split.
        * intros Z j Lj. destruct (Nat.eq_dec j i) as [->|]; [|apply P1; auto; lia].
          apply fabs_0. apply fle_antisym; [|apply fabs_nonneg].
          unfold fltb in F. apply negb_false_iff in F. rewrite Z in F. auto.
        * intros N. destruct (P2 N) as (j & Lj & Nj). exists j. split; auto. lia. }
  intros scale (Sc0 & Z & Nz).
  destruct (feqb_spec scale f0) as [E0|N0].
  { apply wp_bind. eapply pvec_push; eauto; try lia. intros d' dv' Pd' Dk Dv _.
    apply wp_bind. eapply pvec_push; eauto; try lia. intros s' sv' Ps' Sk Sv Keep.
    cbn [wp]. rewrite Nat.add_1_r. exists A, sv', dv'. split; auto. split; auto. split; auto.
    split; [|split; [|split; [|rewrite Keep by lia; auto]]].
    - intros y. rewrite Ke. apply solv_eq; auto. intros r c R C. unfold eff.
      destruct (lt_eq_lt_dec c k) as [[L|L]|L]; [|subst c|]; bcases; auto.
      + symmetry. apply Dv. lia.
      + subst r. rewrite Dk. apply Z; auto; lia.
    - discriminate.
    - intros _. exists k. split; auto. }
  apply wp_seq with (P := fun t : list K * K =>
     mat n n (fst t) (fun r c => if (c =? k) && (k <=? r) then A r c / scale else A r c) /\
     snd t = sumr k n (fun i => A i k / scale * (A i k / scale))).
  { eapply wp_mono; [apply wp_for with
      (P := fun t (st : list K * K) =>
        mat n n (fst st) (fun r c => if (c =? k) && (k <=? r) && (r <? t) then A r c / scale else A r c) /\
        snd st = sumr k t (fun i => A i k / scale * (A i k / scale))) | cbn beta].
    - lia.
    - cbn [fst snd]. split; [|now rewrite sumr_nil by lia].
      eapply mat_ext; eauto. intros r c R C. bcases; auto.
    - intros i [a1 sm] Li [M1 S1]. cbn [fst snd] in *.
      apply wp_bind. eapply wp_mget; eauto; try lia.
      apply wp_bind. apply wp_divc; auto.
      apply wp_bind. eapply wp_mset; eauto; try lia. intros a2 M2.
      apply wp_bind. eapply wp_mget; eauto; try lia. cbn [wp fst snd].
      assert (X : (if (k =? k) && (k <=? i) && (i <? i) then A i k / scale else A i k) = A i k).
      { bcases; auto. }
      rewrite X in M2 |- *. split.
      + eapply mat_ext; eauto. intros r c R C. unfold updm. bcases; subst; auto.
      + rewrite Nat.add_1_r, sumr_S, S1 by lia. unfold updm. rewrite !Nat.eqb_refl. auto.
    - intros [a1 sm] [M1 S1]. cbn [fst snd] in *. split; auto.
      eapply mat_ext; eauto. intros r c R C. bcases; auto. }
  intros [a1 sm] [M1 S1]. cbn [fst snd] in M1, S1.
  apply wp_bind. eapply wp_mget; eauto; try lia.
  cbn beta. rewrite !Nat.eqb_refl, Nat.leb_refl. cbn [andb].
  set (x := A k k / scale). set (sum := if fltb x f0 then - sq sm else sq sm).
  (* the sum of the squares is positive *)
  assert (Psm : fltb f0 sm = true).
  { apply fltb_spec. rewrite S1. split. { apply sumr_nonneg. intros. apply fsqr_nonneg. }
    intros E0. symmetry in E0. destruct (Nz N0) as (i & Li & Ni). apply Ni.
    pose proof (sumr_sq_0 k n (fun i => A i k / scale) E0 i Li) as Q. cbn beta in Q.
    replace (A i k) with (A i k / scale * scale) by (field; auto). rewrite Q. ring. }
  destruct (Sp sm Psm) as [Sq Pq].
  assert (Ss : sum * sum = sm). { unfold sum. transitivity (sq sm * sq sm); auto. destruct (fltb x f0); ring. }
  assert (Nsum : sum <> f0).
  { intros Q. rewrite Q in Ss. apply (fpos_nz sm Psm). rewrite <- Ss. ring. }
  assert (Nx : x + sum <> f0).
  { unfold sum. destruct (fltb x f0) eqn:Fx.
    - apply fltb_spec in Fx. destruct Fx as [Fx _]. intros Q.
      apply (fadd_pos_nz (- x) (sq sm)); auto.
      + apply fle_sub in Fx. now replace (f0 - x) with (- x) in Fx by ring.
      + replace (- x + sq sm) with (- (x + - sq sm)) by ring. rewrite Q. ring.
    - unfold fltb in Fx. apply negb_false_iff in Fx. now apply fadd_pos_nz. }
  assert (Ns : sum * (x + sum) <> f0) by now apply fmul_nz.
  apply wp_bind. eapply wp_mset; eauto; try lia. intros a2 M2.
  apply wp_bind. eapply wp_mget; eauto; try lia.
  assert (Xk : updm (fun r c => if (c =? k) && (k <=? r) then A r c / scale else A r c) k k (x + sum) k k
     = x + sum). { unfold updm. now rewrite !Nat.eqb_refl. }
  rewrite Xk. clear Xk.
  apply wp_bind. eapply pvec_push; eauto; try lia. intros s' sv' Ps' Sk Sv Keep.
  apply wp_bind. eapply pvec_push; eauto; try lia. intros d' dv' Pd' Dk Dv _.
  set (v := fun i => if i =? k then A i k / scale + sum else A i k / scale).
  destruct (refl_column n k (fun i => A i k) v sum scale) as [Vv Rc]; auto; try lia.
  { rewrite Ss, S1. auto. }
  fold x in Vv, Rc.
  (* after the columns up to j *)
  set (Af := fun j r c => if c =? k then (if k <=? r then v r else A r c)
       else if (k <? c) && (c <? j) then refl n k v (sum * (x + sum)) (fun i => A i c) r else A r c).
  apply wp_seq with (P := fun a => mat n n a (Af n)).
  { apply wp_for with (P := fun j a => mat n n a (Af j)).
    - lia.
    - eapply mat_ext; eauto. intros r c R C. unfold updm, Af, v, x. bcases; subst; auto.
    - intros j a3 Lj M3.
      apply wp_seq with (P := fun q => q = sumr k n (fun t => v t * A t j)).
      { eapply wp_mono; [apply wp_for with (P := fun t q => q = sumr k t (fun t => v t * A t j)) | auto].
        - lia.
        - now rewrite sumr_nil by lia.
        - intros i q Li ->. apply wp_bind. eapply wp_mget; eauto; try lia.
          apply wp_bind. eapply wp_mget; eauto; try lia. cbn [wp].
          rewrite Nat.add_1_r, sumr_S by lia. f_equal. f_equal; unfold Af; bcases; auto. }
      intros q ->. apply wp_bind. eapply pvec_get; eauto; try lia. rewrite Sk.
      apply wp_bind. apply wp_divc; auto. set (q := sumr k n (fun t => v t * A t j) / (sum * (x + sum))).
      eapply wp_mono; [apply wp_for with
        (P := fun t a => mat n n a (fun r c => if (c =? j) && (k <=? r) && (r <? t)
            then A r j - q * v r else Af j r c)) | cbn beta].
      + lia.
      + eapply mat_ext; eauto. intros r c R C. bcases; auto.
      + intros i a4 Li M4. apply wp_bind. eapply wp_mget; eauto; try lia.
        apply wp_bind. eapply wp_mget; eauto; try lia.
        eapply wp_mset; eauto; try lia. intros a5 M5. eapply mat_ext; eauto.
        intros r c R C. unfold updm. bcases; subst; auto. unfold Af. bcases; auto.
      + intros a4 M4. eapply mat_ext; eauto. intros r c R C. cbn beta.
        unfold Af, refl. bcases; subst; auto. }
  intros a3 M3. cbn [wp]. rewrite Nat.add_1_r. exists (Af n), sv', dv'.
  split; auto. split; auto. split; auto.
  set (sk := sum * (x + sum)) in *.
  (* the triangle of the new state is the reflection of that of the old *)
  assert (Ef : forall r c, r < n -> c < n -> eff (S k) (Af n) dv' r c =
     refl n k v sk (fun t => eff k A dv t c) r).
  { intros r c R C. destruct (lt_eq_lt_dec c k) as [[L|L]|L].
    - (* done before *)
      assert (H : forall t, eff k A dv t c = if t <? c then A t c else if t =? c then dv t else f0).
      { intros t. unfold eff. bcases; auto. }
      unfold refl. rewrite (sumr_zero k n).
      2:{ intros t Lt. rewrite H. bcases. ring. }
      rewrite H. unfold eff, Af. bcases; subst; rewrite ?Dv by lia; try (field; auto); auto.
    - subst c. unfold eff at 1. rewrite (proj2 (Nat.ltb_lt k (S k))) by lia.
      destruct (le_lt_dec k r) as [Kr|Kr].
      + transitivity (refl n k v sk (fun i => A i k) r).
        2:{ apply refl_ext; auto; try lia. intros i I. unfold eff. bcases; auto. }
        rewrite Rc by lia. bcases; subst; auto.
      + unfold refl, eff, Af. bcases; auto.
    - transitivity (refl n k v sk (fun i => A i c) r).
      2:{ apply refl_ext; auto; try lia. intros i I. unfold eff. bcases; auto. }
      unfold eff, Af. bcases; auto. }
  assert (Step : forall y b, solv n (eff k A dv) y b <-> solv n (eff (S k) (Af n) dv') y (refl n k v sk b)).
  { intros y b. rewrite (refl_solv n k v sk (eff k A dv) y b) by (auto; lia).
    apply solv_eq; auto. intros. now rewrite Ef by auto. }
  split; [|split; [|split; [|rewrite Keep by lia; auto]]].
  - intros y. rewrite Ke, Step. apply solv_eq; auto. intros r R. unfold refl. bcases; auto.
    rewrite sumr_zero by (intros; ring). field. auto.
  - intros Hr. destruct (Ok Hr) as [D0 T]. split.
    + intros r R. destruct (Nat.eq_dec r k) as [->|].
      * rewrite Dk, Sk. split; auto. apply fmul_nz; auto.
        intros Q. apply N0. replace scale with (- (- scale)) by ring. rewrite Q. ring.
      * rewrite Dv, Sv by lia. apply D0. lia.
    + intros y b. rewrite T, Step. apply solv_eq; auto. intros r R. cbn [app].
      rewrite Sk. fold sk. rewrite (refl_ext_v n k (fun i => Af n i k) v); auto.
      2:{ intros i Li. unfold Af. bcases; auto. }
      apply refl_ext; auto; try lia. intros i I. apply app_ext; auto; try lia.
      * intros p q Lq Lp. unfold Af. bcases; auto.
      * intros q Lq. now rewrite Sv by lia.
  - intros Hr. destruct (Bad Hr) as (r & R & Q). exists r. split; [lia|]. now rewrite Dv by lia.
Qed.

(* ---------- the whole decomposition ---------- *)

(* d is the diagonal of the triangle; s is set in all places but the last *)
Definition qrfact (n : nat) (A0 A : matrix) (sv dv : vect) : Prop :=
  (forall r, r < n -> dv r <> f0) /\ (forall r, r < n - 1 -> sv r <> f0) /\ dv (n - 1)%nat = A (n - 1)%nat (n - 1)%nat /\
  forall y b, solv n A0 y b <-> solv n (eff n A dv) y (app n (n - 1)%nat A sv b).

Lemma eff_last n A dv r c : 0 < n -> r < n -> c < n -> dv (n - 1)%nat = A (n - 1)%nat (n - 1)%nat ->
  eff n A dv r c = eff (n - 1)%nat A dv r c.
Proof.
  intros N R C D. unfold eff. destruct (Nat.eq_dec c (n - 1)%nat) as [->|].
  - bcases; auto. subst r. auto.
  - bcases; auto.
Qed.
Lemma decmp_qr_wp sq n a s d (A0 : matrix) E : sqrt_pos sq -> 0 < n -> mat n n a A0 ->
  length s = n -> length d = n ->
  wp (decmp_qr sq n a s d)
     (fun '(a', s', d', rv) => exists A sv dv, mat n n a' A /\ pvec (n - 1)%nat n s' sv /\ vec n d' dv /\
        nth_error s' (n - 1) = nth_error s (n - 1) /\
        (rv = true -> qrfact n A0 A sv dv) /\
        (rv = false -> has_kernel n A0)) E.
Proof.
  intros Sp Nn M Ls Ld. unfold decmp_qr. destruct (Nat.eqb_spec n 0); [lia|].
  apply wp_seq with (P := qst n (n - 1)%nat A0 (nth_error s (n - 1))).
  { apply wp_for with (P := fun k st => qst n k A0 (nth_error s (n - 1)) st).
    - lia.
    - exists A0, (fun i => nth i s f0), (fun i => nth i d f0). split; auto.
      split. { split; auto. intros; lia. } split. { split; auto. intros; lia. }
      split; [|split; [|split; [|auto]]].
      + intros y. apply solv_eq; auto.
      + intros _. split; [intros; lia|]. intros y b. apply solv_eq; auto.
      + discriminate.
    - intros k st Lk H. apply qr_round_wp; auto. lia. }
  intros [[[a1 s1] d1] rv] (A & sv & dv & M1 & P1 & P2 & Ke & Ok & Bad & Hw).
  apply wp_bind. replace (n * n - 1)%nat with ((n - 1) * n + (n - 1))%nat by nia.
  eapply wp_mget; eauto; try lia.
  apply wp_bind. eapply pvec_push; eauto; try lia. intros d2 dv' Pd Dl Dv _.
  replace (S (n - 1)%nat) with n in Pd by lia.
  apply wp_bind. eapply pvec_get; eauto; try lia. rewrite Dl. cbn [wp].
  exists A, sv, dv'. split; auto. split; auto. split. { split; apply Pd. } split; auto.
  assert (Ef : forall r c, r < n -> c < n -> eff n A dv' r c = eff (n - 1)%nat A dv r c).
  { intros r c R C. rewrite eff_last by auto. unfold eff. bcases; auto. apply Dv. lia. }
  assert (Kn : (exists r, r < n /\ dv' r = f0) -> has_kernel n A0).
  { intros H.
    (* the first zero on the diagonal *)
    assert (F : exists r, r < n /\ dv' r = f0 /\ forall q, q < r -> dv' q <> f0).
    { destruct H as (r & R & Z). revert R Z. induction r as [r IH] using lt_wf_ind. intros R Z.
      assert (Dec : (exists q, q < r /\ dv' q = f0) \/ (forall q, q < r -> dv' q <> f0)).
      { clear - r. induction r as [|r IHr]. { right. intros; lia. }
        destruct IHr as [(q & Lq & Zq)|Hq]. { left. exists q. auto. }
        destruct (f_eq_dec (dv' r) f0). { left. eauto. }
        right. intros q Lq. destruct (Nat.eq_dec q r) as [->|]; auto. apply Hq. lia. }
      destruct Dec as [(q & Lq & Zq)|Hq]; [|eauto]. apply (IH q Lq); auto. lia. }
    destruct F as (r & R & Z & Nq).
    set (T := eff n A dv').
    destruct (upper_solvable r T (fun q => - T q r)) as (z & Hz).
    { intros q Lq. unfold T, eff. bcases. apply Nq. auto. }
    exists (fun k => if k <? r then z k else if k =? r then f1 else f0). split.
    - exists r. split; auto. bcases. apply f1_neq_f0.
    - change (solv n A0 (fun k => if k <? r then z k else if k =? r then f1 else f0) (fun _ => f0)).
      apply Ke. apply (proj1 (solv_eq n T (eff (n - 1) A dv) _ (fun _ => f0) (fun _ => f0) Ef (fun _ _ => eq_refl))).
      intros q Lq. unfold dot. rewrite (sumr_split 0 (S r) n), (sumr_zero (S r) n); try lia.
      2:{ intros k Lk. bcases. ring. }
      rewrite sumr_S by lia. rewrite Nat.ltb_irrefl, Nat.eqb_refl.
      destruct (le_lt_dec r q) as [Rq|Rq].
      + rewrite sumr_zero.
        2:{ intros k Lk. unfold T, eff. bcases; ring. }
        unfold T, eff. bcases; subst; rewrite ?Z; ring.
      + pose proof (Hz q Rq) as X. unfold dot in X.
        rewrite (sumr_ext 0 r _ (fun c => zeroed r T q c * z c)).
        * rewrite X. ring.
        * intros k Lk. unfold zeroed, T, eff. bcases; auto; ring. }
  split.
  - intros Hr. destruct (feqb_spec (A (n - 1)%nat (n - 1)%nat) f0) as [|Na]; [discriminate|]. subst rv.
    destruct (Ok eq_refl) as [D T]. split; [|split; [|split]].
    + intros r R. destruct (Nat.eq_dec r (n - 1)%nat) as [->|]; [now rewrite Dl|].
      rewrite Dv by lia. apply D. lia.
    + intros r R. now apply D.
    + auto.
    + intros y b. rewrite T. apply solv_eq; auto. intros. now rewrite Ef.
  - intros Hr. apply Kn. destruct (feqb_spec (A (n - 1)%nat (n - 1)%nat) f0) as [Za|Na].
    + exists (n - 1)%nat. split; [lia|]. now rewrite Dl.
    + destruct (Bad Hr) as (r & R & Z). exists r. split; [lia|]. now rewrite Dv.
Qed.

(* ---------- back substitution ---------- *)

Lemma refl_loop_wp n m c j a b (A B : matrix) (y : vect) s sj E : mat n n a A -> mat n m b (setcol c y B) ->
  c < m -> j < n -> nth_error s j = Some sj -> sj <> f0 ->
  wp (let* sum := for_up j n (fun i sum =>
        let* x := aget a (i * n + j) in
        let* y := aget b (i * m + c) in
        Ok (sum + x * y)) f0 in
      let* sj := aget s j in
      let* sum := divc sum sj in
      for_up j n (fun i b =>
        let* y := aget b (i * m + c) in
        let* x := aget a (i * n + j) in
        aset b (i * m + c) (y - sum * x)) b)
     (fun b => mat n m b (setcol c (refl n j (fun i => A i j) sj y) B)) E.
Proof.
  intros M Mb C J Hs Ns.
  apply wp_seq with (P := fun q => q = sumr j n (fun t => A t j * y t)).
  { eapply wp_mono; [apply wp_for with (P := fun t q => q = sumr j t (fun t => A t j * y t)) | auto].
    - lia.
    - now rewrite sumr_nil by lia.
    - intros i q Li ->. apply wp_bind. eapply wp_mget; eauto; try lia.
      apply wp_bind. eapply wp_mget; eauto; try lia. cbn [wp].
      rewrite Nat.add_1_r, sumr_S by lia. now rewrite setcol_eq. }
  intros q ->. apply wp_bind. unfold aget at 1. rewrite Hs. cbn [wp].
  apply wp_bind. apply wp_divc; auto. set (q := sumr j n (fun t => A t j * y t) / sj).
  eapply wp_mono; [apply wp_for with
    (P := fun t b => mat n m b (setcol c (fun i => if (j <=? i) && (i <? t) then y i - q * A i j else y i) B)) | cbn beta].
  - lia.
  - eapply mat_ext; eauto. intros r k R Kk. unfold setcol. bcases; auto.
  - intros i b1 Li M1. apply wp_bind. eapply wp_mget; eauto; try lia.
    apply wp_bind. eapply wp_mget; eauto; try lia.
    eapply wp_mset; eauto; try lia. intros b2 M2. eapply mat_ext; eauto.
    intros r k R Kk. rewrite setcol_eq. unfold updm, setcol. bcases; subst; auto.
  - intros b1 M1. eapply mat_ext; eauto. intros r k R Kk. unfold setcol, refl. bcases; auto.
Qed.

Lemma bksub_qr_wp n m c last a s d b (A B : matrix) (sv dv : vect) E : mat n n a A -> vec n d dv ->
  mat n m b B -> c < m -> last <= n -> pvec last n s sv ->
  (forall r, r < n -> dv r <> f0) -> (forall r, r < last -> sv r <> f0) ->
  wp (bksub_qr_to last n a s d b m c)
     (fun x => exists y, mat n m x (setcol c y B) /\
        solv n (eff n A dv) y (app n last A sv (fun r => B r c))) E.
Proof.
  intros M Vd Mb C Ll Ps D Ns. unfold bksub_qr_to.
  apply wp_seq with (P := fun b => mat n m b (setcol c (app n last A sv (fun r => B r c)) B)).
  { apply wp_for with (P := fun j b => mat n m b (setcol c (app n j A sv (fun r => B r c)) B)).
    - lia.
    - cbn [app]. eapply mat_ext; eauto. intros r k R Kk. unfold setcol. bcases; subst; auto.
    - intros j b1 Lj M1. rewrite Nat.add_1_r. cbn [app].
      apply (refl_loop_wp n m c j a b1 A B _ s (sv j)); auto; try lia.
      + apply (proj2 Ps). lia.
      + apply Ns. lia. }
  intros b1 M1. set (Y := app n last A sv (fun r => B r c)) in *.
  eapply wp_mono; [apply wp_down with
    (P := fun i x => exists y, mat n m x (setcol c y B) /\ (forall r, r < i -> y r = Y r) /\
       (forall r, i <= r < n -> dv r * y r + sumr (S r) n (fun k => A r k * y k) = Y r)) | cbn beta].
  - lia.
  - exists Y. split; auto. split; intros; auto. lia.
  - intros i x Li (y & Mx & Rest & Done). assert (Eq : i = S (i - 1)) by lia.
    remember (i - 1)%nat as q eqn:Hq0. clear Hq0.
    apply wp_seq with (P := fun s => s = sumr i n (fun k => A q k * y k)).
    { eapply wp_mono; [apply wp_for with (P := fun t s => s = sumr i t (fun k => A q k * y k)) | auto].
      - lia.
      - now rewrite sumr_nil by lia.
      - intros k s1 Lk ->. apply wp_bind. eapply wp_mget; eauto; try lia.
        apply wp_bind. eapply wp_mget; eauto; try lia. cbn [wp].
        rewrite setcol_eq, Nat.add_1_r, sumr_S by lia. auto. }
    intros s1 ->. set (p := sumr i n (fun k => A q k * y k)).
    assert (Nz : dv q <> f0) by (apply D; lia).
    apply wp_bind. eapply wp_mget; eauto; try lia.
    apply wp_bind. eapply wp_vget; eauto; try lia.
    apply wp_bind. apply wp_divc; auto. rewrite setcol_eq, Rest by lia.
    eapply wp_mset; eauto; try lia. intros x2 M2.
    exists (updv y q ((Y q - p) / dv q)). split; [|split].
    + eapply mat_ext; eauto. intros r j R J. unfold updm, setcol, updv. bcases; subst; auto.
    + intros r R. unfold updv. bcases. apply Rest. lia.
    + intros r R. destruct (Nat.eq_dec r q) as [->|].
      * rewrite <- Eq. rewrite (sumr_ext i n _ (fun k => A q k * y k)).
        2:{ intros k Lk. unfold updv. bcases. auto. }
        fold p. unfold updv. rewrite Nat.eqb_refl. field. auto.
      * rewrite <- (Done r) by lia. unfold updv at 1. bcases. f_equal.
        apply sumr_ext. intros k Lk. unfold updv. bcases. auto.
  - intros x (y & Mx & _ & Done). exists y. split; auto. intros r R.
    rewrite <- (Done r) by lia. unfold dot. rewrite (sumr_split 0 r n), (sumr_first r n) by lia.
    rewrite (sumr_zero 0 r).
    2:{ intros k Lk. unfold eff. bcases; ring. }
    rewrite (sumr_ext (S r) n _ (fun k => A r k * y k)).
    2:{ intros k Lk. unfold eff. bcases; auto. }
    unfold eff. bcases. ring.
Qed.
Lemma eff_unique n A dv y z b : (forall r, r < n -> dv r <> f0) -> solv n (eff n A dv) y b ->
  solv n (eff n A dv) z b -> forall r, r < n -> y r = z r.
Proof.
  intros D Y Z. assert (G : forall t r, n - t <= r < n -> y r = z r).
  { induction t; intros r R. { lia. }
    pose proof (Y r ltac:(lia)) as E1. pose proof (Z r ltac:(lia)) as E2. rewrite <- E2 in E1.
    assert (Cut : forall f : nat -> K, dot n (eff n A dv) r f = dv r * f r + sumr (S r) n (fun k => A r k * f k)).
    { intros f. unfold dot. rewrite (sumr_split 0 r n), (sumr_first r n), (sumr_zero 0 r) by
        (try lia; intros k Lk; unfold eff; bcases; ring).
      rewrite (sumr_ext (S r) n _ (fun k => A r k * f k)).
      2:{ intros k Lk. unfold eff. bcases; auto. }
      unfold eff. bcases. ring. }
    rewrite !Cut in E1.
    rewrite (sumr_ext (S r) n _ (fun k => A r k * z k)) in E1.
    2:{ intros k Lk. rewrite IHt by lia. auto. }
    set (p := sumr (S r) n (fun k => A r k * z k)) in *. pose proof (D r ltac:(lia)).
    replace (y r) with ((dv r * y r + p - p) / dv r) by (field; auto). rewrite E1. field. auto. }
  intros r R. apply (G n). lia.
Qed.

(* ---------- Gram-Schmidt ---------- *)

Definition inner (n : nat) (Q : matrix) (i j : nat) : K := sumr 0 n (fun t => Q t i * Q t j).

(* k columns done *)
Definition gst (n k : nat) (A0 Q : matrix) (R : matrix) : Prop :=
  (forall i j, i < k -> j < k -> inner n Q i j = if i =? j then f1 else f0) /\
  (forall i j, i < k -> k <= j < n -> inner n Q i j = f0) /\
  (forall i, i < k -> fltb f0 (R i i) = true) /\
  (forall t j, t < n -> j < k -> A0 t j = sumr 0 (S j) (fun i => Q t i * R i j)) /\
  (forall t j, t < n -> k <= j < n -> A0 t j = sumr 0 k (fun i => Q t i * R i j) + Q t j).

Lemma inner_sym n Q i j : inner n Q i j = inner n Q j i.
Proof. unfold inner. apply sumr_ext. intros. ring. Qed.

Lemma gst_step n k (A0 Q R Q' : matrix) r : k < n -> gst n k A0 Q R -> fltb f0 r = true -> r * r = inner n Q k k ->
  (forall t c, t < n -> c < n -> Q' t c = if c <? k then Q t c else if c =? k then Q t k / r
      else Q t c - sumr 0 n (fun t => Q t k / r * Q t c) * (Q t k / r)) ->
  gst n (S k) A0 Q' (fun i j => if i =? k then (if j =? k then r else sumr 0 n (fun t => Q t k / r * Q t j)) else R i j).
Proof.
  intros Lk (O1 & O2 & D & Lo & Hi) Pr Rr HQ. pose proof (fpos_nz r Pr) as Nr.
  set (rho := fun j => sumr 0 n (fun t => Q t k / r * Q t j)) in *.
  assert (Ha : forall i j, i < k -> j < k -> inner n Q' i j = inner n Q i j).
  { intros. unfold inner. apply sumr_ext. intros t Lt. rewrite !HQ by lia. bcases; auto. }
  assert (Hb : forall i, i < k -> inner n Q' i k = f0).
  { intros i Li. transitivity (inner n Q i k / r).
    - unfold inner. rewrite (sumr_ext 0 n _ (fun t => Q t i * Q t k * (f1 / r))).
      + rewrite sumr_scale_r. field. auto.
      + intros t Lt. rewrite !HQ by lia. bcases. field. auto.
    - rewrite O2 by lia. field. auto. }
  assert (Hc : inner n Q' k k = f1).
  { transitivity (inner n Q k k / (r * r)).
    - unfold inner. rewrite (sumr_ext 0 n _ (fun t => Q t k * Q t k * (f1 / (r * r)))).
      + rewrite sumr_scale_r. field. auto.
      + intros t Lt. rewrite !HQ by lia. bcases. field. auto.
    - rewrite <- Rr. field. auto. }
  assert (Hd : forall i j, i < k -> k < j < n -> inner n Q' i j = f0).
  { intros i j Li Lj. transitivity (inner n Q i j - rho j / r * inner n Q i k).
    - unfold inner. rewrite <- sumr_scale, <- sumr_sub. apply sumr_ext.
      intros t Lt. rewrite !HQ by lia. bcases. fold (rho j). field. auto.
    - rewrite !O2 by lia. ring. }
  assert (He : forall j, k < j < n -> inner n Q' k j = f0).
  { intros j Lj. transitivity (rho j - rho j * inner n Q' k k).
    - unfold inner. rewrite <- sumr_scale. unfold rho at 1. rewrite <- sumr_sub. apply sumr_ext.
      intros t Lt. rewrite !HQ by lia. bcases. fold (rho j). field. auto.
    - rewrite Hc. ring. }
  split; [|split; [|split; [|split]]].
  - intros i j Li Lj. destruct (Nat.eq_dec i k) as [->|]; destruct (Nat.eq_dec j k) as [->|].
    + now rewrite Nat.eqb_refl.
    + rewrite inner_sym, Hb by lia. bcases; auto.
    + rewrite Hb by lia. bcases; auto.
    + rewrite Ha by lia. apply O1; lia.
  - intros i j Li Lj. destruct (Nat.eq_dec i k) as [->|]; [apply He; lia|apply Hd; lia].
  - intros i Li. rewrite Nat.eqb_refl || idtac. destruct (Nat.eqb_spec i k) as [->|].
    + rewrite ?Nat.eqb_refl. auto.
    + apply D. lia.
  - intros t j Lt Lj. destruct (Nat.eq_dec j k) as [->|].
    + rewrite sumr_S by lia. rewrite !Nat.eqb_refl. rewrite (Hi t k) by lia. f_equal.
      * apply sumr_ext. intros i Li. rewrite HQ by lia. bcases. auto.
      * rewrite HQ by lia. bcases. field. auto.
    + rewrite (Lo t j) by lia. apply sumr_ext. intros i Li. rewrite HQ by lia. bcases. auto.
  - intros t j Lt Lj. rewrite (Hi t j) by lia. rewrite sumr_S by lia. rewrite Nat.eqb_refl.
    match goal with |- _ = sumr 0 k ?f + _ + _ =>
      replace (sumr 0 k f) with (sumr 0 k (fun i => Q t i * R i j)) end.
    2:{ apply sumr_ext. intros i Li. rewrite HQ by lia. bcases. auto. }
    rewrite !HQ by lia. bcases. fold (rho j). ring.
Qed.

Definition sqrt_nn (sq : K -> K) : Prop :=
  forall x, fle f0 x = true -> sq x * sq x = x /\ fle f0 (sq x) = true.

Lemma orth_gs_wp sq n q (A0 : matrix) E : sqrt_nn sq -> mat n n q A0 ->
  wp (orth_gs sq n q)
     (fun q' => exists Q R k, mat n n q' Q /\ k <= n /\ gst n k A0 Q R /\
        (k < n -> forall t, t < n -> Q t k = f0)) E.
Proof.
  intros Sp M. unfold orth_gs.
  apply wp_seq with (P := fun st : list K * bool => exists Q R k, mat n n (fst st) Q /\ k <= n /\
     gst n k A0 Q R /\ (k < n -> forall t, t < n -> Q t k = f0)).
  2:{ intros [q' f] (Q & R & k & H). cbn [wp fst] in *. eauto. }
  eapply wp_mono; [apply wp_for with (P := fun u (st : list K * bool) => exists Q R k, mat n n (fst st) Q /\
     gst n k A0 Q R /\ if snd st then k < n /\ (forall t, t < n -> Q t k = f0) else k = u) | cbn beta].
  - lia.
  - exists A0, (fun _ _ => f0), 0. cbn [fst snd]. split; auto. split; auto.
    split; [|split; [|split; [|split]]]; intros; try lia. rewrite sumr_nil by lia. ring.
  - intros k [q1 stop] Lk (Q & R & k' & M1 & G & Hs). cbn [fst snd] in *.
    destruct stop.
    { cbn [wp fst snd]. exists Q, R, k'. auto. }
    subst k'.
    apply wp_seq with (P := fun r => r = inner n Q k k).
    { eapply wp_mono; [apply wp_for with (P := fun t r => r = sumr 0 t (fun t => Q t k * Q t k)) | auto].
      - lia.
      - auto.
      - intros i r Li ->. apply wp_bind. eapply wp_mget; eauto; try lia. cbn [wp].
        rewrite Nat.add_1_r, sumr_S by lia. auto. }
    intros r0 ->. set (r := sq (inner n Q k k)).
    assert (Nn : fle f0 (inner n Q k k) = true).
    { apply sumr_nonneg. intros. apply fsqr_nonneg. }
    destruct (Sp _ Nn) as [Rr Pr]. fold r in Rr, Pr.
    cbv zeta. fold r. destruct (feqb_spec r f0) as [E0|N0].
    { cbn [wp fst snd]. exists Q, R, k. split; auto. split; auto. split; [lia|].
      intros t Lt. apply (sumr_sq_0 0 n (fun t => Q t k)); [|lia].
      transitivity (r * r); [symmetry; exact Rr|]. rewrite E0. ring. }
    assert (Pr' : fltb f0 r = true). { apply fltb_spec. split; auto. }
    apply wp_seq with (P := fun q => mat n n q (fun t c => if c =? k then Q t k / r else Q t c)).
    { eapply wp_mono; [apply wp_for with (P := fun u q =>
        mat n n q (fun t c => if (c =? k) && (t <? u) then Q t k / r else Q t c)) | cbn beta].
      - lia.
      - eapply mat_ext; eauto. intros t c Lt Lc. bcases; auto.
      - intros i q2 Li M2. apply wp_bind. eapply wp_mget; eauto; try lia.
        apply wp_bind. apply wp_divc; auto. eapply wp_mset; eauto; try lia. intros q3 M3.
        eapply mat_ext; eauto. intros t c Lt Lc. unfold updm. bcases; subst; auto.
      - intros q2 M2. eapply mat_ext; eauto. intros t c Lt Lc. bcases; auto. }
    intros q2 M2.
    set (rho := fun j => sumr 0 n (fun t => Q t k / r * Q t j)).
    set (Qf := fun u t c => if c =? k then Q t k / r else if (k <? c) && (c <? u)
        then Q t c - rho c * (Q t k / r) else Q t c).
    apply wp_seq with (P := fun q => mat n n q (Qf n)).
    { apply wp_for with (P := fun u q => mat n n q (Qf u)).
      - lia.
      - eapply mat_ext; eauto. intros t c Lt Lc. unfold Qf. bcases; auto.
      - intros j q3 Lj M3.
        apply wp_seq with (P := fun s => s = rho j).
        { eapply wp_mono; [apply wp_for with (P := fun u s => s = sumr 0 u (fun t => Q t k / r * Q t j)) | auto].
          - lia.
          - auto.
          - intros i s Li ->. apply wp_bind. eapply wp_mget; eauto; try lia.
            apply wp_bind. eapply wp_mget; eauto; try lia. cbn [wp].
            rewrite Nat.add_1_r, sumr_S by lia. unfold Qf. f_equal. f_equal; bcases; auto. }
        intros s ->.
        eapply wp_mono; [apply wp_for with (P := fun u q => mat n n q (fun t c =>
          if (c =? j) && (t <? u) then Q t c - rho c * (Q t k / r) else Qf j t c)) | cbn beta].
        + lia.
        + eapply mat_ext; eauto. intros t c Lt Lc. bcases; auto.
        + intros i q4 Li M4. apply wp_bind. eapply wp_mget; eauto; try lia.
          apply wp_bind. eapply wp_mget; eauto; try lia.
          eapply wp_mset; eauto; try lia. intros q5 M5. eapply mat_ext; eauto.
          intros t c Lt Lc. unfold updm, Qf. bcases; subst; auto.
        + intros q4 M4. eapply mat_ext; eauto. intros t c Lt Lc. unfold Qf. bcases; subst; auto. }
    intros q3 M3. cbn [wp fst snd]. rewrite Nat.add_1_r.
    exists (Qf n), (fun i j => if i =? k then (if j =? k then r else rho j) else R i j), (S k).
    split; auto. split; auto. apply (gst_step n k A0 Q R (Qf n) r); auto; try lia.
    intros t c Lt Lc. unfold Qf, rho. bcases; auto.
  - intros [q1 stop] (Q & R & k & M1 & G & Hs). cbn [fst snd] in *. exists Q, R, k.
    destruct stop.
    + destruct Hs. split; auto. split; [lia|]. auto.
    + subst k. split; auto. split; auto. split; auto. intros; lia.
Qed.

(* a column in the span of those before it *)
Lemma gst_kernel n k (A0 Q R : matrix) : k < n -> gst n k A0 Q R -> (forall t, t < n -> Q t k = f0) ->
  has_kernel n A0.
Proof.
  intros Lk (O1 & O2 & D & Lo & Hi) Z.
  destruct (upper_solvable k R (fun i => - R i k)) as (z & Hz).
  { intros i Li. apply fpos_nz. auto. }
  exists (fun j => if j <? k then z j else if j =? k then f1 else f0). split.
  { exists k. split; auto. bcases. apply f1_neq_f0. }
  intros t Lt. unfold dot. rewrite (sumr_split 0 (S k) n), (sumr_zero (S k) n); try lia.
  2:{ intros j Lj. bcases. ring. }
  rewrite sumr_S by lia. rewrite Nat.ltb_irrefl, Nat.eqb_refl. rewrite (Hi t k), (Z t) by lia.
  rewrite (sumr_ext 0 k _ (fun j => sumr 0 k (fun i => Q t i * (zeroed k R i j * z j)))).
  2:{ intros j Lj. bcases. rewrite (Lo t j) by lia. rewrite (sumr_split 0 (S j) k) by lia.
      rewrite (sumr_zero (S j) k).
      2:{ intros i Li. unfold zeroed. bcases. ring. }
      rewrite <- sumr_scale_r. match goal with |- _ = ?a + f0 => replace (a + f0) with a by ring end.
      apply sumr_ext. intros i Li. unfold zeroed. bcases. ring. }
  rewrite sumr_swap.
  match goal with |- sumr 0 k ?f + _ + _ = _ =>
    replace (sumr 0 k f) with (- f1 * sumr 0 k (fun i => Q t i * R i k)); [ring|] end.
  rewrite <- sumr_scale. apply sumr_ext. intros i Li. rewrite sumr_scale.
  transitivity (Q t i * - R i k); [ring|]. f_equal. symmetry. apply (Hz i). lia.
Qed.
End Proofs.
