(* Proofs about the Kalman and Gauss-Newton steps, for C78. *)
From Coq Require Import List ZArith Bool Arith Lia Field.
From Verif Require Import Base LinBase GaussProofs PropsGauss LuProofs PropsLu LdlProofs PropsChol QrProofs PropsQr
  EigModel EigProofs QlProofs EigUse PropsEig BowlModel KalmanModel.
Import ListNotations.
Local Open Scope nat_scope.

Section Kalman.
Context {K : ofield}.
Local Open Scope lin_scope.
Add Field Kf46 : (f_th K).
Notation matrix := (nat -> nat -> K).
Notation vect := (nat -> K).

(* ---- the loops ---- *)
Lemma fill_wp n m body l (F : matrix) Ex : length l = (n * m)%nat ->
  (forall i j, i < n -> j < m -> wp (body i j) (fun x => x = F i j) Ex) ->
  wp (fill n m body l) (fun l' => mat n m l' F) Ex.
Proof.
  intros L B. unfold fill.
  eapply wp_mono. { apply wp_for with (P := fun i l => mat n m l (fun r c => if r <? i then F r c else el m l r c)); [lia| |].
    - eapply mat_ext; [apply mat_el0; auto|]. intros r c R C. bcases. reflexivity.
    - intros i l1 Li M1. cbn beta in *.
      eapply wp_mono. { apply wp_for with (P := fun j l => mat n m l (fun r c => if (r <? i) || ((r =? i) && (c <? j)) then F r c else el m l r c)); [lia| |].
        - eapply mat_ext; [exact M1|]. intros r c R C. bcases; reflexivity.
        - intros j l2 Lj M2. cbn beta in *. eapply wp_seq. { apply B; lia. } intros x ->.
          eapply (wp_mset _ _ M2); [lia|lia|]. intros l3 M3.
          pose proof (mat_el n m l3 _ M3) as E3.
          eapply mat_ext; [exact M3|]. intros r c R C. rewrite E3 by lia. unfold updm.
          destruct (Nat.eqb_spec r i), (Nat.eqb_spec c j); subst; cbn [andb orb]; bcases; try reflexivity; try (f_equal; lia). }
      intros l2 M2. cbn beta in *. eapply mat_ext; [exact M2|]. intros r c R C. bcases; try reflexivity.  }
  intros l' M. cbn beta in M. eapply mat_ext; [exact M|]. intros r c R C. bcases. reflexivity.
Qed.
Lemma fill1_wp n body l (F : vect) Ex : length l = n -> (forall i, i < n -> wp (body i) (fun x => x = F i) Ex) ->
  wp (fill1 n body l) (fun l' => vec n l' F) Ex.
Proof.
  intros L B. unfold fill1.
  eapply wp_mono. { apply wp_for with (P := fun i l => vec n l (fun r => if r <? i then F r else nth r l f0)); [lia| |].
    - eapply vec_ext; [apply vec_of; auto|]. intros r R. bcases. reflexivity.
    - intros i l1 Li V1. cbn beta in *. eapply wp_seq. { apply B; lia. } intros x ->.
      eapply (wp_vset _ _ V1); [lia|]. intros l3 V3. 
      assert (E3 : forall r, r < n -> nth r l3 f0 = updv (fun r => if r <? i then F r else nth r l1 f0) i (F i) r).
      { intros r R. destruct V3 as [_ V3]. apply nth_error_nth. auto. }
      eapply vec_ext; [exact V3|]. intros r R. rewrite E3 by lia. unfold updv. bcases; subst; reflexivity. }
  intros l' V. cbn beta in V. eapply vec_ext; [exact V|]. intros r R. bcases. reflexivity.
Qed.
Lemma acc_wp n body (F : vect) Ex : (forall i, i < n -> wp (body i) (fun x => x = F i) Ex) ->
  wp (acc n body) (fun v => v = sumr 0 n F) Ex.
Proof.
  intros B. unfold acc. eapply wp_mono. { apply (sum_loop_wp n body F f0 Ex). intros i R Li HR. eapply wp_mono; [apply B; auto|]. intros a ->. auto. }
  intros v ->. ring.
Qed.

(* ---- linear algebra ---- *)
Definition app (nl : nat) (H : matrix) (w : vect) (r : nat) : K := sumr 0 nl (fun t => H r t * w t).
Definition sqs (n : nat) (v : vect) : K := sumr 0 n (fun i => v i * v i).
Definition cost (dl nl : nat) (wt s : K) (H : matrix) (y w : vect) : K :=
  wt * sqs dl (fun r => y r - app nl H w r) + s * sqs nl w.
Definition kS (nl : nat) (wt s : K) (H : matrix) (i j : nat) : K :=
  sumr 0 nl (fun k => H i k * H j k) * wt + (if i =? j then s else f0).

Lemma sqs_nonneg n v : fle f0 (sqs n v) = true.
Proof. apply sumr_nonneg. intros. apply fsqr_nonneg. Qed.
Lemma sqs_0 n v : sqs n v = f0 -> forall i, i < n -> v i = f0.
Proof. intros E i I. apply (sumr_sq_0 0 n v E). lia. Qed.

(* the normal equations make the cost least *)
Lemma cost_split dl nl wt s H y W w :
  (forall k, k < nl -> wt * sumr 0 dl (fun r => H r k * (y r - app nl H W r)) = s * W k) ->
  cost dl nl wt s H y w = cost dl nl wt s H y W + (wt * sqs dl (app nl H (fun i => w i - W i)) + s * sqs nl (fun i => w i - W i)).
Proof.
  intros N. set (u := fun i => w i - W i).
  assert (A : forall r, app nl H w r = app nl H W r + app nl H u r).
  { intros r. unfold app. rewrite <- sumr_add. apply sumr_ext. intros. unfold u. ring. }
  unfold cost, sqs.
  rewrite (sumr_ext 0 dl _ (fun r => (y r - app nl H W r) * (y r - app nl H W r) + (app nl H u r * app nl H u r - (f1 + f1) * ((y r - app nl H W r) * app nl H u r)))).
  2: { intros r R. rewrite A. ring. }
  rewrite sumr_add, sumr_sub, sumr_scale.
  rewrite (sumr_ext 0 nl (fun i => w i * w i) (fun i => W i * W i + (u i * u i + (f1 + f1) * (W i * u i)))).
  2: { intros i I. unfold u. ring. }
  rewrite !sumr_add, sumr_scale.
  assert (C : wt * sumr 0 dl (fun r => (y r - app nl H W r) * app nl H u r) = s * sumr 0 nl (fun i => W i * u i)).
  { rewrite (sumr_ext 0 dl _ (fun r => sumr 0 nl (fun t => H r t * (y r - app nl H W r) * u t))).
    2: { intros r R. unfold app at 2. rewrite <- sumr_scale. apply sumr_ext. intros. ring. }
    rewrite sumr_swap, <- !sumr_scale. apply sumr_ext. intros t T. rewrite sumr_scale_r.
    replace (wt * (sumr 0 dl (fun r => H r t * (y r - app nl H W r)) * u t)) with ((wt * sumr 0 dl (fun r => H r t * (y r - app nl H W r))) * u t) by ring.
    rewrite N by lia. ring. }
  set (p := sumr 0 dl (fun r => (y r - app nl H W r) * app nl H u r)) in *. set (q := sumr 0 nl (fun i => W i * u i)) in *.
  replace (wt * (sumr 0 dl (fun k => (y k - app nl H W k) * (y k - app nl H W k)) + (sumr 0 dl (fun k => app nl H u k * app nl H u k) - (f1 + f1) * p)))
    with (wt * sumr 0 dl (fun k => (y k - app nl H W k) * (y k - app nl H W k)) + wt * sumr 0 dl (fun k => app nl H u k * app nl H u k) - (f1 + f1) * (wt * p)) by ring.
  rewrite C. ring.
Qed.

Lemma cost_least dl nl wt s H y W w : fle f0 wt = true -> fle f0 s = true ->
  (forall k, k < nl -> wt * sumr 0 dl (fun r => H r k * (y r - app nl H W r)) = s * W k) ->
  fle (cost dl nl wt s H y W) (cost dl nl wt s H y w) = true.
Proof.
  intros Pw Ps N. rewrite (cost_split dl nl wt s H y W w N). apply (proj2 (fle_sub _ _)).
  set (c := cost dl nl wt s H y W). set (d := wt * _ + _). replace (c + d - c) with d by ring.
  subst d. apply fadd_nonneg; apply fle_mul; auto; apply sqs_nonneg.
Qed.

(* of all that cost as little, the one made from rows of H is the shortest *)
Lemma cost_short dl nl wt s H y W w z : fltb f0 wt = true -> fle f0 s = true ->
  (forall k, k < nl -> wt * sumr 0 dl (fun r => H r k * (y r - app nl H W r)) = s * W k) ->
  (forall k, k < nl -> W k = sumr 0 dl (fun r => H r k * z r)) ->
  cost dl nl wt s H y w = cost dl nl wt s H y W -> fle (sqs nl W) (sqs nl w) = true.
Proof.
  intros Pw Ps N Z E. rewrite (cost_split dl nl wt s H y W w N) in E. set (u := fun i => w i - W i) in *.
  apply fltb_spec in Pw as (Pw & Nw).
  assert (E0 : wt * sqs dl (app nl H u) + s * sqs nl u = f0).
  { set (c := cost dl nl wt s H y W) in *. set (d := wt * _ + _) in *. replace d with (c + d - c) by ring. rewrite E. ring. }
  apply fadd_0_nonneg in E0 as (E0 & _); try (apply fle_mul; auto; apply sqs_nonneg).
  apply fmul_0 in E0 as [E0|E0]; [congruence|]. pose proof (sqs_0 dl _ E0) as U. cbn beta in U.
  assert (O : sumr 0 nl (fun i => W i * u i) = f0).
  { rewrite (sumr_ext 0 nl _ (fun i => sumr 0 dl (fun r => z r * (H r i * u i)))).
    2: { intros i I. rewrite Z by lia. rewrite <- sumr_scale_r. apply sumr_ext. intros. ring. }
    rewrite sumr_swap. apply sumr_zero. intros r R. rewrite sumr_scale. change (sumr 0 nl (fun k => H r k * u k)) with (app nl H u r).
    rewrite U by lia. ring. }
  assert (Q : sqs nl w = sqs nl W + sqs nl u).
  { unfold sqs. rewrite (sumr_ext 0 nl (fun i => w i * w i) (fun i => W i * W i + (u i * u i + (f1 + f1) * (W i * u i)))).
    2: { intros i I. unfold u. ring. } rewrite !sumr_add, sumr_scale, O. ring. }
  rewrite Q. apply (proj2 (fle_sub _ _)). replace (sqs nl W + sqs nl u - sqs nl W) with (sqs nl u) by ring. apply sqs_nonneg.
Qed.

Lemma kS_quad dl nl wt s H v : sumr 0 dl (fun i => v i * dot dl (kS nl wt s H) i v) =
  wt * sqs nl (fun k => sumr 0 dl (fun r => H r k * v r)) + s * sqs dl v.
Proof.
  rewrite (sumr_ext 0 dl _ (fun i => wt * sumr 0 nl (fun k => H i k * v i * sumr 0 dl (fun r => H r k * v r)) + s * (v i * v i))).
  - rewrite sumr_add, !sumr_scale. f_equal. f_equal. rewrite sumr_swap. unfold sqs. apply sumr_ext. intros k Kk. rewrite sumr_scale_r. ring.
  - intros i I. unfold dot, kS.
    rewrite (sumr_ext 0 dl (fun k => (sumr 0 nl (fun t => H i t * H k t) * wt + (if i =? k then s else f0)) * v k)
      (fun k => sumr 0 nl (fun t => wt * H i t * (H k t * v k)) + (if i =? k then s * v k else f0))).
    2: { intros k Kk. replace ((sumr 0 nl (fun t => H i t * H k t) * wt + (if i =? k then s else f0)) * v k)
           with (sumr 0 nl (fun t => H i t * H k t) * (wt * v k) + (if i =? k then s * v k else f0)) by (destruct (i =? k); ring).
         rewrite <- sumr_scale_r. f_equal. apply sumr_ext. intros. ring. }
    rewrite sumr_add, sumr_swap, (sumr_one 0 dl _ i) by (try lia; intros k Kk Nk; destruct (Nat.eqb_spec i k); congruence).
    rewrite Nat.eqb_refl.
    rewrite (sumr_ext 0 nl (fun l => sumr 0 dl (fun k => wt * H i l * (H k l * v k))) (fun k => wt * (H i k * sumr 0 dl (fun r => H r k * v r))))
      by (intros; rewrite sumr_scale; ring).
    rewrite sumr_scale.
    rewrite (sumr_ext 0 nl (fun k => H i k * v i * sumr 0 dl (fun r => H r k * v r)) (fun k => v i * (H i k * sumr 0 dl (fun r => H r k * v r)))) by (intros; ring).
    rewrite sumr_scale. ring.
Qed.

(* what is left of y has no part along the columns of H *)
Lemma left_over dl nl wt s H Q (D : vect) y : fltb f0 wt = true -> fle f0 s = true -> eigd dl (kS nl wt s H) Q D ->
  forall k, k < nl -> sumr 0 dl (fun r => H r k * (y r - dot dl (kS nl wt s H) r (esol dl Q D y))) = f0.
Proof.
  intros Pw Ps E k Kk. pose proof E as [O EH].
  assert (Rs : forall t, t < dl -> y t - dot dl (kS nl wt s H) t (esol dl Q D y) =
     sumr 0 dl (fun i => if feqb (D i) f0 then Q t i * sumr 0 dl (fun u => Q u i * y u) else f0)).
  { intros t T. rewrite (esol_apply dl _ Q D) by auto.
    assert (Y : y t = sumr 0 dl (fun i => Q t i * sumr 0 dl (fun u => Q u i * y u))).
    { rewrite (sumr_ext 0 dl _ (fun i => sumr 0 dl (fun u => Q t i * Q u i * y u))) by (intros; rewrite <- sumr_scale; apply sumr_ext; intros; ring).
      rewrite sumr_swap. rewrite (sumr_one 0 dl _ t); [|lia|].
      2: { intros u U Nu. rewrite sumr_scale_r, orth_rows' by (auto; lia). unfold ident. destruct (Nat.eqb_spec t u); [congruence|ring]. }
      rewrite sumr_scale_r, orth_rows' by auto. unfold ident. rewrite Nat.eqb_refl. ring. }
    rewrite Y at 1. rewrite <- sumr_sub. apply sumr_ext. intros i I. destruct (feqb _ _); ring. }
  rewrite (sumr_ext 0 dl _ (fun r => sumr 0 dl (fun i => H r k * (if feqb (D i) f0 then Q r i * sumr 0 dl (fun u => Q u i * y u) else f0)))).
  2: { intros r R. rewrite Rs by lia. rewrite sumr_scale. auto. }
  rewrite sumr_swap. apply sumr_zero. intros i I. destruct (feqb_spec (D i) f0) as [Z|Z]; [|apply sumr_zero; intros; ring].
  rewrite (sumr_ext 0 dl _ (fun r => H r k * Q r i * sumr 0 dl (fun u => Q u i * y u))) by (intros; ring).
  rewrite sumr_scale_r.
  assert (Z2 : sqs nl (fun k => sumr 0 dl (fun r => H r k * Q r i)) = f0).
  { pose proof (kS_quad dl nl wt s H (fun r => Q r i)) as Qd.
    rewrite (sumr_ext 0 dl _ (fun _ => f0)) in Qd.
    2: { intros r R. change (dot dl (kS nl wt s H) r (fun r0 => Q r0 i)) with (mprod dl (kS nl wt s H) Q r i). rewrite EH by lia. rewrite Z. ring. }
    rewrite sumr_zero in Qd by auto. symmetry in Qd. apply fltb_spec in Pw as (Pw & Nw).
    apply fadd_0_nonneg in Qd as (Qd & _); try (apply fle_mul; auto; apply sqs_nonneg). apply fmul_0 in Qd as [|]; [congruence|auto]. }
  rewrite (sqs_0 nl _ Z2 k Kk). ring.
Qed.
Lemma kS_normal dl nl wt s H z k : 
  wt * sumr 0 dl (fun r => H r k * dot dl (kS nl wt s H) r z) =
  wt * sumr 0 dl (fun r => H r k * app nl H (fun t => sumr 0 dl (fun c => H c t * z c * wt)) r) + s * sumr 0 dl (fun r => H r k * z r * wt).
Proof.
  rewrite (sumr_ext 0 dl _ (fun r => H r k * app nl H (fun t => sumr 0 dl (fun c => H c t * z c * wt)) r + s * (H r k * z r))).
  - rewrite sumr_add, sumr_scale. rewrite (sumr_scale_r 0 dl wt). ring.
  - intros r R. replace (H r k * app nl H (fun t => sumr 0 dl (fun c => H c t * z c * wt)) r + s * (H r k * z r)) with
      (H r k * (app nl H (fun t => sumr 0 dl (fun c => H c t * z c * wt)) r + s * z r)) by ring. f_equal.
    unfold dot, kS, app.
    rewrite (sumr_ext 0 dl _ (fun c => sumr 0 nl (fun t => H r t * (H c t * z c * wt)) + (if r =? c then s * z c else f0))).
    2: { intros c C. replace ((sumr 0 nl (fun t => H r t * H c t) * wt + (if r =? c then s else f0)) * z c)
           with (sumr 0 nl (fun t => H r t * H c t) * (wt * z c) + (if r =? c then s * z c else f0)) by (destruct (r =? c); ring).
         rewrite <- sumr_scale_r. f_equal. apply sumr_ext. intros. ring. }
    rewrite sumr_add, sumr_swap, (sumr_one 0 dl (fun c => if r =? c then _ else _) r) by (try lia; intros c C Nc; destruct (Nat.eqb_spec r c); congruence).
    rewrite Nat.eqb_refl. f_equal. apply sumr_ext. intros t T. rewrite sumr_scale. auto.
Qed.

(* ---- the pieces of the code ---- *)
Definition whole (dl nl : nat) (D : defls (K := K)) : Prop :=
  length (measured D) = dl /\ length (calculated D) = dl /\ length (deflgrad D) = dl /\
  forall g, In g (deflgrad D) -> length g = nl.
Definition hmat (D : defls (K := K)) (j i : nat) : K := nth i (nth j (deflgrad D) []) f0.
Definition mis (D : defls (K := K)) (j : nat) : K := nth j (measured D) f0 - nth j (calculated D) f0.

Lemma wp_nth (l : list K) i n Ex : i < n -> length l = n -> wp (aget l i) (fun x => x = nth i l f0) Ex.
Proof. intros I L. unfold aget. destruct (nth_error l i) as [x|] eqn:E; [cbn; symmetry; apply nth_error_nth; auto|]. apply nth_error_None in E. lia. Qed.
Lemma gradat_wp dl nl D j i Ex : whole dl nl D -> j < dl -> i < nl -> wp (gradat D j i) (fun x => x = hmat D j i) Ex.
Proof.
  intros (_ & _ & L & Hg) J I. unfold gradat, hmat. unfold aget at 1. destruct (nth_error (deflgrad D) j) as [g|] eqn:E.
  - cbn [bind]. rewrite (nth_error_nth (deflgrad D) j [] E). apply wp_nth with (n := nl); auto. apply Hg. eapply nth_error_In; eauto.
  - apply nth_error_None in E. lia.
Qed.
Lemma misfit_wp dl nl D j Ex : whole dl nl D -> j < dl -> wp (misfit D j) (fun x => x = mis D j) Ex.
Proof.
  intros (A & B & _) J. unfold misfit. eapply wp_seq; [apply wp_nth with (n := dl); auto|]. intros x ->.
  eapply wp_seq; [apply wp_nth with (n := dl); auto|]. intros y ->. reflexivity.
Qed.
Lemma kal_S_wp dl nl wt s (h s0 : list K) H Ex : mat dl nl h H -> length s0 = (dl * dl)%nat ->
  wp (kal_S dl nl wt s h s0) (fun l => mat dl dl l (kS nl wt s H)) Ex.
Proof.
  intros Mh L. unfold kal_S.
  eapply wp_seq. { apply (fill_wp dl dl _ s0 (fun i j => sumr 0 nl (fun k => H i k * H j k) * wt)); auto.
    intros i j I J. eapply wp_seq. { apply (acc_wp nl _ (fun k => H i k * H j k)). intros k Kk.
      eapply wp_bind. eapply (wp_mget _ _ Mh); auto. eapply wp_bind. eapply (wp_mget _ _ Mh); auto. reflexivity. }
    intros v ->. reflexivity. }
  intros l M. cbn beta in M.
  eapply wp_mono. { apply wp_for with (P := fun t l => mat dl dl l (fun i j => sumr 0 nl (fun k => H i k * H j k) * wt + (if (i =? j) && (i <? t) then s else f0))); [lia| |].
    - eapply mat_ext; [exact M|]. intros i j I J. cbn beta. replace (i <? 0) with false by (symmetry; apply Nat.ltb_ge; lia). rewrite andb_false_r. ring.
    - intros t l1 Lt M1. eapply wp_bind. eapply (wp_mget _ _ M1); [lia|lia|]. eapply (wp_mset _ _ M1); [lia|lia|]. intros l2 M2.
      eapply mat_ext; [exact M2|]. intros i j I J. unfold updm. cbn beta.
      destruct (Nat.eqb_spec i t), (Nat.eqb_spec j t); subst; cbn [andb]; bcases; subst; try lia; try reflexivity; try ring. }
  intros l1 M1. eapply mat_ext; [exact M1|]. intros i j I J. cbn beta. unfold kS. bcases; reflexivity.
Qed.
Lemma kal_K_wp dl nl wt (h si k0 : list K) H X Ex : mat dl nl h H -> mat dl dl si X -> length k0 = (nl * dl)%nat ->
  wp (kal_K dl nl wt h si k0) (fun l => mat nl dl l (fun i j => sumr 0 dl (fun k => H k i * X k j * wt))) Ex.
Proof.
  intros Mh Mx L. apply fill_wp; auto. intros i j I J. apply (acc_wp dl _ (fun k => H k i * X k j * wt)). intros k Kk.
  eapply wp_bind. eapply (wp_mget _ _ Mh); auto. eapply wp_bind. eapply (wp_mget _ _ Mx); auto. reflexivity.
Qed.
Lemma kal_W_wp dl nl (kg y w0 : list K) G Y Ex : mat nl dl kg G -> vec dl y Y -> length w0 = nl ->
  wp (kal_W dl nl kg y w0) (fun l => vec nl l (fun i => sumr 0 dl (fun j => G i j * Y j))) Ex.
Proof.
  intros Mg Vy L. apply fill1_wp; auto. intros i I. apply (acc_wp dl _ (fun j => G i j * Y j)). intros j J.
  eapply wp_bind. eapply (wp_mget _ _ Mg); auto. eapply wp_bind. eapply (wp_vget _ _ Vy); auto. reflexivity.
Qed.
Lemma len2_wp nl (w : list K) W Ex : vec nl w W -> wp (len2 nl w) (fun v => v = sqs nl W) Ex.
Proof.
  intros V. apply (acc_wp nl _ (fun i => W i * W i)). intros i I. eapply wp_bind. eapply (wp_vget _ _ V); auto. reflexivity.
Qed.

(* the pseudo-inverse times y *)
Lemma esol_ident n Q (D y : vect) r : sumr 0 n (fun c => esol n Q D (fun t => ident t c) r * y c) = esol n Q D y r.
Proof.
  unfold esol. rewrite (sumr_ext 0 n _ (fun c => sumr 0 n (fun i => Q r i * coef n Q D (fun t => ident t c) i * y c))) by (intros; rewrite <- sumr_scale_r; auto).
  rewrite sumr_swap. apply sumr_ext. intros i I.
  rewrite (sumr_ext 0 n _ (fun c => Q r i * (coef n Q D (fun t => ident t c) i * y c))) by (intros; ring). rewrite sumr_scale. f_equal.
  unfold coef. destruct (feqb_spec (D i) f0) as [Z|N]; [apply sumr_zero; intros; ring|].
  rewrite (sumr_ext 0 n _ (fun c => Q c i * y c * (f1 / D i))).
  - rewrite sumr_scale_r. field; auto.
  - intros c C. rewrite (sumr_one 0 n (fun t => Q t i * ident t c) c); [|lia|].
    + unfold ident. rewrite Nat.eqb_refl. field; auto.
    + intros t T Nt. unfold ident. destruct (Nat.eqb_spec t c); [congruence|ring].
Qed.

(* ---- kalman ---- *)
Definition kal_spread (tol : K) (dl nl : nat) (wt s : K) (D : defls (K := K)) : Prop :=
  forall a, length a = (dl * dl)%nat ->
    (forall i j, i < dl -> j < dl -> el dl a i j = sumr 0 nl (fun k => hmat D i k * hmat D j k) * wt + (if i =? j then s else f0)) -> spread tol dl a.

Lemma kalman_wp sq fuel tol dl nl wt s lo hi D (P h0 s0 k0 y0 w0 d0 e0 : list K) :
  is_sqrt sq -> 0 < dl -> whole dl nl D -> fltb f0 wt = true -> fle f0 s = true -> kal_spread tol dl nl wt s D ->
  length P = nl -> length h0 = (dl * nl)%nat -> length s0 = (dl * dl)%nat -> length k0 = (nl * dl)%nat -> length y0 = dl -> length w0 = nl ->
  length d0 = dl -> length e0 = dl ->
  wpf (kalman sq fuel tol nl wt s lo hi D P h0 s0 k0 y0 w0 d0 e0) (fun '(r, P') => exists W z : vect,
    (forall k, k < nl -> wt * sumr 0 dl (fun j => hmat D j k * (mis D j - app nl (hmat D) W j)) = s * W k) /\
    (forall k, k < nl -> W k = sumr 0 dl (fun j => hmat D j k * z j)) /\
    r = sq (sqs nl W) /\ vec nl P' (fun i => moved lo hi (shorten r) (nth i P f0) (W i))).
Proof.
  intros Sq Dl Wh Pw Ps Sp LP Lh Ls Lk Ly Lw Ld Le. unfold kalman.
  assert (Ed : length (measured D) = dl) by apply Wh. rewrite Ed.
  eapply wpf_seq. { apply wpf_wp. unfold kal_Y. apply (fill1_wp dl _ y0 (mis D)); auto. intros i I. eapply misfit_wp; eauto. }
  intros y Vy. eapply wpf_seq. { apply wpf_wp. unfold kal_H. apply (fill_wp dl nl _ h0 (hmat D)); auto. intros i j I J. eapply gradat_wp; eauto. }
  intros h Mh. eapply wpf_seq. { apply wpf_wp. apply (kal_S_wp dl nl wt s h s0 (hmat D)); auto. }
  intros sm Ms. pose proof (mat_el dl dl sm _ Ms) as Es.
  assert (Sy : symmetric dl (el dl sm)).
  { intros i j I J. rewrite !Es by auto. unfold kS. rewrite (Nat.eqb_sym i j). f_equal. f_equal. apply sumr_ext. intros. ring. }
  eapply wpf_seq. { apply (inv_eig_wp sq fuel tol dl sm d0 e0 (el dl sm)); auto. { now apply is_sqrt_pos. } { apply mat_el0. apply Ms. } }
  intros si (Dv & Q & mx & E & Lg & Mi). apply eigd_symlow in E; auto.
  assert (Sp1 : spread tol dl sm) by (apply Sp; [apply Ms|intros i j I J; rewrite Es by auto; reflexivity]).
  assert (Ck : forall i, i < dl -> clipped mx tol Dv i = Dv i) by (intros; now apply (clip_keeps dl sm Q)).
  assert (E2 : eigd dl (kS nl wt s (hmat D)) Q Dv).
  { destruct E as [O EH]. split; auto. intros r c R C. rewrite <- EH by auto. apply sumr_ext. intros k Kk. rewrite Es by lia. auto. }
  assert (Eq : forall b r, esol dl Q (clipped mx tol Dv) b r = esol dl Q Dv b r).
  { intros b r. unfold esol. apply sumr_ext. intros i I. f_equal. unfold coef. rewrite Ck by lia. auto. }
  eapply wpf_seq. { apply wpf_wp. apply (kal_K_wp dl nl wt h si k0 (hmat D) _ _ Mh Mi); auto. }
  intros kg Mk. eapply wpf_seq. { apply wpf_wp. apply (kal_W_wp dl nl kg y w0 _ _ _ Mk Vy); auto. }
  intros w Vw. set (z := esol dl Q Dv (mis D)).
  set (W := fun t => sumr 0 dl (fun c => hmat D c t * z c * wt)).
  assert (VW : vec nl w W).
  { eapply vec_ext; [exact Vw|]. intros i I. cbn beta. subst W. cbn beta.
    rewrite (sumr_ext 0 dl _ (fun j => sumr 0 dl (fun k => hmat D k i * wt * (esol dl Q Dv (fun t => ident t j) k * mis D j)))).
    2: { intros j J. rewrite <- sumr_scale_r. apply sumr_ext. intros k Kk. rewrite Eq. ring. }
    rewrite sumr_swap. apply sumr_ext. intros k Kk. rewrite sumr_scale, esol_ident. subst z. ring. }
  eapply wpf_seq. { apply wpf_wp. apply (len2_wp nl w W _ VW). }
  intros st ->. eapply wpf_seq.
  { apply wpf_wp. apply (fill1_wp nl _ P (fun i => moved lo hi (shorten (sq (sqs nl W))) (nth i P f0) (W i))); auto. intros i I.
    eapply wp_seq; [apply wp_nth with (n := nl); auto|]. intros p ->. eapply wp_bind. eapply (wp_vget _ _ VW); auto. reflexivity. }
  intros P' VP. cbn [wpf]. exists W, (fun j => z j * wt). split; [|split; [|split; auto]].
  - intros k Kk. pose proof (left_over dl nl wt s (hmat D) Q Dv (mis D) Pw Ps E2 k Kk) as LO. fold z in LO.
    pose proof (kS_normal dl nl wt s (hmat D) z k) as KN. change (fun t => sumr 0 dl (fun c => hmat D c t * z c * wt)) with W in KN.
    change (sumr 0 dl (fun r => hmat D r k * z r * wt)) with (W k) in KN.
    rewrite (sumr_ext 0 dl _ (fun r => hmat D r k * mis D r - hmat D r k * dot dl (kS nl wt s (hmat D)) r z)) in LO by (intros; ring).
    rewrite sumr_sub in LO.
    rewrite (sumr_ext 0 dl _ (fun r => hmat D r k * mis D r - hmat D r k * app nl (hmat D) W r)) by (intros; ring).
    rewrite sumr_sub.
    set (a := sumr 0 dl (fun r => hmat D r k * mis D r)) in *. set (b := sumr 0 dl (fun r => hmat D r k * dot dl (kS nl wt s (hmat D)) r z)) in *.
    set (c := sumr 0 dl (fun r => hmat D r k * app nl (hmat D) W r)) in *.
    replace a with (b + (a - b)) by ring. rewrite LO. replace (wt * (b + f0 - c)) with (wt * b - wt * c) by ring. rewrite KN. ring.
  - intros k Kk. unfold W. apply sumr_ext. intros. ring.
Qed.

(* ---- gaussnewton ---- *)
Definition gS (dl : nat) (H : matrix) (i j : nat) : K := sumr 0 dl (fun k => H k i * H k j).
Lemma gn_solves dl nl H (e : vect) Q (D : vect) : eigd nl (gS dl H) Q D ->
  let B := fun i => sumr 0 dl (fun j => e j * H j i) in
  let W := esol nl Q D B in
  (forall r, r < nl -> dot nl (gS dl H) r W = B r) /\
  (exists z, forall k, k < nl -> W k = sumr 0 dl (fun j => H j k * z j)).
Proof.
  intros E B W. set (HT := fun i j => H j i).
  assert (Eg : forall i j, i < nl -> j < nl -> gS dl H i j = kS dl f1 f0 HT i j).
  { intros i j I J. unfold gS, kS, HT. destruct (i =? j); ring. }
  assert (E2 : eigd nl (kS dl f1 f0 HT) Q D).
  { destruct E as [O EH]. split; auto. intros r c R C. rewrite <- EH by auto. apply sumr_ext. intros k Kk. rewrite Eg by lia. auto. }
  assert (L : forall k, k < dl -> sumr 0 nl (fun r => H k r * (B r - dot nl (gS dl H) r W)) = f0).
  { intros k Kk. rewrite <- (left_over nl dl f1 f0 HT Q D B) with (k := k); auto.
    - apply sumr_ext. intros r R. unfold HT at 1. f_equal. f_equal. apply sumr_ext. intros t T. rewrite Eg by lia. auto.
    - apply fltb_spec. split; [apply f0_le_f1|intros E1; symmetry in E1; now apply (F_1_neq_0 (f_th K)) in E1].
    - apply fle_refl. }
  assert (Rw : forall r, r < nl -> B r - dot nl (gS dl H) r W = sumr 0 dl (fun j => H j r * (e j - app nl H W j))).
  { intros r R. unfold B, dot, gS, app.
    rewrite (sumr_ext 0 dl (fun j => H j r * (e j - sumr 0 nl (fun t => H j t * W t))) (fun j => e j * H j r - sumr 0 nl (fun t => H j r * H j t * W t))).
    2: { intros j J. rewrite (sumr_ext 0 nl (fun t => H j r * H j t * W t) (fun t => H j r * (H j t * W t))) by (intros; ring). rewrite sumr_scale. ring. }
    rewrite sumr_sub. f_equal. rewrite sumr_swap. apply sumr_ext. intros t T. rewrite sumr_scale_r. auto. }
  split.
  - assert (Z : sqs nl (fun r => B r - dot nl (gS dl H) r W) = f0).
    { unfold sqs. rewrite (sumr_ext 0 nl _ (fun r => sumr 0 dl (fun j => (e j - app nl H W j) * (H j r * (B r - dot nl (gS dl H) r W))))).
      2: { intros r R. rewrite Rw at 1 by lia. rewrite <- sumr_scale_r. apply sumr_ext. intros. ring. }
      rewrite sumr_swap. apply sumr_zero. intros j J. rewrite sumr_scale, L by lia. ring. }
    intros r R. pose proof (sqs_0 nl _ Z r R) as Z1. cbn beta in Z1.
    replace (B r) with (dot nl (gS dl H) r W + (B r - dot nl (gS dl H) r W)) by ring. rewrite Z1. ring.
  - exists (fun j => sumr 0 nl (fun i => app nl H (fun t => Q t i) j * (if feqb (D i) f0 then f0 else coef nl Q D B i / D i))).
    intros k Kk. unfold W, esol.
    rewrite (sumr_ext 0 dl _ (fun j => sumr 0 nl (fun i => H j k * app nl H (fun t => Q t i) j * (if feqb (D i) f0 then f0 else coef nl Q D B i / D i)))).
    2: { intros j J. rewrite <- sumr_scale. apply sumr_ext. intros. ring. }
    rewrite sumr_swap. apply sumr_ext. intros i I. rewrite sumr_scale_r.
    assert (M : sumr 0 dl (fun j => H j k * app nl H (fun t => Q t i) j) = Q k i * D i).
    { destruct E as [_ EH]. replace (Q k i * D i) with (D i * Q k i) by ring. rewrite <- EH by lia. unfold mprod, gS, app.
      rewrite (sumr_ext 0 dl _ (fun j => sumr 0 nl (fun t => H j k * H j t * Q t i))) by (intros; rewrite <- sumr_scale; apply sumr_ext; intros; ring).
      rewrite sumr_swap. apply sumr_ext. intros t T. rewrite sumr_scale_r. auto. }
    rewrite M. unfold coef. destruct (feqb_spec (D i) f0) as [Zz|Zz]; [ring|]. field. auto.
Qed.

Definition gn_spread (tol : K) (dl nl : nat) (D : defls (K := K)) : Prop :=
  forall a, length a = (nl * nl)%nat ->
    (forall i j, i < nl -> j < nl -> el nl a i j = sumr 0 dl (fun k => hmat D k i * hmat D k j)) -> spread tol nl a.

Lemma gaussnewton_wp sq fuel tol dl nl lo hi D (P h0 s0 w0 y0 d0 e0 r0 : list K) :
  is_sqrt sq -> 0 < nl -> whole dl nl D -> gn_spread tol dl nl D ->
  length P = nl -> length h0 = (dl * nl)%nat -> length s0 = (nl * nl)%nat -> length y0 = nl ->
  length d0 = nl -> length e0 = nl -> length r0 = nl ->
  wpf (gaussnewton sq fuel tol nl lo hi D P h0 s0 w0 y0 d0 e0 r0) (fun '(r, P') => exists W z : vect,
    (forall k, k < nl -> f1 * sumr 0 dl (fun j => hmat D j k * (mis D j - app nl (hmat D) W j)) = f0 * W k) /\
    (forall k, k < nl -> W k = sumr 0 dl (fun j => hmat D j k * z j)) /\
    r = sq (sqs nl W) /\ vec nl P' (fun i => clamp lo hi (nth i P f0 + W i))).
Proof.
  intros Sq Pn Wh Sp LP Lh Ls Ly Ld Le Lr. unfold gaussnewton.
  assert (Ed : length (measured D) = dl) by apply Wh. rewrite Ed.
  eapply wpf_seq. { apply wpf_wp. unfold kal_H. apply (fill_wp dl nl _ h0 (hmat D)); auto. intros i j I J. eapply gradat_wp; eauto. }
  intros h Mh. set (B := fun i => sumr 0 dl (fun j => mis D j * hmat D j i)).
  eapply wpf_seq. { apply wpf_wp. unfold gn_Y. apply (fill1_wp nl _ y0 B); auto. intros i I. apply (acc_wp dl _ (fun j => mis D j * hmat D j i)). intros j J.
    eapply wp_seq; [eapply misfit_wp; eauto|]. intros x ->. eapply wp_seq; [eapply gradat_wp; eauto|]. intros y ->. reflexivity. }
  intros y Vy. eapply wpf_seq. { apply wpf_wp. unfold gn_S. apply (fill_wp nl nl _ s0 (gS dl (hmat D))); auto. intros i j I J.
    apply (acc_wp dl _ (fun k => hmat D k i * hmat D k j)). intros k Kk.
    eapply wp_bind. eapply (wp_mget _ _ Mh); auto. eapply wp_bind. eapply (wp_mget _ _ Mh); auto. reflexivity. }
  intros sm Ms. pose proof (mat_el nl nl sm _ Ms) as Es.
  assert (Sy : symmetric nl (el nl sm)).
  { intros i j I J. rewrite !Es by auto. unfold gS. apply sumr_ext. intros. ring. }
  eapply wpf_seq. { apply (equ_eig_wp sq fuel tol nl sm y w0 d0 e0 r0 (el nl sm) B); auto. { now apply is_sqrt_pos. } { apply mat_el0. apply Ms. } }
  intros w (Dv & Q & mx & E & Lg & Vw). apply eigd_symlow in E; auto.
  assert (Sp1 : spread tol nl sm) by (apply Sp; [apply Ms|intros i j I J; rewrite Es by auto; reflexivity]).
  assert (Ck : forall i, i < nl -> clipped mx tol Dv i = Dv i) by (intros; now apply (clip_keeps nl sm Q)).
  assert (E2 : eigd nl (gS dl (hmat D)) Q Dv).
  { destruct E as [O EH]. split; auto. intros r c R C. rewrite <- EH by auto. apply sumr_ext. intros k Kk. rewrite Es by lia. auto. }
  assert (Eq : forall b r, esol nl Q (clipped mx tol Dv) b r = esol nl Q Dv b r).
  { intros b r. unfold esol. apply sumr_ext. intros i I. f_equal. unfold coef. rewrite Ck by lia. auto. }
  destruct (gn_solves dl nl (hmat D) (mis D) Q Dv E2) as (So & z & Hz). fold B in So, Hz. set (W := esol nl Q Dv B) in *.
  assert (VW : vec nl w W).
  { eapply vec_ext; [exact Vw|]. intros i I. cbn beta. rewrite Eq. fold W. rewrite esol_zero; [ring|].
    intros r R. change (B r) with (sumr 0 dl (fun j => mis D j * hmat D j r)). pose proof (So r R) as Hr. rewrite <- Hr. unfold dot.
    rewrite (sumr_ext 0 nl _ (fun k => gS dl (hmat D) r k * W k)); [ring|]. intros t T. rewrite Es, Eq by lia. auto. }
  eapply wpf_seq. { apply wpf_wp. apply (len2_wp nl w W _ VW). }
  intros st ->. eapply wpf_seq.
  { apply wpf_wp. apply (fill1_wp nl _ P (fun i => clamp lo hi (nth i P f0 + W i))); auto. intros i I.
    eapply wp_seq; [apply wp_nth with (n := nl); auto|]. intros p ->. eapply wp_bind. eapply (wp_vget _ _ VW); auto. reflexivity. }
  intros P' VP. cbn [wpf]. exists W, z. split; [|split; [|split; auto]]; auto.
  intros k Kk. pose proof (So k Kk) as Hk. unfold dot, gS in Hk.
  rewrite (sumr_ext 0 dl (fun j => hmat D j k * (mis D j - app nl (hmat D) W j)) (fun j => mis D j * hmat D j k - sumr 0 nl (fun t => hmat D j k * hmat D j t * W t))).
  2: { intros j J. unfold app. rewrite (sumr_ext 0 nl (fun t => hmat D j k * hmat D j t * W t) (fun t => hmat D j k * (hmat D j t * W t))) by (intros; ring). rewrite sumr_scale. ring. }
  rewrite sumr_sub, <- Hk. rewrite sumr_swap.
  rewrite (sumr_ext 0 nl _ (fun t => sumr 0 dl (fun j => hmat D j k * hmat D j t * W t))) by (intros; rewrite sumr_scale_r; auto). ring.
Qed.

(* ---- how far the eigenvalues of kS can be apart ---- *)
Lemma pos_le (a x : K) : fltb f0 a = true -> fle f0 (a * x) = true -> fle f0 x = true.
Proof.
  intros P M. destruct (fle_total K f0 x) as [|N]; auto. apply fltb_spec in P as (P & Nz).
  assert (fle f0 (a * - x) = true) by (apply fle_mul; auto; apply (proj1 (fle_sub _ _)) in N; now replace (f0 - x) with (- x) in N by ring).
  assert (Z : a * x = f0).
  { apply fle_antisym; auto. apply (proj2 (fle_sub _ _)). replace (f0 - a * x) with (a * - x) by ring. auto. }
  apply fmul_0 in Z as [|Z]; [congruence|]. rewrite Z. apply fle_refl.
Qed.
Lemma cauchy n (a b : vect) : fle (sumr 0 n (fun i => a i * b i) * sumr 0 n (fun i => a i * b i)) (sqs n a * sqs n b) = true.
Proof.
  set (C := sumr 0 n (fun i => a i * b i)). destruct (feqb_spec (sqs n a) f0) as [Z|Z].
  - assert (C = f0). { apply sumr_zero. intros i I. rewrite (sqs_0 n a Z i) by lia. ring. }
    rewrite H, Z. replace (f0 * f0) with (f0 * sqs n b) by ring. apply fle_refl.
  - assert (P : fltb f0 (sqs n a) = true) by (apply fltb_spec; split; [apply sqs_nonneg|congruence]).
    apply (proj2 (fle_sub _ _)). apply (pos_le _ _ P).
    assert (E : sqs n a * (sqs n a * sqs n b - C * C) = sqs n (fun i => sqs n a * b i - C * a i)).
    { set (A := sqs n a). unfold sqs at 2.
      rewrite (sumr_ext 0 n (fun i => (A * b i - C * a i) * (A * b i - C * a i)) (fun i => A * A * (b i * b i) - (f1 + f1) * A * C * (a i * b i) + C * C * (a i * a i))) by (intros; ring).
      rewrite sumr_add, sumr_sub, !sumr_scale. change (sumr 0 n (fun k => a k * a k)) with A. change (sumr 0 n (fun k => a k * b k)) with C.
      change (sumr 0 n (fun k => b k * b k)) with (sqs n b). ring. }
    rewrite E. apply sqs_nonneg.
Qed.
Lemma kS_eigen dl nl wt s H l (v : vect) : fle f0 wt = true -> fle f0 s = true -> (exists i, i < dl /\ v i <> f0) ->
  (forall r, r < dl -> dot dl (kS nl wt s H) r v = l * v r) ->
  fle s l = true /\ fle l (s + wt * sumr 0 nl (fun k => sqs dl (fun r => H r k))) = true.
Proof.
  intros Pw Ps (i & I & Nv) Ev.
  assert (N : fltb f0 (sqs dl v) = true).
  { apply fltb_spec. split; [apply sqs_nonneg|]. intros Z. apply Nv. symmetry in Z. apply (sqs_0 dl v Z i I). }
  pose proof (kS_quad dl nl wt s H v) as Qd.
  rewrite (sumr_ext 0 dl _ (fun r => l * (v r * v r))) in Qd by (intros; rewrite Ev by lia; ring).
  rewrite sumr_scale in Qd. change (sumr 0 dl (fun r => v r * v r)) with (sqs dl v) in Qd.
  split; apply (proj2 (fle_sub _ _)); apply (pos_le _ _ N).
  - replace (sqs dl v * (l - s)) with (l * sqs dl v - s * sqs dl v) by ring. rewrite Qd.
    set (q := sqs nl _). replace (wt * q + s * sqs dl v - s * sqs dl v) with (wt * q) by ring. apply fle_mul; auto. apply sqs_nonneg.
  - set (F := sumr 0 nl _). replace (sqs dl v * (s + wt * F - l)) with (s * sqs dl v + wt * (F * sqs dl v) - l * sqs dl v) by ring. rewrite Qd.
    set (q := sqs nl _) in *. replace (s * sqs dl v + wt * (F * sqs dl v) - (wt * q + s * sqs dl v)) with (wt * (F * sqs dl v - q)) by ring.
    apply fle_mul; auto. unfold F, q. unfold sqs at 3. rewrite <- sumr_scale_r, <- sumr_sub. apply sumr_nonneg. intros k Kk.
    apply (proj1 (fle_sub _ _)). apply cauchy.
Qed.
Lemma noise_spread tol dl nl wt s D : fle f0 tol = true -> fle f0 wt = true -> fle f0 s = true ->
  fle ((s + wt * sumr 0 nl (fun k => sumr 0 dl (fun r => hmat D r k * hmat D r k))) * tol) s = true -> kal_spread tol dl nl wt s D.
Proof.
  intros Pt Pw Ps Hl a La Ea l m (v & Nv & Ev) (u & Nu & Eu) _.
  assert (X : forall (x : K) (v : vect), (exists i, i < dl /\ v i <> f0) -> (forall r, r < dl -> sumr 0 dl (fun t => el dl a r t * v t) = x * v r) ->
    fle s x = true /\ fle x (s + wt * sumr 0 nl (fun k => sqs dl (fun r => hmat D r k))) = true).
  { intros x y Ny Ey. apply (kS_eigen dl nl wt s (hmat D) x y); auto. intros r R. rewrite <- Ey by auto. apply sumr_ext. intros t T. rewrite Ea by lia. auto. }
  destruct (X l v Nv Ev) as (A & _). destruct (X m u Nu Eu) as (B & C).
  assert (Pl : fle f0 l = true) by (eapply fle_trans; [exact Ps|exact A]). assert (Pm : fle f0 m = true) by (eapply fle_trans; [exact Ps|exact B]).
  replace (fabs l) with l by (unfold fabs; now rewrite Pl).
  replace (fabs m) with m by (unfold fabs; now rewrite Pm).
  eapply fle_trans; [|exact A]. eapply fle_trans; [|exact Hl].
  apply (proj2 (fle_sub _ _)). set (F := s + _) in *. 
  match goal with |- fle f0 (?b * tol - m * tol) = true => replace (b * tol - m * tol) with ((F - m) * tol) by (unfold F, sqs; ring) end.
  apply fle_mul; auto. apply (proj1 (fle_sub _ _)). exact C.
Qed.
End Kalman.
