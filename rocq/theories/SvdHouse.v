(* The reduction to bidiagonal form in decmp_svd. *)
From Coq Require Import List Lia Bool Arith Field.
From Verif Require Import Base LinBase QrProofs SvdModel SvdMath.
Import ListNotations.
Local Open Scope nat_scope.

Section House.
Context {K : ofield}.
Local Open Scope lin_scope.
Add Field Kf34 : (f_th K).
Notation matrix := (nat -> nat -> K).
Notation vect := (nat -> K).

(* ---------- loops ---------- *)
Lemma sum_loop lo hi (body : nat -> K -> outcome K) (f : vect) s0 : 
  (forall k s, lo <= k < hi -> body k s = Ok (s + f k)) -> for_up lo hi body s0 = Ok (s0 + sumr lo hi f).
Proof.
  intros H. destruct (Nat.le_gt_cases lo hi) as [L|L].
  2:{ rewrite for_up_nil, sumr_nil by lia. f_equal. ring. }
  assert (W : wp (for_up lo hi body s0) (fun s => s = s0 + sumr lo hi f) (fun _ => False)).
  { apply wp_for with (P := fun k s => s = s0 + sumr lo k f); auto.
    - rewrite sumr_nil by lia. ring.
    - intros i s Li ->. rewrite H by auto. cbn [wp]. rewrite Nat.add_1_r, sumr_S by lia. ring. }
  destruct (for_up lo hi body s0); cbn in W; try contradiction. now subst.
Qed.
Lemma dot_loop lo hi (l1 l2 : list K) (p1 p2 : nat -> nat) (f g : vect) :
  (forall k, lo <= k < hi -> aget l1 (p1 k) = Ok (f k)) -> (forall k, lo <= k < hi -> aget l2 (p2 k) = Ok (g k)) ->
  for_up lo hi (fun k s => let* x := aget l1 (p1 k) in let* y := aget l2 (p2 k) in Ok (s + x * y)) f0
  = Ok (sumr lo hi (fun k => f k * g k)).
Proof.
  intros H1 H2. rewrite (sum_loop lo hi _ (fun k => f k * g k)).
  - f_equal. ring.
  - intros k s Lk. rewrite H1, H2 by auto. reflexivity.
Qed.
Lemma abs_loop lo hi (l1 : list K) (p1 : nat -> nat) (f : vect) :
  (forall k, lo <= k < hi -> aget l1 (p1 k) = Ok (f k)) ->
  for_up lo hi (fun k s => let* x := aget l1 (p1 k) in Ok (s + fabs x)) f0
  = Ok (sumr lo hi (fun k => fabs (f k))).
Proof.
  intros H1. rewrite (sum_loop lo hi _ (fun k => fabs (f k))).
  - f_equal. ring.
  - intros k s Lk. rewrite H1 by auto. reflexivity.
Qed.

(* ---------- the vector of a reflection ---------- *)
Lemma abs_sum_0 lo hi (x : vect) : sumr lo hi (fun k => fabs (x k)) = f0 -> forall k, lo <= k < hi -> x k = f0.
Proof.
  intros H k Lk. apply fabs_0. induction hi as [|hi IH]; [lia|].
  rewrite sumr_S in H by lia. apply fadd_0_nonneg in H.
  - destruct H as [H1 H2]. destruct (Nat.eq_dec k hi) as [->|]; auto. apply IH; auto. lia.
  - apply sumr_nonneg. intros. apply fabs_nonneg.
  - apply fabs_nonneg.
Qed.
Lemma RL_scale N v h a (M : matrix) r c : h <> f0 -> a <> f0 ->
  RL N (fun t => a * v t) (a * a * h) M r c = RL N v h M r c.
Proof.
  intros Hh Ha. unfold RL. rewrite (sumr_ext 0 N _ (fun t => a * (v t * M t c))) by (intros; ring).
  rewrite sumr_scale. field. auto.
Qed.
Lemma sgn_neg (a q : K) : fle f0 q = true -> fle (a * (sgn a * q)) f0 = true.
Proof.
  intros Q. apply fle_sub. unfold sgn. destruct (fltb f0 a) eqn:F.
  - apply fltb_spec in F. destruct F as [F _]. replace (f0 - a * (- f1 * q)) with (a * q) by ring.
    now apply fle_mul.
  - unfold fltb in F. apply negb_false_iff in F. apply fle_sub in F.
    replace (f0 - a * (f1 * q)) with ((f0 - a) * q) by ring. now apply fle_mul.
Qed.
Lemma hh_vec sq N k (x : vect) scale :
  sqrt_pos sq -> k < N -> scale <> f0 -> (exists t, k <= t < N /\ x t <> f0) ->
  let s := sumr k N (fun t => x t / scale * (x t / scale)) in
  let a := x k / scale in let G := sgn a * sq s in let H := a * G - s in
  let v := fun t => if t <? k then f0 else if t =? k then a - G else x t / scale in
  H <> f0 /\ G <> f0 /\ a - G <> f0 /\ H = (a - G) * G /\ sumr 0 N (fun t => v t * v t) = - (H + H) /\
  sumr 0 N (fun t => v t * x t) = - (scale * H).
Proof.
  intros Sp Lk Ns (t0 & Lt0 & Nt0) s a G H v.
  assert (S0 : fle f0 s = true) by (apply sumr_nonneg; intros; apply fsqr_nonneg).
  assert (Sn : s <> f0).
  { intros E. apply Nt0. assert (x t0 / scale = f0) as Q.
    { apply (sumr_sq_0 k N (fun t => x t / scale)); auto. }
    replace (x t0) with (x t0 / scale * scale) by (field; auto). rewrite Q. ring. }
  assert (Sps : fltb f0 s = true). { apply fltb_spec. split; auto. }
  destruct (Sp s Sps) as [Sq Sqp].
  assert (G2 : G * G = s). { unfold G, sgn. destruct (fltb f0 a); ring [Sq]. }
  assert (Gn : G <> f0). { intros E. apply Sn. rewrite <- G2, E. ring. }
  assert (HE : H = (a - G) * G) by (unfold H; ring [G2]).
  assert (Hn : H <> f0).
  { intros E. unfold H in E. assert (X : fle (a * G) f0 = true).
    { unfold G. apply sgn_neg. apply fltb_spec in Sqp. tauto. }
    replace (a * G) with s in X. { apply Sn. apply fle_antisym; auto. }
    transitivity (a * G - (a * G - s)); [ring|rewrite E; ring]. }
  split; [auto|split; [auto|split]]. { intros E. apply Hn. rewrite HE, E. ring. }
  split; [auto|].
  assert (T : sumr (S k) N (fun t => x t / scale * (x t / scale)) = s - a * a).
  { unfold s. rewrite (sumr_first k N) by auto. unfold a. ring. }
  split.
  - rewrite (sumr_split 0 k N) by lia. rewrite (sumr_zero 0 k).
    2:{ intros t Lt. unfold v. bcases. ring. }
    rewrite (sumr_first k N) by auto. unfold v at 1 2. bcases.
    rewrite (sumr_ext (S k) N _ (fun t => x t / scale * (x t / scale))).
    2:{ intros t Lt. unfold v. bcases. auto. }
    rewrite T. unfold H. ring [G2].
  - rewrite (sumr_split 0 k N) by lia. rewrite (sumr_zero 0 k).
    2:{ intros t Lt. unfold v. bcases. ring. }
    rewrite (sumr_first k N) by auto. unfold v at 1. bcases.
    rewrite (sumr_ext (S k) N _ (fun t => scale * (x t / scale * (x t / scale)))).
    2:{ intros t Lt. unfold v. bcases. field. auto. }
    rewrite sumr_scale, T. unfold H. replace (x k) with (a * scale) by (unfold a; field; auto). ring.
Qed.

(* ---------- one column ---------- *)
Definition cv (A : matrix) (k : nat) : vect := fun t => if t <? k then f0 else A t k.
Definition rw (A : matrix) (k : nat) : vect := fun t => if t <? k + 1 then f0 else A k t.

Definition col_post (m n i : nat) (A : matrix) (W : vect) (A' : matrix) (W' : vect) : Prop :=
  ((forall r, i <= r < m -> A r i = f0) /\ (forall r c, r < m -> c < n -> A' r c = A r c) /\ forall k, k < n -> W' k = W k) \/
  (i < m /\ W' i <> f0 /\ (forall k, k < n -> k <> i -> W' k = W k) /\ A' i i * W' i <> f0 /\
   sumr 0 m (fun t => cv A' i t * cv A' i t) = - (A' i i * W' i + A' i i * W' i) /\
   (forall r c, r < m -> c < n -> (c < i \/ r < i) -> A' r c = A r c) /\
   (forall r c, r < m -> i < c < n -> A' r c = RL m (cv A' i) (A' i i * W' i) A r c) /\
   (forall r, r < m -> RL m (cv A' i) (A' i i * W' i) A r i = if r <? i then A r i else if r =? i then W' i else f0)).

Lemma house_col_wp sq m n i L a w rv (A : matrix) (W R : vect) scale G Ex :
  sqrt_pos sq -> i < n -> n <= L -> mat m n a A -> vec n w W -> vec L rv R ->
  wp (house_col sq m n i a w rv scale G) (fun st => let '(a', w', rv', _, _) := st in
    exists A' W', mat m n a' A' /\ vec n w' W' /\ vec L rv' (updv R i (scale * G)) /\ col_post m n i A W A' W') Ex.
Proof.
  intros Sp Li LL M VW VR. unfold house_col. apply wp_bind. eapply (wp_vset _ _ VR); [lia|]. intros rv' VR'.
  rewrite (abs_loop i m a (fun k => (k * n + i)%nat) (fun k => A k i)).
  2:{ intros k Lk. apply (mat_get m n a A); auto; lia. }
  cbn [bind]. set (sc := sumr i m (fun k => fabs (A k i))).
  destruct (feqb_spec sc f0) as [E0|N0].
  { cbn [wp]. exists A, W. do 3 (split; [auto|]). left. split; [|auto].
    intros r Lr. now apply (abs_sum_0 i m (fun k => A k i)). }
  assert (Lm : i < m). { destruct (Nat.lt_ge_cases i m); auto. exfalso. apply N0. unfold sc. now rewrite sumr_nil. }
  assert (Ex0 : exists t, i <= t < m /\ A t i <> f0).
  { assert (D : (forall t, i <= t < m -> A t i = f0) \/ exists t, i <= t < m /\ A t i <> f0).
    { clear. induction m as [|k IH]; [left; intros; lia|]. destruct IH as [IH|(t & Lt & Nt)].
      - destruct (Nat.lt_ge_cases k i); [left; intros; lia|].
        destruct (f_eq_dec (A k i) f0) as [E|N]; [left|right].
        + intros t Lt. destruct (Nat.eq_dec t k) as [->|]; auto. apply IH. lia.
        + exists k. split; [lia|auto].
      - right. exists t. split; [lia|auto]. }
    destruct D as [D|D]; auto. exfalso. apply N0. unfold sc. apply sumr_zero. intros k Lk. apply fabs_0. auto. }
  destruct (hh_vec sq m i (fun t => A t i) sc Sp Lm N0 Ex0) as (Hn & Gn & An & HE & Vv & Vx).
  set (s := sumr i m (fun t => A t i / sc * (A t i / sc))) in *.
  set (al := A i i / sc) in *. set (g := sgn al * sq s) in *. set (H := al * g - s) in *.
  set (v := fun t => if t <? i then f0 else if t =? i then al - g else A t i / sc) in *.
  change (sumr 0 m (fun t => v t * v t) = - (H + H)) in Vv.
  change (sumr 0 m (fun t => v t * A t i) = - (sc * H)) in Vx.
  apply wp_seq with (P := fun st : list K * K => mat m n (fst st) (fun r c => if (c =? i) && (i <=? r) then A r c / sc else A r c) /\ snd st = s).
  { eapply wp_mono; [apply wp_for with (P := fun k (st : list K * K) =>
      mat m n (fst st) (fun r c => if (c =? i) && (i <=? r) && (r <? k) then A r c / sc else A r c) /\
      snd st = sumr i k (fun t => A t i / sc * (A t i / sc))) | cbn beta].
    - lia.
    - cbn [fst snd]. split; [|now rewrite sumr_nil by lia]. eapply mat_ext; [exact M|]. intros r c Rr Cc. bcases; auto.
    - intros k [a1 s1] Lk [M1 S1]. cbn [fst snd] in *. apply wp_bind. eapply (wp_mget _ _ M1); [lia|lia|].
      cbn beta. apply wp_bind. apply wp_divc; auto. apply wp_bind. eapply (wp_mset _ _ M1); [lia|lia|].
      intros a2 M2. cbn [wp fst snd]. bcases. split.
      + eapply mat_ext; [exact M2|]. intros r c Rr Cc. unfold updm. bcases; subst; auto.
      + rewrite Nat.add_1_r, sumr_S by lia. now rewrite S1.
    - intros [a1 s1] [M1 S1]. cbn [fst snd] in *. split; auto. eapply mat_ext; [exact M1|]. intros r c Rr Cc. bcases; auto. }
  intros [a1 s1] [M1 S1]. cbn [fst snd] in M1, S1. subst s1.
  apply wp_bind. eapply (wp_mget _ _ M1); [lia|lia|]. cbn beta. rewrite Nat.eqb_refl, Nat.leb_refl. cbn [andb]. fold al. cbv zeta. fold g. fold H.
  apply wp_bind. eapply (wp_mset _ _ M1); [lia|lia|]. intros a2 M2.
  assert (M2' : mat m n a2 (fun r c => if (c =? i) && (i <=? r) then v r else A r c)).
  { eapply mat_ext; [exact M2|]. intros r c Rr Cc. unfold updm, v. bcases; subst; auto. }
  clear M1 M2. 
  apply wp_seq with (P := fun a3 => mat m n a3 (fun r c => if (c =? i) && (i <=? r) then v r else
      if i <? c then RL m v H A r c else A r c)).
  { eapply wp_mono; [apply wp_for with (P := fun j a3 => mat m n a3 (fun r c => if (c =? i) && (i <=? r) then v r else
      if (i <? c) && (c <? j) then RL m v H A r c else A r c)) | cbn beta].
    - lia.
    - eapply mat_ext; [exact M2'|]. intros r c Rr Cc. bcases; auto.
    - intros j a3 Lj M3.
      rewrite (dot_loop i m a3 a3 (fun k => (k * n + i)%nat) (fun k => (k * n + j)%nat) v (fun k => A k j)).
      2:{ intros k Lk. rewrite (mat_get m n a3 _ _ _ M3) by lia. bcases. auto. }
      2:{ intros k Lk. rewrite (mat_get m n a3 _ _ _ M3) by lia. bcases. auto. }
      cbn [bind].
      assert (Sv : sumr i m (fun k => v k * A k j) = sumr 0 m (fun k => v k * A k j)).
      { rewrite (sumr_split 0 i m) by lia. rewrite (sumr_zero 0 i). { ring. } intros t Lt. unfold v. bcases. ring. }
      rewrite Sv. set (s' := sumr 0 m (fun k => v k * A k j)).
      eapply wp_mono; [apply wp_for with (P := fun k a4 => mat m n a4 (fun r c => if (c =? i) && (i <=? r) then v r else
        if (i <? c) && ((c <? j) || ((c =? j) && (r <? k))) then RL m v H A r c else A r c)) | cbn beta].
      + lia.
      + eapply mat_ext; [exact M3|]. intros r c Rr Cc. bcases; auto.
        subst. unfold RL. unfold v at 1. bcases. field. auto.
      + intros k a4 Lk M4. apply wp_bind. eapply (wp_mget _ _ M4); [lia|lia|].
        apply wp_bind. eapply (wp_mget _ _ M4); [lia|lia|]. bcases.
        apply wp_bind. apply wp_divc; auto. eapply (wp_mset _ _ M4); [lia|lia|]. intros a5 M5.
        eapply mat_ext; [exact M5|]. intros r c Rr Cc. unfold updm. bcases; subst; auto.
        unfold RL. fold s'. field. auto.
      + intros a4 M4. eapply mat_ext; [exact M4|]. intros r c Rr Cc. bcases; auto.
    - intros a3 M3. eapply mat_ext; [exact M3|]. intros r c Rr Cc. bcases; auto. }
  intros a3 M3.
  set (A' := fun r c => if (c =? i) && (i <=? r) then v r * sc else if i <? c then RL m v H A r c else A r c).
  apply wp_seq with (P := fun a4 => mat m n a4 A').
  { eapply wp_mono; [apply wp_for with (P := fun k a4 => mat m n a4 (fun r c => if (c =? i) && (i <=? r) then
      (if r <? k then v r * sc else v r) else if i <? c then RL m v H A r c else A r c)) | cbn beta].
    - lia.
    - eapply mat_ext; [exact M3|]. intros r c Rr Cc. bcases; auto.
    - intros k a4 Lk M4. apply wp_bind. eapply (wp_mget _ _ M4); [lia|lia|]. bcases.
      eapply (wp_mset _ _ M4); [lia|lia|]. intros a5 M5.
      eapply mat_ext; [exact M5|]. intros r c Rr Cc. unfold updm. bcases; subst; auto.
    - intros a4 M4. eapply mat_ext; [exact M4|]. intros r c Rr Cc. unfold A'. bcases; auto. }
  intros a4 M4. apply wp_bind. eapply (wp_vset _ _ VW); [auto|]. intros w' VW'. cbn [wp].
  exists A', (updv W i (sc * g)). do 3 (split; [auto|]). right. split; [auto|].
  assert (Wi : updv W i (sc * g) i = sc * g). { unfold updv. now rewrite Nat.eqb_refl. }
  assert (Aii : A' i i = (al - g) * sc). { unfold A', v. bcases. auto. }
  assert (Hh : A' i i * (sc * g) = sc * sc * H). { rewrite Aii, HE. ring. }
  rewrite Wi, Hh.
  assert (Cv : forall t, cv A' i t = sc * v t).
  { intros t. unfold cv, A'. bcases; try ring. unfold v. bcases. ring. }
  assert (RLe : forall r c, r < m -> RL m (cv A' i) (sc * sc * H) A r c = RL m v H A r c).
  { intros r c Rr. rewrite (RL_ext_v m _ (fun t => sc * v t)) by auto. now apply RL_scale. }
  split; [now apply fmul_nz|]. split. { intros k Lk Nk. unfold updv. bcases. auto. }
  split; [repeat apply fmul_nz; auto|]. split.
  { rewrite (sumr_ext 0 m _ (fun t => sc * sc * (v t * v t))) by (intros; rewrite !Cv; ring).
    rewrite sumr_scale, Vv. ring. }
  split; [|split].
  - intros r c Rr Cc D. unfold A'. bcases; auto. unfold RL. unfold v at 1. bcases. field. auto.
  - intros r c Rr Cc. rewrite RLe by auto. unfold A'. bcases. auto.
  - intros r Rr. rewrite RLe by auto. unfold RL. rewrite Vx. unfold v. bcases.
    + subst r. replace (A i i) with (al * sc) by (unfold al; field; auto). field. auto.
    + field. auto.
    + field. auto.
Qed.

(* ---------- one row ---------- *)
Definition row_post (m n i : nat) (A A' : matrix) (e : K) : Prop :=
  (e = f0 /\ (i < m -> forall t, i < t < n -> A i t = f0) /\ (forall r c, r < m -> c < n -> A' r c = A r c)) \/
  (i < m /\ i + 1 < n /\ e <> f0 /\ A' i (i + 1)%nat * e <> f0 /\
   sumr 0 n (fun t => rw A' i t * rw A' i t) = - (A' i (i + 1)%nat * e + A' i (i + 1)%nat * e) /\
   (forall r c, r < m -> c < n -> (c <= i \/ r < i) -> A' r c = A r c) /\
   (forall r c, i < r < m -> c < n -> A' r c = RR n (rw A' i) (A' i (i + 1)%nat * e) A r c) /\
   (forall c, c < n -> RR n (rw A' i) (A' i (i + 1)%nat * e) A i c =
      if c <=? i then A i c else if c =? i + 1 then e else f0)).

Lemma house_row_wp sq m n i L a rv (A : matrix) (R : vect) G Ex :
  sqrt_pos sq -> i < n -> n <= L -> mat m n a A -> vec L rv R ->
  wp (house_row sq m n i a rv G) (fun st => let '(a', rv', scale, G') := st in
    exists A' R', mat m n a' A' /\ vec L rv' R' /\ (forall k, k <= i -> R' k = R k) /\ row_post m n i A A' (scale * G')) Ex.
Proof.
  intros Sp Li LL M VR. unfold house_row.
  set (sc := if i <? m then sumr (i + 1) n (fun k => fabs (A i k)) else f0).
  replace (if i <? m then for_up (i + 1) n (fun k s => let* x := aget a (i * n + k) in Ok (s + fabs x)) f0 else Ok f0) with (Ok sc).
  2:{ unfold sc. destruct (Nat.ltb_spec i m); auto.
      rewrite (abs_loop (i + 1) n a (fun k => (i * n + k)%nat) (fun k => A i k)); auto.
      intros k Lk. apply (mat_get m n a A); auto; lia. }
  cbn [bind]. 
  destruct (feqb_spec sc f0) as [E0|N0].
  { cbn [wp]. exists A, R. do 3 (split; [auto|]). left. split; [rewrite E0; ring|]. split; [|auto].
    intros Lm t Lt. unfold sc in E0. destruct (Nat.ltb_spec i m); [|lia].
    apply (abs_sum_0 (i + 1) n (fun k => A i k)); auto. lia. }
  assert (Lm : i < m). { destruct (Nat.lt_ge_cases i m); auto. exfalso. apply N0. unfold sc. bcases. auto. }
  assert (Esc : sc = sumr (i + 1) n (fun k => fabs (A i k))). { unfold sc. bcases. auto. }
  clearbody sc.
  assert (Ln : i + 1 < n). { destruct (Nat.lt_ge_cases (i + 1) n); auto. exfalso. apply N0. rewrite Esc. now rewrite sumr_nil. }
  assert (Ex0 : exists t, i + 1 <= t < n /\ A i t <> f0).
  { assert (D : (forall t, i + 1 <= t < n -> A i t = f0) \/ exists t, i + 1 <= t < n /\ A i t <> f0).
    { clear. induction n as [|k IH]; [left; intros; lia|]. destruct IH as [IH|(t & Lt & Nt)].
      - destruct (Nat.lt_ge_cases k (i + 1)); [left; intros; lia|].
        destruct (f_eq_dec (A i k) f0) as [E|N]; [left|right].
        + intros t Lt. destruct (Nat.eq_dec t k) as [->|]; auto. apply IH. lia.
        + exists k. split; [lia|auto].
      - right. exists t. split; [lia|auto]. }
    destruct D as [D|D]; auto. exfalso. apply N0. rewrite Esc. apply sumr_zero. intros k Lk. apply fabs_0. auto. }
  destruct (hh_vec sq n (i + 1) (fun t => A i t) sc Sp Ln N0 Ex0) as (Hn & Gn & An & HE & Vv & Vx).
  set (s := sumr (i + 1) n (fun t => A i t / sc * (A i t / sc))) in *.
  set (al := A i (i + 1)%nat / sc) in *. set (g := sgn al * sq s) in *. set (H := al * g - s) in *.
  set (v := fun t => if t <? i + 1 then f0 else if t =? i + 1 then al - g else A i t / sc) in *.
  change (sumr 0 n (fun t => v t * v t) = - (H + H)) in Vv.
  change (sumr 0 n (fun t => v t * A i t) = - (sc * H)) in Vx.
  apply wp_seq with (P := fun st : list K * K => mat m n (fst st) (fun r c => if (r =? i) && (i + 1 <=? c) then A r c / sc else A r c) /\ snd st = s).
  { eapply wp_mono; [apply wp_for with (P := fun k (st : list K * K) =>
      mat m n (fst st) (fun r c => if (r =? i) && (i + 1 <=? c) && (c <? k) then A r c / sc else A r c) /\
      snd st = sumr (i + 1) k (fun t => A i t / sc * (A i t / sc))) | cbn beta].
    - lia.
    - cbn [fst snd]. split; [|now rewrite sumr_nil by lia]. eapply mat_ext; [exact M|]. intros r c Rr Cc. bcases; auto.
    - intros k [a1 s1] Lk [M1 S1]. cbn [fst snd] in *. apply wp_bind. eapply (wp_mget _ _ M1); [lia|lia|].
      cbn beta. apply wp_bind. apply wp_divc; auto. apply wp_bind. eapply (wp_mset _ _ M1); [lia|lia|].
      intros a2 M2. cbn [wp fst snd]. bcases. split.
      + eapply mat_ext; [exact M2|]. intros r c Rr Cc. unfold updm. bcases; subst; auto.
      + rewrite (Nat.add_1_r k), sumr_S by lia. now rewrite S1.
    - intros [a1 s1] [M1 S1]. cbn [fst snd] in *. split; auto. eapply mat_ext; [exact M1|]. intros r c Rr Cc. bcases; auto. }
  intros [a1 s1] [M1 S1]. cbn [fst snd] in M1, S1. subst s1.
  apply wp_bind. eapply (wp_mget _ _ M1); [lia|lia|]. cbn beta. rewrite Nat.eqb_refl, Nat.leb_refl. cbn [andb]. fold al. cbv zeta. fold g. fold H.
  apply wp_bind. eapply (wp_mset _ _ M1); [lia|lia|]. intros a2 M2.
  assert (M2' : mat m n a2 (fun r c => if (r =? i) && (i + 1 <=? c) then v c else A r c)).
  { eapply mat_ext; [exact M2|]. intros r c Rr Cc. unfold updm, v. bcases; subst; auto. }
  clear M1 M2.
  apply wp_seq with (P := fun rv' => vec L rv' (fun k => if (i + 1 <=? k) && (k <? n) then v k / H else R k)).
  { eapply wp_mono; [apply wp_for with (P := fun j rv' => vec L rv' (fun k => if (i + 1 <=? k) && (k <? j) then v k / H else R k)) | cbn beta].
    - lia.
    - eapply vec_ext; [exact VR|]. intros k Lk. bcases; auto.
    - intros j rv1 Lj V1. apply wp_bind. eapply (wp_mget _ _ M2'); [lia|lia|]. bcases. 
      apply wp_bind. apply wp_divc; auto. eapply (wp_vset _ _ V1); [lia|]. intros rv2 V2.
      eapply vec_ext; [exact V2|]. intros k Lk. unfold updv. bcases; subst; auto.
    - auto. }
  intros rv' VR'.
  apply wp_seq with (P := fun a3 => mat m n a3 (fun r c => if (r =? i) && (i + 1 <=? c) then v c else
      if i <? r then RR n v H A r c else A r c)).
  { eapply wp_mono; [apply wp_for with (P := fun j a3 => mat m n a3 (fun r c => if (r =? i) && (i + 1 <=? c) then v c else
      if (i <? r) && (r <? j) then RR n v H A r c else A r c)) | cbn beta].
    - lia.
    - eapply mat_ext; [exact M2'|]. intros r c Rr Cc. bcases; auto.
    - intros j a3 Lj M3.
      rewrite (dot_loop (i + 1) n a3 a3 (fun k => (j * n + k)%nat) (fun k => (i * n + k)%nat) (fun k => A j k) v).
      2:{ intros k Lk. rewrite (mat_get m n a3 _ _ _ M3) by lia. bcases. auto. }
      2:{ intros k Lk. rewrite (mat_get m n a3 _ _ _ M3) by lia. bcases. auto. }
      cbn [bind].
      assert (Sv : sumr (i + 1) n (fun k => A j k * v k) = sumr 0 n (fun k => v k * A j k)).
      { rewrite (sumr_split 0 (i + 1) n) by lia. rewrite (sumr_zero 0 (i + 1)).
        2:{ intros t Lt. unfold v. bcases. ring. }
        rewrite (sumr_ext (i + 1) n (fun k => A j k * v k) (fun k => v k * A j k)) by (intros; ring). ring. }
      rewrite Sv. set (s' := sumr 0 n (fun k => v k * A j k)).
      eapply wp_mono; [apply wp_for with (P := fun k a4 => mat m n a4 (fun r c => if (r =? i) && (i + 1 <=? c) then v c else
        if (i <? r) && ((r <? j) || ((r =? j) && (c <? k))) then RR n v H A r c else A r c)) | cbn beta].
      + lia.
      + eapply mat_ext; [exact M3|]. intros r c Rr Cc. bcases; auto.
        subst. unfold RR, RL. unfold v at 1. bcases. field. auto.
      + intros k a4 Lk M4. apply wp_bind. eapply (wp_mget _ _ M4); [lia|lia|].
        apply wp_bind. eapply (wp_vget _ _ VR'); [lia|]. bcases.
        eapply (wp_mset _ _ M4); [lia|lia|]. intros a5 M5.
        eapply mat_ext; [exact M5|]. intros r c Rr Cc. unfold updm. bcases; subst; auto.
        unfold RR, RL. fold s'. field. auto.
      + intros a4 M4. eapply mat_ext; [exact M4|]. intros r c Rr Cc. bcases; auto.
    - intros a3 M3. eapply mat_ext; [exact M3|]. intros r c Rr Cc. bcases; auto. }
  intros a3 M3.
  set (A' := fun r c => if (r =? i) && (i + 1 <=? c) then v c * sc else if i <? r then RR n v H A r c else A r c).
  apply wp_seq with (P := fun a4 => mat m n a4 A').
  { eapply wp_mono; [apply wp_for with (P := fun k a4 => mat m n a4 (fun r c => if (r =? i) && (i + 1 <=? c) then
      (if c <? k then v c * sc else v c) else if i <? r then RR n v H A r c else A r c)) | cbn beta].
    - lia.
    - eapply mat_ext; [exact M3|]. intros r c Rr Cc. bcases; auto.
    - intros k a4 Lk M4. apply wp_bind. eapply (wp_mget _ _ M4); [lia|lia|]. bcases.
      eapply (wp_mset _ _ M4); [lia|lia|]. intros a5 M5.
      eapply mat_ext; [exact M5|]. intros r c Rr Cc. unfold updm. bcases; subst; auto.
    - intros a4 M4. eapply mat_ext; [exact M4|]. intros r c Rr Cc. unfold A'. bcases; auto. }
  intros a4 M4. cbn [wp].
  exists A', (fun k => if (i + 1 <=? k) && (k <? n) then v k / H else R k).
  split; [auto|]. split; [auto|]. split. { intros k Lk. bcases. auto. }
  right. split; [auto|]. split; [auto|].
  assert (Aii : A' i (i + 1)%nat = (al - g) * sc). { unfold A', v. bcases. auto. }
  assert (Hh : A' i (i + 1)%nat * (sc * g) = sc * sc * H). { rewrite Aii, HE. ring. }
  rewrite Hh.
  assert (Cv : forall t, rw A' i t = sc * v t).
  { intros t. unfold rw, A'. bcases; try ring. unfold v. bcases. ring. }
  assert (RLe : forall r c, c < n -> RR n (rw A' i) (sc * sc * H) A r c = RR n v H A r c).
  { intros r c Rr. unfold RR. rewrite (RL_ext_v n _ (fun t => sc * v t)) by auto. now apply RL_scale. }
  split; [now apply fmul_nz|].
  split; [repeat apply fmul_nz; auto|]. split.
  { rewrite (sumr_ext 0 n _ (fun t => sc * sc * (v t * v t))) by (intros; rewrite !Cv; ring).
    rewrite sumr_scale, Vv. ring. }
  split; [|split].
  - intros r c Rr Cc D. unfold A'. bcases; auto. unfold RR, RL. unfold v at 1. bcases. field. auto.
  - intros r c Rr Cc. rewrite RLe by auto. unfold A'. bcases. auto.
  - intros c Cc. rewrite RLe by auto. unfold RR, RL. rewrite Vx. unfold v. bcases.
    + subst c. replace (A i (i + 1)%nat) with (al * sc) by (unfold al; field; auto). field. auto.
    + field. auto.
    + field. auto.
Qed.
End House.
