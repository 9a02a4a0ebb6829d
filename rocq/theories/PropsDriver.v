(* C81: the driver of the backcalculation, src/pavement.cpp 1789-1993.

   When backcalc gets to its end, the moduli are between 10^1 and 10^9, the calculated deflections
   are those of the moduli, the evaluation points are restored and no more than maxsteps*nl steps
   were made; true is returned only if the last step was no longer than the tolerance. *)
From Coq Require Import List ZArith QArith Qcanon Bool Arith Lia Field Reals Lra.
From Verif Require Import Base LinBase LinReal QrModel PropsQr PropsBrentReal EigModel PropsEig BowlModel PropsDsm KalmanModel KalmanProofs PropsKalman DeflgradModel PropsDeflgrad DriverModel.
Import ListNotations.
Local Open Scope nat_scope.
Local Open Scope lin_scope.

Section Spec.
Context {K : ofield}.
(* n log moduli between lo and hi *)
Definition ranged (n : nat) (lo hi : K) (P : list K) : Prop :=
  length P = n /\ forall p, In p P -> fle lo p = true /\ fle p hi = true.
(* P' is P moved by w, each element kept between lo and hi *)
Definition moved_to (n : nat) (lo hi : K) (P : list K) (w : nat -> K) (P' : list K) : Prop :=
  length P' = n /\ forall i, i < n -> limited lo hi (nth i P f0 + w i) (nth i P' f0).
(* a last step made by kalman with the weight wt from P to P', of the length r *)
Definition kalman_step (n : nat) (lo hi wt s : K) (D : defls (K := K)) (P : list K) (r : K) (P' : list K) : Prop :=
  exists w, best_step n wt s D w /\ r * r = length2 n w /\ fle f0 r = true /\
    (r <> f0 -> fle r f1 = true -> moved_to n lo hi P w P') /\ (r = f0 -> P' = repeat lo n).
(* a last step made by deflgrad, or rejected *)
Definition deflgrad_step_of (n : nat) (lo hi : K) (D : defls (K := K)) (P : list K) (r : K) (P' : list K) : Prop :=
  exists w, r * r = length2 n w /\ fle f0 r = true /\ fle (distance2 n D w) (distance2 n D (fun _ => f0)) = true /\
    (moved_to n lo hi P w P' \/ P' = P).
End Spec.

Section Nums.
Context {K : ofield}.
Add Field Kf53 : (f_th K).
Notation lo := (@lo K).
Notation hi := (@hi K).
Lemma fnat_nn n : fle f0 (@fnat K n) = true.
Proof. induction n; cbn [fnat]. apply fle_refl. apply fadd_nonneg; auto. apply f0_le_f1. Qed.
Lemma fnat_add a b : @fnat K (a + b) = fnat a + fnat b.
Proof. induction a; cbn [fnat Nat.add]; [ring|]. rewrite IHa. ring. Qed.
Lemma fnat_le a b : (a <= b)%nat -> fle (@fnat K a) (fnat b) = true.
Proof.
  intros H. replace b with (a + (b - a))%nat by lia. rewrite fnat_add. apply (proj2 (fle_sub _ _)).
  replace (fnat a + fnat (b - a) - fnat a) with (@fnat K (b - a)) by ring. apply fnat_nn.
Qed.
Lemma fnat1 : @fnat K 1 = f1.
Proof. cbn [fnat]. ring. Qed.
Lemma lo_hi : fle lo hi = true.
Proof. unfold DriverModel.lo, DriverModel.hi. rewrite <- fnat1. apply fnat_le. lia. Qed.

Lemma noises_nn (C : conf (K := K)) : fle f0 (noises C) = true.
Proof.
  unfold noises. apply fadd_nonneg. apply fsqr_nonneg.
  assert (T : fltb f0 (@two K + f1) = true).
  { replace (@two K + f1) with (@fnat K 3) by (unfold two; cbn [fnat]; ring). apply fltb_spec. split; [apply fnat_nn|].
    intros E. apply (@f1_neq_f0 K). apply fle_antisym. 2: apply f0_le_f1. rewrite <- fnat1, E. apply fnat_le. lia. }
  apply (pos_le (two + f1)); auto. pose proof (fpos_nz _ T) as N.
  replace ((two + f1) * (precision C * precision C / (two + f1))) with (precision C * precision C) by (field; auto). apply fsqr_nonneg.
Qed.
End Nums.

Section Proofs.
Context {K : ofield}.
Add Field Kf51 : (f_th K).
Variables (sq lg pw : K -> K) (junk : nat -> list K) (C : conf (K := K)) (W : world (K := K)) (ms : list (meas (K := K))).
Variable nl : nat.
Notation lo := (@lo K).
Notation hi := (@hi K).
(* the deflections measured and calculated, with the gradients of the default group *)
Definition seen (q : option (list K)) (E : list K) : defls :=
  Defls (map mval ms) (map (fun m => calc_at W E (mlg m) (mpt m)) ms) (map (fun m => grad_at W q E (clg C) (mpt m)) ms).
Hypothesis Sq : is_sqrt sq.
Hypothesis Jk : forall n, length (junk n) = n.
Hypothesis Nl : 0 < nl.
Hypothesis Ms : ms <> [].
Hypothesis Gl : forall q E m, In m ms -> length (grad_at W q E (clg C) (mpt m)) = nl.
Hypothesis Gz : forall q E m, In m ms -> length2 nl (fun i => nth i (grad_at W q E (clg C) (mpt m)) f0) <> f0.
Hypothesis Ks : forall k E, kalman_spread (etol C) nl (weight C k) (noises C) (seen None E).
Hypothesis Kw : forall k, fltb f0 (weight C k) = true.
Hypothesis Pr : fle f0 (precision C) = true.
Hypothesis Lgm : forall x y, fle x y = true -> fle (lg x) (lg y) = true.
Hypothesis Lgl : lg (fnat 1000) = fnat 3.
Hypothesis Lgh : lg (fnat 1000 * fnat 1000) = fnat 6.

Lemma seen_complete q E : complete nl (seen q E).
Proof.
  unfold complete, seen. cbn [measured calculated deflgrad]. rewrite !map_length. split; [auto|split; [auto|]].
  intros g G. apply in_map_iff in G as (m & <- & I). now apply Gl.
Qed.
Lemma seen_len q E : length (measured (seen q E)) = length ms.
Proof. unfold seen. cbn [measured]. now rewrite map_length. Qed.
Lemma seen_nz q E : forall j, j < length (measured (seen q E)) -> length2 nl (gradient (seen q E) j) <> f0.
Proof.
  intros j J. rewrite seen_len in J. destruct (nth_error ms j) as [m|] eqn:N; [|apply nth_error_None in N; lia].
  assert (I : In m ms) by (eapply nth_error_In; eauto). pose proof (Gz q E m I) as Z.
  assert (G : forall i, gradient (seen q E) j i = nth i (grad_at W q E (clg C) (mpt m)) f0).
  { intros i. unfold gradient, seen. cbn [deflgrad]. erewrite (nth_error_nth (map _ ms) j). reflexivity. rewrite nth_error_map, N. reflexivity. }
  intros H. apply Z. etransitivity; [|exact H]. unfold length2. apply sumr_ext. intros i Hi. now rewrite G.
Qed.
Lemma look_eq q E : look C W ms q E = if (clg C <? groups C)%nat then Ok (seen q E) else UB OutOfBounds.
Proof. reflexivity. Qed.

Lemma dl_pos : 0 < length ms.
Proof. destruct ms; [congruence|cbn; lia]. Qed.

Lemma limited_in P w P' : moved_to nl lo hi P w P' -> ranged nl lo hi P'.
Proof.
  intros (L & H). split; auto. intros p I. apply In_nth with (d := f0) in I as (i & I & <-). destruct (H i ltac:(lia)) as (A & B & _). auto.
Qed.
Lemma list_const (l : list K) n x : length l = n -> (forall i, i < n -> nth i l f0 = x) -> l = repeat x n.
Proof.
  intros L H. apply nth_ext with (d := f0) (d' := f0). now rewrite repeat_length.
  intros i I. rewrite H by lia. symmetry. apply (repeat_spec n x). apply nth_In. now rewrite repeat_length, <- L.
Qed.
Lemma ranged_repeat x : fle lo x = true -> fle x hi = true -> ranged nl lo hi (repeat x nl).
Proof. intros A B. split; [apply repeat_length|]. intros p I. apply repeat_spec in I. now subst. Qed.

Definition kout (wt : K) (E P : list K) (o : outcome (K * list K)) : Prop :=
  match o with
  | Ok (r, P') => kalman_step nl lo hi wt (noises C) (seen None E) P r P' /\ ranged nl lo hi P'
  | UB f => f = OutOfFuel \/ (f = OutOfBounds /\ groups C <= clg C)
  | Throw _ => False
  end.
Lemma kalman_call k E P : length P = nl -> kout (weight C k) E P (call_kalman sq junk C W ms nl (weight C k) E P).
Proof.
  intros Lp. unfold call_kalman. rewrite look_eq. destruct (clg C <? groups C) eqn:G; [|cbn; apply Nat.ltb_ge in G; auto].
  cbn [bind]. pose proof dl_pos as Dp.
  assert (M : measured (seen None E) <> []). { intros H. pose proof (seen_len None E) as L. rewrite H in L. cbn in L. lia. }
  pose proof (C78_kalman_partial sq (fuel C) (etol C) nl (weight C k) (noises C) lo hi (seen None E) P
    (junk (length ms * nl)) (junk (length ms * length ms)) (junk (nl * length ms)) (junk (length ms)) (junk nl) (junk (length ms)) (junk (length ms))) as T.
  cbv zeta in T. rewrite seen_len in T.
  specialize (T Sq M (seen_complete None E) (Kw k) (noises_nn C) lo_hi (Ks k E) Lp (Jk _) (Jk _) (Jk _) (Jk _) (Jk _) (Jk _) (Jk _)).
  destruct (kalman _ _ _ _ _ _ _ _ _ _ _ _ _ _ _ _ _) as [[r P']|e|f]; cbn; auto.
  destruct T as (w & B & R2 & R0 & L' & Hn & Hz).
  assert (Kz : r = f0 -> P' = repeat lo nl). { intros E0. apply list_const; auto. }
  split.
  - exists w. split; [auto|split; [auto|split; [auto|split; auto]]]. intros N R1. split; auto. intros i I.
    destruct (Hn N) as (a & _ & _ & _ & A1 & Hl). specialize (Hl i I). rewrite (A1 R1) in Hl.
    replace (nth i P f0 + f1 * w i) with (nth i P f0 + w i) in Hl by ring. exact Hl.
  - destruct (feqb_spec r f0) as [E0|N].
    + rewrite (Kz E0). apply ranged_repeat. apply fle_refl. apply lo_hi.
    + destruct (Hn N) as (a & _ & _ & _ & _ & Hl). apply (limited_in P (fun i => a * w i)). split; auto.
Qed.

Definition gout (P Q : list K) (o : outcome (K * list K * list K)) : Prop :=
  match o with
  | Ok (r, P', Q') => (exists w, r * r = length2 nl w /\ fle f0 r = true /\
      fle (distance2 nl (seen (Some Q) (map pw P)) w) (distance2 nl (seen (Some Q) (map pw P)) (fun _ => f0)) = true /\
      moved_to nl lo hi P w P' /\
      (precision C = f0 -> (forall u, least nl (seen (Some Q) (map pw P)) u -> fle (length2 nl w) (length2 nl u) = true) \/
         forall u, least nl (seen (Some Q) (map pw P)) u -> fltb f1 (length2 nl u) = true)) /\ length Q' = (nl * nl)%nat
  | UB f => f = OutOfBounds /\ groups C <= clg C
  | Throw _ => False
  end.
Lemma grad_call P Q : length P = nl -> length Q = (nl * nl)%nat -> gout P Q (call_deflgrad sq pw junk C W ms nl P Q).
Proof.
  intros Lp Lq. unfold call_deflgrad. rewrite look_eq. destruct (clg C <? groups C) eqn:G; [|cbn; apply Nat.ltb_ge in G; auto].
  cbn [bind]. pose proof dl_pos as Dp. set (D := seen (Some Q) (map pw P)).
  pose proof (C80_deflgrad sq Sq nl D ltac:(unfold D; rewrite seen_len; auto) (seen_nz (Some Q) (map pw P)) (precision C) lo hi P Q
    (junk (length ms * nl)) (junk (length ms)) (junk (length ms)) (junk (length ms)) (junk nl) (junk nl) (junk nl)
    (seen_complete (Some Q) (map pw P)) Pr lo_hi Lp Lq) as T.
  unfold D in T at 1 2 3 4. rewrite !seen_len in T. specialize (T (Jk _) (Jk _) (Jk _) (Jk _) (Jk _) (Jk _) (Jk _)).
  destruct (deflgrad_step _ _ _ _ _ _ _ _ _ _ _ _ _ _ _) as [[[r P'] Q']|e|f]; cbn; auto; [|destruct T].
  destruct T as (w & R2 & R0 & Lq' & Lp' & Hl & Hd & Hc). split; [|auto]. exists w. split; [auto|split; [auto|split; [auto|split; [split; auto|]]]].
  intros Pz. destruct Hc as [(_ & _ & Hc)|(_ & Hc)]; [left|right; auto]. apply (Hc Pz).
Qed.

Lemma dsm_call P : length P = nl ->
  match call_dsm sq pw C W ms P with
  | Ok P' => ranged nl lo hi P'
  | UB f => f = OutOfFuel
  | Throw _ => False
  end.
Proof.
  intros Lp. unfold call_dsm. assert (Np : P <> []) by (intros ->; cbn in Lp; lia).
  destruct (C79_dsm_safe K (bowl_at sq pw W ms) (fuel C) sq tenth (hundred * tolerance C) lo hi P Np) as [(r & P' & E & L)|E]; rewrite E; cbn; auto.
  pose proof (C79_dsm_sound_partial K _ _ _ _ _ _ _ _ _ _ Np E) as (V & x & _ & _ & _ & _ & _ & _ & _ & _ & ->).
  split; [lia|]. intros p I. apply in_map_iff in I as (y & <- & _). destruct (clamp_limited lo hi y lo_hi) as (A & B & _). auto.
Qed.

(* what is known when the first loop is left *)
Definition glast (P0 : list K) (s0 : K) (n0 n : nat) (P : list K) (r : K) : Prop :=
  (n = n0 /\ P = P0 /\ r = s0) \/
  (n0 < n /\ exists Po Q, ranged nl lo hi Po /\ deflgrad_step_of nl lo hi (seen (Some Q) (map pw Po)) Po r P).
Lemma grad_loop_spec turns : forall n O P Q t s, ranged nl lo hi P -> length Q = (nl * nl)%nat ->
  match grad_loop sq pw junk C W ms turns n nl O P Q t s with
  | Ok (turns', n', P', r) => (n' + turns' = n + turns)%nat /\ ranged nl lo hi P' /\ glast P s n n' P' r
  | UB f => f = OutOfBounds /\ groups C <= clg C
  | Throw _ => False
  end.
Proof.
  induction turns as [|turns IH]; intros n O P Q t s Rp Lq; cbn [grad_loop].
  { split; [auto|split; [auto|]]. left. auto. }
  pose proof (grad_call P Q (proj1 Rp) Lq) as G. destruct (call_deflgrad _ _ _ _ _ _ _ _ _) as [[[r P'] Q']|e|f]; cbn [bind gout] in *; auto.
  destruct G as ((w & R2 & R0 & Hd & Hm & _) & Lq'). pose proof (limited_in _ _ _ Hm) as Rp'.
  assert (Gs : deflgrad_step_of nl lo hi (seen (Some Q) (map pw P)) P r P') by (exists w; auto).
  destruct (fltb s tenth && fltb s r && fle (tolerance C) r).
  { split; [lia|split; [auto|]]. right. split; [lia|]. exists P, Q. split; auto. exists w. auto. }
  destruct (fltb r (hundred * tolerance C) || above (t + r) r (fnat 60) || above (t + r) (step_len sq O P') (fnat 6)).
  { split; [lia|split; [auto|]]. right. split; [lia|]. exists P, Q. auto. }
  specialize (IH (S n) O P' Q' (t + r) r Rp' Lq'). destruct (grad_loop _ _ _ _ _ _ _ _ _ _ _ _ _ _) as [[[[t' n'] P''] r']|e|f]; auto.
  destruct IH as (A & R & [(E1 & E2 & E3)|(L & Po & Qo & X)]).
  - split; [lia|split; [auto|]]. right. subst. split; [lia|]. exists P, Q. auto.
  - split; [lia|split; [auto|]]. right. split; [lia|]. exists Po, Qo. auto.
Qed.

Definition klast (P0 : list K) (s0 : K) (n0 n : nat) (P : list K) (r : K) : Prop :=
  (n = n0 /\ P = P0 /\ r = s0) \/
  (n0 < n /\ exists Po, ranged nl lo hi Po /\ kalman_step nl lo hi (weight C n) (noises C) (seen None (map pw Po)) Po r P).
Lemma kal_loop_spec turns : forall n P s, ranged nl lo hi P ->
  match kal_loop sq pw junk C W ms turns n nl P s with
  | Ok (n', P', r) => (n' <= n + turns)%nat /\ (turns <> 0%nat -> n < n') /\ ranged nl lo hi P' /\ klast P s n n' P' r
  | UB f => f = OutOfFuel \/ (f = OutOfBounds /\ groups C <= clg C)
  | Throw _ => False
  end.
Proof.
  induction turns as [|turns IH]; intros n P s Rp; cbn [kal_loop].
  { split; [lia|split; [lia|split; [auto|]]]. left. auto. }
  pose proof (kalman_call (S n) (map pw P) P (proj1 Rp)) as G. destruct (call_kalman _ _ _ _ _ _ _ _ _) as [[r P']|e|f]; cbn [bind kout] in *; auto.
  destruct G as (G & Rp'). destruct (fltb r (tolerance C)).
  { split; [lia|split; [lia|split; [auto|]]]. right. split; [lia|]. exists P. auto. }
  specialize (IH (S n) P' r Rp'). destruct (kal_loop _ _ _ _ _ _ _ _ _ _ _) as [[[n' P''] r']|e|f]; auto.
  destruct IH as (A & B & R & [(E1 & E2 & E3)|(L & Po & X)]).
  - split; [lia|split; [lia|split; [auto|]]]. right. subst. split; [lia|]. exists P. auto.
  - split; [lia|split; [lia|split; [auto|]]]. right. split; [lia|]. exists Po. auto.
Qed.

Lemma seed_spec : match seed lg W ms nl with
  | Ok P => ranged nl lo hi P /\ exists x, P = repeat x nl /\ (x = two \/ (fle (fnat 3) x = true /\ fle x (fnat 6) = true))
  | _ => False
  end.
Proof.
  unfold seed. pose proof dl_pos as Dp. unfold divc. destruct (feqb_spec (@fnat K (length ms)) f0) as [E|N].
  { exfalso. apply (@f1_neq_f0 K). apply fle_antisym. 2: apply f0_le_f1. rewrite <- fnat1, <- E. apply fnat_le. lia. }
  cbn [bind]. set (e := seed_sum W ms / fnat (length ms)). clearbody e.
  assert (H2 : @two K = fnat 2) by (unfold two; cbn [fnat]; ring).
  set (y := lg (fminv (fmax (fnat 1000) e) (fnat 1000 * fnat 1000))).
  assert (M : fle (fnat 1000) (@fnat K 1000 * fnat 1000) = true).
  { apply (proj2 (fle_sub _ _)). replace (fnat 1000 * fnat 1000 - @fnat K 1000) with (@fnat K 1000 * (fnat 1000 - f1)) by ring.
    apply fle_mul; [apply fnat_nn|]. apply (proj1 (fle_sub _ _)). rewrite <- fnat1. apply fnat_le. lia. }
  assert (Y : fle (fnat 3) y = true /\ fle y (fnat 6) = true).
  { unfold y. rewrite <- Lgl, <- Lgh. set (b := fnat 1000 * fnat 1000) in *. set (a := fnat 1000) in *. unfold fminv.
    assert (A : fle a (fmax a e) = true). { unfold fmax. destruct (fltb a e) eqn:F. apply fltb_spec in F as (F & _); auto. apply fle_refl. }
    destruct (fltb b (fmax a e)) eqn:F.
    - split; apply Lgm; auto. apply fle_refl.
    - split; apply Lgm; auto. destruct (fle_total K (fmax a e) b) as [L|L]; auto. destruct (f_eq_dec b (fmax a e)) as [<-|Q]; [apply fle_refl|].
      assert (fltb b (fmax a e) = true) by (apply fltb_spec; auto). congruence. }
  assert (X : exists x, (if negdefl ms then two else y) = x /\ (x = two \/ (fle (fnat 3) x = true /\ fle x (fnat 6) = true))).
  { destruct (negdefl ms); eauto. }
  destruct X as (x & -> & X). split; [|eauto]. apply ranged_repeat; unfold DriverModel.lo, DriverModel.hi.
  - destruct X as [->|(A & _)]. rewrite H2, <- fnat1. apply fnat_le. lia. eapply fle_trans; eauto. rewrite <- fnat1. apply fnat_le. lia.
  - destruct X as [->|(_ & A)]. rewrite H2. apply fnat_le. lia. eapply fle_trans; eauto. apply fnat_le. lia.
Qed.

(* the end of backcalc, from P with the step r *)
Lemma settle_spec O P r : ranged nl lo hi P ->
  match settle sq pw junk C W ms nl O P r with
  | Ok o => exists P' r', ranged nl lo hi P' /\ emods o = map pw P' /\ calcs o = Some (map (fun m => calc_at W (emods o) (mlg m) (mpt m)) ms) /\
      restored o = true /\ ret o = fle r' (tolerance C) /\ (grads o + kals o <= maxsteps C * nl)%nat /\
      ((0 < kals o /\ exists Po, ranged nl lo hi Po /\ kalman_step nl lo hi (weight C (kals o)) (noises C) (seen None (map pw Po)) Po r' P') \/
       (kals o = 0 /\ 0 < grads o /\ (fltb r' tenth = true -> exists Po Q, ranged nl lo hi Po /\ deflgrad_step_of nl lo hi (seen (Some Q) (map pw Po)) Po r' P') /\
        grads o = (maxsteps C * nl)%nat) \/
       (maxsteps C * nl = 0)%nat)
  | UB f => f = OutOfFuel \/ (f = OutOfBounds /\ groups C <= clg C)
  | Throw _ => False
  end.
Proof.
  intros Rp. unfold settle.
  assert (Lu : length (@unitm K nl) = (nl * nl)%nat) by (unfold unitm; now rewrite map_length, seq_length).
  pose proof (grad_loop_spec (maxsteps C * nl) 0 O P (unitm nl) f0 r Rp Lu) as G.
  destruct (grad_loop _ _ _ _ _ _ _ _ _ _ _ _ _ _) as [[[[turns g] P1] r1]|e|f]; cbn [bind]; auto.
  destruct G as (Ga & Rp1 & Gl1).
  assert (Dd : match (if fle tenth r1 then call_dsm sq pw C W ms P1 else Ok P1) with
    | Ok P2 => ranged nl lo hi P2 /\ (fltb r1 tenth = true -> P2 = P1) | UB f => f = OutOfFuel | Throw _ => False end).
  { destruct (fle tenth r1) eqn:F; [|auto]. pose proof (dsm_call P1 (proj1 Rp1)) as D. destruct (call_dsm _ _ _ _ _ _) as [P2|e|f]; auto.
    split; auto. intros L. apply fltb_spec in L as (L & N). exfalso. apply N. now apply fle_antisym. }
  destruct (if fle tenth r1 then call_dsm sq pw C W ms P1 else Ok P1) as [P2|e|f]; cbn [bind]; auto.
  destruct Dd as (Rp2 & D12). pose proof (kal_loop_spec turns 0 P2 r1 Rp2) as G2.
  destruct (kal_loop _ _ _ _ _ _ _ _ _ _ _) as [[[k P3] r3]|e|f]; cbn [bind]; auto.
  destruct G2 as (Ka & Kb & Rp3 & Kl). exists P3, r3. cbn [emods calcs restored ret grads kals].
  split; [auto|split; [reflexivity|split; [reflexivity|split; [reflexivity|split; [reflexivity|split; [lia|]]]]]].
  destruct Kl as [(-> & -> & ->)|(Hk & Po & X)]; [right|left; eauto].
  destruct Gl1 as [(-> & -> & ->)|(Hg & Po & Q & X)].
  - right. destruct turns; [lia|]. exfalso. specialize (Kb ltac:(lia)). lia.
  - left. split; [auto|split; [lia|split]]. intros L. rewrite (D12 L). exists Po, Q. auto. destruct turns; [lia|]. exfalso. specialize (Kb ltac:(lia)). lia.
Qed.
End Proofs.

Section Final.
Context {K : ofield}.
Add Field Kf52 : (f_th K).
Variables (sq lg pw : K -> K) (junk : nat -> list K) (C : conf (K := K)) (W : world (K := K)) (ms : list (meas (K := K))) (E : list K).
Notation nl := (length E).
Notation lo := (@lo K).
Notation hi := (@hi K).
Notation seen := (seen C W ms).
(* what a calculation gives and what is set *)
Definition sound_world : Prop :=
  (forall n, length (junk n) = n) /\
  (forall q E' m, In m ms -> length (grad_at W q E' (clg C) (mpt m)) = nl /\ length2 nl (fun i => nth i (grad_at W q E' (clg C) (mpt m)) f0) <> f0) /\
  (forall k E', kalman_spread (etol C) nl (weight C k) (noises C) (seen None E')) /\
  (forall k, fltb f0 (weight C k) = true) /\ fle f0 (precision C) = true.
Definition log10_like : Prop :=
  (forall x y, fle x y = true -> fle (lg x) (lg y) = true) /\ lg (fnat 1000) = fnat 3 /\ lg (fnat 1000 * fnat 1000) = fnat 6.
Definition unusable : Prop := E = [] \/ ms = [].

Theorem C81_backcalc_partial : is_sqrt sq -> sound_world -> log10_like ->
  match backcalc sq lg pw junk C W ms E with
  | Ok o =>
    (* nothing to do *)
    (unusable /\ ret o = false /\ emods o = E /\ restored o = true) \/
    (* the moduli given are good enough: they stay, but so do the points of the deflections *)
    (~ unusable /\ ret o = true /\ emods o = E /\ restored o = false /\ (forall e, In e E -> fltb f0 e = true) /\
     calcs o = Some (map (fun m => calc_at W (emods o) (mlg m) (mpt m)) ms) /\
     exists w, best_step nl (weight C 0) (noises C) (seen None E) w /\ fltb (length2 nl w) (tolerance C * tolerance C) = true) \/
    (* the end is reached *)
    (~ unusable /\ restored o = true /\ (grads o + kals o <= maxsteps C * nl)%nat /\
     calcs o = Some (map (fun m => calc_at W (emods o) (mlg m) (mpt m)) ms) /\
     exists P r, ranged nl lo hi P /\ emods o = map pw P /\ (ret o = true <-> fle r (tolerance C) = true) /\
      ((0 < kals o /\ exists Po, ranged nl lo hi Po /\ kalman_step nl lo hi (weight C (kals o)) (noises C) (seen None (map pw Po)) Po r P) \/
       (kals o = 0 /\ grads o = (maxsteps C * nl)%nat /\ 0 < grads o /\
        (fltb r tenth = true -> exists Po Q, ranged nl lo hi Po /\ deflgrad_step_of nl lo hi (seen (Some Q) (map pw Po)) Po r P)) \/
       (maxsteps C * nl = 0)%nat))
  | Throw e => e = RuntimeError /\ exists m, In m ms /\ groups C <= mlg m
  | UB f => f = OutOfFuel \/ (f = OutOfBounds /\ groups C <= clg C)
  end.
Proof.
  intros Sq (Jk & Gr & Ks & Kw & Pr) (Lm & Ll & Lh). unfold backcalc.
  destruct (nl =? 0) eqn:Z1. { apply Nat.eqb_eq in Z1. left. cbn. repeat (split; auto). left. now destruct E. }
  destruct (length ms =? 0) eqn:Z2. { apply Nat.eqb_eq in Z2. left. cbn. repeat (split; auto). right. now destruct ms. }
  apply Nat.eqb_neq in Z1, Z2.
  destruct (forallb (fun m => mlg m <? groups C) ms) eqn:Fg; cbn [negb].
  2:{ split; auto. assert (H : existsb (fun m => negb (mlg m <? groups C)) ms = true).
      { destruct (existsb (fun m => negb (mlg m <? groups C)) ms) eqn:X; auto. exfalso. rewrite <- not_true_iff_false in Fg. apply Fg. apply forallb_forall.
        intros m I. destruct (mlg m <? groups C) eqn:Y; auto. rewrite <- not_true_iff_false in X. exfalso. apply X. apply existsb_exists. exists m. now rewrite Y. }
      apply existsb_exists in H as (m & I & H). exists m. split; auto. apply negb_true_iff, Nat.ltb_ge in H. auto. }
  assert (Np : 0 < nl) by lia. assert (Nm : ms <> []) by (intros H; rewrite H in Z2; cbn in Z2; lia).
  assert (Nu : ~ unusable). { intros [H|H]; [rewrite H in Z1; cbn in Z1; lia|auto]. }
  assert (Gl : forall q E' m, In m ms -> length (grad_at W q E' (clg C) (mpt m)) = nl) by (intros; now apply Gr).
  assert (Gz : forall q E' m, In m ms -> length2 nl (fun i => nth i (grad_at W q E' (clg C) (mpt m)) f0) <> f0) by (intros; now apply Gr).
  pose proof (seed_spec lg C W ms nl Np Nm Gl Gz Lm Ll Lh) as Sd.
  pose proof (settle_spec sq pw junk C W ms nl Sq Jk Np Nm Gl Gz Ks Kw Pr) as St.
  assert (Go : forall O P r, ranged nl lo hi P -> match settle sq pw junk C W ms nl O P r with
    | Ok o => ~ unusable /\ restored o = true /\ (grads o + kals o <= maxsteps C * nl)%nat /\
     calcs o = Some (map (fun m => calc_at W (emods o) (mlg m) (mpt m)) ms) /\
     exists P r, ranged nl lo hi P /\ emods o = map pw P /\ (ret o = true <-> fle r (tolerance C) = true) /\
      ((0 < kals o /\ exists Po, ranged nl lo hi Po /\ kalman_step nl lo hi (weight C (kals o)) (noises C) (seen None (map pw Po)) Po r P) \/
       (kals o = 0 /\ grads o = (maxsteps C * nl)%nat /\ 0 < grads o /\
        (fltb r tenth = true -> exists Po Q, ranged nl lo hi Po /\ deflgrad_step_of nl lo hi (seen (Some Q) (map pw Po)) Po r P)) \/
       (maxsteps C * nl = 0)%nat)
    | Throw e => False | UB f => f = OutOfFuel \/ (f = OutOfBounds /\ groups C <= clg C) end).
  { intros O P r Rp. specialize (St O P r Rp). destruct (settle _ _ _ _ _ _ _ _ _ _) as [o|e|f]; auto.
    destruct St as (P' & r' & A1 & A2 & A3 & A4 & A5 & A6 & A7). split; [auto|split; [auto|split; [auto|split; [auto|]]]].
    exists P', r'. split; [auto|split; [auto|split; [rewrite A5; tauto|tauto]]]. }
  destruct (seeded E) eqn:Se.
  - assert (Ep : forall e, In e E -> fltb f0 e = true).
    { intros e I. unfold seeded in Se. rewrite forallb_forall in Se. specialize (Se e I). apply negb_true_iff in Se.
      apply fltb_spec. destruct (fle_total K f0 e) as [L|L]; [|congruence]. split; auto. intros X. subst e. rewrite fle_refl in Se. discriminate. }
    pose proof (kalman_call sq junk C W ms nl Sq Jk Np Nm Gl Gz Ks Kw 0 E (map lg E) ltac:(now rewrite map_length)) as Kc.
    destruct (call_kalman _ _ _ _ _ _ _ _ _) as [[r P]|e|f]; cbn [bind kout] in *; auto; [|destruct Kc].
    destruct Kc as ((w & B & R2 & R0 & _) & Rp). destruct (fltb r (tolerance C)) eqn:T.
    + right. left. cbn [ret emods restored calcs]. repeat (split; [auto|]). exists w. split; auto. rewrite <- R2. apply fltb_spec in T as (T & N).
      assert (D : fle (r * r) (tolerance C * tolerance C) = true).
      { apply (proj2 (fle_sub _ _)). replace (tolerance C * tolerance C - r * r) with ((tolerance C - r) * (tolerance C + r)) by ring.
        apply fle_mul. now apply (proj1 (fle_sub _ _)). apply fadd_nonneg; auto. eapply fle_trans; eauto. }
      apply fltb_spec. split; auto. intros X. apply N.
      assert (Y : (tolerance C - r) * (tolerance C + r) = f0) by (transitivity (tolerance C * tolerance C - r * r); [ring|rewrite X; ring]).
      apply fmul_0 in Y as [Y|Y]. { transitivity (tolerance C - (tolerance C - r)); [ring|rewrite Y; ring]. }
      assert (H0 : tolerance C = f0). { apply fle_antisym. 2: eapply fle_trans; eauto. apply (proj2 (fle_sub _ _)). replace (f0 - tolerance C) with (r - (tolerance C + r)) by ring. rewrite Y. replace (r - f0) with r by ring. auto. }
      rewrite H0 in *. apply fle_antisym; auto.
    + destruct (fltb half r).
      * destruct (seed _ _ _ _) as [P'|e|f]; cbn [bind]; [|destruct Sd|destruct Sd]. destruct Sd as (Rs & _).
        specialize (Go P' P' r Rs). destruct (settle _ _ _ _ _ _ _ _ _ _) as [o|e|f]; auto. destruct Go.
      * specialize (Go (map lg E) P r Rp). destruct (settle _ _ _ _ _ _ _ _ _ _) as [o|e|f]; auto. destruct Go.
  - destruct (seed _ _ _ _) as [P'|e|f]; cbn [bind]; [|destruct Sd|destruct Sd]. destruct Sd as (Rs & _).
    specialize (Go P' P' f1 Rs). destruct (settle _ _ _ _ _ _ _ _ _ _) as [o|e|f]; auto. destruct Go.
Qed.

(* Moduli which fit exactly: the first loop leaves them, then kalman divides zero by zero, sets
   every log modulus to 1 and returns a step of zero, so that backcalc returns true. *)
Lemma fit_least (D : defls (K := K)) n : complete n D -> calculated D = measured D -> (forall j, j < length (measured D) -> length2 n (gradient D j) <> f0) ->
  least n D (fun _ => f0).
Proof.
  intros _ F Nz u. assert (Z : distance2 n D (fun _ => f0) = f0).
  { unfold distance2. apply sumr_zero. intros j J.
    assert (R : remaining n D (fun _ => f0) j = f0).
    { unfold remaining. rewrite F. rewrite sumr_zero. ring. intros; ring. }
    rewrite R. specialize (Nz j ltac:(lia)). field. auto. }
  rewrite Z. unfold distance2. apply sumr_nonneg. intros j J. specialize (Nz j ltac:(lia)).
  assert (L : fltb f0 (length2 n (gradient D j)) = true).
  { apply fltb_spec. split; auto. apply sumr_nonneg. intros; apply fsqr_nonneg. }
  apply (pos_le (length2 n (gradient D j))); auto.
  replace (length2 n (gradient D j) * (remaining n D u j * remaining n D u j / length2 n (gradient D j))) with (remaining n D u j * remaining n D u j) by (field; auto).
  apply fsqr_nonneg.
Qed.
Lemma seen_fit q E' : map (fun m => calc_at W E' (mlg m) (mpt m)) ms = map mval ms -> calculated (seen q E') = measured (seen q E').
Proof. auto. Qed.

Theorem C81_exact_fit_refuted P : is_sqrt sq -> sound_world -> log10_like ->
  ms <> [] -> (forall m, In m ms -> mlg m < groups C) -> clg C < groups C ->
  (exists e, In e E /\ fle e f0 = true) -> precision C = f0 -> fltb f0 (tolerance C) = true -> 2 <= maxsteps C ->
  seed lg W ms nl = Ok P -> map (fun m => calc_at W (map pw P) (mlg m) (mpt m)) ms = map mval ms ->
  match backcalc sq lg pw junk C W ms E with
  | Ok o => ret o = true /\ emods o = repeat (pw f1) nl
  | Throw _ => False
  | UB f => f = OutOfFuel
  end.
Proof.
  intros Sq (Jk & Gr & Ks & Kw & Pr) (Lm & Ll & Lh) Nm Mg Cg (e0 & Ie & Le) Pz Tp Mx Sd Fit. unfold backcalc.
  assert (Np : 0 < nl) by (destruct E; [destruct Ie|cbn; lia]).
  destruct (nl =? 0) eqn:Z1; [apply Nat.eqb_eq in Z1; lia|].
  assert (Dp : 0 < length ms) by (destruct ms; [congruence|cbn; lia]).
  destruct (length ms =? 0) eqn:Z2; [apply Nat.eqb_eq in Z2; lia|].
  assert (Fg : forallb (fun m => mlg m <? groups C) ms = true) by (apply forallb_forall; intros m I; apply Nat.ltb_lt; auto).
  rewrite Fg. cbn [negb].
  assert (Se : seeded E = false).
  { destruct (seeded E) eqn:X; auto. unfold seeded in X. rewrite forallb_forall in X. specialize (X e0 Ie). rewrite Le in X. discriminate. }
  rewrite Se, Sd. cbn [bind].
  assert (Gl : forall q E' m, In m ms -> length (grad_at W q E' (clg C) (mpt m)) = nl) by (intros; now apply Gr).
  assert (Gz : forall q E' m, In m ms -> length2 nl (fun i => nth i (grad_at W q E' (clg C) (mpt m)) f0) <> f0) by (intros; now apply Gr).
  pose proof (seed_spec lg C W ms nl Np Nm Gl Gz Lm Ll Lh) as Ss. rewrite Sd in Ss. destruct Ss as (Rp & _).
  unfold settle.
  assert (Lu : length (@unitm K nl) = (nl * nl)%nat) by (unfold unitm; now rewrite map_length, seq_length).
  assert (Mt : exists t, (maxsteps C * nl = S (S t))%nat). { exists (maxsteps C * nl - 2)%nat. nia. }
  destruct Mt as (t & ->). cbn [grad_loop].
  pose proof (grad_call sq pw junk C W ms nl Sq Jk Np Nm Gl Gz Pr P (unitm nl) (proj1 Rp) Lu) as Gc.
  destruct (call_deflgrad _ _ _ _ _ _ _ _ _) as [[[r P'] Q']|e|f]; cbn [gout bind] in *; [|destruct Gc|destruct Gc; lia].
  destruct Gc as ((w & R2 & R0 & _ & (Lp' & Hm) & Hs) & _).
  assert (L0 : least nl (seen (Some (unitm nl)) (map pw P)) (fun _ => f0)).
  { apply fit_least. apply (seen_complete C W ms nl Gl). now apply seen_fit. intros; eapply seen_nz; eauto. }
  assert (L20 : length2 nl (fun _ => @f0 K) = f0).
  { unfold length2. apply sumr_zero. intros; ring. }
  assert (W0 : length2 nl w = f0).
  { apply fle_antisym. 2: apply sumr_nonneg; intros; apply fsqr_nonneg.
    destruct (Hs Pz) as [H|H]; specialize (H _ L0); rewrite L20 in H; auto.
    apply fltb_spec in H as (H & N). exfalso. apply N. apply fle_antisym; auto. apply f0_le_f1. }
  assert (R : r = f0). { rewrite W0 in R2. now apply fsqr_0. }
  assert (Pe : P' = P).
  { destruct Rp as (Lp & Rp). apply nth_ext with (d := f0) (d' := f0); [congruence|]. intros i I. destruct (Hm i ltac:(lia)) as (_ & _ & X).
    assert (Wi : w i = f0) by (apply (sumr_sq_0 0 nl w); auto; lia).
    rewrite Wi in X. replace (nth i P f0 + f0) with (nth i P f0) in X by ring. destruct (Rp (nth i P f0)) as (A & B). { apply nth_In. lia. }
    destruct X as [X|[(X & Y)|(X & Y)]]; auto; apply fltb_spec in X as (X & N); exfalso; apply N; apply fle_antisym; auto. }
  subst r P'.
  assert (T1 : fltb (@f1 K) tenth = false). 
  { destruct (fltb f1 tenth) eqn:X; auto. exfalso. apply fltb_spec in X as (X & N). unfold tenth in *.
    assert (T10 : fltb f0 (@fnat K 10) = true).
    { apply fltb_spec. split; [apply fnat_nn|]. intros H. apply (@f1_neq_f0 K). apply fle_antisym. 2: apply f0_le_f1. rewrite <- fnat1, H. apply fnat_le. lia. }
    pose proof (fpos_nz _ T10) as N10. assert (Y : fle (@fnat K 10) f1 = true).
    { apply (proj2 (fle_sub _ _)). replace (@f1 K - fnat 10) with (@fnat K 10 * (f1 / fnat 10 - f1)) by (field; auto). apply fle_mul. apply fnat_nn. now apply (proj1 (fle_sub _ _)). }
    assert (Z : fle (@fnat K 2) f1 = true) by (eapply fle_trans; [apply fnat_le with (b := 10); lia|auto]).
    apply (@f1_neq_f0 K). apply fle_antisym. 2: apply f0_le_f1. apply (proj2 (fle_sub _ _)). replace (@f0 K - f1) with (f1 - @fnat K 2) by (cbn [fnat]; ring).
    now apply (proj1 (fle_sub _ _)). }
  rewrite T1. cbn [andb].
  assert (Hn : forall k, 0 < k -> fltb f0 (@fnat K k) = true).
  { intros k Hk. apply fltb_spec. split; [apply fnat_nn|]. intros H. apply (@f1_neq_f0 K). apply fle_antisym. 2: apply f0_le_f1. rewrite <- fnat1, H. apply fnat_le. lia. }
  assert (T2 : fltb f0 (hundred * tolerance C) = true).
  { apply fltb_spec. pose proof (Hn 100 ltac:(lia)) as H1. split. apply fle_mul. apply fnat_nn. apply fltb_spec in Tp. tauto.
    intros H. symmetry in H. apply fmul_0 in H as [H|H]. now apply (fpos_nz _ H1). now apply (fpos_nz _ Tp). }
  rewrite T2. cbn [orb bind].
  assert (T3 : fle (@tenth K) f0 = false).
  { destruct (fle tenth f0) eqn:X; auto. exfalso. pose proof (Hn 10 ltac:(lia)) as H1. pose proof (fpos_nz _ H1) as N10. apply (@f1_neq_f0 K).
    apply fle_antisym. 2: apply f0_le_f1. apply (proj2 (fle_sub _ _)). replace (@f0 K - f1) with (@fnat K 10 * (f0 - tenth)) by (unfold tenth; field; auto).
    apply fle_mul. apply fnat_nn. now apply (proj1 (fle_sub _ _)). }
  rewrite T3. cbn [bind kal_loop].
  unfold call_kalman. rewrite look_eq. assert (Cl : (clg C <? groups C) = true) by (now apply Nat.ltb_lt). rewrite Cl. cbn [bind].
  pose proof (C78_kalman_fit sq (fuel C) (etol C) nl (weight C 1) (noises C) lo hi (seen None (map pw P)) P
    (junk (length ms * nl)) (junk (length ms * length ms)) (junk (nl * length ms)) (junk (length ms)) (junk nl) (junk (length ms)) (junk (length ms))) as T.
  cbv zeta in T. rewrite seen_len in T.
  assert (M : measured (seen None (map pw P)) <> []). { intros H. pose proof (seen_len C W ms None (map pw P)) as L. rewrite H in L. cbn in L. lia. }
  specialize (T Sq M (seen_complete C W ms nl Gl None (map pw P)) (Kw 1) (noises_nn C) lo_hi (Ks 1 (map pw P)) (proj1 Rp) (Jk _) (Jk _) (Jk _) (Jk _) (Jk _) (Jk _) (Jk _) (seen_fit None _ Fit)).
  destruct (kalman _ _ _ _ _ _ _ _ _ _ _ _ _ _ _ _ _) as [[r P']|e|f]; cbn [bind]; auto.
  destruct T as (-> & ->). rewrite Tp. cbn [bind ret emods]. split. { apply fltb_spec in Tp. tauto. }
  unfold DriverModel.lo. generalize nl. intros n. induction n as [|n IH]; cbn [map repeat]; [reflexivity|]. now rewrite IH.
Qed.
End Final.

(* Examples over the rationals: log10 and 10^x exact at the powers of ten and linear between *)
Fixpoint lg10 (n : nat) (x : QcF) : QcF :=
  match n with O => f0 | S n => if fltb x (qz 10) then (x - f1) / qz 9 else f1 + lg10 n (x / qz 10) end.
Fixpoint pw10 (n : nat) (x : QcF) : QcF :=
  match n with O => f1 | S n => if fltb x f1 then f1 + x * qz 9 else qz 10 * pw10 n (x - f1) end.
Definition dr_lg : QcF -> QcF := lg10 12.
Definition dr_pw : QcF -> QcF := pw10 12.
Definition dr_junk (n : nat) : list QcF := repeat (qz 7) n.
Definition dr_conf (grp : nat) : conf (K := QcF) := Conf (qz 0) (qz 0) (qz 1 / qz 1000) 5 2 grp 60 (qz 1 / qz (10 ^ 17)) (fun k => f1 / qz (2 ^ Z.of_nat k)).
(* one layer; the deflection falls with the modulus, twice as much in group 1 *)
Definition dr_load (g : nat) : QcF := match g with O => qz 10 | _ => qz 20 end.
Definition dr_world : world (K := QcF) := World
  (fun E g _ => dr_load g * (qz 10 - dr_lg (nth 0 E f0)) * (qz 10 - dr_lg (nth 0 E f0)))
  (fun _ E g _ => [- (dr_load g * (qz 10 - dr_lg (nth 0 E f0)) * qz 2)])
  (fun g _ => qz 10000).
Definition dr_run (grp : nat) (E : QcF) (m : list (meas (K := QcF))) := backcalc qsqrt dr_lg dr_pw dr_junk (dr_conf grp) dr_world m [E].
Definition dr_show (o : outcome (outp (K := QcF))) : option (bool * list Q * option (list Q) * bool * nat * nat) :=
  match o with Ok o => Some (ret o, map this (emods o), option_map (map this) (calcs o), restored o, grads o, kals o) | _ => None end.
(* the modulus is found; one which fits exactly is not kept; a deflection of group 1 is fitted when
   that is the default group but not when group 0 is, whose gradients are half of those needed *)
Definition dr_near (a : Q) (o : outcome (outp (K := QcF))) : option (bool * bool) :=
  match o with Ok o => Some (ret o, forallb (fun e => Qle_bool (a - 1) (this e) && Qle_bool (this e) (a + 1))%bool (emods o)) | _ => None end.
Example C81_demo : dr_near 936 (dr_run 0 (qz 0) [Meas 0 0 (qz 500)]) = Some (true, true).
Proof. vm_compute. reflexivity. Qed.
Example C81_exact_fit_demo : dr_show (dr_run 0 (qz 0) [Meas 0 0 (qz 490)]) = Some (true, [10%Q], Some [810%Q], true, 1, 1) /\
  map this (deflections dr_world [Meas 0 0 (qz 490)] [qz 1000]) = [490%Q].
Proof. split; vm_compute; reflexivity. Qed.
Theorem C81_groups_refuted :
  dr_near 936 (dr_run 1 (qz 1000) [Meas 1 0 (qz 1000)]) = Some (true, true) /\
  dr_near 936 (dr_run 0 (qz 1000) [Meas 1 0 (qz 1000)]) = Some (false, false).
Proof. split; vm_compute; reflexivity. Qed.
(* a default group without loads *)
Theorem C81_default_group_refuted : dr_run 2 (qz 1000) [Meas 1 0 (qz 1000)] = UB OutOfBounds.
Proof. reflexivity. Qed.

(* the hypotheses hold over the reals, with sqrt, log10 and exp *)
Definition dr_confr : conf (K := RF) := Conf (K := RF) 0%R 1%R (/ 1000)%R 5 1 0 60 (/ 1000)%R (fun k => exp (- (INR k)))%R.
Definition dr_worldr : world (K := RF) := World (K := RF) (fun E _ _ => 10 - ln (nth 0 E 0))%R (fun _ _ _ _ => [-1]%R) (fun _ _ => 1000%R).
Lemma fnat_INR n : @fnat RF n = INR n.
Proof. induction n as [|n IH]; [reflexivity|]. cbn [fnat]. rewrite IH, S_INR. reflexivity. Qed.
Example C81_hypotheses : is_sqrt (K := RF) sqrt /\
  sound_world (K := RF) (fun n => repeat 0%R n) dr_confr dr_worldr [Meas (K := RF) 0 0 5%R] [0%R] /\
  log10_like (K := RF) (fun x => if Rle_dec x 0 then 0 else if Rle_dec x 1 then 0 else ln x / ln 10)%R.
Proof.
  split; [apply C78_hypotheses|split].
  - split; [|split; [|split; [|split]]].
    + apply repeat_length.
    + intros q E' m _. split; [reflexivity|]. intros H. unfold length2, sumr in H. cbn in H. lra.
    + intros k E'. assert (Ns : noises dr_confr = 1%R) by (unfold noises; cbn; field).
      apply C78_noise_suffices; apply kal_le; cbn -[exp INR noises]; try lra.
      * left. apply exp_pos.
      * assert (X : (exp (- INR k) <= 1)%R). { rewrite <- exp_0. destruct (pos_INR k) as [H|H]. left. apply exp_increasing. lra. rewrite <- H, Ropp_0. lra. }
        rewrite Ns. pose proof (exp_pos (- INR k)). lra.
    + intros k. cbn -[exp INR]. destruct (Rfltb_spec 0 (exp (- INR k))) as [|H]; [reflexivity|]. destruct H. apply exp_pos.
    + apply kal_le. cbn. lra.
  - assert (L10 : (0 < ln 10)%R) by (rewrite <- ln_1; apply ln_increasing; lra).
    assert (T : forall n, (ln (10 ^ n) = INR n * ln 10)%R). { intros n. rewrite ln_pow; lra. }
    split; [|split].
    + intros x y H. destruct (Rfle_spec x y) as [L|]; [|discriminate]. apply kal_le.
      destruct (Rle_dec x 0), (Rle_dec y 0), (Rle_dec x 1), (Rle_dec y 1); try lra.
      * apply Rle_mult_inv_pos; auto. rewrite <- ln_1. left. apply ln_increasing; lra.
      * apply Rle_mult_inv_pos; auto. rewrite <- ln_1. left. apply ln_increasing; lra.
      * unfold Rdiv. apply Rmult_le_compat_r. left. now apply Rinv_0_lt_compat. destruct L as [L|<-]; [|lra]. left. apply ln_increasing; lra.
    + rewrite !fnat_INR. rewrite !INR_IZR_INZ. cbn [Z.of_nat Pos.of_succ_nat Pos.succ]. change (Z.of_nat 1000) with 1000%Z. change (Z.of_nat 3) with 3%Z.
      destruct (Rle_dec 1000 0); [lra|]. destruct (Rle_dec 1000 1); [lra|]. replace 1000%R with (10 ^ 3)%R by lra. rewrite T. cbn. field. lra.
    + change (fmul (o := RF)) with Rmult. rewrite !fnat_INR. rewrite !INR_IZR_INZ. change (Z.of_nat 1000) with 1000%Z. change (Z.of_nat 6) with 6%Z.
      destruct (Rle_dec (1000 * 1000) 0); [lra|]. destruct (Rle_dec (1000 * 1000) 1); [lra|]. replace (1000 * 1000)%R with (10 ^ 6)%R by lra. rewrite T. cbn. field. lra.
Qed.

Print Assumptions C81_backcalc_partial.
Print Assumptions C81_exact_fit_refuted.
Print Assumptions C81_groups_refuted.
Print Assumptions C81_default_group_refuted.
