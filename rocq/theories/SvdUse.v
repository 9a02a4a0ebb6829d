(* decmp_svd as a whole and what is done with it: bksub_svd, equ_svd, inv_svd. *)
From Coq Require Import List Lia Bool Arith Field.
From Verif Require Import Base LinBase LdlProofs QrProofs EigProofs SvdModel SvdMath SvdHouse SvdBidiag SvdQr.
Import ListNotations.
Local Open Scope nat_scope.

Section Use.
Context {K : ofield}.
Local Open Scope lin_scope.
Add Field Kf37 : (f_th K).
Notation matrix := (nat -> nat -> K).
Notation vect := (nat -> K).

(* A = U diag(W) V' *)
Definition usv (m n : nat) (A U : matrix) (W : vect) (V : matrix) : Prop :=
  (forall r c, r < m -> c < n -> A r c = sumr 0 n (fun k => U r k * W k * V c k)) /\ ocols m n U /\ ocols n n V /\
  (forall k, k < n -> fle f0 (W k) = true).
Lemma rinv_usv m n (A0 : matrix) w rv a v W R : rinv m n A0 0 w rv a v W R ->
  exists U V, mat m n a U /\ vec n w W /\ mat n n v V /\ usv m n A0 U W V.
Proof.
  intros (U & V & MU & VW & VR & MV & (HA & Ou & Ov) & _ & Rt). exists U, V. do 3 (split; [auto|]).
  split; [|split; [auto|split; [auto|intros k Lk; apply Rt; lia]]].
  intros r c Rr Cc. rewrite HA by auto. unfold P3. apply sumr_ext. intros l Ll.
  rewrite (sumr_one 0 n _ l); [|lia|].
  - unfold bid. now rewrite Nat.eqb_refl.
  - intros k Lk Nk. unfold bid. bcases; try ring. rewrite (proj1 (Rt k ltac:(lia))). ring.
Qed.

(* 30 rounds are not enough for one of the singular values *)
Definition gives_up (sq : K -> K) (m n : nat) (rv A W V : list K) : Prop :=
  exists A1 W1 rv1 V1 an j W2 rv2 A2 V2,
    (let* (A, W, rv, _, _, an) := for_up 0 n (house sq m n) (A, W, rv, f0, f0, f0) in
     let* V := for_down n 0 (fun i V => acc_right n A rv i V) V in
     let* A := for_down (Nat.min m n) 0 (fun i A => acc_left m n W i A) A in
     Ok (A, W, rv, V, an)) = Ok (A1, W1, rv1, V1, an) /\
    j < n /\ values sq m n an j (W1, rv1, A1, V1, true) = Ok (W2, rv2, A2, V2, false).
Lemma decmp_wp sq m n rv a w v (A0 : matrix) : sqrt_pos sq -> 0 < n -> n <= m -> mat m n a A0 -> injective m n A0 ->
  length w = n -> length rv = S n -> length v = (n * n)%nat ->
  (exists a' w' v' U W V, decmp_svd sq m n rv a w v = Ok (a', w', v', true) /\ mat m n a' U /\ vec n w' W /\ mat n n v' V /\
     usv m n A0 U W V) \/ gives_up sq m n rv a w v.
Proof.
  intros Sp Pn Lm M Inj Lw Lr Lv.
  pose proof (bidiag_wp sq m n a w rv v A0 (fun _ => False) Sp Lm M Inj Lw Lr Lv) as B.
  unfold decmp_svd, gives_up.
  replace ((m =? 0) || (n =? 0)) with false. 2:{ symmetry. apply orb_false_iff. split; apply Nat.eqb_neq; lia. }
  destruct (for_up 0 n (house sq m n) (a, w, rv, f0, f0, f0)) as [[[[[[a1 w1] rv1] sc1] G1] an]| |]; cbn [wp bind] in *; try contradiction.
  destruct (for_down n 0 (fun i V => acc_right n a1 rv1 i V) v) as [v1| |]; cbn [wp bind] in *; try contradiction.
  destruct (for_down (Nat.min m n) 0 (fun i A => acc_left m n w1 i A) a1) as [a2| |]; cbn [wp bind] in *; try contradiction.
  destruct B as (U & W & e & V & R & MU & VW & VR & MV & Bd & e0 & Re).
  rewrite values_0.
  destruct (values_wp sq m n A0 an w1 rv1 a2 v1 W R 0 Sp Inj ltac:(lia)) as [(w3 & rv3 & a3 & v3 & W3 & R3 & E & H)|(j & w3 & rv3 & a3 & v3 & Lj & E)].
  - exists U, V. do 4 (split; [auto|]). split; [|split; [rewrite Re by lia; auto|intros; lia]].
    destruct Bd as (HA & Ou & Ov). split; [|auto]. intros r c Rr Cc. rewrite HA by auto. apply P3_ext; auto.
    intros l k Ll Lk. unfold bid. bcases; auto. symmetry. auto.
  - left. rewrite E. cbn [bind]. destruct (rinv_usv _ _ _ _ _ _ _ _ _ H) as (U3 & V3 & X1 & X2 & X3 & X4).
    exists a3, w3, v3, U3, W3, V3. auto.
  - right. exists a2, w1, rv1, v1, an, j, w3, rv3, a3, v3. split; auto. split; [lia|auto].
Qed.

(* ---------- two columns need two rounds ---------- *)
Lemma wp_and {A} (x : outcome A) (P Q : A -> Prop) E : wp x P E -> wp x Q E -> wp x (fun a => P a /\ Q a) E.
Proof. destruct x; cbn; auto. Qed.
Lemma for_one {S : Type} lo body (s : S) : for_up lo (lo + 1) body s = body lo s.
Proof.
  unfold for_up. replace (lo + 1 - lo)%nat with 1%nat by lia. cbn [loopn]. destruct (body lo s); auto.
Qed.
Lemma sweep_two sq m n (A0 : matrix) q w rv a v W R Ex : sqrt_pos sq -> q + 1 < n -> injective m n A0 ->
  rinv m n A0 (S (q + 1)) w rv a v W R -> R q = f0 -> R (q + 1)%nat <> f0 ->
  wp (sweep sq m n q (q + 1) w rv a v) (fun st => let '(w', rv', a', v') := st in
    nth_error rv' (q + 1) = Some f0) Ex.
Proof.
  intros Sp Li Inj (U & V & MU & VW & VR & MV & Bd & R0 & Rt) Rq Rn. unfold sweep.
  pose proof (bid_nz _ _ _ _ _ _ _ Bd Inj) as Wn. rewrite Nat.add_sub.
  pose proof (Wn q ltac:(lia)) as Nx.
  apply wp_bind. eapply (wp_vget _ _ VW); [lia|]. apply wp_bind. eapply (wp_vget _ _ VW); [lia|].
  apply wp_bind. eapply (wp_vget _ _ VR); [lia|]. apply wp_bind. eapply (wp_vget _ _ VR); [lia|].
  rewrite Rq. set (x := W q) in *. set (z := W (q + 1)%nat). set (h := R (q + 1)%nat) in *.
  assert (N2 : @f1 K + f1 <> f0) by apply two_nz.
  apply wp_bind. apply wp_divc.
  { apply fmul_nz; [apply fmul_nz|]; auto. }
  match goal with |- context [hyp sq ?x f1] => set (f := x) end. cbv zeta.
  apply wp_bind. eapply (wp_vget _ _ VW); [lia|]. fold x.
  destruct (hyp_spec sq f f1 Sp (or_intror f1_neq_f0)) as [Eh Nh].
  set (y := hyp sq f f1) in *. set (sg := if fltb f f0 then - f1 else f1).
  assert (Esg : sg * sg = f1) by (unfold sg; destruct (fltb f f0); ring).
  assert (Nd : f + sg * y <> f0).
  { intros E. apply (@f1_neq_f0 K). 
    transitivity (y * y - f * f); [rewrite Eh; ring|].
    transitivity (sg * sg * (y * y) - f * f); [rewrite Esg; ring|].
    transitivity ((f + sg * y) * (sg * y - f)); [ring|rewrite E; ring]. }
  apply wp_bind. apply wp_divc; auto. apply wp_bind. apply wp_divc; auto.
  set (t := f1 / (f + sg * y)).
  assert (Et : t * t + (f + f) * t = f1).
  { assert (Q : (f + sg * y) * (f + sg * y) = f * f + f * f + (f + f) * (sg * y) + f1).
    { transitivity (f * f + (f + f) * (sg * y) + sg * sg * (y * y)); [ring|]. rewrite Esg, Eh. ring. }
    transitivity ((f1 + (f + f) * (f + sg * y)) / ((f + sg * y) * (f + sg * y))).
    - unfold t. field. auto.
    - rewrite Q. replace (f1 + (f + f) * (f + sg * y)) with (f * f + f * f + (f + f) * (sg * y) + f1) by ring.
      rewrite <- Q. field. auto. }
  set (F := ((x - z) * (x + z) + h * (x / (f + sg * y) - h)) / x).
  assert (Ef : (f + f) * h * x = x * x - z * z - h * h).
  { unfold f. field. auto. }
  assert (EF : F = (f + f) * h + h * t).
  { transitivity (((x * x - z * z - h * h) + h * x * t) / x).
    - unfold F, t. field. auto.
    - rewrite <- Ef. field. auto. }
  rewrite for_one. unfold qr_step. apply wp_bind. apply wp_bind. eapply (wp_vget _ _ VR); [lia|]. fold h. cbv zeta.
  assert (NH : f1 * h <> f0). { replace (f1 * h) with h by ring. auto. }
  destruct (hyp_spec sq F (f1 * h) Sp (or_intror NH)) as [Ez Nz]. set (zz := hyp sq F (f1 * h)) in *.
  apply wp_bind. eapply (wp_vset _ _ VR); [lia|]. intros rv1 VR1.
  apply wp_bind. apply wp_divc; auto. apply wp_bind. apply wp_divc; auto.
  set (C1 := F / zz). set (S1 := f1 * h / zz).
  apply wp_bind. eapply (wp_vget _ _ VW); [lia|]. fold z.
  set (F1 := f1 * h * S1 + x * C1). set (G1 := f1 * h * C1 - x * S1).
  set (H1 := z * S1).
  assert (NS1 : S1 <> f0). { unfold S1. intros E. apply NH. replace (f1 * h) with (f1 * h / zz * zz) by (field; auto). rewrite E. ring. }
  assert (NH1 : H1 <> f0). { apply fmul_nz; auto. apply Wn. lia. }
  eapply wp_seq. { eapply (rotate_wp n n q (q + 1)); eauto; lia. } intros v1 MV1.
  destruct (hyp_spec sq F1 H1 Sp (or_intror NH1)) as [Ez1 Nz1]. set (z1 := hyp sq F1 H1) in *.
  apply wp_bind. eapply (wp_vset _ _ VW); [lia|]. intros w1 VW1.
  destruct (feqb_spec z1 f0) as [|_]; [contradiction|].
  apply wp_bind. apply wp_bind. apply wp_divc; auto. apply wp_bind. apply wp_divc; auto. cbn [wp].
  eapply wp_seq. { eapply (rotate_wp m n q (q + 1)); eauto; lia. } intros a1 MA1. cbn [wp].
  apply wp_bind. eapply (wp_vset _ _ VR1); [lia|]. intros rv2 VR2.
  apply wp_bind. eapply (wp_vset _ _ VR2); [lia|]. intros rv3 VR3.
  apply wp_bind. eapply (wp_vset _ _ VW1); [lia|]. intros w2 VW2. cbn [wp].
  destruct VR3 as [_ X]. rewrite X by lia. unfold updv. rewrite Nat.eqb_refl. f_equal.
  assert (Q : H1 * (z * C1) + F1 * G1 = f0).
  { unfold H1, F1, G1, S1, C1.
    transitivity (h * (F * (z * z + h * h - x * x) + x * (F * F - h * h)) / (zz * zz)); [field; auto|].
    apply div_0.
    replace (z * z + h * h - x * x) with (- ((f + f) * h * x)) by (rewrite Ef; ring).
    rewrite EF. transitivity (h * (h * h * x * (t * t + (f + f) * t - f1))); [ring|]. rewrite Et. ring. }
  transitivity ((H1 * (z * C1) + F1 * G1) / z1); [field; auto|rewrite Q; field; auto].
Qed.
Lemma svd_iter_now sq m n (A0 : matrix) i an rounds w rv a v W R Ex : sqrt_pos sq -> i < n -> injective m n A0 ->
  rinv m n A0 (S i) w rv a v W R -> R i = f0 ->
  wp (svd_iter sq m n i an (S rounds) w rv a v) (fun st => snd st = true) Ex.
Proof.
  intros Sp Li Inj H Ri. cbn [svd_iter].
  pose proof H as (U & V & MU & VW & VR & MV & Bd & R0 & Rt).
  pose proof (bid_nz _ _ _ _ _ _ _ Bd Inj) as Wn.
  eapply wp_seq. { eapply split_wp; eauto. }
  cbn beta. intros st (q & -> & Lq & Rq & Rn). cbn [bind].
  destruct (Nat.eqb_spec q i) as [->|Nq]. 2:{ exfalso. apply (Rn i); auto. lia. }
  apply wp_bind. eapply (wp_vget _ _ VW); [lia|].
  destruct (fltb (W i) f0) eqn:Sg; [|reflexivity].
  apply wp_bind. eapply (wp_vset _ _ VW); [lia|]. intros w' VW'.
  eapply wp_seq with (P := fun _ => True); [|intros; reflexivity].
  eapply wp_mono; [apply wp_for with (P := fun k v' => exists V', mat n n v' V') | auto].
  - lia.
  - eauto.
  - intros k v1 Lk [V1 M1]. apply wp_bind. eapply (wp_mget _ _ M1); [lia|lia|]. eapply (wp_mset _ _ M1); [lia|lia|]. eauto.
Qed.
Lemma svd_iter_two sq m n (A0 : matrix) an rounds w rv a v W R Ex : sqrt_pos sq -> 1 < n -> injective m n A0 ->
  rinv m n A0 2 w rv a v W R ->
  wp (svd_iter sq m n 1 an (S (S rounds)) w rv a v) (fun st => snd st = true) Ex.
Proof.
  intros Sp Li Inj H. destruct (f_eq_dec (R 1%nat) f0) as [E|N]. { eapply svd_iter_now; eauto. }
  pose proof H as (U & V & MU & VW & VR & MV & Bd & R0 & Rt).
  pose proof (bid_nz _ _ _ _ _ _ _ Bd Inj) as Wn.
  change (svd_iter sq m n 1 an (S (S rounds)) w rv a v) with
    (let* (q, flag) := split an w rv 2 in
    let* (w, a) := if flag : bool then cancel sq m n q 1 an w rv a else Ok (w, a) in
    if q =? 1 then
      let* x := aget w 1 in
      if fltb x f0 then
        let* w := aset w 1 (x * - f1) in
        let* v := for_up 0 n (fun j V => let* x := aget V (j * n + 1) in aset V (j * n + 1) (x * - f1)) v in
        Ok (w, rv, a, v, true)
      else Ok (w, rv, a, v, true)
    else
      let* (w, rv, a, v) := sweep sq m n q 1 w rv a v in
      svd_iter sq m n 1 an (S rounds) w rv a v).
  eapply wp_seq. { apply (split_wp n an w rv W R 1); eauto. }
  cbn beta. intros st (q & -> & Lq & Rq & Rn). cbn [bind].
  destruct (Nat.eqb_spec q 1) as [->|Nq]; [contradiction|]. assert (q = 0%nat) as -> by lia.
  eapply wp_seq.
  { apply wp_and.
    - apply (sweep_wp sq m n A0 0 1 w rv a v W R); eauto.
    - apply (sweep_two sq m n A0 0 w rv a v W R); eauto. }
  intros [[[w' rv'] a'] v'] [(W' & R' & H') Z]. eapply svd_iter_now; eauto.
  destruct H' as (_ & _ & _ & _ & [_ VR'] & _). rewrite VR' in Z by lia. injection Z as Z. exact Z.
Qed.
Lemma two_columns sq m n rv a w v (A0 : matrix) : sqrt_pos sq -> 0 < n -> n <= 2 -> n <= m -> mat m n a A0 -> injective m n A0 ->
  length w = n -> length rv = S n -> length v = (n * n)%nat -> ~ gives_up sq m n rv a w v.
Proof.
  intros Sp Pn L2 Lm M Inj Lw Lr Lv.
  pose proof (bidiag_wp sq m n a w rv v A0 (fun _ => False) Sp Lm M Inj Lw Lr Lv) as B.
  intros (a2 & w1 & rv1 & v1 & an & j & w3 & rv3 & a3 & v3 & E & Lj & Ev).
  rewrite E in B. cbn [wp] in B. destruct B as (U & W & e & V & R & MU & VW & VR & MV & Bd & e0 & Re). clear E.
  assert (H : rinv m n A0 n w1 rv1 a2 v1 W R).
  { exists U, V. do 4 (split; [auto|]). split; [|split; [rewrite Re by lia; auto|intros; lia]].
    destruct Bd as (HA & Ou & Ov). split; [|auto]. intros r c Rr Cc. rewrite HA by auto. apply P3_ext; auto.
    intros l k Ll Lk. unfold bid. bcases; auto. symmetry. auto. }
  assert (S1 : forall i w rv a v W R, i < n -> rinv m n A0 (S i) w rv a v W R ->
    wp (svd_iter sq m n i an 30 w rv a v) (fun st => snd st = true) (fun _ => False)).
  { clear - Sp Inj L2. intros i w rv a v W R Li H. destruct i as [|[|i]]; [| |lia].
    - eapply svd_iter_now; eauto. destruct H as (_ & _ & _ & _ & _ & _ & _ & X & _). exact X.
    - eapply svd_iter_two; eauto. }
  assert (G : forall d i, i = (n - d)%nat -> d <= n -> exists w' rv' a' v' W' R',
    values sq m n an i (w1, rv1, a2, v1, true) = Ok (w', rv', a', v', true) /\ rinv m n A0 i w' rv' a' v' W' R').
  { induction d as [|d IH]; intros i Ei Ld.
    - subst i. rewrite Nat.sub_0_r. unfold values, for_down. rewrite Nat.sub_diag. cbn [loopd].
      exists w1, rv1, a2, v1, W, R. auto.
    - destruct (IH (i + 1)%nat ltac:(lia) ltac:(lia)) as (w2 & rv2 & a4 & v2 & W2 & R2 & E2 & H2).
      unfold values in *. rewrite for_down_last by lia. rewrite E2. cbn [bind]. rewrite Nat.add_sub.
      rewrite Nat.add_1_r in H2.
      pose proof (wp_and _ _ _ _ (S1 i _ _ _ _ _ _ ltac:(lia) H2) (svd_iter_wp sq m n A0 i an 30 _ _ _ _ _ _ (fun _ => False) Sp ltac:(lia) Inj H2)) as P.
      destruct (svd_iter sq m n i an 30 w2 rv2 a4 v2) as [[[[[w5 rv5] a5] v5] c]| |]; cbn [wp snd] in P; try contradiction.
      destruct P as [-> P]. destruct (P eq_refl) as (W5 & R5 & H5). cbn [bind andb]. exists w5, rv5, a5, v5, W5, R5. auto. }
  destruct (G (n - j)%nat j ltac:(lia) ltac:(lia)) as (w' & rv' & a' & v' & W' & R' & E' & _). congruence.
Qed.
End Use.
