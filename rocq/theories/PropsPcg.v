(* C84: the conjugate gradients of mesh::solve in fem3d.cpp. *)
From Coq Require Import List ZArith QArith Qcanon Reals Lra Bool Arith Lia Permutation Sorting.Sorted Ring Field.
From Verif Require Import Base LinBase SmatModel SmatProofs SmatFill PropsSmat IncholModel IncholProofs PropsQr PropsInchol CgProofs FftProofs LinReal
  PcgModel PcgMath PcgProofs.
Import ListNotations.
Local Open Scope nat_scope.

(* ---- specification ---- *)
Section Spec.
Context {K : ofield}.
Local Open Scope lin_scope.
(* unknown p of a vector *)
Definition comp (X : svec K) (p : nat) : K := gv (nth (p / 3) X zerov) (p mod 3).
(* row p of F - A U *)
Definition defect (A : smat (m3 K)) (m : nat) (F U : svec K) (p : nat) : K :=
  comp F p - sumr 0 (3 * m) (fun q => scal A p q * comp U q).
Definition length2 (n : nat) (x : nat -> K) : K := sumr 0 n (fun p => x p * x p).
(* the blocks on the diagonal are symmetric *)
Definition sym_diag (A : smat (m3 K)) (m : nat) : Prop := forall n i j, (n < m)%nat -> (i < 3)%nat -> (j < 3)%nat -> entry A n n i j = entry A n n j i.
Definition positive (A : smat (m3 K)) (m : nat) : Prop := forall x, (exists p, (p < 3 * m)%nat /\ x p <> f0) -> fltb f0 (quad A m x) = true.
End Spec.

Section Heads.
Context {K : ofield}.
Lemma for_keep {S} (P : S -> Prop) lo hi (f : nat -> S -> outcome S) : (forall i s s', f i s = Ok s' -> P s -> P s') ->
  forall s s', for_up lo hi f s = Ok s' -> P s -> P s'.
Proof.
  intros H. unfold for_up. generalize (hi - lo) as k. intros k. revert lo. induction k; intros lo s s' E Ps; cbn [loopn] in E; [congruence|].
  apply bind_ok in E as (s1 & E1 & E2). eauto.
Qed.
Definition heads (A : smat (m3 K)) := map dhead A.
Lemma heads_upd A n (d d' : dcol (m3 K)) : nth_error A n = Some d -> dhead d' = dhead d -> heads (upd A n d') = heads A.
Proof. intros E H. unfold heads. rewrite map_upd. apply upd_same. now rewrite nth_error_map, E, H. Qed.
Lemma aset_inv {X} (l l' : list X) i x : aset l i x = Ok l' -> l' = upd l i x.
Proof. unfold aset. destruct (i <? length l); congruence. Qed.
Lemma setblock_heads A n q (k : m3 K) A' : setblock A n q k = Ok A' -> heads A' = heads A.
Proof.
  unfold setblock. intros E. apply bind_ok in E as (d & E1 & E). apply bind_ok in E as (l & E2 & E). apply aset_inv in E. subst A'.
  apply aget_ok in E1. eapply heads_upd; eauto.
Qed.
Lemma setdiag_heads A n (k : m3 K) A' : setdiag A n k = Ok A' -> heads A' = heads A.
Proof.
  unfold setdiag. intros E. apply bind_ok in E as (d & E1 & E). apply aset_inv in E. subst A'. apply aget_ok in E1. eapply heads_upd; eauto.
Qed.
Lemma merge_heads : forall fuel (A : smat (m3 K)) n q r pi pj A', merge fuel A n q r pi pj = Ok A' -> heads A' = heads A.
Proof.
  induction fuel; cbn [merge]; intros A n q r pi pj A' E; [discriminate|].
  destruct pi as [qi|]; [|congruence]. destruct pj as [qj|]; [|congruence].
  apply bind_ok in E as (x & _ & E). apply bind_ok in E as (y & _ & E).
  destruct (nrow y <? nrow x); [eauto|]. destruct (nrow x <? nrow y); [eauto|].
  apply bind_ok in E as (p & _ & E). apply bind_ok in E as (A1 & E1 & E). apply IHfuel in E. rewrite E. eapply setblock_heads; eauto.
Qed.
Lemma inc_col_heads : forall fuel (A : smat (m3 K)) n p A', inc_col fuel A n p = Ok A' -> heads A' = heads A.
Proof.
  induction fuel; cbn [inc_col]; intros A n p A' E; [discriminate|]. destruct p as [q|]; [|congruence].
  apply bind_ok in E as (x & _ & E). apply bind_ok in E as (di & _ & E). apply bind_ok in E as (d & _ & E).
  apply bind_ok in E as (A1 & E1 & E). apply merge_heads in E1. apply bind_ok in E as (x1 & _ & E). apply bind_ok in E as (d1 & _ & E).
  apply bind_ok in E as (k & _ & E). apply bind_ok in E as (A2 & E2 & E). apply setblock_heads in E2. apply bind_ok in E as (d2 & _ & E).
  apply bind_ok in E as (A3 & E3 & E). apply setdiag_heads in E3. apply bind_ok in E as (x2 & _ & E). apply IHfuel in E. congruence.
Qed.
Lemma incchol_heads sq eps (A A' : smat (m3 K)) : incchol sq eps A = Ok A' -> heads A' = heads A.
Proof.
  intros E. unfold incchol in E. eapply (for_keep (fun s => heads s = heads A)); [|exact E|auto].
  intros i s s' E1 P. apply bind_ok in E1 as (d & _ & E1). apply bind_ok in E1 as (A1 & E2 & E1). apply inc_col_heads in E2.
  apply bind_ok in E1 as (d1 & _ & E1). apply bind_ok in E1 as (k & _ & E1). apply setdiag_heads in E1. congruence.
Qed.
End Heads.

Section Flat.
Context {K : ofield}.
Local Open Scope lin_scope.
Add Field Kf60 : (f_th K).
Variables (m : nat) (D : nat -> m3 K) (C : nat -> list (nat * m3 K)).
(* the whole matrix and the triangle, by single rows and columns *)
Definition fmb (n c i j : nat) : K := if Nat.eqb n c then get3 (D n) i j else if Nat.ltb n c then get3 (blk (C c) n) i j else get3 (blk (C n) c) j i.
Definition fm (p q : nat) : K := fmb (p / 3) (q / 3) (p mod 3) (q mod 3).
Definition fub (n c i j : nat) : K := if Nat.eqb n c then tri (D n) i j else if Nat.ltb n c then get3 (blk (C c) n) i j else f0.
Definition fu (p q : nat) : K := fub (p / 3) (q / 3) (p mod 3) (q mod 3).
Lemma comp_vw (X : svec K) n i : (i < 3)%nat -> comp X (3 * n + i) = vw X n i.
Proof. intros I. unfold comp. destruct (div3 n i I) as (-> & ->). reflexivity. Qed.
Lemma sum_rows (f : nat -> K) : sumr 0 (3 * m) f = sumr 0 m (fun k => f (3 * k + 0)%nat + f (3 * k + 1)%nat + f (3 * k + 2)%nat).
Proof.
  replace (3 * m)%nat with (3 * m + 0)%nat by lia. rewrite sum_blocks, (sumr_nil 0 0) by lia.
  rewrite (sumr_ext 0 m _ (fun k => f (3 * k + 0)%nat + f (3 * k + 1)%nat + f (3 * k + 2)%nat)); [ring|]. intros k Kk. now rewrite Nat.add_0_r.
Qed.
Lemma sum_split3 (g : nat -> K) n : (n < m)%nat -> sumr 0 m g = sumr 0 n g + g n + sumr (S n) m g.
Proof. intros N. rewrite (sumr_split 0 n m), (sumr_first n m) by lia. ring. Qed.
Lemma fm_row (Y : svec K) n i : (n < m)%nat -> (i < 3)%nat -> sumr 0 (3 * m) (fun q => fm (3 * n + i) q * comp Y q) =
  bv (D n) (vw Y n) i + (sumr 0 n (fun r => btv (blk (C n) r) (vw Y r) i) + sumr (S n) m (fun c => bv (blk (C c) n) (vw Y c) i)).
Proof.
  intros N I. rewrite sum_rows.
  rewrite (sumr_ext 0 m _ (fun c => fmb n c i 0 * vw Y c 0%nat + fmb n c i 1 * vw Y c 1%nat + fmb n c i 2 * vw Y c 2%nat)).
  2:{ intros c Cc. unfold fm. destruct (div3 n i I) as (-> & ->). rewrite !comp_vw by lia.
      destruct (div3 c 0 ltac:(lia)) as (-> & ->). destruct (div3 c 1 ltac:(lia)) as (-> & ->). destruct (div3 c 2 ltac:(lia)) as (-> & ->). reflexivity. }
  rewrite (sum_split3 _ n N). unfold fmb at 4 5 6. rewrite !Nat.eqb_refl.
  rewrite (sumr_ext 0 n _ (fun r => btv (blk (C n) r) (vw Y r) i)).
  2:{ intros r Rr. unfold fmb. destruct (Nat.eqb_spec n r); [lia|]. destruct (Nat.ltb_spec n r); [lia|]. reflexivity. }
  rewrite (sumr_ext (S n) m _ (fun c => bv (blk (C c) n) (vw Y c) i)).
  2:{ intros r Rr. unfold fmb. destruct (Nat.eqb_spec n r); [lia|]. destruct (Nat.ltb_spec n r); [|lia]. reflexivity. }
  unfold bv at 2. ring.
Qed.
Lemma fu_row (Z : svec K) n i : (n < m)%nat -> (i < 3)%nat -> sumr 0 (3 * m) (fun q => fu (3 * n + i) q * comp Z q) =
  tv (D n) (vw Z n) i + sumr (S n) m (fun c => bv (blk (C c) n) (vw Z c) i).
Proof.
  intros N I. rewrite sum_rows.
  rewrite (sumr_ext 0 m _ (fun c => fub n c i 0 * vw Z c 0%nat + fub n c i 1 * vw Z c 1%nat + fub n c i 2 * vw Z c 2%nat)).
  2:{ intros c Cc. unfold fu. destruct (div3 n i I) as (-> & ->). rewrite !comp_vw by lia.
      destruct (div3 c 0 ltac:(lia)) as (-> & ->). destruct (div3 c 1 ltac:(lia)) as (-> & ->). destruct (div3 c 2 ltac:(lia)) as (-> & ->). reflexivity. }
  rewrite (sum_split3 _ n N). unfold fub at 4 5 6. rewrite !Nat.eqb_refl.
  rewrite (sumr_zero 0 n).
  2:{ intros r Rr. unfold fub. destruct (Nat.eqb_spec n r); [lia|]. destruct (Nat.ltb_spec n r); [lia|]. ring. }
  rewrite (sumr_ext (S n) m _ (fun c => bv (blk (C c) n) (vw Z c) i)).
  2:{ intros r Rr. unfold fub. destruct (Nat.eqb_spec n r); [lia|]. destruct (Nat.ltb_spec n r); [|lia]. reflexivity. }
  unfold tv. ring.
Qed.
Lemma fu_col (Y : svec K) n j : (n < m)%nat -> (j < 3)%nat -> sumr 0 (3 * m) (fun p => fu p (3 * n + j) * comp Y p) =
  sumr 0 n (fun r => btv (blk (C n) r) (vw Y r) j) + ttv (D n) (vw Y n) j.
Proof.
  intros N J. rewrite sum_rows.
  rewrite (sumr_ext 0 m _ (fun c => fub c n 0 j * vw Y c 0%nat + fub c n 1 j * vw Y c 1%nat + fub c n 2 j * vw Y c 2%nat)).
  2:{ intros c Cc. unfold fu. destruct (div3 n j J) as (-> & ->). rewrite !comp_vw by lia.
      destruct (div3 c 0 ltac:(lia)) as (-> & ->). destruct (div3 c 1 ltac:(lia)) as (-> & ->). destruct (div3 c 2 ltac:(lia)) as (-> & ->). reflexivity. }
  rewrite (sum_split3 _ n N). unfold fub at 4 5 6. rewrite !Nat.eqb_refl.
  rewrite (sumr_zero (S n) m).
  2:{ intros r Rr. unfold fub. destruct (Nat.eqb_spec r n); [lia|]. destruct (Nat.ltb_spec r n); [lia|]. ring. }
  rewrite (sumr_ext 0 n _ (fun r => btv (blk (C n) r) (vw Y r) j)).
  2:{ intros r Rr. unfold fub. destruct (Nat.eqb_spec r n); [lia|]. destruct (Nat.ltb_spec r n); [|lia]. reflexivity. }
  unfold ttv. ring.
Qed.
Lemma split3 p : (p < 3 * m)%nat -> exists n i, (n < m)%nat /\ (i < 3)%nat /\ p = (3 * n + i)%nat.
Proof.
  intros P. exists (p / 3)%nat, (p mod 3)%nat. split; [apply Nat.div_lt_upper_bound; lia|]. split; [apply Nat.mod_upper_bound; lia|apply Nat.div_mod; lia].
Qed.
Lemma dots_ip (X Y : svec K) : sumr 0 m (fun n => dotv (nth n X zerov) (nth n Y zerov)) = ip (3 * m) (comp X) (comp Y).
Proof.
  unfold ip. rewrite sum_rows. apply sumr_ext. intros n N. rewrite !comp_vw by lia. reflexivity.
Qed.
Lemma fm_sym : (forall n i j, (n < m)%nat -> (i < 3)%nat -> (j < 3)%nat -> get3 (D n) i j = get3 (D n) j i) -> forall p q, (p < 3 * m)%nat -> fm p q = fm q p.
Proof.
  intros H p q P. unfold fm, fmb. rewrite (Nat.eqb_sym (q / 3) (p / 3)).
  destruct (Nat.eqb_spec (p / 3) (q / 3)) as [E|NE].
  - rewrite <- E. apply H; try (apply Nat.mod_upper_bound; lia). apply Nat.div_lt_upper_bound; lia.
  - destruct (Nat.ltb_spec (p / 3) (q / 3)), (Nat.ltb_spec (q / 3) (p / 3)); auto; lia.
Qed.
End Flat.

Section Loop.
Context {K : ofield}.
Local Open Scope lin_scope.
Add Field Kf61 : (f_th K).
Variables (sq : K -> K) (A M : smat (m3 K)) (m : nat) (D DM : nat -> m3 K) (C CM : nat -> list (nat * m3 K)).
Hypothesis SQ : is_sqrt sq.
Hypothesis HA : flat_holds A m D C.
Hypothesis HM : flat_holds M m DM CM.
Hypothesis NZ : forall n i, (n < m)%nat -> (i < 3)%nat -> get3 (DM n) i i <> f0.
Notation N := (3 * m)%nat.
Notation a := (fm D C).
Notation u := (fu DM CM).
Hypothesis asym : forall p q, (p < N)%nat -> (q < N)%nat -> a p q = a q p.
Hypothesis apos : forall v, (exists p, (p < N)%nat /\ v p <> f0) -> fltb f0 (bil N a v v) = true.

Lemma prec_ok (R V : svec K) : length R = m -> length V = m ->
  exists V1 V2, forward M R V = Ok V1 /\ backward M V1 = Ok V2 /\ length V2 = m /\ prec N u (comp R) (comp V1) (comp V2).
Proof.
  intros LR LV. destruct (forward_wp M m DM CM R V HM NZ LR LV) as (V1 & E1 & L1 & H1).
  destruct (backward_wp M m DM CM V1 HM NZ L1) as (V2 & E2 & L2 & H2). exists V1, V2. split; auto. split; auto. split; auto. split.
  - intros q Q. destruct (split3 m q Q) as (n & j & Nn & J & ->). rewrite fu_col, comp_vw by auto. apply H1; auto.
  - intros p P. destruct (split3 m p P) as (n & i & Nn & I & ->). rewrite fu_row, comp_vw by auto. apply H2; auto.
Qed.
Lemma product_ok (P W : svec K) : length P = m -> length W = m -> exists W', product A P W = Ok W' /\ length W' = m /\
  forall p, (p < N)%nat -> comp W' p = mv N a (comp P) p.
Proof.
  intros LP LW. destruct (spmv_wp (K := K) addv f1) with (A := A) (m := m) (D := D) (C := C) (ini := fun (_ : nat) (t : v3 K) => Ok t) (base := fun n => mulv (D n) (nth n P zerov)) (Y := P) (X := W) as (W' & E & L & H); auto.
  { intros x y i I. unfold addv. rewrite gv_gen by auto. ring. }
  exists W'. split; auto. split; auto. intros p Pp. destruct (split3 m p Pp) as (n & i & Nn & I & ->). unfold mv. rewrite fm_row, comp_vw, H by auto.
  rewrite gv_mulv by auto. change (bv (D n) (gv (nth n P zerov)) i) with (bv (D n) (vw P n) i). ring.
Qed.
Lemma residual_ok (F U R : svec K) : length F = m -> length U = m -> length R = m -> exists R', residual A F U R = Ok R' /\ length R' = m /\
  forall p, (p < N)%nat -> comp R' p = comp F p - mv N a (comp U) p.
Proof.
  intros LF LU LR. destruct (spmv_wp (K := K) subv (- f1)) with (A := A) (m := m) (D := D) (C := C) (ini := fun (i : nat) (t : v3 K) => let* f := aget F i in Ok (subv f t))
    (base := fun n => subv (nth n F zerov) (mulv (D n) (nth n U zerov))) (Y := U) (X := R) as (R' & E & L & H); auto.
  { intros x y i I. unfold subv. rewrite gv_gen by auto. ring. }
  { intros n Nn. rewrite (aget_nth F n zerov) by lia. reflexivity. }
  exists R'. split; auto. split; auto. intros p Pp. destruct (split3 m p Pp) as (n & i & Nn & I & ->). unfold mv. rewrite fm_row, !comp_vw, H by auto.
  unfold subv. rewrite gv_gen, gv_mulv by auto. change (bv (D n) (gv (nth n U zerov)) i) with (bv (D n) (vw U n) i). change (gv (nth n F zerov) i) with (vw F n i). ring.
Qed.

(* what earlier steps leave for the step numbered it *)
Definition before (it : nat) (R P : svec K) (ro : K) : Prop :=
  it = O \/ exists hist r y z p, pinv N a u hist r y z p /\ S (length hist) = it /\ (forall i, (i < N)%nat -> comp P i = p i) /\ ro = ip N r z /\ ro <> f0 /\
    forall i, (i < N)%nat -> comp R i = r i - ip N r z / bil N a p p * mv N a p i.
Lemma step_inv it R P ro y z p' : before it R P ro -> prec N u (comp R) y z ->
  (forall i, (i < N)%nat -> p' i = if Nat.eqb it 0 then z i else z i + ip N (comp R) z / ro * comp P i) ->
  exists hist, pinv N a u hist (comp R) y z p' /\ length hist = it.
Proof.
  intros [->|(hist & r & y0 & z0 & p & I & L & EP & ER & RN & HR)] Pr Ep.
  - exists []. split; auto. apply pcg_start; auto.
  - exists ((p, r, y0, z0) :: hist). split; [|cbn; auto]. apply (pcg_step N a u asym apos hist r y0 z0 p); auto.
    + congruence.
    + intros i Ii. rewrite Ep by auto. destruct (Nat.eqb_spec it 0); [lia|]. rewrite EP, ER by auto. auto.
Qed.

Lemma pcg_wp (F : svec K) tol ri : fltb f0 (tol * ri) = true -> (0 < m)%nat -> forall fuel it U R P V W ro,
  (S N <= fuel + it)%nat -> (it <= N)%nat -> length U = m -> length R = m -> length P = m -> length V = m -> length W = m ->
  (forall p, (p < N)%nat -> comp R p = comp F p - mv N a (comp U) p) -> before it R P ro ->
  exists U' R' it', pcg fuel A M m tol ri it U R P V W ro = Ok (U', R', it') /\ length U' = m /\ (it' <= N)%nat /\
    (forall p, (p < N)%nat -> comp R' p = comp F p - mv N a (comp U') p) /\ fltb (ip N (comp R') (comp R')) (tol * ri) = true.
Proof.
  intros TP MP. induction fuel as [|fuel IH]; intros it U R P V W ro Fu It LU LR LP LV LW HR B; [lia|].
  cbn [pcg]. rewrite (dots_wp m R R LR LR), dots_ip. cbn [bind].
  destruct (fltb (ip N (comp R) (comp R)) (tol * ri)) eqn:T.
  { cbn [orb]. exists U, R, it. repeat (split; [solve [auto]|]). auto. }
  cbn [orb]. destruct (prec_ok R V LR LV) as (V1 & V2 & E1 & E2 & L2 & Pr).
  assert (RN : ip N (comp R) (comp R) <> f0) by (intros E; rewrite E, TP in T; discriminate).
  assert (ZN : ip N (comp R) (comp V2) <> f0) by (apply (prec_r0 N u _ _ _ Pr RN)).
  destruct (Nat.leb_spec (m * 3) it) as [Le|Gt].
  - exfalso. destruct (step_inv it R P ro (comp V1) (comp V2) (fun i => if Nat.eqb it 0 then comp V2 i else comp V2 i + ip N (comp R) (comp V2) / ro * comp P i) B Pr) as (hist & I & L); auto.
    apply RN. apply ip_z. apply (pcg_end N a u sq hist _ _ _ _ SQ I). lia.
  - rewrite E1. cbn [bind]. rewrite E2. cbn [bind]. rewrite (dots_wp m V2 R L2 LR), dots_ip. cbn [bind].
    rewrite (ip_comm N (comp V2)). set (rz := ip N (comp R) (comp V2)) in *.
    assert (RO : it = O \/ ro <> f0) by (destruct B as [|(h & r & y & z & p & _ & _ & _ & _ & X & _)]; auto).
    destruct (direction_wp it m V2 P rz ro L2 LP RO) as (P' & -> & LP' & HP). cbn [bind].
    destruct (product_ok P' W LP' LW) as (W' & -> & LW' & HW). cbn [bind].
    rewrite (dots_wp m W' P' LW' LP'), dots_ip. cbn [bind].
    assert (EB : ip N (comp W') (comp P') = bil N a (comp P') (comp P')).
    { rewrite ip_comm. unfold bil. apply ip_ext; auto. }
    rewrite EB.
    assert (HPc : forall i, (i < N)%nat -> comp P' i = if Nat.eqb it 0 then comp V2 i else comp V2 i + rz / ro * comp P i).
    { intros i Ii. destruct (split3 m i Ii) as (n & j & Nn & J & ->). rewrite !comp_vw by auto. apply HP; auto. }
    destruct (step_inv it R P ro (comp V1) (comp V2) (comp P') B Pr HPc) as (hist & I & L).
    pose proof (pcg_curv N a u apos hist _ _ _ _ I ZN) as Cv. rewrite Cv. cbn [negb].
    pose proof (fpos_nz _ Cv) as Nc.
    destruct (update_wp m rz (bil N a (comp P') (comp P')) P' W' U R LP' LW' LU LR Nc) as (U' & R' & -> & LU' & LR' & HU). cbn [bind].
    assert (HUc : forall p, (p < N)%nat -> comp U' p = comp U p + rz / bil N a (comp P') (comp P') * comp P' p /\
      comp R' p = comp R p - rz / bil N a (comp P') (comp P') * mv N a (comp P') p).
    { intros p Pp. rewrite <- HW by auto. destruct (split3 m p Pp) as (n & j & Nn & J & ->). rewrite !comp_vw by auto. apply HU; auto. }
    apply IH; auto; try lia.
    + intros p Pp. destruct (HUc p Pp) as (_ & ->). rewrite HR by auto.
      assert (EM : mv N a (comp U') p = mv N a (comp U) p + rz / bil N a (comp P') (comp P') * mv N a (comp P') p).
      { unfold mv. rewrite <- sumr_scale, <- sumr_add. apply sumr_ext. intros q Q. destruct (HUc q ltac:(lia)) as (-> & _). ring. }
      rewrite EM. ring.
    + right. exists hist, (comp R), (comp V1), (comp V2), (comp P'). split; [auto|]. split; [lia|]. split; [auto|]. split; [auto|]. split; [auto|].
      intros i Ii. apply HUc; auto.
Qed.
End Loop.

Section Whole.
Context {K : ofield}.
Local Open Scope lin_scope.
Lemma scal_fm (A : smat (m3 K)) m D C : holds A m D C -> sym_diag A m -> forall p q, (p < 3 * m)%nat -> (q < 3 * m)%nat -> scal A p q = fm D C p q.
Proof.
  intros H SY p q P Q. unfold scal, fm, fmb. assert (P3 : (p / 3 < m)%nat) by (apply Nat.div_lt_upper_bound; lia). assert (Q3 : (q / 3 < m)%nat) by (apply Nat.div_lt_upper_bound; lia).
  assert (PM : (p mod 3 < 3)%nat) by (apply Nat.mod_upper_bound; lia). assert (QM : (q mod 3 < 3)%nat) by (apply Nat.mod_upper_bound; lia).
  destruct (Nat.eqb_spec (p / 3) (q / 3)) as [E|NE].
  - rewrite <- E. rewrite <- !(entry_diag _ _ _ _ _ _ _ H P3). rewrite (SY (p / 3) (q mod 3) (p mod 3))%nat by auto. now destruct (Nat.leb p q).
  - destruct (Nat.leb_spec p q) as [L|L].
    + assert (p / 3 < q / 3)%nat by (pose proof (Nat.div_le_mono p q 3); lia). destruct (Nat.ltb_spec (p / 3) (q / 3)); [|lia].
      apply (entry_blk _ _ _ _ _ _ _ _ H). lia.
    + assert (q / 3 < p / 3)%nat by (pose proof (Nat.div_le_mono q p 3); lia). destruct (Nat.ltb_spec (p / 3) (q / 3)); [lia|].
      apply (entry_blk _ _ _ _ _ _ _ _ H). lia.
Qed.
End Whole.

(* ---- C84 ---- *)
(* In exact arithmetic the loop ends within 3m steps, and the defect of the result is below the tolerance. *)
Theorem C84_solved : forall (K : ofield) (sq : K -> K) eps lim m (A : smat (m3 K)) (F U P : svec K) tol,
  is_sqrt sq -> fltb f0 eps = true -> (Z.of_nat m < 2 ^ 16)%Z -> (Z.of_nat m <= lim)%Z -> built zero3 add3 tr3 lim m A -> sym_diag A m -> positive A m ->
  length F = m -> length U = m -> length P = m -> fltb f0 tol = true -> (exists p, p < 3 * m /\ comp F p <> f0) ->
  solve_sys sq eps lim A F U P tol = Throw RuntimeError \/
  exists U' R it, solve_sys sq eps lim A F U P tol = Ok (U', R, it) /\ length U' = m /\ it <= 3 * m /\
    (forall p, p < 3 * m -> comp R p = defect A m F U' p) /\
    fltb (length2 (3 * m) (defect A m F U')) (fmul tol (length2 (3 * m) (comp F))) = true.
Proof.
  intros K sq eps lim m A F U P tol SQ EP M16 LIM HB SY PO LF LU LP TP (p0 & P0 & F0).
  destruct (built_holds zero3 add3 tr3 lim m A add3_0 M16 HB) as (D & C & H0).
  pose proof (scal_fm A m D C H0 SY) as SF.
  unfold solve_sys. pose proof H0 as (LA & _). rewrite LA.
  pose proof (tidy_holds (S m) A m D C M16 ltac:(lia) H0) as W1. destruct (tidy (S m) A) as [A1|e|f]; cbn in W1; try tauto. cbn [bind].
  pose proof (copy_wp zero3 add3 tr3 lim add3_0 A1 m D C (holds_of_tidy _ _ _ _ W1) ltac:(lia)) as W2.
  destruct (copy zero3 add3 tr3 lim A1) as [M1|e|f]; cbn in W2; try lia. cbn [bind].
  pose proof (fillin_wp zero3 add3 tr3 lim (S m) M1 m D C W2 M16 ltac:(lia)) as W3.
  destruct (fillin zero3 lim (S m) M1) as [M2|e|f]; cbn in W3; try lia. cbn [bind].
  pose proof (incchol_wp sq eps M2 m D (filled zero3 add3 C) SQ EP (holds_of_tidy _ _ _ _ W3)) as W4.
  destruct (incchol sq eps M2) as [M3|e|f] eqn:EI; cbn in W4; [|left; destruct W4 as (-> & _); reflexivity|tauto]. cbn [bind]. right.
  destruct W4 as (DM & CM & H3 & DN).
  assert (FM : flat_holds M3 m DM CM).
  { split; [apply H3|]. intros n N. pose proof H3 as (_ & G). destruct (G n N) as (d & E & R & Dk). exists d. split; auto. split; auto.
    apply flat_rep; auto. apply incchol_heads in EI. destruct W3 as (_ & W3). destruct (W3 n N) as (d2 & E2 & (_ & _ & HD & _) & _).
    assert (HH : nth_error (heads M3) n = nth_error (heads M2) n) by congruence. unfold heads in HH. rewrite !nth_error_map, E, E2 in HH. cbn in HH.
    injection HH as ->. rewrite HD. destruct (filled zero3 add3 C n); auto. }
  assert (FA : flat_holds A1 m D C) by now apply flat_tidy.
  rewrite (dots_wp m F F LF LF), dots_ip. cbn [bind].
  destruct (residual_ok A1 m D C FA F U (svec_new m) LF LU) as (R & -> & LR & HR). { apply repeat_length. } cbn [bind].
  assert (MV : forall x p, p < 3 * m -> mv (3 * m) (fm D C) x p = sumr 0 (3 * m) (fun q => fmul (scal A p q) (x q))).
  { intros x p Pp. apply sumr_ext. intros q Q. now rewrite SF by lia. }
  assert (ASY : forall p q, p < 3 * m -> q < 3 * m -> fm D C p q = fm D C q p).
  { intros p q Pp Q. rewrite <- !SF by auto. unfold scal. destruct (Nat.leb_spec p q), (Nat.leb_spec q p); auto; try lia. assert (p = q) by lia. now subst q. }
  assert (APO : forall v, (exists p, p < 3 * m /\ v p <> f0) -> fltb f0 (bil (3 * m) (fm D C) v v) = true).
  { intros v V. rewrite <- (PO v V). f_equal. unfold bil, ip, quad. apply sumr_ext. intros p Pp. rewrite MV, <- sumr_scale by lia. apply sumr_ext. intros q Q.
    apply (Rmul_assoc (F_R (f_th K))). }
  assert (RI : fltb f0 (fmul tol (ip (3 * m) (comp F) (comp F))) = true).
  { apply fltb_spec. apply fltb_spec in TP as (T1 & T2). assert (N1 : ip (3 * m) (comp F) (comp F) <> f0). { intros E. apply F0. apply (ip_0 _ _ E); auto. }
    split; [apply fle_mul; auto; apply ip_nonneg|]. intros E. symmetry in E. apply fmul_0 in E as [E|E]; congruence. }
  destruct (pcg_wp sq A1 M3 m D DM C CM SQ FA FM) with (F := F) (tol := tol) (ri := ip (3 * m) (comp F) (comp F)) (fuel := S (m * 3)) (it := 0) (U := U) (R := R) (P := P)
    (V := @svec_new K m) (W := @svec_new K m) (ro := @f0 K) as (U' & R' & it & E & L & IT & HR' & TT); auto; try lia.
  { intros n i N I. apply fpos_nz. apply (DN n N); auto. }
  { apply repeat_length. } { apply repeat_length. } { left; auto. }
  exists U', R', it. split; auto. split; auto. split; auto. split.
  - intros p Pp. rewrite HR' by auto. unfold defect. now rewrite MV.
  - rewrite <- TT. f_equal. apply sumr_ext. intros p Pp. rewrite HR' by lia. unfold defect. rewrite MV by lia. auto.
Qed.

(* With no force at all the loop divides by zero, even from the solution. *)
Section ZeroForce.
Definition one1 : smat (m3 QcF) := [Dc (@dg QcF f1) None [] 0].
Lemma solve_sq (sq sq' : QcF -> QcF) eps lim A F U P tol : (forall z, sq z = sq' z) -> solve_sys sq eps lim A F U P tol = solve_sys sq' eps lim A F U P tol.
Proof.
  intros E. unfold solve_sys. destruct (tidy _ A); auto. cbn [bind]. destruct (copy _ _ _ _ _); auto. cbn [bind]. destruct (fillin _ _ _ _); auto. cbn [bind].
  now rewrite (incchol_sq sq sq' eps _ E).
Qed.
Lemma one_quad x : quad one1 1 x = fadd (fadd (sqr (x 0)) (sqr (x 1))) (sqr (x 2)).
Proof.
  assert (T : forall p q, p < 3 -> q < 3 -> scal one1 p q = if p =? q then f1 else f0).
  { intros p q P Q. destruct p as [|[|[|p]]], q as [|[|[|q]]]; try lia; reflexivity. }
  unfold quad. change (3 * 1) with 3. rewrite !sumr_S by lia. rewrite !sumr_nil by lia. rewrite !T by lia. cbn. unfold sqr. cbn. ring.
Qed.
Theorem C84_no_force_refuted : forall sq, sq f1 = f1 ->
  built zero3 add3 tr3 10 1 one1 /\ sym_diag one1 1 /\ positive one1 1 /\
  solve_sys sq ieps 10 one1 [zerov] [zerov] [zerov] (fdiv f1 (qz 1000000)) = UB DivByZero.
Proof.
  intros sq S. split; [|split; [|split]].
  - eapply (built_append zero3 add3 tr3 10 1 (smat_new zero3 1) 0 0 (dg f1)); [constructor|lia|lia|].
    unfold append. cbn. unfold one1, dg. repeat f_equal; apply Qc_is_canon; reflexivity.
  - intros n i j N I J. assert (n = 0) by lia. subst n. destruct i as [|[|[|i]]], j as [|[|[|j]]]; try lia; reflexivity.
  - intros x (p & P & X). rewrite one_quad. apply fltb_spec. split; [repeat (apply add_nonneg || apply sqr_nonneg)|].
    intros E. symmetry in E. apply X.
    repeat match goal with H : fadd _ _ = f0 |- _ => apply add_zero in H; [destruct H|solve [repeat (apply add_nonneg || apply sqr_nonneg)]|solve [repeat (apply add_nonneg || apply sqr_nonneg)]] end.
    repeat match goal with H : sqr _ = f0 |- _ => apply sqr_zero in H end.
    destruct p as [|[|[|p]]]; auto. lia.
  - rewrite (solve_sq sq (fun z => if feqb z f1 then f1 else sq z)).
    + vm_compute. reflexivity.
    + intros z. destruct (feqb_spec z f1) as [->|]; auto.
Qed.
End ZeroForce.

(* ---- examples ---- *)
(* the two nodes of C83_hypotheses *)
Example C84_hypotheses : exists A : smat (m3 RF), built zero3 add3 tr3 100 2 A /\ sym_diag A 2 /\ positive A 2.
Proof.
  destruct (appends add3 tr3 100 (smat_new (@zero3 RF) 2) pairops) as [A|e|f] eqn:E.
  2,3: cbn in E; discriminate.
  exists A. split; [|split].
  - apply (appends_built 100 2 pairops (smat_new zero3 2)); [constructor| |auto].
    intros i j t H. cbn in H. repeat (destruct H as [H|H]; [injection H as <- <- _; lia|]). destruct H.
  - intros n i j N I J. cbn in E. injection E as <-. destruct n as [|[|n]]; [| |lia]; destruct i as [|[|[|i]]], j as [|[|[|j]]]; try lia; cbn; lra.
  - intros x (p & P & X).
    assert (Q : quad A 2 x = (x 0%nat * x 0%nat + x 3%nat * x 3%nat + (x 0%nat + x 3%nat) * (x 0%nat + x 3%nat)
      + (x 1%nat * x 1%nat + x 4%nat * x 4%nat + (x 1%nat + x 4%nat) * (x 1%nat + x 4%nat))
      + (x 2%nat * x 2%nat + x 5%nat * x 5%nat + (x 2%nat + x 5%nat) * (x 2%nat + x 5%nat)))%R).
    { cbn in E. injection E as <-. unfold quad. change (3 * 2) with 6. rewrite !sumr_S by lia. rewrite !sumr_nil by lia. cbn. ring. }
    rewrite Q. clear Q E.
    pose proof (Rle_0_sqr (x 0%nat)). pose proof (Rle_0_sqr (x 1%nat)). pose proof (Rle_0_sqr (x 2%nat)).
    pose proof (Rle_0_sqr (x 3%nat)). pose proof (Rle_0_sqr (x 4%nat)). pose proof (Rle_0_sqr (x 5%nat)).
    pose proof (Rle_0_sqr (x 0%nat + x 3%nat)%R). pose proof (Rle_0_sqr (x 1%nat + x 4%nat)%R). pose proof (Rle_0_sqr (x 2%nat + x 5%nat)%R).
    assert (XP : (0 < x p * x p)%R) by (apply Rlt_0_sqr; exact X). unfold Rsqr in *.
    apply fltb_spec. split.
    + apply Rleb_iff. cbn. lra.
    + intros Z. cbn in Z. do 6 (destruct p as [|p]; [lra|]). lia.
Qed.
(* computed: the system of C83_demo with forces at three unknowns *)
Definition demoF : svec QcF := [V3 (qz 4) (qz 0) (qz (-2)); V3 (qz 0) (qz 5) (qz 0)].
Example C84_demo :
  match solve_sys qsq ieps 100 demo demoF (svec_new 2) (svec_new 2) (fdiv f1 (qz 1000000)) with
  | Ok (U, R, it) => (it =? 1) && fltb (length2 6 (defect demo 2 demoF U)) (fmul (fdiv f1 (qz 1000000)) (length2 6 (comp demoF))) && negb (feqb (comp U 0) f0)
  | _ => false
  end = true.
Proof. vm_compute. reflexivity. Qed.

Print Assumptions C84_solved.
Print Assumptions C84_no_force_refuted.
