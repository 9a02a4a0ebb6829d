(* C77: the line search of the backcalculation and the conjugate gradient search built on it. *)
From Coq Require Import List ZArith QArith Qcanon Qround Bool Arith Lia Field.
From Verif Require Import Base LinBase BowlModel.
Import ListNotations.
Local Open Scope lin_scope.

Lemma map2_length {A B C} (f : A -> B -> C) n : forall l m, length l = n -> length m = n -> length (map2 f l m) = n.
Proof.
  induction n as [|n IH]; intros [|x l] [|y m]; cbn; intros E F; try discriminate; auto.
Qed.

Section General.
Context {K : ofield}.
Add Field Kf41 : (f_th K).

Lemma fltb_false (x y : K) : fltb x y = false <-> fle y x = true.
Proof. unfold fltb. rewrite negb_false_iff. tauto. Qed.
Lemma fltb_le (x y : K) : fltb x y = true -> fle x y = true.
Proof. intros H. apply fltb_spec in H. tauto. Qed.

Lemma two_nz : @two K <> f0.
Proof.
  unfold two. intros E. destruct (fadd_0_nonneg (K := K) f1 f1) as (A & _); auto using f0_le_f1.
  exact (f1_neq_f0 A).
Qed.

(* ---- the searches keep track of the errors and never go up ---- *)
Definition bval (e : K -> K) (s : brk (K := K)) : Prop := bA s = e (ba s) /\ bB s = e (bb s) /\ bC s = e (bc s).

Lemma bracket_val gc e fuel : forall s t, bval e s -> bracket gc fuel e s = Ok t ->
  bval e t /\ fle (bB t) (bB s) = true.
Proof.
  induction fuel as [|fuel IH]; intros s t V E; cbn [bracket] in E.
  - destruct (_ && _); [discriminate|]. injection E as <-. split; auto. apply fle_refl.
  - destruct (fle (bB s) (bA s) && fle (bC s) (bB s)) eqn:Cnd; [|injection E as <-; split; auto using fle_refl].
    apply andb_true_iff in Cnd as (HA & HC).
    remember (vertex1 s) as x eqn:Hx; clear Hx.
    destruct s as [a b c A B C]. destruct V as (VA & VB & VC). cbn [ba bb bc bA bB bC] in *.
    destruct (fltb b x && fltb x c).
    + destruct (fltb (e x) C) eqn:L1; [|destruct (fltb B (e x)) eqn:L2].
      * apply IH in E as (V & L); [|unfold bval; cbn; auto]. cbn in L. split; auto.
        apply fle_trans with (e x); auto. apply fle_trans with C; auto. apply fltb_le; auto.
      * apply IH in E as (V & L); [|unfold bval; cbn; auto]. cbn in L. auto.
      * apply IH in E as (V & L); [|unfold bval; cbn; auto]. cbn in L. split; auto. apply fle_trans with C; auto.
    + destruct (fltb c x); [destruct (fltb (e x) C) eqn:L1|].
      * apply IH in E as (V & L); [|unfold bval; cbn; auto]. cbn in L. split; auto.
        apply fle_trans with (e x); auto. apply fle_trans with C; auto. apply fltb_le; auto.
      * apply IH in E as (V & L); [|unfold bval; cbn; auto]. cbn in L. split; auto. apply fle_trans with C; auto.
      * apply IH in E as (V & L); [|unfold bval; cbn; auto]. cbn in L. split; auto. apply fle_trans with C; auto.
Qed.

Lemma tighten_val (gc : K) e s : mB s = e (mb s) ->
  mB (tighten gc e s) = e (mb (tighten gc e s)) /\ fle (mB (tighten gc e s)) (mB s) = true.
Proof.
  unfold tighten. remember (trial gc s) as x eqn:Hx; clear Hx. destruct s as [a b c y z B Y Z]. cbn [mB mb].
  intros V. destruct (fle (e x) B) eqn:L.
  - destruct (fltb x b); cbn; auto.
  - destruct (fle (e x) Y || feqb x y); [cbn; auto using fle_refl|].
    destruct (fle (e x) Z || feqb x z || feqb y z); cbn; auto using fle_refl.
Qed.

Lemma hunt_val (gc tol : K) e fuel : forall s t, mB s = e (mb s) -> hunt gc tol fuel e s = Ok t ->
  mB t = e (mb t) /\ fle (mB t) (mB s) = true.
Proof.
  induction fuel as [|fuel IH]; intros s t V E; cbn [hunt] in E.
  - destruct (fltb _ _); [discriminate|]. injection E as <-. auto using fle_refl.
  - destruct (fltb _ _); [|injection E as <-; auto using fle_refl].
    destruct (tighten_val gc e s V) as (V' & L). apply IH in E as (V2 & L2); auto. split; auto.
    apply fle_trans with (mB (tighten gc e s)); auto.
Qed.

Lemma along_0 (P D : list K) : length D = length P -> along P f0 D = P.
Proof.
  revert D. induction P as [|p P IH]; intros [|d D] L; try discriminate; auto.
  unfold along in *. cbn [map2]. f_equal; [ring | apply IH; injection L; auto].
Qed.
Lemma along_opp (P D : list K) s : along P s (map (fun d => - d) D) = along P (- s) D.
Proof.
  revert D. induction P as [|p P IH]; intros [|d D]; auto.
  unfold along in *. cbn [map2 map]. f_equal; [ring | apply IH].
Qed.
Lemma along_length (P D : list K) s : length D = length P -> length (along P s D) = length P.
Proof.
  revert D. induction P as [|p P IH]; intros [|d D] L; try discriminate; auto.
  unfold along in *. cbn [map2 length]. f_equal. apply IH. injection L; auto.
Qed.

Lemma start_val bowl gc h (P D D' : list K) s : length D = length P -> brent_start bowl gc h P D = (D', s) ->
  length D' = length P /\ (D' = D \/ D' = map (fun d => - d) D) /\
  bval (fun x => bowl (along P x D')) s /\ bB s = bowl P /\ bb s = f0.
Proof.
  intros L E. unfold brent_start in E. destruct (fltb _ _).
  - injection E as <- <-. rewrite map_length. split; auto. split; auto. cbn. rewrite along_0 by auto.
    repeat split; cbn; try reflexivity.
    + f_equal. rewrite along_0 by (rewrite map_length; auto). auto.
    + f_equal. rewrite along_opp. f_equal. ring.
  - injection E as <- <-. split; auto. split; auto. cbn. rewrite along_0 by auto.
    repeat split; cbn; auto. f_equal. rewrite along_0 by auto. auto.
Qed.

Lemma brent_ok bowl gc tol h fuel (P D P' D' : list K) b : length D = length P ->
  brent bowl gc tol h fuel P D = Ok (b, P', D') ->
  (D' = D \/ D' = map (fun d => - d) D) /\ P' = along P b D' /\ fle (bowl P') (bowl P) = true.
Proof.
  intros L E. unfold brent in E. destruct (brent_start bowl gc h P D) as [D1 s] eqn:S.
  destruct (start_val _ _ _ _ _ _ _ L S) as (L1 & HD & V & VB & _).
  apply bind_ok in E as (m & Hm & E). injection E as <- <- <-. split; auto. split; auto.
  unfold brent_min in Hm. apply bind_ok in Hm as ([a b c A B C] & Hb & Hh).
  destruct (bracket_val _ _ _ _ _ V Hb) as ((_ & VB' & _) & LB). cbn in VB', LB.
  apply hunt_val in Hh as (Vm & Lm); [|destruct (fltb C A); cbn; auto].
  rewrite <- Vm. apply fle_trans with B; [|rewrite <- VB; auto].
  destruct (fltb C A); cbn in Lm; auto.
Qed.

(* ---- the conjugate gradient search ---- *)
Lemma cg_round_ok (bowl : list K -> K) gc tol h fuel grad lg small tl s s' stop :
  (forall W : list K, length (grad W) = length W) -> length (cD s) = length (cW s) ->
  cg_round bowl gc tol h fuel grad lg small tl s = Ok (s', stop) ->
  length (cW s') = length (cW s) /\ length (cD s') = length (cW s') /\ fle (bowl (cW s')) (bowl (cW s)) = true.
Proof.
  intros HG L E. unfold cg_round in E.
  apply bind_ok in E as ([[step W] D] & H1 & E).
  assert (HW : length W = length (cW s) /\ length D = length W /\ fle (bowl W) (bowl (cW s)) = true).
  { destruct (negb (feqb (cdgg s) f0)).
    - apply bind_ok in H1 as ([[b W1] D1] & Hb & H1). injection H1 as _ <- <-.
      destruct (brent_ok _ _ _ _ _ _ _ _ _ _ L Hb) as (HD & -> & Le).
      assert (LD : length D1 = length (cW s)) by (destruct HD as [->| ->]; rewrite ?map_length; auto).
      split; [apply along_length; auto|]. split; [rewrite along_length; auto|auto].
    - injection H1 as _ <- <-. auto using fle_refl. }
  destruct HW as (LW & LD & Le).
  assert (LG : length (map (fun x => - x) (grad W)) = length W) by (rewrite map_length; auto).
  destruct (_ || _).
  - injection E as <- <-. cbn. auto.
  - injection E as <- <-. cbn. split; auto. split; auto. destruct (negb _); auto.
    apply map2_length; auto.
Qed.

Lemma cg_loop_ok (bowl : list K -> K) gc tol h fuel grad lg small tl turns :
  (forall W : list K, length (grad W) = length W) -> forall s s', length (cD s) = length (cW s) ->
  cg_loop bowl gc tol h turns fuel grad lg small tl s = Ok s' ->
  length (cW s') = length (cW s) /\ fle (bowl (cW s')) (bowl (cW s)) = true.
Proof.
  intros HG. induction turns as [|turns IH]; intros s s' L E; cbn [cg_loop] in E.
  - injection E as <-. auto using fle_refl.
  - apply bind_ok in E as ([s1 stop] & H1 & E). destruct (cg_round_ok _ _ _ _ _ _ _ _ _ _ _ _ HG L H1) as (LW & LD & Le).
    destruct stop; [injection E as <-; auto|]. apply IH in E as (LW2 & Le2); auto. split; [congruence|].
    eapply fle_trans; eauto.
Qed.
Lemma cg_direction : forall (bowl : list K -> K) gc tol h fuel grad lg small tl s s',
  (forall W, length (grad W) = length W) -> length (cD s) = length (cW s) ->
  cg_round bowl gc tol h fuel grad lg small tl s = Ok (s', false) ->
  let g := grad (cW s') in
  cdgg s' = fold_right (fun x z => x * x + z) f0 g /\ cdgg s' <> f0 /\ cerr s' = bowl (cW s') /\
  (cdgg s = f0 -> cW s' = cW s /\ cstep s' = cstep s /\ forall i, (i < length g)%nat -> nth i (cD s') f0 = - nth i g f0) /\
  (cdgg s <> f0 -> exists b D, (D = cD s \/ D = map (fun d => - d) (cD s)) /\ cW s' = map2 (fun p d => p + b * d) (cW s) D /\
     cstep s' = cdgg s * b /\
     forall i, (i < length g)%nat -> nth i (cD s') f0 = - nth i g f0 + cdgg s' / cdgg s * nth i D f0).
Proof.
  intros bowl gc tol h fuel grad lg small tl s s' HG L E. unfold cg_round in E.
  apply bind_ok in E as ([[step W] D] & H1 & E).
  destruct (_ || _) eqn:ST; [discriminate|]. injection E as <-. cbn [cW cD cdgg cstep cerr].
  apply orb_false_iff in ST as (ST & _). apply orb_false_iff in ST as (ST & _).
  set (g := grad W) in *.
  assert (LS : forall (l : list K) (z : K), fold_left (fun s x => s + x) (map (fun x => x * x) (map (fun x => - x) l)) z = z + fold_right (fun x z => x * x + z) f0 l).
  { induction l as [|x l IH]; intros z; cbn [map fold_left fold_right]; [ring|]. rewrite IH. ring. }
  set (dgg := lsum _) in *.
  assert (DG : dgg = fold_right (fun x z => x * x + z) f0 g) by (unfold dgg, lsum; rewrite LS; ring).
  split; [exact DG|]. split. { intros Z0. destruct (feqb_spec dgg f0); [discriminate|contradiction]. }
  split; [auto|]. destruct (negb (feqb (cdgg s) f0)) eqn:NZ.
  - split. { intros Z0. destruct (feqb_spec (cdgg s) f0); [discriminate|contradiction]. }
    intros Z0. apply bind_ok in H1 as ([[b W1] D1] & Hb & H1). injection H1 as <- <- <-.
    destruct (brent_ok _ _ _ _ _ _ _ _ _ _ L Hb) as (HD & -> & _).
    exists b, D1. repeat (split; [auto|]). intros i I.
    assert (LD : length D1 = length g).
    { assert (L1 : length D1 = length (cW s)) by (destruct HD as [->| ->]; rewrite ?map_length; auto).
      unfold g. rewrite HG, along_length; auto. }
    clearbody dgg. clearbody g. clear - I LD Z0. revert D1 i I LD. induction g as [|x g IH]; intros [|d D1] [|i] I LD; cbn in *; try lia.
    + field; auto.
    + apply IH; lia.
  - split.
    + intros _. injection H1 as <- <- <-. repeat (split; [auto|]). intros i I.
      rewrite <- (map_nth (fun x => - x)). apply nth_indep. now rewrite map_length.
    + intros NE. destruct (feqb_spec (cdgg s) f0); [contradiction|discriminate].
Qed.
End General.

(* C77: whatever the error function, if the line search returns, it has moved along the direction
   or its opposite and the error has not grown. *)
Theorem C77_brent_not_worse : forall (K : ofield) (bowl : list K -> K) gc tol h fuel P D b P' D',
  length D = length P -> brent bowl gc tol h fuel P D = Ok (b, P', D') ->
  (D' = D \/ D' = map (fun d => - d) D) /\ P' = map2 (fun p d => p + b * d) P D' /\ fle (bowl P') (bowl P) = true.
Proof. intros. eapply brent_ok; eauto. Qed.

(* ... and so for the conjugate gradient search, up to the limits put on its result. *)
Theorem C77_conjgrad_not_worse : forall (K : ofield) (bowl : list K -> K) gc tol h sq lim fuel grad lg dm small tl lo hi P r P',
  (forall W, length (grad W) = length W) ->
  conjgrad bowl gc tol h sq lim fuel grad lg dm small tl lo hi P = Ok (r, P') ->
  exists W, length W = length P /\ fle (bowl W) (bowl P) = true /\ P' = map (clamp lo hi) W /\ r = step_len sq P W.
Proof.
  intros K bowl gc tol h sq lim fuel grad lg dm small tl lo hi P r P' HG E. unfold conjgrad in E.
  apply bind_ok in E as (s & Hs & E). injection E as <- <-.
  apply cg_loop_ok in Hs as (L & Le); [|exact HG|cbn [cD cW]; rewrite map_length; auto].
  exists (cW s). cbn in L, Le. auto.
Qed.

(* Each turn searches along the last direction and then turns to the downhill direction at the new
   point plus the last direction times the ratio of the squared lengths of the gradients; the first
   turn, with no last direction, only turns downhill. *)
Theorem C77_conjgrad_direction : forall (K : ofield) (bowl : list K -> K) gc tol h fuel grad lg small tl s s',
  (forall W, length (grad W) = length W) -> length (cD s) = length (cW s) ->
  cg_round bowl gc tol h fuel grad lg small tl s = Ok (s', false) ->
  let g := grad (cW s') in
  cdgg s' = fold_right (fun x z => x * x + z) f0 g /\ cdgg s' <> f0 /\ cerr s' = bowl (cW s') /\
  (cdgg s = f0 -> cW s' = cW s /\ cstep s' = cstep s /\ forall i, (i < length g)%nat -> nth i (cD s') f0 = - nth i g f0) /\
  (cdgg s <> f0 -> exists b D, (D = cD s \/ D = map (fun d => - d) (cD s)) /\ cW s' = map2 (fun p d => p + b * d) (cW s) D /\
     cstep s' = cdgg s * b /\
     forall i, (i < length g)%nat -> nth i (cD s') f0 = - nth i g f0 + cdgg s' / cdgg s * nth i D f0).
Proof. intros K. apply cg_direction. Qed.

(* The limits: what is left inside is left alone, and everything ends up inside. *)
Theorem C77_clamp : forall (K : ofield) (lo hi x : K), fle lo hi = true ->
  fle lo (clamp lo hi x) = true /\ fle (clamp lo hi x) hi = true /\
  (fle lo x = true -> fle x hi = true -> clamp lo hi x = x).
Proof.
  intros K lo hi x H. unfold clamp. destruct (fltb lo x) eqn:E1.
  - destruct (fltb hi x) eqn:E2.
    + split; auto. split; [apply fle_refl|]. intros _ L. apply fltb_spec in E2 as (A & B). destruct B. apply fle_antisym; auto.
    + apply fltb_false in E2. apply fltb_le in E1. auto.
  - apply fltb_false in E1. assert (E2 : fltb hi lo = false) by (apply fltb_false; auto). rewrite E2.
    split; [apply fle_refl|]. split; auto. intros L _. apply fle_antisym; auto.
Qed.

(* The point that a parabola through three points turns at. *)
Section Vertex.
Context {K : ofield}.
Add Field Kf42 : (f_th K).
Definition parabola (al be ga t : K) : K := al * t * t + be * t + ga.
Definition turning (al be : K) : K := - be / ((f1 + f1) * al).

Lemma sub_nz (x y : K) : x <> y -> x - y <> f0.
Proof. intros N E. apply N. replace x with (x - y + y) by ring. rewrite E. ring. Qed.

Lemma vertex1_mirror al be ga a b c : al <> f0 -> a <> b -> b <> c -> a <> c ->
  vertex1 (Brk a b c (parabola al be ga a) (parabola al be ga b) (parabola al be ga c)) = b + b - turning al be.
Proof.
  intros Na Nab Nbc Nac. unfold vertex1. cbn [ba bb bc bA bB bC].
  pose proof two_nz (K := K) as N2. unfold two in *.
  assert (Q : (b - c) * (parabola al be ga b - parabola al be ga a) - (b - a) * (parabola al be ga b - parabola al be ga c)
    = (b - a) * (b - c) * al * (a - c)) by (unfold parabola; ring).
  assert (NQ : (b - a) * (b - c) * al * (a - c) <> f0).
  { repeat apply fmul_nz; auto; apply sub_nz; auto. }
  destruct (feqb_spec ((b - a) * (parabola al be ga b - parabola al be ga c)) ((b - c) * (parabola al be ga b - parabola al be ga a))) as [E|E].
  - elim NQ. rewrite <- Q, E. ring.
  - cbn [negb]. rewrite Q. unfold turning, parabola. field.
    repeat split; auto; apply sub_nz; auto.
Qed.

Lemma vertex2_turning al be ga a b c y z : al <> f0 -> y <> b -> b <> z -> y <> z ->
  vertex2 (Mins a b c y z (parabola al be ga b) (parabola al be ga y) (parabola al be ga z)) = turning al be.
Proof.
  intros Na Nab Nbc Nac. unfold vertex2. cbn [mb my mz mB mY mZ].
  pose proof two_nz (K := K) as N2. unfold two in *.
  assert (Q : (b - z) * (parabola al be ga b - parabola al be ga y) - (b - y) * (parabola al be ga b - parabola al be ga z)
    = (b - y) * (b - z) * al * (y - z)) by (unfold parabola; ring).
  assert (NQ : (b - y) * (b - z) * al * (y - z) <> f0).
  { repeat apply fmul_nz; auto; apply sub_nz; auto. }
  destruct (feqb_spec ((b - z) * (parabola al be ga b - parabola al be ga y)) ((b - y) * (parabola al be ga b - parabola al be ga z))) as [E|E].
  - elim NQ. rewrite <- Q, E. ring.
  - cbn [negb]. rewrite Q. unfold turning, parabola. field.
    repeat split; auto; apply sub_nz; auto.
Qed.

(* On a level error nothing is ever bracketed. *)
Lemma bracket_level (gc k : K) fuel : forall s, bA s = k -> bB s = k -> bC s = k ->
  bracket gc fuel (fun _ : K => k) s = UB OutOfFuel.
Proof.
  induction fuel as [|fuel IH]; intros s EA EB EC; cbn [bracket]; rewrite EA, EB, EC, fle_refl; cbn [andb]; auto.
  destruct s as [a b c A B C]. cbn [bA bB bC] in *. subst. rewrite fltb_irr.
  destruct (_ && _); [|destruct (fltb c _)]; apply IH; auto.
Qed.
End Vertex.

(* "x is the turning point of a parabola through A, B, C" (line 2287): refuted, it is its mirror
   image about b, whatever the parabola.  The second loop has it right. *)
Theorem C77_turning_point_refuted : forall (K : ofield) (al be ga a b c : K), al <> f0 -> a <> b -> b <> c -> a <> c ->
  vertex1 (Brk a b c (parabola al be ga a) (parabola al be ga b) (parabola al be ga c)) = b + b - turning al be.
Proof. intros. apply vertex1_mirror; auto. Qed.
Theorem C77_turning_point : forall (K : ofield) (al be ga a b c y z : K), al <> f0 -> y <> b -> b <> z -> y <> z ->
  vertex2 (Mins a b c y z (parabola al be ga b) (parabola al be ga y) (parabola al be ga z)) = turning al be.
Proof. intros. apply vertex2_turning; auto. Qed.

(* If the error does not depend on the moduli (a layer that does not matter), brent never returns. *)
Theorem C77_level_never_ends_refuted : forall (K : ofield) (k : K) gc tol h fuel P D,
  brent (fun _ => k) gc tol h fuel P D = UB OutOfFuel.
Proof.
  intros. unfold brent. destruct (brent_start _ gc h P D) as [D1 s] eqn:S.
  unfold brent_min. rewrite bracket_level with (k := k); auto; unfold brent_start in S; rewrite fltb_irr in S; injection S as _ <-; auto.
Qed.

(* An error that is strictly convex along the line: between two points it lies below their chord. *)
Definition convex_along (K : ofield) (e : K -> K) : Prop := forall s t u, fltb s t = true -> fltb t u = true ->
  fltb (e t * (u - s)) (e s * (u - t) + e u * (t - s)) = true.

Section Convex.
Context {K : ofield}.
Add Field Kf43 : (f_th K).
Notation "2" := (f1 + f1).
Notation "3" := (2 + f1).
Notation "4" := (2 * 2).
Notation "8" := (2 * 4).
Notation "9" := (3 * 3).
Notation "24" := (3 * 8).
Notation "945" := (3 * 9 * (4 + f1) * (4 + 3)).

Definition quartic (ep q s : K) : K := (s + q) * (s + q) + ep * (s * (s + 4 * q) * (s - 8 * q) * (s + q)).

Lemma fpos_mul (x y : K) : fltb f0 x = true -> fltb f0 y = true -> fltb f0 (x * y) = true.
Proof.
  intros A B. apply fltb_spec in A as (A & NA), B as (B & NB). apply fltb_spec. split; [apply fle_mul; auto|].
  intros E. symmetry in E. apply fmul_0 in E as [E|E]; congruence.
Qed.
Lemma fpos_add (x y : K) : fle f0 x = true -> fltb f0 y = true -> fltb f0 (x + y) = true.
Proof.
  intros A B. apply fltb_spec in B as (B & NB). apply fltb_spec. split; [apply fadd_nonneg; auto|].
  intros E. symmetry in E. apply fadd_0_nonneg in E as (_ & E); auto.
Qed.
Lemma flt_0_sub (x y : K) : fltb f0 (y - x) = fltb x y.
Proof.
  destruct (fltb x y) eqn:E.
  - apply fltb_spec in E as (A & B). apply fltb_spec. split; [apply (proj1 (fle_sub x y)); auto|].
    intros C. apply B. replace y with (y - x + x) by ring. rewrite <- C. ring.
  - apply fltb_false in E. apply fltb_false. apply (proj2 (fle_sub _ _)). apply (proj1 (fle_sub _ _)) in E.
    replace (f0 - (y - x)) with (x - y) by ring. auto.
Qed.
Lemma quartic_convex (ep q : K) : fle f0 ep = true -> fltb f0 (24 - 945 * ep * q * q) = true -> convex_along K (quartic ep q).
Proof.
  intros He Hq s t u A B. rewrite <- flt_0_sub in A, B. rewrite <- flt_0_sub.
  assert (C : fltb f0 (u - s) = true).
  { replace (u - s) with ((t - s) + (u - t)) by ring. apply fpos_add; auto. apply fltb_le; auto. }
  assert (P24 : fltb f0 (24 : K) = true).
  { assert (P2 : fltb f0 (2 : K) = true) by (apply fpos_add; [apply f0_le_f1|apply fltb_spec; split; [apply f0_le_f1|]; intros E; exact (f1_neq_f0 (eq_sym E))]).
    assert (P3 : fltb f0 (3 : K) = true) by (apply fpos_add; [apply fltb_le; auto|apply fltb_spec; split; [apply f0_le_f1|]; intros E; exact (f1_neq_f0 (eq_sym E))]).
    repeat apply fpos_mul; auto. }
  set (r := quartic ep q s * (u - t) + quartic ep q u * (t - s) - quartic ep q t * (u - s)).
  set (p := s + t + u).
  assert (E : (24 : K) * r = (t - s) * (u - t) * (u - s) *
    (ep * (4 * ((s - t) * (s - t) + (t - u) * (t - u) + (u - s) * (u - s)) + (4 * p - 9 * q) * (4 * p - 9 * q)) + (24 - 945 * ep * q * q))).
  { subst r p. unfold quartic. ring. }
  assert (P : fltb f0 ((24 : K) * r) = true).
  { rewrite E. repeat apply fpos_mul; auto. apply fpos_add; auto. apply fle_mul; auto.
    assert (N : fle f0 (4 : K) = true) by (apply fle_mul; apply fadd_nonneg; apply f0_le_f1).
    apply fadd_nonneg; [|apply fsqr_nonneg]. apply fle_mul; auto.
    apply fadd_nonneg; [apply fadd_nonneg|]; apply fsqr_nonneg. }
  apply fltb_spec in P24 as (P24 & N24). apply fltb_spec in P as (P & NP). apply fltb_spec. split.
  - destruct (fle f0 r) eqn:F; auto. assert (F' : fle r f0 = true) by (destruct (fle_total K r f0); congruence).
    apply (proj1 (fle_sub _ _)) in F'. assert (G : fle f0 ((24 : K) * (f0 - r)) = true) by (apply fle_mul; auto).
    assert (S0 : (24 : K) * r + (24 : K) * (f0 - r) = f0) by ring.
    apply fadd_0_nonneg in S0 as (Z & _); auto.
  - intros Z. apply NP. rewrite <- Z. ring.
Qed.
End Convex.

Definition q80 : QcF := f1 / qz 80.
Definition e_stall : QcF -> QcF := quartic (qz 100) q80.
Definition bowl1 (e : QcF -> QcF) (P : list QcF) : QcF := match P with [x] => e x | _ => f0 end.

(* "brent finds the minimum along D": refuted.  The error is strictly convex and everywhere
   defined, the second parabola passes through the same point as the first one, and the interval
   that is left is on the wrong side of it: the minimum is more than 1000 times the tolerance away. *)
Theorem C77_brent_stalls_refuted : convex_along QcF e_stall /\
  exists b x y, brent (bowl1 e_stall) (f1 / qz 2) (f1 / qz 1000000) (f1 / qz 20) 40 [f0] [f1] = Ok (b, [b], [f1]) /\
    y = b - qz 1000 * (f1 / qz 1000000 * (f1 + b)) /\
    fltb x y = true /\ fltb (e_stall x) (e_stall y) = true /\ fltb (e_stall y) (e_stall b) = true.
Proof.
  split. { apply quartic_convex; vm_compute; reflexivity. }
  exists (- q80), (- q80 - f1 / qz 500), (- q80 - qz 1000 * (f1 / qz 1000000 * (f1 + - q80))).
  repeat split; vm_compute; reflexivity.
Qed.

(* "b stays between a and c and brent ends at a low point": refuted for an error that is not convex.
   The error falls from 0 to 1, and rises again after it; brent stops at 1/10. *)
Definition e_hill (x : QcF) : QcF :=
  if fle x f1 then qz 2 - (x + qz 3 / qz 50) * (x + qz 3 / qz 50) else qz 2 - qz 2809 / qz 2500 + (x - f1).
Theorem C77_brent_hill_refuted :
  (exists b P', brent (bowl1 e_hill) (f1 / qz 2) (f1 / qz 1000000) (f1 / qz 20) 40 [f0] [f1] = Ok (b, P', [f1]) /\
    b = f1 / qz 10) /\
  (forall x, fltb (f1 / qz 10) x = true -> fle x f1 = true -> fltb (e_hill x) (e_hill (f1 / qz 10)) = true).
Proof.
  split. { do 2 eexists. split; [vm_compute; reflexivity|]. apply Qc_is_canon. vm_compute. reflexivity. }
  intros x A B. unfold e_hill. rewrite B. replace (fle (f1 / qz 10) f1) with true by reflexivity.
  rewrite <- flt_0_sub in *. set (a := f1 / qz 10) in *. set (k := qz 3 / qz 50).
  replace (qz 2 - (a + k) * (a + k) - (qz 2 - (x + k) * (x + k))) with ((x - a) * ((x - a) + (a + a + k + k)))
    by (cbn; ring).
  apply fpos_mul; auto. apply fpos_add; [apply fltb_le; auto|]. vm_compute. reflexivity.
Qed.

(* ---- cases that meet the conditions ---- *)
Definition e_par (x : QcF) : QcF := (x - qz 3) * (x - qz 3).
Definition P3 (r : outcome (QcF * list QcF * list QcF)) : list Z :=
  match r with Ok (b, p, d) => map (fun x : QcF => Qround.Qfloor (this (x * qz 1000000))) (b :: p ++ d) | _ => [] end.
Example C77_demo : P3 (brent (bowl1 e_par) (f1 / qz 2) (f1 / qz 1000) (f1 / qz 20) 40 [f1] [f1]) = [2000000; 3000000; 1000000]%Z /\
  bowl1 e_par [qz 1] = qz 4.
Proof. vm_compute. auto. Qed.
Example C77_demo_back : P3 (brent (bowl1 e_par) (f1 / qz 2) (f1 / qz 1000) (f1 / qz 20) 40 [qz 5] [f1]) = [2000000; 3000000; -1000000]%Z.
Proof. vm_compute. auto. Qed.
Print Assumptions C77_brent_not_worse.
Print Assumptions C77_conjgrad_not_worse.
Print Assumptions C77_conjgrad_direction.
Print Assumptions C77_clamp.
Print Assumptions C77_turning_point_refuted.
Print Assumptions C77_turning_point.
Print Assumptions C77_level_never_ends_refuted.
Print Assumptions C77_brent_stalls_refuted.
Print Assumptions C77_brent_hill_refuted.
