(* The line search over the real numbers, for strictly convex errors. *)
From Coq Require Import List Bool Reals Lra Lia Psatz Field.
From Verif Require Import Base LinBase LinReal BowlModel PropsBrent.
Import ListNotations.
Local Open Scope R_scope.

Definition strictly_convex (e : R -> R) : Prop :=
  forall s t u, s < t -> t < u -> e t * (u - s) < e s * (u - t) + e u * (t - s).

Lemma Rfle_spec (x y : R) : reflect (x <= y) (@fle RF x y).
Proof. change (@fle RF x y) with (Rleb x y). unfold Rleb. destruct (Rle_dec x y); constructor; auto. Qed.
Lemma Rfltb_spec (x y : R) : reflect (x < y) (@fltb RF x y).
Proof. unfold fltb. destruct (Rfle_spec y x); constructor; lra. Qed.
Lemma Rfeqb_spec (x y : R) : reflect (x = y) (@feqb RF x y).
Proof. apply (feqb_spec (K := RF)). Qed.

Ltac rf := change (@fadd RF) with Rplus in *; change (@fsub RF) with Rminus in *; change (@fmul RF) with Rmult in *;
  change (@fdiv RF) with Rdiv in *; change (@fopp RF) with Ropp in *; change (@f1 RF) with 1 in *; change (@f0 RF) with 0 in *;
  change (car RF) with R in *.

Lemma convex_vertex e a b c : strictly_convex e -> a < b -> b < c -> e b <= e a -> e c <= e b ->
  @vertex1 RF (Brk (K := RF) a b c (e a) (e b) (e c)) <= b.
Proof.
  intros Cv ab lbc BA CB. unfold vertex1, two. cbn [ba bb bc bA bB bC]. rf.
  pose proof (Cv a b c ab lbc) as H.
  destruct (Rfeqb_spec ((b - a) * (e b - e c)) ((b - c) * (e b - e a))) as [E|E].
  - exfalso. nra.
  - cbn [negb]. set (N := (b - a) * ((b - a) * (e b - e c)) - (b - c) * ((b - c) * (e b - e a))).
    set (M := (1 + 1) * ((b - c) * (e b - e a) - (b - a) * (e b - e c))).
    assert (0 < M) by (unfold M; nra).
    assert (HN : 0 <= N).
    { unfold N. assert (0 <= (b - a) * (b - a) * (e b - e c)) by (apply Rmult_le_pos; nra).
      assert (0 <= (b - c) * (b - c) * (e a - e b)) by (apply Rmult_le_pos; nra). nra. }
    assert (0 <= N / M). { apply Rmult_le_pos; [auto|]. left. apply Rinv_0_lt_compat; auto. }
    lra.
Qed.

Definition bgood (e : R -> R) (s : brk (K := RF)) : Prop := ba s < bb s /\ bb s < bc s /\ bval (K := RF) e s /\ bB s <= bA s.

Lemma bracket_convex gc e fuel : strictly_convex e -> 0 < gc < 1 -> forall s t, bgood e s ->
  @bracket RF gc fuel e s = Ok t -> bgood e t /\ bB t < bC t /\ bb s <= bb t.
Proof.
  intros Cv Hg. induction fuel as [|fuel IH]; intros s t G E; cbn [bracket] in E.
  - destruct (Rfle_spec (bB s) (bA s)); destruct (Rfle_spec (bC s) (bB s)); cbn [andb] in E; try discriminate; injection E as <-;
    destruct G as (G1 & G2 & G3 & G4); (split; [repeat split; auto; apply G3 | split; lra]).
  - destruct (Rfle_spec (bB s) (bA s)) as [L1|L1]; [|destruct G as (_ & _ & _ & G4); lra].
    destruct (Rfle_spec (bC s) (bB s)) as [L2|L2]; cbn [andb] in E.
    2:{ injection E as <-. split; auto. split; lra. }
    destruct s as [a b c A B C]. destruct G as (ab & bc' & (VA & VB & VC) & _). cbn [ba bb bc bA bB bC] in *. subst A B C.
    pose proof (convex_vertex e a b c Cv ab bc' L1 L2) as Hx. remember (@vertex1 RF _) as x eqn:Ex; clear Ex.
    destruct (Rfltb_spec b x) as [F|_]; [lra|]. cbn [andb] in E.
    destruct (Rfltb_spec c x) as [F|_]; [lra|].
    assert (Gr : 0 < (c - b) * @gr RF gc).
    { unfold gr. rf. apply Rmult_lt_0_compat; [lra|]. unfold Rdiv. rewrite Rmult_1_l. apply Rinv_0_lt_compat. lra. }
    rf. apply IH in E as (G & L & M).
    + cbn [bb] in M. split; auto. split; auto. lra.
    + unfold bgood, bval. cbn [ba bb bc bA bB bC]. repeat split; auto; rf; try lra.
Qed.

(* the states the second loop makes a step from *)
Inductive hunts (gc tol : R) (e : R -> R) : mins (K := RF) -> mins (K := RF) -> Prop :=
| hunts_here s : tol * (1 + @mb RF s) < @mc RF s - @ma RF s -> hunts gc tol e s s
| hunts_next s t : tol * (1 + @mb RF s) < @mc RF s - @ma RF s -> hunts gc tol e (@tighten RF gc e s) t -> hunts gc tol e s t.

Definition mgood (e : R -> R) (s : mins (K := RF)) : Prop :=
  ma s < mb s /\ mb s < mc s /\ mB s = e (mb s) /\ mB s <= e (ma s) /\ mB s <= e (mc s).

Lemma trial_inside gc (s : mins (K := RF)) : 0 < gc < 1 -> ma s < mb s -> mb s < mc s ->
  ma s < @trial RF gc s < mc s.
Proof.
  intros Hg A B. unfold trial. remember (@vertex2 RF s) as x eqn:Ex; clear Ex.
  destruct s as [a b c y z B' Y Z]. cbn [ma mb mc] in *. unfold two. rf.
  destruct (Rfeqb_spec x 0); cbn [orb].
  2: destruct (Rfltb_spec x ((a + b) / (1 + 1))); cbn [orb].
  3: destruct (Rfltb_spec ((b + c) / (1 + 1)) x); [|lra].
  all: destruct (Rfltb_spec (c - b) (b - a)); nra.
Qed.

Lemma tighten_good gc e (s : mins (K := RF)) : 0 < gc < 1 -> mgood e s -> @trial RF gc s <> mb s -> mgood e (@tighten RF gc e s).
Proof.
  intros Hg (A & B & V & La & Lc) N. pose proof (trial_inside gc s Hg A B) as T. unfold tighten.
  remember (@trial RF gc s) as x eqn:Ex; clear Ex.
  destruct s as [a b c y z B' Y Z]. cbn [ma mb mc mB] in *. rf.
  destruct (Rfle_spec (e x) B').
  - destruct (Rfltb_spec x b); unfold mgood; cbn; repeat split; lra.
  - destruct (_ || _); [|destruct (_ || _)];
    destruct (Rfltb_spec x b); unfold mgood; cbn; repeat split; lra.
Qed.

Lemma hunt_good gc tol e fuel : 0 < gc < 1 -> forall s t : mins (K := RF), mgood e s ->
  (forall u, hunts gc tol e s u -> @trial RF gc u <> mb u) -> @hunt RF gc tol fuel e s = Ok t ->
  mgood e t /\ mc t - ma t <= tol * (1 + mb t).
Proof.
  intros Hg. induction fuel as [|fuel IH]; intros s t G N E; cbn [hunt] in E; rf;
  destruct (Rfltb_spec (tol * (1 + mb s)) (mc s - ma s)); try discriminate; try (injection E as <-; split; auto; lra).
  apply IH in E; auto.
  - apply tighten_good; auto. apply N. constructor; auto.
  - intros u Hu. apply N. apply hunts_next; auto.
Qed.

(* the state the second loop starts from *)
Definition hunt_from (s : brk (K := RF)) : mins (K := RF) :=
  let '(Brk a b c A B C) := s in if @fltb RF C A then Mins a b c c a B C A else Mins a b c a c B A C.

Lemma convex_min e a b c m : strictly_convex e -> a < b -> b < c -> e b <= e a -> e b <= e c ->
  (forall s, e m <= e s) -> a <= m <= c.
Proof.
  intros Cv ab bc Ha Hc Hm. split.
  - destruct (Rle_lt_dec a m); auto. exfalso. pose proof (Cv m a b r ab). pose proof (Hm b). nra.
  - destruct (Rle_lt_dec m c); auto. exfalso. pose proof (Cv b c m bc r). pose proof (Hm b). nra.
Qed.

Lemma start_good bowl gc h P D D' s : 0 < gc < 1 -> 0 < h -> length D = length P ->
  @brent_start RF bowl gc h P D = (D', s) ->
  strictly_convex (fun x => bowl (along (K := RF) P x D')) -> bgood (fun x => bowl (along (K := RF) P x D')) s /\ bb s = 0.
Proof.
  intros Hg Hh L E Cv.
  destruct (start_val (K := RF) _ _ _ _ _ _ _ L E) as (L' & HD & V & VB & V0). split; [|exact V0].
  assert (Gp : 0 < @gr RF gc). { unfold gr. rf. unfold Rdiv. rewrite Rmult_1_l. apply Rinv_0_lt_compat. lra. }
  assert (G : ba s < 0 /\ 0 < bc s /\ (bB s <= bA s \/ bC s < bB s)).
  { unfold brent_start in E. rf.
    destruct (Rfltb_spec (bowl (along (K := RF) P (- h) D)) (bowl (along (K := RF) P 0 D))) as [F|F]; injection E as <- <-;
    cbn [ba bb bc bA bB bC].
    - rf. assert (0 < h * / @gr RF gc) by (apply Rmult_lt_0_compat; [auto | apply Rinv_0_lt_compat; auto]).
      unfold gr in *. rf. split; [|split; [|right; exact F]].
      2: lra.
      unfold Rdiv. rewrite Ropp_involutive. lra.
    - unfold gr in *. rf. split; [lra|]. rewrite Ropp_involutive. split; [apply Rmult_lt_0_compat; auto|left; apply Rnot_lt_le; exact F]. }
  clear E. destruct s as [a b c A B C]. destruct G as (Ga & Gc & Go). destruct V as (VA & VB2 & VC).
  cbn [ba bb bc bA bB bC] in *. rf. subst b. unfold bgood, bval. cbn [ba bb bc bA bB bC]. rf. repeat split; auto.
  destruct Go as [|Go]; auto. pose proof (Cv a 0 c Ga Gc) as H. cbn beta in H. rewrite <- VA, <- VB2, <- VC in H.
  assert (0 < (B - C) * (- a)) by (apply Rmult_lt_0_compat; lra). nra.
Qed.

(* C77, convex errors: unless a trial point falls exactly on the best point so far, the distance
   that brent returns is within its tolerance of the minimum along the line. *)
Theorem C77_brent_convex_partial : forall (bowl : list R -> R) gc tol h fuel P D b P' D' m,
  0 < gc < 1 -> 0 < h -> length D = length P ->
  @brent RF bowl gc tol h fuel P D = Ok (b, P', D') ->
  let e := fun x => bowl (map2 (fun p d => p + x * d) P D') in
  strictly_convex e -> (forall x, e m <= e x) ->
  (forall s u, @bracket RF gc fuel e (snd (@brent_start RF bowl gc h P D)) = Ok s ->
     hunts gc tol e (hunt_from s) u -> @trial RF gc u <> mb u) ->
  Rabs (m - b) <= tol * (1 + b).
Proof.
  intros bowl gc tol h fuel P D b P' D' m Hg Hh L E e Cv Hm N. unfold brent in E.
  destruct (@brent_start RF bowl gc h P D) as [D1 s] eqn:S. cbn [snd] in N.
  apply bind_ok in E as (t & Ht & E). injection E as <- <- <-.
  change (fun x : car RF => bowl (along (K := RF) P x D1)) with e in Ht.
  destruct (start_good _ _ _ _ _ _ _ Hg Hh L S Cv) as (G & _).
  unfold brent_min in Ht. apply bind_ok in Ht as (s1 & Hs & Hh1).
  destruct (bracket_convex gc e fuel Cv Hg s s1 G Hs) as ((A & B & (VA & VB & VC) & AB) & BC & _).
  assert (G1 : mgood e (hunt_from s1)).
  { destruct s1 as [a b c A' B' C']. cbn in *. unfold hunt_from. destruct (@fltb RF C' A'); unfold mgood; cbn; repeat split; lra. }
  assert (E1 : @hunt RF gc tol fuel e (hunt_from s1) = Ok t) by (destruct s1; exact Hh1).
  destruct (hunt_good gc tol e fuel Hg _ _ G1 (fun u => N s1 u Hs) E1) as ((ta & tc & tv & tla & tlc) & W).
  rewrite tv in tla, tlc.
  pose proof (convex_min e _ _ _ m Cv ta tc tla tlc Hm). apply Rabs_le. rf. lra.
Qed.

(* a case that meets the conditions: the parabola with its lowest point at 1/25 *)
Definition bowl_ex (P : list R) : R := match P with [x] => (x - 1/25) * (x - 1/25) | _ => 0 end.
Example brent_ex_convex : strictly_convex (fun x => bowl_ex (map2 (fun p d => p + x * d) [0] [1])).
Proof.
  intros s t u st tu. cbn.
  assert (0 < (t - s) * (u - t) * (u - s)) by (repeat apply Rmult_lt_0_compat; lra). nra.
Qed.

Definition s_ex : brk (K := RF) := @Brk RF (-1/20) 0 (1/10) (81/10000) (16/10000) (36/10000).
Definition e_ex (x : R) : R := bowl_ex (map2 (fun p d => p + x * d) [0] [1]).
Lemma brent_ex_start : @brent_start RF bowl_ex (1/2) (1/20) [0] [1] = ([1], s_ex).
Proof.
  unfold brent_start, along. cbn [map2 bowl_ex]. unfold gr. rf.
  destruct (Rfltb_spec ((0 + - (1 / 20) * 1 - 1 / 25) * (0 + - (1 / 20) * 1 - 1 / 25)) ((0 + 0 * 1 - 1 / 25) * (0 + 0 * 1 - 1 / 25))) as [H|H];
    [exfalso; lra|]. unfold s_ex. f_equal. f_equal; field.
Qed.
Lemma brent_ex_bracket fuel : @bracket RF (1/2) fuel e_ex s_ex = Ok s_ex.
Proof.
  assert (E : (@fle RF (bB s_ex) (bA s_ex) && @fle RF (bC s_ex) (bB s_ex))%bool = false).
  { unfold s_ex. cbn [bA bB bC]. destruct (Rfle_spec (36/10000) (16/10000)); [exfalso; lra|]. apply Bool.andb_false_r. }
  destruct fuel; cbn [bracket]; rewrite E; reflexivity.
Qed.
Definition m_ex : mins (K := RF) := @Mins RF (-1/20) 0 (1/10) (1/10) (-1/20) (16/10000) (36/10000) (81/10000).
Lemma brent_ex_from : hunt_from s_ex = m_ex.
Proof. unfold hunt_from, s_ex. destruct (Rfltb_spec (36/10000) (81/10000)); [reflexivity|exfalso; lra]. Qed.
Lemma brent_ex_trial : @trial RF (1/2) m_ex = 1/25.
Proof.
  unfold trial. assert (V : @vertex2 RF m_ex = 1/25).
  { unfold vertex2, m_ex, two. cbn [mb my mz mB mY mZ]. rf.
    destruct (Rfeqb_spec ((0 - -1 / 20) * (16 / 10000 - 36 / 10000)) ((0 - 1 / 10) * (16 / 10000 - 81 / 10000))); [exfalso; lra|].
    cbn [negb]. field. }
  rewrite V. unfold m_ex, two. rf.
  destruct (Rfeqb_spec (1/25) 0); [exfalso; lra|].
  destruct (Rfltb_spec (1/25) ((-1 / 20 + 0) / (1 + 1))); [exfalso; lra|].
  destruct (Rfltb_spec ((0 + 1 / 10) / (1 + 1)) (1/25)); [exfalso; lra|]. reflexivity.
Qed.
Definition n_ex : mins (K := RF) := @Mins RF 0 (1/25) (1/10) 0 (1/10) 0 (16/10000) (36/10000).
Lemma brent_ex_tighten : @tighten RF (1/2) e_ex m_ex = n_ex.
Proof.
  unfold tighten. rewrite brent_ex_trial. assert (V : e_ex (1/25) = 0) by (unfold e_ex; cbn; field). rewrite V.
  unfold m_ex, n_ex. rf. destruct (Rfle_spec 0 (16/10000)); [|exfalso; lra].
  destruct (Rfltb_spec (1/25) 0); [exfalso; lra|]. reflexivity.
Qed.
(* one round of the second loop and the lowest point is found *)
Example brent_ex_run : @brent RF bowl_ex (1/2) (1/10) (1/20) 2 [0] [1] = Ok (1/25, [0 + 1/25 * 1], [1]).
Proof.
  unfold brent. rewrite brent_ex_start. unfold brent_min. fold e_ex.
  change (fun x : car RF => bowl_ex (along (K := RF) [0] x [1])) with e_ex. rewrite brent_ex_bracket. cbn [bind].
  change ((let* m := @hunt RF (1/2) (1/10) 2 e_ex (hunt_from s_ex) in Ok (mb m, along (K := RF) [0] (mb m) [1], [1])) = Ok (1/25, [0 + 1/25 * 1], [1])).
  rewrite brent_ex_from.
  cbn [hunt]. unfold m_ex at 1 2 3. cbn [ma mb mc]. rf.
  destruct (Rfltb_spec (1/10 * (1 + 0)) (1/10 - -1/20)); [|exfalso; lra]. rewrite brent_ex_tighten.
  unfold n_ex. cbn [ma mb mc]. rf.
  destruct (Rfltb_spec (1/10 * (1 + 1/25)) (1/10 - 0)); [exfalso; lra|]. reflexivity.
Qed.
Example brent_ex_trials : forall s u, @bracket RF (1/2) 2 e_ex (snd (@brent_start RF bowl_ex (1/2) (1/20) [0] [1])) = Ok s ->
  hunts (1/2) (1/10) e_ex (hunt_from s) u -> @trial RF (1/2) u <> mb u.
Proof.
  intros s u H. rewrite brent_ex_start in H. cbn [snd] in H. rewrite brent_ex_bracket in H. injection H as <-.
  rewrite brent_ex_from. intros H. inversion H; subst.
  - rewrite brent_ex_trial. unfold m_ex. cbn. lra.
  - rewrite brent_ex_tighten in H1. inversion H1; subst; unfold n_ex in *; cbn in H2; exfalso; lra.
Qed.
Example brent_ex_close : Rabs (1/25 - 1/25) <= 1/10 * (1 + 1/25).
Proof.
  apply (C77_brent_convex_partial bowl_ex (1/2) (1/10) (1/20) 2 [0] [1] (1/25) [0 + 1/25 * 1] [1] (1/25)); try lra; eauto using brent_ex_run, brent_ex_convex, brent_ex_trials.
  intros x. cbn. assert (H := Rle_0_sqr (0 + x * 1 - 1/25)). unfold Rsqr in H. lra.
Qed.
Print Assumptions C77_brent_convex_partial.
