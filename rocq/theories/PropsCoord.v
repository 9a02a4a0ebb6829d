(* C89: the corners of an element are put in order, and its nodes are where its shape functions want them. *)
From Coq Require Import List ZArith Bool Arith Lia Field QArith Qcanon.
From Verif Require Import Base LinBase SmatModel SmatProofs IncholModel IncholProofs PropsQr PcgModel PcgProofs BcModel BcProofs PropsBc ShapeModel PropsShape StiffModel StiffProofs PropsStiff CoordModel.
Import ListNotations.
Local Open Scope nat_scope.

(* ---- specification ---- *)
Section Spec.
Context {K : ofield}.
Local Open Scope lin_scope.
(* which bit of the number of a corner tells the two sides of direction c apart *)
Definition bit (c : nat) : nat := match c with 0 => 1 | 1 => 0 | _ => 2 end.
(* the sum of coordinate c over one side *)
Definition side (cc : list (v3 K)) (c : nat) (b : bool) : K :=
  sumr 0 8 (fun l => if Bool.eqb (Nat.testbit l (bit c)) b then gv (nth l cc zerov) c else f0).
Definition in_order (cc : list (v3 K)) : Prop := forall c, c < 3 -> fltb (side cc c false) (side cc c true) = true.
Definition flat (cc : list (v3 K)) : Prop := exists c, c < 3 /\ side cc c false = side cc c true.
(* the corners seen in a mirror: every direction in r is turned round *)
Definition mirror (r : nat) (cc cc' : list (v3 K)) : Prop := length cc' = 8 /\ forall l, l < 8 -> nth l cc' zerov = nth (Nat.lxor l r) cc zerov.
(* corner l of the box with its middle at c and half its size h *)
Definition corner (c h : nat -> K) (l : nat) : v3 K := genv (fun d => if Nat.testbit l (bit d) then c d + h d else c d - h d).
(* where the middle and the size of the mapping of a shape are *)
Definition mid (s : shape) (c h : K) : K := match s with InfPos => c + h | InfNeg => c - h | _ => c end.
Definition reach (s : shape) (h : K) : K := match s with InfPos | InfNeg => num 2 * h | _ => h end.
Definition by_dir {A} (x y z : A) (d : nat) : A := match d with 0 => x | 1 => y | _ => z end.
End Spec.

Section Proofs.
Context {K : ofield}.
Local Open Scope lin_scope.
Add Field Kf74 : (f_th K).

Lemma eight (f : nat -> K) : sumr 0 8 f = f 0%nat + f 1%nat + f 2 + f 3 + f 4 + f 5 + f 6 + f 7.
Proof. rewrite !sumr_S, sumr_nil by lia. ring. Qed.
Lemma list8 {A} (l : list A) : length l = 8 -> exists a b c d e f g h, l = [a; b; c; d; e; f; g; h].
Proof. intros H. do 8 (destruct l as [|? l]; [discriminate|]). destruct l; [|discriminate]. repeat eexists. Qed.
Lemma tri (x y : K) : fltb x y = true \/ fltb y x = true \/ x = y.
Proof.
  destruct (fltb x y) eqn:A; auto. destruct (fltb y x) eqn:B; auto. right. right. unfold fltb in A, B. apply negb_false_iff in A, B. now apply fle_antisym.
Qed.
Lemma lt_not (x y : K) : fltb x y = true -> fltb y x = false.
Proof.
  intros A. destruct (fltb y x) eqn:B; auto. apply fltb_spec in A as (A & N). apply fltb_spec in B as (B & _). exfalso. apply N. now apply fle_antisym.
Qed.
Definition cmp (x y : K) : bool * bool := (fltb x y, fltb y x).
Lemma cmp3 (x y : K) : (fltb x y = true /\ fltb y x = false) \/ (fltb x y = false /\ fltb y x = true) \/ (x = y /\ fltb x y = false /\ fltb y x = false).
Proof. destruct (tri x y) as [A|[A| ->]]; [left|right; left|right; right]; auto using lt_not. rewrite fltb_irr. auto. Qed.
Ltac run := cbn [coord_sort sum4 swapc aget aset nth_error upd bind gv length Nat.ltb Nat.leb].
Lemma sort_round (cc : list (v3 K)) n : length cc = 8 -> exists s0 s1 s2, length s0 = 8 /\ length s1 = 8 /\ length s2 = 8 /\ mirror 2 cc s0 /\ mirror 1 cc s1 /\ mirror 4 cc s2 /\
  coord_sort (S n) cc =
    let m c := side cc c false in let p c := side cc c true in
    if fltb (m 0) (p 0) && fltb (m 1) (p 1) && fltb (m 2) (p 2) then Ok cc
    else if fltb (p 0) (m 0) then coord_sort n s0 else if fltb (p 1) (m 1) then coord_sort n s1 else if fltb (p 2) (m 2) then coord_sort n s2 else Throw RuntimeError.
Proof.
  intros L. destruct (list8 cc L) as (a & b & c & d & e & f & g & h & ->).
  exists [c; d; a; b; g; h; e; f], [b; a; d; c; f; e; h; g], [e; f; g; h; a; b; c; d].
  split; [reflexivity|]. split; [reflexivity|]. split; [reflexivity|].
  assert (M : forall l, l < 8 -> l = 0 \/ l = 1 \/ l = 2 \/ l = 3 \/ l = 4 \/ l = 5 \/ l = 6 \/ l = 7) by lia.
  split; [split; [reflexivity|]; intros l Ll; destruct (M l Ll) as [->|[->|[->|[->|[->|[->|[->| ->]]]]]]]; reflexivity|].
  split; [split; [reflexivity|]; intros l Ll; destruct (M l Ll) as [->|[->|[->|[->|[->|[->|[->| ->]]]]]]]; reflexivity|].
  split; [split; [reflexivity|]; intros l Ll; destruct (M l Ll) as [->|[->|[->|[->|[->|[->|[->| ->]]]]]]]; reflexivity|].
  cbv zeta beta.
  assert (S00 : side [a; b; c; d; e; f; g; h] 0 false = c0 a + c0 b + c0 e + c0 f) by (unfold side; rewrite eight; cbn [bit Nat.testbit Nat.odd Nat.even Nat.div2 negb Bool.eqb nth gv]; ring).
  assert (S01 : side [a; b; c; d; e; f; g; h] 0 true = c0 c + c0 d + c0 g + c0 h) by (unfold side; rewrite eight; cbn [bit Nat.testbit Nat.odd Nat.even Nat.div2 negb Bool.eqb nth gv]; ring).
  assert (S10 : side [a; b; c; d; e; f; g; h] 1 false = c1 a + c1 c + c1 e + c1 g) by (unfold side; rewrite eight; cbn [bit Nat.testbit Nat.odd Nat.even Nat.div2 negb Bool.eqb nth gv]; ring).
  assert (S11 : side [a; b; c; d; e; f; g; h] 1 true = c1 b + c1 d + c1 f + c1 h) by (unfold side; rewrite eight; cbn [bit Nat.testbit Nat.odd Nat.even Nat.div2 negb Bool.eqb nth gv]; ring).
  assert (S20 : side [a; b; c; d; e; f; g; h] 2 false = c2 a + c2 b + c2 c + c2 d) by (unfold side; rewrite eight; cbn [bit Nat.testbit Nat.odd Nat.even Nat.div2 negb Bool.eqb nth gv]; ring).
  assert (S21 : side [a; b; c; d; e; f; g; h] 2 true = c2 e + c2 f + c2 g + c2 h) by (unfold side; rewrite eight; cbn [bit Nat.testbit Nat.odd Nat.even Nat.div2 negb Bool.eqb nth gv]; ring).
  rewrite S00, S01, S10, S11, S20, S21. reflexivity.
Qed.
Lemma below8 (P : nat -> Prop) : P 0 -> P 1 -> P 2 -> P 3 -> P 4 -> P 5 -> P 6 -> P 7 -> forall l, l < 8 -> P l.
Proof. intros. assert (M : l = 0 \/ l = 1 \/ l = 2 \/ l = 3 \/ l = 4 \/ l = 5 \/ l = 6 \/ l = 7) by lia. destruct M as [->|[->|[->|[->|[->|[->|[->| ->]]]]]]]; auto. Qed.
Lemma xor8 : forall r, r < 8 -> forall l, l < 8 -> Nat.lxor l r < 8.
Proof. apply (below8 (fun r => forall l, l < 8 -> Nat.lxor l r < 8)); apply below8; cbn; lia. Qed.
Lemma mirror_side cc cc' : forall r, r < 8 -> mirror r cc cc' -> forall c b, c < 3 -> side (K := K) cc' c b = side cc c (xorb b (Nat.testbit r (bit c))).
Proof.
  intros r R (L & H). unfold side. assert (Q : forall c b, sumr 0 8 (fun l => if Bool.eqb (Nat.testbit l (bit c)) b then gv (nth l cc' zerov) c else f0) = sumr 0 8 (fun l => if Bool.eqb (Nat.testbit l (bit c)) b then gv (nth (Nat.lxor l r) cc zerov) c else f0)).
  { intros c b. apply sumr_ext. intros l Ll. now rewrite H by lia. }
  intros c b C. rewrite Q. clear Q H L. rewrite !eight. assert (M : r = 0 \/ r = 1 \/ r = 2 \/ r = 3 \/ r = 4 \/ r = 5 \/ r = 6 \/ r = 7) by lia.
  destruct M as [->|[->|[->|[->|[->|[->|[->| ->]]]]]]]; destruct b; destruct c as [|[|[|]]]; try lia; cbn -[gv nth]; ring.
Qed.
Lemma mirror_trans r r' (a b c : list (v3 K)) : r' < 8 -> mirror r a b -> mirror r' b c -> mirror (Nat.lxor r' r) a c.
Proof.
  intros R (L1 & H1) (L2 & H2). split; auto. intros l Ll. rewrite H2 by auto. rewrite H1 by (now apply xor8). now rewrite Nat.lxor_assoc.
Qed.
Definition turned (cc : list (v3 K)) (c : nat) : nat := if fltb (side cc c true) (side cc c false) then 1 else 0.
Definition rev3 (cc : list (v3 K)) : nat := turned cc 0 + turned cc 1 + turned cc 2.
Lemma mirror_flat r (cc cc' : list (v3 K)) : r < 8 -> mirror r cc cc' -> flat cc' <-> flat cc.
Proof.
  intros R M. split; intros (c & C & E); exists c; split; auto.
  - rewrite !(mirror_side cc cc' r R M) in E by auto. destruct (Nat.testbit r (bit c)); cbn [xorb] in E; congruence.
  - rewrite !(mirror_side cc cc' r R M) by auto. destruct (Nat.testbit r (bit c)); cbn [xorb]; congruence.
Qed.
Lemma mirror_turned r (cc cc' : list (v3 K)) c : r < 8 -> c < 3 -> mirror r cc cc' ->
  turned cc' c = if Nat.testbit r (bit c) then (if fltb (side cc c false) (side cc c true) then 1 else 0) else turned cc c.
Proof. intros R C M. unfold turned. rewrite !(mirror_side cc cc' r R M) by auto. destruct (Nat.testbit r (bit c)); reflexivity. Qed.
Lemma sort_ok n : forall cc : list (v3 K), length cc = 8 -> rev3 cc < n ->
  (coord_sort n cc = Throw RuntimeError /\ flat cc) \/ (~ flat cc /\ exists r cc', r < 8 /\ coord_sort n cc = Ok cc' /\ mirror r cc cc' /\ in_order cc').
Proof.
  induction n as [|n IH]; intros cc L R; [lia|]. destruct (sort_round cc n L) as (s0 & s1 & s2 & L0 & L1 & L2 & M0 & M1 & M2 & ->). cbv zeta beta.
  assert (REC : forall r s, r < 8 -> length s = 8 -> mirror r cc s -> rev3 s < n -> (coord_sort n s = Throw RuntimeError /\ flat cc) \/ (~ flat cc /\ exists r cc', r < 8 /\ coord_sort n s = Ok cc' /\ mirror r cc cc' /\ in_order cc')).
  { intros r s Rr Ls M Rs. destruct (IH s Ls Rs) as [(E & F)|(F & r' & cc' & R' & E & M' & O)].
    - left. split; auto. now apply (mirror_flat r cc s Rr M).
    - right. split; [intros G; apply F; now apply (mirror_flat r cc s Rr M)|]. exists (Nat.lxor r' r), cc'. split; [now apply xor8|]. split; auto. split; auto. now apply (mirror_trans r r' cc s cc'). }
  unfold rev3 in R. destruct (cmp3 (side cc 0 false) (side cc 0 true)) as [(A0 & B0)|[(A0 & B0)|(E0 & A0 & B0)]]; rewrite A0, B0; cbn [andb].
  2:{ apply (REC 2 s0); auto; try lia. unfold rev3. rewrite !(mirror_turned 2 cc s0) by (auto; lia). cbn [bit Nat.testbit Nat.odd Nat.even Nat.div2 negb]. unfold turned at 1 in R. rewrite B0 in R. rewrite A0. lia. }
  - destruct (cmp3 (side cc 1 false) (side cc 1 true)) as [(A1 & B1)|[(A1 & B1)|(E1 & A1 & B1)]]; rewrite A1, B1; cbn [andb].
    2:{ apply (REC 1 s1); auto; try lia. unfold rev3. rewrite !(mirror_turned 1 cc s1) by (auto; lia). cbn [bit Nat.testbit Nat.odd Nat.even Nat.div2 negb]. unfold turned at 2 in R. rewrite B1 in R. rewrite A1. lia. }
    + destruct (cmp3 (side cc 2 false) (side cc 2 true)) as [(A2 & B2)|[(A2 & B2)|(E2 & A2 & B2)]]; rewrite A2; try rewrite B2.
      * right. assert (IO : in_order cc) by (intros c C; destruct c as [|[|[|]]]; try lia; auto). split.
        { intros (c & C & E). specialize (IO c C). rewrite E, fltb_irr in IO. discriminate. }
        exists 0, cc. split; [lia|]. split; auto. split; auto. split; auto. intros l _. now rewrite Nat.lxor_0_r.
      * apply (REC 4 s2); auto; try lia. unfold rev3. rewrite !(mirror_turned 4 cc s2) by (auto; lia). cbn [bit Nat.testbit Nat.odd Nat.even Nat.div2 negb]. unfold turned at 3 in R. rewrite B2 in R. rewrite A2. lia.
      * left. split; auto. exists 2. auto.
    + destruct (fltb (side cc 2 true) (side cc 2 false)) eqn:B2; [|left; split; auto; exists 1; auto].
      apply (REC 4 s2); auto; try lia. unfold rev3. rewrite !(mirror_turned 4 cc s2) by (auto; lia). cbn [bit Nat.testbit Nat.odd Nat.even Nat.div2 negb]. unfold turned at 3 in R. rewrite B2 in R. rewrite (lt_not _ _ B2). lia.
  - destruct (fltb (side cc 1 true) (side cc 1 false)) eqn:B1.
    + apply (REC 1 s1); auto; try lia. unfold rev3. rewrite !(mirror_turned 1 cc s1) by (auto; lia). cbn [bit Nat.testbit Nat.odd Nat.even Nat.div2 negb]. unfold turned at 2 in R. rewrite B1 in R. rewrite (lt_not _ _ B1). lia.
    + destruct (fltb (side cc 2 true) (side cc 2 false)) eqn:B2; [|left; split; auto; exists 0; auto].
      apply (REC 4 s2); auto; try lia. unfold rev3. rewrite !(mirror_turned 4 cc s2) by (auto; lia). cbn [bit Nat.testbit Nat.odd Nat.even Nat.div2 negb]. unfold turned at 3 in R. rewrite B2 in R. rewrite (lt_not _ _ B2). lia.
Qed.
(* The corners come out in order after at most four rounds, turned round but not mixed up, unless the element is flat. *)
Theorem C89_sort : forall cc : list (v3 K), length cc = 8 ->
  (flat cc /\ coord_sort 4 cc = Throw RuntimeError) \/ (~ flat cc /\ exists r cc', r < 8 /\ coord_sort 4 cc = Ok cc' /\ mirror r cc cc' /\ in_order cc').
Proof.
  intros cc L. destruct (sort_ok 4 cc L) as [(A & B)|A]; auto. unfold rev3, turned. repeat destruct (fltb _ _); lia.
Qed.

(* ---- boxes ---- *)
Definition corners (c h : nat -> K) : list (v3 K) := map (corner c h) (seq 0 8).
Lemma corner_nth c h l : l < 8 -> nth l (corners c h) zerov = corner c h l.
Proof. revert l. apply (below8 (fun l => nth l (corners c h) zerov = corner c h l)); reflexivity. Qed.
Lemma corners_side c h d : d < 3 -> side (corners c h) d false = num 4 * (c d - h d) /\ side (corners c h) d true = num 4 * (c d + h d).
Proof.
  intros D. unfold side. rewrite !eight. rewrite !corner_nth by lia. unfold corner. destruct d as [|[|[|]]]; try lia; cbn -[num]; cbn [num nump]; split; ring.
Qed.
Lemma nth_ext8 (a b : list (v3 K)) : length a = 8 -> length b = 8 -> (forall l, l < 8 -> nth l a zerov = nth l b zerov) -> a = b.
Proof. intros A B H. apply (nth_ext a b zerov zerov); [congruence|]. intros n N. apply H. lia. Qed.
Lemma pos_lt (x y : K) : fltb f0 (y - x) = true -> fltb x y = true.
Proof. intros A. apply fltb_spec in A as (A & N). apply fltb_spec. split; [now apply fle_sub|]. intros ->. apply N. ring. Qed.
(* The corners of a box are put in order, whichever way they were turned. *)
Theorem C89_box : forall c h r cc, (forall d, d < 3 -> fltb f0 (h d) = true) -> r < 8 -> mirror r (corners c h) cc -> coord_sort 4 cc = Ok (corners c h).
Proof.
  intros c h r cc H R M. assert (L : length cc = 8) by apply M.
  assert (LT : forall d, d < 3 -> fltb (side (corners c h) d false) (side (corners c h) d true) = true).
  { intros d D. destruct (corners_side c h d D) as (-> & ->). apply pos_lt. replace (num 4 * (c d + h d) - num 4 * (c d - h d)) with (num 8 * h d) by (cbn [num nump]; ring). apply pos_mul; auto. apply (pos_num 8). }
  destruct (C89_sort cc L) as [(F & _)|(_ & r' & cc' & R' & E & M' & O)].
  - exfalso. apply (mirror_flat r _ _ R M) in F as (d & D & F). specialize (LT d D). rewrite F, fltb_irr in LT. discriminate.
  - rewrite E. f_equal. pose proof (mirror_trans r r' _ _ _ R' M M') as MM. set (q := Nat.lxor r' r) in *. assert (Q : q < 8) by (now apply xor8).
    assert (B : forall d, d < 3 -> Nat.testbit q (bit d) = false).
    { intros d D. specialize (O d D). rewrite !(mirror_side _ cc' q Q MM) in O by auto. destruct (Nat.testbit q (bit d)); auto. cbn [xorb] in O. rewrite (lt_not _ _ (LT d D)) in O. discriminate. }
    assert (Z : q = 0). { pose proof (B 0 ltac:(lia)) as B0. pose proof (B 1 ltac:(lia)) as B1. pose proof (B 2 ltac:(lia)) as B2. clear - Q B0 B1 B2. clearbody q.
      assert (MQ : q = 0 \/ q = 1 \/ q = 2 \/ q = 3 \/ q = 4 \/ q = 5 \/ q = 6 \/ q = 7) by lia. destruct MQ as [->|[->|[->|[->|[->|[->|[->| ->]]]]]]]; auto; discriminate. }
    destruct MM as (L' & MM). rewrite Z in MM. apply nth_ext8; auto. intros l Ll. rewrite MM by auto. now rewrite Nat.lxor_0_r.
Qed.
Lemma aget_corner c h l : l < 8 -> aget (corners c h) l = Ok (corner c h l).
Proof. intros L. rewrite (aget_nth0 _ l zerov) by exact L. now rewrite corner_nth. Qed.
Lemma place_box c h (mz mx my i j k : K) : mz <> f0 -> mx <> f0 -> my <> f0 ->
  place mz mx my i j k (corners c h) = Ok (V3 (c 0 + h 0 * ((num 2 * j - mx) / mx)) (c 1 + h 1 * ((num 2 * k - my) / my)) (c 2 + h 2 * ((num 2 * i - mz) / mz))).
Proof.
  intros Z X Y. unfold place, for_up. cbn [Nat.sub loopn Nat.add]. assert (N : mz * mx * my <> f0) by (repeat apply fmul_nz; auto).
  assert (W : exists w : K, w * (mz * mx * my) = f1) by (exists (f1 / (mz * mx * my)); field; auto). destruct W as (w & W).
  assert (D : forall x : K, divc x (mz * mx * my) = Ok (x * w)). { intros x. rewrite divc_ok by auto. f_equal. transitivity (x * (w * (mz * mx * my)) / (mz * mx * my)); [rewrite W; field; auto|field; auto]. }
  repeat (rewrite !D; cbn [bind]; rewrite !aget_corner by lia; cbn [bind]).
  apply f_equal. unfold corner, genv, zerov. cbn -[num fdiv]. cbn [num nump].
  f_equal; [transitivity ((c 0%nat + h 0%nat * (((f1 + f1) * j - mx) / mx)) * (w * (mz * mx * my)))|transitivity ((c 1%nat + h 1%nat * (((f1 + f1) * k - my) / my)) * (w * (mz * mx * my)))|transitivity ((c 2 + h 2 * (((f1 + f1) * i - mz) / mz)) * (w * (mz * mx * my)))];
  try (rewrite W; ring).
  - transitivity ((c 0%nat * mx + h 0%nat * ((f1 + f1) * j - mx)) * (mz * my) * w); [ring|field; auto].
  - transitivity ((c 1%nat * my + h 1%nat * ((f1 + f1) * k - my)) * (mz * mx) * w); [ring|field; auto].
  - transitivity ((c 2 * mz + h 2 * ((f1 + f1) * i - mz)) * (mx * my) * w); [ring|field; auto].
Qed.
Lemma spot_place s n (c h : K) : n < getn s -> cnt (getn s) - f1 <> (f0 : K) /\ c + h * ((num 2 * cnt n - (cnt (getn s) - f1)) / (cnt (getn s) - f1)) = mid s c h + reach s h * spot s n.
Proof.
  intros L. assert (E : (cnt (getn s) - f1 : K) = nump (match s with Linear | InfPos | InfNeg => 1 | Cubic => 3 | _ => 2 end)) by (destruct s; unfold cnt; cbn [getn Z.of_nat Pos.of_succ_nat Pos.succ num nump]; ring).
  split; [rewrite E; apply nump_nz|]. rewrite E.
  destruct s; cbn [getn] in L; cbn [mid reach spot]; unfold cnt; destruct n as [|[|[|[|]]]]; try lia; cbn [Z.of_nat Pos.of_succ_nat Pos.succ num nump]; field; first [exact (nump_nz 1)|exact (nump_nz 2)|exact (nump_nz 3)|idtac].
Qed.

Section Add.
Variables (sz sx sy : shape) (c h : nat -> K).
Let c' := by_dir (mid sx (c 0) (h 0)) (mid sy (c 1) (h 1)) (mid sz (c 2) (h 2)).
Let h' := by_dir (reach sx (h 0)) (reach sy (h 1)) (reach sz (h 2)).
Let want (i j k : nat) : v3 K := V3 (c' 0 + h' 0 * spot sx j) (c' 1 + h' 1 * spot sy k) (c' 2 + h' 2 * spot sz i).
Definition filled (n : nat) (xe : list (v3 K)) : Prop := length xe = n /\
  forall i j k, i < getn sz -> j < getn sx -> k < getn sy -> at3 (getn sy) (getn sx) i j k < n -> nth (at3 (getn sy) (getn sx) i j k) xe zerov = want i j k.
Lemma place_want i j k : i < getn sz -> j < getn sx -> k < getn sy ->
  place (cnt (getn sz) - f1) (cnt (getn sx) - f1) (cnt (getn sy) - f1) (cnt i) (cnt j) (cnt k) (corners c h) = Ok (want i j k).
Proof.
  intros I J Kk. destruct (spot_place sz i (c 2) (h 2) I) as (Z & EZ). destruct (spot_place sx j (c 0%nat) (h 0%nat) J) as (X & EX). destruct (spot_place sy k (c 1%nat) (h 1%nat) Kk) as (Y & EY).
  rewrite place_box by auto. rewrite EX, EY, EZ. reflexivity.
Qed.
Lemma add_ok : exists xe, coord_add sz sx sy (corners c h) = Ok xe /\ straight sz sx sy c' h' xe.
Proof.
  unfold coord_add.
  match goal with |- context [for_up 0 (getn sz) ?f []] => destruct (for_ok (fun i xe => filled (getn sy * getn sx * i) xe) 0 (getn sz) f []) as (xe & E & L & F); [lia| | |] end.
  - split; [cbn; lia|]. intros. lia.
  - intros i xe I F.
    match goal with |- context [for_up 0 (getn sx) ?f xe] => destruct (for_ok (fun j xe => filled (getn sy * getn sx * i + getn sy * j) xe) 0 (getn sx) f xe) as (x1 & E1 & F1); [lia| | |] end.
    + replace (getn sy * getn sx * i + getn sy * 0)%nat with (getn sy * getn sx * i)%nat by lia. exact F.
    + intros j x1 J F1.
      match goal with |- context [for_up 0 (getn sy) ?f x1] => destruct (for_ok (fun k xe => filled (at3 (getn sy) (getn sx) i j k) xe) 0 (getn sy) f x1) as (x2 & E2 & F2); [lia| | |] end.
      * unfold at3. rewrite Nat.add_0_r. exact F1.
      * intros k x2 Kk (L2 & F2). rewrite place_want by lia. cbn [bind]. eexists. split; [reflexivity|]. split.
        { rewrite app_length, L2. unfold at3. cbn [length]. lia. }
        intros a b d A B D LT. destruct (Nat.eq_dec (at3 (getn sy) (getn sx) a b d) (at3 (getn sy) (getn sx) i j k)) as [EQ|NE].
        -- pose proof EQ as EQ'. apply at3_inj in EQ' as (-> & -> & ->); try lia. rewrite app_nth2 by lia. rewrite L2, Nat.sub_diag. reflexivity.
        -- rewrite app_nth1 by (unfold at3 in *; lia). apply F2; auto. unfold at3 in *. lia.
      * exists x2. split; [exact E2|]. replace (getn sy * getn sx * i + getn sy * (j + 1))%nat with (at3 (getn sy) (getn sx) i j (getn sy)) by (unfold at3; lia). exact F2.
    + exists x1. split; [exact E1|]. replace (getn sy * getn sx * (i + 1))%nat with (getn sy * getn sx * i + getn sy * getn sx)%nat by lia. exact F1.
  - exists xe. split; [exact E|]. split; [lia|]. intros i j k I J Kk. apply F; auto. replace (getn sy * getn sx * getn sz)%nat with (getn sz * getn sx * getn sy)%nat by lia. now apply at3_lt.
Qed.
End Add.
(* The nodes of a box are where the shape functions have their nodes. *)
Theorem C89_nodes : forall sz sx sy (c h : nat -> K), exists xe, coord_add sz sx sy (corners c h) = Ok xe /\
  straight sz sx sy (by_dir (mid sx (c 0) (h 0)) (mid sy (c 1) (h 1)) (mid sz (c 2) (h 2))) (by_dir (reach sx (h 0)) (reach sy (h 1)) (reach sz (h 2))) xe.
Proof. intros. apply add_ok. Qed.
(* From the corners of a box, turned round in any way, to its stiffness. *)
Theorem C89_element : forall eps (a : material K) inf sz sx sy c h r cc gx gy gz, fltb f0 eps = true -> f1 + poi a <> f0 -> f1 - num 2 * poi a <> f0 ->
  (forall d, d < 3 -> fltb f0 (h d) = true) -> r < 8 -> mirror r (corners c h) cc ->
  (forall s g, (s = sx /\ In g gx) \/ (s = sy /\ In g gy) \/ (s = sz /\ In g gz) -> at_ease s true (fst g) /\ fltb f0 (snd g) = true) ->
  (forall g, In g gx -> fle eps (reach sx (h 0) * stretch sx (fst g)) = true) -> (forall g, In g gy -> fle eps (reach sy (h 1) * stretch sy (fst g)) = true) -> (forall g, In g gz -> fle eps (reach sz (h 2) * stretch sz (fst g)) = true) ->
  exists xe Ke, (let* cc := coord_sort 4 cc in coord_add sz sx sy cc) = Ok xe /\
    buildKe eps a inf (block_sf sz sx sy) (getn sz * getn sx * getn sy) xe gx gy gz = Ok Ke.
Proof.
  intros eps a inf sz sx sy c h r cc gx gy gz P A B H R M EW TX TY TZ. rewrite (C89_box c h r cc H R M). cbn [bind].
  destruct (C89_nodes sz sx sy c h) as (xe & E & ST). exists xe.
  assert (RP : forall s (x : K), fltb f0 x = true -> fltb f0 (reach s x) = true) by (intros s x X; destruct s; cbn [reach]; auto; apply pos_mul; auto; apply (pos_num 2)).
  destruct (C88_box eps a inf sz sx sy _ _ xe gx gy gz P A B ST) as (Ke & EK & _); auto.
  - intros k Kk. destruct k as [|[|[|]]]; try lia; cbn [by_dir]; apply RP; apply H; lia.
  - exists Ke. auto.
Qed.
End Proofs.

(* Corners in another order than mirrored, as with two neighbours swapped, go through and give a twisted element. *)
Definition twisted : list (v3 QcF) := match corners (fun _ => f0) (fun _ => f1) with a :: b :: l => b :: a :: l | l => l end.
Theorem C89_twisted_refuted : coord_sort 4 twisted = Ok twisted /\
  match coord_add Linear Linear Linear twisted with
  | Ok xe => buildKe (fdiv f1 (qz 1000)) (Mat (qz 5) (fdiv f1 (qz 4))) false (block_sf Linear Linear Linear) 8 xe [(fdiv (qz (-3)) (qz 5), f1)] [(f0, f1)] [(fdiv (qz (-3)) (qz 5), f1)] = Throw RuntimeError
  | _ => False
  end.
Proof. split; [vm_cast_no_check (@eq_refl (outcome (list (v3 QcF))) (Ok twisted))|match goal with |- match _ with Ok _ => @eq ?t _ _ | _ => _ end => vm_cast_no_check (@eq_refl t (Throw RuntimeError)) end]. Qed.
Definition demo_corners : list (v3 QcF) := map (fun l => corner (fun d => qz (Z.of_nat d)) (fun _ => qz 3) (Nat.lxor l 5)) (seq 0 8).
Example C89_hypotheses : mirror 5 (corners (fun d => qz (Z.of_nat d)) (fun _ => qz 3)) demo_corners /\ ~ flat demo_corners.
Proof.
  split.
  - split; [reflexivity|]. intros l Ll. rewrite corner_nth by (apply xor8; lia). revert l Ll. apply (below8 (fun l => nth l demo_corners zerov = corner (fun d => qz (Z.of_nat d)) (fun _ => qz 3) (Nat.lxor l 5))); reflexivity.
  - intros (c & C & E). assert (D : forall c, c < 3 -> feqb (side demo_corners c false) (side demo_corners c true) = false) by (intros d Dd; destruct d as [|[|[|]]]; try lia; vm_compute; reflexivity).
    now apply (feqb_false _ _ (D c C)).
Qed.
Print Assumptions C89_sort.
Print Assumptions C89_box.
Print Assumptions C89_nodes.
Print Assumptions C89_element.
Print Assumptions C89_twisted_refuted.
Print Assumptions C89_hypotheses.
