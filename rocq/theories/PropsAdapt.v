(* C90: the shape functions of the elements with optional nodes, the adaptor. *)
From Coq Require Import List ZArith Bool Arith Lia Field QArith Qcanon.
From Verif Require Import Base LinBase SmatModel SmatProofs IncholModel IncholProofs PropsQr PcgModel PcgProofs BcModel BcProofs FftProofs ShapeModel PropsShape StiffModel StiffProofs PropsStiff VarModel PropsVar.
Import ListNotations.
Local Open Scope nat_scope.

(* ---- specification ---- *)
(* The levels on which the adaptor works: nothing but edges opposite each other, or everything. *)
Definition fit_level (e : nat -> bool) (c : bool) : Prop :=
  (c = true /\ forall q, q < 4 -> e q = true) \/ (c = false /\ ((e 0 = false /\ e 3 = false) \/ (e 1 = false /\ e 2 = false))).
Definition fit (nz : nat) (mask : list nat) : Prop := forall i, i < nz -> fit_level (fun q => here nz mask (4 * nz + (i * 4 + q))) (here nz mask (8 * nz + i)).

Section Proofs.
Context {K : ofield}.
Local Open Scope lin_scope.
Add Field Kf76 : (f_th K).
Ltac nz := first [assumption | match goal with |- ?e <> _ => first [ exact (nump_nz 1) | exact (nump_nz 2) | exact (nump_nz 4) | exact (nump_nz 8) | exact (nump_nz 3) | exact (nump_nz 16)] end].
Ltac fld := cbn [num nump]; field; repeat split; nz.

Section Adaptor.
Variables (sz : shape) (nnd : nat) (mask : list nat) (gx gy gz : K).
Let nz := getn sz.
Hypothesis M : numbered nz nnd mask.
Hypothesis A : at_ease sz true gz.
Local Notation here := (here nz mask).
Local Notation m t := (nth t mask 0%nat).

Definition edge_x (q : nat) : nat := match q with 0 => 2 | 1 => 1 | 2 => 2 | _ => 1 end.
Definition edge_y (q : nat) : nat := match q with 0 => 0 | 1 => 0 | 2 => 3 | _ => 3 end.
Definition side_x (i q : nat) : K * K := if here (4 * nz + (i * 4 + edge_x q)) then Q (2 * (q / 2)) gx else L (q / 2) gx.
Definition side_y (i q : nat) : K * K := if here (4 * nz + (i * 4 + edge_y q)) then Q (2 * (q mod 2)) gy else L (q mod 2) gy.
Definition on_edge (i q : nat) : entry K := if (q =? 0) || (q =? 3) then product (side_x i q) (Q 1 gy) (V sz i gz) else product (Q 1 gx) (side_y i q) (V sz i gz).
Definition adapt (s : nat) : entry K :=
  let i := level_of nz s in
  if s <? 4 * nz then product (side_x i (s mod 4)) (side_y i (s mod 4)) (V sz i gz)
  else if s <? 8 * nz then on_edge i ((s - 4 * nz) mod 4) else product (Q 1 gx) (Q 1 gy) (V sz i gz).
Lemma adapt_corner i q : i < nz -> q < 4 -> adapt (i * 4 + q) = product (side_x i q) (side_y i q) (V sz i gz).
Proof. intros I1 Q1. unfold adapt. rewrite (level_corner sz) by auto. replace (i * 4 + q <? 4 * nz) with true by (symmetry; apply Nat.ltb_lt; lia). destruct (dm sz i q Q1) as (_ & ->). reflexivity. Qed.
Lemma adapt_edge i q : i < nz -> q < 4 -> adapt (4 * nz + (i * 4 + q)) = on_edge i q.
Proof.
  intros I1 Q1. unfold adapt. rewrite (level_edge sz) by auto. replace (4 * nz + (i * 4 + q) <? 4 * nz) with false by (symmetry; apply Nat.ltb_ge; lia). replace (4 * nz + (i * 4 + q) <? 8 * nz) with true by (symmetry; apply Nat.ltb_lt; lia).
  replace (4 * nz + (i * 4 + q) - 4 * nz)%nat with (i * 4 + q)%nat by lia. destruct (dm sz i q Q1) as (_ & ->). reflexivity.
Qed.
Lemma adapt_mid i : adapt (4 * nz + (4 * nz + i)) = product (Q 1 gx) (Q 1 gy) (V sz i gz).
Proof. unfold adapt. rewrite (level_mid sz). replace (4 * nz + (4 * nz + i) <? 4 * nz) with false by (symmetry; apply Nat.ltb_ge; lia). replace (4 * nz + (4 * nz + i) <? 8 * nz) with false by (symmetry; apply Nat.ltb_ge; lia). reflexivity. Qed.
Lemma mask_x i q : i < nz -> q < 4 -> maskz mask (Z.of_nat (i * 4 + q) + jump_x q) = Ok (m (i * 4 + edge_x q)%nat).
Proof. intros I1 Q1. apply (maskz_at nz nnd mask M); [|destruct q as [|[|[|[|]]]]; cbn [edge_x]; lia]. destruct q as [|[|[|[|]]]]; cbn [jump_x edge_x]; lia. Qed.
Lemma mask_y i q : i < nz -> q < 4 -> maskz mask (Z.of_nat (i * 4 + q) + jump_y q) = Ok (m (i * 4 + edge_y q)%nat).
Proof. intros I1 Q1. apply (maskz_at nz nnd mask M); [|destruct q as [|[|[|[|]]]]; cbn [edge_y]; lia]. destruct q as [|[|[|[|]]]]; cbn [jump_y edge_y]; lia. Qed.
Lemma pick_x i q : (if m (i * 4 + edge_x q)%nat =? 0 then Ok (L (q / 2) gx) else Ok (Q (2 * (q / 2)) gx)) = Ok (side_x i q).
Proof. unfold side_x. rewrite here_extra. destruct (m (i * 4 + edge_x q)%nat =? 0); reflexivity. Qed.
Lemma pick_y i q : (if m (i * 4 + edge_y q)%nat =? 0 then Ok (L (q mod 2) gy) else Ok (Q (2 * (q mod 2)) gy)) = Ok (side_y i q).
Proof. unfold side_y. rewrite here_extra. destruct (m (i * 4 + edge_y q)%nat =? 0); reflexivity. Qed.
Lemma adaptor_ok N : length N = nnd -> exists N', buildSF_adaptor sz gx gy gz mask N = Ok N' /\ holds nz nnd mask all adapt N'.
Proof.
  intros LN. unfold buildSF_adaptor. fold nz.
  destruct (pass sz nnd mask M adapt (fun i l N => let* jx := maskz mask (Z.of_nat (i * 4 + l) + jump_x l)%Z in
      let* X := if jx =? 0 then lin (l / 2) gx else quad (2 * (l / 2)) gx in
      let* jy := maskz mask (Z.of_nat (i * 4 + l) + jump_y l)%Z in
      let* Y := if jy =? 0 then lin (l mod 2) gy else quad (2 * (l mod 2)) gy in
      let* N := aset N (i * 4 + l) (product X Y (V sz i gz)) in
      let* j := aget mask (i * 4 + l) in
      if j =? 0 then Ok N else
      if (l =? 0) || (l =? 3) then let* Y := quad 1 gy in aset N j (product X Y (V sz i gz))
      else let* X := quad 1 gx in aset N j (product X Y (V sz i gz)))
    (fun i N => let* j := aget mask (4 * nz + i) in if j =? 0 then Ok N else let* X := quad 1 gx in let* Y := quad 1 gy in aset N j (product X Y (V sz i gz))) N LN) as (N' & E & HN).
  - intros i q N1 I1 Q1 L1. assert (Q2 : q / 2 < 2) by (apply Nat.div_lt_upper_bound; lia). assert (Q3 : q mod 2 < 2) by (apply Nat.mod_upper_bound; lia).
    rewrite mask_x, mask_y by auto. cbn [bind]. rewrite !lin_ok, !quad_ok by lia.
    rewrite pick_x. cbn [bind]. rewrite pick_y. cbn [bind]. fold nz. rewrite adapt_corner, adapt_edge by auto.
    destruct (aset N1 (i * 4 + q) _) as [N2| |]; cbn [bind]; auto. rewrite (mask_at nz nnd mask M) by lia. cbn [bind]. destruct (_ =? 0); auto. unfold on_edge. destruct (_ || _); reflexivity.
  - intros i N1 I1 L1. fold nz in I1 |- *. rewrite (mask_at nz nnd mask M) by lia. cbn [bind]. rewrite !quad_ok by lia. cbn [bind]. rewrite adapt_mid. reflexivity.
  - exists N'. split; [|exact HN]. rewrite <- E. apply for_up_ext. intros i N1 I1. rewrite both_ok by (auto; unfold nz in *; lia). reflexivity.
Qed.

Section Functional.
Variables (f : entry K -> K) (pX pY pZ : K * K -> K).
Hypothesis FP : forall X Y Z, f (product X Y Z) = pX X * pY Y * pZ Z.
Hypothesis X0 : pX (Q 1 gx) = pX (L 0 gx) + pX (L 1 gx) - pX (Q 0 gx) - pX (Q 2 gx).
Hypothesis X1 : pX (Q 2 gx) = pX (Q 0 gx) + pX (L 1 gx) - pX (L 0 gx).
Hypothesis Y0 : pY (Q 1 gy) = pY (L 0 gy) + pY (L 1 gy) - pY (Q 0 gy) - pY (Q 2 gy).
Hypothesis Y1 : pY (Q 2 gy) = pY (Q 0 gy) + pY (L 1 gy) - pY (L 0 gy).
Local Notation level_sum := (level_sum sz mask).
Ltac small := change (0 / 2)%nat with 0%nat; change (1 / 2)%nat with 0%nat; change (2 / 2)%nat with 1%nat; change (3 / 2)%nat with 1%nat;
  change (0 mod 2)%nat with 0%nat; change (1 mod 2)%nat with 1%nat; change (2 mod 2)%nat with 0%nat; change (3 mod 2)%nat with 1%nat; change (2 * 0)%nat with 0%nat; change (2 * 1)%nat with 2%nat.
Lemma adapt_affine i a b c : fit nz mask -> i < nz -> level_sum (fun s => aff a b c (where_xy nz s) * f (adapt s)) i = plan gx gy pX pY a b c * pZ (V sz i gz).
Proof.
  intros FI I1. specialize (FI i I1). replace (8 * nz + i)%nat with (4 * nz + (4 * nz + i))%nat in FI by lia. unfold PropsVar.level_sum. fold nz. rewrite !four. rewrite !(where_corner sz), !(where_edge sz), (where_mid sz) by (unfold nz in *; lia). fold nz.
  rewrite !adapt_corner, !adapt_edge, !adapt_mid by lia. unfold on_edge. cbn [Nat.eqb orb]. rewrite !FP. unfold side_x, side_y. cbn [edge_x edge_y]. small. unfold plan, aff, pm. cbn [Nat.eqb fst snd].
  destruct FI as [(C & ED)|(C & [(C0 & C3)|(C1 & C2)])].
  - rewrite C. rewrite !ED by lia. cbn [ind]. rewrite X0, Y0, X1, Y1. ring.
  - rewrite C, C0, C3. cbn [ind]. destruct (here (4 * nz + (i * 4 + 1))), (here (4 * nz + (i * 4 + 2))); cbn [ind]; rewrite ?X0, ?Y0, ?X1, ?Y1; ring.
  - rewrite C, C1, C2. cbn [ind]. destruct (here (4 * nz + (i * 4 + 0))), (here (4 * nz + (i * 4 + 3))); cbn [ind]; rewrite ?X0, ?Y0, ?X1, ?Y1; ring.
Qed.
Lemma adapt_total a b c d : fit nz mask -> total nz mask (fun s => (aff a b c (where_xy nz s) + d * spot sz (level_of nz s)) * f (adapt s)) =
  plan gx gy pX pY a b c * sumr 0 nz (fun i => pZ (V sz i gz)) + plan gx gy pX pY d f0 f0 * sumr 0 nz (fun i => spot sz i * pZ (V sz i gz)).
Proof.
  intros FU. unfold nz. rewrite (total_levels sz), <- !sumr_scale, <- sumr_add. apply sumr_ext. intros i I1.
  replace (plan gx gy pX pY d f0 f0 * (spot sz i * pZ (V sz i gz))) with (plan gx gy pX pY (d * spot sz i) f0 f0 * pZ (V sz i gz)) by (unfold plan; ring).
  rewrite <- !adapt_affine by (auto; unfold nz; lia). unfold PropsVar.level_sum. rewrite !four, !(level_corner sz), !(level_edge sz), !(level_mid sz) by lia. unfold aff, ind. fold nz. repeat (destruct (here _)); ring.
Qed.
End Functional.
End Adaptor.

Lemma bows (r : K) : fst (Q 1 r) = fst (L 0 r) + fst (L 1 r) - fst (Q 0 r) - fst (Q 2 r) /\ fst (Q 2 r) = fst (Q 0 r) + fst (L 1 r) - fst (L 0 r) /\
  snd (Q 1 r) = snd (L 0 r) + snd (L 1 r) - snd (Q 0 r) - snd (Q 2 r) /\ snd (Q 2 r) = snd (Q 0 r) + snd (L 1 r) - snd (L 0 r).
Proof. unfold L, Q. cbn [N_2 dN_2 N_3 dN_3 value fst snd]. unfold half. repeat split; fld. Qed.
(* On the levels it fits, the adaptor gives back every linear field with its slopes. *)
Theorem C90_adaptor : forall sz nnd mask (gx gy gz : K) N, finite sz -> numbered (getn sz) nnd mask -> fit (getn sz) mask -> length N = nnd ->
  exists N', buildSF_adaptor sz gx gy gz mask N = Ok N' /\ length N' = nnd /\ forall a b c d,
  let u s := a + b * fst (where_xy (getn sz) s) + c * snd (where_xy (getn sz) s) + d * spot sz (level_of (getn sz) s) in
  let sum f := total (getn sz) mask (fun s => u s * f (at_node (getn sz) mask N' s)) in
  sum fst = a + b * gx + c * gy + d * gz /\ sum g0 = b /\ sum g1 = c /\ sum g2 = d.
Proof.
  intros sz nnd mask gx gy gz N F M FU LN. pose proof (ease_finite sz gz F) as A. destruct (adaptor_ok sz nnd mask gx gy gz M A N LN) as (N' & E & (LN' & HN)).
  exists N'. split; [exact E|]. split; [exact LN'|]. intros a b c d. cbv zeta.
  assert (X : forall f, total (getn sz) mask (fun s => (a + b * fst (where_xy (getn sz) s) + c * snd (where_xy (getn sz) s) + d * spot sz (level_of (getn sz) s)) * f (at_node (getn sz) mask N' s)) =
    total (getn sz) mask (fun s => (aff a b c (where_xy (getn sz) s) + d * spot sz (level_of (getn sz) s)) * f (adapt sz mask gx gy gz s))).
  { intros f. apply total_ext. intros s S HS. rewrite (HN s S HS I). reflexivity. }
  destruct (lines gx) as (X1 & X2 & X3 & X4). destruct (lines gy) as (Y1 & Y2 & Y3 & Y4). destruct (ups sz gz F) as (U1 & U2 & U3 & U4). destruct (bows gx) as (BX1 & BX2 & BX3 & BX4). destruct (bows gy) as (BY1 & BY2 & BY3 & BY4).
  repeat split; rewrite X.
  - rewrite (adapt_total sz mask gx gy gz fst fst fst fst) by (auto; intros; reflexivity). rewrite U1, U3. unfold plan. rewrite X1, X2, Y1, Y2. ring.
  - rewrite (adapt_total sz mask gx gy gz g0 snd fst fst) by (auto; intros; reflexivity). rewrite U1, U3. unfold plan. rewrite X3, X4, Y1, Y2. ring.
  - rewrite (adapt_total sz mask gx gy gz g1 fst snd fst) by (auto; intros; reflexivity). rewrite U1, U3. unfold plan. rewrite X1, X2, Y3, Y4. ring.
  - rewrite (adapt_total sz mask gx gy gz g2 fst fst snd) by (auto; intros; reflexivity). rewrite U2, U4. unfold plan. rewrite X1, X2, Y1, Y2. ring.
Qed.

Lemma bow_at : fst (Q 0 f0) = (f0 : K) /\ fst (Q 1 f0) = (f1 : K) /\ fst (Q 2 f0) = (f0 : K) /\ fst (L 0 f0) = (half : K) /\ fst (L 1 f0) = (half : K).
Proof. unfold L, Q. cbn [N_2 N_3 value fst]. unfold half. repeat split; fld. Qed.
Ltac small := change (0 / 2)%nat with 0%nat; change (1 / 2)%nat with 0%nat; change (2 / 2)%nat with 1%nat; change (3 / 2)%nat with 1%nat;
  change (0 mod 2)%nat with 0%nat; change (1 mod 2)%nat with 1%nat; change (2 mod 2)%nat with 0%nat; change (3 mod 2)%nat with 1%nat; change (2 * 0)%nat with 0%nat; change (2 * 1)%nat with 2%nat.
Ltac off k E := exfalso; apply (nump_nz k : @nump K k <> f0); match type of E with ?x = _ => first [transitivity (num 4 * (x - f1)); [unfold half; fld|rewrite E; ring] | transitivity (num 4 * (f1 - x)); [unfold half; fld|rewrite E; ring]] end.
(* It adds up to one in the middle of every level only on such levels. *)
Theorem C90_adaptor_only : forall sz nnd mask, numbered (getn sz) nnd mask ->
  (forall i N N', i < getn sz -> buildSF_adaptor sz f0 f0 (spot sz i) mask N = Ok N' -> length N = nnd -> total (getn sz) mask (fun s => fst (at_node (getn sz) mask N' s)) = (f1 : K)) -> fit (getn sz) mask.
Proof.
  intros sz nnd mask M T i I1. pose proof (spot_ease (K := K) sz i true I1) as A.
  destruct (adaptor_ok sz nnd mask f0 f0 (spot sz i) M A (repeat (f0, zerov) nnd) (repeat_length _ _)) as (N' & E & (_ & HN)).
  specialize (T i _ _ I1 E (repeat_length _ _)). rewrite (total_ext _ _ _ (fun s => fst (adapt sz mask f0 f0 (spot sz i) s))) in T by (intros s S HS; now rewrite (HN s S HS I)).
  rewrite (total_levels sz) in T.
  assert (ZV : forall j, j < getn sz -> fst (V sz j (spot sz i)) = (if j =? i then f1 else f0 : K)) by (intros; unfold V; cbn [fst]; now apply C87_nodes).
  rewrite (sumr_one 0 (getn sz) _ i) in T; [|lia|].
  - unfold level_sum in T. rewrite !four in T. rewrite !adapt_corner, !adapt_edge, !adapt_mid in T by lia. unfold on_edge in T. cbn [Nat.eqb orb] in T. unfold product in T. cbn [fst] in T. rewrite ZV, Nat.eqb_refl in T by auto.
    unfold side_x, side_y in T. cbn [edge_x edge_y] in T. revert T. small. intros T. destruct bow_at as (B0 & B1 & B2 & B3 & B4).
    unfold fit_level. replace (8 * getn sz + i)%nat with (4 * getn sz + (4 * getn sz + i))%nat by lia.
    destruct (here (getn sz) mask (4 * getn sz + (4 * getn sz + i))) eqn:EC; destruct (here (getn sz) mask (4 * getn sz + (i * 4 + 0))) eqn:E0; destruct (here (getn sz) mask (4 * getn sz + (i * 4 + 1))) eqn:E1;
    destruct (here (getn sz) mask (4 * getn sz + (i * 4 + 2))) eqn:E2; destruct (here (getn sz) mask (4 * getn sz + (i * 4 + 3))) eqn:E3; cbv beta;
    first [ left; split; [reflexivity|]; intros q Q1; destruct q as [|[|[|[|]]]]; [first [reflexivity|assumption]..|exfalso; lia]
          | right; split; [reflexivity|]; first [left; split; first [reflexivity|assumption] | right; split; first [reflexivity|assumption]]
          | rewrite ?B0, ?B1, ?B2, ?B3, ?B4 in T; cbn [ind] in T; first [off 1%positive T | off 2%positive T | off 3%positive T | off 4%positive T] ].
  - intros j J NE. unfold level_sum. rewrite !four. rewrite !adapt_corner, !adapt_edge, !adapt_mid by lia. unfold on_edge. cbn [Nat.eqb orb]. unfold product. cbn [fst]. rewrite ZV by lia. apply Nat.eqb_neq in NE. rewrite NE. unfold ind. repeat (destruct (here _ _ _)); ring.
Qed.
End Proofs.

(* A middle node without all edges: the variable element loses the linear fields. *)
Definition lone : list nat := [0; 0; 0; 0; 0; 0; 0; 0; 8; 0].
Definition lone_x : outcome QcF :=
  let* N := buildSF_variable Linear (fdiv f1 (qz 2)) f0 (fopp f1) lone (repeat (f0, zerov) 9) in
  Ok (total 2 lone (fun s => fmul (fst (where_xy 2 s)) (fst (at_node 2 lone N s)))).
Theorem C90_middle_refuted : numbered 2 9 lone /\ exists x, lone_x = Ok x /\ feqb x (fdiv f1 (qz 2)) = false.
Proof.
  split.
  - split; [reflexivity|]. split; [lia|]. split.
    + intros t T NZ. do 10 (destruct t as [|t]; [cbn in *; lia|]). lia.
    + intros t u T U NZ E. do 10 (destruct t as [|t]; [do 10 (destruct u as [|u]; [cbn in *; lia|]); lia|]). lia.
  - eexists. split; [vm_compute; reflexivity|]. vm_compute. reflexivity.
Qed.
(* An element with one finer side and a finer top. *)
Definition demo_mask : list nat := [8; 9; 10; 11; 12; 0; 0; 0; 13; 0].
Definition side_mask : list nat := [8; 0; 0; 0; 9; 0; 0; 0; 0; 0].
Example C90_hypotheses : numbered 2 14 demo_mask /\ full 2 demo_mask /\ numbered 2 10 side_mask /\ fit 2 side_mask /\ ~ fit 2 [8; 0; 9; 0; 0; 0; 0; 0; 0; 0].
Proof.
  assert (X : forall mask n, length mask = 10 -> 8 <= n -> forallb (fun t => (nth t mask 0 =? 0) || ((8 <=? nth t mask 0) && (nth t mask 0 <? n))) (seq 0 10) = true ->
    forallb (fun t => forallb (fun u => (nth t mask 0 =? 0) || negb (nth t mask 0 =? nth u mask 0) || (t =? u)) (seq 0 10)) (seq 0 10) = true -> numbered 2 n mask).
  { intros mask n LM LN A B. rewrite forallb_forall in A, B. split; [exact LM|]. split; [lia|]. split.
    - intros t T NZ. assert (IT : In t (seq 0 10)) by (apply in_seq; lia). specialize (A t IT). apply Nat.eqb_neq in NZ. rewrite NZ in A. cbn [orb] in A. apply andb_prop in A as (A1 & A2). apply Nat.leb_le in A1. apply Nat.ltb_lt in A2. lia.
    - intros t u T U NZ E. assert (IT : In t (seq 0 10)) by (apply in_seq; lia). assert (IU : In u (seq 0 10)) by (apply in_seq; lia). specialize (B t IT). rewrite forallb_forall in B. specialize (B u IU). apply Nat.eqb_neq in NZ. rewrite NZ, E, Nat.eqb_refl in B. cbn [orb negb] in B. now apply Nat.eqb_eq in B. }
  split; [apply X; reflexivity || (cbn; lia)|]. split.
  - intros i q I1 Q1. destruct i as [|[|]]; [| |lia]; destruct q as [|[|[|[|]]]]; try lia; cbn; auto.
  - split; [apply X; reflexivity || (cbn; lia)|]. split.
    + intros i I1. right. destruct i as [|[|]]; [| |lia]; split; try reflexivity; right; split; reflexivity.
    + intros F. destruct (F 0 ltac:(lia)) as [(C & _)|(_ & [(C & _)|(_ & C)])]; discriminate C.
Qed.
Print Assumptions C90_affine.
Print Assumptions C90_nodes.
Print Assumptions C90_adaptor.
Print Assumptions C90_adaptor_only.
Print Assumptions C90_middle_refuted.
Print Assumptions C90_hypotheses.
