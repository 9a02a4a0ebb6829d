(* C90: the shape functions of the elements with optional nodes. *)
From Coq Require Import List ZArith Bool Arith Lia Field QArith Qcanon.
From Verif Require Import Base LinBase SmatModel SmatProofs IncholModel IncholProofs PropsQr PcgModel PcgProofs BcModel BcProofs FftProofs ShapeModel PropsShape StiffModel StiffProofs PropsStiff VarModel.
Import ListNotations.
Local Open Scope nat_scope.

(* ---- specification ---- *)
Section Spec.
Context {K : ofield}.
Local Open Scope lin_scope.
(* The places for nodes of an element of nz levels: 0 .. 4nz-1 are the corners, 4nz+t is optional node t,
   where t = 4i+q is on an edge of level i and t = 4nz+i in its middle. *)
Definition here (nz : nat) (mask : list nat) (s : nat) : bool := (s <? 4 * nz) || negb (nth (s - 4 * nz) mask 0 =? 0).
Definition addr (nz : nat) (mask : list nat) (s : nat) : nat := if s <? 4 * nz then s else nth (s - 4 * nz) mask 0.
(* the optional nodes have numbers of their own after the corners *)
Definition numbered (nz nnd : nat) (mask : list nat) : Prop := length mask = (5 * nz)%nat /\ 4 * nz <= nnd /\
  (forall t, t < 5 * nz -> nth t mask 0 <> 0 -> 4 * nz <= nth t mask 0 < nnd) /\
  (forall t u, t < 5 * nz -> u < 5 * nz -> nth t mask 0 <> 0 -> nth t mask 0 = nth u mask 0 -> t = u).
(* a node in the middle of a level comes with all four edges *)
Definition full (nz : nat) (mask : list nat) : Prop := forall i q, i < nz -> q < 4 -> here nz mask (8 * nz + i) = true -> here nz mask (4 * nz + (i * 4 + q)) = true.
(* where the nodes are *)
Definition pm (b : nat) : K := if b =? 0 then - f1 else f1.
Definition where_xy (nz s : nat) : K * K :=
  if s <? 4 * nz then (pm (s mod 4 / 2), pm (s mod 4 mod 2))
  else if s <? 8 * nz then match ((s - 4 * nz) mod 4)%nat with 0 => (- f1, f0) | 1 => (f0, f1) | 2 => (f0, - f1) | _ => (f1, f0) end
  else (f0, f0).
Definition level_of (nz s : nat) : nat := if s <? 4 * nz then s / 4 else if s <? 8 * nz then (s - 4 * nz) / 4 else s - 8 * nz.
(* the sum over the nodes that are there *)
Definition total (nz : nat) (mask : list nat) (f : nat -> K) : K := sumr 0 (9 * nz) (fun s => if here nz mask s then f s else f0).
(* the functions of one direction with their slopes *)
Definition L (b : nat) (r : K) : K * K := (value (N_2 b r), value (dN_2 b r)).
Definition H (r : K) : K * K := (value (N_A 1 r), value (dN_A 1 r)).
Definition Q (n : nat) (r : K) : K * K := (value (N_3 n r), value (dN_3 n r)).
Definition V (sz : shape) (i : nat) (r : K) : K * K := (value (getN sz i r true), value (getdN sz i r true)).
Definition at_node (nz : nat) (mask : list nat) (N : list (entry K)) (s : nat) : entry K := nth (addr nz mask s) N (f0, zerov).
Definition dflt : entry K := (f0, zerov).
End Spec.

Section Proofs.
Context {K : ofield}.
Local Open Scope lin_scope.
Add Field Kf75 : (f_th K).
Ltac nz := first [assumption | match goal with |- ?e <> _ => first [ exact (nump_nz 1) | exact (nump_nz 2) | exact (nump_nz 4) | exact (nump_nz 8) | exact (nump_nz 3) | exact (nump_nz 16)] end].
Ltac fld := cbn [num nump]; field; repeat split; nz.

Lemma sumr_shift j k (g : nat -> K) : sumr j (j + k) g = sumr 0 k (fun i => g (j + i)%nat).
Proof. induction k; [rewrite !sumr_nil by lia; auto|]. rewrite Nat.add_succ_r, !sumr_S by lia. now rewrite IHk. Qed.
Lemma lin_ok b (r : K) : b < 2 -> lin b r = Ok (L b r).
Proof. intros. destruct b as [|[|]]; try lia; reflexivity. Qed.
Lemma hat_ok (r : K) : hat 1 r = Ok (H r).
Proof. reflexivity. Qed.
Lemma quad_ok n (r : K) : n < 3 -> quad n r = Ok (Q n r).
Proof. intros. destruct n as [|[|[|]]]; try lia; reflexivity. Qed.
Lemma both_ok sz i (r : K) : i < getn sz -> at_ease sz true r -> both (getN sz i r true) (getdN sz i r true) = Ok (V sz i r).
Proof. intros I A. destruct (C87_defined sz i r true I A) as (E1 & E2). unfold both. rewrite E1. cbn [bind]. rewrite E2. reflexivity. Qed.

Section Mask.
Variables (nz nnd : nat) (mask : list nat).
Hypothesis M : numbered nz nnd mask.
Local Notation here := (here nz mask).
Local Notation addr := (addr nz mask).

Lemma mask_at t : t < 5 * nz -> aget mask t = Ok (nth t mask 0%nat).
Proof. intros T. destruct M as (ML & _). apply aget_ok. apply nth_error_nth'. lia. Qed.
Lemma here_corner s : s < 4 * nz -> here s = true.
Proof. intros S. unfold PropsVar.here. apply Nat.ltb_lt in S. now rewrite S. Qed.
Lemma addr_corner s : s < 4 * nz -> addr s = s.
Proof. intros S. unfold PropsVar.addr. apply Nat.ltb_lt in S. now rewrite S. Qed.
Lemma here_extra t : here (4 * nz + t) = negb (nth t mask 0%nat =? 0).
Proof. unfold PropsVar.here. replace (4 * nz + t <? 4 * nz) with false by (symmetry; apply Nat.ltb_ge; lia). replace (4 * nz + t - 4 * nz)%nat with t by lia. reflexivity. Qed.
Lemma addr_extra t : addr (4 * nz + t) = nth t mask 0%nat.
Proof. unfold PropsVar.addr. replace (4 * nz + t <? 4 * nz) with false by (symmetry; apply Nat.ltb_ge; lia). replace (4 * nz + t - 4 * nz)%nat with t by lia. reflexivity. Qed.
Lemma addr_lt s : s < 9 * nz -> here s = true -> addr s < nnd.
Proof.
  intros S A. destruct M as (_ & LN & IN & _). destruct (Nat.lt_ge_cases s (4 * nz)) as [T|T]; [rewrite addr_corner; lia|].
  replace s with (4 * nz + (s - 4 * nz))%nat in * by lia. rewrite here_extra in A. rewrite addr_extra. apply negb_true_iff, Nat.eqb_neq in A. apply IN; auto. lia.
Qed.
Lemma addr_inj s u : s < 9 * nz -> u < 9 * nz -> here s = true -> here u = true -> addr s = addr u -> s = u.
Proof.
  intros S U A B E. destruct M as (_ & LN & IN & INJ).
  assert (X : forall t, t < 9 * nz -> ~ t < 4 * nz -> here t = true -> t = (4 * nz + (t - 4 * nz))%nat /\ t - 4 * nz < 5 * nz /\ addr t = nth (t - 4 * nz) mask 0%nat /\ nth (t - 4 * nz) mask 0%nat <> 0).
  { intros t T G HT. assert (ET : t = (4 * nz + (t - 4 * nz))%nat) by lia. split; [exact ET|]. rewrite ET in HT. rewrite here_extra in HT. split; [lia|]. split; [rewrite ET at 1; apply addr_extra|]. now apply negb_true_iff, Nat.eqb_neq in HT. }
  destruct (Nat.lt_ge_cases s (4 * nz)) as [SC|SC]; destruct (Nat.lt_ge_cases u (4 * nz)) as [UC|UC].
  - rewrite !addr_corner in E by auto. auto.
  - destruct (X u) as (_ & U1 & U2 & U3); auto; try lia. rewrite U2, addr_corner in E by auto. specialize (IN _ U1 U3). lia.
  - destruct (X s) as (_ & U1 & U2 & U3); auto; try lia. rewrite U2, (addr_corner u) in E by auto. specialize (IN _ U1 U3). lia.
  - destruct (X u) as (U0 & U1 & U2 & U3); auto; try lia. destruct (X s) as (S0 & S1 & S2 & S3); auto; try lia. rewrite U2, S2 in E. pose proof (INJ _ _ S1 U1 S3 E). lia.
Qed.

(* what the array holds at the nodes in D *)
Definition holds (D : nat -> Prop) (v : nat -> entry K) (N : list (entry K)) : Prop := length N = nnd /\
  forall s, s < 9 * nz -> here s = true -> D s -> at_node nz mask N s = v s.
Definition all (s : nat) : Prop := True.
Lemma holds_weak (D D' : nat -> Prop) v v' N : holds D v N -> (forall s, s < 9 * nz -> here s = true -> D' s -> D s /\ v s = v' s) -> holds D' v' N.
Proof. intros (LN & HH) W. split; auto. intros s S A B. destruct (W s S A B) as (W1 & <-). auto. Qed.
Lemma put (D : nat -> Prop) v N s x : holds D v N -> s < 9 * nz -> here s = true -> v s = x ->
  exists N', aset N (addr s) x = Ok N' /\ holds (fun u => D u \/ u = s) v N'.
Proof.
  intros (LN & HH) S A E. pose proof (addr_lt s S A) as LT. exists (upd N (addr s) x). split; [apply aset_ok; lia|].
  split; [rewrite length_upd; lia|]. intros u U B [Du|Du].
  - destruct (Nat.eq_dec u s) as [->|NE].
    + unfold at_node. rewrite E. apply nth_error_nth. rewrite nth_error_upd_eq; [reflexivity|lia].
    + unfold at_node. assert (NA : addr u <> addr s) by (intros EA; apply NE; apply addr_inj; auto).
      rewrite <- (HH u U B Du). unfold at_node. pose proof (addr_lt u U B). apply nth_error_nth. rewrite nth_error_upd_ne by auto. apply nth_error_nth'. lia.
  - subst u. unfold at_node. rewrite E. apply nth_error_nth. rewrite nth_error_upd_eq; [reflexivity|lia].
Qed.
Lemma add_to_ok v N a s u : holds all v N -> s < 9 * nz -> u < 9 * nz -> here s = true -> here u = true ->
  exists N', add_to a (addr s) (addr u) N = Ok N' /\ holds all (fun w => if w =? s then plus a (v s) (v u) else v w) N'.
Proof.
  intros HN S U A B. pose proof HN as (LN & HH). unfold add_to.
  assert (G : forall w, w < 9 * nz -> here w = true -> aget N (addr w) = Ok (v w)).
  { intros w W C. rewrite <- (HH w W C I). apply aget_ok. apply nth_error_nth'. rewrite LN. now apply addr_lt. }
  rewrite (G s S A), (G u U B). cbn [bind].
  destruct (put (fun w => w <> s) (fun w => if w =? s then plus a (v s) (v u) else v w) N s (plus a (v s) (v u))) as (N' & E & HP); auto.
  - apply holds_weak with (1 := HN). intros w _ _ W. split; [exact I|]. apply Nat.eqb_neq in W. now rewrite W.
  - now rewrite Nat.eqb_refl.
  - exists N'. split; [exact E|]. apply holds_weak with (1 := HP). intros w _ _ _. split; [destruct (Nat.eq_dec w s); auto|reflexivity].
Qed.
Lemma maskz_at l z t : (Z.of_nat l + z = Z.of_nat t)%Z -> t < 5 * nz -> maskz mask (Z.of_nat l + z) = Ok (nth t mask 0%nat).
Proof. intros E T. unfold maskz. rewrite E. replace (Z.of_nat t <? 0)%Z with false by (symmetry; apply Z.ltb_ge; lia). rewrite Nat2Z.id. now apply mask_at. Qed.
End Mask.

Section Variable_.
Variables (sz : shape) (nnd : nat) (mask : list nat) (gx gy gz : K).
Let nz := getn sz.
Hypothesis M : numbered nz nnd mask.
Hypothesis A : at_ease sz true gz.
Local Notation here := (here nz mask).
Local Notation addr := (addr nz mask).
Local Notation holds := (holds nz nnd mask).
Local Notation m t := (nth t mask 0%nat).

Definition done (i q s : nat) : Prop :=
  (exists a b, (a < i /\ b < 4 \/ a = i /\ b < q) /\ (s = a * 4 + b \/ s = 4 * nz + (a * 4 + b))%nat) \/ (exists a, a < i /\ s = (4 * nz + (4 * nz + a))%nat).
(* a pass over the levels that writes every node once *)
Lemma pass (v : nat -> entry K) (f : nat -> nat -> list (entry K) -> outcome (list (entry K))) (g : nat -> list (entry K) -> outcome (list (entry K))) N :
  length N = nnd ->
  (forall i q N, i < nz -> q < 4 -> length N = nnd -> f i q N = (let* N := aset N (i * 4 + q)%nat (v (i * 4 + q)%nat) in if m (i * 4 + q)%nat =? 0 then Ok N else aset N (m (i * 4 + q)%nat) (v (4 * nz + (i * 4 + q))%nat))) ->
  (forall i N, i < nz -> length N = nnd -> g i N = if m (4 * nz + i)%nat =? 0 then Ok N else aset N (m (4 * nz + i)%nat) (v (4 * nz + (4 * nz + i))%nat)) ->
  exists N', for_up 0 nz (fun i N => let* N := for_up 0 4 (f i) N in g i N) N = Ok N' /\ holds all v N'.
Proof.
  intros LN F G.
  match goal with |- context [for_up 0 nz ?b N] => destruct (for_ok (fun i N => holds (done i 0) v N) 0 nz b N) as (N' & E & HN); [lia| | |] end.
  - split; auto. intros s _ _ [(a & b & X & _)|(a & X & _)]; lia.
  - intros i N1 I1 H1.
    destruct (for_ok (fun q N => holds (done i q) v N) 0 4 (f i) N1) as (N2 & E2 & H2); [lia|exact H1| |].
    + intros q N2 Q2 H2. pose proof H2 as (L2 & _). rewrite F by (auto; lia).
      destruct (put nz nnd mask M _ v N2 (i * 4 + q) (v (i * 4 + q)%nat) H2) as (N3 & E3 & H3); [lia|apply here_corner; lia|reflexivity|].
      rewrite addr_corner in E3 by lia. rewrite E3. cbn [bind]. destruct (Nat.eqb_spec (m (i * 4 + q)%nat) 0) as [Z|Z].
      * exists N3. split; [reflexivity|]. apply holds_weak with (1 := H3). intros s S HS D. split; [|reflexivity].
        destruct D as [(a & b & X & Y)|(a & X & Y)]; [|left; right; exists a; split; [lia|auto]].
        destruct X as [X|(-> & X)]; [left; left; exists a, b; auto|]. destruct (Nat.eq_dec b q) as [->|NE]; [|left; left; exists i, b; split; [lia|auto]].
        destruct Y as [->| ->]; [right; reflexivity|]. exfalso. rewrite here_extra in HS. rewrite Z in HS. discriminate.
      * destruct (put nz nnd mask M _ v N3 (4 * nz + (i * 4 + q)) (v (4 * nz + (i * 4 + q))%nat) H3) as (N4 & E4 & H4); [lia|rewrite here_extra; apply negb_true_iff, Nat.eqb_neq; auto|reflexivity|].
        rewrite addr_extra in E4. exists N4. split; [exact E4|]. apply holds_weak with (1 := H4). intros s S HS D. split; [|reflexivity].
        destruct D as [(a & b & X & Y)|(a & X & Y)]; [|left; left; right; exists a; split; [lia|auto]].
        destruct X as [X|(-> & X)]; [left; left; left; exists a, b; auto|]. destruct (Nat.eq_dec b q) as [->|NE]; [|left; left; left; exists i, b; split; [lia|auto]].
        destruct Y as [->| ->]; [left; right|right]; reflexivity.
    + rewrite E2. cbn [bind]. pose proof H2 as (L2 & _). rewrite G by (auto; lia). destruct (Nat.eqb_spec (m (4 * nz + i)%nat) 0) as [Z|Z].
      * exists N2. split; [reflexivity|]. apply holds_weak with (1 := H2). intros s S HS D. split; [|reflexivity].
        destruct D as [(a & b & X & Y)|(a & X & Y)].
        -- left. exists a, b. split; [lia|auto].
        -- destruct (Nat.eq_dec a i) as [->|NE]; [|right; exists a; split; [lia|auto]]. exfalso. rewrite Y, here_extra, Z in HS. discriminate.
      * destruct (put nz nnd mask M _ v N2 (4 * nz + (4 * nz + i)) (v (4 * nz + (4 * nz + i))%nat) H2) as (N4 & E4 & H4); [lia|rewrite here_extra; apply negb_true_iff, Nat.eqb_neq; auto|reflexivity|].
        rewrite addr_extra in E4. exists N4. split; [exact E4|]. apply holds_weak with (1 := H4). intros s S HS D. split; [|reflexivity].
        destruct D as [(a & b & X & Y)|(a & X & Y)].
        -- left. left. exists a, b. split; [lia|auto].
        -- destruct (Nat.eq_dec a i) as [->|NE]; [right; auto|left; right; exists a; split; [lia|auto]].
  - exists N'. split; [exact E|]. apply holds_weak with (1 := HN). intros s S HS _. split; [|reflexivity].
    destruct (Nat.lt_ge_cases s (4 * nz)) as [T|T]; [|destruct (Nat.lt_ge_cases s (8 * nz)) as [U|U]].
    + left. exists (s / 4)%nat, (s mod 4)%nat. pose proof (Nat.div_mod s 4). pose proof (Nat.mod_upper_bound s 4). lia.
    + left. exists ((s - 4 * nz) / 4)%nat, ((s - 4 * nz) mod 4)%nat. pose proof (Nat.div_mod (s - 4 * nz) 4). pose proof (Nat.mod_upper_bound (s - 4 * nz) 4). lia.
    + right. exists (s - 8 * nz)%nat. lia.
Qed.

(* the functions before the corrections *)
Definition bare_edge (q : nat) (Z : K * K) : entry K := if (q =? 0) || (q =? 3) then product (L (q / 2) gx) (H gy) Z else product (H gx) (L (q mod 2) gy) Z.
Definition bare (s : nat) : entry K :=
  let Z := V sz (level_of nz s) gz in
  if s <? 4 * nz then product (L (s mod 4 / 2) gx) (L (s mod 4 mod 2) gy) Z
  else if s <? 8 * nz then bare_edge ((s - 4 * nz) mod 4) Z
  else product (H gx) (H gy) Z.
Lemma dm i q : q < 4 -> ((i * 4 + q) / 4 = i /\ (i * 4 + q) mod 4 = q)%nat.
Proof. intros. rewrite Nat.div_add_l, Nat.div_small, (Nat.add_comm (i * 4)), Nat.mod_add, Nat.mod_small by lia. lia. Qed.
Lemma bare_corner i q : i < nz -> q < 4 -> bare (i * 4 + q) = product (L (q / 2) gx) (L (q mod 2) gy) (V sz i gz).
Proof. intros I1 Q1. unfold bare, level_of. replace (i * 4 + q <? 4 * nz) with true by (symmetry; apply Nat.ltb_lt; lia). destruct (dm i q Q1) as (-> & ->). reflexivity. Qed.
Lemma bare_edge_at i q : i < nz -> q < 4 -> bare (4 * nz + (i * 4 + q)) = bare_edge q (V sz i gz).
Proof.
  intros I1 Q1. unfold bare, level_of. replace (4 * nz + (i * 4 + q) <? 4 * nz) with false by (symmetry; apply Nat.ltb_ge; lia). replace (4 * nz + (i * 4 + q) <? 8 * nz) with true by (symmetry; apply Nat.ltb_lt; lia).
  replace (4 * nz + (i * 4 + q) - 4 * nz)%nat with (i * 4 + q)%nat by lia. destruct (dm i q Q1) as (-> & ->). reflexivity.
Qed.
Lemma bare_mid i : i < nz -> bare (4 * nz + (4 * nz + i)) = product (H gx) (H gy) (V sz i gz).
Proof.
  intros I1. unfold bare, level_of. replace (4 * nz + (4 * nz + i) <? 4 * nz) with false by (symmetry; apply Nat.ltb_ge; lia). replace (4 * nz + (4 * nz + i) <? 8 * nz) with false by (symmetry; apply Nat.ltb_ge; lia).
  replace (4 * nz + (4 * nz + i) - 8 * nz)%nat with i by lia. reflexivity.
Qed.
Lemma raw_ok N : length N = nnd -> exists N', var_raw sz gx gy gz mask N = Ok N' /\ holds all bare N'.
Proof.
  intros LN. unfold var_raw. fold nz.
  destruct (pass bare (fun i l N => let* X := lin (l / 2) gx in let* Y := lin (l mod 2) gy in let* N := aset N (i * 4 + l) (product X Y (V sz i gz)) in
      let* j := aget mask (i * 4 + l) in if j =? 0 then Ok N else
      if (l =? 0) || (l =? 3) then let* Y := hat 1 gy in aset N j (product X Y (V sz i gz)) else let* X := hat 1 gx in aset N j (product X Y (V sz i gz)))
    (fun i N => let* j := aget mask (4 * nz + i) in if j =? 0 then Ok N else let* X := hat 1 gx in let* Y := hat 1 gy in aset N j (product X Y (V sz i gz))) N LN) as (N' & E & HN).
  - intros i q N1 I1 Q1 L1. assert (Q2 : q / 2 < 2) by (apply Nat.div_lt_upper_bound; lia). assert (Q3 : q mod 2 < 2) by (apply Nat.mod_upper_bound; lia).
    rewrite !lin_ok by auto. cbn [bind]. rewrite bare_corner, bare_edge_at by auto.
    destruct (aset N1 (i * 4 + q) _) as [N2| |]; cbn [bind]; auto. rewrite (mask_at nz nnd mask M) by lia. cbn [bind]. destruct (_ =? 0); auto. rewrite !hat_ok. cbn [bind]. unfold bare_edge. destruct (_ || _); reflexivity.
  - intros i N1 I1 L1. rewrite (mask_at nz nnd mask M) by lia. cbn [bind]. rewrite !hat_ok. cbn [bind]. rewrite bare_mid by auto. reflexivity.
  - exists N'. split; [|exact HN]. rewrite <- E. apply for_up_ext. intros i N1 I1. rewrite both_ok by (auto; unfold nz in *; lia). reflexivity.
Qed.

(* the corrections *)
Definition opt (t : nat) (a : K) (v : nat -> entry K) (x : entry K) : entry K := if m t =? 0 then x else plus a x (v (4 * nz + t)%nat).
Definition other (l : nat) : nat := (l / 4 * 4 + match l mod 4 with 0 => 2 | 1 => 0 | 2 => 3 | _ => 1 end)%nat.
Definition fix_corner (v : nat -> entry K) (l : nat) : entry K := opt (4 * nz + l / 4) (f1 / num 4) v (opt (other l) (- half) v (opt l (- half) v (v l))).
Lemma opt_step v N l t a x : holds all (fun w => if w =? l then x else v w) N -> l < 4 * nz -> t < 5 * nz ->
  exists N', (if m t =? 0 then Ok N else add_to a l (m t) N) = Ok N' /\ holds all (fun w => if w =? l then opt t a v x else v w) N'.
Proof.
  intros HN LL T. unfold opt. destruct (Nat.eqb_spec (m t) 0) as [Z|Z]; [eauto|].
  destruct (add_to_ok nz nnd mask M _ N a l (4 * nz + t) HN) as (N' & E & H'); [lia|lia|apply here_corner; lia|rewrite here_extra; apply negb_true_iff, Nat.eqb_neq; auto|].
  rewrite addr_corner, addr_extra in E by lia. exists N'. split; [exact E|]. apply holds_weak with (1 := H'). intros s _ _ _. split; [exact I|]. cbn beta.
  rewrite Nat.eqb_refl. replace (4 * nz + t =? l) with false by (symmetry; apply Nat.eqb_neq; lia). destruct (s =? l); reflexivity.
Qed.
Lemma other_at l : l < 4 * nz -> (Z.of_nat l + jump l = Z.of_nat (other l))%Z /\ other l < 4 * nz.
Proof.
  intros LL. pose proof (Nat.div_mod l 4 ltac:(lia)). pose proof (Nat.mod_upper_bound l 4 ltac:(lia)). unfold other, jump.
  destruct (l mod 4)%nat as [|[|[|[|]]]] eqn:E; lia.
Qed.
Lemma corners_ok v N : holds all v N -> exists N', var_corners sz mask N = Ok N' /\ holds all (fun s => if s <? 4 * nz then fix_corner v s else v s) N'.
Proof.
  intros HN. unfold var_corners. fold nz.
  match goal with |- context [for_up 0 (4 * nz) ?b N] => destruct (for_ok (fun l N => holds all (fun s => if s <? l then fix_corner v s else v s) N) 0 (4 * nz) b N) as (N' & E & H'); [lia| | |eauto] end.
  - apply holds_weak with (1 := HN). intros. split; [exact I|reflexivity].
  - intros l N1 LL H1. rewrite (mask_at nz nnd mask M) by lia. cbn [bind]. set (v1 := fun s => if s <? l then fix_corner v s else v s).
    assert (D4 : l / 4 < nz) by (apply Nat.div_lt_upper_bound; lia). destruct (other_at l) as (EO & LO); [lia|].
    destruct (opt_step v1 N1 l l (- half) (v l)) as (N2 & E2 & H2); [|lia|lia|].
    { apply holds_weak with (1 := H1). intros s _ _ _. split; [exact I|]. unfold v1. destruct (Nat.eqb_spec s l) as [->|]; auto. now rewrite Nat.ltb_irrefl. }
    rewrite E2. cbn [bind]. rewrite (maskz_at nz nnd mask M l (jump l) (other l)) by (auto; lia). cbn [bind].
    destruct (opt_step v1 N2 l (other l) (- half) _ H2) as (N3 & E3 & H3); [lia|lia|]. rewrite E3. cbn [bind]. rewrite (mask_at nz nnd mask M) by lia. cbn [bind].
    destruct (opt_step v1 N3 l (4 * nz + l / 4) (f1 / num 4) _ H3) as (N4 & E4 & H4); [lia|lia|]. exists N4. split; [exact E4|].
    apply holds_weak with (1 := H4). intros s _ _ _. split; [exact I|].
    assert (EV : forall t, v1 (4 * nz + t)%nat = v (4 * nz + t)%nat) by (intros t; unfold v1; replace (4 * nz + t <? l) with false by (symmetry; apply Nat.ltb_ge; lia); reflexivity).
    unfold opt at 1 2 3. rewrite !EV. destruct (Nat.eqb_spec s l) as [->|NE].
    + replace (l <? l + 1) with true by (symmetry; apply Nat.ltb_lt; lia). reflexivity.
    + unfold v1. destruct (Nat.ltb_spec s l); destruct (Nat.ltb_spec s (l + 1)); try lia; reflexivity.
Qed.
Definition fix_edge (v : nat -> entry K) (t : nat) : entry K := opt (4 * nz + t / 4) (- half) v (v (4 * nz + t)%nat).
Lemma edges_ok v N : full nz mask -> holds all v N -> exists N', var_edges sz mask N = Ok N' /\
  holds all (fun s => if s <? 4 * nz then v s else if s <? 8 * nz then fix_edge v (s - 4 * nz) else v s) N'.
Proof.
  intros FU HN. unfold var_edges. fold nz.
  match goal with |- context [for_up 0 (4 * nz) ?b N] => destruct (for_ok (fun l N => holds all (fun s => if s <? 4 * nz then v s else if s <? 4 * nz + l then fix_edge v (s - 4 * nz) else v s) N) 0 (4 * nz) b N) as (N' & E & H'); [lia| | |] end.
  - apply holds_weak with (1 := HN). intros. split; [exact I|]. rewrite Nat.add_0_r. destruct (s <? 4 * nz); reflexivity.
  - intros l N1 LL H1. assert (D4 : l / 4 < nz) by (apply Nat.div_lt_upper_bound; lia). rewrite !(mask_at nz nnd mask M) by lia. cbn [bind].
    destruct (Nat.eqb_spec (m (4 * nz + l / 4)%nat) 0) as [Z|Z].
    + exists N1. split; [reflexivity|]. apply holds_weak with (1 := H1). intros s _ _ _. split; [exact I|]. destruct (Nat.ltb_spec s (4 * nz)); auto.
      destruct (Nat.ltb_spec s (4 * nz + l)); destruct (Nat.ltb_spec s (4 * nz + (l + 1))); try lia; auto. assert (s = (4 * nz + l)%nat) as -> by lia. replace (4 * nz + l - 4 * nz)%nat with l by lia. unfold fix_edge, opt. rewrite Z. reflexivity.
    + assert (HC : here (4 * nz + (4 * nz + l / 4)) = true) by (rewrite here_extra; apply negb_true_iff, Nat.eqb_neq; auto).
      pose proof (Nat.div_mod l 4 ltac:(lia)) as DM. pose proof (Nat.mod_upper_bound l 4 ltac:(lia)) as MU.
      assert (HE : here (4 * nz + l) = true). { replace l with (l / 4 * 4 + l mod 4)%nat by lia. apply FU; auto. replace (8 * nz + l / 4)%nat with (4 * nz + (4 * nz + l / 4))%nat by lia. exact HC. }
      destruct (add_to_ok nz nnd mask M _ N1 (- half) (4 * nz + l) (4 * nz + (4 * nz + l / 4)) H1) as (N2 & E2 & H2); [lia|lia|auto|auto|].
      rewrite !addr_extra in E2. exists N2. split; [exact E2|]. apply holds_weak with (1 := H2). intros s _ _ _. split; [exact I|]. cbn beta.
      replace (4 * nz + l <? 4 * nz) with false by (symmetry; apply Nat.ltb_ge; lia). replace (4 * nz + l <? 4 * nz + l) with false by (symmetry; apply Nat.ltb_ge; lia).
      replace (4 * nz + (4 * nz + l / 4) <? 4 * nz) with false by (symmetry; apply Nat.ltb_ge; lia). replace (4 * nz + (4 * nz + l / 4) <? 4 * nz + l) with false by (symmetry; apply Nat.ltb_ge; lia).
      destruct (Nat.eqb_spec s (4 * nz + l)) as [->|NE].
      * replace (4 * nz + l <? 4 * nz) with false by (symmetry; apply Nat.ltb_ge; lia). replace (4 * nz + l <? 4 * nz + (l + 1)) with true by (symmetry; apply Nat.ltb_lt; lia). replace (4 * nz + l - 4 * nz)%nat with l by lia.
        unfold fix_edge, opt. apply Nat.eqb_neq in Z. rewrite Z. reflexivity.
      * destruct (Nat.ltb_spec s (4 * nz)); auto. destruct (Nat.ltb_spec s (4 * nz + l)); destruct (Nat.ltb_spec s (4 * nz + (l + 1))); try lia; auto.
  - exists N'. split; [exact E|]. apply holds_weak with (1 := H'). intros s _ _ _. split; [exact I|]. replace (4 * nz + 4 * nz)%nat with (8 * nz)%nat by lia. reflexivity.
Qed.

Definition final (s : nat) : entry K := if s <? 4 * nz then fix_corner bare s else if s <? 8 * nz then fix_edge bare (s - 4 * nz) else bare s.
Lemma variable_ok N : length N = nnd -> full nz mask -> exists N', buildSF_variable sz gx gy gz mask N = Ok N' /\ holds all final N'.
Proof.
  intros LN FU. unfold buildSF_variable. destruct (raw_ok N LN) as (N1 & E1 & H1). rewrite E1. cbn [bind]. destruct (corners_ok bare N1 H1) as (N2 & E2 & H2). rewrite E2. cbn [bind].
  destruct (edges_ok _ N2 FU H2) as (N3 & E3 & H3). exists N3. split; [exact E3|]. apply holds_weak with (1 := H3). intros s S HS _. split; [exact I|]. unfold final.
  destruct (Nat.ltb_spec s (4 * nz)); auto. destruct (Nat.ltb_spec s (8 * nz)); auto. unfold fix_edge, opt.
  assert (G : forall t, (4 * nz + t <? 4 * nz) = false) by (intros; apply Nat.ltb_ge; lia). rewrite !G. reflexivity.
Qed.
Lemma final_corner i q : i < nz -> q < 4 -> final (i * 4 + q) = fix_corner bare (i * 4 + q).
Proof. intros. unfold final. replace (i * 4 + q <? 4 * nz) with true by (symmetry; apply Nat.ltb_lt; lia). reflexivity. Qed.
Lemma final_edge i q : i < nz -> q < 4 -> final (4 * nz + (i * 4 + q)) = fix_edge bare (i * 4 + q).
Proof. intros. unfold final. replace (4 * nz + (i * 4 + q) <? 4 * nz) with false by (symmetry; apply Nat.ltb_ge; lia). replace (4 * nz + (i * 4 + q) <? 8 * nz) with true by (symmetry; apply Nat.ltb_lt; lia). f_equal. lia. Qed.
Lemma final_mid i : final (4 * nz + (4 * nz + i)) = bare (4 * nz + (4 * nz + i)).
Proof. unfold final. replace (4 * nz + (4 * nz + i) <? 4 * nz) with false by (symmetry; apply Nat.ltb_ge; lia). replace (4 * nz + (4 * nz + i) <? 8 * nz) with false by (symmetry; apply Nat.ltb_ge; lia). reflexivity. Qed.

Section Functional.
Variables (f : entry K -> K) (pX pY pZ : K * K -> K).
Hypothesis FP : forall X Y Z, f (product X Y Z) = pX X * pY Y * pZ Z.
Hypothesis FA : forall a x y, f (plus a x y) = f x + a * f y.
Definition ind (b : bool) (x : K) : K := if b then x else f0.
Definition plane_edge (q : nat) : K := if (q =? 0) || (q =? 3) then pX (L (q / 2) gx) * pY (H gy) else pX (H gx) * pY (L (q mod 2) gy).
Definition across (q : nat) : nat := match q with 0 => 2 | 1 => 0 | 2 => 3 | _ => 1 end.
Lemma quarter : f1 / num 4 = (half * half : K).
Proof. unfold half. fld. Qed.
Lemma f_opt t a v x : f (opt t a v x) = f x + a * ind (here (4 * nz + t)) (f (v (4 * nz + t)%nat)).
Proof. unfold opt. rewrite here_extra. destruct (m t =? 0); cbn [negb ind]; [ring|apply FA]. Qed.
Lemma f_edge q Z : f (bare_edge q Z) = plane_edge q * pZ Z.
Proof. unfold bare_edge, plane_edge. destruct (_ || _); apply FP. Qed.
Lemma f_corner i q : i < nz -> q < 4 -> f (final (i * 4 + q)) = (pX (L (q / 2) gx) * pY (L (q mod 2) gy) - half * ind (here (4 * nz + (i * 4 + q))) (plane_edge q)
  - half * ind (here (4 * nz + (i * 4 + across q))) (plane_edge (across q)) + f1 / num 4 * ind (here (4 * nz + (4 * nz + i))) (pX (H gx) * pY (H gy))) * pZ (V sz i gz).
Proof.
  intros I1 Q1. rewrite final_corner by auto. unfold fix_corner. rewrite !f_opt. destruct (dm i q Q1) as (D1 & D2). unfold other. rewrite D1, D2. fold (across q).
  assert (O : across q < 4) by (destruct q as [|[|[|[|]]]]; cbn; lia).
  rewrite bare_corner, !bare_edge_at, bare_mid, FP, !f_edge, FP by auto. unfold ind. destruct (here _), (here _), (here _); unfold half; fld.
Qed.
Lemma f_final_edge i q : i < nz -> q < 4 -> f (final (4 * nz + (i * 4 + q))) = (plane_edge q - half * ind (here (4 * nz + (4 * nz + i))) (pX (H gx) * pY (H gy))) * pZ (V sz i gz).
Proof.
  intros I1 Q1. rewrite final_edge by auto. unfold fix_edge. rewrite f_opt. destruct (dm i q Q1) as (D1 & D2). rewrite D1. rewrite bare_edge_at, bare_mid, f_edge, FP by auto. unfold ind. destruct (here _); unfold half; fld.
Qed.
Lemma f_mid i : i < nz -> f (final (4 * nz + (4 * nz + i))) = pX (H gx) * pY (H gy) * pZ (V sz i gz).
Proof. intros. rewrite final_mid, bare_mid, FP by auto. reflexivity. Qed.
Definition aff (a b c : K) (p : K * K) : K := a + b * fst p + c * snd p.
(* the sum over one level *)
Definition level_sum (F : nat -> K) (i : nat) : K := sumr 0 4 (fun q => F (i * 4 + q)%nat) + sumr 0 4 (fun q => ind (here (4 * nz + (i * 4 + q))) (F (4 * nz + (i * 4 + q))%nat)) + ind (here (4 * nz + (4 * nz + i))) (F (4 * nz + (4 * nz + i))%nat).
Lemma where_corner i q : i < nz -> q < 4 -> @where_xy K nz (i * 4 + q) = (pm (q / 2), pm (q mod 2)).
Proof. intros. unfold where_xy. replace (i * 4 + q <? 4 * nz) with true by (symmetry; apply Nat.ltb_lt; lia). destruct (dm i q) as (_ & ->); auto. Qed.
Lemma where_edge i q : i < nz -> q < 4 -> @where_xy K nz (4 * nz + (i * 4 + q)) = match q with 0 => (- f1, f0) | 1 => (f0, f1) | 2 => (f0, - f1) | _ => (f1, f0) end.
Proof.
  intros. unfold where_xy. replace (4 * nz + (i * 4 + q) <? 4 * nz) with false by (symmetry; apply Nat.ltb_ge; lia). replace (4 * nz + (i * 4 + q) <? 8 * nz) with true by (symmetry; apply Nat.ltb_lt; lia).
  replace (4 * nz + (i * 4 + q) - 4 * nz)%nat with (i * 4 + q)%nat by lia. destruct (dm i q) as (_ & ->); auto.
Qed.
Lemma where_mid i : @where_xy K nz (4 * nz + (4 * nz + i)) = (f0, f0).
Proof. unfold where_xy. replace (4 * nz + (4 * nz + i) <? 4 * nz) with false by (symmetry; apply Nat.ltb_ge; lia). replace (4 * nz + (4 * nz + i) <? 8 * nz) with false by (symmetry; apply Nat.ltb_ge; lia). reflexivity. Qed.
Lemma level_corner i q : i < nz -> q < 4 -> level_of nz (i * 4 + q) = i.
Proof. intros. unfold level_of. replace (i * 4 + q <? 4 * nz) with true by (symmetry; apply Nat.ltb_lt; lia). apply dm; auto. Qed.
Lemma level_edge i q : i < nz -> q < 4 -> level_of nz (4 * nz + (i * 4 + q)) = i.
Proof.
  intros. unfold level_of. replace (4 * nz + (i * 4 + q) <? 4 * nz) with false by (symmetry; apply Nat.ltb_ge; lia). replace (4 * nz + (i * 4 + q) <? 8 * nz) with true by (symmetry; apply Nat.ltb_lt; lia).
  replace (4 * nz + (i * 4 + q) - 4 * nz)%nat with (i * 4 + q)%nat by lia. apply dm; auto.
Qed.
Lemma level_mid i : level_of nz (4 * nz + (4 * nz + i)) = i.
Proof. unfold level_of. replace (4 * nz + (4 * nz + i) <? 4 * nz) with false by (symmetry; apply Nat.ltb_ge; lia). replace (4 * nz + (4 * nz + i) <? 8 * nz) with false by (symmetry; apply Nat.ltb_ge; lia). lia. Qed.
Lemma total_levels (F : nat -> K) : total nz mask F = sumr 0 nz (level_sum F).
Proof.
  unfold total. rewrite (sumr_split 0 (4 * nz) (9 * nz)) by lia. rewrite (sumr_split (4 * nz) (8 * nz) (9 * nz)) by lia.
  replace (sumr (4 * nz) (8 * nz) (fun s => if here s then F s else f0)) with (sumr 0 (nz * 4) (fun t => ind (here (4 * nz + t)) (F (4 * nz + t)%nat))) by (rewrite <- (sumr_shift (4 * nz) (nz * 4) (fun s => ind (here s) (F s))); replace (4 * nz + nz * 4)%nat with (8 * nz)%nat by lia; reflexivity).
  replace (sumr (8 * nz) (9 * nz) (fun s => if here s then F s else f0)) with (sumr 0 nz (fun i => ind (here (4 * nz + (4 * nz + i))) (F (4 * nz + (4 * nz + i))%nat))).
  2:{ transitivity (sumr 0 nz (fun i => ind (here (8 * nz + i)) (F (8 * nz + i)%nat))); [apply sumr_ext; intros; replace (4 * nz + (4 * nz + k))%nat with (8 * nz + k)%nat by lia; reflexivity|]. rewrite <- (sumr_shift (8 * nz) nz (fun s => ind (here s) (F s))). replace (8 * nz + nz)%nat with (9 * nz)%nat by lia. reflexivity. }
  replace (4 * nz)%nat with (nz * 4)%nat at 1 by lia. rewrite !sumr_flat. rewrite <- !sumr_add. apply sumr_ext. intros i I1. unfold level_sum.
  rewrite (sumr_ext 0 4 (fun j => if here (i * 4 + j) then F (i * 4 + j)%nat else f0) (fun q => F (i * 4 + q)%nat)); [ring|]. intros q Q1. rewrite here_corner by lia. reflexivity.
Qed.
Definition plan (a b c : K) : K :=
  let l0 := pX (L 0 gx) in let l1 := pX (L 1 gx) in let k0 := pY (L 0 gy) in let k1 := pY (L 1 gy) in
  a * ((l0 + l1) * (k0 + k1)) + b * ((l1 - l0) * (k0 + k1)) + c * ((l0 + l1) * (k1 - k0)).
Lemma full_level i : full nz mask -> i < nz -> here (4 * nz + (4 * nz + i)) = true -> forall q, q < 4 -> here (4 * nz + (i * 4 + q)) = true.
Proof. intros FU I1 HM q Q1. apply FU; auto. replace (8 * nz + i)%nat with (4 * nz + (4 * nz + i))%nat by lia. auto. Qed.
Lemma level_affine i a b c : full nz mask -> i < nz -> level_sum (fun s => aff a b c (where_xy nz s) * f (final s)) i = plan a b c * pZ (V sz i gz).
Proof.
  intros FU I1. pose proof (full_level i FU I1) as FL. unfold level_sum. rewrite !four. rewrite !where_corner, !where_edge, where_mid, !f_corner, !f_final_edge, f_mid by lia.
  cbn [across]. unfold plane_edge. cbn [Nat.eqb orb]. change (0 / 2)%nat with 0%nat. change (1 / 2)%nat with 0%nat. change (2 / 2)%nat with 1%nat. change (3 / 2)%nat with 1%nat.
  change (0 mod 2)%nat with 0%nat. change (1 mod 2)%nat with 1%nat. change (2 mod 2)%nat with 0%nat. change (3 mod 2)%nat with 1%nat. unfold plan, aff, pm. cbn [Nat.eqb fst snd].
  set (l0 := pX (L 0 gx)). set (l1 := pX (L 1 gx)). set (k0 := pY (L 0 gy)). set (k1 := pY (L 1 gy)). set (hx := pX (H gx)). set (hy := pY (H gy)). set (z := pZ (V sz i gz)). clearbody l0 l1 k0 k1 hx hy z.
  unfold half.
  destruct (here (4 * nz + (4 * nz + i))) eqn:EM.
  - rewrite !FL by (auto; lia). cbn [ind]. fld.
  - cbn [ind]. destruct (here (4 * nz + (i * 4 + 0))), (here (4 * nz + (i * 4 + 1))), (here (4 * nz + (i * 4 + 2))), (here (4 * nz + (i * 4 + 3))); cbn [ind]; fld.
Qed.
Lemma total_affine a b c d : full nz mask -> total nz mask (fun s => (aff a b c (where_xy nz s) + d * spot sz (level_of nz s)) * f (final s)) =
  plan a b c * sumr 0 nz (fun i => pZ (V sz i gz)) + plan d f0 f0 * sumr 0 nz (fun i => spot sz i * pZ (V sz i gz)).
Proof.
  intros FU. rewrite total_levels, <- !sumr_scale, <- sumr_add. apply sumr_ext. intros i I1.
  replace (plan d f0 f0 * (spot sz i * pZ (V sz i gz))) with (plan (d * spot sz i) f0 f0 * pZ (V sz i gz)) by (unfold plan; ring).
  rewrite <- !level_affine by (auto; lia). unfold level_sum. rewrite !four, !level_corner, !level_edge, !level_mid by lia. unfold aff, ind. destruct (here _), (here _), (here _), (here _), (here _); ring.
Qed.
End Functional.
End Variable_.

Definition g0 (e : entry K) : K := c0 (snd e).
Definition g1 (e : entry K) : K := c1 (snd e).
Definition g2 (e : entry K) : K := c2 (snd e).
Lemma ease_finite sz (r : K) : finite sz -> at_ease sz true r.
Proof. intros (A & B) _. destruct sz; auto; congruence. Qed.
Lemma lines (r : K) : fst (L 0 r) + fst (L 1 r) = f1 /\ fst (L 1 r) - fst (L 0 r) = r /\ snd (L 0 r) + snd (L 1 r) = f0 /\ snd (L 1 r) - snd (L 0 r) = f1.
Proof. unfold L. cbn [N_2 dN_2 value fst snd]. unfold half. repeat split; fld. Qed.
Lemma ups sz (r : K) : finite sz -> sumr 0 (getn sz) (fun i => fst (V sz i r)) = f1 /\ sumr 0 (getn sz) (fun i => snd (V sz i r)) = f0 /\
  sumr 0 (getn sz) (fun i => spot sz i * fst (V sz i r)) = r /\ sumr 0 (getn sz) (fun i => spot sz i * snd (V sz i r)) = f1.
Proof.
  intros F. pose proof (ease_finite sz r F) as A. destruct (C87_unity sz r true (or_introl F) A) as (U1 & U2). repeat split; unfold V; cbn [fst snd]; auto.
  - now apply C87_straight.
  - pose proof (stretch_is sz r A) as S. unfold stretch in S. rewrite S. destruct F. destruct sz; auto; congruence.
Qed.
Lemma total_ext nz mask (f g : nat -> K) : (forall s, s < 9 * nz -> here nz mask s = true -> f s = g s) -> total nz mask f = total nz mask g.
Proof. intros E. unfold total. apply sumr_ext. intros s S. destruct (here nz mask s) eqn:HS; auto. apply E; auto. lia. Qed.
(* The variable element gives back every linear field with its slopes. *)
Theorem C90_affine : forall sz nnd mask (gx gy gz : K) N, finite sz -> numbered (getn sz) nnd mask -> full (getn sz) mask -> length N = nnd ->
  exists N', buildSF_variable sz gx gy gz mask N = Ok N' /\ length N' = nnd /\ forall a b c d,
  let u s := a + b * fst (where_xy (getn sz) s) + c * snd (where_xy (getn sz) s) + d * spot sz (level_of (getn sz) s) in
  let sum f := total (getn sz) mask (fun s => u s * f (at_node (getn sz) mask N' s)) in
  sum fst = a + b * gx + c * gy + d * gz /\ sum g0 = b /\ sum g1 = c /\ sum g2 = d.
Proof.
  intros sz nnd mask gx gy gz N F M FU LN. pose proof (ease_finite sz gz F) as A. destruct (variable_ok sz nnd mask gx gy gz M A N LN FU) as (N' & E & (LN' & HN)).
  exists N'. split; [exact E|]. split; [exact LN'|]. intros a b c d. cbv zeta.
  assert (X : forall f, total (getn sz) mask (fun s => (a + b * fst (where_xy (getn sz) s) + c * snd (where_xy (getn sz) s) + d * spot sz (level_of (getn sz) s)) * f (at_node (getn sz) mask N' s)) =
    total (getn sz) mask (fun s => (aff a b c (where_xy (getn sz) s) + d * spot sz (level_of (getn sz) s)) * f (final sz mask gx gy gz s))).
  { intros f. apply total_ext. intros s S HS. rewrite (HN s S HS I). reflexivity. }
  destruct (lines gx) as (X1 & X2 & X3 & X4). destruct (lines gy) as (Y1 & Y2 & Y3 & Y4). destruct (ups sz gz F) as (U1 & U2 & U3 & U4).
  repeat split; rewrite X.
  - rewrite (total_affine sz mask gx gy gz fst fst fst fst) by (auto; intros; reflexivity). rewrite U1, U3. unfold plan. rewrite X1, X2, Y1, Y2. ring.
  - rewrite (total_affine sz mask gx gy gz g0 snd fst fst) by (auto; intros; reflexivity). rewrite U1, U3. unfold plan. rewrite X3, X4, Y1, Y2. ring.
  - rewrite (total_affine sz mask gx gy gz g1 fst snd fst) by (auto; intros; reflexivity). rewrite U1, U3. unfold plan. rewrite X1, X2, Y3, Y4. ring.
  - rewrite (total_affine sz mask gx gy gz g2 fst fst snd) by (auto; intros; reflexivity). rewrite U2, U4. unfold plan. rewrite X1, X2, Y1, Y2. ring.
Qed.
(* the three kinds of nodes *)
Lemma kinds nz s : s < 9 * nz -> (exists i q, i < nz /\ q < 4 /\ s = (i * 4 + q)%nat) \/ (exists i q, i < nz /\ q < 4 /\ s = (4 * nz + (i * 4 + q))%nat) \/ (exists i, i < nz /\ s = (4 * nz + (4 * nz + i))%nat).
Proof.
  intros S. destruct (Nat.lt_ge_cases s (4 * nz)) as [T|T]; [|destruct (Nat.lt_ge_cases s (8 * nz)) as [U|U]].
  - left. exists (s / 4)%nat, (s mod 4)%nat. pose proof (Nat.div_mod s 4). pose proof (Nat.mod_upper_bound s 4). lia.
  - right. left. exists ((s - 4 * nz) / 4)%nat, ((s - 4 * nz) mod 4)%nat. pose proof (Nat.div_mod (s - 4 * nz) 4). pose proof (Nat.mod_upper_bound (s - 4 * nz) 4). lia.
  - right. right. exists (s - 8 * nz)%nat. lia.
Qed.
Lemma line_at : fst (L 0 (- f1)) = (f1 : K) /\ fst (L 0 f0) = (half : K) /\ fst (L 0 f1) = (f0 : K) /\ fst (L 1 (- f1)) = (f0 : K) /\ fst (L 1 f0) = (half : K) /\ fst (L 1 f1) = (f1 : K).
Proof. unfold L. cbn [N_2 value fst]. unfold half. repeat split; fld. Qed.
Lemma hat_at : fst (H (- f1)) = (f0 : K) /\ fst (H f0) = (f1 : K) /\ fst (H f1) = (f0 : K).
Proof.
  unfold H. cbn [N_A value fst]. destruct (pos_sign f1 (@pos1 K)) as (_ & A1 & _ & _ & A2). rewrite A1, A2. unfold fabs. rewrite fle_refl. repeat split; ring.
Qed.
Ltac small q := destruct q as [|[|[|[|q]]]]; [| | | |exfalso; lia].
Ltac eval_plane := cbn [across]; unfold plane_edge; cbn [Nat.eqb orb]; change (0 / 2)%nat with 0%nat; change (1 / 2)%nat with 0%nat; change (2 / 2)%nat with 1%nat; change (3 / 2)%nat with 1%nat;
  change (0 mod 2)%nat with 0%nat; change (1 mod 2)%nat with 1%nat; change (2 mod 2)%nat with 0%nat; change (3 mod 2)%nat with 1%nat; unfold pm; cbn [Nat.eqb fst snd].
(* Each function is one at its node and nothing at the other nodes that are there. *)
Theorem C90_nodes : forall sz nnd mask s u N, numbered (getn sz) nnd mask -> full (getn sz) mask -> length N = nnd ->
  s < 9 * getn sz -> u < 9 * getn sz -> here (getn sz) mask s = true -> here (getn sz) mask u = true ->
  exists N', buildSF_variable sz (fst (where_xy (getn sz) u)) (snd (where_xy (getn sz) u)) (spot sz (level_of (getn sz) u)) mask N = Ok N' /\
  fst (at_node (getn sz) mask N' s) = (if s =? u then f1 else f0 : K).
Proof.
  intros sz nnd mask s u N M FU LN S U HS HU.
  assert (LU : level_of (getn sz) u < getn sz).
  { destruct (kinds (getn sz) u U) as [(i & q & I1 & Q1 & ->)|[(i & q & I1 & Q1 & ->)|(i & I1 & ->)]]; [rewrite level_corner|rewrite level_edge|rewrite level_mid]; auto. }
  destruct (variable_ok sz nnd mask (fst (where_xy (getn sz) u)) (snd (where_xy (getn sz) u)) (spot sz (level_of (getn sz) u)) M (spot_ease sz _ true LU) N LN FU) as (N' & E & (_ & HN)).
  exists N'. split; [exact E|]. rewrite (HN s S HS I). clear E HN N'.
  set (gz := spot sz (level_of (getn sz) u)).
  assert (ZV : forall i, i < getn sz -> fst (V sz i gz) = (if i =? level_of (getn sz) u then f1 else f0 : K)) by (intros; unfold V, gz; cbn [fst]; now apply C87_nodes).
  destruct line_at as (A1 & A2 & A3 & A4 & A5 & A6). destruct hat_at as (B1 & B2 & B3). clearbody gz.
  assert (NX : forall i q j r, q < 4 -> r < 4 -> i <> j -> (i * 4 + q)%nat <> (j * 4 + r)%nat) by (intros; lia).
  destruct (kinds (getn sz) s S) as [(i & q & I1 & Q1 & ->)|[(i & q & I1 & Q1 & ->)|(i & I1 & ->)]].
  - rewrite (f_corner sz mask _ _ gz fst fst fst fst) by (auto; intros; reflexivity). rewrite ZV by auto.
    destruct (kinds (getn sz) u U) as [(j & r & J1 & R1 & ->)|[(j & r & J1 & R1 & ->)|(j & J1 & ->)]].
    + rewrite level_corner by auto. destruct (Nat.eqb_spec i j) as [->|NE].
      2:{ replace (i * 4 + q =? j * 4 + r) with false by (symmetry; apply Nat.eqb_neq; lia). ring. }
      replace (j * 4 + q =? j * 4 + r) with (q =? r) by (destruct (Nat.eqb_spec q r); symmetry; [apply Nat.eqb_eq|apply Nat.eqb_neq]; lia).
      rewrite where_corner by auto. unfold ind. small q; small r; eval_plane; rewrite ?A1, ?A2, ?A3, ?A4, ?A5, ?A6, ?B1, ?B2, ?B3; repeat (destruct (here _ _ _)); ring.
    + rewrite level_edge by auto. replace (i * 4 + q =? 4 * getn sz + (j * 4 + r)) with false by (symmetry; apply Nat.eqb_neq; lia). destruct (Nat.eqb_spec i j) as [->|NE]; [|ring].
      rewrite where_edge by auto. unfold ind. small q; small r; eval_plane; rewrite ?HU, ?A1, ?A2, ?A3, ?A4, ?A5, ?A6, ?B1, ?B2, ?B3; cbv iota; repeat (destruct (here _ _ _)); unfold half; fld.
    + rewrite level_mid. replace (i * 4 + q =? 4 * getn sz + (4 * getn sz + j)) with false by (symmetry; apply Nat.eqb_neq; lia). destruct (Nat.eqb_spec i j) as [->|NE]; [|ring].
      pose proof (full_level sz mask j FU J1 HU) as FL. rewrite where_mid. rewrite HU. unfold ind. cbv iota. small q; cbn [across]; rewrite !FL by lia; eval_plane; rewrite ?A1, ?A2, ?A3, ?A4, ?A5, ?A6, ?B1, ?B2, ?B3; unfold half; fld.
  - rewrite (f_final_edge sz mask _ _ gz fst fst fst fst) by (auto; intros; reflexivity). rewrite ZV by auto.
    destruct (kinds (getn sz) u U) as [(j & r & J1 & R1 & ->)|[(j & r & J1 & R1 & ->)|(j & J1 & ->)]].
    + rewrite level_corner by auto. replace (4 * getn sz + (i * 4 + q) =? j * 4 + r) with false by (symmetry; apply Nat.eqb_neq; lia). destruct (Nat.eqb_spec i j) as [->|NE]; [|ring].
      rewrite where_corner by auto. unfold ind. small q; small r; eval_plane; rewrite ?A1, ?A2, ?A3, ?A4, ?A5, ?A6, ?B1, ?B2, ?B3; cbv iota; repeat (destruct (here _ _ _)); unfold half; fld.
    + rewrite level_edge by auto. destruct (Nat.eqb_spec i j) as [->|NE].
      2:{ replace (4 * getn sz + (i * 4 + q) =? 4 * getn sz + (j * 4 + r)) with false by (symmetry; apply Nat.eqb_neq; lia). ring. }
      replace (4 * getn sz + (j * 4 + q) =? 4 * getn sz + (j * 4 + r)) with (q =? r) by (destruct (Nat.eqb_spec q r); symmetry; [apply Nat.eqb_eq|apply Nat.eqb_neq]; lia).
      rewrite where_edge by auto. unfold ind. small q; small r; eval_plane; rewrite ?A1, ?A2, ?A3, ?A4, ?A5, ?A6, ?B1, ?B2, ?B3; cbv iota; repeat (destruct (here _ _ _)); unfold half; fld.
    + rewrite level_mid. replace (4 * getn sz + (i * 4 + q) =? 4 * getn sz + (4 * getn sz + j)) with false by (symmetry; apply Nat.eqb_neq; lia). destruct (Nat.eqb_spec i j) as [->|NE]; [|ring].
      rewrite where_mid, HU. unfold ind. small q; eval_plane; rewrite ?A1, ?A2, ?A3, ?A4, ?A5, ?A6, ?B1, ?B2, ?B3; unfold half; fld.
  - rewrite (f_mid sz mask _ _ gz fst fst fst fst) by (auto; intros; reflexivity). rewrite ZV by auto.
    destruct (kinds (getn sz) u U) as [(j & r & J1 & R1 & ->)|[(j & r & J1 & R1 & ->)|(j & J1 & ->)]].
    + rewrite level_corner by auto. replace (4 * getn sz + (4 * getn sz + i) =? j * 4 + r) with false by (symmetry; apply Nat.eqb_neq; lia). rewrite where_corner by auto.
      small r; eval_plane; rewrite ?B1, ?B2, ?B3; destruct (i =? j); ring.
    + rewrite level_edge by auto. replace (4 * getn sz + (4 * getn sz + i) =? 4 * getn sz + (j * 4 + r)) with false by (symmetry; apply Nat.eqb_neq; lia). rewrite where_edge by auto.
      small r; eval_plane; rewrite ?B1, ?B2, ?B3; destruct (i =? j); ring.
    + rewrite level_mid, where_mid. cbn [fst snd]. rewrite B2. replace (4 * getn sz + (4 * getn sz + i) =? 4 * getn sz + (4 * getn sz + j)) with (i =? j) by (destruct (Nat.eqb_spec i j); symmetry; [apply Nat.eqb_eq|apply Nat.eqb_neq]; lia). destruct (i =? j); ring.
Qed.
End Proofs.
