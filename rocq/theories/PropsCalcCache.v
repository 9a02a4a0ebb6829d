(* C63: a repeated calculation finds the geometry that the first one left in the slab
   cache (src/pavement.cpp lines 1064-1247 with include/cache.h). *)
From Coq Require Import List ZArith Bool Arith Lia.
From Verif Require Import Base SlabModel PropsSlab LeModel.
Import ListNotations.
Local Open Scope Z_scope.

(* Bytes rounded up to 16, and their sum. *)
Definition up16 (x : Z) : Z := 16 * ((x + 15) / 16).
Definition room (l : list Z) : Z := fold_right (fun x s => up16 x + s) 0 l.

Lemma up16_ge x : x <= up16 x < x + 16.
Proof. unfold up16. pose proof (Z.div_mod (x + 15) 16 ltac:(lia)). pose proof (Z.mod_pos_bound (x + 15) 16 ltac:(lia)). lia. Qed.
Lemma up16_mod x : x + (16 - x mod 16) mod 16 = up16 x.
Proof.
  unfold up16. pose proof (Z.div_mod x 16 ltac:(lia)) as H. pose proof (Z.mod_pos_bound x 16 ltac:(lia)) as B.
  set (q := x / 16) in *. set (r := x mod 16) in *.
  destruct (Z.eq_dec r 0) as [E|E].
  - rewrite E. change ((16 - 0) mod 16) with 0.
    replace (x + 15) with (15 + q * 16) by lia. rewrite Z.div_add by lia. change (15 / 16) with 0. lia.
  - rewrite Z.mod_small by lia.
    replace (x + 15) with ((r - 1) + (q + 1) * 16) by lia. rewrite Z.div_add by lia. rewrite Z.div_small by lia. lia.
Qed.
Lemma align_up x : 0 <= x <= page_size -> align x = up16 x.
Proof.
  intros B. unfold align. rewrite up16_mod. unfold u64. apply Z.mod_small.
  pose proof (up16_ge x). unfold page_size in B. lia.
Qed.
Lemma room_nonneg l : Forall (fun x => 0 <= x) l -> 0 <= room l.
Proof.
  induction l as [|x l IH]; intros F; [cbn; lia|]. pose proof (Forall_inv F) as X. cbv beta in X.
  specialize (IH (Forall_inv_tail F)). cbn [room fold_right]. fold (room l). pose proof (up16_ge x). lia.
Qed.

(* requests that fit into the first slab together stay there *)
Lemma areas_one lens : forall m,
  (m = 0 \/ exists k, m = 16 * k /\ 1 <= k) -> Forall (fun x => 0 <= x) lens ->
  (if m =? 0 then 16 else m) + room lens <= page_size + 16 ->
  length (fst (areas [Slab page_size m] lens)) = 1%nat.
Proof.
  induction lens as [|x l IH]; intros m M F B; [reflexivity|].
  pose proof (Forall_inv F) as X. cbv beta in X. pose proof (room_nonneg l (Forall_inv_tail F)) as RN.
  cbn [room fold_right] in B. fold (room l) in B. pose proof (up16_ge x) as U.
  set (q := if m =? 0 then 16 else m) in *.
  assert (Q : exists k, q = 16 * k /\ 1 <= k).
  { unfold q. destruct M as [->|(k & -> & K)].
    - exists 1. cbn. lia.
    - exists k. rewrite (proj2 (Z.eqb_neq _ _)) by lia. lia. }
  destruct Q as (k & QK & K).
  assert (XP : 0 <= x <= page_size) by lia.
  cbn [areas]. unfold allocate. rewrite Z.max_r by lia.
  replace (align page_size) with page_size by (vm_compute; reflexivity).
  replace (u64 (page_size + 16)) with (page_size + 16) by (vm_compute; reflexivity).
  cbn [fit mark cap]. fold q. rewrite (align_up x XP).
  assert (P : page_size = 4194256) by reflexivity.
  assert (S1 : s64 (page_size + 16 - q) = page_size + 16 - q).
  { unfold s64, u64. rewrite Z.mod_small by lia. rewrite (proj2 (Z.ltb_lt _ _)); lia. }
  rewrite S1.
  assert (S2 : s64 (page_size + 16 - q - up16 x) = page_size + 16 - q - up16 x).
  { unfold s64, u64. rewrite Z.mod_small by lia. rewrite (proj2 (Z.ltb_lt _ _)); lia. }
  rewrite S2, (proj2 (Z.leb_le _ _)) by lia.
  rewrite up16_mod.
  assert (UQ : up16 (q + x) = q + up16 x).
  { unfold up16. rewrite QK. replace (16 * k + x + 15) with ((x + 15) + k * 16) by lia. rewrite Z.div_add by lia. lia. }
  rewrite UQ.
  destruct (areas [Slab page_size (q + up16 x)] l) as [st' r] eqn:E. cbn [fst].
  replace st' with (fst (areas [Slab page_size (q + up16 x)] l)) by (rewrite E; reflexivity).
  apply IH; [|exact (Forall_inv_tail F)|].
  - right. exists (k + (x + 15) / 16). unfold up16. pose proof (Z.div_pos (x + 15) 16). lia.
  - rewrite (proj2 (Z.eqb_neq _ _)) by lia. lia.
Qed.

Lemma calc_sizes_nonneg gr ip nl nz rs :
  0 <= nl -> 0 <= nz -> Forall (fun x => 0 <= fst x /\ 0 <= snd x) rs ->
  Forall (fun x => 0 <= x) (calc_sizes gr ip nl nz rs).
Proof.
  intros A B C. unfold calc_sizes. repeat (apply Forall_app; split).
  - repeat constructor; lia.
  - destruct gr; repeat constructor; lia.
  - repeat constructor; lia.
  - destruct ip; repeat constructor; lia.
  - repeat constructor; lia.
  - apply Forall_concat. apply Forall_forall. intros l H. apply in_map_iff in H. destruct H as ([nr nm] & <- & H).
    rewrite Forall_forall in C. specialize (C _ H). cbn [fst snd] in C. destruct C as [C1 C2].
    assert (0 <= nz * nr) by (apply Z.mul_nonneg_nonneg; lia).
    repeat constructor; lia.
Qed.

(* If all the blocks of a calculation fit into the first slab, every repetition gets the
   same blocks in the same order, so that the cached geometry is found. *)
Theorem C63_cached_geometry_partial :
  forall (gr ip : bool) (nl nz : Z) (rs : list (Z * Z)),
  0 <= nl -> 0 <= nz -> Forall (fun x => 0 <= fst x /\ 0 <= snd x) rs ->
  room (calc_sizes gr ip nl nz rs) <= page_size ->
  replay (calc_sizes gr ip nl nz rs).
Proof.
  intros gr ip nl nz rs A B C H. apply C24_replay_single_slab_partial. apply areas_one.
  - left; reflexivity.
  - apply calc_sizes_nonneg; auto.
  - rewrite Z.eqb_refl. lia.
Qed.
Print Assumptions C63_cached_geometry_partial.
(* Three layers, 20 depths, two radii with 100 distances each. *)
Example C63_cached_geometry_ex : room (calc_sizes true false 3 20 [(100, 400); (100, 400)]) = 404064.
Proof. vm_compute. reflexivity. Qed.

(* With two load radii and 30000 distances the repetition looks for the integration limits
   of the second radius (the last block) where nothing of the kind was stored. *)
Theorem C63_cached_geometry_refuted :
  exists (gr ip : bool) (nl nz : Z) (rs : list (Z * Z)),
    let lens := calc_sizes gr ip nl nz rs in
    Forall (fun x => 0 <= x <= page_size) lens /\
    nth_error (snd (areas (reset (fst (areas create lens))) lens)) (length lens - 1) <>
    nth_error (snd (areas create lens)) (length lens - 1).
Proof.
  exists false, false, 2, 1, [(30000, 300); (30000, 300)]. split.
  - unfold calc_sizes. repeat constructor; cbn; unfold page_size; lia.
  - vm_compute. congruence.
Qed.
Print Assumptions C63_cached_geometry_refuted.
