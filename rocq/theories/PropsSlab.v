(* C23, C24: the slab allocator of include/cache.h. *)
From Coq Require Import List ZArith Lia Bool Arith Sorted.
From Verif Require Import Base SlabModel.
Import ListNotations.
Local Open Scope Z_scope.

(* ------------------------------------------------------------------ specification *)
Definition aligned (b : block) : Prop := let '(_, q, _) := b in q mod 16 = 0.
Definition in_bounds (st : cache) (b : block) : Prop :=
  let '(i, q, len) := b in exists c, nth_error st i = Some c /\ 0 <= q /\ q + len <= cap c.
Definition disjoint (b b' : block) : Prop :=
  let '(i, q, len) := b in let '(i', q', len') := b' in i <> i' \/ q + len <= q' \/ q' + len' <= q.
Definition pairwise_disjoint (l : list block) : Prop := ForallOrdPairs disjoint l.
Definition small (ops : list sop) : Prop :=
  Forall (fun o => match o with SAlloc len => 0 <= len <= page_size | SReset => True end) ops.

(* ------------------------------------------------------------------ lemmas *)
Lemma align_eq len : 0 <= len <= page_size + 16 ->
  exists k, align len = 16 * k /\ len <= 16 * k < len + 16.
Proof.
  intros H. unfold page_size in H. unfold align, u64.
  exists ((len + (16 - len mod 16) mod 16) / 16).
  Z.div_mod_to_equations. lia.
Qed.
Lemma align_off q len : 0 <= len -> q mod 16 = 0 ->
  exists k, q + len + (16 - (q + len) mod 16) mod 16 = q + 16 * k /\ len <= 16 * k < len + 16.
Proof.
  intros H Hq. exists ((len + (16 - len mod 16) mod 16) / 16). Z.div_mod_to_equations. lia.
Qed.
Lemma align_unique a b len : len <= 16 * a < len + 16 -> len <= 16 * b < len + 16 -> a = b.
Proof. lia. Qed.
Lemma s_small len : 0 <= len <= page_size -> u64 (align (Z.max len page_size) + 16) = page_size + 16.
Proof. intros H. rewrite Z.max_r by lia. reflexivity. Qed.
Lemma s64_small x : - 2 ^ 40 <= x <= 2 ^ 40 -> s64 x = x.
Proof. intros H. unfold s64, u64. destruct (Z.ltb_spec (x mod 2 ^ 64) (2 ^ 63)); Z.div_mod_to_equations; lia. Qed.

Definition mark_ok (c : slab) : Prop := mark c = 0 \/ (16 <= mark c <= page_size + 16 /\ mark c mod 16 = 0).
Definition eff (c : slab) : Z := if mark c =? 0 then 16 else mark c.
Lemma eff_ok c : mark_ok c -> 16 <= eff c <= page_size + 16 /\ eff c mod 16 = 0.
Proof.
  intros [H|H]; unfold eff.
  - rewrite H. unfold page_size. simpl. split; [lia|reflexivity].
  - destruct (Z.eqb_spec (mark c) 0); lia.
Qed.

Lemma eff_slab n m : m <> 0 -> eff (Slab n m) = m.
Proof. intros H. unfold eff. cbn [mark]. destruct (Z.eqb_spec m 0); congruence. Qed.
(* The test of line 84 for a request that is not larger than a page. *)
Lemma room c len k : mark_ok c -> 0 <= len <= page_size -> align len = 16 * k -> len <= 16 * k < len + 16 ->
  (0 <=? s64 (s64 (page_size + 16 - eff c) - align len)) = (eff c + 16 * k <=? page_size + 16).
Proof.
  intros M H E K. pose proof (eff_ok c M). rewrite E. unfold page_size in *.
  rewrite (s64_small (_ - eff c)) by lia. rewrite s64_small by lia.
  destruct (Z.leb_spec 0 (4194304 - 6 * 8 + 16 - eff c - 16 * k)), (Z.leb_spec (eff c + 16 * k) (4194304 - 6 * 8 + 16)); lia.
Qed.

(* What fit does. *)
Lemma fit_ok len k st : Forall mark_ok st -> 0 <= len <= page_size -> align len = 16 * k -> len <= 16 * k < len + 16 ->
  match fit st (page_size + 16) len with
  | (st', Some (i, q)) => exists a c b, st = a ++ c :: b /\ i = length a /\ q = eff c /\ q + 16 * k <= page_size + 16 /\
        Forall (fun c => page_size + 16 < eff c + 16 * k) a /\
        st' = map (fun c => Slab (cap c) (eff c)) a ++ Slab (cap c) (q + 16 * k) :: b
  | (st', None) => st' = map (fun c => Slab (cap c) (eff c)) st /\ Forall (fun c => page_size + 16 < eff c + 16 * k) st
  end.
Proof.
  intros F H E K. induction st as [|c t IH]; cbn [fit]; [auto|].
  pose proof (Forall_inv F) as M. pose proof (Forall_inv_tail F) as Ft. specialize (IH Ft).
  fold (eff c). rewrite (room c len k M H E K).
  destruct (Z.leb_spec (eff c + 16 * k) (page_size + 16)).
  - exists [], c, t. pose proof (eff_ok c M) as [_ E16].
    destruct (align_off (eff c) len ltac:(lia) E16) as (k' & Ek & Kk).
    rewrite Ek. rewrite (align_unique k' k len Kk K). simpl. repeat split; auto.
  - destruct (fit t (page_size + 16) len) as [t' [[i q]|]].
    + destruct IH as (a & c' & b & -> & -> & -> & I1 & I2 & ->).
      exists (c :: a), c', b. simpl. repeat split; auto.
    + destruct IH as [-> I]. simpl. split; auto.
Qed.

Lemma mark_full_snoc st c s : mark_full (st ++ [c]) s = st ++ [Slab (cap c) (align s)].
Proof.
  induction st as [|x st IH]; auto. cbn [app mark_full]. rewrite IH. destruct st; reflexivity.
Qed.

(* Invariant: marks in range, blocks below the mark of their slab. *)
Definition below (st : cache) (b : block) : Prop :=
  let '(i, q, len) := b in 0 <= len /\ 16 <= q /\ q mod 16 = 0 /\
    exists c, nth_error st i = Some c /\ mark c <> 0 /\ q + len <= mark c.
Definition shape (st : cache) : Prop :=
  exists c t, st = c :: t /\ cap c = page_size /\ Forall (fun c => cap c = page_size + 16) t.
Definition SInv (st : cache) (bs : list block) : Prop :=
  Forall mark_ok st /\ shape st /\ Forall (below st) bs /\ pairwise_disjoint bs.

Lemma shape_map st f : shape st -> (forall c, cap (f c) = cap c) -> shape (map f st).
Proof.
  intros (c & t & -> & H1 & H2) Hf. exists (f c), (map f t). simpl. rewrite Hf. repeat split; auto.
  apply Forall_map. eapply Forall_impl; [|exact H2]. intros a Ha. rewrite Hf. auto.
Qed.
Lemma mark_eff c : mark_ok c -> mark_ok (Slab (cap c) (eff c)).
Proof. intros M. right. apply eff_ok. auto. Qed.

(* Only raising marks keeps every block below its mark. *)
Definition raised (st st' : cache) : Prop :=
  forall i c, nth_error st i = Some c -> mark c <> 0 -> exists c', nth_error st' i = Some c' /\ mark c <= mark c' /\ mark c' <> 0.
Lemma below_raised st st' b : raised st st' -> below st b -> below st' b.
Proof.
  intros R. destruct b as [[i q] len]. intros (H0 & H1 & H2 & c & Hc & Hm & Hle).
  destruct (R i c Hc Hm) as (c' & Hc' & L & N). repeat split; auto. exists c'. repeat split; auto. lia.
Qed.

Lemma allocate_ok st bs len : SInv st bs -> 0 <= len <= page_size ->
  let '(st', i, q) := allocate st len in SInv st' ((i, q, len) :: bs) /\ q + len <= page_size + 16.
Proof.
  intros (M & Sh & B & P) H. destruct (align_eq len ltac:(unfold page_size in *; lia)) as (k & Ek & K).
  unfold allocate. rewrite s_small by auto.
  pose proof (fit_ok len k st M H Ek K) as F. destruct (fit st (page_size + 16) len) as [st' [[i q]|]].
  - destruct F as (a & c & b & -> & -> & -> & F1 & F2 & ->).
    assert (Mc : mark_ok c) by (rewrite Forall_forall in M; apply M, in_app_iff; right; left; auto).
    pose proof (eff_ok c Mc) as [E1 E2].
    assert (R : raised (a ++ c :: b) (map (fun c => Slab (cap c) (eff c)) a ++ Slab (cap c) (eff c + 16 * k) :: b)).
    { intros i x Hx Nx. destruct (Nat.lt_trichotomy i (length a)) as [Hl|[->|Hl]].
      - rewrite nth_error_app1 in Hx by auto. rewrite nth_error_app1 by (rewrite map_length; auto).
        rewrite nth_error_map, Hx. simpl. eexists. split; [reflexivity|]. unfold eff. simpl.
        destruct (Z.eqb_spec (mark x) 0); [contradiction|]. lia.
      - rewrite nth_error_app2, Nat.sub_diag in Hx by lia. injection Hx as ->.
        rewrite nth_error_app2 by (rewrite map_length; lia). rewrite map_length, Nat.sub_diag. cbn [nth_error].
        eexists. split; [reflexivity|]. cbn [mark]. unfold eff in *. destruct (Z.eqb_spec (mark x) 0); [contradiction|]. lia.
      - rewrite nth_error_app2 in Hx by lia. rewrite nth_error_app2 by (rewrite map_length; lia).
        rewrite map_length. destruct (i - length a)%nat as [|j] eqn:J; [lia|]. simpl in *.
        exists x. repeat split; auto. lia. }
    split; [|lia]. split; [|split; [|split]].
    + rewrite Forall_app in M. destruct M as [Ma Mb]. apply Forall_app. split.
      * apply Forall_map. eapply Forall_impl; [|exact Ma]. intros x; apply mark_eff.
      * constructor; [|apply (Forall_inv_tail Mb)]. right. cbn [mark cap]. split; [lia|]. Z.div_mod_to_equations. lia.
    + destruct Sh as (c0 & t & E & S1 & S2). destruct a as [|a0 a]; simpl in E; injection E as -> <-.
      * eexists _, _. split; [reflexivity|]. auto.
      * eexists _, _. split; [reflexivity|]. simpl. split; auto. rewrite Forall_app in *. destruct S2 as [S2 S3].
        split; [apply Forall_map; auto|]. inversion S3; subst. constructor; auto.
    + constructor.
      * repeat split; try lia. exists (Slab (cap c) (eff c + 16 * k)). rewrite nth_error_app2 by (rewrite map_length; lia).
        rewrite map_length, Nat.sub_diag. cbn [nth_error]. split; [reflexivity|cbn [mark]; lia].
      * eapply Forall_impl; [|exact B]. intros x. apply below_raised; auto.
    + constructor; auto. apply Forall_forall. intros [[i' q'] len'] Hb. rewrite Forall_forall in B.
      destruct (B _ Hb) as (B0 & B1 & B2 & x & Hx & Nx & Le). simpl.
      destruct (Nat.eq_dec (length a) i') as [<-|]; [right; right|left; auto].
      rewrite nth_error_app2, Nat.sub_diag in Hx by lia. injection Hx as ->.
      unfold eff. destruct (Z.eqb_spec (mark x) 0); [contradiction|]. auto.
  - destruct F as [-> F]. rewrite map_length.
    destruct Sh as (c0 & t & -> & S1 & S2).
    assert (X : exists t0 c1, c0 :: t = t0 ++ [c1]).
    { destruct (@exists_last _ (c0 :: t)) as (t0 & c1 & E); [discriminate|]. eauto. }
    destruct X as (t0 & c1 & E). rewrite E in *. rewrite map_app. cbn [map]. rewrite mark_full_snoc. cbn [cap].
    change (align (page_size + 16)) with (page_size + 16).
    destruct (align_off 16 len ltac:(lia) eq_refl) as (k' & Ek' & K'). rewrite Ek'.
    rewrite (align_unique k' k len K' K) in *. clear k' Ek' K'.
    rewrite Forall_app in M. destruct M as [M0 M1]. pose proof (Forall_inv M1) as Mc1.
    assert (R : raised (t0 ++ [c1]) ((map (fun c => Slab (cap c) (eff c)) t0 ++ [Slab (cap c1) (page_size + 16)]) ++
                  [Slab (page_size + 16) (16 + 16 * k)])).
    { intros i x Hx Nx. pose proof (nth_error_lt _ _ _ Hx) as Li. rewrite app_length in Li. simpl in Li.
      rewrite nth_error_app1 by (rewrite app_length, map_length; simpl; lia).
      destruct (Nat.lt_ge_cases i (length t0)) as [Hl|Hl].
      - rewrite nth_error_app1 in Hx by auto. rewrite nth_error_app1 by (rewrite map_length; auto).
        rewrite nth_error_map, Hx. simpl. eexists. split; [reflexivity|]. unfold eff. simpl.
        destruct (Z.eqb_spec (mark x) 0); [contradiction|]. lia.
      - assert (i = length t0) by lia. subst i. rewrite nth_error_app2, Nat.sub_diag in Hx by lia. injection Hx as ->.
        rewrite nth_error_app2 by (rewrite map_length; lia). rewrite map_length, Nat.sub_diag. simpl.
        eexists. split; [reflexivity|]. simpl. destruct Mc1; unfold page_size in *; lia. }
    split; [|unfold page_size in *; lia]. split; [|split; [|split]].
    + apply Forall_app. split; [apply Forall_app; split|].
      * apply Forall_map. eapply Forall_impl; [|exact M0]. intros x; apply mark_eff.
      * constructor; [|constructor]. right. simpl. unfold page_size. split; [lia|reflexivity].
      * constructor; [|constructor]. right. cbn [mark cap]. unfold page_size in *. split; [lia|]. Z.div_mod_to_equations. lia.
    + destruct t0 as [|x t0]; simpl in E; injection E as -> ->.
      * eexists _, _. split; [reflexivity|]. auto.
      * eexists _, _. split; [reflexivity|]. simpl. split; auto.
        rewrite Forall_app in S2. destruct S2 as [S2 S3]. apply Forall_app. split; [apply Forall_app; split|].
        -- apply Forall_map. auto.
        -- constructor; auto. apply (Forall_inv S3).
        -- constructor; auto.
    + constructor.
      * split; [lia|]. split; [lia|]. split; [reflexivity|]. exists (Slab (page_size + 16) (16 + 16 * k)).
        rewrite nth_error_app2 by (rewrite !app_length, map_length; simpl; lia).
        rewrite !app_length, map_length. cbn [length]. rewrite Nat.sub_diag. cbn [nth_error]. split; [reflexivity|cbn [mark]; lia].
      * eapply Forall_impl; [|exact B]. intros x. apply below_raised; auto.
    + constructor; auto. apply Forall_forall. intros [[i' q'] len'] Hb. rewrite Forall_forall in B.
      destruct (B _ Hb) as (B0 & B1 & B2 & x & Hx & Nx & Le). simpl. left.
      pose proof (nth_error_lt _ _ _ Hx). lia.
Qed.

Lemma srun_ok ops : forall st bs, SInv st bs -> small ops ->
  (forall b, In b bs -> let '(_, q, len) := b in q + len <= page_size + 16) ->
  let '(st', bs') := srun st bs ops in SInv st' bs' /\
    forall b, In b bs' -> let '(_, q, len) := b in q + len <= page_size + 16.
Proof.
  induction ops as [|[len|] ops IH]; intros st bs I Sm Q; cbn [srun]; auto.
  - pose proof (Forall_inv Sm) as H. pose proof (Forall_inv_tail Sm) as Sm'.
    pose proof (allocate_ok st bs len I H) as A. destruct (allocate st len) as [[st' i] q]. destruct A as [A1 A2].
    apply IH; auto. intros b [<-|Hb]; auto. apply Q; auto.
  - apply IH; [|apply (Forall_inv_tail Sm)|simpl; tauto].
    destruct I as (M & Sh & _ & _). split; [|split; [|split; constructor]].
    + apply Forall_map, Forall_forall. intros c _. left. reflexivity.
    + apply shape_map; auto.
Qed.

(* ------------------------------------------------------------------ C23 *)
(* With requests of at most a page all blocks are aligned and disjoint, and in bounds
   except that a block in the first slab may reach up to 16 bytes past its end. *)
Theorem C23_blocks_partial : forall ops, small ops ->
  let '(st, bs) := srun create [] ops in
  pairwise_disjoint bs /\
  forall b, In b bs -> aligned b /\
    (fst (fst b) <> O -> in_bounds st b) /\
    (fst (fst b) = O -> snd (fst b) + snd b <= page_size -> in_bounds st b) /\
    snd (fst b) + snd b <= page_size + 16.
Proof.
  intros ops Sm.
  assert (I0 : SInv create []).
  { split; [repeat constructor|]. split; [|split; constructor]. exists (Slab page_size 0), []. auto. }
  pose proof (srun_ok ops create [] I0 Sm ltac:(simpl; tauto)) as H.
  destruct (srun create [] ops) as [st bs]. destruct H as [(M & Sh & B & P) Q]. split; auto.
  intros [[i q] len] Hb. rewrite Forall_forall in B. destruct (B _ Hb) as (B0 & B1 & B2 & c & Hc & Nc & Le).
  specialize (Q _ Hb). cbn [fst snd] in *. simpl in Q. split; [exact B2|].
  destruct Sh as (c0 & t & -> & S1 & S2).
  split; [|split; [|exact Q]].
  - intros Hi. exists c. split; auto. split; [lia|]. destruct i as [|i]; [congruence|]. simpl in Hc.
    rewrite Forall_forall in S2. rewrite (S2 c (nth_error_In _ _ Hc)). exact Q.
  - intros -> Hq. exists c. split; auto. split; [lia|]. simpl in Hc. injection Hc as <-. lia.
Qed.
Example C23_demo :
  let '(st, bs) := srun create [] [SAlloc 100; SAlloc 4194000; SAlloc 300; SReset; SAlloc 1; SAlloc 4194000; SAlloc 2000000; SAlloc 40] in
  bs = [(0%nat, 4194032, 40); (1%nat, 16, 2000000); (0%nat, 32, 4194000); (0%nat, 16, 1)] /\ length st = 2%nat.
Proof. vm_compute. auto. Qed.

(* The claim fails: the first slab is 16 bytes smaller than allocate believes ... *)
Theorem C23_first_slab_refuted :
  exists ops, small ops /\ let '(st, bs) := srun create [] ops in exists b, In b bs /\ ~ in_bounds st b.
Proof.
  exists [SAlloc page_size]. split; [repeat constructor; discriminate|].
  exists (0%nat, 16, page_size). split; [left; reflexivity|].
  intros (c & Hc & _ & H). injection Hc as <-. unfold page_size in H. simpl in H. lia.
Qed.
(* ... every request beyond a page that meets an empty slab gets memory it does not have ... *)
Theorem C23_large_request_refuted : forall len, page_size < len < 2 ^ 62 ->
  exists st, allocate create len = (st, O, 16) /\ ~ in_bounds st (O, 16, len).
Proof.
  intros len H. unfold page_size in H.
  assert (E : exists k, align len = 16 * k /\ len <= 16 * k < len + 16).
  { unfold align, u64. exists ((len + (16 - len mod 16) mod 16) / 16). Z.div_mod_to_equations. lia. }
  destruct E as (k & E & K).
  assert (A : exists st, allocate create len = (st, O, 16) /\ nth_error st 0 = Some (Slab page_size (16 + len + (16 - (16 + len) mod 16) mod 16))).
  { unfold allocate, create. rewrite Z.max_l by (unfold page_size; lia). rewrite E.
    cbn [fit mark]. rewrite Z.eqb_refl. rewrite E.
    assert (U : u64 (16 * k + 16) = 16 * k + 16) by (unfold u64; apply Z.mod_small; lia). rewrite U.
    replace (16 * k + 16 - 16) with (16 * k) by lia.
    assert (X : s64 (16 * k) = 16 * k).
    { unfold s64, u64. rewrite Z.mod_small by lia. destruct (Z.ltb_spec (16 * k) (2 ^ 63)); lia. }
    rewrite X. rewrite Z.sub_diag. change (0 <=? s64 0) with true. cbv iota. cbn [cap]. eexists. split; reflexivity. }
  destruct A as (st & A1 & A2). exists st. split; auto. intros (c & Hc & _ & Hb). rewrite A2 in Hc. injection Hc as <-.
  cbn [cap] in Hb. unfold page_size in Hb. lia.
Qed.
(* ... and a size close to 2^64 wraps to a tiny slab. *)
Theorem C23_huge_request_refuted :
  exists len, len < 2 ^ 64 /\ exists st, allocate [Slab page_size 32] len = (st, 1%nat, 16) /\
    ~ in_bounds st (1%nat, 16, len).
Proof.
  exists (2 ^ 64 - 8). split; [lia|]. eexists. split; [vm_compute; reflexivity|].
  intros (c & Hc & _ & H). vm_compute in Hc. injection Hc as <-. simpl in H. lia.
Qed.

(* ------------------------------------------------------------------ C24 *)
(* The cache after the first run and n replays of the same requests. *)
Fixpoint after (n : nat) (lens : list Z) : cache :=
  match n with O => fst (areas create lens) | S n => fst (areas (reset (after n lens)) lens) end.
Definition replay (lens : list Z) : Prop :=
  forall n, snd (areas (reset (after n lens)) lens) = snd (areas create lens).

(* The first run marks a slab full when it opens the next one; the replay does not, and
   puts a later small request into the leftover space. *)
Theorem C24_replay_refuted : exists lens, Forall (fun l => 0 <= l <= page_size) lens /\ ~ replay lens.
Proof.
  exists [4194000; 1000; 16]. split.
  - repeat constructor; unfold page_size; lia.
  - intros H. specialize (H O). vm_compute in H. discriminate.
Qed.

(* Replay is exact when sizes never decrease ... *)
Lemma allocate_spec st len k : Forall mark_ok st -> st <> [] -> 0 <= len <= page_size -> align len = 16 * k ->
  len <= 16 * k < len + 16 ->
  (exists a c b, st = a ++ c :: b /\ Forall (fun c => page_size + 16 < eff c + 16 * k) a /\
     eff c + 16 * k <= page_size + 16 /\
     allocate st len = (map (fun c => Slab (cap c) (eff c)) a ++ Slab (cap c) (eff c + 16 * k) :: b, length a, eff c)) \/
  (exists a c, st = a ++ [c] /\ Forall (fun c => page_size + 16 < eff c + 16 * k) st /\
     allocate st len = (map (fun c => Slab (cap c) (eff c)) a ++ [Slab (cap c) (page_size + 16); Slab (page_size + 16) (16 + 16 * k)],
                        length st, 16)).
Proof.
  intros M N H Ek K. unfold allocate. rewrite s_small by auto.
  pose proof (fit_ok len k st M H Ek K) as F. destruct (fit st (page_size + 16) len) as [st' [[i q]|]].
  - destruct F as (a & c & b & -> & -> & -> & F1 & F2 & ->). left. exists a, c, b. auto.
  - destruct F as [-> F]. right. destruct (exists_last N) as (a & c & E). exists a, c. split; auto. split; auto.
    subst st. rewrite map_app. cbn [map]. rewrite mark_full_snoc. cbn [cap]. rewrite app_length, map_length. cbn [length].
    change (align (page_size + 16)) with (page_size + 16).
    destruct (align_off 16 len ltac:(lia) eq_refl) as (k' & Ek' & K'). rewrite Ek'.
    rewrite (align_unique k' k len K' K). rewrite <- app_assoc. rewrite ?app_length; reflexivity.
Qed.

Lemma areas_length lens : forall st, Forall mark_ok st -> st <> [] -> Forall (fun l => 0 <= l <= page_size) lens ->
  (length st <= length (fst (areas st lens)))%nat.
Proof.
  induction lens as [|len lens IH]; intros st M N F; cbn [areas]; auto.
  pose proof (Forall_inv F) as H. pose proof (Forall_inv_tail F) as F'.
  destruct (align_eq len ltac:(unfold page_size in *; lia)) as (k & Ek & K).
  destruct (allocate_spec st len k M N H Ek K) as [(a & c & b & -> & A1 & A2 & ->)|(a & c & -> & A1 & ->)].
  - match goal with |- context [areas ?s lens] => specialize (IH s) end.
    destruct (areas _ lens) as [st' l] eqn:E. cbn [fst] in *. etransitivity; [|apply IH; auto].
    + rewrite !app_length, map_length. simpl. lia.
    + rewrite Forall_app in *. destruct M as [M1 M2]. split.
      * apply Forall_map. eapply Forall_impl; [|exact M1]. intros x; apply mark_eff.
      * constructor; [|apply (Forall_inv_tail M2)]. pose proof (eff_ok c (Forall_inv M2)). right. cbn [mark cap].
        split; [lia|]. Z.div_mod_to_equations; lia.
    + intros C. apply app_eq_nil in C. destruct C; discriminate.
  - match goal with |- context [areas ?s lens] => specialize (IH s) end.
    destruct (areas _ lens) as [st' l] eqn:E. cbn [fst] in *. etransitivity; [|apply IH; auto].
    + rewrite !app_length, map_length. simpl. lia.
    + rewrite Forall_app in *. destruct M as [M1 M2]. split.
      * apply Forall_map. eapply Forall_impl; [|exact M1]. intros x; apply mark_eff.
      * constructor; [right|constructor; [right|constructor]]; cbn [mark cap]; unfold page_size in *; try (split; [lia|]); try reflexivity.
        Z.div_mod_to_equations; lia.
    + intros C. apply app_eq_nil in C. destruct C; discriminate.
Qed.

Lemma app_eq_len (a p b q : cache) : length a = length p -> a ++ b = p ++ q -> a = p /\ b = q.
Proof.
  revert p. induction a as [|x a IH]; intros [|y p] L E; try discriminate; auto.
  injection L as L. injection E as -> E. destruct (IH p L E). subst. auto.
Qed.

(* Run 1 has closed slabs a, current slab c; the replay has slabs a' with too little room,
   c' filled equally, and untouched slabs after it. *)
Lemma replay_sim lens : forall a c a' c' b lo,
  Forall mark_ok (a ++ [c]) -> Forall mark_ok (a' ++ c' :: b) ->
  length a = length a' -> eff c = eff c' -> Forall (fun x => mark x = 0) b ->
  Forall (fun x => eff x = page_size + 16) a -> Forall (fun x => page_size + 16 < eff x + lo) a' ->
  (a <> [] -> 0 < lo) ->
  Forall (fun l => 0 <= l <= page_size) lens -> StronglySorted Z.le lens ->
  (forall l, In l lens -> lo <= align l) ->
  (length (fst (areas (a ++ [c]) lens)) <= length (a' ++ c' :: b))%nat ->
  snd (areas (a' ++ c' :: b) lens) = snd (areas (a ++ [c]) lens).
Proof.
  induction lens as [|len lens IH]; intros a c a' c' b lo M M' La Ec B Fa Fa' Hlo R Srt Hal Len; cbn [areas]; auto.
  pose proof (Forall_inv R) as H. cbv beta in H. pose proof (Forall_inv_tail R) as R'.
  assert (Srt1 : Forall (Z.le len) lens) by (inversion Srt; auto).
  assert (Srt2 : StronglySorted Z.le lens) by (inversion Srt; auto).
  destruct (align_eq len ltac:(unfold page_size in *; lia)) as (k & Ek & K).
  assert (Hlok : lo <= 16 * k) by (rewrite <- Ek; apply Hal; left; auto).
  assert (Hal' : forall l, In l lens -> 16 * k <= align l).
  { intros l Hl. rewrite Forall_forall in *. specialize (R' l Hl). specialize (Srt1 l Hl).
    destruct (align_eq l ltac:(unfold page_size in *; lia)) as (k2 & E2 & K2). rewrite E2. lia. }
  assert (N1 : a ++ [c] <> []) by (intros C; apply app_eq_nil in C; destruct C; discriminate).
  assert (N2 : a' ++ c' :: b <> []) by (intros C; apply app_eq_nil in C; destruct C; discriminate).
  (* closed slabs do not fit *)
  assert (NF1 : Forall (fun c => page_size + 16 < eff c + 16 * k) a).
  { apply Forall_forall. intros x Hx. rewrite Forall_forall in Fa. rewrite (Fa x Hx).
    assert (0 < lo) by (apply Hlo; intros ->; destruct Hx). lia. }
  assert (NF2 : Forall (fun c => page_size + 16 < eff c + 16 * k) a').
  { eapply Forall_impl; [|exact Fa']. intros x; cbv beta; lia. }
  pose proof (allocate_spec (a ++ [c]) len k M N1 H Ek K) as S1.
  pose proof (allocate_spec (a' ++ c' :: b) len k M' N2 H Ek K) as S2.
  assert (Cut : forall (A1 A2 : cache) x B1 p y B2, A1 ++ x :: B1 = p ++ y :: B2 -> A2 = A1 ->
     Forall (fun c => page_size + 16 < eff c + 16 * k) A1 ->
     eff y + 16 * k <= page_size + 16 -> (length A1 <= length p)%nat).
  { intros A1 A2 x B1 p y B2 E _ F Hy. destruct (Nat.le_gt_cases (length A1) (length p)); auto. exfalso.
    assert (In y A1).
    { apply (nth_error_In A1 (length p)). rewrite <- (nth_error_app1 A1 (x :: B1)) by auto. rewrite E.
      rewrite nth_error_app2, Nat.sub_diag by lia. reflexivity. }
    rewrite Forall_forall in F. specialize (F y H1). lia. }
  destruct (Z.le_gt_cases (eff c + 16 * k) (page_size + 16)) as [Fit|NFit].
  - (* fits in the current slab in both runs *)
    assert (A1 : allocate (a ++ [c]) len =
        (map (fun c => Slab (cap c) (eff c)) a ++ [Slab (cap c) (eff c + 16 * k)], length a, eff c)).
    { destruct S1 as [(p & y & q & E & P1 & P2 & ->)|(p & y & E & P1 & ->)].
      - pose proof (Cut a a c [] p y q E eq_refl NF1 P2) as L1.
        assert (L2 : (length p + S (length q) = length a + 1)%nat).
        { apply (f_equal (@length slab)) in E. rewrite !app_length in E. simpl in E. lia. }
        assert (length q = 0)%nat by lia. destruct q; [|discriminate].
        apply app_inj_tail in E. destruct E as [<- <-]. auto.
      - exfalso. rewrite Forall_app in P1. destruct P1 as [_ P1]. apply Forall_inv in P1. lia. }
    assert (A2 : allocate (a' ++ c' :: b) len =
        (map (fun c => Slab (cap c) (eff c)) a' ++ Slab (cap c') (eff c' + 16 * k) :: b, length a', eff c')).
    { destruct S2 as [(p & y & q & E & P1 & P2 & ->)|(p & y & E & P1 & ->)].
      - pose proof (Cut a' a' c' b p y q E eq_refl NF2 P2) as L1.
        assert (L2 : (length p <= length a')%nat).
        { destruct (Nat.le_gt_cases (length p) (length a')); auto. exfalso.
          assert (In c' p).
          { apply (nth_error_In p (length a')). rewrite <- (nth_error_app1 p (y :: q)) by auto. rewrite <- E.
            rewrite nth_error_app2, Nat.sub_diag by lia. reflexivity. }
          rewrite Forall_forall in P1. specialize (P1 c' H1). lia. }
        assert (Lp : length a' = length p) by lia.
        assert (a' = p /\ c' :: b = y :: q) as [-> Eb].
        { apply app_eq_len; auto. }
        injection Eb as <- <-. auto.
      - exfalso. rewrite Forall_app in P1. destruct P1 as [_ P1]. apply Forall_inv in P1. lia. }
    cbn [areas] in Len. rewrite A1 in *. rewrite A2. rewrite La, Ec in *.
    set (a1 := map (fun c => Slab (cap c) (eff c)) a) in *. set (a2 := map (fun c => Slab (cap c) (eff c)) a') in *.
    assert (Ec1 : eff (Slab (cap c) (eff c' + 16 * k)) = eff c' + 16 * k).
    { apply eff_slab. rewrite Forall_app in M'. destruct M' as [_ M']. pose proof (eff_ok c' (Forall_inv M')). lia. }
    assert (Ec2 : eff (Slab (cap c') (eff c' + 16 * k)) = eff c' + 16 * k) by (rewrite eff_slab in *; auto; pose proof (eff_slab (cap c') (eff c' + 16 * k)); rewrite Forall_app in M'; destruct M' as [_ M']; pose proof (eff_ok c' (Forall_inv M')); lia).
    assert (Eeff : forall x, mark_ok x -> eff (Slab (cap x) (eff x)) = eff x).
    { intros x Mx. pose proof (eff_ok x Mx). apply eff_slab. lia. }
    rewrite Forall_app in M, M'. destruct M as [Ma Mc]. destruct M' as [Ma' Mc'].
    pose proof (eff_ok c' (Forall_inv Mc')) as [Q1 Q2].
    specialize (IH a1 (Slab (cap c) (eff c' + 16 * k)) a2 (Slab (cap c') (eff c' + 16 * k)) b (16 * k)).
    destruct (areas (a1 ++ [Slab (cap c) (eff c' + 16 * k)]) lens) as [s1 l1].
    destruct (areas (a2 ++ Slab (cap c') (eff c' + 16 * k) :: b) lens) as [s2 l2]. cbn [fst snd] in *.
    f_equal. apply IH; auto.
    + apply Forall_app. split; [apply Forall_map; eapply Forall_impl; [|exact Ma]; intros x; apply mark_eff|].
      constructor; [|constructor]. right. cbn [mark cap]. split; [lia|]. Z.div_mod_to_equations; lia.
    + apply Forall_app. split; [apply Forall_map; eapply Forall_impl; [|exact Ma']; intros x; apply mark_eff|].
      constructor; [|apply (Forall_inv_tail Mc')]. right. cbn [mark cap]. split; [lia|]. Z.div_mod_to_equations; lia.
    + unfold a1, a2. rewrite !map_length. auto.
    + unfold a1. apply Forall_map. apply Forall_forall. intros x Hx. rewrite Forall_forall in Ma, Fa.
      rewrite Eeff; auto.
    + unfold a2. apply Forall_map. apply Forall_forall. intros x Hx. rewrite Forall_forall in Ma', NF2.
      rewrite Eeff; auto.
    + intros Na. assert (0 < lo); [|lia]. apply Hlo. intros ->. apply Na. reflexivity.
    + unfold a2. rewrite app_length in *. rewrite map_length. simpl in *. auto.
  - (* both move on to the next slab *)
    assert (A1 : allocate (a ++ [c]) len =
        (map (fun c => Slab (cap c) (eff c)) a ++ [Slab (cap c) (page_size + 16); Slab (page_size + 16) (16 + 16 * k)],
         (length a + 1)%nat, 16)).
    { destruct S1 as [(p & y & q & E & P1 & P2 & ->)|(p & y & E & P1 & ->)].
      - exfalso. assert (In y (a ++ [c])) by (rewrite E; apply in_app_iff; right; left; auto).
        apply in_app_iff in H0. destruct H0 as [Hy|[<-|[]]]; [|lia]. rewrite Forall_forall in NF1. specialize (NF1 y Hy). lia.
      - apply app_inj_tail in E. destruct E as [<- <-]. rewrite app_length. auto. }
    cbn [areas] in Len. rewrite A1 in *.
    rewrite Forall_app in M. destruct M as [Ma Mc].
    assert (Len2 : (length a + 2 <= length (a' ++ c' :: b))%nat).
    { etransitivity; [|exact Len].
      match goal with |- context [areas ?s lens] => pose proof (areas_length lens s) as AL; destruct (areas s lens) eqn:EA end.
      cbn [fst] in *. etransitivity; [|apply AL; auto].
      - rewrite app_length, map_length. simpl. lia.
      - apply Forall_app. split; [apply Forall_map; eapply Forall_impl; [|exact Ma]; intros x; apply mark_eff|].
        constructor; [right|constructor; [right|constructor]]; cbn [mark cap]; unfold page_size in *; try (split; [lia|]); try reflexivity.
        Z.div_mod_to_equations; lia.
      - intros C. apply app_eq_nil in C. destruct C; discriminate. }
    rewrite app_length in Len2. simpl in Len2.
    destruct b as [|d b]; [simpl in Len2; lia|].
    pose proof (Forall_inv B) as Bd. pose proof (Forall_inv_tail B) as B'. simpl in Bd.
    assert (Ed : eff d = 16) by (unfold eff; rewrite Bd; reflexivity).
    assert (A2 : allocate (a' ++ c' :: d :: b) len =
        (map (fun c => Slab (cap c) (eff c)) (a' ++ [c']) ++ Slab (cap d) (eff d + 16 * k) :: b, (length a' + 1)%nat, eff d)).
    { assert (NF3 : Forall (fun c => page_size + 16 < eff c + 16 * k) (a' ++ [c'])).
      { apply Forall_app. split; auto. constructor; [lia|constructor]. }
      destruct S2 as [(p & y & q & E & P1 & P2 & ->)|(p & y & E & P1 & ->)].
      - assert (E' : (a' ++ [c']) ++ d :: b = p ++ y :: q) by (rewrite <- app_assoc; exact E). 
        pose proof (Cut _ _ d b p y q E' eq_refl NF3 P2) as L1.
        assert (L2 : (length p <= length (a' ++ [c']))%nat).
        { destruct (Nat.le_gt_cases (length p) (length (a' ++ [c']))); auto. exfalso.
          assert (In d p).
          { apply (nth_error_In p (length (a' ++ [c']))). rewrite <- (nth_error_app1 p (y :: q)) by auto. rewrite <- E'.
            rewrite nth_error_app2, Nat.sub_diag by lia. reflexivity. }
          rewrite Forall_forall in P1. specialize (P1 d H1). unfold page_size in *. lia. }
        assert (Lp : length (a' ++ [c']) = length p) by lia.
        assert (a' ++ [c'] = p /\ d :: b = y :: q) as [<- Eb].
        { apply app_eq_len; auto. }
        injection Eb as <- <-. rewrite app_length. auto.
      - exfalso. rewrite Forall_forall in P1. specialize (P1 d ltac:(apply in_app_iff; right; right; left; auto)).
        unfold page_size in *. lia. }
    rewrite A2. rewrite La, Ed.
    rewrite Forall_app in M'. destruct M' as [Ma' Mc'].
    pose proof (Forall_inv Mc') as Mc1. pose proof (Forall_inv_tail Mc') as Mc2.
    assert (Eeff : forall x, mark_ok x -> eff (Slab (cap x) (eff x)) = eff x).
    { intros x Mx. pose proof (eff_ok x Mx). apply eff_slab. lia. }
    replace (map (fun c => Slab (cap c) (eff c)) a ++ [Slab (cap c) (page_size + 16); Slab (page_size + 16) (16 + 16 * k)])
      with ((map (fun c => Slab (cap c) (eff c)) a ++ [Slab (cap c) (page_size + 16)]) ++ [Slab (page_size + 16) (16 + 16 * k)])
      in * by (rewrite <- app_assoc; auto).
    set (a1 := map (fun c => Slab (cap c) (eff c)) a ++ [Slab (cap c) (page_size + 16)]) in *.
    set (a2 := map (fun c => Slab (cap c) (eff c)) (a' ++ [c'])) in *.
    specialize (IH a1 (Slab (page_size + 16) (16 + 16 * k)) a2 (Slab (cap d) (16 + 16 * k)) b (16 * k)).
    destruct (areas (a1 ++ [Slab (page_size + 16) (16 + 16 * k)]) lens) as [s1 l1].
    destruct (areas (a2 ++ Slab (cap d) (16 + 16 * k) :: b) lens) as [s2 l2]. cbn [fst snd] in *.
    f_equal. apply IH; auto.
    + apply Forall_app. split.
      * unfold a1. apply Forall_app. split; [apply Forall_map; eapply Forall_impl; [|exact Ma]; intros x; apply mark_eff|].
        constructor; [|constructor]. right. simpl. unfold page_size. split; [lia|reflexivity].
      * constructor; [|constructor]. right. cbn [mark cap]. unfold page_size in *. split; [lia|]. Z.div_mod_to_equations; lia.
    + apply Forall_app. split.
      * unfold a2. apply Forall_map. apply Forall_app. split.
        -- eapply Forall_impl; [|exact Ma']; intros x; apply mark_eff.
        -- constructor; [|constructor]. apply mark_eff; auto.
      * constructor; [|apply (Forall_inv_tail Mc2)]. right. cbn [mark cap]. unfold page_size in *. split; [lia|]. Z.div_mod_to_equations; lia.
    + unfold a1, a2. rewrite app_length, !map_length, app_length. simpl. lia.
    + unfold a1. apply Forall_app. split.
      * apply Forall_map. apply Forall_forall. intros x Hx. rewrite Forall_forall in Ma, Fa. rewrite Eeff; auto.
      * constructor; [|constructor]. reflexivity.
    + unfold a2. apply Forall_map. apply Forall_app. split.
      * apply Forall_forall. intros x Hx. rewrite Forall_forall in Ma', NF2. rewrite Eeff; auto.
      * constructor; [|constructor]. rewrite Eeff by auto. lia.
    + intros _. pose proof (eff_ok c (Forall_inv Mc)). lia.
    + unfold a2. rewrite app_length, map_length, app_length. rewrite app_length in Len. simpl in *. lia.
Qed.

Theorem C24_replay_nondecreasing_partial : forall lens,
  Forall (fun l => 0 <= l <= page_size) lens -> StronglySorted Z.le lens -> replay lens.
Proof.
  intros lens R Srt n.
  assert (M0 : Forall mark_ok ([] ++ [Slab page_size 0])) by (repeat constructor).
  assert (L : (length (fst (areas create lens)) <= length (after n lens))%nat /\ after n lens <> []).
  { induction n as [|n [IH N]]; cbn [after].
    - split; auto. pose proof (areas_length lens create M0 ltac:(discriminate) R) as X. intros C. rewrite C in X. simpl in X. lia.
    - assert (Mr : Forall mark_ok (reset (after n lens))).
      { unfold reset. apply Forall_map, Forall_forall. intros x _. left. reflexivity. }
      assert (Nr : reset (after n lens) <> []) by (destruct (after n lens); [congruence|discriminate]).
      pose proof (areas_length lens _ Mr Nr R) as X. unfold reset in X at 1. rewrite map_length in X. split; [lia|].
      intros C. rewrite C in X. destruct (after n lens); [congruence|simpl in X; lia]. }
  destruct L as [L N]. destruct (after n lens) as [|c b]; [congruence|]. cbn [reset map].
  pose proof (replay_sim lens [] (Slab page_size 0) [] (Slab (cap c) 0) (reset b) 0) as S.
  cbn [app] in S. apply S; auto.
  - constructor; [left; auto|]. unfold reset. apply Forall_map, Forall_forall. intros x _. left. reflexivity.
  - unfold reset. apply Forall_map, Forall_forall. reflexivity.
  - congruence.
  - intros l Hl. rewrite Forall_forall in R. destruct (align_eq l) as (k & -> & K); [specialize (R l Hl); unfold page_size in *; lia|].
    specialize (R l Hl). lia.
  - unfold reset. cbn [length] in *. rewrite map_length. auto.
Qed.
(* ... and when the first run never needed a second slab, whatever the sizes. *)
Lemma fit_caps len s st : map cap (fst (fit st s len)) = map cap st.
Proof.
  induction st as [|c t IH]; cbn [fit]; auto. destruct (0 <=? _); auto.
  destruct (fit t s len) as [t' [[i q]|]]; cbn [fst map] in *; rewrite IH; reflexivity.
Qed.
Lemma mark_full_caps s st : map cap (mark_full st s) = map cap st.
Proof.
  destruct (list_eq_dec Nat.eq_dec [] (map (fun _ => O) st)) as [E|E]; [destruct st; auto; discriminate|].
  destruct (@exists_last _ st) as (a & c & ->); [intros ->; auto|].
  rewrite mark_full_snoc, !map_app. reflexivity.
Qed.
Lemma areas_caps lens : forall st, exists t, map cap (fst (areas st lens)) = map cap st ++ t.
Proof.
  induction lens as [|len lens IH]; intros st; cbn [areas]; [exists []; rewrite app_nil_r; auto|].
  destruct (allocate st len) as [[st' i] q] eqn:E.
  assert (C : exists t, map cap st' = map cap st ++ t).
  { unfold allocate in E. pose proof (fit_caps len (u64 (align (Z.max len page_size) + 16)) st) as F.
    destruct (fit st _ len) as [st1 [[i1 q1]|]]; cbn [fst] in F; injection E as <- <- <-.
    - exists []. rewrite app_nil_r. auto.
    - rewrite map_app, mark_full_caps, F. eauto. }
  destruct C as (t & C). destruct (IH st') as (t' & C'). destruct (areas st' lens) as [st2 l]. cbn [fst] in *.
  exists (t ++ t'). rewrite C', C, app_assoc. reflexivity.
Qed.
Theorem C24_replay_single_slab_partial : forall lens, length (fst (areas create lens)) = 1%nat -> replay lens.
Proof.
  intros lens L n.
  assert (E : reset (fst (areas create lens)) = create).
  { destruct (areas_caps lens create) as (t & C). destruct (fst (areas create lens)) as [|c [|]]; try discriminate.
    cbn [map create app] in C. injection C as C _. unfold reset. cbn [map]. rewrite C. reflexivity. }
  assert (En : reset (after n lens) = create) by (induction n as [|n IH]; cbn [after]; [auto|rewrite IH; auto]).
  rewrite En. reflexivity.
Qed.
Example C24_single_demo : length (fst (areas create [4000000; 16; 100000; 0; 3])) = 1%nat.
Proof. vm_compute. reflexivity. Qed.
Example C24_demo : StronglySorted Z.le [8; 100; 100; 2000000; 3000000; 3000000; 4194000] /\
  length (fst (areas create [8; 100; 100; 2000000; 3000000; 3000000; 4194000])) = 4%nat.
Proof. split; [repeat constructor; discriminate|vm_compute; reflexivity]. Qed.

Print Assumptions C23_blocks_partial.
Print Assumptions C23_large_request_refuted.
Print Assumptions C24_replay_refuted.
Print Assumptions C24_replay_nondecreasing_partial.
