(* C17, C18: the n-dimensional table of include/table.h. *)
From Coq Require Import List ZArith Lia Bool Arith.
From Verif Require Import Base SetModel SetProofs TableModel TableProofs.
Import ListNotations.
Local Open Scope nat_scope.

(* ------------------------------------------------------------------ specification *)
(* A table as a function from coordinates to cells.  Coordinate lists here give the index
   on dimension 0, 1, ... as the events number them; the C++ call operator takes them in
   the opposite order.  None: value not specified. *)
Section Spec.
Context {V : Type}.
Variable ctor : option V.
Definition grid := list nat -> option V.
Definition in_range (szs c : list nat) : Prop := Forall2 (fun i s => i < s) c szs.
Definition spec_sizes (szs : list nat) (o : top V) : list nat :=
  match o with
  | TAdd d _ => upd szs d (nth d szs 0 + 1)
  | TRemove d _ => upd szs d (nth d szs 0 - 1)
  | TSet _ _ => szs
  end.
Definition spec_cells (g : grid) (o : top V) : grid := fun c =>
  match o with
  | TAdd d p => let x := nth d c 0 in
                if x <? p then g c else if x =? p then ctor else g (upd c d (x - 1))
  | TRemove d p => let x := nth d c 0 in if x <? p then g c else g (upd c d (x + 1))
  | TSet is v => if list_eq_dec Nat.eq_dec c (rev is) then Some v else g c
  end.
(* Events the axes can send, and accesses to existing cells; at most 2^29 cells. *)
Definition valid_op (szs : list nat) (o : top V) : Prop :=
  match o with
  | TAdd d p => d < length szs /\ p <= nth d szs 0 /\ (Z.of_nat (prod (spec_sizes szs o)) <= 2 ^ 29)%Z
  | TRemove d p => d < length szs /\ p < nth d szs 0
  | TSet is v => in_range szs (rev is)
  end.
Fixpoint valid (szs : list nat) (ops : list (top V)) : Prop :=
  match ops with
  | [] => True
  | o :: ops => valid_op szs o /\ valid (spec_sizes szs o) ops
  end.
Fixpoint spec_run (szs : list nat) (g : grid) (ops : list (top V)) : list nat * grid :=
  match ops with
  | [] => (szs, g)
  | o :: ops => spec_run (spec_sizes szs o) (spec_cells g o) ops
  end.
End Spec.

(* ------------------------------------------------------------------ indices *)
Fixpoint lidx (szs c : list nat) : nat :=
  match szs, c with s :: szs, i :: c => i + s * lidx szs c | _, _ => 0 end.

Lemma make_index_snoc szs : forall c p s i, length c = length szs ->
  make_index p (szs ++ [s]) (c ++ [i]) = make_index p szs c * s + i.
Proof.
  induction szs as [|t szs IH]; intros [|j c] p s i H; simpl in H; try discriminate; simpl; auto.
Qed.
Lemma make_index_lidx szs : forall c, length c = length szs -> make_index 0 (rev szs) (rev c) = lidx szs c.
Proof.
  induction szs as [|s szs IH]; intros [|i c] H; simpl in H; try discriminate; auto.
  cbn [rev lidx]. rewrite make_index_snoc by (rewrite !rev_length; lia). rewrite IH by lia. lia.
Qed.
Lemma in_range_length szs c : in_range szs c -> length c = length szs.
Proof. induction 1; simpl; auto. Qed.
Lemma lidx_lt szs c : in_range szs c -> lidx szs c < prod szs.
Proof.
  induction 1 as [|i s c szs H F IH]; simpl; [lia|].
  assert (s * S (lidx szs c) <= s * prod szs) by (apply Nat.mul_le_mono_l; lia). lia.
Qed.
Lemma lidx_inj szs c : in_range szs c -> forall c', in_range szs c' -> lidx szs c = lidx szs c' -> c = c'.
Proof.
  induction 1 as [|i s c szs H F IH]; intros c' F' E; inversion F' as [|i' s' c2 szs' H' F2]; subst; auto.
  simpl in E.
  assert (E1 : i = i' /\ lidx szs c = lidx szs c2).
  { assert (M : forall q r, r < s -> (r + s * q) mod s = r /\ (r + s * q) / s = q).
    { intros q r Hr. rewrite (Nat.mul_comm s q). split.
      - rewrite Nat.mod_add by lia. apply Nat.mod_small; auto.
      - rewrite Nat.div_add by lia. rewrite Nat.div_small; auto. }
    destruct (M (lidx szs c) i H) as [M1 M2]. destruct (M (lidx szs c2) i' H') as [M3 M4].
    rewrite E in M1, M2. split; congruence. }
  destruct E1 as [-> E1]. f_equal. apply IH; auto.
Qed.
Lemma prod_app a b : prod (a ++ b) = prod a * prod b.
Proof. induction a; simpl; [lia|]. unfold prod in *. simpl. rewrite IHa. ring. Qed.
Lemma lidx_app lo hi : forall clo chi, length clo = length lo ->
  lidx (lo ++ hi) (clo ++ chi) = lidx lo clo + prod lo * lidx hi chi.
Proof.
  induction lo as [|s lo IH]; intros [|i clo] chi H; simpl in H; try discriminate; simpl; [lia|].
  rewrite IH by lia. unfold prod. simpl. ring.
Qed.
Lemma split_at {A} (l : list A) d : d < length l -> exists a x b, l = a ++ x :: b /\ length a = d.
Proof.
  intros H. destruct (nth_error l d) as [x|] eqn:E; [|apply nth_error_None in E; lia].
  apply nth_error_split in E. destruct E as (a & b & -> & L). eauto.
Qed.
Lemma upd_mid' {A} (a : list A) x b y d : length a = d -> upd (a ++ x :: b) d y = a ++ y :: b.
Proof. intros <-. rewrite upd_app_r, Nat.sub_diag by lia. reflexivity. Qed.
Lemma nth_mid {A} (a : list A) x b z d : length a = d -> nth d (a ++ x :: b) z = x.
Proof. intros <-. rewrite app_nth2, Nat.sub_diag by lia. reflexivity. Qed.
Lemma in_range_split lo os hi c : in_range (lo ++ os :: hi) c ->
  exists clo x chi, c = clo ++ x :: chi /\ length clo = length lo /\ in_range lo clo /\ x < os /\ in_range hi chi.
Proof.
  intros F. apply Forall2_app_inv_r in F. destruct F as (clo & r & F1 & F2 & ->).
  inversion F2 as [|x ? chi ? Hx F3]; subst. exists clo, x, chi. split; auto.
  split; [eapply in_range_length; eauto|]. auto.
Qed.
Lemma in_range_join lo os hi clo x chi : in_range lo clo -> x < os -> in_range hi chi ->
  in_range (lo ++ os :: hi) (clo ++ x :: chi).
Proof. intros. apply Forall2_app; auto. Qed.

Section Proofs.
Context {V : Type}.
Variable ctor : option V.

Definition Inv (st : table V) (szs : list nat) (g : grid) : Prop :=
  sizes st = szs /\ (1 <= blklen st < 2 ^ 29)%Z /\ (Z.of_nat (prod szs) <= 2 ^ 29)%Z /\
  exists m rest, buf st = m ++ rest /\ length m = prod szs /\ live ctor m /\
    forall c, in_range szs c -> forall v, g c = Some v -> nth_error m (lidx szs c) = Some (Some v).

Lemma allocate_ok szs blk (m rest : list (option V)) s : (1 <= blk < 2 ^ 29)%Z ->
  s = prod szs -> length m <= s -> (Z.of_nat s <= 2 ^ 29)%Z ->
  exists blk' rest', allocate ctor (Tab szs blk (m ++ rest)) s = Ok (Tab szs blk' (m ++ rest')) /\
    (1 <= blk' < 2 ^ 29)%Z /\ s <= length (m ++ rest').
Proof.
  intros Hb Hs Hm Hz. unfold allocate. cbn [blklen sizes buf].
  destruct (bufsize_ok blk (Z.of_nat s) Hb ltac:(lia)) as (k & blk' & b & Hk & E & _ & C & _ & _ & I).
  rewrite E. cbn [bind]. destruct C as [C1 C2].
  destruct (Nat.eqb_spec (Z.to_nat b) (length (m ++ rest))).
  - exists blk', rest. split; auto. split; auto. lia.
  - destruct (Nat.eqb_spec (Z.to_nat b) 0) as [B0|B0].
    + assert (s = 0) by lia. assert (m = []) by (destruct m; simpl in *; auto; lia). subst m.
      assert (D : destroy_all ctor szs ([] ++ rest) = Ok tt).
      { unfold destroy_all, tlength. rewrite firstn_all. rewrite <- Hs, H. simpl. destruct ctor; auto. }
      rewrite D. cbn [bind]. exists blk', []. split; auto. split; auto. simpl. lia.
    + rewrite firstn_app. rewrite (firstn_all2 m) by lia. rewrite <- app_assoc.
      eexists blk', _. split; [reflexivity|]. split; auto.
      rewrite !app_length, firstn_length, repeat_length. rewrite app_length in *. lia.
Qed.

Lemma tlength_split lo os hi d : length lo = d -> tlength (lo ++ os :: hi) d = prod lo.
Proof. intros <-. unfold tlength. rewrite firstn_app, firstn_all, Nat.sub_diag, firstn_O, app_nil_r. auto. Qed.
Lemma tstep_split lo os hi d : length lo = d -> tstep (lo ++ os :: hi) d = prod hi.
Proof.
  intros <-. unfold tstep. rewrite skipn_app, skipn_all2 by lia.
  replace (S (length lo) - length lo) with 1 by lia. reflexivity.
Qed.
Lemma prod_mid lo os hi : prod (lo ++ os :: hi) = prod hi * (os * prod lo).
Proof. rewrite prod_app. unfold prod. simpl. ring. Qed.

Lemma lidx_mid lo os hi clo x chi : length clo = length lo ->
  lidx (lo ++ os :: hi) (clo ++ x :: chi) = lidx hi chi * (os * prod lo) + (x * prod lo + lidx lo clo).
Proof. intros H. rewrite lidx_app by auto. simpl. ring. Qed.

Lemma add_ok st szs g d p : Inv st szs g -> valid_op szs (TAdd (V := V) d p) ->
  exists st', add ctor st d p = Ok st' /\ Inv st' (spec_sizes szs (TAdd (V := V) d p)) (spec_cells ctor g (TAdd d p)).
Proof.
  intros (Hs & Hb & Hz & m & rest & Em & Lm & Lv & G) (Hd & Hp & Hn).
  destruct (split_at szs d Hd) as (lo & os & hi & -> & Ld). cbn [spec_sizes] in *.
  rewrite (nth_mid lo os hi 0 d Ld), (upd_mid' lo os hi (os + 1) d Ld) in *. rewrite Nat.add_1_r in *.
  unfold add. rewrite Hs. unfold aget. rewrite nth_error_app2 by lia. rewrite Ld, Nat.sub_diag. cbn [nth_error bind].
  rewrite (upd_mid' lo os hi (S os) d Ld), (tlength_split lo os hi d Ld), (tstep_split lo os hi d Ld).
  unfold tlength. rewrite firstn_all. rewrite Em.
  rewrite !prod_mid in *.
  set (bs := prod lo) in *. set (ss := prod hi) in *.
  destruct (allocate_ok (lo ++ S os :: hi) (blklen st) m rest (ss * (S os * bs))) as (blk' & rest' & E & B & L); auto.
  { rewrite prod_mid. auto. }
  { rewrite Lm. apply Nat.mul_le_mono_l, Nat.mul_le_mono_r. lia. }
  rewrite E. cbn [bind buf].
  destruct (add_cells ctor bs os ss p m rest' Hp Lm L Lv) as (m' & rest2 & E2 & L2 & L3 & Lv2 & C).
  rewrite E2. cbn [bind]. eexists. split; [reflexivity|].
  split; [reflexivity|]. split; [exact B|]. split; [rewrite prod_mid; auto|].
  exists m', rest2. split; auto. split; [rewrite prod_mid; auto|]. split; auto.
  intros c Hc v. destruct (in_range_split lo (S os) hi c Hc) as (clo & x & chi & -> & Lc & R1 & R2 & R3).
  cbn [spec_cells]. rewrite nth_mid by lia.
  rewrite lidx_mid by auto. fold bs ss.
  specialize (C (lidx hi chi) x (lidx lo clo) (lidx_lt hi chi R3) ltac:(lia) (lidx_lt lo clo R1)).
  destruct (Nat.ltb_spec x p) as [Hx|Hx].
  - intros Hg. rewrite C. specialize (G _ (in_range_join lo os hi clo x chi R1 ltac:(lia) R3) v Hg).
    rewrite lidx_mid in G by auto. exact G.
  - destruct (Nat.eqb_spec x p) as [->|Hne].
    + intros Hg. unfold fresh_cell in C. rewrite Hg in C. exact C.
    + rewrite upd_mid' by lia. intros Hg. rewrite C.
      specialize (G _ (in_range_join lo os hi clo (x - 1) chi R1 ltac:(lia) R3) v Hg).
      rewrite lidx_mid in G by auto. exact G.
Qed.

Lemma remove_ok st szs g d p : Inv st szs g -> valid_op szs (TRemove (V := V) d p) ->
  exists st', remove ctor st d p = Ok st' /\
    Inv st' (spec_sizes szs (TRemove (V := V) d p)) (spec_cells ctor g (TRemove d p)).
Proof.
  intros (Hs & Hb & Hz & m & rest & Em & Lm & Lv & G) (Hd & Hp).
  destruct (split_at szs d Hd) as (lo & os & hi & -> & Ld). cbn [spec_sizes] in *.
  rewrite (nth_mid lo os hi 0 d Ld), (upd_mid' lo os hi (os - 1) d Ld) in *.
  unfold remove. rewrite Hs. unfold aget. rewrite nth_error_app2 by lia. rewrite Ld, Nat.sub_diag. cbn [nth_error bind].
  rewrite (upd_mid' lo os hi (os - 1) d Ld), (tlength_split lo os hi d Ld), (tstep_split lo os hi d Ld).
  unfold tlength. rewrite firstn_all. rewrite Em.
  rewrite !prod_mid in *.
  set (bs := prod lo) in *. set (ss := prod hi) in *.
  destruct (remove_cells ctor bs os ss p m rest Hp Lm Lv) as (m' & rest2 & E2 & L2 & L3 & Lv2 & C).
  rewrite E2. cbn [bind].
  destruct (allocate_ok (lo ++ (os - 1) :: hi) (blklen st) m' rest2 (ss * ((os - 1) * bs))) as (blk' & rest' & E & B & L); auto.
  { rewrite prod_mid. auto. }
  { lia. }
  { assert (ss * ((os - 1) * bs) <= ss * (os * bs)) by (apply Nat.mul_le_mono_l, Nat.mul_le_mono_r; lia). lia. }
  rewrite E. eexists. split; [reflexivity|].
  split; [reflexivity|]. split; [exact B|]. split.
  { rewrite prod_mid. fold bs ss.
    assert (ss * ((os - 1) * bs) <= ss * (os * bs)) by (apply Nat.mul_le_mono_l, Nat.mul_le_mono_r; lia). lia. }
  exists m', rest'. split; auto. split; [rewrite prod_mid; auto|]. split; auto.
  intros c Hc v. destruct (in_range_split lo (os - 1) hi c Hc) as (clo & x & chi & -> & Lc & R1 & R2 & R3).
  cbn [spec_cells]. rewrite nth_mid by lia. rewrite lidx_mid by auto. fold bs ss.
  rewrite (C (lidx hi chi) x (lidx lo clo) (lidx_lt hi chi R3) R2 (lidx_lt lo clo R1)).
  destruct (Nat.ltb_spec x p) as [Hx|Hx]; intros Hg.
  - specialize (G _ (in_range_join lo os hi clo x chi R1 ltac:(lia) R3) v Hg).
    rewrite lidx_mid in G by auto. exact G.
  - rewrite upd_mid' in Hg by lia. rewrite Nat.add_1_r in Hg.
    specialize (G _ (in_range_join lo os hi clo (S x) chi R1 ltac:(lia) R3) v Hg).
    rewrite lidx_mid in G by auto. exact G.
Qed.

Lemma live_upd (m : list (option V)) i v : live ctor m -> live ctor (upd m i (Some v)).
Proof.
  unfold live. destruct ctor; auto. rewrite !Forall_forall. intros H x Hx. apply In_nth_error in Hx.
  destruct Hx as (k & Hk). rewrite nth_error_upd in Hk.
  destruct ((i =? k) && (i <? length m)); [congruence|]. apply H. eapply nth_error_In; eauto.
Qed.
Lemma set_ok st szs g is v : Inv st szs g -> valid_op szs (TSet is v) ->
  exists st', tset st is v = Ok st' /\ Inv st' szs (spec_cells ctor g (TSet is v)).
Proof.
  intros (Hs & Hb & Hz & m & rest & Em & Lm & Lv & G) H. cbn [valid_op] in H.
  assert (MI : make_index 0 (rev szs) is = lidx szs (rev is)).
  { rewrite <- make_index_lidx, rev_involutive by (apply in_range_length; auto). auto. }
  unfold tset. rewrite Hs, MI.
  pose proof (lidx_lt szs (rev is) H) as Hl.
  rewrite Em. rewrite aset_ok by (rewrite app_length; lia). cbn [bind].
  rewrite upd_app_l by lia. eexists. split; [reflexivity|].
  split; [reflexivity|]. split; [exact Hb|]. split; [exact Hz|].
  eexists _, rest. cbn [buf]. split; [reflexivity|]. split; [rewrite length_upd; auto|].
  split; [apply live_upd; auto|].
  intros c Hc w. cbn [spec_cells]. destruct (list_eq_dec Nat.eq_dec c (rev is)) as [->|N].
  - intros [= <-]. rewrite nth_error_upd_eq by lia. auto.
  - intros Hg. rewrite nth_error_upd_ne; [auto|]. intros E. apply N. symmetry. apply (lidx_inj szs); auto.
Qed.

Lemma empty_ok st szs g : Inv st szs g -> szs <> [] ->
  exists st', tempty ctor st = Ok st' /\ Inv st' (repeat 0 (length szs)) (fun _ => None).
Proof.
  intros (Hs & Hb & Hz & m & rest & Em & Lm & Lv & G) Hn. unfold tempty, allocate.
  destruct (bufsize_ok (blklen st) 0 Hb ltac:(lia)) as (k & blk' & b & Hk & E & _ & C & _ & _ & B).
  change (Z.of_nat 0) with 0%Z. rewrite E. cbn [bind].
  assert (b = 0%Z).
  { clear - E. unfold bufsize, bufsize_fuel in E. destruct (grow_block 16 0 (blklen st)) as [x| |]; [|discriminate..].
    cbn [bind] in E. destruct (Z.eqb_spec x 0); [discriminate|].
    rewrite Z.mod_0_l, Z.div_0_l in E by auto. cbn in E. rewrite Z.mul_0_r in E. injection E as _ <-. reflexivity. }
  subst b. change (Z.to_nat 0) with 0. change (0 =? 0) with true. cbv iota.
  assert (P0 : prod (repeat 0 (length szs)) = 0) by (destruct szs; [congruence|reflexivity]).
  assert (F : forall r, Inv (Tab (repeat 0 (length szs)) blk' r) (repeat 0 (length szs)) (fun _ => None)).
  { intros r. split; [reflexivity|]. split; [exact B|]. rewrite P0. split; [lia|].
    exists [], r. split; auto. split; auto. split; [|discriminate]. unfold live. destruct ctor; auto. }
  destruct (Nat.eqb_spec 0 (length (buf st))) as [|].
  - cbn [bind sizes blklen buf]. rewrite Hs. eexists. split; [reflexivity|]. apply F.
  - assert (D : destroy_all ctor (sizes st) (buf st) = Ok tt).
    { rewrite Hs, Em. unfold destroy_all, tlength. rewrite firstn_all, <- Lm.
      rewrite firstn_app, firstn_all, Nat.sub_diag, firstn_O, app_nil_r.
      destruct ctor as [dv|] eqn:Ec; auto. rewrite (live_forallb ctor m dv Ec) by (rewrite Ec; auto).
      rewrite app_length. destruct (Nat.leb_spec (length m) (length m + length rest)); [reflexivity|lia]. }
    rewrite D. cbn [bind sizes blklen buf]. rewrite Hs. eexists. split; [reflexivity|]. apply F.
Qed.

Lemma trun_ok ops : forall st szs g, Inv st szs g -> valid szs ops ->
  exists st', trun ctor st ops = Ok st' /\
    Inv st' (fst (spec_run ctor szs g ops)) (snd (spec_run ctor szs g ops)).
Proof.
  induction ops as [|o ops IH]; intros st szs g I Hv; cbn [trun spec_run].
  - exists st. auto.
  - destruct Hv as [H1 H2].
    assert (exists st', trun1 ctor st o = Ok st' /\ Inv st' (spec_sizes szs o) (spec_cells ctor g o)) as (st' & E & I').
    { destruct o as [d p|d p|is v]; cbn [trun1].
      - apply add_ok; auto.
      - apply remove_ok; auto.
      - apply set_ok; auto. }
    rewrite E. cbn [bind]. apply IH; auto.
Qed.
End Proofs.

(* Every history of events and assignments gives exactly the cells of the coordinate
   table.  Class types start from a table without cells, see the refutation below. *)
Theorem C17_table_axis_edits : forall (V : Type) (ctor : option V) (szs : list nat) (ops : list (top V)),
  (ctor = None \/ prod szs = 0) -> (Z.of_nat (prod szs) <= 2 ^ 29)%Z -> valid szs ops ->
  exists st0 st, tnew ctor szs = Ok st0 /\ trun ctor st0 ops = Ok st /\
    sizes st = fst (spec_run ctor szs (fun _ => None) ops) /\
    forall c, in_range (sizes st) c -> exists x, tget st (rev c) = Ok x /\
      forall v, snd (spec_run ctor szs (fun _ => None) ops) c = Some v -> x = Some v.
Proof.
  intros V ctor szs ops H0 Hz Hv. unfold tnew.
  destruct (allocate_ok ctor szs 64 [] [] (prod szs)) as (blk & rest & E & B & L); auto; [lia|simpl; lia|].
  cbn [app] in E, L.
  assert (I : Inv ctor (Tab szs blk rest) szs (fun _ => None)).
  { split; [reflexivity|]. split; [exact B|]. split; [exact Hz|].
    exists (firstn (prod szs) rest), (skipn (prod szs) rest). cbn [buf].
    rewrite firstn_skipn, firstn_length. split; auto. split; [lia|]. split; [|discriminate].
    destruct H0 as [->| ->]; [exact I|]. simpl. unfold live. destruct ctor; auto. }
  destruct (trun_ok ctor ops _ szs _ I Hv) as (st & E2 & (S1 & S2 & S3 & m & r & Em & Lm & Lv & G)).
  exists (Tab szs blk rest), st. split; auto. split; auto. split; auto.
  intros c Hc. unfold tget. rewrite S1 in *. pose proof (lidx_lt _ _ Hc) as Hl.
  rewrite make_index_lidx by (apply in_range_length; auto). unfold aget. rewrite Em.
  rewrite nth_error_app1 by lia.
  destruct (nth_lt_some m (lidx (fst (spec_run ctor szs (fun _ => None) ops)) c)) as (x & Hx); [lia|].
  rewrite Hx. exists x. split; auto. intros v Hg. rewrite (G c Hc v Hg) in Hx. congruence.
Qed.

(* A 3-by-2 table (two axes) of class type: add, assign, insert in the middle, remove. *)
Example C17_demo :
  (let* st := tnew (Some 0%Z) [0;0] in
   let* st := trun (Some 0%Z) st [TAdd 0 0; TAdd 1 0; TAdd 1 1; TSet [0;0] 1%Z; TSet [1;0] 2%Z;
                                  TAdd 0 0; TSet [0;0] 3%Z; TSet [1;0] 4%Z; TAdd 1 1; TSet [1;1] 5%Z; TRemove 1 0] in
   let* a := tget st [0;0] in let* b := tget st [0;1] in let* c := tget st [1;0] in let* d := tget st [1;1] in
   Ok (sizes st, [a;b;c;d]))
  = Ok ([2;2], [Some 0; Some 5; Some 4; Some 2]%Z).
Proof. vm_compute. reflexivity. Qed.

(* A table built over axes that already have positions does not construct its cells
   (the call is commented out, lines 77-80): the first removal destroys an object that
   does not exist. *)
Theorem C17_preexisting_positions_refuted :
  exists szs (ops : list (top Z)) st0, prod szs <> 0 /\ valid szs ops /\
    tnew (Some 0%Z) szs = Ok st0 /\ trun (Some 0%Z) st0 ops = UB Uninit.
Proof.
  exists [2], [TRemove 0 0]. eexists. split; [simpl; lia|]. split; [simpl; lia|].
  split; [vm_compute; reflexivity|]. vm_compute. reflexivity.
Qed.

(* ------------------------------------------------------------------ C18 *)
(* Clearing one axis and adding to it again: the table should have one cell for each
   combination of positions, hence the sizes of the axes.  The code forgets the sizes
   of the other axes, and a cell of the re-added position lies outside the storage. *)
Theorem C18_empty_axis_refuted :
  exists (st : table Z) st2, 
    (let* st := tnew (Some 0%Z) [0;0] in trun (Some 0%Z) st [TAdd 0 0; TAdd 1 0; TAdd 1 1]) = Ok st /\
    sizes st = [1;2] /\
    (* axis 0 is emptied and gets one position back; axis 1 still has two *)
    (let* st := tempty (Some 0%Z) st in add (Some 0%Z) st 0 0) = Ok st2 /\
    sizes st2 <> [1;2] /\ tget st2 [1;0] = UB OutOfBounds.
Proof.
  eexists _, _. split; [vm_compute; reflexivity|]. split; [reflexivity|].
  split; [vm_compute; reflexivity|]. split; [discriminate|]. reflexivity.
Qed.

(* For every table: after empty() all dimensions have size zero, so with two or more
   axes re-adding positions to the emptied axis alone never creates a cell. *)
Theorem C18_empty_axis_no_cells : forall (V : Type) (ctor : option V) (st st1 st2 : table V) d n,
  2 <= length (sizes st) -> d < length (sizes st) ->
  tempty ctor st = Ok st1 -> trun ctor st1 (repeat (TAdd d 0) n) = Ok st2 ->
  prod (sizes st2) = 0 /\ length (sizes st2) = length (sizes st).
Proof.
  intros V ctor st st1 st2 d n H2 Hd E1 E2.
  assert (S1 : sizes st1 = repeat 0 (length (sizes st))).
  { unfold tempty in E1. apply bind_ok in E1. destruct E1 as (s & A & E). injection E as <-. cbn [sizes].
    f_equal. unfold allocate in A. apply bind_ok in A. destruct A as ([blk b] & _ & A).
    destruct (_ =? _); [injection A as <-; reflexivity|]. destruct (_ =? _); [|injection A as <-; reflexivity].
    apply bind_ok in A. destruct A as (u & _ & A). injection A as <-. reflexivity. }
  assert (G : forall n st1, trun ctor st1 (repeat (TAdd d 0) n) = Ok st2 ->
    (forall k, k <> d -> k < length (sizes st) -> nth_error (sizes st1) k = Some 0) ->
    length (sizes st1) = length (sizes st) ->
    (forall k, k <> d -> k < length (sizes st) -> nth_error (sizes st2) k = Some 0) /\
    length (sizes st2) = length (sizes st)).
  { clear - Hd. induction n as [|n IH]; intros s E H L; cbn [repeat trun] in E.
    - injection E as <-. auto.
    - apply bind_ok in E. destruct E as (s' & E1 & E2). apply IH in E2; auto.
      + intros k N Hk. cbn [trun1] in E1. unfold add in E1. apply bind_ok in E1. destruct E1 as (os & _ & E1).
        apply bind_ok in E1. destruct E1 as (s2 & A & E1). apply bind_ok in E1. destruct E1 as (m & _ & E1).
        injection E1 as <-. cbn [sizes]. rewrite nth_error_upd_ne by auto. auto.
      + cbn [trun1] in E1. unfold add in E1. apply bind_ok in E1. destruct E1 as (os & _ & E1).
        apply bind_ok in E1. destruct E1 as (s2 & A & E1). apply bind_ok in E1. destruct E1 as (m & _ & E1).
        injection E1 as <-. cbn [sizes]. rewrite length_upd. auto. }
  destruct (G n st1 E2) as [G1 G2].
  { intros k _ Hk. rewrite S1. apply nth_error_repeat. auto. }
  { rewrite S1. apply repeat_length. }
  split; auto.
  assert (Z0 : forall l k, nth_error l k = Some 0 -> prod l = 0).
  { induction l as [|x l IH]; intros [|k] H; simpl in H; try discriminate; unfold prod in *; simpl.
    - injection H as ->. auto.
    - rewrite (IH k H). lia. }
  destruct (Nat.eq_dec d 0) as [->|N].
  - apply (Z0 _ 1), G1; lia.
  - apply (Z0 _ 0), G1; lia.
Qed.

(* With a single axis the claim holds: after any history, clearing the axis and any
   further history, the cells are those of the coordinate table of the further history. *)
Theorem C18_single_axis_partial : forall (V : Type) (ctor : option V) (ops1 ops2 : list (top V)),
  valid [0] ops1 -> valid [0] ops2 ->
  exists st0 st1 st2 st, tnew ctor [0] = Ok st0 /\ trun ctor st0 ops1 = Ok st1 /\ tempty ctor st1 = Ok st2 /\
    trun ctor st2 ops2 = Ok st /\
    sizes st = fst (spec_run ctor [0] (fun _ => None) ops2) /\
    forall c, in_range (sizes st) c -> exists x, tget st (rev c) = Ok x /\
      forall v, snd (spec_run ctor [0] (fun _ => None) ops2) c = Some v -> x = Some v.
Proof.
  intros V ctor ops1 ops2 V1 V2.
  assert (I0 : Inv ctor (Tab [0] 64 []) [0] (fun _ => None)).
  { split; [reflexivity|]. split; [simpl; lia|]. split; [simpl; lia|]. exists [], []. repeat split; auto; try discriminate.
    unfold live. destruct ctor; auto. }
  destruct (trun_ok ctor ops1 _ _ _ I0 V1) as (st1 & E1 & I1).
  assert (L1 : forall ops szs, length szs = 1 -> length (fst (spec_run (V:=V) ctor szs (fun _ => None) ops)) = 1).
  { assert (X : forall ops szs g, length szs = 1 -> length (fst (spec_run (V:=V) ctor szs g ops)) = 1).
    { induction ops as [|o ops IH]; intros szs g H; cbn [spec_run]; auto. apply IH.
      destruct o; cbn [spec_sizes]; rewrite ?length_upd; auto. }
    intros. apply X; auto. }
  specialize (L1 ops1 [0] eq_refl).
  destruct (empty_ok ctor st1 _ _ I1) as (st2 & E2 & I2); [intros C; rewrite C in L1; discriminate|].
  rewrite L1 in I2. cbn [repeat] in I2.
  destruct (trun_ok ctor ops2 _ _ _ I2 V2) as (st & E3 & (S1 & S2 & S3 & m & r & Em & Lm & Lv & G)).
  exists (Tab [0] 64 []), st1, st2, st. split; [reflexivity|]. split; auto. split; auto. split; auto. split; auto.
  intros c Hc. unfold tget. rewrite S1 in *. pose proof (lidx_lt _ _ Hc) as Hl.
  rewrite make_index_lidx by (apply in_range_length; auto). unfold aget. rewrite Em.
  rewrite nth_error_app1 by lia.
  destruct (nth_lt_some m (lidx (fst (spec_run ctor [0] (fun _ => None) ops2)) c)) as (x & Hx); [lia|].
  rewrite Hx. exists x. split; auto. intros v Hg. rewrite (G c Hc v Hg) in Hx. congruence.
Qed.
Example C18_demo :
  (let* st := tnew None [0] in
   let* st := trun None st [TAdd 0 0; TSet [0] 7%Z; TAdd 0 0; TSet [0] 8%Z] in
   let* st := tempty None st in
   let* st := trun None st [TAdd 0 0; TSet [0] 1%Z; TAdd 0 1; TSet [1] 2%Z] in
   let* a := tget st [0] in let* b := tget st [1] in Ok (sizes st, [a;b])) = Ok ([2], [Some 1; Some 2]%Z).
Proof. vm_compute. reflexivity. Qed.

Print Assumptions C17_table_axis_edits.
Print Assumptions C17_preexisting_positions_refuted.
Print Assumptions C18_empty_axis_refuted.
Print Assumptions C18_empty_axis_no_cells.
Print Assumptions C18_single_axis_partial.
