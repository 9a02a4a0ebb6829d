(* C82: the sparse stiffness matrix of fem3d.cpp. *)
From Coq Require Import List ZArith Bool Arith Lia Permutation Sorting.Sorted.
From Verif Require Import Base LinBase SmatModel SmatProofs SmatFill.
Import ListNotations.
Local Open Scope nat_scope.

(* ---- specification: what the matrix holds ---- *)
Section Spec.
Context {B : Type}.
(* the block in row i of column j, i < j: that of the first node of the column with this row *)
Definition stored (A : smat B) (i j : nat) : option B :=
  match nth_error A j with
  | None => None
  | Some d => match find (fun x => nrow x =? i) (dnodes d) with Some x => Some (nk x) | None => None end
  end.
Definition diagonal (A : smat B) (i : nat) : option B :=
  match nth_error A i with None => None | Some d => Some (dk d) end.
(* the nodes of every column lie in the order of their rows and are linked in that order *)
Definition in_order (A : smat B) : Prop :=
  forall j d, nth_error A j = Some d ->
    dhead d = (match dnodes d with [] => None | _ => Some 0 end) /\
    (forall q x, nth_error (dnodes d) q = Some x -> nrow x < j /\ nnext x = (if S q =? length (dnodes d) then None else Some (S q))) /\
    (forall q x y, nth_error (dnodes d) q = Some x -> nth_error (dnodes d) (S q) = Some y -> nrow x < nrow y).

(* what the blocks t added at (a,b) contribute to the block (i,j), i <= j *)
Definition contribs (btr : B -> B) (ops : list (nat * nat * B)) (i j : nat) : list B :=
  flat_map (fun '(a, b, t) => if (a =? i) && (b =? j) then [t] else if (a =? j) && (b =? i) then [btr t] else []) ops.
Definition sum1 (badd : B -> B -> B) (l : list B) : option B :=
  match l with [] => None | t :: ts => Some (fold_left badd ts t) end.
End Spec.

Section Run.
Context {B : Type}.
Variable b0 : B.
Variable badd : B -> B -> B.
Variable btr : B -> B.
Variable lim : Z.
Fixpoint appends (A : smat B) (ops : list (nat * nat * B)) : outcome (smat B) :=
  match ops with
  | [] => Ok A
  | (i, j, t) :: ops => let* A := append badd btr lim A i j t in appends A ops
  end.
End Run.

Section Gen.
Context {B : Type}.
Lemma lookup_perm (L1 L2 : list (nat * B)) i : Permutation L1 L2 -> NoDup (map fst L1) -> lookup L1 i = lookup L2 i.
Proof.
  induction 1 as [|[r x] L1 L2 P IH|[r x] [r' x'] L|]; cbn; intros ND; auto.
  - destruct (r =? i); auto. apply IH. now inversion ND.
  - destruct (Nat.eqb_spec r' i), (Nat.eqb_spec r i); auto. subst. inversion ND; subst. exfalso. apply H1. cbn; auto.
  - rewrite IHPermutation1 by auto. apply IHPermutation2. eapply Permutation_NoDup; [apply Permutation_map; eauto|auto].
Qed.
Lemma nodup_sorted (L : list (nat * B)) : StronglySorted lt1 L -> NoDup (map fst L).
Proof.
  induction 1 as [|y L S IH F]; cbn; constructor; auto.
  intros I. apply in_map_iff in I as (z & E & I). rewrite Forall_forall in F. specialize (F z I). unfold lt1 in F; lia.
Qed.
Lemma find_lookup (l : list (node B)) i :
  (match find (fun x => nrow x =? i) l with Some x => Some (nk x) | None => None end) = lookup (map cell l) i.
Proof. induction l as [|x l IH]; cbn; auto. destruct (nrow x =? i); auto. Qed.
Lemma holds_stored (A : smat B) m D C i j : holds A m D C -> j < m -> stored A i j = lookup (C j) i.
Proof.
  intros (_ & H) J. destruct (H j J) as (d & E & R & _). unfold stored. rewrite E, find_lookup.
  pose proof (rep_perm _ _ _ R) as P. destruct R as (_ & S & _). apply lookup_perm; auto.
  eapply Permutation_NoDup; [apply Permutation_map, Permutation_sym; exact P|now apply nodup_sorted].
Qed.
Lemma holds_diagonal (A : smat B) m D C i : holds A m D C -> i < m -> diagonal A i = Some (D i).
Proof. intros (_ & H) I. destruct (H i I) as (d & E & _ & K). unfold diagonal. rewrite E. congruence. Qed.
Lemma tidy_in_order (A : smat B) m D C : holds_tidy A m D C -> in_order A.
Proof.
  intros (L & H) j d E. pose proof (nth_error_lt _ _ _ E) as J. rewrite L in J.
  destruct (H j J) as (d' & E' & (M & I & HD & S & F & _) & _). assert (d' = d) by congruence. subst d'.
  split; [|split].
  - rewrite HD, <- M. destruct (dnodes d); reflexivity.
  - intros q x X. split; [|apply I; auto]. rewrite Forall_forall in F. apply (F (cell x)). rewrite <- M.
    apply in_map. eapply nth_error_In; eauto.
  - intros q x y X Y. rewrite <- M in S. clear - S X Y. revert q X Y. induction (dnodes d) as [|z l IH]; intros [|q] X Y; cbn [nth_error] in *; try discriminate.
    + injection X as ->. inversion S as [|? ? S' F]; subst. rewrite Forall_forall in F. apply (F (cell y)). apply in_map. now apply nth_error_In with 0.
    + inversion S; subst. eapply IH; eauto.
Qed.
End Gen.

Section Asm.
Context {B : Type}.
Variable b0 : B.
Variable badd : B -> B -> B.
Variable btr : B -> B.
Variable lim : Z.

Lemma sum1_snoc l t : sum1 badd (l ++ [t]) = Some (match sum1 badd l with Some x => badd x t | None => t end).
Proof. destruct l; cbn; auto. now rewrite fold_left_app. Qed.
Lemma contribs_app ops1 ops2 i j : contribs btr (ops1 ++ ops2) i j = contribs btr ops1 i j ++ contribs btr ops2 i j.
Proof. apply flat_map_app. Qed.

Definition asm (m : nat) (ops : list (nat * nat * B)) (A : smat B) : Prop :=
  exists D C, holds A m D C /\ (forall i, i < m -> D i = fold_left badd (contribs btr ops i i) b0) /\
    (forall i j, i < j < m -> lookup (C j) i = sum1 badd (contribs btr ops i j)).
Lemma appends_asm m : (Z.of_nat m < 2 ^ 32)%Z -> forall ops done A, asm m done A ->
  Forall (fun '(i, j, _) => i < m /\ j < m) ops ->
  wp (appends badd btr lim A ops) (asm m (done ++ ops)) (fun e => e = BadAlloc /\ (lim < Z.of_nat m)%Z).
Proof.
  intros U. induction ops as [|[[i j] t] ops IH]; intros done A HA F; cbn [appends].
  - cbn. now rewrite app_nil_r.
  - inversion F as [|? ? IJ F']; subst. destruct IJ as (I & J). destruct HA as (D & C & H & HD & HC).
    eapply wp_seq; [apply (append_wp badd btr lim A m D C i j t H I J U)|].
    intros A' H'. change ((i, j, t) :: ops) with ([(i, j, t)] ++ ops). rewrite app_assoc. apply IH; auto.
    destruct (Nat.eqb_spec i j) as [->|N].
    + exists (updf D j (badd (D j) t)), C. split; [auto|]. split.
      * intros k K. rewrite contribs_app, fold_left_app. unfold updf. cbn. rewrite (Nat.eqb_sym k j).
        destruct (Nat.eqb_spec j k); cbn; auto. subst. now rewrite HD.
      * intros a b AB. rewrite contribs_app. cbn.
        destruct (Nat.eqb_spec j a), (Nat.eqb_spec j b); cbn; rewrite ?app_nil_r; auto; lia.
    + exists D, (updf C (Nat.max i j) (addin badd (Nat.min i j) (if j <? i then btr t else t) (C (Nat.max i j)))).
      split; [auto|]. split.
      * intros k K. rewrite contribs_app, fold_left_app. cbn.
        destruct (Nat.eqb_spec i k), (Nat.eqb_spec j k); cbn; auto; lia.
      * intros a b AB. rewrite contribs_app. unfold updf. cbn [contribs flat_map]. rewrite app_nil_r.
        destruct (Nat.eqb_spec b (Nat.max i j)).
        -- rewrite lookup_addin by (apply (holds_low _ _ _ _ H); lia).
           assert (AM : a = Nat.min i j -> (if (i =? a) && (j =? b) then [t] else if (i =? b) && (j =? a) then [btr t] else []) = [if j <? i then btr t else t]).
           { intros ->. destruct (Nat.ltb_spec j i).
             - destruct (Nat.eqb_spec i (Nat.min i j)); [lia|]. cbn. destruct (Nat.eqb_spec i b), (Nat.eqb_spec j (Nat.min i j)); cbn; auto; lia.
             - destruct (Nat.eqb_spec i (Nat.min i j)), (Nat.eqb_spec j b); cbn; auto; lia. }
           destruct (Nat.eqb_spec a (Nat.min i j)).
           ++ rewrite (AM e0), sum1_snoc, <- HC by auto. subst a b. reflexivity.
           ++ replace ((i =? a) && (j =? b)) with false. 2:{ destruct (Nat.eqb_spec i a), (Nat.eqb_spec j b); auto; lia. }
              replace ((i =? b) && (j =? a)) with false. 2:{ destruct (Nat.eqb_spec i b), (Nat.eqb_spec j a); auto; lia. }
              rewrite app_nil_r, <- e. auto.
        -- replace ((i =? a) && (j =? b)) with false. 2:{ destruct (Nat.eqb_spec i a), (Nat.eqb_spec j b); auto; lia. }
           replace ((i =? b) && (j =? a)) with false. 2:{ destruct (Nat.eqb_spec i b), (Nat.eqb_spec j a); auto; lia. }
           rewrite app_nil_r. auto.
Qed.
Lemma asm_new m : asm m [] (smat_new b0 m).
Proof. exists (fun _ => b0), (fun _ => []). split; [apply holds_new|]. split; auto. Qed.

Definition valid_ops (m : nat) (ops : list (nat * nat * B)) : Prop := forall i j t, In (i, j, t) ops -> i < m /\ j < m.
Lemma valid_forall m ops : valid_ops m ops -> Forall (fun '(i, j, _) => i < m /\ j < m) ops.
Proof. intros V. apply Forall_forall. intros [[i j] t] I. eapply V; eauto. Qed.
End Asm.
Global Arguments valid_ops {B}.

(* ---- assembling ---- *)
(* Any blocks added in any order end up summed, in that order, at their places. *)
Theorem C82_assembly {B : Type} (b0 : B) badd btr (lim : Z) (m : nat) ops :
  (Z.of_nat m < 2 ^ 32)%Z -> (Z.of_nat m <= lim)%Z -> valid_ops m ops ->
  exists A, appends badd btr lim (smat_new b0 m) ops = Ok A /\ length A = m /\
    (forall i, i < m -> diagonal A i = Some (fold_left badd (contribs btr ops i i) b0)) /\
    (forall i j, i < j < m -> stored A i j = sum1 badd (contribs btr ops i j)).
Proof.
  intros U Li V. pose proof (appends_asm b0 badd btr lim m U ops [] _ (asm_new b0 badd btr m) (valid_forall m ops V)) as W.
  destruct (appends _ _ _ _ _) as [A| |]; cbn in W; try lia. exists A. split; auto.
  destruct W as (D & C & H & HD & HC). split; [apply H|]. split.
  - intros i I. rewrite (holds_diagonal _ _ _ _ _ H I). now rewrite HD.
  - intros i j IJ. rewrite (holds_stored _ _ _ _ _ _ H) by lia. apply HC; auto.
Qed.
(* Whatever the memory, the only other outcome is a failed allocation. *)
Theorem C82_assembly_safe {B : Type} (b0 : B) badd btr (lim : Z) (m : nat) ops :
  (Z.of_nat m < 2 ^ 32)%Z -> valid_ops m ops ->
  (exists A, appends badd btr lim (smat_new b0 m) ops = Ok A) \/ appends badd btr lim (smat_new b0 m) ops = Throw BadAlloc.
Proof.
  intros U V. pose proof (appends_asm b0 badd btr lim m U ops [] _ (asm_new b0 badd btr m) (valid_forall m ops V)) as W.
  destruct (appends _ _ _ _ _) as [A|e|f]; cbn in W; [eauto| |tauto]. destruct W as (-> & _). auto.
Qed.

(* ---- tidy, copy, fillin: the steps of mesh::solve, lines 2651-2656 ---- *)
Theorem C82_prepare {B : Type} (b0 : B) badd btr (lim : Z) (m : nat) ops A :
  (forall x, badd b0 x = x) ->
  (Z.of_nat m < 2 ^ 16)%Z -> (Z.of_nat m <= lim)%Z -> valid_ops m ops ->
  appends badd btr lim (smat_new b0 m) ops = Ok A ->
  exists K M F, tidy (S m) A = Ok K /\ copy b0 badd btr lim K = Ok M /\ fillin b0 lim (S m) M = Ok F /\
    in_order K /\ in_order F /\ length K = m /\ length F = m /\
    (forall i, i < m -> diagonal K i = diagonal A i /\ diagonal F i = diagonal A i) /\
    (forall i j, i < j < m -> stored K i j = stored A i j /\
       stored F i j = match stored A i j with
                      | Some x => Some x
                      | None => if existsb (fun k => match stored A k i, stored A k j with Some _, Some _ => true | _, _ => false end) (seq 0 i)
                                then Some b0 else None
                      end).
Proof.
  intros Z0 U Li V EA.
  pose proof (appends_asm b0 badd btr lim m ltac:(lia) ops [] _ (asm_new b0 badd btr m) (valid_forall m ops V)) as W.
  rewrite EA in W. cbn [wp app] in W. destruct W as (D & C0 & H0 & _).
  set (C := fun j => if j <? m then C0 j else []).
  assert (H : holds A m D C).
  { eapply holds_ext; [|exact H0]. intros q Q. split; auto. unfold C. now apply Nat.ltb_lt in Q as ->. }
  assert (CL : forall j, Forall (fun y => fst y < j) (C j)).
  { intros q. unfold C. destruct (Nat.ltb_spec q m); [|constructor]. apply (holds_low _ _ _ _ H0 q H1). }
  assert (CS : forall j, StronglySorted lt1 (C j)).
  { intros q. unfold C. destruct (Nat.ltb_spec q m); [|constructor]. apply (holds_low _ _ _ _ H0 q H1). }
  clearbody C. clear H0.
  pose proof (tidy_holds (S m) A m D C U ltac:(lia) H) as WK.
  destruct (tidy (S m) A) as [K| |]; cbn in WK; try tauto. exists K.
  pose proof (holds_of_tidy _ _ _ _ WK) as HK.
  pose proof (copy_wp b0 badd btr lim Z0 K m D C HK ltac:(lia)) as WM.
  destruct (copy _ _ _ _ K) as [M| |]; cbn in WM; try lia. exists M.
  pose proof (fillin_wp b0 badd btr lim (S m) M m D C WM U ltac:(lia)) as WF.
  destruct (fillin _ _ _ M) as [F| |]; cbn in WF; try lia. exists F.
  pose proof (holds_of_tidy _ _ _ _ WF) as HF.
  repeat (split; [solve [auto | eapply tidy_in_order; eauto | apply HK | apply HF]|]). split.
  - intros i I. rewrite (holds_diagonal _ _ _ _ _ HK I), (holds_diagonal _ _ _ _ _ HF I), (holds_diagonal _ _ _ _ _ H I). auto.
  - intros i j IJ. rewrite (holds_stored _ _ _ _ _ _ HK), (holds_stored _ _ _ _ _ _ HF), (holds_stored _ _ _ _ _ _ H) by lia.
    split; auto. destruct (filled_props b0 badd btr C CL CS j) as (_ & _ & FP). rewrite FP by lia.
    destruct (lookup (C j) i) as [x|]; auto. f_equal.
    match goal with |- (if ?a then _ else _) = (if ?b then _ else _) => replace b with a; auto end.
    apply eq_true_iff_eq. unfold meets. rewrite !existsb_exists. split.
    + intros (y & Y & T). exists (fst y). unfold has in T. destruct (lookup (C i) (fst y)) as [z|] eqn:L; [|discriminate].
      assert (fst y < i).
      { assert (HI : has (C i) (fst y) = true) by (unfold has; now rewrite L). apply (has_in b0 btr) in HI as (w & W & <-).
        specialize (CL i). rewrite Forall_forall in CL. apply CL; auto. }
      split; [apply in_seq; lia|]. rewrite (holds_stored _ _ _ _ _ _ H), (holds_stored _ _ _ _ _ _ H), L by lia.
      assert (HJ : has (C j) (fst y) = true) by (apply (has_in b0 btr); eauto). unfold has in HJ. destruct (lookup (C j) (fst y)); auto.
    + intros (k & Kk & T). apply in_seq in Kk. rewrite (holds_stored _ _ _ _ _ _ H), (holds_stored _ _ _ _ _ _ H) in T by lia.
      destruct (lookup (C i) k) eqn:L1; [|discriminate]. destruct (lookup (C j) k) eqn:L2; [|discriminate].
      assert (HJ : has (C j) k = true) by (unfold has; now rewrite L2). apply (has_in b0 btr) in HJ as (w & W & <-).
      exists w. split; auto. unfold has. now rewrite L1.
Qed.

(* ---- tidy does not end once a column holds 65536 nodes ---- *)
Section Loop.
Context {B : Type}.
Lemma relink_diverges : forall fuel j (l : list (node B)), (0 <= j < 2 ^ 16)%Z -> (2 ^ 16 <= Z.of_nat (length l))%Z -> relink fuel j l = UB OutOfFuel.
Proof.
  induction fuel; intros j l J L; cbn [relink]; auto.
  replace (j <? Z.of_nat (length l))%Z with true by (symmetry; apply Z.ltb_lt; lia).
  assert (K : Z.to_nat j < length l) by lia.
  destruct (nth_error l (Z.to_nat j)) as [x|] eqn:X; [|apply nth_error_None in X; lia].
  unfold set_next. rewrite (aget_some _ _ _ X). cbn [bind].
  rewrite aset_ok by exact K. cbn [bind].
  apply IHfuel; [apply Z.mod_pos_bound; lia|]. now rewrite length_upd.
Qed.

(* m ends with P or runs out of fuel *)
Definition stuck {X} (m : outcome X) (P : X -> Prop) : Prop :=
  match m with Ok a => P a | UB OutOfFuel => True | _ => False end.
Lemma stuck_for {S : Type} lo hi body (s : S) (P : nat -> S -> Prop) :
  lo <= hi -> P lo s -> (forall i s, lo <= i < hi -> P i s -> stuck (body i s) (P (i + 1))) ->
  stuck (for_up lo hi body s) (P hi).
Proof.
  unfold for_up. intros L P0 H.
  remember (hi - lo) as k eqn:Ek. revert lo s L P0 H Ek.
  induction k; intros lo s L P0 H Ek; cbn.
  - now replace hi with lo by lia.
  - pose proof (H lo s ltac:(lia) P0) as W. destruct (body lo s) as [a| |f]; cbn in W; try tauto.
    cbn. apply IHk; auto; try lia. intros. apply H; auto. lia.
Qed.
Lemma relink_len : forall fuel j (l : list (node B)), (0 <= j)%Z -> stuck (relink fuel j l) (fun _ => True).
Proof.
  induction fuel; intros j l J; cbn [relink]; [exact I|].
  destruct (Z.ltb_spec j (Z.of_nat (length l))); [|exact I].
  destruct (nth_error l (Z.to_nat j)) as [x|] eqn:X; [|apply nth_error_None in X; lia].
  unfold set_next. rewrite (aget_some _ _ _ X). cbn [bind]. rewrite aset_ok by lia. cbn [bind].
  apply IHfuel. apply Z.mod_pos_bound; lia.
Qed.
Lemma tidy_diverges fuel (A : smat B) c d : nth_error A c = Some d -> (2 ^ 16 <= Z.of_nat (nnz d))%Z -> tidy fuel A = UB OutOfFuel.
Proof.
  intros E N. pose proof (nth_error_lt _ _ _ E) as L.
  assert (G : stuck (tidy fuel A) (fun A' => length A' = length A /\ ~ c < length A /\ nth_error A' c = Some d)).
  { unfold tidy. apply (stuck_for 0 (length A) _ A (fun i A' => length A' = length A /\ ~ c < i /\ nth_error A' c = Some d)).
    - lia.
    - split; [auto|]. split; [lia|auto].
    - intros i A' I (LA & NC & EC). destruct (nth_error A' i) as [d'|] eqn:D; [|apply nth_error_None in D; lia].
      rewrite (aget_some _ _ _ D). cbn [bind].
      pose proof (isort_wp (dnodes d')) as S. fold (nnz d') in S. unfold tidy_col.
      destruct (for_up 1 (nnz d') _ (dnodes d')) as [l|e|f]; cbn in S; try tauto. cbn [bind].
      destruct (Nat.eq_dec i c) as [->|NE].
      + assert (d' = d) by congruence. subst d'. rewrite relink_diverges; [exact Logic.I| |].
        * lia.
        * destruct S as (P & _). apply Permutation_length in P. unfold nnz in N. lia.
      + pose proof (relink_len fuel 0 l ltac:(lia)) as R. destruct (relink fuel 0 l) as [l'|e|f]; cbn in R; try tauto.
        cbn [bind]. rewrite aset_ok by lia. cbn. rewrite length_upd, nth_error_upd_ne by auto. split; [auto|]. split; [lia|auto]. }
  destruct (tidy fuel A) as [A'|e|f]; cbn in G; try tauto. destruct f; tauto.
Qed.
End Loop.

Section Lens.
Context {B : Type}.
Lemma stored_len (A : smat B) m D C c d rows : holds A m D C -> c < m -> nth_error A c = Some d ->
  NoDup rows -> (forall i, In i rows -> stored A i c <> None) -> length rows <= nnz d.
Proof.
  intros H Cm E ND R. destruct H as (LA & H). pose proof (conj LA H) as HH. destruct (H c Cm) as (d' & E' & RP & _).
  assert (d' = d) by congruence. subst d'. rewrite <- (rep_len _ _ _ RP), <- (map_length fst).
  apply NoDup_incl_length; auto. intros i I. specialize (R i I). rewrite (holds_stored _ _ _ _ _ _ HH) in R by auto.
  clear - R. induction (C c) as [|[r x] L IH]; cbn in *; [tauto|]. destruct (Nat.eqb_spec r i); auto.
Qed.
End Lens.

Theorem C82_tidy_long {B : Type} (b0 : B) badd btr (lim : Z) (m : nat) ops A c rows :
  (Z.of_nat m < 2 ^ 32)%Z -> valid_ops m ops -> appends badd btr lim (smat_new b0 m) ops = Ok A ->
  c < m -> NoDup rows -> Z.of_nat (length rows) = 65536%Z -> (forall i, In i rows -> stored A i c <> None) ->
  forall fuel, tidy fuel A = UB OutOfFuel.
Proof.
  intros U V EA Cm ND LR R fuel.
  pose proof (appends_asm b0 badd btr lim m U ops [] _ (asm_new b0 badd btr m) (valid_forall m ops V)) as W.
  rewrite EA in W. cbn [wp app] in W. destruct W as (D & C & H & _).
  destruct (nth_error A c) as [d|] eqn:E. 2:{ apply nth_error_None in E. destruct H as (LA & _). lia. }
  apply tidy_diverges with c d; auto. pose proof (stored_len A m D C c d rows H Cm E ND R).
  change (2 ^ 16)%Z with 65536%Z. lia.
Qed.
Theorem C82_tidy_refuted {B : Type} (b0 : B) badd btr (lim : Z) (t : B) : (2 ^ 17 <= lim)%Z ->
  exists m ops A, valid_ops m ops /\ appends badd btr lim (smat_new b0 m) ops = Ok A /\ forall fuel, tidy fuel A = UB OutOfFuel.
Proof.
  intros Li. assert (EN : exists N, Z.of_nat N = 65536%Z) by (exists (Z.to_nat 65536); apply Z2Nat.id; lia).
  destruct EN as (N & EN). change (2 ^ 17)%Z with 131072%Z in Li.
  set (ops := map (fun i => (i, N, t)) (seq 0 N)).
  assert (V : valid_ops (S N) ops).
  { intros i j x I. apply in_map_iff in I as (k & E & K). apply in_seq in K. injection E as <- <- _. lia. }
  assert (U : (Z.of_nat (S N) < 2 ^ 32)%Z) by lia.
  destruct (C82_assembly b0 badd btr lim (S N) ops U ltac:(lia) V) as (A & EA & _ & _ & HS).
  exists (S N), ops, A. split; [auto|]. split; [auto|].
  apply (C82_tidy_long b0 badd btr lim (S N) ops A N (seq 0 N) U V EA).
  - lia.
  - apply seq_NoDup.
  - now rewrite seq_length.
  - intros i I. apply in_seq in I. rewrite HS by lia.
    assert (G : In t (contribs btr ops i N)).
    { unfold contribs, ops. apply in_flat_map. exists (i, N, t). split.
      - apply in_map_iff. exists i. split; auto. apply in_seq. lia.
      - rewrite !Nat.eqb_refl. cbn. auto. }
    destruct (contribs btr ops i N); [destruct G|discriminate].
Qed.

(* ---- chol() ---- *)
Section Caps.
Context {B : Type}.
Variable b0 : B.
Variable badd : B -> B -> B.
Variable btr : B -> B.
Variable lim : Z.
Definition caps (A : smat B) : Prop := forall j d, nth_error A j = Some d -> (dcap d <= lim)%Z.
Lemma expand_cap (d d' : dcol B) k : expand lim d k = Ok d' -> (dcap d <= lim)%Z -> (dcap d' <= lim)%Z.
Proof.
  unfold expand. destruct (Z.ltb_spec (dcap d) (u32 (Z.of_nat (nnz d) + k))).
  - destruct (Z.ltb_spec lim (u32 (Z.of_nat (nnz d) + k))); [discriminate|]. intros E; injection E as <-. cbn. lia.
  - intros E; injection E as <-. auto.
Qed.
Lemma append_col_cap (d d' : dcol B) r t : append_col badd lim d r t = Ok d' -> (dcap d <= lim)%Z -> (dcap d' <= lim)%Z.
Proof.
  unfold append_col. intros E H.
  apply bind_ok in E as ((o & p) & _ & E). apply bind_ok in E as (f & _ & E). destruct f as [[q x]|].
  - apply bind_ok in E as (l & _ & E). injection E as <-. auto.
  - apply bind_ok in E as (d1 & E1 & E). apply expand_cap in E1; auto.
    apply bind_ok in E as (d2 & E2 & E). unfold push in E2. destruct (_ <? _)%Z; [|discriminate]. injection E2 as <-.
    apply bind_ok in E as ((o1 & p1) & _ & E). apply bind_ok in E as (d3 & E3 & E). apply bind_ok in E as (l3 & _ & E).
    injection E as <-. cbn. destruct o1.
    + apply bind_ok in E3 as (l4 & _ & E3). injection E3 as <-. auto.
    + injection E3 as <-. auto.
Qed.
Lemma caps_aset (A A' : smat B) i d : aset A i d = Ok A' -> caps A -> (dcap d <= lim)%Z -> caps A'.
Proof.
  unfold aset. destruct (Nat.ltb_spec i (length A)); [|discriminate]. intros E H1 H2. injection E as <-.
  intros j d' J. destruct (Nat.eq_dec i j) as [->|NE].
  - rewrite nth_error_upd_eq in J by auto. injection J as <-. auto.
  - rewrite nth_error_upd_ne in J by auto. eapply H1; eauto.
Qed.
Lemma aget_nth (A : smat B) i d : aget A i = Ok d -> nth_error A i = Some d.
Proof. apply aget_ok. Qed.
Lemma append_caps (A A' : smat B) i j t : append badd btr lim A i j t = Ok A' -> caps A -> caps A'.
Proof.
  unfold append. intros E H. destruct (i =? j).
  - apply bind_ok in E as (d & E1 & E). eapply caps_aset; eauto. cbn. eapply H. apply aget_nth; eauto.
  - apply bind_ok in E as (d & E1 & E). apply bind_ok in E as (d1 & E2 & E). eapply caps_aset; eauto.
    eapply append_col_cap; eauto. eapply H. apply aget_nth; eauto.
Qed.
Lemma appends_caps : forall ops (A A' : smat B), appends badd btr lim A ops = Ok A' -> caps A -> caps A'.
Proof.
  induction ops as [|[[i j] t] ops IH]; cbn [appends]; intros A A' E H. { injection E as <-. auto. }
  apply bind_ok in E as (A1 & E1 & E). eapply IH; eauto. eapply append_caps; eauto.
Qed.
Lemma new_caps m : (0 <= lim)%Z -> caps (smat_new b0 m).
Proof. intros H j d E. unfold smat_new in E. apply nth_error_In, repeat_spec in E. subst d. auto. Qed.

Lemma chol_first (A : smat B) m D C : holds A m D C -> caps A -> (Z.of_nat m < 2 ^ 32)%Z -> (lim < 2 ^ 32 - Z.of_nat m)%Z ->
  wp (chol_fill b0 lim A) (fun A' => A' = A /\ forall j, j < m -> C j = []) (fun e => e = BadAlloc /\ exists j, j < m /\ C j <> []).
Proof.
  intros (LA & H) K U Li. unfold chol_fill. rewrite LA.
  apply (wp_for 0 m _ A (fun i A' => A' = A /\ forall j, j < i -> C j = [])).
  - lia.
  - split; auto. lia.
  - intros i A' I (-> & CI). destruct (H i ltac:(lia)) as (d & E & R & _). rewrite (aget_some _ _ _ E). cbn [bind].
    pose proof (rep_head _ _ _ R) as RH. pose proof (rep_len _ _ _ R) as RL.
    destruct (dhead d) as [q|] eqn:HD.
    + assert (CN : C i <> []).
      { intros Z0. rewrite Z0 in RL. unfold nnz in RL. destruct (dnodes d) eqn:DN; [|discriminate].
        destruct RH as (_ & RH). now specialize (RH eq_refl). }
      destruct R as ((c & S & AT & _) & _ & F & _). rewrite HD in S. destruct c as [|q' c]; [cbn in S; discriminate|].
      destruct S as (EQ & x & X & _). injection EQ as <-. rewrite (aget_some _ _ _ X). cbn [bind].
      inversion AT as [|? y ? L (x' & X' & Y) _ Q1 Q2]; subst. assert (x' = x) by congruence. subst x'.
      rewrite <- Q2 in F. inversion F as [|? ? F1 _]; subst. unfold cell in F1. cbn in F1.
      unfold expand. replace (u32 _) with (2 ^ 32 - (Z.of_nat i - Z.of_nat (nrow x)))%Z.
      2:{ unfold u32. rewrite Zplus_mod_idemp_r. apply Z.mod_unique with (q := (-1)%Z); lia. }
      specialize (K i d E).
      destruct (Z.ltb_spec (dcap d) (2 ^ 32 - (Z.of_nat i - Z.of_nat (nrow x)))); [|lia].
      destruct (Z.ltb_spec lim (2 ^ 32 - (Z.of_nat i - Z.of_nat (nrow x)))); [|lia].
      cbn. split; auto. exists i. split; [lia|auto].
    + cbn. split; auto. intros j J. destruct (Nat.eq_dec j i) as [->|]; [|apply CI; lia].
      destruct RH as (RH & _). unfold nnz in RL. rewrite (RH eq_refl) in RL. now destruct (C i).
Qed.
End Caps.

(* With one block off the diagonal the size asked for, row - column - nodes, wraps around to nearly 2^32 nodes. *)
Theorem C82_chol_refuted {B : Type} (b0 : B) badd btr (lim : Z) (m : nat) ops A i j :
  (Z.of_nat m <= lim < 2 ^ 32 - Z.of_nat m)%Z -> valid_ops m ops ->
  appends badd btr lim (smat_new b0 m) ops = Ok A -> i < j < m -> stored A i j <> None ->
  chol_fill b0 lim A = Throw BadAlloc.
Proof.
  intros Li V EA IJ S.
  pose proof (appends_asm b0 badd btr lim m ltac:(lia) ops [] _ (asm_new b0 badd btr m) (valid_forall m ops V)) as W.
  rewrite EA in W. cbn [wp app] in W. destruct W as (D & C & H & _).
  pose proof (chol_first b0 lim A m D C H ltac:(eapply appends_caps; [eauto|apply new_caps; lia]) ltac:(lia) ltac:(lia)) as W.
  rewrite (holds_stored _ _ _ _ _ _ H) in S by lia.
  destruct (chol_fill b0 lim A) as [A'|e|f]; cbn in W; [|destruct W as (-> & _); auto|tauto].
  destruct W as (_ & W). rewrite W in S by lia. now cbn in S.
Qed.
(* Only a block-diagonal matrix passes, unchanged. *)
Theorem C82_chol_partial {B : Type} (b0 : B) badd btr (lim : Z) (m : nat) ops A :
  (Z.of_nat m <= lim < 2 ^ 32 - Z.of_nat m)%Z -> valid_ops m ops ->
  appends badd btr lim (smat_new b0 m) ops = Ok A -> (forall i j, i < j < m -> stored A i j = None) ->
  chol_fill b0 lim A = Ok A.
Proof.
  intros Li V EA S.
  pose proof (appends_asm b0 badd btr lim m ltac:(lia) ops [] _ (asm_new b0 badd btr m) (valid_forall m ops V)) as W.
  rewrite EA in W. cbn [wp app] in W. destruct W as (D & C & H & _).
  pose proof (chol_first b0 lim A m D C H ltac:(eapply appends_caps; [eauto|apply new_caps; lia]) ltac:(lia) ltac:(lia)) as W.
  destruct (chol_fill b0 lim A) as [A'|e|f]; cbn in W; [destruct W as (-> & _); auto| |tauto].
  destruct W as (_ & j & J & CJ). exfalso. destruct (holds_low _ _ _ _ H j J) as (F & _).
  destruct (C j) as [|[r x] L] eqn:E; [tauto|]. inversion F as [|? ? R _]; subst. cbn in R.
  specialize (S r j ltac:(lia)). rewrite (holds_stored _ _ _ _ _ _ H) in S by lia. rewrite E in S. cbn [lookup] in S.
  rewrite Nat.eqb_refl in S. discriminate S.
Qed.

(* ---- examples ---- *)
(* blocks (u, v) with transpose (v, u) *)
Definition zb := (Z * Z)%type.
Definition zadd (a b : zb) : zb := (fst a + fst b, snd a + snd b)%Z.
Definition ztr (a : zb) : zb := (snd a, fst a).
Definition zops : list (nat * nat * zb) :=
  [(0, 2, (1, 2)%Z); (3, 0, (3, 4)%Z); (1, 1, (5, 5)%Z); (2, 0, (10, 20)%Z); (3, 2, (7, 8)%Z); (0, 1, (6, 9)%Z)].
Definition run3 (ops : list (nat * nat * zb)) :=
  let* A := appends zadd ztr 1000 (smat_new (0, 0)%Z 4) ops in
  let* K := tidy 5 A in
  let* M := copy (0, 0)%Z zadd ztr 1000 K in
  fillin (0, 0)%Z 1000 5 M.
Example C82_demo : valid_ops 4 zops /\
  match run3 zops with Ok F => stored F 0 2 = Some (21, 12)%Z /\ stored F 0 3 = Some (4, 3)%Z /\
    stored F 1 2 = Some (0, 0)%Z /\ stored F 1 3 = Some (0, 0)%Z /\ stored F 2 3 = Some (8, 7)%Z /\ diagonal F 1 = Some (5, 5)%Z | _ => False end.
Proof.
  split. { intros i j t H. cbn in H. repeat (destruct H as [E|H]; [injection E as <- <- _; lia|]). tauto. }
  vm_compute. repeat split.
Qed.
(* nonzero() of a full 2 x 2 matrix of blocks, which has three stored blocks, gives 1 *)
Theorem C82_nonzero_refuted : (let* A := appends zadd ztr 1000 (smat_new (0, 0)%Z 2) [(0%nat, 0%nat, (1, 1)); (0%nat, 1%nat, (2, 2)); (1%nat, 1%nat, (3, 3))]%Z in nonzero A) = Ok 1%Z.
Proof. vm_compute. reflexivity. Qed.
Print Assumptions C82_assembly.
Print Assumptions C82_assembly_safe.
Print Assumptions C82_prepare.
Print Assumptions C82_tidy_long.
Print Assumptions C82_tidy_refuted.
Print Assumptions C82_chol_refuted.
Print Assumptions C82_chol_partial.
Print Assumptions C82_demo.
Print Assumptions C82_nonzero_refuted.
