(* Proofs about the assembly of BcModel. *)
From Coq Require Import List ZArith Bool Arith Lia Permutation Sorted Field.
From Verif Require Import Base LinBase SmatModel SmatProofs IncholModel IncholProofs PcgModel PcgProofs BcModel.
Import ListNotations.
Local Open Scope nat_scope.

Ltac pick := solve [repeat split; (assumption || lia) | left; pick | right; pick].
Ltac zl := split; intros ?;
  repeat match goal with H : _ \/ _ |- _ => destruct H | H : _ /\ _ |- _ => destruct H | H : False |- _ => destruct H end;
  repeat match goal with
  | H : ?x < ?y + 1 |- _ => destruct (Nat.eq_dec x y); [clear H|assert (x < y) by lia; clear H]
  end; subst; first [contradiction|lia|pick].
(* ---- loops ---- *)
Lemma for_ok {S} (P : nat -> S -> Prop) lo hi f (s : S) : lo <= hi -> P lo s ->
  (forall k s, lo <= k < hi -> P k s -> exists s', f k s = Ok s' /\ P (k + 1) s') -> exists s', for_up lo hi f s = Ok s' /\ P hi s'.
Proof.
  intros L H0 H. assert (W : wp (for_up lo hi f s) (P hi) (fun _ => False)).
  { apply wp_for; auto. intros i t I Pi. destruct (H i t I Pi) as (s' & -> & Q). exact Q. }
  destruct (for_up lo hi f s); cbn in W; try tauto. eauto.
Qed.
Lemma each_ok {X S} (P : list X -> S -> Prop) (l : list X) f (s : S) : P [] s ->
  (forall pre x post s, l = pre ++ x :: post -> P pre s -> exists s', f x s = Ok s' /\ P (pre ++ [x]) s') -> exists s', each l f s = Ok s' /\ P l s'.
Proof.
  intros H0 H. assert (G : forall post pre s, l = pre ++ post -> P pre s -> exists s', each post f s = Ok s' /\ P l s').
  { induction post as [|x post IH]; intros pre t E Pp; cbn [each].
    - exists t. split; auto. rewrite E, app_nil_r. auto.
    - destruct (H pre x post t E Pp) as (t' & -> & Q). cbn [bind]. apply (IH (pre ++ [x])); auto. rewrite E, <- app_assoc. reflexivity. }
  apply (G l [] s); auto.
Qed.

(* ---- marks ---- *)
Lemma land_bit x k : (0 <= k)%Z -> Z.eqb (Z.land x (Z.shiftl 1 k)) 0 = negb (Z.testbit x k).
Proof.
  intros Hk. destruct (Z.testbit x k) eqn:E; cbn [negb].
  - apply Z.eqb_neq. intros Q. assert (T : Z.testbit (Z.land x (Z.shiftl 1 k)) k = true).
    { rewrite Z.land_spec, E, Z.shiftl_spec by lia. replace (k - k)%Z with 0%Z by lia. reflexivity. }
    rewrite Q, Z.bits_0 in T. discriminate.
  - apply Z.eqb_eq. apply Z.bits_inj'. intros n Hn. rewrite Z.land_spec, Z.bits_0, Z.shiftl_spec by lia.
    destruct (Z.eq_dec n k). { subst. now rewrite E. }
    replace (Z.testbit 1 (n - k)) with false; [apply andb_false_r|]. symmetry.
    destruct (Z.neg_nonneg_cases (n - k)). { now apply Z.testbit_neg_r. }
    change 1%Z with (2 ^ 0)%Z. apply Z.pow2_bits_false. lia.
Qed.
Definition mark (x : Z) (i : nat) : bool := Z.testbit x (Z.of_nat i).
Lemma low_bits x : exists r, (0 <= r < 8)%Z /\ Z.land x 7 = r /\ forall i, i < 3 -> mark x i = Z.testbit r (Z.of_nat i).
Proof.
  exists (x mod 8)%Z. split; [apply Z.mod_pos_bound; lia|]. split.
  - change 7%Z with (Z.ones 3). rewrite Z.land_ones by lia. reflexivity.
  - intros i I. unfold mark. change 8%Z with (2 ^ 3)%Z. rewrite Z.mod_pow2_bits_low by lia. reflexivity.
Qed.
Lemma full_bits x : Z.eqb (Z.land x 7) 7 = mark x 0 && mark x 1 && mark x 2.
Proof.
  destruct (low_bits x) as (r & R & -> & H). rewrite !H by lia.
  assert (C : (r = 0 \/ r = 1 \/ r = 2 \/ r = 3 \/ r = 4 \/ r = 5 \/ r = 6 \/ r = 7)%Z) by lia.
  repeat (destruct C as [C|C]; [subst; reflexivity|]). subst. reflexivity.
Qed.
Lemma free_bits x : Z.eqb (Z.land x 7) 0 = negb (mark x 0) && negb (mark x 1) && negb (mark x 2).
Proof.
  destruct (low_bits x) as (r & R & -> & H). rewrite !H by lia.
  assert (C : (r = 0 \/ r = 1 \/ r = 2 \/ r = 3 \/ r = 4 \/ r = 5 \/ r = 6 \/ r = 7)%Z) by lia.
  repeat (destruct C as [C|C]; [subst; reflexivity|]). subst. reflexivity.
Qed.
Lemma mark_set x k i : i < 3 -> mark (Z.lor x (Z.shiftl 1 (Z.of_nat k))) i = mark x i || (i =? k).
Proof.
  intros I. unfold mark. rewrite Z.lor_spec, Z.shiftl_spec by lia. f_equal.
  destruct (Nat.eqb_spec i k). { subst. replace (Z.of_nat k - Z.of_nat k)%Z with 0%Z by lia. reflexivity. }
  destruct (Z.neg_nonneg_cases (Z.of_nat i - Z.of_nat k)). { now apply Z.testbit_neg_r. }
  change 1%Z with (2 ^ 0)%Z. apply Z.pow2_bits_false. lia.
Qed.
Lemma mark_set3 x i : i < 3 -> mark (Z.lor x (Z.shiftl 1 3)) i = mark x i.
Proof. intros I. change 3%Z with (Z.of_nat 3). rewrite mark_set by auto. destruct (Nat.eqb_spec i 3); [lia|]. apply orb_false_r. Qed.
Lemma mark3_set3 x : mark (Z.lor x (Z.shiftl 1 3)) 3 = true.
Proof. unfold mark. rewrite Z.lor_spec. rewrite Z.shiftl_spec by lia. cbn. apply orb_true_r. Qed.
Lemma mark3_set x k : mark x 3 = true -> mark (Z.lor x (Z.shiftl 1 (Z.of_nat k))) 3 = true.
Proof. unfold mark. intros H. rewrite Z.lor_spec, H. reflexivity. Qed.

(* ---- places of the element matrix ---- *)
Definition T (j : nat) := j * (j + 1) / 2.
Lemma T_S j : T (S j) = T j + S j.
Proof. unfold T. replace (S j * (S j + 1)) with (j * (j + 1) + S j * 2) by lia. apply Nat.div_add. lia. Qed.
Lemma T_le i j : i <= j -> T i <= T j.
Proof. induction 1; auto. rewrite T_S. lia. Qed.
Lemma kidx_lt a b n : a <= b -> b < n -> kidx a b < T n.
Proof. intros H1 H2. unfold kidx. fold (T b). pose proof (T_S b). pose proof (T_le (S b) n H2). lia. Qed.
Lemma kidx_inj a b i j : a <= b -> i <= j -> kidx a b = kidx i j -> a = i /\ b = j.
Proof.
  unfold kidx. fold (T b). fold (T j). intros H1 H2 E. pose proof (T_S b). pose proof (T_S j).
  destruct (lt_eq_lt_dec b j) as [[L|L]|L]; [pose proof (T_le (S b) j L)|subst j|pose proof (T_le (S j) b L)]; lia.
Qed.

Section Proofs.
Context {K : ofield}.
Local Open Scope lin_scope.
Add Field Kf62 : (f_th K).

(* ---- prescribed values ---- *)
Fixpoint val (l : list (bc K)) (g i : nat) : K :=
  match l with [] => f0 | u :: l => if Nat.eqb (bn u) g && Nat.eqb (bdof u) i then bd u else val l g i end.
Fixpoint fixedb (l : list (bc K)) (g i : nat) : bool :=
  match l with [] => false | u :: l => if Nat.eqb (bn u) g && Nat.eqb (bdof u) i then true else fixedb l g i end.
Definition key (u : bc K) := (bn u, bdof u).
Lemma fixedb_snoc l u g i : fixedb (l ++ [u]) g i = fixedb l g i || (Nat.eqb (bn u) g && Nat.eqb (bdof u) i).
Proof.
  induction l as [|x l IH]; cbn [app fixedb]. { destruct (_ && _); reflexivity. }
  destruct (Nat.eqb (bn x) g && Nat.eqb (bdof x) i); auto.
Qed.
Lemma fixedb_in l g i : fixedb l g i = true <-> In (g, i) (map key l).
Proof.
  induction l as [|x l IH]; cbn [fixedb map In]. { split; [discriminate|tauto]. }
  unfold key at 1. destruct (Nat.eqb_spec (bn x) g); destruct (Nat.eqb_spec (bdof x) i); cbn [andb]; subst.
  - tauto. - rewrite IH. split; [tauto|]. intros [E|E]; auto. congruence.
  - rewrite IH. split; [tauto|]. intros [E|E]; auto. congruence.
  - rewrite IH. split; [tauto|]. intros [E|E]; auto. congruence.
Qed.
Lemma val_free l g i : fixedb l g i = false -> val l g i = f0.
Proof. induction l as [|x l IH]; cbn [fixedb val]; auto. destruct (_ && _); [discriminate|auto]. Qed.
Lemma val_snoc l u g i : ~ In (key u) (map key l) -> val (l ++ [u]) g i = if Nat.eqb (bn u) g && Nat.eqb (bdof u) i then bd u else val l g i.
Proof.
  induction l as [|x l IH]; cbn [app val map In]; intros N; auto. rewrite IH by tauto.
  destruct (Nat.eqb_spec (bn x) g); destruct (Nat.eqb_spec (bdof x) i); cbn [andb]; auto.
  destruct (Nat.eqb_spec (bn u) g); destruct (Nat.eqb_spec (bdof u) i); cbn [andb]; auto. exfalso; apply N; left. unfold key; congruence.
Qed.
Lemma val_in l u : NoDup (map key l) -> In u l -> val l (bn u) (bdof u) = bd u.
Proof.
  induction l as [|x l IH]; cbn [val map In]; [tauto|]. intros N [->|I]. { now rewrite !Nat.eqb_refl. }
  inversion N as [|? ? N1 N2]; subst. destruct (Nat.eqb_spec (bn x) (bn u)); destruct (Nat.eqb_spec (bdof x) (bdof u)); cbn [andb]; auto.
  exfalso; apply N1. replace (key x) with (key u) by (unfold key; congruence). now apply in_map.
Qed.

(* ---- vectors ---- *)
Lemma gv_set (v : v3 K) i d j : (j < 3)%nat -> gv (setv v i d) j = if Nat.eqb j i then d else gv v j.
Proof. intros J. unfold setv. now rewrite gv_gen. Qed.
Lemma setc_ok (V : svec K) n i d : (n < length V)%nat -> exists V', setc V n i d = Ok V' /\ length V' = length V /\
  forall k j, (j < 3)%nat -> vw V' k j = if Nat.eqb k n && Nat.eqb j i then d else vw V k j.
Proof.
  intros N. unfold setc. rewrite (aget_nth V n zerov N). cbn [bind]. rewrite aset_ok by auto. eexists. split; [reflexivity|]. split; [apply length_upd|].
  intros k j J. unfold vw. rewrite nth_upd by auto. destruct (Nat.eqb_spec k n); cbn [andb]; auto. subst k. now apply gv_set.
Qed.
Lemma vw_new m n i : vw (svec_new m : svec K) n i = f0.
Proof. unfold vw, svec_new. destruct (Nat.lt_ge_cases n m). { rewrite nth_repeat. apply gv_zero. } rewrite nth_overflow by (rewrite repeat_length; lia). apply gv_zero. Qed.
Lemma delta lo hi (p : nat) (f : nat -> K) : sumr lo hi (fun r => if Nat.eqb r p then f r else f0) = if Nat.leb lo p && Nat.ltb p hi then f p else f0.
Proof.
  destruct (Nat.leb_spec lo p); destruct (Nat.ltb_spec p hi); cbn [andb].
  - rewrite (sumr_one lo hi _ p); [now rewrite Nat.eqb_refl|lia|]. intros k ? ?. destruct (Nat.eqb_spec k p); [lia|auto].
  - apply sumr_zero. intros k ?. destruct (Nat.eqb_spec k p); [lia|auto].
  - apply sumr_zero. intros k ?. destruct (Nat.eqb_spec k p); [lia|auto].
  - apply sumr_zero. intros k ?. destruct (Nat.eqb_spec k p); [lia|auto].
Qed.

(* ---- rows of the matrix ---- *)
Section Rows.
Variable m : nat.
Definition rowf (D : nat -> m3 K) (C : nat -> list (nat * m3 K)) (X : nat -> nat -> K) (n i : nat) : K :=
  bv (D n) (X n) i + (sumr 0 n (fun r => btv (blk (C n) r) (X r) i) + sumr (S n) m (fun c => bv (blk (C c) n) (X c) i)).
Definition rowop (i j : nat) (t : m3 K) (X : nat -> nat -> K) (n s : nat) : K :=
  if Nat.eqb i j then (if Nat.eqb n i then bv t (X i) s else f0)
  else (if Nat.eqb n i then bv t (X j) s else f0) + (if Nat.eqb n j then btv t (X i) s else f0).
Lemma get_add3 (a b : m3 K) i j : (i < 3)%nat -> (j < 3)%nat -> get3 (add3 a b) i j = get3 a i j + get3 b i j.
Proof. intros. unfold add3. now rewrite get_gen. Qed.
Lemma get_tr3 (a : m3 K) i j : (i < 3)%nat -> (j < 3)%nat -> get3 (tr3 a) i j = get3 a j i.
Proof. intros. unfold tr3. now rewrite get_gen. Qed.
Lemma get_addin L p (t : m3 K) r i j : StronglySorted lt1 L -> (i < 3)%nat -> (j < 3)%nat ->
  get3 (blk (addin add3 p t L) r) i j = get3 (blk L r) i j + (if Nat.eqb r p then get3 t i j else f0).
Proof.
  intros S I J. unfold blk. rewrite lookup_addin by auto. destruct (Nat.eqb_spec r p). 2:{ ring. }
  subst r. destruct (lookup L p). { now apply get_add3. } rewrite get_zero. ring.
Qed.
Lemma bv_addin L p (t : m3 K) r v s : StronglySorted lt1 L -> (s < 3)%nat -> bv (blk (addin add3 p t L) r) v s = bv (blk L r) v s + (if Nat.eqb r p then bv t v s else f0).
Proof. intros S I. unfold bv. rewrite !get_addin by (auto; lia). destruct (Nat.eqb r p); ring. Qed.
Lemma btv_addin L p (t : m3 K) r v s : StronglySorted lt1 L -> (s < 3)%nat -> btv (blk (addin add3 p t L) r) v s = btv (blk L r) v s + (if Nat.eqb r p then btv t v s else f0).
Proof. intros S I. unfold btv. rewrite !get_addin by (auto; lia). destruct (Nat.eqb r p); ring. Qed.
Lemma row_off D C p q (t : m3 K) X n s : (p < q < m)%nat -> (n < m)%nat -> (s < 3)%nat -> StronglySorted lt1 (C q) ->
  rowf D (updf C q (addin add3 p t (C q))) X n s =
  rowf D C X n s + ((if Nat.eqb n p then bv t (X q) s else f0) + (if Nat.eqb n q then btv t (X p) s else f0)).
Proof.
  intros PQ N S3 SS. unfold rowf.
  rewrite (sumr_ext 0 n _ (fun r => btv (blk (C n) r) (X r) s + (if Nat.eqb r p then (if Nat.eqb n q then btv t (X r) s else f0) else f0))).
  2:{ intros r _. unfold updf. destruct (Nat.eqb_spec n q). { subst n. now rewrite btv_addin. } destruct (Nat.eqb r p); ring. }
  rewrite (sumr_ext (S n) m _ (fun c => bv (blk (C c) n) (X c) s + (if Nat.eqb c q then (if Nat.eqb n p then bv t (X c) s else f0) else f0))).
  2:{ intros c _. unfold updf. destruct (Nat.eqb_spec c q). { subst c. now rewrite bv_addin. } ring. }
  rewrite !sumr_add, !delta.
  assert (E1 : (if Nat.leb 0 p && Nat.ltb p n then if Nat.eqb n q then btv t (X p) s else f0 else f0) = if Nat.eqb n q then btv t (X p) s else f0).
  { destruct (Nat.eqb_spec n q). { subst n. replace (Nat.ltb p q) with true by (symmetry; apply Nat.ltb_lt; lia). reflexivity. } destruct (Nat.leb 0 p), (Nat.ltb p n); reflexivity. }
  assert (E2 : (if Nat.leb (S n) q && Nat.ltb q m then if Nat.eqb n p then bv t (X q) s else f0 else f0) = if Nat.eqb n p then bv t (X q) s else f0).
  { destruct (Nat.eqb_spec n p). { subst n. replace (Nat.leb (S p) q) with true by (symmetry; apply Nat.leb_le; lia). replace (Nat.ltb q m) with true by (symmetry; apply Nat.ltb_lt; lia). reflexivity. } destruct (Nat.leb (S n) q), (Nat.ltb q m); reflexivity. }
  rewrite E1, E2. ring.
Qed.
Lemma bv_tr (t : m3 K) v s : (s < 3)%nat -> bv (tr3 t) v s = btv t v s.
Proof. intros. unfold bv, btv. now rewrite !get_tr3 by lia. Qed.
Lemma btv_tr (t : m3 K) v s : (s < 3)%nat -> btv (tr3 t) v s = bv t v s.
Proof. intros. unfold bv, btv. now rewrite !get_tr3 by lia. Qed.
Definition sym3 (b : m3 K) : Prop := forall i j, (i < 3)%nat -> (j < 3)%nat -> get3 b i j = get3 b j i.
Lemma row_append lim A D C i j (t : m3 K) : holds A m D C -> (i < m)%nat -> (j < m)%nat -> (Z.of_nat m < 2 ^ 16)%Z -> (Z.of_nat m <= lim)%Z ->
  exists A' D' C', append add3 tr3 lim A i j t = Ok A' /\ holds A' m D' C' /\
    (forall X n s, (n < m)%nat -> (s < 3)%nat -> rowf D' C' X n s = rowf D C X n s + rowop i j t X n s) /\
    ((i = j -> sym3 t) -> (forall n, (n < m)%nat -> sym3 (D n)) -> forall n, (n < m)%nat -> sym3 (D' n)).
Proof.
  intros H I J M16 LM. pose proof (append_wp add3 tr3 lim A m D C i j t H I J ltac:(lia)) as W.
  destruct (append add3 tr3 lim A i j t) as [A'|e|f] eqn:E; cbn [wp] in W; [|lia|tauto].
  unfold rowop. destruct (Nat.eqb_spec i j) as [Eij|Nij].
  - subst j. exists A', (updf D i (add3 (D i) t)), C. split; auto. split; auto. split.
    + intros X n s N S3. unfold rowf, updf. destruct (Nat.eqb_spec n i); [|ring]. subst n. unfold bv at 1. rewrite !get_add3 by lia. unfold bv at 2 4. ring.
    + intros ST SD n N a b Aa Bb. unfold updf. destruct (Nat.eqb_spec n i); [|now apply SD]. rewrite !get_add3 by auto. now rewrite (SD i I a b), (ST eq_refl a b).
  - assert (SS : forall q, (q < m)%nat -> StronglySorted lt1 (C q)) by (intros q Q; destruct (proj2 H q Q) as (d & _ & R & _); apply R).
    eexists A', D, _. split; [reflexivity|]. split; [exact W|]. split; auto. intros X n s N S3. rewrite row_off; auto.
    2:{ lia. } 2:{ apply SS; lia. }
    f_equal. destruct (Nat.ltb_spec j i).
    + rewrite Nat.max_l, Nat.min_r by lia. rewrite bv_tr, btv_tr by auto. ring.
    + rewrite Nat.max_r, Nat.min_l by lia. reflexivity.
Qed.
End Rows.

(* ---- the element ---- *)
Definition loc (e : felem K) (a : nat) : nat := nth a (el2g e) 0%nat.
Definition st (l : list (m3 K)) (a b s t : nat) : K := get3 (nth (kidx a b) l zero3) s t.
Definition kfull (e : felem K) (a b s t : nat) : K := if Nat.leb a b then st (eke e) a b s t else st (eke e) b a t s.
Definition good (m : nat) (e : felem K) : Prop :=
  Forall (fun g => g < m)%nat (el2g e) /\ NoDup (el2g e) /\ length (eke e) = (ennd e * (ennd e + 1) / 2)%nat /\
  forall a s t, (a < ennd e)%nat -> (s < 3)%nat -> (t < 3)%nat -> kfull e a a s t = kfull e a a t s.

Section Elem.
Variables (m : nat) (n2o : list nat) (fixed : list Z).
Definition fx (g s : nat) : bool := mark (nth g fixed 0%Z) s.
Definition ff (g : nat) : bool := fx g 0 && fx g 1 && fx g 2.
Notation N g := (nth g n2o 0%nat).
Hypothesis Ln : length n2o = m.
Hypothesis Lf : length fixed = m.
Hypothesis NR : forall g, (g < m)%nat -> (N g < m)%nat.
Hypothesis NI : forall g h, (g < m)%nat -> (h < m)%nat -> N g = N h -> g = h.

Section One.
Variable e : felem K.
Hypothesis G : good m e.
Lemma loc_lt a : (a < ennd e)%nat -> (loc e a < m)%nat.
Proof. intros A. destruct G as (F & _). rewrite Forall_forall in F. apply F. now apply nth_In. Qed.
Lemma loc_inj a b : (a < ennd e)%nat -> (b < ennd e)%nat -> loc e a = loc e b -> a = b.
Proof. intros A B E. destruct G as (_ & ND & _). rewrite (NoDup_nth (el2g e) 0%nat) in ND. now apply ND. Qed.
Lemma loc_get a : (a < ennd e)%nat -> aget (el2g e) a = Ok (loc e a).
Proof. intros A. now apply aget_nth. Qed.
Lemma n_get g : (g < m)%nat -> aget n2o g = Ok (N g).
Proof. intros A. apply aget_nth. lia. Qed.
Lemma f_get g : (g < m)%nat -> aget fixed g = Ok (nth g fixed 0%Z).
Proof. intros A. apply aget_nth. lia. Qed.

(* -- zeroing -- *)
Definition zrel (l l' : list (m3 K)) (Z : nat -> nat -> nat -> nat -> Prop) : Prop :=
  length l' = length l /\ forall a b s t, (a <= b < ennd e)%nat -> (s < 3)%nat -> (t < 3)%nat ->
    (Z a b s t -> st l' a b s t = f0) /\ (~ Z a b s t -> st l' a b s t = st l a b s t).
Lemma zrel_iff l l' (Z Z' : nat -> nat -> nat -> nat -> Prop) : zrel l l' Z ->
  (forall a b s t, (a <= b < ennd e)%nat -> (s < 3)%nat -> (t < 3)%nat -> (Z a b s t <-> Z' a b s t)) -> zrel l l' Z'.
Proof.
  intros (L & H) E. split; auto. intros a b s t A S T3. destruct (H a b s t A S T3) as (H1 & H2). specialize (E a b s t A S T3). split; intros; [apply H1|apply H2]; tauto.
Qed.
Lemma kset_z l0 l i j k t Z : length l0 = T (ennd e) -> zrel l0 l Z -> (i <= j < ennd e)%nat -> (k < 3)%nat -> (t < 3)%nat ->
  exists l', kset l i j k t f0 = Ok l' /\ zrel l0 l' (fun a b s u => Z a b s u \/ (a = i /\ b = j /\ s = k /\ u = t)).
Proof.
  intros L0 (L & H) IJ K3 T3. unfold kset. destruct (Nat.ltb_spec j i); [lia|].
  assert (B : (kidx i j < length l)%nat) by (rewrite L, L0; apply kidx_lt; lia).
  rewrite (aget_nth l _ zero3 B). cbn [bind]. rewrite aset_ok by auto. eexists. split; [reflexivity|]. split; [now rewrite length_upd|].
  intros a b s u A S U. destruct (H a b s u A S U) as (H1 & H2). unfold st in *. rewrite nth_upd by auto.
  destruct (Nat.eqb_spec (kidx a b) (kidx i j)) as [E|NE].
  - apply kidx_inj in E; [|lia|lia]. destruct E; subst a b. unfold set3. rewrite get_gen by auto.
    destruct (Nat.eqb_spec s k), (Nat.eqb_spec u t); cbn [andb]; subst.
    + split; auto. intros Q. exfalso; apply Q; auto.
    + split; intros Q; [apply H1|apply H2]; [destruct Q as [Q|Q]; auto; exfalso; tauto|tauto].
    + split; intros Q; [apply H1|apply H2]; [destruct Q as [Q|Q]; auto; exfalso; tauto|tauto].
    + split; intros Q; [apply H1|apply H2]; [destruct Q as [Q|Q]; auto; exfalso; tauto|tauto].
  - split; intros Q; [apply H1|apply H2]; [destruct Q as [Q|(-> & -> & _)]; auto; exfalso; auto|tauto].
Qed.
Lemma zero_ok : exists e', el_zero fixed e = Ok e' /\ el2g e' = el2g e /\ length (eke e') = length (eke e) /\
  forall a b s t, (a <= b < ennd e)%nat -> (s < 3)%nat -> (t < 3)%nat -> ff (loc e a) = false -> ff (loc e b) = false ->
    st (eke e') a b s t = if fx (loc e a) s || fx (loc e b) t then f0 else st (eke e) a b s t.
Proof.
  assert (L0 : length (eke e) = T (ennd e)) by apply G. unfold el_zero.
  set (pt := fun a => ff (loc e a) = false).
  set (fxl := fun a s => fx (loc e a) s = true).
  match goal with |- context [for_up 0 (ennd e) ?f (eke e)] => destruct (for_ok (fun i l => zrel (eke e) l (fun a b s t =>
      (a < i /\ pt a /\ fxl a s) \/ (b < i /\ pt b /\ fxl b t)))%nat 0 (ennd e) f (eke e)) as (l & -> & HL & H) end.
  - lia.
  - split; auto. intros a b s t _ _ _. split; [lia|auto].
  - intros i l I Z. rewrite loc_get by lia. cbn [bind]. rewrite f_get by (apply loc_lt; lia). cbn [bind].
    set (x := nth (loc e i) fixed 0%Z). rewrite full_bits, free_bits.
    destruct (negb (mark x 0) && negb (mark x 1) && negb (mark x 2) || mark x 0 && mark x 1 && mark x 2) eqn:TST.
    + exists l. split; auto. eapply zrel_iff; [exact Z|]. intros a b s t A S T3. cbv beta.
      assert (Q : pt i -> fxl i s -> False /\ (fxl i t -> False)).
      { intros Pi Fs. unfold pt, ff, fxl, fx in *. fold x in Pi, Fs |- *. exfalso. assert (C : (s = 0 \/ s = 1 \/ s = 2)%nat) by lia.
        destruct (mark x 0) eqn:M0, (mark x 1) eqn:M1, (mark x 2) eqn:M2; cbn in TST, Pi; try discriminate. destruct C as [->|[->| ->]]; congruence. }
      assert (Q' : pt i -> fxl i t -> False).
      { intros Pi Fs. unfold pt, ff, fxl, fx in *. fold x in Pi, Fs |- *. exfalso. assert (C : (t = 0 \/ t = 1 \/ t = 2)%nat) by lia.
        destruct (mark x 0) eqn:M0, (mark x 1) eqn:M1, (mark x 2) eqn:M2; cbn in TST, Pi; try discriminate. destruct C as [->|[->| ->]]; congruence. }
      split; intros [(H1 & H2 & H3)|(H1 & H2 & H3)].
      * left. repeat split; auto; lia. * right. repeat split; auto; lia.
      * destruct (Nat.eq_dec a i). { subst a. destruct (Q H2 H3); tauto. } left. repeat split; auto; lia.
      * destruct (Nat.eq_dec b i). { subst b. destruct (Q' H2 H3); tauto. } right. repeat split; auto; lia.
    + assert (Pi : pt i). { unfold pt, ff, fx. fold x. destruct (mark x 0 && mark x 1 && mark x 2); auto. now rewrite orb_true_r in TST. }
      assert (Fi : forall s, fxl i s <-> mark x s = true) by (intros; reflexivity).
      match goal with |- context [for_up 0 (ennd e) ?f l] => destruct (for_ok (fun j l => zrel (eke e) l (fun a b s t =>
        ((a < i /\ pt a /\ fxl a s) \/ (b < i /\ pt b /\ fxl b t)) \/ (a = i /\ b < j /\ fxl i s) \/ (b = i /\ a < j /\ fxl i t)))%nat 0 (ennd e) f l) as (l1 & -> & H1) end.
      * lia.
      * eapply zrel_iff; [exact Z|]. intros a b s t A S T3. cbv beta. zl.
      * intros j l1 J Z1.
        match goal with |- context [for_up 0 3 ?f l1] => destruct (for_ok (fun k l => zrel (eke e) l (fun a b s t =>
          (((a < i /\ pt a /\ fxl a s) \/ (b < i /\ pt b /\ fxl b t)) \/ (a = i /\ b < j /\ fxl i s) \/ (b = i /\ a < j /\ fxl i t)) \/
          (a = i /\ b = j /\ s < k /\ fxl i s) \/ (b = i /\ a = j /\ t < k /\ fxl i t)))%nat 0 3 f l1)%nat as (l2 & -> & H2) end.
        -- lia.
        -- eapply zrel_iff; [exact Z1|]. intros a b s t A S T3. cbv beta. zl.
        -- intros k l2 K3 Z2. rewrite land_bit by lia. fold (mark x k). destruct (mark x k) eqn:MK; cbn [negb].
           ++ match goal with |- context [for_up 0 3 ?f l2] => destruct (for_ok (fun u l => zrel (eke e) l (fun a b s t =>
                ((((a < i /\ pt a /\ fxl a s) \/ (b < i /\ pt b /\ fxl b t)) \/ (a = i /\ b < j /\ fxl i s) \/ (b = i /\ a < j /\ fxl i t)) \/
                (a = i /\ b = j /\ s < k /\ fxl i s) \/ (b = i /\ a = j /\ t < k /\ fxl i t)) \/
                (a = i /\ b = j /\ s = k /\ t < u) \/ (b = i /\ a = j /\ t = k /\ s < u)))%nat 0 3 f l2)%nat as (l3 & -> & H3) end.
              ** lia.
              ** eapply zrel_iff; [exact Z2|]. intros a b s t A S T3. cbv beta. zl.
              ** intros u l3 U3 Z3. destruct (Nat.leb_spec j i).
                 --- destruct (kset_z _ _ j i u k _ L0 Z3) as (l4 & -> & Z4); [lia|lia|lia|]. cbn [bind]. destruct (Nat.leb_spec i j).
                     +++ destruct (kset_z _ _ i j k u _ L0 Z4) as (l5 & -> & Z5); [lia|lia|lia|]. eexists. split; [reflexivity|].
                         eapply zrel_iff; [exact Z5|]. intros a b s t A S T3. cbv beta. zl.
                     +++ eexists. split; [reflexivity|]. eapply zrel_iff; [exact Z4|]. intros a b s t A S T3. cbv beta. zl.
                 --- cbn [bind]. destruct (Nat.leb_spec i j); [|lia].
                     destruct (kset_z _ _ i j k u _ L0 Z3) as (l5 & -> & Z5); [lia|lia|lia|]. eexists. split; [reflexivity|].
                     eapply zrel_iff; [exact Z5|]. intros a b s t A S T3. cbv beta. zl.
              ** eexists. split; [reflexivity|]. eapply zrel_iff; [exact H3|]. intros a b s t A S T3. cbv beta.
                 assert (fxl i k) by (apply Fi; auto). destruct (Nat.eq_dec s k), (Nat.eq_dec t k); subst; zl.
           ++ eexists. split; [reflexivity|]. eapply zrel_iff; [exact Z2|]. intros a b s t A S T3. cbv beta.
              assert (~ fxl i k) by (rewrite Fi; congruence). destruct (Nat.eq_dec s k), (Nat.eq_dec t k); subst; zl.
        -- eexists. split; [reflexivity|]. eapply zrel_iff; [exact H2|]. intros a b s t A S T3. cbv beta. zl.
      * eexists. split; [reflexivity|]. eapply zrel_iff; [exact H1|]. intros a b s t A S T3. cbv beta.
        destruct (Nat.eq_dec a i), (Nat.eq_dec b i); subst; zl.
  - cbn [bind]. eexists. split; [reflexivity|]. split; [reflexivity|]. split; [exact HL|]. intros a b s t A S T3 Fa Fb. cbn [eke].
    destruct (H a b s t A S T3) as (H1 & H2). unfold pt, fxl in *. destruct (fx (loc e a) s); cbn [orb].
    { apply H1. left. repeat split; auto; lia. }
    destruct (fx (loc e b) t). { apply H1. right. repeat split; auto; lia. }
    apply H2. intros [(_ & _ & Q)|(_ & _ & Q)]; discriminate.
Qed.

(* -- the force of the prescribed displacements -- *)
Lemma kget_ok (l : list (m3 K)) a b : length l = T (ennd e) -> (a <= b < ennd e)%nat -> kget l a b = Ok (nth (kidx a b) l zero3).
Proof. intros L A. unfold kget. destruct (Nat.ltb_spec b a); [lia|]. apply aget_nth. rewrite L. apply kidx_lt; lia. Qed.
Definition kx (a b s : nat) (v : nat -> K) : K := kfull e a b s 0 * v 0%nat + kfull e a b s 1 * v 1%nat + kfull e a b s 2 * v 2%nat.
Lemma force_ok (P F : svec K) : length P = m -> length F = m -> (forall g i, (g < m)%nat -> (i < 3)%nat -> fx g 3 = false -> vw P (N g) i = f0) ->
  exists F', el_force n2o fixed P e F = Ok F' /\ length F' = m /\
  forall n s, (n < m)%nat -> (s < 3)%nat ->
    vw F' n s = vw F n s - sumr 0 (ennd e) (fun b => if Nat.eqb n (N (loc e b)) then sumr 0 (ennd e) (fun a => kx b a s (vw P (N (loc e a)))) else f0).
Proof.
  intros LP LF PZ. assert (L0 : length (eke e) = T (ennd e)) by apply G. unfold el_force.
  match goal with |- context [for_up 0 (ennd e) ?f F] => destruct (for_ok (fun i F' => length F' = m /\ forall n s, (n < m)%nat -> (s < 3)%nat ->
    vw F' n s = vw F n s - sumr 0 i (fun a => sumr 0 (ennd e) (fun b => if Nat.eqb n (N (loc e b)) then kx b a s (vw P (N (loc e a))) else f0))) 0 (ennd e) f F) as (F' & -> & LF' & H) end.
  - lia.
  - split; auto. intros n s _ _. rewrite sumr_nil by lia. ring.
  - intros i F1 I (L1 & H1). rewrite loc_get by lia. cbn [bind]. pose proof (loc_lt i ltac:(lia)) as LI. rewrite n_get, f_get by auto. cbn [bind].
    change (Z.land (nth (loc e i) fixed 0%Z) (Z.shiftl 1 3)) with (Z.land (nth (loc e i) fixed 0%Z) (Z.shiftl 1 (Z.of_nat 3))). rewrite land_bit by lia.
    change (Z.testbit (nth (loc e i) fixed 0%Z) (Z.of_nat 3)) with (fx (loc e i) 3). rewrite negb_involutive. destruct (fx (loc e i) 3) eqn:FX3.
    + match goal with |- context [for_up 0 (ennd e) ?f F1] => destruct (for_ok (fun j F' => length F' = m /\ forall n s, (n < m)%nat -> (s < 3)%nat ->
        vw F' n s = vw F1 n s - sumr 0 j (fun b => if Nat.eqb n (N (loc e b)) then kx b i s (vw P (N (loc e i))) else f0)) 0 (ennd e) f F1) as (F2 & -> & L2 & H2) end.
      * lia.
      * split; auto. intros n s _ _. rewrite sumr_nil by lia. ring.
      * intros j F2 J (L2 & H2). rewrite loc_get by lia. cbn [bind]. pose proof (loc_lt j ltac:(lia)) as LJ. rewrite n_get by auto. cbn [bind].
        pose proof (NR _ LI). pose proof (NR _ LJ). rewrite (aget_nth P _ zerov), (aget_nth F2 _ zerov) by lia. cbn [bind].
        assert (KX : forall s v, (s < 3)%nat -> gv (if Nat.ltb j i then mulv (nth (kidx j i) (eke e) zero3) v else mulv (tr3 (nth (kidx i j) (eke e) zero3)) v) s = kx j i s (gv v)).
        { intros s v S3. unfold kx. destruct (Nat.ltb_spec j i).
          - rewrite gv_mulv by auto. unfold bv, kfull, st. destruct (Nat.leb_spec j i); [|lia]. reflexivity.
          - rewrite gv_multv by auto. unfold btv. destruct (Nat.eq_dec i j).
            + subst j. destruct G as (_ & _ & _ & SY). rewrite !(SY i s) by (auto; lia). unfold kfull, st. rewrite Nat.leb_refl. reflexivity.
            + unfold kfull, st. destruct (Nat.leb_spec j i); [lia|]. reflexivity. }
        assert (BODY : exists F3, (if Nat.ltb j i then let* k := kget (eke e) j i in aset F2 (N (loc e j)) (subv (nth (N (loc e j)) F2 zerov) (mulv k (nth (N (loc e i)) P zerov)))
          else let* k := kget (eke e) i j in aset F2 (N (loc e j)) (subv (nth (N (loc e j)) F2 zerov) (mulv (tr3 k) (nth (N (loc e i)) P zerov)))) = Ok F3 /\ length F3 = m /\
          forall n s, (s < 3)%nat -> vw F3 n s = vw F2 n s - (if Nat.eqb n (N (loc e j)) then kx j i s (vw P (N (loc e i))) else f0)).
        { destruct (Nat.ltb_spec j i) as [JI|JI]; rewrite kget_ok by (auto; lia); cbn [bind]; rewrite aset_ok by lia; eexists; (split; [reflexivity|]); (split; [rewrite length_upd; lia|]);
          intros n s S3; unfold vw at 1; rewrite nth_upd by lia; (destruct (Nat.eqb_spec n (N (loc e j))); [subst n|unfold vw; ring]); unfold subv; rewrite gv_gen by auto; f_equal;
          specialize (KX s (nth (N (loc e i)) P zerov) S3). now rewrite KX. now rewrite KX. }
        destruct BODY as (F3 & -> & L3 & H3). exists F3. split; auto. split; auto. intros n s Nn S3. rewrite H3, H2 by auto. rewrite Nat.add_1_r, sumr_S by lia. ring.
      * exists F2. split; auto. split; auto. intros n s Nn S3. rewrite H2, H1 by auto. rewrite Nat.add_1_r, (sumr_S 0 i) by lia. ring.
    + exists F1. split; auto. split; auto. intros n s Nn S3. rewrite H1 by auto. rewrite Nat.add_1_r, (sumr_S 0 i) by lia. rewrite (sumr_zero 0 (ennd e)); [ring|].
      intros b B. destruct (Nat.eqb n (N (loc e b))); auto. unfold kx. rewrite !PZ by (auto; lia). ring.
  - exists F'. split; auto. split; auto. intros n s Nn S3. rewrite H by auto. f_equal. rewrite sumr_swap. apply sumr_ext. intros b B.
    destruct (Nat.eqb n (N (loc e b))); auto. apply sumr_zero. auto.
Qed.

(* -- the matrix -- *)
Lemma full_ff g : Z.eqb (Z.land (nth g fixed 0%Z) 7) 7 = ff g.
Proof. apply full_bits. Qed.
Definition opsum (l : list (m3 K)) (X : nat -> nat -> K) (n s a b : nat) : K :=
  if ff (loc e a) || ff (loc e b) then f0 else rowop (N (loc e a)) (N (loc e b)) (nth (kidx a b) l zero3) X n s.
Definition msym (D : nat -> m3 K) : Prop := forall n, (n < m)%nat -> sym3 (D n).
Lemma asm_ok (Q : smat (m3 K) -> Prop) lim e' A D C : el2g e' = el2g e -> length (eke e') = length (eke e) -> holds A m D C -> (Z.of_nat m < 2 ^ 16)%Z -> (Z.of_nat m <= lim)%Z ->
  (forall A i j t A', Q A -> (i < m)%nat -> (j < m)%nat -> append add3 tr3 lim A i j t = Ok A' -> Q A') -> Q A ->
  (forall a, (a < ennd e)%nat -> ff (loc e a) = false -> sym3 (nth (kidx a a) (eke e') zero3)) -> msym D ->
  exists A' D' C', el_asm lim n2o fixed e' A = Ok A' /\ Q A' /\ holds A' m D' C' /\ msym D' /\
    forall X n s, (n < m)%nat -> (s < 3)%nat -> rowf m D' C' X n s = rowf m D C X n s + sumr 0 (ennd e) (fun a => sumr a (ennd e) (opsum (eke e') X n s a)).
Proof.
  intros EL LK H0 M16 LM QS Q0 SY SD. assert (L0 : length (eke e') = T (ennd e)) by (rewrite LK; apply G). unfold el_asm.
  assert (EN : ennd e' = ennd e) by (unfold ennd; now rewrite EL). rewrite EN, EL.
  match goal with |- context [for_up 0 (ennd e) ?f A] => destruct (for_ok (fun i A' => exists D' C', Q A' /\ holds A' m D' C' /\ msym D' /\ forall X n s, (n < m)%nat -> (s < 3)%nat ->
    rowf m D' C' X n s = rowf m D C X n s + sumr 0 i (fun a => sumr a (ennd e) (opsum (eke e') X n s a))) 0 (ennd e) f A) as (A' & -> & D' & C' & HH) end.
  - lia.
  - exists D, C. split; auto. split; auto. split; auto. intros X n s _ _. rewrite sumr_nil by lia. ring.
  - intros i A1 I (D1 & C1 & Q1 & HA1 & S1 & R1). rewrite loc_get by lia. cbn [bind]. pose proof (loc_lt i ltac:(lia)) as LI. rewrite n_get, f_get by auto. cbn [bind].
    rewrite full_ff. destruct (ff (loc e i)) eqn:FI.
    + exists A1. split; auto. exists D1, C1. split; auto. split; auto. split; auto. intros X n s Nn S3. rewrite R1 by auto. rewrite Nat.add_1_r, (sumr_S 0 i) by lia.
      rewrite (sumr_zero i (ennd e)); [ring|]. intros b B. unfold opsum. now rewrite FI.
    + match goal with |- context [for_up i (ennd e) ?f A1] => destruct (for_ok (fun j A' => exists D' C', Q A' /\ holds A' m D' C' /\ msym D' /\ forall X n s, (n < m)%nat -> (s < 3)%nat ->
        rowf m D' C' X n s = rowf m D1 C1 X n s + sumr i j (opsum (eke e') X n s i)) i (ennd e) f A1) as (A2 & -> & D2 & C2 & Q2 & HA2 & S2 & R2) end.
      * lia.
      * exists D1, C1. split; auto. split; auto. split; auto. intros X n s _ _. rewrite sumr_nil by lia. ring.
      * intros j A2 J (D2 & C2 & Q2 & HA2 & S2 & R2). rewrite loc_get by lia. cbn [bind]. pose proof (loc_lt j ltac:(lia)) as LJ. rewrite n_get, f_get by auto. cbn [bind].
        rewrite full_ff. destruct (ff (loc e j)) eqn:FJ.
        -- exists A2. split; auto. exists D2, C2. split; auto. split; auto. split; auto. intros X n s Nn S3. rewrite R2 by auto. rewrite Nat.add_1_r, (sumr_S i j) by lia.
           unfold opsum at 3. rewrite FJ, orb_true_r. ring.
        -- rewrite kget_ok by (auto; lia). cbn [bind].
           destruct (row_append m lim A2 D2 C2 (N (loc e i)) (N (loc e j)) (nth (kidx i j) (eke e') zero3) HA2) as (A3 & D3 & C3 & E3 & H3 & R3 & S3); auto.
           exists A3. split; auto. exists D3, C3. split; [eapply QS; [exact Q2| | |exact E3]; auto|]. split; auto. split.
           ++ refine (S3 _ S2). intros E. apply NI in E; auto. apply loc_inj in E; [|lia|lia]. subst j. apply SY; auto; lia.
           ++ intros X n s Nn Ss. rewrite R3, R2 by auto. rewrite Nat.add_1_r, (sumr_S i j) by lia. unfold opsum at 3. rewrite FI, FJ. cbn [orb]. ring.
      * exists A2. split; auto. exists D2, C2. split; auto. split; auto. split; auto. intros X n s Nn S3. rewrite R2, R1 by auto. rewrite Nat.add_1_r, (sumr_S 0 i) by lia. ring.
  - exists A', D', C'. tauto.
Qed.
Lemma tri_swap n (H : nat -> nat -> K) : sumr 0 n (fun a => sumr (S a) n (H a)) = sumr 0 n (fun b => sumr 0 b (fun a => H a b)).
Proof.
  induction n. { rewrite !sumr_nil by lia. auto. }
  rewrite (sumr_S 0 n (fun a => sumr (S a) (S n) (H a))), (sumr_S 0 n (fun b => sumr 0 b (fun a => H a b))) by lia. rewrite <- IHn. rewrite (sumr_nil (S n) (S n)) by lia.
  rewrite (sumr_ext 0 n (fun a => sumr (S a) (S n) (H a)) (fun a => sumr (S a) n (H a) + H a n)). 2:{ intros a A. apply sumr_S. lia. }
  rewrite sumr_add. ring.
Qed.
(* the free components *)
Definition keep (X : nat -> nat -> K) (b t : nat) : K := if fx (loc e b) t then f0 else X (N (loc e b)) t.
Lemma fx_ff g s : (s < 3)%nat -> ff g = true -> fx g s = true.
Proof.
  unfold ff. intros S3 E. apply andb_true_iff in E as (E & E2). apply andb_true_iff in E as (E0 & E1).
  assert (C : (s = 0 \/ s = 1 \/ s = 2)%nat) by lia. destruct C as [->|[->| ->]]; auto.
Qed.
Lemma asm_sum l X n s : (forall a b s t, (a <= b < ennd e)%nat -> (s < 3)%nat -> (t < 3)%nat -> ff (loc e a) = false -> ff (loc e b) = false ->
    st l a b s t = if fx (loc e a) s || fx (loc e b) t then f0 else st (eke e) a b s t) -> (s < 3)%nat ->
  sumr 0 (ennd e) (fun a => sumr a (ennd e) (opsum l X n s a)) =
  sumr 0 (ennd e) (fun a => if Nat.eqb n (N (loc e a)) then (if fx (loc e a) s then f0 else sumr 0 (ennd e) (fun b => kx a b s (keep X b))) else f0).
Proof.
  intros ZL S3. set (Gk := fun a b => if Nat.eqb n (N (loc e a)) then (if fx (loc e a) s then f0 else kx a b s (keep X b)) else f0).
  assert (UP : forall a b, (a <= b < ennd e)%nat -> (if ff (loc e a) || ff (loc e b) then f0 else if Nat.eqb n (N (loc e a)) then bv (nth (kidx a b) l zero3) (X (N (loc e b))) s else f0) = Gk a b).
  { intros a b A. unfold Gk. destruct (ff (loc e a)) eqn:FA; cbn [orb]. { rewrite fx_ff by auto. destruct (Nat.eqb n (N (loc e a))); auto. }
    destruct (ff (loc e b)) eqn:FB.
    - destruct (Nat.eqb n (N (loc e a))); auto. destruct (fx (loc e a) s); auto. unfold kx, keep. rewrite !fx_ff by (auto; lia). ring.
    - destruct (Nat.eqb n (N (loc e a))); auto. unfold bv. fold (st l a b s 0). fold (st l a b s 1). fold (st l a b s 2). rewrite !ZL by (auto; lia).
      destruct (fx (loc e a) s); cbn [orb]; [ring|]. unfold kx, keep, kfull. destruct (Nat.leb_spec a b); [|lia].
      destruct (fx (loc e b) 0), (fx (loc e b) 1), (fx (loc e b) 2); ring. }
  assert (LO : forall a b, (a < b < ennd e)%nat -> (if ff (loc e a) || ff (loc e b) then f0 else if Nat.eqb n (N (loc e b)) then btv (nth (kidx a b) l zero3) (X (N (loc e a))) s else f0) = Gk b a).
  { intros a b A. unfold Gk. destruct (ff (loc e b)) eqn:FB. { rewrite orb_true_r. rewrite fx_ff by auto. destruct (Nat.eqb n (N (loc e b))); auto. }
    rewrite orb_false_r. destruct (ff (loc e a)) eqn:FA.
    - destruct (Nat.eqb n (N (loc e b))); auto. destruct (fx (loc e b) s); auto. unfold kx, keep. rewrite !fx_ff by (auto; lia). ring.
    - destruct (Nat.eqb n (N (loc e b))); auto. unfold btv. fold (st l a b 0 s). fold (st l a b 1 s). fold (st l a b 2 s). rewrite !ZL by (auto; lia).
      destruct (fx (loc e b) s); rewrite ?orb_true_r, ?orb_false_r; [ring|]. unfold kx, keep, kfull. destruct (Nat.leb_spec b a); [lia|].
      destruct (fx (loc e a) 0), (fx (loc e a) 1), (fx (loc e a) 2); ring. }
  rewrite (sumr_ext 0 (ennd e) _ (fun a => sumr a (ennd e) (Gk a) + sumr (S a) (ennd e) (fun b => Gk b a))).
  2:{ intros a A. rewrite (sumr_first a), (sumr_first a (ennd e) (Gk a)) by lia.
      rewrite (sumr_ext (S a) (ennd e) (opsum l X n s a) (fun b => Gk a b + Gk b a)).
      - rewrite sumr_add. rewrite <- (UP a a) by lia. unfold opsum, rowop. rewrite Nat.eqb_refl. ring.
      - intros b B. rewrite <- (UP a b), <- (LO a b) by lia. unfold opsum, rowop. destruct (ff (loc e a) || ff (loc e b)); [ring|].
        destruct (Nat.eqb_spec (N (loc e a)) (N (loc e b))) as [E|_]; auto. exfalso. apply NI in E; try (apply loc_lt; lia). apply loc_inj in E; lia. }
  rewrite sumr_add, (tri_swap (ennd e) (fun a b => Gk b a)), <- sumr_add. apply sumr_ext. intros a A.
  rewrite <- (Radd_comm (F_R (f_th K))), <- sumr_split by lia. unfold Gk. destruct (Nat.eqb n (N (loc e a))); [|apply sumr_zero; auto].
  destruct (fx (loc e a) s); [apply sumr_zero; auto|]. reflexivity.
Qed.
End One.

(* ---- all elements ---- *)
Fixpoint suml {X} (l : list X) (f : X -> K) : K := match l with [] => f0 | x :: l => f x + suml l f end.
Lemma suml_snoc {X} (l : list X) x f : suml (l ++ [x]) f = suml l f + f x.
Proof. induction l as [|y l IH]; cbn [app suml]; [ring|]. rewrite IH. ring. Qed.
Lemma suml_ext {X} (l : list X) f g : (forall x, In x l -> f x = g x) -> suml l f = suml l g.
Proof. induction l as [|y l IH]; cbn [suml]; intros H; auto. rewrite (H y), IH; auto; intros; [apply H; now right|now left]. Qed.
Lemma suml_add {X} (l : list X) f g : suml l (fun x => f x + g x) = suml l f + suml l g.
Proof. induction l as [|y l IH]; cbn [suml]; [ring|]. rewrite IH. ring. Qed.
(* the force of the elements at node g *)
Definition nodf (x : nat -> nat -> K) (g s : nat) (e : felem K) : K :=
  sumr 0 (ennd e) (fun a => if Nat.eqb g (loc e a) then sumr 0 (ennd e) (fun b => kx e a b s (x (loc e b))) else f0).
Lemma nodf_N (c : nat -> K) g e : good m e -> (g < m)%nat ->
  sumr 0 (ennd e) (fun a => if Nat.eqb (N g) (N (loc e a)) then c a else f0) = sumr 0 (ennd e) (fun a => if Nat.eqb g (loc e a) then c a else f0).
Proof.
  intros Ge Gm. apply sumr_ext. intros a A. pose proof (loc_lt e Ge a ltac:(lia)).
  destruct (Nat.eqb_spec (N g) (N (loc e a))) as [E|E]; destruct (Nat.eqb_spec g (loc e a)) as [E'|E']; auto.
  - exfalso; apply E'; apply NI; auto. - exfalso; apply E; congruence.
Qed.
Lemma elements_ok (Q : smat (m3 K) -> Prop) lim (P F : svec K) es A D C : length P = m -> length F = m ->
  (forall g i, (g < m)%nat -> (i < 3)%nat -> fx g 3 = false -> vw P (N g) i = f0) ->
  Forall (good m) es -> holds A m D C -> (Z.of_nat m < 2 ^ 16)%Z -> (Z.of_nat m <= lim)%Z ->
  (forall A i j t A', Q A -> (i < m)%nat -> (j < m)%nat -> append add3 tr3 lim A i j t = Ok A' -> Q A') -> Q A -> msym D ->
  exists A' F' D' C', elements lim n2o fixed P es (A, F) = Ok (A', F') /\ Q A' /\ holds A' m D' C' /\ msym D' /\ length F' = m /\
    (forall g s, (g < m)%nat -> (s < 3)%nat -> vw F' (N g) s = vw F (N g) s - suml es (nodf (fun h t => vw P (N h) t) g s)) /\
    (forall X g s, (g < m)%nat -> (s < 3)%nat -> rowf m D' C' X (N g) s =
      rowf m D C X (N g) s + suml es (fun e => if fx g s then f0 else nodf (fun h t => if fx h t then f0 else X (N h) t) g s e)).
Proof.
  intros LP LF PZ GE H0 M16 LM QS Q0 SD. unfold elements.
  match goal with |- context [each es ?f (A, F)] => destruct (each_ok (fun pre '(A', F') => exists D' C', Q A' /\ holds A' m D' C' /\ msym D' /\ length F' = m /\
    (forall g s, (g < m)%nat -> (s < 3)%nat -> vw F' (N g) s = vw F (N g) s - suml pre (nodf (fun h t => vw P (N h) t) g s)) /\
    (forall X g s, (g < m)%nat -> (s < 3)%nat -> rowf m D' C' X (N g) s =
      rowf m D C X (N g) s + suml pre (fun e => if fx g s then f0 else nodf (fun h t => if fx h t then f0 else X (N h) t) g s e))) es f (A, F)) as ((A' & F') & EQ & D' & C' & HH) end.
  - exists D, C. repeat (split; [solve [auto]|]). cbn [suml]. split; intros; ring.
  - intros pre e post (A1 & F1) E (D1 & C1 & Q1 & HA1 & S1 & L1 & RF & RA).
    assert (Ge : good m e). { rewrite Forall_forall in GE. apply GE. rewrite E. apply in_or_app. right; now left. }
    destruct (force_ok e Ge P F1 LP L1 PZ) as (F2 & -> & L2 & HF2). cbn [bind].
    destruct (zero_ok e Ge) as (e' & -> & EL & LK & HZ). cbn [bind].
    destruct (asm_ok e Ge Q lim e' A1 D1 C1 EL LK HA1 M16 LM QS Q1) as (A2 & D2 & C2 & -> & Q2 & HA2 & S2 & R2); auto.
    { intros a Aa FA i j I J. change (st (eke e') a a i j = st (eke e') a a j i). rewrite !HZ by (auto; lia).
      destruct Ge as (_ & _ & _ & SY). specialize (SY a i j Aa I J). unfold kfull in SY. rewrite Nat.leb_refl in SY. rewrite SY.
      destruct (fx (loc e a) i), (fx (loc e a) j); reflexivity. }
    cbn [bind]. exists (A2, F2). split; auto. exists D2, C2. repeat (split; [solve [auto]|]). split.
    + intros g s Gm S3. rewrite HF2, RF, suml_snoc by auto. rewrite nodf_N by auto. match goal with |- ?a - ?b - ?c = ?a - (?b + ?d) => change d with c end. ring.
    + intros X g s Gm S3. rewrite R2, RA, suml_snoc by auto. rewrite (asm_sum e Ge _ X (N g) s HZ S3).
      rewrite (nodf_N (fun a => if fx (loc e a) s then f0 else sumr 0 (ennd e) (fun b => kx e a b s (keep e X b)))) by auto.
      assert (EE : sumr 0 (ennd e) (fun a => if Nat.eqb g (loc e a) then if fx (loc e a) s then f0 else sumr 0 (ennd e) (fun b => kx e a b s (keep e X b)) else f0) =
        if fx g s then f0 else nodf (fun h t => if fx h t then f0 else X (N h) t) g s e).
      { destruct (fx g s) eqn:FG.
        - apply sumr_zero. intros a Aa. destruct (Nat.eqb_spec g (loc e a)); auto. subst g. now rewrite FG.
        - unfold nodf. apply sumr_ext. intros a Aa. destruct (Nat.eqb_spec g (loc e a)); auto. subst g. rewrite FG. reflexivity. }
      rewrite EE. ring.
  - exists A', F', D', C'. split; [exact EQ|exact HH].
Qed.
End Elem.

(* ---- the loops over the lists of conditions ---- *)
Section Lists.
Variables (m : nat) (n2o : list nat).
Notation N g := (nth g n2o 0%nat).
Hypothesis Ln : length n2o = m.
Hypothesis NR : forall g, (g < m)%nat -> (N g < m)%nat.
Hypothesis NI : forall g h, (g < m)%nat -> (h < m)%nat -> N g = N h -> g = h.
Definition inside (u : bc K) : Prop := (bn u < m)%nat /\ (bdof u < 3)%nat.
Lemma n_gt g : (g < m)%nat -> aget n2o g = Ok (N g).
Proof. intros A. apply aget_nth. lia. Qed.
Lemma nodup_mid (pre : list (bc K)) u post : NoDup (map key (pre ++ u :: post)) -> ~ In (key u) (map key pre).
Proof. rewrite map_app. cbn [map]. intros H. apply NoDup_remove_2 in H. intros I. apply H. apply in_or_app. now left. Qed.
Lemma in_mid {X} (P : X -> Prop) pre u post : Forall P (pre ++ u :: post) -> P u.
Proof. rewrite Forall_forall. intros H. apply H. apply in_or_app. right; now left. Qed.
Lemma N_eqb g h : (g < m)%nat -> (h < m)%nat -> Nat.eqb (N g) (N h) = Nat.eqb h g.
Proof. intros A B. destruct (Nat.eqb_spec (N g) (N h)) as [E|E]; destruct (Nat.eqb_spec h g) as [E'|E']; auto; exfalso; [apply E'; symmetry; auto|apply E; congruence]. Qed.
Lemma forces_ok (fext : list (bc K)) : Forall inside fext -> NoDup (map key fext) ->
  exists F, forces n2o fext (svec_new m) = Ok F /\ length F = m /\ forall g s, (g < m)%nat -> (s < 3)%nat -> vw F (N g) s = val fext g s.
Proof.
  intros IN ND. unfold forces. match goal with |- context [each fext ?f ?s0] => destruct (each_ok (fun pre F => length F = m /\ forall g s, (g < m)%nat -> (s < 3)%nat -> vw F (N g) s = val pre g s) fext f s0) as (F & EQ & H) end.
  - split; [apply repeat_length|]. intros. apply vw_new.
  - intros pre u post F1 E (L1 & H1). assert (IU : inside u) by (apply (in_mid inside pre u post); now rewrite <- E). destruct IU as (U1 & U2).
    rewrite n_gt by auto. cbn [bind]. destruct (setc_ok F1 (N (bn u)) (bdof u) (bd u)) as (F2 & -> & L2 & H2). { rewrite L1. auto. }
    exists F2. split; auto. split; [lia|]. intros g s Gm S3. rewrite H2, N_eqb, H1 by auto. rewrite val_snoc by (apply (nodup_mid pre u post); now rewrite <- E).
    now rewrite (Nat.eqb_sym s (bdof u)).
  - exists F. split; [exact EQ|exact H].
Qed.
Lemma initial_ok (u0 : list (v3 K)) : length u0 = m -> exists U, initial n2o u0 (svec_new m) = Ok U /\ length U = m /\ forall g s, (g < m)%nat -> vw U (N g) s = gv (nth g u0 zerov) s.
Proof.
  intros L0. unfold initial. match goal with |- context [for_up 0 _ ?f ?s0] => destruct (for_ok (fun i U => length U = m /\ forall g s, (g < i)%nat -> vw U (N g) s = gv (nth g u0 zerov) s) 0 (length u0) f s0) as (U & EQ & L & H) end.
  - lia.
  - split; [apply repeat_length|lia].
  - intros i U1 I (L1 & H1). rewrite (aget_nth u0 i zerov) by lia. cbn [bind]. rewrite n_gt by lia. cbn [bind]. rewrite aset_ok by (rewrite L1; apply NR; lia).
    eexists. split; [reflexivity|]. split; [rewrite length_upd; auto|]. intros g s Gi. unfold vw. rewrite nth_upd by (rewrite L1; apply NR; lia). rewrite N_eqb by lia.
    destruct (Nat.eqb_spec i g). { now subst. } apply H1. lia.
  - exists U. split; [exact EQ|]. split; auto. intros. apply H. lia.
Qed.
Lemma fixings_ok (dbc : list (bc K)) fixed0 : Forall inside dbc -> NoDup (map key dbc) -> length fixed0 = m ->
  exists fixed P, fixings n2o dbc (fixed0, svec_new m) = Ok (fixed, P) /\ length fixed = m /\ length P = m /\
    (forall g s, (g < m)%nat -> (s < 3)%nat -> vw P (N g) s = val dbc g s) /\
    (forall g s, (g < m)%nat -> (s < 3)%nat -> fx fixed g s = fx fixed0 g s || fixedb dbc g s) /\
    (forall g s, (g < m)%nat -> (s < 3)%nat -> fx fixed g 3 = false -> vw P (N g) s = f0).
Proof.
  intros IN ND L0. unfold fixings. match goal with |- context [each dbc ?f ?s0] => destruct (each_ok (fun pre '(fixed, P) => length fixed = m /\ length P = m /\
    (forall g s, (g < m)%nat -> (s < 3)%nat -> vw P (N g) s = val pre g s) /\
    (forall g s, (g < m)%nat -> (s < 3)%nat -> fx fixed g s = fx fixed0 g s || fixedb pre g s) /\
    (forall g s, (g < m)%nat -> (s < 3)%nat -> fx fixed g 3 = false -> vw P (N g) s = f0)) dbc f s0) as ((fixed & P) & EQ & H) end.
  - split; auto. split; [apply repeat_length|]. split; [intros; apply vw_new|]. split; [intros; now rewrite orb_false_r|intros; apply vw_new].
  - intros pre u post (f1' & P1) E (L1 & LP & HP & HF & HZ). assert (IU : inside u) by (apply (in_mid inside pre u post); now rewrite <- E). destruct IU as (U1 & U2).
    assert (NK : ~ In (key u) (map key pre)) by (apply (nodup_mid pre u post); now rewrite <- E).
    rewrite (aget_nth f1' (bn u) 0%Z) by lia. cbn [bind]. set (x := nth (bn u) f1' 0%Z). rewrite aset_ok by lia. cbn [bind].
    destruct (feqb_spec (bd u) f0) as [EB|EB]; cbn [negb].
    + eexists. split; [reflexivity|]. split; [now rewrite length_upd|]. split; auto. split; [|split].
      * intros g s Gm S3. rewrite HP, val_snoc by auto. destruct (Nat.eqb_spec (bn u) g); destruct (Nat.eqb_spec (bdof u) s); cbn [andb]; auto. subst. rewrite EB.
        apply val_free. destruct (fixedb pre (bn u) (bdof u)) eqn:FB; auto. apply fixedb_in in FB. exfalso. apply NK. exact FB.
      * intros g s Gm S3. rewrite fixedb_snoc, orb_assoc, <- HF by auto. unfold fx. rewrite nth_upd by lia. rewrite (Nat.eqb_sym g). destruct (Nat.eqb_spec (bn u) g); cbn [andb].
        { subst g. rewrite mark_set by auto. now rewrite (Nat.eqb_sym s). } now rewrite orb_false_r.
      * intros g s Gm S3 F3. apply HZ; auto. unfold fx in *. rewrite nth_upd in F3 by lia. destruct (Nat.eqb_spec g (bn u)); auto. subst g.
        destruct (mark (nth (bn u) f1' 0%Z) 3) eqn:M3; auto. fold x in M3. rewrite mark3_set in F3; auto.
    + rewrite aset_ok by (rewrite length_upd; lia). cbn [bind]. rewrite n_gt by auto. cbn [bind].
      destruct (setc_ok P1 (N (bn u)) (bdof u) (bd u)) as (P2 & -> & L2 & H2). { rewrite LP. auto. } cbn [bind].
      eexists. split; [reflexivity|]. split; [now rewrite !length_upd|]. split; [lia|]. split; [|split].
      * intros g s Gm S3. rewrite H2, N_eqb, HP, val_snoc by auto. now rewrite (Nat.eqb_sym s).
      * intros g s Gm S3. rewrite fixedb_snoc, orb_assoc, <- HF by auto. unfold fx. rewrite nth_upd by (rewrite length_upd; lia). rewrite (Nat.eqb_sym g). destruct (Nat.eqb_spec (bn u) g) as [EG|NG]; cbn [andb].
        { subst g. rewrite mark_set3, mark_set by auto. now rewrite (Nat.eqb_sym s). } rewrite nth_upd by lia. destruct (Nat.eqb_spec g (bn u)); [congruence|]. now rewrite orb_false_r.
      * intros g s Gm S3 F3. unfold fx in F3. rewrite nth_upd in F3 by (rewrite length_upd; lia). destruct (Nat.eqb_spec g (bn u)) as [EG|NG].
        { subst g. rewrite mark3_set3 in F3. discriminate. } rewrite nth_upd in F3 by lia. destruct (Nat.eqb_spec g (bn u)); [congruence|].
        rewrite H2, N_eqb by auto. destruct (Nat.eqb_spec (bn u) g); [congruence|]. cbn [andb]. apply HZ; auto.
  - exists fixed, P. split; [exact EQ|exact H].
Qed.
Lemma finish_ok (Q : smat (m3 K) -> Prop) (dbc : list (bc K)) A (F U : svec K) D C : Forall inside dbc -> NoDup (map key dbc) -> holds A m D C -> length F = m -> length U = m -> Q A ->
  (forall A n k d, Q A -> nth_error A n = Some d -> Q (upd A n (Dc k (dhead d) (dnodes d) (dcap d)))) ->
  exists A' F' U' D', finish n2o dbc (A, F, U) = Ok (A', F', U') /\ Q A' /\ holds A' m D' C /\ length F' = m /\ length U' = m /\
    (forall g s, (g < m)%nat -> (s < 3)%nat -> vw F' (N g) s = if fixedb dbc g s then val dbc g s else vw F (N g) s) /\
    (forall g s, (g < m)%nat -> (s < 3)%nat -> vw U' (N g) s = if fixedb dbc g s then val dbc g s else vw U (N g) s) /\
    (forall g s t, (g < m)%nat -> (s < 3)%nat -> (t < 3)%nat -> get3 (D' (N g)) s t = if Nat.eqb s t && fixedb dbc g s then f1 else get3 (D (N g)) s t).
Proof.
  intros IN ND HA LF LU Q0 QS. unfold finish. match goal with |- context [each dbc ?f ?s0] => destruct (each_ok (fun pre '(A', F', U') => exists D', Q A' /\ holds A' m D' C /\ length F' = m /\ length U' = m /\
    (forall g s, (g < m)%nat -> (s < 3)%nat -> vw F' (N g) s = if fixedb pre g s then val pre g s else vw F (N g) s) /\
    (forall g s, (g < m)%nat -> (s < 3)%nat -> vw U' (N g) s = if fixedb pre g s then val pre g s else vw U (N g) s) /\
    (forall g s t, (g < m)%nat -> (s < 3)%nat -> (t < 3)%nat -> get3 (D' (N g)) s t = if Nat.eqb s t && fixedb pre g s then f1 else get3 (D (N g)) s t)) dbc f s0) as (((A' & F') & U') & EQ & D' & H) end.
  - exists D. cbn [fixedb]. repeat (split; [solve [auto]|]). intros. now rewrite andb_false_r.
  - intros pre u post ((A1 & F1) & U1) E (D1 & Q1 & H1 & L1 & L1' & RF & RU & RD). assert (IU : inside u) by (apply (in_mid inside pre u post); now rewrite <- E). destruct IU as (I1 & I2).
    assert (NK : ~ In (key u) (map key pre)) by (apply (nodup_mid pre u post); now rewrite <- E).
    pose proof (NR _ I1) as NB. rewrite n_gt by auto. cbn [bind].
    destruct (setc_ok U1 (N (bn u)) (bdof u) (bd u)) as (U2 & -> & L2 & H2). { rewrite L1'. auto. } cbn [bind].
    destruct (setc_ok F1 (N (bn u)) (bdof u) (bd u)) as (F2 & -> & L3 & H3). { rewrite L1. auto. } cbn [bind].
    destruct (proj2 H1 _ NB) as (d & Ed & Rd & Dk). rewrite (aget_some _ _ _ Ed). cbn [bind]. unfold setdiag. rewrite (aget_some _ _ _ Ed). cbn [bind].
    rewrite aset_ok by (rewrite (proj1 H1); auto). cbn [bind]. eexists. split; [reflexivity|].
    exists (updf D1 (N (bn u)) (set3 (dk d) (bdof u) (bdof u) f1)). split; [apply QS; auto|]. split.
    { assert (HU := holds_upd A1 m D1 C (N (bn u)) (Dc (set3 (dk d) (bdof u) (bdof u) f1) (dhead d) (dnodes d) (dcap d)) (C (N (bn u))) (set3 (dk d) (bdof u) (bdof u) f1) H1 NB Rd eq_refl).
      split; [apply HU|]. intros n Nn. destruct (proj2 HU n Nn) as (d' & E' & R' & K'). exists d'. split; auto. split; auto. unfold updf in R'. destruct (Nat.eqb_spec n (N (bn u))); [subst|]; auto. }
    split; [lia|]. split; [lia|].
    assert (VF : forall g s (V V2 V0 : svec K) , (g < m)%nat -> (s < 3)%nat -> vw V2 (N g) s = (if Nat.eqb (N g) (N (bn u)) && Nat.eqb s (bdof u) then bd u else vw V (N g) s) ->
      vw V (N g) s = (if fixedb pre g s then val pre g s else vw V0 (N g) s) -> vw V2 (N g) s = if fixedb (pre ++ [u]) g s then val (pre ++ [u]) g s else vw V0 (N g) s).
    { intros g s V V2 V0 Gm S3 EV EV'. rewrite EV, EV', N_eqb, fixedb_snoc, val_snoc by auto. rewrite (Nat.eqb_sym s).
      destruct (Nat.eqb (bn u) g && Nat.eqb (bdof u) s); [now rewrite orb_true_r|]. now rewrite orb_false_r. }
    split; [intros g s Gm S3; apply (VF g s F1); auto|]. split; [intros g s Gm S3; apply (VF g s U1); auto|].
    intros g s t Gm S3 T3. unfold updf. rewrite N_eqb by auto. rewrite fixedb_snoc. destruct (Nat.eqb_spec (bn u) g) as [EG|NG]; cbn [andb].
    + subst g. unfold set3. rewrite get_gen by auto. rewrite (Nat.eqb_sym s (bdof u)). rewrite Dk, RD by auto. destruct (Nat.eqb_spec (bdof u) s); cbn [andb].
      * subst s. rewrite (Nat.eqb_sym t). destruct (Nat.eqb_spec (bdof u) t); cbn [andb]; [now rewrite orb_true_r|auto].
      * now rewrite orb_false_r.
    + rewrite orb_false_r. apply RD; auto.
  - exists A', F', U', D'. split; [exact EQ|exact H].
Qed.
End Lists.
End Proofs.
