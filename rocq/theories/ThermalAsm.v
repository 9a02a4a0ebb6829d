(* What the constructor of the thermal model assembles. *)
From Coq Require Import List ZArith Lia Bool Arith Field QArith Qcanon.
From Verif Require Import Base LinBase LinDet GaussModel GaussProofs PropsGauss
  TransposeModel PropsTranspose CholModel CholProofs LdlProofs PropsChol ThermalModel ThermalProofs.
Import ListNotations.
Local Close Scope Qc_scope.
Local Close Scope Q_scope.
Local Open Scope nat_scope.

Section Asm.
Context {K : ofield}.
Local Open Scope lin_scope.
Add Field Kf22 : (f_th K).
Notation matrix := (nat -> nat -> K).

(* the band array a holds the matrix A *)
Definition bst (n w : nat) (a : list K) (A : matrix) : Prop := sto n (B_SIZE n w) (B_IDX n w) (blo w) a A.
Definition bdom (n w i j : nat) : Prop := i <= j < n /\ j <= i + w.
Lemma bdom_dom n w i j : bdom n w i j <-> dom n (blo w) i j.
Proof. unfold bdom, dom, blo. bcases; intuition lia. Qed.
Lemma bst_ext n w a A B : bst n w a A -> (forall i j, bdom n w i j -> A i j = B i j) -> bst n w a B.
Proof. intros M E. eapply sto_ext; [exact M|]. intros i j D. apply E. now apply bdom_dom. Qed.
Lemma wp_bget n w a A i j (Q : K -> Prop) E : bst n w a A -> bdom n w i j -> Q (A i j) ->
  wp (aget a (B_IDX n w i j)) Q E.
Proof. intros M D q. apply (wp_sget n (B_SIZE n w) (B_IDX n w) (blo w) a A); auto. now apply bdom_dom. Qed.
Lemma wp_bset n w a A i j x (Q : list K -> Prop) E : w <= n -> bst n w a A -> bdom n w i j ->
  (forall a', bst n w a' (updm A i j x) -> Q a') -> wp (aset a (B_IDX n w i j) x) Q E.
Proof.
  intros W M D q. apply (wp_sset n (B_SIZE n w) (B_IDX n w) (blo w) (band_in n w W) (band_inj n w W) a A); auto.
  now apply bdom_dom.
Qed.
Lemma wp_badd n w a A i j x (Q : list K -> Prop) E : w <= n -> bst n w a A -> bdom n w i j ->
  (forall a', bst n w a' (updm A i j (A i j + x)) -> Q a') -> wp (badd n w a i j x) Q E.
Proof.
  intros W M D q. unfold badd. apply wp_bind. eapply wp_bget; eauto. eapply wp_bset; eauto.
Qed.
Lemma bst_zero n w : w <= n -> bst n w (repeat f0 (B_SIZE n w)) (fun _ _ => f0).
Proof.
  intros W. split. { now rewrite repeat_length. }
  intros i j D. pose proof (band_in n w W i j D) as L.
  rewrite (nth_error_nth' _ f0) by (rewrite repeat_length; exact L).
  f_equal. apply nth_repeat.
Qed.

(* ---------- one element ---------- *)

(* what an element from node j adds to the matrix *)
Definition inwin (w j p : nat) : bool := (j <=? p) && (p <=? j + w).
Definition cont (w j : nat) (M : list (list Q)) (c : K) : matrix := fun p q =>
  if inwin w j p && inwin w j q then c * fq (qel M (p - j) (q - j)) else f0.

Lemma assemble_wp n w j Ke Fe d f KK FF A B E : w <= n -> j + w < n -> qsq w Ke -> qsq w Fe ->
  bst n w KK A -> bst n w FF B ->
  wp (assemble n w j Ke Fe d f (KK, FF))
    (fun '(KK, FF) => bst n w KK (fun p q => A p q + cont w j Ke d p q) /\
                      bst n w FF (fun p q => B p q + cont w j Fe f p q)) E.
Proof.
  intros W J SK SF MA MB. unfold assemble.
  set (G := fun (M : list (list Q)) (c : K) (X : matrix) (i k p q : nat) =>
    X p q + (if (p <? j + i) || ((p =? j + i) && (q <? j + k)) then cont w j M c p q else f0)).
  eapply wp_mono; [apply wp_for with (P := fun i '(KK, FF) =>
      bst n w KK (G Ke d A i i) /\ bst n w FF (G Fe f B i i)) | cbn beta].
  - lia.
  - split; (eapply bst_ext; [eassumption|]); intros p q D; unfold G, cont, inwin; bcases; ring.
  - intros i [K1 F1] Li [M1 M2].
    eapply wp_mono; [apply wp_for with (P := fun k '(KK, FF) =>
      bst n w KK (G Ke d A i k) /\ bst n w FF (G Fe f B i k)) | cbn beta].
    + lia.
    + auto.
    + intros k [K2 F2] Lk [M3 M4].
      rewrite (el2_ok w Ke i k SK) by lia. cbn [bind].
      assert (D : bdom n w (j + i) (j + k)) by (unfold bdom; lia).
      apply wp_bind. eapply wp_badd; [exact W|exact M3|exact D|]. intros K3 M5.
      rewrite (el2_ok w Fe i k SF) by lia. cbn [bind].
      apply wp_bind. eapply wp_badd; [exact W|exact M4|exact D|]. intros F3 M6.
      cbn [wp]. split.
      * eapply bst_ext; [exact M5|]. intros p q Dp. unfold updm, G, cont, inwin.
        bcases; subst; try ring.
        replace (j + i - j)%nat with i by lia. replace (j + k - j)%nat with k by lia. ring.
      * eapply bst_ext; [exact M6|]. intros p q Dp. unfold updm, G, cont, inwin.
        bcases; subst; try ring.
        replace (j + i - j)%nat with i by lia. replace (j + k - j)%nat with k by lia. ring.
    + intros [K2 F2] [M3 M4]. split; (eapply bst_ext; [eassumption|]); intros p q [D1 D2];
        unfold G, cont, inwin; bcases; ring.
  - intros [K1 F1] [M1 M2]. split; (eapply bst_ext; [eassumption|]); intros p q [D1 D2];
      unfold G, cont, inwin; bcases; ring.
Qed.

Lemma element_wp n w j d f KK FF A B : w <= n -> j + w < n -> bst n w KK A -> bst n w FF B ->
  wp (element n w j d f (KK, FF))
    (fun '(KK, FF) => order w /\ bst n w KK (fun p q => A p q + cont w j (KeM w) d p q) /\
                      bst n w FF (fun p q => B p q + cont w j (FeM w) f p q))
    (fun e => e = InvalidArgument /\ ~ order w).
Proof.
  intros W J MA MB.
  assert (Go : order w -> wp (assemble n w j (KeM w) (FeM w) d f (KK, FF))
    (fun '(KK, FF) => order w /\ bst n w KK (fun p q => A p q + cont w j (KeM w) d p q) /\
                      bst n w FF (fun p q => B p q + cont w j (FeM w) f p q))
    (fun e => e = InvalidArgument /\ ~ order w)).
  { intros O. eapply wp_mono; [apply (assemble_wp n w j _ _ d f KK FF A B); auto|].
    - now apply Ke_sq. - now apply Fe_sq. - intros [K1 F1] H; auto. }
  unfold element. destruct w as [|[|[|[|[|w]]]]]; try (split; auto; unfold order; lia);
    apply Go; unfold order; auto.
Qed.

(* ---------- the layers ---------- *)

(* the depth of the bottom of layer l *)
Definition bot (nd lh : list K) (l : nat) : K := nth 0 nd f0 + sumr 0 (l + 1)%nat (fun i => nth i lh f0).
Definition top (nd lh : list K) (l : nat) : K := nth 0 nd f0 + sumr 0 l (fun i => nth i lh f0).
Lemma bot_top nd lh l : bot nd lh l - nth l lh f0 = top nd lh l.
Proof. unfold bot, top. rewrite Nat.add_1_r, sumr_S by lia. ring. Qed.
Lemma top_S nd lh l : top nd lh (S l) = bot nd lh l.
Proof. unfold bot, top. now rewrite Nat.add_1_r. Qed.

Definition thick (nl : nat) (lh : list K) : Prop := forall i, i < nl -> fltb f0 (nth i lh f0) = true.
Lemma bot_mono nl nd lh i j : thick nl lh -> i <= j -> j < nl -> fle (bot nd lh i) (bot nd lh j) = true.
Proof.
  intros T L. induction L; intros J. { apply fle_refl. }
  eapply fle_trans; [apply IHL; lia|]. apply fle_sub.
  replace (bot nd lh (S m) - bot nd lh m) with (nth (S m) lh f0).
  { apply pos_le, T. lia. }
  unfold bot. rewrite !Nat.add_1_r, (sumr_S 0 (S m)) by lia. ring.
Qed.

Lemma fle_or_lt (x y : K) : fle x y = true \/ fltb y x = true.
Proof. unfold fltb. destruct (fle x y); auto. Qed.
Lemma aget_nth (l : list K) i : i < length l -> aget l i = Ok (nth i l f0).
Proof. intros L. apply aget_ok. now apply nth_error_nth'. Qed.

Lemma bottoms_wp nl lh nd : length lh = nl -> 1 <= length nd ->
  wp (bottoms nl lh nd) (fun lb => thick nl lh /\ vec nl lb (bot nd lh))
     (fun e => e = OutOfRange /\ exists i, i < nl /\ fle (nth i lh f0) f0 = true).
Proof.
  intros Ll Ln. unfold bottoms.
  eapply wp_mono; [apply wp_for with (P := fun i lb =>
      (forall k, k < i -> fltb f0 (nth k lh f0) = true) /\ length lb = nl /\
      forall k, k < i -> nth_error lb k = Some (bot nd lh k)) | cbn beta].
  - lia.
  - repeat split; try lia. now rewrite repeat_length.
  - intros i lb Li (T & L & V). rewrite aget_nth by lia. cbn [bind].
    destruct (fle (nth i lh f0) f0) eqn:Eh. { cbn [wp]. split; eauto. exists i. split; auto. lia. }
    assert (X : (if i =? 0 then aget nd 0 else aget lb (i - 1)) = Ok (top nd lh i)).
    { destruct (Nat.eqb_spec i 0) as [->|Ni].
      - rewrite aget_nth by lia. f_equal. unfold top. rewrite sumr_nil by lia. ring.
      - apply aget_ok. rewrite V by lia. f_equal. rewrite <- top_S. f_equal. lia. }
    rewrite X. cbn [bind]. rewrite aset_ok by lia. cbn [wp]. split; [|split].
    + intros k Lk. destruct (Nat.eq_dec k i) as [->|]; [|apply T; lia]. unfold fltb. now rewrite Eh.
    + now rewrite length_upd.
    + intros k Lk. destruct (Nat.eq_dec k i) as [->|N].
      * rewrite nth_error_upd_eq by lia. f_equal. unfold bot, top. rewrite Nat.add_1_r, sumr_S by lia. ring.
      * rewrite nth_error_upd_ne by auto. apply V. lia.
  - intros lb (T & L & V). split; [intros i Li; apply T; lia|]. split; auto.
Qed.

(* the search ends at the first layer from il whose bottom is below x *)
Lemma find_layer_wp nl lb (Lb : nat -> K) x E : vec nl lb Lb -> forall fuel il, nl < fuel + il ->
  (exists k, il <= k < nl /\ fltb x (Lb k) = true) ->
  wp (find_layer fuel lb x il) (fun l => il <= l < nl /\ fltb x (Lb l) = true /\
     forall k, il <= k < l -> fle (Lb k) x = true) E.
Proof.
  intros V. induction fuel; intros il F (k & Lk & Bk). { lia. }
  cbn [find_layer]. apply wp_bind. apply (wp_vget _ _ V); [lia|].
  destruct (fle (Lb il) x) eqn:Ex.
  - eapply wp_mono; [apply IHfuel; [lia|]|].
    + exists k. split; auto. destruct (Nat.eq_dec k il) as [->|]; [|lia].
      unfold fltb in Bk. rewrite Ex in Bk. discriminate.
    + intros l (L & B & P). split; [lia|]. split; auto. intros k' Lk'.
      destruct (Nat.eq_dec k' il) as [->|]; auto. apply P. lia.
  - cbn [wp]. split; [lia|]. split. { unfold fltb. now rewrite Ex. } intros; lia.
Qed.
(* otherwise it runs off the end of the array *)
Lemma find_layer_off nl lb (Lb : nat -> K) x : vec nl lb Lb -> forall fuel il, nl < fuel + il -> il <= nl ->
  (forall k, il <= k < nl -> fle (Lb k) x = true) -> find_layer fuel lb x il = UB OutOfBounds.
Proof.
  intros V. induction fuel; intros il F L H. { lia. }
  cbn [find_layer]. destruct (Nat.eq_dec il nl) as [->|N].
  - destruct V as [Lv _]. unfold aget. rewrite (proj2 (nth_error_None lb nl)) by lia. auto.
  - rewrite (vec_get nl lb Lb) by (auto; lia). cbn [bind]. rewrite H by lia. apply IHfuel; try lia.
    intros. apply H; lia.
Qed.

(* ---------- all elements ---------- *)

Definition ndv (nd : list K) (i : nat) : K := nth i nd f0.
(* element e lies in layer l *)
Definition in_layer (nd lh : list K) (w e l : nat) : Prop :=
  fle (top nd lh l) (ndv nd (e * w)) = true /\ fle (ndv nd (e * w + w)) (bot nd lh l) = true.
Definition len (nd : list K) (w e : nat) : K := ndv nd (e * w + w) - ndv nd (e * w).
Definition dcoef (ld nd : list K) (w : nat) (lay : nat -> nat) (e : nat) : K :=
  nth (lay e) ld f0 * (f1 + f1) / len nd w e.
Definition fcoef (nd : list K) (w e : nat) : K := len nd w e / (f1 + f1).
(* the sum of the element matrices *)
Definition asm (w m : nat) (M : list (list Q)) (c : nat -> K) : matrix := fun p q =>
  sumr 0 m (fun e => cont w (e * w) M (c e) p q).
(* the ends of the elements go down *)
Definition sorted (n w : nat) (nd : list K) : Prop :=
  forall e, (e * w + w < n)%nat -> fle (ndv nd (e * w)) (ndv nd (e * w + w)) = true.
Definition aligned (nl n w : nat) (nd lh : list K) : Prop :=
  forall e, (e * w + w < n)%nat -> exists l, l < nl /\ in_layer nd lh w e l.
(* every element starts above the bottom of the last layer *)
Definition above (nl n w : nat) (nd lh : list K) : Prop :=
  1 <= nl /\ forall e, (e * w + w < n)%nat -> fltb (ndv nd (e * w)) (bot nd lh (nl - 1)) = true.
Definition nonempty (n w : nat) (nd : list K) : Prop :=
  forall e, (e * w + w < n)%nat -> ndv nd (e * w + w) <> ndv nd (e * w).

Lemma elements_wp nl lh ld n w nd lb m : n = (m * w + 1)%nat -> 1 <= w -> 1 <= m ->
  length lh = nl -> length ld = nl -> length nd = n -> thick nl lh -> vec nl lb (bot nd lh) ->
  above nl n w nd lh -> nonempty n w nd ->
  wp (elements nl lh ld n w nd lb)
    (fun '(KK, FF) => order w /\ exists lay,
       (forall e, e < m -> lay e < nl /\ in_layer nd lh w e (lay e)) /\
       bst n w KK (asm w m (KeM w) (dcoef ld nd w lay)) /\ bst n w FF (asm w m (FeM w) (fcoef nd w)))
    (fun e => e = InvalidArgument /\ (~ order w \/ (sorted n w nd -> nonempty n w nd -> ~ aligned nl n w nd lh))).
Proof.
  intros En W Hm Lh Ll Ln T V (N1 & Ab) Ne. unfold elements.
  assert (Wn : w <= n) by nia.
  assert (In : forall e, e < m -> (e * w + w < n)%nat) by (intros; nia).
  replace ((n - 1) / w)%nat with m. 2:{ rewrite En, Nat.add_sub, Nat.div_mul by lia. auto. }
  apply wp_seq with (P := fun '(il, (KK, FF)) => order w /\ exists lay,
       (forall e, e < m -> lay e < nl /\ in_layer nd lh w e (lay e)) /\
       bst n w KK (asm w m (KeM w) (dcoef ld nd w lay)) /\ bst n w FF (asm w m (FeM w) (fcoef nd w))).
  2:{ intros [il [KK FF]] H. exact H. }
  set (P := fun (e : nat) (s : nat * (list K * list K)) => let '(il, (KK, FF)) := s in
       il < nl /\ (sorted n w nd -> e < m -> forall k, k < il -> fle (bot nd lh k) (ndv nd (e * w)) = true) /\
       (1 <= e -> order w) /\ exists lay,
       (forall t, t < e -> lay t < nl /\ in_layer nd lh w t (lay t)) /\
       bst n w KK (asm w e (KeM w) (dcoef ld nd w lay)) /\ bst n w FF (asm w e (FeM w) (fcoef nd w))).
  eapply wp_mono; [apply wp_for with (P := P) | ].
  - lia.
  - cbn. split; [lia|]. split; [intros; lia|]. split; [lia|]. exists (fun _ => 0).
    split; [lia|]. split; apply bst_zero; auto.
  - intros e [il [KK FF]] Le (Lil & So & Or & lay & La & MK & MF).
    specialize (In e ltac:(lia)). pose proof (Ab e In) as Abe.
    rewrite (aget_nth nd) by lia. cbn [bind]. fold (ndv nd (e * w)).
    eapply wp_seq. { apply (find_layer_wp nl lb (bot nd lh) (ndv nd (e * w)) _ V).
      - lia. - exists (nl - 1)%nat. split; [lia|]. exact Abe. }
    intros l (Ll' & Bl & Pl). cbn beta.
    rewrite (vec_get nl lb (bot nd lh)) by (auto; lia). cbn [bind].
    rewrite (aget_nth lh) by lia. cbn [bind]. rewrite bot_top.
    rewrite (aget_nth nd) by lia. cbn [bind]. fold (ndv nd (e * w + w)).
    destruct (fltb (ndv nd (e * w)) (top nd lh l) || fltb (bot nd lh l) (ndv nd (e * w + w))) eqn:Bad.
    { cbn [wp]. split; auto. right. intros S0 N0 Al. destruct (Al e In) as (l' & L2 & I1 & I2).
      assert (Fst : forall k, k < l -> fle (bot nd lh k) (ndv nd (e * w)) = true).
      { intros k Lk. destruct (Nat.lt_ge_cases k il); [apply So; auto; lia|apply Pl; lia]. }
      assert (l' = l).
      { destruct (Nat.lt_total l' l) as [H|[H|H]]; auto; exfalso.
        - specialize (Fst l' H). pose proof (S0 e In) as S1. apply (N0 e In).
          apply fle_antisym; auto. eapply fle_trans; eauto.
        - assert (X : fle (bot nd lh l) (top nd lh l') = true).
          { destruct l' as [|l']; [lia|]. rewrite top_S. apply (bot_mono nl); auto; lia. }
          unfold fltb in Bl. apply negb_true_iff in Bl.
          rewrite (fle_trans _ _ _ _ X I1) in Bl. discriminate. }
      subst l'. unfold fltb in Bad. rewrite I1, I2 in Bad. discriminate. }
    apply orb_false_iff in Bad. destruct Bad as [B1 B2]. unfold fltb in B1, B2.
    apply negb_false_iff in B1, B2.
    rewrite (aget_nth ld) by lia. cbn [bind].
    assert (Nz : ndv nd (e * w + w) - ndv nd (e * w) <> f0).
    { intros Z. apply (Ne e In). replace (ndv nd (e * w + w)) with (ndv nd (e * w + w) - ndv nd (e * w) + ndv nd (e * w)) by ring.
      rewrite Z. ring. }
    rewrite divc_ok by exact Nz. cbn [bind].
    rewrite divc_ok by apply f2_nz. cbn [bind].
    eapply wp_seq.
    { eapply wp_conseq; [apply (element_wp n w (e * w) (nth l ld f0 * (f1 + f1) / (ndv nd (e * w + w) - ndv nd (e * w)))
         ((ndv nd (e * w + w) - ndv nd (e * w)) / (f1 + f1)) KK FF _ _ Wn In MK MF)| |].
      - intros a H; exact H.
      - intros x [-> O]. auto. }
    intros [K2 F2] (O & M2 & M3). cbn [wp]. unfold P. split; [lia|]. split; [|split; auto].
    + intros S0 Le1 k Lk. eapply fle_trans with (y := ndv nd (e * w)).
      * destruct (Nat.lt_ge_cases k il); [apply So; auto; lia|apply Pl; lia].
      * replace ((e + 1) * w)%nat with (e * w + w)%nat by lia. now apply S0.
    + exists (fun t => if t =? e then l else lay t). split; [|split].
      * intros t Lt. destruct (Nat.eqb_spec t e) as [->|]; [|apply La; lia].
        split; [lia|]. split; auto.
      * eapply bst_ext; [exact M2|]. intros p q D. unfold asm. rewrite Nat.add_1_r, sumr_S by lia. f_equal.
        -- apply sumr_ext. intros t Lt. unfold dcoef. bcases. auto.
        -- unfold dcoef. rewrite Nat.eqb_refl. auto.
      * eapply bst_ext; [exact M3|]. intros p q D. unfold asm. rewrite Nat.add_1_r, sumr_S by lia. auto.
  - intros [il [KK FF]] (_ & _ & Or & lay & La & MK & MF). split; [apply Or; lia|]. exists lay. auto.
Qed.

(* ---------- combining and stripping ---------- *)

Lemma combine_wp n w dt KK FF A B E : bst n w KK A -> bst n w FF B -> dt <> f0 ->
  wp (combine n w dt KK FF) (fun KK => bst n w KK (fun p q => A p q + (f1 + f1) * B p q / dt)) E.
Proof.
  intros [LA HA] [LB HB] Nd. unfold combine.
  eapply wp_mono; [apply wp_for with (P := fun i k => vec (B_SIZE n w) k
     (fun t => nth t KK f0 + if t <? i then (f1 + f1) * nth t FF f0 / dt else f0)) | cbn beta].
  - lia.
  - eapply vec_ext; [apply vec_of; auto|]. intros i Li. cbn. ring.
  - intros i k Li V. apply wp_bind. apply (wp_vget _ _ V); [lia|].
    rewrite (aget_nth FF) by lia. cbn [bind]. rewrite divc_ok by auto. cbn [bind].
    eapply wp_vset; [exact V|lia|]. intros k' V'. eapply vec_ext; [exact V'|]. intros t Lt. unfold updv.
    bcases; subst; auto. ring.
  - intros k [L V]. split; auto. intros i j D.
    assert (Li : B_IDX n w i j < B_SIZE n w).
    { specialize (HA i j D). rewrite <- LA. apply nth_error_Some. congruence. }
    rewrite V by auto. f_equal. bcases. specialize (HA i j D). specialize (HB i j D).
    apply nth_error_nth with (d := f0) in HA, HB. now rewrite HA, HB.
Qed.

Lemma strip_top_wp n w KK Kt A E : 1 <= w -> w + 1 <= n -> bst n w KK A -> length Kt = n -> Kt = repeat f0 n ->
  wp (strip_top n w KK Kt) (fun '(KK, Kt) =>
    bst n w KK (fun p q => if p =? 0 then if q =? 0 then f1 else f0 else A p q) /\
    vec n Kt (fun i => if i <=? w then A 0 i else f0)) E.
Proof.
  intros W Wn M Lk Ek. unfold strip_top.
  eapply wp_mono; [apply wp_for with (P := fun i '(KK, Kt) =>
    bst n w KK (fun p q => if (p =? 0) && (q <? i) then if q =? 0 then f1 else f0 else A p q) /\
    vec n Kt (fun t => if t <? i then A 0 t else f0)) | cbn beta].
  - lia.
  - split.
    + eapply bst_ext; [exact M|]. intros. bcases; auto.
    + subst Kt. split; [now rewrite repeat_length|]. intros i Li.
      rewrite (nth_error_nth' _ f0) by (rewrite repeat_length; lia). f_equal. apply nth_repeat.
  - intros i [K1 T1] Li [M1 V1].
    assert (D : bdom n w 0 i) by (unfold bdom; lia).
    apply wp_bind. eapply wp_bget; [exact M1|exact D|]. cbn beta.
    apply wp_bind. eapply wp_vset; [exact V1|lia|]. intros T2 V2.
    apply wp_bind. eapply wp_bset; [|exact M1|exact D|]. { lia. } intros K2 M2. cbn [wp]. split.
    + eapply bst_ext; [exact M2|]. intros p q Dp. unfold updm. bcases; subst; auto; lia.
    + eapply vec_ext; [exact V2|]. intros t Lt. unfold updv. bcases; subst; auto; lia.
  - intros [K1 T1] [M1 V1]. split.
    + eapply bst_ext; [exact M1|]. intros p q [D1 D2]. bcases; auto; lia.
    + eapply vec_ext; [exact V1|]. intros t Lt. bcases; auto.
Qed.

Lemma strip_bottom_wp n w KK Kb A E : 1 <= w -> w + 1 <= n -> bst n w KK A -> Kb = repeat f0 n ->
  wp (strip_bottom n w KK Kb) (fun '(KK, Kb) =>
    bst n w KK (fun p q => if q =? n - 1 then if p =? n - 1 then f1 else f0 else A p q) /\
    vec n Kb (fun i => if n - w - 1 <=? i then A i (n - 1)%nat else f0)) E.
Proof.
  intros W Wn M Ek. unfold strip_bottom.
  eapply wp_mono; [apply wp_for with (P := fun i '(KK, Kb) =>
    bst n w KK (fun p q => if (q =? n - 1) && (p <? i) then if p =? n - 1 then f1 else f0 else A p q) /\
    vec n Kb (fun t => if (n - w - 1 <=? t) && (t <? i) then A t (n - 1)%nat else f0)) | cbn beta].
  - lia.
  - split.
    + eapply bst_ext; [exact M|]. intros p q D. unfold bdom in D. bcases; auto.
    + subst Kb. split; [now rewrite repeat_length|]. intros i Li.
      rewrite (nth_error_nth' _ f0) by (rewrite repeat_length; lia).
      rewrite nth_repeat. f_equal. bcases; auto.
  - intros i [K1 T1] Li [M1 V1].
    assert (D : bdom n w i (n - 1)%nat) by (unfold bdom; lia).
    apply wp_bind. eapply wp_bget; [exact M1|exact D|]. cbn beta.
    apply wp_bind. eapply wp_vset; [exact V1|lia|]. intros T2 V2.
    apply wp_bind. eapply wp_bset; [|exact M1|exact D|]. { lia. } intros K2 M2. cbn [wp]. split.
    + eapply bst_ext; [exact M2|]. intros p q Dp. unfold updm. bcases; subst; auto; lia.
    + eapply vec_ext; [exact V2|]. intros t Lt. unfold updv. bcases; subst; auto; lia.
  - intros [K1 T1] [M1 V1]. split.
    + eapply bst_ext; [exact M1|]. intros p q [D1 D2]. bcases; auto; lia.
    + eapply vec_ext; [exact V1|]. intros t Lt. bcases; auto.
Qed.
End Asm.
