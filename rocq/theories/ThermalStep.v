(* What one step of the thermal model solves, and when the constructor succeeds. *)
From Coq Require Import List ZArith Lia Bool Arith Field QArith Qcanon.
From Verif Require Import Base LinBase LinDet GaussModel GaussProofs PropsGauss LuModel LuProofs PropsLu
  TransposeModel PropsTranspose CholModel CholProofs LdlProofs PropsChol ThermalModel ThermalProofs ThermalAsm.
Import ListNotations.
Local Close Scope Qc_scope.
Local Close Scope Q_scope.
Local Open Scope nat_scope.

Section Step.
Context {K : ofield}.
Local Open Scope lin_scope.
Add Field Kf23 : (f_th K).
Notation matrix := (nat -> nat -> K).

(* ---------- sums over the nodes of an element ---------- *)

Lemma sumr_shift j k (g : nat -> K) : sumr j (j + k)%nat g = sumr 0 k (fun i => g (j + i)%nat).
Proof.
  induction k. { rewrite !sumr_nil by lia. auto. }
  replace (j + S k)%nat with (S (j + k)) by lia. rewrite !sumr_S by lia. now rewrite IHk.
Qed.
Lemma sumr_win n w j (g : nat -> K) : j + w < n ->
  sumr 0 n (fun q => if inwin w j q then g q else f0) = sumr 0 (w + 1)%nat (fun k => g (j + k)%nat).
Proof.
  intros L. rewrite (sumr_split 0 j n), (sumr_split j (j + (w + 1))%nat n) by lia.
  rewrite (sumr_zero 0 j), (sumr_zero (j + (w + 1))%nat n).
  - rewrite <- sumr_shift. rewrite (sumr_ext j (j + (w + 1))%nat _ g). { ring. }
    intros k Lk. unfold inwin. bcases. auto.
  - intros k Lk. unfold inwin. bcases. auto.
  - intros k Lk. unfold inwin. bcases. auto.
Qed.
Lemma cont_row n w j M c p (v : nat -> K) : j + w < n ->
  sumr 0 n (fun q => cont w j M c p q * v q) =
  if inwin w j p then c * sumr 0 (w + 1)%nat (fun k => fq (qel M (p - j) k) * v (j + k)%nat) else f0.
Proof.
  intros L. destruct (inwin w j p) eqn:Ep.
  - rewrite <- sumr_scale.
    transitivity (sumr 0 n (fun q => if inwin w j q then c * (fq (qel M (p - j) (q - j)) * v q) else f0)).
    + apply sumr_ext. intros q Lq. unfold cont. rewrite Ep. cbn [andb]. destruct (inwin w j q); ring.
    + rewrite sumr_win by auto.
      apply sumr_ext. intros k Lk. replace (j + k - j)%nat with k by lia. auto.
  - apply sumr_zero. intros q Lq. unfold cont. rewrite Ep. cbn [andb]. ring.
Qed.
Lemma cont_quad n w j M c (z : nat -> K) : j + w < n ->
  sumr 0 n (fun p => sumr 0 n (fun q => z p * cont w j M c p q * z q)) = c * quad w M (fun i => z (j + i)%nat).
Proof.
  intros L.
  transitivity (sumr 0 n (fun p => if inwin w j p then
     z p * (c * sumr 0 (w + 1)%nat (fun k => fq (qel M (p - j) k) * z (j + k)%nat)) else f0)).
  - apply sumr_ext. intros p Lp.
    transitivity (z p * sumr 0 n (fun q => cont w j M c p q * z q)).
    { rewrite <- sumr_scale. apply sumr_ext. intros. ring. }
    rewrite cont_row by auto. destruct (inwin w j p); ring.
  - rewrite sumr_win by auto. unfold quad. rewrite <- sumr_scale. apply sumr_ext. intros i Li.
    replace (j + i - j)%nat with i by lia.
    rewrite <- !sumr_scale. apply sumr_ext. intros. ring.
Qed.

(* ---------- the assembled matrices ---------- *)

Lemma asm_row n w m M c p (v : nat -> K) : n = (m * w + 1)%nat ->
  sumr 0 n (fun q => asm w m M c p q * v q) =
  sumr 0 m (fun e => if inwin w (e * w) p then
    c e * sumr 0 (w + 1)%nat (fun k => fq (qel M (p - e * w)%nat k) * v (e * w + k)%nat) else f0).
Proof.
  intros En. unfold asm.
  transitivity (sumr 0 n (fun q => sumr 0 m (fun e => cont w (e * w) M (c e) p q * v q))).
  { apply sumr_ext. intros. now rewrite sumr_scale_r. }
  rewrite sumr_swap. apply sumr_ext. intros e Le. apply cont_row. nia.
Qed.
Lemma asm_quad n w m M c (z : nat -> K) : n = (m * w + 1)%nat ->
  sumr 0 n (fun p => sumr 0 n (fun q => z p * asm w m M c p q * z q)) =
  sumr 0 m (fun e => c e * quad w M (fun i => z (e * w + i)%nat)).
Proof.
  intros En.
  transitivity (sumr 0 n (fun p => sumr 0 m (fun e => sumr 0 n (fun q => z p * cont w (e * w) M (c e) p q * z q)))).
  - apply sumr_ext. intros p Lp. rewrite sumr_swap. apply sumr_ext. intros q Lq. unfold asm.
    now rewrite <- sumr_scale, <- sumr_scale_r.
  - rewrite sumr_swap. apply sumr_ext. intros e Le. apply cont_quad. nia.
Qed.
Lemma asm_rows0 n w m (c : nat -> K) p : order w -> n = (m * w + 1)%nat ->
  sumr 0 n (fun q => asm w m (KeM w) c p q) = f0.
Proof.
  intros O En. transitivity (sumr 0 n (fun q => asm w m (KeM w) c p q * f1)).
  { apply sumr_ext. intros. ring. }
  rewrite (asm_row n w m (KeM w) c p (fun _ => f1)) by auto.
  apply sumr_zero. intros e Le. destruct (inwin w (e * w) p) eqn:Ep; auto.
  rewrite (sumr_ext _ _ _ (fun k => fq (qel (KeM w) (p - e * w)%nat k))). 2:{ intros; ring. }
  rewrite Ke_rows; auto. { ring. } unfold inwin in Ep. apply andb_true_iff in Ep. destruct Ep as [E1 E2].
  apply Nat.leb_le in E1, E2. lia.
Qed.
Lemma cont_sym w j M (c : K) : (forall i k, i <= w -> k <= w -> @fq K (qel M i k) = fq (qel M k i)) ->
  forall p q, cont w j M c p q = cont w j M c q p.
Proof.
  intros S p q. unfold cont. rewrite (andb_comm (inwin w j q)).
  destruct (inwin w j p) eqn:E1, (inwin w j q) eqn:E2; cbn [andb]; auto.
  unfold inwin in *. apply andb_true_iff in E1, E2. rewrite !Nat.leb_le in E1, E2. rewrite S by lia. auto.
Qed.
Lemma asm_sym w m M (c : nat -> K) : (forall i k, i <= w -> k <= w -> @fq K (qel M i k) = fq (qel M k i)) ->
  forall p q, asm w m M c p q = asm w m M c q p.
Proof. intros S p q. apply sumr_ext. intros e Le. now apply cont_sym. Qed.
Lemma asm_band w m M (c : nat -> K) p q : p + w < q -> asm w m M c p q = f0.
Proof.
  intros L. apply sumr_zero. intros e Le. unfold cont, inwin. bcases; auto.
Qed.

(* the matrix of the left hand side, and what is left of it when the first and the last
   temperature are given *)
Definition lhs (Kg Fg : matrix) (dt : K) : matrix := fun p q => Kg p q + (f1 + f1) * Fg p q / dt.
Definition strip (n : nat) (A : matrix) : matrix := fun p q =>
  if (p =? 0) || (p =? n - 1) || (q =? 0) || (q =? n - 1) then if p =? q then f1 else f0 else A p q.

Definition symb (w : nat) (A : matrix) : Prop :=
  (forall p q, A p q = A q p) /\ forall p q, p + w < q -> A p q = f0.
Lemma asm_symb_K w m (c : nat -> K) : order w -> symb w (asm w m (KeM w) c).
Proof. intros O. split. { apply asm_sym. now apply Ke_sym. } intros. now apply asm_band. Qed.
Lemma asm_symb_F w m (c : nat -> K) : order w -> symb w (asm w m (FeM w) c).
Proof. intros O. split. { apply asm_sym. now apply Fe_sym. } intros. now apply asm_band. Qed.
Lemma lhs_symb w Kg Fg dt : dt <> f0 -> symb w Kg -> symb w Fg -> symb w (lhs Kg Fg dt).
Proof.
  intros N [A B] [C D]. unfold lhs. split; intros p q. { now rewrite A, C. }
  intros L. rewrite B, D by auto. field. auto.
Qed.
Lemma strip_symb n w A : symb w A -> symb w (strip n A).
Proof.
  intros [S B]. unfold strip. split; intros p q.
  - rewrite (S p q). rewrite (Nat.eqb_sym p q).
    destruct (p =? 0), (p =? n - 1), (q =? 0), (q =? n - 1); cbn; auto.
  - intros L. rewrite B by auto. replace (p =? q) with false by (symmetry; apply Nat.eqb_neq; lia).
    destruct ((p =? 0) || (p =? n - 1) || (q =? 0) || (q =? n - 1)); auto.
Qed.
Lemma symb_full w A p q : symb w A -> full (blo w) A p q = A p q.
Proof.
  intros [S B]. unfold full, blo. destruct (Nat.le_ge_cases p q).
  - rewrite Nat.max_r, Nat.min_l by lia. bcases; auto; symmetry; apply B; lia.
  - rewrite Nat.max_l, Nat.min_r by lia. rewrite (S p q). bcases; auto; symmetry; apply B; lia.
Qed.

(* the quadratic form of the stripped matrix *)
Definition inner (n : nat) (y : nat -> K) : nat -> K := fun i => if (i =? 0) || (i =? n - 1) then f0 else y i.
Lemma sumr_ends n (f : nat -> K) : 2 <= n -> sumr 0 n f = f 0 + sumr 1 (n - 1)%nat f + f (n - 1)%nat.
Proof.
  intros L. destruct n as [|n]; [lia|]. replace (S n - 1)%nat with n by lia.
  rewrite sumr_S, sumr_first by lia. ring.
Qed.
Lemma strip_quad n A (y : nat -> K) : 2 <= n ->
  sumr 0 n (fun p => sumr 0 n (fun q => y p * strip n A p q * y q)) =
  y 0 * y 0 + y (n - 1)%nat * y (n - 1)%nat +
  sumr 0 n (fun p => sumr 0 n (fun q => inner n y p * A p q * inner n y q)).
Proof.
  intros L. rewrite !(sumr_ends n (fun p => sumr 0 n _)) by auto.
  assert (E : forall p, (p = 0 \/ p = n - 1)%nat -> sumr 0 n (fun q => inner n y p * A p q * inner n y q) = f0).
  { intros p P. apply sumr_zero. intros q Lq. unfold inner at 1.
    replace ((p =? 0) || (p =? n - 1)) with true by (symmetry; destruct P; subst; bcases; auto). ring. }
  rewrite !E by auto.
  assert (F : forall p, p < n -> (p = 0 \/ p = n - 1)%nat -> sumr 0 n (fun q => y p * strip n A p q * y q) = y p * y p).
  { intros p Lp P. rewrite (sumr_one 0 n _ p); try lia.
    - unfold strip. rewrite Nat.eqb_refl.
      replace ((p =? 0) || (p =? n - 1)) with true by (symmetry; destruct P; subst; bcases; auto). cbn. ring.
    - intros q Lq Nq. unfold strip. replace (p =? q) with false by (symmetry; apply Nat.eqb_neq; auto).
      replace ((p =? 0) || (p =? n - 1)) with true by (symmetry; destruct P; subst; bcases; auto). cbn. ring. }
  rewrite !F by (auto; lia).
  rewrite (sumr_ext 1 (n - 1)%nat (fun p => sumr 0 n (fun q => y p * strip n A p q * y q))
     (fun p => sumr 0 n (fun q => inner n y p * A p q * inner n y q))). { ring. }
  intros p Lp. apply sumr_ext. intros q Lq. unfold strip, inner. bcases; ring.
Qed.

Lemma strip_pd n w m dt (d f : nat -> K) : order w -> n = (m * w + 1)%nat -> 1 <= m ->
  (forall e, e < m -> fle f0 (d e) = true) -> (forall e, e < m -> fltb f0 (f e) = true) -> fltb f0 dt = true ->
  positive_definite n (strip n (lhs (asm w m (KeM w) d) (asm w m (FeM w) f) dt)).
Proof.
  intros O En Hm Hd Hf Ht y (i & Li & Ny).
  assert (W : 1 <= w) by (destruct O as [->|[->| ->]]; lia).
  assert (N2 : 2 <= n) by nia.
  rewrite strip_quad by auto.
  set (z := inner n y).
  assert (Q : sumr 0 n (fun p => sumr 0 n (fun q => z p * lhs (asm w m (KeM w) d) (asm w m (FeM w) f) dt p q * z q)) =
    sumr 0 m (fun e => d e * quad w (KeM w) (fun i => z (e * w + i)%nat)) +
    (f1 + f1) / dt * sumr 0 m (fun e => f e * quad w (FeM w) (fun i => z (e * w + i)%nat))).
  { rewrite <- !(asm_quad n) by auto. rewrite <- sumr_scale, <- sumr_add. apply sumr_ext. intros p Lp.
    rewrite <- sumr_scale, <- sumr_add. apply sumr_ext. intros q Lq. unfold lhs. field. now apply fpos_nz. }
  rewrite Q. clear Q.
  set (SK := sumr 0 m (fun e => d e * quad w (KeM w) (fun i => z (e * w + i)%nat))).
  set (SF := sumr 0 m (fun e => f e * quad w (FeM w) (fun i => z (e * w + i)%nat))).
  assert (PK : fle f0 SK = true).
  { apply sumr_nonneg. intros e Le. apply fle_mul; [apply Hd; lia|]. now apply Ke_nonneg. }
  assert (TF : forall e, 0 <= e < m -> fle f0 (f e * quad w (FeM w) (fun i => z (e * w + i)%nat)) = true).
  { intros e Le. apply fle_mul; [apply pos_le, Hf; lia|]. now apply Fe_nonneg. }
  assert (PF : fle f0 SF = true) by (apply sumr_nonneg; auto).
  assert (C2 : fltb f0 ((f1 + f1) / dt) = true) by (apply fdiv_pos; auto; apply f2_pos).
  assert (PCF : fle f0 ((f1 + f1) / dt * SF) = true) by (apply fle_mul; auto; now apply pos_le).
  assert (P0 := fsqr_nonneg (y 0)). assert (P1 := fsqr_nonneg (y (n - 1)%nat)).
  apply fltb_spec. split.
  - repeat apply fadd_nonneg; auto.
  - intros E. symmetry in E. apply fadd_0_nonneg in E.
    2:{ now apply fadd_nonneg. } 2:{ now apply fadd_nonneg. }
    destruct E as [E1 E2]. apply fadd_0_nonneg in E1, E2; auto. destruct E1 as [E1 E1'], E2 as [_ E2].
    apply fsqr_0 in E1, E1'. apply fmul_0 in E2. destruct E2 as [E2|E2]. { now apply fpos_nz in E2. }
    apply Ny. destruct (Nat.eq_dec i 0) as [->|N0]; auto.
    destruct (Nat.eq_dec i (n - 1)) as [->|N1]; auto.
    assert (Zi : z i = f0).
    { set (e := (i / w)%nat). assert (Ei : i = (e * w + i mod w)%nat).
      { unfold e. rewrite Nat.mul_comm. apply Nat.div_mod. lia. }
      assert (Lr : i mod w < w) by (apply Nat.mod_upper_bound; lia).
      assert (Le : e < m) by nia.
      pose proof (sumr_0_terms 0 m _ TF E2 e ltac:(lia)) as T. apply fmul_0 in T.
      destruct T as [T|T]. { apply fpos_nz in T; [tauto|]. now apply Hf. }
      rewrite Ei. apply (Fe_definite w O (fun i => z (e * w + i)%nat) T). lia. }
    revert Zi. unfold z, inner. bcases. auto.
Qed.

(* ---------- one step ---------- *)

(* the state of the model belongs to the matrices Kg and Fg *)
Definition tok (n w : nat) (dt : K) (Kg Fg : matrix) (t : thermal K) : Prop :=
  t_n t = n /\ t_w t = w /\ t_dt t = dt /\ bst n w (t_FF t) Fg /\
  vec n (t_Kt t) (fun i => if i <=? w then lhs Kg Fg dt 0 i else f0) /\
  vec n (t_Kb t) (fun i => if n - w - 1 <=? i then if i =? 0 then f0 else lhs Kg Fg dt i (n - 1)%nat else f0) /\
  exists A0 C, bst n w (t_KK t) C /\ cfact n (blo w) true A0 C /\
    forall p q, p < n -> q < n -> full (blo w) A0 p q = strip n (lhs Kg Fg dt) p q.

Lemma wp_vadd n a v i x (Q : list K -> Prop) E : vec n a v -> i < n ->
  (forall a', vec n a' (updv v i (v i + x)) -> Q a') -> wp (vadd a i x) Q E.
Proof.
  intros V L q. unfold vadd. apply wp_bind. apply (wp_vget _ _ V L). eapply wp_vset; eauto.
Qed.

Lemma step_wp n w dt Kg Fg t (g : nat -> K) tp tb E : 1 <= w -> w + 1 <= n -> dt <> f0 -> symb w Kg -> symb w Fg ->
  tok n w dt Kg Fg t -> vec n (t_ng t) g ->
  wp (step t tp tb) (fun t' => tok n w dt Kg Fg t' /\ t_nd t' = t_nd t /\ exists y,
     vec n (t_nt t') y /\ vec n (t_ng t') (fun i => - g i + (f1 + f1) * (f1 + f1) * y i / dt) /\
     y 0 = tp /\ y (n - 1)%nat = tb /\
     (forall i, 1 <= i < n - 1 -> sumr 0 n (fun j => lhs Kg Fg dt i j * y j) = sumr 0 n (fun j => Fg i j * g j)) /\
     forall z, z 0 = tp -> z (n - 1)%nat = tb ->
       (forall i, 1 <= i < n - 1 -> sumr 0 n (fun j => lhs Kg Fg dt i j * z j) = sumr 0 n (fun j => Fg i j * g j)) ->
       forall i, i < n -> z i = y i) E.
Proof.
  intros W Wn Nd SK SF T Vg. destruct T as (Tn & Tw & Td & TF & Tt & Tb & A0 & C & MC & Fa & EA).
  unfold step. rewrite Tn, Tw.
  assert (TT : t_n t = n /\ t_w t = w /\ t_dt t = dt) by auto. clear Tn Tw Td.
  set (A := lhs Kg Fg dt) in *.
  assert (SA : symb w A) by (apply lhs_symb; auto).
  (* nt[0] = tp *)
  assert (V0 : vec n (repeat f0 n) (fun _ : nat => @f0 K)).
  { split; [now rewrite repeat_length|]. intros i Li.
    rewrite (nth_error_nth' _ f0) by (rewrite repeat_length; lia). f_equal. apply nth_repeat. }
  apply wp_bind. eapply wp_vset; [exact V0|lia|]. intros a1 V1.
  (* the top *)
  apply wp_seq with (P := fun a => vec n a (fun i => if i =? 0 then tp else if i <=? w then - (tp * A 0 i) else f0)).
  { eapply wp_mono; [apply wp_for with (P := fun k a => vec n a
      (fun i => if i =? 0 then tp else if i <? k then - (tp * A 0 i) else f0)) | cbn beta].
    - lia.
    - eapply vec_ext; [exact V1|]. intros i Li. unfold updv. bcases; auto; lia.
    - intros i a Li V. apply wp_bind. apply (wp_vget _ _ Tt); [lia|]. cbn beta.
      eapply wp_vadd; [exact V|lia|]. intros a' V'. eapply vec_ext; [exact V'|]. intros k Lk. unfold updv.
      bcases; subst; auto; try lia. ring.
    - intros a V. eapply vec_ext; [exact V|]. intros i Li. bcases; auto. }
  intros a2 V2.
  (* F times the gradient *)
  set (R0 := fun i => if i =? 0 then tp else if i <=? w then - (tp * A 0 i) else f0).
  set (G := fun i => sumr 0 n (fun j => Fg i j * g j)).
  apply wp_seq with (P := fun a => vec n a (fun i => if (1 <=? i) && (i <? n - 1) then R0 i + G i else R0 i)).
  { eapply wp_mono; [apply wp_for with (P := fun k a => vec n a
      (fun i => if (1 <=? i) && (i <? k) then R0 i + G i else R0 i)) | cbn beta].
    - lia.
    - eapply vec_ext; [exact V2|]. intros i Li. unfold R0. bcases; auto.
    - intros i a Li V.
      set (lo := if w <? i then (i - w)%nat else 0%nat).
      assert (Llo : lo <= i /\ i <= lo + w /\ (forall j, j < lo -> j + w < i)).
      { unfold lo. bcases; repeat split; lia. }
      assert (Z : forall lo' hi', (forall j, lo' <= j < hi' -> Fg i j = f0) -> sumr lo' hi' (fun j => Fg i j * g j) = f0).
      { intros lo' hi' H. apply sumr_zero. intros j Lj. rewrite H by auto. ring. }
      apply wp_seq with (P := fun a => vec n a (updv
        (fun k => if (1 <=? k) && (k <? i) then R0 k + G k else R0 k) i (R0 i + sumr 0 i (fun j => Fg i j * g j)))).
      { eapply wp_mono; [apply wp_for with (P := fun j a => vec n a (updv
          (fun k => if (1 <=? k) && (k <? i) then R0 k + G k else R0 k) i (R0 i + sumr 0 j (fun j => Fg i j * g j)))) | cbn beta].
        - lia.
        - eapply vec_ext; [exact V|]. intros k Lk. unfold updv. bcases; subst; auto; try lia.
          rewrite Z. { ring. } intros j Lj. rewrite (proj1 SF). apply (proj2 SF). apply Llo. lia.
        - intros j b Lj Vb. assert (D : bdom n w j i) by (unfold bdom; lia).
          apply wp_bind. eapply wp_bget; [exact TF|exact D|]. apply wp_bind. apply (wp_vget _ _ Vg); [lia|].
          eapply wp_vadd; [exact Vb|lia|]. intros b' Vb'. eapply vec_ext; [exact Vb'|]. intros k Lk. unfold updv.
          rewrite Nat.eqb_refl. destruct (k =? i); auto.
          rewrite Nat.add_1_r, sumr_S by lia. rewrite (proj1 SF j i). ring.
        - intros b Vb. exact Vb. }
      intros b Vb.
      eapply wp_mono; [apply wp_for with (P := fun j a => vec n a (updv
          (fun k => if (1 <=? k) && (k <? i) then R0 k + G k else R0 k) i (R0 i + sumr 0 j (fun j => Fg i j * g j)))) | cbn beta].
      + lia.
      + exact Vb.
      + intros j b2 Lj Vb2. assert (D : bdom n w i j) by (unfold bdom; lia).
        apply wp_bind. eapply wp_bget; [exact TF|exact D|]. apply wp_bind. apply (wp_vget _ _ Vg); [lia|].
        eapply wp_vadd; [exact Vb2|lia|]. intros b' Vb'. eapply vec_ext; [exact Vb'|]. intros k Lk. unfold updv.
        rewrite Nat.eqb_refl. destruct (k =? i); auto.
        rewrite Nat.add_1_r, sumr_S by lia. ring.
      + intros b2 Vb2. eapply vec_ext; [exact Vb2|]. intros k Lk. unfold updv.
        bcases; subst; auto; try lia. f_equal. unfold G.
        rewrite (sumr_split 0 (Nat.min (i + w + 1) n) n) by lia. rewrite (Z (Nat.min (i + w + 1) n) n). { ring. }
        intros j Lj. apply (proj2 SF). lia.
    - intros a V. exact V. }
  intros a3 V3.
  (* the bottom *)
  set (R := fun i => if i =? 0 then tp else - (tp * A 0 i) + G i - tb * A i (n - 1)%nat).
  apply wp_seq with (P := fun a => vec n a (fun i => if i =? n - 1 then nth i a f0 else R i)).
  { eapply wp_mono; [apply wp_for with (P := fun k a => vec n a
      (fun i => if i =? n - 1 then nth i a f0 else if i =? 0 then tp else
         - (tp * A 0 i) + G i - (if (n - w - 1 <=? i) && (i <? k) then tb * A i (n - 1)%nat else f0))) | cbn beta].
    - lia.
    - destruct V3 as [L3 V3]. split; auto. intros i Li. destruct (Nat.eqb_spec i (n - 1)) as [->|N1].
      { apply nth_error_nth'. lia. }
      rewrite V3 by auto. f_equal. unfold R0. bcases; auto; try lia; try ring;
        rewrite (proj2 SA 0%nat i) by lia; ring.
    - intros i a Li V. apply wp_bind. apply (wp_vget _ _ Tb); [lia|]. cbn beta.
      eapply wp_vadd; [exact V|lia|]. intros a' V'. pose proof V' as [L' V2'].
      split; auto. intros k Lk. destruct (Nat.eqb_spec k (n - 1)) as [->|N1].
      { apply nth_error_nth'. lia. }
      rewrite V2' by auto. f_equal. unfold updv. bcases; subst; auto; try lia; try ring.
    - intros a V. eapply vec_ext; [exact V|]. intros i Li. unfold R. bcases; subst; auto; try lia.
      rewrite (proj2 SA i (n - 1)%nat) by lia. ring. }
  intros a4 V4. apply wp_bind. eapply wp_vset; [exact V4|lia|]. intros a5 V5.
  (* solve *)
  eapply wp_seq.
  { apply (bksub_band_wp n w 1 0 (t_KK t) a5 A0 C (fun r _ => updv (fun i => if i =? n - 1 then nth i a4 f0 else R i) (n - 1) tb r)); auto.
    now apply vec_mat. }
  intros x (y & Mx & Sy). cbn beta in Sy.
  assert (Vx : vec n x y).
  { apply vec_mat. eapply mat_ext; [exact Mx|]. intros i j I J. unfold setcol. bcases. auto. }
  eapply wp_seq.
  { eapply wp_mono; [apply wp_for with (P := fun k a => vec n a
      (fun i => if i <? k then - g i + (f1 + f1) * (f1 + f1) * y i / dt else g i)) | cbn beta].
    - lia.
    - eapply vec_ext; [exact Vg|]. intros i Li. auto.
    - intros i a Li V. apply wp_bind. apply (wp_vget _ _ V); [lia|]. apply wp_bind. apply (wp_vget _ _ Vx); [lia|].
      rewrite (proj2 (proj2 TT)). rewrite divc_ok by auto. cbn [bind]. eapply wp_vset; [exact V|lia|].
      intros a' V'. eapply vec_ext; [exact V'|]. intros k Lk. unfold updv. bcases; subst; auto; lia.
    - intros a V. exact V. }
  intros g' Vg'. cbn [wp]. split.
  { destruct TT as (Tn & Tw & Td). unfold tok. cbn. fold A. repeat (split; auto). exists A0, C. auto. }
  split; [reflexivity|]. cbn [t_nt t_ng].
  (* what the stripped system means *)
  assert (Row : forall z r, r < n -> dot n (full (blo w) A0) r z =
     if (r =? 0) || (r =? n - 1) then z r
     else sumr 0 n (fun j => A r j * z j) - A r 0 * z 0 - A r (n - 1)%nat * z (n - 1)%nat).
  { intros z r Lr. unfold dot.
    rewrite (sumr_ext 0 n _ (fun c => strip n A r c * z c)). 2:{ intros c Lc. rewrite EA by lia. auto. }
    destruct ((r =? 0) || (r =? n - 1)) eqn:Er.
    - rewrite (sumr_one 0 n _ r); try lia.
      + unfold strip. rewrite Er. cbn [orb]. rewrite Nat.eqb_refl. ring.
      + intros c Lc Nc. unfold strip. rewrite Er. cbn [orb]. bcases. ring.
    - rewrite !sumr_ends by lia.
      rewrite (sumr_ext 1 (n - 1)%nat _ (fun j => A r j * z j)).
      + unfold strip. rewrite Er. apply orb_false_iff in Er. destruct Er as [E1 E2].
        apply Nat.eqb_neq in E1, E2. bcases; ring.
      + intros c Lc. unfold strip. rewrite Er. bcases. auto. }
  assert (Sol : forall z, solv n (full (blo w) A0) z (fun r => updv (fun i => if i =? n - 1 then nth i a4 f0 else R i) (n - 1) tb r) <->
     (z 0 = tp /\ z (n - 1)%nat = tb /\
      forall i, 1 <= i < n - 1 -> sumr 0 n (fun j => A i j * z j) = G i)).
  { intros z. split.
    - intros H.
      assert (H0 : z 0 = tp).
      { pose proof (H 0 ltac:(lia)) as X. rewrite Row in X by lia. cbn in X. rewrite X. unfold updv, R. bcases; auto. }
      assert (H1 : z (n - 1)%nat = tb).
      { pose proof (H (n - 1) ltac:(lia))%nat as X. rewrite Row in X by lia. rewrite Nat.eqb_refl in X.
        rewrite orb_true_r in X. rewrite X. unfold updv. now rewrite Nat.eqb_refl. }
      split; auto. split; auto. intros i Li. pose proof (H i ltac:(lia)) as X. rewrite Row in X by lia.
      revert X. unfold updv, R. bcases. intros X. rewrite H0, H1, (proj1 SA i 0%nat) in X.
      transitivity (sumr 0 n (fun j => A i j * z j) - A 0 i * tp - A i (n - 1)%nat * tb + A 0 i * tp + A i (n - 1)%nat * tb).
      { ring. } rewrite X. ring.
    - intros (H0 & H1 & H) r Lr. rewrite Row by auto. unfold updv, R. bcases; try congruence.
      rewrite H by lia. rewrite H0, H1, (proj1 SA r 0%nat). ring. }
  exists y. split; [exact Vx|]. split.
  { eapply vec_ext; [exact Vg'|]. intros i Li. bcases. auto. }
  destruct (proj1 (Sol y) Sy) as (Y0 & Y1 & Yi). split; auto. split; auto. split; auto.
  intros z Z0 Z1 Zi i Li. apply (cfact_unique n (blo w) true (band_le w) A0 C z y
     (fun r => updv (fun i => if i =? n - 1 then nth i a4 f0 else R i) (n - 1) tb r)); auto.
  apply Sol. auto.
Qed.

(* ---------- the constructor ---------- *)

Definition lengths (nl n : nat) (lh ld nd nt : list K) : Prop :=
  length lh = nl /\ length ld = nl /\ length nd = n /\ length nt = n.

Lemma new_wp sq nl lh ld n nd nt dt w : has_sqrt sq -> lengths nl n lh ld nd nt -> 1 <= w ->
  dt <> f0 -> above nl n w nd lh -> nonempty n w nd ->
  wp (new_thermal sq nl lh ld n nd nt dt w)
   (fun t => w + 1 <= n /\ order w /\ thick nl lh /\ exists m lay, n = (m * w + 1)%nat /\ 1 <= m /\
      (forall e, e < m -> lay e < nl /\ in_layer nd lh w e (lay e)) /\
      tok n w dt (asm w m (KeM w) (dcoef ld nd w lay)) (asm w m (FeM w) (fcoef nd w)) t /\
      t_nd t = nd /\ t_nt t = nt /\ vec n (t_ng t) (fun i => (f1 + f1) * nth i nt f0 / dt))
   (fun e =>
      e = InvalidArgument /\ (n < w + 1 \/ (n - 1) mod w <> 0) \/
      e = OutOfRange /\ (exists i, i < nl /\ fle (nth i lh f0) f0 = true) \/
      e = InvalidArgument /\ (~ order w \/ (sorted n w nd -> nonempty n w nd -> ~ aligned nl n w nd lh)) \/
      e = RuntimeError /\ order w /\ exists m lay, n = (m * w + 1)%nat /\ 1 <= m /\
        (forall e, e < m -> lay e < nl /\ in_layer nd lh w e (lay e)) /\
        ~ positive_definite n (strip n (lhs (asm w m (KeM w) (dcoef ld nd w lay)) (asm w m (FeM w) (fcoef nd w)) dt))).
Proof.
  intros Sq (Lh & Ll & Ln & Lt) W Nd Ab Ne. unfold new_thermal.
  destruct (Nat.ltb_spec n (w + 1)) as [L|L]. { cbn [wp]. left. auto. }
  destruct (Nat.eqb_spec w 0) as [X|_]. { lia. }
  destruct (Nat.eqb_spec ((n - 1) mod w) 0) as [Dv|Dv]; cbn [negb]. 2:{ cbn [wp]. left. auto. }
  assert (En : exists m, n = (m * w + 1)%nat /\ 1 <= m).
  { exists ((n - 1) / w)%nat. pose proof (Nat.div_mod (n - 1) w ltac:(lia)). split; nia. }
  destruct En as (m & En & Hm).
  eapply wp_seq. { eapply wp_conseq; [apply bottoms_wp; auto; lia| |].
    - intros lb H; exact H. - intros e H. right. left. exact H. }
  intros lb (T & V).
  eapply wp_seq. { eapply wp_conseq; [apply (elements_wp nl lh ld n w nd lb m); auto| |].
    - intros lb' H; exact H. - intros e H. right. right. left. exact H. }
  intros [KK FF] (O & lay & La & MK & MF).
  set (Kg := asm w m (KeM w) (dcoef ld nd w lay)) in *. set (Fg := asm w m (FeM w) (fcoef nd w)) in *.
  assert (SA : symb w (lhs Kg Fg dt)). { apply lhs_symb; auto. now apply asm_symb_K. now apply asm_symb_F. }
  eapply wp_seq. { apply (combine_wp n w dt KK FF Kg Fg); auto. }
  intros K1 M1. fold (lhs Kg Fg dt) in M1.
  eapply wp_seq. { apply (strip_top_wp n w K1 _ (lhs Kg Fg dt)); auto. apply repeat_length. }
  intros [K2 Kt] [M2 Vt].
  eapply wp_seq. { apply (strip_bottom_wp n w K2 _ _ _ W L M2); auto. }
  intros [K3 Kb] [M3 Vb]. cbn beta in *.
  assert (EA : forall p q, p < n -> q < n -> full (blo w) (raw (B_IDX n w) K3) p q = strip n (lhs Kg Fg dt) p q).
  { intros p q Lp Lq. rewrite <- (symb_full w (strip n (lhs Kg Fg dt))) by now apply strip_symb.
    unfold full. destruct (Nat.leb_spec (blo w (Nat.max p q)) (Nat.min p q)) as [X|X]; auto.
    rewrite (sto_raw_eq n (B_SIZE n w) (B_IDX n w) (blo w) K3 _ _ _ M3).
    - set (i := Nat.min p q). set (j := Nat.max p q). assert (i <= j < n) by lia. unfold strip. clearbody i j.
      bcases; auto.
    - split; lia. }
  eapply wp_seq. { eapply wp_conseq; [apply (decmp_band_wp sq n w K3 Sq)| |].
    - lia. - apply M3. - intros a H; exact H.
    - intros e [-> Np]. right. right. right. split; auto. split; auto. exists m, lay.
      split; auto. split; auto. split; auto. intros P. apply Np. eapply pd_ext; [|exact P].
      intros i j Li Lj. rewrite <- full_band. symmetry. now apply EA. }
  intros K4 (C & MC & Fa).
  apply wp_seq with (P := fun g => vec n g (fun i => (f1 + f1) * nth i nt f0 / dt)).
  { eapply wp_mono; [apply wp_for with (P := fun k g => length g = n /\
      forall i, i < k -> nth_error g i = Some ((f1 + f1) * nth i nt f0 / dt)) | cbn beta].
    - lia.
    - split; [apply repeat_length|intros; lia].
    - intros i g Li [Lg Vg]. rewrite aget_nth by lia. cbn [bind]. rewrite divc_ok by auto. cbn [bind].
      rewrite aset_ok by lia. cbn [wp]. split; [now rewrite length_upd|]. intros k Lk.
      destruct (Nat.eq_dec k i) as [->|N]. { apply nth_error_upd_eq. lia. }
      rewrite nth_error_upd_ne by auto. apply Vg. lia.
    - intros g H. exact H. }
  intros ng Vn. cbn [wp]. split; auto. split; auto. split; auto. exists m, lay.
  split; auto. split; auto. split; auto. cbn [t_nd t_nt t_ng]. split; [|auto].
  unfold tok. cbn [t_n t_w t_dt t_FF t_Kt t_Kb t_KK].
  split; auto. split; auto. split; auto. split; auto. split; [exact Vt|]. split.
  - eapply vec_ext; [exact Vb|]. intros i Li. bcases; auto.
  - exists (raw (B_IDX n w) K3), C. auto.
Qed.
End Step.
