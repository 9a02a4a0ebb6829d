(* decmp_svd: the bidiagonal form and the two orthogonal matrices. *)
From Coq Require Import List Lia Bool Arith Field.
From Verif Require Import Base LinBase QrProofs SvdModel SvdMath SvdHouse.
Import ListNotations.
Local Open Scope nat_scope.

Section Bidiag.
Context {K : ofield}.
Local Open Scope lin_scope.
Add Field Kf35 : (f_th K).
Notation matrix := (nat -> nat -> K).
Notation vect := (nat -> K).

(* ---------- no fault, whatever the matrix ---------- *)
Definition hlen (m n L : nat) (st : list K * list K * list K * K * K * K) : Prop :=
  let '(a, w, rv, _, _, _) := st in length a = (m * n)%nat /\ length w = n /\ length rv = L.
Lemma house_len sq m n L i st Ex : sqrt_pos sq -> i < n -> n <= L -> hlen m n L st ->
  wp (house sq m n i st) (hlen m n L) Ex.
Proof.
  destruct st as [[[[[a w] rv] scale] G] an]. intros Sp Li LL (La & Lw & Lr). unfold house.
  eapply wp_seq.
  { eapply house_col_wp; eauto; [now apply mat_of|now apply vec_of|now apply vec_of]. }
  intros [[[[a1 w1] rv1] sc1] G1] (A1 & W1 & M1 & V1 & VR1 & _).
  eapply wp_seq. { eapply house_row_wp; eauto. }
  intros [[[a2 rv2] sc2] G2] (A2 & R2 & M2 & VR2 & _).
  apply wp_bind. eapply (wp_vget _ _ V1); [lia|]. apply wp_bind. eapply (wp_vget _ _ VR2); [lia|].
  cbn [wp hlen]. split; [apply M2|split; [apply V1|apply VR2]].
Qed.
Lemma house_loop_len sq m n L st Ex : sqrt_pos sq -> n <= L -> hlen m n L st ->
  wp (for_up 0 n (house sq m n) st) (hlen m n L) Ex.
Proof.
  intros Sp LL H. apply wp_for with (P := fun _ => hlen m n L); auto; [lia|].
  intros. now apply house_len.
Qed.

(* ---------- the chain of reflections ---------- *)
Definition link (m n : nat) (v : vect) (h : K) (u : vect) (h' : K) (E E' : matrix) : Prop :=
  forall r c, r < m -> c < n -> E r c = RL m v h (RR n u h' E') r c.
Definition colok (m : nat) (A : matrix) (W : vect) (k : nat) : Prop :=
  W k <> f0 /\ A k k * W k <> f0 /\ sumr 0 m (fun t => cv A k t * cv A k t) = - (A k k * W k + A k k * W k).
Definition rowok (n : nat) (A : matrix) (e : vect) (k : nat) : Prop :=
  (e (S k) = f0 /\ forall t, k < t < n -> A k t = f0) \/
  (S k < n /\ A k (S k) * e (S k) <> f0 /\
   sumr 0 n (fun t => rw A k t * rw A k t) = - (A k (S k) * e (S k) + A k (S k) * e (S k))).
Definition cur (i : nat) (A : matrix) (W e : vect) : matrix := fun r c =>
  if (i <=? r) && (i <=? c) then A r c else if r =? c then W c else if r + 1 =? c then e c else f0.
Definition chain (m n i : nat) (A0 A : matrix) (W e : vect) (E : nat -> matrix) : Prop :=
  (forall r c, r < m -> c < n -> E 0%nat r c = A0 r c) /\
  (forall k, k < i -> link m n (cv A k) (A k k * W k) (rw A k) (A k (S k) * e (S k)) (E k) (E (S k))) /\
  (forall k, k < i -> colok m A W k /\ rowok n A e k) /\
  (forall r c, r < m -> c < n -> E i r c = cur i A W e r c) /\
  injective m n (E i) /\ e 0%nat = f0.
Lemma colok_ref m A W k : colok m A W k -> refok m (cv A k) (A k k * W k).
Proof. intros (_ & N & E). left. auto. Qed.
Lemma rowok_ref n A e k : rowok n A e k -> refok n (rw A k) (A k (S k) * e (S k)).
Proof.
  intros [[_ Z]|(_ & N & E)]; [right|left; auto]. intros t T. unfold rw. bcases; auto. apply Z. lia.
Qed.
Lemma RR_RR n v h (M : matrix) r c : refok n v h -> c < n -> RR n v h (RR n v h M) r c = M r c.
Proof. intros H C. unfold RR. now rewrite RL_RL. Qed.
Lemma RR_ext n v h (M M' : matrix) r c : c < n -> (forall t, t < n -> M r t = M' r t) -> RR n v h M r c = RR n v h M' r c.
Proof. intros C H. unfold RR. now apply RL_ext. Qed.
Lemma link_ext m n v h u h' v' u' (E E' : matrix) :
  (forall t, t < m -> v t = v' t) -> (forall t, t < n -> u t = u' t) -> link m n v h u h' E E' -> link m n v' h u' h' E E'.
Proof.
  intros Hv Hu Hl r c R C. rewrite (Hl r c R C). rewrite (RL_ext_v m v v') by auto. apply RL_ext; auto.
  intros t T. unfold RR. now apply RL_ext_v.
Qed.

Definition hinv (m n L : nat) (A0 : matrix) (i : nat) (st : list K * list K * list K * K * K * K) : Prop :=
  let '(a, w, rv, scale, G, _) := st in
  exists A W R E e, mat m n a A /\ vec n w W /\ vec L rv R /\ chain m n i A0 A W e E /\
    (forall k, k < i -> R k = e k) /\ e i = scale * G.

Lemma chain_step m n i (A0 A A' A'' : matrix) (W W' e : vect) E e' : i < n -> n <= m ->
  chain m n i A0 A W e E -> col_post m n i A W A' W' -> row_post m n i A' A'' e' ->
  exists E2, chain m n (S i) A0 A'' W' (fun k => if k =? S i then e' else e k) E2.
Proof.
  intros Li Lm (C0 & Cl & Cok & Cc & Inj & E0) Hc Hr. set (e2 := fun k => if k =? S i then e' else e k).
  destruct Hc as [(Z & _)|(Lim & Wn & Wk & Hn & Vv & Keep & Rl & Rli)].
  { exfalso. apply (bidiag_diag m n (E i) i); auto.
    - intros r c R C N1 N2. rewrite Cc by lia. unfold cur. bcases; auto. replace c with i by lia. apply Z. lia.
    - intros c C. rewrite Cc by lia. unfold cur. bcases. apply (Cok c C).
    - intros _. rewrite Cc by lia. unfold cur. bcases. apply Z. lia. }
  assert (Keep2 : forall r c, r < m -> c < n -> (c <= i \/ r < i) -> A'' r c = A' r c).
  { destruct Hr as [(_ & _ & K2)|(_ & _ & _ & _ & _ & K2 & _)]; auto. }
  set (v := cv A'' i). set (h := A'' i i * W' i). set (u := rw A'' i). set (h' := A'' i (S i) * e').
  assert (Ev : forall t, t < m -> cv A' i t = v t).
  { intros t T. unfold v, cv. bcases; auto. symmetry. apply Keep2; auto. }
  assert (Eh : A' i i * W' i = h). { unfold h. rewrite Keep2 by lia. auto. }
  assert (E2i : e2 (S i) = e'). { unfold e2. now rewrite Nat.eqb_refl. }
  assert (Ok1 : colok m A'' W' i).
  { split; auto. fold h. rewrite <- Eh. split; auto. rewrite <- Vv. apply sumr_ext. intros t Lt. fold v. now rewrite Ev by lia. }
  assert (Ok2 : rowok n A'' e2 i).
  { unfold rowok. rewrite E2i. destruct Hr as [(Z & Zr & Kr)|(L1 & L2 & N1 & N2 & S2 & _)].
    - left. split; auto. intros t T. rewrite Kr by lia. now apply Zr.
    - right. rewrite Nat.add_1_r in *. auto. }
  pose proof (colok_ref _ _ _ _ Ok1) as Rc. fold v h in Rc.
  pose proof (rowok_ref _ _ _ _ Ok2) as Rr. rewrite E2i in Rr. fold u h' in Rr.
  set (M1 := RL m v h (E i)). set (M2 := RR n u h' M1).
  set (E2 := fun k => if k <=? i then E k else M2).
  exists E2. unfold chain. split; [|split; [|split; [|split; [|split]]]].
  - intros r c R C. unfold E2. bcases. auto.
  - intros k Lk. destruct (Nat.eq_dec k i) as [->|Nk].
    + rewrite E2i. unfold E2. bcases. fold v h u h'. intros r c R C.
      rewrite (RL_ext m v h _ M1); auto.
      * unfold M1. now rewrite RL_RL.
      * intros t T. unfold M2. now rewrite RR_RR.
    + replace (A'' k k * W' k) with (A k k * W k).
      2:{ rewrite Keep2, Keep, Wk by lia. auto. }
      replace (A'' k (S k) * e2 (S k)) with (A k (S k) * e (S k)).
      2:{ unfold e2. bcases. rewrite Keep2, Keep by lia. auto. }
      unfold E2. bcases. eapply link_ext; [| |apply Cl; lia].
      * intros t T. unfold cv. bcases; auto. rewrite Keep2, Keep by lia. auto.
      * intros t T. unfold rw. bcases; auto. rewrite Keep2, Keep by lia. auto.
  - intros k Lk. destruct (Nat.eq_dec k i) as [->|Nk]; auto.
    destruct (Cok k ltac:(lia)) as [(X1 & X2 & X3) X4]. split.
    + unfold colok. rewrite Keep2, Keep, Wk by lia. split; auto. split; auto.
      rewrite <- X3. apply sumr_ext. intros t T. unfold cv. bcases; auto. rewrite Keep2, Keep by lia. auto.
    + unfold rowok. replace (e2 (S k)) with (e (S k)) by (unfold e2; bcases; auto).
      destruct X4 as [[Z1 Z2]|(Z1 & Z2 & Z3)]; [left|right].
      * split; auto. intros t T. rewrite Keep2, Keep by lia. auto.
      * rewrite Keep2, Keep by lia. split; auto. split; auto. rewrite <- Z3. apply sumr_ext. intros t T.
        unfold rw. bcases; auto. rewrite Keep2, Keep by lia. auto.
  - set (N1 := fun r c => if (i <=? r) && (i <=? c) then (if c =? i then (if r =? i then W' i else f0) else A' r c)
      else cur i A W e r c).
    assert (H1 : forall r c, r < m -> c < n -> M1 r c = N1 r c).
    { intros r c R C. unfold M1. rewrite (RL_ext m v h _ (cur i A W e)) by (auto; intros; apply Cc; auto).
      unfold N1. destruct (Nat.leb_spec i c).
      - assert (Q : RL m v h (cur i A W e) r c = cur i A W e r c - A r c + RL m v h A r c).
        { unfold RL. rewrite (sumr_ext 0 m _ (fun t => v t * A t c)). { ring. }
          intros t T. unfold v, cv, cur. bcases; auto; ring. }
        rewrite Q. rewrite <- Eh. rewrite <- (RL_ext_v m _ v _ A r c R Ev).
        destruct (Nat.leb_spec i r); cbn [andb].
        + replace (cur i A W e r c) with (A r c) by (unfold cur; bcases; auto).
          destruct (Nat.eqb_spec c i) as [->|].
          * rewrite Rli by auto. bcases; ring.
          * rewrite <- Rl by lia. ring.
        + replace (RL m (cv A' i) (A' i i * W' i) A r c) with (A r c). { ring. }
          unfold RL. unfold cv at 1. bcases. rewrite div_0 by ring. ring.
      - rewrite andb_false_r. unfold RL. rewrite (sumr_zero 0 m).
        + rewrite div_0 by ring. ring.
        + intros t T. unfold v, cv, cur. bcases; ring. }
    intros r c R C. unfold E2. bcases. unfold M2. rewrite (RR_ext n u h' _ N1) by (auto; intros; apply H1; auto).
    destruct Hr as [(Z & Zr & Kr)|(L1 & L2 & Ne & Nh & S2 & _ & Rm & Ri)].
    + unfold RR. rewrite RL_trivial; auto.
      2:{ intros t T. unfold u, rw. bcases; auto. rewrite Kr by lia. apply Zr; lia. }
      unfold N1, cur, e2. rewrite Kr by auto. bcases; subst; auto; try (apply Wk; lia); try (symmetry; apply Wk; lia).
      all: replace r with i by lia; apply Zr; lia.
    + rewrite Nat.add_1_r in *. fold u h' in Rm, Ri.
      assert (Q : i <= r -> RR n u h' N1 r c = N1 r c - A' r c + RR n u h' A' r c).
      { intros Lr. unfold RR, RL. rewrite (sumr_ext 0 n _ (fun t => u t * A' r t)). { ring. }
        intros t T. unfold u, rw, N1. bcases; auto; ring. }
      destruct (Nat.le_gt_cases i r) as [Lr|Lr].
      * rewrite Q by auto. destruct (Nat.eq_dec r i) as [->|Nr].
        -- rewrite Ri by auto. unfold N1, cur, e2. bcases; try subst c; auto; try ring.
        -- destruct (Nat.le_gt_cases c i).
           ++ replace (RR n u h' A' r c) with (A' r c).
              2:{ unfold RR, RL. unfold u at 1. unfold rw. bcases. rewrite div_0 by ring. ring. }
              unfold N1, cur, e2. bcases; try subst c; auto; try ring.
           ++ rewrite <- Rm by lia. unfold N1, cur, e2. bcases; ring.
      * unfold RR, RL. rewrite (sumr_zero 0 n).
        -- rewrite div_0 by ring. unfold N1, cur, e2. bcases; try subst c; auto; try ring.
           rewrite Wk by lia. ring.
        -- intros t T. unfold u, rw, N1, cur. bcases; ring.
  - unfold E2. bcases. apply injective_RR; auto. apply injective_RL; auto.
  - unfold e2. bcases. auto.
Qed.

Lemma house_wp sq m n L A0 i st Ex : sqrt_pos sq -> i < n -> n <= m -> n <= L -> hinv m n L A0 i st ->
  wp (house sq m n i st) (hinv m n L A0 (i + 1)) Ex.
Proof.
  destruct st as [[[[[a w] rv] scale] G] an]. intros Sp Li Lm LL (A & W & R & E & e & M & V & VR & Ch & Re & Ei). unfold house.
  eapply wp_seq. { eapply house_col_wp; eauto. }
  intros [[[[a1 w1] rv1] sc1] G1] (A1 & W1 & M1 & V1 & VR1 & Cp).
  eapply wp_seq. { eapply house_row_wp; eauto. }
  intros [[[a2 rv2] sc2] G2] (A2 & R2 & M2 & VR2 & Rk & Rp).
  apply wp_bind. eapply (wp_vget _ _ V1); [lia|]. apply wp_bind. eapply (wp_vget _ _ VR2); [lia|].
  cbn [wp]. destruct (chain_step m n i A0 A A1 A2 W W1 e E (sc2 * G2) Li Lm Ch Cp Rp) as [E2 Ch2].
  rewrite Nat.add_1_r. exists A2, W1, R2, E2, (fun k => if k =? S i then sc2 * G2 else e k).
  do 4 (split; [auto|]). split; [|bcases; auto].
  intros k Lk. rewrite Rk by lia. unfold updv. bcases; subst; auto. apply Re. lia.
Qed.
Lemma house_loop_wp sq m n L A0 a w rv Ex : sqrt_pos sq -> n <= m -> n <= L -> mat m n a A0 -> injective m n A0 ->
  length w = n -> length rv = L ->
  wp (for_up 0 n (house sq m n) (a, w, rv, f0, f0, f0)) (hinv m n L A0 n) Ex.
Proof.
  intros Sp Lm LL M Inj Lw Lr. apply wp_for with (P := hinv m n L A0); [lia| |].
  - exists A0, (fun i => nth i w f0), (fun i => nth i rv f0), (fun _ => A0), (fun _ => f0).
    split; auto. split; [now apply vec_of|]. split; [now apply vec_of|].
    split; [|split; [intros; lia|ring]].
    split; [auto|]. split; [intros; lia|]. split; [intros; lia|]. split; [|split; [exact Inj|reflexivity]].
    intros r c R C. unfold cur. bcases; auto.
  - intros i s Li H. now apply house_wp.
Qed.

(* ---------- the orthogonal matrices ---------- *)
Definition corner (i : nat) (V : matrix) : matrix := fun r c => if (i <=? r) && (i <=? c) then V r c else delta r c.

Lemma acc_right_step m n L a rv v (A V : matrix) (R e : vect) i Ex : 0 < i -> i <= n -> n <= m -> n < L ->
  mat m n a A -> vec L rv R -> (i < n -> R i = e i) -> rowok n A e (i - 1) -> mat n n v V ->
  wp (acc_right n a rv i v) (fun v' => exists V', mat n n v' V' /\ forall r c, r < n -> c < n ->
    corner (i - 1) V' r c = RL n (rw A (i - 1)) (A (i - 1)%nat i * e i) (corner i V) r c) Ex.
Proof.
  intros Pi Li Lm LL M VR Re Ok MV. unfold acc_right.
  apply wp_bind. eapply (wp_vget _ _ VR); [lia|].
  set (p := (i - 1)%nat) in *. assert (Ep : i = S p) by (unfold p; lia).
  apply wp_seq with (P := fun v' => exists V', mat n n v' V' /\ (forall r c, i <= r < n -> i <= c < n ->
    V' r c = RL n (rw A p) (A p i * e i) (corner i V) r c)).
  { destruct (feqb_spec (R i) f0) as [E0|N0].
    { cbn [wp]. exists V. split; auto. intros r c R1 C1. rewrite Re in E0 by lia.
      rewrite RL_trivial; auto. { unfold corner. bcases. auto. } { 
      destruct Ok as [[_ Z]|(_ & N & _)].
      - intros t T. unfold rw. bcases; auto. apply Z. lia.
      - exfalso. apply N. rewrite <- Ep, E0. ring. } lia. }
    destruct (Nat.eq_dec i n) as [->|Nin].
    { rewrite for_up_nil by lia. cbn [bind]. rewrite for_up_nil by lia. cbn [wp]. exists V. split; auto. intros; lia. }
    rewrite Re in N0 |- * by lia. destruct Ok as [[Z _]|(_ & N & _)]. { rewrite <- Ep in Z. contradiction. }
    rewrite <- Ep in N. assert (Na : A p i <> f0). { intros Z. apply N. rewrite Z. ring. }
    apply wp_seq with (P := fun v' => mat n n v' (fun r c => if (c =? p) && (i <=? r) then A p r / A p i / e i else V r c)).
    { eapply wp_mono; [apply wp_for with (P := fun j v' => mat n n v' (fun r c => if (c =? p) && (i <=? r) && (r <? j) then A p r / A p i / e i else V r c)) | cbn beta].
      - lia.
      - eapply mat_ext; [exact MV|]. intros r c R1 C1. bcases; auto.
      - intros j v1 Lj M1. apply wp_bind. eapply (wp_mget _ _ M); [lia|lia|]. apply wp_bind. eapply (wp_mget _ _ M); [lia|lia|].
        apply wp_bind. apply wp_divc; auto. apply wp_bind. apply wp_divc; auto. eapply (wp_mset _ _ M1); [lia|lia|].
        intros v2 M2. eapply mat_ext; [exact M2|]. intros r c R1 C1. unfold updm. bcases; try subst r; try subst c; auto.
      - intros v1 M1. eapply mat_ext; [exact M1|]. intros r c R1 C1. bcases; auto. }
    intros v1 M1. set (h := A p i * e i) in *.
    set (Rl := RL n (rw A p) h (corner i V)).
    eapply wp_mono; [apply wp_for with (P := fun j v' => mat n n v' (fun r c => if (c =? p) && (i <=? r) then A p r / A p i / e i else
        if (i <=? r) && (i <=? c) && (c <? j) then Rl r c else V r c)) | cbn beta].
    - lia.
    - eapply mat_ext; [exact M1|]. intros r c R1 C1. bcases; auto.
    - intros j v2 Lj M2.
      rewrite (dot_loop i n a v2 (fun k => (p * n + k)%nat) (fun k => (k * n + j)%nat) (fun k => A p k) (fun k => V k j)).
      2:{ intros k Lk. apply (mat_get m n a A); auto; lia. }
      2:{ intros k Lk. rewrite (mat_get n n v2 _ _ _ M2) by lia. bcases. auto. }
      cbn [bind].
      assert (Sv : sumr i n (fun k => A p k * V k j) = sumr 0 n (fun k => rw A p k * corner i V k j)).
      { rewrite (sumr_split 0 i n) by lia. rewrite (sumr_zero 0 i).
        2:{ intros t Lt. unfold rw. bcases. ring. }
        rewrite (sumr_ext i n (fun k => A p k * V k j) (fun k => rw A p k * corner i V k j)).
        2:{ intros t Lt. unfold rw, corner. bcases. auto. } ring. }
      rewrite Sv. set (s' := sumr 0 n (fun k => rw A p k * corner i V k j)).
      eapply wp_mono; [apply wp_for with (P := fun k v' => mat n n v' (fun r c => if (c =? p) && (i <=? r) then A p r / A p i / e i else
        if (i <=? r) && (i <=? c) && ((c <? j) || ((c =? j) && (r <? k))) then Rl r c else V r c)) | cbn beta].
      + lia.
      + eapply mat_ext; [exact M2|]. intros r c R1 C1. bcases; auto.
      + intros k v3 Lk M3. apply wp_bind. eapply (wp_mget _ _ M3); [lia|lia|].
        apply wp_bind. eapply (wp_mget _ _ M3); [lia|lia|]. bcases.
        eapply (wp_mset _ _ M3); [lia|lia|]. intros v4 M4.
        eapply mat_ext; [exact M4|]. intros r c R1 C1. unfold updm. bcases; try subst r; try subst c; auto.
        unfold Rl, RL. fold s'. unfold rw, corner, h. bcases. field. auto.
      + intros v3 M3. eapply mat_ext; [exact M3|]. intros r c R1 C1. bcases; auto.
    - intros v2 M2. eexists. split; [exact M2|]. intros r c R1 C1. bcases. reflexivity. }
  intros v1 (V1 & M1 & H1).
  apply wp_seq with (P := fun v' => mat n n v' (fun r c => if ((c =? p) && (i <=? r)) || ((r =? p) && (i <=? c)) then f0 else V1 r c)).
  { eapply wp_mono; [apply wp_for with (P := fun j v' => mat n n v' (fun r c => if ((c =? p) && (i <=? r) && (r <? j)) || ((r =? p) && (i <=? c) && (c <? j)) then f0 else V1 r c)) | cbn beta].
    - lia.
    - eapply mat_ext; [exact M1|]. intros r c R1 C1. bcases; auto.
    - intros j v2 Lj M2. apply wp_bind. eapply (wp_mset _ _ M2); [lia|lia|]. intros v3 M3.
      eapply (wp_mset _ _ M3); [lia|lia|]. intros v4 M4. eapply mat_ext; [exact M4|]. intros r c R1 C1. unfold updm. bcases; auto.
    - intros v2 M2. eapply mat_ext; [exact M2|]. intros r c R1 C1. bcases; auto. }
  intros v2 M2. eapply (wp_mset _ _ M2); [lia|lia|]. intros v3 M3. eexists. split; [exact M3|].
  intros r c R1 C1. unfold corner at 1. unfold updm.
  destruct (Nat.le_gt_cases i r), (Nat.le_gt_cases i c).
  - bcases. apply H1; auto.
  - unfold RL. rewrite (sumr_zero 0 n). { rewrite div_0 by ring. unfold corner, delta. bcases; ring. }
    intros t T. unfold rw, corner, delta. bcases; ring.
  - unfold RL. unfold rw at 1. bcases. all: rewrite div_0 by ring; unfold corner, delta; bcases; ring.
  - unfold RL. unfold rw at 1. bcases. all: rewrite div_0 by ring; unfold corner, delta; bcases; ring.
Qed.

Lemma acc_left_step m n a w (A : matrix) (W : vect) i Ex : 0 < i -> i <= n -> n <= m ->
  mat m n a A -> vec n w W -> colok m A W (i - 1) ->
  wp (acc_left m n w i a) (fun a' => exists A', mat m n a' A' /\
    (forall r c, r < m -> c < n -> corner (i - 1) A' r c = RL m (cv A (i - 1)) (A (i - 1)%nat (i - 1)%nat * W (i - 1)%nat) (corner i A) r c) /\
    (forall r c, r < m -> c < i - 1 -> A' r c = A r c)) Ex.
Proof.
  intros Pi Li Lm M VW (Wn & Hn & Vv). unfold acc_left.
  set (p := (i - 1)%nat) in *. assert (Ep : i = S p) by (unfold p; lia). clearbody p.
  assert (Na : A p p <> f0). { intros Z. apply Hn. rewrite Z. ring. }
  set (h := A p p * W p) in *.
  apply wp_seq with (P := fun a' => mat m n a' (fun r c => if (r =? p) && (i <=? c) then f0 else A r c)).
  { eapply wp_mono; [apply wp_for with (P := fun j a' => mat m n a' (fun r c => if (r =? p) && (i <=? c) && (c <? j) then f0 else A r c)) | cbn beta].
    - lia.
    - eapply mat_ext; [exact M|]. intros r c R1 C1. bcases; auto.
    - intros j a1 Lj M1. eapply (wp_mset _ _ M1); [lia|lia|]. intros a2 M2. eapply mat_ext; [exact M2|]. intros r c R1 C1. unfold updm. bcases; auto.
    - intros a1 M1. eapply mat_ext; [exact M1|]. intros r c R1 C1. bcases; auto. }
  intros a1 M1. apply wp_bind. eapply (wp_vget _ _ VW); [lia|].
  destruct (feqb_spec (W p) f0) as [|_]; [contradiction|].
  set (Rl := RL m (cv A p) h (corner i A)).
  apply wp_seq with (P := fun a' => mat m n a' (fun r c => if c =? p then (if p <=? r then A r p / W p else A r c) else
        if (p <=? r) && (i <=? c) then Rl r c else A r c)).
  { apply wp_seq with (P := fun a' => mat m n a' (fun r c => if (p <=? r) && (i <=? c) then Rl r c else A r c)).
    { eapply wp_mono; [apply wp_for with (P := fun j a' => mat m n a' (fun r c => if (p <=? r) && (i <=? c) then
         (if c <? j then Rl r c else if r =? p then f0 else A r c) else A r c)) | cbn beta].
      - lia.
      - eapply mat_ext; [exact M1|]. intros r c R1 C1. bcases; auto.
      - intros j a2 Lj M2.
        rewrite (dot_loop i m a2 a2 (fun k => (k * n + p)%nat) (fun k => (k * n + j)%nat) (fun k => A k p) (fun k => A k j)).
        2:{ intros k Lk. rewrite (mat_get m n a2 _ _ _ M2) by lia. bcases. auto. }
        2:{ intros k Lk. rewrite (mat_get m n a2 _ _ _ M2) by lia. bcases. auto. }
        cbn [bind].
        assert (Sv : sumr i m (fun k => A k p * A k j) = sumr 0 m (fun k => cv A p k * corner i A k j)).
        { rewrite (sumr_split 0 i m) by lia. rewrite (sumr_zero 0 i).
          2:{ intros t Lt. unfold cv, corner, delta. bcases; ring. }
          rewrite (sumr_ext i m (fun k => A k p * A k j) (fun k => cv A p k * corner i A k j)).
          2:{ intros t Lt. unfold cv, corner. bcases. auto. } ring. }
        rewrite Sv. set (s' := sumr 0 m (fun k => cv A p k * corner i A k j)).
        apply wp_bind. eapply (wp_mget _ _ M2); [lia|lia|]. bcases.
        apply wp_bind. apply wp_divc; auto. apply wp_bind. apply wp_divc; auto.
        eapply wp_mono; [apply wp_for with (P := fun k a' => mat m n a' (fun r c => if (p <=? r) && (i <=? c) then
         (if (c <? j) || ((c =? j) && (r <? k)) then Rl r c else if r =? p then f0 else A r c) else A r c)) | cbn beta].
        + lia.
        + eapply mat_ext; [exact M2|]. intros r c R1 C1. bcases; auto.
        + intros k a3 Lk M3. apply wp_bind. eapply (wp_mget _ _ M3); [lia|lia|].
          apply wp_bind. eapply (wp_mget _ _ M3); [lia|lia|]. cbn beta. 
          eapply (wp_mset _ _ M3); [lia|lia|]. intros a4 M4.
          eapply mat_ext; [exact M4|]. intros r c R1 C1. unfold updm.
          destruct (Nat.eqb_spec r k) as [->|]; [destruct (Nat.eqb_spec c j) as [->|]|]; cbn [andb]; [|bcases; auto|bcases; auto].
          unfold Rl, RL. fold s'. unfold cv, corner, delta, h. bcases; field; auto.
        + intros a3 M3. eapply mat_ext; [exact M3|]. intros r c R1 C1. bcases; auto.
      - intros a2 M2. eapply mat_ext; [exact M2|]. intros r c R1 C1. bcases; auto. }
    intros a2 M2.
    eapply wp_mono; [apply wp_for with (P := fun j a' => mat m n a' (fun r c => if c =? p then (if (p <=? r) && (r <? j) then A r p / W p else A r c) else
        if (p <=? r) && (i <=? c) then Rl r c else A r c)) | cbn beta].
    - lia.
    - eapply mat_ext; [exact M2|]. intros r c R1 C1. bcases; auto.
    - intros j a3 Lj M3. apply wp_bind. eapply (wp_mget _ _ M3); [lia|lia|]. bcases.
      apply wp_bind. apply wp_divc; auto. eapply (wp_mset _ _ M3); [lia|lia|]. intros a4 M4. eapply mat_ext; [exact M4|].
      intros r c R1 C1. unfold updm. bcases; try subst r; auto.
    - intros a3 M3. eapply mat_ext; [exact M3|]. intros r c R1 C1. bcases; auto. }
  intros a2 M2. apply wp_bind. eapply (wp_mget _ _ M2); [lia|lia|]. bcases.
  eapply (wp_mset _ _ M2); [lia|lia|]. intros a3 M3. eexists. split; [exact M3|]. split.
  - intros r c R1 C1. unfold corner at 1. unfold updm. unfold Rl.
    destruct (Nat.le_gt_cases p r) as [Lr|Lr]; [destruct (lt_eq_lt_dec c p) as [[Lc|Lc]|Lc]|].
    + unfold RL. rewrite (sumr_zero 0 m). { rewrite (div_0 (cv A p r * f0) h) by ring. unfold corner, delta. bcases; ring. }
      intros t T. unfold cv, corner, delta. bcases; ring.
    + subst c. unfold RL. rewrite (sumr_one 0 m _ p); [|lia|].
      * unfold cv, corner, delta, h. bcases; try subst r; field; auto.
      * intros t T Nt. unfold cv, corner, delta. bcases; ring.
    + bcases; reflexivity.
    + unfold RL. replace (cv A p r) with (@f0 K) by (unfold cv; bcases; auto).
      rewrite (div_0 (f0 * _) h) by ring. unfold corner, delta. bcases; ring.
  - intros r c R1 C1. unfold updm. bcases; auto.
Qed.

Fixpoint vacc (n : nat) (A : matrix) (e : vect) (d : nat) : matrix :=
  match d with
  | O => delta
  | S d' => RL n (rw A (n - d)) (A (n - d)%nat (S (n - d)) * e (S (n - d))) (vacc n A e d')
  end.
Fixpoint uacc (m n : nat) (A : matrix) (W : vect) (d : nat) : matrix :=
  match d with
  | O => delta
  | S d' => RL m (cv A (n - d)) (A (n - d)%nat (n - d)%nat * W (n - d)%nat) (uacc m n A W d')
  end.
Lemma acc_right_loop m n L a rv v (A V : matrix) (R e : vect) Ex : n <= m -> n < L ->
  mat m n a A -> vec L rv R -> (forall k, k < n -> R k = e k) -> (forall k, k < n -> rowok n A e k) -> mat n n v V ->
  wp (for_down n 0 (fun i v => acc_right n a rv i v) v) (fun v' => exists V', mat n n v' V' /\
    forall r c, r < n -> c < n -> V' r c = vacc n A e n r c) Ex.
Proof.
  intros Lm LL M VR Re Ok MV.
  eapply wp_mono; [apply wp_down with (P := fun i v' => exists V', mat n n v' V' /\
    forall r c, r < n -> c < n -> corner i V' r c = vacc n A e (n - i) r c) | cbn beta].
  - lia.
  - exists V. split; auto. intros r c Rr Cc. rewrite Nat.sub_diag. cbn [vacc]. unfold corner. bcases; auto.
  - intros i v1 Li (V1 & M1 & H1). eapply wp_mono.
    { eapply (acc_right_step m n L a rv v1 A V1 R e i); eauto; try lia. apply Ok. lia. }
    cbn beta. intros v2 (V2 & M2 & H2). exists V2. split; auto. intros r c Rr Cc. rewrite H2 by auto.
    replace (n - (i - 1))%nat with (S (n - i)) by lia. cbn [vacc]. replace (n - S (n - i))%nat with (i - 1)%nat by lia.
    replace (S (i - 1)) with i by lia. apply RL_ext; auto.
  - intros v1 (V1 & M1 & H1). exists V1. split; auto. intros r c Rr Cc.
    rewrite Nat.sub_0_r in H1. rewrite <- H1 by auto. unfold corner. bcases; auto.
Qed.
Lemma acc_left_loop m n a w (A : matrix) (W : vect) Ex : n <= m ->
  mat m n a A -> vec n w W -> (forall k, k < n -> colok m A W k) ->
  wp (for_down (Nat.min m n) 0 (fun i a => acc_left m n w i a) a) (fun a' => exists A', mat m n a' A' /\
    forall r c, r < m -> c < n -> A' r c = uacc m n A W n r c) Ex.
Proof.
  intros Lm M VW Ok. rewrite Nat.min_r by lia.
  eapply wp_mono; [apply wp_down with (P := fun i a' => exists A', mat m n a' A' /\ (forall r c, r < m -> c < i -> A' r c = A r c) /\
    forall r c, r < m -> c < n -> corner i A' r c = uacc m n A W (n - i) r c) | cbn beta].
  - lia.
  - exists A. split; auto. split; auto. intros r c Rr Cc. rewrite Nat.sub_diag. cbn [uacc]. unfold corner. bcases; auto.
  - intros i a1 Li (A1 & M1 & K1 & H1).
    assert (Ecv : forall t, t < m -> cv A1 (i - 1) t = cv A (i - 1) t).
    { intros t T. unfold cv. bcases; auto. apply K1; lia. }
    eapply wp_mono.
    { eapply (acc_left_step m n a1 w A1 W i); eauto; try lia.
      destruct (Ok (i - 1)%nat ltac:(lia)) as (X1 & X2 & X3). unfold colok. rewrite K1 by lia. split; auto. split; auto.
      rewrite <- X3. apply sumr_ext. intros t T. now rewrite !Ecv by lia. }
    cbn beta. intros a2 (A2 & M2 & H2 & K2). exists A2. split; auto. split.
    { intros r c Rr Cc. rewrite K2 by lia. apply K1; lia. }
    intros r c Rr Cc. rewrite H2 by auto.
    replace (n - (i - 1))%nat with (S (n - i)) by lia. cbn [uacc]. replace (n - S (n - i))%nat with (i - 1)%nat by lia.
    rewrite (K1 (i - 1)%nat (i - 1)%nat) by lia. rewrite (RL_ext_v m _ (cv A (i - 1))) by auto. apply RL_ext; auto.
  - intros a1 (A1 & M1 & _ & H1). exists A1. split; auto. intros r c Rr Cc.
    rewrite Nat.sub_0_r in H1. rewrite <- H1 by auto. unfold corner. bcases; auto.
Qed.

Definition bid (W e : vect) : matrix := fun l k => if l =? k then W k else if l + 1 =? k then e k else f0.
Lemma delta_sym i j : @delta K i j = delta j i.
Proof. unfold delta. now rewrite Nat.eqb_sym. Qed.
Lemma ocols_delta N n : n <= N -> @ocols K N n delta.
Proof.
  intros L i j I J. rewrite (sumr_one 0 N _ i); [|lia|].
  - unfold delta at 1. rewrite Nat.eqb_refl. ring.
  - intros t T Nt. unfold delta at 1. bcases. ring.
Qed.
Lemma chain_P3 m n A0 A (W e : vect) E : n <= m -> chain m n n A0 A W e E ->
  forall d, d <= n -> (forall r c, r < m -> c < n -> E (n - d)%nat r c = P3 n (uacc m n A W d) (bid W e) (vacc n A e d) r c) /\
    ocols m n (uacc m n A W d) /\ ocols n n (vacc n A e d).
Proof.
  intros Lm (C0 & Cl & Cok & Cc & _ & _). induction d as [|d IH]; intros Ld.
  - split; [|cbn [uacc vacc]; split; apply ocols_delta; lia].
    intros r c R C. rewrite Nat.sub_0_r, Cc by auto. cbn [uacc vacc].
    destruct (Nat.lt_ge_cases r n).
    + rewrite P3_delta by auto. unfold cur, bid. bcases; auto.
    + rewrite P3_delta_0 by auto. unfold cur. bcases. auto.
  - destruct (IH ltac:(lia)) as (H & Ou & Ov). set (k := (n - S d)%nat) in *.
    assert (Ek : (n - d)%nat = S k) by (unfold k; lia). rewrite Ek in H.
    destruct (Cok k ltac:(unfold k; lia)) as [O1 O2].
    split; [|split].
    + intros r c R C. rewrite (Cl k ltac:(unfold k; lia) r c R C).
      cbn [uacc vacc]. fold k.
      rewrite <- P3_left. apply RL_ext; auto. intros t T.
      rewrite <- P3_right. apply RR_ext; auto.
    + cbn [uacc]. fold k. apply ocols_RL; auto. now apply colok_ref.
    + cbn [vacc]. fold k. apply ocols_RL; auto. now apply rowok_ref.
Qed.

(* everything before the iteration *)
Definition bidiag (m n : nat) (A0 U : matrix) (W e : vect) (V : matrix) : Prop :=
  (forall r c, r < m -> c < n -> A0 r c = P3 n U (bid W e) V r c) /\ ocols m n U /\ ocols n n V.
Lemma bidiag_wp sq m n a w rv v (A0 : matrix) Ex : sqrt_pos sq -> n <= m -> mat m n a A0 -> injective m n A0 ->
  length w = n -> length rv = S n -> length v = (n * n)%nat ->
  wp (let* (A, W, rv, _, _, an) := for_up 0 n (house sq m n) (a, w, rv, f0, f0, f0) in
      let* V := for_down n 0 (fun i V => acc_right n A rv i V) v in
      let* A := for_down (Nat.min m n) 0 (fun i A => acc_left m n W i A) A in
      Ok (A, W, rv, V, an))
    (fun st => let '(a', w', rv', v', _) := st in exists U W e V R, mat m n a' U /\ vec n w' W /\ vec (S n) rv' R /\ mat n n v' V /\
      bidiag m n A0 U W e V /\ e 0%nat = f0 /\ (forall k, k < n -> R k = e k)) Ex.
Proof.
  intros Sp Lm M Inj Lw Lr Lv. eapply wp_seq. { eapply (house_loop_wp sq m n (S n)); eauto. }
  intros [[[[[a1 w1] rv1] sc1] G1] an] (A & W & R & E & e & M1 & V1 & VR & Ch & Re & Ei).
  pose proof Ch as (C0 & Cl & Cok & Cc & _ & e0).
  eapply wp_seq. { eapply (acc_right_loop m n (S n)); eauto. - intros k Lk. apply Cok; auto. - now apply mat_of. }
  cbn beta. intros v2 (V & MV & HV).
  eapply wp_seq. { eapply acc_left_loop; eauto. intros k Lk. apply Cok; auto. }
  cbn beta. intros a2 (U & MU & HU). cbn [wp].
  exists U, W, e, V, R. do 4 (split; [auto|]). split; [|auto].
  destruct (chain_P3 m n A0 A W e E Lm Ch n ltac:(lia)) as (H & Ou & Ov). rewrite Nat.sub_diag in H.
  split; [|split].
  - intros r c Rr Cc'. rewrite <- C0, H by auto. apply P3_ext; auto.
    + intros l Ll. symmetry. now apply HU.
    + intros l Ll. symmetry. now apply HV.
  - intros i j I J. rewrite <- (Ou i j I J). apply sumr_ext. intros t T. now rewrite !HU by lia.
  - intros i j I J. rewrite <- (Ov i j I J). apply sumr_ext. intros t T. now rewrite !HV by lia.
Qed.
End Bidiag.
