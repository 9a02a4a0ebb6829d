(* The loops of include/fft.h carry out the transforms of FftSpec. *)
From Coq Require Import List Lia Bool Arith Ring Field.
From Verif Require Import Base LinBase FftModel FftSpec.
Import ListNotations.

Lemma for_up_ext {S : Type} lo hi (f g : nat -> S -> outcome S) s :
  (forall i s, lo <= i < hi -> f i s = g i s) -> for_up lo hi f s = for_up lo hi g s.
Proof.
  unfold for_up. remember (hi - lo) as k eqn:Ek. revert lo s Ek. induction k; intros lo s Ek H; cbn [loopn]; auto.
  rewrite H by lia. destruct (g lo s); cbn [bind]; auto. apply IHk; [lia|]. intros. apply H. lia.
Qed.

Section Mem.
Context {K : ofield}.
Add Field Kf29 : (f_th K).
Local Open Scope lin_scope.
Variable h : K.
Variable sn : nat -> nat -> K.
Notation C := (@C K).
Notation "x *c y" := (cmul x y) (at level 40, left associativity).

Definition cv (v : nat -> K) (off i : nat) : C := (v (off + 2 * i)%nat, v (off + 2 * i + 1)%nat).

Lemma wp_cget n m v p (P : K * K -> Prop) E : vec n m v -> (p + 1 < n)%nat -> P (v p, v (p + 1)%nat) -> wp (cget m p) P E.
Proof.
  intros V L H. unfold cget. apply wp_bind. eapply (wp_vget (v := v)); eauto; [lia|].
  apply wp_bind. eapply (wp_vget (v := v)); eauto.
Qed.
Lemma wp_cset n m v p (z : K * K) (P : list K -> Prop) E : vec n m v -> (p + 1 < n)%nat ->
  (forall m', vec n m' (updv (updv v p (fst z)) (p + 1) (snd z)) -> P m') -> wp (cset m p z) P E.
Proof.
  intros V L H. unfold cset. apply wp_bind. eapply (wp_vset (v := v)); eauto; [lia|]. intros m1 V1.
  eapply wp_vset; eauto.
Qed.

(* ---------- one level of butterflies, for any kind of butterfly ---------- *)

Section Level.
Context {V : Type}.
Variables (k n Q L : nat).
Hypothesis EQ : Q = (2 * n)%nat.
Hypothesis Hn : 1 <= n.
Variable tr : nat -> K -> K -> list K -> outcome (list K).
Variable get : (nat -> K) -> nat -> nat -> V.
Variable out : nat -> Prop.
Variable T : C -> (nat -> V) -> nat -> V.
Variable E : exn -> Prop.
Definition tr_spec : Prop := forall v m j wr wi, vec L m v -> j < Q ->
  wp (tr j wr wi m) (fun m' => exists v', vec L m' v' /\
    (forall j' q, j' < Q -> q < 4 -> get v' j' q = if j' =? j then T (wr, wi) (get v j) q else get v j' q) /\
    (forall p, out p -> v' p = v p)) E.
Hypothesis Htr : tr_spec.
(* T only looks at its four arguments *)
Hypothesis Text : forall w a b q, q < 4 -> (forall i, i < 4 -> a i = b i) -> T w a q = T w b q.

Definition glevel (m : list K) : outcome (list K) :=
  let* m := tr 0 f1 f0 m in
  let* m := tr n h h m in
  let* (_, m) := for_up 1 n (fun i '(w, m) =>
    let '(wr, wi) := next sn k w in
    let* m := tr i wr (- wi) m in
    let* m := tr (2 * n - i)%nat (- wi) wr m in
    Ok ((wr, wi), m)) ((f1, f0), m) in
  Ok m.
(* the factors *)
Definition omk : C := (f1 - (f1 + f1) * sn 1 (2 ^ k) * sn 1 (2 ^ k), sn 2 (2 ^ k)).
Definition swap (z : C) : C := (snd z, fst z).
Definition twl (j : nat) : C := if j <? n then cpow omk j else if j =? n then (h, h) else swap (cpow omk (2 * n - j)).

Definition inv (v0 : nat -> K) (D : nat -> bool) (m : list K) : Prop := exists v, vec L m v /\
  (forall j q, j < Q -> q < 4 -> get v j q = if D j then T (twl j) (get v0 j) q else get v0 j q) /\
  (forall p, out p -> v p = v0 p).
Lemma inv_step v0 D D' m j wr wi : inv v0 D m -> j < Q -> D j = false -> (wr, wi) = twl j ->
  (forall i, i < Q -> D' i = D i || (i =? j)) -> wp (tr j wr wi m) (inv v0 D') E.
Proof.
  intros (v & Vm & G & Fr) Lj Dj Ew ED. eapply wp_mono. { apply (Htr v); auto. }
  intros m' (v' & Vm' & G' & Fr'). exists v'. split; auto. split.
  - intros i q Li Lq. rewrite G' by auto. rewrite ED by auto. destruct (Nat.eqb_spec i j) as [->|N].
    + rewrite orb_true_r, Ew. apply Text; auto. intros. rewrite G by auto. now rewrite Dj.
    + rewrite orb_false_r. auto.
  - intros p Op. rewrite Fr' by auto. auto.
Qed.
Lemma next_pow i : next sn k (conj (cpow omk i)) = conj (cpow omk (i + 1)).
Proof.
  rewrite Nat.add_1_r. cbn [cpow]. rewrite (conj_mul omk). destruct (conj (cpow omk i)) as [x y]. unfold next, wpr, wpi, omk.
  apply ceq; cbn; ring.
Qed.
Definition dn (i j : nat) : bool := (j <? i) || (j =? n) || (Q - i <? j).
Lemma glevel_wp v m : vec L m v -> wp (glevel m) (inv v (fun _ => true)) E.
Proof.
  intros V0. unfold glevel.
  eapply wp_seq. { apply (inv_step v (fun _ => false) (fun j => j =? 0)); auto; try lia.
    - exists v. auto.
    - unfold twl. bcases; reflexivity. }
  intros m1 I1.
  eapply wp_seq. { apply (inv_step v (fun j => j =? 0) (dn 1) m1 n); auto; try lia.
    - bcases; reflexivity.
    - unfold twl. bcases; reflexivity.
    - intros i Li. unfold dn. bcases; reflexivity. }
  intros m2 I2.
  eapply wp_seq.
  { apply (wp_for 1 n _ _ (fun i '(w, m) => w = conj (cpow omk (i - 1)) /\ inv v (dn i) m)); auto.
    - split; auto. apply ceq; cbn; ring.
    - intros i [w m3] Li [Ew I3]. subst w. rewrite next_pow. replace (i - 1 + 1)%nat with i by lia.
      assert (Ec : conj (cpow omk i) = (fst (cpow omk i), - snd (cpow omk i))) by reflexivity.
      rewrite Ec. cbv iota beta.
      eapply wp_seq. { apply (inv_step v (dn i) (fun j => dn i j || (j =? i)) m3 i); auto; try lia.
        - unfold dn. bcases; reflexivity.
        - unfold twl. bcases. apply ceq; cbn; ring. }
      intros m4 I4. eapply wp_seq. { apply (inv_step v (fun j => dn i j || (j =? i)) (dn (i + 1)) m4 (2 * n - i)%nat); auto; try lia.
        - unfold dn. bcases; reflexivity.
        - unfold twl. bcases. replace (2 * n - (2 * n - i))%nat with i by lia. apply ceq; cbn; ring.
        - intros j Lj. unfold dn. bcases; reflexivity. }
      intros m5 I5. cbn [wp]. split; auto. replace (i + 1 - 1)%nat with i by lia. auto. }
  intros [w m3] [_ I3]. cbn [wp]. destruct I3 as (v3 & V3 & G3 & F3). exists v3. split; auto. split; auto.
  intros j q Lj Lq. rewrite G3 by auto. replace (dn n j) with true; auto. unfold dn. bcases; reflexivity.
Qed.
End Level.

(* ---------- the butterflies ---------- *)

Definition cget4 (off Q : nat) (v : nat -> K) (j q : nat) : C := cv v off (Q * q + j).
Definition Tc (w : C) (a : nat -> C) (q : nat) : C :=
  match q with
  | 0 => cadd (a 0) (a 2)
  | 1 => cadd (a 1) (a 3)
  | 2 => cmul (cadd (csub (a 0) (a 2)) (cmul ci (csub (a 1) (a 3)))) w
  | _ => cmul (csub (csub (a 0) (a 2)) (cmul ci (csub (a 1) (a 3)))) (conj w)
  end.
Definition Uc (w : C) (a : nat -> C) (q : nat) : C :=
  let x := cmul (a 2) (conj w) in
  let y := cmul (a 3) w in
  match q with
  | 0 => cadd (a 0) (cadd x y)
  | 1 => csub (a 1) (cmul ci (csub x y))
  | 2 => csub (a 0) (cadd x y)
  | _ => cadd (a 1) (cmul ci (csub x y))
  end.
Lemma Tc_ext w a b q : q < 4 -> (forall i, i < 4 -> a i = b i) -> Tc w a q = Tc w b q.
Proof. intros Lq H. unfold Tc. rewrite !H by lia. reflexivity. Qed.
Lemma Uc_ext w a b q : q < 4 -> (forall i, i < 4 -> a i = b i) -> Uc w a q = Uc w b q.
Proof. intros Lq H. unfold Uc. rewrite !H by lia. reflexivity. Qed.
Definition cpl (off Q : nat) (tr : nat -> nat -> nat -> nat -> K -> K -> list K -> outcome (list K)) (j : nat) :=
  tr (off + 2 * j)%nat (off + 2 * (Q + j))%nat (off + 2 * (2 * Q + j))%nat (off + 2 * (3 * Q + j))%nat.
Definition cout (off Q p : nat) : Prop := p < off \/ off + 8 * Q <= p.

(* four writes of complex numbers *)
Lemma upd4 off Q (v : nat -> K) j (z : nat -> C) v' : j < Q ->
  (forall p, v' p = if p =? off + 2 * j then fst (z 0) else if p =? off + 2 * j + 1 then snd (z 0)
    else if p =? off + 2 * (Q + j) then fst (z 1) else if p =? off + 2 * (Q + j) + 1 then snd (z 1)
    else if p =? off + 2 * (2 * Q + j) then fst (z 2) else if p =? off + 2 * (2 * Q + j) + 1 then snd (z 2)
    else if p =? off + 2 * (3 * Q + j) then fst (z 3) else if p =? off + 2 * (3 * Q + j) + 1 then snd (z 3)
    else v p) ->
  (forall j' q, j' < Q -> q < 4 -> cget4 off Q v' j' q = if j' =? j then z q else cget4 off Q v j' q) /\
  (forall p, cout off Q p -> v' p = v p).
Proof.
  intros Lj H. split.
  - intros j' q Lj' Lq. unfold cget4, cv. rewrite !H.
    assert (D : q = 0 \/ q = 1 \/ q = 2 \/ q = 3) by lia.
    destruct (Nat.eqb_spec j' j) as [->|N].
    + destruct D as [->|[->|[->| ->]]]; bcases; symmetry; apply surjective_pairing.
    + destruct D as [->|[->|[->| ->]]]; bcases; reflexivity.
  - unfold cout. intros p Op. rewrite H. bcases; reflexivity.
Qed.
Lemma cv4 off Q v j : (v (off + 2 * j)%nat, v (off + 2 * j + 1)%nat) = cget4 off Q v j 0 /\
  (v (off + 2 * (Q + j))%nat, v (off + 2 * (Q + j) + 1)%nat) = cget4 off Q v j 1 /\
  (v (off + 2 * (2 * Q + j))%nat, v (off + 2 * (2 * Q + j) + 1)%nat) = cget4 off Q v j 2 /\
  (v (off + 2 * (3 * Q + j))%nat, v (off + 2 * (3 * Q + j) + 1)%nat) = cget4 off Q v j 3.
Proof. unfold cget4, cv. repeat split; f_equal; f_equal; lia. Qed.
Lemma transform_spec off Q L E : off + 8 * Q <= L ->
  tr_spec Q L (cpl off Q transform) (cget4 off Q) (cout off Q) Tc E.
Proof.
  intros B v m j wr wi V Lj. unfold cpl, transform.
  destruct (cv4 off Q v j) as (A0 & A1 & A2 & A3).
  apply wp_bind. eapply (wp_cget L m v); eauto; [lia|].
  apply wp_bind. eapply (wp_cget L m v); eauto; [lia|].
  apply wp_bind. eapply (wp_cget L m v); eauto; [lia|].
  apply wp_bind. eapply (wp_cget L m v); eauto; [lia|].
  apply wp_bind. eapply wp_cset; eauto; [lia|]. intros m1 V1.
  apply wp_bind. eapply wp_cset; eauto; [lia|]. intros m2 V2.
  apply wp_bind. eapply wp_cset; eauto; [lia|]. intros m3 V3.
  eapply wp_cset; eauto; [lia|]. intros m4 V4.
  eexists. split; [exact V4|]. apply (upd4 off Q v j (Tc (wr, wi) (cget4 off Q v j))); auto.
  intros p. unfold updv, Tc. rewrite <- A0, <- A1, <- A2, <- A3. cbn [fst snd cadd csub cmul conj ci].
  bcases; auto; ring.
Qed.
Lemma untransform_spec off Q L E : off + 8 * Q <= L ->
  tr_spec Q L (cpl off Q untransform) (cget4 off Q) (cout off Q) Uc E.
Proof.
  intros B v m j wr wi V Lj. unfold cpl, untransform.
  destruct (cv4 off Q v j) as (A0 & A1 & A2 & A3).
  apply wp_bind. eapply (wp_cget L m v); eauto; [lia|].
  apply wp_bind. eapply (wp_cget L m v); eauto; [lia|].
  apply wp_bind. eapply (wp_cget L m v); eauto; [lia|].
  apply wp_bind. eapply (wp_cget L m v); eauto; [lia|].
  apply wp_bind. eapply wp_cset; eauto; [lia|]. intros m1 V1.
  apply wp_bind. eapply wp_cset; eauto; [lia|]. intros m2 V2.
  apply wp_bind. eapply wp_cset; eauto; [lia|]. intros m3 V3.
  eapply wp_cset; eauto; [lia|]. intros m4 V4.
  eexists. split; [exact V4|]. apply (upd4 off Q v j (Uc (wr, wi) (cget4 off Q v j))); auto.
  intros p. unfold updv, Uc. rewrite <- A0, <- A1, <- A2, <- A3. cbn [fst snd cadd csub cmul conj ci].
  bcases; auto; ring.
Qed.

(* the factors of all sizes *)
Definition tws (k j : nat) : C := if k <? 3 then c1 else twl k (2 ^ (k - 3)) j.

Lemma level_eq tr k off m : level h sn tr k off m =
  glevel k (2 ^ (k - 3)) (cpl off (2 * 2 ^ (k - 3)) tr) m.
Proof.
  unfold level, glevel, cpl. set (n := (2 ^ (k - 3))%nat). assert (1 <= n) by apply pow2pos.
  replace (2 * (2 * n + 0))%nat with (2 * (2 * n))%nat by lia.
  replace (2 * (2 * (2 * n) + 0))%nat with (2 * (4 * n))%nat by lia.
  replace (2 * (3 * (2 * n) + 0))%nat with (2 * (6 * n))%nat by lia.
  destruct (tr _ _ _ _ f1 f0 m) as [m1| |]; cbn [bind]; auto.
  replace (2 * (2 * n + n))%nat with (2 * (3 * n))%nat by lia.
  replace (2 * (2 * (2 * n) + n))%nat with (2 * (5 * n))%nat by lia.
  replace (2 * (3 * (2 * n) + n))%nat with (2 * (7 * n))%nat by lia.
  destruct (tr _ _ _ _ h h m1) as [m2| |]; cbn [bind]; auto.
  f_equal. apply for_up_ext. intros i [w m3] Li. destruct (next sn k w) as [wr wi].
  replace (2 * (2 * (2 * n) + i))%nat with (2 * (4 * n + i))%nat by lia.
  replace (2 * (3 * (2 * n) + i))%nat with (2 * (6 * n + i))%nat by lia.
  replace (2 * (2 * n + (2 * n - i)))%nat with (2 * (4 * n - i))%nat by lia.
  replace (2 * (2 * (2 * n) + (2 * n - i)))%nat with (2 * (6 * n - i))%nat by lia.
  replace (2 * (3 * (2 * n) + (2 * n - i)))%nat with (2 * (8 * n - i))%nat by lia.
  reflexivity.
Qed.

(* after a transform the window of N complex numbers at off has the values f *)
Definition cwin (L off N : nat) (v : nat -> K) (f : nat -> C) (m' : list K) : Prop := exists v', vec L m' v' /\
  (forall i, i < N -> cv v' off i = f i) /\ (forall p, p < off \/ off + 2 * N <= p -> v' p = v p).

Lemma level_wp tr T k off L v m E : 3 <= k -> off + 2 * 2 ^ k <= L -> vec L m v ->
  (let Q := (2 ^ (k - 2))%nat in tr_spec Q L (cpl off Q tr) (cget4 off Q) (cout off Q) T E) ->
  (forall w a b q, q < 4 -> (forall i, i < 4 -> a i = b i) -> T w a q = T w b q) ->
  wp (level h sn tr k off m) (fun m' => exists v', vec L m' v' /\
    (let Q := (2 ^ (k - 2))%nat in forall j q, j < Q -> q < 4 -> cget4 off Q v' j q = T (tws k j) (cget4 off Q v j) q) /\
    (forall p, p < off \/ off + 2 * 2 ^ k <= p -> v' p = v p)) E.
Proof.
  intros Hk B V Sp Ex. rewrite level_eq. cbn zeta in *.
  assert (EQ : (2 ^ (k - 2) = 2 * 2 ^ (k - 3))%nat). { rewrite <- pow2S. f_equal. lia. }
  assert (EN : (2 ^ k = 4 * 2 ^ (k - 2))%nat). { replace k with (S (S (k - 2)))%nat at 1 by lia. cbn [Nat.pow]. lia. }
  rewrite EQ in *. eapply wp_mono.
  { apply (glevel_wp k (2 ^ (k - 3)) (2 * 2 ^ (k - 3)) L eq_refl (pow2pos _) _ _ _ _ _ Sp Ex v m V). }
  intros m' (v' & V' & G & F). exists v'. split; auto. split.
  - intros j q Lj Lq. rewrite G by auto. unfold tws. destruct (Nat.ltb_spec k 3); [lia|]. reflexivity.
  - intros p Op. apply F. unfold cout. lia.
Qed.

(* ---------- the complex transforms ---------- *)

Lemma fftc2_wp off L v m E : off + 4 <= L -> vec L m v ->
  wp (fftc2 off m) (cwin L off 2 v (fun p => if p =? 0 then cadd (cv v off 0) (cv v off 1) else csub (cv v off 0) (cv v off 1))) E.
Proof.
  intros B V. unfold fftc2.
  apply wp_bind. eapply (wp_cget L m v); eauto; [lia|].
  apply wp_bind. eapply (wp_cget L m v); eauto; [lia|].
  apply wp_bind. eapply wp_cset; eauto; [lia|]. intros m1 V1.
  eapply wp_cset; eauto; [lia|]. intros m2 V2. eexists. split; [exact V2|]. split.
  - intros i Li. unfold cv, updv. cbn [fst snd cadd csub].
    replace (off + 2 * 0)%nat with off by lia. replace (off + 2 * 1)%nat with (off + 2)%nat by lia.
    assert (D : i = 0 \/ i = 1) by lia. destruct D as [->| ->].
    + replace (off + 2 * 0)%nat with off by lia. bcases; reflexivity.
    + replace (off + 2 * 1)%nat with (off + 2)%nat by lia. bcases; reflexivity.
  - intros p Op. unfold updv. bcases; reflexivity.
Qed.
Lemma cv_sub v off s i : cv v (off + 2 * s) i = cv v off (s + i).
Proof. unfold cv. f_equal; f_equal; lia. Qed.
Lemma cwin_ext L off N v f g m : cwin L off N v f m -> (forall i, i < N -> f i = g i) -> cwin L off N v g m.
Proof. intros (v' & V & G & F) H. exists v'. split; auto. split; auto. intros i Li. rewrite G, H; auto. Qed.
Lemma Fc_1 a p : Fc tws 1 a p = if p =? 0 then cadd (a 0) (a 1) else csub (a 0) (a 1).
Proof. reflexivity. Qed.
Lemma Fu_1 a p : Fu tws 1 a p = if p =? 0 then cadd (a 0) (a 1) else csub (a 0) (a 1).
Proof. reflexivity. Qed.

(* three windows one after the other: the first half and two quarters *)
Lemma three_wp (run1 run2 run3 : list K -> outcome (list K)) off Q L v m f1' f2' f3' E : off + 8 * Q <= L -> vec L m v ->
  (forall v m, vec L m v -> wp (run1 m) (cwin L off (2 * Q) v (f1' (cv v off))) E) ->
  (forall v m, vec L m v -> wp (run2 m) (cwin L (off + 2 * (2 * Q)) Q v (f2' (cv v (off + 2 * (2 * Q))))) E) ->
  (forall v m, vec L m v -> wp (run3 m) (cwin L (off + 2 * (3 * Q)) Q v (f3' (cv v (off + 2 * (3 * Q))))) E) ->
  (forall a b p, p < Q -> (forall i, i < Q -> a i = b i) -> f2' a p = f2' b p) ->
  (forall a b p, p < Q -> (forall i, i < Q -> a i = b i) -> f3' a p = f3' b p) ->
  wp (let* m := run1 m in let* m := run2 m in run3 m)
    (cwin L off (4 * Q) v (fun p => if p <? 2 * Q then f1' (cv v off) p
       else if p <? 3 * Q then f2' (fun i => cv v off (2 * Q + i)) (p - 2 * Q)%nat
       else f3' (fun i => cv v off (3 * Q + i)) (p - 3 * Q)%nat)) E.
Proof.
  intros B V H1 H2 H3 X2 X3.
  eapply wp_seq. { apply (H1 v m V). } intros m1 (v1 & V1 & G1 & F1).
  eapply wp_seq. { apply (H2 v1 m1 V1). } intros m2 (v2 & V2 & G2 & F2).
  eapply wp_mono. { apply (H3 v2 m2 V2). } intros m3 (v3 & V3 & G3 & F3).
  exists v3. split; auto. split.
  - intros i Li. destruct (Nat.ltb_spec i (2 * Q)); [|destruct (Nat.ltb_spec i (3 * Q))].
    + rewrite <- G1 by lia. unfold cv. rewrite !F3, !F2 by lia. reflexivity.
    + replace i with (2 * Q + (i - 2 * Q))%nat at 1 by lia. rewrite <- cv_sub.
      transitivity (cv v2 (off + 2 * (2 * Q)) (i - 2 * Q)). { unfold cv. rewrite !F3 by lia. reflexivity. }
      rewrite G2 by lia. apply X2; [lia|]. intros r Lr. rewrite cv_sub. unfold cv. rewrite !F1 by lia. reflexivity.
    + replace i with (3 * Q + (i - 3 * Q))%nat at 1 by lia. rewrite <- cv_sub.
      rewrite G3 by lia. apply X3; [lia|]. intros r Lr. rewrite cv_sub. unfold cv. rewrite !F2, !F1 by lia. reflexivity.
  - intros p Op. rewrite F3, F2, F1 by lia. reflexivity.
Qed.

Lemma fftc_SSS k off m : fftc h sn (S (S (S k))) off m =
  let N := (2 ^ S (S (S k)))%nat in
  let* m := level h sn transform (S (S (S k))) off m in
  let* m := fftc h sn (S (S k)) off m in
  let* m := fftc h sn (S k) (off + 2 * (N / 2))%nat m in
  fftc h sn (S k) (off + 2 * (3 * N / 4))%nat m.
Proof. reflexivity. Qed.
Lemma fftc_un_SSS k off m : fftc_un h sn (S (S (S k))) off m =
  let N := (2 ^ S (S (S k)))%nat in
  let* m := fftc_un h sn (S (S k)) off m in
  let* m := fftc_un h sn (S k) (off + 2 * (N / 2))%nat m in
  let* m := fftc_un h sn (S k) (off + 2 * (3 * N / 4))%nat m in
  level h sn untransform (S (S (S k))) off m.
Proof. reflexivity. Qed.
Lemma size4 k : (2 ^ S (S k) = 4 * 2 ^ k /\ 2 ^ S (S k) / 2 = 2 * 2 ^ k /\ 3 * 2 ^ S (S k) / 4 = 3 * 2 ^ k)%nat.
Proof.
  assert (E : (2 ^ S (S k) = 4 * 2 ^ k)%nat) by (cbn [Nat.pow]; lia). rewrite E. split; auto. split.
  - replace (4 * 2 ^ k)%nat with (2 * 2 ^ k * 2)%nat by lia. now apply Nat.div_mul.
  - replace (3 * (4 * 2 ^ k))%nat with (3 * 2 ^ k * 4)%nat by lia. now apply Nat.div_mul.
Qed.
(* a small level *)
Lemma small_wp tr T off L v m E : off + 8 <= L -> vec L m v ->
  tr_spec 1 L (cpl off 1 tr) (cget4 off 1) (cout off 1) T E ->
  (forall w a b q, q < 4 -> (forall i, i < 4 -> a i = b i) -> T w a q = T w b q) ->
  wp (tr off (off + 2)%nat (off + 4)%nat (off + 6)%nat f1 f0 m)
    (cwin L off 4 v (fun q => T c1 (cv v off) q)) E.
Proof.
  intros B V H Ex. specialize (H v m 0 f1 f0 V ltac:(lia)). unfold cpl in H.
  replace (off + 2 * 0)%nat with off in H by lia. replace (off + 2 * (1 + 0))%nat with (off + 2)%nat in H by lia.
  replace (off + 2 * (2 * 1 + 0))%nat with (off + 4)%nat in H by lia. replace (off + 2 * (3 * 1 + 0))%nat with (off + 6)%nat in H by lia.
  eapply wp_mono. { apply H. } intros m' (v' & V' & G & F). exists v'. split; auto. split.
  - intros i Li. specialize (G 0 i ltac:(lia) Li). cbn [Nat.eqb] in G. unfold cget4 in G.
    replace (1 * i + 0)%nat with i in G by lia. rewrite G. apply Ex; auto. intros r Lr. unfold cget4. f_equal. lia.
  - intros p Op. apply F. unfold cout. lia.
Qed.

Theorem fftc_wp k : forall off L v m E, off + 2 * 2 ^ S k <= L -> vec L m v ->
  wp (fftc h sn (S k) off m) (cwin L off (2 ^ S k) v (Fc tws (S k) (cv v off))) E.
Proof.
  induction k using ind2; intros off L v m E B V.
  - cbn in B. eapply wp_mono. { apply (fftc2_wp off L v m); auto. } intros m' H. exact H.
  - cbn in B. cbn [fftc].
    eapply wp_seq. { apply (small_wp transform Tc off L v m E); auto; try lia. apply transform_spec. lia. apply Tc_ext. }
    intros m1 (v1 & V1 & G1 & F1).
    eapply wp_mono. { apply (fftc2_wp off L v1 m1); auto. lia. }
    intros m2 (v2 & V2 & G2 & F2). exists v2. split; auto. split.
    + intros p Lp. cbn in Lp. rewrite Fc_SS. cbn [Nat.pow Nat.mul Nat.add].
      assert (X : cv v1 off 0 = cadd (cv v off 0) (cv v off 2) /\ cv v1 off 1 = cadd (cv v off 1) (cv v off 3)).
      { now rewrite !G1 by lia. }
      destruct X as [X0 X1].
      assert (Y : forall p, p < 4 -> 2 <= p -> cv v2 off p = cv v1 off p). { intros r L1 L2. unfold cv. now rewrite !F2 by lia. }
      assert (D : p = 0 \/ p = 1 \/ p = 2 \/ p = 3) by lia.
      destruct D as [->|[->|[->| ->]]].
      * rewrite G2 by lia. cbn [Nat.eqb Nat.ltb Nat.leb]. rewrite Fc_1, X0, X1. reflexivity.
      * rewrite G2 by lia. cbn [Nat.eqb Nat.ltb Nat.leb]. rewrite Fc_1, X0, X1. reflexivity.
      * rewrite Y, G1 by lia. reflexivity.
      * rewrite Y, G1 by lia. reflexivity.
    + cbn. intros p Op. rewrite F2, F1 by lia. reflexivity.
  - destruct (size4 (S k)) as (EN & E2 & E3). rewrite EN in B |- *.
    rewrite fftc_SSS. cbn zeta. rewrite E2, E3. set (Q := (2 ^ S k)%nat) in *.
    eapply wp_seq.
    { apply (level_wp transform Tc (S (S (S k))) off L v m E); auto; try lia.
      - cbn zeta. replace (S (S (S k)) - 2)%nat with (S k) by lia. apply transform_spec. fold Q. lia.
      - apply Tc_ext. }
    intros m1 (v1 & V1 & G1 & F1). cbn zeta in G1. replace (S (S (S k)) - 2)%nat with (S k) in G1 by lia. fold Q in G1.
    eapply wp_mono.
    { apply (three_wp (fftc h sn (S (S k)) off) (fftc h sn (S k) (off + 2 * (2 * Q))) (fftc h sn (S k) (off + 2 * (3 * Q)))
        off Q L v1 m1 (Fc tws (S (S k))) (Fc tws (S k)) (Fc tws (S k))); auto.
      - lia.
      - intros v' m' V'. replace (2 * Q)%nat with (2 ^ S (S k))%nat by reflexivity. apply IHk; auto. rewrite (pow2S (S k)). fold Q. lia.
      - intros v' m' V'. apply IHk0; auto. fold Q. lia.
      - intros v' m' V'. apply IHk0; auto. fold Q. lia.
      - intros a b p Lp H. now apply Fc_ext.
      - intros a b p Lp H. now apply Fc_ext. }
    intros m' (v' & V' & G' & F').
    assert (W : forall j q, j < Q -> q < 4 -> cv v1 off (Q * q + j) = Tc (tws (S (S (S k))) j) (fun q => cv v off (Q * q + j)) q).
    { intros j q Lj Lq. apply (G1 j q Lj Lq). }
    exists v'. split; auto. split.
    + intros p Lp. rewrite (Fc_SS tws (S k)). rewrite G' by auto. fold Q.
      destruct (Nat.ltb_spec p (2 * Q)); [|destruct (Nat.ltb_spec p (3 * Q))].
      * apply Fc_ext; [|exact H]. intros i Li. replace (2 ^ S (S k))%nat with (2 * Q)%nat in Li by reflexivity.
        destruct (le_lt_dec Q i).
        -- specialize (W (i - Q)%nat 1 ltac:(lia) ltac:(lia)). cbn [Tc] in W. replace (Q * 1 + (i - Q))%nat with i in W by lia.
           rewrite W. f_equal. f_equal. lia.
        -- specialize (W i 0 ltac:(lia) ltac:(lia)). cbn [Tc] in W. replace (Q * 0 + i)%nat with i in W by lia.
           rewrite W. f_equal. f_equal. lia.
      * apply Fc_ext; [|unfold Q in *; lia]. intros i Li. fold Q in Li. specialize (W i 2 ltac:(lia) ltac:(lia)). cbn [Tc] in W.
        replace (2 * Q + i)%nat with (Q * 2 + i)%nat by lia. rewrite W. unfold z2.
        replace (Q * 0 + i)%nat with i by lia. replace (Q * 1 + i)%nat with (Q + i)%nat by lia. replace (Q * 3 + i)%nat with (3 * Q + i)%nat by lia.
        replace (2 * Q + i)%nat with (Q * 2 + i)%nat by lia. reflexivity.
      * apply Fc_ext; [|unfold Q in *; lia]. intros i Li. fold Q in Li. specialize (W i 3 ltac:(lia) ltac:(lia)). cbn [Tc] in W.
        replace (3 * Q + i)%nat with (Q * 3 + i)%nat by lia. rewrite W. unfold z3.
        replace (Q * 0 + i)%nat with i by lia. replace (Q * 1 + i)%nat with (Q + i)%nat by lia. replace (Q * 3 + i)%nat with (3 * Q + i)%nat by lia.
        replace (2 * Q + i)%nat with (Q * 2 + i)%nat by lia. reflexivity.
    + intros p Op. rewrite F', F1; auto; rewrite ?EN; lia.
Qed.

Theorem fftc_un_wp k : forall off L v m E, off + 2 * 2 ^ S k <= L -> vec L m v ->
  wp (fftc_un h sn (S k) off m) (cwin L off (2 ^ S k) v (Fu tws (S k) (cv v off))) E.
Proof.
  induction k using ind2; intros off L v m E B V.
  - cbn in B. eapply wp_mono. { apply (fftc2_wp off L v m); auto. } intros m' H. exact H.
  - cbn in B. cbn [fftc_un].
    eapply wp_seq. { apply (fftc2_wp off L v m); auto. lia. }
    intros m1 (v1 & V1 & G1 & F1).
    eapply wp_mono. { apply (small_wp untransform Uc off L v1 m1 E); auto; try lia. apply untransform_spec. lia. apply Uc_ext. }
    intros m2 (v2 & V2 & G2 & F2). exists v2. split; auto. split.
    + intros p Lp. cbn in Lp. rewrite G2, Fu_SS by lia. unfold Uc, ux, uy. cbn [Nat.pow Nat.mul Nat.add].
      assert (Y : cv v1 off 2 = cv v off 2 /\ cv v1 off 3 = cv v off 3). { unfold cv. now rewrite !F1 by lia. }
      destruct Y as [Y2 Y3].
      assert (D : p = 0 \/ p = 1 \/ p = 2 \/ p = 3) by lia.
      destruct D as [->|[->|[->| ->]]]; cbn [Nat.ltb Nat.leb Nat.sub]; rewrite !G1, Y2, Y3 by lia; reflexivity.
    + cbn. intros p Op. rewrite F2, F1 by lia. reflexivity.
  - destruct (size4 (S k)) as (EN & E2 & E3). rewrite EN in B |- *.
    rewrite fftc_un_SSS. cbn zeta. rewrite E2, E3. set (Q := (2 ^ S k)%nat) in *.
    assert (Three : wp (let* m := fftc_un h sn (S (S k)) off m in let* m := fftc_un h sn (S k) (off + 2 * (2 * Q)) m in
      fftc_un h sn (S k) (off + 2 * (3 * Q)) m) (cwin L off (4 * Q) v (fun p => if p <? 2 * Q then Fu tws (S (S k)) (cv v off) p
       else if p <? 3 * Q then Fu tws (S k) (fun i => cv v off (2 * Q + i)) (p - 2 * Q)%nat
       else Fu tws (S k) (fun i => cv v off (3 * Q + i)) (p - 3 * Q)%nat)) E).
    { apply (three_wp (fftc_un h sn (S (S k)) off) (fftc_un h sn (S k) (off + 2 * (2 * Q))) (fftc_un h sn (S k) (off + 2 * (3 * Q)))
        off Q L v m (Fu tws (S (S k))) (Fu tws (S k)) (Fu tws (S k))); auto.
      - lia.
      - intros v' m' V'. replace (2 * Q)%nat with (2 ^ S (S k))%nat by reflexivity. apply IHk; auto. rewrite (pow2S (S k)). fold Q. lia.
      - intros v' m' V'. apply IHk0; auto. fold Q. lia.
      - intros v' m' V'. apply IHk0; auto. fold Q. lia.
      - intros a b p Lp H. now apply Fu_ext.
      - intros a b p Lp H. now apply Fu_ext. }
    assert (Re : forall A B C D (x : outcome A) (f : A -> outcome B) (g : B -> outcome C) (e : C -> outcome D),
      (let* a := x in let* b := f a in let* c := g b in e c) = (let* c := (let* a := x in let* b := f a in g b) in e c)).
    { intros A0 B0 C0 D0 x f g e. destruct x; cbn; auto. destruct (f a); cbn; auto. }
    rewrite Re. clear Re. eapply wp_seq. { exact Three. }
    intros m1 (v1 & V1 & G1 & F1).
    eapply wp_mono.
    { apply (level_wp untransform Uc (S (S (S k))) off L v1 m1 E); auto; try lia.
      - cbn zeta. replace (S (S (S k)) - 2)%nat with (S k) by lia. apply untransform_spec. fold Q. lia.
      - apply Uc_ext. }
    intros m' (v' & V' & G' & F'). cbn zeta in G'. replace (S (S (S k)) - 2)%nat with (S k) in G' by lia. fold Q in G'.
    exists v'. split; auto. split.
    + intros p Lp.
      assert (W : forall j q, j < Q -> q < 4 -> cv v' off (Q * q + j) = Uc (tws (S (S (S k))) j) (fun q => cv v1 off (Q * q + j)) q).
      { intros j q Lj Lq. apply (G' j q Lj Lq). }
      assert (B1 : forall i, i < 2 * Q -> cv v1 off i = Fu tws (S (S k)) (cv v off) i). { intros i Li. rewrite G1 by lia. bcases; reflexivity. }
      assert (X1 : forall j, j < Q -> cv v1 off (Q * 2 + j) = Fu tws (S k) (fun i => cv v off (2 * Q + i)) j).
      { intros j Lj. rewrite G1 by lia. bcases. f_equal. lia. }
      assert (Y1 : forall j, j < Q -> cv v1 off (Q * 3 + j) = Fu tws (S k) (fun i => cv v off (3 * Q + i)) j).
      { intros j Lj. rewrite G1 by lia. bcases. f_equal. lia. }
      rewrite Fu_SS. unfold ux, uy. fold Q.
      destruct (Nat.ltb_spec p Q); [|destruct (Nat.ltb_spec p (2 * Q)); [|destruct (Nat.ltb_spec p (3 * Q))]].
      * replace p with (Q * 0 + p)%nat at 1 by lia. rewrite W by lia. unfold Uc. rewrite X1, Y1, B1 by lia.
        replace (Q * 0 + p)%nat with p by lia. reflexivity.
      * replace p with (Q * 1 + (p - Q))%nat at 1 by lia. rewrite W by lia. unfold Uc. rewrite X1, Y1, B1 by lia.
        replace (Q * 1 + (p - Q))%nat with p by lia. reflexivity.
      * replace p with (Q * 2 + (p - 2 * Q))%nat at 1 by lia. rewrite W by lia. unfold Uc. rewrite X1, Y1, B1 by lia.
        replace (Q * 0 + (p - 2 * Q))%nat with (p - 2 * Q)%nat by lia. reflexivity.
      * replace p with (Q * 3 + (p - 3 * Q))%nat at 1 by lia. rewrite W by lia. unfold Uc. rewrite X1, Y1, B1 by lia.
        replace (Q * 1 + (p - 3 * Q))%nat with (p - 2 * Q)%nat by lia. reflexivity.
    + intros p Op. rewrite F', F1; auto; rewrite ?EN; lia.
Qed.

(* ---------- the real transforms ---------- *)

Definition rget4 (off Q : nat) (v : nat -> K) (j q : nat) : K :=
  v (off + match q with 0 => 2 * j | 1 => 2 * j + 1 | 2 => 2 * Q + 2 * j | _ => 2 * Q + 2 * j + 1 end)%nat.
Definition rpl (off Q : nat) (tr : nat -> nat -> nat -> nat -> K -> K -> list K -> outcome (list K)) (j : nat) :=
  tr (off + 2 * j)%nat (off + (2 * j + 1))%nat (off + (2 * Q + 2 * j))%nat (off + (2 * Q + 2 * j + 1))%nat.
Definition rout (off Q p : nat) : Prop := p < off \/ off + 4 * Q <= p.
Definition Rc (w : C) (a : nat -> K) (q : nat) : K :=
  let z := cmul (a 0 - a 1, a 2 - a 3) w in
  match q with 0 => a 0 + a 1 | 1 => a 2 + a 3 | 2 => fst z | _ => snd z end.
Definition Vc (w : C) (a : nat -> K) (q : nat) : K :=
  let z := cmul (a 2, a 3) (conj w) in
  match q with 0 => a 0 + fst z | 1 => a 0 - fst z | 2 => a 1 + snd z | _ => a 1 - snd z end.
Lemma Rc_ext w a b q : q < 4 -> (forall i, i < 4 -> a i = b i) -> Rc w a q = Rc w b q.
Proof. intros Lq H. unfold Rc. rewrite !H by lia. reflexivity. Qed.
Lemma Vc_ext w a b q : q < 4 -> (forall i, i < 4 -> a i = b i) -> Vc w a q = Vc w b q.
Proof. intros Lq H. unfold Vc. rewrite !H by lia. reflexivity. Qed.
Lemma rupd4 off Q (v : nat -> K) j (z : nat -> K) v' : j < Q ->
  (forall p, v' p = if p =? off + 2 * j then z 0 else if p =? off + (2 * j + 1) then z 1
    else if p =? off + (2 * Q + 2 * j) then z 2 else if p =? off + (2 * Q + 2 * j + 1) then z 3 else v p) ->
  (forall j' q, j' < Q -> q < 4 -> rget4 off Q v' j' q = if j' =? j then z q else rget4 off Q v j' q) /\
  (forall p, rout off Q p -> v' p = v p).
Proof.
  intros Lj H. split.
  - intros j' q Lj' Lq. unfold rget4. rewrite H.
    assert (D : q = 0 \/ q = 1 \/ q = 2 \/ q = 3) by lia.
    destruct (Nat.eqb_spec j' j) as [->|N]; destruct D as [->|[->|[->| ->]]]; bcases; reflexivity.
  - unfold rout. intros p Op. rewrite H. bcases; reflexivity.
Qed.
Lemma rstep_spec off Q L E : off + 4 * Q <= L -> tr_spec Q L (rpl off Q rstep) (rget4 off Q) (rout off Q) Rc E.
Proof.
  intros B v m j wr wi V Lj. unfold rpl, rstep.
  do 4 (apply wp_bind; eapply (wp_vget (v := v)); eauto; [lia|]).
  apply wp_bind. eapply wp_vset; eauto; [lia|]. intros m1 V1.
  apply wp_bind. eapply wp_vset; eauto; [lia|]. intros m2 V2.
  apply wp_bind. eapply wp_vset; eauto; [lia|]. intros m3 V3.
  eapply wp_vset; eauto; [lia|]. intros m4 V4.
  eexists. split; [exact V4|]. apply (rupd4 off Q v j (Rc (wr, wi) (rget4 off Q v j))); auto.
  intros p. unfold updv, Rc, rget4. cbn [fst snd cmul]. bcases; auto; ring.
Qed.
Lemma vstep_spec off Q L E : off + 4 * Q <= L -> tr_spec Q L (rpl off Q vstep) (rget4 off Q) (rout off Q) Vc E.
Proof.
  intros B v m j wr wi V Lj. unfold rpl, vstep.
  do 4 (apply wp_bind; eapply (wp_vget (v := v)); eauto; [lia|]).
  apply wp_bind. eapply wp_vset; eauto; [lia|]. intros m1 V1.
  apply wp_bind. eapply wp_vset; eauto; [lia|]. intros m2 V2.
  apply wp_bind. eapply wp_vset; eauto; [lia|]. intros m3 V3.
  eapply wp_vset; eauto; [lia|]. intros m4 V4.
  eexists. split; [exact V4|]. apply (rupd4 off Q v j (Vc (wr, wi) (rget4 off Q v j))); auto.
  intros p. unfold updv, Vc, rget4. cbn [fst snd cmul conj]. bcases; auto; ring.
Qed.
Lemma rlevel_eq tr k off m : rlevel h sn tr k off m =
  glevel k (2 ^ (k - 3)) (rpl off (2 * 2 ^ (k - 3)) tr) m.
Proof.
  unfold rlevel, glevel, rpl. set (n := (2 ^ (k - 3))%nat). assert (1 <= n) by apply pow2pos.
  replace (2 * (2 * n) + 2 * 0)%nat with (4 * n)%nat by lia.
  replace (2 * 0 + 1)%nat with 1 by lia. replace (2 * 0)%nat with 0 by lia.
  destruct (tr _ _ _ _ f1 f0 m) as [m1| |]; cbn [bind]; auto.
  replace (2 * (2 * n) + 2 * n)%nat with (6 * n)%nat by lia.
  destruct (tr _ _ _ _ h h m1) as [m2| |]; cbn [bind]; auto.
  f_equal. apply for_up_ext. intros i [w m3] Li. destruct (next sn k w) as [wr wi].
  replace (1 + 2 * i)%nat with (2 * i + 1)%nat by lia.
  replace (2 * (2 * n) + 2 * i + 1)%nat with (4 * n + 1 + 2 * i)%nat by lia.
  replace (2 * (2 * n) + 2 * i)%nat with (4 * n + 2 * i)%nat by lia.
  replace (2 * (2 * n) + 2 * (2 * n - i) + 1)%nat with (8 * n + 1 - 2 * i)%nat by lia.
  replace (2 * (2 * n) + 2 * (2 * n - i))%nat with (8 * n - 2 * i)%nat by lia.
  replace (2 * (2 * n - i) + 1)%nat with (4 * n + 1 - 2 * i)%nat by lia.
  replace (2 * (2 * n - i))%nat with (4 * n - 2 * i)%nat by lia.
  reflexivity.
Qed.
Definition rwin (L off N : nat) (v : nat -> K) (f : nat -> K) (m' : list K) : Prop := exists v', vec L m' v' /\
  (forall i, i < N -> v' (off + i)%nat = f i) /\ (forall p, p < off \/ off + N <= p -> v' p = v p).
Definition rv (v : nat -> K) (off i : nat) : K := v (off + i)%nat.

Lemma rlevel_wp tr T k off L v m E : 3 <= k -> off + 2 ^ k <= L -> vec L m v ->
  (let Q := (2 ^ (k - 2))%nat in tr_spec Q L (rpl off Q tr) (rget4 off Q) (rout off Q) T E) ->
  (forall w a b q, q < 4 -> (forall i, i < 4 -> a i = b i) -> T w a q = T w b q) ->
  wp (rlevel h sn tr k off m) (fun m' => exists v', vec L m' v' /\
    (let Q := (2 ^ (k - 2))%nat in forall j q, j < Q -> q < 4 -> rget4 off Q v' j q = T (tws k j) (rget4 off Q v j) q) /\
    (forall p, p < off \/ off + 2 ^ k <= p -> v' p = v p)) E.
Proof.
  intros Hk B V Sp Ex. rewrite rlevel_eq. cbn zeta in *.
  assert (EQ : (2 ^ (k - 2) = 2 * 2 ^ (k - 3))%nat). { rewrite <- pow2S. f_equal. lia. }
  assert (EN : (2 ^ k = 4 * 2 ^ (k - 2))%nat). { replace k with (S (S (k - 2)))%nat at 1 by lia. cbn [Nat.pow]. lia. }
  rewrite EQ in *. eapply wp_mono.
  { apply (glevel_wp k (2 ^ (k - 3)) (2 * 2 ^ (k - 3)) L eq_refl (pow2pos _) _ _ _ _ _ Sp Ex v m V). }
  intros m' (v' & V' & G & F). exists v'. split; auto. split.
  - intros j q Lj Lq. rewrite G by auto. unfold tws. destruct (Nat.ltb_spec k 3); [lia|]. reflexivity.
  - intros p Op. apply F. unfold rout. lia.
Qed.
Lemma fftr2_wp off L v m E : off + 2 <= L -> vec L m v ->
  wp (fftr2 off m) (rwin L off 2 v (fun p => if p =? 0 then rv v off 0 + rv v off 1 else rv v off 0 - rv v off 1)) E.
Proof.
  intros B V. unfold fftr2.
  do 2 (apply wp_bind; eapply (wp_vget (v := v)); eauto; [lia|]).
  apply wp_bind. eapply wp_vset; eauto; [lia|]. intros m1 V1.
  eapply wp_vset; eauto; [lia|]. intros m2 V2. eexists. split; [exact V2|]. split.
  - intros i Li. unfold rv, updv. replace (off + 0)%nat with off by lia. bcases; reflexivity.
  - intros p Op. unfold updv. bcases; reflexivity.
Qed.
Lemma rsmall_wp tr T off L v m E : off + 4 <= L -> vec L m v ->
  tr_spec 1 L (rpl off 1 tr) (rget4 off 1) (rout off 1) T E ->
  (forall w a b q, q < 4 -> (forall i, i < 4 -> a i = b i) -> T w a q = T w b q) ->
  wp (tr off (off + 1)%nat (off + 2)%nat (off + 3)%nat f1 f0 m) (rwin L off 4 v (fun q => T c1 (rv v off) q)) E.
Proof.
  intros B V H Ex. specialize (H v m 0 f1 f0 V ltac:(lia)). unfold rpl in H.
  replace (off + 2 * 0)%nat with off in H by lia. cbn [Nat.mul Nat.add] in H.
  eapply wp_mono. { apply H. } intros m' (v' & V' & G & F). exists v'. split; auto. split.
  - intros i Li. specialize (G 0 i ltac:(lia) Li). cbn [Nat.eqb] in G.
    assert (X : forall u q, q < 4 -> rget4 off 1 u 0 q = u (off + q)%nat).
    { intros u q Lq. unfold rget4. assert (D : q = 0 \/ q = 1 \/ q = 2 \/ q = 3) by lia.
      destruct D as [->|[->|[->| ->]]]; reflexivity. }
    rewrite X in G by auto. rewrite G. apply Ex; auto. intros r Lr. rewrite X by auto. reflexivity.
  - intros p Op. apply F. unfold rout. lia.
Qed.

Lemma fftr_SSS k off m : fftr h sn (S (S (S k))) off m =
  let* m := rlevel h sn rstep (S (S (S k))) off m in
  let* m := fftr h sn (S (S k)) off m in
  fftc h sn (S k) (off + 2 ^ S (S (S k)) / 2)%nat m.
Proof. reflexivity. Qed.
Lemma fftr_un_SSS k off m : fftr_un h sn (S (S (S k))) off m =
  let* m := fftc_un h sn (S k) (off + 2 ^ S (S (S k)) / 2)%nat m in
  let* m := fftr_un h sn (S (S k)) off m in
  rlevel h sn vstep (S (S (S k))) off m.
Proof. reflexivity. Qed.

Theorem fftr_wp k : forall off L v m E, off + 2 ^ S k <= L -> vec L m v ->
  wp (fftr h sn (S k) off m) (rwin L off (2 ^ S k) v (Fr tws (S k) (rv v off))) E.
Proof.
  induction k using ind2; intros off L v m E B V.
  - cbn in B. eapply wp_mono. { apply (fftr2_wp off L v m); auto. } intros m' H. exact H.
  - cbn in B. cbn [fftr].
    eapply wp_seq. { apply (rsmall_wp rstep Rc off L v m E); auto; try lia. apply rstep_spec. lia. apply Rc_ext. }
    intros m1 (v1 & V1 & G1 & F1).
    eapply wp_mono. { apply (fftr2_wp off L v1 m1); auto. lia. }
    intros m2 (v2 & V2 & G2 & F2). exists v2. split; auto. split.
    + intros p Lp. cbn in Lp. unfold rv in *.
      assert (X : v1 (off + 0)%nat = v (off + 0)%nat + v (off + 1)%nat /\ v1 (off + 1)%nat = v (off + 2)%nat + v (off + 3)%nat).
      { now rewrite !G1 by lia. }
      destruct X as [X0 X1].
      assert (D : p = 0 \/ p = 1 \/ p = 2 \/ p = 3) by lia.
      destruct D as [->|[->|[->| ->]]].
      * rewrite G2 by lia. cbn [Nat.eqb]. rewrite X0, X1. reflexivity.
      * rewrite G2 by lia. cbn [Nat.eqb]. rewrite X0, X1. reflexivity.
      * rewrite F2, G1 by lia. reflexivity.
      * rewrite F2, G1 by lia. reflexivity.
    + cbn. intros p Op. rewrite F2, F1 by lia. reflexivity.
  - clear IHk0. destruct (size4 (S k)) as (EN & E2 & E3). rewrite EN in B |- *.
    rewrite fftr_SSS. rewrite E2. set (Q := (2 ^ S k)%nat) in *.
    eapply wp_seq.
    { apply (rlevel_wp rstep Rc (S (S (S k))) off L v m E); auto; try lia.
      - cbn zeta. replace (S (S (S k)) - 2)%nat with (S k) by lia. apply rstep_spec. fold Q. lia.
      - apply Rc_ext. }
    intros m1 (v1 & V1 & G1 & F1). cbn zeta in G1. replace (S (S (S k)) - 2)%nat with (S k) in G1 by lia. fold Q in G1.
    eapply wp_seq. { apply (IHk off L v1 m1); auto. rewrite (pow2S (S k)). fold Q. lia. }
    rewrite (pow2S (S k)). fold Q. intros m2 (v2 & V2 & G2 & F2).
    eapply wp_mono. { apply (fftc_wp k (off + 2 * Q) L v2 m2); auto. fold Q. lia. }
    fold Q. intros m3 (v3 & V3 & G3 & F3).
    exists v3. split; auto. split.
    + intros p Lp. rewrite Fr_SS. fold Q. destruct (Nat.ltb_spec p (2 * Q)).
      * rewrite F3, G2 by lia. apply Fr_ext; [|rewrite (pow2S (S k)); exact H]. rewrite (pow2S (S k)). fold Q. intros i Li.
        unfold rlo, rv. destruct (halves i) as [j [->| ->]]; rewrite ?even_2, ?even_21.
        -- apply (G1 j 0); lia.
        -- replace (2 * Q + (2 * j + 1) - 1)%nat with (2 * Q + 2 * j)%nat by lia.
           replace (2 * Q + (2 * j + 1))%nat with (2 * Q + 2 * j + 1)%nat by lia. apply (G1 j 1); lia.
      * assert (Z : forall j, j < Q -> cv v2 (off + 2 * Q) j = cmul (rb Q (rv v off) j) (tws (S (S (S k))) j)).
        { intros j Lj. unfold cv. rewrite !F2 by lia. pose proof (G1 j 2 Lj ltac:(lia)) as A2. pose proof (G1 j 3 Lj ltac:(lia)) as A3.
          unfold rget4 in A2, A3. replace (off + 2 * Q + 2 * j + 1)%nat with (off + (2 * Q + 2 * j + 1))%nat by lia.
          replace (off + 2 * Q + 2 * j)%nat with (off + (2 * Q + 2 * j))%nat by lia. rewrite A2, A3. reflexivity. }
        set (j := ((p - 2 * Q) / 2)%nat).
        assert (Ej : (p = 2 * Q + 2 * j \/ p = 2 * Q + 2 * j + 1)%nat).
        { destruct (halves (p - 2 * Q)) as [i [X|X]]; unfold j; rewrite X, ?div_2, ?div_21; lia. }
        assert (Lj : j < Q) by lia. specialize (G3 j Lj). clearbody j.
        rewrite <- (Fc_ext tws (S k) (cv v2 (off + 2 * Q))) by (auto; exact Lj). rewrite <- G3. unfold part, cv.
        destruct Ej as [Ej|Ej]; rewrite Ej.
        -- replace (2 * Q + 2 * j)%nat with (2 * (Q + j))%nat at 2 by lia. rewrite even_2. cbn [fst]. f_equal. lia.
        -- replace (2 * Q + 2 * j + 1)%nat with (2 * (Q + j) + 1)%nat at 2 by lia. rewrite even_21. cbn [snd]. f_equal. lia.
    + intros p Op. rewrite F3, F2, F1; auto; rewrite ?EN; lia.
Qed.
Theorem fftr_un_wp k : forall off L v m E, off + 2 ^ S k <= L -> vec L m v ->
  wp (fftr_un h sn (S k) off m) (rwin L off (2 ^ S k) v (Fru tws (S k) (rv v off))) E.
Proof.
  induction k using ind2; intros off L v m E B V.
  - cbn in B. eapply wp_mono. { apply (fftr2_wp off L v m); auto. } intros m' H. exact H.
  - cbn in B. cbn [fftr_un].
    eapply wp_seq. { apply (fftr2_wp off L v m); auto. lia. }
    intros m1 (v1 & V1 & G1 & F1).
    eapply wp_mono. { apply (rsmall_wp vstep Vc off L v1 m1 E); auto; try lia. apply vstep_spec. lia. apply Vc_ext. }
    intros m2 (v2 & V2 & G2 & F2). exists v2. split; auto. split.
    + intros p Lp. cbn in Lp. rewrite G2, Fru_SS by lia. unfold Vc, uz, rv in *.
      assert (Y : v1 (off + 2)%nat = v (off + 2)%nat /\ v1 (off + 3)%nat = v (off + 3)%nat). { now rewrite !F1 by lia. }
      destruct Y as [Y2 Y3].
      assert (D : p = 0 \/ p = 1 \/ p = 2 \/ p = 3) by lia.
      destruct D as [->|[->|[->| ->]]]; rewrite !G1, Y2, Y3 by lia; reflexivity.
    + cbn. intros p Op. rewrite F2, F1 by lia. reflexivity.
  - clear IHk0. destruct (size4 (S k)) as (EN & E2 & E3). rewrite EN in B |- *.
    rewrite fftr_un_SSS. rewrite E2. set (Q := (2 ^ S k)%nat) in *.
    eapply wp_seq. { apply (fftc_un_wp k (off + 2 * Q) L v m); auto. fold Q. lia. }
    fold Q. intros m1 (v1 & V1 & G1 & F1).
    eapply wp_seq. { apply (IHk off L v1 m1); auto. rewrite (pow2S (S k)). fold Q. lia. }
    rewrite (pow2S (S k)). fold Q. intros m2 (v2 & V2 & G2 & F2).
    eapply wp_mono.
    { apply (rlevel_wp vstep Vc (S (S (S k))) off L v2 m2 E); auto; try lia.
      - cbn zeta. replace (S (S (S k)) - 2)%nat with (S k) by lia. apply vstep_spec. fold Q. lia.
      - apply Vc_ext. }
    intros m3 (v3 & V3 & G3 & F3). cbn zeta in G3. replace (S (S (S k)) - 2)%nat with (S k) in G3 by lia. fold Q in G3.
    assert (Bq : forall i, i < 2 * Q -> v2 (off + i)%nat = Fru tws (S (S k)) (rv v off) i).
    { intros i Li. rewrite G2 by auto. apply Fru_ext; [|rewrite (pow2S (S k)); exact Li]. rewrite (pow2S (S k)). fold Q. intros r Lr.
      unfold rv. rewrite F1 by lia. reflexivity. }
    assert (Z : forall j, j < Q -> cmul (v2 (off + (2 * Q + 2 * j))%nat, v2 (off + (2 * Q + 2 * j + 1))%nat) (conj (tws (S (S (S k))) j)) = uz tws (S k) (rv v off) j).
    { intros j Lj. unfold uz. f_equal. rewrite !F2 by lia. transitivity (cv v1 (off + 2 * Q) j).
      - unfold cv. f_equal; f_equal; lia.
      - rewrite G1 by auto. apply Fu_ext; auto. intros i Li. unfold cv, rv. fold Q. f_equal; f_equal; lia. }
    exists v3. split; auto. split.
    + intros p Lp. rewrite Fru_SS. fold Q. destruct (Nat.ltb_spec p (2 * Q)).
      * destruct (halves p) as [j [Ej|Ej]]; rewrite Ej, ?even_2, ?even_21, ?div_2, ?div_21.
        -- rewrite <- (Z j), <- Bq by lia. apply (G3 j 0); lia.
        -- rewrite <- (Z j), <- Bq by lia. apply (G3 j 1); lia.
      * destruct (halves (p - 2 * Q)) as [j [Ej|Ej]]; rewrite Ej, ?div_2, ?div_21; rewrite <- (Z j), <- Bq by lia.
        -- replace p with (2 * Q + 2 * j)%nat by lia. replace (2 * Q + 2 * j)%nat with (2 * (Q + j))%nat at 2 by lia. rewrite even_2.
           apply (G3 j 2); lia.
        -- replace p with (2 * Q + 2 * j + 1)%nat by lia. replace (2 * Q + 2 * j + 1)%nat with (2 * (Q + j) + 1)%nat at 2 by lia. rewrite even_21.
           apply (G3 j 3); lia.
    + intros p Op. rewrite F3, F2, F1; auto; rewrite ?EN; lia.
Qed.

(* ---------- scaling and products ---------- *)

Lemma fn_pos n : fle f0 (@fn K n) = true /\ (1 <= n -> @fn K n <> f0).
Proof.
  induction n as [|n [I _]]; cbn [fn]. { split; [apply fle_refl|lia]. }
  pose proof (@fle_add K f0 f1 (fn n) f0_le_f1) as A. replace (f0 + @fn K n) with (@fn K n) in A by ring. replace (f1 + @fn K n) with (@fn K n + f1) in A by ring.
  split. { eapply fle_trans; eauto. }
  intros _ E. rewrite E in A. apply (F_1_neq_0 (f_th K)). pose proof (fle_antisym _ _ _ I A) as Z. rewrite <- Z in E. rewrite <- E. ring.
Qed.
Lemma fftc_scale_wp k L v m E : 2 * 2 ^ k <= L -> vec L m v ->
  wp (fftc_scale k m) (cwin L 0 (2 ^ k) v (fun i => cmul (f1 / fn (2 ^ k), f0) (cv v 0 i))) E.
Proof.
  intros B V. unfold fftc_scale. pose proof (pow2pos k) as P.
  apply wp_bind. apply wp_divc. { apply fn_pos. auto. } set (c := f1 / fn (2 ^ k)).
  eapply wp_mono.
  { apply (wp_for 0 (2 ^ k) _ m (fun i m => vec L m (fun p => if p <? 2 * i then v p * c else v p))); [lia| |].
    - eapply vec_ext; [exact V|]. intros. bcases; reflexivity.
    - intros i m1 Li V1. apply wp_bind. eapply wp_cget; eauto; [lia|].
      eapply wp_cset; eauto; [lia|]. intros m2 V2. eapply vec_ext; [exact V2|]. intros p Lp. unfold updv. cbn [fst snd]. bcases; subst; reflexivity. }
  intros m' V'. exists (fun p => if p <? 2 * 2 ^ k then v p * c else v p). split; auto. split.
  - intros i Li. unfold cv. cbn [Nat.add]. bcases. apply ceq; cbn; ring.
  - intros p Op. bcases; reflexivity.
Qed.
Lemma fftr_scale_wp k L v m E : 1 <= k -> 2 ^ k <= L -> vec L m v ->
  wp (fftr_scale k m) (rwin L 0 (2 ^ k) v (fun i => f1 / fn (2 ^ k) * dbl v i)) E.
Proof.
  intros Hk B V. unfold fftr_scale. pose proof (pow2pos (k - 1)) as P.
  assert (EN : (2 ^ k = 2 * 2 ^ (k - 1))%nat). { rewrite <- pow2S. f_equal. lia. }
  assert (NZ : @fn K (2 ^ k) <> f0) by (apply fn_pos; lia).
  apply wp_bind. eapply (wp_vget (v := v)); eauto; [lia|]. apply wp_bind. apply wp_divc; auto.
  apply wp_bind. eapply wp_vset; eauto; [lia|]. intros m1 V1.
  apply wp_bind. eapply wp_vget; eauto; [lia|]. apply wp_bind. apply wp_divc; auto.
  apply wp_bind. eapply wp_vset; eauto; [lia|]. intros m2 V2.
  apply wp_bind. apply wp_divc; auto.
  eapply wp_mono.
  { apply (wp_for 2 (2 ^ k) _ m2 (fun i m => vec L m (fun p => if p <? i then f1 / fn (2 ^ k) * dbl v p else v p))); [lia| |].
    - eapply vec_ext; [exact V2|]. intros p Lp. unfold updv, dbl. bcases; subst; try reflexivity; field; auto.
    - intros i m3 Li V3. apply wp_bind. eapply wp_vget; eauto; [lia|].
      eapply wp_vset; eauto; [lia|]. intros m4 V4. eapply vec_ext; [exact V4|]. intros p Lp. unfold updv, dbl. bcases; subst; try reflexivity.
      field; auto. }
  intros m' V'. eexists. split; [exact V'|]. split.
  - intros i Li. cbn [Nat.add]. bcases; reflexivity.
  - intros p Op. bcases; reflexivity.
Qed.
Lemma fftc_mul_wp n L v m u b E : 2 * n <= L -> vec L m v -> vec L b u ->
  wp (fftc_mul n m b) (cwin L 0 n v (fun i => cmul (cv v 0 i) (cv u 0 i))) E.
Proof.
  intros B V U. unfold fftc_mul.
  eapply wp_mono.
  { apply (wp_for 0 n _ m (fun i m => cwin L 0 i v (fun i => cmul (cv v 0 i) (cv u 0 i)) m)); [lia| |].
    - exists v. split; auto. split; auto. lia.
    - intros i m1 Li (v1 & V1 & G1 & F1). apply wp_bind. eapply wp_cget; eauto; [lia|].
      apply wp_bind. eapply wp_cget; eauto; [lia|].
      eapply wp_cset; eauto; [lia|]. intros m2 V2. eexists. split; [exact V2|]. split.
      + intros j Lj. destruct (Nat.eqb_spec j i) as [->|N].
        * unfold cv, updv. cbn [Nat.add fst snd cmul]. rewrite !F1 by lia. apply ceq; cbn; bcases; reflexivity.
        * rewrite <- G1 by lia. unfold cv, updv. cbn [Nat.add]. apply ceq; cbn [fst snd]; bcases; reflexivity.
      + intros p Op. unfold updv. bcases; apply F1; lia. }
  intros m' H. exact H.
Qed.
Lemma fftr_mul_wp k L v m u b E : 1 <= k -> 2 ^ k <= L -> vec L m v -> vec L b u ->
  wp (fftr_mul k m b) (rwin L 0 (2 ^ k) v (pmul v u)) E.
Proof.
  intros Hk B V U. assert (EN : (2 ^ k = 2 * 2 ^ (k - 1))%nat). { rewrite <- pow2S. f_equal. lia. }
  pose proof (pow2pos (k - 1)) as P.
  assert (D : k = 1 \/ 2 <= k) by lia. destruct D as [->|Hk2].
  - cbn in B. cbn [fftr_mul].
    apply wp_bind. eapply (wp_vget _ _ V); [lia|]. apply wp_bind. eapply (wp_vget _ _ U); [lia|].
    apply wp_bind. eapply (wp_vset _ _ V); [lia|]. intros m1 V1.
    apply wp_bind. eapply (wp_vget _ _ V1); [lia|]. apply wp_bind. eapply (wp_vget _ _ U); [lia|].
    eapply (wp_vset _ _ V1); [lia|]. intros m2 V2. eexists. split; [exact V2|]. split.
    + intros i Li. cbn in Li. unfold updv, pmul. cbn [Nat.add]. assert (D : i = 0 \/ i = 1) by lia. destruct D as [->| ->]; reflexivity.
    + intros p Op. cbn in Op. unfold updv. bcases; reflexivity.
  - unfold fftr_mul. destruct k as [|[|k]]; [lia|lia|].
    replace (2 ^ S (S k) / 2)%nat with (2 ^ (S (S k) - 1))%nat by (rewrite EN, div_2; reflexivity).
    apply wp_bind. eapply (wp_vget _ _ V); [lia|]. apply wp_bind. eapply (wp_vget _ _ U); [lia|].
    apply wp_bind. eapply (wp_vget _ _ V); [lia|]. apply wp_bind. eapply (wp_vget _ _ U); [lia|].
    eapply wp_seq. { apply (fftc_mul_wp _ L v m u b); auto; lia. }
    intros m1 (v1 & V1 & G1 & F1).
    apply wp_bind. eapply wp_vset; eauto; [lia|]. intros m2 V2.
    eapply wp_vset; eauto; [lia|]. intros m3 V3. eexists. split; [exact V3|]. split.
    + intros i Li. cbn [Nat.add]. unfold updv, pmul.
      destruct (Nat.ltb_spec i 2) as [L2|L2]. { assert (D : i = 0 \/ i = 1) by lia. destruct D as [->| ->]; reflexivity. }
      destruct (halves i) as [j Ej]. pose proof (G1 j ltac:(lia)) as G. unfold cv in G. cbn [Nat.add] in G.
      destruct Ej as [-> | ->]; rewrite ?div_2, ?div_21; unfold part; rewrite ?even_2, ?even_21.
      * apply (f_equal fst) in G. cbn [fst] in G. rewrite <- G. bcases; reflexivity.
      * apply (f_equal snd) in G. cbn [snd] in G. rewrite <- G. bcases; reflexivity.
    + intros p Op. unfold updv. bcases; apply F1; lia.
Qed.
End Mem.
