(* Sorting of the eigenpairs and the solutions computed with the decomposition. *)
From Coq Require Import List ZArith Lia Bool Arith Field.
From Verif Require Import Base LinBase GaussProofs PropsGauss LuProofs LdlProofs QrProofs EigModel EigProofs QlProofs.
Import ListNotations.
Local Open Scope nat_scope.

Section Proofs.
Context {K : ofield}.
Local Open Scope lin_scope.
Add Field Kf16 : (f_th K).
Notation matrix := (nat -> nat -> K).
Notation vect := (nat -> K).
Notation eqm n M N := (forall r c, r < n -> c < n -> M r c = N r c).

(* ---------- sorting ---------- *)

Definition perm (n : nat) (p : nat -> nat) : Prop :=
  (forall i, i < n -> p i < n) /\ (forall i j, i < n -> j < n -> p i = p j -> i = j).
Definition sw (i k t : nat) : nat := if t =? i then k else if t =? k then i else t.
Lemma perm_sw n p i k : perm n p -> i < n -> k < n -> perm n (fun t => p (sw i k t)).
Proof.
  intros [A B] I Kk. split.
  - intros t T. apply A. unfold sw. bcases; auto.
  - intros t u T U E. apply B in E; [|unfold sw; bcases; auto..]. revert E. unfold sw. bcases; lia.
Qed.

Lemma fle_trans' (x y z : K) : fle x y = true -> fle y z = true -> fle x z = true.
Proof. apply fle_trans. Qed.

Lemma eig_sort_wp n a d (Q : matrix) (D : vect) Ex : mat n n a Q -> vec n d D ->
  wp (eig_sort n a d) (fun '(a, d) => exists p, perm n p /\ mat n n a (fun r c => Q r (p c)) /\
    vec n d (fun t => D (p t)) /\ forall t u, t < u -> u < n -> fle (D (p u)) (D (p t)) = true) Ex.
Proof.
  intros Ha Hd. unfold eig_sort.
  eapply wp_mono. { apply wp_for with (P := fun i '(a, d) => exists p, perm n p /\ mat n n a (fun r c => Q r (p c)) /\
    vec n d (fun t => D (p t)) /\ forall t u, t < i -> t < u -> u < n -> fle (D (p u)) (D (p t)) = true); [lia| |].
    - exists (fun t => t). repeat split; try apply Ha; try apply Hd; auto. lia.
    - clear a d Ha Hd. intros i [a d] Li (p & Pp & Ha & Hd & Srt).
      apply wp_bind. apply (wp_vget _ _ Hd); [lia|]. cbn beta.
      eapply wp_seq. { apply wp_for with (P := fun j '(k, t) => i <= k < n /\ t = D (p k) /\
          forall u, i <= u < j -> fle (D (p u)) t = true); [lia| |].
        - repeat split; auto; try lia. intros u U. replace u with i by lia. apply fle_refl.
        - intros j [k t] Lj (Lk & -> & M). apply wp_bind. apply (wp_vget _ _ Hd); [lia|]. cbn beta.
          apply wp_ok. destruct (fle (D (p k)) (D (p j))) eqn:E.
          + repeat split; auto; try lia. intros u U. destruct (Nat.eq_dec u j) as [->|]; [apply fle_refl|].
            apply fle_trans with (D (p k)); auto. apply M. lia.
          + repeat split; auto; try lia. intros u U. destruct (Nat.eq_dec u j) as [->|]; [|apply M; lia].
            destruct (fle_total K (D (p j)) (D (p k))); auto. congruence. }
      intros [k t] (Lk & -> & M). destruct (Nat.eqb_spec k i) as [->|Nk].
      + apply wp_ok. exists p. refine (conj Pp (conj Ha (conj Hd _))).
        intros t u T TU U. destruct (Nat.eq_dec t i) as [->|]; [apply M; lia|apply Srt; lia].
      + apply wp_bind. apply (wp_vget _ _ Hd); [lia|]. cbn beta.
        apply wp_bind. apply (wp_vset _ _ Hd); [lia|]. intros d1 Hd1.
        apply wp_bind. apply (wp_vset _ _ Hd1); [lia|]. intros d2 Hd2.
        eapply wp_seq. { apply (wp_for 0 n _ a (fun j a => mat n n a (fun r c => if r <? j then Q r (p (sw i k c)) else Q r (p c)))); [lia| |].
          - eapply mat_ext; [exact Ha|]. intros. bcases; auto.
          - intros j a' Lj Hj.
            apply wp_bind. apply (wp_mget _ _ Hj); [lia|lia|]. cbn beta.
            apply wp_bind. apply (wp_mget _ _ Hj); [lia|lia|]. cbn beta.
            apply wp_bind. apply (wp_mset _ _ Hj); [lia|lia|]. intros a2 H2.
            apply (wp_mset _ _ H2); [lia|lia|]. intros a3 H3.
            eapply mat_ext; [exact H3|]. intros r c R C. unfold updm, sw. bcases; subst; auto. }
        intros a' Ha'. cbn beta in Ha'. apply wp_ok. exists (fun t => p (sw i k t)). repeat apply conj.
        * apply perm_sw; auto; lia.
        * apply perm_sw; auto; lia.
        * apply Ha'.
        * intros r c R C. destruct Ha' as [_ Ha']. rewrite Ha' by auto. bcases. auto.
        * apply Hd2.
        * intros t T. destruct Hd2 as [_ Hd2]. rewrite Hd2 by auto. unfold updv, sw. bcases; subst; auto.
        * intros t u T TU U. destruct (Nat.eq_dec t i) as [->|].
          -- unfold sw at 2. rewrite Nat.eqb_refl. unfold sw. bcases; apply M; lia.
          -- replace (sw i k t) with t by (unfold sw; bcases). unfold sw. bcases; apply Srt; lia. }
  intros [a' d'] (p & Pp & Ha' & Hd' & Srt). exists p. refine (conj Pp (conj Ha' (conj Hd' _))).
  intros. apply Srt; lia.
Qed.

(* ---------- decompositions ---------- *)

Definition eigd (n : nat) (A0 Q : matrix) (D : vect) : Prop :=
  orth n Q /\ forall r c, r < n -> c < n -> mprod n A0 Q r c = D c * Q r c.
Lemma eigd_perm n A0 Q D p : perm n p -> eigd n A0 Q D -> eigd n A0 (fun r c => Q r (p c)) (fun c => D (p c)).
Proof.
  intros [P1 P2] [O H]. split.
  - intros i j I J. transitivity (inner n Q (p i) (p j)); [reflexivity|]. rewrite O by auto.
    unfold ident. destruct (Nat.eqb_spec i j) as [->|N]. { now rewrite Nat.eqb_refl. }
    destruct (Nat.eqb_spec (p i) (p j)) as [E|]; auto. apply P2 in E; auto. contradiction.
  - intros r c R C. transitivity (mprod n A0 Q r (p c)); [reflexivity|]. apply H; auto.
Qed.

Lemma eig_tri_wp sq fuel n a d e (A0 : matrix) : sqrt_pos sq -> 0 < n -> mat n n a A0 -> length d = n -> length e = n ->
  wpf (let* (a, d, e) := tridiag_hh sq n a d e in eig_tri_ql sq fuel n d e a)
    (fun '(d, e, a) => exists D Q, vec n d D /\ mat n n a Q /\ eigd n (symlow A0) Q D).
Proof.
  intros Sq P Ha Ld Le. eapply wpf_seq. { apply wpf_wp. apply (tridiag_wp sq n a d e A0); auto. }
  intros [[a1 d1] e1] (Q & D & E & Ha1 & Hd1 & He1 & O & H).
  eapply wpf_mono. { apply (eig_tri_ql_wp sq fuel n (symlow A0)); auto.
    exists D, E, Q. refine (conj Hd1 (conj He1 (conj Ha1 (conj O (conj H _))))). lia. }
  intros [[d2 e2] a2] (D2 & Q2 & Hd2 & Ha2 & O2 & H2). exists D2, Q2. refine (conj Hd2 (conj Ha2 (conj O2 H2))).
Qed.

Lemma eig_ql_wp sq fuel n a d e (A0 : matrix) sorted : sqrt_pos sq -> 0 < n -> mat n n a A0 ->
  length d = n -> length e = n ->
  wpf (eig_ql sq fuel n a d e sorted) (fun '(a, d) => exists D Q, vec n d D /\ mat n n a Q /\ eigd n (symlow A0) Q D /\
    (sorted = true -> forall t u, t < u -> u < n -> fle (D u) (D t) = true)).
Proof.
  intros Sq P Ha Ld Le. pose proof (eig_tri_wp sq fuel n a d e A0 Sq P Ha Ld Le) as W.
  unfold eig_ql. destruct (Nat.eqb_spec n 0); [lia|].
  destruct (tridiag_hh sq n a d e) as [[[a1 d1] e1]|x|x]; cbn [bind] in *; auto.
  eapply wpf_seq. { exact W. }
  clear W. intros [[d2 e2] a2] (D & Q & Hd & Ha2 & H). destruct sorted.
  - apply wpf_wp. eapply wp_mono. { apply (eig_sort_wp n a2 d2 Q D); auto. }
    intros [a3 d3] (p & Pp & Ha3 & Hd3 & Srt). eexists _, _. split; [exact Hd3|]. split; [exact Ha3|]. split; auto.
    now apply eigd_perm.
  - exists D, Q. refine (conj Hd (conj Ha2 (conj H _))). discriminate.
Qed.

(* ---------- solutions ---------- *)

(* the coefficient of the column i in the solution *)
Definition coef (n : nat) (Q : matrix) (D b : vect) (i : nat) : K :=
  if feqb (D i) f0 then f0 else sumr 0 n (fun t => Q t i * b t) / D i.
Definition esol (n : nat) (Q : matrix) (D b : vect) (r : nat) : K := sumr 0 n (fun i => Q r i * coef n Q D b i).

Lemma sum_loop_wp n (f : nat -> outcome K) (g : vect) (v0 : K) Ex : (forall i (R : K -> Prop), i < n -> R (g i) -> wp (f i) R Ex) ->
  wp (for_up 0 n (fun i v => let* x := f i in Ok (v + x)) v0) (fun v => v = v0 + sumr 0 n g) Ex.
Proof.
  intros H. apply wp_for with (P := fun i v => v = v0 + sumr 0 i g); [lia| |].
  - rewrite sumr_nil by lia. ring.
  - intros i v Li ->. apply wp_bind. apply H; [lia|]. apply wp_ok.
    rewrite Nat.add_1_r, sumr_S by lia. ring.
Qed.

Lemma bksub_eig_wp n q d b p c (Q B : matrix) (D : vect) Ex : mat n n q Q -> vec n d D -> mat n p b B -> c < p ->
  wp (bksub_eig n q d b p c) (fun b' => length b' = length b /\ forall k, k < length b ->
    nth_error b' k = if k <? n then Some (esol n Q D (fun t => B t c) k) else nth_error b k) Ex.
Proof.
  intros Hq Hd Hb Lc. unfold bksub_eig. destruct (Nat.eqb_spec n 0) as [->|Nn].
  { apply wp_ok. split; auto. }
  eapply wp_seq. { apply wp_for with (P := fun j tmp => vec n tmp (fun i => if i <? j then coef n Q D (fun t => B t c) i else f0)); [lia| |].
    - split. { apply repeat_length. } intros i I. bcases.
      apply nth_error_repeat. auto.
    - intros j tmp Lj Ht. apply wp_bind. apply (wp_vget _ _ Hd); [lia|].
      destruct (feqb (D j) f0) eqn:E.
      + apply wp_ok. eapply vec_ext; [exact Ht|]. intros i I. cbn beta. bcases; auto.
        replace i with j by lia. unfold coef. now rewrite E.
      + apply wp_bind. apply (wp_vget _ _ Ht); [lia|]. cbn beta. rewrite Nat.ltb_irrefl.
        eapply wp_seq. { apply wp_for with (P := fun i v => v = sumr 0 i (fun t => Q t j * B t c)); [lia| |].
          - now rewrite sumr_nil by lia.
          - intros i v Li ->. apply wp_bind. apply (wp_mget _ _ Hq); [lia|lia|].
            apply wp_bind. apply (wp_mget _ _ Hb); [lia|lia|]. apply wp_ok.
            rewrite Nat.add_1_r, sumr_S by lia. ring. }
        intros v ->. destruct (feqb_spec (D j) f0) as [|Nz]; [discriminate|].
        apply wp_bind. apply wp_divc; auto. apply (wp_vset _ _ Ht); [lia|]. intros t' Ht'.
        eapply vec_ext; [exact Ht'|]. intros i I. unfold updv. bcases; auto.
        replace i with j by lia. unfold coef. destruct (feqb_spec (D j) f0); [contradiction|reflexivity]. }
  intros tmp Ht. cbn beta in Ht.
  assert (Lb : n <= length b) by (destruct Hb as [-> _]; destruct p; [lia|nia]).
  eapply wp_mono. { apply wp_for with (P := fun j b' => length b' = length b /\ forall k, k < length b ->
      nth_error b' k = if k <? j then Some (esol n Q D (fun t => B t c) k) else nth_error b k); [lia| |].
    - split; auto.
    - intros j b' Lj [L' H'].
      eapply wp_seq. { apply wp_for with (P := fun i v => v = sumr 0 i (fun i => Q j i * coef n Q D (fun t => B t c) i)); [lia| |].
        - now rewrite sumr_nil by lia.
        - intros i v Li ->. apply wp_bind. apply (wp_mget _ _ Hq); [lia|lia|].
          apply wp_bind. apply (wp_vget _ _ Ht); [lia|]. cbn beta. apply wp_ok.
          rewrite Nat.add_1_r, sumr_S by lia. bcases. ring. }
      intros v ->. rewrite aset_ok by lia. apply wp_ok. split. { now rewrite length_upd. }
      intros k Lk. destruct (Nat.eq_dec k j) as [->|N].
      + rewrite nth_error_upd_eq by lia. bcases. reflexivity.
      + rewrite nth_error_upd_ne by auto. rewrite H' by auto. bcases; auto. }
  intros b' [L' H']. split; auto.
Qed.
Lemma bksub_eig_1_wp n q d b (Q : matrix) (D B : vect) Ex : mat n n q Q -> vec n d D -> vec n b B ->
  wp (bksub_eig n q d b 1 0) (fun b' => vec n b' (esol n Q D B)) Ex.
Proof.
  intros Hq Hd Hb. eapply wp_mono. { apply (bksub_eig_wp n q d b 1 0 Q (fun i _ => B i) D); auto. now apply vec_mat. }
  intros b' [L H]. destruct Hb as [Lb _]. split. { lia. }
  intros i I. rewrite H by lia. bcases. reflexivity.
Qed.

Lemma orth_rows' n (Q : matrix) r c : orth n Q -> r < n -> c < n -> sumr 0 n (fun i => Q r i * Q c i) = ident r c.
Proof. intros O. now apply orth_rows. Qed.

(* A times the solution: the part of b in the span of the columns with a non-zero value *)
Lemma esol_apply n (A0 Q : matrix) (D D' b : vect) r : eigd n A0 Q D -> (forall i, i < n -> D' i = D i \/ D' i = f0) -> r < n ->
  dot n A0 r (esol n Q D' b) = sumr 0 n (fun i => if feqb (D' i) f0 then f0 else Q r i * sumr 0 n (fun t => Q t i * b t)).
Proof.
  intros [O H] HD R. unfold dot, esol.
  rewrite (sumr_ext 0 n _ (fun c => sumr 0 n (fun i => A0 r c * Q c i * coef n Q D' b i))).
  2:{ intros c Lc. rewrite <- sumr_scale. apply sumr_ext. intros. ring. }
  rewrite sumr_swap. apply sumr_ext. intros i Li.
  rewrite sumr_scale_r. change (sumr 0 n (fun k => A0 r k * Q k i)) with (mprod n A0 Q r i). rewrite H by lia.
  unfold coef. destruct (feqb_spec (D' i) f0) as [Z|Z]. { ring. }
  destruct (HD i) as [E|E]; [lia| |contradiction]. rewrite E in *. field. auto.
Qed.

Lemma eigd_range n (A0 Q : matrix) (D x b : vect) i : eigd n A0 Q D -> (forall r c, r < n -> c < n -> A0 r c = A0 c r) ->
  solv n A0 x b -> i < n -> D i = f0 -> sumr 0 n (fun t => Q t i * b t) = f0.
Proof.
  intros [O H] Sy S I Z.
  rewrite (sumr_ext 0 n _ (fun t => sumr 0 n (fun c => A0 c t * Q t i * x c))).
  2:{ intros t Lt. rewrite <- S by lia. unfold dot. rewrite <- sumr_scale. apply sumr_ext. intros c Lc. rewrite (Sy c t) by lia. ring. }
  rewrite sumr_swap. apply sumr_zero. intros c Lc. rewrite sumr_scale_r.
  change (sumr 0 n (fun k => A0 c k * Q k i)) with (mprod n A0 Q c i). rewrite H by lia. rewrite Z. ring.
Qed.
Lemma esol_solv n (A0 Q : matrix) (D D' b : vect) : eigd n A0 Q D -> (forall i, i < n -> D' i = D i \/ D' i = f0) ->
  (forall i, i < n -> D' i = f0 -> sumr 0 n (fun t => Q t i * b t) = f0) -> solv n A0 (esol n Q D' b) b.
Proof.
  intros E HD Z r R. rewrite (esol_apply n A0 Q D) by auto.
  rewrite (sumr_ext 0 n _ (fun i => sumr 0 n (fun t => Q r i * Q t i * b t))).
  2:{ intros i Li. destruct (feqb_spec (D' i) f0) as [Y|Y].
      - apply Z in Y; [|lia]. rewrite (sumr_ext 0 n _ (fun t => Q r i * (Q t i * b t))) by (intros; ring).
        rewrite sumr_scale, Y. ring.
      - rewrite <- sumr_scale. apply sumr_ext. intros. ring. }
  rewrite sumr_swap.
  rewrite (sumr_ext 0 n _ (fun t => ident r t * b t)).
  2:{ intros t Lt. rewrite sumr_scale_r. f_equal. apply orth_rows'; auto; try lia. apply E. }
  rewrite (sumr_one 0 n _ r); [|lia|].
  - unfold ident. rewrite Nat.eqb_refl. ring.
  - intros k Lk N. unfold ident. bcases. ring.
Qed.
(* the residual is mapped to zero *)
Lemma esol_lsq n (A0 Q : matrix) (D b : vect) r : eigd n A0 Q D -> r < n ->
  dot n A0 r (fun t => b t - dot n A0 t (esol n Q D b)) = f0.
Proof.
  intros E R.
  assert (Rs : forall t, t < n -> b t - dot n A0 t (esol n Q D b) =
     sumr 0 n (fun i => if feqb (D i) f0 then Q t i * sumr 0 n (fun u => Q u i * b u) else f0)).
  { intros t T. rewrite (esol_apply n A0 Q D) by auto.
    assert (Bt : b t = sumr 0 n (fun i => Q t i * sumr 0 n (fun u => Q u i * b u))).
    { rewrite (sumr_ext 0 n _ (fun i => sumr 0 n (fun u => Q t i * Q u i * b u))).
      2:{ intros i Li. rewrite <- sumr_scale. apply sumr_ext. intros. ring. }
      rewrite sumr_swap, (sumr_ext 0 n _ (fun u => ident t u * b u)).
      2:{ intros u Lu. rewrite sumr_scale_r. f_equal. apply orth_rows'; auto; try lia. apply E. }
      rewrite (sumr_one 0 n _ t); [|lia|].
      - unfold ident. rewrite Nat.eqb_refl. ring.
      - intros k Lk N. unfold ident. bcases. ring. }
    rewrite Bt at 1. rewrite <- sumr_sub. apply sumr_ext. intros i Li. destruct (feqb (D i) f0); ring. }
  unfold dot at 1. rewrite (sumr_ext 0 n _ (fun c => sumr 0 n (fun i => A0 r c * Q c i *
    (if feqb (D i) f0 then sumr 0 n (fun u => Q u i * b u) else f0)))).
  2:{ intros c Lc. rewrite Rs by lia. rewrite <- sumr_scale. apply sumr_ext. intros i Li. destruct (feqb (D i) f0); ring. }
  rewrite sumr_swap. apply sumr_zero. intros i Li. rewrite sumr_scale_r.
  change (sumr 0 n (fun k => A0 r k * Q k i)) with (mprod n A0 Q r i). destruct E as [O H]. rewrite H by lia.
  destruct (feqb_spec (D i) f0) as [Z|Z]; [rewrite Z; ring|ring].
Qed.

(* the value kept by eig_clip *)
Definition clipped (mx tol : K) (D : vect) : vect := fun i => if fltb (fabs (D i)) (mx * tol) then f0 else D i.
Definition largest (n : nat) (D : vect) (mx : K) : Prop :=
  (forall i, i < n -> fle (fabs (D i)) mx = true) /\ exists i, i < n /\ mx = fabs (D i).
Lemma eig_clip_wp tol n d (D : vect) Ex : 0 < n -> vec n d D ->
  wp (eig_clip tol n d) (fun d' => exists mx, largest n D mx /\ vec n d' (clipped mx tol D)) Ex.
Proof.
  intros P Hd. unfold eig_clip.
  eapply wp_seq. { apply wp_for with (P := fun i mx => (forall t, t < i -> fle (fabs (D t)) mx = true) /\
      ((mx = f0 /\ forall t, t < i -> D t = f0) \/ exists t, t < i /\ mx = fabs (D t))); [lia| |].
    - split; [lia|]. left. split; auto. lia.
    - intros i mx Li [M X]. apply wp_bind. apply (wp_vget _ _ Hd); [lia|]. apply wp_ok.
      destruct (fltb mx (fabs (D i))) eqn:E.
      + apply fltb_spec in E as [E _]. split.
        * intros t T. destruct (Nat.eq_dec t i) as [->|]; [apply fle_refl|].
          apply fle_trans with mx; auto. apply M. lia.
        * right. exists i. split; [lia|auto].
      + unfold fltb in E. apply negb_false_iff in E. split.
        * intros t T. destruct (Nat.eq_dec t i) as [->|]; auto. apply M. lia.
        * destruct X as [[-> Z]|(t & T & ->)].
          -- left. split; auto. intros t T. destruct (Nat.eq_dec t i) as [->|]; [|apply Z; lia].
             apply fabs_0. apply fle_antisym; auto. apply fabs_nonneg.
          -- right. exists t. split; [lia|auto]. }
  intros mx [M X]. 
  eapply wp_mono. { apply wp_for with (P := fun i d => vec n d (fun t => if t <? i then clipped mx tol D t else D t)); [lia| |].
    - eapply vec_ext; [exact Hd|]. intros. bcases; auto.
    - intros i d' Li Hd'. apply wp_bind. apply (wp_vget _ _ Hd'); [lia|]. cbn beta. rewrite Nat.ltb_irrefl.
      destruct (fltb (fabs (D i)) (mx * tol)) eqn:E.
      + apply (wp_vset _ _ Hd'); [lia|]. intros d2 H2. eapply vec_ext; [exact H2|]. intros t T. unfold updv.
        bcases; subst; auto. unfold clipped. now rewrite E.
      + apply wp_ok. eapply vec_ext; [exact Hd'|]. intros t T. bcases; auto.
        replace t with i by lia. unfold clipped. now rewrite E. }
  intros d' Hd'. exists mx. split.
  - split; auto. destruct X as [[-> Z]|X]; auto. exists 0. split; auto. symmetry. apply fabs_0. auto.
  - eapply vec_ext; [exact Hd'|]. intros. cbn beta. bcases; auto.
Qed.
Lemma clipped_or mx tol D i : clipped mx tol D i = D i \/ clipped mx tol D i = f0.
Proof. unfold clipped. destruct (fltb _ _); auto. Qed.

Lemma esol_zero n (Q : matrix) (D b : vect) : (forall i, i < n -> b i = f0) -> forall r, esol n Q D b r = f0.
Proof.
  intros Z r. apply sumr_zero. intros i Li. unfold coef. destruct (feqb_spec (D i) f0) as [|N]; [ring|].
  rewrite sumr_zero. { field. auto. } intros t Lt. rewrite Z by lia. ring.
Qed.
Lemma esol_ext n (Q : matrix) (D b b' : vect) r : (forall i, i < n -> b i = b' i) -> esol n Q D b r = esol n Q D b' r.
Proof.
  intros E. apply sumr_ext. intros i Li. f_equal. unfold coef. destruct (feqb (D i) f0); auto. f_equal.
  apply sumr_ext. intros t Lt. rewrite E by lia. auto.
Qed.

Lemma equ_eig_wp sq fuel tol n a b x d e r0 (A0 : matrix) (B : vect) : sqrt_pos sq -> 0 < n -> mat n n a A0 ->
  vec n b B -> length d = n -> length e = n -> length r0 = n ->
  wpf (equ_eig sq fuel tol n a b x d e r0) (fun x' => exists D Q mx, eigd n (symlow A0) Q D /\ largest n D mx /\
    let y := esol n Q (clipped mx tol D) B in
    vec n x' (fun i => y i - esol n Q (clipped mx tol D) (fun r => dot n A0 r y - B r) i)).
Proof.
  intros Sq P Ha Hb Ld Le Lr. unfold equ_eig. destruct (Nat.eqb_spec n 0); [lia|].
  pose proof (eig_tri_wp sq fuel n a d e A0 Sq P Ha Ld Le) as W.
  destruct (tridiag_hh sq n a d e) as [[[a1 d1] e1]|z|z]; cbn [bind] in *; auto.
  eapply wpf_seq. { exact W. }
  clear W. intros [[d2 e2] q] (D & Q & Hd & Hq & H). apply wpf_wp.
  eapply wp_seq. { apply (eig_clip_wp tol n d2 D); auto. }
  intros d3 (mx & Lg & Hd3).
  eapply wp_seq. { apply (bksub_eig_1_wp n q d3 b Q (clipped mx tol D) B); [exact Hq|exact Hd3|exact Hb]. }
  intros x1 Hx1. cbn beta in Hx1. set (y := esol n Q (clipped mx tol D) B) in *.
  eapply wp_seq. { apply (wp_for 0 n _ r0 (fun i r => vec n r (fun t => if t <? i then dot n A0 t y - B t else nth t r0 f0))); [lia| |].
    - eapply vec_ext; [apply vec_of; exact Lr|]. intros. bcases; auto.
    - intros i r Li Hr. apply wp_bind. apply (wp_vget _ _ Hb); [lia|].
      eapply wp_seq. { apply wp_for with (P := fun j v => v = - B i + sumr 0 j (fun c => A0 i c * y c)); [lia| |].
        - rewrite sumr_nil by lia. ring.
        - intros j v Lj ->. apply wp_bind. apply (wp_mget _ _ Ha); [lia|lia|].
          apply wp_bind. apply (wp_vget _ _ Hx1); [lia|]. apply wp_ok. rewrite Nat.add_1_r, sumr_S by lia. ring. }
      intros v ->. apply (wp_vset _ _ Hr); [lia|]. intros r' Hr'. eapply vec_ext; [exact Hr'|].
      intros t T. unfold updv. bcases; subst; auto. unfold dot. ring. }
  intros r1 Hr1. cbn beta in Hr1.
  eapply wp_seq. { apply (bksub_eig_1_wp n q d3 r1 Q (clipped mx tol D) (fun t => dot n A0 t y - B t) _ Hq Hd3). eapply vec_ext; [exact Hr1|].
    intros t T. cbn beta. rewrite (proj2 (Nat.ltb_lt t n)) by auto. reflexivity. }
  intros r2 Hr2. cbn beta in Hr2. set (z := esol n Q (clipped mx tol D) (fun t => dot n A0 t y - B t)) in *.
  eapply wp_mono. { apply (wp_for 0 n _ x1 (fun i x => vec n x (fun t => if t <? i then y t - z t else y t))); [lia| |].
    - eapply vec_ext; [exact Hx1|]. intros. bcases; auto.
    - intros i x2 Li Hx2. apply wp_bind. apply (wp_vget _ _ Hx2); [lia|]. cbn beta. rewrite Nat.ltb_irrefl.
      apply wp_bind. apply (wp_vget _ _ Hr2); [lia|].
      apply (wp_vset _ _ Hx2); [lia|]. intros x3 Hx3. eapply vec_ext; [exact Hx3|].
      intros t T. unfold updv. bcases; subst; auto. }
  intros x4 Hx4. exists D, Q, mx. refine (conj H (conj Lg _)). split; [apply Hx4|].
  intros t T. destruct Hx4 as [_ Hx4]. rewrite Hx4 by auto. bcases. auto.
Qed.

Lemma inv_eig_wp sq fuel tol n a d e (A0 : matrix) : sqrt_pos sq -> 0 < n -> mat n n a A0 ->
  length d = n -> length e = n ->
  wpf (inv_eig sq fuel tol n a d e) (fun a' => exists D Q mx, eigd n (symlow A0) Q D /\ largest n D mx /\
    mat n n a' (fun r c => esol n Q (clipped mx tol D) (fun t => ident t c) r)).
Proof.
  intros Sq P Ha Ld Le. unfold inv_eig. destruct (Nat.eqb_spec n 0); [lia|].
  pose proof (eig_tri_wp sq fuel n a d e A0 Sq P Ha Ld Le) as W.
  destruct (tridiag_hh sq n a d e) as [[[a1 d1] e1]|z|z]; cbn [bind] in *; auto.
  eapply wpf_seq. { exact W. }
  clear W. intros [[d2 e2] q] (D & Q & Hd & Hq & H). apply wpf_wp.
  eapply wp_seq. { apply (eig_clip_wp tol n d2 D); auto. }
  intros d3 (mx & Lg & Hd3). set (D' := clipped mx tol D) in *.
  set (inv := fun r c => esol n Q D' (fun t => ident t c) r).
  eapply wp_mono. { apply (wp_for 0 n _ a (fun i a => mat n n a (fun r c => if r <? i then inv r c else A0 r c))); [lia| |].
    - eapply mat_ext; [exact Ha|]. intros. bcases; auto.
    - intros i a' Li Ha'. eapply wp_mono. { apply (wp_for 0 n _ a' (fun j a => mat n n a (fun r c => if (r <? i) || ((r =? i) && (c <? j)) then inv r c else A0 r c))); [lia| |].
        - eapply mat_ext; [exact Ha'|]. intros. bcases; auto.
        - intros j a2 Lj Ha2.
          eapply wp_seq. { apply wp_for with (P := fun k v => v = sumr 0 k (fun k => Q i k * coef n Q D' (fun t => ident t j) k)); [lia| |].
            - now rewrite sumr_nil by lia.
            - intros k v Lk ->. apply wp_bind. apply (wp_vget _ _ Hd3); [lia|].
              rewrite Nat.add_1_r, sumr_S by lia.
              destruct (feqb_spec (D' k) f0) as [Z|Z].
              + apply wp_ok. unfold coef. destruct (feqb_spec (D' k) f0); [ring|contradiction].
              + apply wp_bind. apply (wp_mget _ _ Hq); [lia|lia|].
                apply wp_bind. apply (wp_mget _ _ Hq); [lia|lia|].
                apply wp_bind. apply wp_divc; auto. apply wp_ok.
                unfold coef. destruct (feqb_spec (D' k) f0); [contradiction|].
                rewrite (sumr_one 0 n _ j); [|lia|].
                * unfold ident. rewrite Nat.eqb_refl. field. auto.
                * intros t Lt Nt. unfold ident. bcases. ring. }
          intros v ->. apply (wp_mset _ _ Ha2); [lia|lia|]. intros a3 Ha3. eapply mat_ext; [exact Ha3|].
          intros r c R C. unfold updm. bcases; subst; auto. }
      intros a2 Ha2. eapply mat_ext; [exact Ha2|]. intros r c R C. cbn beta. bcases; auto. }
  intros a' Ha'. exists D, Q, mx. refine (conj H (conj Lg _)). split; [apply Ha'|].
  intros r c R C. destruct Ha' as [_ Ha']. rewrite Ha' by auto. bcases. auto.
Qed.
End Proofs.
