(* The thermal model: C45 (uniform temperature), C46 (interpolation), C47 (meshes that do
   not match), C67 (the steps are those of the trapezoidal rule) and C68 (steady states). *)
From Coq Require Import List ZArith Lia Bool Arith Field QArith Qcanon.
From Verif Require Import Base LinBase LinDet GaussModel GaussProofs PropsGauss LuModel LuProofs PropsLu
  TransposeModel PropsTranspose CholModel CholProofs LdlProofs PropsChol
  ThermalModel ThermalProofs ThermalAsm ThermalStep ThermalInterp.
Import ListNotations.
Local Close Scope Qc_scope.
Local Close Scope Q_scope.
Local Open Scope nat_scope.

(* ---------- specification ---------- *)

Section Spec.
Context {K : ofield}.
Local Open Scope lin_scope.

(* nl layers lh thick with diffusivities ld; nodes nd, m elements of order w *)
Definition valid (nl : nat) (lh ld : list K) (m n : nat) (nd : list K) (dt : K) (w : nat) : Prop :=
  (w = 1 \/ w = 2 \/ w = 4) /\ 1 <= m /\ n = (m * w + 1)%nat /\ 1 <= nl /\
  length lh = nl /\ length ld = nl /\ length nd = n /\
  (forall l, l < nl -> fltb f0 (nth l lh f0) = true) /\ (forall l, l < nl -> fle f0 (nth l ld f0) = true) /\
  (forall e, e < m -> fltb (nth (e * w) nd f0) (nth (e * w + w) nd f0) = true) /\
  (forall e, e < m -> exists l, l < nl /\ in_layer nd lh w e l) /\
  fltb f0 dt = true.

(* the trapezoidal rule for F dT/dt + K T = 0 between the first and the last node, whose
   temperatures are given; T is the temperature and r its rate of change *)
Definition trapezoidal (n : nat) (Kg Fg : nat -> nat -> K) (dt tp tb : K) (T r T' r' : nat -> K) : Prop :=
  T' 0 = tp /\ T' (n - 1)%nat = tb /\
  (forall i, i < n -> T' i = T i + dt / (f1 + f1) * (r i + r' i)) /\
  (forall i, 1 <= i < n - 1 ->
     sumr 0 n (fun j => Fg i j * r' j) + sumr 0 n (fun j => Kg i j * T' j) = f0).
Fixpoint follows (n : nat) (Kg Fg : nat -> nat -> K) (dt : K) (T r : nat -> K) (l : list (K * K)) (Te : nat -> K) : Prop :=
  match l with
  | [] => forall i, i < n -> Te i = T i
  | (tp, tb) :: l => exists T' r', trapezoidal n Kg Fg dt tp tb T r T' r' /\ follows n Kg Fg dt T' r' l Te
  end.
End Spec.

(* polynomials with rational coefficients, the constant first *)
Fixpoint pmul1 (a : Q) (q : list Q) : list Q := match q with [] => [] | b :: q => (a * b)%Q :: pmul1 a q end.
Fixpoint padd (p q : list Q) : list Q :=
  match p, q with
  | [], q => q
  | p, [] => p
  | a :: p, b :: q => (a + b)%Q :: padd p q
  end.
Fixpoint pmul (p q : list Q) : list Q :=
  match p with [] => [] | a :: p => padd (pmul1 a q) (0%Q :: pmul p q) end.
Fixpoint pder_at (k : Z) (p : list Q) : list Q :=
  match p with [] => [] | a :: p => (inject_Z k * a)%Q :: pder_at (k + 1) p end.
Definition pder (p : list Q) : list Q := match p with [] => [] | _ :: p => pder_at 1 p end.
(* the integral over [-1,1]: that of x^k is 2/(k+1) for even k and zero for odd k *)
Fixpoint pint_at (k : Z) (p : list Q) : Q :=
  match p with
  | [] => 0%Q
  | a :: p => ((if Z.even k then a * (2 / inject_Z (k + 1)) else 0) + pint_at (k + 1) p)%Q
  end.
Definition pint (p : list Q) : Q := pint_at 0 p.
(* the Lagrange polynomials of evenly spaced nodes on [-1,1] *)
Definition phi (w : nat) : list (list Q) :=
  match w with
  | 1 => [[1#2; -1#2]; [1#2; 1#2]]%Q
  | 2 => [[0; -1#2; 1#2]; [1; 0; -1]; [0; 1#2; 1#2]]%Q
  | _ => [[0; 1#6; -1#6; -2#3; 2#3]; [0; -4#3; 8#3; 4#3; -8#3]; [1; 0; -5; 0; 4];
          [0; 4#3; 8#3; -4#3; -8#3]; [0; -1#6; -1#6; 2#3; 2#3]]%Q
  end.

(* ---------- proofs ---------- *)

Section Proofs.
Context {K : ofield}.
Local Open Scope lin_scope.
Add Field Kf25 : (f_th K).
Notation matrix := (nat -> nat -> K).

Lemma fadd_f0 (x : K) : x + f0 = x.
Proof. ring. Qed.
Lemma trap_step n w dt (Kg Fg : matrix) t (T r : nat -> K) tp tb : 1 <= w -> w + 1 <= n -> dt <> f0 ->
  symb w Kg -> symb w Fg -> tok n w dt Kg Fg t -> vec n (t_ng t) (fun i => (f1 + f1) * T i / dt + r i) ->
  exists t' T' r', step t tp tb = Ok t' /\ tok n w dt Kg Fg t' /\ t_nd t' = t_nd t /\ vec n (t_nt t') T' /\
    vec n (t_ng t') (fun i => (f1 + f1) * T' i / dt + r' i) /\ trapezoidal n Kg Fg dt tp tb T r T' r' /\
    forall T1 r1 T2 r2, (forall i, i < n -> T1 i = T i /\ r1 i = r i) ->
      trapezoidal n Kg Fg dt tp tb T1 r1 T2 r2 -> forall i, i < n -> T2 i = T' i /\ r2 i = r' i.
Proof.
  intros W Wn Nd SK SF Tk Vg.
  assert (N2 : f1 + f1 <> @f0 K) by apply f2_nz.
  pose proof (step_wp n w dt Kg Fg t _ tp tb (fun _ => False) W Wn Nd SK SF Tk Vg) as H.
  destruct (step t tp tb) as [t'|x|x]; [|contradiction|contradiction].
  destruct H as (Tk' & Dd & y & Vy & Vg' & Y0 & Y1 & Yi & Un).
  exists t', y, (fun i => (f1 + f1) * (y i - T i) / dt - r i).
  split; auto. split; auto. split; auto. split; auto. split.
  { eapply vec_ext; [exact Vg'|]. intros i Li. cbn beta. field. auto. }
  assert (Eq : forall (u v : nat -> K) i, sumr 0 n (fun j => lhs Kg Fg dt i j * u j) =
      sumr 0 n (fun j => Fg i j * ((f1 + f1) * T j / dt + v j)) <->
      sumr 0 n (fun j => Fg i j * ((f1 + f1) * (u j - T j) / dt - v j)) + sumr 0 n (fun j => Kg i j * u j) = f0).
  { intros u v i.
    assert (X : sumr 0 n (fun j => lhs Kg Fg dt i j * u j) - sumr 0 n (fun j => Fg i j * ((f1 + f1) * T j / dt + v j)) =
      sumr 0 n (fun j => Fg i j * ((f1 + f1) * (u j - T j) / dt - v j)) + sumr 0 n (fun j => Kg i j * u j)).
    { rewrite <- sumr_sub, <- sumr_add. apply sumr_ext. intros j Lj. unfold lhs. field. auto. }
    rewrite <- X. split; intros E.
    - rewrite E. ring.
    - replace (sumr 0 n (fun j => lhs Kg Fg dt i j * u j)) with
        (sumr 0 n (fun j => lhs Kg Fg dt i j * u j) - sumr 0 n (fun j => Fg i j * ((f1 + f1) * T j / dt + v j))
         + sumr 0 n (fun j => Fg i j * ((f1 + f1) * T j / dt + v j))) by ring. rewrite E. ring. }
  split.
  { split; auto. split; auto. split.
    - intros i Li. field. auto.
    - intros i Li. apply Eq. apply Yi. auto. }
  intros T1 r1 T2 r2 E1 (B0 & B1 & Bt & Bi).
  assert (Er : forall i, i < n -> r2 i = (f1 + f1) * (T2 i - T i) / dt - r i).
  { intros i Li. rewrite (Bt i Li). destruct (E1 i Li) as [-> ->]. field. auto. }
  assert (Et : forall i, i < n -> T2 i = y i).
  { apply Un; auto. intros i Li. apply Eq. rewrite <- (Bi i Li). f_equal. apply sumr_ext. intros j Lj.
    rewrite <- Er by lia. auto. }
  intros i Li. split; auto. rewrite Er, Et by auto. auto.
Qed.

Lemma trap_steps n w dt (Kg Fg : matrix) : 1 <= w -> w + 1 <= n -> dt <> f0 -> symb w Kg -> symb w Fg ->
  forall l t (T r : nat -> K), tok n w dt Kg Fg t -> vec n (t_nt t) T -> vec n (t_ng t) (fun i => (f1 + f1) * T i / dt + r i) ->
  exists t', steps t l = Ok t' /\ length (t_nt t') = n /\ t_nd t' = t_nd t /\ t_n t' = n /\ t_w t' = w /\
    follows n Kg Fg dt T r l (fun i => nth i (t_nt t') f0) /\
    forall T1 r1 Te, (forall i, i < n -> T1 i = T i /\ r1 i = r i) -> follows n Kg Fg dt T1 r1 l Te ->
      forall i, i < n -> Te i = nth i (t_nt t') f0.
Proof.
  intros W Wn Nd SK SF. induction l as [|[tp tb] l IH]; intros t T r Tk Vt Vg; cbn [steps follows].
  - exists t. split; auto. destruct Tk as (Tn & Tw & _). destruct Vt as [Lt Vt].
    assert (X : forall i, i < n -> nth i (t_nt t) f0 = T i).
    { intros i Li. apply nth_error_nth. auto. }
    split; [auto|]. split; [auto|]. split; [auto|]. split; [auto|]. split; auto.
    intros T1 r1 Te E1 H i Li. rewrite H, X by auto. apply E1. auto.
  - destruct (trap_step n w dt Kg Fg t T r tp tb W Wn Nd SK SF Tk Vg)
      as (t1 & T' & r' & -> & Tk1 & Dd & Vt1 & Vg1 & Tr & Un). cbn [bind].
    destruct (IH t1 T' r' Tk1 Vt1 Vg1) as (t' & -> & Lt & Dd' & Tn & Tw & Fo & Un').
    exists t'. split; auto. split; auto. split; [congruence|]. split; auto. split; auto. split. { eauto. }
    intros T1 r1 Te E1 (T2 & r2 & Tr2 & Fo2). apply (Un' T2 r2); auto. intros i Li. apply (Un T1 r1); auto.
Qed.

Lemma valid_above nl (lh ld : list K) m n nd dt w : valid nl lh ld m n nd dt w ->
  above nl n w nd lh /\ nonempty n w nd /\ sorted n w nd /\ aligned nl n w nd lh /\ order w.
Proof.
  intros (O & Hm & En & Hn & Lh & Ll & Ln & Th & Di & Inc & Al & Dt).
  assert (W : 1 <= w) by (destruct O as [->|[->| ->]]; lia).
  assert (Em : forall e, (e * w + w < n)%nat -> e < m) by (intros; nia).
  split; [|split; [|split; [|split]]].
  - split; auto. intros e Le. specialize (Em e Le). destruct (Al e Em) as (l & Ll' & I1 & I2).
    eapply lt_le_trans; [apply Inc; auto|]. eapply fle_trans; [exact I2|]. apply (bot_mono nl); auto; lia.
  - intros e Le E. specialize (Inc e (Em e Le)). unfold ndv in E. rewrite E in Inc. now rewrite fltb_irr in Inc.
  - intros e Le. apply lt_le. apply (Inc e (Em e Le)).
  - intros e Le. apply Al. auto.
  - exact O.
Qed.

Lemma valid_new sq nl (lh ld : list K) m n nd nt dt w : has_sqrt sq -> valid nl lh ld m n nd dt w -> length nt = n ->
  exists t lay, new_thermal sq nl lh ld n nd nt dt w = Ok t /\ (forall e, e < m -> lay e < nl /\ in_layer nd lh w e (lay e)) /\
    tok n w dt (asm w m (KeM w) (dcoef ld nd w lay)) (asm w m (FeM w) (fcoef nd w)) t /\
    t_nd t = nd /\ t_nt t = nt /\ vec n (t_ng t) (fun i => (f1 + f1) * nth i nt f0 / dt).
Proof.
  intros Sq V Lt. destruct (valid_above _ _ _ _ _ _ _ _ V) as (Ab & Ne & So & Al & Or).
  destruct V as (O & Hm & En & Hn & Lh & Ll & Ln & Th & Di & Inc & _ & Dt).
  assert (W : 1 <= w) by (destruct O as [->|[->| ->]]; lia).
  pose proof (new_wp sq nl lh ld n nd nt dt w Sq (conj Lh (conj Ll (conj Ln Lt))) W (fpos_nz _ Dt) Ab Ne) as H.
  destruct (new_thermal sq nl lh ld n nd nt dt w) as [t|x|x]; [| |contradiction].
  - destruct H as (_ & _ & _ & m' & lay & En' & Hm' & La & H). assert (m' = m) by nia. subst m'.
    exists t, lay. auto.
  - exfalso. destruct H as [[_ [H|H]]|[[_ (i & Li & Bi)]|[[_ [H|H]]|(_ & _ & m' & lay & En' & Hm' & La & H)]]].
    + nia.
    + apply H. rewrite En, Nat.add_sub. apply Nat.mod_mul. lia.
    + eapply lt_not_le; [apply (Th i Li)|auto].
    + auto.
    + apply H; auto.
    + assert (m' = m) by nia. subst m'. apply H. apply strip_pd; auto.
      * intros e Le. unfold dcoef. destruct (La e Le) as [L1 _].
        assert (P : fltb f0 (len nd w e) = true). { unfold len, ndv. apply fsub_pos. auto. }
        replace (nth (lay e) ld f0 * (f1 + f1) / len nd w e) with (nth (lay e) ld f0 * ((f1 + f1) / len nd w e))
          by (field; now apply fpos_nz).
        apply fle_mul; auto. apply pos_le, fdiv_pos; auto. apply f2_pos.
      * intros e Le. unfold fcoef. apply fdiv_pos; [|apply f2_pos]. unfold len, ndv. apply fsub_pos. auto.
Qed.
End Proofs.

Section Shapes.
Context {K : ofield}.
Local Open Scope lin_scope.
Add Field Kf26 : (f_th K).
Lemma shp_phi w (v : nat -> K) z : order w ->
  shp w v z = sumr 0 (w + 1)%nat (fun k => peval (map fq (nth k (phi w) [])) z * v k).
Proof.
  assert (N2 := @f2_nz K). assert (N1 := @f1_neq_f0 K).
  assert (N3 : f1 + (f1 + f1) <> @f0 K).
  { intros E. apply (@f3_nz K). rewrite <- E. ring. }
  intros [->|[->| ->]]; cbn [shp Nat.add]; rewrite !sumr_S, sumr_nil by lia;
    cbn [nth phi map peval]; unfold fq; cbn [Qnum Qden fz fpos].
  all: field; repeat split;
    repeat first [exact N1|exact N2|exact N3|refine (@fmul_nz K _ _ _ _)].
Qed.
End Shapes.

(* ---------- C67: the steps ---------- *)

(* Whatever the temperatures at the two ends, the temperatures after any number of steps are
   those the trapezoidal rule gives for the assembled element matrices, starting from rest,
   and no others satisfy it. *)
Theorem C67_trapezoidal_rule : forall (K : ofield) (sq : K -> K) nl lh ld m n nd nt dt w,
  has_sqrt sq -> valid nl lh ld m n nd dt w -> length nt = n ->
  exists t lay, new_thermal sq nl lh ld n nd nt dt w = Ok t /\
    (forall e, e < m -> lay e < nl /\ in_layer nd lh w e (lay e)) /\
    forall l, exists t', steps t l = Ok t' /\ length (t_nt t') = n /\ t_nd t' = nd /\ t_n t' = n /\ t_w t' = w /\
      let Kg := asm w m (KeM w) (dcoef ld nd w lay) in
      let Fg := asm w m (FeM w) (fcoef nd w) in
      follows n Kg Fg dt (fun i => nth i nt f0) (fun _ => f0) l (fun i => nth i (t_nt t') f0) /\
      forall Te, follows n Kg Fg dt (fun i => nth i nt f0) (fun _ => f0) l Te ->
        forall i, i < n -> Te i = nth i (t_nt t') f0.
Proof.
  intros K sq nl lh ld m n nd nt dt w Sq V Lt.
  destruct (valid_new sq nl lh ld m n nd nt dt w Sq V Lt) as (t & lay & E & La & Tk & Ed & Et & Vg).
  exists t, lay. split; auto. split; auto. intros l.
  destruct V as (O & Hm & En & Hn & Lh & Ll & Ln & Th & Di & Inc & _ & Dt).
  assert (W : 1 <= w) by (destruct O as [->|[->| ->]]; lia).
  destruct (trap_steps n w dt (asm w m (KeM w) (dcoef ld nd w lay)) (asm w m (FeM w) (fcoef nd w)) W ltac:(nia)
     (fpos_nz _ Dt) (asm_symb_K w m _ O) (asm_symb_F w m _ O) l t (fun i => nth i nt f0) (fun _ => f0) Tk)
    as (t' & Es & Lt' & Dd & Tn & Tw & Fo & Un).
  - rewrite Et. now apply vec_of.
  - eapply vec_ext; [exact Vg|]. intros i Li. cbn beta.
    symmetry. apply fadd_f0.
  - exists t'. split; auto. split; auto. split; [congruence|]. split; auto. split; auto. split; auto.
    intros Te H. apply (Un _ _ Te (fun i Li => conj eq_refl eq_refl) H).
Qed.

(* The element matrices are the integrals over [-1,1] of the products of the shape functions
   and of their derivatives ... *)
Theorem C67_element_matrices : forall w i k, w = 1 \/ w = 2 \/ w = 4 -> i <= w -> k <= w ->
  (qel (FeM w) i k == pint (pmul (nth i (phi w) []) (nth k (phi w) [])))%Q /\
  (qel (KeM w) i k == pint (pmul (pder (nth i (phi w) [])) (pder (nth k (phi w) []))))%Q.
Proof.
  intros w i k [->|[->| ->]] Li Lk;
    repeat (destruct i as [|i]; [repeat (destruct k as [|k]; [split; vm_compute; reflexivity|try lia])|try lia]).
Qed.
(* ... and the shape functions are those used to interpolate. *)
Theorem C67_shape_functions : forall (K : ofield) w (nt : list K) i z, w = 1 \/ w = 2 \/ w = 4 -> i + w < length nt ->
  shape w nt (i + w) z =
  Ok (sumr 0 (w + 1) (fun k => fmul (peval (map fq (nth k (phi w) [])) z) (nth (i + k) nt f0))).
Proof.
  intros K w nt i z O L. rewrite shape_ok by auto. f_equal. now apply shp_phi.
Qed.

(* ---------- C68: steady states ---------- *)

Section Steady.
Context {K : ofield}.
Local Open Scope lin_scope.
Add Field Kf27 : (f_th K).
Notation matrix := (nat -> nat -> K).

Lemma follows_fix n (Kg Fg : matrix) dt (T : nat -> K) k : dt <> f0 ->
  (forall i, 1 <= i < n - 1 -> sumr 0 n (fun j => Kg i j * T j) = f0) ->
  follows n Kg Fg dt T (fun _ => f0) (repeat (T 0, T (n - 1)%nat) k) T.
Proof.
  intros Nd H. induction k; cbn [repeat follows]; auto.
  exists T, (fun _ => f0). split; auto. split; auto. split; auto. split.
  - intros i Li. field. apply f2_nz.
  - intros i Li. rewrite H by auto. rewrite sumr_zero. { ring. } intros. ring.
Qed.
Lemma sumr_tele m (g : nat -> K) : sumr 0 m (fun e => g (S e) - g e) = g m - g 0.
Proof. induction m. { rewrite sumr_nil by lia. ring. } rewrite sumr_S, IHm by lia. ring. Qed.

Lemma fmul_f0 (x : K) : f0 * x = f0.
Proof. ring. Qed.
Lemma steady_aux1 (s a b c n : K) : b = a + n * (c - a) -> s * (b - a) = n * (s * (c - a)).
Proof. intros ->. ring. Qed.
Lemma steady_aux2 (d s a b c n : K) : b = a + n * (c - a) -> b - a <> f0 ->
  d * (f1 + f1) / (b - a) * (s * (c - a) * n) = (f1 + f1) * (d * s).
Proof.
  intros E N. transitivity (d * (f1 + f1) / (b - a) * (s * (n * (c - a)))). { ring. }
  replace (n * (c - a)) with (b - a) by (rewrite E; ring). field. auto.
Qed.
Lemma dcoef_nonneg (d l : K) : fle f0 d = true -> fltb f0 l = true -> fle f0 (d * (f1 + f1) / l) = true.
Proof.
  intros A B. replace (d * (f1 + f1) / l) with (d * ((f1 + f1) / l)) by (field; now apply fpos_nz).
  apply fle_mul; auto. apply pos_le, fdiv_pos; auto. apply f2_pos.
Qed.

Definition crow (w r : nat) : Q := ((if r =? w then inject_Z (Z.of_nat w) / 2 else 0) -
  (if r =? 0 then inject_Z (Z.of_nat w) / 2 else 0))%Q.
Lemma nf_fq k : @nf K k = fq (inject_Z (Z.of_nat k)).
Proof.
  induction k. { rewrite nf_0, fq_0; [auto|reflexivity]. }
  rewrite nf_S, IHk. rewrite (fq_eq (inject_Z (Z.of_nat (S k))) (inject_Z (Z.of_nat k) + 1)%Q).
  - rewrite fq_add. f_equal. unfold fq. cbn. field. apply f1_neq_f0.
  - rewrite Nat2Z.inj_succ. unfold Qeq, inject_Z, Qplus. cbn. lia.
Qed.
Definition crow_b (w : nat) : bool := all_upto w (fun r =>
  Qeq_bool (qsum (w + 1) (fun k => qel (KeM w) r k * inject_Z (Z.of_nat k))%Q) (crow w r)).
Lemma Ke_linear w r : order w -> r <= w ->
  sumr 0 (w + 1)%nat (fun k => fq (qel (KeM w) r k) * @nf K k) = fq (crow w r).
Proof.
  intros O Lr. rewrite (sumr_ext _ _ _ (fun k => fq (qel (KeM w) r k * inject_Z (Z.of_nat k))%Q)).
  2:{ intros k Lk. now rewrite fq_mul, nf_fq. }
  rewrite (fq_sum (w + 1) (fun k => qel (KeM w) r k * inject_Z (Z.of_nat k))%Q). apply fq_eq. apply Qeq_bool_iff.
  assert (B : crow_b w = true) by (destruct O as [->|[->| ->]]; vm_compute; auto).
  apply (all_upto_ok w _ B r Lr).
Qed.
Lemma fq_crow w r : order w -> r <= w -> (f1 + f1) * @fq K (crow w r) = (if r =? w then nf w else f0) - (if r =? 0 then nf w else f0).
Proof.
  intros O Lr. assert (E2 : f1 + f1 = @fq K 2). { unfold fq. cbn. field. apply f1_neq_f0. }
  assert (En : forall q, @fq K q - fq q = f0) by (intros; ring).
  rewrite E2, <- fq_mul, nf_fq.
  assert (W : w <> 0) by (destruct O as [->|[->| ->]]; lia).
  unfold crow. destruct (Nat.eqb_spec r w), (Nat.eqb_spec r 0); subst; try lia.
  - rewrite (fq_eq _ (inject_Z (Z.of_nat w))). { ring. } field.
  - rewrite (fq_eq _ ((-1#1) * inject_Z (Z.of_nat w))%Q). 2:{ field. }
    rewrite fq_mul. replace (@fq K (-1#1)) with (- @f1 K). { ring. } unfold fq. cbn. field. apply f1_neq_f0.
  - rewrite fq_0. { ring. } field.
Qed.

Lemma linear_steady n w m (d : nat -> K) (v : nat -> K) (s : nat -> K) (q : K) : order w -> n = (m * w + 1)%nat ->
  (forall e k, e < m -> k <= w -> v (e * w + k)%nat = v (e * w)%nat + nf k * s e) ->
  (forall e, e < m -> d e * (s e * nf w) = (f1 + f1) * q) ->
  forall i, 1 <= i < n - 1 -> sumr 0 n (fun j => asm w m (KeM w) d i j * v j) = f0.
Proof.
  intros O En Lv Fl i Li. rewrite asm_row by auto.
  assert (W : 1 <= w) by (destruct O as [->|[->| ->]]; lia).
  assert (N2 := @f2_nz K).
  set (g := fun e => if i =? e * w then q else f0).
  rewrite (sumr_ext 0 m _ (fun e => g (S e) - g e)).
  - rewrite sumr_tele. unfold g. replace (m * w)%nat with (n - 1)%nat by lia.
    cbn [Nat.mul]. bcases. ring.
  - intros e Le.
    assert (X : inwin w (e * w) i = true -> d e * sumr 0 (w + 1)%nat (fun k => fq (qel (KeM w) (i - e * w)%nat k) * v (e * w + k)%nat) =
       d e * (s e * fq (crow w (i - e * w)))).
    { intros In. unfold inwin in In. apply andb_true_iff in In. rewrite !Nat.leb_le in In.
      rewrite (sumr_ext _ _ _ (fun k => fq (qel (KeM w) (i - e * w)%nat k) * v (e * w)%nat + (fq (qel (KeM w) (i - e * w)%nat k) * nf k) * s e)).
      2:{ intros k Lk. rewrite (Lv e k) by lia. ring. }
      rewrite sumr_add, !sumr_scale_r, Ke_rows, Ke_linear by (auto; lia). ring. }
    destruct (inwin w (e * w) i) eqn:In.
    + rewrite X by auto. unfold inwin in In. apply andb_true_iff in In. rewrite !Nat.leb_le in In.
      apply (cancel (f1 + f1)); auto.
      transitivity (d e * s e * ((f1 + f1) * fq (crow w (i - e * w)))). { ring. }
      rewrite fq_crow by (auto; lia). specialize (Fl e ltac:(lia)).
      replace (i - e * w =? w) with (i =? S e * w) by (bcases; auto; lia).
      replace (i - e * w =? 0) with (i =? e * w) by (bcases; auto; lia).
      unfold g. assert (Z : d e * s e * nf w = (f1 + f1) * q) by (rewrite <- Fl; ring).
      destruct (i =? S e * w), (i =? e * w).
      * ring.
      * transitivity (d e * s e * nf w). { ring. } rewrite Z. ring.
      * transitivity (- (d e * s e * nf w)). { ring. } rewrite Z. ring.
      * ring.
    + unfold inwin in In. unfold g. apply andb_false_iff in In. rewrite !Nat.leb_gt in In.
      replace (i =? S e * w) with false by (symmetry; apply Nat.eqb_neq; lia).
      replace (i =? e * w) with false by (symmetry; apply Nat.eqb_neq; lia). ring.
Qed.
End Steady.

(* a temperature that falls evenly in each layer, by the same flux q in all of them, is
   kept for ever when the ends are held at it *)
Theorem C68_steady_flux : forall (K : ofield) (sq : K -> K) nl lh ld m n nd nt dt w (q : K) (slope : nat -> K),
  has_sqrt sq -> valid nl lh ld m n nd dt w -> even m w nd -> length nt = n ->
  (forall e k, e < m -> k <= w ->
     nth (e * w + k) nt f0 = fadd (nth (e * w) nt f0) (fmul (slope e) (fsub (nth (e * w + k) nd f0) (nth (e * w) nd f0)))) ->
  (forall e l, e < m -> l < nl -> in_layer nd lh w e l -> fmul (nth l ld f0) (slope e) = q) ->
  exists t, new_thermal sq nl lh ld n nd nt dt w = Ok t /\
    forall k, exists t', steps t (repeat (nth 0 nt f0, nth (n - 1) nt f0) k) = Ok t' /\ t_nt t' = nt.
Proof.
  intros K sq nl lh ld m n nd nt dt w q slope Sq V Ev Lt Lin Fl.
  destruct (C67_trapezoidal_rule K sq nl lh ld m n nd nt dt w Sq V Lt) as (t & lay & E & La & H).
  exists t. split; auto. intros k.
  destruct (H (repeat (nth 0 nt f0, nth (n - 1) nt f0) k)) as (t' & Es & Lt' & _ & _ & _ & _ & Un).
  exists t'. split; auto.
  destruct V as (O & Hm & En & Hn & Lh & Ll & Ln & Th & Di & Inc & _ & Dt).
  assert (X : forall i, i < n -> nth i nt f0 = nth i (t_nt t') f0).
  { apply Un. apply (follows_fix n _ _ dt (fun i => nth i nt f0) k (fpos_nz _ Dt)).
    apply (linear_steady n w m _ (fun i => nth i nt f0)
      (fun e => fmul (slope e) (fsub (ndv nd (e * w + 1)) (ndv nd (e * w)))) q O En).
    - intros e k' Le Lk. rewrite (Lin e k' Le Lk). f_equal. fold (ndv nd (e * w + k')) (ndv nd (e * w)).
      apply steady_aux1. now apply (even_nodes m).
    - intros e Le. destruct (La e Le) as [L1 I1]. rewrite <- (Fl e (lay e) Le L1 I1).
      unfold dcoef, len. apply steady_aux2.
      + now apply (even_nodes m).
      + apply fpos_nz. apply fsub_pos. apply (Inc e Le). }
  apply (nth_ext _ _ f0 f0); [lia|]. intros i Li. symmetry. apply X. lia.
Qed.

(* ---------- C45: uniform temperature ---------- *)

Theorem C45_uniform : forall (K : ofield) (sq : K -> K) nl lh ld m n nd dt w (T : K),
  has_sqrt sq -> valid nl lh ld m n nd dt w ->
  exists t, new_thermal sq nl lh ld n nd (repeat T n) dt w = Ok t /\
    forall k, exists t', steps t (repeat (T, T) k) = Ok t' /\ t_nt t' = repeat T n.
Proof.
  intros K sq nl lh ld m n nd dt w T Sq V.
  destruct (C67_trapezoidal_rule K sq nl lh ld m n nd (repeat T n) dt w Sq V (repeat_length _ _)) as (t & lay & E & La & H).
  exists t. split; auto. intros k.
  destruct (H (repeat (T, T) k)) as (t' & Es & Lt' & _ & _ & _ & _ & Un).
  exists t'. split; auto.
  destruct V as (O & Hm & En & Hn & Lh & Ll & Ln & Th & Di & Inc & _ & Dt).
  assert (Rp : forall i, i < n -> nth i (repeat T n) f0 = T).
  { intros i Li. rewrite (nth_indep _ f0 T) by (rewrite repeat_length; lia). apply nth_repeat. }
  assert (W : 1 <= w) by (destruct O as [->|[->| ->]]; lia).
  assert (X : forall i, i < n -> nth i (repeat T n) f0 = nth i (t_nt t') f0).
  { apply Un. rewrite <- (Rp 0) at 1 by lia. rewrite <- (Rp (n - 1)) at 2 by nia.
    apply (follows_fix n _ _ dt (fun i => nth i (repeat T n) f0) k (fpos_nz _ Dt)).
    intros i Li. rewrite (sumr_ext _ _ _ (fun j => fmul (asm w m (KeM w) (dcoef ld nd w lay) i j) T)).
    - rewrite sumr_scale_r, (asm_rows0 n) by auto. apply fmul_f0.
    - intros j Lj. now rewrite Rp by lia. }
  apply (nth_ext _ _ f0 f0). { now rewrite repeat_length. } intros i Li. symmetry. apply X. lia.
Qed.

(* ---------- C46: interpolation ---------- *)

(* a model as the constructor and the steps leave it *)
Definition constructed {K : ofield} (m n w : nat) (t : thermal K) : Prop :=
  (w = 1 \/ w = 2 \/ w = 4) /\ 1 <= m /\ n = m * w + 1 /\ t_n t = n /\ t_w t = w /\
  length (t_nd t) = n /\ length (t_nt t) = n.

Theorem C46_interpolate_partial : forall (K : ofield) m n w (t : thermal K) pd,
  constructed m n w t -> increasing n (t_nd t) -> even m w (t_nd t) -> depths_sorted pd ->
  exists l, interpolate t pd = Ok l /\ Forall2 (value_at n m w (t_nd t) (t_nt t)) pd l.
Proof.
  intros K m n w t pd (O & Hm & En & Tn & Tw & Ld & Lt) Inc Ev So. unfold interpolate.
  pose proof (interp_wp n m w t (fun _ => False) O En Hm Tn Tw Ld Lt Inc Ev pd 0 ltac:(lia) So ltac:(auto)) as H.
  cbn [Nat.mul] in H. destruct (interp t 0 pd) as [l|x|x]; try contradiction. eauto.
Qed.
(* a profile that is one polynomial is reproduced at all depths of the mesh *)
Corollary C46_polynomial_partial : forall (K : ofield) m n w (t : thermal K) pd c,
  constructed m n w t -> increasing n (t_nd t) -> even m w (t_nd t) -> depths_sorted pd ->
  length c <= w + 1 -> (forall i, i < n -> nth i (t_nt t) f0 = peval c (nth i (t_nd t) f0)) ->
  (forall x, In x pd -> fle (nth 0 (t_nd t) f0) x = true /\ fle x (nth (n - 1) (t_nd t) f0) = true) ->
  interpolate t pd = Ok (map (peval c) pd).
Proof.
  intros K m n w t pd c C Inc Ev So Lc P B.
  destruct (C46_interpolate_partial K m n w t pd C Inc Ev So) as (l & -> & F). f_equal.
  destruct C as (O & Hm & En & Tn & Tw & Ld & Lt).
  assert (W : 1 <= w) by (destruct O as [->|[->| ->]]; lia).
  clear So. induction F as [|x y pd l V F IH]; cbn [map]; auto. f_equal.
  - destruct (B x (or_introl eq_refl)) as [B0 B1]. destruct V as (_ & _ & _ & V).
    (* the element x is in *)
    assert (Ex : exists e, e < m /\ fle (ndv (t_nd t) (e * w)) x = true /\ fle x (ndv (t_nd t) (e * w + w)) = true).
    { assert (G : forall e, e < m -> fle x (ndv (t_nd t) (e * w + w)) = true ->
        exists e', e' < m /\ fle (ndv (t_nd t) (e' * w)) x = true /\ fle x (ndv (t_nd t) (e' * w + w)) = true).
      { induction e; intros Le Hx.
        - exists 0. split; auto.
        - destruct (fle_or_lt (ndv (t_nd t) (S e * w)) x) as [L|L]. { exists (S e). auto. }
          apply IHe; [lia|]. replace (e * w + w) with (S e * w) by lia. now apply lt_le. }
      apply (G (m - 1)); [lia|]. replace ((m - 1) * w + w) with (n - 1) by nia. exact B1. }
    destruct Ex as (e & Le & X1 & X2). apply (V e c Le Lc); auto.
    intros k Lk. apply P. nia.
  - apply IH. intros z Iz. apply B. now right.
Qed.
(* in any order the depths are dealt with without undefined behaviour *)
Theorem C46_no_undefined : forall (K : ofield) m n w (t : thermal K) pd,
  constructed m n w t -> increasing n (t_nd t) ->
  exists l, interpolate t pd = Ok l /\ length l = length pd.
Proof.
  intros K m n w t pd (O & Hm & En & Tn & Tw & Ld & Lt) Inc. unfold interpolate.
  assert (W : 1 <= w) by (destruct O as [->|[->| ->]]; lia).
  assert (G : forall pd e, e <= m -> exists l, interp t (e * w) pd = Ok l /\ length l = length pd).
  2:{ apply (G pd 0). lia. }
  induction pd0 as [|x pd0 IH]; intros e Le; cbn [interp]. { exists []. auto. }
  assert (S1 : exists e' y, interp1 t x (e * w) = Ok (e' * w, y) /\ e' <= m).
  { unfold interp1. rewrite Tn, Tw. rewrite (aget_nth (t_nd t)) by lia. cbn [bind].
    destruct (fle x _) eqn:E0. { rewrite (aget_nth (t_nt t)) by lia. cbn [bind]. eauto. }
    rewrite (aget_nth (t_nd t)) by lia. cbn [bind].
    destruct (fle (nth (n - 1) (t_nd t) f0) x) eqn:E1. { rewrite (aget_nth (t_nt t)) by lia. cbn [bind]. eauto. }
    assert (Lx : fltb x (ndv (t_nd t) (n - 1)) = true) by (unfold fltb, ndv; now rewrite E1).
    pose proof (find_node_wp n w m (t_nd t) x (fun _ => False) En W Ld Lx (n + 1) e Le ltac:(nia)) as F.
    destruct (find_node (n + 1) (t_nd t) w x (e * w)) as [j|u|u]; try contradiction. cbn [bind].
    destruct F as (e' & -> & Le' & Fx & _).
    assert (Ne : e' <> 0). { intros ->. cbn in Fx. unfold ndv in Fx. congruence. }
    rewrite (aget_nth (t_nd t)) by nia. cbn [bind].
    destruct (feqb x _). { rewrite (aget_nth (t_nt t)) by nia. cbn [bind]. exists e', (nth (e' * w) (t_nt t) f0). split; auto. lia. }
    set (e0 := e' - 1). assert (Ee : e' * w = e0 * w + w) by (unfold e0; nia). rewrite Ee.
    assert (e0 * w + w < n) by nia.
    rewrite (agetm_ok (t_nd t) (e0 * w + w) w (e0 * w)) by lia. cbn [bind].
    rewrite divc_ok. 2:{ apply fpos_nz, fsub_pos. apply (inc_lt n (t_nd t) Inc); lia. }
    cbn [bind]. rewrite shape_ok by (auto; lia). cbn [bind]. rewrite <- Ee. eexists e', _. split; auto. lia. }
  destruct S1 as (e' & y & -> & Le'). cbn [bind]. destruct (IH e' Le') as (l & -> & Ll). cbn [bind].
  exists (y :: l). cbn. auto.
Qed.

(* ---------- C47: meshes that do not match ---------- *)

(* When every element starts above the bottom of the layers, the constructor either makes a
   model, and then every element lies in one layer, or throws for a reason. *)
Theorem C47_reject_partial : forall (K : ofield) (sq : K -> K) nl lh ld n nd nt dt w,
  has_sqrt sq -> lengths nl n lh ld nd nt -> 1 <= w -> dt <> f0 ->
  above nl n w nd lh -> nonempty n w nd ->
  match new_thermal sq nl lh ld n nd nt dt w with
  | Ok t => w < n /\ (n - 1) mod w = 0 /\ (w = 1 \/ w = 2 \/ w = 4) /\
      (forall i, i < nl -> fltb f0 (nth i lh f0) = true) /\ aligned nl n w nd lh
  | Throw OutOfRange => exists i, i < nl /\ fle (nth i lh f0) f0 = true
  | Throw InvalidArgument => n <= w \/ (n - 1) mod w <> 0 \/ ~ (w = 1 \/ w = 2 \/ w = 4) \/
      (sorted n w nd -> ~ aligned nl n w nd lh)
  | Throw RuntimeError => sorted n w nd -> (forall i, i < nl -> fle f0 (nth i ld f0) = true) -> fltb f0 dt = false
  | Throw _ => False
  | UB _ => False
  end.
Proof.
  intros K sq nl lh ld n nd nt dt w Sq L W Nd Ab Ne.
  pose proof (new_wp sq nl lh ld n nd nt dt w Sq L W Nd Ab Ne) as H.
  destruct (new_thermal sq nl lh ld n nd nt dt w) as [t|x|x]; [| |contradiction].
  - destruct H as (Wn & O & Th & m & lay & En & Hm & La & _). split; [lia|]. split.
    { rewrite En, Nat.add_sub. apply Nat.mod_mul. lia. }
    split; [exact O|]. split; [exact Th|]. intros e Le. exists (lay e). apply La. nia.
  - destruct H as [[-> [H|H]]|[[-> H]|[[-> [H|H]]|(-> & O & m & lay & En & Hm & La & H)]]]; auto.
    + left. lia.
    + intros So Dl. destruct (fltb f0 dt) eqn:Dt; auto. exfalso. apply H.
      assert (Pl : forall e, e < m -> fltb f0 (len nd w e) = true).
      { intros e Le. apply fsub_pos. apply fltb_spec. split. { apply So. nia. } intros E. symmetry in E.
        apply (Ne e) in E; auto. nia. }
      apply strip_pd; auto.
      * intros e Le. destruct (La e Le) as [L1 _]. unfold dcoef. apply dcoef_nonneg; auto.
      * intros e Le. unfold fcoef. apply fdiv_pos; auto. apply f2_pos.
Qed.
Corollary C47_misaligned_partial : forall (K : ofield) (sq : K -> K) nl lh ld n nd nt dt w,
  has_sqrt sq -> lengths nl n lh ld nd nt -> 1 <= w -> dt <> f0 ->
  above nl n w nd lh -> nonempty n w nd -> ~ aligned nl n w nd lh ->
  exists e, new_thermal sq nl lh ld n nd nt dt w = Throw e.
Proof.
  intros K sq nl lh ld n nd nt dt w Sq L W Nd Ab Ne Na.
  pose proof (C47_reject_partial K sq nl lh ld n nd nt dt w Sq L W Nd Ab Ne) as H.
  destruct (new_thermal sq nl lh ld n nd nt dt w) as [t|x|x]; [tauto|eauto|contradiction].
Qed.
(* and a mesh that matches is accepted *)
Theorem C47_valid_accepted : forall (K : ofield) (sq : K -> K) nl lh ld m n nd nt dt w,
  has_sqrt sq -> valid nl lh ld m n nd dt w -> length nt = n ->
  exists t, new_thermal sq nl lh ld n nd nt dt w = Ok t.
Proof.
  intros K sq nl lh ld m n nd nt dt w Sq V Lt.
  destruct (valid_new sq nl lh ld m n nd nt dt w Sq V Lt) as (t & _ & E & _). eauto.
Qed.

(* ---------- cases over the rationals ---------- *)

Definition q23 : QcF := fdiv (qz 2) (qz 3).
Definition tens (l : list Z) : list QcF := map (fun x => fdiv x (qz 10)) (nums l).
Definition temps (o : outcome (thermal QcF)) : outcome (list QcF) := let* t := o in Ok (t_nt t).
(* two layers 1 thick, of diffusivity 1, and a time step for which the root is that of 4 *)
Definition ex_new (nt : list QcF) : outcome (thermal QcF) :=
  new_thermal root 2 (nums [1; 1]%Z) (nums [1; 1]%Z) 3 (nums [0; 1; 2]%Z) nt q23 1.
Example ex_valid : valid (K := QcF) 2 (nums [1; 1]%Z) (nums [1; 1]%Z) 2 3 (nums [0; 1; 2]%Z) q23 1.
Proof.
  repeat split; auto; try lia.
  - intros [|[|]] H; try lia; reflexivity.
  - intros [|[|]] H; try lia; reflexivity.
  - intros [|[|]] H; try lia; reflexivity.
  - intros [|[|]] H; try lia; [exists 0|exists 1]; split; auto; split; reflexivity.
Qed.
Example ex_uniform : same (temps (let* t := ex_new (nums [7; 7; 7]%Z) in
  steps t (repeat (qz 7, qz 7) 3))) (nums [7; 7; 7]%Z) = true.
Proof. vm_compute. reflexivity. Qed.
Example ex_steady : same (temps (let* t := ex_new (nums [1; 4; 7]%Z) in
  steps t (repeat (qz 1, qz 7) 3))) (nums [1; 4; 7]%Z) = true.
Proof. vm_compute. reflexivity. Qed.
(* the surface is heated *)
Example ex_heated : same (temps (let* t := ex_new (nums [0; 0; 0]%Z) in
  steps t [(qz 8, qz 0)])) (nums [8; 1; 0]%Z) = true.
Proof. vm_compute. reflexivity. Qed.

Definition ex_model (w : nat) (nd nt : list QcF) : thermal QcF :=
  {| t_n := length nd; t_w := w; t_dt := f1; t_nd := nd; t_nt := nt; t_ng := []; t_KK := []; t_FF := [];
     t_Kt := []; t_Kb := [] |}.
Example ex_interp : same (interpolate (ex_model 2 (nums [0; 1; 2; 4; 6]%Z) (nums [0; 1; 4; 16; 36]%Z)) (nums [-1; 0; 1; 3; 5; 6; 9]%Z))
  (nums [0; 0; 1; 9; 25; 36; 36]%Z) = true.
Proof. vm_compute. reflexivity. Qed.
Example ex_mesh : constructed 2 5 2 (ex_model 2 (nums [0; 1; 2; 4; 6]%Z) (nums [0; 1; 4; 16; 36]%Z)) /\
  increasing 5 (nums [0; 1; 2; 4; 6]%Z) /\ even 2 2 (nums [0; 1; 2; 4; 6]%Z).
Proof.
  repeat split; auto; try lia.
  - intros i H. destruct i as [|[|[|[|]]]]; try lia; reflexivity.
  - intros e k H1 H2. destruct e as [|[|]]; try lia; destruct k as [|[|]]; try lia; apply Qc_is_canon; reflexivity.
Qed.

(* C46 fails for nodes that do not divide their element evenly, which the constructor does
   not ask for: a profile that is the depth itself is not found again half way down *)
Theorem C46_uneven_refuted : exists (t : thermal QcF) x,
  constructed 1 3 2 t /\ increasing 3 (t_nd t) /\ (forall i, i < 3 -> nth i (t_nt t) f0 = nth i (t_nd t) f0) /\
  exists y, interpolate t [x] = Ok [y] /\ feqb x y = false.
Proof.
  exists (ex_model 2 (tens [0; 3; 10]%Z) (tens [0; 3; 10]%Z)), (fdiv (qz 5) (qz 10)).
  split; [|split; [|split]].
  - repeat split; auto; lia.
  - intros i H. destruct i as [|[|]]; try lia; reflexivity.
  - reflexivity.
  - eexists. split; vm_compute; reflexivity.
Qed.
(* and such a mesh is accepted; the roots are those of the reals, see ThermalReal *)

(* C46 needs the depths to be sorted: going back up gives a temperature beyond those of the nodes *)
Theorem C46_unsorted_refuted : exists (t : thermal QcF) x1 x2,
  constructed 2 3 1 t /\ increasing 3 (t_nd t) /\ even 2 1 (t_nd t) /\
  interpolate t [x2] <> Ok [x1] /\
  exists y, interpolate t [x1; x2] = Ok [y; x1] /\ interpolate t [x1] = Ok [y] /\
    forall i, i < 3 -> fltb (nth i (t_nt t) f0) x1 = true.
Proof.
  exists (ex_model 1 (nums [0; 1; 2]%Z) (nums [0; 1; 0]%Z)), (fdiv (qz 3) (qz 2)), (fdiv (qz 1) (qz 2)).
  split; [|split; [|split; [|split]]].
  - repeat split; auto; lia.
  - intros i H. destruct i as [|[|]]; try lia; reflexivity.
  - intros e k H1 H2. destruct e as [|[|]]; try lia; destruct k as [|]; try lia; apply Qc_is_canon; reflexivity.
  - intros H. apply (f_equal (fun o => same o [fdiv (qz 3) (qz 2)])) in H. vm_compute in H. discriminate.
  - eexists. split; [|split].
    + vm_compute. reflexivity.
    + vm_compute. reflexivity.
    + intros i H. destruct i as [|[|[|]]]; try lia; reflexivity.
Qed.

(* C47 is false of a mesh that goes on below the layers: the search for the layer of an element
   runs past the end of the layers.  It is false too of elements of order 0 and of no layers. *)
Theorem C47_below_refuted : forall sq,
  new_thermal (K := QcF) sq 1 (nums [1]%Z) (nums [1]%Z) 3 (nums [0; 1; 2]%Z) (nums [5; 5; 5]%Z) f1 1 = UB OutOfBounds.
Proof. intros. vm_compute. reflexivity. Qed.
Theorem C47_order0_refuted : forall (K : ofield) (sq : K -> K) nl lh ld n nd nt dt, 1 <= n ->
  new_thermal sq nl lh ld n nd nt dt 0 = UB DivByZero.
Proof.
  intros K sq nl lh ld n nd nt dt N. unfold new_thermal.
  destruct (Nat.ltb_spec n (0 + 1)); [lia|]. reflexivity.
Qed.
Theorem C47_no_layers_refuted : forall (K : ofield) (sq : K -> K) ld n nd nt dt w,
  1 <= w -> w < n -> (n - 1) mod w = 0 -> length nd = n ->
  new_thermal sq 0 [] ld n nd nt dt w = UB OutOfBounds.
Proof.
  intros K sq ld n nd nt dt w W L Dv Ln. unfold new_thermal.
  destruct (Nat.ltb_spec n (w + 1)); [lia|]. destruct (Nat.eqb_spec w 0); [lia|]. rewrite Dv. cbn [Nat.eqb negb].
  cbn [bottoms for_up iter bind].
  assert (D : exists k, (n - 1) / w = S k).
  { exists ((n - 1) / w - 1). pose proof (Nat.div_mod (n - 1) w ltac:(lia)). nia. }
  destruct D as [k Ek]. destruct nd as [|x nd]. { cbn in Ln. lia. } unfold elements, for_up. rewrite Ek. reflexivity.
Qed.

Print Assumptions C45_uniform.
Print Assumptions C46_interpolate_partial.
Print Assumptions C46_polynomial_partial.
Print Assumptions C46_no_undefined.
Print Assumptions C46_uneven_refuted.
Print Assumptions C46_unsorted_refuted.
Print Assumptions C47_reject_partial.
Print Assumptions C47_misaligned_partial.
Print Assumptions C47_valid_accepted.
Print Assumptions C47_below_refuted.
Print Assumptions C47_order0_refuted.
Print Assumptions C47_no_layers_refuted.
Print Assumptions C67_trapezoidal_rule.
Print Assumptions C67_element_matrices.
Print Assumptions C67_shape_functions.
Print Assumptions C68_steady_flux.
