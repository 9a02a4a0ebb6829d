(* Conjugate gradients with a preconditioner, for C84. *)
From Coq Require Import List ZArith Bool Arith Lia Field.
From Verif Require Import Base LinBase PropsGauss LdlProofs QrProofs PropsQr EigProofs KalmanProofs CgProofs.
Import ListNotations.
Local Open Scope nat_scope.

Section Pcg.
Context {K : ofield}.
Local Open Scope lin_scope.
Add Field Kf58 : (f_th K).
Notation vect := (nat -> K).
Variables (N : nat) (a u : nat -> nat -> K).
Hypothesis asym : forall p q, (p < N)%nat -> (q < N)%nat -> a p q = a q p.
Definition mv (v : vect) (p : nat) : K := sumr 0 N (fun q => a p q * v q).
Definition bil (x v : vect) : K := ip N x (mv v).
Hypothesis apos : forall v, (exists p, (p < N)%nat /\ v p <> f0) -> fltb f0 (bil v v) = true.
(* z solves (u'u) z = r, over y *)
Definition prec (r y z : vect) : Prop :=
  (forall q, (q < N)%nat -> sumr 0 N (fun p => u p q * y p) = r q) /\ (forall p, (p < N)%nat -> sumr 0 N (fun q => u p q * z q) = y p).

Lemma prec_ip r y z r' y' z' : prec r y z -> prec r' y' z' -> ip N r z' = ip N y y'.
Proof.
  intros (A & _) (_ & B). unfold ip.
  rewrite (sumr_ext 0 N _ (fun q => sumr 0 N (fun p => u p q * y p * z' q))).
  2:{ intros q Q. rewrite <- A, <- sumr_scale_r by lia. auto. }
  rewrite sumr_swap. apply sumr_ext. intros p P. rewrite <- (B p) by lia. rewrite <- sumr_scale. apply sumr_ext. intros. ring.
Qed.
Lemma prec_sym r y z r' y' z' : prec r y z -> prec r' y' z' -> ip N r z' = ip N r' z.
Proof. intros A B. rewrite (prec_ip _ _ _ _ _ _ A B), (prec_ip _ _ _ _ _ _ B A). apply ip_comm. Qed.
Lemma prec_nonneg r y z : prec r y z -> fle f0 (ip N r z) = true.
Proof. intros A. rewrite (prec_ip _ _ _ _ _ _ A A). apply ip_nonneg. Qed.
Lemma prec_0 r y z : prec r y z -> ip N r z = f0 -> forall q, (q < N)%nat -> r q = f0.
Proof.
  intros A E q Q. rewrite (prec_ip _ _ _ _ _ _ A A) in E. pose proof (ip_0 _ _ E) as Y. destruct A as (A & _).
  rewrite <- A by auto. apply sumr_zero. intros p P. rewrite Y by lia. ring.
Qed.
Lemma prec_r0 r y z : prec r y z -> ip N r r <> f0 -> ip N r z <> f0.
Proof. intros A E Z. apply E. apply ip_z. now apply (prec_0 _ _ _ A). Qed.

Lemma bil_comm x v : bil x v = bil v x.
Proof.
  unfold bil, ip, mv.
  rewrite (sumr_ext 0 N _ (fun i => sumr 0 N (fun q => x i * (a i q * v q)))) by (intros; now rewrite sumr_scale).
  rewrite sumr_swap. apply sumr_ext. intros q Q. rewrite <- sumr_scale. apply sumr_ext. intros. rewrite (asym q) by lia. ring.
Qed.
Lemma bil_lin x v w b : bil x (fun i => v i + b * w i) = bil x v + b * bil x w.
Proof.
  unfold bil. rewrite <- ip_lin. apply ip_ext; auto. intros i I. unfold mv. rewrite <- sumr_scale, <- sumr_add. apply sumr_ext. intros. ring.
Qed.
Lemma bil_ext x v x' v' : (forall i, (i < N)%nat -> x i = x' i) -> (forall i, (i < N)%nat -> v i = v' i) -> bil x v = bil x' v'.
Proof. intros A B. apply ip_ext; auto. intros i I. apply sumr_ext. intros. rewrite B by lia. auto. Qed.

(* before a step along p from a point with residual r; hist has the steps before *)
Record pinv (hist : list (vect * vect * vect * vect)) (r y z p : vect) : Prop := Pinv {
  p_prec : prec r y z;
  p_hist : Forall (fun '(ph, rh, yh, zh) => prec rh yh zh /\ ip N z rh = f0 /\ ip N r ph = f0 /\ bil p ph = f0 /\ ip N rh zh <> f0) hist;
  p_pr : ip N p r = ip N r z;
  p_A : forall x, ip N x r = f0 -> Forall (fun '(ph, rh, yh, zh) => ip N x rh = f0) hist -> Forall (fun '(ph, rh, yh, zh) => bil x ph = f0) hist;
  p_G : forall x, ip N x p = f0 -> Forall (fun '(ph, rh, yh, zh) => ip N x ph = f0) hist -> ip N x z = f0 /\ Forall (fun '(ph, rh, yh, zh) => ip N x zh = f0) hist;
  p_o : ForallOrdPairs (fun '(_, rh, _, _) '(_, _, _, zk) => ip N rh zk = f0) hist }.

Lemma pcg_start r y z p : prec r y z -> (forall i, (i < N)%nat -> p i = z i) -> pinv [] r y z p.
Proof.
  intros A E. constructor; auto.
  - rewrite ip_comm. apply ip_ext; auto.
  - intros x X _. split; auto. rewrite <- X. apply ip_ext; auto using eq_sym.
  - constructor.
Qed.
Lemma pcg_curv hist r y z p : pinv hist r y z p -> ip N r z <> f0 -> fltb f0 (bil p p) = true.
Proof.
  intros I R. apply apos. destruct (f_eq_dec (ip N p p) f0) as [Z|Z].
  - exfalso. apply R. rewrite <- (p_pr _ _ _ _ _ I). rewrite ip_comm. apply ip_z. now apply ip_0.
  - destruct (existsb (fun i => negb (feqb (p i) f0)) (seq 0 N)) eqn:E.
    + apply existsb_exists in E as (i & S & E). apply in_seq in S. exists i. split; [lia|]. destruct (feqb_spec (p i) f0); auto. discriminate.
    + exfalso. apply Z. apply ip_z. intros i L. destruct (feqb_spec (p i) f0) as [|X]; auto. exfalso.
      assert (T : existsb (fun i => negb (feqb (p i) f0)) (seq 0 N) = true); [|congruence].
      apply existsb_exists. exists i. split; [apply in_seq; lia|]. destruct (feqb_spec (p i) f0); [contradiction|auto].
Qed.
Lemma pcg_step hist r y z p r' y' z' p' : pinv hist r y z p -> ip N r z <> f0 ->
  (forall i, (i < N)%nat -> r' i = r i - ip N r z / bil p p * mv p i) -> prec r' y' z' ->
  (forall i, (i < N)%nat -> p' i = z' i + ip N r' z' / ip N r z * p i) ->
  pinv ((p, r, y, z) :: hist) r' y' z' p'.
Proof.
  intros I R Er Pr Ep. pose proof (pcg_curv _ _ _ _ _ I R) as Cv. pose proof (fpos_nz _ Cv) as Nc.
  pose proof (p_prec _ _ _ _ _ I) as Pz.
  set (al := ip N r z / bil p p) in *. set (be := ip N r' z' / ip N r z) in *.
  assert (Na : al <> f0).
  { unfold al. intros E. apply R. replace (ip N r z) with (ip N r z / bil p p * bil p p) by (field; auto). rewrite E. ring. }
  assert (Mv : forall x, ip N x r' = ip N x r - al * bil x p).
  { intros x. rewrite (ip_ext N x r' x (fun i => r i + - al * mv p i)) by (auto; intros; rewrite Er by auto; ring).
    rewrite ip_lin. unfold bil. ring. }
  assert (Px : forall x, ip N x p' = ip N x z' + be * ip N x p).
  { intros x. rewrite <- ip_lin. apply ip_ext; auto. }
  assert (Bx : forall x, bil x p' = bil x z' + be * bil x p).
  { intros x. rewrite <- bil_lin. apply bil_ext; auto. }
  pose proof (p_hist _ _ _ _ _ I) as H.
  assert (Rp : ip N r' p = f0).
  { rewrite ip_comm, Mv, (p_pr _ _ _ _ _ I). unfold al. field. auto. }
  assert (Rh : Forall (fun '(ph, rh, yh, zh) => ip N r' ph = f0) hist).
  { rewrite Forall_forall in *. intros [[[ph rh] yh] zh] Hh. destruct (H _ Hh) as (_ & _ & A & B & _).
    rewrite ip_comm, Mv, (ip_comm N ph r), A, (bil_comm ph p), B. ring. }
  destruct (p_G _ _ _ _ _ I r' Rp Rh) as (Rz & Rzh).
  assert (Zr : ip N z' r = f0) by (rewrite ip_comm, (prec_sym _ _ _ _ _ _ Pz Pr); auto).
  assert (Zrh : Forall (fun '(ph, rh, yh, zh) => ip N z' rh = f0) hist).
  { rewrite Forall_forall in *. intros [[[ph rh] yh] zh] Hh. destruct (H _ Hh) as (Q & _).
    rewrite ip_comm, (prec_sym _ _ _ _ _ _ Q Pr). apply (Rzh _ Hh). }
  pose proof (p_A _ _ _ _ _ I z' Zr Zrh) as Bh.
  assert (Bp : bil z' p = - (ip N r' z' / al)).
  { pose proof (Mv z') as E. rewrite Zr in E. replace (bil z' p) with (- ((f0 - al * bil z' p) / al)) by (field; auto). rewrite <- E.
    rewrite (ip_comm N z' r'). auto. }
  constructor; auto.
  - constructor.
    + split; [auto|]. split; [auto|]. split; [auto|]. split; [|auto].
      rewrite bil_comm, Bx, (bil_comm p z'), Bp. unfold be, al. field. repeat split; auto.
    + rewrite Forall_forall in *. intros [[[ph rh] yh] zh] Hh. destruct (H _ Hh) as (Q & _ & A & B & D).
      split; [auto|]. split; [apply (Zrh _ Hh)|]. split; [apply (Rh _ Hh)|]. split; [|auto].
      rewrite bil_comm, Bx, (bil_comm ph z'), (Bh _ Hh), (bil_comm ph p), B. ring.
  - rewrite ip_comm, Px, Rp. ring.
  - intros x X1 X2. inversion X2 as [|? ? X3 X4]; subst. constructor; [|apply (p_A _ _ _ _ _ I x X3 X4)].
    pose proof (Mv x) as E. rewrite X1, X3 in E. replace (bil x p) with (- ((f0 - al * bil x p) / al)) by (field; auto). rewrite <- E. field. auto.
  - intros x X1 X2. inversion X2 as [|? ? X3 X4]; subst. destruct (p_G _ _ _ _ _ I x X3 X4) as (Y1 & Y2).
    split; [|constructor; auto]. rewrite Px, X3 in X1. rewrite <- X1. ring.
  - constructor; [|apply (p_o _ _ _ _ _ I)]. rewrite Forall_forall in *. intros [[[ph rh] yh] zh] Hh. destruct (H _ Hh) as (Q & A & _).
    rewrite (prec_sym _ _ _ _ _ _ Pz Q), ip_comm. auto.
Qed.
(* after as many steps as there are unknowns the residual is zero *)
Lemma pcg_end (sq : K -> K) hist r y z p : is_sqrt sq -> pinv hist r y z p -> length hist = N -> forall i, (i < N)%nat -> r i = f0.
Proof.
  intros Sq I L. apply (prec_0 _ _ _ (p_prec _ _ _ _ _ I)). rewrite (prec_ip _ _ _ _ _ _ (p_prec _ _ _ _ _ I) (p_prec _ _ _ _ _ I)).
  apply ip_z. apply (orth_full sq N (map (fun h => snd (fst h)) hist) y Sq).
  - rewrite map_length. lia.
  - pose proof (p_o _ _ _ _ _ I) as O. pose proof (p_hist _ _ _ _ _ I) as H. clear - O H. induction O as [|[[[ph rh] yh] zh] l A O IH]; cbn; [constructor|].
    inversion H as [|? ? H1 H2]; subst. constructor; auto. clear IH O H. destruct H1 as (P1 & _). revert H2. induction A as [|[[[pk rk] yk] zk] l A1 A IHA]; cbn; intros H2; [constructor|].
    inversion H2 as [|? ? H3 H4]; subst. constructor; auto. cbn. destruct H3 as (P2 & _). now rewrite <- (prec_ip _ _ _ _ _ _ P1 P2).
  - pose proof (p_hist _ _ _ _ _ I) as H. pose proof (p_prec _ _ _ _ _ I) as P0. clear - H P0. induction H as [|[[[ph rh] yh] zh] l A H IH]; cbn; constructor; auto.
    cbn. destruct A as (P1 & A & _ & _ & B). split.
    + now rewrite <- (prec_ip _ _ _ _ _ _ P1 P1).
    + rewrite ip_comm, <- (prec_ip _ _ _ _ _ _ P1 P0), ip_comm. auto.
Qed.
End Pcg.
