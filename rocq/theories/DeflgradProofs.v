(* Proofs about deflgrad, for C80. *)
From Coq Require Import List ZArith Bool Arith Lia Field.
From Verif Require Import Base LinBase PropsGauss LdlProofs QrModel QrProofs PropsQr EigProofs BowlModel KalmanModel KalmanProofs DeflgradModel CgProofs.
Import ListNotations.
Local Open Scope nat_scope.

Section Deflgrad.
Context {K : ofield}.
Local Open Scope lin_scope.
Add Field Kf49 : (f_th K).
Notation vect := (nat -> K).
Notation two := (@f1 K + f1).
Notation No := (fun _ : exn => False).

Lemma divc_ok (x y : K) (Q : K -> Prop) Ex : y <> f0 -> Q (x / y) -> wp (divc x y) Q Ex.
Proof. intros N H. unfold divc. destruct (feqb_spec y f0); [contradiction|exact H]. Qed.
Lemma fnat_pos n : 0 < n -> fltb f0 (@fnat K n) = true.
Proof.
  intros P. apply fltb_spec. split.
  - clear P. induction n; cbn; [apply fle_refl|]. apply fadd_nonneg; auto. apply f0_le_f1.
  - destruct n; [lia|]. cbn. intros E. symmetry in E. apply fadd_0_nonneg in E as (_ & E); [now apply (F_1_neq_0 (f_th K)) in E| |apply f0_le_f1].
    clear. induction n; cbn; [apply fle_refl|]. apply fadd_nonneg; auto. apply f0_le_f1.
Qed.
Lemma mul_pos (a b : K) : fltb f0 a = true -> fltb f0 b = true -> fltb f0 (a * b) = true.
Proof.
  intros A B. pose proof (fpos_nz _ A). pose proof (fpos_nz _ B). apply fltb_spec in A as (A & _). apply fltb_spec in B as (B & _).
  apply fltb_spec. split; [now apply fle_mul|]. intros E. symmetry in E. apply fmul_0 in E as [|]; contradiction.
Qed.
Lemma inv_pos (a b : K) : fltb f0 a = true -> fltb f0 b = true -> fltb f0 (b / a) = true.
Proof.
  intros A B. pose proof (fpos_nz _ A) as N. pose proof (fpos_nz _ B) as N2. apply fltb_spec. split.
  - apply (pos_le _ _ A). replace (a * (b / a)) with b by (field; auto). apply fltb_spec in B. tauto.
  - intros E. apply N2. replace b with (a * (b / a)) by (field; auto). rewrite <- E. ring.
Qed.

Variable sq : K -> K.
Hypothesis Sq : is_sqrt sq.
Lemma sq_pos x : fltb f0 x = true -> fltb f0 (sq x) = true.
Proof.
  intros P. pose proof (fpos_nz _ P) as N. apply fltb_spec in P as (P & _). destruct (Sq x P) as (A & B). apply fltb_spec. split; auto.
  intros E. apply N. rewrite <- A, <- E. ring.
Qed.

Section Problem.
Variables (dl nl : nat) (D : defls (K := K)).
Hypothesis Wh : whole dl nl D.
Hypothesis Dl : 0 < dl.
Hypothesis Nz : forall j, j < dl -> sqs nl (hmat D j) <> f0.
Notation F := (hmat D).
Definition dgsum : K := sumr 0 dl (fun j => f1 / sq (sqs nl (F j))).
Definition dgcst : K := fnat dl * fnat dl / (dgsum * dgsum).
Definition dgm (j : nat) : K := sqs nl (F j) * dgcst.
Definition dgc (j : nat) : K := nth j (calculated D) f0 - nth j (measured D) f0.

Lemma row_pos j : j < dl -> fltb f0 (sqs nl (F j)) = true.
Proof. intros J. apply fltb_spec. split; [apply sqs_nonneg|]. intros E. symmetry in E. now apply Nz in E. Qed.
Lemma dgsum_pos : fltb f0 dgsum = true.
Proof.
  assert (T : forall j, j < dl -> fltb f0 (f1 / sq (sqs nl (F j))) = true).
  { intros j J. apply inv_pos; [apply sq_pos; now apply row_pos|]. apply fltb_spec. split; [apply f0_le_f1|]. intros E. symmetry in E. now apply (F_1_neq_0 (f_th K)) in E. }
  apply fltb_spec. split.
  - apply sumr_nonneg. intros j J. assert (Jl : j < dl) by lia. apply T in Jl. apply fltb_spec in Jl. tauto.
  - intros E. symmetry in E. apply sumr_nonneg_0 with (k := 0) in E; [|intros j J; assert (Jl : j < dl) by lia; apply T in Jl; apply fltb_spec in Jl; tauto|lia].
    specialize (T 0 Dl). apply fpos_nz in T. contradiction.
Qed.
Lemma dgcst_pos : fltb f0 dgcst = true.
Proof. apply inv_pos; apply mul_pos; auto using dgsum_pos, fnat_pos. Qed.
Lemma dgm_pos j : j < dl -> fltb f0 (dgm j) = true.
Proof. intros J. apply mul_pos; auto using row_pos, dgcst_pos. Qed.

Lemma dg_setup_wp (pg0 md0 cd0 dg0 : list K) : length pg0 = (dl * nl)%nat -> length md0 = dl -> length cd0 = dl -> length dg0 = dl ->
  wp (dg_setup sq dl nl D pg0 md0 cd0 dg0) (fun '(CD, MD, PG, DG) =>
    vec dl CD (fun j => nth j (calculated D) f0) /\ vec dl MD (fun j => nth j (measured D) f0) /\ mat dl nl PG F /\ vec dl DG dgm) No.
Proof.
  intros Lp Lm Lc Lg. unfold dg_setup. pose proof Wh as (W1 & W2 & W3 & W4).
  eapply wp_seq. { apply (fill1_wp dl _ cd0 (fun j => nth j (calculated D) f0)); auto. intros i I. apply wp_nth with (n := dl); auto. }
  intros CD VC. eapply wp_seq. { apply (fill1_wp dl _ md0 (fun j => nth j (measured D) f0)); auto. intros i I. apply wp_nth with (n := dl); auto. }
  intros MD VM. eapply wp_seq. { apply (fill_wp dl nl _ pg0 F); auto. intros i j I J. eapply gradat_wp; eauto. }
  intros PG MP. eapply wp_seq. { apply (fill1_wp dl _ dg0 (fun j => sqs nl (F j))); auto. intros j J. apply (acc_wp nl _ (fun i => F j i * F j i)).
    intros i I. eapply wp_bind. eapply (wp_mget _ _ MP); auto. reflexivity. }
  intros DG VD. eapply wp_seq. { apply (acc_wp dl _ (fun j => f1 / sq (sqs nl (F j)))). intros j J. eapply wp_bind. eapply (wp_vget _ _ VD); auto.
    apply divc_ok; auto. apply fpos_nz, sq_pos. now apply row_pos. }
  intros gg ->. fold dgsum. eapply wp_seq. { apply divc_ok with (Q := fun x => x = dgcst); [apply fpos_nz, mul_pos; apply dgsum_pos|reflexivity]. }
  intros x ->. eapply wp_seq. { apply (fill1_wp dl _ DG dgm); [apply VD|]. intros j J. eapply wp_bind. eapply (wp_vget _ _ VD); auto. reflexivity. }
  intros DG2 VD2. cbn [wp]. auto.
Qed.

Variables (PG MD DG : list K).
Hypothesis MP : mat dl nl PG F.
Hypothesis VM : vec dl MD (fun j => nth j (measured D) f0).
Hypothesis VD : vec dl DG dgm.
Notation gr := (gr dl nl F dgm dgc).
Notation lin := (lin nl F).
Notation err := (err dl nl F dgm dgc).
Notation bi := (bi dl nl F dgm).
Notation ip := (ip nl).
Notation cginv := (cginv dl nl F dgm dgc).
Notation cg_a := (cg_a dl nl F dgm).
Definition dgcd (W : vect) (j : nat) : K := nth j (calculated D) f0 + lin W j.

Lemma dg_along_wp (l : list K) v j : vec nl l v -> j < dl -> wp (dg_along nl PG l j) (fun x => x = lin v j) No.
Proof.
  intros V J. apply (acc_wp nl _ (fun i => F j i * v i)). intros i I. eapply wp_bind. eapply (wp_mget _ _ MP); auto. eapply wp_bind. eapply (wp_vget _ _ V); auto. reflexivity.
Qed.

(* the step before it is applied *)
Lemma dg_dir_wp (CD Dv : list K) hist W g d : vec dl CD (dgcd W) -> vec nl Dv d -> cginv hist W g d -> ip g g <> f0 ->
  wp (let* Dl := dg_unit sq nl Dv in
      let* q := dg_q dl nl PG MD DG CD Dl in
      let* p := dg_p dl nl PG DG Dl in
      let* x := divc (- q) p in Ok (Dl, x))
     (fun '(Dl, x) => exists u, vec nl Dl u /\ forall i, i < nl -> u i * x = cg_a g d * d i) No.
Proof.
  intros VC V I N.
  pose proof (cg_curv dl nl F dgm dgc dgm_pos _ _ _ _ I N) as Cv. pose proof (fpos_nz _ Cv) as Nc.
  assert (Nd : ip d d <> f0).
  { intros E. apply Nc. apply bi_0; [apply dgm_pos|]. now apply ip_0. }
  assert (Pd : fltb f0 (ip d d) = true) by (apply fltb_spec; split; [apply ip_nonneg|congruence]).
  set (r := sq (ip d d)). assert (Nr : r <> f0) by (apply fpos_nz; now apply sq_pos).
  unfold dg_unit. eapply wp_seq.
  { eapply wp_seq. { apply (acc_wp nl _ (fun i => d i * d i)). intros i Ii. eapply wp_bind. eapply (wp_vget _ _ V); auto. reflexivity. }
    intros s ->. apply (fill1_wp nl _ Dv (fun i => d i / r)); [apply V|]. intros i Ii. eapply wp_bind. eapply (wp_vget _ _ V); auto. apply divc_ok; auto. }
  intros Dl0 VU. set (u := fun i => d i / r) in *.
  assert (Lu : forall j, lin u j = lin d j / r).
  { intros j. unfold CgProofs.lin, u. rewrite (sumr_ext 0 nl _ (fun i => F j i * d i * (f1 / r))) by (intros; field; auto). rewrite sumr_scale_r. field. auto. }
  eapply wp_seq. { apply (acc_wp dl _ (fun j => (dgc j + lin W j) * lin u j / dgm j)). intros j J. eapply wp_seq; [now apply dg_along_wp with (v := u)|].
    intros x ->. eapply wp_bind. eapply (wp_vget _ _ VC); auto. eapply wp_bind. eapply (wp_vget _ _ VM); auto. eapply wp_bind. eapply (wp_vget _ _ VD); auto.
    pose proof (dgm_pos j J) as Pj. apply fpos_nz in Pj. apply divc_ok; auto. unfold dgcd, dgc. field. auto. }
  intros q ->. eapply wp_seq. { apply (acc_wp dl _ (fun j => lin u j * lin u j / dgm j)). intros j J. eapply wp_seq; [now apply dg_along_wp with (v := u)|].
    intros x ->. eapply wp_bind. eapply (wp_vget _ _ VD); auto. pose proof (dgm_pos j J) as Pj. apply fpos_nz in Pj. apply divc_ok; auto. }
  intros p ->.
  assert (Eq : sumr 0 dl (fun j => (dgc j + lin W j) * lin u j / dgm j) = - ip g g / (two * r)).
  { pose proof (two_nz (K := K)) as T2.
    replace (- ip g g) with (ip (gr W) d).
    2: { rewrite <- (i_dg _ _ _ _ _ _ _ _ _ I), (ip_comm nl d g). apply ip_ext; auto. intros. symmetry. now apply (i_g _ _ _ _ _ _ _ _ _ I). }
    rewrite (ip_gr dl nl F dgm dgc dgm_pos).
    rewrite (sumr_ext 0 dl _ (fun j => two * (dgc j + lin W j) * lin d j / dgm j * (f1 / (two * r)))).
    - rewrite sumr_scale_r. field. auto.
    - intros j J. rewrite Lu. assert (Pj := dgm_pos j ltac:(lia)). apply fpos_nz in Pj. field. auto. }
  assert (Ep : sumr 0 dl (fun j => lin u j * lin u j / dgm j) = bi d d / (two * (r * r))).
  { pose proof (two_nz (K := K)) as T2. unfold CgProofs.bi. rewrite (sumr_ext 0 dl _ (fun j => two * (lin d j * lin d j / dgm j) * (f1 / (two * (r * r))))).
    - rewrite sumr_scale_r. field. auto.
    - intros j J. rewrite Lu. assert (Pj := dgm_pos j ltac:(lia)). apply fpos_nz in Pj. field. auto. }
  rewrite Eq, Ep. pose proof (two_nz (K := K)) as T2.
  eapply wp_seq. { apply divc_ok with (Q := fun x => x = ip g g * r / bi d d).
    - intros E. apply Nc. replace (bi d d) with (bi d d / (two * (r * r)) * (two * (r * r))) by (field; auto). rewrite E. ring.
    - field. auto. }
  intros x ->. cbn [wp]. exists u. split; auto. intros i Ii. unfold u, CgProofs.cg_a. field. auto.
Qed.

Lemma dg_move_wp (CD Wl Dv : list K) W u x st : vec dl CD (dgcd W) -> vec nl Wl W -> vec nl Dv u -> (forall i, i < nl -> u i * x = st i) ->
  wp (dg_move dl nl PG CD Wl Dv x) (fun '(Dv', r, CD') => vec nl Dv' st /\ r = sqs nl (fun i => W i + st i) /\ vec dl CD' (dgcd (fun i => W i + st i))) No.
Proof.
  intros VC VW V E. unfold dg_move.
  eapply wp_seq. { apply (fill1_wp nl _ Dv st); [apply V|]. intros i I. eapply wp_bind. eapply (wp_vget _ _ V); auto. cbn. auto. }
  intros D1 V1. eapply wp_seq. { apply (acc_wp nl _ (fun i => (W i + st i) * (W i + st i))). intros i I. eapply wp_bind. eapply (wp_vget _ _ VW); auto.
    eapply wp_bind. eapply (wp_vget _ _ V1); auto. reflexivity. }
  intros r ->. eapply wp_seq. { apply (fill1_wp dl _ CD (dgcd (fun i => W i + st i))); [apply VC|]. intros j J. eapply wp_bind. eapply (wp_vget _ _ VC); auto.
    eapply wp_seq; [now apply dg_along_wp with (v := st)|]. intros y ->. cbn. unfold dgcd.
    rewrite (lin_ext nl F (fun i => W i + st i) (fun i => W i + f1 * st i)) by (intros; ring). rewrite lin_lin. ring. }
  intros C1 VC1. cbn [wp]. auto.
Qed.

Definition after (s : dgs) (W d : vect) : Prop :=
  vec nl (dD s) d /\ length (dG s) = nl /\ vec nl (dW s) W /\ vec dl (dCD s) (dgcd W) /\ length (dQ s) = (nl * nl)%nat.

Lemma dg_grad_wp s W d : after s W d ->
  wp (dg_grad dl nl PG MD DG s) (fun s' => after s' W (fun i => - gr W i) /\ dG s' = dG s /\ ddgg s' = ip (gr W) (gr W) /\ dgg0 s' = ddgg s /\ ddd s' = ddd s) No.
Proof.
  intros (V & LG & VW & VC & LQ). unfold dg_grad.
  eapply wp_seq. { apply (fill1_wp nl _ (dD s) (fun i => - gr W i)); [apply V|]. intros i I.
    eapply wp_seq. { apply (acc_wp dl _ (fun j => two * (dgc j + lin W j) * F j i / dgm j)). intros j J.
      eapply wp_bind. eapply (wp_vget _ _ VC); auto. eapply wp_bind. eapply (wp_vget _ _ VM); auto. eapply wp_bind. eapply (wp_mget _ _ MP); auto.
      eapply wp_bind. eapply (wp_vget _ _ VD); auto. pose proof (dgm_pos j J) as Pj. apply fpos_nz in Pj. apply divc_ok; auto. unfold dgcd, dgc. field. auto. }
    intros x ->. reflexivity. }
  intros D1 V1. eapply wp_seq. { apply (acc_wp nl _ (fun i => - gr W i * - gr W i)). intros i I. eapply wp_bind. eapply (wp_vget _ _ V1); auto. reflexivity. }
  intros x ->. cbn [wp]. split; [repeat split; cbn; auto; try apply V1; try apply VW; try apply VC|]. cbn. repeat split; auto.
  apply sumr_ext. intros. ring.
Qed.

(* how long the shortened step is *)
Lemma short_len W st t : fle f0 (ip st W) = true -> fle (ip W W) f1 = true -> fltb f1 (sqs nl (fun i => W i + st i)) = true ->
  t * t = (f1 - ip W W) / sqs nl (fun i => W i + st i) -> fle f0 t = true ->
  fle t f1 = true /\ fle (sqs nl (fun i => W i + t * st i)) two = true.
Proof.
  intros P L1 R1 T T0. set (R := sqs nl (fun i => W i + st i)) in *.
  assert (PR : fltb f0 R = true).
  { apply fltb_spec in R1 as (A & B). apply fltb_spec. split; [eapply fle_trans; [apply f0_le_f1|exact A]|]. intros E. apply B. apply fle_antisym; auto. rewrite <- E. apply f0_le_f1. }
  pose proof (fpos_nz _ PR) as NR.
  assert (ER : R = ip W W + two * ip st W + ip st st).
  { unfold R, sqs, CgProofs.ip. rewrite <- sumr_scale, <- !sumr_add. apply sumr_ext. intros. ring. }
  assert (LW : fle f0 (f1 - ip W W) = true) by now apply (proj1 (fle_sub _ _)).
  assert (TR : t * t * R = f1 - ip W W) by (rewrite T; field; auto).
  assert (T1 : fle t f1 = true).
  { apply (proj2 (fle_sub _ _)). apply (pos_le (f1 + t)).
    - apply fltb_spec. split; [apply fadd_nonneg; auto; apply f0_le_f1|]. intros E. symmetry in E. apply fadd_0_nonneg in E as (E & _); auto using f0_le_f1. now apply (F_1_neq_0 (f_th K)) in E.
    - replace ((f1 + t) * (f1 - t)) with (f1 - t * t) by ring. apply (pos_le R _ PR).
      replace (R * (f1 - t * t)) with ((R - f1) + ip W W + (f1 - ip W W - t * t * R)) by ring. rewrite TR.
      apply fadd_nonneg; [apply fadd_nonneg|].
      + apply (proj1 (fle_sub _ _)). apply fltb_spec in R1. tauto.
      + apply ip_nonneg.
      + replace (f1 - ip W W - (f1 - ip W W)) with (@f0 K) by ring. apply fle_refl. }
  split; auto.
  assert (E2 : two * (ip W W + t * t * ip st st) - sqs nl (fun i => W i + t * st i) = sqs nl (fun i => W i - t * st i)).
  { unfold sqs, CgProofs.ip. rewrite <- (sumr_scale 0 nl (t * t)), <- sumr_add, <- sumr_scale, <- sumr_sub. apply sumr_ext. intros. ring. }
  apply fle_trans with (two * (ip W W + t * t * ip st st)).
  - apply (proj2 (fle_sub _ _)). rewrite E2. apply sqs_nonneg.
  - apply (proj2 (fle_sub _ _)).
    replace (two - two * (ip W W + t * t * ip st st)) with (two * (t * t * (ip W W + two * ip st W))).
    + assert (fle f0 two = true) by (apply fadd_nonneg; apply f0_le_f1).
      apply fle_mul; auto. apply fle_mul; [apply fsqr_nonneg|]. apply fadd_nonneg; [apply ip_nonneg|]. now apply fle_mul.
    + replace (ip W W + two * ip st W) with (R - ip st st) by (rewrite ER; ring).
      replace (two * (t * t * (R - ip st st))) with (two * (t * t * R - t * t * ip st st)) by ring. rewrite TR. ring.
Qed.

Definition post (precision : K) (s : dgs) (b : bool) : Prop := exists W, vec nl (dW s) W /\ length (dQ s) = (nl * nl)%nat /\ 
  fle (err W) (err (fun _ => f0)) = true /\
  (b = false -> fle (ip W W) f1 = true /\ fle (ip (gr W) (gr W)) precision = true /\ forall x, (forall j, j < dl -> lin x j = f0) -> ip x W = f0) /\
  (b = true -> fle (ip W W) two = true /\ forall u, (forall v, fle (err u) (err v) = true) -> fltb f1 (ip u u) = true).

Lemma vec_q (Q Dv : list K) u k : length Q = (nl * nl)%nat -> vec nl Dv u -> k < nl ->
  wp (for_up 0 nl (fun i Q => let* d := aget Dv i in aset Q (i * nl + k)%nat d) Q) (fun Q' => length Q' = (nl * nl)%nat) No.
Proof.
  intros LQ V Kk. apply wp_for with (P := fun _ Q => length Q = (nl * nl)%nat); [lia|auto|].
  intros i Q1 I L1. eapply wp_bind. eapply (wp_vget _ _ V); [lia|]. eapply (wp_mset _ _ (mat_el0 nl nl Q1 L1)); [lia|lia|]. intros l' M. apply M.
Qed.

Lemma dg_loop_wp (precision : K) : fle f0 precision = true -> forall turns k hist W g d s, (turns + k)%nat = S nl -> S (length hist) = k ->
  cginv hist W g d -> ip g g <> f0 -> after s W d -> ddgg s = ip g g -> ddd s = ip W W -> fle (ip W W) f1 = true ->
  fle (err W) (err (fun _ => f0)) = true ->
  wp (dg_loop sq turns dl nl precision PG MD DG k s) (fun '(s', b) => post precision s' b) No.
Proof.
  intros Pp turns. induction turns as [|turns IH]; intros k hist W g d s Tk Hk I N (V & LG & VW & VC & LQ) Eg Ed L1 Er.
  - exfalso. apply N. apply ip_z. intros i Ii. apply (orth_full sq nl (map snd hist) g Sq); auto.
    + rewrite map_length. lia.
    + pose proof (i_o _ _ _ _ _ _ _ _ _ I) as O. clear - O. induction O as [|h l A O IH]; cbn; constructor; auto. clear - A. induction A; cbn; constructor; auto.
    + pose proof (i_hist _ _ _ _ _ _ _ _ _ I) as O. clear - O. induction O as [|h l A O IH]; cbn; constructor; auto. tauto.
  - cbn [dg_loop]. rewrite Eg. destruct (feqb_spec (ip g g) f0) as [|_]; [contradiction|]. cbn [negb].
    set (st := fun i => cg_a g d * d i).
    assert (Wst : forall i, i < nl -> W i + st i = W i + cg_a g d * d i) by reflexivity.
    pose proof (cg_curv dl nl F dgm dgc dgm_pos _ _ _ _ I N) as Cv. pose proof (fpos_nz _ Cv) as Nc.
    assert (Pa : fle f0 (cg_a g d) = true) by (apply (pos_le _ _ Cv); unfold CgProofs.cg_a; replace (bi d d * (ip g g / bi d d)) with (ip g g) by (field; auto); apply ip_nonneg).
    assert (Pst : fle f0 (ip st W) = true).
    { unfold st. rewrite (ip_comm nl _ W), ip_scale, ip_comm. apply fle_mul; auto. apply (i_pos _ _ _ _ _ _ _ _ _ I). }
    eapply wp_seq with (P := fun '(s1, b) => if (b : bool) then post precision s1 true else after s1 (fun i => W i + st i) st /\ vec nl (dG s1) d /\
       ddgg s1 = ip g g /\ ddd s1 = ip (fun i => W i + st i) (fun i => W i + st i) /\ fle (ip (fun i => W i + st i) (fun i => W i + st i)) f1 = true).
    { unfold dg_step. eapply wp_seq. { apply (fill1_wp nl _ (dG s) d); auto. intros i Ii. eapply (wp_vget _ _ V); auto. }
      intros G VG. pose proof (dg_dir_wp (dCD s) (dD s) hist W g d VC V I N) as Dw.
      destruct (dg_unit sq nl (dD s)) as [Dl0|e|f]; cbn [bind] in *; auto.
      destruct (dg_q dl nl PG MD DG (dCD s) Dl0) as [q|e|f]; cbn [bind] in *; auto.
      destruct (dg_p dl nl PG DG Dl0) as [p|e|f]; cbn [bind] in *; auto.
      destruct (divc (- q) p) as [x|e|f]; cbn [bind] in *; auto. cbn [wp] in Dw. destruct Dw as (u & VU & Eu).
      eapply wp_seq. { apply (vec_q (dQ s) Dl0 u (k - 1)); auto. lia. }
      intros Q1 LQ1. eapply wp_seq. { apply (dg_move_wp (dCD s) (dW s) Dl0 W u x st VC VW VU). auto. }
      intros [[D1 r] C1] (V1 & -> & VC1).
      destruct (fltb f1 (sqs nl (fun i => W i + st i))) eqn:R1.
      - assert (NR : sqs nl (fun i => W i + st i) <> f0).
        { intros E. rewrite E in R1. unfold fltb in R1. rewrite f0_le_f1 in R1. discriminate. }
        eapply wp_seq. { apply divc_ok with (Q := fun y => y = (f1 - ip W W) / sqs nl (fun i => W i + st i)); auto. now rewrite Ed. }
        intros y ->. set (y := (f1 - ip W W) / sqs nl (fun i => W i + st i)).
        assert (Py : fle f0 y = true).
        { apply (pos_le (sqs nl (fun i => W i + st i))). { apply fltb_spec. split; [apply sqs_nonneg|congruence]. }
          unfold y. replace (sqs nl (fun i => W i + st i) * ((f1 - ip W W) / sqs nl (fun i => W i + st i))) with (f1 - ip W W) by (field; auto). now apply (proj1 (fle_sub _ _)). }
        destruct (Sq y Py) as (T & T0). destruct (short_len W st (sq y) Pst L1 R1 T T0) as (T1 & Ln).
        eapply wp_seq. { apply (fill1_wp nl _ (dW s) (fun i => W i + sq y * st i)); [apply VW|]. intros i Ii. eapply wp_bind. eapply (wp_vget _ _ VW); auto.
          eapply wp_bind. eapply (wp_vget _ _ V1); auto. reflexivity. }
        intros W1 VW1. cbn [wp]. exists (fun i => W i + sq y * st i). cbn [dW dQ]. split; auto. split; auto. split; [|split; [discriminate|]].
        2: { intros _. split; auto. intros u1 Mu.
          destruct (cg_reach dl nl F dgm dgc dgm_pos sq Sq (nl - length hist) hist W g d ltac:(lia) I N) as (B & B1 & B2 & B3).
          assert (Eu1 : err u1 = err B) by (apply fle_antisym; auto; now apply err_least; [apply dgm_pos|]).
          pose proof (row_short dl nl F dgm dgc dgm_pos B B1 B2 u1 Eu1) as B4.
          apply fltb_spec in R1 as (R1 & R2). assert (B5 : fle (sqs nl (fun i => W i + st i)) (ip u1 u1) = true) by (eapply fle_trans; [exact B3|exact B4]).
          apply fltb_spec. split; [eapply fle_trans; [exact R1|exact B5]|]. intros E. apply R2. apply fle_antisym; auto. rewrite E. exact B5. }
        eapply fle_trans; [|exact Er]. eapply (cg_fall dl nl F dgm dgc dgm_pos _ W g d _ (sq y)); eauto.
      - eapply wp_seq. { apply (fill1_wp nl _ (dW s) (fun i => W i + st i)); [apply VW|]. intros i Ii. eapply wp_bind. eapply (wp_vget _ _ VW); auto.
          eapply wp_bind. eapply (wp_vget _ _ V1); auto. reflexivity. }
        intros W1 VW1. cbn [wp]. split; [|cbn; repeat split; auto].
        + repeat split; cbn; auto; try apply V1; try apply VW1; try apply VC1. apply VG.
        + apply VG.
        + apply VG.
        + unfold fltb in R1. now destruct (fle (sqs nl (fun i => W i + st i)) f1) eqn:Z. }
    intros [s1 b]. destruct b; [intros H; cbn [wp]; auto|]. intros (A1 & VG & Eg1 & Ed1 & L2).
    set (W1 := fun i => W i + st i) in *.
    assert (Er1 : fle (err W1) (err (fun _ => f0)) = true).
    { eapply fle_trans; [|exact Er]. eapply (cg_fall dl nl F dgm dgc dgm_pos _ W g d W1 f1); eauto using f0_le_f1, fle_refl. intros i Ii. unfold W1, st. ring. }
    eapply wp_seq; [apply (dg_grad_wp s1 W1 st A1)|]. intros s2 (A2 & EG2 & Eg2 & E02 & Ed2). 
    destruct (fle (ddgg s2) precision) eqn:Br.
    { cbn [wp]. exists W1. destruct A2 as (_ & _ & A2 & _ & A3). split; auto. split; auto. split; auto. split; [|discriminate]. intros _. split; auto. split; [now rewrite <- Eg2|].
      intros x X. destruct (i_row _ _ _ _ _ _ _ _ _ I x X) as (X1 & X2). unfold W1, st. rewrite ip_lin, X1, X2. ring. }
    unfold dg_conj. rewrite E02, Eg1. destruct (feqb_spec (ip g g) f0) as [|_]; [contradiction|].
    set (d2 := fun i => - gr W1 i + ip (gr W1) (gr W1) / ip g g * d i).
    destruct A2 as (V2 & LG2 & VW2 & VC2 & LQ2).
    eapply wp_seq with (P := fun s3 => after s3 W1 d2 /\ ddgg s3 = ip (gr W1) (gr W1) /\ ddd s3 = ddd s2).
    { eapply wp_seq. { apply (fill1_wp nl _ (dD s2) d2); [apply V2|]. intros i Ii. eapply wp_bind. eapply (wp_vget _ _ V2); auto. rewrite EG2.
        eapply wp_bind. eapply (wp_vget _ _ VG); auto. eapply wp_seq. { apply divc_ok with (Q := fun y => y = ddgg s2 * d i / ip g g); auto. }
        intros y ->. cbn. unfold d2. rewrite Eg2. field. auto. }
      intros D3 V3. cbn [wp]. split; [repeat split; cbn; auto; try apply V3; try apply VW2; try apply VC2|]. cbn. auto. }
    intros s3 (A3 & Eg3 & Ed3).
    apply (IH (S k) ((d, g) :: hist) W1 (gr W1) d2 s3); auto.
    + lia.
    + apply (cg_step dl nl F dgm dgc dgm_pos hist W g d W1 (gr W1) d2 I N); auto.
    + intros E. rewrite Eg2, E in Br. congruence.
    + rewrite Ed3, Ed2, Ed1. auto.
Qed.
End Problem.

Lemma deflgrad_wp dl nl precision lo hi (D : defls (K := K)) (P Q pg0 md0 cd0 dg0 d0 g0 w0 : list K) :
  0 < dl -> whole dl nl D -> (forall j, j < dl -> sqs nl (hmat D j) <> f0) -> fle f0 precision = true ->
  length P = nl -> length Q = (nl * nl)%nat -> length pg0 = (dl * nl)%nat -> length md0 = dl -> length cd0 = dl -> length dg0 = dl ->
  length d0 = nl -> length g0 = nl -> length w0 = nl ->
  wp (deflgrad_step sq nl precision lo hi D P Q pg0 md0 cd0 dg0 d0 g0 w0) (fun '(r, P', Q') => exists W (b : bool),
    fle (err dl nl (hmat D) (dgm dl nl D) (dgc D) W) (err dl nl (hmat D) (dgm dl nl D) (dgc D) (fun _ => f0)) = true /\
    (b = false -> fle (ip nl W W) f1 = true /\
       fle (ip nl (gr dl nl (hmat D) (dgm dl nl D) (dgc D) W) (gr dl nl (hmat D) (dgm dl nl D) (dgc D) W)) precision = true /\
       forall x, (forall j, j < dl -> lin nl (hmat D) x j = f0) -> ip nl x W = f0) /\
    (b = true -> fle (ip nl W W) two = true /\ forall u, (forall v, fle (err dl nl (hmat D) (dgm dl nl D) (dgc D) u) (err dl nl (hmat D) (dgm dl nl D) (dgc D) v) = true) -> fltb f1 (ip nl u u) = true) /\
    r = sq (sqs nl W) /\ vec nl P' (fun i => clamp lo hi (nth i P f0 + W i)) /\ length Q' = (nl * nl)%nat) No.
Proof.
  intros Dl Wh Nz Pp LP LQ Lpg Lmd Lcd Ldg Ld Lg Lw. unfold deflgrad_step. assert (Ed : length (measured D) = dl) by apply Wh. rewrite Ed.
  eapply wp_seq. { apply (fill1_wp nl _ w0 (fun _ => f0)); auto. intros. reflexivity. }
  intros W0 VW0. eapply wp_seq. { apply (dg_setup_wp dl nl D Wh Dl Nz pg0 md0 cd0 dg0); auto. }
  intros [[[CD MD] PG] DG] (VC & VM & MP & VD).
  assert (Start : after dl nl D (Dgs d0 g0 W0 CD Q f0 f0 f0) (fun _ => f0) (fun i => nth i d0 f0)).
  { split; [now apply vec_of|]. split; auto. split; auto. split; auto. cbn. eapply vec_ext; [exact VC|]. intros j J. cbn beta. unfold dgcd, lin. rewrite sumr_zero by (intros; ring). ring. }
  eapply wp_seq with (P := fun '(s, b) => post dl nl D precision s b).
  { cbn [dg_loop ddgg]. destruct (feqb_spec (@f0 K) f0) as [_|]; [|contradiction]. cbn [negb bind].
    eapply wp_seq. { apply (dg_grad_wp dl nl D Dl Nz PG MD DG MP VM VD _ _ _ Start). }
    intros s (A & _ & Eg & E0 & Edd). cbn [ddgg] in E0.
    set (W := fun _ : nat => @f0 K) in *. assert (IW : ip nl W W = f0) by (apply ip_z; auto).
    destruct (fle (ddgg s) precision) eqn:Br.
    { cbn [wp]. exists W. destruct A as (_ & _ & A2 & _ & A3). split; auto. split; auto. split; [apply fle_refl|]. split; [|discriminate]. intros _. split; [rewrite IW; apply f0_le_f1|]. split; [now rewrite <- Eg|]. intros x X. now apply ip_z. }
    unfold dg_conj. rewrite E0. destruct (feqb_spec (@f0 K) f0) as [_|]; [|contradiction]. cbn [bind].
    apply (dg_loop_wp dl nl D Dl Nz PG MD DG MP VM VD precision Pp nl 1 [] W (gr dl nl (hmat D) (dgm dl nl D) (dgc D) W) (fun i => - gr dl nl (hmat D) (dgm dl nl D) (dgc D) W i) s); auto.
    - lia.
    - apply cg_start; auto. now apply dgm_pos.
    - intros E. rewrite Eg, E in Br. congruence.
    - rewrite Edd, IW. auto.
    - rewrite IW. apply f0_le_f1.
    - apply fle_refl. }
  intros [s b] (W & VW & LQ1 & Er & B1 & B2).
  eapply wp_seq. { apply (len2_wp nl (dW s) W _ VW). }
  intros st ->. eapply wp_seq.
  { apply (fill1_wp nl _ P (fun i => clamp lo hi (nth i P f0 + W i))); auto. intros i I.
    eapply wp_seq; [apply wp_nth with (n := nl); auto|]. intros p ->. eapply wp_bind. eapply (wp_vget _ _ VW); auto. reflexivity. }
  intros P' VP. eapply wp_seq with (P := fun Q' => length Q' = (nl * nl)%nat).
  { pose proof (C66_gram_schmidt K sq nl (dQ s) Sq LQ1) as G. destruct (orth_gs sq nl (dQ s)); cbn [wp]; tauto. }
  intros Q' LQ'. cbn [wp]. exists W, b. repeat (split; auto); apply VP.
Qed.
End Deflgrad.
