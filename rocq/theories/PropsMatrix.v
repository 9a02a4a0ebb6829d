(* Matrix expressions evaluate to what they mean (C44), and compound assignments (C69). *)
From Coq Require Import List ZArith Lia Bool Arith Field QArith Qcanon.
From Verif Require Import Base LinBase MatrixModel MatrixSpec MatrixProofs GaussModel PropsGauss.
Import ListNotations.
Local Close Scope Qc_scope.
Local Close Scope Q_scope.
Local Open Scope nat_scope.

Section Props.
Context {K : ofield}.
Local Open Scope lin_scope.
Add Field Kf32 : (f_th K).
Notation fn := (nat -> nat -> K).

(* ---------- C44, expression templates ---------- *)

(* every element of every expression, with and without the template programs; also by one index *)
Theorem C44_tmatrix_element meta e M N (A : fn) i j : means e M N A -> i < M -> j < N ->
  ev meta e i j = Ok (A i j) /\ ev1 meta N e (i * N + j) = Ok (A i j).
Proof.
  intros Me I J. split. { now apply (ev_ok meta e M N). }
  unfold ev1. rewrite Nat.div_add_l, Nat.div_small, Nat.add_0_r by lia.
  rewrite (Nat.add_comm (i * N)), Nat.mod_add, Nat.mod_small by lia. now apply (ev_ok meta e M N).
Qed.
(* a matrix made from, or set to, an expression.  The expression may hold the matrix: it holds a copy. *)
Theorem C44_tmatrix_assign meta e M N (A : fn) l : means e M N A -> length l = (M * N)%nat ->
  exists l', set_expr meta M N l e = Ok l' /\ mat M N l' A.
Proof. apply set_expr_ok. Qed.
Theorem C44_tmatrix_add meta e M N (A B : fn) l : mat M N l A -> means e M N B ->
  exists l', add_expr meta M N l e = Ok l' /\ mat M N l' (fun i j => A i j + B i j).
Proof. apply (acc_expr_ok fadd). Qed.
Theorem C44_tmatrix_sub meta e M N (A B : fn) l : mat M N l A -> means e M N B ->
  exists l', sub_expr meta M N l e = Ok l' /\ mat M N l' (fun i j => A i j - B i j).
Proof. apply (acc_expr_ok fsub). Qed.
Theorem C44_tmatrix_scalar meta e (A : fn) : means e 1 1 A -> to_scalar meta e = Ok (A 0%nat 0%nat).
Proof. intros Me. apply (ev_ok meta e 1 1); auto. Qed.
(* the expressions that can be written have a meaning, but for divisions by zero *)
Fixpoint no_division (e : @expr K) : Prop :=
  match e with
  | Mat M N l => 0 < M /\ 0 < N /\ length l = (M * N)%nat
  | Trans e | Neg e | AddD e _ | SubD e _ | MulD e _ | Diag e => no_division e
  | DivD e d => d <> f0 /\ no_division e
  | DDiv _ _ => False
  | Add e1 e2 | Sub e1 e2 | Prod e1 e2 => no_division e1 /\ no_division e2
  end.
Theorem C44_tmatrix_typed e M N : @shape K e = Some (M, N) -> no_division e ->
  exists A, means e M N A.
Proof.
  revert M N. induction e; intros M' N' Hs Hn; cbn in Hs, Hn.
  - injection Hs as <- <-. destruct Hn as (H1 & H2 & H3). eexists. apply m_mat; auto. now apply mat_of.
  - destruct (shape e) as [[a b]|]; [|discriminate]. injection Hs as <- <-.
    destruct (IHe _ _ eq_refl Hn). eexists. now apply m_trans; eauto.
  - destruct (IHe _ _ Hs Hn). eexists. now apply m_neg; eauto.
  - destruct (IHe _ _ Hs Hn). eexists. now apply m_addd; eauto.
  - destruct (IHe _ _ Hs Hn). eexists. now apply m_subd; eauto.
  - destruct (IHe _ _ Hs Hn). eexists. now apply m_muld; eauto.
  - destruct Hn as [Hd Hn]. destruct e; try discriminate. destruct (IHe _ _ Hs Hn) as [A HA].
    injection Hs as <- <-. eexists. now apply m_divd; eauto.
  - contradiction.
  - destruct Hn as [H1 H2]. destruct (shape e1) as [[a b]|], (shape e2) as [[a' b']|]; try discriminate.
    destruct (Nat.eqb_spec a a'), (Nat.eqb_spec b b'); try discriminate. subst. injection Hs as <- <-.
    destruct (IHe1 _ _ eq_refl H1), (IHe2 _ _ eq_refl H2). eexists. now apply m_add; eauto.
  - destruct Hn as [H1 H2]. destruct (shape e1) as [[a b]|], (shape e2) as [[a' b']|]; try discriminate.
    destruct (Nat.eqb_spec a a'), (Nat.eqb_spec b b'); try discriminate. subst. injection Hs as <- <-.
    destruct (IHe1 _ _ eq_refl H1), (IHe2 _ _ eq_refl H2). eexists. now apply m_sub; eauto.
  - destruct Hn as [H1 H2]. destruct (shape e1) as [[a b]|], (shape e2) as [[a' b']|]; try discriminate.
    destruct (Nat.eqb_spec b a'); try discriminate. subst. injection Hs as <- <-.
    destruct (IHe1 _ _ eq_refl H1), (IHe2 _ _ eq_refl H2). eexists. now eapply m_prod; eauto.
  - destruct (shape e) as [[a b]|]; [|discriminate].
    destruct (Nat.eqb_spec a b); try discriminate. subst. injection Hs as <- <-.
    destruct (IHe _ _ eq_refl Hn). eexists. now apply m_diag; eauto.
Qed.
Theorem C44_tmatrix_fill M N l (d : K) eye : length l = (M * N)%nat ->
  exists l', fill M N l d eye = Ok l' /\ mat M N l' (fun i j => if eye then if i =? j then d else f0 else d).
Proof. apply fill_ok. Qed.

(* ---------- C44, dense matrices ---------- *)

Notation D m n l := {| dm := m; dn := n; dd := l |}.
Theorem C44_dense_unary m n l (A : fn) raw d : mat m n l A -> length raw = (m * n)%nat ->
  (exists l', dense_trans (D m n l) raw = Ok (D n m l') /\ mat n m l' (fun i j => A j i)) /\
  (exists l', dense_neg (D m n l) raw = Ok (D m n l') /\ mat m n l' (fun i j => - A i j)) /\
  (exists l', dense_plus (D m n l) d = Ok (D m n l') /\ mat m n l' (fun i j => A i j + d)) /\
  (exists l', dense_rsub (D m n l) d raw = Ok (D m n l') /\ mat m n l' (fun i j => d - A i j)) /\
  (exists l', dense_times (D m n l) d = Ok (D m n l') /\ mat m n l' (fun i j => A i j * d)) /\
  (d <> f0 -> exists l', dense_over (D m n l) d = Ok (D m n l') /\ mat m n l' (fun i j => A i j / d)) /\
  ((forall i j, i < m -> j < n -> A i j <> f0) ->
   exists l', dense_rdiv (D m n l) d raw = Ok (D m n l') /\ mat m n l' (fun i j => d / A i j)).
Proof.
  intros Ma L. repeat split.
  - unfold dense_trans. cbn [dm dn]. apply new_by_ok; [lia|]. intros. now apply dget_ok with (m := m).
  - unfold dense_neg. cbn [dm dn]. apply new_by_ok; auto. intros. now rewrite (dget_ok m n l A) by auto.
  - apply (dense_addd_ok m n l A (Val d)); cbn; auto.
  - unfold dense_rsub. cbn [dm dn]. apply new_by_ok; auto. intros. now rewrite (dget_ok m n l A) by auto.
  - apply (dense_muld_ok m n l A (Val d)); cbn; auto.
  - intros Hd. unfold dense_over. rewrite divc_ok by auto. cbn [bind].
    destruct (dense_muld_ok m n l A (Val (f1 / d))) as (l' & E & R); cbn; auto.
    exists l'. split; auto. eapply mat_ext; eauto. intros i j I J. cbn. field. auto.
  - intros Hz. unfold dense_rdiv. cbn [dm dn]. apply new_by_ok; auto. intros.
    rewrite (dget_ok m n l A) by auto. cbn [bind]. apply divc_ok. auto.
Qed.
Theorem C44_dense_binary m n l1 l2 (A B : fn) : mat m n l1 A -> mat m n l2 B ->
  (exists l, dense_add (D m n l1) (D m n l2) = Ok (D m n l) /\ mat m n l (fun i j => A i j + B i j)) /\
  (exists l, dense_sub (D m n l1) (D m n l2) = Ok (D m n l) /\ mat m n l (fun i j => A i j - B i j)).
Proof.
  intros Ma Mb. split.
  - apply (dense_acc_ok fadd m n l1 A B (Some (D m n l2)) Ma). eauto.
  - apply (dense_acc_ok fsub m n l1 A B (Some (D m n l2)) Ma). eauto.
Qed.
Theorem C44_dense_product m k n la lb raw (A B : fn) : mat m k la A -> mat k n lb B -> length raw = (m * n)%nat ->
  exists l, dense_mul (D m k la) (D k n lb) raw = Ok (D m n l) /\
    mat m n l (fun i j => sumr 0 k (fun p => A i p * B p j)).
Proof. apply dense_mul_ok. Qed.
Theorem C44_dense_fill m n raw (d : K) b : length raw = (m * n)%nat ->
  exists l, new_fill m n raw d b = Ok (D m n l) /\ mat m n l (fun i j => if b then if i =? j then d else f0 else d).
Proof. apply new_fill_ok. Qed.

(* ---------- C44, later evaluation ---------- *)

(* rows and columns, for all operators but inv *)
Theorem C44_lazy_size s m n (A : fn) : smeans s m n A -> mrows (Some s) false = Ok m /\ mrows (Some s) true = Ok n.
Proof. apply rows_cols_ok. Qed.
(* elements, for what can be made with !, ~ and - *)
Theorem C44_lazy_element s m n (A : fn) i j : smeans s m n A -> plain s -> i < m -> j < n ->
  mat_at (Some s) i j = Ok (A i j).
Proof. intros. now apply (at_ok s m n). Qed.
Theorem C44_lazy_operators s m n (A : fn) : smeans s m n A -> plain s ->
  (exists t, mat_trans (Some s) = Some t /\ smeans t n m (fun i j => A j i) /\ plain t) /\
  (exists t, mat_neg (Some s) = Some t /\ smeans t m n (fun i j => - A i j) /\ plain t) /\
  (exists t, mat_unref (Some s) = (Some t, None) /\ smeans t m n A /\ plain t).
Proof.
  intros Sm P. repeat split; eexists; (split; [reflexivity|split; [|exact P]]).
  - now apply s_trans.
  - now apply s_neg.
  - now apply s_unref.
Qed.
Theorem C44_lazy_equal s t m n m' n' (A B : fn) : smeans s m n A -> smeans t m' n' B -> plain s -> plain t ->
  exists b, mat_eq (Some s) (Some t) = Ok b /\
    (b = true <-> m = m' /\ n = n' /\ forall i j, i < m -> j < n -> A i j = B i j).
Proof. apply mat_eq_ok. Qed.
(* what getdense does: right for matrices and references to them, for all other operators it
   gives the elements of the first operand *)
Theorem C44_getdense_partial s m n (A : fn) raw : smeans s m n A -> held s -> length raw = (m * n)%nat ->
  exists l, getdense s raw = Ok (D m n l) /\ mat m n l A.
Proof. apply getdense_ok. Qed.
Theorem C44_getdense_operand op s o m n (A B : fn) raw :
  smeans s m n A -> plain s -> smeans (SOp op (Some s) o) m n B -> length raw = (m * n)%nat ->
  exists l, getdense (SOp op (Some s) o) raw = Ok (D m n l) /\ mat m n l A.
Proof.
  intros Ss P So L. destruct (rows_cols_ok _ _ _ _ So). now apply getdense_op.
Qed.
(* a matrix without storage: matrix() and the argument of ! *)
Theorem C44_lazy_null (x : mtx) i j b : fst (@mat_unref K x) = Some (SOp Ounref x None) /\
  mat_at (snd (@mat_unref K x)) i j = UB NullDeref /\ mrows (@None (@store K)) b = UB NullDeref /\
  mat_at (mat_neg (@None (@store K))) i j = UB NullDeref.
Proof. auto. Qed.

(* ---------- C69: compound assignments ---------- *)

(* with a matrix, which may be the same one *)
Theorem C69_matrix meta M N l (A B : fn) src : mat M N l A ->
  match src with None => forall i j, i < M -> j < N -> B i j = A i j | Some b => mat M N b B end ->
  (exists l', add_mat meta M N l src = Ok l' /\ mat M N l' (fun i j => A i j + B i j)) /\
  (exists l', sub_mat meta M N l src = Ok l' /\ mat M N l' (fun i j => A i j - B i j)) /\
  (exists l', set_mat M N l src = Ok l' /\ mat M N l' B).
Proof.
  intros Ma Hs. split; [|split].
  - now apply (acc_mat_ok fadd).
  - now apply (acc_mat_ok fsub).
  - now apply (set_mat_ok M N l A).
Qed.
(* with a number that is not an element of the matrix *)
Theorem C69_number meta M N l (A : fn) d : mat M N l A ->
  (exists l', set_d meta M N l (Val d) = Ok l' /\ mat M N l' (fun _ _ => d)) /\
  (exists l', add_d meta M N l (Val d) = Ok l' /\ mat M N l' (fun i j => A i j + d)) /\
  (exists l', sub_d meta M N l (Val d) = Ok l' /\ mat M N l' (fun i j => A i j - d)) /\
  (exists l', mul_d meta M N l (Val d) = Ok l' /\ mat M N l' (fun i j => A i j * d)) /\
  (d <> f0 -> exists l', div_d meta M N l (Val d) = Ok l' /\ mat M N l' (fun i j => A i j / d)).
Proof.
  intros Ma. split; [|split; [|split; [|split]]].
  - apply (set_d_ok meta M N l A (Val d)); cbn; auto.
  - apply (acc_d_ok fadd meta M N l A (Val d)); cbn; auto.
  - unfold sub_d. destruct meta.
    + cbn [sval bind]. destruct (acc_d_ok fadd true M N l A (Val (- d))) as (l' & E & R); cbn; auto.
      exists l'. split; auto. eapply mat_ext; eauto. intros i j I J. cbn. ring.
    + apply (acc_d_ok fsub false M N l A (Val d)); cbn; auto.
  - apply (acc_d_ok fmul meta M N l A (Val d)); cbn; auto.
  - intros Hd. unfold div_d. cbn [sval bind]. rewrite divc_ok by auto. cbn [bind].
    destruct (acc_v_ok fmul meta M N l A (f1 / d)) as (l' & E & R); auto.
    exists l'. split; auto. eapply mat_ext; eauto. intros i j I J. cbn. field. auto.
Qed.
(* with an element of the matrix: =, -= and /= use its value before *)
Theorem C69_own_element_partial M N l (A : fn) p q : mat M N l A -> p < M -> q < N ->
  let s := Elem (p * N + q) in
  (forall meta, exists l', set_d meta M N l s = Ok l' /\ mat M N l' (fun _ _ => A p q)) /\
  (exists l', sub_d true M N l s = Ok l' /\ mat M N l' (fun i j => A i j - A p q)) /\
  (forall meta, A p q <> f0 -> exists l', div_d meta M N l s = Ok l' /\ mat M N l' (fun i j => A i j / A p q)).
Proof.
  intros Ma P Q s.
  assert (Is : insize (M * N) (@Elem K (p * N + q))) by (cbn; now apply idx_lt).
  assert (Ev : sval_of N A s = A p q).
  { unfold s. cbn [sval_of]. rewrite Nat.div_add_l, Nat.div_small, Nat.add_0_r by lia.
    rewrite (Nat.add_comm (p * N)), Nat.mod_add, Nat.mod_small by lia. reflexivity. }
  split; [|split].
  - intros meta. destruct (set_d_ok meta M N l A s Ma Is) as (l' & E & R). exists l'. split; auto.
    rewrite Ev in R. exact R.
  - unfold sub_d. rewrite (sval_ok M N l A s Ma Is), Ev. cbn [bind].
    destruct (acc_d_ok fadd true M N l A (Val (- A p q))) as (l' & E & R); cbn; auto.
    exists l'. split; auto. eapply mat_ext; eauto. intros i j I J. cbn. ring.
  - intros meta Hz. unfold div_d. rewrite (sval_ok M N l A s Ma Is), Ev. cbn [bind].
    rewrite divc_ok by auto. cbn [bind].
    destruct (acc_v_ok fmul meta M N l A (f1 / A p q)) as (l' & E & R); auto.
    exists l'. split; auto. eapply mat_ext; eauto. intros i j I J. cbn. field. auto.
Qed.
(* += and *= (and -= without the template programs) use the new value for all elements after it *)
Theorem C69_own_element_after meta M N l (A : fn) p q : mat M N l A -> p < M -> q < N ->
  let s := Elem (p * N + q) in
  let after i j := (p <? i) || ((p =? i) && (q <? j)) in
  (exists l', add_d meta M N l s = Ok l' /\
     mat M N l' (fun i j => A i j + (if after i j then A p q + A p q else A p q))) /\
  (exists l', mul_d meta M N l s = Ok l' /\
     mat M N l' (fun i j => A i j * (if after i j then A p q * A p q else A p q))) /\
  (exists l', sub_d false M N l s = Ok l' /\
     mat M N l' (fun i j => if after i j then A i j else A i j - A p q)).
Proof.
  intros Ma P Q s after.
  assert (Is : insize (M * N) (@Elem K (p * N + q))) by (cbn; now apply idx_lt).
  assert (Es : forall op i j, i < M -> j < N ->
    seen op N A s (i * N + j) = if after i j then op (A p q) (A p q) else A p q).
  { intros op i j I J. unfold s, after. cbn [seen]. rewrite Nat.div_add_l, Nat.div_small, Nat.add_0_r by lia.
    rewrite (Nat.add_comm (p * N)), Nat.mod_add, Nat.mod_small by lia.
    destruct (Nat.ltb_spec p i), (Nat.eqb_spec p i), (Nat.ltb_spec q j), (Nat.leb_spec (i * N + j) (q + p * N)); cbn;
      try reflexivity; exfalso; nia. }
  split; [|split].
  - destruct (acc_d_ok fadd meta M N l A s Ma Is) as (l' & E & R). exists l'. split; auto.
    eapply mat_ext; eauto. intros i j I J. cbn beta. now rewrite Es.
  - destruct (acc_d_ok fmul meta M N l A s Ma Is) as (l' & E & R). exists l'. split; auto.
    eapply mat_ext; eauto. intros i j I J. cbn beta. now rewrite Es.
  - destruct (acc_d_ok fsub false M N l A s Ma Is) as (l' & E & R). exists l'. split; auto.
    eapply mat_ext; eauto. intros i j I J. cbn beta. rewrite Es by auto. destruct (after i j); auto. ring.
Qed.
(* the dense matrices of matrix.h *)
Theorem C69_dense_matrix m n l (A B : fn) src : mat m n l A ->
  match src with None => forall i j, i < m -> j < n -> B i j = A i j
  | Some b => exists lb, b = D m n lb /\ mat m n lb B end ->
  (exists l', dense_acc fadd (D m n l) src = Ok (D m n l') /\ mat m n l' (fun i j => A i j + B i j)) /\
  (exists l', dense_acc fsub (D m n l) src = Ok (D m n l') /\ mat m n l' (fun i j => A i j - B i j)).
Proof. intros Ma Hs. split; now apply dense_acc_ok. Qed.
Theorem C69_dense_number m n l (A : fn) d : mat m n l A ->
  (exists l', dense_addd (D m n l) (Val d) = Ok (D m n l') /\ mat m n l' (fun i j => A i j + d)) /\
  (exists l', dense_muld (D m n l) (Val d) = Ok (D m n l') /\ mat m n l' (fun i j => A i j * d)).
Proof.
  intros Ma. split.
  - apply (dense_addd_ok m n l A (Val d)); cbn; auto.
  - apply (dense_muld_ok m n l A (Val d)); cbn; auto.
Qed.
End Props.

(* ---------- examples ---------- *)

Definition mz := fun (l : list Z) => nums l.
(* [[1,2],[3,4]] and [[5],[6]] *)
Definition ea : @expr QcF := Mat 2 2 (mz [1; 2; 3; 4]%Z).
Definition eb : @expr QcF := Mat 2 1 (mz [5; 6]%Z).
(* ~(2*a - a) * b + diag(a) *)
Definition ex : @expr QcF := Add (Prod (Trans (Sub (MulD ea (qz 2)) ea)) eb) (Diag ea).
Example ex_means : exists A, means ex 2 1 A.
Proof.
  apply C44_tmatrix_typed; [reflexivity|]. cbn. repeat split; lia.
Qed.
Example ex_run : same (set_expr true 2 1 (mz [0; 0]%Z) ex) (mz [24; 38]%Z) = true /\
  same (set_expr false 2 1 (mz [0; 0]%Z) ex) (mz [24; 38]%Z) = true.
Proof. split; vm_compute; reflexivity. Qed.

Definition da (m n : nat) (l : list Z) : @dense QcF := {| dm := m; dn := n; dd := mz l |}.
Definition samed (o : outcome (@dense QcF)) (m n : nat) (l : list Z) : bool :=
  match o with Ok a => (dm a =? m) && (dn a =? n) && same (Ok (dd a)) (mz l) | _ => false end.
Lemma da_mat m n l : length l = m * n -> smeans (SDense (da m n l)) m n (fun i j => nth (i * n + j) (mz l) f0).
Proof. intros L. apply s_dense. apply mat_of. unfold mz, nums. now rewrite map_length. Qed.

(* C44 is false: the dense form of -m, of ~m, of a + b and of a * b.  Their elements read one by
   one are right for -m and ~m. *)
Definition wrong (s : store) (m n : nat) (A : nat -> nat -> QcF) : Prop :=
  smeans s m n A /\ exists raw a, length raw = m * n /\ getdense s raw = Ok a /\
    exists i j, i < m /\ j < n /\ dget a i j <> Ok (A i j).
Lemma wrong_operand op s o m n (A B : nat -> nat -> QcF) i j : smeans s m n A -> plain s ->
  smeans (SOp op (Some s) o) m n B -> i < m -> j < n -> this (A i j) <> this (B i j) -> wrong (SOp op (Some s) o) m n B.
Proof.
  intros Ss P So I J Ne. split; auto. exists (repeat f0 (m * n)).
  destruct (C44_getdense_operand op s o m n A B (repeat f0 (m * n)) Ss P So (repeat_length _ _)) as (l & E & R).
  eexists. split; [apply repeat_length|]. split; [exact E|]. exists i, j. split; auto. split; auto.
  rewrite (dget_ok m n l A) by auto. intros C. injection C as C. now rewrite C in Ne.
Qed.
Theorem C44_getdense_neg_refuted : exists s A, plain s /\ wrong s 1 1 A.
Proof.
  exists (SOp Oneg (Some (SDense (da 1 1 [1]%Z))) None). eexists. split; [exact I|].
  eapply wrong_operand with (i := 0) (j := 0); [now apply da_mat|exact I|apply s_neg; now apply da_mat| | |]; auto.
  vm_compute. discriminate.
Qed.
Theorem C44_getdense_trans_refuted : exists s A, plain s /\ wrong s 2 2 A.
Proof.
  exists (SOp Otrans (Some (SDense (da 2 2 [1; 2; 3; 4]%Z))) None). eexists. split; [exact I|].
  eapply wrong_operand with (i := 0) (j := 1); [now apply da_mat|exact I|apply s_trans; now apply da_mat| | |]; auto.
  vm_compute. discriminate.
Qed.
Theorem C44_getdense_add_refuted : exists s A, wrong s 1 1 A.
Proof.
  exists (SOp Oadd (Some (SDense (da 1 1 [1]%Z))) (Some (SDense (da 1 1 [1]%Z)))). eexists.
  eapply wrong_operand with (i := 0) (j := 0); [now apply da_mat|exact I|apply s_add; now apply da_mat| | |]; auto.
  vm_compute. discriminate.
Qed.
Theorem C44_getdense_mul_refuted : exists s A, wrong s 1 1 A.
Proof.
  exists (SOp Omul (Some (SDense (da 1 1 [2]%Z))) (Some (SDense (da 1 1 [2]%Z)))). eexists.
  eapply wrong_operand with (i := 0) (j := 0); [now apply da_mat|exact I|apply s_mul with (k := 1); now apply da_mat| | |]; auto.
  vm_compute. discriminate.
Qed.
(* the transpose of a matrix that is not square is read outside its memory: element (2,1) of a
   2 x 3 matrix *)
Theorem C44_getdense_bounds_refuted : exists s A raw, plain s /\ smeans s 3 2 A /\
  length raw = 6 /\ @getdense QcF s raw = UB OutOfBounds.
Proof.
  exists (SOp Otrans (Some (SDense (da 2 3 [1; 2; 3; 4; 5; 6]%Z))) None). do 2 eexists.
  split; [exact I|]. split; [apply s_trans; apply da_mat; reflexivity|].
  split; [exact (eq_refl : length (mz [0; 0; 0; 0; 0; 0]%Z) = 6)|reflexivity].
Qed.
(* the elements of a sum, one by one, are those of its first part, too *)
Theorem C44_lazy_element_refuted : exists s A i j x, smeans s 1 1 A /\ i < 1 /\ j < 1 /\
  @mat_at QcF (Some s) i j = Ok x /\ x <> A i j.
Proof.
  exists (SOp Oadd (Some (SDense (da 1 1 [1]%Z))) (Some (SDense (da 1 1 [1]%Z)))). eexists.
  exists 0, 0, (qz 1). split; [apply s_add; apply da_mat; reflexivity|].
  split; auto. split; auto. split; [vm_compute; reflexivity|].
  intros C. apply (f_equal this) in C. vm_compute in C. discriminate.
Qed.
Example lazy_case : plain (SOp Otrans (Some (SOp Oneg (Some (SDense (da 2 3 [1; 2; 3; 4; 5; 6]%Z))) None)) None) /\
  @mat_at QcF (Some (SOp Otrans (Some (SOp Oneg (Some (SDense (da 2 3 [1; 2; 3; 4; 5; 6]%Z))) None)) None)) 2 1 = Ok (qz (-6)).
Proof. split; [exact I|vm_compute; reflexivity]. Qed.
Example held_case : held (SOp Ounref (Some (SDense (da 2 1 [1; 2]%Z))) None) /\
  samed (getdense (SOp Ounref (Some (SDense (da 2 1 [1; 2]%Z))) None) (mz [0; 0]%Z)) 2 1 [1; 2]%Z = true.
Proof. split; [exact I|vm_compute; reflexivity]. Qed.
Example dense_case : samed (dense_mul (da 2 2 [1; 2; 3; 4]%Z) (da 2 1 [5; 6]%Z) (mz [0; 0]%Z)) 2 1 [17; 39]%Z = true.
Proof. vm_compute. reflexivity. Qed.

(* C69 is false: a *= a(0,0) for [2 1] is [4 4], a += a(0,0) is [4 5]; without the template
   programs a -= a(0,0) is [0 1] *)
Definition own_wrong (r : outcome (list QcF)) (l : list QcF) (p : nat) (op : QcF -> QcF -> QcF) : Prop :=
  exists l' d, nth_error l p = Some d /\ r = Ok l' /\ l' <> map (fun x => op x d) l.
Lemma own_wrong_at r (l : list QcF) l' d p op k x : nth_error l p = Some d -> r = Ok l' ->
  nth_error l' k = Some x -> option_map this (nth_error (map (fun x => op x d) l) k) <> Some (this x) -> own_wrong r l p op.
Proof.
  intros H1 H2 H3 H4. exists l', d. split; auto. split; auto. intros C. apply H4.
  transitivity (option_map this (nth_error l' k)); [now rewrite C|now rewrite H3].
Qed.
Lemma l21 : mat 1 2 (mz [2; 1]%Z) (fun i j => nth (i * 2 + j) (mz [2; 1]%Z) f0).
Proof. now apply mat_of. Qed.
Ltac second R := eapply own_wrong_at with (k := 1); [reflexivity|eassumption|apply (proj2 R 0 1); lia|vm_compute; discriminate].
Theorem C69_own_element_refuted : exists M N l p, length l = M * N /\ p < M * N /\
  (forall meta, own_wrong (mul_d meta M N l (Elem p)) l p fmul) /\
  (forall meta, own_wrong (add_d meta M N l (Elem p)) l p fadd) /\
  own_wrong (sub_d false M N l (Elem p)) l p fsub.
Proof.
  exists 1, 2, (mz [2; 1]%Z), 0. split; [reflexivity|]. split; [lia|]. split; [|split].
  - intros meta. destruct (C69_own_element_after meta 1 2 _ _ 0 0 l21) as (_ & (l' & E & R) & _); try lia. second R.
  - intros meta. destruct (C69_own_element_after meta 1 2 _ _ 0 0 l21) as ((l' & E & R) & _); try lia. second R.
  - destruct (C69_own_element_after false 1 2 _ _ 0 0 l21) as (_ & _ & (l' & E & R)); try lia. second R.
Qed.
Theorem C69_dense_own_element_refuted : exists (l : list QcF) p, length l = 2 /\ p < 2 /\
  (exists a, dense_muld {| dm := 1; dn := 2; dd := l |} (Elem p) = Ok a /\ own_wrong (Ok (dd a)) l p fmul) /\
  (exists a, dense_addd {| dm := 1; dn := 2; dd := l |} (Elem p) = Ok a /\ own_wrong (Ok (dd a)) l p fadd).
Proof.
  exists (mz [2; 1]%Z), 0. split; [reflexivity|]. split; [lia|]. split.
  - destruct (dense_muld_ok 1 2 _ _ (Elem 0) l21) as (l' & E & R); [cbn; lia|]. eexists. split; [exact E|].
    eapply own_wrong_at with (k := 1); [reflexivity|reflexivity|apply (proj2 R 0 1); lia|vm_compute; discriminate].
  - destruct (dense_addd_ok 1 2 _ _ (Elem 0) l21) as (l' & E & R); [cbn; lia|]. eexists. split; [exact E|].
    eapply own_wrong_at with (k := 1); [reflexivity|reflexivity|apply (proj2 R 0 1); lia|vm_compute; discriminate].
Qed.
Example own_case : same (sub_d true 1 2 (mz [2; 1]%Z) (Elem 0)) (mz [0; -1]%Z) = true /\
  same (add_mat true 1 2 (mz [2; 1]%Z) None) (mz [4; 2]%Z) = true.
Proof. split; vm_compute; reflexivity. Qed.

Print Assumptions C44_tmatrix_element.
Print Assumptions C44_tmatrix_assign.
Print Assumptions C44_tmatrix_add.
Print Assumptions C44_tmatrix_sub.
Print Assumptions C44_tmatrix_scalar.
Print Assumptions C44_tmatrix_typed.
Print Assumptions C44_tmatrix_fill.
Print Assumptions C44_dense_unary.
Print Assumptions C44_dense_binary.
Print Assumptions C44_dense_product.
Print Assumptions C44_dense_fill.
Print Assumptions C44_lazy_size.
Print Assumptions C44_lazy_element.
Print Assumptions C44_lazy_operators.
Print Assumptions C44_lazy_equal.
Print Assumptions C44_getdense_partial.
Print Assumptions C44_getdense_operand.
Print Assumptions C44_lazy_null.
Print Assumptions C69_matrix.
Print Assumptions C69_number.
Print Assumptions C69_own_element_partial.
Print Assumptions C69_own_element_after.
Print Assumptions C69_dense_matrix.
Print Assumptions C69_dense_number.
Print Assumptions C44_getdense_neg_refuted.
Print Assumptions C44_getdense_trans_refuted.
Print Assumptions C44_getdense_add_refuted.
Print Assumptions C44_getdense_mul_refuted.
Print Assumptions C44_getdense_bounds_refuted.
Print Assumptions C44_lazy_element_refuted.
Print Assumptions C69_own_element_refuted.
Print Assumptions C69_dense_own_element_refuted.
