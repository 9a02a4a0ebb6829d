(* C85: the assembly of the system in mesh::solve, and the whole solution. *)
From Coq Require Import List ZArith Bool Arith Lia Permutation Sorted Field QArith Qcanon.
From Verif Require Import Base LinBase SmatModel SmatProofs PropsSmat IncholModel IncholProofs PropsQr CgProofs PropsInchol PcgModel PcgProofs PropsPcg BcModel BcProofs.
Import ListNotations.
Local Open Scope nat_scope.

(* ---- specification ---- *)
Section Spec.
Context {K : ofield}.
Local Open Scope lin_scope.
(* the value a list of conditions gives to direction s of node g *)
Definition given (l : list (bc K)) (g s : nat) : option K :=
  match find (fun u => Nat.eqb (bn u) g && Nat.eqb (bdof u) s) l with Some u => Some (bd u) | None => None end.
Definition load (l : list (bc K)) (g s : nat) : K := match given l g s with Some d => d | None => f0 end.
(* x with the prescribed displacements put in *)
Definition held (l : list (bc K)) (x : nat -> nat -> K) (g s : nat) : K := match given l g s with Some d => d | None => x g s end.
(* the whole element matrix: only the blocks on and above the diagonal are stored, column by column *)
Definition coef (e : felem K) (a b s t : nat) : K :=
  if Nat.leb a b then get3 (nth (b * (b + 1) / 2 + a) (eke e) zero3) s t else get3 (nth (a * (a + 1) / 2 + b) (eke e) zero3) t s.
(* the force element e puts on node g in direction s under the displacements x *)
Definition pull (x : nat -> nat -> K) (g s : nat) (e : felem K) : K :=
  sumr 0 (length (el2g e)) (fun a => if Nat.eqb g (nth a (el2g e) 0%nat) then
    sumr 0 (length (el2g e)) (fun b => sumr 0 3 (fun t => coef e a b s t * x (nth b (el2g e) 0%nat) t)) else f0).
Definition nodal (es : list (felem K)) (x : nat -> nat -> K) (g s : nat) : K := fold_right (fun e z => pull x g s e + z) f0 es.
(* what is left over at direction s of node g: the distance from the prescribed value, or the force out of balance *)
Definition leftover (fext dbc : list (bc K)) (es : list (felem K)) (x : nat -> nat -> K) (g s : nat) : K :=
  match given dbc g s with Some d => d - x g s | None => load fext g s - nodal es (held dbc x) g s end.
(* vectors are kept in the order n2o *)
Definition at_node (n2o : list nat) (X : svec K) (g s : nat) : K := gv (nth (nth g n2o 0%nat) X zerov) s.

Record problem (m : nat) (n2o : list nat) (fext dbc : list (bc K)) (es : list (felem K)) (u0 : list (v3 K)) (fixed0 : list Z) : Prop := {
  p_order : Permutation n2o (seq 0 m);
  p_fext : forall u, In u fext -> (bn u < m /\ bdof u < 3)%nat;
  p_fkeys : NoDup (map (fun u => (bn u, bdof u)) fext);
  p_dbc : forall u, In u dbc -> (bn u < m /\ bdof u < 3)%nat;
  p_dkeys : NoDup (map (fun u => (bn u, bdof u)) dbc);
  p_u0 : length u0 = m;
  p_marks : length fixed0 = m;
  (* marks left by an earlier run are still conditions *)
  p_fresh : forall g s, (g < m)%nat -> (s < 3)%nat -> Z.testbit (nth g fixed0 0%Z) (Z.of_nat s) = true -> given dbc g s <> None;
  p_nodes : forall e, In e es -> Forall (fun g => g < m)%nat (el2g e) /\ NoDup (el2g e);
  p_size : forall e, In e es -> length (eke e) = (length (el2g e) * (length (el2g e) + 1) / 2)%nat;
  p_sym : forall e a s t, In e es -> (a < length (el2g e))%nat -> (s < 3)%nat -> (t < 3)%nat -> coef e a a s t = coef e a a t s
}.
(* the elements resist every displacement that leaves the prescribed directions alone *)
Definition held_firm (m : nat) (dbc : list (bc K)) (es : list (felem K)) : Prop :=
  forall x, (forall g s, given dbc g s <> None -> x g s = f0) -> (exists g s, (g < m)%nat /\ (s < 3)%nat /\ x g s <> f0) ->
    fltb f0 (sumr 0 m (fun g => sumr 0 3 (fun s => x g s * nodal es x g s))) = true.
End Spec.

Section Proofs.
Context {K : ofield}.
Local Open Scope lin_scope.
Add Field Kf63 : (f_th K).
Lemma given_val (l : list (bc K)) g s : given l g s = if fixedb l g s then Some (val l g s) else None.
Proof.
  unfold given. induction l as [|u l IH]; cbn [find fixedb val]; auto. destruct (Nat.eqb (bn u) g && Nat.eqb (bdof u) s); auto.
Qed.
Lemma load_val (l : list (bc K)) g s : load l g s = val l g s.
Proof. unfold load. rewrite given_val. destruct (fixedb l g s) eqn:E; auto. symmetry. now apply val_free. Qed.
Lemma pull_nodf x g s (e : felem K) : pull x g s e = nodf x g s e.
Proof.
  unfold pull, nodf. apply sumr_ext. intros a A. destruct (Nat.eqb g (nth a (el2g e) 0%nat)) eqn:E; unfold loc; rewrite E; auto.
  apply sumr_ext. intros b B. rewrite sum3. reflexivity.
Qed.
Lemma nodal_nodf (es : list (felem K)) x g s : nodal es x g s = suml es (nodf x g s).
Proof. unfold nodal. induction es as [|e es IH]; cbn [fold_right suml]; auto. now rewrite IH, pull_nodf. Qed.
Lemma nodf_ext x y g s (e : felem K) m : good m e -> (forall h t, (h < m)%nat -> (t < 3)%nat -> x h t = y h t) -> nodf x g s e = nodf y g s e.
Proof.
  intros Ge H. apply sumr_ext. intros a A. destruct (Nat.eqb g (loc e a)); auto. apply sumr_ext. intros b B. unfold kx.
  rewrite !H by (auto; try lia; apply (loc_lt m e Ge); lia). reflexivity.
Qed.
Lemma nodf_add x y g s (e : felem K) : nodf (fun h t => x h t + y h t) g s e = nodf x g s e + nodf y g s e.
Proof.
  unfold nodf. rewrite <- sumr_add. apply sumr_ext. intros a A. destruct (Nat.eqb g (loc e a)); [|ring]. rewrite <- sumr_add. apply sumr_ext. intros b B. unfold kx. ring.
Qed.

Lemma perm_inj (l : list nat) m : Permutation l (seq 0 m) -> length l = m /\ (forall g, (g < m)%nat -> (nth g l 0 < m)%nat) /\
  (forall g h, (g < m)%nat -> (h < m)%nat -> nth g l 0%nat = nth h l 0%nat -> g = h) /\ (forall n, (n < m)%nat -> exists g, (g < m)%nat /\ nth g l 0%nat = n).
Proof.
  intros P. assert (L : length l = m) by (rewrite (Permutation_length P); apply seq_length). split; auto. split; [|split].
  - intros g G. assert (I : In (nth g l 0%nat) l) by (apply nth_In; lia). apply (Permutation_in _ P) in I. apply in_seq in I. lia.
  - intros g h G H. assert (ND : NoDup l) by (eapply Permutation_NoDup; [apply Permutation_sym; eauto|apply seq_NoDup]). rewrite (NoDup_nth l 0%nat) in ND. apply ND; lia.
  - intros n Nn. assert (I : In n l) by (apply (Permutation_in _ (Permutation_sym P)), in_seq; lia). apply (In_nth l n 0%nat) in I as (g & G & E). exists g. split; auto; lia.
Qed.
Lemma problem_good m n2o fext dbc es u0 fixed0 : problem (K := K) m n2o fext dbc es u0 fixed0 -> Forall (good m) es.
Proof.
  intros P. apply Forall_forall. intros e I. destruct (p_nodes _ _ _ _ _ _ _ P e I). split; auto. split; auto. split; [apply (p_size _ _ _ _ _ _ _ P e I)|].
  intros a s t A S3 T3. apply (p_sym _ _ _ _ _ _ _ P); auto.
Qed.
Lemma suml_zero {X} (l : list X) : suml (K := K) l (fun _ => f0) = f0.
Proof. induction l as [|x l IH]; cbn [suml]; auto. rewrite IH. ring. Qed.
Definition unit (n s : nat) (k t : nat) : K := if Nat.eqb k n && Nat.eqb t s then f1 else f0.
Lemma row_unit m D C n s : (n < m)%nat -> (s < 3)%nat -> rowf m D C (unit n s) n s = get3 (D n) s s.
Proof.
  intros Nn S3. unfold rowf. rewrite (sumr_zero 0 n), (sumr_zero (S n) m).
  - unfold bv, unit. rewrite Nat.eqb_refl. cbn [andb]. assert (C3 : (s = 0 \/ s = 1 \/ s = 2)%nat) by lia. destruct C3 as [->|[->| ->]]; cbn [Nat.eqb]; ring.
  - intros k Kk. unfold bv, unit. destruct (Nat.eqb_spec k n); [lia|]. cbn [andb]. ring.
  - intros k Kk. unfold btv, unit. destruct (Nat.eqb_spec k n); [lia|]. cbn [andb]. ring.
Qed.
Lemma assemble_core lim m n2o fext dbc es u0 fixed0 : problem (K := K) m n2o fext dbc es u0 fixed0 -> (Z.of_nat m < 2 ^ 16)%Z -> (Z.of_nat m <= lim)%Z ->
  exists A F U P D C, assemble lim n2o fext dbc es u0 fixed0 = Ok (A, F, U, P) /\ built zero3 add3 tr3 lim m A /\ holds A m D C /\ msym m D /\
    length F = m /\ length U = m /\ length P = m /\
    (forall g s, (g < m)%nat -> (s < 3)%nat -> vw U (nth g n2o 0%nat) s = held dbc (fun g s => gv (nth g u0 zerov) s) g s) /\
    (forall g s, (g < m)%nat -> (s < 3)%nat -> vw F (nth g n2o 0%nat) s =
      if fixedb dbc g s then val dbc g s else val fext g s - suml es (nodf (val dbc) g s)) /\
    (forall X g s, (g < m)%nat -> (s < 3)%nat -> rowf m D C X (nth g n2o 0%nat) s =
      if fixedb dbc g s then X (nth g n2o 0%nat) s else suml es (nodf (fun h t => if fixedb dbc h t then f0 else X (nth h n2o 0%nat) t) g s)).
Proof.
  intros PR M16 LM. destruct (perm_inj n2o m (p_order _ _ _ _ _ _ _ PR)) as (LN & NR & NI & NS). pose proof (problem_good _ _ _ _ _ _ _ PR) as GE.
  assert (IF : Forall (inside m) fext) by (apply Forall_forall; apply (p_fext _ _ _ _ _ _ _ PR)).
  assert (ID : Forall (inside m) dbc) by (apply Forall_forall; apply (p_dbc _ _ _ _ _ _ _ PR)).
  pose proof (p_fkeys _ _ _ _ _ _ _ PR) as NF. pose proof (p_dkeys _ _ _ _ _ _ _ PR) as ND. pose proof (p_u0 _ _ _ _ _ _ _ PR) as L0. pose proof (p_marks _ _ _ _ _ _ _ PR) as LX.
  unfold assemble. rewrite L0.
  destruct (forces_ok m n2o LN NR NI fext IF NF) as (F0 & -> & LF0 & HF0). cbn [bind].
  destruct (initial_ok m n2o LN NR NI u0 L0) as (U0 & -> & LU0 & HU0). cbn [bind].
  destruct (fixings_ok m n2o LN NR NI dbc fixed0 ID ND LX) as (fixed & P & -> & LFX & LP & HP & HFX & HZ). cbn [bind].
  assert (FB : forall g s, (g < m)%nat -> (s < 3)%nat -> fx fixed g s = fixedb dbc g s).
  { intros g s Gm S3. rewrite HFX by auto. destruct (fx fixed0 g s) eqn:E; auto. cbn [orb]. pose proof (p_fresh _ _ _ _ _ _ _ PR g s Gm S3 E) as Q.
    rewrite given_val in Q. destruct (fixedb dbc g s); auto. congruence. }
  destruct (elements_ok m n2o fixed LN LFX NR NI (built zero3 add3 tr3 lim m) lim P F0 es (smat_new zero3 m) (fun _ => zero3) (fun _ => [])) as (A1 & F1 & D1 & C1 & -> & B1 & H1 & S1 & LF1 & HF1 & R1); auto.
  { apply holds_new. } { intros A i j t A' B I J E. exact (built_append zero3 add3 tr3 lim m A i j t A' B I J E). } { apply built_new. } { intros n Nn i j I J. now rewrite !get_zero. }
  cbn [bind].
  destruct (finish_ok m n2o LN NR NI (built zero3 add3 tr3 lim m) dbc A1 F1 U0 D1 C1 ID ND H1 LF1 LU0 B1) as (A2 & F2 & U2 & D2 & -> & B2 & H2 & LF2 & LU2 & HF2 & HU2 & HD2).
  { intros A n k d B E. apply built_diag; auto. }
  cbn [bind]. exists A2, F2, U2, P, D2, C1. repeat (split; [solve [auto]|]).
  assert (RZ : forall X n s, (n < m)%nat -> (s < 3)%nat -> rowf (K := K) m (fun _ => zero3) (fun _ => []) X n s = f0).
  { intros X n s Nn S3. unfold rowf. rewrite bv_zero, (sumr_zero 0 n), (sumr_zero (S n) m); [ring| |]; intros k Kk; [apply bv_zero|apply btv_zero]. }
  assert (RR : forall X g s, (g < m)%nat -> (s < 3)%nat -> rowf m D1 C1 X (nth g n2o 0%nat) s =
    if fixedb dbc g s then f0 else suml es (nodf (fun h t => if fixedb dbc h t then f0 else X (nth h n2o 0%nat) t) g s)).
  { intros X g s Gm S3. rewrite R1, RZ, FB by auto. destruct (fixedb dbc g s). { rewrite suml_zero. ring. }
    rewrite (suml_ext es _ (nodf (fun h t => if fixedb dbc h t then f0 else X (nth h n2o 0%nat) t) g s)); [ring|].
    intros e I. apply nodf_ext with m. { rewrite Forall_forall in GE; auto. } intros h t Hh T3. now rewrite FB. }
  split; [|split; [exact LF2|split; [exact LU2|split; [exact LP|split; [|split]]]]].
  - intros n Nn i j I J. destruct (NS n Nn) as (g & Gm & <-). rewrite !HD2 by auto. rewrite (Nat.eqb_sym j i). destruct (Nat.eqb_spec i j); [subst|]; auto. cbn [andb]. apply S1; auto.
  - intros g s Gm S3. rewrite HU2, HU0 by auto. unfold held. rewrite given_val. destruct (fixedb dbc g s); auto.
  - intros g s Gm S3. rewrite HF2, HF1, HF0 by auto. destruct (fixedb dbc g s); auto. f_equal.
    apply suml_ext. intros e I. apply nodf_ext with m. { rewrite Forall_forall in GE; auto. } intros h t Hh T3. now rewrite HP.
  - intros X g s Gm S3. assert (E1 : rowf m D2 C1 X (nth g n2o 0%nat) s = rowf m D1 C1 X (nth g n2o 0%nat) s + (if fixedb dbc g s then (f1 - get3 (D1 (nth g n2o 0%nat)) s s) * X (nth g n2o 0%nat) s else f0)).
    { unfold rowf. assert (E2 : bv (D2 (nth g n2o 0%nat)) (X (nth g n2o 0%nat)) s = bv (D1 (nth g n2o 0%nat)) (X (nth g n2o 0%nat)) s + (if fixedb dbc g s then (f1 - get3 (D1 (nth g n2o 0%nat)) s s) * X (nth g n2o 0%nat) s else f0)).
      { unfold bv. rewrite !HD2 by (auto; lia). destruct (fixedb dbc g s); rewrite ?andb_true_r, ?andb_false_r; [|ring].
        assert (C3 : (s = 0 \/ s = 1 \/ s = 2)%nat) by lia. destruct C3 as [->|[->| ->]]; cbn [Nat.eqb]; ring. }
      rewrite E2. ring. }
    rewrite E1, RR by auto. destruct (fixedb dbc g s) eqn:FG; [|ring].
    rewrite <- (row_unit m D1 C1) by auto. rewrite RR, FG by auto. ring.
Qed.

Lemma row_scal lim m n2o fext dbc es u0 fixed0 (A : smat (m3 K)) (F : svec K) D C : problem (K := K) m n2o fext dbc es u0 fixed0 -> (Z.of_nat m < 2 ^ 16)%Z -> built zero3 add3 tr3 lim m A -> holds A m D C -> msym m D -> length F = m ->
  sym_diag A m /\ forall X n s, (n < m)%nat -> (s < 3)%nat -> sumr 0 (3 * m) (fun q => scal A (3 * n + s) q * comp X q) = rowf m D C (vw X) n s.
Proof.
  intros PR M16 B H S LF. assert (SY : sym_diag A m). { intros n i j Nn I J. rewrite !(entry_diag A m D C) by auto. apply S; auto. }
  split; auto. intros X n s Nn S3. rewrite (sumr_ext 0 (3 * m) _ (fun q => fm D C (3 * n + s) q * comp X q)).
  - apply fm_row; auto.
  - intros q Q. rewrite (scal_fm A m D C H SY) by lia. auto.
Qed.
Lemma keep_held dbc (x : nat -> nat -> K) es g s m : Forall (good m) es ->
  suml es (nodf (val dbc) g s) + suml es (nodf (fun h t => if fixedb dbc h t then f0 else x h t) g s) = nodal es (held dbc x) g s.
Proof.
  intros GE. rewrite nodal_nodf, <- suml_add. apply suml_ext. intros e I. rewrite <- nodf_add. apply nodf_ext with m. { rewrite Forall_forall in GE; auto. }
  intros h t _ _. unfold held. rewrite given_val. destruct (fixedb dbc h t) eqn:E; [ring|]. rewrite val_free by auto. ring.
Qed.
Lemma suml_perm {X} (l l' : list X) f : Permutation l l' -> suml (K := K) l f = suml l' f.
Proof. induction 1; cbn [suml]; auto; try ring; congruence. Qed.
Lemma suml_seq f : forall n a, suml (K := K) (seq a n) f = sumr a (a + n) f.
Proof.
  induction n; intros a; cbn [seq suml]. { rewrite sumr_nil; auto; lia. }
  rewrite IHn, (sumr_first a (a + S n)) by lia. replace (a + S n)%nat with (S a + n)%nat by lia. reflexivity.
Qed.
Lemma suml_nth f : forall l : list nat, suml (K := K) l f = sumr 0 (length l) (fun g => f (nth g l 0%nat)).
Proof.
  induction l as [|x l IH] using rev_ind; cbn [suml length]. { rewrite sumr_nil; auto. }
  rewrite suml_snoc, IH, app_length. cbn [length]. rewrite Nat.add_1_r, sumr_S by lia. f_equal.
  - apply sumr_ext. intros g G. rewrite app_nth1 by lia. auto.
  - rewrite app_nth2, Nat.sub_diag by lia. reflexivity.
Qed.
Lemma sum_nodes m n2o (f : nat -> K) : Permutation n2o (seq 0 m) ->
  sumr 0 (3 * m) f = sumr 0 m (fun g => sumr 0 3 (fun s => f (3 * nth g n2o 0 + s)%nat)).
Proof.
  intros P. rewrite sum_rows. rewrite <- (Nat.add_0_l m) at 1. rewrite <- suml_seq, <- (suml_perm _ _ _ P), suml_nth. destruct (perm_inj n2o m P) as (-> & _).
  apply sumr_ext. intros g G. rewrite sum3. auto.
Qed.
Lemma sub_sub (a b c : K) : a - (b + c) = a - b - c.
Proof. ring. Qed.
Lemma sub_0 (a : K) : a - f0 = a.
Proof. ring. Qed.
Lemma add_0l (a : K) : f0 + a = a.
Proof. ring. Qed.
Lemma add_0r (a : K) : a + f0 = a.
Proof. ring. Qed.
Lemma mul_0 (a : K) : f0 * a = f0.
Proof. ring. Qed.
Lemma mul0_add (a b : K) : b * b = f0 * a + b * b.
Proof. ring. Qed.
Lemma zero_kx (a b c : K) : a * f0 + b * f0 + c * f0 = f0.
Proof. ring. Qed.
Lemma pos_add (a b : K) : fltb f0 a = true -> fle f0 b = true -> fltb f0 (a + b) = true.
Proof.
  intros A B. apply fltb_spec in A as (A & N). apply fltb_spec. split; [apply add_nonneg; auto|]. intros E. symmetry in E. apply add_zero in E as (E & _); auto.
Qed.
Lemma sum_zero m (f : nat -> K) : (forall g, (g < m)%nat -> fle f0 (f g) = true) -> sumr 0 m f = f0 -> forall g, (g < m)%nat -> f g = f0.
Proof.
  induction m; intros H E g G; [lia|]. rewrite sumr_S in E by lia. apply add_zero in E as (E1 & E2); auto.
  - destruct (Nat.eq_dec g m); [now subst|]. apply IHm; auto; lia.
  - apply sumr_nonneg. intros; apply H; lia.
Qed.
Lemma sum2_zero m (f : nat -> nat -> K) : (forall g s, fle f0 (f g s) = true) -> sumr 0 m (fun g => sumr 0 3 (f g)) = f0 -> forall g s, (g < m)%nat -> (s < 3)%nat -> f g s = f0.
Proof.
  intros H E g s G S. assert (E1 : sumr 0 3 (f g) = f0).
  { revert E g G S. intros E g G _. apply (sum_zero m (fun g => sumr 0 3 (f g))); auto. intros; apply sumr_nonneg; auto. }
  apply (sum_zero 3 (f g)); auto.
Qed.
Lemma search m (f : nat -> nat -> K) : (exists g s, (g < m)%nat /\ (s < 3)%nat /\ f g s <> f0) \/ (forall g s, (g < m)%nat -> (s < 3)%nat -> f g s = f0).
Proof.
  induction m. { right. lia. }
  destruct IHm as [(g & s & G & S & E)|H]. { left. exists g, s. auto. }
  destruct (f_eq_dec (f m 0%nat) f0); [|left; exists m, 0%nat; auto with arith].
  destruct (f_eq_dec (f m 1%nat) f0); [|left; exists m, 1%nat; auto with arith].
  destruct (f_eq_dec (f m 2%nat) f0); [|left; exists m, 2%nat; auto with arith].
  right. intros g s G S. destruct (Nat.eq_dec g m); [subst|apply H; lia]. assert (C3 : (s = 0 \/ s = 1 \/ s = 2)%nat) by lia. destruct C3 as [->|[->| ->]]; auto.
Qed.
End Proofs.

(* ---- C85 ---- *)
(* The matrix and the vector are those of the problem with the prescribed displacements put in: for every
   displacement the defect at each direction is what is left over there. *)
Theorem C85_assembled : forall (K : ofield) lim m n2o (fext dbc : list (bc K)) es u0 fixed0,
  problem m n2o fext dbc es u0 fixed0 -> (Z.of_nat m < 2 ^ 16)%Z -> (Z.of_nat m <= lim)%Z ->
  exists A F U P, assemble lim n2o fext dbc es u0 fixed0 = Ok (A, F, U, P) /\ built zero3 add3 tr3 lim m A /\ sym_diag A m /\
    length F = m /\ length U = m /\ length P = m /\
    (forall g s, g < m -> s < 3 -> at_node n2o U g s = held dbc (fun g s => gv (nth g u0 zerov) s) g s) /\
    (forall g s, g < m -> s < 3 -> at_node n2o F g s = leftover fext dbc es (fun _ _ => f0) g s) /\
    (forall X g s, g < m -> s < 3 -> defect A m F X (3 * nth g n2o 0 + s) = leftover fext dbc es (at_node n2o X) g s).
Proof.
  intros K lim m n2o fext dbc es u0 fixed0 PR M16 LM.
  destruct (assemble_core lim m n2o fext dbc es u0 fixed0 PR M16 LM) as (A & F & U & P & D & C & E & B & H & S & LF & LU & LP & HU & HF & HR).
  destruct (perm_inj n2o m (p_order _ _ _ _ _ _ _ PR)) as (LN & NR & NI & NS). pose proof (problem_good _ _ _ _ _ _ _ PR) as GE.
  destruct (row_scal lim m n2o fext dbc es u0 fixed0 A F D C PR M16 B H S LF) as (SY & RS).
  exists A, F, U, P. repeat (split; [solve [auto]|]).
  assert (LO : forall x g s, g < m -> s < 3 -> leftover fext dbc es x g s =
    if fixedb dbc g s then fsub (val dbc g s) (x g s) else fsub (fsub (val fext g s) (suml es (nodf (val dbc) g s))) (suml es (nodf (fun h t => if fixedb dbc h t then f0 else x h t) g s))).
  { intros x g s Gm S3. unfold leftover. rewrite given_val, load_val. destruct (fixedb dbc g s); auto. rewrite <- (keep_held dbc x es g s m GE). apply sub_sub. }
  split.
  - intros g s Gm S3. rewrite LO by auto. change (at_node n2o F g s) with (vw F (nth g n2o 0) s). rewrite HF by auto. destruct (fixedb dbc g s).
    + symmetry. apply sub_0.
    + rewrite (suml_ext es (nodf (fun h t => if fixedb dbc h t then f0 else f0) g s) (fun _ => f0)), suml_zero. { symmetry. apply sub_0. }
      intros e I. apply sumr_zero. intros a Aa. destruct (Nat.eqb g (loc e a)); auto. apply sumr_zero. intros b Bb. unfold kx. destruct (fixedb dbc (loc e b) 0), (fixedb dbc (loc e b) 1), (fixedb dbc (loc e b) 2); apply zero_kx.
  - intros X g s Gm S3. unfold defect. rewrite RS, LO, comp_vw by auto. rewrite HR, HF by auto. destruct (fixedb dbc g s); reflexivity.
Qed.
Theorem C85_positive : forall (K : ofield) lim m n2o (fext dbc : list (bc K)) es u0 fixed0,
  problem m n2o fext dbc es u0 fixed0 -> (Z.of_nat m < 2 ^ 16)%Z -> (Z.of_nat m <= lim)%Z -> held_firm m dbc es ->
  forall A F U P, assemble lim n2o fext dbc es u0 fixed0 = Ok (A, F, U, P) -> positive A m.
Proof.
  intros K lim m n2o fext dbc es u0 fixed0 PR M16 LM HF A' F' U' P' E'.
  destruct (assemble_core lim m n2o fext dbc es u0 fixed0 PR M16 LM) as (A & F & U & P & D & C & E & B & H & S & LF & LU & LP & HU & _ & HR).
  rewrite E in E'. injection E' as <- <- <- <-.
  destruct (perm_inj n2o m (p_order _ _ _ _ _ _ _ PR)) as (LN & NR & NI & NS). pose proof (problem_good _ _ _ _ _ _ _ PR) as GE.
  destruct (row_scal lim m n2o fext dbc es u0 fixed0 A F D C PR M16 B H S LF) as (SY & RS).
  intros x X. set (Y := map (fun n => genv (fun s => x (3 * n + s))) (seq 0 m)).
  assert (YV : forall n s, n < m -> s < 3 -> vw Y n s = x (3 * n + s)).
  { intros n s Nn S3. unfold vw, Y. rewrite nth_indep with (d' := genv (fun s => x (3 * 0 + s))) by (rewrite map_length, seq_length; lia).
    rewrite (map_nth (fun n => genv (fun s => x (3 * n + s)))). rewrite seq_nth by auto. now rewrite gv_gen. }
  set (y := fun g s => vw Y (nth g n2o 0) s). set (z := fun g s => if fixedb dbc g s then f0 else if Nat.ltb g m && Nat.ltb s 3 then y g s else f0).
  assert (Q : quad A m x = fadd (sumr 0 m (fun g => sumr 0 3 (fun s => fmul (z g s) (nodal es z g s)))) (sumr 0 m (fun g => sumr 0 3 (fun s => if fixedb dbc g s then fmul (y g s) (y g s) else f0)))).
  { unfold quad. rewrite (sum_nodes m n2o _ (p_order _ _ _ _ _ _ _ PR)), <- sumr_add. apply sumr_ext. intros g G. rewrite <- sumr_add. apply sumr_ext. intros s S3.
    pose proof (NR g ltac:(lia)) as NG.
    rewrite (sumr_ext 0 (3 * m) _ (fun q => fmul (x (3 * nth g n2o 0 + s)) (fmul (scal A (3 * nth g n2o 0 + s) q) (comp Y q)))).
    2:{ intros q Qq. destruct (split3 m q ltac:(lia)) as (n & i & Nn & I & ->). rewrite comp_vw, YV by auto. symmetry. apply (Rmul_assoc (F_R (f_th K))). }
    rewrite sumr_scale, RS by lia. rewrite HR by lia. rewrite <- YV by lia. change (vw Y (nth g n2o 0) s) with (y g s).
    unfold z at 1. replace (Nat.ltb g m) with true by (symmetry; apply Nat.ltb_lt; lia). replace (Nat.ltb s 3) with true by (symmetry; apply Nat.ltb_lt; lia). cbn [andb].
    rewrite nodal_nodf. destruct (fixedb dbc g s).
    - apply mul0_add.
    - rewrite (suml_ext es _ (nodf z g s)). { symmetry. apply add_0r. }
      intros e I. apply nodf_ext with m. { rewrite Forall_forall in GE; auto. } intros h t Hh T3. unfold z.
      replace (Nat.ltb h m) with true by (symmetry; apply Nat.ltb_lt; lia). replace (Nat.ltb t 3) with true by (symmetry; apply Nat.ltb_lt; lia). reflexivity. }
  rewrite Q. set (S2 := sumr 0 m (fun g => sumr 0 3 (fun s => if fixedb dbc g s then fmul (y g s) (y g s) else f0))).
  assert (S2N : fle f0 S2 = true).
  { apply sumr_nonneg. intros g G. apply sumr_nonneg. intros s S3. destruct (fixedb dbc g s); [apply fsqr_nonneg|apply fle_refl]. }
  destruct (search m z) as [Z|Z].
  - assert (P1 : fltb f0 (sumr 0 m (fun g => sumr 0 3 (fun s => fmul (z g s) (nodal es z g s)))) = true).
    { apply HF; auto. intros g s GV. unfold z. rewrite given_val in GV. destruct (fixedb dbc g s); auto. congruence. }
    apply pos_add; auto.
  - rewrite (sumr_zero 0 m (fun g => sumr 0 3 (fun s => fmul (z g s) (nodal es z g s)))).
    2:{ intros g G. apply sumr_zero. intros s S3. rewrite Z by lia. apply mul_0. }
    rewrite add_0l. apply fltb_spec. split; auto. intros E0. destruct X as (p & Pp & Xp). apply Xp. destruct (split3 m p Pp) as (n & i & Nn & I & ->).
    destruct (NS n Nn) as (g & Gm & <-). rewrite <- YV by auto. change (y g i = f0). destruct (fixedb dbc g i) eqn:FG.
    + assert (Z1 : forall g s, g < m -> s < 3 -> (if fixedb dbc g s then fmul (y g s) (y g s) else f0) = f0).
      { apply (sum2_zero m). { intros; destruct (fixedb dbc g0 s); [apply fsqr_nonneg|apply fle_refl]. } symmetry; exact E0. }
      specialize (Z1 g i Gm I). rewrite FG in Z1. now apply sqr_zero.
    + specialize (Z g i Gm I). unfold z in Z. rewrite FG in Z. replace (Nat.ltb g m) with true in Z by (symmetry; apply Nat.ltb_lt; lia). replace (Nat.ltb i 3) with true in Z by (symmetry; apply Nat.ltb_lt; lia). exact Z.
Qed.
Theorem C85_solved : forall (K : ofield) (sq : K -> K) eps lim m n2o (fext dbc : list (bc K)) es u0 fixed0 tol,
  is_sqrt sq -> fltb f0 eps = true -> (Z.of_nat m < 2 ^ 16)%Z -> (Z.of_nat m <= lim)%Z -> fltb f0 tol = true ->
  problem m n2o fext dbc es u0 fixed0 -> held_firm m dbc es -> (exists g s, g < m /\ s < 3 /\ leftover fext dbc es (fun _ _ => f0) g s <> f0) ->
  mesh_solve sq eps lim n2o fext dbc es u0 fixed0 tol = Throw RuntimeError \/
  exists U R it, mesh_solve sq eps lim n2o fext dbc es u0 fixed0 tol = Ok (U, R, it) /\ length U = m /\ it <= 3 * m /\
    let size x := sumr 0 m (fun g => sumr 0 3 (fun s => fmul (leftover fext dbc es x g s) (leftover fext dbc es x g s))) in
    fltb (size (at_node n2o U)) (fmul tol (size (fun _ _ => f0))) = true.
Proof.
  intros K sq eps lim m n2o fext dbc es u0 fixed0 tol SQ EP M16 LM TP PR HFm (g0 & s0 & G0 & S0 & F0).
  destruct (C85_assembled K lim m n2o fext dbc es u0 fixed0 PR M16 LM) as (A & F & U & P & E & B & SY & LF & LU & LP & HU & HF & HD).
  pose proof (C85_positive K lim m n2o fext dbc es u0 fixed0 PR M16 LM HFm A F U P E) as PO.
  destruct (perm_inj n2o m (p_order _ _ _ _ _ _ _ PR)) as (LN & NR & NI & NS).
  assert (CF : forall g s, g < m -> s < 3 -> comp F (3 * nth g n2o 0 + s) = leftover fext dbc es (fun _ _ => f0) g s).
  { intros g s Gm S3. rewrite comp_vw by auto. apply HF; auto. }
  unfold mesh_solve. rewrite E. cbn [bind].
  destruct (C84_solved K sq eps lim m A F U P tol SQ EP M16 LM B SY PO LF LU LP TP) as [T|(U' & R & it & Q & LU' & IT & _ & TT)].
  - exists (3 * nth g0 n2o 0 + s0). split; [pose proof (NR g0 G0); lia|]. rewrite CF; auto.
  - left. exact T.
  - right. exists U', R, it. split; auto. split; auto. split; auto. cbv zeta. rewrite <- TT. unfold length2. rewrite !(sum_nodes m n2o _ (p_order _ _ _ _ _ _ _ PR)). f_equal.
    + apply sumr_ext. intros g G. apply sumr_ext. intros s S3. now rewrite HD by lia.
    + f_equal. apply sumr_ext. intros g G. apply sumr_ext. intros s S3. now rewrite CF by lia.
Qed.

Lemma feqb_true {K : ofield} (a b : K) : feqb a b = true -> a = b.
Proof. intros E. destruct (feqb_spec a b); [auto|discriminate]. Qed.
Lemma feqb_false {K : ofield} (a b : K) : feqb a b = false -> a <> b.
Proof. intros E. destruct (feqb_spec a b); [discriminate|auto]. Qed.
(* An element that has a node twice is assembled wrongly: the block between the two places is added once instead of with its transpose. *)
Definition eye3 (a b c : QcF) : m3 QcF := M3 a f0 f0 f0 b f0 f0 f0 c.
Definition twice : felem QcF := El [0; 0]%nat [eye3 (qz 2) (qz 2) (qz 2); eye3 (qz 1) (qz 1) (qz 1); eye3 (qz 2) (qz 2) (qz 2)].
Definition twice_ok (o : outcome (smat (m3 QcF) * svec QcF * svec QcF * svec QcF)) : bool :=
  match o with Ok (A, F, _, _) => feqb (defect A 1 F [V3 (qz 1) (qz 0) (qz 0)] 0) (qz (-5)) && feqb (leftover [] [] [twice] (at_node [0%nat] [V3 (qz 1) (qz 0) (qz 0)]) 0 0) (qz (-6)) | _ => false end.
Theorem C85_repeated_refuted : exists A F U P, assemble 100 [0%nat] [] [] [twice] [zerov] [0%Z] = Ok (A, F, U, P) /\
  defect A 1 F [V3 (qz 1) (qz 0) (qz 0)] 0 = qz (-5) /\ leftover [] [] [twice] (at_node [0%nat] [V3 (qz 1) (qz 0) (qz 0)]) 0 0 = qz (-6).
Proof.
  assert (C : twice_ok (assemble 100 [0%nat] [] [] [twice] [zerov] [0%Z]) = true) by (vm_compute; reflexivity).
  destruct (assemble 100 [0%nat] [] [] [twice] [zerov] [0%Z]) as [[[[A F] U] P]|e|f]; [|discriminate|discriminate].
  exists A, F, U, P. split; auto. unfold twice_ok in C. apply andb_true_iff in C as (C1 & C2). split.
  - exact (feqb_true _ _ C1).
  - exact (feqb_true _ _ C2).
Qed.

(* three nodes in a row, joined by two sets of springs; node 0 is held, node 2 in one direction only *)
Section Springs.
Context {K : ofield}.
Local Open Scope lin_scope.
Add Field Kf64 : (f_th K).
Definition eyeK (a b c : K) : m3 K := M3 a f0 f0 f0 b f0 f0 f0 c.
Definition springs (a b : nat) (p q r : K) : felem K := El [a; b] [eyeK p q r; eyeK (- p) (- q) (- r); eyeK p q r].
Definition dir (p q r : K) (s : nat) : K := match s with O => p | S O => q | _ => r end.
Lemma pull_springs a b p q r x g s : (s < 3)%nat -> pull x g s (springs a b p q r) =
  (if Nat.eqb g a then dir p q r s * (x a s - x b s) else f0) + (if Nat.eqb g b then dir p q r s * (x b s - x a s) else f0).
Proof.
  intros S3. unfold pull, springs. cbn [el2g length]. rewrite (sumr_S 0 1), (sumr_S 0 0), (sumr_nil 0 0) by lia. cbn [nth].
  assert (E : forall c d, (c < 2)%nat -> (d < 2)%nat -> sumr 0 3 (fun t => coef (El [a; b] [eyeK p q r; eyeK (- p) (- q) (- r); eyeK p q r]) c d s t * x (nth d [a; b] 0%nat) t) =
    (if Nat.eqb c d then dir p q r s else - dir p q r s) * x (nth d [a; b] 0%nat) s).
  { intros c d Cc Dd. rewrite sum3. destruct c as [|[|]]; try lia; destruct d as [|[|]]; try lia; destruct s as [|[|[|]]]; try lia; unfold coef; cbn [Nat.leb eke]; cbn [Nat.mul Nat.add];
    try change (0 / 2)%nat with 0%nat; try change (2 / 2)%nat with 1%nat; cbn [nth Nat.add eyeK get3 e00 e01 e02 e10 e11 e12 e20 e21 e22 Nat.eqb dir]; ring. }
  rewrite !(sumr_S 0 1), !(sumr_S 0 0), !(sumr_nil 0 0) by lia. rewrite !E by lia. cbn [Nat.eqb nth]. destruct (Nat.eqb g a), (Nat.eqb g b); ring.
Qed.
Lemma sub_eq (a b : K) : a - b = f0 -> a = b.
Proof. intros E. replace a with (a - b + b) by ring. rewrite E. ring. Qed.
Lemma energy p q r p' q' r' x : sumr 0 3 (fun g => sumr 0 3 (fun s => x g s * nodal [springs 0 1 p q r; springs 2 1 p' q' r'] x g s)) =
  (p * sqr (x 0%nat 0%nat - x 1%nat 0%nat) + q * sqr (x 0%nat 1%nat - x 1%nat 1%nat) + r * sqr (x 0%nat 2%nat - x 1%nat 2%nat)) +
  (p' * sqr (x 2%nat 0%nat - x 1%nat 0%nat) + q' * sqr (x 2%nat 1%nat - x 1%nat 1%nat) + r' * sqr (x 2%nat 2%nat - x 1%nat 2%nat)).
Proof.
  rewrite !sum3. unfold nodal. cbn [fold_right]. rewrite !pull_springs by lia. cbn [Nat.eqb dir]. unfold sqr. ring.
Qed.
End Springs.
Definition row3 : list (felem QcF) := [springs 0 1 (qz 4) (qz 8) (qz 4); springs 2 1 (qz 1) (qz 1) (qz 1)].
Definition bc3 : list (bc QcF) := [Bc 0 0 (qz 2); Bc 0 1 (qz 0); Bc 2 1 (qz 5); Bc 0 2 (qz 0)].
Definition f3 : list (bc QcF) := [Bc 2 0 (qz 4); Bc 1 2 (qz (-8))].
Lemma row3_problem : problem 3 [2; 1; 0]%nat f3 bc3 row3 [zerov; zerov; zerov] [0; 0; 0]%Z.
Proof.
  constructor; try reflexivity.
  - change (seq 0 3) with [0; 1; 2]%nat. apply (Permutation_rev [2; 1; 0]%nat).
  - intros u [<-|[<-|[]]]; cbn; lia.
  - repeat constructor; cbn; intuition congruence.
  - intros u [<-|[<-|[<-|[<-|[]]]]]; cbn; lia.
  - repeat constructor; cbn; intuition congruence.
  - intros g s G S E. destruct g as [|[|[|]]]; try lia; cbn in E; rewrite Z.testbit_0_l in E; discriminate.
  - intros e [<-|[<-|[]]]; (split; [repeat constructor; cbn; lia|repeat constructor; cbn; intuition congruence]).
  - intros e [<-|[<-|[]]]; reflexivity.
  - intros e a s t [<-|[<-|[]]] A S T; cbn in A; (destruct a as [|[|]]; try lia); (destruct s as [|[|[|]]]; try lia); (destruct t as [|[|[|]]]; try lia); reflexivity.
Qed.

Example C85_hypotheses : problem 3 [2; 1; 0]%nat f3 bc3 row3 [zerov; zerov; zerov] [0; 0; 0]%Z /\ held_firm 3 bc3 row3 /\ leftover f3 bc3 row3 (fun _ _ => f0) 0 0 <> f0.
Proof.
  split; [exact row3_problem|]. split.
  - intros x H0 (g & s & G & S & E). unfold row3. rewrite energy.
    assert (Q4 : fltb f0 (qz 4 : QcF) = true) by (vm_compute; reflexivity). assert (Q8 : fltb f0 (qz 8 : QcF) = true) by (vm_compute; reflexivity). assert (Q1 : fltb f0 (qz 1 : QcF) = true) by (vm_compute; reflexivity).
    apply fltb_spec in Q4 as (Q4 & N4). apply fltb_spec in Q8 as (Q8 & N8). apply fltb_spec in Q1 as (Q1 & N1).
    apply fltb_spec. split; [repeat (apply add_nonneg); apply fle_mul; auto; apply sqr_nonneg|]. intros Z. symmetry in Z.
    apply add_zero in Z as (Z1 & Z2); [|repeat (apply add_nonneg); apply fle_mul; auto; apply sqr_nonneg|repeat (apply add_nonneg); apply fle_mul; auto; apply sqr_nonneg].
    apply add_zero in Z1 as (Z1 & Za); [|repeat (apply add_nonneg); apply fle_mul; auto; apply sqr_nonneg|apply fle_mul; auto; apply sqr_nonneg].
    apply add_zero in Z1 as (Zc & Zb); [|apply fle_mul; auto; apply sqr_nonneg|apply fle_mul; auto; apply sqr_nonneg].
    apply add_zero in Z2 as (Z2 & Zd); [|repeat (apply add_nonneg); apply fle_mul; auto; apply sqr_nonneg|apply fle_mul; auto; apply sqr_nonneg].
    apply add_zero in Z2 as (Zf & Ze); [|apply fle_mul; auto; apply sqr_nonneg|apply fle_mul; auto; apply sqr_nonneg].
    assert (D : forall k a b : QcF, f0 <> k -> fmul k (sqr (fsub a b)) = f0 -> a = b).
    { intros k a b Nk Z. apply fmul_0 in Z as [Z|Z]; [congruence|]. apply sqr_zero in Z. now apply sub_eq. }
    apply D in Za; auto. apply D in Zb; auto. apply D in Zc; auto. apply D in Zd; auto. apply D in Ze; auto. apply D in Zf; auto.
    assert (x 0 0 = f0 /\ x 0 1 = f0 /\ x 0 2 = f0) as (X0 & X1 & X2) by (repeat split; apply H0; discriminate).
    apply E. destruct g as [|[|[|]]]; try lia; destruct s as [|[|[|]]]; try lia; congruence.
  - assert (C : feqb (leftover f3 bc3 row3 (fun _ _ => f0) 0 0) f0 = false) by (vm_compute; reflexivity).
    exact (feqb_false _ _ C).
Qed.
(* the springs pulled to their place: solved exactly *)
Example C85_demo :
  match mesh_solve qsq ieps 100 [2; 1; 0]%nat f3 bc3 row3 [zerov; zerov; zerov] [0; 0; 0]%Z (fdiv f1 (qz 100)) with
  | Ok (U, R, it) => forallb (fun g => forallb (fun s => feqb (leftover f3 bc3 row3 (at_node [2; 1; 0]%nat U) g s) f0) [0; 1; 2]%nat) [0; 1; 2]%nat &&
      feqb (at_node [2; 1; 0]%nat U 0 0) (qz 2) && feqb (at_node [2; 1; 0]%nat U 1 0) (qz 3) && feqb (at_node [2; 1; 0]%nat U 2 0) (qz 7) && (0 <? it)%nat
  | _ => false
  end = true.
Proof. vm_compute. reflexivity. Qed.
Print Assumptions C85_assembled.
Print Assumptions C85_positive.
Print Assumptions C85_solved.
Print Assumptions C85_repeated_refuted.
Print Assumptions C85_hypotheses.
Print Assumptions C85_demo.
