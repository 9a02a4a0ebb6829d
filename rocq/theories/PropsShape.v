(* C87: the shape functions and the Gauss points of the elements. *)
From Coq Require Import List ZArith Lia Bool Arith Field QArith Qcanon Reals.
From Verif Require Import Base LinBase PropsQr PcgModel ShapeModel BcProofs LinReal PropsInchol PropsBc.
Import ListNotations.
Local Open Scope nat_scope.

(* ---- specification ---- *)
Section Spec.
Context {K : ofield}.
Local Open Scope lin_scope.
Definition value (o : outcome K) : K := match o with Ok v => v | _ => f0 end.
Definition finite (s : shape) : Prop := s <> InfPos /\ s <> InfNeg.
(* away from where the functions of the infinite elements are infinite *)
Definition at_ease (s : shape) (ismap : bool) (r : K) : Prop :=
  ismap = true -> match s with InfPos => r <> f1 | InfNeg => r <> - f1 | _ => True end.
(* where the nodes of a shape are *)
Definition spot (s : shape) (n : nat) : K :=
  match s, n with
  | Linear, O => - f1 | Linear, _ => f1
  | Cubic, O => - f1 | Cubic, S O => - (f1 / num 3) | Cubic, S (S O) => f1 / num 3 | Cubic, _ => f1
  | InfNeg, O => f0 | InfNeg, _ => f1
  | _, O => - f1 | _, S O => f0 | _, _ => f1
  end.
Fixpoint power (x : K) (k : nat) : K := match k with O => f1 | S k => x * power x k end.
(* a polynomial by its coefficients, and its integral from a to b *)
Definition poly (c : list K) (x : K) : K := sumr 0 (length c) (fun k => nth k c f0 * power x k).
Definition count (k : nat) : K := num (Z.of_nat k).
Definition integral (c : list K) (a b : K) : K := sumr 0 (length c) (fun k => nth k c f0 * ((power b (S k) - power a (S k)) / count (S k))).
Definition quadrature (g : list (K * K)) (f : K -> K) : K := fold_right (fun p s => snd p * f (fst p) + s) f0 g.
End Spec.

Section Proofs.
Context {K : ofield}.
Local Open Scope lin_scope.
Add Field Kf67 : (f_th K).

Lemma pos1 : fltb f0 (@f1 K) = true.
Proof. apply fltb_spec. split; [apply f0_le_f1|]. intros E. now apply (@f1_neq_f0 K). Qed.
Lemma pos_add (x y : K) : fltb f0 x = true -> fltb f0 y = true -> fltb f0 (x + y) = true.
Proof.
  intros A B. apply fltb_spec in A as (A & A'). apply fltb_spec in B as (B & B'). apply fltb_spec. split; [now apply fadd_nonneg|].
  intros E. destruct (fadd_0_nonneg x y A B (eq_sym E)). congruence.
Qed.
Lemma pos_mul (x y : K) : fltb f0 x = true -> fltb f0 y = true -> fltb f0 (x * y) = true.
Proof.
  intros A B. apply fltb_spec in A as (A & A'). apply fltb_spec in B as (B & B'). apply fltb_spec. split; [now apply fle_mul|].
  intros E. destruct (fmul_0 x y (eq_sym E)); congruence.
Qed.
Lemma pos_num p : fltb f0 (@nump K p) = true.
Proof.
  assert (P2 : fltb f0 (@f1 K + f1) = true) by (apply pos_add; apply pos1).
  induction p as [p IH|p IH|]; [|destruct p as [p|p|]; [now apply pos_mul|now apply pos_mul|exact P2]|apply pos1].
  destruct p as [p|p|]; [| |apply pos_add; [apply pos1|exact P2]]; (apply pos_add; [apply pos1|now apply pos_mul]).
Qed.
Lemma nump_nz p : @nump K p <> f0.
Proof. apply fpos_nz, pos_num. Qed.
End Proofs.
Ltac nz := first [assumption | match goal with |- ?e <> _ => first
  [ exact (nump_nz 1) | exact (nump_nz 2) | exact (nump_nz 4) | exact (nump_nz 8) | exact (nump_nz 3) | exact (nump_nz 5) | exact (nump_nz 6) | exact (nump_nz 7) | exact (nump_nz 25) | exact (nump_nz 30) | exact (nump_nz 12) | exact (nump_nz 18) | exact (nump_nz 45) | exact (nump_nz 10) | exact (nump_nz 15) | exact (nump_nz 150) | exact (nump_nz 36) | exact (nump_nz 9) | exact (nump_nz 16) | exact (nump_nz 35) | exact (nump_nz 36) | exact (nump_nz 525) | exact (nump_nz 1225) | exact (nump_nz 44100) | exact (nump_nz 1500625) | exact (nump_nz 54022500) | exact (nump_nz 1838265625) | exact (nump_nz 66177562500) ] end].
Ltac fld := cbn [num nump]; field; repeat split; nz.

Section Shapes.
Context {K : ofield}.
Local Open Scope lin_scope.
Add Field Kf68 : (f_th K).

Lemma value_div (x y : K) : y <> f0 -> value (divc x y) = x / y.
Proof. intros N. now rewrite divc_ok. Qed.
Lemma sgn3 (r : K) : (fltb r f0 = true /\ fltb f0 r = false /\ fabs r = - r) \/ (fltb r f0 = false /\ fltb f0 r = true /\ fabs r = r) \/ (r = f0).
Proof.
  unfold fltb, fabs. destruct (fle f0 r) eqn:A, (fle r f0) eqn:B; cbn [negb]; auto.
  - right. right. now apply fle_antisym.
  - destruct (fle_total K f0 r); congruence.
Qed.
Lemma four (f : nat -> K) : sumr 0 4 f = f 0%nat + f 1%nat + f 2 + f 3.
Proof. rewrite !sumr_S, sumr_nil by lia. ring. Qed.
Lemma three (f : nat -> K) : sumr 0 3 f = f 0%nat + f 1%nat + f 2.
Proof. rewrite !sumr_S, sumr_nil by lia. ring. Qed.
Lemma two (f : nat -> K) : sumr 0 2 f = f 0%nat + f 1%nat.
Proof. rewrite !sumr_S, sumr_nil by lia. ring. Qed.

Lemma ease_pos (r : K) : at_ease InfPos true r -> f1 - r <> f0.
Proof. intros A E. apply A; auto. replace r with (f1 - (f1 - r)) by ring. rewrite E. ring. Qed.
Lemma ease_neg (r : K) : at_ease InfNeg true r -> f1 + r <> f0.
Proof. intros A E. apply A; auto. replace r with ((f1 + r) - f1) by ring. rewrite E. ring. Qed.
Lemma val_ok (x y : K) : y <> f0 -> divc x y = Ok (value (divc x y)).
Proof. intros. rewrite value_div, divc_ok; auto. Qed.
Ltac open_shape := cbn [getn getN getdN]; unfold Npi, dNpi, Nni, dNni, N_2, dN_2, N_A, dN_A, N_3, dN_3, N_4, dN_4, spot; cbn [getn getN getdN value Nat.add]; unfold bad, half, sixteenth.

(* Every shape function has its value and slope; for the infinite ones where they are finite. *)
Theorem C87_defined : forall s n (r : K) ismap, n < getn s -> at_ease s ismap r ->
  getN s n r ismap = Ok (value (getN s n r ismap)) /\ getdN s n r ismap = Ok (value (getdN s n r ismap)).
Proof.
  intros s n r im L A. destruct s; cbn [getn] in L; unfold getN, getdN; try (destruct n as [|[|[|[|]]]]; try lia; split; reflexivity).
  - destruct im; [|destruct n as [|[|]]; try lia; split; reflexivity]. pose proof (ease_pos r A). destruct n as [|[|]]; try lia; split; unfold Mpi, dMpi; apply val_ok; auto; now apply fmul_nz.
  - destruct im; [|destruct n as [|[|]]; try lia; split; reflexivity]. pose proof (ease_neg r A). destruct n as [|[|]]; try lia; split; unfold Mni, dMni; apply val_ok; auto; now apply fmul_nz.
Qed.
(* They add up to one, and their slopes to nothing; for the infinite elements this holds of the mapping. *)
Theorem C87_unity : forall s (r : K) ismap, finite s \/ ismap = true -> at_ease s ismap r ->
  sumr 0 (getn s) (fun n => value (getN s n r ismap)) = f1 /\ sumr 0 (getn s) (fun n => value (getdN s n r ismap)) = f0.
Proof.
  intros s r im F A. destruct s; cbn [getn].
  - rewrite !two. open_shape. split; fld.
  - rewrite !three. open_shape. split; fld.
  - rewrite !four. open_shape. split; fld.
  - rewrite !three. open_shape. destruct (sgn3 r) as [(-> & -> & ->)|[(-> & -> & ->)| ->]]; [split; ring|split; ring|]. rewrite fltb_irr. unfold fabs. rewrite fle_refl. split; fld.
  - destruct F as [(F & _)| ->]; [congruence|]. pose proof (ease_pos r A). rewrite !two. cbn [getN getdN]. unfold Mpi, dMpi. rewrite !value_div by auto using fmul_nz. split; fld.
  - destruct F as [(_ & F)| ->]; [congruence|]. pose proof (ease_neg r A). rewrite !two. cbn [getN getdN]. unfold Mni, dMni. rewrite !value_div by auto using fmul_nz. split; fld.
Qed.
(* Each is one at its own node and nothing at the others. *)
Lemma spot_ease s n im : n < getn s -> at_ease s im (@spot K s n).
Proof.
  intros L Q. destruct s; auto; destruct n as [|[|]]; cbn [getn] in L; try lia; cbn [spot]; intros E.
  - apply (@nump_nz K 2). cbn [nump]. transitivity (f1 - - f1 : K); [ring|]. rewrite E. ring.
  - now apply (@f1_neq_f0 K).
  - apply (@f1_neq_f0 K). transitivity (- - f1 : K); [ring|]. rewrite <- E. ring.
  - apply (@nump_nz K 2). cbn [nump]. transitivity (f1 - - f1 : K); [ring|]. rewrite <- E. ring.
Qed.
Lemma pos_sign (x : K) : fltb f0 x = true -> fltb x f0 = false /\ fabs x = x /\ fltb (- x) f0 = true /\ fltb f0 (- x) = false /\ fabs (- x) = x.
Proof.
  intros P. assert (Q : fltb (- x) f0 = true). { apply fltb_spec in P as (P & N). apply fltb_spec. split; [apply fle_sub; now replace (f0 - - x) with x by ring|]. intros E. apply N. replace x with (- - x) by ring. rewrite E. ring. }
  split; [|split; [|split; [|split]]]; auto.
  - destruct (fltb x f0) eqn:E; auto. destruct (sgn3 x) as [(A & B & _)|[(A & B & _)|A]]; try congruence. subst. now rewrite fltb_irr in P.
  - destruct (sgn3 x) as [(A & B & C)|[(A & B & C)|A]]; try congruence. subst. now rewrite fltb_irr in P.
  - destruct (sgn3 (- x)) as [(A & B & C)|[(A & B & C)|A]]; try congruence. rewrite A in Q. now rewrite fltb_irr in Q.
  - destruct (sgn3 (- x)) as [(A & B & C)|[(A & B & C)|A]]; try congruence. { rewrite C. ring. } rewrite A in Q. now rewrite fltb_irr in Q.
Qed.
Theorem C87_nodes : forall s n m ismap, n < getn s -> m < getn s ->
  value (getN s n (@spot K s m) ismap) = if Nat.eqb n m then f1 else f0.
Proof.
  intros s n m im LN LM. pose proof (spot_ease s m im LM) as A. destruct s; cbn [getn] in LN, LM.
  - destruct n as [|[|]]; try lia; destruct m as [|[|]]; try lia; open_shape; cbn [Nat.eqb]; fld.
  - destruct n as [|[|[|]]]; try lia; destruct m as [|[|[|]]]; try lia; open_shape; cbn [Nat.eqb]; fld.
  - destruct n as [|[|[|[|]]]]; try lia; destruct m as [|[|[|[|]]]]; try lia; open_shape; cbn [Nat.eqb]; fld.
  - destruct (pos_sign f1 pos1) as (A1 & A2 & A3 & A4 & A5). pose proof (@pos1 K) as A6. assert (A7 : fabs (@f0 K) = f0) by (unfold fabs; now rewrite fle_refl). assert (A8 : fltb (@f0 K) f0 = false) by apply fltb_irr.
    destruct n as [|[|[|]]]; try lia; destruct m as [|[|[|]]]; try lia; open_shape; cbn [Nat.eqb]; rewrite ?A1, ?A2, ?A3, ?A4, ?A5, ?A6, ?A7, ?A8; ring.
  - destruct im.
    + pose proof (ease_pos _ A) as B. cbn [getN]. destruct n as [|[|]]; try lia; destruct m as [|[|]]; try lia; unfold Mpi; rewrite value_div by auto; revert B; cbn [spot Nat.eqb]; intros B; fld.
    + destruct n as [|[|]]; try lia; destruct m as [|[|]]; try lia; open_shape; cbn [Nat.eqb]; fld.
  - destruct im.
    + pose proof (ease_neg _ A) as B. cbn [getN]. destruct n as [|[|]]; try lia; destruct m as [|[|]]; try lia; unfold Mni; rewrite value_div by auto; revert B; cbn [spot Nat.eqb]; intros B; fld.
    + destruct n as [|[|]]; try lia; destruct m as [|[|]]; try lia; open_shape; cbn [Nat.eqb]; fld.
Qed.
(* They give back the place itself, so that an element with straight sides is mapped straight. *)
Theorem C87_straight : forall s (r : K), finite s -> sumr 0 (getn s) (fun n => @spot K s n * value (getN s n r true)) = r.
Proof.
  intros s r (F1 & F2). destruct s; cbn [getn]; try congruence.
  - rewrite !two. open_shape. fld.
  - rewrite !three. open_shape. fld.
  - rewrite !four. open_shape. fld.
  - rewrite !three. open_shape. destruct (sgn3 r) as [(-> & -> & ->)|[(-> & -> & ->)| ->]]; [ring|ring|]. rewrite fltb_irr. ring.
Qed.
(* The slopes are the slopes: of the polynomials *)
Theorem C87_slope : forall s n (r : K), s = Linear \/ s = Quadratic \/ s = Cubic -> n < getn s ->
  exists a b, forall h ismap, value (getN s n (r + h) ismap) = value (getN s n r ismap) + h * value (getdN s n r ismap) + h * h * (a + b * h).
Proof.
  intros s n r S L. destruct S as [->|[->| ->]]; cbn [getn] in L.
  - exists f0, f0. intros h im. destruct n as [|[|]]; try lia; open_shape; fld.
  - destruct n as [|[|[|]]]; try lia; open_shape; [exists (f1 / num 2), f0|exists (- f1), f0|exists (f1 / num 2), f0]; intros h im; fld.
  - destruct n as [|[|[|[|]]]]; try lia; open_shape.
    + exists (num 9 * (f1 - num 3 * r) / num 16), (- num 9 / num 16). intros h im. fld.
    + exists (num 9 * (num 9 * r - f1) / num 16), (num 27 / num 16). intros h im. fld.
    + exists (num 9 * (- num 9 * r - f1) / num 16), (- num 27 / num 16). intros h im. fld.
    + exists (num 9 * (f1 + num 3 * r) / num 16), (num 9 / num 16). intros h im. fld.
Qed.
(* of the absolute ones away from the kink, and at the kink half way between the two *)
Theorem C87_slope_absolute : forall n (r h : K) ismap, n < 3 -> (fltb f0 r = true /\ fltb f0 (r + h) = true) \/ (fltb r f0 = true /\ fltb (r + h) f0 = true) ->
  value (getN Absolute n (r + h) ismap) = value (getN Absolute n r ismap) + h * value (getdN Absolute n r ismap) /\
  forall p q : K, fltb p f0 = true -> fltb f0 q = true -> num 2 * value (getdN Absolute n f0 ismap) = value (getdN Absolute n p ismap) + value (getdN Absolute n q ismap).
Proof.
  intros n r h im L S. assert (NS : forall x : K, fltb x f0 = true -> fltb f0 x = false). { intros x X. destruct (sgn3 x) as [(A & B & C)|[(A & B & C)|A]]; try congruence. subst. now rewrite fltb_irr in X. }
  split.
  - destruct S as [(A & B)|(A & B)].
    + destruct (pos_sign _ A) as (A1 & A2 & _). destruct (pos_sign _ B) as (B1 & B2 & _). destruct n as [|[|[|]]]; try lia; open_shape; rewrite ?A, ?B, ?A1, ?A2, ?B1, ?B2; ring.
    + assert (F : forall x : K, fltb x f0 = true -> fabs x = - x). { intros x X. destruct (sgn3 x) as [(? & ? & C)|[(C & ? & ?)|C]]; try congruence. subst. now rewrite fltb_irr in X. }
      destruct n as [|[|[|]]]; try lia; open_shape; rewrite ?A, ?B, ?(NS _ A), ?(NS _ B), ?(F _ A), ?(F _ B); ring.
  - intros p q P Q. destruct (pos_sign _ Q) as (Q1 & _). destruct n as [|[|[|]]]; try lia; open_shape; rewrite ?P, ?Q, ?Q1, ?(NS _ P), fltb_irr; fld.
Qed.
(* of the functions of the infinite elements *)
Theorem C87_slope_decay : forall s n (r : K), s = InfPos \/ s = InfNeg -> n < 2 ->
  exists a, forall h, value (getN s n (r + h) false) = value (getN s n r false) + h * value (getdN s n r false) + h * h * a.
Proof.
  intros s n r [->| ->] L; destruct n as [|[|]]; try lia; open_shape; [exists (f1 / num 2)|exists (- f1)|exists (- f1)|exists (f1 / num 2)]; intros h; fld.
Qed.
(* and of the mapping of the infinite elements: the error of the slope over a step h is of the size of h *)
Theorem C87_slope_infinite : forall s n (r h : K), s = InfPos \/ s = InfNeg -> n < 2 -> at_ease s true r -> at_ease s true (r + h) ->
  value (getN s n (r + h) true) = value (getN s n r true) + h * value (getdN s n r true) * (match s with InfPos => (f1 - r) / (f1 - (r + h)) | _ => (f1 + r) / (f1 + (r + h)) end).
Proof.
  intros s n r h [->| ->] L A B.
  - pose proof (ease_pos _ A). pose proof (ease_pos _ B). cbn [getN getdN]. destruct n as [|[|]]; try lia; unfold Mpi, dMpi; rewrite !value_div by auto using fmul_nz; fld.
  - pose proof (ease_neg _ A). pose proof (ease_neg _ B). cbn [getN getdN]. destruct n as [|[|]]; try lia; unfold Mni, dMni; rewrite !value_div by auto using fmul_nz; fld.
Qed.

(* ---- blocks ---- *)
Definition at3 (ny nx i j k : nat) : nat := ny * nx * i + ny * j + k.
Lemma at3_inj ny nx i j k i' j' k' : j < nx -> j' < nx -> k < ny -> k' < ny -> at3 ny nx i j k = at3 ny nx i' j' k' -> i = i' /\ j = j' /\ k = k'.
Proof.
  intros J J' A A' E. unfold at3 in E. destruct (idx_inj ny (i * nx + j) k (i' * nx + j') k' A A') as (E1 & E2); [lia|].
  destruct (idx_inj nx i j i' j' J J' E1). auto.
Qed.
Lemma at3_lt ny nx nz i j k : i < nz -> j < nx -> k < ny -> at3 ny nx i j k < nz * nx * ny.
Proof. intros. unfold at3. assert (i * nx + j < nz * nx) by (apply idx_lt; auto). assert ((i * nx + j) * ny + k < nz * nx * ny) by (apply idx_lt; auto). lia. Qed.
Lemma sumr_flat n m (f : nat -> K) : sumr 0 (n * m) f = sumr 0 n (fun i => sumr 0 m (fun j => f (i * m + j)%nat)).
Proof.
  induction n as [|n IH]; [reflexivity|]. rewrite sumr_S, <- IH by lia. replace (S n * m)%nat with (n * m + m)%nat by lia. clear IH.
  induction m as [|m IH]; [rewrite Nat.add_0_r, (sumr_nil 0 0) by lia; ring|]. 
  generalize (n * S m)%nat as a. intros a. clear IH. induction (S m) as [|q IH]; [rewrite Nat.add_0_r, (sumr_nil 0 0) by lia; ring|].
  replace (a + S q)%nat with (S (a + q)) by lia. rewrite !sumr_S by lia. rewrite IH. ring.
Qed.
Lemma sum_product nz nx ny (f g h : nat -> K) : sumr 0 (nz * nx * ny) (fun l => f ((l / ny) mod nx)%nat * g (l mod ny)%nat * h (l / ny / nx)%nat) = sumr 0 nx f * sumr 0 ny g * sumr 0 nz h.
Proof.
  rewrite sumr_flat. rewrite (sumr_ext 0 (nz * nx) _ (fun l => f (l mod nx)%nat * sumr 0 ny g * h (l / nx)%nat)).
  2:{ intros l L. rewrite (sumr_ext 0 ny _ (fun j => (f (l mod nx)%nat * h (l / nx)%nat) * g j)).
      - rewrite sumr_scale. ring.
      - intros j J. assert (ny <> 0%nat) by lia. rewrite (Nat.add_comm (l * ny) j), Nat.div_add, Nat.mod_add, (Nat.div_small j), (Nat.mod_small j) by lia. rewrite Nat.add_0_l. ring. }
  rewrite sumr_flat. rewrite (sumr_ext 0 nz _ (fun i => (sumr 0 nx f * sumr 0 ny g) * h i)).
  2:{ intros i I. rewrite (sumr_ext 0 nx _ (fun j => (sumr 0 ny g * h i) * f j)).
      - rewrite sumr_scale. ring.
      - intros j J. assert (nx <> 0%nat) by lia. rewrite (Nat.add_comm (i * nx) j), Nat.div_add, Nat.mod_add, (Nat.div_small j), (Nat.mod_small j) by lia. rewrite Nat.add_0_l. ring. }
  rewrite sumr_scale. reflexivity.
Qed.
Lemma at3_div ny nx i j k : j < nx -> k < ny -> (at3 ny nx i j k mod ny = k /\ (at3 ny nx i j k / ny) mod nx = j /\ at3 ny nx i j k / ny / nx = i)%nat.
Proof.
  intros J A. unfold at3. replace (ny * nx * i + ny * j + k)%nat with (k + (j + i * nx) * ny)%nat by lia. rewrite Nat.mod_add, Nat.div_add, (Nat.mod_small k), (Nat.div_small k) by lia.
  rewrite Nat.add_0_l, Nat.mod_add, Nat.div_add, (Nat.mod_small j), (Nat.div_small j) by lia. auto.
Qed.
Section Block.
Variables (sz sx sy : shape) (im : bool) (gx gy gz : K).
Hypothesis Ax : at_ease sx im gx.
Hypothesis Ay : at_ease sy im gy.
Hypothesis Az : at_ease sz im gz.
Notation X j := (value (getN sx j gx im)). Notation Y k := (value (getN sy k gy im)). Notation Z i := (value (getN sz i gz im)).
Notation dX j := (value (getdN sx j gx im)). Notation dY k := (value (getdN sy k gy im)). Notation dZ i := (value (getdN sz i gz im)).
Definition filled (m : nat) (st : list K * list (v3 K)) : Prop :=
  length (fst st) = (getn sz * getn sx * getn sy)%nat /\ length (snd st) = (getn sz * getn sx * getn sy)%nat /\
  forall i j k, i < getn sz -> j < getn sx -> k < getn sy -> at3 (getn sy) (getn sx) i j k < m ->
    nth_error (fst st) (at3 (getn sy) (getn sx) i j k) = Some (X j * Y k * Z i) /\
    nth_error (snd st) (at3 (getn sy) (getn sx) i j k) = Some (V3 (dX j * Y k * Z i) (X j * dY k * Z i) (X j * Y k * dZ i)).
Lemma block_filled st : length (fst st) = (getn sz * getn sx * getn sy)%nat -> length (snd st) = (getn sz * getn sx * getn sy)%nat ->
  exists st', buildSF_block sz sx sy im gx gy gz st = Ok st' /\ filled (getn sz * getn sx * getn sy) st'.
Proof.
  intros L1 L2. unfold buildSF_block. cbv zeta. rewrite Nat.mul_1_l. destruct (for_ok (fun i s => filled (getn sy * getn sx * i) s) 0 (getn sz)
    (fun i st => let* Nz := getN sz i gz im in let* dNdz := getdN sz i gz im in
      for_up 0 (getn sx) (fun j st => let* Nx := getN sx j gx im in let* dNdx := getdN sx j gx im in
        for_up 0 (getn sy) (fun k st => let '(N, dNdr) := st in let* Ny := getN sy k gy im in let* dNdy := getdN sy k gy im in
          let* N := aset N (getn sy * getn sx * i + getn sy * j + 1 * k) (Nx * Ny * Nz) in
          let* dNdr := aset dNdr (getn sy * getn sx * i + getn sy * j + 1 * k) (V3 (dNdx * Ny * Nz) (Nx * dNdy * Nz) (Nx * Ny * dNdz)) in Ok (N, dNdr)) st) st) st) as (s' & E & F).
  - lia.
  - split; auto. split; auto. intros; lia.
  - intros i s I F. destruct (C87_defined sz i gz im) as (-> & ->); [lia|auto|]. cbn [bind].
    destruct (for_ok (fun j s => filled (getn sy * getn sx * i + getn sy * j) s) 0 (getn sx)
      (fun j st => let* Nx := getN sx j gx im in let* dNdx := getdN sx j gx im in
        for_up 0 (getn sy) (fun k st => let '(N, dNdr) := st in let* Ny := getN sy k gy im in let* dNdy := getdN sy k gy im in
          let* N := aset N (getn sy * getn sx * i + getn sy * j + 1 * k) (Nx * Ny * Z i) in
          let* dNdr := aset dNdr (getn sy * getn sx * i + getn sy * j + 1 * k) (V3 (dNdx * Ny * Z i) (Nx * dNdy * Z i) (Nx * Ny * dZ i)) in Ok (N, dNdr)) st) s) as (s1 & E1 & F1).
    + lia.
    + now rewrite Nat.mul_0_r, Nat.add_0_r.
    + intros j s0 J F0. destruct (C87_defined sx j gx im) as (-> & ->); [lia|auto|]. cbn [bind].
      destruct (for_ok (fun k s => filled (getn sy * getn sx * i + getn sy * j + k) s) 0 (getn sy)
        (fun k st => let '(N, dNdr) := st in let* Ny := getN sy k gy im in let* dNdy := getdN sy k gy im in
          let* N := aset N (getn sy * getn sx * i + getn sy * j + 1 * k) (X j * Ny * Z i) in
          let* dNdr := aset dNdr (getn sy * getn sx * i + getn sy * j + 1 * k) (V3 (dX j * Ny * Z i) (X j * dNdy * Z i) (X j * Ny * dZ i)) in Ok (N, dNdr)) s0) as (s2 & E2 & F2).
      * lia.
      * now rewrite Nat.add_0_r.
      * intros k (N & D) Kk (M1 & M2 & H). cbn [fst snd] in *. destruct (C87_defined sy k gy im) as (-> & ->); [lia|auto|]. cbn [bind]. rewrite Nat.mul_1_l. fold (at3 (getn sy) (getn sx) i j k).
        assert (B : at3 (getn sy) (getn sx) i j k < getn sz * getn sx * getn sy) by (apply at3_lt; lia).
        rewrite !aset_ok by lia. cbn [bind]. eexists. split; [reflexivity|]. split; [cbn [fst]; now rewrite length_upd|]. split; [cbn [snd]; now rewrite length_upd|]. cbn [fst snd].
        intros i' j' k' I' J' K' LT. destruct (Nat.eq_dec (at3 (getn sy) (getn sx) i' j' k') (at3 (getn sy) (getn sx) i j k)) as [EQ|NE].
        -- apply at3_inj in EQ as (-> & -> & ->); try lia. rewrite !nth_error_upd_eq by lia. auto.
        -- rewrite !nth_error_upd_ne by auto. apply H; auto. unfold at3 in *. lia.
      * exists s2. split; [exact E2|]. replace (getn sy * getn sx * i + getn sy * (j + 1))%nat with (getn sy * getn sx * i + getn sy * j + getn sy)%nat by lia. exact F2.
    + exists s1. split; [exact E1|]. replace (getn sy * getn sx * (i + 1))%nat with (getn sy * getn sx * i + getn sy * getn sx)%nat by lia. exact F1.
  - exists s'. split; [exact E|]. replace (getn sz * getn sx * getn sy)%nat with (getn sy * getn sx * getn sz)%nat by lia. exact F.
Qed.
End Block.
(* The functions of a block are the products; they add up to one and their slopes to nothing. *)
Theorem C87_block : forall sz sx sy im (gx gy gz : K) N0 d0, at_ease sx im gx -> at_ease sy im gy -> at_ease sz im gz ->
  length N0 = (getn sz * getn sx * getn sy)%nat -> length d0 = (getn sz * getn sx * getn sy)%nat ->
  exists N d, buildSF_block sz sx sy im gx gy gz (N0, d0) = Ok (N, d) /\ length N = length N0 /\ length d = length d0 /\
    (forall i j k, i < getn sz -> j < getn sx -> k < getn sy -> let l := at3 (getn sy) (getn sx) i j k in
      let X := value (getN sx j gx im) in let Y := value (getN sy k gy im) in let Z := value (getN sz i gz im) in
      nth l N f0 = X * Y * Z /\ nth l d zerov = V3 (value (getdN sx j gx im) * Y * Z) (X * value (getdN sy k gy im) * Z) (X * Y * value (getdN sz i gz im))) /\
    ((finite sz /\ finite sx /\ finite sy) \/ im = true ->
      sumr 0 (length N) (fun l => nth l N f0) = f1 /\ forall c, sumr 0 (length d) (fun l => gv (nth l d zerov) c) = f0).
Proof.
  intros sz sx sy im gx gy gz N0 d0 Ax Ay Az L1 L2. destruct (block_filled sz sx sy im gx gy gz Ax Ay Az (N0, d0) L1 L2) as ((N & d) & E & M1 & M2 & H). cbn [fst snd] in *.
  exists N, d. split; auto. split; [lia|]. split; [lia|].
  assert (G : forall i j k, i < getn sz -> j < getn sx -> k < getn sy -> let l := at3 (getn sy) (getn sx) i j k in
      let X := value (getN sx j gx im) in let Y := value (getN sy k gy im) in let Z := value (getN sz i gz im) in
      nth l N f0 = X * Y * Z /\ nth l d zerov = V3 (value (getdN sx j gx im) * Y * Z) (X * value (getdN sy k gy im) * Z) (X * Y * value (getdN sz i gz im))).
  { intros i j k I J Kk. cbv zeta. destruct (H i j k I J Kk) as (A & B); [apply at3_lt; auto|]. split; apply nth_error_nth; auto. }
  split; [exact G|]. intros F.
  assert (Ux : finite sx \/ im = true) by tauto. assert (Uy : finite sy \/ im = true) by tauto. assert (Uz : finite sz \/ im = true) by tauto.
  destruct (C87_unity sx gx im Ux Ax) as (X1 & X0). destruct (C87_unity sy gy im Uy Ay) as (Y1 & Y0). destruct (C87_unity sz gz im Uz Az) as (Z1 & Z0).
  assert (G' : forall l, l < getn sz * getn sx * getn sy -> let i := (l / getn sy / getn sx)%nat in let j := ((l / getn sy) mod getn sx)%nat in let k := (l mod getn sy)%nat in
     i < getn sz /\ j < getn sx /\ k < getn sy /\ l = at3 (getn sy) (getn sx) i j k).
  { intros l L. cbv zeta. assert (getn sy <> 0%nat /\ getn sx <> 0%nat) as (Ny & Nx) by (destruct sx, sy; cbn; lia).
    repeat split; try (apply Nat.mod_upper_bound; auto).
    - apply Nat.div_lt_upper_bound; auto. apply Nat.div_lt_upper_bound; auto. lia.
    - unfold at3. pose proof (Nat.div_mod l (getn sy) Ny). pose proof (Nat.div_mod (l / getn sy) (getn sx) Nx). nia. }
  split.
  - rewrite M1. rewrite (sumr_ext 0 _ _ (fun l => value (getN sx ((l / getn sy) mod getn sx) gx im) * value (getN sy (l mod getn sy) gy im) * value (getN sz (l / getn sy / getn sx) gz im))).
    + rewrite (sum_product (getn sz) (getn sx) (getn sy) (fun j => value (getN sx j gx im)) (fun k => value (getN sy k gy im)) (fun i => value (getN sz i gz im))). rewrite X1, Y1, Z1. ring.
    + intros l L. destruct (G' l) as (I & J & Kk & E'); [lia|]. rewrite E' at 1. now destruct (G _ _ _ I J Kk) as (-> & _).
  - intros c. rewrite M2.
    assert (D : forall l, l < getn sz * getn sx * getn sy -> nth l d zerov = V3 (value (getdN sx ((l / getn sy) mod getn sx) gx im) * value (getN sy (l mod getn sy) gy im) * value (getN sz (l / getn sy / getn sx) gz im))
       (value (getN sx ((l / getn sy) mod getn sx) gx im) * value (getdN sy (l mod getn sy) gy im) * value (getN sz (l / getn sy / getn sx) gz im))
       (value (getN sx ((l / getn sy) mod getn sx) gx im) * value (getN sy (l mod getn sy) gy im) * value (getdN sz (l / getn sy / getn sx) gz im))).
    { intros l L. destruct (G' l L) as (I & J & Kk & E'). rewrite E' at 1. now destruct (G _ _ _ I J Kk) as (_ & ->). }
    destruct c as [|[|c]].
    + rewrite (sumr_ext 0 _ _ (fun l => value (getdN sx ((l / getn sy) mod getn sx) gx im) * value (getN sy (l mod getn sy) gy im) * value (getN sz (l / getn sy / getn sx) gz im))) by (intros l L; rewrite D by lia; reflexivity).
      rewrite (sum_product (getn sz) (getn sx) (getn sy) (fun j => value (getdN sx j gx im)) (fun k => value (getN sy k gy im)) (fun i => value (getN sz i gz im))). rewrite X0. ring.
    + rewrite (sumr_ext 0 _ _ (fun l => value (getN sx ((l / getn sy) mod getn sx) gx im) * value (getdN sy (l mod getn sy) gy im) * value (getN sz (l / getn sy / getn sx) gz im))) by (intros l L; rewrite D by lia; reflexivity).
      rewrite (sum_product (getn sz) (getn sx) (getn sy) (fun j => value (getN sx j gx im)) (fun k => value (getdN sy k gy im)) (fun i => value (getN sz i gz im))). rewrite Y0. ring.
    + rewrite (sumr_ext 0 _ _ (fun l => value (getN sx ((l / getn sy) mod getn sx) gx im) * value (getN sy (l mod getn sy) gy im) * value (getdN sz (l / getn sy / getn sx) gz im))) by (intros l L; rewrite D by lia; reflexivity).
      rewrite (sum_product (getn sz) (getn sx) (getn sy) (fun j => value (getN sx j gx im)) (fun k => value (getN sy k gy im)) (fun i => value (getdN sz i gz im))). rewrite Z0. ring.
Qed.
Lemma infinite_sums : sumr 0 (getn InfPos) (fun n => value (getN InfPos n (@f1 K) false)) = f0 /\ sumr 0 (getn InfNeg) (fun n => value (getN InfNeg n (- @f1 K) false)) = f0.
Proof. cbn [getn]. rewrite !two. open_shape. split; fld. Qed.
End Shapes.

Section Gauss.
Context {K : ofield}.
Local Open Scope lin_scope.
Add Field Kf70 : (f_th K).
Variable sq : K -> K.
Hypothesis SQ : is_sqrt sq.

Lemma quad_poly g (c : list K) : quadrature g (poly c) = sumr 0 (length c) (fun k => nth k c f0 * quadrature g (fun x => power x k)).
Proof.
  induction g as [|(x & w) g IH]; cbn [quadrature fold_right].
  - rewrite (sumr_zero 0 _ (fun k => nth k c f0 * f0)); [reflexivity|]. intros; ring.
  - fold (quadrature g (poly c)). rewrite IH. cbn [fst snd]. unfold poly. rewrite <- sumr_scale, <- sumr_add. apply sumr_ext. intros k _.
    fold (quadrature g (fun x => power x k)). ring.
Qed.
Lemma exact_by_moments g (c : list K) a b n : length c <= n ->
  (forall k, k < n -> quadrature g (fun x => power x k) = (power b (S k) - power a (S k)) / count (S k)) -> quadrature g (poly c) = integral c a b.
Proof. intros L H. rewrite quad_poly. unfold integral. apply sumr_ext. intros k Q. rewrite H by lia. reflexivity. Qed.
Lemma sq_pos (x : K) : fltb f0 x = true -> fltb f0 (sq x) = true /\ sq x * sq x = x.
Proof.
  intros P. apply fltb_spec in P as (P & N). destruct (SQ x P) as (E & Q). split; auto. apply fltb_spec. split; auto. intros Z. apply N. rewrite <- E, <- Z. ring.
Qed.
Lemma pos_div (x y : K) : fltb f0 x = true -> fltb f0 y = true -> fltb f0 (x / y) = true.
Proof.
  intros P Q. pose proof (fpos_nz _ Q) as N. replace (x / y) with (x * (y * ((f1 / y) * (f1 / y)))) by (field; auto). apply pos_mul; auto. apply pos_mul; auto.
  apply fltb_spec. split; [apply fsqr_nonneg|]. intros E. symmetry in E. apply fsqr_0 in E. apply (@f1_neq_f0 K). replace (@f1 K) with ((f1 / y) * y) by (field; auto). rewrite E. ring.
Qed.
Ltac moments := intros k LK; unfold count, quadrature; cbn [fold_right fst snd].
Ltac cnt := unfold count; cbn [Z.of_nat Pos.of_succ_nat Pos.succ power].

Theorem C87_gauss_2 : forall c, length c <= 4 -> quadrature (gp_2 sq) (poly c) = integral c (- f1) f1.
Proof.
  intros c L. apply (exact_by_moments _ _ _ _ 4 L). unfold gp_2. destruct (sq_pos (num 3) (pos_num 3)) as (P & E). pose proof (fpos_nz _ P) as N.
  assert (T : (f1 / sq (num 3)) * (f1 / sq (num 3)) = f1 / num 3). { transitivity (f1 / (sq (num 3) * sq (num 3))); [field; auto|]. now rewrite E. }
  set (t := f1 / sq (num 3)) in *. clearbody t. moments. destruct k as [|[|[|[|]]]]; try lia; cnt.
  - fld.
  - fld.
  - transitivity (num 2 * (t * t)); [cbn [num nump]; ring|]. rewrite T. fld.
  - fld.
Qed.
Theorem C87_gauss_3 : forall c, length c <= 6 -> quadrature (gp_3 sq) (poly c) = integral c (- f1) f1.
Proof.
  intros c L. apply (exact_by_moments _ _ _ _ 6 L). unfold gp_3. destruct (sq_pos (num 3 / num 5)) as (P & T); [apply pos_div; apply (pos_num _)|].
  set (t := sq (num 3 / num 5)) in *. clearbody t. moments. destruct k as [|[|[|[|[|[|]]]]]]; try lia; cnt.
  - fld.
  - fld.
  - transitivity (num 10 / num 9 * (t * t)); [fld|]. rewrite T. fld.
  - fld.
  - transitivity (num 10 / num 9 * ((t * t) * (t * t))); [fld|]. rewrite T. fld.
  - fld.
Qed.
Lemma s30 : fltb f0 (num 525 + num 70 * sq (num 30)) = true /\ fltb f0 (num 525 - num 70 * sq (num 30)) = true /\ fltb f0 (num 18 - sq (num 30)) = true /\ fltb f0 (num 18 + sq (num 30)) = true.
Proof.
  destruct (sq_pos (num 30) (pos_num 30)) as (P & E). set (s := sq (num 30)) in *. clearbody s.
  assert (A : fltb f0 (num 525 + num 70 * s) = true) by (apply pos_add; [apply (pos_num 525)|apply pos_mul; auto; apply (pos_num 70)]).
  assert (B : fltb f0 (num 18 + s) = true) by (apply pos_add; [apply (pos_num 18)|auto]). pose proof (fpos_nz _ A) as NA. pose proof (fpos_nz _ B) as NB. repeat split; auto.
  - replace (num 525 - num 70 * s) with (num 128625 / (num 525 + num 70 * s)); [apply pos_div; auto; apply (pos_num 128625)|].
    transitivity ((num 275625 - num 4900 * (s * s)) / (num 525 + num 70 * s)); [rewrite E; f_equal; cbn [num nump]; ring|]. cbn [num nump] in *. field. exact NA.
  - replace (num 18 - s) with (num 294 / (num 18 + s)); [apply pos_div; auto; apply (pos_num 294)|].
    transitivity ((num 324 - s * s) / (num 18 + s)); [rewrite E; f_equal; cbn [num nump]; ring|]. cbn [num nump] in *. field. exact NB.
Qed.
Theorem C87_gauss_4 : forall c, length c <= 8 -> quadrature (gp_4 sq) (poly c) = integral c (- f1) f1.
Proof.
  intros c L. apply (exact_by_moments _ _ _ _ 8 L). unfold gp_4. destruct s30 as (PA & PB & _). destruct (sq_pos _ PA) as (_ & A). destruct (sq_pos _ PB) as (_ & B). destruct (sq_pos (num 30) (pos_num 30)) as (_ & S).
  set (s := sq (num 30)) in *. set (p := sq (num 525 + num 70 * s)) in *. set (q := sq (num 525 - num 70 * s)) in *. clearbody p q s. clear PA PB.
  assert (A' : (p / num 35) * (p / num 35) = (num 525 + num 70 * s) / num 1225). { rewrite <- A. fld. }
  assert (B' : (q / num 35) * (q / num 35) = (num 525 - num 70 * s) / num 1225). { rewrite <- B. fld. }
  set (P := p / num 35) in *. set (Q := q / num 35) in *. clearbody P Q. clear A B p q.
  moments. destruct k as [|[|[|[|[|[|[|[|]]]]]]]]; try lia; cnt.
  - fld.
  - fld.
  - transitivity (num 2 * ((num 18 - s) / num 36 * (P * P) + (num 18 + s) / num 36 * (Q * Q))); [fld|]. rewrite A', B'.
    transitivity (num 2 * (num 18900 - num 140 * (s * s)) / (num 36 * num 1225)); [fld|]. rewrite S. fld.
  - fld.
  - transitivity (num 2 * ((num 18 - s) / num 36 * ((P * P) * (P * P)) + (num 18 + s) / num 36 * ((Q * Q) * (Q * Q)))); [fld|]. rewrite A', B'.
    transitivity (num 2 * (num 36 * (num 275625 + num 4900 * (s * s)) - num 147000 * (s * s)) / (num 36 * num 1225 * num 1225)); [fld|]. rewrite S. fld.
  - fld.
  - transitivity (num 2 * ((num 18 - s) / num 36 * ((P * P) * (P * P) * (P * P)) + (num 18 + s) / num 36 * ((Q * Q) * (Q * Q) * (Q * Q)))); [fld|]. rewrite A', B'.
    transitivity (num 2 * (num 36 * (num 144703125 + num 7717500 * (s * s)) - num 115762500 * (s * s) - num 686000 * ((s * s) * (s * s))) / (num 36 * num 1225 * num 1225 * num 1225)); [fld|]. rewrite S. fld.
  - fld.
Qed.
(* the points of the absolute functions are two rules of two points, one on each side of the kink *)
Theorem C87_gauss_A : forall c, length c <= 4 -> quadrature (firstn 2 (gp_A sq)) (poly c) = integral c (- f1) f0 /\ quadrature (skipn 2 (gp_A sq)) (poly c) = integral c f0 f1.
Proof.
  intros c L. destruct (sq_pos (num 3) (pos_num 3)) as (P & E). pose proof (fpos_nz _ P) as N.
  assert (T : (f1 / sq (num 3)) * (f1 / sq (num 3)) = f1 / num 3). { transitivity (f1 / (sq (num 3) * sq (num 3))); [field; auto|]. now rewrite E. }
  unfold gp_A. cbn [firstn skipn]. set (t := f1 / sq (num 3)) in *. clearbody t. split; apply (exact_by_moments _ _ _ _ 4 L); moments; destruct k as [|[|[|[|]]]]; try lia; cnt.
  - fld.
  - fld.
  - transitivity ((f1 + t * t) / num 4); [fld|]. rewrite T. fld.
  - transitivity (- ((num 2 + num 6 * (t * t)) / num 16)); [fld|]. rewrite T. fld.
  - fld.
  - fld.
  - transitivity ((f1 + t * t) / num 4); [fld|]. rewrite T. fld.
  - transitivity ((num 2 + num 6 * (t * t)) / num 16); [fld|]. rewrite T. fld.
Qed.
Theorem C87_lobatto_4 : forall c, length c <= 6 -> quadrature (gl_4 sq) (poly c) = integral c (- f1) f1.
Proof.
  intros c L. apply (exact_by_moments _ _ _ _ 6 L). unfold gl_4. destruct (sq_pos (num 5) (pos_num 5)) as (P & E).
  assert (T : (sq (num 5) / num 5) * (sq (num 5) / num 5) = f1 / num 5). { transitivity (sq (num 5) * sq (num 5) / (num 5 * num 5)); [fld|]. rewrite E. fld. }
  set (t := sq (num 5) / num 5) in *. clearbody t. moments. destruct k as [|[|[|[|[|[|]]]]]]; try lia; cnt.
  - fld.
  - fld.
  - transitivity (num 2 / num 6 + num 10 / num 6 * (t * t)); [fld|]. rewrite T. fld.
  - fld.
  - transitivity (num 2 / num 6 + num 10 / num 6 * ((t * t) * (t * t))); [fld|]. rewrite T. fld.
  - fld.
Qed.
(* Each shape gets a rule that is exact for twice its degree, the infinite ones that of the cubic, and the absolute one on both sides of its kink. *)
Theorem C87_getgauss : forall s c,
  match s with
  | Absolute => length c <= 4 -> quadrature (firstn 2 (getgauss sq s)) (poly c) = integral c (- f1) f0 /\ quadrature (skipn 2 (getgauss sq s)) (poly c) = integral c f0 f1
  | InfPos | InfNeg => length c <= 8 -> quadrature (getgauss sq s) (poly c) = integral c (- f1) f1
  | _ => length c <= 2 * getn s -> quadrature (getgauss sq s) (poly c) = integral c (- f1) f1
  end.
Proof.
  intros [] c; cbn [getgauss getn Nat.mul Nat.add]; [apply C87_gauss_2|apply C87_gauss_3|apply C87_gauss_4|apply C87_gauss_A|apply C87_gauss_4|apply C87_gauss_4].
Qed.
Theorem C87_weights : forall s p, In p (getgauss sq s) -> fltb f0 (snd p) = true.
Proof.
  destruct s30 as (_ & _ & A & B). assert (W : forall q, In q (gp_4 sq) -> fltb f0 (snd q) = true).
  { intros q [<-|[<-|[<-|[<-|[]]]]]; cbn [snd]; apply pos_div; auto; apply (pos_num 36). }
  intros [] p H; cbn [getgauss] in H; auto.
  - destruct H as [<-|[<-|[]]]; apply pos1.
  - destruct H as [<-|[<-|[<-|[]]]]; cbn [snd]; apply pos_div; apply (pos_num _).
  - destruct H as [<-|[<-|[<-|[<-|[]]]]]; cbn [snd]; apply pos_div; try apply pos1; apply (pos_num _).
Qed.
End Gauss.

(* The functions of the infinite elements themselves do not add up to one: the node at infinity is left out. *)
Theorem C87_infinite_refuted : forall K : ofield, sumr 0 (getn InfPos) (fun n => value (getN InfPos n (@f1 K) false)) = f0 /\
  sumr 0 (getn InfNeg) (fun n => value (getN InfNeg n (fopp (@f1 K)) false)) = f0.
Proof.
  intros K. exact infinite_sums.
Qed.
Example C87_hypotheses : is_sqrt (K := RF) sqrt /\ at_ease InfPos true (qz 3) /\ at_ease Absolute false (qz 3) /\ finite Cubic.
Proof.
  split; [exact C83_real|]. split; [|split; [intros H; discriminate|split; discriminate]]. intros _ E. assert (C : feqb (qz 3) (@f1 QcF) = false) by (vm_compute; reflexivity). now apply (feqb_false _ _ C).
Qed.
(* an element with four nodes in z, two in x and three in y *)
Definition demo_block : bool :=
  match buildSF_block Cubic Linear Quadratic true (fdiv f1 (qz 2)) f1 (fdiv (qz (-1)) (qz 3)) (repeat f0 24, repeat zerov 24) with
  | Ok (N, d) => feqb (nth (at3 3 2 1 0 2) N f0) (fdiv f1 (qz 4)) && feqb (nth (at3 3 2 1 1 2) N f0) (fdiv (qz 3) (qz 4)) && feqb (nth (at3 3 2 2 1 2) N f0) f0 &&
      feqb (c0 (nth (at3 3 2 1 1 2) d zerov)) (fdiv f1 (qz 2)) && feqb (c1 (nth (at3 3 2 1 1 2) d zerov)) (fdiv (qz 9) (qz 8))
  | _ => false
  end.
Example C87_demo : demo_block = true.
Proof. vm_compute. reflexivity. Qed.
Print Assumptions C87_defined.
Print Assumptions C87_unity.
Print Assumptions C87_nodes.
Print Assumptions C87_straight.
Print Assumptions C87_slope.
Print Assumptions C87_slope_absolute.
Print Assumptions C87_slope_decay.
Print Assumptions C87_slope_infinite.
Print Assumptions C87_block.
Print Assumptions C87_gauss_2.
Print Assumptions C87_gauss_3.
Print Assumptions C87_gauss_4.
Print Assumptions C87_gauss_A.
Print Assumptions C87_lobatto_4.
Print Assumptions C87_getgauss.
Print Assumptions C87_weights.
Print Assumptions C87_infinite_refuted.
Print Assumptions C87_hypotheses.
Print Assumptions C87_demo.
