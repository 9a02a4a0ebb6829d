(* C29, C30: results of a pavement system are never stale; evaluation points are put into
   the layer that holds their depth. *)
From Coq Require Import List ZArith Bool Arith Lia.
From Verif Require Import Base LeModel.
Import ListNotations.
Local Open Scope Z_scope.

(* ---- specification ---- *)
Section Spec.
Context {D : Type}.
(* Neither backcalculation nor a gradient in chosen directions. *)
Definition plain (o : op D) : Prop :=
  match o with
  | OCalc _ (Some _) | OBackcalc _ _ _ _ => False
  | _ => True
  end.
Definition is_edit (o : op D) : Prop :=
  match o with
  | OCalc _ _ | OBackcalc _ _ _ _ => False
  | _ => True
  end.
(* The kind of result asked for by the latest calculation. *)
Definition latest_request (ops : list (op D)) : option restype :=
  fold_left (fun acc o => match o with OCalc r _ => Some r | _ => acc end) ops None.
End Spec.
(* The layers, loads and evaluation points. *)
Definition inputs {R} (st : sys R) : list lay * list (list ld) * list pt := (layers st, lg st, points st).

(* ---- proofs ---- *)
Section Proofs.
Context {D R : Type}.
Variable kern : restype -> option D -> list (Z * Z * Z) -> geo -> list (list ld) -> nat -> pt -> R.

Lemma bottoms_upd l i a a' top :
  nth_error l i = Some a -> lh a' = lh a -> bottoms top (upd l i a') = bottoms top l.
Proof.
  revert i top; induction l as [|b l IH]; intros [|i] top E H; simpl in *; try discriminate.
  - injection E as ->. rewrite H. reflexivity.
  - f_equal. apply IH; auto.
Qed.
Lemma upd_nth_same {A} (l : list A) i a : nth_error l i = Some a -> upd l i a = l.
Proof.
  revert i; induction l as [|b l IH]; intros [|i] E; simpl in *; try discriminate; auto.
  - congruence.
  - f_equal; auto.
Qed.
Lemma fill_shape (f : nat -> pt -> R) d : forall g, map (map fst) (fill_groups f g d) = map (map fst) d.
Proof.
  induction d as [|row d IH]; intros g; simpl; [reflexivity|].
  rewrite IH. f_equal. rewrite map_map. apply map_ext. intros [p o]; reflexivity.
Qed.
Lemma fill_fill (f : nat -> pt -> R) d : forall g, fill_groups f g (fill_groups f g d) = fill_groups f g d.
Proof.
  induction d as [|row d IH]; intros g; simpl; [reflexivity|].
  rewrite IH. f_equal. rewrite map_map. apply map_ext. intros [p o]; reflexivity.
Qed.
Lemma fill_nth (f : nat -> pt -> R) d : forall g k row,
  d = fill_groups f g d -> nth_error d k = Some row ->
  row = map (fun x => (fst x, Some (f (g + k)%nat (fst x)))) row.
Proof.
  induction d as [|r d IH]; intros g k row E N; [destruct k; discriminate|].
  cbn [fill_groups] in E. injection E as E1 E2. destruct k as [|k].
  - simpl in N. injection N as <-. rewrite Nat.add_0_r. exact E1.
  - simpl in N. specialize (IH (S g) k row E2 N). rewrite Nat.add_succ_r. exact IH.
Qed.

Definition shape (st : sys R) : Prop := map (map fst) (data st) = map (fun _ => points st) (lg st).
Definition fresh (res : restype) (st : sys R) : Prop :=
  data st = fill_groups (kern res None (moduli (layers st)) (mkgeo st) (lg st)) 0 (data st).
Record inv (st : sys R) (last : option restype) : Prop := {
  i_all : cstate st = CAll -> exists res, cres st = Some res /\ last = Some res /\ fresh res st;
  i_geo : cstate st <> CEmpty -> forall res, cres st = Some res -> cgeo st = Some (mkgeo st) /\ shape st }.

Lemma inv_empty st last : cstate st = CEmpty -> inv st last.
Proof. intros E. split; rewrite E; [discriminate|congruence]. Qed.
Lemma cmin_empty a : cmin a CEmpty = CEmpty.
Proof. destruct a; reflexivity. Qed.
Lemma cmin_emod a : cmin a CEmod <> CAll.
Proof. destruct a; discriminate. Qed.

(* a modulus, Poisson's ratio or slip *)
Lemma inv_modulus st last i a a' (same : bool) :
  inv st last -> nth_error (layers st) i = Some a -> lh a' = lh a ->
  (same = true -> a' = a) ->
  inv (set_layers (if same then st else cached st CEmod) (upd (layers st) i a')) last.
Proof.
  intros [I1 I2] N H S.
  assert (G : bottoms 0 (upd (layers st) i a') = bottoms 0 (layers st)) by (eapply bottoms_upd; eauto).
  destruct same.
  - rewrite S, upd_nth_same by auto. destruct st; split; [exact I1|exact I2].
  - split.
    + simpl. intros E. destruct (cmin_emod _ E).
    + simpl. intros E res C. destruct (I2 ltac:(destruct (cstate st); simpl in *; congruence) res C) as [G1 G2].
      rewrite G1. split; [|exact G2]. unfold mkgeo. simpl. rewrite G. reflexivity.
Qed.

Lemma speed_eqb_eq a b : speed_eqb a b = true -> a = b.
Proof. destruct a, b; simpl; congruence. Qed.
Lemma restype_eqb_eq a b : restype_eqb a b = true -> a = b.
Proof.
  destruct a, b; simpl; try congruence.
  rewrite !andb_true_iff. intros [[E1 E2] E3].
  apply speed_eqb_eq in E1. apply eqb_prop in E2, E3. congruence.
Qed.

Lemma check_inv (st st' : sys R) ok :
  check st = (st', ok) -> cstate st' = cstate st /\ cres st' = cres st /\ cgeo st' = cgeo st /\
  (cempty (cstate st) = false -> st' = st) /\
  (cempty (cstate st) = true -> ok = true -> shape st').
Proof.
  unfold check. destruct (cstate st) eqn:C; cbn [call cempty negb orb].
  - match goal with |- context [if ?b then _ else _] => destruct b eqn:B end; intros E; injection E as <- <-.
    + rewrite C. repeat split; try discriminate. intros _ T. exfalso.
      rewrite orb_true_iff in B. rewrite T in B. cbn [negb] in B.
      destruct B as [B|B]; [discriminate|].
      cbv beta in T. rewrite B in T. discriminate.
    + repeat split; try exact C; try discriminate. intros _ _. unfold shape. simpl.
      rewrite map_map. apply map_ext. intros _. rewrite map_map. simpl. rewrite map_id. reflexivity.
  - intros E; injection E as <- <-. repeat split; auto; discriminate.
  - intros E; injection E as <- <-. repeat split; auto; discriminate.
Qed.

Lemma calculate_inv st last res st' ok :
  inv st last -> calculate kern st res None = Ok (st', ok) -> inv st' (Some res).
Proof.
  intros [I1 I2]. unfold calculate.
  set (again := same_res (cres st) res && negb (cempty (cstate st))).
  destruct (again && call (cstate st)) eqn:A.
  - intros E; injection E as <- <-.
    apply andb_true_iff in A. destruct A as [A C].
    assert (CA : cstate st = CAll) by (destruct (cstate st); simpl in C; congruence).
    unfold again in A. apply andb_true_iff in A. destruct A as [A _].
    destruct (I1 CA) as (r & E1 & E2 & F). rewrite E1 in A. simpl in A. apply restype_eqb_eq in A. subst r.
    split; [intros _; exists res; auto|exact I2].
  - destruct (again && keeps res) eqn:K.
    + (* the cached geometry is used again *)
      apply andb_true_iff in K. destruct K as [AG _].
      rewrite AG in A. cbn [andb] in A.
      unfold again in AG. apply andb_true_iff in AG. destruct AG as [AG NE].
      destruct (check (set_cres st None)) as [st2 ok2] eqn:CH.
      destruct (check_inv _ _ _ CH) as (C1 & C2 & C3 & C4 & C5). simpl in C1, C2, C3, C4.
      rewrite negb_true_iff in NE. specialize (C4 NE). subst st2.
      destruct ok2; cbn [negb].
      * simpl. rewrite NE.
        destruct (cres st) as [r|] eqn:CR; [|discriminate]. simpl in AG. apply restype_eqb_eq in AG. subst r.
        assert (NE' : cstate st <> CEmpty) by (intros X; rewrite X in NE; discriminate).
        destruct (I2 NE' res eq_refl) as [G S].
        rewrite G. cbn [bind]. intros E; injection E as <- <-.
        split; simpl.
        -- intros _. exists res. split; [reflexivity|]. split; [reflexivity|].
           unfold fresh. simpl. symmetry. apply fill_fill.
        -- intros _ r _. split; [reflexivity|]. unfold shape. simpl. rewrite fill_shape. exact S.
      * intros E; injection E as <- <-. split; simpl.
        -- intros X. rewrite X in A. discriminate.
        -- discriminate.
    + destruct (check (set_cres (cache_free st) None)) as [st2 ok2] eqn:CH.
      destruct (check_inv _ _ _ CH) as (C1 & C2 & C3 & C4 & C5). simpl in C1, C2, C3, C4, C5.
      destruct ok2; cbn [negb].
      * rewrite C1. cbn [cempty bind]. intros E; injection E as <- <-.
        split; simpl.
        -- intros _. exists res. split; [reflexivity|]. split; [reflexivity|].
           unfold fresh. simpl. symmetry. apply fill_fill.
        -- intros _ r _. split; [reflexivity|]. unfold shape. simpl. rewrite fill_shape.
           exact (C5 eq_refl eq_refl).
      * intros E; injection E as <- <-. apply inv_empty. exact C1.
Qed.

Lemma layer_at_nth (st : sys R) l i a : layer_at st l = Ok (i, a) -> nth_error (layers st) i = Some a.
Proof.
  unfold layer_at. intros E. apply bind_ok in E. destruct E as (j & _ & E).
  apply bind_ok in E. destruct E as (b & B & E). injection E as <- <-.
  unfold aget in B. destruct (nth_error (layers st) j); congruence.
Qed.

Lemma step_inv st last (o : op D) st' e :
  inv st last -> plain o -> step kern st o = Ok (st', e) ->
  inv st' (match o with OCalc r _ => Some r | _ => last end).
Proof.
  intros I P. destruct o; cbn [step].
  - intros E; injection E as <- <-. apply inv_empty. simpl. apply cmin_empty.
  - intros E; injection E as <- <-. apply inv_empty. simpl. apply cmin_empty.
  - intros E; injection E as <- <-. apply inv_empty. simpl. apply cmin_empty.
  - unfold quiet, set_thickness. intros E. apply bind_ok in E. destruct E as (s & E1 & E). injection E as <- <-.
    apply bind_ok in E1. destruct E1 as ([i a] & _ & E1). injection E1 as <-.
    apply inv_empty. simpl. apply cmin_empty.
  - unfold quiet, set_emod. intros E. apply bind_ok in E. destruct E as (s & E1 & E). injection E as <- <-.
    apply bind_ok in E1. destruct E1 as ([i a] & L & E1). injection E1 as <-.
    apply layer_at_nth in L.
    assert (Q : layers (if x =? lE a then st else cached st CEmod) = layers st) by (destruct (x =? lE a); reflexivity).
    rewrite Q. apply inv_modulus with (a := a); auto.
    intros T. apply Z.eqb_eq in T. subst. destruct a; reflexivity.
  - unfold quiet, set_poissons. intros E. apply bind_ok in E. destruct E as (s & E1 & E). injection E as <- <-.
    apply bind_ok in E1. destruct E1 as ([i a] & L & E1). injection E1 as <-.
    apply layer_at_nth in L.
    assert (Q : layers (if x =? lv a then st else cached st CEmod) = layers st) by (destruct (x =? lv a); reflexivity).
    rewrite Q. apply inv_modulus with (a := a); auto.
    intros T. apply Z.eqb_eq in T. subst. destruct a; reflexivity.
  - unfold quiet, set_slip. intros E. apply bind_ok in E. destruct E as (s & E1 & E). injection E as <- <-.
    apply bind_ok in E1. destruct E1 as ([i a] & L & E1). injection E1 as <-.
    apply layer_at_nth in L.
    assert (Q : layers (if x =? ls a then st else cached st CEmod) = layers st) by (destruct (x =? ls a); reflexivity).
    rewrite Q. apply inv_modulus with (a := a); auto.
    intros T. apply Z.eqb_eq in T. subst. destruct a; reflexivity.
  - unfold addload. destruct (g <? length (lg (cached st CEmpty)))%nat.
    + intros E. apply bind_ok in E. destruct E as (row & _ & E). injection E as <- <-.
      apply inv_empty. simpl. apply cmin_empty.
    + destruct (g =? length (lg (cached st CEmpty)))%nat; intros E; [|discriminate].
      injection E as <- <-. apply inv_empty. simpl. apply cmin_empty.
  - unfold removeload. destruct (nth_error _ g) as [row|].
    + destruct (i <? length row)%nat.
      * destruct (length (firstn i row ++ skipn (S i) row) =? 0)%nat; intros E; injection E as <- <-;
          apply inv_empty; simpl; apply cmin_empty.
      * intros E; injection E as <- <-. apply inv_empty; simpl; apply cmin_empty.
    + intros E; injection E as <- <-. apply inv_empty; simpl; apply cmin_empty.
  - unfold removeloads.
    destruct ((length (lg (cached st CEmpty)) =? 0)%nat && (g =? clg (cached st CEmpty))%nat);
      [|destruct (g <? length (lg (cached st CEmpty)))%nat];
      intros E; injection E as <- <-; apply inv_empty; simpl; apply cmin_empty.
  - intros E; injection E as <- <-. destruct I as [I1 I2]. split; [exact I1|exact I2].
  - intros E; injection E as <- <-. apply inv_empty. simpl. apply cmin_empty.
  - unfold removepoint.
    destruct (find_point _ p 0); intros E; injection E as <- <-; apply inv_empty; simpl; apply cmin_empty.
  - intros E; injection E as <- <-. apply inv_empty. simpl. apply cmin_empty.
  - destruct q; [destruct P|]. intros E. apply bind_ok in E. destruct E as ([s ok] & E1 & E).
    injection E as <- <-. eapply calculate_inv; eauto.
  - destruct P.
Qed.

Lemma run_inv ops : forall st last st',
  inv st last -> Forall plain ops -> run kern st ops = Ok st' ->
  inv st' (fold_left (fun acc (o : op D) => match o with OCalc r _ => Some r | _ => acc end) ops last).
Proof.
  induction ops as [|o ops IH]; intros st last st' I P E; cbn [run fold_left] in *.
  - injection E as <-. exact I.
  - apply bind_ok in E. destruct E as ([s e] & E1 & E).
    apply (IH s _ st'); [|exact (Forall_inv_tail P)|exact E].
    eapply step_inv; eauto. exact (Forall_inv P).
Qed.

Lemma result_inv st last g i p r :
  inv st last -> result st g i = Ok (p, r) ->
  exists res, last = Some res /\ (g < length (lg st))%nat /\ nth_error (points st) i = Some p /\
    r = kern res None (moduli (layers st)) (mkgeo st) (lg st) g p.
Proof.
  intros [I1 I2] E. unfold result in E.
  destruct (call (cstate st)) eqn:C; [|discriminate]. cbn [negb] in E.
  assert (CA : cstate st = CAll) by (destruct (cstate st); simpl in C; congruence).
  destruct (I1 CA) as (res & E1 & E2 & F).
  destruct (I2 ltac:(congruence) res E1) as [_ S].
  apply bind_ok in E. destruct E as (row & ER & E).
  apply bind_ok in E. destruct E as ([p' o] & EI & E). simpl in E.
  destruct o as [r'|]; [|discriminate]. injection E as <- <-.
  unfold aget in ER, EI.
  destruct (nth_error (data st) g) as [row'|] eqn:NR; [|discriminate]. injection ER as ->.
  destruct (nth_error row i) as [x|] eqn:NI; [|discriminate]. injection EI as ->.
  exists res. split; [exact E2|].
  assert (NS : nth_error (map (map fst) (data st)) g = Some (map fst row)) by (rewrite nth_error_map, NR; reflexivity).
  rewrite S, nth_error_map in NS. destruct (nth_error (lg st) g) eqn:NL; [|discriminate].
  injection NS as NS. split; [apply nth_error_Some; congruence|]. split.
  - rewrite NS, nth_error_map, NI. reflexivity.
  - pose proof (fill_nth _ _ _ _ _ F NR) as FR. cbn [Nat.add] in FR.
    pose proof (f_equal (fun l => nth_error l i) FR) as FI. cbv beta in FI.
    rewrite nth_error_map, NI in FI. cbn [option_map fst] in FI. congruence.
Qed.
Lemma result_refused (st : sys R) g i : cstate st <> CAll -> result st g i = Throw RuntimeError.
Proof. unfold result. destruct (cstate st); simpl; congruence. Qed.

(* an edit that changes something leaves the cache incomplete; none completes it *)
Lemma edit_not_all st (o : op D) st' e :
  is_edit o -> step kern st o = Ok (st', e) -> cstate st <> CAll -> cstate st' <> CAll.
Proof.
  intros P. destruct o; cbn [step]; try (destruct P); unfold quiet, set_thickness, set_emod, set_poissons, set_slip.
  all: try (intros E; injection E as <- <-; simpl; rewrite cmin_empty; discriminate).
  all: try (intros E; apply bind_ok in E; destruct E as (s & E1 & E); injection E as <- <-;
      apply bind_ok in E1; destruct E1 as ([k a] & _ & E1); injection E1 as <-; simpl; rewrite ?cmin_empty;
      try discriminate;
      match goal with |- context [if ?b then _ else _] => destruct b end; simpl; auto; intros _; apply cmin_emod).
  - unfold addload. destruct (g <? length (lg (cached st CEmpty)))%nat.
    + intros E. apply bind_ok in E. destruct E as (row & _ & E). injection E as <- <-. simpl. rewrite cmin_empty. discriminate.
    + destruct (g =? length (lg (cached st CEmpty)))%nat; intros E; [|discriminate].
      injection E as <- <-. simpl. rewrite cmin_empty. discriminate.
  - unfold removeload. destruct (nth_error _ g) as [row|].
    + destruct (i <? length row)%nat.
      * destruct (length (firstn i row ++ skipn (S i) row) =? 0)%nat; intros E; injection E as <- <-;
          simpl; rewrite cmin_empty; discriminate.
      * intros E; injection E as <- <-. simpl; rewrite cmin_empty; discriminate.
    + intros E; injection E as <- <-. simpl; rewrite cmin_empty; discriminate.
  - unfold removeloads.
    destruct ((length (lg (cached st CEmpty)) =? 0)%nat && (g =? clg (cached st CEmpty))%nat);
      [|destruct (g <? length (lg (cached st CEmpty)))%nat];
      intros E; injection E as <- <-; simpl; rewrite cmin_empty; discriminate.
  - intros E; injection E as <- <-. auto.
  - unfold removepoint.
    destruct (find_point _ p 0); intros E; injection E as <- <-; simpl; rewrite cmin_empty; discriminate.
Qed.
Lemma modulus_changes (st : sys R) l (f : lay -> lay) (same : lay -> bool) (st' : sys R) :
  (forall a, same a = true -> f a = a) ->
  (let* (i, a) := layer_at st l in
   Ok (set_layers (if same a then st else cached st CEmod)
         (upd (layers (if same a then st else cached st CEmod)) i (f a)))) = Ok st' ->
  inputs st' <> inputs st -> cstate st' <> CAll.
Proof.
  intros H E N. apply bind_ok in E. destruct E as ([i a] & L & E). apply layer_at_nth in L. injection E as <-.
  destruct (same a) eqn:S.
  - exfalso. apply N. rewrite (H a S). rewrite upd_nth_same by exact L. destruct st; reflexivity.
  - simpl. apply cmin_emod.
Qed.
Lemma change_not_all st (o : op D) st' e :
  is_edit o -> step kern st o = Ok (st', e) -> inputs st' <> inputs st -> cstate st' <> CAll.
Proof.
  intros P. destruct o; cbn [step]; try (destruct P); unfold quiet.
  all: try (intros E; injection E as <- <-; simpl; rewrite cmin_empty; discriminate).
  - intros E; apply bind_ok in E; destruct E as (s & E1 & E); injection E as <- <-.
    unfold set_thickness in E1. apply bind_ok in E1; destruct E1 as ([k a] & _ & E1); injection E1 as <-.
    simpl. rewrite cmin_empty. discriminate.
  - intros E; apply bind_ok in E; destruct E as (s & E1 & E); injection E as <- <-.
    apply (modulus_changes st l (fun a => Lay (lh a) x (lv a) (ls a)) (fun a => x =? lE a)); [|exact E1].
    intros a T. apply Z.eqb_eq in T. subst. destruct a; reflexivity.
  - intros E; apply bind_ok in E; destruct E as (s & E1 & E); injection E as <- <-.
    apply (modulus_changes st l (fun a => Lay (lh a) (lE a) x (ls a)) (fun a => x =? lv a)); [|exact E1].
    intros a T. apply Z.eqb_eq in T. subst. destruct a; reflexivity.
  - intros E; apply bind_ok in E; destruct E as (s & E1 & E); injection E as <- <-.
    apply (modulus_changes st l (fun a => Lay (lh a) (lE a) (lv a) x) (fun a => x =? ls a)); [|exact E1].
    intros a T. apply Z.eqb_eq in T. subst. destruct a; reflexivity.
  - intros E _. apply (edit_not_all (cached st CEmpty) (OAddLoad g x) st' e I); [|simpl; rewrite cmin_empty; discriminate].
    cbn [step]. rewrite <- E. unfold addload, cached. cbn. rewrite !cmin_empty. reflexivity.
  - intros E _. apply (edit_not_all (cached st CEmpty) (ORemoveLoad g i) st' e I); [|simpl; rewrite cmin_empty; discriminate].
    cbn [step]. rewrite <- E. unfold removeload. cbn. unfold cached. cbn. rewrite !cmin_empty. reflexivity.
  - intros E _. apply (edit_not_all (cached st CEmpty) (ORemoveLoads g) st' e I); [|simpl; rewrite cmin_empty; discriminate].
    cbn [step]. rewrite <- E. unfold removeloads, cached. cbn. rewrite !cmin_empty. reflexivity.
  - intros E; injection E as <- <-. intros N; exfalso; apply N; reflexivity.
  - unfold removepoint.
    destruct (find_point _ p 0); intros E; injection E as <- <-; simpl; rewrite cmin_empty; discriminate.
Qed.
Lemma edits_not_all ops : forall st st',
  Forall is_edit ops -> cstate st <> CAll -> run (D := D) kern st ops = Ok st' -> cstate st' <> CAll.
Proof.
  induction ops as [|o ops IH]; intros st st' F C E; cbn [run] in E.
  - injection E as <-. exact C.
  - apply bind_ok in E. destruct E as ([s e] & E1 & E).
    apply (IH s st' (Forall_inv_tail F)); [|exact E].
    exact (edit_not_all st o s e (Forall_inv F) E1 C).
Qed.
End Proofs.

(* C29.  Whatever the calculation computes (kern), in every history of edits and
   calculations an answered query (g, i) gives evaluation point i as it is now and the
   response that the latest kind of calculation yields for the layers, loads and points as
   they are now. *)
Theorem C29_results_current_partial :
  forall (D R : Type) (kern : restype -> option D -> list (Z * Z * Z) -> geo -> list (list ld) -> nat -> pt -> R)
    (ops : list (op D)) (st : sys R) (g i : nat) (p : pt) (r : R),
  Forall plain ops -> run kern snew ops = Ok st -> result st g i = Ok (p, r) ->
  exists res, latest_request ops = Some res /\ (g < length (lg st))%nat /\ nth_error (points st) i = Some p /\
    r = kern res None (moduli (layers st)) (Geo (bottoms 0 (layers st)) (points st) (lg st)) (lg st) g p.
Proof.
  intros D R kern ops st g i p r P E Q.
  apply (result_inv kern st); [|exact Q].
  apply (run_inv kern ops snew None); auto. apply inv_empty. reflexivity.
Qed.
Print Assumptions C29_results_current_partial.

(* An edit that changes a layer, a load or a point makes every query fail, and it goes on
   failing under further edits, until the next calculation. *)
Theorem C29_refused_after_change :
  forall (D R : Type) (kern : restype -> option D -> list (Z * Z * Z) -> geo -> list (list ld) -> nat -> pt -> R)
    (st st1 st2 : sys R) (o : op D) e (ops : list (op D)) (g i : nat),
  is_edit o -> step kern st o = Ok (st1, e) -> inputs st1 <> inputs st ->
  Forall is_edit ops -> run kern st1 ops = Ok st2 ->
  result st2 g i = Throw RuntimeError /\ results st2 = 0%nat.
Proof.
  intros D R kern st st1 st2 o e ops g i P E N F RN.
  assert (C : cstate st2 <> CAll).
  { eapply edits_not_all; eauto. eapply change_not_all; eauto. }
  split; [apply result_refused; exact C|]. unfold results. destruct (cstate st2); simpl; congruence.
Qed.
Print Assumptions C29_refused_after_change.

(* A concrete kernel for the examples: it sums up what it gets. *)
Definition kern_sum (r : restype) (q : option Z) (m : list (Z * Z * Z)) (ge : geo) (l : list (list ld)) (g : nat) (p : pt) : Z :=
  match q with Some d => d | None => 0 end +
  fold_right (fun a b => fst (fst a) + b) 0 m + fold_right Z.add 0 (gbottoms ge) + pz p.
Definition demo : list (op Z) :=
  [OAddLayer (Lay 100 5000 350000 one) None; OAddLayer (Lay 0 700 350000 one) None;
   OAddLoad 0 (Ld 0 0 20 3); OAddPoint (Pt 0 0 0 None); OAddPoint (Pt 0 0 130 None)].
Example C29_results_current_ex :
  let ops := demo ++ [OCalc (RCalc SFast false false) None; OEmod 1 800; OCalc (RCalc SFast false false) None] in
  (let* st := run kern_sum snew ops in result st 0 1) = Ok (Pt 0 0 130 (Some 1%nat), 6030).
Proof. vm_compute. reflexivity. Qed.
Example C29_refused_ex :
  (let* st := run kern_sum snew (demo ++ [OCalc ROdemark None; OSlip 0 500000]) in result st 0 1) = Throw RuntimeError.
Proof. vm_compute. reflexivity. Qed.

(* Backcalculation leaves the results of the deflection points behind while the old
   points are put back: a query for a point then answers with another point. *)
Theorem C29_backcalc_refuted :
  exists (ops : list (op Z)) (st : sys Z) (p : pt) (r : Z),
    run kern_sum snew ops = Ok st /\ result st 0 1 = Ok (p, r) /\
    nth_error (points st) 1 <> Some p /\ pz p <> 130 /\ option_map pz (nth_error (points st) 1) = Some 130.
Proof.
  exists (demo ++ [OBackcalc [(0%nat, Pt 1 0 0 None); (0%nat, Pt 2 0 0 None)] [] false [6000; 900]]).
  do 3 eexists. vm_compute. repeat split; congruence.
Qed.
(* With fewer deflections than points a query for an existing point reads past the results. *)
Theorem C29_backcalc_out_of_bounds_refuted :
  exists (ops : list (op Z)) (st : sys Z),
    run kern_sum snew ops = Ok st /\ results st = 2%nat /\ result st 0 1 = UB OutOfBounds.
Proof.
  exists (demo ++ [OBackcalc [(0%nat, Pt 1 0 0 None)] [] false [6000; 900]]).
  eexists. vm_compute. repeat split.
Qed.
(* Asking for gradients in other directions answers with the gradients of the earlier ones. *)
Theorem C29_directions_refuted :
  exists (ops : list (op Z)) (st st' : sys Z) res q p r,
    run kern_sum snew ops = Ok st /\
    calculate kern_sum st res (Some q) = Ok (st', true) /\ result st' 0 0 = Ok (p, r) /\
    r <> kern_sum res (Some q) (moduli (layers st')) (mkgeo st') (lg st') 0 p.
Proof.
  exists (demo ++ [OCalc (RCalc SAll true true) (Some 7)]).
  do 2 eexists. exists (RCalc SAll true true), 8. do 2 eexists. vm_compute. repeat split. congruence.
Qed.

(* ---- C30 ---- *)
(* The depth of the top of layer k: the thicknesses above it. *)
Definition top_of (l : list lay) (k : nat) : Z := fold_right Z.add 0 (map lh (firstn k l)).
(* Layer k reaches to infinity when its thickness is zero. *)
Definition holds_depth (l : list lay) (k : nat) (z : Z) : Prop :=
  exists a, nth_error l k = Some a /\ top_of l k <= z /\ (lh a = 0 \/ z < top_of l k + lh a).
Definition touches_depth (l : list lay) (k : nat) (z : Z) : Prop :=
  exists a, nth_error l k = Some a /\ top_of l k <= z /\ (lh a = 0 \/ z <= top_of l k + lh a).
(* Thicknesses are positive but for the last one, which may be zero. *)
Fixpoint stack (l : list lay) : Prop :=
  match l with
  | [] => True
  | [a] => 0 <= lh a
  | a :: t => 0 < lh a /\ stack t
  end.

Section C30.
Lemma top_of_S l k a : nth_error l k = Some a -> top_of l (S k) = top_of l k + lh a.
Proof.
  revert l; induction k; intros [|b l] E; simpl in *; try discriminate.
  - injection E as ->. unfold top_of. simpl. lia.
  - unfold top_of in *. simpl in *. specialize (IHk l E). destruct l; simpl in *; lia.
Qed.
Lemma locate_auto l : forall il z (d : pt),
  pil d = None ->
  match locate l il z d with
  | None => forall k, ~ holds_depth l k (pz d - z)
  | Some (z', h, d') => exists k, d' = Pt (px d) (py d) (pz d) (Some (il + k)%nat) /\ holds_depth l k (pz d - z)
      /\ z' = z + top_of l k /\ option_map lh (nth_error l k) = Some h
  end.
Proof.
  induction l as [|a t IH]; intros il z d E; cbn [locate].
  - intros k (a & H & _). destruct k; discriminate.
  - rewrite E. destruct ((z <=? pz d) && ((lh a =? 0) || (pz d <? z + lh a))) eqn:B.
    + apply andb_true_iff in B. destruct B as [B1 B2]. apply Z.leb_le in B1.
      rewrite orb_true_iff, Z.eqb_eq, Z.ltb_lt in B2.
      exists 0%nat. rewrite Nat.add_0_r. split; [reflexivity|]. split.
      * exists a. cbn. split; [reflexivity|]. split; [lia|]. destruct B2; [left|right]; lia.
      * cbn. repeat split; lia || reflexivity.
    + specialize (IH (S il) (z + lh a) d E).
      assert (SH : forall k, holds_depth (a :: t) (S k) (pz d - z) <-> holds_depth t k (pz d - (z + lh a))).
      { intros k. unfold holds_depth, top_of. cbn [firstn map fold_right nth_error].
        split; intros (b & H1 & H2 & H3); exists b; split; auto; split; lia. }
      assert (N0 : ~ holds_depth (a :: t) 0 (pz d - z)).
      { intros (b & H1 & H2 & H3). cbn in H1, H2, H3. injection H1 as <-.
        apply andb_false_iff in B. rewrite orb_false_iff, Z.eqb_neq, Z.ltb_ge, Z.leb_gt in B. lia. }
      destruct (locate t (S il) (z + lh a) d) as [[[z' h] d']|].
      * destruct IH as (k & -> & H & Z1 & H2). exists (S k).
        split; [f_equal; f_equal; lia|]. split; [apply SH; exact H|].
        split; [rewrite Z1; unfold top_of; simpl; lia|]. exact H2.
      * intros [|k] H; [tauto|]. apply SH in H. eapply IH; eauto.
Qed.
Lemma locate_explicit l : forall il z (d : pt) k,
  pil d = Some (il + k)%nat ->
  locate l il z d = match nth_error l k with Some a => Some (z + top_of l k, lh a, d) | None => None end.
Proof.
  induction l as [|a t IH]; intros il z d k E; cbn [locate].
  - destruct k; reflexivity.
  - rewrite E. destruct k as [|k].
    + rewrite Nat.add_0_r, Nat.eqb_refl. cbn. f_equal. f_equal. f_equal. unfold top_of. simpl. lia.
    + rewrite (proj2 (Nat.eqb_neq _ _)) by lia. cbn [nth_error].
      rewrite (IH (S il) (z + lh a) d k) by (rewrite E; f_equal; lia).
      destruct (nth_error t k); [|reflexivity]. f_equal. f_equal. f_equal. unfold top_of. simpl. lia.
Qed.
End C30.

(* A point without a layer is accepted exactly when some layer holds its depth, and that
   layer is then written into it. *)
Theorem C30_automatic_layer :
  forall (l : list lay) (d : pt),
  pil d = None -> stack l -> 0 <= pz d ->
  (snd (check_point l d) = true <-> exists k, holds_depth l k (pz d)) /\
  (snd (check_point l d) = true ->
   exists k, fst (check_point l d) = Pt (px d) (py d) (pz d) (Some k) /\ holds_depth l k (pz d)).
Proof.
  intros l d E S Z0. unfold check_point. rewrite (proj2 (Z.ltb_ge _ _)) by lia.
  pose proof (locate_auto l 0 0 d E) as H. rewrite Z.sub_0_r in H.
  destruct (locate l 0 0 d) as [[[z' h] d']|].
  - destruct H as (k & -> & H & -> & HH).
    assert (T : negb (pz d <? 0 + top_of l k) && negb ((0 <? h) && (0 + top_of l k + h <? pz d)) = true).
    { destruct H as (a & A & B & C). rewrite A in HH. injection HH as <-.
      rewrite andb_true_iff, !negb_true_iff, Z.ltb_ge. split; [lia|].
      rewrite andb_false_iff, !Z.ltb_ge. lia. }
    cbn [fst snd]. rewrite T. split; [split; eauto|]. intros _. exists k. auto.
  - cbn [fst snd]. split; [|discriminate]. split; [discriminate|]. intros (k & K). destruct (H k K).
Qed.
Print Assumptions C30_automatic_layer.

(* A layer given explicitly is accepted exactly when the depth lies in it or on its
   boundary, and it is kept. *)
Theorem C30_explicit_layer :
  forall (l : list lay) (d : pt) (k : nat),
  pil d = Some k -> stack l -> 0 <= pz d ->
  (snd (check_point l d) = true <-> touches_depth l k (pz d)) /\ fst (check_point l d) = d.
Proof.
  intros l d k E S Z0. unfold check_point. rewrite (proj2 (Z.ltb_ge _ _)) by lia.
  rewrite (locate_explicit l 0 0 d k E). unfold touches_depth.
  destruct (nth_error l k) as [a|] eqn:N.
  - assert (NN : 0 <= lh a).
    { clear -S N. revert k N. induction l as [|b t IH]; intros [|k] N; simpl in N; try discriminate.
      - injection N as ->. destruct t; simpl in S; lia.
      - eapply IH; eauto. destruct t; [destruct k; discriminate|]. simpl in S. tauto. }
    cbn [fst snd]. split; [|reflexivity].
    rewrite andb_true_iff, !negb_true_iff, Z.ltb_ge, andb_false_iff, !Z.ltb_ge.
    split.
    + intros [A B]. exists a. split; [reflexivity|]. split; lia.
    + intros (b & EB & A & B). injection EB as <-. split; lia.
  - cbn [fst snd]. split; [|reflexivity]. split; [discriminate|]. intros (a & A & _). discriminate.
Qed.
Print Assumptions C30_explicit_layer.

(* There is at most one layer that holds a depth. *)
Theorem C30_layer_unique :
  forall (l : list lay) (z : Z) (j k : nat),
  stack l -> holds_depth l j z -> holds_depth l k z -> j = k.
Proof.
  assert (M : forall l j z, stack l -> (forall a, nth_error l j = Some a -> True) ->
    forall k, (j < k)%nat -> holds_depth l j z -> holds_depth l k z -> False).
  { intros l j z SK _ k L (a & A1 & A2 & A3) (b & B1 & B2 & B3).
    assert (P : 0 < lh a).
    { assert (k < length l)%nat by (apply nth_error_Some; congruence).
      clear - SK A1 L H. revert j k SK A1 L H. induction l as [|c t IH]; intros [|j] k SK A1 L H; simpl in *; try discriminate.
      - injection A1 as ->. destruct t; [simpl in H; lia|]. tauto.
      - destruct k; [lia|]. apply (IH j k); auto; try lia. destruct t; [destruct j; discriminate|]. tauto. }
    assert (T : top_of l (S j) <= top_of l k).
    { assert (k <= length l)%nat by (apply Nat.lt_le_incl, nth_error_Some; congruence).
      clear - SK L H. induction k; [lia|]. destruct (Nat.eq_dec j k) as [->|]; [lia|].
      assert (top_of l (S j) <= top_of l k) by (apply IHk; lia).
      destruct (nth_error l k) as [c|] eqn:N; [|apply nth_error_None in N; lia].
      rewrite (top_of_S _ _ _ N).
      assert (0 <= lh c); [|lia].
      clear - SK N. revert k N; induction l as [|b t IH]; intros [|k] N; simpl in N; try discriminate.
      - injection N as ->. destruct t; simpl in SK; lia.
      - eapply IH; eauto. destruct t; [destruct k; discriminate|]. simpl in SK. tauto. }
    rewrite (top_of_S _ _ _ A1) in T. lia. }
  intros l z j k SK J K. destruct (Nat.lt_trichotomy j k) as [L|[L|L]]; auto; exfalso.
  - apply (M l j z SK (fun _ _ => I) k L J K).
  - apply (M l k z SK (fun _ _ => I) j L K J).
Qed.

(* In a history: after a successful calculation that checks the geometry every point has a
   layer that touches its depth, and a point that had none has the layer that holds it. *)
Theorem C30_after_calculation_partial :
  forall (D R : Type) (kern : restype -> option D -> list (Z * Z * Z) -> geo -> list (list ld) -> nat -> pt -> R)
    (st st' : sys R) res q i p,
  cstate st = CEmpty -> calculate kern st res q = Ok (st', true) -> nth_error (points st) i = Some p ->
  layers st' = layers st /\
  exists k, nth_error (points st') i = Some (Pt (px p) (py p) (pz p) (Some k)) /\
    match pil p with
    | None => holds_depth (layers st) k (pz p)
    | Some k' => k = k' /\ touches_depth (layers st) k (pz p)
    end.
Proof.
  intros D R kern st st' res q i p C E N. unfold calculate in E. rewrite C in E.
  cbn [cempty negb andb call] in E. rewrite !andb_false_r in E. cbn [andb] in E.
  destruct (check (set_cres (cache_free st) None)) as [s ok] eqn:CH.
  destruct ok; cbn [negb] in E; [|congruence].
  assert (ST : forall f l, layers_ok f l = true -> f = true -> stack l).
  { clear. intros f l; induction l as [|a t IH]; intros L F; [exact I|].
    cbn [layers_ok] in L. rewrite !andb_true_iff in L. destruct L as [[[[[_ _] _] _] L] LT].
    rewrite F in L. cbn [negb orb] in L. rewrite andb_true_iff, !negb_true_iff, Z.ltb_ge in L. destruct L as [L1 L2].
    specialize (IH LT F). destruct t as [|b t].
    - cbn [stack]. lia.
    - cbn [negb andb] in L2. rewrite andb_true_r, Z.eqb_neq in L2. split; [lia|exact IH]. }
  unfold check in CH. cbn [cstate set_cres cache_free call cempty negb orb layers lg points] in CH.
  match type of CH with context [if ?b then _ else _] => destruct b eqn:B end.
  - injection CH as <- T. exfalso. rewrite T in B. cbn [negb orb] in B. rewrite B in T. discriminate.
  - injection CH as <- OK.
    rewrite !orb_false_iff in B. destruct B as [B _]. rewrite negb_false_iff, !andb_true_iff in B.
    destruct B as [[_ B] _]. pose proof (ST _ _ B eq_refl) as S.
    cbn [cstate set_data set_points set_cres cache_free cempty bind layers points lg clg] in E.
    injection E as <-. cbn [layers points]. split; [reflexivity|].
    rewrite map_map, nth_error_map, N. cbn [option_map].
    rewrite forallb_forall in OK.
    assert (OP : snd (check_point (layers st) p) = true).
    { apply OK. apply in_map_iff. exists p. split; [reflexivity|]. eapply nth_error_In; eauto. }
    assert (Z0 : 0 <= pz p).
    { unfold check_point in OP. destruct (pz p <? 0) eqn:Z; [discriminate|]. apply Z.ltb_ge in Z. exact Z. }
    destruct (pil p) as [k'|] eqn:PL.
    + destruct (C30_explicit_layer (layers st) p k' PL S Z0) as [H1 H2].
      exists k'. rewrite H2. split; [destruct p; simpl in *; congruence|]. split; [reflexivity|]. apply H1. exact OP.
    + destruct (C30_automatic_layer (layers st) p PL S Z0) as [_ H2].
      destruct (H2 OP) as (k & K1 & K2). exists k. rewrite K1. auto.
Qed.
Print Assumptions C30_after_calculation_partial.
Example C30_after_calculation_ex :
  (let* st := run kern_sum snew (demo ++ [OAddPoint (Pt 5 5 100 (Some 0%nat)); OAddPoint (Pt 5 5 100 None);
                                          OAddPoint (Pt 6 6 100 None); OCalc ROdemark None]) in
   Ok (map (fun p => (pz p, pil p)) (points st))) =
  Ok [(0, Some 0%nat); (130, Some 1%nat); (100, Some 0%nat); (100, Some 1%nat)].
Proof. vm_compute. reflexivity. Qed.

(* The layer found by one calculation stays with the point: after the layer above has been
   made thinner the point is not found in the layer that holds its depth. *)
Theorem C30_after_edit_refuted :
  exists (ops : list (op Z)) (st st' : sys Z) (res : restype) (d : Z),
    run kern_sum snew (demo ++ [OAddPoint (Pt 0 0 d None)] ++ ops) = Ok st /\ cstate st = CEmpty /\
    holds_depth (layers st) 1 d /\ snd (check_point (layers st) (Pt 0 0 d None)) = true /\
    calculate kern_sum st res None = Ok (st', false).
Proof.
  exists [OCalc ROdemark None; OThickness 0 50]. do 2 eexists. exists ROdemark, 90.
  split; [vm_compute; reflexivity|]. split; [vm_compute; reflexivity|].
  split; [exists (Lay 0 700 350000 one); vm_compute; repeat split; [discriminate|left; reflexivity]|].
  split; vm_compute; reflexivity.
Qed.
(* ... and a point on the boundary is then evaluated in the wrong layer. *)
Theorem C30_boundary_after_edit_refuted :
  exists (ops : list (op Z)) (st : sys Z) (d : Z),
    run kern_sum snew (demo ++ [OAddPoint (Pt 0 0 d None)] ++ ops) = Ok st /\ cstate st = CAll /\
    holds_depth (layers st) 1 d /\ option_map pil (nth_error (points st) 2) = Some (Some 0%nat).
Proof.
  exists [OCalc ROdemark None; OThickness 0 90; OCalc ROdemark None]. eexists. exists 90.
  split; [vm_compute; reflexivity|]. split; [vm_compute; reflexivity|].
  split; [exists (Lay 0 700 350000 one); vm_compute; repeat split; [discriminate|left; reflexivity]|].
  vm_compute; reflexivity.
Qed.
Example C30_automatic_layer_ex :
  check_point [Lay 100 1 1 one; Lay 50 1 1 one; Lay 0 1 1 one] (Pt 7 8 150 None) = (Pt 7 8 150 (Some 2%nat), true).
Proof. reflexivity. Qed.
Example C30_explicit_layer_ex :
  check_point [Lay 100 1 1 one; Lay 50 1 1 one; Lay 0 1 1 one] (Pt 7 8 150 (Some 1%nat)) = (Pt 7 8 150 (Some 1%nat), true) /\
  check_point [Lay 100 1 1 one; Lay 50 1 1 one; Lay 0 1 1 one] (Pt 7 8 151 (Some 1%nat)) = (Pt 7 8 151 (Some 1%nat), false).
Proof. split; reflexivity. Qed.
