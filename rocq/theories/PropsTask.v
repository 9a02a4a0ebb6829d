(* C21 and C22: the task queue. *)
From Coq Require Import List Bool Arith Lia Sorted Permutation.
From Verif Require Import Base TaskModel.
Import ListNotations.
Local Open Scope nat_scope.

Section Safety.
Variables tthrows cthrows : nat -> bool.
Notation step := (step tthrows cthrows).
Notation steps := (steps tthrows cthrows).

Definition pend (s : tq) : list nat := match pc s with MCall t _ => [t] | _ => [] end.
Fixpoint gots (w : list wstate) : list nat :=
  match w with
  | [] => []
  | WGot t :: w => t :: gots w
  | _ :: w => gots w
  end.

Lemma gots_upd w i x y : nth_error w i = Some x ->
  match x, y with
  | WGot _, WGot _ => True
  | WGot t, _ => Permutation (gots w) (t :: gots (upd w i y))
  | _, WGot t => Permutation (gots (upd w i y)) (t :: gots w)
  | _, _ => gots (upd w i y) = gots w
  end.
Proof.
  revert i. induction w as [|z w IH]; intros [|i] E; try discriminate; simpl in E.
  - injection E as ->. destruct x, y; simpl; auto.
  - specialize (IH i E). destruct x, y; auto; destruct z; simpl; auto;
      try (rewrite IH; apply perm_swap); try (rewrite IH; reflexivity).
Qed.
Lemma gots_in w t : In t (gots w) <-> In (WGot t) w.
Proof.
  induction w as [|x w IH]; simpl; [tauto|]. destruct x; simpl; rewrite IH; intuition congruence.
Qed.
Lemma gots_wake w : gots (map wake w) = gots w.
Proof. induction w as [|x w IH]; simpl; auto. destruct x; simpl; congruence. Qed.
Lemma gots_notify w w' : notify_one w w' -> gots w' = gots w.
Proof. intros [w0 N|w0 i E]; auto. apply (gots_upd w0 i WBlocked WCheck E). Qed.
Lemma in_upd {A} (w : list A) i y x : In x (upd w i y) -> x = y \/ In x w.
Proof.
  revert i. induction w as [|z w IH]; intros [|i] I; simpl in *; auto; destruct I as [I|I]; auto.
  destruct (IH i I); auto.
Qed.
Lemma dead_notify w w' : notify_one w w' -> In WDead w' -> In WDead w.
Proof.
  intros [w0 N|w0 i E] I; auto. apply in_upd in I. destruct I as [I|I]; [discriminate|exact I].
Qed.
Lemma dead_wake w : In WDead (map wake w) -> In WDead w.
Proof. intros I. apply in_map_iff in I. destruct I as (x & E & I). destruct x; try discriminate. exact I. Qed.
Lemma length_notify w w' : notify_one w w' -> length w' = length w.
Proof. intros [w0 N|w0 i E]; auto. apply length_upd. Qed.

Ltac inv_step H := inversion H; subst; clear H; cbn [set_pc set_ws tasks results ready ws exiting emptyf abort single pc next ran cbs] in *.

(* ---- every task is taken at most once; the client sees them in the order of submission ---- *)
Record G1 (s : tq) : Prop := {
  g_sorted : StronglySorted lt (cbs s ++ pend s ++ results s ++ tasks s);
  g_below : forall t, In t (cbs s ++ pend s ++ results s ++ tasks s) -> t < next s;
  g_once : NoDup (ran s ++ gots (ws s) ++ tasks s);
  g_once_below : forall t, In t (ran s ++ gots (ws s) ++ tasks s) -> t < next s }.
Record G2 (s : tq) : Prop := {
  g_single : single s = true -> match pc s with
     | MIdle => abort s = false -> results s = [] /\ tasks s = []
     | MEnqRes | MCall _ None => False
     | _ => True end;
  g_done : match pc s with
     | MDrainRes true _ => results s = [] /\ tasks s = []
     | MWait true _ | MCall _ (Some (true, _)) => False
     | _ => True end;
  g_call : match pc s with MCall _ _ => abort s = false | MWait _ _ => results s <> [] | _ => True end }.
Record G3 (s : tq) : Prop := {
  g_running : forall t, In t (results s) -> In t (ready s) \/ In (WGot t) (ws s);
  g_ready : incl (ready s) (ran s);
  g_called : incl (cbs s ++ pend s) (ran s) }.
Record G4 (s : tq) : Prop := {
  g_exit : match pc s with
     | MDestTop => exiting s = true /\ emptyf s = false
     | MJoin | MDrainTop true | MDrainRes _ true | MWait _ true | MCall _ (Some (_, true)) =>
       exiting s = true /\ emptyf s = true /\ tasks s = [] /\ ~ In WBlocked (ws s)
     | MGone => exiting s = true /\ emptyf s = true /\ tasks s = []
     | _ => exiting s = false /\ emptyf s = false end;
  g_dead : In WDead (ws s) -> abort s = true \/ (exiting s = true /\ tasks s = []);
  g_some : ws s <> [] }.

Lemma is_nil_true {A} (l : list A) : is_nil l = true <-> l = [].
Proof. destruct l; simpl; split; congruence. Qed.
Lemma ss_lt_app l x : StronglySorted lt l -> (forall t, In t l -> t < x) -> StronglySorted lt (l ++ [x]).
Proof.
  induction l as [|y l IH]; intros S B; simpl; [repeat constructor|].
  inversion S as [|? ? S1 F]; subst. constructor; [apply IH; auto; intros; apply B; simpl; auto|].
  apply Forall_app. split; auto. constructor; auto. apply B; simpl; auto.
Qed.
Lemma ss_lt_drop l1 x l2 : StronglySorted lt (l1 ++ x :: l2) -> StronglySorted lt (l1 ++ l2).
Proof.
  induction l1 as [|y l1 IH]; simpl; intros S; inversion S as [|? ? S1 F]; subst; auto.
  constructor; auto. rewrite Forall_forall in *. intros z I. apply F. apply in_app_iff in I. apply in_app_iff. simpl. tauto.
Qed.
Lemma after_pend s fin d : pend (set_pc s (after fin d)) = [].
Proof. unfold pend, after; simpl. destruct fin, d; reflexivity. Qed.
Lemma k_pend (k : option (bool * bool)) :
  match (match k with None => MIdle | Some (fin, d) => after fin d end) with MCall t _ => [t] | _ => [] end = [].
Proof. destruct k as [[[] []]|]; reflexivity. Qed.
Lemma k_pend2 (k : option (bool * bool)) :
  match (match k with Some (_, true) => MGone | _ => MIdle end) with MCall t _ => [t] | _ => [] end = [].
Proof. destruct k as [[? []]|]; reflexivity. Qed.


Definition line (s : tq) : list nat := cbs s ++ pend s ++ results s ++ tasks s.
Definition log (s : tq) : list nat := ran s ++ gots (ws s) ++ tasks s.
Lemma after_nocall fin d : match after fin d with MCall t _ => [t] | _ => [] end = [].
Proof. destruct fin, d; reflexivity. Qed.

Ltac cleanup :=
  unfold line, log, pend in *; cbn [set_pc set_ws tasks results ready ws exiting emptyf abort single pc next ran cbs] in *;
  repeat match goal with E : pc ?s = _ |- _ => rewrite E in * end;
  rewrite ?k_pend, ?k_pend2, ?after_nocall, ?gots_wake in *;
  repeat match goal with E : notify_one _ _ |- _ => rewrite (gots_notify _ _ E) in * end;
  repeat match goal with E : results ?s = _ |- _ => rewrite E in * end;
  repeat match goal with E : tasks ?s = _ |- _ => rewrite E in * end;
  cbn [app] in *.

(* what a step does to the line of tasks *)
Lemma line_step l s s' : step l s s' -> G2 s ->
  (line s' = line s /\ next s <= next s') \/
  (line s' = line s ++ [next s] /\ next s' = S (next s)) \/
  (exists l1 x l2, line s = l1 ++ x :: l2 /\ line s' = l1 ++ l2 /\ next s' = next s).
Proof.
  intros H [B1 B2 B3]. inv_step H; cleanup; try (left; split; [reflexivity|lia]).
  - (* direct *) right; left. destruct (B1 ltac:(assumption)) as [Br Bt].
    { match goal with E : _ || _ || _ = false |- _ => apply orb_false_iff in E; apply E end. }
    rewrite Br, Bt, !app_nil_r. auto.
  - (* submit *) right; left. destruct (is_nil (results s)); cbn [app]; rewrite <- !app_assoc; auto.
  - (* enqueue: result *) destruct (abort s).
    + right; right. exists (cbs s), t, (r ++ tasks s). auto.
    + left. split; [reflexivity|lia].
  - destruct (abort s).
    + right; right. exists (cbs s), t, (r ++ tasks s). rewrite after_nocall. auto.
    + left. split; [reflexivity|lia].
  - right; right. exists (cbs s), t, (results s ++ tasks s). auto.
  - left. split; [rewrite <- app_assoc; reflexivity|lia].
  - left. split; [rewrite <- app_assoc; reflexivity|lia].
  - left. split; [|lia]. destruct (pc s); rewrite <- ?app_assoc; reflexivity.
Qed.
Lemma perm_mid {A} (x : A) a b c : Permutation (a ++ b ++ x :: c) (a ++ (x :: b) ++ c).
Proof. apply Permutation_app_head. cbn [app]. symmetry. apply Permutation_middle. Qed.
Lemma log_step l s s' : step l s s' ->
  (Permutation (log s') (log s) /\ next s <= next s') \/ (Permutation (log s') (next s :: log s) /\ next s' = S (next s)).
Proof.
  intros H. inv_step H; cleanup; try (left; split; [reflexivity|lia]).
  - right. split; auto. rewrite <- app_assoc. cbn [app]. symmetry. apply Permutation_middle.
  - right. split; auto. rewrite <- app_assoc. cbn [app]. symmetry. apply Permutation_middle.
  - right. split; auto. rewrite !app_assoc. symmetry. apply Permutation_cons_append.
  - left. split; [|lia]. destruct (negb (emptyf s) && negb (is_nil (tasks s))); [rewrite (gots_notify _ _ H1)|rewrite H1]; reflexivity.
  - left. split; [|lia]. rewrite (gots_upd _ i WCheck WBlocked) by auto. reflexivity.
  - left. split; [|lia]. rewrite (gots_upd _ i WCheck WDead) by auto. reflexivity.
  - left. split; [|lia]. rewrite (gots_upd (ws s) i WCheck (WGot t)) by auto. symmetry. apply perm_mid.
  - left. split; [|lia]. rewrite (gots_upd (ws s) i (WGot t) WCheck) by auto. rewrite <- app_assoc. reflexivity.
  - left. split; [|lia]. rewrite (gots_upd _ i WBlocked WCheck) by auto. reflexivity.
Qed.

Lemma G1_step l s s' : step l s s' -> G2 s -> G1 s -> G1 s'.
Proof.
  intros H B [A1 A2 A3 A4]. pose proof (line_step _ _ _ H B) as L. pose proof (log_step _ _ _ H) as P.
  fold (line s) in *. fold (log s) in *. 
  constructor; fold (line s') (log s').
  - destruct L as [[-> _]|[[-> _]|(l1 & x & l2 & E1 & -> & _)]]; auto.
    + apply ss_lt_app; auto.
    + rewrite E1 in A1. eapply ss_lt_drop; eauto.
  - intros t I. destruct L as [[E N]|[[E N]|(l1 & x & l2 & E1 & E & N)]]; rewrite E in I.
    + specialize (A2 t I). lia.
    + apply in_app_iff in I. destruct I as [I|[<-|[]]]; [specialize (A2 t I); lia|lia].
    + assert (In t (line s)) as I' by (rewrite E1; apply in_app_iff in I; apply in_app_iff; simpl; tauto).
      specialize (A2 t I'). lia.
  - destruct P as [[P _]|[P N]].
    + eapply Permutation_NoDup; [symmetry; exact P|exact A3].
    + eapply Permutation_NoDup; [symmetry; exact P|]. constructor; auto. intros I. specialize (A4 _ I). lia.
  - intros t I. destruct P as [[P N]|[P N]].
    + apply (Permutation_in _ P) in I. specialize (A4 t I). lia.
    + apply (Permutation_in _ P) in I. destruct I as [<-|I]; [lia|specialize (A4 t I); lia].
Qed.

Ltac split_all :=
  repeat match goal with
  | k : option (bool * bool) |- _ => destruct k as [[[] []]|]
  | b : bool |- _ => destruct b
  | |- context [if is_nil ?l then _ else _] => destruct (is_nil l) eqn:?
  | |- context [if abort ?s then _ else _] => destruct (abort s) eqn:?
  end; unfold after in *; cbn iota in *.
Ltac fin := intuition (try congruence; try discriminate; auto).
Lemma G2_step l s s' : step l s s' -> G2 s -> G2 s'.
Proof.
  intros H [B1 B2 B3]. inv_step H; constructor; cbn [set_pc set_ws tasks results ready ws exiting emptyf abort single pc next ran cbs] in *;
    repeat match goal with E : pc ?s = _ |- _ => rewrite E in * end; auto; try solve [split_all; fin].
  - destruct (is_nil (tasks s)) eqn:E1, (is_nil (results s)) eqn:E2; cbn [andb]; auto.
    split; apply is_nil_true; assumption.
  - destruct (pc s) as [| |?|? ?|? ?|? [[? ?]|]| | |]; fin.
  - destruct (pc s) as [| |?|[] ?|[] ?|? [[[] ?]|]| | |]; fin.
  - destruct (pc s); auto. intros X. apply app_eq_nil in X. destruct X; discriminate.
Qed.
Lemma G3_step l s s' : step l s s' -> G3 s -> G3 s'.
Proof.
  intros H [B1 B2 B3]. inv_step H; constructor; unfold pend in *; cbn [set_pc set_ws tasks results ready ws exiting emptyf abort single pc next ran cbs] in *;
    repeat match goal with E : pc ?s = _ |- _ => rewrite E in * end; auto; rewrite ?k_pend, ?k_pend2, ?after_nocall, ?app_nil_r in *; cbn [app] in *; auto;
    try solve [intros q I; apply in_app_iff; auto];
    try solve [intros q I; specialize (B1 q); rewrite <- gots_in in *; rewrite ?gots_wake; 
      repeat match goal with E : results ?s = _ |- _ => rewrite E in * end;
      repeat match goal with E : notify_one _ _ |- _ => rewrite (gots_notify _ _ E) in * end; simpl in *; auto].
  - intros q I. apply in_app_iff in I. apply in_app_iff. destruct I as [I|I]; auto.
  - destruct (is_nil (results s)); rewrite app_nil_r; auto.
  - destruct (abort s); [rewrite app_nil_r; auto|]. intros q I. apply in_app_iff in I. destruct I as [I|[<-|[]]]; auto.
  - intros q I. specialize (B1 q I). rewrite <- gots_in in *.
    destruct (negb (emptyf s) && negb (is_nil (tasks s))); [|subst w; auto].
    match goal with E : notify_one _ _ |- _ => rewrite (gots_notify _ _ E) end. auto.
  - destruct (abort s); [rewrite after_nocall, app_nil_r; auto|]. intros q I. apply in_app_iff in I. destruct I as [I|[<-|[]]]; auto.
  - intros q I. apply B3. apply in_app_iff. auto.
  - intros q I. specialize (B1 q I). rewrite <- gots_in in *. rewrite (gots_upd _ i WCheck WBlocked) by auto. auto.
  - intros q I. specialize (B1 q I). rewrite <- gots_in in *. rewrite (gots_upd _ i WCheck WDead) by auto. auto.
  - intros q I. rewrite <- gots_in. apply in_app_iff in I.
    assert (Permutation (gots (upd (ws s) i (WGot t))) (t :: gots (ws s))) as P by (apply (gots_upd _ i WCheck (WGot t)); auto).
    destruct I as [I|[<-|[]]].
    + specialize (B1 q I). rewrite <- gots_in in B1. destruct B1; auto. right. eapply Permutation_in; [symmetry; exact P|]. right; auto.
    + right. eapply Permutation_in; [symmetry; exact P|]. left; auto.
  - intros q I. rewrite <- gots_in. specialize (B1 q I). rewrite <- gots_in in B1.
    assert (Permutation (gots (ws s)) (t :: gots (upd (ws s) i WCheck))) as P by (apply (gots_upd _ i (WGot t) WCheck); auto).
    destruct B1 as [B1|B1]; [simpl; auto|]. apply (Permutation_in _ P) in B1. simpl in *. tauto.
  - intros q [<-|I]; apply in_app_iff; simpl; auto.
  - intros q I. specialize (B1 q I). rewrite <- gots_in in *. rewrite (gots_upd _ i WBlocked WCheck) by auto. auto.
Qed.
Lemma blocked_upd (w : list wstate) i y : y <> WBlocked -> ~ In WBlocked w -> ~ In WBlocked (upd w i y).
Proof. intros N I J. apply in_upd in J. destruct J; auto. Qed.
Lemma blocked_wake (w : list wstate) : ~ In WBlocked (map wake w).
Proof. intros I. apply in_map_iff in I. destruct I as ([] & E & _); discriminate. Qed.
Lemma blocked_notify (w w' : list wstate) : notify_one w w' -> ~ In WBlocked w -> ~ In WBlocked w'.
Proof. intros [w0 N|w0 i E] I; auto. apply blocked_upd; auto. discriminate. Qed.
Lemma upd_nil {A} (l : list A) i x : l <> [] -> upd l i x <> [].
Proof. destruct l; [congruence|]. intros _. destruct i; discriminate. Qed.

Lemma notify_nil (w w' : list wstate) : notify_one w w' -> w <> [] -> w' <> [].
Proof. intros [w0 N|w0 i E] I; auto. apply upd_nil; auto. Qed.
Lemma map_nil {A B} (f : A -> B) l : l <> [] -> map f l <> [].
Proof. destruct l; [congruence|discriminate]. Qed.
Lemma dead_upd (w : list wstate) i y : y <> WDead -> In WDead (upd w i y) -> In WDead w.
Proof. intros N J. apply in_upd in J. destruct J; auto. congruence. Qed.
Lemma empty_exit s : G4 s -> emptyf s = true -> exiting s = true /\ tasks s = [].
Proof.
  intros [B1 _ _] E. destruct (pc s) as [| |[]|? []|? []|? [[? []]|]| | |]; intuition congruence.
Qed.
Lemma G4_step l s s' : step l s s' -> G4 s -> G4 s'.
Proof.
  intros H B. pose proof (empty_exit s B) as EE. destruct B as [B1 B2 B3].
  inv_step H; constructor; cbn [set_pc set_ws tasks results ready ws exiting emptyf abort single pc next ran cbs] in *;
    repeat match goal with E : pc ?s = _ |- _ => rewrite E in * end; auto; try solve [split_all; fin];
    try (apply upd_nil; assumption); try (apply map_nil; assumption);
    try (eapply notify_nil; eassumption).
  - intros I. apply (dead_notify _ _ H3), B2 in I. destruct I as [I|[I _]]; auto.
    exfalso. rewrite I in *. destruct B1; discriminate.
  - destruct d; auto. destruct B1 as (? & ? & ? & ?). repeat split; auto.
    destruct (negb (emptyf s) && negb (is_nil (tasks s))); [eapply blocked_notify; eauto|congruence].
  - intros I. apply B2. destruct (negb (emptyf s) && negb (is_nil (tasks s))); [eapply dead_notify; eauto|congruence].
  - destruct (negb (emptyf s) && negb (is_nil (tasks s))); [eapply notify_nil; eauto|congruence].
  - intros I. apply B2, dead_wake, I.
  - destruct B1. repeat split; auto. apply blocked_wake.
  - (* sleep *)
    assert (exiting s = false) as E1 by (apply orb_false_iff in H2; destruct H2 as [H2 _]; apply orb_false_iff in H2; destruct H2 as [H2 _]; apply orb_false_iff in H2; apply H2).
    destruct (pc s) as [| |[]|? []|? []|? [[? []]|]| | |]; intuition congruence.
  - intros I. apply dead_upd in I; [|discriminate]. auto.
  - destruct (pc s) as [| |[]|? []|? []|? [[? []]|]| | |]; auto; destruct B1 as (? & ? & ? & ?); repeat split; auto; apply blocked_upd; auto; discriminate.
  - intros _. destruct H2 as [E|[E1 E2]]; auto. apply orb_true_iff in E. destruct E as [E|E]; auto.
  - (* take *) destruct (pc s) as [| |[]|? []|? []|? [[? []]|]| | |]; intuition congruence.
  - intros I. apply dead_upd in I; [|discriminate]. destruct (B2 I) as [I'|[_ I']]; auto. congruence.
  - destruct (pc s) as [| |[]|? []|? []|? [[? []]|]| | |]; auto; destruct B1 as (? & ? & ? & ?); repeat split; auto; apply blocked_upd; auto; discriminate.
  - intros I. apply dead_upd in I; [|discriminate]. auto.
  - destruct (pc s) as [| |[]|? []|? []|? [[? []]|]| | |]; auto; destruct B1 as (? & ? & ? & ?); repeat split; auto; apply blocked_upd; auto; discriminate.
  - intros I. apply dead_upd in I; [|discriminate]. auto.
Qed.

Record Inv (s : tq) : Prop := { i1 : G1 s; i2 : G2 s; i3 : G3 s; i4 : G4 s }.
Lemma Inv_step l s s' : step l s s' -> Inv s -> Inv s'.
Proof.
  intros H [A B C D]. constructor; [eapply G1_step|eapply G2_step|eapply G3_step|eapply G4_step]; eauto.
Qed.
Lemma gots_repeat n : gots (repeat WCheck n) = [].
Proof. induction n; auto. Qed.
Lemma Inv_new w : Inv (tq_new w).
Proof.
  constructor; constructor; unfold tq_new, pend; cbn [tasks results ready ws exiting emptyf abort single pc next ran cbs app];
    rewrite ?gots_repeat; auto; try (constructor; fail); try (intros ? []).
  - intros I. apply repeat_spec in I. discriminate.
  - destruct (Nat.max 1 w) eqn:E; [lia|discriminate].
Qed.
Lemma Inv_steps s s' : steps s s' -> Inv s -> Inv s'.
Proof. induction 1; auto. intros I. apply IHsteps. eapply Inv_step; eauto. Qed.
Lemma Inv_reachable w s : reachable tthrows cthrows w s -> Inv s.
Proof. intros H. eapply Inv_steps; [exact H|apply Inv_new]. Qed.

(* Whatever throws: no task is run twice, callbacks come in the order of submission, none
   twice and none before its task has run. *)
Theorem C21_order_and_once : forall w s, reachable tthrows cthrows w s ->
  NoDup (ran s) /\ StronglySorted lt (cbs s) /\ incl (cbs s) (ran s).
Proof.
  intros w s H. destruct (Inv_reachable _ _ H) as [[A1 A2 A3 A4] _ [_ _ C3] _]. repeat split.
  - clear -A3. induction (ran s) as [|x l IH]; simpl in *; [constructor|]. inversion A3; subst.
    constructor; [|apply IH; auto]. intros I. apply H1. apply in_app_iff; auto.
  - clear -A1. induction (cbs s) as [|x l IH]; simpl in *; [constructor|]. inversion A1; subst.
    constructor; [apply IH; auto|]. apply Forall_app in H2. apply H2.
  - intros q I. apply C3. apply in_app_iff; auto.
Qed.

Hypothesis no_throw : forall t, tthrows t = false /\ cthrows t = false.
Definition quiet (s : tq) : Prop := abort s = false /\ line s = seq 0 (next s).
Lemma quiet_step l s s' : step l s s' -> G2 s -> quiet s -> quiet s'.
Proof.
  intros H B [Q1 Q2]. assert (abort s' = false) as Q1'.
  { inv_step H; auto; try (destruct (no_throw t); congruence). }
  split; auto.
  assert (length (line s') + next s = length (line s) + next s') as L.
  { clear -H Q1 no_throw. inv_step H; cleanup; rewrite ?app_length; cbn [length]; auto; try lia;
      try (match goal with E : tthrows ?t = true |- _ => rewrite (proj1 (no_throw t)) in E; discriminate end);
      try (match goal with E : cthrows ?t = true |- _ => rewrite (proj2 (no_throw t)) in E; discriminate end);
      try (rewrite Q1; cbn [app length]; rewrite ?app_length; lia).
    - destruct (is_nil (results s)); cbn [app length]; rewrite ?app_length; cbn [length]; lia.
    - rewrite app_length. lia. }
  destruct (line_step _ _ _ H B) as [[E N]|[[E N]|(l1 & x & l2 & E1 & E2 & N)]].
  - rewrite E in *. replace (next s') with (next s) by lia. exact Q2.
  - rewrite E, N, Q2, seq_S. reflexivity.
  - exfalso. rewrite E1, E2, !app_length in L. cbn [length] in L. lia.
Qed.
Lemma quiet_reachable w s : reachable tthrows cthrows w s -> quiet s.
Proof.
  unfold reachable. intros H.
  assert (forall a b, steps a b -> Inv a -> quiet a -> quiet b) as K.
  { induction 1; auto. intros I Q. apply IHsteps; [eapply Inv_step; eauto|eapply quiet_step; eauto]. apply I. }
  apply (K _ _ H (Inv_new w)). split; reflexivity.
Qed.
(* When nothing throws and drain returns, every submitted task has been run once and its
   callback made once, in the order of submission; up to then the callbacks made are the
   first ones. *)
Theorem C21_all_delivered : forall w s s', reachable tthrows cthrows w s ->
  (exists k, cbs s = seq 0 k /\ k <= next s) /\
  (step (ByMain Returned) s s' ->
     cbs s' = seq 0 (next s') /\ NoDup (ran s') /\ forall t, In t (ran s') <-> t < next s').
Proof.
  intros w s s' H. destruct (quiet_reachable _ _ H) as [Q1 Q2]. split.
  - exists (length (cbs s)). assert (line s = cbs s ++ (pend s ++ results s ++ tasks s)) as E by reflexivity.
    rewrite Q2 in E. assert (length (cbs s) <= next s) as L.
    { apply (f_equal (@length nat)) in E. rewrite seq_length, app_length in E. lia. }
    split; auto. replace (next s) with (length (cbs s) + (next s - length (cbs s))) in E by lia.
    rewrite seq_app in E. apply app_inv_head_iff with (l := []) in E. cbn [app] in E.
    assert (firstn (length (cbs s)) (seq 0 (length (cbs s)) ++ seq (0 + length (cbs s)) (next s - length (cbs s))) =
            firstn (length (cbs s)) (cbs s ++ pend s ++ results s ++ tasks s)) as F by (rewrite E; reflexivity).
    rewrite !firstn_app, seq_length, Nat.sub_diag in F. cbn [firstn] in F. rewrite !app_nil_r in F.
    rewrite firstn_all in F. rewrite firstn_all2 in F by (rewrite seq_length; lia). auto.
  - intros St. destruct (Inv_reachable _ _ H) as [[A1 A2 A3 A4] [_ B2 _] [_ _ C3] _].
    destruct (C21_order_and_once w s H) as (O1 & _ & O3).
    inversion St; subst; try (destruct (cthrows (next s)); discriminate).
    destruct fin; [|discriminate]. cbn [set_pc cbs next ran].
    match goal with E : pc s = _ |- _ => unfold line, pend in Q2; rewrite E in *; destruct B2 as [Br Bt] end.
    rewrite Br, Bt in *. rewrite !app_nil_r in Q2. split; [exact Q2|]. split; [exact O1|].
    intros t. split; intros I.
    + apply A4. apply in_app_iff; auto.
    + apply O3. rewrite Q2. apply in_seq. lia.
Qed.
End Safety.
Print Assumptions C21_order_and_once.
Print Assumptions C21_all_delivered.

(* ---- termination ---- *)
Section Live.
Variables tthrows cthrows : nat -> bool.
Notation step := (step tthrows cthrows).
Notation steps := (steps tthrows cthrows).
Notation execution := (execution tthrows cthrows).
Notation fair := (fair tthrows cthrows).

(* the client is inside of a call *)
Definition busy (s : tq) : Prop := pc s <> MIdle /\ pc s <> MGone.
Definition unblocked (s : tq) : Prop := abort s = true -> tasks s = [].
Definition wakecond (s : tq) : Prop := exiting s || emptyf s || abort s || negb (is_nil (tasks s)) = true.

Fixpoint alive (w : list wstate) : nat :=
  match w with
  | [] => 0
  | WDead :: w => alive w
  | _ :: w => S (alive w)
  end.
Definition M (s : tq) : nat := 3 * length (tasks s) + length (gots (ws s)) + length (results s) + alive (ws s).

Lemma alive_upd w i x y : nth_error w i = Some x -> x <> WDead ->
  match y with WDead => alive w = S (alive (upd w i y)) | _ => alive (upd w i y) = alive w end.
Proof.
  revert i. induction w as [|z w IH]; intros [|i] E N; try discriminate; simpl in E.
  - injection E as ->. destruct x, y; simpl; congruence.
  - specialize (IH i E N). destruct y; destruct z; simpl; congruence.
Qed.
Lemma alive_wake w : alive (map wake w) = alive w.
Proof. induction w as [|x w IH]; simpl; auto. destruct x; simpl; congruence. Qed.
Lemma alive_notify w w' : notify_one w w' -> alive w' = alive w.
Proof. intros [w0 N|w0 i E]; auto. apply (alive_upd w0 i WBlocked WCheck E). discriminate. Qed.

Ltac inv_step H := inversion H; subst; clear H; cbn [set_pc set_ws tasks results ready ws exiting emptyf abort single pc next ran cbs] in *.
Ltac idle := match goal with B : busy _ , E : pc _ = MIdle |- _ => destruct B as [B _]; exfalso; apply B; exact E end.

Definition keeps_workers (w w' : list wstate) : Prop :=
  (forall i t, nth_error w i = Some (WGot t) -> nth_error w' i = Some (WGot t)) /\
  (forall i, nth_error w i = Some WCheck -> nth_error w' i = Some WCheck).
Lemma keeps_notify w w' : notify_one w w' -> keeps_workers w w'.
Proof.
  intros [w0 N|w0 i E]; split; auto; intros j; intros; rewrite nth_error_upd;
    destruct (Nat.eqb_spec i j) as [->|NE]; cbn [andb]; auto; congruence.
Qed.
Lemma keeps_wake w : keeps_workers w (map wake w).
Proof. split; intros; rewrite nth_error_map, H; reflexivity. Qed.
Lemma keeps_refl w : keeps_workers w w.
Proof. split; auto. Qed.

(* What is left of a step when the measure does not change. *)
Record calm (l : label) (s s' : tq) : Prop := {
  c_tasks : tasks s' = tasks s;
  c_results : results s' = results s;
  c_wake : wakecond s -> wakecond s';
  c_got : forall i t, nth_error (ws s) i = Some (WGot t) -> nth_error (ws s') i = Some (WGot t);
  c_check : forall i, nth_error (ws s) i = Some WCheck -> wakecond s -> nth_error (ws s') i = Some WCheck;
  c_pc : match l with ByMain _ => True | _ => pc s' = pc s end }.

Lemma upd_other {A} (w : list A) i j x y : nth_error w j = Some y -> i <> j -> nth_error (upd w i x) j = Some y.
Proof. intros E N. rewrite nth_error_upd_ne; auto. Qed.

Lemma M_step l s s' : step l s s' -> busy s -> M s' < M s \/ (M s' = M s /\ calm l s s').
Proof.
  intros H B. unfold M. inv_step H; try idle; rewrite ?gots_wake, ?alive_wake;
    repeat match goal with E : results ?s = _ |- _ => rewrite E in * end;
    repeat match goal with E : tasks ?s = _ |- _ => rewrite E in * end; cbn [length].
  - right. split; auto. constructor; cbn; auto.
  - left. lia.
  - right. assert (notify_one (ws s) w \/ w = ws s) as [N|N] by (destruct (negb (emptyf s) && negb (is_nil (tasks s))); auto).
    + split; [rewrite (gots_notify _ _ N), (alive_notify _ _ N); auto|]. pose proof (keeps_notify _ _ N) as [K1 K2].
      constructor; cbn; auto.
    + subst w. split; auto. constructor; cbn; auto.
  - right. split; auto. constructor; cbn; auto.
  - right. split; auto. constructor; cbn; auto.
  - left. lia.
  - right. split; auto. constructor; cbn; auto. unfold wakecond; cbn. rewrite !orb_true_r. auto.
  - right. split; auto. constructor; cbn; auto. unfold wakecond; cbn. rewrite !orb_true_r. auto.
  - right. split; auto. constructor; cbn; auto.
  - right. split; auto. destruct (keeps_wake (ws s)) as [K1 K2]. constructor; cbn; auto.
  - right. split; auto. destruct (keeps_wake (ws s)) as [K1 K2]. constructor; cbn; auto. unfold wakecond; cbn. rewrite !orb_true_r. auto.
  - right. split; auto. constructor; cbn; auto.
  - (* sleep *) right. rewrite (gots_upd _ i WCheck WBlocked), (alive_upd _ i WCheck WBlocked) by (auto; discriminate).
    split; auto. constructor; cbn; auto.
    + intros j t E. apply upd_other; auto. congruence.
    + intros j E W. unfold wakecond in W. congruence.
  - left. rewrite (gots_upd _ i WCheck WDead) by auto. rewrite (alive_upd (ws s) i WCheck WDead) by (auto; discriminate). lia.
  - left. pose proof (Permutation_length (gots_upd (ws s) i WCheck (WGot t) H0)) as P. cbn [length] in P. rewrite P.
    rewrite (alive_upd _ i WCheck (WGot t)) by (auto; discriminate). rewrite app_length. cbn [length]. lia.
  - left. pose proof (Permutation_length (gots_upd (ws s) i (WGot t) WCheck H0)) as P. cbn [length] in P. rewrite P.
    rewrite (alive_upd _ i (WGot t) WCheck) by (auto; discriminate). lia.
  - right. rewrite (gots_upd _ i WBlocked WCheck), (alive_upd _ i WBlocked WCheck) by (auto; discriminate).
    split; auto. constructor; cbn; auto.
    + intros j t E. apply upd_other; auto. congruence.
    + intros j E W. apply upd_other; auto. congruence.
Qed.
Lemma unblocked_step l s s' : step l s s' -> busy s -> busy s' -> unblocked s -> unblocked s'.
Proof.
  intros H B B' U. unfold unblocked in *. inv_step H; try idle; auto; try congruence.
  - destruct B' as [B1 B2]. cbn in *. destruct k as [[? []]|]; congruence.
  - destruct B' as [B1 B2]. cbn in *. destruct k as [[? []]|]; congruence.
  - intros A. apply orb_false_iff in H2. destruct H2. congruence.
Qed.

Lemma wdec (x y : wstate) : {x = y} + {x <> y}.
Proof. decide equality. apply Nat.eq_dec. Qed.
Lemma notify_exists w : exists w', notify_one w w'.
Proof.
  destruct (in_dec wdec WBlocked w) as [I|I].
  - apply In_nth_error in I. destruct I as [i E]. eexists. eapply notify_some; eauto.
  - exists w. constructor; auto.
Qed.

Section Exec.
Variables (e : nat -> tq) (lab : nat -> option label).
Hypothesis HE : execution e lab.
Hypothesis HF : fair e lab.
Hypothesis HI : Inv (e 0).
Hypothesis HU : unblocked (e 0).
Hypothesis HB : forall n, busy (e n).

Lemma e_inv n : Inv (e n).
Proof.
  induction n as [|n IH]; auto. pose proof (HE n) as S. destruct (lab n) as [l|]; [eapply Inv_step; eauto|rewrite S; auto].
Qed.
Lemma e_unblocked n : unblocked (e n).
Proof.
  induction n as [|n IH]; auto. pose proof (HE n) as S. destruct (lab n) as [l|]; [|rewrite S; auto].
  eapply unblocked_step; eauto.
Qed.
Lemma e_M n : M (e (S n)) <= M (e n).
Proof.
  pose proof (HE n) as S. destruct (lab n) as [l|]; [|rewrite S; auto].
  destruct (M_step _ _ _ S (HB n)) as [L|[L _]]; lia.
Qed.
Lemma e_M_le n k : n <= k -> M (e k) <= M (e n).
Proof. induction 1 as [|k L IH]; auto. pose proof (e_M k). lia. Qed.

Section Stable.
Variable n : nat.
Hypothesis HS : forall k, n <= k -> M (e k) = M (e n).

Lemma st_step k l : n <= k -> lab k = Some l -> step l (e k) (e (S k)) /\ calm l (e k) (e (S k)).
Proof.
  intros L E. pose proof (HE k) as S. rewrite E in S. split; auto.
  destruct (M_step _ _ _ S (HB k)) as [D|[_ D]]; auto. rewrite (HS k), (HS (Datatypes.S k)) in D by lia. lia.
Qed.
Lemma st_keep k : n <= k -> tasks (e (S k)) = tasks (e k) /\ results (e (S k)) = results (e k) /\
  (wakecond (e k) -> wakecond (e (S k))) /\
  (forall i t, nth_error (ws (e k)) i = Some (WGot t) -> nth_error (ws (e (S k))) i = Some (WGot t)) /\
  (forall i, nth_error (ws (e k)) i = Some WCheck -> wakecond (e k) -> nth_error (ws (e (S k))) i = Some WCheck).
Proof.
  intros L. destruct (lab k) as [l|] eqn:E.
  - destruct (st_step k l L E) as [_ [A B C D F G]]. auto.
  - pose proof (HE k) as S. rewrite E in S. rewrite S. auto 6.
Qed.
Lemma st_nogot k i t : n <= k -> nth_error (ws (e k)) i = Some (WGot t) -> False.
Proof.
  intros L E. assert (forall m, k <= m -> nth_error (ws (e m)) i = Some (WGot t)) as A.
  { induction 1 as [|m Lm IH]; auto. apply (st_keep m); auto. lia. }
  destruct HF as [_ F]. destruct (F i k) as (m & Lm & Em).
  { intros m Lm. eexists. apply s_run. apply A; auto. }
  destruct (st_step m _ ltac:(lia) Em) as [S [_ _ _ C _ _]].
  assert (M (e (Datatypes.S m)) < M (e m)) as D.
  { pose proof (A m Lm) as Am. inversion S; subst; try congruence.
    assert (t0 = t) by congruence. subst t0.
    specialize (C i t Am).
    match goal with E : _ = e (Datatypes.S m) |- _ => rewrite <- E in C end. cbn in C. rewrite nth_error_upd_eq in C by (eapply nth_error_lt; eauto). discriminate. }
  rewrite (HS m), (HS (Datatypes.S m)) in D by lia. lia.
Qed.
Lemma st_ready k t : n <= k -> In t (results (e k)) -> In t (ready (e k)).
Proof.
  intros L I. destruct (g_running _ (i3 _ (e_inv k)) t I) as [R|R]; auto.
  apply In_nth_error in R. destruct R as [i R]. exfalso. eapply st_nogot; eauto.
Qed.
(* the client goes on *)
Lemma st_main k : n <= k ->
  (forall k', k <= k' -> pc (e k') = pc (e k) -> exists ev s', step (ByMain ev) (e k') s') ->
  (forall k' ev, k <= k' -> pc (e k') = pc (e k) -> step (ByMain ev) (e k') (e (S k')) -> False) -> False.
Proof.
  intros L En No. assert (forall k', k <= k' -> pc (e k') = pc (e k)) as P.
  { induction 1 as [|k' L' IH]; auto. destruct (lab k') as [l|] eqn:E.
    - destruct (st_step k' l ltac:(lia) E) as [S [_ _ _ _ _ C]]. destruct l; [exfalso; eauto|congruence|congruence].
    - pose proof (HE k') as S. rewrite E in S. rewrite S. auto. }
  destruct HF as [F _]. destruct (F k) as (m & ev & Lm & Em).
  { intros m Lm. apply En; auto. }
  destruct (st_step m _ ltac:(lia) Em) as [S _]. eapply No; eauto.
Qed.
Lemma st_nowait k fin d : n <= k -> pc (e k) = MWait fin d -> False.
Proof.
  intros L E. apply (st_main k L).
  - intros k' L' E'. rewrite E in E'. pose proof (g_call _ (i2 _ (e_inv k'))) as R. rewrite E' in R.
    destruct (results (e k')) as [|t r] eqn:Er; [congruence|].
    eexists _, _. eapply s_wait_pop; eauto. apply st_ready; [lia|]. rewrite Er. left; auto.
  - intros k' ev L' E' S. rewrite E in E'. pose proof (HS k' ltac:(lia)) as M1. pose proof (HS (Datatypes.S k') ltac:(lia)) as M2.
    inversion S; subst; try congruence.
    match goal with X : _ = e (Datatypes.S k') |- _ => rewrite <- X in M2 end.
    unfold M in M1, M2. cbn in M2. match goal with X : results _ = _ |- _ => rewrite X in M1 end. cbn [length] in M1. lia.
Qed.
Lemma st_nocheck k i : n <= k -> nth_error (ws (e k)) i = Some WCheck -> wakecond (e k) -> False.
Proof.
  intros L E W. assert (forall m, k <= m -> nth_error (ws (e m)) i = Some WCheck /\ wakecond (e m)) as A.
  { induction 1 as [|m Lm [IH1 IH2]]; auto. destruct (st_keep m ltac:(lia)) as (_ & _ & K1 & _ & K2). split; auto. }
  destruct HF as [_ F]. destruct (F i k) as (m & Lm & Em).
  { intros m Lm. destruct (A m Lm) as [A1 A2].
    assert (forall fin d, pc (e m) <> MWait fin d) as NW by (intros fin d X; eapply st_nowait; [|exact X]; lia).
    destruct (emptyf (e m) || abort (e m)) eqn:EA.
    - eexists. apply s_die; auto.
    - destruct (tasks (e m)) as [|t r] eqn:Et.
      + eexists. apply s_die; auto. right. split; auto. unfold wakecond in A2. rewrite Et in A2. cbn in A2.
        rewrite orb_false_r, <- orb_assoc, EA, orb_false_r in A2. exact A2.
      + eexists. eapply s_take; eauto. }
  destruct (A m Lm) as [A1 A2]. destruct (st_step m _ ltac:(lia) Em) as [S [C1 _ _ _ C _]].
  pose proof (C i A1 A2) as A3. inversion S; subst; try congruence;
    try (match goal with X : set_ws _ _ = e (Datatypes.S m) |- _ => rewrite <- X in A3 end; cbn in A3;
         rewrite nth_error_upd_eq in A3 by (eapply nth_error_lt; eauto); discriminate).
  match goal with X : _ = e (Datatypes.S m) |- _ => rewrite <- X in A3 end. cbn in A3.
  rewrite nth_error_upd_eq in A3 by (eapply nth_error_lt; eauto). discriminate.
Qed.
Lemma st_worker k x : n <= k -> wakecond (e k) -> In x (ws (e k)) -> x = WBlocked \/ x = WDead.
Proof.
  intros L W I. apply In_nth_error in I. destruct I as [i I].
  destruct x as [| |t|]; auto; exfalso; [eapply st_nocheck|eapply st_nogot]; eauto.
Qed.
Lemma st_blocked k : n <= k -> tasks (e k) <> [] -> exists i, nth_error (ws (e k)) i = Some WBlocked.
Proof.
  intros L T. pose proof (g_some _ (i4 _ (e_inv k))) as N. destruct (ws (e k)) as [|x w] eqn:Ew; [congruence|].
  assert (wakecond (e k)) as W.
  { unfold wakecond. destruct (tasks (e k)); [congruence|]. cbn. apply orb_true_r. }
  exists 0. cbn. f_equal. destruct (st_worker k x L W) as [X|X]; auto; [rewrite Ew; left; auto|].
  exfalso. subst x. destruct (g_dead _ (i4 _ (e_inv k))) as [A|[_ A]]; auto.
  - rewrite Ew. left; auto.
  - apply T. apply (e_unblocked k). exact A.
Qed.
Lemma wake_tasks s : tasks s <> [] -> wakecond s.
Proof. intros T. unfold wakecond. destruct (tasks s); [congruence|]. apply orb_true_r. Qed.

Lemma st_notop k d : n <= k -> pc (e k) = MDrainTop d -> False.
Proof.
  intros L E. apply (st_main k L).
  - intros k' L' E'. rewrite E in E'. destruct (notify_exists (ws (e k'))) as [w Hw].
    destruct (negb (emptyf (e k')) && negb (is_nil (tasks (e k')))) eqn:C.
    + eexists _, _. eapply s_drain_top; [exact E'|]. rewrite C. exact Hw.
    + eexists _, _. eapply s_drain_top; [exact E'|]. rewrite C. reflexivity.
  - intros k' ev L' E' S. rewrite E in E'. destruct (st_keep k' ltac:(lia)) as (T1 & R1 & _).
    inversion S; subst; try congruence. assert (d0 = d) by congruence. subst d0.
    match goal with X : set_pc _ _ = e (Datatypes.S k') |- _ => rename X into X0 end.
    match goal with X : (if _ then notify_one _ _ else _) |- _ => rename X into N0 end.
    assert (pc (e (Datatypes.S k')) = MDrainRes (is_nil (tasks (e k')) && is_nil (results (e k'))) d) as P1 by (rewrite <- X0; reflexivity).
    destruct (tasks (e k')) as [|t ts] eqn:Et.
    + (* no tasks *)
      assert (forall k2, Datatypes.S k' <= k2 -> results (e k2) = results (e k')) as RR.
      { induction 1 as [|k2 L2 IH]; auto. rewrite <- IH. apply st_keep. lia. }
      apply (st_main (Datatypes.S k') ltac:(lia)).
      * intros k2 L2 E2. rewrite P1 in E2. destruct (results (e k2)) eqn:Er.
        -- eexists _, _. eapply s_drain_res_none; eauto.
        -- eexists _, _. eapply s_drain_res_wait; eauto. congruence.
      * intros k2 ev2 L2 E2 S2. rewrite P1 in E2. pose proof (RR k2 L2) as R2. cbn [is_nil andb] in E2.
        inversion S2; subst; try congruence.
        -- match goal with X : results (e k2) = [] |- _ => rewrite X in R2 end. rewrite <- R2 in E2. cbn [is_nil] in E2.
           assert (fin = true) by congruence. subst fin. destruct (HB (Datatypes.S k2)) as [B1 B2].
           match goal with X : set_pc _ _ = e (Datatypes.S k2) |- _ => rewrite <- X in B1, B2 end. cbn in B1, B2.
           destruct d0; congruence.
        -- eapply (st_nowait (Datatypes.S k2)); [lia|].
           match goal with X : set_pc _ _ = e (Datatypes.S k2) |- _ => rewrite <- X end. reflexivity.
    + (* tasks: a worker wakes up *)
      pose proof (g_exit _ (i4 _ (e_inv k'))) as X. rewrite E' in X. destruct d; [destruct X as (_ & _ & X & _); congruence|].
      destruct X as [X1 X2]. rewrite X2 in N0. cbn in N0.
      destruct (st_blocked k' ltac:(lia)) as [i Hi]; [congruence|].
      assert (exists j, nth_error w j = Some WCheck) as [j Hj].
      { destruct N0 as [w0 N0|w0 j N0]; [exfalso; apply N0; eapply nth_error_In; eauto|].
        exists j. apply nth_error_upd_eq. eapply nth_error_lt; eauto. }
      apply (st_nocheck (Datatypes.S k') j ltac:(lia)).
      * rewrite <- X0. exact Hj.
      * apply wake_tasks. rewrite T1. congruence.
Qed.
Lemma st_nores k fin d : n <= k -> pc (e k) = MDrainRes fin d -> False.
Proof.
  intros L E. apply (st_main k L).
  - intros k' L' E'. rewrite E in E'. destruct (results (e k')) eqn:Er.
    + eexists _, _. eapply s_drain_res_none; eauto.
    + eexists _, _. eapply s_drain_res_wait; eauto. congruence.
  - intros k' ev L' E' S. rewrite E in E'. inversion S; subst; try congruence;
      match goal with X : set_pc _ _ = e (Datatypes.S k') |- _ => rename X into X0 end.
    + destruct fin0; [|apply (st_notop (Datatypes.S k') d0); [lia|rewrite <- X0; reflexivity]].
      destruct (HB (Datatypes.S k')) as [B1 B2]. rewrite <- X0 in B1, B2. cbn in B1, B2. destruct d0; congruence.
    + apply (st_nowait (Datatypes.S k') fin0 d0); [lia|rewrite <- X0; reflexivity].
Qed.
Lemma st_nojoin k : n <= k -> pc (e k) = MJoin -> False.
Proof.
  intros L E. apply (st_main k L).
  - intros k' L' E'. rewrite E in E'. pose proof (g_exit _ (i4 _ (e_inv k'))) as X. rewrite E' in X.
    destruct X as (X1 & X2 & X3 & X4). eexists _, _. apply s_join; auto. intros x I.
    assert (wakecond (e k')) as W by (unfold wakecond; rewrite X1; reflexivity).
    destruct (st_worker k' x ltac:(lia) W I) as [Y|Y]; auto. subst x. tauto.
  - intros k' ev L' E' S. rewrite E in E'. inversion S; subst; try congruence.
    apply (st_notop (Datatypes.S k') true); [lia|].
    match goal with X : set_pc _ _ = e (Datatypes.S k') |- _ => rewrite <- X end. reflexivity.
Qed.
Lemma st_nodest k : n <= k -> pc (e k) = MDestTop -> False.
Proof.
  intros L E. apply (st_main k L).
  - intros k' L' E'. rewrite E in E'. destruct (tasks (e k')) eqn:Et.
    + eexists _, _. apply s_dest_done; auto.
    + eexists _, _. apply s_dest_loop; auto. congruence.
  - intros k' ev L' E' S. rewrite E in E'. destruct (st_keep k' ltac:(lia)) as (T1 & _). inversion S; subst; try congruence.
    + match goal with X : set_ws _ _ = e (Datatypes.S k') |- _ => rename X into X0 end.
      destruct (st_blocked k' ltac:(lia)) as [i Hi]; auto.
      apply (st_nocheck (Datatypes.S k') i ltac:(lia)).
      * rewrite <- X0. cbn. rewrite nth_error_map, Hi. reflexivity.
      * apply wake_tasks. congruence.
    + apply (st_nojoin (Datatypes.S k')); [lia|].
      match goal with X : _ = e (Datatypes.S k') |- _ => rewrite <- X end. reflexivity.
Qed.
Lemma st_false : False.
Proof.
  destruct (pc (e n)) as [| |d|fin d|fin d|t kk| | |] eqn:E.
  - apply (proj1 (HB n) E).
  - apply (st_main n (le_n n)).
    + intros k' L' E'. rewrite E in E'. destruct (results (e k')) as [|t r] eqn:Er.
      * eexists _, _. apply s_enqres_none; auto. rewrite Er. exact Logic.I.
      * destruct (in_dec Nat.eq_dec t (ready (e k'))).
        -- eexists _, _. eapply s_enqres_some; eauto.
        -- eexists _, _. apply s_enqres_none; auto. rewrite Er. auto.
    + intros k' ev L' E' S. rewrite E in E'. pose proof (HS k' L') as M1. pose proof (HS (Datatypes.S k') ltac:(lia)) as M2.
      inversion S; subst; try congruence.
      * match goal with X : set_pc _ _ = e (Datatypes.S k') |- _ => rename X into X0 end.
        apply (proj1 (HB (Datatypes.S k'))). rewrite <- X0. reflexivity.
      * match goal with X : _ = e (Datatypes.S k') |- _ => rewrite <- X in M2 end.
        unfold M in M1, M2. cbn in M2. match goal with X : results _ = _ |- _ => rewrite X in M1 end. cbn [length] in M1. lia.
  - eapply st_notop; eauto.
  - eapply st_nores; eauto.
  - eapply st_nowait; eauto.
  - apply (st_main n (le_n n)).
    + intros k' L' E'. rewrite E in E'. destruct (tthrows t) eqn:T1; [eexists _, _; eapply s_call_task_threw; eauto|].
      destruct (cthrows t) eqn:T2; [eexists _, _; eapply s_call_cb_threw; eauto|eexists _, _; eapply s_call; eauto].
    + intros k' ev L' E' S. rewrite E in E'.
      assert (forall p, pc (e (Datatypes.S k')) = p -> p = MIdle \/ p = MGone \/ (exists d, p = MDrainTop d) -> False) as Z.
      { intros p P [->|[->|[d ->]]]; [apply (proj1 (HB (Datatypes.S k')) P)|apply (proj2 (HB (Datatypes.S k')) P)|].
        apply (st_notop (Datatypes.S k') d); [lia|exact P]. }
      inversion S; subst; try congruence; (eapply Z; [match goal with X : _ = e (Datatypes.S k') |- _ => rewrite <- X end; cbn; reflexivity|]).
      * destruct k as [[? []]|]; auto.
      * destruct k as [[? []]|]; auto.
      * destruct k as [[fin d]|]; auto. destruct fin, d; cbn; eauto.
  - eapply st_nodest; eauto.
  - eapply st_nojoin; eauto.
  - apply (proj2 (HB n) E).
Qed.
End Stable.

Lemma exec_false : False.
Proof.
  assert (forall m n, M (e n) = m -> False) as K.
  { induction m as [m IH] using lt_wf_ind. intros n E. apply (st_false n). intros k L.
    pose proof (e_M_le n k L). destruct (Nat.eq_dec (M (e k)) (M (e n))) as [D|D]; auto.
    exfalso. apply (IH (M (e k)) ltac:(lia) k eq_refl). }
  exact (K _ 0 eq_refl).
Qed.
End Exec.

(* Every call of the client (enqueue, drain, the destructor) comes to an end, by returning
   or by throwing, in every fair execution in which it did not begin with abort set and
   tasks still queued.  Tasks and callbacks may throw. *)
Theorem C22_calls_end_partial : forall w e lab,
  reachable tthrows cthrows w (e 0) -> (abort (e 0) = true -> tasks (e 0) = []) ->
  execution e lab -> fair e lab ->
  ~ (forall n, pc (e n) <> MIdle /\ pc (e n) <> MGone).
Proof.
  intros w e lab H U HE HF HB. apply (exec_false e lab HE HF); auto. eapply Inv_reachable; eauto.
Qed.

(* Otherwise neither drain nor the destructor ever ends, whatever the scheduler does. *)
Definition hung (s : tq) : Prop :=
  abort s = true /\ tasks s <> [] /\
  (pc s = MDestTop \/ pc s = MDrainTop false \/ pc s = MDrainRes false false \/ pc s = MWait false false).
Lemma hung_step l s s' : step l s s' -> hung s -> hung s'.
Proof.
  intros H (A & T & P). unfold hung. inv_step H; try (destruct P as [P|[P|[P|P]]]; congruence); auto.
  - repeat split; auto. right; right; left. destruct (tasks s); [congruence|]. cbn.
    destruct P as [P|[P|[P|P]]]; congruence.
  - repeat split; auto. destruct P as [P|[P|[P|P]]]; try congruence.
    assert (fin = false /\ d = false) as [-> ->] by (split; congruence). cbn. auto.
  - repeat split; auto. destruct P as [P|[P|[P|P]]]; try congruence.
    assert (fin = false /\ d = false) as [-> ->] by (split; congruence). auto.
  - rewrite A. repeat split; auto. destruct P as [P|[P|[P|P]]]; try congruence.
    assert (fin = false /\ d = false) as [-> ->] by (split; congruence). cbn. auto.
  - exfalso. rewrite A, orb_true_r in *. discriminate.
Qed.
Theorem C22_aborted_with_tasks_never_ends : forall s s',
  abort s = true -> tasks s <> [] -> (pc s = MDestTop \/ pc s = MDrainTop false) ->
  steps s s' -> pc s' <> MIdle /\ pc s' <> MGone.
Proof.
  intros s s' A T P H. assert (hung s) as Hs by (unfold hung; intuition). clear A T P.
  assert (hung s') as (_ & _ & P) by (induction H; auto; apply IHsteps; eapply hung_step; eauto).
  destruct P as [P|[P|[P|P]]]; rewrite P; split; discriminate.
Qed.
End Live.
Print Assumptions C22_calls_end_partial.
Print Assumptions C22_aborted_with_tasks_never_ends.

(* The state is reached with one worker and two tasks of which the first throws: drain()
   rethrows, and then the destructor runs forever. *)
Theorem C22_destructor_refuted :
  let tthrows t := t =? 0 in let cthrows (_ : nat) := false in
  exists s, reachable tthrows cthrows 1 s /\ pc s = MDestTop /\
    forall s', steps tthrows cthrows s s' -> pc s' <> MGone.
Proof.
  intros tthrows cthrows.
  assert (exists s, reachable tthrows cthrows 1 s /\ abort s = true /\ tasks s = [1] /\ pc s = MIdle) as (s & R & A & T & P).
  { eexists. split; [|split; [|split]].
    - unfold reachable, tq_new. cbn.
      eapply steps_cons; [eapply s_enq; try reflexivity; apply notify_none; simpl; intuition discriminate|]. cbn.
      eapply steps_cons; [eapply (s_take _ _ _ 0); cbn; try reflexivity; discriminate|]. cbn.
      eapply steps_cons; [eapply s_enq; try reflexivity; apply notify_none; simpl; intuition discriminate|]. cbn.
      eapply steps_cons; [apply s_enqres_none; cbn; auto|]. cbn.
      eapply steps_cons; [apply s_drain; reflexivity|]. cbn.
      eapply steps_cons; [eapply s_drain_top; [reflexivity|]; cbn; apply notify_none; simpl; intuition discriminate|]. cbn.
      eapply steps_cons; [eapply s_drain_res_wait; [reflexivity|cbn; discriminate]|]. cbn.
      eapply steps_cons; [eapply (s_run _ _ _ 0); reflexivity|]. cbn.
      eapply steps_cons; [eapply s_wait_pop; cbn; auto|]. cbn.
      eapply steps_cons; [eapply s_call_task_threw; reflexivity|]. cbn.
      apply steps_refl.
    - reflexivity.
    - reflexivity.
    - reflexivity. }
  set (s1 := Tq (tasks s) (results s) (ready s) (ws s) true (emptyf s) (abort s) (single s) MDestTop (next s) (ran s) (cbs s)).
  exists s1. split; [|split; [reflexivity|]].
  - assert (forall a b c l, steps tthrows cthrows a b -> step tthrows cthrows l b c -> steps tthrows cthrows a c) as K.
    { induction 1; intros; [eapply steps_cons; [eauto|apply steps_refl]|eapply steps_cons; eauto]. }
    eapply K; [exact R|]. apply s_destroy; auto.
  - intros s' H. eapply (C22_aborted_with_tasks_never_ends tthrows cthrows s1); eauto.
    cbn. rewrite T. discriminate.
Qed.
Print Assumptions C22_destructor_refuted.

(* Hypotheses of C22_calls_end_partial: the state in which drain has just been called with
   a throwing task queued is reachable and abort is not set. *)
Example C22_demo :
  let tthrows t := t =? 0 in let cthrows (_ : nat) := false in
  exists s, reachable tthrows cthrows 1 s /\ abort s = false /\ tasks s = [0] /\ pc s = MDrainTop false.
Proof.
  intros tthrows cthrows. eexists. split; [|split; [|split]].
  - unfold reachable, tq_new. cbn.
    eapply steps_cons; [eapply s_enq; try reflexivity; apply notify_none; simpl; intuition discriminate|]. cbn.
    eapply steps_cons; [apply s_drain; reflexivity|]. cbn. apply steps_refl.
  - reflexivity.
  - reflexivity.
  - reflexivity.
Qed.
(* C21: drain returns after both callbacks of two tasks. *)
Example C21_demo :
  let no (_ : nat) := false in
  exists s s', reachable no no 1 s /\ step no no (ByMain Returned) s s' /\ cbs s' = [0].
Proof.
  intros no. eexists _, _. split; [|split].
  - unfold reachable, tq_new. cbn.
    eapply steps_cons; [eapply s_enq; try reflexivity; apply notify_none; simpl; intuition discriminate|]. cbn.
    eapply steps_cons; [apply s_drain; reflexivity|]. cbn.
    eapply steps_cons; [eapply (s_take _ _ _ 0); cbn; try reflexivity; discriminate|]. cbn.
    eapply steps_cons; [eapply (s_run _ _ _ 0); reflexivity|]. cbn.
    eapply steps_cons; [eapply s_drain_top; [reflexivity|]; cbn; reflexivity|]. cbn.
    eapply steps_cons; [eapply s_drain_res_wait; [reflexivity|cbn; discriminate]|]. cbn.
    eapply steps_cons; [eapply s_wait_pop; cbn; auto|]. cbn.
    eapply steps_cons; [eapply s_call; reflexivity|]. cbn.
    eapply steps_cons; [eapply s_drain_top; [reflexivity|]; cbn; reflexivity|]. cbn.
    apply steps_refl.
  - eapply (s_drain_res_none _ _ _ true); reflexivity.
  - reflexivity.
Qed.
