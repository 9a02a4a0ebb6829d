(* C34 and C35: the handles and the load groups of the C interface. *)
From Coq Require Import List ZArith Bool Arith Lia.
From Verif Require Import Base MapSpec AvlModel AvlQueries LeModel LibopModel.
Import ListNotations.
Local Open Scope Z_scope.

(* ---- specification: isolated systems, each under its own handle ---- *)

Section Spec.
Context {S A : Type}.
Variable first : Z.
Definition handles (m : list (Z * S)) : list Z := map fst m.
Inductive sstep : list (Z * S) -> hop S A -> hres A -> list (Z * S) -> Prop :=
| s_create m s t : first <= t -> ~ In t (handles m) -> (forall u, first <= u < t -> In u (handles m)) ->
    sstep m (Create s) (RToken t) (m ++ [(t, s)])
| s_reset m1 t s m2 : sstep (m1 ++ (t, s) :: m2) (Reset t) RDone (m1 ++ m2)
| s_reset_bad m t : ~ In t (handles m) -> sstep m (Reset t) RError m
| s_call m1 t s m2 f : sstep (m1 ++ (t, s) :: m2) (Call t f) (RValue (snd (f s))) (m1 ++ (t, fst (f s)) :: m2)
| s_call_bad m t f : ~ In t (handles m) -> sstep m (Call t f) RError m.
Inductive srun : list (Z * S) -> list (hop S A) -> list (hres A) -> list (Z * S) -> Prop :=
| s_nil m : srun m [] [] m
| s_cons m o r m1 ops rs m2 : sstep m o r m1 -> srun m1 ops rs m2 -> srun m (o :: ops) (r :: rs) m2.

(* only the largest of the live handles, or one that is not live, is reset *)
Definition resets_newest (ops : list (hop S A)) : Prop :=
  forall pre t post rs m, ops = pre ++ Reset t :: post -> srun [] pre rs m ->
  In t (handles m) -> forall u, In u (handles m) -> u <= t.
End Spec.

(* ---- proofs ---- *)

Section Proofs.
Context {S A : Type}.
Variable first : Z.
Notation api := (api S).

Definition linked (h : list (option S)) (e : Z * nat) (d : Z * S) : Prop :=
  fst e = fst d /\ nth_error h (snd e) = Some (Some (snd d)).
Definition rel (st : api) (m : list (Z * S)) : Prop :=
  exists mp, abs Z.compare (reg st) mp /\ Forall2 (linked (heap st)) mp m /\
    NoDup (map snd mp) /\ NoDup (handles m) /\ (forall t, In t (handles m) -> first <= t).

Lemma linked_keys h mp m : Forall2 (linked h) mp m -> map fst mp = handles m.
Proof. induction 1 as [|e d mp m H F IH]; simpl; auto. destruct H. congruence. Qed.
Lemma same_spec (k k' : Z) : same Z.compare k k' = true <-> k = k'.
Proof. unfold same. destruct (Z.compare_spec k k'); split; congruence || lia. Qed.
Lemma has_keys {V} (mp : list (Z * V)) t : m_has Z.compare mp t = true <-> In t (map fst mp).
Proof.
  unfold m_has. rewrite existsb_exists, in_map_iff. split.
  - intros (e & I & E). exists e. apply same_spec in E. auto.
  - intros (e & E & I). exists e. split; auto. apply same_spec. auto.
Qed.
Lemma has_rel st m t : rel st m -> haskey Z.compare (reg st) t = Ok (if in_dec Z.eq_dec t (handles m) then true else false).
Proof.
  intros (mp & Ab & F & _). rewrite (haskey_abs _ Zcompare_total _ _ t Ab). f_equal.
  pose proof (has_keys mp t) as H. rewrite (linked_keys _ _ _ F) in H.
  destruct (in_dec Z.eq_dec t (handles m)); destruct (m_has Z.compare mp t); tauto || (exfalso; intuition congruence).
Qed.

Lemma next_wp st m : rel st m -> forall fuel t,
  first <= t -> (forall u, first <= u < t -> In u (handles m)) ->
  (length m < fuel + Z.to_nat (t - first))%nat ->
  exists t', next_token fuel (reg st) t = Ok t' /\ first <= t' /\ ~ In t' (handles m) /\
    (forall u, first <= u < t' -> In u (handles m)).
Proof.
  intros Re. induction fuel as [|fuel IH]; intros t L B N.
  - exfalso. simpl in N.
    assert (I : incl (map (fun i => first + Z.of_nat i) (seq 0 (Z.to_nat (t - first)))) (handles m)).
    { intros u Hu. apply in_map_iff in Hu. destruct Hu as (i & <- & Hi). apply in_seq in Hi. apply B. lia. }
    apply NoDup_incl_length in I.
    + rewrite map_length, seq_length in I. unfold handles in I. rewrite map_length in I. lia.
    + apply FinFun.Injective_map_NoDup; [|apply seq_NoDup]. intros a b E. lia.
  - cbn [next_token]. rewrite (has_rel _ _ _ Re). cbn [bind].
    destruct (in_dec Z.eq_dec t (handles m)) as [I|I].
    + apply IH; try lia. intros u Hu. destruct (Z.eq_dec u t); [congruence|apply B; lia].
    + exists t. auto.
Qed.

Lemma forall2_app_end h (mp : list (Z * nat)) (m : list (Z * S)) e d :
  Forall2 (linked h) mp m -> linked h e d -> Forall2 (linked h) (mp ++ [e]) (m ++ [d]).
Proof. intros. apply Forall2_app; auto. Qed.
Lemma linked_bound h mp m : Forall2 (linked h) mp m -> forall p, In p (map snd mp) -> (p < length h)%nat.
Proof.
  induction 1 as [|e d mp m (_ & H) F IH]; simpl; [tauto|]. intros p [<-|I]; auto.
  apply nth_error_Some. congruence.
Qed.
Lemma linked_grow h s mp m : Forall2 (linked h) mp m -> Forall2 (linked (h ++ [s])) mp m.
Proof.
  induction 1 as [|e d mp m (E & H) F IH]; constructor; auto. split; auto.
  rewrite nth_error_app1; auto. apply nth_error_Some. congruence.
Qed.
Lemma linked_upd h mp m p x : Forall2 (linked h) mp m -> ~ In p (map snd mp) -> Forall2 (linked (upd h p x)) mp m.
Proof.
  induction 1 as [|e d mp m (E & H) F IH]; intros N; constructor; simpl in N; try tauto.
  split; auto. rewrite nth_error_upd_ne; auto.
Qed.
Lemma linked_split h mp m t : Forall2 (linked h) mp m -> In t (handles m) ->
  exists p s mp1 mp2 m1 m2, mp = mp1 ++ (t, p) :: mp2 /\ m = m1 ++ (t, s) :: m2 /\
    Forall2 (linked h) mp1 m1 /\ Forall2 (linked h) mp2 m2 /\ nth_error h p = Some (Some s).
Proof.
  induction 1 as [|[k p] [k' s] mp m (E & H) F IH]; simpl; [tauto|]. simpl in E, H. subst k'. intros [->|I].
  - exists p, s, [], mp, [], m. auto.
  - destruct (IH I) as (p' & s' & mp1 & mp2 & m1 & m2 & -> & -> & F1 & F2 & Hp).
    exists p', s', ((k, p) :: mp1), mp2, ((k, s) :: m1), m2.
    repeat split; auto. constructor; auto. split; auto.
Qed.
Lemma find_split (mp1 mp2 : list (Z * nat)) t p : ~ In t (map fst mp1) ->
  m_find Z.compare (mp1 ++ (t, p) :: mp2) t = Some p.
Proof.
  unfold m_find. induction mp1 as [|e mp1 IH]; simpl; intros N.
  - unfold same. simpl. rewrite Z.compare_refl. reflexivity.
  - destruct (same Z.compare t (fst e)) eqn:E; [|apply IH; tauto].
    apply same_spec in E. destruct N. auto.
Qed.
Lemma remove_absent {V} (mp : list (Z * V)) t : ~ In t (map fst mp) -> m_remove Z.compare mp t = mp.
Proof.
  unfold m_remove. induction mp as [|e mp IH]; simpl; auto. intros N.
  destruct (same Z.compare t (fst e)) eqn:E; simpl.
  - apply same_spec in E. destruct N. auto.
  - f_equal. apply IH. tauto.
Qed.
Lemma remove_split (mp1 mp2 : list (Z * nat)) t p : NoDup (map fst (mp1 ++ (t, p) :: mp2)) ->
  m_remove Z.compare (mp1 ++ (t, p) :: mp2) t = mp1 ++ mp2.
Proof.
  intros N. rewrite map_app in N. simpl in N. apply NoDup_remove_2 in N. rewrite in_app_iff in N.
  unfold m_remove. rewrite filter_app. simpl. unfold same at 2. rewrite Z.compare_refl. simpl.
  f_equal; apply remove_absent; tauto.
Qed.

Lemma NoDup_app_end {B} (l : list B) x : NoDup l -> ~ In x l -> NoDup (l ++ [x]).
Proof.
  intros N I. rewrite <- (rev_involutive (l ++ [x])). apply NoDup_rev. rewrite rev_app_distr. simpl. constructor.
  - rewrite <- in_rev. exact I.
  - apply NoDup_rev. exact N.
Qed.

Lemma create_wp st m s : rel st m ->
  exists st' t, create first st s = Ok (st', t) /\ rel st' (m ++ [(t, s)]) /\
    first <= t /\ ~ In t (handles m) /\ (forall u, first <= u < t -> In u (handles m)).
Proof.
  intros Re. pose proof Re as (mp & Ab & F & Np & Nh & Lo). unfold create.
  destruct (next_wp st m Re (Datatypes.S (tree_length (reg st))) first) as (t & -> & T1 & T2 & T3); try lia.
  { rewrite (length_abs _ _ _ Ab). pose proof (f_equal (@length Z) (linked_keys _ _ _ F)) as E. unfold handles in E. rewrite !map_length in E. lia. }
  cbn [bind].
  destruct (add_abs _ Zcompare_total false _ _ t (length (heap st)) Ab) as (r & -> & Ab').
  cbn [bind]. do 2 eexists. split; [reflexivity|]. split; [|auto].
  assert (Em : m_has Z.compare mp t = false).
  { destruct (m_has Z.compare mp t) eqn:E; auto. apply has_keys in E. rewrite (linked_keys _ _ _ F) in E. tauto. }
  unfold m_add in Ab'. rewrite Em in Ab'. exists (mp ++ [(t, length (heap st))]). cbn [reg heap].
  split; [exact Ab'|]. split.
  { apply Forall2_app; [apply linked_grow; auto|]. constructor; [|constructor]. split; auto. simpl.
    rewrite nth_error_app2, Nat.sub_diag by lia. reflexivity. }
  unfold handles in *. rewrite !map_app. simpl. split.
  - apply NoDup_app_end; auto.
    intros I. apply (linked_bound _ _ _ F) in I. lia.
  - split; [apply NoDup_app_end; auto|]. intros u I. apply in_app_iff in I. destruct I as [I|[<-|[]]]; auto.
Qed.

Lemma read_ok (h : list (option S)) p s : nth_error h p = Some (Some s) -> read h p = Ok s.
Proof. intros E. unfold read. rewrite E. reflexivity. Qed.

Lemma reset_wp st m t : rel st m ->
  (In t (handles m) -> forall u, In u (handles m) -> u <= t) ->
  exists st' r m', hstep first st (@Reset S A t) = Ok (st', r) /\ rel st' m' /\ sstep first m (Reset t) r m'.
Proof.
  intros Re La. pose proof Re as (mp & Ab & F & Np & Nh & Lo). cbn [hstep]. unfold reset.
  rewrite (has_rel _ _ _ Re). cbn [bind].
  destruct (in_dec Z.eq_dec t (handles m)) as [I|I]; cbn [negb].
  2:{ cbn [bind]. exists st, RError, m. split; [reflexivity|]. split; [exact Re|]. constructor. exact I. }
  pose proof (linked_keys _ _ _ F) as KE.
  destruct (linked_split _ _ _ _ F I) as (p & s & mp1 & mp2 & m1 & m2 & -> & -> & F1 & F2 & Hp).
  pose proof Nh as Nh'. rewrite <- KE in Nh'.
  assert (Nt : ~ In t (map fst mp1)).
  { rewrite map_app in Nh'. simpl in Nh'. apply NoDup_remove_2 in Nh'. rewrite in_app_iff in Nh'. tauto. }
  rewrite (get_abs _ Zcompare_total _ _ t Ab), (find_split mp1 mp2 t p Nt). cbn [bind].
  rewrite (read_ok _ _ _ Hp). cbn [bind].
  destruct (remove_abs_noswap _ Zcompare_total _ _ t Ab) as (r & -> & Ab').
  { intros _ e Ie C. apply (in_map fst) in Ie. rewrite KE in Ie.
    specialize (La I _ Ie). rewrite Z.compare_lt_iff in C. lia. }
  cbn [bind]. do 3 eexists. split; [reflexivity|]. split; [|constructor].
  rewrite (remove_split mp1 mp2 t p Nh') in Ab'.
  pose proof Np as Np'. rewrite map_app in Np'. simpl in Np'.
  exists (mp1 ++ mp2). cbn [reg heap]. split; [exact Ab'|].
  split. { apply linked_upd; [apply Forall2_app; auto|]. apply NoDup_remove_2 in Np'. rewrite map_app. exact Np'. }
  split. { rewrite map_app. apply NoDup_remove_1 in Np'. exact Np'. }
  unfold handles in *. rewrite map_app in Nh, Lo. simpl in Nh, Lo. split.
  - rewrite map_app. apply NoDup_remove_1 in Nh. exact Nh.
  - intros u Hu. apply Lo. rewrite map_app, in_app_iff in Hu. rewrite in_app_iff. simpl. tauto.
Qed.

Lemma call_wp st m t (f : S -> S * A) : rel st m ->
  exists st' r m', hstep first st (Call t f) = Ok (st', r) /\ rel st' m' /\ sstep first m (Call t f) r m'.
Proof.
  intros Re. pose proof Re as (mp & Ab & F & Np & Nh & Lo). cbn [hstep]. unfold call.
  rewrite (has_rel _ _ _ Re). cbn [bind].
  destruct (in_dec Z.eq_dec t (handles m)) as [I|I]; cbn [negb].
  2:{ cbn [bind]. exists st, RError, m. split; [reflexivity|]. split; [exact Re|]. constructor. exact I. }
  pose proof (linked_keys _ _ _ F) as KE.
  destruct (linked_split _ _ _ _ F I) as (p & s & mp1 & mp2 & m1 & m2 & -> & -> & F1 & F2 & Hp).
  pose proof Nh as Nh'. rewrite <- KE in Nh'.
  assert (Nt : ~ In t (map fst mp1)).
  { rewrite map_app in Nh'. simpl in Nh'. apply NoDup_remove_2 in Nh'. rewrite in_app_iff in Nh'. tauto. }
  rewrite (get_abs _ Zcompare_total _ _ t Ab), (find_split mp1 mp2 t p Nt). cbn [bind].
  rewrite (read_ok _ _ _ Hp). cbn [bind]. destruct (f s) as [s' a] eqn:Ef. cbn [bind].
  exists (Api (reg st) (upd (heap st) p (Some s'))), (RValue a), (m1 ++ (t, s') :: m2).
  split; [reflexivity|]. split.
  2:{ replace s' with (fst (f s)) by (rewrite Ef; reflexivity). replace a with (snd (f s)) by (rewrite Ef; reflexivity). constructor. }
  pose proof Np as Np'. rewrite map_app in Np'. simpl in Np'. apply NoDup_remove_2 in Np'. rewrite in_app_iff in Np'.
  assert (HE : handles (m1 ++ (t, s') :: m2) = handles (m1 ++ (t, s) :: m2)) by (unfold handles; rewrite !map_app; reflexivity).
  exists (mp1 ++ (t, p) :: mp2). cbn [reg heap]. split; [exact Ab|]. split.
  - apply Forall2_app; [apply linked_upd; tauto|]. constructor; [|apply linked_upd; tauto].
    split; auto. simpl. apply nth_error_upd_eq. apply nth_error_Some. congruence.
  - rewrite HE. auto.
Qed.

Lemma run_wp (ops : list (hop S A)) : forall st m,
  rel st m ->
  (forall pre t post rs m', ops = pre ++ Reset t :: post -> srun first m pre rs m' ->
     In t (handles m') -> forall u, In u (handles m') -> u <= t) ->
  exists st' rs m', hrun first st ops = Ok (st', rs) /\ srun first m ops rs m' /\ rel st' m'.
Proof.
  induction ops as [|o ops IH]; intros st m Re G.
  - exists st, [], m. split; [reflexivity|]. split; [constructor|exact Re].
  - assert (ST : exists st' r m', hstep first st o = Ok (st', r) /\ rel st' m' /\ sstep first m o r m').
    { destruct o as [s|t|t f].
      - destruct (create_wp st m s Re) as (st' & t & E & Re' & T). exists st', (RToken t), (m ++ [(t, s)]).
        cbn [hstep]. rewrite E. cbn [bind]. split; [reflexivity|]. split; [exact Re'|]. constructor; tauto.
      - apply reset_wp; auto. apply (G [] t ops [] m); [reflexivity|constructor].
      - apply call_wp; auto. }
    destruct ST as (st1 & r & m1 & E & Re1 & St).
    destruct (IH st1 m1 Re1) as (st2 & rs & m2 & E2 & R2 & Re2).
    { intros pre t post rs m' -> R. apply (G (o :: pre) t post (r :: rs)); [reflexivity|]. econstructor; eauto. }
    exists st2, (r :: rs), m2. cbn [hrun]. rewrite E. cbn [bind]. rewrite E2. cbn [bind].
    split; [reflexivity|]. split; [econstructor; eauto|exact Re2].
Qed.
End Proofs.

(* Histories in which no handle but the largest live one is reset: nothing goes wrong, the
   answers are those of isolated systems, and the live handles are distinct and not below the
   first one. *)
Theorem C34_handles_isolate_partial :
  forall (S A : Type) (first : Z) (ops : list (hop S A)),
  resets_newest first ops ->
  exists st rs m, hrun first api_new ops = Ok (st, rs) /\ srun first [] ops rs m /\
    NoDup (handles m) /\ (forall t, In t (handles m) -> first <= t).
Proof.
  intros S A first ops G.
  destruct (run_wp first ops api_new []) as (st & rs & m & E & R & (mp & _ & _ & _ & N & L)).
  - exists []. split; [apply abs_new|]. split; [constructor|]. repeat split; try constructor. intros t [].
  - intros pre t post rs m E R. apply (G pre t post rs m E R).
  - exists st, rs, m. auto.
Qed.
(* A pavement handle is never the error value 0. *)
Corollary C34_create_not_error_partial :
  forall (S A : Type) (ops : list (hop S A)) (s : S),
  resets_newest 1 (ops ++ [Create s]) ->
  exists st rs t, hrun 1 api_new (ops ++ [Create s]) = Ok (st, rs ++ [RToken t]) /\ t <> 0.
Proof.
  intros S A ops s G. destruct (C34_handles_isolate_partial _ _ _ _ G) as (st & rs & m & E & R & _).
  assert (H : exists rs' t, rs = rs' ++ [RToken t] /\ t <> 0).
  { clear E G. revert R. generalize (@nil (Z * S)) as m0. revert rs. induction ops as [|o ops IH]; intros rs m0 R; simpl in R.
    - inversion R as [|? ? ? ? ? ? ? ST R']; subst. inversion R'; subst. inversion ST; subst.
      exists [], t. split; [reflexivity|lia].
    - inversion R as [|? ? ? ? ? ? ? ST R']; subst. destruct (IH _ _ R') as (rs' & t & -> & N). exists (r :: rs'), t. auto. }
  destruct H as (rs' & t & -> & N). exists st, rs', t. auto.
Qed.

(* Two live handles are enough for the claim to fail: after the first one is reset the second
   one reaches the system that was destroyed.  This does not depend on the systems. *)
Theorem C34_reset_refuted :
  forall (S A : Type) (s1 s2 : S) (f : S -> S * A),
  hrun 1 api_new [Create s1; Create s2; Reset 1; Call 2 f] = UB UseAfterFree /\
  hrun 1 api_new [@Create S A s1; Create s2; Reset 1; Reset 2] = UB UseAfterFree /\
  srun 1 [] [Create s1; Create s2; Reset 1; Call 2 f] [RToken 1; RToken 2; RDone; RValue (snd (f s2))] [(2, fst (f s2))] /\
  srun 1 [] [@Create S A s1; Create s2; Reset 1; Reset 2] [RToken 1; RToken 2; RDone; RDone] [].
Proof.
  intros S A s1 s2 f. split; [reflexivity|]. split; [reflexivity|].
  assert (C1 : sstep 1 [] (@Create S A s1) (RToken 1) [(1, s1)]).
  { apply (s_create 1 [] s1 1); simpl; try tauto; lia. }
  assert (C2 : sstep 1 [(1, s1)] (@Create S A s2) (RToken 2) [(1, s1); (2, s2)]).
  { apply (s_create 1 [(1, s1)] s2 2); simpl; lia. }
  assert (C3 : sstep 1 [(1, s1); (2, s2)] (@Reset S A 1) RDone [(2, s2)]).
  { apply (s_reset 1 [] 1 s1 [(2, s2)]). }
  split.
  - econstructor; [exact C1|]. econstructor; [exact C2|]. econstructor; [exact C3|].
    econstructor; [apply (s_call 1 [] 2 s2 [] f)|]. constructor.
  - econstructor; [exact C1|]. econstructor; [exact C2|]. econstructor; [exact C3|].
    econstructor; [apply (s_reset 1 [] 2 s2 [])|]. constructor.
Qed.
(* The handle that was reset is still accepted and reaches the other system. *)
Theorem C34_reset_handle_lives_refuted :
  forall (S A : Type) (s1 s2 : S) (f : S -> S * A),
  exists st, hrun 1 api_new [Create s1; Create s2; Reset 1; Call 1 f] =
    Ok (st, [RToken 1; RToken 2; RDone; RValue (snd (f s2))]).
Proof. intros S A s1 s2 f. cbn. destruct (f s2) as [s a]. eexists. reflexivity. Qed.
(* The first thermal handle is the error value. *)
Theorem C34_thermal_error_value_refuted :
  forall (S A : Type) (s : S),
  exists st, hrun 0 api_new [@Create S A s] = Ok (st, [RToken 0]).
Proof. intros. eexists. reflexivity. Qed.

Example C34_handles_isolate_ex :
  let put n := Call (A := Z) 2 (fun s => (s + n, s)) in
  let ops := [Create 10; Create 20; put 5; Create 30; Reset 3; put 7; Reset 9; Create 40; Call 3 (fun s => (s, s))] in
  (exists st, hrun 1 api_new ops = Ok (st, [RToken 1; RToken 2; RValue 20; RToken 3; RDone; RValue 25; RError; RToken 3; RValue 40])) /\
  resets_newest 1 [Create 10; @Create Z Z 20; Reset 2].
Proof.
  split; [eexists; vm_compute; reflexivity|].
  intros pre t post rs m E R I u Iu.
  destruct pre as [|a [|b [|c pre]]]; try discriminate; simpl in E.
  - injection E as <- <- <- <-.
    inversion R as [|? ? ? ? ? ? ? S1 R1]; subst. inversion R1 as [|? ? ? ? ? ? ? S2 R2]; subst. inversion R2; subst.
    inversion S1; subst. inversion S2; subst. unfold handles in *. simpl in *.
    assert (t = 1) by (destruct (Z.eq_dec t 1); auto; exfalso; apply (H3 1); lia). subst t.
    destruct (Z.lt_ge_cases 2 t0); [|lia]. destruct (H6 2); [lia|lia|tauto].
  - injection E as _ _ _ E. destruct pre; discriminate.
Qed.

(* ---- C35 ---- *)

Section Groups.
Context {D R : Type}.
Variable kern : restype -> option D -> list (Z * Z * Z) -> geo -> list (list ld) -> nat -> pt -> R.
Notation sys := (sys R).
(* no group is empty *)
Definition groups_full (l : list (list ld)) : Prop := forall g row, nth_error l g = Some row -> row <> [].
(* l' is l with the load x added at the end of group g; group g may be the next new one *)
Definition load_added (l l' : list (list ld)) (g : nat) (x : ld) : Prop :=
  (exists a row b, l = a ++ row :: b /\ length a = g /\ l' = a ++ (row ++ [x]) :: b) \/
  (length l = g /\ l' = l ++ [[x]]).

Lemma add_group_load_wp (st : sys) g x :
  match add_group_load st g x with
  | Ok (st', e) => e = false /\ load_added (lg st) (lg st') g x /\ cstate st' = CEmpty
  | Throw _ => False
  | UB _ => (length (lg st) < g)%nat
  end.
Proof.
  unfold add_group_load, addload. cbn [lg cached].
  destruct (Nat.ltb_spec g (length (lg st))) as [L|L].
  - destruct (nth_error (lg st) g) as [row|] eqn:E; [|apply nth_error_None in E; lia].
    unfold aget. rewrite E. cbn. split; [auto|]. split; [|destruct (cstate st); reflexivity]. left.
    apply nth_error_split in E. destruct E as (a & b & E & La). exists a, row, b.
    split; [exact E|]. split; [exact La|]. rewrite E. clear - La. revert g La.
    induction a as [|y a IH]; intros g La; simpl in La; subst g; simpl; auto. f_equal. apply IH. reflexivity.
  - destruct (Nat.eqb_spec g (length (lg st))) as [->|N]; cbn.
    + split; [auto|]. split; [|destruct (cstate st); reflexivity]. right. auto.
    + lia.
Qed.
Lemma upd_app {B} (a : list B) y z b : upd (a ++ y :: b) (length a) z = a ++ z :: b.
Proof. induction a as [|x a IH]; simpl; auto. f_equal. exact IH. Qed.
Lemma nth_app {B} (a : list B) y b : nth_error (a ++ y :: b) (length a) = Some y.
Proof. induction a as [|x a IH]; simpl; auto. Qed.
Lemma firstn_here {B} (a : list B) b : firstn (length a) (a ++ b) = a.
Proof. induction a as [|x a IH]; simpl; [destruct b; auto|]. f_equal. exact IH. Qed.
Lemma skipn_here {B} (a : list B) y b : skipn (Datatypes.S (length a)) (a ++ y :: b) = b.
Proof. induction a as [|x a IH]; simpl; auto. Qed.

(* removing load c of group a, both counted from one *)
Lemma remove_group_load_wp (st : sys) a r1 x r2 b :
  lg st = a ++ (r1 ++ x :: r2) :: b ->
  exists st', remove_group_load st (Datatypes.S (length a)) (Datatypes.S (length r1)) = Ok (st', false) /\
    lg st' = (if (length (r1 ++ r2) =? 0)%nat then a ++ b else a ++ (r1 ++ r2) :: b) /\
    layers st' = layers st /\ points st' = points st.
Proof.
  intros E. unfold remove_group_load. rewrite E.
  destruct (Nat.ltb_spec (length (a ++ (r1 ++ x :: r2) :: b)) (Datatypes.S (length a))) as [L|L].
  { rewrite app_length in L. simpl in L. lia. }
  cbn [Nat.eqb orb]. replace (Datatypes.S (length a) - 1)%nat with (length a) by lia.
  unfold aget. rewrite nth_app. cbn [bind].
  destruct (Nat.ltb_spec (length (r1 ++ x :: r2)) (Datatypes.S (length r1))) as [L'|L'].
  { rewrite app_length in L'. simpl in L'. lia. }
  cbn [Nat.eqb orb]. replace (Datatypes.S (length r1) - 1)%nat with (length r1) by lia.
  unfold caught, removeload. cbn [lg cached]. rewrite E, nth_app.
  destruct (Nat.ltb_spec (length r1) (length (r1 ++ x :: r2))) as [Q|Q]; [|lia].
  rewrite firstn_here, skipn_here, upd_app.
  destruct (length (r1 ++ r2) =? 0)%nat; cbn [bind set_lg lg].
  - rewrite firstn_here, skipn_here. eexists. split; [reflexivity|]. auto.
  - eexists. split; [reflexivity|]. auto.
Qed.
Lemma fill_groups_nth (f : nat -> pt -> R) (d : list (list (pt * option R))) : forall k g,
  nth_error (fill_groups f k d) g = option_map (map (fun x => (fst x, Some (f (k + g)%nat (fst x))))) (nth_error d g).
Proof.
  induction d as [|row d IH]; intros k [|g]; simpl; auto.
  - rewrite Nat.add_0_r. reflexivity.
  - rewrite IH. rewrite Nat.add_succ_r. reflexivity.
Qed.
Lemma calculate_data (st st' : sys) res q : cstate st = CEmpty -> calculate kern st res q = Ok (st', true) ->
  lg st' = lg st /\ cstate st' = CAll /\
  data st' = fill_groups (kern res q (moduli (layers st')) (mkgeo st') (lg st')) 0
               (map (fun _ => map (fun p => (p, None)) (points st')) (lg st)).
Proof.
  intros C H. unfold calculate in H. rewrite C in H. cbn [cempty negb andb] in H.
  rewrite !andb_false_r in H. cbn [andb] in H.
  destruct (check (set_cres (cache_free st) None)) as [st1 ok] eqn:Ck. unfold check in Ck.
  cbn [set_cres cache_free cstate LeModel.call cempty negb orb layers points lg] in Ck.
  destruct (negb (length (layers st) =? 0)%nat && negb (length (lg st) =? 0)%nat &&
    forallb (fun row => negb (length row =? 0)%nat) (lg st) && negb (length (points st) =? 0)%nat &&
    layers_ok true (layers st) && last_ok (layers st)) eqn:Eok.
  2:{ cbn [negb orb] in Ck. injection Ck as <- <-. discriminate H. }
  destruct (length (layers st) =? 0)%nat eqn:El; [discriminate Eok|].
  cbn [negb orb] in Ck. injection Ck as <- Ok2.
  destruct ok; [|discriminate H]. cbn [negb set_data set_points cempty cstate bind] in H. injection H as <-.
  cbn [lg cstate data layers points]. auto.
Qed.
End Groups.

(* The claim with one number fails.  A number that adds to the second group removes from the
   first one: *)
Theorem C35_same_number_refuted :
  exists (st st1 st2 : sys Z) (x : ld),
    groups_full (lg st) /\
    add_group_load st 1 x = Ok (st1, false) /\ remove_group_load st1 1 1 = Ok (st2, false) /\
    lg st = [[Ld 0 0 5 1]; [Ld 1 0 6 1]] /\ lg st1 = [[Ld 0 0 5 1]; [Ld 1 0 6 1; x]] /\
    lg st2 = [[Ld 1 0 6 1; x]].
Proof.
  exists (Sys [] [] [[Ld 0 0 5 1]; [Ld 1 0 6 1]] 0 [] CEmpty None None). do 2 eexists. exists (Ld 2 0 7 1).
  split. { intros [|[|[|g]]] row H; simpl in H; try discriminate; injection H as <-; discriminate. }
  vm_compute. repeat split.
Qed.
(* a load added to group 0 cannot be removed by that number: *)
Theorem C35_group_zero_refuted :
  forall (R : Type) (st : sys R) (l : nat), remove_group_load st 0 l = Ok (st, true) /\ remove_group st 0 = Ok (st, true).
Proof. intros. split; reflexivity. Qed.
(* and a first load added to group 1, as removing it would want, reads an unset group: *)
Theorem C35_group_one_refuted :
  forall (R : Type) (x : ld), add_group_load (@snew R) 1 x = UB Uninit.
Proof. reflexivity. Qed.
(* The results are numbered as the additions are, and the number is not checked. *)
Theorem C35_result_number_refuted :
  forall (D R : Type) (kern : restype -> option D -> list (Z * Z * Z) -> geo -> list (list ld) -> nat -> pt -> R)
    (st st' : sys R) res q (i : nat),
  cstate st = CEmpty -> calculate kern st res q = Ok (st', true) ->
  group_result st' (length (lg st)) i = UB OutOfBounds.
Proof.
  intros D R kern st st' res q i C H. destruct (calculate_data kern st st' res q C H) as (Lg & Cs & Da).
  unfold group_result, result. rewrite Cs. cbn [LeModel.call negb]. rewrite Da.
  unfold aget. rewrite fill_groups_nth, nth_error_map.
  rewrite (proj2 (nth_error_None (lg st) (length (lg st)))) by lia. reflexivity.
Qed.

(* What holds: a load added with number g is the last one of the group that removing calls
   g + 1, and removing it there gives the loads back. *)
Theorem C35_remove_after_add_partial :
  forall (R : Type) (st : sys R) (g : nat) (x : ld),
  groups_full (lg st) -> (g <= length (lg st))%nat ->
  exists st1 st2, add_group_load st g x = Ok (st1, false) /\ load_added (lg st) (lg st1) g x /\
    remove_group_load st1 (g + 1) (length (nth g (lg st) []) + 1) = Ok (st2, false) /\
    lg st2 = lg st /\ layers st2 = layers st1 /\ points st2 = points st1.
Proof.
  intros R st g x Fu L. pose proof (add_group_load_wp st g x) as W.
  destruct (add_group_load st g x) as [[st1 e]|e|f]; [|contradiction|lia].
  destruct W as (-> & Ad & _). exists st1. rewrite !Nat.add_1_r.
  destruct Ad as [(a & row & b & E & La & E')|(La & E')].
  - destruct (remove_group_load_wp st1 a row x [] b E') as (st2 & Q & Lg & P).
    exists st2. split; [reflexivity|]. split; [left; exists a, row, b; auto|].
    rewrite E. rewrite app_nth2, <- La, Nat.sub_diag by lia. simpl nth. split; [exact Q|].
    rewrite app_nil_r in Lg. destruct (Nat.eqb_spec (length row) 0) as [Z0|_]; [|auto].
    exfalso. apply (Fu g row); [rewrite E, <- La; apply nth_app|]. destruct row; [auto|discriminate].
  - destruct (remove_group_load_wp st1 (lg st) [] x [] [] E') as (st2 & Q & Lg & P).
    exists st2. split; [reflexivity|]. split; [right; auto|].
    rewrite nth_overflow by lia. rewrite <- La. split; [exact Q|]. simpl in Lg. rewrite app_nil_r in Lg. auto.
Qed.
(* the results of group g after a calculation are those of the group the load was added to *)
Theorem C35_result_after_add_partial :
  forall (D R : Type) (kern : restype -> option D -> list (Z * Z * Z) -> geo -> list (list ld) -> nat -> pt -> R)
    (st st1 st2 : sys R) (g i : nat) (x : ld) (p : pt) e res q,
  add_group_load st g x = Ok (st1, e) -> calculate kern st1 res q = Ok (st2, true) ->
  nth_error (points st2) i = Some p ->
  exists row, nth_error (lg st2) g = Some (row ++ [x]) /\
    group_result st2 g i = Ok (Some (p, kern res q (moduli (layers st2)) (mkgeo st2) (lg st2) g p)).
Proof.
  intros D R kern st st1 st2 g i x p e res q Ha H Np. pose proof (add_group_load_wp st g x) as W.
  rewrite Ha in W. destruct W as (-> & Ad & C).
  assert (Rw : exists row, nth_error (lg st1) g = Some (row ++ [x])).
  { destruct Ad as [(a & row & b & E & La & E')|(La & E')]; rewrite E', <- La.
    - exists row. apply nth_app.
    - exists []. apply nth_app. }
  destruct Rw as (row & Rw). exists row.
  destruct (calculate_data kern st1 st2 res q C H) as (Lg & Cs & Da).
  rewrite Lg at 1. split; [exact Rw|].
  unfold group_result, result. rewrite Cs. cbn [LeModel.call negb]. rewrite Da.
  unfold aget. rewrite fill_groups_nth, nth_error_map, Rw. cbn [option_map bind].
  rewrite nth_error_map, nth_error_map, Np. reflexivity.
Qed.
(* Every history of group calls keeps the groups full, so the hypothesis above holds. *)
Inductive gop : Type := GAdd (g : nat) (x : ld) | GRemove (g l : nat) | GRemoveGroup (g : nat).
Definition gstep {R} (st : sys R) (o : gop) : outcome (sys R * bool) :=
  match o with
  | GAdd g x => add_group_load st g x
  | GRemove g l => remove_group_load st g l
  | GRemoveGroup g => remove_group st g
  end.
Inductive greach {R} : sys R -> Prop :=
| g_new : greach snew
| g_next st o st' e : greach st -> gstep st o = Ok (st', e) -> greach st'.
Lemma full_drop (a b : list (list ld)) row : groups_full (a ++ row :: b) -> groups_full (a ++ b).
Proof.
  intros F g r H. apply nth_error_In in H. apply in_app_iff in H.
  assert (I : In r (a ++ row :: b)) by (apply in_app_iff; simpl; tauto).
  apply In_nth_error in I. destruct I as (n & I). exact (F n r I).
Qed.
Lemma full_put (a b : list (list ld)) row row' : groups_full (a ++ row :: b) -> row' <> [] -> groups_full (a ++ row' :: b).
Proof.
  intros F N g r H. apply nth_error_In in H. apply in_app_iff in H. destruct H as [H|[<-|H]]; auto;
  assert (I : In r (a ++ row :: b)) by (apply in_app_iff; simpl; tauto);
  apply In_nth_error in I; destruct I as (n & I); exact (F n r I).
Qed.
Theorem C35_groups_full :
  forall (R : Type) (st : sys R), greach st -> groups_full (lg st).
Proof.
  induction 1 as [|st o st' e G IH E].
  - intros [|g] row H; discriminate.
  - destruct o as [g x|g l|g]; cbn [gstep] in E.
    + pose proof (add_group_load_wp st g x) as W. rewrite E in W. destruct W as (_ & [(a & row & b & Q & La & Q')|(La & Q')] & _).
      * rewrite Q' . rewrite Q in IH. apply (full_put _ _ row); auto. destruct row; discriminate.
      * rewrite Q'. intros k row H. apply nth_error_In in H. apply in_app_iff in H. destruct H as [H|[<-|[]]]; [|discriminate].
        apply In_nth_error in H. destruct H as (n & H). exact (IH n row H).
    + destruct (Nat.eqb_spec g 0) as [->|N0]; [injection E as <- _; exact IH|].
      unfold remove_group_load in E. destruct (Nat.eqb_spec g 0); [lia|].
      destruct (Nat.ltb_spec (length (lg st)) g) as [Hg|Hg]; cbn [orb] in E; [injection E as <- _; exact IH|].
      unfold aget in E. destruct (nth_error (lg st) (g - 1)) as [row|] eqn:Er; [|discriminate E]. cbn [bind] in E.
      destruct (Nat.eqb_spec l 0); cbn [orb] in E; [injection E as <- _; exact IH|].
      destruct (Nat.ltb_spec (length row) l) as [Hl|Hl]; [injection E as <- _; exact IH|].
      apply nth_error_split in Er. destruct Er as (a & b & Q & La).
      assert (Rs : exists r1 y r2, row = r1 ++ y :: r2 /\ length r1 = (l - 1)%nat).
      { destruct (nth_error row (l - 1)) as [y|] eqn:Ey; [|apply nth_error_None in Ey; lia].
        apply nth_error_split in Ey. destruct Ey as (r1 & r2 & -> & L1). exists r1, y, r2. auto. }
      destruct Rs as (r1 & y & r2 & -> & L1).
      destruct (remove_group_load_wp st a r1 y r2 b Q) as (st2 & Q2 & Lg & _).
      unfold remove_group_load in Q2. rewrite La, L1 in Q2.
      replace (Datatypes.S (g - 1)) with g in Q2 by lia. replace (Datatypes.S (l - 1)) with l in Q2 by lia.
      destruct (Nat.eqb_spec g 0); [lia|]. destruct (Nat.ltb_spec (length (lg st)) g); [lia|]. cbn [orb] in Q2.
      unfold aget in Q2. rewrite Q, <- La, nth_app in Q2. cbn [bind] in Q2.
      destruct (Nat.eqb_spec l 0); [lia|]. destruct (Nat.ltb_spec (length (r1 ++ y :: r2)) l); [lia|]. cbn [orb] in Q2.
      rewrite La in Q2. rewrite Q2 in E. injection E as <- _. rewrite Lg, Q in *.
      destruct (Nat.eqb_spec (length (r1 ++ r2)) 0) as [Z0|Z0].
      * apply (full_drop _ _ _ IH).
      * apply (full_put _ _ _ _ IH). destruct (r1 ++ r2); [simpl in Z0; lia|discriminate].
    + unfold remove_group in E. destruct (Nat.eqb_spec g 0); cbn [orb] in E; [injection E as <- _; exact IH|].
      destruct (Nat.ltb_spec (length (lg st)) g) as [Hg|Hg]; [injection E as <- _; exact IH|].
      unfold caught, removeloads in E. cbn [lg cached bind clg] in E.
      destruct ((length (lg st) =? 0)%nat && (g - 1 =? clg st)%nat); [injection E as <- _; exact IH|].
      destruct (Nat.ltb_spec (g - 1) (length (lg st))) as [L|L]; injection E as <- _; [|exact IH].
      cbn [lg set_lg]. destruct (nth_error (lg st) (g - 1)) as [row|] eqn:Er; [|apply nth_error_None in Er; lia].
      apply nth_error_split in Er. destruct Er as (a & b & Q & La). rewrite Q in *. rewrite <- La, firstn_here.
      change (groups_full (a ++ skipn (Datatypes.S (length a)) (a ++ row :: b))). rewrite skipn_here.
      apply (full_drop _ _ _ IH).
Qed.
(* Removing all groups leaves none, from every state. *)
Theorem C35_remove_all :
  forall (R : Type) (st : sys R),
  exists st', remove_all_groups st = Ok (st', false) /\ lg st' = [] /\ layers st' = layers st /\ points st' = points st.
Proof.
  intros R st. unfold remove_all_groups.
  assert (H : forall fuel (st : sys R), (length (lg st) < fuel)%nat -> exists st', remove_groups_loop fuel st = Ok (st', false) /\
    lg st' = [] /\ layers st' = layers st /\ points st' = points st).
  { induction fuel as [|fuel IH]; intros st0 L; [lia|]. cbn [remove_groups_loop].
    destruct (lg st0) as [|row rest] eqn:E.
    - exists st0. simpl. auto.
    - cbn [length Nat.eqb]. unfold removeloads. cbn [lg cached clg]. rewrite E. cbn [length Nat.eqb andb Nat.ltb Nat.leb firstn skipn app caught bind].
      edestruct IH as (st' & Q & A & B & C); [|exists st'; split; [exact Q|]; auto].
      cbn [lg set_lg]. simpl in L. lia. }
  apply H. lia.
Qed.
Example C35_ex :
  exists st : sys Z, greach st /\ lg st = [[Ld 0 0 5 1]; [Ld 1 0 6 1]] /\
    add_group_load st 1 (Ld 2 0 7 1) <> UB Uninit.
Proof.
  eexists. split.
  - eapply (g_next _ (GAdd 1 (Ld 1 0 6 1))); [eapply (g_next _ (GAdd 0 (Ld 0 0 5 1))); [constructor|reflexivity]|reflexivity].
  - split; [reflexivity|]. vm_compute. discriminate.
Qed.

Print Assumptions C34_handles_isolate_partial.
Print Assumptions C34_create_not_error_partial.
Print Assumptions C34_reset_refuted.
Print Assumptions C34_reset_handle_lives_refuted.
Print Assumptions C34_thermal_error_value_refuted.
Print Assumptions C35_same_number_refuted.
Print Assumptions C35_group_zero_refuted.
Print Assumptions C35_group_one_refuted.
Print Assumptions C35_result_number_refuted.
Print Assumptions C35_remove_after_add_partial.
Print Assumptions C35_result_after_add_partial.
Print Assumptions C35_groups_full.
Print Assumptions C35_remove_all.
