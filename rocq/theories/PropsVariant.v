(* C26 and C27: variants and the tracking of reads and writes. *)
From Coq Require Import ZArith List Bool Arith Lia.
From Verif Require Import Base VariantModel.
Import ListNotations.
Local Open Scope nat_scope.

(* ================= C26 ================= *)
Section C26.
Variable val : Type.
Variable tag : nat -> Z.
Variables setable castable : nat -> nat -> bool.
Variable conv : nat -> nat -> val -> val.
Variable triv : nat -> bool.
Variable Ts : list nat.

(* ---- histories: any number of variants ---- *)
Inductive vop : Type := ONew (U : nat) (u : val) | OCopy (j : nat) | OSet (i U : nat) (u : val) | OAssign (i j : nat).
Definition vstep (w : list (variant val)) (o : vop) : outcome (list (variant val)) :=
  match o with
  | ONew U u => let* v := v_new val tag setable conv Ts U u in Ok (w ++ [v])
  | OCopy j => let* x := aget w j in let* v := v_copy val tag triv Ts x in Ok (w ++ [v])
  | OSet i U u => let* x := aget w i in let* v := v_set val tag setable conv triv Ts x U u in aset w i v
  | OAssign i j => let* x := aget w i in let* y := aget w j in let* v := v_assign val tag triv Ts x y in aset w i v
  end.
(* an exception leaves the variants as they are *)
Fixpoint vrun (w : list (variant val)) (l : list vop) : outcome (list (variant val)) :=
  match l with
  | [] => Ok w
  | o :: l => match vstep w o with
              | Ok w => vrun w l
              | Throw _ => vrun w l
              | UB e => UB e
              end
  end.

(* ---- specification: each variable has a type and a value ---- *)
Definition plain : Prop :=
  (forall U T, In T Ts -> setable U T = (U =? T) /\ castable U T = (U =? T)) /\
  (forall T x, conv T T x = x).
Definition tags_differ : Prop := forall T T', In T Ts -> In T' Ts -> tag T = tag T' -> T = T'.
Definition sstep (w : list (nat * val)) (o : vop) : list (nat * val) :=
  match o with
  | ONew U u => if existsb (Nat.eqb U) Ts then w ++ [(U, u)] else w
  | OCopy j => match nth_error w j with Some x => w ++ [x] | None => w end
  | OSet i U u => match nth_error w i with
                  | Some (T, _) => if T =? U then upd w i (U, u) else w
                  | None => w
                  end
  | OAssign i j => match nth_error w i, nth_error w j with
                   | Some (T, _), Some (T', x) => if T =? T' then upd w i (T', x) else w
                   | _, _ => w
                   end
  end.
(* the variables named exist *)
Definition vok (n : nat) (o : vop) : Prop :=
  match o with
  | ONew _ _ => True
  | OCopy j => j < n
  | OSet i _ _ => i < n
  | OAssign i j => i < n /\ j < n
  end.
Fixpoint voks (w : list (nat * val)) (l : list vop) : Prop :=
  match l with
  | [] => True
  | o :: l => vok (length w) o /\ voks (sstep w o) l
  end.

Definition R (v : variant val) (x : nat * val) : Prop :=
  In (fst x) Ts /\ vk val v = tag (fst x) /\ vs val v = Some x.

Hypothesis TD : tags_differ.
Hypothesis TR : forall T, In T Ts -> triv T = true.

Lemma pick_tag T : In T Ts -> pick Ts (fun T' => (tag T =? tag T')%Z) = Some T.
Proof.
  unfold pick. intros I. destruct (find (fun T' => (tag T =? tag T')%Z) Ts) as [T'|] eqn:E.
  - apply find_some in E. destruct E as [I' E]. apply Z.eqb_eq in E. f_equal. symmetry. apply TD; auto.
  - exfalso. apply find_none with (x := T) in E; auto. rewrite Z.eqb_refl in E. discriminate.
Qed.
Lemma R_get v T x U : R v (T, x) ->
  v_get val tag castable conv Ts v U =
  match pick Ts (castable U) with
  | Some T' => if T' =? T then Ok (conv T U x) else Throw RuntimeError
  | None => Throw RuntimeError
  end.
Proof.
  intros (I & K & S). unfold v_get. destruct (pick Ts (castable U)) as [T'|] eqn:P; auto.
  pose proof P as P'. apply find_some in P'. destruct P' as [I' _]. cbn [fst] in *.
  rewrite K, S. unfold read_t. destruct (Nat.eqb_spec T' T) as [->|N].
  - rewrite Z.eqb_refl, Nat.eqb_refl. reflexivity.
  - destruct (Z.eqb_spec (tag T) (tag T')) as [E|E]; auto. exfalso. apply N. symmetry. apply TD; auto.
Qed.
Lemma write_triv c T x : In T Ts -> write val triv c T x = Ok (Some (T, x)).
Proof. intros I. unfold write. rewrite TR by auto. reflexivity. Qed.
Lemma set_store_R c T x : In T Ts -> v_set_store val tag triv Ts c (tag T) (Some (T, x)) = Ok (Some (T, x)).
Proof.
  intros I. unfold v_set_store. rewrite pick_tag by auto. unfold read_t. rewrite Nat.eqb_refl. cbn.
  apply write_triv; auto.
Qed.

(* In general a read succeeds exactly when the type stored is the first one of the template
   parameters that can be cast to the type asked for; nothing is undefined. *)
Definition gstep (w : list (nat * val)) (o : vop) : list (nat * val) :=
  match o with
  | ONew U u => match pick Ts (setable U) with Some T => w ++ [(T, conv U T u)] | None => w end
  | OSet i U u => match nth_error w i, pick Ts (setable U) with
                  | Some (T, _), Some T' => if T =? T' then upd w i (T', conv U T' u) else w
                  | _, _ => w
                  end
  | _ => sstep w o
  end.
Lemma Forall2_length {A B} (P : A -> B -> Prop) l m : Forall2 P l m -> length l = length m.
Proof. induction 1; simpl; auto. Qed.
Lemma Forall2_nth {A B} (P : A -> B -> Prop) l m i a : Forall2 P l m -> nth_error l i = Some a -> exists b, nth_error m i = Some b /\ P a b.
Proof. intros F. revert i. induction F; intros [|i] E; try discriminate; simpl in *; eauto. injection E as <-. eauto. Qed.
Lemma Forall2_nth_r {A B} (P : A -> B -> Prop) l m i b : Forall2 P l m -> nth_error m i = Some b -> exists a, nth_error l i = Some a /\ P a b.
Proof. intros F. revert i. induction F; intros [|i] E; try discriminate; simpl in *; eauto. injection E as <-. eauto. Qed.
Lemma Forall2_upd {A B} (P : A -> B -> Prop) l m i a b : Forall2 P l m -> P a b -> Forall2 P (upd l i a) (upd m i b).
Proof. intros F. revert i. induction F; intros [|i] E; simpl; constructor; auto. Qed.

Lemma step_R w sp o : Forall2 R w sp -> vok (length sp) o ->
  (exists w', vstep w o = Ok w' /\ Forall2 R w' (gstep sp o)) \/
  (exists e, vstep w o = Throw e /\ gstep sp o = sp).
Proof.
  intros F V. destruct o as [U u|j|i U u|i j]; cbn [vstep gstep sstep vok] in *.
  - unfold v_new. destruct (pick Ts (setable U)) as [T|] eqn:P; [|right; cbn; eauto].
    left. cbn [bind]. eexists; split; [reflexivity|]. apply Forall2_app; auto. constructor; auto.
    apply find_some in P. unfold R; cbn [fst vk vs]. split; [apply P|auto].
  - destruct (nth_error sp j) as [[T x]|] eqn:E; [|apply nth_error_None in E; lia].
    destruct (Forall2_nth_r _ _ _ _ _ F E) as (v & Ev & Rv). unfold aget. rewrite Ev. cbn.
    pose proof Rv as (I & K & S). cbn [fst] in *. left. unfold v_copy. rewrite K, S, set_store_R by auto. cbn.
    eexists; split; eauto. apply Forall2_app; auto. constructor; auto. unfold R; auto.
  - destruct (nth_error sp i) as [[T x]|] eqn:E; [|apply nth_error_None in E; lia].
    destruct (Forall2_nth_r _ _ _ _ _ F E) as (v & Ev & Rv). unfold aget. rewrite Ev. cbn [bind].
    pose proof Rv as (I & K & S). cbn [fst] in *. unfold v_set.
    destruct (pick Ts (setable U)) as [T'|] eqn:P; [|right; cbn; eauto].
    pose proof P as P'. apply find_some in P'. destruct P' as [I' _]. rewrite K, S.
    destruct (Nat.eqb_spec T T') as [<-|N].
    + rewrite Z.eqb_refl, write_triv by auto. cbn. unfold aset.
      apply nth_error_lt in Ev. apply Nat.ltb_lt in Ev. rewrite Ev. left. eexists; split; eauto.
      apply Forall2_upd; auto. unfold R; auto.
    + destruct (Z.eqb_spec (tag T) (tag T')) as [X|X]; [destruct N; auto|]. right; cbn; eauto.
  - destruct V as [V1 V2]. destruct (nth_error sp i) as [[T x]|] eqn:E; [|apply nth_error_None in E; lia].
    destruct (nth_error sp j) as [[T' x']|] eqn:E'; [|apply nth_error_None in E'; lia].
    destruct (Forall2_nth_r _ _ _ _ _ F E) as (v & Ev & I & K & S). destruct (Forall2_nth_r _ _ _ _ _ F E') as (v' & Ev' & I' & K' & S').
    unfold aget. rewrite Ev, Ev'. cbn [bind fst] in *. unfold v_assign. rewrite K, K', S, S'.
    destruct (Nat.eqb_spec T T') as [<-|N].
    + rewrite Z.eqb_refl, set_store_R by auto. cbn. unfold aset.
      apply nth_error_lt in Ev. apply Nat.ltb_lt in Ev. rewrite Ev. left. eexists; split; eauto.
      apply Forall2_upd; auto. unfold R; auto.
    + destruct (Z.eqb_spec (tag T) (tag T')) as [X|X]; [destruct N; auto|]. right; cbn; eauto.
Qed.
Fixpoint goks (w : list (nat * val)) (l : list vop) : Prop :=
  match l with
  | [] => True
  | o :: l => vok (length w) o /\ goks (gstep w o) l
  end.
Lemma run_R l w sp : Forall2 R w sp -> goks sp l -> exists w', vrun w l = Ok w' /\ Forall2 R w' (fold_left gstep l sp).
Proof.
  revert w sp. induction l as [|o l IH]; intros w sp F V; simpl; eauto. destruct V as [V1 V2].
  destruct (step_R w sp o F V1) as [(w' & E & F')|(e & E & E')]; rewrite E; auto.
  rewrite E' in *. apply IH; auto.
Qed.

(* All histories; types related by inheritance or casts: the type a value is stored as is
   the first setable one, and it can be read as U exactly when it is the first one castable
   to U. *)
Theorem C26_general : forall l, goks [] l ->
  exists w, vrun [] l = Ok w /\ length w = length (fold_left gstep l []) /\
  forall i v U, nth_error w i = Some v ->
    exists T x, nth_error (fold_left gstep l []) i = Some (T, x) /\
      v_get val tag castable conv Ts v U =
        match find (castable U) Ts with
        | Some T' => if T' =? T then Ok (conv T U x) else Throw RuntimeError
        | None => Throw RuntimeError
        end.
Proof.
  intros l V. destruct (run_R l [] [] (Forall2_nil _) V) as (w & E & F). exists w. split; auto.
  split; [eapply Forall2_length; eauto|]. intros i v U N.
  destruct (Forall2_nth _ _ _ _ _ F N) as ([T x] & E' & Rv). exists T, x. split; auto. apply R_get; auto.
Qed.

Hypothesis PL : plain.
Lemma find_plain (p : nat -> nat -> bool) U : (forall T, In T Ts -> p U T = (U =? T)) ->
  find (p U) Ts = if existsb (Nat.eqb U) Ts then Some U else None.
Proof.
  intros H. revert H. clear. induction Ts as [|T l IH]; intros H; simpl; auto.
  rewrite H by (left; auto). destruct (Nat.eqb_spec U T) as [->|N]; cbn; auto. apply IH. intros; apply H; right; auto.
Qed.
Definition inTs (w : list (nat * val)) : Prop := forall i T x, nth_error w i = Some (T, x) -> In T Ts.
Lemma gstep_plain w o : inTs w -> gstep w o = sstep w o /\ inTs (sstep w o).
Proof.
  intros I. destruct PL as [P1 P2].
  assert (forall U, existsb (Nat.eqb U) Ts = true <-> In U Ts) as X.
  { intros U. rewrite existsb_exists. split; [intros (T & J & E); apply Nat.eqb_eq in E; congruence|].
    intros J. exists U. rewrite Nat.eqb_refl. auto. }
  assert (forall (l : list (nat * val)) y, inTs l -> In (fst y) Ts -> inTs (l ++ [y])) as Aapp.
  { intros l [T0 x0] Il J i T x E. destruct (Nat.lt_ge_cases i (length l)).
    - rewrite nth_error_app1 in E by auto. eauto.
    - rewrite nth_error_app2 in E by auto. destruct (i - length l) as [|[|?]]; simpl in E; try discriminate. injection E as <- <-. auto. }
  assert (forall (l : list (nat * val)) n y, inTs l -> In (fst y) Ts -> inTs (upd l n y)) as Aupd.
  { intros l n [T0 x0] Il J i T x E. rewrite nth_error_upd in E. destruct ((n =? i) && (n <? length l)); eauto.
    injection E as <- <-; auto. }
  destruct o as [U u|j|i U u|i j]; cbn [gstep sstep]; unfold pick;
    rewrite ?(find_plain setable) by (intros; apply P1; auto).
  - specialize (X U). destruct (existsb (Nat.eqb U) Ts); auto. rewrite P2; split; auto. apply Aapp; auto. apply X; auto.
  - split; auto. destruct (nth_error w j) as [[T x]|] eqn:E; auto. apply Aapp; auto. cbn. eauto.
  - specialize (X U). destruct (nth_error w i) as [[T x]|] eqn:E; auto. pose proof (I _ _ _ E) as J.
    destruct (Nat.eqb_spec T U) as [->|N].
    + destruct (existsb (Nat.eqb U) Ts); [|exfalso; destruct X as [_ X]; specialize (X J); discriminate].
      rewrite P2, Nat.eqb_refl. split; auto.
    + destruct (existsb (Nat.eqb U) Ts); auto. destruct (Nat.eqb_spec T U); [congruence|]. auto.
  - split; auto. destruct (nth_error w i) as [[T x]|] eqn:E; auto. destruct (nth_error w j) as [[T' x']|] eqn:E'; auto.
    destruct (T =? T'); auto. apply Aupd; auto. cbn. eauto.
Qed.
Lemma run_plain l w : inTs w -> voks w l -> goks w l /\ fold_left gstep l w = fold_left sstep l w /\ inTs (fold_left sstep l w).
Proof.
  revert w. induction l as [|o l IH]; intros w I V; simpl; auto. destruct V as [V1 V2].
  destruct (gstep_plain w o I) as [E I']. rewrite E. destruct (IH _ I' V2) as (A & B & C). auto.
Qed.
(* Plain types: a read as type U succeeds exactly when the value stored is of type U, and
   returns it; every other read throws.  Reads change nothing. *)
Theorem C26_plain_partial : forall l, voks [] l ->
  exists w, vrun [] l = Ok w /\ length w = length (fold_left sstep l []) /\
  forall i T x v U, nth_error (fold_left sstep l []) i = Some (T, x) -> nth_error w i = Some v ->
    v_get val tag castable conv Ts v U = if U =? T then Ok x else Throw RuntimeError.
Proof.
  intros l V. destruct (run_plain l []) as (G & E & I); auto; [intros [|?] ? ? X; discriminate|].
  destruct (run_R l [] [] (Forall2_nil _) G) as (w & Ew & F). rewrite E in F. exists w. split; auto.
  split; [eapply Forall2_length; eauto|]. intros i T x v U N N'.
  destruct (Forall2_nth _ _ _ _ _ F N') as ([T' x'] & E' & Rv). rewrite N in E'. injection E' as <- <-.
  rewrite (R_get _ _ _ _ Rv). unfold pick. destruct PL as [P1 P2]. rewrite (find_plain castable) by (intros; apply P1; auto).
  destruct (Nat.eqb_spec U T) as [->|Ne].
  - destruct (existsb (Nat.eqb T) Ts) eqn:X; [rewrite Nat.eqb_refl, P2; auto|].
    exfalso. assert (existsb (Nat.eqb T) Ts = true) as Y; [|congruence]. apply existsb_exists. exists T.
    rewrite Nat.eqb_refl. split; auto. eapply I; eauto.
  - destruct (existsb (Nat.eqb U) Ts); auto. destruct (Nat.eqb_spec U T); congruence.
Qed.
End C26.
Print Assumptions C26_general.
Print Assumptions C26_plain_partial.

(* The hypotheses are met by variant<int,double,bool>, and a history with a copy, a refused
   and an accepted write. *)
Definition tag3 (T : nat) : Z := Z.of_nat T.
Example C26_demo :
  let l := [ONew nat 1 10; OCopy nat 0; OSet nat 1 2 7; OSet nat 0 1 11; ONew nat 0 5; OAssign nat 1 0; OAssign nat 2 0] in
  let same := Nat.eqb in let cv (_ _ x : nat) := x in
  tags_differ tag3 [0;1;2] /\ plain nat same same cv [0;1;2] /\
  voks nat [0;1;2] [] l /\
  fold_left (sstep nat [0;1;2]) l [] = [(1,11); (1,11); (0,5)].
Proof.
  cbn zeta. split; [|split; [|split]].
  - intros T T' _ _ E. apply Nat2Z.inj. exact E.
  - split; auto.
  - cbn. lia.
  - reflexivity.
Qed.

(* False of the code: with a derived class before its base in the template parameters, a
   stored base object cannot be read. *)
Theorem C26_base_refuted :
  let is_base B D := (B =? D) || ((B =? 1) && (D =? 0)) in
  let setable U T := is_base T U in let castable U T := is_base U T in
  let cv (_ _ : nat) (x : nat) := x in
  exists v, v_new nat tag3 setable cv [0; 1] 1 42 = Ok v /\
    v_get nat tag3 castable cv [0; 1] v 1 = Throw RuntimeError.
Proof. cbn zeta. eexists. split; reflexivity. Qed.
(* False of the code: the copy of a variant that holds an object with a constructor (a
   std::string) assigns to storage in which nothing was constructed. *)
Theorem C26_copy_refuted :
  let cv (_ _ : nat) (x : nat) := x in
  exists v, v_new nat tag3 Nat.eqb cv [0; 1] 1 42 = Ok v /\
    v_copy nat tag3 (fun T => T =? 0) [0; 1] v = UB Uninit.
Proof. cbn zeta. eexists. split; reflexivity. Qed.
Print Assumptions C26_base_refuted.
Print Assumptions C26_copy_refuted.

(* ================= C27 ================= *)
Section C27.
Variable val : Type.
Variable tag : nat -> Z.
Variables setable castable : nat -> nat -> bool.
Variable conv : nat -> nat -> val -> val.
Variable triv : nat -> bool.
Variable dflt : nat -> val.
Variable Ts : list nat.
Variable fuel : nat.

(* ---- histories ---- *)
Inductive uop : Type :=
| UNew (U : nat) (u : val) | UCopy (j : nat) | UGet (i U : nat)
| USet (i U : nat) (u : val) | UFun (i U : nat) (u : val) | UChain (i j : nat)
| UAssign (i j : nat) | UMove (i j : nat)
| UReset (i : nat) | UUnmark (i : nat) | UMark (i : nat) | UDestroy (i : nat).
Definition ustep (w : world val) (o : uop) : outcome (world val) :=
  match o with
  | UNew U u => new_value val tag setable conv Ts w U u
  | UCopy j => new_copy val tag triv dflt Ts fuel w j
  | UGet i U => let* (w, _) := get val tag castable conv Ts fuel w i U in Ok w
  | USet i U u => set_value val tag setable conv triv Ts w i U u
  | UFun i U u => set_fun val tag setable conv Ts w i U u
  | UChain i j => chain val tag Ts w i j
  | UAssign i j => assign val tag triv Ts fuel w i j
  | UMove i j => move_assign val tag triv Ts w i j
  | UReset i => mark_reset val w i
  | UUnmark i => unmark_self_reads val w i
  | UMark i => mark_read_as_used val w i
  | UDestroy i => destroy val w i
  end.
(* the operations that did not throw are logged *)
Fixpoint urun (w : world val) (l : list uop) : outcome (world val * list uop) :=
  match l with
  | [] => Ok (w, [])
  | o :: l => match ustep w o with
              | Ok w => let* (w, log) := urun w l in Ok (w, o :: log)
              | Throw _ => urun w l
              | UB e => UB e
              end
  end.

(* ---- specification ---- *)
Definition reads (o : uop) (i : nat) : Prop :=
  match o with UGet j _ => j = i | UAssign _ j => j = i | UCopy j => j = i | _ => False end.
(* Variable i was read, its reads were marked as used after that, and it was not reset. *)
Definition used_as_input (log : list uop) (i : nat) : Prop :=
  exists l1 o l2 l3, log = l1 ++ o :: l2 ++ UMark i :: l3 /\ reads o i /\
    ~ In (UReset i) (l2 ++ l3) /\ ~ In (UUnmark i) l2 /\ ~ In (UDestroy i) (l2 ++ l3).
Definition writes (o : uop) (i : nat) : Prop :=
  match o with USet j _ _ => j = i | UFun j _ _ => j = i | UChain j _ => j = i | UAssign j _ => j = i | UMove j _ => j = i | _ => False end.

(* ---- proofs ---- *)
Notation vun := (vun val).
Notation wget := (wget val).
Definition upto_rd (v v' : vun) : Prop :=
  k _ v' = k _ v /\ s _ v' = s _ v /\ f _ v' = f _ v /\ wr _ v' = wr _ v /\ us _ v' = us _ v /\ (rd _ v = true -> rd _ v' = true).
Definition grows (w w' : world val) : Prop :=
  length w' = length w /\ forall i v, wget w i = Ok v -> exists v', wget w' i = Ok v' /\ upto_rd v v'.
Lemma upto_refl v : upto_rd v v.
Proof. repeat split; auto. Qed.
Lemma upto_trans a b c : upto_rd a b -> upto_rd b c -> upto_rd a c.
Proof. intros (A1 & A2 & A3 & A4 & A5 & A6) (B1 & B2 & B3 & B4 & B5 & B6). repeat split; try congruence; auto. Qed.
Lemma wget_some w i v : wget w i = Ok v <-> nth_error w i = Some (Some v).
Proof. unfold VariantModel.wget. destruct (nth_error w i) as [[?|]|]; split; intros E; try discriminate; congruence. Qed.
Lemma wget_lt w i v : wget w i = Ok v -> i < length w.
Proof. intros E. apply wget_some in E. eapply nth_error_lt; eauto. Qed.
Lemma wget_wset w i v j : i < length w -> wget (wset _ w i v) j = if i =? j then Ok v else wget w j.
Proof.
  intros L. unfold VariantModel.wget, wset. rewrite nth_error_upd. apply Nat.ltb_lt in L. rewrite L, andb_true_r.
  destruct (i =? j); auto.
Qed.
Lemma length_wset w i v : length (wset val w i v) = length w.
Proof. apply length_upd. Qed.
Lemma get_slot_grows n w i d T w' x : get_slot val tag n w i d T = Ok (w', x) ->
  grows w w' /\ exists v, wget w' i = Ok v /\ rd _ v = true.
Proof.
  revert w i. induction n as [|n IH]; intros w i E; [discriminate|]. cbn [get_slot] in E.
  destruct (negb (d =? tag T)%Z); [discriminate|]. apply bind_ok in E. destruct E as (v & Ev & E).
  pose proof (wget_lt _ _ _ Ev) as L.
  set (v1 := Vun val (k _ v) (s _ v) (f _ v) true (wr _ v) (us _ v)) in *.
  assert (grows w (wset _ w i v1)) as G.
  { split; [apply length_wset|]. intros j u Eu. rewrite wget_wset by auto. destruct (Nat.eqb_spec i j) as [<-|N].
    - exists v1. rewrite Ev in Eu. injection Eu as <-. split; auto. repeat split; auto.
    - exists u. split; auto. apply upto_refl. }
  assert (exists u, wget (wset _ w i v1) i = Ok u /\ rd _ u = true) as Rd.
  { exists v1. rewrite wget_wset, Nat.eqb_refl by auto. auto. }
  destruct (f _ v) as [|y|j].
  - apply bind_ok in E. destruct E as (y & _ & E). injection E as <- <-. auto.
  - injection E as <- <-. auto.
  - apply IH in E. destruct E as [[G1 G2] _]. destruct G as [H1 H2]. split.
    + split; [congruence|]. intros j' u Eu. destruct (H2 _ _ Eu) as (u1 & E1 & U1). destruct (G2 _ _ E1) as (u2 & E2 & U2).
      exists u2. split; auto. eapply upto_trans; eauto.
    + destruct Rd as (u & Eu & Ru). destruct (G2 _ _ Eu) as (u2 & E2 & U2). exists u2. split; auto. apply U2; auto.
Qed.

(* what a successful step does to variable i *)
Lemma step_var w o w' i v : ustep w o = Ok w' -> wget w i = Ok v -> o <> UDestroy i ->
  exists v', wget w' i = Ok v' /\
    (o <> UReset i -> us _ v = true -> us _ v' = true) /\
    (o <> UReset i -> wr _ v = true -> wr _ v' = true) /\
    (o <> UReset i -> o <> UUnmark i -> o <> UMark i -> rd _ v = true -> rd _ v' = true) /\
    (o = UMark i -> rd _ v = true -> us _ v' = true) /\
    (reads o i -> rd _ v' = true) /\
    (writes o i -> wr _ v' = true).
Proof.
  intros H E ND. pose proof (wget_lt _ _ _ E) as L.
  assert (forall u, upto_rd v u -> exists v', Ok u = Ok v' /\
    (us _ v = true -> us _ v' = true) /\ (wr _ v = true -> wr _ v' = true) /\ (rd _ v = true -> rd _ v' = true)) as UU.
  { intros u (A1 & A2 & A3 & A4 & A5 & A6). exists u. repeat split; auto; congruence. }
  (* set_store *)
  assert (SS : forall w1 a b w2 v0, set_store val tag triv Ts fuel w1 a b = Ok w2 -> wget w1 i = Ok v0 ->
    exists v', wget w2 i = Ok v' /\ (us _ v0 = true -> us _ v' = true) /\ (wr _ v0 = true -> wr _ v' = true) /\
      (rd _ v0 = true -> rd _ v' = true) /\ (b = i -> rd _ v' = true) /\ (a = i -> wr _ v' = true)).
  { clear. intros w1 a b w2 v0 H E. unfold set_store in H. apply bind_ok in H. destruct H as (va & Ea & H).
    destruct (pick Ts _) as [T|]; [|discriminate]. apply bind_ok in H. destruct H as ([w3 x] & Eg & H).
    apply get_slot_grows in Eg. destruct Eg as [[G1 G2] (vb & Eb & Rb)].
    apply bind_ok in H. destruct H as (va' & Ea' & H). apply bind_ok in H. destruct H as (c & Ec & H). injection H as <-.
    destruct (G2 _ _ E) as (v1 & E1 & (U1 & U2 & U3 & U4 & U5 & U6)).
    rewrite wget_wset by (eapply wget_lt; eauto). destruct (Nat.eqb_spec a i) as [->|N].
    - rewrite E1 in Ea'. injection Ea' as <-. eexists; split; [reflexivity|]. cbn. repeat split; auto; try congruence.
    - exists v1. repeat split; auto; try congruence. }
  destruct o; cbn [ustep reads writes] in *.
  - (* new *) unfold new_value in H. destruct (pick Ts _); [|discriminate]. injection H as <-. exists v.
    split; [|repeat split; auto; discriminate || tauto]. rewrite wget_some in *. rewrite nth_error_app1; auto.
  - (* copy *) unfold new_copy in H. apply bind_ok in H. destruct H as (vj & Ej & H).
    destruct (SS _ _ _ _ v H) as (v' & E' & A & B & C & D & F).
    { rewrite wget_some in *. rewrite nth_error_app1; auto. }
    exists v'. repeat split; auto; try discriminate; tauto.
  - (* get *) apply bind_ok in H. destruct H as ([w1 x] & H & E1). injection E1 as <-. unfold get in H.
    apply bind_ok in H. destruct H as (v0 & E0 & H). destruct (pick Ts _); [|discriminate].
    apply bind_ok in H. destruct H as ([w2 y] & Eg & H). injection H as <- <-. apply get_slot_grows in Eg.
    destruct Eg as [[G1 G2] (vb & Eb & Rb)]. destruct (G2 _ _ E) as (v1 & E1 & (U1 & U2 & U3 & U4 & U5 & U6)).
    exists v1. repeat split; auto; try congruence; try tauto.
  - (* set *) unfold set_value in H. apply bind_ok in H. destruct H as (v0 & E0 & H). destruct (us _ v0) eqn:U0; [discriminate|].
    destruct (pick Ts _); [|discriminate]. destruct (_ =? _)%Z; [|discriminate]. apply bind_ok in H. destruct H as (c & Ec & H). injection H as <-.
    rewrite wget_wset by (eapply wget_lt; eauto). destruct (Nat.eqb_spec i0 i) as [->|N].
    + rewrite E in E0. injection E0 as <-. eexists; split; [reflexivity|]. cbn. repeat split; auto; try congruence; try discriminate; tauto.
    + exists v. repeat split; auto; try congruence; try discriminate; tauto.
  - (* fun *) unfold set_fun in H. apply bind_ok in H. destruct H as (v0 & E0 & H). destruct (us _ v0) eqn:U0; [discriminate|].
    destruct (pick Ts _); [|discriminate]. destruct (_ =? _)%Z; [|discriminate]. injection H as <-.
    rewrite wget_wset by (eapply wget_lt; eauto). destruct (Nat.eqb_spec i0 i) as [->|N].
    + rewrite E in E0. injection E0 as <-. eexists; split; [reflexivity|]. cbn. repeat split; auto; try congruence; try discriminate; tauto.
    + exists v. repeat split; auto; try congruence; try discriminate; tauto.
  - (* chain *) unfold chain in H. apply bind_ok in H. destruct H as (v0 & E0 & H). apply bind_ok in H. destruct H as (vj & Ej & H).
    destruct (us _ v0) eqn:U0; [discriminate|]. destruct (negb _); [discriminate|].
    destruct (pick Ts _); [|discriminate]. injection H as <-.
    rewrite wget_wset by (eapply wget_lt; eauto). destruct (Nat.eqb_spec i0 i) as [->|N].
    + rewrite E in E0. injection E0 as <-. eexists; split; [reflexivity|]. cbn. repeat split; auto; try congruence; try discriminate; tauto.
    + exists v. repeat split; auto; try congruence; try discriminate; tauto.
  - (* assign *) unfold assign in H. apply bind_ok in H. destruct H as (v0 & E0 & H). apply bind_ok in H. destruct H as (vj & Ej & H).
    destruct (_ =? _)%Z; [|discriminate]. destruct (SS _ _ _ _ v H) as (v' & E' & A & B & C & D & F); auto.
    exists v'. repeat split; auto; try discriminate.
  - (* move *) unfold move_assign in H. apply bind_ok in H. destruct H as (v0 & E0 & H). apply bind_ok in H. destruct H as (vj & Ej & H).
    destruct (negb _); [discriminate|]. destruct (pick Ts _); [|discriminate].
    apply bind_ok in H. destruct H as (x & Ex & H). apply bind_ok in H. destruct H as (c & Ec & H).
    apply bind_ok in H. destruct H as (v2 & E2 & H). injection H as <-.
    assert (j < length w) as Lj by (eapply wget_lt; eauto). assert (i0 < length w) as Li by (eapply wget_lt; eauto).
    rewrite wget_wset in E2 by auto. rewrite wget_wset by (rewrite length_wset; auto). rewrite wget_wset by auto.
    destruct (Nat.eqb_spec i0 i) as [->|N].
    + eexists; split; [reflexivity|]. cbn.
      assert (us _ v2 = us _ v /\ wr _ v2 = wr _ v /\ rd _ v2 = rd _ v) as (Q1 & Q2 & Q3).
      { destruct (Nat.eqb_spec j i) as [->|N'].
        - injection E2 as <-. cbn. rewrite E in Ej. injection Ej as <-. auto.
        - rewrite E in E2. injection E2 as <-. auto. }
      repeat split; auto; try congruence; try discriminate; tauto.
    + destruct (Nat.eqb_spec j i) as [->|N'].
      * rewrite E in Ej. injection Ej as <-. eexists; split; [reflexivity|]. cbn. repeat split; auto; try discriminate; tauto.
      * exists v. repeat split; auto; try discriminate; tauto.
  - (* reset *) unfold mark_reset in H. apply bind_ok in H. destruct H as (v0 & E0 & H). injection H as <-.
    rewrite wget_wset by (eapply wget_lt; eauto). destruct (Nat.eqb_spec i0 i) as [->|N].
    + eexists; split; [reflexivity|]. cbn. repeat split; auto; try congruence; try discriminate; try tauto.
    + exists v. repeat split; auto; try congruence; try discriminate; tauto.
  - unfold unmark_self_reads in H. apply bind_ok in H. destruct H as (v0 & E0 & H). injection H as <-.
    rewrite wget_wset by (eapply wget_lt; eauto). destruct (Nat.eqb_spec i0 i) as [->|N].
    + rewrite E in E0. injection E0 as <-. eexists; split; [reflexivity|]. cbn. repeat split; auto; try congruence; try discriminate; try tauto.
    + exists v. repeat split; auto; try congruence; try discriminate; tauto.
  - (* mark *) unfold mark_read_as_used in H. apply bind_ok in H. destruct H as (v0 & E0 & H).
    destruct (wr _ v0 && (us _ v0 || rd _ v0)) eqn:W; [discriminate|]. destruct (rd _ v0) eqn:Rd.
    + injection H as <-. rewrite wget_wset by (eapply wget_lt; eauto). destruct (Nat.eqb_spec i0 i) as [->|N].
      * rewrite E in E0. injection E0 as <-. eexists; split; [reflexivity|]. cbn. repeat split; auto; try congruence; try discriminate; try tauto.
      * exists v. repeat split; auto; try congruence; try discriminate; try tauto.
    + injection H as <-. exists v. repeat split; auto; try discriminate; try tauto. intros X. injection X as ->. congruence.
  - (* destroy *) unfold destroy in H. apply bind_ok in H. destruct H as (v0 & E0 & H). injection H as <-.
    exists v. split; [|repeat split; auto; try discriminate; tauto]. rewrite wget_some in *. rewrite nth_error_upd_ne; auto.
Qed.

(* running a log: all of its operations succeed *)
Inductive lrun : world val -> list uop -> world val -> Prop :=
| lrun_nil w : lrun w [] w
| lrun_cons w o w1 l w' : ustep w o = Ok w1 -> lrun w1 l w' -> lrun w (o :: l) w'.
Lemma urun_lrun l w w' log : urun w l = Ok (w', log) -> lrun w log w'.
Proof.
  revert w log. induction l as [|o l IH]; intros w log H; simpl in *.
  - injection H as <- <-. constructor.
  - destruct (ustep w o) as [w1|e|e] eqn:S; try discriminate; auto.
    apply bind_ok in H. destruct H as ([w2 log2] & H & E). injection E as <- <-. econstructor; eauto.
Qed.
Lemma lrun_app l1 w l2 w' : lrun w (l1 ++ l2) w' -> exists w1, lrun w l1 w1 /\ lrun w1 l2 w'.
Proof.
  revert w. induction l1 as [|o l1 IH]; intros w H; simpl in *.
  - exists w. split; [constructor|auto].
  - inversion H; subst. destruct (IH _ H5) as (w2 & A & B). exists w2. split; auto. econstructor; eauto.
Qed.
Lemma lrun_keep l w w' i v : lrun w l w' -> wget w i = Ok v -> ~ In (UReset i) l -> ~ In (UDestroy i) l ->
  exists v', wget w' i = Ok v' /\ (us _ v = true -> us _ v' = true) /\ (wr _ v = true -> wr _ v' = true) /\
    (~ In (UUnmark i) l -> (rd _ v = true \/ us _ v = true) -> rd _ v' = true \/ us _ v' = true).
Proof.
  intros H. revert v. induction H as [w|w o w1 l w' S H IH]; intros v E NR ND.
  - exists v. auto.
  - destruct (step_var _ _ _ _ _ S E) as (v1 & E1 & A & B & C & D & F & G); [intros ->; apply ND; left; auto|].
    destruct (IH v1 E1) as (v2 & E2 & A2 & B2 & C2); [intros X; apply NR; right; auto|intros X; apply ND; right; auto|].
    assert (o <> UReset i) as N1 by (intros ->; apply NR; left; auto).
    exists v2. repeat split; auto. intros NU X. apply C2; [intros Y; apply NU; right; auto|].
    assert (o <> UUnmark i) as N2 by (intros ->; apply NU; left; auto).
    destruct X as [X|X]; auto.
    assert ({o = UMark i} + {o <> UMark i}) as [->|N3].
    { destruct o as [| | | | | | | | | |j|]; try (right; discriminate). destruct (Nat.eq_dec j i); [left; congruence|right; congruence]. }
    + right. auto.
    + left. auto.
Qed.
Lemma used_flag l w log i : urun [] l = Ok (w, log) -> used_as_input log i -> exists v, wget w i = Ok v /\ us _ v = true.
Proof.
  intros H (l1 & o & l2 & l3 & -> & Rd & NR & NU & ND). apply urun_lrun in H.
  apply lrun_app in H. destruct H as (w1 & _ & H). inversion H as [|? ? w2 ? ? S H2]; subst. clear H.
  apply lrun_app in H2. destruct H2 as (w3 & H2 & H3). inversion H3 as [|? ? w4 ? ? S4 H4]; subst. clear H3.
  assert (~ In (UReset i) l2 /\ ~ In (UReset i) l3 /\ ~ In (UDestroy i) l2 /\ ~ In (UDestroy i) l3) as (N1 & N2 & N3 & N4).
  { repeat split; intros X; [apply NR|apply NR|apply ND|apply ND]; apply in_app_iff; auto. }
  assert (exists v1, wget w1 i = Ok v1) as (v1 & E1).
  { destruct o; cbn [reads ustep] in *; try tauto; subst.
    - unfold new_copy in S. apply bind_ok in S. destruct S as (v & E & _). eauto.
    - apply bind_ok in S. destruct S as (? & S & _). unfold get in S. apply bind_ok in S. destruct S as (v & E & _). eauto.
    - unfold assign in S. apply bind_ok in S. destruct S as (? & _ & S). apply bind_ok in S. destruct S as (v & E & _). eauto. }
  destruct (step_var _ _ _ _ _ S E1) as (v2 & E2 & _ & _ & _ & _ & F & _).
  { intros ->. destruct Rd. }
  specialize (F Rd). destruct (lrun_keep _ _ _ _ _ H2 E2 N1 N3) as (v3 & E3 & _ & _ & C3).
  specialize (C3 NU (or_introl F)).
  destruct (step_var _ _ _ _ _ S4 E3) as (v4 & E4 & A4 & _ & _ & D4 & _ & _); [discriminate|].
  assert (us _ v4 = true) as U4. { destruct C3; auto. apply A4; auto. discriminate. }
  destruct (lrun_keep _ _ _ _ _ H4 E4 N2 N4) as (v5 & E5 & A5 & _). eauto.
Qed.

(* After use, writing a value, a function or a chain is rejected; the assignment of another
   variable is not, but every later mark is refused until the variable is reset. *)
Theorem C27_write_after_use_partial : forall l w log i o,
  urun [] l = Ok (w, log) -> used_as_input log i -> writes o i ->
  match o with
  | USet _ _ _ | UFun _ _ _ => ustep w o = Throw RuntimeError
  | UChain _ j => forall vj, wget w j = Ok vj -> ustep w o = Throw RuntimeError
  | _ => forall w1 l' w2 log', ustep w o = Ok w1 -> urun w1 l' = Ok (w2, log') ->
           ~ In (UReset i) log' -> ~ In (UDestroy i) log' -> ustep w2 (UMark i) = Throw RuntimeError
  end.
Proof.
  intros l w log i o H Us W. destruct (used_flag _ _ _ _ H Us) as (v & E & U).
  destruct o; cbn [writes] in W; try tauto; subst; cbn [ustep].
  - unfold set_value. rewrite E. cbn. rewrite U. reflexivity.
  - unfold set_fun. rewrite E. cbn. rewrite U. reflexivity.
  - intros vj Ej. unfold chain. rewrite E, Ej. cbn. rewrite U. reflexivity.
  - intros w1 l' w2 log' S H' NR ND. destruct (step_var w (UAssign i j) _ i v S E) as (v1 & E1 & A & _ & _ & _ & _ & G); [discriminate|].
    destruct (lrun_keep _ _ _ i v1 (urun_lrun _ _ _ _ H') E1 NR ND) as (v2 & E2 & A2 & B2 & _).
    unfold mark_read_as_used. rewrite E2. cbn [bind]. rewrite B2, A2; auto; try (apply A; auto; discriminate). apply G; reflexivity.
  - intros w1 l' w2 log' S H' NR ND. destruct (step_var w (UMove i j) _ i v S E) as (v1 & E1 & A & _ & _ & _ & _ & G); [discriminate|].
    destruct (lrun_keep _ _ _ i v1 (urun_lrun _ _ _ _ H') E1 NR ND) as (v2 & E2 & A2 & B2 & _).
    unfold mark_read_as_used. rewrite E2. cbn [bind]. rewrite B2, A2; auto; try (apply A; auto; discriminate). apply G; reflexivity.
Qed.
(* After a reset, writing a value of the variable's own type is accepted and the next mark
   is not refused. *)
Theorem C27_reset : forall w i v T x,
  wget w i = Ok v -> s _ v = Some (T, x) -> k _ v = tag T -> find (setable T) Ts = Some T ->
  (forall y, conv T T y = y) -> forall y,
  exists w1 w2 w3 v', ustep w (UReset i) = Ok w1 /\ ustep w1 (USet i T y) = Ok w2 /\ ustep w2 (UMark i) = Ok w3 /\
    wget w3 i = Ok v' /\ s _ v' = Some (T, y) /\ f _ v' = FNone val /\ us _ v' = false.
Proof.
  intros w i v T x E S K P C y. pose proof (wget_lt _ _ _ E) as L. cbn [ustep].
  unfold mark_reset. rewrite E. cbn. eexists. 
  assert (forall u, wget (wset val w i u) i = Ok u) as WW by (intros; rewrite wget_wset, Nat.eqb_refl; auto).
  eexists. eexists. eexists. split; [reflexivity|].
  unfold set_value. rewrite WW. cbn [bind us k s f rd wr]. unfold pick. rewrite P, K, Z.eqb_refl, C.
  unfold write. rewrite S, Nat.eqb_refl. split.
  { destruct (triv T); cbn; reflexivity. }
  assert (forall a b, wget (wset val (wset val w i a) i b) i = Ok b) as W2.
  { intros. rewrite wget_wset, Nat.eqb_refl; auto. rewrite length_wset; auto. }
  unfold mark_read_as_used. rewrite W2. cbn. rewrite W2. repeat split; reflexivity.
Qed.
End C27.
Print Assumptions C27_write_after_use_partial.
Print Assumptions C27_reset.

(* False of the code: the assignment of another variable to a used one succeeds and changes
   its value. *)
Definition hist27 : list (uop nat) := [UNew nat 0 1; UNew nat 0 2; UGet nat 0 0; UMark nat 0].
Theorem C27_assign_refuted :
  let run := urun nat tag3 Nat.eqb Nat.eqb (fun _ _ x => x) (fun _ => true) (fun _ => 0) [0] 5 in
  exists w log w', run [] hist27 = Ok (w, log) /\ used_as_input nat log 0 /\
    ustep nat tag3 Nat.eqb Nat.eqb (fun _ _ x => x) (fun _ => true) (fun _ => 0) [0] 5 w (UAssign nat 0 1) = Ok w' /\
    (exists v, wget nat w' 0 = Ok v /\ s nat v = Some (0, 2)) /\
    (exists v, wget nat w 0 = Ok v /\ s nat v = Some (0, 1)).
Proof.
  eexists _, _, _. split; [reflexivity|]. split.
  - exists [UNew nat 0 1; UNew nat 0 2], (UGet nat 0 0), [], []. cbn. intuition.
  - split; [reflexivity|]. split; eexists; split; reflexivity.
Qed.
Print Assumptions C27_assign_refuted.
(* The hypotheses of C27_write_after_use_partial are met by the same history. *)
Example C27_demo :
  exists w log, urun nat tag3 Nat.eqb Nat.eqb (fun _ _ x => x) (fun _ => true) (fun _ => 0) [0] 5 [] hist27 = Ok (w, log) /\
    used_as_input nat log 0 /\
    ustep nat tag3 Nat.eqb Nat.eqb (fun _ _ x => x) (fun _ => true) (fun _ => 0) [0] 5 w (USet nat 0 0 9) = Throw RuntimeError.
Proof.
  eexists _, _. split; [reflexivity|]. split; [|reflexivity].
  exists [UNew nat 0 1; UNew nat 0 2], (UGet nat 0 0), [], []. cbn. intuition.
Qed.
