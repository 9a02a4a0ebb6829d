(* C19: events reach every attached listener once, in order (include/listen.h). *)
From Coq Require Import List ZArith Bool Arith Lia.
From Verif Require Import Base ListenModel.
Import ListNotations.
Local Open Scope nat_scope.

(* ---- specification: an ordered list of registrations per dispatcher ---- *)
Section Spec.
Context {H : Type}.
(* a registration: its number (counting registrations from 0), who made it, the handler *)
Record entry : Type := Entry { tok : nat; who : nat; hnd : H }.
(* number of registrations made; the registrations of each dispatcher (None: destroyed);
   which listeners exist *)
Record sworld : Type := SWorld {
  made : nat;
  disp : list (option (list entry));
  live : list bool }.
Definition snew : sworld := SWorld 0 [] [].

Fixpoint insert_before (t : nat) (e : entry) (l : list entry) : option (list entry) :=
  match l with
  | [] => None
  | x :: l => if tok x =? t then Some (e :: x :: l)
              else option_map (cons x) (insert_before t e l)
  end.
Definition place (b : option nat) (e : entry) (l : list entry) : option (list entry) :=
  match b with
  | None => Some (l ++ [e])
  | Some t => insert_before t e l
  end.
Definition forget (l : nat) (o : option (list entry)) : option (list entry) :=
  option_map (filter (fun e => negb (who e =? l))) o.

Definition sstep (s : sworld) (o : lnop H) : sworld * lnout H :=
  match o with
  | NewDispatcher => (SWorld (made s) (disp s ++ [Some []]) (live s), Done)
  | NewListener => (SWorld (made s) (disp s) (live s ++ [true]), Done)
  | Listen l d h b =>
    match nth_error (disp s) d with
    | Some (Some es) =>
      match place b (Entry (made s) l h) es with
      | Some es' => (SWorld (S (made s)) (upd (disp s) d (Some es')) (live s), Done)
      | None => (s, Rejected)
      end
    | _ => (s, Rejected)
    end
  | Dispatch d =>
    match nth_error (disp s) d with
    | Some (Some es) => (s, Called (map hnd es))
    | _ => (s, Rejected)
    end
  | DestroyListener l => (SWorld (made s) (map (forget l) (disp s)) (upd (live s) l false), Done)
  | DestroyDispatcher d => (SWorld (made s) (upd (disp s) d None) (live s), Done)
  end.
(* What the interface asks of the caller: objects exist; a dispatcher is destroyed after
   its listeners are gone; a "before" marker is not used on a dispatcher without any
   registration. *)
Definition allowed (s : sworld) (o : lnop H) : Prop :=
  match o with
  | NewDispatcher | NewListener => True
  | Listen l d _ b =>
    nth_error (live s) l = Some true /\
    exists es, nth_error (disp s) d = Some (Some es) /\ (b = None \/ es <> [])
  | Dispatch d => exists es, nth_error (disp s) d = Some (Some es)
  | DestroyListener l => nth_error (live s) l = Some true
  | DestroyDispatcher d => nth_error (disp s) d = Some (Some [])
  end.
Fixpoint srun_from (s : sworld) (ops : list (lnop H)) : sworld * list (lnout H) :=
  match ops with
  | [] => (s, [])
  | o :: ops => let (s, x) := sstep s o in let (s, xs) := srun_from s ops in (s, x :: xs)
  end.
Fixpoint all_allowed (s : sworld) (ops : list (lnop H)) : Prop :=
  match ops with
  | [] => True
  | o :: ops => allowed s o /\ all_allowed (fst (sstep s o)) ops
  end.
End Spec.
Arguments entry : clear implicits.
Arguments sworld : clear implicits.

(* ---- proofs ---- *)
Lemma NoDup_app_l {A} (a b : list A) : NoDup (a ++ b) -> NoDup a.
Proof.
  induction a as [|x a IH]; simpl; intros N; [constructor|]. inversion N as [|? ? A1 B1]; subst.
  constructor; auto. intros I; apply A1, in_or_app; auto.
Qed.
Lemma nth_ext_opt {A} (a : list A) : forall b, (forall i, nth_error a i = nth_error b i) -> a = b.
Proof.
  induction a as [|x a IH]; intros [|y b] E.
  - reflexivity.
  - specialize (E 0). discriminate.
  - specialize (E 0). discriminate.
  - f_equal; [specialize (E 0); simpl in E; congruence|]. apply IH. intros i. exact (E (S i)).
Qed.
Section Proofs.
Context {H : Type}.
Notation ent := (entry H).
Notation heap_t := (list (option (sink H))).

Fixpoint chain (h : heap_t) (p : option nat) (es : list ent) : Prop :=
  match es with
  | [] => p = None
  | e :: es => p = Some (tok e) /\ exists n, nth_error h (tok e) = Some (Some (Sink (hnd e) n)) /\ chain h n es
  end.
Definition hdp (es : list ent) : option nat := match es with [] => None | e :: _ => Some (tok e) end.
Lemma chain_hd h p es : chain h p es -> p = hdp es.
Proof. destruct es; simpl; [auto|]. intros [-> _]; reflexivity. Qed.
Lemma chain_ext (h h' : heap_t) es : forall p,
  (forall t, In t (map tok es) -> nth_error h' t = nth_error h t) -> chain h p es -> chain h' p es.
Proof.
  induction es as [|e es IH]; intros p E C; simpl in *; [exact C|].
  destruct C as (-> & n & N & C). split; [reflexivity|]. exists n. rewrite E by auto. split; auto.
Qed.
Lemma chain_in h es : forall p e, chain h p es -> In e es -> exists n, nth_error h (tok e) = Some (Some (Sink (hnd e) n)).
Proof.
  induction es as [|x es IH]; intros p e C I; [destruct I|].
  destruct C as (-> & n & N & C). destruct I as [->|I]; eauto.
Qed.
Lemma chain_lt h es p t : chain h p es -> In t (map tok es) -> t < length h.
Proof.
  intros C I. apply in_map_iff in I. destruct I as (e & <- & I).
  destruct (chain_in _ _ _ _ C I) as [n N]. eapply nth_error_lt; eauto.
Qed.

Fixpoint slot_after (s : slot) (es : list ent) : slot :=
  match es with [] => s | e :: es => slot_after (SNext (tok e)) es end.
Lemma slot_after_snoc s es e : slot_after s (es ++ [e]) = SNext (tok e).
Proof. revert s; induction es; intros; simpl; auto. Qed.

Lemma read_after (w : world H) es1 es2 : forall s p,
  read w s = Ok p -> chain (sinks w) p (es1 ++ es2) -> read w (slot_after s es1) = Ok (hdp es2).
Proof.
  induction es1 as [|e es1 IH]; intros s p R C.
  - simpl in *. rewrite (chain_hd _ _ _ C) in R. exact R.
  - simpl in C. destruct C as (-> & n & N & C). simpl. eapply IH; [|exact C].
    simpl. unfold load_sink. rewrite N. reflexivity.
Qed.

(* writing the slot behind es1 puts another tail there *)
Lemma chain_splice h v es1 : forall x n0 p es2,
  chain h p (es1 ++ x :: es2) -> NoDup (map tok (es1 ++ [x])) ->
  nth_error h (tok x) = Some (Some (Sink (hnd x) n0)) ->
  let h' := upd h (tok x) (Some (Sink (hnd x) v)) in
  forall es3, chain h' v es3 -> chain h' p (es1 ++ x :: es3).
Proof.
  induction es1 as [|e es1 IH]; intros x n0 p es2 C ND N h' es3 C3.
  - simpl in *. destruct C as (-> & _). split; [reflexivity|]. exists v. split; [|exact C3].
    apply nth_error_upd_eq. eapply nth_error_lt; eauto.
  - simpl in C. destruct C as (-> & n & N1 & C). simpl. split; [reflexivity|].
    simpl in ND. inversion ND as [|? ? NI ND']; subst.
    exists n. split.
    + unfold h'. rewrite nth_error_upd_ne; [exact N1|]. intros E. apply NI.
      rewrite map_app, in_app_iff. right. simpl. auto.
    + eapply IH; eauto.
Qed.
Lemma write_splice (w : world H) d p es1 es2 v :
  nth_error (heads w) d = Some (Some p) -> chain (sinks w) p (es1 ++ es2) -> NoDup (map tok es1) ->
  exists w' p', write w (slot_after (SHead d) es1) v = Ok w' /\ lists w' = lists w /\
    heads w' = upd (heads w) d (Some p') /\ length (sinks w') = length (sinks w) /\
    (forall t, ~ In t (map tok es1) -> nth_error (sinks w') t = nth_error (sinks w) t) /\
    (forall es3, chain (sinks w') v es3 -> chain (sinks w') p' (es1 ++ es3)).
Proof.
  intros HD C ND. destruct es1 as [|e0 es0] using rev_ind.
  - simpl. unfold head_of. rewrite HD. cbn [bind]. rewrite aset_ok by (eapply nth_error_lt; eauto).
    cbn [bind]. do 2 eexists. repeat split. simpl. intros es3 C3; exact C3.
  - clear IHes0. rewrite slot_after_snoc. rewrite <- app_assoc in C. simpl in C.
    destruct (chain_in _ _ _ e0 C) as [n N]; [apply in_or_app; right; left; reflexivity|].
    simpl. unfold load_sink. rewrite N. cbn [bind shandler].
    rewrite aset_ok by (eapply nth_error_lt; eauto). cbn [bind].
    exists (World (upd (sinks w) (tok e0) (Some (Sink (hnd e0) v))) (heads w) (lists w)), p.
    split; [reflexivity|]. cbn [sinks heads lists]. split; [reflexivity|].
    split; [symmetry; apply upd_same; exact HD|]. split; [apply length_upd|]. split.
    + intros t NI. apply nth_error_upd_ne. intros <-. apply NI. rewrite map_app, in_app_iff. right; simpl; auto.
    + intros es3 C3. rewrite <- app_assoc. simpl.
      apply (chain_splice (sinks w) v es0 e0 n p es2); auto.
Qed.

(* the loop finds the slot of the marker *)
Lemma find_slot_end (w : world H) es : forall s p fuel,
  read w s = Ok p -> chain (sinks w) p es -> length es < fuel ->
  find_slot fuel w s None = Ok (slot_after s es).
Proof.
  induction es as [|e es IH]; intros s p fuel R C F; (destruct fuel as [|fuel]; [simpl in F; lia|]).
  - simpl in C. subst p. cbn [find_slot]. rewrite R. cbn [bind same_p]. reflexivity.
  - destruct C as (-> & n & N & C). cbn [find_slot]. rewrite R. cbn [bind same_p].
    assert (R' : read w (SNext (tok e)) = Ok n) by (simpl; unfold load_sink; rewrite N; reflexivity).
    rewrite R'. cbn [bind]. simpl slot_after. 
    assert (X : find_slot fuel w (SNext (tok e)) None = Ok (slot_after (SNext (tok e)) es))
      by (eapply IH; eauto; simpl in F; lia).
    destruct n; exact X.
Qed.
Lemma insert_before_split t (e : ent) es : 
  (In t (map tok es) -> exists es1 x es2, es = es1 ++ x :: es2 /\ tok x = t /\ ~ In t (map tok es1) /\
     insert_before t e es = Some (es1 ++ e :: x :: es2)) /\
  (~ In t (map tok es) -> insert_before t e es = None).
Proof.
  induction es as [|y es [IH1 IH2]]; simpl; [tauto|]. destruct (Nat.eqb_spec (tok y) t) as [E|NE].
  - split; [|tauto]. intros _. exists [], y, es. repeat split; auto.
  - split.
    + intros [E|I]; [contradiction|]. destruct (IH1 I) as (es1 & x & es2 & -> & T & NI & R).
      exists (y :: es1), x, es2. rewrite R. simpl. repeat split; auto. intros [E|E]; auto.
    + intros NI. rewrite IH2; auto.
Qed.
Lemma find_slot_found (w : world H) t x es2 es1 : forall s p fuel,
  read w s = Ok p -> chain (sinks w) p (es1 ++ x :: es2) -> tok x = t -> ~ In t (map tok es1) ->
  length es1 < fuel -> find_slot fuel w s (Some t) = Ok (slot_after s es1).
Proof.
  induction es1 as [|e es1 IH]; intros s p fuel R C T NI F; (destruct fuel as [|fuel]; [simpl in F; lia|]).
  - simpl in C. destruct C as (-> & _). cbn [find_slot]. rewrite R. cbn [bind same_p].
    rewrite T, Nat.eqb_refl. reflexivity.
  - destruct C as (-> & n & N & C). cbn [find_slot]. rewrite R. cbn [bind same_p].
    simpl in NI. destruct (Nat.eqb_spec (tok e) t) as [E|NE]; [tauto|].
    assert (R' : read w (SNext (tok e)) = Ok n) by (simpl; unfold load_sink; rewrite N; reflexivity).
    rewrite R'. cbn [bind].
    assert (NN : exists m, n = Some m) by (apply chain_hd in C; destruct es1; simpl in C; eauto).
    destruct NN as [m ->]. simpl slot_after. eapply IH; eauto. simpl in F; lia.
Qed.
Lemma find_slot_missing (w : world H) t es : forall s p fuel,
  read w s = Ok p -> chain (sinks w) p es -> ~ In t (map tok es) -> es <> [] ->
  length es < fuel -> find_slot fuel w s (Some t) = Throw RuntimeError.
Proof.
  induction es as [|e es IH]; intros s p fuel R C NI NE F; (destruct fuel as [|fuel]; [simpl in F; lia|]).
  - congruence.
  - destruct C as (-> & n & N & C). cbn [find_slot]. rewrite R. cbn [bind same_p].
    simpl in NI. destruct (Nat.eqb_spec (tok e) t) as [E|NEt]; [tauto|].
    assert (R' : read w (SNext (tok e)) = Ok n) by (simpl; unfold load_sink; rewrite N; reflexivity).
    rewrite R'. cbn [bind]. destruct es as [|e2 es].
    + simpl in C. subst n. reflexivity.
    + pose proof (chain_hd _ _ _ C) as ->. simpl hdp. cbn iota.
      eapply IH; eauto; [congruence|simpl in *; lia].
Qed.

Lemma chain_nodup_len h p es : chain h p es -> NoDup (map tok es) -> length es <= length h.
Proof.
  intros C ND. rewrite <- (map_length tok). rewrite <- (seq_length (length h) 0).
  apply NoDup_incl_length; [exact ND|]. intros t I. apply in_seq. pose proof (chain_lt _ _ _ _ C I). lia.
Qed.

(* the relation between the program and the specification *)
Definition toks (s : sworld H) (d : nat) : list nat :=
  match nth_error (disp s) d with Some (Some es) => map tok es | _ => [] end.
Record rel (w : world H) (s : sworld H) : Prop := {
  r_made : length (sinks w) = made s;
  r_len : length (heads w) = length (disp s);
  r_chain : forall d es, nth_error (disp s) d = Some (Some es) ->
    exists p, nth_error (heads w) d = Some (Some p) /\ chain (sinks w) p es /\ NoDup (map tok es);
  r_dead : forall d, nth_error (disp s) d = Some None -> nth_error (heads w) d = Some None;
  r_apart : forall d d' t, In t (toks s d) -> In t (toks s d') -> d = d';
  r_llen : length (lists w) = length (live s);
  r_live : forall l, nth_error (live s) l = Some true ->
    exists rs, nth_error (lists w) l = Some (Some rs) /\
      forall d t, In (d, t) rs <->
        exists es e, nth_error (disp s) d = Some (Some es) /\ In e es /\ tok e = t /\ who e = l;
  r_gone : forall l, nth_error (live s) l = Some false -> nth_error (lists w) l = Some None;
  r_who : forall d es e, nth_error (disp s) d = Some (Some es) -> In e es -> who e < length (live s) }.

Lemma rel_new : rel wnew snew.
Proof.
  constructor; simpl; try reflexivity; intros; try (destruct d; discriminate); try (destruct l; discriminate).
  unfold toks in *. destruct d; simpl in *; contradiction.
Qed.

Variable cb : H -> world H -> outcome (world H).
Hypothesis quiet : forall h w, cb h w = Ok w.

Lemma dispatch_chain w es : forall p fuel log,
  chain (sinks w) p es -> length es < fuel ->
  dispatch_loop cb fuel w p log = Ok (w, log ++ map hnd es).
Proof.
  induction es as [|e es IH]; intros p fuel log C F; (destruct fuel as [|fuel]; [simpl in F; lia|]); cbn [dispatch_loop].
  - simpl in C. subst p. rewrite app_nil_r. reflexivity.
  - destruct C as (-> & n & N & C). unfold load_sink. rewrite N. cbn [bind shandler]. rewrite quiet. cbn [bind].
    rewrite N. cbn [bind snext]. rewrite (IH n fuel) by (auto; simpl in F; lia).
    simpl. rewrite <- app_assoc. reflexivity.
Qed.

Lemma remover_loop_ok w d t es : forall es0 fuel p,
  nth_error (heads w) d = Some (Some p) -> chain (sinks w) p (es0 ++ es) -> NoDup (map tok (es0 ++ es)) ->
  ~ In t (map tok es0) -> length es < fuel ->
  exists w' p', remover_loop fuel w (slot_after (SHead d) es0) t = Ok w' /\ lists w' = lists w /\
    heads w' = upd (heads w) d (Some p') /\ length (sinks w') = length (sinks w) /\
    (forall u, ~ In u (map tok (es0 ++ es)) -> nth_error (sinks w') u = nth_error (sinks w) u) /\
    chain (sinks w') p' (filter (fun e => negb (tok e =? t)) (es0 ++ es)).
Proof.
  assert (FI : forall l : list ent, ~ In t (map tok l) -> filter (fun e => negb (tok e =? t)) l = l).
  { induction l as [|x l IHl]; simpl; intros NI; [reflexivity|].
    rewrite (proj2 (Nat.eqb_neq _ _)) by tauto. simpl. rewrite IHl; tauto. }
  induction es as [|e es IH]; intros es0 fuel p HD C ND NI F; (destruct fuel as [|fuel]; [simpl in F; lia|]).
  - cbn [remover_loop]. rewrite (read_after w es0 [] (SHead d) p); [|simpl; unfold head_of; rewrite HD; reflexivity|exact C].
    cbn [bind hdp]. exists w, p. rewrite app_nil_r in *. repeat split; auto.
    + symmetry; apply upd_same; exact HD.
    + rewrite FI; auto.
  - cbn [remover_loop]. rewrite (read_after w es0 (e :: es) (SHead d) p); [|simpl; unfold head_of; rewrite HD; reflexivity|exact C].
    cbn [bind hdp]. destruct (Nat.eqb_spec (tok e) t) as [E|NE].
    + assert (N : exists n, nth_error (sinks w) t = Some (Some (Sink (hnd e) n)) /\ chain (sinks w) n es).
      { clear -C E. revert p C. induction es0 as [|x es0 IH]; simpl; intros p C.
        - destruct C as (_ & n & N & C). rewrite E in N. eauto.
        - destruct C as (_ & n & _ & C). eauto. }
      destruct N as (n & N & Cn). unfold load_sink. rewrite N. cbn [bind snext].
      assert (ND0 : NoDup (map tok es0)) by (rewrite map_app in ND; apply NoDup_app_l in ND; exact ND).
      destruct (write_splice w d p es0 (e :: es) n HD C ND0) as (w' & p' & W & WL & WH & WS & WE & WC).
      rewrite W. cbn [bind].
      assert (T : t < length (sinks w')) by (rewrite WS; eapply nth_error_lt; eauto).
      rewrite aset_ok by exact T. cbn [bind].
      rewrite map_app in ND. apply NoDup_remove in ND. rewrite <- map_app, E in ND. destruct ND as [ND NIt].
      exists (World (upd (sinks w') t None) (heads w') (lists w')), p'. cbn [sinks heads lists].
      split; [reflexivity|]. split; [exact WL|]. split; [exact WH|]. split; [rewrite length_upd; exact WS|]. split.
      * intros u NU. rewrite nth_error_upd_ne.
        -- apply WE. intros X. apply NU. rewrite map_app, in_app_iff. auto.
        -- intros <-. apply NU. rewrite map_app, in_app_iff. right; left; exact E.
      * rewrite filter_app. simpl. rewrite E, Nat.eqb_refl. simpl. rewrite <- filter_app, FI by exact NIt.
        apply (chain_ext (sinks w')).
        -- intros u IU. apply nth_error_upd_ne. intros <-. contradiction.
        -- apply WC. apply (chain_ext (sinks w)); [|exact Cn].
           intros u IU. apply WE. intros X. rewrite map_app in ND. revert IU X. clear -ND.
           induction es0 as [|y es0 IH]; simpl; intros IU X; [exact X|].
           simpl in ND. inversion ND as [|? ? A B]; subst. destruct X as [<-|X]; [|auto].
           apply A. apply in_or_app. auto.
    + rewrite <- (slot_after_snoc (SHead d) es0 e).
      replace (es0 ++ e :: es) with ((es0 ++ [e]) ++ es) in * by (rewrite <- app_assoc; reflexivity).
      apply (IH (es0 ++ [e]) fuel p); auto.
      * rewrite map_app, in_app_iff. simpl. tauto.
      * simpl in F; lia.
Qed.

Definition drop_tok (s : sworld H) (d t : nat) : sworld H :=
  match nth_error (disp s) d with
  | Some (Some es) => SWorld (made s) (upd (disp s) d (Some (filter (fun e => negb (tok e =? t)) es))) (live s)
  | _ => s
  end.
(* the part of rel that does not talk about listeners *)
Record rel0 (w : world H) (s : sworld H) : Prop := {
  q_made : length (sinks w) = made s;
  q_len : length (heads w) = length (disp s);
  q_chain : forall d es, nth_error (disp s) d = Some (Some es) ->
    exists p, nth_error (heads w) d = Some (Some p) /\ chain (sinks w) p es /\ NoDup (map tok es);
  q_dead : forall d, nth_error (disp s) d = Some None -> nth_error (heads w) d = Some None;
  q_apart : forall d d' t, In t (toks s d) -> In t (toks s d') -> d = d' }.
Lemma rel_rel0 w s : rel w s -> rel0 w s.
Proof. intros []; constructor; auto. Qed.

Lemma NoDup_map_filter {A B} (f : A -> B) g l : NoDup (map f l) -> NoDup (map f (filter g l)).
Proof.
  induction l as [|x l IH]; simpl; intros ND; [constructor|]. inversion ND as [|? ? NI ND']; subst.
  destruct (g x); simpl; auto. constructor; auto. intros I. apply NI.
  apply in_map_iff in I. destruct I as (y & E & I). apply filter_In in I. apply in_map_iff. exists y. tauto.
Qed.
Lemma remover_ok w s d t es :
  rel0 w s -> nth_error (disp s) d = Some (Some es) ->
  exists w', remover w (d, t) = Ok w' /\ lists w' = lists w /\ rel0 w' (drop_tok s d t).
Proof.
  intros R E. destruct (q_chain _ _ R d es E) as (p & HD & C & ND).
  pose proof (chain_nodup_len _ _ _ C ND) as L.
  unfold remover. cbn [fst snd].
  destruct (remover_loop_ok w d t es [] (S (S (length (sinks w)))) p HD C ND) as (w' & p' & RM & WL & WH & WS & WE & WC);
    [simpl; tauto|lia|].
  simpl slot_after in RM. exists w'. split; [exact RM|]. split; [exact WL|].
  assert (DL : d < length (disp s)) by (eapply nth_error_lt; eauto).
  unfold drop_tok. rewrite E. simpl app in WE, WC.
  constructor; cbn [made disp live].
  - rewrite WS. apply (q_made _ _ R).
  - rewrite WH, !length_upd. apply (q_len _ _ R).
  - intros d' es' E'. rewrite nth_error_upd in E'. rewrite WH, nth_error_upd.
    destruct (Nat.eqb_spec d d') as [<-|NE]; simpl in *.
    + rewrite (proj2 (Nat.ltb_lt _ _)) in E' by exact DL. injection E' as <-.
      rewrite (proj2 (Nat.ltb_lt _ _)) by (rewrite (q_len _ _ R); exact DL).
      exists p'. split; [reflexivity|]. split; [exact WC|]. apply NoDup_map_filter; exact ND.
    + destruct (q_chain _ _ R d' es' E') as (q & HQ & CQ & NQ). exists q. split; [exact HQ|]. split; [|exact NQ].
      apply (chain_ext (sinks w)); [|exact CQ]. intros u IU. apply WE. intros IE. apply NE.
      apply (q_apart _ _ R d d' u); unfold toks; [rewrite E|rewrite E']; auto.
  - intros d' E'. rewrite nth_error_upd in E'. rewrite WH, nth_error_upd.
    destruct (Nat.eqb_spec d d') as [EQ|NE]; simpl in *; [subst d'|].
    + rewrite (proj2 (Nat.ltb_lt _ _)) in E' by exact DL. discriminate.
    + apply (q_dead _ _ R); exact E'.
  - intros d1 d2 u. intros I1 I2. apply (q_apart _ _ R d1 d2 u).
    + revert I1. unfold toks. cbn [disp]. rewrite nth_error_upd. destruct (Nat.eqb_spec d d1) as [<-|]; simpl; auto.
      rewrite (proj2 (Nat.ltb_lt _ _)) by exact DL. rewrite E. intros I. apply in_map_iff in I.
      destruct I as (y & <- & I). apply filter_In in I. apply in_map; tauto.
    + revert I2. unfold toks. cbn [disp]. rewrite nth_error_upd. destruct (Nat.eqb_spec d d2) as [<-|]; simpl; auto.
      rewrite (proj2 (Nat.ltb_lt _ _)) by exact DL. rewrite E. intros I. apply in_map_iff in I.
      destruct I as (y & <- & I). apply filter_In in I. apply in_map; tauto.
Qed.

Definition drop_all (s : sworld H) (rs : list (nat * nat)) : sworld H :=
  fold_left (fun s r => drop_tok s (fst r) (snd r)) rs s.
Lemma drop_tok_nth s d t i :
  nth_error (disp (drop_tok s d t)) i =
  match nth_error (disp s) i with
  | Some (Some es) => Some (Some (if d =? i then filter (fun e => negb (tok e =? t)) es else es))
  | x => x
  end.
Proof.
  unfold drop_tok. destruct (nth_error (disp s) d) as [[es|]|] eqn:E; cbn [disp].
  - rewrite nth_error_upd. destruct (Nat.eqb_spec d i) as [<-|NE]; simpl.
    + rewrite (proj2 (Nat.ltb_lt _ _)) by (eapply nth_error_lt; eauto). rewrite E. reflexivity.
    + destruct (nth_error (disp s) i) as [[|]|]; reflexivity.
  - destruct (nth_error (disp s) i) as [[es'|]|] eqn:E'; auto.
    destruct (Nat.eqb_spec d i) as [<-|NE]; [congruence|reflexivity].
  - destruct (nth_error (disp s) i) as [[es'|]|] eqn:E'; auto.
    destruct (Nat.eqb_spec d i) as [<-|NE]; [congruence|reflexivity].
Qed.
Lemma filter_filter {A} (f g : A -> bool) l : filter f (filter g l) = filter (fun x => g x && f x) l.
Proof. induction l as [|x l IH]; simpl; [reflexivity|]. destruct (g x); simpl; [|exact IH]. destruct (f x); simpl; congruence. Qed.
Lemma drop_all_nth rs : forall s i,
  nth_error (disp (drop_all s rs)) i =
  match nth_error (disp s) i with
  | Some (Some es) => Some (Some (filter (fun e => negb (existsb (fun r => (fst r =? i) && (snd r =? tok e)) rs)) es))
  | x => x
  end.
Proof.
  induction rs as [|[d t] rs IH]; intros s i; simpl.
  - destruct (nth_error (disp s) i) as [[es|]|]; auto. f_equal. f_equal.
    induction es; simpl; congruence.
  - rewrite IH, drop_tok_nth. destruct (nth_error (disp s) i) as [[es|]|]; auto. f_equal. f_equal.
    destruct (Nat.eqb_spec d i); simpl.
    + rewrite filter_filter. apply filter_ext. intros x. rewrite (Nat.eqb_sym t (tok x)).
      destruct (tok x =? t); reflexivity.
    + reflexivity.
Qed.
Lemma removers_ok rs : forall w s,
  rel0 w s -> (forall d t, In (d, t) rs -> exists es, nth_error (disp s) d = Some (Some es)) ->
  exists w', removers w rs = Ok w' /\ lists w' = lists w /\ rel0 w' (drop_all s rs).
Proof.
  induction rs as [|[d t] rs IH]; intros w s R A; simpl.
  - eauto.
  - destruct (A d t (or_introl eq_refl)) as [es E].
    destruct (remover_ok w s d t es R E) as (w1 & E1 & L1 & R1). rewrite E1. cbn [bind].
    destruct (IH w1 (drop_tok s d t) R1) as (w2 & E2 & L2 & R2).
    + intros d' t' I. destruct (A d' t' (or_intror I)) as [es' E']. rewrite drop_tok_nth, E'. eauto.
    + exists w2. rewrite E2. split; [reflexivity|]. split; [congruence|exact R2].
Qed.

Lemma nth_error_snoc {A} (l : list A) x i y :
  nth_error (l ++ [x]) i = Some y -> nth_error l i = Some y \/ (i = length l /\ y = x).
Proof.
  intros E. destruct (Nat.lt_ge_cases i (length l)) as [L|L].
  - rewrite nth_error_app1 in E by exact L. auto.
  - rewrite nth_error_app2 in E by exact L. destruct (i - length l) as [|k] eqn:K; simpl in E.
    + right. split; [lia|congruence].
    + destruct k; discriminate.
Qed.

Lemma listen_ok w s l d h b : rel w s -> allowed s (Listen l d h b) ->
  exists w', lstep cb w (Listen l d h b) = Ok (w', snd (sstep s (Listen l d h b))) /\
    rel w' (fst (sstep s (Listen l d h b))).
Proof.
  intros R (LV & es & E & B).
  destruct (r_chain _ _ R d es E) as (p & HD & C & ND).
  pose proof (chain_nodup_len _ _ _ C ND) as L.
  destruct (r_live _ _ R l LV) as (rs & LS & RS).
  assert (RD : read w (SHead d) = Ok p) by (simpl; unfold head_of; rewrite HD; reflexivity).
  assert (CASE : (exists es1 es2, es = es1 ++ es2 /\ b = hdp es2 /\
            place b (Entry (made s) l h) es = Some (es1 ++ Entry (made s) l h :: es2) /\
            find_slot (S (S (length (sinks w)))) w (SHead d) b = Ok (slot_after (SHead d) es1)) \/
          (place b (Entry (made s) l h) es = None /\
           find_slot (S (S (length (sinks w)))) w (SHead d) b = Throw RuntimeError)).
  { destruct b as [t|].
    - destruct B as [B|B]; [discriminate|]. destruct (in_dec Nat.eq_dec t (map tok es)) as [I|NI].
      + left. destruct (proj1 (insert_before_split t (Entry (made s) l h) es) I) as (es1 & x & es2 & -> & T & NI & P).
        exists es1, (x :: es2). cbn [hdp place]. rewrite T. repeat split; auto.
        eapply find_slot_found; eauto. rewrite app_length in L. simpl in L. lia.
      + right. split; [apply (proj2 (insert_before_split t (Entry (made s) l h) es)); exact NI|].
        eapply find_slot_missing; eauto. lia.
    - left. exists es, []. rewrite app_nil_r. repeat split; auto.
      eapply find_slot_end; eauto. lia. }
  simpl. rewrite E. unfold listen. rewrite LS. unfold attach.
  destruct CASE as [(es1 & es2 & ES & HB & P & F)|(P & F)]; rewrite P, F.
  2:{ simpl. exists w. split; auto. }
  cbn [bind]. set (a := length (sinks w)).
  set (w1 := World (sinks w ++ [Some (Sink h b)]) (heads w) (lists w)).
  assert (KEEP : forall u, u < a -> nth_error (sinks w1) u = nth_error (sinks w) u)
    by (intros u U; unfold w1; simpl; apply nth_error_app1; exact U).
  assert (C1 : chain (sinks w1) p (es1 ++ es2)).
  { rewrite <- ES. apply (chain_ext (sinks w)); [|exact C]. intros u IU. apply KEEP. eapply chain_lt; eauto. }
  assert (ND1 : NoDup (map tok es1)) by (rewrite ES, map_app in ND; apply NoDup_app_l in ND; exact ND).
  destruct (write_splice w1 d p es1 es2 (Some a) HD C1 ND1) as (w2 & p' & W & WL & WH & WS & WE & WC).
  rewrite W. cbn [bind]. rewrite WL. simpl lists. rewrite LS.
  assert (LL : l < length (lists w)) by (eapply nth_error_lt; eauto).
  assert (DL : d < length (disp s)) by (eapply nth_error_lt; eauto).
  rewrite aset_ok by exact LL. cbn [bind].
  eexists. split; [reflexivity|].
  set (ne := Entry (made s) l h).
  assert (FRESH : forall i es', nth_error (disp s) i = Some (Some es') -> ~ In a (map tok es')).
  { intros i es' E' I. destruct (r_chain _ _ R i es' E') as (q & _ & CQ & _).
    pose proof (chain_lt _ _ _ _ CQ I). unfold a in *. lia. }
  assert (TA : tok ne = a) by (unfold ne, a; simpl; symmetry; apply (r_made _ _ R)).
  assert (WA : nth_error (sinks w2) a = Some (Some (Sink h b))).
  { rewrite WE.
    - unfold w1; simpl. rewrite nth_error_app2 by (unfold a; lia). unfold a. rewrite Nat.sub_diag. reflexivity.
    - intros I. apply (FRESH d es E). rewrite ES, map_app, in_app_iff. auto. }
  assert (C2 : chain (sinks w2) p' (es1 ++ ne :: es2)).
  { apply WC. cbn [chain]. split; [f_equal; symmetry; exact TA|]. exists b. split; [rewrite TA; exact WA|].
    assert (C0 : chain (sinks w1) b es2).
    { clear -C1 HB. clearbody w1. revert p C1. induction es1 as [|x es1 IH]; simpl; intros p C1.
      - rewrite HB. rewrite (chain_hd _ _ _ C1) in C1. exact C1.
      - destruct C1 as (_ & n & _ & C1). eauto. }
    apply (chain_ext (sinks w1)); [|exact C0]. intros u IU. apply WE. intros I.
    rewrite ES, map_app in ND. revert I IU. clear -ND. induction es1 as [|y es1 IH]; simpl; intros I IU; [exact I|].
    simpl in ND. inversion ND as [|? ? A0 B0]; subst. destruct I as [<-|I]; [|auto]. apply A0, in_or_app; auto. }
  assert (INE : forall x, In x (es1 ++ ne :: es2) <-> In x es \/ x = ne).
  { intros x. rewrite ES, !in_app_iff. simpl. intuition congruence. }
  constructor; cbn [sinks heads lists made disp live fst].
  - rewrite WS. unfold w1; simpl. rewrite app_length; simpl. rewrite (r_made _ _ R). lia.
  - rewrite WH, !length_upd. apply (r_len _ _ R).
  - intros d' es' E'. rewrite nth_error_upd in E'. rewrite WH, nth_error_upd.
    destruct (Nat.eqb_spec d d') as [<-|NE]; simpl in *.
    + rewrite (proj2 (Nat.ltb_lt _ _)) in E' by exact DL. injection E' as <-.
      rewrite (proj2 (Nat.ltb_lt _ _)) by (rewrite (r_len _ _ R); exact DL).
      exists p'. split; [reflexivity|]. split; [exact C2|].
      rewrite map_app. simpl. fold ne in TA. 
      apply NoDup_Add with (a := made s) (l := map tok es); [|split; [exact ND|]].
      * rewrite ES, map_app. apply Add_app.
      * rewrite <- (r_made _ _ R). apply (FRESH d); exact E.
    + destruct (r_chain _ _ R d' es' E') as (q & HQ & CQ & NQ). exists q. split; [exact HQ|]. split; [|exact NQ].
      apply (chain_ext (sinks w)); [|exact CQ]. intros u IU. rewrite WE.
      * apply KEEP. eapply chain_lt; eauto.
      * intros IE. apply NE. apply (r_apart _ _ R d d' u); unfold toks; [rewrite E|rewrite E']; auto.
        rewrite ES, map_app, in_app_iff; auto.
  - intros d' E'. rewrite nth_error_upd in E'. rewrite WH, nth_error_upd.
    destruct (Nat.eqb_spec d d') as [EQ|NE]; simpl in *; [subst d'|].
    + rewrite (proj2 (Nat.ltb_lt _ _)) in E' by exact DL. discriminate.
    + apply (r_dead _ _ R); exact E'.
  - intros d1 d2 u I1 I2.
    assert (X : forall di, In u (toks (SWorld (S (made s)) (upd (disp s) d (Some (es1 ++ ne :: es2))) (live s)) di) ->
              In u (toks s di) \/ (u = a /\ di = d)).
    { intros di. unfold toks. cbn [disp]. rewrite nth_error_upd. destruct (Nat.eqb_spec d di) as [<-|]; simpl; auto.
      rewrite (proj2 (Nat.ltb_lt _ _)) by exact DL. rewrite E. intros I. apply in_map_iff in I.
      destruct I as (y & <- & I). apply INE in I. destruct I as [I| ->]; [left; apply in_map; auto|auto]. }
    assert (NF : forall di, In u (toks s di) -> u <> a).
    { intros di I ->. revert I. unfold toks. destruct (nth_error (disp s) di) as [[es'|]|] eqn:E'; simpl; auto.
      apply (FRESH di); auto. }
    destruct (X _ I1) as [J1|[U1 ->]], (X _ I2) as [J2|[U2 ->]]; auto.
    + apply (r_apart _ _ R d1 d2 u); auto.
    + subst u. destruct (NF _ J1); reflexivity.
    + subst u. destruct (NF _ J2); reflexivity.
  - rewrite length_upd. apply (r_llen _ _ R).
  - intros l' LV'. destruct (r_live _ _ R l' LV') as (rs' & LS' & RS').
    assert (XE : forall d0 t, (exists es0 e, nth_error (upd (disp s) d (Some (es1 ++ ne :: es2))) d0 = Some (Some es0) /\
                 In e es0 /\ tok e = t /\ who e = l') <->
               (exists es0 e, nth_error (disp s) d0 = Some (Some es0) /\ In e es0 /\ tok e = t /\ who e = l') \/
               (d0 = d /\ t = a /\ l' = l)).
    { intros d0 t. rewrite nth_error_upd. destruct (Nat.eqb_spec d d0) as [<-|NE]; simpl.
      - rewrite (proj2 (Nat.ltb_lt _ _)) by exact DL. split.
        + intros (es0 & e & Q & I & T & W0). injection Q as <-. apply INE in I. destruct I as [I| ->].
          * left. exists es, e. auto.
          * right. simpl in W0. rewrite TA in T. auto.
        + intros [(es0 & e & Q & I & T & W0)|(_ & -> & ->)].
          * rewrite E in Q. injection Q as <-. exists (es1 ++ ne :: es2), e. rewrite INE. auto.
          * exists (es1 ++ ne :: es2), ne. rewrite INE. simpl; auto.
      - split; [auto|]. intros [X|(-> & _)]; [auto|congruence]. }
    rewrite nth_error_upd. destruct (Nat.eqb_spec l l') as [<-|NE]; simpl.
    + rewrite (proj2 (Nat.ltb_lt _ _)) by exact LL. exists (rs ++ [(d, a)]). split; [reflexivity|].
      intros d0 t. rewrite XE, in_app_iff, RS. simpl. intuition congruence.
    + exists rs'. split; [exact LS'|]. intros d0 t. rewrite XE, RS'. intuition congruence.
  - intros l' G. rewrite nth_error_upd. destruct (Nat.eqb_spec l l') as [<-|NE]; simpl.
    + congruence.
    + apply (r_gone _ _ R); exact G.
  - intros d' es' e E' I. rewrite nth_error_upd in E'. destruct (Nat.eqb_spec d d') as [<-|NE]; simpl in E'.
    + rewrite (proj2 (Nat.ltb_lt _ _)) in E' by exact DL. injection E' as <-. apply INE in I. destruct I as [I| ->].
      * eapply (r_who _ _ R); eauto.
      * simpl. eapply nth_error_lt; eauto.
    + eapply (r_who _ _ R); eauto.
Qed.

Lemma nth_map_forget l (ds : list (option (list ent))) i :
  nth_error (map (forget l) ds) i = option_map (forget l) (nth_error ds i).
Proof. apply nth_error_map. Qed.
Lemma destroy_ok w s l : rel w s -> allowed s (DestroyListener l) ->
  exists w', lstep cb w (DestroyListener l) = Ok (w', Done) /\ rel w' (fst (sstep s (DestroyListener l))).
Proof.
  intros R LV. simpl in LV. destruct (r_live _ _ R l LV) as (rs & LS & RS).
  simpl. unfold destroy_listener. rewrite LS.
  destruct (removers_ok rs w s (rel_rel0 _ _ R)) as (w1 & E1 & L1 & R1).
  { intros d t I. apply RS in I. destruct I as (es & e & X & _). eauto. }
  rewrite E1. cbn [bind]. rewrite L1.
  assert (LL : l < length (lists w)) by (eapply nth_error_lt; eauto).
  rewrite aset_ok by exact LL. cbn [bind]. eexists. split; [reflexivity|].
  assert (DE : disp (drop_all s rs) = map (forget l) (disp s)).
  { apply nth_ext_opt; intros i. rewrite drop_all_nth, nth_map_forget.
    destruct (nth_error (disp s) i) as [[es|]|] eqn:E; simpl; auto. f_equal. f_equal.
    apply filter_ext_in. intros e I. f_equal. apply eq_true_iff_eq. rewrite existsb_exists, Nat.eqb_eq. split.
    - intros ([d t] & IR & B). simpl in B. apply andb_true_iff in B. destruct B as [B1 B2].
      apply Nat.eqb_eq in B1, B2. subst d t. apply RS in IR. destruct IR as (es' & e' & X & I' & T & W).
      rewrite E in X. injection X as <-.
      destruct (r_chain _ _ R i es E) as (_ & _ & _ & ND).
      assert (e' = e); [|congruence].
      clear -I I' T ND. induction es as [|y es IH]; [destruct I|]. simpl in ND. inversion ND as [|? ? NI ND']; subst.
      destruct I as [->|I], I' as [->|I']; auto.
      + exfalso. apply NI. rewrite <- T. apply in_map; auto.
      + exfalso. apply NI. rewrite T. apply in_map; auto.
    - intros W. exists (i, tok e). simpl. rewrite !Nat.eqb_refl. split; [|reflexivity].
      apply RS. eauto 7. }
  assert (MK : made (drop_all s rs) = made s /\ live (drop_all s rs) = live s).
  { clear. revert s. induction rs as [|[d t] rs IH]; intros s; simpl; [auto|].
    destruct (IH (drop_tok s d t)) as [A B]. unfold drop_all in *. rewrite A, B. unfold drop_tok.
    destruct (nth_error (disp s) d) as [[|]|]; auto. }
  destruct MK as [MK ML]. simpl fst.
  assert (INF : forall d es', nth_error (map (forget l) (disp s)) d = Some (Some es') ->
             exists es, nth_error (disp s) d = Some (Some es) /\ es' = filter (fun e => negb (who e =? l)) es).
  { intros d es'. rewrite nth_map_forget. destruct (nth_error (disp s) d) as [[es|]|]; simpl; intros X; try discriminate.
    injection X as <-. eauto. }
  destruct R1 as [A1 A2 A3 A4 A5]. constructor; cbn [sinks heads lists made disp live].
  - congruence.
  - congruence.
  - rewrite <- DE. exact A3.
  - rewrite <- DE. exact A4.
  - unfold toks in *. cbn [disp]. rewrite <- DE. exact A5.
  - rewrite !length_upd. apply (r_llen _ _ R).
  - intros l' LV'. rewrite nth_error_upd in LV'. rewrite nth_error_upd.
    destruct (Nat.eqb_spec l l') as [EQ|NE]; simpl in *; [subst l'|].
    + rewrite (proj2 (Nat.ltb_lt _ _)) in LV' by (rewrite <- (r_llen _ _ R); exact LL). discriminate.
    + destruct (r_live _ _ R l' LV') as (rs' & LS' & RS'). exists rs'. split; [exact LS'|].
      intros d t. rewrite RS'. split.
      * intros (es & e & X & I & T & W). exists (filter (fun e => negb (who e =? l)) es), e.
        rewrite nth_map_forget, X. simpl. repeat split; auto. apply filter_In. split; auto.
        rewrite (proj2 (Nat.eqb_neq _ _)) by congruence. reflexivity.
      * intros (es' & e & X & I & T & W). destruct (INF _ _ X) as (es & E & ->). apply filter_In in I.
        exists es, e. tauto.
  - intros l' G. rewrite nth_error_upd in G. rewrite nth_error_upd.
    destruct (Nat.eqb_spec l l') as [EQ|NE]; simpl in *; [subst l'|].
    + rewrite (proj2 (Nat.ltb_lt _ _)) by exact LL. reflexivity.
    + apply (r_gone _ _ R); exact G.
  - intros d es' e X I. rewrite length_upd. destruct (INF _ _ X) as (es & E & ->). apply filter_In in I.
    eapply (r_who _ _ R); [exact E|tauto].
Qed.

Lemma step_ok w s o : rel w s -> allowed s o ->
  exists w', lstep cb w o = Ok (w', snd (sstep s o)) /\ rel w' (fst (sstep s o)).
Proof.
  intros R A. destruct o as [| |l d h b|d|l|d].
  - simpl. eexists. split; [reflexivity|].
    assert (NE : forall i es, nth_error (disp s ++ [Some []]) i = Some (Some es) ->
       nth_error (disp s) i = Some (Some es) \/ (i = length (disp s) /\ es = [])).
    { intros i es X. apply nth_error_snoc in X. destruct X as [X|[-> X]]; [auto|]. right; split; congruence. }
    destruct R as [B1 B2 B3 B4 B5 B6 B7 B8 B9]. constructor; cbn [sinks heads lists made disp live]; auto.
    + rewrite !app_length. simpl. lia.
    + intros i es X. apply NE in X. destruct X as [X|[-> ->]].
      * destruct (B3 i es X) as (p & P1 & P2 & P3). exists p. split; auto.
        rewrite nth_error_app1; [exact P1|]. eapply nth_error_lt; eauto.
      * exists None. rewrite <- B2, nth_error_app2, Nat.sub_diag by lia. simpl. repeat split; constructor.
    + intros i X. apply nth_error_snoc in X. destruct X as [X|[_ X]]; [|discriminate].
      rewrite nth_error_app1; [auto|]. rewrite B2. eapply nth_error_lt; eauto.
    + intros d d' t.
      assert (X : forall di, In t (toks (SWorld (made s) (disp s ++ [Some []]) (live s)) di) -> In t (toks s di)).
      { intros di. unfold toks. cbn [disp]. destruct (nth_error (disp s ++ [Some []]) di) as [[es|]|] eqn:E; try (intros []).
        apply NE in E. destruct E as [-> |[_ ->]]; auto. intros []. }
      intros I1 I2. eapply B5; eauto.
    + intros l LV. destruct (B7 l LV) as (rs & L1 & L2). exists rs. split; [exact L1|].
      intros d t. rewrite L2. split.
      * intros (es & e & X & Y). exists es, e. split; auto. rewrite nth_error_app1; [exact X|eapply nth_error_lt; eauto].
      * intros (es & e & X & I & Y). apply NE in X. destruct X as [X|[_ ->]]; [|destruct I]. exists es, e. auto.
    + intros i es e X I. apply NE in X. destruct X as [X|[_ ->]]; [|destruct I]. eauto.
  - simpl. eexists. split; [reflexivity|].
    destruct R as [B1 B2 B3 B4 B5 B6 B7 B8 B9]. constructor; cbn [sinks heads lists made disp live]; auto.
    + rewrite !app_length. simpl. lia.
    + intros l X. apply nth_error_snoc in X. destruct X as [X|[-> _]].
      * destruct (B7 l X) as (rs & L1 & L2). exists rs. split; auto.
        rewrite nth_error_app1; [exact L1|eapply nth_error_lt; eauto].
      * exists []. rewrite <- B6, nth_error_app2, Nat.sub_diag by lia. split; [reflexivity|].
        intros d t. split; [intros []|]. intros (es & e & X & I & T & W). exfalso.
        specialize (B9 _ _ _ X I). lia.
    + intros l X. apply nth_error_snoc in X. destruct X as [X|[_ X]]; [|discriminate].
      rewrite nth_error_app1; [auto|]. rewrite B6. eapply nth_error_lt; eauto.
    + intros i es e X I. rewrite app_length. specialize (B9 _ _ _ X I). lia.
  - apply listen_ok; auto.
  - destruct A as (es & E). simpl. rewrite E. destruct (r_chain _ _ R d es E) as (p & HD & C & ND).
    pose proof (chain_nodup_len _ _ _ C ND) as L.
    unfold dispatch, head_of. rewrite HD. cbn [bind].
    rewrite (dispatch_chain w es p) by (auto; lia). cbn [bind]. simpl. eauto.
  - apply destroy_ok; auto.
  - simpl in A. simpl. destruct (r_chain _ _ R d [] A) as (p & HD & _ & _).
    unfold destroy_dispatcher, head_of. rewrite HD. cbn [bind].
    assert (DL : d < length (disp s)) by (eapply nth_error_lt; eauto).
    assert (NE : forall i es, nth_error (upd (disp s) d None) i = Some (Some es) -> i <> d /\ nth_error (disp s) i = Some (Some es)).
    { intros i es X. rewrite nth_error_upd in X. destruct (Nat.eqb_spec d i) as [<-|N]; simpl in X.
      - rewrite (proj2 (Nat.ltb_lt _ _)) in X by exact DL. discriminate.
      - auto. }
    rewrite aset_ok by (eapply nth_error_lt; eauto). cbn [bind]. eexists. split; [reflexivity|].
    destruct R as [B1 B2 B3 B4 B5 B6 B7 B8 B9]. constructor; cbn [sinks heads lists made disp live]; auto.
    + rewrite !length_upd. auto.
    + intros i es X. apply NE in X. destruct X as [N X]. destruct (B3 i es X) as (q & Q1 & Q2).
      exists q. split; auto. rewrite nth_error_upd_ne by auto. exact Q1.
    + intros i X. rewrite nth_error_upd in X. rewrite nth_error_upd, B2. destruct (Nat.eqb_spec d i) as [EQ|N]; cbn [andb] in *; [|exact (B4 i X)].
      rewrite (proj2 (Nat.ltb_lt _ _)) by exact DL. reflexivity.
    + intros d1 d2 t.
      assert (X : forall di, In t (toks (SWorld (made s) (upd (disp s) d None) (live s)) di) -> In t (toks s di)).
      { intros di. unfold toks. cbn [disp]. destruct (nth_error (upd (disp s) d None) di) as [[es|]|] eqn:E; try (intros []).
        apply NE in E. destruct E as [_ ->]; auto. }
      intros I1 I2. eapply B5; eauto.
    + intros l LV. destruct (B7 l LV) as (rs & L1 & L2). exists rs. split; [exact L1|].
      intros d0 t. rewrite L2. split.
      * intros (es & e & X & I & Y). exists es, e. split; auto. rewrite nth_error_upd_ne; [exact X|].
        intros <-. rewrite A in X. injection X as <-. destruct I.
      * intros (es & e & X & I & Y). apply NE in X. exists es, e. tauto.
    + intros i es e X I. apply NE in X. destruct X as [_ X]. eauto.
Qed.

Lemma run_ok ops : forall w s, rel w s -> all_allowed s ops ->
  exists w', lrun cb w ops = Ok (w', snd (srun_from s ops)) /\ rel w' (fst (srun_from s ops)).
Proof.
  induction ops as [|o ops IH]; intros w s R A; simpl.
  - eauto.
  - destruct A as [A1 A2]. destruct (step_ok w s o R A1) as (w1 & E1 & R1). rewrite E1. cbn [bind].
    destruct (sstep s o) as [s1 x]. simpl in *.
    destruct (IH w1 s1 R1 A2) as (w2 & E2 & R2). rewrite E2. cbn [bind].
    destruct (srun_from s1 ops) as [s2 xs]. simpl in *. eauto.
Qed.
End Proofs.

(* ---- C19 ---- *)
(* Every history of creating, listening, dispatching and destroying: every answer is the
   one of the specification (a dispatch calls the handlers of the registrations currently
   held, once each, in order), and nothing undefined happens.  Handlers do not change
   registrations. *)
Theorem C19_dispatch_in_order :
  forall (H : Type) (cb : H -> world H -> outcome (world H)), (forall h w, cb h w = Ok w) ->
  forall ops : list (lnop H), all_allowed snew ops ->
  exists w, lrun cb wnew ops = Ok (w, snd (srun_from snew ops)).
Proof.
  intros H cb Q ops A. destruct (run_ok cb Q ops wnew snew rel_new A) as (w & E & _). eauto.
Qed.
Print Assumptions C19_dispatch_in_order.

Definition listen_demo : list (lnop nat) :=
  [NewDispatcher; NewDispatcher; NewListener; NewListener;
   Listen 0 0 10 None; Listen 1 0 11 None; Listen 0 1 12 None; Listen 1 0 13 (Some 1);
   Dispatch 0; Dispatch 1; Listen 0 0 14 (Some 2); DestroyListener 0; Dispatch 0; Dispatch 1;
   DestroyDispatcher 1; DestroyListener 1; Dispatch 0].
Example C19_demo :
  all_allowed snew listen_demo /\
  snd (srun_from snew listen_demo) =
    [Done; Done; Done; Done; Done; Done; Done; Done; Called [10; 13; 11]; Called [12]; Rejected; Done;
     Called [13; 11]; Called []; Done; Done; Called []].
Proof.
  split; [|vm_compute; reflexivity].
  simpl. repeat split; try (eexists; split; [reflexivity|]); try (eexists; reflexivity); auto; right; congruence.
Qed.

(* A handler that detaches its own registration while it is called: the dispatcher goes on
   reading the registration just deleted. *)
Theorem C19_detach_in_handler_refuted :
  exists (cb : nat -> world nat -> outcome (world nat)) (ops : list (lnop nat)),
    (forall h w, cb h w = destroy_listener w 0) /\
    all_allowed snew ops /\
    lrun cb wnew ops = UB UseAfterFree.
Proof.
  exists (fun _ w => destroy_listener w 0), [NewDispatcher; NewListener; Listen 0 0 10 None; Dispatch 0].
  split; [reflexivity|]. split; [|vm_compute; reflexivity].
  simpl. repeat split; auto; eexists; try split; try reflexivity; auto.
Qed.
(* An unknown "before" marker is rejected by an exception only if something is registered;
   on an empty dispatcher a null pointer is dereferenced. *)
Theorem C19_before_on_empty_refuted :
  forall (H : Type) (cb : H -> world H -> outcome (world H)) (h : H) (t : nat),
  lrun cb wnew [NewDispatcher; NewListener; Listen 0 0 h (Some t)] = UB NullDeref.
Proof. intros. reflexivity. Qed.
(* Moving a listener (its move constructor is defaulted) leaves two owners of the same
   source list: destroying the old one detaches the new one. *)
Theorem C19_moved_listener_refuted :
  exists w w1 w2 w3,
    lrun (fun (_ : nat) (w : world nat) => Ok w) wnew [NewDispatcher; NewListener; Listen 0 0 10 None] = Ok (w, [Done; Done; Done]) /\
    move_listener w 0 = Ok w1 /\
    destroy_listener w1 0 = Ok w2 /\
    dispatch (fun _ w => Ok w) 5 w2 0 = Ok (w3, []).
Proof. do 4 eexists. repeat split; vm_compute; reflexivity. Qed.
Print Assumptions C19_moved_listener_refuted.
