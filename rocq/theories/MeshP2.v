From Coq Require Import List ZArith Lia Bool Arith Permutation Sorted Field.
From Verif Require Import Base LinBase MapSpec LlrbModel AvlProofs AvlRemove AvlQueries LlrbProofs PropsLlrb KeySetModel KeySetProofs PropsKeySet SmatModel IncholModel PcgModel BcModel BcProofs PropsBc MeshModel MeshProofs.
Import ListNotations.
Local Open Scope nat_scope.
(* ---- the sets of conditions ---- *)
Section Sets.
Context {K : ofield}.
Local Open Scope lin_scope.
Add Field Kf65 : (f_th K).
Definition klex (p q : bc K) : comparison :=
  match Nat.compare (bn p) (bn q) with Eq => Nat.compare (bdof p) (bdof q) | r => r end.
Lemma bcmp_lex p q : bcmp p q = klex p q.
Proof.
  unfold bcmp, klex. destruct p as [n i d], q as [n' i' d']. cbn [bn bdof].
  destruct (Nat.eqb_spec n n'), (Nat.eqb_spec i i'), (Nat.ltb_spec n n'), (Nat.ltb_spec i i'); cbn [andb orb]; try lia;
  destruct (Nat.compare_spec n n'); try lia; auto; destruct (Nat.compare_spec i i'); auto; lia.
Qed.
Lemma bcmp_total : total_preorder (bcmp (K := K)).
Proof.
  constructor.
  - intros [n i d] [n' i' d']. rewrite !bcmp_lex. unfold klex. cbn [bn bdof]. rewrite (Nat.compare_antisym n n'), (Nat.compare_antisym i i').
    destruct (Nat.compare n n'); cbn [CompOpp]; auto.
  - intros [n i d] [n' i' d'] [n'' i'' d'']. rewrite !bcmp_lex. unfold klex. cbn [bn bdof].
    destruct (Nat.compare_spec n n'), (Nat.compare_spec n' n''), (Nat.compare_spec n n''); try lia; try discriminate; auto. rewrite !Nat.compare_lt_iff; lia.
  - intros [n i d] [n' i' d'] [n'' i'' d'']. rewrite !bcmp_lex. unfold klex. cbn [bn bdof].
    destruct (Nat.compare_spec n n'); try discriminate. destruct (Nat.compare_spec i i'); try discriminate. now subst.
Qed.
Lemma bcmp_eq (p q : bc K) : bcmp p q = Eq <-> bn p = bn q /\ bdof p = bdof q.
Proof.
  rewrite bcmp_lex. unfold klex. destruct (Nat.compare_spec (bn p) (bn q)), (Nat.compare_spec (bdof p) (bdof q)); split; intros; try discriminate; auto; lia.
Qed.
Lemma given_add (l : list (bc K)) v g s : given (l_add bcmp l v) g s = if Nat.eqb (bn v) g && Nat.eqb (bdof v) s then Some (bd v) else given l g s.
Proof.
  unfold l_add, given. destruct (existsb (eqb_v bcmp v) l) eqn:X.
  - apply existsb_exists in X as (y & Y & E). unfold eqb_v in E. destruct (bcmp v y) eqn:C; try discriminate. apply bcmp_eq in C as (C1 & C2).
    destruct (Nat.eqb (bn v) g && Nat.eqb (bdof v) s) eqn:B.
    + pose proof B as B0. apply andb_true_iff in B as (B1 & B2). apply Nat.eqb_eq in B1, B2. clear E. induction l as [|z l IH]; [destruct Y|]. cbn [map find]. assert (EV : eqb_v bcmp v z = match bcmp v z with Eq => true | _ => false end) by reflexivity. rewrite !EV. clear EV.
      destruct (bcmp v z) eqn:C; [rewrite B0; auto| |].
      * destruct Y as [->|Y]; [assert (Q : bcmp v y = Eq) by (apply bcmp_eq; auto); congruence|]. assert (N : (bn z =? g) && (bdof z =? s) = false).
        { apply andb_false_iff. destruct (Nat.eqb_spec (bn z) g), (Nat.eqb_spec (bdof z) s); auto. assert (Q : bcmp v z = Eq) by (apply bcmp_eq; lia). congruence. } rewrite N. auto.
      * destruct Y as [->|Y]; [assert (Q : bcmp v y = Eq) by (apply bcmp_eq; auto); congruence|]. assert (N : (bn z =? g) && (bdof z =? s) = false).
        { apply andb_false_iff. destruct (Nat.eqb_spec (bn z) g), (Nat.eqb_spec (bdof z) s); auto. assert (Q : bcmp v z = Eq) by (apply bcmp_eq; lia). congruence. } rewrite N. auto.
    + clear Y E. induction l as [|z l IH]; auto. cbn [map find]. assert (EV : eqb_v bcmp v z = match bcmp v z with Eq => true | _ => false end) by reflexivity. rewrite !EV. clear EV. destruct (bcmp v z) eqn:C.
      * rewrite B. apply bcmp_eq in C as (C3 & C4). rewrite <- C3, <- C4, B. exact IH.
      * destruct ((bn z =? g) && (bdof z =? s)); auto.
      * destruct ((bn z =? g) && (bdof z =? s)); auto.
  - assert (NX : forall y, In y l -> bcmp v y <> Eq).
    { intros y Y E. assert (Q : existsb (eqb_v bcmp v) l = true) by (apply existsb_exists; exists y; unfold eqb_v; rewrite E; auto). congruence. }
    clear X. induction l as [|z l IH]; cbn [app find]; auto.
    + destruct (Nat.eqb (bn v) g && Nat.eqb (bdof v) s); auto.
    + destruct ((bn z =? g) && (bdof z =? s)) eqn:B.
      * destruct ((bn v =? g) && (bdof v =? s)) eqn:B'; auto. exfalso. apply (NX z); [now left|]. apply bcmp_eq.
        apply andb_true_iff in B as (B1 & B2), B' as (B3 & B4). apply Nat.eqb_eq in B1, B2, B3, B4. lia.
      * apply IH. intros; apply NX; now right.
Qed.
Definition set_ok (n : nat) (s : iset (bc K)) (P : nat -> nat -> option K) : Prop :=
  (exists sv, irep bcmp s sv) /\ (forall u, In u (vals s) -> bn u < n /\ bdof u < 3)%nat /\ forall g t, given (vals s) g t = P g t.
Lemma set_new n : set_ok n inew (fun _ _ => None).
Proof.
  split; [|split].
  - exists []. split; [constructor|]. split; [constructor|]. split; [|constructor]. simpl. intros i. split; [tauto|lia].
  - intros u [].
  - reflexivity.
Qed.
Lemma set_ext n s P Q : set_ok n s P -> (forall g t, P g t = Q g t) -> set_ok n s Q.
Proof. intros (R & B & G) E. split; auto. split; auto. intros g t. now rewrite G. Qed.
Lemma set_more n n' s P : set_ok n s P -> n <= n' -> set_ok n' s P.
Proof. intros (R & B & G) L. split; auto. split; auto. intros u U. destruct (B u U). lia. Qed.
Lemma set_nodup n s P : set_ok n s P -> NoDup (map (fun u => (bn u, bdof u)) (vals s)).
Proof.
  intros ((sv & R) & _). pose proof (irep_unique bcmp bcmp_total s sv R) as U. apply NoDup_nth_error. intros i j L E. rewrite !nth_error_map in E. rewrite map_length in L.
  destruct (nth_error (vals s) i) as [x|] eqn:X; [|apply nth_error_None in X; lia]. destruct (nth_error (vals s) j) as [y|] eqn:Y; [|discriminate].
  cbn [option_map] in E. injection E as E1 E2. apply (U i j x y X Y). apply bcmp_eq. auto.
Qed.
Lemma set_none n s P g t : set_ok n s P -> n <= g -> P g t = None.
Proof.
  intros (_ & B & G) L. rewrite <- G. unfold given. destruct (find _ (vals s)) as [u|] eqn:F; auto. apply find_some in F as (F1 & F2).
  apply andb_true_iff in F2 as (F2 & _). apply Nat.eqb_eq in F2. destruct (B u F1). lia.
Qed.
Lemma add_ok n s P v : set_ok n s P -> (bn v < n)%nat -> (bdof v < 3)%nat -> exists s', iadd bcmp s [v] = Ok s' /\
  set_ok n s' (fun g t => if Nat.eqb (bn v) g && Nat.eqb (bdof v) t then Some (bd v) else P g t).
Proof.
  intros ((sv & R) & B & G) N3 D3. destruct (icopy_ok bcmp bcmp_total [v] s sv R) as (s' & sv' & E & R' & V'). exists s'. split; [exact E|]. cbn [fold_left] in V'.
  split; [eauto|]. rewrite V'. split.
  - intros u U. unfold l_add in U. destruct (existsb (eqb_v bcmp v) (vals s)).
    + apply in_map_iff in U as (y & <- & Y). destruct (eqb_v bcmp v y); auto.
    + apply in_app_iff in U as [U|[<-|[]]]; auto.
  - intros g t. now rewrite given_add, G.
Qed.
Lemma bit_test f i : bit f i = Z.testbit f (Z.of_nat i).
Proof.
  unfold bit. destruct (Z.eqb_spec (Z.land f (Z.shiftl 1 (Z.of_nat i))) 0) as [E|E]; cbn [negb].
  - assert (Q : Z.testbit (Z.land f (Z.shiftl 1 (Z.of_nat i))) (Z.of_nat i) = false) by (rewrite E; apply Z.testbit_0_l).
    rewrite Z.land_spec, Z.shiftl_spec, Z.sub_diag in Q by lia. rewrite andb_comm in Q. cbn in Q. auto.
  - destruct (Z.testbit f (Z.of_nat i)) eqn:T; auto. exfalso. apply E. apply Z.bits_inj'. intros j J. rewrite Z.land_spec, Z.testbit_0_l.
    destruct (Z.eq_dec j (Z.of_nat i)) as [->|N]; [now rewrite T|]. rewrite Z.shiftl_spec by lia. rewrite andb_comm.
    destruct (Z.lt_ge_cases j (Z.of_nat i)); [rewrite Z.testbit_neg_r by lia; auto|]. replace (Z.testbit 1 (j - Z.of_nat i)) with false; auto.
    destruct (j - Z.of_nat i)%Z as [|q|q] eqn:Q; try lia. destruct q; reflexivity.
Qed.
Lemma bc_one_ok n s P k f d i : set_ok n s P -> (k < n)%nat -> (i < 3)%nat -> exists s', bc_one k f d i s = Ok s' /\
  set_ok n s' (fun g t => if Nat.eqb g k && Nat.eqb t i && Z.testbit f (Z.of_nat i) then Some d else P g t).
Proof.
  intros S L I3. unfold bc_one. rewrite bit_test. destruct (Z.testbit f (Z.of_nat i)).
  - destruct (add_ok n s P (Bc k i d) S L I3) as (s' & E & S'). exists s'. split; auto. apply (set_ext n s' _ _ S'). intros g t. cbn [bn bdof bd].
    rewrite (Nat.eqb_sym k g), (Nat.eqb_sym i t), andb_true_r. reflexivity.
  - exists s. split; auto. apply (set_ext n s _ _ S). intros g t. now rewrite andb_false_r.
Qed.
Lemma force_one_ok n s P k f d i : set_ok n s P -> (k < n)%nat -> (i < 3)%nat -> exists s', force_one k f d i s = Ok s' /\
  set_ok n s' (fun g t => if Nat.eqb g k && Nat.eqb t i && Z.testbit f (Z.of_nat i) then Some (match P g t with Some e => d + e | None => d end) else P g t).
Proof.
  intros S L I3. unfold force_one. rewrite bit_test. destruct (Z.testbit f (Z.of_nat i)).
  - assert (H : exists e, (let* j := hasvalue bcmp s (Bc k i d) in match j with Some j => let* q := iget s j in Ok (d + bd q) | None => Ok d end) = Ok e /\
      e = match P k i with Some e => d + e | None => d end).
    { pose proof S as ((sv & R) & B & G). destruct (hasvalue_ok bcmp bcmp_total s sv (Bc k i d) R) as [(j & y & -> & Y & C)|(-> & NO)]; cbn [bind].
      - unfold iget. rewrite (aget_some _ _ _ Y). cbn [bind]. exists (d + bd y). split; auto. apply bcmp_eq in C as (C1 & C2). cbn [bn bdof] in C1, C2.
        rewrite <- G. unfold given. destruct (find _ (vals s)) as [z|] eqn:F.
        + apply find_some in F as (F1 & F2). apply andb_true_iff in F2 as (F2 & F3). apply Nat.eqb_eq in F2, F3. apply In_nth_error in F1 as (q & Q).
          assert (q = j) by (apply (irep_unique bcmp bcmp_total s sv R q j z y Q Y), bcmp_eq; lia). subst q. congruence.
        + apply find_none with (x := y) in F; [|eapply nth_error_In; eauto]. rewrite C1, C2, !Nat.eqb_refl in F. discriminate.
      - exists d. split; auto. rewrite <- G. unfold given. destruct (find _ (vals s)) as [z|] eqn:F; auto. apply find_some in F as (F1 & F2).
        apply andb_true_iff in F2 as (F2 & F3). apply Nat.eqb_eq in F2, F3. exfalso. apply (NO z F1). apply bcmp_eq. auto. }
    destruct H as (e & E & EE). destruct (add_ok n s P (Bc k i e) S L I3) as (s' & E' & S'). exists s'. split.
    + destruct (hasvalue bcmp s (Bc k i d)) as [j| |]; cbn [bind] in E |- *; try discriminate. rewrite E. cbn [bind]. exact E'.
    + apply (set_ext n s' _ _ S'). intros g t. cbn [bn bdof bd]. rewrite (Nat.eqb_sym k g), (Nat.eqb_sym i t), andb_true_r.
      destruct (Nat.eqb_spec g k); [|auto]. destruct (Nat.eqb_spec t i); [|auto]. subst. auto.
  - exists s. split; auto. apply (set_ext n s _ _ S). intros g t. now rewrite andb_false_r.
Qed.
End Sets.
