(* C76: the singly linked list of include/list.h as a list of elements, and the owning pointer of
   include/autodelete.h. *)
From Coq Require Import List Bool Arith Lia.
From Verif Require Import Base SlistModel.
Import ListNotations.

(* ---- what the list holds ---- *)
Fixpoint chain (h : list (option ptr)) (x : ptr) (xs : list nat) (y : ptr) : Prop :=
  match xs with
  | [] => x = y
  | a :: xs => x = Some a /\ exists n, nth_error h a = Some (Some n) /\ chain h n xs y
  end.
(* the list st holds exactly the elements xs, in this order *)
Definition holds (st : slist) (xs : list nat) : Prop :=
  chain (cells st) (shead st) xs None /\ NoDup xs.

Lemma chain_upd h a v xs : ~ In a xs -> forall x y, chain (upd h a v) x xs y <-> chain h x xs y.
Proof.
  induction xs as [|b xs IH]; simpl; intros N x y; [tauto|].
  assert (N' : ~ In a xs) by tauto.
  split; intros (E & n & Hn & Hc); (split; [exact E|]); exists n.
  - rewrite nth_error_upd_ne in Hn by (intro; subst; tauto). split; auto. apply IH in Hc; auto.
  - rewrite nth_error_upd_ne by (intro; subst; tauto). split; auto. apply IH; auto.
Qed.

Lemma chain_grow h v xs : forall x y, chain h x xs y -> chain (h ++ [v]) x xs y.
Proof.
  induction xs as [|b xs IH]; simpl; intros x y H; auto.
  destruct H as (E & n & Hn & Hc). split; auto. exists n; split; auto.
  rewrite nth_error_app1; auto. eapply nth_error_lt; eauto.
Qed.

Lemma chain_app h xs ys : forall x z, chain h x (xs ++ ys) z <-> exists y, chain h x xs y /\ chain h y ys z.
Proof.
  induction xs as [|a xs IH]; simpl; intros x z.
  - split; [intros H; exists x; auto | intros (y & -> & H); auto].
  - split.
    + intros (E & n & Hn & Hc). apply IH in Hc as (y & H1 & H2). exists y; split; auto. split; auto. exists n; auto.
    + intros (y & (E & n & Hn & Hc) & H2). split; auto. exists n; split; auto. apply IH; eauto.
Qed.

Lemma chain_live h xs a : In a xs -> forall x y, chain h x xs y -> exists n, nth_error h a = Some (Some n).
Proof.
  induction xs as [|b xs IH]; simpl; intros [].
  - subst; intros x y (_ & n & Hn & _); eauto.
  - intros x y (_ & n & _ & Hc). eapply IH; eauto.
Qed.

Lemma chain_bound h xs x y : chain h x xs y -> NoDup xs -> length xs <= length h.
Proof.
  intros Hc ND.
  assert (I : incl xs (seq 0 (length h))).
  { intros a Ia. destruct (chain_live _ _ _ Ia _ _ Hc) as (n & Hn). apply in_seq. apply nth_error_lt in Hn. lia. }
  pose proof (NoDup_incl_length ND I) as L. rewrite seq_length in L. exact L.
Qed.

(* the place that holds the end of a chain that starts at place t, and the pointer in front *)
Fixpoint endplace (t : place) (xs : list nat) : place :=
  match xs with [] => t | a :: xs => endplace (NextOf a) xs end.
Fixpoint lagplace (t l : place) (xs : list nat) : place :=
  match xs with [] => l | a :: xs => lagplace (NextOf a) t xs end.
Fixpoint lastptr (z : ptr) (xs : list nat) : ptr :=
  match xs with [] => z | a :: xs => lastptr (Some a) xs end.

Lemma peqb_spec x y : reflect (x = y) (peqb x y).
Proof.
  destruct x, y; simpl; try (constructor; congruence).
  destruct (Nat.eqb_spec n n0); constructor; congruence.
Qed.

Lemma ins_end st e n xs : rd_next (cells st) (Some e) = Ok n ->
  (forall y, n = Some y -> ~ In y xs) ->
  forall fuel t l x, rd st t = Ok x -> chain (cells st) x xs None -> length xs < fuel ->
  ins_loop fuel st e t l = wr st (endplace t xs) (Some e).
Proof.
  intros Hn Hy. induction xs as [|a xs IH]; intros fuel t l x Hr Hc L; destruct fuel; try (simpl in L; lia); cbn [ins_loop].
  - simpl in Hc; subst x. rewrite Hr; reflexivity.
  - destruct Hc as (-> & m & Hm & Hc). rewrite Hr; cbn [bind]. rewrite Hn; cbn [bind].
    destruct (peqb_spec n (Some a)) as [E|_].
    { exfalso; apply (Hy a E); left; auto. }
    rewrite andb_false_r.
    apply IH with (x := m); auto.
    + intros y Ey Iy; apply (Hy y Ey); right; auto.
    + simpl; rewrite Hm; auto.
    + simpl in L; lia.
Qed.

Lemma ins_mid st e y ys xs : rd_next (cells st) (Some e) = Ok (Some y) -> ~ In y xs ->
  forall fuel t l x z, rd st t = Ok x -> rd st l = Ok z -> chain (cells st) x (xs ++ y :: ys) None ->
  length xs < fuel ->
  ins_loop fuel st e t l = (let* h := wr_next (cells st) (match xs with [] => z | _ => lastptr None xs end) (Some e) in Ok (Sl h (shead st))).
Proof.
  intros Hn. induction xs as [|a xs IH]; intros Hy fuel t l x z Hr Hl Hc L; destruct fuel; try (simpl in L; lia); cbn [ins_loop].
  - destruct Hc as (-> & m & Hm & Hc). rewrite Hr; cbn [bind]. rewrite Hn; cbn [bind].
    simpl. rewrite Nat.eqb_refl. rewrite Hl; reflexivity.
  - destruct Hc as (-> & m & Hm & Hc). rewrite Hr; cbn [bind]. rewrite Hn; cbn [bind].
    destruct (peqb_spec (Some y) (Some a)) as [E|_].
    { exfalso; apply Hy; left; congruence. }
    rewrite andb_false_r.
    rewrite (IH ltac:(simpl in Hy; tauto) fuel (NextOf a) t m (Some a)); auto.
    + simpl. destruct xs; auto.
    + simpl; rewrite Hm; auto.
    + simpl in L; lia.
Qed.

Lemma rem_mid st a ys xs : ~ In a xs ->
  forall fuel t l x, rd st t = Ok x -> chain (cells st) x (xs ++ a :: ys) None -> length xs < fuel ->
  rem_loop fuel st (Some a) t l =
    (let* n := rd_next (cells st) (Some a) in
     let* st := wr st (lagplace t l xs) n in
     let* h := wr_next (cells st) (Some a) None in
     Ok (Sl h (shead st), Some a)).
Proof.
  induction xs as [|b xs IH]; intros Hy fuel t l x Hr Hc L; destruct fuel; try (simpl in L; lia); cbn [rem_loop].
  - destruct Hc as (-> & m & Hm & Hc). rewrite Hr; cbn [bind]. simpl peqb. rewrite Nat.eqb_refl. reflexivity.
  - destruct Hc as (-> & m & Hm & Hc). rewrite Hr; cbn [bind].
    destruct (peqb_spec (Some b) (Some a)) as [E|_].
    { exfalso; apply Hy; left; congruence. }
    rewrite andb_false_r.
    rewrite (IH ltac:(simpl in Hy; tauto) fuel (NextOf b) t m); auto.
    + simpl; rewrite Hm; auto.
    + simpl in L; lia.
Qed.

Lemma rem_none st e xs : (forall a, e = Some a -> ~ In a xs) ->
  forall fuel t l x z, rd st t = Ok x -> rd st l = Ok z -> chain (cells st) x xs None -> length xs < fuel ->
  rem_loop fuel st e t l = Ok (st, match xs with [] => z | _ => lastptr None xs end).
Proof.
  induction xs as [|b xs IH]; intros He fuel t l x z Hr Hl Hc L; destruct fuel; try (simpl in L; lia); cbn [rem_loop].
  - simpl in Hc; subst x. rewrite Hr; cbn [bind]; rewrite Hl; reflexivity.
  - destruct Hc as (-> & m & Hm & Hc). rewrite Hr; cbn [bind].
    assert (Q : negb (peqb e None) && peqb (Some b) e = false).
    { destruct (peqb_spec (Some b) e) as [E|_]; [|apply andb_false_r].
      exfalso; apply (He b); [auto | left; auto]. }
    rewrite Q.
    rewrite (IH ltac:(intros; intro; eapply He; eauto; right; auto) fuel (NextOf b) t m (Some b)); auto.
    + simpl. destruct xs; auto.
    + simpl; rewrite Hm; auto.
    + simpl in L; lia.
Qed.

Lemma push_end st xs : forall fuel t x, rd st t = Ok x -> chain (cells st) x xs None -> length xs < fuel ->
  push_loop fuel st t = wr st (endplace t xs) (shead st).
Proof.
  induction xs as [|a xs IH]; intros fuel t x Hr Hc L; destruct fuel; try (simpl in L; lia); cbn [push_loop].
  - simpl in Hc; subst x. rewrite Hr; reflexivity.
  - destruct Hc as (-> & m & Hm & Hc). rewrite Hr; cbn [bind].
    apply IH with (x := m); auto; [simpl; rewrite Hm; auto | simpl in L; lia].
Qed.

Lemma endplace_snoc t xs a : endplace t (xs ++ [a]) = NextOf a.
Proof. revert t; induction xs; simpl; auto. Qed.
Lemma lastptr_snoc z xs a : lastptr z (xs ++ [a]) = Some a.
Proof. revert z; induction xs; simpl; auto. Qed.
Lemma lagplace_snoc t l xs a : lagplace t l (xs ++ [a]) = endplace t xs.
Proof. revert t l; induction xs; simpl; intros; auto. Qed.

Lemma fuel_enough st xs : holds st xs -> length xs < fuel_of st.
Proof. intros (Hc & ND). pose proof (chain_bound _ _ _ _ Hc ND). unfold fuel_of; lia. Qed.

Lemma wr_ok st a x n : nth_error (cells st) a = Some (Some n) ->
  wr_next (cells st) (Some a) x = Ok (upd (cells st) a (Some x)).
Proof. intros H; simpl; rewrite H; apply aset_ok; eapply nth_error_lt; eauto. Qed.

(* ---- the operations, one by one ---- *)

Lemma holds_insert st xs e es : holds st xs -> chain (cells st) (Some e) (e :: es) None ->
  NoDup (xs ++ e :: es) ->
  exists st', sinsert st (Some e) = Ok (st', Some e) /\ holds st' (xs ++ e :: es) /\ length (cells st') = length (cells st)
    /\ forall b, ~ In b xs -> nth_error (cells st') b = nth_error (cells st) b.
Proof.
  intros H He ND. pose proof H as (Hc & NDx).
  assert (Dis : forall a, In a xs -> ~ In a (e :: es)).
  { intros a Ia Ib. clear - ND Ia Ib. induction xs as [|b xs IH]; [destruct Ia|].
    inversion ND; subst. destruct Ia; [subst; apply H1; apply in_or_app; auto | apply IH; auto]. }
  destruct He as (_ & n & Hn & Hes).
  assert (Hr : rd_next (cells st) (Some e) = Ok n) by (simpl; rewrite Hn; auto).
  unfold sinsert.
  rewrite (ins_end st e n xs Hr) with (x := shead st); auto using fuel_enough.
  2:{ intros y -> Iy. apply (Dis y Iy). right. destruct es; [discriminate Hes|]. destruct Hes as (E & _); injection E as ->; left; auto. }
  destruct xs as [|a xs] using rev_ind.
  - simpl. eexists; split; [reflexivity|]. repeat split; auto. exists n; auto.
  - clear IHxs. rewrite endplace_snoc.
    apply chain_app in Hc as (y & Hc1 & (-> & m & Hm & Ha)). simpl in Ha; subst m.
    cbn [wr]. rewrite (wr_ok st a (Some e) None Hm). cbn [bind].
    assert (Nax : ~ In a xs) by (apply NoDup_remove_2 in NDx; rewrite app_nil_r in NDx; auto).
    assert (Nae : ~ In a (e :: es)) by (apply Dis; apply in_or_app; right; left; auto).
    eexists; split; [reflexivity|]. split; [split; [|exact ND]|split].
    + simpl. apply chain_app. exists (Some e). split.
      * apply chain_app. exists (Some a). split.
        -- apply chain_upd; auto.
        -- simpl. split; auto. exists (Some e). split; auto. apply nth_error_upd_eq. eapply nth_error_lt; eauto.
      * apply (chain_upd _ _ _ _ Nae). simpl. split; auto. exists n; auto.
    + simpl. apply length_upd.
    + intros b Nb. simpl. apply nth_error_upd_ne. intros ->. apply Nb. apply in_or_app; right; left; auto.
Qed.

Lemma holds_insert_before st xs p y ys e : holds st (xs ++ p :: y :: ys) ->
  nth_error (cells st) e = Some (Some (Some y)) -> ~ In e (xs ++ p :: y :: ys) ->
  exists st', sinsert st (Some e) = Ok (st', Some e) /\ holds st' (xs ++ p :: e :: y :: ys) /\ length (cells st') = length (cells st).
Proof.
  intros H Hn Ne. pose proof H as (Hc & ND).
  pose proof (fuel_enough _ _ H) as F.
  replace (xs ++ p :: y :: ys) with ((xs ++ [p]) ++ y :: ys) in Hc, ND, Ne, F by (rewrite <- app_assoc; auto).
  unfold sinsert.
  assert (Ny : ~ In y (xs ++ [p])).
  { apply NoDup_remove_2 in ND. intro; apply ND; apply in_or_app; auto. }
  rewrite (ins_mid st e y ys (xs ++ [p])) with (x := shead st) (z := shead st); auto.
  2:{ simpl; rewrite Hn; auto. }
  2:{ rewrite app_length in F. lia. }
  assert (El : match xs ++ [p] with [] => shead st | _ => lastptr None (xs ++ [p]) end = Some p).
  { destruct (xs ++ [p]) eqn:E; [destruct xs; discriminate|]. rewrite <- E. apply lastptr_snoc. }
  rewrite El. clear El.
  apply chain_app in Hc as (q & Hc1 & Hc2). apply chain_app in Hc1 as (r & Hc0 & (-> & m & Hm & Ha)). simpl in Ha; subst q.
  rewrite (wr_ok st p (Some e) m Hm). cbn [bind].
  assert (Npx : ~ In p xs).
  { rewrite <- app_assoc in ND. apply NoDup_remove_2 in ND. intro; apply ND; apply in_or_app; auto. }
  assert (Npy : ~ In p (y :: ys)).
  { rewrite <- app_assoc in ND. apply NoDup_remove_2 in ND. intro; apply ND; apply in_or_app; right; auto. }
  assert (Ep : e <> p). { intros ->. apply Ne. apply in_or_app; left; apply in_or_app; right; left; auto. }
  destruct Hc2 as (-> & n & Hy & Hys).
  eexists; split; [reflexivity|]. split; [split|].
  - simpl. apply chain_app. exists (Some p). split; [apply chain_upd; auto|].
    simpl. split; auto. exists (Some e). split; [apply nth_error_upd_eq; eapply nth_error_lt; eauto|].
    split; auto. exists (Some y). split; [rewrite nth_error_upd_ne; auto|].
    split; auto. exists n. split; [rewrite nth_error_upd_ne; auto; intros ->; apply Npy; left; auto|].
    apply chain_upd; auto. intro; apply Npy; right; auto.
  - replace (xs ++ p :: e :: y :: ys) with ((xs ++ [p]) ++ e :: y :: ys) by (rewrite <- app_assoc; auto).
    apply NoDup_Add with (a := e) (l := (xs ++ [p]) ++ y :: ys); [apply Add_app | split; auto].
  - simpl; apply length_upd.
Qed.

Lemma holds_push st xs e es : holds st xs -> chain (cells st) (Some e) (e :: es) None ->
  NoDup (xs ++ e :: es) ->
  exists st', spush st (Some e) = Ok (st', Some e) /\ holds st' ((e :: es) ++ xs) /\ length (cells st') = length (cells st).
Proof.
  intros H He ND. pose proof H as (Hc & NDx).
  assert (Dis : forall a, In a xs -> ~ In a (e :: es)).
  { intros a Ia Ib. clear - ND Ia Ib. induction xs as [|b xs IH]; [destruct Ia|].
    inversion ND; subst. destruct Ia; [subst; apply H1; apply in_or_app; auto | apply IH; auto]. }
  assert (NDe : NoDup (e :: es)).
  { clear - ND. induction xs; auto. apply IHxs. inversion ND; auto. }
  assert (ND2 : NoDup ((e :: es) ++ xs)).
  { apply (Permutation.Permutation_NoDup (Permutation.Permutation_app_comm _ _) ND). }
  pose proof (chain_bound _ _ _ _ He NDe) as Lb.
  unfold spush.
  destruct (nth_error (cells st) e) as [[n|]|] eqn:Hn; try (destruct He as (_ & ? & ? & _); congruence).
  assert (Hes : chain (cells st) n es None) by (destruct He as (_ & n' & Hn' & Hs); congruence).
  rewrite (push_end st es (fuel_of st) (NextOf e) n); [|simpl; rewrite Hn; auto | auto | unfold fuel_of; simpl in Lb; lia].
  assert (exists zs z, e :: es = zs ++ [z] /\ endplace (NextOf e) es = NextOf z) as (zs & z & Ez & Ep).
  { destruct es as [|z es] using rev_ind; [exists [], e; auto|].
    exists (e :: es), z. split; auto. apply endplace_snoc. }
  rewrite Ep. rewrite Ez in He. apply chain_app in He as (q & He1 & (-> & m & Hm & Hz)). simpl in Hz; subst m.
  cbn [wr]. rewrite (wr_ok st z (shead st) None Hm). cbn [bind].
  assert (Nzx : ~ In z xs). { intros I. apply (Dis z I). rewrite Ez. apply in_or_app; right; left; auto. }
  assert (Nzz : ~ In z zs). { rewrite Ez in NDe. apply NoDup_remove_2 in NDe. rewrite app_nil_r in NDe. auto. }
  eexists; split; [reflexivity|]. split; [split; [|exact ND2]|simpl; apply length_upd].
  cbn [cells shead]. rewrite Ez. apply chain_app. exists (shead st). split.
  - apply chain_app. exists (Some z). split; [apply chain_upd; auto|].
    simpl. split; auto. exists (shead st). split; auto. apply nth_error_upd_eq. eapply nth_error_lt; eauto.
  - apply chain_upd; auto.
Qed.

Lemma holds_pop st a xs : holds st (a :: xs) ->
  exists st', spop st = Ok (st', Some a) /\ holds st' xs /\ length (cells st') = length (cells st) /\
    nth_error (cells st') a = Some (Some None).
Proof.
  intros ((E & n & Hn & Hc) & ND). inversion ND; subst.
  unfold spop. rewrite E. cbn [rd_next]. rewrite Hn. cbn [bind]. rewrite (wr_ok st a None n Hn). cbn [bind].
  eexists; split; [reflexivity|]. split; [split; auto|split].
  - simpl. apply chain_upd; auto.
  - simpl; apply length_upd.
  - simpl. apply nth_error_upd_eq. eapply nth_error_lt; eauto.
Qed.

(* Removing the first element removes it; removing any other one removes the one before as well. *)
Lemma holds_remove_first st a xs : holds st (a :: xs) ->
  exists st', sremove st (Some a) = Ok (st', Some a) /\ holds st' xs /\ length (cells st') = length (cells st).
Proof.
  intros H. pose proof (fuel_enough _ _ H) as F. destruct H as (Hc & ND).
  unfold sremove. rewrite (rem_mid st a xs []) with (x := shead st); auto; [|simpl in F; simpl; lia].
  destruct Hc as (E & n & Hn & Hc). inversion ND; subst.
  simpl rd_next. rewrite Hn. cbn [bind lagplace wr]. cbn [cells].
  rewrite (wr_ok st a None n Hn). cbn [bind].
  eexists; split; [reflexivity|]. split; [split; auto | simpl; apply length_upd].
  simpl. apply chain_upd; auto.
Qed.

Lemma holds_remove_later st xs p a ys : holds st (xs ++ p :: a :: ys) ->
  exists st', sremove st (Some a) = Ok (st', Some a) /\ holds st' (xs ++ ys) /\ length (cells st') = length (cells st).
Proof.
  intros H. pose proof (fuel_enough _ _ H) as F. destruct H as (Hc & ND).
  replace (xs ++ p :: a :: ys) with ((xs ++ [p]) ++ a :: ys) in * by (rewrite <- app_assoc; auto).
  unfold sremove.
  assert (ND1 := NoDup_remove_1 _ _ _ ND). assert (N1 := NoDup_remove_2 _ _ _ ND).
  rewrite (rem_mid st a ys (xs ++ [p])) with (x := shead st); auto.
  2:{ intro; apply N1; apply in_or_app; auto. }
  2:{ rewrite app_length in F; lia. }
  rewrite lagplace_snoc.
  rewrite <- app_assoc in ND1; simpl in ND1.
  assert (ND2 := NoDup_remove_1 _ _ _ ND1). assert (N2 := NoDup_remove_2 _ _ _ ND1).
  assert (Na : ~ In a ys) by (intro; apply N1; apply in_or_app; auto).
  assert (Nax : ~ In a xs) by (intro; apply N1; apply in_or_app; left; apply in_or_app; auto).
  apply chain_app in Hc as (q & Hc1 & (-> & n & Hn & Hys)).
  apply chain_app in Hc1 as (r & Hc0 & (-> & m & Hm & _)).
  simpl rd_next. rewrite Hn. cbn [bind].
  destruct xs as [|b xs] using rev_ind.
  - simpl. cbn [wr_next cells]. rewrite Hn. rewrite aset_ok by (eapply nth_error_lt; eauto). cbn [bind].
    eexists; split; [reflexivity|]. split; [split; auto | simpl; apply length_upd].
    simpl. apply chain_upd; auto.
  - clear IHxs. rewrite endplace_snoc.
    apply chain_app in Hc0 as (r & Hc0 & (-> & m' & Hm' & E)). simpl in E; subst m'.
    assert (ba : b <> a) by (intros ->; apply Nax; apply in_or_app; right; left; auto).
    rewrite <- app_assoc in ND2. simpl in ND2. assert (N3 := NoDup_remove_2 _ _ _ ND2).
    assert (Nbx : ~ In b xs) by (intro; apply N3; apply in_or_app; auto).
    assert (Nby : ~ In b ys) by (intro; apply N3; apply in_or_app; auto).
    cbn [wr]. rewrite (wr_ok st b n (Some p) Hm'). cbn [bind cells wr_next].
    rewrite nth_error_upd_ne by auto. rewrite Hn. rewrite aset_ok by (rewrite length_upd; eapply nth_error_lt; eauto).
    cbn [bind].
    eexists; split; [reflexivity|]. split; [split|simpl; rewrite !length_upd; auto].
    + cbn [cells shead]. rewrite <- app_assoc. apply chain_app. exists (Some b). split.
      * apply chain_upd; [intro; apply Nax; apply in_or_app; auto|]. apply chain_upd; auto.
      * simpl. split; auto. exists n. split.
        -- rewrite nth_error_upd_ne by auto. apply nth_error_upd_eq. eapply nth_error_lt; eauto.
        -- apply chain_upd; auto. apply chain_upd; auto.
    + rewrite <- app_assoc; auto.
Qed.

Lemma holds_remove_absent st xs e : holds st xs -> (forall a, e = Some a -> ~ In a xs) ->
  sremove st e = Ok (st, lastptr None xs).
Proof.
  intros H He. pose proof (fuel_enough _ _ H) as F. destruct H as (Hc & ND).
  unfold sremove. rewrite (rem_none st e xs He) with (x := shead st) (z := shead st); auto.
  destruct xs; auto. simpl in *. rewrite Hc; auto.
Qed.

Lemma holds_length st xs : holds st xs -> slength st = Ok (length xs).
Proof.
  intros H. pose proof (fuel_enough _ _ H) as F. destruct H as (Hc & ND). unfold slength.
  rewrite <- (Nat.add_0_l (length xs)). generalize 0 as s. revert F Hc. generalize (fuel_of st) (shead st). clear ND.
  induction xs as [|a xs IH]; simpl; intros fuel x F Hc s.
  - subst x. destruct fuel; simpl; f_equal; lia.
  - destruct Hc as (-> & n & Hn & Hc). destruct fuel; [lia|]. simpl. rewrite Hn. simpl.
    rewrite (IH fuel n) by (auto; lia). f_equal; lia.
Qed.

Lemma holds_empty st xs : holds st xs ->
  exists st', sempty st = Ok st' /\ holds st' [] /\ length (cells st') = length (cells st) /\
    (forall a, In a xs -> nth_error (cells st') a = Some None) /\
    (forall a, ~ In a xs -> nth_error (cells st') a = nth_error (cells st) a).
Proof.
  intros H. pose proof (fuel_enough _ _ H) as F. unfold sempty. remember (fuel_of st) as fuel eqn:X; clear X.
  revert st fuel H F. induction xs as [|a xs IH]; intros st fuel H F.
  - destruct H as (Hc & ND). simpl in Hc. exists st. split; [destruct fuel; simpl; unfold sisempty; rewrite Hc; auto|].
    split; [split; auto|]. repeat split; auto. intros ? [].
  - destruct fuel as [|fuel]; [lia|]. cbn [sempty_loop].
    assert (E : sisempty st = false). { destruct H as ((E & _) & _). unfold sisempty; rewrite E; auto. }
    rewrite E. pose proof H as ((Eh & n & Hn & Hc) & ND). inversion ND; subst.
    unfold spop. rewrite Eh. cbn [rd_next]. rewrite Hn. cbn [bind]. rewrite (wr_ok st a None n Hn). cbn [bind].
    unfold sdelete. cbn [cells shead]. pose proof (nth_error_lt _ _ _ Hn) as La.
    rewrite nth_error_upd_eq by auto. rewrite aset_ok by (rewrite length_upd; auto). cbn [bind].
    destruct (IH (Sl (upd (upd (cells st) a (Some None)) a None) n) fuel) as (st' & E' & H' & L' & D' & K').
    + split; auto. simpl. apply chain_upd; auto. apply chain_upd; auto.
    + simpl in F; lia.
    + exists st'. split; [exact E'|]. split; auto. simpl in L', K'. rewrite !length_upd in L'. split; auto. split.
      * intros b [<-|Ib]; auto. rewrite K' by auto. apply nth_error_upd_eq. rewrite length_upd; auto.
      * intros b Nb. simpl in Nb. rewrite K' by tauto. rewrite !nth_error_upd_ne by tauto. auto.
Qed.

(* ---- histories ---- *)

(* What a program does with the list: the elements are made as they are put in. *)
Inductive sop : Set :=
| SInsert            (* insert(new T) *)
| SBefore (a : nat)  (* insert(new T(a)): in front of a *)
| SPush              (* push(new T) *)
| SPop
| SRemove (a : nat)  (* remove(a) *)
| SRemoveNull        (* remove() *)
| SLength
| SEmpty.
Inductive sres : Set := RPtr (p : ptr) | RLen (n : nat) | RVoid.
Definition sstep (st : slist) (o : sop) : outcome (slist * sres) :=
  match o with
  | SInsert => let (st, e) := snew_elem st None in let* (st, p) := sinsert st (Some e) in Ok (st, RPtr p)
  | SBefore a => let (st, e) := snew_elem st (Some a) in let* (st, p) := sinsert st (Some e) in Ok (st, RPtr p)
  | SPush => let (st, e) := snew_elem st None in let* (st, p) := spush st (Some e) in Ok (st, RPtr p)
  | SPop => let* (st, p) := spop st in Ok (st, RPtr p)
  | SRemove a => let* (st, p) := sremove st (Some a) in Ok (st, RPtr p)
  | SRemoveNull => let* (st, p) := sremove st None in Ok (st, RPtr p)
  | SLength => let* n := slength st in Ok (st, RLen n)
  | SEmpty => let* st := sempty st in Ok (st, RVoid)
  end.
Fixpoint srun (st : slist) (ops : list sop) : outcome (slist * list sres) :=
  match ops with
  | [] => Ok (st, [])
  | o :: ops => let* (st, r) := sstep st o in let* (st, rs) := srun st ops in Ok (st, r :: rs)
  end.

(* The reference: a list of elements; n elements have been made. *)
Fixpoint before (e a : nat) (xs : list nat) : list nat :=
  match xs with
  | [] => [e]
  | x :: xs => if x =? a then e :: x :: xs else x :: before e a xs
  end.
Definition spec_step (s : nat * list nat) (o : sop) : (nat * list nat) * sres :=
  let (n, xs) := s in
  match o with
  | SInsert => ((S n, xs ++ [n]), RPtr (Some n))
  | SBefore a => ((S n, before n a xs), RPtr (Some n))
  | SPush => ((S n, n :: xs), RPtr (Some n))
  | SPop => ((n, tl xs), RPtr (hd_error xs))
  | SRemove a => ((n, remove Nat.eq_dec a xs), RPtr (Some a))
  | SRemoveNull => ((n, xs), RPtr (hd_error (rev xs)))
  | SLength => ((n, xs), RLen (length xs))
  | SEmpty => ((n, []), RVoid)
  end.
Fixpoint spec_run (s : nat * list nat) (ops : list sop) : (nat * list nat) * list sres :=
  match ops with
  | [] => (s, [])
  | o :: ops => let (s, r) := spec_step s o in let (s, rs) := spec_run s ops in (s, r :: rs)
  end.
(* pop from a list that is not empty; insert in front of another element than the first; remove
   the first element *)
Definition legal (s : nat * list nat) (o : sop) : Prop :=
  match o with
  | SBefore a => In a (tl (snd s))
  | SPop => snd s <> []
  | SRemove a => hd_error (snd s) = Some a
  | _ => True
  end.
Fixpoint all_legal (s : nat * list nat) (ops : list sop) : Prop :=
  match ops with
  | [] => True
  | o :: ops => legal s o /\ all_legal (fst (spec_step s o)) ops
  end.

Lemma lastptr_rev xs : lastptr None xs = hd_error (rev xs).
Proof. destruct xs as [|a xs] using rev_ind; auto. rewrite lastptr_snoc, rev_app_distr; auto. Qed.

Lemma before_app e a xs ys : ~ In a xs -> before e a (xs ++ a :: ys) = xs ++ e :: a :: ys.
Proof.
  induction xs as [|x xs IH]; simpl; intros N.
  - rewrite Nat.eqb_refl; auto.
  - destruct (Nat.eqb_spec x a); [subst; tauto|]. rewrite IH; tauto.
Qed.

Lemma remove_notin a xs : ~ In a xs -> remove Nat.eq_dec a xs = xs.
Proof.
  induction xs as [|x xs IH]; simpl; intros N; auto.
  destruct (Nat.eq_dec a x); [subst; tauto | rewrite IH; tauto].
Qed.

Lemma holds_lt st xs a : holds st xs -> In a xs -> a < length (cells st).
Proof. intros (Hc & _) I. destruct (chain_live _ _ _ I _ _ Hc) as (n & Hn). eapply nth_error_lt; eauto. Qed.

Lemma holds_new st xs n : holds st xs -> holds (fst (snew_elem st n)) xs.
Proof. intros (Hc & ND). split; auto. simpl. apply chain_grow; auto. Qed.

Lemma step_ok st xs o : holds st xs -> legal (length (cells st), xs) o ->
  exists st', sstep st o = Ok (st', snd (spec_step (length (cells st), xs) o)) /\
    length (cells st') = fst (fst (spec_step (length (cells st), xs) o)) /\
    holds st' (snd (fst (spec_step (length (cells st), xs) o))).
Proof.
  intros H L.
  assert (Nn : ~ In (length (cells st)) xs) by (intros I; apply (holds_lt _ _ _ H) in I; lia).
  destruct o; cbn [sstep spec_step fst snd].
  - destruct (holds_insert (fst (snew_elem st None)) xs (length (cells st)) []) as (st' & E & H' & L' & _).
    + apply holds_new; auto.
    + simpl. split; auto. exists None; split; auto. rewrite nth_error_app2, Nat.sub_diag by lia; auto.
    + apply NoDup_Add with (a := length (cells st)) (l := xs); [|destruct H; split; auto].
      rewrite <- (app_nil_r xs) at 1. apply Add_app.
    + unfold snew_elem in *. cbn [fst] in *. rewrite E. cbn [bind]. eexists; split; [reflexivity|]. split; auto.
      rewrite L'. simpl. rewrite app_length; simpl; lia.
  - simpl in L. destruct xs as [|x xs]; [destruct L|]. simpl in L.
    apply in_split in L as (l1 & l2 & ->).
    assert (exists zs p, x :: l1 = zs ++ [p]) as (zs & p & Ez).
    { destruct l1 as [|p l1] using rev_ind; [exists [], x; auto | exists (x :: l1), p; auto]. }
    assert (Ex : x :: l1 ++ a :: l2 = zs ++ p :: a :: l2).
    { change (x :: l1 ++ a :: l2) with ((x :: l1) ++ a :: l2). rewrite Ez, <- app_assoc; auto. }
    rewrite Ex in *.
    destruct (holds_insert_before (fst (snew_elem st (Some a))) zs p a l2 (length (cells st))) as (st' & E & H' & L').
    + apply holds_new; auto.
    + simpl. rewrite nth_error_app2, Nat.sub_diag by lia; auto.
    + auto.
    + unfold snew_elem in *. cbn [fst] in *. rewrite E. cbn [bind]. eexists; split; [reflexivity|]. split.
      * rewrite L'. simpl. rewrite app_length; simpl; lia.
      * replace (zs ++ p :: a :: l2) with ((zs ++ [p]) ++ a :: l2) by (rewrite <- app_assoc; auto).
        rewrite before_app; [rewrite <- app_assoc; auto|].
        destruct H as (_ & ND). replace (zs ++ p :: a :: l2) with ((zs ++ [p]) ++ a :: l2) in ND by (rewrite <- app_assoc; auto).
        apply NoDup_remove_2 in ND. intro; apply ND; apply in_or_app; auto.
  - destruct (holds_push (fst (snew_elem st None)) xs (length (cells st)) []) as (st' & E & H' & L').
    + apply holds_new; auto.
    + simpl. split; auto. exists None; split; auto. rewrite nth_error_app2, Nat.sub_diag by lia; auto.
    + apply NoDup_Add with (a := length (cells st)) (l := xs); [|destruct H; split; auto].
      rewrite <- (app_nil_r xs) at 1. apply Add_app.
    + unfold snew_elem in *. cbn [fst] in *. rewrite E. cbn [bind]. eexists; split; [reflexivity|]. split; auto.
      rewrite L'. simpl. rewrite app_length; simpl; lia.
  - simpl in L. destruct xs as [|x xs]; [tauto|].
    destruct (holds_pop _ _ _ H) as (st' & E & H' & L' & _). rewrite E. cbn [bind]. eexists; split; [reflexivity|]. auto.
  - simpl in L. destruct xs as [|x xs]; [discriminate|]. injection L as ->.
    destruct (holds_remove_first _ _ _ H) as (st' & E & H' & L'). rewrite E. cbn [bind]. eexists; split; [reflexivity|].
    split; auto. simpl. destruct (Nat.eq_dec a a); [|congruence].
    destruct H as (_ & ND); inversion ND; subst. rewrite remove_notin; auto.
  - rewrite (holds_remove_absent st xs None H) by discriminate. cbn [bind]. rewrite lastptr_rev. eauto.
  - rewrite (holds_length st xs H). cbn [bind]. eauto.
  - destruct (holds_empty st xs H) as (st' & E & H' & L' & _). rewrite E. cbn [bind]. eauto.
Qed.

(* C76: over any history that inserts at the end or in front of an element other than the first,
   pushes, pops what is there, removes first elements and empties the list, the list is the
   reference list and every call gives the reference result. *)
Theorem C76_list_partial ops : all_legal (0, []) ops ->
  exists st, srun snew ops = Ok (st, snd (spec_run (0, []) ops)) /\
    holds st (snd (fst (spec_run (0, []) ops))).
Proof.
  assert (G : forall ops st xs, holds st xs -> all_legal (length (cells st), xs) ops ->
    exists st', srun st ops = Ok (st', snd (spec_run (length (cells st), xs) ops)) /\
      holds st' (snd (fst (spec_run (length (cells st), xs) ops)))).
  { clear ops. induction ops as [|o ops IH]; intros st xs H A.
    - exists st; split; auto.
    - destruct A as (L & A). destruct (step_ok st xs o H L) as (st' & E & L' & H').
      cbn [srun spec_run]. rewrite E. cbn [bind].
      destruct (spec_step (length (cells st), xs) o) as [[n' xs'] r]. cbn [fst snd] in *.
      subst n'. destruct (IH st' xs' H' A) as (st'' & E' & H'').
      rewrite E'. cbn [bind]. destruct (spec_run (length (cells st'), xs') ops) as [s rs]. cbn [fst snd] in *.
      eexists; split; [reflexivity|]; auto. }
  apply (G ops snew []). split; simpl; auto. constructor.
Qed.

(* A chain of elements that is not in the list is put at its end, or by push at its front, as a
   whole. *)
Theorem C76_chains st xs e es : holds st xs -> chain (cells st) (Some e) (e :: es) None -> NoDup (xs ++ e :: es) ->
  (exists st', sinsert st (Some e) = Ok (st', Some e) /\ holds st' (xs ++ e :: es)) /\
  (exists st', spush st (Some e) = Ok (st', Some e) /\ holds st' ((e :: es) ++ xs)).
Proof.
  intros H He ND. split.
  - destruct (holds_insert _ _ _ _ H He ND) as (st' & E & H' & _); eauto.
  - destruct (holds_push _ _ _ _ H He ND) as (st' & E & H' & _); eauto.
Qed.

(* Removing an element that is not the first one removes the element in front of it as well,
   whatever the list. *)
Theorem C76_remove_refuted st xs p a ys : holds st (xs ++ p :: a :: ys) ->
  exists st', sremove st (Some a) = Ok (st', Some a) /\ holds st' (xs ++ ys) /\
    ~ holds st' (remove Nat.eq_dec a (xs ++ p :: a :: ys)).
Proof.
  intros H. destruct (holds_remove_later _ _ _ _ _ H) as (st' & E & H' & _). exists st'. split; auto. split; auto.
  intros B. destruct H as (_ & ND).
  pose proof (holds_length _ _ H') as L1. rewrite (holds_length _ _ B) in L1. injection L1 as L1.
  replace (xs ++ p :: a :: ys) with ((xs ++ [p]) ++ a :: ys) in * by (rewrite <- app_assoc; auto).
  apply NoDup_remove_2 in ND.
  rewrite remove_app in L1. simpl in L1. destruct (Nat.eq_dec a a); [|congruence].
  rewrite !remove_notin in L1 by (intro; apply ND; apply in_or_app; auto).
  rewrite !app_length in L1. simpl in L1. lia.
Qed.

(* remove() removes nothing. *)
Theorem C76_remove_null_refuted st xs : holds st xs -> sremove st None = Ok (st, hd_error (rev xs)).
Proof. intros H. rewrite (holds_remove_absent st xs None H) by discriminate. rewrite lastptr_rev; auto. Qed.

(* Inserting in front of the first element makes a ring: counting it never ends, and emptying the
   list deletes an element and then uses it. *)
Theorem C76_insert_first_refuted st x xs e : holds st (x :: xs) -> ~ In e (x :: xs) ->
  nth_error (cells st) e = Some (Some (Some x)) ->
  exists st', sinsert st (Some e) = Ok (st', Some e) /\
    (forall fuel s, slen_loop fuel (cells st') (shead st') s = UB OutOfFuel) /\
    sempty st' = UB UseAfterFree.
Proof.
  intros H Ne Hn. pose proof H as (Hc & ND). pose proof (fuel_enough _ _ H) as F.
  unfold sinsert. rewrite (ins_mid st e x xs []) with (x := shead st) (z := shead st); auto.
  2:{ simpl; rewrite Hn; auto. } 2:{ simpl in *; lia. }
  destruct Hc as (Eh & n & Hx & Hc). rewrite Eh. rewrite (wr_ok st x (Some e) n Hx). cbn [bind].
  assert (xe : x <> e) by (intros ->; apply Ne; left; auto).
  pose proof (nth_error_lt _ _ _ Hx) as Lx. pose proof (nth_error_lt _ _ _ Hn) as Le.
  eexists; split; [reflexivity|]. cbn [cells shead].
  match goal with |- context [upd (cells st) x ?v] => set (h := upd (cells st) x v) end.
  assert (H1 : nth_error h x = Some (Some (Some e))) by (apply nth_error_upd_eq; auto).
  assert (H2 : nth_error h e = Some (Some (Some x))) by (unfold h; rewrite nth_error_upd_ne; auto).
  assert (Lh : length h = length (cells st)) by apply length_upd.
  split.
  - intros fuel s.
    assert (G : forall fuel s, slen_loop fuel h (Some x) s = UB OutOfFuel /\ slen_loop fuel h (Some e) s = UB OutOfFuel).
    { clear fuel s. induction fuel as [|fuel IH]; intros s; simpl; auto. rewrite H1, H2. cbn [bind]. split; apply IH. }
    apply G.
  - fold h. clearbody h. unfold sempty, fuel_of. cbn [cells].
    rewrite Lh.
    destruct (length (cells st)) as [|m] eqn:Lm; [lia|].
    cbn [sempty_loop]. unfold sisempty at 1. cbn [shead peqb].
    unfold spop at 1. cbn [shead cells rd_next]. rewrite H1. cbn [bind wr_next]. rewrite H1.
    rewrite aset_ok by lia. cbn [bind]. unfold sdelete at 1. cbn [cells shead].
    rewrite nth_error_upd_eq by lia. rewrite aset_ok by (rewrite length_upd; lia). cbn [bind].
    unfold sisempty at 1. cbn [shead peqb].
    unfold spop at 1. cbn [shead cells rd_next]. rewrite !nth_error_upd_ne by auto. rewrite H2. cbn [bind wr_next].
    rewrite !nth_error_upd_ne by auto. rewrite H2. rewrite aset_ok by (rewrite !length_upd; lia). cbn [bind].
    unfold sdelete at 1. cbn [cells shead].
    rewrite nth_error_upd_eq by (rewrite !length_upd; lia). rewrite aset_ok by (rewrite !length_upd; lia). cbn [bind].
    destruct m; [lia|]. cbn [sempty_loop]. unfold sisempty. cbn [shead peqb].
    unfold spop. cbn [shead cells rd_next].
    rewrite !(nth_error_upd_ne _ e x) by auto. rewrite nth_error_upd_eq by (rewrite length_upd; lia). reflexivity.
Qed.

(* Pop of an empty list uses the null pointer. *)
Theorem C76_pop_empty_refuted st : holds st [] -> spop st = UB NullDeref.
Proof. intros (E & _). simpl in E. unfold spop. rewrite E. reflexivity. Qed.

(* Emptying a list frees its elements and nothing else. *)
Theorem C76_empty_frees st xs : holds st xs ->
  exists st', sempty st = Ok st' /\ holds st' [] /\
    forall a, nth_error (cells st') a = if in_dec Nat.eq_dec a xs then Some None else nth_error (cells st) a.
Proof.
  intros H. destruct (holds_empty st xs H) as (st' & E & H' & _ & D & K). exists st'. split; auto. split; auto.
  intros a. destruct (in_dec Nat.eq_dec a xs); auto.
Qed.

(* ---- autodelete ---- *)
Definition ainv (s : aheap) : Prop :=
  (forall i j a, nth_error (aptrs s) i = Some (Some a) -> nth_error (aptrs s) j = Some (Some a) -> i = j) /\
  (forall i a, nth_error (aptrs s) i = Some (Some a) -> nth_error (arrays s) a = Some true).

Lemma nth_snoc {A} (l : list A) x i y : nth_error (l ++ [x]) i = Some y ->
  (i < length l /\ nth_error l i = Some y) \/ (i = length l /\ y = x).
Proof.
  destruct (Nat.lt_ge_cases i (length l)) as [L|L].
  - rewrite nth_error_app1 by auto; auto.
  - rewrite nth_error_app2 by auto. destruct (i - length l) as [|k] eqn:E; simpl; intros H.
    + right; split; [lia | congruence].
    + destruct k; discriminate.
Qed.

Lemma astep_inv s o s' : ainv s -> astep s o = Ok s' -> ainv s'.
Proof.
  intros (U & A) E. destruct o; cbn [astep] in E.
  - injection E as <-. split; simpl.
    + intros i j a Hi Hj. apply nth_snoc in Hi as [(Li & Hi)|(-> & Hi)]; apply nth_snoc in Hj as [(Lj & Hj)|(-> & Hj)]; eauto.
      * injection Hj as ->. apply A in Hi. apply nth_error_lt in Hi; lia.
      * injection Hi as ->. apply A in Hj. apply nth_error_lt in Hj; lia.
    + intros i a Hi. apply nth_snoc in Hi as [(Li & Hi)|(-> & Hi)].
      * rewrite nth_error_app1; [eauto|]. apply A in Hi. eapply nth_error_lt; eauto.
      * injection Hi as ->. rewrite nth_error_app2, Nat.sub_diag by lia. auto.
  - apply bind_ok in E as (p & Hp & E). apply aget_ok in Hp. injection E as <-. split; simpl.
    + intros k j a Hi Hj. apply nth_snoc in Hi as [(Li & Hi)|(-> & Hi)]; apply nth_snoc in Hj as [(Lj & Hj)|(-> & Hj)]; auto.
      * rewrite nth_error_upd in Hi, Hj. destruct ((i =? k) && _); [discriminate|]. destruct ((i =? j) && _); [discriminate|]. eauto.
      * subst p. rewrite nth_error_upd in Hi. rewrite length_upd in Li.
        destruct (Nat.eqb_spec i k).
        -- subst. apply Nat.ltb_lt in Li. rewrite Li in Hi. discriminate.
        -- simpl in Hi. elim n. eapply U; eauto.
      * subst p. rewrite nth_error_upd in Hj. rewrite length_upd in Lj.
        destruct (Nat.eqb_spec i j).
        -- subst. apply Nat.ltb_lt in Lj. rewrite Lj in Hj. discriminate.
        -- simpl in Hj. elim n. eapply U; eauto.
    + intros k a Hi. apply nth_snoc in Hi as [(Li & Hi)|(-> & Hi)]; [|subst p; eauto].
      rewrite nth_error_upd in Hi. destruct ((i =? k) && _); [discriminate|]. eauto.
  - apply bind_ok in E as (p & Hp & E). apply aget_ok in Hp.
    apply bind_ok in E as (l & Hl & E). apply bind_ok in E as (l' & Hl' & E). injection E as <-.
    unfold aset in Hl, Hl'. destruct (i <? length (aptrs s)) eqn:Li; [|discriminate]. injection Hl as <-.
    rewrite length_upd in Hl'. destruct (j <? length (aptrs s)) eqn:Lj; [|discriminate]. injection Hl' as <-.
    split; simpl.
    + intros k m a Hk Hm. rewrite !nth_error_upd, length_upd, Li, Lj, !andb_true_r in Hk, Hm.
      destruct (Nat.eqb_spec j k); [discriminate|]. destruct (Nat.eqb_spec j m); [discriminate|].
      destruct (Nat.eqb_spec i k), (Nat.eqb_spec i m); subst; auto.
      * injection Hk as ->. elim n0. eapply U; eauto.
      * injection Hm as ->. elim n. eapply U; eauto.
      * eauto.
    + intros k a Hk. rewrite !nth_error_upd, length_upd, Li, Lj, !andb_true_r in Hk.
      destruct (Nat.eqb_spec j k); [discriminate|]. destruct (Nat.eqb_spec i k); [|eauto].
      injection Hk as ->. eauto.
  - destruct (rev (aptrs s)) as [|p r] eqn:R; [discriminate|].
    assert (Ep : aptrs s = rev r ++ [p]) by (rewrite <- (rev_involutive (aptrs s)), R; auto).
    apply bind_ok in E as (a & Ha & E). injection E as <-. rewrite Ep in U, A.
    assert (G : forall i x, nth_error (rev r) i = Some x -> nth_error (rev r ++ [p]) i = Some x).
    { intros i x H. rewrite nth_error_app1; auto. eapply nth_error_lt; eauto. }
    split; simpl.
    + intros i j b Hi Hj. eapply U; eauto.
    + intros i b Hi. destruct p as [q|]; simpl in Ha; [|injection Ha as <-; eauto].
      destruct (nth_error (arrays s) q) as [[]|] eqn:Hq; try discriminate.
      rewrite aset_ok in Ha by (eapply nth_error_lt; eauto). injection Ha as <-.
      rewrite nth_error_upd_ne; [eauto|]. intros ->.
      assert (i = length (rev r)).
      { apply (U i (length (rev r)) b); auto. rewrite nth_error_app2, Nat.sub_diag by lia; auto. }
      subst i. apply nth_error_lt in Hi. lia.
Qed.

Lemma astep_safe s o : ainv s -> astep s o <> UB UseAfterFree.
Proof.
  intros (U & A). destruct o; cbn [astep].
  - discriminate.
  - unfold aget. destruct (nth_error _ _); discriminate.
  - unfold aget. destruct (nth_error _ _); [|discriminate]. cbn [bind]. unfold aset.
    destruct (_ <? _); [|discriminate]. cbn [bind]. destruct (_ <? _); discriminate.
  - destruct (rev (aptrs s)) as [|p r] eqn:R; [discriminate|].
    assert (Ep : aptrs s = rev r ++ [p]) by (rewrite <- (rev_involutive (aptrs s)), R; auto).
    destruct p as [q|]; simpl; [|discriminate].
    rewrite (A (length (rev r)) q); [|rewrite Ep, nth_error_app2, Nat.sub_diag by lia; auto].
    unfold aset. destruct (_ <? _); discriminate.
Qed.

(* No history deletes an array twice. *)
Theorem C76_autodelete_safe ops : arun (AH [] []) ops <> UB UseAfterFree.
Proof.
  assert (G : forall ops s, ainv s -> arun s ops <> UB UseAfterFree).
  { clear ops. induction ops as [|o ops IH]; intros s I; cbn [arun]; [discriminate|].
    destruct (astep s o) as [s'|e|f] eqn:E; cbn [bind]; [|discriminate|].
    - apply IH. eapply astep_inv; eauto.
    - intros B. injection B as ->. eapply astep_safe; eauto. }
  apply G. split; intros i; destruct i; discriminate.
Qed.

(* ... and without move assignment every array that is alive has an owner, so that nothing is left
   when the last object has gone; a move assignment loses what its target held. *)
Definition no_assign (o : aop) : Prop := match o with AMove _ _ => False | _ => True end.
Theorem C76_autodelete_leak_partial ops s : Forall no_assign ops -> arun (AH [] []) ops = Ok s ->
  forall a, nth_error (arrays s) a = Some true -> exists i, nth_error (aptrs s) i = Some (Some a).
Proof.
  assert (G : forall ops s s', Forall no_assign ops -> ainv s -> arun s ops = Ok s' ->
    (forall a, nth_error (arrays s) a = Some true -> exists i, nth_error (aptrs s) i = Some (Some a)) ->
    forall a, nth_error (arrays s') a = Some true -> exists i, nth_error (aptrs s') i = Some (Some a)).
  { clear ops s. induction ops as [|o ops IH]; intros s s' F I R K; [injection R as <-; auto|].
    apply bind_ok in R as (s1 & E & R). inversion F; subst. eapply IH; [| |exact R|]; auto.
    - eapply astep_inv; eauto.
    - intros a Ha. destruct o; cbn [astep] in E.
      + injection E as <-. simpl in *. apply nth_snoc in Ha as [(L & Ha)|(-> & _)].
        * destruct (K a Ha) as (i & Hi). exists i. rewrite nth_error_app1; auto. eapply nth_error_lt; eauto.
        * exists (length (aptrs s)). rewrite nth_error_app2, Nat.sub_diag by lia; auto.
      + apply bind_ok in E as (p & Hp & E). apply aget_ok in Hp. injection E as <-. simpl in *.
        destruct (K a Ha) as (k & Hk). pose proof (nth_error_lt _ _ _ Hk) as Lk. destruct (Nat.eq_dec i k).
        * subst. exists (length (aptrs s)). rewrite nth_error_app2 by (rewrite length_upd; lia).
          rewrite length_upd, Nat.sub_diag. simpl. congruence.
        * exists k. rewrite nth_error_app1 by (rewrite length_upd; lia). rewrite nth_error_upd_ne; auto.
      + destruct H1.
      + destruct (rev (aptrs s)) as [|p r] eqn:Rv; [discriminate|].
        assert (Ep : aptrs s = rev r ++ [p]) by (rewrite <- (rev_involutive (aptrs s)), Rv; auto).
        apply bind_ok in E as (l & Hl & E). injection E as <-. simpl in *.
        assert (Hs : nth_error (arrays s) a = Some true /\ p <> Some a).
        { destruct p as [q|]; simpl in Hl; [|injection Hl as <-; split; [auto | discriminate]].
          destruct (nth_error (arrays s) q) as [[]|] eqn:Hq; try discriminate.
          rewrite aset_ok in Hl by (eapply nth_error_lt; eauto). injection Hl as <-.
          rewrite nth_error_upd in Ha. destruct (Nat.eqb_spec q a).
          - apply nth_error_lt in Hq. apply Nat.ltb_lt in Hq. rewrite Hq in Ha. discriminate.
          - simpl in Ha. split; congruence. }
        destruct Hs as (Hs & Np). destruct (K a Hs) as (i & Hi). rewrite Ep in Hi.
        apply nth_snoc in Hi as [(L & Hi)|(-> & Hi)]; [eauto | congruence]. }
  intros F R. eapply G; eauto.
  - split; intros i; destruct i; discriminate.
  - intros a; destruct a; discriminate.
Qed.
Theorem C76_autodelete_leak_refuted :
  arun (AH [] []) [ANew; ANew; AMove 0 1; ADrop; ADrop] = Ok (AH [true; false] []).
Proof. reflexivity. Qed.

(* a concrete history *)
Definition ops_ex : list sop :=
  [SInsert; SInsert; SPush; SBefore 1; SLength; SRemoveNull; SRemove 2; SPop; SLength; SInsert; SEmpty; SPush].
Example C76_ex_legal : all_legal (0, []) ops_ex.
Proof. simpl. repeat split; auto; congruence. Qed.
Example C76_ex_run : match srun snew ops_ex with Ok (st, rs) => (shead st, rs) | _ => (None, []) end =
  (Some 5, [RPtr (Some 0); RPtr (Some 1); RPtr (Some 2); RPtr (Some 3); RLen 4; RPtr (Some 1); RPtr (Some 2);
    RPtr (Some 0); RLen 2; RPtr (Some 4); RVoid; RPtr (Some 5)]).
Proof. reflexivity. Qed.
Definition st3_ex : slist := Sl [Some (Some 1); Some (Some 2); Some None; Some (Some 0)] (Some 0).
Example C76_ex_holds : holds st3_ex [0; 1; 2].
Proof. split; [simpl; repeat (split; [reflexivity|]; eexists; split; [reflexivity|]); reflexivity | repeat constructor; simpl; intuition lia]. Qed.
Example C76_ex_remove : sremove st3_ex (Some 2) = Ok (Sl [Some None; Some (Some 2); Some None; Some (Some 0)] (Some 0), Some 2).
Proof. reflexivity. Qed.
Example C76_ex_ring : nth_error (cells st3_ex) 3 = Some (Some (Some 0)) /\ ~ In 3 [0; 1; 2].
Proof. split; [reflexivity | simpl; intuition lia]. Qed.

Print Assumptions C76_list_partial.
Print Assumptions C76_chains.
Print Assumptions C76_remove_refuted.
Print Assumptions C76_remove_null_refuted.
Print Assumptions C76_insert_first_refuted.
Print Assumptions C76_pop_empty_refuted.
Print Assumptions C76_empty_frees.
Print Assumptions C76_autodelete_safe.
Print Assumptions C76_autodelete_leak_partial.
Print Assumptions C76_autodelete_leak_refuted.
