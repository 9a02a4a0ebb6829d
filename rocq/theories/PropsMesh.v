(* C86: the nodes, conditions and forces of a mesh, and mesh::solve on them. *)
From Coq Require Import List ZArith Lia Bool Arith Permutation Sorted Field QArith Qcanon.
From Verif Require Import Base LinBase LlrbModel KeySetModel SmatModel PropsQr IncholModel PropsInchol PcgModel PropsPcg BcModel PropsBc MeshModel MeshProofs MeshP2 SortProofs.
Import ListNotations.
Local Open Scope nat_scope.

(* ---- specification ---- *)
(* p comes before q: from the top down, then along x, then along y *)
Definition earlier (p q : coord) : Prop :=
  (cz q < cz p \/ (cz p = cz q /\ (cx p < cx q \/ (cx p = cx q /\ cy p < cy q))))%Z.
Section Spec.
Context {K : ofield}.
Local Open Scope lin_scope.
(* what a mesh means: its nodes by number, the prescribed displacements, the forces, the displacements *)
Record world : Type := World { w_nodes : list coord; w_pres : nat -> nat -> option K; w_load : nat -> nat -> K; w_disp : nat -> v3 K }.
Definition empty_world : world := World [] (fun _ _ => None) (fun _ _ => f0) (fun _ => zerov).
Definition same_place (p q : coord) : bool := (cx p =? cx q)%Z && (cy p =? cy q)%Z && (cz p =? cz q)%Z.
Fixpoint place (l : list coord) (c : coord) : option nat :=
  match l with [] => None | d :: l => if same_place c d then Some 0%nat else option_map S (place l c) end.
(* direction s is among f *)
Definition among (f : Z) (s : nat) : bool := Nat.ltb s 3 && Z.testbit f (Z.of_nat s).
Definition along (o : Z) (q : coord) : Z := if (o =? 1)%Z then cx q else if (o =? 2)%Z then cy q else cz q.
Definition in_plane (o p c : Z) (q : coord) : bool :=
  (Z.testbit p 0 && (along o q =? c)%Z) || (Z.testbit p 1 && (along o q <? c)%Z) || (Z.testbit p 2 && (c <? along o q)%Z).
Definition fix_at (w : world) (sel : nat -> bool) (f : Z) (d : K) : world :=
  World (w_nodes w) (fun g s => if sel g && among f s then Some d else w_pres w g s) (w_load w) (w_disp w).
Definition after (w : world) (o : mop K) : world :=
  match o with
  | ONode c => match place (w_nodes w) c with
               | Some _ => w
               | None => World (w_nodes w ++ [c]) (w_pres w) (w_load w) (fun g => if Nat.eqb g (length (w_nodes w)) then zerov else w_disp w g)
               end
  | OBc c f d => match place (w_nodes w) c with None => w | Some k => fix_at w (fun g => Nat.eqb g k) f d end
  | OPlane o p c f d => fix_at w (fun g => match nth_error (w_nodes w) g with Some q => in_plane o p c q | None => false end) f d
  | OForce c f d => match place (w_nodes w) c with
                    | None => w
                    | Some k => World (w_nodes w) (w_pres w) (fun g s => if Nat.eqb g k && among f s then d + w_load w g s else w_load w g s) (w_disp w)
                    end
  | OTouch i nb u => World (w_nodes w) (w_pres w) (w_load w) (fun g => if Nat.eqb g i then u else w_disp w g)
  end.
Definition allowed (w : world) (o : mop K) : Prop :=
  match o with OPlane o _ _ _ _ => o = 1%Z \/ o = 2%Z \/ o = 4%Z | OTouch i _ _ => i < length (w_nodes w) | _ => True end.
Fixpoint all_allowed (w : world) (ops : list (mop K)) : Prop :=
  match ops with [] => True | o :: ops => allowed w o /\ all_allowed (after w o) ops end.
Fixpoint mrun (m : mesh K) (ops : list (mop K)) : outcome (mesh K) :=
  match ops with [] => Ok m | o :: ops => let* m := mstep m o in mrun m ops end.

(* x with the prescribed displacements put in, and what is left over, as for C85 *)
Definition w_held (w : world) (x : nat -> nat -> K) (g s : nat) : K := match w_pres w g s with Some d => d | None => x g s end.
Definition w_left (w : world) (es : list (felem K)) (x : nat -> nat -> K) (g s : nat) : K :=
  match w_pres w g s with Some d => d - x g s | None => w_load w g s - nodal es (w_held w x) g s end.
Definition w_size (w : world) (es : list (felem K)) (x : nat -> nat -> K) : K :=
  sumr 0 (length (w_nodes w)) (fun g => sumr 0 3 (fun s => w_left w es x g s * w_left w es x g s)).
(* elements on the nodes of the mesh *)
Definition elements_on (w : world) (es : list (felem K)) : Prop :=
  forall e, In e es -> Forall (fun g => g < length (w_nodes w))%nat (el2g e) /\ NoDup (el2g e) /\
    length (eke e) = (length (el2g e) * (length (el2g e) + 1) / 2)%nat /\
    forall a s t, (a < length (el2g e))%nat -> (s < 3)%nat -> (t < 3)%nat -> coef e a a s t = coef e a a t s.
Definition w_firm (w : world) (es : list (felem K)) : Prop :=
  forall x, (forall g s, w_pres w g s <> None -> x g s = f0) -> (exists g s, (g < length (w_nodes w))%nat /\ (s < 3)%nat /\ x g s <> f0) ->
    fltb f0 (sumr 0 (length (w_nodes w)) (fun g => sumr 0 3 (fun s => x g s * nodal es x g s))) = true.
(* a mesh that can be solved: not too large, held, and with something to do *)
Definition solvable (lim : Z) (w : world) (es : list (felem K)) : Prop :=
  (Z.of_nat (length (w_nodes w)) < 2 ^ 16)%Z /\ (Z.of_nat (length (w_nodes w)) <= lim)%Z /\ elements_on w es /\ w_firm w es /\
  exists g s, (g < length (w_nodes w))%nat /\ (s < 3)%nat /\ w_left w es (fun _ _ => f0) g s <> f0.
Definition moved (w : world) (x : nat -> v3 K) : world := World (w_nodes w) (w_pres w) (w_load w) x.
(* what can be seen of a mesh *)
Record shows (w : world) (m : mesh K) : Prop := {
  s_distinct : NoDup (w_nodes w);
  s_count : llrb_length (mnodes m) = length (w_nodes w);
  s_has : forall c, hasnode m c = Ok (place (w_nodes w) c);
  s_node : forall i c, nth_error (w_nodes w) i = Some c -> exists n, getnode m i = Ok n /\ lkey n = c /\ nu (lval n) = w_disp w i;
  s_none : forall i, length (w_nodes w) <= i -> getnode m i = UB OutOfBounds;
  s_pres : forall g s, given (vals (mdbc m)) g s = w_pres w g s;
  s_load : forall g s, load (vals (mfext m)) g s = w_load w g s;
  s_add : forall c, exists m' k, addnode m c = Ok (m', k) /\ place (w_nodes (after w (ONode c))) c = Some k;
  s_cond : forall c f d, exists m', add_bc m c f d = Ok (m', match place (w_nodes w) c with Some _ => true | None => false end);
  s_force : forall c f d, exists m', add_fext m c f d = Ok (m', match place (w_nodes w) c with Some _ => true | None => false end);
  (* the order of the nodes in the system: without gaps, earlier nodes first *)
  s_order : exists o, number (mnodes m) = Ok o /\ Permutation o (seq 0 (length (w_nodes w))) /\
    (forall g h p q, nth_error (w_nodes w) g = Some p -> nth_error (w_nodes w) h = Some q -> earlier p q -> nth g o 0 < nth h o 0) /\
    forall g p, nth_error (w_nodes w) g = Some p -> getorderofnode m p = Ok (Z.of_nat (nth g o 0))
}.
(* the meshes that come about *)
Inductive reached (sq : K -> K) (eps : K) (lim : Z) : world -> mesh K -> Prop :=
| r_new : reached sq eps lim empty_world mesh_new
| r_call w m o m' : reached sq eps lim w m -> allowed w o -> mstep m o = Ok m' -> reached sq eps lim (after w o) m'
| r_solve w m es tol m' it x : reached sq eps lim w m -> solvable lim w es -> fltb f0 tol = true -> solve sq eps lim es m tol = Ok (m', it) ->
    (forall i n, getnode m' i = Ok n -> nu (lval n) = x i) -> reached sq eps lim (moved w x) m'.
End Spec.
Arguments world : clear implicits.

Section Proofs.
Context {K : ofield}.
Local Open Scope lin_scope.
Add Field Kf66 : (f_th K).

Lemma nth_nil {A} i : nth_error (@nil A) i = None.
Proof. now destruct i. Qed.
Lemma same_place_eq p q : same_place p q = true <-> p = q.
Proof.
  unfold same_place. destruct p as [x y z], q as [x' y' z']. cbn [cx cy cz]. rewrite !andb_true_iff, !Z.eqb_eq. split; [intros ((-> & ->) & ->); auto|]. intros E. injection E as -> -> ->. auto.
Qed.
Lemma place_some l c k : NoDup l -> nth_error l k = Some c -> place l c = Some k.
Proof.
  revert k. induction l as [|d l IH]; intros k ND N; [now rewrite nth_nil in N|]. inversion ND; subst. cbn [place]. destruct k as [|k].
  - cbn in N. injection N as <-. now rewrite (proj2 (same_place_eq d d) eq_refl).
  - cbn in N. destruct (same_place c d) eqn:E; [apply same_place_eq in E; subst; exfalso; apply H1; eapply nth_error_In; eauto|]. now rewrite (IH k).
Qed.
Lemma place_none l c : ~ In c l -> place l c = None.
Proof.
  induction l as [|d l IH]; intros N; cbn [place]; auto. destruct (same_place c d) eqn:E; [apply same_place_eq in E; subst; exfalso; apply N; now left|].
  rewrite IH; auto. intros Q; apply N; now right.
Qed.

Record minv (w : world K) (m : mesh K) : Prop := {
  i_tree : tree_ok (mnodes m);
  i_keys : keys (mnodes m) = w_nodes w;
  i_dbc : set_ok (length (w_nodes w)) (mdbc m) (w_pres w);
  i_fext : exists P, set_ok (length (w_nodes w)) (mfext m) P /\ forall g s, w_load w g s = match P g s with Some d => d | None => f0 end;
  i_disp : forall i n, nth_error (larr (mnodes m)) i = Some n -> nu (lval n) = w_disp w i;
  i_marks : forall i n s, nth_error (larr (mnodes m)) i = Some n -> (s < 3)%nat -> Z.testbit (nfix (lval n)) (Z.of_nat s) = true -> w_pres w i s <> None
}.
Lemma minv_new : minv empty_world mesh_new.
Proof.
  split; cbn [mesh_new mnodes mdbc mfext empty_world w_nodes w_pres w_load w_disp].
  - exists LlrbProofs.LE. apply LlrbProofs.linv_new.
  - reflexivity.
  - apply set_new.
  - exists (fun _ _ => None). split; [apply set_new|auto].
  - intros i n N. destruct i; discriminate N.
  - intros i n s N. destruct i; discriminate N.
Qed.
Lemma len_nodes w m : minv w m -> length (larr (mnodes m)) = length (w_nodes w).
Proof. intros I. rewrite <- (i_keys _ _ I). unfold keys. now rewrite map_length. Qed.
Lemma nodup_nodes w m : minv w m -> NoDup (w_nodes w).
Proof. intros I. rewrite <- (i_keys _ _ I). apply keys_nodup, (i_tree _ _ I). Qed.
Lemma find_ok w m c : minv w m -> lhaskey ccmp (mnodes m) c = Ok (place (w_nodes w) c) /\
  match place (w_nodes w) c with Some k => nth_error (w_nodes w) k = Some c /\ (k < length (w_nodes w))%nat | None => ~ In c (w_nodes w) end.
Proof.
  intros I. destruct (haskey_ok (mnodes m) c (i_tree _ _ I)) as (k & E & H). rewrite (i_keys _ _ I) in H. pose proof (nodup_nodes _ _ I) as ND. destruct k as [k|].
  - rewrite (place_some _ _ _ ND H). split; auto. split; auto. apply nth_error_Some. congruence.
  - rewrite (place_none _ _ H). auto.
Qed.
Lemma payload_nth {V} (a : list (lnode coord V)) i n : nth_error a i = Some n -> nth_error (map LlrbProofs.lpayload a) i = Some (lkey n, lval n).
Proof. intros E. rewrite nth_error_map, E. reflexivity. Qed.
Lemma addnode_ok w m c : minv w m -> exists m' k, addnode m c = Ok (m', k) /\ minv (after w (ONode c)) m' /\ place (w_nodes (after w (ONode c))) c = Some k.
Proof.
  intros I. destruct (find_ok w m c I) as (E & H). unfold addnode. rewrite E. cbn [bind after]. destruct (place (w_nodes w) c) as [k|] eqn:W.
  - exists m, k. split; auto.
  - rewrite <- (i_keys _ _ I) in H. destruct (nl_add_ok (mnodes m) c nd0 (i_tree _ _ I) H) as (t & -> & T & PL). cbn [bind].
    exists (Mesh t (mdbc m) (mfext m)), (llrb_length (mnodes m)). split; auto.
    assert (KE : keys t = w_nodes w ++ [c]). { rewrite keys_payload, PL, map_app, <- keys_payload, (i_keys _ _ I). reflexivity. }
    assert (LT : length (larr (mnodes m)) = length (w_nodes w)) by (eapply len_nodes; eauto).
    assert (CASE : forall i n, nth_error (larr t) i = Some n -> (exists n0, nth_error (larr (mnodes m)) i = Some n0 /\ lval n = lval n0 /\ (i < length (w_nodes w))%nat) \/ (i = length (w_nodes w) /\ lval n = nd0)).
    { intros i n N. apply payload_nth in N. rewrite PL in N. destruct (Nat.lt_ge_cases i (length (w_nodes w))) as [L|L].
      - left. rewrite nth_error_app1 in N by (rewrite map_length; lia). rewrite nth_error_map in N. destruct (nth_error (larr (mnodes m)) i) as [n0|] eqn:N0; [|discriminate].
        cbn [option_map] in N. injection N as _ N. exists n0. auto.
      - right. assert (i = length (w_nodes w)).
        { assert (Q : nth_error (map LlrbProofs.lpayload (larr (mnodes m)) ++ [(c, nd0)]) i <> None) by congruence. apply nth_error_Some in Q. rewrite app_length, map_length in Q. cbn [length] in Q. lia. }
        split; auto. rewrite nth_error_app2 in N by (rewrite map_length; lia). rewrite map_length, LT, H0, Nat.sub_diag in N. cbn in N. injection N as _ <-. reflexivity. }
    split.
    + split; cbn [mnodes mdbc mfext w_nodes w_pres w_load w_disp].
      * exact T. * exact KE.
      * eapply set_more; [apply (i_dbc _ _ I)|]. rewrite app_length. lia.
      * destruct (i_fext _ _ I) as (P & SP & LP). exists P. split; auto. eapply set_more; eauto. rewrite app_length. lia.
      * intros i n N. destruct (CASE i n N) as [(n0 & N0 & -> & L)|(-> & ->)]. { destruct (Nat.eqb_spec i (length (w_nodes w))); [lia|]. eapply i_disp; eauto. } now rewrite Nat.eqb_refl.
      * intros i n s N S3 B. destruct (CASE i n N) as [(n0 & N0 & EN & L)|(-> & EN)]; rewrite EN in B. { eapply i_marks; eauto. } cbn [nfix nd0] in B. rewrite Z.testbit_0_l in B. discriminate.
    + cbn [w_nodes]. apply place_some. { rewrite <- KE. now apply keys_nodup. } unfold llrb_length. rewrite LT. now rewrite nth_error_app2, Nat.sub_diag by lia.
Qed.
Lemma among3 f t : among f t = (Nat.eqb t 0 && Z.testbit f 0) || (Nat.eqb t 1 && Z.testbit f 1) || (Nat.eqb t 2 && Z.testbit f 2).
Proof. unfold among. destruct t as [|[|[|t]]]; cbn [Nat.eqb andb orb]; rewrite ?orb_false_r; auto. Qed.
Lemma add_bc_ok w m c f d : minv w m -> exists m' b, add_bc m c f d = Ok (m', b) /\ minv (after w (OBc c f d)) m' /\ mnodes m' = mnodes m.
Proof.
  intros I. destruct (find_ok w m c I) as (E & H). unfold add_bc. rewrite E. cbn [bind after]. destruct (place (w_nodes w) c) as [k|] eqn:W.
  2:{ exists m, false. auto. }
  destruct H as (N & L). pose proof (i_dbc _ _ I) as S0.
  destruct (bc_one_ok _ _ _ k f d 0 S0 L ltac:(lia)) as (s1 & -> & S1). cbn [bind].
  destruct (bc_one_ok _ _ _ k f d 1 S1 L ltac:(lia)) as (s2 & -> & S2). cbn [bind].
  destruct (bc_one_ok _ _ _ k f d 2 S2 L ltac:(lia)) as (s3 & -> & S3). cbn [bind].
  exists (Mesh (mnodes m) s3 (mfext m)), true. split; auto. split; auto.
  split; unfold fix_at; cbn [mnodes mdbc mfext w_nodes w_pres w_load w_disp]; try solve [apply I].
  - apply (set_ext _ _ _ _ S3). intros g t. rewrite among3. cbn [Z.of_nat Pos.of_succ_nat Pos.succ]. destruct (Nat.eqb g k); cbn [andb]; auto.
    destruct (Nat.eqb_spec t 2); [subst|]; cbn [Nat.eqb andb orb]; [destruct (Z.testbit f 2); auto|]. destruct (Nat.eqb_spec t 1); [subst|]; cbn [Nat.eqb andb orb]; rewrite ?orb_false_r; auto.
  - intros i n s N1 S3' B. destruct (Nat.eqb i k && among f s); [discriminate|]. eapply i_marks; eauto.
Qed.
Lemma add_fext_ok w m c f d : minv w m -> exists m' b, add_fext m c f d = Ok (m', b) /\ minv (after w (OForce c f d)) m'.
Proof.
  intros I. destruct (find_ok w m c I) as (E & H). unfold add_fext. rewrite E. cbn [bind after]. destruct (place (w_nodes w) c) as [k|] eqn:W.
  2:{ exists m, false. auto. }
  destruct H as (N & L). destruct (i_fext _ _ I) as (P & S0 & LP).
  destruct (force_one_ok _ _ _ k f d 0 S0 L ltac:(lia)) as (s1 & -> & S1). cbn [bind].
  destruct (force_one_ok _ _ _ k f d 1 S1 L ltac:(lia)) as (s2 & -> & S2). cbn [bind].
  destruct (force_one_ok _ _ _ k f d 2 S2 L ltac:(lia)) as (s3 & -> & S3). cbn [bind].
  exists (Mesh (mnodes m) (mdbc m) s3), true. split; auto.
  split; cbn [mnodes mdbc mfext w_nodes w_pres w_load w_disp]; try solve [apply I].
  exists (fun g t => if Nat.eqb g k && among f t then Some (match P g t with Some e => d + e | None => d end) else P g t). split.
  - apply (set_ext _ _ _ _ S3). intros g t. rewrite among3. cbn [Z.of_nat Pos.of_succ_nat Pos.succ]. destruct (Nat.eqb g k); cbn [andb]; auto.
    destruct (Nat.eqb_spec t 2); [subst|]; cbn [Nat.eqb andb orb]; [destruct (Z.testbit f 2); auto|]. destruct (Nat.eqb_spec t 1); [subst|]; cbn [Nat.eqb andb orb]; rewrite ?orb_false_r; auto.
  - intros g s. rewrite LP. destruct (Nat.eqb g k && among f s); auto. destruct (P g s); auto. ring.
Qed.
Lemma minv_ext w w' m : minv w m -> w_nodes w = w_nodes w' -> (forall g s, w_pres w g s = w_pres w' g s) -> (forall g s, w_load w g s = w_load w' g s) -> (forall g, w_disp w g = w_disp w' g) -> minv w' m.
Proof.
  intros I E1 E2 E3 E4. split.
  - apply I. - rewrite <- E1. apply I.
  - rewrite <- E1. eapply set_ext; [apply I|auto].
  - destruct (i_fext _ _ I) as (P & SP & LP). exists P. rewrite <- E1. split; auto. intros. now rewrite <- E3.
  - intros. rewrite <- E4. eapply i_disp; eauto.
  - intros. rewrite <- E2. eapply i_marks; eauto.
Qed.
Lemma plane_at_ok w m p v c n f d : minv w m -> exists m', plane_at p v c m n f d = Ok m' /\ mnodes m' = mnodes m /\
  minv (if (Z.testbit p 0 && (v =? c)%Z) || (Z.testbit p 1 && (v <? c)%Z) || (Z.testbit p 2 && (c <? v)%Z) then after w (OBc n f d) else w) m'.
Proof.
  intros I. unfold plane_at. rewrite !bit_test. change (Z.of_nat 0) with 0%Z. change (Z.of_nat 1) with 1%Z. change (Z.of_nat 2) with 2%Z.
  destruct (add_bc_ok w m n f d I) as (m' & b & E & I' & NN).
  destruct (Z.eqb_spec v c), (Z.ltb_spec v c), (Z.ltb_spec c v); try lia; rewrite ?andb_true_r, ?andb_false_r, ?orb_false_r; cbn [orb bind].
  - destruct (Z.testbit p 0); [rewrite E|]; cbn [bind]; eauto.
  - destruct (Z.testbit p 1); [rewrite E|]; cbn [bind]; eauto.
  - destruct (Z.testbit p 2); [rewrite E|]; cbn [bind]; eauto.
Qed.
Lemma plane_ok w m o p c f d : minv w m -> o = 1%Z \/ o = 2%Z \/ o = 4%Z -> exists m', add_bc_plane m o p c f d = Ok m' /\ minv (after w (OPlane o p c f d)) m'.
Proof.
  intros I O. unfold add_bc_plane. replace ((bit o 0 && bit o 1) || (bit o 0 && bit o 2) || (bit o 1 && bit o 2)) with false by (destruct O as [->|[->| ->]]; reflexivity).
  match goal with |- context [for_up 0 ?n ?b m] => destruct (BcProofs.for_ok (fun k m' => mnodes m' = mnodes m /\
    minv (fix_at w (fun g => Nat.ltb g k && match nth_error (w_nodes w) g with Some q => in_plane o p c q | None => false end) f d) m') 0 n b m) as (m' & EQ & NN & I') end; [lia| | |].
  - split; auto. apply (minv_ext w); auto.
  - intros k m1 Kk (N1 & I1). unfold getnode. rewrite N1. destruct (nth_error (larr (mnodes m)) k) as [n|] eqn:Hn; [|apply nth_error_None in Hn; unfold llrb_length in Kk; lia].
    rewrite (AvlProofs.aget_some _ _ _ Hn). cbn [bind].
    assert (HK : nth_error (w_nodes w) k = Some (lkey n)). { rewrite <- (i_keys _ _ I). unfold keys. now rewrite nth_error_map, Hn. }
    set (wk := fix_at w _ f d) in I1.
    assert (G : exists m2, plane_at p (along o (lkey n)) c m1 (lkey n) f d = Ok m2 /\ mnodes m2 = mnodes m /\
      minv (fix_at w (fun g => Nat.ltb g (k + 1) && match nth_error (w_nodes w) g with Some q => in_plane o p c q | None => false end) f d) m2).
    { destruct (plane_at_ok wk m1 p (along o (lkey n)) c (lkey n) f d I1) as (m2 & E2 & N2 & I2). exists m2. split; auto. split; [congruence|].
      change ((Z.testbit p 0 && (along o (lkey n) =? c)%Z) || (Z.testbit p 1 && (along o (lkey n) <? c)%Z) || (Z.testbit p 2 && (c <? along o (lkey n))%Z)) with (in_plane o p c (lkey n)) in I2.
      assert (W : place (w_nodes wk) (lkey n) = Some k) by (apply place_some; [apply (nodup_nodes w m I)|exact HK]).
      assert (AF : after wk (OBc (lkey n) f d) = fix_at wk (fun g => Nat.eqb g k) f d) by (cbn [after]; now rewrite W). rewrite AF in I2.
      destruct (in_plane o p c (lkey n)) eqn:IP; apply (minv_ext _ _ m2 I2); unfold wk, fix_at; cbn [w_nodes w_pres w_load w_disp]; auto.
      - intros g s. destruct (Nat.eqb_spec g k); [subst g; rewrite HK, IP|]; cbn [andb].
        + destruct (Nat.ltb_spec k (k + 1)); [|lia]. cbn [andb]. destruct (Nat.ltb_spec k k); [lia|]. reflexivity.
        + replace (Nat.ltb g (k + 1)) with (Nat.ltb g k) by (destruct (Nat.ltb_spec g k), (Nat.ltb_spec g (k + 1)); auto; lia). reflexivity.
      - intros g s. destruct (Nat.eqb_spec g k); [subst g; rewrite HK, IP, !andb_false_r; auto|].
        replace (Nat.ltb g (k + 1)) with (Nat.ltb g k) by (destruct (Nat.ltb_spec g k), (Nat.ltb_spec g (k + 1)); auto; lia). reflexivity. }
    destruct O as [->|[->| ->]]; exact G.
  - exists m'. split; [exact EQ|]. cbn [after]. apply (minv_ext _ _ m' I'); unfold fix_at; cbn [w_nodes w_pres w_load w_disp]; auto.
    intros g s. unfold llrb_length. rewrite (len_nodes w m I). destruct (Nat.ltb_spec g (length (w_nodes w))); cbn [andb]; auto.
    replace (nth_error (w_nodes w) g) with (@None coord) by (symmetry; now apply nth_error_None). auto.
Qed.
Lemma revalued w w' m a : minv w m -> length a = length (larr (mnodes m)) -> (forall i n n', nth_error (larr (mnodes m)) i = Some n -> nth_error a i = Some n' -> shape n n' /\ nu (lval n') = w_disp w' i /\
    forall s, (s < 3)%nat -> Z.testbit (nfix (lval n')) (Z.of_nat s) = true -> w_pres w i s <> None) ->
  w_nodes w' = w_nodes w -> w_pres w' = w_pres w -> w_load w' = w_load w -> minv w' (Mesh (Llrb a (lroot (mnodes m))) (mdbc m) (mfext m)).
Proof.
  intros I LA H EN EP EL. assert (CASE : forall i n', nth_error a i = Some n' -> exists n, nth_error (larr (mnodes m)) i = Some n).
  { intros i n' N. destruct (nth_error (larr (mnodes m)) i) eqn:Q; eauto. apply nth_error_None in Q. assert (i < length a)%nat by (apply nth_error_Some; congruence). lia. }
  split; cbn [mnodes mdbc mfext]; rewrite ?EN, ?EP, ?EL; try solve [apply I].
  - apply (tree_reval (mnodes m)); cbn [lroot larr]; auto; [apply I|]. intros i n n' N N'. eapply H; eauto.
  - unfold keys. cbn [larr]. rewrite <- (i_keys _ _ I). unfold keys. apply SortProofs.nth_error_ext'. intros i. rewrite !nth_error_map.
    destruct (nth_error a i) as [n'|] eqn:N'.
    + destruct (CASE i n' N') as (n & N). rewrite N. cbn [option_map]. f_equal. now apply (H i n n').
    + replace (nth_error (larr (mnodes m)) i) with (@None (lnode coord (ndata K))); auto. symmetry. apply nth_error_None. apply nth_error_None in N'. lia.
  - cbn [larr]. intros i n' N'. destruct (CASE i n' N') as (n & N). now apply (H i n n').
  - cbn [larr]. intros i n' s N' S3 B. destruct (CASE i n' N') as (n & N). destruct (H i n n' N N') as (_ & _ & M). now apply M.
Qed.

Lemma touch_ok w m i nb u : minv w m -> (i < length (w_nodes w))%nat -> exists m', mstep m (OTouch i nb u) = Ok m' /\ minv (after w (OTouch i nb u)) m'.
Proof.
  intros I L. pose proof (len_nodes w m I) as LN. destruct (nth_error (larr (mnodes m)) i) as [n|] eqn:N; [|apply nth_error_None in N; lia].
  cbn [mstep]. unfold getnode. rewrite (AvlProofs.aget_some _ _ _ N). cbn [bind]. unfold updatenode. cbn [lkey]. destruct (find_ok w m (lkey n) I) as (-> & _). cbn [bind].
  assert (HK : nth_error (w_nodes w) i = Some (lkey n)). { rewrite <- (i_keys _ _ I). unfold keys. now rewrite nth_error_map, N. }
  rewrite (place_some _ _ _ (nodup_nodes w m I) HK). rewrite aset_ok by lia. cbn [bind]. eexists. split; [reflexivity|].
  apply (revalued w); auto; cbn [after w_nodes w_pres w_load w_disp]; auto; [apply length_upd|].
  intros j q q' Q Q'. destruct (Nat.eq_dec j i) as [->|NE].
  - rewrite nth_error_upd_eq in Q' by lia. injection Q' as <-. rewrite N in Q. injection Q as <-. rewrite Nat.eqb_refl. split; [repeat split|]. split; auto. cbn [lval nfix]. intros s S3 B. eapply i_marks; eauto.
  - rewrite nth_error_upd_ne in Q' by auto. rewrite Q in Q'. injection Q' as <-. destruct (Nat.eqb_spec j i); [lia|]. split; [repeat split|]. split; [eapply i_disp; eauto|]. intros s S3 B. eapply i_marks; eauto.
Qed.
Lemma step_ok w m o : minv w m -> allowed w o -> exists m', mstep m o = Ok m' /\ minv (after w o) m'.
Proof.
  intros I A. destruct o as [c|c f d|o p c f d|c f d|i nb u].
  - destruct (addnode_ok w m c I) as (m' & k & E & I' & _). exists m'. cbn [mstep]. rewrite E. auto.
  - destruct (add_bc_ok w m c f d I) as (m' & b & E & I' & _). exists m'. cbn [mstep]. rewrite E. auto.
  - apply plane_ok; auto.
  - destruct (add_fext_ok w m c f d I) as (m' & b & E & I'). exists m'. cbn [mstep]. rewrite E. auto.
  - apply touch_ok; auto.
Qed.

(* the numbering *)
Definition before (c d : coord) : bool := match ccmp d c with Lt => true | _ => false end.
Lemma earlier_cmp p q : earlier p q <-> ccmp p q = Lt.
Proof.
  rewrite ccmp_lex. unfold earlier, lex. destruct p as [x y z], q as [x' y' z']. cbn [cx cy cz].
  destruct (Z.compare_spec z' z), (Z.compare_spec x x'), (Z.compare_spec y y'); split; intros; try discriminate; auto; lia.
Qed.
Definition rank (l : list coord) (c : coord) : nat := length (filter (before c) l).
Lemma rank_lt l c d : In c l -> ccmp c d = Lt -> (rank l c < rank l d)%nat.
Proof.
  intros IN C. unfold rank. assert (M : forall e, before c e = true -> before d e = true).
  { intros e. unfold before. destruct (ccmp e c) eqn:E; try discriminate. now rewrite (cmp_trans _ ccmp_total _ _ _ E C). }
  assert (LE : forall l0, (length (filter (before c) l0) <= length (filter (before d) l0))%nat).
  { clear IN. induction l0 as [|e l' IH]; cbn [filter]; auto. destruct (before c e) eqn:B; [rewrite (M e B); cbn [length]; lia|]. destruct (before d e); cbn [length]; lia. }
  induction l as [|e l IH]; [destruct IN|]. cbn [filter]. destruct IN as [->|IN].
  - assert (B : before c c = false) by (unfold before; now rewrite (cmp_refl _ _ ccmp_total)). assert (B' : before d c = true) by (unfold before; now rewrite C). rewrite B, B'. cbn [length]. specialize (LE l). lia.
  - specialize (IH IN). destruct (before c e) eqn:B; [rewrite (M e B); cbn [length]; lia|]. destruct (before d e); cbn [length]; lia.
Qed.
Lemma rank_bound l c : In c l -> (rank l c < length l)%nat.
Proof.
  intros IN. unfold rank. assert (LE : forall l0 : list coord, (length (filter (before c) l0) <= length l0)%nat) by (induction l0 as [|e l' IH]; cbn [filter length]; auto; destruct (before c e); cbn [length]; lia).
  induction l as [|e l IH]; [destruct IN|]. cbn [filter]. destruct IN as [->|IN].
  - assert (B : before c c = false) by (unfold before; now rewrite (cmp_refl _ _ ccmp_total)). rewrite B. cbn [length]. specialize (LE l). lia.
  - specialize (IH IN). destruct (before c e); cbn [length]; lia.
Qed.
Lemma rank_perm l : NoDup l -> Permutation (map (rank l) l) (seq 0 (length l)).
Proof.
  intros ND. assert (NR : NoDup (map (rank l) l)).
  { apply NoDup_nth_error. intros i j L E. rewrite map_length in L. rewrite !nth_error_map in E. destruct (nth_error l i) as [p|] eqn:P; [|apply nth_error_None in P; lia].
    destruct (nth_error l j) as [q|] eqn:Q; [|discriminate]. cbn [option_map] in E. injection E as E.
    assert (p = q). { destruct (ccmp p q) eqn:C; [now apply ccmp_eq| |].
      - pose proof (rank_lt l p q (nth_error_In _ _ P) C). lia.
      - apply (cmp_gt_lt _ _ _ ccmp_total) in C. pose proof (rank_lt l q p (nth_error_In _ _ Q) C). lia. }
    subst q. apply (proj1 (NoDup_nth_error l) ND); auto. congruence. }
  apply NoDup_Permutation_bis; auto; [rewrite map_length, seq_length; auto|].
  intros x X. apply in_map_iff in X as (c & <- & C). apply in_seq. pose proof (rank_bound l c C). lia.
Qed.
Lemma number_ok w m : minv w m -> number (mnodes m) = Ok (map (rank (w_nodes w)) (w_nodes w)).
Proof.
  intros I. unfold number. match goal with |- context [for_up 0 ?n ?b ?s] => destruct (BcProofs.for_ok (fun k l => l = map (rank (w_nodes w)) (firstn k (w_nodes w))) 0 n b s) as (l & EQ & HL) end; [lia|auto| |].
  - intros k l Kk ->. unfold llrb_length in Kk. rewrite (len_nodes w m I) in Kk. destruct (nth_error (w_nodes w) k) as [c|] eqn:C; [|apply nth_error_None in C; lia].
    rewrite (getorder_ok (mnodes m) k c (i_tree _ _ I)) by (rewrite (i_keys _ _ I); auto). cbn [bind]. eexists. split; [reflexivity|]. rewrite (i_keys _ _ I), Nat2Z.id.
    rewrite Nat.add_1_r. assert (F : firstn (S k) (w_nodes w) = firstn k (w_nodes w) ++ [c]).
    { clear - C. revert k C. induction (w_nodes w) as [|d l IH]; intros k C; [now rewrite nth_nil in C|]. destruct k as [|k]; cbn [nth_error] in C; [injection C as ->; reflexivity|]. cbn [firstn app]. f_equal. now apply IH. }
    rewrite F, map_app. reflexivity.
  - unfold llrb_length in HL. rewrite (len_nodes w m I), firstn_all in HL. rewrite <- HL. exact EQ.
Qed.
Lemma rank_nth l g c : nth_error l g = Some c -> nth g (map (rank l) l) 0%nat = rank l c.
Proof. intros N. apply nth_error_nth. now rewrite nth_error_map, N. Qed.

(* the solution *)
Lemma nodal_ext (es : list (felem K)) x y g s : (forall h t, x h t = y h t) -> nodal es x g s = nodal es y g s.
Proof.
  intros E. unfold nodal. induction es as [|e es IH]; cbn [fold_right]; auto. rewrite IH. f_equal. unfold pull. apply sumr_ext. intros a A.
  destruct (g =? nth a (el2g e) 0)%nat; auto. apply sumr_ext. intros b B. apply sumr_ext. intros t T. now rewrite E.
Qed.
Lemma nth_map {A B} (f : A -> B) l i d e a : nth_error l i = Some a -> nth i (map f l) d = f a -> nth i (map f l) e = f a.
Proof. intros N _. apply nth_error_nth. now rewrite nth_error_map, N. Qed.
Definition u_of (m : mesh K) := map (fun n : lnode coord (ndata K) => nu (lval n)) (larr (mnodes m)).
Definition fix_of (m : mesh K) := map (fun n : lnode coord (ndata K) => nfix (lval n)) (larr (mnodes m)).
Lemma problem_of w m es : minv w m -> elements_on w es ->
  problem (length (w_nodes w)) (map (rank (w_nodes w)) (w_nodes w)) (vals (mfext m)) (vals (mdbc m)) es (u_of m) (fix_of m).
Proof.
  intros I EO. pose proof (len_nodes w m I) as LN. destruct (i_fext _ _ I) as (P & SP & LP). pose proof (i_dbc _ _ I) as SD. split.
  - apply rank_perm. eapply nodup_nodes; eauto.
  - apply SP. - eapply set_nodup; eauto. - apply SD. - eapply set_nodup; eauto.
  - unfold u_of. now rewrite map_length. - unfold fix_of. now rewrite map_length.
  - intros g s G S3 B. destruct SD as (_ & _ & SG). rewrite SG. destruct (nth_error (larr (mnodes m)) g) as [n|] eqn:N; [|apply nth_error_None in N; lia].
    apply (i_marks _ _ I g n s N S3). replace (nth g (fix_of m) 0%Z) with (nfix (lval n)) in B; auto. symmetry. apply nth_error_nth. unfold fix_of. now rewrite nth_error_map, N.
  - intros e E. destruct (EO e E) as (A & B & _). auto.
  - intros e E. now apply EO.
  - intros e a s t E. now apply EO.
Qed.
Lemma left_of w m es x g s : minv w m -> leftover (vals (mfext m)) (vals (mdbc m)) es x g s = w_left w es x g s.
Proof.
  intros I. destruct (i_fext _ _ I) as (P & (_ & _ & SP) & LP). destruct (i_dbc _ _ I) as (_ & _ & SD).
  unfold leftover, w_left. rewrite SD. destruct (w_pres w g s); auto. f_equal.
  - unfold load. rewrite SP, LP. auto.
  - apply nodal_ext. intros h t. unfold held, w_held. now rewrite SD.
Qed.
Lemma firm_of w m es : minv w m -> w_firm w es -> held_firm (length (w_nodes w)) (vals (mdbc m)) es.
Proof. intros I F x X NZ. destruct (i_dbc _ _ I) as (_ & _ & SD). apply F; auto. intros g s G. apply X. now rewrite SD. Qed.
Lemma aget_nth {A} (l : list A) i d : (i < length l)%nat -> aget l i = Ok (nth i l d).
Proof. intros L. apply AvlProofs.aget_some. now apply nth_error_nth'. Qed.
Lemma put_back_ok w m n2o fixed U : minv w m -> length fixed = length (w_nodes w) -> length n2o = length (w_nodes w) -> length U = length (w_nodes w) ->
  (forall g, (g < length (w_nodes w))%nat -> (nth g n2o 0 < length (w_nodes w))%nat) ->
  (forall g s, (g < length (w_nodes w))%nat -> (s < 3)%nat -> Z.testbit (nth g fixed 0%Z) (Z.of_nat s) = true -> w_pres w g s <> None) ->
  exists t, put_back n2o fixed U (mnodes m) = Ok t /\ minv (moved w (fun g => nth (nth g n2o 0%nat) U zerov)) (Mesh t (mdbc m) (mfext m)).
Proof.
  intros I LF LN2 LU RG MK. pose proof (len_nodes w m I) as LN. unfold put_back.
  match goal with |- context [for_up 0 ?n ?b ?s] => destruct (BcProofs.for_ok (fun k t => lroot t = lroot (mnodes m) /\ length (larr t) = length (larr (mnodes m)) /\
    forall i q, nth_error (larr (mnodes m)) i = Some q -> nth_error (larr t) i = Some (if Nat.ltb i k then LNode (lkey q) (Nd (nnb (lval q)) (nth (nth i n2o 0%nat) U zerov) (nth i fixed 0%Z)) (lorder q) (lleft q) (lright q) (lred q) else q)) 0 n b s) as (t & EQ & R & L & H) end; [lia|auto| |].
  - intros k t Kk (R & L & H). unfold llrb_length in Kk. rewrite (aget_nth fixed k 0%Z) by lia. cbn [bind]. rewrite (aget_nth n2o k 0%nat) by lia. cbn [bind].
    rewrite (aget_nth U (nth k n2o 0%nat) zerov) by (rewrite LU; apply RG; lia). cbn [bind].
    destruct (nth_error (larr (mnodes m)) k) as [q|] eqn:Q; [|apply nth_error_None in Q; lia]. pose proof (H k q Q) as HQ. rewrite Nat.ltb_irrefl in HQ.
    rewrite (LlrbProofs.lmodify_ok _ _ _ _ HQ). cbn [bind]. eexists. split; [reflexivity|]. cbn [lroot larr]. split; auto. split; [now rewrite length_upd|].
    intros i q' Q'. destruct (Nat.eq_dec i k) as [->|NE].
    + rewrite nth_error_upd_eq by lia. destruct (Nat.ltb_spec k (k + 1)); [|lia]. rewrite Q in Q'. injection Q' as ->. reflexivity.
    + rewrite nth_error_upd_ne by auto. rewrite (H i q' Q'). replace (Nat.ltb i (k + 1)) with (Nat.ltb i k) by (destruct (Nat.ltb_spec i k), (Nat.ltb_spec i (k + 1)); auto; lia). reflexivity.
  - exists t. split; [exact EQ|]. replace t with (Llrb (larr t) (lroot (mnodes m))) by (rewrite <- R; now destruct t). apply (revalued w); auto.
    intros i q q' Q Q'. rewrite (H i q Q) in Q'. assert (i < length (larr (mnodes m)))%nat by (apply nth_error_Some; congruence). unfold llrb_length in Q'. destruct (Nat.ltb_spec i (length (larr (mnodes m)))); [|lia]. injection Q' as <-.
    split; [repeat split|]. split; [reflexivity|]. cbn [lval nfix]. intros s S3 B. apply MK; auto. lia.
Qed.

Lemma minv_disp w w' m : minv w m -> w_nodes w' = w_nodes w -> w_pres w' = w_pres w -> w_load w' = w_load w ->
  (forall i n, nth_error (larr (mnodes m)) i = Some n -> nu (lval n) = w_disp w' i) -> minv w' m.
Proof.
  intros I E1 E2 E3 D. split; rewrite ?E1, ?E2, ?E3; try apply I; auto.
Qed.
Lemma solve_ok sq eps lim w m es tol : is_sqrt sq -> fltb f0 eps = true -> minv w m -> solvable lim w es -> fltb f0 tol = true ->
  solve sq eps lim es m tol = Throw RuntimeError \/
  exists m' it x, solve sq eps lim es m tol = Ok (m', it) /\ minv (moved w x) m' /\ (it <= 3 * length (w_nodes w))%nat /\
    fltb (w_size w es (fun g s => gv (x g) s)) (tol * w_size w es (fun _ _ => f0)) = true.
Proof.
  intros SQ EP I (M16 & LM & EO & FM & g0 & s0 & G0 & S0 & N0) TP. pose proof (problem_of w m es I EO) as PR.
  destruct (perm_inj _ _ (p_order _ _ _ _ _ _ _ PR)) as (LN & NR & NI & NS).
  assert (DB : Forall (BcProofs.inside (K := K) (length (w_nodes w))) (vals (mdbc m))) by (apply Forall_forall; intros u U; apply (p_dbc _ _ _ _ _ _ _ PR u U)).
  destruct (BcProofs.fixings_ok (length (w_nodes w)) _ LN NR NI (vals (mdbc m)) (fix_of m) DB (p_dkeys _ _ _ _ _ _ _ PR) (p_marks _ _ _ _ _ _ _ PR)) as (fixed & P & EF & LF & LP & _ & HF & _).
  unfold solve. rewrite (number_ok w m I). cbn [bind]. fold (u_of m). fold (fix_of m). cbv zeta. rewrite (p_u0 _ _ _ _ _ _ _ PR), EF. cbn [bind].
  destruct (C85_solved K sq eps lim (length (w_nodes w)) _ _ _ es _ _ tol SQ EP M16 LM TP PR (firm_of w m es I FM)) as [T|(U & R & it & Q & LU & IT & SZ)].
  - exists g0, s0. rewrite (left_of w m) by auto. auto.
  - left. rewrite T. reflexivity.
  - right. rewrite Q. cbn [bind].
    destruct (put_back_ok w m (map (rank (w_nodes w)) (w_nodes w)) fixed U I LF LN LU NR) as (t & -> & I').
    + intros g s G S3 B. pose proof (HF g s G S3) as HFX. unfold BcProofs.fx, BcProofs.mark in HFX. rewrite B in HFX. symmetry in HFX. apply orb_true_iff in HFX as [H|H].
      * destruct (i_dbc _ _ I) as (_ & _ & SG). rewrite <- SG. apply (p_fresh _ _ _ _ _ _ _ PR g s G S3 H).
      * destruct (i_dbc _ _ I) as (_ & _ & SG). rewrite <- SG, given_val, H. discriminate.
    + cbn [bind]. eexists _, it, _. split; [reflexivity|]. split; [exact I'|]. split; auto. rewrite <- SZ. cbv zeta. unfold w_size. f_equal.
      * apply sumr_ext. intros g G. apply sumr_ext. intros s S3. rewrite (left_of w m) by auto. reflexivity.
      * f_equal. apply sumr_ext. intros g G. apply sumr_ext. intros s S3. rewrite (left_of w m) by auto. reflexivity.
Qed.
Lemma reached_inv sq eps lim w m : is_sqrt sq -> fltb f0 eps = true -> reached sq eps lim w m -> minv w m.
Proof.
  intros SQ EP R. induction R as [|w m o m' R IH A E|w m es tol m' it x R IH S T E X].
  - apply minv_new.
  - destruct (step_ok w m o IH A) as (m1 & E1 & I1). congruence.
  - destruct (solve_ok sq eps lim w m es tol SQ EP IH S T) as [F|(m1 & it1 & x1 & E1 & I1 & _)]; [congruence|]. rewrite E in E1. injection E1 as <- <-.
    apply (minv_disp (moved w x1)); auto. cbn [moved w_disp]. intros i n N. apply X. unfold getnode. now rewrite (AvlProofs.aget_some _ _ _ N).
Qed.
Lemma inv_shows w m : minv w m -> shows w m.
Proof.
  intros I. pose proof (len_nodes w m I) as LN. destruct (i_fext _ _ I) as (P & (_ & _ & SP) & LP). split.
  - eapply nodup_nodes; eauto.
  - exact LN.
  - intros c. apply (find_ok w m c I).
  - intros i c N. rewrite <- (i_keys _ _ I) in N. unfold keys in N. rewrite nth_error_map in N. destruct (nth_error (larr (mnodes m)) i) as [n|] eqn:Q; [|discriminate]. injection N as <-.
    exists n. unfold getnode. rewrite (AvlProofs.aget_some _ _ _ Q). split; auto. split; auto. eapply i_disp; eauto.
  - intros i L. unfold getnode, aget. rewrite (proj2 (nth_error_None _ i)) by lia. reflexivity.
  - apply (i_dbc _ _ I).
  - intros g s. unfold load. rewrite SP, LP. reflexivity.
  - intros c. destruct (addnode_ok w m c I) as (m' & k & E & _ & Q). eauto.
  - intros c f d. destruct (find_ok w m c I) as (E & H). destruct (add_bc_ok w m c f d I) as (m' & b & E' & _). exists m'. rewrite E'. f_equal. f_equal. unfold add_bc in E'. rewrite E in E'. cbn [bind] in E'. destruct (place (w_nodes w) c).
    + destruct (bc_one n f d 0 (mdbc m)) as [s1| |]; cbn [bind] in E'; try discriminate. destruct (bc_one n f d 1 s1) as [s2| |]; cbn [bind] in E'; try discriminate. destruct (bc_one n f d 2 s2) as [s3| |]; cbn [bind] in E'; try discriminate. congruence.
    + congruence.
  - intros c f d. destruct (find_ok w m c I) as (E & H). destruct (add_fext_ok w m c f d I) as (m' & b & E' & _). exists m'. rewrite E'. f_equal. f_equal. unfold add_fext in E'. rewrite E in E'. cbn [bind] in E'. destruct (place (w_nodes w) c).
    + destruct (force_one n f d 0 (mfext m)) as [s1| |]; cbn [bind] in E'; try discriminate. destruct (force_one n f d 1 s1) as [s2| |]; cbn [bind] in E'; try discriminate. destruct (force_one n f d 2 s2) as [s3| |]; cbn [bind] in E'; try discriminate. congruence.
    + congruence.
  - exists (map (rank (w_nodes w)) (w_nodes w)). split; [now apply number_ok|]. pose proof (nodup_nodes w m I) as ND. split; [now apply rank_perm|]. split.
    + intros g h p q G H E. apply earlier_cmp in E. rewrite (rank_nth _ _ _ G), (rank_nth _ _ _ H). apply rank_lt; auto. eapply nth_error_In; eauto.
    + intros g p G. rewrite (rank_nth _ _ _ G). unfold getorderofnode. destruct (find_ok w m p I) as (-> & _). cbn [bind]. rewrite (place_some _ _ _ ND G). cbn [bind lderef].
      rewrite (getorder_ok (mnodes m) g p (i_tree _ _ I)) by (rewrite (i_keys _ _ I); auto). rewrite (i_keys _ _ I). reflexivity.
Qed.
End Proofs.

(* ---- the theorems ---- *)
(* Whatever has been done with a mesh, every call that is allowed goes through. *)
Theorem C86_goes_on : forall (K : ofield) (sq : K -> K) eps lim w m o, is_sqrt sq -> fltb f0 eps = true ->
  reached sq eps lim w m -> allowed w o -> exists m', mstep m o = Ok m' /\ reached sq eps lim (after w o) m'.
Proof.
  intros K sq eps lim w m o SQ EP R A. destruct (step_ok w m o (reached_inv sq eps lim w m SQ EP R) A) as (m' & E & _). exists m'. split; auto. eapply r_call; eauto.
Qed.
(* And the mesh is what the calls say. *)
Theorem C86_mesh : forall (K : ofield) (sq : K -> K) eps lim w m, is_sqrt sq -> fltb f0 eps = true -> reached sq eps lim w m -> shows w m.
Proof. intros K sq eps lim w m SQ EP R. apply inv_shows. eapply reached_inv; eauto. Qed.
(* Building a mesh from nothing never fails. *)
Theorem C86_built : forall (K : ofield) (ops : list (mop K)), all_allowed empty_world ops -> exists m, mrun mesh_new ops = Ok m /\ shows (fold_left after ops empty_world) m.
Proof.
  intros K. assert (G : forall ops w m, minv (K := K) w m -> all_allowed w ops -> exists m', mrun m ops = Ok m' /\ minv (fold_left after ops w) m').
  { induction ops as [|o ops IH]; intros w m I A; [exists m; auto|]. destruct A as (A & B). destruct (step_ok w m o I A) as (m1 & E & I1). cbn [mrun fold_left]. rewrite E. cbn [bind]. auto. }
  intros ops A. destruct (G ops _ _ minv_new A) as (m & E & I). exists m. split; auto. now apply inv_shows.
Qed.
(* A solution leaves less than tol of what there was, by the nodes and the conditions as they were given; the marks it leaves do no harm to the next one. *)
Theorem C86_solved : forall (K : ofield) (sq : K -> K) eps lim w m es tol, is_sqrt sq -> fltb f0 eps = true ->
  reached sq eps lim w m -> solvable lim w es -> fltb f0 tol = true ->
  solve sq eps lim es m tol = Throw RuntimeError \/
  exists m' it x, solve sq eps lim es m tol = Ok (m', it) /\ reached sq eps lim (moved w x) m' /\ it <= 3 * length (w_nodes w) /\
    fltb (w_size w es (fun g s => gv (x g) s)) (fmul tol (w_size w es (fun _ _ => f0))) = true.
Proof.
  intros K sq eps lim w m es tol SQ EP R S T. destruct (solve_ok sq eps lim w m es tol SQ EP (reached_inv sq eps lim w m SQ EP R) S T) as [F|(m' & it & x & E & I & IT & SZ)]; [now left|right].
  exists m', it, x. split; auto. split; [|auto]. eapply r_solve; eauto. intros i n N. unfold getnode in N. apply aget_ok in N. apply (i_disp _ _ I i n N).
Qed.

(* A copy of a node taken before another one is added and written back after it (updatenode overwrites the links) loses nodes: the node is
   still there by its number, but is not found any more, and adding it again gives it a second number. *)
Definition stale : outcome (option nat * option nat * coord * nat) :=
  let* (m, _) := addnode (@mesh_new QcF) (Co 1 0 0) in
  let* n := getnode m 0 in
  let* (m, _) := addnode m (Co 0 0 0) in
  let* before := hasnode m (Co 0 0 0) in
  let* (m, _) := updatenode m n in
  let* after := hasnode m (Co 0 0 0) in
  let* q := getnode m 1 in
  let* (m, k) := addnode m (Co 0 0 0) in
  Ok (before, after, lkey q, k).
Theorem C86_stale_copy_refuted : stale = Ok (Some 1, None, Co 0 0 0, 2).
Proof. vm_compute. reflexivity. Qed.
(* The order of a node that is not there is looked up all the same; adding to the list of nodes what it has fails an assertion, so that
   mesh::addnode has to look first; and a plane in two directions at once fails one too. *)
Theorem C86_getorderofnode_refuted : forall (K : ofield), exists f, getorderofnode (@mesh_new K) (Co 0 0 0) = UB f.
Proof. intros K. eexists. reflexivity. Qed.
Theorem C86_duplicate_add_refuted : forall (K : ofield), exists t, nl_add (mnodes (@mesh_new K)) (Co 0 0 0) nd0 = Ok t /\ nl_add t (Co 0 0 0) (@nd0 K) = UB OutOfBounds.
Proof. intros K. eexists. split; reflexivity. Qed.
Theorem C86_two_planes_refuted : forall (K : ofield) (d : K), add_bc_plane mesh_new 3 1 0 7 d = UB OutOfBounds.
Proof. reflexivity. Qed.

(* the springs of C85 again, standing up: built, solved, loaded once more and solved again *)
Definition ops3 : list (mop QcF) :=
  [ONode (Co 0 0 0); ONode (Co 0 0 256); ONode (Co 0 0 0); ONode (Co 0 0 512); OForce (Co 0 0 512) 1 (qz 3); OBc (Co 0 0 0) 7 (qz 0);
   OBc (Co 0 0 512) 2 (qz 5); OPlane 4 2 100 1 (qz 2); OForce (Co 0 0 512) 1 (qz 1); OForce (Co 0 0 256) 4 (qz (-8)); OBc (Co 9 9 9) 7 (qz 1)].
Definition w3 : world QcF := fold_left after ops3 empty_world.
Example C86_hypotheses : all_allowed empty_world ops3 /\ solvable 100 w3 row3 /\ w_nodes w3 = [Co 0 0 0; Co 0 0 256; Co 0 0 512].
Proof.
  split; [cbn; auto 20|]. split; [|reflexivity]. destruct C85_hypotheses as (PR & HF & _). split; [cbn; lia|]. split; [cbn; lia|]. split; [|split].
  - intros e E. pose proof (p_nodes _ _ _ _ _ _ _ PR e E) as (A & B). split; [exact A|]. split; [exact B|]. split; [exact (p_size _ _ _ _ _ _ _ PR e E)|]. intros. now apply (p_sym _ _ _ _ _ _ _ PR).
  - intros x X NZ. apply HF; auto. intros g s G. apply X. clear - G. destruct g as [|[|[|g]]]; (destruct s as [|[|[|s]]]); cbn in G |- *; try discriminate; congruence.
  - exists 0, 0. split; [cbn; lia|]. split; [lia|]. assert (C : feqb (w_left w3 row3 (fun _ _ => f0) 0 0) f0 = false) by (vm_compute; reflexivity). exact (feqb_false _ _ C).
Qed.
Definition demo3 : outcome (list nat * list (v3 QcF) * list (v3 QcF) * list Z) :=
  let* m := mrun mesh_new ops3 in
  let* n2o := number (mnodes m) in
  let* (m1, _) := solve qsq ieps 100 row3 m (fdiv f1 (qz 100)) in
  let* m2 := mrun m1 [OForce (Co 0 0 512) 1 (qz 2)] in
  let* (m2, _) := solve qsq ieps 100 row3 m2 (fdiv f1 (qz 100)) in
  Ok (n2o, u_of m1, u_of m2, fix_of m2).
Fixpoint forallb2 {A} (f : A -> A -> bool) (l k : list A) : bool := match l, k with [], [] => true | a :: l, b :: k => f a b && forallb2 f l k | _, _ => false end.
Definition xs (l : list (v3 QcF)) (a b c : QcF) : bool := match map (fun v => gv v 0) l with [p; q; r] => feqb p a && feqb q b && feqb r c | _ => false end.
Example C86_demo : match demo3 with Ok (n2o, u1, u2, f) => forallb2 Nat.eqb n2o [2; 1; 0] && xs u1 (qz 2) (qz 3) (qz 7) && xs u2 (qz 2) (fadd (qz 3) (fdiv f1 (qz 2))) (fadd (qz 9) (fdiv f1 (qz 2))) && forallb2 Z.eqb (map (fun z => Z.land z 7) f) [7; 0; 2]%Z | _ => false end = true.
Proof. vm_compute. reflexivity. Qed.
Print Assumptions C86_goes_on.
Print Assumptions C86_mesh.
Print Assumptions C86_built.
Print Assumptions C86_solved.
Print Assumptions C86_stale_copy_refuted.
Print Assumptions C86_getorderofnode_refuted.
Print Assumptions C86_duplicate_add_refuted.
Print Assumptions C86_two_planes_refuted.
Print Assumptions C86_hypotheses.
Print Assumptions C86_demo.
