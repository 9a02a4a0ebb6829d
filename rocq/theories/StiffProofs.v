(* C88: lemmas on the stiffness of an element. *)
From Coq Require Import List ZArith Bool Arith Lia Field.
From Verif Require Import Base LinBase SmatModel SmatProofs IncholModel IncholProofs PcgModel PcgProofs BcModel BcProofs PropsBc ShapeModel PropsShape StiffModel.
Import ListNotations.
Local Open Scope nat_scope.

Section Lists.
Lemma upd_mid {A} (l1 : list A) x l2 y k : length l1 = k -> upd (l1 ++ x :: l2) k y = l1 ++ y :: l2.
Proof. intros <-. induction l1; cbn [app length upd]; auto. now rewrite IHl1. Qed.
Lemma nth_mid {A} (l1 : list A) x l2 k : length l1 = k -> nth_error (l1 ++ x :: l2) k = Some x.
Proof. intros <-. induction l1; cbn; auto. Qed.
End Lists.

Section Gauss.
Context {K : ofield}.
Local Open Scope lin_scope.
Add Field Kf71 : (f_th K).

Lemma rows_ok (f : v3 K -> outcome (v3 K)) g B : (forall b, In b B -> f b = Ok (g b)) -> rows (length B) f B = Ok (map g B).
Proof.
  intros H. unfold rows. 
  destruct (for_ok (fun k s => s = map g (firstn k B) ++ skipn k B) 0 (length B) (fun j B => let* b := aget B j in let* b := f b in aset B j b) B) as (s & E & Q); [lia|reflexivity| |].
  - intros k s Lk ->. destruct (nth_error B k) as [b|] eqn:N; [|apply nth_error_None in N; lia].
    assert (SK : skipn k B = b :: skipn (k + 1) B). { clear - N. revert k N. induction B as [|x B IH]; intros [|k] N; cbn in *; try discriminate; [now inversion N|]. now apply IH. }
    assert (L1 : length (map g (firstn k B)) = k) by (rewrite map_length, firstn_length; lia).
    rewrite SK. assert (A : aget (map g (firstn k B) ++ b :: skipn (k + 1) B) k = Ok b). { apply aget_ok. now apply nth_mid. }
    rewrite A. cbn [bind]. rewrite H by (eapply nth_error_In; eauto). cbn [bind]. eexists. split; [apply aset_ok|].
    + rewrite app_length. cbn [length]. lia.
    + rewrite (upd_mid _ _ _ _ k L1).
      assert (FK : firstn (k + 1) B = firstn k B ++ [b]). { clear - N. revert k N. induction B as [|x B IH]; intros [|k] N; cbn in *; try discriminate; [now inversion N|]. f_equal. now apply IH. }
      rewrite FK, map_app, <- app_assoc. reflexivity.
  - rewrite E, Q, firstn_all, skipn_all, app_nil_r. reflexivity.
Qed.

(* leading minors *)
Definition minor2 (J : m3 K) : K := get3 J 0 0 * get3 J 1 1 - get3 J 0 1 * get3 J 1 0.
Definition det3 (J : m3 K) : K :=
  get3 J 0 0 * (get3 J 1 1 * get3 J 2 2 - get3 J 1 2 * get3 J 2 1)
  - get3 J 0 1 * (get3 J 1 0 * get3 J 2 2 - get3 J 1 2 * get3 J 2 0)
  + get3 J 0 2 * (get3 J 1 0 * get3 J 2 1 - get3 J 1 1 * get3 J 2 0).
Definition pivot0 (J : m3 K) : K := get3 J 0 0.
Definition pivot1 (J : m3 K) : K := minor2 J / pivot0 J.
Definition pivot2 (J : m3 K) : K := det3 J / minor2 J.
Definition small (eps x : K) : bool := fltb (fabs x) eps.
Definition tiny (eps : K) (J : m3 K) : bool := small eps (pivot0 J) || small eps (pivot1 J) || small eps (pivot2 J).
(* J times the row b' is b *)
Definition solves (J : m3 K) (b' b : v3 K) : Prop := forall i, i < 3 -> sumr 0 3 (fun j => get3 J i j * gv b' j) = gv b i.

Lemma big_nz (eps x : K) : fltb f0 eps = true -> small eps x = false -> x <> f0.
Proof.
  intros P S E. unfold small in S. subst. unfold fabs in S. rewrite fle_refl in S. congruence.
Qed.

Lemma rows_pure n (g : v3 K -> v3 K) B : n = length B -> rows n (fun b => Ok (g b)) B = Ok (map g B).
Proof. intros ->. now apply rows_ok. Qed.
Lemma rows_div n i (q : K) B : n = length B -> q <> f0 -> rows n (fun b => let* x := divc (gv b i) q in Ok (setv b i x)) B = Ok (map (fun b => setv b i (gv b i / q)) B).
Proof. intros -> N. apply rows_ok. intros b _. now rewrite divc_ok. Qed.
Ltac rws := repeat first [rewrite rows_pure by (rewrite ?map_length; reflexivity) | rewrite rows_div by (rewrite ?map_length; auto)]; cbn [bind].
Ltac step := cbn [bind get3 set3 gen3 e00 e01 e02 e10 e11 e12 e20 e21 e22 Nat.eqb andb Nat.sub Nat.add].
Lemma gauss_ok (eps : K) (J : m3 K) B : fltb f0 eps = true ->
  inv_mul_gauss eps (length B) J B = Throw RuntimeError /\ tiny eps J = true \/
  tiny eps J = false /\ exists g, inv_mul_gauss eps (length B) J B = Ok (det3 J, map g B) /\ forall b, solves J (g b) b.
Proof.
  intros P. destruct J as [a b c d e f g h i]. unfold inv_mul_gauss, for_up. cbn [Nat.sub loopn Nat.add]. unfold set3, gen3. step.
  unfold tiny, pivot1, pivot2, pivot0, det3, minor2. step.
  change (fltb (fabs a) eps) with (small eps a). destruct (small eps a) eqn:T0; [left; split; reflexivity|]. cbn [orb]. pose proof (big_nz _ _ P T0) as A. repeat (rewrite !(divc_ok _ a) by auto; step; rws; step).
  set (e' := e - d / a * b). set (f' := f - d / a * c). set (h' := h - g / a * b). set (i' := i - g / a * c).
  replace ((a * e - b * d) / a) with e' by (subst e'; field; auto).
  change (fltb (fabs e') eps) with (small eps e'). destruct (small eps e') eqn:T1; [left; split; reflexivity|]. cbn [orb]. pose proof (big_nz _ _ P T1) as A1. repeat (rewrite !(divc_ok _ e') by auto; step; rws; step).
  assert (Ee : e = e' + d / a * b) by (subst e'; ring). assert (Ef : f = f' + d / a * c) by (subst f'; ring). assert (Eh : h = h' + g / a * b) by (subst h'; ring). assert (Ei : i = i' + g / a * c) by (subst i'; ring).
  clearbody e' f' h' i'. subst e f h i. set (i2 := i' - h' / e' * f').
  match goal with |- context [small eps (?x / ?y)] => replace y with (a * e') by (field; auto); replace x with (a * e' * i2) by (subst i2; field; auto) end.
  replace (a * e' * i2 / (a * e')) with i2 by (field; auto).
  change (fltb (fabs i2) eps) with (small eps i2). destruct (small eps i2) eqn:T2; [left; split; reflexivity|]. pose proof (big_nz _ _ P T2) as A2. right. split; auto.
  assert (Ei : i' = i2 + h' / e' * f') by (subst i2; ring). clearbody i2. subst i'.
  step. repeat (progress (rws; step)). rewrite !map_map. eexists. split; [apply (f_equal Ok); apply (f_equal2 pair); [ring|reflexivity]|].
  intros [x y z] k Lk. rewrite three. assert (C : k = 0 \/ k = 1 \/ k = 2) by lia.
  destruct C as [->|[->| ->]]; cbn; field; auto.
Qed.
End Gauss.

Section Sums.
Context {K : ofield}.
Local Open Scope lin_scope.
Add Field Kf72 : (f_th K).
Lemma get_set3 (m : m3 K) i j x a b : a < 3 -> b < 3 -> get3 (set3 m i j x) a b = if Nat.eqb a i && Nat.eqb b j then x else get3 m a b.
Proof. intros. unfold set3. now rewrite get_gen. Qed.
Lemma aget_nth0 {A} (l : list A) k d : k < length l -> aget l k = Ok (nth k l d).
Proof. intros. apply aget_ok. now apply nth_error_nth'. Qed.

Definition jac (nnd : nat) (d xe : list (v3 K)) (i j : nat) : K := sumr 0 nnd (fun k => gv (nth k d zerov) i * gv (nth k xe zerov) j).
Lemma jacobian_ok nnd (d xe : list (v3 K)) : length d = nnd -> length xe = nnd ->
  exists J, jacobian nnd d xe = Ok J /\ forall i j, i < 3 -> j < 3 -> get3 J i j = jac nnd d xe i j.
Proof.
  intros LD LX. unfold jacobian.
  match goal with |- context [for_up 0 3 ?f zero3] => destruct (for_ok (fun i (J : m3 K) => forall a b, a < i -> b < 3 -> get3 J a b = jac nnd d xe a b) 0 3 f zero3) as (J & E & H); [lia|intros; lia| |] end.
  - intros i J I H.
    match goal with |- context [for_up 0 3 ?f J] => destruct (for_ok (fun j (J : m3 K) => forall a b, a < 3 -> b < 3 -> a < i \/ (a = i /\ b < j) -> get3 J a b = jac nnd d xe a b) 0 3 f J) as (J1 & E1 & H1); [lia|intros a b A B [C|C]; [auto|lia]| |] end.
    + intros j J1 Jj H1.
      match goal with |- context [for_up 0 nnd ?f ?s] => destruct (for_ok (fun k (J : m3 K) => (forall a b, a < 3 -> b < 3 -> a < i \/ (a = i /\ b < j) -> get3 J a b = jac nnd d xe a b) /\ get3 J i j = sumr 0 k (fun k => gv (nth k d zerov) i * gv (nth k xe zerov) j)) 0 nnd f s) as (J2 & E2 & H2 & H3); [lia| | |] end.
      * split; [|rewrite get_set3, !Nat.eqb_refl by lia; now rewrite sumr_nil].
        intros a b A B C. rewrite get_set3 by lia. destruct (Nat.eqb_spec a i), (Nat.eqb_spec b j); cbn [andb]; auto. lia.
      * intros k J2 Kk (H2 & H3). rewrite (aget_nth0 d k zerov), (aget_nth0 xe k zerov) by lia. cbn [bind]. eexists. split; [reflexivity|]. split.
        -- intros a b A B C. rewrite get_set3 by lia. destruct (Nat.eqb_spec a i), (Nat.eqb_spec b j); cbn [andb]; auto. lia.
        -- rewrite get_set3, !Nat.eqb_refl by lia. cbn [andb]. rewrite H3, Nat.add_1_r, sumr_S by lia. reflexivity.
      * exists J2. split; [exact E2|]. intros a b A B C. destruct (Nat.eq_dec a i) as [->|]; [|apply H2; auto; lia]. destruct (Nat.eq_dec b j) as [->|]; [|apply H2; auto; lia]. exact H3.
    + exists J1. split; [exact E1|]. intros a b A B. apply H1; lia.
  - exists J. split; [exact E|]. auto.
Qed.

Definition khold (n : nat) (Ke : list (m3 K)) (C : nat -> nat -> nat -> nat -> K) : Prop :=
  length Ke = T n /\ forall a b s t, a <= b -> b < n -> s < 3 -> t < 3 -> get3 (nth (kidx a b) Ke zero3) s t = C a b s t.
Lemma khold_ext n Ke C C' : khold n Ke C -> (forall a b s t, a <= b -> b < n -> s < 3 -> t < 3 -> C a b s t = C' a b s t) -> khold n Ke C'.
Proof. intros (L & H) E. split; auto. intros. rewrite <- E by auto. auto. Qed.
Lemma bump n Ke C i j (v : nat -> nat -> K) : khold n Ke C -> i <= j -> j < n ->
  exists Ke', (let* q := kget Ke i j in aset Ke (kidx i j) (add3 q (gen3 v))) = Ok Ke' /\
    khold n Ke' (fun a b s t => C a b s t + if Nat.eqb a i && Nat.eqb b j then v s t else f0).
Proof.
  intros (L & H) I J. pose proof (kidx_lt _ _ _ I J). unfold kget. destruct (Nat.ltb_spec j i); [lia|]. rewrite (aget_nth0 Ke _ zero3) by lia. cbn [bind]. rewrite aset_ok by lia. eexists. split; [reflexivity|].
  split; [now rewrite length_upd|]. intros a b s t A B S3 T3. pose proof (kidx_lt _ _ _ A B). destruct (Nat.eq_dec (kidx a b) (kidx i j)) as [EQ|NE].
  - apply kidx_inj in EQ as (-> & ->); auto. erewrite nth_error_nth by (apply nth_error_upd_eq; lia). rewrite get_add3, get_gen, H, !Nat.eqb_refl by auto. reflexivity.
  - assert (N : nth (kidx a b) (upd Ke (kidx i j) (add3 (nth (kidx i j) Ke zero3) (gen3 v))) zero3 = nth (kidx a b) Ke zero3).
    { destruct (nth_error Ke (kidx a b)) as [x|] eqn:E; [|apply nth_error_None in E; lia]. rewrite (nth_error_nth _ _ _ E). apply nth_error_nth. now rewrite nth_error_upd_ne by auto. }
    rewrite N, H by auto. destruct (Nat.eqb_spec a i), (Nat.eqb_spec b j); cbn [andb]; subst; [lia| | |]; ring.
Qed.
Definition part (E : nat -> nat -> m3 K) (d : list (v3 K)) (gw : K) (a b s t : nat) : K :=
  sumr 0 3 (fun k => sumr 0 3 (fun n => get3 (E k n) s t * (gv (nth a d zerov) k * gv (nth b d zerov) n * gw))).
Lemma addKe_ok nnd E d gw Ke C : length d = nnd -> khold nnd Ke C ->
  exists Ke', addKe nnd E d gw Ke = Ok Ke' /\ khold nnd Ke' (fun a b s t => C a b s t + part E d gw a b s t).
Proof.
  intros LD H0. unfold addKe.
  match goal with |- context [for_up 0 nnd ?f Ke] => destruct (for_ok (fun i Ke => khold nnd Ke (fun a b s t => C a b s t + if a <? i then part E d gw a b s t else f0)) 0 nnd f Ke) as (Ke' & EQ & H); [lia| | |] end.
  - eapply khold_ext; [exact H0|]. intros. cbn [Nat.ltb Nat.leb]. ring.
  - intros i K1 I H1.
    match goal with |- context [for_up i nnd ?f K1] => destruct (for_ok (fun j Ke => khold nnd Ke (fun a b s t => C a b s t + if (a <? i) || (Nat.eqb a i && (b <? j)) then part E d gw a b s t else f0)) i nnd f K1) as (K2 & EQ & H); [lia| | |] end.
    + eapply khold_ext; [exact H1|]. intros a b s t A B S3 T3. cbv beta. destruct (Nat.ltb_spec a i); auto. cbn [orb]. destruct (Nat.eqb_spec a i); auto. destruct (Nat.ltb_spec b i); auto. lia.
    + intros j K2 J H2.
      match goal with |- context [for_up 0 3 ?f K2] => destruct (for_ok (fun k Ke => khold nnd Ke (fun a b s t => (C a b s t + if (a <? i) || (Nat.eqb a i && (b <? j)) then part E d gw a b s t else f0) +
         if Nat.eqb a i && Nat.eqb b j then sumr 0 k (fun k => sumr 0 3 (fun n => get3 (E k n) s t * (gv (nth a d zerov) k * gv (nth b d zerov) n * gw))) else f0)) 0 3 f K2) as (K3 & EQ & H); [lia| | |] end.
      * eapply khold_ext; [exact H2|]. intros a b s t A B S3 T3. cbv beta. rewrite (sumr_nil 0 0) by lia. destruct (Nat.eqb a i && Nat.eqb b j); ring.
      * intros k K3 Kk H3.
        match goal with |- context [for_up 0 3 ?f K3] => destruct (for_ok (fun n Ke => khold nnd Ke (fun a b s t => ((C a b s t + if (a <? i) || (Nat.eqb a i && (b <? j)) then part E d gw a b s t else f0) +
         if Nat.eqb a i && Nat.eqb b j then sumr 0 k (fun k => sumr 0 3 (fun n => get3 (E k n) s t * (gv (nth a d zerov) k * gv (nth b d zerov) n * gw))) else f0) +
         if Nat.eqb a i && Nat.eqb b j then sumr 0 n (fun n => get3 (E k n) s t * (gv (nth a d zerov) k * gv (nth b d zerov) n * gw)) else f0)) 0 3 f K3) as (K4 & EQ & H); [lia| | |] end.
        -- eapply khold_ext; [exact H3|]. intros a b s t A B S3 T3. cbv beta. rewrite (sumr_nil 0 0) by lia. destruct (Nat.eqb a i && Nat.eqb b j); ring.
        -- intros n K4 Nn H4. rewrite (aget_nth0 d i zerov), (aget_nth0 d j zerov) by lia. cbn [bind].
           destruct (bump _ _ _ i j (fun s t => get3 (E k n) s t * (gv (nth i d zerov) k * gv (nth j d zerov) n * gw)) H4) as (K5 & E5 & H5); [lia|lia|].
           exists K5. split; [exact E5|]. eapply khold_ext; [exact H5|]. intros a b s t A B S3 T3. cbv beta. rewrite Nat.add_1_r, (sumr_S 0 n) by lia. destruct (Nat.eqb_spec a i), (Nat.eqb_spec b j); cbn [andb]; subst; ring.
        -- exists K4. split; [exact EQ|]. eapply khold_ext; [exact H|]. intros a b s t A B S3 T3. cbv beta. rewrite Nat.add_1_r, (sumr_S 0 k) by lia. destruct (Nat.eqb a i && Nat.eqb b j); ring.
      * exists K3. split; [exact EQ|]. eapply khold_ext; [exact H|]. intros a b s t A B S3 T3. cbv beta. change (sumr 0 3 _) with (part E d gw a b s t).
        destruct (Nat.ltb_spec a i); cbn [orb].
        { destruct (Nat.eqb_spec a i); [lia|]. cbn [andb]. ring. }
        destruct (Nat.eqb_spec a i); cbn [andb]; [|ring]. destruct (Nat.ltb_spec b j), (Nat.ltb_spec b (j + 1)), (Nat.eqb_spec b j); try lia; ring.
    + exists K2. split; [exact EQ|]. eapply khold_ext; [exact H|]. intros a b s t A B S3 T3. cbv beta.
      destruct (Nat.ltb_spec a i), (Nat.ltb_spec a (i + 1)), (Nat.eqb_spec a i), (Nat.ltb_spec b nnd); try lia; reflexivity.
  - exists Ke'. split; [exact EQ|]. eapply khold_ext; [exact H|]. intros a b s t A B S3 T3. cbv beta. destruct (Nat.ltb_spec a nnd); [reflexivity|lia].
Qed.
End Sums.

Section Each.
Lemma each_app {X S} (l1 l2 : list X) (f : X -> S -> outcome S) s : each (l1 ++ l2) f s = let* s := each l1 f s in each l2 f s.
Proof. revert s. induction l1 as [|x l1 IH]; intros s; cbn [app each]; [reflexivity|]. destruct (f x s); cbn [bind]; auto. Qed.
Lemma each_map {X Y S} (h : X -> Y) l (f : Y -> S -> outcome S) s : each (map h l) f s = each l (fun x => f (h x)) s.
Proof. revert s. induction l as [|x l IH]; intros s; cbn [map each]; [reflexivity|]. destruct (f (h x) s); cbn [bind]; auto. Qed.
Lemma each_prod {X Y S} (l : list X) (m : list Y) (f : X -> Y -> S -> outcome S) s : each l (fun x s => each m (fun y s => f x y s) s) s = each (list_prod l m) (fun p => f (fst p) (snd p)) s.
Proof.
  revert s. induction l as [|x l IH]; intros s; cbn [list_prod each]; [reflexivity|]. rewrite each_app, each_map. cbn [fst snd]. destruct (each m (f x) s); cbn [bind]; auto.
Qed.
End Each.
