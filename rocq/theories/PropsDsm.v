(* C79: the downhill simplex search of the backcalculation. *)
From Coq Require Import List ZArith QArith Qcanon Bool Arith Lia Field Permutation Sorted Reals Lra.
From Verif Require Import Base LinBase LinReal BowlModel PropsBrent PropsBrentReal.
Import ListNotations.
Local Close Scope R_scope.
Local Open Scope nat_scope.
Local Open Scope lin_scope.

Lemma aget_mid {A} (l m : list A) x n : n = length l -> aget (l ++ x :: m) n = Ok x.
Proof. intros ->. apply aget_ok. rewrite nth_error_app2, Nat.sub_diag; auto. Qed.
Lemma aset_mid {A} (l m : list A) x y n : n = length l -> aset (l ++ x :: m) n y = Ok (l ++ y :: m).
Proof.
  intros ->. unfold aset. rewrite app_length. cbn [length].
  destruct (Nat.ltb_spec (length l) (length l + S (length m))); [|lia]. f_equal.
  induction l as [|z l IH]; cbn; auto. rewrite IH; auto. cbn in *. lia.
Qed.

Lemma aget_mid2 {A} (l m r : list A) x y : aget (l ++ x :: m ++ y :: r) (S (length l + length m)) = Ok y.
Proof.
  change (x :: m ++ y :: r) with ((x :: m) ++ y :: r). rewrite app_assoc. apply aget_mid. rewrite app_length. cbn. lia.
Qed.
Lemma aset_mid2 {A} (l m r : list A) x y z : aset (l ++ x :: m ++ y :: r) (S (length l + length m)) z = Ok (l ++ x :: m ++ z :: r).
Proof.
  change (x :: m ++ y :: r) with ((x :: m) ++ y :: r). rewrite app_assoc. rewrite aset_mid by (rewrite app_length; cbn; lia).
  rewrite <- app_assoc. auto.
Qed.

Section Dsm.
Context {K : ofield}.
Add Field Kf44 : (f_th K).
Notation vt := (vtx (K := K)).

(* ---- the exchange sort ---- *)
Fixpoint sel (v : vt) (r : list vt) : vt * list vt :=
  match r with
  | [] => (v, [])
  | w :: r => if fltb (snd w) (snd v) then (fst (sel w r), v :: snd (sel w r)) else (fst (sel v r), w :: snd (sel v r))
  end.
Fixpoint ssort (n : nat) (l : list vt) : list vt :=
  match n, l with
  | S n, v :: r => fst (sel v r) :: ssort n (snd (sel v r))
  | _, _ => l
  end.

Lemma sel_length v r : length (snd (sel v r)) = length r.
Proof. revert v. induction r as [|w r IH]; intros v; cbn; auto. destruct (fltb _ _); cbn; auto. Qed.
Lemma sel_perm r : forall v, Permutation (v :: r) (fst (sel v r) :: snd (sel v r)).
Proof.
  induction r as [|w r IH]; intros v; cbn [sel]; auto. destruct (fltb _ _); cbn [fst snd].
  - eapply perm_trans; [|apply perm_swap]. constructor. apply IH.
  - eapply perm_trans; [apply perm_swap|]. eapply perm_trans; [|apply perm_swap]. constructor. apply IH.
Qed.
Lemma sel_le r : forall v, fle (snd (fst (sel v r))) (snd v) = true /\ Forall (fun w => fle (snd (fst (sel v r))) (snd w) = true) (snd (sel v r)).
Proof.
  induction r as [|w r IH]; intros v; cbn [sel]; [cbn; auto using fle_refl|].
  destruct (fltb (snd w) (snd v)) eqn:E; cbn [fst snd].
  - apply fltb_le in E. destruct (IH w) as (A & B). assert (fle (snd (fst (sel w r))) (snd v) = true) by (eapply fle_trans; eauto). auto.
  - apply fltb_false in E. destruct (IH v) as (A & B). split; auto. constructor; auto. eapply fle_trans; eauto.
Qed.

Lemma inner_sel (pre : list vt) : forall todo v done, foldo (cmp_swap (length pre)) (pre ++ v :: done ++ todo) (seq (S (length pre + length done)) (length todo))
  = Ok (pre ++ fst (sel v todo) :: done ++ snd (sel v todo)).
Proof.
  induction todo as [|w todo IH]; intros v don; cbn [length seq foldo]; auto.
  assert (E : cmp_swap (length pre) (pre ++ v :: don ++ w :: todo) (S (length pre + length don)) =
    Ok (if fltb (snd w) (snd v) then pre ++ w :: don ++ v :: todo else pre ++ v :: don ++ w :: todo)).
  { unfold cmp_swap. rewrite aget_mid by auto. cbn [bind]. rewrite aget_mid2. cbn [bind]. destruct (fltb _ _); auto.
    unfold swap_row. rewrite aget_mid by auto. cbn [bind]. rewrite aget_mid2. cbn [bind]. rewrite aset_mid by auto. cbn [bind].
    apply aset_mid2. }
  rewrite E. cbn [bind sel].
  destruct (fltb (snd w) (snd v)); cbn [fst snd].
  - specialize (IH w (don ++ [v])). rewrite <- !app_assoc in IH. cbn [app] in IH. rewrite app_length in IH. cbn [length] in IH.
    replace (length pre + (length don + 1))%nat with (S (length pre + length don)) in IH by lia. auto.
  - specialize (IH v (don ++ [w])). rewrite <- !app_assoc in IH. cbn [app] in IH. rewrite app_length in IH. cbn [length] in IH.
    replace (length pre + (length don + 1))%nat with (S (length pre + length don)) in IH by lia. auto.
Qed.

Lemma outer_sort n : forall (pre l : list vt), length l = n ->
  foldo (fun V i => foldo (cmp_swap i) V (seq (S i) (length pre + n - S i))) (pre ++ l) (seq (length pre) n) = Ok (pre ++ ssort n l).
Proof.
  induction n as [|n IH]; intros pre l L; cbn [seq foldo ssort]; auto.
  destruct l as [|v r]; [discriminate|]. injection L as L.
  pose proof (inner_sel pre r v []) as E. cbn [app length] in E. rewrite Nat.add_0_r in E.
  replace (length pre + S n - S (length pre))%nat with (length r) by lia. rewrite E. cbn [bind].
  specialize (IH (pre ++ [fst (sel v r)]) (snd (sel v r))). rewrite sel_length in IH. specialize (IH L).
  rewrite app_length, <- !app_assoc in IH. cbn [length app] in IH.
  rewrite Nat.add_1_r in IH. replace (S (length pre) + n)%nat with (length pre + S n)%nat in IH by lia. auto.
Qed.
Lemma sort_rows_ssort (V : list vt) : sort_rows V = Ok (ssort (length V) V).
Proof. unfold sort_rows. apply (outer_sort (length V) [] V eq_refl). Qed.
Lemma ssort_perm n : forall V, Permutation V (ssort n V).
Proof.
  induction n as [|n IH]; intros [|v r]; cbn [ssort]; auto.
  eapply perm_trans; [apply sel_perm|]. constructor. apply IH.
Qed.
Definition errle (v w : vt) : Prop := fle (snd v) (snd w) = true.
Lemma ssort_sorted n : forall V, length V = n -> StronglySorted errle (ssort n V).
Proof.
  induction n as [|n IH]; intros [|v r] L; cbn [ssort]; try discriminate; [constructor|]. injection L as L.
  constructor; [apply IH; rewrite sel_length; auto|].
  destruct (sel_le r v) as (_ & F). rewrite Forall_forall in *. intros x Hx. apply F.
  eapply Permutation_in; [apply Permutation_sym; apply ssort_perm|]. eauto.
Qed.

(* ---- sums and planes ---- *)
Fixpoint dot (w p : list K) : K := match w, p with a :: w, b :: p => a * b + dot w p | _, _ => f0 end.
(* the plane with normal w and offset k, at p *)
Definition plane (w : list K) (k : K) (p : list K) : K := dot w p + k.

Lemma lsum_acc (l : list K) : forall a, fold_left (fun s x => s + x) l a = a + lsum l.
Proof.
  induction l as [|x l IH]; intros a; unfold lsum; cbn [fold_left]; [ring|].
  rewrite (IH (a + x)), (IH (f0 + x)). ring.
Qed.
Lemma lsum_cons x (l : list K) : lsum (x :: l) = x + lsum l.
Proof. unfold lsum at 1. cbn [fold_left]. rewrite lsum_acc. ring. Qed.
Lemma fnat_nonneg n : fle f0 (@fnat K n) = true.
Proof. induction n; cbn [fnat]; [apply fle_refl|apply fadd_nonneg; auto using f0_le_f1]. Qed.
Lemma fnat_nz n : @fnat K (S n) <> f0.
Proof.
  cbn [fnat]. intros E. apply fadd_0_nonneg in E as (_ & E); auto using fnat_nonneg, f0_le_f1.
  exact (f1_neq_f0 E).
Qed.

Lemma dot_mix (x y : K) w : forall A P, length w = length P -> length A = length P ->
  dot w (map2 (fun a p => x * a + y * p) A P) = x * dot w A + y * dot w P.
Proof.
  induction w as [|u w IH]; intros [|a A] [|p P]; cbn [length]; intros L1 L2; try discriminate; cbn [map2 dot]; [ring|].
  rewrite IH by auto. ring.
Qed.
Lemma map2_ext {A B C} (f g : A -> B -> C) : (forall a b, f a b = g a b) -> forall l m, map2 f l m = map2 g l m.
Proof. intros E. induction l as [|a l IH]; intros [|b m]; cbn; auto. now rewrite E, IH. Qed.
Lemma plane_reflect w k A P c : length w = length P -> length A = length P ->
  plane w k (map2 (fun a p => p + c * (p - a)) A P) = (f1 + c) * plane w k P - c * plane w k A.
Proof.
  intros L1 L2. rewrite (map2_ext _ (fun a p => (- c) * a + (f1 + c) * p)) by (intros; ring).
  unfold plane. rewrite dot_mix by auto. ring.
Qed.
Lemma plane_mid w k A B : length w = length B -> length A = length B ->
  plane w k (map2 (fun a b => (a + b) / two) A B) = (plane w k A + plane w k B) / two.
Proof.
  intros L1 L2. pose proof (two_nz (K := K)) as N. rewrite (map2_ext _ (fun a p => (f1 / two) * a + (f1 / two) * p)) by (intros; field; auto).
  unfold plane. rewrite dot_mix by auto. unfold two in *. field; auto.
Qed.

Lemma dot_zero w l : (forall x, In x l -> x = f0) -> dot w l = f0.
Proof.
  revert l. induction w as [|a w IH]; intros [|b l] H; cbn [dot]; auto. rewrite IH by (intros; apply H; cbn; auto).
  rewrite (H b) by (cbn; auto). ring.
Qed.
Lemma map_nth_seq (p : list K) : map (fun i => nth i p f0) (seq 0 (length p)) = p.
Proof.
  induction p as [|x p IH]; auto. cbn [length seq map nth]. f_equal. rewrite <- seq_shift, map_map. exact IH.
Qed.
Lemma dot_sum w c (f g : nat -> K) : c <> f0 -> forall l, length w = length l ->
  dot w (map (fun i => (f i + g i) / c) l) = dot w (map f l) / c + dot w (map (fun i => g i / c) l).
Proof.
  intros N. induction w as [|a w IH]; intros [|i l] L; try discriminate; cbn [map dot]; [field; auto|].
  rewrite IH by auto. field. auto.
Qed.
Lemma dot_mean w c n : c <> f0 -> length w = n -> forall L : list vt, Forall (fun v => length (fst v) = n) L ->
  dot w (map (fun i => lsum (map (fun v => nth i (fst v) f0) L) / c) (seq 0 n)) = lsum (map (fun v => dot w (fst v)) L) / c.
Proof.
  intros N Lw. induction L as [|v L IH]; intros F.
  - cbn [map]. unfold lsum. cbn [fold_left]. rewrite dot_zero; [field; auto|]. intros x Hx. apply in_map_iff in Hx as (i & <- & _). field; auto.
  - inversion F; subst. rewrite (map_ext _ (fun i => (nth i (fst v) f0 + lsum (map (fun v => nth i (fst v) f0) L)) / c))
      by (intros; cbn [map]; rewrite lsum_cons; auto).
    rewrite dot_sum by (auto; rewrite seq_length; auto). rewrite IH by auto. rewrite <- H1, map_nth_seq. cbn [map]. rewrite lsum_cons. field. auto.
Qed.
Lemma sum_const (f : vt -> K) k L : (forall v, In v L -> f v = k) -> lsum (map f L) = fnat (length L) * k.
Proof.
  induction L as [|v L IH]; intros H; cbn [map length fnat]; [unfold lsum; cbn; ring|].
  rewrite lsum_cons, IH, H by (cbn; auto; intros; apply H; cbn; auto). ring.
Qed.
Lemma plane_centroid w k n (V : list vt) : length w = S n -> (S n <= length V)%nat -> Forall (fun v => length (fst v) = S n) V ->
  (forall v, In v (firstn (S n) V) -> plane w k (fst v) = f0) -> plane w k (centroid V (S n)) = f0.
Proof.
  intros Lw LV F H. unfold plane, centroid, mean_at. rewrite dot_mean; auto using fnat_nz.
  2: { rewrite Forall_forall in *. intros v Hv. apply F. rewrite <- (firstn_skipn (S n) V). apply in_or_app. auto. }
  rewrite (sum_const _ (- k)).
  - rewrite firstn_length_le by auto. field. apply fnat_nz.
  - intros v Hv. apply H in Hv. unfold plane in Hv. replace (dot w (fst v)) with (dot w (fst v) + k + - k) by ring. rewrite Hv. ring.
Qed.

(* ---- a move ---- *)
Variable bowl : list K -> K.
Definition carries (n : nat) (v : vt) : Prop := length (fst v) = n /\ snd v = bowl (fst v).
(* no plane goes through all the vertices *)
Definition spread (n : nat) (V : list vt) : Prop :=
  forall w k, length w = n -> (forall v, In v V -> plane w k (fst v) = f0) -> w = repeat f0 n.

Lemma reflect_carries n A P c : length A = n -> length P = n -> carries n (reflect_at bowl A P c).
Proof. intros. split; auto. cbn. apply map2_length; auto. Qed.
Lemma mid_carries n A B : length A = n -> length B = n -> carries n (midpoint bowl A B).
Proof. intros. split; auto. cbn. apply map2_length; auto. Qed.
Lemma half_nz : f1 / @two K <> f0.
Proof. pose proof (two_nz (K := K)) as N. intros E. apply (f1_neq_f0 (K := K)). replace (@f1 K) with (f1 / @two K * two) by (field; auto). rewrite E. ring. Qed.

Definition keeps (n : nat) (V V' : list vt) : Prop :=
  forall w k, length w = n -> (forall v, In v V' -> plane w k (fst v) = f0) -> forall v, In v V -> plane w k (fst v) = f0.
Lemma keeps_spread n V V' : keeps n V V' -> spread n V -> spread n V'.
Proof. intros H S w k L Z. apply (S w k L). intros v Hv. exact (H w k L Z v Hv). Qed.

Lemma move_ok n b mid last : n = S (length mid) -> Forall (carries n) ((b :: mid) ++ [last]) ->
  exists V', dsm_move bowl n ((b :: mid) ++ [last]) = Ok (b :: V') /\ length V' = n /\ Forall (carries n) (b :: V') /\
    keeps n ((b :: mid) ++ [last]) (b :: V').
Proof.
  intros En F. set (V := (b :: mid) ++ [last]) in *.
  assert (LV : length V = S n) by (subst V; rewrite app_length; cbn; lia).
  assert (Fb : Forall (carries n) (b :: mid)) by (apply Forall_app in F; tauto).
  assert (Fl : carries n last) by (apply Forall_app in F as (_ & F); inversion F; auto).
  unfold dsm_move. set (D := centroid V n). assert (LD : length D = n) by (subst D; unfold centroid; rewrite map_length, seq_length; auto).
  assert (PD : forall w k, length w = n -> (forall v, In v (b :: mid) -> plane w k (fst v) = f0) -> plane w k D = f0).
  { intros w k Lw H. subst D. rewrite En. apply plane_centroid; try lia.
    - rewrite <- En. eapply Forall_impl; [|exact F]. intros v (Hv & _). auto.
    - intros v Hv. apply H. subst V. rewrite firstn_app in Hv. cbn [length] in Hv. rewrite Nat.sub_diag in Hv.
      cbn [firstn] in Hv. rewrite app_nil_r in Hv. destruct Hv as [Hv|Hv]; [left; auto|right].
      rewrite firstn_all in Hv. auto. }
  assert (G0 : aget V 0 = Ok b) by reflexivity.
  assert (Gn : aget V n = Ok last) by (apply aget_mid; cbn; lia).
  assert (Sn : forall x y, aset ((b :: mid) ++ [x]) n y = Ok ((b :: mid) ++ [y])) by (intros; apply aset_mid; cbn; lia).
  rewrite G0, Gn. cbn [bind]. set (R := reflect_at bowl (fst last) D f1).
  assert (CR : carries n R) by (apply reflect_carries; auto; apply Fl).
  assert (PR : forall w k, length w = n -> plane w k D = f0 -> plane w k (fst R) = - plane w k (fst last)).
  { intros w k Lw H. subst R. unfold reflect_at, ev. cbn [fst]. rewrite plane_reflect, H; [ring|lia|]. destruct Fl; lia. }
  assert (one : forall y, carries n y -> (forall w k, length w = n -> plane w k D = f0 -> plane w k (fst y) = f0 -> plane w k (fst last) = f0) ->
    Forall (carries n) (b :: mid ++ [y]) /\ keeps n V (b :: mid ++ [y])).
  { intros y Cy Py. split.
    - inversion Fb; subst. constructor; auto. apply Forall_app. auto.
    - intros w k Lw H v Hv. change V with (b :: mid ++ [last]) in Hv.
      assert (Hm : forall v, In v (b :: mid) -> plane w k (fst v) = f0).
      { intros u Hu. apply H. destruct Hu as [->|Hu]; [left; auto|right; apply in_or_app; auto]. }
      destruct Hv as [<-|Hv]; [apply H; left; auto|]. apply in_app_or in Hv as [Hv|[<-|[]]]; [apply Hm; right; auto|].
      apply Py; auto. apply H. right. apply in_or_app. right. left. auto. }
  set (W := if fltb (snd R) (snd last) then R else last).
  assert (CW : carries n W) by (subst W; destruct (fltb _ _); auto).
  assert (PW : forall w k, length w = n -> plane w k D = f0 -> plane w k (fst W) = f0 -> plane w k (fst last) = f0).
  { intros w k Lw H E. subst W. destruct (fltb _ _); auto. rewrite PR in E by auto.
    replace (plane w k (fst last)) with (- - plane w k (fst last)) by ring. rewrite E. ring. }
  assert (E1 : (if fltb (snd R) (snd last) then aset V n R else Ok V) = Ok ((b :: mid) ++ [W])).
  { subst W. destruct (fltb _ _); [apply Sn|reflexivity]. }
  rewrite E1. cbn [bind].
  assert (fin : forall y, carries n y -> (forall w k, length w = n -> plane w k D = f0 -> plane w k (fst y) = f0 -> plane w k (fst last) = f0) ->
    exists V', Ok ((b :: mid) ++ [y]) = Ok (b :: V') /\ length V' = n /\ Forall (carries n) (b :: V') /\ keeps n V (b :: V')).
  { intros y Cy Py. exists (mid ++ [y]). split; auto. split; [rewrite app_length; cbn; lia|]. apply (one y); auto. }
  destruct (fltb (snd R) (snd b)).
  - set (X := reflect_at bowl (fst R) D (- two)).
    destruct (fltb (snd X) (snd R)); [|apply fin; auto]. rewrite Sn. apply fin.
    + apply reflect_carries; auto. apply CR.
    + intros w k Lw H E. subst X. unfold reflect_at, ev in E. cbn [fst] in E. fold R in E.
      rewrite plane_reflect, H in E; [|lia|destruct CR; lia].
      change (map2 (fun a p => p + f1 * (p - a)) (fst last) D) with (fst R) in E. rewrite PR in E by auto.
      destruct (fmul_0 (- two) (plane w k (fst last))) as [Z|Z]; auto.
      { rewrite <- E. ring. } elim (two_nz (K := K)). replace (@two K) with (- - @two K) by ring. rewrite Z. ring.
  - assert (G2 : exists u, aget ((b :: mid) ++ [W]) (n - 1) = Ok u).
    { destruct (nth_error ((b :: mid) ++ [W]) (n - 1)) as [u|] eqn:E; [exists u; apply aget_ok; auto|].
      apply nth_error_None in E. rewrite app_length in E. cbn in E. lia. }
    destruct G2 as (u & G2). rewrite G2. cbn [bind]. destruct (fle (snd u) (snd R)); [|apply fin; auto].
    assert (G3 : aget ((b :: mid) ++ [W]) n = Ok W) by (apply aget_mid; cbn; lia). rewrite G3. cbn [bind].
    set (X := reflect_at bowl (fst W) D (- (f1 / two))). destruct (fltb (snd X) (snd W)).
    + rewrite Sn. apply fin; [apply reflect_carries; auto; apply CW|].
      intros w k Lw H E. apply PW; auto. subst X. unfold reflect_at, ev in E. cbn [fst] in E.
      rewrite plane_reflect, H in E; [|lia|destruct CW; lia].
      destruct (fmul_0 (f1 / two) (plane w k (fst W))) as [Z|Z]; auto.
      { rewrite <- E. ring. } elim half_nz; auto.
    + assert (G4 : aget ((b :: mid) ++ [W]) 0 = Ok b) by reflexivity. rewrite G4. cbn [bind app tl].
      set (V' := map (fun v => midpoint bowl (fst b) (fst v)) (mid ++ [W])).
      assert (Cb : carries n b) by (inversion Fb; auto).
      assert (Cm : forall v, In v (mid ++ [W]) -> carries n v).
      { intros v Hv. apply in_app_or in Hv as [Hv|[<-|[]]]; auto. rewrite Forall_forall in Fb. apply Fb. right; auto. }
      exists V'. split; auto. split; [subst V'; rewrite map_length, app_length; cbn; lia|]. split.
      * constructor; auto. subst V'. apply Forall_forall. intros v Hv. apply in_map_iff in Hv as (u' & <- & Hu).
        apply mid_carries; [apply Cb|apply Cm; auto].
      * intros w k Lw H.
        assert (Hb : plane w k (fst b) = f0) by (apply H; left; auto).
        assert (Hm : forall v, In v (mid ++ [W]) -> plane w k (fst v) = f0).
        { intros v Hv. assert (Z : plane w k (fst (midpoint bowl (fst b) (fst v))) = f0).
          { apply H. right. subst V'. apply (in_map (fun v => midpoint bowl (fst b) (fst v))). auto. }
          destruct (Cm v Hv) as (Lv & _). destruct Cb as (Lb & _).
          unfold midpoint, ev in Z. cbn [fst] in Z. rewrite plane_mid, Hb in Z by lia.
          pose proof (two_nz (K := K)) as N. replace (plane w k (fst v)) with ((f0 + plane w k (fst v)) / two * two) by (field; auto).
          rewrite Z. ring. }
        intros v Hv. change V with (b :: mid ++ [last]) in Hv. destruct Hv as [<-|Hv]; auto.
        apply in_app_or in Hv as [Hv|[<-|[]]]; [apply Hm; apply in_or_app; auto|].
        apply PW; auto; [|apply Hm; apply in_or_app; right; left; auto].
        apply PD; auto. intros v [<-|Hv]; auto. apply Hm. apply in_or_app; auto.
Qed.

(* ---- the loop ---- *)
Lemma fmax_ge (x y : K) : fle x (fmax x y) = true /\ fle y (fmax x y) = true.
Proof.
  unfold fmax. destruct (fltb x y) eqn:E; split; auto using fle_refl, fltb_le. apply fltb_false; auto.
Qed.
Lemma fold_max {A} (g : A -> K) l : forall a, fle a (fold_left (fun a p => fmax a (g p)) l a) = true /\
  forall p, In p l -> fle (g p) (fold_left (fun a p => fmax a (g p)) l a) = true.
Proof.
  induction l as [|p l IH]; intros a; cbn [fold_left]; [split; [apply fle_refl|intros ? []]|].
  destruct (IH (fmax a (g p))) as (A1 & A2). destruct (fmax_ge a (g p)) as (B1 & B2). split; [eapply fle_trans; eauto|].
  intros q [<-|Hq]; auto. eapply fle_trans; eauto.
Qed.
Lemma diam_nonneg sq V : fle f0 (diam (K := K) sq V) = true.
Proof. apply (fold_max (fun p => step_len sq (fst (fst p)) (fst (snd p)))). Qed.
Lemma diam_pairs sq V v w : In (v, w) (pairs V) -> fle (step_len (K := K) sq (fst v) (fst w)) (diam sq V) = true.
Proof. intros H. apply (fold_max (fun p => step_len sq (fst (fst p)) (fst (snd p))) (pairs V) f0) in H. auto. Qed.
Lemma pairs_ord {A} (R : A -> A -> Prop) l : (forall v w, In (v, w) (pairs l) -> R v w) -> ForallOrdPairs R l.
Proof.
  induction l as [|x l IH]; cbn [pairs]; intros H; constructor.
  - apply Forall_forall. intros y Hy. apply H. apply in_or_app. left. apply in_map; auto.
  - apply IH. intros v w Hp. apply H. apply in_or_app. auto.
Qed.

Definition simplex (n : nat) (V : list vt) : Prop := length V = S n /\ Forall (carries n) V.
Lemma split_last n (V : list vt) : (0 < n)%nat -> length V = S n -> exists b mid last, V = (b :: mid) ++ [last] /\ n = S (length mid).
Proof.
  intros Hn L. destruct V as [|b V]; [discriminate|]. injection L as L. destruct (exists_last (l := V)) as (mid & last & ->); [destruct V; cbn in *; [lia|discriminate]|].
  exists b, mid, last. rewrite app_length in L. cbn in *. split; auto. lia.
Qed.
Lemma sort_simplex n V : simplex n V -> simplex n (ssort (length V) V) /\ keeps n V (ssort (length V) V).
Proof.
  intros (L & F). pose proof (ssort_perm (length V) V) as P. split; [split|].
  - rewrite <- (Permutation_length P); auto.
  - eapply Permutation_Forall; eauto.
  - intros w k Lw H v Hv. apply H. eapply Permutation_in; eauto.
Qed.
Lemma move_simplex n V : (0 < n)%nat -> simplex n V -> exists V', dsm_move bowl n V = Ok V' /\ simplex n V' /\ keeps n V V' /\
  nth_error V' 0 = nth_error V 0.
Proof.
  intros Hn (L & F). destruct (split_last n V Hn L) as (b & mid & last & -> & En).
  destruct (move_ok n b mid last En F) as (V' & E & L' & F' & Kp). exists (b :: V'). split; auto. split; [split; cbn; auto|]. split; auto.
Qed.

Definition low (V : list vt) (e : K) : Prop := exists v, In v V /\ fle (snd v) e = true.
Lemma sorted_low n V e : length V = n -> low V e -> exists b r, ssort n V = b :: r /\ fle (snd b) e = true /\ StronglySorted errle (b :: r).
Proof.
  intros L (v & Hv & Le). pose proof (ssort_sorted n V L) as S. pose proof (ssort_perm n V) as P.
  destruct (ssort n V) as [|b r] eqn:E.
  - apply Permutation_sym, Permutation_nil in P. subst. destruct Hv.
  - exists b, r. split; auto. split; auto. apply (Permutation_in v P) in Hv. inversion S; subst. destruct Hv as [<-|Hv]; auto.
    rewrite Forall_forall in H2. eapply fle_trans; [apply H2; eauto|auto].
Qed.

Lemma loop_ok n sq lim fuel : (0 < n)%nat -> forall first V e, simplex n V -> low V e ->
  dsm_loop bowl fuel sq lim n first V = UB OutOfFuel \/
  exists b r, dsm_loop bowl fuel sq lim n first V = Ok (b :: r) /\ simplex n (b :: r) /\ StronglySorted errle (b :: r) /\
    fle (snd b) e = true /\ (spread n V -> spread n (b :: r)) /\ fltb (diam sq (b :: r)) lim = true.
Proof.
  intros Hn. induction fuel as [|fuel IH]; intros first V e G Lo; cbn [dsm_loop]; auto.
  rewrite sort_rows_ssort. cbn [bind].
  destruct (sorted_low (length V) V e eq_refl Lo) as (b & r & E & Le & So).
  destruct (sort_simplex n V G) as (G1 & K1). rewrite E in *.
  destruct (negb first && fltb (diam sq (b :: r)) lim)%bool eqn:Q.
  - apply andb_true_iff in Q as (_ & Q). right. exists b, r. split; auto. split; auto. split; auto. split; auto. split; auto.
    apply keeps_spread; auto.
  - destruct (move_simplex n (b :: r) Hn G1) as (V' & EM & G2 & K2 & H0). rewrite EM. cbn [bind].
    destruct (IH false V' e G2) as [A|(b' & r' & A & B & C & Dd & Ee & Ff)].
    + cbn in H0. destruct V' as [|v V']; [discriminate|]. injection H0 as ->. exists b. split; [left; auto|auto].
    + auto.
    + right. exists b', r'. split; auto. split; auto. split; auto. split; auto. split; auto.
      intros Sp. apply Ee. eapply keeps_spread; eauto. eapply keeps_spread; eauto.
Qed.

(* ---- the first simplex ---- *)
Lemma simplex0_ok d P : simplex (length P) (simplex0 bowl d P).
Proof.
  split; [unfold simplex0; cbn [length]; rewrite map_length, seq_length; auto|].
  constructor; [split; auto|]. apply Forall_forall. intros v Hv. apply in_map_iff in Hv as (i & <- & Hi).
  split; auto. cbn. unfold shift1. rewrite length_upd. auto.
Qed.
Lemma dot_upd w : forall P i x, length w = length P -> (i < length P)%nat ->
  dot w (upd P i (nth i P f0 + x)) = dot w P + x * nth i w f0.
Proof.
  induction w as [|a w IH]; intros [|p P] i x L Hi; cbn [length] in *; try discriminate; try lia.
  destruct i as [|i]; cbn [upd nth dot]; [ring|]. rewrite IH by lia. ring.
Qed.
Lemma simplex0_spread d P : d <> f0 -> spread (length P) (simplex0 bowl d P).
Proof.
  intros Nd w k Lw H. apply nth_ext with (d := f0) (d' := f0); [rewrite repeat_length; auto|].
  intros i Hi. rewrite nth_repeat.
  assert (H0 : plane w k P = f0) by (apply (H (ev bowl P)); left; auto).
  set (x := if (S i <? length P / 2)%nat then d else - d).
  assert (H1 : plane w k (shift1 i x P) = f0).
  { apply (H (ev bowl (shift1 i x P))). right. apply in_map_iff. exists (S i). cbn [Nat.sub]. rewrite Nat.sub_0_r. split; auto.
    apply in_seq. lia. }
  unfold plane, shift1 in *. rewrite dot_upd in H1 by lia.
  assert (Nx : x <> f0). { subst x. destruct (_ <? _)%nat; auto. intros E. apply Nd. replace d with (- - d) by ring. rewrite E. ring. }
  destruct (fmul_0 x (nth i w f0)) as [Z|Z]; auto; [|contradiction].
  replace (x * nth i w f0) with (dot w P + x * nth i w f0 + k - (dot w P + k)) by ring. rewrite H0, H1. ring.
Qed.
Lemma simplex0_low d P : low (simplex0 bowl d P) (bowl P).
Proof. exists (ev bowl P). split; [left; auto|apply fle_refl]. Qed.
End Dsm.

(* C79: whatever the error function, the search ends, if it ends, in a simplex whose vertices carry
   their errors, are sorted, are all closer to each other than the limit, and (unless d is 0) do
   not lie in a plane; the best vertex is no worse than P; the moduli handed back are the best
   vertex with its coordinates limited, and the distance is that between P and the best vertex. *)
Theorem C79_dsm_sound_partial : forall (K : ofield) (bowl : list K -> K) fuel sq d lim lo hi P r P',
  P <> [] -> dsm bowl fuel sq d lim lo hi P = Ok (r, P') ->
  exists V x, nth_error V 0 = Some x /\ length V = S (length P) /\
    Forall (fun v => length (fst v) = length P /\ snd v = bowl (fst v)) V /\
    StronglySorted (fun v w => fle (snd v) (snd w) = true) V /\
    ForallOrdPairs (fun v w => fltb (step_len sq (fst v) (fst w)) lim = true) V /\
    (d <> f0 -> forall w k, length w = length P -> (forall v, In v V -> dot w (fst v) + k = f0) -> w = repeat f0 (length P)) /\
    fle (bowl (fst x)) (bowl P) = true /\
    r = step_len sq P (fst x) /\ P' = map (clamp lo hi) (fst x).
Proof.
  intros K bowl fuel sq d lim lo hi P r P' NP E. unfold dsm in E.
  assert (Hn : (0 < length P)%nat) by (destruct P; [congruence|cbn; lia]).
  destruct (loop_ok bowl (length P) sq lim fuel Hn true (simplex0 bowl d P) (bowl P) (simplex0_ok bowl d P) (simplex0_low bowl d P))
    as [A|(b & t & A & (B1 & B2) & C & D & F & G)]; rewrite A in E; cbn [bind] in E; [discriminate|].
  change (aget (b :: t) 0) with (Ok b) in E. cbn [bind] in E. injection E as <- <-.
  exists (b :: t), b. split; auto. split; auto. split; auto. split; auto. split.
  { apply pairs_ord. intros v w H. apply diam_pairs with (sq := sq) in H. apply fltb_spec in G as (G1 & G2). apply fltb_spec.
    split; [eapply fle_trans; eauto|]. intros Z. rewrite Z in H. apply G2. apply fle_antisym; auto. }
  split. { intros Nd. apply F. apply simplex0_spread; auto. }
  split; auto. inversion B2; subst. destruct H1 as (_ & H1). rewrite <- H1. auto.
Qed.

(* No step of it reads or writes outside the simplex. *)
Theorem C79_dsm_safe : forall (K : ofield) (bowl : list K -> K) fuel sq d lim lo hi P, P <> [] ->
  (exists r P', dsm bowl fuel sq d lim lo hi P = Ok (r, P') /\ length P' = length P) \/ dsm bowl fuel sq d lim lo hi P = UB OutOfFuel.
Proof.
  intros K bowl fuel sq d lim lo hi P NP. assert (Hn : (0 < length P)%nat) by (destruct P; [congruence|cbn; lia]). unfold dsm.
  destruct (loop_ok bowl (length P) sq lim fuel Hn true (simplex0 bowl d P) (bowl P) (simplex0_ok bowl d P) (simplex0_low bowl d P))
    as [A|(b & t & A & (B1 & B2) & _)]; rewrite A; cbn [bind]; auto.
  left. do 2 eexists. split; [reflexivity|]. rewrite map_length. inversion B2; subst. destruct H1; auto.
Qed.

(* "The search ends": refuted, with a tolerance of 0 (or less) it never does. *)
Theorem C79_dsm_tolerance_refuted : forall (K : ofield) (bowl : list K -> K) fuel sq d lim lo hi P, P <> [] -> fle lim f0 = true ->
  dsm bowl fuel sq d lim lo hi P = UB OutOfFuel.
Proof.
  intros K bowl fuel sq d lim lo hi P NP Hl. assert (Hn : (0 < length P)%nat) by (destruct P; [congruence|cbn; lia]). unfold dsm.
  destruct (loop_ok bowl (length P) sq lim fuel Hn true (simplex0 bowl d P) (bowl P) (simplex0_ok bowl d P) (simplex0_low bowl d P))
    as [A|(b & t & A & _ & _ & _ & _ & G)]; rewrite A; cbn [bind]; auto.
  pose proof (diam_nonneg sq (b :: t)) as N. apply fltb_spec in G as (G1 & G2). elim G2. apply fle_antisym; auto. eapply fle_trans; eauto.
Qed.

(* "The search ends": refuted also with a positive tolerance.  If the error of one layer falls
   towards stiffer moduli for ever, every step doubles the distance between the vertices. *)
Section Falling.
Context {K : ofield}.
Add Field Kf45 : (f_th K).
Variables (e sq : K -> K) (d lim : K).
Hypothesis falls : forall x y, fltb x y = true -> fltb (e y) (e x) = true.
Hypothesis root : forall x, sq (x * x) = fabs x.
Hypothesis d_pos : fltb f0 d = true.
Hypothesis lim_d : fle lim d = true.
Definition bowl_e (P : list K) : K := match P with [x] => e x | _ => f0 end.

Lemma flt_trans_le (x y z : K) : fltb x y = true -> fle y z = true -> fltb x z = true.
Proof.
  intros A B. apply fltb_spec in A as (A & N). apply fltb_spec. split; [eapply fle_trans; eauto|].
  intros ->. apply N. apply fle_antisym; auto.
Qed.
Lemma flt_asym (x y : K) : fltb x y = true -> fltb y x = false.
Proof. intros A. apply fltb_false. apply fltb_le; auto. Qed.
Lemma fabs_pos (x : K) : fltb f0 x = true -> fabs x = x.
Proof. intros A. unfold fabs. rewrite (fltb_le _ _ A). auto. Qed.

Lemma falling_loop fuel : forall first (x y : K) V, fltb f0 (x - y) = true -> fle d (x - y) = true ->
  (V = [([x], e x); ([y], e y)] \/ V = [([y], e y); ([x], e x)]) -> dsm_loop bowl_e fuel sq lim 1 first V = UB OutOfFuel.
Proof.
  induction fuel as [|fuel IH]; intros first x y V Hp Hd HV; cbn [dsm_loop]; auto.
  assert (Hyx : fltb y x = true) by (rewrite <- flt_0_sub; auto).
  pose proof (falls y x Hyx) as F1. pose proof (flt_asym _ _ F1) as F2.
  assert (ES : sort_rows V = Ok [([x], e x); ([y], e y)]).
  { rewrite sort_rows_ssort. destruct HV; subst V; cbn [length ssort sel fst snd]; [rewrite F2|rewrite F1]; reflexivity. }
  rewrite ES. cbn [bind].
  assert (Dm : diam sq [([x], e x); ([y], e y)] = x - y).
  { unfold diam. cbn [pairs map app fold_left fst snd]. unfold step_len. cbn [map2]. rewrite lsum_cons. change (lsum []) with (@f0 K).
    replace ((x - y) * (x - y) + f0) with ((x - y) * (x - y)) by ring. rewrite root, fabs_pos by auto.
    unfold fmax. rewrite Hp. auto. }
  rewrite Dm. assert (Q : fltb (x - y) lim = false) by (apply fltb_false; eapply fle_trans; eauto). rewrite Q, andb_false_r.
  set (V0 := [([x], e x); ([y], e y)]).
  assert (EC : centroid V0 1 = [x]).
  { unfold centroid. cbn [seq map]. unfold mean_at. subst V0. cbn [firstn map fst nth]. rewrite lsum_cons. change (lsum []) with (@f0 K).
    cbn [fnat]. f_equal. replace (f0 + f1 : K) with (f1 : K) by ring. field. apply f1_neq_f0. }
  unfold dsm_move. rewrite EC. change (aget V0 0) with (Ok ([x], e x)). change (aget V0 1) with (Ok ([y], e y)). cbn [bind].
  unfold reflect_at, ev. cbn [fst snd map2 bowl_e].
  set (u := x + f1 * (x - y)).
  assert (Hux : fltb x u = true). { rewrite <- flt_0_sub. replace (u - x) with (x - y) by (subst u; ring). auto. }
  pose proof (falls x u Hux) as F3.
  assert (F4 : fltb (e u) (e y) = true) by (eapply flt_trans_le; [exact F3|apply fltb_le; auto]).
  rewrite F4. change (aset V0 1 ([u], e u)) with (Ok [([x], e x); ([u], e u)]). cbn [bind]. rewrite F3.
  set (t := x + - two * (x - u)).
  assert (Htu : fltb u t = true). { rewrite <- flt_0_sub. replace (t - u) with (x - y) by (subst t u; unfold two; ring). auto. }
  rewrite (falls u t Htu). change (aset [([x], e x); ([u], e u)] 1 ([t], e t)) with (Ok [([x], e x); ([t], e t)]). cbn [bind].
  assert (Et : t - x = (x - y) + (x - y)) by (subst t u; unfold two; ring).
  apply (IH false t x); [| |auto]; rewrite Et.
  - apply fpos_add; auto. apply fltb_le; auto.
  - eapply fle_trans; [exact Hd|]. apply (proj2 (fle_sub _ _)). replace (x - y + (x - y) - (x - y)) with (x - y) by ring. apply fltb_le; auto.
Qed.
Lemma falling_dsm lo hi x fuel : dsm bowl_e fuel sq d lim lo hi [x] = UB OutOfFuel.
Proof.
  unfold dsm. cbn [length].
  assert (E : simplex0 bowl_e d [x] = [([x], e x); ([x + - d], e (x + - d))]) by reflexivity. rewrite E.
  rewrite (falling_loop fuel true x (x + - d)); auto; replace (x - (x + - d)) with d by ring; auto using fle_refl.
Qed.
End Falling.
Theorem C79_dsm_falling_refuted : forall (K : ofield) (e sq : K -> K) (d lim lo hi x : K) fuel,
  (forall x y, fltb x y = true -> fltb (e y) (e x) = true) -> (forall x, sq (x * x) = fabs x) ->
  fltb f0 d = true -> fle lim d = true ->
  dsm (bowl_e e) fuel sq d lim lo hi [x] = UB OutOfFuel.
Proof. intros. apply falling_dsm; auto. Qed.

(* ---- the rationals with the square root of squares ---- *)
Definition qsqrt (x : QcF) : QcF := Q2Qc (Z.sqrt (Qnum (this x)) # Z.to_pos (Z.sqrt (Zpos (Qden (this x))))).
Definition e_step (x : QcF) : QcF :=
  if fle x (qz 97 / qz 100) then fabs (x - f1 / qz 2) / qz 10
  else if fltb x (qz 103 / qz 100) then f1 / qz 2 else qz 3 / qz 10.
(* "The moduli handed back are no worse than P": refuted, limiting the best vertex to [1,9] may
   leave them at a point that was never looked at. *)
Theorem C79_dsm_clamp_refuted : exists r P',
  dsm (bowl_e e_step) 60 qsqrt (f1 / qz 10) (f1 / qz 1000) (qz 1) (qz 9) [qz 105 / qz 100] = Ok (r, P') /\
  bowl_e e_step [qz 105 / qz 100] = qz 3 / qz 10 /\ bowl_e e_step P' = f1 / qz 2.
Proof.
  do 2 eexists. split; [vm_compute; reflexivity|]. split; apply Qc_is_canon; vm_compute; reflexivity.
Qed.

(* ---- cases that meet the conditions ---- *)
(* two layers, lowest at (3, 5); for the sizes the square of the distance stands in for it *)
Definition e_two (P : list QcF) : QcF :=
  match P with [x; y] => (x - qz 3) * (x - qz 3) + (y - qz 5) * (y - qz 5) | _ => f0 end.
Definition zs (r : outcome (QcF * list QcF)) : list Z :=
  match r with Ok (_, p) => map (fun x : QcF => Qround.Qfloor (this (x * qz 10))) p | _ => [] end.
Example C79_demo : zs (dsm e_two 60 (fun x => x) (f1 / qz 10) (f1 / qz 1000) (qz 1) (qz 9) [qz 2; qz 4]) = [29; 49]%Z.
Proof. vm_compute. reflexivity. Qed.
Example C79_demo_root : qsqrt (qz 9 / qz 4) = qz 3 / qz 2.
Proof. apply Qc_is_canon. vm_compute. reflexivity. Qed.
Example C79_demo_falling : forall fuel, dsm (K := RF) (bowl_e (K := RF) (fun x : R => - x)%R) fuel sqrt (1/10)%R (1/1000)%R 1%R 9%R [2%R] = UB OutOfFuel.
Proof.
  assert (neg : forall z : R, ~ (0 <= z)%R -> (0 <= - z)%R) by (intros; lra).
  intros fuel. apply C79_dsm_falling_refuted.
  - intros x y H. destruct (Rfltb_spec x y); [|discriminate]. destruct (Rfltb_spec (- y) (- x)); auto.
  - intros x. unfold fabs. destruct (Rfle_spec 0 x) as [H|H].
    + change (@fle RF f0 x) with (@fle RF 0%R x). destruct (Rfle_spec 0 x); [|contradiction]. apply sqrt_square; auto.
    + change (@fle RF f0 x) with (@fle RF 0%R x). destruct (Rfle_spec 0 x); [contradiction|].
      change (@fmul RF x x) with (x * x)%R. replace (x * x)%R with ((- x) * (- x))%R by ring. apply sqrt_square. apply neg; auto.
  - change (@fltb RF 0%R (1/10)%R = true). destruct (Rfltb_spec 0 (1/10)); [auto|lra].
  - destruct (Rfle_spec (1/1000) (1/10)); [auto|lra].
Qed.
Print Assumptions C79_dsm_sound_partial.
Print Assumptions C79_dsm_safe.
Print Assumptions C79_dsm_tolerance_refuted.
Print Assumptions C79_dsm_falling_refuted.
Print Assumptions C79_dsm_clamp_refuted.
