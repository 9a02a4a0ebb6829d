(* Proofs about the one-dimensional numerical methods. *)
From Coq Require Import List ZArith Bool QArith Qabs Lia Field Lqa.
From Verif Require Import Base NumModel.
Import ListNotations.
Local Open Scope Q_scope.

Lemma qle_iff x y : qle x y = true <-> x <= y.
Proof. apply Qle_bool_iff. Qed.
Lemma qle_false x y : qle x y = false <-> y < x.
Proof.
  split; intros H.
  - apply Qnot_le_lt. intros L. apply qle_iff in L. congruence.
  - destruct (qle x y) eqn:E; auto. apply qle_iff in E. lra.
Qed.
Lemma qlt_iff x y : qlt x y = true <-> x < y.
Proof. unfold qlt. rewrite negb_true_iff. apply qle_false. Qed.
Lemma qlt_false x y : qlt x y = false <-> y <= x.
Proof. unfold qlt. rewrite negb_false_iff. apply qle_iff. Qed.
Lemma qeq_iff x y : qeq x y = true <-> x == y.
Proof. apply Qeq_bool_iff. Qed.
Lemma qeq_false x y : qeq x y = false <-> ~ x == y.
Proof.
  split; intros H.
  - intros L. apply qeq_iff in L. congruence.
  - destruct (qeq x y) eqn:E; auto. apply qeq_iff in E. contradiction.
Qed.
Lemma qlt_spec x y : reflect (x < y) (qlt x y).
Proof. destruct (qlt x y) eqn:E; constructor; [now apply qlt_iff|apply qlt_false in E; lra]. Qed.
Lemma qle_spec x y : reflect (x <= y) (qle x y).
Proof. destruct (qle x y) eqn:E; constructor; [now apply qle_iff|apply qle_false in E; lra]. Qed.
Lemma qeq_spec x y : reflect (x == y) (qeq x y).
Proof. destruct (qeq x y) eqn:E; constructor; [now apply qeq_iff|now apply qeq_false]. Qed.
Lemma divq_ok x y : ~ y == 0 -> divq x y = Ok (x / y).
Proof. intros N. unfold divq. destruct (qeq_spec y 0); tauto. Qed.

(* Evaluates only at points where P holds, at most n times; never goes wrong, throws nothing but
   a runtime error, and R holds of the value. *)
Definition spec {A} (P : Q -> Prop) (n : nat) (m : ev A) (R : A -> Prop) : Prop :=
  forall tr, exists new, fst (m tr) = new ++ tr /\ Forall P new /\ (length new <= n)%nat /\
    match snd (m tr) with Ok a => R a | Throw e => e = RuntimeError | UB _ => False end.
Lemma spec_ret {A} P n (a : A) (R : A -> Prop) : R a -> spec P n (ret a) R.
Proof. intros H tr. exists []. simpl. repeat split; auto. lia. Qed.
Lemma spec_fail {A} P n (R : A -> Prop) : spec P n (fail RuntimeError) R.
Proof. intros tr. exists []. simpl. repeat split; auto. lia. Qed.
Lemma spec_lift {A} P n m (a : A) (R : A -> Prop) : m = Ok a -> R a -> spec P n (lift m) R.
Proof. intros -> H tr. exists []. simpl. repeat split; auto. lia. Qed.
Lemma spec_bind {A B} P n k m (g : A -> ev B) (R : A -> Prop) (R' : B -> Prop) :
  spec P n m R -> (forall a, R a -> spec P k (g a) R') -> spec P (n + k) (bindm m g) R'.
Proof.
  intros H G tr. destruct (H tr) as (new & E & F & L & S). unfold bindm.
  destruct (m tr) as [tr1 [a|e|u]]; simpl in E, S; subst tr1.
  - destruct (G a S (new ++ tr)) as (new' & E' & F' & L' & S'). exists (new' ++ new).
    rewrite <- app_assoc. split; [exact E'|]. split; [apply Forall_app; auto|]. split; [rewrite app_length; lia|exact S'].
  - exists new. simpl. repeat split; auto. lia.
  - contradiction.
Qed.
Lemma spec_mono {A} (P P' : Q -> Prop) n n' (m : ev A) (R R' : A -> Prop) :
  spec P n m R -> (forall x, P x -> P' x) -> (n <= n')%nat -> (forall a, R a -> R' a) -> spec P' n' m R'.
Proof.
  intros H HP L HR tr. destruct (H tr) as (new & E & F & L' & S). exists new. split; [exact E|].
  split; [eapply Forall_impl; eauto|]. split; [lia|]. destruct (snd (m tr)); auto.
Qed.
Lemma spec_lift_bind {A B} P n m (a : A) (g : A -> ev B) (R : B -> Prop) :
  m = Ok a -> spec P n (g a) R -> spec P n (bindm (lift m) g) R.
Proof. intros -> H tr. destruct (H tr) as (new & S). exists new. exact S. Qed.

Section P.
Variable f : Q -> Q.
Variable eps : Q -> Q.
Lemma spec_eval {B} (P : Q -> Prop) n x (g : Q -> ev B) (R : B -> Prop) :
  P x -> spec P n (g (f x)) R -> spec P (S n) (bindm (evalf f x) g) R.
Proof.
  intros H G. change (S n) with (1 + n)%nat.
  apply spec_bind with (R := fun X => X = f x).
  - intros tr. exists [x]. simpl. repeat split; auto.
  - intros a ->. exact G.
Qed.

(* ---- the minimiser ---- *)
Section Fmin.
Variable GC : Q.
Hypothesis GC0 : 0 < GC.
Hypothesis GC1 : GC < 1.
Lemma GR_pos : 0 < GR GC.
Proof. unfold GR. apply Qlt_shift_div_l; lra. Qed.

Definition val (t : tri) : Prop := vA t = f (ta t) /\ vB t = f (tb t) /\ vC t = f (tc t).

Lemma two_spec a b : spec (fun _ => True) 3 (two f GC a b) (fun t => val t /\
  match a, b with
  | Some a, Some b => tb t = b /\ (f b <= f a -> ta t = a)
  | None, Some b | Some b, None => tb t = b
  | None, None => tb t = 0
  end).
Proof.
  unfold two. destruct a as [a|], b as [b|]; cbn beta iota;
  (apply spec_eval; [auto|]; apply spec_eval; [auto|]);
  match goal with |- context [qlt ?u ?v] => destruct (qlt_spec u v) end;
  (apply spec_eval; [auto|]; apply spec_ret; unfold val; cbn [ta tb tc vA vB vC]; repeat split; auto; try lra).
Qed.

Definition turn (a b c r q : Q) : outcome Q :=
  if qeq r q then Ok a
  else let* d := divq ((b - a) * r - (b - c) * q) (Qabs (2 * (q - r))) in Ok (b - d).
Lemma turn_ok a b c r q : exists x, turn a b c r q = Ok x /\
  (x = a \/ (~ r == q /\ x = b - ((b - a) * r - (b - c) * q) / Qabs (2 * (q - r)))).
Proof.
  unfold turn. destruct (qeq_spec r q) as [E|E]; [eauto|].
  rewrite divq_ok. { cbn [bind]. eauto. }
  intros Z. apply E. pose proof (Qabs_Qle_condition (2 * (q - r)) 0) as [H _].
  destruct H; lra.
Qed.

Lemma search_spec M : forall k t, val t -> vB t <= M ->
  spec (fun _ => True) (2 * k) (search f GC k t) (fun r => val (fst r) /\ vB (fst r) <= M /\ (snd r <= k)%nat).
Proof.
  induction k as [|k IH]; intros [a b c A B C] (VA & VB & VC) L; cbn [ta tb tc vA vB vC] in *; cbn [search].
  - destruct (qle B A && qle C B); [apply spec_fail|]. apply spec_ret. unfold val. cbn. auto.
  - destruct (qle_spec B A) as [BA|BA]; [destruct (qle_spec C B) as [CB|CB]|]; cbn [andb];
      try (apply spec_ret; unfold val; cbn; auto; fail).
    fold (turn a b c ((b - a) * (B - C)) ((b - c) * (B - A))).
    destruct (turn_ok a b c ((b - a) * (B - C)) ((b - c) * (B - A))) as (x & -> & _).
    assert (IH' : forall t, val t -> vB t <= M -> spec (fun _ => True) (2 * k) (search f GC k t)
       (fun r => val (fst r) /\ vB (fst r) <= M /\ (snd r <= S k)%nat)).
    { intros t V L'. eapply spec_mono; [apply (IH t V L')|auto|lia|]. cbn beta. intros r (V1 & V2 & V3). auto. }
    eapply spec_lift_bind; [reflexivity|].
    replace (2 * S k)%nat with (S (S (2 * k))) by lia.
    destruct (qlt (qmin b c) x && qlt x (qmax b c)).
    { apply spec_mono with (P := fun _ => True) (n := (S (2 * k))%nat)
        (R := fun r => val (fst r) /\ vB (fst r) <= M /\ (snd r <= S k)%nat); auto.
      apply spec_eval; [auto|]. destruct (qlt_spec (f x) C); [|destruct (qlt_spec B (f x))];
      apply IH'; unfold val; cbn; auto; lra. }
    destruct (qlt (qmin c _) x && qlt x (qmax c _)).
    { apply spec_eval; [auto|]. destruct (qlt_spec (f x) C).
      - apply spec_eval; [auto|]. apply IH'; unfold val; cbn; auto; lra.
      - apply spec_mono with (P := fun _ => True) (n := (2 * k)%nat)
          (R := fun r => val (fst r) /\ vB (fst r) <= M /\ (snd r <= S k)%nat); auto.
        apply IH'; unfold val; cbn; auto; lra. }
    apply spec_mono with (P := fun _ => True) (n := (S (2 * k))%nat)
        (R := fun r => val (fst r) /\ vB (fst r) <= M /\ (snd r <= S k)%nat); auto.
    apply spec_eval; [auto|]. apply IH'; unfold val; cbn; auto; lra.
Qed.
(* in the direction of increasing numbers the parabola never is used *)
Lemma search_up : forall k a b c A B C, val (Tri a b c A B C) -> a < b -> b < c -> C <= B -> B <= A ->
  spec (fun _ => True) (2 * k) (search f GC k (Tri a b c A B C)) (fun r => val (fst r) /\ vB (fst r) <= C /\ (snd r <= k)%nat).
Proof.
  intros [|k] a b c A B C (VA & VB & VC) ab bc CB BA; cbn [ta tb tc vA vB vC] in *; cbn [search];
  rewrite (proj2 (qle_iff B A) BA), (proj2 (qle_iff C B) CB); cbn [andb]; [apply spec_fail|].
  fold (turn a b c ((b - a) * (B - C)) ((b - c) * (B - A))).
  destruct (turn_ok a b c ((b - a) * (B - C)) ((b - c) * (B - A))) as (x & -> & X).
  eapply spec_lift_bind; [reflexivity|].
  assert (xb : x <= b).
  { destruct X as [->|(N & ->)]; [lra|].
    set (r := (b - a) * (B - C)) in *. set (q := (b - c) * (B - A)) in *.
    assert (0 <= ((b - a) * r - (b - c) * q) / Qabs (2 * (q - r))).
    { apply Qle_shift_div_l.
      - pose proof (Qabs_nonneg (2 * (q - r))). destruct (Qlt_le_dec 0 (Qabs (2 * (q - r)))); auto.
        exfalso. apply N. pose proof (proj1 (Qabs_Qle_condition (2 * (q - r)) 0) q0). lra.
      - unfold r, q. rewrite Qmult_0_l.
        assert (0 <= (b - a) * (b - a) * (B - C)) by (apply Qmult_le_0_compat; nra).
        assert (0 <= (b - c) * (b - c) * (A - B)) by (apply Qmult_le_0_compat; nra). lra. }
    lra. }
  pose proof GR_pos as G. assert (yc : c < c + (c - b) * GR GC).
  { assert (0 < (c - b) * GR GC) by (apply Qmult_lt_0_compat; lra). lra. }
  unfold qmin, qmax.
  destruct (qlt_spec c b); [lra|]. destruct (qlt_spec b c); [|lra].
  destruct (qlt_spec b x); [lra|]. cbn [andb].
  destruct (qlt_spec (c + (c - b) * GR GC) c); [lra|]. destruct (qlt_spec c x); [lra|]. cbn [andb].
  replace (2 * S k)%nat with (S (S (2 * k))) by lia.
  apply spec_mono with (P := fun _ => True) (n := (S (2 * k))%nat)
     (R := fun r => val (fst r) /\ vB (fst r) <= C /\ (snd r <= S k)%nat); auto.
  apply spec_eval; [auto|]. eapply spec_mono; [apply (search_spec C)|auto|lia|].
  - unfold val; cbn; auto.
  - cbn. lra.
  - cbn beta. intros r0 (V1 & V2 & V3). auto.
Qed.

Lemma hunt_spec lo hi M : forall k a b c B y Y z Z,
  lo <= a -> a <= b -> b <= c -> c <= hi -> B = f b -> B <= M ->
  spec (fun x => lo <= x <= hi) k (hunt f eps GC k a b c B y Y z Z)
    (fun r => f r <= M /\ lo <= r <= hi).
Proof.
  induction k as [|k IH]; intros a b c B y Y z Z La ab bc Hc EB LM; cbn [hunt].
  - destruct (qlt (4 * eps b) (c - a) && (qlt B Y || qlt B Z)); [apply spec_fail|]. apply spec_ret. subst B. split; [auto|lra].
  - destruct (qlt (4 * eps b) (c - a) && (qlt B Y || qlt B Z)); [|apply spec_ret; subst B; split; [auto|lra]].
    set (r := (b - z) * (B - Y)). set (q := (b - y) * (B - Z)).
    assert (T : exists x, (if qeq r q then Ok b
       else let* d := divq ((b - z) * r - (b - y) * q) (2 * (r - q)) in Ok (b - d)) = Ok x).
    { destruct (qeq_spec r q) as [E|E]; [eauto|]. rewrite divq_ok; [cbn [bind]; eauto|]. intros H. apply E. lra. }
    destruct T as (x0 & ->). eapply spec_lift_bind; [reflexivity|].
    set (x := if qeq r q || qlt (2 * x0) (a + b) || qlt (b + c) (2 * x0) then _ else x0).
    assert (X : a <= x <= c).
    { unfold x. destruct (qeq r q); cbn [orb].
      - destruct (qlt_spec (c - b) (b - a)); split; nra.
      - destruct (qlt_spec (2 * x0) (a + b)); cbn [orb]; [destruct (qlt_spec (c - b) (b - a)); split; nra|].
        destruct (qlt_spec (b + c) (2 * x0)); [destruct (qlt_spec (c - b) (b - a)); split; nra|]. lra. }
    clearbody x. apply spec_eval; [lra|].
    destruct (qle_spec (f x) B).
    + destruct (qlt_spec x b); cbn beta iota; apply IH; auto; lra.
    + destruct (qlt_spec x b); cbn beta iota.
      * destruct (qle (f x) Y || qeq x y); [apply IH; auto; lra|].
        destruct (qle (f x) Z || qeq x z || qeq y z); apply IH; auto; lra.
      * destruct (qle (f x) Y || qeq x y); [apply IH; auto; lra|].
        destruct (qle (f x) Z || qeq x z || qeq y z); apply IH; auto; lra.
Qed.
Lemma hunt_le M : forall k a b c B y Y z Z, B = f b -> B <= M ->
  spec (fun _ => True) k (hunt f eps GC k a b c B y Y z Z) (fun r => f r <= M).
Proof.
  induction k as [|k IH]; intros a b c B y Y z Z EB LM; cbn [hunt].
  - destruct (qlt (4 * eps b) (c - a) && (qlt B Y || qlt B Z)); [apply spec_fail|]. apply spec_ret. now subst B.
  - destruct (qlt (4 * eps b) (c - a) && (qlt B Y || qlt B Z)); [|apply spec_ret; now subst B].
    set (r := (b - z) * (B - Y)). set (q := (b - y) * (B - Z)).
    assert (T : exists x, (if qeq r q then Ok b
       else let* d := divq ((b - z) * r - (b - y) * q) (2 * (r - q)) in Ok (b - d)) = Ok x).
    { destruct (qeq_spec r q) as [E|E]; [eauto|]. rewrite divq_ok; [cbn [bind]; eauto|]. intros H. apply E. lra. }
    destruct T as (x0 & ->). eapply spec_lift_bind; [reflexivity|].
    set (x := if qeq r q || qlt (2 * x0) (a + b) || qlt (b + c) (2 * x0) then _ else x0).
    clearbody x. apply spec_eval; [auto|].
    destruct (qle_spec (f x) B).
    + destruct (qlt x b); cbn beta iota; apply IH; auto; lra.
    + destruct (qlt x b); cbn beta iota;
        (destruct (qle (f x) Y || qeq x y); [apply IH; auto; lra|];
         destruct (qle (f x) Z || qeq x z || qeq y z); apply IH; auto; lra).
Qed.

(* what follows the first three points *)
Definition finish (t : tri) : ev Q :=
  '(t, k) <- search f GC 10 t;
  let '(Tri a b c A B C) := t in
  let '(a, c, A, C) := if qlt c a then (c, a, C, A) else (a, c, A, C) in
  let '(z, y, Z, Y) := if qlt C A then (a, c, A, C) else (c, a, C, A) in
  hunt f eps GC (90 + k) a b c B y Y z Z.
Lemma finish_search M t : spec (fun _ => True) (2 * 10) (search f GC 10 t)
    (fun r => val (fst r) /\ vB (fst r) <= M /\ (snd r <= 10)%nat) ->
  spec (fun _ => True) 120 (finish t) (fun r => f r <= M).
Proof.
  intros H. unfold finish. change 120%nat with (2 * 10 + 100)%nat. eapply spec_bind; [exact H|].
  intros [[a b c A B C] k] ((_ & VB & _) & L & K). cbn [fst snd tb vB] in *.
  destruct (qlt c a); cbn beta iota;
  match goal with |- context [qlt ?u ?v] => destruct (qlt u v) end; cbn beta iota;
  (eapply spec_mono; [apply (hunt_le M); auto|auto|lia|auto]).
Qed.
Lemma finish_le M t : val t -> vB t <= M -> spec (fun _ => True) 120 (finish t) (fun r => f r <= M).
Proof. intros V L. apply finish_search. apply search_spec; auto. Qed.
Lemma fmin_finish a b : fmin_brent f eps GC a b = bindm (start f GC a b) (fun t => finish t).
Proof. unfold fmin_brent, finish. exact eq_refl. Qed.

Lemma fmin_total a b : spec (fun _ => True) 126 (fmin_brent f eps GC a b) (fun _ => True).
Proof.
  rewrite fmin_finish. change 126%nat with (6 + 120)%nat. apply spec_bind with (R := val).
  - unfold start. destruct a as [a|], b as [b|];
      try (eapply spec_mono; [apply two_spec|auto|lia|cbn beta; tauto]).
    destruct (qeq a b); [eapply spec_mono; [apply two_spec|auto|lia|cbn beta; tauto]|].
    apply spec_eval; [auto|]. apply spec_eval; [auto|]. apply spec_eval; [auto|].
    match goal with |- context [if ?u then _ else _] => destruct u end.
    + eapply spec_mono; [apply two_spec|auto|lia|cbn beta; tauto].
    + apply spec_ret. unfold val. cbn. auto.
  - intros t V. eapply spec_mono; [apply (finish_le (vB t) t V); lra|auto|lia|auto].
Qed.
Lemma fmin_single a b x : match a, b with
    | Some a, Some b => a == b /\ x = b | Some a, None => x = a | None, Some b => x = b | None, None => x = 0 end ->
  spec (fun _ => True) 126 (fmin_brent f eps GC a b) (fun r => f r <= f x).
Proof.
  intros H. rewrite fmin_finish. change 126%nat with (6 + 120)%nat.
  apply spec_bind with (R := fun t => val t /\ tb t = x).
  - unfold start. destruct a as [a|], b as [b|].
    + destruct H as [H ->]. rewrite (proj2 (qeq_iff a b) H).
      eapply spec_mono; [apply two_spec|auto|lia|cbn beta; tauto].
    + subst x. eapply spec_mono; [apply two_spec|auto|lia|cbn beta; tauto].
    + subst x. eapply spec_mono; [apply two_spec|auto|lia|cbn beta; tauto].
    + subst x. eapply spec_mono; [apply two_spec|auto|lia|cbn beta; tauto].
  - intros t (V & E). apply finish_le; auto. destruct V as (_ & -> & _). rewrite E. lra.
Qed.
(* the golden section point g of a bracket *)
Definition golden (a b : Q) : Q := b + GC * (a - b).
Lemma golden_between a b : a < b -> a < golden a b < b.
Proof.
  intros H. unfold golden.
  assert (0 < GC * (b - a)) by (apply Qmult_lt_0_compat; lra).
  assert (0 < (1 - GC) * (b - a)) by (apply Qmult_lt_0_compat; lra). lra.
Qed.
Lemma fmin_pair a b : ~ a == b ->
  (f a <= f (golden a b) <= f b \/ f (golden a b) <= f a /\ (f (golden a b) <= f b \/ a < b)) ->
  spec (fun _ => True) 126 (fmin_brent f eps GC (Some a) (Some b)) (fun r => f r <= f a /\ f r <= f b).
Proof.
  intros N H. rewrite fmin_finish. unfold start. rewrite (proj2 (qeq_false a b) N). cbn beta iota.
  fold (golden a b). set (g := golden a b) in *.
  assert (W : forall t, val t /\ tb t = a /\ f a <= f b -> spec (fun _ => True) 120 (finish t) (fun r => f r <= f a /\ f r <= f b)).
  { intros t (V & E & L). eapply spec_mono; [apply (finish_le (f a)); auto|auto|lia|].
    - destruct V as (_ & -> & _). rewrite E. lra.
    - cbn beta. intros r Hr. lra. }
  change 126%nat with (6 + 120)%nat.

  destruct (qle_spec (f a) (f g)) as [L1|L1]; [destruct (qle_spec (f g) (f b)) as [L2|L2]|]; cbn [andb].
  - eapply spec_bind; [|exact W]. do 3 (apply spec_eval; [auto|]).
    rewrite (proj2 (qle_iff _ _) L1), (proj2 (qle_iff _ _) L2). cbn [andb].
    eapply spec_mono; [apply (two_spec (Some b) (Some a))|auto|lia|]. cbn beta. intros t (V & E & _). split; [auto|]. split; [auto|]. lra.
  - destruct H as [H|(H1 & [H|ab])]; [lra|lra|].
    apply spec_bind with (R := fun t => t = Tri a g b (f a) (f g) (f b)).
    + do 3 (apply spec_eval; [auto|]). rewrite (proj2 (qle_iff _ _) L1), (proj2 (qle_false _ _) (Qnot_le_lt _ _ L2)). cbn [andb].
      apply spec_ret. reflexivity.
    + intros t ->. eapply spec_mono; [apply (finish_search (f b)); apply search_up|auto|lia|]; unfold val; cbn; auto; try lra.
      all: pose proof (golden_between a b ab); subst g; intros; lra.
  - destruct (Qlt_le_dec (f b) (f g)) as [L2|L2].
    + destruct H as [H|(H1 & [H|ab])]; [lra|lra|].
      apply spec_bind with (R := fun t => t = Tri a g b (f a) (f g) (f b)).
      * do 3 (apply spec_eval; [auto|]). rewrite (proj2 (qle_false _ _) (Qnot_le_lt _ _ L1)). cbn [andb].
        apply spec_ret. reflexivity.
      * intros t ->. eapply spec_mono; [apply (finish_search (f b)); apply search_up|auto|lia|]; unfold val; cbn; auto; try lra.
        all: pose proof (golden_between a b ab); subst g; intros; lra.
    + apply spec_bind with (R := fun t => t = Tri a g b (f a) (f g) (f b)).
      * do 3 (apply spec_eval; [auto|]). rewrite (proj2 (qle_false _ _) (Qnot_le_lt _ _ L1)). cbn [andb].
        apply spec_ret. reflexivity.
      * intros t ->. eapply spec_mono; [apply (finish_le (f g))|auto|lia|]; unfold val; cbn; auto; intros; lra.
Qed.
Lemma search_exit k a b c A B C : B < C -> search f GC k (Tri a b c A B C) = ret (Tri a b c A B C, k).
Proof. intros H. destruct k; cbn [search]; rewrite (proj2 (qle_false _ _) H), andb_false_r; reflexivity. Qed.
(* With a valley between the ends of the bracket the function is not evaluated outside it. *)
Lemma fmin_inside a b : ~ a == b -> f (golden a b) < f a -> f (golden a b) < f b ->
  spec (fun x => (a <= x <= b) \/ (b <= x <= a)) 103 (fmin_brent f eps GC (Some a) (Some b))
    (fun r => f r <= f (golden a b) /\ ((a <= r <= b) \/ (b <= r <= a))).
Proof.
  intros N H1 H2. rewrite fmin_finish. unfold start. rewrite (proj2 (qeq_false a b) N). cbn beta iota.
  fold (golden a b). set (g := golden a b) in *.
  assert (G : a <= g <= b \/ b <= g <= a).
  { unfold g, golden. destruct (Qlt_le_dec a b); [left|right]; split; nra. }
  change 103%nat with (3 + 100)%nat.
  apply spec_bind with (R := fun t => t = Tri a g b (f a) (f g) (f b)).
  - apply spec_eval; [lra|]. apply spec_eval; [exact G|]. apply spec_eval; [lra|].
    rewrite (proj2 (qle_false _ _) H1). cbn [andb]. apply spec_ret. reflexivity.
  - intros t ->. unfold finish. change 100%nat with (0 + 100)%nat.
    apply spec_bind with (R := fun r => r = (Tri a g b (f a) (f g) (f b), 10%nat)).
    + rewrite search_exit by exact H2. apply spec_ret. reflexivity.
    + intros r ->. cbn beta iota. destruct (qlt_spec b a); cbn beta iota;
      match goal with |- context [qlt ?u ?v] => destruct (qlt u v) end; cbn beta iota;
      (eapply spec_mono; [first [apply (hunt_spec b a (f g)); auto; lra | apply (hunt_spec a b (f g)); auto; lra]| | |]; cbn beta; intros; try lra; try lia).
Qed.
End Fmin.
End P.
