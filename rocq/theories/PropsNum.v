(* C59 and C60: the root finder and the minimiser. *)
From Coq Require Import List ZArith Bool QArith Qabs Lia Lqa.
From Verif Require Import Base NumModel NumProofs NumZero.
Import ListNotations.
Local Open Scope Q_scope.

(* ---- specification ---- *)

(* between two limits, None stands for no limit *)
Definition limited (lo hi : option Q) (x : Q) : Prop :=
  (forall l, lo = Some l -> l <= x) /\ (forall h, hi = Some h -> x <= h).
Definition signs_differ (u v : Q) : Prop := (0 < u /\ v <= 0) \/ (u <= 0 /\ 0 < v).
(* The outcome m of a call that evaluated a function at the points tr *)
Definition good_root (f eps : Q -> Q) (lo hi : option Q) (n : nat) (res : list Q * outcome Q) : Prop :=
  (forall x, In x (fst res) -> limited lo hi x) /\ (length (fst res) <= n)%nat /\
  match snd res with
  | Ok r => limited lo hi r /\
      (f r == 0 \/ exists c, limited lo hi c /\ signs_differ (f r) (f c) /\
         exists x, (x == Qabs r \/ x == 1 # 1000000) /\ Qabs (r - c) <= 4 * eps x)
  | Throw e => e = RuntimeError
  | UB _ => False
  end.

(* Calls whose starting values are not outside the limits lo and hi that they supply. *)
Inductive supplied : option Q -> ext -> ext -> option Q -> option Q -> Prop :=
| value_limits b l h : l <= b -> b <= h -> supplied (Some b) (Fin l) (Fin h) (Some l) (Some h)
| limit_value_limit b l h : l < b -> b <= h -> supplied (Some l) (Fin b) (Fin h) (Some l) (Some h)
| limit_limit l h : l < h -> supplied (Some l) (Fin h) PInf (Some l) (Some h)
| no_value l h : l < h -> supplied None (Fin l) (Fin h) (Some l) (Some h)
| upper b h : b <= h -> supplied (Some b) NInf (Fin h) None (Some h)
| upper_no_value h : 0 <= h -> supplied None NInf (Fin h) None (Some h)
| lower b l : l <= b -> -(1) < b -> supplied (Some b) (Fin l) PInf (Some l) None
| lower_no_value l : -(1) < l -> supplied None (Fin l) PInf (Some l) None
| anywhere b : supplied b NInf PInf None None.

(* ---- proofs ---- *)

Lemma limited_within lo hi x : within lo hi x <-> limited lo hi x.
Proof.
  unfold within, limited. destruct lo, hi; split; intros [A B]; split; auto; intros; try discriminate;
    try (match goal with H : Some _ = Some _ |- _ => injection H as <- end; auto).
Qed.
Lemma sign_xor u v : xorb (pos u) (pos v) = true -> signs_differ u v.
Proof.
  unfold signs_differ. destruct (pos u) eqn:U, (pos v) eqn:V; simpl; try discriminate; intros _;
    try apply pos_iff in U; try apply pos_iff in V; try apply pos_false in U; try apply pos_false in V; auto.
Qed.
Lemma spec_root f eps lo hi n m :
  spec (within lo hi) n m (root f eps lo hi) -> good_root f eps lo hi n (m []).
Proof.
  intros H. destruct (H []) as (new & E & F & L & R). rewrite app_nil_r in E.
  split; [|split].
  - intros x I. rewrite E in I. apply limited_within. rewrite Forall_forall in F. auto.
  - rewrite E. exact L.
  - destruct (snd (m [])) as [r|e|u]; auto. destruct R as (W & R). split; [now apply limited_within|].
    destruct R as [R|(c & Wc & S & T)]; [auto|]. right. exists c. split; [now apply limited_within|].
    split; [now apply sign_xor|]. unfold tolerance in T.
    exists (qmax (Qabs r) (1 # 1000000)). split; [|lra].
    unfold qmax. destruct (qlt (Qabs r) (1 # 1000000)); [right|left]; reflexivity.
Qed.
Lemma root_wider f eps lo hi lo' hi' x : (forall y, within lo' hi' y -> within lo hi y) ->
  root f eps lo' hi' x -> root f eps lo hi x.
Proof. intros S (W & R). split; auto. destruct R as [R|(c & Wc & R)]; auto. right. exists c. auto. Qed.

Ltac wi := unfold within; cbn beta iota; intros; repeat split; try exact I; lra.

(* The core: with both starting points between the limits the function is evaluated only there
   and not more than 212 times.  A value returned is an exact zero or within the tolerance of a
   point where the function has the other sign. *)
Theorem C59_core :
  forall (f eps sqrtq : Q -> Q) (x y : Q) (lo hi : option Q),
  (forall u, 0 <= eps u) -> limited lo hi x -> limited lo hi y ->
  good_root f eps lo hi 212 (fzero_core f eps sqrtq x y lo hi []).
Proof.
  intros f eps sqrtq x y lo hi He Wx Wy. apply spec_root. apply fzero_core_spec; auto; now apply limited_within.
Qed.

(* The wrapper: all calls that start between the limits.  nextafter gives a number between its
   arguments. *)
Theorem C59_fzero_partial :
  forall (f eps sqrtq : Q -> Q) (nextafter : Q -> Q -> Q) (b : option Q) (ll lr : ext) (lo hi : option Q),
  (forall u, 0 <= eps u) ->
  (forall u v, (u < v -> u < nextafter u v <= v) /\ (v < u -> v <= nextafter u v < u)) ->
  supplied b ll lr lo hi ->
  good_root f eps lo hi 212 (fzero f eps sqrtq nextafter b ll lr []).
Proof.
  intros f eps sqrtq nx b ll lr lo hi He Hn Su. apply spec_root.
  assert (Core : forall x y lo' hi', within lo' hi' x -> within lo' hi' y ->
     (forall u, within lo' hi' u -> within lo hi u) ->
     spec (within lo hi) 212 (fzero_core f eps sqrtq x y lo' hi') (root f eps lo hi)).
  { intros x y lo' hi' Wx Wy Wi. eapply spec_mono; [apply fzero_core_spec; eauto|auto|auto|].
    intros r. apply root_wider. auto. }
  assert (Three : forall x l h, l <= x -> x <= h -> lo = Some l -> hi = Some h ->
    spec (within lo hi) 212
     (let '(ll, lr) := if qlt l x && qlt x h then (Fin (nx l x), Fin (nx h x)) else (Fin l, Fin h) in
      if is_nan ll || is_nan lr then fail RuntimeError
      else if le_ext lr ll then fail RuntimeError
      else match lr with
           | Fin r => if qeq x r then match ll with Fin l => fzero_core f eps sqrtq x l (Some l) (Some r) | _ => fail RuntimeError end
                      else fzero_core f eps sqrtq x r (low ll) (Some r)
           | _ => fzero_core f eps sqrtq x (x + (if qlt (Qabs x) 1 then 5 # 100 else x / 20)) (low ll) None
           end) (root f eps lo hi)).
  { intros x l h L1 L2 -> ->.
    assert (Lim : exists l' h', (if qlt l x && qlt x h then (Fin (nx l x), Fin (nx h x)) else (Fin l, Fin h)) = (Fin l', Fin h') /\
        l <= l' /\ l' <= x /\ x <= h' /\ h' <= h).
    { destruct (qlt_spec l x) as [A|A]; [destruct (qlt_spec x h) as [B|B]|]; cbn [andb];
        try (do 2 eexists; split; [reflexivity|lra]).
      pose proof (Hn l x) as [N1 _]. pose proof (Hn h x) as [_ N2]. specialize (N1 A). specialize (N2 B).
      do 2 eexists; split; [reflexivity|lra]. }
    destruct Lim as (l' & h' & -> & A1 & A2 & A3 & A4). cbn [is_nan orb le_ext low].
    destruct (qle_spec h' l'); [apply spec_fail|].
    destruct (qeq_spec x h'); apply Core; wi. }
  inversion Su as [b0 l h L1 L2|b0 l h L1 L2|l h L|l h L|b0 h L|h L|b0 l L1 L2|l L|b0]; subst b ll lr lo hi; unfold fzero.
  - destruct (qlt_spec b0 l); [lra|]. cbn beta iota. apply (Three b0 l h); auto.
  - destruct (qlt_spec l b0); [|lra]. cbn beta iota. apply (Three b0 l h); auto. lra.
  - destruct (qlt_spec l h); [|lra]. cbn beta iota. apply (Three l l h); auto; lra.
  - cbn beta iota. cbn [is_nan orb le_ext low]. destruct (qle_spec h l); [lra|].
    destruct (qeq_spec l h); [lra|]. apply Core; wi.
  - cbn beta iota. cbn [is_nan orb le_ext low]. destruct (qeq_spec b0 h); [apply spec_fail|]. apply Core; wi.
  - cbn beta iota. cbn [is_nan orb le_ext low]. destruct (qeq_spec 0 h); [apply spec_fail|]. apply Core; wi.
  - destruct (qlt_spec b0 l); [lra|]. cbn beta iota. cbn [is_nan orb le_ext low].
    apply Core; try wi; unfold within; split; auto.
    assert (0 <= (if qlt (Qabs b0) 1 then 5 # 100 else b0 / 20)); [|lra].
    destruct (qlt_spec (Qabs b0) 1) as [B|B]; [discriminate|].
    assert (1 <= b0). { pose proof (Qabs_case b0 (fun u => ~ u < 1 -> 1 <= b0)) as Q0. apply Q0; auto; intros; lra. }
    unfold Qdiv. change (/ 20) with (1 # 20). lra.
  - cbn beta iota. cbn [is_nan orb le_ext low].
    apply Core; try wi; unfold within; split; auto.
    assert (0 <= (if qlt (Qabs l) 1 then 5 # 100 else l / 20)); [|lra].
    destruct (qlt_spec (Qabs l) 1) as [B|B]; [discriminate|].
    assert (1 <= l). { pose proof (Qabs_case l (fun u => ~ u < 1 -> 1 <= l)) as Q0. apply Q0; auto; intros; lra. }
    unfold Qdiv. change (/ 20) with (1 # 20). lra.
  - destruct b0; cbn beta iota; cbn [is_nan orb le_ext low]; apply Core; wi.
Qed.

(* Other calls evaluate outside the limits: a lower limit only, an upper limit only, a value
   outside the limits. *)
Definition ulp (x : Q) : Q := Qabs x * (1 # (2 ^ 52)).
Definition toward (x y : Q) : Q := x + (y - x) * (1 # (2 ^ 60)).
Definition grows {A} (m : ev A) : Prop := forall tr, exists new, fst (m tr) = new ++ tr.
Lemma grows_ret {A} (a : A) : grows (ret a).
Proof. intros tr. exists []. reflexivity. Qed.
Lemma grows_fail {A} e : grows (@fail A e).
Proof. intros tr. exists []. reflexivity. Qed.
Lemma grows_lift {A} (m : outcome A) : grows (lift m).
Proof. intros tr. exists []. reflexivity. Qed.
Lemma grows_eval f x : grows (evalf f x).
Proof. intros tr. exists [x]. reflexivity. Qed.
Lemma grows_bind {A B} (m : ev A) (k : A -> ev B) : grows m -> (forall a, grows (k a)) -> grows (bindm m k).
Proof.
  intros H G tr. destruct (H tr) as (n1 & E1). unfold bindm. destruct (m tr) as [tr1 [a|e|u]]; simpl in E1.
  - destruct (G a tr1) as (n2 & E2). exists (n2 ++ n1). rewrite E2, E1, app_assoc. reflexivity.
  - exists n1. exact E1.
  - exists n1. exact E1.
Qed.
Lemma grows_bracket f eps ll lr : forall k x X y Y z Z, grows (bracket f eps k ll lr x X y Y z Z).
Proof.
  induction k as [|k IH]; intros x X y Y z Z; cbn [bracket];
  destruct (qlt (Qabs Y) (Qabs X)); cbn beta iota;
  match goal with |- context [xorb ?u ?v] => destruct (xorb u v) end;
  try apply grows_ret; try apply grows_fail;
  (apply grows_bind; [apply grows_lift|]; intros d;
   match goal with |- context [if ?u || ?v then _ else _] => destruct (u || v) end; [apply grows_fail|];
   apply grows_bind; [apply grows_eval|]; intros; apply IH).
Qed.
Lemma grows_refine f eps sq : forall k x X y Y z Z c C e d fp, grows (refine f eps sq k x X y Y z Z c C e d fp).
Proof.
  induction k as [|k IH]; intros x X y Y z Z c C e d fp; cbn [refine];
  (match goal with |- context [if ?u && ?v then _ else _] => destruct (u && v) end; [|apply grows_ret]);
  (apply grows_bind; [apply grows_lift|]; intros w); [apply grows_fail|].
  match goal with |- context [if qle ?u ?v then _ else _] => destruct (qle u v) end; [apply grows_ret|].
  apply grows_bind; [apply grows_lift|]. intros [[p0 q0] fp1].
  destruct (qlt 0 p0); cbn beta iota;
  (apply grows_bind; [apply grows_lift|]; intros [[e1 d1] fp2];
   apply grows_bind; [apply grows_eval|]; intros X1;
   apply grows_bind;
   [match goal with |- context [if ?u then _ else _] => destruct u end;
    [apply grows_bind; [apply grows_eval|]; intros; apply grows_ret|apply grows_ret]|];
   intros [[[[x2 X2] e2] d2] fp3];
   destruct (eqb (pos X2) (pos C));
   [destruct (qlt (Qabs X) (Qabs X2))|]; cbn beta iota;
   match goal with |- context [if ?u then _ else _] => destruct u end; try apply grows_fail; apply IH).
Qed.
Lemma core_evaluates f eps sq x y ll lr : In x (fst (fzero_core f eps sq x y ll lr [])) /\ In y (fst (fzero_core f eps sq x y ll lr [])).
Proof.
  set (rest := fun X Y => '(x, X, y, Y, z, Z, k) <- bracket f eps 10 ll lr x X y Y y Y;
    refine f eps sq (90 + k) x X y Y z Z y Y (x - y) (x - y) false).
  assert (G : grows (rest (f x) (f y))).
  { unfold rest. apply grows_bind; [apply grows_bracket|]. intros [[[[[[a1 a2] a3] a4] a5] a6] k]. apply grows_refine. }
  change (fzero_core f eps sq x y ll lr []) with (rest (f x) (f y) [y; x]).
  destruct (G [y; x]) as (new & ->). split; apply in_app_iff; right; simpl; auto.
Qed.
Theorem C59_outside_refuted :
  forall (f eps sqrtq : Q -> Q) (nextafter : Q -> Q -> Q),
  let run b ll lr := fst (fzero f eps sqrtq nextafter b ll lr []) in
  (exists x, In x (run None (Fin (-(10))) PInf) /\ x < -(10)) /\
  (exists x, In x (run None NInf (Fin (-(5)))) /\ -(5) < x) /\
  (exists x, In x (run (Some (-(20))) (Fin (-(20))) PInf) /\ x < -(20)) /\
  (exists x, In x (run (Some 5) (Fin 0) (Fin 1)) /\ 1 < x).
Proof.
  intros f eps sq nx. cbv zeta. repeat split.
  - eexists. split; [apply (proj2 (core_evaluates f eps sq _ _ _ _))|]. reflexivity.
  - eexists. split; [apply (proj1 (core_evaluates f eps sq _ _ _ _))|]. reflexivity.
  - eexists. split; [apply (proj2 (core_evaluates f eps sq _ _ _ _))|]. reflexivity.
  - eexists. split; [apply (proj1 (core_evaluates f eps sq _ _ _ _))|]. reflexivity.
Qed.
Lemma toward_between u v : (u < v -> u < toward u v <= v) /\ (v < u -> v <= toward u v < u).
Proof.
  unfold toward. assert (0 < (1 # (2 ^ 60))) by reflexivity. assert ((1 # (2 ^ 60)) < 1) by reflexivity.
  set (t := 1 # (2 ^ 60)) in *. clearbody t. split; intros; split; nra.
Qed.
Lemma ulp_nonneg u : 0 <= ulp u.
Proof. unfold ulp. apply Qmult_le_0_compat; [apply Qabs_nonneg|discriminate]. Qed.
Example C59_ex :
  supplied (Some (1 # 4)) (Fin 0) (Fin 1) (Some 0) (Some 1) /\ supplied (Some 0) (Fin (1 # 4)) (Fin 1) (Some 0) (Some 1) /\
  match snd (fzero (fun x => x - (1 # 3)) ulp (fun x => x) toward (Some (1 # 4)) (Fin 0) (Fin 1) []) with
  | Ok r => r == 1 # 3
  | _ => False
  end.
Proof. split; [constructor; discriminate|]. split; [constructor; [reflexivity|discriminate]|]. vm_compute. reflexivity. Qed.

(* ---- C60 ---- *)

(* The value that a call returns, if any, is no larger than b; nothing goes wrong, no more than n
   evaluations are made. *)
Definition at_most (f : Q -> Q) (b : Q) (n : nat) (res : list Q * outcome Q) : Prop :=
  (length (fst res) <= n)%nat /\
  match snd res with Ok r => f r <= b | Throw e => e = RuntimeError | UB _ => False end.
(* the point by which a bracket is judged, GC = (3 - sqrt 5) / 2 *)
Definition inner (GC a b : Q) : Q := b + GC * (a - b).

Lemma spec_at_most f b n P m : spec P n m (fun r => f r <= b) -> at_most f b n (m []).
Proof.
  intros H. destruct (H []) as (new & E & F & L & R). rewrite app_nil_r in E. split; [rewrite E; exact L|exact R].
Qed.

Lemma search_peak f GC k a b c A B C : A < B -> search f GC k (Tri a b c A B C) = ret (Tri a b c A B C, k).
Proof. intros H. destruct k; cbn [search]; rewrite (proj2 (qle_false _ _) H); reflexivity. Qed.
Lemma hunt_peak f eps GC k a b c B y Y z Z tr : Y <= B -> Z <= B -> hunt f eps GC k a b c B y Y z Z tr = (tr, Ok b).
Proof.
  intros H1 H2. destruct k; cbn [hunt]; destruct (qlt_spec B Y); try lra; destruct (qlt_spec B Z); try lra; cbn [orb];
    rewrite andb_false_r; reflexivity.
Qed.
(* An inner point that is higher than both ends is returned. *)
Theorem C60_peak_refuted :
  forall (eps : Q -> Q) (GC : Q), 0 < GC -> GC < 1 ->
  exists (f : Q -> Q) (r : Q), (forall x y, x == y -> f x == f y) /\
    snd (fmin_brent f eps GC (Some 0) (Some 1) []) = Ok r /\ f 0 < f r /\ f 1 < f r.
Proof.
  intros eps GC H0 H1. exists (fun x => x * (1 - x)), (inner GC 0 1). split; [intros x y ->; reflexivity|].
  set (f := fun x => x * (1 - x)).
  assert (V0 : f 0 == 0) by reflexivity. assert (V1 : f 1 == 0) by reflexivity.
  assert (Vg : 0 < f (inner GC 0 1)).
  { unfold f, inner. assert (0 < (1 - GC) * GC) by (apply Qmult_lt_0_compat; lra). lra. }
  split; [|change (f 0 < f (inner GC 0 1) /\ f 1 < f (inner GC 0 1)); lra].
  assert (S : start f GC (Some 0) (Some 1) [] = ([1; inner GC 0 1; 0], Ok (Tri 0 (inner GC 0 1) 1 (f 0) (f (inner GC 0 1)) (f 1)))).
  { unfold start. replace (qeq 0 1) with false by reflexivity. cbn beta iota. unfold bindm, evalf. fold (inner GC 0 1).
    rewrite (proj2 (qle_false (f (inner GC 0 1)) (f 1))) by lra. rewrite andb_false_r. reflexivity. }
  set (g := inner GC 0 1) in *. clearbody g.
  rewrite fmin_finish. unfold bindm. rewrite S. unfold finish, bindm. rewrite search_peak by lra. unfold ret at 1. cbv beta iota.
  replace (qlt 1 0) with false by reflexivity. cbv beta iota.
  assert (E : qlt (f 1) (f 0) = false) by (destruct (qlt_spec (f 1) (f 0)); [lra|reflexivity]).
  rewrite E. cbv beta iota. rewrite hunt_peak by lra. reflexivity.
Qed.
(* So may the point of a bracket given from right to left: the lower end is forgotten. *)
Definition gc_double : Q := 215027748241771 # 562949953421312.
Definition steps (x : Q) : Q := if qle x 0 then 0 else if qle x (1 # 5) then 5 else if qlt x (9 # 10) then 1 else 10.
Theorem C60_reversed_refuted :
  exists r, snd (fmin_brent steps ulp gc_double (Some 1) (Some 0) []) = Ok r /\ steps 0 < steps r /\
    steps (inner gc_double 1 0) < steps 1.
Proof. eexists. split; [vm_compute; reflexivity|]. split; vm_compute; reflexivity. Qed.

(* Whatever the arguments, a call makes at most 126 evaluations and then returns a value or
   gives up; no division by zero takes place. *)
Theorem C60_total :
  forall (f eps : Q -> Q) (GC : Q) (a b : option Q),
  let res := fmin_brent f eps GC a b [] in
  (length (fst res) <= 126)%nat /\ (forall u, snd res <> UB u) /\ (forall e, snd res = Throw e -> e = RuntimeError).
Proof.
  intros f eps GC a b res. destruct (fmin_total f eps GC a b []) as (new & E & F & L & R).
  rewrite app_nil_r in E. unfold res. rewrite E. split; [exact L|].
  destruct (snd (fmin_brent f eps GC a b [])) as [r|e|u]; [|subst e|destruct R]; split; try discriminate.
  intros e [= <-]. reflexivity.
Qed.
(* Started from one point, or from none, which means 0, it returns no worse a point. *)
Theorem C60_single_partial :
  forall (f eps : Q -> Q) (GC x : Q),
  at_most f (f x) 126 (fmin_brent f eps GC (Some x) None []) /\
  at_most f (f x) 126 (fmin_brent f eps GC None (Some x) []) /\
  at_most f (f x) 126 (fmin_brent f eps GC (Some x) (Some x) []) /\
  at_most f (f 0) 126 (fmin_brent f eps GC None None []).
Proof.
  intros f eps GC x. repeat split; (eapply spec_at_most, fmin_single; try split; reflexivity).
Qed.
(* Started from a bracket it returns a point no worse than both ends, unless the inner point is
   a peak or the bracket is reversed and the function falls all the way. *)
Theorem C60_pair_partial :
  forall (f eps : Q -> Q) (GC a b : Q), 0 < GC -> GC < 1 -> ~ a == b ->
  (f a <= f (inner GC a b) <= f b \/ f (inner GC a b) <= f a /\ (f (inner GC a b) <= f b \/ a < b)) ->
  at_most f (f a) 126 (fmin_brent f eps GC (Some a) (Some b) []) /\
  at_most f (f b) 126 (fmin_brent f eps GC (Some a) (Some b) []).
Proof.
  intros f eps GC a b G0 G1 N H. pose proof (fmin_pair f eps GC G0 G1 a b N H) as S.
  split; (apply spec_at_most with (P := fun _ => True); eapply spec_mono; [exact S|auto|auto|cbn beta; tauto]).
Qed.
(* With a valley inside the bracket nothing outside it is looked at and the result is inside. *)
Theorem C60_inside :
  forall (f eps : Q -> Q) (GC a b : Q), 0 < GC -> GC < 1 -> ~ a == b ->
  f (inner GC a b) < f a -> f (inner GC a b) < f b ->
  let res := fmin_brent f eps GC (Some a) (Some b) [] in
  at_most f (f (inner GC a b)) 103 res /\
  (forall x, In x (fst res) -> (a <= x <= b) \/ (b <= x <= a)) /\
  (forall r, snd res = Ok r -> (a <= r <= b) \/ (b <= r <= a)).
Proof.
  intros f eps GC a b G0 G1 N Ha Hb res. pose proof (fmin_inside f eps GC G0 G1 a b N Ha Hb) as S.
  split; [apply spec_at_most with (P := fun _ => True); eapply spec_mono; [exact S|auto|auto|cbn beta; tauto]|].
  destruct (S []) as (new & E & F & L & R). rewrite app_nil_r in E. fold res in E, R. rewrite E. split.
  - apply Forall_forall. exact F.
  - intros r Er. rewrite Er in R. apply R.
Qed.
Example C60_ex :
  let f := fun x => (x - (1 # 2)) * (x - (1 # 2)) in
  f (inner (3 # 8) 0 1) < f 0 /\ f (inner (3 # 8) 0 1) < f 1 /\
  match snd (fmin_brent f (fun _ => 1 # 4) (3 # 8) (Some 0) (Some 1) []) with Ok r => r == inner (3 # 8) 0 1 | _ => False end /\
  match snd (fmin_brent f (fun _ => 1 # 8) (3 # 8) (Some 0) (Some 1) []) with Ok r => r == 1 # 2 | _ => False end.
Proof. vm_compute. auto. Qed.

Print Assumptions C59_core.
Print Assumptions C59_fzero_partial.
Print Assumptions C59_outside_refuted.
Print Assumptions C60_peak_refuted.
Print Assumptions C60_reversed_refuted.
Print Assumptions C60_total.
Print Assumptions C60_single_partial.
Print Assumptions C60_pair_partial.
Print Assumptions C60_inside.
