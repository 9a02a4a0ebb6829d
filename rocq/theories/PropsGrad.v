(* C31: deflection gradients against finite differences of the deflection. *)
From Coq Require Import List ZArith Bool Arith Lia.
From Verif Require Import Base GradModel.
Import ListNotations.
Local Open Scope Z_scope.

(* ---- specification ---- *)
Section Spec.
Context {Env : Type}.
(* The superposed deflection with moduli e. *)
Definition superposed (resp : nat -> Env -> Z) (na : nat) (e : Env) : Z :=
  fold_right (fun ia s => resp ia e + s) 0 (seq 0 na).
Definition differences (base : Env) (stepped : nat -> Env) (resp : nat -> Env -> Z) (nl na : nat) : list Z :=
  map (fun k => superposed resp na (stepped k) - superposed resp na base) (seq 0 nl).
End Spec.

Section Proofs.
Context {Env : Type}.
Variable base : Env.
Variable stepped : nat -> Env.
Variable resp : nat -> Env -> Z.

(* the passes gl = k, k+1, ..., nl-1 *)
Lemma upd_here {A} (a b : list A) x y : upd (a ++ x :: b) (length a) y = a ++ y :: b.
Proof. induction a as [|c a IH]; simpl; [reflexivity|f_equal; exact IH]. Qed.
Lemma passes_ok nl ia : forall m k done rest df,
  length done = k -> length rest = m -> (k + m = nl)%nat -> (0 < m)%nat ->
  gradloop stepped resp nl m (Gst (stepped k) df (done ++ rest) (Some k)) ia =
  Ok (Gst (stepped (pred nl)) df (done ++ map (fun x => snd x + resp ia (stepped (fst x))) (combine (seq k m) rest)) None).
Proof.
  induction m as [|m IH]; intros k done rest df LD LR E P; [lia|].
  destruct rest as [|r rest]; [discriminate|]. injection LR as LR.
  cbn [gradloop]. unfold add_response. cbn [gl dgrad ge defl].
  assert (AG : aget (done ++ r :: rest) k = Ok r).
  { unfold aget. rewrite nth_error_app2 by lia. rewrite LD, Nat.sub_diag. reflexivity. }
  rewrite AG. cbn [bind].
  assert (AS : aset (done ++ r :: rest) k (r + resp ia (stepped k)) = Ok (done ++ (r + resp ia (stepped k)) :: rest)).
  { unfold aset. rewrite (proj2 (Nat.ltb_lt _ _)) by (rewrite app_length; simpl; lia).
    f_equal. rewrite <- LD at 1. apply upd_here. }
  rewrite AS. cbn [bind gl ge defl dgrad].
  destruct (Nat.eqb_spec (S k) nl) as [EQ|NE]; cbn [negb].
  - assert (m = 0)%nat by lia. subst m. destruct rest; [|discriminate].
    replace (pred nl) with k by lia. reflexivity.
  - replace (done ++ (r + resp ia (stepped k)) :: rest) with ((done ++ [r + resp ia (stepped k)]) ++ rest)
      by (rewrite <- app_assoc; reflexivity).
    rewrite IH by (rewrite ?app_length; simpl; lia).
    rewrite <- app_assoc. reflexivity.
Qed.

(* one radius *)
Lemma one_radius nl ia e df dg :
  (0 < nl)%nat -> length dg = nl ->
  gradloop stepped resp nl (S nl) (Gst e df dg None) ia =
  Ok (Gst (stepped (pred nl)) (df + resp ia e)
        (map (fun x => snd x + resp ia (stepped (fst x))) (combine (seq 0 nl) dg)) None).
Proof.
  intros P L. cbn [gradloop]. unfold add_response. cbn [gl dgrad ge defl bind].
  destruct (Nat.eqb_spec 0 nl) as [EQ|NE]; [lia|]. cbn [negb].
  apply (passes_ok nl ia nl 0 [] dg); auto.
Qed.
Lemma combine_map_snd {A} (f : nat -> A -> A) nl : forall k (l : list A), length l = nl ->
  combine (seq k nl) (map (fun x => f (fst x) (snd x)) (combine (seq k nl) l)) =
  map (fun x => (fst x, f (fst x) (snd x))) (combine (seq k nl) l).
Proof.
  induction nl; intros k l L; [reflexivity|]. destruct l as [|a l]; [discriminate|]. injection L as L.
  simpl. f_equal. apply IHnl. exact L.
Qed.

Definition tail_sum (n ia : nat) (e : Env) : Z := fold_right (fun i s => resp i e + s) 0 (seq ia n).
Lemma radii_ok nl : (0 < nl)%nat -> forall n ia e df dg,
  length dg = nl ->
  radii stepped resp nl n (Gst e df dg None) ia =
  Ok (Gst (match n with O => e | _ => stepped (pred nl) end)
        (df + match n with O => 0 | S n => resp ia e + tail_sum n (S ia) (stepped (pred nl)) end)
        (map (fun x => snd x + tail_sum n ia (stepped (fst x))) (combine (seq 0 nl) dg)) None).
Proof.
  intros P. induction n as [|n IH]; intros ia e df dg L; cbn [radii].
  - f_equal. unfold tail_sum. simpl. f_equal; [lia|].
    rewrite (map_ext _ snd) by (intros [a b]; simpl; lia).
    clear -L. revert dg L. generalize 0%nat. induction nl; intros k [|d dg] L; simpl in *; try discriminate; auto.
    f_equal. apply IHnl. congruence.
  - rewrite (one_radius nl ia e df dg P L). cbn [bind].
    rewrite IH by (rewrite map_length, combine_length, seq_length; lia).
    f_equal. f_equal.
    + destruct n; reflexivity.
    + destruct n; unfold tail_sum; simpl; lia.
    + rewrite (combine_map_snd (fun k d => d + resp ia (stepped k)) nl 0 dg L).
      rewrite map_map. apply map_ext. intros [k d]. cbn [fst snd]. unfold tail_sum. simpl. lia.
Qed.
Lemma combine_repeat nl : forall k, combine (seq k nl) (repeat 0 nl) = map (fun i => (i, 0)) (seq k nl).
Proof. induction nl; intros k; simpl; [reflexivity|]. f_equal. apply IHnl. Qed.

Lemma calc_grad_ok nl na : (0 < nl)%nat ->
  calc_grad base stepped resp nl na =
  let d := match na with O => 0 | S n => resp 0%nat base + tail_sum n 1 (stepped (pred nl)) end in
  Ok (d, map (fun k => superposed resp na (stepped k) - d) (seq 0 nl),
      match na with O => base | _ => stepped (pred nl) end).
Proof.
  intros P. unfold calc_grad. rewrite (radii_ok nl P) by (apply repeat_length). cbn [bind defl dgrad ge].
  rewrite combine_repeat, !map_map. cbn [fst snd]. rewrite Z.add_0_l. reflexivity.
Qed.
End Proofs.

(* With one load radius the deflection is the superposed one and the gradients are its
   finite differences, for any number of layers and any response. *)
Theorem C31_one_radius_partial :
  forall (Env : Type) (base : Env) (stepped : nat -> Env) (resp : nat -> Env -> Z) (nl : nat),
  (0 < nl)%nat ->
  exists e, calc_grad base stepped resp nl 1 =
    Ok (superposed resp 1 base, differences base stepped resp nl 1, e).
Proof.
  intros Env base stepped resp nl P. rewrite calc_grad_ok by exact P. cbv zeta.
  eexists. f_equal.
Qed.
Print Assumptions C31_one_radius_partial.
Example C31_one_radius_ex :
  calc_grad 10 (fun k => 11 + Z.of_nat k) (fun ia e => 5 * Z.of_nat (S ia) * e) 3 1 = Ok (50, [5; 10; 15], 13).
Proof. vm_compute. reflexivity. Qed.

(* With more radii the gradients differ from the finite differences by the same amount for
   every layer: the change of the response of all radii but the first when the last layer
   is stepped.  (The deflection itself is off by the same amount.) *)
Theorem C31_any_radii_error :
  forall (Env : Type) (base : Env) (stepped : nat -> Env) (resp : nat -> Env -> Z) (nl na : nat),
  (0 < nl)%nat -> (0 < na)%nat ->
  exists e err, calc_grad base stepped resp nl na =
      Ok (superposed resp na base + err, map (fun d => d - err) (differences base stepped resp nl na), e) /\
    err = superposed (fun ia => resp (S ia)) (pred na) (stepped (pred nl)) -
          superposed (fun ia => resp (S ia)) (pred na) base.
Proof.
  intros Env base stepped resp nl na P N. rewrite calc_grad_ok by exact P. cbv zeta.
  destruct na as [|n]; [lia|].
  assert (SH : forall e n k, tail_sum resp n (S k) e = tail_sum (fun ia => resp (S ia)) n k e).
  { clear. intros e n. unfold tail_sum. induction n; intros k; simpl; [reflexivity|]. rewrite <- IHn. reflexivity. }
  do 2 eexists. split; [|reflexivity]. f_equal. f_equal. f_equal.
  - cbn [pred]. unfold superposed at 1. simpl. fold (tail_sum resp n 1 base). rewrite !SH. unfold superposed, tail_sum. lia.
  - unfold differences. rewrite map_map. apply map_ext. intros k. cbn [pred].
    unfold superposed at 3. simpl. fold (tail_sum resp n 1 base). rewrite !SH. unfold superposed, tail_sum. lia.
Qed.
Print Assumptions C31_any_radii_error.

(* So with two radii they are not the finite differences. *)
Theorem C31_two_radii_refuted :
  exists (base : Z) (stepped : nat -> Z) (resp : nat -> Z -> Z) (nl : nat) d g e,
    (0 < nl)%nat /\ calc_grad base stepped resp nl 2 = Ok (d, g, e) /\
    d <> superposed resp 2 base /\ g <> differences base stepped resp nl 2.
Proof.
  exists 10, (fun k => 11 + Z.of_nat k), (fun ia e => 5 * Z.of_nat (S ia) * e), 3%nat.
  do 3 eexists. split; [lia|]. vm_compute. repeat split; congruence.
Qed.
(* ... and principle() is handed the stepped modulus of the last layer even with one. *)
Theorem C31_modulus_left_stepped :
  forall (Env : Type) (base : Env) (stepped : nat -> Env) (resp : nat -> Env -> Z) (nl na : nat),
  (0 < nl)%nat -> (0 < na)%nat ->
  exists d g, calc_grad base stepped resp nl na = Ok (d, g, stepped (pred nl)).
Proof.
  intros Env base stepped resp nl na P N. rewrite calc_grad_ok by exact P. cbv zeta.
  destruct na; [lia|]. eauto.
Qed.
