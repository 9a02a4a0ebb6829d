(* C88: the material and the stiffness matrix of an element. *)
From Coq Require Import List ZArith Bool Arith Lia Field QArith Qcanon.
From Verif Require Import Base LinBase SmatModel SmatProofs IncholModel IncholProofs PropsQr PcgModel PcgProofs BcModel BcProofs PropsBc ShapeModel PropsShape StiffModel StiffProofs.
Import ListNotations.
Local Open Scope nat_scope.

(* ---- specification ---- *)
Section Spec.
Context {K : ofield}.
Local Open Scope lin_scope.
Definition kron (i j : nat) : K := if Nat.eqb i j then f1 else f0.
Definition trace (F : nat -> nat -> K) : K := F 0 0 + F 1 1 + F 2 2.
(* the stress under the displacement gradient F *)
Definition stress (l m : K) (F : nat -> nat -> K) (i j : nat) : K := l * kron i j * trace F + m * (F i j + F j i).
(* a sample: the weight of a Gauss point, and the gradients of the shape functions there *)
Definition sample : Type := (K * list (v3 K))%type.
Definition grad (q : sample) (a k : nat) : K := gv (nth a (snd q) zerov) k.
(* the gradient of the displacements u there *)
Definition slope (nnd : nat) (q : sample) (u : nat -> nat -> K) (i j : nat) : K := sumr 0 nnd (fun a => grad q a i * u a j).
Definition rule : Type := ((K * K) * ((K * K) * (K * K)))%type.
Definition shapes : Type := bool -> K -> K -> K -> outcome (list K * list (v3 K)).
Definition at_point (sf : shapes) (im : bool) (p : rule) := sf im (fst (fst p)) (fst (fst (snd p))) (fst (snd (snd p))).
Definition wt (p : rule) : K := snd (fst p) * snd (fst (snd p)) * snd (snd (snd p)).
(* the Jacobian and the slopes used at point p *)
Definition data (inf : bool) (sf : shapes) (nnd : nat) (xe : list (v3 K)) (p : rule) (J : m3 K) (d : list (v3 K)) : Prop :=
  (exists N d0, at_point sf true p = Ok (N, d0) /\ length d0 = nnd /\ (forall i j, i < 3 -> j < 3 -> get3 J i j = sumr 0 nnd (fun k => gv (nth k d0 zerov) i * gv (nth k xe zerov) j)) /\
    (inf = false -> d = d0)) /\
  length d = nnd /\ (inf = true -> exists N, at_point sf false p = Ok (N, d)).
Definition taken (inf : bool) (sf : shapes) (nnd : nat) (xe : list (v3 K)) (p : rule) (q : sample) : Prop :=
  exists J d, data inf sf nnd xe p J d /\ det3 J <> f0 /\ fst q = wt p * det3 J /\ fltb f0 (fst q) = true /\ length (snd q) = nnd /\
    forall a, a < nnd -> solves J (nth a (snd q) zerov) (nth a d zerov).
Definition spoilt (eps : K) (inf : bool) (sf : shapes) (nnd : nat) (xe : list (v3 K)) (p : rule) : Prop :=
  exists J d, data inf sf nnd xe p J d /\ (tiny eps J = true \/ fle (wt p * det3 J) f0 = true).
(* the stiffness between two nodes, summed over the samples *)
Definition between (l m : K) (qs : list sample) (a b s t : nat) : K :=
  suml qs (fun q => fst q * (l * grad q a s * grad q b t + m * (kron s t * sumr 0 3 (fun k => grad q a k * grad q b k) + grad q a t * grad q b s))).
Definition force (e : felem K) (nnd : nat) (u : nat -> nat -> K) (a s : nat) : K := sumr 0 nnd (fun b => sumr 0 3 (fun t => coef e a b s t * u b t)).
Definition density (l m : K) (F : nat -> nat -> K) : K := sumr 0 3 (fun i => sumr 0 3 (fun j => stress l m F i j * F i j)).
End Spec.

Section Proofs.
Context {K : ofield}.
Local Open Scope lin_scope.
Add Field Kf73 : (f_th K).

Lemma case3 i : i < 3 -> i = 0 \/ i = 1 \/ i = 2.
Proof. lia. Qed.
Ltac all3 H := destruct (case3 _ H) as [->|[->| ->]].
Lemma two_nz : (f1 + f1 : K) <> f0.
Proof. exact (@nump_nz K 2). Qed.

Lemma lame (a : material K) : f1 + poi a <> f0 -> f1 - num 2 * poi a <> f0 ->
  lambda a = Ok (poi a * emod a / (f1 + poi a) / (f1 - num 2 * poi a)) /\ mu a = Ok (emod a / num 2 / (f1 + poi a)).
Proof. intros A B. unfold lambda, mu. rewrite !(divc_ok _ (f1 + poi a)) by auto. cbn [bind]. now rewrite divc_ok by auto. Qed.

(* Hooke's law: the stress is symmetric, it belongs to the strain, and turning gives no stress. *)
Theorem C88_hooke : forall (a : material K) e, f1 + poi a <> f0 -> f1 - num 2 * poi a <> f0 ->
  exists s, pointstress a e = Ok s /\
    (forall i j, i < 3 -> j < 3 -> get3 s i j = get3 s j i) /\
    ((forall i j, i < 3 -> j < 3 -> get3 e i j = get3 e j i) -> forall i j, i < 3 -> j < 3 ->
      emod a * get3 e i j = (f1 + poi a) * get3 s i j - poi a * kron i j * trace (get3 s)) /\
    ((forall i j, i < 3 -> j < 3 -> get3 e i j = - get3 e j i) -> forall i j, i < 3 -> j < 3 -> get3 s i j = f0).
Proof.
  intros [E v] e A B. cbn [poi emod] in *. unfold pointstress. destruct (lame (Mat E v) A B) as (-> & ->). cbn [bind poi emod]. set (l := _ / _ / _). set (m := E / _ / _).
  assert (HL : l * (f1 + v) * (f1 - num 2 * v) = v * E) by (subst l; cbn [num nump] in *; field; auto).
  assert (HM : num 2 * m * (f1 + v) = E) by (subst m; cbn [num nump] in *; field; split; auto; apply two_nz).
  clearbody l m.
  assert (S : forall i j, i < 3 -> j < 3 -> get3 (mulE l m e) i j = l * kron i j * trace (get3 e) + m * (get3 e i j + get3 e j i)).
  { intros i j I J. unfold mulE. rewrite get_gen by auto. rewrite three, !three. unfold tensor, delta, kron, trace. all3 I; all3 J; cbn [Nat.eqb]; ring. }
  exists (mulE l m e). split; [reflexivity|]. split; [|split].
  - intros i j I J. rewrite !S by auto. all3 I; all3 J; unfold kron; cbn [Nat.eqb]; ring.
  - intros Y i j I J. unfold trace. rewrite !S by lia.
    assert (HT : num 2 * m * v + num 2 * l * v = l).
    { assert (Q : (num 2 * m * v + num 2 * l * v - l) * ((f1 + v) * (f1 - num 2 * v)) = f0). { transitivity (num 2 * m * (f1 + v) * v * (f1 - num 2 * v) + (num 2 * v - f1) * (l * (f1 + v) * (f1 - num 2 * v))); [ring|]. rewrite HM, HL. cbn [num nump]. ring. }
      assert (Z : num 2 * m * v + num 2 * l * v - l = f0). { apply (f_equal (fun x => x / ((f1 + v) * (f1 - num 2 * v)))) in Q. transitivity ((num 2 * m * v + num 2 * l * v - l) * ((f1 + v) * (f1 - num 2 * v)) / ((f1 + v) * (f1 - num 2 * v))); [cbn [num nump] in *; field; auto|]. rewrite Q. cbn [num nump] in *. field; auto. }
      transitivity (num 2 * m * v + num 2 * l * v - l + l); [ring|]. rewrite Z. ring. }
    rewrite <- HM. unfold trace, kron. cbn [Nat.eqb]. rewrite (Y j i) by auto.
    transitivity ((f1 + v) * (num 2 * m * get3 e i j) + (l - (num 2 * m * v + num 2 * l * v)) * kron i j * trace (get3 e)); [rewrite HT; ring|].
    unfold kron, trace. destruct (Nat.eqb i j); cbn [num nump]; ring.
  - intros Y i j I J. rewrite S by auto. unfold trace. assert (D : forall k, k < 3 -> get3 e k k = f0).
    { intros k Kk. pose proof (Y k k Kk Kk) as Q. assert (Z : (f1 + f1) * get3 e k k = f0) by (transitivity (get3 e k k + get3 e k k); [ring|]; rewrite Q at 2; ring).
      transitivity ((f1 + f1) * get3 e k k / (f1 + f1)); [field; apply two_nz|]. rewrite Z. field. apply two_nz. }
    rewrite !D, (Y j i) by lia. ring.
Qed.

(* ---- the matrix ---- *)
Lemma part_tensor (l m : K) d gw a b s t : s < 3 -> t < 3 ->
  part (stiff l m) d gw a b s t = gw * (l * grad (gw, d) a s * grad (gw, d) b t + m * (kron s t * sumr 0 3 (fun k => grad (gw, d) a k * grad (gw, d) b k) + grad (gw, d) a t * grad (gw, d) b s)).
Proof.
  intros S3 T3. unfold part, stiff, grad. cbn [snd]. rewrite !three. rewrite !get_gen by lia. unfold tensor, delta, kron. all3 S3; all3 T3; cbn [Nat.eqb]; ring.
Qed.
Definition sf_ok (inf : bool) (sf : @shapes K) (nnd : nat) (p : @rule K) : Prop :=
  (exists N d, at_point sf true p = Ok (N, d) /\ length d = nnd) /\ (inf = true -> exists N d, at_point sf false p = Ok (N, d) /\ length d = nnd).
Lemma each_ext {X S} (l : list X) (f g : X -> S -> outcome S) s : (forall x s, f x s = g x s) -> each l f s = each l g s.
Proof. intros H. revert s. induction l as [|x l IH]; intros s; cbn [each]; auto. rewrite H. destruct (g x s); cbn [bind]; auto. Qed.
Definition one (eps : K) (E : nat -> nat -> m3 K) (inf : bool) (sf : @shapes K) (nnd : nat) (xe : list (v3 K)) (p : @rule K) (Ke : list (m3 K)) : outcome (list (m3 K)) :=
  let gw := wt p in
  let* (_, d) := at_point sf true p in
  let* J := jacobian nnd d xe in
  let* d := (if inf then let* (_, d) := at_point sf false p in Ok d else Ok d) in
  let* (det, d) := inv_mul_gauss eps nnd J d in
  let gw := gw * det in
  if fle gw f0 then Throw RuntimeError else addKe nnd E d gw Ke.
Lemma one_ok eps (l m : K) inf sf nnd xe p Ke C : fltb f0 eps = true -> length xe = nnd -> sf_ok inf sf nnd p -> khold nnd Ke C ->
  (one eps (stiff l m) inf sf nnd xe p Ke = Throw RuntimeError /\ spoilt eps inf sf nnd xe p) \/
  exists Ke' q, one eps (stiff l m) inf sf nnd xe p Ke = Ok Ke' /\ taken inf sf nnd xe p q /\ khold nnd Ke' (fun a b s t => C a b s t + between l m [q] a b s t).
Proof.
  intros P LX ((N & d0 & E0 & L0) & SI) H. unfold one. rewrite E0. cbn [bind]. destruct (jacobian_ok nnd d0 xe L0 LX) as (J & -> & HJ). cbn [bind].
  assert (D : exists d, (if inf then let* (_, d) := at_point sf false p in Ok d else Ok d0) = Ok d /\ data inf sf nnd xe p J d).
  { destruct inf.
    - destruct (SI eq_refl) as (N1 & d1 & E1 & L1). exists d1. rewrite E1. split; [reflexivity|]. split; [exists N, d0; repeat split; auto; discriminate|]. split; auto. intros _. now exists N1.
    - exists d0. split; [reflexivity|]. split; [exists N, d0; repeat split; auto|]. split; auto. discriminate. }
  destruct D as (d & -> & DA). cbn [bind]. assert (LD : length d = nnd) by (destruct DA as (_ & LD & _); exact LD). rewrite <- LD.
  destruct (gauss_ok eps J d P) as [(-> & T)|(T & g & -> & G)]; cbn [bind].
  - left. split; auto. exists J, d. rewrite LD. auto.
  - destruct (fle (wt p * det3 J) f0) eqn:F.
    + left. split; auto. exists J, d. rewrite LD. auto.
    + right. assert (W : fltb f0 (wt p * det3 J) = true). { unfold fltb. now rewrite F. }
      destruct (addKe_ok (length d) (stiff l m) (map g d) (wt p * det3 J) Ke C) as (Ke' & EK & HK); [apply map_length|now rewrite LD|].
      exists Ke', (wt p * det3 J, map g d). split; [exact EK|]. split.
      * exists J, d. rewrite LD. split; auto. cbn [fst snd]. split; [|repeat split; auto; [now rewrite map_length|]].
        { intros Z. rewrite Z in W. replace (wt p * f0) with (f0 : K) in W by ring. now rewrite fltb_irr in W. }
        intros a A. rewrite (nth_indep _ zerov (g zerov)) by (rewrite map_length; lia). rewrite map_nth. apply G.
      * eapply khold_ext; [exact HK|]. intros a b s t A B S3 T3. cbv beta. rewrite part_tensor by auto. unfold between. cbn [suml fst]. ring.
Qed.
Lemma all_ok eps (l m : K) inf sf nnd xe ps : fltb f0 eps = true -> length xe = nnd -> (forall p, In p ps -> sf_ok inf sf nnd p) -> forall Ke C, khold nnd Ke C ->
  (each ps (one eps (stiff l m) inf sf nnd xe) Ke = Throw RuntimeError /\ Exists (spoilt eps inf sf nnd xe) ps) \/
  exists Ke' qs, each ps (one eps (stiff l m) inf sf nnd xe) Ke = Ok Ke' /\ Forall2 (taken inf sf nnd xe) ps qs /\ khold nnd Ke' (fun a b s t => C a b s t + between l m qs a b s t).
Proof.
  intros P LX. induction ps as [|p ps IH]; intros SO Ke C H; cbn [each].
  - right. exists Ke, []. split; auto. split; auto. eapply khold_ext; [exact H|]. intros. unfold between. cbn [suml]. ring.
  - destruct (one_ok eps l m inf sf nnd xe p Ke C P LX (SO p (or_introl eq_refl)) H) as [(-> & S)|(K1 & q & -> & TK & H1)].
    + left. split; auto.
    + cbn [bind]. destruct (IH ltac:(intros; apply SO; now right) K1 _ H1) as [(-> & S)|(K2 & qs & -> & F & H2)].
      * left. split; auto.
      * right. exists K2, (q :: qs). split; auto. split; auto. eapply khold_ext; [exact H2|]. intros. unfold between. cbn [suml]. ring.
Qed.
Lemma T_def n : (T n = n * (n + 1) / 2)%nat.
Proof. reflexivity. Qed.

(* buildKe goes through all Gauss points and gives the integral, unless a pivot is small or the volume is not positive. *)
Theorem C88_stiffness : forall eps (a : material K) inf sf nnd xe gx gy gz, fltb f0 eps = true -> f1 + poi a <> f0 -> f1 - num 2 * poi a <> f0 ->
  length xe = nnd -> (forall p, In p (list_prod gx (list_prod gy gz)) -> sf_ok inf sf nnd p) ->
  exists l m, lambda a = Ok l /\ mu a = Ok m /\
  ((buildKe eps a inf sf nnd xe gx gy gz = Throw RuntimeError /\ Exists (spoilt eps inf sf nnd xe) (list_prod gx (list_prod gy gz))) \/
   exists Ke qs, buildKe eps a inf sf nnd xe gx gy gz = Ok Ke /\ Forall2 (taken inf sf nnd xe) (list_prod gx (list_prod gy gz)) qs /\
     length Ke = (nnd * (nnd + 1) / 2)%nat /\
     forall l2g i j s t, i < nnd -> j < nnd -> s < 3 -> t < 3 -> coef (El l2g Ke) i j s t = between l m qs i j s t).
Proof.
  intros eps a inf sf nnd xe gx gy gz P A B LX SO. destruct (lame a A B) as (EL & EM). eexists. eexists. split; [exact EL|]. split; [exact EM|].
  unfold buildKe, pointstiffness. rewrite EL, EM. cbn [bind]. set (l := _ / _ / _). set (m := emod a / _ / _).
  match goal with |- context [each gx ?f ?s] => assert (EQ : each gx f s = each (list_prod gx (list_prod gy gz)) (one eps (stiff l m) inf sf nnd xe) s) end.
  { rewrite <- (each_prod gx (list_prod gy gz) (fun x y => one eps (stiff l m) inf sf nnd xe (x, y))). apply each_ext. intros x s0. rewrite <- (each_prod gy gz (fun y z => one eps (stiff l m) inf sf nnd xe (x, (y, z)))). reflexivity. }
  rewrite !EQ. destruct (all_ok eps l m inf sf nnd xe _ P LX SO (repeat zero3 (nnd * (nnd + 1) / 2)) (fun _ _ _ _ => f0)) as [(E1 & S)|(Ke & qs & E1 & F & LK & H)].
  - split; [now rewrite repeat_length|]. intros i j s t I J S3 T3. assert (Z : forall n k, nth k (repeat (zero3 : m3 K) n) zero3 = zero3) by (induction n; destruct k; cbn; auto). rewrite Z. apply get_zero.
  - left. split; [exact E1|exact S].
  - right. exists Ke, qs. split; [exact E1|]. split; [exact F|]. split; [exact LK|]. intros l2g i j s t I J S3 T3.
    assert (SY : between l m qs j i t s = between l m qs i j s t).
    { unfold between. apply suml_ext. intros q _. rewrite !three. unfold kron. rewrite (Nat.eqb_sym t s). ring. }
    unfold coef. cbn [eke]. destruct (Nat.leb_spec i j) as [C|C].
    + change (j * (j + 1) / 2 + i)%nat with (kidx i j). rewrite H by auto. ring.
    + change (i * (i + 1) / 2 + j)%nat with (kidx j i). rewrite H by (auto; lia). rewrite <- SY. ring.
Qed.

(* inv_mul_gauss throws when a pivot is small, and otherwise gives the determinant and the solutions. *)
Theorem C88_gauss : forall (eps : K) (J : m3 K) B, fltb f0 eps = true ->
  (tiny eps J = true /\ inv_mul_gauss eps (length B) J B = Throw RuntimeError) \/
  (tiny eps J = false /\ exists B', inv_mul_gauss eps (length B) J B = Ok (det3 J, B') /\ length B' = length B /\
     forall a, a < length B -> solves J (nth a B' zerov) (nth a B zerov)).
Proof.
  intros eps J B P. destruct (gauss_ok eps J B P) as [(E & T)|(T & g & E & G)]; [left; auto|right; split; auto].
  exists (map g B). split; auto. split; [apply map_length|]. intros a A. rewrite (nth_indep _ zerov (g zerov)) by (rewrite map_length; lia). rewrite map_nth. apply G.
Qed.

(* ---- what the matrix does ---- *)
Definition stands_for (l m : K) (nnd : nat) (e : felem K) (qs : list (@sample K)) : Prop :=
  forall i j s t, i < nnd -> j < nnd -> s < 3 -> t < 3 -> coef e i j s t = between l m qs i j s t.
Theorem C88_symmetric : forall l m nnd e qs i j s t, stands_for l m nnd e qs -> i < nnd -> j < nnd -> s < 3 -> t < 3 -> coef e i j s t = coef e j i t s.
Proof.
  intros l m nnd e qs i j s t H I J S3 T3. rewrite !H by auto. unfold between. apply suml_ext. intros q _. rewrite !three. unfold kron. rewrite (Nat.eqb_sym t s). ring.
Qed.
Lemma suml_scale {X} (l : list X) c (f : X -> K) : suml l (fun x => f x * c) = suml l f * c.
Proof. induction l as [|x l IH]; cbn [suml]; [ring|]. rewrite IH. ring. Qed.
Lemma suml_sumr {X} (l : list X) lo hi (f : nat -> X -> K) : sumr lo hi (fun k => suml l (f k)) = suml l (fun x => sumr lo hi (fun k => f k x)).
Proof. induction l as [|x l IH]; cbn [suml]; [now apply sumr_zero|]. rewrite sumr_add, IH. reflexivity. Qed.
Lemma force_point (l m : K) (ga : nat -> K) (g u : nat -> nat -> K) w s n : s < 3 ->
  sumr 0 n (fun b => sumr 0 3 (fun t => w * (l * ga s * g b t + m * (kron s t * sumr 0 3 (fun k => ga k * g b k) + ga t * g b s)) * u b t)) =
  w * sumr 0 3 (fun k => stress l m (fun i j => sumr 0 n (fun b => g b i * u b j)) s k * ga k).
Proof.
  intros S3. induction n as [|n IH].
  - rewrite sumr_nil by lia. rewrite three. unfold stress, trace. rewrite !(sumr_nil 0 0) by lia. ring.
  - rewrite (sumr_S 0 n) by lia. rewrite IH. rewrite !three. unfold stress, trace. rewrite !(sumr_S 0 n) by lia. unfold kron. all3 S3; cbn [Nat.eqb]; ring.
Qed.
(* The force on a node is the stress at the Gauss points, weighed by the gradient of its shape function. *)
Theorem C88_force : forall l m nnd e qs u a s, stands_for l m nnd e qs -> a < nnd -> s < 3 ->
  force e nnd u a s = suml qs (fun q => fst q * sumr 0 3 (fun k => stress l m (slope nnd q u) s k * grad q a k)).
Proof.
  intros l m nnd e qs u a s H A S3. unfold force.
  transitivity (sumr 0 nnd (fun b => sumr 0 3 (fun t => suml qs (fun q => fst q * (l * grad q a s * grad q b t + m * (kron s t * sumr 0 3 (fun k => grad q a k * grad q b k) + grad q a t * grad q b s)) * u b t)))).
  - apply sumr_ext. intros b B. apply sumr_ext. intros t T3. rewrite H by (auto; lia). unfold between. now rewrite <- suml_scale.
  - transitivity (sumr 0 nnd (fun b => suml qs (fun q => sumr 0 3 (fun t => fst q * (l * grad q a s * grad q b t + m * (kron s t * sumr 0 3 (fun k => grad q a k * grad q b k) + grad q a t * grad q b s)) * u b t)))).
    { apply sumr_ext. intros b B. apply suml_sumr. }
    rewrite suml_sumr. apply suml_ext. intros q _. now apply force_point.
Qed.
(* The work done in an element is the work of the stresses. *)
Lemma work_point (S : nat -> nat -> K) (g u : nat -> nat -> K) w n :
  sumr 0 n (fun a => sumr 0 3 (fun s => u a s * (w * sumr 0 3 (fun k => S s k * g a k)))) = w * sumr 0 3 (fun s => sumr 0 3 (fun k => S s k * sumr 0 n (fun a => g a k * u a s))).
Proof.
  induction n as [|n IH].
  - rewrite sumr_nil by lia. rewrite !three. rewrite !(sumr_nil 0 0) by lia. ring.
  - rewrite (sumr_S 0 n) by lia. rewrite IH. rewrite !three. rewrite !(sumr_S 0 n) by lia. ring.
Qed.
Lemma stress_sym (l m : K) F s k : stress l m F s k = stress l m F k s.
Proof. unfold stress, kron. rewrite (Nat.eqb_sym k s). ring. Qed.
Theorem C88_energy : forall l m nnd e qs u, stands_for l m nnd e qs ->
  sumr 0 nnd (fun a => sumr 0 3 (fun s => u a s * force e nnd u a s)) = suml qs (fun q => fst q * density l m (slope nnd q u)).
Proof.
  intros l m nnd e qs u H.
  transitivity (sumr 0 nnd (fun a => suml qs (fun q => sumr 0 3 (fun s => u a s * (fst q * sumr 0 3 (fun k => stress l m (slope nnd q u) s k * grad q a k)))))).
  - apply sumr_ext. intros a A. rewrite <- suml_sumr. apply sumr_ext. intros s S3. rewrite (C88_force l m nnd e qs u a s) by (auto; lia).
    transitivity (suml qs (fun q => fst q * sumr 0 3 (fun k => stress l m (slope nnd q u) s k * grad q a k)) * u a s); [ring|]. rewrite <- suml_scale. apply suml_ext. intros q _. ring.
  - rewrite suml_sumr. apply suml_ext. intros q _. rewrite work_point. f_equal. unfold density. rewrite sumr_swap. apply sumr_ext. intros i I. apply sumr_ext. intros j J. rewrite stress_sym. reflexivity.
Qed.
Lemma mul_nonneg (x y : K) : fle f0 x = true -> fle f0 y = true -> fle f0 (x * y) = true.
Proof. apply fle_mul. Qed.
Lemma density_parts (l m : K) F : num 3 * density l m F =
  (num 3 * l + num 2 * m) * (trace F * trace F)
  + num 2 * m * ((F 0 0 - F 1 1) * (F 0 0 - F 1 1) + (F 1 1 - F 2 2) * (F 1 1 - F 2 2) + (F 0 0 - F 2 2) * (F 0 0 - F 2 2))
  + num 3 * m * ((F 0 1 + F 1 0) * (F 0 1 + F 1 0) + (F 0 2 + F 2 0) * (F 0 2 + F 2 0) + (F 1 2 + F 2 1) * (F 1 2 + F 2 1)).
Proof. unfold density. rewrite !three. unfold stress, kron, trace. cbn [Nat.eqb num nump]. ring. Qed.

Lemma nn_add (x y : K) : fle f0 x = true -> fle f0 y = true -> fle f0 (x + y) = true.
Proof.
  intros A B. apply (fle_trans K _ y); auto. apply fle_sub. now replace (x + y - y) with x by ring.
Qed.
Lemma nn_zero (x y : K) : fle f0 x = true -> fle f0 y = true -> x + y = f0 -> x = f0 /\ y = f0.
Proof.
  intros A B E. assert (X : x = f0). { apply fle_antisym; auto. apply fle_sub. replace (f0 - x) with y; auto. transitivity (x + y - x); [ring|]. rewrite E. ring. }
  split; auto. subst. transitivity (f0 + y); [ring|auto].
Qed.
Lemma pos_nn (x : K) : fltb f0 x = true -> fle f0 x = true.
Proof. intros A. now apply fltb_spec in A. Qed.
Lemma pos_nz (x : K) : fltb f0 x = true -> x <> f0.
Proof. intros A E. apply fltb_spec in A as (_ & A). now apply A. Qed.
Lemma mul_zero (c x : K) : c <> f0 -> c * x = f0 -> x = f0.
Proof. intros N E. transitivity (c * x / c); [field; auto|]. rewrite E. field; auto. Qed.
Definition unstrained (F : nat -> nat -> K) : Prop := forall i j, i < 3 -> j < 3 -> F i j + F j i = f0.
Lemma density_sign (l m : K) F : fltb f0 m = true -> fltb f0 (num 3 * l + num 2 * m) = true ->
  fle f0 (density l m F) = true /\ (density l m F = f0 <-> unstrained F).
Proof.
  intros M B. pose proof (density_parts l m F) as E. set (A := (num 3 * l + num 2 * m) * (trace F * trace F)) in E.
  set (A1 := num 2 * m * _) in E. set (A2 := num 3 * m * _) in E.
  assert (N3 : fltb f0 (@num K 3) = true) by apply (pos_num 3). assert (N2 : fltb f0 (@num K 2) = true) by apply (pos_num 2).
  assert (P0 : fle f0 A = true) by (apply mul_nonneg; [now apply pos_nn|apply fsqr_nonneg]).
  assert (P1 : fle f0 A1 = true) by (apply mul_nonneg; [apply pos_nn; now apply pos_mul|]; repeat apply nn_add; apply fsqr_nonneg).
  assert (P2 : fle f0 A2 = true) by (apply mul_nonneg; [apply pos_nn; now apply pos_mul|]; repeat apply nn_add; apply fsqr_nonneg).
  assert (P : fle f0 (num 3 * density l m F) = true) by (rewrite E; now repeat apply nn_add).
  assert (Q : density l m F = num 3 * density l m F * (f1 / num 3)) by (field; exact (nump_nz 3)).
  split.
  - rewrite Q. apply mul_nonneg; auto. apply pos_nn. apply pos_div; auto. apply pos1.
  - split.
    + intros Z. rewrite Z in E. replace (num 3 * f0) with (f0 : K) in E by ring. symmetry in E. apply nn_zero in E as (E & E2); auto; [|now apply nn_add]. apply nn_zero in E as (E0 & E1); auto.
      apply mul_zero in E0; [|now apply pos_nz]. apply fsqr_0 in E0.
      apply mul_zero in E1; [|apply pos_nz; now apply pos_mul]. apply mul_zero in E2; [|apply pos_nz; now apply pos_mul].
      apply nn_zero in E1 as (E1 & E12); try (repeat apply nn_add; apply fsqr_nonneg). apply nn_zero in E1 as (E10 & E11); try apply fsqr_nonneg.
      apply nn_zero in E2 as (E2 & E22); try (repeat apply nn_add; apply fsqr_nonneg). apply nn_zero in E2 as (E20 & E21); try apply fsqr_nonneg.
      apply fsqr_0 in E10, E11, E12, E20, E21, E22. unfold trace in E0.
      assert (D1 : F 1 1 = F 0 0) by (transitivity (F 0 0 - (F 0 0 - F 1 1)); [ring|]; rewrite E10; ring).
      assert (D2 : F 2 2 = F 0 0) by (transitivity (F 0 0 - (F 0 0 - F 2 2)); [ring|]; rewrite E12; ring).
      assert (D0 : F 0 0 = f0). { rewrite D1, D2 in E0. apply (mul_zero (num 3)); [exact (nump_nz 3)|]. rewrite <- E0. cbn [num nump]. ring. }
      intros i j I J. all3 I; all3 J; rewrite ?D1, ?D2, ?D0; auto; try ring.
      * rewrite <- E20. ring. * rewrite <- E21. ring. * rewrite <- E22. ring.
    + intros U. apply (mul_zero (num 3)); [exact (nump_nz 3)|]. rewrite E. unfold A, A1, A2. rewrite !U by lia.
      assert (D : forall k, k < 3 -> F k k = f0) by (intros k Kk; apply (mul_zero (num 2)); [exact (nump_nz 2)|]; rewrite <- (U k k) by auto; cbn [num nump]; ring).
      unfold trace. rewrite !D by lia. ring.
Qed.
(* A material with a positive modulus and a Poisson's ratio between -1 and 1/2 resists. *)
Theorem C88_material : forall a : material K, fltb f0 (emod a) = true -> fltb (- f1) (poi a) = true -> fltb (num 2 * poi a) f1 = true ->
  f1 + poi a <> f0 /\ f1 - num 2 * poi a <> f0 /\ exists l m, lambda a = Ok l /\ mu a = Ok m /\ fltb f0 m = true /\ fltb f0 (num 3 * l + num 2 * m) = true.
Proof.
  intros a E V1 V2.
  assert (S : forall x y : K, fltb x y = true -> fltb f0 (y - x) = true). { intros x y H. apply fltb_spec in H as (H & N). apply fltb_spec. split; [now apply fle_sub in H|]. intros Z. apply N. transitivity (y - (y - x)); [ring|]. rewrite <- Z. ring. }
  assert (A : fltb f0 (f1 + poi a) = true) by (replace (f1 + poi a) with (poi a - - f1) by ring; now apply S).
  apply S in V2. pose proof (pos_nz _ A) as A'. pose proof (pos_nz _ V2) as B'. split; auto. split; auto.
  destruct (lame a A' B') as (EL & EM). eexists. eexists. split; [exact EL|]. split; [exact EM|]. split.
  - apply pos_div; auto. apply pos_div; auto. apply (pos_num 2).
  - match goal with |- fltb f0 ?x = true => replace x with (emod a / (f1 - num 2 * poi a)) end; [now apply pos_div|]. cbn [num nump] in *. field. repeat split; auto. apply two_nz.
Qed.
(* The element never gives energy back, and takes none only if no Gauss point is strained. *)
Theorem C88_firm : forall l m nnd e qs u, stands_for l m nnd e qs -> (forall q, In q qs -> fltb f0 (fst q) = true) -> fltb f0 m = true -> fltb f0 (num 3 * l + num 2 * m) = true ->
  let w := sumr 0 nnd (fun a => sumr 0 3 (fun s => u a s * force e nnd u a s)) in
  fle f0 w = true /\ (w = f0 <-> forall q, In q qs -> unstrained (slope nnd q u)).
Proof.
  intros l m nnd e qs u H W M B. cbv zeta. rewrite (C88_energy l m nnd e qs u H). clear H. induction qs as [|q qs IH]; cbn [suml].
  - split; [apply fle_refl|]. split; auto. intros _ q [].
  - destruct IH as (I1 & I2); [intros; apply W; now right|]. destruct (density_sign l m (slope nnd q u) M B) as (D1 & D2).
    pose proof (W q (or_introl eq_refl)) as Wq. assert (P : fle f0 (fst q * density l m (slope nnd q u)) = true) by (apply mul_nonneg; auto; now apply pos_nn).
    split; [now apply nn_add|]. split.
    + intros Z. apply nn_zero in Z as (Z1 & Z2); auto. apply mul_zero in Z1; [|now apply pos_nz]. intros q' [<-|I']; [now apply D2|]. now apply I2.
    + intros U. rewrite (proj2 D2) by (apply U; now left). rewrite (proj2 I2) by (intros; apply U; now right). ring.
Qed.
(* So does a mesh of such elements. *)
Definition resists (mm : nat) (e : felem K) : Prop :=
  Forall (fun g => g < mm) (el2g e) /\ exists l m qs, stands_for l m (length (el2g e)) e qs /\ (forall q, In q qs -> fltb f0 (fst q) = true) /\ fltb f0 m = true /\ fltb f0 (num 3 * l + num 2 * m) = true.
Lemma pull_work mm e (x : nat -> nat -> K) : Forall (fun g => g < mm) (el2g e) ->
  sumr 0 mm (fun g => sumr 0 3 (fun s => x g s * pull x g s e)) =
  sumr 0 (length (el2g e)) (fun a => sumr 0 3 (fun s => x (nth a (el2g e) 0%nat) s * force e (length (el2g e)) (fun b => x (nth b (el2g e) 0%nat)) a s)).
Proof.
  intros F. rewrite sumr_swap. rewrite (sumr_swap 0 (length (el2g e))). apply sumr_ext. intros s S3.
  transitivity (sumr 0 mm (fun g => sumr 0 (length (el2g e)) (fun a => if Nat.eqb g (nth a (el2g e) 0%nat) then x g s * force e (length (el2g e)) (fun b => x (nth b (el2g e) 0%nat)) a s else f0))).
  - apply sumr_ext. intros g G. unfold pull. rewrite <- sumr_scale. apply sumr_ext. intros a A. destruct (Nat.eqb g _); [reflexivity|ring].
  - rewrite sumr_swap. apply sumr_ext. intros a A. assert (L : nth a (el2g e) 0%nat < mm) by (rewrite Forall_forall in F; apply F; apply nth_In; lia).
    rewrite (sumr_one 0 mm _ (nth a (el2g e) 0%nat)); [now rewrite Nat.eqb_refl|lia|]. intros k Kk NE. destruct (Nat.eqb_spec k (nth a (el2g e) 0%nat)); congruence.
Qed.
Theorem C88_mesh : forall mm es (x : nat -> nat -> K), Forall (resists mm) es -> fle f0 (sumr 0 mm (fun g => sumr 0 3 (fun s => x g s * nodal es x g s))) = true.
Proof.
  intros mm es x F. induction F as [|e es (N & l & m & qs & H & W & M & B) F IH]; cbn [nodal fold_right].
  - apply sumr_nonneg. intros. apply sumr_nonneg. intros. replace (x k k0 * f0) with (f0 : K) by ring. apply fle_refl.
  - fold (nodal es x). rewrite (sumr_ext 0 mm _ (fun g => sumr 0 3 (fun s => x g s * pull x g s e) + sumr 0 3 (fun s => x g s * nodal es x g s))).
    + rewrite sumr_add. apply nn_add; auto. rewrite pull_work by auto. now apply (C88_firm l m _ e qs).
    + intros g G. rewrite <- sumr_add. apply sumr_ext. intros s S3. unfold nodal. cbn [fold_right]. ring.
Qed.

(* ---- the patch test ---- *)
Lemma cancel (J : m3 K) (y z : nat -> K) : det3 J <> f0 -> (forall i, i < 3 -> sumr 0 3 (fun j => get3 J i j * y j) = sumr 0 3 (fun j => get3 J i j * z j)) -> forall k, k < 3 -> y k = z k.
Proof.
  intros D H. pose proof (H 0 ltac:(lia)) as H0. pose proof (H 1 ltac:(lia)) as H1. pose proof (H 2 ltac:(lia)) as H2. rewrite !three in H0, H1, H2.
  assert (Z : forall a b : K, a = b -> a - b = f0) by (intros a b ->; ring). apply Z in H0, H1, H2. clear H.
  set (a := get3 J 0 0) in *. set (b := get3 J 0 1) in *. set (c := get3 J 0 2) in *. set (d := get3 J 1 0) in *. set (e := get3 J 1 1) in *. set (f := get3 J 1 2) in *. set (g := get3 J 2 0) in *. set (h := get3 J 2 1) in *. set (i := get3 J 2 2) in *.
  assert (E : forall k, k < 3 -> det3 J * (y k - z k) = f0).
  { intros k Kk. unfold det3. fold a b c d e f g h i.
    match type of H0 with ?r0 = f0 => match type of H1 with ?r1 = f0 => match type of H2 with ?r2 = f0 => all3 Kk;
      [transitivity (r0 * (e * i - f * h) - r1 * (b * i - c * h) + r2 * (b * f - c * e))
      |transitivity (- (r0 * (d * i - f * g)) + r1 * (a * i - c * g) - r2 * (a * f - c * d))
      |transitivity (r0 * (d * h - e * g) - r1 * (a * h - b * g) + r2 * (a * e - b * d))]; try ring; rewrite H0, H1, H2; ring end end end. }
  intros k Kk. apply sub_eq. apply (mul_zero (det3 J)); auto.
Qed.
Definition level (sf : @shapes K) (nnd : nat) (p : @rule K) : Prop :=
  forall N d, at_point sf true p = Ok (N, d) -> forall i, i < 3 -> sumr 0 nnd (fun a => gv (nth a d zerov) i) = f0.
(* A uniform gradient of the displacements is found exactly at every Gauss point. *)
Theorem C88_patch : forall sf nnd xe p q (F : nat -> nat -> K) (c : nat -> K) i j, taken false sf nnd xe p q -> level sf nnd p -> i < 3 -> j < 3 ->
  slope nnd q (fun b t => c t + sumr 0 3 (fun k => gv (nth b xe zerov) k * F k t)) i j = F i j.
Proof.
  intros sf nnd xe p q F c i j (J & d & ((N & d0 & E0 & L0 & HJ & ED) & LD & _) & DN & _ & _ & LQ & SOL) LV I Jj. rewrite (ED eq_refl) in SOL. clear ED. specialize (LV N d0 E0).
  assert (X : forall r k, r < 3 -> k < 3 -> sumr 0 nnd (fun a => grad q a r * gv (nth a xe zerov) k) = kron r k).
  { intros r k R Kk. revert r R. apply (cancel J (fun r => sumr 0 nnd (fun a => grad q a r * gv (nth a xe zerov) k)) (fun r => kron r k) DN). intros r R.
    transitivity (get3 J r k); [|rewrite three; unfold kron; all3 Kk; cbn [Nat.eqb]; ring]. rewrite HJ by auto.
    transitivity (sumr 0 3 (fun j0 => sumr 0 nnd (fun a => get3 J r j0 * grad q a j0 * gv (nth a xe zerov) k))).
    { apply sumr_ext. intros. rewrite <- sumr_scale. apply sumr_ext. intros. ring. }
    rewrite sumr_swap. apply sumr_ext. intros a A. rewrite sumr_scale_r. f_equal. now apply SOL. }
  assert (Y : forall r, r < 3 -> sumr 0 nnd (fun a => grad q a r) = f0).
  { apply (cancel J (fun r => sumr 0 nnd (fun a => grad q a r)) (fun r => f0) DN). intros r R.
    transitivity (f0 : K); [|rewrite three; ring]. rewrite <- (LV r R).
    transitivity (sumr 0 3 (fun j0 => sumr 0 nnd (fun a => get3 J r j0 * grad q a j0))). { apply sumr_ext. intros. now rewrite <- sumr_scale. }
    rewrite sumr_swap. apply sumr_ext. intros a A. now apply SOL. }
  unfold slope. transitivity (sumr 0 nnd (fun a => grad q a i) * c j + sumr 0 3 (fun k => sumr 0 nnd (fun a => grad q a i * gv (nth a xe zerov) k) * F k j)).
  - rewrite <- sumr_scale_r. rewrite (sumr_ext 0 3 _ (fun k => sumr 0 nnd (fun a => grad q a i * gv (nth a xe zerov) k * F k j))) by (intros; now rewrite sumr_scale_r).
    rewrite sumr_swap, <- sumr_add. apply sumr_ext. intros a A. rewrite !three. ring.
  - rewrite Y by auto. rewrite three, !X by lia. unfold kron. all3 I; cbn [Nat.eqb]; ring.
Qed.
(* A rigid motion, a shift and a small turn, puts no force on any node. *)
Theorem C88_rigid : forall l m nnd e qs sf xe ps (F : nat -> nat -> K) c a s, stands_for l m nnd e qs -> Forall2 (taken false sf nnd xe) ps qs -> Forall (level sf nnd) ps ->
  (forall i j, F i j = - F j i) -> a < nnd -> s < 3 ->
  force e nnd (fun b t => c t + sumr 0 3 (fun k => gv (nth b xe zerov) k * F k t)) a s = f0.
Proof.
  intros l m nnd e qs sf xe ps F c a s H TK LV AS A S3. rewrite (C88_force l m nnd e qs) by auto. clear H. induction TK as [|p q ps qs T1 TK IH]; cbn [suml]; [reflexivity|].
  inversion LV as [|p' ps' L1 LV']; subst. rewrite IH by auto.
  assert (D : forall k, F k k = f0). { intros k. apply (mul_zero (num 2)); [exact (nump_nz 2)|]. transitivity (F k k + F k k); [cbn [num nump]; ring|]. rewrite (AS k k) at 2. ring. }
  assert (Z : forall k, k < 3 -> stress l m (slope nnd q (fun b t => c t + sumr 0 3 (fun k => gv (nth b xe zerov) k * F k t))) s k = f0).
  { intros k Kk. unfold stress, trace. rewrite !(C88_patch sf nnd xe p q F c) by (auto; lia). rewrite !D, (AS k s). ring. }
  rewrite three, !Z by lia. ring.
Qed.

(* ---- straight blocks ---- *)
Ltac nz := first [assumption | match goal with |- ?e <> _ => first
  [ exact (nump_nz 1) | exact (nump_nz 2) | exact (nump_nz 4) | exact (nump_nz 8) | exact (nump_nz 3) | exact (nump_nz 5) | exact (nump_nz 6) | exact (nump_nz 7) | exact (nump_nz 25) | exact (nump_nz 30) | exact (nump_nz 12) | exact (nump_nz 18) | exact (nump_nz 45) | exact (nump_nz 10) | exact (nump_nz 15) | exact (nump_nz 150) | exact (nump_nz 36) | exact (nump_nz 9) | exact (nump_nz 16) | exact (nump_nz 35) | exact (nump_nz 36) | exact (nump_nz 525) | exact (nump_nz 1225) | exact (nump_nz 44100) | exact (nump_nz 1500625) | exact (nump_nz 54022500) | exact (nump_nz 1838265625) | exact (nump_nz 66177562500) ] end].
Ltac fld := cbn [num nump]; field; repeat split; nz.
Ltac open_shape := cbn [getn getN getdN]; unfold Npi, dNpi, Nni, dNni, N_2, dN_2, N_A, dN_A, N_3, dN_3, N_4, dN_4, spot; cbn [getn getN getdN value Nat.add]; unfold bad, half, sixteenth.
(* how far the mapping of a shape is stretched at r *)
Definition stretch (s : shape) (r : K) : K := sumr 0 (getn s) (fun n => @spot K s n * value (getdN s n r true)).
Lemma stretch_is s (r : K) : at_ease s true r -> stretch s r = match s with InfPos => num 2 / ((f1 - r) * (f1 - r)) | InfNeg => num 2 / ((f1 + r) * (f1 + r)) | _ => f1 end.
Proof.
  intros A. unfold stretch. destruct s; cbn [getn].
  - rewrite !two. open_shape. fld.
  - rewrite !three. open_shape. fld.
  - rewrite !four. open_shape. fld.
  - rewrite !three. open_shape. destruct (sgn3 r) as [(A1 & A2 & _)|[(A1 & A2 & _)| ->]]; [rewrite ?A1, ?A2; ring|rewrite ?A1, ?A2; ring|]. rewrite fltb_irr. fld.
  - pose proof (ease_pos r A). rewrite !two. cbn [getdN spot]. unfold dMpi. rewrite !value_div by auto using fmul_nz. fld.
  - pose proof (ease_neg r A). rewrite !two. cbn [getdN spot]. unfold dMni. rewrite !value_div by auto using fmul_nz. fld.
Qed.
Lemma stretch_pos s (r : K) : at_ease s true r -> fltb f0 (stretch s r) = true.
Proof.
  intros A. rewrite stretch_is by auto. assert (SQ : forall x : K, x <> f0 -> fltb f0 (x * x) = true). { intros x N. apply fltb_spec. split; [apply fsqr_nonneg|]. intros E. apply N. now apply fsqr_0. }
  destruct s; try apply pos1; apply pos_div; try apply (pos_num 2); apply SQ; [now apply ease_pos|now apply ease_neg].
Qed.
Definition block_sf (sz sx sy : shape) : @shapes K := fun im x y z =>
  buildSF_block sz sx sy im x y z (repeat f0 (getn sz * getn sx * getn sy), repeat zerov (getn sz * getn sx * getn sy)).
(* the nodes of a block with its middle at c and half its size h *)
Definition straight (sz sx sy : shape) (c h : nat -> K) (xe : list (v3 K)) : Prop :=
  length xe = (getn sz * getn sx * getn sy)%nat /\
  forall i j k, i < getn sz -> j < getn sx -> k < getn sy -> nth (at3 (getn sy) (getn sx) i j k) xe zerov = V3 (c 0 + h 0 * spot sx j) (c 1 + h 1 * spot sy k) (c 2 + h 2 * spot sz i).
Section Box.
Variables (sz sx sy : shape) (c h : nat -> K) (xe : list (v3 K)) (p : @rule K).
Hypothesis ST : straight sz sx sy c h xe.
Hypothesis Ex : at_ease sx true (fst (fst p)).
Hypothesis Ey : at_ease sy true (fst (fst (snd p))).
Hypothesis Ez : at_ease sz true (fst (snd (snd p))).
Let nnd := (getn sz * getn sx * getn sy)%nat.
Lemma box_jac : exists N d, at_point (block_sf sz sx sy) true p = Ok (N, d) /\ length d = nnd /\ (forall i, i < 3 -> sumr 0 nnd (fun a => gv (nth a d zerov) i) = f0) /\
  forall i j, i < 3 -> j < 3 -> sumr 0 nnd (fun k => gv (nth k d zerov) i * gv (nth k xe zerov) j) =
    if Nat.eqb i j then h i * (match i with 0 => stretch sx (fst (fst p)) | 1 => stretch sy (fst (fst (snd p))) | _ => stretch sz (fst (snd (snd p))) end) else f0.
Proof.
  set (gx := fst (fst p)) in *. set (gy := fst (fst (snd p))) in *. set (gz := fst (snd (snd p))) in *.
  destruct (C87_block sz sx sy true gx gy gz (repeat f0 nnd) (repeat zerov nnd) Ex Ey Ez) as (N & d & E & L1 & L2 & H & Z); try apply repeat_length.
  rewrite repeat_length in L1, L2. exists N, d. split; [exact E|]. split; [exact L2|]. destruct (Z (or_intror eq_refl)) as (_ & Z0). split; [intros i I; rewrite <- L2; apply Z0|].
  assert (Ux : finite sx \/ true = true) by auto. assert (Uy : finite sy \/ true = true) by auto. assert (Uz : finite sz \/ true = true) by auto.
  destruct (C87_unity sx gx true Ux Ex) as (X1 & X0). destruct (C87_unity sy gy true Uy Ey) as (Y1 & Y0). destruct (C87_unity sz gz true Uz Ez) as (Z1 & Z0').
  set (X := fun j => value (getN sx j gx true)) in *. set (Y := fun k => value (getN sy k gy true)) in *. set (W := fun i => value (getN sz i gz true)) in *.
  set (dX := fun j => value (getdN sx j gx true)) in *. set (dY := fun k => value (getdN sy k gy true)) in *. set (dW := fun i => value (getdN sz i gz true)) in *.
  assert (G : forall l, l < nnd -> let i := (l / getn sy / getn sx)%nat in let j := ((l / getn sy) mod getn sx)%nat in let k := (l mod getn sy)%nat in
     nth l d zerov = V3 (dX j * Y k * W i) (X j * dY k * W i) (X j * Y k * dW i) /\ nth l xe zerov = V3 (c 0 + h 0 * spot sx j) (c 1 + h 1 * spot sy k) (c 2 + h 2 * spot sz i)).
  { intros l L. cbv zeta. assert (getn sy <> 0%nat /\ getn sx <> 0%nat) as (Ny & Nx) by (destruct sx, sy; cbn; lia).
    assert (I : (l / getn sy / getn sx < getn sz)%nat) by (apply Nat.div_lt_upper_bound; auto; apply Nat.div_lt_upper_bound; auto; unfold nnd in L; lia).
    assert (J : ((l / getn sy) mod getn sx < getn sx)%nat) by (apply Nat.mod_upper_bound; auto). assert (Kk : (l mod getn sy < getn sy)%nat) by (apply Nat.mod_upper_bound; auto).
    assert (EQ : l = at3 (getn sy) (getn sx) (l / getn sy / getn sx) ((l / getn sy) mod getn sx) (l mod getn sy)). { unfold at3. pose proof (Nat.div_mod l (getn sy) Ny). pose proof (Nat.div_mod (l / getn sy) (getn sx) Nx). nia. }
    split; [rewrite EQ at 1; now destruct (H _ _ _ I J Kk) as (_ & ->)|]. destruct ST as (_ & ST'). rewrite EQ at 1. now apply ST'. }
  assert (SP : forall s f x0 (h0 : K), sumr 0 (getn s) f = f0 -> sumr 0 (getn s) (fun n => f n * (x0 + h0 * spot s n)) = h0 * sumr 0 (getn s) (fun n => spot s n * f n)).
  { intros s f x0 h0 F0. transitivity (sumr 0 (getn s) f * x0 + h0 * sumr 0 (getn s) (fun n => spot s n * f n)); [|rewrite F0; ring]. rewrite <- sumr_scale_r, <- sumr_scale, <- sumr_add. apply sumr_ext. intros. ring. }
  intros i j I J.
  assert (GO : forall f g k, (forall l, l < nnd -> gv (nth l d zerov) i * gv (nth l xe zerov) j = f ((l / getn sy) mod getn sx)%nat * g (l mod getn sy)%nat * k (l / getn sy / getn sx)%nat) ->
     sumr 0 nnd (fun l => gv (nth l d zerov) i * gv (nth l xe zerov) j) = sumr 0 (getn sx) f * sumr 0 (getn sy) g * sumr 0 (getn sz) k).
  { intros f g k Q. rewrite <- sum_product. apply sumr_ext. intros l L. apply Q. lia. }
  unfold stretch. fold dX dY dW.
  all3 I; all3 J; cbn [Nat.eqb];
  [rewrite (GO (fun j => dX j * (c 0 + h 0 * spot sx j)) Y W)|rewrite (GO dX (fun k => Y k * (c 1 + h 1 * spot sy k)) W)|rewrite (GO dX Y (fun i => W i * (c 2 + h 2 * spot sz i)))
  |rewrite (GO (fun j => X j * (c 0 + h 0 * spot sx j)) dY W)|rewrite (GO X (fun k => dY k * (c 1 + h 1 * spot sy k)) W)|rewrite (GO X dY (fun i => W i * (c 2 + h 2 * spot sz i)))
  |rewrite (GO (fun j => X j * (c 0 + h 0 * spot sx j)) Y dW)|rewrite (GO X (fun k => Y k * (c 1 + h 1 * spot sy k)) dW)|rewrite (GO X Y (fun i => dW i * (c 2 + h 2 * spot sz i)))];
  try (intros l L; destruct (G l L) as (-> & ->); cbn [gv c0 c1 c2]; ring); rewrite ?SP by assumption; rewrite ?X0, ?Y0, ?Z0', ?X1, ?Y1, ?Z1; try ring; unfold dX, dY, dW; ring.
Qed.
End Box.
Lemma diag_minors (J : m3 K) : (forall i j, i < 3 -> j < 3 -> i <> j -> get3 J i j = f0) -> get3 J 0 0 <> f0 -> get3 J 1 1 <> f0 ->
  pivot0 J = get3 J 0 0 /\ pivot1 J = get3 J 1 1 /\ pivot2 J = get3 J 2 2 /\ det3 J = get3 J 0 0 * get3 J 1 1 * get3 J 2 2.
Proof.
  intros O A B. unfold pivot1, pivot2, pivot0, det3, minor2. rewrite (O 0 1), (O 0 2), (O 1 0), (O 1 2), (O 2 0), (O 2 1) by lia.
  set (a := get3 J 0 0) in *. set (b := get3 J 1 1) in *. set (c := get3 J 2 2). split; [reflexivity|]. split; [field; auto|]. split; [field; auto|ring].
Qed.
(* The stiffness of a straight block of any shapes is always found, whatever the material. *)
Theorem C88_box : forall eps (a : material K) inf sz sx sy c h xe gx gy gz, fltb f0 eps = true -> f1 + poi a <> f0 -> f1 - num 2 * poi a <> f0 -> straight sz sx sy c h xe ->
  (forall k, k < 3 -> fltb f0 (h k) = true) ->
  (forall s g, (s = sx /\ In g gx) \/ (s = sy /\ In g gy) \/ (s = sz /\ In g gz) -> at_ease s true (fst g) /\ fltb f0 (snd g) = true) ->
  (forall g, In g gx -> fle eps (h 0 * stretch sx (fst g)) = true) -> (forall g, In g gy -> fle eps (h 1 * stretch sy (fst g)) = true) -> (forall g, In g gz -> fle eps (h 2 * stretch sz (fst g)) = true) ->
  exists Ke, buildKe eps a inf (block_sf sz sx sy) (getn sz * getn sx * getn sy) xe gx gy gz = Ok Ke /\ Forall (level (block_sf sz sx sy) (getn sz * getn sx * getn sy)) (list_prod gx (list_prod gy gz)).
Proof.
  intros eps a inf sz sx sy c h xe gx gy gz P A B ST HP EW TX TY TZ. set (nnd := (getn sz * getn sx * getn sy)%nat).
  assert (PT : forall p, In p (list_prod gx (list_prod gy gz)) -> In (fst p) gx /\ In (fst (snd p)) gy /\ In (snd (snd p)) gz).
  { intros (x & y & z) I. apply in_prod_iff in I as (I1 & I). apply in_prod_iff in I. tauto. }
  destruct (C88_stiffness eps a inf (block_sf sz sx sy) nnd xe gx gy gz P A B) as (l & m & _ & _ & [(_ & S)|(Ke & qs & E & _)]).
  - apply ST.
  - intros p I. destruct (PT p I) as (I1 & I2 & I3). destruct (EW sx (fst p)) as (E1 & _); [tauto|]. destruct (EW sy (fst (snd p))) as (E2 & _); [tauto|]. destruct (EW sz (snd (snd p))) as (E3 & _); [tauto|]. split.
    + destruct (box_jac sz sx sy c h xe p ST E1 E2 E3) as (N & d & E & L & _). exists N, d. auto.
    + intros _. destruct (C87_block sz sx sy false (fst (fst p)) (fst (fst (snd p))) (fst (snd (snd p))) (repeat f0 nnd) (repeat zerov nnd)) as (N & d & E & _ & L & _); try apply repeat_length; try (intros; discriminate).
      exists N, d. split; [exact E|]. now rewrite L, repeat_length.
  - exfalso. apply Exists_exists in S as (p & I & J & d & ((N & d0 & E0 & _ & HJ & _) & _) & BAD). destruct (PT p I) as (I1 & I2 & I3).
    destruct (EW sx (fst p)) as (E1 & W1); [tauto|]. destruct (EW sy (fst (snd p))) as (E2 & W2); [tauto|]. destruct (EW sz (snd (snd p))) as (E3 & W3); [tauto|].
    destruct (box_jac sz sx sy c h xe p ST E1 E2 E3) as (N' & d' & E' & _ & _ & HB). rewrite E0 in E'. inversion E'; subst N' d'. clear E'.
    pose proof (stretch_pos sx _ E1) as S1. pose proof (stretch_pos sy _ E2) as S2. pose proof (stretch_pos sz _ E3) as S3.
    assert (Q0 : get3 J 0 0 = h 0 * stretch sx (fst (fst p))) by (rewrite HJ by lia; exact (HB 0 0 ltac:(lia) ltac:(lia))).
    assert (Q1 : get3 J 1 1 = h 1 * stretch sy (fst (fst (snd p)))) by (rewrite HJ by lia; exact (HB 1 1 ltac:(lia) ltac:(lia))).
    assert (Q2 : get3 J 2 2 = h 2 * stretch sz (fst (snd (snd p)))) by (rewrite HJ by lia; exact (HB 2 2 ltac:(lia) ltac:(lia))).
    assert (R0 : fltb f0 (get3 J 0 0) = true) by (rewrite Q0; apply pos_mul; auto). assert (R1 : fltb f0 (get3 J 1 1) = true) by (rewrite Q1; apply pos_mul; auto). assert (R2 : fltb f0 (get3 J 2 2) = true) by (rewrite Q2; apply pos_mul; auto).
    destruct (diag_minors J) as (V0 & V1 & V2 & VD); [|now apply pos_nz|now apply pos_nz|].
    { intros i j Ii Jj NE. rewrite HJ by auto. fold nnd in HB. rewrite HB by auto. destruct (Nat.eqb_spec i j); congruence. }
    assert (SM : forall x, fltb f0 x = true -> fle eps x = true -> small eps x = false). { intros x X1 X2. unfold small. destruct (pos_sign x X1) as (_ & -> & _). unfold fltb. now rewrite X2. }
    destruct BAD as [T|T].
    + unfold tiny in T. rewrite V0, V1, V2 in T. rewrite !SM in T; auto; [discriminate| | |]; [rewrite Q2; now apply TZ|rewrite Q1; now apply TY|rewrite Q0; now apply TX].
    + rewrite VD in T. assert (W : fltb f0 (wt p * (get3 J 0 0 * get3 J 1 1 * get3 J 2 2)) = true) by (unfold wt; repeat apply pos_mul; auto). unfold fltb in W. now rewrite T in W.
  - exists Ke. split; [exact E|]. apply Forall_forall. intros p I. destruct (PT p I) as (I1 & I2 & I3). destruct (EW sx (fst p)) as (E1 & _); [tauto|]. destruct (EW sy (fst (snd p))) as (E2 & _); [tauto|]. destruct (EW sz (snd (snd p))) as (E3 & _); [tauto|].
    destruct (box_jac sz sx sy c h xe p ST E1 E2 E3) as (N & d & E' & _ & Z & _). intros N' d' E''. rewrite E' in E''. inversion E''; subst. exact Z.
Qed.
End Proofs.

(* A matrix with a zero on its diagonal is refused although it can be solved: nothing is pivoted. *)
Definition swapped : m3 QcF := M3 f0 f1 f0 f1 f0 f0 f0 f0 f1.
Theorem C88_pivot_refuted : exists (J : m3 QcF) eps, fltb f0 eps = true /\ det3 J <> f0 /\ inv_mul_gauss eps 1 J [V3 f1 f1 f1] = Throw RuntimeError.
Proof.
  exists swapped, (fdiv f1 (qz 1000)). split; [vm_compute; reflexivity|]. split; [|vm_compute; reflexivity].
  assert (C : feqb (det3 swapped) f0 = false) by (vm_compute; reflexivity). now apply feqb_false.
Qed.
(* a cube with sides of two, with one Gauss point: the stiffness of a node against itself, and between opposite corners *)
Definition cube : list (v3 QcF) := flat_map (fun z => flat_map (fun x => map (fun y => V3 x y z) [qz (-1); qz 1]) [qz (-1); qz 1]) [qz (-1); qz 1].
Definition steel : material QcF := Mat (qz 5) (fdiv f1 (qz 4)).
Definition demo_cube : bool :=
  match buildKe (fdiv f1 (qz 1000)) steel false (block_sf Linear Linear Linear) 8 cube [(f0, qz 2)] [(f0, qz 2)] [(f0, qz 2)] with
  | Ok Ke => Nat.eqb (length Ke) 36 && feqb (coef (El [] Ke) 0 0 0 0) (fdiv (qz 5) (qz 4)) && feqb (coef (El [] Ke) 0 0 0 1) (fdiv (qz 1) (qz 2)) && feqb (coef (El [] Ke) 7 0 0 0) (fdiv (qz (-5)) (qz 4))
  | _ => false
  end.
Example C88_demo : demo_cube = true.
Proof. vm_compute. reflexivity. Qed.
(* the hypotheses hold for it *)
Example C88_hypotheses : straight Linear Linear Linear (fun _ => f0) (fun _ => f1) cube /\ fltb f0 (emod steel) = true /\ fltb (fopp f1) (poi steel) = true /\ fltb (fmul (num 2) (poi steel)) f1 = true /\
  exists Ke, buildKe (fdiv f1 (qz 1000)) steel false (block_sf Linear Linear Linear) 8 cube [(f0, qz 2)] [(f0, qz 2)] [(f0, qz 2)] = Ok Ke.
Proof.
  split; [|split; [vm_compute; reflexivity|split; [vm_compute; reflexivity|split; [vm_compute; reflexivity|]]]].
  - split; [reflexivity|]. intros i j k I J Kk. cbn [getn] in *.
    assert (V : forall a b : v3 QcF, feqb (c0 a) (c0 b) && feqb (c1 a) (c1 b) && feqb (c2 a) (c2 b) = true -> a = b).
    { intros [a0 a1 a2] [b0 b1 b2] E. cbn [c0 c1 c2] in E. apply andb_true_iff in E as (E & E2). apply andb_true_iff in E as (E0 & E1). apply feqb_true in E0, E1, E2. now subst. }
    apply V. destruct i as [|[|]]; try lia; destruct j as [|[|]]; try lia; destruct k as [|[|]]; try lia; vm_compute; reflexivity.
  - pose proof C88_demo as D. unfold demo_cube in D. destruct (buildKe _ _ _ _ _ _ _ _ _) as [Ke| |]; [now exists Ke|discriminate|discriminate].
Qed.
Print Assumptions C88_hooke.
Print Assumptions C88_stiffness.
Print Assumptions C88_gauss.
Print Assumptions C88_symmetric.
Print Assumptions C88_force.
Print Assumptions C88_energy.
Print Assumptions C88_material.
Print Assumptions C88_firm.
Print Assumptions C88_mesh.
Print Assumptions C88_patch.
Print Assumptions C88_rigid.
Print Assumptions C88_box.
Print Assumptions C88_pivot_refuted.
Print Assumptions C88_demo.
Print Assumptions C88_hypotheses.
