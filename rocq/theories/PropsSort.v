(* C10, C11, C12: sorting, searching and compacting ordered sets of include/set.h. *)
From Coq Require Import List ZArith Lia Bool Arith Permutation Sorted.
From Verif Require Import Base SortModel SortProofs.
Import ListNotations.

Section S.
Context {V : Type}.
Variable cmp : V -> V -> comparison.
Hypothesis TO : total_preorder cmp.

Definition nondecreasing (v : list V) : Prop := StronglySorted (fun x y => cmp x y <> Gt) v.
Definition increasing (v : list V) : Prop := StronglySorted (fun x y => cmp x y = Lt) v.

Lemma sorted_on_strong v : sorted_on cmp v 0 (length v) -> nondecreasing v.
Proof.
  induction v as [|x v IH]; intros H; constructor.
  - apply IH. intros a b Ha Hab Hb p q Hp Hq.
    apply (H (S a) (S b)); simpl; auto; lia.
  - apply Forall_forall. intros y Hy. apply (sorted_on_split cmp (x :: v) H x v []); auto.
Qed.
Lemma strong_sorted_on v : nondecreasing v -> sorted_on cmp v 0 (length v).
Proof.
  induction 1 as [|x v S IH F]; intros a b Ha Hab Hb; [simpl in Hb; lia|].
  destruct b as [|b]; [lia|]. intros p q Hp Hq. simpl in Hq. destruct a as [|a]; simpl in Hp.
  - injection Hp as <-. rewrite Forall_forall in F. apply F. eapply nth_error_In; eauto.
  - apply (IH a b); simpl in Hb; auto; lia.
Qed.
Lemma incr_strong v : incr cmp v -> increasing v.
Proof. induction 1; constructor; auto. apply Forall_forall; auto. Qed.
End S.

Theorem C10_sort_sorts : forall (V : Type) (cmp : V -> V -> comparison), total_preorder cmp ->
  forall v, exists v', sort cmp v = Ok v' /\ Permutation v v' /\ nondecreasing cmp v'.
Proof.
  intros V cmp TO v. destruct (sort_ok cmp TO v) as (v' & E & P & S').
  exists v'. split; auto. split; auto. apply sorted_on_strong; auto.
Qed.
Example C10_demo :
  sort Z.compare [5;3;9;1;1;8;3;7;2;6;4;0]%Z = Ok [0;1;1;2;3;3;4;5;6;7;8;9]%Z /\
  sort (fun a b : Z * Z => Z.compare (fst a) (fst b)) [(2,1);(1,7);(2,0);(0,5);(1,8);(0,3)]%Z =
    Ok [(0,3);(0,5);(1,8);(1,7);(2,0);(2,1)]%Z.
Proof. split; vm_compute; reflexivity. Qed.

(* The lookup is exact on every sorted array, in particular on the result of sort. *)
Theorem C11_find_exact : forall (V : Type) (cmp : V -> V -> comparison), total_preorder cmp ->
  forall v, nondecreasing cmp v -> (Z.of_nat (length v) <= UINT_MAX)%Z ->
  forall x, exists r, findvalue cmp v x = Ok r /\
    ((0 <= r < Z.of_nat (length v) /\ exists y, nth_error v (Z.to_nat r) = Some y /\ cmp y x = Eq)%Z \/
     (r = UINT_MAX /\ forall y, In y v -> cmp y x <> Eq)).
Proof.
  intros V cmp TO v S L x.
  destruct (findvalue_ok cmp TO v x (strong_sorted_on cmp v S)) as [(p & y & E & N & C)|(E & H)].
  - exists (Z.of_nat p). split; auto. left. pose proof (nth_error_lt _ _ _ N). split; [lia|].
    exists y. rewrite Nat2Z.id. auto.
  - exists UINT_MAX. auto.
Qed.
Theorem C11_find_after_sort : forall (V : Type) (cmp : V -> V -> comparison), total_preorder cmp ->
  forall v x, (Z.of_nat (length v) <= UINT_MAX)%Z ->
  exists v' r, sort cmp v = Ok v' /\ findvalue cmp v' x = Ok r /\
    (r <> UINT_MAX <-> exists y, In y v /\ cmp y x = Eq).
Proof.
  intros V cmp TO v x L. destruct (C10_sort_sorts V cmp TO v) as (v' & E & P & S).
  pose proof (Permutation_length P) as PL.
  destruct (C11_find_exact V cmp TO v' S ltac:(lia) x) as (r & F & [(B & y & N & C)|(-> & H)]).
  - exists v', r. split; auto. split; auto. split; [|lia]. intros _.
    exists y. split; auto. apply (Permutation_in _ (Permutation_sym P)). eapply nth_error_In; eauto.
  - exists v', UINT_MAX. split; auto. split; auto. split; [congruence|].
    intros (y & Hy & C). exfalso. apply (H y); auto. apply (Permutation_in _ P); auto.
Qed.
Example C11_demo : nondecreasing Z.compare [1;3;3;8]%Z /\
  findvalue Z.compare [1;3;3;8]%Z 3%Z = Ok 1%Z /\ findvalue Z.compare [1;3;3;8]%Z 9%Z = Ok UINT_MAX.
Proof.
  split; [|split; vm_compute; reflexivity].
  repeat constructor; vm_compute; discriminate.
Qed.

Theorem C12_compact_removes_duplicates :
  forall (V : Type) (cmp : V -> V -> comparison), total_preorder cmp ->
  forall v, exists v', csort cmp v = Ok v' /\ increasing cmp v' /\
    (forall x, In x v' -> In x v) /\
    (forall x, In x v -> exists y, In y v' /\ cmp x y = Eq).
Proof.
  intros V cmp TO v. destruct (csort_ok cmp TO v) as (v' & E & I & H1 & H2).
  exists v'. split; auto. split; auto. apply incr_strong; auto.
Qed.
Example C12_demo :
  csort Z.compare [5;3;9;1;1;8;3;7;2;6;3;5;4;0;9;9]%Z = Ok [0;1;2;3;4;5;6;7;8;9]%Z /\
  csort Z.compare [7;7;7]%Z = Ok [7]%Z.
Proof. split; vm_compute; reflexivity. Qed.

Print Assumptions C10_sort_sorts.
Print Assumptions C11_find_exact.
Print Assumptions C11_find_after_sort.
Print Assumptions C12_compact_removes_duplicates.
