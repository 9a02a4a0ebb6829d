(* C36: in-place transposition.  C37: packed indices. *)
From Coq Require Import ZArith List Bool Arith Lia FinFun.
From Verif Require Import Base TransposeModel.
Import ListNotations.
Local Open Scope nat_scope.

(* ---- cycles of an injective map of 0..N-1 ---- *)
Section Orbit.
Variable N : nat.
Variable p : nat -> nat.
Hypothesis pN : forall j, j < N -> p j < N.
Hypothesis pinj : forall i j, i < N -> j < N -> p i = p j -> i = j.
Fixpoint it (k j : nat) : nat := match k with O => j | S k => p (it k j) end.
Lemma it_N k j : j < N -> it k j < N.
Proof. intros. induction k; simpl; auto. Qed.
Lemma it_add a b j : it (a + b) j = it a (it b j).
Proof. induction a; simpl; congruence. Qed.
Lemma it_S k j : it (S k) j = it k (p j).
Proof. induction k; simpl in *; congruence. Qed.
Lemma it_inj k i j : i < N -> j < N -> it k i = it k j -> i = j.
Proof. intros. induction k; simpl in *; auto. apply pinj in H1; auto using it_N. Qed.
(* pigeonhole: every element comes back *)
Lemma it_back j : j < N -> exists k, 0 < k <= N /\ it k j = j.
Proof.
  intros L. set (l := map (fun k => it k j) (seq 0 (S N))).
  assert (~ NoDup l) as ND.
  { intros D. assert (length l <= length (seq 0 N)).
    { apply NoDup_incl_length; auto. intros x I. apply in_map_iff in I. destruct I as (k & <- & _). apply in_seq. pose proof (it_N k j L). lia. }
    unfold l in H. rewrite map_length, !seq_length in H. lia. }
  assert (exists a b, a < b <= N /\ it a j = it b j) as (a & b & Lab & E).
  { clear -ND. unfold l in ND. assert (forall s k, ~ NoDup (map (fun k => it k j) (seq s k)) -> exists a b, s <= a < b /\ b < s + k /\ it a j = it b j) as K.
    { intros s k. revert s. induction k as [|k IH]; intros s D; [exfalso; apply D; constructor|].
      cbn [seq map] in D. destruct (in_dec Nat.eq_dec (it s j) (map (fun k => it k j) (seq (S s) k))) as [I|I].
      - apply in_map_iff in I. destruct I as (b & E & I). apply in_seq in I. exists s, b. repeat split; auto; lia.
      - destruct (IH (S s)) as (a & b & A & B & C). { intros D'. apply D. constructor; auto. }
        exists a, b. repeat split; auto; lia. }
    destruct (K _ _ ND) as (a & b & A & B & C). exists a, b. split; auto. lia. }
  exists (b - a). split; [lia|]. apply (it_inj a); auto using it_N. rewrite <- it_add.
  replace (a + (b - a)) with b by lia. auto.
Qed.
Lemma it_mul j L a : it L j = j -> it (a * L) j = j.
Proof. intros E. induction a; simpl; auto. rewrite it_add. congruence. Qed.
Lemma it_mod j L k : L <> 0 -> it L j = j -> it k j = it (k mod L) j.
Proof.
  intros N0 E. rewrite (Nat.div_mod k L) at 1 by auto. rewrite Nat.add_comm, it_add. f_equal.
  rewrite Nat.mul_comm. apply it_mul; auto.
Qed.
(* who reaches s is reached from s *)
Lemma it_reach j s k L : j < N -> s < N -> 0 < L -> it L s = s -> it k j = s -> exists u, u < L /\ it u s = j.
Proof.
  intros Lj Ls L0 E H. exists ((k * L - k) mod L). split; [apply Nat.mod_upper_bound; lia|].
  rewrite <- (it_mod s L) by (auto; lia). apply (it_inj k); auto using it_N.
  rewrite <- it_add. replace (k + (k * L - k)) with (k * L) by nia. rewrite it_mul; auto.
Qed.
End Orbit.

Section C36.
Context {A : Type}.
Variables m n : nat.
Notation N := (m * n).
Notation p := (next m n).
Notation it := (it p).
Lemma next_spec r c : c < m -> p (r * m + c) = c * n + r.
Proof.
  intros. unfold next. replace (r * m + c) with (c + r * m) by lia. rewrite Nat.mod_add, Nat.div_add by lia.
  rewrite Nat.mod_small, Nat.div_small by auto. lia.
Qed.
Lemma split_j j : j < N -> exists r c, j = r * m + c /\ r < n /\ c < m.
Proof.
  intros L. assert (m <> 0) by (intros ->; simpl in L; lia). exists (j / m), (j mod m).
  split; [rewrite (Nat.div_mod j m) at 1; auto; lia|]. split.
  - apply Nat.div_lt_upper_bound; auto.
  - apply Nat.mod_upper_bound; auto.
Qed.
Lemma next_N j : j < N -> p j < N.
Proof. intros L. destruct (split_j j L) as (r & c & -> & Hr & Hc). rewrite next_spec by auto. nia. Qed.
Lemma next_inj i j : i < N -> j < N -> p i = p j -> i = j.
Proof.
  intros Li Lj. destruct (split_j i Li) as (r & c & -> & Hr & Hc). destruct (split_j j Lj) as (r' & c' & -> & Hr' & Hc').
  rewrite !next_spec by auto. intros E. assert (c = c' /\ r = r') as [-> ->]; [|auto].
  assert (c = c') by nia. subst. lia.
Qed.

(* the leader test *)
Lemma follow_spec fuel s i j k : s < N -> j = it k s -> (forall u, 0 < u <= k -> s < it u s) -> i = k ->
  N < fuel + k -> k <= N ->
  exists L, k < L /\ follow m n fuel s i j = Ok (L, it L s) /\ it L s <= s /\ (forall u, 0 < u < L -> s < it u s).
Proof.
  revert i j k. induction fuel as [|fuel IH]; intros i j k Ls -> Hu -> F K.
  - exfalso. lia.
  - cbn [follow]. change (p (it k s)) with (it (S k) s).
    destruct (Nat.ltb_spec s (it (S k) s)) as [H|H].
    + destruct (Nat.eq_dec k N) as [->|NK].
      { exfalso. destruct (it_back N p next_N next_inj s Ls) as (q & Q & E). specialize (Hu q Q). lia. }
      destruct (IH (S k) (it (S k) s) (S k)) as (L & A1 & A2 & A3 & A4); auto; try lia.
      { intros u U. destruct (Nat.eq_dec u (S k)) as [->|]; auto. apply Hu. lia. }
      exists L. repeat split; auto. lia.
    + exists (S k). repeat split; auto. intros u U. apply Hu. lia.
Qed.
(* moving a cycle *)
Lemma cycle_spec fuel s tmp (a0 a : list A) L k : length a0 = N -> s < N -> 0 < L -> it L s = s -> (forall u, 0 < u < L -> s < it u s) ->
  nth_error a0 s = Some tmp -> k < L -> L <= fuel + k -> length a = N ->
  (forall u, u < k -> nth_error a (it u s) = nth_error a0 (it (S u) s)) ->
  (forall j, (forall u, u < k -> j <> it u s) -> nth_error a j = nth_error a0 j) ->
  exists a', cycle m n fuel s tmp a (it k s) = Ok a' /\ length a' = N /\
    (forall u, u < L -> nth_error a' (it u s) = nth_error a0 (it (S u) s)) /\
    (forall j, (forall u, u < L -> j <> it u s) -> nth_error a' j = nth_error a0 j).
Proof.
  intros La0 Ls L0 EL Hu Tmp. revert k a. induction fuel as [|fuel IH]; intros k a K F La D U; [lia|].
  cbn [cycle]. change (p (it k s)) with (it (S k) s).
  assert (forall u v, u < L -> v < L -> it u s = it v s -> u = v) as Dist.
  { assert (forall u v, u < v -> v < L -> it u s = it v s -> False) as K1.
    { intros u v Uv V E. replace v with (u + (v - u)) in E by lia. rewrite it_add in E.
      apply (it_inj N p next_N next_inj u) in E; auto; [|apply it_N; auto using next_N].
      specialize (Hu (v - u)). rewrite <- E in Hu. lia. }
    intros u v Uu V E. destruct (Nat.lt_trichotomy u v) as [?|[?|?]]; auto; exfalso; [eapply (K1 u v)|eapply (K1 v u)]; eauto. }
  assert (it k s < N) as Lk by (apply it_N; auto using next_N).
  assert (it (S k) s < N) as LSk by (apply it_N; auto using next_N).
  assert (exists x, (if it (S k) s =? s then Ok tmp else aget a (it (S k) s)) = Ok x /\ nth_error a0 (it (S k) s) = Some x) as (x & Ex & Nx).
  { destruct (Nat.eqb_spec (it (S k) s) s) as [E|E].
    - exists tmp. rewrite E. auto.
    - destruct (nth_error a0 (it (S k) s)) as [x|] eqn:Ex; [|apply nth_error_None in Ex; lia].
      exists x. split; auto. unfold aget. rewrite U, Ex; auto. intros u Hlt E'.
      assert (S k < L). { destruct (Nat.eq_dec (S k) L) as [Q|]; [rewrite Q in E; congruence|lia]. }
      assert (S k = u) by (apply Dist; auto; lia). lia. }
  rewrite Ex. cbn [bind]. unfold aset. rewrite La. apply Nat.ltb_lt in Lk. rewrite Lk. cbn [bind]. apply Nat.ltb_lt in Lk.
  set (a1 := upd a (it k s) x).
  assert (forall u, u < S k -> nth_error a1 (it u s) = nth_error a0 (it (S u) s)) as D1.
  { intros u Hu1. unfold a1. destruct (Nat.eq_dec u k) as [->|Ne].
    - rewrite nth_error_upd_eq by lia. auto.
    - rewrite nth_error_upd_ne; [apply D; lia|]. intros E. apply Ne. symmetry. apply Dist; auto; lia. }
  assert (forall j, (forall u, u < S k -> j <> it u s) -> nth_error a1 j = nth_error a0 j) as U1.
  { intros j Hj. unfold a1. rewrite nth_error_upd_ne; [apply U; intros; apply Hj; lia|]. intros E. apply (Hj k); auto; lia. }
  assert (length a1 = N) as La1 by (unfold a1; rewrite length_upd; auto).
  destruct (Nat.ltb_spec s (it (S k) s)) as [H|H].
  - assert (S k < L). { destruct (Nat.eq_dec (S k) L) as [E|]; [rewrite E, EL in H; lia|lia]. }
    destruct (IH (S k) a1) as (a' & R1 & R2 & R3 & R4); auto; try lia. exists a'. auto.
  - assert (S k = L) as <-. { destruct (Nat.eq_dec (S k) L); auto. specialize (Hu (S k)). lia. }
    exists a1. auto.
Qed.

(* round s: cycles with an element below s are done *)
Definition stage (a0 a : list A) (s : nat) : Prop :=
  length a = N /\ forall j, j < N ->
    ((exists k, it k j < s) -> nth_error a j = nth_error a0 (p j)) /\
    ((forall k, s <= it k j) -> nth_error a j = nth_error a0 j).
Lemma round_spec fuel a0 a s : length a0 = N -> s < N -> N < fuel -> stage a0 a s ->
  exists a', round m n fuel a s = Ok a' /\ stage a0 a' (S s).
Proof.
  intros La0 Ls F [La St]. unfold round.
  destruct (follow_spec fuel s 0 s 0) as (L & L0 & E & LE & Hu); auto; try (intros; lia); try lia.
  rewrite E. cbn [bind].
  destruct (Nat.ltb_spec (it L s) s) as [Lt|Ge].
  - (* s is not the least of its cycle *) cbn [orb]. exists a. split; auto. split; auto. intros j Lj. split.
    + intros [k K]. apply St; auto. destruct (Nat.eq_dec (it k j) s) as [Q|]; [|exists k; lia].
      exists (L + k). rewrite it_add, Q. auto.
    + intros K. apply St; auto. intros k. specialize (K k). lia.
  - assert (it L s = s) as EL by lia. cbn [orb]. destruct (Nat.eqb_spec L 1) as [->|N1].
    + (* fixed point *) exists a. split; auto. split; auto. cbn in EL.
      assert (forall k, it k s = s) as FP by (induction k; simpl; congruence).
      intros j Lj. split.
      * intros [k K]. destruct (Nat.eq_dec (it k j) s) as [Q|]; [|apply St; auto; exists k; lia].
        assert (j = s) as ->. { apply (it_inj N p next_N next_inj k); auto. rewrite FP. auto. }
        rewrite EL. apply St; auto. intros. rewrite FP. lia.
      * intros K. apply St; auto. intros k. specialize (K k). lia.
    + (* a cycle *)
      assert (nth_error a s = nth_error a0 s) as As.
      { apply St; auto. intros k. rewrite (it_mod p s L k) by (auto; lia). 
        destruct (Nat.eq_dec (k mod L) 0) as [Q|Q]; [rewrite Q; simpl; lia|].
        assert (k mod L < L) by (apply Nat.mod_upper_bound; lia). specialize (Hu (k mod L)). lia. }
      destruct (nth_error a0 s) as [tmp|] eqn:Et; [|apply nth_error_None in Et; lia].
      unfold aget. rewrite As. cbn [bind].
      assert (L <= N) as LN.
      { destruct (it_back N p next_N next_inj s Ls) as (q & Q & Eq).
        destruct (Nat.le_gt_cases L q); [lia|]. exfalso. specialize (Hu q). lia. }
      destruct (cycle_spec fuel s tmp a a L 0) as (a' & R1 & R2 & R3 & R4); auto; try lia.
      exists a'. change (it 0 s) with s in R1. split; auto. split; auto.
      assert (forall u, s <= it u s) as Ge'.
      { intros u. rewrite (it_mod p s L u) by (auto; lia). destruct (Nat.eq_dec (u mod L) 0) as [Q|Q]; [rewrite Q; simpl; lia|].
        assert (u mod L < L) by (apply Nat.mod_upper_bound; lia). specialize (Hu (u mod L)). lia. }
      intros j Lj. split.
      * intros [k K].
        assert ((exists u, u < L /\ it u s = j) \/ (forall u, u < L -> j <> it u s)) as [(u & Hlt & <-)|Nu].
        { clear. induction L as [|q IH]; [right; intros; lia|]. destruct (Nat.eq_dec (it q s) j) as [E|E]; [left; exists q; auto|].
          destruct IH as [(u & U & E')|IH]; [left; exists u; auto|]. right. intros u U. destruct (Nat.eq_dec u q) as [->|]; auto. apply IH; lia. }
        -- rewrite R3 by auto. change (p (it u s)) with (it (S u) s). apply St.
           ++ apply it_N; auto using next_N.
           ++ intros k'. rewrite <- it_add. apply Ge'.
        -- rewrite R4 by auto. apply St; auto. destruct (Nat.eq_dec (it k j) s) as [Q|]; [|exists k; lia].
           exfalso. destruct (it_reach N p next_N next_inj j s k L) as (u & U & E'); auto. apply (Nu u); auto.
      * intros K. rewrite R4; [apply St; auto; intros k; specialize (K k); lia|].
        intros u U ->. specialize (K (L - u)). rewrite <- it_add in K. replace (L - u + u) with L in K by lia. lia.
Qed.
Lemma rounds_spec fuel a0 k s a : length a0 = N -> s + k = N -> N < fuel -> stage a0 a s ->
  exists a', rounds m n fuel a s k = Ok a' /\ stage a0 a' N.
Proof.
  intros La0. revert s a. induction k as [|k IH]; intros s a E F St; cbn [rounds].
  - exists a. replace N with s by lia. auto.
  - destruct (round_spec fuel a0 a s) as (a1 & E1 & S1); auto; [lia|]. rewrite E1. cbn [bind]. apply IH; auto. lia.
Qed.

(* The m by n array a (row by row) becomes its n by m transpose: element (r,c) of the result
   is element (c,r) of a.  N+1 rounds are enough for each inner loop. *)
Theorem C36_transpose : forall (a : list A) fuel,
  length a = m * n -> (Z.of_nat m * Z.of_nat n < 2^32)%Z -> m * n < fuel ->
  exists a', transpose m n fuel a = Ok a' /\ length a' = n * m /\
    forall r c, r < n -> c < m -> nth_error a' (r * m + c) = nth_error a (c * n + r).
Proof.
  intros a fuel La W F. unfold transpose, u32. rewrite Z.mod_small by lia.
  replace (Z.to_nat (Z.of_nat m * Z.of_nat n)) with N by (rewrite <- Nat2Z.inj_mul, Nat2Z.id; auto).
  destruct (rounds_spec fuel a N 0 a) as (a' & E & [L St]); auto.
  - split; auto. intros j Lj. split; [intros [k K]; lia|auto].
  - exists a'. split; auto. split; [lia|]. intros r c Hr Hc. rewrite <- next_spec by auto.
    apply St; [nia|]. exists 0. simpl. nia.
Qed.
End C36.
Print Assumptions C36_transpose.
Example C36_demo : transpose 2 3 7 [1;2;3;4;5;6] = Ok [1;4;2;5;3;6].
Proof. reflexivity. Qed.

(* ================= C37 ================= *)
(* A packed numbering of a set of index pairs: one-to-one onto 0..size-1. *)
Definition packs (stored : nat -> nat -> Prop) (size : nat) (idx : nat -> nat -> nat) : Prop :=
  (forall i j, stored i j -> idx i j < size) /\
  (forall i j i' j', stored i j -> stored i' j' -> idx i j = idx i' j' -> i = i' /\ j = j') /\
  (forall q, q < size -> exists i j, stored i j /\ idx i j = q).
Definition upper (n i j : nat) : Prop := i <= j < n.
Definition banded (n w i j : nat) : Prop := i <= j < n /\ j <= i + w.

Lemma tri_even j : exists t, j * (j + 1) = 2 * t.
Proof. induction j as [|j [t IH]]; [exists 0; auto|]. exists (t + j + 1). nia. Qed.
Lemma tri_half j : 2 * (j * (j + 1) / 2) = j * (j + 1).
Proof. destruct (tri_even j) as [t E]. rewrite E. replace (2 * t) with (t * 2) by lia. rewrite Nat.div_mul by lia. lia. Qed.
Lemma tri_S j : (j + 1) * (j + 1 + 1) / 2 = j * (j + 1) / 2 + j + 1.
Proof. pose proof (tri_half j). pose proof (tri_half (j + 1)). nia. Qed.
Lemma tri_find q : exists i j, i <= j /\ j * (j + 1) / 2 + i = q.
Proof.
  induction q as [|q (i & j & L & E)]; [exists 0, 0; auto|].
  destruct (Nat.eq_dec i j) as [->|N].
  - exists 0, (j + 1). split; [lia|]. rewrite tri_S. lia.
  - exists (S i), j. split; lia.
Qed.
Lemma tri_mono a b : a <= b -> a * (a + 1) / 2 <= b * (b + 1) / 2.
Proof. intros. pose proof (tri_half a). pose proof (tri_half b). nia. Qed.
Theorem C37_packed_triangle : forall n, packs (upper n) (T_SIZE n) T_IDX.
Proof.
  intros n. unfold packs, upper, T_SIZE, T_IDX. split; [|split].
  - intros i j [A B]. pose proof (tri_half j). pose proof (tri_half n). nia.
  - intros i j i' j' [A B] [A' B'] E. pose proof (tri_half j). pose proof (tri_half j').
    destruct (Nat.lt_trichotomy j j') as [?|[->|?]]; [exfalso; nia|split; lia|exfalso; nia].
  - intros q Q. destruct (tri_find q) as (i & j & L & E). exists i, j. split; auto. split; auto.
    destruct (Nat.lt_ge_cases j n); auto. pose proof (tri_mono n j ltac:(auto)). lia.
Qed.
Theorem C37_packed_band : forall n w, w <= n -> packs (banded n w) (B_SIZE n w) (B_IDX n w).
Proof.
  intros n w W. unfold packs, banded, B_SIZE, B_IDX.
  pose proof (tri_half w) as Hw. set (hw := w * (w + 1) / 2) in *.
  split; [|split].
  - intros i j [[A B] C]. destruct (Nat.leb_spec j w) as [L|L].
    + pose proof (tri_half j). nia.
    + nia.
  - intros i j i' j' [[A B] C] [[A' B'] C'] E. pose proof (tri_half j). pose proof (tri_half j').
    destruct (Nat.leb_spec j w), (Nat.leb_spec j' w).
    + destruct (Nat.lt_trichotomy j j') as [?|[->|?]]; [exfalso; nia|split; lia|exfalso; nia].
    + exfalso. nia.
    + exfalso. nia.
    + destruct (Nat.lt_trichotomy j j') as [?|[->|?]]; [exfalso; nia|split; nia|exfalso; nia].
  - intros q. induction q as [|q IH]; intros Q.
    + exists 0, 0. simpl. split; [nia|auto].
    + destruct IH as (i & j & [[A B] C] & E); [lia|].
      destruct (Nat.eq_dec i j) as [->|N].
      * destruct (Nat.leb_spec j w) as [L|L].
        -- pose proof (tri_half j) as Hj. destruct (Nat.eq_dec j w) as [->|Nw].
           ++ fold hw in E, Hj.
              destruct (Nat.lt_ge_cases (w + 1) n).
              ** exists 1, (w + 1). split; [lia|]. destruct (Nat.leb_spec (w + 1) w); [lia|]. nia.
              ** exfalso. nia.
           ++ assert (j + 1 < n) by nia. exists 0, (j + 1). split; [lia|].
              destruct (Nat.leb_spec (j + 1) w); [|lia]. rewrite tri_S. lia.
        -- assert (j + 1 < n) by nia. exists (j + 1 - w), (j + 1). split; [lia|].
           destruct (Nat.leb_spec (j + 1) w); [lia|]. nia.
      * exists (S i), j. split; [lia|]. destruct (Nat.leb_spec j w); nia.
Qed.
(* False when the band is wider than the matrix: there is one element and no storage. *)
Theorem C37_wide_band_refuted : banded 1 2 0 0 /\ B_SIZE 1 2 = 0.
Proof. unfold banded. split; [lia|reflexivity]. Qed.
Print Assumptions C37_packed_triangle.
Print Assumptions C37_packed_band.
Print Assumptions C37_wide_band_refuted.
Example C37_demo : banded 4 1 2 3 /\ B_IDX 4 1 2 3 = 5 /\ B_SIZE 4 1 = 7.
Proof. unfold banded. split; [lia|split; reflexivity]. Qed.
