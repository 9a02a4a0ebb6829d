(* C25: constant strings. *)
From Coq Require Import ZArith List Bool Lia.
From Verif Require Import Base ConstStrModel.
Import ListNotations.
Local Open Scope Z_scope.

(* ---- specification: FNV-1a, the order of byte strings ---- *)
Definition bytes (s : list Z) : Prop := Forall (fun c => 0 <= c < 256) s.
(* FNV-1a, 64 bit: xor the byte into the hash, multiply by the prime, modulo 2^64 *)
Definition fnv1a (s : list Z) : Z :=
  fold_left (fun h c => (Z.lxor h c * 0x100000001b3) mod 2^64) s 0xcbf29ce484222325.
(* s comes before t in the dictionary *)
Inductive before : list Z -> list Z -> Prop :=
| before_nil y t : before [] (y :: t)
| before_lt x y s t : x < y -> before (x :: s) (y :: t)
| before_eq x s t : before s t -> before (x :: s) (x :: t).
Definition nonull (s : list Z) : Prop := ~ In 0 s.

Section Props.
Variable schar : bool.
Notation new := (cs_new schar).

Lemma hash_fold s h : (schar = false \/ Forall (fun c => c < 128) s) ->
  fnv1a_hash schar s h = fold_left (fun h c => (Z.lxor h c * 0x100000001b3) mod 2^64) s h.
Proof.
  revert h. induction s as [|c s IH]; intros h A; [reflexivity|]. cbn [fnv1a_hash fold_left].
  rewrite IH.
  - f_equal. unfold char_hash_t. destruct A as [->|A]; [reflexivity|].
    inversion A; subst. replace (128 <=? c) with false by (symmetry; apply Z.leb_gt; lia).
    rewrite andb_false_r. reflexivity.
  - destruct A as [A|A]; [auto|right; inversion A; auto].
Qed.
(* The hash is FNV-1a of the bytes when char is unsigned or the text is ASCII. *)
Theorem C25_hash_partial : forall s, (schar = false \/ Forall (fun c => c < 128) s) ->
  hash_code (new s) = fnv1a s.
Proof. intros s A. apply (hash_fold s basis A). Qed.

Lemma strncmp_range a b n : strncmp a b n = -1 \/ strncmp a b n = 0 \/ strncmp a b n = 1.
Proof.
  revert a b. induction n as [|n IH]; intros [|x a] [|y b]; simpl; auto.
  destruct (x =? y); [destruct (x =? 0); auto|destruct (x <? y); auto].
Qed.
(* what of a string is seen by compare: the text up to a null, and the length *)
Fixpoint text (s : list Z) : list Z := match s with [] => [] | c :: s => if c =? 0 then [] else c :: text s end.
Lemma text_nonull s : nonull s -> text s = s.
Proof.
  induction s as [|c s IH]; intros N; simpl; auto. destruct (Z.eqb_spec c 0) as [->|E].
  - destruct N. left; auto.
  - f_equal. apply IH. intros I. apply N. right; auto.
Qed.
Definition sgn_spec (s t : list Z) (c : Z) : Prop :=
  (c = -1 /\ (before (text s) (text t) \/ (text s = text t /\ (length s < length t)%nat))) \/
  (c = 0 /\ text s = text t /\ length s = length t) \/
  (c = 1 /\ (before (text t) (text s) \/ (text s = text t /\ (length t < length s)%nat))).
Lemma cmp_cons x a b : bytes (x :: a) -> bytes (x :: b) -> x <> 0 ->
  compare (new (x :: a)) (new (x :: b)) = compare (new a) (new b).
Proof.
  intros _ _ E. unfold compare, len, cs_new; cbn [str length Nat.min strncmp].
  rewrite Z.eqb_refl. destruct (Z.eqb_spec x 0); [congruence|]. reflexivity.
Qed.
Lemma compare_spec s t : bytes s -> bytes t -> sgn_spec s t (compare (new s) (new t)).
Proof.
  revert t. induction s as [|x s IH]; intros [|y t] Bs Bt.
  - right; left. auto.
  - unfold compare, len, cs_new; cbn [str length Nat.min strncmp]. cbn. left. split; auto.
    cbn [text]. destruct (y =? 0); [right; split; [auto|simpl; lia]|left; constructor].
  - unfold compare, len, cs_new; cbn [str length Nat.min strncmp]. cbn. right; right. split; auto.
    cbn [text]. destruct (x =? 0); [right; split; [auto|simpl; lia]|left; constructor].
  - inversion Bs as [|? ? X Bs']; inversion Bt as [|? ? Y Bt']; subst.
    destruct (Z.eqb_spec x y) as [->|E].
    + destruct (Z.eqb_spec y 0) as [->|Ny].
      * unfold compare, len, cs_new, sgn_spec; cbn [str length Nat.min strncmp text]. rewrite Z.eqb_refl.
        destruct (Nat.eqb_spec (S (length s)) (S (length t))); [right; left; auto|].
        destruct (Nat.ltb_spec (S (length s)) (S (length t))); cbn; [left|right; right]; split; auto; right; split; auto; lia.
      * rewrite cmp_cons by auto. specialize (IH t Bs' Bt'). unfold sgn_spec in *. cbn [text length].
        destruct (Z.eqb_spec y 0); [congruence|].
        destruct IH as [[-> [B|[E1 L]]]|[(-> & E1 & L)|[-> [B|[E1 L]]]]].
        -- left; split; auto. left; apply before_eq; auto.
        -- left; split; auto. right; split; [congruence|lia].
        -- right; left. repeat split; congruence.
        -- right; right; split; auto. left; apply before_eq; auto.
        -- right; right; split; auto. right; split; [congruence|lia].
    + assert (compare (new (x :: s)) (new (y :: t)) = if x <? y then -1 else 1) as ->.
      { unfold compare, len, cs_new; cbn [str length Nat.min strncmp]. destruct (Z.eqb_spec x y); [congruence|].
        destruct (x <? y); cbn; destruct (length s =? length t)%nat; reflexivity. }
      unfold sgn_spec. cbn [text]. destruct (Z.ltb_spec x y).
      * left; split; auto. left. destruct (Z.eqb_spec y 0); [lia|]. destruct (x =? 0); constructor; auto.
      * right; right; split; auto. left. destruct (Z.eqb_spec x 0); [lia|]. destruct (y =? 0); constructor; lia.
Qed.
Lemma before_irrefl s : ~ before s s.
Proof. induction s as [|x s IH]; intros B; inversion B; subst; auto. lia. Qed.
Lemma before_trans s t u : before s t -> before t u -> before s u.
Proof.
  revert t u. induction s as [|x s IH]; intros t u B1 B2; inversion B1; subst; inversion B2; subst;
    try (apply before_nil); try (apply before_lt; lia). apply before_eq. eapply IH; eauto.
Qed.
Lemma before_asym s t : before s t -> before t s -> False.
Proof. intros A B. exact (before_irrefl _ (before_trans _ _ _ A B)). Qed.

(* On texts without null bytes the three-way comparison is the dictionary order. *)
Theorem C25_compare_text : forall s t, bytes s -> bytes t -> nonull s -> nonull t ->
  (compare (new s) (new t) < 0 <-> before s t) /\
  (compare (new s) (new t) = 0 <-> s = t) /\
  (compare (new s) (new t) > 0 <-> before t s).
Proof.
  intros s t Bs Bt Ns Nt. pose proof (compare_spec s t Bs Bt) as C. unfold sgn_spec in C.
  rewrite !text_nonull in C by auto.
  assert (~ before s s) by apply before_irrefl.
  destruct C as [[-> [B|[E L]]]|[(-> & E & L)|[-> [B|[E L]]]]].
  - repeat split; intros; auto; try lia. + subst; tauto. + exfalso; eapply before_asym; eauto.
  - subst. lia.
  - subst. repeat split; intros; auto; try lia; tauto.
  - repeat split; intros; auto; try lia. + exfalso; eapply before_asym; eauto. + subst; tauto.
  - subst. lia.
Qed.
Definition seen_eq (s t : list Z) : Prop := text s = text t /\ length s = length t.
Definition seen_lt (s t : list Z) : Prop := before (text s) (text t) \/ (text s = text t /\ (length s < length t)%nat).
Lemma seen_lt_irrefl s : ~ seen_lt s s.
Proof. intros [B|[_ L]]; [exact (before_irrefl _ B)|lia]. Qed.
Lemma seen_lt_trans s t u : seen_lt s t -> seen_lt t u -> seen_lt s u.
Proof.
  intros [B|[E L]] [B'|[E' L']].
  - left. eapply before_trans; eauto.
  - left. congruence.
  - left. congruence.
  - right. split; [congruence|lia].
Qed.
Lemma seen_lt_eq s t u : seen_lt s t -> seen_eq t u -> seen_lt s u.
Proof. intros [B|[E L]] [E' L']; [left; congruence|right; split; [congruence|lia]]. Qed.
Lemma seen_eq_lt s t u : seen_eq s t -> seen_lt t u -> seen_lt s u.
Proof. intros [E' L'] [B|[E L]]; [left; congruence|right; split; [congruence|lia]]. Qed.
Lemma seen_eq_sym s t : seen_eq s t -> seen_eq t s.
Proof. intros []; split; auto. Qed.
Lemma compare_seen s t : bytes s -> bytes t -> let c := compare (new s) (new t) in
  (c = -1 /\ seen_lt s t) \/ (c = 0 /\ seen_eq s t) \/ (c = 1 /\ seen_lt t s).
Proof.
  intros Bs Bt c. destruct (compare_spec s t Bs Bt) as [H|[H|[H [B|[E L]]]]]; auto; right; right; split; auto.
  - left; auto.
  - right; auto.
Qed.
(* On all strings it is still a total preorder (of the text up to a null, then the length),
   and the operators agree with it. *)
Theorem C25_compare_preorder : forall s t u, bytes s -> bytes t -> bytes u ->
  compare (new s) (new s) = 0 /\
  compare (new t) (new s) = - compare (new s) (new t) /\
  (compare (new s) (new t) <= 0 -> compare (new t) (new u) <= 0 -> compare (new s) (new u) <= 0) /\
  (compare (new s) (new t) < 0 -> compare (new t) (new u) <= 0 -> compare (new s) (new u) < 0).
Proof.
  intros s t u Bs Bt Bu.
  pose proof (compare_seen s s Bs Bs) as C0. pose proof (compare_seen s t Bs Bt) as C1.
  pose proof (compare_seen t s Bt Bs) as C2. pose proof (compare_seen t u Bt Bu) as C3.
  pose proof (compare_seen s u Bs Bu) as C4.
  pose proof (seen_lt_irrefl s). pose proof (seen_lt_irrefl t). pose proof (seen_lt_irrefl u).
  repeat split.
  - destruct C0 as [[? ?]|[[? ?]|[? ?]]]; tauto.
  - destruct C1 as [[-> ?]|[[-> ?]|[-> ?]]], C2 as [[-> ?]|[[-> ?]|[-> ?]]]; auto; exfalso;
      eauto using seen_lt_trans, seen_lt_eq, seen_eq_lt, seen_eq_sym.
  - intros A B. destruct C4 as [[-> ?]|[[-> ?]|[E4 ?]]]; try lia. exfalso.
    destruct C1 as [[_ ?]|[[_ ?]|[? ?]]], C3 as [[_ ?]|[[_ ?]|[? ?]]]; try lia;
      eauto using seen_lt_trans, seen_lt_eq, seen_eq_lt, seen_eq_sym.
  - intros A B. destruct C4 as [[-> ?]|[[-> ?]|[E4 ?]]]; try lia; exfalso;
    destruct C1 as [[_ ?]|[[? ?]|[? ?]]], C3 as [[_ ?]|[[_ ?]|[? ?]]]; try lia;
      eauto using seen_lt_trans, seen_lt_eq, seen_eq_lt, seen_eq_sym.
Qed.
Theorem C25_operators : forall s t, bytes s -> bytes t -> nonull s -> nonull t ->
  (cs_eq (new s) (new t) = true <-> s = t) /\
  (cs_lt (new s) (new t) = true <-> before s t) /\
  (cs_le (new s) (new t) = true <-> before s t \/ s = t) /\
  (cs_gt (new s) (new t) = true <-> before t s) /\
  (cs_ge (new s) (new t) = true <-> before t s \/ s = t) /\
  (s = t -> hash_code (new s) = hash_code (new t)).
Proof.
  intros s t Bs Bt Ns Nt. destruct (C25_compare_text s t Bs Bt Ns Nt) as (A & B & C).
  unfold cs_eq, cs_lt, cs_le, cs_gt, cs_ge.
  rewrite andb_true_iff, !Z.eqb_eq, Z.ltb_lt, Z.leb_le, Z.gtb_lt, Z.geb_le.
  repeat split; intros; try tauto; try lia.
  - subst; reflexivity.
  - destruct (Z.eq_dec (compare (new s) (new t)) 0); [tauto|]. left. apply A. lia.
  - assert (compare (new s) (new t) < 0 \/ compare (new s) (new t) = 0) by tauto. lia.
  - apply C. lia.
  - assert (compare (new s) (new t) > 0) by tauto. lia.
  - destruct (Z.eq_dec (compare (new s) (new t)) 0); [tauto|]. left. apply C. lia.
  - assert (compare (new s) (new t) > 0 \/ compare (new s) (new t) = 0) by tauto. lia.
  - subst; reflexivity.
Qed.
(* != is true only of different strings ... *)
Theorem C25_ne_partial : forall s t, bytes s -> bytes t ->
  (cs_ne (new s) (new t) = true -> s <> t) /\
  (* ... and is the negation of == exactly when equal hashes mean equal strings *)
  (nonull s -> nonull t ->
    (cs_ne (new s) (new t) = negb (cs_eq (new s) (new t)) <->
     (hash_code (new s) = hash_code (new t) -> s = t))).
Proof.
  intros s t Bs Bt. unfold cs_ne, cs_eq, hash_code. split.
  - intros E ->. rewrite Z.eqb_refl in E. discriminate.
  - intros Ns Nt. destruct (C25_compare_text s t Bs Bt Ns Nt) as (_ & B & _).
    destruct (Z.eqb_spec (hash (new s)) (hash (new t))) as [H|H]; cbn.
    + destruct (Z.eqb_spec (compare (new s) (new t)) 0) as [C|C]; cbn.
      * split; auto. intros _ _. tauto.
      * split; [discriminate|]. intros K. tauto.
    + destruct (Z.eqb_spec (compare (new s) (new t)) 0) as [C|C]; cbn; [|tauto].
      destruct H. apply B in C. subst. reflexivity.
Qed.
(* pieces and strings from pointers *)
Theorem C25_pieces : forall s b e m r,
  ((b <= e <= length s)%nat -> cs_sub schar (new s) b e = Ok (new (firstn (e - b) (skipn b s)))) /\
  (nonull m -> cs_of_ptr schar (m ++ 0 :: r) = Ok (new m)).
Proof.
  intros s b e m r. split.
  - intros [A B]. unfold cs_sub, len; cbn [str cs_new].
    apply Nat.leb_le in A. apply Nat.leb_le in B. rewrite A, B. reflexivity.
  - intros N. unfold cs_of_ptr. assert (calclen (m ++ 0 :: r) = Ok (length m)) as ->.
    { induction m as [|c m IH]; [reflexivity|]. cbn [app calclen].
      destruct (Z.eqb_spec c 0) as [->|E]; [destruct N; left; auto|].
      rewrite IH; [reflexivity|]. intros I; apply N; right; auto. }
    cbn. rewrite firstn_app, Nat.sub_diag, firstn_all, firstn_O, app_nil_r. reflexivity.
Qed.
End Props.
Print Assumptions C25_hash_partial.
Print Assumptions C25_compare_text.
Print Assumptions C25_compare_preorder.
Print Assumptions C25_operators.
Print Assumptions C25_ne_partial.
Print Assumptions C25_pieces.

(* False of the code: with a signed char a byte above 127 is sign extended. *)
Theorem C25_hash_refuted : exists s, bytes s /\ nonull s /\ hash_code (cs_new true s) <> fnv1a s.
Proof.
  exists [195; 169]. split; [repeat constructor; lia|]. split; [cbv; intuition discriminate|].
  vm_compute. discriminate.
Qed.
(* False of the code: != is not the negation of ==.  Two texts with the same hash, and two
   strings that differ after a null, are neither equal nor different. *)
Definition text1 : list Z := [56; 121; 110; 48; 105; 89; 67; 75; 89; 72; 108; 73; 106; 52; 45; 66; 119; 80; 113; 107]. (* 8yn0iYCKYHlIj4-BwPqk *)
Definition text2 : list Z := [71; 82; 101; 76; 85; 114; 77; 52; 119; 77; 113; 102; 103; 57; 121; 122; 86; 51; 75; 81]. (* GReLUrM4wMqfg9yzV3KQ *)
Theorem C25_ne_refuted : forall schar,
  (exists s t, bytes s /\ bytes t /\ nonull s /\ nonull t /\ s <> t /\
     cs_eq (cs_new schar s) (cs_new schar t) = false /\ cs_ne (cs_new schar s) (cs_new schar t) = false) /\
  (exists s t, bytes s /\ bytes t /\ s <> t /\ compare (cs_new schar s) (cs_new schar t) = 0 /\
     cs_eq (cs_new schar s) (cs_new schar t) = false /\ cs_ne (cs_new schar s) (cs_new schar t) = false).
Proof.
  intros schar. split.
  - exists text1, text2. unfold text1, text2, nonull, bytes. split; [repeat constructor; lia|]. split; [repeat constructor; lia|].
    split; [simpl; intuition discriminate|]. split; [simpl; intuition discriminate|].
    split; [discriminate|]. destruct schar; vm_compute; auto.
  - exists [97; 0; 98], [97; 0; 99]. unfold bytes. split; [repeat constructor; lia|]. split; [repeat constructor; lia|].
    split; [discriminate|]. destruct schar; vm_compute; auto.
Qed.
Print Assumptions C25_hash_refuted.
Print Assumptions C25_ne_refuted.

(* FNV-1a of "foobar" is 0x85944171f73967e8, and the hypotheses are met by real texts. *)
Example C25_demo : forall schar,
  bytes [102;111;111] /\ nonull [102;111;111] /\
  hash_code (cs_new schar [102;111;111;98;97;114]) = 0x85944171f73967e8 /\
  cs_lt (cs_new schar [102;111;111]) (cs_new schar [102;111;111;98]) = true /\
  cs_of_ptr schar [102;111;0;7] = Ok (cs_new schar [102;111]).
Proof.
  intros schar. split; [repeat constructor; lia|]. split; [unfold nonull; simpl; intuition discriminate|].
  destruct schar; vm_compute; auto.
Qed.
