(* Proofs about the matrices. *)
From Coq Require Import List Lia Bool Arith Field.
From Verif Require Import Base LinBase MatrixModel MatrixSpec.
Import ListNotations.
Local Open Scope nat_scope.

Lemma wp_of {A} (m : outcome A) (a : A) (Q : A -> Prop) E : m = Ok a -> Q a -> wp m Q E.
Proof. now intros ->. Qed.
Lemma wp_ex {A} (m : outcome A) (Q : A -> Prop) : wp m Q (fun _ => False) -> exists a, m = Ok a /\ Q a.
Proof. destruct m; cbn; intros H; try contradiction. eauto. Qed.
Lemma for_ext {S : Type} lo hi (f g : nat -> S -> outcome S) s :
  (forall i s, lo <= i < hi -> f i s = g i s) -> for_up lo hi f s = for_up lo hi g s.
Proof.
  unfold for_up. remember (hi - lo) as k eqn:Ek. revert lo s Ek. induction k; intros lo s Ek H; cbn [loopn]; auto.
  rewrite H by lia. destruct (g lo s); cbn [bind]; auto. apply IHk; [lia|]. intros. apply H. lia.
Qed.

Section Proofs.
Context {K : ofield}.
Local Open Scope lin_scope.
Add Field Kf31 : (f_th K).
Notation fn := (nat -> nat -> K).

Lemma mat_vec M N (l : list K) v : vec (M * N) l v <-> mat M N l (fun i j => v (i * N + j)%nat).
Proof.
  split; intros [L H]; split; auto.
  - intros i j I J. apply H. now apply idx_lt.
  - intros k Lk. assert (N <> 0)%nat by nia.
    rewrite (Nat.div_mod k N) by auto. rewrite (Nat.mul_comm N). apply H.
    + apply Nat.div_lt_upper_bound; lia.
    + now apply Nat.mod_upper_bound.
Qed.
Lemma vec_of_mat M N (l : list K) A : mat M N l A -> vec (M * N) l (fun k => A (k / N)%nat (k mod N)%nat).
Proof.
  intros H. apply mat_vec. eapply mat_ext; eauto. intros i j I J.
  rewrite Nat.div_add_l, Nat.div_small, Nat.add_0_r by lia.
  rewrite Nat.add_comm, Nat.mod_add, Nat.mod_small by lia. reflexivity.
Qed.
Lemma tget_ok M N (l : list K) v i j : vec (M * N) l v -> i < M -> j < N -> tget N l i j = Ok (v (i * N + j)%nat).
Proof.
  intros V I J. unfold tget. destruct (Nat.ltb_spec j N); [|lia].
  apply (vec_get _ _ _ _ V). now apply idx_lt.
Qed.

(* elements before k are done *)
Definition mix (v F : nat -> K) (k : nat) : nat -> K := fun r => if r <? k then F r else v r.
Lemma mix_0 v F k : k = 0%nat -> forall r, mix v F k r = v r.
Proof. intros -> r. reflexivity. Qed.
Lemma mix_step v F k n l l' : vec n l (mix v F k) -> vec n l' (updv (mix v F k) k (F k)) -> vec n l' (mix v F (k + 1)).
Proof.
  intros V V'. eapply vec_ext; eauto. intros r R. unfold updv, mix. bcases; subst; auto.
Qed.
Lemma mix_end v F n l : vec n l (mix v F n) -> vec n l F.
Proof. intros V. eapply vec_ext; eauto. intros r R. unfold mix. bcases; auto. Qed.

Section Run.
Variables (M N : nat) (v F : nat -> K) (f : list K -> nat -> nat -> outcome K).
Hypothesis H : forall l i j, i < M -> j < N -> vec (M * N) l (mix v F (i * N + j)) -> f l i j = Ok (F (i * N + j)%nat).

Lemma step_wp l i j E : i < M -> j < N -> vec (M * N) l (mix v F (i * N + j)) ->
  wp (let* x := f l i j in tset N l i j x) (fun l' => vec (M * N) l' (mix v F (i * N + j + 1))) E.
Proof.
  intros I J V. apply wp_bind. eapply wp_of; [now apply H|].
  unfold tset. destruct (Nat.ltb_spec j N); [|lia].
  eapply (wp_vset _ _ V). { now apply idx_lt. }
  intros l' V'. eapply mix_step; eauto.
Qed.
Lemma assignR_wp i : S i <= M -> forall j l E, j <= N -> vec (M * N) l (mix v F (i * N)) ->
  wp (assignR N f (S i) j l) (fun l' => vec (M * N) l' (mix v F (i * N + j))) E.
Proof.
  intros I. induction j; intros l E J V; cbn [assignR].
  - cbn. now rewrite Nat.add_0_r.
  - eapply wp_seq; [apply IHj; auto; lia|]. cbn beta. intros l1 V1.
    replace (S i - 1)%nat with i by lia.
    replace (i * N + S j)%nat with (i * N + j + 1)%nat by lia. apply step_wp; auto; lia.
Qed.
Lemma assign_wp : forall i l E, i <= M -> vec (M * N) l v ->
  wp (assign N f i N l) (fun l' => vec (M * N) l' (mix v F (i * N))) E.
Proof.
  induction i; intros l E I V; cbn [assign].
  - cbn. eapply vec_ext; eauto.
  - eapply wp_seq; [apply IHi; auto; lia|]. cbn beta. intros l1 V1.
    replace (S i * N)%nat with (i * N + N)%nat by lia. apply assignR_wp; auto.
Qed.
Lemma assign_loop_wp l E : vec (M * N) l v ->
  wp (assign_loop M N f l) (fun l' => vec (M * N) l' (mix v F (M * N))) E.
Proof.
  intros V. unfold assign_loop. apply wp_for with (P := fun i l => vec (M * N) l (mix v F (i * N))).
  - lia.
  - eapply vec_ext; eauto.
  - intros i l1 Li V1. replace ((i + 1) * N)%nat with (i * N + N)%nat by lia.
    apply wp_for with (P := fun j l => vec (M * N) l (mix v F (i * N + j))).
    + lia.
    + now rewrite Nat.add_0_r.
    + intros j l2 Lj V2. rewrite Nat.add_assoc. apply step_wp; auto; lia.
Qed.
Lemma run_ok meta l : vec (M * N) l v -> exists l', run meta M N f l = Ok l' /\ vec (M * N) l' F.
Proof.
  intros V. apply wp_ex. unfold run. destruct meta.
  - eapply wp_mono; [apply assign_wp; auto|]. cbn beta. intros l' V'. now apply mix_end with (v := v).
  - eapply wp_mono; [apply assign_loop_wp; auto|]. cbn beta. intros l' V'. now apply mix_end with (v := v).
Qed.
End Run.

(* ---------- expressions ---------- *)

Lemma means_shape e M N (A : fn) : means e M N A -> @shape K e = Some (M, N) /\ 0 < M /\ 0 < N.
Proof.
  induction 1; cbn; auto;
    repeat match goal with H : _ /\ _ |- _ => destruct H end; auto.
  - match goal with H : shape _ = _ |- _ => rewrite H end. auto.
  - repeat match goal with H : shape _ = _ |- _ => rewrite H end. rewrite !Nat.eqb_refl. auto.
  - repeat match goal with H : shape _ = _ |- _ => rewrite H end. rewrite !Nat.eqb_refl. auto.
  - repeat match goal with H : shape _ = _ |- _ => rewrite H end. rewrite !Nat.eqb_refl. auto.
  - match goal with H : shape _ = _ |- _ => rewrite H end. rewrite !Nat.eqb_refl. auto.
Qed.

Lemma meta_prod_ok f g i j (a b : nat -> K) : forall k,
  (forall p, p <= k -> f i p = Ok (a p)) -> (forall p, p <= k -> g p j = Ok (b p)) ->
  meta_prod f g k i j = Ok (sumr 0 (S k) (fun p => a p * b p)).
Proof.
  induction k; intros Ha Hb; cbn [meta_prod].
  - rewrite Ha, Hb by lia. cbn [bind]. f_equal. rewrite sumr_S, sumr_nil by lia. ring.
  - rewrite Ha, Hb by lia. cbn [bind]. rewrite IHk by (intros; auto with arith). cbn [bind].
    f_equal. rewrite (sumr_S 0 (S k)) by lia. ring.
Qed.
Lemma loop_prod_ok f g i j (a b : nat -> K) n :
  (forall p, p < n -> f i p = Ok (a p)) -> (forall p, p < n -> g p j = Ok (b p)) ->
  loop_prod f g n i j = Ok (sumr 0 n (fun p => a p * b p)).
Proof.
  intros Ha Hb. unfold loop_prod.
  assert (W : wp (for_up 0 n (fun k m => let* x := f i k in let* y := g k j in Ok (m + x * y)) f0)
    (fun m => m = sumr 0 n (fun p => a p * b p)) (fun _ => False)).
  { apply wp_for with (P := fun k m => m = sumr 0 k (fun p => a p * b p)).
    - lia.
    - now rewrite sumr_nil.
    - intros k m Lk ->. rewrite Ha, Hb by lia. cbn. rewrite Nat.add_1_r, sumr_S by lia. reflexivity. }
  apply wp_ex in W. destruct W as (m & -> & ->). reflexivity.
Qed.

Lemma ev_ok meta e M N (A : fn) : means e M N A -> forall i j, i < M -> j < N -> ev meta e i j = Ok (A i j).
Proof.
  induction 1; intros i j I J; cbn [ev];
    try (rewrite IHmeans by auto; cbn [bind]; reflexivity).
  - unfold tget. destruct (Nat.ltb_spec j N); [|lia]. now apply (mat_get M N).
  - rewrite divc_ok by auto. cbn [bind]. cbn [ev] in IHmeans. rewrite IHmeans by auto. cbn [bind].
    f_equal. field. auto.
  - rewrite IHmeans by auto. cbn [bind]. apply divc_ok. auto.
  - rewrite IHmeans1, IHmeans2 by auto. reflexivity.
  - rewrite IHmeans1, IHmeans2 by auto. reflexivity.
  - destruct (means_shape _ _ _ _ H) as (Es & _ & L0). unfold ncols. rewrite Es.
    destruct L as [|k]; [lia|]. destruct meta.
    + apply (meta_prod_ok _ _ _ _ (fun p => A i p) (fun p => B p j)); intros; [apply IHmeans1|apply IHmeans2]; auto; lia.
    + apply (loop_prod_ok _ _ _ _ (fun p => A i p) (fun p => B p j)); intros; [apply IHmeans1|apply IHmeans2]; auto; lia.
Qed.
Lemma flat_ev meta e M N (A : fn) : means e M N A -> forall i j, i < M -> j < N ->
  ev meta e i j = Ok (A ((i * N + j) / N)%nat ((i * N + j) mod N)%nat).
Proof.
  intros Me i j I J. rewrite (ev_ok _ _ _ _ _ Me) by auto.
  rewrite Nat.div_add_l, Nat.div_small, Nat.add_0_r by lia.
  rewrite (Nat.add_comm (i * N)), Nat.mod_add, Nat.mod_small by lia. reflexivity.
Qed.
Lemma unflat M N l (G : nat -> nat -> K) : vec (M * N) l (fun k => G (k / N)%nat (k mod N)%nat) -> mat M N l G.
Proof.
  intros V. apply mat_vec in V. eapply mat_ext; eauto. intros i j I J. cbn beta.
  rewrite Nat.div_add_l, Nat.div_small, Nat.add_0_r by lia.
  rewrite (Nat.add_comm (i * N)), Nat.mod_add, Nat.mod_small by lia. reflexivity.
Qed.

Lemma set_expr_ok meta e M N (A : fn) l : means e M N A -> length l = (M * N)%nat ->
  exists l', set_expr meta M N l e = Ok l' /\ mat M N l' A.
Proof.
  intros Me L. unfold set_expr.
  destruct (run_ok M N (fun k => nth k l f0) (fun k => A (k / N)%nat (k mod N)%nat) (fun _ i j => ev meta e i j)) with (meta := meta) (l := l)
    as (l' & E & V).
  - intros. now apply (flat_ev meta e M N).
  - now apply vec_of.
  - exists l'. split; auto. now apply unflat.
Qed.
(* the element that is changed next has its old value *)
Lemma cur_ok M N l (v F : nat -> K) i j : i < M -> j < N -> vec (M * N) l (mix v F (i * N + j)) ->
  tget N l i j = Ok (v (i * N + j)%nat).
Proof.
  intros I J V. rewrite (tget_ok M N l _ i j V) by auto. unfold mix.
  destruct (Nat.ltb_spec (i * N + j) (i * N + j)); [lia|reflexivity].
Qed.
Lemma acc_ok (op : K -> K -> K) meta M N l (A : fn) (y : list K -> nat -> nat -> outcome K) Y :
  mat M N l A ->
  (forall l i j (v : nat -> K), i < M -> j < N ->
     (forall i j, i < M -> j < N -> v (i * N + j)%nat = A i j) ->
     vec (M * N) l (mix v (fun k => op (v k) (Y k)) (i * N + j)) -> y l i j = Ok (Y (i * N + j)%nat)) ->
  exists l', run meta M N (fun l i j => let* y := y l i j in let* x := tget N l i j in Ok (op x y)) l = Ok l' /\
    mat M N l' (fun i j => op (A i j) (Y (i * N + j)%nat)).
Proof.
  intros Ma Hy.
  assert (HA : forall i j, i < M -> j < N -> A ((i * N + j) / N)%nat ((i * N + j) mod N)%nat = A i j).
  { intros i j I J. rewrite Nat.div_add_l, Nat.div_small, Nat.add_0_r by lia.
    rewrite (Nat.add_comm (i * N)), Nat.mod_add, Nat.mod_small by lia. reflexivity. }
  destruct (run_ok M N (fun k => A (k / N)%nat (k mod N)%nat)
    (fun k => op (A (k / N)%nat (k mod N)%nat) (Y k))
    (fun l i j => let* y := y l i j in let* x := tget N l i j in Ok (op x y))) with (meta := meta) (l := l)
    as (l' & E & V).
  - intros l1 i j I J V. rewrite (Hy _ _ _ _ I J HA V). cbn [bind]. rewrite (cur_ok _ _ _ _ _ _ _ I J V). reflexivity.
  - now apply vec_of_mat.
  - exists l'. split; auto. apply mat_vec in V. eapply mat_ext; eauto. intros i j I J. cbn beta.
    now rewrite HA.
Qed.
Lemma acc_expr_ok (op : K -> K -> K) meta e M N l (A B : fn) : mat M N l A -> means e M N B ->
  exists l', run meta M N (fun l i j => let* y := ev meta e i j in let* x := tget N l i j in Ok (op x y)) l = Ok l' /\
    mat M N l' (fun i j => op (A i j) (B i j)).
Proof.
  intros Ma Me.
  destruct (acc_ok op meta M N l A (fun _ => ev meta e) (fun k => B (k / N)%nat (k mod N)%nat) Ma) as (l' & E & R).
  - intros. now apply (flat_ev meta e M N).
  - exists l'. split; auto. eapply mat_ext; eauto. intros i j I J. cbn beta.
    f_equal. rewrite Nat.div_add_l, Nat.div_small, Nat.add_0_r by lia.
    rewrite (Nat.add_comm (i * N)), Nat.mod_add, Nat.mod_small by lia. reflexivity.
Qed.
Lemma acc_mat_ok (op : K -> K -> K) meta M N l (A B : fn) src : mat M N l A ->
  match src with None => forall i j, i < M -> j < N -> B i j = A i j | Some b => mat M N b B end ->
  exists l', run meta M N (fun l i j => let* y := from N src l i j in let* x := tget N l i j in Ok (op x y)) l = Ok l' /\
    mat M N l' (fun i j => op (A i j) (B i j)).
Proof.
  intros Ma Hs.
  assert (HB : forall i j, i < M -> j < N -> B ((i * N + j) / N)%nat ((i * N + j) mod N)%nat = B i j).
  { intros i j I J. rewrite Nat.div_add_l, Nat.div_small, Nat.add_0_r by lia.
    rewrite (Nat.add_comm (i * N)), Nat.mod_add, Nat.mod_small by lia. reflexivity. }
  destruct (acc_ok op meta M N l A (fun l => from N src l) (fun k => B (k / N)%nat (k mod N)%nat) Ma) as (l' & E & R).
  - intros l1 i j v I J Hv V. cbn beta. rewrite HB by auto. unfold from. destruct src as [b|].
    + unfold tget. destruct (Nat.ltb_spec j N); [|lia]. now apply (mat_get M N).
    + rewrite (cur_ok _ _ _ _ _ _ _ I J V), Hv, Hs; auto.
  - exists l'. split; auto. eapply mat_ext; eauto. intros i j I J. cbn beta. now rewrite HB.
Qed.
Lemma set_mat_ok M N l (A B : fn) src : mat M N l A ->
  match src with None => forall i j, i < M -> j < N -> B i j = A i j | Some b => mat M N b B end ->
  exists l', set_mat M N l src = Ok l' /\ mat M N l' B.
Proof.
  intros Ma Hs. unfold set_mat.
  destruct (run_ok M N (fun k => A (k / N)%nat (k mod N)%nat) (fun k => B (k / N)%nat (k mod N)%nat)
    (fun l i j => from N src l i j)) with (meta := true) (l := l) as (l' & E & V).
  - intros l1 i j I J V. 
    assert (HX : forall X : fn, X ((i * N + j) / N)%nat ((i * N + j) mod N)%nat = X i j).
    { intros X. rewrite Nat.div_add_l, Nat.div_small, Nat.add_0_r by lia.
      rewrite (Nat.add_comm (i * N)), Nat.mod_add, Nat.mod_small by lia. reflexivity. }
    rewrite HX. unfold from. destruct src as [b|].
    + unfold tget. destruct (Nat.ltb_spec j N); [|lia]. now apply (mat_get M N).
    + rewrite (cur_ok _ _ _ _ _ _ _ I J V), HX, Hs; auto.
  - now apply vec_of_mat.
  - exists l'. split; auto. now apply unflat.
Qed.
Lemma fill_ok M N l (d : K) eye : length l = (M * N)%nat ->
  exists l', fill M N l d eye = Ok l' /\ mat M N l' (fun i j => if eye then if i =? j then d else f0 else d).
Proof.
  intros L. unfold fill.
  destruct (run_ok M N (fun k => nth k l f0) (fun k => if negb eye || ((k / N) =? (k mod N))%nat then d else f0)
    (fun _ i j => Ok (if negb eye || (i =? j) then d else f0))) with (meta := false) (l := l) as (l' & E & V).
  - intros l1 i j I J V. rewrite Nat.div_add_l, Nat.div_small, Nat.add_0_r by lia.
    rewrite (Nat.add_comm (i * N)), Nat.mod_add, Nat.mod_small by lia. reflexivity.
  - now apply vec_of.
  - exists l'. split; auto. apply (unflat M N l' (fun i j => if negb eye || (i =? j) then d else f0)) in V.
    eapply mat_ext; eauto. intros i j I J. cbn beta. destruct eye; reflexivity.
Qed.

(* a number, or an element of the matrix *)
Definition sval_of (N : nat) (A : fn) (s : scal) : K :=
  match s with Val d => d | Elem p => A (p / N)%nat (p mod N)%nat end.
Definition insize (n : nat) (s : @scal K) : Prop := match s with Val _ => True | Elem p => p < n end.
(* what is used for element k: the value of the reference when element k is changed *)
Definition seen (op : K -> K -> K) (N : nat) (A : fn) (s : scal) (k : nat) : K :=
  match s with
  | Val d => d
  | Elem p => let v := A (p / N)%nat (p mod N)%nat in if k <=? p then v else op v v
  end.
Lemma acc_d_ok (op : K -> K -> K) meta M N l (A : fn) s : mat M N l A -> insize (M * N) s ->
  exists l', run meta M N (fun l i j => let* d := sval l s in let* x := tget N l i j in Ok (op x d)) l = Ok l' /\
    mat M N l' (fun i j => op (A i j) (seen op N A s (i * N + j))).
Proof.
  intros Ma Is.
  destruct (acc_ok op meta M N l A (fun l _ _ => sval l s) (seen op N A s) Ma) as (l' & E & R); eauto.
  intros l1 i j v I J Hv V. destruct s as [d|p]; cbn [sval seen]; auto.
  cbn in Is. rewrite (vec_get _ _ _ _ V Is). f_equal.
  assert (Hp : v p = A (p / N)%nat (p mod N)%nat).
  { assert (N <> 0)%nat by nia. rewrite <- Hv.
    - f_equal. rewrite (Nat.div_mod p N) at 1 by auto. lia.
    - apply Nat.div_lt_upper_bound; lia.
    - now apply Nat.mod_upper_bound. }
  unfold mix, seen. rewrite Nat.leb_refl.
  destruct (Nat.ltb_spec p (i * N + j)), (Nat.leb_spec (i * N + j) p); try lia; rewrite Hp; reflexivity.
Qed.
Lemma acc_v_ok (op : K -> K -> K) meta M N l (A : fn) d : mat M N l A ->
  exists l', run meta M N (fun l i j => let* x := tget N l i j in Ok (op x d)) l = Ok l' /\
    mat M N l' (fun i j => op (A i j) d).
Proof.
  intros Ma.
  destruct (acc_ok op meta M N l A (fun l _ _ => Ok d) (fun _ => d) Ma) as (l' & E & R); eauto.
Qed.
Lemma sval_ok M N l (A : fn) s : mat M N l A -> insize (M * N) s -> sval l s = Ok (sval_of N A s).
Proof.
  intros Ma Is. destruct s as [d|p]; cbn; auto. cbn in Is.
  apply vec_of_mat in Ma. now apply (vec_get _ _ _ _ Ma).
Qed.
Lemma set_d_ok meta M N l (A : fn) s : mat M N l A -> insize (M * N) s ->
  exists l', set_d meta M N l s = Ok l' /\ mat M N l' (fun _ _ => sval_of N A s).
Proof.
  intros Ma Is. unfold set_d.
  destruct (run_ok M N (fun k => A (k / N)%nat (k mod N)%nat) (fun k => sval_of N A s)
    (fun l i j => sval l s)) with (meta := meta) (l := l) as (l' & E & V).
  - intros l1 i j I J V. destruct s as [d|p]; cbn [sval sval_of]; auto. cbn in Is.
    rewrite (vec_get _ _ _ _ V Is). f_equal. unfold mix. now destruct (p <? i * N + j)%nat.
  - now apply vec_of_mat.
  - exists l'. split; auto. now apply mat_vec in V.
Qed.

(* ---------- dense matrices ---------- *)

Lemma new_by_ok m n raw f (F : fn) : length raw = (m * n)%nat ->
  (forall i j, i < m -> j < n -> f i j = Ok (F i j)) ->
  exists l, new_by m n raw f = Ok {| dm := m; dn := n; dd := l |} /\ mat m n l F.
Proof.
  intros L Hf. unfold new_by.
  destruct (run_ok m n (fun k => nth k raw f0) (fun k => F (k / n)%nat (k mod n)%nat) (fun _ => f)) with (meta := false) (l := raw)
    as (l & E & V).
  - intros l1 i j I J V. rewrite Hf by auto. rewrite Nat.div_add_l, Nat.div_small, Nat.add_0_r by lia.
    rewrite (Nat.add_comm (i * n)), Nat.mod_add, Nat.mod_small by lia. reflexivity.
  - now apply vec_of.
  - exists l. split; [|now apply unflat].
    assert (X : for_up 0 m (fun i l => for_up 0 n (fun j l => let* x := f i j in aset l (i * n + j) x) l) raw = Ok l).
    { rewrite <- E. unfold run, assign_loop. apply for_ext. intros i s I. apply for_ext. intros j t J.
      unfold tset. destruct (Nat.ltb_spec j n); [reflexivity|lia]. }
    rewrite X. reflexivity.
Qed.
Lemma new_fill_ok m n raw (d : K) b : length raw = (m * n)%nat ->
  exists l, new_fill m n raw d b = Ok {| dm := m; dn := n; dd := l |} /\
    mat m n l (fun i j => if b then if i =? j then d else f0 else d).
Proof.
  intros L. destruct (new_by_ok m n raw (fun i j => Ok (if negb b || (i =? j) then d else f0))
    (fun i j => if b then if i =? j then d else f0 else d) L) as (l & E & R).
  - intros. destruct b; reflexivity.
  - exists l. split; auto.
Qed.
Lemma flat_wp n (v F : nat -> K) body l E : vec n l v ->
  (forall i l, i < n -> vec n l (mix v F i) -> wp (body i l) (fun l' => vec n l' (mix v F (i + 1))) E) ->
  wp (for_up 0 n body l) (fun l' => vec n l' F) E.
Proof.
  intros V H. eapply wp_mono; [apply wp_for with (P := fun i l => vec n l (mix v F i))|].
  - lia.
  - eapply vec_ext; eauto.
  - intros i l1 Li V1. apply H; auto. lia.
  - cbn beta. intros l1 V1. now apply mix_end with (v := v).
Qed.
(* data[i] = op(data[i], y) *)
Lemma put_wp n (v F : nat -> K) (op : K -> K -> K) l i y E : i < n -> vec n l (mix v F i) -> F i = op (v i) y ->
  wp (let* x := aget l i in aset l i (op x y)) (fun l' => vec n l' (mix v F (i + 1))) E.
Proof.
  intros I V EF. apply wp_bind. eapply (wp_vget _ _ V I). cbn beta.
  eapply (wp_vset _ _ V I). intros l' V'. eapply mix_step; eauto.
  eapply vec_ext; eauto. intros r R. unfold updv. destruct (r =? i); auto. rewrite EF. unfold mix.
  now rewrite Nat.ltb_irrefl.
Qed.
Lemma elem_seen (op : K -> K -> K) N n l (A : fn) s i :
  vec n l (mix (fun k => A (k / N)%nat (k mod N)%nat) (fun k => op (A (k / N)%nat (k mod N)%nat) (seen op N A s k)) i) ->
  insize n s -> sval l s = Ok (seen op N A s i).
Proof.
  intros V Is. destruct s as [d|p]; cbn [sval seen]; auto. cbn in Is.
  rewrite (vec_get _ _ _ _ V Is). f_equal. unfold mix, seen. rewrite Nat.leb_refl.
  destruct (Nat.ltb_spec p i), (Nat.leb_spec i p); try lia; reflexivity.
Qed.
Lemma dense_addd_ok m n l (A : fn) s : mat m n l A -> insize (m * n) s ->
  exists l', dense_addd {| dm := m; dn := n; dd := l |} s = Ok {| dm := m; dn := n; dd := l' |} /\
    mat m n l' (fun i j => A i j + seen fadd n A s (i * n + j)).
Proof.
  intros Ma Is. unfold dense_addd. cbn [dm dn dd].
  set (v := fun k => A (k / n)%nat (k mod n)%nat). set (F := fun k => v k + seen fadd n A s k).
  assert (W : wp (for_up 0 (m * n) (fun i l => let* d := sval l s in
      if feqb d f0 then Ok l else let* x := aget l i in aset l i (x + d)) l)
    (fun l' => vec (m * n) l' F) (fun _ => False)).
  { apply flat_wp with (v := v). { now apply vec_of_mat. }
    intros i l1 Li V1. apply wp_bind. eapply wp_of; [eapply (elem_seen fadd n); eauto|]. cbn beta.
    destruct (feqb_spec (seen fadd n A s i) f0) as [Z|Z].
    - cbn. eapply vec_ext; eauto. intros r R. unfold mix. bcases; subst; auto.
      assert (r = i) by lia. subst r. unfold F. rewrite Z. ring.
    - apply put_wp with (op := fadd); auto. }
  apply wp_ex in W. destruct W as (l' & E & V). rewrite E. cbn. exists l'. split; auto.
  apply mat_vec in V. eapply mat_ext; eauto. intros i j I J. unfold F, v.
  rewrite Nat.div_add_l, Nat.div_small, Nat.add_0_r by lia.
  rewrite (Nat.add_comm (i * n)), Nat.mod_add, Nat.mod_small by lia. now rewrite (Nat.add_comm j).
Qed.
Lemma dense_muld_ok m n l (A : fn) s : mat m n l A -> insize (m * n) s ->
  exists l', dense_muld {| dm := m; dn := n; dd := l |} s = Ok {| dm := m; dn := n; dd := l' |} /\
    mat m n l' (fun i j => A i j * seen fmul n A s (i * n + j)).
Proof.
  intros Ma Is. unfold dense_muld. cbn [dm dn dd].
  set (v := fun k => A (k / n)%nat (k mod n)%nat). set (F := fun k => v k * seen fmul n A s k).
  rewrite (sval_ok m n l A s) by auto. cbn [bind].
  assert (W : wp (if feqb (sval_of n A s) f0 then for_up 0 (m * n) (fun i l => aset l i f0) l
    else for_up 0 (m * n) (fun i l => let* d := sval l s in let* x := aget l i in aset l i (x * d)) l)
    (fun l' => vec (m * n) l' F) (fun _ => False)).
  { destruct (feqb_spec (sval_of n A s) f0) as [Z|Z].
    - apply flat_wp with (v := v). { now apply vec_of_mat. }
      intros i l1 Li V1. eapply (wp_vset _ _ V1 Li). intros l2 V2. eapply mix_step; eauto.
      eapply vec_ext; eauto. intros r R. unfold updv. destruct (r =? i); auto.
      unfold F. destruct s as [d|p]; cbn [sval_of seen] in *; rewrite Z; [ring|].
      destruct (i <=? p); ring.
    - apply flat_wp with (v := v). { now apply vec_of_mat. }
      intros i l1 Li V1. apply wp_bind. eapply wp_of; [eapply (elem_seen fmul n); eauto|]. cbn beta.
      apply put_wp with (op := fmul); auto. }
  apply wp_ex in W. destruct W as (l' & E & V). rewrite E. cbn. exists l'. split; auto.
  apply mat_vec in V. eapply mat_ext; eauto. intros i j I J. unfold F, v.
  rewrite Nat.div_add_l, Nat.div_small, Nat.add_0_r by lia.
  rewrite (Nat.add_comm (i * n)), Nat.mod_add, Nat.mod_small by lia. now rewrite (Nat.add_comm j).
Qed.
Lemma dense_acc_ok (op : K -> K -> K) m n l (A B : fn) src : mat m n l A ->
  match src with None => forall i j, i < m -> j < n -> B i j = A i j
  | Some b => exists lb, b = {| dm := m; dn := n; dd := lb |} /\ mat m n lb B end ->
  exists l', dense_acc op {| dm := m; dn := n; dd := l |} src = Ok {| dm := m; dn := n; dd := l' |} /\
    mat m n l' (fun i j => op (A i j) (B i j)).
Proof.
  intros Ma Hs. unfold dense_acc. cbn [dm dn dd].
  set (v := fun k => A (k / n)%nat (k mod n)%nat). set (w := fun k => B (k / n)%nat (k mod n)%nat).
  assert (W : wp (for_up 0 (m * n) (fun i l => let* y := other l src i in let* x := aget l i in aset l i (op x y)) l)
    (fun l' => vec (m * n) l' (fun k => op (v k) (w k))) (fun _ => False)).
  { apply flat_wp with (v := v). { now apply vec_of_mat. }
    intros i l1 Li V1. apply wp_bind. apply wp_of with (a := w i).
    - unfold other. destruct src as [b|].
      + destruct Hs as (lb & -> & Mb). cbn [dd]. apply vec_of_mat in Mb. now apply (vec_get _ _ _ _ Mb).
      + rewrite (vec_get _ _ _ _ V1 Li). f_equal. unfold mix. rewrite Nat.ltb_irrefl. unfold v, w.
        assert (n <> 0)%nat by nia. symmetry. apply Hs.
        * apply Nat.div_lt_upper_bound; lia.
        * now apply Nat.mod_upper_bound.
    - apply put_wp with (op := op); auto. }
  apply wp_ex in W. destruct W as (l' & E & V). rewrite E. cbn. exists l'. split; auto.
  apply (unflat m n l' (fun i j => op (A i j) (B i j))) in V. exact V.
Qed.
Lemma dget_ok m n l (A : fn) i j : mat m n l A -> i < m -> j < n -> dget {| dm := m; dn := n; dd := l |} i j = Ok (A i j).
Proof. intros Ma I J. unfold dget. cbn. now apply (mat_get m n). Qed.
Lemma dense_mul_ok m k n la lb raw (A B : fn) : mat m k la A -> mat k n lb B -> length raw = (m * n)%nat ->
  exists l, dense_mul {| dm := m; dn := k; dd := la |} {| dm := k; dn := n; dd := lb |} raw = Ok {| dm := m; dn := n; dd := l |} /\
    mat m n l (fun i j => sumr 0 k (fun p => A i p * B p j)).
Proof.
  intros Ma Mb L. unfold dense_mul. cbn [dm dn].
  apply (new_by_ok m n raw _ (fun i j => sumr 0 k (fun p => A i p * B p j)) L). intros i j I J.
  apply (loop_prod_ok (dget _) (dget _) i j (fun p => A i p) (fun p => B p j) k).
  - intros. now apply dget_ok.
  - intros. now apply dget_ok.
Qed.

(* ---------- later evaluation ---------- *)

Lemma rows_cols_ok s m n (A : fn) : smeans s m n A -> rows_cols s false = Ok m /\ rows_cols s true = Ok n.
Proof. induction 1; cbn; intuition. Qed.
Lemma at_ok s m n (A : fn) : smeans s m n A -> plain s -> forall i j, i < m -> j < n -> at_ s i j = Ok (A i j).
Proof.
  induction 1; intros P i j I J; cbn in P |- *; auto; try contradiction.
  - now apply dget_ok.
  - now rewrite IHsmeans.
Qed.
Lemma held_plain (s : @store K) : held s -> plain s.
Proof.
  revert s. fix IH 1. intros s. destruct s as [a|m n|n|op [s|] o]; cbn; auto; destruct op; auto; try contradiction.
Qed.
(* an operator is made dense by a copy of its first operand *)
Lemma getdense_op op s o m n (A : fn) raw : smeans s m n A -> plain s ->
  rows_cols (SOp op (Some s) o) false = Ok m -> rows_cols (SOp op (Some s) o) true = Ok n ->
  length raw = (m * n)%nat ->
  exists l, getdense (SOp op (Some s) o) raw = Ok {| dm := m; dn := n; dd := l |} /\ mat m n l A.
Proof.
  intros Sm P R C L. unfold getdense. rewrite R, C. cbn [bind].
  apply new_by_ok; auto. intros. now apply (at_ok s m n).
Qed.
Lemma getdense_ok s m n (A : fn) raw : smeans s m n A -> held s -> length raw = (m * n)%nat ->
  exists l, getdense s raw = Ok {| dm := m; dn := n; dd := l |} /\ mat m n l A.
Proof.
  intros Sm Hh L. destruct Sm; cbn in Hh; try contradiction.
  - exists l. split; auto.
  - destruct (new_fill_ok m n raw f0 false L) as (l & E & R). exists l. split; auto.
  - destruct (new_fill_ok n n raw f1 true L) as (l & E & R). exists l. split; auto.
  - destruct (rows_cols_ok _ _ _ _ Sm). apply getdense_op; auto. now apply held_plain.
  - destruct (rows_cols_ok _ _ _ _ Sm). apply getdense_op; auto. now apply held_plain.
Qed.
Lemma same_row_ok x y i (A B : nat -> K) : forall k j,
  (forall c, j <= c < j + k -> mat_at x i c = Ok (A c) /\ mat_at y i c = Ok (B c)) ->
  exists b, same_row x y i j k = Ok b /\ (b = true <-> forall c, j <= c < j + k -> A c = B c).
Proof.
  induction k; intros j H; cbn [same_row].
  - exists true. split; auto. split; auto. intros. lia.
  - destruct (H j) as [-> ->]; [lia|]. cbn [bind]. destruct (feqb_spec (A j) (B j)) as [E|E].
    + destruct (IHk (j + 1)%nat) as (b & Eb & Hb). { intros. apply H. lia. }
      exists b. split; auto. rewrite Hb. split; intros X c Lc.
      * destruct (Nat.eq_dec c j) as [->|]; auto. apply X. lia.
      * apply X. lia.
    + exists false. split; auto. split; [discriminate|]. intros X. destruct E. apply X. lia.
Qed.
Lemma same_rows_ok x y n (A B : fn) : forall k i,
  (forall r c, i <= r < i + k -> c < n -> mat_at x r c = Ok (A r c) /\ mat_at y r c = Ok (B r c)) ->
  exists b, same_rows x y i n k = Ok b /\ (b = true <-> forall r c, i <= r < i + k -> c < n -> A r c = B r c).
Proof.
  induction k; intros i H; cbn [same_rows].
  - exists true. split; auto. split; auto. intros. lia.
  - destruct (same_row_ok x y i (A i) (B i) n 0) as (b & Eb & Hb). { intros c Lc. apply H; lia. }
    rewrite Eb. cbn [bind]. destruct b.
    + destruct (IHk (i + 1)%nat) as (b & Eb' & Hb'). { intros. apply H; auto. lia. }
      exists b. split; auto. rewrite Hb'. split; intros X r c Lr Lc.
      * destruct (Nat.eq_dec r i) as [->|]; [|apply X; auto; lia]. apply (proj1 Hb); auto. lia.
      * apply X; auto. lia.
    + exists false. split; auto. split; [discriminate|]. intros X. apply Hb. intros c Lc. apply X; lia.
Qed.
Lemma mat_eq_ok s t m n m' n' (A B : fn) : smeans s m n A -> smeans t m' n' B -> plain s -> plain t ->
  exists b, mat_eq (Some s) (Some t) = Ok b /\
    (b = true <-> m = m' /\ n = n' /\ forall i j, i < m -> j < n -> A i j = B i j).
Proof.
  intros Sa Sb Pa Pb. unfold mat_eq, mrows.
  destruct (rows_cols_ok _ _ _ _ Sa) as [-> ->], (rows_cols_ok _ _ _ _ Sb) as [-> ->]. cbn [bind].
  destruct (Nat.eqb_spec m m') as [<-|Nm]; cbn [negb].
  2: { exists false. split; auto. split; [discriminate|]. intros (C & _). contradiction. }
  destruct (Nat.eqb_spec n n') as [<-|Nn]; cbn [negb].
  2: { exists false. split; auto. split; [discriminate|]. intros (_ & C & _). contradiction. }
  destruct (same_rows_ok (Some s) (Some t) n A B m 0) as (b & E & H).
  { intros r c Lr Lc. cbn [mat_at]. split; [apply (at_ok s m n)|apply (at_ok t m n)]; auto; lia. }
  exists b. split; auto. rewrite H. split.
  - intros X. split; [|split]; auto. intros. apply X; auto. lia.
  - intros (_ & _ & X) r c Lr Lc. apply X; auto. lia.
Qed.
End Proofs.
