(* Proofs about TableModel. *)
From Coq Require Import List ZArith Lia Bool Arith.
From Verif Require Import Base SetModel SetProofs TableModel.
Import ListNotations.
Local Open Scope nat_scope.

(* ---------------------------------------------------------------- lists *)
Lemma overwrite_mid {A} (a b c x : list A) : length x = length b ->
  overwrite (a ++ b ++ c) (length a) x = a ++ x ++ c.
Proof.
  intros H. unfold overwrite. rewrite firstn_app, firstn_all, Nat.sub_diag, firstn_O, app_nil_r.
  do 2 f_equal. rewrite skipn_app, skipn_all2 by lia. cbn [app].
  replace (length a + length x - length a) with (length x) by lia. rewrite H.
  rewrite skipn_app, skipn_all, Nat.sub_diag. reflexivity.
Qed.
Lemma overwrite_mid' {A} k (a b c x : list A) : k = length a -> length x = length b ->
  overwrite (a ++ b ++ c) k x = a ++ x ++ c.
Proof. intros ->. apply overwrite_mid. Qed.
Lemma take_mid {A} k n (a b c : list A) : k = length a -> n = length b ->
  firstn n (skipn k (a ++ b ++ c)) = b.
Proof.
  intros -> ->. rewrite skipn_app, skipn_all, Nat.sub_diag. cbn [app skipn].
  rewrite firstn_app, firstn_all, Nat.sub_diag, firstn_O, app_nil_r. reflexivity.
Qed.
Lemma length_split {A} (l : list A) n : n <= length l ->
  exists a b, l = a ++ b /\ length a = n.
Proof. intros H. exists (firstn n l), (skipn n l). rewrite firstn_skipn, firstn_length. split; auto. lia. Qed.

Section Table.
Context {V : Type}.
Variable ctor : option V.
Notation cell := (option V).

(* New cells: constructed for class types. *)
Definition fresh_ok (l : list cell) : Prop :=
  match ctor with Some d => l = repeat (Some d) (length l) | None => True end.
Definition live (l : list cell) : Prop :=
  match ctor with Some _ => Forall (fun c => c <> None) l | None => True end.

Lemma live_forallb (l : list cell) d : ctor = Some d -> live l ->
  forallb (fun c => match c with Some _ => true | None => false end) l = true.
Proof.
  unfold live. intros ->. rewrite forallb_forall, Forall_forall. intros H x Hx.
  specialize (H x Hx). destruct x; auto.
Qed.
Lemma live_app a b : live (a ++ b) <-> live a /\ live b.
Proof. unfold live. destruct ctor; [apply Forall_app|tauto]. Qed.
Lemma live_concat ls : live (concat ls) <-> Forall live ls.
Proof.
  induction ls; simpl.
  - split; intros; [constructor|]. unfold live. destruct ctor; auto.
  - rewrite live_app, IHls. split; [intros []; constructor; auto|]. inversion 1; auto.
Qed.
Lemma fresh_live l : fresh_ok l -> live l.
Proof.
  unfold fresh_ok, live. destruct ctor; auto. intros ->. apply Forall_forall.
  intros x Hx. apply repeat_spec in Hx. subst. discriminate.
Qed.

(* Moving a block right over a gap, and left over a gap. *)
Lemma memmove_right (a mid gap r : list cell) to from n :
  from = length a -> to = length a + length gap -> n = length mid ->
  exists junk, memmove (a ++ mid ++ gap ++ r) to from n = Ok (a ++ junk ++ mid ++ r) /\ length junk = length gap.
Proof.
  intros -> -> ->. unfold memmove. destruct (Nat.eqb_spec (length mid) 0) as [E|E].
  - destruct mid; [|discriminate]. simpl. exists gap. auto.
  - rewrite !app_length.
    destruct (Nat.leb_spec (length a + length mid) (length a + (length mid + (length gap + length r)))); [|lia].
    destruct (Nat.leb_spec (length a + length gap + length mid) (length a + (length mid + (length gap + length r)))); [|lia].
    cbn [andb]. rewrite (take_mid (length a) (length mid) a mid) by auto.
    rewrite (overwrite_mid' (length a) a mid) by (rewrite ?repeat_length; auto).
    set (z := repeat None (length mid) ++ gap).
    destruct (length_split z (length gap)) as (j & t & Ez & Lj).
    { unfold z. rewrite app_length, repeat_length. lia. }
    exists j. split; auto. f_equal. rewrite (app_assoc (repeat None (length mid))). fold z. rewrite Ez.
    rewrite <- !app_assoc. rewrite (app_assoc a j).
    rewrite (overwrite_mid' (length a + length gap) (a ++ j) t r mid).
    + rewrite <- app_assoc. auto.
    + rewrite app_length. lia.
    + assert (length z = length j + length t) by (rewrite Ez, app_length; auto).
      unfold z in H1. rewrite app_length, repeat_length in H1. lia.
Qed.
Lemma memmove_left (a gap mid r : list cell) to from n :
  to = length a -> from = length a + length gap -> n = length mid ->
  exists junk, memmove (a ++ gap ++ mid ++ r) to from n = Ok (a ++ mid ++ junk ++ r) /\ length junk = length gap.
Proof.
  intros -> -> ->. unfold memmove. destruct (Nat.eqb_spec (length mid) 0) as [E|E].
  - destruct mid; [|discriminate]. simpl. exists gap. auto.
  - rewrite !app_length.
    destruct (Nat.leb_spec (length a + length gap + length mid) (length a + (length gap + (length mid + length r)))); [|lia].
    destruct (Nat.leb_spec (length a + length mid) (length a + (length gap + (length mid + length r)))); [|lia].
    cbn [andb]. rewrite (app_assoc a gap).
    rewrite (take_mid (length a + length gap) (length mid) (a ++ gap) mid) by (rewrite ?app_length; auto).
    rewrite (overwrite_mid' (length a + length gap) (a ++ gap) mid) by (rewrite ?repeat_length, ?app_length; auto).
    rewrite <- app_assoc. set (z := gap ++ repeat None (length mid)).
    destruct (length_split z (length mid)) as (t & j & Ez & Lt).
    { unfold z. rewrite app_length, repeat_length. lia. }
    exists j. assert (length z = length t + length j) by (rewrite Ez, app_length; auto).
    unfold z in H1. rewrite app_length, repeat_length in H1. split; [|lia].
    f_equal. rewrite (app_assoc gap). fold z. rewrite Ez. rewrite <- !app_assoc.
    apply overwrite_mid'; auto.
Qed.

Lemma initelems_ok (a j r : list cell) k n : k = length a -> n = length j ->
  exists f, initelems ctor (a ++ j ++ r) k n = Ok (a ++ f ++ r) /\ length f = n /\ fresh_ok f.
Proof.
  intros -> ->. unfold initelems, fresh_ok. rewrite !app_length.
  destruct (Nat.leb_spec (length a + length j) (length a + (length j + length r))); [|lia].
  destruct ctor as [d|].
  - exists (repeat (Some d) (length j)). rewrite repeat_length. split; auto.
    rewrite overwrite_mid by (rewrite repeat_length; auto). auto.
  - exists j. auto.
Qed.
Lemma destroy_ok (a x r : list cell) k n : k = length a -> n = length x -> live x ->
  exists j, destroy ctor (a ++ x ++ r) k n = Ok (a ++ j ++ r) /\ length j = n.
Proof.
  intros -> -> L. unfold destroy. rewrite !app_length.
  destruct (Nat.leb_spec (length a + length x) (length a + (length x + length r))); [|lia].
  rewrite take_mid by auto. destruct ctor as [d|] eqn:C.
  - rewrite (live_forallb x d C) by auto. eexists. rewrite overwrite_mid by apply repeat_length.
    split; [reflexivity|apply repeat_length].
  - exists x. auto.
Qed.

(* ---------------------------------------------------------------- add *)
(* The middle parts between insertion points of a list of rows cut in two. *)
Fixpoint mids (l : list (list cell * list cell)) : list (list cell) :=
  match l with
  | [] => []
  | (_, r) :: t => match t with [] => [r] | (l', _) :: _ => (r ++ l') :: mids t end
  end.
Lemma mids_length l : length (mids l) = length l.
Proof. induction l as [|[a r] t IH]; simpl; auto. destruct t as [|[l' r'] t]; simpl in *; auto. Qed.
Definition heads (l : list (list cell * list cell)) : list cell :=
  match l with [] => [] | (a, _) :: _ => a end.

Lemma mids_concat l : heads l ++ concat (mids l) = concat (map (fun ab => fst ab ++ snd ab) l).
Proof.
  induction l as [|[a r] t IH]; auto. cbn [heads map concat fst snd mids].
  destruct t as [|[a' r'] t].
  - cbn. rewrite !app_nil_r. auto.
  - cbn [heads] in IH. rewrite <- IH. cbn [concat]. rewrite <- !app_assoc. auto.
Qed.
(* with a fresh block before each middle part *)
Fixpoint glue (fs ms : list (list cell)) : list cell :=
  match fs, ms with f :: fs, m :: ms => f ++ m ++ glue fs ms | _, _ => [] end.
Fixpoint rows3 (l : list (list cell * list cell)) (fs : list (list cell)) : list (list cell) :=
  match l, fs with (a, r) :: l, f :: fs => (a ++ f ++ r) :: rows3 l fs | _, _ => [] end.
Lemma glue_rows l : forall fs, length fs = length l -> heads l ++ glue fs (mids l) = concat (rows3 l fs).
Proof.
  induction l as [|[a r] t IH]; intros [|f fs] H; simpl in H; try discriminate; auto.
  cbn [heads rows3 concat mids]. destruct t as [|[a' r'] t].
  - destruct fs; [|discriminate]. cbn. rewrite !app_nil_r. auto.
  - rewrite <- (IH fs) by (simpl in *; lia). cbn [heads]. cbn [glue]. rewrite <- !app_assoc. auto.
Qed.
Lemma glue_snoc fs ms f m : length fs = length ms -> glue (fs ++ [f]) (ms ++ [m]) = glue fs ms ++ f ++ m.
Proof.
  revert ms. induction fs; intros [|x ms] H; simpl in H; try discriminate; simpl.
  - rewrite !app_nil_r. auto.
  - rewrite IHfs by lia. rewrite <- !app_assoc. auto.
Qed.
Lemma glue_app fs ms fs' ms' : length fs = length ms -> glue (fs ++ fs') (ms ++ ms') = glue fs ms ++ glue fs' ms'.
Proof.
  revert ms. induction fs; intros [|x ms] H; simpl in H; try discriminate; simpl; auto.
  rewrite IHfs by lia. rewrite <- !app_assoc. auto.
Qed.

Lemma concat_length_const (ls : list (list cell)) L : Forall (fun l => length l = L) ls ->
  length (concat ls) = length ls * L.
Proof. induction 1; simpl; auto. rewrite app_length. lia. Qed.

Lemma add_loop_ok bs os ss p : 
  forall (ms : list (list cell)) h gap done r, length h = p * bs ->
  (forall k m, nth_error ms k = Some m -> length m = (if S k =? ss then os - p else os) * bs) ->
  (forall k, k < length ms -> k = ss - 1 \/ S k < ss) ->
  length gap = length ms * bs -> p <= os -> 
  exists fs, add_loop ctor (length ms) (h ++ concat ms ++ gap ++ done ++ r) bs os ss p
      = Ok (h ++ glue fs ms ++ done ++ r) /\
    length fs = length ms /\ Forall (fun f => length f = bs /\ fresh_ok f) fs.
Proof.
  induction ms as [|m ms IH] using rev_ind; intros h gap done r Hh Hm Hk Hg Hp.
  - simpl in Hg. destruct gap; [|discriminate]. exists []. simpl. auto.
  - rewrite app_length in *. cbn [length] in *. rewrite Nat.add_1_r in *. cbn [add_loop].
    set (i := length ms) in *.
    assert (Hc : length (concat ms) = i * (os * bs)).
    { rewrite (concat_length_const ms (os * bs)); auto. apply Forall_forall. intros x Hx.
      apply In_nth_error in Hx. destruct Hx as (k & Hx). pose proof (nth_error_lt _ _ _ Hx) as Lk.
      rewrite (Hm k x) by (rewrite nth_error_app1; auto).
      destruct (Nat.eqb_spec (S k) ss); auto. subst i. destruct (Hk (length ms)); lia. }
    pose proof (Hm i m ltac:(rewrite nth_error_app2, Nat.sub_diag by lia; auto)) as Lm.
    rewrite concat_app. cbn [concat]. rewrite app_nil_r.
    replace (h ++ (concat ms ++ m) ++ gap ++ done ++ r) with ((h ++ concat ms) ++ m ++ gap ++ (done ++ r))
      by (rewrite <- !app_assoc; auto).
    destruct (memmove_right (h ++ concat ms) m gap (done ++ r) ((i * (os + 1) + p + 1) * bs) ((i * os + p) * bs)
                ((if S i =? ss then os - p else os) * bs)) as (junk & E & Lj).
    + rewrite app_length, Hc, Hh. lia.
    + rewrite app_length, Hc, Hh, Hg. lia.
    + auto.
    + rewrite E. cbn [bind].
      destruct (length_split junk (i * bs)) as (g' & j & -> & Lg'); [rewrite Lj, Hg; lia|].
      rewrite app_length in Lj.
      replace ((h ++ concat ms) ++ (g' ++ j) ++ m ++ done ++ r)
        with ((h ++ concat ms ++ g') ++ j ++ (m ++ done ++ r)) by (rewrite <- !app_assoc; auto).
      destruct (initelems_ok (h ++ concat ms ++ g') j (m ++ done ++ r) ((i * (os + 1) + p + 1) * bs - bs) bs)
        as (f & E2 & Lf & Ff).
      * rewrite !app_length, Hc, Hh, Lg'. lia.
      * lia.
      * rewrite E2. cbn [bind].
        replace ((h ++ concat ms ++ g') ++ f ++ m ++ done ++ r)
          with (h ++ concat ms ++ g' ++ (f ++ m ++ done) ++ r) by (rewrite <- !app_assoc; auto).
        assert (Hm' : forall k x, nth_error ms k = Some x -> length x = (if S k =? ss then os - p else os) * bs).
        { intros k x Hx. apply Hm. rewrite nth_error_app1; auto. eapply nth_error_lt; eauto. }
        assert (Hk' : forall k, k < length ms -> k = ss - 1 \/ S k < ss).
        { intros k Hk'. apply Hk. lia. }
        destruct (IH h g' (f ++ m ++ done) r Hh Hm' Hk' Lg' Hp) as (fs & E3 & L3 & F3).
        exists (fs ++ [f]). rewrite E3. split; [|split].
        -- rewrite glue_snoc by auto. rewrite <- !app_assoc. auto.
        -- rewrite app_length. simpl. lia.
        -- apply Forall_app. auto.
Qed.

(* ---------------------------------------------------------------- remove *)
(* Rows cut into left, removed and right parts. *)
Notation cut := (list cell * list cell * list cell)%type.
Definition c_l (c : cut) := fst (fst c).
Definition c_x (c : cut) := snd (fst c).
Definition c_r (c : cut) := snd c.
Lemma rm_pos i os p bs : 1 <= os -> (i * os + p + 1) * bs = (i * (os - 1) + p) * bs + (bs + i * bs).
Proof. intros. destruct os as [|o]; [lia|]. replace (S o - 1) with o by lia. ring. Qed.
Lemma rm_len os p bs : p < os -> os * bs = (os - p - 1) * bs + (p * bs + bs).
Proof. intros. replace os with ((os - p - 1) + p + 1) at 1 by lia. ring. Qed.
Lemma rm_done i os p bs : p < os -> (i * (os - 1) + p) * bs + ((os - p - 1) * bs + p * bs) = (S i * (os - 1) + p) * bs.
Proof. intros. replace (os - 1) with ((os - p - 1) + p) by lia. ring. Qed.
Lemma remove_loop_ok bs os ss p : p < os ->
  forall (cs : list cut) i done x junk right r, i + S (length cs) = ss ->
  length x = bs -> live x -> length junk = i * bs ->
  length right = (os - p - 1) * bs -> length done = (i * (os - 1) + p) * bs ->
  Forall (fun c => length (c_l c) = p * bs /\ length (c_x c) = bs /\
                   length (c_r c) = (os - p - 1) * bs /\ live (c_x c)) cs ->
  exists j, remove_loop ctor (S (length cs)) i
      (done ++ x ++ junk ++ right ++ concat (map (fun c => c_l c ++ c_x c ++ c_r c) cs) ++ r) bs os ss p
    = Ok (done ++ right ++ concat (map (fun c => c_l c ++ c_r c) cs) ++ j ++ r) /\
    length j = ss * bs.
Proof.
  intros Hp. induction cs as [|[[l' x'] r'] cs IH]; intros i done x junk right r Hi Hx Lx Hj Hr Hd F.
  - cbn [length remove_loop map concat app].
    destruct (destroy_ok done x (junk ++ right ++ r) ((i * (os - 1) + p) * bs) bs) as (x0 & E & L0); auto.
    rewrite E. cbn [bind].
    destruct (Nat.eqb_spec i (ss - 1)); [|simpl in Hi; lia].
    destruct (memmove_left done (x0 ++ junk) right r ((i * (os - 1) + p) * bs) ((i * os + p + 1) * bs)
       ((os - p - 1) * bs)) as (j & E2 & L2); auto.
    + rewrite Hd, app_length, L0, Hj. apply rm_pos. lia.
    + rewrite <- !app_assoc in E2. rewrite E2. cbn [bind]. exists j. split; auto.
      rewrite L2, app_length, L0, Hj. simpl in Hi. subst ss. lia.
  - pose proof (Forall_inv F) as (F1 & F2 & F3 & F4). pose proof (Forall_inv_tail F) as F'.
    cbn [c_l c_x c_r fst snd] in *.
    cbn [length map concat] in *. cbn [c_l c_x c_r fst snd].
    set (n := S (length cs)) in *. cbn [remove_loop].
    destruct (destroy_ok done x (junk ++ right ++ (l' ++ x' ++ r') ++
        concat (map (fun c => c_l c ++ c_x c ++ c_r c) cs) ++ r)
        ((i * (os - 1) + p) * bs) bs) as (x0 & E & L0); auto.
    rewrite <- !app_assoc in *. rewrite E. cbn [bind].
    destruct (Nat.eqb_spec i (ss - 1)); [lia|].
    destruct (memmove_left done (x0 ++ junk) (right ++ l' ++ x')
       (r' ++ concat (map (fun c => c_l c ++ c_x c ++ c_r c) cs) ++ r)
       ((i * (os - 1) + p) * bs) ((i * os + p + 1) * bs) (os * bs)) as (j & E2 & L2); auto.
    + rewrite Hd, app_length, L0, Hj. apply rm_pos. lia.
    + rewrite !app_length, Hr, F1, F2. apply rm_len; auto.
    + rewrite <- !app_assoc in E2. rewrite E2. cbn [bind].
      destruct (IH (S i) (done ++ right ++ l') x' j r' r) as (j' & E3 & L3); auto.
      * lia.
      * rewrite L2, app_length, L0, Hj. lia.
      * rewrite !app_length, Hd, Hr, F1. apply rm_done; auto.
      * rewrite <- !app_assoc in E3. exists j'. split; [rewrite <- !app_assoc; exact E3|auto].
Qed.

(* ---------------------------------------------------------------- rows *)
Lemma chunks n L : forall m : list cell, n * L <= length m ->
  exists rows rest, m = concat rows ++ rest /\ length rows = n /\ Forall (fun r => length r = L) rows.
Proof.
  induction n as [|n IH]; intros m H.
  - exists [], m. auto.
  - destruct (length_split m L) as (a & b & -> & La); [lia|]. rewrite app_length in H.
    destruct (IH b) as (rows & rest & -> & Lr & F); [lia|].
    exists (a :: rows), rest. simpl. rewrite <- app_assoc. auto.
Qed.
Lemma nth_concat L (rows : list (list cell)) : Forall (fun r => length r = L) rows ->
  forall b j row rest, nth_error rows b = Some row -> j < L -> nth_error (concat rows ++ rest) (b * L + j) = nth_error row j.
Proof.
  induction 1 as [|r rows Hr F IH]; intros b j row rest Hb Hj; [destruct b; discriminate|].
  cbn [concat]. rewrite <- app_assoc. destruct b as [|b]; simpl in Hb.
  - injection Hb as ->. simpl. apply nth_error_app1. lia.
  - rewrite nth_error_app2 by lia. replace (S b * L + j - length r) with (b * L + j) by lia. auto.
Qed.

Lemma in_block bs x n a : a < bs -> x < n -> x * bs + a < n * bs.
Proof. intros. assert (S x * bs <= n * bs) by (apply Nat.mul_le_mono_r; lia). lia. Qed.

Lemma nth_lt_some {A} (l : list A) i : i < length l -> exists x, nth_error l i = Some x.
Proof. intros H. destruct (nth_error l i) eqn:E; eauto. apply nth_error_None in E. lia. Qed.

Lemma live_nth l i : live l -> i < length l -> match ctor with Some _ => exists v, nth_error l i = Some (Some v) | None => True end.
Proof.
  unfold live. destruct ctor; auto. intros F H. destruct (nth_lt_some l i H) as (c & Hc).
  rewrite Forall_forall in F. specialize (F c (nth_error_In _ _ Hc)). destruct c; eauto. congruence.
Qed.

Definition fresh_cell (c : option cell) : Prop :=
  match ctor with Some d => c = Some (Some d) | None => True end.

Lemma add_cells bs os ss p m rest : p <= os -> length m = ss * (os * bs) -> ss * (S os * bs) <= length (m ++ rest) ->
  live m ->
  exists m' rest', add_loop ctor ss (m ++ rest) bs os ss p = Ok (m' ++ rest') /\
    length (m' ++ rest') = length (m ++ rest) /\
    length m' = ss * (S os * bs) /\ live m' /\
    forall b x a, b < ss -> x <= os -> a < bs ->
      if x <? p then nth_error m' (b * (S os * bs) + (x * bs + a)) = nth_error m (b * (os * bs) + (x * bs + a))
      else if x =? p then fresh_cell (nth_error m' (b * (S os * bs) + (x * bs + a)))
      else nth_error m' (b * (S os * bs) + (x * bs + a)) = nth_error m (b * (os * bs) + ((x - 1) * bs + a)).
Proof.
  intros Hp Lm Lt Lv.
  destruct (chunks ss (os * bs) m) as (rows & re & Em & Lr & F); [lia|].
  assert (re = []).
  { assert (L : length m = length (concat rows ++ re)) by congruence.
    rewrite app_length, (concat_length_const _ _ F), Lr in L. destruct re; auto. simpl in L. lia. }
  subst re. rewrite app_nil_r in Em.
  set (cuts := map (fun r => (firstn (p * bs) r, skipn (p * bs) r)) rows).
  assert (Hcut : map (fun ab => fst ab ++ snd ab) cuts = rows).
  { unfold cuts. rewrite map_map. rewrite <- (map_id rows) at 2. apply map_ext. intros r. cbn [fst snd]. apply firstn_skipn. }
  assert (Lc : length cuts = ss) by (unfold cuts; rewrite map_length; auto).
  assert (Fc : Forall (fun ab => length (fst ab) = p * bs /\ length (snd ab) = (os - p) * bs) cuts).
  { unfold cuts. apply Forall_forall. intros ab Hab. apply in_map_iff in Hab. destruct Hab as (r & <- & Hr).
    rewrite Forall_forall in F. specialize (F r Hr). cbn [fst snd].
    assert (p * bs <= os * bs) by (apply Nat.mul_le_mono_r; auto).
    rewrite firstn_length, skipn_length, F. split; [lia|]. rewrite Nat.mul_sub_distr_r. auto. }
  destruct (Nat.eq_dec ss 0) as [->|Hss].
  { exists [], (m ++ rest). destruct rows; [|discriminate]. simpl in *. subst m. simpl.
    split; auto. split; auto. split; auto. split; [unfold live; destruct ctor; auto|]. intros; lia. }
  assert (Hh : length (heads cuts) = p * bs).
  { destruct cuts as [|[a b] cuts']; [simpl in Lc; lia|]. apply Forall_inv in Fc. apply Fc. }
  assert (Em' : m = heads cuts ++ concat (mids cuts)) by (rewrite mids_concat, Hcut; auto).
  assert (Hmid : forall k x, nth_error (mids cuts) k = Some x -> length x = (if S k =? ss then os - p else os) * bs).
  { rewrite <- Lc. clear - Fc Hp. induction cuts as [|[a r] t IH]; intros k x Hx; [destruct k; discriminate|].
    pose proof (Forall_inv Fc) as [Fa Fr]. pose proof (Forall_inv_tail Fc) as Ft. cbn [fst snd] in *.
    cbn [mids] in Hx. destruct t as [|[a' r'] t].
    - destruct k as [|k]; simpl in Hx; [|destruct k; discriminate]. injection Hx as <-. simpl. auto.
    - destruct k as [|k].
      + simpl in Hx. injection Hx as <-. pose proof (Forall_inv Ft) as [Fa' _]. cbn [fst] in Fa'.
        rewrite app_length, Fr, Fa'. cbn [length]. change (1 =? S (S (length t))) with false. cbn iota.
        rewrite <- Nat.mul_add_distr_r. f_equal. lia.
      + cbn [nth_error] in Hx. rewrite (IH Ft k x Hx). reflexivity. }
  assert (Hk : forall k, k < length (mids cuts) -> k = ss - 1 \/ S k < ss).
  { intros k H. rewrite mids_length, Lc in H. lia. }
  destruct (length_split rest (ss * bs)) as (gap & r & -> & Lg).
  { rewrite app_length in Lt. lia. }
  destruct (add_loop_ok bs os ss p (mids cuts) (heads cuts) gap [] r Hh Hmid Hk) as (fs & E & Lf & Ff); auto.
  { rewrite mids_length, Lc. auto. }
  rewrite mids_length, Lc in E, Lf. cbn [app] in E.
  replace (heads cuts ++ concat (mids cuts) ++ gap ++ r) with (m ++ gap ++ r) in E
    by (rewrite Em', <- app_assoc; auto).
  rewrite E. rewrite app_assoc, glue_rows by (rewrite Lf, Lc; auto).
  assert (F3 : Forall (fun r => length r = S os * bs) (rows3 cuts fs)).
  { clear - Fc Ff Hp. revert fs Ff. induction cuts as [|[a r] t IH]; intros [|f fs] Ff; cbn [rows3]; constructor.
    - apply Forall_inv in Fc. apply Forall_inv in Ff. cbn [fst snd] in Fc. destruct Fc, Ff.
      rewrite !app_length. replace (S os * bs) with (p * bs + (bs + (os - p) * bs)); [lia|].
      replace (S os) with (p + (1 + (os - p))) by lia. ring.
    - apply IH; [apply (Forall_inv_tail Fc)|apply (Forall_inv_tail Ff)]. }
  assert (L3 : length (rows3 cuts fs) = ss).
  { clear - Lc Lf. revert ss fs Lc Lf. induction cuts as [|[a r] t IH]; intros ss [|f fs] H1 H2; simpl in *; try lia.
    rewrite (IH (length t) fs); auto. lia. }
  exists (concat (rows3 cuts fs)), r. split; auto.
  assert (Lm3 : length (concat (rows3 cuts fs)) = ss * (S os * bs)) by (rewrite (concat_length_const _ _ F3), L3; auto).
  split. { rewrite !app_length, Lm3, Lm, Lg. lia. }
  split; auto. split.
  { apply live_concat. rewrite Em, <- Hcut, live_concat in Lv.
    clear - Lv Ff. revert fs Ff. induction cuts as [|[a r] t IH]; intros [|f fs] Ff; cbn [rows3]; constructor.
    - cbn [map fst snd] in Lv. apply Forall_inv in Lv. apply live_app in Lv. destruct Lv.
      apply Forall_inv in Ff. destruct Ff as [_ Ff]. apply fresh_live in Ff.
      rewrite !live_app. auto.
    - cbn [map] in Lv. apply Forall_inv_tail in Lv. apply IH; auto. apply (Forall_inv_tail Ff). }
  intros b x a Hb Hx Ha.
  destruct (nth_lt_some cuts b) as ([cl cr] & Hc); [lia|].
  destruct (nth_lt_some fs b) as (f & Hf); [lia|].
  assert (Hr3 : nth_error (rows3 cuts fs) b = Some (cl ++ f ++ cr)).
  { clear - Hc Hf. revert b fs Hc Hf. induction cuts as [|[a' r] t IH]; intros [|b] [|f' fs] Hc Hf; simpl in *; try discriminate.
    - injection Hc as -> ->. injection Hf as ->. auto.
    - apply IH; auto. }
  assert (Hr : nth_error rows b = Some (cl ++ cr)).
  { rewrite <- Hcut, nth_error_map, Hc. auto. }
  assert (Lcl : length cl = p * bs /\ length cr = (os - p) * bs).
  { rewrite Forall_forall in Fc. apply (Fc (cl, cr)). eapply nth_error_In; eauto. }
  destruct Lcl as [Lcl Lcr].
  assert (Lff : length f = bs /\ fresh_ok f).
  { rewrite Forall_forall in Ff. apply Ff. eapply nth_error_In; eauto. }
  destruct Lff as [Lff Fff].
  pose proof (nth_concat _ _ F3 b (x * bs + a) _ [] Hr3 ltac:(apply in_block; lia)) as N3.
  rewrite app_nil_r in N3. rewrite N3.
  destruct (Nat.ltb_spec x p) as [Hxp|Hxp].
  - pose proof (nth_concat _ _ F b (x * bs + a) _ [] Hr ltac:(apply in_block; lia)) as N.
    rewrite app_nil_r, <- Em in N. rewrite N.
    assert (x * bs + a < length cl) by (rewrite Lcl; apply in_block; auto).
    rewrite !nth_error_app1; auto.
  - destruct (Nat.eqb_spec x p) as [->|Hne].
    + unfold fresh_cell, fresh_ok in *. destruct ctor; auto.
      rewrite nth_error_app2 by lia. rewrite nth_error_app1 by lia.
      rewrite Fff. apply nth_error_repeat. rewrite ?repeat_length. lia.
    + pose proof (nth_concat _ _ F b ((x - 1) * bs + a) _ [] Hr ltac:(apply in_block; lia)) as N.
      rewrite app_nil_r, <- Em in N. rewrite N.
      assert (p * bs <= (x - 1) * bs) by (apply Nat.mul_le_mono_r; lia).
      assert (x * bs = (x - 1) * bs + bs) by (replace x with (x - 1 + 1) at 1 by lia; ring).
      rewrite (nth_error_app2 cl (f ++ cr)) by lia. rewrite (nth_error_app2 f cr) by lia.
      rewrite (nth_error_app2 cl cr) by lia. f_equal. lia.
Qed.

Lemma remove_cells bs os ss p m rest : p < os -> length m = ss * (os * bs) -> live m ->
  exists m' rest', remove_loop ctor ss 0 (m ++ rest) bs os ss p = Ok (m' ++ rest') /\
    length (m' ++ rest') = length (m ++ rest) /\
    length m' = ss * ((os - 1) * bs) /\ live m' /\
    forall b x a, b < ss -> x < os - 1 -> a < bs ->
      nth_error m' (b * ((os - 1) * bs) + (x * bs + a))
        = nth_error m (b * (os * bs) + ((if x <? p then x else S x) * bs + a)).
Proof.
  intros Hp Lm Lv.
  destruct (chunks ss (os * bs) m) as (rows & re & Em & Lr & F); [lia|].
  assert (re = []).
  { assert (L : length m = length (concat rows ++ re)) by congruence.
    rewrite app_length, (concat_length_const _ _ F), Lr in L. destruct re; auto. simpl in L. lia. }
  subst re. rewrite app_nil_r in Em.
  set (cut := fun r : list cell => (firstn (p * bs) r, firstn bs (skipn (p * bs) r), skipn (p * bs + bs) r)).
  assert (Hcut : forall r, c_l (cut r) ++ c_x (cut r) ++ c_r (cut r) = r).
  { intros r. unfold cut, c_l, c_x, c_r. cbn [fst snd]. rewrite <- (firstn_skipn (p * bs) r) at 4. f_equal.
    rewrite <- (firstn_skipn bs (skipn (p * bs) r)) at 2. f_equal. rewrite skipn_skipn'. auto. }
  set (cuts := map cut rows).
  assert (Hrows : map (fun c => c_l c ++ c_x c ++ c_r c) cuts = rows).
  { unfold cuts. rewrite map_map. rewrite <- (map_id rows) at 2. apply map_ext. auto. }
  assert (Lc : length cuts = ss) by (unfold cuts; rewrite map_length; auto).
  assert (Fc : Forall (fun c => length (c_l c) = p * bs /\ length (c_x c) = bs /\
                   length (c_r c) = (os - p - 1) * bs /\ live (c_l c) /\ live (c_x c) /\ live (c_r c)) cuts).
  { unfold cuts. apply Forall_forall. intros ab Hab. apply in_map_iff in Hab. destruct Hab as (r & <- & Hr).
    rewrite Forall_forall in F. specialize (F r Hr).
    assert (Lvr : live r). { rewrite Em, live_concat, Forall_forall in Lv. auto. }
    rewrite <- (Hcut r) in Lvr. rewrite !live_app in Lvr. destruct Lvr as (V1 & V2 & V3).
    pose proof (rm_len os p bs Hp) as RL. set (w := (os - p - 1) * bs) in *. set (pb := p * bs) in *.
    set (ob := os * bs) in *. clearbody w pb ob.
    unfold c_l, c_x, c_r, cut in *; cbn [fst snd] in *. rewrite !firstn_length, !skipn_length, F.
    repeat split; auto; lia. }
  destruct ss as [|n].
  { exists [], (m ++ rest). destruct rows; [|discriminate]. simpl in *. subst m. simpl.
    split; auto. split; auto. split; auto. split; [unfold live; destruct ctor; auto|]. intros; lia. }
  destruct cuts as [|c0 cs] eqn:Ec; [discriminate|]. simpl in Lc. injection Lc as Lc.
  pose proof (Forall_inv Fc) as (F1 & F2 & F3 & _ & F4 & _).
  assert (Fc' : Forall (fun c => length (c_l c) = p * bs /\ length (c_x c) = bs /\
                   length (c_r c) = (os - p - 1) * bs /\ live (c_x c)) cs).
  { eapply Forall_impl; [|apply (Forall_inv_tail Fc)]. cbn. tauto. }
  destruct (remove_loop_ok bs os (S n) p Hp cs 0 (c_l c0) (c_x c0) [] (c_r c0) rest) as (j & E & Lj); auto.
  { simpl. lia. }
  rewrite Lc in E. cbn [app] in E.
  replace (m ++ rest) with (c_l c0 ++ c_x c0 ++ c_r c0 ++
        concat (map (fun c => c_l c ++ c_x c ++ c_r c) cs) ++ rest).
  2:{ rewrite Em, <- Hrows. cbn [map concat]. rewrite <- !app_assoc. auto. }
  rewrite E.
  set (m' := concat (map (fun c => c_l c ++ c_r c) (c0 :: cs))).
  assert (Fm : Forall (fun r => length r = (os - 1) * bs) (map (fun c => c_l c ++ c_r c) (c0 :: cs))).
  { apply Forall_forall. intros r Hr. apply in_map_iff in Hr. destruct Hr as (c & <- & Hc).
    rewrite Forall_forall in Fc. destruct (Fc c Hc) as (G1 & _ & G3 & _). rewrite app_length, G1, G3.
    rewrite <- Nat.mul_add_distr_r. f_equal. lia. }
  assert (Lm' : length m' = S n * ((os - 1) * bs)).
  { unfold m'. rewrite (concat_length_const _ _ Fm), map_length. simpl. rewrite Lc. auto. }
  exists m', (j ++ rest). split.
  { f_equal. unfold m'. cbn [map concat]. rewrite <- !app_assoc. auto. }
  split.
  { rewrite app_length, Lm', app_length, Lj.
    assert (L : length m = length (concat (map (fun c => c_l c ++ c_x c ++ c_r c) (c0 :: cs)))).
    { rewrite Em, <- Hrows. auto. }
    cbn [map concat] in L. rewrite !app_length in *. rewrite Lm in L.
    assert (S n * (os * bs) = S n * ((os - 1) * bs) + S n * bs).
    { replace os with (os - 1 + 1) at 1 by lia. ring. }
    lia. }
  split; auto. split.
  { unfold m'. apply live_concat. apply Forall_forall. intros r Hr. apply in_map_iff in Hr.
    destruct Hr as (c & <- & Hc). rewrite Forall_forall in Fc. destruct (Fc c Hc) as (_ & _ & _ & G1 & _ & G3).
    apply live_app; auto. }
  intros b x a Hb Hx Ha.
  destruct (nth_lt_some (c0 :: cs) b) as (c & Hc); [simpl; lia|].
  assert (Hr : nth_error rows b = Some (c_l c ++ c_x c ++ c_r c)).
  { rewrite <- Hrows, nth_error_map, Hc. auto. }
  assert (Hr' : nth_error (map (fun c => c_l c ++ c_r c) (c0 :: cs)) b = Some (c_l c ++ c_r c)).
  { rewrite nth_error_map, Hc. auto. }
  rewrite Forall_forall in Fc. destruct (Fc c (nth_error_In _ _ Hc)) as (G1 & G2 & G3 & _).
  pose proof (nth_concat _ _ Fm b (x * bs + a) _ [] Hr' ltac:(apply in_block; lia)) as N3.
  rewrite app_nil_r in N3. fold m' in N3. rewrite N3.
  pose proof (nth_concat _ _ F b ((if x <? p then x else S x) * bs + a) _ [] Hr) as N.
  rewrite app_nil_r, <- Em in N. rewrite N by (apply in_block; auto; destruct (x <? p); lia).
  destruct (Nat.ltb_spec x p) as [Hxp|Hxp].
  - assert (x * bs + a < length (c_l c)) by (rewrite G1; apply in_block; auto).
    rewrite !nth_error_app1; auto.
  - assert (p * bs <= x * bs) by (apply Nat.mul_le_mono_r; lia).
    rewrite (nth_error_app2 (c_l c) (c_r c)) by lia.
    rewrite (nth_error_app2 (c_l c)) by lia.
    rewrite (nth_error_app2 (c_x c)) by lia. f_equal. lia.
Qed.
End Table.
