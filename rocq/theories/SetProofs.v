(* Proofs about SetModel. *)
From Coq Require Import List ZArith Lia Bool Arith Znumtheory.
From Verif Require Import Base SetModel.
Import ListNotations.
Open Scope Z_scope.

Ltac zdm := Z.div_mod_to_equations.

(* ---- sizing rule ---- *)
Lemma u32_id x : 0 <= x < 2 ^ 32 -> u32 x = x.
Proof. intros; apply Z.mod_small; auto. Qed.

Lemma grow_block_ok s : 0 <= s <= 2 ^ 29 ->
  forall fuel block, 1 <= block < 2 ^ 29 -> s <= 8 * block * 8 ^ Z.of_nat fuel ->
  exists k, 0 <= k /\ let b := block * 8 ^ k in
    grow_block (S fuel) s block = Ok b /\ s <= 8 * b /\ (b = block \/ b < s).
Proof.
  intros Hs. induction fuel as [|fuel IH]; intros block Hb Hf; cbn [grow_block];
    rewrite (u32_id (8 * block)) by lia.
  - change (8 ^ Z.of_nat 0) with 1 in Hf. exists 0. split; [lia|]. cbn zeta. rewrite Z.mul_1_r.
    destruct (Z.ltb_spec (8 * block) s); [lia|]. split; auto.
  - destruct (Z.ltb_spec (8 * block) s).
    + rewrite (u32_id (block * 8)) by lia.
      destruct (IH (block * 8)) as (k & Hk & E & H1 & H2); [lia| |].
      { rewrite Nat2Z.inj_succ, Z.pow_succ_r in Hf by lia. lia. }
      exists (k + 1). split; [lia|]. cbn zeta.
      replace (block * 8 ^ (k + 1)) with (block * 8 * 8 ^ k)
        by (rewrite Z.pow_add_r by lia; lia).
      split; [exact E|]. split; auto. right. lia.
    + exists 0. split; [lia|]. cbn zeta. rewrite Z.mul_1_r. split; auto.
Qed.

(* The smallest multiple of m that is at least x. *)
Definition is_ceil (m x c : Z) : Prop := c mod m = 0 /\ x <= c < x + m.

Lemma ceil_mult m x : 0 < m ->
  is_ceil m x (m * (x / m + (if x mod m =? 0 then 0 else 1))).
Proof.
  intros Hm. split.
  - rewrite Z.mul_comm. apply Z.mod_mul; lia.
  - pose proof (Z.div_mod x m). pose proof (Z.mod_pos_bound x m).
    destruct (Z.eqb_spec (x mod m) 0); nia.
Qed.

Lemma bufsize_ok block s : 1 <= block < 2 ^ 29 -> 0 <= s <= 2 ^ 29 ->
  exists k blk b, 0 <= k /\ bufsize block s = Ok (blk, b) /\ blk = block * 8 ^ k /\
    is_ceil blk s b /\ s <= 8 * blk /\ (blk = block \/ blk < s) /\ 1 <= blk < 2 ^ 29.
Proof.
  intros Hb Hs. unfold bufsize, bufsize_fuel.
  destruct (grow_block_ok s Hs 15 block Hb) as (k & Hk & E & H1 & H2);
    [change (8 ^ Z.of_nat 15) with 35184372088832; lia|].
  cbn zeta in *. rewrite E; cbn [bind].
  assert (P : 1 <= 8 ^ k) by (apply (Z.pow_le_mono_r 8 0 k); lia).
  assert (Q : 1 <= block * 8 ^ k) by nia.
  destruct (Z.eqb_spec (block * 8 ^ k) 0); [lia|].
  pose proof (ceil_mult (block * 8 ^ k) s ltac:(lia)) as C.
  exists k, (block * 8 ^ k). eexists. split; auto. split; [reflexivity|]. split; auto.
  assert (R : block * 8 ^ k < 2 ^ 29) by lia.
  rewrite u32_id; [|destruct C; lia].
  repeat split; auto; apply C.
Qed.

Lemma bufsize_monotone block s t k1 b1 k2 b2 :
  1 <= block < 2 ^ 29 -> 0 <= s <= t -> t <= 2 ^ 29 ->
  bufsize block s = Ok (k1, b1) -> bufsize block t = Ok (k2, b2) -> b1 <= b2.
Proof.
  intros Hb Hs Ht E1 E2.
  destruct (bufsize_ok block s Hb ltac:(lia)) as (i & blk1 & c1 & Hi & F1 & B1 & C1 & D1 & G1 & I1).
  destruct (bufsize_ok block t Hb ltac:(lia)) as (j & blk2 & c2 & Hj & F2 & B2 & C2 & D2 & G2 & I2).
  rewrite E1 in F1; rewrite E2 in F2. injection F1 as -> ->. injection F2 as -> ->.
  destruct C1 as [M1 R1], C2 as [M2 R2].
  destruct (Z.le_gt_cases i j).
  - (* blk2 is a multiple of blk1 *)
    assert (Q : exists q, c2 = blk1 * q).
    { exists (8 ^ (j - i) * (c2 / blk2)).
      assert (blk2 = blk1 * 8 ^ (j - i)).
      { subst. rewrite <- Z.mul_assoc, <- Z.pow_add_r by lia. do 2 f_equal. lia. }
      pose proof (Z.div_mod c2 blk2 ltac:(lia)). rewrite M2 in H1.
      rewrite Z.mul_assoc, <- H0. lia. }
    destruct Q as (q & ->).
    pose proof (Z.div_mod c1 blk1 ltac:(lia)) as DM. rewrite M1 in DM.
    set (p := c1 / blk1) in *. assert (blk1 * p <= blk1 * q); [|lia].
    apply Z.mul_le_mono_nonneg_l; [lia|].
    destruct (Z.le_gt_cases p q); auto. exfalso.
    assert (blk1 * (q + 1) <= blk1 * p) by (apply Z.mul_le_mono_nonneg_l; lia). lia.
  - (* the block for s grew further than the one for t: impossible unless equal *)
    exfalso. assert (P : blk1 = blk2 * 8 ^ (i - j)).
    { subst. rewrite <- Z.mul_assoc, <- Z.pow_add_r by lia. do 2 f_equal. lia. }
    assert (1 <= i - j) by lia.
    assert (8 <= 8 ^ (i - j)) by (apply (Z.pow_le_mono_r 8 1 (i - j)); lia).
    assert (block <= blk2).
    { subst blk2. assert (1 <= 8 ^ j) by (apply (Z.pow_le_mono_r 8 0 j); lia). nia. }
    nia.
Qed.

Lemma grow_block_diverges s : 2 ^ 30 < s -> forall fuel, grow_block fuel s 64 = UB OutOfFuel.
Proof.
  intros Hs.
  assert (Z0 : forall fuel, grow_block fuel s 0 = UB OutOfFuel).
  { induction fuel as [|fuel IH]; [reflexivity|]. cbn [grow_block].
    replace (u32 (8 * 0)) with 0 by reflexivity. replace (u32 (0 * 8)) with 0 by reflexivity.
    destruct (Z.ltb_spec 0 s); [auto|lia]. }
  assert (St : forall b b', u32 (8 * b) = b' -> u32 (b * 8) = b' -> b' <= 2 ^ 30 ->
     (forall fuel, grow_block fuel s b' = UB OutOfFuel) -> forall fuel, grow_block fuel s b = UB OutOfFuel).
  { intros b b' E1 E2 Hb H fuel. destruct fuel; [reflexivity|]. cbn [grow_block].
    rewrite E1, E2. destruct (Z.ltb_spec b' s); [auto|lia]. }
  apply (St _ 512); try reflexivity; try lia.
  apply (St _ 4096); try reflexivity; try lia.
  apply (St _ 32768); try reflexivity; try lia.
  apply (St _ 262144); try reflexivity; try lia.
  apply (St _ 2097152); try reflexivity; try lia.
  apply (St _ 16777216); try reflexivity; try lia.
  apply (St _ 134217728); try reflexivity; try lia.
  apply (St _ 1073741824); try reflexivity; try lia.
  apply (St _ 0); try reflexivity; try lia. auto.
Qed.

Lemma skipn_skipn' {A} n m (l : list A) : skipn n (skipn m l) = skipn (m + n) l.
Proof. revert l. induction m; intros [|x l]; simpl; auto. destruct n; auto. Qed.

(* ---- lists of cells ---- *)
Section Cells.
Context {V : Type}.
Variable dflt : V.
Variable prim : bool.
Notation cell := (cell V).
Notation sset := (sset V).
Notation source := (source V).
Notation op := (op V).
Notation destroy := (@destroy V prim).
Notation destroy_range := (@destroy_range V prim).
Notation init := (@init V dflt prim).
Notation fill := (@fill V dflt prim).
Notation allocate := (@allocate V prim).
Notation add := (@add V dflt prim).

(* Elements of a source when they are all constructed. *)
Definition contents (src : source) : list V :=
  match src with Array vs => vs | Default s => repeat dflt (Z.to_nat s) end.
Definition src_ok (src : source) : Prop :=
  match src with Array _ => True | Default s => 0 <= s /\ prim = false end.

Lemma contents_length src : src_ok src -> Z.of_nat (length (contents src)) = count src.
Proof. destruct src; simpl; intros; auto. rewrite repeat_length. lia. Qed.

Lemma zget_app (xs ys : list cell) c : zget (xs ++ c :: ys) (Z.of_nat (length xs)) = Ok c.
Proof.
  unfold zget. destruct (Z.ltb_spec (Z.of_nat (length xs)) 0); [lia|]. rewrite Nat2Z.id.
  unfold aget. rewrite nth_error_app2, Nat.sub_diag by lia. reflexivity.
Qed.
Lemma zset_app (xs ys : list cell) c c' :
  zset (xs ++ c :: ys) (Z.of_nat (length xs)) c' = Ok (xs ++ c' :: ys).
Proof.
  unfold zset. destruct (Z.ltb_spec (Z.of_nat (length xs)) 0); [lia|]. rewrite Nat2Z.id.
  rewrite aset_ok by (rewrite app_length; simpl; lia).
  rewrite upd_app_r, Nat.sub_diag by lia. reflexivity.
Qed.

Definition dead (n : nat) (l : list V) : list cell :=
  if prim then map Live l else repeat Raw n.

Lemma destroy_range_ok (l : list V) : forall fuel (xs ys : list cell) from to,
  (length l <= fuel)%nat ->
  from = Z.of_nat (length xs) -> to = from + Z.of_nat (length l) ->
  destroy_range fuel (xs ++ map Live l ++ ys) from to =
    Ok (xs ++ dead (length l) l ++ ys).
Proof.
  induction l as [|v l IH]; intros fuel xs ys from to Hf -> Ht.
  - simpl in Ht. destruct fuel; cbn [SetModel.destroy_range];
      (destruct (Z.ltb_spec (Z.of_nat (length xs)) to); [lia|]);
      unfold dead; destruct prim; reflexivity.
  - simpl in Ht, Hf. destruct fuel; [lia|]. cbn [SetModel.destroy_range].
    destruct (Z.ltb_spec (Z.of_nat (length xs)) to); [|lia].
    cbn [map app]. unfold SetModel.destroy. rewrite zget_app; cbn [bind].
    rewrite zset_app; cbn [bind].
    set (c := if prim then Live v else Raw).
    change (xs ++ c :: map Live l ++ ys) with (xs ++ [c] ++ (map Live l ++ ys)).
    rewrite app_assoc.
    rewrite (IH fuel (xs ++ [c]) ys) by (rewrite ?app_length; simpl; lia).
    rewrite <- app_assoc. unfold c, dead. destruct prim; reflexivity.
Qed.

Lemma init_some (xs ys : list cell) c v :
  init (xs ++ c :: ys) (Z.of_nat (length xs)) (Some v) = Ok (xs ++ Live v :: ys).
Proof. unfold SetModel.init. apply zset_app. Qed.
Lemma init_none (xs ys : list cell) c : prim = false ->
  init (xs ++ c :: ys) (Z.of_nat (length xs)) None = Ok (xs ++ Live dflt :: ys).
Proof. intros E. unfold SetModel.init. rewrite E. apply zset_app. Qed.

Lemma fill_array : forall vs2 fuel vs1 (xs ms ys : list cell),
  (length vs2 <= fuel)%nat -> length ms = length vs2 ->
  fill fuel (xs ++ map Live vs1 ++ ms ++ ys) (Z.of_nat (length xs)) (Array (vs1 ++ vs2)) (length vs1) =
  Ok (xs ++ map Live (vs1 ++ vs2) ++ ys).
Proof.
  induction vs2 as [|v vs2 IH]; intros fuel vs1 xs ms ys Hf Hm.
  - destruct ms; [|discriminate].
    assert (E : count (Array (vs1 ++ [])) = Z.of_nat (length vs1)) by (simpl; rewrite app_nil_r; auto).
    destruct fuel; cbn [SetModel.fill]; rewrite E;
    (destruct (Z.ltb_spec (Z.of_nat (length vs1)) (Z.of_nat (length vs1))); [lia|]);
    rewrite app_nil_r; reflexivity.
  - destruct ms as [|c ms]; [discriminate|]. simpl in Hf, Hm.
    destruct fuel as [|fuel]; [lia|]. cbn [SetModel.fill].
    assert (E : count (Array (vs1 ++ v :: vs2)) = Z.of_nat (length vs1) + Z.of_nat (length vs2) + 1)
      by (simpl; rewrite app_length; simpl; lia).
    rewrite E. destruct (Z.ltb_spec (Z.of_nat (length vs1)) (Z.of_nat (length vs1) + Z.of_nat (length vs2) + 1)); [|lia].
    cbn [nth_source]. unfold aget. rewrite nth_error_app2, Nat.sub_diag by lia. cbn [nth_error bind].
    replace (xs ++ map Live vs1 ++ (c :: ms) ++ ys) with ((xs ++ map Live vs1) ++ c :: (ms ++ ys))
      by (rewrite <- app_assoc; reflexivity).
    replace (Z.of_nat (length xs) + Z.of_nat (length vs1)) with (Z.of_nat (length (xs ++ map Live vs1)))
      by (rewrite app_length, map_length; lia).
    rewrite init_some; cbn [bind].
    replace ((xs ++ map Live vs1) ++ Live v :: ms ++ ys) with (xs ++ map Live (vs1 ++ [v]) ++ ms ++ ys)
      by (rewrite map_app, <- !app_assoc; reflexivity).
    replace (vs1 ++ v :: vs2) with ((vs1 ++ [v]) ++ vs2) by (rewrite <- app_assoc; reflexivity).
    replace (S (length vs1)) with (length (vs1 ++ [v])) by (rewrite app_length; simpl; lia).
    apply IH; lia.
Qed.

Lemma fill_default : prim = false -> forall n s fuel k (xs ms ys : list cell),
  (n <= fuel)%nat -> length ms = n -> s = Z.of_nat (k + n) ->
  fill fuel (xs ++ map Live (repeat dflt k) ++ ms ++ ys) (Z.of_nat (length xs)) (Default s) k =
  Ok (xs ++ map Live (repeat dflt (k + n)) ++ ys).
Proof.
  intros Hp. induction n as [|n IH]; intros s fuel k xs ms ys Hf Hm Hs.
  - destruct ms; [|discriminate]. rewrite Nat.add_0_r in *.
    destruct fuel; cbn [SetModel.fill count];
    (destruct (Z.ltb_spec (Z.of_nat k) s); [lia|]); reflexivity.
  - destruct ms as [|c ms]; [discriminate|]. simpl in Hm.
    destruct fuel as [|fuel]; [lia|]. cbn [SetModel.fill count].
    destruct (Z.ltb_spec (Z.of_nat k) s); [|lia].
    cbn [nth_source bind].
    replace (xs ++ map Live (repeat dflt k) ++ (c :: ms) ++ ys)
      with ((xs ++ map Live (repeat dflt k)) ++ c :: (ms ++ ys))
      by (rewrite <- app_assoc; reflexivity).
    replace (Z.of_nat (length xs) + Z.of_nat k) with (Z.of_nat (length (xs ++ map Live (repeat dflt k))))
      by (rewrite app_length, map_length, repeat_length; lia).
    rewrite init_none by auto; cbn [bind].
    replace ((xs ++ map Live (repeat dflt k)) ++ Live dflt :: ms ++ ys)
      with (xs ++ map Live (repeat dflt (S k)) ++ ms ++ ys).
    2:{ replace (repeat dflt (S k)) with (repeat dflt k ++ [dflt])
          by (rewrite <- repeat_cons; reflexivity).
        rewrite map_app, <- !app_assoc; reflexivity. }
    rewrite (IH s fuel (S k)) by lia. do 4 f_equal. f_equal. lia.
Qed.

Lemma fill_ok src fuel (xs ms ys : list cell) : src_ok src ->
  (length (contents src) <= fuel)%nat -> length ms = length (contents src) ->
  fill fuel (xs ++ ms ++ ys) (Z.of_nat (length xs)) src 0 =
  Ok (xs ++ map Live (contents src) ++ ys).
Proof.
  destruct src as [vs|s]; simpl; intros Ho Hf Hm.
  - apply (fill_array vs fuel [] xs ms ys); auto.
  - rewrite repeat_length in *. apply (fill_default (proj2 Ho) (Z.to_nat s) s fuel 0 xs ms ys); auto; lia.
Qed.

Lemma fill_at src fuel p (xs ms ys : list cell) : p = Z.of_nat (length xs) -> src_ok src ->
  (length (contents src) <= fuel)%nat -> length ms = length (contents src) ->
  fill fuel (xs ++ ms ++ ys) p src 0 = Ok (xs ++ map Live (contents src) ++ ys).
Proof. intros ->. apply fill_ok. Qed.

(* ---- representation ---- *)
Definition LIM : Z := 2 ^ 29.

Definition rep (st : sset) (l : list V) : Prop :=
  size st = Z.of_nat (length l) /\ Z.of_nat (length l) <= LIM /\ 1 <= block st < 2 ^ 29 /\
  exists rest, value st = map Live l ++ rest.

Lemma deallocate_ok st l : rep st l ->
  deallocate prim st = Ok (SSet 0 (block st) []).
Proof.
  intros (Hs & _ & _ & rest & Hv). unfold deallocate. rewrite Hv, Hs.
  rewrite (destroy_range_ok l _ [] rest 0) ; auto.
  rewrite app_length, map_length. lia.
Qed.

Lemma realloc_keep (m : list cell) (xs ys : list cell) b : m = xs ++ ys ->
  Z.of_nat (length xs) <= b -> exists rest, realloc m b = xs ++ rest.
Proof.
  intros -> H. unfold realloc. rewrite firstn_app.
  exists (firstn (Z.to_nat b - length xs) ys ++ repeat Raw (Z.to_nat b - length (xs ++ ys))).
  rewrite firstn_all2 by lia. rewrite <- app_assoc. reflexivity.
Qed.

Lemma realloc_length (m : list cell) b : 0 <= b -> Z.of_nat (length (realloc m b)) = b.
Proof.
  intros Hb. unfold realloc. rewrite app_length, repeat_length, firstn_length. lia.
Qed.

(* allocate keeps any constructed prefix that fits and provides the space. *)
Lemma allocate_keep st s (xs : list cell) ys :
  1 <= block st < 2 ^ 29 -> 0 < s <= LIM -> value st = xs ++ ys -> Z.of_nat (length xs) <= s ->
  exists st' rest, allocate st s = Ok st' /\ size st' = size st /\ 1 <= block st' < 2 ^ 29 /\
    value st' = xs ++ rest /\ s <= buffer st'.
Proof.
  intros Hb Hs Hv Hx. unfold SetModel.allocate.
  destruct (bufsize_ok (block st) s Hb ltac:(unfold LIM in *; lia)) as (k & blk & b & Hk & E & B1 & C & D & G & I).
  rewrite E; cbn [bind]. destruct C as [_ C].
  cbn [size value]. unfold buffer at 1; cbn [value].
  destruct (Z.eqb_spec b (Z.of_nat (length (value st)))).
  - eexists _, ys. split; [reflexivity|]. cbn [size block value].
    repeat split; auto; try lia. unfold buffer; cbn [value]. lia.
  - destruct (Z.eqb_spec s 0); [lia|].
    destruct (realloc_keep _ _ _ b Hv ltac:(lia)) as (rest & Er).
    eexists _, rest. split; [reflexivity|]. unfold set_value; cbn [size block value].
    repeat split; auto; try lia. unfold buffer; cbn [value]. rewrite realloc_length by lia. lia.
Qed.

Lemma allocate_zero st : 1 <= block st < 2 ^ 29 -> size st = 0 ->
  exists st', allocate st 0 = Ok st' /\ rep st' [].
Proof.
  intros Hb Hs. unfold SetModel.allocate.
  destruct (bufsize_ok (block st) 0 Hb ltac:(lia)) as (k & blk & b & Hk & E & B1 & C & D & G & I).
  rewrite E; cbn [bind]. destruct (_ =? _).
  - eexists; split; [reflexivity|]. unfold rep; cbn [size block value length].
    repeat split; auto; try lia. unfold LIM; lia. eexists; reflexivity.
  - rewrite (deallocate_ok (SSet (size st) blk (value st)) []).
    + eexists; split; [reflexivity|]. unfold rep; cbn [size block value length].
      repeat split; auto; try lia. unfold LIM; lia. exists []; reflexivity.
    + unfold rep; cbn [size block value length]. repeat split; auto; try lia. unfold LIM; lia.
      eexists; reflexivity.
Qed.

Lemma memmove_ok (xs cs ys : list cell) dst src n :
  src = Z.of_nat (length xs) -> n = Z.of_nat (length cs) -> 0 <= dst ->
  dst + n <= Z.of_nat (length (xs ++ cs ++ ys)) ->
  memmove (xs ++ cs ++ ys) dst src n =
    Ok (firstn (Z.to_nat dst) (xs ++ cs ++ ys) ++ cs ++ skipn (Z.to_nat (dst + n)) (xs ++ cs ++ ys)).
Proof.
  intros -> -> Hd Hl. unfold memmove.
  destruct (Z.leb_spec (dst + Z.of_nat (length cs)) (Z.of_nat (length (xs ++ cs ++ ys)))); [|lia].
  destruct (Z.leb_spec (Z.of_nat (length xs) + Z.of_nat (length cs)) (Z.of_nat (length (xs ++ cs ++ ys)))).
  2:{ rewrite !app_length in *. lia. }
  destruct (Z.leb_spec 0 (Z.of_nat (length cs))); [|lia]. cbn [andb].
  rewrite !Nat2Z.id.
  rewrite skipn_app, skipn_all, Nat.sub_diag. cbn [skipn app].
  rewrite (firstn_app (length cs) cs ys), firstn_all, Nat.sub_diag, firstn_O, app_nil_r.
  do 3 f_equal. f_equal. lia.
Qed.

(* Insertion at or before the end. *)
Lemma add_ok st l p src : rep st l -> src_ok src -> count src <> 0 ->
  0 <= p <= Z.of_nat (length l) ->
  Z.of_nat (length l) + count src <= LIM ->
  exists st', add st p src = Ok st' /\
    rep st' (firstn (Z.to_nat p) l ++ contents src ++ skipn (Z.to_nat p) l).
Proof.
  intros (Hs & Hl & Hb & rest & Hv) Ho Hc Hp Hlim.
  assert (Hc' : 0 < count src).
  { destruct src; simpl in *; lia. }
  unfold LIM in *.
  unfold SetModel.add. destruct (Z.eqb_spec (count src) 0); [lia|].
  pose proof (contents_length src Ho) as CL.
  assert (Len : Z.of_nat (length (firstn (Z.to_nat p) l ++ contents src ++ skipn (Z.to_nat p) l))
     = Z.of_nat (length l) + count src).
  { rewrite !app_length, firstn_length, skipn_length. lia. }
  destruct (Z.leb_spec (size st) p).
  - assert (p = Z.of_nat (length l)) by lia. subst p.
    rewrite (u32_id (Z.of_nat (length l) + count src)) by lia.
    destruct (allocate_keep st (Z.of_nat (length l) + count src) (map Live l) rest Hb)
      as (st1 & rest1 & E1 & S1 & B1 & V1 & L1); auto; unfold LIM; try lia.
    { rewrite map_length; lia. }
    rewrite E1; cbn [bind].
    assert (E2 : (if 0 <? Z.of_nat (length l)
             then init_range dflt prim (S (length (value st1))) (value st1) (size st1) (Z.of_nat (length l) - 1)
             else Ok (value st1)) = Ok (value st1)).
    { destruct (0 <? _); auto. cbn [init_range].
      destruct (Z.ltb_spec (size st1) (Z.of_nat (length l) - 1)); [lia|]. reflexivity. }
    rewrite E2; cbn [bind value].
    unfold buffer in L1. rewrite V1 in *.
    assert (Lr : (length (contents src) <= length rest1)%nat).
    { rewrite app_length, map_length in L1. lia. }
    set (ms := firstn (length (contents src)) rest1). set (ys := skipn (length (contents src)) rest1).
    assert (Er : rest1 = ms ++ ys) by (symmetry; apply firstn_skipn). rewrite Er.
    replace (Z.of_nat (length l)) with (Z.of_nat (length (map (@Live V) l))) by (rewrite map_length; auto).
    rewrite fill_ok; auto.
    2:{ rewrite app_length, map_length, app_length, <- ?Er. unfold ms, ys.
        rewrite firstn_length, skipn_length. lia. }
    2:{ unfold ms. rewrite firstn_length. lia. }
    cbn [bind]. eexists; split; [reflexivity|]. unfold set_value.
    rewrite map_length, Nat2Z.id, firstn_all, skipn_all, app_nil_r.
    rewrite Nat2Z.id, firstn_all, skipn_all, app_nil_r in Len.
    split; [|split; [|split]]; cbn [size block value]; auto; try (unfold LIM; lia).
    exists ys. rewrite map_app, <- app_assoc. reflexivity.
  - rewrite (u32_id (size st + count src)) by lia. rewrite (u32_id (p + count src)) by lia.
    destruct (allocate_keep st (size st + count src) (map Live l) rest Hb)
      as (st1 & rest1 & E1 & S1 & B1 & V1 & L1); auto; unfold LIM; try lia.
    { rewrite map_length; lia. }
    rewrite E1; cbn [bind]. rewrite V1, S1.
    set (l1 := firstn (Z.to_nat p) l). set (l2 := skipn (Z.to_nat p) l).
    assert (El : l = l1 ++ l2) by (symmetry; apply firstn_skipn).
    assert (L1l : Z.of_nat (length l1) = p) by (unfold l1; rewrite firstn_length; lia).
    assert (L2l : Z.of_nat (length l2) = Z.of_nat (length l) - p) by (unfold l2; rewrite skipn_length; lia).
    unfold buffer in L1. rewrite V1, app_length, map_length in L1.
    fold l1 l2 in Len. clearbody l1 l2. subst l. rewrite app_length in *.
    rewrite map_app, <- app_assoc.
    rewrite memmove_ok; try lia.
    2:{ rewrite map_length; lia. }
    2:{ rewrite map_length, Hs. lia. }
    2:{ rewrite !app_length, !map_length. lia. }
    cbn [bind value]. rewrite (u32_id (size st + count src)) by lia.
    replace (Z.to_nat (p + count src)) with (length l1 + length (contents src))%nat by lia.
    assert (F1 : exists ms, length ms = length (contents src) /\
       firstn (length l1 + length (contents src)) (map Live l1 ++ map Live l2 ++ rest1) = map Live l1 ++ ms).
    { rewrite firstn_app, map_length. rewrite firstn_all2 by (rewrite map_length; lia).
      eexists; split; [|reflexivity].
      rewrite firstn_length, app_length, map_length. lia. }
    destruct F1 as (ms & Lms & ->). rewrite <- app_assoc.
    set (tail := map Live l2 ++ skipn _ _).
    rewrite fill_at; auto.
    2:{ rewrite map_length. lia. }
    2:{ rewrite !app_length. lia. }
    cbn [bind]. eexists; split; [reflexivity|]. unfold set_value.
    split; [|split; [|split]]; cbn [size block value]; auto; try (unfold LIM; lia).
    { rewrite !app_length in *. lia. }
    { rewrite !app_length in *. unfold LIM; lia. }
    unfold tail. eexists. rewrite !map_app, <- !app_assoc. reflexivity.
Qed.

Lemma remove_ok st l p s : rep st l -> 0 <= p < Z.of_nat (length l) -> 0 < s -> p + s < 2 ^ 32 ->
  exists st', remove prim st p s = Ok st' /\
    rep st' (firstn (Z.to_nat p) l ++ skipn (Z.to_nat (p + s)) l).
Proof.
  intros (Hs & Hl & Hb & rest & Hv) Hp Hs' Hw. unfold LIM in *.
  unfold remove. rewrite Hs. destruct (Z.ltb_spec p (Z.of_nat (length l))); [|lia]. cbn [negb].
  destruct (Z.eqb_spec s 0); [lia|]. rewrite (u32_id (p + s)) by lia.
  set (s' := if Z.of_nat (length l) <? p + s then Z.of_nat (length l) - p else s).
  assert (H' : 0 < s' /\ p + s' <= Z.of_nat (length l) /\ skipn (Z.to_nat (p + s)) l = skipn (Z.to_nat (p + s')) l).
  { unfold s'. destruct (Z.ltb_spec (Z.of_nat (length l)) (p + s)).
    - repeat split; try lia. rewrite !skipn_all2; auto; lia.
    - repeat split; try lia. }
  destruct H' as (P1 & P2 & ->). clearbody s'. clear s n Hs' Hw.
  set (l1 := firstn (Z.to_nat p) l). set (l3 := skipn (Z.to_nat (p + s')) l).
  set (l2 := firstn (Z.to_nat s') (skipn (Z.to_nat p) l)).
  assert (El : l = l1 ++ l2 ++ l3).
  { unfold l1, l2, l3. rewrite <- (firstn_skipn (Z.to_nat p) l) at 1. f_equal.
    rewrite <- (firstn_skipn (Z.to_nat s') (skipn (Z.to_nat p) l)) at 1. f_equal.
    rewrite skipn_skipn'. f_equal. lia. }
  assert (L1 : Z.of_nat (length l1) = p) by (unfold l1; rewrite firstn_length; lia).
  assert (L2 : Z.of_nat (length l2) = s') by (unfold l2; rewrite firstn_length, skipn_length; lia).
  assert (L3 : Z.of_nat (length l3) = Z.of_nat (length l) - p - s') by (unfold l3; rewrite skipn_length; lia).
  clearbody l1 l2 l3. rewrite Hv.
  replace (map Live l) with (map Live l1 ++ map Live l2 ++ map Live l3)
    by (rewrite El, !map_app; reflexivity).
  rewrite <- !app_assoc.
  rewrite (destroy_range_ok l2 _ (map Live l1) (map Live l3 ++ rest)); try lia.
  2:{ rewrite !app_length, !map_length. lia. }
  2:{ rewrite map_length; lia. }
  cbn [bind].
  rewrite (u32_id (Z.of_nat (length l) - p)) by lia.
  set (m2 := map Live l1 ++ dead (length l2) l2 ++ map Live l3 ++ rest).
  assert (G : exists rest2,
    (if s' <? Z.of_nat (length l) - p then memmove m2 p (p + s') (Z.of_nat (length l) - p - s') else Ok m2) =
      Ok (map Live (l1 ++ l3) ++ rest2)).
  { assert (Ld : length (dead (length l2) l2) = length l2).
    { unfold dead. destruct prim; [apply map_length|apply repeat_length]. }
    destruct (Z.ltb_spec s' (Z.of_nat (length l) - p)).
    - unfold m2. rewrite (app_assoc (map Live l1)).
      rewrite memmove_ok; try lia.
      2:{ rewrite app_length, map_length, Ld. lia. }
      2:{ rewrite map_length. lia. }
      2:{ rewrite !app_length, !map_length, Ld. lia. }
      rewrite <- app_assoc.
      rewrite firstn_app. rewrite firstn_all2 by (rewrite map_length; lia).
      replace (Z.to_nat p - length (map Live l1))%nat with 0%nat by (rewrite map_length; lia).
      rewrite firstn_O, app_nil_r, map_app. eexists. rewrite <- app_assoc. reflexivity.
    - assert (l3 = []) as -> by (destruct l3; auto; simpl in L3; lia).
      unfold m2. rewrite app_nil_r. eexists; reflexivity. }
  destruct G as (rest2 & ->). cbn [bind size block].
  rewrite (u32_id (Z.of_nat (length l) - s')) by lia.
  assert (Lf : Z.of_nat (length (l1 ++ l3)) = Z.of_nat (length l) - s') by (rewrite app_length; lia).
  destruct (Z.eq_dec (Z.of_nat (length l) - s') 0) as [E0|E0].
  - rewrite E0. assert (l1 ++ l3 = []) as -> by (destruct (l1 ++ l3); auto; simpl in Lf; lia).
    destruct (allocate_zero (SSet 0 (block st) (map Live [] ++ rest2)) Hb eq_refl) as (st' & E & R).
    eauto.
  - destruct (allocate_keep (SSet (Z.of_nat (length l) - s') (block st) (map Live (l1 ++ l3) ++ rest2))
      (Z.of_nat (length l) - s') (map Live (l1 ++ l3)) rest2 Hb) as (st' & r' & E & S' & B' & V' & _);
      auto; unfold LIM; try lia.
    { rewrite map_length; lia. }
    exists st'. split; auto. cbn [size] in S'. repeat split; auto; unfold LIM; try lia. eauto.
Qed.

Lemma resize_ok st l s : rep st l -> prim = false -> 0 <= s <= LIM ->
  exists st', resize dflt prim st s = Ok st' /\ rep st' (repeat dflt (Z.to_nat s)).
Proof.
  intros R Hp Hs. pose proof R as (_ & _ & Hb & _). unfold LIM in *.
  unfold resize. rewrite (deallocate_ok st l R); cbn [bind].
  destruct (Z.eq_dec s 0) as [->|Hn].
  - destruct (allocate_zero (SSet 0 (block st) []) Hb eq_refl) as (st' & E & R').
    rewrite E; cbn [bind]. unfold copy. cbn [SetModel.fill count].
    destruct (Z.ltb_spec (Z.of_nat 0) 0); [lia|]. cbn [bind].
    eexists; split; [reflexivity|]. destruct R' as (S' & L' & B' & rest & V').
    repeat split; cbn [size block value]; auto; unfold LIM; simpl in *; try lia. eauto.
  - destruct (allocate_keep (SSet 0 (block st) []) s [] [] Hb) as (st' & r' & E & S' & B' & V' & L'); auto;
      unfold LIM; simpl; try lia.
    rewrite E; cbn [bind]. unfold copy. rewrite S', V'; cbn [size app].
    unfold buffer in L'. rewrite V' in L'. cbn [app] in L'.
    rewrite <- (firstn_skipn (Z.to_nat s) r').
    change 0 with (Z.of_nat (length (@nil cell))).
    rewrite <- (app_nil_l (firstn (Z.to_nat s) r' ++ _)).
    rewrite fill_ok.
    + cbn [bind app contents]. eexists; split; [reflexivity|].
      split; [|split; [|split]]; cbn [size block value count length]; auto; unfold LIM;
        rewrite ?repeat_length; try lia. eauto.
    + simpl. split; auto; lia.
    + simpl. rewrite repeat_length, !app_length, firstn_length, skipn_length. lia.
    + simpl. rewrite repeat_length, firstn_length. lia.
Qed.

(* ---- beyond the end ---- *)
Lemma init_range_ok : prim = false -> forall n fuel (xs ms ys : list cell) from to,
  (n <= fuel)%nat -> length ms = n -> from = Z.of_nat (length xs) -> to = from + Z.of_nat n ->
  init_range dflt prim fuel (xs ++ ms ++ ys) from to = Ok (xs ++ map Live (repeat dflt n) ++ ys).
Proof.
  intros Hp. induction n as [|n IH]; intros fuel xs ms ys from to Hf Hm -> Ht.
  - destruct ms; [|discriminate]. destruct fuel; cbn [init_range];
    (destruct (Z.ltb_spec (Z.of_nat (length xs)) to); [lia|]); reflexivity.
  - destruct ms as [|c ms]; [discriminate|]. simpl in Hm. destruct fuel as [|fuel]; [lia|]. cbn [init_range].
    destruct (Z.ltb_spec (Z.of_nat (length xs)) to); [|lia].
    cbn [app]. rewrite init_none by auto; cbn [bind].
    change (xs ++ Live dflt :: ms ++ ys) with (xs ++ [Live dflt] ++ ms ++ ys). rewrite app_assoc.
    rewrite (IH fuel (xs ++ [Live dflt]) ms ys) by (rewrite ?app_length; simpl; lia).
    rewrite <- app_assoc. reflexivity.
Qed.

(* Exact description of an insertion beyond the end: the gap is default constructed
   except for its last slot, whose content is whatever the memory held. *)
Lemma add_beyond st l p src : rep st l -> prim = false -> src_ok src -> count src <> 0 ->
  Z.of_nat (length l) < p -> p + count src <= LIM ->
  exists st' c rest', add st p src = Ok st' /\ size st' = p + count src /\
    1 <= block st' < 2 ^ 29 /\
    value st' = map Live (l ++ repeat dflt (Z.to_nat (p - 1 - Z.of_nat (length l)))) ++
                [c] ++ map Live (contents src) ++ rest'.
Proof.
  intros (Hs & Hl & Hb & rest & Hv) Hp Ho Hc Hlt Hlim. unfold LIM in *.
  assert (Hc' : 0 < count src) by (destruct src; simpl in *; lia).
  unfold SetModel.add. destruct (Z.eqb_spec (count src) 0); [lia|].
  pose proof (contents_length src Ho) as CL.
  destruct (Z.leb_spec (size st) p); [|lia].
  rewrite (u32_id (p + count src)) by lia.
  destruct (allocate_keep st (p + count src) (map Live l) rest Hb)
      as (st1 & rest1 & E1 & S1 & B1 & V1 & L1); auto; unfold LIM; try lia.
  { rewrite map_length; lia. }
  rewrite E1; cbn [bind]. destruct (Z.ltb_spec 0 p); [|lia].
  unfold buffer in L1. rewrite V1, app_length, map_length in L1.
  set (g := Z.to_nat (p - 1 - Z.of_nat (length l))).
  set (k := length (contents src)).
  assert (Lr : (g + 1 + k <= length rest1)%nat) by (unfold g, k; lia).
  rewrite V1. rewrite <- (firstn_skipn g rest1).
  rewrite (init_range_ok Hp g); auto.
  2:{ rewrite !app_length, !map_length, firstn_length, skipn_length. lia. }
  2:{ rewrite firstn_length; lia. }
  2:{ rewrite map_length; lia. }
  2:{ unfold g; lia. }
  cbn [bind value].
  destruct (skipn g rest1) as [|c r2] eqn:Er.
  { exfalso. apply (f_equal (@length _)) in Er. rewrite skipn_length in Er. simpl in Er. lia. }
  assert (Lr2 : (k <= length r2)%nat).
  { apply (f_equal (@length _)) in Er. rewrite skipn_length in Er. simpl in Er. lia. }
  rewrite <- (firstn_skipn k r2).
  replace (map Live l ++ map Live (repeat dflt g) ++ c :: firstn k r2 ++ skipn k r2)
    with ((map Live (l ++ repeat dflt g) ++ [c]) ++ firstn k r2 ++ skipn k r2)
    by (rewrite map_app, <- !app_assoc; reflexivity).
  rewrite fill_at; auto.
  2:{ rewrite app_length, map_length, app_length, repeat_length. simpl. unfold g. lia. }
  2:{ rewrite !app_length. rewrite firstn_length. fold k. lia. }
  2:{ rewrite firstn_length. fold k. lia. }
  cbn [bind]. eexists _, c, (skipn k r2). split; [reflexivity|]. unfold set_value; cbn [size block value].
  split; auto. split; auto. rewrite <- app_assoc. reflexivity.
Qed.

(* ---- assignment ---- *)
Lemma read_cells_ok l : forall rest : list cell,
  read_cells (map Live l ++ rest) (length l) = Ok l.
Proof.
  induction l as [|v l IH]; intros rest; simpl; [destruct rest; auto|].
  rewrite IH; reflexivity.
Qed.

Lemma assign_ok st l other l' : rep st l -> rep other l' ->
  exists st', assign dflt prim st other = Ok st' /\ rep st' l'.
Proof.
  intros R (Hs & Hl & Hb' & rest & Hv). pose proof R as (_ & _ & Hb & _). unfold LIM in *.
  unfold assign. rewrite (deallocate_ok st l R); cbn [bind]. rewrite Hs, Hv, Nat2Z.id, read_cells_ok.
  destruct (Z.eq_dec (Z.of_nat (length l')) 0) as [E0|Hn].
  - rewrite E0. assert (l' = []) as -> by (destruct l'; auto; simpl in E0; lia).
    destruct (allocate_zero (SSet 0 (block st) []) Hb eq_refl) as (st' & E & R').
    rewrite E; cbn [bind]. unfold copy. cbn [SetModel.fill count length].
    destruct (Z.ltb_spec (Z.of_nat 0) (Z.of_nat 0)); [lia|]. cbn [bind].
    eexists; split; [reflexivity|]. destruct R' as (S' & L' & B' & rest' & V').
    repeat split; cbn [size block value]; auto; unfold LIM; simpl in *; try lia. eauto.
  - destruct (allocate_keep (SSet 0 (block st) []) (Z.of_nat (length l')) [] [] Hb) as (st' & r' & E & S' & B' & V' & L'); auto;
      unfold LIM; simpl; try lia.
    rewrite E; cbn [bind]. unfold copy. rewrite S', V'; cbn [size app].
    unfold buffer in L'. rewrite V' in L'. cbn [app] in L'.
    rewrite <- (firstn_skipn (length l') r').
    change 0 with (Z.of_nat (length (@nil cell))).
    rewrite <- (app_nil_l (firstn (length l') r' ++ _)).
    rewrite fill_ok.
    + cbn [bind app contents]. eexists; split; [reflexivity|].
      split; [|split; [|split]]; cbn [size block value count length]; auto; unfold LIM; try lia. eauto.
    + exact Logic.I.
    + simpl. rewrite !app_length, firstn_length, skipn_length. lia.
    + simpl. rewrite firstn_length. lia.
Qed.

Lemma assign_self_empty st l : rep st l ->
  exists st', assign_self dflt prim st = Ok st' /\ rep st' [].
Proof.
  intros R. pose proof R as (_ & _ & Hb & _).
  unfold assign_self. rewrite (deallocate_ok st l R); cbn [bind size].
  destruct (allocate_zero (SSet 0 (block st) []) Hb eq_refl) as (st' & E & R').
  rewrite E; cbn [bind]. destruct R' as (S' & L' & B' & rest' & V').
  rewrite S'. cbn [length Z.of_nat Z.to_nat read_cells bind]. unfold copy. cbn [SetModel.fill count length].
  destruct (Z.ltb_spec (Z.of_nat 0) (Z.of_nat 0)); [lia|]. cbn [bind].
  eexists; split; [reflexivity|].
  repeat split; cbn [size block value]; auto; unfold LIM; simpl in *; try lia. eauto.
Qed.

(* ---- reading ---- *)
Lemma at_ok st l p : rep st l -> 0 <= p ->
  at_ st p = match nth_error l (Z.to_nat p) with Some v => Ok v | None => UB OutOfBounds end.
Proof.
  intros (Hs & Hl & Hb & rest & Hv) Hp. unfold at_. rewrite Hs.
  destruct (Z.ltb_spec p (Z.of_nat (length l))); cbn [negb].
  - unfold zget. destruct (Z.ltb_spec p 0); [lia|]. rewrite Hv. unfold aget.
    rewrite nth_error_app1 by (rewrite map_length; lia).
    rewrite nth_error_map. destruct (nth_error l (Z.to_nat p)); auto.
  - assert (E : nth_error l (Z.to_nat p) = None) by (apply nth_error_None; lia). rewrite E. auto.
Qed.

End Cells.
