(* C48-C51 and C64: the traffic survey files. *)
From Coq Require Import ZArith QArith List Bool Lia Arith.
From Verif Require Import Base MathModel TrafficModel.
Import ListNotations.
Local Open Scope Z_scope.

(* ================= C48 ================= *)
(* the number a string of digits denotes *)
Definition digits_value (l : list Z) : Z := fold_left (fun a c => 10 * a + (c - 48)) l 0.
Definition blank (c : Z) : Prop := 9 <= c <= 13 \/ c = 32.
Definition digit (c : Z) : Prop := 48 <= c <= 57.
(* a field of width w at offset p: blanks, the given text, then (if the field is not full)
   a character that ends the number *)
Record field (b : list Z) (p w : nat) (blanks text : list Z) : Prop := {
  f_at : firstn (length blanks + length text) (skipn p b) = blanks ++ text;
  f_blank : Forall blank blanks;
  f_width : (length blanks + length text <= w)%nat;
  f_end : (length blanks + length text < w)%nat ->
    exists c, nth_error b (p + length blanks + length text) = Some c /\
      -1 <= c /\ ~ digit c /\ c <> 45 /\ (text = [] -> ~ blank c) }.

Lemma is_digit_spec : forall c, is_digit c = true <-> digit c.
Proof. intros c. unfold is_digit, digit. rewrite andb_true_iff, !Z.leb_le. tauto. Qed.
Lemma is_space_spec : forall c, is_space c = true <-> blank c.
Proof.
  intros c. unfold is_space, blank. rewrite orb_true_iff, andb_true_iff, !Z.leb_le, Z.eqb_eq. tauto.
Qed.
Lemma i32_in : forall x, INT_MIN <= x <= INT_MAX -> i32 x = Ok x.
Proof.
  intros x [H1 H2]. unfold i32, int_ok.
  apply Z.leb_le in H1. apply Z.leb_le in H2. now rewrite H1, H2.
Qed.
Lemma ctype_ok : forall c, -1 <= c -> ctype c = Ok tt.
Proof. intros c H. unfold ctype. destruct (Z.ltb_spec c (-1)); [lia|reflexivity]. Qed.
Lemma prefix_nth : forall (b : list Z) p l t, firstn (length l + t) (skipn p b) = l ->
  True -> forall i, (i < length l)%nat -> nth_error b (p + i) = nth_error l i.
Proof.
  intros b p l t H _ i Hi.
  assert (E : nth_error (firstn (length l + t) (skipn p b)) i = nth_error (skipn p b) i).
  { rewrite <- (firstn_skipn (length l + t) (skipn p b)) at 2. rewrite nth_error_app1; auto. 
    rewrite H. auto. }
  rewrite H in E. rewrite E.
  clear. revert b. induction p; intros b; [reflexivity|]. destruct b; cbn; [now destruct i|]. apply IHp.
Qed.
Lemma cut_nth : forall (b : list Z) p l, firstn (length l) (skipn p b) = l ->
  forall i, (i < length l)%nat -> nth_error b (p + i) = nth_error l i.
Proof. intros b p l H. apply (prefix_nth b p l 0); auto. now rewrite Nat.add_0_r. Qed.

Lemma skip_ok : forall bl b p w,
  (forall i, (i < length bl)%nat -> nth_error b (p + i) = nth_error bl i) ->
  Forall blank bl -> (length bl <= w)%nat ->
  ((length bl < w)%nat ->
    exists c, nth_error b (p + length bl) = Some c /\ -1 <= c /\ ~ blank c) ->
  skip_blanks w b p = Ok ((w - length bl)%nat, (p + length bl)%nat).
Proof.
  induction bl as [|c bl IH]; intros b p w Hb Hf Hw He.
  - cbn [length] in *. rewrite Nat.add_0_r, Nat.sub_0_r in *.
    destruct w; [reflexivity|]. destruct (He ltac:(lia)) as (c & E & Hc & N).
    cbn [skip_blanks]. rewrite (proj2 (aget_ok _ _ _) E). cbn [bind]. rewrite ctype_ok by auto. cbn [bind].
    destruct (is_space c) eqn:Es; [|reflexivity]. exfalso. apply N. now apply is_space_spec.
  - cbn [length] in *. destruct w; [lia|]. cbn [skip_blanks].
    pose proof (Hb 0%nat ltac:(lia)) as E. rewrite Nat.add_0_r in E. cbn in E.
    rewrite (proj2 (aget_ok _ _ _) E). cbn [bind]. inversion Hf; subst.
    rewrite ctype_ok by (unfold blank in *; lia). cbn [bind].
    replace (is_space c) with true by (symmetry; now apply is_space_spec).
    rewrite IH; auto; try lia.
    + f_equal. f_equal; lia.
    + intros i Hi. specialize (Hb (S i) ltac:(lia)). cbn [nth_error] in Hb. rewrite <- Hb. f_equal. lia.
    + intros H. destruct (He ltac:(lia)) as (x & Ex & Hx). exists x. rewrite <- Ex. 
      split; [f_equal; lia|auto].
Qed.

Lemma value_mono : forall l a, 0 <= a -> Forall digit l ->
  a <= fold_left (fun a c => 10 * a + (c - 48)) l a.
Proof.
  induction l as [|c l IH]; intros a Ha Hf; cbn [fold_left]; [lia|]. inversion Hf; subst.
  unfold digit in *. specialize (IH (10 * a + (c - 48)) ltac:(lia) ltac:(auto)). lia.
Qed.
Lemma digit_loop_pos : forall ds b p w r,
  (forall i, (i < length ds)%nat -> nth_error b (p + i) = nth_error ds i) ->
  Forall digit ds -> (length ds <= w)%nat -> 0 <= r ->
  fold_left (fun a c => 10 * a + (c - 48)) ds r + 48 <= INT_MAX ->
  ((length ds < w)%nat ->
    exists c, nth_error b (p + length ds) = Some c /\ -1 <= c /\ ~ digit c /\ c <> 45) ->
  digit_loop w b p false r = Ok (false, fold_left (fun a c => 10 * a + (c - 48)) ds r).
Proof.
  induction ds as [|c ds IH]; intros b p w r Hb Hf Hw Hr Hm He.
  - cbn [length fold_left] in *. rewrite Nat.add_0_r in *. destruct w; [reflexivity|].
    destruct (He ltac:(lia)) as (c & E & Hc & N & N').
    cbn [digit_loop]. rewrite (proj2 (aget_ok _ _ _) E). cbn [bind].
    destruct (Z.eqb_spec c 45); [contradiction|]. rewrite andb_false_r.
    rewrite ctype_ok by auto. cbn [bind].
    destruct (is_digit c) eqn:Ed; [|reflexivity]. exfalso. apply N. now apply is_digit_spec.
  - cbn [length fold_left] in *. destruct w; [lia|]. cbn [digit_loop].
    pose proof (Hb 0%nat ltac:(lia)) as E. rewrite Nat.add_0_r in E. cbn in E.
    rewrite (proj2 (aget_ok _ _ _) E). cbn [bind]. inversion Hf as [|? ? Hd Hf']; subst.
    assert (Hd' := Hd). apply is_digit_spec in Hd'. unfold digit in Hd.
    pose proof (value_mono ds (10 * r + (c - 48)) ltac:(lia) Hf').
    destruct (Z.eqb_spec c 45); [lia|]. rewrite andb_false_r.
    rewrite ctype_ok by lia. cbn [bind]. rewrite Hd'. cbn [negb].
    assert (INT_MIN = -2147483648 /\ INT_MAX = 2147483647) as [B1 B2] by (split; reflexivity).
    rewrite i32_in by lia. cbn [bind]. rewrite i32_in by lia. cbn [bind].
    rewrite i32_in by lia. cbn [bind].
    replace (r * 10 + c - 48) with (10 * r + (c - 48)) by lia.
    rewrite IH; auto; try lia.
    + intros i Hi. specialize (Hb (S i) ltac:(lia)). cbn [nth_error] in Hb. rewrite <- Hb. f_equal. lia.
    + intros H0. destruct (He ltac:(lia)) as (x & Ex & Hx). exists x. rewrite <- Ex.
      split; [f_equal; lia|auto].
Qed.
(* the loop after a minus sign: the sign itself was accumulated as -3 *)
Lemma digit_loop_neg : forall ds b p w r,
  (forall i, (i < length ds)%nat -> nth_error b (p + i) = nth_error ds i) ->
  Forall digit ds -> (length ds <= w)%nat -> r < 0 ->
  INT_MIN <= r * 10 ^ Z.of_nat (length ds) ->
  ((length ds < w)%nat ->
    exists c, nth_error b (p + length ds) = Some c /\ -1 <= c /\ ~ digit c) ->
  digit_loop w b p true r = Ok (true, fold_left (fun a c => 10 * a + (c - 48)) ds r).
Proof.
  induction ds as [|c ds IH]; intros b p w r Hb Hf Hw Hr Hm He.
  - cbn [length fold_left] in *. rewrite Nat.add_0_r in *. destruct w; [reflexivity|].
    destruct (He ltac:(lia)) as (c & E & Hc & N).
    cbn [digit_loop]. rewrite (proj2 (aget_ok _ _ _) E). cbn [bind].
    destruct (Z.eqb_spec r 0); [lia|]. cbn [andb].
    rewrite ctype_ok by auto. cbn [bind].
    destruct (is_digit c) eqn:Ed; [|reflexivity]. exfalso. apply N. now apply is_digit_spec.
  - cbn [length fold_left] in *. destruct w; [lia|]. cbn [digit_loop].
    pose proof (Hb 0%nat ltac:(lia)) as E. rewrite Nat.add_0_r in E. cbn in E.
    rewrite (proj2 (aget_ok _ _ _) E). cbn [bind]. inversion Hf as [|? ? Hd Hf']; subst.
    assert (Hd' := Hd). apply is_digit_spec in Hd'. unfold digit in Hd.
    destruct (Z.eqb_spec r 0); [lia|]. cbn [andb].
    rewrite ctype_ok by lia. cbn [bind]. rewrite Hd'. cbn [negb].
    assert (INT_MIN = -2147483648 /\ INT_MAX = 2147483647) as [B1 B2] by (split; reflexivity).
    assert (P : 0 < 10 ^ Z.of_nat (length ds)) by (apply Z.pow_pos_nonneg; lia).
    rewrite Nat2Z.inj_succ, Z.pow_succ_r in Hm by lia.
    assert (INT_MIN <= r * 10) by nia.
    rewrite i32_in by lia. cbn [bind]. rewrite i32_in by lia. cbn [bind].
    rewrite i32_in by lia. cbn [bind].
    replace (r * 10 + c - 48) with (10 * r + (c - 48)) by lia.
    rewrite IH; auto; try lia.
    + intros i Hi. specialize (Hb (S i) ltac:(lia)). cbn [nth_error] in Hb. rewrite <- Hb. f_equal. lia.
    + nia.
    + intros H0. destruct (He ltac:(lia)) as (x & Ex & Hx). exists x. rewrite <- Ex.
      split; [f_equal; lia|auto].
Qed.

Lemma field_nth : forall b p w bl tx, field b p w bl tx ->
  (forall i, (i < length bl)%nat -> nth_error b (p + i) = nth_error bl i) /\
  (forall i, (i < length tx)%nat -> nth_error b (p + length bl + i) = nth_error tx i).
Proof.
  intros b p w bl tx [H _ _ _]. rewrite <- app_length in H.
  pose proof (cut_nth b p _ H) as C. rewrite app_length in C. split; intros i Hi.
  - rewrite C by lia. now rewrite nth_error_app1.
  - rewrite <- Nat.add_assoc, C by lia. rewrite nth_error_app2 by lia. f_equal. lia.
Qed.

(* Blanks and digits give the number (as long as it is not within 48 of INT_MAX). *)
Theorem C48_unsigned_partial : forall b p w bl ds,
  field b p w bl ds -> Forall digit ds -> digits_value ds + 48 <= INT_MAX ->
  str2int b p w = Ok (digits_value ds).
Proof.
  intros b p w bl ds F Hd Hm. pose proof (field_nth _ _ _ _ _ F) as [N1 N2].
  destruct F as [F1 F2 F3 F4]. unfold str2int.
  rewrite (skip_ok bl b p w); auto; try lia.
  2:{ intros H. destruct ds as [|c ds].
      - cbn [length] in *. destruct (F4 ltac:(lia)) as (c & E & Hc & _ & _ & Nb).
        exists c. rewrite <- E. split; [f_equal; lia|auto].
      - exists c. specialize (N2 0%nat ltac:(cbn; lia)). rewrite Nat.add_0_r in N2.
        split; [exact N2|]. inversion Hd as [|? ? Hc _]; subst. unfold digit, blank in *. lia. }
  cbn [bind].
  rewrite (digit_loop_pos ds); auto; try lia.
  intros H. destruct (F4 ltac:(lia)) as (c & E & Hc & Nd & Nm & _). exists c. auto.
Qed.

Lemma value_neg : forall ds r,
  fold_left (fun a c => 10 * a + (c - 48)) ds r
  = r * 10 ^ Z.of_nat (length ds) + digits_value ds.
Proof.
  unfold digits_value.
  assert (G : forall ds r s, fold_left (fun a c => 10 * a + (c - 48)) ds (r + s)
    = r * 10 ^ Z.of_nat (length ds) + fold_left (fun a c => 10 * a + (c - 48)) ds s).
  { induction ds as [|c ds IH]; intros r s; cbn [fold_left length].
    - change (10 ^ Z.of_nat 0) with 1. lia.
    - replace (10 * (r + s) + (c - 48)) with (10 * r + (10 * s + (c - 48))) by lia.
      rewrite IH, Nat2Z.inj_succ, Z.pow_succ_r by lia. lia. }
  intros ds r. rewrite <- (Z.add_0_r r) at 1. apply G.
Qed.
Lemma digits_bound : forall ds, Forall digit ds ->
  0 <= digits_value ds < 10 ^ Z.of_nat (length ds).
Proof.
  intros ds. unfold digits_value.
  assert (G : forall ds r, Forall digit ds -> 0 <= r ->
    0 <= fold_left (fun a c => 10 * a + (c - 48)) ds r < (r + 1) * 10 ^ Z.of_nat (length ds)).
  { induction ds0 as [|c ds0 IH]; intros r Hf Hr; cbn [fold_left length].
    - change (10 ^ Z.of_nat 0) with 1. lia.
    - inversion Hf as [|? ? Hc Hf']; subst. unfold digit in Hc.
      specialize (IH (10 * r + (c - 48)) Hf' ltac:(lia)).
      rewrite Nat2Z.inj_succ, Z.pow_succ_r by lia.
      assert (0 < 10 ^ Z.of_nat (length ds0)) by (apply Z.pow_pos_nonneg; lia). nia. }
  intros Hf. specialize (G ds 0 Hf ltac:(lia)). lia.
Qed.

(* A minus sign is never honoured: "-" and k digits of value v give 3*10^k - v, not -v. *)
Theorem C48_minus_refuted : forall b p w bl ds,
  field b p w bl (45 :: ds) -> Forall digit ds -> (length ds <= 8)%nat ->
  str2int b p w = Ok (3 * 10 ^ Z.of_nat (length ds) - digits_value ds) /\
  3 * 10 ^ Z.of_nat (length ds) - digits_value ds <> - digits_value ds.
Proof.
  intros b p w bl ds F Hd Hl. pose proof (field_nth _ _ _ _ _ F) as [N1 N2].
  destruct F as [F1 F2 F3 F4]. cbn [length] in *.
  pose proof (digits_bound ds Hd) as Bd.
  assert (P : 0 < 10 ^ Z.of_nat (length ds) <= 10 ^ 8).
  { split; [apply Z.pow_pos_nonneg; lia|]. apply Z.pow_le_mono_r; lia. }
  change (10 ^ 8) with 100000000 in P.
  assert (INT_MIN = -2147483648 /\ INT_MAX = 2147483647) as [B1 B2] by (split; reflexivity).
  split; [|lia].
  unfold str2int. rewrite (skip_ok bl b p w); auto; try lia.
  2:{ intros H. exists 45. specialize (N2 0%nat ltac:(lia)). rewrite Nat.add_0_r in N2.
      split; [exact N2|]. unfold blank. lia. }
  cbn [bind]. destruct (w - length bl)%nat as [|w'] eqn:W; [lia|]. cbn [digit_loop].
  pose proof (N2 0%nat ltac:(lia)) as E. rewrite Nat.add_0_r in E. cbn in E.
  rewrite (proj2 (aget_ok _ _ _) E). cbn [bind].
  change ((0 =? 0) && (45 =? 45)) with true. cbv iota.
  rewrite i32_in by lia. cbn [bind]. rewrite i32_in by lia. cbn [bind].
  rewrite i32_in by lia. cbn [bind]. change (0 * 10 + 45 - 48) with (-3).
  rewrite (digit_loop_neg ds); auto; try lia.
  - cbn [bind]. rewrite value_neg.
    rewrite i32_in by lia. f_equal. lia.
  - intros i Hi. specialize (N2 (S i) ltac:(lia)). cbn [nth_error] in N2. rewrite <- N2. f_equal. lia.
  - intros H. destruct (F4 ltac:(lia)) as (c & Ec & Hc & Nd & _). exists c.
    rewrite <- Ec. split; [f_equal; lia|auto].
Qed.
(* Numbers that fit an int but are within 48 of its end overflow on the way. *)
Theorem C48_large_refuted :
  let b := map (fun d => d + 48) [2;1;4;7;4;8;3;6;4;7] in
  digits_value b = INT_MAX /\ str2int b 0 10 = UB SignedOverflow.
Proof. split; reflexivity. Qed.
Example C48_demo :
  (* " 12," in a field of four *)
  field [32;49;50;44] 0 4 [32] [49;50] /\ str2int [32;49;50;44] 0 4 = Ok 12 /\
  (* "-5" *)
  field [45;53] 0 2 [] [45;53] /\ str2int [45;53] 0 2 = Ok 25.
Proof.
  split; [|split; [reflexivity|split; [|reflexivity]]].
  - constructor; cbn; auto.
    + constructor; [right; reflexivity|constructor].
    + intros _. exists 44. unfold digit, blank. repeat split; lia || (intros; discriminate).
  - constructor; cbn; auto. intros; lia.
Qed.
Print Assumptions C48_unsigned_partial.
Print Assumptions C48_minus_refuted.

(* ================= C49 ================= *)
(* the line in front of the first newline, and what follows it *)
Fixpoint cut_line (l : list Z) : list Z * option (list Z) :=
  match l with
  | [] => ([], None)
  | c :: l => if c =? 10 then ([], Some l)
              else let (a, r) := cut_line l in (c :: a, r)
  end.
Definition printable (c : Z) : Prop := 32 <= c <= 126.
Definition clean (c : Z) : Z := if is_print c then c else 32.
Lemma cut_line_ok : forall l a r, cut_line l = (a, r) ->
  ~ In 10 a /\ l = a ++ match r with Some t => 10 :: t | None => [] end.
Proof.
  induction l as [|c l IH]; intros a r H; cbn in H; [inversion H; auto|].
  destruct (Z.eqb_spec c 10).
  - inversion H; subst. auto.
  - destruct (cut_line l) as [a' r'] eqn:E. inversion H; subst.
    destruct (IH _ _ eq_refl) as [H1 H2]. split; [|now rewrite H2 at 1].
    intros [H3|H3]; auto.
Qed.
Lemma clean_ok : forall c, printable (clean c) /\ (printable c -> clean c = c).
Proof.
  intros c. unfold clean, printable, is_print.
  destruct (Z.leb_spec 32 c), (Z.leb_spec c 126); cbn [andb]; lia.
Qed.

Definition splice (b : list Z) (p : nat) (x : list Z) : list Z :=
  firstn p b ++ x ++ skipn (p + length x) b.
Lemma splice_nil : forall b p, splice b p [] = b.
Proof. intros. unfold splice. cbn. rewrite Nat.add_0_r. apply firstn_skipn. Qed.
Lemma splice_cons : forall p b c x, (p < length b)%nat ->
  splice (upd b p c) (S p) x = splice b p (c :: x).
Proof.
  unfold splice. induction p; intros b c x H; destruct b as [|y b]; cbn in H; try lia.
  - reflexivity.
  - cbn [upd firstn length plus skipn app]. f_equal. 
    specialize (IHp b c x ltac:(lia)). cbn [length plus firstn app] in *.
    replace (p + S (length x))%nat with (S (p + length x)) in * by lia.
    exact IHp.
Qed.
Lemma splice_upd : forall p b c d x, (p < length b)%nat ->
  splice (upd b p d) p (c :: x) = splice b p (c :: x).
Proof.
  unfold splice. induction p; intros b c d x H; destruct b as [|y b]; cbn in H; try lia.
  - reflexivity.
  - cbn [upd firstn app plus length skipn] in *. f_equal. apply IHp. lia.
Qed.
Lemma length_splice : forall b p x, (p + length x <= length b)%nat ->
  length (splice b p x) = length b.
Proof.
  intros b p x H. unfold splice. rewrite !app_length, firstn_length, skipn_length. lia.
Qed.
Lemma zero_fill_ok : forall k b p, (p + k <= length b)%nat ->
  zero_fill k b p = Ok (splice b p (repeat 0 k)).
Proof.
  induction k; intros b p H; cbn [zero_fill repeat].
  - now rewrite splice_nil.
  - rewrite aset_ok by lia. cbn [bind]. rewrite IHk by (rewrite length_upd; lia).
    now rewrite splice_cons by lia.
Qed.

(* what ends up in a buffer of l bytes *)
Definition filled (l : nat) (t : list Z) : list Z :=
  firstn (l - 1) t ++ repeat 0 (l - length (firstn (l - 1) t)).
Lemma length_filled : forall l t, (1 <= l)%nat -> length (filled l t) = l.
Proof. intros l t H. unfold filled. rewrite app_length, repeat_length, firstn_length. lia. Qed.
Lemma filled_cons : forall l c t, (2 <= l)%nat -> filled l (c :: t) = c :: filled (l - 1) t.
Proof.
  intros l c t H. unfold filled. destruct l as [|[|l]]; try lia.
  cbn [Nat.sub firstn app length]. rewrite !Nat.sub_0_r. reflexivity.
Qed.
Lemma filled_1 : forall t, filled 1 t = [0].
Proof. reflexivity. Qed.
Lemma filled_nil : forall l, (1 <= l)%nat -> filled l [] = repeat 0 l.
Proof. intros. unfold filled. rewrite firstn_nil. cbn [app length]. f_equal. lia. Qed.

Definition finish (m : outcome (list Z * nat * Z * stream)) : outcome (list Z * stream) :=
  let* (q, s) := m in
  let '(b, p, l) := q in
  let* b := zero_fill (Z.to_nat l) b p in Ok (b, s).
Lemma loop_eof : forall fuel b p l r, fgetln_loop fuel b p l {| rest := r; at_eof := true |}
  = Ok (b, p, l, {| rest := r; at_eof := true |}).
Proof. destruct fuel; reflexivity. Qed.
Lemma fgetln_loop_ok : forall r fuel b p l,
  (length r < fuel)%nat -> (1 <= l)%nat -> (p + l <= length b)%nat ->
  Forall (fun c => 0 <= c) r ->
  finish (fgetln_loop fuel b p (Z.of_nat l) {| rest := r; at_eof := false |}) =
  let (line, tl) := cut_line r in
  match tl with
  | Some t => Ok (splice b p (filled l (map clean line)), {| rest := t; at_eof := false |})
  | None => Ok (splice b p (filled l (map clean line ++ [32])), {| rest := []; at_eof := true |})
  end.
Proof.
  induction r as [|c r IH]; intros fuel b p l Hf Hl Hp Hr; destruct fuel as [|fuel];
    cbn [length] in Hf; try lia.
  - cbn [fgetln_loop at_eof fgetc rest cut_line]. cbn [map app].
    change (-1 =? 10) with false. cbv iota.
    destruct (Z.ltb_spec 1 (Z.of_nat l)).
    + rewrite aset_ok by lia. cbn [bind]. rewrite loop_eof. cbn [finish bind].
      change (is_print (-1)) with false. cbv iota.
      replace (Z.to_nat (Z.of_nat l - 1)) with (l - 1)%nat by lia.
      rewrite zero_fill_ok by (rewrite length_upd; lia). cbn [bind].
      rewrite splice_cons by lia. rewrite filled_cons by lia. now rewrite filled_nil by lia.
    + rewrite loop_eof. cbn [finish bind]. assert (l = 1%nat) by lia. subst l.
      change (Z.to_nat (Z.of_nat 1)) with 1%nat.
      rewrite zero_fill_ok by lia. reflexivity.
  - cbn [fgetln_loop at_eof fgetc rest cut_line]. inversion Hr; subst.
    destruct (Z.eqb_spec c 10).
    + destruct (nth_error b p) as [x|] eqn:E.
      2:{ apply nth_error_None in E. lia. }
      rewrite (proj2 (aget_ok _ _ _) E). cbn [bind].
      destruct l as [|l]; [lia|].
      destruct (x =? 13).
      * rewrite aset_ok by lia. cbn [bind finish]. rewrite Nat2Z.id.
        rewrite zero_fill_ok by (rewrite length_upd; lia). cbn [bind map].
        rewrite filled_nil by lia. cbn [repeat]. now rewrite splice_upd by lia.
      * cbn [bind finish]. rewrite Nat2Z.id.
        rewrite zero_fill_ok by lia. cbn [bind map]. now rewrite filled_nil by lia.
    + destruct (cut_line r) as [line tl] eqn:E.
      destruct (Z.ltb_spec 1 (Z.of_nat l)).
      * rewrite aset_ok by lia. cbn [bind].
        replace (Z.of_nat l - 1) with (Z.of_nat (l - 1)) by lia.
        rewrite IH by (rewrite ?length_upd; auto; lia).
        destruct tl as [t|]; cbn [map app]; rewrite splice_cons by lia;
          now rewrite filled_cons by lia.
      * assert (l = 1%nat) by lia. subst l. rewrite IH by (auto; lia).
        destruct tl; reflexivity.
Qed.

(* A line ended by a newline: its cleaned characters, as many as fit, then zeros. *)
Theorem C49_line : forall b l r line t,
  (1 <= l <= length b)%nat -> Forall (fun c => 0 <= c) r ->
  r = line ++ 10 :: t -> ~ In 10 line ->
  exists b', fgetln b (Z.of_nat l) {| rest := r; at_eof := false |}
             = Ok (b', {| rest := t; at_eof := false |}) /\
    firstn l b' = firstn (l - 1) (map clean line)
                  ++ repeat 0 (l - length (firstn (l - 1) (map clean line))) /\
    skipn l b' = skipn l b /\ length b' = length b /\
    (exists k, (k < l)%nat /\ Forall printable (firstn k b') /\
       (forall i, (k <= i < l)%nat -> nth_error b' i = Some 0)).
Proof.
  intros b l r line t Hl Hr E N.
  assert (C : cut_line r = (line, Some t)).
  { subst r. clear -N. induction line as [|c line IH]; cbn.
    - reflexivity.
    - destruct (Z.eqb_spec c 10); [exfalso; apply N; now left|].
      rewrite IH; auto. intros H. apply N. now right. }
  pose proof (fgetln_loop_ok r (S (length r)) b 0 l ltac:(lia) ltac:(lia) ltac:(lia) Hr) as F.
  rewrite C in F. unfold fgetln. destruct (Z.leb_spec (Z.of_nat l) 0); [lia|].
  cbn [rest].
  assert (G : (let* (q, s) := fgetln_loop (S (length r)) b 0 (Z.of_nat l)
                 {| rest := r; at_eof := false |} in
               let '(b0, p, l0) := q in
               let* b1 := zero_fill (Z.to_nat l0) b0 p in Ok (b1, s))
              = Ok (splice b 0 (filled l (map clean line)), {| rest := t; at_eof := false |}))
    by exact F.
  eexists. split; [exact G|]. unfold splice. cbn [firstn app plus].
  rewrite length_filled by lia.
  set (x := firstn (l - 1) (map clean line)).
  assert (Lf : length (filled l (map clean line)) = l) by (apply length_filled; lia).
  split; [|split; [|split]].
  - rewrite firstn_app, Lf, Nat.sub_diag. cbn [firstn]. rewrite app_nil_r.
    rewrite firstn_all2 by lia. reflexivity.
  - rewrite skipn_app, Lf, Nat.sub_diag. cbn [skipn].
    rewrite skipn_all2 by lia. reflexivity.
  - rewrite app_length, Lf, skipn_length. lia.
  - assert (Lx : (length x <= l - 1)%nat) by (unfold x; rewrite firstn_length; lia).
    exists (length x). split; [lia|]. split.
    + unfold filled. fold x. rewrite <- app_assoc, firstn_app, Nat.sub_diag. cbn [firstn].
      rewrite app_nil_r, firstn_all. unfold x.
      apply Forall_forall. intros c Hc. apply (In_nth_error) in Hc. destruct Hc as [i Hi].
      assert (In c (map clean line)).
      { rewrite <- (firstn_skipn (l - 1) (map clean line)). apply in_or_app. left.
        eapply nth_error_In; eauto. }
      apply in_map_iff in H0. destruct H0 as (y & <- & _). apply clean_ok.
    + intros i Hi. rewrite nth_error_app1 by lia. unfold filled. fold x.
      rewrite nth_error_app2 by lia.
      assert (R : forall n j, (j < n)%nat -> nth_error (repeat 0 n) j = Some 0).
      { induction n; intros j Hj; [lia|]. destruct j; cbn; auto. apply IHn. lia. }
      apply R. lia.
Qed.
(* The last line without a newline is given a trailing blank, and so an empty rest is read
   as a line of one blank; only the next call sees the end of the file. *)
Theorem C49_last_line_refuted : forall b l line,
  (1 <= l <= length b)%nat -> Forall (fun c => 0 <= c) line -> ~ In 10 line ->
  exists b', fgetln b (Z.of_nat l) {| rest := line; at_eof := false |}
             = Ok (b', {| rest := []; at_eof := true |}) /\
    firstn l b' = firstn (l - 1) (map clean line ++ [32])
                  ++ repeat 0 (l - length (firstn (l - 1) (map clean line ++ [32]))) /\
    skipn l b' = skipn l b.
Proof.
  intros b l line Hl Hr N.
  assert (C : cut_line line = (line, None)).
  { clear -N. induction line as [|c line IH]; cbn; [reflexivity|].
    destruct (Z.eqb_spec c 10); [exfalso; apply N; now left|].
    rewrite IH; auto. intros H. apply N. now right. }
  pose proof (fgetln_loop_ok line (S (length line)) b 0 l ltac:(lia) ltac:(lia) ltac:(lia) Hr) as F.
  rewrite C in F. unfold fgetln. destruct (Z.leb_spec (Z.of_nat l) 0); [lia|].
  eexists. split; [exact F|]. unfold splice. cbn [firstn app plus].
  rewrite length_filled by lia.
  assert (Lf : length (filled l (map clean line ++ [32])) = l) by (apply length_filled; lia).
  split.
  - rewrite firstn_app, Lf, Nat.sub_diag. cbn [firstn]. rewrite app_nil_r.
    rewrite firstn_all2 by lia. reflexivity.
  - rewrite skipn_app, Lf, Nat.sub_diag. cbn [skipn].
    rewrite skipn_all2 by lia. reflexivity.
Qed.
Theorem C49_no_room : forall b l s, l <= 0 -> fgetln b l s = Ok (b, s).
Proof. intros b l s H. unfold fgetln. destruct (Z.leb_spec l 0); [reflexivity|lia]. Qed.
Example C49_demo :
  (* "ab<tab>\r\nX" into six bytes, then "X" *)
  fgetln [7;7;7;7;7;7;7] 6 {| rest := [97;98;9;13;10;88]; at_eof := false |}
  = Ok ([97;98;32;32;0;0;7], {| rest := [88]; at_eof := false |}) /\
  fgetln [7;7;7;7;7;7;7] 6 {| rest := [88]; at_eof := false |}
  = Ok ([88;32;0;0;0;0;7], {| rest := []; at_eof := true |}).
Proof. split; reflexivity. Qed.
Print Assumptions C49_line.
Print Assumptions C49_last_line_refuted.
