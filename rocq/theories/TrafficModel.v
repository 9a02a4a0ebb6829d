(* Model of src/traffic.cpp: str2int, str2time, fgetln, WIMday::AddRSAVehicle,
   WIMday::operator+= and WIMsurvey::Read, with the structures of src/traffic.h.
   Text buffers are lists of signed chars, streams lists of bytes; the C locale is assumed.
   The counters are unbounded integers here.  double is any type with the operations used,
   so that the theorems do not depend on its rounding.  mktime is any function of the date.
   Files: only the content matters; opening and closing are left out. *)
From Coq Require Import ZArith QArith List Bool Arith.
From Verif Require Import Base MathModel.
Import ListNotations.
Local Open Scope Z_scope.

(* ---- <ctype.h> on a char: a negative value other than EOF is outside its table ---- *)
Definition ctype (c : Z) : outcome unit := if c <? -1 then UB OutOfBounds else Ok tt.
Definition is_space (c : Z) : bool := ((9 <=? c) && (c <=? 13)) || (c =? 32).
Definition is_digit (c : Z) : bool := (48 <=? c) && (c <=? 57).
Definition is_print (c : Z) : bool := (32 <=? c) && (c <=? 126).

(* ---- str2int, lines 58-75 ---- *)
(* lines 64-65: the offset and the width left *)
Fixpoint skip_blanks (w : nat) (b : list Z) (p : nat) : outcome (nat * nat) :=
  match w with
  | O => Ok (O, p)
  | S w' =>
      let* c := aget b p in
      let* _ := ctype c in
      if is_space c then skip_blanks w' b (S p) else Ok (w, p)
  end.
(* lines 66-73 *)
Fixpoint digit_loop (w : nat) (b : list Z) (p : nat) (n : bool) (r : Z) : outcome (bool * Z) :=
  match w with
  | O => Ok (n, r)
  | S w =>
      let* c := aget b p in
      let step n :=
        let* r := i32 (r * 10) in
        let* r := i32 (r + c) in
        let* r := i32 (r - 48) in
        digit_loop w b (S p) n r in
      if (r =? 0) && (c =? 45) then step true
      else let* _ := ctype c in
        if negb (is_digit c) then Ok (n, r) else step n
  end.
Definition str2int (b : list Z) (p : nat) (w : nat) : outcome Z :=
  let* (w, p) := skip_blanks w b p in
  let* (n, r) := digit_loop w b p false 0 in
  if n then i32 (- r) else Ok r.

(* ---- str2time, lines 80-98 ---- *)
Section Time.
Variable mktime : Z -> Z -> Z -> Z.     (* year, month, day of the tm structure *)
Definition str2time (b : list Z) (p : nat) : outcome Z :=
  let* d := str2int b p 6 in
  if d =? 0 then Ok (-1)
  else
    let d := if d <? 690000 then d + 1000000 else d in
    let year := Z.quot d 10000 in
    let d := d - Z.quot d 10000 * 10000 in
    let mon := Z.quot d 100 - 1 in
    let d := d - Z.quot d 100 * 100 in
    Ok (mktime year mon d).
End Time.

(* ---- fgetln, lines 117-135 ---- *)
Record stream := { rest : list Z; at_eof : bool }.
(* fgetc: EOF sets the indicator *)
Definition fgetc (s : stream) : Z * stream :=
  match rest s with
  | [] => (-1, {| rest := []; at_eof := true |})
  | c :: r => (c, {| rest := r; at_eof := at_eof s |})
  end.
(* lines 123-132: while not at the end of the file; p is the write position, l the room
   left.  Every round takes a byte or sets the indicator, so fuel = length + 1 is enough. *)
Fixpoint fgetln_loop (fuel : nat) (b : list Z) (p : nat) (l : Z) (s : stream)
  : outcome (list Z * nat * Z * stream) :=
  if at_eof s then Ok (b, p, l, s)
  else match fuel with
  | O => UB OutOfFuel
  | S fuel =>
      let (c, s) := fgetc s in
      if c =? 10 then
        let* x := aget b p in
        let* b := (if x =? 13 then aset b p 0 else Ok b) in
        Ok (b, p, l, s)
      else if 1 <? l then
        let* b := aset b p (if is_print c then c else 32) in
        fgetln_loop fuel b (S p) (l - 1) s
      else fgetln_loop fuel b p l s
  end.
(* lines 133-134 *)
Fixpoint zero_fill (k : nat) (b : list Z) (p : nat) : outcome (list Z) :=
  match k with
  | O => Ok b
  | S k => let* b := aset b p 0 in zero_fill k b (S p)
  end.
Definition fgetln (b : list Z) (l : Z) (s : stream) : outcome (list Z * stream) :=
  if l <=? 0 then Ok (b, s)
  else
    let* (q, s) := fgetln_loop (S (length (rest s))) b 0 l s in
    let '(b, p, l) := q in
    let* b := zero_fill (Z.to_nat l) b p in
    Ok (b, s).

(* ---- traffic.h, lines 51-75 ---- *)
Definition STEER := 0%nat. Definition DUAL := 1%nat. Definition TANDEM := 2%nat.
Definition TRIDEM := 3%nat. Definition BEDA := 4%nat. Definition AXLE_TYPES := 5%nat.
Definition MAX_AXLES := 15. Definition MAX_LANES := 6%nat. Definition LOADS := 21%nat.

(* the operations of double used *)
Record dops (D : Type) := {
  dz : Z -> D;                (* conversion of an int *)
  dlit : Q -> D;              (* a literal *)
  dadd : D -> D -> D; dmul : D -> D -> D; ddiv : D -> D -> D;
  dlt : D -> D -> bool; dle : D -> D -> bool }.
Arguments dz {D}. Arguments dlit {D}. Arguments dadd {D}. Arguments dmul {D}.
Arguments ddiv {D}. Arguments dlt {D}. Arguments dle {D}.

Section Wim.
Context {D : Type} (Dp : dops D).
Variable mktime : Z -> Z -> Z -> Z.

(* WG[lane][type][load] is kept as one list *)
Record wim := { day : Z; SV : Z; LVPL : list Z; HVPL : list Z; WG : list Z; AAS : list D }.
Definition wg_index (il at_ l : nat) : outcome nat :=
  if (il <? MAX_LANES)%nat && (at_ <? AXLE_TYPES)%nat && (l <? LOADS)%nat
  then Ok ((il * AXLE_TYPES + at_) * LOADS + l)%nat else UB OutOfBounds.
Definition incr (l : list Z) (i : nat) : outcome (list Z) :=
  let* x := aget l i in aset l i (x + 1).

(* load[l] = 10 (l+1), the break of lines 232-234 and 242-244 *)
Fixpoint load_group (k : nat) (l : nat) (W : D) : nat :=
  match k with
  | O => l
  | S k => if dlt Dp W (ddiv Dp (dz Dp (10 * (Z.of_nat l + 1))) (dz Dp 10)) then l
           else load_group k (S l) W
  end.

(* lines 215-217: the number of axles in the bogey *)
Fixpoint bogey (fuel : nat) (AS : list D) (na ia ib : nat) : outcome nat :=
  match fuel with
  | O => UB OutOfFuel
  | S fuel =>
      if (ia + ib <? na)%nat then
        let* s := aget AS (ia + ib) in
        if dle Dp s (dlit Dp (17#10)) then bogey fuel AS na ia (S ib) else Ok ib
      else Ok ib
  end.
Definition axle_type (na ia ib : nat) : nat :=
  if (3 <? ib)%nat then BEDA else if (ib =? 3)%nat then TRIDEM
  else if (ib =? 2)%nat then TANDEM
  else if (ia =? 0)%nat && (1 <? na)%nat then STEER else DUAL.

(* lines 230-236: i = ia .. ia+k-1 *)
Fixpoint add_each (k : nat) (il at_ i : nat) (AW : list D) (wg : list Z) : outcome (list Z) :=
  match k with
  | O => Ok wg
  | S k =>
      let* w := aget AW i in
      let* j := wg_index il at_ (load_group (LOADS - 1) 0 w) in
      let* wg := incr wg j in
      add_each k il at_ (S i) AW wg
  end.
(* lines 239-241 *)
Fixpoint sum_w (k i : nat) (AW : list D) (W : D) : outcome D :=
  match k with
  | O => Ok W
  | S k => let* w := aget AW i in sum_w k (S i) AW (dadd Dp W w)
  end.
(* lines 247-248 *)
Fixpoint add_spacing (k i : nat) (AS : list D) (ib at_ : nat) (aas : list D) : outcome (list D) :=
  match k with
  | O => Ok aas
  | S k =>
      let* s := aget AS i in
      let* a := aget aas at_ in
      let* aas := aset aas at_ (dadd Dp a (ddiv Dp s (dz Dp (Z.of_nat ib - 1)))) in
      add_spacing k (S i) AS ib at_ aas
  end.
(* one bogey, lines 218-249 *)
Definition add_bogey (il na ia ib : nat) (AS AW : list D) (wg : list Z) (aas : list D)
  : outcome (list Z * list D) :=
  let at_ := axle_type na ia ib in
  if (at_ =? BEDA)%nat then
    let* wg := add_each ib il at_ ia AW wg in Ok (wg, aas)
  else
    let* W := sum_w ib ia AW (dlit Dp 0) in
    let* j := wg_index il at_ (load_group (LOADS - 1) 0 (ddiv Dp W (dz Dp (Z.of_nat ib)))) in
    let* wg := incr wg j in
    let* aas := add_spacing (ib - 1) (ia + 1) AS ib at_ aas in
    Ok (wg, aas).
(* lines 213-251 *)
Fixpoint add_bogeys (fuel : nat) (il na ia : nat) (AS AW : list D) (wg : list Z) (aas : list D)
  : outcome (list Z * list D) :=
  if (ia <? na)%nat then
    match fuel with
    | O => UB OutOfFuel
    | S fuel =>
        let* ib := bogey (S na) AS na ia 1 in
        let* (wg, aas) := add_bogey il na ia ib AS AW wg aas in
        add_bogeys fuel il na (ia + ib) AS AW wg aas
    end
  else Ok (wg, aas).

(* lines 192-195 and 196-197: the weights (offset 54, width 3) and spacings (49, 4) *)
Fixpoint read_axles (k : nat) (ia : nat) (b : list Z) (off w : nat) (f : D) : outcome (list D) :=
  match k with
  | O => Ok []
  | S k =>
      let* x := str2int b (off + ia * 9) w in
      let* l := read_axles k (S ia) b off w f in
      Ok (dmul Dp f (dz Dp x) :: l)
  end.
Definition dsum (l : list D) : D := fold_left (dadd Dp) l (dlit Dp 0).

(* what the record is, lines 202-206 *)
Definition is_light (na : Z) (GVM L : D) : bool :=
  (na =? 0)
  || ((na =? 1) && dlt Dp GVM (dlit Dp 2) && dlt Dp L (dlit Dp (85#10)))
  || ((na =? 2) && dlt Dp GVM (dlit Dp (35#10)) && dlt Dp L (dlit Dp (108#10)))
  || ((na =? 3) && dlt Dp GVM (dlit Dp (55#10)))
  || ((na =? 4) && dlt Dp GVM (dlit Dp 7)).

(* AddRSAVehicle, lines 172-253 *)
Definition AddRSAVehicle (st : wim) (b : list Z) : outcome (bool * wim) :=
  let* t := str2time mktime b 5 in
  if negb (t =? day st) then Ok (false, st) else
  let* il := str2int b 24 2 in
  let il := il - 1 in
  if (il <? 0) || (Z.of_nat MAX_LANES <=? il) then Ok (false, st) else
  let* L := str2int b 33 4 in
  let L := dmul Dp (dlit Dp (1#100)) (dz Dp L) in
  if dlt Dp L (dlit Dp (25#10)) then
    Ok (true, {| day := day st; SV := SV st + 1; LVPL := LVPL st; HVPL := HVPL st;
                 WG := WG st; AAS := AAS st |}) else
  let* na := str2int b 51 2 in
  if (na <? 0) || (MAX_AXLES <? na) then Ok (false, st) else
  let n := Z.to_nat na in
  let* AW := read_axles n 0 b 54 3 (dlit Dp (1#10)) in
  let GVM := dsum AW in
  let* ASt := read_axles (n - 1) 1 b 49 4 (dlit Dp (1#100)) in
  let AS := dlit Dp 0 :: ASt in
  let corr := (na =? 2) && (match nth_error AS 1 with
                            | Some s => dle Dp s (dlit Dp (29#10)) | None => false end)
              && dle Dp (dlit Dp 3) GVM in
  let f := ddiv Dp (dlit Dp (25#10)) GVM in
  let AW := if corr then map (fun w => dmul Dp w f) AW else AW in
  let GVM := if corr then dlit Dp (25#10) else GVM in
  let lane := Z.to_nat il in
  if is_light na GVM L then
    let* lv := incr (LVPL st) lane in
    Ok (true, {| day := day st; SV := SV st; LVPL := lv; HVPL := HVPL st;
                 WG := WG st; AAS := AAS st |})
  else
    let* hv := incr (HVPL st) lane in
    let* (wg, aas) := add_bogeys n lane n 0 AS AW (WG st) (AAS st) in
    Ok (true, {| day := day st; SV := SV st; LVPL := LVPL st; HVPL := hv;
                 WG := wg; AAS := aas |}).

(* ---- the totals, traffic.h lines 128-140 ---- *)
Definition zsum (l : list Z) : Z := fold_right Z.add 0 l.
Definition AC (st : wim) (il t : nat) : Z :=
  zsum (map (fun i => nth ((il * AXLE_TYPES + t) * LOADS + i)%nat (WG st) 0) (seq 0 LOADS)).
Definition AxC (st : wim) (t : nat) : Z :=
  zsum (map (fun il => AC st il t) (seq 0 MAX_LANES)).

(* ---- operator +=, lines 258-277 ---- *)
Fixpoint zip (f : Z -> Z -> Z) (a b : list Z) : list Z :=
  match a, b with x :: a, y :: b => f x y :: zip f a b | _, _ => [] end.
Definition add_aas (a d : wim) (t : nat) : D :=
  let ac1 := AxC a t in let ac2 := AxC d t in
  let x := nth t (AAS a) (dlit Dp 0) in let y := nth t (AAS d) (dlit Dp 0) in
  ddiv Dp (dadd Dp (dmul Dp (dz Dp ac1) x) (dmul Dp (dz Dp ac2) y)) (dz Dp (ac1 + ac2)).
Definition add_day (a d : wim) : wim :=
  {| day := day d; SV := SV a + SV d;
     LVPL := zip Z.add (LVPL a) (LVPL d); HVPL := zip Z.add (HVPL a) (HVPL d);
     WG := zip Z.add (WG a) (WG d);
     AAS := map (add_aas a d) (seq 0 AXLE_TYPES) |}.

(* ---- Clear (traffic.h lines 82-85) ---- *)
Definition cleared (t : Z) : wim :=
  {| day := t; SV := 0; LVPL := repeat 0 MAX_LANES; HVPL := repeat 0 MAX_LANES;
     WG := repeat 0 (MAX_LANES * AXLE_TYPES * LOADS); AAS := repeat (dlit Dp 0) AXLE_TYPES |}.

(* ---- WIMsurvey::Read, lines 323-337: a file of whole records ---- *)
Record dfile := { recs : list wim; d_eof : bool }.
(* Read (traffic.h lines 91-93): at the end nothing is stored and the indicator set *)
Definition read_rec (f : dfile) (d : wim) : dfile * wim :=
  match recs f with
  | [] => ({| recs := []; d_eof := true |}, d)
  | r :: l => ({| recs := l; d_eof := d_eof f |}, r)
  end.
Fixpoint read_loop (fuel : nat) (start end_ : Z) (f : dfile) (d : wim) (s : wim) : outcome wim :=
  if d_eof f then Ok s
  else match fuel with
  | O => UB OutOfFuel
  | S fuel =>
      let (f, d) := read_rec f d in
      let s := if (start <=? day d) && (day d <=? end_) then add_day s d else s in
      read_loop fuel start end_ f d s
  end.
Definition survey_read (start end_ : Z) (l : list wim) (s : wim) : outcome wim :=
  read_loop (S (length l)) start end_ {| recs := l; d_eof := false |} (cleared (-1)) s.
End Wim.
