(* Model of sorting, searching and compacting in include/set.h: oset (lines 390-481),
   cset (lines 491-551).  koset (lines 1026-1064), aoset (lines 1563-1604) and avoset
   (lines 1641-1683) contain the same sort with another projection in the comparison
   and parallel swaps of two arrays; they are instances of this model with [cmp]
   comparing that projection.

   Simplifications: the array is the list of the elements [0,size); indices are naturals
   (no index expression of this code exceeds size, so none wraps); `a > b`, `a < b`,
   `a == b`, `a != b` are read off one three-way comparison [cmp]; std::swap swaps. *)
From Coq Require Import List ZArith Bool Arith.
From Verif Require Import Base.
Import ListNotations.

Section Sort.
Context {V : Type}.
Variable cmp : V -> V -> comparison.

(* value[a] > value[b], value[a] == value[b], both elements must exist *)
Definition gt_at (v : list V) (a b : nat) : outcome bool :=
  let* x := aget v a in let* y := aget v b in
  Ok (match cmp x y with Gt => true | _ => false end).
Definition swap (v : list V) (a b : nat) : outcome (list V) :=
  let* x := aget v a in let* y := aget v b in
  let* v := aset v a y in aset v b x.
Definition cswap (v : list V) (a b : nat) : outcome (list V) :=
  let* g := gt_at v a b in if g then swap v a b else Ok v.

(* line 460: while (++i < p && !(value[i] > value[p])) {} *)
Fixpoint scan_up (fuel : nat) (v : list V) (i p : nat) : outcome nat :=
  match fuel with
  | O => UB OutOfFuel
  | S fuel =>
    let i := S i in
    if i <? p then
      let* g := gt_at v i p in if g then Ok i else scan_up fuel v i p
    else Ok i
  end.
(* line 461: while (p < --j && !(value[p] > value[j])) {} *)
Fixpoint scan_down (fuel : nat) (v : list V) (p j : nat) : outcome nat :=
  match fuel with
  | O => UB OutOfFuel
  | S fuel =>
    let j := j - 1 in
    if p <? j then
      let* g := gt_at v p j in if g then Ok j else scan_down fuel v p j
    else Ok j
  end.
(* lines 458-465; the result is (array, p, k) *)
Fixpoint partition (fuel : nat) (v : list V) (i j p k : nat) : outcome (list V * nat * nat) :=
  match fuel with
  | O => UB OutOfFuel
  | S fuel =>
    let* i := scan_up (S (length v)) v i p in
    let* j := scan_down (S (length v)) v p j in
    if j <=? i then Ok (v, p, k)
    else
      let* v := swap v i j in
      if p =? i then partition fuel v i (j + 1) j (k + 1)
      else if p =? j then partition fuel v (i - 1) j i (k + 1)
      else partition fuel v i j p (k + 1)
  end.

(* lines 476-478: for (j = i+1; j > l && value[j-1] > value[j]; j--) swap *)
Fixpoint sink (fuel : nat) (v : list V) (l j : nat) : outcome (list V) :=
  match fuel with
  | O => UB OutOfFuel
  | S fuel =>
    if l <? j then
      let* g := gt_at v (j - 1) j in
      if g then let* v := swap v (j - 1) j in sink fuel v l (j - 1) else Ok v
    else Ok v
  end.
(* lines 475-479: for (i = l; l < r && i < r-1; i++) *)
Fixpoint isort_loop (fuel : nat) (v : list V) (l r i : nat) : outcome (list V) :=
  match fuel with
  | O => UB OutOfFuel
  | S fuel =>
    if (l <? r) && (i <? r - 1) then
      let* v := sink (S (i + 1)) v l (i + 1) in isort_loop fuel v l r (i + 1)
    else Ok v
  end.
Definition isort (v : list V) (l r : nat) : outcome (list V) := isort_loop (S (length v)) v l r l.

(* lines 445-472 *)
Fixpoint qsort (fuel : nat) (v : list V) (l r : nat) : outcome (list V) :=
  match fuel with
  | O => UB OutOfFuel
  | S fuel =>
    if r <=? l then Ok v else
    let p := l + (r - 1 - l) / 2 in
    let* v := cswap v l p in
    let* v := cswap v l (r - 1) in
    let* v := cswap v p (r - 1) in
    if r - 1 - l <=? 2 then Ok v else
    let* (v, p, k) := partition (S (length v)) v l (r - 1) p 0 in
    if k =? 0 then
      let* v := isort v l p in isort v (p + 1) r
    else
      let* v := qsort fuel v l p in qsort fuel v (p + 1) r
  end.
(* lines 423-425 *)
Definition sort (v : list V) : outcome (list V) := qsort (S (length v)) v 0 (length v).

(* lines 428-441; UINT_MAX means not found.  src/pavement.cpp lines 136-152 is the same
   function on a plain array. *)
Fixpoint bsearch (fuel : nat) (v : list V) (x : V) (l r : nat) : outcome nat :=
  match fuel with
  | O => UB OutOfFuel
  | S fuel =>
    if l <? r then
      let i := l + (r - l) / 2 in
      let* y := aget v i in
      match cmp y x with
      | Lt => bsearch fuel v x (i + 1) r
      | _ => bsearch fuel v x l i
      end
    else Ok l
  end.
Definition findvalue (v : list V) (x : V) : outcome Z :=
  let* l := bsearch (S (length v)) v x 0 (length v) in
  if l <? length v then
    let* y := aget v l in
    Ok (match cmp y x with Eq => Z.of_nat l | _ => UINT_MAX end)
  else Ok UINT_MAX.

(* ---- compaction, lines 526-550 ----
   The array is a list of cells: [Some v] is an object, [None] storage without one
   (destroyed, or moved away by memmove). *)
Definition eq_at (m : list (option V)) (a b : nat) : outcome bool :=
  let* x := aget m a in let* y := aget m b in
  match x, y with
  | Some x, Some y => Ok (match cmp x y with Eq => true | _ => false end)
  | _, _ => UB Uninit
  end.
Definition kill (m : list (option V)) (i : nat) : outcome (list (option V)) :=
  let* x := aget m i in
  match x with Some _ => aset m i None | None => UB Uninit end.
(* memmove(&value[dst],&value[src],n*sizeof(V)): afterwards only the destination holds
   the objects. *)
Definition relocate (m : list (option V)) (dst src n : nat) : outcome (list (option V)) :=
  if (dst + n <=? length m) && (src + n <=? length m) then
    let chunk := firstn n (skipn src m) in
    let m := firstn src m ++ repeat None n ++ skipn (src + n) m in
    Ok (firstn dst m ++ chunk ++ skipn (dst + n) m)
  else UB OutOfBounds.
(* lines 534-537: do value[i].~V(); while (++i < size && value[j] == value[i]) *)
Fixpoint drop_equal (fuel : nat) (m : list (option V)) (i j : nat) : outcome (list (option V) * nat) :=
  match fuel with
  | O => UB OutOfFuel
  | S fuel =>
    let* m := kill m i in
    let i := i + 1 in
    if i <? length m then
      let* e := eq_at m j i in
      if e then drop_equal fuel m i j else Ok (m, i)
    else Ok (m, i)
  end.
(* lines 538-541: while (s < size-1 && value[s] != value[s+1]) s++ *)
Fixpoint run_end (fuel : nat) (m : list (option V)) (s : nat) : outcome nat :=
  match fuel with
  | O => UB OutOfFuel
  | S fuel =>
    if s <? length m - 1 then
      let* e := eq_at m s (s + 1) in
      if e then Ok s else run_end fuel m (s + 1)
    else Ok s
  end.
(* lines 530-547 *)
Fixpoint compact_loop (fuel : nat) (m : list (option V)) (i j : nat) : outcome (list (option V) * nat) :=
  match fuel with
  | O => UB OutOfFuel
  | S fuel =>
    if i <? length m then
      let* e := eq_at m j i in
      let j := if e then j else j + 1 in
      if j =? i then compact_loop fuel m (i + 1) j
      else
        let* (m, i) := drop_equal (S (length m)) m i j in
        let* s := run_end (S (length m)) m i in
        if i <? length m then
          let* m := relocate m (j + 1) i (s - i + 1) in
          compact_loop fuel m (s + 1) (s - (i - (j + 1)))
        else compact_loop fuel m (i + 1) j
    else Ok (m, j)
  end.
(* The objects in the first n cells. *)
Fixpoint objects (m : list (option V)) (n : nat) {struct n} : outcome (list V) :=
  match n with
  | O => Ok []
  | S n =>
    match m with
    | Some v :: m => let* l := objects m n in Ok (v :: l)
    | None :: _ => UB Uninit
    | [] => UB OutOfBounds
    end
  end.
(* lines 526-550; the final allocate() keeps the first `size` elements (SetModel) *)
Definition compact (v : list V) : outcome (list V) :=
  if length v <=? 1 then Ok v
  else
    let* (m, j) := compact_loop (S (length v)) (map Some v) 1 0 in
    objects m (j + 1).
(* lines 520-523 *)
Definition csort (v : list V) : outcome (list V) :=
  let* v := sort v in compact v.

End Sort.
