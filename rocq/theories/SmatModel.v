(* Model of the sparse symmetric block matrix `smatrix` of fem3d/fem3d.cpp (lines 1680-2022).

   Simplifications:
   - a node is the place it has in the array `nodes` of its column, so that the pointers of
     lines 1706-1719, which `expand` moves with the array, stay as they are;
   - dnodes holds the nodes in use, its length is nnz; dcap is the room (`nnd` of
     smatrix_diag); using a place past the room is OutOfBounds;
   - sizes are unsigned 32 bit where the code computes with them (expand, chol, nonzero);
     node numbers are otherwise exact;
   - lim is the most nodes the allocator can give one column; beyond it realloc fails;
   - the blocks are of any type with 0, +, - and ~ (transpose);
   - the loops over linked nodes take fuel, one more than the number of nodes; the loop of
     line 1845, whose counter is an unsigned short, takes its fuel from the caller. *)
From Coq Require Import List ZArith Bool Arith.
From Verif Require Import Base LinBase.
Import ListNotations.
Local Open Scope nat_scope.

Section Smat.
Context {B : Type}.
Variable b0 : B.
Variable badd : B -> B -> B.
Variable btr : B -> B.
Variable lim : Z.

(* lines 1680-1688 *)
Record node : Type := Nd { nk : B; nrow : nat; nnext : option nat }.
(* lines 1725-1728 *)
Record dcol : Type := Dc { dk : B; dhead : option nat; dnodes : list node; dcap : Z }.
Definition smat : Type := list dcol.
Definition nnz (d : dcol) : nat := length (dnodes d).

(* lines 1742-1752 without the optional diagonal *)
Definition smat_new (n : nat) : smat := repeat (Dc b0 None [] 0) n.

(* lines 1696-1720 *)
Definition expand (d : dcol) (nn : Z) : outcome dcol :=
  let want := u32 (Z.of_nat (nnz d) + nn) in
  if (dcap d <? want)%Z then
    if (lim <? want)%Z then Throw BadAlloc
    else Ok (Dc (dk d) (dhead d) (dnodes d) want)
  else Ok d.
(* d->nodes[d->nnz++] = x *)
Definition push (d : dcol) (x : node) : outcome dcol :=
  if (Z.of_nat (nnz d) <? dcap d)%Z then Ok (Dc (dk d) (dhead d) (dnodes d ++ [x]) (dcap d))
  else UB OutOfBounds.

(* lines 1794-1795 and 1816-1818: the last node passed and the one stopped at *)
Fixpoint seek (fuel : nat) (l : list node) (i : nat) (o p : option nat) : outcome (option nat * option nat) :=
  match fuel with
  | O => UB OutOfFuel
  | S fuel =>
    match p with
    | None => Ok (o, None)
    | Some q =>
      let* x := aget l q in
      if nrow x <? i then seek fuel l i p (nnext x) else Ok (o, p)
    end
  end.
Definition set_next (l : list node) (q : nat) (p : option nat) : outcome (list node) :=
  let* x := aget l q in aset l q (Nd (nk x) (nrow x) p).
Definition set_k (l : list node) (q : nat) (k : B) : outcome (list node) :=
  let* x := aget l q in aset l q (Nd k (nrow x) (nnext x)).

(* lines 1793-1824 on the column d *)
Definition append_col (d : dcol) (r : nat) (t : B) : outcome dcol :=
  let* (_, p) := seek (S (nnz d)) (dnodes d) r None (dhead d) in
  let* found :=
    match p with
    | None => Ok None
    | Some q => let* x := aget (dnodes d) q in if nrow x =? r then Ok (Some (q, x)) else Ok None
    end in
  match found with
  | Some (q, x) =>
    let* l := set_k (dnodes d) q (badd (nk x) t) in
    Ok (Dc (dk d) (dhead d) l (dcap d))
  | None =>
    let n := nnz d in
    let* d := expand d 1 in
    let* d := push d (Nd t r None) in
    let* (o, p) := seek (S (nnz d)) (dnodes d) r None (dhead d) in
    let* d :=
      match o with
      | None => Ok (Dc (dk d) (Some n) (dnodes d) (dcap d))
      | Some o => let* l := set_next (dnodes d) o (Some n) in Ok (Dc (dk d) (dhead d) l (dcap d))
      end in
    let* l := set_next (dnodes d) n p in
    Ok (Dc (dk d) (dhead d) l (dcap d))
  end.
(* lines 1782-1825 *)
Definition append (A : smat) (i j : nat) (t : B) : outcome smat :=
  if i =? j then
    let* d := aget A i in
    aset A i (Dc (badd (dk d) t) (dhead d) (dnodes d) (dcap d))
  else
    let c := Nat.max i j in
    let* d := aget A c in
    let* d := append_col d (Nat.min i j) (if j <? i then btr t else t) in
    aset A c d.

(* lines 1765-1769 *)
Fixpoint copy_col (fuel : nat) (l : list node) (p : option nat) (i : nat) (A : smat) : outcome smat :=
  match fuel with
  | O => UB OutOfFuel
  | S fuel =>
    match p with
    | None => Ok A
    | Some q =>
      let* x := aget l q in
      let* A := append A (nrow x) i (nk x) in
      copy_col fuel l (nnext x) i A
    end
  end.
(* lines 1754-1771 *)
Definition copy (A : smat) : outcome smat :=
  for_up 0 (length A) (fun i M =>
    let* d := aget A i in
    let* m := aget M i in
    let* m := expand m (Z.of_nat (nnz d)) in
    let* M := aset M i m in
    let* M := append M i i (dk d) in
    copy_col (S (nnz d)) (dnodes d) (dhead d) i M) (smat_new (length A)).

(* lines 1835-1840 *)
Fixpoint sink (k : nat) (l : list node) : outcome (list node) :=
  match k with
  | O => Ok l
  | S k' =>
    let* a := aget l k' in
    let* b := aget l k in
    if nrow b <? nrow a then
      let* l := aset l k' b in
      let* l := aset l k a in
      sink k' l
    else Ok l
  end.
(* lines 1845-1846: j is an unsigned short *)
Fixpoint relink (fuel : nat) (j : Z) (l : list node) : outcome (list node) :=
  match fuel with
  | O => UB OutOfFuel
  | S fuel =>
    if (j <? Z.of_nat (length l))%Z then
      let k := Z.to_nat j in
      let* l := set_next l k (if (j =? Z.of_nat (length l) - 1)%Z then None else Some (S k)) in
      relink fuel ((j + 1) mod 2 ^ 16)%Z l
    else Ok l
  end.
Definition tidy_col (fuel : nat) (d : dcol) : outcome dcol :=
  let* l := for_up 1 (nnz d) (fun j l => sink j l) (dnodes d) in
  let h := match dhead d with Some _ => Some 0 | None => None end in
  let* l := relink fuel 0 l in
  Ok (Dc (dk d) h l (dcap d)).
(* lines 1827-1848 *)
Definition tidy (fuel : nat) (A : smat) : outcome smat :=
  for_up 0 (length A) (fun i A =>
    let* d := aget A i in
    let* d := tidy_col fuel d in
    aset A i d) A.

(* lines 1731-1734; the first entries hold the row heads and, in rcol, the mask *)
Record rowp : Type := Rp { rcol : Z; rprev : option nat }.
(* a[z] *)
Definition zget {A} (l : list A) (z : Z) : outcome A := if (z <? 0)%Z then UB OutOfBounds else aget l (Z.to_nat z).
Definition set_mark (rows : list rowp) (z : Z) (v : Z) : outcome (list rowp) :=
  let* r := zget rows z in aset rows (Z.to_nat z) (Rp v (rprev r)).
(* lines 1870-1877 *)
Fixpoint rows_col (fuel : nat) (l : list node) (p : option nat) (n : nat) (s : list rowp * nat) : outcome (list rowp * nat) :=
  match fuel with
  | O => UB OutOfFuel
  | S fuel =>
    match p with
    | None => Ok s
    | Some q =>
      let '(rows, c) := s in
      let* x := aget l q in
      let* h := aget rows (nrow x) in
      let* rows := aset rows c (Rp (Z.of_nat n) (rprev h)) in
      let* h := aget rows (nrow x) in
      let* rows := aset rows (nrow x) (Rp (rcol h) (Some c)) in
      rows_col fuel l (nnext x) n (rows, S c)
    end
  end.
Definition total (A : smat) : nat := fold_right (fun d s => nnz d + s) 0 A.
(* lines 1863-1878 *)
Definition rows_of (A : smat) : outcome (list rowp) :=
  let m := length A in
  let* (rows, _) := for_up 0 m (fun n s =>
    let* d := aget A n in
    rows_col (S (nnz d)) (dnodes d) (dhead d) n s) (repeat (Rp 0 None) (m + total A), m) in
  Ok rows.
(* lines 1895-1898 *)
Fixpoint mark_row (fuel : nat) (n : nat) (r : option nat) (rows : list rowp) : outcome (list rowp) :=
  match fuel with
  | O => UB OutOfFuel
  | S fuel =>
    match r with
    | None => Ok rows
    | Some q =>
      let* x := aget rows q in
      let* rows := set_mark rows (Z.of_nat n - rcol x - 1) (-1) in
      let* x := aget rows q in
      mark_row fuel n (rprev x) rows
    end
  end.
(* lines 1889-1900 *)
Fixpoint mark_col (fuel : nat) (l : list node) (p : option nat) (n : nat) (rows : list rowp) : outcome (list rowp) :=
  match fuel with
  | O => UB OutOfFuel
  | S fuel =>
    match p with
    | None => Ok rows
    | Some q =>
      let* x := aget l q in
      let* rows := set_mark rows (Z.of_nat n - Z.of_nat (nrow x) - 1) 1 in
      let* h := aget rows (nrow x) in
      match rprev h with
      | None => UB NullDeref
      | Some e =>
        let* e := aget rows e in
        let* rows := aset rows (nrow x) (Rp (rcol h) (rprev e)) in
        let* rows := mark_row (S (length rows)) n (rprev e) rows in
        mark_col fuel l (nnext x) n rows
      end
    end
  end.
(* lines 1901-1904 *)
Definition count_marks (rows : list rowp) (k : nat) : outcome nat :=
  for_up 0 k (fun i c => let* r := aget rows i in Ok (if (rcol r =? -1)%Z then S c else c)) 0.
(* lines 1883-1912 *)
Definition fill_col (n : nat) (d : dcol) (rows : list rowp) : outcome (dcol * list rowp) :=
  match dhead d with
  | None => Ok (d, rows)
  | Some q =>
    let* x := aget (dnodes d) q in
    let c := nrow x in
    let* rows := mark_col (S (nnz d)) (dnodes d) (dhead d) n rows in
    let* add := count_marks rows (n - c) in
    let* d := expand d (Z.of_nat add) in
    if (dcap d <? Z.of_nat (nnz d + add))%Z then UB OutOfBounds else
    let z := nnz d in
    let* (l, rows, _) := for_up 0 (n - c) (fun i s =>
      let '(l, rows, j) := s in
      let* r := aget rows i in
      let* (l, j) :=
        if (rcol r =? -1)%Z then
          let* x := aget l (j - 1 + z) in
          let* l := aset l (j - 1 + z) (Nd (nk x) (n - 1 - i) (nnext x)) in
          Ok (l, j - 1)
        else Ok (l, j) in
      let* rows := aset rows i (Rp 0 (rprev r)) in
      Ok (l, rows, j)) (dnodes d ++ repeat (Nd b0 0 None) add, rows, add) in
    Ok (Dc (dk d) (dhead d) l (dcap d), rows)
  end.
(* lines 1856-1916 *)
Definition fillin (fuel : nat) (A : smat) : outcome smat :=
  let* rows := rows_of A in
  let* (A, _) := for_down (length A) 0 (fun n1 s =>
    let n := n1 - 1 in
    let '(A, rows) := s in
    let* d := aget A n in
    let* (d, rows) := fill_col n d rows in
    let* A := aset A n d in
    Ok (A, rows)) (A, rows) in
  tidy fuel A.

(* lines 1990-1996: the nodes that are added, from row r up to n, and their places *)
Fixpoint chol_rows (fuel : nat) (l : list node) (p : option nat) (r n : nat) (d : dcol) : outcome dcol :=
  match fuel with
  | O => UB OutOfFuel
  | S fuel =>
    if r <? n then
      let* (_, p) := seek (S (length l)) l r None p in
      let* hit := match p with None => Ok false | Some q => let* x := aget l q in Ok (nrow x =? r) end in
      let* d := if hit : bool then Ok d else push d (Nd b0 r None) in
      chol_rows fuel l p (S r) n d
    else Ok d
  end.
(* lines 1977-1997, the part of chol() before tidy() *)
Definition chol_fill (A : smat) : outcome smat :=
  for_up 0 (length A) (fun n A =>
    let* d := aget A n in
    match dhead d with
    | None => Ok A
    | Some q =>
      let* x := aget (dnodes d) q in
      let r := nrow x in
      let a := u32 (Z.of_nat r - Z.of_nat n - Z.of_nat (nnz d)) in
      let* d := expand d a in
      (* line 1988: memset of a nodes *)
      if (dcap d <? Z.of_nat (nnz d) + a)%Z then UB OutOfBounds else
      let* d := chol_rows (S (n - r)) (dnodes d) (dhead d) r n d in
      aset A n d
    end) A.

(* lines 2002-2015 *)
Definition nonzero (A : smat) : outcome Z :=
  for_up 0 (length A) (fun n s =>
    let* d := aget A n in
    match dhead d with
    | None => Ok s
    | Some q => let* x := aget (dnodes d) q in Ok (u32 (s + (Z.of_nat (nrow x) - Z.of_nat n)))
    end) (Z.of_nat (length A)).
End Smat.
Arguments Nd {B}.
Arguments Dc {B}.
Arguments node : clear implicits.
Arguments dcol : clear implicits.
Arguments smat : clear implicits.
