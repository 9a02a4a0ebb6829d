(* Model of the keyed and indexed sets of include/set.h: kfset and ksset (lines 790-987),
   iset (lines 562-778), kiset (lines 1073-1297), afset and asset (lines 1307-1528).

   Simplifications: the arrays are lists holding exactly the elements [0,size); growing
   and shrinking the storage (allocate) keeps them, see SetModel; `==` and `<` on keys are
   read off one three-way comparison; a memmove that closes or opens a one-element gap
   is written as the list without or with that element; arguments do not refer into the
   set itself. *)
From Coq Require Import List ZArith Bool Arith.
From Verif Require Import Base.
Import ListNotations.

(* The list without / with an element at position p. *)
Definition drop_at {A} (l : list A) (p : nat) : list A := firstn p l ++ skipn (S p) l.
Definition insert_at {A} (l : list A) (p : nat) (x : A) : list A := firstn p l ++ x :: skipn p l.

(* ------------------------------------------------------------------ ksset *)
Section Kset.
Context {K V : Type}.
Variable kcmp : K -> K -> comparison.
Definition keq (a b : K) : bool := match kcmp a b with Eq => true | _ => false end.

(* An element carries its key. *)
Notation elt := (K * V)%type.

(* lines 818-824; None stands for UINT_MAX *)
Fixpoint haskey_from (l : list elt) (i : nat) (k : K) : option nat :=
  match l with
  | [] => None
  | e :: l => if keq (fst e) k then Some i else haskey_from l (S i) k
  end.
Definition haskey (l : list elt) (k : K) : option nat := haskey_from l 0 k.

(* lines 834-842: without DEBUG the result of a failed lookup is used as an index *)
Definition lookup (l : list elt) (k : K) : outcome elt :=
  match haskey l k with Some p => aget l p | None => UB OutOfBounds end.

(* lines 898-905 with checkdups: overwrite or append each element in turn *)
Definition put (l : list elt) (e : elt) : list elt :=
  match haskey l (fst e) with
  | Some p => upd l p e
  | None => l ++ [e]
  end.
(* lines 957-965 (948-954 call it) *)
Definition kadd (l : list elt) (es : list elt) : outcome (list elt) :=
  match es with
  | [] => Throw InvalidArgument
  | _ => Ok (fold_left put es l)
  end.
(* lines 967-976 *)
Definition kremove (l : list elt) (k : K) : outcome (list elt) :=
  match haskey l k with
  | None => Throw InvalidArgument
  | Some p => Ok (drop_at l p)
  end.
(* lines 978-983 *)
Definition kreplace (l : list elt) (e : elt) : outcome (list elt) :=
  match haskey l (fst e) with
  | None => Throw InvalidArgument
  | Some p => aset l p e
  end.

Inductive kop : Type := KAdd (es : list elt) | KRemove (k : K) | KReplace (e : elt) | KEmpty.
Definition kstep (l : list elt) (o : kop) : outcome (list elt) :=
  match o with
  | KAdd es => kadd l es
  | KRemove k => kremove l k
  | KReplace e => kreplace l e
  | KEmpty => Ok []                                       (* lines 984-986 *)
  end.
(* The exceptions are thrown before anything is changed. *)
Fixpoint krun (l : list elt) (ops : list kop) : outcome (list elt * list (option exn)) :=
  match ops with
  | [] => Ok (l, [])
  | o :: ops =>
    match kstep l o with
    | Ok l' => let* (l', es) := krun l' ops in Ok (l', None :: es)
    | Throw e => let* (l', es) := krun l ops in Ok (l', Some e :: es)
    | UB f => UB f
    end
  end.

(* ------------------------------------------------------------------ asset *)
(* lines 1493-1503: the same copy() on two parallel arrays (lines 1438-1446); an existing
   key keeps its stored key and gets the new value *)
Definition aput (l : list elt) (e : elt) : list elt :=
  match haskey l (fst e) with
  | Some p => match nth_error l p with Some (k0, _) => upd l p (k0, snd e) | None => l end
  | None => l ++ [e]
  end.
Definition asadd (l : list elt) (es : list elt) : outcome (list elt) :=
  match es with
  | [] => Throw InvalidArgument
  | _ => Ok (fold_left aput es l)
  end.
(* lines 1519-1524 *)
Definition asreplace (l : list elt) (k : K) (v : V) : outcome (list elt) :=
  match haskey l k with
  | None => Throw InvalidArgument
  | Some p => let* e := aget l p in aset l p (fst e, v)
  end.
(* lines 1504-1517: `this->key[++p].~K()` advances p before it is used, so the object
   destroyed and closed up is the one after the one found; past the last element there
   is no object to destroy *)
Definition asremove (l : list elt) (k : K) : outcome (list elt) :=
  match haskey l k with
  | None => Throw InvalidArgument
  | Some p =>
    let p := S p in
    let* _ := match nth_error l p with Some _ => Ok tt | None => UB Uninit end in
    Ok (if p <? length l - 1 then drop_at l p else firstn (length l - 1) l)
  end.
End Kset.
Arguments kop : clear implicits.

(* ------------------------------------------------------------------ iset, kiset *)
Section Iset.
Context {V : Type}.
Variable cmp : V -> V -> comparison.   (* compares elements (iset) or their keys (kiset) *)

(* lines 697-699 / 1227-1229: idx and value, both of length size *)
Record iset : Type := ISet { idx : list nat; vals : list V }.
Definition inew : iset := ISet [] [].

(* lines 747-757 / 1267-1277 *)
Fixpoint ifind (fuel : nat) (st : iset) (x : V) (l r : nat) : outcome nat :=
  match fuel with
  | O => UB OutOfFuel
  | S fuel =>
    if l <? r then
      let i := l + (r - l) / 2 in
      let* k := aget (idx st) i in
      let* y := aget (vals st) k in
      match cmp y x with
      | Lt => ifind fuel st x (i + 1) r
      | _ => ifind fuel st x l i
      end
    else Ok l
  end.
Definition ifindvalue (st : iset) (x : V) : outcome nat :=
  ifind (S (length (vals st))) st x 0 (length (vals st)).
(* lines 603-609 / 1113-1119; None stands for UINT_MAX *)
Definition hasvalue (st : iset) (x : V) : outcome (option nat) :=
  let* p := ifindvalue st x in
  if p <? length (vals st) then
    let* k := aget (idx st) p in
    let* y := aget (vals st) k in
    Ok (match cmp y x with Eq => Some k | _ => None end)
  else Ok None.
(* lines 625-631 / 1143-1149 *)
Definition iget (st : iset) (p : nat) : outcome V := aget (vals st) p.
(* lines 633-639 / 1151-1157 *)
Definition igetindex (st : iset) (i : nat) : outcome V :=
  let* k := aget (idx st) i in aget (vals st) k.
(* iset: lines 641-647 *)
Definition iset_getorder (st : iset) (i : nat) : outcome nat := aget (idx st) i.
(* kiset: lines 1159-1165 *)
Definition kiset_getorder (st : iset) (i : nat) : outcome nat :=
  let* v := aget (vals st) i in ifindvalue st v.

(* lines 758-766 / 1278-1286 *)
Definition iinit (st : iset) (v : V) : outcome iset :=
  let* p := ifindvalue st v in
  Ok (ISet (insert_at (idx st) p (length (vals st))) (vals st ++ [v])).
(* lines 767-774 / 1287-1294 with checkdups *)
Fixpoint icopy (st : iset) (vs : list V) : outcome iset :=
  match vs with
  | [] => Ok st
  | v :: vs =>
    let* p := hasvalue st v in
    let* st := match p with
               | Some p => let* vl := aset (vals st) p v in Ok (ISet (idx st) vl)
               | None => iinit st v
               end in
    icopy st vs
  end.
(* lines 668-676 / 1185-1193 *)
Definition iadd (st : iset) (vs : list V) : outcome iset :=
  match vs with [] => Throw InvalidArgument | _ => icopy st vs end.

(* lines 685-690 / 1202-1207: renumber, remembering where p was *)
Fixpoint renumber (ix : list nat) (p i : nat) (q : option nat) : list nat * option nat :=
  match ix with
  | [] => ([], q)
  | k :: ix =>
    if k =? p then let '(r, q) := renumber ix p (S i) (Some i) in (k :: r, q)
    else let '(r, q) := renumber ix p (S i) q in ((if p <? k then k - 1 else k) :: r, q)
  end.
(* lines 678-694 / 1195-1211 *)
Definition iremove (st : iset) (v : V) : outcome iset :=
  let* p := hasvalue st v in
  match p with
  | None => Throw InvalidArgument
  | Some p =>
    let size := length (vals st) - 1 in
    let vl := if p <? size then drop_at (vals st) p else firstn size (vals st) in
    let '(ix, q) := renumber (idx st) p 0 None in
    let ix := match q with
              | Some q => if q <? size then drop_at ix q else firstn size ix
              | None => firstn size ix
              end in
    Ok (ISet ix vl)
  end.

Inductive iop : Type := IAdd (vs : list V) | IRemove (v : V) | IEmpty.
Definition istep (st : iset) (o : iop) : outcome iset :=
  match o with
  | IAdd vs => iadd st vs
  | IRemove v => iremove st v
  | IEmpty => Ok inew
  end.
Fixpoint irun (st : iset) (ops : list iop) : outcome (iset * list (option exn)) :=
  match ops with
  | [] => Ok (st, [])
  | o :: ops =>
    match istep st o with
    | Ok st' => let* (st', es) := irun st' ops in Ok (st', None :: es)
    | Throw e => let* (st', es) := irun st ops in Ok (st', Some e :: es)
    | UB f => UB f
    end
  end.
End Iset.
Arguments iset : clear implicits.
Arguments iop : clear implicits.
