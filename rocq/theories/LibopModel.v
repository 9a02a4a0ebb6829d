(* Model of the handles of the C interface (libop/libop.cpp, lines 254-670 and 722-816): the two
   registries of systems, the calls that create and destroy a system and those that use one, and
   the numbering of load groups.

   A pointer is an index into a list of systems, None is a deleted one.  The registry is the tree
   of AvlModel with separately stored keys: long and LEsystem* are not merged.  A long is an
   integer without bounds and memory does not run out.  The exceptions that the wrappers catch
   are those of the functions called; the wrapper then returns true. *)
From Coq Require Import List ZArith Bool Arith.
From Verif Require Import Base AvlModel LeModel.
Import ListNotations.
Local Open Scope Z_scope.

Section Handles.
Context {S A : Type}.

Record api : Type := Api { reg : tree_state Z nat; heap : list (option S) }.
Definition api_new : api := Api tree_new [].

Definition read (h : list (option S)) (p : nat) : outcome S :=
  match nth_error h p with
  | None => UB OutOfBounds
  | Some None => UB UseAfterFree
  | Some (Some s) => Ok s
  end.

(* while (systems.haskey(token)) token++; lines 262-263 and 749-750 *)
Fixpoint next_token (fuel : nat) (r : tree_state Z nat) (token : Z) : outcome Z :=
  match fuel with
  | O => UB OutOfFuel
  | Datatypes.S fuel =>
    let* b := haskey Z.compare r token in
    if b then next_token fuel r (token + 1) else Ok token
  end.
(* lines 256-270 with first = 1 and lines 748-759 with first = 0; s is the new system *)
Definition create (first : Z) (st : api) (s : S) : outcome (api * Z) :=
  let p := length (heap st) in
  let* token := next_token (Datatypes.S (tree_length (reg st))) (reg st) first in
  let* r := add Z.compare false (reg st) token p in
  Ok (Api r (heap st ++ [Some s]), token).
(* lines 654-670 and 800-816; true is the error *)
Definition reset (st : api) (token : Z) : outcome (api * bool) :=
  let* b := haskey Z.compare (reg st) token in
  if negb b then Ok (st, true)
  else
    let* p := get Z.compare (reg st) token in
    let* _ := read (heap st) p in
    let h := upd (heap st) p None in
    let* r := remove_key Z.compare false (reg st) token in
    Ok (Api r h, false).
(* the other calls, such as lines 272-288 and 762-777: f is what is done with the system; None is the error *)
Definition call (st : api) (token : Z) (f : S -> outcome (S * A)) : outcome (api * option A) :=
  let* b := haskey Z.compare (reg st) token in
  if negb b then Ok (st, None)
  else
    let* p := get Z.compare (reg st) token in
    let* s := read (heap st) p in
    let* (s, a) := f s in
    Ok (Api (reg st) (upd (heap st) p (Some s)), Some a).

(* histories; f does not go wrong by itself *)
Inductive hop : Type :=
| Create (s : S)
| Reset (t : Z)
| Call (t : Z) (f : S -> S * A).
Inductive hres : Type :=
| RToken (t : Z)
| RError
| RDone
| RValue (a : A).
Definition hstep (first : Z) (st : api) (o : hop) : outcome (api * hres) :=
  match o with
  | Create s => let* (st, t) := create first st s in Ok (st, RToken t)
  | Reset t => let* (st, b) := reset st t in Ok (st, if b then RError else RDone)
  | Call t f => let* (st, a) := call st t (fun s => Ok (f s)) in
                Ok (st, match a with Some a => RValue a | None => RError end)
  end.
Fixpoint hrun (first : Z) (st : api) (ops : list hop) : outcome (api * list hres) :=
  match ops with
  | [] => Ok (st, [])
  | o :: ops =>
    let* (st, r) := hstep first st o in
    let* (st, rs) := hrun first st ops in
    Ok (st, r :: rs)
  end.
End Handles.
Arguments api : clear implicits.
Arguments hop : clear implicits.
Arguments hres : clear implicits.

(* ---- load groups: what the calls do with the system that the handle names ---- *)

Section Groups.
Context {D R : Type}.
Notation sys := (sys R).
Definition caught (o : outcome (sys * option exn)) : outcome (sys * bool) :=
  let* (st, e) := o in Ok (st, match e with Some _ => true | None => false end).
(* OP_LE_AddGroupLoad, lines 396-412 *)
Definition add_group_load (st : sys) (g : nat) (x : ld) : outcome (sys * bool) := caught (addload st g x).
(* OP_LE_RemoveGroupLoad, lines 414-437 *)
Definition remove_group_load (st : sys) (g l : nat) : outcome (sys * bool) :=
  if ((g =? 0) || (length (lg st) <? g))%nat then Ok (st, true)
  else
    let* row := aget (lg st) (g - 1) in
    if ((l =? 0) || (length row <? l))%nat then Ok (st, true)
    else caught (removeload st (g - 1) (l - 1)).
(* OP_LE_RemoveGroup, lines 439-458 *)
Definition remove_group (st : sys) (g : nat) : outcome (sys * bool) :=
  if ((g =? 0) || (length (lg st) <? g))%nat then Ok (st, true)
  else caught (Ok (removeloads st (g - 1))).
(* OP_LE_RemoveAllLoadGroups, lines 460-476; the loop takes fuel *)
Fixpoint remove_groups_loop (fuel : nat) (st : sys) : outcome (sys * bool) :=
  match fuel with
  | O => UB OutOfFuel
  | Datatypes.S fuel =>
    if (length (lg st) =? 0)%nat then Ok (st, false)
    else
      let* (st, e) := caught (Ok (removeloads st 0)) in
      if e then Ok (st, true) else remove_groups_loop fuel st
  end.
Definition remove_all_groups (st : sys) : outcome (sys * bool) := remove_groups_loop (Datatypes.S (length (lg st))) st.
(* OP_LE_GroupResult, lines 615-632; None is the error *)
Definition group_result (st : sys) (g i : nat) : outcome (option (pt * R)) :=
  match result st g i with
  | Ok r => Ok (Some r)
  | Throw _ => Ok None
  | UB f => UB f
  end.
End Groups.
