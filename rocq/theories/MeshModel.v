(* Model of the class mesh of fem3d/fem3d.cpp (lines 2306-2788) around its solver: the list of
   nodes (node_list, lines 441-589), the conditions and forces, and mesh::solve from the
   numbering of the nodes to the writing back of the displacements.

   node_list is the tree of include/tree.h (lines 869-1147) again, but for what it does with a
   key it has already; so the nodes, the splitting, the leaning and the lookups are those of
   LlrbModel, whose text is the same.  The sets disp_bc and f_ext are the kiset of KeySetModel.

   Simplifications: a coordinate fixed<8> is its integer; growing of the arrays is not modelled
   (the sizing rule of lines 530-543 is that of SetModel); a failed assertion counts as
   OutOfBounds; the elements are given with their stiffness (see BcModel). *)
From Coq Require Import List ZArith Bool Arith.
From Verif Require Import Base LinBase LlrbModel KeySetModel SmatModel IncholModel PcgModel BcModel.
Import ListNotations.
Local Open Scope nat_scope.

(* lines 296-322 *)
Record coord : Type := Co { cx : Z; cy : Z; cz : Z }.
Definition ccmp (p q : coord) : comparison :=
  if (cx p =? cx q)%Z && (cy p =? cy q)%Z && (cz p =? cz q)%Z then Eq
  else if (cz q <? cz p)%Z then Lt
  else if (cz p <? cz q)%Z then Gt
  else if (cx p <? cx q)%Z then Lt
  else if (cx q <? cx p)%Z then Gt
  else if (cy p <? cy q)%Z then Lt else Gt.

(* lines 545-588 *)
Section Append.
Context {V : Type}.
Fixpoint nl_append (fuel : nat) (a : list (lnode coord V)) (o : option nat) (c : coord) (v : V) : outcome (list (lnode coord V) * nat) :=
  match fuel with
  | O => UB OutOfFuel
  | S fuel =>
    match o with
    | None => Ok (a ++ [LNode c v 0 None None true], length a)
    | Some r =>
      let* (a, r) := split a r in
      let* n := aget a r in
      match ccmp c (lkey n) with
      | Eq => UB OutOfBounds
      | Lt =>
        let* (a, l) := nl_append fuel a (lleft n) c v in
        let* a := lmodify a r (lset_left (Some l)) in
        let* a := lmodify a r (fun n => lset_order (lorder n + 1) n) in
        lean a r
      | Gt =>
        let* (a, l) := nl_append fuel a (lright n) c v in
        let* a := lmodify a r (lset_right (Some l)) in
        lean a r
      end
    end
  end.
(* lines 518-523 *)
Definition nl_add (st : llrb_state coord V) (c : coord) (v : V) : outcome (llrb_state coord V) :=
  let* (a, r) := nl_append (S (length (larr st))) (larr st) (lroot st) c v in
  let* a := lmodify a r (lset_red false) in
  Ok (Llrb a (Some r)).
End Append.

Section Mesh.
Context {K : ofield}.
Local Open Scope lin_scope.

(* the rest of a node3d, lines 372-426: neighbours, displacement, marks *)
Record ndata : Type := Nd { nnb : list (option nat); nu : v3 K; nfix : Z }.
Definition nd0 : ndata := Nd [None; None; None; None; None; None] zerov 0.
Notation node := (lnode coord ndata).
(* lines 2784-2788 *)
Record mesh : Type := Mesh { mnodes : llrb_state coord ndata; mdbc : iset (bc K); mfext : iset (bc K) }.
(* lines 2311-2313 *)
Definition mesh_new : mesh := Mesh llrb_new inew inew.

(* lines 2062-2070 *)
Definition bcmp (p q : bc K) : comparison :=
  if (bn p =? bn q) && (bdof p =? bdof q) then Eq
  else if (bn p <? bn q) || ((bn p =? bn q) && (bdof p <? bdof q)) then Lt else Gt.

(* lines 2395-2402 *)
Definition addnode (m : mesh) (c : coord) : outcome (mesh * nat) :=
  let* k := lhaskey ccmp (mnodes m) c in
  match k with
  | Some k => Ok (m, k)
  | None =>
    let k := llrb_length (mnodes m) in
    let* t := nl_add (mnodes m) c nd0 in
    Ok (Mesh t (mdbc m) (mfext m), k)
  end.
(* lines 2413-2415 *)
Definition getnode (m : mesh) (i : nat) : outcome node := aget (larr (mnodes m)) i.
(* lines 2403-2409: the whole node is overwritten, with its links *)
Definition updatenode (m : mesh) (n : node) : outcome (mesh * bool) :=
  let* k := lhaskey ccmp (mnodes m) (lkey n) in
  match k with
  | None => Ok (m, false)
  | Some k => let* a := aset (larr (mnodes m)) k n in Ok (Mesh (Llrb a (lroot (mnodes m))) (mdbc m) (mfext m), true)
  end.
(* lines 2419-2421 *)
Definition hasnode (m : mesh) (c : coord) : outcome (option nat) := lhaskey ccmp (mnodes m) c.
(* lines 2422-2424; with no such node the key is taken from value[UINT_MAX] *)
Definition getorderofnode (m : mesh) (c : coord) : outcome Z :=
  let* k := lhaskey ccmp (mnodes m) c in
  let* k := lderef k in
  lgetorder ccmp (mnodes m) k.

(* lines 2427-2437 *)
Definition bit (f : Z) (i : nat) : bool := negb (Z.eqb (Z.land f (Z.shiftl 1 (Z.of_nat i))) 0).
(* lines 2439-2450 *)
Definition bc_one (k : nat) (f : Z) (d : K) (i : nat) (s : iset (bc K)) : outcome (iset (bc K)) :=
  if bit f i then iadd bcmp s [Bc k i d] else Ok s.
Definition add_bc (m : mesh) (c : coord) (f : Z) (d : K) : outcome (mesh * bool) :=
  let* k := lhaskey ccmp (mnodes m) c in
  match k with
  | None => Ok (m, false)
  | Some k =>
    let* s := bc_one k f d 0 (mdbc m) in
    let* s := bc_one k f d 1 s in
    let* s := bc_one k f d 2 s in
    Ok (Mesh (mnodes m) s (mfext m), true)
  end.
(* lines 2452-2489 *)
Definition plane_at (p : Z) (v c : Z) (m : mesh) (n : coord) (f : Z) (d : K) : outcome mesh :=
  let* m := if bit p 0 && (v =? c)%Z then let* (m, _) := add_bc m n f d in Ok m else Ok m in
  let* m := if bit p 1 && (v <? c)%Z then let* (m, _) := add_bc m n f d in Ok m else Ok m in
  if bit p 2 && (c <? v)%Z then let* (m, _) := add_bc m n f d in Ok m else Ok m.
Definition add_bc_plane (m : mesh) (o p : Z) (c : Z) (f : Z) (d : K) : outcome mesh :=
  if (bit o 0 && bit o 1) || (bit o 0 && bit o 2) || (bit o 1 && bit o 2) then UB OutOfBounds else
  for_up 0 (llrb_length (mnodes m)) (fun i m =>
    let* n := getnode m i in
    if (o =? 1)%Z then plane_at p (cx (lkey n)) c m (lkey n) f d
    else if (o =? 2)%Z then plane_at p (cy (lkey n)) c m (lkey n) f d
    else if (o =? 4)%Z then plane_at p (cz (lkey n)) c m (lkey n) f d
    else Ok m) m.
(* lines 2491-2514 *)
Definition force_one (k : nat) (f : Z) (d : K) (i : nat) (s : iset (bc K)) : outcome (iset (bc K)) :=
  if bit f i then
    let* j := hasvalue bcmp s (Bc k i d) in
    let* d := match j with Some j => let* q := iget s j in Ok (d + bd q) | None => Ok d end in
    iadd bcmp s [Bc k i d]
  else Ok s.
Definition add_fext (m : mesh) (c : coord) (f : Z) (d : K) : outcome (mesh * bool) :=
  let* k := lhaskey ccmp (mnodes m) c in
  match k with
  | None => Ok (m, false)
  | Some k =>
    let* s := force_one k f d 0 (mfext m) in
    let* s := force_one k f d 1 s in
    let* s := force_one k f d 2 s in
    Ok (Mesh (mnodes m) (mdbc m) s, true)
  end.

(* lines 2545-2548 *)
Definition number (t : llrb_state coord ndata) : outcome (list nat) :=
  for_up 0 (llrb_length t) (fun i l => let* o := lgetorder ccmp t i in Ok (l ++ [Z.to_nat o])) [].
(* the marks and the displacements written back into the nodes, lines 2575-2586 and 2770-2774 *)
Definition put_back (n2o : list nat) (fixed : list Z) (U : svec K) (t : llrb_state coord ndata) : outcome (llrb_state coord ndata) :=
  for_up 0 (llrb_length t) (fun i t =>
    let* x := aget fixed i in
    let* n := aget n2o i in
    let* u := aget U n in
    let* a := lmodify (larr t) i (fun q => LNode (lkey q) (Nd (nnb (lval q)) u x) (lorder q) (lleft q) (lright q) (lred q)) in
    Ok (Llrb a (lroot t))) t.
(* lines 2516-2776 *)
Definition solve (sq : K -> K) (eps : K) (lim : Z) (es : list (felem K)) (m : mesh) (tol : K) : outcome (mesh * nat) :=
  let* n2o := number (mnodes m) in
  let u0 := map (fun n => nu (lval n)) (larr (mnodes m)) in
  let fixed0 := map (fun n => nfix (lval n)) (larr (mnodes m)) in
  let* (fixed, _) := fixings n2o (vals (mdbc m)) (fixed0, svec_new (length u0)) in
  let* (U, _, it) := mesh_solve sq eps lim n2o (vals (mfext m)) (vals (mdbc m)) es u0 fixed0 tol in
  let* t := put_back n2o fixed U (mnodes m) in
  Ok (Mesh t (mdbc m) (mfext m), it).

(* the calls that build a mesh; a touch is the reading of a node, new neighbours (lines 383-410)
   or displacements in the copy, and updatenode, as on lines 830, 1335, 3395, 3886 and 4137 *)
Inductive mop : Type :=
| ONode (c : coord)
| OBc (c : coord) (f : Z) (d : K)
| OPlane (o p c f : Z) (d : K)
| OForce (c : coord) (f : Z) (d : K)
| OTouch (i : nat) (nb : list (option nat)) (u : v3 K).
Definition mstep (m : mesh) (o : mop) : outcome mesh :=
  match o with
  | ONode c => let* (m, _) := addnode m c in Ok m
  | OBc c f d => let* (m, _) := add_bc m c f d in Ok m
  | OPlane o p c f d => add_bc_plane m o p c f d
  | OForce c f d => let* (m, _) := add_fext m c f d in Ok m
  | OTouch i nb u =>
    let* n := getnode m i in
    let* (m, _) := updatenode m (LNode (lkey n) (Nd nb u (nfix (lval n))) (lorder n) (lleft n) (lright n) (lred n)) in
    Ok m
  end.
End Mesh.
Arguments ndata : clear implicits.
Arguments mesh : clear implicits.
Arguments mop : clear implicits.
