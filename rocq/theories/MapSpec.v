(* Specification of a keyed container, independent of any tree: an association list
   in order of first insertion.  Nothing here is taken from the models. *)
From Coq Require Import List ZArith Bool.
Import ListNotations.

Section MapSpec.
Context {K V : Type}.
Variable kcmp : K -> K -> comparison.

Definition same (k k' : K) : bool :=
  match kcmp k k' with Eq => true | _ => false end.
Definition less (k k' : K) : bool :=
  match kcmp k k' with Lt => true | _ => false end.

(* Is there an entry with this key? *)
Definition m_has (m : list (K * V)) (k : K) : bool :=
  existsb (fun e => same k (fst e)) m.

(* The value of the entry with this key. *)
Definition m_find (m : list (K * V)) (k : K) : option V :=
  option_map snd (find (fun e => same k (fst e)) m).

(* Add: overwrite in place, or append.  [rekey] says whether overwriting also
   replaces the stored key by the (equivalent) new one. *)
Definition m_add (rekey : bool) (m : list (K * V)) (k : K) (v : V) : list (K * V) :=
  if m_has m k
  then map (fun e => if same k (fst e) then ((if rekey then k else fst e), v) else e) m
  else m ++ [(k, v)].

Definition m_remove (m : list (K * V)) (k : K) : list (K * V) :=
  filter (fun e => negb (same k (fst e))) m.

(* Number of entries with a strictly smaller key. *)
Definition m_rank (m : list (K * V)) (k : K) : nat :=
  length (filter (fun e => less (fst e) k) m).

End MapSpec.
