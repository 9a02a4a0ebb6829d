(* Model of the Monte Carlo part of include/randomvar.h: the order of realisations and the
   rolling of the dice (realization::operator <, > lines 172-179, realized::rolldice lines
   551-561, house::rolldice lines 564-574).  The store is the oset of SortModel, the normal
   numbers are those of an arbitrary generator, a random variable is the three members
   rolldice uses. *)
From Coq Require Import ZArith List.
From Verif Require Import Base SortModel.
Import ListNotations.

Section Dice.
Variables G N V K : Type.          (* generator, normal number, value, sort key *)
Variable next : G -> N * G.        (* house::rnd_stdnormal *)
Variable kcmp : K -> K -> comparison.

Record rvar := { randomizable : bool; scale : N -> V; mean : V }.
Record realized := { trial : Z; sortkey : K; rv : rvar; v : V; rolled : bool }.

(* operator < and operator > *)
Definition realized_cmp (a b : realized) : comparison :=
  match Z.compare (trial a) (trial b) with
  | Eq => kcmp (sortkey a) (sortkey b)
  | c => c
  end.

Definition with_value (r : realized) (x : V) : realized :=
  {| trial := trial r; sortkey := sortkey r; rv := rv r; v := x; rolled := true |}.
(* realized::rolldice *)
Definition roll_one (g : G) (r : realized) : realized * G :=
  if negb (rolled r) then
    if randomizable (rv r) then
      let (z, g') := next g in (with_value r (scale (rv r) z), g')
    else (with_value r (mean (rv r)), g)
  else (with_value r (v r), g).
Fixpoint roll_all (g : G) (l : list realized) : list realized * G :=
  match l with
  | [] => ([], g)
  | r :: l => let (r', g1) := roll_one g r in let (l', g2) := roll_all g1 l in (r' :: l', g2)
  end.
(* house::rolldice; the mutex is held throughout *)
Definition rolldice (g : G) (store : list realized) : outcome (list realized * G) :=
  let* st := sort realized_cmp store in Ok (roll_all g st).
End Dice.
Arguments randomizable {N V}. Arguments scale {N V}. Arguments mean {N V}.
Arguments trial {N V K}. Arguments sortkey {N V K}. Arguments rv {N V K}.
Arguments v {N V K}. Arguments rolled {N V K}.
