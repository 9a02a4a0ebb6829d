(* Model of the default progress handler of include/event.h, lines 144-215.  double is exact;
   a division by zero (max of 0) gives the infinity or NaN of the sign of the numerator.
   The text output is reduced to the number shown; the variable arguments are left out. *)
From Coq Require Import ZArith QArith List Bool.
From Verif Require Import Base.
Import ListNotations.
Local Open Scope Z_scope.

(* a double: a number, an infinity, or NaN *)
Inductive dbl := Num (q : Q) | Inf (neg : bool) | NaN.
Definition d_plus (a b : dbl) : dbl :=
  match a, b with
  | Num x, Num y => Num (x + y)
  | NaN, _ | _, NaN => NaN
  | Inf s, Inf t => if Bool.eqb s t then Inf s else NaN
  | Inf s, _ | _, Inf s => Inf s
  end.
Definition q_neg (x : Q) : bool := negb (Qle_bool 0 x).
Definition q_zero (x : Q) : bool := Qeq_bool x 0.
Definition d_mult (a b : dbl) : dbl :=
  match a, b with
  | Num x, Num y => Num (x * y)
  | NaN, _ | _, NaN => NaN
  | Inf s, Inf t => Inf (xorb s t)
  | Inf s, Num x | Num x, Inf s => if q_zero x then NaN else Inf (xorb s (q_neg x))
  end.
(* division by a converted int, whose zero is positive *)
Definition d_divi (a : dbl) (n : Z) : dbl :=
  match a with
  | Num x => if n =? 0 then (if q_zero x then NaN else Inf (q_neg x)) else Num (x / inject_Z n)
  | Inf s => Inf (if n <? 0 then negb s else s)
  | NaN => NaN
  end.

(* event_progress_bar, line 163: p<0.0?0.0:(p>1.0?1.0:p) *)
Definition shown (p : dbl) : dbl :=
  match p with
  | Num x => if negb (Qle_bool 0 x) then Num 0 else if negb (Qle_bool x 1) then Num 1 else Num x
  | Inf true => Num 0
  | Inf false => Num 1
  | NaN => NaN
  end.

(* lines 175-176; arrays start as zeros *)
Record progress := { level : Z; pmax : list Z; pmark : list Z }.
Definition idle : progress := {| level := -1; pmax := [0;0;0]; pmark := [0;0;0] |}.

Inductive event :=
| Start (marker : Z) | Update (marker : Z) | Stop (marker : Z) | Other (type : Z).

(* an access with an int index *)
Definition iget (l : list Z) (i : Z) : outcome Z :=
  if i <? 0 then UB OutOfBounds else aget l (Z.to_nat i).
Definition iset (l : list Z) (i : Z) (x : Z) : outcome (list Z) :=
  if i <? 0 then UB OutOfBounds else aset l (Z.to_nat i) x.

(* lines 192-195: rounds i .. level-1 *)
Fixpoint p_loop (rounds : nat) (i : Z) (mx mk : list Z) (p m : dbl) : outcome (dbl * dbl) :=
  match rounds with
  | O => Ok (p, m)
  | S rounds =>
      let* a := iget mk i in
      let* b := iget mx i in
      p_loop rounds (i + 1) mx mk
        (d_plus p (d_divi (d_mult m (Num (inject_Z a))) b))
        (d_mult m (d_divi (Num 1) b))
  end.

(* event_progress, lines 171-212: the new state and the numbers handed to the bar
   (none at a level beyond 2) *)
Definition event_progress (s : progress) (e : event) : outcome (progress * list dbl) :=
  match e with
  | Start marker =>
      let lv := level s + 1 in
      if lv <? 3 then
        let* mx := iset (pmax s) lv marker in
        let* mk := iset (pmark s) lv 0 in
        Ok ({| level := lv; pmax := mx; pmark := mk |}, [shown (Num 0)])
      else Ok ({| level := lv; pmax := pmax s; pmark := pmark s |}, [shown (Num 0)])
  | Update marker =>
      let lv := level s in
      if lv <? 0 then Throw RuntimeError          (* std::logic_error *)
      else if lv <? 3 then
        let* mk := iset (pmark s) lv marker in
        let* pm := p_loop (Z.to_nat lv) 0 (pmax s) mk (Num 0) (Num 1) in
        let* a := iget mk lv in
        let* b := iget (pmax s) lv in
        let p := d_plus (fst pm) (d_divi (d_mult (snd pm) (Num (inject_Z a))) b) in
        Ok ({| level := lv; pmax := pmax s; pmark := mk |}, [shown p])
      else Ok (s, [])
  | Stop _ =>
      let lv := level s in
      if lv <? 3 then
        let* mx := iset (pmax s) lv 0 in
        let* mk := iset (pmark s) lv 0 in
        Ok ({| level := lv - 1; pmax := mx; pmark := mk |}, [shown (Num 1)])
      else Ok ({| level := lv - 1; pmax := pmax s; pmark := pmark s |}, [shown (Num 1)])
  | Other _ => Throw InvalidArgument
  end.

Fixpoint run_events (s : progress) (l : list event) : outcome (progress * list dbl) :=
  match l with
  | [] => Ok (s, [])
  | e :: l =>
      let* r := event_progress s e in
      let* r' := run_events (fst r) l in
      Ok (fst r', snd r ++ snd r')
  end.
