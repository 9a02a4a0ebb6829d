(* Model of the pavement system LEsystem: its inputs, the cache protocol around the
   calculations, the check of the inputs and the queries (src/pavement.h lines 380-440 and
   441-583, src/pavement.cpp lines 153-419, 928-948, 1056-1404, 1472-1488, 1700-1716 and
   1791-1964).

   Simplifications:
   - the numerical work of a calculation is an uninterpreted function kern of what it
     reads: the kind of result, the gradient directions, the moduli, Poisson's ratios and
     slips, the cached geometry, the loads, the load group and the evaluation point;
   - a number is an integer count of millionths, added and compared exactly;
   - the layer list is a list (justified by C28), lg and data are lists of lists (C08) and
     points is a list with the keyed operations of include/set.h lines 860-987 (C10);
   - what a calculation keeps in its slab cache is one value; that a repeated sequence of
     allocations finds it again is C24 and C63;
   - memory does not run out. *)
From Coq Require Import List ZArith Bool Arith.
From Verif Require Import Base.
Import ListNotations.
Local Open Scope Z_scope.

Definition one : Z := 1000000.

(* src/pavement.h lines 207-210, 243-244, 250-251 *)
Record lay : Type := Lay { lh : Z; lE : Z; lv : Z; ls : Z }.
Record ld : Type := Ld { lx : Z; ly : Z; lf : Z; lr : Z }.
(* pil None is UINT_MAX *)
Record pt : Type := Pt { px : Z; py : Z; pz : Z; pil : option nat }.

(* src/pavement.h lines 541-556; the first constructor is what calculate() is asked for *)
Inductive speed : Type := SAll | SFast | SDirty.
Inductive restype : Type := RCalc (s : speed) (disp grad : bool) | ROdemark | RFastnum | RAccurate.
Definition speed_eqb (a b : speed) : bool :=
  match a, b with SAll, SAll | SFast, SFast | SDirty, SDirty => true | _, _ => false end.
Definition restype_eqb (a b : restype) : bool :=
  match a, b with
  | RCalc s d g, RCalc s' d' g' => speed_eqb s s' && eqb d d' && eqb g g'
  | ROdemark, ROdemark | RFastnum, RFastnum | RAccurate, RAccurate => true
  | _, _ => false
  end.

(* src/pavement.h lines 425-427 and 412-414 *)
Inductive cachestate : Type := CEmpty | CEmod | CAll.
Definition cmin (a b : cachestate) : cachestate :=
  match a, b with
  | CEmpty, _ | _, CEmpty => CEmpty
  | CEmod, _ | _, CEmod => CEmod
  | CAll, CAll => CAll
  end.
Definition cempty (a : cachestate) : bool := match a with CEmpty => true | _ => false end.
Definition call (a : cachestate) : bool := match a with CAll => true | _ => false end.

(* src/pavement.h lines 167-172: the depth of the bottom of each layer, zero for the
   infinite one *)
Fixpoint bottoms (top : Z) (l : list lay) : list Z :=
  match l with
  | [] => []
  | a :: t => let b := if lh a =? 0 then 0 else top + lh a in b :: bottoms b t
  end.

(* What calculate() leaves in the cache to use again (src/pavement.cpp lines 1077-1092,
   1110-1129, 1145-1158, 1170-1241, 1248-1262): functions of these three. *)
Record geo : Type := Geo { gbottoms : list Z; gpoints : list pt; gloads : list (list ld) }.

Section Le.
Context {D R : Type}.
Variable kern : restype -> option D -> list (Z * Z * Z) -> geo -> list (list ld) -> nat -> pt -> R.

Record sys : Type := Sys {
  layers : list lay; points : list pt; lg : list (list ld); clg : nat;
  data : list (list (pt * option R));
  cstate : cachestate; cres : option restype; cgeo : option geo }.
Definition snew : sys := Sys [] [] [] 0 [] CEmpty None None.

Definition set_layers (st : sys) (l : list lay) : sys :=
  Sys l (points st) (lg st) (clg st) (data st) (cstate st) (cres st) (cgeo st).
Definition set_points (st : sys) (p : list pt) : sys :=
  Sys (layers st) p (lg st) (clg st) (data st) (cstate st) (cres st) (cgeo st).
Definition set_lg (st : sys) (g : list (list ld)) : sys :=
  Sys (layers st) (points st) g (clg st) (data st) (cstate st) (cres st) (cgeo st).
Definition set_data (st : sys) (d : list (list (pt * option R))) : sys :=
  Sys (layers st) (points st) (lg st) (clg st) d (cstate st) (cres st) (cgeo st).
Definition set_cres (st : sys) (r : option restype) : sys :=
  Sys (layers st) (points st) (lg st) (clg st) (data st) (cstate st) r (cgeo st).
(* src/pavement.h lines 412-414 *)
Definition cached (st : sys) (s : cachestate) : sys :=
  Sys (layers st) (points st) (lg st) (clg st) (data st) (cmin (cstate st) s) (cres st) (cgeo st).
(* src/pavement.h lines 407-411 *)
Definition cache_free (st : sys) : sys :=
  Sys (layers st) (points st) (lg st) (clg st) (data st) CEmpty (cres st) None.

(* ---- layers ---- *)
(* src/pavement.cpp lines 219-228 (C28): the index of the layer that layer(l) gives *)
Definition layer_index (st : sys) (l : nat) : outcome nat :=
  match layers st with
  | [] => UB NullDeref
  | _ => Ok (Nat.min l (pred (length (layers st))))
  end.
Definition layer_at (st : sys) (l : nat) : outcome (nat * lay) :=
  let* i := layer_index st l in let* a := aget (layers st) i in Ok (i, a).
(* src/pavement.cpp lines 153-158 *)
Definition set_thickness (st : sys) (l : nat) (th : Z) : outcome sys :=
  let* (i, a) := layer_at st l in
  Ok (set_layers (cached st CEmpty) (upd (layers st) i (Lay th (lE a) (lv a) (ls a)))).
(* lines 160-166 *)
Definition set_emod (st : sys) (l : nat) (te : Z) : outcome sys :=
  let* (i, a) := layer_at st l in
  let st := if te =? lE a then st else cached st CEmod in
  Ok (set_layers st (upd (layers st) i (Lay (lh a) te (lv a) (ls a)))).
(* lines 168-174 *)
Definition set_poissons (st : sys) (l : nat) (tv : Z) : outcome sys :=
  let* (i, a) := layer_at st l in
  let st := if tv =? lv a then st else cached st CEmod in
  Ok (set_layers st (upd (layers st) i (Lay (lh a) (lE a) tv (ls a)))).
(* lines 176-182 *)
Definition set_slip (st : sys) (l : nat) (ts : Z) : outcome sys :=
  let* (i, a) := layer_at st l in
  let st := if ts =? ls a then st else cached st CEmod in
  Ok (set_layers st (upd (layers st) i (Lay (lh a) (lE a) (lv a) ts))).
(* lines 185-198 (C28) *)
Definition addlayer (st : sys) (a : lay) (p : option nat) : sys :=
  let l := layers st in
  set_layers (cached st CEmpty)
    (match p with
     | None => l ++ [a]
     | Some p => let k := Nat.min p (pred (length l)) in firstn k l ++ a :: skipn k l
     end).
(* lines 200-210 (C28) *)
Definition removelayer (st : sys) (k : nat) : sys :=
  set_layers (cached st CEmpty) (firstn k (layers st) ++ skipn (S k) (layers st)).
(* lines 212-217 *)
Definition removelayers (st : sys) : sys := set_layers (cached st CEmpty) [].

(* ---- loads; a step gives the state and the exception thrown, if any ---- *)
(* lines 230-237; a group beyond the next one leaves uninitialised groups (C09) *)
Definition addload (st : sys) (g : nat) (x : ld) : outcome (sys * option exn) :=
  let st := cached st CEmpty in
  if (g <? length (lg st))%nat then
    let* row := aget (lg st) g in Ok (set_lg st (upd (lg st) g (row ++ [x])), None)
  else if (g =? length (lg st))%nat then Ok (set_lg st (lg st ++ [[x]]), None)
  else UB Uninit.
(* lines 239-250 *)
Definition removeload (st : sys) (g i : nat) : outcome (sys * option exn) :=
  let st := cached st CEmpty in
  match nth_error (lg st) g with
  | None => Ok (st, Some OutOfRange)
  | Some row =>
    if (i <? length row)%nat then
      let row := firstn i row ++ skipn (S i) row in
      let st := set_lg st (upd (lg st) g row) in
      if (length row =? 0)%nat then Ok (set_lg st (firstn g (lg st) ++ skipn (S g) (lg st)), None)
      else Ok (st, None)
    else Ok (st, Some OutOfRange)
  end.
(* lines 252-261 *)
Definition removeloads (st : sys) (g : nat) : sys * option exn :=
  let st := cached st CEmpty in
  if (length (lg st) =? 0)%nat && (g =? clg st)%nat then (st, None)
  else if (g <? length (lg st))%nat then (set_lg st (firstn g (lg st) ++ skipn (S g) (lg st)), None)
  else (st, Some OutOfRange).

(* ---- points ---- *)
(* src/pavement.h lines 284-288 *)
Definition same_point (p q : pt) : bool :=
  (px p =? px q) && (py p =? py q) && (pz p =? pz q) &&
  match pil p, pil q with
  | Some a, Some b => (a =? b)%nat
  | _, _ => true
  end.
(* include/set.h: haskey of kfset, a scan from the front *)
Fixpoint find_point (l : list pt) (p : pt) (i : nat) : option nat :=
  match l with
  | [] => None
  | q :: t => if same_point q p then Some i else find_point t p (S i)
  end.
(* src/pavement.h lines 268-273: an unset layer does not replace a set one *)
Definition assign_point (q p : pt) : pt :=
  Pt (px p) (py p) (pz p) (match pil q, pil p with Some a, None => Some a | _, x => x end).
Definition put_point (l : list pt) (p : pt) : list pt :=
  match find_point l p 0 with
  | Some i => match nth_error l i with Some q => upd l i (assign_point q p) | None => l end
  | None => l ++ [p]
  end.
(* src/pavement.cpp lines 263-268 *)
Definition addpoint (st : sys) (p : pt) : sys := set_points (cached st CEmpty) (put_point (points st) p).
(* lines 284-289 *)
Definition removepoint (st : sys) (p : pt) : sys * option exn :=
  let st := cached st CEmpty in
  match find_point (points st) p 0 with
  | Some i => (set_points st (firstn i (points st) ++ skipn (S i) (points st)), None)
  | None => (st, Some InvalidArgument)
  end.
(* lines 291-296 *)
Definition removepoints (st : sys) : sys := set_points (cached st CEmpty) [].

(* ---- lines 302-419: check ---- *)
(* lines 336-372; first is cache_state == empty *)
Fixpoint layers_ok (first : bool) (l : list lay) : bool :=
  match l with
  | [] => true
  | a :: t =>
    let isl := match t with [] => true | _ => false end in
    negb (lE a <=? 0) && negb ((ls a <? 0) || (one <? ls a)) &&
    negb ((lh a =? 0) && isl && negb (ls a =? one)) &&
    negb ((lv a <=? 0) || (one <? 2 * lv a)) &&
    (negb first || (negb (lh a <? 0) && negb ((lh a =? 0) && negb isl))) &&
    layers_ok first t
  end.
(* lines 373-377 *)
Definition last_ok (l : list lay) : bool :=
  match rev l with
  | [] => true
  | a :: _ => negb ((0 <? List.last (bottoms 0 l) 0) && (4 * lv a =? 3 * one))
  end.
(* lines 391-402: the walk over the layers for a point: the top and the thickness of the
   layer where it stops, and the point with its layer *)
Fixpoint locate (l : list lay) (il : nat) (z : Z) (d : pt) : option (Z * Z * pt) :=
  match l with
  | [] => None
  | a :: t =>
    let h := lh a in
    match pil d with
    | Some k => if (k =? il)%nat then Some (z, h, d) else locate t (S il) (z + h) d
    | None =>
      if (z <=? pz d) && ((h =? 0) || (pz d <? z + h))
      then Some (z, h, Pt (px d) (py d) (pz d) (Some il))
      else locate t (S il) (z + h) d
    end
  end.
(* lines 381-409 for one point *)
Definition check_point (l : list lay) (d : pt) : pt * bool :=
  if pz d <? 0 then (d, false)
  else
    match locate l 0 0 d with
    | None => (d, false)
    | Some (z, h, d') => (d', negb (pz d <? z) && negb ((0 <? h) && (z + h <? pz d)))
    end.
(* lines 302-419 *)
Definition check (st : sys) : sys * bool :=
  if call (cstate st) then (st, true)
  else
    let first := cempty (cstate st) in
    let ok := (negb first ||
               (negb (length (layers st) =? 0)%nat && negb (length (lg st) =? 0)%nat &&
                forallb (fun row => negb (length row =? 0)%nat) (lg st) &&
                negb (length (points st) =? 0)%nat)) &&
              layers_ok first (layers st) && last_ok (layers st) in
    if negb first || negb ok || (length (layers st) =? 0)%nat then (st, ok)
    else
      let r := map (check_point (layers st)) (points st) in
      let ps := map fst r in
      let ok := forallb snd r in
      let st := set_points st ps in
      (set_data st (map (fun _ => map (fun p => (p, None)) ps) (lg st)), ok).

(* ---- the calculations ---- *)
Definition moduli (l : list lay) : list (Z * Z * Z) :=
  map (fun a => (lE a, lv a, Z.max 0 (ls a))) l.
Definition mkgeo (st : sys) : geo := Geo (bottoms 0 (layers st)) (points st) (lg st).
Fixpoint fill_groups (f : nat -> pt -> R) (g : nat) (d : list (list (pt * option R))) : list (list (pt * option R)) :=
  match d with
  | [] => []
  | row :: t => map (fun x => (fst x, Some (f g (fst x)))) row :: fill_groups f (S g) t
  end.
(* Does the routine keep its geometry? calc_accurate, calc_odemark and calc_fastnum free
   the cache on entry (lines 935-941, 1478-1484, 1706-1712). *)
Definition keeps (r : restype) : bool := match r with RCalc _ _ _ => true | _ => false end.
Definition same_res (a : option restype) (b : restype) : bool :=
  match a with Some a => restype_eqb a b | None => false end.
(* lines 1064-1072 and then the work *)
Definition calculate (st : sys) (res : restype) (q : option D) : outcome (sys * bool) :=
  let again := same_res (cres st) res && negb (cempty (cstate st)) in
  if again && call (cstate st) then Ok (st, true)
  else
    let st := if again && keeps res then st else cache_free st in
    let st := set_cres st None in
    let '(st, ok) := check st in
    if negb ok then Ok (st, false)
    else
      let* geom := if cempty (cstate st) then Ok (mkgeo st)
                   else match cgeo st with Some g => Ok g | None => UB Uninit end in
      let d := fill_groups (kern res q (moduli (layers st)) geom (lg st)) 0 (data st) in
      Ok (Sys (layers st) (points st) (lg st) (clg st) d CAll (Some res) (Some geom), true).

(* ---- queries ---- *)
(* src/pavement.h lines 513-517 *)
Definition results (st : sys) : nat := if call (cstate st) then length (points st) else 0%nat.
(* src/pavement.h lines 535-539: operator [] is unchecked *)
Definition result (st : sys) (g i : nat) : outcome (pt * R) :=
  if negb (call (cstate st)) then Throw RuntimeError
  else
    let* row := aget (data st) g in
    let* d := aget row i in
    match snd d with Some r => Ok (fst d, r) | None => UB Uninit end.
(* src/pavement.h lines 518-520, 528-534 *)
Definition result_at (st : sys) (g : nat) (p : pt) : outcome (pt * R) :=
  match find_point (points st) p 0 with
  | None => Throw RuntimeError
  | Some i => result st g i
  end.

(* ---- src/pavement.cpp lines 1791-1964: backcalculation ----
   The search is left open: a list of settings of all moduli, each followed by a
   calculation; early is the return of line 1844. *)
Fixpoint set_moduli (st : sys) (i : nat) (es : list Z) : outcome sys :=
  match es with
  | [] => Ok st
  | e :: es => let* st := set_emod st i e in set_moduli st (S i) es
  end.
Fixpoint bc_steps (st : sys) (steps : list (list Z * restype * option D)) : outcome sys :=
  match steps with
  | [] => Ok st
  | (es, r, q) :: steps =>
    let* st := set_moduli st 0 es in
    let* (st, _) := calculate st r q in
    bc_steps st steps
  end.
Fixpoint add_defls (st : sys) (defl : list (nat * pt)) : sys * option exn :=
  match defl with
  | [] => (st, None)
  | (g, p) :: defl =>
    if negb (g <? length (lg st))%nat then (st, Some RuntimeError)
    else add_defls (addpoint st (Pt (px p) (py p) (pz p) None)) defl
  end.
Definition backcalc (st : sys) (defl : list (nat * pt)) (steps : list (list Z * restype * option D))
    (early : bool) (final : list Z) : outcome (sys * option exn) :=
  let orig := points st in
  if (length (layers st) =? 0)%nat then Ok (st, None)
  else if (length defl =? 0)%nat then Ok (st, None)
  else
    match add_defls (removepoints st) defl with
    | (st, Some e) => Ok (st, Some e)
    | (st, None) =>
      let* st := bc_steps st steps in
      if early then Ok (st, None)
      else
        let* st := set_moduli st 0 final in
        let* (st, _) := calculate st (RCalc SAll true false) None in
        if negb (call (cstate st)) then Ok (st, Some RuntimeError)
        else Ok (set_points st orig, None)
    end.

Inductive op : Type :=
| OAddLayer (a : lay) (p : option nat)
| ORemoveLayer (k : nat)
| ORemoveLayers
| OThickness (l : nat) (x : Z)
| OEmod (l : nat) (x : Z)
| OPoissons (l : nat) (x : Z)
| OSlip (l : nat) (x : Z)
| OAddLoad (g : nat) (x : ld)
| ORemoveLoad (g i : nat)
| ORemoveLoads (g : nat)
| ODefault (g : nat)
| OAddPoint (p : pt)
| ORemovePoint (p : pt)
| ORemovePoints
| OCalc (r : restype) (q : option D)
| OBackcalc (defl : list (nat * pt)) (steps : list (list Z * restype * option D)) (early : bool) (final : list Z).

Definition quiet (o : outcome sys) : outcome (sys * option exn) := let* st := o in Ok (st, None).
Definition step (st : sys) (o : op) : outcome (sys * option exn) :=
  match o with
  | OAddLayer a p => Ok (addlayer st a p, None)
  | ORemoveLayer k => Ok (removelayer st k, None)
  | ORemoveLayers => Ok (removelayers st, None)
  | OThickness l x => quiet (set_thickness st l x)
  | OEmod l x => quiet (set_emod st l x)
  | OPoissons l x => quiet (set_poissons st l x)
  | OSlip l x => quiet (set_slip st l x)
  | OAddLoad g x => addload st g x
  | ORemoveLoad g i => removeload st g i
  | ORemoveLoads g => Ok (removeloads st g)
  (* src/pavement.h lines 462-464 *)
  | ODefault g => Ok (Sys (layers st) (points st) (lg st) g (data st) (cstate st) (cres st) (cgeo st), None)
  | OAddPoint p => Ok (addpoint st p, None)
  | ORemovePoint p => Ok (removepoint st p)
  | ORemovePoints => Ok (removepoints st, None)
  | OCalc r q => let* (st, _) := calculate st r q in Ok (st, None)
  | OBackcalc d s e f => backcalc st d s e f
  end.
(* The caller catches every exception and goes on. *)
Fixpoint run (st : sys) (ops : list op) : outcome sys :=
  match ops with
  | [] => Ok st
  | o :: ops => let* (st, _) := step st o in run st ops
  end.
End Le.
Arguments sys : clear implicits.
Arguments op : clear implicits.

(* ---- src/pavement.cpp lines 1074-1247: the requests calculate() makes of the slab
   cache, in order, in bytes: nl layers, nz depths, na radii, and for each radius the
   numbers of distances and of integration limits.  Both the first run and the repeated
   one make these requests (the sizes nl, nz, na, nr, nm are kept in the first block of
   each group and read back by the repeated run). ---- *)
Definition calc_sizes (grad interpolate : bool) (nl nz : Z) (rs : list (Z * Z)) : list Z :=
  [5 * 4; 1; nl * 64; nl * 32; nl * 8; nl * 8; nl * 8; nl * 8] ++
  (if grad then [nl * 8] else []) ++ [nz * 16] ++ (if interpolate then [nz * 64] else []) ++
  [Z.of_nat (length rs) * 8] ++
  concat (map (fun '(nr, nm) =>
    [2 * 4; nr * 8; nr * 8; nr * 8; nz * nr * 96; nz * nr; nz * nr; nm * 8]) rs).
