(* Model of the one-dimensional numerical methods (include/numerics.h lines 60-104 and
   src/numerics.cpp lines 44-313): fmin_brent, fzero_core and fzero.

   A double is a rational number and the arithmetic is exact; eps(), nextafter() and the square
   root are arbitrary functions, and so is the ratio GC of the golden section.  The function
   under study has a finite value everywhere.  NaN for a starting point is None, an infinite
   limit of fzero_core is None.  Every evaluation of the function is put on a list, the latest
   one first.  A division by zero is reported, not computed. *)
From Coq Require Import List ZArith Bool QArith Qabs.
From Verif Require Import Base.
Import ListNotations.
Local Open Scope Q_scope.

Definition qlt (x y : Q) : bool := negb (Qle_bool y x).
Definition qle (x y : Q) : bool := Qle_bool x y.
Definition qeq (x y : Q) : bool := Qeq_bool x y.
Definition qmin (x y : Q) : Q := if qlt y x then y else x.
Definition qmax (x y : Q) : Q := if qlt x y then y else x.
Definition divq (x y : Q) : outcome Q := if qeq y 0 then UB DivByZero else Ok (x / y).
Definition half : Q := 1 # 2.

(* evaluations *)
Definition ev (A : Type) : Type := list Q -> list Q * outcome A.
Definition ret {A} (a : A) : ev A := fun tr => (tr, Ok a).
Definition fail {A} (e : exn) : ev A := fun tr => (tr, Throw e).
Definition lift {A} (m : outcome A) : ev A := fun tr => (tr, m).
Definition bindm {A B} (m : ev A) (k : A -> ev B) : ev B := fun tr =>
  match m tr with
  | (tr, Ok a) => k a tr
  | (tr, Throw e) => (tr, Throw e)
  | (tr, UB f) => (tr, UB f)
  end.
Notation "x <- m ; k" := (bindm m (fun x => k)) (at level 100, m at next level, right associativity).
Notation "' p <- m ; k" := (bindm m (fun p => k)) (at level 100, p pattern, m at next level, right associativity).

Section Num.
Variable f : Q -> Q.
Variable eps : Q -> Q.
Definition evalf (x : Q) : ev Q := fun tr => (x :: tr, Ok (f x)).

(* ---- fmin_brent, src/numerics.cpp lines 44-162 ---- *)
Section Fmin.
Variable GC : Q.
Definition GR : Q := 1 / (1 - GC).

(* three points and the values there *)
Record tri : Type := Tri { ta : Q; tb : Q; tc : Q; vA : Q; vB : Q; vC : Q }.

(* lines 70-84; the two evaluations of line 80 are made in the order they are written *)
Definition two (a b : option Q) : ev tri :=
  let '(a, b) := match b with None => (b, a) | Some _ => (a, b) end in
  let b := match b with None => 0 | Some b => b end in
  let a := match a with None => if qeq b 0 then -5 # 100 else b - b / 20 | Some a => a end in
  B <- evalf b;
  A <- evalf a;
  if qlt A B then
    let c := a in let C := A in
    let a := b + (b - a) * GR in
    A <- evalf a;
    ret (Tri a b c A B C)
  else
    let c := b + (b - a) * GR in
    C <- evalf c;
    ret (Tri a b c A B C).
(* lines 54-69 *)
Definition start (a b : option Q) : ev tri :=
  match a, b with
  | Some a, Some b =>
    if qeq a b then two None (Some b)
    else
      let c := b in
      let b := b + GC * (a - b) in
      A <- evalf a;
      B <- evalf b;
      C <- evalf c;
      if qle A B && qle B C then two (Some c) (Some a)
      else ret (Tri a b c A B C)
  | _, _ => two a b
  end.
(* lines 86-124; k is 10 less the number of rounds made *)
Fixpoint search (k : nat) (t : tri) : ev (tri * nat) :=
  let '(Tri a b c A B C) := t in
  if qle B A && qle C B then
    match k with
    | O => fail RuntimeError
    | S k =>
      let r := (b - a) * (B - C) in
      let q := (b - c) * (B - A) in
      x <- lift (if qeq r q then Ok a
                 else let* d := divq ((b - a) * r - (b - c) * q) (Qabs (2 * (q - r))) in Ok (b - d));
      let y := c + (c - b) * GR in
      if qlt (qmin b c) x && qlt x (qmax b c) then
        X <- evalf x;
        if qlt X C then search k (Tri b x c B X C)
        else if qlt B X then search k (Tri a b x A B X)
        else search k (Tri b x c B X C)
      else if qlt (qmin c y) x && qlt x (qmax c y) then
        X <- evalf x;
        if qlt X C then
          Y <- evalf y;
          search k (Tri c x y C X Y)
        else search k (Tri b c x B C X)
      else
        X <- evalf y;
        search k (Tri b c y B C X)
    end
  else ret (t, k).
(* lines 137-161 *)
Fixpoint hunt (k : nat) (a b c B y Y z Z : Q) : ev Q :=
  if qlt (4 * eps b) (c - a) && (qlt B Y || qlt B Z) then
    match k with
    | O => fail RuntimeError
    | S k =>
      let r := (b - z) * (B - Y) in
      let q := (b - y) * (B - Z) in
      x <- lift (if qeq r q then Ok b
                 else let* d := divq ((b - z) * r - (b - y) * q) (2 * (r - q)) in Ok (b - d));
      let x := if qeq r q || qlt (2 * x) (a + b) || qlt (b + c) (2 * x)
               then b + GC * (if qlt (c - b) (b - a) then a - b else c - b) else x in
      X <- evalf x;
      if qle X B then
        let '(a, c) := if qlt x b then (a, b) else (b, c) in
        hunt k a x c X b B y Y
      else
        let '(a, c) := if qlt x b then (x, c) else (a, x) in
        if qle X Y || qeq x y then hunt k a b c B x X y Y
        else if qle X Z || qeq x z || qeq y z then hunt k a b c B y Y x X
        else hunt k a b c B y Y z Z
    end
  else ret b.
(* lines 130-135, between the parts above *)
Definition fmin_brent (a b : option Q) : ev Q :=
  t <- start a b;
  '(t, k) <- search 10 t;
  let '(Tri a b c A B C) := t in
  let '(a, c, A, C) := if qlt c a then (c, a, C, A) else (a, c, A, C) in
  let '(z, y, Z, Y) := if qlt C A then (a, c, A, C) else (c, a, C, A) in
  hunt (90 + k) a b c B y Y z Z.
End Fmin.

(* ---- fzero_core, src/numerics.cpp lines 183-313 ---- *)
Section Fzero.
Variable sqrtq : Q -> Q.
Definition copysign (x s : Q) : Q := if qlt s 0 then - Qabs x else Qabs x.
(* limits; None is -INFINITY for ll and INFINITY for lr *)
Definition below (x : Q) (ll : option Q) : bool := match ll with Some l => qlt x l | None => false end.
Definition above (x : Q) (lr : option Q) : bool := match lr with Some l => qlt l x | None => false end.
Definition inside (x : Q) (ll lr : option Q) : bool :=
  match ll with Some l => qlt l x | None => true end && match lr with Some l => qlt x l | None => true end.
Definition pos (x : Q) : bool := qlt 0 x.

(* lines 196-218: (x,X), (y,Y), (z,Z) *)
Fixpoint bracket (k : nat) (ll lr : option Q) (x X y Y z Z : Q) : ev (Q * Q * Q * Q * Q * Q * nat) :=
  let '(x, X, y, Y) := if qlt (Qabs Y) (Qabs X) then (y, Y, x, X) else (x, X, y, Y) in
  if xorb (pos Y) (pos X) then ret (x, X, y, Y, z, Z, k)
  else
    match k with
    | O => fail RuntimeError
    | S k =>
      let e := x - y in
      let e := if below (x + 2 * e) ll then match ll with Some l => (l - x) / 2 | None => e end else e in
      let e := if above (x + 2 * e) lr then match lr with Some l => (l - x) / 2 | None => e end else e in
      d <- lift (if qeq Y X then Ok ((105 # 100) * e)
                 else let* d := divq (- X * e) (X - Y) in Ok ((105 # 100) * d));
      let x' := if qlt (eps e) (Qabs d) && qlt (Qabs d) (8 * Qabs e) && inside (x + d) ll lr
                then x + d else x + 2 * e in
      if below x' ll || above x' lr then fail RuntimeError
      else
        X' <- evalf x';
        bracket k ll lr x' X' x X y Y
    end.

(* lines 247-287: the numerator and the denominator of the step and whether it is a false
   position; m is c - x *)
Definition fit (x X y Y z Z C m e w : Q) : outcome (Q * Q * bool) :=
  if negb (qeq y z) && negb (qeq y x) && negb (qeq x z) then
    let '(p, q) := if qeq x (y + half * (z - y)) && qlt (Z * Y) (X * X)
                   then ((x - y) * copysign X (Z - Y), sqrtq (X * X - Z * Y)) else (0, 0) in
    let '(p, q) := if qeq y (x + half * (z - x)) && qlt (Z * X) (Y * Y)
                   then ((y - x) * (copysign Y (Z - X) - sqrtq (Y * Y - Z * X)), sqrtq (Y * Y - Z * X)) else (p, q) in
    let* (p, q) :=
      if qeq p 0 && qlt (Qabs m) (Qabs (X - C)) then
        let* p := divq (Z - Y) (z - y) in
        let* q := divq (Y - X) (y - x) in
        let* r := divq (p - q) (z - x) in
        let s := half * (q + (x - y) * r) in
        if qle 0 (s * s - X * r) then Ok (X, s + copysign (sqrtq (s * s - X * r)) s) else Ok (0, q)
      else Ok (p, q) in
    if qeq p 0 then
      let* s := divq X Y in
      let* q := divq Y Z in
      let* r := divq X Z in
      Ok (s * ((z - x) * q * (q - r) - (x - y) * (r - 1)), (q - 1) * (r - 1) * (s - 1), false)
    else Ok (p, q, false)
  else
    let* s := divq X Y in
    let p := (y - x) * s in
    let q := 1 - s in
    if qeq p 0 || qlt (Qabs (e * q)) (2 * Qabs p) then
      let* s := divq X (w * C) in Ok (m * s, 1 - s, true)
    else Ok (p, q, false).

Definition tolerance (x : Q) : Q := 2 * eps (qmax (Qabs x) (1 # 1000000)).

(* lines 222-312 *)
Fixpoint refine (k : nat) (x X y Y z Z c C e d : Q) (fp : bool) : ev Q :=
  if negb (qeq X 0) && negb (qeq d 0) then
    w <- lift (if fp then let* s := divq X Y in Ok (if qle (1 - s) (1 # 10) then half else 1 - s) else Ok 1);
    match k with
    | O => fail RuntimeError
    | S k =>
      let m := c - x in
      let tol := tolerance x in
      if qle (Qabs m) (2 * tol) then ret x
      else
        '(p, q, fp) <- lift (fit x X y Y z Z C m e w);
        let '(p, q) := if qlt 0 p then (p, - q) else (- p, q) in
        '(e, d, fp) <- lift
          (if negb (qeq p 0) && negb (qeq q 0) && qlt (2 * p) ((3 # 2) * m * q - Qabs (tol * q)) &&
              qlt (2 * p) (Qabs (e * q))
           then let* s := divq p q in Ok (d, s, fp) else Ok (half * m, half * m, false));
        let '(z, Z, y, Y) := (y, Y, x, X) in
        let x := x + d in
        X <- evalf x;
        '(x, X, e, d, fp) <- (if qlt (Qabs d) tol && qlt (eps C) (Qabs X) then
                                let x := y + half * m in
                                X <- evalf x; ret (x, X, half * m, half * m, false)
                              else ret (x, X, e, d, fp));
        let '(x, X, y, Y, c, C, e, d, fp) :=
          if eqb (pos X) (pos C) then
            let '(x, X, y, Y, c, C) :=
              if qlt (Qabs Y) (Qabs X) then (y, Y, x, X, x, X) else (x, X, y, Y, y, Y) in
            (x, X, y, Y, c, C, c - x, c - x, false)
          else (x, X, y, Y, c, C, e, d, fp) in
        if eqb (pos X) (pos C) then fail RuntimeError
        else refine k x X y Y z Z c C e d fp
    end
  else ret x.
Definition fzero_core (x y : Q) (ll lr : option Q) : ev Q :=
  X <- evalf x;
  Y <- evalf y;
  '(x, X, y, Y, z, Z, k) <- bracket 10 ll lr x X y Y y Y;
  refine (90 + k) x X y Y z Z y Y (x - y) (x - y) false.

(* ---- fzero, include/numerics.h lines 69-104 ---- *)
Inductive ext : Type := NaN | NInf | Fin (x : Q) | PInf.
Variable nextafter : Q -> Q -> Q.
Definition is_nan (x : ext) : bool := match x with NaN => true | _ => false end.
Definition le_ext (x y : ext) : bool :=
  match x, y with
  | NaN, _ | _, NaN => false
  | NInf, _ | _, PInf => true
  | Fin x, Fin y => qle x y
  | _, _ => false
  end.
Definition low (x : ext) : option Q := match x with Fin x => Some x | _ => None end.
(* When b is the upper limit and there is no lower one the second point is -INFINITY (line 102);
   the function is taken not to be finite there. *)
Definition fzero (b : option Q) (ll lr : ext) : ev Q :=
  let '(b, ll, lr) :=
    match b, ll with
    | Some b0, Fin l =>
      if qlt b0 l then
        match lr with
        | Fin _ => (Some l, Fin b0, lr)
        | _ => (b, Fin b0, Fin l)
        end
      else (b, ll, lr)
    | _, _ => (b, ll, lr)
    end in
  let '(ll, lr) :=
    match b, ll, lr with
    | Some b0, Fin l, Fin r =>
      if qlt l b0 && qlt b0 r then (Fin (nextafter l b0), Fin (nextafter r b0)) else (ll, lr)
    | _, _, _ => (ll, lr)
    end in
  if is_nan ll || is_nan lr then fail RuntimeError
  else if le_ext lr ll then fail RuntimeError
  else
    let b := match b with Some b => b | None => match ll with Fin l => l | _ => 0 end end in
    match lr with
    | Fin r =>
      if qeq b r then match ll with Fin l => fzero_core b l (Some l) (Some r) | _ => fail RuntimeError end
      else fzero_core b r (low ll) (Some r)
    | _ => fzero_core b (b + (if qlt (Qabs b) 1 then 5 # 100 else b / 20)) (low ll) None
    end.
End Fzero.
End Num.
