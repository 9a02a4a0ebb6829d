(* Model of src/linalg.cpp, singular values: decmp_svd (662-831), bksub_svd (833-857),
   equ_svd (865-895), inv_svd (900-926) and orth_svd (931-939).
   Doubles are elements of an ordered field; sq is sqrt and hypot(x,y) is sq(x*x+y*y).  The
   memory of rv1 and of the arrays made with new is an argument.  A sum that the code keeps
   adding to is kept in a local variable. *)
From Coq Require Import List Lia Bool Arith.
From Verif Require Import Base LinBase.
Import ListNotations.

Section Svd.
Context {K : ofield}.
Variable sq : K -> K.
Local Open Scope lin_scope.
Definition hyp (x y : K) : K := sq (x * x + y * y).
Definition sgn (x : K) : K := if fltb f0 x then - f1 else f1.
(* fabs(x) + anorm == anorm *)
Definition small (x an : K) : bool := feqb (fabs x + an) an.

(* lines 678-699: column i.  The matrix, W, rv1, scale and G; lines 681-682 sum the column *)
Definition house_col (m n i : nat) (A W rv : list K) (scale G : K) : outcome (list K * list K * list K * K * K) :=
  let* rv := aset rv i (scale * G) in
  let* scale := for_up i m (fun k s => let* x := aget A (k * n + i) in Ok (s + fabs x)) f0 in
  if feqb scale f0 then Ok (A, W, rv, scale, G)
  else
    let* (A, s) := for_up i m (fun k '(A, s) =>
      let* x := aget A (k * n + i) in
      let* y := divc x scale in
      let* A := aset A (k * n + i) y in
      Ok (A, s + y * y)) (A, f0) in
    let* a := aget A (i * n + i) in
    let G := sgn a * sq s in
    let H := a * G - s in
    let* A := aset A (i * n + i) (a - G) in
    let* A := for_up (i + 1) n (fun j A =>
      let* s := for_up i m (fun k s =>
        let* x := aget A (k * n + i) in
        let* y := aget A (k * n + j) in
        Ok (s + x * y)) f0 in
      for_up i m (fun k A =>
        let* x := aget A (k * n + i) in
        let* y := aget A (k * n + j) in
        let* q := divc (s * x) H in
        aset A (k * n + j) (y + q)) A) A in
    let* A := for_up i m (fun k A =>
      let* x := aget A (k * n + i) in
      aset A (k * n + i) (x * scale)) A in
    let* W := aset W i (scale * G) in
    Ok (A, W, rv, scale, G).
(* lines 700-722: row i *)
Definition house_row (m n i : nat) (A rv : list K) (G : K) : outcome (list K * list K * K * K) :=
  let* scale := if i <? m then for_up (i + 1) n (fun k s => let* x := aget A (i * n + k) in Ok (s + fabs x)) f0
    else Ok f0 in
  if feqb scale f0 then Ok (A, rv, scale, G)
  else
    let* (A, s) := for_up (i + 1) n (fun k '(A, s) =>
      let* x := aget A (i * n + k) in
      let* y := divc x scale in
      let* A := aset A (i * n + k) y in
      Ok (A, s + y * y)) (A, f0) in
    let* a := aget A (i * n + (i + 1)) in
    let G := sgn a * sq s in
    let H := a * G - s in
    let* A := aset A (i * n + (i + 1)) (a - G) in
    let* rv := for_up (i + 1) n (fun k rv =>
      let* x := aget A (i * n + k) in
      let* q := divc x H in
      aset rv k q) rv in
    let* A := for_up (i + 1) m (fun j A =>
      let* s := for_up (i + 1) n (fun k s =>
        let* x := aget A (j * n + k) in
        let* y := aget A (i * n + k) in
        Ok (s + x * y)) f0 in
      for_up (i + 1) n (fun k A =>
        let* x := aget A (j * n + k) in
        let* r := aget rv k in
        aset A (j * n + k) (x + s * r)) A) A in
    let* A := for_up (i + 1) n (fun k A =>
      let* x := aget A (i * n + k) in
      aset A (i * n + k) (x * scale)) A in
    Ok (A, rv, scale, G).
(* lines 678-726: one round; 723-725 keep the largest sum in anorm *)
Definition house (m n i : nat) (s : list K * list K * list K * K * K * K) : outcome (list K * list K * list K * K * K * K) :=
  let '(A, W, rv, scale, G, an) := s in
  let* (A, W, rv, scale, G) := house_col m n i A W rv scale G in
  let* (A, rv, scale, G) := house_row m n i A rv G in
  let* w := aget W i in
  let* r := aget rv i in
  let tmp := fabs w + fabs r in
  Ok (A, W, rv, scale, G, if fltb an tmp then tmp else an).

(* lines 728-741: one round of the right-hand transformations; i runs from n down to 1 *)
Definition acc_right (n : nat) (A rv : list K) (i : nat) (V : list K) : outcome (list K) :=
  let* g := aget rv i in
  let* V := if feqb g f0 then Ok V
    else
      let* V := for_up i n (fun j V =>
        let* x := aget A ((i - 1) * n + j) in
        let* y := aget A ((i - 1) * n + i) in
        let* q := divc x y in
        let* q := divc q g in
        aset V (j * n + (i - 1)) q) V in
      for_up i n (fun j V =>
        let* s := for_up i n (fun k s =>
          let* x := aget A ((i - 1) * n + k) in
          let* y := aget V (k * n + j) in
          Ok (s + x * y)) f0 in
        for_up i n (fun k V =>
          let* x := aget V (k * n + j) in
          let* y := aget V (k * n + (i - 1)) in
          aset V (k * n + j) (x + s * y)) V) V in
  let* V := for_up i n (fun j V =>
    let* V := aset V (j * n + (i - 1)) f0 in
    aset V ((i - 1) * n + j) f0) V in
  aset V ((i - 1) * n + (i - 1)) f1.
(* lines 743-762: one round of the left-hand transformations *)
Definition acc_left (m n : nat) (W : list K) (i : nat) (A : list K) : outcome (list K) :=
  let* A := for_up i n (fun j A => aset A ((i - 1) * n + j) f0) A in
  let* w := aget W (i - 1) in
  let* A :=
    if feqb w f0 then for_up (i - 1) m (fun j A => aset A (j * n + (i - 1)) f0) A
    else
      let* A := for_up i n (fun j A =>
        let* s := for_up i m (fun k s =>
          let* x := aget A (k * n + (i - 1)) in
          let* y := aget A (k * n + j) in
          Ok (s + x * y)) f0 in
        let* a := aget A ((i - 1) * n + (i - 1)) in
        let* q := divc s a in
        let* f := divc q w in
        for_up (i - 1) m (fun k A =>
          let* x := aget A (k * n + j) in
          let* y := aget A (k * n + (i - 1)) in
          aset A (k * n + j) (x + f * y)) A) A in
      for_up (i - 1) m (fun j A =>
        let* x := aget A (j * n + (i - 1)) in
        let* q := divc x w in
        aset A (j * n + (i - 1)) q) A in
  let* x := aget A ((i - 1) * n + (i - 1)) in
  aset A ((i - 1) * n + (i - 1)) (x + f1).

(* lines 769-776: q and the flag; q - 1 is far out of bounds for q = 0 *)
Fixpoint split (an : K) (W rv : list K) (q : nat) : outcome (nat * bool) :=
  match q with
  | O => Ok (0%nat, true)
  | S q =>
    let* r := aget rv q in
    if small r an then Ok (q, false)
    else
      match q with
      | O => UB OutOfBounds
      | S p => let* w := aget W p in if small w an then Ok (q, true) else split an W rv q
      end
  end.
(* columns c and d of all rows: lines 785-789, 813-817 and 822-826 *)
Definition rotate (rows n c d : nat) (C s : K) (A : list K) : outcome (list K) :=
  for_up 0 rows (fun k A =>
    let* x := aget A (k * n + c) in
    let* y := aget A (k * n + d) in
    let* A := aset A (k * n + c) (y * s + x * C) in
    aset A (k * n + d) (y * C - x * s)) A.
(* lines 778-791 *)
Definition cancel (m n q i : nat) (an : K) (W rv A : list K) : outcome (list K * list K) :=
  let* (W, A, _) := for_up q (i + 1) (fun k '(W, A, s) =>
    let* r := aget rv k in
    let F := s * r in
    if small F an then Ok (W, A, s)
    else
      let* G := aget W k in
      let w := hyp F G in
      let* W := aset W k w in
      let* C := divc G w in
      let* s := divc (- F) w in
      let* A := rotate m n (q - 1) k C s A in
      Ok (W, A, s)) (W, A, f1) in
  Ok (W, A).
(* lines 808-827: one step of the QR transformation.  C, s, F, X and the arrays *)
Definition qr_step (m n j : nat) (st : K * K * K * K * list K * list K * list K * list K)
  : outcome (K * K * K * K * list K * list K * list K * list K) :=
  let '(C, s, F, X, W, rv, A, V) := st in
  let* r := aget rv (j + 1) in
  let H := s * r in
  let G := C * r in
  let z := hyp F H in
  let* rv := aset rv j z in
  let* C := divc F z in
  let* s := divc H z in
  let F := G * s + X * C in
  let G := G * C - X * s in
  let* w := aget W (j + 1) in
  let H := w * s in
  let Y := w * C in
  let* V := rotate n n j (j + 1) C s V in
  let z := hyp F H in
  let* W := aset W j z in
  let* (C, s) := if feqb z f0 then Ok (C, s)
    else let* C := divc F z in let* s := divc H z in Ok (C, s) in
  let F := s * Y + C * G in
  let X := C * Y - s * G in
  let* A := rotate m n j (j + 1) C s A in
  Ok (C, s, F, X, W, rv, A, V).
(* lines 800-830 *)
Definition sweep (m n q i : nat) (W rv A V : list K) : outcome (list K * list K * list K * list K) :=
  let* w1 := aget W (i - 1) in
  let* wi := aget W i in
  let* r1 := aget rv (i - 1) in
  let* ri := aget rv i in
  let* F := divc ((w1 - wi) * (w1 + wi) + (r1 - ri) * (r1 + ri)) ((f1 + f1) * ri * w1) in
  let G := (if fltb F f0 then - f1 else f1) * hyp F f1 in
  let* wq := aget W q in
  let* t := divc w1 (F + G) in
  let* F := divc ((wq - wi) * (wq + wi) + ri * (t - ri)) wq in
  let* (_, _, F, X, W, rv, A, V) := for_up q i (qr_step m n) (f1, f1, F, wq, W, rv, A, V) in
  let* rv := aset rv q f0 in
  let* rv := aset rv i F in
  let* W := aset W i X in
  Ok (W, rv, A, V).
(* lines 767-831: at most 30 rounds for one singular value; the last result is whether the
   loop was left by break *)
Fixpoint svd_iter (m n i : nat) (an : K) (rounds : nat) (W rv A V : list K)
  : outcome (list K * list K * list K * list K * bool) :=
  match rounds with
  | O => Ok (W, rv, A, V, false)
  | S rounds =>
    let* (q, flag) := split an W rv (i + 1) in
    let* (W, A) := if flag : bool then cancel m n q i an W rv A else Ok (W, A) in
    if q =? i then
      let* w := aget W i in
      if fltb w f0 then
        let* W := aset W i (w * - f1) in
        let* V := for_up 0 n (fun j V => let* x := aget V (j * n + i) in aset V (j * n + i) (x * - f1)) V in
        Ok (W, rv, A, V, true)
      else Ok (W, rv, A, V, true)
    else
      let* (W, rv, A, V) := sweep m n q i W rv A V in
      svd_iter m n i an rounds W rv A V
  end.
(* lines 764-831: i from n - 1 down to 0.  The bool is whether all loops were left by break *)
Definition diagonalise (m n : nat) (an : K) (W rv A V : list K) : outcome (list K * list K * list K * list K * bool) :=
  for_down n 0 (fun i '(W, rv, A, V, ok) =>
    let* (W, rv, A, V, c) := svd_iter m n (i - 1) an 30 W rv A V in
    Ok (W, rv, A, V, ok && c)) (W, rv, A, V, true).
(* lines 662-833.  The results are U (which replaces A), W, V and the bool.  new double[n] is rv *)
Definition decmp_svd (m n : nat) (rv A W V : list K) : outcome (list K * list K * list K * bool) :=
  if (m =? 0) || (n =? 0) then Ok (A, W, V, true)
  else
    let* (A, W, rv, _, _, an) := for_up 0 n (house m n) (A, W, rv, f0, f0, f0) in
    let* V := for_down n 0 (fun i V => acc_right n A rv i V) V in
    let* A := for_down (Nat.min m n) 0 (fun i A => acc_left m n W i A) A in
    let* (W, rv, A, V, ok) := diagonalise m n an W rv A V in
    Ok (A, W, V, ok).

(* lines 835-857 *)
Definition bksub_svd (m n : nat) (U W V b tmp : list K) (p c : nat) : outcome (list K) :=
  if (m =? 0) || (n =? 0) then Ok b
  else
    let* tmp := for_up 0 n (fun j tmp =>
      let* w := aget W j in
      if feqb w f0 then aset tmp j f0
      else
        let* s := for_up 0 m (fun i s =>
          let* x := aget U (i * n + j) in
          let* y := aget b (i * p + c) in
          Ok (s + x * y)) f0 in
        let* q := divc s w in
        aset tmp j q) tmp in
    for_up 0 n (fun j b =>
      let* s := for_up 0 n (fun i s =>
        let* x := aget V (j * n + i) in
        let* y := aget tmp i in
        Ok (s + x * y)) f0 in
      aset b (j * p + c) s) b.
(* lines 880-886 and 912-918: singular values below tol times the largest are set to zero *)
Definition clip (tol : K) (n : nat) (W : list K) : outcome (list K) :=
  let* max := for_up 0 n (fun i max => let* w := aget W i in Ok (if fltb max w then w else max)) f0 in
  for_up 0 n (fun i W => let* w := aget W i in if fltb w (max * tol) then aset W i f0 else Ok W) W.
(* lines 865-895; rv, W, V, tmp, tmp' and r are the new arrays *)
Definition equ_svd (tol : K) (n : nat) (rv W V tmp tmp' r : list K) (A b : list K) : outcome (list K) :=
  if n =? 0 then Ok []
  else
    let* (U, W, V, _) := decmp_svd n n rv A W V in
    let* W := clip tol n W in
    let* x := bksub_svd n n U W V b tmp 1 0 in
    let* r := for_up 0 n (fun i r =>
      let* y := aget b i in
      let* s := for_up 0 n (fun j s =>
        let* a := aget A (i * n + j) in
        let* z := aget x j in
        Ok (s + a * z)) (- y) in
      aset r i s) r in
    let* r := bksub_svd n n U W V r tmp' 1 0 in
    for_up 0 n (fun i x =>
      let* z := aget x i in
      let* y := aget r i in
      aset x i (z - y)) x.
(* lines 900-926 *)
Definition inv_svd (tol : K) (n : nat) (rv W V : list K) (A : list K) : outcome (list K) :=
  if n =? 0 then Ok A
  else
    let* (U, W, V, _) := decmp_svd n n rv A W V in
    let* W := clip tol n W in
    for_up 0 n (fun i A => for_up 0 n (fun j A =>
      let* s := for_up 0 n (fun k s =>
        let* w := aget W k in
        if feqb w f0 then Ok s
        else
          let* x := aget V (i * n + k) in
          let* y := aget U (j * n + k) in
          let* q := divc (x * y) w in
          Ok (s + q)) f0 in
      aset A (i * n + j) s) A) A.
(* lines 931-939 *)
Definition orth_svd (n : nat) (rv W V : list K) (Q : list K) : outcome (list K) :=
  if n =? 0 then Ok Q else let* (U, _, _, _) := decmp_svd n n rv Q W V in Ok U.
End Svd.
