(* What matrix expressions mean, without reference to how they are evaluated. *)
From Coq Require Import List Lia Bool Arith.
From Verif Require Import Base LinBase MatrixModel.
Import ListNotations.

Section Spec.
Context {K : ofield}.
Local Open Scope lin_scope.
Notation fn := (nat -> nat -> K).

(* the expression e is an M x N matrix with the elements A.  Rows, columns and inner
   dimensions are not zero (C++ has no arrays without elements), nothing is divided by zero,
   and only a matrix is divided by a number (the operator for expressions does not compile). *)
Inductive means : expr -> nat -> nat -> fn -> Prop :=
| m_mat M N l A : 0 < M -> 0 < N -> mat M N l A -> means (Mat M N l) M N A
| m_trans e M N A : means e M N A -> means (Trans e) N M (fun i j => A j i)
| m_neg e M N A : means e M N A -> means (Neg e) M N (fun i j => - A i j)
| m_addd e d M N A : means e M N A -> means (AddD e d) M N (fun i j => A i j + d)
| m_subd e d M N A : means e M N A -> means (SubD e d) M N (fun i j => d - A i j)
| m_muld e d M N A : means e M N A -> means (MulD e d) M N (fun i j => d * A i j)
| m_divd l d M N A : d <> f0 -> means (Mat M N l) M N A -> means (DivD (Mat M N l) d) M N (fun i j => A i j / d)
| m_ddiv e d M N A : (forall i j, i < M -> j < N -> A i j <> f0) -> means e M N A ->
    means (DDiv e d) M N (fun i j => d / A i j)
| m_add e1 e2 M N A B : means e1 M N A -> means e2 M N B -> means (Add e1 e2) M N (fun i j => A i j + B i j)
| m_sub e1 e2 M N A B : means e1 M N A -> means e2 M N B -> means (Sub e1 e2) M N (fun i j => A i j - B i j)
| m_prod e1 e2 M L N A B : means e1 M L A -> means e2 L N B ->
    means (Prod e1 e2) M N (fun i j => sumr 0 L (fun k => A i k * B k j))
| m_diag e N A : means e N N A -> means (Diag e) N 1 (fun i _ => A i i).

(* the storage s is the m x n matrix A, by the meaning of its operators *)
Inductive smeans : store -> nat -> nat -> fn -> Prop :=
| s_dense m n l A : mat m n l A -> smeans (SDense {| dm := m; dn := n; dd := l |}) m n A
| s_zero m n : smeans (SZero m n) m n (fun _ _ => f0)
| s_eye n : smeans (SEye n) n n (fun i j => if i =? j then f1 else f0)
| s_ref s o m n A : smeans s m n A -> smeans (SOp Oref (Some s) o) m n A
| s_unref s o m n A : smeans s m n A -> smeans (SOp Ounref (Some s) o) m n A
| s_neg s o m n A : smeans s m n A -> smeans (SOp Oneg (Some s) o) m n (fun i j => - A i j)
| s_trans s o m n A : smeans s m n A -> smeans (SOp Otrans (Some s) o) n m (fun i j => A j i)
| s_add s t m n A B : smeans s m n A -> smeans t m n B -> smeans (SOp Oadd (Some s) (Some t)) m n (fun i j => A i j + B i j)
| s_sub s t m n A B : smeans s m n A -> smeans t m n B -> smeans (SOp Osub (Some s) (Some t)) m n (fun i j => A i j - B i j)
| s_mul s t m k n A B : smeans s m k A -> smeans t k n B ->
    smeans (SOp Omul (Some s) (Some t)) m n (fun i j => sumr 0 k (fun p => A i p * B p j)).
(* made with the operators of class matrix: !, ~ and - *)
Fixpoint plain (s : @store K) : Prop :=
  match s with
  | SOp (Oref | Ounref | Oneg | Otrans) (Some s) _ => plain s
  | SOp _ _ _ => False
  | _ => True
  end.
(* not more than references to a matrix that is not an operator *)
Fixpoint held (s : @store K) : Prop :=
  match s with
  | SOp (Oref | Ounref) (Some s) _ => held s
  | SOp _ _ _ => False
  | _ => True
  end.
End Spec.
