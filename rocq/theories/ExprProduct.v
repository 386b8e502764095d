(** * ExprProduct: matrix products whose operands are expressions (array/numeric.hpp, array/blas.hpp).  Definitions only. *)

From Coq Require Import ZArith List Bool.
From Verif Require Import Base Slice Expr Numeric.
Import ListNotations.
Open Scope Z_scope.

Section ExprProduct.
Context {V : Type}.
Variables (zero : V) (add mul : V -> V -> V).
Notation mem := (@mem V).
Notation expr := (@expr V).

(** [eval(operand)]: views stay views (array/ref_array.hpp:194, array/strided_ref_array.hpp:201-204), expressions are evaluated into a new
    array (array/unary_expr_array.hpp:114-118, array/binary_expr_array.hpp:123-128).  The new array is a fresh storage at the end of the memory;
    its release at the end of the statement is not modelled here (see Life). *)
Definition eval_operand (chk : bool) (m : mem) (e : expr) : outcome (mem * nat * st) :=
  match e with
  | ELeaf sid s => Ok (m, sid, s)
  | _ => let* r := eval_expr chk m e in Ok (m ++ [snd (fst r)], length m, SRef 0 (fst (fst r)))
  end.

(** [product(lhs, rhs)] (array/numeric.hpp:65-70).  The order in which the arguments are evaluated is not specified; here left to right
    (simplification: evaluation has no effect but the new arrays). *)
Definition product_exprs (chk : bool) (fuel : nat) (m : mem) (e1 e2 : expr) : outcome (list Z * list V) :=
  let* a := eval_operand chk m e1 in
  let* b := eval_operand chk (fst (fst a)) e2 in
  product zero add mul chk fuel (fst (fst b)) (snd (fst a)) (snd a) (snd (fst b)) (snd b).

(** [blas::product(alpha * lhs, rhs)] (array/blas.hpp:67-73), [lhs] an array or a contiguous view ([T*] iterators), alpha of the element type
    (no other type compiles).  The expression object of [alpha * lhs] is built (array/functional.hpp:164-170, 46-49); [lhs.first()] (array/unary_expr_array.hpp:105)
    and [lhs.dimensions()] make the contiguous view that is given to the other overload, with [lhs.op().lhs]. *)
Definition blas_product_scaled (chk : bool) (m : mem) (alpha : V) (sa : nat) (offa : Z) (ea : list Z) (sb : nat) (offb : Z) (eb : list Z) (junk : list V)
  : outcome (list Z * list V) :=
  let* r := build chk (ELeft mul alpha (ELeaf sa (SRef offa ea))) [] in
  match sbeg (fst r) with
  | XUn _ (XLeaf sid (IPtr o)) => blas_product zero add mul chk m sid o (sdim (fst r)) sb offb eb alpha junk
  | _ => UB
  end.

End ExprProduct.
