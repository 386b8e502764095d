(** * Numeric: model of seq, matrix products, concatenation, flattening and reshaping.  Definitions only. *)

From Coq Require Import ZArith List Bool.
From Verif Require Import Base Desc Slice Expr.
Import ListNotations.
Open Scope Z_scope.

(** Signed 64-bit result: overflow is undefined. *)
Definition sres (x : Z) : outcome Z := if (- 2 ^ 63 <=? x) && (x <? 2 ^ 63) then Ok x else UB.

(** [std::vector<index_t>::max_size()] of the usual standard libraries: PTRDIFF_MAX / sizeof(index_t). *)
Definition vec_max : Z := 2 ^ 60 - 1.

(** The loop [for (auto i = start; indexes.size() < size; i += step)] (array/numeric.hpp:35-36). *)
Fixpoint seq_loop (n : nat) (i step : Z) : list Z :=
  match n with O => [] | S n' => i :: seq_loop n' (w64 (i + w64 step)) step end.

(** [seq(start, stop, step)] (array/numeric.hpp:24-39); [reserve] throws std::length_error above max_size (failing allocations
    are not modelled here).  Dividing by zero and PTRDIFF_MIN / -1 are undefined. *)
Definition seq_model (chk : bool) (start stop step : Z) : outcome (list Z) :=
  let* _ := dassert chk (negb (step =? 0)) in
  let* _ := dassert chk ((start <=? stop) || (step <? 0)) in
  let* _ := dassert chk ((stop <=? start) || (0 <? step)) in
  let* diff := sres (s64 stop - s64 start) in
  if step =? 0 then UB else
  let* q := sres (Z.quot diff step) in
  let* n := sres (q + 1) in
  let size := w64 n in
  if vec_max <? size then Throw LogicError
  else Ok (seq_loop (Z.to_nat size) start step).

(** [safe_int_cast] (array/blas.hpp:36-41); the conversion to [int] wraps (implementation defined before C++20). *)
Definition safe_int_cast (chk : bool) (v : Z) : outcome Z :=
  let* _ := dassert chk (v <=? 2 ^ 31 - 1) in Ok (s32 v).

Section Numeric.
Context {V : Type}.
Variables (zero : V) (add mul : V -> V -> V).
Notation mem := (@mem V).

(** [sum(rng)]: [for (; first != last; ++first) start += *first;] (base/numeric.hpp:214-228). *)
Fixpoint sum_loop (fuel : nat) (h : @heap V) (m : mem) (x xe : xit) (start : V) : outcome V :=
  match fuel with
  | O => Timeout
  | S f =>
      if xeqb x xe then Ok start
      else
        let* r := xderef h m x in
        let* x' := xnext x in
        sum_loop f h m x' xe (add start (fst r))
  end.

(** [sum(lhs[i][every] * drop(rhs[every][j]))] (array/numeric.hpp:59). *)
Definition product_elem (chk : bool) (fuel : nat) (m : mem) (sa : nat) (a : st) (sb : nat) (b : st) (i j : Z) : outcome V :=
  let* r := run chk fuel a [UIdx i; UEvery] in
  let* c0 := run chk fuel b [UEvery; UIdx j] in
  let* c := drop_to chk 1 c0 in
  let* q := build chk (EBin mul (ELeaf sa r) (ELeaf sb c)) [] in
  sum_loop fuel (snd q) m (sbeg (fst q)) (send (fst q)) zero.

(** The loops [for j in indices(p)] [for i in indices(m)] pushing into the builder (array/numeric.hpp:57-59):
    the values pushed, in order.  (The storage of the builder is modelled in Life.) *)
Definition product_loop (chk : bool) (fuel : nat) (m : mem) (sa : nat) (a : st) (sb : nat) (b : st) (rows cols : Z) : outcome (list V) :=
  let* cs := mapO (fun j => mapO (fun i => product_elem chk fuel m sa a sb b i j) (map Z.of_nat (seq 0 (Z.to_nat rows))))
                  (map Z.of_nat (seq 0 (Z.to_nat cols))) in
  Ok (concat cs).

(** [product(lhs, rhs)] (array/numeric.hpp:43-63, 65-70): extents and elements of the result. *)
Definition product (chk : bool) (fuel : nat) (m : mem) (sa : nat) (a : st) (sb : nat) (b : st) : outcome (list Z * list V) :=
  match dims a, dims b with
  | Some [r; c], Some [r'; c'] =>
      let* _ := dassert chk ((0 <? prod_arr [r; c]) && (0 <? prod_arr [r'; c'])) in
      let* _ := dassert chk (c =? r') in
      let* vs := product_loop chk fuel m sa a sb b r c' in
      Ok ([r; c'], vs)
  | _, _ => UB
  end.

(** Column-major GEMM without transposition and with beta = 0: C := alpha*A*B (C is not read).  The reference implementation
    adds the products in the order of the inner dimension for every element; here the loop over the inner
    dimension is innermost (simplification: the same additions per element, in the same order).
    [a], [b], [c]: storage and position of the first element. *)
Definition gemm_elem (m : mem) (k : Z) (alpha : V) (a : nat * Z) (lda : Z) (b : nat * Z) (ldb : Z) (i j : Z) : outcome V :=
  foldO (fun acc l =>
           let* y := load m (fst b) (snd b + l + j * ldb) in
           let* x := load m (fst a) (snd a + i + l * lda) in
           Ok (add acc (mul (mul alpha y) x)))
        (map Z.of_nat (seq 0 (Z.to_nat k))) zero.
Definition gemm (m : mem) (M N K : Z) (alpha : V) (a : nat * Z) (lda : Z) (b : nat * Z) (ldb : Z) (c : nat * Z) (ldc : Z) : outcome mem :=
  (* illegal arguments: the reference implementation calls XERBLA *)
  if (M <? 0) || (N <? 0) || (K <? 0) || (lda <? Z.max 1 M) || (ldb <? Z.max 1 K) || (ldc <? Z.max 1 M) then UB
  else
    foldO (fun m' j => foldO (fun m'' i =>
             let* v := gemm_elem m'' K alpha a lda b ldb i j in
             store m'' (fst c) (snd c + i + j * ldc) v)
           (map Z.of_nat (seq 0 (Z.to_nat M))) m')
          (map Z.of_nat (seq 0 (Z.to_nat N))) m.

(** [blas::product(ref_array, ref_array, alpha)] (array/blas.hpp:43-65).  [junk]: the uninitialised storage of the result. *)
Definition blas_product (chk : bool) (m : mem) (sa : nat) (offa : Z) (ea : list Z) (sb : nat) (offb : Z) (eb : list Z) (alpha : V) (junk : list V)
  : outcome (list Z * list V) :=
  match ea, eb with
  | [r; c], [r'; c'] =>
      let* _ := dassert chk ((0 <? prod_arr ea) && (0 <? prod_arr eb)) in
      let* _ := dassert chk (c =? r') in
      let m1 := m ++ [junk] in
      let* k := safe_int_cast chk c in
      let* rr := safe_int_cast chk r in
      let* rc := safe_int_cast chk c' in
      let* lr := safe_int_cast chk r in
      let* rhr := safe_int_cast chk r' in
      let* m2 := gemm m1 rr rc k alpha (sa, offa) lr (sb, offb) rhr (length m, 0) rr in
      match nth_error m2 (length m) with
      | Some vs => Ok ([r; c'], vs)
      | None => UB
      end
  | _, _ => UB
  end.

(** *** concatenation (array/numeric.hpp:100-151) *)
Inductive cat_arg : Type := CVal (v : V) | CRng (vs : list V).
(** [cat_size] (l.112-123) *)
Definition cat_size (a : cat_arg) : Z := match a with CVal _ => 1 | CRng vs => Z.of_nat (length vs) end.
(** [builder.push_back] (array/builder.hpp:49-61): [count] elements are already there, room for [size]. *)
Definition cat_push1 (chk : bool) (size : Z) (acc : list V) (v : V) : outcome (list V) :=
  let* _ := dassert chk (negb (Z.of_nat (length acc) =? size)) in
  if Z.of_nat (length acc) <? size then Ok (acc ++ [v]) else UB.
(** [cat_push] (l.125-137); [conv]: conversion to the common type. *)
Definition cat_push (conv : V -> V) (chk : bool) (size : Z) (acc : list V) (a : cat_arg) : outcome (list V) :=
  match a with
  | CVal v => cat_push1 chk size acc (conv v)
  | CRng vs => foldO (fun acc v => cat_push1 chk size acc (conv v)) vs acc
  end.
(** [cat] (l.141-151) and the array constructor adopting the builder (array/array.hpp:268, array/builder.hpp:72-77). *)
Definition cat (conv : V -> V) (chk : bool) (args : list cat_arg) : outcome (list Z * list V) :=
  let size := fold_left (fun s a => w64 (s + cat_size a)) args 0 in
  let* vs := foldO (cat_push conv chk size) args [] in
  let* _ := dassert chk (Z.of_nat (length vs) =? size) in
  Ok ([size], vs).

(** [ranges::distance(begin, end)] counts the increments. *)
Fixpoint xdist (fuel : nat) (x xe : xit) : outcome Z :=
  match fuel with
  | O => Timeout
  | S f => if xeqb x xe then Ok 0 else let* x' := xnext x in let* n := xdist f x' xe in Ok (n + 1)
  end.
(** [to_vector(array)], [as_vector(array)]: [array(begin, end)] (array/numeric.hpp:72-76, 86-90; array/array.hpp:250-265). *)
Definition as_vector (conv : V -> V) (chk : bool) (fuel : nat) (m : mem) (e : @expr V) : outcome (list Z * list V) :=
  let* r := build chk e [] in
  let* n := xdist fuel (sbeg (fst r)) (send (fst r)) in
  let* q := copy_n (Z.to_nat n) (snd r) m (sbeg (fst r)) in
  Ok ([n], map conv (fst q)).

End Numeric.

(** [flatten(ref_array)] (array/ref_array.hpp:207-210). *)
Definition flatten (s : st) : outcome st :=
  match s with SRef off es => Ok (SRef off [prod_arr es]) | _ => UB end.
(** [reshape_to(ref_array, descriptor)], [reshape], [reshape_as] (array/ref_array.hpp:212-217, array/reshape.hpp:33-43). *)
Definition reshape_ref (chk : bool) (s : st) (es' : list Z) : outcome st :=
  match s with
  | SRef off es => let* _ := dassert chk (prod_arr es =? prod_arr es') in Ok (SRef off es')
  | _ => UB
  end.
