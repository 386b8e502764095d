(** * PropNumeric: properties C23-C25, C42 (sequences, matrix products, concatenation and flattening, BLAS sizes).
    Only statements, closed by lemmas proved elsewhere; examples show that the hypotheses are met. *)

From Coq Require Import ZArith List Bool Lia.
From Verif Require Import Base Spec Desc Slice SliceSpec Life LifeSpec Expr ExprSpec Numeric NumericSpec PropView NumericProofs.
Import ListNotations.
Open Scope Z_scope.

(** ** C23 *)
(** The stop value can be approached and both ends are below 2^63 or both above: exactly the progression, in order. *)
Theorem seq_contents_partial : forall chk start stop step, 0 <= start < W -> 0 <= stop < W -> (start < 2 ^ 63 <-> stop < 2 ^ 63) ->
  - 2 ^ 63 < step < 2 ^ 63 -> reachable_stop start stop step -> Z.abs (stop - start) / Z.abs step < vec_max ->
  exists l, seq_model chk start stop step = Ok l /\
    l = map (fun k => start + k * step) (iota (Z.of_nat (length l))) /\
    NoDup l /\ (forall v, In v l <-> in_progression start stop step v) /\ (In stop l <-> Z.divide step (stop - start)).
Proof. exact seq_spec. Qed.
Print Assumptions seq_contents_partial.

Theorem seq_rejects_unreachable : forall start stop step, ~ reachable_stop start stop step -> seq_model true start stop step = Abort.
Proof. exact seq_unreachable. Qed.
Print Assumptions seq_rejects_unreachable.

Theorem seq_too_long_throws : forall chk start stop step, 0 <= start < W -> 0 <= stop < W -> (start < 2 ^ 63 <-> stop < 2 ^ 63) ->
  - 2 ^ 63 < step < 2 ^ 63 -> reachable_stop start stop step -> vec_max <= Z.abs (stop - start) / Z.abs step < 2 ^ 63 - 1 ->
  seq_model chk start stop step = Throw LogicError.
Proof. exact seq_too_long. Qed.
Print Assumptions seq_too_long_throws.

Example seq_ex : reachable_stop 10 2 (-3) /\ seq_model true 10 2 (-3) = Ok [10; 7; 4] /\ seq_model true 1 9 4 = Ok [1; 5; 9] /\
  ~ reachable_stop 3 5 (-1) /\ ~ reachable_stop 3 5 0 /\ reachable_stop 0 (2 ^ 62) 1.
Proof. unfold reachable_stop. repeat split; try reflexivity; try lia. Qed.

(** The number of elements is computed as a signed difference: across 2^63 the vector can be empty although it should contain at
    least the start, or a std::length_error is thrown, and the progression 0, 1, ..., 2^63-1 overflows. *)
Theorem seq_across_sign_refuted : exists start stop step, 0 <= start < W /\ 0 <= stop < W /\ reachable_stop start stop step /\
  in_progression start stop step start /\ seq_model true start stop step = Ok [].
Proof.
  exists (2 ^ 61), (2 ^ 63 + 2 ^ 62), (2 ^ 62). split; [unfold W; lia|]. split; [unfold W; lia|]. split; [left; lia|]. split; [|reflexivity].
  exists 0. lia.
Qed.
Print Assumptions seq_across_sign_refuted.
Theorem seq_across_sign_throws_refuted : exists start stop step, 0 <= start < W /\ 0 <= stop < W /\ reachable_stop start stop step /\
  Z.abs (stop - start) / Z.abs step < 3 /\ seq_model true start stop step = Throw LogicError.
Proof. exists 0, (2 ^ 63), (2 ^ 62). repeat split; try (unfold W; lia). left. lia. Qed.
Print Assumptions seq_across_sign_throws_refuted.
Theorem seq_longest_refuted : exists start stop step, 0 <= start < W /\ 0 <= stop < W /\ reachable_stop start stop step /\ seq_model true start stop step = UB.
Proof. exists 0, (2 ^ 63 - 1), 1. repeat split; try (unfold W; lia). left. lia. Qed.
Print Assumptions seq_longest_refuted.

(** ** C24 *)
(** Operands: any views of owning arrays reached by valid subscripts; the right one without index ranges (for those
    [drop] does not exist).  Additions in the order of the inner index: no algebraic law is needed. *)
Theorem matrix_product_of_views : forall (V : Type) (zero : V) add mul chk (m : @mem V) sa ca esa stepsa sb cb esb stepsb r k p,
  good_shape esa -> ok_steps (afull esa) stepsa -> good_shape esb -> ok_steps (afull esb) stepsb -> forallb (forallb no_range) stepsb = true ->
  nth_error m sa = Some ca -> Z.of_nat (length ca) = zprod esa -> nth_error m sb = Some cb -> Z.of_nat (length cb) = zprod esb ->
  fst (aselects (afull esa) stepsa) = [r; k] -> fst (aselects (afull esb) stepsb) = [k; p] ->
  exists fuel0, forall fuel, (fuel0 <= fuel)%nat -> exists a b vs,
    foldO (run chk fuel) stepsa (SRef 0 esa) = Ok a /\ foldO (run chk fuel) stepsb (SRef 0 esb) = Ok b /\
    product zero add mul chk fuel m sa a sb b = Ok ([r; p], vs) /\
    lists_matrix vs r p (fun i j => dot_sum zero add mul (fun l => entry zero ca (aselects (afull esa) stepsa) i l)
                                                         (fun l => entry zero cb (aselects (afull esb) stepsb) l j) k).
Proof. exact @product_histories. Qed.
Print Assumptions matrix_product_of_views.

(** The GEMM call reads and writes only inside the three matrices (anything else would be [UB] in the model) and, when
    multiplication commutes and [one] is neutral, gives the same matrix as the generic product.  [junk]: the uninitialised result. *)
Theorem blas_same_as_product : forall (V : Type) (zero : V) add mul chk fuel (m : @mem V) one sa oa sb ob r k p ca cb junk,
  (forall x y, mul x y = mul y x) -> (forall x, mul one x = x) ->
  0 < r <= 2 ^ 31 - 1 -> 0 < k <= 2 ^ 31 - 1 -> 0 < p <= 2 ^ 31 - 1 -> 0 <= oa -> 0 <= ob ->
  nth_error m sa = Some ca -> oa + r * k <= Z.of_nat (length ca) -> nth_error m sb = Some cb -> ob + k * p <= Z.of_nat (length cb) ->
  (Z.to_nat (r * k) < fuel)%nat -> (Z.to_nat (k * p) < fuel)%nat -> Z.of_nat (length junk) = r * p ->
  exists vs, blas_product zero add mul chk m sa oa [r; k] sb ob [k; p] one junk = Ok ([r; p], vs) /\
    product zero add mul chk fuel m sa (SRef oa [r; k]) sb (SRef ob [k; p]) = Ok ([r; p], vs) /\
    lists_matrix vs r p (fun i j => dot_sum zero add mul (fun l => nth (Z.to_nat (oa + i + r * l)) ca zero) (fun l => nth (Z.to_nat (ob + l + k * j)) cb zero) k).
Proof. exact @blas_agrees. Qed.
Print Assumptions blas_same_as_product.

Theorem blas_product_any_alpha : forall (V : Type) (zero : V) add mul chk (m : @mem V) sa oa sb ob r k p alpha A B junk,
  0 < r <= 2 ^ 31 - 1 -> 0 < k <= 2 ^ 31 - 1 -> 0 < p <= 2 ^ 31 - 1 -> 0 <= oa -> 0 <= ob ->
  (forall i l, 0 <= i < r -> 0 <= l < k -> cell m sa (oa + i + r * l) = Some (A i l)) ->
  (forall l j, 0 <= l < k -> 0 <= j < p -> cell m sb (ob + l + k * j) = Some (B l j)) ->
  Z.of_nat (length junk) = r * p ->
  exists vs, blas_product zero add mul chk m sa oa [r; k] sb ob [k; p] alpha junk = Ok ([r; p], vs) /\
    lists_matrix vs r p (fun i j => dot_sum zero add mul (fun l => mul alpha (B l j)) (fun l => A i l) k).
Proof. exact @blas_product_spec. Qed.
Print Assumptions blas_product_any_alpha.

Theorem product_sizes_checked : forall (V : Type) (zero : V) add mul fuel (m : @mem V) sa a sb b r k k' p, dims a = Some [r; k] -> dims b = Some [k'; p] ->
  good_shape [r; k] -> good_shape [k'; p] -> k <> k' -> product zero add mul true fuel m sa a sb b = Abort.
Proof. exact @product_mismatch. Qed.
Print Assumptions product_sizes_checked.

Definition ex_pm : @mem Z := [[1; 2; 3; 4; 5; 6; 7; 8]; [1; 0; 2; 1; 3; 1]].
(** rows 0 and 2 of a 4 x 2 matrix times a 2 x 3 matrix, and the fast path on the whole 4 x 2 matrix. *)
Example product_ex : ok_steps (afull [4; 2]) [[UStrided 0 2 2; UEvery]] /\ fst (aselects (afull [4; 2]) [[UStrided 0 2 2; UEvery]]) = [2; 2] /\
 (let* a := foldO (run true 100) [[UStrided 0 2 2; UEvery]] (SRef 0 [4; 2]) in product 0 Z.add Z.mul true 100 ex_pm 0 a 1 (SRef 0 [2; 3]))
  = Ok ([2; 3], [1; 3; 7; 13; 8; 16]) /\ blas_product 0 Z.add Z.mul true ex_pm 0 0 [4; 2] 1 0 [2; 3] 1 (repeat 99 12) = Ok ([4; 3], [1; 2; 3; 4; 7; 10; 13; 16; 8; 12; 16; 20]) /\
 blas_product 0 Z.add Z.mul true ex_pm 0 2 [3; 2] 1 2 [2; 2] 5 (repeat 99 6) = Ok ([3; 2], [60; 75; 90; 75; 95; 115]) /\
 product 0 Z.add Z.mul true 100 ex_pm 0 (SRef 0 [4; 2]) 1 (SRef 0 [3; 2]) = Abort.
Proof. split; [ok_tac|]. repeat split; try reflexivity. Qed.

(** ** C25 *)
Theorem cat_concatenates : forall (V : Type) (conv : V -> V) chk args, Z.of_nat (length (concat (map cat_elems args))) < W ->
  cat conv chk args = Ok ([Z.of_nat (length (concat (map cat_elems args)))], map conv (concat (map cat_elems args))).
Proof. exact @cat_spec. Qed.
Print Assumptions cat_concatenates.

(** [to_vector] / [as_vector] of an array, a view or an expression: its elements in column-major order ([value m e k] is
    the k-th element in that order, see C19-C21). *)
Theorem as_vector_elements : forall (V : Type) (conv : V -> V) chk fuel fu (m : @mem V) (e : @expr V) es,
  expr_ok fuel m e es -> (Z.to_nat (zprod es) < fu)%nat ->
  exists vs, as_vector conv chk fu m e = Ok ([zprod es], vs) /\ Z.of_nat (length vs) = zprod es /\
   (forall k, (k < length vs)%nat -> nth_error vs k = lift1 conv (value fuel m e k)).
Proof. exact @as_vector_spec. Qed.
Print Assumptions as_vector_elements.

Theorem flatten_keeps_elements : forall fuel off es ps, all_nonneg es -> zprod es < W -> positions fuel (SRef off es) = Ok ps ->
  flatten (SRef off es) = Ok (SRef off [zprod es]) /\ positions fuel (SRef off [zprod es]) = Ok ps.
Proof. exact flatten_spec. Qed.
Print Assumptions flatten_keeps_elements.

Theorem reshape_keeps_elements : forall chk fuel off es es' ps, zprod es' = zprod es -> all_nonneg es -> all_nonneg es' -> zprod es < W ->
  positions fuel (SRef off es) = Ok ps ->
  reshape_ref chk (SRef off es) es' = Ok (SRef off es') /\ positions fuel (SRef off es') = Ok ps.
Proof. exact reshape_ref_spec. Qed.
Print Assumptions reshape_keeps_elements.

Theorem reshape_size_checked : forall off es es', all_nonneg es -> all_nonneg es' -> zprod es < W -> zprod es' < W -> zprod es <> zprod es' ->
  reshape_ref true (SRef off es) es' = Abort.
Proof. exact reshape_ref_mismatch. Qed.
Print Assumptions reshape_size_checked.

(** [reshape_to] of an owning array moves the storage: the result holds the same elements in the same (column-major) order,
    nothing is allocated, copied or released, and the source becomes empty-handed. *)
Theorem reshape_owning_keeps_elements : forall V thr nt ns chk x y es a (vs : list V) bs k st,
  free_var st x = true -> var st y = Some (OArr a) -> holds bs a vs -> fits es -> zprod es = zprod (aexts a) ->
  exists st' a', step thr nt ns chk (OReshape x y es) (World bs k, st) = (ROk tt, (World bs k, st')) /\
   var st' x = Some (OArr a') /\ aexts a' = es /\ holds bs a' vs /\ adata a' = adata a /\ var st' y = Some (OArr (Arr None (aexts a))).
Proof. exact @reshape_owning_spec. Qed.
Print Assumptions reshape_owning_keeps_elements.

Example flattening_ex :
  cat (fun v => v) true [CRng [1; 2]; CVal 3; CRng []; CRng [4]] = Ok ([4], [1; 2; 3; 4]) /\
 as_vector (fun v => v) true 100 ex_pm (ELeaf 0 (SRef 0 [4; 2])) = Ok ([8], [1; 2; 3; 4; 5; 6; 7; 8]) /\
 (let* a := foldO (run true 100) [[UStrided 0 2 2; UEvery]] (SRef 0 [4; 2]) in as_vector (fun v => v) true 100 ex_pm (ELeaf 0 a)) = Ok ([4], [1; 3; 5; 7]) /\
 reshape_ref true (SRef 0 [4; 2]) [2; 2; 2] = Ok (SRef 0 [2; 2; 2]) /\ reshape_ref true (SRef 0 [4; 2]) [3; 2] = Abort /\
 positions 100 (SRef 5 [2; 2]) = Ok [5; 6; 7; 8] /\
 holds [Some [Some 1; Some 2; Some 3; Some 4]] (Arr (Some 0%nat) [2; 2]) [1; 2; 3; 4] /\ fits [4; 1].
Proof. repeat split; try reflexivity; try discriminate; repeat constructor; lia. Qed.

(** ** C42 *)
Theorem blas_sizes_fit : forall chk v, 0 <= v -> v <= 2 ^ 31 - 1 -> safe_int_cast chk v = Ok v.
Proof. exact safe_int_cast_ok. Qed.
Print Assumptions blas_sizes_fit.
Theorem blas_sizes_rejected : forall v, 2 ^ 31 <= v -> safe_int_cast true v = Abort.
Proof. exact safe_int_cast_big. Qed.
Print Assumptions blas_sizes_rejected.
(** ... and so is every product in which one of the three sizes does not fit, whatever the storage. *)
Theorem blas_product_big_rejected : forall (V : Type) (zero : V) add mul (m : @mem V) sa oa sb ob r k p alpha junk,
  good_shape [r; k] -> good_shape [k; p] -> 2 ^ 31 <= r \/ 2 ^ 31 <= k \/ 2 ^ 31 <= p ->
  blas_product zero add mul true m sa oa [r; k] sb ob [k; p] alpha junk = Abort.
Proof. exact @blas_product_big. Qed.
Print Assumptions blas_product_big_rejected.
Example blas_sizes_ex : safe_int_cast true (2 ^ 31 - 1) = Ok (2 ^ 31 - 1) /\ safe_int_cast true (2 ^ 31) = Abort /\
 good_shape [2 ^ 31; 3] /\ good_shape [3; 2].
Proof. repeat split; try reflexivity; try discriminate; repeat constructor; try lia; unfold zprod, MAXSZ; cbn; lia. Qed.
(** Without checks the dimension is silently changed. *)
Theorem blas_sizes_unchecked_refuted : exists v r, 0 <= v < W /\ safe_int_cast false v = Ok r /\ r <> v.
Proof. exists (2 ^ 32 + 1), 1. repeat split; try (unfold W; lia). Qed.
Print Assumptions blas_sizes_unchecked_refuted.
