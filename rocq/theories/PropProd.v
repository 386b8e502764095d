(** * PropProd: property C75 (products of doubles).

    Vocabulary (StatsSpec.v, ProdSpec.v): [dval f], the real number a finite double stands for; [rprod], [rdot], exact products and dot products;
    [rdot_abs], the sum of the magnitudes of the terms; [no_underflow s l], every running product is zero or at least 2^-1022 before rounding;
    [roundoff] = 2^-53; [tiny] = 2^-1075; [entry], [aselects], [lists_matrix]: NumericSpec.v, SliceSpec.v. *)

From Coq Require Import ZArith List Bool Lia Floats.SpecFloat Reals Lra.
From Verif Require Import Base Spec Slice SliceSpec Expr ExprSpec Coerce Reduce Random Stats RangeLoop RangeLoopSpec RangeLoopProofs ReduceSpec StatsSpec StatsProofs
  ReadNumSpec Numeric NumericSpec NumericProofs Prod ProdSpec ProdProofs ProdBlas.
From Verif Require PropNumeric.
Import ListNotations.
Open Scope Z_scope.

(** 0.1, 2^-600 and 2^1000, as doubles. *)
Local Notation tenth := (S754_finite false 7205759403792794 (-56)).
Local Notation small := (S754_finite false 4503599627370496 (-652)).
Local Notation large := (S754_finite false 4503599627370496 948).

(** ** prod *)

(** Whenever the result is finite and nothing underflows: the relative error is at most (1+2^-53)^(n-1) - 1. *)
Theorem C75_prod_accurate : forall l : list spec_float, l <> [] -> Forall is_double l -> finite (fprod l fone) -> no_underflow fone l ->
  (Rabs (dval (fprod l fone) - rprod (map dval l)) <= ((1 + roundoff) ^ (length l - 1) - 1) * Rabs (rprod (map dval l)))%R.
Proof. exact fprod_accurate. Qed.
Print Assumptions C75_prod_accurate.

(** The same with a start value. *)
Theorem C75_prod_with_start : forall (l : list spec_float) (start : spec_float), Forall is_double l -> is_double start -> finite (fprod l start) -> no_underflow start l ->
  (Rabs (dval (fprod l start) - dval start * rprod (map dval l)) <= ((1 + roundoff) ^ length l - 1) * Rabs (dval start * rprod (map dval l)))%R.
Proof. intros l start Hl Hs F N. now apply fprod_error. Qed.
Print Assumptions C75_prod_with_start.

(** The sign is right even then: it is that of the exact product, for every result that is a number. *)
Theorem C75_prod_sign : forall (l : list spec_float) (start : spec_float), Forall is_double l -> is_double start -> fprod l start <> S754_nan ->
  minus_sign (fprod l start) = fold_left xorb (map minus_sign l) (minus_sign start).
Proof. intros l start. now apply fprod_sign. Qed.
Print Assumptions C75_prod_sign.

(** One NaN makes the product NaN; the empty product is one. *)
Theorem C75_prod_nan : forall (l : list spec_float) (start : spec_float), In S754_nan l \/ start = S754_nan -> fprod l start = S754_nan.
Proof. intros l start. apply fprod_nan. Qed.
Print Assumptions C75_prod_nan.
Theorem C75_prod_empty : fprod [] fone = dbl 1.
Proof. reflexivity. Qed.

(** Integer-valued data: exact when every partial product is at most 2^53 in magnitude. *)
Theorem C75_prod_of_integers : forall l : list Z, (forall z, In z l -> Z.abs z <= 2 ^ 53) -> (forall k, (k <= length l)%nat -> Z.abs (zprod (firstn k l)) <= 2 ^ 53) ->
  finite (fprod (map dbl l) fone) /\ dval (fprod (map dbl l) fone) = IZR (zprod l).
Proof.
  intros l Hz Hp. rewrite <- (Z.mul_1_l (zprod l)). apply fprod_int; auto.
  - apply dbl_double.
  - exact Logic.I.
  - apply (dbl_val 1). cbn. lia.
  - intros k Hk. rewrite Z.mul_1_l. auto.
Qed.
Print Assumptions C75_prod_of_integers.

(** Arrays, views and expressions: the elements are multiplied in column-major order, each evaluated once. *)
Theorem C75_prod_of_expressions : forall chk fuel m e es vs fu start, expr_ok fuel m e es -> elements fuel m e es vs -> (length vs < fu)%nat ->
  r_fprod chk fu m e start = Ok (fprod vs start, map (reads fuel e) (seq 0 (length vs))).
Proof.
  intros chk fuel m e es vs fu start K E Hf. destruct (over_expression chk fuel m e es vs fu K E Hf) as [h [s [Hr [Hd [Hp [Hn Hl]]]]]].
  unfold r_fprod, fprod. rewrite Hr, Hl, list_goes. reflexivity.
Qed.
Print Assumptions C75_prod_of_expressions.

(** Running products may underflow although the exact product is an ordinary number; another order of the elements gives it. *)
Theorem C75_prod_underflow_refuted : exists l l', Forall is_double l /\ Permutation.Permutation l l' /\ finite (fprod l fone) /\ finite (fprod l' fone) /\
  dval (fprod l fone) = 0%R /\ rprod (map dval l) <> 0%R /\ dval (fprod l' fone) = rprod (map dval l).
Proof.
  exists [small; small; large], [large; small; small]. split; [repeat constructor|].
  split; [apply Permutation.Permutation_sym, (Permutation.Permutation_cons_append [small; small] large)|].
  assert (E1 : fprod [small; small; large] fone = S754_zero false) by (vm_compute; reflexivity).
  assert (E2 : fprod [large; small; small] fone = S754_finite false 4503599627370496 (-252)) by (vm_compute; reflexivity).
  rewrite E1, E2. split; [exact Logic.I|]. split; [exact Logic.I|]. split; [reflexivity|].
  assert (R : rprod (map dval [small; small; large]) = powerRZ 2 (-200)).
  { cbn [map]. unfold rprod. cbn [fold_right dval]. change 4503599627370496%positive with (2 ^ 52)%positive. rewrite Pos2Z.inj_pow.
    assert (P : IZR (2 ^ 52) = powerRZ 2 52) by (change (powerRZ 2 52) with (2 ^ Pos.to_nat 52)%R; rewrite pow_IZR; reflexivity). rewrite P, Rmult_1_r, <- !powerRZ_add by lra. reflexivity. }
  rewrite R. split; [apply powerRZ_NOR; lra|]. cbn [dval]. change 4503599627370496%positive with (2 ^ 52)%positive. rewrite Pos2Z.inj_pow.
  assert (P : IZR (2 ^ 52) = powerRZ 2 52) by (change (powerRZ 2 52) with (2 ^ Pos.to_nat 52)%R; rewrite pow_IZR; reflexivity). rewrite P, <- powerRZ_add by lra. reflexivity.
Qed.
Print Assumptions C75_prod_underflow_refuted.

(** ** matrix products *)

(** Matrices of doubles, any views: every finite element of the product differs from the exact dot product of its row and column by at most
    ((1+2^-53)^k - 1) times the sum of the magnitudes of the terms, plus an absolute error of about k 2^-1075 from terms that underflow. *)
Theorem C75_product_accurate : forall chk (m : @mem spec_float) sa ca esa stepsa sb cb esb stepsb r k p,
  good_shape esa -> ok_steps (afull esa) stepsa -> good_shape esb -> ok_steps (afull esb) stepsb -> forallb (forallb no_range) stepsb = true ->
  nth_error m sa = Some ca -> Z.of_nat (length ca) = zprod esa -> nth_error m sb = Some cb -> Z.of_nat (length cb) = zprod esb ->
  fst (aselects (afull esa) stepsa) = [r; k] -> fst (aselects (afull esb) stepsb) = [k; p] -> 0 < k -> Forall is_double ca -> Forall is_double cb ->
  exists fuel0, forall fuel, (fuel0 <= fuel)%nat -> exists a b vs,
    foldO (run chk fuel) stepsa (SRef 0 esa) = Ok a /\ foldO (run chk fuel) stepsb (SRef 0 esb) = Ok b /\
    product fzero fadd fmul chk fuel m sa a sb b = Ok ([r; p], vs) /\ Z.of_nat (length vs) = r * p /\
    forall i j, 0 <= i < r -> 0 <= j < p -> exists c, nth_error vs (Z.to_nat (i + r * j)) = Some c /\ is_double c /\
      (finite c ->
       let A l := dval (entry fzero ca (aselects (afull esa) stepsa) i l) in
       let B l := dval (entry fzero cb (aselects (afull esb) stepsb) l j) in
       (Rabs (dval c - rdot A B k) <= ((1 + roundoff) ^ Z.to_nat k - 1) * rdot_abs A B k + IZR k * (1 + roundoff) ^ (Z.to_nat k - 1) * tiny)%R).
Proof.
  intros chk m sa ca esa stepsa sb cb esb stepsb r k p Ga Oa Gb Ob Nr Ma La Mb Lb Sa Sb Hk Da Db.
  destruct (PropNumeric.matrix_product_of_views _ fzero fadd fmul chk m sa ca esa stepsa sb cb esb stepsb r k p Ga Oa Gb Ob Nr Ma La Mb Lb Sa Sb) as (fuel0 & H).
  exists fuel0. intros fuel Hf. destruct (H fuel Hf) as (a & b & vs & Ea & Eb & Ep & Len & Ent). exists a, b, vs. repeat (split; [assumption|]).
  intros i j Hi Hj. eexists. split; [apply Ent; assumption|].
  assert (D : forall c v x y, Forall is_double c -> is_double (entry fzero c v x y)).
  { intros c v x y Hc. unfold entry. destruct (nth_in_or_default (Z.to_nat (aview_at v [x; y])) c fzero) as [In_|E]; [rewrite Forall_forall in Hc; auto|rewrite E; apply fzero_double]. }
  refine (dot_accurate (fun l => entry fzero ca (aselects (afull esa) stepsa) i l) (fun l => entry fzero cb (aselects (afull esb) stepsb) l j) k Hk _).
  intros l _. split; apply D; assumption.
Qed.
Print Assumptions C75_product_accurate.

(** The fast path gives exactly the same doubles (the reference loop of GEMM, alpha = 1). *)
Theorem C75_blas_same : forall chk fuel (m : @mem spec_float) sa oa sb ob r k p ca cb junk,
  0 < r <= 2 ^ 31 - 1 -> 0 < k <= 2 ^ 31 - 1 -> 0 < p <= 2 ^ 31 - 1 -> 0 <= oa -> 0 <= ob ->
  nth_error m sa = Some ca -> oa + r * k <= Z.of_nat (length ca) -> nth_error m sb = Some cb -> ob + k * p <= Z.of_nat (length cb) ->
  Forall is_double ca -> Forall is_double cb ->
  (Z.to_nat (r * k) < fuel)%nat -> (Z.to_nat (k * p) < fuel)%nat -> Z.of_nat (length junk) = r * p ->
  exists vs, blas_product fzero fadd fmul chk m sa oa [r; k] sb ob [k; p] fone junk = Ok ([r; p], vs) /\
    product fzero fadd fmul chk fuel m sa (SRef oa [r; k]) sb (SRef ob [k; p]) = Ok ([r; p], vs).
Proof.
  intros chk fuel m sa oa sb ob r k p ca cb junk Hr Hk Hp Oa Ob Ma La Mb Lb Da Db Fa Fb Lj. rewrite Forall_forall in Da, Db.
  destruct (blas_agrees_on fzero fadd fmul chk fuel m fone sa oa sb ob r k p ca cb junk) as (vs & E1 & E2 & _); auto; [|exists vs; auto].
  intros x y Ix Iy. rewrite fmul_one by auto. apply fmul_comm; auto.
Qed.
Print Assumptions C75_blas_same.

(** Integer entries: the product of two views is exact when all terms and partial sums are at most 2^53 in magnitude. *)
Theorem C75_product_of_integers : forall chk (m : @mem spec_float) sa ca esa stepsa sb cb esb stepsb r k p,
  good_shape esa -> ok_steps (afull esa) stepsa -> good_shape esb -> ok_steps (afull esb) stepsb -> forallb (forallb no_range) stepsb = true ->
  nth_error m sa = Some (map dbl ca) -> Z.of_nat (length ca) = zprod esa -> nth_error m sb = Some (map dbl cb) -> Z.of_nat (length cb) = zprod esb ->
  fst (aselects (afull esa) stepsa) = [r; k] -> fst (aselects (afull esb) stepsb) = [k; p] ->
  let A := entry 0 ca (aselects (afull esa) stepsa) in let B := entry 0 cb (aselects (afull esb) stepsb) in
  (forall i l j, 0 <= i < r -> 0 <= l < k -> 0 <= j < p -> Z.abs (A i l) <= 2 ^ 53 /\ Z.abs (B l j) <= 2 ^ 53 /\ Z.abs (A i l * B l j) <= 2 ^ 53) ->
  (forall i n j, 0 <= i < r -> 0 <= n <= k -> 0 <= j < p -> Z.abs (zdot (A i) (fun l => B l j) n) <= 2 ^ 53) ->
  exists fuel0, forall fuel, (fuel0 <= fuel)%nat -> exists a b vs,
    foldO (run chk fuel) stepsa (SRef 0 esa) = Ok a /\ foldO (run chk fuel) stepsb (SRef 0 esb) = Ok b /\
    product fzero fadd fmul chk fuel m sa a sb b = Ok ([r; p], vs) /\ lists_matrix vs r p (fun i j => dbl (zdot (A i) (fun l => B l j) k)).
Proof.
  intros chk m sa ca esa stepsa sb cb esb stepsb r k p Ga Oa Gb Ob Nr Ma La Mb Lb Sa Sb A B Hb Hs.
  destruct (PropNumeric.matrix_product_of_views _ fzero fadd fmul chk m sa (map dbl ca) esa stepsa sb (map dbl cb) esb stepsb r k p Ga Oa Gb Ob Nr Ma ltac:(now rewrite map_length) Mb ltac:(now rewrite map_length) Sa Sb) as (fuel0 & H).
  exists fuel0. intros fuel Hf. destruct (H fuel Hf) as (a & b & vs & Ea & Eb & Ep & Len & Ent). exists a, b, vs. split; [assumption|]. split; [assumption|]. split; [assumption|]. split; [exact Len|].
  intros i j Hi Hj. rewrite (Ent i j Hi Hj). f_equal.
  assert (D : forall c v x y, entry fzero (map dbl c) v x y = dbl (entry 0 c v x y)) by (intros c v x y; unfold entry; change fzero with (dbl 0); apply map_nth).
  transitivity (dot_sum fzero fadd fmul (fun l => dbl (A i l)) (fun l => dbl (B l j)) k).
  - unfold dot_sum. assert (X : forall ls acc, fold_left (fun s l => fadd s (fmul (entry fzero (map dbl ca) (aselects (afull esa) stepsa) i l) (entry fzero (map dbl cb) (aselects (afull esb) stepsb) l j))) ls acc
      = fold_left (fun s l => fadd s (fmul (dbl (A i l)) (dbl (B l j)))) ls acc) by (induction ls as [|l ls IH]; intros acc; [reflexivity|]; cbn [fold_left]; rewrite !D; apply IH).
    apply X.
  - apply dot_int; intros; [apply Hb|apply Hs]; auto.
Qed.
Print Assumptions C75_product_of_integers.

(** The hypotheses are met: 3 * 0.1 * -2, rows 0 and 2 of a 4 x 2 matrix times a 2 x 3 matrix. *)
Example C75_ex : let l := [dbl 3; tenth; dbl (-2)] in l <> [] /\ Forall is_double l /\ finite (fprod l fone) /\ no_underflow fone l /\
  fprod l fone = S754_finite true 5404319552844596 (-53) /\ fprod [small; large; tenth] (dbl (-7)) <> S754_nan.
Proof.
  split; [discriminate|]. split; [repeat constructor|]. split; [vm_compute; exact Logic.I|]. split; [|split; vm_compute; [reflexivity|discriminate]].
  intros a x H.
  assert (E : (a = fone /\ x = dbl 3) \/ (a = dbl 3 /\ x = tenth) \/ (a = fmul (dbl 3) tenth /\ x = dbl (-2))).
  { inversion H as [|? ? ? ? H1]; subst; [now left|]. inversion H1 as [|? ? ? ? H2]; subst; [right; left; split; [vm_compute; reflexivity|reflexivity]|].
    inversion H2 as [|? ? ? ? H3]; subst; [right; right; split; [vm_compute; reflexivity|reflexivity]|]. inversion H3. }
  assert (E1 : fone = S754_finite false 4503599627370496 (-52)) by (vm_compute; reflexivity).
  assert (E3 : dbl 3 = S754_finite false 6755399441055744 (-51)) by (vm_compute; reflexivity).
  assert (E4 : fmul (dbl 3) tenth = S754_finite false 5404319552844596 (-54)) by (vm_compute; reflexivity).
  assert (E2 : dbl (-2) = S754_finite true 4503599627370496 (-51)) by (vm_compute; reflexivity).
  right. right. destruct E as [[-> ->]|[[-> ->]|[-> ->]]]; rewrite ?E4, ?E1, ?E2, ?E3; apply not_small; lia.
Qed.
Example C75_product_ex : let A := map dbl [1; 2; 3; 4; 5; 6; 7; 8] in let B := map dbl [1; 0; 2; 1; 3; -1] in let m := [A; B] in
  good_shape [4; 2] /\ ok_steps (afull [4; 2]) [[UStrided 0 2 2; UEvery]] /\ good_shape [2; 3] /\ fst (aselects (afull [4; 2]) [[UStrided 0 2 2; UEvery]]) = [2; 2] /\
  Forall is_double A /\ Forall is_double B /\
  (let* a := foldO (run true 100) [[UStrided 0 2 2; UEvery]] (SRef 0 [4; 2]) in product fzero fadd fmul true 100 m 0 a 1 (SRef 0 [2; 3]))
    = Ok ([2; 3], map dbl [1; 3; 7; 13; -2; 2]) /\
  blas_product fzero fadd fmul true m 0 0 [4; 2] 1 0 [2; 3] fone (repeat S754_nan 12) = Ok ([4; 3], map dbl [1; 2; 3; 4; 7; 10; 13; 16; -2; 0; 2; 4]).
Proof.
  split; [repeat split; try discriminate; repeat constructor; try lia; unfold zprod, MAXSZ; cbn; lia|]. split; [vm_compute; repeat (split || constructor); try discriminate; try reflexivity; auto|].
  split; [repeat split; try discriminate; repeat constructor; try lia; unfold zprod, MAXSZ; cbn; lia|]. split; [reflexivity|].
  split; [repeat constructor|]. split; [repeat constructor|]. split; vm_compute; reflexivity.
Qed.
