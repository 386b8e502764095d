(** * PropExprProduct: property C78 (matrix products of expressions, the scaled fast path).

    Vocabulary: [exp_matrix fuel m e r c A]: the expression [e] is well-formed, r x c, and its element (i,j) is A(i,j) (ExprProductSpec.v);
    [lists_matrix], [dot_sum], [entry]: NumericSpec.v; [rdot3], [rdot3_abs], [rabs_sum]: exact sums of alpha f(l) g(l), of their magnitudes,
    and of the magnitudes of f(l) (ExprProductSpec.v); [roundoff] = 2^-53; [tiny] = 2^-1075. *)

From Coq Require Import ZArith List Bool Lia Floats.SpecFloat Reals Lra.
From Verif Require Import Base Spec Slice SliceSpec Life LifeSpec Expr ExprSpec Coerce Reduce Random Stats ReduceSpec StatsSpec StatsProofs Lemmas LifeProofs RunProofs ViewThms ViewThms3 ReadNumSpec Numeric NumericSpec NumericProofs
  Prod ProdSpec ProdProofs ExprProduct ExprProductSpec ExprProductProofs ExprProductFloat PropView.
Import ListNotations.
Open Scope Z_scope.

(** ** product(lhs, rhs), expressions as operands *)

(** Both operands are expressions: every element of the result is the sum, in the order of l, of the products of the elements of the two expressions. *)
Theorem C78_product_of_expressions : forall (V : Type) (zero : V) add mul chk fuel f1 f2 (m : @mem V) e1 e2 r k p A B,
  exp_matrix f1 m e1 r k A -> exp_matrix f2 m e2 k p B -> good_shape [r; k] -> good_shape [k; p] ->
  (forall sid s, e1 <> ELeaf sid s) -> (forall sid s, e2 <> ELeaf sid s) -> (Z.to_nat (r * k) < fuel)%nat -> (Z.to_nat (k * p) < fuel)%nat ->
  exists vs, product_exprs zero add mul chk fuel m e1 e2 = Ok ([r; p], vs) /\ lists_matrix vs r p (fun i j => dot_sum zero add mul (A i) (fun l => B l j) k).
Proof. exact @product_exprs_both. Qed.
Print Assumptions C78_product_of_expressions.

(** One operand is an expression, the other any view of an array obtained by subscripts (the right one without index lists, as for C24). *)
Theorem C78_product_view_expression : forall (V : Type) (zero : V) add mul chk f2 (m : @mem V) sa ca es steps e2 r k p B,
  good_shape es -> ok_steps (afull es) steps -> nth_error m sa = Some ca -> Z.of_nat (length ca) = zprod es -> fst (aselects (afull es) steps) = [r; k] ->
  exp_matrix f2 m e2 k p B -> good_shape [k; p] -> (forall sid s, e2 <> ELeaf sid s) ->
  exists fuel0, forall fuel, (fuel0 <= fuel)%nat -> exists a vs, foldO (run chk fuel) steps (SRef 0 es) = Ok a /\
    product_exprs zero add mul chk fuel m (ELeaf sa a) e2 = Ok ([r; p], vs) /\
    lists_matrix vs r p (fun i j => dot_sum zero add mul (entry zero ca (aselects (afull es) steps) i) (fun l => B l j) k).
Proof.
  intros V zero add mul chk f2 m sa ca es steps e2 r k p B G Ok_ E L D M2 G2 N2.
  exists (Nat.max (steps_fuel (afull es) steps) (S (Nat.max (Z.to_nat (r * k)) (Z.to_nat (k * p))))). intros fuel Hf.
  destruct (operand_history zero chk fuel m sa ca es steps r k G Ok_ E L D ltac:(lia)) as (a & Ra & Oa & _).
  destruct (product_exprs_right zero add mul chk fuel f2 m sa a _ e2 r k p _ B Oa M2 G2 N2 ltac:(lia) ltac:(lia)) as (vs & Ev & Lv). exists a, vs. auto.
Qed.
Print Assumptions C78_product_view_expression.
Theorem C78_product_expression_view : forall (V : Type) (zero : V) add mul chk f1 (m : @mem V) e1 sb cb es steps r k p A,
  exp_matrix f1 m e1 r k A -> good_shape [r; k] -> (forall sid s, e1 <> ELeaf sid s) ->
  good_shape es -> ok_steps (afull es) steps -> forallb (forallb no_range) steps = true -> nth_error m sb = Some cb -> Z.of_nat (length cb) = zprod es -> fst (aselects (afull es) steps) = [k; p] ->
  exists fuel0, forall fuel, (fuel0 <= fuel)%nat -> exists b vs, foldO (run chk fuel) steps (SRef 0 es) = Ok b /\
    product_exprs zero add mul chk fuel m e1 (ELeaf sb b) = Ok ([r; p], vs) /\
    lists_matrix vs r p (fun i j => dot_sum zero add mul (A i) (fun l => entry zero cb (aselects (afull es) steps) l j) k).
Proof.
  intros V zero add mul chk f1 m e1 sb cb es steps r k p A M1 G1 N1 G Ok_ Nr E L D.
  exists (Nat.max (steps_fuel (afull es) steps) (S (Nat.max (Z.to_nat (r * k)) (Z.to_nat (k * p))))). intros fuel Hf.
  destruct (operand_history zero chk fuel m sb cb es steps k p G Ok_ E L D ltac:(lia)) as (b & Rb & Ob & Ib).
  destruct (product_exprs_left zero add mul chk fuel f1 m e1 sb b _ r k p A _ M1 Ob (Ib Nr) G1 N1 ltac:(lia) ltac:(lia)) as (vs & Ev & Lv). exists b, vs. auto.
Qed.
Print Assumptions C78_product_expression_view.

(** Inner sizes that differ are rejected (checked build). *)
Theorem C78_sizes_checked : forall (V : Type) (zero : V) add mul fuel f1 f2 (m : @mem V) e1 e2 r k k' p A B,
  exp_matrix f1 m e1 r k A -> exp_matrix f2 m e2 k' p B -> good_shape [r; k] -> good_shape [k'; p] ->
  (forall sid s, e1 <> ELeaf sid s) -> (forall sid s, e2 <> ELeaf sid s) -> k <> k' -> product_exprs zero add mul true fuel m e1 e2 = Abort.
Proof. exact @product_exprs_mismatch. Qed.
Print Assumptions C78_sizes_checked.

(** ** blas::product(alpha * lhs, rhs) *)

(** For every element type: the elements of the result are the sums of (alpha * B(l,j)) * A(i,l); nothing else is read or written. *)
Theorem C78_scaled : forall (V : Type) (zero : V) add mul chk (m : @mem V) alpha sa oa sb ob r k p A B junk,
  0 < r <= 2 ^ 31 - 1 -> 0 < k <= 2 ^ 31 - 1 -> 0 < p <= 2 ^ 31 - 1 -> 0 <= oa -> 0 <= ob ->
  (forall i l, 0 <= i < r -> 0 <= l < k -> ExprSpec.cell m sa (oa + i + r * l) = Some (A i l)) ->
  (forall l j, 0 <= l < k -> 0 <= j < p -> ExprSpec.cell m sb (ob + l + k * j) = Some (B l j)) ->
  Z.of_nat (length junk) = r * p ->
  exists vs, blas_product_scaled zero add mul chk m alpha sa oa [r; k] sb ob [k; p] junk = Ok ([r; p], vs) /\
    lists_matrix vs r p (fun i j => dot_sum zero add mul (fun l => mul alpha (B l j)) (fun l => A i l) k).
Proof. exact @blas_scaled_spec. Qed.
Print Assumptions C78_scaled.

(** When multiplication is associative and commutative: exactly the array that product(alpha * lhs, rhs) gives. *)
Theorem C78_scaled_same_as_product : forall (V : Type) (zero : V) add mul chk fuel (m : @mem V) alpha sa oa sb ob r k p ca cb junk,
  (forall x y, mul x y = mul y x) -> (forall x y z, mul x (mul y z) = mul (mul x y) z) ->
  0 < r <= 2 ^ 31 - 1 -> 0 < k <= 2 ^ 31 - 1 -> 0 < p <= 2 ^ 31 - 1 -> 0 <= oa -> 0 <= ob ->
  nth_error m sa = Some ca -> oa + r * k <= Z.of_nat (length ca) -> nth_error m sb = Some cb -> ob + k * p <= Z.of_nat (length cb) ->
  (Z.to_nat (r * k) < fuel)%nat -> (Z.to_nat (k * p) < fuel)%nat -> Z.of_nat (length junk) = r * p ->
  exists vs, blas_product_scaled zero add mul chk m alpha sa oa [r; k] sb ob [k; p] junk = Ok ([r; p], vs) /\
    product_exprs zero add mul chk fuel m (ELeft mul alpha (ELeaf sa (SRef oa [r; k]))) (ELeaf sb (SRef ob [k; p])) = Ok ([r; p], vs).
Proof.
  intros V zero add mul chk fuel m alpha sa oa sb ob r k p ca cb junk Hc Ha. apply blas_scaled_agrees. intros x y _ _. rewrite <- !Ha. f_equal. apply Hc.
Qed.
Print Assumptions C78_scaled_same_as_product.

(** Doubles: every finite element differs from the exact sum of alpha A(i,l) B(l,j) by at most ((1+2^-53)^(k+1) - 1) times the sum of the magnitudes
    of the terms, plus an absolute error for products that underflow. *)
Theorem C78_scaled_accurate : forall chk (m : @mem spec_float) alpha sa oa sb ob r k p ca cb junk,
  0 < r <= 2 ^ 31 - 1 -> 0 < k <= 2 ^ 31 - 1 -> 0 < p <= 2 ^ 31 - 1 -> 0 <= oa -> 0 <= ob ->
  nth_error m sa = Some ca -> oa + r * k <= Z.of_nat (length ca) -> nth_error m sb = Some cb -> ob + k * p <= Z.of_nat (length cb) ->
  is_double alpha -> Forall is_double ca -> Forall is_double cb -> Z.of_nat (length junk) = r * p ->
  exists vs, blas_product_scaled fzero fadd fmul chk m alpha sa oa [r; k] sb ob [k; p] junk = Ok ([r; p], vs) /\ Z.of_nat (length vs) = r * p /\
    forall i j, 0 <= i < r -> 0 <= j < p -> exists c, nth_error vs (Z.to_nat (i + r * j)) = Some c /\ is_double c /\
      (finite c ->
       let A l := dval (nth (Z.to_nat (oa + i + r * l)) ca fzero) in
       let B l := dval (nth (Z.to_nat (ob + l + k * j)) cb fzero) in
       (Rabs (dval c - rdot3 (dval alpha) A B k) <=
         ((1 + roundoff) ^ (Z.to_nat k + 1) - 1) * rdot3_abs (dval alpha) A B k + (1 + roundoff) ^ (Z.to_nat k - 1) * tiny * ((1 + roundoff) * rabs_sum A k + IZR k))%R).
Proof.
  intros chk m alpha sa oa sb ob r k p ca cb junk Hr Hk Hp Oa Ob Ea La Eb Lb Da Dca Dcb Lj.
  destruct (blas_scaled_spec fzero fadd fmul chk m alpha sa oa sb ob r k p (fun i l => nth (Z.to_nat (oa + i + r * l)) ca fzero) (fun l j => nth (Z.to_nat (ob + l + k * j)) cb fzero) junk Hr Hk Hp Oa Ob) as (vs & E & L & N); auto.
  - intros. unfold ExprSpec.cell. rewrite Ea. apply nth_error_nth'. nia.
  - intros. unfold ExprSpec.cell. rewrite Eb. apply nth_error_nth'. nia.
  - exists vs. split; [exact E|]. split; [exact L|]. intros i j Hi Hj. eexists. split; [apply N; assumption|].
    assert (D : forall c q, Forall is_double c -> is_double (nth q c fzero)).
    { intros c q Hc. destruct (nth_in_or_default q c fzero) as [In_|Q]; [rewrite Forall_forall in Hc; auto|rewrite Q; apply fzero_double]. }
    apply (dot3_accurate alpha (fun l => nth (Z.to_nat (oa + i + r * l)) ca fzero) (fun l => nth (Z.to_nat (ob + l + k * j)) cb fzero) k ltac:(lia) Da).
    intros l _. split; apply D; assumption.
Qed.
Print Assumptions C78_scaled_accurate.

(** Integer entries and an integer factor: exact while all products and partial sums are at most 2^53 in magnitude. *)
Theorem C78_scaled_of_integers : forall chk (m : @mem spec_float) a sa oa sb ob r k p ca cb junk,
  0 < r <= 2 ^ 31 - 1 -> 0 < k <= 2 ^ 31 - 1 -> 0 < p <= 2 ^ 31 - 1 -> 0 <= oa -> 0 <= ob ->
  nth_error m sa = Some (map dbl ca) -> oa + r * k <= Z.of_nat (length ca) -> nth_error m sb = Some (map dbl cb) -> ob + k * p <= Z.of_nat (length cb) ->
  let A i l := nth (Z.to_nat (oa + i + r * l)) ca 0 in let B l j := nth (Z.to_nat (ob + l + k * j)) cb 0 in
  Z.abs a <= 2 ^ 53 -> Z.of_nat (length junk) = r * p ->
  (forall i l j, 0 <= i < r -> 0 <= l < k -> 0 <= j < p -> Z.abs (A i l) <= 2 ^ 53 /\ Z.abs (B l j) <= 2 ^ 53 /\ Z.abs (a * B l j) <= 2 ^ 53 /\ Z.abs (a * B l j * A i l) <= 2 ^ 53) ->
  (forall i n j, 0 <= i < r -> 0 <= n <= k -> 0 <= j < p -> Z.abs (zdot (fun l => a * B l j) (A i) n) <= 2 ^ 53) ->
  exists vs, blas_product_scaled fzero fadd fmul chk m (dbl a) sa oa [r; k] sb ob [k; p] junk = Ok ([r; p], vs) /\
    lists_matrix vs r p (fun i j => dbl (zdot (fun l => a * B l j) (A i) k)).
Proof.
  intros chk m a sa oa sb ob r k p ca cb junk Hr Hk Hp Oa Ob Ea La Eb Lb A B Ha Lj Hb Hs.
  destruct (blas_scaled_spec fzero fadd fmul chk m (dbl a) sa oa sb ob r k p (fun i l => dbl (A i l)) (fun l j => dbl (B l j)) junk Hr Hk Hp Oa Ob) as (vs & E & L & N); auto.
  - intros. unfold ExprSpec.cell. rewrite Ea, nth_error_map. unfold A. rewrite (nth_error_nth' ca 0) by nia. reflexivity.
  - intros. unfold ExprSpec.cell. rewrite Eb, nth_error_map. unfold B. rewrite (nth_error_nth' cb 0) by nia. reflexivity.
  - exists vs. split; [exact E|]. split; [exact L|]. intros i j Hi Hj. rewrite (N i j Hi Hj). f_equal. apply (dot3_int a (A i) (fun l => B l j) k Ha); intros; [apply Hb|apply Hs]; auto.
Qed.
Print Assumptions C78_scaled_of_integers.

(** 2^1000, 2^100 and 2^-200 as doubles. *)
Local Notation huge := (S754_finite false 4503599627370496 948).
Local Notation big := (S754_finite false 4503599627370496 48).
Local Notation small := (S754_finite false 4503599627370496 (-252)).

(** For doubles the two products are not the same: the fast path multiplies the factor into the right operand, so it can overflow where
    product(alpha * lhs, rhs) gives the exact result. *)
Theorem C78_scaled_order_refuted : exists alpha a b, is_double alpha /\ is_double a /\ is_double b /\
  blas_product_scaled fzero fadd fmul true [[a]; [b]] alpha 0 0 [1; 1] 1 0 [1; 1] [fzero] = Ok ([1; 1], [S754_infinity false]) /\
  exists c, product_exprs fzero fadd fmul true 10 [[a]; [b]] (ELeft fmul alpha (ELeaf 0 (SRef 0 [1; 1]))) (ELeaf 1 (SRef 0 [1; 1])) = Ok ([1; 1], [c]) /\
    finite c /\ dval c = (dval alpha * dval a * dval b)%R.
Proof.
  exists huge, small, big. split; [reflexivity|]. split; [reflexivity|]. split; [reflexivity|]. split; [vm_compute; reflexivity|].
  exists (S754_finite false 4503599627370496 848). split; [vm_compute; reflexivity|]. split; [exact Logic.I|].
  cbn [dval]. change 4503599627370496%positive with (2 ^ 52)%positive. rewrite Pos2Z.inj_pow.
  assert (P : IZR (2 ^ 52) = powerRZ 2 52) by (change (powerRZ 2 52) with (2 ^ Pos.to_nat 52)%R; rewrite pow_IZR; reflexivity). rewrite P, <- !powerRZ_add by lra. reflexivity.
Qed.
Print Assumptions C78_scaled_order_refuted.

(** The hypotheses are met: (-A) and (B + 10) of a 2 x 3 and a 3 x 2 matrix; 2 * A by B. *)
Definition ex_m : @mem Z := [[1; 2; 3; 4; 5; 6]; [1; 0; 2; 1; 3; -1]].
Example C78_ex : exp_matrix 100 ex_m (EUn Z.opp (ELeaf 0 (SRef 0 [2; 3]))) 2 3 (fun i l => - (1 + i + 2 * l)) /\
  exp_matrix 100 ex_m (ERight Z.add (ELeaf 1 (SRef 0 [3; 2])) 10) 3 2 (fun l j => nth (Z.to_nat (l + 3 * j)) [11; 10; 12; 11; 13; 9] 0) /\
  product_exprs 0 Z.add Z.mul true 100 ex_m (EUn Z.opp (ELeaf 0 (SRef 0 [2; 3]))) (ERight Z.add (ELeaf 1 (SRef 0 [3; 2])) 10) = Ok ([2; 2], [-101; -134; -95; -128]) /\
  product_exprs 0 Z.add Z.mul true 100 ex_m (EUn Z.opp (ELeaf 0 (SRef 0 [2; 3]))) (ELeaf 1 (SRef 0 [3; 2])) = Ok ([2; 2], [-11; -14; -5; -8]) /\
  product_exprs 0 Z.add Z.mul true 100 ex_m (EUn Z.opp (ELeaf 0 (SRef 0 [2; 3]))) (EUn Z.opp (ELeaf 1 (SRef 0 [2; 3]))) = Abort /\
  blas_product_scaled 0 Z.add Z.mul true ex_m 2 0 0 [2; 3] 1 0 [3; 2] (repeat 99 4) = Ok ([2; 2], [22; 28; 10; 16]) /\
  blas_product_scaled 0 Z.add Z.mul true ex_m 2 0 0 [2; 3] 1 0 [2; 3] (repeat 99 4) = Abort.
Proof.
  assert (Vw : forall es, good_shape es -> zprod es = 6 -> is_view 100 (SRef 0 es) es (map (fun q => 0 + q) (iota (zprod es)))).
  { intros es G E. apply is_view_ref; [exact G|]. rewrite E. cbn. lia. }
  assert (G : good_shape [2; 3] /\ good_shape [3; 2]) by (split; repeat split; try discriminate; repeat constructor; try lia; unfold zprod, MAXSZ; cbn; lia). destruct G as [G1 G2].
  assert (In_ : forall sid es, (sid < 2)%nat -> zprod es = 6 -> inside ex_m sid (map (fun q => 0 + q) (iota (zprod es)))).
  { intros sid es Hs E. assert (X : exists c, nth_error ex_m sid = Some c /\ length c = 6%nat) by (destruct sid as [|[|]]; [eexists; split; reflexivity|eexists; split; reflexivity|lia]).
    destruct X as (c & X1 & X2). exists c. split; [exact X1|]. rewrite X2, E. cbn. repeat constructor; lia. }
  split; [split; [apply ok_un; eapply ok_leaf; [apply Vw; auto|apply In_; auto]|]|].
  { intros i j Hi Hj. assert (i = 0 \/ i = 1) as [->| ->] by lia; assert (j = 0 \/ j = 1 \/ j = 2) as [->|[->| ->]] by lia; reflexivity. }
  split; [split; [apply ok_right; eapply ok_leaf; [apply Vw; auto|apply In_; auto]|]|].
  { intros i j Hi Hj. assert (i = 0 \/ i = 1 \/ i = 2) as [->|[->| ->]] by lia; assert (j = 0 \/ j = 1) as [->| ->] by lia; reflexivity. }
  repeat split; vm_compute; reflexivity.
Qed.
Example C78_double_ex : let A := map dbl [1; 2; 3; 4; 5; 6] in let B := map dbl [1; 0; 2; 1; 3; -1] in
  Forall is_double A /\ Forall is_double B /\
  blas_product_scaled fzero fadd fmul true [A; B] (dbl (-3)) 0 0 [2; 3] 1 0 [3; 2] (repeat S754_nan 4) = Ok ([2; 2], map dbl [-33; -42; -15; -24]) /\
  product_exprs fzero fadd fmul true 100 [A; B] (ELeft fmul (dbl (-3)) (ELeaf 0 (SRef 0 [2; 3]))) (ELeaf 1 (SRef 0 [3; 2])) = Ok ([2; 2], map dbl [-33; -42; -15; -24]).
Proof. split; [repeat constructor|]. split; [repeat constructor|]. split; vm_compute; reflexivity. Qed.
