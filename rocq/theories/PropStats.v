(** * PropStats: C46 and C47, sums, means, variances and standard deviations. *)

From Coq Require Import ZArith List Bool Lia Floats.SpecFloat Reals Lra.
From Verif Require Import Base Coerce Reduce Random Stats ReduceSpec StatsSpec StatsProofs StatsInt.
Import ListNotations.
Open Scope Z_scope.

(** 0.1 and 1e308, as doubles. *)
Local Notation tenth := (S754_finite false 7205759403792794 (-56)).
Local Notation huge := (S754_finite false 5010420900022432 971).

(** ** C46 *)

(** Any list of doubles whose computed sum is finite: the sum differs from the exact sum by at most
    ((1+2^-53)^(n-1) - 1) times the sum of the absolute values. *)
Theorem C46_sum_accurate : forall l : list spec_float, l <> [] -> Forall is_double l -> finite (fsum l fzero) ->
  (Rabs (dval (fsum l fzero) - rsum (map dval l)) <= ((1 + roundoff) ^ (length l - 1) - 1) * rsum (map Rabs (map dval l)))%R.
Proof. exact fsum_accurate. Qed.
Print Assumptions C46_sum_accurate.

(** The same with a start value. *)
Theorem C46_sum_with_start : forall (l : list spec_float) (start : spec_float), Forall is_double l -> is_double start -> finite (fsum l start) ->
  (Rabs (dval (fsum l start) - (dval start + rsum (map dval l))) <= ((1 + roundoff) ^ length l - 1) * (Rabs (dval start) + rsum (map Rabs (map dval l))))%R.
Proof. intros. now apply fsum_error. Qed.
Print Assumptions C46_sum_with_start.

(** The mean is the double nearest to the computed sum divided by n, and close to the exact mean. *)
Theorem C46_mean_accurate : forall l : list spec_float, l <> [] -> Forall is_double l -> Z.of_nat (length l) <= 2 ^ 53 -> finite (fmean l fzero) ->
  nearest (fmean l fzero) (dval (fsum l fzero) / INR (length l)) /\
  (Rabs (dval (fmean l fzero) - rmean (map dval l)) <= ((1 + roundoff) ^ length l - 1) * rmean (map Rabs (map dval l)) + tiny)%R.
Proof. exact fmean_accurate. Qed.
Print Assumptions C46_mean_accurate.

Example C46_ex : [tenth; tenth; tenth] <> [] /\ Forall is_double [tenth; tenth; tenth] /\ finite (fsum [tenth; tenth; tenth] fzero)
  /\ Z.of_nat (length [tenth; tenth; tenth]) <= 2 ^ 53 /\ finite (fmean [tenth; tenth; tenth] fzero).
Proof. split; [discriminate|]. split; [repeat constructor|]. vm_compute. repeat split; discriminate. Qed.

(** Integer-valued data: the sum is exact whenever every partial sum is at most 2^53 in absolute value, and so
    is the mean when it is an integer. *)
Theorem C46_sum_of_integers : forall l : list Z, (forall z, In z l -> Z.abs z <= 2 ^ 53) ->
  (forall k, (k <= length l)%nat -> Z.abs (zsum (firstn k l)) <= 2 ^ 53) -> fsum (map dbl l) fzero = dbl (zsum l).
Proof. intros l H1 H2. exact (fsum_int l 0 H1 H2). Qed.
Print Assumptions C46_sum_of_integers.
Theorem C46_mean_of_integers : forall (l : list Z) (m : Z), l <> [] -> Z.of_nat (length l) <= 2 ^ 53 -> (forall z, In z l -> Z.abs z <= 2 ^ 53) ->
  (forall k, (k <= length l)%nat -> Z.abs (zsum (firstn k l)) <= 2 ^ 53) -> zsum l = m * Z.of_nat (length l) ->
  fmean (map dbl l) fzero = dbl m.
Proof. exact fmean_int. Qed.
Print Assumptions C46_mean_of_integers.
Example C46_int_ex : let l := [3; -1; 7] in (forall z, In z l -> Z.abs z <= 2 ^ 53) /\ (forall k, (k <= length l)%nat -> Z.abs (zsum (firstn k l)) <= 2 ^ 53)
  /\ zsum l = 3 * Z.of_nat (length l) /\ fsum (map dbl l) fzero = dbl 9 /\ fmean (map dbl l) fzero = dbl 3.
Proof.
  cbv zeta. split; [intros z [<-|[<-|[<-|[]]]]; cbn; lia|]. split; [|vm_compute; auto].
  intros [|[|[|[|k]]]] H; cbn in *; lia.
Qed.

(** One NaN makes the sum and the mean NaN, whatever the other elements are. *)
Theorem C46_nan : forall (l : list spec_float) (start : spec_float), In S754_nan l \/ start = S754_nan -> fsum l start = S754_nan /\ fmean l start = S754_nan.
Proof.
  assert (P : forall x, fadd x S754_nan = S754_nan) by (intros []; reflexivity).
  assert (Q : forall l, fsum l S754_nan = S754_nan) by (induction l; auto).
  assert (G : forall l start, In S754_nan l \/ start = S754_nan -> fsum l start = S754_nan).
  { induction l as [|x l IH]; intros s [H| ->]; try contradiction; try apply Q.
    destruct H as [->|H]; [|apply IH; now left]. change (fsum l (fadd s S754_nan) = S754_nan). rewrite P. apply Q. }
  intros l s H. split; [now apply G|]. unfold fmean. rewrite (G l s H). reflexivity.
Qed.
Print Assumptions C46_nan.
Example C46_nan_ex : In S754_nan [tenth; S754_nan; S754_infinity true].
Proof. cbn. auto. Qed.

(** Empty ranges: the sum is 0, the mean is not a number. *)
Theorem C46_empty : fsum [] fzero = dbl 0 /\ fmean [] fzero = S754_nan.
Proof. split; reflexivity. Qed.
Print Assumptions C46_empty.

(** The mean need not lie between the smallest and the largest element ... *)
Theorem C46_mean_outside_refuted : exists l : list spec_float, l <> [] /\ (forall x, In x l -> x = tenth) /\ SFltb tenth (fmean l fzero) = true.
Proof. exists [tenth; tenth; tenth]. split; [discriminate|]. split; [|reflexivity]. intros x [<-|[<-|[<-|[]]]]; reflexivity. Qed.
Print Assumptions C46_mean_outside_refuted.
(** ... nor be finite when all elements are. *)
Theorem C46_mean_overflow_refuted : exists l : list spec_float, Forall is_double l /\ Forall finite l /\ fmean l fzero = S754_infinity false.
Proof. exists [huge; huge]. repeat split; repeat constructor. Qed.
Print Assumptions C46_mean_overflow_refuted.

(** ** C47 *)

(** At least two finite doubles: variance and standard deviation are never negative and never NaN. *)
Theorem C47_var_nonneg : forall l : list spec_float, (2 <= length l)%nat -> Z.of_nat (length l) <= 2 ^ 53 -> Forall is_double l -> Forall finite l ->
  nonneg (fvar l fzero) /\ nonneg (fsd l fzero).
Proof. exact fvar_nonneg. Qed.
Print Assumptions C47_var_nonneg.

(** Distance from the exact corrected sample variance when the result is finite; d bounds the error of the mean. *)
Theorem C47_var_accurate : forall l : list spec_float, (2 <= length l)%nat -> Z.of_nat (length l) <= 2 ^ 53 -> Forall is_double l -> finite (fvar l fzero) ->
  (let n := INR (length l) in
   let d := ((1 + roundoff) ^ length l - 1) * rmean (map Rabs (map dval l)) + tiny in
   Rabs (dval (fvar l fzero) - rvar (map dval l)) <=
     ((1 + roundoff) ^ (length l + 3) - 1) * rvar (map dval l) + (1 + roundoff) ^ (length l + 3) * (n / (n - 1) * (d * d))
     + (2 * (1 + roundoff) ^ length l + 1) * tiny)%R.
Proof. exact fvar_accurate. Qed.
Print Assumptions C47_var_accurate.

(** The standard deviation is the double nearest to the square root of the computed variance. *)
Theorem C47_sd_nearest : forall l : list spec_float, (2 <= length l)%nat -> Z.of_nat (length l) <= 2 ^ 53 -> Forall is_double l -> finite (fvar l fzero) ->
  nearest (fsd l fzero) (sqrt (dval (fvar l fzero))).
Proof. exact fsd_accurate. Qed.
Print Assumptions C47_sd_nearest.

Example C47_ex : let l := [tenth; dbl 3; dbl (-2)] in (2 <= length l)%nat /\ Z.of_nat (length l) <= 2 ^ 53 /\ Forall is_double l /\ Forall finite l /\ finite (fvar l fzero).
Proof. cbv zeta. split; [cbn; lia|]. split; [cbn; lia|]. split; [repeat constructor|]. split; [repeat constructor|]. exact I. Qed.

(** meansd is the pair of mean and sd, for all lists and start values. *)
Theorem C47_meansd : forall (l : list spec_float) (start : spec_float), fmeansd l start = (fmean l start, fsd l start).
Proof. reflexivity. Qed.
Print Assumptions C47_meansd.

(** Integer-valued data with an integer mean: the variance is the correctly rounded quotient of the exact sum of squared
    deviations. *)
Theorem C47_var_of_integer_valued : forall (l : list Z) (m : Z), (2 <= length l)%nat -> Z.of_nat (length l) <= 2 ^ 53 -> (forall z, In z l -> Z.abs z <= 2 ^ 53) ->
  (forall k, (k <= length l)%nat -> Z.abs (zsum (firstn k l)) <= 2 ^ 53) -> zsum l = m * Z.of_nat (length l) -> deviations m l <= 2 ^ 53 ->
  fvar (map dbl l) fzero = fdiv (dbl (deviations m l)) (dbl (Z.of_nat (length l) - 1)).
Proof. exact fvar_int. Qed.
Print Assumptions C47_var_of_integer_valued.
Example C47_int_ex : let l := [3; -1; 7] in zsum l = 3 * Z.of_nat (length l) /\ deviations 3 l = 32 /\ fvar (map dbl l) fzero = dbl 16 /\ fsd (map dbl l) fzero = dbl 4.
Proof. vm_compute. auto. Qed.

(** Equal elements need not have variance 0; see the next theorems for short ranges. *)
Theorem C47_constant_refuted : exists l : list spec_float, (2 <= length l)%nat /\ (forall x, In x l -> x = tenth) /\ SFltb fzero (fvar l fzero) = true.
Proof.
  exists (repeat tenth 10). split; [rewrite repeat_length; lia|]. split; [intros x Hx; now apply repeat_spec in Hx|]. vm_compute. reflexivity.
Qed.
Print Assumptions C47_constant_refuted.
(** One element: NaN.  No element: -0. *)
Theorem C47_one_element : forall x, is_double x -> fvar [x] fzero = S754_nan /\ fsd [x] fzero = S754_nan.
Proof. exact fvar_one. Qed.
Print Assumptions C47_one_element.
Example C47_one_ex : is_double tenth.
Proof. reflexivity. Qed.
Theorem C47_no_element : fvar [] fzero = S754_zero true.
Proof. reflexivity. Qed.
Print Assumptions C47_no_element.

(** *** integral element types *)

(** The sum, its running values, the elements and the sum of the squared deviations fit in the element type: the result is
    that sum, about the truncated mean, divided by n - 1 (truncated). *)
Theorem C47_integer_var : forall (t : ity) (l : list Z), std_ty t -> elements_fit t l -> partial_sums_fit t l 0 ->
  (2 <= length l)%nat -> Z.of_nat (length l) < 2 ^ 63 -> deviations (Z.quot (zsum l) (Z.of_nat (length l))) l <= ihi t ->
  ivar t l 0 = Ok (deviations (Z.quot (zsum l) (Z.of_nat (length l))) l / (Z.of_nat (length l) - 1)).
Proof. intros. now apply ivar_value. Qed.
Print Assumptions C47_integer_var.

(** ... which is less than 1 below and n/(n-1) above the exact variance (scaled by n(n-1) here), and its floor when n divides the sum. *)
Theorem C47_integer_var_accurate : forall (t : ity) (l : list Z) (r : Z), std_ty t -> elements_fit t l -> partial_sums_fit t l 0 ->
  (2 <= length l)%nat -> Z.of_nat (length l) < 2 ^ 63 -> deviations (Z.quot (zsum l) (Z.of_nat (length l))) l <= ihi t ->
  ivar t l 0 = Ok r ->
  let n := Z.of_nat (length l) in
  scaled_variance l - n * (n - 1) < n * (n - 1) * r < scaled_variance l + n * n
  /\ (zsum l mod n = 0 -> r = scaled_variance l / (n * (n - 1))).
Proof.
  intros t l r T X P L N Q E. rewrite (C47_integer_var t l T X P L N Q) in E. injection E as E. now apply ivar_bounds.
Qed.
Print Assumptions C47_integer_var_accurate.
(** The exact variance over the reals, times n(n-1), is the integer used above. *)
Theorem C47_scaled : forall l : list Z, (2 <= length l)%nat ->
  (let n := INR (length l) in n * (n - 1) * rvar (map IZR l) = IZR (scaled_variance l))%R.
Proof. exact scaled_rvar. Qed.
Print Assumptions C47_scaled.

Example C47_integer_ex : let l := [1; 5; -3; 100] in std_ty i32 /\ elements_fit i32 l /\ partial_sums_fit i32 l 0 /\ (2 <= length l)%nat
  /\ deviations (Z.quot (zsum l) (Z.of_nat (length l))) l <= ihi i32 /\ ivar i32 l 0 = Ok 2461.
Proof.
  cbv zeta. split; [unfold std_ty; cbn; auto|]. split; [repeat constructor; cbn; lia|]. split.
  { intros [|[|[|[|[|k]]]]] H; cbn in *; lia. }
  split; [cbn; lia|]. split; [vm_compute; discriminate|reflexivity].
Qed.

(** The standard deviation is the square root of that result. *)
Theorem C47_integer_sd : forall t l start v, ivar t l start = Ok v -> isd t l start = Ok (fsqrt (dbl v)).
Proof. intros t l start v E. unfold isd. now rewrite E. Qed.
Print Assumptions C47_integer_sd.

(** The variance of {1, 2} as ints is 1, not 0.5; of bytes the squares silently wrap; one element divides by zero. *)
Theorem C47_integer_refuted : ivar i32 [1; 2] 0 = Ok 1 /\ ivar (ITy 8 true) [100; -100] 0 = Ok 32 /\ (forall t x, std_ty t -> ilo t <= x <= ihi t -> ivar t [x] 0 = UB).
Proof.
  split; [reflexivity|]. split; [reflexivity|]. exact ivar_one.
Qed.
Print Assumptions C47_integer_refuted.
