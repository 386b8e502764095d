(** * PropSingle: property C85 (sources that can be read only once).
    [l]: the values an input stream still delivers; the calls are made with the iterators [std::istream_iterator<A>(is)],
    [std::istream_iterator<A>()]. *)

From Coq Require Import ZArith List Bool Lia Permutation Floats.SpecFloat Reals Lra.
From Verif Require Import Base Spec Lemmas Desc Slice Coerce Random Reduce Stats Freq ReduceSpec LifeSpec StatsSpec ViewThms DescProofs RandomProofs ReduceProofs StatsProofs StatsInt RangeLoop
  RangeLoopSpec RangeLoopProofs Single SingleSpec SingleProofs.
Import ListNotations.
Open Scope Z_scope.

(** ** Algorithms with one loop *)
(** Integers: the maximum, the minimum and their first positions among all values of the stream, which is read to its end. *)
Theorem C85_max_min : forall t l fuel, elements_fit t l -> l <> [] -> Z.of_nat (length l) < W -> (length l < fuel)%nat ->
  exists hi lo p q, s_max Z.ltb fuel l (ilo t) = Ok (hi, []) /\ is_max Z.ltb l hi /\ s_min Z.ltb fuel l (ihi t) = Ok (lo, []) /\ is_min Z.ltb l lo /\
    s_which_max Z.ltb fuel l (ilo t) = Ok (p, []) /\ first_at l hi p /\ s_which_min Z.ltb fuel l (ihi t) = Ok (q, []) /\ first_at l lo q.
Proof.
  intros t l fuel E N L Hf. unfold elements_fit in E. rewrite Forall_forall in E.
  assert (M : is_max Z.ltb l (max_loop Z.ltb l (ilo t))).
  { apply (max_is_max Z.ltb _ Zlt_linear); auto; [intros x Hx; apply Z.ltb_ge; now apply E|]. destruct l as [|x l]; [congruence|]. exists x. split; [left|]; auto. }
  assert (M' : is_min Z.ltb l (min_loop Z.ltb l (ihi t))).
  { rewrite min_flip. apply (max_is_max _ _ (linear_flip _ _ Zlt_linear)); auto; [intros x Hx; apply Z.ltb_ge; now apply E|]. destruct l as [|x l]; [congruence|]. exists x. split; [left|]; auto. }
  destruct (which_max_total Z.ltb _ Zlt_linear l (ilo t)) as (h & Hh & Ph); auto. { intros x Hx. split; auto. apply Z.ltb_ge. now apply E. }
  destruct (which_max_total _ _ (linear_flip _ _ Zlt_linear) l (ihi t)) as (h' & Hh' & Ph'); auto. { intros x Hx. split; auto. apply Z.ltb_ge. now apply E. }
  assert (E1 : h = max_loop Z.ltb l (ilo t)). { destruct Hh as [I1 B1], M as [I2 B2]. specialize (B1 _ I2). specialize (B2 _ I1). apply Z.ltb_ge in B1, B2. lia. }
  assert (E2 : h' = min_loop Z.ltb l (ihi t)). { destruct Hh' as [I1 B1], M' as [I2 B2]. specialize (B1 _ I2). specialize (B2 _ I1). cbn in B1. apply Z.ltb_ge in B1, B2. lia. }
  subst h h'. exists (max_loop Z.ltb l (ilo t)), (min_loop Z.ltb l (ihi t)), (which_max Z.ltb l (ilo t)), (which_min Z.ltb l (ihi t)).
  unfold s_max, s_min, s_which_max, s_which_min. rewrite !of_stream_each by auto. rewrite !list_goes, list_which_max, list_which_min, list_max, list_min. cbn [bindO fst snd].
  rewrite skipn_all. repeat split; auto; try apply M; try apply M'; try apply Ph. all: rewrite which_min_flip'; apply Ph'.
Qed.
Print Assumptions C85_max_min.

(** Any elements, any order, any start value: what the algorithms give for an array of these values (C26). *)
Theorem C85_same_as_array : forall (A : Type) (lt : A -> A -> bool) (l : list A) start fuel, (length l < fuel)%nat ->
  s_max lt fuel l start = Ok (max_loop lt l start, []) /\ s_min lt fuel l start = Ok (min_loop lt l start, []) /\
  s_which_max lt fuel l start = Ok (which_max lt l start, []) /\ s_which_min lt fuel l start = Ok (which_min lt l start, []).
Proof.
  intros A lt l start fuel Hf. unfold s_max, s_min, s_which_max, s_which_min. rewrite !of_stream_each by auto.
  rewrite !list_goes, list_which_max, list_which_min, list_max, list_min. cbn [bindO fst snd]. rewrite skipn_all. auto.
Qed.
Print Assumptions C85_same_as_array.

(** Sums and products of integers that do not overflow. *)
Theorem C85_sum_prod : forall t l fuel start, std_ty t -> (length l < fuel)%nat ->
  (partial_sums_fit t l start -> s_isum t fuel l start = Ok (start + zsum l, [])) /\
  (partial_prods_fit t l start -> s_iprod t fuel l start = Ok (start * zprod l, [])).
Proof.
  intros t l fuel start T Hf. unfold s_isum, it_isum, s_iprod. rewrite !of_stream_each by auto. rewrite !list_goesO. fold (isum t l start) (iprod t l start). split; intros P.
  - rewrite isum_exact by auto. cbn. now rewrite skipn_all.
  - rewrite iprod_exact by auto. cbn. now rewrite skipn_all.
Qed.
Print Assumptions C85_sum_prod.
(** Of doubles: added, multiplied from the left (accuracy: C46, C75). *)
Theorem C85_float_sum_prod : forall l fuel start, (length l < fuel)%nat ->
  s_fsum fuel l start = Ok (fold_left fadd l start, []) /\ s_fprod fuel l start = Ok (fold_left fmul l start, []).
Proof. intros l fuel start Hf. unfold s_fsum, it_fsum, s_fprod. rewrite !of_stream_each by auto. rewrite !list_goes. cbn. now rewrite !skipn_all. Qed.
Print Assumptions C85_float_sum_prod.

(** The number and the positions of the true values. *)
Theorem C85_count_which : forall (A : Type) (b : A -> bool) (l : list A) fuel, Z.of_nat (length l) < W -> (length l < fuel)%nat ->
  s_count b fuel l = Ok (Z.of_nat (length (filter b l)), []) /\ s_which b fuel l = Ok (positions_where b l, []).
Proof.
  intros A b l fuel L Hf. unfold s_count, it_count, s_which. rewrite !of_stream_each by auto. rewrite list_goes, list_count, list_which. cbn [bindO fst snd].
  rewrite skipn_all, count_spec, which_spec by auto. auto.
Qed.
Print Assumptions C85_count_which.

(** The tests stop at the first value that decides, at position [j]; the stream still delivers exactly the values after it. *)
Theorem C85_all_any_none : forall (A : Type) (b : A -> bool) (l : list A) fuel, (length l < fuel)%nat ->
  exists f t, first_where (fun x => negb (b x)) l f /\ first_where b l t /\
    s_all b fuel l = Ok (forallb b l, skipn (S f) l) /\ s_any b fuel l = Ok (existsb b l, skipn (S t) l) /\
    s_none b fuel l = Ok (negb (existsb b l), skipn (S t) l).
Proof.
  intros A b l fuel Hf. unfold s_all, s_any, s_none. rewrite !of_stream_each by auto.
  assert (K : forall n, skipn (Nat.min (S n) (length l)) l = skipn (S n) l).
  { intros n. destruct (Nat.le_gt_cases (length l) (S n)) as [H|H]; [|now rewrite Nat.min_l by lia]. rewrite Nat.min_r by lia. rewrite skipn_all, skipn_all2; auto. }
  destruct (list_until (fun x => negb (b x)) false true ltac:(discriminate) l) as (f & -> & Ff).
  destruct (list_until b true false ltac:(discriminate) l) as (t & -> & Ft).
  destruct (list_until b false true ltac:(discriminate) l) as (t' & -> & Ft').
  cbn [bindO fst snd]. rewrite !K. exists f, t. split; [exact Ff|]. split; [exact Ft|].
  assert (Et : t' = t).
  { destruct Ft as [B1 E1], Ft' as [B2 E2]. destruct (lt_eq_lt_dec t t') as [[H|H]|H]; auto; exfalso.
    - destruct E1 as [->|(x & Ex & Px)]; [|rewrite (B2 t x H Ex) in Px; discriminate]. destruct E2 as [->|(x & Ex & _)]; [lia|]. assert (t' < length l)%nat by (apply nth_error_Some; congruence). lia.
    - destruct E2 as [->|(x & Ex & Px)]; [|rewrite (B1 t' x H Ex) in Px; discriminate]. destruct E1 as [->|(x & Ex & _)]; [lia|]. assert (t < length l)%nat by (apply nth_error_Some; congruence). lia. }
  subst t'. assert (K1 : (if existsb (fun x => negb (b x)) l then false else true) = forallb b l).
  { clear. induction l as [|x l IH]; cbn; auto. destruct (b x); cbn; [exact IH|reflexivity]. }
  rewrite K1. split; [reflexivity|]. destruct (existsb b l); split; reflexivity.
Qed.
Print Assumptions C85_all_any_none.

Example C85_one_loop_ex : elements_fit i32 [4; -7; 9; 9] /\ partial_sums_fit i32 [4; -7; 9; 9] 0 /\ s_max Z.ltb 5 [4; -7; 9; 9] (ilo i32) = Ok (9, []) /\
  s_which_min Z.ltb 5 [4; -7; 9; 9] (ihi i32) = Ok (1, []) /\ s_isum i32 5 [4; -7; 9; 9] 0 = Ok (15, []) /\
  s_which (Z.ltb 0) 5 [4; -7; 9; 9] = Ok ([0; 2; 3], []) /\ s_all (Z.ltb 0) 5 [4; -7; 9; 9] = Ok (false, [9; 9]) /\ s_any (Z.ltb 10) 5 [4; -7; 9; 9] = Ok (false, []).
Proof. repeat split; try reflexivity; try (repeat constructor; cbn; lia). all: cbn in H; destruct k as [|[|[|[|[|k]]]]]; cbn; lia. Qed.

(** ** Algorithms that read the source more than once *)
(** After the first pass the stream is empty, and a copy of the first iterator only has the first value.  The mean of integers is the sum
    of the values, or the first value divided by their number, depending on the order in which the operands of [/] are evaluated. *)
Theorem C85_mean : forall t x l fuel, std_ty t -> elements_fit t (x :: l) -> partial_sums_fit t (x :: l) 0 -> Z.of_nat (length (x :: l)) < 2 ^ 63 ->
  (length (x :: l) < fuel)%nat ->
  s_imean true t fuel (x :: l) 0 = Ok (zsum (x :: l), []) /\ s_imean false t fuel (x :: l) 0 = Ok (Z.quot x (Z.of_nat (length (x :: l))), []).
Proof.
  intros t x l fuel T E P N Hf. inversion E; subst. cbn [length] in Hf. split; [apply smean_first|apply smean_last]; auto; lia.
Qed.
Print Assumptions C85_mean.
(** The variance of at least two integers is 0, whatever they are. *)
Theorem C85_var : forall order t x y l fuel, std_ty t -> ilo t <= x <= ihi t -> Z.of_nat (length (x :: y :: l)) < 2 ^ 63 -> (length (x :: y :: l) < fuel)%nat ->
  s_ivar order t fuel (x :: y :: l) 0 = Ok 0.
Proof. intros order t x y l fuel T R N Hf. apply svar_zero; auto. cbn in Hf. lia. Qed.
Print Assumptions C85_var.
(** Doubles: the mean that [meansd] returns is the first value; variance and standard deviations are 0. *)
Theorem C85_float_var : forall order x y l fuel, is_double x -> finite x -> Z.of_nat (length (x :: y :: l)) <= 2 ^ 53 -> (length (x :: y :: l) < fuel)%nat ->
  (exists v, s_fvar order fuel (x :: y :: l) fzero = Ok v /\ dval v = 0%R /\ finite v) /\
  (exists v, s_fsd order fuel (x :: y :: l) fzero = Ok v /\ dval v = 0%R) /\
  exists mu v, s_fmeansd order fuel (x :: y :: l) fzero = Ok (mu, v) /\ finite mu /\ dval mu = dval x /\ dval v = 0%R.
Proof.
  intros order x y l fuel D F N Hf. destruct (moments_first order fuel x y l) as (mu & v & E & Dm & Fm & Vm & Dv & Fv & Vv); auto. { cbn in Hf; lia. }
  assert (Q : dval (fsqrt v) = 0%R) by (rewrite fsqrt_val by auto; rewrite Vv, sqrt_0; apply rnd0).
  unfold s_fsd, s_fvar, s_fmeansd. rewrite E. cbn [bindO fst snd]. split; [|split]; eauto 8.
Qed.
Print Assumptions C85_float_var.
(** One value only, as for arrays (C27): a division by 0, that is undefined behaviour for integers and NaN for doubles. *)
Theorem C85_var_one : forall order fuel, (1 < fuel)%nat ->
  (forall t x, std_ty t -> ilo t <= x <= ihi t -> s_ivar order t fuel [x] 0 = UB) /\
  (forall x, is_double x -> finite x -> s_fvar order fuel [x] fzero = Ok S754_nan).
Proof.
  intros order fuel Hf. split.
  - intros t x T R. unfold s_ivar, of_stream. cbn [sit_make sit_read]. rewrite distance_some by (cbn; lia). cbn [bindO fst snd].
    rewrite smean_once by (auto; lia). cbn [bindO fst snd]. rewrite each_again by lia. rewrite list_goesO. cbn [foldO].
    pose proof (ilo_neg t T). pose proof (ihi_nonneg t T).
    assert (E : isquare_step t x 0 x = Ok (0 + (x - x) * (x - x))).
    { apply step_fit; auto; try lia. exists x, 1. rewrite Z.quot_1_r. lia. }
    rewrite E. cbn [bindO fst snd]. replace (x - x) with 0 by lia. unfold idiv. replace (conv_ty (common_ty (promote t) (promote i64)) (Z.of_nat (length [x]) - 1)) with 0; [reflexivity|]. cbn [length]. clear - T. destruct t as [b s]. unfold std_ty in T. cbn [bits] in T. destruct T as [<-|[<-|[<-|[<-|[]]]]]; destruct s; reflexivity.
  - intros x D F. destruct (zero_plus x D F) as [F0 V0]. set (a := fadd fzero x) in *. assert (Da : is_double a) by (apply fadd_double; auto using fzero_double).
    destruct (by_one a Da F0) as [F1 V1]. set (mu := fdiv a (dbl 1)) in *. assert (Dm : is_double mu) by (apply fdiv_double; auto using dbl_double).
    rewrite V0 in V1. destruct (minus_same x mu D Dm F F1 (eq_sym V1)) as [F2 V2]. assert (D2 : is_double (fsub x mu)) by (apply fsub_double; auto).
    destruct (squared_zero _ D2 F2 V2) as [F3 V3]. assert (D3 : is_double (fsquare (fsub x mu))) by (unfold fsquare; apply fmul_double; auto).
    destruct (zero_plus _ D3 F3) as [F4 V4]. rewrite V3 in V4.
    unfold s_fvar, s_moments, of_stream. cbn [sit_make sit_read]. rewrite distance_some by (cbn; lia). cbn [bindO fst snd]. rewrite sfmean_once by lia. cbn [bindO fst snd].
    fold a mu. rewrite each_again by lia. rewrite list_goes. cbn [bindO fst snd fold_left]. destruct (fadd fzero (fsquare (fsub x mu))) as [s|s| |s m e]; cbn in F4; try contradiction.
    + destruct s; reflexivity.
    + exfalso. cbn in V4. apply Rmult_integral in V4. destruct V4 as [V4|V4]; [|now apply (powerRZ_NOR 2 e) in V4; lra].
      destruct s; [apply Ropp_eq_0_compat in V4; rewrite Ropp_involutive in V4|]; apply eq_IZR in V4; discriminate.
Qed.
Print Assumptions C85_var_one.
(** The share of true values: their number, or the first value's share of the whole. *)
Theorem C85_freq : forall (A : Type) (b : A -> bool) x l fuel, Z.of_nat (length (x :: l)) < W -> (length (x :: l) < fuel)%nat ->
  s_freq b true fuel (x :: l) = Ok (fdiv (dbl (Z.of_nat (length (filter b (x :: l))))) (dbl 1)) /\
  s_freq b false fuel (x :: l) = Ok (fdiv (dbl (if b x then 1 else 0)) (dbl (Z.of_nat (length (x :: l))))).
Proof.
  intros A b x l fuel N Hf. cbn [length] in Hf. unfold s_freq, of_stream, it_count. cbn [sit_make sit_read]. split.
  - rewrite each_some by lia. rewrite list_goes, list_count. cbn [bindO fst snd]. rewrite skipn_all, distance_again by lia. cbn [bindO fst snd]. rewrite count_spec by auto. reflexivity.
  - rewrite distance_some by lia. cbn [bindO fst snd]. rewrite each_again by lia. rewrite list_goes. cbn [fold_left bindO fst snd]. destruct (b x); reflexivity.
Qed.
Print Assumptions C85_freq.
(** nth(first, last, n): the first value for n = 0, undefined behaviour for every greater n. *)
Theorem C85_nth : forall (A : Type) (ne : list A -> nat -> list A) x l n fuel, (forall v k, Permutation v (ne v k)) -> (length (x :: l) < fuel)%nat ->
  s_nth ne fuel (x :: l) n = match n with O => Ok x | S _ => UB end.
Proof.
  intros A ne x l n fuel P Hf. cbn [length] in Hf. unfold s_nth, of_stream. cbn [sit_make sit_read]. rewrite distance_some by lia. cbn [bindO fst snd].
  rewrite each_again by lia. rewrite list_goes. cbn [fold_left app bindO fst snd]. unfold nth_model. rewrite (Permutation_length_1_inv (P [x] n)).
  destruct n as [|[|n]]; reflexivity.
Qed.
Print Assumptions C85_nth.
(** array(begin, end): a vector of length 1 with the first value; the other values are lost. *)
Theorem C85_vector : forall (A : Type) (x : A) l fuel, (length (x :: l) < fuel)%nat -> s_vector fuel (x :: l) = Ok ([x], []).
Proof.
  intros A x l fuel Hf. cbn [length] in Hf. unfold s_vector, of_stream. cbn [sit_make sit_read]. rewrite distance_some by lia. cbn [bindO fst snd].
  rewrite distance_again by lia. cbn [bindO fst snd]. replace (Z.of_nat (length (x :: l)) <? 1) with false by (symmetry; apply Z.ltb_ge; cbn [length]; lia).
  change (Z.to_nat 1) with 1%nat. rewrite copy_n_spec. reflexivity.
Qed.
Print Assumptions C85_vector.
(** So none of these is the mean, the variance, the share, the n-th smallest value or the vector of the values read. *)
Theorem C85_reread_refuted : exists l : list Z, elements_fit i32 l /\ partial_sums_fit i32 l 0 /\
  mean_iter i32 l 0 = Ok 5 /\ s_imean true i32 9 l 0 = Ok (15, []) /\ s_imean false i32 9 l 0 = Ok (2, []) /\
  ivar i32 l 0 = Ok 3 /\ s_ivar true i32 9 l 0 = Ok 0 /\ s_ivar false i32 9 l 0 = Ok 0 /\
  freq (Z.ltb 5) l = fdiv (dbl 1) (dbl 3) /\ s_freq (Z.ltb 5) true 9 l = Ok (dbl 1) /\ s_freq (Z.ltb 5) false 9 l = Ok (fdiv (dbl 1) (dbl 3)) /\
  s_nth (fun v _ => v) 9 l 1 = UB /\ s_vector 9 l = Ok ([7], []).
Proof. exists [7; 4; 4]. repeat split; try reflexivity; try (repeat constructor; cbn; lia). all: cbn in H; destruct k as [|[|[|[|k]]]]; cbn; lia. Qed.
Print Assumptions C85_reread_refuted.

(** ** Arrays *)
(** array(it, dims...): the element at index tuple [ix] is the value number [cm_pos es ix] of the stream. *)
Theorem C85_array : forall (A : Type) (es : list Z) (l : list A), fits es -> zprod es <= Z.of_nat (length l) ->
  exists vs, s_array es l = Ok (vs, skipn (S (Z.to_nat (zprod es))) l) /\ Z.of_nat (length vs) = zprod es /\
    forall ix, in_range es ix -> nth_error vs (Z.to_nat (desc_at es ix)) = nth_error l (Z.to_nat (cm_pos es ix)).
Proof.
  intros A es l (N & P & W0) L. assert (P0 : 0 <= zprod es) by (apply zprod_nonneg; auto). unfold s_array, desc_size. rewrite prod_arr_small by auto. rewrite copy_stream.
  replace (Z.to_nat (zprod es) <=? length l)%nat with true by (symmetry; apply Nat.leb_le; lia).
  exists (firstn (Z.to_nat (zprod es)) l). split; [reflexivity|]. split; [rewrite firstn_length; lia|].
  intros ix R. rewrite desc_at_ok by (auto; lia). pose proof (cm_pos_range es ix R). 
  assert (Q : forall (m : nat) (q : list A) k, (k < m)%nat -> nth_error (firstn m q) k = nth_error q k); [|apply Q; lia].
  clear. induction m as [|m IH]; intros [|x q] [|k] Hk; cbn; auto; try lia. apply IH. lia.
Qed.
Print Assumptions C85_array.
(** Fewer values than elements: undefined behaviour. *)
Theorem C85_array_short_refuted : exists (es : list Z) (l : list Z), fits es /\ l <> [] /\ s_array es l = UB.
Proof. exists [2; 2], [1; 2; 3]. split; [|split; [discriminate|reflexivity]]. split; [discriminate|]. split; [|reflexivity]. repeat constructor; lia. Qed.
Print Assumptions C85_array_short_refuted.
Theorem C85_array_short : forall (A : Type) (es : list Z) (l : list A), fits es -> Z.of_nat (length l) < zprod es -> s_array es l = UB.
Proof.
  intros A es l (_ & P & W0) L. unfold s_array, desc_size. rewrite prod_arr_small by auto. rewrite copy_stream.
  now replace (Z.to_nat (zprod es) <=? length l)%nat with false by (symmetry; apply Nat.leb_gt; lia).
Qed.
Print Assumptions C85_array_short.
(** Every array takes one value more from the stream than it has elements: two arrays filled one after the other do not get consecutive values. *)
Theorem C85_array_skips_refuted : exists (es : list Z) (l : list Z) vs rest ws rest', s_array es l = Ok (vs, rest) /\ s_array es rest = Ok (ws, rest') /\
  vs ++ ws <> firstn (length (vs ++ ws)) l.
Proof. exists [2], [1; 2; 3; 4; 5; 6], [1; 2], [4; 5; 6], [4; 5], []. repeat split; try reflexivity. discriminate. Qed.
Print Assumptions C85_array_skips_refuted.
Example C85_array_ex : s_array [2; 2] [1; 2; 3; 4; 5; 6] = Ok ([1; 2; 3; 4], [6]) /\ fits [2; 2] /\ in_range [2; 2] [1; 0].
Proof. split; [reflexivity|]. split; [|repeat constructor; lia]. split; [discriminate|]. split; [|reflexivity]. repeat constructor; lia. Qed.

(** array(generated, f, dims...): the function is called once for every element, in column-major order of the index tuples, and not again. *)
Theorem C85_generated : forall (F A : Type) (call : F -> option A * F) nt fails es f, fits es ->
  let n := Z.to_nat (zprod es) in
  (forall k, (k < n)%nat -> fails k = false) -> (forall k, (k < n)%nat -> result call k f <> None) ->
  exists vs, s_generated call true nt fails es f = (Built vs, after call n f) /\ length vs = n /\
    forall ix, in_range es ix -> nth_error vs (Z.to_nat (desc_at es ix)) = result call (Z.to_nat (cm_pos es ix)) f.
Proof.
  intros F A call nt fails es f (N & P & W0) n Hf Hr. assert (P0 : 0 <= zprod es) by (apply zprod_nonneg; auto).
  destruct (g_copy_all call fails n 0 f Hf Hr) as (vs & E & L & V). exists vs. unfold s_generated, desc_size. rewrite prod_arr_small by auto. fold n. rewrite E.
  split; [reflexivity|]. split; auto. intros ix R. rewrite desc_at_ok by (auto; lia). pose proof (cm_pos_range es ix R). apply V. unfold n. lia.
Qed.
Print Assumptions C85_generated.
(** If call number [j] is the first that throws, or element [j] the first that cannot be constructed, the function has been called [j + 1]
    times, and the exception reaches the caller; but if the elements are nothrow constructible, the program ends with std::terminate. *)
Theorem C85_generated_throws : forall (F A : Type) (call : F -> option A * F) nt fails es f j, fits es -> Z.of_nat j < zprod es ->
  (forall k, (k < j)%nat -> fails k = false /\ result call k f <> None) -> fails j = true \/ result call j f = None ->
  s_generated call true nt fails es f = (if nt then Terminated else Thrown, after call (S j) f).
Proof.
  intros F A call nt fails es f j (_ & P & W0) J B S1. unfold s_generated, desc_size. rewrite prod_arr_small by auto.
  destruct (g_copy_stops call fails (Z.to_nat (zprod es)) 0 f j ltac:(lia) B S1) as [v E]. rewrite E. reflexivity.
Qed.
Print Assumptions C85_generated_throws.
(** Without storage the function is not called. *)
Theorem C85_generated_no_room : forall (F A : Type) (call : F -> option A * F) nt fails es f, s_generated call false nt fails es f = (Thrown, f).
Proof. reflexivity. Qed.
Print Assumptions C85_generated_no_room.
(** A counter that throws at its third call. *)
Example C85_generated_ex : let call := fun k => if k <? 3 then (Some (10 * k), k + 1) else (None, k + 1) in
  s_generated call true true (fun _ => false) [3; 1] 0 = (Built [0; 10; 20], 3) /\
  s_generated call true false (fun _ => false) [2; 2] 0 = (Thrown, 4) /\ s_generated call true false (Nat.eqb 1) [2; 2] 0 = (Thrown, 2) /\
  (forall k, (k < 3)%nat -> result call k 0 <> None) /\ result call 3 0 = None.
Proof. repeat split. intros [|[|[|k]]] H; cbn; try discriminate; lia. Qed.
(** The exception of the function does not reach the caller when the elements are numbers. *)
Theorem C85_generated_terminate_refuted : exists (call : Z -> option Z * Z) es f, s_generated call true true (fun _ => false) es f = (Terminated, 1).
Proof. exists (fun k => (None, k + 1)), [2], 0. reflexivity. Qed.
Print Assumptions C85_generated_terminate_refuted.
