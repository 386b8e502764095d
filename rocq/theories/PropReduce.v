(** * PropReduce: properties C26, C27, C43 (reductions and searches, means, n-th smallest).
    Only statements, closed by lemmas proved elsewhere; examples show that the hypotheses are met. *)

From Coq Require Import ZArith List Bool Lia Permutation.
From Verif Require Import Base Spec Slice Reduce ReduceSpec ReduceProofs.
Import ListNotations.
Open Scope Z_scope.

(** ** C26 *)
(** Integral elements of type [t]; the start value is the default [unbounded_min] / [unbounded_max]. *)
Theorem integer_max : forall t l, elements_fit t l -> (l = [] -> max_loop Z.ltb l (ilo t) = ilo t) /\
  (l <> [] -> is_max Z.ltb l (max_loop Z.ltb l (ilo t))).
Proof.
  intros t l F. split; [intros ->; reflexivity|]. intros Hl. apply (max_is_max Z.ltb _ Zlt_linear); auto.
  - intros x Hx. unfold elements_fit in F. rewrite Forall_forall in F. apply Z.ltb_ge. apply F. auto.
  - destruct l as [|x l]; [congruence|]. exists x. split; [left|]; auto.
Qed.
Print Assumptions integer_max.
Theorem integer_min : forall t l, elements_fit t l -> (l = [] -> min_loop Z.ltb l (ihi t) = ihi t) /\
  (l <> [] -> is_min Z.ltb l (min_loop Z.ltb l (ihi t))).
Proof.
  intros t l F. split; [intros ->; reflexivity|]. intros Hl. rewrite min_flip. apply (max_is_max _ _ (linear_flip _ _ Zlt_linear)); auto.
  - intros x Hx. unfold elements_fit in F. rewrite Forall_forall in F. apply Z.ltb_ge. apply F. auto.
  - destruct l as [|x l]; [congruence|]. exists x. split; [left|]; auto.
Qed.
Print Assumptions integer_min.
Theorem integer_which_max : forall t l, elements_fit t l -> l <> [] -> Z.of_nat (length l) < W ->
  exists m, is_max Z.ltb l m /\ first_at l m (which_max Z.ltb l (ilo t)).
Proof.
  intros t l F Hl Hw. apply (which_max_total Z.ltb _ Zlt_linear); auto. intros x Hx. unfold elements_fit in F. rewrite Forall_forall in F.
  split; auto. apply Z.ltb_ge. apply F. auto.
Qed.
Print Assumptions integer_which_max.
Theorem integer_which_min : forall t l, elements_fit t l -> l <> [] -> Z.of_nat (length l) < W ->
  exists m, is_min Z.ltb l m /\ first_at l m (which_min Z.ltb l (ihi t)).
Proof.
  intros t l F Hl Hw. rewrite which_min_flip'. apply (which_max_total _ _ (linear_flip _ _ Zlt_linear)); auto. intros x Hx. unfold elements_fit in F. rewrite Forall_forall in F.
  split; auto. apply Z.ltb_ge. apply F. auto.
Qed.
Print Assumptions integer_which_min.

(** Floating point elements: NaN is skipped; without NaN, or with at least one other element, the result is the maximum. *)
Theorem float_max : forall l, (forall x, In x l -> x = NaN) /\ max_loop num_lt l NInf = NInf \/
  is_max num_lt l (max_loop num_lt l NInf) /\ max_loop num_lt l NInf <> NaN.
Proof.
  intros l. destruct (existsb (fun x => match x with NaN => false | _ => true end) l) eqn:E.
  - right. apply existsb_exists in E as [x [Hx Ox]]. split.
    + apply (max_is_max num_lt _ num_linear); [discriminate| |].
      * intros y _. destruct y; reflexivity.
      * exists x. split; auto. destruct x; discriminate.
    + apply (max_loop_spec num_lt _ num_linear l NInf). discriminate.
  - left. assert (All : forall x, In x l -> x = NaN).
    { intros x Hx. destruct x; auto; exfalso; rewrite <- not_true_iff_false in E; apply E; apply existsb_exists; eauto. }
    split; auto. clear E. induction l as [|x l IH]; auto. cbn. rewrite (All x) by (left; auto). apply IH. intros; apply All; right; auto.
Qed.
Print Assumptions float_max.
Theorem float_min : forall l, (forall x, In x l -> x = NaN) /\ min_loop num_lt l PInf = PInf \/
  is_min num_lt l (min_loop num_lt l PInf) /\ min_loop num_lt l PInf <> NaN.
Proof.
  intros l. rewrite min_flip. destruct (existsb (fun x => match x with NaN => false | _ => true end) l) eqn:E.
  - right. apply existsb_exists in E as [x [Hx Ox]]. split.
    + apply (max_is_max _ _ (linear_flip _ _ num_linear)); [discriminate| |].
      * intros y _. destruct y; reflexivity.
      * exists x. split; auto. destruct x; discriminate.
    + apply (max_loop_spec _ _ (linear_flip _ _ num_linear) l PInf). discriminate.
  - left. assert (All : forall x, In x l -> x = NaN).
    { intros x Hx. destruct x; auto; exfalso; rewrite <- not_true_iff_false in E; apply E; apply existsb_exists; eauto. }
    split; auto. clear E. induction l as [|x l IH]; auto. cbn. rewrite (All x) by (left; auto). cbn. apply IH. intros; apply All; right; auto.
Qed.
Print Assumptions float_min.

(** The empty range has no position (the documentation promises unbounded_min): the answer is 0.  So is the answer for NaN,
    -infinity, although the maximum is at position 1. *)
Theorem which_max_empty_refuted : exists l : list Z, which_max Z.ltb l (ilo (ITy 32 true)) = 0 /\ nth_error l 0 = None.
Proof. exists []. split; reflexivity. Qed.
Print Assumptions which_max_empty_refuted.
Theorem which_max_nan_refuted : exists l m, is_max num_lt l m /\ m <> NaN /\ which_max num_lt l NInf = 0 /\ nth_error l 0 = Some NaN.
Proof. exists [NaN; NInf], NInf. split; [split; [right; left; auto|]|split; [discriminate|split; reflexivity]]. intros x [<-|[<-|[]]]; reflexivity. Qed.
Print Assumptions which_max_nan_refuted.

(** A start value given by the caller takes part in the maximum. *)
Theorem max_with_start : forall l start, is_max Z.ltb (start :: l) (max_loop Z.ltb l start) /\ is_min Z.ltb (start :: l) (min_loop Z.ltb l start).
Proof.
  intros. split; [|rewrite min_flip].
  - apply (max_loop_spec Z.ltb _ Zlt_linear). exact I.
  - apply (max_loop_spec _ _ (linear_flip _ _ Zlt_linear)). exact I.
Qed.
Print Assumptions max_with_start.

(** Sums and products: exact while the intermediate results fit, modular for unsigned types of at least 32 bits. *)
Theorem sum_exact : forall t l, std_ty t -> forall start, partial_sums_fit t l start -> isum t l start = Ok (start + zsum l).
Proof. exact isum_exact. Qed.
Print Assumptions sum_exact.
Theorem prod_exact : forall t l, std_ty t -> forall start, partial_prods_fit t l start -> iprod t l start = Ok (start * zprod l).
Proof. exact iprod_exact. Qed.
Print Assumptions prod_exact.
Theorem sum_unsigned_modular : forall t l, std_ty t -> signed t = false -> 32 <= bits t -> forall start, 0 <= start <= ihi t ->
  isum t l start = Ok ((start + zsum l) mod 2 ^ bits t).
Proof. exact isum_modular. Qed.
Print Assumptions sum_unsigned_modular.
Theorem prod_unsigned_modular : forall t l, std_ty t -> signed t = false -> 32 <= bits t -> forall start, 0 <= start <= ihi t ->
  iprod t l start = Ok ((start * zprod l) mod 2 ^ bits t).
Proof. exact iprod_modular. Qed.
Print Assumptions prod_unsigned_modular.
(** 16-bit unsigned elements are multiplied as [int]: undefined although the type is unsigned. *)
Theorem prod_short_refuted : exists t l, std_ty t /\ signed t = false /\ elements_fit t l /\ iprod t l 1 = UB.
Proof. exists (ITy 16 false), [65535; 65535]. repeat split; try reflexivity; [cbn; auto|]. repeat constructor; cbn; lia. Qed.
Print Assumptions prod_short_refuted.

Theorem count_is_number_of_true : forall (V : Type) (b : V -> bool) l, Z.of_nat (length l) < W -> count_loop b l 0 = Z.of_nat (length (filter b l)).
Proof. exact @count_spec. Qed.
Print Assumptions count_is_number_of_true.
Theorem which_is_positions_of_true : forall (V : Type) (b : V -> bool) l, Z.of_nat (length l) < W -> which_loop b l 0 [] = positions_where b l.
Proof. exact @which_spec. Qed.
Print Assumptions which_is_positions_of_true.
Theorem positions_characterised : forall (V : Type) (b : V -> bool) l k,
  In k (positions_where b l) <-> 0 <= k /\ exists x, nth_error l (Z.to_nat k) = Some x /\ b x = true.
Proof. exact @in_positions. Qed.
Print Assumptions positions_characterised.
Theorem all_any_none : forall (V : Type) (b : V -> bool) l,
  (all_loop b l = true <-> forall x, In x l -> b x = true) /\ (any_loop b l = true <-> exists x, In x l /\ b x = true) /\
  (none_loop b l = true <-> forall x, In x l -> b x = false).
Proof. intros. split; [apply all_spec|]. split; [apply any_spec|apply none_spec]. Qed.
Print Assumptions all_any_none.

Example reductions_ex : elements_fit (ITy 32 true) [3; -7; 9; 9] /\ max_loop Z.ltb [3; -7; 9; 9] (ilo (ITy 32 true)) = 9 /\
  which_max Z.ltb [3; -7; 9; 9] (ilo (ITy 32 true)) = 2 /\ which_min Z.ltb [3; -7; 9; 9] (ihi (ITy 32 true)) = 1 /\
  partial_sums_fit (ITy 8 true) [100; 27; -3] 0 /\ isum (ITy 8 true) [100; 27; -3] 0 = Ok 124 /\ isum (ITy 8 true) [100; 28] 0 = Ok (-128) /\
  isum (ITy 32 true) [2 ^ 31 - 1; 1] 0 = UB /\ isum (ITy 32 false) [2 ^ 32 - 1; 3] 0 = Ok 2 /\
  which_loop (fun x => 0 <? x) [3; -7; 9; 9] 0 [] = [0; 2; 3] /\ count_loop (fun x => 0 <? x) [3; -7; 9; 9] 0 = 3 /\
  max_loop num_lt [NaN; Fin 3; NaN; Fin 5] NInf = Fin 5 /\ which_max num_lt [NaN; Fin 3; NaN; Fin 5] NInf = 3.
Proof.
  repeat split; try reflexivity; try (repeat constructor; cbn; lia).
  1,2: destruct k as [|[|[|[|k]]]]; cbn in *; lia.
Qed.

(** ** C27 *)
(** Unsigned elements: the two overloads agree.  Signed elements: they agree exactly when the sum is not negative.
    [s] is the sum (for which no overflow occurred). *)
Theorem means_agree_unsigned : forall t l start s, std_ty t -> signed t = false -> isum t l start = Ok s -> ilo t <= start <= ihi t -> l <> [] -> Z.of_nat (length l) < 2 ^ 63 ->
  mean_iter t l start = Ok (s / Z.of_nat (length l)) /\ mean_rng t l start = Ok (s / Z.of_nat (length l)).
Proof. intros. apply mean_agree_unsigned; auto. eapply isum_range; eauto. Qed.
Print Assumptions means_agree_unsigned.
Theorem means_agree_iff_partial : forall t l start s, std_ty t -> signed t = true -> isum t l start = Ok s -> ilo t <= start <= ihi t -> l <> [] -> Z.of_nat (length l) < 2 ^ 63 ->
  (mean_iter t l start = mean_rng t l start <-> 0 <= s).
Proof. intros. apply mean_agree; auto. eapply isum_range; eauto. Qed.
Print Assumptions means_agree_iff_partial.
(** The iterator overload is the truncated quotient. *)
Theorem mean_of_iterators : forall t l start s, std_ty t -> signed t = true -> isum t l start = Ok s -> ilo t <= start <= ihi t -> l <> [] -> Z.of_nat (length l) < 2 ^ 63 ->
  mean_iter t l start = Ok (Z.quot s (Z.of_nat (length l))).
Proof. intros. apply mean_iter_spec; auto. eapply isum_range; eauto. Qed.
Print Assumptions mean_of_iterators.
Theorem means_disagree_refuted : exists t l, std_ty t /\ elements_fit t l /\ mean_iter t l 0 = Ok (-2) /\ mean_rng t l 0 = Ok (2 ^ 63 - 2).
Proof. exists (ITy 32 true), [-1; -3]. repeat split; try reflexivity; [cbn; auto|]. repeat constructor; cbn; lia. Qed.
Print Assumptions means_disagree_refuted.
Theorem mean_of_empty_undefined : forall t, std_ty t -> mean_iter t [] 0 = UB /\ mean_rng t [] 0 = UB.
Proof.
  intros [b s] H. unfold std_ty in H. cbn in H. destruct H as [<-|[<-|[<-|[<-|[]]]]]; destruct s; split; reflexivity.
Qed.
Print Assumptions mean_of_empty_undefined.
Example means_ex : mean_iter (ITy 32 true) [4; -1; 5] 0 = Ok 2 /\ mean_rng (ITy 32 true) [4; -1; 5] 0 = Ok 2 /\
  mean_iter (ITy 64 false) [2 ^ 63; 5] 0 = Ok (2 ^ 62 + 2) /\ isum (ITy 16 true) [4; -1; 5] 0 = Ok 8.
Proof. repeat split; reflexivity. Qed.

(** ** C43 *)
(** For every implementation of std::nth_element meeting its postcondition and every order. *)
Theorem nth_is_nth_smallest : forall (V : Type) (lt : V -> V -> bool) ne l n, (forall x, lt x x = false) ->
  nth_element_ok lt l (ne l n) n -> (n < length l)%nat ->
  exists v, nth_model ne l n = Ok v /\ nth_smallest lt l n v.
Proof. exact @nth_spec. Qed.
Print Assumptions nth_is_nth_smallest.
(** Sorting is such an implementation; two values of the same list have rank 1. *)
Example nth_ex : nth_element_ok Z.ltb [5; 2; 9; 2; 7] [2; 2; 5; 9; 7] 2 /\ nth_smallest Z.ltb [5; 2; 9; 2; 7] 2 5 /\ nth_smallest Z.ltb [5; 2; 9; 2; 7] 1 2.
Proof.
  split; [|split; (split; [cbn; auto|cbn; lia])]. split; [split|].
  - apply Permutation_sym. apply (perm_trans (l' := [2; 5; 2; 9; 7])); [apply perm_skip, perm_swap|]. apply (perm_trans (l' := [5; 2; 2; 9; 7])); [apply perm_swap|].
    apply perm_skip, perm_skip. apply perm_swap.
  - intros i j x y Hi Hj. destruct i as [|[|i]]; try lia; destruct j as [|[|[|[|[|j]]]]]; try lia; cbn; intros A B; inversion A; inversion B; subst; auto; destruct j; discriminate.
  - intros j x y A B Hj. destruct j as [|[|[|[|[|j]]]]]; try lia; cbn in *; inversion A; inversion B; subst; auto; destruct j; discriminate.
Qed.
