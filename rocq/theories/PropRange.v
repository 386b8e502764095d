(** * PropRange: property C60 (algorithms applied to arrays, views and expressions).

    [elements fuel m e es vs]: [vs] are the elements of [e], column-major.  [max_loop], [isum], ... are the algorithms on lists, whose
    results C26, C27, C43, C46, C47 and C56 describe. *)

From Coq Require Import ZArith List Bool Lia Arith Floats.SpecFloat.
From Verif Require Import Base Spec Desc Slice SliceSpec Coerce Random Expr ExprSpec Lemmas DescProofs LifeProofs RunProofs ExprProofs ArrAssign Reduce ReduceSpec ReduceProofs Stats Freq RangeLoop RangeLoopSpec RangeLoopProofs PropReduce PropMask.
Import ListNotations.
Open Scope Z_scope.

(** The result on an expression is the result on the list of its elements. *)
Theorem searches_of_expressions : forall (V : Type) (lt : V -> V -> bool) chk fuel m e es vs fu start, expr_ok fuel m e es -> elements fuel m e es vs -> (length vs < fu)%nat ->
  r_max lt chk fu m e start = Ok (max_loop lt vs start) /\ r_min lt chk fu m e start = Ok (min_loop lt vs start) /\
  r_which_max lt chk fu m e start = Ok (which_max lt vs start) /\ r_which_min lt chk fu m e start = Ok (which_min lt vs start) /\
  forall ne n, r_nth ne chk fu m e n = nth_model ne vs n.
Proof.
  intros V lt chk fuel m e es vs fu start K E Hf. destruct (over_expression chk fuel m e es vs fu K E Hf) as [h [s [Hr [Hd [Hp [Hn Hl]]]]]].
  unfold r_max, r_min, r_which_max, r_which_min, r_nth. rewrite !Hr, !Hl, !list_goes. rewrite list_which_max, list_which_min, list_max, list_min. cbn [bindO fst].
  repeat split; auto. intros ne n. rewrite Hr, Hl, list_goes, list_copy. reflexivity.
Qed.
Print Assumptions searches_of_expressions.

(** Sums, products, means and variances of integers ([t]: the element type). *)
Theorem sums_of_integer_expressions : forall t chk fuel m e es vs fu start, expr_ok fuel m e es -> elements fuel m e es vs -> (length vs < fu)%nat ->
  let all_read := map (reads fuel e) (seq 0 (length vs)) in
  r_isum t chk fu m e start = (let* r := isum t vs start in Ok (r, all_read)) /\ r_iprod t chk fu m e start = (let* r := iprod t vs start in Ok (r, all_read)) /\
  r_imean_iter t chk fu m e start = mean_iter t vs start /\ r_imean t chk fu m e start = mean_rng t vs start /\ r_ivar t chk fu m e start = ivar t vs start.
Proof.
  intros t chk fuel m e es vs fu start K E Hf. destruct (over_expression chk fuel m e es vs fu K E Hf) as [h [s [Hr [Hd [Hp [Hn Hl]]]]]]. cbv zeta.
  unfold r_isum, r_iprod, r_imean_iter, r_imean, r_ivar, it_imean, isum, iprod, mean_iter, mean_rng, ivar. rewrite !Hr, !Hl, !list_goesO, !Hn, !Hp. unfold isum.
  repeat split.
  - destruct (foldO (iadd t) vs start); reflexivity.
  - destruct (foldO (imul t) vs start); reflexivity.
  - destruct (foldO (iadd t) vs start); reflexivity.
  - destruct (foldO (iadd t) vs start); reflexivity.
  - cbn [bindO]. unfold mean_iter, isum. destruct (foldO (iadd t) vs start) as [a| | | |]; cbn [bindO fst]; auto.
    destruct (idiv t i64 a (Z.of_nat (length vs))) as [mu| | | |]; cbn [bindO]; auto. rewrite Hl, list_goesO. destruct (foldO (isquare_step t mu) vs start); reflexivity.
Qed.
Print Assumptions sums_of_integer_expressions.

(** ... and of doubles. *)
Theorem sums_of_double_expressions : forall chk fuel m e es vs fu start, expr_ok fuel m e es -> elements fuel m e es vs -> (length vs < fu)%nat ->
  r_fsum chk fu m e start = Ok (fsum vs start, map (reads fuel e) (seq 0 (length vs))) /\ r_fmean_iter chk fu m e start = Ok (fmean vs start) /\
  r_fmean chk fu m e start = Ok (fmean vs start) /\ r_fvar chk fu m e start = Ok (fvar vs start) /\ r_fsd chk fu m e start = Ok (fsd vs start) /\
  r_fmeansd chk fu m e start = Ok (fmeansd vs start).
Proof.
  intros chk fuel m e es vs fu start K E Hf. destruct (over_expression chk fuel m e es vs fu K E Hf) as [h [s [Hr [Hd [Hp [Hn Hl]]]]]].
  unfold r_fsum, r_fmean_iter, r_fmean, r_fvar, r_fsd, r_fmeansd, r_fvar, it_fmean, fsum, fmean, fsd, fvar, fmeansd, fsquares, fsum.
  rewrite !Hr, !Hl, !list_goes, !Hn, !Hp. cbn [bindO fst snd]. rewrite !Hl, !list_goes. cbn [bindO fst snd]. repeat split; reflexivity.
Qed.
Print Assumptions sums_of_double_expressions.

(** count, which, freq: every element is evaluated once, in column-major order. *)
Theorem counts_of_expressions : forall (V : Type) (b : V -> bool) chk fuel m e es vs fu, expr_ok fuel m e es -> elements fuel m e es vs -> (length vs < fu)%nat ->
  let all_read := map (reads fuel e) (seq 0 (length vs)) in
  r_count b chk fu m e = Ok (Z.of_nat (length (filter b vs)), all_read) /\ r_which b chk fu m e = Ok (positions_where b vs, all_read) /\
  r_freq b chk fu m e = Ok (freq b vs).
Proof.
  intros V b chk fuel m e es vs fu K E Hf. destruct (over_expression chk fuel m e es vs fu K E Hf) as [h [s [Hr [Hd [Hp [Hn Hl]]]]]]. cbv zeta.
  assert (Hw : Z.of_nat (length vs) < W). { destruct (expr_ok_dims _ _ _ _ K) as [_ [_ H]]. destruct E as [-> _]. exact H. }
  unfold r_freq, r_count, r_which, freq. rewrite !Hr, !Hl, !list_goes, list_which, list_count. cbn [bindO fst snd].
  rewrite count_is_number_of_true, which_is_positions_of_true by exact Hw. rewrite Hr, Hp. repeat split; reflexivity.
Qed.
Print Assumptions counts_of_expressions.

(** all, none, any stop at the first element that decides: it is the last one evaluated. *)
Theorem tests_of_expressions : forall (V : Type) (b : V -> bool) chk fuel m e es vs fu, expr_ok fuel m e es -> elements fuel m e es vs -> (length vs < fu)%nat ->
  exists t f ra rn ry, first_where b vs t /\ first_where (fun x => negb (b x)) vs f /\
    r_all b chk fu m e = Ok (ra, map (reads fuel e) (seq 0 (Nat.min (S f) (length vs)))) /\ (ra = true <-> forall x, In x vs -> b x = true) /\
    r_none b chk fu m e = Ok (rn, map (reads fuel e) (seq 0 (Nat.min (S t) (length vs)))) /\ (rn = true <-> forall x, In x vs -> b x = false) /\
    r_any b chk fu m e = Ok (ry, map (reads fuel e) (seq 0 (Nat.min (S t) (length vs)))) /\ (ry = true <-> exists x, In x vs /\ b x = true).
Proof.
  intros V b chk fuel m e es vs fu K E Hf. destruct (over_expression chk fuel m e es vs fu K E Hf) as [h [s [Hr [Hd [Hp [Hn Hl]]]]]].
  destruct (list_until b false true ltac:(discriminate) vs) as [t [E1 F1]]. destruct (list_until b true false ltac:(discriminate) vs) as [t' [E2 F2]].
  destruct (list_until (fun x => negb (b x)) false true ltac:(discriminate) vs) as [f [E3 F3]].
  assert (Et : t = t').
  { clear -F1 F2. destruct F1 as [A1 B1], F2 as [A2 B2].
    assert (L1 : (t <= length vs)%nat) by (destruct B1 as [->|[x [Hx _]]]; [lia|]; assert (t < length vs)%nat by (apply nth_error_Some; congruence); lia).
    assert (L2 : (t' <= length vs)%nat) by (destruct B2 as [->|[x [Hx _]]]; [lia|]; assert (t' < length vs)%nat by (apply nth_error_Some; congruence); lia).
    destruct (Nat.lt_trichotomy t t') as [H|[H|H]]; auto.
    - destruct B1 as [B1|[x [Hx Px]]]; [lia|]. rewrite (A2 t x H Hx) in Px. discriminate.
    - destruct B2 as [B2|[x [Hx Px]]]; [lia|]. rewrite (A1 t' x H Hx) in Px. discriminate. }
  subst t'. exists t, f. eexists _, _, _. split; [exact F1|]. split; [exact F3|].
  unfold r_all, r_none, r_any. rewrite !Hr, !Hl, E1, E2, E3. cbn [bindO fst snd]. clear -vs.
  assert (X : forall p : V -> bool, existsb p vs = false <-> forall x, In x vs -> p x = false).
  { intros p. split.
    - intros H x Hx. destruct (p x) eqn:Px; auto. assert (existsb p vs = true) by (apply existsb_exists; eauto). congruence.
    - intros H. destruct (existsb p vs) eqn:Ex; auto. apply existsb_exists in Ex as [x [Hx Px]]. rewrite H in Px by auto. discriminate. }
  split; [reflexivity|]. split.
  { destruct (existsb (fun x => negb (b x)) vs) eqn:Ex.
    - split; [discriminate|]. intros H. apply existsb_exists in Ex as [x [Hx Px]]. rewrite (H x Hx) in Px. discriminate.
    - split; auto. intros _ x Hx. apply (proj1 (X _) Ex) in Hx. now apply negb_false_iff. }
  split; [reflexivity|]. split.
  { destruct (existsb b vs) eqn:Ex.
    - split; [discriminate|]. intros H. apply existsb_exists in Ex as [x [Hx Px]]. rewrite (H x Hx) in Px. discriminate.
    - split; auto. intros _. now apply X. }
  split; [reflexivity|]. rewrite <- existsb_exists. destruct (existsb b vs); split; auto.
Qed.
Print Assumptions tests_of_expressions.

(** [all(a == b)] for arrays, views or expressions [a], [b]: equal extents are required (checked builds end the program otherwise), and then it says whether
    all elements are equal.  [eq]: the operator on elements, [b] the conversion of its result to bool. *)
Theorem all_equal : forall (V : Type) (b : V -> bool) (eq : V -> V -> V) chk fuel m e1 e2 es1 es2 vs1 vs2 fu, (forall x y, b (eq x y) = true <-> x = y) ->
  expr_ok fuel m e1 es1 -> expr_ok fuel m e2 es2 -> elements fuel m e1 es1 vs1 -> elements fuel m e2 es2 vs2 -> (length vs1 < fu)%nat ->
  (es1 = es2 -> exists r log, r_all b chk fu m (EBin eq e1 e2) = Ok (r, log) /\ (r = true <-> vs1 = vs2)) /\
  (es1 <> es2 -> r_all b true fu m (EBin eq e1 e2) = Abort).
Proof.
  intros V b eq chk fuel m e1 e2 es1 es2 vs1 vs2 fu Hb K1 K2 E1 E2 Hf. split.
  - intros <-. assert (K : expr_ok fuel m (EBin eq e1 e2) es1) by (constructor; auto). destruct (elements_exist _ _ _ _ K) as [vs E].
    assert (L : length vs = length vs1) by (destruct E as [L _], E1 as [L1 _]; lia). assert (L2 : length vs2 = length vs1) by (destruct E1 as [L1 _], E2 as [L2 _]; lia).
    destruct (tests_of_expressions V b chk fuel m _ _ vs fu K E ltac:(lia)) as [t [f [ra [rn [ry [_ [_ [R [I _]]]]]]]]]. eexists ra, _. split; [exact R|]. rewrite I. clear R I.
    destruct E as [_ Hv], E1 as [_ Hv1], E2 as [_ Hv2].
    assert (X : forall k x y, nth_error vs1 k = Some x -> nth_error vs2 k = Some y -> nth_error vs k = Some (eq x y)).
    { intros k x y H1 H2. assert (Hk : (k < length vs1)%nat) by (apply nth_error_Some; congruence). rewrite Hv by lia. cbn. rewrite <- Hv1, <- Hv2 by lia. rewrite H1, H2. reflexivity. }
    split.
    + intros H. apply nth_error_ext. intros k. destruct (nth_error vs1 k) as [x|] eqn:H1.
      * destruct (nth_error vs2 k) as [y|] eqn:H2.
        -- f_equal. apply Hb, H. eapply nth_error_In, X; eauto.
        -- apply nth_error_None in H2. assert (k < length vs1)%nat by (apply nth_error_Some; congruence). lia.
      * symmetry. apply nth_error_None. apply nth_error_None in H1. lia.
    + intros <- z Hz. apply In_nth_error in Hz as [k Hk]. destruct (nth_error vs1 k) as [x|] eqn:H1.
      * rewrite (X k x x H1 H1) in Hk. injection Hk as <-. now apply Hb.
      * apply nth_error_None in H1. assert (k < length vs)%nat by (apply nth_error_Some; congruence). lia.
  - intros D. unfold r_all, ranged. rewrite (build_bad fuel m); [reflexivity|]. econstructor; eauto using ok_shaped.
Qed.
Print Assumptions all_equal.

(** [x[which(mask)]] and [x[which(mask)] = v] where the mask is any expression with as many elements as [x], for instance [x > 2 && y != 0]. *)
Theorem mask_expression_selects : forall (V : Type) (b : V -> bool) chk fuel m e n bs, 0 < n <= MAXSZ -> expr_ok fuel m e [n] -> elements fuel m e [n] bs ->
  exists fuel0, forall fu, (fuel0 <= fu)%nat -> exists l log s,
    r_which b chk fu m e = Ok (l, log) /\ run chk fu (SRef 0 [n]) [URange l] = Ok s /\
    forall sid c, nth_error m sid = Some c -> Z.of_nat (length c) = n ->
      (exists lg, eval_expr chk m (ELeaf sid s) = Ok ([Z.of_nat (length (filter b bs))], selected b bs c, lg)) /\
      (forall v, view_fill fu m sid s v = Ok (upd_nat m sid (replaced b bs v c), l)).
Proof.
  intros V b chk fuel m e n bs Hn K E. assert (L : Z.of_nat (length bs) = n). { destruct E as [L _]. rewrite L. cbn. lia. }
  destruct (mask_selects V V b bs chk ltac:(lia)) as [f0 H]. exists (max f0 (S (length bs))). intros fu Hf. destruct (H fu ltac:(lia)) as [s [R [Hv Hm]]].
  rewrite which_is_positions_of_true in R by (unfold MAXSZ, W in *; lia). rewrite L in R.
  destruct (counts_of_expressions V b chk fuel m e [n] bs fu K E ltac:(lia)) as [_ [Ew _]]. eexists _, _, s. split; [exact Ew|]. split; [exact R|].
  intros sid c Ec Lc. apply (Hm m sid c Ec). lia.
Qed.
Print Assumptions mask_expression_selects.

(** The mask [x * x > 4] over [x = (3, -1, -5, 2)]. *)
Definition x_gt4 : @expr Z := ERight (fun a c => if c <? a then 1 else 0) (EBin Z.mul (ELeaf 0 (SRef 0 [4])) (ELeaf 0 (SRef 0 [4]))) 4.
Example range_ex : let m := [[3; -1; -5; 2]] in expr_ok 20 m x_gt4 [4] /\ elements 20 m x_gt4 [4] [1; 0; 1; 0] /\
  r_which (Z.eqb 1) true 20 m x_gt4 = Ok ([0; 2], [[(0%nat, 0); (0%nat, 0)]; [(0%nat, 1); (0%nat, 1)]; [(0%nat, 2); (0%nat, 2)]; [(0%nat, 3); (0%nat, 3)]]) /\
  r_all (Z.eqb 1) true 20 m x_gt4 = Ok (false, [[(0%nat, 0); (0%nat, 0)]; [(0%nat, 1); (0%nat, 1)]]) /\
  r_max Z.ltb true 20 m (ELeaf 0 (SRef 0 [4])) (ilo i32) = Ok 3 /\ r_imean i32 true 20 m (ELeaf 0 (SRef 1 [3])) 0 = mean_rng i32 [-1; -5; 2] 0 /\
  (let* r := r_which (Z.eqb 1) true 20 m x_gt4 in let* s := run true 20 (SRef 0 [4]) [URange (fst r)] in view_fill 20 m 0 s 9) = Ok ([[9; -1; 9; 2]], [0; 2]).
Proof.
  cbv zeta. assert (Vw : is_view 20 (SRef 0 [4]) [4] [0; 1; 2; 3]).
  { split; [reflexivity|]. split; [reflexivity|]. split; [discriminate|]. split; [repeat constructor; lia|]. split; [cbn; unfold W; lia|reflexivity]. }
  assert (In : inside [[3; -1; -5; 2]] 0 [0; 1; 2; 3]). { eexists. split; [reflexivity|]. repeat constructor; cbn; lia. }
  split. { constructor. constructor; econstructor; eauto. }
  split. { split; [reflexivity|]. intros k Hk. cbn in Hk. do 4 (destruct k as [|k]; [reflexivity|]). lia. }
  repeat split; reflexivity.
Qed.
