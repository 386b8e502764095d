(** * PropEffects: property C73 (functions with effects in expressions).

    The functions given to [apply] map their arguments and the [world] (the elements of all arrays, and any other state) to a result
    and a new world.  EffectsSpec says which calls are made for the k-th element ([element]), and in which order elements are computed
    ([one_by_one], [writes_in_order], [over_elements], [best_elements]); [recording lf [] e] is the expression [e] whose functions record
    their place in the expression and their arguments, and [passes fuel e ks log] reads the log: one complete pass over the functions
    of [e] for each of the elements [ks], in that order, operands before the operation. *)

From Coq Require Import ZArith List Bool Lia Arith.
From Verif Require Import Base Spec Desc Slice SliceSpec Expr ExprSpec ExprProofs ExprThms ExprSeq Reduce RangeLoop RangeLoopSpec Effects EffectsSpec EffectsProofs EffectsRec.
Import ListNotations.
Open Scope Z_scope.

(** ** any functions that neither destroy nor resize arrays *)
(** [array x = e], [eval(e)]: the elements one by one, column-major. *)
Theorem effects_eval : forall (V St : Type) chk fuel m (s : St) (e : eexpr V St) es, eexpr_ok fuel m e es ->
  exists vs w', eeval chk e (m, s) = Ok (es, vs, w') /\ one_by_one fuel e 0 (Z.to_nat (zprod es)) (m, s) = Some (vs, w') /\ Z.of_nat (length vs) = zprod es.
Proof. intros V St chk fuel m s e es K. destruct (eeval_spec chk fuel m s e es K) as [vs [w' [A [B [C _]]]]]. eauto 6. Qed.
Print Assumptions effects_eval.

(** Assignment through a view, [op=], [apply(in_place, ...)] with one or two arguments: element by element, each written before the next is computed. *)
Theorem effects_through_views : forall (V St : Type) chk fuel fu m (s0 : St) sid s es ps, is_view fuel s es ps -> inside m sid ps -> (length ps < fu)%nat ->
  (forall e : eexpr V St, eexpr_ok fuel m e es ->
     exists w', eview_assign chk fu sid s e (m, s0) = Ok w' /\ writes_in_order sid (fun k _ => element fuel e k) 0 ps (m, s0) = Some w') /\
  (forall op : fun1 V St, keeps1 op -> exists w', eview_update fu sid s op (m, s0) = Ok w' /\ writes_in_order sid (on_element sid op) 0 ps (m, s0) = Some w') /\
  (forall (op : fun2 V St) e, keeps2 op -> eexpr_ok fuel m e es ->
     exists w', eview_inplace chk fu sid s op e (m, s0) = Ok w' /\ writes_in_order sid (on_elements fuel sid op e) 0 ps (m, s0) = Some w').
Proof.
  intros V St chk fuel fu m s0 sid s es ps Hv Hi Hf. repeat split; intros.
  - eapply eview_assign_spec; eauto.
  - eapply eview_update_spec; eauto.
  - eapply eview_inplace_spec; eauto.
Qed.
Print Assumptions effects_through_views.

(** [array = e]: in the storage when the sizes agree, else into new storage that replaces the old one when all elements are computed. *)
Theorem effects_array_assignment : forall (V St : Type) chk fuel fu m (s0 : St) sid c es0 (e : eexpr V St) es,
  nth_error m sid = Some c -> Z.of_nat (length c) = zprod es0 -> all_nonneg es0 -> zprod es0 < W -> eexpr_ok fuel m e es -> (length c < fu)%nat ->
  (zprod es0 = zprod es -> exists w', earray_set chk fu sid es0 e (m, s0) = Ok (w', es) /\
     writes_in_order sid (fun k _ => element fuel e k) 0 (iota (zprod es)) (m, s0) = Some w') /\
  (zprod es0 <> zprod es -> exists vs w', earray_set chk fu sid es0 e (m, s0) = Ok ((upd_nat (fst w') sid vs, snd w'), es) /\
     one_by_one fuel e 0 (Z.to_nat (zprod es)) (m, s0) = Some (vs, w')).
Proof. intros. eapply earray_set_spec; eauto. Qed.
Print Assumptions effects_array_assignment.

(** The algorithms of one pass, of two passes, and the searches. *)
Theorem effects_algorithms : forall (V St : Type) chk fuel fu m (s0 : St) (e : eexpr V St) es, eexpr_ok fuel m e es -> zprod es < Z.of_nat fu ->
  (forall T R (body : T -> V -> outcome (step T R)) fin s,
     over_elements body fin fuel e 0 (Z.to_nat (zprod es)) s (m, s0) = Some (eranged body fin s chk fu e (m, s0))) /\
  (forall T T2 R (step1 : T -> V -> T) s1 (step2 : T -> T2 -> V -> T2) s2 (fin : T2 -> R), exists a w1 b w2,
     over_elements (goes step1) (fun s => s) fuel e 0 (Z.to_nat (zprod es)) s1 (m, s0) = Some (Ok (a, w1)) /\
     over_elements (goes (step2 a)) (fun s => s) fuel e 0 (Z.to_nat (zprod es)) s2 w1 = Some (Ok (b, w2)) /\
     etwo_pass step1 s1 step2 s2 fin chk fu e (m, s0) = Ok (fin b, w2)) /\
  (forall better start, exists v j w', best_elements better fuel e 0 (Z.to_nat (zprod es)) start 0 (m, s0) = Some (v, j, w') /\
     ebest better chk fu e start (m, s0) = Ok (v, Z.of_nat j, w')).
Proof.
  intros V St chk fuel fu m s0 e es K Hf. repeat split; intros.
  - eapply eranged_spec; eauto.
  - eapply etwo_pass_spec; eauto.
  - eapply ebest_spec; eauto.
Qed.
Print Assumptions effects_algorithms.

(** ** which calls are made, read from the log (whatever order [lf] the compiler chooses for the operands) *)
(** Evaluation: every function once per element, elements column-major; the values are those of [e]. *)
Theorem eval_calls_once : forall (V : Type) lf chk fuel (m : @mem V) e es vs, expr_ok fuel m e es -> elements fuel m e es vs ->
  exists log, eeval chk (recording lf [] e) (m, []) = Ok (es, vs, (m, log)) /\ passes fuel e (map (pair m) (seq 0 (length vs))) log.
Proof. intros. eapply rec_eval; eauto. Qed.
Print Assumptions eval_calls_once.

(** Assignment through a view: once per element too, the arguments being read after the earlier elements were written. *)
Theorem assign_calls_once : forall (V : Type) lf chk fuel fu (m : @mem V) sid s es ps e, is_view fuel s es ps -> inside m sid ps -> expr_ok fuel m e es -> (length ps < fu)%nat ->
  exists m' log ms, eview_assign chk fu sid s (recording lf [] e) (m, []) = Ok (m', log) /\ view_assign chk fu m sid s e = Ok m' /\
    passes fuel e (combine ms (seq 0 (length ps))) log /\ length ms = length ps /\
    forall k mk, nth_error ms k = Some mk -> in_order sid (fun mk k _ => value fuel mk e k) 0 (firstn k ps) m = Some mk.
Proof. intros. eapply rec_assign; eauto. Qed.
Print Assumptions assign_calls_once.

(** sum, prod, count, which (loops to the end, unless an addition overflows): once per element. *)
Theorem loops_call_once : forall (V T : Type) (f : T -> V -> outcome T) s r lf chk fuel fu (m : @mem V) e es vs, expr_ok fuel m e es -> elements fuel m e es vs -> (length vs < fu)%nat ->
  fold_left (fun o v => bindO o (fun s => f s v)) vs (Ok s) = Ok r ->
  exists log, eranged (goesO f) (fun x => x) s chk fu (recording lf [] e) (m, []) = Ok (r, (m, log)) /\ passes fuel e (map (pair m) (seq 0 (length vs))) log.
Proof.
  intros V T f s r lf chk fuel fu m e es vs K E Hf Hr. destruct (rec_ranged (goesO f) (fun x => x) s lf chk fuel fu m e es vs K E Hf) as [log [A B]].
  assert (R : result (goesO f) (fun x => x) s vs = Ok r).
  { rewrite <- Hr. clear. revert s. induction vs as [|v vs IH]; intros s; cbn; [reflexivity|]. unfold goesO at 1. destruct (f s v) as [s'| | | |] eqn:Ef; cbn [bindO].
    - rewrite IH. reflexivity.
    - clear. induction vs; cbn; auto.
    - clear. induction vs; cbn; auto.
    - clear. induction vs; cbn; auto.
    - clear. induction vs; cbn; auto. }
  rewrite R in A. cbn [bindO] in A. rewrite (looked_goesO _ _ _ _ R) in B. eauto.
Qed.
Print Assumptions loops_call_once.

(** any ([p]: the element holds, [stop = true]), none (the same, [false]), all ([p]: it does not hold, [false]): once per element up to the first that decides. *)
Theorem tests_call_until_decided : forall (V : Type) (p : V -> bool) (stop : bool) lf chk fuel fu (m : @mem V) e es vs,
  expr_ok fuel m e es -> elements fuel m e es vs -> (length vs < fu)%nat ->
  exists log j, first_where p vs j /\
    eranged (fun (_ : unit) v => Ok (if p v then Ret stop else Go tt)) (fun _ => negb stop) tt chk fu (recording lf [] e) (m, []) =
      Ok (if (j <? length vs)%nat then stop else negb stop, (m, log)) /\
    passes fuel e (map (pair m) (seq 0 (Nat.min (S j) (length vs)))) log.
Proof.
  intros V p stop lf chk fuel fu m e es vs K E Hf. destruct (until_spec p stop vs) as [j [J [L R]]].
  destruct (rec_ranged (until p stop) (fun _ => negb stop) tt lf chk fuel fu m e es vs K E Hf) as [log [A B]]. exists log, j.
  rewrite R in A. rewrite L in B. auto.
Qed.
Print Assumptions tests_call_until_decided.

(** var, sd, meansd: two passes. *)
Theorem two_passes_call_twice : forall (V T T2 R : Type) (step1 : T -> V -> T) s1 (step2 : T -> T2 -> V -> T2) s2 (fin : T2 -> R) lf chk fuel fu (m : @mem V) e es vs,
  expr_ok fuel m e es -> elements fuel m e es vs -> (length vs < fu)%nat ->
  exists log, etwo_pass step1 s1 step2 s2 fin chk fu (recording lf [] e) (m, []) = Ok (fin (fold_left (step2 (fold_left step1 vs s1)) vs s2), (m, log)) /\
    passes fuel e (map (pair m) (seq 0 (length vs) ++ seq 0 (length vs))) log.
Proof. intros. eapply rec_two_pass; eauto. Qed.
Print Assumptions two_passes_call_twice.

(** max, which_max (and min, which_min, with the other order): once per element, and once more for an element better than all before it. *)
Theorem searches_call_again : forall (V : Type) (better : V -> V -> bool) lf chk fuel fu (m : @mem V) e es vs start,
  expr_ok fuel m e es -> elements fuel m e es vs -> (length vs < fu)%nat ->
  exists log, ebest better chk fu (recording lf [] e) start (m, []) = Ok (max_loop better vs start, which_max better vs start, (m, log)) /\
    passes fuel e (map (pair m) (flat_map (fun k => if improves better start vs k then [k; k] else [k]) (seq 0 (length vs)))) log.
Proof.
  intros V better lf chk fuel fu m e es vs start K E Hf. destruct (rec_search better lf chk fuel fu m e es vs start K E Hf) as [log [A B]].
  rewrite visits_start in B. eauto.
Qed.
Print Assumptions searches_call_again.

(** ** functions with a state of their own *)
(** [apply(x, f)] gives [f] the elements of [x] in column-major order: the k-th result comes from the k-th call. *)
Theorem stateful_apply : forall (V St : Type) (f : V -> St -> V * St) chk fuel (m : @mem V) sid s es ps vs s0, is_view fuel s es ps -> inside m sid ps ->
  elements fuel m (ELeaf sid s) es vs ->
  eeval chk (QUn (stateful f) (QLeaf sid s)) (m, s0) = Ok (es, fst (threaded f vs s0), (m, snd (threaded f vs s0))).
Proof. intros. eapply threaded_eval; eauto. Qed.
Print Assumptions stateful_apply.

(** [apply(in_place, view, f)], for instance with a random number generator: the k-th element gets the k-th result. *)
Theorem stateful_inplace : forall (V St : Type) (f : V -> St -> V * St) fuel fu (m : @mem V) sid s es ps vs s0, is_view fuel s es ps -> inside m sid ps -> NoDup ps ->
  elements fuel m (ELeaf sid s) es vs -> (length ps < fu)%nat ->
  exists m', eview_update fu sid s (stateful f) (m, s0) = Ok (m', snd (threaded f vs s0)) /\ written m m' sid ps (nth_error (fst (threaded f vs s0))).
Proof. intros. eapply threaded_inplace; eauto. Qed.
Print Assumptions stateful_inplace.

(** ** what does not hold *)
(** The maximum of [apply(x, f)] need not be the greatest value [f] returned: a better element is computed a second time, and the second value is kept.
    [f] counts down and records its results. *)
Definition countdown : fun1 Z (list Z) := fun _ w => (9 - Z.of_nat (length (snd w)), (fst w, snd w ++ [9 - Z.of_nat (length (snd w))])).
Theorem max_effects_refuted : exists (f : fun1 Z (list Z)) m s v j w', keeps1 f /\ eexpr_ok 20 m (QUn f (QLeaf 0 s)) [2] /\
  ebest Z.ltb true 20 (QUn f (QLeaf 0 s)) 0 (m, []) = Ok (v, j, w') /\ snd w' = [9; 8; 7] /\ v = 8.
Proof.
  assert (K1 : keeps1 countdown) by (intros ? ? ?; reflexivity).
  exists countdown, [[5; 6]], (SRef 0 [2]), 8, 0, ([[5; 6]], [9; 8; 7]). split; [exact K1|]. split; [|split; [reflexivity|split; reflexivity]].
  constructor; [exact K1|]. apply (eok_leaf 20 [[5; 6]] 0 (SRef 0 [2]) [2] [0; 1]).
  - unfold is_view. repeat split; try reflexivity; try discriminate. constructor; [lia|constructor].
  - exists [5; 6]. split; [reflexivity|]. repeat constructor; cbn; lia.
Qed.
Print Assumptions max_effects_refuted.

(** The result may depend on which operand the compiler evaluates first. *)
Theorem operand_order_refuted : exists (f g : fun1 Z Z) (h : fun2 Z Z) m s, keeps1 f /\ keeps1 g /\ keeps2 h /\
  eexpr_ok 20 m (QBin true h (QUn f (QLeaf 0 s)) (QUn g (QLeaf 0 s))) [2] /\
  eeval true (QBin true h (QUn f (QLeaf 0 s)) (QUn g (QLeaf 0 s))) (m, 0) = Ok ([2], [-1; -1], (m, 4)) /\
  eeval true (QBin false h (QUn f (QLeaf 0 s)) (QUn g (QLeaf 0 s))) (m, 0) = Ok ([2], [1; 1], (m, 4)).
Proof.
  set (tick := (fun (_ : Z) (w : world Z Z) => (snd w, (fst w, snd w + 1))) : fun1 Z Z).
  set (minus := (fun (a b : Z) (w : world Z Z) => (a - b, w)) : fun2 Z Z).
  assert (K1 : keeps1 tick) by (intros ? ? ?; reflexivity). assert (K2 : keeps2 minus) by (intros ? ? ? ?; reflexivity).
  exists tick, tick, minus, [[5; 6]], (SRef 0 [2]). split; [exact K1|]. split; [exact K1|]. split; [exact K2|]. split; [|split; reflexivity].
  assert (L : eexpr_ok 20 [[5; 6]] (QLeaf 0 (SRef 0 [2]) : eexpr Z Z) [2]).
  { apply (eok_leaf 20 [[5; 6]] 0 (SRef 0 [2]) [2] [0; 1]).
    - unfold is_view. repeat split; try reflexivity; try discriminate. constructor; [lia|constructor].
    - exists [5; 6]. split; [reflexivity|]. repeat constructor; cbn; lia. }
  constructor; [exact K2| |]; constructor; auto.
Qed.
Print Assumptions operand_order_refuted.

(** ** examples *)
(** [x + -x] for [x = (5, 6)]: the log of an evaluation, of [any] (the first element decides), and of [max]. *)
Definition x_ex : @expr Z := EBin Z.add (ELeaf 0 (SRef 0 [2])) (EUn Z.opp (ELeaf 0 (SRef 0 [2]))).
Example effects_ex : let m := [[5; 6]] in expr_ok 20 m x_ex [2] /\ elements 20 m x_ex [2] [0; 0] /\
  eeval true (recording (fun _ => false) [] x_ex) (m, []) = Ok ([2], [0; 0], (m, [([false], [5]); ([], [5; -5]); ([false], [6]); ([], [6; -6])])) /\
  eranged (fun (_ : unit) v => Ok (if v =? 0 then Ret true else Go tt)) (fun _ => false) tt true 20 (recording (fun _ => false) [] x_ex) (m, []) =
    Ok (true, (m, [([false], [5]); ([], [5; -5])])) /\
  ebest Z.ltb true 20 (recording (fun _ => false) [] x_ex) (-1) (m, []) =
    Ok (0, 0, (m, [([false], [5]); ([], [5; -5]); ([false], [5]); ([], [5; -5]); ([false], [6]); ([], [6; -6])])).
Proof.
  assert (Hv : is_view 20 (SRef 0 [2]) [2] [0; 1]) by (unfold is_view; repeat split; try reflexivity; try discriminate; constructor; [lia|constructor]).
  assert (Hi : inside [[5; 6]] 0 [0; 1]) by (exists [5; 6]; split; [reflexivity|]; repeat constructor; cbn; lia).
  split; [|split; [|repeat split; reflexivity]].
  - unfold x_ex. apply ok_bin; [|apply ok_un]; eapply ok_leaf; eauto.
  - split; [reflexivity|]. intros [|[|k]] Hk; cbn in Hk; try reflexivity. lia.
Qed.

(** A counter: [apply(x, f)] with [f] adding the number of the call, on every second element of a vector; and in place. *)
Definition numbered (a s : Z) : Z * Z := (10 * a + s, s + 1).
Example stateful_ex : let m := [[5; 6; 7; 8]] in let s := SView 0 (MId (SD 0 [2] [2])) in
  is_view 20 s [2] [0; 2] /\ inside m 0 [0; 2] /\ elements 20 m (ELeaf 0 s) [2] [5; 7] /\
  eeval true (QUn (stateful numbered) (QLeaf 0 s)) (m, 1) = Ok ([2], [51; 72], (m, 3)) /\
  eview_update 20 0 s (stateful numbered) (m, 1) = Ok ([[51; 6; 72; 8]], 3).
Proof.
  cbn zeta. split; [|split; [|split; [|split; reflexivity]]].
  - unfold is_view. repeat split; try reflexivity; try discriminate. constructor; [lia|constructor].
  - exists [5; 6; 7; 8]. split; [reflexivity|]. repeat constructor; cbn; lia.
  - split; [reflexivity|]. intros [|[|k]] Hk; cbn in Hk; try reflexivity. lia.
Qed.

(** A function that changes an array the expression reads: [x = (1, 2, 3)], [f(a)] doubles the last element of [x] and returns [a].  Assigning
    [apply(x, f)] to another array reads [x] as it is at each call. *)
Definition meddle : fun1 Z unit := fun a w => (a, (match fst w with [[x; y; z]; d] => [[x; y; 2 * z]; d] | m => m end, snd w)).
Example meddle_ex : let m := [[1; 2; 3]; [0; 0; 0]] in eexpr_ok 20 m (QUn meddle (QLeaf 0 (SRef 0 [3]))) [3] /\ is_view 20 (SRef 0 [3]) [3] [0; 1; 2] /\ inside m 1 [0; 1; 2] /\
  eview_assign true 20 1 (SRef 0 [3]) (QUn meddle (QLeaf 0 (SRef 0 [3]))) (m, tt) = Ok ([[1; 2; 24]; [1; 2; 12]], tt).
Proof.
  assert (Hv : is_view 20 (SRef 0 [3]) [3] [0; 1; 2]) by (unfold is_view; repeat split; try reflexivity; try discriminate; constructor; [lia|constructor]).
  cbn zeta. split; [|split; [exact Hv|split; [|reflexivity]]].
  - constructor.
    + intros a m s. unfold meddle. cbn. destruct m as [|[|x [|y [|z [|? ?]]]] [|d [|? ?]]]; reflexivity.
    + apply (eok_leaf 20 _ 0 (SRef 0 [3]) [3] [0; 1; 2]); auto. exists [1; 2; 3]. split; [reflexivity|]. repeat constructor; cbn; lia.
  - exists [0; 0; 0]. split; [reflexivity|]. repeat constructor; cbn; lia.
Qed.
