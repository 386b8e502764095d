(** * PropSeq: property C23 (seq), the exact behaviour for all arguments that can reach the stop value, and beyond in unchecked builds. *)

From Coq Require Import ZArith List Bool Lia.
From Verif Require Import Base Spec Desc Slice SliceSpec Life Numeric NumericSpec Lemmas NumericProofs.
Import ListNotations.
Open Scope Z_scope.

Lemma s64_low x : 0 <= x < 2 ^ 63 -> s64 x = x.
Proof. intros H. unfold s64. rewrite Z.mod_small; unfold W; lia. Qed.
Lemma s64_high x : 2 ^ 63 <= x < W -> s64 x = x - W.
Proof. intros H. unfold s64. replace (x + 2 ^ 63) with (x - 2 ^ 63 + 1 * W) by (unfold W; lia). rewrite Z_mod_plus_full, Z.mod_small; unfold W in *; lia. Qed.
Lemma sres_in z : - 2 ^ 63 <= z < 2 ^ 63 -> sres z = Ok z.
Proof. intros H. unfold sres. destruct ((- 2 ^ 63 <=? z) && (z <? 2 ^ 63)) eqn:E; [reflexivity|lia]. Qed.
Lemma sres_out z : z < - 2 ^ 63 \/ 2 ^ 63 <= z -> sres z = UB.
Proof. intros H. unfold sres. destruct ((- 2 ^ 63 <=? z) && (z <? 2 ^ 63)) eqn:E; [lia|reflexivity]. Qed.

(** The assertions hold. *)
Lemma seq_asserts chk start stop step : reachable_stop start stop step ->
  seq_model chk start stop step =
  (let* diff := sres (s64 stop - s64 start) in let* q := sres (Z.quot diff step) in let* n := sres (q + 1) in
   if vec_max <? w64 n then Throw LogicError else Ok (seq_loop (Z.to_nat (w64 n)) start step)).
Proof.
  intros H. unfold seq_model. assert (H0 : (step =? 0) = false) by (destruct H; lia). rewrite H0. cbn [negb]. rewrite dassert_true. cbn [bindO].
  replace ((start <=? stop) || (step <? 0)) with true by (destruct H; lia). rewrite dassert_true. cbn [bindO].
  replace ((stop <=? start) || (0 <? step)) with true by (destruct H; lia). rewrite dassert_true. reflexivity.
Qed.

(** What the size computation makes of the signed quotient [- k]. *)
Lemma negative_quotient k : 0 <= k <= 2 ^ 63 -> forall (A : Type) (f : Z -> outcome A),
  (let* n := sres (- k + 1) in if vec_max <? w64 n then Throw LogicError else f (w64 n)) =
  if k =? 0 then f 1 else if k =? 1 then f 0 else Throw LogicError.
Proof.
  intros H A f. rewrite sres_in by lia. cbn [bindO]. destruct (k =? 0) eqn:E0.
  { apply Z.eqb_eq in E0. subst k. reflexivity. }
  destruct (k =? 1) eqn:E1.
  { apply Z.eqb_eq in E1. subst k. reflexivity. }
  apply Z.eqb_neq in E0, E1. replace (w64 (- k + 1)) with (W - k + 1).
  - destruct (vec_max <? W - k + 1) eqn:E; [reflexivity|]. unfold vec_max, W in *. lia.
  - unfold w64. replace (- k + 1) with (W - k + 1 + (-1) * W) by lia. rewrite Z_mod_plus_full, Z.mod_small; unfold W; lia.
Qed.

(** ** both ends below 2^63 or both at or above it *)
Theorem seq_same_side_exact : forall chk start stop step, 0 <= start < W -> 0 <= stop < W -> (start < 2 ^ 63 <-> stop < 2 ^ 63) ->
  - 2 ^ 63 <= step < 2 ^ 63 -> reachable_stop start stop step ->
  let n := Z.abs (stop - start) / Z.abs step + 1 in   (* the number of elements of the progression *)
  seq_model chk start stop step =
    if n =? 2 ^ 63 then UB else if vec_max <? n then Throw LogicError else Ok (map (fun k => start + k * step) (iota n)).
Proof.
  intros chk start stop step Ha Hb Hh Hst Hr n. rewrite seq_asserts by exact Hr.
  assert (Hs : 0 < Z.abs step) by (destruct Hr as [[]|[]]; lia).
  assert (Ed : s64 stop - s64 start = stop - start).
  { destruct (Z_lt_le_dec start (2 ^ 63)) as [L|L]; [rewrite !s64_low by lia; lia|]. rewrite !s64_high by lia. lia. }
  rewrite Ed. assert (Bd : - 2 ^ 63 < stop - start < 2 ^ 63) by (unfold W in *; lia). rewrite sres_in by lia. cbn [bindO].
  assert (Eq : Z.quot (stop - start) step = Z.abs (stop - start) / Z.abs step).
  { destruct Hr as [[H1 H2]|[H1 H2]].
    - rewrite !Z.abs_eq by lia. apply Z.quot_div_nonneg; lia.
    - rewrite (Z.abs_neq (stop - start)), (Z.abs_neq step) by lia. rewrite <- (Z.opp_involutive (stop - start)), <- (Z.opp_involutive step) at 1.
      rewrite Z.quot_opp_opp by lia. rewrite Z.quot_div_nonneg by lia. reflexivity. }
  rewrite Eq. assert (Nn : 0 <= Z.abs (stop - start) / Z.abs step <= Z.abs (stop - start)).
  { split; [apply Z.div_pos; lia|]. apply Z.div_le_upper_bound; nia. }
  rewrite sres_in by lia. cbn [bindO]. fold n. assert (n = Z.abs (stop - start) / Z.abs step + 1) by reflexivity. clearbody n.
  destruct (n =? 2 ^ 63) eqn:E; [apply Z.eqb_eq in E; rewrite sres_out by lia; reflexivity|]. apply Z.eqb_neq in E.
  rewrite sres_in by lia. cbn [bindO]. rewrite w64_small by (unfold W; lia). destruct (vec_max <? n) eqn:Ev; [reflexivity|]. f_equal.
  assert (Es : seq_loop (Z.to_nat n) start step = map (fun k => start + Z.of_nat k * step) (seq 0 (Z.to_nat n))).
  { apply seq_loop_spec. intros k Hk. assert (Q : Z.abs step * (Z.abs (stop - start) / Z.abs step) <= Z.abs (stop - start)) by (apply Z.mul_div_le; lia).
    assert (Z.of_nat k * Z.abs step <= Z.abs (stop - start)) by nia. destruct Hr as [[]|[]]; nia. }
  rewrite Es. unfold iota. rewrite map_map. reflexivity.
Qed.
Print Assumptions seq_same_side_exact.

(** ** across 2^63 *)
(** [d]: the distance.  The difference of the ends as signed numbers overflows unless [d] is above 2^63 (at least, going up); otherwise it
    is [W - d] in the wrong direction and, with [k = (W - d) / |step|], gives one element, none or an exception. *)
Theorem seq_across_exact : forall chk start stop step, 0 <= start < W -> 0 <= stop < W -> ~ (start < 2 ^ 63 <-> stop < 2 ^ 63) ->
  - 2 ^ 63 <= step < 2 ^ 63 -> reachable_stop start stop step ->
  let d := Z.abs (stop - start) in let k := (W - d) / Z.abs step in
  seq_model chk start stop step =
    if (d <? 2 ^ 63) || ((d =? 2 ^ 63) && (stop <? start)) then UB
    else if k =? 0 then Ok [start] else if k =? 1 then Ok [] else Throw LogicError.
Proof.
  intros chk start stop step Ha Hb Hh Hst Hr d k. rewrite seq_asserts by exact Hr.
  assert (Hs : 0 < Z.abs step) by (destruct Hr as [[]|[]]; lia).
  assert (Hside : (start < 2 ^ 63 <= stop) \/ (stop < 2 ^ 63 <= start)) by lia.
  assert (Dd : d = Z.abs (stop - start)) by reflexivity. clearbody d.
  assert (Ed : s64 stop - s64 start = if stop <? start then W - d else d - W).
  { destruct (stop <? start) eqn:E; [rewrite (s64_low stop), (s64_high start) by lia|rewrite (s64_low start), (s64_high stop) by lia]; lia. }
  destruct ((d <? 2 ^ 63) || ((d =? 2 ^ 63) && (stop <? start))) eqn:Eu.
  { rewrite Ed, sres_out; [reflexivity|]. destruct (stop <? start) eqn:E; unfold W in *; lia. }
  assert (Dw : 0 < W - d <= 2 ^ 63) by (destruct (stop <? start) eqn:E; unfold W in *; lia).
  rewrite Ed, sres_in by (destruct (stop <? start) eqn:E; unfold W in *; lia). cbn [bindO].
  assert (Eq : Z.quot (if stop <? start then W - d else d - W) step = - k).
  { unfold k. destruct Hr as [[H1 H2]|[H1 H2]].
    - replace (stop <? start) with false by lia. replace (d - W) with (- (W - d)) by lia. rewrite Z.quot_opp_l by lia. rewrite (Z.abs_eq step) by lia. rewrite Z.quot_div_nonneg by lia. reflexivity.
    - replace (stop <? start) with true by lia. rewrite (Z.abs_neq step) by lia. rewrite <- (Z.opp_involutive step) at 1. rewrite Z.quot_opp_r by lia. rewrite Z.quot_div_nonneg by lia. reflexivity. }
  rewrite Eq. assert (K : 0 <= k <= W - d).
  { unfold k. split; [apply Z.div_pos; lia|]. apply Z.div_le_upper_bound; nia. }
  rewrite sres_in by lia. cbn [bindO].
  rewrite (negative_quotient k ltac:(lia) (list Z) (fun n => Ok (seq_loop (Z.to_nat n) start step))).
  reflexivity.
Qed.
Print Assumptions seq_across_exact.

(** ** unchecked builds: a stop value that cannot be reached *)
(** Step 0 is undefined; otherwise, on one side of 2^63, with [k = |stop - start| / |step|] there is one element, none or an exception. *)
Theorem seq_unreachable_unchecked : forall start stop step, 0 <= start < W -> 0 <= stop < W -> (start < 2 ^ 63 <-> stop < 2 ^ 63) ->
  - 2 ^ 63 <= step < 2 ^ 63 -> ~ reachable_stop start stop step ->
  let k := Z.abs (stop - start) / Z.abs step in
  seq_model false start stop step =
    if step =? 0 then UB else if k =? 0 then Ok [start] else if k =? 1 then Ok [] else Throw LogicError.
Proof.
  intros start stop step Ha Hb Hh Hst Hr k. unfold seq_model. cbn [dassert]. unfold dassert. cbn [bindO].
  assert (Ed : s64 stop - s64 start = stop - start).
  { destruct (Z_lt_le_dec start (2 ^ 63)) as [L|L]; [rewrite !s64_low by lia; lia|]. rewrite !s64_high by lia. lia. }
  rewrite Ed. assert (Bd : - 2 ^ 63 < stop - start < 2 ^ 63) by (unfold W in *; lia). rewrite sres_in by lia. cbn [bindO].
  destruct (step =? 0) eqn:E0; [reflexivity|]. apply Z.eqb_neq in E0.
  assert (Hd : (start < stop /\ step < 0) \/ (stop < start /\ 0 < step)) by (unfold reachable_stop in Hr; lia).
  assert (Eq : Z.quot (stop - start) step = - k).
  { unfold k. destruct Hd as [[H1 H2]|[H1 H2]].
    - rewrite (Z.abs_eq (stop - start)), (Z.abs_neq step) by lia. rewrite <- (Z.opp_involutive step) at 1. rewrite Z.quot_opp_r by lia. rewrite Z.quot_div_nonneg by lia. reflexivity.
    - rewrite (Z.abs_neq (stop - start)), (Z.abs_eq step) by lia. rewrite <- (Z.opp_involutive (stop - start)) at 1. rewrite Z.quot_opp_l by lia. rewrite Z.quot_div_nonneg by lia. reflexivity. }
  rewrite Eq. assert (K : 0 <= k <= Z.abs (stop - start)).
  { unfold k. split; [apply Z.div_pos; lia|]. apply Z.div_le_upper_bound; nia. }
  rewrite sres_in by lia. cbn [bindO].
  rewrite (negative_quotient k ltac:(lia) (list Z) (fun n => Ok (seq_loop (Z.to_nat n) start step))). reflexivity.
Qed.
Print Assumptions seq_unreachable_unchecked.

Example seq_exact_ex :
  seq_model true 10 2 (-3) = Ok [10; 7; 4] /\ seq_model true (2 ^ 64 - 1) (2 ^ 64 - 5) (-2) = Ok [2 ^ 64 - 1; 2 ^ 64 - 3; 2 ^ 64 - 5] /\
  reachable_stop (2 ^ 63 - 1) (2 ^ 63) 1 /\ seq_model true (2 ^ 63 - 1) (2 ^ 63) 1 = UB /\
  reachable_stop 0 (W - 1) (2 ^ 62) /\ seq_model true 0 (W - 1) (2 ^ 62) = Ok [0] /\ seq_model true 0 (W - 2) 2 = Ok [] /\
  seq_model true 0 (W - 5) 2 = Throw LogicError /\ seq_model true (W - 1) 0 (-1) = Ok [] /\
  seq_model false 3 5 (-1) = Throw LogicError /\ seq_model false 3 4 (-1) = Ok [] /\ seq_model false 3 4 (-2) = Ok [3].
Proof. unfold reachable_stop, W. repeat split; try reflexivity; lia. Qed.
