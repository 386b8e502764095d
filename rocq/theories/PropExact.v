(** * PropExact: C26 and C38, all cases. *)

From Coq Require Import ZArith Bool Ascii String List Lia.
From Verif Require Import Base Spec Lemmas Reduce ReduceSpec ReduceProofs PropReduce Coerce Frame FrameSpec FrameProofs.
Import ListNotations.
Open Scope Z_scope.

Lemma which_none {V} (lt : V -> V -> bool) l start : (forall x, In x l -> lt start x = false) -> forall pos best, which_max_loop lt l start pos best = best.
Proof. induction l as [|a l IH]; intros H pos best; cbn; auto. rewrite (H a) by (left; auto). apply IH. intros x Hx. apply H. right. auto. Qed.

Lemma which_above {V} (lt : V -> V -> bool) ok (L : linear_on lt ok) l bot : ok bot -> Z.of_nat (length l) < W -> (exists x, In x l /\ lt bot x = true) ->
  exists m, ok m /\ is_max lt l m /\ first_at l m (which_max lt l bot).
Proof.
  intros Hb Hw [x [Hx Lx]]. exists (max_loop lt l bot). destruct (max_loop_spec lt ok L l bot Hb) as [[I1 I2] O]. split; [auto|].
  destruct (which_max_loop_spec lt ok L l bot 0 0 Hb ltac:(lia) ltac:(lia)) as [[M H]|[M [k [H F]]]].
  - rewrite M, (I2 x (or_intror Hx)) in *. congruence.
  - unfold which_max. rewrite H. split; [|exact F]. split; [|intros; apply I2; right; auto]. destruct I1 as [Q|I1]; auto.
    destruct L as (_ & Irr & _). rewrite <- Q, Irr in M. discriminate.
Qed.

(** C26: which_max / which_min of doubles, with NaN anywhere.  If some element is greater than -infinity the result is the first position of the
    maximum of the elements that are not NaN; otherwise (only NaN and -infinity) it is 0, whatever is there. *)
Theorem float_which_max_exact : forall l, Z.of_nat (length l) < W ->
  (exists m, m <> NaN /\ is_max num_lt l m /\ first_at l m (which_max num_lt l NInf)) \/
  ((forall x, In x l -> x = NaN \/ x = NInf) /\ which_max num_lt l NInf = 0).
Proof.
  intros l Hw. assert (H : (exists x, In x l /\ num_lt NInf x = true) \/ (forall x, In x l -> x = NaN \/ x = NInf)).
  { clear. induction l as [|a l IH]; [right; intros x []|]. destruct (num_lt NInf a) eqn:E; [left; exists a; split; [left; auto|auto]|].
    destruct IH as [(x & Hx & Hlt)|IH]; [left; exists x; split; [right; auto|auto]|]. right. intros x [<-|Hx]; auto. destruct a; auto; discriminate. }
  destruct H as [H|H]; [left; apply (which_above num_lt _ num_linear); auto; discriminate|right]. split; auto.
  apply which_none. intros x Hx. destruct (H x Hx) as [-> | ->]; reflexivity.
Qed.
Print Assumptions float_which_max_exact.

Theorem float_which_min_exact : forall l, Z.of_nat (length l) < W ->
  (exists m, m <> NaN /\ is_min num_lt l m /\ first_at l m (which_min num_lt l PInf)) \/
  ((forall x, In x l -> x = NaN \/ x = PInf) /\ which_min num_lt l PInf = 0).
Proof.
  intros l Hw. rewrite which_min_flip'. assert (H : (exists x, In x l /\ num_lt x PInf = true) \/ (forall x, In x l -> x = NaN \/ x = PInf)).
  { clear. induction l as [|a l IH]; [right; intros x []|]. destruct (num_lt a PInf) eqn:E; [left; exists a; split; [left; auto|auto]|].
    destruct IH as [(x & Hx & Hlt)|IH]; [left; exists x; split; [right; auto|auto]|]. right. intros x [<-|Hx]; auto. destruct a; auto; discriminate. }
  destruct H as [H|H]; [left; apply (which_above _ _ (linear_flip _ _ num_linear)); auto; discriminate|right]. split; auto.
  apply which_none. intros x Hx. destruct (H x Hx) as [-> | ->]; reflexivity.
Qed.
Print Assumptions float_which_min_exact.

Example float_which_ex : which_max num_lt [NaN; Fin 3; NaN; Fin 5; Fin 5] NInf = 3 /\ which_max num_lt [NaN; NInf] NInf = 0 /\
  which_min num_lt [PInf; NaN; Fin 2; NInf] PInf = 3 /\ which_min num_lt [NaN] PInf = 0.
Proof. repeat split. Qed.

(** C38: the partial copy of a column with data, for all 64-bit arguments: the cells first .. first+size-1 if they exist and first is a
    position; std::out_of_range if not, unless first+size wraps below the length: then it is undefined. *)
Theorem C38_partial_copy_exact : forall m first size, 0 <= first < 2 ^ 64 -> 0 <= size < 2 ^ 64 ->
  let len := Z.of_nat (length (mcells m)) in
  col_partial (Some m) first size =
  if (first <? len) && (first + size <=? len) then Ok (Some (mkModel (mty m) (firstn (Z.to_nat size) (skipn (Z.to_nat first) (mcells m)))))
  else if (first <? len) && (2 ^ 64 <=? first + size) && (first + size - 2 ^ 64 <=? len) then UB
  else Throw OutOfRange.
Proof.
  intros m first size H1 H2 len. unfold col_partial, partial_clone. fold len.
  assert (Ew : w64 (first + size) = if 2 ^ 64 <=? first + size then first + size - 2 ^ 64 else first + size).
  { destruct (2 ^ 64 <=? first + size) eqn:E.
    - apply Z.leb_le in E. unfold w64, W. replace (first + size) with ((first + size - 2 ^ 64) + 1 * 2 ^ 64) by lia. rewrite Z.mod_add by lia.
      rewrite Z.mod_small by lia. lia.
    - apply Z.leb_gt in E. apply w64_small. unfold W. lia. }
  rewrite Ew. destruct (Z.leb_spec len first), (Z.ltb_spec first len); try lia; cbn [orb andb].
  - reflexivity.
  - destruct (Z.leb_spec (2 ^ 64) (first + size)); cbn [andb].
    + destruct (Z.leb_spec (first + size) len); [destruct (Z.ltb_spec len (first + size - 2 ^ 64)); [lia|]|]; auto.
      destruct (Z.ltb_spec len (first + size - 2 ^ 64)), (Z.leb_spec (first + size - 2 ^ 64) len); try lia; reflexivity.
    + destruct (Z.ltb_spec len (first + size)), (Z.leb_spec (first + size) len); try lia; reflexivity.
Qed.
Print Assumptions C38_partial_copy_exact.

Example C38_partial_copy_ex : let m := mkModel TInt [CInt 5; CInt 6; CInt 7] in
  col_partial (Some m) 1 2 = Ok (Some (mkModel TInt [CInt 6; CInt 7])) /\ col_partial (Some m) 1 3 = Throw OutOfRange /\
  col_partial (Some m) 3 0 = Throw OutOfRange /\ col_partial (Some m) 2 (2 ^ 64 - 1) = UB.
Proof. repeat split. Qed.
