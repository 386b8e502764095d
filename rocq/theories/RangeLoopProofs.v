(** * RangeLoopProofs: the algorithms on the iterators of an expression agree with the algorithms on the list of its values. *)

From Coq Require Import ZArith List Bool Lia Arith Floats.SpecFloat.
From Verif Require Import Base Spec Desc Slice SliceSpec Coerce Random Expr ExprSpec Lemmas DescProofs LifeProofs RunProofs ViewThms ExprProofs ExprThms ExprSeq ArrAssign Reduce Stats Freq RangeLoop RangeLoopSpec.
Import ListNotations.
Open Scope Z_scope.

Section Loop.
Context {V : Type}.
Notation mem := (@mem V).
Notation expr := (@expr V).
Implicit Types (m : mem) (e : expr).

Lemma elements_exist fuel m e es : expr_ok fuel m e es -> exists vs, elements fuel m e es vs.
Proof. intros K. destruct (eval_expr_spec true fuel m e es K) as [vs [_ H]]. exists vs. exact H. Qed.

Lemma elements_unique fuel m e es vs vs' : elements fuel m e es vs -> elements fuel m e es vs' -> vs = vs'.
Proof.
  intros [L H] [L' H']. apply nth_error_ext. intros k. destruct (lt_dec k (length vs)) as [Hk|Hk].
  - rewrite H by lia. rewrite H' by lia. reflexivity.
  - rewrite !(proj2 (nth_error_None _ _)) by lia. reflexivity.
Qed.

(** The loop on a list, with the number of elements it visits. *)
Fixpoint list_loop {S R} (body : S -> V -> outcome (step S R)) (fin : S -> R) (vs : list V) (s : S) : outcome (R * nat) :=
  match vs with
  | [] => Ok (fin s, O)
  | v :: vs' =>
      let* r := body s v in
      match r with Ret x => Ok (x, 1%nat) | Go s' => let* q := list_loop body fin vs' s' in Ok (fst q, Datatypes.S (snd q)) end
  end.

Lemma for_loop_list {S R} (body : S -> V -> outcome (step S R)) fin fuel m e es h xe vs : expr_ok fuel m e es -> elements fuel m e es vs ->
  forall n k x fu s, (k + n = length vs)%nat -> (n < fu)%nat -> xat fuel h e k x xe ->
  for_loop body fin fu h m x xe s = (let* q := list_loop body fin (skipn k vs) s in Ok (fst q, map (reads fuel e) (seq k (snd q)))).
Proof.
  intros K [L Hv]. induction n as [|n IH]; intros k x fu s Hk Hf X; (destruct fu as [|fu]; [lia|]); cbn [for_loop].
  - rewrite (xat_end _ _ _ _ _ k K ltac:(lia) _ _ X). rewrite skipn_all2 by lia. reflexivity.
  - rewrite (xat_not_end _ _ _ _ _ k K ltac:(lia) _ _ X).
    destruct (xat_deref _ _ _ _ _ k K ltac:(lia) _ _ X) as [w [Ew ->]]. cbn [bindO fst snd].
    assert (En : nth_error vs k = Some w) by (rewrite Hv by lia; exact Ew). rewrite (skipn_nth _ _ _ En). cbn [list_loop].
    destruct (body s w) as [r| | | |]; cbn [bindO]; auto. destruct r as [s'|y]; [|reflexivity].
    destruct (xat_next _ _ _ _ _ k K ltac:(lia) _ _ X) as [x' [-> X']]. cbn [bindO].
    rewrite (IH (Datatypes.S k) x' fu s' ltac:(lia) ltac:(lia) X'). destruct (list_loop body fin (skipn (Datatypes.S k) vs) s') as [q| | | |]; reflexivity.
Qed.

Lemma distance_spec fuel m e es h xe : expr_ok fuel m e es -> forall n k x fu, Z.of_nat (k + n) = zprod es -> (n < fu)%nat -> xat fuel h e k x xe ->
  distance fu x xe = Ok (Z.of_nat n).
Proof.
  intros K. induction n as [|n IH]; intros k x fu Hk Hf X; (destruct fu as [|fu]; [lia|]); cbn [distance].
  - rewrite (xat_end _ _ _ _ _ k K ltac:(lia) _ _ X). reflexivity.
  - rewrite (xat_not_end _ _ _ _ _ k K ltac:(lia) _ _ X). destruct (xat_next _ _ _ _ _ k K ltac:(lia) _ _ X) as [x' [-> X']]. cbn [bindO].
    rewrite (IH (S k) x' fu ltac:(lia) ltac:(lia) X'). cbn [bindO]. f_equal. lia.
Qed.

(** What a loop over an expression sees. *)
Lemma over_expression chk fuel m e es vs fu : expr_ok fuel m e es -> elements fuel m e es vs -> (length vs < fu)%nat ->
  exists h s, (forall R (k : _ -> _ -> outcome R), ranged chk e k = k h s) /\ sdim s = es /\ prod_arr (sdim s) = Z.of_nat (length vs) /\
    distance fu (sbeg s) (send s) = Ok (Z.of_nat (length vs)) /\
    forall S R (body : S -> V -> outcome (step S R)) fin st,
      for_loop body fin fu h m (sbeg s) (send s) st = (let* q := list_loop body fin vs st in Ok (fst q, map (reads fuel e) (seq 0 (snd q)))).
Proof.
  intros K E Hf. destruct (build_spec _ _ _ _ K chk []) as [x [xe [h [Eb X]]]]. exists h, (Src x xe es). split; [|split; [|split; [|split]]]; cbn [sdim sbeg send].
  - intros R k. unfold ranged. rewrite Eb. reflexivity.
  - reflexivity.
  - destruct (expr_ok_dims _ _ _ _ K) as [D1 [D2 D3]]. rewrite prod_arr_small by auto. symmetry. apply E.
  - destruct E as [L _]. eapply distance_spec with (k := O); eauto.
  - intros S R body fin st. rewrite (for_loop_list body fin fuel m e es h xe vs K E (length vs) O x fu st eq_refl Hf X). reflexivity.
Qed.

Lemma list_goes {S} (f : S -> V -> S) : forall vs s, list_loop (goes f) (fun x => x) vs s = Ok (fold_left f vs s, length vs).
Proof. induction vs as [|v vs IH]; intros s; cbn; [reflexivity|]. rewrite IH. reflexivity. Qed.
Lemma list_goesO {S} (f : S -> V -> outcome S) : forall vs s, list_loop (goesO f) (fun x => x) vs s = (let* r := foldO f vs s in Ok (r, length vs)).
Proof.
  induction vs as [|v vs IH]; intros s; cbn; [reflexivity|]. unfold goesO at 1. destruct (f s v) as [s'| | | |]; cbn; auto.
  rewrite IH. destruct (foldO f vs s'); reflexivity.
Qed.
End Loop.

Section Lists.
Context {V : Type}.
Lemma list_max (lt : V -> V -> bool) : forall vs st, fold_left (fun st v => if lt st v then v else st) vs st = max_loop lt vs st.
Proof. induction vs as [|v vs IH]; intros st; cbn; auto. Qed.
Lemma list_min (lt : V -> V -> bool) : forall vs st, fold_left (fun st v => if lt v st then v else st) vs st = min_loop lt vs st.
Proof. induction vs as [|v vs IH]; intros st; cbn; auto. Qed.
Lemma list_which_max (lt : V -> V -> bool) : forall vs st pos best,
  list_loop (fun '(st, pos, best) v => Ok (Go (if lt st v then (v, w64 (pos + 1), pos) else (st, w64 (pos + 1), best)))) (fun '(_, _, best) => best) vs (st, pos, best)
  = Ok (which_max_loop lt vs st pos best, length vs).
Proof. induction vs as [|v vs IH]; intros st pos best; cbn; auto. destruct (lt st v); rewrite IH; reflexivity. Qed.
Lemma list_which_min (lt : V -> V -> bool) : forall vs st pos best,
  list_loop (fun '(st, pos, best) v => Ok (Go (if lt v st then (v, w64 (pos + 1), pos) else (st, w64 (pos + 1), best)))) (fun '(_, _, best) => best) vs (st, pos, best)
  = Ok (which_min_loop lt vs st pos best, length vs).
Proof. induction vs as [|v vs IH]; intros st pos best; cbn; auto. destruct (lt v st); rewrite IH; reflexivity. Qed.
Lemma list_copy : forall (vs acc : list V), fold_left (fun l v => l ++ [v]) vs acc = acc ++ vs.
Proof. induction vs as [|a l IH]; intros acc; cbn; [symmetry; apply app_nil_r|]. rewrite IH, <- app_assoc. reflexivity. Qed.
Lemma list_count (b : V -> bool) : forall vs n, fold_left (fun n v => if b v then w64 (n + 1) else n) vs n = count_loop b vs n.
Proof. induction vs as [|v vs IH]; intros n; cbn; auto. Qed.
Lemma list_which (b : V -> bool) : forall vs index l,
  list_loop (fun '(index, l) v => Ok (Go (w64 (index + 1), if b v then l ++ [index] else l))) (fun '(_, l) => l) vs (index, l) = Ok (which_loop b vs index l, length vs).
Proof. induction vs as [|v vs IH]; intros index l; cbn; auto. rewrite IH. reflexivity. Qed.

(** Loops that return at the first element satisfying [p]. *)
Lemma list_until (p : V -> bool) (r r' : bool) : r <> r' -> forall vs, exists j,
  list_loop (fun (_ : unit) v => Ok (if p v then Ret r else Go tt)) (fun _ => r') vs tt = Ok (if existsb p vs then r else r', Nat.min (S j) (length vs)) /\ first_where p vs j.
Proof.
  intros D. induction vs as [|v vs [j [IH [H1 H2]]]]; cbn.
  - exists O. split; [reflexivity|]. split; [intros; lia|]. now left.
  - destruct (p v) eqn:Ep; cbn.
    + exists O. split; [f_equal; f_equal; lia|]. split; [intros; lia|]. right. exists v. auto.
    + rewrite IH. cbn [bindO fst snd]. exists (S j). split; [reflexivity|]. split.
      * intros [|i] x Hi Hx; cbn in Hx; [congruence|]. apply (H1 i x); [lia|auto].
      * destruct H2 as [->|[x [Hx Px]]]; [now left|]. right. exists x. auto.
Qed.
End Lists.
