(** * PropMask: property C57 (selecting by a mask: [x[which(mask)]]).

    [bs]: the elements of the mask, [b]: their conversion to bool. *)

From Coq Require Import ZArith List Bool Lia Arith.
From Verif Require Import Base Spec Desc Slice SliceSpec Expr ExprSpec Lemmas LifeProofs RunProofs ExprProofs ExprThms ExprSeq ArrAssign Reduce ReduceSpec ReduceProofs EmptySpec PropExpr PropEmpty.
Import ListNotations.
Open Scope Z_scope.

(** *** specification: what selection and replacement by a mask are *)
Definition selected {B V} (b : B -> bool) (bs : list B) (c : list V) : list V := map snd (filter (fun q => b (fst q)) (combine bs c)).
Definition replaced {B V} (b : B -> bool) (bs : list B) (v : V) (c : list V) : list V := map (fun q => if b (fst q) then v else snd q) (combine bs c).

Lemma positions_len {B} (b : B -> bool) bs : length (positions_where b bs) = length (filter b bs).
Proof.
  induction bs as [|x bs IH]; [reflexivity|]. rewrite positions_cons, app_length, map_length, IH. cbn. destruct (b x); reflexivity.
Qed.
Lemma positions_NoDup {B} (b : B -> bool) bs : NoDup (positions_where b bs).
Proof. apply NoDup_filter, iota_NoDup. Qed.
Lemma positions_in {B} (b : B -> bool) bs : Forall (fun k => 0 <= k < Z.of_nat (length bs)) (positions_where b bs).
Proof.
  apply Forall_forall. intros k H. apply in_positions in H as [H0 [x [E _]]]. assert (L : (Z.to_nat k < length bs)%nat) by (apply nth_error_Some; congruence). lia.
Qed.

Lemma selected_positions {B V} (b : B -> bool) : forall (bs : list B) (c : list V), length c = length bs ->
  map (fun p => nth_error c (Z.to_nat p)) (positions_where b bs) = map Some (selected b bs c).
Proof.
  unfold selected. induction bs as [|x bs IH]; intros [|y c] L; cbn in L; try discriminate; [reflexivity|]. injection L as L.
  rewrite positions_cons, map_app, map_map. cbn [combine filter fst].
  assert (E : map (fun k => nth_error (y :: c) (Z.to_nat (k + 1))) (positions_where b bs) = map (fun p => nth_error c (Z.to_nat p)) (positions_where b bs)).
  { apply map_ext_in. intros k H. apply in_positions in H as [H _]. replace (Z.to_nat (k + 1)) with (S (Z.to_nat k)) by lia. reflexivity. }
  rewrite E, IH by exact L. destruct (b x); reflexivity.
Qed.

Lemma replaced_nth {B V} (b : B -> bool) (v : V) : forall bs c k, length c = length bs ->
  nth_error (replaced b bs v c) k = match nth_error bs k, nth_error c k with Some x, Some y => Some (if b x then v else y) | _, _ => None end.
Proof.
  unfold replaced. induction bs as [|x bs IH]; intros [|y c] [|k] L; cbn in L; try discriminate; try reflexivity. injection L as L. cbn. now apply IH.
Qed.

Theorem mask_selects : forall (B V : Type) (b : B -> bool) (bs : list B) chk, 0 < Z.of_nat (length bs) <= MAXSZ ->
  exists fuel0, forall fuel, (fuel0 <= fuel)%nat -> exists s,
    run chk fuel (SRef 0 [Z.of_nat (length bs)]) [URange (which_loop b bs 0 [])] = Ok s /\
    is_view fuel s [Z.of_nat (length (filter b bs))] (positions_where b bs) /\
    forall (m : @mem V) sid c, nth_error m sid = Some c -> length c = length bs ->
      (* reading *) (exists reads, eval_expr chk m (ELeaf sid s) = Ok ([Z.of_nat (length (filter b bs))], selected b bs c, reads)) /\
      (* assigning a scalar *) (forall v, view_fill fuel m sid s v = Ok (upd_nat m sid (replaced b bs v c), positions_where b bs)).
Proof.
  intros B V b bs chk Hn. rewrite which_spec by (unfold W, MAXSZ in *; lia).
  assert (G : good_shape [Z.of_nat (length bs)]). { split; [discriminate|]. split; [repeat constructor; lia|]. cbn. lia. }
  assert (Lf := positions_len b bs). assert (Fp := positions_in b bs).
  assert (Lb : (length (filter b bs) <= length bs)%nat) by (clear; induction bs as [|x l IH]; cbn; [lia|]; destruct (b x); cbn; lia).
  assert (Vw : exists fuel0, forall fuel, (fuel0 <= fuel)%nat -> exists s,
    run chk fuel (SRef 0 [Z.of_nat (length bs)]) [URange (positions_where b bs)] = Ok s /\ is_view fuel s [Z.of_nat (length (filter b bs))] (positions_where b bs)).
  { destruct (positions_where b bs) as [|p0 ps'] eqn:Ep.
    - cbn in Lf. rewrite <- Lf. cbn [Z.of_nat].
      destruct (empty_index_range chk [Z.of_nat (length bs)] [] [URange []] G I) as [f0 H].
      + split; [constructor; [right; reflexivity|constructor]|]. intros F. inversion F as [|? ? ? ? H _]. destruct H as [H _]. congruence.
      + reflexivity.
      + reflexivity.
      + reflexivity.
      + exists f0. intros fuel Hf. destruct (H fuel Hf) as [s [s' [E1 [E2 [E3 E4]]]]]. cbn in E1. injection E1 as <-. exists s'. split; auto.
        split; auto. split; auto. split; [discriminate|]. split; [repeat constructor; lia|]. cbn. unfold W. lia.
    - rewrite <- Ep in *. assert (Ne : positions_where b bs <> []) by congruence. clear Ep p0 ps'.
      assert (O : ok_steps (afull [Z.of_nat (length bs)]) [[URange (positions_where b bs)]]).
      { cbn. repeat split; auto. - repeat constructor; cbn; auto. - unfold result_shape; cbn. lia. }
      destruct (reachable_views_qualify chk [Z.of_nat (length bs)] [[URange (positions_where b bs)]] G O) as [f0 H]. exists f0. intros fuel Hf.
      destruct (H fuel Hf) as [s [shape [ps [R [A [Hv _]]]]]]. cbn [foldO] in R.
      assert (Es : shape = [Z.of_nat (length (positions_where b bs))]). { cbn in A. injection A as <- _. reflexivity. }
      assert (Ep : ps = positions_where b bs).
      { assert (A2 := f_equal snd A). cbn [snd] in A2. rewrite <- A2. clear -Hn Fp. cbn [aselects aselect fst snd sels sel afull cart flat_map zprod fold_right].
        rewrite app_nil_r, map_map. rewrite <- (map_id (positions_where b bs)) at 2. apply map_ext_in. intros i Hi. rewrite Forall_forall in Fp. apply Fp in Hi.
        unfold aview_at, afull. cbn [fst snd cm_pos zprod fold_right]. unfold iota.
        rewrite (nth_indep _ 0 (Z.of_nat 0)) by (rewrite map_length, seq_length; lia). rewrite map_nth, seq_nth by lia. lia. }
      subst shape ps. rewrite Lf in Hv. exists s. split; [|exact Hv].
      destruct (run chk fuel (SRef 0 [Z.of_nat (length bs)]) [URange (positions_where b bs)]); cbn in R; congruence. }
  destruct Vw as [f0 Vw]. exists (max f0 (S (length bs))). intros fuel Hf. destruct (Vw fuel ltac:(lia)) as [s [R Hv]].
  exists s. split; [exact R|]. split; [exact Hv|]. intros m sid c Ec Lc.
  assert (Hi : inside m sid (positions_where b bs)). { exists c. split; auto. rewrite Lc. exact Fp. }
  split.
  - assert (K : expr_ok fuel m (ELeaf sid s) [Z.of_nat (length (filter b bs))]) by (econstructor; eauto).
    destruct (eval_expr_spec chk fuel m _ _ K) as [vs [E [L Hvs]]]. rewrite E. eexists. f_equal. f_equal. f_equal.
    assert (Hl : length vs = length (positions_where b bs)) by (cbn in L; lia).
    assert (M : map Some vs = map Some (selected b bs c)).
    { rewrite <- selected_positions by exact Lc. apply nth_error_ext. intros k. rewrite !nth_error_map. destruct (lt_dec k (length vs)) as [Hk|Hk].
      - destruct (nth_error vs k) as [w|] eqn:Ew; [|apply nth_error_None in Ew; lia]. rewrite (Hvs k Hk) in Ew. cbn in Ew.
        destruct Hv as [_ [P _]]. rewrite P in Ew. destruct (nth_error (positions_where b bs) k) as [p|]; [|discriminate]. unfold cell in Ew. rewrite Ec in Ew. cbn. congruence.
      - rewrite (proj2 (nth_error_None vs k)) by lia. rewrite (proj2 (nth_error_None (positions_where b bs) k)) by lia. reflexivity. }
    clear -M. revert M. generalize (selected b bs c). intros l. revert vs. induction l as [|y l IH]; intros [|x vs] M; cbn in M; try discriminate; [reflexivity|]. injection M as -> M. f_equal. auto.
  - intros v. destruct (fill_all fuel fuel m sid s _ _ v Hv Hi ltac:(lia)) as [m' [E [W1 [W2 [W3 W4]]]]]. rewrite E. f_equal. f_equal.
    apply nth_error_ext. intros sid'. assert (Hs : (sid < length m)%nat) by (apply nth_error_Some; congruence).
    destruct (Nat.eq_dec sid sid') as [<-|D].
    + rewrite nth_upd_nat_same by exact Hs. destruct (W2 sid c Ec) as [c' [Ec' Lc']]. rewrite Ec'. f_equal. apply nth_error_ext. intros k. rewrite replaced_nth by exact Lc.
      destruct (nth_error bs k) as [x|] eqn:Ex.
      * assert (Hk : (k < length bs)%nat) by (apply nth_error_Some; congruence). destruct (nth_error c k) as [y|] eqn:Ey; [|apply nth_error_None in Ey; lia].
        destruct (b x) eqn:Bx.
        -- assert (Hin : In (Z.of_nat k) (positions_where b bs)). { apply in_positions. split; [lia|]. exists x. rewrite Nat2Z.id. auto. }
           apply In_nth_error in Hin as [j Hj]. destruct (W4 j _ Hj) as [_ W5]. unfold cell in W5. rewrite Ec', Nat2Z.id in W5. exact W5.
        -- assert (Hin : ~ In (Z.of_nat k) (positions_where b bs)). { intros H. apply in_positions in H as [_ [x' [Ex' Bx']]]. rewrite Nat2Z.id in Ex'. congruence. }
           specialize (W3 sid (Z.of_nat k) ltac:(lia) (or_intror Hin)). unfold cell in W3. rewrite Ec, Ec', Nat2Z.id in W3. congruence.
      * apply nth_error_None. apply nth_error_None in Ex. lia.
    + rewrite nth_upd_nat_other by exact D. destruct (nth_error m sid') as [d|] eqn:Ed.
      * destruct (W2 sid' d Ed) as [d' [Ed' Ld]]. rewrite Ed'. f_equal. apply nth_error_ext. intros k. assert (D' : sid' <> sid) by congruence.
        specialize (W3 sid' (Z.of_nat k) ltac:(lia) (or_introl D')). unfold cell in W3. rewrite Ed, Ed', Nat2Z.id in W3. exact W3.
      * apply nth_error_None. apply nth_error_None in Ed. lia.
Qed.
Print Assumptions mask_selects.

(** [x[which(x > 2)]] and [x[which(x > 2)] = 0]. *)
Example mask_ex : selected (Z.ltb 2) [5; 1; 3; 2] [5; 1; 3; 2] = [5; 3] /\ replaced (Z.ltb 2) [5; 1; 3; 2] 0 [5; 1; 3; 2] = [0; 1; 0; 2] /\
  (let* s := run true 20 (SRef 0 [4]) [URange (which_loop (Z.ltb 2) [5; 1; 3; 2] 0 [])] in view_fill 20 [[5; 1; 3; 2]] 0 s 0) = Ok ([[0; 1; 0; 2]], [0; 2]) /\
  (let* s := run true 20 (SRef 0 [4]) [URange (which_loop (Z.ltb 9) [5; 1; 3; 2] 0 [])] in view_fill 20 [[5; 1; 3; 2]] 0 s 0) = Ok ([[5; 1; 3; 2]], []).
Proof. repeat split; reflexivity. Qed.
