(** * PropExprThrow: property C70 (operations through views when an element operation throws).

    [x_view_assign ev 0 chk fu m sid s e]: [view = e] where [ev k] tells whether computing the [k]-th element throws, assigning it throws (and leaves any
    value in it), or neither; the result is how it ended and the memory.  [quiet ev a n]: the operations [a .. a+n-1] do not throw; [throws_at ev a k]: operation
    [a + k] is the first from [a] on that does.  [partly m m' sid ps v k]: the elements before number [k] have the values [v], element [k] anything,
    nothing else has changed. *)

From Coq Require Import ZArith List Bool Lia Arith.
From Verif Require Import Base Spec Desc Slice SliceSpec Expr ExprSpec Lemmas DescProofs LifeProofs RunProofs ViewThms ExprProofs ExprThms ExprSeq ArrAssign Throws PropExpr ExprThrow ExprThrowProofs.
Import ListNotations.
Open Scope Z_scope.

Lemma view_assign_x (V : Type) (ev : nat -> event V) a chk fuel fu (m : @mem V) sid s es ps e : is_view fuel s es ps -> inside m sid ps -> expr_ok fuel m e es -> (length ps < fu)%nat ->
  (quiet ev a (length ps) -> exists m', x_view_assign ev a chk fu m sid s e = (Ok tt, m') /\ in_order sid (fun mk k _ => value fuel mk e k) 0 ps m = Some m') /\
  (forall k p, throws_at ev a k -> nth_error ps k = Some p -> exists mk, in_order sid (fun mk k _ => value fuel mk e k) 0 (firstn k ps) m = Some mk /\
     x_view_assign ev a chk fu m sid s e = (Throw ElemExn, spoilt ev (a + k) sid p mk)).
Proof.
  intros [H1 [H2 [H3 [H4 [H5 H6]]]]] Hi K Hf. unfold x_view_assign, x_array_assign.
  destruct (build_spec _ _ _ _ K chk []) as [x [xe [h [-> X]]]]. cbn [pure fst snd sdim sbeg send app] in *. rewrite H1, Zlist_eqb_refl, dassert_true. cbn [pure].
  destruct (positions_lwalk _ _ _ H2) as [b [en [Hr Hw]]]. rewrite Hr. cbn [pure fst snd].
  destruct (assign_loop_x ev fuel m e es sid ps h en xe a K Hi H6 (length ps) 0 m b x fu eq_refl Hf Hw X eq_refl) as [Q T]. rewrite Nat.add_0_r in *. split.
  - intros Hq. destruct (Q Hq) as [m' [x' [-> [O X']]]]. cbn [andthen]. rewrite (xat_end _ _ _ _ _ _ K H6 _ _ X'), dassert_true. cbn [pure]. eauto.
  - intros k p Ht Ek. destruct (T k p Ht Ek) as [mk [O ->]]. cbn [andthen]. eauto.
Qed.

(** ** assignment *)
(** No exception: as in Expr.v.  Otherwise the elements before the one that threw have been assigned, one after the other, and the others have not. *)
Theorem interrupted_assignment : forall (V : Type) (ev : nat -> event V) chk fuel fu (m : @mem V) sid s es ps e,
  is_view fuel s es ps -> inside m sid ps -> expr_ok fuel m e es -> (length ps < fu)%nat ->
  (quiet ev 0 (length ps) -> exists m', x_view_assign ev 0 chk fu m sid s e = (Ok tt, m') /\ view_assign chk fu m sid s e = Ok m') /\
  (forall k p, throws_at ev 0 k -> nth_error ps k = Some p -> exists mk, in_order sid (fun mk k _ => value fuel mk e k) 0 (firstn k ps) m = Some mk /\
     x_view_assign ev 0 chk fu m sid s e = (Throw ElemExn, spoilt ev k sid p mk)).
Proof.
  intros V ev chk fuel fu m sid s es ps e Hv Hi K Hf. destruct (view_assign_x V ev 0 chk fuel fu m sid s es ps e Hv Hi K Hf) as [Q T]. split; [|exact T].
  intros Hq. destruct (Q Hq) as [m' [E O]]. exists m'. split; auto. destruct (seq_view_assign chk fuel fu m sid s es ps e Hv Hi K Hf) as [m2 [E2 O2]]. congruence.
Qed.

(** Distinct elements, none read after it was written: those before have the new values (over the memory before), the one that threw is unknown, and
    everything else is as before. *)
Theorem interrupted_assignment_values : forall (V : Type) (ev : nat -> event V) chk fuel fu (m : @mem V) sid s es ps e k,
  is_view fuel s es ps -> inside m sid ps -> expr_ok fuel m e es -> (length ps < fu)%nat -> NoDup ps -> no_early_write fuel sid ps e ->
  throws_at ev 0 k -> (k < length ps)%nat ->
  exists m', x_view_assign ev 0 chk fu m sid s e = (Throw ElemExn, m') /\ partly m m' sid ps (value fuel m e) k.
Proof.
  intros V ev chk fuel fu m sid s es ps e k Hv Hi K Hf ND NE T Hk.
  destruct (nth_error ps k) as [p|] eqn:Ek; [|apply nth_error_None in Ek; lia].
  destruct (interrupted_assignment V ev chk fuel fu m sid s es ps e Hv Hi K Hf) as [_ H]. destruct (H k p T Ek) as [mk [O E]].
  eexists. split; [exact E|]. eapply partly_intro; eauto. intros j mi q Hj Eq S1 V1 C1.
  destruct Hv as [_ [_ [_ [_ [_ Hl]]]]]. destruct (value_some fuel m e es j K ltac:(lia)) as [w Hw]. split; [|congruence].
  apply value_reads. intros sid' r Hr. assert (Hr0 : 0 <= r).
  { clear - K Hr. induction K as [sd s es ps [_ [Hp _]] [c [_ F]] | | | | ]; cbn [reads] in Hr; auto.
    - rewrite Hp in Hr. destruct (nth_error ps j) eqn:E; [|destruct Hr]. destruct Hr as [[= <- <-]|[]]. rewrite Forall_forall in F. apply F. eapply nth_error_In; eauto.
    - apply in_app_or in Hr as [?|?]; auto. }
  apply C1; auto. destruct (Nat.eq_dec sid' sid) as [->|]; [|auto]. right. intros Hin. apply In_nth_error in Hin as [i Ei].
  assert (Hi2 : (i < j)%nat). { assert (i < length (firstn j ps))%nat by (apply nth_error_Some; congruence). rewrite firstn_length in H0. lia. }
  assert (Ei' : nth_error ps i = Some r). { rewrite <- Ei. rewrite <- (firstn_skipn j ps) at 1. apply nth_error_app1. rewrite firstn_length. lia. }
  apply (NE i j r); auto. lia.
Qed.

(** ** in-place operations, filling *)
Theorem interrupted_inplace : forall (V : Type) (ev : nat -> event V) chk fuel fu (m : @mem V) sid s es ps f e,
  is_view fuel s es ps -> inside m sid ps -> expr_ok fuel m e es -> (length ps < fu)%nat ->
  (quiet ev 0 (length ps) -> exists m', x_view_inplace ev chk fu m sid s f e = (Ok tt, m') /\ view_inplace chk fu m sid s f e = Ok (m', ps)) /\
  (forall k p, throws_at ev 0 k -> nth_error ps k = Some p -> exists mk,
     in_order sid (fun mk k p => lift2 f (cell mk sid p) (value fuel mk e k)) 0 (firstn k ps) m = Some mk /\
     x_view_inplace ev chk fu m sid s f e = (Throw ElemExn, spoilt ev k sid p mk)).
Proof.
  intros V ev chk fuel fu m sid s es ps f e Hv Hi K Hf. pose proof (seq_view_inplace chk fuel fu m sid s es ps f e Hv Hi K Hf) as [m2 [E2 O2]].
  destruct Hv as [H1 [H2 [H3 [H4 [H5 H6]]]]]. unfold x_view_inplace.
  destruct (build_spec _ _ _ _ K chk []) as [x [xe [h [-> X]]]]. cbn [pure fst snd sdim sbeg send app] in *. rewrite H1, Zlist_eqb_refl, dassert_true. cbn [pure].
  destruct (positions_lwalk _ _ _ H2) as [b [en [Hr Hw]]]. rewrite Hr. cbn [pure fst snd].
  destruct (inplace_loop_x ev fuel m e es sid ps h en xe f K Hi H6 (length ps) 0 m b x fu eq_refl Hf Hw X eq_refl) as [Q T]. split; [|exact T].
  intros Hq. destruct (Q Hq) as [m' [E O]]. exists m'. split; [exact E|]. cbn [skipn] in O. congruence.
Qed.
(** Values, when nothing the expression reads is in the view. *)
Theorem interrupted_inplace_values : forall (V : Type) (ev : nat -> event V) chk fuel fu (m : @mem V) sid s es ps f e k,
  is_view fuel s es ps -> inside m sid ps -> expr_ok fuel m e es -> (length ps < fu)%nat -> NoDup ps -> no_overlap fuel sid ps e ->
  throws_at ev 0 k -> (k < length ps)%nat ->
  exists m', x_view_inplace ev chk fu m sid s f e = (Throw ElemExn, m') /\
    partly m m' sid ps (fun j => lift2 f (match nth_error ps j with Some p => cell m sid p | None => None end) (value fuel m e j)) k.
Proof.
  intros V ev chk fuel fu m sid s es ps f e k Hv Hi K Hf ND NE T Hk.
  destruct (nth_error ps k) as [p|] eqn:Ek; [|apply nth_error_None in Ek; lia].
  destruct (interrupted_inplace V ev chk fuel fu m sid s es ps f e Hv Hi K Hf) as [_ H]. destruct (H k p T Ek) as [mk [O E]].
  eexists. split; [exact E|]. eapply partly_intro; eauto. intros j mi q Hj Eq S1 V1 C1. rewrite Eq.
  assert (Hl : Z.of_nat (length ps) = zprod es) by apply Hv.
  destruct (value_some fuel m e es j K ltac:(lia)) as [w Hw].
  destruct (load_inside m sid ps q Hi (nth_error_In _ _ Eq)) as [u [_ [Hu Hq]]].
  rewrite (value_off fuel m mi e es sid ps j K NE ltac:(lia)).
  2:{ intros sid' r Hr D. apply C1; auto. destruct D as [D|D]; auto. right. intros X. apply D. rewrite <- (firstn_skipn j ps). apply in_or_app. left. exact X. }
  rewrite (C1 sid q Hq). 2:{ right. intros X. rewrite <- (firstn_skipn j ps) in ND. rewrite (skipn_nth _ _ _ Eq) in ND. apply NoDup_remove_2 in ND. apply ND, in_or_app. left. exact X. }
  split; [reflexivity|]. rewrite Hu, Hw. discriminate.
Qed.

Theorem interrupted_update : forall (V : Type) (ev : nat -> event V) fuel fu (m : @mem V) sid s es ps op,
  is_view fuel s es ps -> inside m sid ps -> (length ps < fu)%nat ->
  (quiet ev 0 (length ps) -> exists m', x_view_update ev fu m sid s op = (Ok tt, m') /\ view_update fu m sid s op = Ok (m', ps)) /\
  (forall k p, throws_at ev 0 k -> nth_error ps k = Some p ->
     (exists mk, in_order sid (fun mk _ p => lift1 op (cell mk sid p)) 0 (firstn k ps) m = Some mk /\ x_view_update ev fu m sid s op = (Throw ElemExn, spoilt ev k sid p mk)) /\
     (NoDup ps -> exists m', x_view_update ev fu m sid s op = (Throw ElemExn, m') /\
        partly m m' sid ps (fun j => lift1 op (match nth_error ps j with Some p => cell m sid p | None => None end)) k)).
Proof.
  intros V ev fuel fu m sid s es ps op Hv Hi Hf. pose proof (seq_view_update fuel fu m sid s es ps op Hv Hi Hf) as [m2 [E2 O2]].
  destruct Hv as [H1 [H2 [H3 [H4 [H5 H6]]]]]. unfold x_view_update.
  destruct (positions_lwalk _ _ _ H2) as [b [en [Hr Hw]]]. rewrite Hr. cbn [pure fst snd].
  destruct (update_loop_x ev m sid ps en op Hi (length ps) 0 m b fu eq_refl Hf Hw eq_refl) as [Q T]. split.
  - intros Hq. destruct (Q Hq) as [m' [E O]]. exists m'. split; [exact E|]. cbn [skipn] in O. congruence.
  - intros k p Ht Ek. destruct (T k p Ht Ek) as [mk [O E]]. cbn [skipn Nat.add] in O, E. split; [eauto|].
    intros ND. eexists. split; [exact E|]. eapply partly_intro; eauto. intros j mi q Hj Eq S1 V1 C1. rewrite Eq.
    destruct (load_inside m sid ps q Hi (nth_error_In _ _ Eq)) as [u [_ [Hu Hq]]].
    rewrite (C1 sid q Hq). 2:{ right. intros X. rewrite <- (firstn_skipn j ps) in ND. rewrite (skipn_nth _ _ _ Eq) in ND. apply NoDup_remove_2 in ND. apply ND, in_or_app. left. exact X. }
    split; [reflexivity|]. rewrite Hu. discriminate.
Qed.

(** ** evaluation into a new array, [overlap] *)
Lemma eval_x (V : Type) (ev : nat -> event V) nt chk fuel (m : @mem V) e es : expr_ok fuel m e es ->
  (quiet ev 0 (Z.to_nat (zprod es)) -> exists vs, x_eval_expr ev nt chk m e = Ok (es, vs) /\ Z.of_nat (length vs) = zprod es /\ (forall k, (k < length vs)%nat -> nth_error vs k = value fuel m e k) /\
     eval_expr chk m e = Ok (es, vs, map (reads fuel e) (seq 0 (length vs)))) /\
  (forall k, throws_at ev 0 k -> Z.of_nat k < zprod es -> x_eval_expr ev nt chk m e = if nt then Abort else Throw ElemExn).
Proof.
  intros K. destruct (eval_expr_spec chk fuel m e es K) as [vs [E [L Hvs]]]. unfold x_eval_expr.
  destruct (build_spec _ _ _ _ K chk []) as [x [xe [h [-> X]]]]. cbn [bindO fst snd sdim sbeg send app] in *.
  destruct (expr_ok_dims _ _ _ _ K) as [D1 [D2 D3]]. rewrite prod_arr_small by auto.
  destruct (copy_n_x ev fuel m h e es xe K (Z.to_nat (zprod es)) 0 x ltac:(assert (H := zprod_nonneg _ D2); lia) X) as [Q T]. split.
  - intros Hq. destruct (Q Hq) as [us [Eu Hu]]. unfold x_construct. rewrite Eu.
    assert (Eq : us = vs).
    { assert (Hl : length us = Z.to_nat (zprod es)). { apply (f_equal (@length _)) in Hu. rewrite !map_length, seq_length in Hu. exact Hu. }
      apply nth_error_ext. intros k. destruct (lt_dec k (length us)) as [Hk|Hk].
      - rewrite (Hvs k) by lia. assert (Hn := f_equal (fun l => nth_error l k) Hu). cbn beta in Hn. rewrite !nth_error_map in Hn.
        rewrite (nth_error_nth' (seq 0 _) O) in Hn by (rewrite seq_length; lia). rewrite seq_nth in Hn by lia.
        destruct (nth_error us k) eqn:E1; [|apply nth_error_None in E1; lia]. cbn in Hn. congruence.
      - replace (nth_error us k) with (@None V) by (symmetry; apply nth_error_None; lia). symmetry. apply nth_error_None. lia. }
    subst us. exists vs. split; [destruct nt; reflexivity|]. auto.
  - intros k Ht Hk. unfold x_construct. rewrite (T k ltac:(lia) Ht). destruct nt; reflexivity.
Qed.

(** [array x = e]: the exception, unless the element type is constructed without exceptions: then the program ends ([nt]). *)
Theorem interrupted_eval : forall (V : Type) (ev : nat -> event V) nt chk fuel (m : @mem V) e es, expr_ok fuel m e es ->
  (quiet ev 0 (Z.to_nat (zprod es)) -> exists vs l, x_eval_expr ev nt chk m e = Ok (es, vs) /\ eval_expr chk m e = Ok (es, vs, l)) /\
  (forall k, throws_at ev 0 k -> Z.of_nat k < zprod es -> x_eval_expr ev nt chk m e = if nt then Abort else Throw ElemExn).
Proof. intros V ev nt chk fuel m e es K. destruct (eval_x V ev nt chk fuel m e es K) as [Q T]. split; [|exact T]. intros H. destruct (Q H) as [vs [E [_ [_ E2]]]]. eauto. Qed.

(** [overlap(view) = e]: an exception of the expression leaves everything as it was (with [nt] it ends the program); one of the final assignments leaves
    the elements before it assigned, whatever the expression reads. *)
Theorem interrupted_overlap : forall (V : Type) (ev : nat -> event V) nt chk fuel fu (m : @mem V) sid s es ps e,
  is_view fuel s es ps -> inside m sid ps -> expr_ok fuel m e es -> (length ps < fu)%nat ->
  (forall k, throws_at ev 0 k -> (k < length ps)%nat -> x_overlap_assign ev nt chk fu m sid s e = (if nt then Abort else Throw ElemExn, m)) /\
  (quiet ev 0 (length ps) ->
     (quiet ev (length ps) (length ps) -> exists m', x_overlap_assign ev nt chk fu m sid s e = (Ok tt, m') /\ overlap_assign chk fu m sid s e = Ok m') /\
     (forall k, throws_at ev (length ps) k -> (k < length ps)%nat -> NoDup ps ->
        exists m', x_overlap_assign ev nt chk fu m sid s e = (Throw ElemExn, m') /\ partly m m' sid ps (value fuel m e) k)).
Proof.
  intros V ev nt chk fuel fu m sid s es ps e Hv Hi K Hf. assert (Hl : Z.of_nat (length ps) = zprod es) by apply Hv.
  destruct (eval_x V ev nt chk fuel m e es K) as [Q T]. unfold x_overlap_assign. split.
  - intros k Ht Hk. rewrite (T k Ht ltac:(lia)). destruct nt; reflexivity.
  - intros Hq. destruct (Q ltac:(replace (Z.to_nat (zprod es)) with (length ps) by lia; exact Hq)) as [vs [-> [L [Hvs Eo]]]]. cbn [pure fst snd].
    replace (length vs) with (length ps) by lia.
    destruct (expr_ok_dims _ _ _ _ K) as [D1 [D2 D3]].
    assert (P0 : positions fuel (SRef 0 es) = Ok (map Z.of_nat (seq 0 (length vs)))).
    { cbn. rewrite prod_arr_small by auto. rewrite iota_seq. f_equal. f_equal. f_equal. lia. }
    assert (V0 : is_view fuel (SRef 0 es) es (map Z.of_nat (seq 0 (length vs)))).
    { split; [reflexivity|]. split; auto. rewrite map_length, seq_length. auto. }
    assert (Hsid : (sid < length m)%nat). { destruct Hi as [c [Ec _]]. apply nth_error_Some. congruence. }
    assert (Hlast : nth_error (m ++ [vs]) (length m) = Some vs). { rewrite nth_error_app2, Nat.sub_diag by lia. reflexivity. }
    assert (K0 : expr_ok fuel (m ++ [vs]) (ELeaf (length m) (SRef 0 es)) es).
    { econstructor; [exact V0|]. exists vs. split; auto. apply Forall_forall. intros p Hp. apply in_map_iff in Hp as [i [<- Hi']]. apply in_seq in Hi'. lia. }
    assert (Hi' : inside (m ++ [vs]) sid ps). { destruct Hi as [c [Ec F]]. exists c. split; auto. rewrite nth_error_app1; auto. }
    assert (Hne : no_overlap fuel sid ps (ELeaf (length m) (SRef 0 es) : @expr V)).
    { intros k p Hk Hp. cbn [reads]. rewrite P0. destruct (nth_error _ k); [|intros []]. intros [[= ? ?]|[]]. lia. }
    destruct (view_assign_x V ev (length ps) chk fuel fu (m ++ [vs]) sid s es ps _ Hv Hi' K0 Hf) as [Q' T']. split.
    + intros H2. destruct (Q' H2) as [m' [-> O]]. cbn [fst snd]. eexists. split; [reflexivity|]. unfold overlap_assign. rewrite Eo. cbn [bindO].
      destruct (seq_view_assign chk fuel fu (m ++ [vs]) sid s es ps _ Hv Hi' K0 Hf) as [m2 [-> O2]]. cbn [bindO]. assert (m2 = m') by congruence. subst m2. reflexivity.
    + intros k Ht Hk ND. destruct (nth_error ps k) as [p|] eqn:Ek; [|apply nth_error_None in Ek; lia].
      destruct (T' k p Ht Ek) as [mk [O ->]]. cbn [fst snd]. eexists. split; [reflexivity|].
      assert (P : partly (m ++ [vs]) (spoilt ev (length ps + k) sid p mk) sid ps (value fuel (m ++ [vs]) (ELeaf (length m) (SRef 0 es))) k).
      { eapply partly_intro; eauto. intros j mi q Hj Eq S1 V1 C1.
        destruct (value_some fuel (m ++ [vs]) _ es j K0 ltac:(lia)) as [w Hw]. split; [|congruence].
        apply (value_off fuel (m ++ [vs]) mi _ es sid ps j K0 Hne ltac:(lia)). intros sid' r Hr D. apply C1; auto.
        destruct D as [D|D]; auto. right. intros X. apply D. rewrite <- (firstn_skipn j ps). apply in_or_app. left. exact X. }
      destruct P as [W1 [W2 W3]]. set (m' := spoilt ev (length ps + k) sid p mk) in *.
      assert (Hlen : length m' = S (length m)). { apply (f_equal (@length _)) in W1. rewrite !map_length, app_length in W1. cbn in W1. lia. }
      assert (Cf : forall sid' q, (sid' < length m)%nat -> cell (firstn (length m) m') sid' q = cell m' sid' q).
      { intros sid' q Hs. unfold cell. replace (nth_error (firstn (length m) m') sid') with (nth_error m' sid'); auto.
        rewrite <- (firstn_skipn (length m) m') at 1. apply nth_error_app1. rewrite firstn_length. lia. }
      assert (Ca : forall sid' q, (sid' < length m)%nat -> cell (m ++ [vs]) sid' q = cell m sid' q).
      { intros sid' q Hs. unfold cell. rewrite nth_error_app1; auto. }
      split; [|split].
      * rewrite <- firstn_map, W1, map_app. rewrite firstn_app, map_length, Nat.sub_diag, firstn_O, app_nil_r. rewrite <- (map_length (@length V) m) at 1. apply firstn_all.
      * intros sid' q Hq0 D. destruct (lt_dec sid' (length m)) as [Hs|Hs].
        -- rewrite Cf, W2, Ca; auto.
        -- unfold cell. replace (nth_error (firstn (length m) m') sid') with (@None (list V)); [|symmetry; apply nth_error_None; rewrite firstn_length; lia].
           replace (nth_error m sid') with (@None (list V)); auto. symmetry. apply nth_error_None. lia.
      * intros j q Hj Eq. rewrite Cf by exact Hsid. destruct (W3 j q Hj Eq) as [W5 W6]. cbn [value] in W5, W6. rewrite P0 in W5, W6.
        assert (Hn : nth_error (map Z.of_nat (seq 0 (length vs))) j = Some (Z.of_nat j)).
        { rewrite nth_error_map. rewrite nth_error_nth' with (d := 0%nat) by (rewrite seq_length; lia). rewrite seq_nth by lia. reflexivity. }
        rewrite Hn in W5, W6. unfold cell at 1 in W5. unfold cell at 2 in W6. rewrite Hlast, Nat2Z.id in W5, W6. rewrite (Hvs j ltac:(lia)) in W5, W6. auto.
Qed.

(** ** [array = e] *)
(** Same number of elements: as for a view, and the extents are still the old ones.  Another number: nothing has changed ([nt]: the program ends). *)
Theorem interrupted_array_assignment : forall (V : Type) (ev : nat -> event V) nt chk fuel fu (m : @mem V) sid c es es' e,
  nth_error m sid = Some c -> Z.of_nat (length c) = zprod es -> all_nonneg es -> zprod es < W -> expr_ok fuel m e es' -> (length c < fu)%nat ->
  (quiet ev 0 (Z.to_nat (zprod es')) -> exists m', x_array_set ev nt chk fu m sid es e = (Ok tt, m', es') /\ array_set chk fu m sid es e = Ok (m', es')) /\
  (forall k, throws_at ev 0 k -> Z.of_nat k < zprod es' ->
     (zprod es' = zprod es -> exists mk, in_order sid (fun mk k _ => value fuel mk e k) 0 (firstn k (iota (zprod es))) m = Some mk /\
        x_array_set ev nt chk fu m sid es e = (Throw ElemExn, spoilt ev k sid (Z.of_nat k) mk, es)) /\
     (zprod es' <> zprod es -> x_array_set ev nt chk fu m sid es e = (if nt then Abort else Throw ElemExn, m, es))).
Proof.
  intros V ev nt chk fuel fu m sid c es es' e Ec Lc N B K Hf. unfold x_array_set, array_set.
  destruct (build_spec _ _ _ _ K chk []) as [x [xe [h [-> X]]]]. cbn [bindO fst snd sdim sbeg send app] in *.
  destruct (expr_ok_dims _ _ _ _ K) as [D1 [D2 D3]]. rewrite !prod_arr_small by auto.
  assert (P' := zprod_nonneg _ D2). assert (P := zprod_nonneg _ N).
  destruct (Z.eqb_spec (zprod es) (zprod es')) as [Ez|Ez].
  - assert (Hi := inside_iota m sid c (zprod es) Ec Lc). assert (Hl := iota_len (zprod es) P).
    destruct (copy_to_x ev fuel m e es' sid h xe (iota (zprod es)) K Hi ltac:(congruence) (length (iota (zprod es))) 0 m x fu eq_refl ltac:(lia) X eq_refl) as [Q T].
    change (Z.of_nat 0) with 0 in Q, T. split.
    + intros Hq. destruct (Q ltac:(replace (length (iota (zprod es))) with (Z.to_nat (zprod es')) by lia; exact Hq)) as [m' [-> O]]. exists m'. split; [reflexivity|].
      destruct (seq_copy_to fuel m e es' sid h xe (iota (zprod es)) K Hi ltac:(congruence) (length (iota (zprod es))) 0 m x fu eq_refl ltac:(lia) X eq_refl) as [m2 [E2 O2]].
      change (Z.of_nat 0) with 0 in E2. rewrite E2. cbn [bindO skipn] in *. congruence.
    + intros k Ht Hk. split; [|congruence]. intros _. destruct (T k (Z.of_nat k) Ht) as [mk [O ->]]; [apply iota_nth_error; lia|]. exists mk. split; [exact O|reflexivity].
  - destruct (copy_n_x ev fuel m h e es' xe K (Z.to_nat (zprod es')) 0 x ltac:(lia) X) as [Q T].
    destruct (copy_n_spec fuel m h e es' xe K (Z.to_nat (zprod es')) 0 x ltac:(lia) X) as [us [Eu Hu]]. unfold x_construct. split.
    + intros Hq. destruct (Q Hq) as [vs [-> Hvs]]. rewrite Eu. cbn [bindO fst].
      assert (vs = us). { rewrite <- Hvs in Hu. clear - Hu. revert us Hu. induction vs as [|v vs IH]; intros [|u us] H; cbn in H; try discriminate; [reflexivity|]. injection H as -> H. f_equal. auto. }
      subst us. exists (upd_nat m sid vs). split; [destruct nt|]; reflexivity.
    + intros k Ht Hk. split; [congruence|]. intros _. rewrite (T k ltac:(lia) Ht). destruct nt; reflexivity.
Qed.

(** ** the failing cases *)
(** After an exception a view is in general neither as before nor as after the assignment, an array has mixed elements. *)
Theorem interrupted_unchanged_refuted : exists (ev : nat -> event Z) (m m' : @mem Z) s e,
  expr_ok 9 m e [3] /\ no_overlap 9 0 [0; 1; 2] e /\ x_view_assign ev 0 true 9 m 0 s e = (Throw ElemExn, m') /\ m' <> m /\ view_assign true 9 m 0 s e <> Ok m'.
Proof.
  exists (fun k => if Nat.eqb k 1 then EvalThrows else Fine), [[1; 2; 3]; [10; 20; 30]], [[10; 2; 3]; [10; 20; 30]], (SRef 0 [3]), (ELeaf 1 (SRef 0 [3])).
  repeat split; try discriminate.
  - apply ok_leaf with (ps := [0; 1; 2]); [repeat split; try reflexivity; try discriminate; repeat constructor; discriminate|].
    exists [10; 20; 30]. split; [reflexivity|]. repeat constructor; discriminate.
  - intros k p Hk Hp. destruct k as [|[|[|k]]]; [| | |cbn in Hk; lia]; cbn; intros [H|[]]; discriminate H.
Qed.
(** [overlap(view) = e], [array x = e] with an element type such as double: an exception of the operation cannot be caught. *)
Theorem interrupted_terminates_refuted : exists (ev : nat -> event Z) (m : @mem Z) s e,
  expr_ok 9 m e [3] /\ throws_at ev 0 1 /\ x_overlap_assign ev true true 9 m 0 s e = (Abort, m) /\ x_eval_expr ev true true m e = Abort /\
  x_overlap_assign ev false true 9 m 0 s e = (Throw ElemExn, m).
Proof.
  exists (fun k => if Nat.eqb k 1 then EvalThrows else Fine), [[1; 2; 3]; [10; 20; 30]], (SRef 0 [3]), (ELeaf 1 (SRef 0 [3])).
  repeat split; try discriminate.
  - apply ok_leaf with (ps := [0; 1; 2]); [repeat split; try reflexivity; try discriminate; repeat constructor; discriminate|].
    exists [10; 20; 30]. split; [reflexivity|]. repeat constructor; discriminate.
  - intros k Hk. destruct k; [reflexivity|lia].
Qed.

(** ** examples *)
(** [a[slice(1, 2, 2)] = b * b] where the second product throws; [a += b] where the second addition is interrupted; [a = b + b] on arrays of
    different shape but equal size. *)
Example interrupted_ex :
  let m := [[1; 2; 3; 4]; [10; 20]; [1; 2; 3; 4]] in
  let ev := fun k => if Nat.eqb k 1 then EvalThrows else Fine in
  let ew := fun k => if Nat.eqb k 1 then WriteThrows 99 else Fine in
  let v := SView 0 (MId (SD 1 [2] [2])) in
  x_view_assign (fun _ => Fine) 0 true 9 m 0 v (EBin Z.mul (ELeaf 1 (SRef 0 [2])) (ELeaf 1 (SRef 0 [2]))) = (Ok tt, [[1; 100; 3; 400]; [10; 20]; [1; 2; 3; 4]]) /\
  x_view_assign ev 0 true 9 m 0 v (EBin Z.mul (ELeaf 1 (SRef 0 [2])) (ELeaf 1 (SRef 0 [2]))) = (Throw ElemExn, [[1; 100; 3; 4]; [10; 20]; [1; 2; 3; 4]]) /\
  x_view_inplace ew true 9 m 0 v Z.add (ELeaf 1 (SRef 0 [2])) = (Throw ElemExn, [[1; 12; 3; 99]; [10; 20]; [1; 2; 3; 4]]) /\
  x_view_update ev 9 m 0 v Z.opp = (Throw ElemExn, [[1; -2; 3; 4]; [10; 20]; [1; 2; 3; 4]]) /\
  x_array_set ev false true 9 m 0 [4] (ELeft Z.mul 2 (ELeaf 2 (SRef 0 [2; 2]))) = (Throw ElemExn, [[2; 2; 3; 4]; [10; 20]; [1; 2; 3; 4]], [4]) /\
  x_array_set ev false true 9 m 0 [4] (ELeaf 1 (SRef 0 [2])) = (Throw ElemExn, m, [4]) /\
  is_view 9 v [2] [1; 3] /\ throws_at ev 0 1 /\ throws_at ew 0 1 /\ NoDup [1; 3].
Proof.
  cbv zeta. repeat split; try reflexivity; try discriminate.
  - repeat constructor; discriminate.
  - intros [|k] Hk; [reflexivity|lia].
  - intros [|k] Hk; [reflexivity|lia].
  - repeat constructor; cbn; intuition discriminate.
Qed.

Print Assumptions interrupted_assignment.
Print Assumptions interrupted_assignment_values.
Print Assumptions interrupted_inplace.
Print Assumptions interrupted_inplace_values.
Print Assumptions interrupted_update.
Print Assumptions interrupted_eval.
Print Assumptions interrupted_overlap.
Print Assumptions interrupted_array_assignment.
Print Assumptions interrupted_unchanged_refuted.
Print Assumptions interrupted_terminates_refuted.
