(** * EffectsProofs: expressions whose functions have effects. *)

From Coq Require Import ZArith List Bool Lia Arith.
From Verif Require Import Base Spec Desc Slice SliceSpec Expr ExprSpec Lemmas DescProofs LifeProofs RunProofs ViewThms ExprProofs ExprThms ExprSeq
  ArrAssign Reduce RangeLoop RangeLoopSpec RangeLoopProofs Effects EffectsSpec.
Import ListNotations.
Open Scope Z_scope.

Section EffectsProofs.
Context {V St : Type}.
Notation mem := (@mem V).
Notation world := (world V St).
Notation eexpr := (eexpr V St).
Implicit Types (m : mem) (e : eexpr) (w : world).

Lemma eok_shape fuel m m' e es : same_shape m m' -> eexpr_ok fuel m e es -> eexpr_ok fuel m' e es.
Proof. intros H K. induction K; econstructor; eauto using inside_shape. Qed.

Lemma eok_dims fuel m e es : eexpr_ok fuel m e es -> es <> [] /\ all_nonneg es /\ zprod es < W.
Proof. intros K. induction K as [? ? ? ? [? [? [? [? [? ?]]]]]| |]; auto. Qed.

Fixpoint eat (fuel : nat) (h : list (efn V St)) (e : eexpr) (k : nat) (x xe : xit) : Prop :=
  match e, x, xe with
  | QLeaf sid s, XLeaf sid' i, XLeaf sid'' ie => sid' = sid /\ exists ps, positions fuel s = Ok ps /\ (k <= length ps)%nat /\ lwalk ie i (skipn k ps)
  | QUn f e', XUn src i, XUn _ ie => nth_error h src = Some (K1 f) /\ eat fuel h e' k i ie
  | QBin lf f e1 e2, XBin src i j, XBin _ ie je => nth_error h src = Some (K2 lf f) /\ eat fuel h e1 k i ie /\ eat fuel h e2 k j je
  | _, _, _ => False
  end.

Lemma eat_heap fuel h h' e k : forall x xe, eat fuel h e k x xe -> eat fuel (h ++ h') e k x xe.
Proof.
  induction e as [sid s|f e IH|lf f e1 IH1 e2 IH2]; intros [sid' i|src i|src i j] [sid'' ie|src' ie|src' ie je]; cbn; try tauto.
  - intros [A B]. split; auto. rewrite nth_error_app1; auto. apply nth_error_Some. congruence.
  - intros [A [B C]]. split; auto. rewrite nth_error_app1; auto. apply nth_error_Some. congruence.
Qed.

Lemma ebuild_spec fuel m e es : eexpr_ok fuel m e es -> forall chk h, exists x xe h',
  ebuild chk e h = Ok (Src x xe es, h ++ h') /\ eat fuel (h ++ h') e 0 x xe.
Proof.
  intros K. induction K as [sid s es ps [H1 [H2 [H3 [H4 [H5 H6]]]]] Hi | f e es Kf K IH | lf f e1 e2 es Kf Ka IH1 Kb IH2]; intros chk h; cbn [ebuild].
  - destruct (positions_lwalk _ _ _ H2) as [b [en [-> Hw]]]. cbn [bindO]. rewrite H1. exists (XLeaf sid b), (XLeaf sid en), []. rewrite app_nil_r.
    split; [reflexivity|]. cbn. split; auto. exists ps. cbn. split; [auto|]. split; [lia|exact Hw].
  - destruct (IH chk h) as [x [xe [h' [-> X]]]]. cbn [bindO fst snd sbeg send sdim].
    exists (XUn (length (h ++ h')) x), (XUn (length (h ++ h')) xe), (h' ++ [K1 f]). rewrite app_assoc. split; [reflexivity|]. cbn.
    split; [rewrite nth_error_app2, Nat.sub_diag by lia; reflexivity|]. apply eat_heap. auto.
  - destruct (IH1 chk h) as [x [xe [h' [-> X]]]]. cbn [bindO fst snd sbeg send sdim].
    destruct (IH2 chk (h ++ h')) as [y [ye [h'' [-> Y]]]]. cbn [bindO fst snd sbeg send sdim]. rewrite Zlist_eqb_refl, dassert_true. cbn [bindO].
    set (H := (h ++ h') ++ h'') in *.
    exists (XBin (length H) x y), (XBin (length H) xe ye), (h' ++ h'' ++ [K2 lf f]).
    replace (h ++ h' ++ h'' ++ [K2 lf f]) with (H ++ [K2 lf f]) by (unfold H; rewrite !app_assoc; reflexivity). split; [reflexivity|]. cbn.
    split; [rewrite nth_error_app2, Nat.sub_diag by lia; reflexivity|]. split; apply eat_heap; auto. apply eat_heap. auto.
Qed.

Lemma eat_next fuel m h e es k : eexpr_ok fuel m e es -> Z.of_nat k < zprod es -> forall x xe, eat fuel h e k x xe ->
  exists x', xnext x = Ok x' /\ eat fuel h e (S k) x' xe.
Proof.
  intros K Hk. induction K as [sid s es ps [H1 [H2 [H3 [H4 [H5 H6]]]]] Hi | f e es Kf K IH | lf f e1 e2 es Kf Ka IH1 Kb IH2];
    intros [sid' i|src i|src i j] [sid'' ie|src' ie|src' ie je]; cbn [eat xnext]; try tauto.
  - intros [-> [ps' [Ep [Hle Hw]]]]. assert (ps' = ps) by congruence. subst ps'. destruct (nth_error ps k) as [p|] eqn:E; [|apply nth_error_None in E; lia].
    rewrite (skipn_nth _ _ _ E) in Hw. inversion Hw as [|? ? i' ? He Hd Hn Hw']; subst. rewrite Hn. cbn [bindO]. eexists. split; [reflexivity|].
    cbn. split; auto. exists ps. split; [auto|]. split; [lia|exact Hw'].
  - intros [A B]. destruct (IH Hk _ _ B) as [x' [-> X']]. cbn [bindO]. eexists. split; [reflexivity|]. cbn. auto.
  - intros [A [B C]]. destruct (IH1 Hk _ _ B) as [x' [-> X']]. destruct (IH2 Hk _ _ C) as [y' [-> Y']]. cbn [bindO].
    eexists. split; [reflexivity|]. cbn. auto.
Qed.

Lemma eat_end fuel m h e es k : eexpr_ok fuel m e es -> Z.of_nat k = zprod es -> forall x xe, eat fuel h e k x xe -> xeqb x xe = true.
Proof.
  intros K Hk. induction K as [sid s es ps [H1 [H2 [H3 [H4 [H5 H6]]]]] Hi | f e es Kf K IH | lf f e1 e2 es Kf Ka IH1 Kb IH2];
    intros [sid' i|src i|src i j] [sid'' ie|src' ie|src' ie je]; cbn [eat xeqb]; try tauto.
  - intros [-> [ps' [Ep [Hle Hw]]]]. assert (ps' = ps) by congruence. subst ps'. rewrite skipn_all2 in Hw by lia. inversion Hw. auto.
  - intros [A B]. auto.
  - intros [A [B C]]. rewrite (IH1 Hk _ _ B), (IH2 Hk _ _ C). reflexivity.
Qed.

Lemma eat_not_end fuel m h e es k : eexpr_ok fuel m e es -> Z.of_nat k < zprod es -> forall x xe, eat fuel h e k x xe -> xeqb x xe = false.
Proof.
  intros K Hk. induction K as [sid s es ps [H1 [H2 [H3 [H4 [H5 H6]]]]] Hi | f e es Kf K IH | lf f e1 e2 es Kf Ka IH1 Kb IH2];
    intros [sid' i|src i|src i j] [sid'' ie|src' ie|src' ie je]; cbn [eat xeqb]; try tauto.
  - intros [-> [ps' [Ep [Hle Hw]]]]. assert (ps' = ps) by congruence. subst ps'. destruct (nth_error ps k) as [p|] eqn:E; [|apply nth_error_None in E; lia].
    rewrite (skipn_nth _ _ _ E) in Hw. inversion Hw. auto.
  - intros [A B]. auto.
  - intros [A [B C]]. rewrite (IH1 Hk _ _ B). reflexivity.
Qed.

(** One element: the model makes the calls of the specification. *)
Lemma ederef_spec fuel m h e es k : eexpr_ok fuel m e es -> Z.of_nat k < zprod es -> forall x xe w, eat fuel h e k x xe -> same_shape m (fst w) ->
  exists r w' o, ederef h x w = Ok (r, w') /\ same_shape m (fst w') /\ calls fuel e k w = Some (o, w') /\
    forall w2, same_shape m (fst w2) -> exists a, rread w2 r = Ok a /\ operand fuel e k o w2 = Some a.
Proof.
  intros K Hk. induction K as [sid s es ps [H1 [H2 [H3 [H4 [H5 H6]]]]] Hi | f e es Kf K IH | lf f e1 e2 es Kf Ka IH1 Kb IH2];
    intros [sid' i|src i|src i j] [sid'' ie|src' ie|src' ie je] w; cbn [eat ederef calls]; try tauto.
  - intros [-> [ps' [Ep [Hle Hw]]]] Sh. assert (ps' = ps) by congruence. subst ps'. destruct (nth_error ps k) as [p|] eqn:E; [|apply nth_error_None in E; lia].
    rewrite (skipn_nth _ _ _ E) in Hw. inversion Hw as [|? ? i' ? He Hd Hn Hw']; subst. rewrite Hd. cbn [bindO].
    exists (RRef sid p), w, None. split; [reflexivity|]. split; [auto|]. split; [reflexivity|]. intros w2 Sh2.
    destruct (load_inside (fst w2) sid ps p (inside_shape _ _ _ _ Sh2 Hi) (nth_error_In _ _ E)) as [v [A [B _]]].
    exists v. cbn. rewrite Ep, E. auto.
  - intros [A B] Sh. rewrite A. destruct (IH Hk _ _ w B Sh) as [r [w' [o [-> [Sh' [-> R]]]]]]. cbn [bindO fst snd].
    destruct (R w' Sh') as [a [-> ->]]. cbn [bindO]. eexists _, _, _. split; [reflexivity|]. split; [|split; [reflexivity|]].
    + unfold same_shape in *. destruct w' as [m' s']. cbn [fst] in *. rewrite <- Sh'. apply Kf.
    + intros w2 _. eexists. split; reflexivity.
  - intros [A [B C]] Sh. rewrite A. destruct lf.
    + destruct (IH1 Hk _ _ w B Sh) as [r1 [w1 [o1 [-> [Sh1 [-> R1]]]]]]. cbn [bindO fst snd].
      destruct (IH2 Hk _ _ w1 C Sh1) as [r2 [w2 [o2 [-> [Sh2 [-> R2]]]]]]. cbn [bindO fst snd].
      destruct (R1 w2 Sh2) as [a [-> ->]]. destruct (R2 w2 Sh2) as [b [-> ->]]. cbn [bindO].
      eexists _, _, _. split; [reflexivity|]. split; [|split; [reflexivity|]].
      * unfold same_shape in *. destruct w2 as [m' s']. cbn [fst] in *. rewrite <- Sh2. apply Kf.
      * intros w3 _. eexists. split; reflexivity.
    + destruct (IH2 Hk _ _ w C Sh) as [r2 [w1 [o2 [-> [Sh1 [-> R2]]]]]]. cbn [bindO fst snd].
      destruct (IH1 Hk _ _ w1 B Sh1) as [r1 [w2 [o1 [-> [Sh2 [-> R1]]]]]]. cbn [bindO fst snd].
      destruct (R1 w2 Sh2) as [a [-> ->]]. destruct (R2 w2 Sh2) as [b [-> ->]]. cbn [bindO].
      eexists _, _, _. split; [reflexivity|]. split; [|split; [reflexivity|]].
      * unfold same_shape in *. destruct w2 as [m' s']. cbn [fst] in *. rewrite <- Sh2. apply Kf.
      * intros w3 _. eexists. split; reflexivity.
Qed.

Lemma element_spec fuel m h e es k : eexpr_ok fuel m e es -> Z.of_nat k < zprod es -> forall x xe w, eat fuel h e k x xe -> same_shape m (fst w) ->
  exists r w' v, ederef h x w = Ok (r, w') /\ rread w' r = Ok v /\ same_shape m (fst w') /\ element fuel e k w = Some (v, w').
Proof.
  intros K Hk x xe w X Sh. destruct (ederef_spec _ _ _ _ _ _ K Hk _ _ w X Sh) as [r [w' [o [A [B [C D]]]]]].
  destruct (D w' B) as [v [E F]]. exists r, w', v. unfold element. rewrite C, F. auto.
Qed.

(** ** consumers *)
Lemma ecopy_n_spec fuel m h e es xe : eexpr_ok fuel m e es -> forall n k x w, Z.of_nat (k + n) <= zprod es -> eat fuel h e k x xe -> same_shape m (fst w) ->
  exists vs w', ecopy_n n h x w = Ok (vs, w') /\ one_by_one fuel e k n w = Some (vs, w') /\ length vs = n /\ same_shape m (fst w').
Proof.
  intros K. induction n as [|n IH]; intros k x w Hk X Sh; cbn [ecopy_n one_by_one]; [exists [], w; auto|].
  destruct (element_spec _ _ _ _ _ k K ltac:(lia) _ _ w X Sh) as [r [w1 [v [-> [Hr [Sh1 ->]]]]]]. cbn [bindO fst snd]. rewrite Hr. cbn [bindO].
  destruct (eat_next _ _ _ _ _ k K ltac:(lia) _ _ X) as [x' [-> X']]. cbn [bindO].
  destruct (IH (S k) x' w1 ltac:(lia) X' Sh1) as [vs [w2 [-> [-> [L Sh2]]]]]. cbn [bindO fst snd]. exists (v :: vs), w2. cbn. auto.
Qed.

Theorem eeval_spec chk fuel m s e es : eexpr_ok fuel m e es ->
  exists vs w', eeval chk e (m, s) = Ok (es, vs, w') /\ one_by_one fuel e 0 (Z.to_nat (zprod es)) (m, s) = Some (vs, w') /\
    Z.of_nat (length vs) = zprod es /\ same_shape m (fst w').
Proof.
  intros K. destruct (eok_dims _ _ _ _ K) as [D1 [D2 D3]]. assert (Hz := zprod_nonneg _ D2). unfold eeval.
  destruct (ebuild_spec _ _ _ _ K chk []) as [x [xe [h [-> X]]]]. cbn [bindO fst snd sdim sbeg send app] in *.
  rewrite prod_arr_small by auto.
  destruct (ecopy_n_spec fuel m h e es xe K (Z.to_nat (zprod es)) 0 x (m, s) ltac:(lia) X eq_refl) as [vs [w' [-> [-> [L Sh]]]]].
  cbn [bindO fst snd]. exists vs, w'. repeat split; auto. lia.
Qed.

Lemma estore_spec m w sid ps p v : same_shape m (fst w) -> inside m sid ps -> In p ps ->
  estore w sid p v = Ok (set_cell (fst w) sid p v, snd w) /\ same_shape m (set_cell (fst w) sid p v).
Proof.
  intros Sh Hi Hp. assert (Hi' := inside_shape _ _ _ _ Sh Hi). unfold estore. rewrite (set_cell_store _ _ _ _ _ Hi' Hp). cbn [bindO].
  split; [reflexivity|]. destruct (set_cell_spec (fst w) sid ps p v Hi' Hp) as [S2 _]. unfold same_shape in *. congruence.
Qed.

Lemma eassign_loop_spec fuel m e es sid ps h de xe : eexpr_ok fuel m e es -> inside m sid ps -> Z.of_nat (length ps) = zprod es ->
  forall n k w d x fu, (k + n = length ps)%nat -> (n < fu)%nat -> lwalk de d (skipn k ps) -> eat fuel h e k x xe -> same_shape m (fst w) ->
  exists w' x', eassign_loop fu h sid d de x w = Ok (w', x') /\ writes_in_order sid (fun k _ => element fuel e k) k (skipn k ps) w = Some w' /\
    eat fuel h e (length ps) x' xe /\ same_shape m (fst w').
Proof.
  intros K Hi L. induction n as [|n IH]; intros k w d x fu Hk Hf Hw X Sh; (destruct fu as [|fu]; [lia|]); cbn [eassign_loop].
  - rewrite skipn_all2 in * by lia. inversion Hw as [? He|]; subst. rewrite He. assert (k = length ps) by lia. subst k. cbn. eauto 6.
  - destruct (nth_error ps k) as [p|] eqn:E; [|apply nth_error_None in E; lia].
    rewrite (skipn_nth _ _ _ E) in *. inversion Hw as [|? ? d' ? He Hde Hn' Hw']; subst. rewrite He, Hde, Hn'. cbn [bindO].
    destruct (eat_next _ _ _ _ _ k K ltac:(lia) _ _ X) as [x' [-> X']]. cbn [bindO].
    destruct (element_spec _ _ _ _ _ k K ltac:(lia) _ _ w X Sh) as [r [w1 [v [-> [Hr [Sh1 El]]]]]]. cbn [bindO fst snd]. rewrite Hr. cbn [bindO].
    destruct (estore_spec m w1 sid ps p v Sh1 Hi (nth_error_In _ _ E)) as [-> Sh2]. cbn [bindO writes_in_order]. rewrite El.
    apply (IH (S k)); auto; lia.
Qed.

Theorem eview_assign_spec chk fuel fu m s0 sid s es ps e : is_view fuel s es ps -> inside m sid ps -> eexpr_ok fuel m e es -> (length ps < fu)%nat ->
  exists w', eview_assign chk fu sid s e (m, s0) = Ok w' /\ writes_in_order sid (fun k _ => element fuel e k) 0 ps (m, s0) = Some w'.
Proof.
  intros [H1 [H2 [H3 [H4 [H5 H6]]]]] Hi K Hf. unfold eview_assign.
  destruct (ebuild_spec _ _ _ _ K chk []) as [x [xe [h [-> X]]]]. cbn [bindO fst snd sdim sbeg send app] in *. rewrite H1, Zlist_eqb_refl, dassert_true. cbn [bindO].
  destruct (positions_lwalk _ _ _ H2) as [b [en [-> Hw]]]. cbn [bindO fst snd].
  destruct (eassign_loop_spec fuel m e es sid ps h en xe K Hi H6 (length ps) 0 (m, s0) b x fu eq_refl Hf Hw X eq_refl) as [w' [x' [-> [U [X' _]]]]].
  cbn [bindO fst snd]. rewrite (eat_end _ _ _ _ _ _ K H6 _ _ X'), dassert_true. cbn [bindO]. eauto.
Qed.

Lemma eupdate_loop_spec m sid ps de op : inside m sid ps -> keeps1 op ->
  forall n k w d fu, (k + n = length ps)%nat -> (n < fu)%nat -> lwalk de d (skipn k ps) -> same_shape m (fst w) ->
  exists w', eupdate_loop fu sid d de op w = Ok w' /\ writes_in_order sid (on_element sid op) k (skipn k ps) w = Some w'.
Proof.
  intros Hi Kf. induction n as [|n IH]; intros k w d fu Hk Hf Hw Sh; (destruct fu as [|fu]; [lia|]); cbn [eupdate_loop].
  - rewrite skipn_all2 in * by lia. inversion Hw as [? He|]; subst. rewrite He. cbn. eauto 6.
  - destruct (nth_error ps k) as [p|] eqn:E; [|apply nth_error_None in E; lia].
    rewrite (skipn_nth _ _ _ E) in *. inversion Hw as [|? ? d' ? He Hde Hn' Hw']; subst. rewrite He, Hde, Hn'. cbn [bindO].
    destruct (load_inside (fst w) sid ps p (inside_shape _ _ _ _ Sh Hi) (nth_error_In _ _ E)) as [a [-> [Hc _]]]. cbn [bindO].
    assert (Sh1 : same_shape m (fst (snd (op a w)))). { unfold same_shape in *. rewrite <- Sh. destruct w as [m1 s1]. apply Kf. }
    destruct (estore_spec m (snd (op a w)) sid ps p (fst (op a w)) Sh1 Hi (nth_error_In _ _ E)) as [-> Sh2]. cbn [bindO writes_in_order].
    unfold on_element at 1. rewrite Hc. destruct (op a w) as [v' w1] eqn:Eo. cbn [fst snd] in *. apply (IH (S k)); auto; lia.
Qed.
Theorem eview_update_spec fuel fu m s0 sid s es ps op : is_view fuel s es ps -> inside m sid ps -> keeps1 op -> (length ps < fu)%nat ->
  exists w', eview_update fu sid s op (m, s0) = Ok w' /\ writes_in_order sid (on_element sid op) 0 ps (m, s0) = Some w'.
Proof.
  intros [H1 [H2 [H3 [H4 [H5 H6]]]]] Hi Kf Hf. unfold eview_update.
  destruct (positions_lwalk _ _ _ H2) as [b [en [-> Hw]]]. cbn [bindO fst snd].
  apply (eupdate_loop_spec m sid ps en op Hi Kf (length ps) 0); auto. reflexivity.
Qed.

Lemma einplace_loop_spec fuel m e es sid ps h de xe op : eexpr_ok fuel m e es -> inside m sid ps -> keeps2 op -> Z.of_nat (length ps) = zprod es ->
  forall n k w d x fu, (k + n = length ps)%nat -> (n < fu)%nat -> lwalk de d (skipn k ps) -> eat fuel h e k x xe -> same_shape m (fst w) ->
  exists w', einplace_loop fu h sid d de x op w = Ok w' /\ writes_in_order sid (on_elements fuel sid op e) k (skipn k ps) w = Some w'.
Proof.
  intros K Hi Kf L. induction n as [|n IH]; intros k w d x fu Hk Hf Hw X Sh; (destruct fu as [|fu]; [lia|]); cbn [einplace_loop].
  - rewrite skipn_all2 in * by lia. inversion Hw as [? He|]; subst. rewrite He. cbn. eauto 6.
  - destruct (nth_error ps k) as [p|] eqn:E; [|apply nth_error_None in E; lia].
    rewrite (skipn_nth _ _ _ E) in *. inversion Hw as [|? ? d' ? He Hde Hn' Hw']; subst. rewrite He, Hde, Hn'. cbn [bindO].
    destruct (eat_next _ _ _ _ _ k K ltac:(lia) _ _ X) as [x' [-> X']]. cbn [bindO].
    destruct (ederef_spec _ _ _ _ _ k K ltac:(lia) _ _ w X Sh) as [r [w1 [o [-> [Sh1 [Ec R]]]]]]. cbn [bindO fst snd].
    destruct (load_inside (fst w1) sid ps p (inside_shape _ _ _ _ Sh1 Hi) (nth_error_In _ _ E)) as [a [-> [Hc _]]]. cbn [bindO].
    destruct (R w1 Sh1) as [b [-> Hb]]. cbn [bindO].
    assert (Sh2 : same_shape m (fst (snd (op a b w1)))). { unfold same_shape in *. rewrite <- Sh1. destruct w1 as [m1 s1]. apply Kf. }
    destruct (estore_spec m (snd (op a b w1)) sid ps p (fst (op a b w1)) Sh2 Hi (nth_error_In _ _ E)) as [-> Sh3]. cbn [bindO writes_in_order].
    unfold on_elements at 1. rewrite Ec, Hc, Hb. destruct (op a b w1) as [v' w2] eqn:Eo. cbn [fst snd] in *. apply (IH (S k)); auto; lia.
Qed.
Theorem eview_inplace_spec chk fuel fu m s0 sid s es ps op e : is_view fuel s es ps -> inside m sid ps -> keeps2 op -> eexpr_ok fuel m e es -> (length ps < fu)%nat ->
  exists w', eview_inplace chk fu sid s op e (m, s0) = Ok w' /\ writes_in_order sid (on_elements fuel sid op e) 0 ps (m, s0) = Some w'.
Proof.
  intros [H1 [H2 [H3 [H4 [H5 H6]]]]] Hi Kf K Hf. unfold eview_inplace.
  destruct (ebuild_spec _ _ _ _ K chk []) as [x [xe [h [-> X]]]]. cbn [bindO fst snd sdim sbeg send app] in *. rewrite H1, Zlist_eqb_refl, dassert_true. cbn [bindO].
  destruct (positions_lwalk _ _ _ H2) as [b [en [-> Hw]]]. cbn [bindO fst snd].
  apply (einplace_loop_spec fuel m e es sid ps h en xe op K Hi Kf H6 (length ps) 0); auto. reflexivity.
Qed.

(** array = expression *)
Lemma ecopy_to_spec fuel m e es sid h xe : eexpr_ok fuel m e es -> inside m sid (iota (zprod es)) ->
  forall n k w x fu, Z.of_nat (k + n) = zprod es -> (n < fu)%nat -> eat fuel h e k x xe -> same_shape m (fst w) ->
  exists w', ecopy_to fu h x xe sid (Z.of_nat k) w = Ok w' /\ writes_in_order sid (fun k _ => element fuel e k) k (skipn k (iota (zprod es))) w = Some w'.
Proof.
  intros K Hi. induction n as [|n IH]; intros k w x fu Hk Hf X Sh; (destruct fu as [|fu]; [lia|]); cbn [ecopy_to].
  - rewrite (eat_end _ _ _ _ _ k K ltac:(lia) _ _ X). rewrite skipn_all2 by (rewrite iota_length; lia). cbn. eauto.
  - rewrite (eat_not_end _ _ _ _ _ k K ltac:(lia) _ _ X).
    assert (E : nth_error (iota (zprod es)) k = Some (Z.of_nat k)).
    { apply iota_nth_error. lia. }
    rewrite (skipn_nth _ _ _ E).
    destruct (element_spec _ _ _ _ _ k K ltac:(lia) _ _ w X Sh) as [r [w1 [v [-> [Hr [Sh1 El]]]]]]. cbn [bindO fst snd]. rewrite Hr. cbn [bindO].
    destruct (estore_spec m w1 sid _ (Z.of_nat k) v Sh1 Hi (nth_error_In _ _ E)) as [-> Sh2]. cbn [bindO].
    destruct (eat_next _ _ _ _ _ k K ltac:(lia) _ _ X) as [x' [-> X']]. cbn [bindO writes_in_order]. rewrite El.
    replace (Z.of_nat k + 1) with (Z.of_nat (S k)) by lia. apply (IH (S k)); auto; lia.
Qed.

Theorem earray_set_spec chk fuel fu m s0 sid c es0 e es : nth_error m sid = Some c -> Z.of_nat (length c) = zprod es0 -> all_nonneg es0 -> zprod es0 < W ->
  eexpr_ok fuel m e es -> (length c < fu)%nat ->
  (zprod es0 = zprod es -> exists w', earray_set chk fu sid es0 e (m, s0) = Ok (w', es) /\
     writes_in_order sid (fun k _ => element fuel e k) 0 (iota (zprod es)) (m, s0) = Some w') /\
  (zprod es0 <> zprod es -> exists vs w', earray_set chk fu sid es0 e (m, s0) = Ok ((upd_nat (fst w') sid vs, snd w'), es) /\
     one_by_one fuel e 0 (Z.to_nat (zprod es)) (m, s0) = Some (vs, w')).
Proof.
  intros Hc L P0 W0 K Hf. destruct (eok_dims _ _ _ _ K) as [D1 [D2 D3]]. assert (Hz := zprod_nonneg _ D2). unfold earray_set.
  destruct (ebuild_spec _ _ _ _ K chk []) as [x [xe [h [-> X]]]]. cbn [bindO fst snd sdim sbeg send app] in *.
  rewrite !prod_arr_small by auto. split; intros Hs.
  - rewrite (proj2 (Z.eqb_eq _ _) Hs).
    assert (Hi : inside m sid (iota (zprod es))).
    { exists c. split; auto. apply Forall_forall. intros p Hp. apply in_iota in Hp. lia. }
    destruct (ecopy_to_spec fuel m e es sid h xe K Hi (Z.to_nat (zprod es)) 0 (m, s0) x fu ltac:(lia) ltac:(lia) X eq_refl) as [w' [E U]].
    change (Z.of_nat 0) with 0 in E. rewrite E. cbn [bindO]. eauto.
  - rewrite (proj2 (Z.eqb_neq _ _) Hs).
    destruct (ecopy_n_spec fuel m h e es xe K (Z.to_nat (zprod es)) 0 x (m, s0) ltac:(lia) X eq_refl) as [vs [w' [-> [-> [Lv Sh]]]]].
    cbn [bindO fst snd]. eauto.
Qed.

(** algorithms *)
Lemma efor_loop_spec {T R} (body : T -> V -> outcome (RangeLoop.step T R)) fin fuel m h e es xe : eexpr_ok fuel m e es ->
  forall n k x w fu s, Z.of_nat (k + n) = zprod es -> (n < fu)%nat -> eat fuel h e k x xe -> same_shape m (fst w) ->
  over_elements body fin fuel e k n s w = Some (efor_loop body fin fu h x xe s w) /\
  forall r w', efor_loop body fin fu h x xe s w = Ok (r, w') -> same_shape m (fst w').
Proof.
  intros K. induction n as [|n IH]; intros k x w fu s Hk Hf X Sh; (destruct fu as [|fu]; [lia|]); cbn [efor_loop over_elements].
  - rewrite (eat_end _ _ _ _ _ k K ltac:(lia) _ _ X). split; [reflexivity|]. intros r w' E. inversion E; subst. auto.
  - rewrite (eat_not_end _ _ _ _ _ k K ltac:(lia) _ _ X).
    destruct (element_spec _ _ _ _ _ k K ltac:(lia) _ _ w X Sh) as [r [w1 [v [-> [Hr [Sh1 ->]]]]]]. cbn [bindO fst snd]. rewrite Hr. cbn [bindO].
    destruct (body s v) as [[s'|x']| | | |] eqn:Eb; cbn [bindO]; try (split; [reflexivity|]; intros; discriminate).
    + destruct (eat_next _ _ _ _ _ k K ltac:(lia) _ _ X) as [x' [-> X']]. cbn [bindO]. apply (IH (S k)); auto; lia.
    + split; [reflexivity|]. intros r' w' E. inversion E; subst. auto.
Qed.

Theorem eranged_spec {T R} (body : T -> V -> outcome (RangeLoop.step T R)) fin s chk fuel fu m s0 e es : eexpr_ok fuel m e es -> zprod es < Z.of_nat fu ->
  over_elements body fin fuel e 0 (Z.to_nat (zprod es)) s (m, s0) = Some (eranged body fin s chk fu e (m, s0)).
Proof.
  intros K Hf. destruct (eok_dims _ _ _ _ K) as [D1 [D2 D3]]. assert (Hz := zprod_nonneg _ D2). unfold eranged.
  destruct (ebuild_spec _ _ _ _ K chk []) as [x [xe [h [-> X]]]]. cbn [bindO fst snd sdim sbeg send app] in *.
  apply (efor_loop_spec body fin fuel m h e es xe K (Z.to_nat (zprod es)) 0); auto; try lia. reflexivity.
Qed.

Theorem etwo_pass_spec {T T2 R} (step1 : T -> V -> T) s1 (step2 : T -> T2 -> V -> T2) s2 (fin : T2 -> R) chk fuel fu m s0 e es :
  eexpr_ok fuel m e es -> zprod es < Z.of_nat fu -> exists a w1 b w2,
  over_elements (goes step1) (fun s => s) fuel e 0 (Z.to_nat (zprod es)) s1 (m, s0) = Some (Ok (a, w1)) /\
  over_elements (goes (step2 a)) (fun s => s) fuel e 0 (Z.to_nat (zprod es)) s2 w1 = Some (Ok (b, w2)) /\
  etwo_pass step1 s1 step2 s2 fin chk fu e (m, s0) = Ok (fin b, w2).
Proof.
  intros K Hf. destruct (eok_dims _ _ _ _ K) as [D1 [D2 D3]]. assert (Hz := zprod_nonneg _ D2). unfold etwo_pass.
  destruct (ebuild_spec _ _ _ _ K chk []) as [x [xe [h [-> X]]]]. cbn [bindO fst snd sdim sbeg send app] in *.
  assert (G : forall T (st : T -> V -> T) s w, same_shape m (fst w) -> exists a w',
    over_elements (goes st) (fun s => s) fuel e 0 (Z.to_nat (zprod es)) s w = Some (Ok (a, w')) /\
    efor_loop (goes st) (fun s => s) fu h x xe s w = Ok (a, w') /\ same_shape m (fst w')).
  { intros T' st s w Sh. destruct (efor_loop_spec (goes st) (fun s => s) fuel m h e es xe K (Z.to_nat (zprod es)) 0 x w fu s ltac:(lia) ltac:(lia) X Sh) as [A B].
    assert (Hok : forall n k s w, over_elements (goes st) (fun s => s) fuel e k n s w = None \/ exists p, over_elements (goes st) (fun s => s) fuel e k n s w = Some (Ok p)).
    { clear. induction n as [|n IH]; intros k s w; cbn [over_elements]; [eauto|]. destruct (element fuel e k w) as [[v w']|]; [|auto]. unfold goes. apply IH. }
    destruct (Hok (Z.to_nat (zprod es)) 0%nat s w) as [N|[[a w'] N]]; [congruence|]. rewrite A in N. injection N as N.
    exists a, w'. rewrite A, N. repeat split; auto. eapply B, N. }
  destruct (G _ step1 s1 (m, s0) eq_refl) as [a [w1 [A1 [-> Sh1]]]]. cbn [bindO fst snd].
  destruct (G _ (step2 a) s2 w1 Sh1) as [b [w2 [A2 [-> Sh2]]]]. cbn [bindO fst snd]. eauto 8.
Qed.

Lemma ebest_loop_spec better fuel m h e es xe : eexpr_ok fuel m e es ->
  forall n k x w fu start best, Z.of_nat (k + n) = zprod es -> (n < fu)%nat -> eat fuel h e k x xe -> same_shape m (fst w) ->
  exists v j w', best_elements better fuel e k n start best w = Some (v, j, w') /\
    ebest_loop better fu h x xe start (Z.of_nat k) (Z.of_nat best) w = Ok (v, Z.of_nat j, w').
Proof.
  intros K. destruct (eok_dims _ _ _ _ K) as [D1 [D2 D3]].
  induction n as [|n IH]; intros k x w fu start best Hk Hf X Sh; (destruct fu as [|fu]; [lia|]); cbn [ebest_loop best_elements].
  - rewrite (eat_end _ _ _ _ _ k K ltac:(lia) _ _ X). eauto 6.
  - rewrite (eat_not_end _ _ _ _ _ k K ltac:(lia) _ _ X).
    destruct (element_spec _ _ _ _ _ k K ltac:(lia) _ _ w X Sh) as [r [w1 [v [-> [Hr [Sh1 ->]]]]]]. cbn [bindO fst snd]. rewrite Hr. cbn [bindO].
    destruct (eat_next _ _ _ _ _ k K ltac:(lia) _ _ X) as [x' [Hx X']].
    assert (Hw : w64 (Z.of_nat k + 1) = Z.of_nat (S k)). { rewrite w64_small by (unfold W in *; lia). lia. }
    rewrite Hw. destruct (better start v).
    + destruct (element_spec _ _ _ _ _ k K ltac:(lia) _ _ w1 X Sh1) as [r' [w2 [v' [-> [Hr' [Sh2 ->]]]]]]. cbn [bindO fst snd]. rewrite Hr'. cbn [bindO].
      rewrite Hx. cbn [bindO]. apply (IH (S k)); auto; lia.
    + rewrite Hx. cbn [bindO]. apply (IH (S k)); auto; lia.
Qed.
Theorem ebest_spec better chk fuel fu m s0 e es start : eexpr_ok fuel m e es -> zprod es < Z.of_nat fu -> exists v j w',
  best_elements better fuel e 0 (Z.to_nat (zprod es)) start 0 (m, s0) = Some (v, j, w') /\
  ebest better chk fu e start (m, s0) = Ok (v, Z.of_nat j, w').
Proof.
  intros K Hf. destruct (eok_dims _ _ _ _ K) as [D1 [D2 D3]]. assert (Hz := zprod_nonneg _ D2). unfold ebest.
  destruct (ebuild_spec _ _ _ _ K chk []) as [x [xe [h [-> X]]]]. cbn [bindO fst snd sdim sbeg send app] in *.
  apply (ebest_loop_spec better fuel m h e es xe K (Z.to_nat (zprod es)) 0 x (m, s0) fu start 0); auto; try lia. reflexivity.
Qed.
End EffectsProofs.
