(** * ExprProofs: lazy expressions and their evaluation. *)

From Coq Require Import ZArith List Bool Lia Arith.
From Verif Require Import Base Spec Desc Slice SliceSpec Expr ExprSpec Lemmas DescProofs LifeProofs RunProofs ViewThms.
Import ListNotations.
Open Scope Z_scope.

Section ExprProofs.
Context {V : Type}.
Notation mem := (@mem V).
Notation expr := (@expr V).
Implicit Types (m : mem) (e : expr).

(** ** walks of leaf iterators *)
Inductive lwalk (e : lit) : lit -> list Z -> Prop :=
| lw_end d : lit_eqb d e = true -> lwalk e d []
| lw_step d p d' ps : lit_eqb d e = false -> lit_deref d = Ok p -> lit_next d = Ok d' -> lwalk e d' ps -> lwalk e d (p :: ps).

Lemma lwalk_ptr n : forall off, 0 <= n -> lwalk (IPtr (off + n)) (IPtr off) (map (fun i => off + Z.of_nat i) (seq 0 (Z.to_nat n))).
Proof.
  intros off Hn. replace n with (Z.of_nat (Z.to_nat n)) at 1 by lia. generalize (Z.to_nat n). clear n Hn. intros n. revert off.
  induction n as [|n IH]; intros off.
  - constructor. cbn. apply Z.eqb_eq. lia.
  - replace (map (fun i => off + Z.of_nat i) (seq 0 (S n))) with (off :: map (fun i => (off + 1) + Z.of_nat i) (seq 0 n)).
    + eapply lw_step with (d' := IPtr (off + 1)); [cbn; apply Z.eqb_neq; lia|cbn; f_equal; lia|reflexivity|].
      replace (off + Z.of_nat (S n)) with ((off + 1) + Z.of_nat n) by lia. apply IH.
    + cbn [seq map]. f_equal; [lia|]. rewrite <- seq_shift, map_map. apply map_ext. intros. lia.
Qed.

Lemma lwalk_vec off idx : forall k, (k <= length idx)%nat ->
  lwalk (IVec off idx (Z.of_nat (length idx))) (IVec off idx (Z.of_nat k)) (map (fun p => off + p) (skipn k idx)).
Proof.
  intros k Hk. remember (length idx - k)%nat as n eqn:En. revert k Hk En. induction n as [|n IH]; intros k Hk En.
  - rewrite skipn_all2 by lia. constructor. cbn. apply Z.eqb_eq. lia.
  - assert (Hlt : (k < length idx)%nat) by lia.
    destruct (nth_error idx k) as [p|] eqn:E; [|apply nth_error_None in E; lia].
    assert (Hs : skipn k idx = p :: skipn (S k) idx).
    { clear -E. revert idx E. induction k as [|k IH]; intros [|a idx] E; cbn in *; try discriminate; [congruence|]. apply IH. exact E. }
    rewrite Hs. cbn [map]. eapply lw_step with (d' := IVec off idx (Z.of_nat (S k))).
    + cbn. apply Z.eqb_neq. lia.
    + cbn. unfold get. replace ((0 <=? Z.of_nat k) && (Z.of_nat k <? Z.of_nat (length idx))) with true
        by (symmetry; apply andb_true_iff; split; [apply Z.leb_le|apply Z.ltb_lt]; lia).
      rewrite Nat2Z.id, E. reflexivity.
    + cbn. f_equal. f_equal. lia.
    + apply IH; lia.
Qed.

Lemma lwalk_str fuel off d : forall it ps, sd_walk_from fuel d it = Ok ps ->
  lwalk (IStr off d (sd_end d)) (IStr off d it) (map (fun p => off + p) ps).
Proof.
  induction fuel as [|f IH]; intros it ps H; cbn in H; [discriminate|].
  destruct (it_eqb it (sd_end d)) eqn:E.
  - injection H as <-. constructor. exact E.
  - apply bindO_Ok_inv in H as [it' [H1 H2]]. apply bindO_Ok_inv in H2 as [r [H2 H3]]. injection H3 as <-.
    cbn [map]. eapply lw_step with (d' := IStr off d it'); [exact E|reflexivity|cbn; rewrite H1; reflexivity|]. apply IH. exact H2.
Qed.

Lemma positions_lwalk fuel s ps : positions fuel s = Ok ps ->
  exists b en, leaf_range s = Ok (b, en) /\ lwalk en b ps.
Proof.
  destruct s as [p|off es|off es M|off [d|d idx]|off m args]; cbn; try discriminate.
  - intros [= <-]. eexists. eexists. split; [reflexivity|]. apply lwalk_ptr.
    apply prod_arr_range. unfold W. lia.
  - intros H. apply bindO_Ok_inv in H as [q [H1 H2]]. injection H2 as <-. eexists. eexists. split; [reflexivity|].
    eapply lwalk_str. exact H1.
  - intros [= <-]. eexists. eexists. split; [reflexivity|]. apply (lwalk_vec off idx 0). lia.
Qed.

(** ** memory *)
Definition same_shape (m m' : mem) : Prop := map (@length V) m' = map (@length V) m.

Lemma same_shape_nth m m' sid c : same_shape m m' -> nth_error m sid = Some c -> exists c', nth_error m' sid = Some c' /\ length c' = length c.
Proof.
  unfold same_shape. intros H E. assert (H1 := f_equal (fun l => nth_error l sid) H). cbn in H1. rewrite !nth_error_map, E in H1. cbn in H1.
  destruct (nth_error m' sid) as [c'|]; [|discriminate]. exists c'. split; auto. cbn in H1. congruence.
Qed.

Lemma inside_shape m m' sid ps : same_shape m m' -> inside m sid ps -> inside m' sid ps.
Proof. intros H [c [E F]]. destruct (same_shape_nth _ _ _ _ H E) as [c' [E' L]]. exists c'. split; auto. rewrite L. exact F. Qed.

Lemma expr_ok_shape fuel m m' e es : same_shape m m' -> expr_ok fuel m e es -> expr_ok fuel m' e es.
Proof. intros H K. induction K; econstructor; eauto using inside_shape. Qed.

Lemma load_inside m sid ps p : inside m sid ps -> In p ps -> exists v, load m sid p = Ok v /\ cell m sid p = Some v /\ 0 <= p.
Proof.
  intros [c [E F]] Hin. rewrite Forall_forall in F. specialize (F _ Hin). unfold load, cell. rewrite E.
  destruct (nth_error c (Z.to_nat p)) as [v|] eqn:E2; [|apply nth_error_None in E2; lia].
  exists v. unfold get. replace ((0 <=? p) && (p <? Z.of_nat (length c))) with true
    by (symmetry; apply andb_true_iff; split; [apply Z.leb_le|apply Z.ltb_lt]; lia). rewrite E2. repeat split. lia.
Qed.

Lemma upd_length {A} (l : list A) i v : length (upd_nat l i v) = length l.
Proof. revert i. induction l; intros [|i]; cbn; auto. Qed.

Lemma store_inside m sid ps p v : inside m sid ps -> In p ps -> exists m', store m sid p v = Ok m' /\ same_shape m m' /\
  cell m' sid p = Some v /\ (forall sid' q, 0 <= q -> (sid' <> sid \/ q <> p) -> cell m' sid' q = cell m sid' q).
Proof.
  intros [c [E F]] Hin. rewrite Forall_forall in F. specialize (F _ Hin). unfold store, put. rewrite E.
  replace ((0 <=? p) && (p <? Z.of_nat (length c))) with true
    by (symmetry; apply andb_true_iff; split; [apply Z.leb_le|apply Z.ltb_lt]; lia). cbn.
  assert (Hs : (sid < length m)%nat) by (apply nth_error_Some; congruence).
  eexists. split; [reflexivity|]. split; [|split].
  - unfold same_shape. apply nth_error_ext. intros i. rewrite !nth_error_map. destruct (Nat.eq_dec sid i) as [<-|N].
    + rewrite nth_error_upd_eq by exact Hs. rewrite E. cbn. rewrite upd_length. reflexivity.
    + rewrite nth_error_upd_ne by exact N. reflexivity.
  - unfold cell. rewrite nth_error_upd_eq by exact Hs. apply nth_error_upd_eq. lia.
  - intros sid' q Hq D. unfold cell. destruct (Nat.eq_dec sid sid') as [<-|N].
    + rewrite nth_error_upd_eq by exact Hs. rewrite E. apply nth_error_upd_ne. destruct D as [D|D]; [congruence|]. lia.
    + rewrite nth_error_upd_ne by exact N. reflexivity.
Qed.

(** ** value and reads *)
Lemma value_reads fuel m m' e k : (forall sid p, In (sid, p) (reads fuel e k) -> cell m' sid p = cell m sid p) ->
  value fuel m' e k = value fuel m e k.
Proof.
  induction e as [sid s|f e IH|f e1 IH1 e2 IH2|f c e IH|f e IH c|D e IH]; cbn; intros H; try (rewrite IH by exact H; reflexivity).
  - destruct (positions fuel s); auto. destruct (nth_error a k); auto. apply H. left. reflexivity.
  - rewrite IH1, IH2; auto; intros; apply H; apply in_or_app; auto.
Qed.

Lemma ok_shaped fuel m e es : expr_ok fuel m e es -> expr_shaped fuel m e es.
Proof. intros K. induction K; econstructor; eauto. Qed.
Lemma ok_drops fuel m e es : expr_ok fuel m e es -> drops e = false.
Proof. intros K. induction K; cbn; auto. rewrite IHK1, IHK2. reflexivity. Qed.

Lemma shaped_dims fuel m e es : expr_shaped fuel m e es -> es <> [] /\ all_nonneg es /\ zprod es < W.
Proof.
  intros K. induction K as [sid s es ps [H1 [H2 [H3 [H4 [H5 H6]]]]] Hi | | | | |D e es es' K [I1 [I2 I3]] Hl Hd Hn]; auto.
  split; [exact Hn|]. unfold drop_one_level_extents in Hd. apply bindO_Ok_inv in Hd as [u [Hd1 Hd2]].
  destruct (Nat.leb _ D); [|discriminate]. injection Hd2 as <-. split.
  - apply Forall_app. split.
    + clear -I2. generalize (length es - D)%nat as k. induction I2 as [|x l Hx Hl IH]; intros [|k]; cbn; try constructor; auto; try apply IH.
      destruct (x =? 1); [apply IH|constructor; auto; apply IH].
    + clear. generalize (D - length (drop_units (length es - D) es))%nat. intros n. induction n; cbn; constructor; auto; lia.
  - rewrite zprod_app, drop_units_zprod.
    replace (zprod (repeat 1 (D - length (drop_units (length es - D) es)))) with 1; [lia|].
    generalize (D - length (drop_units (length es - D) es))%nat. intros n. induction n; cbn; auto. unfold zprod in *. cbn. lia.
Qed.

Lemma expr_ok_dims fuel m e es : expr_ok fuel m e es -> es <> [] /\ all_nonneg es /\ zprod es < W.
Proof. intros K. eapply shaped_dims, ok_shaped, K. Qed.

Lemma drop_ext_zprod chk D es es' : drop_one_level_extents chk D es = Ok es' -> zprod es' = zprod es.
Proof.
  intros Hd. unfold drop_one_level_extents in Hd. apply bindO_Ok_inv in Hd as [u [Hd1 Hd2]].
  destruct (Nat.leb _ D); [|discriminate]. injection Hd2 as <-. rewrite zprod_app, drop_units_zprod.
  replace (zprod (repeat 1 (D - length (drop_units (length es - D) es)))) with 1; [lia|].
  generalize (D - length (drop_units (length es - D) es))%nat. intros n. induction n; cbn; auto. unfold zprod in *. cbn. lia.
Qed.

Lemma value_some fuel m e es k : expr_ok fuel m e es -> (Z.of_nat k < zprod es) -> exists v, value fuel m e k = Some v.
Proof.
  intros K. induction K as [sid s es ps [H1 [H2 [H3 [H4 [H5 H6]]]]] Hi | f e es K IH | f c e es K IH | f e c es K IH | f e1 e2 es K1 IH1 K2 IH2]; cbn; intros Hk.
  - rewrite H2. destruct (nth_error ps k) as [p|] eqn:E; [|apply nth_error_None in E; lia].
    destruct (load_inside m sid ps p Hi) as [v [_ [Hc _]]]; [eapply nth_error_In; eauto|]. eauto.
  - destruct (IH Hk) as [v ->]. cbn. eauto.
  - destruct (IH Hk) as [v ->]. cbn. eauto.
  - destruct (IH Hk) as [v ->]. cbn. eauto.
  - destruct (IH1 Hk) as [v ->], (IH2 Hk) as [w ->]. cbn. eauto.
Qed.

(** ** position k of an expression's iterator *)
Fixpoint xat (fuel : nat) (h : @heap V) (e : expr) (k : nat) (x xe : xit) : Prop :=
  match e, x, xe with
  | ELeaf sid s, XLeaf sid' i, XLeaf sid'' ie => sid' = sid /\ exists ps, positions fuel s = Ok ps /\ (k <= length ps)%nat /\ lwalk ie i (skipn k ps)
  | EUn f e', XUn src i, XUn _ ie => nth_error h src = Some (Some (F1 f)) /\ xat fuel h e' k i ie
  | ELeft f c e', XUn src i, XUn _ ie => nth_error h src = Some (Some (F1 (left_operation c f))) /\ xat fuel h e' k i ie
  | ERight f e' c, XUn src i, XUn _ ie => nth_error h src = Some (Some (F1 (right_operation c f))) /\ xat fuel h e' k i ie
  | EDrop D e', XUn src i, XUn _ ie => nth_error h src = Some (Some FFwd) /\ (forall sid s, e' <> ELeaf sid s) /\ xat fuel h e' k i ie
  | EBin f e1 e2, XBin src i j, XBin _ ie je => nth_error h src = Some (Some (F2 f)) /\ xat fuel h e1 k i ie /\ xat fuel h e2 k j je
  | _, _, _ => False
  end.

Lemma xat_heap fuel h h' e k : forall x xe, xat fuel h e k x xe -> xat fuel (h ++ h') e k x xe.
Proof.
  assert (N : forall n f, nth_error h n = Some f -> nth_error (h ++ h') n = Some f).
  { intros n f E. rewrite nth_error_app1; auto. apply nth_error_Some. congruence. }
  induction e as [sid s|f e IH|f e1 IH1 e2 IH2|f c e IH|f e IH c|D e IH]; intros [] []; cbn; try tauto; intros [E K]; split; auto; tauto || (destruct K; split; auto).
Qed.

Lemma build_shaped fuel m e es : expr_shaped fuel m e es -> forall chk h, exists x xe h',
  build chk e h = Ok (Src x xe es, h ++ h') /\ xat fuel (h ++ h') e 0 x xe.
Proof.
  intros K. induction K as [sid s es ps [H1 [H2 [H3 [H4 [H5 H6]]]]] Hi | f e es K IH | f c e es K IH | f e c es K IH | f e1 e2 es K1 IH1 K2 IH2 | D e es es' K IH Hl Hd Hn]; intros chk h.
  - destruct (positions_lwalk _ _ _ H2) as [b [en [Hr Hw]]]. exists (XLeaf sid b), (XLeaf sid en), []. cbn. rewrite Hr, app_nil_r. cbn. rewrite H1.
    split; [reflexivity|]. split; auto. exists ps. cbn [skipn]. repeat split; auto. lia.
  - destruct (IH chk h) as [x [xe [h' [E X]]]]. cbn. rewrite E. cbn. unfold mk_un. cbn. eexists. eexists. exists (h' ++ [Some (F1 f)]). rewrite app_assoc.
    split; [reflexivity|]. cbn. rewrite nth_error_app_mid. split; [reflexivity|]. apply xat_heap. exact X.
  - destruct (IH chk h) as [x [xe [h' [E X]]]]. cbn. rewrite E. cbn. unfold mk_un. cbn. eexists. eexists. exists (h' ++ [Some (F1 (left_operation c f))]). rewrite app_assoc.
    split; [reflexivity|]. cbn. rewrite nth_error_app_mid. split; [reflexivity|]. apply xat_heap. exact X.
  - destruct (IH chk h) as [x [xe [h' [E X]]]]. cbn. rewrite E. cbn. unfold mk_un. cbn. eexists. eexists. exists (h' ++ [Some (F1 (right_operation c f))]). rewrite app_assoc.
    split; [reflexivity|]. cbn. rewrite nth_error_app_mid. split; [reflexivity|]. apply xat_heap. exact X.
  - destruct (IH1 chk h) as [x [xe [h' [E X]]]]. destruct (IH2 chk (h ++ h')) as [y [ye [h2 [E2 Y]]]]. cbn. rewrite E. cbn. rewrite E2. cbn.
    rewrite Zlist_eqb_refl, dassert_true. cbn.
    eexists. eexists. exists (h' ++ h2 ++ [Some (F2 f)]). rewrite !app_assoc. split; [reflexivity|]. cbn. rewrite nth_error_app_mid. split; [reflexivity|].
    split; apply xat_heap; [apply xat_heap; exact X|exact Y].
  - destruct (IH chk h) as [x [xe [h' [E X]]]]. cbn. rewrite E. cbn.
    assert (Hd' : drop_one_level_extents chk D es = Ok es').
    { destruct chk; auto. unfold drop_one_level_extents in *. destruct (Nat.leb (length es - D) (count_units es)); [exact Hd|discriminate Hd]. }
    rewrite Hd'. cbn. unfold mk_un. cbn. eexists. eexists. exists (h' ++ [Some FFwd]). rewrite app_assoc.
    split; [reflexivity|]. cbn. rewrite nth_error_app_mid. split; [reflexivity|]. split; [exact Hl|]. apply xat_heap. exact X.
Qed.
Lemma build_spec fuel m e es : expr_ok fuel m e es -> forall chk h, exists x xe h',
  build chk e h = Ok (Src x xe es, h ++ h') /\ xat fuel (h ++ h') e 0 x xe.
Proof. intros K. apply build_shaped with (m := m), ok_shaped, K. Qed.

Lemma skipn_nth {A} (l : list A) k a : nth_error l k = Some a -> skipn k l = a :: skipn (S k) l.
Proof. revert l. induction k as [|k IH]; intros [|b l] E; cbn in *; try discriminate; [congruence|]. apply IH. exact E. Qed.

Lemma shaped_next fuel m h e es k : expr_shaped fuel m e es -> Z.of_nat k < zprod es -> forall x xe, xat fuel h e k x xe ->
  exists x', xnext x = Ok x' /\ xat fuel h e (S k) x' xe.
Proof.
  intros K. induction K as [sid s es ps [H1 [H2 [H3 [H4 [H5 H6]]]]] Hi | f e es K IH | f c e es K IH | f e c es K IH | f e1 e2 es K1 IH1 K2 IH2 | D e es es' K IH Hl Hd Hn];
    intros Hk x xe; destruct x as [sid' i|src i|src i j], xe as [sid'' ie|src' ie|src' ie je]; cbn; try tauto.
  - intros [-> [ps' [Ep [Hle Hw]]]]. assert (ps' = ps) by congruence. subst ps'.
    destruct (nth_error ps k) as [p|] eqn:E; [|apply nth_error_None in E; lia].
    rewrite (skipn_nth _ _ _ E) in Hw. inversion Hw as [|? ? d' ? He Hde Hn' Hw']; subst.
    rewrite Hn'. cbn. eexists. split; [reflexivity|]. cbn. split; auto. exists ps. split; auto. split; [|exact Hw'].
    apply nth_error_Some. congruence.
  - intros [Hf X]. destruct (IH Hk _ _ X) as [i' [-> X']]. cbn. eexists. split; [reflexivity|]. cbn. auto.
  - intros [Hf X]. destruct (IH Hk _ _ X) as [i' [-> X']]. cbn. eexists. split; [reflexivity|]. cbn. auto.
  - intros [Hf X]. destruct (IH Hk _ _ X) as [i' [-> X']]. cbn. eexists. split; [reflexivity|]. cbn. auto.
  - intros [Hf [X Y]]. destruct (IH1 Hk _ _ X) as [i' [-> X']], (IH2 Hk _ _ Y) as [j' [-> Y']]. cbn. eexists. split; [reflexivity|]. cbn. auto.
  - intros [Hf [_ X]]. rewrite (drop_ext_zprod _ _ _ _ Hd) in Hk. destruct (IH Hk _ _ X) as [i' [-> X']]. cbn. eexists. split; [reflexivity|]. cbn. auto.
Qed.
Lemma xat_next fuel m h e es k : expr_ok fuel m e es -> Z.of_nat k < zprod es -> forall x xe, xat fuel h e k x xe ->
  exists x', xnext x = Ok x' /\ xat fuel h e (S k) x' xe.
Proof. intros K. eapply shaped_next, ok_shaped, K. Qed.

Lemma xat_deref fuel m h e es k : expr_ok fuel m e es -> Z.of_nat k < zprod es -> forall x xe, xat fuel h e k x xe ->
  exists v, value fuel m e k = Some v /\ xderef h m x = Ok (v, reads fuel e k).
Proof.
  intros K. induction K as [sid s es ps [H1 [H2 [H3 [H4 [H5 H6]]]]] Hi | f e es K IH | f c e es K IH | f e c es K IH | f e1 e2 es K1 IH1 K2 IH2];
    intros Hk x xe; destruct x as [sid' i|src i|src i j], xe as [sid'' ie|src' ie|src' ie je]; cbn; try tauto.
  - intros [-> [ps' [Ep [Hle Hw]]]]. assert (ps' = ps) by congruence. subst ps'. rewrite H2.
    destruct (nth_error ps k) as [p|] eqn:E; [|apply nth_error_None in E; lia].
    rewrite (skipn_nth _ _ _ E) in Hw. inversion Hw as [|? ? d' ? He Hde Hn' Hw']; subst.
    rewrite Hde. cbn. destruct (load_inside m sid ps p Hi) as [v [Hl [Hc _]]]; [eapply nth_error_In; eauto|]. rewrite Hl. cbn. eauto.
  - intros [Hf X]. rewrite Hf. destruct (IH Hk _ _ X) as [v [-> ->]]. cbn. eauto.
  - intros [Hf X]. rewrite Hf. destruct (IH Hk _ _ X) as [v [-> ->]]. cbn. eauto.
  - intros [Hf X]. rewrite Hf. destruct (IH Hk _ _ X) as [v [-> ->]]. cbn. eauto.
  - intros [Hf [X Y]]. rewrite Hf. destruct (IH1 Hk _ _ X) as [v [-> ->]], (IH2 Hk _ _ Y) as [w [-> ->]]. cbn. eauto.
Qed.

(** A dropped expression anywhere: dereferencing is undefined. *)
Lemma shaped_ok fuel m e es : expr_shaped fuel m e es -> drops e = false -> expr_ok fuel m e es.
Proof.
  intros K. induction K; cbn; intros DD; try discriminate; try (econstructor; eauto; fail).
  apply orb_false_iff in DD as [D1 D2]. constructor; auto.
Qed.
Lemma drops_deref fuel m h e es k : expr_shaped fuel m e es -> Z.of_nat k < zprod es -> drops e = true -> forall x xe, xat fuel h e k x xe ->
  xderef h m x = UB.
Proof.
  intros K. induction K as [sid s es ps Hv Hi | f e es K IH | f c e es K IH | f e c es K IH | f e1 e2 es K1 IH1 K2 IH2 | D e es es' K IH Hl Hd Hn];
    intros Hk Dr x xe; destruct x as [sid' i|src i|src i j], xe as [sid'' ie|src' ie|src' ie je]; cbn in Dr |- *; try discriminate; try tauto.
  - intros [-> X]. rewrite (IH Hk Dr _ _ X). reflexivity.
  - intros [-> X]. rewrite (IH Hk Dr _ _ X). reflexivity.
  - intros [-> X]. rewrite (IH Hk Dr _ _ X). reflexivity.
  - intros [-> [X Y]]. destruct (drops e1) eqn:D1.
    + rewrite (IH1 Hk eq_refl _ _ X). reflexivity.
    + destruct (xat_deref _ _ _ _ _ _ (shaped_ok _ _ _ _ K1 D1) Hk _ _ X) as [v [_ ->]]. cbn. cbn in Dr. rewrite (IH2 Hk Dr _ _ Y). reflexivity.
  - intros [-> [_ X]]. destruct e; destruct i; cbn in X; try tauto; try reflexivity. exfalso. eapply Hl. reflexivity.
Qed.

Lemma shaped_end fuel m h e es k : expr_shaped fuel m e es -> Z.of_nat k = zprod es -> forall x xe, xat fuel h e k x xe -> xeqb x xe = true.
Proof.
  intros K. induction K as [sid s es ps [H1 [H2 [H3 [H4 [H5 H6]]]]] Hi | f e es K IH | f c e es K IH | f e c es K IH | f e1 e2 es K1 IH1 K2 IH2 | D e es es' K IH Hl Hd Hn];
    intros Hk x xe; destruct x as [sid' i|src i|src i j], xe as [sid'' ie|src' ie|src' ie je]; cbn; try tauto.
  - intros [-> [ps' [Ep [Hle Hw]]]]. assert (ps' = ps) by congruence. subst ps'. rewrite skipn_all2 in Hw by lia. inversion Hw. auto.
  - intros [_ X]. eauto.
  - intros [_ X]. eauto.
  - intros [_ X]. eauto.
  - intros [_ [X Y]]. rewrite (IH1 Hk _ _ X), (IH2 Hk _ _ Y). reflexivity.
  - intros [_ [_ X]]. rewrite (drop_ext_zprod _ _ _ _ Hd) in Hk. eauto.
Qed.
Lemma xat_end fuel m h e es k : expr_ok fuel m e es -> Z.of_nat k = zprod es -> forall x xe, xat fuel h e k x xe -> xeqb x xe = true.
Proof. intros K. eapply shaped_end, ok_shaped, K. Qed.

Lemma copy_n_spec fuel m h e es xe : expr_ok fuel m e es -> forall n k x, Z.of_nat (k + n) <= zprod es -> xat fuel h e k x xe ->
  exists vs, copy_n n h m x = Ok (vs, map (reads fuel e) (seq k n)) /\ map Some vs = map (value fuel m e) (seq k n).
Proof.
  intros K. induction n as [|n IH]; intros k x Hk X; cbn.
  - exists []. auto.
  - destruct (xat_deref _ _ _ _ _ k K ltac:(lia) _ _ X) as [v [Hv ->]]. destruct (xat_next _ _ _ _ _ k K ltac:(lia) _ _ X) as [x' [-> X']]. cbn.
    destruct (IH (S k) x' ltac:(lia) X') as [vs [-> Hvs]]. cbn. exists (v :: vs). rewrite Hv. cbn. rewrite Hvs. auto.
Qed.

Theorem eval_expr_spec chk fuel m e es : expr_ok fuel m e es ->
  exists vs, eval_expr chk m e = Ok (es, vs, map (reads fuel e) (seq 0 (length vs))) /\ Z.of_nat (length vs) = zprod es /\
    (forall k, (k < length vs)%nat -> nth_error vs k = value fuel m e k).
Proof.
  intros K. destruct (build_spec _ _ _ _ K chk []) as [x [xe [h [E X]]]]. unfold eval_expr, materialise. rewrite E. cbn [bindO fst snd sdim sbeg app] in *.
  destruct (expr_ok_dims _ _ _ _ K) as [D1 [D2 D3]]. rewrite prod_arr_small by auto. assert (P := zprod_nonneg _ D2).
  destruct (copy_n_spec fuel m h e es xe K (Z.to_nat (zprod es)) 0 x ltac:(lia) X) as [vs [-> Hvs]].
  assert (L : length vs = Z.to_nat (zprod es)). { apply (f_equal (@length _)) in Hvs. rewrite !map_length, seq_length in Hvs. exact Hvs. }
  exists vs. cbn. rewrite L. split; [reflexivity|]. split; [lia|]. intros k Hk.
  assert (H := f_equal (fun l => nth_error l k) Hvs). cbn in H. rewrite !nth_error_map in H.
  assert (Hs : nth_error (seq 0 (Z.to_nat (zprod es))) k = Some k).
  { rewrite nth_error_nth' with (d := O) by (rewrite seq_length; lia). f_equal. rewrite seq_nth by lia. reflexivity. }
  rewrite Hs in H. cbn in H. destruct (nth_error vs k) eqn:E2; [|apply nth_error_None in E2; lia]. cbn in H. congruence.
Qed.

(** ** mismatched operands *)
Lemma build_bad fuel m e : expr_bad fuel m e -> forall h, build true e h = Abort.
Proof.
  intros K. induction K as [f e1 e2 es1 es2 K1 K2 Hne|D e es K Hd|f e K IH|f c e K IH|f e c K IH|D e K IH|f e1 e2 K IH|f e1 e2 es K1 K2 IH]; intros h; cbn.
  - destruct (build_shaped _ _ _ _ K1 true h) as [x [xe [h' [-> _]]]]. destruct (build_shaped _ _ _ _ K2 true (h ++ h')) as [y [ye [h2 [E2 _]]]]. cbn. rewrite E2. cbn.
    rewrite Zlist_eqb_neq by exact Hne. reflexivity.
  - destruct (build_shaped _ _ _ _ K true h) as [x [xe [h' [-> _]]]]. cbn. unfold drop_one_level_extents.
    replace (Nat.leb (length es - D) (count_units es)) with false by (symmetry; apply Nat.leb_gt; lia). reflexivity.
  - rewrite IH. reflexivity.
  - rewrite IH. reflexivity.
  - rewrite IH. reflexivity.
  - rewrite IH. reflexivity.
  - rewrite IH. reflexivity.
  - destruct (build_shaped _ _ _ _ K1 true h) as [x [xe [h' [-> _]]]]. cbn. rewrite IH. reflexivity.
Qed.

End ExprProofs.
