(** * ExprThms: assignment through views, in-place operations, overlap, stored expressions. *)

From Coq Require Import ZArith List Bool Lia Arith.
From Verif Require Import Base Spec Desc Slice SliceSpec Expr ExprSpec Lemmas DescProofs LifeProofs RunProofs ViewThms ExprProofs.
Import ListNotations.
Open Scope Z_scope.

Section ExprThms.
Context {V : Type}.
Notation mem := (@mem V).
Notation expr := (@expr V).
Implicit Types (m : mem) (e : expr).

Lemma reads_nonneg fuel m e es k sid p : expr_ok fuel m e es -> In (sid, p) (reads fuel e k) -> 0 <= p.
Proof.
  intros K. induction K as [sid' s es ps [H1 [H2 [H3 [H4 [H5 H6]]]]] [c [E F]] | | | | f e1 e2 es K1 IH1 K2 IH2]; cbn; auto.
  - rewrite H2. destruct (nth_error ps k) as [q|] eqn:E2; [|intros []]. intros [[= <- <-]|[]].
    rewrite Forall_forall in F. apply nth_error_In in E2. apply F in E2. lia.
  - intros H. apply in_app_or in H as [H|H]; auto.
Qed.

(** The first [k] elements of the destination have been written. *)
Definition upto m sid ps (v : nat -> option V) (k : nat) (mk : mem) : Prop :=
  same_shape m mk /\
  (forall sid' p, 0 <= p -> (sid' <> sid \/ ~ In p (firstn k ps)) -> cell mk sid' p = cell m sid' p) /\
  (forall j p, (j < k)%nat -> nth_error ps j = Some p -> cell mk sid p = v j).

Lemma upto_0 m sid ps v : upto m sid ps v 0 m.
Proof. split; [reflexivity|]. split; auto. intros; lia. Qed.

Lemma firstn_S_nth {A} (l : list A) k a : nth_error l k = Some a -> firstn (S k) l = firstn k l ++ [a].
Proof. revert l. induction k as [|k IH]; intros [|b l] E; cbn in *; try discriminate; [congruence|]. rewrite <- IH by exact E. reflexivity. Qed.

Lemma NoDup_nth_firstn {A} (l : list A) j k (a : A) : NoDup l -> nth_error l k = Some a -> (j <= k)%nat -> ~ In a (firstn j l).
Proof.
  intros N E Hj H. apply In_nth_error in H as [i Hi].
  assert (Hl : (i < j)%nat). { assert (H := proj1 (nth_error_Some (firstn j l) i)). rewrite Hi in H. rewrite firstn_length in H. assert (H' := H ltac:(discriminate)). lia. }
  assert (E2 : nth_error l i = Some a).
  { eapply nth_error_firstn. exact Hi. }
  assert (i = k). { eapply NoDup_nth_error; eauto. - apply nth_error_Some. congruence. - congruence. } lia.
Qed.

Lemma upto_step m sid ps v k mk p w : NoDup ps -> inside m sid ps -> upto m sid ps v k mk -> nth_error ps k = Some p -> v k = Some w ->
  exists m', store mk sid p w = Ok m' /\ upto m sid ps v (S k) m'.
Proof.
  intros N Hi [S1 [U1 U2]] E Hv.
  destruct (store_inside mk sid ps p w (inside_shape _ _ _ _ S1 Hi) (nth_error_In _ _ E)) as [m' [Hs [Sh [C1 C2]]]].
  exists m'. split; auto. split; [|split].
  - unfold same_shape in *. congruence.
  - intros sid' q Hq D. rewrite (firstn_S_nth _ _ _ E) in D. rewrite C2; auto.
    + apply U1; auto. destruct D; [left; auto|right]. intros H1. apply H. apply in_or_app. auto.
    + destruct D; [left; auto|right]. intros ->. apply H. apply in_or_app. right. left. auto.
  - intros j q Hj Eq. destruct (Nat.eq_dec j k) as [->|Hne].
    + assert (q = p) by congruence. subst q. congruence.
    + rewrite C2.
      * apply U2; auto. lia.
      * destruct Hi as [c [_ F]]. rewrite Forall_forall in F. apply nth_error_In in Eq. apply F in Eq. lia.
      * right. intros ->. eapply (NoDup_nth_firstn ps k k p N E); [lia|].
        apply nth_error_In with (n := j). rewrite <- Eq. clear -Hj Hne Eq. assert (Hj' : (j < k)%nat) by lia. clear Hj Hne.
        revert ps j Hj' Eq. induction k; intros ps j Hj Eq; [lia|]. destruct ps, j; cbn in *; try discriminate; auto. apply IHk; auto. lia.
Qed.

Lemma upto_value fuel m e es sid ps v k mk : expr_ok fuel m e es -> upto m sid ps v k mk -> no_early_write fuel sid ps e -> (k < length ps)%nat ->
  value fuel mk e k = value fuel m e k.
Proof.
  intros K [_ [U1 _]] N Hk. apply value_reads. intros sid' p Hin. apply U1; [eapply reads_nonneg; eauto|].
  destruct (Nat.eq_dec sid' sid) as [->|D]; [right|left; auto]. intros H. apply In_nth_error in H as [j Hj].
  assert (Hl : (j < k)%nat). { assert (H := proj1 (nth_error_Some (firstn k ps) j)). rewrite Hj in H. rewrite firstn_length in H. assert (H' := H ltac:(discriminate)). lia. }
  apply (N j k p); auto. eapply nth_error_firstn. exact Hj.
Qed.

Lemma upto_cell m sid ps v k mk p : NoDup ps -> inside m sid ps -> upto m sid ps v k mk -> nth_error ps k = Some p ->
  exists w, load mk sid p = Ok w /\ cell m sid p = Some w.
Proof.
  intros N Hi [S1 [U1 U2]] E. destruct (load_inside mk sid ps p (inside_shape _ _ _ _ S1 Hi) (nth_error_In _ _ E)) as [w [Hl [Hc Hp]]].
  exists w. split; auto. rewrite <- Hc. symmetry. apply U1; auto. right. eapply NoDup_nth_firstn; eauto.
Qed.

Lemma upto_written m sid ps v m' : upto m sid ps v (length ps) m' -> (forall k, (k < length ps)%nat -> v k <> None) -> written m m' sid ps v.
Proof.
  intros [S1 [U1 U2]] Hv. split; [|split; [|split]].
  - apply (f_equal (@length _)) in S1. rewrite !map_length in S1. exact S1.
  - intros sid' c E. eapply same_shape_nth; eauto.
  - intros sid' p Hp D. apply U1; auto. rewrite firstn_all. exact D.
  - intros k p E. assert (Hk : (k < length ps)%nat) by (apply nth_error_Some; congruence). split; auto.
Qed.

Lemma assign_loop_spec fuel m e es sid ps h de xe : expr_ok fuel m e es -> inside m sid ps -> NoDup ps -> Z.of_nat (length ps) = zprod es ->
  no_early_write fuel sid ps e ->
  forall n k mk d x fu, (k + n = length ps)%nat -> (n < fu)%nat -> lwalk de d (skipn k ps) -> xat fuel h e k x xe -> upto m sid ps (value fuel m e) k mk ->
  exists m' x', assign_loop fu h sid d de x mk = Ok (m', x') /\ upto m sid ps (value fuel m e) (length ps) m' /\ xat fuel h e (length ps) x' xe.
Proof.
  intros K Hi N L NE. induction n as [|n IH]; intros k mk d x fu Hk Hf Hw X U; (destruct fu as [|fu]; [lia|]); cbn [assign_loop].
  - rewrite skipn_all2 in Hw by lia. inversion Hw as [? He|]; subst. rewrite He. assert (k = length ps) by lia. subst k. eauto.
  - destruct (nth_error ps k) as [p|] eqn:E; [|apply nth_error_None in E; lia].
    rewrite (skipn_nth _ _ _ E) in Hw. inversion Hw as [|? ? d' ? He Hde Hn' Hw']; subst. rewrite He, Hde, Hn'. cbn [bindO].
    assert (U' := U). destruct U' as [S1 _].
    assert (K' := expr_ok_shape _ _ _ _ _ S1 K).
    destruct (xat_next _ _ _ _ _ k K' ltac:(lia) _ _ X) as [x' [-> X']]. cbn [bindO].
    destruct (xat_deref _ _ _ _ _ k K' ltac:(lia) _ _ X) as [w [Hv ->]]. cbn [bindO fst].
    rewrite (upto_value _ _ _ _ _ _ _ _ _ K U NE) in Hv by lia.
    destruct (upto_step _ _ _ _ _ _ _ _ N Hi U E Hv) as [m' [-> U']]. cbn [bindO].
    apply (IH (S k)); auto; lia.
Qed.

Theorem view_assign_spec chk fuel fu m sid s es ps e : is_view fuel s es ps -> inside m sid ps -> NoDup ps -> expr_ok fuel m e es ->
  no_early_write fuel sid ps e -> (length ps < fu)%nat ->
  exists m', view_assign chk fu m sid s e = Ok m' /\ written m m' sid ps (value fuel m e).
Proof.
  intros [H1 [H2 [H3 [H4 [H5 H6]]]]] Hi N K NE Hf. unfold view_assign, array_assign.
  destruct (build_spec _ _ _ _ K chk []) as [x [xe [h [-> X]]]]. cbn [bindO fst snd sdim sbeg send app] in *. rewrite H1, Zlist_eqb_refl, dassert_true. cbn [bindO].
  destruct (positions_lwalk _ _ _ H2) as [b [en [Hr Hw]]]. rewrite Hr. cbn [bindO fst snd].
  destruct (assign_loop_spec fuel m e es sid ps h en xe K Hi N H6 NE (length ps) 0 m b x fu eq_refl Hf Hw X (upto_0 _ _ _ _)) as [m' [x' [-> [U X']]]].
  cbn [bindO fst snd]. rewrite (xat_end _ _ _ _ _ _ K H6 _ _ X'), dassert_true. cbn [bindO]. exists m'. split; auto.
  apply upto_written; auto. intros k Hk. destruct (value_some fuel m e es k K ltac:(lia)) as [v ->]. discriminate.
Qed.

Lemma no_overlap_early fuel sid ps e : no_overlap fuel sid ps e -> no_early_write fuel sid ps e.
Proof. intros H j k p Hjk E. apply H; [lia|]. eapply nth_error_In; eauto. Qed.

(** Mismatched extents are rejected by the checked build. *)
Theorem view_assign_mismatch fuel fu m sid s es es' ps e : is_view fuel s es ps -> expr_shaped fuel m e es' -> es <> es' ->
  view_assign true fu m sid s e = Abort.
Proof.
  intros [H1 _] K D. unfold view_assign, array_assign. destruct (build_shaped _ _ _ _ K true []) as [x [xe [h [-> X]]]]. cbn [bindO fst snd sdim].
  rewrite H1, Zlist_eqb_neq by congruence. reflexivity.
Qed.

(** In-place loops. *)
Lemma update_loop_spec m sid ps de op : inside m sid ps -> NoDup ps ->
  forall n k mk d fu, (k + n = length ps)%nat -> (n < fu)%nat -> lwalk de d (skipn k ps) ->
  upto m sid ps (fun j => match nth_error ps j with Some p => lift1 op (cell m sid p) | None => None end) k mk ->
  exists m', update_loop fu sid d de op mk = Ok (m', skipn k ps) /\
    upto m sid ps (fun j => match nth_error ps j with Some p => lift1 op (cell m sid p) | None => None end) (length ps) m'.
Proof.
  intros Hi N. induction n as [|n IH]; intros k mk d fu Hk Hf Hw U; (destruct fu as [|fu]; [lia|]); cbn [update_loop].
  - rewrite skipn_all2 in * by lia. inversion Hw as [? He|]; subst. rewrite He. assert (k = length ps) by lia. subst k. eauto.
  - destruct (nth_error ps k) as [p|] eqn:E; [|apply nth_error_None in E; lia].
    rewrite (skipn_nth _ _ _ E) in *. inversion Hw as [|? ? d' ? He Hde Hn' Hw']; subst. rewrite He, Hde, Hn'. cbn [bindO].
    destruct (upto_cell _ _ _ _ _ _ _ N Hi U E) as [w [-> Hc]]. cbn [bindO].
    destruct (upto_step _ _ _ _ _ _ _ (op w) N Hi U E) as [m' [-> U']]; [cbn beta; rewrite E, Hc; reflexivity|]. cbn [bindO].
    destruct (IH (S k) m' d' fu ltac:(lia) ltac:(lia) Hw' U') as [m2 [-> U2]]. cbn [bindO fst snd]. eauto.
Qed.

Theorem view_update_spec fuel fu m sid s es ps op : is_view fuel s es ps -> inside m sid ps -> NoDup ps -> (length ps < fu)%nat ->
  exists m', view_update fu m sid s op = Ok (m', ps) /\
    written m m' sid ps (fun k => match nth_error ps k with Some p => lift1 op (cell m sid p) | None => None end).
Proof.
  intros [H1 [H2 [H3 [H4 [H5 H6]]]]] Hi N Hf. unfold view_update.
  destruct (positions_lwalk _ _ _ H2) as [b [en [Hr Hw]]]. rewrite Hr. cbn [bindO fst snd].
  destruct (update_loop_spec m sid ps en op Hi N (length ps) 0 m b fu eq_refl Hf Hw (upto_0 _ _ _ _)) as [m' [-> U]].
  exists m'. split; auto. apply upto_written; auto. intros k Hk. destruct (nth_error ps k) as [p|] eqn:E; [|apply nth_error_None in E; lia].
  destruct (load_inside m sid ps p Hi (nth_error_In _ _ E)) as [v [_ [-> _]]]. discriminate.
Qed.

Theorem view_fill_spec fuel fu m sid s es ps v : is_view fuel s es ps -> inside m sid ps -> NoDup ps -> (length ps < fu)%nat ->
  exists m', view_fill fu m sid s v = Ok (m', ps) /\ written m m' sid ps (fun _ => Some v).
Proof.
  intros Hv Hi N Hf. destruct (view_update_spec fuel fu m sid s es ps (fun _ => v) Hv Hi N Hf) as [m' [E [W1 [W2 [W3 W4]]]]].
  exists m'. split; auto. split; [|split; [|split]]; auto. intros k p Ek. split; [discriminate|].
  destruct (W4 k p Ek) as [_ W5]. rewrite Ek in W5. destruct (load_inside m sid ps p Hi (nth_error_In _ _ Ek)) as [w [_ [Hc _]]]. rewrite Hc in W5. exact W5.
Qed.

Definition combined fuel m sid ps (f : V -> V -> V) e (k : nat) : option V :=
  match nth_error ps k with Some p => lift2 f (cell m sid p) (value fuel m e k) | None => None end.

Lemma inplace_loop_spec fuel m e es sid ps h de xe f : expr_ok fuel m e es -> inside m sid ps -> NoDup ps -> Z.of_nat (length ps) = zprod es ->
  no_early_write fuel sid ps e ->
  forall n k mk d x fu, (k + n = length ps)%nat -> (n < fu)%nat -> lwalk de d (skipn k ps) -> xat fuel h e k x xe -> upto m sid ps (combined fuel m sid ps f e) k mk ->
  exists m', inplace_loop fu h sid d de x f mk = Ok (m', skipn k ps) /\ upto m sid ps (combined fuel m sid ps f e) (length ps) m'.
Proof.
  intros K Hi N L NE. induction n as [|n IH]; intros k mk d x fu Hk Hf Hw X U; (destruct fu as [|fu]; [lia|]); cbn [inplace_loop].
  - rewrite skipn_all2 in * by lia. inversion Hw as [? He|]; subst. rewrite He. assert (k = length ps) by lia. subst k. eauto.
  - destruct (nth_error ps k) as [p|] eqn:E; [|apply nth_error_None in E; lia].
    rewrite (skipn_nth _ _ _ E) in *. inversion Hw as [|? ? d' ? He Hde Hn' Hw']; subst. rewrite He, Hde, Hn'. cbn [bindO].
    assert (U' := U). destruct U' as [S1 _].
    assert (K' := expr_ok_shape _ _ _ _ _ S1 K).
    destruct (xat_next _ _ _ _ _ k K' ltac:(lia) _ _ X) as [x' [-> X']]. cbn [bindO].
    destruct (xat_deref _ _ _ _ _ k K' ltac:(lia) _ _ X) as [w [Hv ->]]. cbn [bindO fst].
    rewrite (upto_value _ _ _ _ _ _ _ _ _ K U NE) in Hv by lia.
    destruct (upto_cell _ _ _ _ _ _ _ N Hi U E) as [w0 [-> Hc]]. cbn [bindO].
    destruct (upto_step _ _ _ _ _ _ _ (f w0 w) N Hi U E) as [m' [-> U']]; [unfold combined; rewrite E, Hc, Hv; reflexivity|]. cbn [bindO].
    destruct (IH (S k) m' d' x' fu ltac:(lia) ltac:(lia) Hw' X' U') as [m2 [-> U2]]. cbn [bindO fst snd]. eauto.
Qed.

Theorem view_inplace_spec chk fuel fu m sid s es ps f e : is_view fuel s es ps -> inside m sid ps -> NoDup ps -> expr_ok fuel m e es ->
  no_early_write fuel sid ps e -> (length ps < fu)%nat ->
  exists m', view_inplace chk fu m sid s f e = Ok (m', ps) /\
    written m m' sid ps (fun k => match nth_error ps k with Some p => lift2 f (cell m sid p) (value fuel m e k) | None => None end).
Proof.
  intros [H1 [H2 [H3 [H4 [H5 H6]]]]] Hi N K NE Hf. unfold view_inplace.
  destruct (build_spec _ _ _ _ K chk []) as [x [xe [h [-> X]]]]. cbn [bindO fst snd sdim sbeg send app] in *. rewrite H1, Zlist_eqb_refl, dassert_true. cbn [bindO].
  destruct (positions_lwalk _ _ _ H2) as [b [en [Hr Hw]]]. rewrite Hr. cbn [bindO fst snd].
  destruct (inplace_loop_spec fuel m e es sid ps h en xe f K Hi N H6 NE (length ps) 0 m b x fu eq_refl Hf Hw X (upto_0 _ _ _ _)) as [m' [-> U]].
  exists m'. split; auto. apply upto_written; auto. intros k Hk. unfold combined. destruct (nth_error ps k) as [p|] eqn:E; [|apply nth_error_None in E; lia].
  destruct (load_inside m sid ps p Hi (nth_error_In _ _ E)) as [v [_ [-> _]]].
  destruct (value_some fuel m e es k K ltac:(lia)) as [w ->]. discriminate.
Qed.

Lemma same_view_early fuel sid s ps : positions fuel s = Ok ps -> NoDup ps -> no_early_write fuel sid ps (ELeaf sid s : expr).
Proof.
  intros P N j k p Hjk E. cbn. rewrite P. destruct (nth_error ps k) as [q|] eqn:Ek; [|intros []]. intros [[= ->]|[]].
  assert (j = k); [|lia]. eapply NoDup_nth_error; eauto; [lia|congruence].
Qed.

(** [a op= a]. *)
Theorem view_inplace_self chk fuel fu m sid s es ps f : is_view fuel s es ps -> inside m sid ps -> NoDup ps -> (length ps < fu)%nat ->
  exists m', view_inplace chk fu m sid s f (ELeaf sid s) = Ok (m', ps) /\
    written m m' sid ps (fun k => match nth_error ps k with Some p => lift1 (fun x => f x x) (cell m sid p) | None => None end).
Proof.
  intros Hv Hi N Hf. assert (Hv' := Hv). destruct Hv' as [_ [P _]].
  destruct (view_inplace_spec chk fuel fu m sid s es ps f (ELeaf sid s) Hv Hi N) as [m' [E [W1 [W2 [W3 W4]]]]]; auto.
  - econstructor; eauto.
  - apply same_view_early; auto.
  - exists m'. split; auto. split; [|split; [|split]]; auto. intros k p Ek. destruct (W4 k p Ek) as [W5 W6]. cbn in W5, W6. rewrite P, Ek in W5, W6. rewrite Ek.
    destruct (cell m sid p); cbn in *; auto.
Qed.

Theorem view_inplace_mismatch fuel fu m sid s es es' ps f e : is_view fuel s es ps -> expr_shaped fuel m e es' -> es <> es' ->
  view_inplace true fu m sid s f e = Abort.
Proof.
  intros [H1 _] K D. unfold view_inplace. destruct (build_shaped _ _ _ _ K true []) as [x [xe [h [-> X]]]]. cbn [bindO fst snd sdim].
  rewrite H1, Zlist_eqb_neq by congruence. reflexivity.
Qed.

(** Element-wise expressions of views with the destination's positions may be assigned directly. *)
Lemma aligned_early fuel sid ps e : NoDup ps -> aligned fuel sid ps e -> no_early_write fuel sid ps e.
Proof.
  intros N A j k p Hjk E. revert A. induction e as [sid' s|f e IH|f e1 IH1 e2 IH2|f c e IH|f e IH c|D e IH]; cbn; auto.
  - intros [H|H].
    + rewrite H. destruct (nth_error ps k) as [q|] eqn:Ek; [|intros []]. intros [[= <- ->]|[]].
      assert (j = k); [|lia]. eapply NoDup_nth_error; eauto; [lia|congruence].
    + destruct (positions fuel s) as [qs| | | |] eqn:P; try (intros []; fail). destruct (nth_error qs k) as [q|] eqn:Ek; [|intros []]. intros [[= -> ->]|[]].
      destruct H as [H|H]; [congruence|]. eapply H; [reflexivity| |]; eauto using nth_error_In.
  - intros [A1 A2] H. apply in_app_or in H as [H|H]; [apply IH1|apply IH2]; auto.
Qed.

(** ** overlap *)
Lemma iota_seq n : map (fun i => 0 + Z.of_nat i) (seq 0 n) = map Z.of_nat (seq 0 n).
Proof. apply map_ext. intros. lia. Qed.

Theorem overlap_assign_spec chk fuel fu m sid s es ps e : is_view fuel s es ps -> inside m sid ps -> NoDup ps -> expr_ok fuel m e es ->
  (length ps < fu)%nat ->
  exists m', overlap_assign chk fu m sid s e = Ok m' /\ written m m' sid ps (value fuel m e).
Proof.
  intros Hv Hi N K Hf. unfold overlap_assign. destruct (eval_expr_spec chk fuel m e es K) as [vs [E [L Hvs]]].
  destruct (eval_expr chk m e) as [[[es' vs'] lg]| | | |]; try discriminate. injection E as -> -> _. cbn [bindO].
  destruct (expr_ok_dims _ _ _ _ K) as [D1 [D2 D3]].
  assert (P0 : positions fuel (SRef 0 es) = Ok (map Z.of_nat (seq 0 (length vs)))).
  { cbn. rewrite prod_arr_small by auto. rewrite iota_seq. f_equal. f_equal. f_equal. lia. }
  assert (V0 : is_view fuel (SRef 0 es) es (map Z.of_nat (seq 0 (length vs)))).
  { split; [reflexivity|]. split; auto. rewrite map_length, seq_length. auto. }
  assert (Hsid : (sid < length m)%nat). { destruct Hi as [c [Ec _]]. apply nth_error_Some. congruence. }
  assert (Hlast : nth_error (m ++ [vs]) (length m) = Some vs). { rewrite nth_error_app2, Nat.sub_diag by lia. reflexivity. }
  assert (K0 : expr_ok fuel (m ++ [vs]) (ELeaf (length m) (SRef 0 es)) es).
  { econstructor; [exact V0|]. exists vs. split; auto. apply Forall_forall. intros p Hp. apply in_map_iff in Hp as [i [<- Hi']]. apply in_seq in Hi'. lia. }
  assert (Hi' : inside (m ++ [vs]) sid ps). { destruct Hi as [c [Ec F]]. exists c. split; auto. rewrite nth_error_app1; auto. }
  assert (Hne : no_early_write fuel sid ps (ELeaf (length m) (SRef 0 es) : expr)).
  { intros j k p Hjk Ej. cbn [reads]. rewrite P0. destruct (nth_error _ k); [|intros []]. intros [[= ? ?]|[]]. lia. }
  destruct (view_assign_spec chk fuel fu (m ++ [vs]) sid s es ps _ Hv Hi' N K0 Hne Hf) as [m' [Em [W1 [W2 [W3 W4]]]]].
  rewrite Em. cbn [bindO]. rewrite app_length in W1. cbn in W1.
  assert (Cf : forall sid' q, (sid' < length m)%nat -> cell (firstn (length m) m') sid' q = cell m' sid' q).
  { intros sid' q Hs. unfold cell. replace (nth_error (firstn (length m) m') sid') with (nth_error m' sid'); auto.
    rewrite <- (firstn_skipn (length m) m') at 1. apply nth_error_app1. rewrite firstn_length. lia. }
  assert (Ca : forall sid' q, (sid' < length m)%nat -> cell (m ++ [vs]) sid' q = cell m sid' q).
  { intros sid' q Hs. unfold cell. rewrite nth_error_app1; auto. }
  exists (firstn (length m) m'). split; auto. split; [|split; [|split]].
  - rewrite firstn_length. lia.
  - intros sid' c Ec. assert (Hs : (sid' < length m)%nat) by (apply nth_error_Some; congruence).
    destruct (W2 sid' c) as [c' [E1 E2]]; [rewrite nth_error_app1; auto|]. exists c'. split; auto.
    rewrite <- E1. rewrite <- (firstn_skipn (length m) m') at 2. symmetry. apply nth_error_app1. rewrite firstn_length. lia.
  - intros sid' p Hp D. destruct (lt_dec sid' (length m)) as [Hs|Hs].
    + rewrite Cf, W3, Ca; auto.
    + unfold cell. replace (nth_error (firstn (length m) m') sid') with (@None (list V)); [|symmetry; apply nth_error_None; rewrite firstn_length; lia].
      replace (nth_error m sid') with (@None (list V)); auto. symmetry. apply nth_error_None. lia.
  - intros k p Ek. rewrite Cf by exact Hsid. destruct (W4 k p Ek) as [W5 W6]. cbn [value] in W5, W6. rewrite P0 in W5, W6.
    assert (Hk : (k < length vs)%nat). { assert (k < length ps)%nat by (apply nth_error_Some; congruence). destruct Hv as [_ [_ [_ [_ [_ Hl]]]]]. lia. }
    assert (Hn : nth_error (map Z.of_nat (seq 0 (length vs))) k = Some (Z.of_nat k)).
    { rewrite nth_error_map. rewrite nth_error_nth' with (d := O) by (rewrite seq_length; lia). rewrite seq_nth by lia. reflexivity. }
    rewrite Hn in W5, W6. unfold cell at 1 in W5. unfold cell at 2 in W6. rewrite Hlast, Nat2Z.id in W5, W6. rewrite (Hvs k Hk) in W5, W6. auto.
Qed.

(** ** dropped expressions *)
Theorem eval_drops chk fuel m e es : expr_shaped fuel m e es -> drops e = true -> 0 < zprod es -> eval_expr chk m e = UB.
Proof.
  intros K Dr P. unfold eval_expr, materialise. destruct (build_shaped _ _ _ _ K chk []) as [x [xe [h [-> X]]]]. cbn [bindO fst snd sdim sbeg app] in *.
  destruct (shaped_dims _ _ _ _ K) as [D1 [D2 D3]]. rewrite prod_arr_small by auto. destruct (Z.to_nat (zprod es)) eqn:E; [lia|]. cbn [copy_n].
  rewrite (drops_deref _ _ _ _ _ 0 K ltac:(lia) Dr _ _ X). reflexivity.
Qed.
Theorem view_assign_drops chk fuel fu m sid s es ps e : is_view fuel s es ps -> expr_shaped fuel m e es -> drops e = true -> 0 < zprod es -> (0 < fu)%nat ->
  view_assign chk fu m sid s e = UB.
Proof.
  intros [H1 [H2 [H3 [H4 [H5 H6]]]]] K Dr P Hf. unfold view_assign, array_assign. destruct (build_shaped _ _ _ _ K chk []) as [x [xe [h [-> X]]]]. cbn [bindO fst snd sdim sbeg app] in *.
  rewrite H1, Zlist_eqb_refl, dassert_true. cbn [bindO]. destruct (positions_lwalk _ _ _ H2) as [b [en [-> Hw]]]. cbn [bindO fst snd].
  destruct fu as [|fu]; [lia|]. cbn [assign_loop]. destruct ps as [|p ps]; [cbn in H6; lia|]. inversion Hw as [|? ? d' ? He Hde Hn Hw']; subst.
  rewrite He, Hde. cbn [bindO]. destruct (shaped_next _ _ _ _ _ 0 K ltac:(lia) _ _ X) as [x' [-> _]]. cbn [bindO].
  rewrite (drops_deref _ _ _ _ _ 0 K ltac:(lia) Dr _ _ X). reflexivity.
Qed.
Theorem view_inplace_drops chk fuel fu m sid s es ps f e : is_view fuel s es ps -> expr_shaped fuel m e es -> drops e = true -> 0 < zprod es -> (0 < fu)%nat ->
  view_inplace chk fu m sid s f e = UB.
Proof.
  intros [H1 [H2 [H3 [H4 [H5 H6]]]]] K Dr P Hf. unfold view_inplace. destruct (build_shaped _ _ _ _ K chk []) as [x [xe [h [-> X]]]]. cbn [bindO fst snd sdim sbeg app] in *.
  rewrite H1, Zlist_eqb_refl, dassert_true. cbn [bindO]. destruct (positions_lwalk _ _ _ H2) as [b [en [-> Hw]]]. cbn [bindO fst snd].
  destruct fu as [|fu]; [lia|]. cbn [inplace_loop]. destruct ps as [|p ps]; [cbn in H6; lia|]. inversion Hw as [|? ? d' ? He Hde Hn Hw']; subst.
  rewrite He, Hde. cbn [bindO]. rewrite Hn. cbn [bindO]. destruct (shaped_next _ _ _ _ _ 0 K ltac:(lia) _ _ X) as [x' [-> _]]. cbn [bindO].
  rewrite (drops_deref _ _ _ _ _ 0 K ltac:(lia) Dr _ _ X). reflexivity.
Qed.
Theorem overlap_assign_drops chk fuel fu m sid s es e : expr_shaped fuel m e es -> drops e = true -> 0 < zprod es -> overlap_assign chk fu m sid s e = UB.
Proof. intros K Dr P. unfold overlap_assign. rewrite (eval_drops chk fuel m e es) by auto. reflexivity. Qed.

(** ** expressions kept in a variable *)
Lemma build_heap_len fuel m e es : expr_ok fuel m e es -> forall chk h x xe h', build chk e h = Ok (Src x xe es, h') ->
  length h' = (length h + operations e)%nat.
Proof.
  intros K. induction K as [sid s es ps Hv Hi | f e es K IH | f c e es K IH | f e c es K IH | f e1 e2 es K1 IH1 K2 IH2]; intros chk h x xe h' Hb; cbn in Hb |- *.
  - apply bindO_Ok_inv in Hb as [r [_ Hb]]. destruct (dims s); [|discriminate]. injection Hb as <- <- _ <-. lia.
  - destruct (build_spec _ _ _ _ K chk h) as [y [ye [h2 [E _]]]]. rewrite E in Hb. cbn in Hb. injection Hb as _ _ <-. apply IH in E. cbn. rewrite app_length, E. cbn. lia.
  - destruct (build_spec _ _ _ _ K chk h) as [y [ye [h2 [E _]]]]. rewrite E in Hb. cbn in Hb. injection Hb as _ _ <-. apply IH in E. cbn. rewrite app_length, E. cbn. lia.
  - destruct (build_spec _ _ _ _ K chk h) as [y [ye [h2 [E _]]]]. rewrite E in Hb. cbn in Hb. injection Hb as _ _ <-. apply IH in E. cbn. rewrite app_length, E. cbn. lia.
  - destruct (build_spec _ _ _ _ K1 chk h) as [y [ye [h2 [E _]]]]. rewrite E in Hb. cbn in Hb. destruct (build_spec _ _ _ _ K2 chk (h ++ h2)) as [z [ze [h3 [E2 _]]]]. rewrite E2 in Hb. cbn in Hb.
    rewrite Zlist_eqb_refl, dassert_true in Hb. cbn in Hb. injection Hb as _ _ <-. apply IH1 in E. apply IH2 in E2. rewrite app_length, E2, E. cbn. lia.
Qed.

Lemma kill_single (h : @heap V) : (length h <= 1)%nat -> kill_temporaries h = h.
Proof. destruct h as [|a [|b h]]; cbn; auto. lia. Qed.

Theorem stored_single_level chk fuel m e es : expr_ok fuel m e es -> (operations e <= 1)%nat -> eval_stored chk m e = eval_expr chk m e.
Proof.
  intros K Ho. unfold eval_stored, eval_expr. destruct (build_spec _ _ _ _ K chk []) as [x [xe [h [E _]]]]. rewrite E. cbn [bindO fst snd app].
  rewrite kill_single; auto. apply (build_heap_len _ _ _ _ K) in E. cbn in E. lia.
Qed.

(** In a heap whose first [n] objects are dead, an expression whose objects are all among them cannot be dereferenced. *)
Lemma xderef_dead fuel (h h' : @heap V) m e x xe : xat fuel h e 0 x xe -> (1 <= operations e)%nat ->
  (forall i, (i < length h)%nat -> match nth_error h' i with Some (Some _) => False | _ => True end) -> xderef h' m x = UB.
Proof.
  intros X Ho Hd.
  assert (G : forall src g (r1 : (V -> V) -> outcome (V * list (nat * Z))) r2, nth_error h src = Some (Some g) ->
     match nth_error h' src with Some (Some (F1 f)) => r1 f | Some (Some FFwd) => r2 | _ => UB end = UB).
  { intros src g r1 r2 Hg. specialize (Hd src ltac:(apply nth_error_Some; congruence)). destruct (nth_error h' src) as [[[]|]|]; tauto. }
  destruct e as [sid s|f e|f e1 e2|f c e|f e c|D e], x as [sid' i|src i|src i j], xe as [sid'' ie|src' ie|src' ie je]; cbn in X, Ho |- *; try tauto; try lia.
  - destruct X as [X _]. eapply G; eauto.
  - destruct X as [X _]. specialize (Hd src ltac:(apply nth_error_Some; congruence)). destruct (nth_error h' src) as [[[]|]|]; tauto.
  - destruct X as [X _]. eapply G; eauto.
  - destruct X as [X _]. eapply G; eauto.
  - destruct X as [X _]. eapply G; eauto.
Qed.

Lemma kill_snoc (h : @heap V) f : kill_temporaries (h ++ [f]) = map (fun _ => None) h ++ [f].
Proof.
  unfold kill_temporaries. rewrite removelast_last, last_last. destruct (h ++ [f]) eqn:E; auto. destruct h; discriminate.
Qed.

Lemma dead_prefix (h : @heap V) f i : (i < length h)%nat -> match nth_error (kill_temporaries (h ++ [f])) i with Some (Some _) => False | _ => True end.
Proof.
  intros H. rewrite kill_snoc, nth_error_app1 by (rewrite map_length; exact H). rewrite nth_error_map. destruct (nth_error h i); cbn; auto.
Qed.

Theorem stored_nested_undefined chk fuel m e es : expr_ok fuel m e es -> (2 <= operations e)%nat -> 0 < zprod es -> eval_stored chk m e = UB.
Proof.
  intros K Ho Hz. unfold eval_stored, materialise. destruct (expr_ok_dims _ _ _ _ K) as [D1 [D2 D3]].
  assert (Hn : exists n, Z.to_nat (prod_arr es) = S n). { rewrite prod_arr_small by auto. destruct (Z.to_nat (zprod es)) eqn:E; [lia|eauto]. }
  destruct Hn as [n Hn].
  assert (One : forall f0 e' es', expr_ok fuel m e' es' -> (1 <= operations e')%nat -> forall esx,
     (let* r := (let* r := build chk e' [] in Ok (mk_un (snd r) (F1 f0) (fst r) esx)) in
      let* q := copy_n (Z.to_nat (prod_arr (sdim (fst r)))) (kill_temporaries (snd r)) m (sbeg (fst r)) in Ok (sdim (fst r), fst q, snd q)) = UB \/ esx <> es).
  { intros f0 e' es' K' Ho' esx. destruct (list_eq_dec Z.eq_dec esx es) as [->|]; auto. left.
    destruct (build_spec _ _ _ _ K' chk []) as [x [xe [h [-> X]]]]. cbn [bindO fst snd mk_un sdim sbeg app] in *. rewrite Hn. cbn [copy_n xderef].
    destruct (nth_error (kill_temporaries (h ++ [Some (F1 f0)])) (length h)) as [[[f1| |]|]|] eqn:Q; try reflexivity; [|rewrite kill_snoc, nth_error_app2, map_length, Nat.sub_diag in Q by (rewrite map_length; lia); discriminate Q].
    rewrite (xderef_dead fuel h _ m e' x xe X Ho' (dead_prefix h _)). reflexivity. }
  destruct K as [sid s es ps Hv Hi | f e es K | f c e es K | f e c es K | f e1 e2 es K1 K2]; cbn [operations] in Ho; cbn [build].
  - lia.
  - destruct (One f e es K ltac:(lia) es) as [E|E]; [|congruence].
    destruct (build_spec _ _ _ _ K chk []) as [x [xe [h [Eb X]]]]. rewrite Eb in *. exact E.
  - destruct (One (left_operation c f) e es K ltac:(lia) es) as [E|E]; [|congruence].
    destruct (build_spec _ _ _ _ K chk []) as [x [xe [h [Eb X]]]]. rewrite Eb in *. exact E.
  - destruct (One (right_operation c f) e es K ltac:(lia) es) as [E|E]; [|congruence].
    destruct (build_spec _ _ _ _ K chk []) as [x [xe [h [Eb X]]]]. rewrite Eb in *. exact E.
  - destruct (build_spec _ _ _ _ K1 chk []) as [x [xe [h [E X]]]]. rewrite E. cbn [bindO fst snd app] in *.
    destruct (build_spec _ _ _ _ K2 chk h) as [y [ye [h2 [E2 Y]]]]. rewrite E2. cbn [bindO fst snd sdim sbeg send].
    rewrite Zlist_eqb_refl, dassert_true. cbn [bindO fst snd sdim sbeg]. rewrite Hn. cbn [copy_n xderef].
    destruct (nth_error (kill_temporaries ((h ++ h2) ++ [Some (F2 f)])) (length (h ++ h2))) as [[[|f1|]|]|]; try reflexivity.
    destruct (Nat.eq_dec (operations e1) 0) as [Z1|Z1].
    + destruct e1 as [sid1 s1| | | | |]; cbn in Z1; try discriminate. inversion K1 as [sid' s' es0 ps1 Hv1 Hi1 | | | |]; subst.
      destruct (xat_deref fuel m (kill_temporaries ((h ++ h2) ++ [Some (F2 f)])) (ELeaf sid1 s1) es 0 K1 ltac:(lia) x xe) as [v [_ ->]].
      { destruct x, xe; cbn in X |- *; tauto. }
      cbn [bindO]. cbn [operations] in Ho.
      rewrite (xderef_dead fuel (h ++ h2) _ m e2 y ye Y ltac:(lia) (dead_prefix _ _)). reflexivity.
    + rewrite (xderef_dead fuel h _ m e1 x xe X ltac:(lia)); [reflexivity|]. intros i Hi. apply dead_prefix. rewrite app_length. lia.
Qed.

End ExprThms.

(** Views obtained by any history of valid subscripts satisfy [is_view], their positions lie in the owning array and
    are distinct unless an index range repeats an index. *)
Lemma sel_NoDup u e : ok_arg u e -> no_dup_arg u -> NoDup (sel u e).
Proof.
  assert (I : forall s t n, 0 < t -> NoDup (map (fun k => s + k * t) (iota n))).
  { intros s t n Ht. apply FinFun.Injective_map_NoDup; [|apply iota_NoDup]. intros a b H. nia. }
  assert (I1 : forall s n, NoDup (map (fun k => s + k) (iota n))).
  { intros s n. apply FinFun.Injective_map_NoDup; [|apply iota_NoDup]. intros a b H. lia. }
  destruct u; cbn; intros H D; auto.
  - constructor; [intros []|constructor].
  - apply I. lia.
  - apply iota_NoDup.
  - apply NoDup_filter, I1.
  - apply NoDup_filter, I. lia.
Qed.

Lemma sels_NoDup us es : Forall2 ok_arg us es -> Forall no_dup_arg us -> Forall (@NoDup Z) (sels us es).
Proof. intros H. induction H; intros D; cbn; constructor; inversion D; subst; auto. apply sel_NoDup; auto. Qed.

Lemma aview_at_inj shape ps ix iy : NoDup ps -> Z.of_nat (length ps) = zprod shape -> in_range shape ix -> in_range shape iy ->
  aview_at (shape, ps) ix = aview_at (shape, ps) iy -> ix = iy.
Proof.
  intros N L Hx Hy E. unfold aview_at in E. cbn in E. pose proof (cm_pos_range _ _ Hx). pose proof (cm_pos_range _ _ Hy).
  eapply cm_pos_inj; eauto. rewrite NoDup_nth in N. specialize (N (Z.to_nat (cm_pos shape ix)) (Z.to_nat (cm_pos shape iy)) ltac:(lia) ltac:(lia) E). lia.
Qed.

Lemma NoDup_map_in {A B} (f : A -> B) l : (forall x y, In x l -> In y l -> f x = f y -> x = y) -> NoDup l -> NoDup (map f l).
Proof.
  intros H N. induction N as [|a l Ha N IH]; cbn; constructor.
  - intros Hin. apply in_map_iff in Hin as [b [E Hb]]. apply Ha. rewrite (H a b); cbn; auto.
  - apply IH. intros x y Hx Hy. apply H; cbn; auto.
Qed.

Definition vgood (n : Z) (v : aview) : Prop :=
  good_shape (fst v) /\ Z.of_nat (length (snd v)) = zprod (fst v) /\ Forall (fun p => 0 <= p < n) (snd v).

Lemma aselect_vgood chk fuel s n v us : sinv s v -> (Z.to_nat (zprod (fst v)) < fuel)%nat -> (Z.to_nat (zprod (result_shape us (fst v))) < fuel)%nat ->
  ok_step v us -> loses true us = false -> Forall (fun p => 0 <= p < n) (snd v) ->
  exists s', run chk fuel s us = Ok s' /\ sinv s' (aselect v us) /\ Forall (fun p => 0 <= p < n) (snd (aselect v us)) /\
    (NoDup (snd v) -> Forall no_dup_arg us -> NoDup (snd (aselect v us))).
Proof.
  intros I Hf Hf2 [Ha [Hn HM]] He F. destruct (run_any chk fuel s v us I Ha (loses_true _ _ He)) as [A _]; [lia|intros; split; [auto|lia]|].
  destruct (A Hn) as (s1 & E & I1). exists s1. split; auto. split; auto.
  destruct (sinv_good _ _ I) as [[G1 [G2 G3]] L].
  assert (R : forall ix, In ix (cart (sels us (fst v))) -> in_range (fst v) ix).
  { intros ix. apply cart_sels_range; auto. apply (Forall_impl _ (P := fun e => e <= zprod (fst v))); [cbn; intros; lia|]. apply zprod_ge. auto. }
  rewrite <- (aview_pair v) in F. cbn [snd] in F.
  split.
  - unfold aselect. cbn [snd]. apply Forall_forall. intros p Hp. apply in_map_iff in Hp as [ix [<- Hix]]. rewrite Forall_forall in F. apply F.
    rewrite <- (aview_pair v). apply aview_at_In; auto.
  - intros N D. unfold aselect. cbn [snd]. apply NoDup_map_in; [|apply cart_NoDup, sels_NoDup; auto].
    intros x y Hx Hy. rewrite <- (aview_pair v). apply aview_at_inj; auto.
Qed.

Lemma reachable_aux chk n steps fuel : forall s v, sinv s v -> Forall (fun p => 0 <= p < n) (snd v) -> ok_steps v steps -> (steps_fuel v steps <= fuel)%nat ->
  exists s', foldO (run chk fuel) steps s = Ok s' /\ sinv s' (aselects v steps) /\ Forall (fun p => 0 <= p < n) (snd (aselects v steps)) /\
    (NoDup (snd v) -> Forall (Forall no_dup_arg) steps -> NoDup (snd (aselects v steps))).
Proof.
  induction steps as [|us steps IH]; intros s v Hs F Hok Hf.
  - exists s. repeat split; auto.
  - destruct Hok as (Hst & Het & Hok). cbn [steps_fuel] in Hf. pose proof (steps_fuel_ge (aselect v us) steps) as Hge. cbn [aselect fst] in Hge.
    destruct (aselect_vgood chk fuel s n v us Hs ltac:(lia) ltac:(lia) Hst Het F) as [s1 [E [I [F1 N1]]]].
    cbn [foldO aselects]. rewrite E, bindO_ok. destruct (IH s1 _ I F1 Hok ltac:(lia)) as [s2 [E2 [I2 [F2 N2]]]].
    exists s2. split; auto. split; auto. split; auto. intros N D. inversion D; subst. apply N2; auto.
Qed.

Lemma reachable_is_view chk es steps : good_shape es -> ok_steps (afull es) steps ->
  exists fuel0, forall fuel, (fuel0 <= fuel)%nat -> exists s shape ps, foldO (run chk fuel) steps (SRef 0 es) = Ok s /\
    aselects (afull es) steps = (shape, ps) /\ is_view fuel s shape ps /\
    Forall (fun p => 0 <= p < zprod es) ps /\ (Forall (Forall no_dup_arg) steps -> NoDup ps).
Proof.
  intros G H. exists (Nat.max (steps_fuel (afull es) steps) (S (Z.to_nat (zprod (fst (aselects (afull es) steps)))))). intros fuel Hf.
  destruct (reachable_aux chk (zprod es) steps fuel (SRef 0 es) (afull es) (sinv_full es G)) as [s [E [I [F N]]]]; auto; try lia.
  { cbn. apply Forall_forall. intros p Hp. apply in_iota in Hp. exact Hp. }
  exists s, (fst (aselects (afull es) steps)), (snd (aselects (afull es) steps)). split; auto. split; [symmetry; apply aview_pair|].
  destruct (sinv_good _ _ I) as [[G1 [G2 G3]] L]. split; [|split; auto].
  - split; [apply sinv_dims; auto|]. split; [apply sinv_positions; auto; lia|]. split; auto. split; [apply all_pos_nonneg; auto|].
    split; auto. unfold MAXSZ in G3. unfold W. lia.
  - apply N. cbn. apply iota_NoDup.
Qed.
