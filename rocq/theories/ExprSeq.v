(** * ExprSeq: assignments through views whose elements may repeat or overlap the operands, element by element.

    No hypothesis of distinct positions and none about overlap: the result is that of the assignments done one after the other, in
    column-major order, each reading the memory its predecessors left. *)

From Coq Require Import ZArith List Bool Lia Arith.
From Verif Require Import Base Spec Desc Slice SliceSpec Expr ExprSpec Lemmas DescProofs LifeProofs RunProofs ViewThms ExprProofs ExprThms.
Import ListNotations.
Open Scope Z_scope.

Section ExprSeqSpec.
Context {V : Type}.
Notation mem := (@mem V).
Notation expr := (@expr V).
Implicit Types (m : mem) (e : expr).

(** ** specification *)
(** The memory in which position [p] of storage [sid] holds [v] and everything else is as in [m]. *)
Definition set_cell m (sid : nat) (p : Z) (v : V) : mem :=
  match nth_error m sid with Some c => upd_nat m sid (upd_nat c (Z.to_nat p) v) | None => m end.

(** One write per element of [ps], in order; [g] computes the value of the [k]-th one from the memory reached so far. *)
Fixpoint in_order (sid : nat) (g : mem -> nat -> Z -> option V) (k : nat) (ps : list Z) m : option mem :=
  match ps with
  | [] => Some m
  | p :: ps' => match g m k p with Some v => in_order sid g (S k) ps' (set_cell m sid p v) | None => None end
  end.

(** The numbers, from [k] on and in increasing order, of the elements of [ps] at position [p]. *)
Fixpoint occ (k : nat) (ps : list Z) (p : Z) : list nat :=
  match ps with
  | [] => []
  | q :: ps' => if q =? p then k :: occ (S k) ps' p else occ (S k) ps' p
  end.

(** ** proofs *)
Lemma iter_S_r {A} (f : A -> A) n a : Nat.iter (S n) f a = Nat.iter n f (f a).
Proof. induction n as [|n IH]; [reflexivity|]. cbn in *. rewrite IH. reflexivity. Qed.

Lemma set_cell_store m sid ps p v : inside m sid ps -> In p ps -> store m sid p v = Ok (set_cell m sid p v).
Proof.
  intros [c [E F]] Hp. rewrite Forall_forall in F. apply F in Hp. unfold store, set_cell. rewrite E. unfold put.
  destruct ((0 <=? p) && (p <? Z.of_nat (length c))) eqn:B; [reflexivity|]. lia.
Qed.

Lemma set_cell_spec m sid ps p v : inside m sid ps -> In p ps -> same_shape m (set_cell m sid p v) /\
  cell (set_cell m sid p v) sid p = Some v /\ (forall sid' q, 0 <= q -> (sid' <> sid \/ q <> p) -> cell (set_cell m sid p v) sid' q = cell m sid' q).
Proof.
  intros Hi Hp. destruct (store_inside m sid ps p v Hi Hp) as [m' [E H]]. rewrite (set_cell_store _ _ _ _ _ Hi Hp) in E. injection E as <-. exact H.
Qed.

Lemma seq_assign_loop fuel m e es sid ps h de xe : expr_ok fuel m e es -> inside m sid ps -> Z.of_nat (length ps) = zprod es ->
  forall n k mk d x fu, (k + n = length ps)%nat -> (n < fu)%nat -> lwalk de d (skipn k ps) -> xat fuel h e k x xe -> same_shape m mk ->
  exists m' x', assign_loop fu h sid d de x mk = Ok (m', x') /\ in_order sid (fun mk k _ => value fuel mk e k) k (skipn k ps) mk = Some m' /\
    xat fuel h e (length ps) x' xe.
Proof.
  intros K Hi L. induction n as [|n IH]; intros k mk d x fu Hk Hf Hw X S1; (destruct fu as [|fu]; [lia|]); cbn [assign_loop].
  - rewrite skipn_all2 in * by lia. inversion Hw as [? He|]; subst. rewrite He. assert (k = length ps) by lia. subst k. cbn. eauto.
  - destruct (nth_error ps k) as [p|] eqn:E; [|apply nth_error_None in E; lia].
    rewrite (skipn_nth _ _ _ E) in *. inversion Hw as [|? ? d' ? He Hde Hn' Hw']; subst. rewrite He, Hde, Hn'. cbn [bindO].
    assert (K' := expr_ok_shape _ _ _ _ _ S1 K). assert (Hi' := inside_shape _ _ _ _ S1 Hi).
    destruct (xat_next _ _ _ _ _ k K' ltac:(lia) _ _ X) as [x' [-> X']]. cbn [bindO].
    destruct (xat_deref _ _ _ _ _ k K' ltac:(lia) _ _ X) as [w [Hv ->]]. cbn [bindO fst].
    rewrite (set_cell_store mk sid ps p w Hi' (nth_error_In _ _ E)). cbn [bindO in_order]. rewrite Hv.
    destruct (set_cell_spec mk sid ps p w Hi' (nth_error_In _ _ E)) as [S2 _].
    apply (IH (S k)); auto; try lia. unfold same_shape in *. congruence.
Qed.

Theorem seq_view_assign chk fuel fu m sid s es ps e : is_view fuel s es ps -> inside m sid ps -> expr_ok fuel m e es -> (length ps < fu)%nat ->
  exists m', view_assign chk fu m sid s e = Ok m' /\ in_order sid (fun mk k _ => value fuel mk e k) 0 ps m = Some m'.
Proof.
  intros [H1 [H2 [H3 [H4 [H5 H6]]]]] Hi K Hf. unfold view_assign, array_assign.
  destruct (build_spec _ _ _ _ K chk []) as [x [xe [h [-> X]]]]. cbn [bindO fst snd sdim sbeg send app] in *. rewrite H1, Zlist_eqb_refl, dassert_true. cbn [bindO].
  destruct (positions_lwalk _ _ _ H2) as [b [en [Hr Hw]]]. rewrite Hr. cbn [bindO fst snd].
  destruct (seq_assign_loop fuel m e es sid ps h en xe K Hi H6 (length ps) 0 m b x fu eq_refl Hf Hw X eq_refl) as [m' [x' [-> [U X']]]].
  cbn [bindO fst snd]. rewrite (xat_end _ _ _ _ _ _ K H6 _ _ X'), dassert_true. cbn [bindO]. exists m'. split; auto.
Qed.

Lemma seq_update_loop m sid ps de op : inside m sid ps ->
  forall n k mk d fu, (k + n = length ps)%nat -> (n < fu)%nat -> lwalk de d (skipn k ps) -> same_shape m mk ->
  exists m', update_loop fu sid d de op mk = Ok (m', skipn k ps) /\ in_order sid (fun mk _ p => lift1 op (cell mk sid p)) k (skipn k ps) mk = Some m'.
Proof.
  intros Hi. induction n as [|n IH]; intros k mk d fu Hk Hf Hw S1; (destruct fu as [|fu]; [lia|]); cbn [update_loop].
  - rewrite skipn_all2 in * by lia. inversion Hw as [? He|]; subst. rewrite He. cbn. eauto.
  - destruct (nth_error ps k) as [p|] eqn:E; [|apply nth_error_None in E; lia].
    rewrite (skipn_nth _ _ _ E) in *. inversion Hw as [|? ? d' ? He Hde Hn' Hw']; subst. rewrite He, Hde, Hn'. cbn [bindO].
    assert (Hi' := inside_shape _ _ _ _ S1 Hi).
    destruct (load_inside mk sid ps p Hi' (nth_error_In _ _ E)) as [w [-> [Hc _]]]. cbn [bindO].
    rewrite (set_cell_store mk sid ps p (op w) Hi' (nth_error_In _ _ E)). cbn [bindO in_order]. rewrite Hc. cbn [lift1].
    destruct (set_cell_spec mk sid ps p (op w) Hi' (nth_error_In _ _ E)) as [S2 _].
    destruct (IH (S k) (set_cell mk sid p (op w)) d' fu ltac:(lia) ltac:(lia) Hw') as [m2 [-> U2]]; [unfold same_shape in *; congruence|].
    cbn [bindO fst snd]. eauto.
Qed.

Theorem seq_view_update fuel fu m sid s es ps op : is_view fuel s es ps -> inside m sid ps -> (length ps < fu)%nat ->
  exists m', view_update fu m sid s op = Ok (m', ps) /\ in_order sid (fun mk _ p => lift1 op (cell mk sid p)) 0 ps m = Some m'.
Proof.
  intros [H1 [H2 [H3 [H4 [H5 H6]]]]] Hi Hf. unfold view_update.
  destruct (positions_lwalk _ _ _ H2) as [b [en [Hr Hw]]]. rewrite Hr. cbn [bindO fst snd].
  exact (seq_update_loop m sid ps en op Hi (length ps) 0 m b fu eq_refl Hf Hw eq_refl).
Qed.

Lemma seq_inplace_loop fuel m e es sid ps h de xe f : expr_ok fuel m e es -> inside m sid ps -> Z.of_nat (length ps) = zprod es ->
  forall n k mk d x fu, (k + n = length ps)%nat -> (n < fu)%nat -> lwalk de d (skipn k ps) -> xat fuel h e k x xe -> same_shape m mk ->
  exists m', inplace_loop fu h sid d de x f mk = Ok (m', skipn k ps) /\
    in_order sid (fun mk k p => lift2 f (cell mk sid p) (value fuel mk e k)) k (skipn k ps) mk = Some m'.
Proof.
  intros K Hi L. induction n as [|n IH]; intros k mk d x fu Hk Hf Hw X S1; (destruct fu as [|fu]; [lia|]); cbn [inplace_loop].
  - rewrite skipn_all2 in * by lia. inversion Hw as [? He|]; subst. rewrite He. cbn. eauto.
  - destruct (nth_error ps k) as [p|] eqn:E; [|apply nth_error_None in E; lia].
    rewrite (skipn_nth _ _ _ E) in *. inversion Hw as [|? ? d' ? He Hde Hn' Hw']; subst. rewrite He, Hde, Hn'. cbn [bindO].
    assert (K' := expr_ok_shape _ _ _ _ _ S1 K). assert (Hi' := inside_shape _ _ _ _ S1 Hi).
    destruct (xat_next _ _ _ _ _ k K' ltac:(lia) _ _ X) as [x' [-> X']]. cbn [bindO].
    destruct (xat_deref _ _ _ _ _ k K' ltac:(lia) _ _ X) as [w [Hv ->]]. cbn [bindO fst].
    destruct (load_inside mk sid ps p Hi' (nth_error_In _ _ E)) as [w0 [-> [Hc _]]]. cbn [bindO].
    rewrite (set_cell_store mk sid ps p (f w0 w) Hi' (nth_error_In _ _ E)). cbn [bindO in_order]. rewrite Hc, Hv. cbn [lift2].
    destruct (set_cell_spec mk sid ps p (f w0 w) Hi' (nth_error_In _ _ E)) as [S2 _].
    destruct (IH (S k) (set_cell mk sid p (f w0 w)) d' x' fu ltac:(lia) ltac:(lia) Hw' X') as [m2 [-> U2]]; [unfold same_shape in *; congruence|].
    cbn [bindO fst snd]. eauto.
Qed.

Theorem seq_view_inplace chk fuel fu m sid s es ps f e : is_view fuel s es ps -> inside m sid ps -> expr_ok fuel m e es -> (length ps < fu)%nat ->
  exists m', view_inplace chk fu m sid s f e = Ok (m', ps) /\
    in_order sid (fun mk k p => lift2 f (cell mk sid p) (value fuel mk e k)) 0 ps m = Some m'.
Proof.
  intros [H1 [H2 [H3 [H4 [H5 H6]]]]] Hi K Hf. unfold view_inplace.
  destruct (build_spec _ _ _ _ K chk []) as [x [xe [h [-> X]]]]. cbn [bindO fst snd sdim sbeg send app] in *. rewrite H1, Zlist_eqb_refl, dassert_true. cbn [bindO].
  destruct (positions_lwalk _ _ _ H2) as [b [en [Hr Hw]]]. rewrite Hr. cbn [bindO fst snd].
  exact (seq_inplace_loop fuel m e es sid ps h en xe f K Hi H6 (length ps) 0 m b x fu eq_refl Hf Hw X eq_refl).
Qed.

(** ** what a sequence of writes amounts to *)
Lemma in_order_ext sid g g' m0 ps0 : inside m0 sid ps0 ->
  (forall mk k p, same_shape m0 mk -> (forall sid' q, 0 <= q -> (sid' <> sid \/ ~ In q ps0) -> cell mk sid' q = cell m0 sid' q) -> In p ps0 ->
     nth_error ps0 k = Some p -> g mk k p = g' mk k p) ->
  forall ps k m, skipn k ps0 = ps -> same_shape m0 m -> (forall sid' q, 0 <= q -> (sid' <> sid \/ ~ In q ps0) -> cell m sid' q = cell m0 sid' q) ->
  in_order sid g k ps m = in_order sid g' k ps m.
Proof.
  intros Hi G. induction ps as [|p ps IH]; intros k m Hs S1 Hc; [reflexivity|]. cbn.
  assert (E : nth_error ps0 k = Some p).
  { clear -Hs. revert ps0 Hs. induction k as [|k IH]; intros [|a l] Hs; cbn in *; try discriminate; [congruence|]. apply IH. exact Hs. }
  assert (Hin := nth_error_In _ _ E). rewrite (G m k p S1 Hc Hin E). destruct (g' m k p) as [v|]; [|reflexivity].
  assert (Hi' := inside_shape _ _ _ _ S1 Hi). destruct (set_cell_spec m sid ps0 p v Hi' Hin) as [S2 [C1 C2]].
  apply IH.
  - rewrite (skipn_nth _ _ _ E) in Hs. congruence.
  - unfold same_shape in *. congruence.
  - intros sid' q Hq D. rewrite C2, Hc; auto. destruct D as [D|D]; [auto|right; intros ->; auto].
Qed.

(** Writes that combine the current value of the cell with a value fixed beforehand. *)
Lemma in_order_fold sid (f : V -> V -> V) (c : nat -> option V) ps0 : forall ps k m m', inside m sid ps0 -> incl ps ps0 ->
  in_order sid (fun mk k p => lift2 f (cell mk sid p) (c k)) k ps m = Some m' ->
  same_shape m m' /\
  (forall sid' q, 0 <= q -> (sid' <> sid \/ ~ In q ps) -> cell m' sid' q = cell m sid' q) /\
  (forall p, 0 <= p -> cell m' sid p = fold_left (fun a j => lift2 f a (c j)) (occ k ps p) (cell m sid p)).
Proof.
  induction ps as [|p ps IH]; intros k m m' Hi Hl H; cbn in H.
  - injection H as <-. split; [reflexivity|]. split; auto.
  - destruct (lift2 f (cell m sid p) (c k)) as [v|] eqn:Ev; [|discriminate].
    assert (Hp : In p ps0) by (apply Hl; left; auto).
    destruct (set_cell_spec m sid ps0 p v Hi Hp) as [S2 [C1 C2]].
    assert (Hp0 : 0 <= p). { destruct Hi as [l [_ F]]. rewrite Forall_forall in F. apply F in Hp. lia. }
    destruct (IH (S k) _ m' (inside_shape _ _ _ _ S2 Hi) ltac:(intros q Hq; apply Hl; right; auto) H) as [S3 [D1 D2]].
    split; [unfold same_shape in *; congruence|]. split.
    + intros sid' q Hq D. rewrite D1, C2; auto.
      * destruct D as [D|D]; [auto|right]. intros ->. apply D. left. auto.
      * destruct D as [D|D]; [auto|right]. intros H'. apply D. right. auto.
    + intros q Hq. rewrite D2 by auto. cbn [occ]. destruct (p =? q) eqn:B.
      * assert (p = q) by lia. subst q. cbn [fold_left]. rewrite C1, Ev. reflexivity.
      * rewrite C2; auto. right. lia.
Qed.

Lemma occ_last : forall ps k p j, nth_error ps j = Some p -> (forall i, (j < i)%nat -> nth_error ps i <> Some p) ->
  exists l, occ k ps p = l ++ [(k + j)%nat].
Proof.
  induction ps as [|q ps IH]; intros k p j E H; [destruct j; discriminate|]. destruct j as [|j]; cbn in E.
  - injection E as ->. cbn. rewrite Z.eqb_refl. exists []. rewrite Nat.add_0_r. cbn. f_equal.
    assert (N : forall ps k, (forall i, nth_error ps i <> Some p) -> occ k ps p = []).
    { clear. induction ps as [|a ps IH]; intros k H; [reflexivity|]. cbn. destruct (a =? p) eqn:B.
      - exfalso. apply (H 0%nat). cbn. f_equal. lia.
      - apply IH. intros i. exact (H (S i)). }
    apply N. intros i. exact (H (S i) ltac:(lia)).
  - destruct (IH (S k) p j E) as [l El]; [intros i Hi; exact (H (S i) ltac:(lia))|]. cbn. rewrite El.
    replace (S k + j)%nat with (k + S j)%nat by lia. destruct (q =? p); [exists (k :: l)|exists l]; reflexivity.
Qed.

Lemma occ_count : forall ps k p, length (occ k ps p) = count_occ Z.eq_dec ps p.
Proof.
  induction ps as [|q ps IH]; intros k p; [reflexivity|]. cbn. destruct (Z.eq_dec q p) as [->|D].
  - rewrite Z.eqb_refl. cbn. rewrite IH. reflexivity.
  - destruct (q =? p) eqn:B; [lia|]. apply IH.
Qed.

Lemma value_off fuel m mk e es sid ps k : expr_ok fuel m e es -> no_overlap fuel sid ps e -> (k < length ps)%nat ->
  (forall sid' q, 0 <= q -> (sid' <> sid \/ ~ In q ps) -> cell mk sid' q = cell m sid' q) -> value fuel mk e k = value fuel m e k.
Proof.
  intros K N Hk H. apply value_reads. intros sid' p Hin. apply H; [eapply reads_nonneg; eauto|].
  destruct (Nat.eq_dec sid' sid) as [->|D]; [right|left; auto]. intros Hp. eapply N; eauto.
Qed.

(** What "every cell gets the operands of all the elements that are at it, in order" says. *)
Definition accumulated (f : V -> V -> V) (c : nat -> option V) (sid : nat) (ps : list Z) m m' : Prop :=
  map (@length V) m' = map (@length V) m /\
  (forall sid' q, 0 <= q -> (sid' <> sid \/ ~ In q ps) -> cell m' sid' q = cell m sid' q) /\
  (forall p, 0 <= p -> cell m' sid p = fold_left (fun a j => lift2 f a (c j)) (occ 0 ps p) (cell m sid p)).

Theorem inplace_accumulates chk fuel fu m sid s es ps f e : is_view fuel s es ps -> inside m sid ps -> expr_ok fuel m e es ->
  no_overlap fuel sid ps e -> (length ps < fu)%nat ->
  exists m', view_inplace chk fu m sid s f e = Ok (m', ps) /\ accumulated f (value fuel m e) sid ps m m'.
Proof.
  intros Hv Hi K N Hf. destruct (seq_view_inplace chk fuel fu m sid s es ps f e Hv Hi K Hf) as [m' [E O]]. exists m'. split; auto.
  rewrite (in_order_ext sid _ (fun mk k p => lift2 f (cell mk sid p) (value fuel m e k)) m ps Hi) in O; auto; [|intros mk k p S1 C Hp Ek|reflexivity].
  - destruct (in_order_fold sid f (value fuel m e) ps ps 0 m m' Hi (incl_refl _) O) as [A [B C]]. split; [exact A|]. split; auto.
  - rewrite (value_off fuel m mk e es sid ps k K N); auto. apply nth_error_Some. congruence.
Qed.

Theorem update_accumulates fuel fu m sid s es ps op : is_view fuel s es ps -> inside m sid ps -> (length ps < fu)%nat ->
  exists m', view_update fu m sid s op = Ok (m', ps) /\ map (@length V) m' = map (@length V) m /\
    (forall sid' q, 0 <= q -> (sid' <> sid \/ ~ In q ps) -> cell m' sid' q = cell m sid' q) /\
    (forall p, 0 <= p -> cell m' sid p = Nat.iter (count_occ Z.eq_dec ps p) (lift1 op) (cell m sid p)).
Proof.
  intros Hv Hi Hf. destruct (seq_view_update fuel fu m sid s es ps op Hv Hi Hf) as [m' [E O]]. exists m'. split; auto.
  destruct ps as [|p0 ps'].
  { cbn in O. injection O as <-. split; [reflexivity|]. split; auto. }
  assert (X : exists v0 : V, True). { destruct (load_inside m sid (p0 :: ps') p0 Hi ltac:(left; auto)) as [v0 _]. exists v0; auto. }
  destruct X as [v0 _]. set (ps := p0 :: ps') in *.
  rewrite (in_order_ext sid _ (fun mk k p => lift2 (fun x _ => op x) (cell mk sid p) (Some v0)) m ps Hi) in O; auto; [|reflexivity].
  destruct (in_order_fold sid (fun x _ => op x) (fun _ => Some v0) ps ps 0 m m' Hi (incl_refl _) O) as [A [B C]]. split; [exact A|]. split; auto.
  intros p Hp. rewrite (C p Hp), <- (occ_count ps 0). generalize (occ 0 ps p), (cell m sid p). clear. intros l.
  induction l as [|j l IH]; intros a; [reflexivity|]. cbn [fold_left length]. rewrite IH, iter_S_r. reflexivity.
Qed.

(** Assignment: of the elements at one position the last one decides. *)
Definition last_write_wins (c : nat -> option V) (sid : nat) (ps : list Z) m m' : Prop :=
  map (@length V) m' = map (@length V) m /\
  (forall sid' q, 0 <= q -> (sid' <> sid \/ ~ In q ps) -> cell m' sid' q = cell m sid' q) /\
  (forall k p, nth_error ps k = Some p -> (forall j, (k < j)%nat -> nth_error ps j <> Some p) -> c k <> None /\ cell m' sid p = c k).

Lemma in_order_last sid (c : nat -> option V) ps m m' : inside m sid ps -> (forall k, (k < length ps)%nat -> c k <> None) ->
  in_order sid (fun _ k _ => c k) 0 ps m = Some m' -> last_write_wins c sid ps m m'.
Proof.
  intros Hi Hc O.
  rewrite (in_order_ext sid _ (fun mk k p => lift2 (fun _ w => w) (cell mk sid p) (c k)) m ps Hi) in O; auto; [|intros mk k p S1 C Hp Ek|reflexivity].
  - destruct (in_order_fold sid (fun _ w => w) c ps ps 0 m m' Hi (incl_refl _) O) as [A [B C]]. split; [exact A|]. split; auto.
    intros k p Ek Hlast. assert (Hk : (k < length ps)%nat) by (apply nth_error_Some; congruence). split; auto.
    destruct (load_inside m sid ps p Hi (nth_error_In _ _ Ek)) as [w [_ [Hw Hp]]]. rewrite (C p Hp).
    destruct (occ_last ps 0 p k Ek Hlast) as [l El]. rewrite El, fold_left_app, Nat.add_0_l. cbn [fold_left].
    destruct (fold_left (fun a j => lift2 (fun _ w0 => w0) a (c j)) l (cell m sid p)) as [a|] eqn:Ea.
    + unfold lift2. specialize (Hc k Hk). destruct (c k); congruence.
    + exfalso. assert (G : forall l (a : V), (forall j, In j l -> c j <> None) -> fold_left (fun a j => lift2 (fun _ w0 => w0) a (c j)) l (Some a) <> None).
      { clear. induction l as [|j l IH]; intros a H; [discriminate|]. cbn. assert (Hj := H j (or_introl eq_refl)). destruct (c j); [|congruence]. cbn. apply IH. intros i Hi. apply H. right. auto. }
      rewrite Hw in Ea. apply (G l w) in Ea; auto. intros j Hj. apply Hc.
      assert (Hj' : In j (occ 0 ps p)) by (rewrite El; apply in_or_app; auto).
      assert (G2 : forall ps k, In j (occ k ps p) -> (j < k + length ps)%nat).
      { clear. induction ps as [|q ps IH]; intros k H; [destruct H|]. cbn in H |- *. destruct (q =? p); [destruct H as [->|H]; [lia|]|]; apply IH in H; lia. }
      apply G2 in Hj'. lia.
  - destruct (load_inside mk sid ps p (inside_shape _ _ _ _ S1 Hi) Hp) as [w [_ [-> _]]]. destruct (c k); reflexivity.
Qed.

Theorem assign_last_wins chk fuel fu m sid s es ps e : is_view fuel s es ps -> inside m sid ps -> expr_ok fuel m e es ->
  no_overlap fuel sid ps e -> (length ps < fu)%nat ->
  exists m', view_assign chk fu m sid s e = Ok m' /\ last_write_wins (value fuel m e) sid ps m m'.
Proof.
  intros Hv Hi K N Hf. destruct (seq_view_assign chk fuel fu m sid s es ps e Hv Hi K Hf) as [m' [E O]]. exists m'. split; auto.
  apply in_order_last; auto.
  - intros k Hk. destruct Hv as [_ [_ [_ [_ [_ Hl]]]]]. destruct (value_some fuel m e es k K ltac:(lia)) as [v ->]. discriminate.
  - rewrite <- O. symmetry. apply (in_order_ext sid _ _ m ps Hi); auto; [|reflexivity]. intros mk k p S1 C Hp Ek.
    apply (value_off fuel m mk e es sid ps k K N); auto. apply nth_error_Some. congruence.
Qed.

Theorem fill_all fuel fu m sid s es ps v : is_view fuel s es ps -> inside m sid ps -> (length ps < fu)%nat ->
  exists m', view_fill fu m sid s v = Ok (m', ps) /\ written m m' sid ps (fun _ => Some v).
Proof.
  intros Hv Hi Hf. destruct (update_accumulates fuel fu m sid s es ps (fun _ => v) Hv Hi Hf) as [m' [E [A [B C]]]]. exists m'. split; auto.
  split; [|split; [|split]]; auto.
  - apply (f_equal (@length _)) in A. rewrite !map_length in A. exact A.
  - intros sid' c Ec. eapply same_shape_nth; eauto.
  - intros k p Ek. split; [discriminate|]. assert (Hin := nth_error_In _ _ Ek).
    destruct (load_inside m sid ps p Hi Hin) as [w [_ [Hw Hp]]]. rewrite (C p Hp), Hw.
    apply (count_occ_In Z.eq_dec) in Hin. destruct (count_occ Z.eq_dec ps p) as [|n]; [lia|]. rewrite iter_S_r. clear. change (lift1 (fun _ => v) (Some w)) with (Some v).
    induction n as [|n IH]; [reflexivity|]. change (lift1 (fun _ => v) (Nat.iter n (lift1 (fun _ => v)) (Some v)) = Some v). rewrite IH. reflexivity.
Qed.

(** [overlap(view) = e]: the same with every value taken before any write, whatever [e] reads. *)
Theorem overlap_last_wins chk fuel fu m sid s es ps e : is_view fuel s es ps -> inside m sid ps -> expr_ok fuel m e es -> (length ps < fu)%nat ->
  exists m', overlap_assign chk fu m sid s e = Ok m' /\ last_write_wins (value fuel m e) sid ps m m'.
Proof.
  intros Hv Hi K Hf. unfold overlap_assign. destruct (eval_expr_spec chk fuel m e es K) as [vs [E [L Hvs]]].
  destruct (eval_expr chk m e) as [[[es' vs'] lg]| | | |]; try discriminate. injection E as -> -> _. cbn [bindO].
  destruct (expr_ok_dims _ _ _ _ K) as [D1 [D2 D3]].
  assert (P0 : positions fuel (SRef 0 es) = Ok (map Z.of_nat (seq 0 (length vs)))).
  { cbn. rewrite prod_arr_small by auto. rewrite iota_seq. f_equal. f_equal. f_equal. lia. }
  assert (V0 : is_view fuel (SRef 0 es) es (map Z.of_nat (seq 0 (length vs)))).
  { split; [reflexivity|]. split; auto. rewrite map_length, seq_length. auto. }
  assert (Hsid : (sid < length m)%nat). { destruct Hi as [c [Ec _]]. apply nth_error_Some. congruence. }
  assert (Hlast : nth_error (m ++ [vs]) (length m) = Some vs). { rewrite nth_error_app2, Nat.sub_diag by lia. reflexivity. }
  assert (K0 : expr_ok fuel (m ++ [vs]) (ELeaf (length m) (SRef 0 es)) es).
  { econstructor; [exact V0|]. exists vs. split; auto. apply Forall_forall. intros p Hp. apply in_map_iff in Hp as [i [<- Hi']]. apply in_seq in Hi'. lia. }
  assert (Hi' : inside (m ++ [vs]) sid ps). { destruct Hi as [c [Ec F]]. exists c. split; auto. rewrite nth_error_app1; auto. }
  assert (Hne : no_overlap fuel sid ps (ELeaf (length m) (SRef 0 es) : expr)).
  { intros k p Hk Hp. cbn [reads]. rewrite P0. destruct (nth_error _ k); [|intros []]. intros [[= ? ?]|[]]. lia. }
  destruct (assign_last_wins chk fuel fu (m ++ [vs]) sid s es ps _ Hv Hi' K0 Hne Hf) as [m' [Em [W1 [W2 W3]]]].
  rewrite Em. cbn [bindO].
  assert (Hlen : length m' = S (length m)). { apply (f_equal (@length _)) in W1. rewrite !map_length, app_length in W1. cbn in W1. lia. }
  assert (Cf : forall sid' q, (sid' < length m)%nat -> cell (firstn (length m) m') sid' q = cell m' sid' q).
  { intros sid' q Hs. unfold cell. replace (nth_error (firstn (length m) m') sid') with (nth_error m' sid'); auto.
    rewrite <- (firstn_skipn (length m) m') at 1. apply nth_error_app1. rewrite firstn_length. lia. }
  assert (Ca : forall sid' q, (sid' < length m)%nat -> cell (m ++ [vs]) sid' q = cell m sid' q).
  { intros sid' q Hs. unfold cell. rewrite nth_error_app1; auto. }
  exists (firstn (length m) m'). split; auto. split; [|split].
  - rewrite <- firstn_map, W1, map_app. rewrite firstn_app, map_length, Nat.sub_diag, firstn_O, app_nil_r. rewrite <- (map_length (@length V) m) at 1. apply firstn_all.
  - intros sid' p Hp D. destruct (lt_dec sid' (length m)) as [Hs|Hs].
    + rewrite Cf, W2, Ca; auto.
    + unfold cell. replace (nth_error (firstn (length m) m') sid') with (@None (list V)); [|symmetry; apply nth_error_None; rewrite firstn_length; lia].
      replace (nth_error m sid') with (@None (list V)); auto. symmetry. apply nth_error_None. lia.
  - intros k p Ek Hl. rewrite Cf by exact Hsid. destruct (W3 k p Ek Hl) as [W5 W6]. cbn [value] in W5, W6. rewrite P0 in W5, W6.
    assert (Hk : (k < length vs)%nat). { assert (k < length ps)%nat by (apply nth_error_Some; congruence). destruct Hv as [_ [_ [_ [_ [_ Hlp]]]]]. lia. }
    assert (Hn : nth_error (map Z.of_nat (seq 0 (length vs))) k = Some (Z.of_nat k)).
    { rewrite nth_error_map. rewrite nth_error_nth' with (d := O) by (rewrite seq_length; lia). rewrite seq_nth by lia. reflexivity. }
    rewrite Hn in W5, W6. unfold cell at 1 in W5. unfold cell at 2 in W6. rewrite Hlast, Nat2Z.id in W5, W6. rewrite (Hvs k Hk) in W5, W6. auto.
Qed.

End ExprSeqSpec.
