(** * FrameProofs: dataframes — shape, name index, histories. *)

From Coq Require Import ZArith Bool Ascii String List Lia.
From Verif Require Import Base Coerce Frame FrameSpec.
Import ListNotations.
Open Scope Z_scope.
Open Scope list_scope.

Lemma text_eqb_eq a b : text_eqb a b = true <-> a = b.
Proof. unfold text_eqb. destruct (list_eq_dec ascii_dec a b); split; congruence. Qed.
Lemma text_eqb_refl a : text_eqb a a = true.
Proof. now apply text_eqb_eq. Qed.
Lemma text_eqb_neq a b : a <> b -> text_eqb a b = false.
Proof. intros H. destruct (text_eqb a b) eqn:E; [apply text_eqb_eq in E; congruence|reflexivity]. Qed.
Lemma text_dec (a b : text) : {a = b} + {a <> b}.
Proof. apply list_eq_dec, ascii_dec. Qed.
Lemma tempty_true n : tempty n = true <-> n = [].
Proof. destruct n; cbn; split; congruence. Qed.
Lemma tempty_false n : tempty n = false <-> n <> [].
Proof. destruct n; cbn; split; congruence. Qed.

Lemma find_set_same i n v : idx_find (idx_set i n v) n = Some v.
Proof.
  induction i as [|[k w] i IH]; cbn.
  - now rewrite text_eqb_refl.
  - destruct (text_eqb k n) eqn:E; cbn; rewrite E; auto.
Qed.
Lemma find_set_other i n v m : n <> m -> idx_find (idx_set i n v) m = idx_find i m.
Proof.
  intros H. induction i as [|[k w] i IH]; cbn.
  - now rewrite text_eqb_neq.
  - destruct (text_eqb k n) eqn:E; cbn.
    + apply text_eqb_eq in E. subst. now rewrite text_eqb_neq.
    + destruct (text_eqb k m); auto.
Qed.

(** ** Generic list facts *)

Lemma mapO_Ok_inv {A B} (f : A -> outcome B) l r :
  mapO f l = Ok r -> Forall2 (fun a b => f a = Ok b) l r.
Proof.
  revert r. induction l as [|a l IH]; cbn; intros r H.
  - injection H as <-. constructor.
  - destruct (f a) eqn:E; try discriminate. cbn in H.
    destruct (mapO f l) eqn:E2; try discriminate. cbn in H. injection H as <-.
    constructor; auto.
Qed.

Lemma mapO_Ok_intro {A B} (f : A -> outcome B) l r :
  Forall2 (fun a b => f a = Ok b) l r -> mapO f l = Ok r.
Proof.
  induction 1 as [|a b l r H _ IH]; cbn; [reflexivity|]. rewrite H. cbn. now rewrite IH.
Qed.

Lemma nth_error_snoc {A} (l : list A) x : nth_error (l ++ [x]) (length l) = Some x.
Proof. rewrite nth_error_app2 by lia. now rewrite Nat.sub_diag. Qed.

Lemma upd_nat_length {A} (l : list A) i v : length (upd_nat l i v) = length l.
Proof. revert i. induction l; destruct i; cbn; auto. Qed.

Lemma upd_nat_Forall {A} (P : A -> Prop) l i v : Forall P l -> P v -> Forall P (upd_nat l i v).
Proof.
  intros H Hv. revert i. induction H; destruct i; cbn; constructor; auto.
Qed.

Lemma get_Ok {A} (l : list A) i x :
  get l i = Ok x <-> 0 <= i /\ nth_error l (Z.to_nat i) = Some x.
Proof.
  unfold get. destruct ((0 <=? i) && (i <? Z.of_nat (length l))) eqn:E.
  - apply andb_true_iff in E. destruct (nth_error l (Z.to_nat i)) eqn:F; split; intros H; try discriminate.
    + injection H as <-. split; [lia|reflexivity].
    + destruct H as [_ H]. congruence.
    + destruct H. discriminate.
  - split; [discriminate|]. intros [H0 H].
    assert (Z.to_nat i < length l)%nat by (apply nth_error_Some; congruence).
    apply andb_false_iff in E. lia.
Qed.

Lemma get_nth {A} (l : list A) i x : nth_error l i = Some x -> get l (Z.of_nat i) = Ok x.
Proof. intros H. apply get_Ok. rewrite Nat2Z.id. split; [lia|assumption]. Qed.

(** ** Uniqueness of names *)

Lemma unique_nil : unique_names [].
Proof. intros i j n H. destruct i; discriminate. Qed.

Lemma unique_app a b : unique_names (a ++ b) <->
  unique_names a /\ unique_names b /\ (forall n, In n a -> In n b -> n = []).
Proof.
  split.
  - intros H. split; [|split].
    + intros i j n Hi Hj Hn. apply (H i j n); auto; rewrite nth_error_app1; auto;
        apply nth_error_Some; congruence.
    + intros i j n Hi Hj Hn.
      assert (length a + i = length a + j)%nat; [|lia].
      apply (H _ _ n); auto; rewrite nth_error_app2 by lia;
        match goal with |- nth_error _ (?x + ?y - ?x) = _ => replace (x + y - x)%nat with y by lia end; auto.
    + intros n Ha Hb. destruct (text_dec n []) as [|Hn]; auto.
      apply In_nth_error in Ha, Hb. destruct Ha as [i Hi], Hb as [j Hj].
      assert (Li : (i < length a)%nat) by (apply nth_error_Some; congruence).
      assert (i = length a + j)%nat; [|lia].
      apply (H _ _ n); auto.
      * rewrite nth_error_app1; auto.
      * rewrite nth_error_app2 by lia. now replace (length a + j - length a)%nat with j by lia.
  - intros (Ha & Hb & Hd) i j n Hi Hj Hn.
    destruct (Nat.lt_ge_cases i (length a)) as [Li|Li]; destruct (Nat.lt_ge_cases j (length a)) as [Lj|Lj].
    + rewrite nth_error_app1 in Hi, Hj by lia. eauto.
    + rewrite nth_error_app1 in Hi by lia. rewrite nth_error_app2 in Hj by lia.
      elim Hn. apply Hd; eapply nth_error_In; eauto.
    + rewrite nth_error_app1 in Hj by lia. rewrite nth_error_app2 in Hi by lia.
      elim Hn. apply Hd; eapply nth_error_In; eauto.
    + rewrite nth_error_app2 in Hi, Hj by lia.
      assert (i - length a = j - length a)%nat by eauto. lia.
Qed.

Lemma unique_one n : unique_names [n].
Proof. intros i j x Hi Hj _. destruct i as [|[|]], j as [|[|]]; cbn in *; congruence. Qed.

Lemma unique_cons n l : unique_names (n :: l) <-> (n = [] \/ ~ In n l) /\ unique_names l.
Proof.
  change (n :: l) with ([n] ++ l). rewrite unique_app. split.
  - intros (_ & H & D). split; auto. destruct (text_dec n []); auto.
    right. intros Hin. apply n0. apply D; cbn; auto.
  - intros (D & H). split; [apply unique_one|]. split; auto.
    intros m [<-|[]] Hin. tauto.
Qed.

Lemma unique_dec l : {unique_names l} + {~ unique_names l}.
Proof.
  induction l as [|n l IH].
  - left. apply unique_nil.
  - destruct IH as [IH|IH].
    + destruct (text_dec n []) as [E|E].
      * left. apply unique_cons. auto.
      * destruct (in_dec text_dec n l) as [I|I].
        -- right. rewrite unique_cons. tauto.
        -- left. apply unique_cons. auto.
    + right. rewrite unique_cons. tauto.
Qed.

(** ** The name index *)

Definition sound (es : list ncol) (ix : list (text * Z)) : Prop :=
  forall n v, idx_find ix n = Some v ->
    n <> [] /\ 0 <= v /\ exists nc, nth_error es (Z.to_nat v) = Some nc /\ nname nc = n.
Definition covers (es : list ncol) (ix : list (text * Z)) : Prop :=
  forall n, n <> [] -> In n (map nname es) -> idx_find ix n <> None.
(** Keys are names of columns. *)
Definition keys_in (es : list ncol) (ix : list (text * Z)) : Prop :=
  forall n, idx_find ix n <> None -> n <> [] /\ In n (map nname es).

Lemma sound_keys es ix : sound es ix -> keys_in es ix.
Proof.
  intros H n Hn. destruct (idx_find ix n) as [v|] eqn:E; [|congruence].
  destruct (H _ _ E) as (A & _ & nc & B & C). split; auto.
  subst. apply in_map. eapply nth_error_In; eauto.
Qed.

Lemma lookup_of d : sound (elems d) (index d) -> covers (elems d) (index d) -> lookup_ok d.
Proof.
  intros S C n. unfold at_name. split; [|split].
  - intros nc. destruct (idx_find (index d) n) as [v|] eqn:E; [|discriminate].
    intros H. apply get_Ok in H. destruct H as [_ H].
    destruct (S _ _ E) as (A & _ & nc' & B & D). rewrite B in H. injection H as ->.
    split; [eapply nth_error_In; eauto|]. auto.
  - intros Hn Hin. specialize (C n Hn Hin).
    destruct (idx_find (index d) n) as [v|] eqn:E; [|congruence].
    destruct (S _ _ E) as (_ & P & nc & B & _). exists nc. apply get_Ok. auto.
  - intros H. destruct (idx_find (index d) n) as [v|] eqn:E; [|reflexivity].
    destruct (sound_keys _ _ S n) as [A B]; [congruence|]. tauto.
Qed.

(** bind *)

Lemma bind_loop_elems es : forall d, elems (bind_loop es d) = elems d ++ es /\ rows (bind_loop es d) = rows d.
Proof.
  induction es as [|nc es IH]; intros d; cbn.
  - now rewrite app_nil_r.
  - destruct (IH (mkDf (rows d) (elems d ++ [nc])
       (if tempty (nname nc) then index d else idx_set (index d) (nname nc) (column_count d)))) as [A B].
    rewrite A, B. cbn. now rewrite <- app_assoc.
Qed.

Lemma bind_step_index es ix nc :
  sound es ix ->
  sound (es ++ [nc]) (if tempty (nname nc) then ix else idx_set ix (nname nc) (Z.of_nat (length es))).
Proof.
  intros S n v.
  assert (Old : idx_find ix n = Some v -> n <> [] /\ 0 <= v /\ exists c, nth_error (es ++ [nc]) (Z.to_nat v) = Some c /\ nname c = n).
  { intros H. destruct (S _ _ H) as (A & B & c & C & D). split; auto. split; auto. exists c. split; auto.
    rewrite nth_error_app1; auto. apply nth_error_Some. congruence. }
  destruct (tempty (nname nc)) eqn:E; [exact Old|]. intros H.
  destruct (text_dec (nname nc) n) as [<-|Hn].
  - rewrite find_set_same in H. injection H as <-. apply tempty_false in E.
    split; auto. split; [lia|]. exists nc. rewrite Nat2Z.id, nth_error_snoc. auto.
  - rewrite find_set_other in H by assumption. auto.
Qed.

Lemma bind_step_covers es ix nc v :
  covers es ix -> covers (es ++ [nc]) (if tempty (nname nc) then ix else idx_set ix (nname nc) v).
Proof.
  intros C n Hn Hin. rewrite map_app, in_app_iff in Hin. cbn in Hin.
  destruct (tempty (nname nc)) eqn:E.
  - apply tempty_true in E. destruct Hin as [Hin|[Hin|[]]]; [auto|congruence].
  - destruct (text_dec (nname nc) n) as [<-|H].
    + rewrite find_set_same. discriminate.
    + rewrite find_set_other by assumption. destruct Hin as [Hin|[Hin|[]]]; [auto|congruence].
Qed.

Lemma bind_step_keys es ix nc v :
  keys_in es ix -> keys_in (es ++ [nc]) (if tempty (nname nc) then ix else idx_set ix (nname nc) v).
Proof.
  intros C n Hn. rewrite map_app, in_app_iff. cbn.
  destruct (tempty (nname nc)) eqn:E.
  - destruct (C n Hn). auto.
  - destruct (text_dec (nname nc) n) as [<-|H].
    + apply tempty_false in E. auto.
    + rewrite find_set_other in Hn by assumption. destruct (C n Hn). auto.
Qed.

Lemma bind_loop_index es : forall d,
  (sound (elems d) (index d) -> sound (elems (bind_loop es d)) (index (bind_loop es d)))
  /\ (covers (elems d) (index d) -> covers (elems (bind_loop es d)) (index (bind_loop es d)))
  /\ (keys_in (elems d) (index d) -> keys_in (elems (bind_loop es d)) (index (bind_loop es d))).
Proof.
  induction es as [|nc es IH]; intros d; cbn [bind_loop]; [tauto|].
  specialize (IH (mkDf (rows d) (elems d ++ [nc])
       (if tempty (nname nc) then index d else idx_set (index d) (nname nc) (column_count d)))).
  cbn [elems index] in IH. destruct IH as (A & B & C).
  split; [|split]; intros H.
  - apply A. now apply bind_step_index.
  - apply B. now apply bind_step_covers.
  - apply C. now apply bind_step_keys.
Qed.

Definition clash (d other : df) : bool :=
  existsb (fun n => negb (tempty n || match idx_find (index d) n with Some _ => false | None => true end))
          (names other).

Lemma clash_true d other : clash d other = true <-> exists n, n <> [] /\ In n (names other) /\ idx_find (index d) n <> None.
Proof.
  unfold clash. rewrite existsb_exists. split.
  - intros (n & Hin & H). exists n. apply negb_true_iff, orb_false_iff in H. destruct H as [A B].
    apply tempty_false in A. repeat split; auto. destruct (idx_find (index d) n); congruence.
  - intros (n & A & B & C). exists n. split; auto. apply tempty_false in A. rewrite A. cbn.
    destruct (idx_find (index d) n); [reflexivity|congruence].
Qed.

Lemma bind_cases d other d' r : bind d other = (d', r) ->
  (r = Throw LogicError /\ d' = d
     /\ (clash d other = true \/ (elems d <> [] /\ rows d <> rows other)))
  \/ (r = Ok tt /\ clash d other = false /\ (elems d <> [] -> rows d = rows other)
      /\ d' = bind_loop (elems other) (mkDf (rows other) (elems d) (index d))).
Proof.
  unfold bind. fold (clash d other). destruct (clash d other) eqn:E.
  - intros H. injection H as <- <-. left. auto.
  - destruct (df_bool d) eqn:F.
    + assert (N : elems d <> []) by (destruct (elems d) eqn:G; [unfold df_bool, column_count in F; rewrite G in F; discriminate|discriminate]).
      destruct (rows d =? rows other) eqn:G; intros H; injection H as <- <-.
      * right. apply Z.eqb_eq in G. repeat split; auto. rewrite <- G. now destruct d.
      * left. apply Z.eqb_neq in G. auto.
    + intros H. injection H as <- <-. right.
      assert (N : elems d = []) by (destruct (elems d) eqn:G; [reflexivity|unfold df_bool, column_count in F; rewrite G in F; cbn in F; lia]).
      repeat split; auto. intros X. congruence.
Qed.

Lemma bind_Ok_elems d other d' : bind d other = (d', Ok tt) ->
  elems d' = elems d ++ elems other /\ rows d' = rows other /\ clash d other = false.
Proof.
  intros H. apply bind_cases in H. destruct H as [[H _]|(_ & C & R & ->)]; [discriminate|].
  destruct (bind_loop_elems (elems other) (mkDf (rows other) (elems d) (index d))) as [A B].
  rewrite A, B. auto.
Qed.

Lemma bind_rect d other d' r : rect d -> rect other -> bind d other = (d', r) -> rect d'.
Proof.
  intros Rd Ro H. apply bind_cases in H. destruct H as [(_ & -> & _)|(_ & _ & R & ->)]; [assumption|].
  unfold rect.
  destruct (bind_loop_elems (elems other) (mkDf (rows other) (elems d) (index d))) as [A B].
  rewrite A, B. cbn. apply Forall_app. split; [|exact Ro].
  destruct (elems d) eqn:E; [constructor|]. rewrite <- E in *. rewrite <- R by (rewrite E; discriminate). exact Rd.
Qed.

Lemma bind_index d other d' r : bind d other = (d', r) ->
  (sound (elems d) (index d) -> sound (elems d') (index d'))
  /\ (covers (elems d) (index d) -> covers (elems d') (index d'))
  /\ (keys_in (elems d) (index d) -> keys_in (elems d') (index d')).
Proof.
  intros H. apply bind_cases in H. destruct H as [(_ & -> & _)|(_ & _ & _ & ->)]; [tauto|].
  apply (bind_loop_index (elems other) (mkDf (rows other) (elems d) (index d))).
Qed.

Lemma bind_unique d other d' r :
  covers (elems d) (index d) -> unique_names (names d) -> unique_names (names other) ->
  bind d other = (d', r) -> unique_names (names d').
Proof.
  intros C Ud Uo H. pose proof H as H0. apply bind_cases in H. destruct H as [(_ & -> & _)|(-> & Cl & _ & _)]; [assumption|].
  apply bind_Ok_elems in H0. destruct H0 as (E & _ & _). unfold names in *. rewrite E, map_app.
  apply unique_app. split; auto. split; auto. intros n Hd Ho.
  destruct (text_dec n []) as [|N]; auto. exfalso.
  assert (clash d other = true); [|congruence]. apply clash_true. exists n. auto.
Qed.

(** ** The range constructor *)

Lemma push_all_Ok rc els : forall acc es,
  push_all rc acc els = Ok (es, true) ->
  exists l, es = acc ++ l /\ Forall2 (fun o nc => o = Ok nc) els l
            /\ Forall (fun nc => col_size (ncolumn nc) = rc) l.
Proof.
  induction els as [|o els IH]; intros acc es H; cbn in H.
  - injection H as <-. exists []. rewrite app_nil_r. auto.
  - destruct o as [nc| | | |]; try discriminate. cbn in H.
    destruct (col_size (ncolumn nc) =? rc) eqn:E; [|discriminate].
    apply IH in H. destruct H as (l & -> & A & B). exists (nc :: l).
    rewrite <- app_assoc. cbn. apply Z.eqb_eq in E. repeat split; constructor; auto.
Qed.

Lemma push_all_intro rc l : forall acc,
  Forall (fun nc => col_size (ncolumn nc) = rc) l ->
  push_all rc acc (map Ok l) = Ok (acc ++ l, true).
Proof.
  induction l as [|nc l IH]; intros acc H; cbn.
  - now rewrite app_nil_r.
  - inversion H; subst. rewrite Z.eqb_refl, IH by assumption. now rewrite <- app_assoc.
Qed.

Lemma push_all_mismatch rc l : forall acc,
  ~ Forall (fun nc => col_size (ncolumn nc) = rc) l ->
  exists es, push_all rc acc (map Ok l) = Ok (es, false).
Proof.
  induction l as [|nc l IH]; intros acc H; cbn.
  - elim H. constructor.
  - destruct (col_size (ncolumn nc) =? rc) eqn:E; [|eauto].
    apply IH. intros F. apply H. constructor; [lia|assumption].
Qed.

Lemma build_index_Ok es : forall i ix r,
  build_index es i ix = Ok r ->
  unique_names (map nname es)
  /\ (forall n, n <> [] -> In n (map nname es) -> idx_find ix n = None /\ idx_find r n <> None)
  /\ (forall n, ~ In n (map nname es) \/ n = [] -> idx_find r n = idx_find ix n).
Proof.
  induction es as [|nc es IH]; intros i ix r H; cbn in H.
  - injection H as <-. split; [apply unique_nil|]. cbn. tauto.
  - destruct (tempty (nname nc)) eqn:E.
    + apply tempty_true in E. apply IH in H. destruct H as (A & B & C). cbn [map].
      split; [apply unique_cons; auto|]. split.
      * intros n Hn [Hin|Hin]; [congruence|]. auto.
      * intros n Hn. apply C. cbn in Hn. tauto.
    + apply tempty_false in E. destruct (idx_find ix (nname nc)) eqn:F; [discriminate|].
      apply IH in H. destruct H as (A & B & C). cbn [map].
      assert (D : ~ In (nname nc) (map nname es)).
      { intros Hin. destruct (B _ E Hin) as [G _]. rewrite find_set_same in G. discriminate. }
      split; [apply unique_cons; auto|]. split.
      * intros n Hn [<-|Hin].
        -- split; auto. rewrite C by auto. rewrite find_set_same. discriminate.
        -- destruct (B n Hn Hin) as [G1 G2]. split; auto.
           rewrite find_set_other in G1 by (intros <-; tauto). assumption.
      * intros n Hn. cbn [In] in Hn. rewrite C by tauto.
        apply find_set_other. intros <-. tauto.
Qed.

Lemma build_index_total es : forall i ix,
  (unique_names (map nname es) /\ (forall n, n <> [] -> In n (map nname es) -> idx_find ix n = None)) ->
  exists r, build_index es i ix = Ok r.
Proof.
  induction es as [|nc es IH]; intros i ix [U N]; cbn; [eauto|].
  cbn [map] in U. apply unique_cons in U. destruct U as [D U].
  destruct (tempty (nname nc)) eqn:E.
  - apply IH. split; auto. intros n Hn Hin. apply N; cbn; auto.
  - apply tempty_false in E. rewrite (N (nname nc) E) by (cbn; auto).
    apply IH. split; auto. intros n Hn Hin. rewrite find_set_other by (intros <-; tauto).
    apply N; cbn; auto.
Qed.

Lemma build_index_throw es i ix r :
  build_index es i ix = r -> (exists x, r = Ok x) \/ r = Throw LogicError.
Proof.
  revert i ix. induction es as [|nc es IH]; intros i ix H; cbn in H; [eauto|].
  destruct (tempty (nname nc)); [eauto|].
  destruct (idx_find ix (nname nc)); eauto.
Qed.

(** Positions stored by the index loop, when named columns come first. *)
Lemma build_index_sound es : forall pre ix r,
  named_first (map nname es) ->
  sound pre ix -> build_index es (Z.of_nat (length pre)) ix = Ok r -> sound (pre ++ es) r.
Proof.
  induction es as [|nc es IH]; intros pre ix r N S H; cbn in H.
  - injection H as <-. now rewrite app_nil_r.
  - destruct (tempty (nname nc)) eqn:E.
    + apply tempty_true in E.
      assert (All : Forall (fun n => n = []) (map nname (nc :: es))).
      { destruct N as (a & b & Eq & Fa & Fb). destruct a as [|x a]; cbn [map app] in *.
        - subst b. exact Fb.
        - injection Eq as Hx Eq. rewrite Forall_cons_iff in Fa. destruct Fa as [Fx _]. congruence. }
      cbn [map] in All. apply Forall_inv_tail in All.
      assert (r = ix) as ->.
      { clear - All H. revert H All. generalize (Z.of_nat (length pre)). induction es as [|c es IH]; intros z H All; cbn in H.
        - congruence.
        - cbn [map] in All. inversion All; subst. rewrite H2 in H. cbn in H. eauto. }
      intros n v F. destruct (S _ _ F) as (A & B & c & C & D). split; auto. split; auto. exists c. split; auto.
      rewrite nth_error_app1; auto. apply nth_error_Some. congruence.
    + destruct (idx_find ix (nname nc)) eqn:F; [discriminate|].
      replace (pre ++ nc :: es) with ((pre ++ [nc]) ++ es) by (now rewrite <- app_assoc).
      apply (IH (pre ++ [nc]) (idx_set ix (nname nc) (Z.of_nat (length pre)))).
      * destruct N as (a & b & Eq & Fa & Fb). destruct a as [|x a]; cbn [map app] in *.
        -- subst b. apply tempty_false in E. rewrite Forall_cons_iff in Fb. destruct Fb as [Fx _]. congruence.
        -- injection Eq as Hx Eq. exists a, b. rewrite Forall_cons_iff in Fa. tauto.
      * pose proof (bind_step_index pre ix nc S) as B. rewrite E in B. exact B.
      * rewrite app_length. cbn [length]. rewrite Nat2Z.inj_add. exact H.
Qed.

Lemma sound_nil : sound [] [].
Proof. intros n v H. discriminate. Qed.

Lemma ctor_from_Ok els d : ctor_from els = Ok d ->
  Forall2 (fun o nc => o = Ok nc) els (elems d)
  /\ rect d /\ unique_names (names d) /\ covers (elems d) (index d) /\ keys_in (elems d) (index d)
  /\ elems d <> []
  /\ (named_first (names d) -> sound (elems d) (index d))
  /\ build_index (elems d) 0 [] = Ok (index d).
Proof.
  destruct els as [|o els]; [discriminate|]. cbn.
  destruct o as [nc| | | |]; try discriminate. cbn.
  destruct (push_all _ _ _) as [[es ok]| | | |] eqn:E; try discriminate. cbn.
  destruct ok; [|discriminate].
  destruct (build_index es 0 []) as [ix| | | |] eqn:B; try discriminate. cbn.
  intros H. injection H as <-. cbn [elems rows index].
  apply push_all_Ok in E. destruct E as (l & -> & F & R). cbn [app] in *.
  pose proof (build_index_Ok _ _ _ _ B) as (U & C & K).
  split; [constructor; auto|]. split; [constructor; auto|]. split; [exact U|].
  split; [|split; [|split; [discriminate|split; [|exact B]]]].
  - intros n Hn Hin. destruct (C n Hn Hin). assumption.
  - intros n Hn. destruct (in_dec text_dec n (map nname (nc :: l))) as [I|I].
    + split; auto. intros ->. rewrite K in Hn by auto. apply Hn. reflexivity.
    + rewrite K in Hn by auto. cbn in Hn. congruence.
  - intros N. apply (build_index_sound (nc :: l) [] [] ix N sound_nil B).
Qed.

(** Positions stored by the index loop are ranks among the named columns, so a named column after
    an unnamed one is looked up at too small a position. *)
Lemma build_index_low es : forall i ix r n p,
  0 <= i ->
  build_index es i ix = Ok r -> n <> [] -> In n (map nname es) -> idx_find r n = Some p ->
  i <= p < i + Z.of_nat (length es).
Proof.
  induction es as [|nc es IH]; intros i ix r n p Hi H Hn Hin F; [destruct Hin|].
  cbn in H. cbn [length]. cbn [map In] in Hin.
  destruct (tempty (nname nc)) eqn:E.
  - apply tempty_true in E. destruct Hin as [Hin|Hin]; [congruence|].
    pose proof (IH _ _ _ _ _ Hi H Hn Hin F). lia.
  - destruct (idx_find ix (nname nc)) eqn:G; [discriminate|].
    destruct (in_dec text_dec n (map nname es)) as [I|I].
    + pose proof (IH (i + 1) _ _ _ _ ltac:(lia) H Hn I F). lia.
    + destruct Hin as [Hin|Hin]; [|tauto]. subst n.
      apply build_index_Ok in H. destruct H as (_ & _ & K). rewrite K in F by auto.
      rewrite find_set_same in F. injection F as <-. lia.
Qed.

Definition named_count (l : list text) : nat := length (filter (fun n => negb (tempty n)) l).

Lemma build_index_rank es1 nc es2 : forall i ix r,
  build_index (es1 ++ nc :: es2) i ix = Ok r -> nname nc <> [] ->
  idx_find r (nname nc) = Some (i + Z.of_nat (named_count (map nname es1))).
Proof.
  induction es1 as [|c es1 IH]; intros i ix r H N; cbn [app build_index] in H.
  - pose proof N as N'. apply tempty_false in N'. rewrite N' in H.
    destruct (idx_find ix (nname nc)) eqn:G; [discriminate|].
    assert (D : ~ In (nname nc) (map nname es2)).
    { intros Hin. apply build_index_Ok in H. destruct H as (_ & B & _).
      destruct (B _ N Hin) as [X _]. rewrite find_set_same in X. discriminate. }
    apply build_index_Ok in H. destruct H as (_ & _ & K). rewrite K by auto.
    rewrite find_set_same. cbn. f_equal. lia.
  - unfold named_count. cbn [map filter]. destruct (tempty (nname c)) eqn:E; cbn [negb].
    + apply (IH _ _ _ H N).
    + destruct (idx_find ix (nname c)); [discriminate|].
      rewrite (IH _ _ _ H N). unfold named_count. cbn [length]. f_equal. lia.
Qed.

Lemma filter_len {A} (f : A -> bool) l : (length (filter f l) <= length l)%nat.
Proof. induction l as [|a l IH]; cbn; [lia|]. destruct (f a); cbn; lia. Qed.

Lemma named_count_lt l : In [] l -> (named_count l < length l)%nat.
Proof.
  unfold named_count. induction l as [|n l IH]; intros H; [destruct H|].
  cbn [filter length]. destruct (tempty n) eqn:E; cbn [negb length].
  - apply Nat.lt_succ_r, filter_len.
  - destruct H as [->|H]; [discriminate|]. specialize (IH H). lia.
Qed.

Lemma not_named_first l : ~ named_first l -> exists a n b, l = a ++ n :: b /\ n <> [] /\ In [] a.
Proof.
  induction l as [|x l IH]; intros H.
  - elim H. exists [], []. auto.
  - destruct (text_dec x []) as [->|N].
    + assert (D : {Forall (fun n => n = []) l} + {~ Forall (fun n => n = []) l})
        by (apply Forall_dec; intros; apply text_dec).
      destruct D as [D|D].
      * elim H. exists [], ([] :: l). auto.
      * assert (E : Exists (fun n => n <> []) l).
        { apply neg_Forall_Exists_neg; auto. intros; apply text_dec. }
        apply Exists_exists in E. destruct E as (n & Hin & Hn).
        apply in_split in Hin. destruct Hin as (a & b & ->).
        exists ([] :: a), n, b. cbn. auto.
    + destruct IH as (a & n & b & -> & Hn & Ha).
      * intros (a & b & -> & Fa & Fb). apply H. exists (x :: a), b. auto.
      * exists (x :: a), n, b. cbn. auto.
Qed.

Lemma ctor_lookup_named_first els d : ctor_from els = Ok d -> lookup_ok d -> named_first (names d).
Proof.
  intros H L. apply ctor_from_Ok in H. destruct H as (_ & _ & U & _ & _ & _ & _ & B).
  assert (D : {named_first (names d)} + {~ named_first (names d)}).
  { clear. generalize (names d) as l. induction l as [|x l IH].
    - left. exists [], []. auto.
    - destruct (text_dec x []) as [->|N].
      + destruct (Forall_dec (fun n : text => n = []) (fun n => text_dec n []) l) as [F|F].
        * left. exists [], ([] :: l). auto.
        * right. intros (a & b & Eq & Fa & Fb). destruct a as [|y a]; cbn in Eq.
          -- subst b. apply Forall_inv_tail in Fb. auto.
          -- injection Eq as <- Eq. rewrite Forall_cons_iff in Fa. tauto.
      + destruct IH as [IH|IH].
        * left. destruct IH as (a & b & -> & Fa & Fb). exists (x :: a), b. auto.
        * right. intros (a & b & Eq & Fa & Fb). destruct a as [|y a]; cbn in Eq.
          -- subst b. rewrite Forall_cons_iff in Fb. tauto.
          -- injection Eq as <- Eq. apply IH. exists a, b. rewrite Forall_cons_iff in Fa. tauto. }
  destruct D as [D|D]; [assumption|exfalso].
  apply not_named_first in D. destruct D as (a & n & b & Eq & Hn & Ha).
  unfold names in Eq.
  assert (X : exists es1 nc es2, elems d = es1 ++ nc :: es2 /\ map nname es1 = a /\ nname nc = n).
  { apply map_eq_app in Eq. destruct Eq as (es1 & es & -> & E1 & E2).
    destruct es as [|nc es2]; [discriminate|]. cbn in E2. injection E2 as E2 _. eauto 6. }
  destruct X as (es1 & nc & es2 & Ee & E1 & E2).
  assert (Hin : In n (names d)) by (unfold names; rewrite Eq; apply in_elt).
  destruct (L n) as (L1 & L2 & _). destruct (L2 Hn Hin) as [nc' R].
  destruct (L1 _ R) as (_ & N' & _).
  unfold at_name in R. rewrite Ee in B.
  rewrite <- E2 in Hn. pose proof (build_index_rank _ _ _ _ _ _ B Hn) as F. rewrite E2, E1 in F.
  rewrite F in R. apply get_Ok in R. destruct R as [_ R].
  assert (Lt : (named_count a < length a)%nat) by (apply named_count_lt; assumption).
  replace (Z.to_nat (0 + Z.of_nat (named_count a))) with (named_count a) in R by lia.
  assert (named_count a = length a); [|lia].
  apply (U _ _ n).
  - unfold names. rewrite nth_error_map, R. cbn. congruence.
  - unfold names. rewrite Eq. rewrite nth_error_app2 by lia. now rewrite Nat.sub_diag.
  - congruence.
Qed.

(** ** Copies *)

Lemma ncol_copy_Ok nc c : ncol_copy nc = Ok c -> c = nc /\ ncolumn nc <> None.
Proof.
  unfold ncol_copy, col_copy. destruct nc as [n [m|]]; cbn; [|discriminate].
  intros H. injection H as <-. split; [reflexivity|discriminate].
Qed.

Lemma mapO_copy l r : mapO ncol_copy l = Ok r -> r = l /\ Forall (fun nc => ncolumn nc <> None) l.
Proof.
  intros H. apply mapO_Ok_inv in H. induction H as [|a b l r H _ IH]; [auto|].
  apply ncol_copy_Ok in H. destruct H as [-> N]. destruct IH as [-> F]. auto.
Qed.

Lemma mapO_copy_intro l : Forall (fun nc => ncolumn nc <> None) l -> mapO ncol_copy l = Ok l.
Proof.
  induction 1 as [|nc l H _ IH]; cbn; [reflexivity|].
  destruct nc as [n [m|]]; cbn in *; [|congruence]. now rewrite IH.
Qed.

Lemma df_copy_Ok d d' : df_copy d = Ok d' -> d' = d /\ Forall (fun nc => ncolumn nc <> None) (elems d).
Proof.
  unfold df_copy. destruct (mapO ncol_copy (elems d)) eqn:E; try discriminate.
  cbn. intros H. injection H as <-. apply mapO_copy in E. destruct E as [-> F]. now destruct d.
Qed.

Lemma df_copy_intro d : Forall (fun nc => ncolumn nc <> None) (elems d) -> df_copy d = Ok d.
Proof. intros H. unfold df_copy. rewrite mapO_copy_intro by assumption. now destruct d. Qed.

Lemma df_assign_Ok cap dst src d : df_assign cap dst src = Ok d -> d = src.
Proof.
  unfold df_assign. set (k := if Nat.ltb cap _ then _ else _). unfold col_assign.
  destruct (mapO ncol_copy (skipn k (elems src))) eqn:E; try discriminate.
  cbn. intros H. injection H as <-. apply mapO_copy in E. destruct E as [-> F].
  replace (map (fun nc => mkN (nname nc) (ncolumn nc)) (firstn k (elems src))) with (firstn k (elems src)).
  - rewrite firstn_skipn. now destruct src.
  - rewrite <- (map_id (firstn k (elems src))) at 1. apply map_ext. now intros [].
Qed.

Lemma Forall2_Ok_map {A} (els : list (outcome A)) l : Forall2 (fun o x => o = Ok x) els l -> els = map Ok l.
Proof. induction 1; cbn; congruence. Qed.

Lemma ctor_range_Ok l d : ctor_range l = Ok d -> elems d = l.
Proof.
  unfold ctor_range. intros H. apply ctor_from_Ok in H. destruct H as (F & _).
  assert (G : forall a b, Forall2 (fun o nc => o = Ok nc) (map ncol_copy a) b -> b = a).
  { induction a as [|x a IH]; intros b H; inversion H; subst; [reflexivity|].
    apply ncol_copy_Ok in H2. destruct H2 as [-> _]. f_equal. auto. }
  auto.
Qed.

(** ** Single-column dataframes and sequences of binds *)

Lemma ctor_named_rect nc : rect (ctor_named nc).
Proof. repeat constructor. Qed.

Lemma ctor_column_Ok c d : ctor_column c = Ok d ->
  rect d /\ elems d = [mkN [] c] /\ index d = [].
Proof.
  unfold ctor_column, col_copy. destruct c as [m|]; cbn; [|discriminate].
  intros H. injection H as <-. split; [|auto]. constructor; [reflexivity|constructor].
Qed.

Record good (d : df) : Prop := {
  g_rect : rect d;
  g_sound : sound (elems d) (index d);
  g_covers : covers (elems d) (index d);
  g_unique : unique_names (names d) }.

Lemma good_default : good df_default.
Proof. split; cbn; [constructor|apply sound_nil|intros n _ []|apply unique_nil]. Qed.

Lemma good_lookup d : good d -> lookup_ok d.
Proof. intros []. now apply lookup_of. Qed.

Lemma bind_good d other d' r : good d -> rect other -> unique_names (names other) ->
  bind d other = (d', r) -> good d'.
Proof.
  intros [A B C D] R U H. pose proof (bind_index _ _ _ _ H) as (X & Y & _). split; auto.
  - exact (bind_rect _ _ _ _ A R H).
  - exact (bind_unique _ _ _ _ C D U H).
Qed.

Lemma bind_columns_spec cols : forall d,
  good d ->
  (forall d', bind_columns cols d = Ok d' -> good d' /\ elems d' = elems d ++ cols
      /\ (elems d ++ cols <> [] -> exists rc, rows d' = rc /\ Forall (fun nc => col_size (ncolumn nc) = rc) (elems d ++ cols)))
  /\ (forall rc, (elems d <> [] -> rows d = rc) -> Forall (fun nc => col_size (ncolumn nc) = rc) cols ->
        unique_names (names d ++ map nname cols) -> exists d', bind_columns cols d = Ok d')
  /\ (~ unique_names (names d ++ map nname cols) -> bind_columns cols d = Throw LogicError
       \/ exists x, bind_columns cols d = Throw x).
Proof.
  induction cols as [|c cols IH]; intros d G.
  - cbn. rewrite !app_nil_r. split; [|split].
    + intros d' H. injection H as <-. split; auto. split; auto.
      intros _. exists (rows d). split; auto. apply (g_rect _ G).
    + eauto.
    + intros N. elim N. apply (g_unique _ G).
  - cbn [bind_columns]. destruct (bind d (ctor_named c)) as [d1 o] eqn:E.
    assert (G1 : good d1).
    { eapply bind_good; eauto. - apply ctor_named_rect. - apply unique_one. }
    pose proof E as E'. apply bind_cases in E'.
    destruct E' as [(-> & -> & Why)|(-> & Cl & R & Ed)].
    + cbn. split; [discriminate|]. split; [|auto].
      intros rc Hrc Hall U. exfalso. destruct Why as [Cl|[Ne Rn]].
      * apply clash_true in Cl. destruct Cl as (n & Hn & Hin & F). cbn in Hin. destruct Hin as [<-|[]].
        destruct (sound_keys _ _ (g_sound _ G) _ F) as [_ K].
        apply unique_app in U. destruct U as (_ & _ & D). apply Hn, D; cbn; auto.
      * apply Rn. rewrite (Hrc Ne). rewrite Forall_cons_iff in Hall. cbn. symmetry. tauto.
    + cbn [bindO]. apply bind_Ok_elems in E. destruct E as (E1 & E2 & _). cbn in E1.
      destruct (IH d1 G1) as (A & B & C).
      assert (Ee : elems d1 ++ cols = elems d ++ c :: cols) by (rewrite E1, <- app_assoc; reflexivity).
      assert (En : names d1 ++ map nname cols = names d ++ map nname (c :: cols)).
      { unfold names. rewrite <- !map_app. now rewrite Ee. }
      rewrite Ee in A. rewrite En in B, C. split; [|split].
      * exact A.
      * intros rc Hrc Hall U. apply (B rc); auto.
        -- intros _. rewrite E2. rewrite Forall_cons_iff in Hall. cbn. tauto.
        -- rewrite Forall_cons_iff in Hall. tauto.
      * exact C.
Qed.

Lemma bind_columns_throw cols : forall d x, bind_columns cols d = Throw x -> x = LogicError.
Proof.
  induction cols as [|c cols IH]; intros d x H; cbn in H; [discriminate|].
  destruct (bind d (ctor_named c)) as [d1 o] eqn:E. apply bind_cases in E.
  destruct E as [(-> & _)|(-> & _)]; cbn in H; [congruence|]. eauto.
Qed.

Lemma bind_columns_outcome cols : forall d, (exists d', bind_columns cols d = Ok d') \/ bind_columns cols d = Throw LogicError.
Proof.
  induction cols as [|c cols IH]; intros d; cbn; [eauto|].
  destruct (bind d (ctor_named c)) as [d1 o] eqn:E. apply bind_cases in E.
  destruct E as [(-> & _)|(-> & _)]; cbn; auto.
Qed.

Lemma read_lines_outcome csep ls : forall data nc last,
  (exists x, read_lines csep ls data nc last = Ok x) \/ read_lines csep ls data nc last = Throw LogicError.
Proof.
  induction ls as [|l ls IH]; intros; cbn; [eauto|].
  destruct (tempty l); [apply IH|]. destruct (_ || _); [apply IH|auto].
Qed.

Lemma read_good h lsep csep t d : read h lsep csep t = Ok d -> good d.
Proof.
  unfold read. destruct (read_lines _ _ _ _ _) as [[data nc]| | | |]; try discriminate. cbn.
  destruct (nc =? 0).
  - intros H. injection H as <-. apply good_default.
  - destruct (h && _); intros H;
      match type of H with bind_columns ?c _ = _ =>
        destruct (bind_columns_spec c df_default good_default) as (A & _) end; apply A; exact H.
Qed.

(** ** head *)

Lemma head_Ok n d d' : head n d = Ok d' ->
  exists els, ctor_from els = Ok d' /\ length els = length (elems d)
    /\ Forall2 (fun nc nc' => nname nc' = nname nc /\ col_partial (ncolumn nc) 0 n = Ok (ncolumn nc')) (elems d) (elems d').
Proof.
  unfold head. destruct (rows d <? n); [discriminate|].
  set (els := map _ (elems d)). destruct (ctor_from els) as [d1| | | |] eqn:E; try discriminate. cbn.
  intros H. apply df_copy_Ok in H. destruct H as [-> _]. exists els. split; auto.
  split; [unfold els; now rewrite map_length|].
  apply ctor_from_Ok in E. destruct E as (F & _). unfold els in F. clear - F. revert F.
  generalize (elems d1) as r. induction (elems d) as [|nc l IH]; intros r F; inversion F; subst; constructor; auto.
  destruct (col_partial (ncolumn nc) 0 n) eqn:G; cbn in *; try discriminate.
  injection H1 as <-. cbn. auto.
Qed.

Lemma head_names n d d' : head n d = Ok d' -> names d' = names d.
Proof.
  intros H. apply head_Ok in H. destruct H as (_ & _ & _ & F). unfold names.
  induction F as [|a b l r [Hn _] _ IH]; cbn; congruence.
Qed.

(** ** Histories *)

Section Preserve.
Variable P Q : df -> Prop.
Hypothesis P_default : P df_default.
Hypothesis P_moved : forall d, P d -> P (mkDf (rows d) [] []).
Hypothesis P_read : forall h l s t d, read h l s t = Ok d -> P d.
Hypothesis P_Q : forall d, P d -> Q d.
Hypothesis Q_named : forall nc, Q (ctor_named nc).
Hypothesis Q_range : forall l d, ctor_range l = Ok d -> Q d.
Hypothesis P_bind : forall d other d' r, P d -> Q other -> bind d other = (d', r) -> P d'.
Hypothesis P_column : forall c d, ctor_column c = Ok d -> P d.

Lemma nth_Forall {A} (R : A -> Prop) l i x : Forall R l -> nth_error l i = Some x -> R x.
Proof. intros F H. apply nth_error_In in H. rewrite Forall_forall in F. auto. Qed.

Lemma new_inv e o e' r : new e o = (e', r) -> Forall P e -> (forall d, o = Ok d -> P d) -> Forall P e'.
Proof.
  unfold new. destruct o; intros H F Hd; injection H as <- <-; auto.
  apply Forall_app. auto.
Qed.

Lemma exec_inv c e e' r :
  (forall l d, c = CRange l -> ctor_range l = Ok d -> P d) ->
  (forall nc, c = CNamed nc -> P (ctor_named nc)) ->
  (forall n j d d', c = CHead n j -> nth_error e j = Some d -> P d -> head n d = Ok d' -> P d') ->
  exec c e = (e', r) -> Forall P e -> Forall P e'.
Proof.
  intros HR HN HH H F. destruct c; cbn [exec] in H.
  - eapply new_inv; eauto. intros d E. injection E as <-. assumption.
  - eapply new_inv; eauto.
  - eapply new_inv; eauto. intros d E. injection E as <-. eauto.
  - eapply new_inv; eauto.
  - eapply new_inv; eauto. unfold var. intros d E.
    destruct (nth_error e j) as [dj|] eqn:G; [|discriminate]. cbn in E.
    apply df_copy_Ok in E. destruct E as [-> _]. eapply nth_Forall; eauto.
  - destruct (nth_error e j) as [dj|] eqn:G; injection H as <- <-; auto.
    assert (P dj) by (eapply nth_Forall; eauto).
    apply Forall_app. split; [apply upd_nat_Forall; auto|auto].
  - destruct (nth_error e i) as [di|] eqn:Gi; [|injection H as <- <-; assumption].
    destruct (nth_error e j) as [dj|] eqn:Gj; [|injection H as <- <-; assumption].
    destruct (Nat.eqb i j); [injection H as <- <-; assumption|].
    destruct (df_assign cap di dj) eqn:E; injection H as <- <-; auto.
    apply df_assign_Ok in E. subst. apply upd_nat_Forall; auto. eapply nth_Forall; eauto.
  - destruct (nth_error e i) as [di|] eqn:Gi; [|injection H as <- <-; assumption].
    destruct (nth_error e j) as [dj|] eqn:Gj; [|injection H as <- <-; assumption].
    destruct (Nat.eqb i j); injection H as <- <-; [assumption|].
    assert (P dj) by (eapply nth_Forall; eauto).
    repeat apply upd_nat_Forall; auto.
  - destruct (eval_arg e a) as [e1 o] eqn:E.
    assert (X : Forall P e1 /\ (forall d, o = Ok d -> Q d)).
    { destruct a; cbn in E.
      - injection E as <- <-. split; auto. unfold var. intros d.
        destruct (nth_error e j) as [dj|] eqn:G; [|discriminate]. cbn. intros E.
        apply df_copy_Ok in E. destruct E as [-> _]. apply P_Q. eapply nth_Forall; eauto.
      - destruct (nth_error e j) as [dj|] eqn:G; injection E as <- <-.
        + assert (P dj) by (eapply nth_Forall; eauto). split; [apply upd_nat_Forall; auto|].
          intros d E. injection E as <-. auto.
        + split; auto. discriminate.
      - injection E as <- <-. split; auto. intros d E. injection E as <-. auto.
      - injection E as <- <-. split; auto. eauto.
      - injection E as <- <-. split; auto. eauto. }
    destruct X as [F1 Qo]. destruct o as [other| | | |]; try (injection H as <- <-; assumption).
    destruct (nth_error e1 i) as [d|] eqn:G; [|injection H as <- <-; assumption].
    destruct (bind d other) as [d' r'] eqn:B. injection H as <- <-.
    apply upd_nat_Forall; auto.
    apply (P_bind d other d' r'); [exact (nth_Forall P e1 i d F1 G)|apply Qo; reflexivity|exact B].
  - eapply new_inv; eauto.
  - destruct (nth_error e i) as [di|] eqn:G; [|injection H as <- <-; assumption].
    destruct (read true is_nl is_tab t) eqn:E; injection H as <- <-; auto.
    apply upd_nat_Forall; eauto.
  - eapply new_inv; eauto. unfold var. intros d E.
    destruct (nth_error e j) as [dj|] eqn:G; [|discriminate]. cbn in E.
    eapply HH; eauto. eapply nth_Forall; eauto.
Qed.
End Preserve.


Lemma reach_rect e : reach any_cmd e -> Forall rect e.
Proof.
  induction 1 as [|e c e' r _ IH _ H _]; [constructor|].
  refine (exec_inv rect rect _ _ _ _ _ _ _ _ _ _ _ _ _ _ _ H IH); intros.
  - constructor.
  - constructor.
  - exact (g_rect _ (read_good _ _ _ _ _ H0)).
  - assumption.
  - apply ctor_named_rect.
  - exact (proj1 (proj2 (ctor_from_Ok _ _ H0))).
  - exact (bind_rect _ _ _ _ H0 H1 H2).
  - exact (proj1 (ctor_column_Ok _ _ H0)).
  - exact (proj1 (proj2 (ctor_from_Ok _ _ H1))).
  - apply ctor_named_rect.
  - apply head_Ok in H3. destruct H3 as (els & C & _). exact (proj1 (proj2 (ctor_from_Ok _ _ C))).
Qed.

(** No variable is made by the single-named-column constructor. *)

Lemma reach_unique e : reach no_named e ->
  Forall (fun d => covers (elems d) (index d) /\ unique_names (names d)) e.
Proof.
  induction 1 as [|e c e' r _ IH Hok H _]; [constructor|].
  refine (exec_inv (fun d => covers (elems d) (index d) /\ unique_names (names d)) (fun d => unique_names (names d))
            _ _ _ _ _ _ _ _ _ _ _ _ _ _ _ H IH); intros; cbn beta in *.
  - split; [intros n _ []|apply unique_nil].
  - split; [intros n _ []|apply unique_nil].
  - apply read_good in H0. split; apply H0.
  - tauto.
  - apply unique_one.
  - apply ctor_from_Ok in H0. apply H0.
  - destruct H0 as [C U]. split; [exact (proj1 (proj2 (bind_index _ _ _ _ H2)) C)|exact (bind_unique _ _ _ _ C U H1 H2)].
  - apply ctor_column_Ok in H0. unfold names. destruct H0 as (_ & -> & ->). split; [|apply unique_one].
    intros n Hn [Hin|[]]. cbn in Hin. congruence.
  - apply ctor_from_Ok in H1. split; apply H1.
  - subst c. destruct Hok.
  - apply head_Ok in H3. destruct H3 as (els & C & _). apply ctor_from_Ok in C. split; apply C.
Qed.

(** Range constructions with named columns first, and head of such dataframes. *)
Lemma reach_good e : reach named_first_cmd e -> Forall good e.
Proof.
  induction 1 as [|e c e' r _ IH Hok H _]; [constructor|].
  refine (exec_inv good (fun d => rect d /\ unique_names (names d))
            _ _ _ _ _ _ _ _ _ _ _ _ _ _ _ H IH); intros; cbn beta in *.
  - apply good_default.
  - destruct H0. split; cbn; [constructor|apply sound_nil|intros n _ []|apply unique_nil].
  - exact (read_good _ _ _ _ _ H0).
  - destruct H0. auto.
  - split; [apply ctor_named_rect|apply unique_one].
  - apply ctor_from_Ok in H0. split; apply H0.
  - destruct H1 as [R U]. exact (bind_good _ _ _ _ H0 R U H2).
  - apply ctor_column_Ok in H0. destruct H0 as (R & E & I). split; unfold names; rewrite ?E, ?I; auto.
    + intros n v X; discriminate.
    + intros n Hn [Hin|[]]. cbn in Hin. congruence.
    + apply unique_one.
  - subst c. cbn in Hok. pose proof (ctor_range_Ok _ _ H1) as El. apply ctor_from_Ok in H1.
    destruct H1 as (_ & A & B & C & _ & _ & D & _). split; auto. apply D. unfold names. now rewrite El.
  - subst c. destruct Hok.
  - subst c. cbn in Hok. pose proof (head_names _ _ _ H3) as Nm.
    apply head_Ok in H3. destruct H3 as (els & C & _). apply ctor_from_Ok in C.
    destruct C as (_ & A & B & C & _ & _ & D & _). split; auto. apply D. rewrite Nm. auto.
Qed.

(** ** Lookup characterised by the index *)

Lemma lookup_inv d : lookup_ok d -> sound (elems d) (index d) /\ covers (elems d) (index d).
Proof.
  intros L. split.
  - intros n v E. destruct (L n) as (A & B & C). unfold at_name in *. rewrite E in *.
    assert (G0 : get (elems d) v <> Throw LogicError) by (unfold get; destruct (_ && _); [destruct (nth_error _ _)|]; discriminate).
    assert (Hn : n <> []) by (intros X; apply G0, C; auto).
    assert (Hi : In n (names d)) by (destruct (in_dec text_dec n (names d)) as [I|I]; [exact I|elim G0; auto]).
    destruct (B Hn Hi) as [nc G]. pose proof (A _ G) as (_ & N & _). apply get_Ok in G. destruct G as [G1 G2].
    split; auto. split; auto. exists nc. auto.
  - intros n Hn Hi X. destruct (L n) as (_ & B & _). destruct (B Hn Hi) as [nc G].
    unfold at_name in G. rewrite X in G. discriminate.
Qed.

Lemma unique_in (es : list ncol) a b : unique_names (map nname es) -> In a es -> In b es ->
  nname a = nname b -> nname a <> [] -> a = b.
Proof.
  intros U Ha Hb E N. apply In_nth_error in Ha. apply In_nth_error in Hb.
  destruct Ha as [i Ha]. destruct Hb as [j Hb].
  assert (i = j).
  { apply (U i j (nname a)); auto; rewrite nth_error_map, ?Ha, ?Hb; cbn; congruence. }
  congruence.
Qed.

Lemma lookup_at d nc : lookup_ok d -> unique_names (names d) -> In nc (elems d) -> nname nc <> [] ->
  at_name d (nname nc) = Ok nc.
Proof.
  intros L U Hi Hn. destruct (L (nname nc)) as (A & B & _).
  destruct (B Hn (in_map _ _ _ Hi)) as [nc' G]. rewrite G. f_equal.
  destruct (A _ G) as (I1 & I2 & _). apply (unique_in (elems d)); auto. congruence.
Qed.

Lemma good_at d nc : good d -> In nc (elems d) -> nname nc <> [] -> at_name d (nname nc) = Ok nc.
Proof. intros G. apply lookup_at; [apply good_lookup; assumption|apply G]. Qed.

Lemma ctor_range_total l : l <> [] -> (forall nc, In nc l -> ncolumn nc <> None) ->
  (exists d, ctor_range l = Ok d) \/ ctor_range l = Throw LogicError.
Proof.
  intros N H. unfold ctor_range.
  assert (E : map ncol_copy l = map Ok l).
  { apply map_ext_in. intros nc Hin. specialize (H nc Hin). destruct nc as [n [m|]]; cbn in *; [reflexivity|congruence]. }
  rewrite E. destruct l as [|nc l]; [congruence|]. cbn [map ctor_from bindO].
  destruct (Forall_dec (fun x => col_size (ncolumn x) = col_size (ncolumn nc)) (fun x => Z.eq_dec _ _) l) as [F|F].
  - rewrite push_all_intro by assumption. cbn [bindO].
    destruct (build_index ([nc] ++ l) 0 []) eqn:B.
    all: destruct (build_index_throw _ _ _ _ B) as [[x X]|X]; try discriminate; cbn [bindO]; eauto.
    right. congruence.
  - destruct (push_all_mismatch _ _ [nc] F) as [es ->]. cbn [bindO]. auto.
Qed.
