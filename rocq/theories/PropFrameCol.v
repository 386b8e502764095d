(** * PropFrameCol: C37-C39 — column coercion, head and sub-columns, conversions. *)

From Coq Require Import ZArith Bool Ascii String List Lia.
From Verif Require Import Base Coerce CoerceSpec CoerceProofs Frame FrameSpec FrameProofs FrameWrite.
Import ListNotations.
Open Scope Z_scope.
Open Scope list_scope.

(** ** C37: column coercion *)

(** coerce<T>() on a column with data: either every cell was coerced, and the column now has
    element type T, the same length, and the coerced cells in order; or the column is
    unchanged, and the call ended like the coercion of the first cell that did not coerce
    (or with bad_cast if there is no rule). *)
Theorem C37_coerce_all_or_nothing : forall rs t m c' r,
  col_coerce rs t (Some m) = (c', r) ->
  col_wt (Some m) ->
  (r = Ok tt /\ exists l, c' = Some (mkModel t l)
      /\ Forall2 (fun x y => coerce1 rs t x = Ok y) (mcells m) l)
  \/ (c' = Some m /\
       (r = Throw BadCast /\ rs t (mty m) = None
        \/ exists pre x post l, mcells m = pre ++ x :: post
             /\ Forall2 (fun x y => coerce1 rs t x = Ok y) pre l
             /\ (forall y, coerce1 rs t x <> Ok y)
             /\ r = (let* _ := coerce1 rs t x in Ok tt))).
Proof.
  intros rs t m c' r H W. unfold col_coerce, model_coerce in H. cbn [col_wt] in W.
  destruct (rs t (mty m)) as [f|] eqn:R; [|injection H as <- <-; right; auto].
  assert (C : forall x, In x (mcells m) -> coerce1 rs t x = f x).
  { intros x Hx. unfold coerce1. rewrite Forall_forall in W. rewrite (W x Hx), R. reflexivity. }
  destruct (mapO_cases f (mcells m)) as [(l & E & F)|(pre & x & post & l & E & F & N & O)].
  - rewrite E in H. cbn in H. injection H as <- <-. left. split; [reflexivity|]. exists l. split; [reflexivity|].
    clear - F C. induction F; constructor; [rewrite C by (cbn; auto); assumption|]. apply IHF. intros; apply C; cbn; auto.
  - assert (Cx : coerce1 rs t x = f x) by (apply C; rewrite E; apply in_or_app; cbn; auto).
    assert (X : c' = Some m /\ r = (let* _ := coerce1 rs t x in Ok tt)).
    { rewrite Cx. rewrite O in H. destruct (f x) eqn:Fx; cbn in H; injection H as <- <-; auto. elim (N a). reflexivity. }
    destruct X as [-> ->]. right. split; [reflexivity|]. right. exists pre, x, post, l.
    split; [exact E|]. split; [|split; [rewrite Cx; exact N|reflexivity]].
    assert (C' : forall x, In x pre -> coerce1 rs t x = f x) by (intros; apply C; rewrite E; apply in_or_app; auto).
    clear - F C'. induction F; constructor; [rewrite C' by (cbn; auto); assumption|]. apply IHF. intros; apply C'; cbn; auto.
Qed.
Print Assumptions C37_coerce_all_or_nothing.

(** If all cells coerce, the call succeeds. *)
Theorem C37_coerce_success : forall rs t m l,
  col_wt (Some m) -> rs t (mty m) <> None ->
  Forall2 (fun x y => coerce1 rs t x = Ok y) (mcells m) l ->
  col_coerce rs t (Some m) = (Some (mkModel t l), Ok tt).
Proof.
  intros rs t m l W R F. unfold col_coerce, model_coerce. destruct (rs t (mty m)) as [f|] eqn:Rf; [|congruence].
  cbn [col_wt] in W. rewrite (mapO_Ok_intro f (mcells m) l); [reflexivity|].
  revert W. induction F as [|x y xs ys H _ IH]; intros W; inversion W; subst; constructor; auto.
  unfold coerce1 in H. rewrite H2, Rf in H. exact H.
Qed.
Print Assumptions C37_coerce_success.

(** A result of a successful coercion has the length of the column. *)
Theorem C37_coerce_length : forall rs t c c',
  col_coerce rs t c = (c', Ok tt) -> col_size c' = col_size c /\ elements_type c' = Ok t.
Proof.
  intros rs t [m|] c' H; [|discriminate]. unfold col_coerce, model_coerce in H.
  destruct (rs t (mty m)) as [f|]; [|discriminate]. destruct (mapO f (mcells m)) as [l| | | |] eqn:E; try discriminate.
  cbn in H. injection H as <-. split; [|reflexivity]. cbn. f_equal. apply mapO_Ok_inv in E.
  clear - E. induction E; cbn; congruence.
Qed.
Print Assumptions C37_coerce_length.

(** can_coerce<T>() is true exactly when there is data and a rule; otherwise coerce throws. *)
Theorem C37_can_coerce : forall rs t c,
  (can_coerce rs t c = true <-> exists m f, c = Some m /\ rs t (mty m) = Some f)
  /\ (can_coerce rs t c = false -> exists e, col_coerce rs t c = (c, Throw e) /\ (e = BadCast \/ c = None)).
Proof.
  intros rs t [m|]; cbn.
  - unfold model_coerce. destruct (rs t (mty m)) as [f|] eqn:R.
    + split; [|discriminate]. split; [eauto|auto].
    + split; [split; [discriminate|]|eauto]. intros (m' & f & E & X). congruence.
  - split; [split; [discriminate|]|eauto]. intros (m' & f & E & X). congruence.
Qed.
Print Assumptions C37_can_coerce.

(** Coercing to the type the cells already have changes nothing. *)
Theorem C37_same_type : forall t m,
  In t [TNum; TStr; TIdx; TInt; TUInt] -> mty m = t -> col_wt (Some m) -> Forall cell_ok (mcells m) ->
  col_coerce default_rules t (Some m) = (Some m, Ok tt).
Proof.
  intros t m Ht E W K. cbn [col_wt] in W. rewrite E in W. destruct m as [t' l]. cbn [mty mcells] in *. subst t'.
  apply C37_coerce_success; [exact W|cbn; cbn in Ht; decompose [or] Ht; subst; try discriminate; contradiction|].
  cbn [mcells]. clear - Ht W K. induction l as [|c l IH]; constructor; inversion W; inversion K; subst; auto.
  apply same_type_coerce; auto.
Qed.
Print Assumptions C37_same_type.

(** to_column<T> of a column with data gives what coerce<T> would leave in a copy. *)
Theorem C37_to_column : forall rs t m c',
  to_column rs t (Some m) = Ok c' <-> col_coerce rs t (Some m) = (c', Ok tt).
Proof.
  intros. cbn. destruct (model_coerce rs t m); cbn; split; intros H; inversion H; reflexivity.
Qed.
Print Assumptions C37_to_column.

(** A column without data cannot be coerced: the member function throws, to_column
    dereferences a null pointer. *)
Theorem C37_null_column_refuted : exists c,
  reach any_cmd [mkDf 0 [mkN ["a"%char] c] [(["a"%char], 0)]]
  /\ fst (col_coerce default_rules TStr c) = c /\ snd (col_coerce default_rules TStr c) = Throw LogicError
  /\ to_column default_rules TStr c = UB /\ col_copy c = UB.
Proof.
  exists None. split; [|repeat split].
  pose proof (reach_nil _ : reach any_cmd []) as R0.
  exact (reach_step _ _ (CRead true is_nl is_tab ["a"%char]) _ _ R0 I eq_refl (or_introl eq_refl)).
Qed.

Example C37_ex :
  let c := col_of TStr [CStr ["1"; "2"]%char; CStr ["x"]%char; CStr ["3"]%char] in
  col_coerce default_rules TInt c = (c, Throw InvalidArgument)
  /\ col_coerce default_rules TInt (col_of TStr [CStr ["1"; "2"]%char; CStr ["3"]%char])
     = (col_of TInt [CInt 12; CInt 3], Ok tt)
  /\ can_coerce default_rules TInt c = true
  /\ can_coerce default_rules TInt (col_of TToy [CToy]) = false.
Proof. repeat split. Qed.

(** ** C38: head and sub-ranges of columns *)

(** head(n) for n <= row_count(), row_count() >= 1, of a dataframe whose columns have data: the same columns
    restricted to the first n rows. *)
Theorem C38_head : forall d n,
  rect d -> unique_names (names d) -> elems d <> [] -> (forall nc, In nc (elems d) -> ncolumn nc <> None) ->
  0 < rows d < 2 ^ 64 -> 0 <= n <= rows d ->
  exists d', head n d = Ok d' /\ rows d' = n
    /\ Forall2 (fun nc nc' => nname nc' = nname nc
         /\ exists m, ncolumn nc = Some m /\ ncolumn nc' = Some (mkModel (mty m) (firstn (Z.to_nat n) (mcells m))))
       (elems d) (elems d').
Proof.
  intros d n R U N Hc Hr Hn. unfold head. destruct (rows d <? n) eqn:E; [lia|].
  set (hd := fun nc => mkN (nname nc) (match ncolumn nc with
               Some m => Some (mkModel (mty m) (firstn (Z.to_nat n) (mcells m))) | None => None end)).
  assert (M : map (fun nc => let* c := col_partial (ncolumn nc) 0 n in Ok (mkN (nname nc) c)) (elems d) = map Ok (map hd (elems d))).
  { rewrite map_map. apply map_ext_in. intros nc Hin. unfold hd. unfold rect in R. rewrite Forall_forall in R.
    specialize (R nc Hin). specialize (Hc nc Hin). destruct (ncolumn nc) as [m|]; [|congruence]. cbn in R.
    unfold col_partial. rewrite (partial_ok m 0 n) by (unfold W; lia). reflexivity. }
  rewrite M.
  assert (S : Forall (fun nc => col_size (ncolumn nc) = n) (map hd (elems d))).
  { apply Forall_forall. intros x Hx. apply in_map_iff in Hx. destruct Hx as (nc & <- & Hin).
    unfold rect in R. rewrite Forall_forall in R. specialize (R nc Hin). specialize (Hc nc Hin).
    unfold hd. cbn. destruct (ncolumn nc) as [m|]; [|congruence]. cbn in *. rewrite firstn_length. lia. }
  assert (UN : map nname (map hd (elems d)) = names d) by (unfold names; rewrite map_map; reflexivity).
  destruct (ctor_from_intro (map hd (elems d)) n) as (d' & E1 & E2 & E3); auto.
  { intros X. apply map_eq_nil in X. congruence. }
  { rewrite UN. exact U. }
  rewrite E1. cbn [bindO]. rewrite df_copy_intro.
  2:{ rewrite E2. apply Forall_forall. intros x Hx. apply in_map_iff in Hx. destruct Hx as (nc & <- & Hin).
      specialize (Hc nc Hin). unfold hd. cbn. destruct (ncolumn nc); congruence. }
  exists d'. split; [reflexivity|]. split; [exact E3|]. rewrite E2. clear - Hc.
  induction (elems d) as [|nc es IH]; cbn [map]; constructor; [|apply IH; intros; apply Hc; cbn; auto].
  unfold hd; cbn. split; [reflexivity|]. specialize (Hc nc (or_introl eq_refl)). destruct (ncolumn nc) as [m|]; [eauto|congruence].
Qed.
Print Assumptions C38_head.

(** Asking for more rows than there are throws. *)
Theorem C38_head_too_many : forall d n, rows d < n -> head n d = Throw OutOfRange.
Proof. intros d n H. unfold head. destruct (rows d <? n) eqn:E; [reflexivity|lia]. Qed.
Print Assumptions C38_head_too_many.

Example C38_ex :
  let d := mkDf 3 [mkN ["a"%char] (col_of TInt [CInt 5; CInt 6; CInt 7]); mkN [] (col_of TStr [CStr []; CStr []; CStr []])]
                  [(["a"%char], 0)] in
  head 2 d = Ok (mkDf 2 [mkN ["a"%char] (col_of TInt [CInt 5; CInt 6]); mkN [] (col_of TStr [CStr []; CStr []])] [(["a"%char], 0)])
  /\ head 4 d = Throw OutOfRange
  /\ head 0 d = Ok (mkDf 0 [mkN ["a"%char] (col_of TInt []); mkN [] (col_of TStr [])] [(["a"%char], 0)]).
Proof. repeat split. Qed.

(** The partial copy of a column: cells first .. first+size-1 if they exist (and first is a
    position of the column), otherwise it throws - provided first+size does not exceed 2^64. *)
Theorem C38_partial_copy_partial : forall m first size,
  0 <= first -> 0 <= size -> first + size < 2 ^ 64 ->
  (first < Z.of_nat (length (mcells m)) -> first + size <= Z.of_nat (length (mcells m)) ->
     col_partial (Some m) first size
     = Ok (Some (mkModel (mty m) (firstn (Z.to_nat size) (skipn (Z.to_nat first) (mcells m))))))
  /\ (Z.of_nat (length (mcells m)) <= first \/ Z.of_nat (length (mcells m)) < first + size ->
     col_partial (Some m) first size = Throw OutOfRange).
Proof.
  intros m first size H1 H2 H3. unfold col_partial. split.
  - intros A B. rewrite partial_ok by (unfold W; lia). reflexivity.
  - intros A. unfold partial_clone. rewrite w64_id by (unfold W; lia).
    destruct (Z.of_nat (length (mcells m)) <=? first) eqn:E1; [reflexivity|].
    destruct (Z.of_nat (length (mcells m)) <? first + size) eqn:E2; [reflexivity|lia].
Qed.
Print Assumptions C38_partial_copy_partial.

(** With first + size at least 2^64 the check wraps and the copy leaves the column. *)
Theorem C38_partial_copy_refuted : exists m first size,
  0 <= first < 2 ^ 64 /\ 0 <= size < 2 ^ 64 /\ Z.of_nat (length (mcells m)) < first + size
  /\ col_partial (Some m) first size = UB.
Proof. exists (mkModel TInt [CInt 1; CInt 2]), 1, (2 ^ 64 - 1). split; [lia|]. split; [lia|]. split; [cbn; lia|reflexivity]. Qed.

(** head(0) of a dataframe with rows works, but head(0) of one whose columns have no rows
    throws, head(0) of the empty dataframe reads past the end of an empty range, and
    head(0) of columns without data dereferences null. *)
Theorem C38_head_refuted : exists d0 d1 d2,
  reach any_cmd [d0; d1; d2]
  /\ rows d0 = 0 /\ head 0 d0 = Throw OutOfRange
  /\ rows d1 = 0 /\ head 0 d1 = UB
  /\ rows d2 = 0 /\ head 0 d2 = UB.
Proof.
  exists (mkDf 0 [mkN [] (col_of TInt [])] []), df_default, (mkDf 0 [mkN ["a"%char] None] [(["a"%char], 0)]).
  split; [|repeat split].
  pose proof (reach_nil _ : reach any_cmd []) as R0.
  pose proof (reach_step _ _ (CColumn (col_of TInt [])) _ _ R0 I eq_refl (or_introl eq_refl)) as R1.
  pose proof (reach_step _ _ CDefault _ _ R1 I eq_refl (or_introl eq_refl)) as R2.
  exact (reach_step _ _ (CRead true is_nl is_tab ["a"%char]) _ _ R2 I eq_refl (or_introl eq_refl)).
Qed.

(** ** C39: conversions to views, vectors and matrices *)

(** to_vector<T>: the coerced cells, in order; it returns nothing else. *)
Theorem C39_to_vector : forall rs t c l,
  col_wt c -> (to_vector rs t c = Ok l <-> coerced_to rs t c l).
Proof.
  intros rs t c l W. split.
  - intros H. destruct c as [m|]; [|discriminate]. exists m. split; [reflexivity|].
    unfold to_vector in H. cbn [elements_type bindO] in H. destruct (ty_eqb (mty m) t) eqn:E.
    + left. apply ty_eqb_eq in E. cbn in H. rewrite E, ty_eqb_refl in H. injection H as <-. auto.
    + right. apply ty_eqb_neq in E. split; [exact E|].
      unfold to_column, model_coerce in H. destruct (rs t (mty m)) as [f|] eqn:R; [|discriminate].
      destruct (mapO f (mcells m)) as [l0| | | |] eqn:M; try discriminate.
      cbn in H. rewrite ty_eqb_refl in H. injection H as <-. split; [congruence|].
      apply mapO_Ok_inv in M. cbn [col_wt] in W.
      revert W. clear - M R. induction M as [|x y xs ys H _ IH]; intros W; inversion W; subst; constructor; auto.
      unfold coerce1. rewrite H2, R. exact H.
  - intros (m & -> & [[T ->]|[T [R F]]]); unfold to_vector; cbn [elements_type bindO].
    + cbn. now rewrite T, ty_eqb_refl.
    + apply ty_eqb_neq in T. rewrite T.
      pose proof (C37_coerce_success rs t m l W R F) as S. apply C37_to_column in S. rewrite S.
      cbn. now rewrite ty_eqb_refl.
Qed.
Print Assumptions C39_to_vector.

(** to_view<T> of an lvalue column: on success the view shows the coerced cells and the column
    itself now holds them; on failure the column is unchanged. *)
Theorem C39_to_view : forall rs t c c' r,
  to_view rs t c = (c', r) -> col_wt c ->
  (exists l, r = Ok l /\ coerced_to rs t c l /\ c' = Some (mkModel t l))
  \/ (c' = c /\ forall l, r <> Ok l).
Proof.
  intros rs t c c' r H W. unfold to_view in H.
  destruct c as [m|]; [|cbn in H; injection H as <- <-; right; split; [reflexivity|discriminate]].
  cbn [elements_type] in H. destruct (ty_eqb (mty m) t) eqn:E.
  - apply ty_eqb_eq in E. cbn in H. rewrite E, ty_eqb_refl in H. injection H as <- <-.
    left. exists (mcells m). split; [reflexivity|]. split; [exists m; auto|]. destruct m; cbn in *; congruence.
  - apply ty_eqb_neq in E. destruct (col_coerce rs t (Some m)) as [c1 o] eqn:C. injection H as <- <-.
    destruct (C37_coerce_all_or_nothing _ _ _ _ _ C W) as [(-> & l & -> & F)|(-> & D)].
    + left. exists l. cbn. rewrite ty_eqb_refl. split; [reflexivity|]. split; [|reflexivity].
      exists m. split; [reflexivity|]. right. split; [exact E|]. split; [|exact F].
      unfold col_coerce, model_coerce in C. destruct (rs t (mty m)); [congruence|discriminate].
    + right. split; [reflexivity|]. intros l X.
      destruct D as [[-> _]|(pre & x & post & l0 & _ & _ & N & ->)]; [discriminate|].
      destruct (coerce1 rs t x) eqn:Y; try discriminate. exact (N a eq_refl).
Qed.
Print Assumptions C39_to_view.

(** to_matrix<T>: a rows x columns matrix whose column j (contiguous in storage) holds the
    coerced cells of column j: element (i, j) at position j * rows + i is the coercion of cell i
    of column j. *)
Theorem C39_to_matrix : forall rs t d L,
  rect d -> (forall nc, In nc (elems d) -> col_wt (ncolumn nc)) ->
  Forall2 (fun nc l => coerced_to rs t (ncolumn nc) l) (elems d) L ->
  exists data, to_matrix rs t d = Ok (rows d, Z.of_nat (length (elems d)), data)
    /\ length data = (Z.to_nat (rows d) * length (elems d))%nat
    /\ forall i j l, (i < Z.to_nat (rows d))%nat -> nth_error L j = Some l ->
         exists x, nth_error data (j * Z.to_nat (rows d) + i) = Some x /\ nth_error l i = Some x.
Proof.
  intros rs t d L R W F. unfold to_matrix.
  assert (M : mapO (matrix_data rs t) (elems d) = Ok L).
  { apply mapO_Ok_intro. clear R. induction F as [|nc l es L H _ IH]; constructor; [|apply IH; intros; apply W; cbn; auto].
    assert (X : to_vector rs t (ncolumn nc) = Ok l) by (apply C39_to_vector; auto; apply W; cbn; auto).
    exact X. }
  rewrite M. cbn [bindO].
  set (n := Z.to_nat (rows d)).
  assert (Len : Forall (fun l => length l = n) L).
  { unfold rect in R. unfold n. clear - R F. induction F as [|nc l es L H _ IH]; inversion R; subst; constructor; auto.
    apply coerced_length in H. lia. }
  rewrite (mapO_map_Ok _ (fun l => l)).
  2:{ intros l Hl. rewrite Forall_forall in Len. specialize (Len l Hl). rewrite <- Len. apply mapO_get_all. }
  rewrite map_id. cbn [bindO]. eexists. split; [reflexivity|].
  assert (LE : length (elems d) = length L) by (clear - F; induction F; cbn; congruence).
  rewrite LE. clear - Len. split.
  - induction Len as [|l L H _ IH]; cbn; [lia|]. rewrite app_length, IH, H. lia.
  - intros i j l Hi Hj. revert j Hj. induction Len as [|l0 L H _ IH]; intros j Hj; [destruct j; discriminate|].
    destruct j as [|j]; cbn [nth_error concat] in *.
    + injection Hj as ->. cbn. destruct (nth_error l i) as [x|] eqn:E; [|apply nth_error_None in E; lia].
      exists x. split; [|reflexivity]. rewrite nth_error_app1 by lia. exact E.
    + destruct (IH j Hj) as (x & A & B). exists x. split; [|exact B].
      rewrite nth_error_app2 by (cbn; lia). rewrite H.
      replace (S j * n + i - n)%nat with (j * n + i)%nat by lia. exact A.
Qed.
Print Assumptions C39_to_matrix.

(** A column without data makes the conversions throw. *)
Theorem C39_null_throws : forall rs t d nc,
  nth_error (elems d) 0 = Some nc -> ncolumn nc = None ->
  to_matrix rs t d = Throw LogicError /\ to_vector rs t (ncolumn nc) = Throw LogicError
  /\ to_view rs t (ncolumn nc) = (None, Throw LogicError).
Proof.
  intros rs t d nc H E. rewrite E. split; [|split; reflexivity]. unfold to_matrix.
  destruct (elems d) as [|nc0 es]; [discriminate|]. cbn in H. injection H as ->.
  cbn. unfold matrix_data. rewrite E. reflexivity.
Qed.
Print Assumptions C39_null_throws.

Example C39_ex :
  to_matrix default_rules TInt
    (mkDf 2 [mkN [] (col_of TStr [CStr ["7"]%char; CStr ["8"]%char]); mkN ["a"%char] (col_of TInt [CInt 1; CInt 2])] [])
  = Ok (2, 2, [CInt 7; CInt 8; CInt 1; CInt 2]).
Proof. reflexivity. Qed.
