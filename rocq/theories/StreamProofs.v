(** * StreamProofs: lemmas about streams. *)

From Coq Require Import ZArith Bool Ascii String List Lia.
From Verif Require Import Base Coerce CoerceSpec CoerceProofs Frame FrameSpec FrameProofs FrameText FrameWrite Stream StreamSpec.
Import ListNotations.
Open Scope nat_scope.
Open Scope list_scope.

(** ** Output *)

Definition good_os (os : ostream) : Prop := oflags os = no_flags.

Lemma is_good_iff f : is_good f = true <-> f = no_flags.
Proof. destruct f as [[] [] []]; cbn; split; intros; try reflexivity; discriminate. Qed.

Lemma bad_not_good f : badbit f = true -> is_good f = false.
Proof. destruct f as [[] [] []]; cbn; intros; congruence. Qed.

(** A stream that is no longer good takes nothing. *)
Record Stuck (os os' : ostream) (o : outcome unit) : Prop := mkStuck {
  stuck_sunk : sunk os' = sunk os;
  stuck_room : room os' = room os;
  stuck_mask : omask os' = omask os;
  stuck_good : is_good (oflags os') = false;
  stuck_bad : badbit (oflags os) = true -> badbit (oflags os') = true;
  stuck_out : o = Ok tt \/ o = Throw RuntimeError;
  stuck_quiet : omask os = no_flags -> o = Ok tt }.

Lemma insert_stuck s os : is_good (oflags os) = false -> Stuck os (fst (insert s os)) (snd (insert s os)).
Proof.
  intros G. unfold insert. rewrite G. cbn. constructor; cbn; auto.
  - destruct (oflags os) as [[] [] []]; cbn in *; congruence.
  - destruct (oflags os) as [[] [] []]; cbn in *; congruence.
  - destruct (meets _ _); auto.
  - intros ->. destruct (oflags os) as [[] [] []]; reflexivity.
Qed.

Fixpoint insert_list (ps : list text) (os : ostream) : ostream * outcome unit :=
  match ps with
  | [] => (os, Ok tt)
  | p :: ps' => thenS (insert p os) (insert_list ps')
  end.

Lemma thenS_assoc p k1 k2 : thenS (thenS p k1) k2 = thenS p (fun os => thenS (k1 os) k2).
Proof. destruct p as (os & []); reflexivity. Qed.

Lemma thenS_ext p k1 k2 : (forall os, k1 os = k2 os) -> thenS p k1 = thenS p k2.
Proof. intros H. destruct p as (os & []); cbn; auto. Qed.

Lemma insert_list_app ps qs os : insert_list (ps ++ qs) os = thenS (insert_list ps os) (insert_list qs).
Proof.
  revert os. induction ps as [|p ps IH]; intros; cbn [insert_list app]; [reflexivity|].
  rewrite thenS_assoc. apply thenS_ext. auto.
Qed.

Lemma insert_list_stuck ps os : is_good (oflags os) = false ->
  Stuck os (fst (insert_list ps os)) (snd (insert_list ps os)).
Proof.
  revert os. induction ps as [|p ps IH]; intros os G; cbn [insert_list].
  - constructor; cbn; auto.
  - pose proof (insert_stuck p os G) as S1. destruct (insert p os) as (os1 & o1). cbn [fst snd] in *.
    destruct o1 as [[]|e| | |]; cbn [thenS fst snd]; try exact S1.
    destruct S1. specialize (IH os1 stuck_good0). destruct IH.
    constructor; try congruence; auto. intros. apply stuck_quiet1. congruence.
Qed.

Lemma enough_app os s1 s2 : enough os (s1 ++ s2) -> enough os s1.
Proof. unfold enough. destruct (room os); auto. rewrite app_length. lia. Qed.

Lemma enough_dec os s : {enough os s} + {~ enough os s}.
Proof. unfold enough. destruct (room os); [apply le_dec|left; exact Logic.I]. Qed.

Lemma Sent_seq s1 s2 os os1 o1 k :
  good_os os -> Sent s1 os os1 o1 ->
  (good_os os1 -> o1 = Ok tt -> enough os s1 -> Sent s2 os1 (fst (k os1)) (snd (k os1))) ->
  (is_good (oflags os1) = false -> Stuck os1 (fst (k os1)) (snd (k os1))) ->
  Sent (s1 ++ s2) os (fst (thenS (os1, o1) k)) (snd (thenS (os1, o1) k)).
Proof.
  intros G [A1 A2 A3 A4 A5] H1 H2.
  destruct (enough_dec os s1) as [E|E].
  - destruct (A4 E) as (F & ->). cbn [thenS].
    assert (G1 : good_os os1) by (unfold good_os in *; congruence).
    specialize (H1 G1 eq_refl E). destruct H1 as [B1 B2 B3 B4 B5].
    assert (EE : enough os (s1 ++ s2) <-> enough os1 s2).
    { unfold enough in *. rewrite A2. destruct (room os) as [r|]; cbn [option_map]; [|tauto].
      rewrite app_length. lia. }
    constructor.
    + rewrite B1, A1, <- app_assoc. f_equal. unfold taken, enough in *. rewrite A2.
      destruct (room os) as [r|]; cbn [option_map]; [|reflexivity].
      now rewrite firstn_app.
    + rewrite B2, A2. destruct (room os) as [r|]; cbn [option_map]; [|reflexivity].
      rewrite app_length. f_equal. lia.
    + congruence.
    + intros X. apply EE in X. destruct (B4 X). split; congruence.
    + intros X. rewrite EE in X. rewrite <- A3. auto.
  - destruct (A5 E) as (Bd & Oc & Th & Q).
    assert (E2 : ~ enough os (s1 ++ s2)) by (intros X; apply E; eapply enough_app; eauto).
    assert (T : taken os (s1 ++ s2) = taken os s1 /\ option_map (fun r => r - length (s1 ++ s2)) (room os)
                = option_map (fun r => r - length s1) (room os)).
    { unfold taken, enough in *. destruct (room os) as [r|]; [|exfalso; apply E; exact Logic.I].
      cbn [option_map]. rewrite firstn_app, app_length.
      replace (r - length s1) with 0 by lia. cbn. rewrite app_nil_r. split; [reflexivity|]. f_equal. lia. }
    destruct T as (T1 & T2).
    destruct Oc as [->| ->]; cbn [thenS fst snd].
    + specialize (H2 (bad_not_good _ Bd)). destruct H2 as [S1 S2 S3 S4 S5 S6 S7].
      constructor; try congruence.
      intros _. split; [auto|]. split; [auto|]. split.
      * intros X. specialize (Th X). discriminate.
      * intros X. apply S7. congruence.
    + constructor; try congruence; try tauto.
Qed.

Lemma put_Sent s os : good_os os ->
  Sent s os (fst (put s os)) (snd (put s os)) /\ owidth (fst (put s os)) = owidth os
  /\ ofill (fst (put s os)) = ofill os /\ oleft (fst (put s os)) = oleft os.
Proof.
  intros G. unfold put. destruct (room os) as [r|] eqn:R.
  - destruct (Nat.leb_spec (length s) r) as [L|L].
    + split; [|repeat split; reflexivity].
      constructor; cbn; auto.
      * unfold taken. now rewrite R.
      * now rewrite R.
      * unfold enough. rewrite R. tauto.
    + split; [|repeat split; reflexivity].
      constructor; cbn; auto.
      * unfold taken. now rewrite R.
      * now rewrite R.
      * unfold enough. rewrite R. lia.
      * intros _. rewrite G. cbn. split; [reflexivity|]. unfold meets. cbn.
        destruct (omask os) as [[] [] []]; cbn; repeat split; auto; discriminate.
  - split; [|repeat split; reflexivity].
    constructor; cbn; auto.
    + unfold taken. now rewrite R.
    + now rewrite R.
    + unfold enough. rewrite R. tauto.
Qed.

Lemma put_good_seq a b os : good_os os ->
  let p := thenS (put_good a os) (put_good b) in
  Sent (a ++ b) os (fst p) (snd p).
Proof.
  intros G p. unfold p. clear p.
  replace (put_good a os) with (put a os) by (unfold put_good; now rewrite (proj2 (is_good_iff _) G)).
  destruct (put_Sent a os G) as (S1 & _). destruct (put a os) as (os1 & o1). cbn [fst snd] in S1.
  apply Sent_seq; auto.
  - intros G1 _ _. unfold put_good. rewrite (proj2 (is_good_iff _) G1). apply put_Sent; auto.
  - intros B. unfold put_good. rewrite B. constructor; cbn; auto.
Qed.

Lemma Sent_width s os p w : Sent s os (fst p) (snd p) ->
  Sent s os (fst (thenS p (fun os' => (set_width os' w, Ok tt)))) (snd (thenS p (fun os' => (set_width os' w, Ok tt)))).
Proof. destruct p as (os1 & [[]|e| | |]); cbn; intros [A B C D E]; constructor; cbn; auto. Qed.

Lemma insert_Sent s os : good_os os ->
  Sent (padded (owidth os) (ofill os) (oleft os) s) os (fst (insert s os)) (snd (insert s os))
  /\ (snd (insert s os) = Ok tt -> owidth (fst (insert s os)) = 0).
Proof.
  intros G. unfold insert. rewrite (proj2 (is_good_iff _) G). cbv zeta. unfold padded. split.
  - apply Sent_width. destruct (oleft os); apply put_good_seq; auto.
  - match goal with |- context [thenS ?p _] => destruct p as (os1 & [[]|e| | |]); cbn; auto; discriminate end.
Qed.

Lemma insert_list_Sent ps : forall os, good_os os -> owidth os = 0 ->
  Sent (concat ps) os (fst (insert_list ps os)) (snd (insert_list ps os))
  /\ (snd (insert_list ps os) = Ok tt -> enough os (concat ps) -> owidth (fst (insert_list ps os)) = 0).
Proof.
  induction ps as [|p ps IH]; intros os G Wd; cbn [insert_list concat].
  - split; [|auto]. constructor; cbn; auto.
    + unfold taken. destruct (room os) as [[]|]; cbn; now rewrite app_nil_r.
    + destruct (room os); cbn; [|reflexivity]. f_equal. lia.
    + intros E. exfalso. apply E. unfold enough. destruct (room os); cbn; [lia|exact Logic.I].
  - destruct (insert_Sent p os G) as (S1 & W1). rewrite Wd in S1.
    assert (P : padded 0 (ofill os) (oleft os) p = p).
    { unfold padded. cbn. destruct (oleft os); [now rewrite app_nil_r|reflexivity]. }
    rewrite P in S1. destruct (insert p os) as (os1 & o1). cbn [fst snd] in *.
    split.
    + apply Sent_seq; auto.
      * intros G1 -> _. apply IH; auto.
      * intros B. apply insert_list_stuck; auto.
    + intros Hs E. pose proof (enough_app _ _ _ E) as E1. destruct (sent_all _ _ _ _ S1 E1) as (F & ->).
      cbn [thenS] in *. apply IH; auto.
      * unfold good_os in *. congruence.
      * unfold enough in *. rewrite (sent_room _ _ _ _ S1). destruct (room os); cbn; auto.
        rewrite app_length in E. lia.
Qed.

(** With a width: the first piece is padded. *)
Lemma insert_list_width p ps os : good_os os ->
  let full := padded (owidth os) (ofill os) (oleft os) p ++ concat ps in
  let res := insert_list (p :: ps) os in
  Sent full os (fst res) (snd res) /\ (enough os full -> owidth (fst res) = 0).
Proof.
  intros G full res. unfold res. cbn [insert_list].
  destruct (insert_Sent p os G) as (S1 & W1). destruct (insert p os) as (os1 & o1). cbn [fst snd] in *.
  split.
  - apply Sent_seq; auto.
    + intros G1 -> _. apply insert_list_Sent; auto.
    + intros B. apply insert_list_stuck; auto.
  - intros E. pose proof (enough_app _ _ _ E) as E1. destruct (sent_all _ _ _ _ S1 E1) as (F & ->).
    cbn [thenS] in *.
    assert (G1 : good_os os1) by (unfold good_os in *; congruence).
    assert (E2 : enough os1 (concat ps)).
    { unfold enough in *. rewrite (sent_room _ _ _ _ S1). destruct (room os); cbn; auto.
      unfold full in E. rewrite app_length in E. lia. }
    destruct (insert_list_Sent ps os1 G1 (W1 eq_refl)) as (S2 & W2).
    apply W2; auto. apply (sent_all _ _ _ _ S2 E2).
Qed.

(** ** write as a list of insertions *)

Definition line_pieces (cs ls : text) (fs : list text) : list text :=
  match fs with [] => [] | f :: fs' => f :: flat_map (fun x => [cs; x]) fs' ++ [ls] end.

Lemma concat_rest cs fs : concat (flat_map (fun x => [cs; x]) fs)
  = match fs with [] => [] | _ => cs ++ write_fields cs fs end.
Proof.
  induction fs as [|f fs IH]; [reflexivity|]. cbn [flat_map app concat]. rewrite IH.
  cbn [write_fields]. destruct fs; [now rewrite !app_nil_r|reflexivity].
Qed.

Lemma concat_line cs ls fs : fs <> [] -> concat (line_pieces cs ls fs) = write_fields cs fs ++ ls.
Proof.
  intros N. destruct fs as [|f fs]; [congruence|]. cbn [line_pieces concat write_fields].
  rewrite concat_app, concat_rest. cbn. rewrite app_nil_r, app_assoc. destruct fs; [now rewrite !app_nil_r|reflexivity].
Qed.

Lemma insert_names_list cs l os : insert_names cs l os = insert_list (flat_map (fun x => [cs; x]) l) os.
Proof.
  revert os. induction l as [|n l IH]; intros; cbn [insert_names flat_map app insert_list]; [reflexivity|].
  rewrite thenS_assoc. apply thenS_ext. intros. apply thenS_ext. auto.
Qed.

Lemma thenS_ret p : thenS p (fun os => (os, Ok tt)) = p.
Proof. destruct p as (os & [[]|e| | |]); reflexivity. Qed.

Lemma insert_list_1 p os : insert_list [p] os = insert p os.
Proof. cbn. apply thenS_ret. Qed.

Lemma insert_header_list ls cs ns os : ns <> [] -> insert_header ls cs ns os = insert_list (line_pieces cs ls ns) os.
Proof.
  intros N. destruct ns as [|n ns]; [congruence|]. cbn [insert_header line_pieces insert_list].
  rewrite thenS_assoc. apply thenS_ext. intros os1. rewrite insert_list_app, insert_names_list.
  apply thenS_ext. intros. symmetry. apply insert_list_1.
Qed.

Lemma insert_cells_list cs l i : forall fs, mapO (fun col => let* c := get col (Z.of_nat i) in cell_text c) l = Ok fs ->
  forall os, insert_cells cs l i os = insert_list (flat_map (fun x => [cs; x]) fs) os.
Proof.
  induction l as [|col l IH]; intros fs H os; cbn [mapO] in H.
  - injection H as <-. reflexivity.
  - cbn [insert_cells]. unfold insert_cell at 1.
    destruct (let* c := get col (Z.of_nat i) in cell_text c) as [s|e| | |] eqn:C; cbn [bindO] in H; try discriminate.
    destruct (mapO _ l) as [fs'|e| | |] eqn:M; cbn [bindO] in H; try discriminate. injection H as <-.
    cbn [flat_map app insert_list]. rewrite thenS_assoc. apply thenS_ext. intros. apply thenS_ext. intros. apply IH. reflexivity.
Qed.

Lemma insert_row_list ls cs data i fs os : data <> [] ->
  mapO (fun col => let* c := get col (Z.of_nat i) in cell_text c) data = Ok fs ->
  insert_row ls cs data i os = insert_list (line_pieces cs ls fs) os.
Proof.
  intros N H. destruct data as [|col data]; [congruence|]. cbn [mapO] in H. cbn [insert_row].
  unfold insert_cell at 1.
  destruct (let* c := get col (Z.of_nat i) in cell_text c) as [s|e| | |] eqn:C; cbn [bindO] in H; try discriminate.
  destruct (mapO _ data) as [fs'|e| | |] eqn:M; cbn [bindO] in H; try discriminate. injection H as <-.
  cbn [line_pieces insert_list]. rewrite thenS_assoc. apply thenS_ext. intros.
  rewrite insert_list_app, (insert_cells_list _ _ _ _ M). apply thenS_ext. intros. symmetry. apply insert_list_1.
Qed.

Lemma insert_rows_list ls cs data is fss : data <> [] ->
  Forall2 (fun i fs => mapO (fun col => let* c := get col (Z.of_nat i) in cell_text c) data = Ok fs) is fss ->
  forall os, insert_rows ls cs data is os = insert_list (concat (map (line_pieces cs ls) fss)) os.
Proof.
  intros N F. induction F as [|i fs is fss H F IH]; intros os; cbn [insert_rows map concat insert_list]; [reflexivity|].
  rewrite insert_list_app, (insert_row_list _ _ _ _ _ _ N H). apply thenS_ext. exact IH.
Qed.

Lemma row_texts L n i : Forall (fun l => length l = n) L -> i < n ->
  mapO (fun col => let* c := get col (Z.of_nat i) in cell_text c) (map (map CStr) L) = Ok (row_of L i).
Proof.
  intros H Hi. unfold row_of. apply mapO_Ok_intro. induction H as [|l L Hl _ IH]; cbn; constructor; auto.
  assert (X : nth_error (map CStr l) i = Some (CStr (nth i l []))).
  { rewrite nth_error_map. rewrite (nth_error_nth' l []) by lia. reflexivity. }
  apply get_nth in X. rewrite X. reflexivity.
Qed.

Lemma texts_data rs es L : Forall2 (texts rs) es L -> mapO (write_data rs) es = Ok (map (map CStr) L).
Proof.
  intros F. induction F as [|nc l es L H F IH]; cbn [mapO map]; [reflexivity|].
  rewrite (texts_write_data _ _ _ H). cbn [bindO]. rewrite IH. reflexivity.
Qed.

(** The insertions that write makes. *)
Definition write_pieces (h : bool) (ls cs : text) (ns : list text) (rows : list (list text)) : list text :=
  (if h then line_pieces cs ls ns else []) ++ concat (map (line_pieces cs ls) rows).

Lemma write_to_list rs h ls cs d L os :
  elems d <> [] -> rect d -> Forall2 (texts rs) (elems d) L ->
  write_to rs h ls cs d os = insert_list (write_pieces h ls cs (names d) (rows_of L (Z.to_nat (rows d)))) os.
Proof.
  intros N R F. unfold write_to.
  assert (B : df_bool d = true).
  { unfold df_bool, column_count. apply Z.ltb_lt. destruct (elems d); [congruence|cbn; lia]. }
  rewrite B. cbn [negb]. rewrite (texts_data _ _ _ F).
  assert (LL : Forall (fun l => length l = Z.to_nat (rows d)) L).
  { clear - R F. unfold rect in R. revert R. induction F as [|nc l es L H F IH]; intros R; constructor.
    - apply Forall_inv in R. rewrite (texts_length _ _ _ H) in R. lia.
    - apply IH. now apply Forall_inv_tail in R. }
  assert (N2 : map (map CStr) L <> []).
  { destruct F; [congruence|discriminate]. }
  assert (IR : forall os, insert_rows ls cs (map (map CStr) L) (seq 0 (Z.to_nat (rows d))) os
     = insert_list (concat (map (line_pieces cs ls) (rows_of L (Z.to_nat (rows d))))) os).
  { apply insert_rows_list; auto. unfold rows_of.
    assert (X : forall is, (forall i, In i is -> i < Z.to_nat (rows d)) ->
      Forall2 (fun i fs => mapO (fun col => let* c := get col (Z.of_nat i) in cell_text c) (map (map CStr) L) = Ok fs)
        is (map (row_of L) is)).
    { induction is as [|i is IH]; intros Hi; constructor.
      - eapply row_texts; eauto. apply Hi. now left.
      - apply IH. intros. apply Hi. now right. }
    apply X. intros i Hi. apply in_seq in Hi. lia. }
  unfold write_pieces. destruct h.
  - rewrite insert_list_app, insert_header_list.
    + apply thenS_ext. exact IR.
    + unfold names. destruct (elems d); [congruence|discriminate].
  - cbn [thenS app]. apply IR.
Qed.

Lemma concat_lines cs ls rows : Forall (fun r => r <> []) rows ->
  concat (concat (map (line_pieces cs ls) rows)) = concat (map (fun r => write_fields cs r ++ ls) rows).
Proof.
  induction 1 as [|r rows N H IH]; cbn [map concat]; [reflexivity|].
  rewrite concat_app, concat_line, IH by auto. reflexivity.
Qed.

Lemma concat_write_pieces h ls cs ns rows : ns <> [] -> Forall (fun r => r <> []) rows ->
  concat (write_pieces h ls cs ns rows)
  = (if h then write_fields cs ns ++ ls else []) ++ concat (map (fun r => write_fields cs r ++ ls) rows).
Proof.
  intros N H. unfold write_pieces. rewrite concat_app, concat_lines by auto. f_equal.
  destruct h; [apply concat_line; auto|reflexivity].
Qed.

(** ** Cut texts *)

(** The segments of a beginning of a line. *)
Lemma cut_prefix csep cc r : csep cc = true -> r <> [] ->
  (forall f x, In f r -> In x f -> csep x = false) ->
  forall q, starts q (write_fields [cc] r) ->
  exists i a c, nth_error r i = Some c /\ starts a c /\ cut csep q = firstn i r ++ [a].
Proof.
  intros Hc. induction r as [|f r IH]; intros N Hf q (s & E); [congruence|].
  cbn [write_fields] in E.
  destruct (le_lt_dec (length q) (length f)) as [Lq|Lq].
  - exists 0, q, f. split; [reflexivity|].
    assert (St : starts q f).
    { assert (X : firstn (length q) (f ++ match r with [] => [] | _ => [cc] ++ write_fields [cc] r end) = q).
      { rewrite E. rewrite firstn_app, Nat.sub_diag, firstn_all, app_nil_r. reflexivity. }
      rewrite firstn_app in X. replace (length q - length f) with 0 in X by lia. cbn in X. rewrite app_nil_r in X.
      exists (skipn (length q) f). rewrite <- X at 1. symmetry. apply firstn_skipn. }
    split; [exact St|]. destruct St as (s' & Ef). cbn [firstn app].
    assert (Q : forall x, In x q -> csep x = false).
    { intros x Hx. apply (Hf f x); [now left|]. rewrite Ef. apply in_or_app. now left. }
    pose proof (cut_app csep q Q [] [] [] eq_refl) as X. now rewrite !app_nil_r in X.
  - assert (Nr : r <> []).
    { intros ->. rewrite app_nil_r in E. rewrite E, app_length in Lq. lia. }
    assert (Q : exists q', q = f ++ cc :: q' /\ starts q' (write_fields [cc] r)).
    { assert (X : firstn (length f) q = f).
      { assert (Y : firstn (length f) (q ++ s) = f).
        { rewrite <- E. rewrite firstn_app, Nat.sub_diag, firstn_all. cbn. apply app_nil_r. }
        rewrite firstn_app in Y. replace (length f - length q) with 0 in Y by lia. cbn in Y. now rewrite app_nil_r in Y. }
      pose proof (firstn_skipn (length f) q) as Y. rewrite X in Y.
      destruct (skipn (length f) q) as [|x q'] eqn:Sk.
      { rewrite app_nil_r in Y. rewrite Y in Lq. lia. }
      rewrite <- Y in E. rewrite <- app_assoc in E. apply app_inv_head in E.
      destruct r as [|g r]; [congruence|]. injection E as E1 E2. subst x.
      exists q'. split; [now symmetry|]. exists s. exact E2. }
    destruct Q as (q' & -> & Sq).
    destruct (IH Nr (fun f' x Hf' Hx => Hf f' x (or_intror Hf') Hx) q' Sq) as (i & a & c & H1 & H2 & H3).
    exists (S i), a, c. split; [exact H1|]. split; [exact H2|].
    rewrite (cut_app csep f (fun x Hx => Hf f x (or_introl eq_refl) Hx) _ [] (cut csep q')).
    + rewrite app_nil_r, H3. reflexivity.
    + cbn. now rewrite Hc.
Qed.

Lemma tokens_prefix csep cc r : csep cc = true -> r <> [] ->
  (forall f x, In f r -> In x f -> csep x = false) ->
  forall q, q <> [] -> starts q (write_fields [cc] r) ->
  tokens csep q <> [] /\ cut_row r (tokens csep q).
Proof.
  intros Hc N Hf q Nq Hq. split; [apply tokens_nonempty|].
  destruct (cut_prefix csep cc r Hc N Hf q Hq) as (i & a & c & H1 & H2 & H3).
  rewrite tokens_cut, H3. unfold drop_last.
  assert (Li : i < length r) by (apply nth_error_Some; congruence).
  assert (La : last (firstn i r ++ [a]) [] = a) by apply last_last.
  rewrite La. destruct a as [|x a].
  - assert (i <> 0).
    { intros ->. cbn in H3. apply Nq.
      pose proof (cut_Split csep q) as X. rewrite H3 in X. inversion X; subst; [reflexivity|].
      match goal with H : Split _ _ [] |- _ => inversion H end. }
    replace (1 <? Z.of_nat (length (firstn i r ++ [[]])))%Z with true.
    2:{ symmetry. apply Z.ltb_lt. rewrite app_length, firstn_length. cbn. lia. }
    cbn [tempty andb]. rewrite removelast_last. left. exists i. split; [lia|reflexivity].
  - cbn [tempty]. rewrite andb_false_r. right. exists i, c, (x :: a). repeat split; auto. discriminate.
Qed.

Definition line (cc lc : ascii) (r : list text) : text := write_fields [cc] r ++ [lc].

Lemma lines_prefix cc lc tbl : forall t', starts t' (concat (map (line cc lc) tbl)) ->
  exists j q, j <= length tbl /\ t' = concat (map (line cc lc) (firstn j tbl)) ++ q
    /\ (q = [] \/ exists r, nth_error tbl j = Some r /\ starts q (write_fields [cc] r)).
Proof.
  induction tbl as [|r tbl IH]; intros t' (s & E); cbn [map concat] in E.
  - exists 0, []. symmetry in E. apply app_eq_nil in E. destruct E as (-> & _). cbn. auto.
  - destruct (le_lt_dec (length t') (length (write_fields [cc] r))) as [Lq|Lq].
    + exists 0, t'. cbn. split; [lia|]. split; [reflexivity|]. right. exists r. split; [reflexivity|].
      unfold line in E. rewrite <- app_assoc in E.
      exists (skipn (length t') (write_fields [cc] r)).
      rewrite <- (firstn_skipn (length t') (write_fields [cc] r)) at 1. f_equal.
      apply (f_equal (firstn (length t'))) in E.
      rewrite !firstn_app, Nat.sub_diag, firstn_all in E. cbn in E. rewrite app_nil_r in E.
      replace (length t' - length (write_fields [cc] r)) with 0 in E by lia. cbn in E. rewrite app_nil_r in E. exact E.
    + assert (X : exists t2, t' = line cc lc r ++ t2 /\ starts t2 (concat (map (line cc lc) tbl))).
      { exists (skipn (length (line cc lc r)) t').
        assert (Ln : length (line cc lc r) <= length t') by (unfold line; rewrite app_length; cbn; lia).
        assert (F : firstn (length (line cc lc r)) t' = line cc lc r).
        { apply (f_equal (firstn (length (line cc lc r)))) in E.
          rewrite !firstn_app, Nat.sub_diag, firstn_all in E. cbn [firstn] in E. rewrite app_nil_r in E.
          replace (length (line cc lc r) - length t') with 0 in E by lia. cbn in E. rewrite app_nil_r in E. now symmetry. }
        split; [rewrite <- F at 1; symmetry; apply firstn_skipn|].
        exists s. rewrite <- (firstn_skipn (length (line cc lc r)) t') in E. rewrite F, <- app_assoc in E.
        apply app_inv_head in E. exact E. }
      destruct X as (t2 & -> & S2). destruct (IH t2 S2) as (j & q & Lj & -> & H).
      exists (S j), q. cbn [length firstn map concat nth_error]. split; [lia|]. split; [now rewrite app_assoc|exact H].
Qed.

Lemma cut_lines_rest sep c ls q : sep c = true ->
  (forall l x, In l ls -> In x l -> sep x = false) -> (forall x, In x q -> sep x = false) ->
  cut sep (concat (map (fun l => l ++ [c]) ls) ++ q) = ls ++ [q].
Proof.
  intros Hc. induction ls as [|l ls IH]; intros H Hq; cbn [map concat app].
  - pose proof (cut_app sep q Hq [] [] [] eq_refl) as X. now rewrite !app_nil_r in X.
  - rewrite <- !app_assoc. rewrite (cut_app sep l (fun x Hx => H _ x (or_introl eq_refl) Hx) _ [] (ls ++ [q])).
    + now rewrite app_nil_r.
    + cbn [app cut]. rewrite Hc. f_equal. apply IH; auto. intros f' x Hf' Hx. exact (H f' x (or_intror Hf') Hx).
Qed.

Lemma table_rest lsep csep lc cc tbl q :
  lsep lc = true -> csep cc = true -> lsep cc = false ->
  (forall r f x, In r tbl -> In f r -> In x f -> lsep x = false /\ csep x = false) ->
  (forall r, In r tbl -> last r [] <> []) ->
  (forall x, In x q -> lsep x = false) ->
  table lsep csep (concat (map (line cc lc) tbl) ++ q) = tbl ++ (match q with [] => [] | _ => [tokens csep q] end).
Proof.
  intros Hl Hc Hlc Hcl Hla Hq. unfold table, line.
  rewrite <- (map_map (write_fields [cc]) (fun l => l ++ [lc])).
  rewrite cut_lines_rest; auto.
  - rewrite filter_app, map_app.
    assert (F : filter (fun l => negb (tempty l)) (map (write_fields [cc]) tbl) = map (write_fields [cc]) tbl).
    { assert (Hla' : forall r, In r tbl -> last r [] <> []) by assumption.
      clear - Hla'. induction tbl as [|r tbl IH]; cbn [map filter]; [reflexivity|].
      pose proof (write_fields_nonempty [cc] r (Hla' r (or_introl eq_refl))) as Wn. apply tempty_false in Wn.
      rewrite Wn. cbn [negb]. rewrite IH; [reflexivity|]. intros. apply Hla'. now right. }
    rewrite F, map_map. f_equal.
    + rewrite <- (map_id tbl) at 2. apply map_ext_in. intros r Hr.
      apply tokens_join; auto. intros f x Hf Hx. destruct (Hcl r f x); auto.
    + destruct q; reflexivity.
  - intros l x Hin Hx. apply in_map_iff in Hin. destruct Hin as (r & <- & Hr).
    apply in_write_fields in Hx. destruct Hx as [[<-|[]]|(f & Hf & Hx)]; [assumption|].
    destruct (Hcl r f x); auto.
Qed.

Lemma cut_row_full r p : cut_row r p -> length p = length r -> r <> [] ->
  p = r \/ exists a z, a <> [] /\ starts a z /\ last r [] = z /\ p = removelast r ++ [a].
Proof.
  intros H Lp N. destruct H as [(i & Li & ->)|(i & c & a & Hc & Na & Sa & ->)].
  - left. rewrite firstn_length in Lp. rewrite firstn_all2; [reflexivity|lia].
  - right. assert (Li : i < length r) by (apply nth_error_Some; congruence).
    rewrite app_length, firstn_length in Lp. cbn in Lp.
    assert (i = length r - 1) by lia. subst i.
    exists a, c. split; [auto|]. split; [auto|].
    assert (Rl : last r [] = c).
    { rewrite last_nth_pos. erewrite nth_error_nth; eauto. }
    split; [exact Rl|]. f_equal.
    pose proof (app_removelast_last [] N) as X. rewrite X at 2.
    assert (Lr : length (removelast r) = length r - 1) by (rewrite X at 2; rewrite app_length; cbn; lia).
    rewrite firstn_app, Lr, Nat.sub_diag, <- Lr, firstn_all. cbn. now rewrite app_nil_r.
Qed.

Lemma tcolumn_app a b c : tcolumn (a ++ b) c = tcolumn a c ++ tcolumn b c.
Proof. unfold tcolumn. apply map_app. Qed.

Lemma tcolumn_firstn k a c : tcolumn (firstn k a) c = firstn k (tcolumn a c).
Proof. unfold tcolumn. symmetry. apply firstn_map. Qed.

Lemma rows_of_nth L n i : i < n -> nth_error (rows_of L n) i = Some (row_of L i).
Proof.
  intros H. unfold rows_of. rewrite nth_error_map.
  rewrite (nth_error_nth' (seq 0 n) 0) by (rewrite seq_length; lia). cbn. f_equal. f_equal. rewrite seq_nth; lia.
Qed.

Lemma row_of_length L i : length (row_of L i) = length L.
Proof. unfold row_of. apply map_length. Qed.

Lemma row_of_col L i c l : nth_error L c = Some l -> nth c (row_of L i) [] = nth i l [].
Proof.
  intros H. unfold row_of. erewrite nth_error_nth; [reflexivity|]. rewrite nth_error_map, H. reflexivity.
Qed.
