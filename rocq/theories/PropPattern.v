(** * PropPattern: C68 — reading with any regular expressions. *)

From Coq Require Import ZArith Bool Ascii String List Lia.
From Verif Require Import Base Coerce CoerceSpec CoerceProofs Frame FrameSpec FrameProofs FrameText FrameWrite Pattern PatternSpec PatternProofs.
Import ListNotations.
Open Scope Z_scope.
Open Scope list_scope.

(** Cutting ends for every pattern and text, also for patterns that match the empty text; the pieces and the matches
    together are the text; as fields (submatch -1) the pieces are used, without a last empty one, as matches (submatch 0)
    the matches. *)
Theorem C68_pieces : forall p s, search_ok p ->
  exists ts ms fs, length ts = S (length ms) /\ s = weave ts ms /\ trimmed ts fs /\
    re_tokens p true s = Ok fs /\ re_tokens p false s = Ok ms.
Proof. exact tokens_spec. Qed.
Print Assumptions C68_pieces.

(** For a pattern that never matches the empty text: cut at the first match, then at the first match in what follows, and so
    on, and nowhere else. *)
Theorem C68_cuts : forall p s, proper p ->
  exists ts ms fs, Segments p None s ts ms /\ trimmed ts fs /\ re_tokens p true s = Ok fs /\ re_tokens p false s = Ok ms.
Proof. exact tokens_segments. Qed.
Print Assumptions C68_cuts.

(** For every pattern, also one that matches the empty text: exactly the cuts that std::regex_iterator makes. *)
Lemma rest_cuts p f : search_ok p -> forall x, (mu x < f)%nat ->
  exists ts ms, Cuts p (favail x) (fbefore x) (tempty (fmatch x)) (fpost x) ts ms /\
    re_rest f p false x = Ok (fmatch x :: ms) /\ re_rest f p true x = Ok (trim (fpre x :: ts)).
Proof.
  intros K. induction f as [|f IH]; intros x M; [lia|]. cbn [re_rest].
  destruct (re_next p x) as [y|] eqn:E.
  - destruct (re_next_step p x y K E) as [D My]. destruct (IH y) as (ts & ms & C & R0 & R1); [lia|].
    exists (fpre y :: ts), (fmatch y :: ms). rewrite R0, R1. cbn [bindO]. split; [|split; [reflexivity|]].
    + unfold re_next in E. destruct (tempty (fmatch x)) eqn:T.
      * destruct (fpost x) as [|c s'] eqn:P; [discriminate|].
        destruct (p true true (if favail x then fbefore x else None) (c :: s')) as [r|] eqn:R.
        -- apply found_of_inv in E. destruct E as (a & m & q & Er & ->). injection Er as ->. cbn [fpre fmatch fpost favail fbefore app] in *.
           destruct (K _ _ _ _ _ _ _ R) as (_ & Nm & Na). specialize (Nm eq_refl). specialize (Na eq_refl). subst a.
           assert (Tm : tempty m = false) by (destruct m; [congruence|reflexivity]). rewrite Tm in C. now apply cuts_here with (post := q).
        -- apply found_of_inv in E. destruct E as (a & m & q & Er & ->). cbn [fpre fmatch fpost favail fbefore app] in *. eapply cuts_pass; eauto.
      * apply found_of_inv in E. destruct E as (a & m & q & Er & ->). cbn [fpre fmatch fpost favail fbefore app] in *. eapply cuts_more; eauto.
    + unfold trim. cbn [last]. destruct ts as [|t0 ts0]; [inversion C|]. destruct (tempty (last (t0 :: ts0) [])); reflexivity.
  - exists [fpost x], []. split; [|split; [reflexivity|]].
    + unfold re_next in E. destruct (tempty (fmatch x)) eqn:T.
      * destruct (fpost x) as [|c s'] eqn:P; [constructor|].
        destruct (p true true (if favail x then fbefore x else None) (c :: s')) as [[[a m] q]|] eqn:R; [discriminate|].
        destruct (p false false (Some c) s') as [[[a m] q]|] eqn:R2; [discriminate|]. now apply cuts_pass_last.
      * destruct (p false false (fbefore x) (fpost x)) as [[[a m] q]|] eqn:R; [discriminate|]. now apply cuts_last.
    + unfold trim. cbn [last andb]. destruct (tempty (fpost x)) eqn:T; cbn; reflexivity.
Qed.
Theorem C68_cuts_any : forall p s, search_ok p ->
  exists ts ms fs, Cut_text p s ts ms /\ trimmed ts fs /\ re_tokens p true s = Ok fs /\ re_tokens p false s = Ok ms.
Proof.
  intros p s K. unfold re_tokens, re_begin. destruct (p false false None s) as [[[a m] c]|] eqn:E.
  - cbn [found_of app]. set (x := Found _ _ _ _ _). destruct (K _ _ _ _ _ _ _ E) as (D & _ & _).
    destruct (rest_cuts p (2 * length s + 2) K x) as (ts & ms & C & R0 & R1).
    { unfold mu, x. cbn [fpost fmatch]. apply (f_equal (@length _)) in D. rewrite !app_length in D. destruct (tempty m); lia. }
    exists (a :: ts), (m :: ms), (trim (a :: ts)). split; [eapply cut_first; eauto|]. split; [|split; [exact R1|exact R0]].
    apply trim_spec. destruct ts; [inversion C|]. cbn. lia.
  - exists [s], [], [s]. split; [now apply cut_none|]. split; [left; split; [reflexivity|now right]|]. split; reflexivity.
Qed.
Print Assumptions C68_cuts_any.

(** The cuts are determined by the text. *)
Theorem C68_cuts_any_unique : forall p s ts ms ts' ms', Cut_text p s ts ms -> Cut_text p s ts' ms' -> ts' = ts /\ ms' = ms.
Proof.
  intros p s ts ms ts' ms'.
  assert (U : forall av b e s ts ms, Cuts p av b e s ts ms -> forall ts' ms', Cuts p av b e s ts' ms' -> ts' = ts /\ ms' = ms).
  { clear. induction 1; intros ts' ms' H'; inversion H'; subst; try congruence; auto;
      repeat match goal with A : ?t = Some _, B : ?t = Some _ |- _ => rewrite A in B; injection B as; subst end;
      try (match goal with I : forall _ _, Cuts _ _ _ _ _ _ _ -> _, C : Cuts _ _ _ _ _ _ _ |- _ => destruct (I _ _ C) as [-> ->]; auto end). }
  intros A B. inversion A; inversion B; subst; try congruence; auto.
  match goal with A : p false false None s = Some _, B : p false false None s = Some _ |- _ => rewrite A in B; injection B as; subst end.
  match goal with A : Cuts _ _ _ _ _ ?t ?m, B : Cuts _ _ _ _ _ ?t' ?m' |- ?t' = _ /\ _ => destruct (U _ _ _ _ _ _ A _ _ B) as [-> ->]; auto
                | A : Cuts _ _ _ _ _ ?t ?m, B : Cuts _ _ _ _ _ ?t' ?m' |- (_ :: ?t') = (_ :: ?t) /\ _ => destruct (U _ _ _ _ _ _ A _ _ B) as [-> ->]; auto end.
Qed.
Print Assumptions C68_cuts_any_unique.

(** Every text has exactly one table. *)
Theorem C68_table_unique : forall o t, search_ok (line_regex o) -> search_ok (cell_regex o) ->
  exists tbl, Table_by o t tbl /\ forall tbl', Table_by o t tbl' -> tbl' = tbl.
Proof. intros o t Kl Kc. destruct (Table_by_exists o t Kl Kc) as [tbl T]. exists tbl. split; [exact T|]. intros tbl'. now apply Table_by_unique. Qed.
Print Assumptions C68_table_unique.

(** Rows with differing numbers of cells (rows without cells after the first row with cells included) make read throw. *)
Theorem C68_read_ragged : forall o t r0 body, Table_by o t (r0 :: body) -> (exists r, In r body /\ length r <> length r0) ->
  read_by o t = Throw LogicError.
Proof.
  intros o t r0 body T (r & Hr & Hl). destruct (read_by_as_bind o t _ T) as (_ & R & _). apply R.
  intros S. unfold same_length in S. rewrite Forall_forall in S. exact (Hl (S r Hr)).
Qed.
Print Assumptions C68_read_ragged.

(** With a header. *)
Theorem C68_read_header : forall o t r0 body,
  has_header o = true -> Table_by o t (r0 :: body) -> Forall (fun r => length r = length r0) body ->
  (~ unique_names r0 -> read_by o t = Throw LogicError)
  /\ (unique_names r0 ->
       exists d, read_by o t = Ok d /\ names d = r0 /\ rows d = Z.of_nat (length body)
         /\ (forall j nc, nth_error (elems d) j = Some nc ->
               ncolumn nc = match body with [] => None | _ => text_column (tcolumn body j) end)
         /\ lookup_ok d).
Proof.
  intros o t r0 body Hh T S. destruct (read_by_as_bind o t _ T) as (R & _ & P).
  rewrite (R S), Hh. clear R.
  set (cols := match body with [] => null_columns r0 | _ => header_columns r0 body end).
  assert (Hn : map nname cols = r0) by (unfold cols; destruct body; [apply null_columns_names|apply header_columns_names]).
  assert (Hc : cols <> []) by (intros X; rewrite X in Hn; subst r0; cbn in P; lia).
  assert (Hs : Forall (fun nc => col_size (ncolumn nc) = Z.of_nat (length body)) cols)
    by (unfold cols; destruct body; [apply null_columns_size|apply header_columns_size]).
  destruct (bind_columns_default cols _ Hc Hs) as [A B]. rewrite Hn in A, B. split; [exact B|].
  intros U. destruct (A U) as (d & E & Ee & Er & G). exists d. unfold names. rewrite Ee.
  split; [exact E|]. split; [exact Hn|]. split; [exact Er|]. split; [|now apply good_lookup].
  intros j nc Hj. unfold cols in Hj. destruct body as [|b body].
  - apply nth_error_In in Hj. unfold null_columns in Hj. apply in_map_iff in Hj. destruct Hj as (x & <- & _). reflexivity.
  - unfold header_columns in Hj. rewrite nth_error_map in Hj.
    destruct (nth_error (seq 0 (length r0)) j) as [k|] eqn:K; [|discriminate].
    injection Hj as <-. cbn [ncolumn].
    assert (Lj : (j < length r0)%nat) by (rewrite <- (seq_length (length r0) 0); apply nth_error_Some; congruence).
    rewrite (nth_error_nth' (seq 0 (length r0)) O) in K by now rewrite seq_length.
    rewrite seq_nth in K by assumption. injection K as <-. reflexivity.
Qed.
Print Assumptions C68_read_header.

(** Without a header. *)
Theorem C68_read_no_header : forall o t r0 body,
  has_header o = false -> Table_by o t (r0 :: body) -> Forall (fun r => length r = length r0) body ->
  exists d, read_by o t = Ok d /\ names d = map (fun _ => []) r0
    /\ rows d = Z.of_nat (length (r0 :: body))
    /\ (forall j nc, nth_error (elems d) j = Some nc -> ncolumn nc = text_column (tcolumn (r0 :: body) j)).
Proof.
  intros o t r0 body Hh T S. destruct (read_by_as_bind o t _ T) as (R & _ & P).
  rewrite (R S), Hh. clear R.
  assert (Hc : anon_columns (length r0) (r0 :: body) <> []).
  { unfold anon_columns. destruct (length r0); [lia|]. discriminate. }
  destruct (bind_columns_default _ _ Hc (anon_columns_size (length r0) (r0 :: body))) as [A _].
  destruct (A (anon_columns_unique _ _)) as (d & E & Ee & Er & _). exists d. unfold names. rewrite Ee.
  split; [exact E|]. split; [|split; [exact Er|]].
  - unfold anon_columns. rewrite map_map. cbn [nname].
    clear. generalize 0%nat. induction r0 as [|a r IH]; intros s; cbn; [reflexivity|]. now rewrite IH.
  - intros j nc Hj. unfold anon_columns in Hj. rewrite nth_error_map in Hj.
    destruct (nth_error (seq 0 (length r0)) j) as [k|] eqn:K; [|discriminate].
    injection Hj as <-. cbn [ncolumn].
    assert (Lj : (j < length r0)%nat) by (rewrite <- (seq_length (length r0) 0); apply nth_error_Some; congruence).
    rewrite (nth_error_nth' (seq 0 (length r0)) O) in K by now rewrite seq_length.
    rewrite seq_nth in K by assumption. injection K as <-. reflexivity.
Qed.
Print Assumptions C68_read_no_header.

(** No line has a cell: the empty dataframe. *)
Theorem C68_read_empty : forall o t, Table_by o t [] -> read_by o t = Ok df_default.
Proof. intros o t T. exact (read_by_as_bind o t _ T). Qed.
Print Assumptions C68_read_empty.

(** One-character separators: the reading of C33 and C34 (the default ones are newline and tab). *)
Theorem C68_characters : forall h lsep csep t,
  read_by (Options (one_of lsep) true (one_of csep) true h) t = read h lsep csep t.
Proof. exact read_by_one. Qed.
Print Assumptions C68_characters.

(** A literal separator of one or more characters: found where it first occurs. *)
Theorem C68_literal : forall w, w <> [] -> proper (literal w) /\ forall b s,
  (forall a r, literal w false false b s = Some (a, w, r) <->
     s = a ++ w ++ r /\ forall pre post, s = pre ++ w ++ post -> (length a <= length pre)%nat)
  /\ (literal w false false b s = None <-> forall pre post, s <> pre ++ w ++ post).
Proof. intros w N. split; [now apply literal_proper|]. intros b s. split; [intros; apply literal_found|apply literal_none]. Qed.
Print Assumptions C68_literal.

(** Written with literal separators and read with the same: every column comes back with its name and the texts of its cells,
    if the separators can be recognised where they were written. *)
Theorem C68_write_read : forall rs wl wc d L,
  wl <> [] -> wc <> [] ->
  elems d <> [] -> rect d -> unique_names (names d) -> 0 < rows d ->
  Forall2 (texts rs) (elems d) L ->
  Forall (ends_at wc) (names d) -> Forall (Forall (ends_at wc)) L ->
  ends_at wl (write_fields wc (names d)) ->
  (forall i, (i < Z.to_nat (rows d))%nat -> ends_at wl (write_fields wc (map (fun l => nth i l []) L))) ->
  last (names d) [] <> [] -> Forall (fun s => s <> []) (last L []) ->
  exists t d', write rs true wl wc d = (t, Ok tt) /\ read_by (literal_options wl wc true) t = Ok d'
    /\ rows d' = rows d
    /\ Forall2 (fun nc nc' => nname nc' = nname nc
                  /\ exists l, texts rs nc l /\ ncolumn nc' = text_column l) (elems d) (elems d')
    /\ lookup_ok d'.
Proof.
  intros rs wl wc d L Nl Nc N R U P F Cn CL Hn Hr Ln LL.
  assert (Len : Forall (fun l => length l = Z.to_nat (rows d)) L).
  { unfold rect in R. clear - R F. induction F; inversion R; subst; constructor; auto. apply texts_length in H. lia. }
  assert (LE : length (names d) = length L).
  { unfold names. rewrite map_length. clear - F. induction F; cbn; congruence. }
  assert (LN : L <> []) by (intros ->; inversion F; congruence).
  set (body := rows_of L (Z.to_nat (rows d))).
  assert (T : Table_by (literal_options wl wc true) (concat (map (fun r => write_fields wc r ++ wl) (names d :: body))) (names d :: body)).
  { apply table_written_by; try congruence. intros r [<-|Hb]; [auto|].
    unfold body, rows_of in Hb. apply in_map_iff in Hb. destruct Hb as (i & <- & Hi). apply in_seq in Hi. split; [|split].
    - unfold row_of. destruct (exists_last LN) as (L0 & l & ->). rewrite map_app. cbn [map]. rewrite last_last. rewrite last_last in LL.
      apply Forall_app in Len. destruct Len as [_ Len]. inversion Len as [|? ? El _]; subst.
      rewrite Forall_forall in LL. apply LL. apply nth_In. lia.
    - unfold row_of. apply Forall_forall. intros f Hf. apply in_map_iff in Hf. destruct Hf as (l & <- & Hl).
      rewrite Forall_forall in CL, Len. specialize (CL l Hl). specialize (Len l Hl). rewrite Forall_forall in CL. apply CL. apply nth_In. lia.
    - apply Hr. lia. }
  destruct (read_by_as_bind _ _ _ T) as (RB & _ & _).
  assert (SL : same_length (length (names d)) body) by (rewrite LE; apply rows_of_same).
  specialize (RB SL). cbn [literal_options has_header] in RB.
  assert (X : match body with [] => null_columns (names d) | _ => header_columns (names d) body end = header_columns (names d) body).
  { pose proof (rows_of_length L (Z.to_nat (rows d))) as E. fold body in E. destruct body; [cbn in E; lia|reflexivity]. }
  rewrite X in RB. clear X.
  assert (HN : header_columns (names d) body <> []).
  { intros X. pose proof (header_columns_names (names d) body) as Y. rewrite X in Y.
    cbn in Y. rewrite <- Y in Ln. cbn in Ln. congruence. }
  destruct (bind_columns_default _ _ HN (header_columns_size _ _)) as [A _].
  rewrite header_columns_names in A. destruct (A U) as (d' & E & Ee & Er & G).
  exists (concat (map (fun r => write_fields wc r ++ wl) (names d :: body))), d'.
  split; [rewrite (write_eq rs true wl wc d L) by assumption; reflexivity|].
  split; [congruence|]. split; [rewrite Er; unfold body; rewrite rows_of_length; lia|].
  split; [|now apply good_lookup].
  rewrite Ee. unfold body. rewrite header_columns_of by assumption. unfold names. clear - F.
  induction F as [|nc l es L H _ IH]; cbn; constructor; auto. cbn. split; [reflexivity|]. eauto.
Qed.
Print Assumptions C68_write_read.

(** The separator is recognised, for example, when its first character is not in the field. *)
Theorem C68_first_character : forall c w f, ~ In c f -> ends_at (c :: w) f.
Proof. exact first_char_ends. Qed.
Print Assumptions C68_first_character.

(** Runs of characters are patterns; with [+] they never match nothing. *)
Theorem C68_runs : forall f, proper (run_of false f) /\ search_ok (run_of true f).
Proof. intros f. split; [apply run_proper|apply run_ok]. Qed.
Print Assumptions C68_runs.

(** ** Examples *)
Definition txt := list_ascii_of_string.
Definition is_cr (c : ascii) : bool := Ascii.eqb c "013"%char.
Definition is_space (c : ascii) : bool := Ascii.eqb c " "%char.
Definition is_comma (c : ascii) : bool := Ascii.eqb c ","%char.
Definition is_word (c : ascii) : bool := negb (is_space c || is_nl c).
Definition crlf : text := ["013"; "010"]%char.

(** ", " and CR LF as separators; runs of spaces; the words themselves as cells, with a leading line without words. *)
Example C68_ex :
  (exists d, read_by (literal_options crlf (txt ", ") true) (txt "a, b" ++ crlf ++ txt "1,2, 3" ++ crlf) = Ok d
     /\ names d = [txt "a"; txt "b"] /\ map ncolumn (elems d) = [text_column [txt "1,2"]; text_column [txt "3"]]) /\
  (exists d, read_by (Options (one_of is_nl) true (run_of false is_space) true false) (txt "1  20" ++ ["010"%char] ++ txt "300 4") = Ok d
     /\ map ncolumn (elems d) = [text_column [txt "1"; txt "300"]; text_column [txt "20"; txt "4"]]) /\
  (exists d, read_by (Options (one_of is_nl) true (run_of false is_word) false false) (txt "   " ++ ["010"%char] ++ txt "  1  20 " ++ ["010"%char] ++ txt "300 4") = Ok d
     /\ map ncolumn (elems d) = [text_column [txt "1"; txt "300"]; text_column [txt "20"; txt "4"]]) /\
  read_by (Options (one_of is_nl) true (run_of false is_word) false false) (txt "1 20" ++ ["010"%char] ++ txt "   " ++ ["010"%char] ++ txt "300 4") = Throw LogicError /\
  Table_by (Options (one_of is_nl) true (run_of false is_word) false false) (txt " " ++ ["010"%char] ++ txt "1 2") [[txt "1"; txt "2"]] /\
  Segments (literal (txt ", ")) None (txt "a, b,c") [txt "a"; txt "b,c"] [txt ", "].
Proof.
  split; [eexists; repeat split|]. split; [eexists; repeat split|]. split; [eexists; repeat split|]. split; [reflexivity|]. split.
  - exists [txt " "; txt "1 2"], [[]; [txt "1"; txt "2"]]. repeat split. repeat constructor.
  - eapply seg_more; [reflexivity|]. now constructor.
Qed.

(** A dataframe meets the hypotheses of C68_write_read with CR LF and ", ". *)
Definition two_columns : df := mkDf 2 [mkN (txt "a") (text_column [txt "x"; txt "y z"]); mkN (txt "b") (text_column [txt "1"; txt "2"])] [].
Example C68_write_read_ex :
  Forall2 (texts default_rules) (elems two_columns) [[txt "x"; txt "y z"]; [txt "1"; txt "2"]] /\
  Forall (Forall (ends_at (txt ", "))) [[txt "x"; txt "y z"]; [txt "1"; txt "2"]] /\
  (forall i, (i < 2)%nat -> ends_at crlf (write_fields (txt ", ") (map (fun l => nth i l []) [[txt "x"; txt "y z"]; [txt "1"; txt "2"]]))) /\
  fst (write default_rules true crlf (txt ", ") two_columns) = txt "a, b" ++ crlf ++ txt "x, 1" ++ crlf ++ txt "y z, 2" ++ crlf.
Proof.
  split; [|split; [|split; [|reflexivity]]].
  - repeat constructor; (eexists; split; [reflexivity|]; left; split; reflexivity).
  - repeat constructor; apply first_char_ends; cbn; intuition discriminate.
  - intros i Hi. destruct i as [|[|i]]; [| |lia]; apply first_char_ends; cbn; intuition discriminate.
Qed.

(** [,*] on "a,,b": an empty match before "a", the two commas, an empty match before "b" and one at the end. *)
Example C68_cuts_any_ex : Cut_text (run_of true is_comma) (txt "a,,b") [txt ""; txt "a"; txt ""; txt "b"; txt ""] [txt ""; txt ",,"; txt ""; txt ""] /\
  re_tokens (run_of true is_comma) true (txt "a,,b") = Ok [txt ""; txt "a"; txt ""; txt "b"].
Proof.
  split; [|reflexivity]. eapply cut_first; [reflexivity|]. cbn; eapply (cuts_pass _ _ _ "a"%char (txt ",,b")); [reflexivity|reflexivity|].
  cbn. eapply cuts_more; [reflexivity|]. cbn. eapply (cuts_pass _ _ _ "b"%char []); [reflexivity|reflexivity|]. cbn. constructor.
Qed.

(** The natural claim "a text without a separator is one cell" fails for a pattern that can match nothing, such as [,*]. *)
Theorem C68_empty_match_refuted : exists s, (forall c, In c s -> is_comma c = false) /\
  re_tokens (run_of true is_comma) true s = Ok [txt ""; txt "a"; txt "b"].
Proof. exists (txt "ab"). split; [cbn; intuition (subst; reflexivity)|]. reflexivity. Qed.
Print Assumptions C68_empty_match_refuted.

(** A separator that overlaps a field is found too early: cells "a" and "b" joined by "aa" come back as "" and "ab". *)
Theorem C68_overlap_refuted : exists w fs, w <> [] /\ (forall f pre post, In f fs -> f <> pre ++ w ++ post) /\
  re_tokens (literal w) true (write_fields w fs) = Ok [txt ""; txt "ab"] /\ fs = [txt "a"; txt "b"].
Proof.
  exists (txt "aa"), [txt "a"; txt "b"]. split; [discriminate|]. split; [|split; reflexivity].
  intros f pre post Hf E. apply (f_equal (@length _)) in E. rewrite !app_length in E. cbn in Hf, E.
  destruct Hf as [<-|[<-|[]]]; cbn in E; lia.
Qed.
Print Assumptions C68_overlap_refuted.
