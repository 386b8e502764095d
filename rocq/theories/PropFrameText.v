(** * PropFrameText: C33, C34 — reading and writing dataframes. *)

From Coq Require Import ZArith Bool Ascii String List Lia.
From Verif Require Import Base Coerce CoerceSpec CoerceProofs Frame FrameSpec FrameProofs FrameText FrameWrite.
Import ListNotations.
Open Scope Z_scope.
Open Scope list_scope.

(** ** C33: read yields the table of the text or throws *)

(** Every text has exactly one table. *)
Theorem C33_table_unique : forall lsep csep t,
  exists tbl, Table lsep csep t tbl /\ forall tbl', Table lsep csep t tbl' -> tbl' = tbl.
Proof.
  intros. exists (table lsep csep t). split; [apply table_Table|]. apply Table_table.
Qed.
Print Assumptions C33_table_unique.

(** Lines with differing numbers of fields make read throw. *)
Theorem C33_read_ragged : forall h lsep csep t r0 body,
  Table lsep csep t (r0 :: body) -> (exists r, In r body /\ length r <> length r0) ->
  read h lsep csep t = Throw LogicError.
Proof.
  intros h lsep csep t r0 body T (r & Hr & Hl). apply Table_table in T.
  pose proof (read_as_bind h lsep csep t) as R. rewrite <- T in R.
  apply (proj1 (proj2 R)). intros S. unfold same_length in S. rewrite Forall_forall in S. exact (Hl (S r Hr)).
Qed.
Print Assumptions C33_read_ragged.

(** With a header: repeated names throw; otherwise there is one column per field of the first
    non-empty line, carrying that name; row i of column j is the j-th field of the i-th
    following line; lookup by name is right.  Without any following line the columns have
    no data. *)
Theorem C33_read_header : forall lsep csep t r0 body,
  Table lsep csep t (r0 :: body) -> Forall (fun r => length r = length r0) body ->
  (~ unique_names r0 -> read true lsep csep t = Throw LogicError)
  /\ (unique_names r0 ->
       exists d, read true lsep csep t = Ok d /\ names d = r0 /\ rows d = Z.of_nat (length body)
         /\ (forall j nc, nth_error (elems d) j = Some nc ->
               ncolumn nc = match body with [] => None | _ => text_column (tcolumn body j) end)
         /\ lookup_ok d).
Proof.
  intros lsep csep t r0 body T S. apply Table_table in T.
  pose proof (read_as_bind true lsep csep t) as R. rewrite <- T in R. destruct R as (R & _ & P).
  rewrite (R S). clear R.
  set (cols := match body with [] => null_columns r0 | _ => header_columns r0 body end).
  assert (Hn : map nname cols = r0) by (unfold cols; destruct body; [apply null_columns_names|apply header_columns_names]).
  assert (Hc : cols <> []) by (intros X; rewrite X in Hn; subst r0; cbn in P; lia).
  assert (Hs : Forall (fun nc => col_size (ncolumn nc) = Z.of_nat (length body)) cols)
    by (unfold cols; destruct body; [apply null_columns_size|apply header_columns_size]).
  destruct (bind_columns_default cols _ Hc Hs) as [A B]. rewrite Hn in A, B. split; [exact B|].
  intros U. destruct (A U) as (d & E & Ee & Er & G). exists d. unfold names. rewrite Ee.
  split; [exact E|]. split; [exact Hn|]. split; [exact Er|]. split; [|now apply good_lookup].
  intros j nc Hj. unfold cols in Hj. destruct body as [|b body].
  - apply nth_error_In in Hj. unfold null_columns in Hj. apply in_map_iff in Hj. destruct Hj as (x & <- & _). reflexivity.
  - unfold header_columns in Hj. rewrite nth_error_map in Hj.
    destruct (nth_error (seq 0 (length r0)) j) as [k|] eqn:K; [|discriminate].
    injection Hj as <-. cbn [ncolumn].
    assert (Lj : (j < length r0)%nat) by (rewrite <- (seq_length (length r0) 0); apply nth_error_Some; congruence).
    rewrite (nth_error_nth' (seq 0 (length r0)) O) in K by now rewrite seq_length.
    rewrite seq_nth in K by assumption. injection K as <-. reflexivity.
Qed.
Print Assumptions C33_read_header.

(** Without a header: as many unnamed columns as fields in a line, all lines are data. *)
Theorem C33_read_no_header : forall lsep csep t r0 body,
  Table lsep csep t (r0 :: body) -> Forall (fun r => length r = length r0) body ->
  exists d, read false lsep csep t = Ok d /\ names d = map (fun _ => []) r0
    /\ rows d = Z.of_nat (length (r0 :: body))
    /\ (forall j nc, nth_error (elems d) j = Some nc -> ncolumn nc = text_column (tcolumn (r0 :: body) j)).
Proof.
  intros lsep csep t r0 body T S. apply Table_table in T.
  pose proof (read_as_bind false lsep csep t) as R. rewrite <- T in R. destruct R as (R & _ & P).
  rewrite (R S). clear R.
  assert (Hc : anon_columns (length r0) (r0 :: body) <> []).
  { unfold anon_columns. destruct (length r0); [lia|]. discriminate. }
  destruct (bind_columns_default _ _ Hc (anon_columns_size (length r0) (r0 :: body))) as [A _].
  destruct (A (anon_columns_unique _ _)) as (d & E & Ee & Er & _). exists d. unfold names. rewrite Ee.
  split; [exact E|]. split; [|split; [exact Er|]].
  - unfold anon_columns. rewrite map_map. cbn [nname].
    clear. generalize 0%nat. induction r0 as [|a r IH]; intros s; cbn; [reflexivity|]. now rewrite IH.
  - intros j nc Hj. unfold anon_columns in Hj. rewrite nth_error_map in Hj.
    destruct (nth_error (seq 0 (length r0)) j) as [k|] eqn:K; [|discriminate].
    injection Hj as <-. cbn [ncolumn].
    assert (Lj : (j < length r0)%nat) by (rewrite <- (seq_length (length r0) 0); apply nth_error_Some; congruence).
    rewrite (nth_error_nth' (seq 0 (length r0)) O) in K by now rewrite seq_length.
    rewrite seq_nth in K by assumption. injection K as <-. reflexivity.
Qed.
Print Assumptions C33_read_no_header.

(** A text without non-empty lines gives the empty dataframe. *)
Theorem C33_read_empty : forall h lsep csep t,
  Table lsep csep t [] -> read h lsep csep t = Ok df_default.
Proof.
  intros h lsep csep t T. apply Table_table in T.
  pose proof (read_as_bind h lsep csep t) as R. now rewrite <- T in R.
Qed.
Print Assumptions C33_read_empty.

(** For every text, read returns a rectangular dataframe or throws; nothing else happens. *)
Theorem C33_read_total : forall h lsep csep t,
  (exists d, read h lsep csep t = Ok d /\ rect d /\ unique_names (names d) /\ lookup_ok d)
  \/ read h lsep csep t = Throw LogicError.
Proof.
  intros. pose proof (read_as_bind h lsep csep t) as R.
  assert (O : (exists d, read h lsep csep t = Ok d) \/ read h lsep csep t = Throw LogicError).
  { destruct (table lsep csep t) as [|r0 body] eqn:T; [left; eauto|]. destruct R as (R1 & R2 & _).
    destruct (Forall_dec (fun r => length r = length r0) (fun r => Nat.eq_dec _ _) body) as [F|F].
    - rewrite (R1 F). apply bind_columns_outcome.
    - right. now apply R2. }
  destruct O as [[d E]|E]; [left|right; exact E]. exists d. pose proof (read_good _ _ _ _ _ E) as G.
  split; [exact E|]. split; [apply G|]. split; [apply G|]. now apply good_lookup.
Qed.
Print Assumptions C33_read_total.

Definition sample : text :=
  ["a"; "009"; "b"; "010"; "010"; "1"; "009"; "2"; "010"; "3"; "009"; "4"; "010"]%char.
Example C33_ex : exists d, read true is_nl is_tab sample = Ok d
  /\ names d = [["a"]; ["b"]]%char /\ rows d = 2
  /\ map ncolumn (elems d) = [text_column [["1"]; ["3"]]%char; text_column [["2"]; ["4"]]%char].
Proof. eexists. repeat split. Qed.
Example C33_table_ex : Table is_nl is_tab sample [[["a"]; ["b"]]; [["1"]; ["2"]]; [["3"]; ["4"]]]%char.
Proof. exact (table_Table is_nl is_tab sample). Qed.
Example C33_ragged_ex : read true is_nl is_tab ["a"; "009"; "b"; "010"; "1"; "010"]%char = Throw LogicError.
Proof. reflexivity. Qed.
Example C33_dup_ex : read true is_nl is_tab ["a"; "009"; "a"; "010"; "1"; "009"; "1"]%char = Throw LogicError.
Proof. reflexivity. Qed.

(** ** C34: write then read *)

(** What is written: one line with the names (with a header), then one line per row with the
    texts of the cells; lines end with the line separator, fields are separated by the
    column separator. *)
Theorem C34_write_text : forall rs h ls cs d L,
  elems d <> [] -> rect d -> Forall2 (texts rs) (elems d) L ->
  write rs h ls cs d
  = ((if h then write_fields cs (names d) ++ ls else [])
       ++ concat (map (fun i => write_fields cs (map (fun l => nth i l []) L) ++ ls) (seq 0 (Z.to_nat (rows d)))), Ok tt).
Proof.
  intros rs h ls cs d L N R F. rewrite (write_eq rs h ls cs d L N R F). unfold rows_of. now rewrite map_map.
Qed.
Print Assumptions C34_write_text.

(** Reading back what was written with a header gives, for every column, the name and the
    texts of its cells. *)
Theorem C34_write_read : forall rs lsep csep lc cc d L,
  lsep lc = true -> csep cc = true -> lsep cc = false ->
  elems d <> [] -> rect d -> unique_names (names d) ->
  Forall2 (texts rs) (elems d) L ->
  Forall (clean lsep csep) (names d) -> Forall (Forall (clean lsep csep)) L ->
  last (names d) [] <> [] -> Forall (fun s => s <> []) (last L []) ->
  0 < rows d ->
  exists t d', write rs true [lc] [cc] d = (t, Ok tt) /\ read true lsep csep t = Ok d'
    /\ rows d' = rows d
    /\ Forall2 (fun nc nc' => nname nc' = nname nc
                  /\ exists l, texts rs nc l /\ ncolumn nc' = text_column l) (elems d) (elems d')
    /\ lookup_ok d'.
Proof.
  intros rs lsep csep lc cc d L Hl Hc Hlc N R U F Cn CL Ln LL P.
  destruct (written_table rs lsep csep lc cc d L true Hl Hc Hlc N R F (fun _ => conj Cn Ln) CL LL) as (t & W & T).
  cbn [app] in T.
  assert (Len : Forall (fun l => length l = Z.to_nat (rows d)) L).
  { unfold rect in R. clear - R F. induction F; inversion R; subst; constructor; auto. apply texts_length in H. lia. }
  assert (LE : length (names d) = length L).
  { unfold names. rewrite map_length. clear - F. induction F; cbn; congruence. }
  pose proof (read_as_bind true lsep csep t) as RB. rewrite T in RB. destruct RB as (RB & _).
  assert (SL : same_length (length (names d)) (rows_of L (Z.to_nat (rows d)))) by (rewrite LE; apply rows_of_same).
  specialize (RB SL).
  assert (X : match rows_of L (Z.to_nat (rows d)) with [] => null_columns (names d) | _ => header_columns (names d) (rows_of L (Z.to_nat (rows d))) end
            = header_columns (names d) (rows_of L (Z.to_nat (rows d)))).
  { pose proof (rows_of_length L (Z.to_nat (rows d))) as E.
    destruct (rows_of L (Z.to_nat (rows d))); [cbn in E; lia|reflexivity]. }
  rewrite X in RB. clear X.
  assert (HN : header_columns (names d) (rows_of L (Z.to_nat (rows d))) <> []).
  { intros X. pose proof (header_columns_names (names d) (rows_of L (Z.to_nat (rows d)))) as Y. rewrite X in Y.
    cbn in Y. rewrite <- Y in Ln. cbn in Ln. congruence. }
  destruct (bind_columns_default _ _ HN (header_columns_size _ _)) as [A _].
  rewrite header_columns_names in A. destruct (A U) as (d' & E & Ee & Er & G).
  exists t, d'. split; [exact W|]. split; [congruence|]. split; [rewrite Er, rows_of_length; lia|].
  split; [|now apply good_lookup].
  rewrite Ee, header_columns_of by assumption. unfold names. clear - F.
  induction F as [|nc l es L H _ IH]; cbn; constructor; auto. cbn. split; [reflexivity|]. eauto.
Qed.
Print Assumptions C34_write_read.

(** For columns of text, the columns come back unchanged. *)
Theorem C34_write_read_text : forall rs lsep csep lc cc d,
  lsep lc = true -> csep cc = true -> lsep cc = false ->
  elems d <> [] -> rect d -> unique_names (names d) -> 0 < rows d ->
  (forall nc, In nc (elems d) -> exists l, ncolumn nc = text_column l /\ Forall (clean lsep csep) l) ->
  Forall (clean lsep csep) (names d) -> last (names d) [] <> [] ->
  (forall l, ncolumn (last (elems d) (mkN [] None)) = text_column l -> Forall (fun s => s <> []) l) ->
  exists t d', write rs true [lc] [cc] d = (t, Ok tt) /\ read true lsep csep t = Ok d'
    /\ rows d' = rows d /\ elems d' = elems d /\ lookup_ok d'.
Proof.
  intros rs lsep csep lc cc d Hl Hc Hlc N R U P Hcol Cn Ln Ll.
  assert (HL : exists L, Forall2 (texts rs) (elems d) L
                 /\ Forall2 (fun nc l => ncolumn nc = text_column l) (elems d) L
                 /\ Forall (Forall (clean lsep csep)) L).
  { clear - Hcol. induction (elems d) as [|nc es IH]; [exists []; repeat split; constructor|].
    destruct IH as (L & A & B & C); [intros; apply Hcol; cbn; auto|].
    destruct (Hcol nc) as (l & E & Cl); [cbn; auto|]. exists (l :: L).
    split; [|split; constructor; auto]. constructor; auto.
    exists (mkModel TStr (map CStr l)). split; [exact E|]. left. split; reflexivity. }
  destruct HL as (L & F & F2 & CL).
  assert (LL : Forall (fun s => s <> []) (last L [])).
  { destruct (exists_last N) as (es & nc & E). rewrite E in *. rewrite last_last in Ll.
    apply Forall2_app_inv_l in F2. destruct F2 as (L1 & L2 & _ & F2 & ->).
    inversion F2 as [|? ? ? ? E1 F3]; subst. inversion F3; subst. rewrite last_last. auto. }
  destruct (C34_write_read rs lsep csep lc cc d L Hl Hc Hlc N R U F Cn CL Ln LL P) as (t & d' & W & Rd & Er & Ee & G).
  exists t, d'. split; [exact W|]. split; [exact Rd|]. split; [exact Er|]. split; [|exact G].
  clear - Ee Hcol. induction Ee as [|nc nc' es es' [A (l & T & B)] _ IH]; [reflexivity|].
  f_equal; [|apply IH; intros; apply Hcol; cbn; auto].
  destruct (Hcol nc) as (l' & E & _); [cbn; auto|]. destruct T as (m & Em & T).
  rewrite E in Em. injection Em as <-. destruct T as [[_ T]|[T _]]; [|cbn in T; congruence].
  cbn in T. destruct nc as [n c], nc' as [n' c']; cbn in *. subst. f_equal. unfold text_column. now rewrite T.
Qed.
Print Assumptions C34_write_read_text.

(** Without a header: the unnamed columns of the texts. *)
Theorem C34_write_read_no_header : forall rs lsep csep lc cc d L,
  lsep lc = true -> csep cc = true -> lsep cc = false ->
  elems d <> [] -> rect d -> Forall2 (texts rs) (elems d) L ->
  Forall (Forall (clean lsep csep)) L -> Forall (fun s => s <> []) (last L []) ->
  0 < rows d ->
  exists t d', write rs false [lc] [cc] d = (t, Ok tt) /\ read false lsep csep t = Ok d'
    /\ rows d' = rows d /\ elems d' = map (fun l => mkN [] (text_column l)) L.
Proof.
  intros rs lsep csep lc cc d L Hl Hc Hlc N R F CL LL P.
  destruct (written_table rs lsep csep lc cc d L false Hl Hc Hlc N R F ltac:(discriminate) CL LL) as (t & W & T).
  cbn [app] in T.
  assert (Len : Forall (fun l => length l = Z.to_nat (rows d)) L).
  { unfold rect in R. clear - R F. induction F; inversion R; subst; constructor; auto. apply texts_length in H. lia. }
  pose proof (read_as_bind false lsep csep t) as RB. rewrite T in RB.
  pose proof (rows_of_length L (Z.to_nat (rows d))) as RL.
  pose proof (rows_of_same L (Z.to_nat (rows d))) as RS.
  pose proof (anon_columns_of L _ Len) as AC.
  remember (rows_of L (Z.to_nat (rows d))) as body. destruct body as [|r0 body]; [cbn in RL; lia|].
  destruct RB as (RB & _). inversion RS as [|? ? RS0 RS1]; subst. rewrite RS0 in RB. specialize (RB RS1).
  assert (HN : anon_columns (length L) (r0 :: body) <> []).
  { rewrite AC. destruct L; [inversion F; congruence|discriminate]. }
  destruct (bind_columns_default _ _ HN (anon_columns_size _ _)) as [A _].
  destruct (A (anon_columns_unique _ _)) as (d' & E & Ee & Er & _).
  exists t, d'. split; [exact W|]. split; [congruence|]. split; [rewrite Er; lia|]. congruence.
Qed.
Print Assumptions C34_write_read_no_header.

(** A dataframe with columns "a" (integers) and "b" (text) satisfies the hypotheses. *)
Definition mixed : df :=
  mkDf 2 [mkN ["a"%char] (col_of TInt [CInt 1; CInt (-2)]); mkN ["b"%char] (col_of TStr [CStr ["x"%char]; CStr ["y"%char]])] [].
Example C34_ex : exists L t d',
  Forall2 (texts default_rules) (elems mixed) L
  /\ Forall (Forall (clean is_nl is_tab)) L /\ Forall (fun s => s <> []) (last L [])
  /\ write default_rules true ["010"%char] ["009"%char] mixed = (t, Ok tt)
  /\ t = ["a"; "009"; "b"; "010"; "1"; "009"; "x"; "010"; "-"; "2"; "009"; "y"; "010"]%char
  /\ read true is_nl is_tab t = Ok d'
  /\ map ncolumn (elems d') = [text_column [["1"]; ["-"; "2"]]%char; text_column [["x"]; ["y"]]%char].
Proof.
  exists [[["1"]; ["-"; "2"]]; [["x"]; ["y"]]]%char. do 2 eexists.
  split; [|split; [|split; [|split; [|split; [|split]]]]].
  - constructor; [|constructor; [|constructor]].
    + eexists. split; [reflexivity|]. right. split; [discriminate|]. eexists. split; [reflexivity|].
      constructor; [reflexivity|constructor; [reflexivity|constructor]].
    + eexists. split; [reflexivity|]. left. split; reflexivity.
  - repeat constructor; cbn in H; repeat (destruct H as [<-|H]; [reflexivity|]); destruct H.
  - repeat constructor; discriminate.
  - reflexivity.
  - reflexivity.
  - reflexivity.
  - reflexivity.
Qed.

(** Reading, writing and reading again gives the same dataframe (a text that was read contains
    no separators inside its fields), when no line of the table ends in an empty field. *)
Theorem C34_read_write_read : forall rs lsep csep lc cc t tbl d,
  lsep lc = true -> csep cc = true -> lsep cc = false ->
  Table lsep csep t tbl -> (forall r, In r tbl -> last r [] <> []) ->
  read true lsep csep t = Ok d -> 0 < rows d ->
  exists t' d', write rs true [lc] [cc] d = (t', Ok tt) /\ read true lsep csep t' = Ok d'
    /\ rows d' = rows d /\ elems d' = elems d.
Proof.
  intros rs lsep csep lc cc t tbl d Hl Hc Hlc T Hla E P.
  destruct tbl as [|r0 body]; [rewrite (C33_read_empty true _ _ _ T) in E; injection E as <-; cbn in P; lia|].
  assert (S : Forall (fun r => length r = length r0) body).
  { apply Forall_forall. intros r Hr. destruct (Nat.eq_dec (length r) (length r0)) as [X|X]; [exact X|].
    rewrite (C33_read_ragged true _ _ _ _ _ T (ex_intro _ r (conj Hr X))) in E. discriminate. }
  destruct (C33_read_header _ _ _ _ _ T S) as [H1 H2].
  destruct (unique_dec r0) as [U|U]; [|rewrite (H1 U) in E; discriminate].
  destruct (H2 U) as (d0 & E0 & En & Er & Ec & L). rewrite E in E0. injection E0 as <-.
  pose proof (read_good _ _ _ _ _ E) as G.
  pose proof (Table_clean _ _ _ _ T) as CT.
  destruct body as [|b body]; [cbn in Er; lia|].
  assert (NE : elems d <> []).
  { intros X. unfold names in En. rewrite X in En. cbn in En. subst r0. apply (Hla []); cbn; auto. }
  assert (Len : length (elems d) = length r0) by (rewrite <- En; unfold names; now rewrite map_length).
  assert (TC : forall j, Forall (clean lsep csep) (tcolumn (b :: body) j)).
  { intros j. apply Forall_forall. intros s Hs. unfold tcolumn in Hs. apply in_map_iff in Hs.
    destruct Hs as (r & <- & Hr). destruct (nth_in_or_default j r []) as [I|X]; [|rewrite X; intros c []].
    apply (CT r); cbn; auto. }
  destruct (C34_write_read_text rs lsep csep lc cc d Hl Hc Hlc NE) as (t' & d' & A); try apply G; auto.
  - intros nc Hin. apply In_nth_error in Hin. destruct Hin as [j Hj].
    exists (tcolumn (b :: body) j). split; [exact (Ec j nc Hj)|apply TC].
  - rewrite En. apply Forall_forall. intros s Hs. apply (CT r0); cbn; auto.
  - rewrite En. apply Hla. cbn; auto.
  - intros l Hcol.
    assert (K : nth_error (elems d) (length (elems d) - 1) = Some (last (elems d) (mkN [] None))).
    { destruct (exists_last NE) as (es & nc & ->). rewrite last_last, app_length. cbn.
      replace (length es + 1 - 1)%nat with (length es) by lia. apply nth_error_snoc. }
    apply Ec in K. rewrite Hcol in K.
    assert (El : map CStr l = map CStr (tcolumn (b :: body) (length (elems d) - 1))) by (unfold text_column in K; injection K; auto).
    assert (El' : l = tcolumn (b :: body) (length (elems d) - 1)).
    { clear - El. revert El. generalize (tcolumn (b :: body) (length (elems d) - 1)). induction l as [|x l IH]; intros [|y l'] H; try discriminate; auto.
      cbn in H. injection H as -> H. f_equal. auto. }
    rewrite El'. apply Forall_forall. intros s Hs. unfold tcolumn in Hs. apply in_map_iff in Hs.
    destruct Hs as (r & <- & Hr).
    assert (Lr : length r = length r0) by (rewrite Forall_forall in S; apply S; exact Hr).
    rewrite Len, <- Lr. rewrite <- last_nth_pos. apply Hla. right. exact Hr.
  - exists t', d'. tauto.
Qed.
Print Assumptions C34_read_write_read.
Example C34_rwr_ex : exists d, read true is_nl is_tab sample = Ok d /\ 0 < rows d
  /\ write default_rules true ["010"%char] ["009"%char] d
     = (["a"; "009"; "b"; "010"; "1"; "009"; "2"; "010"; "3"; "009"; "4"; "010"]%char, Ok tt).
Proof. eexists. repeat split. Qed.

(** Columns of integers: what was written is read back as text, and coercing that text gives
    the original columns. *)
Theorem C34_integer_columns : forall d,
  elems d <> [] -> rect d -> unique_names (names d) -> 0 < rows d ->
  (forall nc, In nc (elems d) -> exists l, ncolumn nc = col_of TInt (map CInt l)
                                  /\ Forall (fun z => - 2 ^ 31 <= z < 2 ^ 31) l) ->
  Forall (clean is_nl is_tab) (names d) -> last (names d) [] <> [] ->
  exists t d', write default_rules true ["010"%char] ["009"%char] d = (t, Ok tt)
    /\ read true is_nl is_tab t = Ok d' /\ rows d' = rows d
    /\ Forall2 (fun nc nc' => nname nc' = nname nc
                  /\ to_column default_rules TInt (ncolumn nc') = Ok (ncolumn nc)) (elems d) (elems d').
Proof.
  intros d NE R U P Hcol Cn Ln.
  assert (HL : exists L, Forall2 (texts default_rules) (elems d) L
                /\ Forall2 (fun nc l => exists zs, ncolumn nc = col_of TInt (map CInt zs) /\ Forall (fun z => - 2 ^ 31 <= z < 2 ^ 31) zs
                                        /\ l = map itos zs) (elems d) L).
  { clear - Hcol. induction (elems d) as [|nc es IH]; [exists []; split; constructor|].
    destruct IH as (L & A & B); [intros; apply Hcol; cbn; auto|].
    destruct (Hcol nc) as (zs & E & Hz); [cbn; auto|]. exists (map itos zs :: L).
    split; constructor; auto.
    - eexists. split; [exact E|]. right. split; [discriminate|]. eexists. split; [reflexivity|].
      clear. induction zs; cbn; constructor; auto.
    - eauto. }
  destruct HL as (L & F & F2).
  assert (CL : Forall (Forall (clean is_nl is_tab)) L).
  { clear - F2. induction F2 as [|nc l es L (zs & _ & _ & ->) _ IH]; constructor; auto.
    apply Forall_forall. intros s Hs. apply in_map_iff in Hs. destruct Hs as (z & <- & _). apply itos_clean. }
  assert (LL : Forall (fun s => s <> []) (last L [])).
  { destruct (exists_last NE) as (es & nc & E). rewrite E in F2.
    apply Forall2_app_inv_l in F2. destruct F2 as (L1 & L2 & _ & F2 & ->).
    inversion F2 as [|? ? ? ? (zs & _ & _ & ->) F3]; subst. inversion F3; subst. rewrite last_last.
    apply Forall_forall. intros s Hs. apply in_map_iff in Hs. destruct Hs as (z & <- & _). apply itos_nonempty. }
  destruct (C34_write_read default_rules is_nl is_tab "010"%char "009"%char d L
              eq_refl eq_refl eq_refl NE R U F Cn CL Ln LL P) as (t & d' & W & Rd & Er & Ee & _).
  exists t, d'. split; [exact W|]. split; [exact Rd|]. split; [exact Er|].
  clear - Ee Hcol. induction Ee as [|nc nc' es es' [A (l & T & B)] _ IH]; constructor; [|apply IH; intros; apply Hcol; cbn; auto].
  split; [exact A|]. destruct (Hcol nc) as (zs & E & Hz); [cbn; auto|].
  destruct T as (m & Em & T). rewrite E in Em. injection Em as <-. destruct T as [[T _]|[_ (f & Rf & T)]]; [discriminate|].
  cbn in Rf. injection Rf as <-. cbn [mcells] in T.
  assert (El : l = map itos zs).
  { clear - T. revert l T. induction zs as [|z zs IH]; intros l T; inversion T as [|? ? ? ? H1 H2]; subst; [reflexivity|].
    cbn. rewrite <- (IH _ H2). cbn in H1. injection H1 as <-. reflexivity. }
  rewrite B, E, El. unfold to_column, text_column, model_coerce. cbn [mty mcells].
  change (default_rules TInt TStr) with (Some (fun c => coerce1 default_rules TInt c)) || idtac.
  assert (M : match default_rules TInt TStr with None => Throw BadCast | Some f => let* l0 := mapO f (map CStr (map itos zs)) in Ok (mkModel TInt l0) end
            = Ok (mkModel TInt (map CInt zs))).
  { cbn [default_rules]. unfold rule_int. cbn [on_type witness].
    rewrite (mapO_Ok_intro _ _ (map CInt zs)); [reflexivity|].
    clear - Hz. induction Hz as [|z zs Hz _ IH]; cbn [map]; constructor; auto. cbn. now rewrite stoi_itos. }
  rewrite M. reflexivity.
Qed.
Print Assumptions C34_integer_columns.
Example C34_int_ex :
  to_column default_rules TInt (text_column [["1"]; ["-"; "2"]]%char) = Ok (col_of TInt (map CInt [1; -2])).
Proof. reflexivity. Qed.

(** Trailing empty cells are lost: reading back throws. *)
Theorem C34_trailing_empty_refuted : exists d t,
  reach any_cmd [d] /\ rect d /\ unique_names (names d)
  /\ (forall nc, In nc (elems d) -> exists l, ncolumn nc = text_column l /\ Forall (clean is_nl is_tab) l)
  /\ write default_rules true ["010"%char] ["009"%char] d = (t, Ok tt)
  /\ read true is_nl is_tab t = Throw LogicError.
Proof.
  exists (mkDf 1 [mkN ["a"%char] (text_column [["1"%char]]); mkN ["b"%char] (text_column [[]])] [(["a"%char], 0); (["b"%char], 1)]).
  eexists. split; [|split; [|split; [|split; [|split; reflexivity]]]].
  - pose proof (reach_nil _ : reach any_cmd []) as R0.
    exact (reach_step _ _ (CRange [mkN ["a"%char] (text_column [["1"%char]]); mkN ["b"%char] (text_column [[]])]) _ _ R0 I eq_refl (or_introl eq_refl)).
  - repeat constructor.
  - intros i j n Hi Hj _. destruct i as [|[|[|i]]], j as [|[|[|j]]]; cbn in *; congruence.
  - intros nc [<-|[<-|[]]]; eexists; (split; [reflexivity|]); repeat constructor; cbn in H; try destruct H as [<-|[]]; try destruct H; reflexivity.
Qed.

(** A text with a header line only is read, but what was read cannot be written. *)
Theorem C34_header_only_refuted : exists t d,
  read true is_nl is_tab t = Ok d /\ names d = [["a"%char]; ["b"%char]] /\ rows d = 0
  /\ write default_rules true ["010"%char] ["009"%char] d = ([], Throw LogicError).
Proof. exists ["a"; "009"; "b"; "010"]%char. eexists. repeat split. Qed.

(** A failing coercion happens before anything is written. *)
Theorem C34_write_all_or_nothing : forall rs h ls cs d t r,
  elems d <> [] -> rect d -> (forall nc, In nc (elems d) -> col_wt (ncolumn nc)) ->
  (forall u f c c', rs TStr u = Some f -> f c = Ok c' -> type_of c' = TStr) ->
  write rs h ls cs d = (t, r) -> r = Ok tt \/ t = [].
Proof.
  intros rs h ls cs d t r N R Wt Ty H. unfold write in H.
  destruct (negb (df_bool d)) eqn:B; [injection H as <- <-; auto|].
  destruct (mapO (write_data rs) (elems d)) as [data| | | |] eqn:M; try (injection H as <- <-; auto; fail).
  left. apply mapO_Ok_inv in M.
  assert (HL : exists L, data = map (map CStr) L /\ Forall (fun l => length l = Z.to_nat (rows d)) L).
  { unfold rect in R. clear - M R Wt Ty. induction M as [|nc l es data E _ IH]; [exists []; split; constructor|].
    inversion R; subst. destruct IH as (L & -> & F); [assumption|intros; apply Wt; cbn; auto|].
    destruct (write_data_texts rs nc l (Wt nc (or_introl eq_refl)) Ty E) as (l0 & -> & T).
    exists (l0 :: L). split; [reflexivity|]. constructor; auto. lia. }
  destruct HL as (L & -> & F).
  rewrite (mapO_map_Ok _ (fun i => write_fields cs (row_of L i) ++ ls)) in H.
  - injection H as <- <-. reflexivity.
  - intros i Hi. apply in_seq in Hi. eapply write_row_eq; [exact F|lia].
Qed.
Print Assumptions C34_write_all_or_nothing.
Example C34_fail_ex : write default_rules true ["010"%char] ["009"%char]
   (mkDf 1 [mkN ["a"%char] (col_of TInt [CInt 1]); mkN ["b"%char] (col_of TToy [CToy])] []) = ([], Throw BadCast).
Proof. reflexivity. Qed.
