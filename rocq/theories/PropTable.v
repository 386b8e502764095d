(** * PropTable: property C82 (tables of numbers, from text to matrices and back).

    Vocabulary: [Table lsep csep t tbl] (FrameSpec.v), the fields of the non-empty lines of a text; [parts header tbl ns body], its column names and data
    lines; [denotes s f], [denotes_int s z] (TableSpec.v), the number in a field.  Element (i, j) of a matrix with n rows is at j * n + i. *)

From Coq Require Import ZArith Bool Ascii String List Lia Floats.SpecFloat Reals Lra.
From Verif Require Import Base Coerce CoerceSpec CoerceProofs Frame FrameSpec FrameProofs FrameText FrameWrite StatsSpec ReadNumSpec ReadNumProofs TableSpec.
From Verif Require StatsProofs PropCoerce PropReadNum PropFrameText PropFrameCol.
Import ListNotations.
Open Scope Z_scope.
Open Scope list_scope.

(** ** What is read *)

Lemma read_parts header lsep csep t tbl ns body : Table lsep csep t tbl -> rectangular tbl -> parts header tbl ns body ->
  exists d, read header lsep csep t = Ok d /\ names d = ns /\ rows d = Z.of_nat (length body) /\ body <> [] /\
    (forall row, In row body -> length row = length ns) /\
    (forall j nc, nth_error (elems d) j = Some nc -> ncolumn nc = text_column (tcolumn body j)).
Proof.
  intros T R P. destruct P as [ns row more U|row more].
  - assert (F : Forall (fun r => length r = length ns) (row :: more)).
    { apply Forall_forall. intros r Hr. apply R; [now right|now left]. }
    destruct (proj2 (PropFrameText.C33_read_header _ _ _ _ _ T F) U) as (d & E & N & Rw & C & _).
    exists d. repeat (split; [assumption|]). split; [discriminate|]. split; [|exact C].
    intros r Hr. rewrite Forall_forall in F. auto.
  - assert (F : Forall (fun r => length r = length row) more).
    { apply Forall_forall. intros r Hr. apply R; [now right|now left]. }
    destruct (PropFrameText.C33_read_no_header _ _ _ _ _ T F) as (d & E & N & Rw & C).
    exists d. repeat (split; [assumption|]). split; [discriminate|]. split; [|exact C].
    intros r Hr. rewrite map_length. destruct Hr as [<-|Hr]; [reflexivity|]. rewrite Forall_forall in F. auto.
Qed.

(** ** Conversions of text columns *)

Lemma stod_total s : (exists f, stod s = Ok f) \/ exists x, stod s = Throw x.
Proof.
  unfold stod. destruct (take_sign (skip_ws s)) as [neg s1]. destruct (has_prefix _ _); [eauto|]. destruct (has_prefix _ _); [eauto|].
  assert (L : forall b n v ex, (exists f, literal_value b n v ex = Ok f) \/ exists x, literal_value b n v ex = Throw x).
  { intros. unfold literal_value. destruct (if 0 <=? ex then _ else _); try (destruct (_ && _)); eauto. }
  destruct (hex_part s1).
  - destruct (take_mant _ _) as [[[v k] kf] r]. apply L.
  - destruct (take_mant _ _) as [[[v k] kf] r]. destruct (Nat.eqb k 0); [eauto|apply L].
Qed.

Lemma coerce_text T s : (exists c, coerce1 default_rules T (CStr s) = Ok c) \/ exists x, coerce1 default_rules T (CStr s) = Throw x.
Proof.
  unfold coerce1, default_rules. cbn [type_of].
  destruct T; cbn [on_type rule_num rule_str rule_idx rule_int rule_uint witness]; eauto.
  - destruct (stod_total s) as [[f ->]|[x ->]]; cbn [bindO]; eauto.
  - unfold stoul. destruct (parse_dec s) as [[neg v]|]; cbn [bindO]; eauto. destruct (W <=? v); cbn [bindO]; eauto.
  - unfold stoi. destruct (parse_dec s) as [[neg v]|]; cbn [bindO]; eauto. destruct (_ && _); cbn [bindO]; eauto.
  - unfold stoul. destruct (parse_dec s) as [[neg v]|]; cbn [bindO]; eauto. destruct (W <=? v); cbn [bindO]; eauto.
    destruct (_ <? _); eauto.
Qed.

Lemma text_wt l : col_wt (text_column l).
Proof. cbn. apply Forall_forall. intros x Hx. apply in_map_iff in Hx. destruct Hx as (s & <- & _). reflexivity. Qed.

Lemma text_coerced T l cs : l <> [] -> Forall2 (fun s c => coerce1 default_rules T (CStr s) = Ok c) l cs -> coerced_to default_rules T (text_column l) cs.
Proof.
  intros N F. eexists. split; [reflexivity|]. cbn [mty mcells]. destruct (ty_eqb T TStr) eqn:E.
  - left. apply ty_eqb_eq in E. subst T. split; [reflexivity|]. clear N. induction F as [|s c l cs H _ IH]; [reflexivity|].
    cbn in H. injection H as <-. cbn [map]. now f_equal.
  - right. split; [|split].
    + intros X. subst T. discriminate.
    + intros X. destruct F as [|s c l cs H _]; [congruence|]. unfold coerce1 in H. cbn [type_of] in H. rewrite X in H. discriminate.
    + clear N E. induction F; constructor; auto.
Qed.

Lemma rows_rect d n : rows d = n -> (forall j nc, nth_error (elems d) j = Some nc -> col_size (ncolumn nc) = n) -> rect d.
Proof.
  intros E H. unfold rect. apply Forall_forall. intros nc Hin. apply In_nth_error in Hin. destruct Hin as [j Hj]. rewrite E. eauto.
Qed.

Lemma tcolumn_nth (body : list (list text)) j i row s : nth_error body i = Some row -> nth_error row j = Some s -> nth_error (tcolumn body j) i = Some s.
Proof. intros A B. unfold tcolumn. rewrite nth_error_map, A. cbn. f_equal. now apply nth_error_nth. Qed.

Lemma matrix_text T body d :
  rows d = Z.of_nat (length body) -> body <> [] ->
  (forall j nc, nth_error (elems d) j = Some nc -> ncolumn nc = text_column (tcolumn body j)) ->
  (forall row s, In row body -> In s row -> exists c, coerce1 default_rules T (CStr s) = Ok c) ->
  (forall row, In row body -> length row = length (elems d)) ->
  exists data, to_matrix default_rules T d = Ok (Z.of_nat (length body), Z.of_nat (length (elems d)), data) /\
    length data = (length body * length (elems d))%nat /\
    forall i j row s, nth_error body i = Some row -> nth_error row j = Some s ->
      exists c, nth_error data (j * length body + i) = Some c /\ coerce1 default_rules T (CStr s) = Ok c.
Proof.
  intros R N C H Len.
  assert (R' : rect d).
  { apply (rows_rect d _ R). intros j nc Hj. rewrite (C _ _ Hj). rewrite text_column_size, tcolumn_length. reflexivity. }
  assert (W' : forall nc, In nc (elems d) -> col_wt (ncolumn nc)).
  { intros nc Hin. apply In_nth_error in Hin. destruct Hin as [j Hj]. rewrite (C _ _ Hj). apply text_wt. }
  assert (HL : exists L, Forall2 (fun nc l => exists j, nth_error (elems d) j = Some nc /\ Forall2 (fun s c => coerce1 default_rules T (CStr s) = Ok c) (tcolumn body j) l) (elems d) L
             /\ forall j, (j < length (elems d))%nat -> exists l, nth_error L j = Some l /\ Forall2 (fun s c => coerce1 default_rules T (CStr s) = Ok c) (tcolumn body j) l).
  { assert (G : forall j, (j < length (elems d))%nat -> exists l, Forall2 (fun s c => coerce1 default_rules T (CStr s) = Ok c) (tcolumn body j) l).
    { intros j Hj. clear N C R R' W'. unfold tcolumn. induction body as [|row body IH]; [exists []; constructor|].
      destruct IH as [l Hl]; [intros; eapply H; [right|]; eauto|intros; apply Len; now right|].
      destruct (H row (nth j row [])) as [c Hc]; [now left|apply nth_In; rewrite Len by (now left); exact Hj|]. exists (c :: l). now constructor. }
    assert (G2 : forall k es, length es = k -> (forall j nc, nth_error es j = Some nc -> nth_error (elems d) (length (elems d) - k + j) = Some nc) -> (k <= length (elems d))%nat ->
      exists L, Forall2 (fun nc l => exists j, nth_error (elems d) j = Some nc /\ Forall2 (fun s c => coerce1 default_rules T (CStr s) = Ok c) (tcolumn body j) l) es L
       /\ forall j, (j < k)%nat -> exists l, nth_error L j = Some l /\ Forall2 (fun s c => coerce1 default_rules T (CStr s) = Ok c) (tcolumn body (length (elems d) - k + j)) l).
    { intros k. induction k as [|k IH]; intros es L E K.
      - destruct es; [|discriminate]. exists []. split; [constructor|intros; lia].
      - destruct es as [|nc es]; [discriminate|]. injection L as L. destruct (IH es L) as (L' & A & B).
        + intros j nc' Hj. specialize (E (S j) nc' Hj). replace (length (elems d) - k + j)%nat with (length (elems d) - S k + S j)%nat by lia. exact E.
        + lia.
        + destruct (G (length (elems d) - S k)%nat) as [l Hl]; [lia|]. exists (l :: L'). split.
          * constructor; [|exact A]. exists (length (elems d) - S k)%nat. split; [|exact Hl]. specialize (E O nc eq_refl). now rewrite Nat.add_0_r in E.
          * intros [|j] Hj; cbn [nth_error]; [rewrite Nat.add_0_r; eauto|]. destruct (B j) as (l' & B1 & B2); [lia|]. exists l'. split; [exact B1|].
            now replace (length (elems d) - S k + S j)%nat with (length (elems d) - k + j)%nat by lia. }
    destruct (G2 (length (elems d)) (elems d) eq_refl) as (L & A & B).
    - intros j nc Hj. now replace (length (elems d) - length (elems d) + j)%nat with j by lia.
    - lia.
    - exists L. split; [exact A|]. intros j Hj. destruct (B j Hj) as (l & B1 & B2). exists l. split; [exact B1|].
      now replace (length (elems d) - length (elems d) + j)%nat with j in B2 by lia. }
  destruct HL as (L & A & B).
  assert (F : Forall2 (fun nc l => coerced_to default_rules T (ncolumn nc) l) (elems d) L).
  { clear B. enough (G : forall es, Forall2 (fun nc l => exists j, nth_error (elems d) j = Some nc /\ Forall2 (fun s c => coerce1 default_rules T (CStr s) = Ok c) (tcolumn body j) l) es L ->
      Forall2 (fun nc l => coerced_to default_rules T (ncolumn nc) l) es L) by now apply G.
    intros es A'. clear A. induction A'  as [|nc l es L (j & Hj & Hl) _ IH]; constructor; [|exact IH].
    rewrite (C _ _ Hj). apply text_coerced; [|exact Hl]. unfold tcolumn. destruct body; [congruence|discriminate]. }
  destruct (PropFrameCol.C39_to_matrix default_rules T d L R' W' F) as (data & E & Ld & El).
  exists data. rewrite R, Nat2Z.id in *. split; [exact E|]. split; [exact Ld|].
  intros i j row s Hi Hj. assert (Hr : In row body) by (eapply nth_error_In; eauto).
  assert (Lj : (j < length (elems d))%nat) by (rewrite <- (Len row Hr); apply nth_error_Some; congruence).
  destruct (B j Lj) as (l & B1 & B2).
  destruct (El i j l) as (x & X1 & X2); [apply nth_error_Some; congruence|exact B1|].
  exists x. split; [exact X1|]. pose proof (tcolumn_nth _ _ _ _ _ Hi Hj) as Tc.
  clear - B2 Tc X2. revert i Tc X2. induction B2 as [|a b la lb H0 _ IH]; intros [|i] Tc X2; cbn in *; try discriminate; [congruence|eauto].
Qed.

(** A text column that does not coerce. *)
Lemma to_vector_text T l : l <> [] ->
  (exists cs, to_vector default_rules T (text_column l) = Ok cs) \/ (exists x, to_vector default_rules T (text_column l) = Throw x).
Proof.
  intros N. unfold to_vector, text_column. cbn [elements_type bindO mty]. destruct (ty_eqb TStr T) eqn:E.
  - cbn [col_data mty]. rewrite E. eauto.
  - unfold to_column, model_coerce. cbn [mty mcells]. destruct (default_rules T TStr) as [f|] eqn:D; cbn [bindO]; [|eauto].
    assert (Hf : forall s, (exists c, f (CStr s) = Ok c) \/ exists x, f (CStr s) = Throw x).
    { intros s. pose proof (coerce_text T s) as H. unfold coerce1 in H. cbn [type_of] in H. now rewrite D in H. }
    assert (M : (exists cs, mapO f (map CStr l) = Ok cs) \/ exists x, mapO f (map CStr l) = Throw x).
    { clear N. induction l as [|s l IH]; cbn [map mapO]; [eauto|]. destruct (Hf s) as [[c ->]|[x ->]]; cbn [bindO]; [|eauto].
      destruct IH as [[cs ->]|[x ->]]; cbn [bindO]; eauto. }
    destruct M as [[cs ->]|[x ->]]; cbn [bindO]; [|eauto]. cbn [col_data mty]. destruct (ty_eqb T T); eauto.
Qed.
Lemma to_vector_bad T l s x : In s l -> coerce1 default_rules T (CStr s) = Throw x -> forall cs, to_vector default_rules T (text_column l) <> Ok cs.
Proof.
  intros I H cs E. apply PropFrameCol.C39_to_vector in E; [|apply text_wt]. destruct E as (m & Em & [[Et _]|(_ & _ & F)]); injection Em as <-; cbn [mty mcells] in *.
  - subst T. discriminate.
  - clear - I H F. revert cs F. induction l as [|a l IH]; intros cs F; [destruct I|]. inversion F; subst. destruct I as [->|I]; [congruence|eauto].
Qed.
Lemma to_matrix_cases T d : (forall nc, In nc (elems d) -> exists l, l <> [] /\ ncolumn nc = text_column l) -> rect d ->
  (exists n, to_matrix default_rules T d = Ok n) \/ (exists x, to_matrix default_rules T d = Throw x).
Proof.
  intros H R. unfold to_matrix.
  assert (M : (exists L, mapO (matrix_data default_rules T) (elems d) = Ok L) \/ exists x, mapO (matrix_data default_rules T) (elems d) = Throw x).
  { clear R. induction (elems d) as [|nc es IH]; cbn [mapO]; [eauto|].
    destruct (H nc) as (l & N & E); [now left|]. change (matrix_data default_rules T nc) with (to_vector default_rules T (ncolumn nc)). rewrite E.
    destruct (to_vector_text T l N) as [[cs ->]|[x ->]]; cbn [bindO]; [|eauto].
    destruct IH as [[L ->]|[x ->]]; [intros; apply H; now right| |]; cbn [bindO]; eauto. }
  destruct M as [[L M]|[x ->]]; cbn [bindO]; [|eauto]. rewrite M. cbn [bindO]. left.
  assert (Len : Forall (fun l => length l = Z.to_nat (rows d)) L).
  { apply mapO_Ok_inv in M. unfold rect in R. clear - M H R. induction M as [|nc l es L E _ IH]; constructor; inversion R; subst.
    - destruct (H nc) as (l0 & _ & E0); [now left|]. change (to_vector default_rules T (ncolumn nc) = Ok l) in E.
      apply PropFrameCol.C39_to_vector in E; [|rewrite E0; apply text_wt]. apply coerced_length in E. lia.
    - apply IH; [intros; apply H; now right|assumption]. }
  rewrite (mapO_map_Ok _ (fun l => l)); [cbn [bindO]; eauto|].
  intros l Hl. rewrite Forall_forall in Len. rewrite <- (Len l Hl). apply mapO_get_all.
Qed.

(** ** From text to a matrix *)

(** For every text whose table has the same number of fields in every line, whatever the element type T: if every field of the data lines coerces to T,
    reading the text and converting to a matrix gives the matrix of those values, one row per data line and one column per field. *)
Theorem C82_matrix : forall T header lsep csep t tbl ns body,
  Table lsep csep t tbl -> rectangular tbl -> parts header tbl ns body ->
  (forall row s, In row body -> In s row -> exists c, coerce1 default_rules T (CStr s) = Ok c) ->
  exists d data, read header lsep csep t = Ok d /\ names d = ns /\
    to_matrix default_rules T d = Ok (Z.of_nat (length body), Z.of_nat (length ns), data) /\
    length data = (length body * length ns)%nat /\
    forall i j row s, nth_error body i = Some row -> nth_error row j = Some s ->
      exists c, nth_error data (j * length body + i) = Some c /\ coerce1 default_rules T (CStr s) = Ok c.
Proof.
  intros T header lsep csep t tbl ns body HT HR HP H. destruct (read_parts _ _ _ _ _ _ _ HT HR HP) as (d & E & En & R & N & Len & C).
  assert (Le : length (elems d) = length ns) by (rewrite <- En; unfold names; now rewrite map_length).
  destruct (matrix_text T body d R N C H) as (data & M & Ld & El); [intros; rewrite Le; auto|].
  exists d, data. rewrite Le in *. auto 6.
Qed.
Print Assumptions C82_matrix.

(** Doubles: a table of numbers becomes the matrix of the nearest doubles. *)
Theorem C82_numbers : forall header lsep csep t tbl ns body,
  Table lsep csep t tbl -> rectangular tbl -> parts header tbl ns body ->
  (forall row s, In row body -> In s row -> exists f, denotes s f) ->
  exists d data, read header lsep csep t = Ok d /\
    to_matrix default_rules TNum d = Ok (Z.of_nat (length body), Z.of_nat (length ns), data) /\
    length data = (length body * length ns)%nat /\
    forall i j row s, nth_error body i = Some row -> nth_error row j = Some s ->
      exists f, nth_error data (j * length body + i) = Some (CNum f) /\ denotes s f.
Proof.
  intros header lsep csep t tbl ns body HT HR HP H.
  assert (Hd : forall s, (exists f, denotes s f) -> exists f, coerce1 default_rules TNum (CStr s) = Ok (CNum f) /\ denotes s f).
  { intros s [f D]. destruct D as [ws s neg r rest f Hw Hn Hl Hr _ _|ws s neg rest Hw Hn Hl|ws sg neg w rest Hw Hs Hi|ws sg neg w rest Hw Hs Hi].
    - destruct (proj1 (PropReadNum.C62_text_to_numeric ws s neg r rest Hw Hn Hl) Hr) as (g & G & Dg & Ng). exists g. split; [exact G|].
      eapply den_number; eauto.
    - exists (S754_zero neg). split; [now apply PropReadNum.C62_zero|now apply den_zero].
    - exists (S754_infinity neg). split; [|eapply den_infinity; eauto].
      now apply (proj1 (PropReadNum.C62_text_words ws sg neg w rest Hw Hs)).
    - exists S754_nan. split; [|eapply den_nan; eauto]. now apply (proj2 (PropReadNum.C62_text_words ws sg neg w rest Hw Hs)). }
  destruct (C82_matrix TNum header lsep csep t tbl ns body HT HR HP) as (d & data & E & _ & M & Ld & El).
  { intros row s A B. destruct (Hd s (H row s A B)) as (f & G & _). eauto. }
  exists d, data. repeat (split; [assumption|]). intros i j row s Hi Hj. destruct (El i j row s Hi Hj) as (c & X & Y).
  destruct (Hd s) as (f & G & D); [eapply H; eapply nth_error_In; eauto|]. exists f. split; [congruence|exact D].
Qed.
Print Assumptions C82_numbers.

(** Integers: the matrix of exactly those integers. *)
Theorem C82_integers : forall header lsep csep t tbl ns body,
  Table lsep csep t tbl -> rectangular tbl -> parts header tbl ns body ->
  (forall row s, In row body -> In s row -> exists z, denotes_int s z /\ - 2 ^ 31 <= z < 2 ^ 31) ->
  exists d data, read header lsep csep t = Ok d /\
    to_matrix default_rules TInt d = Ok (Z.of_nat (length body), Z.of_nat (length ns), data) /\
    length data = (length body * length ns)%nat /\
    forall i j row s z, nth_error body i = Some row -> nth_error row j = Some s -> denotes_int s z ->
      nth_error data (j * length body + i) = Some (CInt z).
Proof.
  intros header lsep csep t tbl ns body HT HR HP H.
  assert (Hd : forall s z, denotes_int s z -> (- 2 ^ 31 <= z < 2 ^ 31 -> coerce1 default_rules TInt (CStr s) = Ok (CInt z)) /\
                                             (~ - 2 ^ 31 <= z < 2 ^ 31 -> coerce1 default_rules TInt (CStr s) = Throw OutOfRange)).
  { intros s z [ws s0 z0 rest Hw Hs Hr]. now apply PropCoerce.C35_text_to_integer. }
  destruct (C82_matrix TInt header lsep csep t tbl ns body HT HR HP) as (d & data & E & _ & M & Ld & El).
  { intros row s A B. destruct (H row s A B) as (z & D & G). exists (CInt z). now apply (Hd s z D). }
  exists d, data. repeat (split; [assumption|]). intros i j row s z Hi Hj D. destruct (El i j row s Hi Hj) as (c & X & Y).
  rewrite X. f_equal. destruct (H row s) as (z' & D' & G'); [eapply nth_error_In; eauto..|].
  destruct (Hd s z D) as [A B]. destruct (Z_le_dec (- 2 ^ 31) z), (Z_lt_dec z (2 ^ 31)); [rewrite A in Y by auto; congruence|..];
    (rewrite B in Y by lia; discriminate).
Qed.
Print Assumptions C82_integers.

(** For every text and every element type: reading throws, or the conversion gives a matrix, or it throws; nothing else happens.  One field of a data
    line that does not coerce is enough for it to throw; for doubles, one field without a number. *)
Theorem C82_otherwise : forall T header lsep csep t tbl ns body,
  Table lsep csep t tbl -> rectangular tbl -> parts header tbl ns body ->
  exists d, read header lsep csep t = Ok d /\
    ((exists m, to_matrix default_rules T d = Ok m) \/ (exists x, to_matrix default_rules T d = Throw x)) /\
    ((exists row s x, In row body /\ In s row /\ coerce1 default_rules T (CStr s) = Throw x) -> exists x, to_matrix default_rules T d = Throw x) /\
    (T = TNum -> (exists row s, In row body /\ In s row /\ no_number s) -> exists x, to_matrix default_rules T d = Throw x).
Proof.
  intros T header lsep csep t tbl ns body HT HR HP. destruct (read_parts _ _ _ _ _ _ _ HT HR HP) as (d & E & En & R & N & Len & C).
  assert (Le : length (elems d) = length ns) by (rewrite <- En; unfold names; now rewrite map_length).
  assert (Tx : forall nc, In nc (elems d) -> exists l, l <> [] /\ ncolumn nc = text_column l).
  { intros nc Hin. apply In_nth_error in Hin. destruct Hin as [j Hj]. exists (tcolumn body j). split; [|eauto]. unfold tcolumn. destruct body; [congruence|discriminate]. }
  assert (R' : rect d).
  { apply (rows_rect d _ R). intros j nc Hj. rewrite (C _ _ Hj). rewrite text_column_size, tcolumn_length. reflexivity. }
  assert (Bad : (exists row s x, In row body /\ In s row /\ coerce1 default_rules T (CStr s) = Throw x) -> exists x, to_matrix default_rules T d = Throw x).
  { intros (row & s & x & Hr & Hs & Hx). destruct (to_matrix_cases T d Tx R') as [[m Hm]|H]; [exfalso|exact H].
    unfold to_matrix in Hm. destruct (mapO (matrix_data default_rules T) (elems d)) as [L| | | |] eqn:M; try discriminate.
    apply mapO_Ok_inv in M. apply In_nth_error in Hr. destruct Hr as [i Hi]. apply In_nth_error in Hs. destruct Hs as [j Hj].
    assert (Lj : (j < length (elems d))%nat).
    { rewrite Le, <- (Len row) by (eapply nth_error_In; eauto). apply nth_error_Some. congruence. }
    destruct (nth_error (elems d) j) as [nc|] eqn:Ej; [|apply nth_error_None in Ej; lia].
    assert (X : exists cs, matrix_data default_rules T nc = Ok cs).
    { clear - M Ej. revert j Ej. induction M as [|a b es L H _ IH]; intros [|j] Ej; cbn in Ej; try discriminate; [injection Ej as <-; eauto|eauto]. }
    destruct X as [cs X]. change (to_vector default_rules T (ncolumn nc) = Ok cs) in X. rewrite (C _ _ Ej) in X.
    refine (to_vector_bad T (tcolumn body j) s x _ Hx cs X). eapply nth_error_In. eapply tcolumn_nth; eauto. }
  exists d. split; [exact E|]. split; [now apply to_matrix_cases|]. split; [exact Bad|].
  intros -> (row & s & Hr & Hs & [A B]). apply Bad. exists row, s, InvalidArgument. repeat (split; [assumption|]). now apply PropReadNum.C62_text_nothing.
Qed.
Print Assumptions C82_otherwise.

(** ** To text and back *)

Lemma to_matrix_concat T d L : rect d -> (forall nc, In nc (elems d) -> col_wt (ncolumn nc)) ->
  Forall2 (fun nc l => coerced_to default_rules T (ncolumn nc) l) (elems d) L ->
  to_matrix default_rules T d = Ok (rows d, Z.of_nat (length (elems d)), concat L).
Proof.
  intros R Wt F. unfold to_matrix.
  assert (M : mapO (matrix_data default_rules T) (elems d) = Ok L).
  { apply mapO_Ok_intro. clear R. induction F as [|nc l es L H _ IH]; constructor; [|apply IH; intros; apply Wt; cbn; auto].
    assert (X : to_vector default_rules T (ncolumn nc) = Ok l) by (apply PropFrameCol.C39_to_vector; auto; apply Wt; cbn; auto). exact X. }
  rewrite M. cbn [bindO].
  assert (Len : Forall (fun l => length l = Z.to_nat (rows d)) L).
  { unfold rect in R. clear - R F. induction F as [|nc l es L H _ IH]; inversion R; subst; constructor; auto. apply coerced_length in H. lia. }
  rewrite (mapO_map_Ok _ (fun l => l)).
  2:{ intros l Hl. rewrite Forall_forall in Len. rewrite <- (Len l Hl). apply mapO_get_all. }
  rewrite map_id. cbn [bindO]. reflexivity.
Qed.

Lemma dec_clean s v : dec_nat s v -> clean is_nl is_tab s.
Proof. intros D c Hc. destruct (proj2 (dec_nat_chars _ _ D) c Hc) as [k Hk]. eapply digit_clean; eauto. Qed.

Lemma ftos_clean f : is_double f -> finite f -> clean is_nl is_tab (ftos f) /\ ftos f <> [].
Proof.
  intros D F. destruct (ftos_six f F D) as (q & Hq & E & _). rewrite E. unfold six.
  assert (P : 0 <= q mod 10 ^ 6 < 10 ^ 6) by (apply Z.mod_pos_bound; lia). destruct (pad6_digits _ P) as [P1 _]. split.
  - intros c Hc. apply in_app_or in Hc. destruct Hc as [Hc|Hc].
    + destruct (minus_sign f); [|destruct Hc]. destruct Hc as [<-|[]]. split; reflexivity.
    + apply in_app_or in Hc. destruct Hc as [Hc|[<-|Hc]]; [now apply (itos_clean (q / 10 ^ 6))|split; reflexivity|]. eapply dec_clean; eauto.
  - intros X. apply app_eq_nil in X. destruct X as [_ X]. apply app_eq_nil in X. destruct X as [_ X]. discriminate.
Qed.

Lemma F2_length {A B} (P : A -> B -> Prop) l l' : Forall2 P l l' -> length l = length l'.
Proof. induction 1; cbn; congruence. Qed.

Lemma number_column_texts c : number_column c -> exists l cs cs',
  (forall n l', texts default_rules (mkN n c) l' <-> l' = l) /\ Forall (clean is_nl is_tab) l /\ Forall (fun s => s <> []) l /\ col_wt c /\
  coerced_to default_rules TNum c cs /\ (l <> [] -> coerced_to default_rules TNum (text_column l) cs') /\ Forall2 close cs cs'.
Proof.
  intros [(l & -> & H)|(l & -> & H)].
  - assert (X : exists cs', Forall2 (fun f c => coerce1 default_rules TNum (CStr (ftos f)) = Ok c) l cs' /\ Forall2 close (map CNum l) cs').
    { induction H as [|f l [D F] _ IH]; [exists []; split; constructor|]. destruct IH as (cs' & A & B).
      destruct (PropReadNum.C62_print_and_read f D F) as (s & f' & E & E' & D' & F' & _ & C & Ex). cbn in E. injection E as <-.
      exists (CNum f' :: cs'). split; constructor; auto. exists f, f'. split; [reflexivity|]. split; [reflexivity|]. now split. }
    destruct X as (cs' & A & B). exists (map ftos l), (map CNum l), cs'. split; [|split; [|split; [|split; [|split; [|split]]]]].
    + intros n l'. split.
      * intros (m & Em & [[Et _]|(_ & g & Eg & F)]); injection Em as <-; [discriminate|]. cbn in Eg. injection Eg as <-. cbn [mcells] in F.
        clear - F. revert l' F. induction l as [|f l IH]; intros l' F; inversion F as [|? ? ? ? X Y]; subst; [reflexivity|]. cbn in X. injection X as <-. cbn [map]. f_equal. auto.
      * intros ->. eexists. split; [reflexivity|]. right. split; [discriminate|]. eexists. split; [reflexivity|]. clear. induction l; cbn; constructor; auto.
    + apply Forall_forall. intros s Hs. apply in_map_iff in Hs. destruct Hs as (f & <- & Hf). rewrite Forall_forall in H. now apply ftos_clean; apply H.
    + apply Forall_forall. intros s Hs. apply in_map_iff in Hs. destruct Hs as (f & <- & Hf). rewrite Forall_forall in H. now apply ftos_clean; apply H.
    + cbn. apply Forall_forall. intros x Hx. apply in_map_iff in Hx. destruct Hx as (f & <- & _). reflexivity.
    + eexists. split; [reflexivity|]. now left.
    + intros N. apply text_coerced; [exact N|]. clear - A. induction A; cbn; constructor; auto.
    + exact B.
  - exists (map itos l), (map (fun z => CNum (dbl z)) l), (map (fun z => CNum (dbl z)) l). split; [|split; [|split; [|split; [|split; [|split]]]]].
    + intros n l'. split.
      * intros (m & Em & [[Et _]|(_ & g & Eg & F)]); injection Em as <-; [discriminate|]. cbn in Eg. injection Eg as <-. cbn [mcells] in F.
        clear - F. revert l' F. induction l as [|f l IH]; intros l' F; inversion F as [|? ? ? ? X Y]; subst; [reflexivity|]. cbn in X. injection X as <-. cbn [map]. f_equal. auto.
      * intros ->. eexists. split; [reflexivity|]. right. split; [discriminate|]. eexists. split; [reflexivity|]. clear. induction l; cbn; constructor; auto.
    + apply Forall_forall. intros s Hs. apply in_map_iff in Hs. destruct Hs as (z & <- & _). apply itos_clean.
    + apply Forall_forall. intros s Hs. apply in_map_iff in Hs. destruct Hs as (z & <- & _). apply itos_nonempty.
    + cbn. apply Forall_forall. intros x Hx. apply in_map_iff in Hx. destruct Hx as (f & <- & _). reflexivity.
    + eexists. split; [reflexivity|]. right. split; [discriminate|]. split; [discriminate|]. cbn [mcells]. clear. induction l; cbn; constructor; auto.
    + intros N. apply text_coerced; [exact N|]. clear - H. induction H as [|z l Hz _ IH]; cbn [map]; constructor; auto.
      rewrite (PropCoerce.C35_integer_text_numeric (CInt z) z (itos z)); [reflexivity|right; now left|exact Hz|reflexivity].
    + clear - H. induction H as [|z l Hz _ IH]; cbn [map]; constructor; auto. exists (dbl z), (dbl z). split; [reflexivity|]. split; [reflexivity|].
      split; [apply StatsProofs.dbl_finite; lia|]. split; [|reflexivity]. rewrite Rminus_diag_eq by reflexivity. rewrite Rabs_R0. lra.
Qed.

(** Writing a dataframe of finite doubles and integers to a text, reading it and converting it to a matrix of doubles gives the matrix of the original,
    each element off by at most one millionth (and exact if it is a multiple of one millionth, such as an integer). *)
Theorem C82_save_and_load : forall d,
  elems d <> [] -> rect d -> unique_names (names d) -> 0 < rows d ->
  (forall nc, In nc (elems d) -> number_column (ncolumn nc)) ->
  Forall (clean is_nl is_tab) (names d) -> last (names d) [] <> [] ->
  exists t d' data data', write default_rules true ["010"%char] ["009"%char] d = (t, Ok tt) /\ read true is_nl is_tab t = Ok d' /\ names d' = names d /\
    to_matrix default_rules TNum d = Ok (rows d, Z.of_nat (length (elems d)), data) /\
    to_matrix default_rules TNum d' = Ok (rows d, Z.of_nat (length (elems d)), data') /\ Forall2 close data data'.
Proof.
  intros d NE R U P Hcol Cn Ln.
  assert (HL : exists L, Forall2 (fun nc l => (forall l', texts default_rules nc l' <-> l' = l) /\ Forall (clean is_nl is_tab) l /\ Forall (fun s => s <> []) l /\ col_wt (ncolumn nc) /\
     exists cs cs', coerced_to default_rules TNum (ncolumn nc) cs /\ (l <> [] -> coerced_to default_rules TNum (text_column l) cs') /\ Forall2 close cs cs') (elems d) L).
  { clear - Hcol. induction (elems d) as [|nc es IH]; [exists []; constructor|].
    destruct IH as (L & A); [intros; apply Hcol; cbn; auto|].
    destruct (number_column_texts _ (Hcol nc (or_introl eq_refl))) as (l & cs & cs' & X & Y & Z & W' & V & V' & B).
    exists (l :: L). constructor; [|exact A]. split; [|split; [exact Y|split; [exact Z|split; [exact W'|exists cs, cs'; auto]]]].
    destruct nc as [n c]. exact (X n). }
  destruct HL as (L & F).
  assert (FT : Forall2 (texts default_rules) (elems d) L).
  { clear - F. induction F as [|nc l es L (A & _) _ IH]; constructor; [now apply A|exact IH]. }
  assert (CL : Forall (Forall (clean is_nl is_tab)) L).
  { clear - F. induction F as [|nc l es L (_ & A & _) _ IH]; constructor; auto. }
  assert (LL : Forall (fun s => s <> []) (last L [])).
  { clear - F NE. destruct (exists_last NE) as (es & nc & E). rewrite E in F.
    apply Forall2_app_inv_l in F. destruct F as (L1 & L2 & _ & F2 & ->). inversion F2 as [|? ? ? ? (_ & _ & A & _) F3]; subst. inversion F3; subst. now rewrite last_last. }
  destruct (PropFrameText.C34_write_read default_rules is_nl is_tab "010"%char "009"%char d L
              eq_refl eq_refl eq_refl NE R U FT Cn CL Ln LL P) as (t & d' & Wr & Rd & Er & Ee & _).
  assert (Nn : forall l, In l L -> l <> []).
  { intros l Hl X. subst l. unfold rect in R. clear - F R P Hl. induction F as [|nc l es L (A & _ & _ & _ & cs & cs' & V & _) _ IH]; [destruct Hl|]. inversion R; subst.
    destruct Hl as [->|Hl]; [|now apply IH]. destruct (proj2 (A []) eq_refl) as (m & Em & [[_ Ec]|(_ & g & _ & Ec)]).
    - rewrite Em in H1. cbn in H1. rewrite Ec in H1. cbn in H1. lia.
    - inversion Ec as [Ex|]. rewrite Em in H1. cbn in H1. rewrite <- Ex in H1. cbn in H1. lia. }
  assert (X : exists Lc Lc', Forall2 (fun nc l => coerced_to default_rules TNum (ncolumn nc) l) (elems d) Lc /\
     Forall2 (fun nc l => coerced_to default_rules TNum (ncolumn nc) l) (elems d') Lc' /\ Forall2 (Forall2 close) Lc Lc' /\
     (forall nc, In nc (elems d') -> col_wt (ncolumn nc)) /\ (forall nc, In nc (elems d) -> col_wt (ncolumn nc)) /\
     Forall2 (fun nc nc' => col_size (ncolumn nc') = col_size (ncolumn nc)) (elems d) (elems d') /\ map nname (elems d') = map nname (elems d)).
  { clear - F Ee Nn. revert Ee. generalize (elems d') as es'. induction F as [|nc l es L (A & _ & _ & Wt & cs & cs' & V & V' & B) _ IH]; intros es' Ee.
    - inversion Ee; subst. exists [], []. repeat split; try constructor; intros ? [].
    - inversion Ee as [|? nc' ? es2 (En & l' & Tx & Ec) Ee']; subst. destruct (IH (fun l0 H0 => Nn l0 (or_intror H0)) es2 Ee') as (Lc & Lc' & X1 & X2 & X3 & X4 & X5 & X6 & X7).
      apply A in Tx. subst l'. specialize (V' (Nn l (or_introl eq_refl))). exists (cs :: Lc), (cs' :: Lc').
      split; [constructor; auto|]. split; [constructor; [rewrite Ec; exact V'|exact X2]|]. split; [constructor; auto|].
      split; [intros c [<-|Hc]; [rewrite Ec; apply text_wt|auto]|]. split; [intros c [<-|Hc]; auto|]. split.
      + constructor; [|exact X6]. rewrite Ec. apply coerced_length in V, V'. pose proof (F2_length _ _ _ B). lia.
      + cbn [map]. now f_equal. }
  destruct X as (Lc & Lc' & X1 & X2 & X3 & X4 & X5 & X6 & X7).
  assert (R' : rect d').
  { unfold rect in *. rewrite Er. clear - X6 R. induction X6 as [|a b la lb H _ IH]; inversion R; subst; constructor; [congruence|auto]. }
  exists t, d', (concat Lc), (concat Lc'). split; [exact Wr|]. split; [exact Rd|]. split; [exact X7|].
  split; [now apply to_matrix_concat|]. split.
  - rewrite <- Er. rewrite (F2_length _ _ _ X6). now apply to_matrix_concat.
  - clear - X3. induction X3 as [|a b la lb H _ IH]; cbn [concat]; [constructor|]. now apply Forall2_app.
Qed.
Print Assumptions C82_save_and_load.

(** ** Concrete cases *)

(** Two columns; a number, NaN, a number with blanks before and letters after it, infinity. *)
Definition two_by_two : text := lit "a" ++ ["009"%char] ++ lit "b" ++ ["010"%char] ++ lit "7" ++ ["009"%char] ++ lit "nan" ++ ["010"; "010"]%char ++ lit "  -2x" ++ ["009"%char] ++ lit "Infinity" ++ ["010"%char].
Lemma one_bounds : (smallest_normal <= 1)%R /\ (7 < huge)%R.
Proof.
  unfold smallest_normal, huge. split.
  - change (powerRZ 2 (-1022)) with (/ 2 ^ Pos.to_nat 1022)%R. rewrite <- Rinv_1. apply Rinv_le_contravar; [lra|]. apply pow_R1_Rle. lra.
  - replace (powerRZ 2 1024) with (powerRZ 2 970 * powerRZ 2 54)%R by (rewrite <- powerRZ_add by lra; reflexivity).
    assert (1 <= powerRZ 2 970)%R by (change (powerRZ 2 970) with (2 ^ Pos.to_nat 970)%R; apply pow_R1_Rle; lra).
    assert (8 <= powerRZ 2 54 - 1)%R by (change (powerRZ 2 54) with (2 ^ Pos.to_nat 54)%R; change (2 ^ Pos.to_nat 54)%R with (IZR 2 ^ 54)%R; rewrite pow_IZR; replace (2 ^ Z.of_nat 54) with 18014398509481984 by reflexivity; lra).
    replace (powerRZ 2 970 * powerRZ 2 54 - powerRZ 2 970)%R with (powerRZ 2 970 * (powerRZ 2 54 - 1))%R by ring. nra.
Qed.
Lemma digit_denotes ws sg neg c k rest : Forall blank ws -> sign_text sg neg -> is_digit c k -> 1 <= k <= 7 ->
  longest (sg ++ [c]) rest -> exists f, denotes (ws ++ (sg ++ [c]) ++ rest) f.
Proof.
  intros Hw Hs Hc Hk HL. assert (N : number (sg ++ [c] ++ []) neg (IZR k * powerRZ 10 0)) by (left; apply lit_whole; [exact Hs|now constructor|constructor]).
  cbn [app] in N. replace (IZR k * powerRZ 10 0)%R with (IZR k) in N by (cbn; ring).
  pose proof one_bounds as [B1 B2]. assert (1 <= IZR k <= 7)%R by (split; apply IZR_le; lia).
  assert (B : (smallest_normal <= IZR k < huge)%R) by lra.
  destruct (proj1 (PropReadNum.C62_text_to_numeric ws (sg ++ [c]) neg (IZR k) rest Hw N HL) B) as (f & _ & D & Ne). exists f. eapply den_number; eauto.
Qed.
Example C82_ex : let body := [[lit "7"; lit "nan"]; [lit "  -2x"; lit "Infinity"]] in
  Table is_nl is_tab two_by_two ([lit "a"; lit "b"] :: body) /\ rectangular ([lit "a"; lit "b"] :: body) /\
  parts true ([lit "a"; lit "b"] :: body) [lit "a"; lit "b"] body /\ (exists f, denotes (lit "7") f) /\ denotes (lit "nan") S754_nan /\ denotes (lit "Infinity") (S754_infinity false) /\
  exists d, read true is_nl is_tab two_by_two = Ok d /\
    to_matrix default_rules TNum d = Ok (2, 2, [CNum (dbl 7); CNum (dbl (-2)); CNum S754_nan; CNum (S754_infinity false)]) /\
    to_matrix default_rules TInt d = Throw InvalidArgument.
Proof.
  cbv zeta. split; [exact (table_Table is_nl is_tab two_by_two)|]. split.
  { intros r r' H H'. cbn in H, H'. repeat (destruct H as [<-|H]); repeat (destruct H' as [<-|H']); try reflexivity; try destruct H; destruct H'. }
  split; [constructor; intros [|[|i]] [|[|j]] n A B _; cbn in A, B; try reflexivity; try discriminate; try (destruct i; discriminate); try (destruct j; discriminate); congruence|].
  split; [apply (digit_denotes [] [] false "7"%char 7 []); [constructor|constructor|cbn; tauto|lia|apply longest_all]|].
  split; [apply (den_nan [] [] false (lit "nan") []); [constructor|constructor|]; repeat constructor|].
  split; [apply (den_infinity [] [] false (lit "Inf") (lit "inity")); [constructor|constructor|]; cbn; constructor; [now right|repeat constructor]|].
  eexists. split; [vm_compute; reflexivity|]. split; vm_compute; reflexivity.
Qed.
Example C82_integers_ex : denotes_int (lit "  -2x") (-2) /\ (- 2 ^ 31 <= -2 < 2 ^ 31) /\ ~ denotes_int (lit "2147483648") 0.
Proof.
  split; [apply (den_int (lit "  ") (lit "-2") (-2) (lit "x"))|split; [lia|]].
  - repeat constructor; cbn; tauto.
  - apply (di_neg ["2"%char] 2). constructor. cbn. tauto.
  - cbn. intros k H. unfold is_digit in H. cbn in H. repeat (destruct H as [H|H]; [discriminate|]). destruct H.
  - intros D. inversion D as [ws s z rest Hw Hs Hr E Ez]. subst.
    destruct (PropCoerce.C35_text_to_integer ws s 0 rest Hw Hs Hr) as [A _]. rewrite E in A. specialize (A ltac:(lia)). vm_compute in A. discriminate.
Qed.

(** A field that is not a number throughout is accepted: what follows the number is dropped, so "1,5" is 1. *)
Theorem C82_trailing_text_refuted : exists t d, read true is_nl is_tab t = Ok d /\ t = lit "a" ++ ["010"%char] ++ lit "1,5" /\
  to_matrix default_rules TNum d = Ok (1, 1, [CNum (dbl 1)]).
Proof. exists (lit "a" ++ ["010"%char] ++ lit "1,5"). eexists. split; [vm_compute; reflexivity|]. split; vm_compute; reflexivity. Qed.
Print Assumptions C82_trailing_text_refuted.

(** Small values are lost on the way through text: 2^-30 comes back as 0.000000. *)
Definition small : df := mkDf 1 [mkN ["a"%char] (col_of TNum [CNum (S754_finite false 4503599627370496 (-82))])] [].
Theorem C82_exact_refuted : exists d t d' data data',
  elems d <> [] /\ rect d /\ unique_names (names d) /\ 0 < rows d /\ (forall nc, In nc (elems d) -> number_column (ncolumn nc)) /\
  Forall (clean is_nl is_tab) (names d) /\ last (names d) [] <> [] /\
  write default_rules true ["010"%char] ["009"%char] d = (t, Ok tt) /\ read true is_nl is_tab t = Ok d' /\
  to_matrix default_rules TNum d = Ok (1, 1, data) /\ to_matrix default_rules TNum d' = Ok (1, 1, data') /\ data <> data'.
Proof.
  exists small. do 4 eexists. split; [discriminate|]. split; [repeat constructor|].
  split; [intros [|i] [|j] n A B _; cbn in A, B; try reflexivity; try discriminate; try (destruct i; discriminate); destruct j; discriminate|].
  split; [reflexivity|]. split.
  { intros nc [<-|[]]. left. exists [S754_finite false 4503599627370496 (-82)]. split; [reflexivity|]. constructor; [|constructor]. split; [|exact Logic.I]. reflexivity. }
  split. { constructor; [|constructor]. intros c [<-|[]]. split; reflexivity. }
  split; [discriminate|]. split; [vm_compute; reflexivity|]. split; [vm_compute; reflexivity|]. split; [vm_compute; reflexivity|].
  split; [vm_compute; reflexivity|discriminate].
Qed.
Print Assumptions C82_exact_refuted.
