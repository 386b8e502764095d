(** * FrameText: reading and writing dataframes. *)

From Coq Require Import ZArith Bool Ascii String List Lia.
From Verif Require Import Base Coerce Frame FrameSpec FrameProofs.
Import ListNotations.
Open Scope Z_scope.
Open Scope list_scope.

(** ** Cutting texts *)

Fixpoint cut (sep : ascii -> bool) (s : text) : list text :=
  match s with
  | [] => [[]]
  | c :: s' =>
      if sep c then [] :: cut sep s'
      else match cut sep s' with
           | a :: r => (c :: a) :: r
           | [] => [[c]]
           end
  end.

Lemma cut_nonempty sep s : cut sep s <> [].
Proof. destruct s as [|c s]; cbn; [discriminate|]. destruct (sep c); [discriminate|]. now destruct (cut sep s). Qed.

Lemma cut_Split sep s : Split sep s (cut sep s).
Proof.
  induction s as [|c s IH]; cbn.
  - constructor. intros c [].
  - destruct (sep c) eqn:E.
    + apply (split_more sep [] c s); auto. intros x [].
    + inversion IH as [s0 H0 E0 E1|s0 x rest segs H0 H1 H2 E0 E1].
      * constructor. intros y [<-|Hy]; auto.
      * change (c :: s0 ++ x :: rest) with ((c :: s0) ++ x :: rest).
        apply split_more; auto. intros y [<-|Hy]; auto.
Qed.

Lemma cut_app sep s : (forall c, In c s -> sep c = false) -> forall r a l,
  cut sep r = a :: l -> cut sep (s ++ r) = (s ++ a) :: l.
Proof.
  intros H. induction s as [|c s IH]; intros r a l E; cbn; [assumption|].
  rewrite H by (cbn; auto). rewrite (IH ltac:(intros; apply H; cbn; auto) _ _ _ E). reflexivity.
Qed.

Lemma Split_cut sep s segs : Split sep s segs -> segs = cut sep s.
Proof.
  induction 1 as [s H|s c rest segs H Hc _ IH].
  - rewrite <- (app_nil_r s) at 2. rewrite (cut_app sep s H [] [] []) by reflexivity. now rewrite app_nil_r.
  - rewrite (cut_app sep s H (c :: rest) [] (cut sep rest)).
    + now rewrite app_nil_r, IH.
    + cbn. now rewrite Hc.
Qed.

(** Dropping a last empty segment that is not alone. *)
Definition drop_last (segs : list text) : list text :=
  if (1 <? Z.of_nat (length segs)) && tempty (last segs []) then removelast segs else segs.

Lemma last_cons {A} (a : A) l d : l <> [] -> last (a :: l) d = last l d.
Proof. destruct l; [congruence|reflexivity]. Qed.

Lemma lt_two {A} (x y : A) l : (1 <? Z.of_nat (length (x :: y :: l))) = true.
Proof. apply Z.ltb_lt. cbn [length]. lia. Qed.

Lemma tokens_from_cut sep s : forall m acc a l,
  cut sep s = a :: l ->
  tokens_from sep m acc s
  = if (m || (1 <? Z.of_nat (length (a :: l)))) && tempty (last ((rev acc ++ a) :: l) [])
    then removelast ((rev acc ++ a) :: l) else (rev acc ++ a) :: l.
Proof.
  induction s as [|c s IH]; intros m acc a l E; cbn in E.
  - injection E as <- <-. cbn. rewrite app_nil_r, orb_false_r.
    destruct acc as [|x acc]; cbn.
    + destruct m; reflexivity.
    + replace (tempty (rev acc ++ [x])) with false by (destruct (rev acc); reflexivity).
      now rewrite !andb_false_r.
  - cbn [tokens_from]. destruct (sep c) eqn:Es.
    + injection E as <- <-.
      destruct (cut sep s) as [|b r] eqn:Ec; [now apply cut_nonempty in Ec|].
      rewrite (IH true [] b r eq_refl). cbn [rev app orb andb].
      rewrite app_nil_r.
      rewrite lt_two, orb_true_r. cbn [andb]. rewrite (last_cons (rev acc)) by discriminate.
      destruct (tempty (last (b :: r) [])); reflexivity.
    + destruct (cut sep s) as [|b r] eqn:Ec; [now apply cut_nonempty in Ec|].
      injection E as <- <-. rewrite (IH m (c :: acc) b r eq_refl). cbn [rev].
      rewrite <- app_assoc. reflexivity.
Qed.

Lemma tokens_cut sep s : tokens sep s = drop_last (cut sep s).
Proof.
  unfold tokens, drop_last. destruct (cut sep s) as [|a l] eqn:E; [now apply cut_nonempty in E|].
  rewrite (tokens_from_cut sep s false [] a l E). reflexivity.
Qed.

Lemma removelast_last_nil (l : list text) : l <> [] -> tempty (last l []) = true -> l = removelast l ++ [[]].
Proof.
  intros N H. rewrite (app_removelast_last [] N) at 1. apply tempty_true in H. now rewrite H.
Qed.

Lemma tokens_Fields sep s : Fields sep s (tokens sep s).
Proof.
  exists (cut sep s). split; [apply cut_Split|]. rewrite tokens_cut. unfold drop_last.
  destruct (1 <? Z.of_nat (length (cut sep s))) eqn:A; cbn [andb].
  - destruct (tempty (last (cut sep s) [])) eqn:B.
    + right. pose proof (removelast_last_nil _ (cut_nonempty sep s) B) as R. split; auto.
      intros X. rewrite X in R. rewrite R in A. discriminate.
    + left. split; auto. left. now apply tempty_false.
  - left. split; auto. right. pose proof (cut_nonempty sep s). destruct (cut sep s); [congruence|].
    cbn [length] in *. apply Z.ltb_ge in A. lia.
Qed.

Lemma Fields_tokens sep s fs : Fields sep s fs -> fs = tokens sep s.
Proof.
  intros (segs & S & H). apply Split_cut in S. subst segs. rewrite tokens_cut. unfold drop_last.
  destruct H as [[-> [H|H]]|[H N]].
  - apply tempty_false in H. rewrite H. now rewrite andb_false_r.
  - rewrite H. reflexivity.
  - rewrite H. rewrite last_last. rewrite app_length. cbn [length].
    destruct fs as [|x fs]; [congruence|].
    replace (1 <? Z.of_nat (length (x :: fs) + 1)) with true by (symmetry; apply Z.ltb_lt; cbn [length]; lia).
    cbn [andb tempty]. now rewrite removelast_last.
Qed.

Lemma tokens_nonempty sep s : tokens sep s <> [].
Proof.
  rewrite tokens_cut. unfold drop_last. pose proof (cut_nonempty sep s) as N.
  destruct (1 <? _) eqn:A; cbn [andb]; [|assumption].
  destruct (tempty _) eqn:B; [|assumption].
  intros X. pose proof (removelast_last_nil _ N B) as R. rewrite X in R. rewrite R in A. discriminate.
Qed.

(** The non-empty tokens are the non-empty segments. *)
Lemma filter_tokens sep s :
  filter (fun l => negb (tempty l)) (tokens sep s) = filter (fun l => negb (tempty l)) (cut sep s).
Proof.
  rewrite tokens_cut. unfold drop_last. destruct (_ && _) eqn:A; [|reflexivity].
  apply andb_true_iff in A. destruct A as [_ B].
  rewrite (removelast_last_nil _ (cut_nonempty sep s) B) at 2. rewrite filter_app. cbn. now rewrite app_nil_r.
Qed.

(** The table of a text, as a function. *)
Definition table (lsep csep : ascii -> bool) (t : text) : list (list text) :=
  map (tokens csep) (filter (fun l => negb (tempty l)) (cut lsep t)).

Lemma table_Table lsep csep t : Table lsep csep t (table lsep csep t).
Proof.
  exists (cut lsep t). split; [apply cut_Split|]. unfold table.
  induction (filter _ _) as [|l r IH]; cbn; constructor; auto. apply tokens_Fields.
Qed.

Lemma Table_table lsep csep t tbl : Table lsep csep t tbl -> tbl = table lsep csep t.
Proof.
  intros (lines & S & F). apply Split_cut in S. subst lines. unfold table.
  induction F as [|l fs r tb H _ IH]; cbn; [reflexivity|]. apply Fields_tokens in H. congruence.
Qed.

(** ** The loop over lines *)

Lemma read_lines_filter csep ls : forall data nc last,
  read_lines csep ls data nc last = read_lines csep (filter (fun l => negb (tempty l)) ls) data nc last.
Proof.
  induction ls as [|l ls IH]; intros; cbn [read_lines filter]; [reflexivity|].
  destruct (tempty l) eqn:E; cbn [negb]; [apply IH|]. cbn [read_lines]. rewrite E.
  destruct (_ || _); auto.
Qed.

Lemma read_lines_more csep ls : Forall (fun l => tempty l = false) ls -> forall data nc,
  0 < nc ->
  read_lines csep ls data nc (Z.of_nat (length data))
  = if forallb (fun r => Z.of_nat (length r) =? nc) (map (tokens csep) ls)
    then Ok (data ++ concat (map (tokens csep) ls), nc) else Throw LogicError.
Proof.
  induction 1 as [|l ls El Hl IH]; intros data nc Hnc; cbn [read_lines map concat forallb].
  - now rewrite app_nil_r.
  - rewrite El. destruct (nc =? 0) eqn:E0; [lia|]. rewrite E0. cbn [orb].
    rewrite app_length, Nat2Z.inj_add.
    replace (Z.of_nat (length data) + Z.of_nat (length (tokens csep l)) - Z.of_nat (length data))
      with (Z.of_nat (length (tokens csep l))) by lia.
    destruct (Z.of_nat (length (tokens csep l)) =? nc); cbn [andb]; [|reflexivity].
    replace (Z.of_nat (length data) + Z.of_nat (length (tokens csep l)))
      with (Z.of_nat (length (data ++ tokens csep l))) by (rewrite app_length; lia).
    rewrite IH by assumption. rewrite <- app_assoc. reflexivity.
Qed.

Lemma read_lines_first csep l ls : tempty l = false -> Forall (fun l => tempty l = false) ls ->
  read_lines csep (l :: ls) [] 0 0
  = let n := Z.of_nat (length (tokens csep l)) in
    if forallb (fun r => Z.of_nat (length r) =? n) (map (tokens csep) ls)
    then Ok (concat (map (tokens csep) (l :: ls)), n) else Throw LogicError.
Proof.
  intros El Hl. cbn [read_lines app]. rewrite El. cbn [Z.eqb]. rewrite Z.sub_0_r.
  assert (P : 0 < Z.of_nat (length (tokens csep l))).
  { pose proof (tokens_nonempty csep l). destruct (tokens csep l); [congruence|cbn; lia]. }
  rewrite Z.eqb_refl, orb_true_r. rewrite read_lines_more by assumption. cbn [map concat]. reflexivity.
Qed.

(** ** Columns out of the flat data *)

Lemma stride_skip k a : forall s b, (length a <= s)%nat -> stride k s (a ++ b) = stride k (s - length a) b.
Proof.
  induction a as [|x a IH]; intros s b H; cbn [app length] in *.
  - now rewrite Nat.sub_0_r.
  - destruct s as [|s]; [lia|]. cbn. apply IH. lia.
Qed.

Lemma stride_skipn k s : forall l, stride k 0 (skipn s l) = stride k s l.
Proof.
  induction s as [|s IH]; intros l; [reflexivity|].
  destruct l as [|a l]; [destruct k; reflexivity|]. cbn. apply IH.
Qed.

Lemma stride_row k r rest j : length r = k -> (j < k)%nat ->
  stride k j (r ++ rest) = nth j r [] :: stride k j rest.
Proof.
  intros Hr Hj.
  rewrite <- (firstn_skipn j r) at 1. rewrite <- app_assoc.
  assert (L1 : length (firstn j r) = j) by (rewrite firstn_length; lia).
  rewrite stride_skip by lia. rewrite L1, Nat.sub_diag.
  destruct (skipn j r) as [|x r2] eqn:E.
  - assert (length (skipn j r) = 0)%nat by now rewrite E. rewrite skipn_length in H. lia.
  - cbn [app stride].
    assert (L2 : length r2 = (k - j - 1)%nat).
    { assert (length (skipn j r) = S (length r2)) by now rewrite E. rewrite skipn_length in H. lia. }
    rewrite stride_skip by lia. rewrite L2. replace (pred k - (k - j - 1))%nat with j by lia.
    f_equal. rewrite <- (firstn_skipn j r) at 1. rewrite app_nth2 by lia. rewrite L1, Nat.sub_diag, E. reflexivity.
Qed.

Lemma stride_rows k j tbl : Forall (fun r => length r = k) tbl -> (j < k)%nat ->
  stride k j (concat tbl) = tcolumn tbl j.
Proof.
  intros H Hj. induction H as [|r tbl Hr _ IH]; cbn [concat]; [reflexivity|].
  rewrite stride_row by assumption. unfold tcolumn in *. cbn. now rewrite IH.
Qed.

Lemma map_nth_seq (l : list text) d : map (fun j => nth j l d) (seq 0 (length l)) = l.
Proof.
  apply (nth_ext _ _ d d).
  - now rewrite map_length, seq_length.
  - intros n H. rewrite map_length, seq_length in H.
    rewrite (nth_indep _ d (nth (length l) l d)) by now rewrite map_length, seq_length.
    rewrite (map_nth (fun j => nth j l d)). rewrite seq_nth by assumption. reflexivity.
Qed.

(** Columns of the table. *)
Definition header_columns (names : list text) (body : list (list text)) : list ncol :=
  map (fun j => mkN (nth j names []) (text_column (tcolumn body j))) (seq 0 (length names)).
Definition null_columns (names : list text) : list ncol := map (fun n => mkN n None) names.
Definition anon_columns (n : nat) (body : list (list text)) : list ncol :=
  map (fun j => mkN [] (text_column (tcolumn body j))) (seq 0 n).

Definition same_length (n : nat) (tbl : list (list text)) : Prop := Forall (fun r => length r = n) tbl.

Lemma forallb_same n tbl :
  forallb (fun r => Z.of_nat (length r) =? Z.of_nat n) tbl = true <-> same_length n tbl.
Proof.
  unfold same_length. rewrite forallb_forall, Forall_forall.
  split; intros H r Hr; specialize (H r Hr); [apply Z.eqb_eq in H; lia|apply Z.eqb_eq; lia].
Qed.

Lemma concat_length n tbl : same_length n tbl -> length (concat tbl) = (length tbl * n)%nat.
Proof. induction 1 as [|r tbl H _ IH]; cbn; [reflexivity|]. rewrite app_length, H, IH. reflexivity. Qed.

Lemma read_as_bind h lsep csep t :
  match table lsep csep t with
  | [] => read h lsep csep t = Ok df_default
  | r0 :: body =>
      let n := length r0 in
      (same_length n body ->
         read h lsep csep t =
           bind_columns (if h then match body with [] => null_columns r0 | _ => header_columns r0 body end
                         else anon_columns n (r0 :: body)) df_default)
      /\ (~ same_length n body -> read h lsep csep t = Throw LogicError)
      /\ (0 < n)%nat
  end.
Proof.
  unfold read. rewrite read_lines_filter, filter_tokens.
  unfold table. set (ls := filter _ (cut lsep t)).
  assert (Hls : Forall (fun l => tempty l = false) ls).
  { apply Forall_forall. intros l Hl. apply filter_In in Hl. destruct Hl as [_ Hl]. now apply negb_true_iff in Hl. }
  destruct ls as [|l ls]; [reflexivity|]. cbn [map].
  inversion Hls as [|? ? El Hl]; subst.
  rewrite read_lines_first by assumption. set (r0 := tokens csep l). set (body := map (tokens csep) ls).
  cbv zeta. cbn [map]. fold r0 body.
  assert (P : (0 < length r0)%nat).
  { unfold r0. pose proof (tokens_nonempty csep l). destruct (tokens csep l); [congruence|cbn; lia]. }
  destruct (forallb _ body) eqn:F.
  2:{ split; [|split; auto]. intros S. apply forallb_same in S. congruence. }
  apply forallb_same in F. split; [|split; auto; intros N; congruence]. intros _.
  cbn [bindO]. destruct (Z.of_nat (length r0) =? 0) eqn:Z0; [lia|]. rewrite Nat2Z.id.
  assert (Full : same_length (length r0) (r0 :: body)) by (constructor; auto).
  pose proof (concat_length _ _ Full) as CL. rewrite CL.
  assert (Q : Z.of_nat (length (r0 :: body) * length r0) / Z.of_nat (length r0) = Z.of_nat (length (r0 :: body)))
    by (rewrite Nat2Z.inj_mul; apply Z.div_mul; lia).
  rewrite Q. cbn [length].
  assert (Nth : forall j, (j < length r0)%nat -> nth j (concat (r0 :: body)) [] = nth j r0 []).
  { intros j Hj. cbn [concat]. rewrite app_nth1 by assumption. reflexivity. }
  destruct h; cbn [andb].
  - destruct (Z.of_nat (S (length body)) =? 1) eqn:E1.
    + apply Z.eqb_eq in E1. assert (Eb : body = []) by (clear - E1; destruct body; [reflexivity|cbn [length] in E1; lia]).
      clearbody body. subst body.
      f_equal. unfold null_columns, col_default.
      transitivity (map (fun n => mkN n None) (map (fun j => nth j r0 []) (seq 0 (length r0))));
        [|now rewrite map_nth_seq].
      rewrite map_map. apply map_ext_in.
      intros j Hj. apply in_seq in Hj. now rewrite Nth by lia.
    + apply Z.eqb_neq in E1. clearbody body.
      assert (Eb : match body with [] => null_columns r0 | _ :: _ => header_columns r0 body end = header_columns r0 body)
        by (destruct body; [cbn [length] in E1; lia|reflexivity]).
      rewrite Eb. clear Eb. f_equal. unfold header_columns. apply map_ext_in. intros j Hj. apply in_seq in Hj.
      rewrite Nth by lia. f_equal. unfold text_column, col_of. f_equal. f_equal. f_equal.
      cbn [concat]. rewrite skipn_app. rewrite (skipn_all2 (n := j + length r0)) by lia. cbn [app].
      replace (j + length r0 - length r0)%nat with j by lia.
      rewrite stride_skipn. apply stride_rows; [assumption|lia].
  - f_equal. unfold anon_columns. apply map_ext_in. intros j Hj. apply in_seq in Hj.
    f_equal. unfold text_column, col_of. f_equal. f_equal. f_equal.
    rewrite Nat.add_0_r, stride_skipn. apply stride_rows; [assumption|lia].
Qed.

(** ** The result of read *)

Lemma text_column_size l : col_size (text_column l) = Z.of_nat (length l).
Proof. cbn. now rewrite map_length. Qed.

Lemma tcolumn_length tbl j : length (tcolumn tbl j) = length tbl.
Proof. unfold tcolumn. apply map_length. Qed.

Lemma header_columns_names ns body : map nname (header_columns ns body) = ns.
Proof. unfold header_columns. rewrite map_map. cbn. apply map_nth_seq. Qed.
Lemma null_columns_names ns : map nname (null_columns ns) = ns.
Proof. unfold null_columns. rewrite map_map. cbn. apply map_id. Qed.
Lemma header_columns_size ns body : Forall (fun nc => col_size (ncolumn nc) = Z.of_nat (length body)) (header_columns ns body).
Proof.
  unfold header_columns. apply Forall_forall. intros nc H. apply in_map_iff in H. destruct H as (j & <- & _).
  cbn [ncolumn]. rewrite text_column_size, tcolumn_length. reflexivity.
Qed.
Lemma anon_columns_size n body : Forall (fun nc => col_size (ncolumn nc) = Z.of_nat (length body)) (anon_columns n body).
Proof.
  unfold anon_columns. apply Forall_forall. intros nc H. apply in_map_iff in H. destruct H as (j & <- & _).
  cbn [ncolumn]. rewrite text_column_size, tcolumn_length. reflexivity.
Qed.
Lemma null_columns_size ns : Forall (fun nc => col_size (ncolumn nc) = 0) (null_columns ns).
Proof. unfold null_columns. apply Forall_forall. intros nc H. apply in_map_iff in H. destruct H as (j & <- & _). reflexivity. Qed.
Lemma anon_columns_unique n body : unique_names (map nname (anon_columns n body)).
Proof.
  unfold anon_columns. rewrite map_map. cbn. intros i j m Hi _ Hm. rewrite nth_error_map in Hi.
  destruct (nth_error (seq 0 n) i); cbn in Hi; congruence.
Qed.

Lemma bind_columns_default cols rc :
  cols <> [] -> Forall (fun nc => col_size (ncolumn nc) = rc) cols ->
  (unique_names (map nname cols) ->
     exists d, bind_columns cols df_default = Ok d /\ elems d = cols /\ rows d = rc /\ good d)
  /\ (~ unique_names (map nname cols) -> bind_columns cols df_default = Throw LogicError).
Proof.
  intros N S. destruct (bind_columns_spec cols df_default good_default) as (A & B & C). cbn [elems names app] in *.
  split; intros U.
  - destruct (B rc) as [d Hd]; auto. { intros X. elim X. reflexivity. }
    exists d. destruct (A d Hd) as (G & E & R). split; [exact Hd|]. split; [exact E|]. split; [|exact G].
    destruct (R N) as (rc' & R1 & R2). rewrite R1.
    destruct cols as [|c cols]; [congruence|]. inversion S; inversion R2; subst. congruence.
  - destruct (bind_columns_outcome cols df_default) as [[d Hd]|H]; [|assumption].
    exfalso. destruct (A d Hd) as (G & E & _). apply U. cbn [elems df_default app] in E. rewrite <- E. apply (g_unique _ G).
Qed.

(** ** Writing *)

Lemma join_cut sep c fs : sep c = true -> fs <> [] ->
  (forall f x, In f fs -> In x f -> sep x = false) ->
  cut sep (write_fields [c] fs) = fs.
Proof.
  intros Hc. induction fs as [|f fs IH]; intros N H; [congruence|].
  cbn [write_fields]. destruct fs as [|g fs].
  - rewrite (cut_app sep f (fun x Hx => H _ x (or_introl eq_refl) Hx) [] [] []) by reflexivity.
    now rewrite app_nil_r.
  - rewrite (cut_app sep f (fun x Hx => H _ x (or_introl eq_refl) Hx) _ [] (g :: fs)).
    + now rewrite app_nil_r.
    + change ([c] ++ write_fields [c] (g :: fs)) with (c :: write_fields [c] (g :: fs)).
      cbn [cut]. rewrite Hc. rewrite IH; [reflexivity|discriminate|].
      intros f' x Hf' Hx. exact (H f' x (or_intror Hf') Hx).
Qed.

Lemma lines_cut sep c ls : sep c = true ->
  (forall l x, In l ls -> In x l -> sep x = false) ->
  cut sep (concat (map (fun l => l ++ [c]) ls)) = ls ++ [[]].
Proof.
  intros Hc. induction ls as [|l ls IH]; intros H; cbn [map concat app]; [reflexivity|].
  rewrite <- app_assoc. rewrite (cut_app sep l (fun x Hx => H _ x (or_introl eq_refl) Hx) _ [] (ls ++ [[]])).
  - now rewrite app_nil_r.
  - cbn. rewrite Hc. rewrite IH; [reflexivity|]. intros f' x Hf' Hx. exact (H f' x (or_intror Hf') Hx).
Qed.

Lemma in_write_fields cs fs x : In x (write_fields cs fs) -> In x cs \/ exists f, In f fs /\ In x f.
Proof.
  induction fs as [|f fs IH]; cbn; [tauto|]. rewrite in_app_iff. intros [H|H]; [eauto|].
  destruct fs as [|g fs]; [destruct H|]. rewrite in_app_iff in H. destruct H as [H|H]; [auto|].
  destruct (IH H) as [X|(h & X & Y)]; eauto.
Qed.

Lemma write_fields_nonempty cs fs : last fs [] <> [] -> write_fields cs fs <> [].
Proof.
  induction fs as [|f fs IH]; cbn; [congruence|]. destruct fs as [|g fs].
  - rewrite app_nil_r. auto.
  - intros H X. apply app_eq_nil in X. destruct X as [_ X]. apply app_eq_nil in X. destruct X as [_ X].
    now apply IH.
Qed.

Lemma tokens_join sep c fs : sep c = true -> last fs [] <> [] ->
  (forall f x, In f fs -> In x f -> sep x = false) ->
  tokens sep (write_fields [c] fs) = fs.
Proof.
  intros Hc Hl H. assert (N : fs <> []) by (intros ->; cbn in Hl; congruence).
  rewrite tokens_cut, join_cut by assumption. unfold drop_last.
  apply tempty_false in Hl. rewrite Hl. now rewrite andb_false_r.
Qed.

(** The table of a written text is what was written. *)
Lemma table_written lsep csep lc cc tbl :
  lsep lc = true -> csep cc = true -> lsep cc = false ->
  (forall r f x, In r tbl -> In f r -> In x f -> lsep x = false /\ csep x = false) ->
  (forall r, In r tbl -> last r [] <> []) ->
  table lsep csep (concat (map (fun r => write_fields [cc] r ++ [lc]) tbl)) = tbl.
Proof.
  intros Hl Hc Hlc Hcl Hla. unfold table.
  rewrite <- (map_map (write_fields [cc]) (fun l => l ++ [lc])).
  rewrite lines_cut; auto.
  - rewrite filter_app. cbn. rewrite app_nil_r.
    assert (F : filter (fun l => negb (tempty l)) (map (write_fields [cc]) tbl) = map (write_fields [cc]) tbl).
    { assert (Hla' : forall r, In r tbl -> last r [] <> []) by assumption.
      clear - Hla'. induction tbl as [|r tbl IH]; cbn [map filter]; [reflexivity|].
      pose proof (write_fields_nonempty [cc] r (Hla' r (or_introl eq_refl))) as W. apply tempty_false in W.
      rewrite W. cbn [negb]. rewrite IH; [reflexivity|]. intros. apply Hla'. now right. }
    rewrite F, map_map. rewrite <- (map_id tbl) at 2. apply map_ext_in. intros r Hr.
    apply tokens_join; auto. intros f x Hf Hx. destruct (Hcl r f x); auto.
  - intros l x Hin Hx. apply in_map_iff in Hin. destruct Hin as (r & <- & Hr).
    apply in_write_fields in Hx. destruct Hx as [[<-|[]]|(f & Hf & Hx)]; [assumption|].
    destruct (Hcl r f x); auto.
Qed.
