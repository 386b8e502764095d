(** * StreamCut: reading texts that were cut off. *)

From Coq Require Import ZArith Bool Ascii String List Lia.
From Verif Require Import Base Coerce CoerceSpec CoerceProofs Frame FrameSpec FrameProofs FrameText FrameWrite PropFrameText
  Stream StreamSpec StreamProofs.
Import ListNotations.
Open Scope list_scope.

Lemma write_fields_snoc cc z fs : fs <> [] -> write_fields [cc] (fs ++ [z]) = write_fields [cc] fs ++ [cc] ++ z.
Proof.
  induction fs as [|f fs IH]; intros N; [congruence|]. destruct fs as [|g fs].
  - cbn. now rewrite !app_nil_r.
  - specialize (IH ltac:(discriminate)).
    change (f ++ [cc] ++ write_fields [cc] ((g :: fs) ++ [z]) = (f ++ [cc] ++ write_fields [cc] (g :: fs)) ++ [cc] ++ z).
    rewrite IH. now rewrite <- !app_assoc.
Qed.

Section CUT.
Variables (rs : rules) (lsep csep : ascii -> bool) (lc cc : ascii) (d : df) (L : list (list text)).
Hypothesis Hlc : lsep lc = true.
Hypothesis Hcc : csep cc = true.
Hypothesis Hlcc : lsep cc = false.
Hypothesis HP : plain rs lsep csep d L.

Local Notation n := (Z.to_nat (rows d)).
Local Notation whole := (names d :: rows_of L n).

Lemma first_rows_firstn j : (j <= n)%nat -> first_rows L j = firstn j (rows_of L n).
Proof.
  intros H. unfold first_rows, rows_of, row_of. rewrite firstn_map. f_equal.
  assert (E : seq 0 n = seq 0 j ++ seq j (n - j)).
  { pose proof (seq_app j (n - j) 0) as X. cbn [Nat.add] in X. rewrite <- X. f_equal. lia. }
  rewrite E, firstn_app, seq_length, Nat.sub_diag.
  rewrite firstn_all2 by (rewrite seq_length; lia). cbn. now rewrite app_nil_r.
Qed.

Lemma cols_length : Forall (fun l => length l = n) L.
Proof.
  destruct HP as [_ R _ F _ _ _ _]. unfold rect in R. clear - R F. revert R.
  induction F as [|nc l es L' H F IH]; intros R; constructor.
  - apply Forall_inv in R. rewrite (texts_length _ _ _ H) in R. lia.
  - apply IH. now apply Forall_inv_tail in R.
Qed.

Lemma L_names : length L = length (names d).
Proof.
  destruct HP as [_ _ _ F _ _ _ _]. clear - F. unfold names. rewrite map_length. induction F; cbn; auto.
Qed.

Lemma L_nonempty : L <> [].
Proof. destruct HP as [N _ _ F _ _ _ _]. destruct F; [congruence|discriminate]. Qed.

Lemma row_in r : In r whole -> r <> [] /\ last r [] <> [] /\ (forall f x, In f r -> In x f -> lsep x = false /\ csep x = false)
  /\ length r = length L.
Proof.
  destruct HP as [N R U F C1 C2 La Ls]. intros [<-|Hr].
  - split; [intros E; apply La; now rewrite E|]. split; [exact La|]. split; [|now rewrite L_names].
    intros f x Hf Hx. rewrite Forall_forall in C1. exact (C1 f Hf x Hx).
  - unfold rows_of in Hr. apply in_map_iff in Hr. destruct Hr as (i & <- & Hi). apply in_seq in Hi.
    split; [unfold row_of; pose proof L_nonempty; destruct L; [congruence|discriminate]|].
    split.
    + rewrite last_map_nth. rewrite Forall_forall in Ls. apply Ls. apply nth_In.
      pose proof cols_length as CL. rewrite Forall_forall in CL.
      rewrite (CL (last L [])); [lia|]. pose proof L_nonempty as NL.
      rewrite (app_removelast_last [] NL) at 2. apply in_or_app. right. now left.
    + split; [|apply row_of_length]. intros f x Hf Hx. unfold row_of in Hf. apply in_map_iff in Hf.
      destruct Hf as (l & <- & Hl). rewrite Forall_forall in C2. specialize (C2 l Hl). rewrite Forall_forall in C2.
      destruct (nth_in_or_default i l []) as [X|X]; [exact (C2 _ X x Hx)|]. rewrite X in Hx. destruct Hx.
Qed.

Lemma cut_table j q : (j <= S n)%nat ->
  (q = [] \/ exists r, nth_error whole j = Some r /\ starts q (write_fields [cc] r)) ->
  table lsep csep (lines_text cc lc (firstn j whole) ++ q)
  = firstn j whole ++ (match q with [] => [] | _ => [tokens csep q] end).
Proof.
  intros Hj Hq.
  assert (In1 : forall r, In r (firstn j whole) -> In r whole).
  { intros r Hr. rewrite <- (firstn_skipn j whole). apply in_or_app. now left. }
  apply table_rest; auto.
  - intros r f x Hr. now apply (row_in r (In1 r Hr)).
  - intros r Hr. now apply (row_in r (In1 r Hr)).
  - intros x Hx. destruct Hq as [->|(r & Hr & (s & E))]; [destruct Hx|].
    apply nth_error_In in Hr. destruct (row_in r Hr) as (_ & _ & C & _).
    assert (Hx' : In x (write_fields [cc] r)) by (rewrite E; apply in_or_app; now left).
    apply in_write_fields in Hx'. destruct Hx' as [[<-|[]]|(f & Hf & Hx')]; [assumption|]. destruct (C f x); auto.
Qed.

(** What read makes of the header and a body of full rows. *)
Lemma read_body t body : table lsep csep t = names d :: body -> Forall (fun r => length r = length (names d)) body ->
  exists d', read true lsep csep t = Ok d' /\ names d' = names d /\ rows d' = Z.of_nat (length body)
    /\ (forall j nc, nth_error (elems d') j = Some nc ->
          ncolumn nc = match body with [] => None | _ => text_column (tcolumn body j) end).
Proof.
  intros T Hb. pose proof (table_Table lsep csep t) as X. rewrite T in X.
  destruct (C33_read_header lsep csep t (names d) body X Hb) as (_ & H).
  destruct (H (plain_names _ _ _ _ _ HP)) as (d' & H1 & H2 & H3 & H4 & _). eauto 10.
Qed.

Lemma body_length j : Forall (fun r => length r = length (names d)) (firstn j (rows_of L n)).
Proof.
  apply Forall_forall. intros r Hr. rewrite <- L_names. apply row_in. right.
  rewrite <- (firstn_skipn j (rows_of L n)). apply in_or_app. now left.
Qed.

(** A file that ends after some complete lines: exactly those rows are read. *)
Lemma cut_between j : (j <= n)%nat ->
  exists d', read true lsep csep (lines_text cc lc (names d :: first_rows L j)) = Ok d'
    /\ names d' = names d /\ rows d' = Z.of_nat j
    /\ (forall c nc, nth_error (elems d') c = Some nc ->
          ncolumn nc = match j with O => None | _ => text_column (firstn j (nth c L [])) end).
Proof.
  intros Hj.
  assert (T : table lsep csep (lines_text cc lc (names d :: first_rows L j)) = names d :: firstn j (rows_of L n)).
  { pose proof (cut_table (S j) [] ltac:(lia) (or_introl eq_refl)) as X. rewrite !app_nil_r in X.
    cbn [firstn] in X. rewrite first_rows_firstn by auto. exact X. }
  destruct (read_body _ _ T (body_length j)) as (d' & H1 & H2 & H3 & H4).
  assert (Lj : length (firstn j (rows_of L n)) = j) by (rewrite firstn_length, rows_of_length; lia).
  exists d'. rewrite Lj in H3. repeat split; auto.
  intros c nc Hc. rewrite (H4 c nc Hc). destruct j as [|j]; [reflexivity|].
  destruct (firstn (S j) (rows_of L n)) as [|r b] eqn:E; [discriminate|]. rewrite <- E.
  rewrite tcolumn_firstn. assert (Lc : (c < length L)%nat).
  { rewrite L_names, <- H2. unfold names. rewrite map_length. apply nth_error_Some. congruence. }
  rewrite tcolumn_rows; auto. apply cols_length.
Qed.

(** A file that ends inside a row, before the first character of its last field: read throws. *)
Lemma cut_inside j fs z q : (j < n)%nat ->
  map (fun l => nth j l []) L = fs ++ [z] -> fs <> [] -> q <> [] -> starts q (write_fields [cc] fs ++ [cc]) ->
  read true lsep csep (lines_text cc lc (names d :: first_rows L j) ++ q) = Throw LogicError.
Proof.
  intros Hj Er Nf Nq (s & Sq). change (row_of L j = fs ++ [z]) in Er.
  assert (Hr : nth_error whole (S j) = Some (row_of L j)) by (cbn; apply rows_of_nth; auto).
  assert (St : starts q (write_fields [cc] (row_of L j))).
  { exists (s ++ z). rewrite Er, write_fields_snoc by auto. rewrite app_assoc, Sq. now rewrite <- app_assoc. }
  assert (T : table lsep csep (lines_text cc lc (names d :: first_rows L j) ++ q)
              = names d :: firstn j (rows_of L n) ++ [tokens csep q]).
  { pose proof (cut_table (S j) q ltac:(lia) (or_intror (ex_intro _ _ (conj Hr St)))) as X.
    cbn [firstn] in X. rewrite first_rows_firstn by lia. rewrite X. destruct q; [congruence|reflexivity]. }
  pose proof (table_Table lsep csep (lines_text cc lc (names d :: first_rows L j) ++ q)) as X. rewrite T in X.
  eapply C33_read_ragged; [exact X|]. exists (tokens csep q). split; [apply in_or_app; right; now left|].
  rewrite <- L_names. rewrite <- (row_of_length L j), Er, app_length. cbn.
  (* fewer fields *)
  assert (Sf : starts q (write_fields [cc] fs) \/ q = write_fields [cc] fs ++ [cc]).
  { destruct s as [|x s] using rev_ind.
    - right. now rewrite app_nil_r in Sq.
    - left. rewrite app_assoc in Sq. apply app_inj_tail in Sq. destruct Sq as (Sq & _). exists s. exact Sq. }
  destruct (row_in (row_of L j)) as (_ & _ & C & _); [right; eapply nth_error_In; apply rows_of_nth; eauto|].
  rewrite Er in C.
  assert (Cf : forall f x, In f fs -> In x f -> csep x = false).
  { intros f x Hf Hx. destruct (C f x); auto. apply in_or_app. now left. }
  destruct Sf as [Sf|Sf].
  - destruct (tokens_prefix csep cc fs Hcc Nf Cf q Nq Sf) as (_ & [(i & Hi & ->)|(i & c & a & Hc & _ & _ & ->)]).
    + rewrite firstn_length. lia.
    + assert (i < length fs)%nat by (apply nth_error_Some; congruence).
      rewrite app_length, firstn_length. cbn. lia.
  - assert (Tq : tokens csep q = fs).
    { rewrite tokens_cut, Sf.
      assert (Cc : cut csep (write_fields [cc] fs ++ [cc]) = fs ++ [[]]).
      { replace (write_fields [cc] fs ++ [cc]) with (write_fields [cc] (fs ++ [[]])).
        - apply join_cut; auto; [destruct fs; discriminate|].
          intros f x Hf Hx. apply in_app_or in Hf. destruct Hf as [Hf|[<-|[]]]; [eauto|destruct Hx].
        - rewrite write_fields_snoc by auto. now rewrite app_nil_r. }
      rewrite Cc. unfold drop_last. rewrite last_last, removelast_last. cbn [tempty].
      replace (1 <? Z.of_nat (length (fs ++ [[]])))%Z with true; [reflexivity|].
      symmetry. apply Z.ltb_lt. rewrite app_length. destruct fs; [congruence|]. cbn. lia. }
    rewrite Tq. lia.
Qed.

(** A file that ends inside the last field of a row: the row is read with a shortened field. *)
Lemma cut_last j fs z a : (j < n)%nat ->
  map (fun l => nth j l []) L = fs ++ [z] -> a <> [] -> starts a z ->
  exists d', read true lsep csep (lines_text cc lc (names d :: first_rows L j) ++ write_fields [cc] (fs ++ [a])) = Ok d'
    /\ names d' = names d /\ rows d' = Z.of_nat (S j)
    /\ (forall c nc, nth_error (elems d') c = Some nc ->
          ncolumn nc = text_column (firstn j (nth c L []) ++ [nth c (fs ++ [a]) []])).
Proof.
  intros Hj Er Na (s & Ez). change (row_of L j = fs ++ [z]) in Er.
  set (q := write_fields [cc] (fs ++ [a])).
  assert (Hr : nth_error whole (S j) = Some (row_of L j)) by (cbn; apply rows_of_nth; auto).
  assert (Lq : last (fs ++ [a]) [] = a) by apply last_last.
  assert (Nq : q <> []) by (apply write_fields_nonempty; now rewrite Lq).
  assert (St : starts q (write_fields [cc] (row_of L j))).
  { exists s. rewrite Er, Ez. unfold q. destruct fs as [|f fs]; [cbn; now rewrite !app_nil_r|].
    rewrite !write_fields_snoc by discriminate. now rewrite <- !app_assoc. }
  destruct (row_in (row_of L j)) as (_ & _ & C & Lr); [right; eapply nth_error_In; apply rows_of_nth; eauto|].
  rewrite Er in C, Lr.
  assert (Tq : tokens csep q = fs ++ [a]).
  { apply tokens_join; auto; [now rewrite Lq|]. intros f x Hf Hx. apply in_app_or in Hf.
    destruct Hf as [Hf|[<-|[]]].
    - destruct (C f x); auto. apply in_or_app. now left.
    - destruct (C z x); auto; [apply in_or_app; right; now left|]. rewrite Ez. apply in_or_app. now left. }
  assert (T : table lsep csep (lines_text cc lc (names d :: first_rows L j) ++ q)
              = names d :: firstn j (rows_of L n) ++ [fs ++ [a]]).
  { pose proof (cut_table (S j) q ltac:(lia) (or_intror (ex_intro _ _ (conj Hr St)))) as X.
    cbn [firstn] in X. rewrite first_rows_firstn by lia. rewrite X, Tq. destruct q; [congruence|reflexivity]. }
  assert (Bl : Forall (fun r => length r = length (names d)) (firstn j (rows_of L n) ++ [fs ++ [a]])).
  { apply Forall_app. split; [apply body_length|]. constructor; [|constructor].
    rewrite <- L_names, <- Lr, !app_length. reflexivity. }
  destruct (read_body _ _ T Bl) as (d' & H1 & H2 & H3 & H4).
  exists d'. split; [exact H1|]. split; [exact H2|]. split.
  { rewrite H3, app_length, firstn_length, rows_of_length. cbn. lia. }
  intros c nc Hc. rewrite (H4 c nc Hc).
  destruct (firstn j (rows_of L n) ++ [fs ++ [a]]) as [|r b] eqn:E; [destruct (firstn j (rows_of L n)); discriminate|].
  rewrite <- E. rewrite tcolumn_app, tcolumn_firstn.
  assert (Lc : (c < length L)%nat).
  { rewrite L_names, <- H2. unfold names. rewrite map_length. apply nth_error_Some. congruence. }
  rewrite tcolumn_rows; auto. apply cols_length.
Qed.

(** Any cut. *)
Lemma cut_any t t' : write rs true [lc] [cc] d = (t, Ok tt) -> starts t' t ->
  read true lsep csep t' = Throw LogicError
  \/ exists d', read true lsep csep t' = Ok d'
     /\ ((t' = [] /\ d' = df_default)
         \/ (rows d' = 0%Z /\ cut_row (names d) (names d') /\ Forall (fun nc => ncolumn nc = None) (elems d'))
         \/ (names d' = names d /\ (0 < rows d' <= rows d)%Z
             /\ forall c nc l, nth_error (elems d') c = Some nc -> nth_error L c = Some l ->
                exists l', ncolumn nc = text_column l' /\ Z.of_nat (length l') = rows d'
                  /\ forall i s, nth_error l' i = Some s ->
                       nth_error l i = Some s
                       \/ (Z.of_nat (S i) = rows d' /\ S c = length L /\ s <> []
                           /\ exists w, nth_error l i = Some w /\ starts s w))).
Proof.
  destruct HP as [N R U F C1 C2 La Ls].
  intros Hw St. rewrite (write_eq _ _ _ _ _ _ N R F) in Hw. injection Hw as Hw.
  assert (Tt : t = concat (map (line cc lc) whole)) by (rewrite <- Hw; reflexivity).
  rewrite Tt in St. destruct (lines_prefix cc lc whole t' St) as (j & q & Lj & Et & Hq).
  assert (Lj' : (j <= S n)%nat) by (cbn [length] in Lj; rewrite rows_of_length in Lj; exact Lj).
  assert (T : table lsep csep t' = firstn j whole ++ (match q with [] => [] | _ => [tokens csep q] end)).
  { rewrite Et. apply cut_table; auto. }
  pose proof (table_Table lsep csep t') as X. rewrite T in X.
  assert (Q : q <> [] -> exists r, nth_error whole j = Some r /\ In r whole /\ cut_row r (tokens csep q)).
  { intros Nq. destruct Hq as [->|(r & Hr & Sq)]; [congruence|]. exists r. split; [exact Hr|].
    pose proof (nth_error_In _ _ Hr) as Ir. split; [exact Ir|].
    destruct (row_in r Ir) as (Nr & _ & C & _).
    apply (tokens_prefix csep cc r Hcc Nr (fun f x Hf Hx => proj2 (C f x Hf Hx)) q Nq Sq). }
  destruct j as [|j].
  - cbn [firstn app] in *. destruct q as [|x q].
    + right. exists df_default. split; [apply C33_read_empty; exact X|]. left. split; [exact Et|reflexivity].
    + destruct (Q ltac:(discriminate)) as (r & Hr & _ & CR). injection Hr as <-.
      pose proof (C33_read_header lsep csep t' _ [] X (Forall_nil _)) as (H1 & H2).
      destruct (C33_read_total true lsep csep t') as [(d' & Hd & _)|Hd]; [|now left].
      right. exists d'. split; [exact Hd|]. right. left.
      assert (Un : unique_names (tokens csep (x :: q))).
      { destruct (C33_read_total true lsep csep t') as [(d2 & Hd2 & _ & U2 & _)|Hd2]; [|congruence].
        pose proof (read_as_bind true lsep csep t') as RB. rewrite T in RB. cbv zeta in RB.
        destruct RB as (RB & _ & _). specialize (RB (Forall_nil _)).
        destruct (bind_columns_default (null_columns (tokens csep (x :: q))) 0%Z) as (B1 & B2).
        - pose proof (tokens_nonempty csep (x :: q)). unfold null_columns. destruct (tokens csep (x :: q)); [congruence|discriminate].
        - apply null_columns_size.
        - rewrite null_columns_names in *.
          assert (Dec : unique_names (tokens csep (x :: q)) \/ ~ unique_names (tokens csep (x :: q))) by (destruct (unique_dec (tokens csep (x :: q))); auto).
          destruct Dec as [Y|Y]; [exact Y|]. specialize (B2 Y). congruence. }
      destruct (H2 Un) as (d2 & E2 & N2 & R2 & C22 & _). rewrite Hd in E2. injection E2 as <-.
      split; [exact R2|]. split; [rewrite N2; exact CR|].
      apply Forall_forall. intros nc Hn. apply In_nth_error in Hn. destruct Hn as (c & Hc). exact (C22 c nc Hc).
  - cbn [firstn app] in *.
    set (extra := match q with [] => [] | _ => [tokens csep q] end) in *.
    destruct (Forall_dec (fun r : list text => length r = length (names d)) (fun r => Nat.eq_dec _ _) (firstn j (rows_of L n) ++ extra)) as [Fb|Fb].
    2:{ left. eapply C33_read_ragged; [exact X|]. apply Exists_exists. apply neg_Forall_Exists_neg in Fb; [|intros r; apply Nat.eq_dec].
        exact Fb. }
    right. destruct (read_body _ _ T Fb) as (d' & H1 & H2 & H3 & H4).
    exists d'. split; [exact H1|].
    assert (Lf : length (firstn j (rows_of L n)) = j) by (rewrite firstn_length, rows_of_length; lia).
    destruct (firstn j (rows_of L n) ++ extra) as [|r0 b] eqn:Eb.
    + right. left. split; [exact H3|]. split.
      * left. exists (length (names d)). split; [lia|]. now rewrite firstn_all, H2.
      * apply Forall_forall. intros nc Hn. apply In_nth_error in Hn. destruct Hn as (c & Hc). exact (H4 c nc Hc).
    + right. right. rewrite <- Eb in *. split; [exact H2|].
      assert (Le : extra = [] \/ (exists r, extra = [tokens csep q] /\ q <> [] /\ nth_error whole (S j) = Some r /\ cut_row r (tokens csep q)
                   /\ length (tokens csep q) = length r)).
      { unfold extra in *. destruct q as [|x q]; [now left|]. right.
        destruct (Q ltac:(discriminate)) as (r & Hr & Ir & CR). exists r. repeat split; auto; [discriminate|].
        destruct (row_in r Ir) as (_ & _ & _ & Lr). rewrite Lr, L_names.
        apply Forall_app in Fb. destruct Fb as (_ & Fb). now apply Forall_inv in Fb. }
      assert (Lt : Z.of_nat (length (firstn j (rows_of L n) ++ extra)) = rows d') by now symmetry.
      split.
      { rewrite <- Lt. split.
        - rewrite Eb. cbn. lia.
        - rewrite app_length, Lf. destruct Le as [->|(r & -> & _ & Hr & _)]; cbn.
          + rewrite app_nil_r in Eb. apply (f_equal (@length _)) in Eb. rewrite Lf in Eb. cbn in Eb. lia.
          + cbn in Hr. assert (j < n)%nat by (rewrite <- (rows_of_length L n); apply nth_error_Some; congruence). lia. }
      intros c nc l Hc Hl. exists (tcolumn (firstn j (rows_of L n) ++ extra) c).
      split; [rewrite (H4 c nc Hc); rewrite Eb; reflexivity|].
      split; [rewrite tcolumn_length; exact Lt|].
      intros i s Hs.
      assert (Lc : (c < length L)%nat) by (apply nth_error_Some; congruence).
      assert (Ll : length l = n).
      { pose proof cols_length as CL. rewrite Forall_forall in CL. apply CL. eapply nth_error_In; eauto. }
      rewrite tcolumn_app, tcolumn_firstn, tcolumn_rows in Hs by (auto; apply cols_length).
      rewrite (nth_error_nth L c [] Hl) in Hs.
      assert (Lfl : length (firstn j l) = j) by (rewrite firstn_length; lia).
      destruct (le_lt_dec j i) as [Hij|Hij].
      2:{ left. rewrite nth_error_app1 in Hs by lia.
          rewrite <- (firstn_skipn j l). rewrite nth_error_app1 by lia. exact Hs. }
      rewrite nth_error_app2 in Hs by lia. rewrite Lfl in Hs.
      destruct Le as [E|(r & E & Nq & Hr & CR & Lr)]; rewrite E in Hs.
      { destruct (i - j)%nat; discriminate. }
      assert (i = j). { destruct (i - j)%nat as [|k] eqn:Ek; [lia|]. destruct k; discriminate. }
      subst i. rewrite Nat.sub_diag in Hs. cbn in Hs. injection Hs as Hs.
      cbn in Hr. assert (Hjn : (j < n)%nat) by (rewrite <- (rows_of_length L n); apply nth_error_Some; congruence).
      rewrite rows_of_nth in Hr by auto. injection Hr as <-.
      assert (Hlj : nth_error l j = Some (nth j l [])) by (apply nth_error_nth'; lia).
      assert (Nrow : row_of L j <> []) by (unfold row_of; pose proof L_nonempty; destruct L; [congruence|discriminate]).
      destruct (cut_row_full _ _ CR Lr Nrow) as [Eq|(a & z & Na & Sa & Lz & Eq)].
      * left. rewrite Hlj. f_equal. rewrite <- Hs, Eq. symmetry. apply row_of_col; auto.
      * rewrite Eq in Hs.
        pose proof (app_removelast_last [] Nrow) as AR. rewrite Lz in AR.
        assert (LR : length (removelast (row_of L j)) = (length L - 1)%nat).
        { apply (f_equal (@length _)) in AR. rewrite row_of_length, app_length in AR. cbn in AR. lia. }
        destruct (Nat.eq_dec c (length L - 1)) as [Ec|Ec].
        -- right. rewrite app_nth2 in Hs by lia. rewrite LR, Ec, Nat.sub_diag in Hs. cbn in Hs. subst s.
           split; [|split; [lia|]].
           ++ rewrite <- Lt, app_length, Lf, E. cbn. lia.
           ++ split; [exact Na|]. exists z. split; [|exact Sa]. rewrite Hlj. f_equal.
              rewrite <- (row_of_col L j c l Hl). rewrite AR, app_nth2 by lia. rewrite LR, Ec, Nat.sub_diag. reflexivity.
        -- left. rewrite app_nth1 in Hs by lia. rewrite Hlj. f_equal.
           rewrite <- (row_of_col L j c l Hl). rewrite AR, app_nth1 by lia. exact Hs.
Qed.

End CUT.
