(** * PropStream: C84 — streams that fail, end or were cut off. *)

From Coq Require Import ZArith Bool Ascii String List Lia.
From Verif Require Import Base Coerce CoerceSpec CoerceProofs Frame FrameSpec FrameProofs FrameText FrameWrite PropFrameText
  Stream StreamSpec StreamProofs StreamCut.
Import ListNotations.
Open Scope list_scope.

(** ** Reading from a stream *)

(** A stream that does not test true gives the empty dataframe and is left alone; with >> the
    dataframe is replaced by the empty one. *)
Theorem C84_read_failed : forall h lsep csep is d,
  fails (iflags is) = true ->
  read_from h lsep csep is = (is, Ok df_default) /\ extract is d = (is, df_default, Ok tt).
Proof.
  intros h lsep csep is d F. unfold extract, read_from. rewrite F. auto.
Qed.

(** Otherwise everything the stream delivers is consumed, at once, even if the text is malformed;
    the flags of the stream do not change, so that the end of the input is not recorded; the
    result is that of reading the text. *)
Theorem C84_read_all : forall h lsep csep is,
  fails (iflags is) = false -> broken is = false ->
  read_from h lsep csep is = (mkIs [] false (iflags is), read h lsep csep (content is)).
Proof.
  intros h lsep csep is F B. unfold read_from, slurp. rewrite F, B. reflexivity.
Qed.

(** >> replaces the dataframe or throws and leaves it unchanged, whatever the stream does. *)
Theorem C84_extract : forall is d,
  (exists is' d', extract is d = (is', d', Ok tt) /\ rect d' /\ unique_names (names d') /\ iflags is' = iflags is)
  \/ (exists is' e, extract is d = (is', d, Throw e) /\ content is' = [] /\ iflags is' = iflags is
        /\ (e = LogicError \/ (e = RuntimeError /\ broken is = true))).
Proof.
  intros is d. unfold extract, read_from. destruct (fails (iflags is)) eqn:F.
  { left. exists is, df_default. split; [reflexivity|]. split; [constructor|]. split; [|reflexivity].
    intros i j n H. destruct i; discriminate. }
  unfold slurp. destruct (broken is) eqn:B; cbn [bindO].
  - right. eexists _, _. split; [reflexivity|]. cbn. auto.
  - destruct (C33_read_total true is_nl is_tab (content is)) as [(d' & -> & R & U & _)| ->].
    + left. eexists _, _. split; [reflexivity|]. auto.
    + right. eexists _, _. split; [reflexivity|]. cbn. auto.
Qed.

(** [while (is >> df)] on a stream whose text is well formed never ends: after every number of
    rounds the stream still tests true, and from the second round on the dataframe is empty. *)
Theorem C84_loop_forever : forall n is d d1,
  fails (iflags is) = false -> broken is = false -> read true is_nl is_tab (content is) = Ok d1 ->
  rounds (S n) is d = Some (mkIs [] false (iflags is), match n with O => d1 | _ => df_default end).
Proof.
  intros n is d d1 F B R. cbn [rounds]. unfold extract. rewrite C84_read_all, R by auto. cbn [iflags]. rewrite F.
  assert (X : forall k dd, rounds k (mkIs [] false (iflags is)) dd
     = Some (mkIs [] false (iflags is), match k with O => dd | _ => df_default end)).
  { induction k as [|k IH]; intros dd; cbn [rounds]; [reflexivity|].
    unfold extract. rewrite C84_read_all by auto. cbn [content iflags].
    change (read true is_nl is_tab []) with (Ok df_default). cbn [iflags]. rewrite F, IH. now destruct k. }
  rewrite X. reflexivity.
Qed.

Example C84_read_ex :
  let is := mkIs sample false no_flags in
  fails (iflags is) = false
  /\ (exists d, extract is df_default = (mkIs [] false no_flags, d, Ok tt) /\ rows d = 2%Z)
  /\ (exists d, rounds 3 is d = Some (mkIs [] false no_flags, df_default))
  /\ extract (mkIs sample false (mkF false true false)) df_default
     = (mkIs sample false (mkF false true false), df_default, Ok tt)
  /\ extract (mkIs sample true no_flags) df_default = (mkIs [] true no_flags, df_default, Throw RuntimeError).
Proof.
  cbv zeta. split; [reflexivity|]. split; [eexists; split; vm_compute; reflexivity|].
  split; [exists df_default; vm_compute; reflexivity|]. split; reflexivity.
Qed.

(** ** Writing to a stream *)

(** A failing coercion is reported before anything reaches the stream. *)
Theorem C84_write_throw : forall rs h ls cs d os t e,
  write rs h ls cs d = (t, Throw e) -> write_to rs h ls cs d os = (os, Throw e).
Proof.
  intros rs h ls cs d os t e H. unfold write, write_to in *.
  destruct (negb (df_bool d)); [discriminate|].
  destruct (mapO (write_data rs) (elems d)) as [data|e'| | |]; try discriminate; [|now inversion H].
  exfalso.
  assert (X : forall is, match mapO (write_row cs ls data) is with Throw _ => False | _ => True end).
  { assert (Y : forall l i, match mapO (fun col : list cell => let* c := get col (Z.of_nat i) in cell_text c) l with Throw _ => False | _ => True end).
    { induction l as [|col l IH]; intros i; cbn [mapO]; [exact Logic.I|].
      assert (G : match (let* c := get col (Z.of_nat i) in cell_text c) with Throw _ => False | _ => True end).
      { unfold get. destruct (_ && _); cbn; [|exact Logic.I]. destruct (nth_error _ _) as [[]|]; cbn; exact Logic.I. }
      destruct (let* c := get col (Z.of_nat i) in cell_text c); cbn [bindO]; try exact Logic.I; [|exact G].
      specialize (IH i). destruct (mapO _ l); cbn [bindO]; auto. }
    induction is as [|i is IH]; cbn [mapO]; [exact Logic.I|].
    unfold write_row at 1. specialize (Y data i). destruct (mapO _ data); cbn [bindO]; auto.
    destruct (mapO _ is); cbn [bindO]; auto. }
  specialize (X (seq 0 (Z.to_nat (rows d)))).
  destruct (mapO (write_row cs ls data) _); try discriminate. exact X.
Qed.

(** An empty dataframe: nothing happens to the stream. *)
Theorem C84_write_empty : forall rs h ls cs d os,
  elems d = [] -> write_to rs h ls cs d os = (os, Ok tt).
Proof.
  intros rs h ls cs d os E. unfold write_to, df_bool, column_count. rewrite E. reflexivity.
Qed.

(** A stream that is not good takes nothing; unless exceptions are enabled, write returns as if
    nothing had happened. *)
Theorem C84_write_stuck : forall rs h ls cs d L os os' o,
  elems d <> [] -> rect d -> Forall2 (texts rs) (elems d) L ->
  is_good (oflags os) = false -> write_to rs h ls cs d os = (os', o) ->
  sunk os' = sunk os /\ is_good (oflags os') = false
  /\ (o = Ok tt \/ o = Throw RuntimeError) /\ (omask os = no_flags -> o = Ok tt).
Proof.
  intros rs h ls cs d L os os' o N R F G H. rewrite (write_to_list _ _ _ _ _ _ _ N R F) in H.
  pose proof (insert_list_stuck (write_pieces h ls cs (names d) (rows_of L (Z.to_nat (rows d)))) os G) as S.
  rewrite H in S. cbn in S. destruct S. auto.
Qed.

(** A good stream: for every device, what reaches it is the text of the dataframe (C34), as much
    of it as the device takes; the stream is good afterwards exactly if everything was taken.
    The width of the stream pads the first field only, and is then cleared. *)
Theorem C84_write_sent : forall rs h ls cs d L os os' o t,
  elems d <> [] -> rect d -> Forall2 (texts rs) (elems d) L ->
  h = true \/ (0 < rows d)%Z ->
  oflags os = no_flags -> write rs h ls cs d = (t, Ok tt) -> write_to rs h ls cs d os = (os', o) ->
  exists first rest,
    t = first ++ rest
    /\ (h = true -> first = nth 0 (names d) []) /\ (h = false -> first = nth 0 (nth 0 L []) [])
    /\ let full := padded (owidth os) (ofill os) (oleft os) first ++ rest in
       Sent full os os' o /\ (enough os full -> owidth os' = O).
Proof.
  intros rs h ls cs d L os os' o t N R F Hh G Hw H. rewrite (write_to_list _ _ _ _ _ _ _ N R F) in H.
  assert (Nn : names d <> []) by (unfold names; destruct (elems d); [congruence|discriminate]).
  assert (NL : L <> []) by (destruct F; [congruence|discriminate]).
  assert (Nr : Forall (fun r => r <> []) (rows_of L (Z.to_nat (rows d)))).
  { apply Forall_forall. intros r Hr. unfold rows_of in Hr. apply in_map_iff in Hr. destruct Hr as (i & <- & _).
    unfold row_of. destruct L; [congruence|discriminate]. }
  rewrite (C34_write_text _ _ _ _ _ _ N R F) in Hw. injection Hw as Hw.
  assert (T : t = concat (write_pieces h ls cs (names d) (rows_of L (Z.to_nat (rows d))))).
  { rewrite concat_write_pieces by auto. rewrite <- Hw. f_equal. unfold rows_of. now rewrite map_map. }
  assert (P : exists p ps, write_pieces h ls cs (names d) (rows_of L (Z.to_nat (rows d))) = p :: ps
     /\ (h = true -> p = nth 0 (names d) []) /\ (h = false -> p = nth 0 (nth 0 L []) [])).
  { unfold write_pieces. destruct h.
    - destruct (names d) as [|n ns]; [congruence|]. cbn. eexists _, _. split; [reflexivity|]. split; [auto|discriminate].
    - assert (0 < rows d)%Z by (destruct Hh; [discriminate|assumption]).
      destruct (Z.to_nat (rows d)) as [|m] eqn:E; [lia|]. cbn [app].
      unfold rows_of. cbn [seq map concat]. destruct L as [|l L]; [congruence|]. cbn.
      eexists _, _. split; [reflexivity|]. split; [discriminate|auto]. }
  destruct P as (p & ps & E & P1 & P2). exists p, (concat ps). rewrite T, E. split; [reflexivity|].
  split; [auto|]. split; [auto|]. cbv zeta. rewrite E in H.
  pose proof (insert_list_width p ps os G) as X. cbv zeta in X. rewrite H in X. exact X.
Qed.

(** In particular (no width): whatever the device, what it holds afterwards is a beginning of the
    text, all of it or exactly as many characters as it had room for. *)
Theorem C84_write_prefix : forall rs h ls cs d L os os' o t,
  elems d <> [] -> rect d -> Forall2 (texts rs) (elems d) L ->
  h = true \/ (0 < rows d)%Z ->
  oflags os = no_flags -> owidth os = O ->
  write rs h ls cs d = (t, Ok tt) -> write_to rs h ls cs d os = (os', o) ->
  match room os with
  | Some r => sunk os' = sunk os ++ firstn r t
              /\ ((r < length t)%nat -> fails (oflags os') = true)
              /\ ((length t <= r)%nat -> oflags os' = no_flags /\ o = Ok tt)
  | None => sunk os' = sunk os ++ t /\ oflags os' = no_flags /\ o = Ok tt
  end.
Proof.
  intros rs h ls cs d L os os' o t N R F Hh G Wd Hw H.
  destruct (C84_write_sent _ _ _ _ _ _ _ _ _ _ N R F Hh G Hw H) as (a & b & -> & _ & _ & S & _).
  rewrite Wd in S. replace (padded 0 (ofill os) (oleft os) a) with a in S
    by (unfold padded; cbn; destruct (oleft os); [now rewrite app_nil_r|reflexivity]).
  destruct S as [S1 S2 S3 S4 S5]. unfold enough, taken in *. destruct (room os) as [r|].
  - split; [exact S1|]. split.
    + intros X. destruct (S5 ltac:(lia)) as (B & _). unfold fails. rewrite B. apply orb_true_r.
    + intros X. destruct (S4 X) as (E & ->). rewrite E. auto.
  - destruct (S4 Logic.I) as (E & ->). rewrite E. auto.
Qed.

Definition os0 (r : option nat) (w : nat) : ostream := mkOs [] r no_flags no_flags w " "%char false.

(** A device with room for 7 characters; a field width. *)
Example C84_write_ex :
  write default_rules true ["010"%char] ["009"%char] mixed
    = (["a"; "009"; "b"; "010"; "1"; "009"; "x"; "010"; "-"; "2"; "009"; "y"; "010"]%char, Ok tt)
  /\ (let '(os', o) := insert_df default_rules mixed (os0 (Some 7%nat) 0) in
      sunk os' = ["a"; "009"; "b"; "010"; "1"; "009"; "x"]%char /\ fails (oflags os') = true /\ o = Ok tt)
  /\ (let '(os', o) := insert_df default_rules mixed (os0 None 3) in
      sunk os' = [" "; " "; "a"; "009"; "b"; "010"; "1"; "009"; "x"; "010"; "-"; "2"; "009"; "y"; "010"]%char
      /\ oflags os' = no_flags /\ owidth os' = O /\ o = Ok tt).
Proof. split; [vm_compute; reflexivity|]. split; vm_compute; repeat split; reflexivity. Qed.

(** "A write that did not reach the device completely is reported" is false with the default
    mask: write returns normally. *)
Theorem C84_write_reported_refuted : exists d L os os' t,
  plain default_rules is_nl is_tab d L
  /\ oflags os = no_flags /\ omask os = no_flags
  /\ write default_rules true ["010"%char] ["009"%char] d = (t, Ok tt)
  /\ insert_df default_rules d os = (os', Ok tt) /\ sunk os' <> sunk os ++ t.
Proof.
  exists mixed, [[["1"]; ["-"; "2"]]; [["x"]; ["y"]]]%char, (os0 (Some 7%nat) 0). eexists _, _.
  split.
  {
    constructor; try discriminate.
    - repeat constructor.
    - intros i j n Hi Hj Hn. destruct i as [|[|i]], j as [|[|j]]; cbn in *; try congruence;
        solve [destruct i; discriminate | destruct j; discriminate].
    - repeat constructor; eexists; (split; [reflexivity|]).
      + right. split; [discriminate|]. eexists. split; [reflexivity|]. repeat constructor.
      + left. split; reflexivity.
    - cbn. repeat (constructor; [intros c [<-|[]]; split; reflexivity|]). constructor.
    - repeat match goal with |- Forall _ [] => constructor | |- Forall _ (_ :: _) => constructor end; intros c Hc; cbn in Hc; repeat (destruct Hc as [<-|Hc]; [split; reflexivity|]); destruct Hc.
    - repeat constructor; discriminate. }
  split; [reflexivity|]. split; [reflexivity|]. split; [vm_compute; reflexivity|]. split; [vm_compute; reflexivity|].
  vm_compute. discriminate.
Qed.

(** ** A file that was cut off *)

(** A file that ends after j complete rows: exactly those rows are read. *)
Theorem C84_cut_between : forall rs lsep csep lc cc d L j,
  lsep lc = true -> csep cc = true -> lsep cc = false -> plain rs lsep csep d L ->
  (Z.of_nat j <= rows d)%Z ->
  exists d', read true lsep csep (lines_text cc lc (names d :: first_rows L j)) = Ok d'
    /\ names d' = names d /\ rows d' = Z.of_nat j
    /\ (forall c nc, nth_error (elems d') c = Some nc ->
          ncolumn nc = match j with O => None | _ => text_column (firstn j (nth c L [])) end).
Proof. intros rs lsep csep lc cc d L j H1 H2 H3 HP Hj. eapply cut_between; eauto; lia. Qed.

(** A file that ends inside a row, before the first character of the last field: read throws. *)
Theorem C84_cut_inside : forall rs lsep csep lc cc d L j fs z q,
  lsep lc = true -> csep cc = true -> lsep cc = false -> plain rs lsep csep d L ->
  (Z.of_nat j < rows d)%Z -> map (fun l => nth j l []) L = fs ++ [z] -> fs <> [] ->
  q <> [] -> starts q (write_fields [cc] fs ++ [cc]) ->
  read true lsep csep (lines_text cc lc (names d :: first_rows L j) ++ q) = Throw LogicError.
Proof. intros. eapply cut_inside; eauto; lia. Qed.

(** A file that ends inside the last field of a row: no error, the row is read with what is left
    of that field. *)
Theorem C84_cut_last : forall rs lsep csep lc cc d L j fs z a,
  lsep lc = true -> csep cc = true -> lsep cc = false -> plain rs lsep csep d L ->
  (Z.of_nat j < rows d)%Z -> map (fun l => nth j l []) L = fs ++ [z] -> a <> [] -> starts a z ->
  exists d', read true lsep csep (lines_text cc lc (names d :: first_rows L j) ++ write_fields [cc] (fs ++ [a])) = Ok d'
    /\ names d' = names d /\ rows d' = Z.of_nat (S j)
    /\ (forall c nc, nth_error (elems d') c = Some nc ->
          ncolumn nc = text_column (firstn j (nth c L []) ++ [nth c (fs ++ [a]) []])).
Proof. intros. eapply cut_last; eauto; lia. Qed.

(** Whatever the place of the cut: reading throws, or gives the empty dataframe (of the empty
    text), or columns without data whose names are those of the header as far as it goes, or the
    first rows of the dataframe, all cells as they were except, possibly, the last cell of the
    last row, which is then a non-empty beginning of the cell that was written. *)
Theorem C84_cut_any : forall rs lsep csep lc cc d L t t',
  lsep lc = true -> csep cc = true -> lsep cc = false -> plain rs lsep csep d L ->
  write rs true [lc] [cc] d = (t, Ok tt) -> starts t' t ->
  read true lsep csep t' = Throw LogicError
  \/ exists d', read true lsep csep t' = Ok d'
     /\ ((t' = [] /\ d' = df_default)
         \/ (rows d' = 0%Z /\ cut_row (names d) (names d') /\ Forall (fun nc => ncolumn nc = None) (elems d'))
         \/ (names d' = names d /\ (0 < rows d' <= rows d)%Z
             /\ forall c nc l, nth_error (elems d') c = Some nc -> nth_error L c = Some l ->
                exists l', ncolumn nc = text_column l' /\ Z.of_nat (length l') = rows d'
                  /\ forall i s, nth_error l' i = Some s ->
                       nth_error l i = Some s
                       \/ (Z.of_nat (S i) = rows d' /\ S c = length L /\ s <> []
                           /\ exists w, nth_error l i = Some w /\ starts s w))).
Proof. intros. eapply cut_any; eauto. Qed.

(** Writing to a device that fails after any number of characters, and reading what it holds. *)
Theorem C84_interrupted : forall rs d L r,
  plain rs is_nl is_tab d L ->
  let '(os', o) := insert_df rs d (os0 (Some r) 0) in
  o = Ok tt
  /\ ((exists d', read true is_nl is_tab (sunk os') = Ok d' /\ (rows d' <= rows d)%Z
        /\ forall c nc l, nth_error (elems d') c = Some nc -> nth_error L c = Some l ->
           ncolumn nc = None
           \/ exists l', ncolumn nc = text_column l' /\ Z.of_nat (length l') = rows d'
                /\ forall i s, nth_error l' i = Some s ->
                     nth_error l i = Some s
                     \/ (Z.of_nat (S i) = rows d' /\ S c = length L /\ s <> []
                         /\ exists w, nth_error l i = Some w /\ starts s w))
     \/ read true is_nl is_tab (sunk os') = Throw LogicError).
Proof.
  intros rs d L r P. destruct (insert_df rs d (os0 (Some r) 0)) as (os' & o) eqn:E. unfold insert_df in E.
  pose proof P as [N R U F C1 C2 La Ls].
  pose proof (C34_write_text rs true ["010"%char] ["009"%char] d L N R F) as Hw.
  match type of Hw with _ = (?t, _) => set (tt0 := t) in * end.
  pose proof (C84_write_prefix rs true ["010"%char] ["009"%char] d L (os0 (Some r) 0) os' o tt0 N R F (or_introl eq_refl) eq_refl eq_refl Hw E) as (S1 & _).
  cbn [os0 sunk app] in S1.
  assert (Ho : o = Ok tt).
  { destruct (C84_write_sent rs true ["010"%char] ["009"%char] d L (os0 (Some r) 0) os' o tt0 N R F (or_introl eq_refl) eq_refl Hw E) as (a & b & _ & _ & _ & S & _).
    destruct (enough_dec (os0 (Some r) 0) (padded 0 " "%char false a ++ b)) as [En|En].
    - apply (sent_all _ _ _ _ S En).
    - apply (sent_short _ _ _ _ S En). reflexivity. }
  assert (St : starts (sunk os') tt0).
  { exists (skipn r tt0). rewrite S1. symmetry. apply firstn_skipn. }
  assert (R0 : (0 <= rows d)%Z).
  { unfold rect in R. destruct (elems d) as [|nc es]; [congruence|]. apply Forall_inv in R. rewrite <- R.
    unfold col_size. destruct (ncolumn nc); lia. }
  destruct (C84_cut_any rs is_nl is_tab "010"%char "009"%char d L tt0 (sunk os') eq_refl eq_refl eq_refl P Hw St) as [X|(d' & X & H)].
  { split; [exact Ho|]. now right. }
  split; [exact Ho|]. left. exists d'. split; [exact X|].
  destruct H as [(_ & ->)|[(Rz & _ & Nn)|(Nm & Rr & Hc)]].
  - split; [exact R0|]. intros c nc l Hc. destruct c; discriminate.
  - split; [lia|]. intros c nc l Hc _. left. rewrite Forall_forall in Nn. apply Nn. eapply nth_error_In; eauto.
  - split; [lia|]. intros c nc l Hn Hl. right. eapply Hc; eauto.
Qed.

(** The hypotheses are met by a dataframe with the columns "a" and "b" with two rows; every kind
    of cut occurs. *)
Lemma mixed_plain : plain default_rules is_nl is_tab mixed [[["1"]; ["-"; "2"]]; [["x"]; ["y"]]]%char.
Proof.
  constructor; try discriminate.
  - repeat constructor.
  - intros i j n Hi Hj Hn. destruct i as [|[|i]], j as [|[|j]]; cbn in *; try congruence;
      solve [destruct i; discriminate | destruct j; discriminate].
  - repeat constructor; eexists; (split; [reflexivity|]).
    + right. split; [discriminate|]. eexists. split; [reflexivity|]. repeat constructor.
    + left. split; reflexivity.
  - cbn. repeat (constructor; [intros c [<-|[]]; split; reflexivity|]). constructor.
  - repeat match goal with |- Forall _ [] => constructor | |- Forall _ (_ :: _) => constructor end; intros c Hc; cbn in Hc;
      repeat (destruct Hc as [<-|Hc]; [split; reflexivity|]); destruct Hc.
  - repeat constructor; discriminate.
Qed.
Example C84_cut_ex :
  let t := ["a"; "009"; "b"; "010"; "1"; "009"; "x"; "010"; "-"; "2"; "009"; "y"; "010"]%char in
  let cols k := match read true is_nl is_tab (firstn k t) with Ok d => Some (names d, map ncolumn (elems d)) | _ => None end in
  write default_rules true ["010"%char] ["009"%char] mixed = (t, Ok tt)
  /\ cols 0%nat = Some ([], [])
  /\ cols 1%nat = Some ([["a"]]%char, [None])
  /\ cols 4%nat = Some ([["a"]; ["b"]]%char, [None; None])
  /\ cols 5%nat = None /\ cols 6%nat = None
  /\ cols 7%nat = Some ([["a"]; ["b"]]%char, [text_column [["1"]%char]; text_column [["x"]%char]])
  /\ cols 9%nat = None
  /\ cols 12%nat = Some ([["a"]; ["b"]]%char, [text_column [["1"]; ["-"; "2"]]%char; text_column [["x"]; ["y"]]%char]).
Proof. vm_compute. repeat split; reflexivity. Qed.

(** "A file that was cut off is rejected or its rows are complete" is false: the last cell is
    silently shortened.  Here 25 becomes 2. *)
Theorem C84_cut_detected_refuted : exists d L t t' d' l,
  plain default_rules is_nl is_tab d L
  /\ write default_rules true ["010"%char] ["009"%char] d = (t, Ok tt)
  /\ starts t' t /\ read true is_nl is_tab t' = Ok d'
  /\ names d' = names d /\ rows d' = rows d
  /\ map ncolumn (elems d) = [col_of TInt l] /\ l = [CInt 25]
  /\ to_column default_rules TInt (ncolumn (nth 0 (elems d') (mkN [] None))) = Ok (col_of TInt [CInt 2]).
Proof.
  exists (mkDf 1 [mkN ["a"%char] (col_of TInt [CInt 25])] []), [[["2"; "5"]]]%char.
  exists ["a"; "010"; "2"; "5"; "010"]%char, ["a"; "010"; "2"]%char. eexists _, _.
  split.
  { constructor; try discriminate.
    - repeat constructor.
    - intros i j n Hi Hj Hn. destruct i as [|i], j as [|j]; cbn in *; try congruence;
        solve [destruct i; discriminate | destruct j; discriminate].
    - repeat constructor; eexists; (split; [reflexivity|]).
      right. split; [discriminate|]. eexists. split; [reflexivity|]. repeat constructor.
    - cbn. repeat (constructor; [intros c [<-|[]]; split; reflexivity|]). constructor.
    - repeat match goal with |- Forall _ [] => constructor | |- Forall _ (_ :: _) => constructor end; intros c Hc; cbn in Hc;
        repeat (destruct Hc as [<-|Hc]; [split; reflexivity|]); destruct Hc.
    - repeat constructor; discriminate. }
  split; [vm_compute; reflexivity|]. split; [exists ["5"; "010"]%char; reflexivity|].
  split; [vm_compute; reflexivity|]. vm_compute. repeat split; reflexivity.
Qed.

Print Assumptions C84_read_failed.
Print Assumptions C84_read_all.
Print Assumptions C84_extract.
Print Assumptions C84_loop_forever.
Print Assumptions C84_write_throw.
Print Assumptions C84_write_empty.
Print Assumptions C84_write_stuck.
Print Assumptions C84_write_sent.
Print Assumptions C84_write_prefix.
Print Assumptions C84_write_reported_refuted.
Print Assumptions C84_cut_between.
Print Assumptions C84_cut_inside.
Print Assumptions C84_cut_last.
Print Assumptions C84_cut_any.
Print Assumptions C84_interrupted.
Print Assumptions C84_cut_detected_refuted.
