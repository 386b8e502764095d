(** * FrameWrite: lemmas about write and about reading back what was written. *)

From Coq Require Import ZArith Bool Ascii String List Lia.
From Verif Require Import Base Coerce CoerceSpec CoerceProofs Frame FrameSpec FrameProofs FrameText.
Import ListNotations.
Open Scope Z_scope.
Open Scope list_scope.

Lemma ty_eqb_eq a b : ty_eqb a b = true <-> a = b.
Proof. destruct a, b; cbn; split; congruence. Qed.
Lemma ty_eqb_neq a b : ty_eqb a b = false <-> a <> b.
Proof. rewrite <- ty_eqb_eq. destruct (ty_eqb a b); split; congruence. Qed.
Lemma ty_eqb_refl a : ty_eqb a a = true.
Proof. now apply ty_eqb_eq. Qed.

Lemma texts_write_data rs nc l : texts rs nc l -> write_data rs nc = Ok (map CStr l).
Proof.
  intros (m & E & H). unfold write_data. rewrite E. cbn [elements_type bindO].
  destruct H as [[T C]|[T (f & R & F)]].
  - rewrite T. cbn. rewrite T. cbn. now rewrite C.
  - apply ty_eqb_neq in T. rewrite T. cbn [to_column]. unfold model_coerce. rewrite R.
    assert (M : mapO f (mcells m) = Ok (map CStr l)).
    { apply mapO_Ok_intro. clear - F. induction F; cbn; constructor; auto. }
    rewrite M. reflexivity.
Qed.

Lemma texts_length rs nc l : texts rs nc l -> col_size (ncolumn nc) = Z.of_nat (length l).
Proof.
  intros (m & E & H). rewrite E. cbn. destruct H as [[_ C]|[_ (f & _ & F)]].
  - rewrite C. now rewrite map_length.
  - f_equal. clear - F. induction F; cbn; congruence.
Qed.

(** Row i of the columns [L]. *)
Definition row_of (L : list (list text)) (i : nat) : list text := map (fun l => nth i l []) L.
Definition rows_of (L : list (list text)) (n : nat) : list (list text) := map (row_of L) (seq 0 n).

Lemma write_row_eq cs ls L n i : Forall (fun l => length l = n) L -> (i < n)%nat ->
  write_row cs ls (map (map CStr) L) i = Ok (write_fields cs (row_of L i) ++ ls).
Proof.
  intros H Hi. unfold write_row.
  assert (M : mapO (fun col => let* c := get col (Z.of_nat i) in cell_text c) (map (map CStr) L) = Ok (row_of L i)).
  { unfold row_of. apply mapO_Ok_intro. induction H as [|l L Hl _ IH]; cbn; constructor; auto.
    assert (X : nth_error (map CStr l) i = Some (CStr (nth i l []))).
    { rewrite nth_error_map. rewrite (nth_error_nth' l []) by lia. reflexivity. }
    apply get_nth in X. rewrite X. reflexivity. }
  rewrite M. reflexivity.
Qed.

Lemma mapO_map_Ok {A B} (f : A -> outcome B) g l : (forall a, In a l -> f a = Ok (g a)) -> mapO f l = Ok (map g l).
Proof.
  induction l as [|a l IH]; intros H; cbn; [reflexivity|].
  rewrite H by (cbn; auto). cbn. rewrite IH by (intros; apply H; cbn; auto). reflexivity.
Qed.

(** What write writes. *)
Lemma write_eq rs h ls cs d L :
  elems d <> [] -> rect d -> Forall2 (texts rs) (elems d) L ->
  write rs h ls cs d
  = ((if h then write_fields cs (names d) ++ ls else [])
       ++ concat (map (fun r => write_fields cs r ++ ls) (rows_of L (Z.to_nat (rows d)))), Ok tt).
Proof.
  intros N R F. unfold write.
  assert (B : df_bool d = true).
  { unfold df_bool, column_count. destruct (elems d); [congruence|]. cbn [length]. apply Z.ltb_lt. lia. }
  rewrite B. cbn [negb].
  assert (M : mapO (write_data rs) (elems d) = Ok (map (map CStr) L)).
  { apply mapO_Ok_intro. clear - F. induction F; cbn; constructor; auto. now apply texts_write_data. }
  rewrite M.
  assert (Len : Forall (fun l => length l = Z.to_nat (rows d)) L).
  { unfold rect in R. clear - R F. induction F; inversion R; subst; constructor; auto.
    apply texts_length in H. lia. }
  rewrite (mapO_map_Ok _ (fun i => write_fields cs (row_of L i) ++ ls)).
  - unfold rows_of. rewrite map_map. reflexivity.
  - intros i Hi. apply in_seq in Hi. eapply write_row_eq; [exact Len|lia].
Qed.

Lemma tcolumn_rows L n j : Forall (fun l => length l = n) L -> (j < length L)%nat ->
  tcolumn (rows_of L n) j = nth j L [].
Proof.
  intros H Hj. unfold tcolumn, rows_of. rewrite map_map.
  assert (Hl : length (nth j L []) = n) by (rewrite Forall_forall in H; apply H, nth_In; assumption).
  transitivity (map (fun i => nth i (nth j L []) []) (seq 0 n)).
  - apply map_ext. intros i. unfold row_of.
    rewrite (nth_indep _ [] (nth i (@nil text) [])) by now rewrite map_length.
    now rewrite (map_nth (fun l => nth i l [])).
  - rewrite <- Hl. apply map_nth_seq.
Qed.

Lemma last_map_nth L i : last (row_of L i) [] = nth i (last L []) [].
Proof.
  unfold row_of. induction L as [|l L IH]; [cbn; now destruct i|].
  destruct L as [|l' L]; [reflexivity|]. cbn [map last] in *. exact IH.
Qed.

Lemma header_columns_of ns L n :
  length ns = length L -> Forall (fun l => length l = n) L ->
  header_columns ns (rows_of L n) = map (fun p => mkN (fst p) (text_column (snd p))) (combine ns L).
Proof.
  intros E H. unfold header_columns.
  apply (nth_ext _ _ (mkN [] None) (mkN [] None)).
  - rewrite !map_length, seq_length, combine_length. lia.
  - intros j Hj. rewrite map_length, seq_length in Hj.
    rewrite (nth_indep _ _ ((fun j => mkN (nth j ns []) (text_column (tcolumn (rows_of L n) j))) 0%nat))
      by (rewrite map_length, seq_length; lia).
    rewrite (map_nth (fun j => mkN (nth j ns []) (text_column (tcolumn (rows_of L n) j)))).
    rewrite seq_nth by lia. cbn [Nat.add].
    rewrite (nth_indep _ (mkN [] None) ((fun p => mkN (fst p) (text_column (snd p))) ([], [])))
      by (rewrite map_length, combine_length; lia).
    rewrite (map_nth (fun p => mkN (fst p) (text_column (snd p)))).
    rewrite combine_nth by assumption. cbn [fst snd]. now rewrite tcolumn_rows by (auto; lia).
Qed.

Lemma anon_columns_of L n :
  Forall (fun l => length l = n) L ->
  anon_columns (length L) (rows_of L n) = map (fun l => mkN [] (text_column l)) L.
Proof.
  intros H. unfold anon_columns.
  transitivity (map (fun l => mkN [] (text_column l)) (map (fun j => nth j L []) (seq 0 (length L)))).
  - rewrite map_map. apply map_ext_in. intros j Hj. apply in_seq in Hj. now rewrite tcolumn_rows by (auto; lia).
  - f_equal. apply (nth_ext _ _ [] []); [now rewrite map_length, seq_length|].
    intros j Hj. rewrite map_length, seq_length in Hj.
    rewrite (nth_indep _ [] ((fun j => nth j L []) (length L))) by now rewrite map_length, seq_length.
    rewrite (map_nth (fun j => nth j L [])). now rewrite seq_nth.
Qed.

(** The table of the written text. *)
Lemma written_table rs lsep csep lc cc d L h :
  lsep lc = true -> csep cc = true -> lsep cc = false ->
  elems d <> [] -> rect d -> Forall2 (texts rs) (elems d) L ->
  (h = true -> Forall (clean lsep csep) (names d) /\ last (names d) [] <> []) ->
  Forall (Forall (clean lsep csep)) L -> Forall (fun s => s <> []) (last L []) ->
  exists t, write rs h [lc] [cc] d = (t, Ok tt)
    /\ table lsep csep t = (if h then [names d] else []) ++ rows_of L (Z.to_nat (rows d)).
Proof.
  intros Hl Hc Hlc N R F Hn HL Hla. eexists. split; [exact (write_eq rs h [lc] [cc] d L N R F)|].
  set (n := Z.to_nat (rows d)).
  assert (Len : Forall (fun l => length l = n) L).
  { unfold rect in R. unfold n. clear - R F. induction F; inversion R; subst; constructor; auto.
    apply texts_length in H. lia. }
  transitivity (table lsep csep (concat (map (fun r => write_fields [cc] r ++ [lc])
                 ((if h then [names d] else []) ++ rows_of L n)))).
  { f_equal. rewrite map_app, concat_app. f_equal. destruct h; [cbn [map concat]; now rewrite app_nil_r|reflexivity]. }
  assert (LN : L <> []) by (intros ->; inversion F; congruence).
  apply table_written; auto.
  - intros r f x Hr Hf Hx. apply in_app_or in Hr. destruct Hr as [Hr|Hr].
    + destruct h; [|destruct Hr]. destruct Hr as [<-|[]]. destruct (Hn eq_refl) as [A _].
      rewrite Forall_forall in A. exact (A f Hf x Hx).
    + unfold rows_of in Hr. apply in_map_iff in Hr. destruct Hr as (i & <- & Hi). apply in_seq in Hi.
      unfold row_of in Hf. apply in_map_iff in Hf. destruct Hf as (l & <- & Hl').
      rewrite Forall_forall in HL. specialize (HL l Hl'). rewrite Forall_forall in HL, Len.
      specialize (Len l Hl').
      apply (HL (nth i l [])); [apply nth_In; lia|assumption].
  - intros r Hr. apply in_app_or in Hr. destruct Hr as [Hr|Hr].
    + destruct h; [|destruct Hr]. destruct Hr as [<-|[]]. exact (proj2 (Hn eq_refl)).
    + unfold rows_of in Hr. apply in_map_iff in Hr. destruct Hr as (i & <- & Hi). apply in_seq in Hi.
      rewrite last_map_nth. rewrite Forall_forall in Hla, Len.
      assert (In (last L []) L). { destruct (exists_last LN) as (L0 & a & ->). rewrite last_last. apply in_or_app. cbn. auto. }
      specialize (Len _ H). apply Hla, nth_In. lia.
Qed.

Lemma rows_of_same L n : same_length (length L) (rows_of L n).
Proof.
  unfold same_length, rows_of. apply Forall_forall. intros r H. apply in_map_iff in H. destruct H as (i & <- & _).
  unfold row_of. apply map_length.
Qed.

Lemma rows_of_length L n : length (rows_of L n) = n.
Proof. unfold rows_of. now rewrite map_length, seq_length. Qed.

Lemma write_data_texts rs nc l :
  col_wt (ncolumn nc) ->
  (forall u f c c', rs TStr u = Some f -> f c = Ok c' -> type_of c' = TStr) ->
  write_data rs nc = Ok l ->
  exists l0, l = map CStr l0 /\ col_size (ncolumn nc) = Z.of_nat (length l0).
Proof.
  intros Wt Ty. unfold write_data. destruct (ncolumn nc) as [m|]; [|discriminate]. cbn [elements_type bindO col_wt] in *.
  assert (ST : forall l, Forall (fun c => type_of c = TStr) l -> exists l0, l = map CStr l0).
  { clear. induction 1 as [|c l H _ [l0 ->]]; [exists []; reflexivity|].
    destruct c; try discriminate. exists (s :: l0). reflexivity. }
  destruct (ty_eqb (mty m) TStr) eqn:E.
  - cbn. rewrite E. intros H. injection H as <-. apply ty_eqb_eq in E. rewrite E in Wt.
    destruct (ST _ Wt) as [l0 ->]. exists l0. split; [reflexivity|]. now rewrite map_length.
  - unfold to_column, model_coerce. destruct (rs TStr (mty m)) as [f|] eqn:Rf; [|discriminate].
    destruct (mapO f (mcells m)) as [l1| | | |] eqn:M; try discriminate. cbn.
    intros H. injection H as <-. apply mapO_Ok_inv in M.
    destruct (ST l1) as [l0 ->].
    { clear - M Ty Rf. induction M; constructor; eauto. }
    exists l0. split; [reflexivity|]. f_equal. clear - M. rewrite <- (map_length CStr l0). induction M; cbn; congruence.
Qed.

Lemma last_nth_pos (r : list text) : last r [] = nth (length r - 1) r [].
Proof.
  destruct r as [|a r]; [reflexivity|]. destruct (exists_last (l := a :: r)) as (l & x & ->); [discriminate|].
  rewrite last_last, app_length. cbn. replace (length l + 1 - 1)%nat with (length l) by lia.
  rewrite app_nth2 by lia. now rewrite Nat.sub_diag.
Qed.

(** Fields contain no separators. *)
Lemma Split_free sep s segs : Split sep s segs -> forall g c, In g segs -> In c g -> sep c = false /\ In c s.
Proof.
  induction 1 as [s H|s c rest segs H Hc _ IH]; intros g x Hg Hx.
  - destruct Hg as [<-|[]]. auto.
  - destruct Hg as [<-|Hg].
    + split; auto. apply in_or_app. auto.
    + destruct (IH g x Hg Hx). split; auto. apply in_or_app. cbn. auto.
Qed.

Lemma Fields_free sep s fs : Fields sep s fs -> forall g c, In g fs -> In c g -> sep c = false /\ In c s.
Proof.
  intros (segs & S & H) g c Hg Hc. apply (Split_free _ _ _ S g c); auto.
  destruct H as [[-> _]|[-> _]]; auto. apply in_or_app. auto.
Qed.

Lemma Table_clean lsep csep t tbl : Table lsep csep t tbl -> forall r s, In r tbl -> In s r -> clean lsep csep s.
Proof.
  intros (lines & S & F) r s Hr Hs c Hc.
  assert (X : exists l, In l lines /\ Fields csep l r).
  { assert (Y : forall l, In l (filter (fun l => negb (tempty l)) lines) -> In l lines) by (intros l Hl; apply filter_In in Hl; tauto).
    revert Y Hr. clear - F. induction F as [|l f ls fs H _ IH]; intros Y Hr; [destruct Hr|].
    destruct Hr as [<-|Hr]; [exists l; split; auto; apply Y; cbn; auto|]. apply IH; auto. intros. apply Y. cbn. auto. }
  destruct X as (l & Hl & Fl). destruct (Fields_free _ _ _ Fl s c Hs Hc) as [A B].
  destruct (Split_free _ _ _ S l c Hl B) as [C _]. auto.
Qed.

(** Texts of integers. *)
Lemma dec_nat_chars s v : dec_nat s v -> s <> [] /\ forall c, In c s -> exists d, is_digit c d.
Proof.
  induction 1 as [c d H|s v c d _ [_ IH] H].
  - split; [discriminate|]. intros x [<-|[]]. eauto.
  - split; [intros X; apply app_eq_nil in X; destruct X; discriminate|].
    intros x Hx. apply in_app_or in Hx. destruct Hx as [Hx|[<-|[]]]; eauto.
Qed.

Lemma itos_nonempty z : itos z <> [].
Proof.
  pose proof (itos_denotes z) as H. inversion H as [s v D E|s v D E]; [|discriminate].
  apply (proj1 (dec_nat_chars _ _ D)).
Qed.

Lemma digit_clean c d : is_digit c d -> is_nl c = false /\ is_tab c = false.
Proof. unfold is_digit, digit_table. cbn. intros H. repeat (destruct H as [H|H]; [injection H as <- <-; split; reflexivity|]). destruct H. Qed.

Lemma itos_clean z : clean is_nl is_tab (itos z).
Proof.
  intros c Hc. pose proof (itos_denotes z) as H. inversion H as [s v D E|s v D E].
  - destruct (proj2 (dec_nat_chars _ _ D) c Hc) as [d Hd]. eapply digit_clean; eauto.
  - rewrite <- E in Hc. destruct Hc as [<-|Hc]; [split; reflexivity|].
    destruct (proj2 (dec_nat_chars _ _ D) c Hc) as [d Hd]. eapply digit_clean; eauto.
Qed.

(** ** Lemmas for column coercion, head, matrices *)

Lemma mapO_cases {A B} (f : A -> outcome B) l :
  (exists r, mapO f l = Ok r /\ Forall2 (fun x y => f x = Ok y) l r)
  \/ (exists pre x post r, l = pre ++ x :: post /\ Forall2 (fun x y => f x = Ok y) pre r
        /\ (forall y, f x <> Ok y) /\ mapO f l = (let* _ := f x in Ok r)).
Proof.
  induction l as [|a l IH]; [left; exists []; split; [reflexivity|constructor]|].
  cbn. destruct (f a) as [b| | | |] eqn:E.
  - destruct IH as [(r & E1 & F)|(pre & x & post & r & -> & F & N & O)].
    + left. exists (b :: r). rewrite E1. split; [reflexivity|constructor; auto].
    + right. exists (a :: pre), x, post, (b :: r). split; [reflexivity|]. split; [constructor; auto|]. split; [exact N|].
      rewrite O. cbn. destruct (f x) eqn:X; cbn; reflexivity.
  - right. exists [], a, l, []. rewrite E. split; [reflexivity|]. split; [constructor|]. split; [congruence|reflexivity].
  - right. exists [], a, l, []. rewrite E. split; [reflexivity|]. split; [constructor|]. split; [congruence|reflexivity].
  - right. exists [], a, l, []. rewrite E. split; [reflexivity|]. split; [constructor|]. split; [congruence|reflexivity].
  - right. exists [], a, l, []. rewrite E. split; [reflexivity|]. split; [constructor|]. split; [congruence|reflexivity].
Qed.

Lemma same_type_coerce c : In (type_of c) [TNum; TStr; TIdx; TInt; TUInt] -> cell_ok c ->
  coerce1 default_rules (type_of c) c = Ok c.
Proof.
  intros H K. destruct c; cbn in H; try (exfalso; decompose [or] H; congruence); cbn; cbn [cell_ok] in K; reflexivity.
Qed.

Lemma partial_ok m first size :
  0 <= first -> 0 <= size -> first < Z.of_nat (length (mcells m)) -> first + size <= Z.of_nat (length (mcells m)) ->
  first + size < W ->
  partial_clone m first size = Ok (mkModel (mty m) (firstn (Z.to_nat size) (skipn (Z.to_nat first) (mcells m)))).
Proof.
  intros. unfold partial_clone. rewrite w64_id by lia.
  destruct (Z.of_nat (length (mcells m)) <=? first) eqn:E1; [lia|].
  destruct (Z.of_nat (length (mcells m)) <? first + size) eqn:E2; [lia|]. cbn [orb].
  destruct (first + size <=? Z.of_nat (length (mcells m))) eqn:E3; [reflexivity|lia].
Qed.

Lemma ctor_from_intro l rc : l <> [] -> Forall (fun nc => col_size (ncolumn nc) = rc) l -> unique_names (map nname l) ->
  exists d, ctor_from (map Ok l) = Ok d /\ elems d = l /\ rows d = rc.
Proof.
  intros N S U. destruct l as [|nc l]; [congruence|]. inversion S; subst. cbn [map ctor_from bindO].
  rewrite push_all_intro by assumption. cbn [bindO app].
  destruct (build_index_total (nc :: l) 0 []) as [ix E]; [split; [exact U|reflexivity]|].
  rewrite E. cbn [bindO]. eexists. split; [reflexivity|]. split; reflexivity.
Qed.

Lemma coerced_length rs t c l : coerced_to rs t c l -> col_size c = Z.of_nat (length l).
Proof.
  intros (m & -> & H). cbn. destruct H as [[_ ->]|[_ [_ F]]]; [reflexivity|]. f_equal. clear - F. induction F; cbn; congruence.
Qed.

Lemma Forall2_weaken {A B} (P Q : A -> B -> Prop) l r : (forall a b, P a b -> Q a b) -> Forall2 P l r -> Forall2 Q l r.
Proof. intros H. induction 1; constructor; auto. Qed.

Lemma mapO_get_all {A} (l : list A) : mapO (fun i => get l (Z.of_nat i)) (seq 0 (length l)) = Ok l.
Proof.
  apply mapO_Ok_intro.
  assert (H : forall k, Forall2 (fun i x => nth_error l i = Some x) (seq k (length l - k)) (skipn k l)).
  { intros k. remember (length l - k)%nat as n. revert k Heqn. induction n as [|n IH]; intros k E.
    - rewrite skipn_all2 by lia. constructor.
    - destruct (nth_error l k) as [x|] eqn:X; [|apply nth_error_None in X; lia].
      assert (Y : skipn k l = x :: skipn (S k) l).
      { clear - X. revert k X. induction l as [|a l IH]; intros [|k] X; try discriminate; cbn in *; [congruence|auto]. }
      rewrite Y. cbn. constructor; [exact X|]. apply IH. lia. }
  specialize (H O). rewrite Nat.sub_0_r in H. cbn [skipn] in H.
  apply (Forall2_weaken _ _ _ _ (fun i x => get_nth l i x) H).
Qed.
