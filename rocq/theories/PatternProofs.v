(** * PatternProofs *)
From Coq Require Import ZArith Bool Ascii String List Lia.
From Verif Require Import Base Coerce Frame FrameSpec FrameProofs FrameText Pattern PatternSpec.
Import ListNotations.
Open Scope Z_scope.
Open Scope list_scope.

Lemma last_char_ne d d' t : t <> [] -> last_char d t = last_char d' t.
Proof. unfold last_char. intros N. destruct (rev t) eqn:E; [|reflexivity]. apply (f_equal (@rev _)) in E. rewrite rev_involutive in E. elim (N E). Qed.

Lemma found_of_inv av b sk r y : found_of av b sk r = Some y ->
  exists a m c, r = Some (a, m, c) /\ y = Found (sk ++ a) m c av (last_char (last_char b a) m).
Proof. destruct r as [[[a m] c]|]; cbn; [|discriminate]. intros [= <-]. eauto. Qed.

Definition mu (x : found) : nat := (2 * length (fpost x) + if tempty (fmatch x) then 0 else 1)%nat.

Lemma tempty_spec t : tempty t = true <-> t = [].
Proof. destruct t; cbn; split; congruence. Qed.

Lemma re_next_step p x y : search_ok p -> re_next p x = Some y ->
  fpost x = fpre y ++ fmatch y ++ fpost y /\ (mu y < mu x)%nat.
Proof.
  intros K E. unfold re_next in E. unfold mu. destruct (tempty (fmatch x)) eqn:T.
  - destruct (fpost x) as [|c s'] eqn:P; [discriminate|].
    destruct (p true true (if favail x then fbefore x else None) (c :: s')) as [r|] eqn:R.
    + apply found_of_inv in E. destruct E as (a & m & q & Er & ->). injection Er as ->. cbn [fpre fmatch fpost app].
      destruct (K _ _ _ _ _ _ _ R) as (D & N & C). rewrite (C eq_refl) in *. split; [exact D|].
      specialize (N eq_refl). cbn [app] in D. rewrite D, app_length. destruct m; [congruence|]. cbn [tempty length]. lia.
    + apply found_of_inv in E. destruct E as (a & m & q & Er & ->). cbn [fpre fmatch fpost app].
      destruct (K _ _ _ _ _ _ _ Er) as (D & _ & _). split; [now rewrite D|]. rewrite D. cbn [length]. rewrite !app_length.
      destruct (tempty m); lia.
  - apply found_of_inv in E. destruct E as (a & m & q & Er & ->). cbn [fpre fmatch fpost app].
    destruct (K _ _ _ _ _ _ _ Er) as (D & _ & _). split; [exact D|]. rewrite D, !app_length.
    destruct m as [|c m]; cbn [tempty length]; lia.
Qed.

(** dropping the last piece *)
Definition trim (ts : list text) : list text := if tempty (last ts []) then removelast ts else ts.

Lemma trim_spec ts : (1 < length ts)%nat -> trimmed ts (trim ts).
Proof.
  intros L. unfold trim, trimmed. destruct (tempty (last ts [])) eqn:E.
  - right. assert (N : ts <> []) by (destruct ts; [cbn in L; lia|congruence]).
    split; [now apply removelast_last_nil|]. destruct ts as [|a [|b ts]]; cbn in *; try lia; congruence.
  - left. split; [reflexivity|]. left. intros X. rewrite X in E. discriminate.
Qed.

Lemma rest_spec p f : search_ok p -> forall x, (mu x < f)%nat ->
  exists ts ms, length ts = S (length ms) /\ fpost x = weave ts ms /\
    re_rest f p false x = Ok (fmatch x :: ms) /\ re_rest f p true x = Ok (trim (fpre x :: ts)).
Proof.
  intros K. induction f as [|f IH]; intros x M; [lia|]. cbn [re_rest]. destruct (re_next p x) as [y|] eqn:E.
  - destruct (re_next_step p x y K E) as [D My]. destruct (IH y) as (ts & ms & L & Wv & R0 & R1); [lia|].
    exists (fpre y :: ts), (fmatch y :: ms). rewrite R0, R1. cbn [bindO length weave]. split; [lia|]. split; [now rewrite D, Wv|].
    split; [reflexivity|]. f_equal. unfold trim. rewrite (last_cons (fpre x)) by congruence.
    destruct (tempty _); reflexivity.
  - exists [fpost x], []. cbn [length weave concat app]. rewrite app_nil_r. repeat split; auto.
    f_equal. unfold trim. cbn. destruct (tempty (fpost x)); reflexivity.
Qed.

Lemma tokens_spec p s : search_ok p ->
  exists ts ms fs, length ts = S (length ms) /\ s = weave ts ms /\ trimmed ts fs /\
    re_tokens p true s = Ok fs /\ re_tokens p false s = Ok ms.
Proof.
  intros K. unfold re_tokens, re_begin. destruct (p false false None s) as [[[a m] c]|] eqn:E.
  - cbn [found_of]. set (x := Found _ _ _ _ _).
    destruct (K _ _ _ _ _ _ _ E) as (D & _ & _).
    destruct (rest_spec p (2 * length s + 2) K x) as (ts & ms & L & Wv & R0 & R1).
    { unfold mu, x. cbn [fpost fmatch]. rewrite D, !app_length. destruct (tempty m); lia. }
    exists (a :: ts), (m :: ms), (trim (a :: ts)). cbn [length weave]. split; [lia|]. cbn [fpost x] in Wv. rewrite <- Wv.
    split; [exact D|]. split; [apply trim_spec; cbn; lia|]. auto.
  - exists [s], [], [s]. cbn. rewrite app_nil_r. repeat split; auto. left. auto.
Qed.

(** never-empty patterns *)
Lemma rest_segments p f : proper p -> forall x, fmatch x <> [] -> fbefore x = last_char None (fmatch x) -> (mu x < f)%nat ->
  exists ts ms, Segments p (fbefore x) (fpost x) ts ms /\
    re_rest f p false x = Ok (fmatch x :: ms) /\ re_rest f p true x = Ok (trim (fpre x :: ts)).
Proof.
  intros [K N]. induction f as [|f IH]; intros x Hm Hb M; [lia|]. cbn [re_rest].
  assert (T : tempty (fmatch x) = false) by (destruct (fmatch x); [congruence|reflexivity]).
  destruct (re_next p x) as [y|] eqn:E.
  - destruct (re_next_step p x y K E) as [D My]. unfold re_next in E. rewrite T in E.
    apply found_of_inv in E. destruct E as (a & m & q & Er & Ey). subst y. cbn [app fpre fmatch fpost fbefore] in *.
    assert (Hn : m <> []) by (eapply N; exact Er).
    destruct (IH (Found a m q true (last_char (last_char (fbefore x) a) m))) as (ts & ms & Sg & R0 & R1); cbn [fmatch fbefore]; auto using last_char_ne; [lia|].
    cbn [fpre fmatch fpost fbefore] in *. exists (a :: ts), (m :: ms). rewrite R0, R1. cbn [bindO]. split.
    + econstructor; [exact Er|]. rewrite (last_char_ne None (last_char (fbefore x) a)) by assumption. exact Sg.
    + split; [reflexivity|]. f_equal. unfold trim. rewrite (last_cons (fpre x)) by congruence. destruct (tempty (last (a :: ts) [])); reflexivity.
  - unfold re_next in E. rewrite T in E. destruct (p false false (fbefore x) (fpost x)) as [[[a m] q]|] eqn:Er; [discriminate|].
    exists [fpost x], []. split; [now constructor|]. split; [reflexivity|]. f_equal. unfold trim. cbn. destruct (tempty (fpost x)); reflexivity.
Qed.

Lemma Segments_length p b s ts ms : Segments p b s ts ms -> length ts = S (length ms).
Proof. induction 1; cbn in *; lia. Qed.

Lemma tokens_segments p s : proper p ->
  exists ts ms fs, Segments p None s ts ms /\ trimmed ts fs /\ re_tokens p true s = Ok fs /\ re_tokens p false s = Ok ms.
Proof.
  intros [K N]. unfold re_tokens, re_begin. destruct (p false false None s) as [[[a m] c]|] eqn:E.
  - cbn [found_of app]. set (x := Found _ _ _ _ _).
    destruct (K _ _ _ _ _ _ _ E) as (D & _ & _). assert (Hn : m <> []) by (eapply N; exact E).
    destruct (rest_segments p (2 * length s + 2) (conj K N) x) as (ts & ms & Sg & R0 & R1); unfold x; cbn [fmatch fbefore fpost]; auto using last_char_ne.
    { unfold mu. cbn [fpost fmatch]. rewrite D, !app_length. destruct (tempty m); lia. }
    cbn [fbefore x fpost fmatch fpre] in *. rewrite (last_char_ne _ None) in Sg by assumption.
    exists (a :: ts), (m :: ms), (trim (a :: ts)). split; [econstructor; eassumption|].
    split; [apply trim_spec; apply Segments_length in Sg; cbn; lia|]. auto.
  - exists [s], [], [s]. repeat split; auto; [now constructor|]. left. auto.
Qed.

Lemma Segments_unique p b s ts ms : Segments p b s ts ms -> forall ts' ms', Segments p b s ts' ms' -> ts' = ts /\ ms' = ms.
Proof.
  induction 1 as [b s H|b s pre m post ts ms H _ IH]; intros ts' ms' H'; inversion H'; subst; try congruence; auto.
  rewrite H in H0. injection H0 as <- <- <-. destruct (IH _ _ H1) as [-> ->]. auto.
Qed.

Lemma trimmed_unique ts fs fs' : trimmed ts fs -> trimmed ts fs' -> fs' = fs.
Proof.
  intros [[-> A]|[E A]] [[-> B]|[E' B]]; auto.
  - exfalso. rewrite E' in A. rewrite last_last, app_length in A. cbn in A. destruct A as [A|A]; [congruence|].
    destruct fs'; [congruence|cbn in A; lia].
  - exfalso. rewrite E in B. rewrite last_last, app_length in B. cbn in B. destruct B as [B|B]; [congruence|].
    destruct fs; [congruence|cbn in B; lia].
  - rewrite E in E'. apply app_inj_tail in E'. now destruct E'.
Qed.

(** ** The table *)
Lemma read_lines_by_rows o ls rows : Forall2 (fun line cells => re_tokens (cell_regex o) (cell_separator o) line = Ok cells)
               (filter (fun l => negb (tempty l)) ls) rows -> forall data nc, 0 < nc ->
  read_lines_by o ls data nc (Z.of_nat (length data))
  = if forallb (fun r => Z.of_nat (length r) =? nc) rows then Ok (data ++ concat rows, nc) else Throw LogicError.
Proof.
  revert rows. induction ls as [|l ls IH]; intros rows F data nc Hnc; cbn [filter] in F.
  - inversion F; subst. cbn. now rewrite app_nil_r.
  - cbn [read_lines_by]. destruct (tempty l); cbn [negb] in F; [now apply IH|].
    inversion F as [|? cells ? rows' E F']; subst. rewrite E. cbn [bindO forallb concat].
    destruct (nc =? 0) eqn:E0; [lia|]. rewrite E0. cbn [orb]. rewrite app_length, Nat2Z.inj_add.
    replace (Z.of_nat (length data) + Z.of_nat (length cells) - Z.of_nat (length data)) with (Z.of_nat (length cells)) by lia.
    destruct (Z.of_nat (length cells) =? nc); cbn [andb]; [|reflexivity].
    rewrite <- Nat2Z.inj_add, <- app_length. rewrite (IH _ F') by assumption. now rewrite <- app_assoc.
Qed.

Lemma read_lines_by_start o ls rows : Forall2 (fun line cells => re_tokens (cell_regex o) (cell_separator o) line = Ok cells)
               (filter (fun l => negb (tempty l)) ls) rows ->
  read_lines_by o ls [] 0 0
  = match from_first_cell rows with
    | [] => Ok ([], 0)
    | r0 :: body => if forallb (fun r => Z.of_nat (length r) =? Z.of_nat (length r0)) body
                    then Ok (concat (r0 :: body), Z.of_nat (length r0)) else Throw LogicError
    end.
Proof.
  revert rows. induction ls as [|l ls IH]; intros rows F; cbn [filter] in F.
  - inversion F; subst. reflexivity.
  - cbn [read_lines_by]. destruct (tempty l); cbn [negb] in F; [now apply IH|].
    inversion F as [|? cells ? rows' E F']; subst. rewrite E. cbn [bindO app Z.eqb]. rewrite Z.sub_0_r.
    destruct cells as [|c cells].
    + cbn. now apply IH.
    + cbn [from_first_cell]. set (r0 := c :: cells).
      rewrite Z.eqb_refl, orb_true_r. rewrite (read_lines_by_rows o ls rows' F') by (unfold r0; cbn; lia). reflexivity.
Qed.

Lemma first_cell_ne rows r0 body : from_first_cell rows = r0 :: body -> (0 < length r0)%nat.
Proof.
  induction rows as [|[|c r] rows IH]; cbn; try discriminate; auto. intros [= <- _]. cbn. lia.
Qed.

Lemma columns_as_bind h r0 body : (0 < length r0)%nat -> same_length (length r0) body ->
  read_columns h (concat (r0 :: body)) (Z.of_nat (length r0))
  = bind_columns (if h then match body with [] => null_columns r0 | _ => header_columns r0 body end
                  else anon_columns (length r0) (r0 :: body)) df_default.
Proof.
  intros P F. unfold read_columns. destruct (Z.of_nat (length r0) =? 0) eqn:Z0; [lia|]. rewrite Nat2Z.id.
  assert (Full : same_length (length r0) (r0 :: body)) by (constructor; auto).
  pose proof (concat_length _ _ Full) as CL. rewrite CL.
  assert (Q : Z.of_nat (length (r0 :: body) * length r0) / Z.of_nat (length r0) = Z.of_nat (length (r0 :: body)))
    by (rewrite Nat2Z.inj_mul; apply Z.div_mul; lia).
  rewrite Q. cbn [length].
  assert (Nth : forall j, (j < length r0)%nat -> nth j (concat (r0 :: body)) [] = nth j r0 []).
  { intros j Hj. cbn [concat]. rewrite app_nth1 by assumption. reflexivity. }
  destruct h; cbn [andb].
  - destruct (Z.of_nat (S (length body)) =? 1) eqn:E1.
    + apply Z.eqb_eq in E1. assert (Eb : body = []) by (clear - E1; destruct body; [reflexivity|cbn [length] in E1; lia]).
      subst body. f_equal. unfold null_columns, col_default.
      transitivity (map (fun n => mkN n None) (map (fun j => nth j r0 []) (seq 0 (length r0))));
        [|now rewrite map_nth_seq].
      rewrite map_map. apply map_ext_in.
      intros j Hj. apply in_seq in Hj. now rewrite Nth by lia.
    + apply Z.eqb_neq in E1.
      assert (Eb : match body with [] => null_columns r0 | _ :: _ => header_columns r0 body end = header_columns r0 body)
        by (destruct body; [cbn [length] in E1; lia|reflexivity]).
      rewrite Eb. clear Eb. f_equal. unfold header_columns. apply map_ext_in. intros j Hj. apply in_seq in Hj.
      rewrite Nth by lia. f_equal. unfold text_column, col_of. f_equal. f_equal. f_equal.
      cbn [concat]. rewrite skipn_app. rewrite (skipn_all2 (n := j + length r0)) by lia. cbn [app].
      replace (j + length r0 - length r0)%nat with j by lia.
      rewrite stride_skipn. apply stride_rows; [assumption|lia].
  - f_equal. unfold anon_columns. apply map_ext_in. intros j Hj. apply in_seq in Hj.
    f_equal. unfold text_column, col_of. f_equal. f_equal. f_equal.
    rewrite Nat.add_0_r, stride_skipn. apply stride_rows; [assumption|lia].
Qed.

Lemma read_by_as_bind o t tbl : Table_by o t tbl ->
  match tbl with
  | [] => read_by o t = Ok df_default
  | r0 :: body =>
      (same_length (length r0) body ->
         read_by o t =
           bind_columns (if has_header o then match body with [] => null_columns r0 | _ => header_columns r0 body end
                         else anon_columns (length r0) (r0 :: body)) df_default)
      /\ (~ same_length (length r0) body -> read_by o t = Throw LogicError)
      /\ (0 < length r0)%nat
  end.
Proof.
  intros (lines & rows & El & F & ->). unfold read_by. rewrite El. cbn [bindO]. rewrite (read_lines_by_start o lines rows F).
  destruct (from_first_cell rows) as [|r0 body] eqn:E; [reflexivity|].
  pose proof (first_cell_ne _ _ _ E) as P.
  destruct (forallb _ body) eqn:Fb.
  - apply forallb_same in Fb. split; [|split; [congruence|assumption]]. intros _. cbn [bindO]. now apply columns_as_bind.
  - split; [|split; auto]. intros S. apply forallb_same in S. congruence.
Qed.

Lemma Table_by_exists o t : search_ok (line_regex o) -> search_ok (cell_regex o) -> exists tbl, Table_by o t tbl.
Proof.
  intros Kl Kc.
  assert (T : forall p b s, search_ok p -> exists l, re_tokens p b s = Ok l).
  { intros p b s K. destruct (tokens_spec p s K) as (ts & ms & fs & _ & _ & _ & A & B). destruct b; eauto. }
  destruct (T _ (line_separator o) t Kl) as [lines El].
  assert (R : exists rows, Forall2 (fun line cells => re_tokens (cell_regex o) (cell_separator o) line = Ok cells) (filter (fun l => negb (tempty l)) lines) rows).
  { generalize (filter (fun l => negb (tempty l)) lines). induction l as [|l ls [rows IH]]; [eexists; constructor|].
    destruct (T _ (cell_separator o) l Kc) as [cs Ec]. exists (cs :: rows). now constructor. }
  destruct R as [rows R]. exists (from_first_cell rows), lines, rows. auto.
Qed.

Lemma Table_by_unique o t tbl tbl' : Table_by o t tbl -> Table_by o t tbl' -> tbl' = tbl.
Proof.
  intros (l & r & E & F & ->) (l' & r' & E' & F' & ->). rewrite E in E'. injection E' as <-. f_equal.
  revert r' F'. induction F as [|x y xs ys H _ IH]; intros r' F'; inversion F'; subst; [reflexivity|].
  rewrite H in *. f_equal; [congruence|]. now apply IH.
Qed.

(** ** Literals *)
Lemma strip_spec w s r : strip w s = Some r <-> s = w ++ r.
Proof.
  revert s. induction w as [|c w IH]; intros s; cbn; [split; congruence|].
  destruct s as [|d s]; [split; discriminate|]. destruct (Ascii.eqb c d) eqn:E.
  - apply Ascii.eqb_eq in E. subst d. rewrite IH. split; [now intros ->|now intros [= ->]].
  - split; [discriminate|]. intros [= -> _]. rewrite Ascii.eqb_refl in E. discriminate.
Qed.

Lemma literal_at_spec w s : match literal_at w s with
  | Some (a, r) => s = a ++ w ++ r /\ forall pre post, s = pre ++ w ++ post -> (length a <= length pre)%nat
  | None => forall pre post, s <> pre ++ w ++ post
  end.
Proof.
  induction s as [|c s IH]; cbn [literal_at].
  - destruct (strip w []) as [r|] eqn:E.
    + apply strip_spec in E. split; [exact E|]. intros. cbn. lia.
    + intros pre post H. symmetry in H. apply app_eq_nil in H. destruct H as [_ H]. 
      assert (X : strip w [] = Some post) by (apply strip_spec; now symmetry). congruence.
  - destruct (strip w (c :: s)) as [r|] eqn:E.
    + apply strip_spec in E. split; [exact E|]. intros. cbn. lia.
    + assert (P : forall pre post, c :: s = pre ++ w ++ post -> exists pre', pre = c :: pre' /\ s = pre' ++ w ++ post).
      { intros pre post H. destruct pre as [|d pre]; cbn in H.
        - assert (X : strip w (c :: s) = Some post) by (apply strip_spec; exact H). congruence.
        - injection H as <- H. eauto. }
      destruct (literal_at w s) as [[a r]|].
      * destruct IH as [-> IH]. split; [reflexivity|]. intros pre post H. destruct (P _ _ H) as (pre' & -> & H'). cbn. apply IH in H'. lia.
      * intros pre post H. destruct (P _ _ H) as (pre' & -> & H'). exact (IH _ _ H').
Qed.

Lemma literal_ok w : search_ok (literal w).
Proof.
  intros nn ct b s pre m post H. unfold literal in H. destruct (nn && tempty w) eqn:E; [discriminate|].
  pose proof (literal_at_spec w s) as S. destruct (literal_at w s) as [[a r]|]; [|discriminate].
  destruct (ct && negb (tempty a)) eqn:C; [discriminate|]. injection H as <- <- <-. split; [apply S|]. split.
  - intros -> ->. discriminate.
  - intros ->. destruct a; [reflexivity|discriminate].
Qed.

Lemma literal_proper w : w <> [] -> proper (literal w).
Proof.
  intros N. split; [apply literal_ok|]. intros nn ct b s pre m post H. unfold literal in H.
  destruct (nn && tempty w); [discriminate|]. destruct (literal_at w s) as [[a r]|]; [|discriminate].
  destruct (ct && negb (tempty a)); [discriminate|]. congruence.
Qed.

Lemma app_split {A} (a b x y : list A) : length a = length b -> a ++ x = b ++ y -> a = b /\ x = y.
Proof.
  revert b. induction a as [|c a IH]; intros [|d b] L H; cbn in *; try discriminate; auto.
  injection H as -> H. injection L as L. destruct (IH b L H) as [-> ->]. auto.
Qed.

Lemma literal_found w b s a r : literal w false false b s = Some (a, w, r) <->
  s = a ++ w ++ r /\ forall pre post, s = pre ++ w ++ post -> (length a <= length pre)%nat.
Proof.
  unfold literal. cbn [andb]. pose proof (literal_at_spec w s) as S. destruct (literal_at w s) as [[a' r']|].
  - split; [intros [= <- <-]; exact S|]. intros [H M]. destruct S as [H' M'].
    assert (L : length a' = length a) by (pose proof (M _ _ H'); pose proof (M' _ _ H); lia).
    rewrite H' in H. destruct (app_split _ _ _ _ L H) as [-> H2]. apply app_inv_head in H2. now subst.
  - split; [discriminate|]. intros [H _]. elim (S _ _ H).
Qed.

Lemma literal_none w b s : literal w false false b s = None <-> forall pre post, s <> pre ++ w ++ post.
Proof.
  unfold literal. cbn [andb]. pose proof (literal_at_spec w s) as S. destruct (literal_at w s) as [[a r]|].
  - split; [discriminate|]. intros H. elim (H a r). apply S.
  - split; auto.
Qed.

(** ** Runs and single characters *)
Lemma span_spec f s : let '(a, b) := span f s in
  s = a ++ b /\ (forall x, In x a -> f x = true) /\ match b with c :: _ => f c = false | [] => True end.
Proof.
  induction s as [|c s IH]; cbn [span]; [repeat split; contradiction|]. destruct (f c) eqn:E.
  - destruct (span f s) as [a b]. destruct IH as (-> & A & B). split; [reflexivity|]. split; [|exact B].
    intros x [<-|H]; auto.
  - repeat split; auto; contradiction.
Qed.

Lemma run_ok star f : search_ok (run_of star f).
Proof.
  intros nn ct b s pre m post H. unfold run_of in H.
  destruct (if ct || star && negb nn then ([], s) else span (fun c => negb (f c)) s) as [a r] eqn:E.
  pose proof (span_spec f r) as S2. destruct (span f r) as [m' r']. destruct S2 as (-> & _ & _).
  destruct (tempty m' && (nn || negb star)) eqn:T; [discriminate|]. injection H as <- <- <-.
  split; [|split].
  - destruct (ct || star && negb nn); [injection E as <- ->; reflexivity|].
    pose proof (span_spec (fun c => negb (f c)) s) as S1. rewrite E in S1. apply S1.
  - intros -> ->. discriminate.
  - intros ->. cbn in E. now injection E.
Qed.

Lemma run_proper f : proper (run_of false f).
Proof.
  split; [apply run_ok|]. intros nn ct b s pre m post H. unfold run_of in H.
  destruct (if ct || false && negb nn then ([], s) else span (fun c => negb (f c)) s) as [a r].
  destruct (span f r) as [m' r']. rewrite orb_true_r, andb_true_r in H. destruct m'; [discriminate|]. cbn in H. congruence.
Qed.

Lemma one_ok f : proper (one_of f).
Proof.
  split.
  - intros nn ct b s pre m post H. unfold one_of in H.
    destruct (if ct then ([], s) else span (fun c => negb (f c)) s) as [a r] eqn:E.
    destruct r as [|c r]; [discriminate|]. destruct (f c); [|discriminate]. injection H as <- <- <-.
    split; [|split; [congruence|]].
    + destruct ct; [now injection E as <- ->|]. pose proof (span_spec (fun c => negb (f c)) s) as S1. rewrite E in S1. apply S1.
    + intros ->. now injection E.
  - intros nn ct b s pre m post H. unfold one_of in H.
    destruct (if ct then ([], s) else span (fun c => negb (f c)) s) as [a r].
    destruct r as [|c r]; [discriminate|]. destruct (f c); [|discriminate]. congruence.
Qed.

Lemma one_segments sep b s ts ms : Segments (one_of sep) b s ts ms -> Split sep s ts.
Proof.
  induction 1 as [b s H|b s pre m post ts ms H _ IH]; unfold one_of in H;
    pose proof (span_spec (fun c => negb (sep c)) s) as S; destruct (span (fun c => negb (sep c)) s) as [a r]; destruct S as (-> & A & B).
  - constructor. assert (r = []) as ->.
    { destruct r as [|c r]; [reflexivity|]. apply negb_false_iff in B. rewrite B in H. discriminate. }
    rewrite app_nil_r. intros c Hc. apply A in Hc. now apply negb_true_iff in Hc.
  - destruct r as [|c r]; [discriminate|]. destruct (sep c) eqn:E; [|discriminate]. injection H as <- <- <-.
    constructor; auto. intros x Hx. apply A in Hx. now apply negb_true_iff in Hx.
Qed.

Lemma one_tokens sep s : re_tokens (one_of sep) true s = Ok (tokens sep s).
Proof.
  destruct (tokens_segments (one_of sep) s (one_ok sep)) as (ts & ms & fs & Sg & T & R & _). rewrite R. f_equal.
  apply Fields_tokens. exists ts. split; [eapply one_segments; exact Sg|exact T].
Qed.

Lemma read_by_one h lsep csep t : read_by (Options (one_of lsep) true (one_of csep) true h) t = read h lsep csep t.
Proof.
  unfold read_by, read. cbn [line_regex line_separator has_header]. rewrite one_tokens. cbn [bindO].
  assert (E : forall ls data nc last, read_lines_by (Options (one_of lsep) true (one_of csep) true h) ls data nc last = read_lines csep ls data nc last).
  { induction ls as [|l ls IH]; intros data nc la; cbn [read_lines_by read_lines]; [reflexivity|].
    destruct (tempty l); [apply IH|]. cbn [cell_regex cell_separator]. rewrite one_tokens. cbn [bindO]. destruct (_ || _); [apply IH|reflexivity]. }
  rewrite E. reflexivity.
Qed.

(** ** Writing with literal separators *)
Lemma first_char_ends c w f : ~ In c f -> ends_at (c :: w) f.
Proof.
  intros N pre post H.
  assert (L : length (f ++ c :: w) = length (pre ++ (c :: w) ++ post)) by now rewrite H.
  rewrite !app_length in L. destruct (Nat.lt_ge_cases (length pre) (length f)) as [G|G].
  - exfalso. apply N. clear L N. revert pre H G. induction f as [|d f IH]; intros pre H G; [cbn in G; lia|].
    destruct pre as [|e pre]; cbn in H; [injection H as -> _; now left|]. injection H as _ H. right. apply (IH pre H). cbn in G. lia.
  - assert (E : length f = length pre) by lia. destruct (app_split _ _ _ _ E H). congruence.
Qed.

Lemma prefix_of {A} (a b x y : list A) : (length a <= length b)%nat -> a ++ x = b ++ y -> exists z, b = a ++ z.
Proof.
  revert b. induction a as [|c a IH]; intros b L H; [now exists b|]. destruct b as [|d b]; [inversion L|].
  cbn [app] in H. injection H as -> H. destruct (IH b) as [z ->]; [cbn [length] in L; apply le_S_n in L; exact L|exact H|]. now exists z.
Qed.

Lemma literal_field w f b rest : ends_at w f -> literal w false false b (f ++ w ++ rest) = Some (f, w, rest).
Proof.
  intros E. apply literal_found. split; [reflexivity|]. intros pre post H.
  destruct (Nat.lt_ge_cases (length pre) (length f)) as [G|G]; [|exact G].
  rewrite !app_assoc in H. destruct (prefix_of (pre ++ w) (f ++ w) post rest) as [z Z]; [rewrite !app_length; lia|now symmetry|].
  rewrite <- app_assoc in Z. apply E in Z. subst. lia.
Qed.

Lemma literal_end w f b : w <> [] -> ends_at w f -> literal w false false b f = None.
Proof.
  intros N E. apply literal_none. intros pre post ->.
  assert (X : pre = pre ++ w ++ post) by (apply (E pre (post ++ w)); now rewrite <- !app_assoc).
  apply (f_equal (@length _)) in X. rewrite !app_length in X. destruct w; [congruence|]. cbn [length] in X. lia.
Qed.

Lemma fields_segments w fs : w <> [] -> fs <> [] -> Forall (ends_at w) fs -> forall b, exists ms, Segments (literal w) b (write_fields w fs) fs ms.
Proof.
  intros N Nf F. induction F as [|f fs Hf F IH]; intros b; [congruence|]. cbn [write_fields]. destruct fs as [|g fs].
  - exists []. rewrite app_nil_r. constructor. now apply literal_end.
  - destruct (IH ltac:(congruence) (last_char None w)) as [ms Sg]. exists (w :: ms). econstructor; [now apply literal_field|exact Sg].
Qed.

Lemma lines_segments w ls : w <> [] -> Forall (ends_at w) ls -> forall b, exists ms,
  Segments (literal w) b (concat (map (fun l => l ++ w) ls)) (ls ++ [[]]) ms.
Proof.
  intros N F. induction F as [|l ls Hl F IH]; intros b; cbn [map concat app].
  - exists []. constructor. apply literal_end; [assumption|]. intros pre post H. apply (f_equal (@length _)) in H.
    rewrite !app_length in H. cbn in H. destruct pre; [reflexivity|cbn in H; lia].
  - destruct (IH (last_char None w)) as [ms Sg]. exists (w :: ms). rewrite <- app_assoc. econstructor; [now apply literal_field|exact Sg].
Qed.

Lemma segments_tokens p s ts ms : proper p -> Segments p None s ts ms -> forall fs, trimmed ts fs -> re_tokens p true s = Ok fs.
Proof.
  intros K Sg fs T. destruct (tokens_segments p s K) as (ts' & ms' & fs' & Sg' & T' & R & _).
  destruct (Segments_unique _ _ _ _ _ Sg _ _ Sg') as [-> ->]. rewrite R. f_equal. now apply (trimmed_unique ts).
Qed.

Definition literal_options (wl wc : text) (h : bool) : read_options := Options (literal wl) true (literal wc) true h.

Lemma table_written_by wl wc h tbl : wl <> [] -> wc <> [] -> tbl <> [] ->
  (forall r, In r tbl -> last r [] <> [] /\ Forall (ends_at wc) r /\ ends_at wl (write_fields wc r)) ->
  Table_by (literal_options wl wc h) (concat (map (fun r => write_fields wc r ++ wl) tbl)) tbl.
Proof.
  intros Nl Nc Nt H. exists (map (write_fields wc) tbl), tbl. cbn [literal_options line_regex line_separator cell_regex cell_separator].
  assert (Nr : forall r, In r tbl -> r <> []) by (intros r Hr ->; apply H in Hr; cbn in Hr; tauto).
  split; [|split].
  - rewrite <- (map_map (write_fields wc) (fun l => l ++ wl)).
    destruct (lines_segments wl (map (write_fields wc) tbl) Nl) with (b := @None ascii) as [ms Sg].
    { apply Forall_forall. intros l Hl. apply in_map_iff in Hl. destruct Hl as (r & <- & Hr). now apply H. }
    eapply segments_tokens; [now apply literal_proper|exact Sg|]. right. split; [reflexivity|]. destruct tbl; cbn; congruence.
  - assert (F : filter (fun l => negb (tempty l)) (map (write_fields wc) tbl) = map (write_fields wc) tbl).
    { clear Nt Nr. induction tbl as [|r tbl IH]; cbn [map filter]; [reflexivity|].
      pose proof (write_fields_nonempty wc r (proj1 (H r (or_introl eq_refl)))) as Wn. apply tempty_false in Wn.
      rewrite Wn. cbn [negb]. rewrite IH; [reflexivity|]. intros. apply H. now right. }
    rewrite F. clear F Nt. induction tbl as [|r tbl IH]; cbn; constructor.
    + destruct (H r) as (L & E & _); [now left|]. destruct (fields_segments wc r Nc) with (b := @None ascii) as [ms Sg]; auto; [apply Nr; now left|].
      eapply segments_tokens; [now apply literal_proper|exact Sg|]. left. auto.
    + apply IH; intros; [apply H|apply Nr]; now right.
  - destruct tbl as [|r tbl]; [congruence|]. destruct r as [|f r]; [elim (Nr []); cbn; auto|]. reflexivity.
Qed.
