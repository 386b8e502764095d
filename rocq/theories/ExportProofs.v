(** * ExportProofs: the heap programs of Export.v behave as the value programs of ExportSpec.v. *)

From Coq Require Import ZArith Bool List Lia Permutation.
From Verif Require Import Base Coerce Frame FrameSpec FrameWrite ColHeap ColHeapSpec ColHeapProofs ColHeapProofs2 ColHeapProofs3 ColHeapFrame ColHeapThms
  Export ExportSpec.
Import ListNotations.
Open Scope list_scope.
Open Scope nat_scope.

Set Default Proof Using "Type".
Notation good := ColHeapProofs.good.

Lemma get_cases {A} (l : list A) i : (exists x, get l i = Ok x) \/ get l i = UB.
Proof. unfold get. destruct ((0 <=? i) && (i <? Z.of_nat (length l)))%Z; [|auto]. destruct (nth_error l (Z.to_nat i)); eauto. Qed.
Lemma get_nat {A} (l : list A) i x : get l (Z.of_nat i) = Ok x <-> nth_error l i = Some x.
Proof.
  unfold get. replace (0 <=? Z.of_nat i)%Z with true by (symmetry; apply Z.leb_le; lia). simpl andb. rewrite Nat2Z.id.
  destruct (Z.of_nat i <? Z.of_nat (length l))%Z eqn:E.
  - destruct (nth_error l i); split; intros H; inversion H; auto.
  - apply Z.ltb_ge in E. split; intros H; [discriminate|]. assert (i < length l) by (apply nth_error_Some; congruence). lia.
Qed.

Definition reads (l : list cell) (is : list nat) : outcome (list cell) := mapO (fun i => get l (Z.of_nat i)) is.
Lemma reads_all l : reads l (seq 0 (length l)) = Ok l.
Proof.
  assert (G : forall l2 l1, reads (l1 ++ l2) (seq (length l1) (length l2)) = Ok l2).
  { induction l2 as [|c l2 IH]; intros l1; simpl; auto. unfold reads; simpl.
    replace (get (l1 ++ c :: l2) (Z.of_nat (length l1))) with (Ok c).
    - cbn [bindO]. specialize (IH (l1 ++ [c])). rewrite <- app_assoc, app_length in IH. simpl in IH. rewrite Nat.add_1_r in IH.
      unfold reads in IH. rewrite IH. reflexivity.
    - symmetry. apply get_nat. rewrite nth_error_app2, Nat.sub_diag by lia. reflexivity. }
  exact (G l []).
Qed.

Section P.
Variable rs : rules.
Variable ex : exn.
Variable thr : nat -> bool.
Variable left_in : text -> text.
Ltac wb := apply wp_bind.

Lemma hdata_st L vs w t c v (Q : nat -> world -> Prop) (E : exn -> world -> Prop) : st L vs w -> col_in c v L ->
  (forall b m, col_data t v = Ok (mcells m) -> c = Some b -> v = Some m -> In (b, m) L -> mty m = t -> Q b w) ->
  (forall e, col_data t v = Throw e -> E e w) -> wp (hdata t c) w Q E.
Proof.
  intros H I HQ HE. destruct c as [b|], v as [m|]; simpl in I; try contradiction; simpl.
  - wb. eapply peek_st; [exact H|exact I|]. simpl in *. destruct (ty_eqb (mty m) t) eqn:Et.
    + apply wp_ret. eapply HQ; eauto. destruct (mty m), t; simpl in Et; congruence.
    + unfold wp, lift. auto.
  - unfold wp, lift. auto.
Qed.

Lemma cell_at_st L vs w p m i (Q : cell -> world -> Prop) E : st L vs w -> In (p, m) L ->
  forall c, get (mcells m) (Z.of_nat i) = Ok c -> Q c w -> wp (cell_at p i) w Q E.
Proof. intros H I c Hc HQ. unfold cell_at. wb. eapply peek_st; [exact H|exact I|]. unfold wp, lift. rewrite Hc. exact HQ. Qed.

Lemma copy_out_st p m is : forall L vs w l (Q : list cell -> world -> Prop) (E : exn -> world -> Prop), st L vs w -> In (p, m) L ->
  reads (mcells m) is = Ok l ->
  (forall w', st L vs w' -> Q l w') -> (forall w', st L vs w' -> E ex w') -> wp (copy_out ex thr p is) w Q E.
Proof.
  induction is as [|i is IH]; intros L vs w l Q E H I R HQ HE; unfold reads in R; simpl in *.
  { inversion R; subst. apply wp_ret; auto. }
  destruct (get (mcells m) (Z.of_nat i)) as [c| | | |] eqn:Ec; try discriminate.
  fold (reads (mcells m) is) in R.
  cbn [bindO] in R. destruct (reads (mcells m) is) as [l'| | | |] eqn:Er; try discriminate. inversion R; subst.
  wb. eapply cell_at_st; [exact H|exact I|exact Ec|]. wb. eapply tick_st; [exact H| |auto]. intros w1 H1.
  wb. eapply IH; [exact H1|exact I|reflexivity| |auto]. intros w2 H2. apply wp_ret. auto.
Qed.

Lemma to_column_type t v v' : to_column rs t v = Ok v' -> exists m, v' = Some m /\ mty m = t.
Proof.
  destruct v as [m|]; simpl; [|discriminate]. unfold model_coerce. destruct (rs t (mty m)) as [f|]; [|discriminate].
  destruct (mapO f (mcells m)); simpl; intros H; inversion H; subst. eauto.
Qed.
Lemma mapO_len {A B} (f : A -> outcome B) l : forall r, mapO f l = Ok r -> length r = length l.
Proof.
  induction l as [|x l IH]; simpl; intros r H; [inversion H; auto|]. destruct (f x); try discriminate. cbn [bindO] in H.
  destruct (mapO f l); try discriminate. inversion H; subst. simpl. f_equal; eauto.
Qed.
Lemma to_column_size t v v' : to_column rs t v = Ok v' -> col_size v' = col_size v.
Proof.
  destruct v as [m|]; simpl; [|discriminate]. unfold model_coerce. destruct (rs t (mty m)) as [f|]; [|discriminate].
  destruct (mapO f (mcells m)) eqn:E; simpl; intros H; inversion H; subst. simpl. apply mapO_len in E. simpl. lia.
Qed.

Lemma hto_vector_st L vs w t c v (Q : list cell -> world -> Prop) (E : exn -> world -> Prop) : st L vs w -> col_in c v L ->
  good (to_vector rs t v) ->
  (forall l w', to_vector rs t v = Ok l -> st L vs w' -> Q l w') ->
  (forall e w', e = ex \/ to_vector rs t v = Throw e -> st L vs w' -> E e w') -> wp (hto_vector rs ex thr t c) w Q E.
Proof.
  intros H I G HQ HE. unfold hto_vector. wb. eapply hcol_size_st; [exact H|exact I|].
  unfold to_vector in *. wb. eapply hcol_type_st; [exact H|exact I| |].
  2:{ intros e Ee. rewrite Ee in *. cbn [bindO] in *. auto. }
  intros u Eu. rewrite Eu in *. cbn [bindO] in *. destruct (ty_eqb u t) eqn:Et.
  - wb. eapply hdata_st; [exact H|exact I| |auto].
    intros b m Ed -> -> In1 Em. rewrite Ed in *. wb. eapply tick_st; [exact H| |auto]. intros w1 H1.
    eapply copy_out_st; [exact H1|exact In1| | |auto].
    + simpl. rewrite Nat2Z.id. apply reads_all.
    + intros w2 H2. apply HQ; auto.
  - wb. eapply hto_column_st; [exact H|exact I| | |].
    + clear - G; destruct (to_column rs t v); simpl in *; auto.
    + intros v' c' X w1 Ev HX H1. rewrite Ev in *. cbn [bindO] in *.
      destruct (to_column_type _ _ _ Ev) as (m & -> & Em). pose proof (to_column_size _ _ _ Ev) as Es.
      assert (Ed : col_data t (Some m) = Ok (mcells m)). { simpl. rewrite Em. destruct t; reflexivity. }
      rewrite Ed in *. destruct c' as [b'|]; [|discriminate]. inversion HX; subst X.
      assert (HF : forall e w', e = ex -> st ([(b', m)] ++ L) vs w' ->
         wp (free (Some b')) w' (fun _ w'' => E e w'') (fun _ _ => False)).
      { intros e w' -> H'. eapply free_st; [exact HX|exact H'|]. auto. }
      wb. apply wp_on_throw. wb. eapply hdata_st with (v := Some m); [exact H1|simpl; auto| |].
      2:{ intros e He. simpl in Ed, He. congruence. }
      intros b m0 _ Eb E0 In1 _. inversion Eb; subst b. inversion E0; subst m0. clear Eb E0.
      wb. eapply tick_st; [exact H1| |intros; apply HF; auto]. intros w2 H2.
      eapply copy_out_st; [exact H2|exact In1| | |intros; apply HF; auto].
      * rewrite <- Es. simpl. rewrite Nat2Z.id. apply reads_all.
      * intros w3 H3. wb. eapply free_st; [exact HX|exact H3|]. intros w4 H4. apply wp_ret. apply HQ; auto.
    + intros e w1 He H1. apply HE; auto. destruct He as [->|He]; auto. right. rewrite He. reflexivity.
Qed.

(** *** temporary columns *)
Inductive cowns : list hcol -> list (nat * model) -> Prop :=
| cowns_nil : cowns [] []
| cowns_cons c v l X Y : own1 c v = Some X -> cowns l Y -> cowns (c :: l) (X ++ Y).
Lemma cowns_app l X l' X' : cowns l X -> cowns l' X' -> cowns (l ++ l') (X ++ X').
Proof. induction 1; simpl; auto. intros H1. rewrite <- app_assoc. econstructor; eauto. Qed.
Lemma free_cols_st l : forall X L vs w (Q : unit -> world -> Prop) E, cowns l X -> st (X ++ L) vs w ->
  (forall w', st L vs w' -> Q tt w') -> wp (free_cols l) w Q E.
Proof.
  induction l as [|c l IH]; intros X L vs w Q E HX H HQ; inversion HX; subst; simpl. { apply wp_ret; auto. }
  wb. eapply free_st; [eassumption| |]. { rewrite app_assoc. exact H. } intros w1 H1. eapply IH; eauto.
Qed.

Definition points (L : list (nat * model)) (p : nat) (l : list cell) : Prop := exists m, In (p, m) L /\ mcells m = l.

Lemma matrix_data_cases t nc u l : elements_type (ncolumn nc) = Ok u -> matrix_data rs t nc = Ok l -> ty_eqb u t = true ->
  col_data t (ncolumn nc) = Ok l.
Proof. unfold matrix_data. intros -> H E. cbn [bindO] in H. rewrite E in H. exact H. Qed.

Lemma gather_st grow t els : forall vals temp ptrs X L vs w (Q : list hcol * list nat -> world -> Prop) (E : exn -> world -> Prop),
  cowns temp X -> st (X ++ L) vs w -> all_in els vals L -> good (mapO (matrix_data rs t) vals) ->
  (forall temp' news data X' w', mapO (matrix_data rs t) vals = Ok data -> cowns temp' X' -> st (X' ++ L) vs w' -> incl X X' ->
     Forall2 (points (X' ++ L)) news data -> Q (temp', ptrs ++ news) w') ->
  (forall e w', e = ex \/ mapO (matrix_data rs t) vals = Throw e -> st L vs w' -> E e w') ->
  wp (gather rs ex thr grow t els temp ptrs) w Q E.
Proof.
  induction els as [|[n c] els IH]; intros vals temp ptrs X L vs w Q E HX H I G HQ HE; inversion I; subst; simpl.
  { apply wp_ret. rewrite <- (app_nil_r ptrs). eapply HQ; eauto. reflexivity. apply incl_refl. }
  destruct y as [n' v]. simpl in *. destruct H2 as [-> H2].
  assert (HF : forall e w', e = ex \/ (let* y := matrix_data rs t {| nname := n'; ncolumn := v |} in
      let* ys := mapO (matrix_data rs t) l' in Ok (y :: ys)) = Throw e -> st (X ++ L) vs w' ->
      wp (free_cols temp) w' (fun _ w'' => E e w'') (fun _ _ => False)).
  { intros e w' He H'. eapply free_cols_st; eauto. }
  assert (I2 : col_in c v (X ++ L)). { eapply col_in_incl; [|exact H2]. apply incl_appr, incl_refl. }
  assert (Next : forall temp1 X1 c1 v1 w1 y, cowns temp1 X1 -> st (X1 ++ L) vs w1 -> incl X X1 -> col_in c1 v1 (X1 ++ L) ->
      col_data t v1 = Ok y -> matrix_data rs t {| nname := n'; ncolumn := v |} = Ok y ->
      wp (bindM (on_throw (hdata t c1) (free_cols temp1)) (fun p => gather rs ex thr grow t els temp1 (ptrs ++ [p]))) w1 Q E).
  { intros temp1 X1 c1 v1 w1 y HX1 H1 Inc Ic Ed Em. rewrite Em in *. cbn [bindO] in *.
    wb. apply wp_on_throw. eapply hdata_st; [exact H1|exact Ic| |].
    - intros b m Ed' -> -> In1 Et. rewrite Ed in Ed'. inversion Ed'; subst y.
      eapply IH; [exact HX1|exact H1|exact H4| | |].
      + clear - G. destruct (mapO (matrix_data rs t) l'); simpl in *; auto.
      + intros temp2 news data X2 w2 Ed2 HX2 H2' Inc2 HP. rewrite Ed2 in *. rewrite <- app_assoc. simpl.
        eapply (HQ temp2 (b :: news) (mcells m :: data) X2 w2); auto.
        * eapply incl_tran; eauto.
        * constructor; auto. exists m; split; auto. apply in_app_or in In1. apply in_or_app. destruct In1; auto.
      + intros e w2 He H2'. apply HE; auto. destruct He as [->|He]; auto. right. rewrite He. reflexivity.
    - intros e He. congruence. }
  wb. apply wp_on_throw. wb. eapply hcol_type_st; [exact H|exact I2| |].
  2:{ intros e Ee. apply HF; auto. right. unfold matrix_data. simpl. rewrite Ee. reflexivity. }
  intros u Eu. assert (Em : matrix_data rs t {| nname := n'; ncolumn := v |} =
     if ty_eqb u t then col_data t v else (let* c' := to_column rs t v in col_data t c')).
  { unfold matrix_data; simpl. rewrite Eu. reflexivity. }
  destruct (ty_eqb u t) eqn:Et.
  - apply wp_ret. destruct (col_data t v) as [y|e| | |] eqn:Ed.
    + simpl. eapply Next; eauto. apply incl_refl.
    + simpl. wb. apply wp_on_throw. eapply hdata_st; [exact H|exact I2| |].
      * intros b m Ed'. congruence.
      * intros e' Ee'. apply HF; auto. right. rewrite Em. rewrite Ed in Ee'. inversion Ee'; subst. reflexivity.
    + rewrite Em in G. simpl in G. contradiction.
    + rewrite Em in G. simpl in G. contradiction.
    + rewrite Em in G. simpl in G. contradiction.
  - wb. eapply hto_column_st; [exact H|exact I2| | |].
    + rewrite Em in G. clear - G. destruct (to_column rs t v); simpl in *; auto.
    + intros v' c' Y w1 Ev HY H1. rewrite Ev in Em. cbn [bindO] in Em.
      destruct (to_column_type _ _ _ Ev) as (m & -> & Emt).
      assert (Ed : col_data t (Some m) = Ok (mcells m)). { simpl. rewrite Emt. destruct t; reflexivity. }
      assert (Go : forall w2, st (Y ++ X ++ L) vs w2 ->
         wp (bindM (on_throw (hdata t c') (free_cols (temp ++ [c']))) (fun p => gather rs ex thr grow t els (temp ++ [c']) (ptrs ++ [p]))) w2 Q E).
      { intros w2 H2'. eapply (Next (temp ++ [c']) (X ++ Y) c' (Some m)).
        - rewrite <- (app_nil_r Y). apply cowns_app; auto. econstructor; eauto. constructor.
        - eapply st_perm; [|exact H2']. rewrite !app_assoc. apply Permutation_app_tail, Permutation_app_comm.
        - apply incl_appl, incl_refl.
        - eapply own1_in; [exact HY|]. apply incl_appl, incl_appr, incl_refl.
        - exact Ed.
        - rewrite Em, Ed. reflexivity. }
      wb. apply wp_on_throw. destruct grow.
      * unfold regrow. wb. eapply tick_st; [exact H1| |].
        -- intros w2 H2'. apply wp_ret. apply wp_ret. simpl. auto.
        -- intros w2 H2'. eapply free_st; [exact HY|exact H2'|]. intros w3 H3. apply HF; auto.
      * apply wp_ret. apply wp_ret. simpl. auto.
    + intros e w1 He H1. apply HF; auto. destruct He as [->|He]; auto. right. rewrite Em, He. reflexivity.
Qed.

Lemma copy_cols_st nrow ptrs : forall L vs w data cols (Q : list cell -> world -> Prop) (E : exn -> world -> Prop), st L vs w ->
  Forall2 (points L) ptrs data -> mapO (fun l => reads l (seq 0 nrow)) data = Ok cols ->
  (forall w', st L vs w' -> Q (concat cols) w') -> (forall w', st L vs w' -> E ex w') -> wp (copy_cols ex thr ptrs nrow) w Q E.
Proof.
  induction ptrs as [|p ptrs IH]; intros L vs w data cols Q E H F R HQ HE; inversion F; subst; simpl in *.
  { inversion R; subst. apply wp_ret; auto. }
  destruct H2 as (m & I & <-).
  destruct (reads (mcells m) (seq 0 nrow)) as [c| | | |] eqn:Ec; try discriminate. cbn [bindO] in R.
  destruct (mapO (fun l => reads l (seq 0 nrow)) l') as [cs| | | |] eqn:Er; try discriminate. inversion R; subst.
  wb. eapply copy_out_st; [exact H|exact I|exact Ec| |auto]. intros w1 H1.
  wb. eapply IH; [exact H1|exact H4|exact Er| |auto]. intros w2 H2. apply wp_ret. simpl in HQ. auto.
Qed.

Lemma reads_cases l is : (exists r, reads l is = Ok r) \/ reads l is = UB.
Proof.
  unfold reads. induction is as [|i is IH]; simpl; eauto. destruct (get_cases l (Z.of_nat i)) as [[x ->]| ->]; cbn [bindO]; auto.
  destruct IH as [[r ->]| ->]; cbn [bindO]; eauto.
Qed.
Lemma cols_cases nrow data : (exists r, mapO (fun l => reads l (seq 0 nrow)) data = Ok r) \/ mapO (fun l => reads l (seq 0 nrow)) data = UB.
Proof.
  induction data as [|l data IH]; simpl; eauto. destruct (reads_cases l (seq 0 nrow)) as [[x ->]| ->]; cbn [bindO]; auto.
  destruct IH as [[r ->]| ->]; cbn [bindO]; eauto.
Qed.

Lemma hto_matrix_st L vs w t d v (Q : Z * Z * list cell -> world -> Prop) (E : exn -> world -> Prop) : st L vs w ->
  hrows d = rows v -> all_in (helems d) (elems v) L -> good (to_matrix rs t v) ->
  (forall l w', to_matrix rs t v = Ok l -> st L vs w' -> Q l w') ->
  (forall e w', e = ex \/ to_matrix rs t v = Throw e -> st L vs w' -> E e w') -> wp (hto_matrix rs ex thr t d) w Q E.
Proof.
  intros H HR I G HQ HE. unfold hto_matrix, to_matrix in *. wb. eapply tick_st; [exact H| |auto]. intros w1 H1.
  wb. eapply (gather_st true t (helems d) (elems v) [] [] []); [constructor|exact H1|exact I| | |].
  - clear - G. destruct (mapO (matrix_data rs t) (elems v)); simpl in *; auto.
  - intros temp ptrs data X w2 Ed HX H2 _ HP. rewrite Ed in *. cbn [bindO] in *. simpl app at 1 in HP. simpl.
    change (fun col : list cell => mapO (fun i : nat => get col (Z.of_nat i)) (seq 0 (Z.to_nat (rows v))))
      with (fun col : list cell => reads col (seq 0 (Z.to_nat (rows v)))) in *.
    destruct (cols_cases (Z.to_nat (rows v)) data) as [[cols Ec]|Ec]; rewrite Ec in *; [|contradiction]. cbn [bindO] in *.
    assert (HF : forall w', st (X ++ L) vs w' -> wp (free_cols temp) w' (fun _ w'' => E ex w'') (fun _ _ => False)).
    { intros w' H'. eapply free_cols_st; eauto. }
    wb. apply wp_on_throw. wb. eapply tick_st; [exact H2| |auto]. intros w3 H3.
    eapply copy_cols_st; [exact H3|exact HP|rewrite HR; exact Ec| |auto]. intros w4 H4.
    wb. eapply free_cols_st; [exact HX|exact H4|]. intros w5 H5. apply wp_ret. rewrite HR.
    replace (Z.of_nat (length (helems d))) with (column_count v); [apply HQ; auto|].
    unfold column_count. f_equal. symmetry. eapply all_in_length; eauto.
  - intros e w2 He H2. apply HE; auto. destruct He as [->|He]; auto. right. rewrite He. reflexivity.
Qed.

(** *** output *)
Definition emits (L : list (nat * model)) (vs : list hvar) (f : outs) (s : text) : Prop :=
  forall out w, st L vs w -> wp (f out) w (fun r w' => st L vs w' /\
    (r = (out ++ s, Ok tt) \/ exists s1 s2, s = s1 ++ s2 /\ r = (out ++ s1, Throw ex))) (fun _ _ => False).
Lemma emits_skip L vs : emits L vs skip [].
Proof. intros out w H. apply wp_ret. split; auto. rewrite app_nil_r. auto. Qed.
Lemma emits_say L vs s : emits L vs (say ex thr s) s.
Proof.
  intros out w H. unfold wp, say, ColHeap.tick. destruct (thr (hclock w)); split; try (destruct H; split; assumption); auto.
  right. exists [], s. rewrite app_nil_r. auto.
Qed.
Lemma emits_seq L vs f g s s' : emits L vs f s -> emits L vs g s' -> emits L vs (seqo f g) (s ++ s').
Proof.
  intros Hf Hg out w H. unfold seqo. wb. eapply wp_mono; [apply (Hf out w H)| |auto]. intros r w1 [H1 [->|(s1 & s2 & -> & ->)]]; simpl.
  - eapply wp_mono; [apply (Hg _ _ H1)| |auto]. intros r w2 [H2 Hr]. split; auto. destruct Hr as [->|(s1 & s2 & -> & ->)].
    + left. rewrite app_assoc. reflexivity.
    + right. exists (s ++ s1), s2. rewrite !app_assoc. auto.
  - apply wp_ret. split; auto. right. exists s1, (s2 ++ s'). rewrite app_assoc. auto.
Qed.
Lemma emits_cell L vs p m i c s : In (p, m) L -> get (mcells m) (Z.of_nat i) = Ok c -> cell_text c = Ok s ->
  emits L vs (say_cell ex thr p i) s.
Proof.
  intros I Hc Hs out w H. unfold say_cell. wb. eapply cell_at_st; [exact H|exact I|exact Hc|].
  wb. unfold wp at 1, lift. rewrite Hs. apply emits_say; auto.
Qed.
Lemma emits_rest L vs cs l ss : Forall2 (emits L vs) l ss -> emits L vs (say_rest ex thr cs l) (concat (map (fun s => cs ++ s) ss)).
Proof.
  induction 1; simpl; [apply emits_skip|]. rewrite <- app_assoc. apply emits_seq; [apply emits_say|]. apply emits_seq; auto.
Qed.
Lemma fields_concat cs s ss : write_fields cs (s :: ss) = s ++ concat (map (fun s => cs ++ s) ss).
Proof.
  revert s. induction ss as [|s' ss IH]; intros s; [reflexivity|].
  change (write_fields cs (s :: s' :: ss)) with (s ++ cs ++ write_fields cs (s' :: ss)). rewrite IH. simpl. rewrite <- app_assoc. reflexivity.
Qed.
Lemma emits_line L vs ls cs l ss : Forall2 (emits L vs) l ss -> emits L vs (say_line ex thr ls cs l) (write_fields cs ss ++ ls).
Proof.
  intros F. unfold say_line. apply emits_seq; [|apply emits_say]. destruct F as [|f s l ss Hf F]; [apply emits_skip|].
  rewrite fields_concat. apply emits_seq; auto. apply emits_rest; auto.
Qed.
Lemma emits_rows L vs ls cs ptrs data is : Forall2 (points L) ptrs data -> forall lines, mapO (write_row cs ls data) is = Ok lines ->
  emits L vs (say_rows ex thr ls cs ptrs is) (concat lines).
Proof.
  intros F. induction is as [|i is IH]; simpl; intros lines H. { inversion H; subst. apply emits_skip. }
  destruct (write_row cs ls data i) as [line| | | |] eqn:Er; try discriminate. cbn [bindO] in H.
  destruct (mapO (write_row cs ls data) is) as [lines'| | | |]; try discriminate. inversion H; subst. simpl. apply emits_seq; auto.
  unfold write_row in Er. destruct (mapO (fun col => let* c := get col (Z.of_nat i) in cell_text c) data) as [fs| | | |] eqn:Ef; try discriminate.
  cbn [bindO] in Er. inversion Er; subst. apply emits_line. clear Er H IH. revert fs Ef.
  induction F as [|p l ptrs data (m & Im & <-) F IHF]; simpl; intros fs Ef. { inversion Ef; subst. constructor. }
  destruct (get (mcells m) (Z.of_nat i)) as [c| | | |] eqn:Ec; cbn [bindO] in Ef; try discriminate.
  destruct (cell_text c) as [s| | | |] eqn:Es; cbn [bindO] in Ef; try discriminate.
  destruct (mapO (fun col => let* c0 := get col (Z.of_nat i) in cell_text c0) data); cbn [bindO] in Ef; try discriminate.
  inversion Ef; subst. constructor; auto. eapply emits_cell; eauto.
Qed.

Definition ends (o : outcome unit) : Prop := match o with Ok _ | Throw _ => True | _ => False end.

Lemma rows_cases cs ls data is : (exists r, mapO (write_row cs ls data) is = Ok r) \/ mapO (write_row cs ls data) is = UB.
Proof.
  assert (F : forall i, (exists r, mapO (fun col => let* c := get col (Z.of_nat i) in cell_text c) data = Ok r) \/
     mapO (fun col => let* c := get col (Z.of_nat i) in cell_text c) data = UB).
  { intros i. induction data as [|l data' IH]; simpl; eauto. destruct (get_cases l (Z.of_nat i)) as [[x ->]| ->]; cbn [bindO]; auto.
    destruct x; cbn [cell_text bindO]; auto. destruct IH as [[r ->]| ->]; cbn [bindO]; eauto. }
  induction is as [|i is IH]; simpl; eauto. unfold write_row at 1 3. destruct (F i) as [[x ->]| ->]; cbn [bindO]; auto.
  destruct IH as [[r ->]| ->]; cbn [bindO]; eauto.
Qed.

Lemma hwrite_st L vs w h ls cs d v (Q : text * outcome unit -> world -> Prop) (E : exn -> world -> Prop) : st L vs w ->
  hrows d = rows v -> all_in (helems d) (elems v) L -> ends (snd (write rs h ls cs v)) ->
  (forall r w', st L vs w' -> r = write rs h ls cs v \/ (exists s s', fst (write rs h ls cs v) = s ++ s' /\ r = (s, Throw ex)) -> Q r w') ->
  wp (hwrite rs ex thr h ls cs d) w Q E.
Proof.
  intros H HR I G HQ. unfold write, hwrite in *.
  assert (EB : df_bool v = match helems d with [] => false | _ => true end).
  { rewrite df_bool_nil. inversion I; reflexivity. }
  rewrite EB in *. destruct (helems d) as [|nc els] eqn:Eels; [|rewrite <- Eels in *; clear Eels].
  { simpl in *. unfold wp. apply HQ; auto. }
  simpl negb in *. cbv iota in *.
  change (write_data rs) with (matrix_data rs TStr) in *.
  assert (W : wp (tick ex thr ;;' on_throw (tick ex thr) (ret tt) ;;' gather rs ex thr false TStr (helems d) [] []) w
    (fun g w1 => exists data X, mapO (matrix_data rs TStr) (elems v) = Ok data /\ cowns (fst g) X /\ st (X ++ L) vs w1 /\
       Forall2 (points (X ++ L)) (snd g) data)
    (fun e w1 => (e = ex \/ mapO (matrix_data rs TStr) (elems v) = Throw e) /\ st L vs w1)).
  { wb. eapply tick_st; [exact H| |auto]. intros w1 H1. wb. apply wp_on_throw. eapply tick_st; [exact H1| |].
    2:{ intros w2 H2. apply wp_ret. auto. }
    intros w2 H2. eapply (gather_st false TStr (helems d) (elems v) [] [] []); [constructor|exact H2|exact I| | |].
    - clear - G. destruct (mapO (matrix_data rs TStr) (elems v)); simpl in *; auto.
    - intros temp news data X w3 Ed HX H3 _ HP. exists data, X. auto.
    - intros e w3 He H3. auto. }
  unfold wp in W |- *. destruct ((tick ex thr ;;' on_throw (tick ex thr) (ret tt) ;;' gather rs ex thr false TStr (helems d) [] []) w) as [[g|e| | |] w1];
    try contradiction.
  - destruct W as (data & X & Ed & HX & H1 & HP). rewrite Ed in *.
    destruct (rows_cases cs ls data (seq 0 (Z.to_nat (rows v)))) as [[lines El]|El]; rewrite El in *; [|contradiction].
    rewrite HR. fold (wp (bindM (seqo (if h then say_line ex thr ls cs (map (fun nc0 => say ex thr (fst nc0)) (helems d)) else skip)
      (say_rows ex thr ls cs (snd g) (seq 0 (Z.to_nat (rows v)))) []) (fun r => free_cols (fst g) ;;' ret r)) w1 Q E).
    assert (EM : emits (X ++ L) vs (seqo (if h then say_line ex thr ls cs (map (fun nc0 => say ex thr (fst nc0)) (helems d)) else skip)
      (say_rows ex thr ls cs (snd g) (seq 0 (Z.to_nat (rows v))))) ((if h then write_fields cs (names v) ++ ls else []) ++ concat lines)).
    { apply emits_seq; [|eapply emits_rows; eauto]. destruct h; [|apply emits_skip]. apply emits_line.
      unfold names. clear - I. induction I as [|e nc es ncs [Hn _] _ IH]; simpl; constructor; auto. rewrite <- Hn. apply emits_say. }
    wb. eapply wp_mono; [apply (EM [] w1 H1)| |contradiction].
    intros r w2 [H2 Hr]. wb. eapply free_cols_st; [exact HX|exact H2|]. intros w3 H3. apply wp_ret. apply HQ; auto.
  - destruct W as [He H1]. apply HQ; auto. destruct He as [->|He].
    + right. exists []. eexists. split; reflexivity.
    + left. rewrite He. reflexivity.
Qed.
End P.
