(** * ExportThms: moving elements out, head, and programs. *)

From Coq Require Import ZArith Bool List Lia Permutation.
From Verif Require Import Base Coerce Frame FrameSpec FrameWrite ColHeap ColHeapSpec ColHeapProofs ColHeapProofs2 ColHeapProofs3 ColHeapFrame ColHeapThms
  Export ExportSpec ExportProofs.
Import ListNotations.
Open Scope list_scope.
Open Scope nat_scope.

Set Default Proof Using "Type".
Notation good := ColHeapProofs.good.
Ltac wb := apply wp_bind.

Section P.
Variable rs : rules.
Variable ex : exn.
Variable thr : nat -> bool.
Variable left_in : text -> text.
Notation mv := (moved left_in).

Lemma put_mid {A} (l1 : list A) c l2 v : put (l1 ++ c :: l2) (Z.of_nat (length l1)) v = Ok (l1 ++ v :: l2).
Proof.
  unfold put. replace ((0 <=? Z.of_nat (length l1)) && (Z.of_nat (length l1) <? Z.of_nat (length (l1 ++ c :: l2))))%Z with true.
  - rewrite Nat2Z.id. f_equal. induction l1 as [|a l1 IH]; simpl; auto. rewrite IH. reflexivity.
  - symmetry. apply andb_true_intro. split; [apply Z.leb_le; lia|]. apply Z.ltb_lt. rewrite app_length. simpl. lia.
Qed.

Lemma move_out_st l2 : forall l1 L vs w b t (Q : list cell -> world -> Prop) (E : exn -> world -> Prop),
  st ((b, mkModel t (l1 ++ l2)) :: L) vs w ->
  (forall w', st ((b, mkModel t (l1 ++ map mv l2)) :: L) vs w' -> Q l2 w') ->
  (forall k w', st ((b, mkModel t (l1 ++ map mv (firstn k l2) ++ skipn k l2)) :: L) vs w' -> E ex w') ->
  wp (move_out ex thr left_in b (seq (length l1) (length l2))) w Q E.
Proof.
  induction l2 as [|c l2 IH]; intros l1 L vs w b t Q E H HQ HE; simpl.
  { apply wp_ret. auto. }
  wb. eapply cell_at_st with (c := c); [exact H|now left| |].
  { apply get_nat. simpl. rewrite nth_error_app2, Nat.sub_diag by lia. reflexivity. }
  wb. eapply tick_st; [exact H| |]. 2:{ intros w' H'. apply (HE 0). exact H'. }
  intros w1 H1. wb. eapply peek_st; [exact H1|now left|]. simpl mcells. simpl mty. wb. unfold wp at 1, lift. rewrite put_mid.
  wb. eapply poke_st; [exact H1|]. intros w2 H2. wb.
  replace (S (length l1)) with (length (l1 ++ [mv c])) by (rewrite app_length; simpl; lia).
  eapply (IH (l1 ++ [mv c])).
  - rewrite <- app_assoc. exact H2.
  - intros w3 H3. rewrite <- app_assoc in H3. apply wp_ret. apply HQ. exact H3.
  - intros k w3 H3. rewrite <- app_assoc in H3. apply (HE (S k)). exact H3.
Qed.

(** *** head *)
Definition head_val (n : Z) (nc : ncol) : outcome ncol := let* c := col_partial (ncolumn nc) 0 n in Ok (mkN (nname nc) c).

Lemma head_elem_st L vs w n e nc (Q : hncol -> world -> Prop) (E : exn -> world -> Prop) : st L vs w ->
  fst e = nname nc -> col_in (snd e) (ncolumn nc) L -> good (head_val n nc) ->
  (forall e' nc' X w', head_val n nc = Ok nc' -> fst e' = nname nc' -> own1 (snd e') (ncolumn nc') = Some X -> st (X ++ L) vs w' -> Q e' w') ->
  (forall x w', x = ex \/ head_val n nc = Throw x -> st L vs w' -> E x w') -> wp (head_elem ex thr n e) w Q E.
Proof.
  intros H En I G HQ HE. unfold head_elem, head_val in *. wb. eapply tick_st; [exact H| |auto]. intros w1 H1.
  wb. eapply hpartial_st; [exact H1|exact I| | |].
  - clear - G. destruct (col_partial (ncolumn nc) 0 n); simpl in *; auto.
  - intros v' c' X w2 Ev HX H2. rewrite Ev in *. cbn [bindO] in *.
    assert (NN : v' <> None).
    { destruct (ncolumn nc) as [m|]; [|discriminate]. simpl in Ev. destruct (partial_clone m 0 n); cbn [bindO] in Ev; congruence. }
    wb. apply wp_on_throw. wb.
    assert (HF : forall w', st (X ++ L) vs w' -> wp (free c') w' (fun _ w'' => E ex w'') (fun _ _ => False)).
    { intros w' H'. eapply free_st; eauto. }
    eapply tick_st; [exact H2| |auto]. intros w3 H3. eapply hcopy_st; [exact H3| |exact NN| |auto].
    + eapply own1_in; [exact HX|]. apply incl_appl, incl_refl.
    + intros c2 Y w4 HY H4. wb. eapply (free_st X (Y ++ L)); [exact HX| |].
      * eapply st_perm; [|exact H4]. rewrite !app_assoc. apply Permutation_app_tail, Permutation_app_comm.
      * intros w5 H5. apply wp_ret. eapply (HQ (fst e, c2) _ Y); simpl; eauto.
  - intros x w2 Hx H2. apply HE; auto. destruct Hx as [->|Hx]; auto. right. rewrite Hx. reflexivity.
Qed.

Lemma hpush_head_st n rc els : forall vals acc accv X L vs w (Q : list hncol * bool -> world -> Prop) (E : exn -> world -> Prop),
  owns acc accv X -> st (X ++ L) vs w -> all_in els vals L -> good (push_all rc accv (map (head_val n) vals)) ->
  (forall acc' accv' ok X' w', push_all rc accv (map (head_val n) vals) = Ok (accv', ok) -> owns acc' accv' X' -> st (X' ++ L) vs w' -> Q (acc', ok) w') ->
  (forall e w', e = ex \/ push_all rc accv (map (head_val n) vals) = Throw e -> st L vs w' -> E e w') -> wp (hpush_head ex thr n rc acc els) w Q E.
Proof.
  induction els as [|e els IH]; intros vals acc accv X L vs w Q E HX H I G HQ HE; inversion I; subst; simpl in *.
  { apply wp_ret. eapply HQ; eauto. }
  destruct H2 as [En Ec]. wb. apply wp_on_throw.
  assert (HF : forall x w', x = ex \/ head_val n y = Throw x -> st (X ++ L) vs w' -> wp (free_all acc) w' (fun _ w'' => E x w'') (fun _ _ => False)).
  { intros x w' Hx H'. eapply free_all_st; [exact HX|exact H'|]. intros w'' H''. apply HE; auto. destruct Hx as [->|Hx]; auto. rewrite Hx. auto. }
  eapply head_elem_st; [exact H|exact En| | | |exact HF].
  { eapply col_in_incl; [|exact Ec]. apply incl_appr, incl_refl. }
  { clear - G. destruct (head_val n y); simpl in *; auto. }
  intros e' nc' Y w1 Ev En' HY H1. rewrite Ev in *. cbn [bindO] in *. cbv zeta.
  wb. eapply hcol_size_st; [exact H1| |].
  { eapply own1_in; [exact HY|]. apply incl_appl, incl_refl. }
  assert (HO : owns (acc ++ [e']) (accv ++ [nc']) (X ++ Y ++ [])).
  { apply owns_app; auto. destruct e' as [n' c'], nc' as [n2 v2]; simpl in *; subst. constructor; auto. constructor. }
  rewrite app_nil_r in HO.
  assert (HS : st ((X ++ Y) ++ L) vs w1).
  { eapply st_perm; [|exact H1]. rewrite !app_assoc. apply Permutation_app_tail, Permutation_app_comm. }
  cbv zeta in G, HQ, HE.
  destruct (Z.eqb (col_size (ncolumn nc')) rc) eqn:Es.
  - eapply IH; [exact HO|exact HS|exact H4|exact G|exact HQ|exact HE].
  - apply wp_ret. eapply HQ; eauto.
Qed.

Lemma hctor_head_st n els vals L vs w (Q : hdf -> world -> Prop) (E : exn -> world -> Prop) : st L vs w ->
  all_in els vals L -> good (ctor_from (map (head_val n) vals)) ->
  (forall d' v' X w', ctor_from (map (head_val n) vals) = Ok v' -> dfown d' v' X -> st (X ++ L) vs w' -> Q d' w') ->
  (forall e w', e = ex \/ ctor_from (map (head_val n) vals) = Throw e -> st L vs w' -> E e w') -> wp (hctor_head ex thr n els) w Q E.
Proof.
  intros H I G HQ HE. destruct els as [|e els]; inversion I; subst; simpl in *; [contradiction|].
  destruct H2 as [En Ec]. wb. eapply tick_st; [exact H| |auto]. intros w1 H1.
  wb. eapply head_elem_st; [exact H1|exact En|exact Ec| | |].
  { clear - G. destruct (head_val n y); simpl in *; auto. }
  2:{ intros x w2 Hx H2. apply HE; auto. destruct Hx as [->|Hx]; auto. rewrite Hx. auto. }
  intros e' nc' X w2 Ev En' HX H2. rewrite Ev in *. cbn [bindO] in *.
  wb. eapply hcol_size_st; [exact H2| |]. { eapply own1_in; [exact HX|]. apply incl_appl, incl_refl. }
  wb. assert (HO : owns [e'] [nc'] X).
  { rewrite <- (app_nil_r X). destruct e' as [n' c'], nc' as [n2 v2]; simpl in *; subst. repeat constructor; auto. }
  set (rc := col_size (ncolumn nc')) in *.
  eapply hpush_head_st; [exact HO|exact H2|exact H4| | |].
  { clear - G. destruct (push_all rc [nc'] (map (head_val n) l')) as [[] | | | |]; simpl in *; auto. }
  2:{ intros x w3 Hx H3. apply HE; auto. destruct Hx as [->|Hx]; auto. rewrite Hx. auto. }
  intros acc accv ok Y w3 HP HY H3. wb. apply wp_on_throw. rewrite HP in *. cbn [bindO] in *. simpl in *.
  assert (HF : forall x w', x = ex \/ (if ok then bindO (build_index accv 0 []) (fun ix => Ok (mkDf rc accv ix)) else Throw LogicError) = Throw x ->
     st (Y ++ L) vs w' -> wp (free_all acc) w' (fun _ w'' => E x w'') (fun _ _ => False)).
  { intros x w' He H'. eapply free_all_st; eauto. }
  destruct ok.
  - eapply hbuild_index_st; [exact H3|eapply owns_names; eauto| |].
    + intros ix w5 Ei H6. apply wp_ret. eapply HQ; [rewrite Ei; reflexivity| |exact H6]. split; [|split]; auto.
    + intros x w5 He H6. apply HF; auto. destruct He as [->|He]; auto. right. rewrite He; reflexivity.
  - unfold wp at 1, lift. apply HF; auto.
Qed.

Lemma hhead_st L vs w n d v (Q : hdf -> world -> Prop) (E : exn -> world -> Prop) : st L vs w ->
  hrows d = rows v -> all_in (helems d) (elems v) L -> good (head n v) ->
  (forall d' v' X w', head n v = Ok v' -> dfown d' v' X -> st (X ++ L) vs w' -> Q d' w') ->
  (forall e w', e = ex \/ head n v = Throw e -> st L vs w' -> E e w') -> wp (hhead ex thr n d) w Q E.
Proof.
  intros H HR I G HQ HE. unfold hhead, head in *. rewrite HR. destruct (rows v <? n)%Z. { unfold wp, lift. auto. }
  change (fun nc : ncol => let* c := col_partial (ncolumn nc) 0 n in Ok {| nname := nname nc; ncolumn := c |}) with (head_val n) in *.
  wb. eapply hctor_head_st; [exact H|exact I| | |].
  - clear - G. destruct (ctor_from (map (head_val n) (elems v))); simpl in *; auto.
  - intros tmp tv X w1 Ev HD H1. rewrite Ev in *. cbn [bindO] in *. destruct HD as (D1 & D2 & D3).
    destruct (df_copy_ok tv) as [[Ec NN]|Ec]; rewrite Ec in *; [|contradiction].
    wb. apply wp_on_throw. eapply hdf_copy_st; [exact H1|exact D1|exact D2| |exact NN| |].
    + eapply owns_in; [exact D3|]. apply incl_appl, incl_refl.
    + intros d' Y w2 HD' H2. wb. eapply (free_all_st (helems tmp) (elems tv) X (Y ++ L)); [exact D3| |].
      * eapply st_perm; [|exact H2]. rewrite !app_assoc. apply Permutation_app_tail, Permutation_app_comm.
      * intros w3 H3. apply wp_ret. eapply HQ; eauto.
    + intros w2 H2. eapply free_all_st; [exact D3|exact H2|]. auto.
  - intros e w1 He H1. apply HE; auto. destruct He as [->|He]; auto. right. rewrite He. reflexivity.
Qed.

(** *** whole commands *)
Definition goodx (o : outcome xval) : Prop := match o with Ok _ | Throw _ => True | _ => False end.
Definition xsound (x : xop) : Prop := forall a w, Inv a w -> goodx (snd (axexec rs left_in x a)) ->
  wp (xexec rs ex thr left_in x) w
     (fun r w' => exists a', Inv a' w' /\ (axexec rs left_in x a = (a', Ok r) \/ xfail rs ex left_in x a (Ok r) a'))
     (fun e w' => exists a', Inv a' w' /\ (axexec rs left_in x a = (a', Throw e) \/ xfail rs ex left_in x a (Throw e) a')).

Ltac start := intros a w [L [HL HV]] G; assert (HS : st L (hvars w) w) by (split; auto); simpl xexec; simpl axexec in *.

Lemma xcmd_sound c : xsound (XCmd c).
Proof.
  intros a w HI G. simpl xexec. simpl axexec in *. wb.
  assert (G' : good (snd (aexec rs c a))).
  { destruct (aexec rs c a) as [a' o]. simpl in *. destruct o; simpl in *; auto. }
  eapply wp_mono; [exact (kexec_sound rs ex thr c a w HI G')| |].
  - intros [] w' (a' & E & HI'). apply wp_ret. exists a'. rewrite E. split; auto.
  - intros e w' (a' & S & HI'). exists a'. split; auto. destruct S as [[E _]|[E F]].
    + left. rewrite E. reflexivity.
    + right. simpl. inversion E; subst. auto.
Qed.
Lemma xvec_sound t y : xsound (XVec t y).
Proof.
  start. destruct (acol a y) as [s|] eqn:Ey; [|contradiction]. destruct (look_c _ _ _ _ _ HV Ey) as (c & Nc & Ic).
  wb. eapply getc_st; [exact HS|exact Nc|]. wb. eapply hto_vector_st; [exact HS|exact Ic| | |].
  - clear - G. destruct (to_vector rs t s); simpl in *; auto.
  - intros l w' El H'. apply wp_ret. exists a. split; [eapply inv_keep; eauto|]. left. rewrite El. reflexivity.
  - intros e w' He H'. exists a. split; [eapply inv_keep; eauto|]. destruct He as [->|He]; [right; simpl; auto|left]. rewrite He. reflexivity.
Qed.
Lemma xmat_sound t y : xsound (XMat t y).
Proof.
  start. destruct (adf a y) as [s|] eqn:Ey; [|contradiction]. destruct (look_d _ _ _ _ _ HV Ey) as (d & Nd & D1 & D2 & D3).
  wb. eapply getd_st; [exact HS|exact Nd|]. wb. eapply hto_matrix_st; [exact HS|exact D1|exact D3| | |].
  - clear - G. destruct (to_matrix rs t s); simpl in *; auto.
  - intros l w' El H'. apply wp_ret. exists a. split; [eapply inv_keep; eauto|]. left. rewrite El. reflexivity.
  - intros e w' He H'. exists a. split; [eapply inv_keep; eauto|]. destruct He as [->|He]; [right; simpl; auto|left]. rewrite He. reflexivity.
Qed.
Lemma xwrite_sound h ls cs y : xsound (XWrite h ls cs y).
Proof.
  start. destruct (adf a y) as [s|] eqn:Ey; [|contradiction]. destruct (look_d _ _ _ _ _ HV Ey) as (d & Nd & D1 & D2 & D3).
  wb. eapply getd_st; [exact HS|exact Nd|]. wb. eapply hwrite_st; [exact HS|exact D1|exact D3| |].
  - clear - G. destruct (write rs h ls cs s) as [x []]; simpl in *; auto.
  - intros r w' H' Hr. apply wp_ret. exists a. split; [eapply inv_keep; eauto|]. destruct Hr as [->|(x & x' & E & ->)].
    + left. destruct (write rs h ls cs s) as [z [[]| | | |]]; simpl in *; auto; contradiction.
    + right. simpl. split; auto. exists s, x, x'. auto.
Qed.
Lemma xhead_sound n y : xsound (XHead n y).
Proof.
  start. destruct (adf a y) as [s|] eqn:Ey; [|contradiction]. destruct (look_d _ _ _ _ _ HV Ey) as (d & Nd & D1 & D2 & D3).
  wb. eapply getd_st; [exact HS|exact Nd|]. wb. eapply hhead_st; [exact HS|exact D1|exact D3| | |].
  - clear - G. destruct (head n s); simpl in *; auto.
  - intros d' v' X w1 Ev HD H1. wb. eapply addv_st; [exact H1|]. intros w' H'. apply wp_ret. rewrite Ev.
    exists (addf a v'). split; auto. eapply inv_add; [exact HV|apply vown_df; exact HD|exact H'].
  - intros e w' He H'. exists a. split; [eapply inv_keep; eauto|]. destruct He as [->|He]; [right; simpl; auto|left]. rewrite He. reflexivity.
Qed.
Lemma xvecmove_sound t y : xsound (XVecMove t y).
Proof.
  start. destruct (acol a y) as [s|] eqn:Ey; [|contradiction].
  destruct (pick_c _ _ _ _ _ HV Ey) as (c & X & R & Nc & HX & P & HU).
  unfold hto_vector_move. wb. wb. eapply getc_st; [exact HS|exact Nc|].
  wb. eapply hcol_size_st; [eapply st_perm; [exact P|exact HS]|eapply own1_in; [exact HX|]; apply incl_appl, incl_refl|].
  wb. pose proof (ensured_fst rs t s) as HF.
  assert (G' : good (snd (ensured rs t s))).
  { unfold to_vector_move, to_view, ensured in *. destruct (elements_type s) as [u|e| | |]; simpl in *; auto.
    destruct (ty_eqb u t); simpl in *; auto. destruct (col_coerce rs t s) as [s' []]; simpl in *; auto. }
  destruct (to_view_ensured rs t s G') as (o & Eo & Ho).
  assert (EV : axexec rs left_in (XVecMove t y) a = (setc a y (fst (to_vector_move rs left_in t s)), let* l := snd (to_vector_move rs left_in t s) in Ok (VVec l))).
  { simpl. rewrite Ey. destruct (to_vector_move rs left_in t s). reflexivity. }
  simpl in EV. rewrite Ey in EV. rewrite EV in G |- *. unfold to_vector_move in G |- *. rewrite Eo in G |- *.
  eapply (hensure_st rs ex thr X R); [exact HX|eapply st_perm; [exact P|exact HS]|exact G'| |].
  - intros c' X' w1 Es HX' H1. wb. eapply setv_st; [exact H1|]. intros w2 H2. rewrite Es in Ho. destruct Ho as [l ->]. simpl in G |- *.
    assert (HM : exists m, fst (ensured rs t s) = Some m /\ mty m = t /\ mcells m = l /\ col_size s = Z.of_nat (length l)).
    { clear - Es Eo. unfold to_view, ensured in *. destruct s as [m|]; simpl in *; [|congruence].
      destruct (ty_eqb (mty m) t) eqn:Et.
      - exists m. simpl in *. rewrite Et in Eo. inversion Eo. apply ty_eqb_eq in Et. auto.
      - unfold model_coerce in *. destruct (rs t (mty m)) as [f|]; simpl in *; [|congruence].
        destruct (mapO f (mcells m)) as [r|e| | |] eqn:Er; simpl in *; try congruence.
        exists (mkModel t r). simpl. assert (r = l). { destruct t; simpl in Eo; inversion Eo; auto. } subst r.
        apply mapO_len in Er. rewrite Er. auto. }
    destruct HM as (m & Ef & Em & Ec & Esz). rewrite Ef in *. destruct c' as [b|]; [|discriminate]. inversion HX'; subst X'.
    assert (ED : m = mkModel t l) by (destruct m; simpl in *; subst; reflexivity). subst m. clear Em Ec.
    assert (HI : forall l' w', st ([(b, mkModel t l')] ++ R) (upd_nat (hvars w) y (HCol (Some b))) w' -> Inv (setc a y (Some (mkModel t l'))) w').
    { intros l' w' H'. destruct (HU (HCol (Some b)) (AC (Some (mkModel t l'))) [(b, mkModel t l')]) as (L' & HL' & P'). { now apply vown_col. }
      eapply inv_intro; eauto. }
    assert (HE : forall k w', st ([(b, mkModel t (map mv (firstn k l) ++ skipn k l))] ++ R) (upd_nat (hvars w) y (HCol (Some b))) w' ->
      exists a', Inv a' w' /\ ((setc a y (Some (mkModel t (map mv l))), Ok (VVec l)) = (a', Throw ex) \/ xfail rs ex left_in (XVecMove t y) a (Throw ex) a')).
    { intros k w' H'. eexists. split; [apply HI; exact H'|]. right. simpl. split; auto. right. exists s, l, k. rewrite Eo. auto. }
    wb. eapply hdata_st with (v := Some (mkModel t l)); [exact H2|simpl; auto| |].
    2:{ intros e He. simpl in He. assert (Ht : ty_eqb t t = true) by (apply ty_eqb_eq; auto). rewrite Ht in He. discriminate. }
    intros b0 m0 _ Eb _ _ _. inversion Eb; subst b0.
    wb. eapply tick_st; [exact H2| |]. 2:{ intros w' H'. apply (HE 0). exact H'. }
    intros w3 H3. rewrite Esz, Nat2Z.id. eapply (move_out_st l []); [exact H3| |].
    + intros w' H'. apply wp_ret. eexists. split; [apply HI; exact H'|]. auto.
    + intros k w' H'. apply (HE k). exact H'.
  - intros e w' He H'. exists a. split; [eapply inv_intro; [exact H'|exact HV|auto]|].
    destruct He as [->|He]; [right; simpl; auto|left]. rewrite He in Ho. subst o. simpl.
    rewrite HF by congruence. rewrite setc_same by auto. reflexivity.
Qed.

Lemma xexec_sound x : xsound x.
Proof.
  destruct x; [apply xcmd_sound|apply xvec_sound|apply xvecmove_sound|apply xmat_sound|apply xwrite_sound|apply xhead_sound].
Qed.
End P.

Unset Default Proof Using.
(** *** which operations a command depends on *)
Lemma local_data t c : local (fun _ _ => hdata t c).
Proof. unfold hdata. loc. Qed.
Lemma local_cell p i : local (fun _ _ => cell_at p i).
Proof. unfold cell_at. loc. Qed.
#[export] Hint Resolve local_data local_cell : loc.
Lemma local_copy_out p is : local (fun ex thr => copy_out ex thr p is).
Proof. induction is; simpl; loc. Qed.
Lemma local_move_out left_in p is : local (fun ex thr => move_out ex thr left_in p is).
Proof. induction is; simpl; loc. Qed.
Lemma local_free_cols l : local (fun _ _ => free_cols l).
Proof. induction l; simpl; loc. Qed.
#[export] Hint Resolve local_copy_out local_move_out local_free_cols : loc.
Lemma local_vec rs t c : local (fun ex thr => hto_vector rs ex thr t c).
Proof. unfold hto_vector. loc. Qed.
Lemma local_vecmove rs left_in t c : local (fun ex thr => hto_vector_move rs ex thr left_in t c).
Proof. unfold hto_vector_move. loc. Qed.
Lemma local_regrow l : local (fun ex thr => regrow ex thr l).
Proof. unfold regrow. loc. Qed.
#[export] Hint Resolve local_vec local_vecmove local_regrow : loc.
Lemma local_gather rs grow t els : forall temp ptrs, local (fun ex thr => gather rs ex thr grow t els temp ptrs).
Proof. induction els as [|[n c] els IH]; simpl; loc. Qed.
Lemma local_copy_cols n ptrs : local (fun ex thr => copy_cols ex thr ptrs n).
Proof. induction ptrs; simpl; loc. Qed.
#[export] Hint Resolve local_gather local_copy_cols : loc.
Lemma local_mat rs t d : local (fun ex thr => hto_matrix rs ex thr t d).
Proof. unfold hto_matrix. loc. Qed.
#[export] Hint Resolve local_mat : loc.
Definition localo (f : exn -> (nat -> bool) -> outs) : Prop := forall out, local (fun ex thr => f ex thr out).
Lemma localo_skip : localo (fun _ _ => skip).
Proof. intros out. unfold skip. loc. Qed.
Lemma localo_say s : localo (fun ex thr => say ex thr s).
Proof.
  intros out ex thr w o w' H. unfold say, ColHeap.tick in *. destruct (thr (hclock w)) eqn:E; inversion H; subst; simpl in *; (split; [lia|]).
  - intros ex' thr' K. destruct (K (hclock w)) as [K1 _]; [lia|congruence].
  - intros ex' thr' K. destruct (K (hclock w)) as [_ K2]; [lia|]. rewrite K2. reflexivity.
Qed.
Lemma localo_seq f g : localo f -> localo g -> localo (fun ex thr => seqo (f ex thr) (g ex thr)).
Proof. intros Hf Hg out. unfold seqo. apply local_bind; [apply Hf|]. intros [s []]; simpl; try apply local_ret. apply Hg. Qed.
Lemma localo_cell p i : localo (fun ex thr => say_cell ex thr p i).
Proof. intros out. unfold say_cell. apply local_bind; [loc|]. intros c. apply local_bind; [loc|]. intros s. apply localo_say. Qed.
Lemma localo_rest {A} cs (l : list A) (f : exn -> (nat -> bool) -> A -> outs) : (forall x, localo (fun ex thr => f ex thr x)) ->
  localo (fun ex thr => say_rest ex thr cs (map (f ex thr) l)).
Proof.
  intros H. induction l as [|x l IH]; simpl; [apply localo_skip|]. apply localo_seq; [apply localo_say|]. apply localo_seq; auto.
Qed.
Lemma localo_line {A} ls cs (l : list A) (f : exn -> (nat -> bool) -> A -> outs) : (forall x, localo (fun ex thr => f ex thr x)) ->
  localo (fun ex thr => say_line ex thr ls cs (map (f ex thr) l)).
Proof.
  intros H. unfold say_line. apply localo_seq; [|apply localo_say]. destruct l as [|x l]; simpl; [apply localo_skip|].
  apply localo_seq; auto. apply localo_rest; auto.
Qed.
Lemma localo_rows ls cs ptrs is : localo (fun ex thr => say_rows ex thr ls cs ptrs is).
Proof.
  induction is as [|i is IH]; simpl; [apply localo_skip|]. apply localo_seq; auto.
  apply (localo_line ls cs ptrs (fun ex thr p => say_cell ex thr p i)). intros p. apply localo_cell.
Qed.
Lemma local_catch {A B} (m : exn -> (nat -> bool) -> M A) (f : exn -> (nat -> bool) -> A -> M B) (h : exn -> B) :
  local m -> (forall a, local (fun ex thr => f ex thr a)) ->
  local (fun ex thr w => match m ex thr w with
     | (Ok a, w1) => f ex thr a w1 | (Throw e, w1) => (Ok (h e), w1)
     | (Abort, w1) => (Abort, w1) | (UB, w1) => (UB, w1) | (Timeout, w1) => (Timeout, w1) end).
Proof.
  intros Hm Hf ex thr w o w' H. destruct (m ex thr w) as [o1 w1] eqn:E. destruct (Hm _ _ _ _ _ E) as [K1 K2].
  destruct o1 as [a|e| | |].
  1:{ destruct (Hf a _ _ _ _ _ H) as [K3 K4]. split; [lia|]. intros ex' thr' K. rewrite (K2 ex' thr').
    - apply K4. intros k Hk. apply K. lia.
    - intros k Hk. apply K. lia. }
  all: inversion H; subst; split; [lia|]; intros ex' thr' K; rewrite (K2 ex' thr') by auto; reflexivity.
Qed.
Lemma local_write rs h ls cs d : local (fun ex thr => hwrite rs ex thr h ls cs d).
Proof.
  unfold hwrite. destruct (helems d) as [|nc els] eqn:E. { apply (local_ret ([], Ok tt)). } rewrite <- E.
  apply (local_catch (fun ex thr => tick ex thr ;;' on_throw (tick ex thr) (ret tt) ;;' gather rs ex thr false TStr (helems d) [] [])
    (fun ex thr g => r <- seqo (if h then say_line ex thr ls cs (map (fun nc => say ex thr (fst nc)) (helems d)) else skip)
                     (say_rows ex thr ls cs (snd g) (seq 0 (Z.to_nat (hrows d)))) [] ;;
           free_cols (fst g) ;;' ret r) (fun e => ([], Throw e))); [loc|].
  intros g. apply local_bind; [|loc]. apply (localo_seq (fun ex thr => if h then say_line ex thr ls cs (map (fun nc0 => say ex thr (fst nc0)) (helems d)) else skip)).
  - destruct h; [|apply localo_skip]. apply (localo_line ls cs (helems d) (fun ex thr nc0 => say ex thr (fst nc0))). intros x. apply localo_say.
  - apply localo_rows.
Qed.
#[export] Hint Resolve local_write : loc.
Lemma local_head_elem n e : local (fun ex thr => head_elem ex thr n e).
Proof. unfold head_elem. loc. Qed.
#[export] Hint Resolve local_head_elem : loc.
Lemma local_push_head n rc els : forall acc, local (fun ex thr => hpush_head ex thr n rc acc els).
Proof. induction els as [|e els IH]; simpl; loc. Qed.
#[export] Hint Resolve local_push_head : loc.
Lemma local_ctor_head n els : local (fun ex thr => hctor_head ex thr n els).
Proof. unfold hctor_head. loc. Qed.
#[export] Hint Resolve local_ctor_head : loc.
Lemma local_head n d : local (fun ex thr => hhead ex thr n d).
Proof. unfold hhead. loc. Qed.
#[export] Hint Resolve local_head local_exec : loc.
Lemma local_xexec rs left_in x : local (fun ex thr => xexec rs ex thr left_in x).
Proof. destruct x; simpl; loc. Qed.

Section T.
Variable rs : rules.
Variable ex : exn.
Variable thr : nat -> bool.
Variable left_in : text -> text.

Lemma xdefined_good x a : xdefined rs left_in x a -> goodx (snd (axexec rs left_in x a)).
Proof. intros [[v ->]|[e ->]]; exact Logic.I. Qed.

Lemma xfail_ex e e' x a r a1 a2 : xfail rs e left_in x a r a1 -> xfail rs e' left_in x a r a2 -> e = e'.
Proof.
  destruct x; simpl; try (intros [-> _] [E _]; congruence).
  intros [_ (d & s & s' & _ & _ & ->)] [_ (d2 & s2 & s2' & _ & _ & E)]. congruence.
Qed.

Lemma xstep_inv x a w : Inv a w -> xdefined rs left_in x a ->
  exists r w1 a1, xexec rs ex thr left_in x w = (r, w1) /\ ((exists v, r = Ok v) \/ exists e, r = Throw e) /\ Inv a1 w1 /\
    (axexec rs left_in x a = (a1, r) \/ xfail rs ex left_in x a r a1 /\ fails_between thr w w1).
Proof.
  intros HI HD. pose proof (xdefined_good _ _ HD) as G.
  assert (K : forall ex' thr', exists r w1 a1, xexec rs ex' thr' left_in x w = (r, w1) /\ ((exists v, r = Ok v) \/ exists e, r = Throw e) /\
    Inv a1 w1 /\ (axexec rs left_in x a = (a1, r) \/ xfail rs ex' left_in x a r a1)).
  { intros ex' thr'. pose proof (xexec_sound rs ex' thr' left_in x a w HI G) as HW. unfold wp in HW.
    destruct (xexec rs ex' thr' left_in x w) as [[v|e| | |] w1] eqn:Ek; try contradiction; destruct HW as (a1 & I1 & H1);
      eexists _, w1, a1; (split; [reflexivity|]); (split; [eauto|]); auto. }
  destruct (K ex thr) as (r & w1 & a1 & Ek & Hr & I1 & H1). exists r, w1, a1. repeat split; auto.
  destruct H1 as [H1|H1]; [now left|].
  destruct (range_dec thr (hclock w) (hclock w1)) as [HF|HF]; [right; auto|left].
  destruct (local_xexec rs left_in x ex thr w _ _ Ek) as [_ HL]. destruct (other_exn ex) as [ex' Hne].
  pose proof (HL ex' (fun _ => false)) as Ek'.
  destruct (K ex' (fun _ => false)) as (r2 & w2 & a2 & E2 & _ & I2 & H2). rewrite Ek' in E2 by auto. inversion E2; subst r2 w2.
  destruct H2 as [H2|H2]; [|exfalso; apply Hne; symmetry; eapply xfail_ex; eauto].
  rewrite H2. f_equal. eapply agrees_inj; [exact (proj1 (inv_reads _ _ I2))|exact (proj1 (inv_reads _ _ I1))].
Qed.

Lemma xreach_inv w : xreach rs ex thr left_in w -> exists a, Inv a w.
Proof.
  induction 1 as [|w a x r w1 H IH HA HD Hk]. { exists []. apply inv_init. }
  destruct IH as (a' & HI). assert (a = a') by (eapply agrees_inj; [exact HA|exact (proj1 (inv_reads _ _ HI))]). subst a'.
  destruct (xstep_inv x a w HI HD) as (r' & w' & a1 & E1 & _ & I1 & _). rewrite E1 in Hk. inversion Hk; subst. eauto.
Qed.

(** Commands that only read leave the storage as it was. *)
Lemma live_same L h h' : heap_is h L -> heap_is h' L -> forall b m, nth_error h b = Some (Some m) <-> nth_error h' b = Some (Some m).
Proof. intros [_ H1] [_ H2] b m. rewrite <- H1, <- H2. tauto. Qed.
Lemma xread_same x a w r w1 : Inv a w -> xdefined rs left_in x a -> xexec rs ex thr left_in x w = (r, w1) ->
  match x with XVec _ _ | XMat _ _ | XWrite _ _ _ _ => True | _ => False end ->
  hvars w1 = hvars w /\ forall b m, nth_error (hmem w) b = Some (Some m) <-> nth_error (hmem w1) b = Some (Some m).
Proof.
  intros (L & HL & HV) HD Ek Hx. pose proof (xdefined_good _ _ HD) as G. assert (HS : st L (hvars w) w) by (split; auto).
  assert (W : wp (xexec rs ex thr left_in x) w (fun _ w' => st L (hvars w) w') (fun _ w' => st L (hvars w) w')).
  { destruct x; try contradiction; simpl in *.
    - destruct (acol a x) as [s|] eqn:Ey; [|contradiction]. destruct (look_c _ _ _ _ _ HV Ey) as (c & Nc & Ic).
      wb. eapply getc_st; [exact HS|exact Nc|]. wb. eapply hto_vector_st; [exact HS|exact Ic| | |auto].
      + clear - G. destruct (to_vector rs t s); simpl in *; auto.
      + intros l w' El H'. apply wp_ret. auto.
    - destruct (adf a f) as [s|] eqn:Ey; [|contradiction]. destruct (look_d _ _ _ _ _ HV Ey) as (d & Nd & D1 & D2 & D3).
      wb. eapply getd_st; [exact HS|exact Nd|]. wb. eapply hto_matrix_st; [exact HS|exact D1|exact D3| | |auto].
      + clear - G. destruct (to_matrix rs t s); simpl in *; auto.
      + intros l w' El H'. apply wp_ret. auto.
    - destruct (adf a f) as [s|] eqn:Ey; [|contradiction]. destruct (look_d _ _ _ _ _ HV Ey) as (d & Nd & D1 & D2 & D3).
      wb. eapply getd_st; [exact HS|exact Nd|]. wb. eapply hwrite_st; [exact HS|exact D1|exact D3| |].
      + clear - G. destruct (write rs header ls cs s) as [z []]; simpl in *; auto.
      + intros l w' H' _. apply wp_ret. auto. }
  unfold wp in W. rewrite Ek in W. destruct r; try contradiction; destruct W as [H1 H2]; split; auto; eapply live_same; eauto.
Qed.
End T.
