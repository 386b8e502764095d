(** * ReadHeapProofs: reading into the heap behaves as reading values. *)

From Coq Require Import ZArith Bool Ascii List Lia Permutation.
From Verif Require Import Base Coerce Frame FrameSpec FrameWrite ColHeap ColHeapSpec ColHeapProofs ColHeapProofs2 ColHeapProofs3 ColHeapFrame ColHeapThms
  Export ExportSpec ExportProofs ExportThms ReadHeap ReadHeapSpec PropFrameText.
Import ListNotations.
Open Scope list_scope.
Open Scope nat_scope.

Set Default Proof Using "Type".
Section P.
Variable rs : rules.
Variable ex : exn.
Variable thr : nat -> bool.
Variable left_in : text -> text.
Ltac wb := apply wp_bind.

Lemma grow_fill_st l : forall L vs w b m (Q : unit -> world -> Prop) (E : exn -> world -> Prop), st ((b, m) :: L) vs w ->
  (forall w', st ((b, mkModel (mty m) (mcells m ++ map CStr l)) :: L) vs w' -> Q tt w') ->
  (forall m' w', st ((b, m') :: L) vs w' -> E ex w') -> wp (grow_fill ex thr b l) w Q E.
Proof.
  induction l as [|s l IH]; intros L vs w b m Q E H HQ HE; simpl.
  { apply wp_ret. apply HQ. rewrite app_nil_r. destruct m; exact H. }
  wb. eapply tick_st; [exact H| |eauto]. intros w1 H1. wb. eapply tick_st; [exact H1| |eauto]. intros w2 H2.
  wb. eapply push_st; [exact H2|]. intros w3 H3. eapply IH; [exact H3| |exact HE]. simpl. intros w' H'. apply HQ. now rewrite <- app_assoc in H'.
Qed.
Lemma read_model_st L vs w l (Q : nat -> world -> Prop) (E : exn -> world -> Prop) : st L vs w ->
  (forall b w', st ((b, mkModel TStr (map CStr l)) :: L) vs w' -> Q b w') -> (forall w', st L vs w' -> E ex w') -> wp (read_model ex thr l) w Q E.
Proof.
  intros H HQ HE. unfold read_model. wb. eapply new_st; [exact H| |auto]. intros b w1 H1. wb. apply wp_on_throw.
  eapply grow_fill_st; [exact H1| |].
  - intros w2 H2. apply wp_ret. auto.
  - intros m' w2 H2. eapply (free_st [(b, m')] L vs w2 (Some b) (Some m')); [reflexivity|exact H2|auto].
Qed.

Lemma named_bind_st f d v X n c vc Xc L vs w (Q : unit -> world -> Prop) (E : exn -> world -> Prop) :
  nth_error vs f = Some (HDf d) -> dfown d v X -> own1 c vc = Some Xc -> st (Xc ++ X ++ L) vs w ->
  (forall d' X' w', snd (bind v (ctor_named (mkN n vc))) = Ok tt -> dfown d' (fst (bind v (ctor_named (mkN n vc)))) X' ->
     st (X' ++ L) (upd_nat vs f (HDf d')) w' -> Q tt w') ->
  (forall e d' v' X' w', e = ex \/ snd (bind v (ctor_named (mkN n vc))) = Throw e -> dfown d' v' X' ->
     st (X' ++ L) (upd_nat vs f (HDf d')) w' -> E e w') ->
  wp (hctor_named ex thr n c) w (fun o w' => wp (hbind ex thr f o) w' Q E) E.
Proof.
  intros Hf HD HX H HQ HE. unfold hctor_named. wb. eapply hcol_size_st; [exact H|eapply own1_in; [exact HX|]; apply incl_appl, incl_refl|].
  wb. apply wp_on_throw. eapply tick_st; [exact H| |].
  - intros w1 H1. apply wp_ret.
    assert (HO : dfown (mkH (col_size vc) [(n, c)] []) (ctor_named (mkN n vc)) Xc).
    { split; [|split]; simpl; auto. rewrite <- (app_nil_r Xc). constructor; auto. constructor. }
    eapply hbind_st with (R := L); [exact Hf|exact HD|exact HO| | |].
    + eapply st_perm; [|exact H1]. rewrite !app_assoc. apply Permutation_app_tail, Permutation_app_comm.
    + auto.
    + intros e v' d' X' w' He HD' H'. eapply HE; [|exact HD'|exact H']. destruct He as [[-> _]|[He _]]; auto.
  - intros w1 H1. eapply free_st; [exact HX|exact H1|]. intros w2 H2. eapply HE; [now left|exact HD|]. rewrite upd_same; auto.
Qed.

Definition named_col (p : text * list text) : ncol := mkN (fst p) (col_of TStr (map CStr (snd p))).
Lemma bind_cols_st f cs : forall d v X L vs w (Q : unit -> world -> Prop) (E : exn -> world -> Prop),
  nth_error vs f = Some (HDf d) -> dfown d v X -> st (X ++ L) vs w ->
  (forall d' v' X' w', bind_columns (map named_col cs) v = Ok v' -> dfown d' v' X' -> st (X' ++ L) (upd_nat vs f (HDf d')) w' -> Q tt w') ->
  (forall e d' v' X' w', e = ex \/ bind_columns (map named_col cs) v = Throw e -> dfown d' v' X' -> st (X' ++ L) (upd_nat vs f (HDf d')) w' -> E e w') ->
  wp (bind_cols ex thr f cs) w Q E.
Proof.
  induction cs as [|[n l] cs IH]; intros d v X L vs w Q E Hf HD H HQ HE; simpl.
  { apply wp_ret. eapply HQ; [reflexivity|exact HD|]. now rewrite upd_same. }
  wb. eapply read_model_st; [exact H| |].
  2:{ intros w' H'. eapply HE; [now left|exact HD|]. now rewrite upd_same. }
  intros b w1 H1. set (vc := Some (mkModel TStr (map CStr l))). assert (HX : own1 (Some b) vc = Some [(b, mkModel TStr (map CStr l))]) by reflexivity.
  wb. apply wp_on_throw. eapply tick_st; [exact H1| |].
  2:{ intros w2 H2. eapply (free_st _ (X ++ L)); [exact HX|exact H2|]. intros w3 H3. eapply HE; [now left|exact HD|]. now rewrite upd_same. }
  intros w2 H2. wb.
  assert (EB : bind_columns (map named_col ((n, l) :: cs)) v =
     bindO (snd (bind v (ctor_named (mkN n vc)))) (fun _ => bind_columns (map named_col cs) (fst (bind v (ctor_named (mkN n vc)))))).
  { simpl. unfold named_col at 1. simpl. fold vc. unfold col_of. fold vc. destruct (bind v (ctor_named (mkN n vc))); reflexivity. }
  rewrite EB in *. clear EB.
  eapply wp_mono; [eapply named_bind_st with (E := fun e w' => E e w') (Q := fun _ w' => wp (bind_cols ex thr f cs) w' Q E); [exact Hf|exact HD|exact HX|exact H2| |]| |].
  - intros d' X' w3 EB HD' H3. rewrite EB in *. cbn [bindO] in *.
    eapply IH; [eapply upd_nth; exact Hf|exact HD'|exact H3| |].
    + intros d2 v2 X2 w4 E2 HD2 H4. rewrite upd_upd in H4. eapply HQ; eauto.
    + intros e d2 v2 X2 w4 E2 HD2 H4. rewrite upd_upd in H4. eapply HE; eauto.
  - intros e d' v' X' w3 He HD' H3. eapply HE; [|exact HD'|exact H3]. destruct He as [->|He]; auto. right. rewrite He. reflexivity.
  - intros o w3 H3. wb. exact H3.
  - auto.
Qed.
Lemma bind_names_st f ns : forall d v X L vs w (Q : unit -> world -> Prop) (E : exn -> world -> Prop),
  nth_error vs f = Some (HDf d) -> dfown d v X -> st (X ++ L) vs w ->
  (forall d' v' X' w', bind_columns (map (fun n => mkN n col_default) ns) v = Ok v' -> dfown d' v' X' -> st (X' ++ L) (upd_nat vs f (HDf d')) w' -> Q tt w') ->
  (forall e d' v' X' w', e = ex \/ bind_columns (map (fun n => mkN n col_default) ns) v = Throw e -> dfown d' v' X' -> st (X' ++ L) (upd_nat vs f (HDf d')) w' -> E e w') ->
  wp (bind_names ex thr f ns) w Q E.
Proof.
  induction ns as [|n ns IH]; intros d v X L vs w Q E Hf HD H HQ HE; simpl.
  { apply wp_ret. eapply HQ; [reflexivity|exact HD|]. now rewrite upd_same. }
  wb. eapply tick_st; [exact H| |].
  2:{ intros w' H'. eapply HE; [now left|exact HD|]. now rewrite upd_same. }
  intros w1 H1. wb.
  assert (EB : bind_columns (map (fun n => mkN n col_default) (n :: ns)) v =
     bindO (snd (bind v (ctor_named (mkN n None)))) (fun _ => bind_columns (map (fun n => mkN n col_default) ns) (fst (bind v (ctor_named (mkN n None)))))).
  { cbn [map bind_columns]. change col_default with (@None model). destruct (bind v (ctor_named (mkN n None))); reflexivity. }
  rewrite EB in *. clear EB.
  eapply wp_mono; [eapply named_bind_st with (vc := None) (Xc := []) (E := fun e w' => E e w') (Q := fun _ w' => wp (bind_names ex thr f ns) w' Q E); [exact Hf|exact HD|reflexivity|exact H1| |]| |].
  - intros d' X' w3 EB HD' H3. rewrite EB in *. cbn [bindO] in *.
    eapply IH; [eapply upd_nth; exact Hf|exact HD'|exact H3| |].
    + intros d2 v2 X2 w4 E2 HD2 H4. rewrite upd_upd in H4. eapply HQ; eauto.
    + intros e d2 v2 X2 w4 E2 HD2 H4. rewrite upd_upd in H4. eapply HE; eauto.
  - intros e d' v' X' w3 He HD' H3. eapply HE; [|exact HD'|exact H3]. destruct He as [->|He]; auto. right. rewrite He. reflexivity.
  - intros o w3 H3. wb. exact H3.
  - auto.
Qed.

Lemma upd_last {A} (l : list A) x y : upd_nat (l ++ [x]) (length l) y = l ++ [y].
Proof. induction l; simpl; auto. f_equal. auto. Qed.
Lemma enter_st d L vs w (Q : nat -> world -> Prop) E : st L vs w -> (forall w', st L (vs ++ [HDf d]) w' -> Q (length vs) w') -> wp (enter d) w Q E.
Proof. intros [H1 H2] HQ. unfold wp, enter. rewrite H2. apply HQ. split; simpl; auto. Qed.
Lemma leave_st d L vs w (Q : hdf -> world -> Prop) E : st L (vs ++ [HDf d]) w -> (forall w', st L vs w' -> Q d w') -> wp leave w Q E.
Proof.
  intros [H1 H2] HQ. unfold wp, leave. rewrite H2, app_length. cbn [length]. replace (length vs + 1 - 1) with (length vs) by lia.
  rewrite nth_error_app2, Nat.sub_diag by lia. cbn [nth_error]. apply HQ. split; cbn [hmem hvars]; auto. rewrite firstn_app, Nat.sub_diag, firstn_all. apply app_nil_r.
Qed.

Lemma hread_st splits h lsep csep t L vs w (Q : hdf -> world -> Prop) (E : exn -> world -> Prop) : st L vs w ->
  (forall d' v X w', read h lsep csep t = Ok v -> dfown d' v X -> st (X ++ L) vs w' -> Q d' w') ->
  (forall e w', e = ex \/ read h lsep csep t = Throw e -> st L vs w' -> E e w') -> wp (hread ex thr splits h lsep csep t) w Q E.
Proof.
  intros H HQ HE. unfold hread. wb. eapply ticks_st; [exact H| |auto]. intros w1 H1. wb.
  assert (T := C33_read_total h lsep csep t). unfold read in *.
  destruct (read_lines csep (tokens lsep t) [] 0 0) as [[data nc]|e| | |]; cbn [bindO] in *;
    try (exfalso; destruct T as [(d & T & _)|T]; discriminate).
  2:{ unfold wp, lift. apply HE; auto. }
  unfold wp at 1, lift. cbn [fst snd]. clear T. destruct (Z.eqb nc 0).
  { apply wp_ret. apply (HQ _ df_default []); [reflexivity| |exact H1]. split; [|split]; simpl; auto. constructor. }
  wb. eapply enter_st; [exact H1|]. intros w2 H2. set (n := Z.to_nat nc) in *.
  assert (HD0 : dfown (mkH 0 [] []) df_default []) by (split; [|split]; simpl; auto; constructor).
  assert (Hf : nth_error (vs ++ [HDf (mkH 0 [] [])]) (length vs) = Some (HDf (mkH 0 [] []))) by (rewrite nth_error_app2, Nat.sub_diag by lia; reflexivity).
  set (o := if (h && (Z.of_nat (length data) / nc =? 1)%Z)%bool then _ else _) in HQ, HE.
  wb. apply wp_on_throw.
  assert (F : forall e d' v' X' w', e = ex \/ o = Throw e -> dfown d' v' X' -> st (X' ++ L) (upd_nat (vs ++ [HDf (mkH 0 [] [])]) (length vs) (HDf d')) w' ->
     wp (d <- leave ;; free_all (helems d)) w' (fun _ w'' => E e w'') (fun _ _ => False)).
  { intros e d' v' X' w' He (D1 & D2 & D3) H'. rewrite upd_last in H'. wb. eapply leave_st; [exact H'|]. intros w3 H3.
    eapply free_all_st; [exact D3|exact H3|]. auto. }
  assert (K : forall d' v' X' w', o = Ok v' -> dfown d' v' X' -> st (X' ++ L) (upd_nat (vs ++ [HDf (mkH 0 [] [])]) (length vs) (HDf d')) w' -> wp leave w' Q E).
  { intros d' v' X' w' He HD' H'. rewrite upd_last in H'. eapply leave_st; [exact H'|]. intros w3 H3. eapply HQ; eauto. }
  subst o. destruct (h && (Z.of_nat (length data) / nc =? 1)%Z)%bool.
  - eapply bind_names_st; [exact Hf|exact HD0|exact H2| |]; rewrite map_map; auto.
  - eapply bind_cols_st; [exact Hf|exact HD0|exact H2| |]; rewrite map_map; auto.
Qed.

Definition ysound (y : yop) : Prop := forall a w, Inv a w -> goodx (snd (ayexec rs left_in y a)) ->
  wp (yexec rs ex thr left_in y) w
     (fun r w' => exists a', Inv a' w' /\ (ayexec rs left_in y a = (a', Ok r) \/ yfail rs ex left_in y a (Ok r) a'))
     (fun e w' => exists a', Inv a' w' /\ (ayexec rs left_in y a = (a', Throw e) \/ yfail rs ex left_in y a (Throw e) a')).
Lemma yexec_sound y : ysound y.
Proof.
  destruct y as [x|splits h lsep csep t|splits t f].
  - exact (xexec_sound rs ex thr left_in x).
  - intros a w [L [HL HV]] G. assert (HS : st L (hvars w) w) by (split; auto). simpl yexec. simpl ayexec in *.
    wb. eapply hread_st; [exact HS| |].
    + intros d' v X w1 Ev HD H1. wb. eapply addv_st; [exact H1|]. intros w2 H2. apply wp_ret. rewrite Ev. exists (addf a v). split; [|now left].
      eapply inv_intro; [exact H2|eapply vs_add; [exact HV|apply vown_df; exact HD]|apply Permutation_app_comm].
    + intros e w1 He H1. exists a. split; [eapply inv_intro; [exact H1|exact HV|reflexivity]|].
      destruct He as [->|He]; [right; split; auto|left]. rewrite He. reflexivity.
  - intros a w [L [HL HV]] G. assert (HS : st L (hvars w) w) by (split; auto). simpl yexec. simpl ayexec in *.
    destruct (adf a f) as [dv|] eqn:Ef; [|contradiction].
    assert (Nf := proj1 (adf_nth _ _ _) Ef). destruct (vs_pick _ _ _ HV _ _ Nf) as (hv & X0 & R & N & HO & P & HU).
    inversion HO as [|d0 v0 X1 HD0|]; subst. wb. eapply getd_st; [exact HS|exact N|]. wb. eapply hread_st; [exact HS| |].
    + intros n v X w1 Ev HD H1. wb. eapply getd_st; [exact H1|exact N|]. wb. eapply setv_st; [exact H1|]. intros w2 H2. wb.
      destruct HD0 as (D1 & D2 & D3). eapply (free_all_st (helems d0) (elems dv) X0 (X ++ R)); [exact D3| |].
      { eapply st_perm; [|exact H2]. rewrite P. rewrite !app_assoc. apply Permutation_app_tail, Permutation_app_comm. }
      intros w3 H3. apply wp_ret. rewrite Ev. exists (setf a f v). split; [|now left].
      destruct (HU (HDf n) (AF v) X) as (L' & HL' & P'). { now apply vown_df. }
      eapply inv_intro; [exact H3|exact HL'|exact P'].
    + intros e w1 He H1. exists a. split; [eapply inv_intro; [exact H1|exact HV|reflexivity]|].
      destruct He as [->|He]; [right; split; auto|left]. rewrite He. reflexivity.
Qed.
End P.

Unset Default Proof Using.
(** *** which operations a command depends on *)
Lemma local_grow_fill b l : local (fun ex thr => grow_fill ex thr b l).
Proof. induction l; simpl; loc. Qed.
#[export] Hint Resolve local_grow_fill : loc.
Lemma local_read_model l : local (fun ex thr => read_model ex thr l).
Proof. unfold read_model. loc. Qed.
Lemma local_enter d : local (fun _ _ => enter d).
Proof. intros ex thr w o w' H. unfold enter in *. inversion H; subst; simpl. split; [lia|]. intros; reflexivity. Qed.
Lemma local_leave : local (fun _ _ => leave).
Proof.
  intros ex thr w o w' H. unfold leave in *.
  destruct (nth_error (hvars w) (length (hvars w) - 1)) as [[c|d|]|]; inversion H; subst; simpl; (split; [lia|]); intros; reflexivity.
Qed.
#[export] Hint Resolve local_read_model local_enter local_leave : loc.
Lemma local_bind_names f ns : local (fun ex thr => bind_names ex thr f ns).
Proof. induction ns; simpl; loc. Qed.
Lemma local_bind_cols f cs : local (fun ex thr => bind_cols ex thr f cs).
Proof. induction cs as [|[n l] cs IH]; simpl; loc. Qed.
#[export] Hint Resolve local_bind_names local_bind_cols : loc.
Lemma local_hread splits h lsep csep t : local (fun ex thr => hread ex thr splits h lsep csep t).
Proof.
  unfold hread. apply local_bind; [loc|]. intros _. apply local_bind; [loc|]. intros r. cbv zeta.
  destruct (Z.eqb (snd r) 0); [loc|]. apply local_bind; [auto with loc|]. intros f. apply local_bind; [|intros; auto with loc].
  apply (local_on_throw (fun ex thr => if (h && (Z.of_nat (length (fst r)) / snd r =? 1)%Z)%bool then bind_names ex thr f _ else bind_cols ex thr f _)
    (fun _ _ => d <- leave ;; free_all (helems d))).
  - destruct (h && _)%bool; auto with loc.
  - apply local_bind; [auto with loc|]. intros d. loc.
Qed.
#[export] Hint Resolve local_hread local_xexec : loc.
Lemma local_yexec rs left_in y : local (fun ex thr => yexec rs ex thr left_in y).
Proof.
  destruct y as [x|splits h lsep csep t|splits t f]; simpl.
  - apply local_xexec.
  - apply local_bind; [auto with loc|]. intros d. loc.
  - apply local_bind; [loc|]. intros _. apply local_bind; [auto with loc|]. intros n. loc.
Qed.

Section T.
Variable rs : rules.
Variable ex : exn.
Variable thr : nat -> bool.
Variable left_in : text -> text.

Lemma ydefined_good y a : ydefined rs left_in y a -> goodx (snd (ayexec rs left_in y a)).
Proof. intros [[v ->]|[e ->]]; exact Logic.I. Qed.
Lemma yfail_ex e e' y a r a1 a2 : yfail rs e left_in y a r a1 -> yfail rs e' left_in y a r a2 -> e = e'.
Proof. destruct y; simpl; [apply xfail_ex| |]; intros [-> _] [E _]; congruence. Qed.

Lemma ystep_inv y a w : Inv a w -> ydefined rs left_in y a ->
  exists r w1 a1, yexec rs ex thr left_in y w = (r, w1) /\ ((exists v, r = Ok v) \/ exists e, r = Throw e) /\ Inv a1 w1 /\
    (ayexec rs left_in y a = (a1, r) \/ yfail rs ex left_in y a r a1 /\ fails_between thr w w1).
Proof.
  intros HI HD. pose proof (ydefined_good _ _ HD) as G.
  assert (K : forall ex' thr', exists r w1 a1, yexec rs ex' thr' left_in y w = (r, w1) /\ ((exists v, r = Ok v) \/ exists e, r = Throw e) /\
    Inv a1 w1 /\ (ayexec rs left_in y a = (a1, r) \/ yfail rs ex' left_in y a r a1)).
  { intros ex' thr'. pose proof (yexec_sound rs ex' thr' left_in y a w HI G) as HW. unfold wp in HW.
    destruct (yexec rs ex' thr' left_in y w) as [[v|e| | |] w1] eqn:Ek; try contradiction; destruct HW as (a1 & I1 & H1);
      eexists _, w1, a1; (split; [reflexivity|]); (split; [eauto|]); auto. }
  destruct (K ex thr) as (r & w1 & a1 & Ek & Hr & I1 & H1). exists r, w1, a1. repeat split; auto.
  destruct H1 as [H1|H1]; [now left|].
  destruct (range_dec thr (hclock w) (hclock w1)) as [HF|HF]; [right; auto|left].
  destruct (local_yexec rs left_in y ex thr w _ _ Ek) as [_ HL]. destruct (other_exn ex) as [ex' Hne].
  pose proof (HL ex' (fun _ => false)) as Ek'.
  destruct (K ex' (fun _ => false)) as (r2 & w2 & a2 & E2 & _ & I2 & H2). rewrite Ek' in E2 by auto. inversion E2; subst r2 w2.
  destruct H2 as [H2|H2]; [|exfalso; apply Hne; symmetry; eapply yfail_ex; eauto].
  rewrite H2. f_equal. eapply agrees_inj; [exact (proj1 (inv_reads _ _ I2))|exact (proj1 (inv_reads _ _ I1))].
Qed.

Lemma yreach_inv w : yreach rs ex thr left_in w -> exists a, Inv a w.
Proof.
  induction 1 as [|w a y r w1 H IH HA HD Hk]. { exists []. apply inv_init. }
  destruct IH as (a' & HI). assert (a = a') by (eapply agrees_inj; [exact HA|exact (proj1 (inv_reads _ _ HI))]). subst a'.
  destruct (ystep_inv y a w HI HD) as (r' & w' & a1 & E1 & _ & I1 & _). rewrite E1 in Hk. inversion Hk; subst. eauto.
Qed.

(** What reading leaves in the storage. *)
Lemma live_sub L L' h h' : heap_is h L -> heap_is h' L' -> incl L L' -> forall b m, nth_error h b = Some (Some m) -> nth_error h' b = Some (Some m).
Proof. intros [_ H1] [_ H2] S b m H. apply H2, S, H1, H. Qed.
Lemma hread_keeps splits h lsep csep t a w r w1 : Inv a w -> hread ex thr splits h lsep csep t w = (r, w1) ->
  hvars w1 = hvars w /\
  match r with
  | Ok d => (forall b m, nth_error (hmem w) b = Some (Some m) -> nth_error (hmem w1) b = Some (Some m)) /\
      exists v, read h lsep csep t = Ok v
  | Throw e => (e = ex \/ e = LogicError) /\ forall b m, nth_error (hmem w) b = Some (Some m) <-> nth_error (hmem w1) b = Some (Some m)
  | _ => False
  end.
Proof.
  intros (L & HL & HV) E. assert (HS : st L (hvars w) w) by (split; auto).
  assert (W : wp (hread ex thr splits h lsep csep t) w
     (fun d w1 => hvars w1 = hvars w /\ (forall b m, nth_error (hmem w) b = Some (Some m) -> nth_error (hmem w1) b = Some (Some m)) /\ exists v, read h lsep csep t = Ok v)
     (fun e w1 => hvars w1 = hvars w /\ (e = ex \/ e = LogicError) /\ forall b m, nth_error (hmem w) b = Some (Some m) <-> nth_error (hmem w1) b = Some (Some m))).
  { eapply hread_st; [exact HS| |].
    - intros d' v X w' Ev _ [H1 H2]. split; [exact H2|]. split; [|eauto]. eapply live_sub; [exact HL|exact H1|]. intros x Hx. apply in_or_app. now right.
    - intros e w' He [H1 H2]. split; [exact H2|]. split; [|eapply live_same; eauto].
      destruct He as [He|He]; [now left|right]. destruct (C33_read_total h lsep csep t) as [(d & T & _)|T]; congruence. }
  unfold wp in W. rewrite E in W. destruct r; auto; contradiction.
Qed.
End T.

Section X.
Variable rs : rules.
Variable ex : exn.
Variable thr : nat -> bool.
Variable left_in : text -> text.
Lemma extract_keeps splits t f d a w r w1 : Inv a w -> nth_error (hvars w) f = Some (HDf d) ->
  yexec rs ex thr left_in (YExtract splits t f) w = (r, w1) ->
  match r with
  | Ok u => u = VUnit /\ (exists n, hvars w1 = upd_nat (hvars w) f (HDf n)) /\
      exists X0 X R, map fst X0 = flat_map (fun nc => col_blocks (snd nc)) (helems d) /\
        heap_is (hmem w) (X0 ++ R) /\ NoDup (map fst (X0 ++ X ++ R)) /\ heap_is (hmem w1) (X ++ R)
  | Throw e => (e = ex \/ e = LogicError) /\ hvars w1 = hvars w /\ forall b m, nth_error (hmem w) b = Some (Some m) <-> nth_error (hmem w1) b = Some (Some m)
  | _ => False
  end.
Proof.
  intros (L & HL & HV) Nd E. assert (HS : st L (hvars w) w) by (split; auto).
  assert (exists dv, adf a f = Some dv) as [dv Ef].
  { clear - HV Nd. revert f Nd. unfold adf. induction HV; intros [|f] Nd; simpl in *; try discriminate; eauto.
    inversion Nd; subst. inversion H; subst; eauto. }
  assert (Nf := proj1 (adf_nth _ _ _) Ef). destruct (vs_pick _ _ _ HV _ _ Nf) as (hv & X0 & R & N & HO & P & HU).
  rewrite Nd in N. inversion N; subst hv. inversion HO as [|d0 v0 X1 HD0|]; subst. assert (HD1 := HD0). destruct HD0 as (D1 & D2 & D3).
  assert (W : wp (yexec rs ex thr left_in (YExtract splits t f)) w
     (fun u w1 => u = VUnit /\ (exists n, hvars w1 = upd_nat (hvars w) f (HDf n)) /\
        exists X, NoDup (map fst (X0 ++ X ++ R)) /\ heap_is (hmem w1) (X ++ R))
     (fun e w1 => (e = ex \/ e = LogicError) /\ hvars w1 = hvars w /\ forall b m, nth_error (hmem w) b = Some (Some m) <-> nth_error (hmem w1) b = Some (Some m))).
  { simpl yexec. wb. eapply getd_st; [exact HS|exact Nd|]. wb. eapply hread_st; [exact HS| |].
    - intros n v X w2 Ev HD H2. wb. eapply getd_st; [exact H2|exact Nd|]. wb. eapply setv_st; [exact H2|]. intros w3 H3. wb.
      assert (P3 : Permutation (X ++ L) (X0 ++ X ++ R)).
      { rewrite P. rewrite !app_assoc. apply Permutation_app_tail, Permutation_app_comm. }
      assert (H4 := st_perm _ _ _ _ P3 H3).
      eapply (free_all_st (helems d) (elems dv) X0 (X ++ R)); [exact D3|exact H4|].
      intros w4 H5. apply wp_ret. split; [reflexivity|]. split; [exists n; exact (proj2 H5)|]. exists X. split; [exact (proj1 (proj1 H4))|exact (proj1 H5)].
    - intros e w2 He [H1 H2]. split; [|split; [exact H2|eapply live_same; eauto]].
      destruct He as [He|He]; [now left|right]. destruct (C33_read_total true is_nl is_tab t) as [(d' & T & _)|T]; congruence. }
  unfold wp in W. rewrite E in W. destruct r; auto. destruct W as (W1 & W2 & X & W3 & W4). split; [exact W1|]. split; [exact W2|].
  exists X0, X, R. split; [|split; [|split; auto]].
  - symmetry. refine (proj2 (vown_value (hmem w) L (HDf d) (AF dv) X0 HL HO _)). intros x Hx. eapply Permutation_in; [symmetry; exact P|]. apply in_or_app. now left.
  - eapply heap_perm; [exact P|exact HL].
Qed.
End X.
