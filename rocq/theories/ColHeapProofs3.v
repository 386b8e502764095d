(** * ColHeapProofs3: one command, then programs. *)

From Coq Require Import ZArith Bool List Lia Permutation.
From Verif Require Import Base Coerce Frame FrameWrite ColHeap ColHeapSpec ColHeapProofs ColHeapProofs2.
Import ListNotations.
Open Scope list_scope.
Open Scope nat_scope.

Ltac wb := apply wp_bind.
Ltac perm := rewrite ?app_assoc; auto using Permutation_app_comm, Permutation_app_tail, Permutation_refl.

Lemma acol_nth a x v : acol a x = Some v <-> nth_error a x = Some (AC v).
Proof. unfold acol. destruct (nth_error a x) as [[]|]; split; intros E; inversion E; auto. Qed.
Lemma adf_nth a x v : adf a x = Some v <-> nth_error a x = Some (AF v).
Proof. unfold adf. destruct (nth_error a x) as [[]|]; split; intros E; inversion E; auto. Qed.

Lemma pick_c vs a L x v : vsown vs a L -> acol a x = Some v ->
  exists c X R, nth_error vs x = Some (HCol c) /\ own1 c v = Some X /\ Permutation L (X ++ R) /\
    forall hv' v' X', vown hv' v' X' -> exists L', vsown (upd_nat vs x hv') (upd_nat a x v') L' /\ Permutation L' (X' ++ R).
Proof.
  intros H E. apply acol_nth in E. destruct (vs_pick _ _ _ H _ _ E) as (hv & X & R & H1 & H2 & H3 & H4).
  inversion H2; subst. exists c, X, R. auto.
Qed.
Lemma pick_d vs a L x v : vsown vs a L -> adf a x = Some v ->
  exists d X R, nth_error vs x = Some (HDf d) /\ dfown d v X /\ Permutation L (X ++ R) /\
    forall hv' v' X', vown hv' v' X' -> exists L', vsown (upd_nat vs x hv') (upd_nat a x v') L' /\ Permutation L' (X' ++ R).
Proof.
  intros H E. apply adf_nth in E. destruct (vs_pick _ _ _ H _ _ E) as (hv & X & R & H1 & H2 & H3 & H4).
  inversion H2; subst. exists d, X, R. auto.
Qed.
Lemma look_c vs a L x v : vsown vs a L -> acol a x = Some v -> exists c, nth_error vs x = Some (HCol c) /\ col_in c v L.
Proof.
  intros H E. destruct (pick_c _ _ _ _ _ H E) as (c & X & R & H1 & H2 & H3 & _). exists c; split; auto.
  eapply own1_in; [exact H2|]. intros y Hy. eapply Permutation_in; [symmetry; exact H3|]. apply in_or_app; auto.
Qed.
Lemma look_d vs a L x v : vsown vs a L -> adf a x = Some v ->
  exists d, nth_error vs x = Some (HDf d) /\ hrows d = rows v /\ hindex d = index v /\ all_in (helems d) (elems v) L.
Proof.
  intros H E. destruct (pick_d _ _ _ _ _ H E) as (d & X & R & H1 & (H2 & H2' & H2'') & H3 & _). exists d; repeat split; auto.
  eapply owns_in; [exact H2''|]. intros y Hy. eapply Permutation_in; [symmetry; exact H3|]. apply in_or_app; auto.
Qed.

Set Default Proof Using "Type".
Section P.
Variable rs : rules.
Variable ex : exn.
Variable thr : nat -> bool.

Definition sound (c : cop) : Prop := forall a w, Inv a w -> good (snd (aexec rs c a)) ->
  wp (kexec rs ex thr c) w (fun _ w' => exists a', aexec rs c a = (a', Ok tt) /\ Inv a' w')
     (fun e w' => exists a', astep rs ex c a (Throw e) a' /\ Inv a' w').

Lemma inv_add a w hv v X L vs : vsown vs a L -> vown hv v X -> st (X ++ L) (vs ++ [hv]) w -> Inv (a ++ [v]) w.
Proof. intros H1 H2 H3. eapply inv_intro; [exact H3|eapply vs_add; eauto|]. perm. Qed.
Lemma inv_keep a w L vs : vsown vs a L -> st L vs w -> Inv a w.
Proof. intros H1 H3. eapply inv_intro; eauto. Qed.

(** Adding the result of an operation that leaves everything else. *)
Ltac start := intros a w [L [HL HV]] G; assert (HS : st L (hvars w) w) by (split; auto); simpl kexec; simpl aexec in *.

Lemma astep_fin_err {A} c a (o : outcome A) f e :
  (aexec rs c a = fin a o f) -> afail c a a -> e = ex \/ o = Throw e -> astep rs ex c a (Throw e) a.
Proof.
  intros E F [->|H]; [right; auto|left]. rewrite E, H. simpl. split; eauto.
Qed.

Lemma good_fin {A} a (o : outcome A) f : good (snd (fin a o f)) -> good o.
Proof. destruct o; auto. Qed.

Lemma knull_sound : sound KNull.
Proof.
  start. eapply addv_st; [exact HS|]. intros w' H'. eexists; split; [reflexivity|].
  eapply (inv_add _ _ (HCol None) (AC None) []); [exact HV|now apply vown_col|exact H'].
Qed.
Lemma knew_sound t l : sound (KNew t l).
Proof.
  start. wb. eapply make_st; [exact HS| |].
  - intros b w1 H1. eapply addv_st; [exact H1|]. intros w' H'. eexists; split; [reflexivity|].
    eapply (inv_add _ _ (HCol (Some b)) (AC (Some (mkModel t l))) [(b, mkModel t l)]); [exact HV|now apply vown_col|exact H'].
  - intros w' H'. exists a. split; [right; split; reflexivity|]. eapply inv_keep; eauto.
Qed.
Lemma kcopy_sound y : sound (KCopy y).
Proof.
  start. destruct (acol a y) as [s|] eqn:Ey; [|contradiction].
  destruct (look_c _ _ _ _ _ HV Ey) as (c & Nc & Ic). apply good_fin in G.
  wb. eapply getc_st; [exact HS|exact Nc|]. wb. destruct s as [m|]; [|contradiction].
  eapply hcopy_st; [exact HS|exact Ic|congruence| |].
  - intros c' X w1 HX H1. eapply addv_st; [exact H1|]. intros w' H'. eexists; split; [reflexivity|].
    eapply inv_add; [exact HV|apply vown_col; exact HX|exact H'].
  - intros w' H'. exists a. split; [right; split; reflexivity|]. eapply inv_keep; eauto.
Qed.
Lemma kpartial_sound y first size : sound (KPartial y first size).
Proof.
  start. destruct (acol a y) as [s|] eqn:Ey; [|contradiction].
  destruct (look_c _ _ _ _ _ HV Ey) as (c & Nc & Ic). apply good_fin in G.
  wb. eapply getc_st; [exact HS|exact Nc|]. wb.
  eapply hpartial_st; [exact HS|exact Ic|exact G| |].
  - intros v' c' X w1 Ev HX H1. eapply addv_st; [exact H1|]. intros w' H'. rewrite Ev. eexists; split; [reflexivity|].
    eapply inv_add; [exact HV|apply vown_col; exact HX|exact H'].
  - intros e w' He H'. exists a. split; [|eapply inv_keep; eauto].
    eapply astep_fin_err; [simpl; rewrite Ey; reflexivity|reflexivity|exact He].
Qed.
Lemma ktocolumn_sound t y : sound (KToColumn t y).
Proof.
  start. destruct (acol a y) as [s|] eqn:Ey; [|contradiction].
  destruct (look_c _ _ _ _ _ HV Ey) as (c & Nc & Ic). apply good_fin in G.
  wb. eapply getc_st; [exact HS|exact Nc|]. wb.
  eapply hto_column_st; [exact HS|exact Ic|exact G| |].
  - intros v' c' X w1 Ev HX H1. eapply addv_st; [exact H1|]. intros w' H'. rewrite Ev. eexists; split; [reflexivity|].
    eapply inv_add; [exact HV|apply vown_col; exact HX|exact H'].
  - intros e w' He H'. exists a. split; [|eapply inv_keep; eauto].
    eapply astep_fin_err; [simpl; rewrite Ey; reflexivity|reflexivity|exact He].
Qed.
Lemma kmove_sound y : sound (KMove y).
Proof.
  start. destruct (acol a y) as [s|] eqn:Ey; [|contradiction].
  destruct (pick_c _ _ _ _ _ HV Ey) as (c & X & R & Nc & HX & P & HU).
  wb. eapply getc_st; [exact HS|exact Nc|]. wb. eapply setv_st; [exact HS|]. intros w1 H1.
  eapply addv_st; [exact H1|]. intros w' H'. eexists; split; [reflexivity|].
  destruct (HU (HCol None) (AC None) []) as (L' & HL' & P'). { now apply vown_col. }
  eapply inv_add; [exact HL'|apply vown_col; exact HX|]. eapply st_perm; [|exact H'].
  rewrite P. apply Permutation_app_head. now symmetry.
Qed.
Lemma kassign_sound x y : sound (KAssign x y).
Proof.
  start. destruct (acol a x) as [d|] eqn:Ex; [|contradiction]. destruct (acol a y) as [s|] eqn:Ey; [|contradiction].
  destruct (look_c _ _ _ _ _ HV Ey) as (c & Nc & Ic). destruct (pick_c _ _ _ _ _ HV Ex) as (c0 & X & R & N0 & HX & P & HU).
  wb. eapply getc_st; [exact HS|exact Nc|]. wb. eapply getc_st; [exact HS|exact N0|]. wb.
  eapply hassign_st; [exact HX|eapply st_perm; [exact P|exact HS]| | |].
  - eapply col_in_incl; [|exact Ic]. intros z. now apply Permutation_in.
  - intros c' X' w1 HX' H1. eapply setv_st; [exact H1|]. intros w' H'. eexists; split; [reflexivity|].
    destruct (HU (HCol c') (AC s) X') as (L' & HL' & P'). { now apply vown_col. } eapply inv_intro; eauto.
  - intros w' H'. exists a. split; [right; split; reflexivity|]. eapply inv_intro; [exact H'|exact HV|auto].
Qed.
Lemma nth_upd_other vs x y (hv : hvar) : x <> y -> nth_error (upd_nat vs x hv) y = nth_error vs y.
Proof. apply nth_upd_ne. Qed.
Lemma acol_upd a x y v : x <> y -> acol (upd_nat a x v) y = acol a y.
Proof. intros H. unfold acol. now rewrite nth_upd_ne. Qed.
Lemma adf_upd a x y v : x <> y -> adf (upd_nat a x v) y = adf a y.
Proof. intros H. unfold adf. now rewrite nth_upd_ne. Qed.
Lemma kmoveassign_sound x y : sound (KMoveAssign x y).
Proof.
  start. destruct (acol a x) as [d|] eqn:Ex; [|contradiction]. destruct (acol a y) as [s|] eqn:Ey; [|contradiction].
  destruct (look_c _ _ _ _ _ HV Ex) as (c0 & N0 & I0). destruct (pick_c _ _ _ _ _ HV Ey) as (c & X & R & Nc & HX & P & HU).
  wb. eapply getc_st; [exact HS|exact Nc|]. wb. eapply getc_st; [exact HS|exact N0|].
  destruct (Nat.eqb x y) eqn:Exy.
  { apply wp_ret. eexists; split; [reflexivity|]. eapply inv_keep; eauto. }
  apply Nat.eqb_neq in Exy. wb. eapply setv_st; [exact HS|]. intros w1 H1.
  destruct (HU (HCol None) (AC None) []) as (L' & HL' & P'). { now apply vown_col. }
  assert (Ex' : acol (upd_nat a y (AC None)) x = Some d) by (rewrite acol_upd; auto).
  destruct (pick_c _ _ _ _ _ HL' Ex') as (c0' & X0 & R0 & N0' & HX0 & P0 & HU0).
  rewrite nth_upd_ne in N0' by auto. rewrite N0 in N0'. inversion N0'; subst c0'.
  wb. eapply (free_st X0 (X ++ R0)); [exact HX0| |].
  { eapply st_perm; [|exact H1]. rewrite P. simpl in P'. rewrite <- P', P0. perm. }
  intros w2 H2. eapply setv_st; [exact H2|]. intros w' H'. eexists; split; [reflexivity|].
  destruct (HU0 (HCol c) (AC s) X) as (L2 & HL2 & P2). { now apply vown_col. } eapply inv_intro; eauto.
Qed.
Lemma col_coerce_fst t s : snd (col_coerce rs t s) <> Ok tt -> fst (col_coerce rs t s) = s.
Proof. unfold col_coerce. destruct s as [m|]; simpl; auto. destruct (model_coerce rs t m); simpl; congruence. Qed.
Lemma setc_same a x s : acol a x = Some s -> setc a x s = a.
Proof. intros E. apply upd_same. now apply acol_nth. Qed.
Lemma setf_same a x s : adf a x = Some s -> setf a x s = a.
Proof. intros E. apply upd_same. now apply adf_nth. Qed.
Lemma kcoerce_sound t x : sound (KCoerce t x).
Proof.
  start. destruct (acol a x) as [s|] eqn:Ex; [|contradiction].
  destruct (pick_c _ _ _ _ _ HV Ex) as (c & X & R & Nc & HX & P & HU).
  wb. eapply getc_st; [exact HS|exact Nc|]. wb.
  pose proof (col_coerce_fst t s) as HF.
  eapply (hcoerce_st rs ex thr X R); [exact HX|eapply st_perm; [exact P|exact HS]| | |].
  - destruct (col_coerce rs t s) as [s' o]; exact G.
  - intros c' X' w1 Eo HX' H1. eapply setv_st; [exact H1|]. intros w' H'.
    destruct (col_coerce rs t s) as [s' o] eqn:Ec; simpl in *. subst o. eexists; split; [reflexivity|].
    destruct (HU (HCol c') (AC s') X') as (L' & HL' & P'). { now apply vown_col. } eapply inv_intro; eauto.
  - intros e w' He H'. exists a. split; [|eapply inv_intro; [exact H'|exact HV|auto]].
    destruct He as [->|He]; [right; split; reflexivity|left]. simpl. rewrite Ex. rewrite He in HF.
    destruct (col_coerce rs t s) as [s' o] eqn:Ec; simpl in *. subst o. rewrite HF by congruence. rewrite setc_same by auto. split; eauto.
Qed.
Lemma to_column_move_ensured t s : to_column_move rs t s =
  match snd (ensured rs t s) with
  | Ok _ => (None, Ok (fst (ensured rs t s)))
  | Throw e => (fst (ensured rs t s), Throw e) | Abort => (fst (ensured rs t s), Abort) | UB => (fst (ensured rs t s), UB)
  | Timeout => (fst (ensured rs t s), Timeout)
  end.
Proof.
  unfold to_column_move, ensured. destruct (elements_type s); auto. destruct (ty_eqb a t); auto.
  destruct (col_coerce rs t s) as [s' []]; auto.
Qed.
Lemma ensured_fst t s : snd (ensured rs t s) <> Ok tt -> fst (ensured rs t s) = s.
Proof.
  unfold ensured. destruct (elements_type s); auto. destruct (ty_eqb a t); auto. apply col_coerce_fst.
Qed.
Lemma ktocolumnmove_sound t y : sound (KToColumnMove t y).
Proof.
  start. destruct (acol a y) as [s|] eqn:Ey; [|contradiction].
  destruct (pick_c _ _ _ _ _ HV Ey) as (c & X & R & Nc & HX & P & HU).
  wb. eapply getc_st; [exact HS|exact Nc|]. wb. pose proof (ensured_fst t s) as HF.
  eapply (hensure_st rs ex thr X R); [exact HX|eapply st_perm; [exact P|exact HS]| | |].
  - rewrite to_column_move_ensured in G. destruct (ensured rs t s) as [s' []]; simpl in *; auto.
  - intros c' X' w1 Eo HX' H1. wb. eapply setv_st; [exact H1|]. intros w2 H2. eapply addv_st; [exact H2|]. intros w' H'.
    rewrite to_column_move_ensured, Eo. simpl. eexists; split; [reflexivity|].
    destruct (HU (HCol None) (AC None) []) as (L' & HL' & P'). { now apply vown_col. }
    eapply inv_add; [exact HL'|apply vown_col; exact HX'|]. eapply st_perm; [|exact H']. apply Permutation_app_head. now symmetry.
  - intros e w' He H'. exists a. split; [|eapply inv_intro; [exact H'|exact HV|auto]].
    destruct He as [->|He]; [right; split; reflexivity|left]. simpl. rewrite Ey, to_column_move_ensured, He. rewrite HF by congruence.
    simpl. rewrite setc_same by auto. split; eauto.
Qed.
Lemma ensured_data t s : snd (ensured rs t s) = Ok tt -> exists l, col_data t (fst (ensured rs t s)) = Ok l.
Proof.
  unfold ensured, elements_type. destruct s as [m|]; simpl; [|discriminate]. destruct (ty_eqb (mty m) t) eqn:Et; simpl.
  - rewrite Et. eauto.
  - unfold model_coerce. destruct (rs t (mty m)); simpl; [|discriminate]. destruct (mapO o (mcells m)); simpl; try discriminate.
    rewrite (proj2 (ty_eqb_eq t t) eq_refl). eauto.
Qed.
Lemma to_view_ensured t s : good (snd (ensured rs t s)) -> exists o, to_view rs t s = (fst (ensured rs t s), o) /\
  match snd (ensured rs t s) with Ok _ => exists l, o = Ok l | Throw e => o = Throw e | _ => False end.
Proof.
  intros G. unfold to_view. pose proof (ensured_data t s) as HD. unfold ensured in *.
  destruct (elements_type s) as [u|e| | |]; simpl in *; try tauto; eauto.
  destruct (if ty_eqb u t then (s, Ok tt) else col_coerce rs t s) as [s' [[]|e| | |]] eqn:Ec; simpl in *; try tauto; eauto.
Qed.
Lemma ktoview_sound t x : sound (KToView t x).
Proof.
  start. destruct (acol a x) as [s|] eqn:Ex; [|contradiction].
  destruct (pick_c _ _ _ _ _ HV Ex) as (c & X & R & Nc & HX & P & HU).
  wb. eapply getc_st; [exact HS|exact Nc|]. wb. pose proof (ensured_fst t s) as HF.
  assert (G' : good (snd (ensured rs t s))).
  { unfold to_view, ensured in *. destruct (elements_type s) as [u|e| | |]; simpl in *; auto.
    destruct (ty_eqb u t); simpl in *; auto. destruct (col_coerce rs t s) as [s' []]; simpl in *; auto. }
  destruct (to_view_ensured t s G') as (o & Eo & Ho). rewrite Eo in *.
  eapply (hensure_st rs ex thr X R); [exact HX|eapply st_perm; [exact P|exact HS]|exact G'| |].
  - intros c' X' w1 Es HX' H1. eapply setv_st; [exact H1|]. intros w' H'. rewrite Es in Ho. destruct Ho as [l ->]. simpl.
    eexists; split; [reflexivity|].
    destruct (HU (HCol c') (AC (fst (ensured rs t s))) X') as (L' & HL' & P'). { now apply vown_col. } eapply inv_intro; eauto.
  - intros e w' He H'. exists a. split; [|eapply inv_intro; [exact H'|exact HV|auto]].
    destruct He as [->|He]; [right; split; reflexivity|left]. simpl. rewrite Ex, Eo. rewrite He in Ho. subst o. simpl.
    rewrite HF by congruence. rewrite setc_same by auto. split; eauto.
Qed.
Lemma kset_sound t x i v : sound (KSet t x i v).
Proof.
  start. destruct (acol a x) as [s|] eqn:Ex; [|contradiction].
  destruct (pick_c _ _ _ _ _ HV Ex) as (c & X & R & Nc & HX & P & HU). apply good_fin in G.
  wb. eapply getc_st; [exact HS|exact Nc|].
  eapply (hset_st ex thr X R); [exact HX|eapply st_perm; [exact P|exact HS]|exact G| |].
  - intros v' X' w' Ev HX' H'. rewrite Ev. simpl. eexists; split; [reflexivity|].
    destruct (HU (HCol c) (AC v') X') as (L' & HL' & P'). { now apply vown_col. } eapply inv_intro; [| exact HL'|exact P'].
    rewrite upd_same; auto.
  - intros e w' He H'. exists a. split; [|eapply inv_intro; [exact H'|exact HV|auto]].
    eapply astep_fin_err; [simpl; rewrite Ex; reflexivity|reflexivity|exact He].
Qed.
Lemma kdestroy_sound x : sound (KDestroy x).
Proof.
  start. destruct (nth_error a x) as [v|] eqn:Ex; [|contradiction].
  destruct (vs_pick _ _ _ HV _ _ Ex) as (hv & X & R & N & HX & P & HU).
  destruct (HU HDead ADead []) as (L' & HL' & P'). { constructor. } simpl in P'.
  wb. eapply getv_st; [exact HS|exact N|]. wb.
  destruct HX as [c v X HX|d v X (HD1 & HD2 & HD3)|]; [| |contradiction].
  - eapply (free_st X R); [exact HX|eapply st_perm; [exact P|exact HS]|]. intros w1 H1.
    eapply setv_st; [exact H1|]. intros w' H'. eexists; split; [reflexivity|]. eapply inv_intro; eauto.
  - eapply (free_all_st _ _ X R); [exact HD3|eapply st_perm; [exact P|exact HS]|]. intros w1 H1.
    eapply setv_st; [exact H1|]. intros w' H'. eexists; split; [reflexivity|]. eapply inv_intro; eauto.
Qed.

Lemma fnull_sound : sound FNull.
Proof.
  start. eapply addv_st; [exact HS|]. intros w' H'. eexists; split; [reflexivity|].
  eapply (inv_add _ _ (HDf (mkH 0 [] [])) (AF df_default) []); [exact HV| |exact H']. apply vown_df. split; [|split]; simpl; auto. constructor.
Qed.
Lemma cols_of_st l : forall a cs L vs w (Q : list hncol -> world -> Prop) E, st L vs w -> vsown vs a L -> acols a l = Some cs ->
  (forall els, all_in els cs L -> Q els w) -> wp (cols_of l) w Q E.
Proof.
  induction l as [|[n x] l IH]; intros a cs L vs w Q E HS HV Ea HQ; simpl in *.
  { inversion Ea; subst. apply wp_ret, HQ. constructor. }
  destruct (acol a x) as [c|] eqn:Ex; [|discriminate]. destruct (acols a l) as [r|] eqn:El; [|discriminate]. inversion Ea; subst.
  destruct (look_c _ _ _ _ _ HV Ex) as (hc & N & I). wb. eapply getc_st; [exact HS|exact N|]. wb.
  eapply IH; eauto. intros els He. apply wp_ret, HQ. constructor; auto.
Qed.
Lemma mapO_copy_nil l : mapO ncol_copy l = Ok [] -> l = [].
Proof. destruct (copy_nonnull l) as [[E _]|E]; rewrite E; congruence. Qed.
Lemma flist_sound l : sound (FList l).
Proof.
  start. destruct (acols a l) as [cs|] eqn:El; [|contradiction]. apply good_fin in G.
  wb. eapply cols_of_st; [exact HS|exact HV|exact El|]. intros els HI. wb.
  destruct (copy_nonnull cs) as [[Ec N]|Ec]; [|rewrite Ec in G; contradiction].
  assert (NE : cs <> []). { intros ->. simpl in G. exact G. }
  eapply hctor_list_st; [exact HS|exact HI|exact N|exact NE| |].
  - intros d' v' X w1 Ev HD H1. eapply addv_st; [exact H1|]. intros w' H'. rewrite Ec. cbn [bindO]. rewrite Ev. eexists; split; [reflexivity|].
    eapply inv_add; [exact HV|apply vown_df; exact HD|exact H'].
  - intros e w' He H'. exists a. split; [|eapply inv_keep; eauto].
    eapply astep_fin_err; [simpl; rewrite El; reflexivity|reflexivity|]. rewrite Ec. exact He.
Qed.
Lemma df_copy_ok d : df_copy d = Ok d /\ nonnull (elems d) \/ df_copy d = UB.
Proof.
  unfold df_copy. destruct (copy_nonnull (elems d)) as [[E N]|E]; rewrite E; [left|now right]. split; auto. now destruct d.
Qed.
Lemma fcopy_sound g : sound (FCopy g).
Proof.
  start. destruct (adf a g) as [v|] eqn:Eg; [|contradiction]. apply good_fin in G.
  destruct (look_d _ _ _ _ _ HV Eg) as (d & N & D1 & D2 & D3).
  destruct (df_copy_ok v) as [[Ec NN]|Ec]; rewrite Ec in *; [|contradiction].
  wb. eapply getd_st; [exact HS|exact N|]. wb.
  eapply hdf_copy_st; [exact HS|exact D1|exact D2|exact D3|exact NN| |].
  - intros d' X w1 HD H1. eapply addv_st; [exact H1|]. intros w' H'. eexists; split; [reflexivity|].
    eapply inv_add; [exact HV|apply vown_df; exact HD|exact H'].
  - intros w' H'. exists a. split; [|eapply inv_keep; eauto]. right; split; reflexivity.
Qed.
Lemma moved_own d v X : dfown d v X -> dfown (hdf_moved d) (fst (df_move v)) [].
Proof. intros (H1 & H2 & H3). split; [|split]; simpl; auto. constructor. Qed.
Lemma fmove_sound g : sound (FMove g).
Proof.
  start. destruct (adf a g) as [v|] eqn:Eg; [|contradiction].
  destruct (pick_d _ _ _ _ _ HV Eg) as (d & X & R & N & HX & P & HU).
  wb. eapply getd_st; [exact HS|exact N|]. wb. eapply setv_st; [exact HS|]. intros w1 H1.
  eapply addv_st; [exact H1|]. intros w' H'. eexists; split; [reflexivity|].
  destruct (HU (HDf (hdf_moved d)) (AF (fst (df_move v))) []) as (L' & HL' & P'). { apply vown_df. eapply moved_own; eauto. }
  eapply inv_add; [exact HL'|apply vown_df; exact HX|]. eapply st_perm; [|exact H'].
  rewrite P. apply Permutation_app_head. now symmetry.
Qed.
Lemma fmoveassign_sound f g : sound (FMoveAssign f g).
Proof.
  start. destruct (adf a f) as [dv|] eqn:Ef; [|contradiction]. destruct (adf a g) as [s|] eqn:Eg; [|contradiction].
  destruct (look_d _ _ _ _ _ HV Ef) as (d0 & N0 & _). destruct (pick_d _ _ _ _ _ HV Eg) as (d & X & R & N & HX & P & HU).
  wb. eapply getd_st; [exact HS|exact N|]. wb. eapply getd_st; [exact HS|exact N0|].
  destruct (Nat.eqb f g) eqn:Efg; [contradiction|]. apply Nat.eqb_neq in Efg. wb. eapply setv_st; [exact HS|]. intros w1 H1.
  destruct (HU (HDf (hdf_moved d)) (AF (fst (df_move s))) []) as (L' & HL' & P'). { apply vown_df. eapply moved_own; eauto. }
  assert (Ef' : adf (upd_nat a g (AF (fst (df_move s)))) f = Some dv) by (rewrite adf_upd; auto).
  destruct (pick_d _ _ _ _ _ HL' Ef') as (d0' & X0 & R0 & N0' & (D1 & D2 & HX0) & P0 & HU0).
  rewrite nth_upd_ne in N0' by auto. rewrite N0 in N0'. inversion N0'; subst d0'.
  wb. eapply (free_all_st _ _ X0 (X ++ R0)); [exact HX0| |].
  { eapply st_perm; [|exact H1]. rewrite P. simpl in P'. rewrite <- P', P0. perm. }
  intros w2 H2. eapply setv_st; [exact H2|]. intros w' H'. eexists; split; [reflexivity|].
  destruct (HU0 (HDf d) (AF s) X) as (L2 & HL2 & P2). { now apply vown_df. } eapply inv_intro; eauto.
Qed.
Lemma fassign_sound cap keep f g : sound (FAssign cap keep f g).
Proof.
  start. destruct (adf a f) as [dv|] eqn:Ef; [|contradiction]. destruct (adf a g) as [s|] eqn:Eg; [|contradiction].
  destruct (pick_d _ _ _ _ _ HV Ef) as (d & X & R & N & HX & P & HU). destruct (look_d _ _ _ _ _ HV Eg) as (d0 & N0 & _).
  wb. eapply getd_st; [exact HS|exact N0|]. wb. eapply getd_st; [exact HS|exact N|].
  destruct (Nat.eqb f g) eqn:Efg.
  { apply wp_ret. eexists; split; [reflexivity|]. eapply inv_keep; eauto. }
  apply Nat.eqb_neq in Efg. apply good_fin in G.
  (* the source is among the other variables *)
  destruct (HU HDead ADead []) as (L0 & HL0 & P0). { constructor. } simpl in P0.
  assert (Eg' : adf (upd_nat a f ADead) g = Some s) by (rewrite adf_upd; auto).
  destruct (look_d _ _ _ _ _ HL0 Eg') as (d0' & N0' & D1 & D2 & D3).
  rewrite nth_upd_ne in N0' by auto. rewrite N0 in N0'. inversion N0'; subst d0'.
  eapply (hdf_assign_st ex thr cap keep f d0 s d dv X R); [exact N|exact HX|eapply st_perm; [exact P|exact HS]|exact D1|exact D2| |exact G| |].
  - eapply all_in_perm; [exact P0|exact D3].
  - intros v' d' X' w' Ev HD H'. rewrite Ev. eexists; split; [reflexivity|].
    destruct (HU (HDf d') (AF v') X') as (L' & HL' & P'). { now apply vown_df. } eapply inv_intro; eauto.
  - intros v' d' X' w' Ev HD H'.
    destruct (HU (HDf d') (AF v') X') as (L' & HL' & P'). { now apply vown_df. }
    exists (setf a f v'). split; [|eapply inv_intro; eauto]. right. split; [reflexivity|]. exists dv, s, v'. auto.
Qed.

(** [hbind] on a state with a temporary [other]. *)
Lemma hbind_inv f v o vo Xo a L vs w (Q : unit -> world -> Prop) (E : exn -> world -> Prop) :
  vsown vs a L -> adf a f = Some v -> dfown o vo Xo -> st (Xo ++ L) vs w ->
  (forall w', snd (bind v vo) = Ok tt -> Inv (setf a f (fst (bind v vo))) w' -> Q tt w') ->
  (forall e v' w', e = ex /\ bind_failed v vo v' \/ snd (bind v vo) = Throw e /\ v' = fst (bind v vo) ->
     Inv (setf a f v') w' -> E e w') ->
  wp (hbind ex thr f o) w Q E.
Proof.
  intros HV Ef HO HS HQ HE. destruct (pick_d _ _ _ _ _ HV Ef) as (d & X & R & N & HX & P & HU).
  eapply (hbind_st ex thr f d v X o vo Xo R vs); [exact N|exact HX|exact HO| | |].
  - eapply st_perm; [|exact HS]. rewrite P, !app_assoc. apply Permutation_app_tail, Permutation_app_comm.
  - intros d' X' w' Eb HD H'. apply HQ; auto.
    destruct (HU (HDf d') (AF (fst (bind v vo))) X') as (L' & HL' & P'). { now apply vown_df. } eapply inv_intro; eauto.
  - intros e v' d' X' w' He HD H'. eapply HE; [exact He|].
    destruct (HU (HDf d') (AF v') X') as (L' & HL' & P'). { now apply vown_df. } eapply inv_intro; eauto.
Qed.
Lemma bind_good d o : good (snd (bind d o)).
Proof.
  unfold bind. destruct (existsb _ (names o)); simpl; auto. destruct (df_bool d); simpl; auto. destruct (Z.eqb (rows d) (rows o)); simpl; auto.
Qed.
Lemma fbindcopy_sound f g : sound (FBindCopy f g).
Proof.
  start. destruct (adf a f) as [dv|] eqn:Ef; [|contradiction]. destruct (adf a g) as [s|] eqn:Eg; [|contradiction].
  destruct (look_d _ _ _ _ _ HV Ef) as (d0 & N0 & _). destruct (look_d _ _ _ _ _ HV Eg) as (d & N & D1 & D2 & D3).
  destruct (df_copy_ok s) as [[Ec NN]|Ec]; rewrite Ec in *; [|contradiction].
  wb. eapply getd_st; [exact HS|exact N|]. wb. eapply getd_st; [exact HS|exact N0|]. wb.
  eapply hdf_copy_st; [exact HS|exact D1|exact D2|exact D3|exact NN| |].
  - intros o Xo w1 HO H1. eapply hbind_inv; [exact HV|exact Ef|exact HO|exact H1| |].
    + intros w' Eb HI. destruct (bind dv s) as [d' r]; simpl in *; subst. eexists; split; [reflexivity|exact HI].
    + intros e v' w' He HI. exists (setf a f v'). split; [|exact HI].
      destruct He as [[-> HB]|[He ->]]; [right; split; [reflexivity|]; exists dv, s, v'; auto|left].
      simpl. rewrite Ef, Eg, Ec. destruct (bind dv s) as [d' r]; simpl in *; subst. split; eauto.
  - intros w' H'. exists a. split; [|eapply inv_keep; eauto]. right; split; [reflexivity|]. exists dv, s, dv.
    split; [exact Ef|split; [exact Eg|split; [now left|]]]. now rewrite setf_same.
Qed.
Lemma fbindmove_sound f g : sound (FBindMove f g).
Proof.
  start. destruct (adf a f) as [dv|] eqn:Ef; [|contradiction]. destruct (adf a g) as [s|] eqn:Eg; [|contradiction].
  destruct (look_d _ _ _ _ _ HV Ef) as (d0 & N0 & _). destruct (pick_d _ _ _ _ _ HV Eg) as (d & X & R & N & HX & P & HU).
  wb. eapply getd_st; [exact HS|exact N|]. wb. eapply getd_st; [exact HS|exact N0|]. wb. eapply setv_st; [exact HS|]. intros w1 H1.
  destruct (HU (HDf (hdf_moved d)) (AF (fst (df_move s))) []) as (L' & HL' & P'). { apply vown_df. eapply moved_own; eauto. }
  simpl in P'. fold (setf a g (fst (df_move s))) in HL'.
  change (mkDf (rows s) [] []) with (fst (df_move s)) in *.
  destruct (adf (setf a g (fst (df_move s))) f) as [dv'|] eqn:Ef'; [|contradiction].
  eapply hbind_inv; [exact HL'|exact Ef'|exact HX| | |].
  - eapply st_perm; [|exact H1]. rewrite P. apply Permutation_app_head. now symmetry.
  - intros w' Eb HI. destruct (bind dv' s) as [d' r]; simpl in *; subst. eexists; split; [reflexivity|exact HI].
  - intros e v' w' He HI. eexists. split; [|exact HI].
    destruct He as [[-> HB]|[He ->]]; [right; split; [reflexivity|]; exists s, dv', v'; auto|left].
    unfold aexec. rewrite Ef, Eg, Ef'. destruct (bind dv' s) as [d' r]; simpl in *; subst. split; eauto.
Qed.
Lemma fbindcol_sound f n x : sound (FBindCol f n x).
Proof.
  start. destruct (adf a f) as [dv|] eqn:Ef; [|contradiction]. destruct (acol a x) as [s|] eqn:Ex; [|contradiction].
  destruct (look_d _ _ _ _ _ HV Ef) as (d0 & N0 & _). destruct (pick_c _ _ _ _ _ HV Ex) as (c & X & R & N & HX & P & HU).
  wb. eapply getc_st; [exact HS|exact N|]. wb. eapply getd_st; [exact HS|exact N0|]. wb. eapply tick_st; [exact HS| |].
  2:{ intros w' H'. exists a. split; [|eapply inv_keep; eauto]. right; split; [reflexivity|]. exists dv, s. auto. }
  intros w1 H1. wb. eapply setv_st; [exact H1|]. intros w2 H2. wb.
  destruct (HU (HCol None) (AC None) []) as (L' & HL' & P'). { now apply vown_col. } simpl in P'. fold (setc a x None) in HL'.
  assert (Ef' : adf (setc a x None) f = Some dv).
  { unfold setc. rewrite adf_upd; auto. intros ->. apply adf_nth in Ef. apply acol_nth in Ex. congruence. }
  assert (HS2 : st (X ++ L') (upd_nat (hvars w) x (HCol None)) w2).
  { eapply st_perm; [|exact H2]. rewrite P. apply Permutation_app_head. now symmetry. }
  unfold hctor_named. wb. eapply hcol_size_st; [exact HS2| |].
  { eapply own1_in; [exact HX|]. apply incl_appl, incl_refl. }
  wb. apply wp_on_throw. eapply tick_st; [exact HS2| |].
  - intros w3 H3. apply wp_ret.
    assert (HO : dfown (mkH (col_size s) [(n, c)] []) (ctor_named (mkN n s)) X).
    { split; [|split]; simpl; auto. rewrite <- (app_nil_r X). constructor; auto. constructor. }
    eapply hbind_inv; [exact HL'|exact Ef'|exact HO|exact H3| |].
    + intros w' Eb HI. destruct (bind dv (ctor_named (mkN n s))) as [d' r]; simpl in *; subst. eexists; split; [reflexivity|exact HI].
    + intros e v' w' He HI. eexists. split; [|exact HI].
      destruct He as [[-> HB]|[He ->]]; [right; split; [reflexivity|]; exists dv, s; split; [exact Ef|split; [exact Ex|]]; right; exists v'; auto|left].
      simpl. rewrite Ef, Ex. destruct (bind dv (ctor_named (mkN n s))) as [d' r]; simpl in *; subst. split; eauto.
  - intros w3 H3. eapply (free_st X L'); [exact HX|exact H3|]. intros w4 H4. exists (setc a x None).
    split; [|eapply inv_keep; eauto]. right; split; [reflexivity|]. exists dv, s. split; [exact Ef|split; [exact Ex|]]. right.
    exists dv. split; [now left|]. now rewrite setf_same.
Qed.
Lemma get_nth {A} (l : list A) i : get l i = match (if Z.ltb i 0 then None else nth_error l (Z.to_nat i)) with Some v => Ok v | None => UB end.
Proof.
  unfold get. destruct (Z.ltb_spec i 0), (Z.leb_spec 0 i); simpl; auto; try lia.
  destruct (Z.ltb_spec i (Z.of_nat (length l))); auto.
  destruct (nth_error l (Z.to_nat i)) eqn:E; auto. assert (Z.to_nat i < length l) by (apply nth_error_Some; congruence). lia.
Qed.
Lemma all_in_nth es vals L : all_in es vals L -> forall k nc, nth_error vals k = Some nc ->
  exists c, nth_error es k = Some (nname nc, c) /\ col_in c (ncolumn nc) L.
Proof.
  induction 1; intros [|k] nc E; simpl in *; try discriminate; eauto.
  inversion E; subst. destruct x as [n c]; simpl in *. destruct H as [-> H]. eauto.
Qed.
Lemma fcolumn_sound g pos : sound (FColumn g pos).
Proof.
  start. destruct (adf a g) as [v|] eqn:Eg; [|contradiction]. apply good_fin in G.
  destruct (look_d _ _ _ _ _ HV Eg) as (d & N & D1 & D2 & D3).
  wb. eapply getd_st; [exact HS|exact N|]. rewrite (all_in_length _ _ _ D3).
  unfold at_pos, column_count in *. destruct (Z.ltb pos (Z.of_nat (length (elems v)))) eqn:Ep; cbn [bindO] in *.
  - rewrite !get_nth in *. destruct (Z.ltb pos 0); [contradiction|].
    destruct (nth_error (elems v) (Z.to_nat pos)) as [nc|] eqn:En; cbn [bindO] in *; [|contradiction].
    destruct (all_in_nth _ _ _ D3 _ _ En) as (c & Ec & Ic). rewrite Ec. wb. unfold wp at 1, lift. wb.
    destruct (ncolumn nc) as [m|] eqn:Em; [|contradiction].
    eapply hcopy_st; [exact HS|exact Ic|congruence| |].
    + intros c' X w1 HX H1. eapply addv_st; [exact H1|]. intros w' H'. eexists; split; [reflexivity|].
      eapply inv_add; [exact HV|apply vown_col; exact HX|exact H'].
    + intros w' H'. exists a. split; [|eapply inv_keep; eauto]. right; split; reflexivity.
  - unfold wp, lift. exists a. split; [|eapply inv_keep; eauto]. left. simpl. rewrite Eg. unfold at_pos, column_count. rewrite Ep. simpl. split; eauto.
Qed.

Theorem kexec_sound c : sound c.
Proof.
  destruct c; [apply knull_sound|apply knew_sound|apply kcopy_sound|apply kpartial_sound|apply kmove_sound|apply kassign_sound
  |apply kmoveassign_sound|apply kcoerce_sound|apply ktocolumn_sound|apply ktocolumnmove_sound|apply ktoview_sound|apply kset_sound|apply kdestroy_sound
  |apply fnull_sound|apply flist_sound|apply fcopy_sound|apply fmove_sound|apply fassign_sound|apply fmoveassign_sound|apply fbindcopy_sound
  |apply fbindmove_sound|apply fbindcol_sound|apply fcolumn_sound].
Qed.
End P.
