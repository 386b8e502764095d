(** * ColHeapProofs2: bind, assignment of dataframes, and whole commands. *)

From Coq Require Import ZArith Bool List Lia Permutation.
From Verif Require Import Base Coerce Frame FrameWrite ColHeap ColHeapSpec ColHeapProofs.
Import ListNotations.
Open Scope list_scope.
Open Scope nat_scope.

Set Default Proof Using "Type".
Section P.
Variable rs : rules.
Variable ex : exn.
Variable thr : nat -> bool.
Ltac wb := apply wp_bind.

(** *** variables *)
Inductive vown : hvar -> aval -> list (nat * model) -> Prop :=
| vown_col c v X : own1 c v = Some X -> vown (HCol c) (AC v) X
| vown_df d v X : dfown d v X -> vown (HDf d) (AF v) X
| vown_dead : vown HDead ADead [].
Inductive vsown : list hvar -> avals -> list (nat * model) -> Prop :=
| vsown_nil : vsown [] [] []
| vsown_cons hv v vs a X Y : vown hv v X -> vsown vs a Y -> vsown (hv :: vs) (v :: a) (X ++ Y).

Lemma vs_pick vs a L : vsown vs a L -> forall x v, nth_error a x = Some v ->
  exists hv X R, nth_error vs x = Some hv /\ vown hv v X /\ Permutation L (X ++ R) /\
    forall hv' v' X', vown hv' v' X' -> exists L', vsown (upd_nat vs x hv') (upd_nat a x v') L' /\ Permutation L' (X' ++ R).
Proof.
  induction 1; intros [|x] v' E; simpl in E; try discriminate.
  - inversion E; subst. exists hv, X, Y. repeat split; auto.
    intros hv' v0 X' H'. exists (X' ++ Y). split; auto. constructor; auto.
  - destruct (IHvsown _ _ E) as (hv' & X' & R & H1 & H2 & H3 & H4). exists hv', X', (X ++ R). split; [|split; [|split]]; auto.
    + rewrite H3. rewrite !app_assoc. apply Permutation_app_tail, Permutation_app_comm.
    + intros hv2 v2 X2 HX2. destruct (H4 _ _ _ HX2) as (L' & HL' & P). exists (X ++ L'). split; [constructor; auto|].
      rewrite P. rewrite !app_assoc. apply Permutation_app_tail, Permutation_app_comm.
Qed.
Lemma vs_add vs a L hv v X : vsown vs a L -> vown hv v X -> vsown (vs ++ [hv]) (a ++ [v]) (L ++ X).
Proof.
  induction 1; intros H'; simpl. { rewrite <- (app_nil_r X). constructor; auto. constructor. }
  rewrite <- app_assoc. constructor; auto.
Qed.
Lemma vs_length vs a L : vsown vs a L -> length vs = length a.
Proof. induction 1; simpl; auto. Qed.

Definition Inv (a : avals) (w : world) : Prop := exists L, heap_is (hmem w) L /\ vsown (hvars w) a L.
Lemma inv_intro a w L L' vs : st L vs w -> vsown vs a L' -> Permutation L' L -> Inv a w.
Proof. intros [H1 H2] H3 P. exists L'. subst. split; auto. eapply heap_perm; [symmetry; exact P|auto]. Qed.

Lemma getv_st x hv L vs w (Q : hvar -> world -> Prop) E : st L vs w -> nth_error vs x = Some hv -> Q hv w -> wp (getv x) w Q E.
Proof. intros [_ H] N HQ. unfold wp, getv. rewrite H, N. auto. Qed.
Lemma getc_st x c L vs w (Q : hcol -> world -> Prop) E : st L vs w -> nth_error vs x = Some (HCol c) -> Q c w -> wp (getc x) w Q E.
Proof. intros H N HQ. unfold getc. wb. eapply getv_st; eauto. Qed.
Lemma getd_st x d L vs w (Q : hdf -> world -> Prop) E : st L vs w -> nth_error vs x = Some (HDf d) -> Q d w -> wp (getd x) w Q E.
Proof. intros H N HQ. unfold getd. wb. eapply getv_st; eauto. Qed.
Lemma setv_st x hv L vs w (Q : unit -> world -> Prop) E : st L vs w -> (forall w', st L (upd_nat vs x hv) w' -> Q tt w') -> wp (setv x hv) w Q E.
Proof. intros [H1 H2] HQ. unfold wp, setv. apply HQ. split; simpl; auto. now rewrite H2. Qed.
Lemma addv_st hv L vs w (Q : unit -> world -> Prop) E : st L vs w -> (forall w', st L (vs ++ [hv]) w' -> Q tt w') -> wp (addv hv) w Q E.
Proof. intros [H1 H2] HQ. unfold wp, addv. apply HQ. split; simpl; auto. now rewrite H2. Qed.

Lemma upd_upd {A} (l : list A) i x y : upd_nat (upd_nat l i x) i y = upd_nat l i y.
Proof. revert i; induction l; intros [|i]; simpl; auto. f_equal; auto. Qed.
Lemma upd_nth {A} (l : list A) i x y : nth_error l i = Some y -> nth_error (upd_nat l i x) i = Some x.
Proof. intros H. apply nth_upd_eq. apply nth_error_Some. congruence. Qed.

(** *** bind *)
Definition stop_at (k : nat) (entry : bool) (vals : list ncol) (v : df) : df :=
  let d1 := bind_loop (firstn k vals) v in
  match nth_error vals k with
  | Some nc => if entry && negb (tempty (nname nc)) then mkDf (rows d1) (elems d1) (idx_set (index d1) (nname nc) (column_count d1)) else d1
  | None => d1
  end.

Lemma hbind_loop_st f rest : forall vals Xr d v X R vs w (Q : unit -> world -> Prop) (E : exn -> world -> Prop),
  nth_error vs f = Some (HDf d) -> dfown d v X -> owns rest vals Xr -> st (X ++ Xr ++ R) vs w ->
  (forall d' X' w', dfown d' (bind_loop vals v) X' -> st (X' ++ R) (upd_nat vs f (HDf d')) w' -> Q tt w') ->
  (forall k entry d' X' w', k < length vals -> dfown d' (stop_at k entry vals v) X' -> st (X' ++ R) (upd_nat vs f (HDf d')) w' -> E ex w') ->
  wp (hbind_loop ex thr f rest) w Q E.
Proof.
  induction rest as [|[n c] rest IH]; intros vals Xr d v X R vs w Q E Hf HD HO H HQ HE; inversion HO; subst; simpl.
  { apply wp_ret. apply (HQ d X); auto. now rewrite upd_same. }
  rename X0 into Xc, Y into Xs, vals0 into vals, v0 into vc.
  destruct HD as (HD1 & HD2 & HD3).
  set (d1 := if tempty n then d else mkH (hrows d) (helems d) (idx_set (hindex d) n (Z.of_nat (length (helems d))))).
  set (v1 := if tempty n then v else mkDf (rows v) (elems v) (idx_set (index v) n (column_count v))).
  assert (HD' : dfown d1 v1 X).
  { unfold d1, v1. destruct (tempty n); [split; auto|]. split; [|split]; simpl; auto.
    unfold column_count. now rewrite HD2, (owns_length _ _ _ HD3). }
  assert (HF : forall entry d' v' vs' w', st (X ++ (Xc ++ Xs) ++ R) vs' w' -> vs' = upd_nat vs f (HDf d') -> dfown d' v' X ->
     v' = stop_at 0 entry (mkN n vc :: vals) v ->
     wp (free_all ((n, c) :: rest)) w' (fun _ w'' => E ex w'') (fun _ _ => False)).
  { intros entry d' v' vs' w' H' -> HD'' ->. eapply (free_all_st _ (mkN n vc :: vals) (Xc ++ Xs) (X ++ R)).
    - constructor; auto.
    - eapply st_perm; [|exact H']. rewrite !app_assoc. apply Permutation_app_tail. rewrite <- (app_assoc X). apply Permutation_app_comm.
    - intros w'' H''. eapply (HE 0 entry); [simpl; lia|exact HD''|exact H'']. }
  wb. apply wp_on_throw.
  assert (HK : forall w', st (X ++ (Xc ++ Xs) ++ R) (upd_nat vs f (HDf d1)) w' ->
     wp (on_throw (tick ex thr) (free_all ((n, c) :: rest)) ;;'
         (d0 <- getd f ;; setv f (HDf (mkH (hrows d0) (helems d0 ++ [(n, c)]) (hindex d0))) ;;' hbind_loop ex thr f rest)) w' Q E).
  { intros w1 H1. wb. apply wp_on_throw. eapply tick_st; [exact H1| |].
    2:{ intros w2 H2. eapply (HF true); [exact H2|reflexivity|exact HD'|].
        unfold stop_at, v1; simpl. destruct (tempty n); simpl; auto. }
    intros w2 H2. wb. eapply getd_st; [exact H2|eapply upd_nth; eauto|]. wb. eapply setv_st; [exact H2|].
    rewrite upd_upd. intros w3 H3.
    destruct HD' as (HE1 & HE2 & HE3).
    set (d2 := mkH (hrows d1) (helems d1 ++ [(n, c)]) (hindex d1)) in *.
    eapply (IH vals Xs d2 (mkDf (rows v1) (elems v1 ++ [mkN n vc]) (index v1)) (X ++ Xc) R (upd_nat vs f (HDf d2))); [eapply upd_nth; eauto| |assumption| | |].
    - split; [|split]; simpl; auto. apply owns_app; auto. rewrite <- (app_nil_r Xc). repeat constructor; auto.
    - eapply st_perm; [|exact H3]. now rewrite !app_assoc.
    - intros d' X' w' HD'' H'. rewrite upd_upd in H'. eapply HQ; [|exact H']. simpl. unfold v1 in HD''.
      destruct (tempty n); exact HD''.
    - intros k entry d' X' w' Hk HD'' H'. rewrite upd_upd in H'. eapply (HE (S k) entry); [simpl; lia| |exact H'].
      unfold stop_at in *; simpl. unfold v1 in HD''. destruct (tempty n); exact HD''. }
  destruct (tempty n) eqn:En.
  - apply wp_ret. apply HK. unfold d1. now rewrite upd_same.
  - wb. eapply tick_st; [exact H| |].
    + intros w1 H1. wb. eapply getd_st; [exact H1|exact Hf|]. eapply setv_st; [exact H1|]. exact HK.
    + intros w1 H1. eapply (HF false d v); [exact H1|now rewrite upd_same|split; auto|].
      unfold stop_at; simpl. reflexivity.
Qed.

Lemma df_bool_nil v : df_bool v = match elems v with [] => false | _ => true end.
Proof. unfold df_bool, column_count. destruct (elems v); reflexivity. Qed.

Lemma hbind_st f d v X o vo Xo R vs w (Q : unit -> world -> Prop) (E : exn -> world -> Prop) :
  nth_error vs f = Some (HDf d) -> dfown d v X -> dfown o vo Xo -> st (X ++ Xo ++ R) vs w ->
  (forall d' X' w', snd (bind v vo) = Ok tt -> dfown d' (fst (bind v vo)) X' -> st (X' ++ R) (upd_nat vs f (HDf d')) w' -> Q tt w') ->
  (forall e v' d' X' w', e = ex /\ bind_failed v vo v' \/ snd (bind v vo) = Throw e /\ v' = fst (bind v vo) ->
     dfown d' v' X' -> st (X' ++ R) (upd_nat vs f (HDf d')) w' -> E e w') ->
  wp (hbind ex thr f o) w Q E.
Proof.
  intros Hf HD HO H HQ HE. destruct HO as (HO1 & HO2 & HO3). unfold hbind.
  assert (HF : forall e w', e = ex \/ snd (bind v vo) = Throw e /\ fst (bind v vo) = v -> st (X ++ Xo ++ R) vs w' ->
     wp (free_all (helems o)) w' (fun _ w'' => E e w'') (fun _ _ => False)).
  { intros e w' He H'. eapply (free_all_st _ _ Xo (X ++ R)); [exact HO3| |].
    - eapply st_perm; [|exact H']. rewrite !app_assoc. apply Permutation_app_tail, Permutation_app_comm.
    - intros w'' H''. eapply (HE e v d X); [|exact HD|]. 2:{ rewrite upd_same; auto. }
      destruct He as [->|[He1 He2]]; [left; split; auto; now left|right; auto]. }
  assert (HL : forall d0 v0 w', snd (bind v vo) = Ok tt -> fst (bind v vo) = bind_loop (elems vo) v0 ->
     (forall k e, bind_stop k e v vo = stop_at k e (elems vo) v0) -> dfown d0 v0 X ->
     st (X ++ Xo ++ R) (upd_nat vs f (HDf d0)) w' -> wp (hbind_loop ex thr f (helems o)) w' Q E).
  { intros d0 v0 w' B1 B2 B3 HD0 H'. eapply hbind_loop_st; [eapply upd_nth; eauto|exact HD0|exact HO3|exact H'| |].
    - intros d' X' w'' HD' H''. rewrite upd_upd in H''. rewrite <- B2 in HD'. eapply HQ; eauto.
    - intros k e d' X' w'' Hk HD' H''. rewrite upd_upd in H''. eapply HE; [|exact HD'|exact H''].
      left. split; auto. right. split; auto. exists k, e. split; auto. }
  wb. apply wp_on_throw. wb. eapply ticks_st; [exact H| |auto]. intros w1 H1. wb. eapply getd_st; [exact H1|exact Hf|].
  destruct HD as (HD1 & HD2 & HD3). rewrite HD2, HD1, HO1, (owns_names _ _ _ HO3). fold (names vo).
  unfold bind in *. fold (names vo) in *.
  match goal with |- context [existsb ?g (names vo)] => destruct (existsb g (names vo)) eqn:Eb end.
  { unfold wp at 1, lift. apply HF; auto. }
  rewrite df_bool_nil in *. pose proof (owns_length _ _ _ HD3) as Hlen.
  destruct (helems d) as [|e es] eqn:Ed, (elems v) as [|e' es'] eqn:Ev; simpl in Hlen; try discriminate.
  - eapply setv_st; [exact H1|]. intros w2 H2. eapply (HL _ (mkDf (rows vo) [] (index v))); [reflexivity|reflexivity| | |exact H2].
    + intros k entry. unfold bind_stop. rewrite df_bool_nil, Ev. reflexivity.
    + split; [|split]; simpl; auto.
  - destruct (Z.eqb (rows v) (rows vo)) eqn:Er.
    + apply wp_ret. eapply (HL d v); [reflexivity|reflexivity| | |].
      * intros k entry. unfold bind_stop. rewrite df_bool_nil, Ev. reflexivity.
      * split; [|split]; auto. now rewrite Ed, Ev.
      * now rewrite upd_same.
    + unfold wp at 1, lift. apply HF; auto.
Qed.

(** *** assignment of dataframes *)
Lemma set_elems_st f d es L vs w (Q : unit -> world -> Prop) E : st L vs w -> nth_error vs f = Some (HDf d) ->
  (forall w', st L (upd_nat vs f (HDf (mkH (hrows d) es (hindex d)))) w' -> Q tt w') -> wp (set_elems f es) w Q E.
Proof. intros H N HQ. unfold set_elems. wb. eapply getd_st; eauto. eapply setv_st; eauto. Qed.

Lemma owns_nth es vals X : owns es vals X -> forall k nc, nth_error vals k = Some nc ->
  exists c Xk X', nth_error es k = Some (nname nc, c) /\ own1 c (ncolumn nc) = Some Xk /\ Permutation X (Xk ++ X') /\
    forall n' c' v' Y, own1 c' v' = Some Y -> exists Z, owns (upd_nat es k (n', c')) (upd_nat vals k (mkN n' v')) Z /\ Permutation Z (Y ++ X').
Proof.
  induction 1; intros [|k] nc E; simpl in E; try discriminate.
  - inversion E; subst. exists c, X, Y. repeat split; auto. intros n' c' v' Z HZ. exists (Z ++ Y). split; auto. constructor; auto.
  - destruct (IHowns _ _ E) as (c' & Xk & X' & H1 & H2 & H3 & H4). exists c', Xk, (X ++ X'). split; [|split; [|split]]; auto.
    + rewrite H3, !app_assoc. apply Permutation_app_tail, Permutation_app_comm.
    + intros n' c2 v' Y' HY'. destruct (H4 n' _ _ _ HY') as (Z & HZ & P). exists (X ++ Z). split; [constructor; auto|].
      rewrite P, !app_assoc. apply Permutation_app_tail, Permutation_app_comm.
Qed.

(** Elements after the first [k] have been replaced by [s]. *)
Lemma upd_split {A} (l : list A) k x y : nth_error l k = Some y -> upd_nat l k x = firstn k l ++ x :: skipn (S k) l.
Proof. revert k; induction l; intros [|k] H; simpl in *; try congruence. f_equal. now apply IHl. Qed.

Lemma skipn_skipn' {A} (l : list A) : forall i j, skipn i (skipn j l) = skipn (j + i) l.
Proof. induction l; intros i [|j]; simpl; auto. now rewrite skipn_nil. Qed.

Lemma assign_elems_st f src : forall svals k d v X R vs w (Q : unit -> world -> Prop) (E : exn -> world -> Prop),
  nth_error vs f = Some (HDf d) -> dfown d v X -> st (X ++ R) vs w -> all_in src svals R -> k + length svals <= length (elems v) ->
  (forall d' X' w', dfown d' (mkDf (rows v) (firstn k (elems v) ++ svals ++ skipn (k + length svals) (elems v)) (index v)) X' ->
     st (X' ++ R) (upd_nat vs f (HDf d')) w' -> Q tt w') ->
  (forall j es d' X' w', j < length svals ->
     es = firstn k (elems v) ++ firstn j svals ++ skipn (k + j) (elems v) \/
     (exists nc nc', nth_error svals j = Some nc /\ nth_error (elems v) (k + j) = Some nc' /\
       es = firstn k (elems v) ++ firstn j svals ++ mkN (nname nc) (ncolumn nc') :: skipn (S (k + j)) (elems v)) ->
     dfown d' (mkDf (rows v) es (index v)) X' -> st (X' ++ R) (upd_nat vs f (HDf d')) w' -> E ex w') ->
  wp (assign_elems ex thr f k src) w Q E.
Proof.
  induction src as [|[n c] src IH]; intros svals k d v X R vs w Q E Hf HD H HI Hk HQ HE; inversion HI; subst; simpl.
  { apply wp_ret. apply (HQ d X). 2:{ now rewrite upd_same. }
    simpl. rewrite Nat.add_0_r, firstn_skipn. now destruct v. }
  destruct y as [n' vc]. simpl in *. destruct H2 as [-> H2]. rename l' into svals.
  destruct HD as (HD1 & HD2 & HD3).
  assert (Hn : exists nc0, nth_error (elems v) k = Some nc0).
  { destruct (nth_error (elems v) k) eqn:En; eauto. apply nth_error_None in En. lia. }
  destruct Hn as [nc0 Hn]. destruct (owns_nth _ _ _ HD3 _ _ Hn) as (c0 & Xk & X' & N1 & N2 & N3 & N4).
  wb. eapply getd_st; [exact H|exact Hf|]. rewrite N1.
  wb. eapply tick_st; [exact H| |].
  2:{ intros w1 H1. eapply (HE 0); [lia| | |]; [|split; [|split]; eauto|].
      - left. rewrite Nat.add_0_r. simpl. now rewrite firstn_skipn.
      - simpl. now rewrite upd_same. }
  intros w1 H1. wb. eapply set_elems_st; [exact H1|exact Hf|]. intros w2 H2'.
  set (d1 := mkH (hrows d) (upd_nat (helems d) k (n', c0)) (hindex d)) in *.
  set (v1 := mkDf (rows v) (upd_nat (elems v) k (mkN n' (ncolumn nc0))) (index v)).
  destruct (N4 n' c0 (ncolumn nc0) Xk N2) as (Z1 & HZ1 & PZ1).
  wb. eapply (hassign_st ex thr Xk (X' ++ R)); [exact N2| | | |].
  - eapply st_perm; [|exact H2']. rewrite N3, <- app_assoc. reflexivity.
  - eapply col_in_incl; [|exact H2]. do 2 apply incl_appr. apply incl_refl.
  - intros c' Y w3 HY H3'. wb. eapply getd_st; [exact H3'|eapply upd_nth; eauto|]. wb.
    eapply set_elems_st; [exact H3'|eapply upd_nth; eauto|]. intros w4 H4'.
    unfold d1 in H4'; simpl in H4'. rewrite !upd_upd in H4'.
    destruct (N4 n' c' vc Y HY) as (Z2 & HZ2 & PZ2).
    set (d2 := mkH (hrows d) (upd_nat (helems d) k (n', c')) (hindex d)) in *.
    set (v2 := mkDf (rows v) (upd_nat (elems v) k (mkN n' vc)) (index v)).
    assert (EF : forall j, j <= length svals -> firstn (S k) (elems v2) ++ firstn j svals ++ skipn (S k + j) (elems v2)
               = firstn k (elems v) ++ firstn (S j) (mkN n' vc :: svals) ++ skipn (k + S j) (elems v)).
    { intros j Hj. unfold v2; cbn [elems]. rewrite (upd_split _ _ _ _ Hn).
      assert (LK : length (firstn k (elems v)) = k) by (rewrite firstn_length; lia).
      rewrite firstn_app, LK. replace (S k - k) with 1 by lia. rewrite firstn_all2 by lia. cbn [firstn].
      rewrite skipn_app, LK. replace (S k + j - k) with (S j) by lia. rewrite skipn_all2 by lia. cbn [app skipn].
      rewrite <- !app_assoc. cbn [app]. f_equal. cbn [firstn app]. do 2 f_equal. change (skipn j (skipn (S k) (elems v)) = skipn (k + S j) (elems v)). rewrite skipn_skipn'. f_equal. lia. }
    eapply (IH svals (S k) d2 v2 Z2 R (upd_nat vs f (HDf d2))); [eapply upd_nth; eauto| | |exact H4| | |].
    + split; [|split]; auto.
    + eapply st_perm; [|exact H4']. rewrite PZ2, <- app_assoc. reflexivity.
    + unfold v2; simpl. rewrite upd_len. simpl in Hk. lia.
    + intros d' W w' HD' H'. rewrite upd_upd in H'. eapply HQ; [|exact H'].
      pose proof (EF (length svals) (le_n _)) as EF'. change (firstn (S (length svals)) (mkN n' vc :: svals)) with (mkN n' vc :: firstn (length svals) svals) in EF'.
      rewrite !firstn_all in EF'. cbn [length app] in *. rewrite <- EF'. exact HD'.
    + intros j es d' W w' Hj He HD' H'. rewrite upd_upd in H'. eapply (HE (S j) es); [simpl; lia| |exact HD'|exact H'].
      destruct He as [->|(nc & nc' & E1 & E2 & ->)].
      * left. apply EF; lia.
      * right. exists nc, nc'. split; [exact E1|]. unfold v2 in E2; cbn [elems] in E2.
        rewrite (upd_split _ _ _ _ Hn) in E2.
        assert (LK : length (firstn k (elems v)) = k) by (rewrite firstn_length; lia).
        split.
        -- rewrite nth_error_app2 in E2 by lia. rewrite LK in E2. replace (S k + j - k) with (S j) in E2 by lia. cbn [nth_error] in E2.
           rewrite <- (firstn_skipn (S k) (elems v)). rewrite nth_error_app2; rewrite firstn_length; [|lia].
           rewrite Nat.min_l by lia. replace (k + S j - S k) with j by lia. exact E2.
        -- unfold v2; cbn [elems]. rewrite (upd_split _ _ _ _ Hn). rewrite firstn_app, LK. replace (S k - k) with 1 by lia.
           rewrite firstn_all2 by lia. cbn [firstn]. rewrite <- !app_assoc. cbn [app]. do 4 f_equal.
           change (skipn (S (S k + j)) (firstn k (elems v) ++ mkN n' vc :: skipn (S k) (elems v)) = skipn (S (k + S j)) (elems v)).
           rewrite skipn_app, LK. replace (S (S k + j) - k) with (S (S j)) by lia. rewrite skipn_all2 by lia. cbn [app].
           change (skipn (S (S j)) (mkN n' vc :: skipn (S k) (elems v))) with (skipn (S j) (skipn (S k) (elems v))).
           rewrite skipn_skipn'. f_equal; lia.
  - intros w3 H3'. eapply (HE 0 (upd_nat (elems v) k (mkN n' (ncolumn nc0))) d1 Z1); [lia| | |].
    + right. exists (mkN n' vc), nc0. split; [reflexivity|]. replace (k + 0) with k by lia. split; [exact Hn|].
      apply (upd_split _ _ _ _ Hn).
    + split; [|split]; auto.
    + eapply st_perm; [|exact H3']. rewrite PZ1, <- app_assoc. reflexivity.
Qed.

Lemma all_in_length es vals L : all_in es vals L -> length es = length vals.
Proof. induction 1; simpl; auto. Qed.

Lemma assign_vector_st cap f src svals d v X R vs w (Q : unit -> world -> Prop) (E : exn -> world -> Prop) :
  nth_error vs f = Some (HDf d) -> dfown d v X -> st (X ++ R) vs w -> all_in src svals R ->
  let k := if Nat.ltb cap (length svals) then 0 else Nat.min (length (elems v)) (length svals) in
  nonnull (skipn k svals) ->
  (forall d' X' w', dfown d' (mkDf (rows v) svals (index v)) X' -> st (X' ++ R) (upd_nat vs f (HDf d')) w' -> Q tt w') ->
  (forall v' d' X' w', rows v' = rows v -> index v' = index v ->
     elems v' = elems v \/
     length svals <= cap /\
       (exists k, k < Nat.min (length (elems v)) (length svals) /\
        (elems v' = firstn k svals ++ skipn k (elems v) \/
         exists nc nc', nth_error svals k = Some nc /\ nth_error (elems v) k = Some nc' /\
           elems v' = firstn k svals ++ mkN (nname nc) (ncolumn nc') :: skipn (S k) (elems v))) \/
     length (elems v) < length svals <= cap /\ elems v' = firstn (length (elems v)) svals ->
     dfown d' v' X' -> st (X' ++ R) (upd_nat vs f (HDf d')) w' -> E ex w') ->
  wp (assign_vector ex thr cap f src) w Q E.
Proof.
  intros Hf HD H HI k N HQ HE. unfold assign_vector. wb. eapply getd_st; [exact H|exact Hf|].
  assert (HL : length src = length svals) by (eapply all_in_length; exact HI). cbv zeta. rewrite HL.
  pose proof HD as (HD1 & HD2 & HD3). pose proof (owns_length _ _ _ HD3) as HLd. rewrite HLd.
  destruct (Nat.ltb cap (length svals)) eqn:Ec.
  - simpl in *. apply Nat.ltb_lt in Ec.
    assert (HE0 : forall w', st (X ++ R) vs w' -> E ex w').
    { intros w' H'. eapply (HE v d X); auto. now rewrite upd_same. }
    wb. eapply tick_st; [exact H| |auto]. intros w1 H1. wb.
    eapply copy_all_st; [exact H1| |exact N| |auto]. { eapply all_in_incl; [|exact HI]. apply incl_appr, incl_refl. }
    intros es Y w2 HY H2. wb. eapply (free_all_st _ _ X (Y ++ R)); [exact HD3| |].
    { eapply st_perm; [|exact H2]. rewrite !app_assoc. apply Permutation_app_tail, Permutation_app_comm. }
    intros w3 H3. eapply set_elems_st; [exact H3|exact Hf|]. intros w4 H4. eapply HQ; [|exact H4]. split; [|split]; auto.
  - apply Nat.ltb_ge in Ec. subst k.
    set (k := Nat.min (length (elems v)) (length svals)) in *.
    assert (Hk : length (firstn k svals) = k) by (rewrite firstn_length; unfold k; lia).
    wb. eapply assign_elems_st; [exact Hf|exact HD|exact H|apply all_in_firstn; exact HI|simpl; lia| |].
    + intros d1 X1 w1 HD' H1. cbn [firstn app] in HD'. rewrite Nat.add_0_l, Hk in HD'.
      destruct HD' as (HE1 & HE2 & HE3). cbn [elems rows index] in *.
      wb. eapply getd_st; [exact H1|eapply upd_nth; eauto|].
      destruct (owns_split k _ _ _ HE3) as (Xa & Xb & EX & Ha & Hb). subst X1.
      assert (EA : firstn k (firstn k svals ++ skipn k (elems v)) = firstn k svals).
      { rewrite firstn_app, Hk, Nat.sub_diag, firstn_O, app_nil_r, firstn_firstn, Nat.min_id. reflexivity. }
      assert (EB : skipn k (firstn k svals ++ skipn k (elems v)) = skipn k (elems v)).
      { rewrite skipn_app, Hk, Nat.sub_diag. rewrite skipn_all2 by (rewrite Hk; lia). reflexivity. }
      rewrite EA in Ha. rewrite EB in Hb. clear EA EB.
      wb. eapply (free_all_st _ _ Xb (Xa ++ R)); [exact Hb| |].
      { eapply st_perm; [|exact H1]. rewrite app_assoc. apply Permutation_app_tail, Permutation_app_comm. }
      intros w2 H2. wb. eapply set_elems_st; [exact H2|eapply upd_nth; eauto|]. intros w3 H3. rewrite upd_upd in H3.
      assert (HW : forall es Y w4, owns es (skipn k svals) Y -> st (Y ++ Xa ++ R) (upd_nat vs f (HDf (mkH (hrows d1) (firstn k (helems d1)) (hindex d1)))) w4 ->
        wp (d'' <- getd f ;; set_elems f (helems d'' ++ es)) w4 Q E).
      { intros es Y w4 HY H4. wb. eapply getd_st; [exact H4|eapply upd_nth; eauto|].
        eapply set_elems_st; [exact H4|eapply upd_nth; eauto|]. intros w5 H5. rewrite upd_upd in H5. cbn [helems hrows hindex] in *.
        eapply (HQ _ (Xa ++ Y)); [|eapply st_perm; [|exact H5]].
        - split; [|split]; cbn [helems hrows hindex rows index elems]; auto. rewrite <- (firstn_skipn k svals). apply owns_app; auto.
        - rewrite !app_assoc. apply Permutation_app_tail, Permutation_app_comm. }
      wb. destruct (Nat.lt_ge_cases (length (elems v)) (length svals)) as [Hlt|Hge].
      * eapply copy_all_st; [exact H3| |exact N|exact HW|].
        { eapply all_in_incl; [|apply all_in_skipn; exact HI]. apply incl_appr, incl_refl. }
        intros w4 H4. eapply (HE (mkDf (rows v) (firstn (length (elems v)) svals) (index v)) _ Xa); [reflexivity|reflexivity| | |exact H4].
        -- right; right. split; [lia|reflexivity].
        -- split; [|split]; cbn [helems hrows hindex rows index elems]; auto. replace (length (elems v)) with k by (unfold k; lia). exact Ha.
      * rewrite skipn_all2 by (rewrite HL; unfold k; lia). simpl copy_all. apply wp_ret.
        apply (HW [] []); [|exact H3]. rewrite skipn_all2 by (unfold k; lia). constructor.
    + intros j es d' X' w' Hj He HD' H'. rewrite Hk in Hj. eapply (HE (mkDf (rows v) es (index v))); [reflexivity|reflexivity| |exact HD'|exact H'].
      right; left. split; [lia|]. exists j. split; [exact Hj|]. cbn [firstn app elems] in *. rewrite Nat.add_0_l in *.
      rewrite firstn_firstn, Nat.min_l in He by lia.
      destruct He as [->|(nc & nc' & E1 & E2 & ->)]; [now left|right]. exists nc, nc'. split; [|split]; auto.
      rewrite <- (firstn_skipn k svals). rewrite nth_error_app1 by (rewrite Hk; lia). exact E1.
Qed.

Lemma hdf_assign_st cap keep f s sv d v X R vs w (Q : unit -> world -> Prop) (E : exn -> world -> Prop) :
  nth_error vs f = Some (HDf d) -> dfown d v X -> st (X ++ R) vs w ->
  hrows s = rows sv -> hindex s = index sv -> all_in (helems s) (elems sv) R ->
  good (df_assign cap v sv) ->
  (forall v' d' X' w', df_assign cap v sv = Ok v' -> dfown d' v' X' -> st (X' ++ R) (upd_nat vs f (HDf d')) w' -> Q tt w') ->
  (forall v' d' X' w', assign_failed cap keep v sv v' -> dfown d' v' X' -> st (X' ++ R) (upd_nat vs f (HDf d')) w' -> E ex w') ->
  wp (hdf_assign ex thr cap keep f s) w Q E.
Proof.
  intros Hf HD H Sr Si HI G HQ HE. unfold hdf_assign. wb. eapply getd_st; [exact H|exact Hf|]. wb.
  eapply setv_st; [exact H|]. intros w1 H1. wb.
  destruct HD as (HD1 & HD2 & HD3).
  unfold df_assign in *.
  set (k := if Nat.ltb cap (length (elems sv)) then 0 else Nat.min (length (elems v)) (length (elems sv))) in *.
  assert (EK : map (fun nc => mkN (nname nc) (col_assign (ncolumn nc))) (firstn k (elems sv)) = firstn k (elems sv)).
  { erewrite map_ext; [apply map_id|]. now intros []. }
  rewrite EK in *. destruct (copy_nonnull (skipn k (elems sv))) as [[Ecp N]|Ecp]; rewrite Ecp in *; cbn [bindO good] in *; [|tauto].
  rewrite firstn_skipn in *.
  set (d1 := mkH (hrows s) (helems d) (hindex d)) in *. set (v1 := mkDf (rows sv) (elems v) (index v)).
  eapply (assign_vector_st cap f (helems s) (elems sv) d1 v1 X R); [eapply upd_nth; eauto|split; [|split]; auto|exact H1|exact HI|exact N| |].
  - intros d' X' w' HD' H'. rewrite upd_upd in H'. destruct HD' as (E1 & E2 & E3). cbn [rows index elems] in *.
    wb. eapply getd_st; [exact H'|eapply upd_nth; eauto|]. wb. apply wp_on_throw. eapply ticks_st; [exact H'| |].
    + intros w2 H2. eapply setv_st; [exact H2|]. intros w3 H3. rewrite upd_upd in H3.
      eapply (HQ (mkDf (rows sv) (elems sv) (index sv))); [reflexivity| |exact H3]. split; [|split]; auto.
    + intros w2 H2. eapply setv_st; [exact H2|]. intros w3 H3. rewrite upd_upd in H3.
      eapply (HE (mkDf (rows sv) (elems sv) (if keep then index v else []))); [| |exact H3].
      * split; [reflexivity|]. right; right; right. split; reflexivity.
      * split; [|split]; auto. simpl. now destruct keep.
  - intros v' d' X' w' E1 E2 E3 HD' H'. rewrite upd_upd in H'. eapply HE; [|exact HD'|exact H']. unfold v1 in *. cbn [rows index elems] in *.
    split; [exact E1|]. destruct E3 as [E3|[[E3 E4]|[E3 E4]]]; [left|right; left|right; right; left]; auto.
Qed.
End P.
