(** * ViewThms: lemmas closing the view properties (C01-C13). *)

From Coq Require Import ZArith List Bool Lia Permutation.
From Verif Require Import Base Spec Desc Slice SliceSpec Lemmas DescProofs SliceProofs ViewProofs RunProofs.
Import ListNotations.
Open Scope Z_scope.

(** ** C01 / C02 *)
Lemma desc_bijective es : es <> [] -> all_nonneg es -> zprod es < W ->
  desc_size es = zprod es /\
  (forall ix, in_range es ix -> 0 <= desc_at es ix < desc_size es) /\
  (forall ix iy, in_range es ix -> in_range es iy -> desc_at es ix = desc_at es iy -> ix = iy) /\
  (forall p, 0 <= p < desc_size es -> exists ix, in_range es ix /\ desc_at es ix = p).
Proof.
  intros Hne Hn HW. assert (Hsz : desc_size es = zprod es) by (apply prod_arr_small; auto).
  assert (Hat : forall ix, in_range es ix -> desc_at es ix = cm_pos es ix) by (intros; apply desc_at_ok; auto; lia).
  split; [auto|]. rewrite Hsz. split; [|split].
  - intros ix H. rewrite Hat by auto. apply cm_pos_range; auto.
  - intros ix iy H H'. rewrite !Hat by auto. apply cm_pos_inj; auto.
  - intros p Hp. assert (In p (map (cm_pos es) (colmajor es))) by (rewrite cm_pos_colmajor by auto; apply in_iota; auto).
    apply in_map_iff in H as (ix & E & Hix). apply in_colmajor in Hix. exists ix. split; auto. rewrite Hat; auto.
Qed.

Lemma digits_range es k : all_pos es -> 0 <= k -> in_range es (digits es k).
Proof.
  intros H. revert k. induction H; intros k Hk; simpl; constructor.
  - apply Z.mod_pos_bound; auto.
  - apply IHForall. apply Z.div_pos; auto.
Qed.
Lemma digits_pos es k : all_pos es -> 0 <= k < zprod es -> cm_pos es (digits es k) = k.
Proof.
  intros H. revert k. induction H as [|e es He Hp IH]; intros k Hk; unfold zprod in *; simpl in *.
  - lia.
  - rewrite IH.
    + pose proof (Z.div_mod k e ltac:(lia)). lia.
    + split; [apply Z.div_pos; lia|]. apply Z.div_lt_upper_bound; lia.
Qed.
Lemma colmajor_digits es : all_pos es -> colmajor es = map (digits es) (iota (zprod es)).
Proof.
  intros Hp. rewrite <- cm_pos_colmajor by (apply all_pos_nonneg; auto). rewrite map_map.
  rewrite <- (map_id (colmajor es)) at 1. apply map_ext_In. intros ix Hix. apply in_colmajor in Hix.
  pose proof (cm_pos_range _ _ Hix). apply (cm_pos_inj es).
  - auto. - apply digits_range; auto; lia. - symmetry. apply digits_pos; auto.
Qed.

Lemma ref_iteration fuel off es : es <> [] -> all_pos es -> zprod es < W ->
  positions fuel (SRef off es) = Ok (map (fun k => off + desc_at es (digits es k)) (iota (zprod es))).
Proof.
  intros Hne Hp HW. simpl. rewrite prod_arr_small by (auto using all_pos_nonneg).
  f_equal. unfold iota at 1. rewrite map_map. apply map_ext_In. intros i Hi.
  apply in_seq in Hi. rewrite desc_at_ok; auto; [|apply digits_range; auto; lia|lia].
  rewrite digits_pos by (auto; lia). reflexivity.
Qed.

(** ** C03 *)
Lemma walk_digits fuel d : sd_exts d <> [] -> all_pos (sd_exts d) -> length (sd_strs d) = length (sd_exts d) ->
  0 <= sd_start d < W -> zprod (sd_exts d) < W ->
  (forall e s, sd_exts d = [e] -> sd_strs d = [s] -> 0 < s /\ s * e < W) ->
  (Z.to_nat (zprod (sd_exts d)) < fuel)%nat ->
  sd_walk fuel d = Ok (map (fun k => sd_at d (digits (sd_exts d) k)) (iota (zprod (sd_exts d)))).
Proof.
  intros Hne Hp Hl Hst HW H1 Hf. rewrite <- (map_map (digits (sd_exts d)) (sd_at d)), <- colmajor_digits by auto.
  destruct d as [start es ss]; cbn [sd_exts sd_strs sd_start] in *.
  destruct es as [|e [|e2 es]]; [congruence| |].
  - destruct ss as [|s [|? ?]]; try discriminate. destruct (H1 e s eq_refl eq_refl).
    unfold zprod in Hf; simpl in Hf. inv Hp. apply sd_walk_1; auto; try lia.
  - apply sd_walk_N; cbn [sd_exts]; auto. simpl. lia.
Qed.

(** Not before: with at most [size] loop tests the walk has not reached the end. *)
Lemma walk_timeout d it fuel ps : sd_walk_from fuel d it = Ok ps -> forall f, (f <= length ps)%nat -> sd_walk_from f d it = Timeout.
Proof.
  revert it ps. induction fuel as [|fuel IH]; intros it ps H f Hf; [discriminate|].
  cbn [sd_walk_from] in H. destruct f as [|f]; [reflexivity|]. cbn [sd_walk_from].
  destruct (it_eqb it (sd_end d)). { inv H. simpl in Hf. lia. }
  apply bindO_Ok_inv in H as (it' & E1 & H). apply bindO_Ok_inv in H as (r & E2 & H). inv H.
  rewrite E1, bindO_ok. rewrite (IH it' r E2 f); [reflexivity|]. simpl in Hf. lia.
Qed.

(** ** reachable views *)
Lemma sinv_full es : good_shape es -> sinv (SRef 0 es) (afull es).
Proof.
  intros H. simpl. split; [auto|]. split; [auto|]. rewrite <- (map_id (iota (zprod es))) at 1. apply map_ext. intros; lia.
Qed.

Lemma history_ok chk es steps : good_shape es -> ok_steps (afull es) steps ->
  exists fuel0, forall fuel, (fuel0 <= fuel)%nat -> exists s,
    foldO (run chk fuel) steps (SRef 0 es) = Ok s /\ sinv s (aselects (afull es) steps) /\
    (Z.to_nat (zprod (fst (aselects (afull es) steps))) < fuel)%nat.
Proof.
  intros Hg Hok. exists (Nat.max (steps_fuel (afull es) steps) (S (Z.to_nat (zprod (fst (aselects (afull es) steps)))))).
  intros fuel Hf. destruct (runs_any chk steps fuel _ _ (sinv_full es Hg) Hok) as (s & E & I); [lia|].
  exists s. split; [auto|]. split; [auto|]. lia.
Qed.

Lemma ok_steps_snoc v steps us : ok_steps v (steps ++ [us]) <->
  ok_steps v steps /\ ok_step (aselects v steps) us /\ loses true us = false.
Proof. revert v. induction steps; intros v; simpl; [tauto|]. rewrite IHsteps. tauto. Qed.

Lemma aview_pair (v : aview) : (fst v, snd v) = v. Proof. destruct v; auto. Qed.

Lemma slice_denotes chk es steps us : good_shape es -> ok_steps (afull es) (steps ++ [us]) ->
  exists fuel0, forall fuel, (fuel0 <= fuel)%nat -> exists s shape ps s',
    foldO (run chk fuel) steps (SRef 0 es) = Ok s /\ dims s = Some shape /\ positions fuel s = Ok ps /\
    run chk fuel s us = Ok s' /\ dims s' = Some (result_shape us shape) /\
    positions fuel s' = Ok (map (aview_at (shape, ps)) (cart (sels us shape))) /\
    (forall ix, In ix (cart (sels us shape)) -> in_range shape ix) /\
    Z.of_nat (length ps) = zprod shape /\
    aselects (afull es) steps = (shape, ps).
Proof.
  intros Hg Hok. apply ok_steps_snoc in Hok as (Hok & (Ha & Hn & HM) & Het).
  set (v := aselects (afull es) steps) in *.
  destruct (history_ok chk es steps Hg Hok) as (f0 & H). fold v in H.
  exists (Nat.max f0 (S (Z.to_nat (zprod (result_shape us (fst v)))))). intros fuel Hf.
  destruct (H fuel) as (s & E & I & Hv); [lia|].
  pose proof (sinv_good _ _ I) as ((Hne & Hp & HMv) & Hl).
  destruct (run_any chk fuel s v us I Ha (loses_true _ _ Het) Hv) as [R _]; [intros; split; [auto|lia]|].
  destruct (R Hn) as (s' & E' & I').
  exists s, (fst v), (snd v), s'.
  split; [auto|]. split; [apply sinv_dims; auto|]. split; [apply sinv_positions; auto|]. split; [auto|].
  split; [apply (sinv_dims _ _ I')|]. split.
  - rewrite (sinv_positions _ _ _ I') by (simpl; lia). rewrite aview_pair. reflexivity.
  - split; [|split; [auto|symmetry; apply aview_pair]].
    intros ix. apply cart_sels_range; auto. apply all_le_M; auto.
Qed.

Lemma aview_at_In shape ps ix : in_range shape ix -> Z.of_nat (length ps) = zprod shape -> In (aview_at (shape, ps) ix) ps.
Proof.
  intros H Hl. unfold aview_at. simpl. apply nth_In. pose proof (cm_pos_range _ _ H). lia.
Qed.

(** coordinates of the selected elements *)
Lemma sel_nth u e k : ok_arg u e -> 0 < e <= MAXSZ -> 0 <= k < Z.of_nat (length (sel u e)) -> nth (Z.to_nat k) (sel u e) 0 = src_coord u k.
Proof.
  intros Hok He Hk.
  destruct (resolve_ok u e Hok He) as (r & E & Hr & Hs & _). rewrite <- Hs in *.
  destruct u; simpl in E |- *.
  - inv E. simpl in *. assert (k = 0) by lia. subst. reflexivity.
  - inv E. simpl in *. rewrite map_length, iota_length in Hk.
    rewrite nth_indep with (d' := (fun k => s + k * 1) 0) by (rewrite map_length, iota_length; lia).
    rewrite (map_nth (fun k => s + k * 1)), iota_nth by lia. lia.
  - inv E. simpl in *. rewrite map_length, iota_length in Hk.
    rewrite nth_indep with (d' := (fun k => s + k * t) 0) by (rewrite map_length, iota_length; lia).
    rewrite (map_nth (fun k => s + k * t)), iota_nth by lia. rewrite Z2Nat.id by lia. lia.
  - inv E. simpl in *. rewrite map_length, iota_length in Hk.
    rewrite nth_indep with (d' := (fun k => 0 + k * 1) 0) by (rewrite map_length, iota_length; lia).
    rewrite (map_nth (fun k => 0 + k * 1)), iota_nth by lia. lia.
  - inv E. simpl in *. rewrite map_length, iota_length in Hk.
    match goal with |- nth _ (map (fun k => s + k * 1) ?l) _ = _ =>
      rewrite nth_indep with (d' := (fun k => s + k * 1) 0) by (rewrite map_length, iota_length; lia) end.
    rewrite (map_nth (fun k => s + k * 1)), iota_nth by lia. lia.
  - apply bindO_Ok_inv in E as ([[s' n] t'] & E1 & E). inv E.
    unfold eval_bounded_strided in E1. apply bindO_Ok_inv in E1 as (c & _ & E1). inv E1.
    simpl in *. rewrite map_length, iota_length in Hk.
    rewrite nth_indep with (d' := (fun k => s' + k * t') 0) by (rewrite map_length, iota_length; lia).
    rewrite (map_nth (fun k => s' + k * t')), iota_nth by lia. rewrite Z2Nat.id by lia. lia.
  - inv E. reflexivity.
Qed.

Lemma pick_src us es ix : Forall2 ok_arg us es -> all_pos es -> Forall (fun e => e <= MAXSZ) es ->
  in_range (lens (sels us es)) ix -> pick (sels us es) ix = src_index us ix.
Proof.
  intros H. revert ix. induction H as [|u e us es Hok _ IH]; intros ix Hp HM Hix; simpl in *.
  - inv Hix. reflexivity.
  - inversion Hix as [|? k ? ix' Hk Hix']; subst. apply Forall_cons_iff' in Hp as [Hp1 Hp2]. apply Forall_cons_iff' in HM as [HM1 HM2].
    cbn [src_index]. rewrite (sel_nth u e k) by (auto; lia). f_equal. apply IH; auto.
Qed.

Lemma lens_sels_nonneg ss : all_nonneg (lens ss).
Proof. unfold lens, all_nonneg. induction ss; simpl; constructor; auto; lia. Qed.

Lemma aview_select_at shape ps ss ix : in_range (lens ss) ix ->
  aview_at (lens ss, map (aview_at (shape, ps)) (cart ss)) ix = aview_at (shape, ps) (pick ss ix).
Proof.
  intros H. rewrite cart_pick, map_map.
  apply (aview_at_map (lens ss) (fun ix => aview_at (shape, ps) (pick ss ix)) ix); auto. apply lens_sels_nonneg.
Qed.

Lemma slice_elementwise chk es steps u us : good_shape es -> ok_steps (afull es) (steps ++ [u :: us]) -> is_index u = false ->
  exists fuel0, forall fuel, (fuel0 <= fuel)%nat -> exists s shape ps s' shape' ps',
    foldO (run chk fuel) steps (SRef 0 es) = Ok s /\ dims s = Some shape /\ positions fuel s = Ok ps /\
    run chk fuel s (u :: us) = Ok s' /\ dims s' = Some shape' /\ positions fuel s' = Ok ps' /\
    length shape' = length shape /\
    (forall ix, in_range shape' ix ->
       in_range shape (src_index (u :: us) ix) /\
       nth (Z.to_nat (cm_pos shape' ix)) ps' 0 = nth (Z.to_nat (cm_pos shape (src_index (u :: us) ix))) ps 0).
Proof.
  intros Hg Hok Hni. destruct (slice_denotes chk es steps (u :: us) Hg Hok) as (f0 & H).
  exists f0. intros fuel Hf. destruct (H fuel Hf) as (s & shape & ps & s' & H1 & H2 & H3 & H4 & H5 & H6 & H7 & H8 & H9).
  apply ok_steps_snoc in Hok as (Hok & (Ha & Hn & HM) & Het). rewrite H9 in Ha, HM. cbn [fst] in Ha, HM.
  assert (Hgs : good_shape shape).
  { destruct (history_ok chk es steps Hg Hok) as (f1 & Hh). destruct (Hh f1 (le_n _)) as (s1 & _ & I & _).
    apply sinv_good in I as [I _]. rewrite H9 in I. exact I. }
  destruct Hgs as (Hsne & Hsp & HsM).
  destruct shape as [|e shape]; [congruence|].
  exists s, (e :: shape), ps, s', (lens (sels (u :: us) (e :: shape))), (map (aview_at (e :: shape, ps)) (cart (sels (u :: us) (e :: shape)))).
  rewrite result_shape_nonidx in H5 by auto. repeat (split; [assumption|]). split.
  - unfold lens. rewrite map_length, sels_length; auto. apply Forall2_len in Ha. auto.
  - intros ix Hix. rewrite <- (pick_src (u :: us) (e :: shape)); auto.
    + split.
      * apply H7. apply pick_in; auto.
      * apply (aview_select_at (e :: shape) ps (sels (u :: us) (e :: shape)) ix Hix).
    + apply all_le_M; auto.
Qed.

(** ** C05: composition *)
Fixpoint zip_nth (ss ts : list (list Z)) : list (list Z) :=
  match ss, ts with
  | s :: ss', t :: ts' => map (fun j => nth (Z.to_nat j) s 0) t :: zip_nth ss' ts'
  | _, _ => []
  end.

Lemma map_pick_cart ss ts : length ss = length ts -> map (pick ss) (cart ts) = cart (zip_nth ss ts).
Proof.
  revert ts. induction ss as [|s ss IH]; intros [|t ts] H; try discriminate; [reflexivity|].
  simpl in H. cbn [cart zip_nth]. rewrite <- IH by lia. clear IH.
  induction (cart ts) as [|h l IHl]; [reflexivity|]. cbn [flat_map map]. rewrite map_app, IHl. f_equal.
  rewrite !map_map. reflexivity.
Qed.

Lemma compose_indices p q : Forall (fun j => 0 <= j < Z.of_nat (length (indices p))) (indices q) ->
  map (fun j => nth (Z.to_nat j) (indices p) 0) (indices q) = indices (compose p q).
Proof.
  destruct p as [[s1 n1] t1], q as [[s2 n2] t2]. cbn [indices compose]. intros H. rewrite map_map. apply map_ext_In. intros k Hk.
  rewrite Forall_forall in H. specialize (H (s2 + k * t2) (in_map (fun k => s2 + k * t2) _ _ Hk)). rewrite map_length, iota_length in H.
  rewrite nth_indep with (d' := (fun k => s1 + k * t1) 0) by (rewrite map_length, iota_length; lia).
  rewrite (map_nth (fun k => s1 + k * t1)), iota_nth by lia. rewrite Z2Nat.id by lia. ring.
Qed.

Lemma compose_zip : forall ps qs, Forall2 (fun q p => Forall (fun j => 0 <= j < Z.of_nat (length (indices p))) (indices q)) qs ps ->
  zip_nth (map indices ps) (map indices qs) = map indices (compose_all ps qs).
Proof. induction 1; [reflexivity|]. cbn [map zip_nth compose_all]. rewrite compose_indices by auto. f_equal; auto. Qed.

Lemma lens_zip : forall ss ts, length ss = length ts -> lens (zip_nth ss ts) = lens ts.
Proof. induction ss as [|s ss IH]; intros [|t ts] H; try discriminate; [reflexivity|]. simpl in *. f_equal; [rewrite map_length; auto|]. apply IH; lia. Qed.

Lemma result_shape_lens us es : match us with UIdx _ :: _ => False | _ => True end -> result_shape us es = lens (sels us es).
Proof. destruct us as [|[] us]; intros H; try tauto; destruct es; reflexivity. Qed.

Lemma aselect_compose v us vs ws ps qs : all_pos (fst v) -> Forall (fun e => e <= MAXSZ) (fst v) -> good_shape (fst (aselect v us)) ->
  Forall2 ok_arg us (fst v) -> Forall2 ok_arg vs (fst (aselect v us)) ->
  selects us (fst v) ps -> selects vs (fst (aselect v us)) qs -> selects ws (fst v) (compose_all ps qs) ->
  aselect (aselect v us) vs = aselect v ws.
Proof.
  intros Hp HM (Hne & Hp1 & HM1) H1 H2 (S1 & N1) (S2 & N2) (S3 & N3).
  assert (HMs := all_le_M _ Hp1 HM1).
  assert (Hr := sels_range _ _ H2 Hp1 HMs). rewrite S2 in Hr.
  change (fst (aselect v us)) with (result_shape us (fst v)) in *. rewrite (result_shape_lens us) in * by auto.
  assert (Z : zip_nth (map indices ps) (map indices qs) = map indices (compose_all ps qs)).
  { apply compose_zip. rewrite S1 in Hr. clear -Hr. revert ps Hr. induction qs as [|q qs IH]; intros [|p ps] H; inversion H; subst; constructor; auto. }
  assert (Hlen : length (map indices ps) = length (map indices qs)).
  { apply Forall2_len in Hr. rewrite S1 in Hr. unfold lens in Hr. rewrite !map_length in *. lia. }
  apply injective_projections.
  - change (result_shape vs (result_shape us (fst v)) = result_shape ws (fst v)).
    rewrite (result_shape_lens us), (result_shape_lens vs), (result_shape_lens ws) by auto. rewrite S2, S3, <- Z. symmetry. apply lens_zip; auto.
  - change (map (aview_at (aselect v us)) (cart (sels vs (result_shape us (fst v)))) = map (aview_at v) (cart (sels ws (fst v)))).
    rewrite (result_shape_lens us) by auto. rewrite S2, S3, <- Z. rewrite <- map_pick_cart by auto.
    rewrite map_map. apply map_ext_In. intros ix Hix. unfold aselect. rewrite (result_shape_lens us) by auto.
    rewrite <- (aview_pair v) at 2 3. rewrite aview_select_at; [rewrite aview_pair, S1; reflexivity|].
    revert Hix. apply cart_in_range. exact Hr.
Qed.

Lemma slices_compose chk es steps us vs ws ps qs : good_shape es ->
  ok_steps (afull es) (steps ++ [us; vs]) -> ok_steps (afull es) (steps ++ [ws]) ->
  selects us (fst (aselects (afull es) steps)) ps -> selects vs (fst (aselects (afull es) (steps ++ [us]))) qs ->
  selects ws (fst (aselects (afull es) steps)) (compose_all ps qs) ->
  exists fuel0, forall fuel, (fuel0 <= fuel)%nat -> exists s s1 s2 s12 shape pos,
    foldO (run chk fuel) steps (SRef 0 es) = Ok s /\
    run chk fuel s us = Ok s1 /\ run chk fuel s1 vs = Ok s2 /\ run chk fuel s ws = Ok s12 /\
    dims s2 = Some shape /\ dims s12 = Some shape /\
    positions fuel s2 = Ok pos /\ positions fuel s12 = Ok pos.
Proof.
  intros Hg Hok Hokw S1 S2 S3. change [us; vs] with ([us] ++ [vs]) in Hok.
  rewrite app_assoc in Hok. apply ok_steps_snoc in Hok as (Hok & (Ha2 & Hn2 & HM2) & Hl2).
  apply ok_steps_snoc in Hok as (Hok & (Ha1 & Hn1 & HM1) & Hl1).
  apply ok_steps_snoc in Hokw as (_ & (Ha3 & Hn3 & HM3) & Hl3).
  rewrite aselects_last in Ha2, HM2, S2. set (v := aselects (afull es) steps) in *.
  destruct (history_ok chk es steps Hg Hok) as (f0 & H). fold v in H.
  exists (Nat.max f0 (Nat.max (S (Z.to_nat (zprod (fst (aselect v us))))) (Nat.max (S (Z.to_nat (zprod (fst (aselect (aselect v us) vs)))))
     (S (Z.to_nat (zprod (fst (aselect v ws)))))))).
  intros fuel Hf. destruct (H fuel) as (s & E & I & Hv); [lia|].
  pose proof (sinv_good _ _ I) as ((Hne & Hp & HMv) & Hl). pose proof (all_le_M _ Hp HMv) as HMs.
  destruct (run_any chk fuel s v us I Ha1 (loses_true _ _ Hl1) Hv) as [R1 _]; [intros; split; [auto|unfold aselect in Hf; cbn [fst] in Hf; lia]|].
  destruct (R1 Hn1) as (s1 & E1 & I1).
  destruct (run_any chk fuel s1 _ vs I1 Ha2 (loses_true _ _ Hl2)) as [R2 _]; [lia|intros; split; [auto|unfold aselect in Hf; cbn [fst] in Hf; unfold aselect; cbn [fst]; lia]|].
  destruct (R2 Hn2) as (s2 & E2 & I2).
  destruct (run_any chk fuel s v ws I Ha3 (loses_true _ _ Hl3) Hv) as [R3 _]; [intros; split; [auto|unfold aselect in Hf; cbn [fst] in Hf; lia]|].
  destruct (R3 Hn3) as (s12 & E12 & I12).
  assert (Hcomp := aselect_compose v us vs ws ps qs Hp HMs (proj1 (sinv_good _ _ I1)) Ha1 Ha2 S1 S2 S3). rewrite <- Hcomp in I12.
  exists s, s1, s2, s12, (fst (aselect (aselect v us) vs)), (snd (aselect (aselect v us) vs)).
  repeat (split; [assumption|]). split; [apply sinv_dims; auto|]. split; [apply sinv_dims; auto|].
  split; apply sinv_positions; auto; lia.
Qed.

(** ** C08 *)
Lemma index_chain chk es steps : good_shape es -> ok_steps (afull es) steps ->
  exists fuel0, forall fuel, (fuel0 <= fuel)%nat -> exists s shape ps,
    foldO (run chk fuel) steps (SRef 0 es) = Ok s /\ dims s = Some shape /\ positions fuel s = Ok ps /\
    (forall ix, in_range shape ix -> run chk fuel s (map UIdx ix) = Ok (SElem (nth (Z.to_nat (cm_pos shape ix)) ps 0))).
Proof.
  intros Hg Hok. destruct (history_ok chk es steps Hg Hok) as (f0 & H). exists f0. intros fuel Hf.
  destruct (H fuel Hf) as (s & E & I & Hv). set (v := aselects (afull es) steps) in *.
  exists s, (fst v), (snd v). split; [auto|]. split; [apply sinv_dims; auto|]. split; [apply sinv_positions; auto|].
  intros ix Hix.
  assert (Hall : Forall2 ok_arg (map UIdx ix) (fst v)).
  { clear -Hix. induction Hix; simpl; constructor; auto. }
  destruct (run_any chk fuel s v (map UIdx ix) I Hall) as [_ R]; auto.
  - generalize (contiguous s). clear. induction ix; intros b; simpl; auto.
  - assert (Ht : forallb is_index (map UIdx ix) = true) by (clear; induction ix; auto). rewrite Ht. discriminate.
  - apply (R ix eq_refl).
Qed.

Lemma partial_index chk es steps e shape ps i us :
  good_shape es -> ok_steps (afull es) (steps ++ [UIdx i :: us]) ->
  aselects (afull es) steps = (e :: shape, ps) -> us = map (fun _ => UEvery) shape ->
  exists fuel0, forall fuel, (fuel0 <= fuel)%nat -> exists s s' ps',
    foldO (run chk fuel) steps (SRef 0 es) = Ok s /\ run chk fuel s (UIdx i :: us) = Ok s' /\
    dims s' = Some shape /\ positions fuel s' = Ok ps' /\
    forall ix, in_range shape ix -> nth (Z.to_nat (cm_pos shape ix)) ps' 0 = nth (Z.to_nat (cm_pos (e :: shape) (i :: ix))) ps 0.
Proof.
  intros Hg Hok Hv ->. destruct (slice_denotes chk es steps _ Hg Hok) as (f0 & H). exists f0. intros fuel Hf.
  destruct (H fuel Hf) as (s & sh & ps0 & s' & H1 & H2 & H3 & H4 & H5 & H6 & H7 & H8 & H9).
  rewrite Hv in H9. inv H9.
  assert (Hnn : all_nonneg shape).
  { apply ok_steps_snoc in Hok as (Hok & _). destruct (history_ok chk es steps Hg Hok) as (f1 & Hh).
    destruct (Hh f1 (le_n _)) as (s1 & _ & I & _). apply sinv_good in I as [(_ & I & _) _]. rewrite Hv in I. inv I.
    apply all_pos_nonneg; auto. }
  assert (Es : sels (map (fun _ => UEvery) shape) shape = map iota shape) by (clear; induction shape; simpl; congruence).
  assert (Er : result_shape (map (fun _ => UEvery) shape) shape = shape).
  { destruct shape; [reflexivity|]. cbn [map]. rewrite result_shape_nonidx by reflexivity.
    change (UEvery :: map (fun _ => UEvery) shape) with (map (fun _ : Z => UEvery) (z :: shape)).
    rewrite Es. apply lens_iota; auto. }
  exists s, s', (map (aview_at (e :: shape, ps0)) (cart (sels (UIdx i :: map (fun _ => UEvery) shape) (e :: shape)))).
  split; [auto|]. split; [auto|]. split; [rewrite H5; cbn [result_shape]; rewrite Er; reflexivity|]. split; [auto|].
  intros ix Hix. cbn [sels sel]. rewrite Es. cbn [cart]. fold (colmajor shape).
  replace (flat_map (fun tl => map (fun i0 => i0 :: tl) [i]) (colmajor shape)) with (map (cons i) (colmajor shape)).
  2:{ generalize (colmajor shape) as l. induction l as [|h l IHl]; [reflexivity|]. cbn [map flat_map app]. rewrite IHl. reflexivity. }
  rewrite map_map. apply (aview_at_map shape (fun ix => aview_at (e :: shape, ps0) (i :: ix)) ix); auto.
Qed.

(** ** C09 *)
Lemma every_shortcut chk fuel off es us : good_shape es -> Forall2 ok_arg us es -> loses true us = false ->
  forallb is_index us = false -> zprod (result_shape us es) <= MAXSZ ->
  (Z.to_nat (zprod es) < fuel)%nat -> (Z.to_nat (zprod (result_shape us es)) < fuel)%nat ->
  exists s1 s2, run chk fuel (SRef off es) us = Ok s1 /\
    run chk fuel (SView off (MId (SD 0 es (infer_strides 1 es)))) us = Ok s2 /\
    dims s1 = Some (result_shape us es) /\ dims s2 = Some (result_shape us es) /\
    exists ps, positions fuel s1 = Ok ps /\ positions fuel s2 = Ok ps.
Proof.
  intros Hg Hok Het Hn HM Hf1 Hf2. pose proof Hg as (Hne & Hp & HMe).
  destruct (run_ref chk fuel off es us Hg Hok Het Hf1 ltac:(auto)) as [R1 _]. destruct (R1 Hn) as (s1 & E1 & I1).
  destruct (run_view chk fuel off us _ es _ (minv_infer es Hne Hp HMe) Hok (loses_true _ false Het) Hf1 ltac:(auto)) as [R2 _].
  destruct (R2 Hn) as (s2 & E2 & I2).
  exists s1, s2. split; [auto|]. split; [auto|]. split; [apply (sinv_dims _ _ I1)|]. split; [apply (sinv_dims _ _ I2)|].
  eexists. split; [apply (sinv_positions _ _ _ I1); auto|apply (sinv_positions _ _ _ I2); auto].
Qed.
