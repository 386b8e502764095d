(** * AxisProofs: the items of any axis, and how many indices a bounded strided slice keeps. *)

From Coq Require Import ZArith List Bool Lia Permutation.
From Verif Require Import Base Spec Desc Slice SliceSpec Lemmas DescProofs SliceProofs ViewProofs RunProofs ViewThms ViewThms3 SliceLost.
Import ListNotations.
Open Scope Z_scope.

(** ** bounded strided slices, exactly *)
Lemma iota_map_inj s t n n' : 0 <= n -> 0 <= n' ->
  map (fun k => s + k * t) (iota n) = map (fun k => s + k * t) (iota n') -> n = n'.
Proof.
  intros Hn Hn' E. apply (f_equal (@length Z)) in E. rewrite !map_length, !iota_length in E. lia.
Qed.

Lemma bounded_strided_exact_l s m t d : 0 <= s -> 0 <= m -> 0 < t -> 0 <= d < W - 1 ->
  exists n n', eval_bounded_strided s m t d = Ok (s, n, t) /\
    filter (fun x => x <? d) (map (fun k => s + k * t) (iota m)) = map (fun k => s + k * t) (iota n') /\
    0 <= n /\ n' - 1 <= n <= n' /\ (n = n' <-> (s < d -> bounded_stride_ok s m t d)).
Proof.
  intros Hs Hm Ht Hd. destruct (Z_lt_dec s d) as [Hlt|Hge].
  - unfold eval_bounded_strided, bounded_index. replace (s <? d) with true by lia.
    destruct (seq_size_val s d t) as [Ev|Ev]; try lia. rewrite Ev, bindO_ok.
    eexists. exists (Z.min m ((d - s + t - 1) / t)). split; [reflexivity|]. split; [apply filter_map_below; lia|].
    unfold bounded_stride_ok. pose proof (Z.mod_pos_bound (d - s) t ltac:(lia)). pose proof (Z.div_mod (d - s) t ltac:(lia)).
    assert (Hq0 : 0 <= (d - s) / t) by (apply Z.div_pos; lia).
    set (q := (d - s) / t) in *. set (r := (d - s) mod t) in *.
    destruct (Z.eq_dec r 0) as [E0|N0].
    { replace (r =? 0) with true by lia.
      assert (E1 : (d - s + 0) / t = q) by (rewrite Z.add_0_r; reflexivity).
      assert (E2 : (d - s + t - 1) / t = q) by (symmetry; apply (Z.div_unique _ _ _ (t - 1)); lia).
      rewrite E1, E2. repeat split; try lia; auto. }
    replace (r =? 0) with false by lia.
    assert (E2 : (d - s + t - 1) / t = q + 1) by (symmetry; apply (Z.div_unique _ _ _ (r - 1)); lia).
    destruct (Z.eq_dec r (t - 1)) as [E3|N3].
    { assert (E1 : (d - s + 1) / t = q + 1) by (symmetry; apply (Z.div_unique _ _ _ 0); lia).
      rewrite E1, E2. repeat split; try lia; auto. }
    assert (E1 : (d - s + 1) / t = q) by (symmetry; apply (Z.div_unique _ _ _ (r + 1)); lia).
    rewrite E1, E2. split; [lia|]. split; [lia|]. split; intros H1; [intros _; right; right; lia|].
    destruct (H1 Hlt) as [|[|]]; lia.
  - destruct (bounded_strided_inbounds s m t d Hs Hm Ht Hd) as (n & E & Hn & _ & H).
    destruct H as [H1 H2]; [lia|]. exists n, n. rewrite H1. repeat split; auto; lia.
Qed.

(** ** any axis *)
Definition insert_at (n : nat) (k : Z) (h : list Z) : list Z := firstn n h ++ k :: skipn n h.

Lemma cart_middle front k (rest : list (list Z)) :
  cart (map iota front ++ [k] :: rest) = map (insert_at (length front) k) (cart (map iota front ++ rest)).
Proof.
  induction front as [|e front IH].
  - cbn [map app cart length]. generalize (cart rest) as l. induction l as [|h l IHl]; [reflexivity|]. cbn [flat_map map app]. rewrite IHl. reflexivity.
  - cbn [map app cart]. rewrite IH. generalize (cart (map iota front ++ rest)) as l. induction l as [|h l IHl]; [reflexivity|].
    cbn [map flat_map]. rewrite map_app. f_equal; [|exact IHl]. rewrite map_map. reflexivity.
Qed.

Lemma axis_args front k back : forall a,
  map (fun j => if (j =? a + length front)%nat then UIdx k else UEvery) (seq a (length front + S back))
  = map (fun _ : Z => UEvery) front ++ UIdx k :: map (fun _ : nat => UEvery) (seq 0 back).
Proof.
  intros a. rewrite seq_app, map_app. f_equal.
  - rewrite (map_ext_In _ (fun _ : nat => UEvery)).
    + generalize a at 1. clear. induction front as [|e front IH]; intros b; [reflexivity|]. cbn [length seq map app]. f_equal. apply IH.
    + intros j Hj. apply in_seq in Hj. replace (j =? a + length front)%nat with false; auto. symmetry. apply Nat.eqb_neq. lia.
  - cbn [seq map]. rewrite Nat.eqb_refl. f_equal.
    transitivity (map (fun _ : nat => UEvery) (seq (S (a + length front)) back)).
    + apply map_ext_In. intros j Hj. apply in_seq in Hj. replace (j =? a + length front)%nat with false; auto. symmetry. apply Nat.eqb_neq. lia.
    + generalize (S (a + length front)). generalize 0%nat. induction back; intros; [reflexivity|]. cbn [seq map]. f_equal. apply IHback.
Qed.

Lemma sels_all es : sels (map (fun _ : Z => UEvery) es) es = map iota es.
Proof. induction es; cbn; congruence. Qed.

Lemma count_units_one a b : (1 <= count_units (a ++ 1%Z :: b))%nat.
Proof. unfold count_units. rewrite filter_app, app_length. cbn. lia. Qed.

Lemma drop_units_0 l : drop_units 0 l = l.
Proof. induction l; [reflexivity|]. cbn [drop_units]. congruence. Qed.
Lemma drop_units_split a b : ~ In 1 a -> drop_units 1 (a ++ 1 :: b) = a ++ b.
Proof.
  induction a as [|e a IH]; intros Hn; cbn [app drop_units]; [apply drop_units_0|].
  replace (e =? 1) with false; [f_equal; apply IH; intros C; apply Hn; right; auto|].
  symmetry. apply Z.eqb_neq. intros ->. apply Hn. left; auto.
Qed.

Lemma all_every_kept (es : list Z) : middle_lost (map (fun _ => UEvery) es) = false.
Proof. induction es as [|e es IH]; [reflexivity|]. destruct es; [reflexivity|]. exact IH. Qed.

Lemma axis_kept b front k back : front = [] \/ back = [] ->
  loses b (map (fun _ : Z => UEvery) front ++ UIdx k :: map (fun _ : Z => UEvery) back) = false.
Proof.
  intros [-> | ->].
  - cbn [map app loses]. destruct back as [|e back]; [reflexivity|]. apply all_every_kept.
  - apply loses_true. assert (H : lost_after_every (map (fun _ : Z => UEvery) front ++ [UIdx k]) = false) by (induction front; auto).
    destruct front; [reflexivity|exact H].
Qed.

Lemma axis_lost b front k back : front <> [] -> back <> [] ->
  loses b (map (fun _ : Z => UEvery) front ++ UIdx k :: map (fun _ : Z => UEvery) back) = true.
Proof.
  intros Hf Hb. destruct front as [|e front]; [congruence|]. destruct back as [|e2 back]; [congruence|]. clear Hf Hb. cbn [map app loses].
  assert (H1 : lost_after_every (map (fun _ : Z => UEvery) front ++ UIdx k :: UEvery :: map (fun _ : Z => UEvery) back) = true) by (induction front; auto).
  assert (H2 : middle_lost (map (fun _ : Z => UEvery) front ++ UIdx k :: UEvery :: map (fun _ : Z => UEvery) back) = true).
  { clear H1. induction front as [|x front IH]; [reflexivity|]. cbn [map app middle_lost kept_by_reference orb].
    destruct (map (fun _ : Z => UEvery) front ++ UIdx k :: UEvery :: map (fun _ : Z => UEvery) back) eqn:E; [destruct front; discriminate|]. exact IH. }
  destruct b; auto.
Qed.

Lemma axis_subs (front : list Z) l back k :
  map (fun j => if (j =? length front)%nat then UIdx k else UEvery) (seq 0 (length (front ++ l :: back)))
  = map (fun _ : Z => UEvery) front ++ UIdx k :: map (fun _ : Z => UEvery) back.
Proof.
  rewrite app_length. cbn [length]. pose proof (axis_args front k (length back) 0) as A. cbn [plus] in A. rewrite A.
  do 2 f_equal. apply (map_every_seq _ back). reflexivity.
Qed.

Lemma axis_subs_ok (front : list Z) l back k : 0 <= k < l ->
  Forall2 ok_arg (map (fun _ : Z => UEvery) front ++ UIdx k :: map (fun _ : Z => UEvery) back) (front ++ l :: back).
Proof.
  intros Hk. apply Forall2_app.
  - clear. induction front; constructor; auto. exact I.
  - constructor; [simpl; lia|]. clear. induction back; constructor; auto. exact I.
Qed.

(** An axis that is neither the first nor the last one. *)
Lemma axis_middle chk fuel s front l back ps k : sinv s (front ++ l :: back, ps) -> front <> [] -> back <> [] ->
  (Z.to_nat (zprod (front ++ l :: back)) < fuel)%nat -> 0 <= k < l -> axis_at chk fuel (length front) s k = UB.
Proof.
  intros Hs Hfr Hba Hf Hk. unfold axis_at. rewrite (sinv_dims _ _ Hs). cbn [fst]. cbv zeta. rewrite axis_subs.
  rewrite (run_any_lost chk fuel s _ _ Hs); auto. 
  - apply axis_subs_ok. auto.
  - apply axis_lost; auto.
Qed.

Lemma axis_any chk fuel s front l back ps k : sinv s (front ++ l :: back, ps) -> ident s -> front ++ back <> [] ->
  front = [] \/ back = [] ->
  (Z.to_nat (zprod (front ++ l :: back)) < fuel)%nat -> 0 <= k < l ->
  exists s', axis_at chk fuel (length front) s k = Ok s' /\
    sinv s' (match front with [] => back | _ => drop_units 1 (front ++ 1 :: back) end,
             map (fun h => aview_at (front ++ l :: back, ps) (insert_at (length front) k h)) (colmajor (front ++ back))).
Proof.
  intros Hs Hid Hfne Hside Hf Hk. pose proof (sinv_good _ _ Hs) as ((Hne & Hp & HM) & Hl). cbn [fst snd] in *.
  pose proof Hp as Hp0. unfold all_pos in Hp0. rewrite Forall_app in Hp0. destruct Hp0 as [Hpf Hpl].
  apply Forall_cons_iff' in Hpl as [Hl0 Hpb].
  pose proof (zprod_pos _ Hpf) as Hzf. pose proof (zprod_pos _ Hpb) as Hzb.
  assert (Hz : zprod (front ++ l :: back) = zprod front * (l * zprod back)) by (rewrite zprod_app; reflexivity).
  rewrite Hz in HM, Hf.
  assert (Hz1 : zprod (front ++ 1 :: back) = zprod front * zprod back).
  { rewrite zprod_app. unfold zprod at 2. cbn [fold_right]. fold (zprod back). lia. }
  set (us := map (fun _ : Z => UEvery) front ++ UIdx k :: map (fun _ : Z => UEvery) back).
  assert (Eus : map (fun j => if (j =? length front)%nat then UIdx k else UEvery) (seq 0 (length (front ++ l :: back))) = us).
  { rewrite app_length. cbn [length]. pose proof (axis_args front k (length back) 0) as A. cbn [plus] in A. rewrite A.
    unfold us. do 2 f_equal. apply (map_every_seq _ back). reflexivity. }
  assert (Hsel : sels us (front ++ l :: back) = map iota front ++ [k] :: map iota back).
  { unfold us. rewrite sels_every. cbn [sels sel]. do 2 f_equal. apply sels_all. }
  assert (Hrs : result_shape us (front ++ l :: back) = match front with [] => back | _ => front ++ 1 :: back end).
  { destruct front as [|e0 front].
    - unfold us. cbn [map app result_shape]. destruct back as [|b back]; [exfalso; apply Hfne; reflexivity|].
      cbn [map]. rewrite result_shape_nonidx by reflexivity.
      change (UEvery :: map (fun _ : Z => UEvery) back) with (map (fun _ : Z => UEvery) (b :: back)).
      rewrite sels_all.
      apply lens_iota. apply all_pos_nonneg; auto.
    - unfold us. cbn [map app]. rewrite result_shape_nonidx by reflexivity.
      change (UEvery :: map (fun _ : Z => UEvery) front ++ UIdx k :: map (fun _ : Z => UEvery) back) with us.
      change (e0 :: front ++ l :: back) with ((e0 :: front) ++ l :: back). rewrite Hsel, lens_app, lens_iota by (apply all_pos_nonneg; auto).
      apply (f_equal (fun x => (e0 :: front) ++ 1 :: x)). apply lens_iota. apply all_pos_nonneg; auto. }
  assert (Hzr : zprod (result_shape us (front ++ l :: back)) = zprod front * zprod back).
  { rewrite Hrs. destruct front as [|e0 front]; [unfold zprod at 2; cbn [fold_right]; lia|exact Hz1]. }
  assert (Hn : forallb is_index us = false).
  { unfold us. destruct front; [destruct back; [exfalso; apply Hfne; reflexivity|reflexivity]|reflexivity]. }
  destruct (run_any chk fuel s (front ++ l :: back, ps) us Hs) as [R _].
  { cbn [fst]. unfold us. apply Forall2_app.
    - clear. induction front; constructor; auto. exact I.
    - constructor; [simpl; lia|]. clear. induction back; constructor; auto. exact I. }
  { apply axis_kept. auto. }
  { cbn [fst]. rewrite Hz. auto. }
  { intros _. cbn [fst]. rewrite Hzr. nia. }
  destruct (R Hn) as (s' & E & I').
  unfold aselect in I'. cbn [fst] in I'. rewrite Hrs, Hsel, cart_middle, map_map in I'.
  rewrite <- map_app in I'. fold (colmajor (front ++ back)) in I'.
  assert (Hid' : ident s').
  { apply (ident_sinv _ _ I'). eapply run_ident; [|idtac|exact E].
    - destruct s as [| | |? [?|]|]; simpl in Hid |- *; tauto.
    - unfold us. rewrite forallb_app. clear. apply andb_true_iff. split; [induction front; auto|cbn [forallb no_range andb]; induction back; auto]. }
  unfold axis_at. rewrite (sinv_dims _ _ Hs). cbn [fst]. cbv zeta. rewrite Eus, E, bindO_ok, (sinv_dims _ _ I'). cbn [fst].
  destruct front as [|e0 front].
  - exists s'. split; auto. cbn [app length]. replace (length back =? S (length back) - 1)%nat with true; auto.
    symmetry. apply Nat.eqb_eq. lia.
  - assert (HN : (length ((e0 :: front) ++ l :: back) = length ((e0 :: front) ++ back) + 1)%nat) by (rewrite !app_length; cbn [length]; lia).
    assert (HN' : (length ((e0 :: front) ++ 1%Z :: back) = length ((e0 :: front) ++ back) + 1)%nat) by (rewrite !app_length; cbn [length]; lia).
    rewrite HN, HN'. replace (length ((e0 :: front) ++ back) + 1 - 1)%nat with (length ((e0 :: front) ++ back)) by lia.
    replace (length ((e0 :: front) ++ back) + 1 =? length ((e0 :: front) ++ back))%nat with false by (symmetry; apply Nat.eqb_neq; lia).
    destruct (drop_sinv chk (length ((e0 :: front) ++ back)) s' _ I' Hid') as (s2 & E2 & _ & I2).
    { cbn [fst]. rewrite HN'. cbn [app length]. lia. }
    { cbn [fst]. rewrite HN'. pose proof (count_units_one (e0 :: front) back). lia. }
    cbn [fst snd] in I2. rewrite HN' in I2. replace (length ((e0 :: front) ++ back) + 1 - length ((e0 :: front) ++ back))%nat with 1%nat in I2 by lia.
    exists s2. split; [exact E2|exact I2].
Qed.

Lemma flat_map_map {A B C} (f : B -> list C) (g : A -> B) l : flat_map f (map g l) = flat_map (fun a => f (g a)) l.
Proof. induction l; cbn; congruence. Qed.
Lemma flat_map_flat_map {A B C} (f : B -> list C) (g : A -> list B) l : flat_map f (flat_map g l) = flat_map (fun a => flat_map f (g a)) l.
Proof. induction l; cbn; [auto|]. rewrite flat_map_app. congruence. Qed.
Lemma map_flat_map {A B C} (f : B -> C) (g : A -> list B) l : map f (flat_map g l) = flat_map (fun a => map f (g a)) l.
Proof. induction l; cbn; [auto|]. rewrite map_app. congruence. Qed.

Lemma eq_perm {A} (a b : list A) : a = b -> Permutation a b.
Proof. intros ->. apply Permutation_refl. Qed.

Lemma colmajor_insert front l back :
  Permutation (flat_map (fun k => map (insert_at (length front) k) (colmajor (front ++ back))) (iota l)) (colmajor (front ++ l :: back)).
Proof.
  induction front as [|e front IH].
  - cbn [app length]. rewrite colmajor_cons. rewrite double_loop_perm. apply eq_perm.
    apply flat_map_ext. intros h. reflexivity.
  - cbn [app length]. rewrite !colmajor_cons.
    rewrite <- (Permutation_flat_map _ IH). apply eq_perm.
    rewrite flat_map_flat_map. apply flat_map_ext. intros k. rewrite map_flat_map, flat_map_map. apply flat_map_ext. intros h.
    rewrite map_map. reflexivity.
Qed.

Lemma axis_items_l chk es steps front l back : good_shape es -> ok_steps (afull es) steps -> forallb (forallb no_range) steps = true ->
  fst (aselects (afull es) steps) = front ++ l :: back -> front ++ back <> [] ->
  exists fuel0, forall fuel, (fuel0 <= fuel)%nat -> exists s ps,
    foldO (run chk fuel) steps (SRef 0 es) = Ok s /\ dims s = Some (front ++ l :: back) /\ positions fuel s = Ok ps /\
    (front = [] \/ back = [] -> exists items,
       axis_items chk fuel (length front) s = Ok items /\
       mapO (positions fuel) items = Ok (map (fun k => map (fun h => nth (Z.to_nat (cm_pos (front ++ l :: back) (insert_at (length front) k h))) ps 0)
                                                          (colmajor (front ++ back))) (iota l)) /\
       Permutation (concat (map (fun k => map (fun h => nth (Z.to_nat (cm_pos (front ++ l :: back) (insert_at (length front) k h))) ps 0)
                                                          (colmajor (front ++ back))) (iota l))) ps /\
       (front = [] -> Forall (fun x => dims x = Some back) items) /\
       (front <> [] -> forall a b, front ++ 1 :: back = a ++ 1 :: b -> ~ In 1 a -> Forall (fun x => dims x = Some (a ++ b)) items)) /\
    (front <> [] -> back <> [] -> (forall k, 0 <= k < l -> axis_at chk fuel (length front) s k = UB) /\ axis_items chk fuel (length front) s = UB).
Proof.
  intros Hg Hok Hnr Hd Hfne. destruct (history_ok chk es steps Hg Hok) as (f0 & H). exists f0. intros fuel Hf.
  destruct (H fuel Hf) as (s & E & I & Hv). remember (aselects (afull es) steps) as v eqn:Ev. destruct v as [sh ps]. cbn [fst] in *. subst sh.
  assert (Hid : ident s). { apply (ident_sinv _ _ I). eapply runs_ident; eauto. exact Logic.I. }
  pose proof (sinv_good _ _ I) as ((Hne & Hp & HM) & Hl). cbn [fst snd] in *.
  exists s, ps. split; [auto|]. split; [apply (sinv_dims _ _ I)|]. split; [apply (sinv_positions _ _ _ I); auto|].
  split.
  2:{ intros H1 H2. assert (A : forall k, 0 <= k < l -> axis_at chk fuel (length front) s k = UB) by (intros k Hk; eapply axis_middle; eauto).
      split; [exact A|]. unfold axis_items. rewrite (sinv_dims _ _ I). cbn [fst]. rewrite app_nth2, Nat.sub_diag by lia. cbn [nth].
      assert (0 < l) by (unfold all_pos in Hp; rewrite Forall_app in Hp; destruct Hp as [_ Hp]; inv Hp; auto).
      destruct (Z.to_nat l) as [|n] eqn:El; [lia|]. cbn [seq map mapO]. change (Z.of_nat 0) with 0. rewrite A by lia. reflexivity. }
  intros Hside.
  destruct (mapO_all (axis_at chk fuel (length front) s)
     (fun k x => sinv x (match front with [] => back | _ => drop_units 1 (front ++ 1 :: back) end,
             map (fun h => aview_at (front ++ l :: back, ps) (insert_at (length front) k h)) (colmajor (front ++ back)))) (iota l)) as (items & Ei & Fi).
  { intros k Hk. apply in_iota in Hk. apply (axis_any chk fuel s front l back ps k I Hid); auto. }
  pose proof Hp as Hp0. unfold all_pos in Hp0. rewrite Forall_app in Hp0. destruct Hp0 as [Hpf Hpl].
  apply Forall_cons_iff' in Hpl as [Hl0 Hpb].
  pose proof (zprod_pos _ Hpf) as Hzf. pose proof (zprod_pos _ Hpb) as Hzb.
  assert (Hz : zprod (front ++ l :: back) = zprod front * (l * zprod back)) by (rewrite zprod_app; reflexivity).
  exists items. split.
  { unfold axis_items. rewrite (sinv_dims _ _ I). cbn [fst]. rewrite app_nth2, Nat.sub_diag by lia. exact Ei. }
  split.
  { apply Forall2_map_eq. eapply Forall2_impl; [|exact Fi]. intros a b Ib. apply (sinv_positions _ _ _ Ib). cbn [fst].
    destruct front as [|e0 front].
    - unfold zprod at 1 in Hz. unfold zprod in *. cbn [app fold_right] in *. nia.
    - rewrite drop_units_zprod, zprod_app. unfold zprod at 2. cbn [fold_right]. fold (zprod back). rewrite Hz in Hv. nia. }
  split.
  { apply perm_trans with (map (aview_at (front ++ l :: back, ps)) (colmajor (front ++ l :: back)));
      [|rewrite aview_at_colmajor; [apply Permutation_refl|apply all_pos_nonneg; auto|auto]].
    rewrite <- (Permutation_map _ (colmajor_insert front l back)).
    rewrite map_flat_map, <- flat_map_concat_map. apply eq_perm. apply flat_map_ext. intros k. rewrite map_map. reflexivity. }
  split.
  - intros ->. clear -Fi. induction Fi; constructor; auto. apply (sinv_dims _ _ H).
  - intros Hfn a b Eab Ha. assert (Ed : match front with [] => back | _ => drop_units 1 (front ++ 1 :: back) end = a ++ b).
    { destruct front; [congruence|]. rewrite Eab. apply drop_units_split. auto. }
    rewrite Ed in Fi. clear -Fi. induction Fi; constructor; auto. apply (sinv_dims _ _ H).
Qed.
