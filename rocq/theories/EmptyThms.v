(** * EmptyThms: proofs of the theorems of C52. *)

From Coq Require Import ZArith List Bool Lia.
From Verif Require Import Base Spec Desc Slice SliceSpec Lemmas DescProofs SliceProofs ViewProofs RunProofs ViewThms ViewThms2 EmptySpec EmptyProofs EmptySlice.
Import ListNotations.
Open Scope Z_scope.

(** ** the shortcut of contiguous arrays *)
Lemma every_then_slice_form us es : every_then_slice us = true -> Forall2 okw us es -> ~ Forall2 ok_arg us es ->
  exists f l s, es = f ++ [l] /\ us = map (fun _ => UEvery) f ++ [USlice s 0] /\ 0 <= s < W.
Proof.
  intros H Hok. revert H. induction Hok as [|u e us es Hu Hus IH]; intros H Hno; [discriminate|].
  destruct u; try discriminate.
  - destruct us; [|discriminate]. inversion Hus; subst. destruct Hu as [Hu|Hu]; [exfalso; apply Hno; constructor; auto|].
    simpl in Hu. destruct Hu as [Hu ->]. exists [], e, s. auto.
  - destruct IH as (f & l & s & -> & -> & Hs); auto. { intros C. apply Hno. constructor; auto. exact I. }
    exists (e :: f), l, s. auto.
Qed.

Lemma abs_check s l : 0 <= s < W -> 0 < l <= MAXSZ -> (w64 (w64 (s + 0) - 1) <? l) = (1 <=? s) && (s <=? l).
Proof.
  intros Hs Hl. pose proof MAXSZ_W. rewrite Z.add_0_r, (w64_small s) by lia. destruct (Z.eq_dec s 0) as [->|].
  - change (w64 (0 - 1)) with (W - 1). apply Z.ltb_ge. lia.
  - rewrite w64_small by lia. apply Bool.eq_true_iff_eq. rewrite andb_true_iff, Z.ltb_lt, !Z.leb_le. lia.
Qed.

Lemma run_every_empty chk fuel off s : 0 <= s < W -> forall g f l, f <> [] -> good_shape (f ++ g ++ [l]) ->
  exists o, run chk fuel (SEvery off (f ++ g ++ [l]) (length f)) (map (fun _ => UEvery) g ++ [USlice s 0])
    = if chk && negb ((1 <=? s) && (s <=? l)) then Abort else Ok (SRef o (f ++ g ++ [0])).
Proof.
  intros Hs. induction g as [|e g IH]; intros f l Hf Hg.
  - cbn [map app]. unfold run. cbn [foldO op_index]. unfold every_index.
    rewrite app_length. cbn [length app]. replace (S (length f) =? length f + 1)%nat with true by (symmetry; apply Nat.eqb_eq; lia).
    rewrite last_last, set_last_snoc. destruct Hg as (_ & Hp & HM). pose proof (all_le_M _ Hp HM) as Hall.
    cbn [app] in *. apply Forall_app in Hp as [_ Hp]. apply Forall_app in Hall as [_ Hall]. inv Hp. inv Hall.
    rewrite abs_check by lia. replace (l =? 0) with false by lia. eexists.
    unfold dassert. destruct (chk && negb ((1 <=? s) && (s <=? l))); reflexivity.
  - destruct (IH (f ++ [e]) l) as (o & E). { destruct f; discriminate. } { rewrite <- !app_assoc. exact Hg. }
    exists o. rewrite <- !app_assoc in E. cbn [app] in E |- *. rewrite <- E.
    cbn [map app]. unfold run at 1. cbn [foldO op_index]. unfold every_index. rewrite !app_length. cbn [length].
    rewrite app_length. cbn [length].
    replace (S (length f) =? length f + S (length g + 1))%nat with false by (symmetry; apply Nat.eqb_neq; lia).
    rewrite bindO_ok. replace (length f + 1)%nat with (S (length f)) by lia. reflexivity.
Qed.

Lemma run_ref_empty_slice chk fuel off f l s : 0 <= s < W -> good_shape (f ++ [l]) ->
  exists o, run chk fuel (SRef off (f ++ [l])) (map (fun _ => UEvery) f ++ [USlice s 0])
    = if chk && negb ((1 <=? s) && (s <=? l)) then Abort else Ok (SRef o (f ++ [0])).
Proof.
  intros Hs Hg. destruct f as [|e f].
  - cbn [map app]. unfold run. cbn [foldO op_index ref_index ref_abs]. destruct Hg as (_ & Hp & HM).
    pose proof (all_le_M _ Hp HM) as Hall. inv Hp. inv Hall. rewrite abs_check by lia. eexists.
    unfold dassert. cbn [app]. destruct (chk && negb ((1 <=? s) && (s <=? l))); reflexivity.
  - destruct (run_every_empty chk fuel off s Hs f [e] l) as (o & E); auto; try discriminate.
    exists o. cbn [app] in E |- *. rewrite <- E. cbn [map app]. unfold run at 1. cbn [foldO op_index ref_index].
    cbn [length]. rewrite app_length. cbn [length]. replace (S (length f + 1) =? 1)%nat with false by (symmetry; apply Nat.eqb_neq; lia).
    reflexivity.
Qed.

Lemma ref_bound_empty chk fuel off l s m : 0 <= s < W -> 0 <= m -> (l <= s \/ m = 0) -> 0 < l <= MAXSZ ->
  run chk fuel (SRef off [l]) [UBound s m] = run chk fuel (SRef off [l]) [USlice s 0].
Proof.
  intros Hs Hm H Hl. unfold run. cbn [foldO op_index ref_index hd]. unfold eval_bounded, bounded_index.
  replace (Z.min m (if s <? l then w64 (l - s) else 0)) with 0; auto.
  destruct (s <? l) eqn:E; [pose proof (w64_range (l - s))|]; lia.
Qed.

(** ** the slicing function *)
Lemma mk_vec_empty_abort es : (2 <= length es)%nat -> In 0 es -> mk_vec true es [] = Abort.
Proof.
  intros Hl Hin. unfold mk_vec, sd_infer. destruct es as [|e [|e2 es]]; simpl in Hl; try lia.
  rewrite dassert_abort; auto. apply not_true_is_false. rewrite forallb_forall. intros C. specialize (C 0 Hin). discriminate.
Qed.

Lemma array_slice_empty_abort fuel m es ps rs : minv m es ps -> Forall2 rweak rs es -> existsb remptyb rs = true ->
  (length es = 1%nat -> existsb is_rng rs = false) -> array_slice true fuel m rs = Abort.
Proof.
  intros Hm Hr Hem H1. pose proof Hm as (Hne & Hp & HM & He & Hmm). pose proof (all_le_M _ Hp HM) as HMs.
  pose proof (Forall2_len _ _ _ Hr) as Hlen.
  unfold array_slice. destruct (existsb is_rng rs) eqn:E.
  - destruct (last_empty _ Hem) as (front & a & back & -> & Ha & Hb).
    destruct (indirect_empty true (m_desc m) front a back) as [X|[_ X]]; rewrite ?He; auto; rewrite X; [|reflexivity].
    cbn [bindO]. assert (L : (2 <= length (map (fun _ : rarg => 0%Z) front ++ 0%Z :: map rlen back))%nat).
    { rewrite app_length. cbn [length]. rewrite !map_length. rewrite app_length in Hlen. cbn [length] in Hlen.
      destruct es as [|e [|e2 es]]; [congruence|exfalso; specialize (H1 eq_refl); congruence|]. simpl in Hlen. lia. }
    assert (I : In 0 (map (fun _ : rarg => 0) front ++ 0 :: map rlen back)) by (apply in_or_app; right; left; auto).
    destruct m; [|cbn [mapO bindO]]; apply mk_vec_empty_abort; auto.
  - unfold default_slicing. rewrite He, do_slice_empty; auto.
    destruct m as [d|d idx]; cbn [m_desc] in *.
    + destruct Hmm as (Hs & _). apply strides_ok_length in Hs. auto.
    + destruct Hmm as (-> & _). simpl. apply infer_strides_length.
Qed.

Lemma array_slice_range_1 chk fuel m e ps : minv m [e] ps -> array_slice chk fuel m [RRng []] = Ok (MVec (SD 0 [0] [1]) []).
Proof.
  intros Hm. pose proof Hm as (Hne & Hp & HM & He & Hmm). inv Hp.
  unfold array_slice. cbn [existsb is_rng orb]. unfold indirect_slicing. cbn [rev app do_ind length]. rewrite He. cbn [nth map].
  change (max_idx []) with 0. rewrite dassert_ok by lia. cbn. destruct chk, m; reflexivity.
Qed.

Lemma mk_vec_false es idx : exists d, mk_vec false es idx = Ok (MVec d idx) /\ sd_exts d = es.
Proof. unfold mk_vec, sd_infer. destruct es as [|e [|e2 es]]; cbn; eauto. Qed.

Lemma array_slice_range_false fuel m es ps front a back : minv m es ps -> Forall2 rweak (front ++ a :: back) es ->
  remptyb a = true -> existsb remptyb back = false -> existsb is_rng (front ++ a :: back) = true ->
  exists d, array_slice false fuel m (front ++ a :: back) = Ok (MVec d []) /\ sd_exts d = map (fun _ => 0) front ++ 0 :: map rlen back.
Proof.
  intros Hm Hr Ha Hb Hrg. pose proof Hm as (Hne & Hp & HM & He & Hmm). pose proof (all_le_M _ Hp HM) as HMs.
  unfold array_slice. rewrite Hrg.
  destruct (indirect_empty false (m_desc m) front a back) as [X|[C _]]; rewrite ?He; auto; [|discriminate].
  rewrite X. cbn [bindO]. destruct m; cbn [mapO bindO]; apply mk_vec_false.
Qed.


Lemma first_zero ns : In 0 ns -> all_nonneg ns -> exists f g, ns = f ++ 0 :: g /\ all_pos f.
Proof.
  induction ns as [|n ns IH]; intros Hin Hp; [destruct Hin|]. destruct (Z.eq_dec n 0) as [->|].
  - exists [], ns. split; auto. constructor.
  - inversion Hp; subst. destruct Hin as [|Hin]; [congruence|]. destruct IH as (f & g & -> & Hf); auto.
    exists (n :: f), g. split; auto. constructor; auto. lia.
Qed.

Lemma prefix_zprod f g es : Forall2 (fun n e => n <= e) (f ++ g) es -> all_pos f -> all_pos es -> zprod f <= zprod es.
Proof.
  revert es. induction f as [|n f IH]; intros es H Hf Hp.
  - pose proof (zprod_pos _ Hp). change (zprod []) with 1. lia.
  - inv H. inv Hf. inv Hp. specialize (IH _ H4 H3 H6). pose proof (zprod_pos _ H3).
    change (zprod (n :: f)) with (n * zprod f). change (zprod (y :: l')) with (y * zprod l'). nia.
Qed.

Lemma rweak_le rs es : Forall2 rweak rs es -> all_pos es -> existsb is_rng rs = false -> Forall2 (fun n e => n <= e) (map rlen rs) es.
Proof.
  induction 1 as [|r e rs es Hr Hrs IH]; intros Hp H; constructor.
  2:{ inv Hp. apply IH; auto. simpl in H. apply orb_false_iff in H. tauto. }
  pose proof (rlen_eq _ _ Hr). simpl in H. apply orb_false_iff in H as [H _]. inv Hp.
  destruct Hr as [Hr|[Hr Hr2]].
  - destruct r; simpl in Hr; try discriminate; [lia|nia].
  - unfold rlen. rewrite (rempty_len _ Hr). simpl. lia.
Qed.

Lemma rlen_nonneg rs : all_nonneg (map rlen rs).
Proof. induction rs; constructor; auto. unfold rlen. lia. Qed.
Lemma rempty_In0 rs : existsb remptyb rs = true -> In 0 (map rlen rs).
Proof.
  intros H. apply existsb_exists in H as (r & Hin & Hr). apply in_map_iff. exists r. split; auto. unfold rlen. rewrite (rempty_len _ Hr). auto.
Qed.

Lemma last_snoc_neq (f g : list Z) : g <> [] -> last (f ++ 0 :: g) 1 = last g 1.
Proof. intros Hg. destruct (exists_last Hg) as (g' & x & ->). rewrite app_comm_cons, app_assoc, !last_last. auto. Qed.

Lemma default_empty_false fuel d es rs : sd_exts d = es -> length (sd_strs d) = length es -> 0 <= sd_start d < W -> all_pos es -> zprod es <= MAXSZ ->
  Forall2 rweak rs es -> existsb remptyb rs = true -> existsb is_rng rs = false -> es <> [] -> (Z.to_nat (zprod es) < fuel)%nat ->
  exists nd, default_slicing false d rs = Ok nd /\ sd_exts nd = map rlen rs /\
    (last (map rlen rs) 1 = 0 -> sd_walk fuel nd = Ok []) /\ (last (map rlen rs) 1 <> 0 -> sd_walk fuel nd = UB).
Proof.
  intros He Hs Hst Hp HM Hr Hem Hrg Hne Hf. unfold default_slicing. rewrite He.
  destruct (do_slice_unchecked es rs Hr Hrg (sd_start d) (sd_strs d)) as (st' & ss' & E & L & R); auto.
  rewrite E. cbn [bindO]. eexists. split; [reflexivity|]. split; [reflexivity|].
  pose proof (Forall2_len _ _ _ Hr) as Hlen.
  split; intros Hl.
  - apply walk_last_empty; cbn [sd_exts sd_strs sd_start]; auto; try lia.
    + destruct rs; [discriminate|]. discriminate.
    + rewrite map_length. lia.
  - destruct (first_zero _ (rempty_In0 _ Hem) (rlen_nonneg rs)) as (f & g & Efg & Hpf).
    pose proof (rweak_le _ _ Hr Hp Hrg) as Hle. rewrite Efg in Hle.
    pose proof (prefix_zprod _ _ _ Hle Hpf Hp).
    assert (Hg : g <> []). { intros ->. rewrite Efg, last_last in Hl. congruence. }
    eapply walk_middle_empty; cbn [sd_exts]; eauto; try lia. rewrite Efg, last_snoc_neq in Hl by auto. auto.
Qed.

Lemma no_zero_back rs : ~ In 0 (map rlen rs) -> existsb remptyb rs = false.
Proof. intros H. destruct (existsb remptyb rs) eqn:E; auto. exfalso. apply H, rempty_In0, E. Qed.

Lemma rlen_zero rs es : Forall2 rweak rs es -> existsb remptyb rs = false -> ~ In 0 (map rlen rs).
Proof.
  induction 1 as [|r e rs es Hr Hrs IH]; intros E C; [destruct C|]. simpl in E. apply orb_false_iff in E as [E1 E2].
  destruct C as [C|C]; [|exact (IH E2 C)]. destruct Hr as [Hr|[Hr _]]; [|congruence]. pose proof (rok_nonempty _ _ Hr). lia.
Qed.

Lemma split_last_zero (f1 g1 f2 g2 : list Z) : f1 ++ 0 :: g1 = f2 ++ 0 :: g2 -> ~ In 0 g1 -> ~ In 0 g2 -> f1 = f2 /\ g1 = g2.
Proof.
  revert f2. induction f1 as [|x f1 IH]; intros [|y f2] E H1 H2; cbn [app] in E.
  - inv E. auto.
  - inv E. exfalso. apply H1. apply in_or_app. right. left. auto.
  - inv E. exfalso. apply H2. apply in_or_app. right. left. auto.
  - inv E. destruct (IH f2 H3 H1 H2) as [-> ->]. auto.
Qed.

Lemma result_shape_every f l s : all_pos f -> result_shape (map (fun _ => UEvery) f ++ [USlice s 0]) (f ++ [l]) = f ++ [0].
Proof.
  intros Hf. assert (A : forall f, all_pos f -> map (fun s => Z.of_nat (length s)) (sels (map (fun _ => UEvery) f ++ [USlice s 0]) (f ++ [l])) = f ++ [0]).
  { induction f0 as [|e f0 IH]; intros Hp; [reflexivity|]. inv Hp. cbn [map app sels sel]. rewrite IH by auto. f_equal. rewrite iota_length. lia. }
  rewrite <- (A f Hf). destruct f; reflexivity.
Qed.

Lemma prod_zero_positions fuel o f : positions fuel (SRef o (f ++ [0])) = Ok [].
Proof.
  cbn [positions]. unfold prod_arr. rewrite fold_left_app. cbn [fold_left].
  rewrite Z.mul_0_r. reflexivity.
Qed.
