(** * SliceLost: chains of subscripts that lose one of them. *)

From Coq Require Import ZArith List Bool Lia.
From Verif Require Import Base Spec Desc Slice SliceSpec Lemmas DescProofs SliceProofs ViewProofs RunProofs ViewThms ViewThms2.
Import ListNotations.
Open Scope Z_scope.

Lemma run_proxy_lost chk fuel off m us : forall args,
  (length args + length us = length (sd_exts (m_desc m)))%nat ->
  Forall2 (fun u e => exists r, resolve u e = Ok r) us (skipn (length args) (sd_exts (m_desc m))) ->
  middle_lost us = true -> run chk fuel (SProxy off m args) us = UB.
Proof.
  induction us as [|u us IH]; intros args Hl Hr Hlost; [discriminate|]. set (es := sd_exts (m_desc m)) in *.
  destruct us as [|u2 us]; [discriminate|]. cbn [length] in Hl.
  destruct (skipn (length args) es) as [|e rest] eqn:Esk; [inversion Hr|].
  assert (Hnth : nth (length args) es 0 = e).
  { rewrite <- (firstn_skipn (length args) es), Esk, app_nth2; rewrite firstn_length_le; try lia.
    rewrite Nat.sub_diag. reflexivity. }
  apply Forall2_cons_inv in Hr as [(r & Hr1) Hr2].
  unfold run. cbn [foldO op_index]. unfold proxy_index. fold es. rewrite Hnth, Hr1, bindO_ok. unfold proxy_at. fold es.
  replace (S (length args) =? length es)%nat with false by (symmetry; apply Nat.eqb_neq; lia).
  change (by_name u) with (kept_by_reference u). change (kept_by_reference u || middle_lost (u2 :: us) = true) in Hlost.
  destruct (kept_by_reference u); [reflexivity|]. rewrite bindO_ok. cbn [orb] in Hlost.
  apply (IH (args ++ [r])); auto; rewrite app_length; cbn [length]; [cbn [length] in *; fold es; lia|].
  fold es. replace (skipn (length args + 1) es) with rest; auto. rewrite Nat.add_1_r.
  clear -Esk. revert Esk. generalize (length args) as k. induction es; intros k E; destruct k; simpl in *; try congruence. auto.
Qed.

Lemma resolves us es : Forall2 ok_arg us es -> all_pos es -> Forall (fun e => e <= MAXSZ) es -> Forall2 (fun u e => exists r, resolve u e = Ok r) us es.
Proof.
  induction 1; intros Hp HM; constructor; apply Forall_cons_iff' in HM as [HM1 HM2]; apply Forall_cons_iff' in Hp as [Hp1 Hp2]; auto.
  destruct (resolve_ok x y H) as (r & E & _); eauto.
Qed.

(** Generic route: the first dimensions whole, then the given subscripts. *)
Lemma run_generic_lost chk fuel off m named f g ps u us : minv m (f ++ g) ps ->
  Forall2 ok_arg (u :: us) g -> us <> [] -> (forall r, resolve u (hd 0 g) = Ok r -> named r = true) \/ middle_lost us = true ->
  (let* s' := (let* r := resolve u (hd 0 g) in
      proxy_at chk fuel off m (map (fun e => RSl 0 e 1) f) (named r) r) in foldO (op_index chk fuel) us s') = UB.
Proof.
  intros Hm Hok Hus Hl. pose proof Hm as (Hne & Hp & HMe & He & _). pose proof (all_le_M _ Hp HMe) as HMs.
  apply Forall_app in HMs as [_ HMs]. unfold all_pos in Hp. apply Forall_app in Hp as [_ Hp].
  destruct g as [|e g]; [inversion Hok|]. pose proof (resolves _ _ Hok Hp HMs) as Hr. apply Forall2_cons_inv in Hr as [(r & Er) Hr].
  cbn [hd] in *. rewrite Er, bindO_ok. assert (Hl' := Forall2_len _ _ _ Hr).
  unfold proxy_at. rewrite He, map_length, app_length. cbn [length]. destruct us as [|u2 us]; [congruence|]. cbn [length] in Hl'.
  replace (S (length f) =? length f + S (length g))%nat with false by (symmetry; apply Nat.eqb_neq; lia).
  destruct (named r) eqn:En; [reflexivity|]. destruct Hl as [Hl|Hl]; [rewrite (Hl r Er) in En; discriminate|].
  rewrite bindO_ok. match goal with |- foldO (op_index chk fuel) ?l ?x = UB => change (run chk fuel x l = UB) end. apply run_proxy_lost; rewrite ?app_length, ?map_length, ?He, ?app_length; cbn [length]; auto; try lia.
  replace (skipn (length f + 1) (f ++ e :: g)) with g; auto.
  rewrite skipn_app, skipn_all2 by lia. replace (length f + 1 - length f)%nat with 1%nat by lia. reflexivity.
Qed.

Lemma run_view_lost chk fuel off us : forall m es ps,
  minv m es ps -> Forall2 ok_arg us es -> loses false us = true -> (Z.to_nat (zprod es) < fuel)%nat ->
  run chk fuel (SView off m) us = UB.
Proof.
  induction us as [|u us IH]; intros m es ps Hm Hok Hlost Hf; [discriminate|].
  pose proof Hm as (_ & Hp & HMe & He & _).
  destruct es as [|e es]; [inversion Hok|]. pose proof Hok as Hok0. apply Forall2_cons_inv in Hok as [Hoku Hokus].
  destruct us as [|u2 us]; [destruct u; discriminate|]. destruct es as [|e2 es]; [inversion Hokus|].
  destruct (is_index u) eqn:Eu.
  - destruct u as [i| | | | | |]; try discriminate. unfold run. cbn [foldO op_index]. unfold view_index. rewrite He. cbn [hd length Nat.eqb].
    simpl in Hoku. rewrite dassert_ok by lia. rewrite bindO_ok.
    destruct (m_drop_first_ok chk fuel m e (e2 :: es) ps i) as (m' & E & I); auto; try discriminate.
    rewrite E, !bindO_ok. apply (IH m' (e2 :: es) _ I); auto.
    inv Hp. pose proof (zprod_pos _ H2). change (zprod (e :: e2 :: es)) with (e * zprod (e2 :: es)) in Hf. nia.
  - assert (Hlost' : middle_lost (u2 :: us) = true) by (destruct u; try discriminate; exact Hlost).
    pose proof (run_generic_lost chk fuel off m (fun _ => false) [] (e :: e2 :: es) ps u (u2 :: us) Hm Hok0 ltac:(discriminate) (or_intror Hlost')) as Gen.
    unfold run. cbn [foldO op_index]. unfold view_index. rewrite He. cbn [hd].
    unfold proxy_at in Gen. cbn [length app map] in Gen. rewrite He in Gen. cbn [length Nat.eqb hd] in Gen |- *.
    destruct u; try discriminate; exact Gen.
Qed.

Lemma run_every_lost chk fuel off us : forall f g,
  f <> [] -> g <> [] -> good_shape (f ++ g) -> Forall2 ok_arg us g -> lost_after_every us = true ->
  run chk fuel (SEvery off (f ++ g) (length f)) us = UB.
Proof.
  induction us as [|u us IH]; intros f g Hf Hgne Hg Hok Hlost; [discriminate|].
  pose proof Hg as (Hne & Hp & HMe). destruct g as [|e g]; [congruence|].
  assert (Hnth : nth (length f) (f ++ e :: g) 0 = e) by (rewrite app_nth2, Nat.sub_diag by lia; reflexivity).
  destruct us as [|u2 us]; [destruct u; discriminate|]. destruct g as [|e2 g]; [apply Forall2_len in Hok; discriminate|].
  assert (Gen : u <> UEvery -> is_index u = false -> (let* s0 := (let* r := resolve u (nth (length f) (f ++ e :: e2 :: g) 0) in every_at chk fuel off (f ++ e :: e2 :: g) (length f) r) in
      foldO (op_index chk fuel) (u2 :: us) s0) = UB).
  { intros Hnev Hni. rewrite Hnth.
    pose proof (run_generic_lost chk fuel off _ (fun r => negb (is_rng r)) f (e :: e2 :: g) _ u (u2 :: us) (minv_infer _ Hne Hp HMe) Hok ltac:(discriminate)) as G.
    cbn [hd] in G. rewrite <- G.
    2:{ destruct u; try discriminate; try congruence; cbn [resolve]; try (left; intros r E; inv E; reflexivity).
        - left. intros r E. apply bindO_Ok_inv in E as ([[? ?] ?] & _ & E). inv E. reflexivity.
        - right. exact Hlost. }
    destruct (resolve u e) eqn:Er; auto. rewrite !bindO_ok. rewrite every_at_gen, every_at_proxy by auto. do 2 f_equal.
    f_equal. rewrite firstn_app, firstn_all, Nat.sub_diag, app_nil_r. reflexivity. }
  unfold run. cbn [foldO op_index]. unfold every_index.
  rewrite app_length. cbn [length].
  replace (S (length f) =? length f + S (S (length g)))%nat with false by (symmetry; apply Nat.eqb_neq; lia).
  destruct u; try (apply Gen; [discriminate|reflexivity]); [reflexivity|].
  rewrite bindO_ok. specialize (IH (f ++ [e]) (e2 :: g)).
  rewrite <- app_assoc in IH. cbn [app] in IH. rewrite app_length in IH. cbn [length] in IH.
  replace (length f + 1)%nat with (S (length f)) in IH by lia.
  apply Forall2_cons_inv in Hok as [_ Hok]. apply IH; auto; try discriminate. destruct f; discriminate.
Qed.

Lemma run_ref_lost chk fuel off es us : good_shape es -> Forall2 ok_arg us es ->
  loses true us = true -> (Z.to_nat (zprod es) < fuel)%nat -> run chk fuel (SRef off es) us = UB.
Proof.
  intros Hg Hok Hlost Hf. pose proof Hg as (Hne & Hp & HMe).
  destruct us as [|u us]; [discriminate|]. destruct es as [|e es]; [congruence|].
  pose proof Hok as Hok0. apply Forall2_cons_inv in Hok as [Hoku Hokus].
  destruct us as [|u2 us]; [destruct u; discriminate|]. destruct es as [|e2 es]; [inversion Hokus|].
  assert (Gen : u <> UEvery -> is_index u = false -> (let* s0 := (let* r := resolve u e in gen_at chk fuel off (e :: e2 :: es) 0 false r) in
      foldO (op_index chk fuel) (u2 :: us) s0) = UB).
  { intros Hnev Hni.
    pose proof (run_generic_lost chk fuel off _ (fun _ => false) [] (e :: e2 :: es) _ u (u2 :: us) (minv_infer _ Hne Hp HMe) Hok0 ltac:(discriminate)) as G.
    cbn [hd map app] in G. rewrite <- G; [|right; destruct u; try discriminate; try congruence; exact Hlost].
    destruct (resolve u e) eqn:Er; auto. rewrite !bindO_ok. rewrite every_at_proxy by auto. reflexivity. }
  unfold run. cbn [foldO op_index]. unfold ref_index. cbn [hd length Nat.eqb].
  assert (Hsd : forall k, sd_infer chk k (e :: e2 :: es) = Ok (SD k (e :: e2 :: es) (infer_strides 1 (e :: e2 :: es)))) by (intros; apply sd_infer_ok; auto).
  assert (Hpx : forall r, gen_at chk fuel off (e :: e2 :: es) 0 false r = Ok (SProxy off (MId (SD 0 (e :: e2 :: es) (infer_strides 1 (e :: e2 :: es)))) [r])).
  { intros r. rewrite every_at_0 by auto. reflexivity. }
  destruct u;
    match type of Gen with (UEvery <> UEvery -> _) => idtac | (UIdx _ <> _ -> _) => idtac | (?a <> _ -> _) => let N := fresh in assert (N : a <> UEvery) by (intro; discriminate); specialize (Gen N eq_refl); clear N end.
  - simpl in Hoku. rewrite dassert_ok by lia. rewrite bindO_ok.
    destruct (m_drop_first_ok chk fuel (MId (SD 0 (e :: e2 :: es) (infer_strides 1 (e :: e2 :: es)))) e (e2 :: es) _ i
       (minv_infer _ Hne Hp HMe)) as (m' & E & I); auto; try discriminate.
    rewrite Hsd, !bindO_ok. cbn [m_drop_first sd_start sd_strs] in E. unfold sd_discard in *. cbn [sd_exts sd_strs tl infer_strides sd_start hd] in E |- *.
    assert (HeM : 0 < e <= MAXSZ). { split; [inv Hp; auto|apply (Forall_inv (all_le_M _ Hp HMe))]. } pose proof MAXSZ_W as HMW.
    replace (w64 (0 + w64 (1 * i))) with i in E.
    2:{ autorewrite with w64. rewrite w64_small by lia. lia. }
    injection E as E'. rewrite E'. apply (run_view_lost chk fuel off (u2 :: us) m' (e2 :: es) _ I); auto.
    inv Hp. pose proof (zprod_pos _ H2). change (zprod (e :: e2 :: es)) with (e * zprod (e2 :: es)) in Hf. nia.
  - unfold ref_abs. rewrite Hsd, bindO_ok. cbn [resolve] in Gen. rewrite bindO_ok, Hpx in Gen. exact Gen.
  - unfold ref_strided. rewrite Hsd, bindO_ok. cbn [resolve] in Gen. rewrite bindO_ok, Hpx in Gen. exact Gen.
  - rewrite bindO_ok. apply (run_every_lost chk fuel off (u2 :: us) [e] (e2 :: es)); auto; discriminate.
  - cbn [resolve] in Gen. destruct (eval_bounded s m e) as [s' n] eqn:Eb.
    unfold ref_abs. rewrite Hsd, bindO_ok. rewrite bindO_ok, Hpx in Gen. exact Gen.
  - cbn [resolve] in Gen. destruct (eval_bounded_strided s m t e) as [[[s' n] t']| | | |] eqn:Eb; cbn [bindO] in Gen |- *;
      try exact Gen.
    unfold ref_strided. rewrite Hsd, bindO_ok. rewrite Hpx in Gen. exact Gen.
  - rewrite Hsd, bindO_ok. cbn [resolve] in Gen. rewrite bindO_ok, Hpx in Gen. exact Gen.
Qed.

Lemma run_any_lost chk fuel s v us : sinv s v -> Forall2 ok_arg us (fst v) -> loses (contiguous s) us = true ->
  (Z.to_nat (zprod (fst v)) < fuel)%nat -> run chk fuel s us = UB.
Proof.
  destruct v as [es qs]. intros Hs Hok Hlost Hf. cbn [fst] in *. destruct s as [|off es0| |off m|]; simpl in Hs; try tauto; cbn [contiguous] in Hlost.
  - destruct Hs as (Ev & Hg & _). subst es. apply run_ref_lost; auto.
  - destruct Hs as (ps & Hm & _). eapply run_view_lost; eauto.
Qed.

Lemma subscripts_used_l chk es steps us : good_shape es -> ok_steps (afull es) steps -> ok_step (aselects (afull es) steps) us ->
  exists fuel0, forall fuel, (fuel0 <= fuel)%nat -> exists s shape ps,
    foldO (run chk fuel) steps (SRef 0 es) = Ok s /\ dims s = Some shape /\ positions fuel s = Ok ps /\
    (loses (contiguous s) us = true -> run chk fuel s us = UB) /\
    (loses (contiguous s) us = false -> exists s', run chk fuel s us = Ok s' /\ dims s' = Some (result_shape us shape) /\
       positions fuel s' = Ok (map (aview_at (shape, ps)) (cart (sels us shape)))).
Proof.
  intros Hg Hok (Ha & Hn & HM). destruct (history_ok chk es steps Hg Hok) as (f0 & H). set (v := aselects (afull es) steps) in *.
  exists (Nat.max f0 (S (Z.to_nat (zprod (result_shape us (fst v)))))). intros fuel Hf.
  destruct (H fuel) as (s & E & I & Hv); [lia|]. exists s, (fst v), (snd v).
  split; [auto|]. split; [apply sinv_dims; auto|]. split; [apply sinv_positions; auto|]. split.
  - intros Hl. eapply run_any_lost; eauto.
  - intros Hl. destruct (run_any chk fuel s v us I Ha Hl Hv) as [R _]; [intros; split; [auto|lia]|].
    destruct (R Hn) as (s' & E' & I'). exists s'. split; [auto|]. split; [apply (sinv_dims _ _ I')|].
    rewrite (sinv_positions _ _ fuel I'); [|unfold aselect; cbn [fst]; lia]. rewrite <- surjective_pairing. reflexivity.
Qed.
