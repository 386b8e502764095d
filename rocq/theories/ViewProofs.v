(** * ViewProofs: every subscript chain denotes the selected sub-array. *)

From Coq Require Import ZArith List Bool Lia.
From Verif Require Import Base Spec Desc Slice SliceSpec Lemmas DescProofs SliceProofs.
Import ListNotations.
Open Scope Z_scope.

Lemma MAXSZ_W : 2 * MAXSZ < W. Proof. reflexivity. Qed.
Lemma MAXSZ_pos : 0 < MAXSZ. Proof. reflexivity. Qed.

Lemma colmajor_nth_cm es ix : in_range es ix -> all_nonneg es ->
  nth_error (colmajor es) (Z.to_nat (cm_pos es ix)) = Some ix.
Proof.
  intros H Hn. pose proof (proj2 (in_colmajor es ix) H) as Hin.
  apply In_nth_error in Hin as [k Hk].
  assert (E : nth_error (map (cm_pos es) (colmajor es)) k = Some (cm_pos es ix)).
  { rewrite nth_error_map, Hk. reflexivity. }
  rewrite cm_pos_colmajor in E by auto.
  assert (k < length (iota (zprod es)))%nat by (apply nth_error_Some; congruence).
  rewrite iota_length in H0. rewrite iota_nth_error in E by auto. inv E.
  rewrite Nat2Z.id. auto.
Qed.

Lemma aview_at_map es (g : list Z -> Z) ix : in_range es ix -> all_nonneg es ->
  aview_at (es, map g (colmajor es)) ix = g ix.
Proof.
  intros. unfold aview_at. simpl. pose proof (colmajor_nth_cm es ix H H0) as E.
  rewrite nth_indep with (d' := g []).
  - rewrite map_nth. f_equal. apply nth_error_nth with (d := []) in E. auto.
  - rewrite map_length. apply nth_error_Some. congruence.
Qed.

Lemma aview_at_add es off ps ix : in_range es ix -> Z.of_nat (length ps) = zprod es ->
  aview_at (es, map (fun p => off + p) ps) ix = off + aview_at (es, ps) ix.
Proof.
  intros H Hl. unfold aview_at. simpl. pose proof (cm_pos_range _ _ H).
  rewrite nth_indep with (d' := (fun p => off + p) 0) by (rewrite map_length; lia).
  rewrite (map_nth (fun p => off + p)). reflexivity.
Qed.

Definition strides_ok (es ss : list Z) : Prop :=
  Forall2 (fun e s => 0 < s /\ s <= 2 * MAXSZ /\ (e - 1) * s < MAXSZ) es ss.

Lemma strides_ok_length es ss : strides_ok es ss -> length ss = length es.
Proof. induction 1; simpl; auto. Qed.

Lemma walk_ok d fuel : sd_exts d <> [] -> all_pos (sd_exts d) -> strides_ok (sd_exts d) (sd_strs d) ->
  0 <= sd_start d < W -> zprod (sd_exts d) <= MAXSZ -> (Z.to_nat (zprod (sd_exts d)) < fuel)%nat ->
  sd_walk fuel d = Ok (map (sd_at d) (colmajor (sd_exts d))).
Proof.
  intros Hne Hp Hs Hst HM Hf. pose proof MAXSZ_W. pose proof MAXSZ_pos.
  destruct d as [start es ss]; simpl in *.
  destruct es as [|e [|e2 es]]; [congruence| |].
  - inv Hs. inv H5. inv Hp. unfold zprod in *; simpl in *.
    apply sd_walk_1; auto; try lia. destruct (Z.eq_dec e 1); [subst|]; nia.
  - apply sd_walk_N; cbn [sd_exts]; auto; [simpl length; lia|lia].
Qed.

(** ** default slicing *)
Lemma do_slice_ok chk start es ss rs :
  Forall2 rok rs es -> existsb is_rng rs = false -> strides_ok es ss ->
  Forall (fun e => e <= MAXSZ) es -> 0 <= start < W ->
  exists start' ss',
    do_slice chk start es ss rs = Ok (start', lens (map rsel rs), ss') /\
    0 <= start' < W /\ strides_ok (lens (map rsel rs)) ss' /\
    forall ix, in_range (lens (map rsel rs)) ix ->
      w64 (start' + dot ix ss') = w64 (start + dot (pick (map rsel rs) ix) ss).
Proof.
  intros Hr. revert start ss. pose proof MAXSZ_W as HMW. pose proof MAXSZ_pos.
  induction Hr as [|r e rs es Hrok Hr IH]; intros start ss Hno Hs HM Hst.
  - inv Hs. exists start, []. split; [reflexivity|]. split; [auto|]. split; [constructor|]. intros ix Hix. inv Hix. reflexivity.
  - inversion Hs as [|? st ? ss0 (Hst1 & Hst2 & Hst3) Hs']; subst. apply Forall_cons_iff' in HM as [HMe HM].
    simpl in Hno. apply orb_false_iff in Hno as [Hn1 Hno].
    destruct r as [i|s n t|l]; simpl in Hrok; [| |discriminate].
    + destruct (IH (w64 (start + w64 (st * i))) ss0 Hno Hs' HM (w64_range _)) as (start' & ss' & E & A1 & A2 & A3).
      exists start', (1 :: ss'). cbn [do_slice]. rewrite dassert_ok by lia. rewrite bindO_ok, E. simpl.
      repeat split; try lia.
      * constructor; auto. split; [lia|]. lia.
      * intros ix Hix. simpl in Hix. inv Hix. simpl.
        replace (nth (Z.to_nat y) [i] 0) with i.
        2:{ assert (y = 0) by lia. subst. reflexivity. }
        assert (y = 0) by lia. subst y.
        replace (start' + (0 * 1 + dot l' ss')) with (start' + dot l' ss') by lia.
        rewrite A3 by auto. autorewrite with w64.
        rewrite <- Z.add_assoc. rewrite (Z.mul_comm st i). reflexivity.
    + assert (Hb1 : (n - 1) * t <= e - 1) by lia.
      assert (Hstt : st * t <= 2 * MAXSZ /\ (n - 1) * (st * t) < MAXSZ).
      { destruct (Z.eq_dec n 1) as [->|].
        - split; [|lia]. destruct (Z.eq_dec e 1); [subst; nia|]. nia.
        - assert ((n - 1) * (st * t) <= (e - 1) * st) by nia. split; [|lia]. nia. }
      destruct (IH (w64 (start + w64 (st * s))) ss0 Hno Hs' HM (w64_range _)) as (start' & ss' & E & A1 & A2 & A3).
      exists start', (w64 (st * t) :: ss'). cbn [do_slice].
      rewrite dassert_ok by lia. rewrite bindO_ok. rewrite dassert_ok by lia. rewrite bindO_ok.
      rewrite dassert_ok.
      2:{ rewrite (w64_small (n - 1)) by nia. rewrite (w64_small ((n - 1) * t)) by nia.
          rewrite w64_small by nia. lia. }
      rewrite bindO_ok, E. simpl. rewrite map_length, iota_length, Z2Nat.id by lia.
      rewrite (w64_small (st * t)) by nia.
      repeat split; try lia; auto.
      * constructor; auto. nia.
      * intros ix Hix. inv Hix. simpl.
        replace (nth (Z.to_nat y) (map (fun k => s + k * t) (iota n)) 0) with (s + y * t).
        2:{ rewrite nth_indep with (d' := (fun k => s + k * t) 0) by (rewrite map_length, iota_length; lia).
            rewrite (map_nth (fun k => s + k * t)), iota_nth by lia. rewrite Z2Nat.id by lia. reflexivity. }
        replace (start' + (y * (st * t) + dot l' ss')) with ((start' + dot l' ss') + y * (st * t)) by ring.
        rewrite <- w64_add_l, A3 by auto. rewrite w64_add_l, <- Z.add_assoc, w64_add_l, <- Z.add_assoc.
        rewrite (Z.add_comm (w64 (st * s))), Z.add_assoc, w64_add_r. f_equal. ring.
Qed.

(** ** indirect slicing *)
Lemma foldO_app_state {A} (f : list Z * list Z -> A -> outcome (list Z * list Z)) (L : list Z) (g : A -> list Z) l :
  (forall ext pos a, In a l -> (length L <= length ext)%nat -> f (ext, pos) a = Ok (L ++ skipn (length L) ext, pos ++ g a)) ->
  l <> [] -> forall ext pos, (length L <= length ext)%nat ->
  foldO f l (ext, pos) = Ok (L ++ skipn (length L) ext, pos ++ flat_map g l).
Proof.
  induction l as [|a l IH]; intros Hf Hne ext pos Hl; [congruence|].
  cbn [foldO]. rewrite Hf by (auto; left; auto). rewrite bindO_ok.
  destruct l as [|b l].
  - simpl. rewrite app_nil_r. reflexivity.
  - rewrite IH; [|intros; apply Hf; auto; right; auto|congruence|rewrite app_length, skipn_length; lia].
    rewrite skipn_app, skipn_all, Nat.sub_diag. simpl. rewrite <- !app_assoc. reflexivity.
Qed.

Lemma skipn_upd_nat (ext : list Z) k v : (k < length ext)%nat ->
  skipn k (upd_nat ext k v) = v :: skipn (S k) ext.
Proof.
  revert k. induction ext as [|e ext IH]; intros k H; simpl in H; [lia|].
  destruct k; [reflexivity|]. simpl. rewrite IH by lia. destruct ext; [simpl in H; lia|]. reflexivity.
Qed.

Lemma upd_nat_length {A} (l : list A) i v : length (upd_nat l i v) = length l.
Proof. revert i. induction l; intros [|i]; simpl; auto. Qed.

Lemma max_idx_lt l e acc : Forall (fun i => 0 <= i < e) l -> acc < e ->
  fold_left (fun acc x => if acc <? x then x else acc) l acc < e.
Proof.
  intros H. revert acc. induction H; intros acc Ha; simpl; auto.
  apply IHForall. destruct (acc <? x); lia.
Qed.

Lemma foldO_map {S A B} (f : S -> B -> outcome S) (g : A -> B) l s :
  foldO f (map g l) s = foldO (fun s a => f s (g a)) l s.
Proof. revert s. induction l; intros; simpl; auto. destruct (f s (g a)); simpl; auto. Qed.

Lemma foldO_ext {S A} (f g : S -> A -> outcome S) l s :
  (forall s a, In a l -> f s a = g s a) -> foldO f l s = foldO g l s.
Proof.
  revert s. induction l; intros s H; simpl; auto. rewrite H by (left; auto).
  destruct (g s a); simpl; auto. apply IHl. intros; apply H; right; auto.
Qed.

Lemma do_ind_ok chk d as_ : forall ix ext pos,
  Forall2 rok as_ (firstn (length as_) (sd_exts d)) ->
  Forall (fun e => e <= MAXSZ) (sd_exts d) ->
  (length as_ <= length ext)%nat ->
  do_ind chk d (rev as_) ix (ext, pos)
  = Ok (lens (map rsel as_) ++ skipn (length as_) ext,
        pos ++ map (fun h => sd_at d (h ++ ix)) (cart (map rsel as_))).
Proof.
  pose proof MAXSZ_W as HMW. pose proof MAXSZ_pos.
  induction as_ as [|a as_ IH] using rev_ind; intros ix ext pos Hr HM Hl.
  - reflexivity.
  - rewrite rev_app_distr. cbn [rev app do_ind]. rewrite rev_length.
    assert (Hlen : length (as_ ++ [a]) = S (length as_)) by (rewrite app_length; simpl; lia).
    rewrite Hlen in *.
    assert (Hk : (length as_ < length (sd_exts d))%nat).
    { destruct (Nat.lt_ge_cases (length as_) (length (sd_exts d))); auto.
      rewrite firstn_all2 in Hr by lia. assert (length (as_ ++ [a]) = length (sd_exts d)) by (clear -Hr; induction Hr; simpl; auto).
      lia. }
    set (e := nth (length as_) (sd_exts d) 0) in *.
    assert (Hf : firstn (S (length as_)) (sd_exts d) = firstn (length as_) (sd_exts d) ++ [e]).
    { clear -Hk. unfold e. revert Hk. generalize (length as_) as k. induction (sd_exts d); intros k Hk; simpl in *; [lia|].
      destruct k; [reflexivity|]. simpl. f_equal. apply IHl. lia. }
    rewrite Hf in Hr. apply Forall2_app_inv_l in Hr as (x1 & x2 & Hr1 & Hr2 & Ex).
    assert (x1 = firstn (length as_) (sd_exts d) /\ x2 = [e]) as [-> ->].
    { inv Hr2. inv H4. apply app_inj_tail in Ex as [-> ->]. auto. }
    assert (H4 : rok a e) by (inv Hr2; auto). clear Hr2.
    assert (HeM : e <= MAXSZ). { rewrite Forall_forall in HM. apply HM. apply nth_In. auto. }
    assert (Hlens : length (lens (map rsel as_)) = length as_) by (unfold lens; rewrite !map_length; auto).
    rewrite map_app. cbn [map]. rewrite lens_app, cart_snoc. cbn [map lens]. rewrite <- app_assoc. cbn [app].
    assert (Main : forall (l : list Z), l <> [] ->
       foldO (fun acc i => do_ind chk d (rev as_) (i :: ix) acc) l
          (upd_nat ext (length as_) (Z.of_nat (length l)), pos)
       = Ok (lens (map rsel as_) ++ Z.of_nat (length l) :: skipn (S (length as_)) ext,
             pos ++ map (fun h => sd_at d (h ++ ix))
                   (flat_map (fun i => map (fun h => h ++ [i]) (cart (map rsel as_))) l))).
    { intros l Hne.
      rewrite foldO_app_state with (L := lens (map rsel as_))
          (g := fun i => map (fun h => sd_at d (h ++ i :: ix)) (cart (map rsel as_))); auto.
      - rewrite Hlens, skipn_upd_nat by lia. do 2 f_equal.
        f_equal. rewrite flat_map_concat_map, (flat_map_concat_map _ l), concat_map, map_map. f_equal.
        apply map_ext. intros i. rewrite map_map. apply map_ext. intros h. rewrite <- app_assoc. reflexivity.
      - intros ext' pos' i Hi Hle. rewrite Hlens in *. apply IH; auto.
      - rewrite upd_nat_length, Hlens. lia. }
    destruct a as [i|s n t|l]; simpl in H4; cbn [rsel].
    + rewrite dassert_ok by lia. rewrite bindO_ok. specialize (Main [i] ltac:(discriminate)).
      cbn [foldO] in Main. cbn [fst snd].
      change (Z.of_nat (length [i])) with 1 in Main. cbn [length]. change (Z.of_nat 1) with 1.
      destruct (do_ind chk d (rev as_) (i :: ix) (upd_nat ext (length as_) 1, pos)) eqn:E; simpl in Main; try discriminate.
      simpl. inv Main. reflexivity.
    + rewrite dassert_ok by lia. rewrite bindO_ok. rewrite dassert_ok by lia. rewrite bindO_ok.
      rewrite dassert_ok.
      2:{ rewrite (w64_small (n - 1)) by nia. rewrite (w64_small ((n - 1) * t)) by nia.
          rewrite w64_small by nia. lia. }
      rewrite bindO_ok. cbn [fst snd].
      specialize (Main (map (fun k => s + k * t) (iota n))).
      rewrite map_length, iota_length, Z2Nat.id in Main by lia. rewrite map_length, iota_length, Z2Nat.id by lia.
      rewrite <- Main.
      2:{ intros E. apply (f_equal (@length Z)) in E. rewrite map_length, iota_length in E. simpl in E. lia. }
      rewrite (foldO_map _ (fun k => s + k * t)). fold (iota n). apply foldO_ext. intros st0 k Hk'. apply in_iota in Hk'.
      rewrite (w64_small (k * t)) by nia. rewrite w64_small by nia. reflexivity.
    + destruct H4 as [Hne Hall]. rewrite dassert_ok.
      2:{ apply Z.ltb_lt. apply max_idx_lt; auto. destruct l; [congruence|]. inv Hall. lia. }
      rewrite bindO_ok. cbn [fst snd]. apply Main. auto.
Qed.

Lemma indirect_ok chk d rs :
  Forall2 rok rs (sd_exts d) -> Forall (fun e => e <= MAXSZ) (sd_exts d) ->
  indirect_slicing chk d rs = Ok (lens (map rsel rs), map (sd_at d) (cart (map rsel rs))).
Proof.
  intros Hr HM. assert (Hl : length rs = length (sd_exts d)) by (clear HM; induction Hr; simpl; auto).
  unfold indirect_slicing. rewrite do_ind_ok; auto.
  - rewrite skipn_all2 by (rewrite map_length; lia). rewrite app_nil_r. do 2 f_equal.
    simpl. apply map_ext. intros; rewrite app_nil_r; reflexivity.
  - rewrite Hl, firstn_all. auto.
  - rewrite map_length. lia.
Qed.

(** ** mapper invariant *)
Definition minv (m : mapper) (es ps : list Z) : Prop :=
  es <> [] /\ all_pos es /\ zprod es <= MAXSZ /\ sd_exts (m_desc m) = es /\
  match m with
  | MId d => strides_ok es (sd_strs d) /\ 0 <= sd_start d < W /\ ps = map (sd_at d) (colmajor es)
  | MVec d idx => d = SD 0 es (infer_strides 1 es) /\ idx = ps /\ Z.of_nat (length ps) = zprod es
  end.

Lemma minv_length m es ps : minv m es ps -> Z.of_nat (length ps) = zprod es.
Proof.
  intros (Hne & Hp & HM & He & H). destruct m.
  - destruct H as (_ & _ & ->). rewrite map_length. apply colmajor_length, all_pos_nonneg; auto.
  - apply H.
Qed.

Lemma all_le_M es : all_pos es -> zprod es <= MAXSZ -> Forall (fun e => e <= MAXSZ) es.
Proof. intros Hp HM. eapply Forall_impl; [|apply zprod_ge; exact Hp]. simpl; intros; lia. Qed.

Lemma infer_strides_ok es tmp : all_pos es -> 0 < tmp -> tmp * zprod es <= MAXSZ ->
  strides_ok es (infer_strides tmp es).
Proof.
  intros Hp. revert tmp. pose proof MAXSZ_W. pose proof MAXSZ_pos.
  induction Hp; intros tmp Ht HM; simpl; constructor.
  - pose proof (zprod_pos _ Hp). unfold zprod in *; simpl in HM.
    assert (tmp * x <= MAXSZ) by nia. nia.
  - pose proof (zprod_pos _ Hp). unfold zprod in *; simpl in HM.
    assert (tmp * x <= MAXSZ) by nia. rewrite w64_small by nia. apply IHHp; nia.
Qed.

Lemma mk_vec_ok chk es idx : es <> [] -> all_pos es -> zprod es <= MAXSZ -> Z.of_nat (length idx) = zprod es ->
  exists m, mk_vec chk es idx = Ok m /\ minv m es idx.
Proof.
  intros Hne Hp HM Hl. pose proof MAXSZ_W. exists (MVec (SD 0 es (infer_strides 1 es)) idx). split.
  - unfold mk_vec. rewrite sd_infer_ok by auto. rewrite bindO_ok. rewrite dassert_ok; [reflexivity|].
    unfold sd_size. cbn [sd_exts].
    assert (prod_arr es = zprod es). { pose proof (zprod_pos _ Hp). apply prod_arr_small; [apply all_pos_nonneg; auto|lia]. }
    destruct es as [|e [|e2 es]]; [congruence| |]; [unfold zprod in Hl; simpl in Hl; lia|lia].
  - repeat split; auto.
Qed.

Lemma m_map_ok chk d idx p : 0 <= p < Z.of_nat (length idx) ->
  m_map chk (MVec d idx) p = Ok (nth (Z.to_nat p) idx 0).
Proof. intros. unfold m_map. rewrite dassert_ok by lia. rewrite bindO_ok. apply get_ok. auto. Qed.

Lemma rok_range r e : 0 < e -> rok r e -> Forall (fun i => 0 <= i < e) (rsel r) /\ rsel r <> [].
Proof.
  intros He. destruct r; simpl.
  - intros; split; [constructor; auto|discriminate].
  - intros. split.
    + apply Forall_forall. intros x Hx. apply in_map_iff in Hx as (k & <- & Hk). apply in_iota in Hk. nia.
    + rewrite iota_cons by lia. discriminate.
  - intros [? ?]; auto.
Qed.

Lemma rok_cart rs es ix : all_pos es -> Forall2 rok rs es -> In ix (cart (map rsel rs)) -> in_range es ix.
Proof.
  intros Hp Hr. apply cart_in_range. revert Hp. induction Hr; intros Hp; simpl; constructor.
  - inv Hp. apply (proj1 (rok_range _ _ H2 H)).
  - apply IHHr. inv Hp; auto.
Qed.

Lemma rok_lens_pos rs es : all_pos es -> Forall2 rok rs es -> all_pos (lens (map rsel rs)).
Proof.
  intros Hp Hr. revert Hp. induction Hr; intros Hp; simpl; constructor; inv Hp.
  - destruct (rok_range _ _ H2 H) as [_ Hn]. destruct (rsel x); [congruence|simpl; lia].
  - apply IHHr; auto.
Qed.

Lemma map_ext_In {A B} (f g : A -> B) l : (forall a, In a l -> f a = g a) -> map f l = map g l.
Proof. apply map_ext_in. Qed.

Lemma array_slice_ok chk fuel m es ps rs :
  minv m es ps -> Forall2 rok rs es -> zprod (lens (map rsel rs)) <= MAXSZ ->
  (Z.to_nat (zprod (lens (map rsel rs))) < fuel)%nat ->
  exists m', array_slice chk fuel m rs = Ok m' /\
    minv m' (lens (map rsel rs)) (map (aview_at (es, ps)) (cart (map rsel rs))).
Proof.
  intros Hm Hr HM Hfuel. pose proof (minv_length _ _ _ Hm) as Hlen.
  destruct Hm as (Hne & Hp & HMe & He & Hm). pose proof MAXSZ_W as HMW. pose proof (all_pos_nonneg _ Hp) as Hnn.
  pose proof (rok_lens_pos _ _ Hp Hr) as HLp.
  assert (HLne : lens (map rsel rs) <> []). { destruct Hr; [congruence|discriminate]. }
  assert (Hcl : Z.of_nat (length (cart (map rsel rs))) = zprod (lens (map rsel rs))) by apply cart_length.
  pose proof (zprod_pos _ Hp) as Hzp. pose proof (zprod_pos _ HLp) as HLz.
  unfold array_slice. destruct (existsb is_rng rs) eqn:Erng.
  - rewrite indirect_ok; [|rewrite He; auto|rewrite He; apply all_le_M; auto].
    rewrite bindO_ok. destruct m as [d|d idx].
    + simpl in He. destruct Hm as (Hs & Hst & ->).
      destruct (mk_vec_ok chk (lens (map rsel rs)) (map (sd_at d) (cart (map rsel rs)))) as (m' & E & I); auto.
      { rewrite map_length; auto. }
      exists m'. split; [exact E|]. simpl in I.
      rewrite (map_ext_In _ (sd_at d)); auto.
      intros ix Hix. apply aview_at_map; auto. eapply rok_cart; eauto.
    + destruct Hm as (-> & -> & _). simpl in He. cbn [m_desc] in *.
      rewrite mapO_ok with (g := fun p => nth (Z.to_nat p) ps 0).
      2:{ intros p Hin. apply in_map_iff in Hin as (ix & <- & Hix). apply m_map_ok.
          pose proof (rok_cart _ _ _ Hp Hr Hix) as Hir. rewrite sd_at_infer by (auto; lia).
          pose proof (cm_pos_range _ _ Hir). lia. }
      rewrite bindO_ok.
      rewrite map_map. rewrite (map_ext_In _ (aview_at (es, ps))).
      2:{ intros ix Hix. pose proof (rok_cart _ _ _ Hp Hr Hix) as Hir. rewrite sd_at_infer by (auto; lia).
          unfold aview_at. simpl. reflexivity. }
      apply mk_vec_ok; auto. rewrite map_length; auto.
  - assert (Hso : strides_ok es (sd_strs (m_desc m)) /\ 0 <= sd_start (m_desc m) < W).
    { destruct m; [tauto|]. destruct Hm as (-> & _). simpl. split; [|lia].
      apply infer_strides_ok; auto; lia. }
    destruct Hso as [Hso Hst].
    destruct (do_slice_ok chk (sd_start (m_desc m)) es (sd_strs (m_desc m)) rs) as (start' & ss' & E & A1 & A2 & A3); auto.
    { apply all_le_M; auto. }
    unfold default_slicing. rewrite He, E. simpl bindO.
    set (nd := SD start' (lens (map rsel rs)) ss') in *.
    assert (Hat : forall ix, in_range (lens (map rsel rs)) ix -> sd_at nd ix = sd_at (m_desc m) (pick (map rsel rs) ix)).
    { intros ix Hix. rewrite !sd_at_w64 by (simpl; auto). simpl. apply A3. auto. }
    assert (Hps : map (sd_at nd) (colmajor (lens (map rsel rs))) = map (sd_at (m_desc m)) (cart (map rsel rs))).
    { rewrite cart_pick, map_map. apply map_ext_In. intros ix Hix. apply Hat. apply in_colmajor; auto. }
    destruct m as [d|d idx]; cbn [m_desc] in *.
    + exists (MId nd). split; [reflexivity|]. destruct Hm as (_ & _ & ->).
      split; [auto|]. split; [auto|]. split; [auto|]. split; [reflexivity|]. split; [auto|]. split; [auto|].
      rewrite Hps. apply map_ext_In. intros ix Hix. apply aview_at_map; auto. eapply rok_cart; eauto.
    + destruct Hm as (-> & -> & _).
      rewrite walk_ok; auto. rewrite bindO_ok.
      change (sd_exts nd) with (lens (map rsel rs)). rewrite Hps.
      rewrite mapO_ok with (g := fun p => nth (Z.to_nat p) ps 0).
      2:{ intros p Hin. apply in_map_iff in Hin as (ix & <- & Hix). apply m_map_ok.
          pose proof (rok_cart _ _ _ Hp Hr Hix) as Hir. rewrite sd_at_infer by (auto; lia).
          pose proof (cm_pos_range _ _ Hir). lia. }
      rewrite bindO_ok, map_map. rewrite (map_ext_In _ (aview_at (es, ps))).
      2:{ intros ix Hix. pose proof (rok_cart _ _ _ Hp Hr Hix) as Hir. rewrite sd_at_infer by (auto; lia).
          unfold aview_at. simpl. reflexivity. }
      apply mk_vec_ok; auto. rewrite map_length; auto.
Qed.

Lemma m_drop_first_ok chk fuel m e es ps i :
  minv m (e :: es) ps -> es <> [] -> 0 <= i < e -> (Z.to_nat (zprod (e :: es)) < fuel)%nat ->
  exists m', m_drop_first chk fuel m i = Ok m' /\
    minv m' es (map (fun ix => aview_at (e :: es, ps) (i :: ix)) (colmajor es)).
Proof.
  intros Hm Hne Hi Hfuel. pose proof (minv_length _ _ _ Hm) as Hlen.
  destruct Hm as (_ & Hp & HMe & He & Hm). pose proof MAXSZ_W as HMW. pose proof (all_pos_nonneg _ Hp) as Hnn.
  apply Forall_cons_iff' in Hp as HHp. destruct HHp as [Hep Hp'].
  pose proof (zprod_pos _ Hp'). assert (Hz : zprod (e :: es) = e * zprod es) by reflexivity.
  assert (HM' : zprod es <= MAXSZ) by nia.
  assert (Hir : forall ix, In ix (colmajor es) -> in_range (e :: es) (i :: ix)).
  { intros ix Hix. constructor; auto. apply in_colmajor; auto. }
  destruct m as [d|d idx]; cbn [m_desc m_drop_first] in *.
  - destruct Hm as (Hs & Hst & ->). destruct d as [start es0 ss]; simpl in *. subst es0.
    inversion Hs as [|? s ? ss0 Hs1 Hs2]; subst. simpl.
    eexists; split; [reflexivity|].
    split; [auto|]. split; [auto|]. split; [auto|]. split; [reflexivity|]. split; [exact Hs2|].
    split; [apply w64_range|].
    apply map_ext_In. intros ix Hix. rewrite aview_at_map by auto.
    rewrite !sd_at_w64 by (simpl; auto; apply w64_range). simpl. autorewrite with w64. f_equal. ring.
  - destruct Hm as (-> & -> & _). cbn [sd_discard sd_exts sd_strs sd_start tl].
    rewrite walk_ok; cbn [sd_exts sd_strs sd_start]; auto.
    + rewrite bindO_ok.
      assert (Hat : forall ix, In ix (colmajor es) ->
        sd_at (SD (w64 (0 + i)) es (tl (infer_strides 1 (e :: es)))) ix = cm_pos (e :: es) (i :: ix)).
      { intros ix Hix. pose proof (cm_pos_range _ _ (Hir _ Hix)) as Hc.
        rewrite sd_at_w64 by (simpl; apply w64_range). simpl. autorewrite with w64.
        rewrite <- w64_add_r, dot_infer.
        2:{ apply in_range_length, in_colmajor; auto. }
        autorewrite with w64.
        simpl in Hc. rewrite w64_small by lia. lia. }
      rewrite mapO_ok with (g := fun p => nth (Z.to_nat p) ps 0).
      2:{ intros p Hin. apply in_map_iff in Hin as (ix & <- & Hix). apply m_map_ok.
          rewrite Hat by auto. pose proof (cm_pos_range _ _ (Hir _ Hix)). lia. }
      rewrite bindO_ok, map_map. rewrite (map_ext_In _ (fun ix => aview_at (e :: es, ps) (i :: ix))).
      2:{ intros ix Hix. rewrite Hat by auto. reflexivity. }
      apply mk_vec_ok; auto. rewrite map_length. apply colmajor_length, all_pos_nonneg; auto.
    + pose proof (infer_strides_ok (e :: es) 1 ltac:(auto) ltac:(lia) ltac:(lia)) as Hso. inv Hso; auto.
    + apply w64_range.
    + nia.
Qed.

Lemma minv_infer es : es <> [] -> all_pos es -> zprod es <= MAXSZ ->
  minv (MId (SD 0 es (infer_strides 1 es))) es (iota (zprod es)).
Proof.
  intros Hne Hp HM. pose proof MAXSZ_W. pose proof (zprod_pos _ Hp).
  split; [auto|]. split; [auto|]. split; [auto|]. split; [reflexivity|]. simpl. split.
  - apply infer_strides_ok; auto; lia.
  - split; [lia|]. rewrite <- cm_pos_colmajor by (apply all_pos_nonneg; auto).
    apply map_ext_In. intros ix Hix. apply in_colmajor in Hix. rewrite sd_at_infer by (auto; lia). lia.
Qed.
