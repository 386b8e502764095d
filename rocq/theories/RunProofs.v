(** * RunProofs: chains of subscripts and histories of slicings. *)

From Coq Require Import ZArith List Bool Lia.
From Verif Require Import Base Spec Desc Slice SliceSpec Lemmas DescProofs SliceProofs ViewProofs.
Import ListNotations.
Open Scope Z_scope.

(** A runtime value represents an abstract view. *)
Definition sinv (s : st) (v : aview) : Prop :=
  match s with
  | SRef off es => fst v = es /\ good_shape es /\ snd v = map (fun p => off + p) (iota (zprod es))
  | SView off m => exists ps, minv m (fst v) ps /\ snd v = map (fun p => off + p) ps
  | _ => False
  end.

Lemma sinv_good s v : sinv s v -> good_shape (fst v) /\ Z.of_nat (length (snd v)) = zprod (fst v).
Proof.
  destruct s; simpl; try tauto.
  - intros (-> & H & ->). split; auto. destruct H as (_ & H & _). apply zprod_pos in H.
    rewrite map_length, iota_length. lia.
  - intros (ps & H & ->). pose proof (minv_length _ _ _ H). destruct H as (? & ? & ? & _).
    split; [repeat split; auto|]. rewrite map_length. auto.
Qed.

Lemma sinv_dims s v : sinv s v -> dims s = Some (fst v).
Proof.
  destruct s; simpl; try tauto.
  - intros (-> & _). auto.
  - intros (ps & (_ & _ & _ & E & _) & _). congruence.
Qed.

Lemma sinv_positions s v fuel : sinv s v -> (Z.to_nat (zprod (fst v)) < fuel)%nat -> positions fuel s = Ok (snd v).
Proof.
  pose proof MAXSZ_W. destruct s; simpl; try tauto.
  - intros (<- & (Hne & Hp & HM) & E) _. rewrite E. pose proof (zprod_pos _ Hp).
    rewrite prod_arr_small by (try apply all_pos_nonneg; auto; lia).
    unfold iota. rewrite map_map. reflexivity.
  - intros (ps & Hm & E) Hf. rewrite E. destruct Hm as (Hne & Hp & HM & He & Hm).
    destruct m as [d|d idx]; cbn [m_desc m_positions] in *.
    + destruct Hm as (Hs & Hst & ->). rewrite <- He in *. rewrite walk_ok; auto.
    + destruct Hm as (_ & -> & _). reflexivity.
Qed.

(** ** resolved arguments against user arguments *)
Lemma resolve_all us es : Forall2 ok_arg us es -> all_pos es -> Forall (fun e => e <= MAXSZ) es ->
  exists rs, Forall2 rok rs es /\ map rsel rs = sels us es /\
    Forall2 (fun r ue => resolve (fst ue) (snd ue) = Ok r) rs (combine us es).
Proof.
  induction 1; intros Hp HM.
  - exists []. repeat split; constructor.
  - inv Hp. inv HM. destruct IHForall2 as (rs & A & B & C); auto.
    destruct (resolve_ok x y H) as (r & E & F & G & _); [lia|].
    exists (r :: rs). repeat split; try constructor; auto. simpl. congruence.
Qed.

Lemma lens_sels us es : lens (sels us es) = map (fun s => Z.of_nat (length s)) (sels us es).
Proof. reflexivity. Qed.

Lemma run_proxy chk fuel off m es ps us : forall args rs,
  minv m es ps -> us <> [] -> middle_lost us = false ->
  Forall2 rok (args ++ rs) es ->
  Forall2 (fun r ue => resolve (fst ue) (snd ue) = Ok r) rs (combine us (skipn (length args) es)) ->
  length us = length rs ->
  zprod (lens (map rsel (args ++ rs))) <= MAXSZ ->
  (Z.to_nat (zprod (lens (map rsel (args ++ rs)))) < fuel)%nat ->
  exists m', run chk fuel (SProxy off m args) us = Ok (SView off m') /\
    minv m' (lens (map rsel (args ++ rs))) (map (aview_at (es, ps)) (cart (map rsel (args ++ rs)))).
Proof.
  induction us as [|u us IH]; intros args rs Hm Hne Hlost Hr Hres Hlen HM Hf; [congruence|].
  destruct rs as [|r rs]; [discriminate|].
  assert (Hl : length (args ++ r :: rs) = length es) by (clear -Hr; induction Hr; simpl; auto).
  rewrite app_length in Hl. simpl in Hl, Hlen.
  assert (He : sd_exts (m_desc m) = es) by apply Hm.
  destruct (skipn (length args) es) as [|e rest] eqn:Esk.
  { assert (length (skipn (length args) es) = 0%nat) by (rewrite Esk; auto). rewrite skipn_length in H. lia. }
  assert (Hnth : nth (length args) es 0 = e).
  { rewrite <- (firstn_skipn (length args) es), Esk, app_nth2; rewrite firstn_length_le; try lia.
    rewrite Nat.sub_diag. reflexivity. }
  simpl in Hres. inversion Hres as [|? ? ? ? Hr1 Hres']; subst. simpl in Hr1.
  unfold run. cbn [foldO op_index]. unfold proxy_index. rewrite Hr1, bindO_ok.
  unfold proxy_at. destruct us as [|u2 us].
  - destruct rs; [|discriminate]. simpl in Hl.
    replace (S (length args) =? length (sd_exts (m_desc m)))%nat with true by (symmetry; apply Nat.eqb_eq; lia).
    destruct (array_slice_ok chk fuel m _ ps (args ++ [r]) Hm Hr HM Hf) as (m' & E & I).
    rewrite E, !bindO_ok. cbn [foldO]. eauto.
  - destruct rs as [|r2 rs]; [discriminate|].
    replace (S (length args) =? length (sd_exts (m_desc m)))%nat with false by (symmetry; apply Nat.eqb_neq; simpl in *; lia).
    cbn [middle_lost] in Hlost. apply orb_false_iff in Hlost as [Hnm Hlost]. change (by_name u) with (kept_by_reference u). rewrite Hnm.
    rewrite bindO_ok. replace (args ++ r :: r2 :: rs) with ((args ++ [r]) ++ r2 :: rs) in * by (rewrite <- app_assoc; reflexivity).
    apply IH; auto; try congruence.
    replace (skipn (length (args ++ [r])) (sd_exts (m_desc m))) with rest; auto.
    rewrite app_length. simpl. rewrite Nat.add_1_r.
    clear -Esk. revert Esk. generalize (length args) as k. induction (sd_exts (m_desc m)); intros k E; destruct k; simpl in *; try congruence. auto.
Qed.

Lemma aview_at_colmajor es qs : all_nonneg es -> Z.of_nat (length qs) = zprod es ->
  map (aview_at (es, qs)) (colmajor es) = qs.
Proof.
  intros Hn Hl.
  replace (map (aview_at (es, qs)) (colmajor es)) with (map (fun k => nth (Z.to_nat k) qs 0) (map (cm_pos es) (colmajor es)))
    by (rewrite map_map; reflexivity).
  rewrite cm_pos_colmajor, <- Hl by auto. symmetry. apply iota_nth_map.
Qed.

Lemma sels_range us es : Forall2 ok_arg us es -> all_pos es -> Forall (fun e => e <= MAXSZ) es ->
  Forall2 (fun s e => Forall (fun i => 0 <= i < e) s) (sels us es) es.
Proof.
  intros H Hp HM. destruct (resolve_all us es H Hp HM) as (rs & A & B & _). rewrite <- B.
  clear - A Hp. induction A; simpl; constructor; inv Hp; auto. apply (proj1 (rok_range _ _ H2 H)).
Qed.

Lemma cart_sels_range us es ix : Forall2 ok_arg us es -> all_pos es -> Forall (fun e => e <= MAXSZ) es ->
  In ix (cart (sels us es)) -> in_range es ix.
Proof. intros H Hp HM. apply cart_in_range, sels_range; auto. Qed.

Lemma result_shape_nonidx u us e es : is_index u = false ->
  result_shape (u :: us) (e :: es) = lens (sels (u :: us) (e :: es)).
Proof. destruct u; simpl; try discriminate; auto. Qed.

Lemma sels_length us es : length us = length es -> length (sels us es) = length es.
Proof. revert es. induction us; intros [|e es]; simpl; auto; lia. Qed.

Lemma Forall2_len {A B} (P : A -> B -> Prop) l l' : Forall2 P l l' -> length l = length l'.
Proof. induction 1; simpl; auto. Qed.

Lemma Forall2_cons_inv {A B} (P : A -> B -> Prop) x y l l' : Forall2 P (x :: l) (y :: l') -> P x y /\ Forall2 P l l'.
Proof. intros H; inversion H; auto. Qed.

(** Slicing a mapper-based view with arguments whose first one is not a plain index. *)
Lemma run_view_slice chk fuel off m e es ps u us : minv m (e :: es) ps ->
  Forall2 ok_arg (u :: us) (e :: es) -> is_index u = false -> middle_lost us = false ->
  zprod (lens (sels (u :: us) (e :: es))) <= MAXSZ ->
  (Z.to_nat (zprod (lens (sels (u :: us) (e :: es)))) < fuel)%nat ->
  exists m', run chk fuel (SView off m) (u :: us) = Ok (SView off m') /\
    minv m' (lens (sels (u :: us) (e :: es))) (map (aview_at (e :: es, ps)) (cart (sels (u :: us) (e :: es)))).
Proof.
  intros Hm Hok Hni Hlost HM Hf. pose proof Hm as (Hne & Hp & HMe & He & _).
  pose proof (all_le_M _ Hp HMe) as HMs.
  destruct (resolve_all _ _ Hok Hp HMs) as (rs & A & B & C).
  apply Forall2_cons_inv in Hok as [Hoku Hokus].
  destruct rs as [|r rs]; [inversion C|]. cbn [combine] in C. apply Forall2_cons_inv in C as [C1 C2]. simpl in C1.
  unfold run. cbn [foldO op_index]. unfold view_index. rewrite He. cbn [hd].
  rewrite <- B in *.
  assert (Gen : exists m',
    (let* s' := (let* r0 := resolve u e in
        if (length (e :: es) =? 1)%nat then let* m' := array_slice chk fuel m [r0] in Ok (SView off m') else Ok (SProxy off m [r0])) in
     foldO (op_index chk fuel) us s') = Ok (SView off m') /\
    minv m' (lens (map rsel (r :: rs))) (map (aview_at (e :: es, ps)) (cart (map rsel (r :: rs))))).
  { rewrite C1, bindO_ok. destruct us as [|u2 us].
    - inversion Hokus; subst. destruct rs; [|inversion C2]. cbn [length Nat.eqb].
      destruct (array_slice_ok chk fuel m [e] ps [r]) as (m' & E & I); auto.
      rewrite E. simpl. eauto.
    - destruct es as [|e2 es]; [inversion Hokus|]. cbn [length Nat.eqb]. rewrite bindO_ok.
      apply (run_proxy chk fuel off m (e :: e2 :: es) ps (u2 :: us) [r] rs); auto; try discriminate.
      apply Forall2_len in C2. apply Forall2_len in Hokus. rewrite C2.
      rewrite combine_length. lia. }
  destruct u; try discriminate; try exact Gen.
  destruct us as [|u2 us].
  - inversion Hokus; subst. cbn [length Nat.eqb]. rewrite bindO_ok. cbn [foldO].
    simpl in C1. inv C1. destruct rs; [|inversion C2].
    exists m. split; [reflexivity|]. rewrite B. cbn [sels sel lens map]. rewrite iota_length.
    assert (0 < e) by (inv Hp; auto).
    rewrite Z2Nat.id by lia. change (cart [iota e]) with (colmajor [e]).
    rewrite aview_at_colmajor; [exact Hm|repeat constructor; lia|].
    apply (minv_length _ _ _ Hm).
  - destruct Gen as (m' & E & I). exists m'. split; auto.
    rewrite <- E. cbn [resolve]. rewrite bindO_ok.
    destruct es as [|e2 es]; [inversion Hokus|]. reflexivity.
Qed.

Lemma all_index_aview us es : Forall2 ok_arg us es -> forallb is_index us = true ->
  exists ix, us = map UIdx ix /\ in_range es ix.
Proof.
  induction 1; simpl; intros.
  - exists []. split; [reflexivity|constructor].
  - apply andb_true_iff in H1 as [A B]. destruct IHForall2 as (ix & -> & E); auto.
    destruct x; try discriminate. exists (i :: ix). split; [reflexivity|constructor; auto].
Qed.

Lemma aselect_index i us e es qs : es <> [] -> all_nonneg es -> 0 <= i < e -> Z.of_nat (length qs) = zprod (e :: es) ->
  (forall ix, In ix (cart (sels us es)) -> in_range es ix) ->
  aselect (e :: es, qs) (UIdx i :: us)
  = aselect (es, map (fun ix => aview_at (e :: es, qs) (i :: ix)) (colmajor es)) us.
Proof.
  intros Hne Hn Hi Hl Hr. unfold aselect. cbn [fst snd result_shape sels sel cart]. f_equal.
  replace (flat_map (fun tl => map (fun i0 => i0 :: tl) [i]) (cart (sels us es)))
    with (map (cons i) (cart (sels us es))).
  2:{ clear Hr. generalize (cart (sels us es)) as l. induction l as [|h l IHl]; [reflexivity|]. cbn [map flat_map app]. rewrite IHl. reflexivity. }
  rewrite map_map. apply map_ext_In. intros ix Hix. rewrite aview_at_map; auto.
Qed.

(** Whole chain on a mapper-based view. *)
Lemma run_view chk fuel off us : forall m es ps,
  minv m es ps -> Forall2 ok_arg us es -> loses false us = false ->
  (Z.to_nat (zprod es) < fuel)%nat ->
  (forallb is_index us = false -> zprod (result_shape us es) <= MAXSZ /\ (Z.to_nat (zprod (result_shape us es)) < fuel)%nat) ->
  (forallb is_index us = false -> exists s', run chk fuel (SView off m) us = Ok s' /\
       sinv s' (aselect (es, map (fun p => off + p) ps) us)) /\
  (forall ix, us = map UIdx ix -> run chk fuel (SView off m) us = Ok (SElem (aview_at (es, map (fun p => off + p) ps) ix))).
Proof.
  induction us as [|u us IH]; intros m es ps Hm Hok Hlost Hf HR.
  { inversion Hok; subst. destruct Hm as (? & _). congruence. }
  pose proof (minv_length _ _ _ Hm) as Hlen.
  pose proof Hm as (_ & Hp & HMe & He & _). pose proof (all_pos_nonneg _ Hp) as Hnn.
  pose proof (all_le_M _ Hp HMe) as HMs. pose proof MAXSZ_W as HMW.
  destruct es as [|e es']; [inversion Hok|]. pose proof Hok as Hok0. apply Forall2_cons_inv in Hok as [Hoku Hokus].
  destruct (is_index u) eqn:Eu.
  - destruct u as [i| | | | | |]; try discriminate. simpl in Hoku. cbn [forallb is_index andb] in *.
    destruct us as [|u2 us].
    + inversion Hokus; subst. split; [discriminate|]. intros ix Eix. destruct ix as [|j [|? ?]]; try discriminate. inv Eix.
      unfold run. cbn [foldO op_index]. unfold view_index. rewrite He. cbn [hd length Nat.eqb].
      rewrite dassert_ok by lia. rewrite bindO_ok.
      rewrite aview_at_add; [|constructor; [lia|constructor]|auto].
      destruct m as [d|d idx]; cbn [m_desc] in *.
      * simpl. do 2 f_equal. destruct Hm as (_ & _ & _ & _ & _ & _ & ->).
        f_equal. symmetry. apply aview_at_map; auto. constructor; [lia|constructor].
      * destruct Hm as (_ & _ & _ & _ & -> & -> & _). 
        assert (Es : sd_at (SD 0 [e] (infer_strides 1 [e])) [j] = j).
        { unfold sd_at; simpl. unfold zprod in HMe; simpl in HMe.
          autorewrite with w64. rewrite w64_small by lia. lia. }
        rewrite Es. rewrite m_map_ok.
        -- simpl. do 3 f_equal. unfold aview_at. simpl. do 2 f_equal. lia.
        -- unfold zprod in Hlen; simpl in Hlen. lia.
    + destruct es' as [|e2 es']; [inversion Hokus|].
      destruct (m_drop_first_ok chk fuel m e (e2 :: es') ps i) as (m' & E & I); auto; try discriminate.
      assert (Step : forall us0, run chk fuel (SView off m) (UIdx i :: us0) = run chk fuel (SView off m') us0).
      { intros us0. unfold run at 1. cbn [foldO op_index]. unfold view_index. rewrite He. cbn [hd length Nat.eqb].
        rewrite dassert_ok by lia. rewrite bindO_ok, E. rewrite !bindO_ok. reflexivity. }
      assert (Hp' : all_pos (e2 :: es')) by (inv Hp; auto).
      assert (Hz : zprod (e :: e2 :: es') = e * zprod (e2 :: es')) by reflexivity.
      pose proof (zprod_pos _ Hp') as Hzp.
      specialize (IH m' _ _ I Hokus Hlost).
      destruct IH as [IH1 IH2]; [nia|exact HR|].
      assert (Heq : forall ix, In ix (colmajor (e2 :: es')) -> in_range (e :: e2 :: es') (i :: ix)).
      { intros ix Hix. constructor; auto. apply in_colmajor; auto. }
      assert (Hmap : map (fun p => off + p) (map (fun ix => aview_at (e :: e2 :: es', ps) (i :: ix)) (colmajor (e2 :: es')))
         = map (fun ix => aview_at (e :: e2 :: es', map (fun p => off + p) ps) (i :: ix)) (colmajor (e2 :: es'))).
      { rewrite map_map. apply map_ext_In. intros ix Hix. rewrite aview_at_add; auto. }
      rewrite Hmap in IH1, IH2.
      split.
      * intros Hni. destruct (IH1 Hni) as (s' & E' & S'). exists s'. rewrite Step. split; auto.
        rewrite aselect_index; auto; try discriminate.
        -- apply all_pos_nonneg; auto.
        -- rewrite map_length; auto.
        -- intros ix. apply cart_sels_range; auto. inv HMs; auto.
      * intros ix Eix. destruct ix as [|j ix]; [discriminate|]. cbn [map] in Eix.
        injection Eix as -> Eix. rewrite Step.
        rewrite (IH2 ix) by auto. do 2 f_equal.
        apply (aview_at_map (e2 :: es') (fun ix => aview_at (e :: e2 :: es', map (fun p => off + p) ps) (j :: ix)) ix);
          [|apply all_pos_nonneg; auto].
        clear -Hokus Eix. rewrite Eix in Hokus. clear Eix. revert Hokus. generalize (e2 :: es').
        induction ix; intros l H; inv H; constructor; auto. apply IHix; auto.
  - split; [|intros ix Eix; destruct ix; [discriminate|]; simpl in Eix; inv Eix; discriminate].
    intros Hni. destruct (HR Hni) as [HR1 HR2]. rewrite result_shape_nonidx in HR1, HR2 by auto.
    assert (Hlost' : middle_lost us = false) by (destruct u; try discriminate; exact Hlost).
    destruct (run_view_slice chk fuel off m e es' ps u us Hm Hok0 Eu Hlost' HR1 HR2) as (m' & E & I).
    exists (SView off m'). split; auto. cbn [sinv]. eexists. split.
    + unfold aselect. cbn [fst]. rewrite result_shape_nonidx by auto. exact I.
    + rewrite map_map. unfold aselect. cbn [fst snd]. apply map_ext_In. intros ix Hix. apply aview_at_add; auto.
      apply cart_sels_range with (us := u :: us); auto.
Qed.

(** ** contiguous references *)
Lemma aview_at_ref off es ix : in_range es ix ->
  aview_at (es, map (fun p => off + p) (iota (zprod es))) ix = off + cm_pos es ix.
Proof.
  intros H. pose proof (cm_pos_range _ _ H). rewrite aview_at_add; auto.
  - unfold aview_at. simpl. rewrite iota_nth by lia. lia.
  - rewrite iota_length. lia.
Qed.

Lemma prod_arr_good es : good_shape es -> prod_arr es = zprod es.
Proof.
  intros (_ & Hp & HM). pose proof MAXSZ_W. pose proof (zprod_pos _ Hp).
  apply prod_arr_small; [apply all_pos_nonneg; auto|lia].
Qed.

Lemma set_last_snoc front l v : set_last (front ++ [l]) v = front ++ [v].
Proof. induction front as [|a [|b f] IH]; simpl in *; congruence. Qed.

Lemma zprod_snoc f l : zprod (f ++ [l]) = zprod f * l.
Proof. rewrite zprod_app. unfold zprod at 2; simpl. lia. Qed.

Lemma cm_pos_snoc f l h i : length h = length f -> cm_pos (f ++ [l]) (h ++ [i]) = cm_pos f h + zprod f * i.
Proof.
  revert h. induction f as [|e f IH]; intros [|j h] H; simpl in *; try discriminate.
  - unfold zprod; simpl. ring.
  - rewrite IH by lia. unfold zprod; simpl. ring.
Qed.

(** Full leading dimensions, then consecutive indices s, ..., s+n-1 of the last one. *)
Lemma select_last_block off f l s n : good_shape (f ++ [l]) -> 0 <= s -> 0 < n -> s + n <= l ->
  map (aview_at (f ++ [l], map (fun p => off + p) (iota (zprod (f ++ [l])))))
      (cart (map iota f ++ [map (fun k => s + k) (iota n)]))
  = map (fun p => (off + s * zprod f) + p) (iota (zprod f * n)).
Proof.
  intros (Hne & Hp & HM) Hs Hn Hl. unfold all_pos in Hp. rewrite Forall_app in Hp. destruct Hp as [Hpf Hpl].
  pose proof (all_pos_nonneg _ Hpf). pose proof (zprod_nonneg _ H).
  rewrite cart_snoc. fold (colmajor f).
  rewrite iota_mul by lia. rewrite !flat_map_concat_map, !concat_map, !map_map. f_equal.
  apply map_ext_In. intros k Hk. apply in_iota in Hk. rewrite <- (cm_pos_colmajor f) by auto. rewrite !map_map.
  apply map_ext_In. intros h Hh. apply in_colmajor in Hh.
  rewrite aview_at_ref.
  - rewrite cm_pos_snoc by (apply in_range_length; auto). ring.
  - apply Forall2_app; auto. constructor; [lia|constructor].
Qed.

Lemma sels_every es us es2 : sels (map (fun _ => UEvery) es ++ us) (es ++ es2) = map iota es ++ sels us es2.
Proof. induction es; simpl; congruence. Qed.

Lemma lens_iota es : all_nonneg es -> lens (map iota es) = es.
Proof. induction 1; simpl; auto. f_equal; auto. rewrite iota_length. lia. Qed.

Lemma rsel_full es : map rsel (map (fun e => RSl 0 e 1) es) = map iota es.
Proof.
  rewrite map_map. apply map_ext. intros e. simpl. transitivity (map (fun x => x) (iota e)).
  - apply map_ext. intros; lia.
  - apply map_id.
Qed.

Lemma rok_full es : all_pos es -> Forall2 rok (map (fun e => RSl 0 e 1) es) es.
Proof. induction 1; simpl; constructor; auto. simpl. lia. Qed.

(** [every_at], for any storing of the argument. *)
Definition gen_at chk fuel off es M (named : bool) r :=
  let* d := sd_infer chk 0 es in
  proxy_at chk fuel off (MId d) (map (fun e => RSl 0 e 1) (firstn M es)) named r.
Lemma every_at_gen chk fuel off es M r : every_at chk fuel off es M r = gen_at chk fuel off es M (negb (is_rng r)) r.
Proof. reflexivity. Qed.

(** Generic route from a contiguous array: the first [M] dimensions taken whole, the others resolved. *)
Lemma run_every_generic chk fuel off named f g u us :
  good_shape (f ++ g) -> Forall2 ok_arg (u :: us) g -> middle_lost us = false -> (us <> [] -> forall r, resolve u (hd 0 g) = Ok r -> named r = false) ->
  zprod (lens (map iota f ++ sels (u :: us) g)) <= MAXSZ ->
  (Z.to_nat (zprod (lens (map iota f ++ sels (u :: us) g))) < fuel)%nat ->
  exists m', (let* s' := (let* r := resolve u (hd 0 g) in
                  gen_at chk fuel off (f ++ g) (length f) (named r) r) in foldO (op_index chk fuel) us s') = Ok (SView off m') /\
    minv m' (lens (map iota f ++ sels (u :: us) g))
         (map (aview_at (f ++ g, iota (zprod (f ++ g)))) (cart (map iota f ++ sels (u :: us) g))).
Proof.
  intros Hg Hok Hlost Hnamed HM Hf. pose proof Hg as (Hne & Hp & HMe).
  pose proof (minv_infer _ Hne Hp HMe) as Hm.
  pose proof (all_le_M _ Hp HMe) as HMs.
  unfold all_pos in Hp. rewrite Forall_app in Hp. destruct Hp as [Hpf Hpg].
  apply Forall_app in HMs as [HMf HMg].
  destruct (resolve_all _ _ Hok Hpg HMg) as (rs & A & B & C).
  destruct g as [|e g]; [inversion Hok|].
  destruct rs as [|r rs]; [inversion C|].
  apply Forall2_cons_inv in Hok as [Hoku Hokus].
  cbn [combine] in C. apply Forall2_cons_inv in C as [C1 C2]. simpl in C1.
  cbn [hd] in *. rewrite C1, bindO_ok. unfold gen_at.
  rewrite sd_infer_ok by (auto; apply Forall_app; auto). rewrite bindO_ok.
  set (d := SD 0 (f ++ e :: g) (infer_strides 1 (f ++ e :: g))) in *.
  replace (firstn (length f) (f ++ e :: g)) with f by (rewrite firstn_app, firstn_all, Nat.sub_diag, app_nil_r; reflexivity).
  set (args := map (fun e => RSl 0 e 1) f) in *.
  assert (Hrs : map rsel (args ++ r :: rs) = map iota f ++ sels (u :: us) (e :: g)).
  { rewrite map_app, B. f_equal. apply rsel_full. }
  rewrite <- Hrs in *.
  assert (Hrok : Forall2 rok (args ++ r :: rs) (f ++ e :: g)).
  { apply Forall2_app; auto. apply rok_full; auto. }
  assert (Hal : length args = length f) by (unfold args; rewrite map_length; auto).
  unfold proxy_at. cbn [m_desc sd_exts d]. rewrite app_length, Hal. cbn [length].
  destruct us as [|u2 us].
  - inversion Hokus; subst. destruct rs; [|inversion C2]. cbn [length].
    replace (S (length f) =? length f + 1)%nat with true by (symmetry; apply Nat.eqb_eq; lia).
    destruct (array_slice_ok chk fuel (MId d) _ _ (args ++ [r]) Hm Hrok HM Hf) as (m' & E & I).
    rewrite E, !bindO_ok. cbn [foldO]. eauto.
  - destruct g as [|e2 g]; [inversion Hokus|]. cbn [length].
    replace (S (length f) =? length f + S (S (length g)))%nat with false by (symmetry; apply Nat.eqb_neq; lia).
    rewrite (Hnamed ltac:(discriminate) r) by auto.
    rewrite bindO_ok. replace (args ++ r :: rs) with ((args ++ [r]) ++ rs) in * by (rewrite <- app_assoc; reflexivity).
    apply (run_proxy chk fuel off (MId d) _ _ (u2 :: us) (args ++ [r]) rs); auto; try discriminate.
    + replace (length (args ++ [r])) with (S (length f)) by (rewrite app_length; simpl; lia).
      replace (skipn (S (length f)) (f ++ e :: e2 :: g)) with (e2 :: g); auto.
      rewrite skipn_app. rewrite skipn_all2 by lia. replace (S (length f) - length f)%nat with 1%nat by lia. reflexivity.
    + apply Forall2_len in C2. apply Forall2_len in Hokus. rewrite C2. rewrite combine_length. simpl in *. lia.
Qed.

(** The same seen from the offset reference. *)
Lemma map_off_select off es us_sel : all_nonneg es -> (forall ix, In ix (cart us_sel) -> in_range es ix) ->
  map (fun p => off + p) (map (aview_at (es, iota (zprod es))) (cart us_sel))
  = map (aview_at (es, map (fun p => off + p) (iota (zprod es)))) (cart us_sel).
Proof.
  intros Hn Hr. rewrite map_map. apply map_ext_In. intros ix Hix. symmetry. apply aview_at_add; auto.
  rewrite iota_length. pose proof (zprod_nonneg _ Hn). lia.
Qed.

Lemma run_every chk fuel off us : forall f g,
  f <> [] -> g <> [] -> good_shape (f ++ g) -> Forall2 ok_arg us g ->
  lost_after_every us = false ->
  zprod (lens (map iota f ++ sels us g)) <= MAXSZ ->
  (Z.to_nat (zprod (lens (map iota f ++ sels us g))) < fuel)%nat ->
  exists s', run chk fuel (SEvery off (f ++ g) (length f)) us = Ok s' /\
    sinv s' (lens (map iota f ++ sels us g),
             map (aview_at (f ++ g, map (fun p => off + p) (iota (zprod (f ++ g))))) (cart (map iota f ++ sels us g))).
Proof.
  induction us as [|u us IH]; intros f g Hf Hgne Hg Hok Het HM Hfu.
  { inversion Hok; subst. congruence. }
  pose proof Hg as (Hne & Hp & HMe). pose proof MAXSZ_W as HMW.
  pose proof (all_pos_nonneg _ Hp) as Hnn.
  assert (HpS := Hp). unfold all_pos in HpS. rewrite Forall_app in HpS. destruct HpS as [Hpf Hpg].
  pose proof (all_pos_nonneg _ Hpf) as Hnf.
  pose proof (all_le_M _ Hp HMe) as HMs. apply Forall_app in HMs as [HMf HMg].
  assert (Hcart : forall ix, In ix (cart (map iota f ++ sels (u :: us) g)) -> in_range (f ++ g) ix).
  { intros ix. apply cart_in_range. apply Forall2_app.
    - clear. induction f; simpl; constructor; auto. apply Forall_forall. intros x. apply in_iota.
    - apply sels_range; auto. }
  destruct g as [|e g]; [congruence|].
  assert (Hnth : nth (length f) (f ++ e :: g) 0 = e) by (rewrite app_nth2, Nat.sub_diag by lia; reflexivity).
  assert (Gen : (us = [] \/ u <> UEvery) -> exists s',
     (let* s0 := (let* r := resolve u (nth (length f) (f ++ e :: g) 0) in every_at chk fuel off (f ++ e :: g) (length f) r) in
      foldO (op_index chk fuel) us s0) = Ok s' /\
     sinv s' (lens (map iota f ++ sels (u :: us) (e :: g)),
             map (aview_at (f ++ e :: g, map (fun p => off + p) (iota (zprod (f ++ e :: g))))) (cart (map iota f ++ sels (u :: us) (e :: g))))).
  { intros Hnev. rewrite Hnth. destruct (run_every_generic chk fuel off (fun r => negb (is_rng r)) f (e :: g) u us Hg Hok) as (m' & E & I); auto.
    { destruct us as [|u2 us]; [reflexivity|]. destruct Hnev as [|Hnev]; [discriminate|]. destruct u; cbn [lost_after_every] in Het; try discriminate; congruence. }
    { intros Hus r Er. destruct us as [|u2 us]; [congruence|]. cbn [hd] in Er. destruct u; try discriminate; cbn [lost_after_every] in Het; try discriminate; try (simpl in Er; inv Er; reflexivity). destruct Hnev; [discriminate|congruence]. }
    cbn [hd] in E. exists (SView off m'). split; [exact E|]. cbn [sinv fst snd]. eexists. split; [exact I|].
    symmetry. apply map_off_select; auto. }
  pose proof Hok as Hok0. apply Forall2_cons_inv in Hok as [Hoku Hokus].
  unfold run. cbn [foldO op_index]. unfold every_index.
  rewrite app_length. cbn [length].
  destruct us as [|u2 us].
  - inversion Hokus; subst. cbn [length].
    replace (S (length f) =? length f + 1)%nat with true by (symmetry; apply Nat.eqb_eq; lia).
    rewrite last_last. pose proof (prod_arr_good _ Hg) as Hpa. rewrite Hpa. replace (zprod (f ++ [e]) / e) with (zprod f * e / e) by (rewrite zprod_snoc; reflexivity).
    assert (He : 0 < e) by (inv Hpg; auto). pose proof (zprod_pos _ Hpf) as Hzf.
    rewrite zprod_snoc in HMe.
    assert (Blk : forall s n, 0 <= s -> 0 < n -> s + n <= e ->
       sinv (SRef (off + s * zprod f) (f ++ [n]))
         (lens (map iota f ++ [map (fun k => s + k) (iota n)]),
          map (aview_at (f ++ [e], map (fun p => off + p) (iota (zprod (f ++ [e])))))
              (cart (map iota f ++ [map (fun k => s + k) (iota n)])))).
    { intros s n Hs Hn Hsn. cbn [sinv fst snd]. rewrite lens_app, lens_iota by auto. cbn [lens map].
      rewrite map_length, iota_length, Z2Nat.id by lia. split; [reflexivity|]. split.
      - split; [destruct f; discriminate|]. split; [apply Forall_app; split; auto; constructor; auto|].
        rewrite zprod_snoc. nia.
      - rewrite (zprod_snoc f n). apply select_last_block; auto. }
    destruct u; try (apply Gen; left; reflexivity).
    + (* index *)
      simpl in Hoku. rewrite dassert_ok by lia. rewrite bindO_ok.
      replace (e =? 0) with false by lia. rewrite Z.div_mul by lia. rewrite set_last_snoc, bindO_ok. cbn [foldO].
      eexists. split; [reflexivity|]. rewrite w64_small by nia.
      specialize (Blk i 1 ltac:(lia) ltac:(lia) ltac:(lia)). cbn [sels sel].
      change (iota 1) with [0] in Blk. cbn [map] in Blk. rewrite Z.add_0_r in Blk. exact Blk.
    + simpl in Hoku. rewrite dassert_ok.
      2:{ pose proof (Forall_inv HMg). simpl in H. rewrite (w64_small (s + n)) by lia. rewrite w64_small by lia. lia. }
      rewrite bindO_ok.
      replace (e =? 0) with false by lia. rewrite Z.div_mul by lia. rewrite set_last_snoc, bindO_ok. cbn [foldO].
      eexists. split; [reflexivity|]. rewrite w64_small by nia. cbn [sels sel]. apply Blk; lia.
    + rewrite bindO_ok. cbn [foldO]. eexists. split; [reflexivity|]. cbn [sels sel].
      specialize (Blk 0 e ltac:(lia) ltac:(lia) ltac:(lia)).
      replace (map (fun k => 0 + k) (iota e)) with (iota e) in Blk.
      2:{ transitivity (map (fun x => x) (iota e)); [symmetry; apply map_id|]. apply map_ext; intros; lia. }
      replace (off + 0 * zprod f) with off in Blk by lia. exact Blk.
  - destruct g as [|e2 g]; [inversion Hokus|]. cbn [length].
    replace (S (length f) =? length f + S (S (length g)))%nat with false by (symmetry; apply Nat.eqb_neq; lia).
    destruct u; cbn [lost_after_every] in Het; try discriminate; try (apply Gen; right; discriminate).
    + rewrite bindO_ok. specialize (IH (f ++ [e]) (e2 :: g)).
      rewrite <- app_assoc in IH. cbn [app] in IH. rewrite app_length in IH. cbn [length] in IH.
      replace (length f + 1)%nat with (S (length f)) in IH by lia.
      replace (map iota (f ++ [e]) ++ sels (u2 :: us) (e2 :: g)) with (map iota f ++ sels (UEvery :: u2 :: us) (e :: e2 :: g)) in IH.
      2:{ rewrite map_app, <- app_assoc. reflexivity. }
      apply IH; auto; try discriminate.
      destruct f; discriminate.
Qed.

Lemma every_at_0 chk fuel off es r : es <> [] -> all_pos es ->
  gen_at chk fuel off es 0 false r
  = if Nat.eqb (length es) 1
    then let* m' := array_slice chk fuel (MId (SD 0 es (infer_strides 1 es))) [r] in Ok (SView off m')
    else Ok (SProxy off (MId (SD 0 es (infer_strides 1 es))) [r]).
Proof.
  intros Hne Hp. unfold gen_at. rewrite sd_infer_ok by auto. rewrite bindO_ok. unfold proxy_at.
  cbn [firstn map length app m_desc sd_exts]. destruct es as [|e [|e2 es]]; [congruence|reflexivity|reflexivity].
Qed.

Lemma ref_abs_1 chk off e s n : 0 <= s -> 0 < n -> s + n <= e -> e <= MAXSZ ->
  ref_abs chk off [e] s n = Ok (SRef (off + s) [n]) /\
  sinv (SRef (off + s) [n])
    (lens [map (fun k => s + k) (iota n)],
     map (aview_at ([e], map (fun p => off + p) (iota (zprod [e])))) (cart [map (fun k => s + k) (iota n)])).
Proof.
  intros Hs Hn Hsn HM. pose proof MAXSZ_W. split.
  - unfold ref_abs. rewrite dassert_ok; [reflexivity|].
    rewrite (w64_small (s + n)) by lia. rewrite w64_small by lia. lia.
  - cbn [sinv fst snd]. cbn [lens map]. rewrite map_length, iota_length, Z2Nat.id by lia. split; [reflexivity|].
    assert (Hg : good_shape ([] ++ [e])).
    { split; [discriminate|]. split; [constructor; [lia|constructor]|]. unfold zprod; simpl. lia. }
    split.
    + split; [discriminate|]. split; [constructor; [lia|constructor]|]. unfold zprod; simpl. lia.
    + pose proof (select_last_block off [] e s n Hg Hs Hn Hsn) as B. cbn [app map] in B. cbn [app]. rewrite B.
      unfold zprod; simpl. replace (1 * n) with (n * 1) by lia. apply map_ext. intros; lia.
Qed.

Lemma run_ref chk fuel off es us : good_shape es -> Forall2 ok_arg us es -> loses true us = false ->
  (Z.to_nat (zprod es) < fuel)%nat ->
  (forallb is_index us = false -> zprod (result_shape us es) <= MAXSZ /\ (Z.to_nat (zprod (result_shape us es)) < fuel)%nat) ->
  (forallb is_index us = false -> exists s', run chk fuel (SRef off es) us = Ok s' /\
       sinv s' (aselect (es, map (fun p => off + p) (iota (zprod es))) us)) /\
  (forall ix, us = map UIdx ix -> run chk fuel (SRef off es) us = Ok (SElem (off + cm_pos es ix))).
Proof.
  intros Hg Hok Het Hf HR. pose proof Hg as (Hne & Hp & HMe). pose proof MAXSZ_W as HMW.
  pose proof (all_pos_nonneg _ Hp) as Hnn. pose proof (all_le_M _ Hp HMe) as HMs. pose proof (zprod_pos _ Hp) as Hzp.
  destruct us as [|u us]; [inversion Hok; subst; congruence|].
  destruct es as [|e es]; [congruence|].
  pose proof Hok as Hok0. apply Forall2_cons_inv in Hok as [Hoku Hokus].
  destruct (is_index u) eqn:Eu.
  - destruct u as [i| | | | | |]; try discriminate. simpl in Hoku. cbn [forallb is_index andb] in *.
    unfold run. cbn [foldO op_index]. unfold ref_index. cbn [hd]. rewrite dassert_ok by lia. rewrite bindO_ok.
    destruct us as [|u2 us].
    + inversion Hokus; subst. split; [discriminate|]. intros ix Eix. destruct ix as [|j [|? ?]]; try discriminate. inv Eix.
      simpl. do 2 f_equal. lia.
    + destruct es as [|e2 es]; [inversion Hokus|]. cbn [length Nat.eqb].
      rewrite sd_infer_ok by auto. rewrite !bindO_ok. unfold sd_discard. cbn [sd_exts sd_strs sd_start tl infer_strides].
      set (nd := SD i (e2 :: es) (w64 (1 * e) :: infer_strides (w64 (w64 (1 * e) * e2)) es)) in *.
      assert (Hp' : all_pos (e2 :: es)) by (inv Hp; auto). pose proof (zprod_pos _ Hp') as Hzp'.
      assert (Hz : zprod (e :: e2 :: es) = e * zprod (e2 :: es)) by reflexivity.
      assert (He : 0 < e) by (inv Hp; auto).
      assert (Hir : forall ix, In ix (colmajor (e2 :: es)) -> in_range (e :: e2 :: es) (i :: ix)).
      { intros ix Hix. constructor; auto. apply in_colmajor; auto. }
      assert (Hm : minv (MId nd) (e2 :: es) (map (fun ix => cm_pos (e :: e2 :: es) (i :: ix)) (colmajor (e2 :: es)))).
      { split; [discriminate|]. split; [auto|]. split; [nia|]. split; [reflexivity|]. split; [|split].
        - pose proof (infer_strides_ok (e :: e2 :: es) 1 ltac:(auto) ltac:(lia) ltac:(lia)) as Hso. inv Hso; auto.
        - unfold nd; cbn [sd_start]. pose proof (Forall_inv HMs). simpl in H. lia.
        - apply map_ext_In. intros ix Hix. pose proof (cm_pos_range _ _ (Hir _ Hix)) as Hc.
          pose proof (Forall_inv HMs) as HeM. simpl in HeM.
          rewrite sd_at_w64 by (unfold nd; cbn [sd_start]; lia). unfold nd. cbn [sd_start sd_strs].
          change (w64 (1 * e) :: infer_strides (w64 (w64 (1 * e) * e2)) es) with (infer_strides (w64 (1 * e)) (e2 :: es)).
          rewrite <- w64_add_r, dot_infer by (apply in_range_length, in_colmajor; auto).
          autorewrite with w64. cbn [cm_pos] in Hc |- *. rewrite w64_small by lia. lia. }
      assert (Hmap : map (fun p => off + p) (map (fun ix => cm_pos (e :: e2 :: es) (i :: ix)) (colmajor (e2 :: es)))
        = map (fun ix => aview_at (e :: e2 :: es, map (fun p => off + p) (iota (zprod (e :: e2 :: es)))) (i :: ix)) (colmajor (e2 :: es))).
      { rewrite map_map. apply map_ext_In. intros ix Hix. symmetry. apply aview_at_ref; auto. }
      destruct (run_view chk fuel off (u2 :: us) _ _ _ Hm Hokus Het) as [R1 R2]; [nia|exact HR|].
      rewrite Hmap in R1, R2. unfold run in R1, R2. split.
      * intros Hni. destruct (R1 Hni) as (s' & E' & S'). exists s'. split; [exact E'|].
        rewrite aselect_index; auto; try discriminate.
        -- apply all_pos_nonneg; auto.
        -- rewrite map_length, iota_length. lia.
        -- intros ix. apply cart_sels_range; auto. inv HMs; auto.
      * intros ix Eix. destruct ix as [|j ix]; [discriminate|]. cbn [map] in Eix.
        injection Eix as Ei Eix. subst j. rewrite (R2 ix) by auto. do 2 f_equal.
        assert (Hix : in_range (e2 :: es) ix).
        { clear -Hokus Eix. rewrite Eix in Hokus. clear Eix. revert Hokus. generalize (e2 :: es).
          induction ix; intros l H; inv H; constructor; auto. apply IHix; auto. }
        rewrite (aview_at_map (e2 :: es) (fun ix => aview_at _ (i :: ix)) ix) by (auto; apply all_pos_nonneg; auto).
        apply aview_at_ref. constructor; auto.
  - split; [|intros ix Eix; destruct ix; [discriminate|]; simpl in Eix; inv Eix; discriminate].
    intros Hni. destruct (HR Hni) as [HR1 HR2]. rewrite result_shape_nonidx in HR1, HR2 by auto.
    unfold aselect. cbn [fst snd]. rewrite result_shape_nonidx by auto.
    assert (Gen : (us = [] \/ u <> UEvery) -> exists s', (let* s0 := (let* r := resolve u e in gen_at chk fuel off (e :: es) 0 false r) in
        foldO (op_index chk fuel) us s0) = Ok s' /\
      sinv s' (lens (sels (u :: us) (e :: es)),
        map (aview_at (e :: es, map (fun p => off + p) (iota (zprod (e :: es))))) (cart (sels (u :: us) (e :: es))))).
    { intros Hnev. destruct (run_every_generic chk fuel off (fun _ => false) [] (e :: es) u us Hg Hok0) as (m' & E & I); auto.
      { destruct us as [|u2 us]; [reflexivity|]. destruct Hnev as [|Hnev]; [discriminate|]. destruct u; try discriminate; try exact Het; congruence. }
      cbn [hd length app map] in E, I. exists (SView off m'). split; [exact E|]. cbn [sinv fst snd]. eexists. split; [exact I|].
      symmetry. apply map_off_select; auto. intros ix. apply cart_sels_range; auto. }
    unfold run. cbn [foldO op_index]. unfold ref_index. cbn [hd].
    assert (HeM : 0 < e <= MAXSZ). { split; [inv Hp; auto|apply (Forall_inv HMs)]. }
    destruct us as [|u2 us].
    + specialize (Gen (or_introl eq_refl)). inversion Hokus; subst. cbn [length Nat.eqb foldO] in *.
      assert (Habs : forall s n, resolve u e = Ok (RSl s n 1) -> exists s',
         (let* s0 := ref_abs chk off [e] s n in Ok s0) = Ok s' /\
         sinv s' (lens (sels [u] [e]), map (aview_at ([e], map (fun p => off + p) (iota (zprod [e])))) (cart (sels [u] [e])))).
      { intros s n Er. destruct (resolve_ok u e Hoku HeM) as (r & E1 & E2 & E3 & _).
        rewrite Er in E1. inv E1. simpl in E2. cbn [sels]. rewrite <- E3. cbn [rsel].
        replace (map (fun k => s + k * 1) (iota n)) with (map (fun k => s + k) (iota n)) by (apply map_ext; intros; lia).
        destruct (ref_abs_1 chk off e s n) as [A B]; try lia. exists (SRef (off + s) [n]).
        rewrite A. split; auto. }
      destruct u; try discriminate.
      * apply (Habs s n). reflexivity.
      * unfold ref_strided. rewrite sd_infer_ok by auto. cbn [resolve] in Gen.
        rewrite bindO_ok in Gen. rewrite every_at_0 in Gen by auto. rewrite bindO_ok. exact Gen.
      * rewrite bindO_ok. eexists. split; [reflexivity|]. cbn [sels sel lens map]. rewrite iota_length, Z2Nat.id by lia.
        cbn [sinv fst snd]. split; [reflexivity|]. split; [exact Hg|].
        change (cart [iota e]) with (colmajor [e]). apply aview_at_colmajor; auto.
        rewrite map_length, iota_length. lia.
      * destruct (eval_bounded s m e) as [s' n] eqn:Eb. apply (Habs s' n). cbn [resolve]. rewrite Eb. reflexivity.
      * cbn [resolve] in Gen. destruct (eval_bounded_strided s m t e) as [[[s' n] t']| | | |] eqn:Eb; cbn [bindO] in Gen |- *;
          try (destruct Gen as (? & ? & _); discriminate).
        unfold ref_strided. rewrite sd_infer_ok by auto. rewrite every_at_0 in Gen by auto. rewrite bindO_ok. exact Gen.
      * simpl in Hoku. destruct Hoku as [Hl Hall]. rewrite dassert_ok.
        2:{ apply Z.ltb_lt. apply max_idx_lt; auto. lia. }
        rewrite bindO_ok. cbn [sels sel lens map] in HR1.
        assert (Hlen : 0 < Z.of_nat (length l)) by (destruct l; [congruence|simpl; lia]).
        destruct (mk_vec_ok chk [Z.of_nat (length l)] l) as (m & E & I); auto.
        { discriminate. } { constructor; [auto|constructor]. } { unfold zprod; simpl. lia. }
        rewrite E. rewrite !bindO_ok. eexists. split; [reflexivity|]. cbn [sels sel lens map sinv fst snd].
        exists l. split; [exact I|].
        cbn [cart flat_map]. rewrite app_nil_r, map_map. 
        apply map_ext_In. intros i Hi. rewrite Forall_forall in Hall. specialize (Hall i Hi).
        rewrite aview_at_ref by (constructor; [lia|constructor]). simpl. lia.
    + destruct es as [|e2 es]; [inversion Hokus|]. cbn [length Nat.eqb] in *.
      assert (Hpx : forall r, gen_at chk fuel off (e :: e2 :: es) 0 false r = Ok (SProxy off (MId (SD 0 (e :: e2 :: es) (infer_strides 1 (e :: e2 :: es)))) [r])).
      { intros r. rewrite every_at_0 by auto. reflexivity. }
      assert (Hsd : sd_infer chk 0 (e :: e2 :: es) = Ok (SD 0 (e :: e2 :: es) (infer_strides 1 (e :: e2 :: es)))) by (apply sd_infer_ok; auto).
      assert (Gen' := fun h : u <> UEvery => Gen (or_intror h)). clear Gen. rename Gen' into Gen.
      destruct u; try discriminate;
        match type of Gen with UEvery <> UEvery -> _ => idtac | ?a <> _ -> _ => let N := fresh in assert (N : a <> UEvery) by (intro; discriminate); specialize (Gen N); clear N end.
      * unfold ref_abs. rewrite Hsd, bindO_ok. cbn [resolve] in Gen. rewrite bindO_ok, Hpx in Gen. exact Gen.
      * unfold ref_strided. rewrite Hsd, bindO_ok. cbn [resolve] in Gen. rewrite bindO_ok, Hpx in Gen. exact Gen.
      * rewrite bindO_ok. apply (run_every chk fuel off (u2 :: us) [e] (e2 :: es)); auto; discriminate.
      * cbn [resolve] in Gen. destruct (eval_bounded s m e) as [s' n] eqn:Eb.
        unfold ref_abs. rewrite Hsd, bindO_ok. rewrite bindO_ok, Hpx in Gen. exact Gen.
      * cbn [resolve] in Gen. destruct (eval_bounded_strided s m t e) as [[[s' n] t']| | | |] eqn:Eb; cbn [bindO] in Gen |- *;
          try (destruct Gen as (? & ? & _); discriminate).
        unfold ref_strided. rewrite Hsd, bindO_ok. rewrite Hpx in Gen. exact Gen.
      * rewrite Hsd, bindO_ok. cbn [resolve] in Gen. rewrite bindO_ok, Hpx in Gen. exact Gen.
Qed.

(** ** one subscript chain, any view *)
Lemma middle_after us : lost_after_every us = false -> middle_lost us = false.
Proof. induction us as [|u us IH]; [reflexivity|]. destruct us as [|u2 us]; [reflexivity|]. destruct u; cbn [lost_after_every middle_lost kept_by_reference orb]; auto; discriminate. Qed.
Lemma loses_true us b : loses true us = false -> loses b us = false.
Proof. destruct b; auto. destruct us as [|[] us]; auto. apply middle_after. Qed.

Lemma run_any chk fuel s v us : sinv s v -> Forall2 ok_arg us (fst v) -> loses (contiguous s) us = false ->
  (Z.to_nat (zprod (fst v)) < fuel)%nat ->
  (forallb is_index us = false -> zprod (result_shape us (fst v)) <= MAXSZ /\ (Z.to_nat (zprod (result_shape us (fst v))) < fuel)%nat) ->
  (forallb is_index us = false -> exists s', run chk fuel s us = Ok s' /\ sinv s' (aselect v us)) /\
  (forall ix, us = map UIdx ix -> run chk fuel s us = Ok (SElem (aview_at v ix))).
Proof.
  intros Hs Hok Het Hf HR. destruct v as [es qs]. destruct s; simpl in Hs; try tauto.
  - destruct Hs as (-> & Hg & ->). destruct (run_ref chk fuel off es0 us Hg Hok Het Hf HR) as [A B].
    split; auto. intros ix E. rewrite (B ix E). do 2 f_equal. symmetry. apply aview_at_ref.
    subst us. clear -Hok. cbn [fst] in Hok. revert es0 Hok. induction ix; intros l H; inv H; constructor; auto. apply IHix; auto.
  - destruct Hs as (ps & Hm & ->). apply run_view; auto.
Qed.

Lemma aselects_last v steps us : aselects v (steps ++ [us]) = aselect (aselects v steps) us.
Proof. revert v. induction steps; simpl; auto. Qed.

(** ** histories of slicings *)
Fixpoint steps_fuel (v : aview) (steps : list (list uarg)) : nat :=
  match steps with
  | [] => S (Z.to_nat (zprod (fst v)))
  | us :: r => Nat.max (S (Z.to_nat (zprod (fst v)))) (steps_fuel (aselect v us) r)
  end.
Lemma steps_fuel_ge v steps : (S (Z.to_nat (zprod (fst v))) <= steps_fuel v steps)%nat.
Proof. destruct steps; cbn [steps_fuel]; lia. Qed.

Lemma runs_any chk steps fuel : forall s v, sinv s v -> ok_steps v steps -> (steps_fuel v steps <= fuel)%nat ->
  exists s', foldO (run chk fuel) steps s = Ok s' /\ sinv s' (aselects v steps).
Proof.
  induction steps as [|us steps IH]; intros s v Hs Hok Hf.
  - exists s. split; [reflexivity|auto].
  - destruct Hok as ((Ha & Hn & HM) & Het & Hok). cbn [steps_fuel] in Hf.
    pose proof (steps_fuel_ge (aselect v us) steps) as Hge. unfold aselect in Hge at 1. cbn [fst] in Hge.
    destruct (run_any chk fuel s v us Hs Ha (loses_true _ _ Het)) as [A _]; [lia|intros; split; [auto|lia]|].
    destruct (A Hn) as (s1 & E & I). cbn [foldO]. rewrite E, bindO_ok. apply IH; auto. lia.
Qed.
