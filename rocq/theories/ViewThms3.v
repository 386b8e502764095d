(** * ViewThms3: bounded slices, dropped dimensions, axes. *)

From Coq Require Import ZArith List Bool Lia Permutation.
From Verif Require Import Base Spec Desc Slice SliceSpec Lemmas DescProofs SliceProofs ViewProofs RunProofs ViewThms.
Import ListNotations.
Open Scope Z_scope.

(** ** C10 *)
Lemma map_iota_add1 s n : map (fun k => s + k) (iota n) = map (fun k => s + k * 1) (iota n).
Proof. apply map_ext. intros; lia. Qed.

Lemma filter_all_out s t d m : 0 < t -> d <= s -> filter (fun x => x <? d) (map (fun k => s + k * t) (iota m)) = [].
Proof.
  intros Ht Hs. assert (F : forall l, Forall (fun k => 0 <= k) l -> filter (fun x => x <? d) (map (fun k => s + k * t) l) = []).
  { induction 1; simpl; auto. replace (s + x * t <? d) with false; auto. symmetry. apply Z.ltb_ge. nia. }
  apply F. apply Forall_forall. intros k Hk. apply in_iota in Hk. lia.
Qed.

Lemma bounded_clamped s m d : 0 <= s -> 0 <= m -> 0 <= d < W ->
  exists n, eval_bounded s m d = (s, n) /\
    map (fun k => s + k) (iota n) = filter (fun x => x <? d) (map (fun k => s + k) (iota m)) /\
    0 <= n <= m /\ (n = 0 <-> d <= s \/ m = 0).
Proof.
  intros Hs Hm Hd. unfold eval_bounded, bounded_index. eexists. split; [reflexivity|].
  rewrite !map_iota_add1. destruct (s <? d) eqn:E.
  - rewrite w64_small by lia. rewrite filter_map_below by lia.
    replace ((d - s + 1 - 1) / 1) with (d - s) by (rewrite Z.div_1_r; lia).
    split; [reflexivity|]. lia.
  - rewrite filter_all_out by lia. rewrite Z.min_r by lia. split; [reflexivity|]. lia.
Qed.

Lemma bounded_strided_inbounds s m t d : 0 <= s -> 0 <= m -> 0 < t -> 0 <= d < W - 1 ->
  exists n, eval_bounded_strided s m t d = Ok (s, n, t) /\ 0 <= n <= m /\
    (forall k, 0 <= k < n -> s + k * t < d) /\
    ((s < d -> bounded_stride_ok s m t d) ->
       map (fun k => s + k * t) (iota n) = filter (fun x => x <? d) (map (fun k => s + k * t) (iota m)) /\
       (n = 0 <-> d <= s \/ m = 0)).
Proof.
  intros Hs Hm Ht Hd. unfold eval_bounded_strided, bounded_index. destruct (s <? d) eqn:E.
  - assert (Hlt : s < d) by lia. destruct (seq_size_val s d t) as [Ev|Ev]; try lia. rewrite Ev. rewrite bindO_ok.
    set (c := (d - s + (if (d - s) mod t =? 0 then 0 else 1)) / t) in *.
    assert (Hc0 : 0 <= c) by (apply Z.div_pos; destruct ((d - s) mod t =? 0); lia).
    eexists. split; [reflexivity|]. split; [lia|].
    assert (Hub : c * t <= d - s + (if (d - s) mod t =? 0 then 0 else 1)).
    { unfold c. rewrite Z.mul_comm. apply Z.mul_div_le. lia. }
    split.
    + intros k Hk. assert (k + 1 <= c) by lia. pose proof (Z.mod_pos_bound (d - s) t ltac:(lia)).
      destruct ((d - s) mod t =? 0) eqn:Er.
      * nia.
      * apply Z.eqb_neq in Er. assert (t <> 1). { intros ->. rewrite Z.mod_1_r in Er. lia. } nia.
    + intros Hok. destruct (Z.eq_dec m 0) as [->|Hm0].
      { rewrite Z.min_l by lia. split; [reflexivity|lia]. }
      destruct (seq_size_count s d m t) as (c' & Ec & Em); auto; try lia.
      assert (c' = c) by congruence. subst c'. rewrite Em. rewrite filter_map_below by lia. split; [reflexivity|].
      assert (1 <= (d - s + t - 1) / t) by (apply Z.div_le_lower_bound; lia). lia.
  - rewrite bindO_ok. eexists. split; [reflexivity|]. rewrite Z.min_r by lia. split; [lia|]. split; [intros; lia|].
    intros _. rewrite filter_all_out by lia. split; [reflexivity|lia].
Qed.

(** ** C11 *)
Lemma strides_ok_drop k es ss : strides_ok es ss -> strides_ok (fst (drop_units2 k es ss)) (snd (drop_units2 k es ss)).
Proof.
  intros H. revert k. induction H as [|e s es ss Hes H IH]; intros k; simpl; [constructor|]. destruct k.
  - specialize (IH 0%nat). destruct (drop_units2 0 es ss). simpl in *. constructor; auto.
  - destruct (e =? 1); auto. specialize (IH (S k)). destruct (drop_units2 (S k) es ss). simpl in *. constructor; auto.
Qed.

Lemma filter_drop k es : filter (fun e => negb (e =? 1)) (drop_units k es) = filter (fun e => negb (e =? 1)) es.
Proof.
  revert k. induction es as [|e es IH]; intros k; simpl; auto. destruct k.
  - simpl. rewrite IH. reflexivity.
  - destruct (e =? 1) eqn:E; simpl; rewrite ?E; simpl; rewrite IH; auto.
Qed.

Definition ident (s : st) : Prop :=
  match s with SRef _ _ => True | SView _ (MId _) => True | _ => False end.

Lemma drop_sinv chk D s v : sinv s v -> ident s -> (1 <= D <= length (fst v))%nat ->
  (length (fst v) - D <= count_units (fst v))%nat ->
  exists s', drop_to chk D s = Ok s' /\ ident s' /\ sinv s' (drop_units (length (fst v) - D) (fst v), snd v).
Proof.
  intros Hs Hi HD Hc. set (k := (length (fst v) - D)%nat) in *.
  pose proof (sinv_good _ _ Hs) as ((Hne & Hp & HM) & Hl).
  pose proof (drop_units_length k (fst v) Hc) as Hdl.
  assert (Hdne : drop_units k (fst v) <> []). { intros E. rewrite E in Hdl. simpl in Hdl. unfold k in Hdl. lia. }
  assert (Hlen : length (drop_units k (fst v)) = D) by (unfold k in *; lia).
  destruct s as [| off es | | off m |]; simpl in Hs, Hi; try tauto.
  - destruct Hs as (Ev & Hg & Hps). rewrite Ev in *. exists (SRef off (drop_units k es)). split.
    + assert (Ek : (length es - D)%nat = k) by (unfold k; rewrite Ev; reflexivity).
      cbn [drop_to]. unfold drop_one_level_extents. rewrite Ek.
      rewrite dassert_ok by (apply Nat.leb_le; auto). rewrite bindO_ok.
      rewrite Hlen, Nat.leb_refl, Nat.sub_diag. simpl. rewrite app_nil_r. reflexivity.
    + split; [exact I|]. cbn [sinv fst snd]. split; [reflexivity|]. rewrite drop_units_zprod. split; [|auto].
      split; [auto|]. split; [apply drop_units_pos; auto|]. rewrite drop_units_zprod. auto.
  - destruct m as [d|]; [|tauto]. destruct Hs as (ps & Hm & Hps). pose proof Hm as (_ & _ & _ & He & Hst & Hst0 & Eps).
    cbn [m_desc] in He. pose proof (strides_ok_length _ _ Hst) as Hsl.
    pose proof (drop_units2_fst k (fst v) (sd_strs d) Hsl) as Hfst.
    pose proof (drop_units2_length k (fst v) (sd_strs d) Hsl) as Hsnd.
    pose proof (strides_ok_drop k _ _ Hst) as Hso.
    destruct (drop_units2 k (fst v) (sd_strs d)) as [e' s'] eqn:E2. simpl in Hfst, Hsnd, Hso. subst e'.
    exists (SView off (MId (SD (sd_start d) (drop_units k (fst v)) s'))). split.
    + cbn [drop_to]. unfold sd_drop. rewrite He. fold k. rewrite dassert_ok by (apply Nat.leb_le; auto). rewrite bindO_ok, E2.
      rewrite Hlen, Nat.leb_refl, Nat.sub_diag. rewrite Hsnd, Hlen, Nat.sub_diag. simpl. rewrite !app_nil_r. reflexivity.
    + split; [exact I|]. cbn [sinv fst snd]. exists ps. split; [|auto].
      split; [auto|]. split; [apply drop_units_pos; auto|]. split; [rewrite drop_units_zprod; auto|]. split; [reflexivity|].
      split; [exact Hso|]. split; [exact Hst0|].
      rewrite Eps. rewrite <- (undrop_colmajor k (fst v)). rewrite map_map. apply map_ext_In. intros ix Hix.
      rewrite !sd_at_w64 by auto. cbn [sd_start sd_strs]. f_equal. f_equal.
      rewrite dot_undrop; auto.
      * rewrite E2. reflexivity.
      * apply in_range_length. apply in_colmajor. auto.
Qed.

(** ** which chains stay on identity mappers *)
Definition ident' (s : st) : Prop :=
  match s with
  | SElem _ | SRef _ _ | SEvery _ _ _ => True
  | SView _ (MId _) => True
  | SProxy _ (MId _) args => existsb is_rng args = false
  | _ => False
  end.

Lemma resolve_no_range u e r : no_range u = true -> resolve u e = Ok r -> is_rng r = false.
Proof.
  destruct u; simpl; intros H E; try discriminate; try (inv E; reflexivity).
  apply bindO_Ok_inv in E as ([[? ?] ?] & _ & E). inv E. reflexivity.
Qed.

Lemma array_slice_ident chk fuel d rs m : existsb is_rng rs = false -> array_slice chk fuel (MId d) rs = Ok m -> exists d', m = MId d'.
Proof.
  unfold array_slice. intros -> E. apply bindO_Ok_inv in E as (nd & _ & E). inv E. eauto.
Qed.

Lemma existsb_snoc {A} (f : A -> bool) l x : existsb f (l ++ [x]) = existsb f l || f x.
Proof. rewrite existsb_app. simpl. rewrite orb_false_r. reflexivity. Qed.

Lemma proxy_at_ident chk fuel off d args b r s : existsb is_rng args = false -> is_rng r = false ->
  proxy_at chk fuel off (MId d) args b r = Ok s -> ident' s.
Proof.
  intros Ha Hr. assert (existsb is_rng (args ++ [r]) = false) by (rewrite existsb_snoc, Ha, Hr; reflexivity).
  unfold proxy_at. destruct (S (length args) =? length (sd_exts (m_desc (MId d))))%nat; intros E.
  - apply bindO_Ok_inv in E as (m' & E1 & E). inv E. destruct (array_slice_ident _ _ _ _ _ H E1) as (d' & ->). exact I.
  - destruct b; inv E. simpl. auto.
Qed.

Lemma op_index_ident chk fuel s u s' : ident' s -> no_range u = true -> op_index chk fuel s u = Ok s' -> ident' s'.
Proof.
  intros Hi Hu E. destruct s as [p|off es|off es M|off m|off m args]; cbn [op_index] in E.
  - discriminate.
  - unfold ref_index in E.
    assert (Hst : forall s n t, ref_strided chk fuel off es s n t = Ok s' -> ident' s').
    { intros s n t E1. unfold ref_strided in E1. apply bindO_Ok_inv in E1 as (d & _ & E1).
      destruct (length es =? 1)%nat.
      - apply bindO_Ok_inv in E1 as (m' & E2 & E1). inv E1. destruct (array_slice_ident chk fuel d [RSl s n t] m' eq_refl E2) as (d' & ->). exact I.
      - inv E1. reflexivity. }
    assert (Hab : forall s n, ref_abs chk off es s n = Ok s' -> ident' s').
    { intros s n E1. unfold ref_abs in E1. destruct es as [|e [|e2 es]].
      - apply bindO_Ok_inv in E1 as (d & _ & E1). inv E1. reflexivity.
      - apply bindO_Ok_inv in E1 as (d & _ & E1). inv E1. exact I.
      - apply bindO_Ok_inv in E1 as (d & _ & E1). inv E1. reflexivity. }
    destruct u; try discriminate; eauto.
    + apply bindO_Ok_inv in E as (? & _ & E). destruct (length es =? 1)%nat; [inv E; exact I|].
      apply bindO_Ok_inv in E as (d & _ & E). inv E. exact I.
    + destruct (length es =? 1)%nat; inv E; exact I.
    + destruct (eval_bounded _ _ _). eauto.
    + apply bindO_Ok_inv in E as ([[? ?] ?] & _ & E). eauto.
  - unfold every_index in E.
    assert (Hea : forall r, is_rng r = false -> every_at chk fuel off es M r = Ok s' -> ident' s').
    { intros r Hr E1. unfold every_at in E1. apply bindO_Ok_inv in E1 as (d & _ & E1). eapply proxy_at_ident in E1; eauto.
      clear. induction (firstn M es); auto. }
    destruct u; try discriminate.
    + destruct (S M =? length es)%nat; [|discriminate]. apply bindO_Ok_inv in E as (? & _ & E).
      destruct (last es 0 =? 0); [discriminate|]. inv E. exact I.
    + destruct (S M =? length es)%nat; [|eapply Hea; [|exact E]; reflexivity]. apply bindO_Ok_inv in E as (? & _ & E).
      destruct (last es 0 =? 0); [discriminate|]. inv E. exact I.
    + apply bindO_Ok_inv in E as (r & Er & E). eapply Hea; eauto. eapply resolve_no_range; eauto.
    + destruct (S M =? length es)%nat; inv E; exact I.
    + apply bindO_Ok_inv in E as (r & Er & E). eapply Hea; eauto. eapply resolve_no_range; eauto.
    + apply bindO_Ok_inv in E as (r & Er & E). eapply Hea; eauto. eapply resolve_no_range; eauto.
  - destruct m as [d|]; simpl in Hi; [|tauto]. unfold view_index in E. cbn [m_desc] in E.
    assert (Hgen : forall r, is_rng r = false ->
      (if (length (sd_exts d) =? 1)%nat then let* m' := array_slice chk fuel (MId d) [r] in Ok (SView off m') else Ok (SProxy off (MId d) [r])) = Ok s' -> ident' s').
    { intros r Hr E1. destruct (length (sd_exts d) =? 1)%nat.
      - apply bindO_Ok_inv in E1 as (m' & E2 & E1). inv E1.
        destruct (array_slice_ident chk fuel d [r] m' ltac:(simpl; rewrite Hr; reflexivity) E2) as (d' & ->). exact I.
      - inv E1. simpl. rewrite Hr. reflexivity. }
    destruct u; try discriminate;
      try (apply bindO_Ok_inv in E as (r & Er & E); eapply Hgen; [|exact E]; eapply resolve_no_range; eauto; fail).
    + apply bindO_Ok_inv in E as (? & _ & E). destruct (length (sd_exts d) =? 1)%nat.
      * apply bindO_Ok_inv in E as (? & _ & E). inv E. exact I.
      * apply bindO_Ok_inv in E as (m' & E1 & E). inv E. cbn [m_drop_first] in E1. inv E1. exact I.
    + destruct (length (sd_exts d) =? 1)%nat; inv E; [exact I|reflexivity].
  - destruct m as [d|]; simpl in Hi; [|tauto]. unfold proxy_index in E. apply bindO_Ok_inv in E as (r & Er & E).
    eapply proxy_at_ident; eauto. eapply resolve_no_range; eauto.
Qed.

Lemma run_ident chk fuel us : forall s s', ident' s -> forallb no_range us = true -> run chk fuel s us = Ok s' -> ident' s'.
Proof.
  induction us as [|u us IH]; intros s s' Hi Hu E; unfold run in E; cbn [foldO] in E.
  - inv E. auto.
  - apply bindO_Ok_inv in E as (s1 & E1 & E). cbn [forallb] in Hu. apply andb_true_iff in Hu as [Hu1 Hu2].
    eapply IH; [|exact Hu2|exact E]. eapply op_index_ident; eauto.
Qed.

Lemma runs_ident chk fuel steps : forall s s', ident' s -> forallb (forallb no_range) steps = true ->
  foldO (run chk fuel) steps s = Ok s' -> ident' s'.
Proof.
  induction steps as [|us steps IH]; intros s s' Hi Hu E; cbn [foldO] in E.
  - inv E. auto.
  - apply bindO_Ok_inv in E as (s1 & E1 & E). cbn [forallb] in Hu. apply andb_true_iff in Hu as [Hu1 Hu2].
    eapply IH; [|exact Hu2|exact E]. eapply run_ident; eauto.
Qed.

Lemma ident_sinv s v : sinv s v -> ident' s -> ident s.
Proof. destruct s as [| | |off [d|]|]; simpl; tauto. Qed.

(** Dropping dimensions of any view reachable without index ranges. *)
Lemma drop_to_ok chk es steps D : good_shape es -> ok_steps (afull es) steps -> forallb (forallb no_range) steps = true ->
  exists fuel0, forall fuel, (fuel0 <= fuel)%nat -> exists s shape ps,
    foldO (run chk fuel) steps (SRef 0 es) = Ok s /\ dims s = Some shape /\ positions fuel s = Ok ps /\
    ((1 <= D <= length shape)%nat -> (length shape - D <= count_units shape)%nat ->
     exists s' shape', drop_to chk D s = Ok s' /\ dims s' = Some shape' /\ positions fuel s' = Ok ps /\
       length shape' = D /\ filter (fun e => negb (e =? 1)) shape' = filter (fun e => negb (e =? 1)) shape).
Proof.
  intros Hg Hok Hnr. destruct (history_ok chk es steps Hg Hok) as (f0 & H). exists f0. intros fuel Hf.
  destruct (H fuel Hf) as (s & E & I & Hv). set (v := aselects (afull es) steps) in *.
  exists s, (fst v), (snd v). split; [auto|]. split; [apply sinv_dims; auto|]. split; [apply sinv_positions; auto|].
  intros HD Hc. assert (Hid : ident s). { apply (ident_sinv _ _ I). eapply runs_ident; eauto. exact Logic.I. }
  destruct (drop_sinv chk D s v I Hid HD Hc) as (s' & E' & _ & I').
  exists s', (drop_units (length (fst v) - D) (fst v)). split; [auto|]. split; [apply (sinv_dims _ _ I')|].
  split; [apply (sinv_positions _ _ _ I'); cbn [fst]; rewrite drop_units_zprod; auto|].
  split; [rewrite drop_units_length by auto; lia|apply filter_drop].
Qed.

(** ** C12 *)
Lemma mapO_all {A B} (f : A -> outcome B) (P : A -> B -> Prop) l : (forall a, In a l -> exists b, f a = Ok b /\ P a b) ->
  exists r, mapO f l = Ok r /\ Forall2 P l r.
Proof.
  induction l as [|a l IH]; intros H.
  - exists []. split; [reflexivity|constructor].
  - destruct (H a (or_introl eq_refl)) as (b & E & Pb). destruct IH as (r & Er & Pr). { intros; apply H; right; auto. }
    exists (b :: r). cbn [mapO]. rewrite E, bindO_ok, Er, bindO_ok. split; [reflexivity|constructor; auto].
Qed.

Lemma axis_row chk fuel s r c ps i : sinv s ([r; c], ps) -> (Z.to_nat (r * c) < fuel)%nat -> 0 <= i < r ->
  exists s', axis_at chk fuel 0 s i = Ok s' /\ sinv s' ([c], map (fun j => aview_at ([r; c], ps) [i; j]) (iota c)).
Proof.
  intros Hs Hf Hi. pose proof (sinv_good _ _ Hs) as ((Hne & Hp & HM) & Hl). cbn [fst snd] in *.
  assert (Hc : 0 < c) by (inversion Hp as [|? ? ? Hp2]; subst; inversion Hp2; auto).
  assert (Hz : zprod [r; c] = r * c) by (unfold zprod; simpl; lia). rewrite Hz in *.
  assert (Hrs : result_shape [UIdx i; UEvery] [r; c] = [c]) by (simpl; rewrite iota_length; f_equal; lia).
  destruct (run_any chk fuel s ([r; c], ps) [UIdx i; UEvery] Hs) as [R _]; auto.
  { constructor; [simpl; lia|]. constructor; [exact I|constructor]. }
  { cbn [fst]. rewrite Hz. auto. }
  { intros _. cbn [fst]. rewrite Hrs. unfold zprod; simpl. nia. }
  destruct (R eq_refl) as (s' & E & I'). exists s'. split.
  - unfold axis_at. rewrite (sinv_dims _ _ Hs). cbn [fst length seq map Nat.eqb]. rewrite E, bindO_ok.
    rewrite (sinv_dims _ _ I'). unfold aselect. cbn [fst]. rewrite Hrs. reflexivity.
  - unfold aselect in I'. cbn [fst] in I'. rewrite Hrs in I'. cbn [sels sel cart flat_map] in I'.
    replace (map (fun j => aview_at ([r; c], ps) [i; j]) (iota c))
      with (map (aview_at ([r; c], ps)) (flat_map (fun tl => map (fun i0 => i0 :: tl) [i]) (map (fun i0 => [i0]) (iota c) ++ []))); auto.
    rewrite app_nil_r. generalize (iota c) as l. induction l; [reflexivity|]. cbn [map flat_map app] in *. f_equal. auto.
Qed.

Lemma last_axis_args n k : map (fun j => if (j =? n)%nat then UIdx k else UEvery) (seq 0 (S n)) = map (fun _ => UEvery) (seq 0 n) ++ [UIdx k].
Proof.
  rewrite seq_S, map_app. cbn [map]. rewrite Nat.eqb_refl. f_equal. apply map_ext_In. intros j Hj. apply in_seq in Hj.
  replace (j =? n)%nat with false by (symmetry; apply Nat.eqb_neq; lia). reflexivity.
Qed.

Lemma drop_unit_last front : all_pos front -> ~ In 1 front -> drop_units 1 (front ++ [1]) = front.
Proof.
  induction 1 as [|e f He Hf IH]; intros Hn; [reflexivity|]. cbn [app drop_units].
  replace (e =? 1) with false. - rewrite IH; auto. intros C. apply Hn. right; auto.
  - symmetry. apply Z.eqb_neq. intros ->. apply Hn. left; auto.
Qed.

Lemma drop_unit_col r : drop_units 1 [r; 1] = [r].
Proof. cbn [drop_units]. destruct (r =? 1) eqn:E; [apply Z.eqb_eq in E; subst; reflexivity|reflexivity]. Qed.

Lemma loses_every_last n k : loses true (map (fun _ : nat => UEvery) (seq 0 n) ++ [UIdx k]) = false.
Proof.
  assert (H : forall a, lost_after_every (map (fun _ : nat => UEvery) (seq a n) ++ [UIdx k]) = false).
  { induction n as [|n IH]; intros a; [reflexivity|]. apply IH. }
  destruct n as [|n]; [reflexivity|]. apply (H 0%nat).
Qed.

Lemma map_every_seq n es : length es = n -> map (fun _ : nat => UEvery) (seq 0 n) = map (fun _ : Z => UEvery) es.
Proof.
  intros <-. generalize 0%nat. induction es as [|e es IH]; intros a; [reflexivity|]. cbn [length seq map]. f_equal. apply IH.
Qed.

(** last axis, any order: elements always right; extents right if [drop] finds the new unit dimension *)
Lemma axis_last chk fuel s front l ps k : sinv s (front ++ [l], ps) -> ident s -> front <> [] ->
  (Z.to_nat (zprod (front ++ [l])) < fuel)%nat -> 0 <= k < l ->
  exists s', axis_at chk fuel (length front) s k = Ok s' /\
    sinv s' (drop_units 1 (front ++ [1]), map (fun h => aview_at (front ++ [l], ps) (h ++ [k])) (colmajor front)).
Proof.
  intros Hs Hid Hfne Hf Hk. pose proof (sinv_good _ _ Hs) as ((Hne & Hp & HM) & Hl). cbn [fst snd] in *.
  pose proof Hp as Hp0. unfold all_pos in Hp0. rewrite Forall_app in Hp0. destruct Hp0 as [Hpf Hpl].
  pose proof (zprod_pos _ Hpf) as Hzf. rewrite zprod_snoc in HM, Hf.
  set (us := map (fun _ : nat => UEvery) (seq 0 (length front)) ++ [UIdx k]).
  assert (Hus : us = map (fun _ : Z => UEvery) front ++ [UIdx k]) by (unfold us; rewrite (map_every_seq _ front); auto).
  assert (Hsel : sels us (front ++ [l]) = map iota front ++ [[k]]).
  { rewrite Hus, sels_every. reflexivity. }
  assert (Hrs : result_shape us (front ++ [l]) = front ++ [1]).
  { destruct front as [|e0 front]; [congruence|]. rewrite Hus. cbn [map app]. rewrite result_shape_nonidx by reflexivity.
    change (UEvery :: map (fun _ : Z => UEvery) front ++ [UIdx k]) with (map (fun _ : Z => UEvery) (e0 :: front) ++ [UIdx k]).
    rewrite <- Hus. change (e0 :: front ++ [l]) with ((e0 :: front) ++ [l]). rewrite Hsel, lens_app, lens_iota by (apply all_pos_nonneg; auto). reflexivity. }
  assert (Hz1 : zprod (front ++ [1]) = zprod front) by (rewrite zprod_snoc; lia).
  destruct (run_any chk fuel s (front ++ [l], ps) us Hs) as [R _].
  { cbn [fst]. rewrite Hus. apply Forall2_app.
    - clear. induction front; constructor; auto. exact I.
    - constructor; [simpl; lia|constructor]. }
  { apply loses_true, loses_every_last. }
  { cbn [fst]. rewrite zprod_snoc. auto. }
  { intros _. cbn [fst]. rewrite Hrs, Hz1. nia. }
  assert (Hn : forallb is_index us = false).
  { rewrite Hus. destruct front; [congruence|reflexivity]. }
  destruct (R Hn) as (s' & E & I'). unfold aselect in I'. cbn [fst] in I'. rewrite Hrs, Hsel in I'.
  assert (Hid' : ident s').
  { apply (ident_sinv _ _ I'). eapply run_ident; [|idtac|exact E].
    - destruct s as [| | |? [?|]|]; simpl in Hid |- *; tauto.
    - rewrite Hus, forallb_app. clear. apply andb_true_iff. split; [|reflexivity]. induction front; auto. }
  destruct (drop_sinv chk (length front) s' _ I' Hid') as (s2 & E2 & _ & I2).
  { cbn [fst]. rewrite app_length. simpl. destruct front; [congruence|simpl; lia]. }
  { cbn [fst]. rewrite app_length. simpl. unfold count_units. rewrite filter_app, app_length. simpl. lia. }
  cbn [fst snd] in I2. rewrite app_length in I2. cbn [length] in I2. replace (length front + 1 - length front)%nat with 1%nat in I2 by lia.
  exists s2. split.
  - unfold axis_at. rewrite (sinv_dims _ _ Hs). cbn [fst]. rewrite app_length. cbn [length].
    replace (length front + 1)%nat with (S (length front)) by lia. rewrite last_axis_args. fold us. rewrite E, bindO_ok.
    rewrite (sinv_dims _ _ I'). cbn [fst]. rewrite app_length. cbn [length].
    replace (length front + 1 =? S (length front) - 1)%nat with false by (symmetry; apply Nat.eqb_neq; lia).
    replace (S (length front) - 1)%nat with (length front) by lia. exact E2.
  - replace (map (fun h => aview_at (front ++ [l], ps) (h ++ [k])) (colmajor front))
      with (map (aview_at (front ++ [l], ps)) (cart (map iota front ++ [[k]]))); auto.
    rewrite cart_snoc. cbn [flat_map]. rewrite app_nil_r, map_map. reflexivity.
Qed.

Lemma flat_map_cons_perm {A B} (h : A -> B) (t : A -> list B) l :
  Permutation (flat_map (fun j => h j :: t j) l) (map h l ++ flat_map t l).
Proof.
  induction l as [|a l IH]; simpl; [constructor|]. apply perm_skip. rewrite IH, !app_assoc.
  apply Permutation_app_tail. apply Permutation_app_comm.
Qed.
Lemma double_loop_perm {A B C} (g : A -> B -> C) la lb :
  Permutation (flat_map (fun i => map (g i) lb) la) (flat_map (fun j => map (fun i => g i j) la) lb).
Proof.
  induction la as [|a la IH]; simpl.
  - induction lb; simpl; auto.
  - rewrite flat_map_cons_perm. apply Permutation_app_head. exact IH.
Qed.

Lemma Forall2_map_eq {A B C} (f : A -> C) (g : B -> outcome C) la lb :
  Forall2 (fun a b => g b = Ok (f a)) la lb -> mapO g lb = Ok (map f la).
Proof. induction 1; simpl; auto. rewrite H. simpl. rewrite IHForall2. reflexivity. Qed.

Lemma Forall2_impl {A B} (P Q : A -> B -> Prop) l l' : (forall a b, P a b -> Q a b) -> Forall2 P l l' -> Forall2 Q l l'.
Proof. intros H. induction 1; constructor; auto. Qed.

Lemma rows_columns chk es steps r c : good_shape es -> ok_steps (afull es) steps -> forallb (forallb no_range) steps = true ->
  fst (aselects (afull es) steps) = [r; c] ->
  exists fuel0, forall fuel, (fuel0 <= fuel)%nat -> exists s ps rows cols,
    foldO (run chk fuel) steps (SRef 0 es) = Ok s /\ dims s = Some [r; c] /\ positions fuel s = Ok ps /\
    axis_items chk fuel 0 s = Ok rows /\ axis_items chk fuel 1 s = Ok cols /\
    Forall (fun x => dims x = Some [c]) rows /\ Forall (fun x => dims x = Some [r]) cols /\
    mapO (positions fuel) rows = Ok (map (fun i => map (fun j => nth (Z.to_nat (i + r * j)) ps 0) (iota c)) (iota r)) /\
    mapO (positions fuel) cols = Ok (map (fun j => map (fun i => nth (Z.to_nat (i + r * j)) ps 0) (iota r)) (iota c)) /\
    Permutation (concat (map (fun i => map (fun j => nth (Z.to_nat (i + r * j)) ps 0) (iota c)) (iota r))) ps /\
    concat (map (fun j => map (fun i => nth (Z.to_nat (i + r * j)) ps 0) (iota r)) (iota c)) = ps.
Proof.
  intros Hg Hok Hnr Hd. destruct (history_ok chk es steps Hg Hok) as (f0 & H). exists f0. intros fuel Hf.
  destruct (H fuel Hf) as (s & E & I & Hv). remember (aselects (afull es) steps) as v eqn:Ev. destruct v as [sh ps]. cbn [fst] in *. subst sh.
  assert (Hid : ident s). { apply (ident_sinv _ _ I). eapply runs_ident; eauto. exact Logic.I. }
  pose proof (sinv_good _ _ I) as ((Hne & Hp & HM) & Hl). cbn [fst snd] in *.
  assert (Hr : 0 < r) by (inv Hp; auto).
  assert (Hc : 0 < c) by (inversion Hp as [|? ? ? Hp2]; subst; inversion Hp2; auto).
  assert (Hz : zprod [r; c] = r * c) by (unfold zprod; simpl; lia). rewrite Hz in *.
  set (at_ := fun i j => nth (Z.to_nat (i + r * j)) ps 0).
  assert (Hat : forall i j, aview_at ([r; c], ps) [i; j] = at_ i j).
  { intros. unfold aview_at, at_. simpl. do 2 f_equal. ring. }
  destruct (mapO_all (axis_at chk fuel 0 s) (fun i x => sinv x ([c], map (at_ i) (iota c))) (iota r)) as (rows & Er & Fr).
  { intros i Hi. apply in_iota in Hi. destruct (axis_row chk fuel s r c ps i I Hv Hi) as (s' & E1 & I1).
    exists s'. split; auto. rewrite (map_ext_In _ (at_ i)) in I1; auto. }
  destruct (mapO_all (axis_at chk fuel 1 s) (fun j x => sinv x ([r], map (fun i => at_ i j) (iota r))) (iota c)) as (cols & Ec & Fc).
  { intros j Hj. apply in_iota in Hj. destruct (axis_last chk fuel s [r] c ps j I Hid) as (s' & E1 & I1); auto; [discriminate|simpl app; rewrite Hz; auto|].
    exists s'. split; [exact E1|]. simpl app in I1. rewrite drop_unit_col in I1. rewrite colmajor_1, map_map in I1. cbn [app] in I1.
    rewrite (map_ext_In _ (fun i => at_ i j)) in I1; auto. }
  exists s, ps, rows, cols. split; [auto|]. split; [apply (sinv_dims _ _ I)|]. split; [apply (sinv_positions _ _ _ I); cbn [fst]; rewrite Hz; auto|].
  assert (Hc1 : (Z.to_nat c < fuel)%nat) by nia. assert (Hr1 : (Z.to_nat r < fuel)%nat) by nia.
  split. { unfold axis_items. rewrite (sinv_dims _ _ I). exact Er. }
  split. { unfold axis_items. rewrite (sinv_dims _ _ I). exact Ec. }
  split. { clear -Fr. induction Fr; constructor; auto. apply (sinv_dims _ _ H). }
  split. { clear -Fc. induction Fc; constructor; auto. apply (sinv_dims _ _ H). }
  split. { apply Forall2_map_eq. eapply Forall2_impl; [|exact Fr]. intros a b Ib. apply (sinv_positions _ _ _ Ib). cbn [fst]. unfold zprod; simpl. rewrite Z.mul_1_r. auto. }
  split. { apply Forall2_map_eq. eapply Forall2_impl; [|exact Fc]. intros a b Ib. apply (sinv_positions _ _ _ Ib). cbn [fst]. unfold zprod; simpl. rewrite Z.mul_1_r. auto. }
  assert (Hcat : concat (map (fun j => map (fun i => at_ i j) (iota r)) (iota c)) = ps).
  { rewrite <- (aview_at_colmajor [r; c] ps) at 1; [|apply all_pos_nonneg; auto|rewrite Hz; auto].
    rewrite colmajor_cons, colmajor_1, flat_map_concat_map, concat_map, !map_map. f_equal. apply map_ext. intros j.
    rewrite map_map. apply map_ext. intros i. rewrite Hat. reflexivity. }
  split; [|exact Hcat].
  assert (HP : Permutation (concat (map (fun i => map (at_ i) (iota c)) (iota r)))
                           (concat (map (fun j => map (fun i => at_ i j) (iota r)) (iota c)))).
  { rewrite <- !flat_map_concat_map. apply double_loop_perm. }
  rewrite Hcat in HP. exact HP.
Qed.

Lemma axis_last_items chk es steps front l : good_shape es -> ok_steps (afull es) steps -> forallb (forallb no_range) steps = true ->
  fst (aselects (afull es) steps) = front ++ [l] -> front <> [] ->
  exists fuel0, forall fuel, (fuel0 <= fuel)%nat -> exists s ps items,
    foldO (run chk fuel) steps (SRef 0 es) = Ok s /\ dims s = Some (front ++ [l]) /\ positions fuel s = Ok ps /\
    axis_items chk fuel (length front) s = Ok items /\
    (~ In 1 front -> Forall (fun x => dims x = Some front) items) /\
    mapO (positions fuel) items
      = Ok (map (fun k => map (fun h => nth (Z.to_nat (cm_pos (front ++ [l]) (h ++ [k]))) ps 0) (colmajor front)) (iota l)).
Proof.
  intros Hg Hok Hnr Hd Hfne. destruct (history_ok chk es steps Hg Hok) as (f0 & H). exists f0. intros fuel Hf.
  destruct (H fuel Hf) as (s & E & I & Hv). remember (aselects (afull es) steps) as v eqn:Ev. destruct v as [sh ps]. cbn [fst] in *. subst sh.
  assert (Hid : ident s). { apply (ident_sinv _ _ I). eapply runs_ident; eauto. exact Logic.I. }
  pose proof (sinv_good _ _ I) as ((Hne & Hp & HM) & Hl). cbn [fst snd] in *.
  pose proof Hp as Hp0. unfold all_pos in Hp0. rewrite Forall_app in Hp0. destruct Hp0 as [Hpf Hpl].
  destruct (mapO_all (axis_at chk fuel (length front) s)
     (fun k x => sinv x (drop_units 1 (front ++ [1]), map (fun h => aview_at (front ++ [l], ps) (h ++ [k])) (colmajor front))) (iota l)) as (items & Ei & Fi).
  { intros k Hk. apply in_iota in Hk. apply (axis_last chk fuel s front l ps k I Hid); auto. }
  exists s, ps, items. split; [auto|]. split; [apply (sinv_dims _ _ I)|]. split; [apply (sinv_positions _ _ _ I); auto|].
  split. { unfold axis_items. rewrite (sinv_dims _ _ I). cbn [fst]. rewrite app_nth2, Nat.sub_diag by lia. exact Ei. }
  split.
  - intros Hn. rewrite drop_unit_last in Fi by auto. clear -Fi. induction Fi; constructor; auto. apply (sinv_dims _ _ H).
  - apply Forall2_map_eq. eapply Forall2_impl; [|exact Fi]. intros a b Ib. apply (sinv_positions _ _ _ Ib). cbn [fst].
    rewrite drop_units_zprod, zprod_snoc. rewrite zprod_snoc in Hv. pose proof (zprod_pos _ Hpf). inv Hpl. nia.
Qed.
