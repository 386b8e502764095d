(** * SliceProofs: correctness of indexing and slicing. *)

From Coq Require Import ZArith List Bool Lia.
From Verif Require Import Base Spec Desc Slice SliceSpec Lemmas DescProofs.
Import ListNotations.
Open Scope Z_scope.

Definition lens (ss : list (list Z)) : list Z := map (fun s => Z.of_nat (length s)) ss.

Fixpoint pick (ss : list (list Z)) (ix : list Z) : list Z :=
  match ss, ix with
  | s :: ss', j :: ix' => nth (Z.to_nat j) s 0 :: pick ss' ix'
  | _, _ => []
  end.

Lemma iota_nth_map s : s = map (fun j => nth (Z.to_nat j) s 0) (iota (Z.of_nat (length s))).
Proof.
  apply nth_ext with (d := 0) (d' := 0).
  - rewrite map_length, iota_length. lia.
  - intros n Hn. symmetry.
    rewrite nth_indep with (d' := (fun j => nth (Z.to_nat j) s 0) 0) by (rewrite map_length, iota_length; lia).
    rewrite (map_nth (fun j => nth (Z.to_nat j) s 0)), iota_nth by lia. rewrite Nat2Z.id. reflexivity.
Qed.

Lemma cart_pick ss : cart ss = map (pick ss) (colmajor (lens ss)).
Proof.
  induction ss as [|s ss IH]; [reflexivity|].
  unfold lens. simpl map. rewrite colmajor_cons. fold (lens ss). cbn [cart]. rewrite IH. clear IH.
  induction (colmajor (lens ss)) as [|tl l IHl]; [reflexivity|].
  simpl. rewrite map_app. f_equal; [|exact IHl].
  rewrite map_map. cbn [pick]. rewrite (iota_nth_map s) at 1. rewrite map_map. reflexivity.
Qed.

Lemma pick_in ss ix : in_range (lens ss) ix -> In (pick ss ix) (cart ss).
Proof.
  intros. rewrite cart_pick. apply in_map. apply in_colmajor. auto.
Qed.

Lemma cart_in_range ss es ix : Forall2 (fun s e => Forall (fun i => 0 <= i < e) s) ss es ->
  In ix (cart ss) -> in_range es ix.
Proof.
  intros H Hin. apply in_cart in Hin. revert es H.
  induction Hin; intros es H2; inv H2; constructor; auto.
  - match goal with F : Forall _ x |- _ => rewrite Forall_forall in F; auto end.
  - apply IHHin; auto.
Qed.

Lemma cart_snoc ss s :
  cart (ss ++ [s]) = flat_map (fun i => map (fun h => h ++ [i]) (cart ss)) s.
Proof.
  induction ss as [|s0 ss IH]; simpl.
  - rewrite app_nil_r. induction s; simpl; congruence.
  - rewrite IH. clear IH. induction s as [|i s IHs]; simpl; auto.
    rewrite flat_map_app, IHs. f_equal. clear IHs.
    induction (cart ss) as [|h l IHl]; simpl; [reflexivity|]. rewrite IHl, map_app, !map_map. reflexivity.
Qed.

Lemma lens_app a b : lens (a ++ b) = lens a ++ lens b.
Proof. apply map_app. Qed.

(** ** resolved arguments *)
Definition rsel (r : rarg) : list Z :=
  match r with
  | RIdx i => [i]
  | RSl s n t => map (fun k => s + k * t) (iota n)
  | RRng l => l
  end.
Definition rok (r : rarg) (e : Z) : Prop :=
  match r with
  | RIdx i => 0 <= i < e
  | RSl s n t => 0 <= s /\ 0 < n /\ 0 < t <= e /\ s + (n - 1) * t < e
  | RRng l => l <> [] /\ Forall (fun i => 0 <= i < e) l
  end.

Lemma filter_map_below s t e m : 0 < t -> s < e ->
  filter (fun x => x <? e) (map (fun k => s + k * t) (iota m))
  = map (fun k => s + k * t) (iota (Z.min m ((e - s + t - 1) / t))).
Proof.
  intros Ht Hs. set (c := (e - s + t - 1) / t).
  assert (Hc : forall k, 0 <= k -> (s + k * t < e <-> k < c)).
  { intros k Hk. unfold c. split; intros.
    - apply Z.lt_le_trans with (m := k + 1); [lia|]. apply Z.div_le_lower_bound; lia.
    - assert (k + 1 <= (e - s + t - 1) / t) by lia.
      assert ((k + 1) * t <= e - s + t - 1).
      { etransitivity; [apply Z.mul_le_mono_nonneg_r; [lia|exact H0]|].
        rewrite Z.mul_comm. apply Z.mul_div_le; lia. }
      lia. }
  assert (0 <= c). { unfold c. apply Z.div_pos; lia. }
  destruct (Z.le_gt_cases m 0).
  { rewrite !iota_nil by lia. reflexivity. }
  destruct (Z.le_gt_cases m c) as [Hm|Hm].
  - rewrite Z.min_l by auto.
    assert (F : forall l, Forall (fun k => 0 <= k < c) l ->
       filter (fun x => x <? e) (map (fun k => s + k * t) l) = map (fun k => s + k * t) l).
    { induction 1; simpl; auto. replace (s + x * t <? e) with true.
      - f_equal; auto. - symmetry. apply Z.ltb_lt. apply Hc; lia. }
    apply F. apply Forall_forall. intros k Hk. apply in_iota in Hk. lia.
  - rewrite Z.min_r by lia. replace m with (c + (m - c)) by lia.
    rewrite iota_app by lia. rewrite map_app, filter_app.
    assert (F : forall l, Forall (fun k => 0 <= k < c) l ->
       filter (fun x => x <? e) (map (fun k => s + k * t) l) = map (fun k => s + k * t) l).
    { induction 1; simpl; auto. replace (s + x * t <? e) with true.
      - f_equal; auto. - symmetry. apply Z.ltb_lt. apply Hc; lia. }
    rewrite F by (apply Forall_forall; intros k Hk; apply in_iota in Hk; lia).
    assert (G : forall l, Forall (fun k => 0 <= k) l ->
       filter (fun x => x <? e) (map (fun k => s + k * t) (map (Z.add c) l)) = []).
    { induction 1; simpl; auto. replace (s + (c + x) * t <? e) with false; auto.
      symmetry. apply Z.ltb_ge. apply Z.nlt_ge. rewrite Hc; lia. }
    rewrite G by (apply Forall_forall; intros k Hk; apply in_iota in Hk; lia).
    apply app_nil_r.
Qed.

Lemma seq_size_val s dim t : 0 <= s < dim -> dim < W -> 0 < t ->
  seq_size s dim t = Ok ((dim - s + (if (dim - s) mod t =? 0 then 0 else 1)) / t) \/ dim - s + 1 = W.
Proof.
  intros. destruct (Z.eq_dec (dim - s + 1) W); [auto|left].
  unfold seq_size. replace (s <? dim) with true by lia. rewrite (w64_small (dim - s)) by lia.
  replace (t =? 0) with false by lia.
  rewrite w64_small by (destruct ((dim - s) mod t =? 0); lia). reflexivity.
Qed.

Lemma seq_size_count s e m t : 0 <= s < e -> e < W - 1 -> 0 < m -> 0 < t -> bounded_stride_ok s m t e ->
  exists c, seq_size s e t = Ok c /\ Z.min m c = Z.min m ((e - s + t - 1) / t).
Proof.
  intros Hs HW Hm Ht Hok. destruct (seq_size_val s e t) as [E|E]; try lia.
  eexists; split; [exact E|]. clear E.
  pose proof (Z.mod_pos_bound (e - s) t ltac:(lia)).
  pose proof (Z.div_mod (e - s) t ltac:(lia)).
  unfold bounded_stride_ok in Hok.
  set (q := (e - s) / t) in *. set (r := (e - s) mod t) in *.
  destruct (r =? 0) eqn:E0.
  - apply Z.eqb_eq in E0. rewrite Z.add_0_r. f_equal. fold q.
    apply Z.div_unique with (r := t - 1); lia.
  - apply Z.eqb_neq in E0. destruct Hok as [?|[Hr|Hq]]; [lia| |].
    + f_equal. assert ((e - s + 1) / t = q + 1) by (symmetry; apply Z.div_unique with (r := 0); lia).
      assert ((e - s + t - 1) / t = q + 1) by (symmetry; apply Z.div_unique with (r := r - 1); lia). lia.
    + rewrite !Z.min_l; auto.
      * etransitivity; [exact Hq|]. apply Z.div_le_mono; lia.
      * etransitivity; [exact Hq|]. apply Z.div_le_mono; lia.
Qed.

Lemma resolve_ok u e : ok_arg u e -> 0 < e <= MAXSZ ->
  exists r, resolve u e = Ok r /\ rok r e /\ rsel r = sel u e /\ (is_rng r = true <-> exists l, u = URange l).
Proof.
  intros Hok He. assert (HB : MAXSZ < W - 1) by reflexivity.
  destruct u; simpl in *.
  - eexists; repeat split; eauto; try lia; simpl. discriminate. intros [l E]; discriminate.
  - eexists; repeat split; eauto; simpl; try lia; try (intros [l E]; discriminate); try discriminate.
    apply map_ext. intros; lia.
  - eexists; repeat split; eauto; simpl; try lia; try (intros [l E]; discriminate); try discriminate.
  - eexists; repeat split; eauto; simpl; try lia; try (intros [l E]; discriminate); try discriminate.
    rewrite <- (map_id (iota e)) at 2. apply map_ext. intros; lia.
  - replace (s <? e) with true by lia. rewrite w64_small by lia. unfold bounded_index.
    eexists; repeat split; eauto; simpl; try lia; try (intros [l E]; discriminate); try discriminate.
    transitivity (filter (fun x => x <? e) (map (fun k => s + k * 1) (iota m))).
    + rewrite filter_map_below by lia. do 3 f_equal. rewrite Z.div_1_r. lia.
    + f_equal. apply map_ext. intros; lia.
  - destruct Hok as (Hs & Hm & Ht & Hb).
    destruct (seq_size_count s e m t) as (c & Ec & Em); auto; try lia.
    unfold eval_bounded_strided. replace (s <? e) with true by lia. rewrite Ec. simpl.
    unfold bounded_index. rewrite Em.
    assert (1 <= (e - s + t - 1) / t) by (apply Z.div_le_lower_bound; lia).
    assert (t * ((e - s + t - 1) / t) <= e - s + t - 1) by (apply Z.mul_div_le; lia).
    eexists; repeat split; eauto; simpl; try lia; try (intros [l E]; discriminate); try discriminate.
    + nia.
    + rewrite filter_map_below by lia. reflexivity.
  - destruct Hok. eexists; repeat split; eauto.
Qed.
