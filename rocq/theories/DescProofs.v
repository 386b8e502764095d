(** * DescProofs: lemmas about the descriptor model. *)

From Coq Require Import ZArith List Bool Lia.
From Verif Require Import Base Spec Desc Lemmas.
Import ListNotations.
Open Scope Z_scope.

(** ** size *)
Lemma prod_arr_acc es acc :
  w64 (fold_left (fun a e => w64 (a * e)) es acc) = w64 (acc * zprod es).
Proof.
  revert acc. induction es as [|e es IH]; intros acc; simpl.
  - f_equal. lia.
  - rewrite IH. autorewrite with w64. f_equal. unfold zprod; simpl. ring.
Qed.
Lemma prod_arr_range es acc : 0 <= acc < W -> 0 <= fold_left (fun a e => w64 (a * e)) es acc < W.
Proof. revert acc. induction es; simpl; intros; auto. apply IHes. apply w64_range. Qed.
Lemma prod_arr_w64 es : prod_arr es = w64 (zprod es).
Proof.
  unfold prod_arr. rewrite <- (w64_small (fold_left _ es 1)).
  - rewrite prod_arr_acc. f_equal. lia.
  - apply prod_arr_range. rewrite W_val; lia.
Qed.
Lemma prod_arr_small es : all_nonneg es -> zprod es < W -> prod_arr es = zprod es.
Proof. intros. rewrite prod_arr_w64, w64_small; auto. split; auto. apply zprod_nonneg; auto. Qed.

(** ** descriptor::operator() *)
Lemma desc_loop_w64 es ix stride pos : length ix = length es ->
  w64 (desc_loop stride pos es ix) = w64 (pos + stride * cm_pos es ix).
Proof.
  revert ix stride pos. induction es as [|e es IH]; intros [|i ix] stride pos Hl; simpl in *; try lia.
  - f_equal. lia.
  - rewrite IH by lia. autorewrite with w64.
    rewrite <- (w64_add_r _ (w64 (stride * e) * _)), w64_mul_l, w64_add_r. f_equal. ring.
Qed.
Lemma desc_loop_range es ix stride pos : 0 <= pos < W -> 0 <= desc_loop stride pos es ix < W.
Proof.
  revert ix stride pos. induction es as [|e es IH]; intros [|i ix] stride pos H; simpl; auto.
  apply IH, w64_range.
Qed.
Lemma desc_loop_small es ix : in_range es ix -> zprod es <= W -> desc_loop 1 0 es ix = cm_pos es ix.
Proof.
  intros H HW. pose proof (cm_pos_range _ _ H).
  rewrite <- (w64_small (desc_loop _ _ _ _)) by (apply desc_loop_range; rewrite W_val; lia).
  rewrite desc_loop_w64 by (apply in_range_length; auto).
  rewrite w64_small by lia. lia.
Qed.
Ltac inv_rng := repeat match goal with
  | H : in_range _ _ |- _ => unfold in_range in H
  | H : Forall2 _ (_ :: _) _ |- _ => inv H
  | H : Forall2 _ [] _ |- _ => inv H end.

Lemma desc_at_ok es ix : es <> [] -> in_range es ix -> zprod es <= W -> desc_at es ix = cm_pos es ix.
Proof.
  intros Hne H HW. pose proof (cm_pos_range _ _ H).
  destruct es as [|e0 [|e1 [|e2 es]]]; [congruence| | |].
  - inv_rng. simpl. lia.
  - inv_rng. simpl in *. unfold zprod in *; simpl in *.
    rewrite w64_add_r, w64_small by lia. lia.
  - pose proof (in_range_length _ _ H).
    destruct ix as [|i0 [|i1 [|i2 ix]]]; simpl in *; try lia.
    apply (desc_loop_small _ _ H HW).
Qed.

(** ** strided_descriptor::operator() *)
Fixpoint dot (ix ss : list Z) : Z :=
  match ix, ss with
  | i :: ix', s :: ss' => i * s + dot ix' ss'
  | _, _ => 0
  end.

Lemma inner_w64 ix ss acc : w64 (inner acc ix ss) = w64 (acc + dot ix ss).
Proof.
  revert ss acc. induction ix as [|i ix IH]; intros [|s ss] acc; simpl; try (f_equal; lia).
  rewrite IH. autorewrite with w64. f_equal. ring.
Qed.
Lemma inner_range ix ss acc : 0 <= acc < W -> 0 <= inner acc ix ss < W.
Proof.
  revert ss acc. induction ix as [|i ix IH]; intros [|s ss] acc H; simpl; auto.
  apply IH, w64_range.
Qed.
Lemma sd_at_w64 d ix : 0 <= sd_start d < W ->
  sd_at d ix = w64 (sd_start d + dot ix (sd_strs d)).
Proof.
  intros. unfold sd_at. rewrite <- inner_w64, w64_small; auto. apply inner_range; auto.
Qed.

(** Equality modulo 2^64 of stride lists is all that matters. *)
Lemma dot_infer es ix tmp : length ix = length es ->
  w64 (dot ix (infer_strides tmp es)) = w64 (tmp * cm_pos es ix).
Proof.
  revert ix tmp. induction es as [|e es IH]; intros [|i ix] tmp Hl; simpl in *; try lia.
  - f_equal; lia.
  - rewrite <- w64_add_r, IH by lia. rewrite w64_add_r.
    rewrite <- (w64_add_r _ (w64 (tmp * e) * _)), w64_mul_l, w64_add_r. f_equal. ring.
Qed.
Lemma infer_strides_length es tmp : length (infer_strides tmp es) = length es.
Proof. revert tmp; induction es; simpl; auto. Qed.

Lemma sd_infer_ok chk start es : es <> [] -> all_pos es ->
  sd_infer chk start es = Ok (SD start es (infer_strides 1 es)).
Proof.
  intros Hne Hp. unfold sd_infer. destruct es as [|e [|e2 es]]; [congruence|reflexivity|].
  rewrite dassert_ok; [reflexivity|].
  apply forallb_forall. intros x Hx. unfold all_pos in Hp. rewrite Forall_forall in Hp.
  apply Hp in Hx. destruct (x =? 0) eqn:E; auto. lia.
Qed.

Lemma sd_at_infer start es ix : in_range es ix -> 0 <= start -> start + zprod es <= W ->
  sd_at (SD start es (infer_strides 1 es)) ix = start + cm_pos es ix.
Proof.
  intros H Hs HW. pose proof (cm_pos_range _ _ H).
  rewrite sd_at_w64 by (simpl; lia). simpl.
  rewrite <- w64_add_r, dot_infer by (apply in_range_length; auto).
  rewrite w64_add_r, Z.mul_1_l, w64_small; lia.
Qed.

(** ** iteration, order >= 2 *)
Lemma incr_digl es k : all_pos es -> es <> [] -> 0 <= k -> k + 1 < W -> Forall (fun e => e <= W) es ->
  incr es (digl es k) = Ok (digl es (k + 1)).
Proof.
  revert k. induction es as [|e es IH]; intros k Hp Hne Hk HkW HW; [congruence|].
  apply Forall_cons_iff' in Hp as [He Hp]. apply Forall_cons_iff' in HW as [HeW HW].
  destruct es as [|e2 es].
  - simpl. rewrite w64_small by lia. reflexivity.
  - remember (e2 :: es) as es'. assert (Hes' : es' <> []) by congruence.
    assert (D : forall k, digl (e :: es') k = (k mod e) :: digl es' (k / e)) by (subst; reflexivity).
    rewrite !D.
    assert (I : forall i ix', incr (e :: es') (i :: ix') =
        if e =? 0 then UB else
        let i' := w64 (i + 1) mod e in
        if negb (i' =? 0) then Ok (i' :: ix') else let* r := incr es' ix' in Ok (i' :: r))
      by (subst; reflexivity).
    rewrite I. replace (e =? 0) with false by lia.
    pose proof (Z.mod_pos_bound k e He).
    assert (Z.div k e <= k) by (apply Z.div_le_upper_bound; nia).
    assert (0 <= Z.div k e) by (apply Z.div_pos; lia).
    assert (Hkd : k = e * (k / e) + k mod e) by (apply Z.div_mod; lia).
    destruct (Z.eq_dec (k mod e + 1) e) as [E|E].
    + assert (E1 : (k + 1) mod e = 0).
      { replace (k + 1) with ((k / e + 1) * e) by nia. apply Z.mod_mul; lia. }
      assert (E2 : (k + 1) / e = k / e + 1).
      { replace (k + 1) with ((k / e + 1) * e) by nia. apply Z.div_mul; lia. }
      rewrite E, E1, E2. cbv zeta.
      assert (Em : w64 e mod e = 0).
      { destruct (Z.eq_dec e W) as [->|]; [reflexivity|]. rewrite w64_small by lia. apply Z.mod_same; lia. }
      rewrite Em. change (negb (0 =? 0)) with false. cbv iota.
      rewrite IH by (auto; lia). reflexivity.
    + rewrite w64_small by lia. cbv zeta.
      assert (E1 : (k + 1) mod e = k mod e + 1).
      { symmetry. apply Z.mod_unique with (q := k / e); nia. }
      assert (E2 : (k + 1) / e = k / e).
      { symmetry. apply Z.div_unique with (r := k mod e + 1); nia. }
      rewrite E1, E2, Z.mod_small by lia.
      replace (k mod e + 1 =? 0) with false by lia. reflexivity.
Qed.

Lemma end_index_digl es : all_pos es -> es <> [] -> end_index es = digl es (zprod es).
Proof.
  induction es as [|e es IH]; intros Hp Hne; [congruence|].
  apply Forall_cons_iff' in Hp as [He Hp].
  destruct es as [|e2 es]; [simpl; unfold zprod; simpl; f_equal; lia|].
  change (end_index (e :: e2 :: es)) with (0 :: end_index (e2 :: es)).
  change (digl (e :: e2 :: es) (zprod (e :: e2 :: es)))
    with (zprod (e :: e2 :: es) mod e :: digl (e2 :: es) (zprod (e :: e2 :: es) / e)).
  change (zprod (e :: e2 :: es)) with (e * zprod (e2 :: es)).
  rewrite (Z.mul_comm e), Z.mod_mul, Z.div_mul by lia.
  f_equal. apply IH; auto. congruence.
Qed.

Lemma Zlist_eqb_refl l : Zlist_eqb l l = true.
Proof. unfold Zlist_eqb. destruct (list_eq_dec Z.eq_dec l l); congruence. Qed.
Lemma Zlist_eqb_neq l l' : l <> l' -> Zlist_eqb l l' = false.
Proof. unfold Zlist_eqb. destruct (list_eq_dec Z.eq_dec l l'); congruence. Qed.

Lemma zprod_ge es : all_pos es -> Forall (fun e => e <= zprod es) es.
Proof.
  induction 1; constructor.
  - pose proof (zprod_pos _ H0). unfold zprod in *; simpl. nia.
  - eapply Forall_impl; [|exact IHForall]. intros a Ha. simpl in Ha.
    pose proof (zprod_pos _ H0). unfold zprod in *; simpl. nia.
Qed.

Lemma sd_walk_from_N d k n fuel : all_pos (sd_exts d) -> (2 <= length (sd_exts d))%nat ->
  zprod (sd_exts d) < W -> 0 <= k -> zprod (sd_exts d) = k + Z.of_nat n -> (n < fuel)%nat ->
  sd_walk_from fuel d (ItN (digl (sd_exts d) k))
  = Ok (map (fun j => sd_at d (digl (sd_exts d) (k + j))) (iota (Z.of_nat n))).
Proof.
  intros Hp Hlen HW. remember (sd_exts d) as es.
  assert (Hne : es <> []) by (destruct es; simpl in *; [lia|congruence]).
  assert (HE : sd_end d = ItN (digl es (zprod es))).
  { unfold sd_end. rewrite <- Heqes. destruct es as [|e [|e2 es]]; simpl in Hlen; try lia.
    rewrite <- end_index_digl by auto. reflexivity. }
  revert k n. induction fuel as [|fuel IH]; intros k n Hk Hz Hf; [lia|].
  cbn [sd_walk_from]. rewrite HE.
  destruct n as [|n].
  - replace k with (zprod es) by lia. cbn [it_eqb]. rewrite Zlist_eqb_refl. reflexivity.
  - cbn [it_eqb]. rewrite Zlist_eqb_neq by (intros E; apply digl_inj in E; auto; lia).
    cbn [it_next it_deref]. rewrite <- Heqes, incr_digl; auto; try lia.
    2:{ eapply Forall_impl; [|apply zprod_ge; auto]. simpl. intros; lia. }
    simpl bindO. rewrite (IH (k + 1) n) by lia. simpl.
    f_equal. rewrite (iota_cons (Z.of_nat (S n))) by lia. simpl. f_equal; [do 2 f_equal; lia|].
    rewrite map_map. replace (Z.of_nat (S n) - 1) with (Z.of_nat n) by lia.
    apply map_ext. intros. do 2 f_equal. lia.
Qed.

Lemma sd_walk_N d fuel : all_pos (sd_exts d) -> (2 <= length (sd_exts d))%nat ->
  zprod (sd_exts d) < W -> (Z.to_nat (zprod (sd_exts d)) < fuel)%nat ->
  sd_walk fuel d = Ok (map (sd_at d) (colmajor (sd_exts d))).
Proof.
  intros Hp Hlen HW Hf. pose proof (zprod_pos _ Hp).
  assert (Hne : sd_exts d <> []) by (destruct (sd_exts d); simpl in *; [lia|congruence]).
  unfold sd_walk. replace (sd_begin d) with (ItN (digl (sd_exts d) 0)).
  2:{ rewrite digl_0 by auto. unfold sd_begin.
      destruct (sd_exts d) as [|e [|e2 es]]; simpl in Hlen; try lia. reflexivity. }
  rewrite sd_walk_from_N with (n := Z.to_nat (zprod (sd_exts d))); auto; try lia.
  rewrite colmajor_digl by auto. rewrite map_map, Z2Nat.id by lia.
  reflexivity.
Qed.

(** ** iteration, order 1 *)
Lemma sd_walk_from_1 start e s k n fuel : 0 <= start < W -> 0 < s -> 0 <= e -> s * e < W -> 0 <= k ->
  e = k + Z.of_nat n -> (n < fuel)%nat ->
  sd_walk_from fuel (SD start [e] [s]) (It1 (w64 (start + s * k)))
  = Ok (map (fun j => w64 (start + s * (k + j))) (iota (Z.of_nat n))).
Proof.
  intros Hst Hs He HW. revert k n. induction fuel as [|fuel IH]; intros k n Hk Hz Hf; [lia|].
  assert (HE : sd_end (SD start [e] [s]) = It1 (w64 (start + s * e))).
  { unfold sd_end; simpl. rewrite w64_add_r. reflexivity. }
  cbn [sd_walk_from]. rewrite HE. cbn [it_eqb]. destruct n as [|n].
  - replace k with e by lia. rewrite Z.eqb_refl. reflexivity.
  - replace (w64 (start + s * k) =? w64 (start + s * e)) with false.
    2:{ symmetry. apply Z.eqb_neq. intros E.
        assert (E2 : w64 (s * (e - k)) = 0).
        { replace (s * (e - k)) with ((start + s * e) - (start + s * k)) by ring.
          unfold w64. rewrite Zminus_mod. unfold w64 in E. rewrite E, Z.sub_diag. reflexivity. }
        rewrite w64_small in E2 by nia. nia. }
    cbn [it_next it_deref sd_strs bindO].
    rewrite w64_add_l. replace (start + s * k + s) with (start + s * (k + 1)) by ring.
    rewrite (IH (k + 1) n) by lia. simpl. f_equal.
    rewrite (iota_cons (Z.of_nat (S n))) by lia. simpl. f_equal; [do 3 f_equal; lia|].
    rewrite map_map. replace (Z.of_nat (S n) - 1) with (Z.of_nat n) by lia.
    apply map_ext. intros. do 3 f_equal. lia.
Qed.

Lemma colmajor_1 e : colmajor [e] = map (fun i => [i]) (iota e).
Proof. unfold colmajor. simpl. rewrite app_nil_r. reflexivity. Qed.

Lemma sd_walk_1 start e s fuel : 0 <= start < W -> 0 < s -> 0 <= e -> s * e < W ->
  (Z.to_nat e < fuel)%nat ->
  sd_walk fuel (SD start [e] [s]) = Ok (map (sd_at (SD start [e] [s])) (colmajor [e])).
Proof.
  intros Hst Hs He HW Hf. unfold sd_walk.
  change (sd_begin _) with (It1 start).
  replace (It1 start) with (It1 (w64 (start + s * 0))) by (f_equal; rewrite w64_small; lia).
  rewrite sd_walk_from_1 with (n := Z.to_nat e); auto; try lia.
  rewrite colmajor_1, map_map, Z2Nat.id by lia. f_equal. apply map_ext. intros i.
  rewrite sd_at_w64 by auto. simpl. f_equal. lia.
Qed.

(** ** dropping unit dimensions *)
Lemma drop_units2_fst k es ss : length ss = length es -> fst (drop_units2 k es ss) = drop_units k es.
Proof.
  revert k ss. induction es as [|e es IH]; intros k [|s ss] H; simpl in *; try lia; auto.
  destruct k.
  - specialize (IH 0%nat ss ltac:(lia)). destruct (drop_units2 0 es ss). simpl in *. congruence.
  - destruct (e =? 1); auto. specialize (IH (S k) ss ltac:(lia)). destruct (drop_units2 (S k) es ss). simpl in *. congruence.
Qed.
Lemma drop_units2_length k es ss : length ss = length es ->
  length (snd (drop_units2 k es ss)) = length (drop_units k es).
Proof.
  revert k ss. induction es as [|e es IH]; intros k [|s ss] H; simpl in *; try lia; auto.
  destruct k.
  - specialize (IH 0%nat ss ltac:(lia)). destruct (drop_units2 0 es ss). simpl in *. congruence.
  - destruct (e =? 1); auto. specialize (IH (S k) ss ltac:(lia)). destruct (drop_units2 (S k) es ss). simpl in *. congruence.
Qed.
Lemma drop_units_0 es : drop_units 0 es = es.
Proof. induction es; simpl; congruence. Qed.
Lemma drop_units2_0 es ss : length ss = length es -> drop_units2 0 es ss = (es, ss).
Proof. revert ss; induction es; intros [|s ss] H; simpl in *; try lia; auto. rewrite IHes by lia. auto. Qed.
Lemma drop_units_length k es : (k <= count_units es)%nat -> length (drop_units k es) = (length es - k)%nat.
Proof.
  revert k. induction es as [|e es IH]; intros k H; simpl.
  - unfold count_units in H. simpl in H. lia.
  - destruct k; [rewrite drop_units_0; simpl; lia|]. unfold count_units in *. simpl in H.
    destruct (e =? 1) eqn:E; simpl in H.
    + rewrite IH by lia. reflexivity.
    + simpl. rewrite IH by lia.
      assert (S k <= length es)%nat.
      { etransitivity; [exact H|]. clear. induction es; simpl; [lia|]. destruct (a =? 1); simpl; lia. }
      lia.
Qed.
Lemma drop_units_zprod k es : zprod (drop_units k es) = zprod es.
Proof.
  revert k. induction es as [|e es IH]; intros k; simpl; auto. destruct k.
  - unfold zprod in *; simpl. rewrite IH. reflexivity.
  - destruct (e =? 1) eqn:E; unfold zprod in *; simpl; rewrite IH; lia.
Qed.
Lemma drop_units_pos k es : all_pos es -> all_pos (drop_units k es).
Proof.
  intros H. revert k. induction H; intros k; simpl; [constructor|]. destruct k.
  - constructor; auto. apply IHForall.
  - destruct (x =? 1); auto. constructor; auto. apply IHForall.
Qed.

(** Re-inserting the zeros for the dropped unit dimensions. *)
Fixpoint undrop (k : nat) (es ix : list Z) : list Z :=
  match es with
  | [] => []
  | e :: es' =>
      match k with
      | O => match ix with i :: ix' => i :: undrop O es' ix' | [] => [] end
      | S k' => if e =? 1 then 0 :: undrop k' es' ix
                else match ix with i :: ix' => i :: undrop k es' ix' | [] => [] end
      end
  end.

Lemma undrop_colmajor k es : map (undrop k es) (colmajor (drop_units k es)) = colmajor es.
Proof.
  revert k. induction es as [|e es IH]; intros k; [reflexivity|].
  assert (G : forall k', map (fun ix => match ix with i :: ix' => i :: undrop k' es ix' | [] => [] end)
                 (colmajor (e :: drop_units k' es)) = colmajor (e :: es)).
  { intros k'. rewrite !colmajor_cons, <- (IH k').
    induction (colmajor (drop_units k' es)); simpl; auto.
    rewrite map_app, IHl. f_equal. rewrite map_map. reflexivity. }
  destruct k as [|k].
  - apply (G 0%nat).
  - simpl. destruct (e =? 1) eqn:E.
    + apply Z.eqb_eq in E. subst. rewrite colmajor_cons, <- (IH k).
      change (iota 1) with [0]. simpl. rewrite flat_map_concat_map, map_map.
      induction (colmajor (drop_units k es)); simpl; auto. f_equal. auto.
    + apply (G (S k)).
Qed.

Lemma dot_undrop k es ss ix : length ss = length es -> length ix = length (drop_units k es) ->
  dot (undrop k es ix) ss = dot ix (snd (drop_units2 k es ss)).
Proof.
  revert k ss ix. induction es as [|e es IH]; intros k [|s ss] ix H1 H2; simpl in *; try lia.
  - destruct ix; simpl in *; [reflexivity|lia].
  - destruct k.
    + destruct ix as [|i ix]; simpl in *; [lia|].
      specialize (IH 0%nat ss ix ltac:(lia) ltac:(lia)).
      destruct (drop_units2 0 es ss); simpl in *. lia.
    + destruct (e =? 1).
      * simpl. rewrite IH by lia. lia.
      * destruct ix as [|i ix]; simpl in *; [lia|].
        specialize (IH (S k) ss ix ltac:(lia) ltac:(lia)).
        destruct (drop_units2 (S k) es ss); simpl in *. lia.
Qed.
Lemma cm_pos_undrop k es ix : length ix = length (drop_units k es) ->
  cm_pos es (undrop k es ix) = cm_pos (drop_units k es) ix.
Proof.
  revert k ix. induction es as [|e es IH]; intros k ix H; simpl in *; auto. destruct k.
  - destruct ix as [|i ix]; simpl in *; [lia|]. rewrite IH by lia. reflexivity.
  - destruct (e =? 1) eqn:E.
    + simpl. rewrite IH by lia. lia.
    + destruct ix as [|i ix]; simpl in *; [lia|]. rewrite IH by lia. reflexivity.
Qed.
