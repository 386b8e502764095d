(** * EmptySlice: the slicing function and iteration when some dimension is empty. *)

From Coq Require Import ZArith List Bool Lia.
From Verif Require Import Base Spec Desc Slice SliceSpec Lemmas DescProofs SliceProofs ViewProofs RunProofs ViewThms ViewThms2 EmptySpec EmptyProofs.
Import ListNotations.
Open Scope Z_scope.

(** ** default slicing *)
Lemma do_slice_empty es rs : Forall2 rweak rs es -> existsb remptyb rs = true ->
  existsb is_rng rs = false -> Forall (fun e => e <= MAXSZ) es ->
  forall start ss, length ss = length es -> do_slice true start es ss rs = Abort.
Proof.
  pose proof MAXSZ_W as HMW. pose proof MAXSZ_pos.
  induction 1 as [|r e rs es Hr Hrs IH]; intros Hem Hrg HM start ss Hl; [discriminate|].
  destruct ss as [|st ss]; [discriminate|]. simpl in Hl. simpl in Hrg. apply orb_false_iff in Hrg as [Hr1 Hr2].
  apply Forall_cons_iff' in HM as [HM1 HM2].
  destruct Hr as [Hr|[Hr Hr']].
  - pose proof (rok_nonempty _ _ Hr) as [Hn _]. simpl in Hem. rewrite Hn in Hem. cbn [orb] in Hem.
    destruct r; simpl in Hr; [| |discriminate]; cbn [do_slice].
    + rewrite dassert_ok by lia. rewrite bindO_ok. rewrite IH by (auto; lia). reflexivity.
    + rewrite dassert_ok by lia. rewrite bindO_ok. rewrite dassert_ok by lia. rewrite bindO_ok.
      rewrite check_wrap by (auto; lia). rewrite dassert_ok by lia. rewrite bindO_ok. rewrite IH by (auto; lia). reflexivity.
  - destruct r; simpl in Hr; try discriminate; cbn [do_slice]. apply Z.eqb_eq in Hr. subst n.
    rewrite dassert_ok by lia. rewrite bindO_ok. apply dassert_abort. reflexivity.
Qed.

Lemma do_slice_unchecked es rs : Forall2 rweak rs es -> existsb is_rng rs = false ->
  forall start ss, length ss = length es -> 0 <= start < W -> exists start' ss',
    do_slice false start es ss rs = Ok (start', map rlen rs, ss') /\ length ss' = length es /\ 0 <= start' < W.
Proof.
  induction 1 as [|r e rs es Hr Hrs IH]; intros Hrg start ss Hl Hst.
  { destruct ss; [|discriminate]. exists start, []. auto. }
  destruct ss as [|st ss]; [discriminate|]. simpl in Hl. simpl in Hrg. apply orb_false_iff in Hrg as [Hr1 Hr2].
  pose proof (rlen_eq _ _ Hr) as Hn. destruct r; [| |discriminate]; cbn [do_slice dassert andb bindO].
  - destruct (IH Hr2 (w64 (start + w64 (st * i))) ss ltac:(lia) (w64_range _)) as (s' & ss' & E & L & R). rewrite E. cbn [bindO].
    eexists _, _. split; [cbn [map]; rewrite Hn; reflexivity|]. split; [simpl; lia|auto].
  - destruct (IH Hr2 (w64 (start + w64 (st * s))) ss ltac:(lia) (w64_range _)) as (s' & ss' & E & L & R). rewrite E. cbn [bindO].
    eexists _, _. split; [cbn [map]; rewrite Hn; reflexivity|]. split; [simpl; lia|auto].
Qed.

(** ** indirect slicing *)
Fixpoint fill (rargs : list rarg) (ext : list Z) : list Z :=
  match rargs with
  | [] => ext
  | a :: rest => let ext' := upd_nat ext (length rest) (rlen a) in
                 if remptyb a then ext' else fill rest ext'
  end.

Lemma upd_nat_idem (l : list Z) k v : nth_error l k = Some v -> upd_nat l k v = l.
Proof. revert k. induction l; intros [|k]; simpl; intros H; try discriminate; [inv H; auto|]. f_equal. auto. Qed.
Lemma upd_nat_same (l : list Z) k v : (k < length l)%nat -> nth_error (upd_nat l k v) k = Some v.
Proof. revert k. induction l; intros [|k]; simpl; intros H; try lia; auto. apply IHl. lia. Qed.
Lemma upd_nat_other (l : list Z) k j v : k <> j -> nth_error (upd_nat l k v) j = nth_error l j.
Proof. revert k j. induction l; intros [|k] [|j]; simpl; intros H; try congruence; auto. Qed.

Lemma fill_length rargs : forall ext, length (fill rargs ext) = length ext.
Proof. induction rargs as [|a rest IH]; intros ext; cbn [fill]; auto. destruct (remptyb a); [|rewrite IH]; apply upd_nat_length. Qed.
Lemma fill_high rargs : forall ext k, (length rargs <= k)%nat -> nth_error (fill rargs ext) k = nth_error ext k.
Proof.
  induction rargs as [|a rest IH]; intros ext k Hk; cbn [fill]; auto. simpl in Hk. destruct (remptyb a); [|rewrite IH by lia]; apply upd_nat_other; lia.
Qed.
Lemma fill_idem rargs : forall ext, (length rargs <= length ext)%nat -> fill rargs (fill rargs ext) = fill rargs ext.
Proof.
  induction rargs as [|a rest IH]; intros ext Hl; cbn [fill]; auto. simpl in Hl. destruct (remptyb a) eqn:E.
  - apply upd_nat_idem, upd_nat_same. lia.
  - rewrite (upd_nat_idem (fill rest _)).
    + apply IH. rewrite upd_nat_length. lia.
    + rewrite fill_high by lia. apply upd_nat_same. lia.
Qed.

(** Whatever the build, the positions are untouched and the extents are [fill]; or a check fails. *)
Lemma do_ind_empty chk d as_ : Forall (fun e => e <= MAXSZ) (sd_exts d) ->
  forall ix ext pos, Forall2 rweak as_ (firstn (length as_) (sd_exts d)) -> existsb remptyb as_ = true ->
  Forall (fun e => 0 < e) (sd_exts d) ->
  (length as_ <= length (sd_exts d))%nat -> (length as_ <= length ext)%nat ->
  do_ind chk d (rev as_) ix (ext, pos) = Ok (fill (rev as_) ext, pos) \/ (chk = true /\ do_ind chk d (rev as_) ix (ext, pos) = Abort).
Proof.
  intros HM. pose proof MAXSZ_W as HMW.
  induction as_ as [|a as_ IH] using rev_ind; intros ix ext pos Hr Hem Hpos Hl Hl2; [discriminate|].
  rewrite app_length in *. simpl in Hl, Hl2, Hr. rewrite Nat.add_1_r in *.
  rewrite firstn_snoc_nth in Hr by lia. apply Forall2_snoc_inv in Hr as [Hr Ha].
  set (e := nth (length as_) (sd_exts d) 0) in *.
  assert (HeM : e <= MAXSZ). { rewrite Forall_forall in HM. apply HM. apply nth_In. lia. }
  assert (He0 : 0 < e). { rewrite Forall_forall in Hpos. apply Hpos. apply nth_In. lia. }
  rewrite rev_app_distr. cbn [rev app do_ind fill]. rewrite rev_length. fold e.
  rewrite existsb_app in Hem. cbn [existsb] in Hem. rewrite orb_false_r in Hem.
  pose proof (rlen_eq _ _ Ha) as Hn. cbn [fst snd].
  assert (Loop : forall (h : Z -> Z) (l : list Z), l <> [] -> existsb remptyb as_ = true ->
     foldO (fun acc k => do_ind chk d (rev as_) (h k :: ix) acc) l (upd_nat ext (length as_) (rlen a), pos)
       = Ok (fill (rev as_) (upd_nat ext (length as_) (rlen a)), pos) \/
     (chk = true /\ foldO (fun acc k => do_ind chk d (rev as_) (h k :: ix) acc) l (upd_nat ext (length as_) (rlen a), pos) = Abort)).
  { intros h l Hne Hem'. set (E0 := upd_nat ext (length as_) (rlen a)) in *.
    assert (HE0 : length E0 = length ext) by apply upd_nat_length.
    assert (Hst : forall l', (forall E, length E = length ext ->
        (E = E0 \/ E = fill (rev as_) E0) -> 
        (foldO (fun acc k => do_ind chk d (rev as_) (h k :: ix) acc) l' (E, pos) = Ok (match l' with [] => E | _ => fill (rev as_) E0 end, pos)) \/
        (chk = true /\ foldO (fun acc k => do_ind chk d (rev as_) (h k :: ix) acc) l' (E, pos) = Abort))).
    { induction l' as [|k l' IHl']; intros E HE Hc; cbn [foldO]; auto.
      destruct (IH (h k :: ix) E pos) as [X|[X1 X]]; auto; try lia.
      - rewrite X, bindO_ok. replace (fill (rev as_) E) with (fill (rev as_) E0).
        2:{ destruct Hc as [-> | ->]; auto. rewrite fill_idem; auto. rewrite rev_length. lia. }
        destruct (IHl' (fill (rev as_) E0)) as [Y|[Y1 Y]]; auto; try (rewrite fill_length; lia).
        left. rewrite Y. destruct l'; auto.
      - right. rewrite X. auto. }
    destruct (Hst l E0 HE0) as [Y|Y]; auto. left. rewrite Y. destruct l; [congruence|auto]. }
  destruct Ha as [Ha|[Ha Ha']].
  - pose proof (rok_nonempty _ _ Ha) as [Hne _]. rewrite Hne in Hem. rewrite orb_false_r in Hem. rewrite Hne.
    destruct a as [i|s n t|l]; simpl in Ha.
    + rewrite dassert_ok by lia. rewrite bindO_ok. rewrite Hn. apply IH; auto; try lia. rewrite upd_nat_length. lia.
    + rewrite dassert_ok by lia. rewrite bindO_ok. rewrite dassert_ok by lia. rewrite bindO_ok.
      rewrite check_wrap by (auto; lia). rewrite dassert_ok by lia. rewrite bindO_ok. rewrite Hn in *.
      apply (Loop (fun k => w64 (s + w64 (k * t)))); auto. fold (iota n). rewrite iota_cons by lia. discriminate.
    + destruct Ha as [Ha1 Ha2]. rewrite dassert_ok.
      2:{ apply Z.ltb_lt. apply max_idx_lt; auto. }
      rewrite bindO_ok. rewrite Hn in *. apply (Loop (fun k => k)); auto.
  - rewrite Ha. destruct a as [i|s n t|l]; simpl in Ha; try discriminate.
    + apply Z.eqb_eq in Ha. subst n. rewrite dassert_ok by lia. rewrite bindO_ok. destruct chk.
      * right. split; auto.
      * left. cbn. rewrite Hn. reflexivity.
    + destruct l; [|discriminate]. rewrite dassert_ok by (apply Z.ltb_lt; exact He0). rewrite bindO_ok. left. cbn. rewrite Hn. reflexivity.
Qed.

(** The extents: zero up to the last empty dimension, then the requested ones. *)
Lemma fill_closed front a back : remptyb a = true -> existsb remptyb back = false ->
  forall tail, fill (rev (front ++ a :: back)) (map (fun _ => 0) (front ++ a :: back) ++ tail) = map (fun _ => 0) front ++ 0 :: map rlen back ++ tail.
Proof.
  intros Ha. induction back as [|b back IH] using rev_ind; intros Hb tail.
  - rewrite rev_app_distr. cbn [rev app fill]. rewrite Ha, rev_length. rewrite map_app, <- app_assoc. cbn [map app].
    unfold rlen. rewrite (rempty_len _ Ha). cbn [length]. clear. induction front; cbn [map app upd_nat length]; auto. rewrite IHfront. auto.
  - rewrite existsb_app in Hb. apply orb_false_iff in Hb as [Hb1 Hb2]. cbn [existsb] in Hb2. rewrite orb_false_r in Hb2.
    replace (front ++ a :: back ++ [b]) with ((front ++ a :: back) ++ [b]) by (rewrite <- app_assoc; reflexivity).
    rewrite rev_app_distr. cbn [rev app fill]. rewrite Hb2, rev_length.
    rewrite (map_app _ (front ++ a :: back) [b]), <- app_assoc. cbn [map app].
    replace (upd_nat (map (fun _ => 0) (front ++ a :: back) ++ 0 :: tail) (length (front ++ a :: back)) (rlen b))
      with (map (fun _ => 0) (front ++ a :: back) ++ rlen b :: tail).
    + rewrite IH by auto. rewrite map_app, <- app_assoc. reflexivity.
    + clear. generalize (front ++ a :: back) as l. induction l; cbn [map app upd_nat length]; auto. rewrite IHl. auto.
Qed.

Lemma last_empty rs : existsb remptyb rs = true -> exists front a back, rs = front ++ a :: back /\ remptyb a = true /\ existsb remptyb back = false.
Proof.
  induction rs as [|r rs IH]; simpl; [discriminate|]. intros H. destruct (existsb remptyb rs) eqn:E.
  - destruct IH as (f & a & b & -> & A & B); auto. exists (r :: f), a, b. auto.
  - rewrite orb_false_r in H. exists [], r, rs. auto.
Qed.

Lemma indirect_empty chk d front a back : Forall2 rweak (front ++ a :: back) (sd_exts d) -> all_pos (sd_exts d) ->
  Forall (fun e => e <= MAXSZ) (sd_exts d) -> remptyb a = true -> existsb remptyb back = false ->
  indirect_slicing chk d (front ++ a :: back) = Ok (map (fun _ => 0) front ++ 0 :: map rlen back, []) \/
  (chk = true /\ indirect_slicing chk d (front ++ a :: back) = Abort).
Proof.
  intros Hr Hp HM Ha Hb. unfold indirect_slicing. pose proof (Forall2_len _ _ _ Hr) as Hl.
  replace (map (fun _ => 0) (sd_exts d)) with (map (fun _ : rarg => 0) (front ++ a :: back) ++ []).
  2:{ rewrite app_nil_r. revert Hl. generalize (sd_exts d), (front ++ a :: back). induction l; intros [|? ?]; simpl; intros; try lia; auto. f_equal. apply IHl. lia. }
  replace (map (fun _ => 0) front ++ 0 :: map rlen back) with (map (fun _ => 0) front ++ 0 :: map rlen back ++ []) by (rewrite app_nil_r; auto).
  rewrite <- (fill_closed front a back Ha Hb []).
  apply do_ind_empty; auto.
  - rewrite Hl, firstn_all. auto.
  - rewrite existsb_app. cbn [existsb]. rewrite Ha. rewrite orb_true_r. auto.
  - lia.
  - rewrite app_nil_r, map_length. auto.
Qed.

(** ** iteration over a strided view with an empty dimension *)
Lemma zeros_end es : last es 1 = 0 -> es <> [] -> end_index es = map (fun _ => 0) es.
Proof.
  induction es as [|e es IH]; intros H Hne; [congruence|]. destruct es as [|e2 es].
  - simpl in *. subst. auto.
  - change (end_index (e :: e2 :: es)) with (0 :: end_index (e2 :: es)). rewrite IH; auto. discriminate.
Qed.
Lemma end_last es : es <> [] -> last (end_index es) 1 = last es 1.
Proof.
  induction es as [|e es IH]; intros H; [congruence|]. destruct es as [|e2 es]; [reflexivity|].
  change (end_index (e :: e2 :: es)) with (0 :: end_index (e2 :: es)). change (last (e :: e2 :: es) 1) with (last (e2 :: es) 1).
  rewrite <- IH by discriminate. destruct (end_index (e2 :: es)) eqn:E; [|reflexivity].
  destruct es; discriminate.
Qed.

Lemma walk_last_empty fuel d : sd_exts d <> [] -> (0 < fuel)%nat -> length (sd_strs d) = length (sd_exts d) -> 0 <= sd_start d < W ->
  last (sd_exts d) 1 = 0 -> sd_walk fuel d = Ok [].
Proof.
  intros Hne Hf Hs Hst Hl. destruct fuel; [lia|]. unfold sd_walk. cbn [sd_walk_from].
  replace (it_eqb (sd_begin d) (sd_end d)) with true; auto. symmetry. unfold sd_begin, sd_end.
  destruct (sd_exts d) as [|e [|e2 es]]; [congruence| |].
  - destruct (sd_strs d) as [|s [|]]; try discriminate. simpl in Hl. subst. cbn [it_eqb]. apply Z.eqb_eq.
    rewrite Z.mul_0_r. replace (w64 0) with 0 by reflexivity. rewrite w64_small by lia. lia.
  - rewrite zeros_end by (auto; discriminate). cbn [it_eqb]. apply Zlist_eqb_refl.
Qed.

(** Odometer over the dimensions before the first empty one. *)
Lemma incr_before f g k z : all_pos f -> Forall (fun e => e <= W) f -> zprod f <= W -> 0 <= k -> k + 1 < W -> g <> [] -> k < zprod f ->
  incr (f ++ 0 :: g) (digits f k ++ z) = if k + 1 =? zprod f then (match z with [] => UB | _ => UB end) else Ok (digits f (k + 1) ++ z).
Proof.
  intros Hp HW. revert k. induction f as [|e f IH]; intros k HZ Hk Hk2 Hg Hlt.
  - change (zprod []) with 1 in *. assert (k = 0) by lia. subst. cbn [app digits]. destruct g; [congruence|]. destruct z; reflexivity.
  - apply Forall_cons_iff' in Hp as [He Hp]. apply Forall_cons_iff' in HW as [HeW HW].
    change (zprod (e :: f)) with (e * zprod f) in *. pose proof (zprod_pos _ Hp) as Hf0.
    assert (Hin : incr ((e :: f) ++ 0 :: g) (digits (e :: f) k ++ z)
       = (if e =? 0 then UB else let i' := w64 (k mod e + 1) mod e in
          if negb (i' =? 0) then Ok (i' :: digits f (k / e) ++ z) else let* r := incr (f ++ 0 :: g) (digits f (k / e) ++ z) in Ok (i' :: r))).
    { cbn [digits app]. destruct f as [|e2 f]; reflexivity. }
    rewrite Hin. clear Hin. replace (e =? 0) with false by lia. cbv zeta.
    pose proof (Z.mod_pos_bound k e He). pose proof (Z.div_mod k e ltac:(lia)) as Hdm.
    assert (Hq : 0 <= k / e < zprod f). { split; [apply Z.div_pos; lia|]. apply Z.div_lt_upper_bound; lia. }
    assert (Hq2 : k / e <= k) by nia. assert (Hq3 : zprod f <= W) by nia.
    cbn [digits app].
    destruct (Z.eq_dec (k mod e + 1) e) as [E|E].
    + assert (Hw : w64 (k mod e + 1) mod e = 0).
      { rewrite E. destruct (Z.eq_dec e W) as [->|]; [reflexivity|]. rewrite w64_small by lia. apply Z.mod_same. lia. }
      rewrite Hw. cbn [Z.eqb negb]. rewrite IH; auto; try lia.
      assert (Hk' : k + 1 = e * (k / e + 1)) by lia.
      destruct (k / e + 1 =? zprod f) eqn:E2.
      * apply Z.eqb_eq in E2. replace (k + 1 =? e * zprod f) with true by (symmetry; apply Z.eqb_eq; rewrite <- E2; lia). destruct z; reflexivity.
      * apply Z.eqb_neq in E2. replace (k + 1 =? e * zprod f) with false by (symmetry; apply Z.eqb_neq; rewrite Hk'; nia).
        cbn [bindO]. rewrite Hk'. rewrite Z.mul_comm, Z.mod_mul, Z.div_mul by lia. reflexivity.
    + rewrite w64_small by lia. rewrite (Z.mod_small (k mod e + 1)) by lia.
      replace (k mod e + 1 =? 0) with false by lia. cbn [negb].
      assert (D1 : (k + 1) / e = k / e). { symmetry. apply (Z.div_unique _ _ _ (k mod e + 1)); lia. }
      assert (D2 : (k + 1) mod e = k mod e + 1). { symmetry. apply (Z.mod_unique _ _ (k / e)); lia. }
      rewrite D1, D2. replace (k + 1 =? e * zprod f) with false; auto. symmetry. apply Z.eqb_neq. intros C.
      rewrite C in D2. rewrite Z.mul_comm, Z.mod_mul in D2 by lia. lia.
Qed.

Lemma digits_zero f : all_pos f -> digits f 0 = map (fun _ => 0) f.
Proof. induction 1; simpl; auto. rewrite Z.mod_0_l, Z.div_0_l by lia. rewrite IHForall. auto. Qed.

Lemma walk_middle_empty d f g : sd_exts d = f ++ 0 :: g -> all_pos f -> zprod f <= MAXSZ -> g <> [] -> last g 1 <> 0 ->
  forall fuel, (Z.to_nat (zprod f) < fuel)%nat -> sd_walk fuel d = UB.
Proof.
  intros He Hp HM Hg Hlast fuel Hf. pose proof MAXSZ_W as HMW. pose proof MAXSZ_pos.
  pose proof (all_le_M _ Hp HM) as Hall.
  assert (HallW : Forall (fun e => e <= W) f) by (eapply Forall_impl; [|exact Hall]; simpl; intros; lia).
  set (z := map (fun _ : Z => 0) (0 :: g)).
  assert (Hb : sd_begin d = ItN (digits f 0 ++ z)).
  { unfold sd_begin. rewrite He, digits_zero by auto. unfold z. rewrite <- map_app.
    destruct f as [|e [|e2 f]]; destruct g; try congruence; reflexivity. }
  assert (Hend : sd_end d = ItN (end_index (f ++ 0 :: g))).
  { unfold sd_end. rewrite He. destruct f as [|e [|e2 f]]; destruct g; try congruence; reflexivity. }
  unfold sd_walk. rewrite Hb.
  assert (K : forall n k fuel, zprod f - k = Z.of_nat (S n) -> 0 <= k -> (S n < S fuel)%nat -> sd_walk_from fuel d (ItN (digits f k ++ z)) = UB).
  { induction n as [|n IH]; intros k fl Hn Hk Hfl; destruct fl as [|fl]; try lia; cbn [sd_walk_from].
    - replace (it_eqb (ItN (digits f k ++ z)) (sd_end d)) with false.
      2:{ symmetry. rewrite Hend. cbn [it_eqb]. apply Zlist_eqb_neq. intros C.
          assert (L : last (digits f k ++ z) 1 = last (end_index (f ++ 0 :: g)) 1) by (rewrite C; auto).
          rewrite end_last in L by (destruct f; discriminate). clear -L Hlast Hg. unfold z in L.
          assert (A : last (digits f k ++ map (fun _ => 0) (0 :: g)) 1 = 0).
          { destruct (exists_last Hg) as (g' & x & ->). rewrite map_cons, map_app. cbn [map]. rewrite app_comm_cons, app_assoc, last_last. auto. }
          assert (B : last (f ++ 0 :: g) 1 = last g 1).
          { destruct (exists_last Hg) as (g' & x & ->). rewrite app_comm_cons, app_assoc, !last_last. auto. }
          congruence. }
      cbn [it_next]. rewrite He, incr_before; auto; try lia.
      replace (k + 1 =? zprod f) with true by lia. destruct z; reflexivity.
    - replace (it_eqb (ItN (digits f k ++ z)) (sd_end d)) with false.
      2:{ symmetry. rewrite Hend. cbn [it_eqb]. apply Zlist_eqb_neq. intros C.
          assert (L : last (digits f k ++ z) 1 = last (end_index (f ++ 0 :: g)) 1) by (rewrite C; auto).
          rewrite end_last in L by (destruct f; discriminate). clear -L Hlast Hg. unfold z in L.
          assert (A : last (digits f k ++ map (fun _ => 0) (0 :: g)) 1 = 0).
          { destruct (exists_last Hg) as (g' & x & ->). rewrite map_cons, map_app. cbn [map]. rewrite app_comm_cons, app_assoc, last_last. auto. }
          assert (B : last (f ++ 0 :: g) 1 = last g 1).
          { destruct (exists_last Hg) as (g' & x & ->). rewrite app_comm_cons, app_assoc, !last_last. auto. }
          congruence. }
      cbn [it_next]. rewrite He, incr_before; auto; try lia.
      replace (k + 1 =? zprod f) with false by lia. cbn [bindO]. rewrite IH; auto; lia. }
  pose proof (zprod_pos _ Hp). apply (K (Z.to_nat (zprod f) - 1)%nat); lia.
Qed.
