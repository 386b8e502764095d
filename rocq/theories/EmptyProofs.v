(** * EmptyProofs: lemmas about subscripts that select nothing. *)

From Coq Require Import ZArith List Bool Lia.
From Verif Require Import Base Spec Desc Slice SliceSpec Lemmas DescProofs SliceProofs ViewProofs RunProofs ViewThms ViewThms2 EmptySpec.
Import ListNotations.
Open Scope Z_scope.

Definition remptyb (r : rarg) : bool := match r with RIdx _ => false | RSl _ n _ => n =? 0 | RRng l => match l with [] => true | _ => false end end.
Definition rweak (r : rarg) (e : Z) : Prop :=
  rok r e \/ (remptyb r = true /\ match r with RSl s n t => 0 < t | _ => True end).
Definition res (r : rarg) (ue : uarg * Z) : Prop := resolve (fst ue) (snd ue) = Ok r.
Definition rlen (r : rarg) : Z := Z.of_nat (length (rsel r)).

Lemma rok_nonempty r e : rok r e -> remptyb r = false /\ 0 < rlen r.
Proof.
  destruct r as [i|s n t|l]; simpl; unfold rlen; simpl; intros H; split; try lia.
  - rewrite map_length, iota_length. lia.
  - destruct l; [tauto|auto].
  - destruct H as [H _]. destruct l; [congruence|]. simpl. lia.
Qed.
Lemma rempty_len r : remptyb r = true -> rsel r = [].
Proof.
  destruct r as [i|s n t|l]; simpl; try discriminate.
  - intros H. apply Z.eqb_eq in H. subst. reflexivity.
  - destruct l; [auto|discriminate].
Qed.
Lemma rlen_eq r e : rweak r e -> match r with RIdx _ => rlen r = 1 | RSl _ n _ => rlen r = n | RRng l => rlen r = Z.of_nat (length l) end.
Proof.
  unfold rlen. destruct r as [i|s n t|l]; simpl; intros H; auto.
  rewrite map_length, iota_length. destruct H as [H|[H _]]; simpl in H; lia.
Qed.

Lemma resolve_weak u e : 0 < e <= MAXSZ -> ok_arg u e \/ selects_nothing u e ->
  exists r, resolve u e = Ok r /\ rweak r e /\ rlen r = Z.of_nat (length (sel u e)) /\ is_rng r = negb (no_range u) /\
    (ok_arg u e \/ remptyb r = true).
Proof.
  intros He [H|H].
  - destruct (resolve_ok u e H He) as (r & A & B & C & D). exists r. split; auto. split; [left; auto|].
    split; [unfold rlen; rewrite C; auto|]. split; [|auto].
    destruct u; simpl; destruct D as [D1 D2]; try (destruct (is_rng r); auto; destruct D1 as [? D1]; auto; discriminate).
    rewrite D2; eauto.
  - pose proof MAXSZ_W as HMW. destruct u; simpl in H; try tauto.
    + exists (RSl s n 1). destruct H as [H ->]. cbn. repeat split; auto. right. auto.
    + exists (RSl s n t). destruct H as (H & -> & Ht). cbn. repeat split; auto. right. auto.
    + exists (RSl s 0 1). cbn [resolve]. unfold eval_bounded, bounded_index. destruct H as (H1 & H2 & H3).
      assert (Z.min m (if s <? e then w64 (e - s) else 0) = 0) as ->.
      { destruct H3 as [H3| ->]. - destruct (s <? e) eqn:E; [lia|lia]. - destruct (s <? e) eqn:E; [|lia]. pose proof (w64_range (e - s)). lia. }
      split; auto. split. { right. cbn. lia. } split; [|split; auto]. unfold rlen. cbn [rsel]. rewrite iota_nil by lia. simpl.
      destruct H3 as [H3| ->]; [|reflexivity].
      replace (filter (fun x : Z => x <? e) (map (fun k : Z => s + k) (iota m))) with (@nil Z); auto.
      symmetry. assert (G : forall x, In x (map (fun k : Z => s + k) (iota m)) -> (x <? e) = false).
      { intros x Hx. apply in_map_iff in Hx as (k & <- & Hk). apply in_iota in Hk. lia. }
      revert G. generalize (map (fun k : Z => s + k) (iota m)) as l. induction l as [|x l IH]; intros G; simpl; auto.
      rewrite (G x) by (left; auto). apply IH. intros; apply G; right; auto.
    + exists (RSl s 0 t). cbn [resolve]. unfold eval_bounded_strided, bounded_index. destruct H as (H1 & H2 & Ht & H3).
      split.
      { destruct H3 as [H3| ->].
        - replace (s <? e) with false by lia. cbn [bindO]. f_equal. f_equal. lia.
        - destruct (s <? e) eqn:E; cbn [bindO]; [|reflexivity].
          destruct (seq_size_val s e t) as [Hs|Hs]; try lia. rewrite Hs. cbn [bindO]. f_equal. f_equal.
          apply Z.min_l. apply Z.div_pos; [|lia]. destruct (_ =? 0); lia. }
      split. { right. cbn. auto. } split; [|split; auto]. unfold rlen. cbn [rsel]. rewrite iota_nil by lia. simpl.
      destruct H3 as [H3| ->]; [|reflexivity].
      replace (filter (fun x : Z => x <? e) (map (fun k : Z => s + k * t) (iota m))) with (@nil Z); auto.
      symmetry. assert (G : forall x, In x (map (fun k : Z => s + k * t) (iota m)) -> (x <? e) = false).
      { intros x Hx. apply in_map_iff in Hx as (k & <- & Hk). apply in_iota in Hk. nia. }
      revert G. generalize (map (fun k : Z => s + k * t) (iota m)) as l. induction l as [|x l IH]; intros G; simpl; auto.
      rewrite (G x) by (left; auto). apply IH. intros; apply G; right; auto.
    + subst. exists (RRng []). cbn. repeat split; auto. right. auto.
Qed.

Definition okw (u : uarg) (e : Z) : Prop := ok_arg u e \/ selects_nothing u e.

Lemma resolve_all_weak us es : Forall2 okw us es -> all_pos es -> Forall (fun e => e <= MAXSZ) es ->
  exists rs, Forall2 rweak rs es /\ map rlen rs = map (fun s => Z.of_nat (length s)) (sels us es) /\
    existsb is_rng rs = has_range us /\ (~ Forall2 ok_arg us es -> existsb remptyb rs = true) /\
    Forall2 res rs (combine us es).
Proof.
  induction 1 as [|u e us es Hu Hus IH]; intros Hp HM.
  - exists []. repeat split; try constructor. intros C. exfalso. apply C. constructor.
  - apply Forall_cons_iff' in Hp as [Hp1 Hp2]. apply Forall_cons_iff' in HM as [HM1 HM2].
    destruct IH as (rs & A & B & C & D & E); auto. destruct (resolve_weak u e) as (r & R1 & R2 & R3 & R4 & R5); auto.
    exists (r :: rs). split; [constructor; auto|]. split; [simpl; congruence|]. split.
    { simpl. rewrite R4, C. unfold has_range. simpl. rewrite negb_andb. auto. }
    split; [|constructor; auto]. intros N. simpl. destruct R5 as [R5| ->]; auto.
    rewrite D, orb_true_r; auto.
Qed.

(** ** the general code path of one chain *)
Lemma run_proxy_slice chk fuel off m es us : forall args rs,
  sd_exts (m_desc m) = es -> us <> [] -> middle_lost us = false -> length (args ++ rs) = length es ->
  Forall2 res rs (combine us (skipn (length args) es)) -> length us = length rs ->
  run chk fuel (SProxy off m args) us = (let* m' := array_slice chk fuel m (args ++ rs) in Ok (SView off m')).
Proof.
  induction us as [|u us IH]; intros args rs He Hne Hlost Hl Hres Hlen; [congruence|].
  destruct rs as [|r rs]; [discriminate|].
  rewrite app_length in Hl. simpl in Hl, Hlen.
  destruct (skipn (length args) es) as [|e rest] eqn:Esk.
  { assert (length (skipn (length args) es) = 0%nat) by (rewrite Esk; auto). rewrite skipn_length in H. lia. }
  assert (Hnth : nth (length args) es 0 = e).
  { rewrite <- (firstn_skipn (length args) es), Esk, app_nth2; rewrite firstn_length_le; try lia.
    rewrite Nat.sub_diag. reflexivity. }
  cbn [combine] in Hres. apply Forall2_cons_inv in Hres as [Hr1 Hres']. unfold res in Hr1. simpl in Hr1.
  unfold run. cbn [foldO op_index]. unfold proxy_index. rewrite He, Hnth, Hr1, bindO_ok.
  unfold proxy_at. rewrite He. destruct us as [|u2 us].
  - destruct rs; [|discriminate]. simpl in Hl.
    replace (S (length args) =? length es)%nat with true by (symmetry; apply Nat.eqb_eq; lia).
    destruct (array_slice _ _ _ _); reflexivity.
  - destruct rs as [|r2 rs]; [discriminate|].
    replace (S (length args) =? length es)%nat with false by (symmetry; apply Nat.eqb_neq; simpl in *; lia).
    cbn [middle_lost] in Hlost. apply orb_false_iff in Hlost as [Hnm Hlost]. change (by_name u) with (kept_by_reference u). rewrite Hnm.
    rewrite bindO_ok. replace (args ++ r :: r2 :: rs) with ((args ++ [r]) ++ r2 :: rs) in * by (rewrite <- app_assoc; reflexivity).
    apply (IH (args ++ [r]) (r2 :: rs)); auto; try discriminate.
    { rewrite !app_length. simpl in *. lia. }
    replace (skipn (length (args ++ [r])) es) with rest; auto.
    rewrite app_length. simpl. rewrite Nat.add_1_r.
    clear -Esk. revert Esk. generalize (length args) as k. induction es; intros k E; destruct k; simpl in *; try congruence. auto.
Qed.

Lemma run_generic_slice chk fuel off m named f g u us r rs : sd_exts (m_desc m) = f ++ g ->
  length (u :: us) = length g -> Forall2 res (r :: rs) (combine (u :: us) g) -> middle_lost us = false -> (us <> [] -> named r = false) ->
  (let* s' := (let* r := resolve u (hd 0 g) in
      proxy_at chk fuel off m (map (fun e => RSl 0 e 1) f) (named r) r) in foldO (op_index chk fuel) us s')
  = (let* m' := array_slice chk fuel m (map (fun e => RSl 0 e 1) f ++ r :: rs) in Ok (SView off m')).
Proof.
  intros He Hl C Hlost Hnamed. destruct g as [|e g]; [discriminate|].
  cbn [combine] in C. apply Forall2_cons_inv in C as [C1 C2]. unfold res in C1. simpl in C1.
  cbn [hd]. rewrite C1, bindO_ok.
  set (args := map (fun e => RSl 0 e 1) f) in *.
  assert (Hal : length args = length f) by (unfold args; rewrite map_length; auto).
  unfold proxy_at. rewrite He, app_length, Hal. cbn [length].
  simpl in Hl. destruct us as [|u2 us].
  - destruct rs; [|inversion C2]. destruct g; [|discriminate]. cbn [length].
    replace (S (length f) =? length f + 1)%nat with true by (symmetry; apply Nat.eqb_eq; lia).
    destruct (array_slice _ _ _ _); reflexivity.
  - destruct g as [|e2 g]; [discriminate|]. cbn [length].
    replace (S (length f) =? length f + S (S (length g)))%nat with false by (symmetry; apply Nat.eqb_neq; lia).
    rewrite Hnamed by discriminate.
    rewrite bindO_ok. replace (args ++ r :: rs) with ((args ++ [r]) ++ rs) in * by (rewrite <- app_assoc; reflexivity).
    assert (Hrs : length rs = length (u2 :: us)).
    { apply Forall2_len in C2. rewrite C2, combine_length. simpl in *. lia. }
    apply (run_proxy_slice chk fuel off m (f ++ e :: e2 :: g) (u2 :: us) (args ++ [r]) rs); auto; try discriminate.
    + rewrite !app_length, Hal. simpl in *. lia.
    + replace (length (args ++ [r])) with (S (length f)) by (rewrite app_length; simpl; lia).
      replace (skipn (S (length f)) (f ++ e :: e2 :: g)) with (e2 :: g); auto.
      rewrite skipn_app. rewrite skipn_all2 by lia. replace (S (length f) - length f)%nat with 1%nat by lia. reflexivity.
Qed.

Definition is_vec (m : mapper) : bool := match m with MVec _ _ => true | MId _ => false end.
Definition st_vec (s : st) : bool := match s with SView _ m => is_vec m | _ => false end.

Lemma m_drop_first_kind chk fuel m i m' : m_drop_first chk fuel m i = Ok m' -> is_vec m' = is_vec m.
Proof.
  destruct m as [d|d idx]; simpl.
  - intros H. inv H. reflexivity.
  - intros H. apply bindO_Ok_inv in H as (ps & _ & H). apply bindO_Ok_inv in H as (idx' & _ & H).
    unfold mk_vec in H. apply bindO_Ok_inv in H as (d' & _ & H). apply bindO_Ok_inv in H as (? & _ & H). inv H. reflexivity.
Qed.

(** What the chain comes down to: one call of the slicing function with resolved arguments. *)
Definition comes_down (chk : bool) (fuel : nat) (s : st) (shape : list Z) (us : list uarg) : Prop :=
  exists off m es ps rs,
    minv m es ps /\ run chk fuel s us = (let* m' := array_slice chk fuel m rs in Ok (SView off m')) /\
    Forall2 rweak rs es /\ existsb remptyb rs = true /\ map rlen rs = result_shape us shape /\
    existsb is_rng rs = has_range us /\ is_vec m = st_vec s /\ zprod es <= zprod shape.

Lemma result_shape_sels u us es : is_index u = false -> length (u :: us) = length es ->
  result_shape (u :: us) es = map (fun s => Z.of_nat (length s)) (sels (u :: us) es).
Proof. destruct es; [discriminate|]. destruct u; try discriminate; reflexivity. Qed.

Lemma okw_index i e : okw (UIdx i) e -> 0 <= i < e.
Proof. intros [H|H]; simpl in H; tauto. Qed.

Lemma comes_down_view chk fuel off us : forall m es ps,
  minv m es ps -> Forall2 okw us es -> ~ Forall2 ok_arg us es -> loses false us = false -> (Z.to_nat (zprod es) < fuel)%nat ->
  comes_down chk fuel (SView off m) es us.
Proof.
  induction us as [|u us IH]; intros m es ps Hm Hok Hno Hlost Hf.
  { exfalso. inversion Hok; subst. apply Hno. constructor. }
  pose proof Hm as (Hne & Hp & HMe & He & _). pose proof (all_le_M _ Hp HMe) as HMs.
  destruct (resolve_all_weak _ _ Hok Hp HMs) as (rs & A & B & C & D & E).
  specialize (D Hno). pose proof (Forall2_len _ _ _ Hok) as Hlen.
  destruct es as [|e es]; [congruence|]. pose proof Hok as Hok0. apply Forall2_cons_inv in Hok as [Hoku Hokus].
  destruct rs as [|r rs]; [inversion A|].
  destruct (is_index u) eqn:Eu.
  - destruct u as [i| | | | | |]; try discriminate. apply okw_index in Hoku.
    assert (Hno' : ~ Forall2 ok_arg us es) by (intros F; apply Hno; constructor; auto; simpl; lia).
    destruct us as [|u2 us]. { exfalso. inversion Hokus; subst. apply Hno'. constructor. }
    destruct es as [|e2 es]; [inversion Hokus|].
    destruct (m_drop_first_ok chk fuel m e (e2 :: es) ps i) as (m' & Em & I); auto; try discriminate.
    destruct (IH m' (e2 :: es) _ I) as (off' & m2 & es2 & ps2 & rs2 & X1 & X2 & X3 & X4 & X5 & X6 & X7 & X8); auto.
    { inv Hp. pose proof (zprod_pos _ H2). change (zprod (e :: e2 :: es)) with (e * zprod (e2 :: es)) in Hf. nia. }
    exists off', m2, es2, ps2, rs2. split; auto. split.
    { unfold run. cbn [foldO op_index]. unfold view_index. rewrite He. cbn [hd length Nat.eqb].
      rewrite dassert_ok by lia. rewrite bindO_ok, Em, !bindO_ok. exact X2. }
    split; auto. split; auto. split; auto. split; auto. split; [rewrite X7; simpl; apply (m_drop_first_kind _ _ _ _ _ Em)|].
    inv Hp. pose proof (zprod_pos _ H2). change (zprod (e :: e2 :: es)) with (e * zprod (e2 :: es)). nia.
  - assert (Hlost' : middle_lost us = false) by (destruct u; try discriminate; exact Hlost).
    pose proof (run_generic_slice chk fuel off m (fun _ => false) [] (e :: es) u us r rs He Hlen E Hlost' (fun _ => eq_refl)) as Gen. cbn [map app hd] in Gen.
    exists off, m, (e :: es), ps, (r :: rs). split; auto. split.
    { unfold run. cbn [foldO op_index]. unfold view_index. rewrite He. cbn [hd].
      unfold proxy_at in Gen. cbn [length app] in Gen. rewrite He in Gen. cbn [length] in Gen.
      destruct es as [|e2 es]; cbn [length Nat.eqb] in Gen |- *.
      + destruct u; try discriminate; try exact Gen.
        exfalso. inversion Hokus; subst. apply Hno. constructor; [exact I|constructor].
      + destruct u; try discriminate; exact Gen. }
    split; auto. split; auto. split. { rewrite result_shape_sels; auto. } split; auto. split; auto. lia.
Qed.

Lemma run_every_slice chk fuel off us : forall f g rs,
  f <> [] -> g <> [] -> good_shape (f ++ g) -> Forall2 okw us g -> ~ Forall2 ok_arg us g -> Forall2 res rs (combine us g) ->
  lost_after_every us = false ->
  every_then_slice us = false ->
  run chk fuel (SEvery off (f ++ g) (length f)) us
  = (let* m' := array_slice chk fuel (MId (SD 0 (f ++ g) (infer_strides 1 (f ++ g)))) (map (fun e => RSl 0 e 1) f ++ rs) in Ok (SView off m')).
Proof.
  induction us as [|u us IH]; intros f g rs Hf Hgne Hg Hok Hno Hres Het Hes.
  { exfalso. inversion Hok; subst. apply Hno. constructor. }
  pose proof Hg as (Hne & Hp & HMe).
  pose proof (Forall2_len _ _ _ Hok) as Hlen.
  destruct g as [|e g]; [congruence|]. destruct rs as [|r rs]; [inversion Hres|].
  assert (Hnth : nth (length f) (f ++ e :: g) 0 = e) by (rewrite app_nth2, Nat.sub_diag by lia; reflexivity).
  assert (Gen : (us = [] \/ u <> UEvery) -> (let* s0 := (let* r := resolve u (nth (length f) (f ++ e :: g) 0) in every_at chk fuel off (f ++ e :: g) (length f) r) in
      foldO (op_index chk fuel) us s0) = (let* m' := array_slice chk fuel (MId (SD 0 (f ++ e :: g) (infer_strides 1 (f ++ e :: g)))) (map (fun e => RSl 0 e 1) f ++ r :: rs) in Ok (SView off m'))).
  { intros Hnev. rewrite Hnth. rewrite <- (run_generic_slice chk fuel off (MId (SD 0 (f ++ e :: g) (infer_strides 1 (f ++ e :: g)))) (fun r => negb (is_rng r)) f (e :: g) u us r rs); auto.
    2:{ destruct us as [|u2 us]; [reflexivity|]. destruct Hnev as [|Hnev]; [discriminate|]. destruct u; cbn [lost_after_every] in Het; try discriminate; congruence. }
    2:{ intros Hus. cbn [combine] in Hres. apply Forall2_cons_inv in Hres as [Er _]. unfold res in Er. cbn [fst snd] in Er.
        destruct us as [|u2 us]; [congruence|]. destruct u; try discriminate; cbn [lost_after_every] in Het; try discriminate; try (simpl in Er; inv Er; reflexivity). destruct Hnev; [discriminate|congruence]. }
    cbn [hd]. destruct (resolve u e) eqn:Er; auto. rewrite !bindO_ok.
    rewrite every_at_gen, every_at_proxy by auto. do 2 f_equal.
    f_equal. rewrite firstn_app, firstn_all, Nat.sub_diag, app_nil_r. reflexivity. }
  apply Forall2_cons_inv in Hok as [Hoku Hokus].
  unfold run. cbn [foldO op_index]. unfold every_index.
  rewrite app_length. cbn [length].
  destruct us as [|u2 us].
  - inversion Hokus; subst. cbn [length].
    replace (S (length f) =? length f + 1)%nat with true by (symmetry; apply Nat.eqb_eq; lia).
    assert (Hbad : selects_nothing u e). { destruct Hoku as [Hoku|]; auto. exfalso. apply Hno. constructor; auto. }
    destruct u; try exact (Gen (or_introl eq_refl)); simpl in Hbad; try tauto. discriminate.
  - destruct g as [|e2 g]; [inversion Hokus|]. cbn [length].
    replace (S (length f) =? length f + S (S (length g)))%nat with false by (symmetry; apply Nat.eqb_neq; lia).
    destruct u; cbn [lost_after_every] in Het; try discriminate; try (apply Gen; right; discriminate).
    cbn [combine] in Hres. apply Forall2_cons_inv in Hres as [R1 R2]. unfold res in R1. cbn in R1. inv R1.
    rewrite bindO_ok. specialize (IH (f ++ [e]) (e2 :: g) rs).
    rewrite <- app_assoc in IH. cbn [app] in IH. rewrite app_length in IH. cbn [length] in IH.
    replace (length f + 1)%nat with (S (length f)) in IH by lia.
    rewrite map_app, <- app_assoc in IH. cbn [map app] in IH.
    apply IH; auto; try discriminate.
    + destruct f; discriminate.
    + intros F. apply Hno. constructor; auto. exact I.
Qed.

Lemma rlen_full f : all_pos f -> map rlen (map (fun e => RSl 0 e 1) f) = f.
Proof. induction 1; simpl; auto. rewrite IHForall. f_equal. unfold rlen. simpl. rewrite map_length, iota_length. lia. Qed.

Lemma comes_down_ref chk fuel off es us : good_shape es -> Forall2 okw us es -> ~ Forall2 ok_arg us es ->
  loses true us = false -> contiguous_shortcut us = false -> (Z.to_nat (zprod es) < fuel)%nat ->
  comes_down chk fuel (SRef off es) es us.
Proof.
  intros Hg Hok Hno Het Hcs Hf. pose proof Hg as (Hne & Hp & HMe). pose proof MAXSZ_W as HMW.
  pose proof (all_le_M _ Hp HMe) as HMs. pose proof (Forall2_len _ _ _ Hok) as Hlen.
  destruct (resolve_all_weak _ _ Hok Hp HMs) as (rs & A & B & C & D & E). specialize (D Hno).
  destruct us as [|u us]; [exfalso; inversion Hok; subst; congruence|].
  destruct es as [|e es]; [congruence|]. destruct rs as [|r rs]; [inversion A|].
  assert (Hsd : forall k, sd_infer chk k (e :: es) = Ok (SD k (e :: es) (infer_strides 1 (e :: es)))) by (intros; apply sd_infer_ok; auto).
  set (m := MId (SD 0 (e :: es) (infer_strides 1 (e :: es)))) in *.
  assert (Gen : (us = [] \/ u <> UEvery /\ is_index u = false) -> (let* s0 := (let* r := resolve u e in gen_at chk fuel off (e :: es) 0 false r) in
      foldO (op_index chk fuel) us s0) = (let* m' := array_slice chk fuel m (r :: rs) in Ok (SView off m'))).
  { intros Hnev. pose proof (run_generic_slice chk fuel off m (fun _ => false) [] (e :: es) u us r rs eq_refl Hlen E) as G.
    cbn [hd map app] in G. rewrite <- G; auto.
    2:{ destruct us as [|u2 us]; [reflexivity|]. destruct Hnev as [|[Hnev Hni]]; [discriminate|]. destruct u; try discriminate; try exact Het; congruence. }
    destruct (resolve u e) eqn:Er; auto. rewrite !bindO_ok.
    rewrite every_at_proxy by auto. reflexivity. }
  pose proof Hok as Hok0. apply Forall2_cons_inv in Hok as [Hoku Hokus].
  assert (HeM : 0 < e <= MAXSZ). { split; [inv Hp; auto|apply (Forall_inv HMs)]. }
  assert (Easy : run chk fuel (SRef off (e :: es)) (u :: us) = (let* m' := array_slice chk fuel m (r :: rs) in Ok (SView off m')) ->
     is_index u = false -> comes_down chk fuel (SRef off (e :: es)) (e :: es) (u :: us)).
  { intros R Ix. exists off, m, (e :: es), (iota (zprod (e :: es))), (r :: rs).
    split. { apply minv_infer; auto. } split; auto. split; auto. split; auto.
    split. { rewrite result_shape_sels; auto. } split; auto. split; auto. lia. }
  unfold run in Easy. cbn [foldO op_index] in Easy. unfold ref_index in Easy. cbn [hd] in Easy.
  destruct us as [|u2 us].
  - specialize (Gen (or_introl eq_refl)). inversion Hokus; subst. cbn [length Nat.eqb foldO] in *.
    assert (Hbad : selects_nothing u e). { destruct Hoku as [Hoku|]; auto. exfalso. apply Hno. constructor; auto. }
    destruct u; simpl in Hbad; try (exfalso; exact Hbad); try discriminate.
    + apply Easy; [|reflexivity]. unfold ref_strided. rewrite Hsd, bindO_ok. cbn [resolve] in Gen. rewrite bindO_ok, every_at_0 in Gen by auto. exact Gen.
    + apply Easy; [|reflexivity]. cbn [resolve] in Gen. destruct (eval_bounded_strided s m0 t e) as [[[s' n] t']| | | |] eqn:Eb; cbn [bindO] in Gen |- *;
        try exact Gen.
  - destruct es as [|e2 es]; [inversion Hokus|]. cbn [length Nat.eqb] in *.
    assert (Hpx : forall r, gen_at chk fuel off (e :: e2 :: es) 0 false r = Ok (SProxy off m [r])).
    { intros r'. rewrite every_at_0 by auto. reflexivity. }
    assert (Gen' := fun h => Gen (or_intror h)). clear Gen. rename Gen' into Gen.
    destruct u;
      match type of Gen with (UEvery <> UEvery /\ _) -> _ => idtac | (UIdx _ <> _ /\ _) -> _ => idtac | (?a <> _ /\ _) -> _ => let N := fresh in assert (N : a <> UEvery) by (intro; discriminate); specialize (Gen (conj N eq_refl)); clear N end.
    + apply okw_index in Hoku.
      assert (Hno' : ~ Forall2 ok_arg (u2 :: us) (e2 :: es)) by (intros F; apply Hno; constructor; auto).
      destruct (m_drop_first_ok chk fuel m e (e2 :: es) _ i
         (minv_infer _ Hne Hp HMe)) as (m' & Em & I); auto; try discriminate.
      destruct (comes_down_view chk fuel off (u2 :: us) m' (e2 :: es) _ I) as (off' & m2 & es2 & ps2 & rs2 & X1 & X2 & X3 & X4 & X5 & X6 & X7 & X8); auto.
      { inv Hp. pose proof (zprod_pos _ H2). change (zprod (e :: e2 :: es)) with (e * zprod (e2 :: es)) in Hf. nia. }
      exists off', m2, es2, ps2, rs2. split; auto. split.
      { rewrite <- X2. unfold run at 1. cbn [foldO op_index]. unfold ref_index. cbn [hd length Nat.eqb]. rewrite dassert_ok by lia.
        rewrite Hsd, !bindO_ok. unfold m in Em. cbn [m_drop_first sd_start sd_strs] in Em. unfold sd_discard in *. cbn [sd_exts sd_strs tl infer_strides sd_start hd] in Em |- *.
        replace (w64 (0 + w64 (1 * i))) with i in Em.
        2:{ autorewrite with w64. rewrite w64_small by lia. lia. }
        injection Em as E'. rewrite E'. reflexivity. }
      split; auto. split; auto. split; auto. split; auto. split; [rewrite X7; simpl; rewrite (m_drop_first_kind _ _ _ _ _ Em); reflexivity|].
      inv Hp. pose proof (zprod_pos _ H2). change (zprod (e :: e2 :: es)) with (e * zprod (e2 :: es)). nia.
    + apply Easy; [|reflexivity]. unfold ref_abs. rewrite Hsd, bindO_ok. cbn [resolve] in Gen. rewrite bindO_ok, Hpx in Gen. exact Gen.
    + apply Easy; [|reflexivity]. unfold ref_strided. rewrite Hsd, bindO_ok. cbn [resolve] in Gen. rewrite bindO_ok, Hpx in Gen. exact Gen.
    + apply Easy; [|reflexivity]. rewrite bindO_ok. cbn [combine] in E. pose proof E as E0. apply Forall2_cons_inv in E0 as [R1 R2]. unfold res in R1. cbn in R1. inv R1.
      apply (run_every_slice chk fuel off (u2 :: us) [e] (e2 :: es) rs); auto; try discriminate.
      intros F. apply Hno. constructor; auto. exact I.
    + apply Easy; [|reflexivity]. cbn [resolve] in Gen. destruct (eval_bounded s m0 e) as [s' n] eqn:Eb.
      unfold ref_abs. rewrite Hsd, bindO_ok. rewrite bindO_ok, Hpx in Gen. exact Gen.
    + apply Easy; [|reflexivity]. cbn [resolve] in Gen. destruct (eval_bounded_strided s m0 t e) as [[[s' n] t']| | | |] eqn:Eb; cbn [bindO] in Gen |- *;
        try exact Gen.
      unfold ref_strided. rewrite Hsd, bindO_ok. rewrite Hpx in Gen. exact Gen.
    + apply Easy; [|reflexivity]. rewrite Hsd, bindO_ok. cbn [resolve] in Gen. rewrite bindO_ok, Hpx in Gen. exact Gen.
Qed.

Lemma comes_down_any chk fuel s v us : sinv s v -> Forall2 okw us (fst v) -> ~ Forall2 ok_arg us (fst v) ->
  loses true us = false -> (forall off es, s = SRef off es -> contiguous_shortcut us = false) -> (Z.to_nat (zprod (fst v)) < fuel)%nat ->
  comes_down chk fuel s (fst v) us.
Proof.
  intros I Hok Hno Het Hcs Hf. destruct s; simpl in I; try tauto.
  - destruct I as (Ev & Hgs & _). rewrite Ev in *. apply comes_down_ref; eauto.
  - destruct I as (ps & Hm & _). eapply comes_down_view; eauto. apply loses_true; auto.
Qed.
