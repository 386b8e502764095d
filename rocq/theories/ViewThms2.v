(** * ViewThms2: rejection of out-of-range subscripts, bounded slices, dropped dimensions, axes. *)

From Coq Require Import ZArith List Bool Lia Permutation.
From Verif Require Import Base Spec Desc Slice SliceSpec Lemmas DescProofs SliceProofs ViewProofs RunProofs ViewThms.
Import ListNotations.
Open Scope Z_scope.

(** ** C06 *)
Definition rbad (r : rarg) (e : Z) : Prop :=
  match r with
  | RIdx i => e <= i
  | RSl s n t => 0 <= s /\ 0 < n /\ 0 < t /\ e <= s + (n - 1) * t < W
  | RRng l => Forall (fun i => 0 <= i) l /\ Exists (fun i => e <= i) l
  end.
Lemma rbad_not_rok r e : rbad r e -> ~ rok r e.
Proof.
  destruct r; simpl; try lia. intros [_ H] [_ F]. rewrite Exists_exists in H. destruct H as (x & Hx & Hx2).
  rewrite Forall_forall in F. specialize (F _ Hx). lia.
Qed.
Lemma resolve_bad u e : bad_arg u e -> exists r, resolve u e = Ok r /\ rbad r e.
Proof.
  destruct u; simpl; try tauto; intros; eexists; (split; [reflexivity|]); simpl; try lia. auto.
Qed.

Lemma dassert_abort c {A} (k : unit -> outcome A) : c = false -> (let* x := dassert true c in k x) = Abort.
Proof. intros ->. reflexivity. Qed.

Lemma check_wrap s n t : 0 <= s -> 0 < n -> 0 < t -> s + (n - 1) * t < W ->
  w64 (s + w64 (w64 (n - 1) * t)) = s + (n - 1) * t.
Proof.
  intros. assert (n - 1 <= (n - 1) * t) by nia. rewrite (w64_small (n - 1)) by lia.
  rewrite (w64_small ((n - 1) * t)) by nia. rewrite w64_small by nia. reflexivity.
Qed.

Lemma max_idx_ge l e acc : Exists (fun i => e <= i) l \/ e <= acc ->
  e <= fold_left (fun acc x => if acc <? x then x else acc) l acc.
Proof.
  revert acc. induction l as [|x l IH]; intros acc H; simpl.
  - destruct H as [H|H]; [inversion H|auto].
  - apply IH. destruct H as [H|H].
    + inversion H; subst; auto. right. destruct (acc <? x) eqn:E; lia.
    + right. destruct (acc <? x) eqn:E; lia.
Qed.

Lemma do_slice_bad es rs : Forall2 (fun r e => rok r e \/ rbad r e) rs es -> ~ Forall2 rok rs es ->
  existsb is_rng rs = false -> Forall (fun e => e <= MAXSZ) es ->
  forall start ss, length ss = length es -> do_slice true start es ss rs = Abort.
Proof.
  pose proof MAXSZ_W as HMW. pose proof MAXSZ_pos.
  induction 1 as [|r e rs es Hr Hrs IH]; intros Hno Hrg HM start ss Hl.
  { exfalso. apply Hno. constructor. }
  destruct ss as [|st ss]; [discriminate|]. simpl in Hl. simpl in Hrg. apply orb_false_iff in Hrg as [Hr1 Hr2].
  apply Forall_cons_iff' in HM as [HM1 HM2].
  destruct Hr as [Hr|Hr].
  - assert (Hno' : ~ Forall2 rok rs es) by (intros C; apply Hno; constructor; auto).
    destruct r; simpl in Hr; [| |discriminate]; cbn [do_slice].
    + rewrite dassert_ok by lia. rewrite bindO_ok. rewrite IH by (auto; lia). reflexivity.
    + rewrite dassert_ok by lia. rewrite bindO_ok. rewrite dassert_ok by lia. rewrite bindO_ok.
      rewrite check_wrap by (auto; lia). rewrite dassert_ok by lia. rewrite bindO_ok. rewrite IH by (auto; lia). reflexivity.
  - destruct r; simpl in Hr; [| |discriminate]; cbn [do_slice].
    + apply dassert_abort. lia.
    + rewrite dassert_ok by lia. rewrite bindO_ok. rewrite dassert_ok by lia. rewrite bindO_ok.
      apply dassert_abort. rewrite check_wrap by (auto; lia). lia.
Qed.

Lemma firstn_snoc_nth (l : list Z) k : (k < length l)%nat -> firstn (S k) l = firstn k l ++ [nth k l 0].
Proof.
  revert k. induction l as [|a l IH]; intros k Hk; simpl in *; [lia|]. destruct k; [reflexivity|]. simpl. f_equal. apply IH. lia.
Qed.
Lemma Forall2_snoc_inv {A B} (P : A -> B -> Prop) l x l' y : Forall2 P (l ++ [x]) (l' ++ [y]) -> Forall2 P l l' /\ P x y.
Proof.
  intros H. apply Forall2_app_inv_l in H as (l1 & l2 & A1 & A2 & E).
  inversion A2 as [|? y' ? l2' P1 P2]; subst. inversion P2; subst. apply app_inj_tail in E as [-> ->]. auto.
Qed.

Lemma foldO_abort {S A} (f : S -> A -> outcome S) l s : l <> [] -> (forall s a, In a l -> f s a = Abort) -> foldO f l s = Abort.
Proof. destruct l as [|a l]; [congruence|]. intros _ H. cbn [foldO]. rewrite H by (left; auto). reflexivity. Qed.

Lemma do_ind_bad d as_ : Forall (fun e => e <= MAXSZ) (sd_exts d) ->
  forall ix acc, Forall2 (fun r e => rok r e \/ rbad r e) as_ (firstn (length as_) (sd_exts d)) ->
  ~ Forall2 rok as_ (firstn (length as_) (sd_exts d)) ->
  (length as_ <= length (sd_exts d))%nat ->
  do_ind true d (rev as_) ix acc = Abort.
Proof.
  intros HM. pose proof MAXSZ_W as HMW.
  induction as_ as [|a as_ IH] using rev_ind; intros ix acc Hr Hno Hl.
  { exfalso. apply Hno. constructor. }
  rewrite app_length in *. simpl in Hl, Hr, Hno. rewrite Nat.add_1_r in *.
  rewrite firstn_snoc_nth in Hr, Hno by lia. apply Forall2_snoc_inv in Hr as [Hr Ha].
  set (e := nth (length as_) (sd_exts d) 0) in *.
  assert (HeM : e <= MAXSZ). { rewrite Forall_forall in HM. apply HM. apply nth_In. lia. }
  rewrite rev_app_distr. cbn [rev app do_ind]. rewrite rev_length. fold e.
  destruct Ha as [Ha|Ha].
  - assert (Hno' : ~ Forall2 rok as_ (firstn (length as_) (sd_exts d))).
    { intros C. apply Hno. apply Forall2_app; auto. }
    destruct a as [i|s n t|l]; simpl in Ha.
    + rewrite dassert_ok by lia. rewrite bindO_ok. apply IH; auto; lia.
    + rewrite dassert_ok by lia. rewrite bindO_ok. rewrite dassert_ok by lia. rewrite bindO_ok.
      rewrite check_wrap by (auto; lia). rewrite dassert_ok by lia. rewrite bindO_ok.
      apply foldO_abort.
      * fold (iota n). rewrite iota_cons by lia. discriminate.
      * intros. apply IH; auto; lia.
    + destruct Ha as [Ha1 Ha2]. rewrite dassert_ok.
      2:{ apply Z.ltb_lt. apply max_idx_lt; auto. destruct l; [congruence|]. inv Ha2. lia. }
      rewrite bindO_ok. apply foldO_abort; auto. intros. apply IH; auto; lia.
  - destruct a as [i|s n t|l]; simpl in Ha.
    + apply dassert_abort. lia.
    + rewrite dassert_ok by lia. rewrite bindO_ok. rewrite dassert_ok by lia. rewrite bindO_ok.
      apply dassert_abort. rewrite check_wrap by (auto; lia). lia.
    + apply dassert_abort. destruct Ha as [_ Ha]. apply Z.ltb_ge. apply max_idx_ge. auto.
Qed.

Lemma array_slice_bad fuel m es ps rs : minv m es ps ->
  Forall2 (fun r e => rok r e \/ rbad r e) rs es -> ~ Forall2 rok rs es ->
  array_slice true fuel m rs = Abort.
Proof.
  intros (Hne & Hp & HM & He & Hm) Hr Hno. pose proof (all_le_M _ Hp HM) as HMs.
  pose proof (Forall2_len _ _ _ Hr) as Hlen.
  unfold array_slice. destruct (existsb is_rng rs) eqn:E.
  - unfold indirect_slicing. rewrite do_ind_bad; auto; rewrite ?He; auto; rewrite ?Hlen, ?firstn_all; auto.
  - unfold default_slicing. rewrite He, do_slice_bad; auto.
    destruct m as [d|d idx]; cbn [m_desc] in *.
    + destruct Hm as (Hs & _). apply strides_ok_length in Hs. auto.
    + destruct Hm as (-> & _). simpl. apply infer_strides_length.
Qed.

Definition okbad (u : uarg) (e : Z) : Prop := ok_arg u e \/ bad_arg u e.
Definition rokbad (r : rarg) (e : Z) : Prop := rok r e \/ rbad r e.

Lemma resolve_all_bad us es : Forall2 okbad us es -> all_pos es -> Forall (fun e => e <= MAXSZ) es ->
  exists rs, Forall2 rokbad rs es /\ (~ Forall2 ok_arg us es -> ~ Forall2 rok rs es) /\
    Forall2 (fun r ue => resolve (fst ue) (snd ue) = Ok r) rs (combine us es).
Proof.
  induction 1 as [|u e us es Hu Hus IH]; intros Hp HM.
  - exists []. split; [constructor|]. split; [intros C; exfalso; apply C; constructor|constructor].
  - apply Forall_cons_iff' in Hp as [Hp1 Hp2]. apply Forall_cons_iff' in HM as [HM1 HM2].
    destruct IH as (rs & A & B & C); auto. destruct Hu as [Hu|Hu].
    + destruct (resolve_ok u e Hu) as (r & E & F & _ & _); [lia|].
      exists (r :: rs). split; [constructor; [left|]; auto|]. split.
      * intros N G. apply Forall2_cons_inv in G as [_ G]. apply B; auto.
      * constructor; auto.
    + destruct (resolve_bad u e Hu) as (r & E & F).
      exists (r :: rs). split; [constructor; [right|]; auto|]. split.
      * intros N G. apply Forall2_cons_inv in G as [G _]. apply (rbad_not_rok _ _ F G).
      * constructor; auto.
Qed.

Lemma run_proxy_bad fuel off m es ps us : forall args rs,
  minv m es ps -> us <> [] -> middle_lost us = false ->
  Forall2 rokbad (args ++ rs) es -> ~ Forall2 rok (args ++ rs) es ->
  Forall2 (fun r ue => resolve (fst ue) (snd ue) = Ok r) rs (combine us (skipn (length args) es)) ->
  length us = length rs ->
  run true fuel (SProxy off m args) us = Abort.
Proof.
  induction us as [|u us IH]; intros args rs Hm Hne Hlost Hr Hno Hres Hlen; [congruence|].
  destruct rs as [|r rs]; [discriminate|].
  assert (Hl := Forall2_len _ _ _ Hr). rewrite app_length in Hl. simpl in Hl, Hlen.
  assert (He : sd_exts (m_desc m) = es) by apply Hm.
  destruct (skipn (length args) es) as [|e rest] eqn:Esk.
  { assert (length (skipn (length args) es) = 0%nat) by (rewrite Esk; auto). rewrite skipn_length in H. lia. }
  assert (Hnth : nth (length args) es 0 = e).
  { rewrite <- (firstn_skipn (length args) es), Esk, app_nth2; rewrite firstn_length_le; try lia.
    rewrite Nat.sub_diag. reflexivity. }
  cbn [combine] in Hres. apply Forall2_cons_inv in Hres as [Hr1 Hres']. simpl in Hr1.
  unfold run. cbn [foldO op_index]. unfold proxy_index. rewrite He, Hnth, Hr1, bindO_ok.
  unfold proxy_at. rewrite He. destruct us as [|u2 us].
  - destruct rs; [|discriminate]. simpl in Hl.
    replace (S (length args) =? length es)%nat with true by (symmetry; apply Nat.eqb_eq; lia).
    rewrite (array_slice_bad fuel m es ps); auto.
  - destruct rs as [|r2 rs]; [discriminate|].
    replace (S (length args) =? length es)%nat with false by (symmetry; apply Nat.eqb_neq; simpl in *; lia).
    cbn [middle_lost] in Hlost. apply orb_false_iff in Hlost as [Hnm Hlost]. change (by_name u) with (kept_by_reference u). rewrite Hnm.
    rewrite bindO_ok. replace (args ++ r :: r2 :: rs) with ((args ++ [r]) ++ r2 :: rs) in * by (rewrite <- app_assoc; reflexivity).
    apply (IH (args ++ [r]) (r2 :: rs)); auto; try discriminate.
    replace (skipn (length (args ++ [r])) es) with rest; auto.
    rewrite app_length. simpl. rewrite Nat.add_1_r.
    clear -Esk. revert Esk. generalize (length args) as k. induction es; intros k E; destruct k; simpl in *; try congruence. auto.
Qed.

Lemma foldO_Abort_l {S A} (f : S -> A -> outcome S) (l : list A) : bindO Abort (fun s => foldO f l s) = Abort.
Proof. reflexivity. Qed.

(** Generic route (views and contiguous arrays): the first dimensions whole, then the given subscripts. *)
Lemma run_generic_bad fuel off m named f g ps u us : minv m (f ++ g) ps ->
  Forall2 okbad (u :: us) g -> ~ Forall2 ok_arg (u :: us) g -> middle_lost us = false ->
  (us <> [] -> forall r, resolve u (hd 0 g) = Ok r -> named r = false) ->
  (let* s' := (let* r := resolve u (hd 0 g) in
      proxy_at true fuel off m (map (fun e => RSl 0 e 1) f) (named r) r) in foldO (op_index true fuel) us s') = Abort.
Proof.
  intros Hm Hok Hno Hlost Hnamed. pose proof Hm as (Hne & Hp & HMe & He & _).
  pose proof (all_le_M _ Hp HMe) as HMs.
  unfold all_pos in Hp. rewrite Forall_app in Hp. destruct Hp as [Hpf Hpg].
  apply Forall_app in HMs as [HMf HMg].
  destruct (resolve_all_bad _ _ Hok Hpg HMg) as (rs & A & B & C).
  destruct g as [|e g]; [inversion Hok|].
  destruct rs as [|r rs]; [inversion C|].
  apply Forall2_cons_inv in Hok as [Hoku Hokus].
  cbn [combine] in C. apply Forall2_cons_inv in C as [C1 C2]. simpl in C1.
  cbn [hd] in *. rewrite C1, bindO_ok.
  set (args := map (fun e => RSl 0 e 1) f) in *.
  assert (Hal : length args = length f) by (unfold args; rewrite map_length; auto).
  assert (Hrok : Forall2 rokbad (args ++ r :: rs) (f ++ e :: g)).
  { apply Forall2_app; auto. pose proof (rok_full f Hpf) as F. clear -F. fold args in F. induction F; constructor; auto. left; auto. }
  assert (Hno' : ~ Forall2 rok (args ++ r :: rs) (f ++ e :: g)).
  { intros F. apply (B Hno). clear -F Hal. revert F. generalize (r :: rs) as x, (e :: g) as y. clearbody args. revert f Hal.
    induction args as [|a args IH]; intros [|e0 f] Hal x y F; try discriminate; auto.
    cbn [app] in F. apply Forall2_cons_inv in F as [_ F]. simpl in Hal. apply (IH f ltac:(lia) x y F). }
  unfold proxy_at. rewrite He, app_length, Hal. cbn [length].
  destruct us as [|u2 us].
  - inversion Hokus; subst. destruct rs; [|inversion C2]. cbn [length].
    replace (S (length f) =? length f + 1)%nat with true by (symmetry; apply Nat.eqb_eq; lia).
    rewrite (array_slice_bad fuel m _ ps _ Hm); auto.
  - destruct g as [|e2 g]; [inversion Hokus|]. cbn [length].
    replace (S (length f) =? length f + S (S (length g)))%nat with false by (symmetry; apply Nat.eqb_neq; lia).
    rewrite (Hnamed ltac:(discriminate) r) by auto.
    rewrite bindO_ok. replace (args ++ r :: rs) with ((args ++ [r]) ++ rs) in * by (rewrite <- app_assoc; reflexivity).
    apply (run_proxy_bad fuel off m (f ++ e :: e2 :: g) ps (u2 :: us) (args ++ [r]) rs); auto; try discriminate.
    + replace (length (args ++ [r])) with (S (length f)) by (rewrite app_length; simpl; lia).
      replace (skipn (S (length f)) (f ++ e :: e2 :: g)) with (e2 :: g); auto.
      rewrite skipn_app. rewrite skipn_all2 by lia. replace (S (length f) - length f)%nat with 1%nat by lia. reflexivity.
    + apply Forall2_len in C2. apply Forall2_len in Hokus. rewrite C2. rewrite combine_length. simpl in *. lia.
Qed.

Lemma run_view_bad fuel off us : forall m es ps,
  minv m es ps -> Forall2 okbad us es -> ~ Forall2 ok_arg us es -> loses false us = false -> (Z.to_nat (zprod es) < fuel)%nat ->
  run true fuel (SView off m) us = Abort.
Proof.
  induction us as [|u us IH]; intros m es ps Hm Hok Hno Hlost Hf.
  { exfalso. inversion Hok; subst. apply Hno. constructor. }
  pose proof Hm as (_ & Hp & HMe & He & _).
  destruct es as [|e es]; [inversion Hok|]. pose proof Hok as Hok0. apply Forall2_cons_inv in Hok as [Hoku Hokus].
  destruct (is_index u) eqn:Eu.
  - destruct u as [i| | | | | |]; try discriminate. unfold run. cbn [foldO op_index]. unfold view_index. rewrite He. cbn [hd].
    destruct Hoku as [Hoku|Hoku]; simpl in Hoku.
    + rewrite dassert_ok by lia. rewrite bindO_ok.
      assert (Hno' : ~ Forall2 ok_arg us es) by (intros F; apply Hno; constructor; auto; simpl; lia).
      destruct us as [|u2 us]. { exfalso. inversion Hokus; subst. apply Hno'. constructor. }
      destruct es as [|e2 es]; [inversion Hokus|]. cbn [length Nat.eqb].
      destruct (m_drop_first_ok true fuel m e (e2 :: es) ps i) as (m' & E & I); auto; try discriminate.
      rewrite E, !bindO_ok. apply (IH m' (e2 :: es) _ I); auto.
      inv Hp. pose proof (zprod_pos _ H2). change (zprod (e :: e2 :: es)) with (e * zprod (e2 :: es)) in Hf. nia.
    + rewrite dassert_abort by lia. reflexivity.
  - assert (Hlost' : middle_lost us = false) by (destruct u; try discriminate; exact Hlost).
    assert (Gen : (let* s' := (let* r := resolve u e in proxy_at true fuel off m [] false r) in foldO (op_index true fuel) us s') = Abort).
    { apply (run_generic_bad fuel off m (fun _ => false) [] (e :: es) ps u us); auto. }
    unfold run. cbn [foldO op_index]. unfold view_index. rewrite He. cbn [hd].
    unfold proxy_at in Gen. cbn [length app] in Gen. rewrite He in Gen. cbn [length] in Gen.
    destruct es as [|e2 es]; cbn [length Nat.eqb] in Gen |- *.
    + destruct u; try discriminate; try exact Gen.
      exfalso. inversion Hokus; subst. apply Hno. constructor; [exact I|constructor].
    + destruct u; try discriminate; exact Gen.
Qed.

Lemma every_at_proxy chk fuel off es M b r : es <> [] -> all_pos es ->
  gen_at chk fuel off es M b r = proxy_at chk fuel off (MId (SD 0 es (infer_strides 1 es))) (map (fun e => RSl 0 e 1) (firstn M es)) b r.
Proof. intros. unfold gen_at. rewrite sd_infer_ok by auto. reflexivity. Qed.

Lemma run_every_bad fuel off us : forall f g,
  f <> [] -> g <> [] -> good_shape (f ++ g) -> Forall2 okbad us g -> ~ Forall2 ok_arg us g ->
  lost_after_every us = false ->
  run true fuel (SEvery off (f ++ g) (length f)) us = Abort.
Proof.
  induction us as [|u us IH]; intros f g Hf Hgne Hg Hok Hno Het.
  { exfalso. inversion Hok; subst. apply Hno. constructor. }
  pose proof Hg as (Hne & Hp & HMe). pose proof MAXSZ_W as HMW. pose proof (all_le_M _ Hp HMe) as HMs.
  assert (HpS := Hp). unfold all_pos in HpS. rewrite Forall_app in HpS. destruct HpS as [Hpf Hpg].
  destruct g as [|e g]; [congruence|].
  assert (Hnth : nth (length f) (f ++ e :: g) 0 = e) by (rewrite app_nth2, Nat.sub_diag by lia; reflexivity).
  assert (Gen : (us = [] \/ u <> UEvery) -> (let* s0 := (let* r := resolve u (nth (length f) (f ++ e :: g) 0) in every_at true fuel off (f ++ e :: g) (length f) r) in
      foldO (op_index true fuel) us s0) = Abort).
  { intros Hnev. rewrite Hnth. pose proof (run_generic_bad fuel off _ (fun r => negb (is_rng r)) f (e :: g) _ u us (minv_infer _ Hne Hp HMe) Hok Hno) as G.
    cbn [hd] in G. rewrite <- G.
    2:{ destruct us as [|u2 us]; [reflexivity|]. destruct Hnev as [|Hnev]; [discriminate|]. destruct u; cbn [lost_after_every] in Het; try discriminate; congruence. }
    2:{ intros Hus r Er. destruct us as [|u2 us]; [congruence|]. destruct u; try discriminate; cbn [lost_after_every] in Het; try discriminate; try (simpl in Er; inv Er; reflexivity). destruct Hnev; [discriminate|congruence]. }
    destruct (resolve u e) eqn:Er; auto. rewrite !bindO_ok.
    rewrite every_at_gen, every_at_proxy by auto. do 2 f_equal.
    f_equal. rewrite firstn_app, firstn_all, Nat.sub_diag, app_nil_r. reflexivity. }
  apply Forall2_cons_inv in Hok as [Hoku Hokus].
  unfold run. cbn [foldO op_index]. unfold every_index.
  rewrite app_length. cbn [length].
  destruct us as [|u2 us].
  - inversion Hokus; subst. cbn [length].
    replace (S (length f) =? length f + 1)%nat with true by (symmetry; apply Nat.eqb_eq; lia).
    rewrite last_last.
    assert (Hbad : bad_arg u e). { destruct Hoku as [Hoku|]; auto. exfalso. apply Hno. constructor; auto. }
    destruct u; try exact (Gen (or_introl eq_refl)); simpl in Hbad; try tauto.
    + rewrite dassert_abort by lia. reflexivity.
    + rewrite dassert_abort; [reflexivity|].
      destruct (Z.eq_dec (s + n) W) as [->|Hw].
      * replace (w64 W) with 0 by reflexivity. apply Forall_app in HMs as [_ HMs]. inv HMs. apply Z.ltb_ge.
        replace (w64 (0 - 1)) with (W - 1) by reflexivity. lia.
      * rewrite (w64_small (s + n)) by lia. rewrite w64_small by (inv Hpg; lia). lia.
  - destruct g as [|e2 g]; [inversion Hokus|]. cbn [length].
    replace (S (length f) =? length f + S (S (length g)))%nat with false by (symmetry; apply Nat.eqb_neq; lia).
    destruct u; cbn [lost_after_every] in Het; try discriminate; try (apply Gen; right; discriminate).
    rewrite bindO_ok. specialize (IH (f ++ [e]) (e2 :: g)).
    rewrite <- app_assoc in IH. cbn [app] in IH. rewrite app_length in IH. cbn [length] in IH.
    replace (length f + 1)%nat with (S (length f)) in IH by lia.
    apply IH; auto; try discriminate.
    + destruct f; discriminate.
    + intros F. apply Hno. constructor; auto. exact I.
Qed.

Lemma run_ref_bad fuel off es us : good_shape es -> Forall2 okbad us es -> ~ Forall2 ok_arg us es ->
  loses true us = false -> (Z.to_nat (zprod es) < fuel)%nat ->
  run true fuel (SRef off es) us = Abort.
Proof.
  intros Hg Hok Hno Het Hf. pose proof Hg as (Hne & Hp & HMe). pose proof MAXSZ_W as HMW.
  pose proof (all_le_M _ Hp HMe) as HMs.
  destruct us as [|u us]; [exfalso; inversion Hok; subst; congruence|].
  destruct es as [|e es]; [congruence|].
  assert (Gen : (us = [] \/ u <> UEvery /\ is_index u = false) -> (let* s0 := (let* r := resolve u e in gen_at true fuel off (e :: es) 0 false r) in
      foldO (op_index true fuel) us s0) = Abort).
  { intros Hnev. pose proof (run_generic_bad fuel off _ (fun _ => false) [] (e :: es) _ u us (minv_infer _ Hne Hp HMe) Hok Hno) as G.
    cbn [hd map app] in G. rewrite <- G; auto.
    2:{ destruct us as [|u2 us]; [reflexivity|]. destruct Hnev as [|[Hnev Hni]]; [discriminate|]. destruct u; try discriminate; try exact Het; congruence. }
    destruct (resolve u e) eqn:Er; auto. rewrite !bindO_ok.
    rewrite every_at_proxy by auto. reflexivity. }
  apply Forall2_cons_inv in Hok as [Hoku Hokus].
  assert (HeM : 0 < e <= MAXSZ). { split; [inv Hp; auto|apply (Forall_inv HMs)]. }
  unfold run. cbn [foldO op_index]. unfold ref_index. cbn [hd].
  assert (Hsd : forall k, sd_infer true k (e :: es) = Ok (SD k (e :: es) (infer_strides 1 (e :: es)))) by (intros; apply sd_infer_ok; auto).
  destruct us as [|u2 us].
  - specialize (Gen (or_introl eq_refl)). inversion Hokus; subst. cbn [length Nat.eqb foldO] in *.
    assert (Hbad : bad_arg u e). { destruct Hoku as [Hoku|]; auto. exfalso. apply Hno. constructor; auto. }
    destruct u; simpl in Hbad; try (exfalso; exact Hbad).
    + rewrite dassert_abort by lia. reflexivity.
    + unfold ref_abs. rewrite dassert_abort; [reflexivity|].
      destruct (Z.eq_dec (s + n) W) as [->|Hw].
      * replace (w64 W) with 0 by reflexivity. apply Z.ltb_ge. replace (w64 (0 - 1)) with (W - 1) by reflexivity. lia.
      * rewrite (w64_small (s + n)) by lia. rewrite w64_small by lia. lia.
    + unfold ref_strided. rewrite Hsd, bindO_ok. cbn [resolve] in Gen. rewrite bindO_ok, every_at_0 in Gen by auto. exact Gen.
    + rewrite dassert_abort; [reflexivity|]. apply Z.ltb_ge. apply max_idx_ge. tauto.
  - destruct es as [|e2 es]; [inversion Hokus|]. cbn [length Nat.eqb] in *.
    assert (Hpx : forall r, gen_at true fuel off (e :: e2 :: es) 0 false r = Ok (SProxy off (MId (SD 0 (e :: e2 :: es) (infer_strides 1 (e :: e2 :: es)))) [r])).
    { intros r. rewrite every_at_0 by auto. reflexivity. }
    assert (Gen' := fun h => Gen (or_intror h)). clear Gen. rename Gen' into Gen.
    destruct u;
      match type of Gen with (UEvery <> UEvery /\ _) -> _ => idtac | (UIdx _ <> _ /\ _) -> _ => idtac | (?a <> _ /\ _) -> _ => let N := fresh in assert (N : a <> UEvery) by (intro; discriminate); specialize (Gen (conj N eq_refl)); clear N end.
    + destruct Hoku as [Hoku|Hoku]; simpl in Hoku; [|rewrite dassert_abort by lia; reflexivity].
      rewrite dassert_ok by lia. rewrite bindO_ok.
      (* same value as indexing the strided view of the whole array *)
      assert (Hno' : ~ Forall2 ok_arg (u2 :: us) (e2 :: es)) by (intros F; apply Hno; constructor; auto).
      destruct (m_drop_first_ok true fuel (MId (SD 0 (e :: e2 :: es) (infer_strides 1 (e :: e2 :: es)))) e (e2 :: es) _ i
         (minv_infer _ Hne Hp HMe)) as (m' & E & I); auto; try discriminate.
      rewrite Hsd, !bindO_ok. cbn [m_drop_first sd_start sd_strs] in E. unfold sd_discard in *. cbn [sd_exts sd_strs tl infer_strides sd_start hd] in E |- *.
      replace (w64 (0 + w64 (1 * i))) with i in E.
      2:{ autorewrite with w64. rewrite w64_small by lia. lia. }
      injection E as E'. rewrite E'. apply (run_view_bad fuel off (u2 :: us) m' (e2 :: es) _ I); auto.
      inv Hp. pose proof (zprod_pos _ H2). change (zprod (e :: e2 :: es)) with (e * zprod (e2 :: es)) in Hf. nia.
    + unfold ref_abs. rewrite Hsd, bindO_ok. cbn [resolve] in Gen. rewrite bindO_ok, Hpx in Gen. exact Gen.
    + unfold ref_strided. rewrite Hsd, bindO_ok. cbn [resolve] in Gen. rewrite bindO_ok, Hpx in Gen. exact Gen.
    + rewrite bindO_ok. apply (run_every_bad fuel off (u2 :: us) [e] (e2 :: es)); auto; try discriminate.
      intros F. apply Hno. constructor; auto. exact I.
    + cbn [resolve] in Gen. destruct (eval_bounded s m e) as [s' n] eqn:Eb.
      unfold ref_abs. rewrite Hsd, bindO_ok. rewrite bindO_ok, Hpx in Gen. exact Gen.
    + cbn [resolve] in Gen. destruct (eval_bounded_strided s m t e) as [[[s' n] t']| | | |] eqn:Eb; cbn [bindO] in Gen |- *;
        try exact Gen.
      unfold ref_strided. rewrite Hsd, bindO_ok. rewrite Hpx in Gen. exact Gen.
    + rewrite Hsd, bindO_ok. cbn [resolve] in Gen. rewrite bindO_ok, Hpx in Gen. exact Gen.
Qed.

Lemma out_of_range_rejected es steps us : good_shape es -> ok_steps (afull es) steps ->
  Forall2 (fun u e => ok_arg u e \/ bad_arg u e) us (fst (aselects (afull es) steps)) ->
  ~ Forall2 ok_arg us (fst (aselects (afull es) steps)) -> loses true us = false ->
  exists fuel0, forall fuel, (fuel0 <= fuel)%nat -> exists s,
    foldO (run true fuel) steps (SRef 0 es) = Ok s /\ run true fuel s us = Abort.
Proof.
  intros Hg Hok Hob Hno Het. destruct (history_ok true es steps Hg Hok) as (f0 & H). exists f0. intros fuel Hf.
  destruct (H fuel Hf) as (s & E & I & Hv). exists s. split; auto.
  set (v := aselects (afull es) steps) in *. destruct s; simpl in I; try tauto.
  - destruct I as (Ev & Hgs & _). rewrite Ev in *. apply run_ref_bad; auto.
  - destruct I as (ps & Hm & _). eapply run_view_bad; eauto. apply loses_true; auto.
Qed.
