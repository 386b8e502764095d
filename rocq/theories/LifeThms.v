(** * LifeThms: further facts about lifetimes: exceptions propagate, checked builders, complete release. *)

From Coq Require Import ZArith List Bool Lia.
From Verif Require Import Base Spec Desc Lemmas DescProofs ViewProofs Life LifeSpec LifeProofs LifeList LifeSim.
Import ListNotations.

Section LT.
Context {V : Type}.
Variable thr : nat -> bool.
Notation world := (@world V).

Notation ticks := (@ticks V _ thr).

Lemma ticks_ret {A} (a : A) : ticks 0 (ret a).
Proof. intros w b w' E. inv E. split; [lia|]. intros; lia. Qed.
Lemma ticks_bind {A B} c d (m : @M V A) (f : A -> M B) : ticks c m -> (forall a, ticks d (f a)) -> ticks (c + d) (bind m f).
Proof.
  intros Hm Hf w b w' E. unfold bind in E. destruct (m w) as [[a| | | |] w1] eqn:E1; try discriminate.
  destruct (Hm _ _ _ E1) as [H1 H2]. destruct (Hf a _ _ _ E) as [H3 H4]. split; [lia|].
  intros j Hj. destruct (Nat.lt_ge_cases j (clock w + c)); [apply H2; lia|apply H4; lia].
Qed.
Lemma ticks_on_throw {A} c (m : @M V A) h : ticks c m -> ticks c (on_throw m h).
Proof.
  intros Hm w a w' E. unfold on_throw in E. destruct (m w) as [[b| | | |] w1] eqn:E1; try discriminate.
  - inv E. eapply Hm; eauto.
  - destruct (h w1) as [[| | | |] ?]; discriminate.
Qed.
Lemma ticks_noexcept {A} b c (m : @M V A) : ticks c m -> ticks c (noexcept_if b m).
Proof.
  intros Hm w a w' E. unfold noexcept_if in E. destruct (m w) as [[x| | | |] w1] eqn:E1; try discriminate.
  - inv E. eapply Hm; eauto.
  - destruct b; discriminate.
Qed.
Lemma ticks_tick : ticks 1 (@tick V thr false).
Proof.
  intros w a w' E. unfold tick in E. cbn [negb andb] in E. destruct (thr (clock w)) eqn:Et; inv E. cbn [clock]. split; [lia|].
  intros j Hj. replace j with (clock w) by lia. auto.
Qed.
Lemma ticks_pure {A} (m : @M V A) : (forall w a w', m w = (ROk a, w') -> clock w' = clock w) -> ticks 0 m.
Proof. intros H w a w' E. rewrite (H _ _ _ E). split; [lia|]. intros; lia. Qed.
Lemma ticks_eq {A} c d (m : @M V A) : ticks c m -> c = d -> ticks d m.
Proof. intros H <-. auto. Qed.

Lemma ticks_construct_at p i v : ticks 1 (@construct_at V thr false p i v).
Proof.
  unfold construct_at. apply (ticks_bind 1 0); [apply ticks_tick|]. intros _. apply ticks_pure. intros w a w' E.
  destruct p as [b|]; [|discriminate]. destruct (cells w b) as [c|]; [|discriminate]. destruct (nth_error c i) as [[?|]|]; inv E. reflexivity.
Qed.
Lemma ticks_assign_at p i v : ticks 1 (@assign_at V thr p i v).
Proof.
  unfold assign_at. apply (ticks_bind 1 0); [apply ticks_tick|]. intros _. apply ticks_pure. intros w a w' E.
  destruct p as [b|]; [|discriminate]. destruct (cells w b) as [c|]; [|discriminate]. destruct (nth_error c i) as [[?|]|]; inv E. reflexivity.
Qed.
Lemma ticks_read_at p i : ticks 0 (@read_at V p i).
Proof.
  apply ticks_pure. intros w a w' E. unfold read_at in E.
  destruct p as [b|]; [|discriminate]. destruct (cells w b) as [c|]; [|discriminate]. destruct (nth_error c i) as [[?|]|]; inv E. reflexivity.
Qed.
Lemma ticks_destroy_n p n : forall k, ticks 0 (@destroy_n V p k n).
Proof.
  induction n as [|n IH]; intros k; cbn [destroy_n]; [apply ticks_ret|]. apply (ticks_bind 0 0); [|auto].
  apply ticks_pure. intros w a w' E. unfold destroy_at in E.
  destruct p as [b|]; [|discriminate]. destruct (cells w b) as [c|]; [|discriminate]. destruct (nth_error c k) as [[?|]|]; inv E. reflexivity.
Qed.
Lemma ticks_deallocate p : ticks 0 (@deallocate V p).
Proof.
  apply ticks_pure. intros w a w' E. unfold deallocate in E. destruct p as [b|]; [|inv E; auto].
  destruct (cells w b) as [c|]; [|discriminate]. destruct (forallb is_raw c); inv E. reflexivity.
Qed.
Lemma ticks_clear a : ticks 0 (@clear V a).
Proof.
  unfold clear. destruct (adata a); [|apply ticks_ret]. apply (ticks_bind 0 0); [apply ticks_destroy_n|]. intros. apply ticks_deallocate.
Qed.
Lemma ticks_allocate n : ticks 1 (@allocate V thr n).
Proof.
  unfold allocate. apply (ticks_bind 1 0); [apply ticks_tick|]. intros _. apply ticks_pure. intros w a w' E. inv E. reflexivity.
Qed.
Lemma ticks_uninit p g gen n : (forall k, ticks g (gen k)) -> ticks (n * (g + 1)) (@uninit V thr false p gen n).
Proof.
  intros Hg. unfold uninit. generalize 0%nat at 2. induction n as [|n IH]; intros k; cbn [uninit_from]; [apply ticks_ret|].
  apply (ticks_eq (g + 1 + n * (g + 1))); [|lia]. apply ticks_bind; [|auto]. apply ticks_on_throw. apply ticks_bind; auto.
  intros. apply ticks_construct_at.
Qed.
Lemma ticks_copy_into p g gen n : (forall k, ticks g (gen k)) -> forall k, ticks (n * (g + 1)) (@copy_into V thr p gen k n).
Proof.
  intros Hg. induction n as [|n IH]; intros k; cbn [copy_into]; [apply ticks_ret|].
  apply (ticks_eq (g + 1 + n * (g + 1))); [|lia]. apply ticks_bind; [|auto]. apply ticks_bind; auto.
  intros. apply ticks_assign_at.
Qed.

Lemma ticks_gen s k : ticks (src_ticks s) (@gen_of V thr false s k).
Proof.
  destruct s; cbn [gen_of src_ticks]; [apply ticks_ret|]. destruct (nth_error vs k).
  - apply (ticks_bind 1 0); [apply ticks_tick|]. intros. apply ticks_ret.
  - intros w a w' E. discriminate.
Qed.

Lemma ctor_dims_ticks t s es : fits es -> ticks (1 + Z.to_nat (zprod es) * (src_ticks s + 1)) (@ctor_dims V thr false false t s es).
Proof.
  intros Hf. unfold ctor_dims. destruct (dims_alloc t es); [|intros w a w' E; discriminate].
  apply ticks_bind; [apply ticks_allocate|]. intros b. apply (ticks_eq (Z.to_nat (zprod es) * (src_ticks s + 1) + 0)); [|lia].
  apply ticks_bind; [|intros; apply ticks_ret]. apply ticks_on_throw. unfold construct. apply ticks_noexcept.
  rewrite (size_of_fits es Hf). apply ticks_uninit. intros. apply ticks_gen.
Qed.
Lemma ctor_conv_ticks vs es : fits es -> ticks (1 + Z.to_nat (zprod es) * 2) (@ctor_conv V thr false false vs es).
Proof.
  intros Hf. unfold ctor_conv.
  apply ticks_bind; [apply ticks_allocate|]. intros b. apply (ticks_eq (Z.to_nat (zprod es) * (1 + 1) + 0)); [|lia].
  apply ticks_bind; [|intros; apply ticks_ret]. apply ticks_on_throw. unfold construct. apply ticks_noexcept.
  rewrite (size_of_fits es Hf). apply ticks_uninit. intros. apply (ticks_gen (SrcSeq vs)).
Qed.
Lemma ctor_copy_ticks a : fits (aexts a) -> ticks (1 + Z.to_nat (zprod (aexts a))) (@ctor_copy V thr false a).
Proof.
  intros Hf. unfold ctor_copy.
  apply ticks_bind; [apply ticks_allocate|]. intros b. apply (ticks_eq (Z.to_nat (zprod (aexts a)) * (0 + 1) + 0)); [|lia].
  apply ticks_bind; [|intros; apply ticks_ret]. apply ticks_on_throw. apply ticks_noexcept.
  rewrite (size_of_fits _ Hf). apply ticks_uninit. intros. apply ticks_read_at.
Qed.
Lemma ticks_desc_fill chk N : forall l, ticks 0 (@desc_fill V chk N l).
Proof.
  induction N as [|N IH]; intros l; cbn [desc_fill]; [apply ticks_ret|]. apply (ticks_bind 0 0).
  - apply ticks_pure. intros w a w' E. unfold massert in E. destruct (chk && _); inv E. auto.
  - intros _. destruct l; [intros w a w' E; discriminate|]. apply (ticks_bind 0 0); auto. intros. apply ticks_ret.
Qed.
Lemma ticks_construct_rec p es all rest : forall c, ticks (length rest) (@construct_rec V thr false p es all rest c).
Proof.
  induction rest as [|[ix v] rest IH]; intros c; cbn [construct_rec length]; [apply ticks_ret|].
  apply (ticks_bind 1 (length rest)); [apply ticks_on_throw, ticks_construct_at|auto].
Qed.
Lemma rm_length N : forall es (l : @nested V N), rect N es l -> length (rm N l) = Z.to_nat (zprod es).
Proof.
  induction N as [|N IH]; intros es l Hr.
  - simpl in Hr. subst. reflexivity.
  - destruct es as [|e es]; [destruct Hr|]. change (list (@nested V N)) in l. destruct (proj1 (rect_cons N e es l) Hr) as (He & Hl & HF).
    cbn [rm]. change (zprod (e :: es)) with (e * zprod es)%Z. rewrite <- Hl. assert (Hnn : (0 <= zprod es)%Z).
    { destruct l as [|a l]; [simpl in Hl; lia|]. inv HF. destruct (rect_pos N es a) as [Hp _]; auto. apply zprod_nonneg. apply all_pos_nonneg. auto. }
    clear Hl He Hr. generalize 0%Z at 1. induction l as [|a l IHl]; intros i; [reflexivity|]. inversion HF; subst.
    cbn [rm_go]. rewrite app_length, map_length, (IH es a), IHl by auto. cbn [length]. nia.
Qed.
Lemma ctor_list_ticks chk N es l : rect N es l -> ticks (1 + Z.to_nat (zprod es)) (@ctor_list V thr false chk N l).
Proof.
  intros Hr. unfold ctor_list. apply (ticks_eq (0 + (1 + Z.to_nat (zprod es)))); [|lia].
  intros w a w' E. rewrite (bind_ret _ _ _ _ _ (desc_fill_ok chk N es l w Hr)) in E. revert w a w' E.
  change (ticks (0 + (1 + Z.to_nat (zprod es))) (bind (massert chk (desc_check N es l)) (fun _ : unit => bind (allocate thr (size_of es))
   (fun b : nat => match visit N es [] l with Some ps => bind (on_throw (noexcept_if false (construct_rec thr false (Some b) es ps ps 0)) (deallocate (Some b))) (fun _ : unit => ret (Arr (Some b) es)) | None => ub end)))).
  apply ticks_bind.
  { apply ticks_pure. intros w a w' E. unfold massert in E. destruct (chk && _); inv E. auto. }
  intros _. apply ticks_bind; [apply ticks_allocate|]. intros b. rewrite (visit_rm N es [] l Hr).
  apply (ticks_eq (Z.to_nat (zprod es) + 0)); [|lia]. apply ticks_bind; [|intros; apply ticks_ret].
  apply ticks_on_throw, ticks_noexcept. rewrite <- (rm_length N es l Hr). rewrite <- (map_length (fun p => ([] ++ fst p, snd p)) (rm N l)).
  apply ticks_construct_rec.
Qed.

(** assignment, elements copied from another array *)
Lemma assign_from_ticks a gen g es : fits (aexts a) -> fits es -> (forall k, ticks g (gen k)) ->
  forall w c w', @assign_from V thr false a gen es w = (ROk c, w') ->
   (zprod (aexts a) = zprod es -> clock w' = (clock w + Z.to_nat (zprod es) * (g + 1))%nat) /\
   (zprod (aexts a) <> zprod es -> clock w' = (clock w + (1 + Z.to_nat (zprod es) * (g + 1)))%nat) /\
   (forall j, (clock w <= j < clock w')%nat -> thr j = false).
Proof.
  intros Ha He Hg w c w' E. unfold assign_from in E. rewrite !size_of_fits in E by auto.
  destruct (Nat.eqb_spec (Z.to_nat (zprod (aexts a))) (Z.to_nat (zprod es))) as [Hz|Hz].
  - assert (Hz' : zprod (aexts a) = zprod es). { destruct Ha as (_ & H1 & _), He as (_ & H2 & _). apply zprod_nonneg in H1, H2. lia. }
    assert (T : ticks (Z.to_nat (zprod es) * (g + 1) + 0) (bind (copy_into thr (adata a) gen 0 (Z.to_nat (zprod es))) (fun _ => ret (Arr (adata a) es)))).
    { apply ticks_bind; [|intros; apply ticks_ret]. apply ticks_copy_into. auto. }
    destruct (T _ _ _ E) as [H1 H2]. repeat split; try lia. intros j Hj. apply H2. lia.
  - assert (Hz' : zprod (aexts a) <> zprod es) by congruence.
    assert (T : ticks (1 + (Z.to_nat (zprod es) * (g + 1) + (0 + 0))) (bind (allocate thr (Z.to_nat (zprod es))) (fun b =>
      bind (noexcept_if false (uninit thr false (Some b) gen (Z.to_nat (zprod es)))) (fun _ => bind (clear a) (fun _ => ret (Arr (Some b) es)))))).
    { apply ticks_bind; [apply ticks_allocate|]. intros b. apply ticks_bind; [apply ticks_noexcept, ticks_uninit; auto|]. intros _.
      apply ticks_bind; [apply ticks_clear|]. intros; apply ticks_ret. }
    destruct (T _ _ _ E) as [H1 H2]. repeat split; try lia. intros j Hj. apply H2. lia.
Qed.

(** a checked build rejects overfilling and early release *)
Lemma push_checked nt nx b v (w : world) : bld_complete b = true -> bld_push thr nt true nx b v w = (RAbort, w).
Proof. intros H. unfold bld_push, noexcept_if, bind, massert. rewrite H. reflexivity. Qed.
Lemma release_checked b (w : world) : bld_complete b = false -> bld_release true b w = (RAbort, w).
Proof. intros H. unfold bld_release, bind, massert. rewrite H. reflexivity. Qed.

(** when no variable is left, everything has been released *)
Lemma all_released nt ns chk (p : @prog V) n : (nt = true -> ns = true) -> ok_prog p (repeat None n) -> pushes_safe nt p ->
  forall log (w : world) st, runs thr nt ns chk p (World [] 0, repeat None n) = (ROk log, (w, st)) ->
  (forall x, var st x = None) ->
  (forall b c, cells w b = Some c -> Forall (fun v => v = None) c) /\
  (assign_threw p log = false -> forall b, cells w b = None).
Proof.
  intros Hns Hok Hp log w st E Hn.
  destruct (program_spec thr nt ns Hns chk p n Hok Hp) as (log' & w' & st' & ast & E' & _ & _ & _ & H1 & H2).
  rewrite E in E'. inv E'. assert (Ho : forall b, ~ owned st' b).
  { intros b (x & o & Hx & Hb). specialize (Hn x). unfold var in Hn. rewrite Hx in Hn. subst o. discriminate. }
  split.
  - intros b c Hc. apply (H1 b c Hc). apply Ho.
  - intros Ht b. destruct (cells w' b) as [c|] eqn:Ec; auto. exfalso. apply (Ho b). apply (H2 Ht b c Ec).
Qed.

(** *** statements of PropLife *)
Lemma list_ctor_elements nt chk N es (l : @nested V N) (w : world) : (1 <= N)%nat -> rect N es l -> (zprod es < W)%Z ->
  (exists k' vals, ctor_list thr nt chk N l w = (ROk (Arr (Some (length (blocks w))) es), World (blocks w ++ [Some (map Some vals)]) k') /\
     length vals = Z.to_nat (zprod es) /\
     forall ix, in_range es ix -> nth_error vals (Z.to_nat (desc_at es ix)) = nested_at N ix l) \/
  (exists k', ctor_list thr nt chk N l w = (RThrow, World (blocks w) k')) \/
  (nt = false /\ exists k', ctor_list thr nt chk N l w = (RThrow, World (blocks w ++ [None]) k')).
Proof.
  intros HN Hr HW. destruct (ctor_list_spec thr nt chk N es l w HN Hr HW) as [(k' & E)|[H|H]]; auto. left. exists k', (list_vals N es l).
  assert (Hfit := rect_fits N es l HN Hr HW). destruct Hfit as (Hne & Hnn & _). split; [exact E|]. split.
  - assert (E' := f_equal (@length _) (list_vals_some N es l Hr)). rewrite !map_length in E'. rewrite E'.
    rewrite <- (map_length (cm_pos es)), cm_pos_colmajor, iota_length; auto.
  - intros ix Hix. rewrite desc_at_ok by (auto; lia). pose proof (f_equal (fun q => nth_error q (Z.to_nat (cm_pos es ix))) (list_vals_some N es l Hr)) as E'.
    cbn beta in E'. rewrite !nth_error_map, nth_colmajor in E' by auto. cbn [option_map] in E'.
    destruct (nth_error (list_vals N es l) (Z.to_nat (cm_pos es ix))); cbn [option_map] in E'; congruence.
Qed.

Lemma copy_ctor_any nt a (vs : list V) (w : world) : fits (aexts a) -> Z.of_nat (length vs) = zprod (aexts a) ->
  match adata a with Some b => cells w b = Some (map Some vs) | None => vs = [] end ->
  (exists k', ctor_copy thr nt a w = (ROk (Arr (Some (length (blocks w))) (aexts a)), World (blocks w ++ [Some (map Some vs)]) k')) \/
  (exists k', ctor_copy thr nt a w = (RThrow, World (blocks w) k')) \/
  (nt = false /\ exists k', ctor_copy thr nt a w = (RThrow, World (blocks w ++ [None]) k')).
Proof.
  intros Hf Hl Hd. apply ctor_copy_spec. split; [auto|]. split; [auto|]. destruct (adata a); auto. destruct w. eapply cells_blk; eauto.
Qed.

Lemma ctors_propagate (w w' : world) a :
  (forall t s es, fits es -> ctor_dims thr false false t s es w = (ROk a, w') ->
     clock w' = (clock w + (1 + Z.to_nat (zprod es) * (src_ticks s + 1)))%nat /\ forall j, (clock w <= j < clock w')%nat -> thr j = false) /\
  (forall vs es, fits es -> ctor_conv thr false false vs es w = (ROk a, w') ->
     clock w' = (clock w + (1 + Z.to_nat (zprod es) * 2))%nat /\ forall j, (clock w <= j < clock w')%nat -> thr j = false) /\
  (forall s, fits (aexts s) -> ctor_copy thr false s w = (ROk a, w') ->
     clock w' = (clock w + (1 + Z.to_nat (zprod (aexts s))))%nat /\ forall j, (clock w <= j < clock w')%nat -> thr j = false) /\
  (forall chk N es l, rect N es l -> ctor_list thr false chk N l w = (ROk a, w') ->
     clock w' = (clock w + (1 + Z.to_nat (zprod es)))%nat /\ forall j, (clock w <= j < clock w')%nat -> thr j = false).
Proof.
  split; [|split; [|split]].
  - intros t s es Hf E. destruct (ctor_dims_ticks t s es Hf _ _ _ E) as [H1 H2]. split; auto. intros j Hj. apply H2. lia.
  - intros vs es Hf E. destruct (ctor_conv_ticks vs es Hf _ _ _ E) as [H1 H2]. split; auto. intros j Hj. apply H2. lia.
  - intros s Hf E. destruct (ctor_copy_ticks s Hf _ _ _ E) as [H1 H2]. split; auto. intros j Hj. apply H2. lia.
  - intros chk N es l Hr E. destruct (ctor_list_ticks chk N es l Hr _ _ _ E) as [H1 H2]. split; auto. intros j Hj. apply H2. lia.
Qed.

Lemma assign_outcomes nt a (olds vs : list V) gen gt es bs k : holds bs a olds -> fits es -> Z.of_nat (length vs) = zprod es ->
  (forall b, adata a = Some b -> gen_ok gen vs gt b bs) ->
  gen_ok gen vs gt (length bs) (bs ++ [Some (repeat None (length vs))]) -> (nt = true -> gt = false) ->
  (exists k', assign_from thr nt a gen es (World bs k)
     = (ROk (Arr (if (zprod (aexts a) =? zprod es)%Z then adata a else Some (length bs)) es),
        World (if (zprod (aexts a) =? zprod es)%Z
               then match adata a with Some b => upd_nat bs b (Some (map Some vs)) | None => bs end
               else match adata a with Some b => upd_nat bs b None | None => bs end ++ [Some (map Some vs)]) k')) \/
  (exists k', assign_from thr nt a gen es (World bs k) = (RThrow, World bs k')) \/
  (exists b k' j, adata a = Some b /\ zprod (aexts a) = zprod es /\
     assign_from thr nt a gen es (World bs k) = (RThrow, World (upd_nat bs b (Some (map Some (firstn j vs ++ skipn j olds)))) k')) \/
  (exists k', zprod (aexts a) <> zprod es /\
     assign_from thr nt a gen es (World bs k) = (RThrow, World (bs ++ [Some (repeat None (length vs))]) k')).
Proof.
  intros Ha He Hl Hg Hg2 Hnt. destruct (Z.eqb_spec (zprod (aexts a)) (zprod es)) as [Hz|Hz].
  - pose proof (assign_same_spec thr nt a olds gen vs es gt bs k Ha He Hl Hz Hg) as H. destruct (adata a) as [b|].
    + destruct H as [H|(k' & j & H)]; [left; auto|]. right; right; left. exists b, k', j. auto.
    + left. exists k. exact H.
  - assert (Hd : match adata a with Some b => exists olds, Z.of_nat (length olds) = zprod (aexts a) /\ blk bs b (map Some olds) | None => True end).
    { destruct Ha as (_ & Ha1 & Ha2). destruct (adata a); auto. exists olds. auto. }
    destruct (assign_other_spec thr nt a gen vs es gt bs k (proj1 Ha) He Hl Hz Hd Hg2 Hnt) as [H|[H|(k' & H)]]; auto.
    right; right; right. exists k'. auto.
Qed.

Lemma assign_copy_outcomes nt a (olds vs : list V) s bs k : holds bs a olds -> holds bs s vs ->
  (forall b, adata a = Some b -> adata s <> Some b) ->
  (exists k', assign_copy thr nt a s (World bs k)
     = (ROk (Arr (if (zprod (aexts a) =? zprod (aexts s))%Z then adata a else Some (length bs)) (aexts s)),
        World (if (zprod (aexts a) =? zprod (aexts s))%Z
               then match adata a with Some b => upd_nat bs b (Some (map Some vs)) | None => bs end
               else match adata a with Some b => upd_nat bs b None | None => bs end ++ [Some (map Some vs)]) k')) \/
  (exists k', assign_copy thr nt a s (World bs k) = (RThrow, World bs k')) \/
  (exists b k' j, adata a = Some b /\ zprod (aexts a) = zprod (aexts s) /\
     assign_copy thr nt a s (World bs k) = (RThrow, World (upd_nat bs b (Some (map Some (firstn j vs ++ skipn j olds)))) k')) \/
  (exists k', zprod (aexts a) <> zprod (aexts s) /\
     assign_copy thr nt a s (World bs k) = (RThrow, World (bs ++ [Some (repeat None (length vs))]) k')).
Proof.
  intros Ha Hs Hne. unfold assign_copy. apply (assign_outcomes nt a olds vs (read_at (adata s)) false (aexts s) bs k); auto; try apply Hs.
  - intros b Hb. apply gen_holds_ok; auto.
  - apply gen_holds_ok; [apply holds_app; auto|eapply holds_lt; eauto].
Qed.

Lemma assign_conv_outcomes nt ns a (olds vs : list V) es bs k : (nt = true -> ns = true) ->
  holds bs a olds -> fits es -> Z.of_nat (length vs) = zprod es ->
  (exists k', assign_conv thr nt ns a vs es (World bs k)
     = (ROk (Arr (if (zprod (aexts a) =? zprod es)%Z then adata a else Some (length bs)) es),
        World (if (zprod (aexts a) =? zprod es)%Z
               then match adata a with Some b => upd_nat bs b (Some (map Some vs)) | None => bs end
               else match adata a with Some b => upd_nat bs b None | None => bs end ++ [Some (map Some vs)]) k')) \/
  (exists k', assign_conv thr nt ns a vs es (World bs k) = (RThrow, World bs k')) \/
  (exists b k' j, adata a = Some b /\ zprod (aexts a) = zprod es /\
     assign_conv thr nt ns a vs es (World bs k) = (RThrow, World (upd_nat bs b (Some (map Some (firstn j vs ++ skipn j olds)))) k')) \/
  (exists k', zprod (aexts a) <> zprod es /\
     assign_conv thr nt ns a vs es (World bs k) = (RThrow, World (bs ++ [Some (repeat None (length vs))]) k')).
Proof.
  intros Hns Ha He Hl. unfold assign_conv.
  assert (Hg : forall b bs', gen_ok (gen_of thr ns (SrcSeq vs)) vs (negb ns) b bs').
  { intros b bs'. pose proof (gen_seq_ok thr ns vs (length vs) b bs') as H. rewrite firstn_all in H. exact H. }
  apply (assign_outcomes nt a olds vs _ (negb ns) es bs k); auto. intros E. rewrite (Hns E). auto.
Qed.

(** builders *)
Lemma push_one nt chk es b (bs : list (@block V)) k (done : list V) v : fits es -> blk bs b (map Some done ++ repeat None (Z.to_nat (zprod es) - length done)) ->
  (Z.of_nat (length done) < zprod es)%Z ->
  (exists k', bld_push thr nt chk false (Bld (Some b) es (length done)) v (World bs k)
     = (ROk (Bld (Some b) es (S (length done))), World (upd_nat bs b (Some (map Some (done ++ [v]) ++ repeat None (Z.to_nat (zprod es) - S (length done))))) k')) \/
  (nt = false /\ thr k = true /\ exists k', bld_push thr nt chk false (Bld (Some b) es (length done)) v (World bs k) = (RThrow, World bs k')).
Proof.
  intros Hfit Hb Hlt. unfold bld_push.
  assert (Eas : massert chk (negb (bld_complete (Bld (Some b) es (length done)))) (World bs k) = (ROk tt, World bs k)).
  { apply massert_ok. unfold bld_complete. cbn [bexts bcount]. rewrite (size_of_fits es Hfit). apply negb_true_iff, Nat.eqb_neq. lia. }
  replace (Z.to_nat (zprod es) - length done)%nat with (S (Z.to_nat (zprod es) - S (length done))) in Hb by lia. cbn [repeat] in Hb.
  assert (Hc : (exists k', construct_at thr nt (Some b) (length done) v (World bs k)
      = (ROk tt, World (upd_nat bs b (Some (map Some done ++ Some v :: repeat None (Z.to_nat (zprod es) - S (length done))))) k')) \/
    (nt = false /\ thr k = true /\ exists k', construct_at thr nt (Some b) (length done) v (World bs k) = (RThrow, World bs k'))).
  { unfold construct_at, bind, tick. cbn [clock blocks]. destruct (negb nt && thr k) eqn:E.
    - right. apply andb_true_iff in E as [E1 E2]. split; [destruct nt; auto; discriminate|]. split; eauto.
    - left. rewrite (blk_cells _ _ _ _ Hb).
      pose proof (nth_error_app_mid (map Some done) None (repeat None (Z.to_nat (zprod es) - S (length done)))) as Hm.
      pose proof (upd_app_mid (map Some done) None (repeat None (Z.to_nat (zprod es) - S (length done))) (Some v)) as Hu.
      rewrite map_length in Hm, Hu. rewrite Hm, Hu. unfold set_cells. simpl. eauto. }
  destruct Hc as [(k' & E)|(Hn & Ht & k' & E)].
  - left. exists k'. erewrite noexcept_ok; [reflexivity|]. rewrite (bind_ret _ _ _ _ _ Eas). cbn [bdata bcount bexts]. rewrite (bind_ret _ _ _ _ _ E).
    rewrite map_app, <- app_assoc. reflexivity.
  - right. split; auto. split; auto. exists k'. apply noexcept_thr. rewrite (bind_ret _ _ _ _ _ Eas). cbn [bdata bcount]. apply bind_thr. exact E.
Qed.

Lemma push_all_spec nt chk es (vs : list V) : forall b bs k done, fits es ->
  blk bs b (map Some done ++ repeat None (Z.to_nat (zprod es) - length done)) -> (Z.of_nat (length done) + Z.of_nat (length vs) <= zprod es)%Z ->
  exists kept k', push_all thr nt chk (Bld (Some b) es (length done)) vs (World bs k)
    = (ROk (Bld (Some b) es (length done + length kept)),
       World (upd_nat bs b (Some (map Some (done ++ kept) ++ repeat None (Z.to_nat (zprod es) - (length done + length kept))))) k') /\
    subseq kept vs /\ ((forall j, thr j = false) \/ nt = true -> kept = vs).
Proof.
  induction vs as [|v vs IH]; intros b bs k done Hf Hb Hle.
  - exists [], k. split; [|split; [constructor|auto]]. cbn [push_all length]. rewrite Nat.add_0_r, app_nil_r. unfold ret. rewrite upd_same; auto.
  - cbn [push_all length] in *. destruct (push_one nt chk es b bs k done v Hf Hb ltac:(lia)) as [(k1 & E)|(Hn & Ht & k1 & E)]; rewrite E.
    + destruct (IH b (upd_nat bs b (Some (map Some (done ++ [v]) ++ repeat None (Z.to_nat (zprod es) - S (length done))))) k1 (done ++ [v]) Hf)
        as (kept & k' & E' & Hs & Hk).
      * rewrite app_length, Nat.add_1_r. eapply blk_upd; eauto.
      * rewrite app_length. simpl. lia.
      * rewrite app_length, Nat.add_1_r in E'. exists (v :: kept), k'. rewrite E', upd_upd. cbn [length]. rewrite <- app_assoc.
        rewrite !Nat.add_succ_comm. split; [reflexivity|]. split; [constructor; auto|]. intros H. f_equal. auto.
    + destruct (IH b bs k1 done Hf Hb ltac:(lia)) as (kept & k' & E' & Hs & Hk). exists kept, k'. rewrite E'. split; [reflexivity|].
      split; [constructor; auto|]. intros [H|H]; [rewrite H in Ht; discriminate|congruence].
Qed.
End LT.

Lemma bld_destroy_spec {V} es (vs : list V) b bs k : fits es -> (Z.of_nat (length vs) <= zprod es)%Z ->
  blk bs b (map Some vs ++ repeat None (Z.to_nat (zprod es) - length vs)) ->
  bld_destroy (Bld (Some b) es (length vs)) (World bs k) = (ROk tt, World (upd_nat bs b None) k).
Proof.
  intros Hf Hl Hb. unfold bld_destroy. cbn [bdata bcount]. rewrite (bind_ret _ _ _ _ _ (destroy_all_spec bs k b vs _ Hb)).
  rewrite (deallocate_spec _ _ _ (Z.to_nat (zprod es))).
  2:{ rewrite <- repeat_app. replace (length vs + (Z.to_nat (zprod es) - length vs))%nat with (Z.to_nat (zprod es)) by lia. eapply blk_upd; eauto. }
  rewrite upd_upd. reflexivity.
Qed.
Lemma bld_release_spec {V} chk es b (w : @world V) : fits es ->
  bld_release chk (Bld (Some b) es (Z.to_nat (zprod es))) w = (ROk (Some b, Bld None es 0), w).
Proof.
  intros Hf. unfold bld_release. rewrite (bind_ret _ _ w w tt); [reflexivity|]. apply massert_ok. unfold bld_complete. cbn [bcount bexts].
  rewrite (size_of_fits es Hf). apply Nat.eqb_refl.
Qed.
Lemma bld_checked {V} thr nt nx es p n (v : V) (w : world) : fits es ->
  (Z.of_nat n = zprod es -> bld_push thr nt true nx (Bld p es n) v w = (RAbort, w)) /\
  (Z.of_nat n <> zprod es -> bld_release true (Bld p es n) w = (RAbort, w)).
Proof.
  intros Hf. pose proof (zprod_bound es Hf) as H0. split; intros Hn.
  - apply push_checked. unfold bld_complete. cbn [bcount bexts]. rewrite (size_of_fits es Hf). apply Nat.eqb_eq. lia.
  - apply release_checked. unfold bld_complete. cbn [bcount bexts]. rewrite (size_of_fits es Hf). apply Nat.eqb_neq. lia.
Qed.

Lemma dims_overflow_ub : exists t es, fits es /\ dims_alloc t es = Some 0%nat /\ desc_size es = (2 ^ 32)%Z /\
  forall V thr nt ns (v : V) (w : world), thr (clock w) = false -> (nt = true \/ thr (S (clock w)) = false) ->
    fst (ctor_dims thr nt ns t (SrcValue v) es w) = RUB.
Proof.
  exists [DUInt; DUInt], [65536; 65536]%Z. assert (Hf : fits [65536; 65536]%Z) by (repeat split; try discriminate; repeat constructor; lia).
  split; [auto|]. split; [reflexivity|]. split; [reflexivity|]. intros V thr nt ns v w H0 H1. unfold ctor_dims.
  replace (dims_alloc [DUInt; DUInt] [65536; 65536]%Z) with (Some 0%nat) by reflexivity.
  assert (exists n, size_of [65536; 65536]%Z = S n) as (n & En).
  { rewrite (size_of_fits _ Hf). destruct (Z.to_nat (zprod [65536; 65536]%Z)) eqn:E; eauto. apply (f_equal Z.of_nat) in E. rewrite Z2Nat.id in E; [discriminate|discriminate]. }
  rewrite En. unfold allocate, bind at 1 2, tick. rewrite H0. cbn [negb andb].
  assert (E : uninit_from thr nt (Some (length (blocks w))) (gen_of thr ns (SrcValue v)) 0 (S n) (World (blocks w ++ [Some (repeat None 0)]) (S (clock w)))
     = (RUB, World (blocks w ++ [Some (repeat None 0)]) (S (S (clock w))))).
  { cbn [uninit_from gen_of]. unfold bind at 1 2, on_throw, ret, construct_at, bind, tick. cbn [clock blocks].
    replace (negb nt && thr (S (clock w))) with false by (destruct H1 as [-> | ->]; [reflexivity|rewrite andb_false_r; reflexivity]).
    unfold cells. cbn [blocks]. rewrite nth_error_app_mid. reflexivity. }
  cbn [clock blocks]. unfold construct, uninit, bind, on_throw, noexcept_if. rewrite E. reflexivity.
Qed.
