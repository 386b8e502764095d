(** * ViewLifeProofs: storage is only released by its holder, and a view follows it. *)

From Coq Require Import ZArith List Bool Lia.
From Verif Require Import Base Spec Desc Lemmas DescProofs ViewProofs Life LifeSpec LifeProofs LifeList LifeSim ViewLife.
Import ListNotations.

Section VL.
Context {V : Type}.
Variable thr : nat -> bool.
Variable nt : bool.
Variable ns : bool.
Hypothesis Hns : nt = true -> ns = true.
Notation world := (@world V).
Notation op := (@op V).

(** ** existing blocks keep their length until they are released, and never come back *)
Definition ext (w w' : world) : Prop := forall b, (b < length (blocks w))%nat ->
  (b < length (blocks w'))%nat /\ (forall c', cells w' b = Some c' -> exists c, cells w b = Some c /\ length c = length c').
Lemma ext_refl w : ext w w.
Proof. intros b H. split; eauto. Qed.
Lemma ext_trans w1 w2 w3 : ext w1 w2 -> ext w2 w3 -> ext w1 w3.
Proof.
  intros H1 H2 b Hb. destruct (H1 b Hb) as [L1 C1]. destruct (H2 b L1) as [L2 C2]. split; auto.
  intros c' E. destruct (C2 c' E) as (c & Ec & El). destruct (C1 c Ec) as (c0 & E0 & El0). exists c0. split; auto. congruence.
Qed.
Lemma ext_clock w k : ext w (World (blocks w) k).
Proof. intros b H. split; auto. intros c' E. exists c'. split; auto. Qed.
Lemma ext_set w b o : match o with Some c' => exists c, cells w b = Some c /\ length c = length c' | None => exists c, cells w b = Some c end ->
  ext w (set_cells w b o).
Proof.
  intros Ho b' Hb. unfold set_cells. cbn [blocks]. rewrite upd_nat_length. split; auto. intros c' E.
  assert (Hb0 : (b < length (blocks w))%nat). { destruct o; destruct Ho as (c & Hc); [destruct Hc as [Hc _]|]; apply cells_lt in Hc; auto. }
  destruct w as [bs k]. cbn [blocks clock] in *. rewrite (cells_upd bs k k) in E by auto. destruct (Nat.eqb_spec b b'); [subst b'|eauto].
  subst o. exact Ho.
Qed.

Definition frame {A} (m : @M V A) : Prop := forall w r w', m w = (r, w') -> ext w w'.
Lemma fr_ret {A} (a : A) : frame (ret a). Proof. intros w r w' E. inv E. apply ext_refl. Qed.
Lemma fr_ub {A} : frame (@ub V A). Proof. intros w r w' E. inv E. apply ext_refl. Qed.
Lemma fr_bind {A B} (m : @M V A) (f : A -> @M V B) : frame m -> (forall a, frame (f a)) -> frame (bind m f).
Proof.
  intros Hm Hf w r w' E. unfold bind in E. destruct (m w) as [r1 w1] eqn:E1. apply Hm in E1.
  destruct r1; try (inv E; auto; fail). apply Hf in E. eapply ext_trans; eauto.
Qed.
Lemma fr_on_throw {A} (m : @M V A) h : frame m -> frame h -> frame (on_throw m h).
Proof.
  intros Hm Hh w r w' E. unfold on_throw in E. destruct (m w) as [r1 w1] eqn:E1. apply Hm in E1.
  destruct r1; try (inv E; auto; fail). destruct (h w1) as [r2 w2] eqn:E2. apply Hh in E2.
  destruct r2; inv E; eapply ext_trans; eauto.
Qed.
Lemma fr_noexcept {A} c (m : @M V A) : frame m -> frame (noexcept_if c m).
Proof.
  intros Hm w r w' E. unfold noexcept_if in E. destruct (m w) as [r1 w1] eqn:E1. apply Hm in E1.
  destruct r1; try (inv E; auto; fail). destruct c; inv E; auto.
Qed.
Lemma fr_tick s : frame (tick thr s).
Proof. intros w r w' E. unfold tick in E. inv E. apply ext_clock. Qed.
Lemma fr_massert chk c : frame (massert chk c).
Proof. intros w r w' E. unfold massert in E. inv E. apply ext_refl. Qed.
Lemma fr_allocate n : frame (allocate thr n).
Proof.
  apply fr_bind; [apply fr_tick|]. intros _ w r w' E. inv E. intros b Hb. cbn [blocks]. rewrite app_length. split; [lia|].
  intros c' Ec. exists c'. split; auto. destruct w as [bs k]. cbn [blocks clock] in *. rewrite (cells_app bs k k) in Ec by auto. auto.
Qed.
Lemma fr_deallocate p : frame (deallocate p).
Proof.
  intros w r w' E. unfold deallocate in E. destruct p as [b|]; [|inv E; apply ext_refl].
  destruct (cells w b) as [c|] eqn:Ec; [|inv E; apply ext_refl]. destruct (forallb is_raw c); inv E; [|apply ext_refl]. apply ext_set. eauto.
Qed.
Lemma fr_construct_at p i v : frame (construct_at thr nt p i v).
Proof.
  apply fr_bind; [apply fr_tick|]. intros _ w r w' E. destruct p as [b|]; [|inv E; apply ext_refl].
  destruct (cells w b) as [c|] eqn:Ec; [|inv E; apply ext_refl]. destruct (nth_error c i) as [[|]|]; inv E; try apply ext_refl.
  apply ext_set. exists c. split; auto. rewrite upd_nat_length. auto.
Qed.
Lemma fr_destroy_at p i : frame (destroy_at p i).
Proof.
  intros w r w' E. unfold destroy_at in E. destruct p as [b|]; [|inv E; apply ext_refl].
  destruct (cells w b) as [c|] eqn:Ec; [|inv E; apply ext_refl]. destruct (nth_error c i) as [[|]|]; inv E; try apply ext_refl.
  apply ext_set. exists c. split; auto. rewrite upd_nat_length. auto.
Qed.
Lemma fr_read_at p i : frame (read_at p i).
Proof.
  intros w r w' E. unfold read_at in E. destruct p as [b|]; [|inv E; apply ext_refl].
  destruct (cells w b) as [c|] eqn:Ec; [|inv E; apply ext_refl]. destruct (nth_error c i) as [[|]|]; inv E; apply ext_refl.
Qed.
Lemma fr_assign_at p i v : frame (assign_at thr p i v).
Proof.
  apply fr_bind; [apply fr_tick|]. intros _ w r w' E. destruct p as [b|]; [|inv E; apply ext_refl].
  destruct (cells w b) as [c|] eqn:Ec; [|inv E; apply ext_refl]. destruct (nth_error c i) as [[|]|]; inv E; try apply ext_refl.
  apply ext_set. exists c. split; auto. rewrite upd_nat_length. auto.
Qed.
Hint Resolve fr_ret fr_ub fr_tick fr_massert fr_allocate fr_deallocate fr_construct_at fr_destroy_at fr_read_at fr_assign_at fr_noexcept fr_on_throw fr_bind : fr.
Lemma fr_destroy_n p n : forall k, frame (destroy_n p k n).
Proof. induction n; intros k; cbn [destroy_n]; auto with fr. Qed.
Hint Resolve fr_destroy_n : fr.
Lemma fr_uninit p gen n : (forall k, frame (gen k)) -> frame (uninit thr nt p gen n).
Proof.
  intros Hg. unfold uninit. generalize 0%nat. induction n; intros k; cbn [uninit_from]; auto with fr.
Qed.
Lemma fr_gen_of s k : frame (gen_of thr ns s k).
Proof. destruct s; cbn [gen_of]; auto with fr. destruct (nth_error vs k); auto with fr. Qed.
Hint Resolve fr_uninit fr_gen_of : fr.
Lemma fr_copy_into p gen n : (forall k, frame (gen k)) -> forall k, frame (copy_into thr p gen k n).
Proof. intros Hg. induction n; intros k; cbn [copy_into]; auto 6 with fr. Qed.
Hint Resolve fr_copy_into : fr.
Lemma fr_ctor_dims t s es : frame (ctor_dims thr nt ns t s es).
Proof. unfold ctor_dims, construct. destruct (dims_alloc t es); auto 8 with fr. Qed.
Lemma fr_ctor_conv vs es : frame (ctor_conv thr nt ns vs es).
Proof. unfold ctor_conv, construct. auto 8 with fr. Qed.
Lemma fr_ctor_copy a : frame (ctor_copy thr nt a).
Proof. unfold ctor_copy. auto 8 with fr. Qed.
Lemma fr_clear a : frame (clear a).
Proof. unfold clear. destruct (adata a); auto with fr. Qed.
Hint Resolve fr_ctor_dims fr_ctor_conv fr_ctor_copy fr_clear : fr.
Lemma fr_assign_from a gen es : (forall k, frame (gen k)) -> frame (assign_from thr nt a gen es).
Proof. intros Hg. unfold assign_from. destruct (size_of (aexts a) =? size_of es)%nat; auto 9 with fr. Qed.
Lemma fr_desc_fill chk N : forall l : @nested V N, frame (desc_fill chk N l).
Proof.
  induction N as [|N IH]; intros l; cbn [desc_fill]; auto with fr. apply fr_bind; auto with fr. intros _.
  destruct l; auto with fr. 
Qed.
Lemma fr_destroy_list p es ps : forall n, frame (destroy_list p es ps n).
Proof. induction ps as [|[ix v] ps IH]; intros [|n]; cbn [destroy_list]; auto with fr. Qed.
Hint Resolve fr_desc_fill fr_destroy_list : fr.
Lemma fr_construct_rec p es all rest : forall n, frame (construct_rec thr nt p es all rest n).
Proof. induction rest as [|[ix v] rest IH]; intros n; cbn [construct_rec]; auto with fr. Qed.
Hint Resolve fr_construct_rec : fr.
Lemma fr_ctor_list chk N (l : @nested V N) : frame (ctor_list thr nt chk N l).
Proof.
  unfold ctor_list. apply fr_bind; auto with fr. intros es. apply fr_bind; auto with fr. intros _. apply fr_bind; auto with fr. intros b.
  destruct (visit N es [] l); auto with fr.
Qed.
Lemma fr_bld_destroy b : frame (bld_destroy b).
Proof. unfold bld_destroy. destruct (bdata b); auto with fr. Qed.
Lemma fr_bld_push chk nx b v : frame (bld_push thr nt chk nx b v).
Proof. unfold bld_push. auto 7 with fr. Qed.
Lemma fr_bld_release chk b : frame (bld_release chk b).
Proof. unfold bld_release. auto with fr. Qed.
Lemma fr_bld_new es : frame (bld_new thr es).
Proof. unfold bld_new. auto with fr. Qed.
Hint Resolve fr_ctor_list fr_bld_destroy fr_bld_push fr_bld_release fr_bld_new fr_assign_from : fr.

Lemma upd_ext {A} (m : @M V A) st f w r w' st' : frame m -> upd m st f w = (r, (w', st')) -> ext w w'.
Proof.
  intros Hm E. unfold upd in E. destruct (m w) as [r1 w1] eqn:E1. apply Hm in E1. destruct r1; inv E; auto.
Qed.

Lemma step_ext chk o w st r w' st' : step thr nt ns chk o (w, st) = (r, (w', st')) -> ext w w'.
Proof.
  intros E. destruct o; cbn [step] in E;
    repeat match type of E with
    | (if ?c then _ else _) = _ => destruct c
    | match ?c with _ => _ end = _ => destruct c
    end;
    try (inv E; apply ext_refl); (eapply upd_ext; [|exact E]); auto 8 with fr.
  all: unfold assign_copy, assign_conv; auto with fr.
Qed.

Lemma runs_ext chk (p : @prog V) : forall w st r w' st', runs thr nt ns chk p (w, st) = (r, (w', st')) -> ext w w'.
Proof.
  induction p as [|o p1 IH1 p2 IH2]; intros w st r w' st' E; cbn [runs] in E.
  - inv E. apply ext_refl.
  - destruct (step thr nt ns chk o (w, st)) as [r1 [w1 st1]] eqn:E1. apply step_ext in E1.
    destruct r1; try (inv E; auto; fail).
    + destruct (runs thr nt ns chk p1 (w1, st1)) as [r2 [w2 st2]] eqn:E2. apply IH1 in E2.
      assert (ext w w2) by (eapply ext_trans; eauto). destruct r2; inv E; auto.
    + destruct (runs thr nt ns chk p2 (w1, st1)) as [r2 [w2 st2]] eqn:E2. apply IH2 in E2.
      assert (ext w w2) by (eapply ext_trans; eauto). destruct r2; inv E; auto.
Qed.

(** ** one operation *)
Lemma bind_ok_inv {A B} (m : @M V A) (f : A -> @M V B) w b w' : bind m f w = (ROk b, w') ->
  exists a w1, m w = (ROk a, w1) /\ f a w1 = (ROk b, w').
Proof. unfold bind. destruct (m w) as [[] w1]; intros E; try discriminate. eauto. Qed.
Lemma upd_ok_inv {A} (m : @M V A) st f w w' st' : upd m st f w = (ROk tt, (w', st')) -> exists a, m w = (ROk a, w') /\ st' = f a.
Proof. unfold upd. destruct (m w) as [[] w1]; intros E; inv E. eauto. Qed.
Lemma upd_throw_inv {A} (m : @M V A) st f w w' st' : upd m st f w = (RThrow, (w', st')) -> st' = st.
Proof. unfold upd. destruct (m w) as [[] w1]; intros E; inv E. auto. Qed.

Lemma clear_dead a b (w w' : world) : adata a = Some b -> clear a w = (ROk tt, w') -> cells w' b = None.
Proof.
  intros Ea E. unfold clear in E. rewrite Ea in E. apply bind_ok_inv in E as (? & w1 & _ & E).
  unfold deallocate in E. destruct (cells w1 b) as [c|] eqn:Ec; [|discriminate]. destruct (forallb is_raw c); [|discriminate]. inv E.
  apply cells_lt in Ec. destruct w1 as [bs k]. unfold set_cells. cbn [blocks clock] in *. rewrite (cells_upd bs k k) by auto. rewrite Nat.eqb_refl. auto.
Qed.
Lemma bld_destroy_dead a b (w w' : world) : bdata a = Some b -> bld_destroy a w = (ROk tt, w') -> cells w' b = None.
Proof.
  intros Ea E. unfold bld_destroy in E. rewrite Ea in E. apply bind_ok_inv in E as (? & w1 & _ & E).
  unfold deallocate in E. destruct (cells w1 b) as [c|] eqn:Ec; [|discriminate]. destruct (forallb is_raw c); [|discriminate]. inv E.
  apply cells_lt in Ec. destruct w1 as [bs k]. unfold set_cells. cbn [blocks clock] in *. rewrite (cells_upd bs k k) by auto. rewrite Nat.eqb_refl. auto.
Qed.
Lemma assign_from_inv a gen es (w : world) c w' : assign_from thr nt a gen es w = (ROk c, w') ->
  (size_of (aexts a) = size_of es /\ adata c = adata a) \/
  (size_of (aexts a) <> size_of es /\ forall b, adata a = Some b -> cells w' b = None).
Proof.
  unfold assign_from. destruct (Nat.eqb_spec (size_of (aexts a)) (size_of es)); intros E.
  - left. split; auto. apply bind_ok_inv in E as (? & ? & _ & E). inv E. reflexivity.
  - right. split; auto. intros b Hb. apply bind_ok_inv in E as (? & ? & _ & E). apply bind_ok_inv in E as (? & ? & _ & E).
    apply bind_ok_inv in E as ([] & ? & E1 & E). inv E. eapply clear_dead; eauto.
Qed.

Lemma own_set_other st x z o b : own st x b -> x <> z -> own (setv st z o) x b.
Proof.
  unfold own, setv, oat. intros H Hn. rewrite nth_error_upd_ne by auto. exact H.
Qed.
Lemma own_set st x o b : (x < length st)%nat -> owner o = Some b -> own (setv st x o) x b.
Proof. intros Hx Ho. unfold own, setv. rewrite oat_upd by auto. rewrite Nat.eqb_refl. exact Ho. Qed.
Lemma own_lt st x b : own st x b -> (x < length st)%nat.
Proof. unfold own. intros H. destruct (oat st x) eqn:E; [eapply oat_some; eauto|discriminate]. Qed.
Lemma free_own st x z b : free_var st z = true -> own st x b -> x <> z.
Proof. unfold free_var, own, oat. intros Hf Ho ->. destruct (nth_error st z) as [[|]|]; discriminate. Qed.
Lemma free_lt st z : free_var st z = true -> (z < length st)%nat.
Proof. unfold free_var. intros H. apply nth_error_Some. destruct (nth_error st z); congruence. Qed.

(** sizes on both levels *)
Lemma asize_arr l (w : world) st ast x a : Inv l w st ast -> oat st x = Some (OArr a) -> asize ast x = zprod (aexts a) /\ fits (aexts a).
Proof.
  intros HI Ex. pose proof (inv_repr _ _ _ _ HI x) as Hr. rewrite Ex in Hr. unfold asize, avar. unfold oat in Hr.
  destruct (nth_error ast x) as [[[]|]|]; cbn [repr'] in Hr; try tauto; destruct a as [[d|] e]; cbn [repr aexts] in *; try tauto;
    destruct Hr as (-> & Hf & _); auto.
Qed.
Lemma size_of_inj a b : fits a -> fits b -> (size_of a = size_of b <-> zprod a = zprod b).
Proof.
  intros Ha Hb. rewrite (size_of_fits a Ha), (size_of_fits b Hb). destruct Ha as (_ & H1 & _), Hb as (_ & H2 & _).
  apply zprod_nonneg in H1, H2. split; intros; [lia|congruence].
Qed.

Lemma step_owner chk o l (w : world) st ast w' st' x b : Inv l w st ast -> ok_op o ast -> own st x b ->
  step thr nt ns chk o (w, st) = (ROk tt, (w', st')) ->
  match holder o ast x with Some y => own st' y b | None => cells w' b = None end.
Proof.
  intros HI Hok Ho E. pose proof (own_lt _ _ _ Ho) as Hxl. destruct o; cbn [holder]; cbn [step] in E;
    try (destruct (free_var st x0) eqn:Ef; [|discriminate];
         first [apply upd_ok_inv in E as (? & _ & ->) | injection E as <- <-]; apply own_set_other; auto; eapply free_own; eauto; fail).
  - (* OCopy *)
    destruct (free_var st x0) eqn:Ef; [|discriminate]. destruct (var st y) as [[|]|]; try discriminate.
    apply upd_ok_inv in E as (? & _ & ->). apply own_set_other; auto. eapply free_own; eauto.
  - (* OMove *)
    destruct (free_var st x0) eqn:Ef; [|discriminate]. pose proof (free_own _ _ _ _ Ef Ho) as Hx0. pose proof (free_lt _ _ Ef).
    change (var st y) with (oat st y) in E. unfold own in Ho.
    destruct (oat st y) as [[a|a]|] eqn:Ey; [| |discriminate]; injection E as <- <-; (destruct (Nat.eqb_spec x y);
      [subst y; apply own_set; [unfold setv; rewrite upd_nat_length; auto|rewrite Ey in Ho; auto]|apply own_set_other; auto; apply own_set_other; auto]).
  - (* OAssign *)
    change (var st) with (oat st) in E. destruct (oat st x0) as [[a|]|] eqn:Ex0; try discriminate. destruct (oat st y) as [[s|]|] eqn:Ey; try discriminate.
    destruct (Nat.eqb_spec x0 y).
    { injection E as <- <-. rewrite andb_false_r. auto. }
    cbn [negb]. rewrite andb_true_r. apply upd_ok_inv in E as (c & E & ->).
    destruct (asize_arr _ _ _ _ _ _ HI Ex0) as [-> Hf1]. destruct (asize_arr _ _ _ _ _ _ HI Ey) as [-> Hf2].
    destruct (Nat.eqb_spec x x0); [|apply own_set_other; auto]. subst x0.
    apply assign_from_inv in E as [[Hs Hc]|[Hs Hc]]; rewrite size_of_inj in Hs by auto.
    + rewrite Hs, Z.eqb_refl. cbn. apply own_set; auto. cbn. rewrite Hc. unfold own in Ho. rewrite Ex0 in Ho. auto.
    + rewrite (proj2 (Z.eqb_neq _ _) Hs). cbn. apply Hc. unfold own in Ho. rewrite Ex0 in Ho. auto.
  - (* OAssignMove *)
    change (var st) with (oat st) in E. destruct (oat st x0) as [[a|]|] eqn:Ex0; try discriminate. destruct (oat st y) as [[s|]|] eqn:Ey; try discriminate.
    destruct Hok as (Hxy & _). destruct (Nat.eqb_spec x0 y); [congruence|]. injection E as <- <-.
    pose proof (oat_some _ _ _ Ex0). pose proof (oat_some _ _ _ Ey). unfold own in Ho.
    destruct (Nat.eqb_spec x x0); [|destruct (Nat.eqb_spec x y)].
    + subst x0. apply own_set_other; auto. apply own_set; auto. rewrite Ex0 in Ho. auto.
    + subst y. apply own_set; [unfold setv; rewrite upd_nat_length; auto|]. rewrite Ey in Ho. auto.
    + apply own_set_other; auto. apply own_set_other; auto.
  - (* OAssignConv *)
    change (var st) with (oat st) in E. destruct (oat st x0) as [[a|]|] eqn:Ex0; try discriminate. apply upd_ok_inv in E as (c & E & ->).
    destruct Hok as (Hfe & _). destruct (asize_arr _ _ _ _ _ _ HI Ex0) as [-> Hf1].
    destruct (Nat.eqb_spec x x0); [|apply own_set_other; auto]. subst x0.
    apply assign_from_inv in E as [[Hs Hc]|[Hs Hc]]; rewrite size_of_inj in Hs by auto.
    + rewrite Hs, Z.eqb_refl. cbn. apply own_set; auto. cbn. rewrite Hc. unfold own in Ho. rewrite Ex0 in Ho. auto.
    + rewrite (proj2 (Z.eqb_neq _ _) Hs). cbn. apply Hc. unfold own in Ho. rewrite Ex0 in Ho. auto.
  - (* ODestroy *)
    change (var st) with (oat st) in E. unfold own in Ho. destruct (Nat.eqb_spec x x0).
    + subst x0. destruct (oat st x) as [[a|a]|]; [| |discriminate]; apply upd_ok_inv in E as ([] & E & _); cbn in Ho.
      * eapply clear_dead; eauto.
      * eapply bld_destroy_dead; eauto.
    + destruct (oat st x0) as [[a|a]|]; [| |discriminate]; apply upd_ok_inv in E as ([] & E & ->); apply own_set_other; auto.
  - (* OPush *)
    change (var st) with (oat st) in E. destruct (oat st x0) as [[a|a]|] eqn:Ex0; try discriminate. apply upd_ok_inv in E as (c & E & ->).
    destruct (Nat.eq_dec x x0); [|apply own_set_other; auto]. subst x0. apply own_set; auto. unfold own in Ho. rewrite Ex0 in Ho.
    unfold bld_push, noexcept_if in E.
    destruct (bind _ _ w) as [r1 w1] eqn:E1 in E. destruct r1; try discriminate.
    + inv E. apply bind_ok_inv in E1 as (? & ? & _ & E1). apply bind_ok_inv in E1 as (? & ? & _ & E1). inv E1. exact Ho.
    + destruct nx; discriminate.
  - (* OFinish *)
    destruct (free_var st x0) eqn:Ef; [|discriminate]. pose proof (free_own _ _ _ _ Ef Ho) as Hx0. pose proof (free_lt _ _ Ef).
    change (var st y) with (oat st y) in E. destruct (oat st y) as [[a|a]|] eqn:Ey; try discriminate. apply upd_ok_inv in E as (p & E & ->).
    destruct (Nat.eqb_spec x y); [|apply own_set_other; auto; apply own_set_other; auto].
    subst y. apply own_set; [unfold setv; rewrite upd_nat_length; auto|]. unfold own in Ho. rewrite Ey in Ho.
    apply bind_ok_inv in E as (r1 & w1 & E1 & E). apply bind_ok_inv in E as (? & ? & _ & E). inv E.
    unfold bld_release in E1. apply bind_ok_inv in E1 as (? & ? & _ & E1). inv E1. exact Ho.
  - (* OReshape *)
    destruct (free_var st x0) eqn:Ef; [|discriminate]. pose proof (free_own _ _ _ _ Ef Ho) as Hx0. pose proof (free_lt _ _ Ef).
    change (var st y) with (oat st y) in E. destruct (oat st y) as [[a|a]|] eqn:Ey; try discriminate. apply upd_ok_inv in E as (p & E & ->).
    destruct (Nat.eqb_spec x y); [|apply own_set_other; auto; apply own_set_other; auto].
    subst y. apply own_set; [unfold setv; rewrite upd_nat_length; auto|]. unfold own in Ho. rewrite Ey in Ho.
    apply bind_ok_inv in E as (? & ? & _ & E). apply bind_ok_inv in E as (r1 & w1 & E1 & E). apply bind_ok_inv in E as (? & ? & _ & E). inv E.
    unfold bld_release in E1. apply bind_ok_inv in E1 as (? & ? & _ & E1). inv E1. exact Ho.
Qed.

Lemma step_throw_store chk o (w : world) st w' st' : step thr nt ns chk o (w, st) = (RThrow, (w', st')) -> st' = st.
Proof.
  intros E. destruct o; cbn [step] in E;
    repeat match type of E with
    | (if ?c then _ else _) = _ => destruct c
    | match ?c with _ => _ end = _ => destruct c
    end; try discriminate; try (destruct chk; discriminate); eapply upd_throw_inv; exact E.
Qed.

(** ** whole programs *)
Lemma dead_stays (w w' : world) b : (b < length (blocks w))%nat -> ext w w' -> cells w b = None -> cells w' b = None.
Proof.
  intros Hb He Hd. destruct (He b Hb) as [_ H]. destruct (cells w' b) as [c|]; auto. destruct (H c eq_refl) as (c0 & E & _). congruence.
Qed.

Lemma runs_follow chk (p : @prog V) b : forall l w st ast x, Inv l w st ast -> ok_prog p ast -> pushes_safe nt p -> (b < length (blocks w))%nat ->
  match x with Some y => own st y b | None => cells w b = None end ->
  exists log w' st' ast' x', runs thr nt ns chk p (w, st) = (ROk log, (w', st')) /\ vexec p log ast x ast' x' /\ Inv (l || assign_threw p log) w' st' ast' /\
    match x' with Some y => own st' y b | None => cells w' b = None end.
Proof.
  induction p as [|o p1 IH1 p2 IH2]; intros l w st ast x HI Hok Hp Hb Hx.
  - exists [], w, st, ast, x. split; [reflexivity|]. split; [constructor|]. cbn [assign_threw]. split; [apply Inv_weak; auto|auto].
  - destruct Hok as (Ho & Hok1 & Hok2). destruct Hp as (Hp & Hp1 & Hp2). cbn [runs].
    destruct (step_outcome thr nt ns Hns chk o l w st ast HI Ho) as [(w1 & st1 & E & HI1)|(w1 & st1 & ast1 & E & Ht & HI1)]; auto.
    + pose proof (step_ext _ _ _ _ _ _ _ E) as Hext. rewrite E.
      destruct (IH1 l w1 st1 _ (match x with Some y => holder o ast y | None => None end) HI1 Hok1 Hp1) as (log & w' & st' & ast' & x' & E' & Hv & HI' & Hf).
      { apply Hext; auto. }
      { destruct x as [y|]; [eapply step_owner; eauto|]. eapply dead_stays; eauto. }
      exists (false :: log), w', st', ast', x'. rewrite E'. split; [reflexivity|]. split; [constructor; auto|].
      cbn [assign_threw]. rewrite andb_false_r. auto.
    + pose proof (step_ext _ _ _ _ _ _ _ E) as Hext. pose proof (step_throw_store _ _ _ _ _ _ E) as Est. rewrite E.
      destruct (IH2 _ w1 st1 _ x HI1 (Hok2 _ Ht) Hp2) as (log & w' & st' & ast' & x' & E' & Hv & HI' & Hf).
      { apply Hext; auto. }
      { subst st1. destruct x as [y|]; auto. eapply dead_stays; eauto. }
      exists (true :: log), w', st', ast', x'. rewrite E'. split; [reflexivity|]. split; [econstructor; eauto|].
      cbn [assign_threw]. rewrite andb_true_r, orb_assoc. auto.
Qed.

Lemma read_view_ok b ps vs (w : world) : cells w b = Some (map Some vs) -> Forall (fun p => (p < length vs)%nat) ps ->
  forall d, read_view b ps w = (ROk (map (fun p => nth p vs d) ps), w).
Proof.
  intros Hc HF d. induction HF as [|p ps Hp HF IH]; [reflexivity|]. cbn [read_view map].
  erewrite bind_ret; [|unfold read_at; rewrite Hc, nth_error_map; rewrite (nth_error_nth' vs d) by auto; reflexivity].
  erewrite bind_ret by exact IH. reflexivity.
Qed.
Lemma read_view_dead b ps (w : world) : cells w b = None -> ps <> [] -> fst (read_view b ps w) = RUB.
Proof. intros Hd Hn. destruct ps; [congruence|]. cbn [read_view]. unfold bind, read_at. rewrite Hd. reflexivity. Qed.

(** the holder is always an array of the same number of elements *)
Lemma aset_same (ast : astore V) x o : (x < length ast)%nat -> avar (aset ast x o) x = o.
Proof. intros H. unfold aset. rewrite avar_oat, oat_upd, Nat.eqb_refl; auto. Qed.
Lemma aset_other (ast : astore V) x z o : x <> z -> avar (aset ast z o) x = avar ast x.
Proof. intros H. unfold aset, avar. rewrite nth_error_upd_ne; auto. Qed.
Lemma afree_ne (ast : astore V) x z a : afree ast z -> avar ast x = Some a -> x <> z.
Proof. unfold afree, avar. intros H1 H2 ->. rewrite H1 in H2. discriminate. Qed.
Lemma afree_lt (ast : astore V) z : afree ast z -> (z < length ast)%nat.
Proof. unfold afree. intros H. apply nth_error_Some. congruence. Qed.
Lemma avar_lt (ast : astore V) z a : avar ast z = Some a -> (z < length ast)%nat.
Proof. rewrite avar_oat. apply oat_some. Qed.

Lemma holder_array o (ast : astore V) x es vs y : avar ast x = Some (AArr es vs) -> ok_op o ast -> holder o ast x = Some y ->
  exists es' vs', avar (astep o ast) y = Some (AArr es' vs') /\ zprod es' = zprod es.
Proof.
  intros Hx Hok Hh. pose proof (avar_lt _ _ _ Hx) as Hxl. destruct o; cbn [holder] in Hh; cbn [ok_op] in Hok; cbn [astep].
  - injection Hh as <-. rewrite aset_other; eauto. eapply afree_ne; eauto. apply Hok.
  - injection Hh as <-. rewrite aset_other; eauto. eapply afree_ne; eauto. apply Hok.
  - injection Hh as <-. rewrite aset_other; eauto. eapply afree_ne; eauto. apply Hok.
  - injection Hh as <-. rewrite aset_other; eauto. eapply afree_ne; eauto. apply Hok.
  - injection Hh as <-. rewrite aset_other; eauto. eapply afree_ne; eauto. apply Hok.
  - destruct Hok as [Hf Hy]. pose proof (afree_lt _ _ Hf). pose proof (afree_ne _ _ _ _ Hf Hx). destruct (Nat.eqb_spec x y0).
    + subst y0. injection Hh as <-. rewrite Hx. rewrite aset_same by (unfold aset; rewrite upd_nat_length; auto). eauto.
    + injection Hh as <-. destruct (avar ast y0) as [[]|]; [| | | |congruence]; rewrite !aset_other by auto; eauto.
  - destruct Hok as [(-> & es0 & _)|(es1 & vs1 & Ey & es' & Hz)].
    + rewrite Nat.eqb_refl, andb_false_r in Hh. cbn [andb] in Hh. injection Hh as <-.
      destruct (Nat.eq_dec x y0); [subst; rewrite aset_same; eauto|rewrite aset_other; eauto].
    + destruct (Nat.eqb_spec x x0); [|injection Hh as <-; rewrite aset_other; eauto]. subst x0. cbn [andb] in Hh.
      destruct (Nat.eqb_spec x y0).
      * cbn in Hh. injection Hh as <-. subst y0. rewrite aset_same; eauto.
      * cbn in Hh. destruct (Z.eqb_spec (asize ast x) (asize ast y0)) as [Es|]; [|discriminate]. cbn in Hh. injection Hh as <-.
        rewrite aset_same by auto. rewrite Ey. exists es1, vs1. split; auto. unfold asize in Es. rewrite Hx, Ey in Es. auto.
  - destruct Hok as (Hn & Hok1 & Hok2). assert ((x0 < length ast)%nat /\ (y0 < length ast)%nat) as [Hl1 Hl2].
    { destruct Hok1 as (? & [(? & H)|H]), Hok2 as (? & [(? & H')|H']); apply avar_lt in H, H'; auto. }
    destruct (Nat.eqb_spec x x0); [|destruct (Nat.eqb_spec x y0)].
    + subst x0. injection Hh as <-. rewrite aset_other by auto. rewrite aset_same; eauto.
    + subst y0. injection Hh as <-. rewrite aset_same by (unfold aset; rewrite upd_nat_length; auto). eauto.
    + injection Hh as <-. rewrite !aset_other; eauto.
  - destruct Hok as (Hf & Hl & _). destruct (Nat.eqb_spec x x0); [|injection Hh as <-; rewrite aset_other; eauto]. subst x0. cbn [andb] in Hh.
    destruct (Z.eqb_spec (asize ast x) (zprod es0)) as [Es|]; [|discriminate]. cbn in Hh. injection Hh as <-.
    rewrite aset_same by auto. exists es0, vs0. split; auto. unfold asize in Es. rewrite Hx in Es. auto.
  - destruct (Nat.eqb_spec x x0); [discriminate|]. injection Hh as <-. rewrite aset_other; eauto.
  - injection Hh as <-. rewrite aset_other; eauto. eapply afree_ne; eauto. apply Hok.
  - injection Hh as <-. destruct Hok as (es1 & vs1 & Ex0 & _). rewrite Ex0. destruct (Nat.eq_dec x x0); [subst; congruence|]. rewrite aset_other; eauto.
  - destruct Hok as (Hf & es1 & vs1 & Ey & _). pose proof (afree_ne _ _ _ _ Hf Hx). destruct (Nat.eqb_spec x y0); [subst; congruence|].
    injection Hh as <-. rewrite Ey. rewrite !aset_other; eauto.
  - destruct Hok as (Hf & Hfit & es1 & Hy & Hz). pose proof (afree_ne _ _ _ _ Hf Hx). pose proof (afree_lt _ _ Hf). destruct (Nat.eqb_spec x y0).
    + subst y0. injection Hh as <-. rewrite Hx in *. rewrite aset_same by (unfold aset; rewrite upd_nat_length; auto). exists es0, vs. split; auto.
      destruct Hy as [(vs1 & E)|E]; inv E. auto.
    + injection Hh as <-. destruct Hy as [(vs1 & E)|E]; rewrite E; rewrite !aset_other; eauto.
Qed.

Lemma athrow_array o (ast ast' : astore V) x es vs : avar ast x = Some (AArr es vs) -> athrow o ast ast' ->
  exists vs', avar ast' x = Some (AArr es vs').
Proof.
  intros Hx [->|H]; [eauto|]. destruct o; try tauto.
  - destruct H as (es1 & vs1 & es' & vs' & k & Ey & Ex0 & _ & ->). destruct (Nat.eq_dec x x0); [|rewrite aset_other; eauto].
    subst x0. rewrite aset_same by (eapply avar_lt; eauto). rewrite Hx in Ex0. inv Ex0. eauto.
  - destruct H as (es' & vs' & k & Ex0 & _ & ->). destruct (Nat.eq_dec x x0); [|rewrite aset_other; eauto].
    subst x0. rewrite aset_same by (eapply avar_lt; eauto). rewrite Hx in Ex0. inv Ex0. eauto.
Qed.

Lemma vexec_array p : forall log (ast : astore V) x ast' y es vs, vexec p log ast (Some x) ast' (Some y) -> ok_prog p ast ->
  avar ast x = Some (AArr es vs) -> exists es' vs', avar ast' y = Some (AArr es' vs') /\ zprod es' = zprod es.
Proof.
  assert (Hdead : forall p log (ast : astore V) ast' y, ~ vexec p log ast None ast' (Some y)).
  { intros q log ast ast' y H. remember None as n. remember (Some y) as sy. induction H; subst; try discriminate; auto. }
  induction p as [|o p1 IH1 p2 IH2]; intros log ast x ast' y es vs Hv Hok Hx; inversion Hv; subst.
  - eauto.
  - destruct Hok as (Ho & Hok1 & _). destruct (holder o ast x) as [z|] eqn:Ez; [|exfalso; eapply Hdead; eauto].
    destruct (holder_array _ _ _ _ _ _ Hx Ho Ez) as (es1 & vs1 & E1 & Hz).
    match goal with H : vexec p1 _ _ _ _ _ |- _ => destruct (IH1 _ _ _ _ _ _ _ H Hok1 E1) as (es2 & vs2 & E2 & Hz2) end. exists es2, vs2. split; auto. congruence.
  - destruct Hok as (Ho & _ & Hok2). match goal with H : athrow _ _ _ |- _ => pose proof H as Ht; destruct (athrow_array _ _ _ _ _ _ Hx H) as (vs1 & E1) end.
    match goal with H : vexec p2 _ _ _ _ _ |- _ => destruct (IH2 _ _ _ _ _ _ _ H (Hok2 _ Ht) E1) as (es2 & vs2 & E2 & Hz2) end. eauto.
Qed.

Lemma Inv_start (w : world) st ast : Forall2 (repr' w) st ast -> no_sharing st -> no_lost_object w st -> Inv true w st ast.
Proof.
  intros H1 H2 H3. constructor.
  - clear H2 H3. induction H1; cbn; congruence.
  - clear H2 H3. intros z. unfold oat. revert z. induction H1; intros [|z]; cbn; auto.
  - intros x y b Hx Hy. apply own_owns in Hx, Hy. eauto.
  - intros b c Hc Hn. apply (H3 b c Hc). intros (x & Hx). apply (Hn x). apply own_owns. auto.
  - discriminate.
Qed.

Lemma view_follows chk (p : @prog V) (w : world) st ast x b es vs ps :
  Forall2 (repr' w) st ast -> no_sharing st -> no_lost_object w st -> ok_prog p ast -> pushes_safe nt p ->
  avar ast x = Some (AArr es vs) -> owns st x b -> Forall (fun q => Z.of_nat q < zprod es)%Z ps ->
  exists log w' st' ast' x', runs thr nt ns chk p (w, st) = (ROk log, (w', st')) /\ Forall2 (repr' w') st' ast' /\
    vexec p log ast (Some x) ast' x' /\
    match x' with
    | Some y => owns st' y b /\ exists es' vs', avar ast' y = Some (AArr es' vs') /\ zprod es' = zprod es /\
        forall d, read_view b ps w' = (ROk (map (fun q => nth q vs' d) ps), w')
    | None => ps <> [] -> fst (read_view b ps w') = RUB
    end.
Proof.
  intros H1 H2 H3 Hok Hp Hx Ho HF. pose proof (Inv_start _ _ _ H1 H2 H3) as HI. apply own_owns in Ho.
  destruct (inv_own_cells thr _ _ _ _ _ _ HI Ho) as (c0 & Ec0). apply cells_lt in Ec0.
  destruct (runs_follow chk p b true w st ast (Some x) HI Hok Hp Ec0 Ho) as (log & w' & st' & ast' & x' & E & Hv & HI' & Hf).
  exists log, w', st', ast', x'. split; [auto|]. split; [apply (Inv_final _ _ _ _ HI')|]. split; [auto|].
  destruct x' as [y|]; [|intros Hn; apply read_view_dead; auto].
  split; [apply own_owns; auto|]. destruct (vexec_array _ _ _ _ _ _ _ _ Hv Hok Hx) as (es' & vs' & Ey & Hz).
  exists es', vs'. split; [auto|]. split; [auto|]. intros d.
  pose proof (inv_repr _ _ _ _ HI' y) as Hr. rewrite avar_oat in Ey. rewrite Ey in Hr. unfold own in Hf.
  destruct (oat st' y) as [[[[b'|] e']|[[b'|] e' n]]|]; cbn [repr' repr] in Hr; try tauto; try discriminate.
  cbn in Hf. inv Hf. destruct Hr as (-> & Hfit & Hl & Hc). apply read_view_ok; auto.
  eapply Forall_impl; [|exact HF]. intros q Hq. cbn beta in Hq. lia.
Qed.

(** writing through the view *)
Lemma view_write_l (w : world) st ast y b es vs q v :
  Forall2 (repr' w) st ast -> no_sharing st -> no_lost_object w st ->
  avar ast y = Some (AArr es vs) -> owns st y b -> (q < length vs)%nat ->
  (exists k', assign_at thr (Some b) q v w = (RThrow, World (blocks w) k')) \/
  (exists w', assign_at thr (Some b) q v w = (ROk tt, w') /\
     Forall2 (repr' w') st (aset ast y (Some (AArr es (upd_nat vs q v)))) /\ no_sharing st /\ no_lost_object w' st).
Proof.
  intros H1 H2 H3 Hy Ho Hq. pose proof (Inv_start _ _ _ H1 H2 H3) as HI. apply own_owns in Ho.
  destruct w as [bs k]. unfold assign_at, tick, bind. cbn [blocks clock]. destruct (negb false && thr k); [left; eauto|right].
  pose proof (inv_repr _ _ _ _ HI y) as Hr. rewrite avar_oat in Hy. rewrite Hy in Hr. pose proof Ho as Ho'. unfold own in Ho.
  destruct (oat st y) as [[[[b'|] e']|[[b'|] e' n]]|] eqn:Ey; cbn [repr' repr] in Hr; try tauto; try discriminate.
  cbn in Ho. inv Ho. destruct Hr as (-> & Hfit & Hl & Hc).
  assert (Hc' : cells (World bs (S k)) b = Some (map Some vs)) by exact Hc. rewrite Hc'.
  rewrite nth_error_map, (nth_error_nth' vs v) by auto. cbn [option_map]. eexists. split; [reflexivity|].
  pose proof (cells_lt _ _ _ Hc) as Hbl. cbn [blocks] in Hbl.
  assert (Eu : upd_nat (map Some vs) q (Some v) = map Some (upd_nat vs q v)).
  { clear. revert q. induction vs; intros [|q]; cbn; auto. f_equal. auto. }
  assert (HI' : Inv true (World (upd_nat bs b (Some (map Some (upd_nat vs q v)))) (S k)) (upd_nat st y (Some (OArr (Arr (Some b) es)))) (upd_nat ast y (Some (AArr es (upd_nat vs q v))))).
  { eapply (Inv_upd thr); eauto. cbn. repeat split; try apply Hfit; auto; [rewrite upd_nat_length; auto|].
    rewrite (cells_upd bs k (S k)) by auto. rewrite Nat.eqb_refl. auto. }
  rewrite (upd_same st y) in HI' by (unfold oat in Ey; destruct (nth_error st y); congruence).
  unfold set_cells. cbn [blocks clock]. rewrite Eu. destruct (Inv_final _ _ _ _ HI') as (A & B & C & _). auto.
Qed.
End VL.
