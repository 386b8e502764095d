(** * LifeSim: every allowed program runs without undefined behaviour and has the specified effect. *)

From Coq Require Import ZArith List Bool Lia.
From Verif Require Import Base Spec Desc Lemmas DescProofs ViewProofs Life LifeSpec LifeProofs LifeList.
Import ListNotations.

Section LS.
Context {V : Type}.
Variable thr : nat -> bool.
Variable nt : bool.
Variable ns : bool.
Hypothesis Hns : nt = true -> ns = true.
Notation world := (@world V).
Notation op := (@op V).
Notation store := (@store).

(** *** lookups *)
Definition oat {A} (l : list (option A)) (x : nat) : option A := match nth_error l x with Some o => o | None => None end.
Lemma oat_upd {A} (l : list (option A)) x o z : (x < length l)%nat -> oat (upd_nat l x o) z = if Nat.eqb x z then o else oat l z.
Proof.
  intros H. unfold oat. destruct (Nat.eqb_spec x z).
  - subst. rewrite nth_error_upd_eq; auto.
  - rewrite nth_error_upd_ne; auto.
Qed.
Lemma oat_some {A} (l : list (option A)) x a : oat l x = Some a -> (x < length l)%nat.
Proof. unfold oat. intros H. apply nth_error_Some. destruct (nth_error l x); congruence. Qed.

Definition own (st : store) (x b : nat) : Prop := owner (oat st x) = Some b.
Lemma own_owns st x b : own st x b <-> owns st x b.
Proof.
  unfold own, owns, oat. destruct (nth_error st x) as [o|]; split.
  - eauto.
  - intros (o' & E & H). inv E. auto.
  - discriminate.
  - intros (o' & E & H). discriminate.
Qed.

(** The invariant; [leak]: some assignment threw. *)
Record Inv (leak : bool) (w : world) (st : store) (ast : astore V) : Prop := {
  inv_len : length st = length ast;
  inv_repr : forall x, repr' w (oat st x) (oat ast x);
  inv_share : forall x y b, own st x b -> own st y b -> x = y;
  inv_lost : forall b c, cells w b = Some c -> (forall x, ~ own st x b) -> Forall (fun v => v = None) c;
  inv_stor : leak = false -> forall b c, cells w b = Some c -> exists x, own st x b
}.

Lemma repr_cells (w : world) o a b : repr' w o a -> owner o = Some b -> exists c, cells w b = Some c.
Proof.
  destruct o as [[[[d|] es]|[[d|] es n]]|], a as [[]|]; simpl; intros H E; inv E; try tauto.
  - destruct H as (_ & _ & _ & H). eauto.
  - destruct H as (_ & _ & _ & _ & H). eauto.
Qed.
Lemma repr_ext (w w' : world) o a : (forall b, owner o = Some b -> cells w b = cells w' b) -> repr' w o a -> repr' w' o a.
Proof.
  destruct o as [[[[d|] es]|[[d|] es n]]|], a as [[]|]; simpl; intros E H; auto; rewrite <- E; auto.
Qed.
Lemma inv_own_cells l w st ast x b : Inv l w st ast -> own st x b -> exists c, cells w b = Some c.
Proof. intros HI H. eapply repr_cells; [apply (inv_repr _ _ _ _ HI x)|]. exact H. Qed.
Lemma cells_lt (w : world) b c : cells w b = Some c -> (b < length (blocks w))%nat.
Proof. unfold cells. intros H. apply nth_error_Some. destruct (nth_error (blocks w) b); congruence. Qed.

Lemma cells_blk bs k b c : cells (World bs k) b = Some c -> @blk V bs b c.
Proof. unfold cells, blk. cbn [blocks]. destruct (nth_error bs b) as [[c'|]|]; intros H; inv H; auto. Qed.

Lemma cells_app bs k k' o b : (b < length bs)%nat -> @cells V (World (bs ++ [o]) k') b = cells (World bs k) b.
Proof. intros H. unfold cells. cbn [blocks]. rewrite nth_error_app1; auto. Qed.
Lemma cells_app_last bs k o : @cells V (World (bs ++ [o]) k) (length bs) = o.
Proof. unfold cells. cbn [blocks]. rewrite nth_error_app_mid. destruct o; auto. Qed.
Lemma cells_upd bs k k' b b' o : (b < length bs)%nat -> @cells V (World (upd_nat bs b o) k') b' = if Nat.eqb b b' then o else cells (World bs k) b'.
Proof.
  intros H. unfold cells. cbn [blocks]. destruct (Nat.eqb_spec b b').
  - subst. rewrite nth_error_upd_eq by auto. destruct o; auto.
  - rewrite nth_error_upd_ne; auto.
Qed.

(** *** preservation *)
Lemma Inv_clock l bs k k' st ast : Inv l (World bs k) st ast -> Inv l (World bs k') st ast.
Proof. intros [H1 H2 H3 H4 H5]. constructor; auto. Qed.

Lemma Inv_weak l l' w st ast : Inv l w st ast -> Inv (l || l') w st ast.
Proof. intros [H1 H2 H3 H4 H5]. constructor; auto. intros E. apply H5. destruct l; auto; discriminate. Qed.

Lemma Inv_grow_freed l bs k k' st ast : Inv l (World bs k) st ast -> Inv l (World (bs ++ [None]) k') st ast.
Proof.
  intros HI. pose proof HI as [H1 H2 H3 H4 H5].
  assert (Hc : forall b c, cells (World (bs ++ [None]) k') b = Some c -> cells (World bs k) b = Some c).
  { intros b c H. pose proof (cells_lt _ _ _ H) as Hl. cbn [blocks] in Hl. rewrite app_length in Hl. simpl in Hl.
    destruct (Nat.eq_dec b (length bs)) as [->|]; [rewrite cells_app_last in H; discriminate|]. rewrite (cells_app bs k k') in H by lia. auto. }
  constructor; auto.
  - intros x. eapply repr_ext; [|apply H2]. intros b Hb. destruct (inv_own_cells _ _ _ _ x b HI Hb) as (c & E).
    symmetry. apply cells_app. apply cells_lt in E. auto.
  - intros b c H. apply (H4 b c). auto.
  - intros E b c H. apply (H5 E b c). auto.
Qed.

Lemma Inv_grow_raw l bs k k' st ast n : Inv l (World bs k) st ast -> Inv true (World (bs ++ [Some (repeat None n)]) k') st ast.
Proof.
  intros HI. pose proof HI as [H1 H2 H3 H4 H5].
  constructor; auto; [| |discriminate].
  - intros x. eapply repr_ext; [|apply H2]. intros b Hb. destruct (inv_own_cells _ _ _ _ x b HI Hb) as (c & E).
    symmetry. apply cells_app. apply cells_lt in E. auto.
  - intros b c H Hn. destruct (Nat.eq_dec b (length bs)) as [->|Hne].
    + rewrite cells_app_last in H. inv H. apply Forall_forall. intros v Hv. apply repeat_spec in Hv. auto.
    + apply (H4 b c); auto. pose proof (cells_lt _ _ _ H) as Hl. cbn [blocks] in Hl. rewrite app_length in Hl. simpl in Hl.
      rewrite (cells_app bs k k') in H by lia. auto.
Qed.

Lemma Inv_new l bs k k' st ast x o a c : Inv l (World bs k) st ast -> (x < length st)%nat -> oat st x = None ->
  owner (Some o) = Some (length bs) -> repr (World (bs ++ [Some c]) k') o a ->
  Inv l (World (bs ++ [Some c]) k') (upd_nat st x (Some o)) (upd_nat ast x (Some a)).
Proof.
  intros HI Hx Hf Ho Hr. pose proof HI as [H1 H2 H3 H4 H5].
  assert (Hlt : forall y b, own st y b -> (b < length bs)%nat).
  { intros y b H. destruct (inv_own_cells _ _ _ _ y b HI H) as (c' & E). apply cells_lt in E. auto. }
  assert (Hown : forall y b, own (upd_nat st x (Some o)) y b <-> (x = y /\ b = length bs) \/ own st y b).
  { intros y b. unfold own. rewrite oat_upd by auto. destruct (Nat.eqb_spec x y).
    - subst y. rewrite Hf. simpl owner at 2. rewrite Ho. split; [intros E; inv E; auto|]. intros [[_ ->]|E]; [auto|discriminate].
    - split; [auto|]. intros [[? _]|E]; [congruence|auto]. }
  constructor.
  - rewrite !upd_nat_length. auto.
  - intros y. rewrite !oat_upd by lia. destruct (Nat.eqb x y); [exact Hr|].
    eapply repr_ext; [|apply H2]. intros b Hb. symmetry. apply cells_app. apply (Hlt y). exact Hb.
  - intros y z b Hy Hz. apply Hown in Hy, Hz. destruct Hy as [[-> ->]|Hy], Hz as [[-> E]|Hz]; auto.
    + apply Hlt in Hz. lia.
    + subst b. apply Hlt in Hy. lia.
    + eapply H3; eauto.
  - intros b c' H Hn. destruct (Nat.eq_dec b (length bs)) as [->|Hne].
    + exfalso. apply (Hn x). apply Hown. auto.
    + pose proof (cells_lt _ _ _ H) as Hl. cbn [blocks] in Hl. rewrite app_length in Hl. simpl in Hl.
      rewrite (cells_app bs k k') in H by lia. apply (H4 b c'); auto. intros y Hy. apply (Hn y). apply Hown. auto.
  - intros E b c' H. destruct (Nat.eq_dec b (length bs)) as [->|Hne].
    + exists x. apply Hown. auto.
    + pose proof (cells_lt _ _ _ H) as Hl. cbn [blocks] in Hl. rewrite app_length in Hl. simpl in Hl.
      rewrite (cells_app bs k k') in H by lia. destruct (H5 E b c' H) as (y & Hy). exists y. apply Hown. auto.
Qed.

(** the owner [x] of [b] changes the content *)
Lemma Inv_upd l bs k k' st ast x b o a c : Inv l (World bs k) st ast -> own st x b ->
  owner (Some o) = Some b -> repr (World (upd_nat bs b (Some c)) k') o a ->
  Inv l (World (upd_nat bs b (Some c)) k') (upd_nat st x (Some o)) (upd_nat ast x (Some a)).
Proof.
  intros HI Hx Ho Hr. pose proof HI as [H1 H2 H3 H4 H5].
  assert (Hxl : (x < length st)%nat). { unfold own in Hx. destruct (oat st x) eqn:E; [eapply oat_some; eauto|discriminate]. }
  destruct (inv_own_cells _ _ _ _ x b HI Hx) as (c0 & Ec0). assert (Hbl := cells_lt _ _ _ Ec0). cbn [blocks] in Hbl.
  assert (Hown : forall y b', own (upd_nat st x (Some o)) y b' <-> own st y b').
  { intros y b'. unfold own. rewrite oat_upd by auto. destruct (Nat.eqb_spec x y); [|tauto]. subst y. unfold own in Hx. rewrite Hx, Ho. tauto. }
  constructor.
  - rewrite !upd_nat_length. auto.
  - intros y. rewrite !oat_upd by lia. destruct (Nat.eqb_spec x y); [exact Hr|].
    eapply repr_ext; [|apply H2]. intros b' Hb. rewrite (cells_upd bs k k') by auto. destruct (Nat.eqb_spec b b'); auto.
    subst b'. exfalso. apply n. apply (H3 x y b); auto.
  - intros y z b' Hy Hz. apply Hown in Hy, Hz. eauto.
  - intros b' c' H Hn. rewrite (cells_upd bs k k') in H by auto. destruct (Nat.eqb_spec b b').
    + subst b'. exfalso. apply (Hn x). apply Hown. auto.
    + apply (H4 b' c'); auto. intros y Hy. apply (Hn y). apply Hown. auto.
  - intros E b' c' H. rewrite (cells_upd bs k k') in H by auto. destruct (Nat.eqb_spec b b').
    + subst b'. exists x. apply Hown. auto.
    + destruct (H5 E b' c' H) as (y & Hy). exists y. apply Hown. auto.
Qed.

(** the owner [x] of [b] releases it *)
Lemma Inv_free l bs k k' st ast x b o a : Inv l (World bs k) st ast -> own st x b ->
  owner o = None -> repr' (World (upd_nat bs b None) k') o a ->
  Inv l (World (upd_nat bs b None) k') (upd_nat st x o) (upd_nat ast x a).
Proof.
  intros HI Hx Ho Hr. pose proof HI as [H1 H2 H3 H4 H5].
  assert (Hxl : (x < length st)%nat). { unfold own in Hx. destruct (oat st x) eqn:E; [eapply oat_some; eauto|discriminate]. }
  destruct (inv_own_cells _ _ _ _ x b HI Hx) as (c0 & Ec0). assert (Hbl := cells_lt _ _ _ Ec0). cbn [blocks] in Hbl.
  assert (Hown : forall y b', own (upd_nat st x o) y b' <-> own st y b' /\ x <> y).
  { intros y b'. unfold own. rewrite oat_upd by auto. destruct (Nat.eqb_spec x y).
    - rewrite Ho. split; [discriminate|]. tauto.
    - tauto. }
  constructor.
  - rewrite !upd_nat_length. auto.
  - intros y. rewrite !oat_upd by lia. destruct (Nat.eqb_spec x y); [exact Hr|].
    eapply repr_ext; [|apply H2]. intros b' Hb. rewrite (cells_upd bs k k') by auto. destruct (Nat.eqb_spec b b'); auto.
    subst b'. exfalso. apply n. apply (H3 x y b); auto.
  - intros y z b' Hy Hz. apply Hown in Hy as [Hy _]. apply Hown in Hz as [Hz _]. eauto.
  - intros b' c' H Hn. rewrite (cells_upd bs k k') in H by auto. destruct (Nat.eqb_spec b b'); [discriminate|].
    apply (H4 b' c'); auto. intros y Hy. apply (Hn y). apply Hown. split; auto. intros <-. apply n. unfold own in *. congruence.
  - intros E b' c' H. rewrite (cells_upd bs k k') in H by auto. destruct (Nat.eqb_spec b b'); [discriminate|].
    destruct (H5 E b' c' H) as (y & Hy). exists y. apply Hown. split; auto. intros <-. apply n. unfold own in *. congruence.
Qed.

(** a variable without storage changes to another without storage *)
Lemma Inv_set l bs k k' st ast x o a : Inv l (World bs k) st ast -> (x < length st)%nat -> owner (oat st x) = None ->
  owner o = None -> repr' (World bs k') o a -> Inv l (World bs k') (upd_nat st x o) (upd_nat ast x a).
Proof.
  intros HI Hx Hf Ho Hr. pose proof HI as [H1 H2 H3 H4 H5].
  assert (Hown : forall y b', own (upd_nat st x o) y b' <-> own st y b').
  { intros y b'. unfold own. rewrite oat_upd by auto. destruct (Nat.eqb_spec x y); [|tauto]. subst y. rewrite Ho, Hf. tauto. }
  constructor.
  - rewrite !upd_nat_length. auto.
  - intros y. rewrite !oat_upd by lia. destruct (Nat.eqb_spec x y); [exact Hr|]. eapply repr_ext; [|apply H2]. auto.
  - intros y z b' Hy Hz. apply Hown in Hy, Hz. eauto.
  - intros b' c' H Hn. apply (H4 b' c'); auto. intros y Hy. apply (Hn y). apply Hown. auto.
  - intros E b' c' H. destruct (H5 E b' c' H) as (y & Hy). exists y. apply Hown. auto.
Qed.

(** two variables exchange their storage *)
Lemma Inv_swap l bs k st ast x y ox oy ax ay : Inv l (World bs k) st ast -> (x < length st)%nat -> (y < length st)%nat -> x <> y ->
  owner ox = owner (oat st y) -> owner oy = owner (oat st x) -> repr' (World bs k) ox ax -> repr' (World bs k) oy ay ->
  Inv l (World bs k) (upd_nat (upd_nat st y oy) x ox) (upd_nat (upd_nat ast y ay) x ax).
Proof.
  intros HI Hx Hy Hxy Eo Eo' Hr Hr'. pose proof HI as [H1 H2 H3 H4 H5].
  set (sw := fun z => if Nat.eqb x z then y else if Nat.eqb y z then x else z).
  assert (Hsw : forall z z', sw z = sw z' -> z = z').
  { intros z z'. unfold sw. destruct (Nat.eqb_spec x z), (Nat.eqb_spec x z'), (Nat.eqb_spec y z), (Nat.eqb_spec y z'); congruence. }
  assert (Hss : forall z, sw (sw z) = z).
  { intros z. unfold sw. destruct (Nat.eqb_spec x z); [subst; destruct (Nat.eqb_spec z y); [congruence|]; rewrite Nat.eqb_refl; auto|].
    destruct (Nat.eqb_spec y z); [subst; rewrite Nat.eqb_refl; auto|].
    destruct (Nat.eqb_spec x z); [congruence|]. destruct (Nat.eqb_spec y z); [congruence|auto]. }
  assert (Hown : forall z b', own (upd_nat (upd_nat st y oy) x ox) z b' <-> own st (sw z) b').
  { intros z b'. unfold own, sw. rewrite !oat_upd by (rewrite ?upd_nat_length; auto). destruct (Nat.eqb_spec x z); [rewrite Eo; tauto|].
    destruct (Nat.eqb_spec y z); [rewrite Eo'; tauto|]. tauto. }
  constructor.
  - rewrite !upd_nat_length. auto.
  - intros z. rewrite !oat_upd by (rewrite ?upd_nat_length; lia). destruct (Nat.eqb_spec x z); [exact Hr|]. destruct (Nat.eqb_spec y z); [exact Hr'|]. auto.
  - intros z z' b' Hz Hz'. apply Hown in Hz, Hz'. apply Hsw. eauto.
  - intros b' c' H Hn. apply (H4 b' c'); auto. intros z Hz. apply (Hn (sw z)). apply Hown. rewrite Hss. auto.
  - intros E b' c' H. destruct (H5 E b' c' H) as (z & Hz). exists (sw z). apply Hown. rewrite Hss. auto.
Qed.

Lemma upd_oat {A} (l : list (option A)) x : (x < length l)%nat -> upd_nat l x (oat l x) = l.
Proof.
  intros H. apply upd_same. unfold oat. destruct (nth_error l x) eqn:E; auto. apply nth_error_None in E. lia.
Qed.

Lemma nested_lens_rect N : forall es (l : @nested V N), rect N es l -> nested_lens N l = es.
Proof.
  induction N as [|N IH]; intros es l Hr.
  - simpl in *. auto.
  - destruct es as [|e es]; [destruct Hr|]. change (list (@nested V N)) in l. destruct (proj1 (rect_cons N e es l) Hr) as (He & Hl & HF).
    cbn [nested_lens]. destruct l as [|a l]; [simpl in Hl; lia|]. f_equal; auto. apply IH. inv HF. auto.
Qed.

(** *** one operation *)
Lemma free_conc l w st ast x : Inv l w st ast -> afree ast x -> free_var st x = true /\ (x < length st)%nat /\ oat st x = None.
Proof.
  intros HI H. unfold afree in H. pose proof (inv_len _ _ _ _ HI) as Hl. pose proof (inv_repr _ _ _ _ HI x) as Hr.
  assert (Hx : (x < length st)%nat). { rewrite Hl. apply nth_error_Some. congruence. }
  unfold free_var. unfold oat in Hr. rewrite H in Hr. destruct (nth_error st x) as [o|] eqn:E.
  - destruct o; [destruct Hr|]. split; [auto|]. split; [auto|]. unfold oat. rewrite E. auto.
  - apply nth_error_None in E. lia.
Qed.

Lemma avar_oat (ast : astore V) x : avar ast x = oat ast x. Proof. reflexivity. Qed.
Lemma var_oat (st : store) x : var st x = oat st x. Proof. reflexivity. Qed.

Definition outcome (chk : bool) (o : op) (l : bool) (w : world) (st : store) (ast : astore V) : Prop :=
  (exists w' st', step thr nt ns chk o (w, st) = (ROk tt, (w', st')) /\ Inv l w' st' (astep o ast)) \/
  (exists w' st' ast', step thr nt ns chk o (w, st) = (RThrow, (w', st')) /\ athrow o ast ast' /\ Inv (l || is_assign o) w' st' ast').

(** the array [Arr (Some b) es] just constructed *)
Lemma repr_new bs k (vs : list V) es : fits es -> Z.of_nat (length vs) = zprod es ->
  repr (World (bs ++ [Some (map Some vs)]) k) (OArr (Arr (Some (length bs)) es)) (AArr es vs).
Proof. intros Hf Hl. simpl. repeat split; try apply Hf; auto. apply cells_app_last. Qed.

Lemma ctor_case (m : M arr) l w st ast x es vs : Inv l w st ast -> afree ast x -> fits es -> Z.of_nat (length vs) = zprod es ->
  ((exists k', m w = (ROk (Arr (Some (length (blocks w))) es), World (blocks w ++ [Some (map Some vs)]) k')) \/
   (exists k', m w = (RThrow, World (blocks w) k')) \/
   (nt = false /\ exists k', m w = (RThrow, World (blocks w ++ [None]) k'))) ->
  (exists w' st', upd m st (fun a => setv st x (Some (OArr a))) w = (ROk tt, (w', st')) /\ Inv l w' st' (aset ast x (Some (AArr es vs)))) \/
  (exists w' st', upd m st (fun a => setv st x (Some (OArr a))) w = (RThrow, (w', st')) /\ Inv l w' st' ast).
Proof.
  intros HI Hf Hfit Hl H. destruct w as [bs k]. cbn [blocks] in *. destruct (free_conc _ _ _ _ x HI Hf) as (_ & Hx & Ho). unfold upd.
  destruct H as [(k' & E)|[(k' & E)|(_ & k' & E)]]; rewrite E.
  - left. do 2 eexists. split; [reflexivity|]. eapply Inv_new; eauto. apply repr_new; auto.
  - right. do 2 eexists. split; [reflexivity|]. eapply Inv_clock; eauto.
  - right. do 2 eexists. split; [reflexivity|]. eapply Inv_grow_freed; eauto.
Qed.

Lemma repr_arr_holds (bs : list (@block V)) k o es vs : repr' (World bs k) (Some o) (Some (AArr es vs)) -> exists a, o = OArr a /\ aexts a = es /\ holds bs a vs.
Proof.
  destruct o as [[[d|] es']|[[d|] es' n]]; simpl; try tauto.
  - intros (-> & Hf & Hl & Hc). exists (Arr (Some d) es). repeat split; try apply Hf; auto. simpl. eapply cells_blk; eauto.
  - intros (-> & Hf & Hz & ->). exists (Arr None es). repeat split; try apply Hf; auto.
Qed.

Lemma oat_inv l w st ast x a : Inv l w st ast -> oat ast x = Some a -> exists o, oat st x = Some o /\ repr w o a /\ (x < length st)%nat.
Proof.
  intros HI H. pose proof (inv_repr _ _ _ _ HI x) as Hr. rewrite H in Hr. destruct (oat st x) as [o|] eqn:E; [|destruct Hr].
  exists o. split; [auto|]. split; [auto|]. eapply oat_some; eauto.
Qed.

Lemma arr_inv l bs k st ast x es vs : Inv l (World bs k) st ast -> oat ast x = Some (AArr es vs) ->
  exists a, oat st x = Some (OArr a) /\ aexts a = es /\ holds bs a vs /\ (x < length st)%nat.
Proof.
  intros HI H. destruct (oat_inv _ _ _ _ _ _ HI H) as (o & Eo & Hr & Hx).
  destruct (repr_arr_holds bs k o es vs Hr) as (a & -> & Ea & Hh). eauto.
Qed.
Lemma moved_inv l bs k st ast x es : Inv l (World bs k) st ast -> oat ast x = Some (AMoved es) ->
  oat st x = Some (OArr (Arr None es)) /\ fits es /\ zprod es <> 0%Z /\ (x < length st)%nat.
Proof.
  intros HI H. destruct (oat_inv _ _ _ _ _ _ HI H) as (o & Eo & Hr & Hx).
  destruct o as [[[d|] es']|[[d|] es' n]]; simpl in Hr; try tauto. destruct Hr as (-> & Hf & Hz). auto.
Qed.
Lemma bld_inv l bs k st ast x es vs : Inv l (World bs k) st ast -> oat ast x = Some (ABld es vs) ->
  exists b, oat st x = Some (OBld (Bld (Some b) es (length vs))) /\ fits es /\ (Z.of_nat (length vs) <= zprod es)%Z /\
   blk bs b (map Some vs ++ repeat None (Z.to_nat (zprod es) - length vs)) /\ (x < length st)%nat.
Proof.
  intros HI H. destruct (oat_inv _ _ _ _ _ _ HI H) as (o & Eo & Hr & Hx).
  destruct o as [[[d|] es']|[[d|] es' n]]; simpl in Hr; try tauto. destruct Hr as (-> & Hf & -> & Hle & Hc). exists d.
  repeat split; try apply Hf; auto. eapply cells_blk; eauto.
Qed.
Lemma bldm_inv l bs k st ast x es : Inv l (World bs k) st ast -> oat ast x = Some (ABldMoved es) ->
  oat st x = Some (OBld (Bld None es 0)) /\ fits es /\ (x < length st)%nat.
Proof.
  intros HI H. destruct (oat_inv _ _ _ _ _ _ HI H) as (o & Eo & Hr & Hx).
  destruct o as [[[d|] es']|[[d|] es' n]]; simpl in Hr; try tauto. destruct Hr as (-> & Hf & ->). auto.
Qed.

Lemma repr_moved_of (w : world) es : fits es -> repr w (OArr (Arr None es)) (moved_of es).
Proof.
  intros Hf. unfold moved_of. destruct (Z.eqb_spec (zprod es) 0); simpl; repeat split; try apply Hf; auto.
Qed.
Lemma repr_holds_arr (bs : list (@block V)) k a vs : holds bs a vs -> repr (World bs k) (OArr a) (AArr (aexts a) vs).
Proof.
  destruct a as [[b|] es]; intros (Hf & Hl & Hd); simpl in *.
  - repeat split; try apply Hf; auto. apply blk_cells. auto.
  - subst. repeat split; try apply Hf; auto.
Qed.

Lemma fits_default N : (1 <= N)%nat -> fits (repeat 0%Z N) /\ zprod (repeat 0%Z N) = 0%Z.
Proof.
  intros HN. assert (E : zprod (repeat 0%Z N) = 0%Z) by (destruct N; [lia|reflexivity]). split; auto. split; [destruct N; [lia|discriminate]|].
  split; [apply Forall_forall; intros z Hz; apply repeat_spec in Hz; lia|]. rewrite E. reflexivity.
Qed.

(** copy and converting assignment *)
Lemma assign_case chk l bs k st ast x a es vs gen gt : Inv l (World bs k) st ast -> oat st x = Some (OArr a) ->
  ((exists olds, oat ast x = Some (AArr (aexts a) olds)) \/ (oat ast x = Some (AMoved (aexts a)) /\ zprod (aexts a) <> zprod es)) ->
  fits es -> Z.of_nat (length vs) = zprod es ->
  (forall b, adata a = Some b -> gen_ok gen vs gt b bs) ->
  gen_ok gen vs gt (length bs) (bs ++ [Some (repeat None (length vs))]) -> (nt = true -> gt = false) -> chk = true \/ chk = false ->
  let r := upd (assign_from thr nt a gen es) st (fun c => setv st x (Some (OArr c))) (World bs k) in
  (exists w' st', r = (ROk tt, (w', st')) /\ Inv l w' st' (aset ast x (Some (AArr es vs)))) \/
  (exists w' st' ast', r = (RThrow, (w', st')) /\ Inv true w' st' ast' /\
    (ast' = ast \/ exists olds j, oat ast x = Some (AArr (aexts a) olds) /\ zprod es = zprod (aexts a) /\
       ast' = aset ast x (Some (AArr (aexts a) (firstn j vs ++ skipn j olds))))).
Proof.
  intros HI Ex Hax Hf Hl Hg Hg2 Hnt _ r. unfold r, upd. clear r.
  assert (Hx := oat_some _ _ _ Ex).
  destruct (Z.eq_dec (zprod (aexts a)) (zprod es)) as [Hz|Hz].
  - destruct Hax as [(olds & Hax)|[_ Hne]]; [|congruence].
    destruct (arr_inv _ _ _ _ _ _ _ _ HI Hax) as (a' & Ex' & _ & Hh & _). rewrite Ex in Ex'. inv Ex'. rename a' into a.
    pose proof Hh as (Hfa & Hlo & Hd).
    pose proof (assign_same_spec thr nt a olds gen vs es gt bs k Hh Hf Hl Hz Hg) as H. destruct (adata a) as [b|] eqn:Ea.
    + assert (Hob : own st x b) by (unfold own; rewrite Ex; exact Ea). assert (Hbl := blk_lt _ _ _ Hd).
      destruct H as [(k' & E)|(k' & j & E)]; rewrite E.
      * left. do 2 eexists. split; [reflexivity|]. eapply Inv_upd; eauto. simpl. repeat split; try apply Hf; auto.
        rewrite (cells_upd bs k k') by auto. rewrite Nat.eqb_refl. auto.
      * right. do 3 eexists. split; [reflexivity|]. split; [|right; exists olds, j; split; [exact Hax|split; [auto|reflexivity]]].
        apply (Inv_weak l true) in HI. rewrite orb_true_r in HI.
        replace st with (upd_nat st x (Some (OArr a))) by (apply upd_same; unfold oat in Ex; destruct (nth_error st x); [congruence|discriminate]).
        apply (Inv_upd true bs k k' st ast x b (OArr a) (AArr (aexts a) (firstn j vs ++ skipn j olds)) (map Some (firstn j vs ++ skipn j olds))); auto.
        destruct a as [d es']. simpl in *. subst d. repeat split; try apply Hfa; auto.
        { rewrite app_length, firstn_length, skipn_length. lia. }
        rewrite (cells_upd bs k k') by auto. rewrite Nat.eqb_refl. auto.
    + rewrite H. left. do 2 eexists. split; [reflexivity|]. eapply Inv_set; eauto.
      { rewrite Ex. exact Ea. }
      simpl. repeat split; try apply Hf; auto; destruct vs; auto; subst olds; simpl in *; lia.
  - assert (Hfa : fits (aexts a)).
    { destruct Hax as [(olds & Hax)|[Hax _]].
      - destruct (arr_inv _ _ _ _ _ _ _ _ HI Hax) as (a' & Ex' & _ & (Hh & _) & _). congruence.
      - destruct (moved_inv _ _ _ _ _ _ _ HI Hax) as (_ & Hh & _). auto. }
    assert (Hd : match adata a with Some b => exists olds, Z.of_nat (length olds) = zprod (aexts a) /\ blk bs b (map Some olds) | None => True end).
    { destruct Hax as [(olds & Hax)|[Hax _]].
      - destruct (arr_inv _ _ _ _ _ _ _ _ HI Hax) as (a' & Ex' & _ & (Hh & Hlo & Hd) & _). rewrite Ex in Ex'. inv Ex'. destruct (adata a'); eauto.
      - destruct (moved_inv _ _ _ _ _ _ _ HI Hax) as (Ex' & _). rewrite Ex in Ex'. inv Ex'. rewrite H0. simpl. auto. }
    destruct (assign_other_spec thr nt a gen vs es gt bs k Hfa Hf Hl Hz Hd Hg2 Hnt) as [(k' & E)|[(k' & E)|(k' & E)]]; rewrite E.
    + left. do 2 eexists. split; [reflexivity|]. unfold setv, aset.
      destruct (adata a) as [b|] eqn:Ea.
      * assert (Hob : own st x b) by (unfold own; rewrite Ex; exact Ea). destruct Hd as (olds & _ & Hb).
        assert (HI2 : Inv l (World (upd_nat bs b None) k) (upd_nat st x None) (upd_nat ast x None)).
        { eapply Inv_free; eauto; simpl; auto. }
        replace (upd_nat st x (Some (OArr (Arr (Some (length bs)) es)))) with (upd_nat (upd_nat st x None) x (Some (OArr (Arr (Some (length bs)) es)))) by apply upd_upd.
        replace (upd_nat ast x (Some (AArr es vs))) with (upd_nat (upd_nat ast x None) x (Some (AArr es vs))) by apply upd_upd.
        eapply Inv_new; eauto.
        -- rewrite upd_nat_length. auto.
        -- rewrite oat_upd, Nat.eqb_refl; auto.
        -- simpl. rewrite upd_nat_length. auto.
        -- replace (length bs) with (length (upd_nat bs b None)) by apply upd_nat_length. apply repr_new; auto.
      * assert (HI2 : Inv l (World bs k) (upd_nat st x None) (upd_nat ast x None)).
        { eapply Inv_set; eauto; simpl; auto. rewrite Ex. exact Ea. }
        replace (upd_nat st x (Some (OArr (Arr (Some (length bs)) es)))) with (upd_nat (upd_nat st x None) x (Some (OArr (Arr (Some (length bs)) es)))) by apply upd_upd.
        replace (upd_nat ast x (Some (AArr es vs))) with (upd_nat (upd_nat ast x None) x (Some (AArr es vs))) by apply upd_upd.
        eapply Inv_new; eauto.
        -- rewrite upd_nat_length. auto.
        -- rewrite oat_upd, Nat.eqb_refl; auto.
        -- apply repr_new; auto.
    + right. do 3 eexists. split; [reflexivity|]. split; [|left; reflexivity].
      apply (Inv_weak l true) in HI. rewrite orb_true_r in HI. eapply Inv_clock; eauto.
    + right. do 3 eexists. split; [reflexivity|]. split; [|left; reflexivity]. eapply Inv_grow_raw; eauto.
Qed.


Lemma zprod_bound es : fits es -> (0 <= zprod es)%Z.
Proof. intros (_ & H & _). apply zprod_nonneg. auto. Qed.

Lemma ok_left chk o l w st ast : (exists w' st', step thr nt ns chk o (w, st) = (ROk tt, (w', st')) /\ Inv l w' st' (astep o ast)) -> outcome chk o l w st ast.
Proof. left. auto. Qed.

Lemma step_outcome chk o l w st ast : Inv l w st ast -> ok_op o ast -> push_safe nt o -> outcome chk o l w st ast.
Proof.
  intros HI Hok Hp. destruct w as [bs k].
  destruct o as [x t s es|x N|x vs es|x N nl|x y|x y|x y|x y|x vs es|x|x es|x nx v|x y|x y es]; cbn [ok_op] in Hok.
  - (* ONew *)
    destruct Hok as (Hf & Hfit & Hd & Hs). destruct (free_conc _ _ _ _ x HI Hf) as (Efv & _). unfold outcome. cbn [step astep]. rewrite Efv.
    destruct (ctor_case (ctor_dims thr nt ns t s es) l _ st ast x es (src_vals s (zprod es)) HI Hf Hfit) as [H|(w' & st' & E & H)].
    + rewrite src_vals_length; auto. rewrite Z2Nat.id; auto; apply zprod_bound; auto. apply zprod_bound; auto.
    + apply ctor_dims_spec; auto.
    + left. exact H.
    + right. exists w', st', ast. split; [exact E|]. split; [left; auto|]. apply Inv_weak. auto.
  - (* ODefault *)
    destruct Hok as (Hf & HN). destruct (free_conc _ _ _ _ x HI Hf) as (Efv & Hx & Ex). destruct (fits_default N HN) as [Hfit Hz].
    left. cbn [step astep]. rewrite Efv. do 2 eexists. split; [reflexivity|]. eapply Inv_set; eauto.
    + rewrite Ex. reflexivity.
    + simpl. repeat split; try apply Hfit; auto.
  - (* OConv *)
    destruct Hok as (Hf & Hfit & Hl). destruct (free_conc _ _ _ _ x HI Hf) as (Efv & _). unfold outcome. cbn [step astep]. rewrite Efv.
    destruct (ctor_case (ctor_conv thr nt ns vs es) l _ st ast x es vs HI Hf Hfit Hl) as [H|(w' & st' & E & H)].
    + apply ctor_conv_spec; auto.
    + left. exact H.
    + right. exists w', st', ast. split; [exact E|]. split; [left; auto|]. apply Inv_weak. auto.
  - (* OList *)
    destruct Hok as (Hf & HN & es & Hr & HW). destruct (free_conc _ _ _ _ x HI Hf) as (Efv & _). unfold outcome. cbn [step astep]. rewrite Efv.
    rewrite (nested_lens_rect N es nl Hr). assert (Hfit := rect_fits N es nl HN Hr HW).
    destruct (ctor_case (ctor_list thr nt chk N nl) l _ st ast x es (list_vals N es nl) HI Hf Hfit) as [H|(w' & st' & E & H)].
    + assert (E := f_equal (@length _) (list_vals_some N es nl Hr)). rewrite !map_length in E. rewrite E.
      rewrite <- (map_length (cm_pos es)), cm_pos_colmajor, iota_length by apply Hfit. rewrite Z2Nat.id; auto; apply zprod_bound; auto.
    + apply ctor_list_spec; auto.
    + left. exact H.
    + right. exists w', st', ast. split; [exact E|]. split; [left; auto|]. apply Inv_weak. auto.
  - (* OCopy *)
    destruct Hok as (Hf & es & vs & Ey). destruct (free_conc _ _ _ _ x HI Hf) as (Efv & _). unfold outcome. cbn [step astep]. rewrite Efv.
    destruct (arr_inv _ _ _ _ _ _ _ _ HI Ey) as (a & Ey' & Ea & Hh & _). rewrite Ey, var_oat, Ey'.
    destruct (ctor_case (ctor_copy thr nt a) l _ st ast x es vs HI Hf) as [H|(w' & st' & E & H)].
    + destruct Hh as (Hh & _). congruence.
    + destruct Hh as (_ & Hh & _). congruence.
    + rewrite <- Ea. apply ctor_copy_spec; auto.
    + left. exact H.
    + right. exists w', st', ast. split; [exact E|]. split; [left; auto|]. apply Inv_weak. auto.
  - (* OMove *)
    destruct Hok as (Hf & Hy). destruct (free_conc _ _ _ _ x HI Hf) as (Efv & Hx & Ex). apply ok_left. cbn [step astep]. rewrite Efv, var_oat, !avar_oat.
    rewrite avar_oat in Hy. destruct (oat ast y) as [ay|] eqn:Ey; [|congruence]. clear Hy.
    destruct (oat_inv _ _ _ _ _ _ HI Ey) as (oy & Ey' & Hr & Hyl).
    assert (Hxy : x <> y) by (intros ->; congruence).
    rewrite Ey'. destruct ay as [es vs|es|es vs|es].
    + destruct (repr_arr_holds _ _ _ _ _ Hr) as (a & -> & <- & Hh). do 2 eexists. split; [reflexivity|].
      apply Inv_swap; auto.
      * rewrite Ey'. reflexivity.
      * rewrite Ex. reflexivity.
      * apply repr_moved_of. apply Hh.
    + destruct (moved_inv _ _ _ _ _ _ _ HI Ey) as (E & Hfit & Hz & _). rewrite Ey' in E. inv E. do 2 eexists. split; [reflexivity|].
      apply Inv_swap; auto.
      * rewrite Ey'. reflexivity.
      * rewrite Ex. reflexivity.
    + destruct (bld_inv _ _ _ _ _ _ _ _ HI Ey) as (b & E & Hfit & _). rewrite Ey' in E. inv E. do 2 eexists. split; [reflexivity|].
      apply Inv_swap; auto.
      * rewrite Ey'. reflexivity.
      * rewrite Ex. reflexivity.
      * simpl. repeat split; try apply Hfit; auto.
    + destruct (bldm_inv _ _ _ _ _ _ _ HI Ey) as (E & Hfit & _). rewrite Ey' in E. inv E. do 2 eexists. split; [reflexivity|].
      apply Inv_swap; auto.
      * rewrite Ey'. reflexivity.
      * rewrite Ex. reflexivity.
  - (* OAssign *)
    unfold outcome. cbn [step astep]. change (var st) with (oat st). rewrite !avar_oat. destruct Hok as [(-> & es & Hx)|(es & vs & Ey & es' & Hx)].
    + left. assert (exists a, oat st y = Some (OArr a)) as (a & E).
      { destruct Hx as [(vs & Hx)|Hx]; [destruct (arr_inv _ _ _ _ _ _ _ _ HI Hx) as (a & E & _); eauto|].
        destruct (moved_inv _ _ _ _ _ _ _ HI Hx) as (E & _); eauto. }
      rewrite E, Nat.eqb_refl. do 2 eexists. split; [reflexivity|]. unfold aset. rewrite upd_oat; auto.
      rewrite <- (inv_len _ _ _ _ HI). eapply oat_some; eauto.
    + assert (exists a, oat st x = Some (OArr a) /\ aexts a = es') as (a & Ex & Ea).
      { destruct Hx as [(vs' & Hx)|[Hx _]]; [destruct (arr_inv _ _ _ _ _ _ _ _ HI Hx) as (a & E & Ea & _); eauto|].
        destruct (moved_inv _ _ _ _ _ _ _ HI Hx) as (E & _); eauto. }
      destruct (arr_inv _ _ _ _ _ _ _ _ HI Ey) as (s & Ey' & Es & Hh & _).
      rewrite Ex, Ey'. destruct (Nat.eqb_spec x y) as [->|Hxy].
      * left. do 2 eexists. split; [reflexivity|]. unfold aset. rewrite upd_oat; auto.
        rewrite <- (inv_len _ _ _ _ HI). eapply oat_some; eauto.
      * subst es es'.
        destruct (assign_case true l bs k st ast x a (aexts s) vs (read_at (adata s)) false HI Ex) as [H|(w' & st' & ast' & E & H & Hth)]; auto.
        -- apply Hh.
        -- apply Hh.
        -- intros b Hb. apply gen_holds_ok; auto. intros Hb'. apply Hxy. apply (inv_share _ _ _ _ HI x y b); unfold own; [rewrite Ex|rewrite Ey']; auto.
        -- apply gen_holds_ok; [apply holds_app; auto|eapply holds_lt; eauto].
        -- left. rewrite avar_oat in Ey. rewrite Ey. exact H.
        -- right. exists w', st', ast'. split; [exact E|]. cbn [is_assign]. rewrite orb_true_r. split; [|auto].
           unfold athrow. destruct Hth as [Hth|(olds & j & H1 & H2 & H3)]; [left; auto|right].
           exists (aexts s), vs, (aexts a), olds, j. auto.
  - (* OAssignMove *)
    destruct Hok as (Hxy & (es & Hx) & (es' & Hy)).
    assert (exists a, oat st x = Some (OArr a)) as (a & Ex).
    { destruct Hx as [(vs' & Hx)|Hx]; [destruct (arr_inv _ _ _ _ _ _ _ _ HI Hx) as (a & E & Ea & _); eauto|].
      destruct (moved_inv _ _ _ _ _ _ _ HI Hx) as (E & _); eauto. }
    assert (exists a, oat st y = Some (OArr a)) as (s & Ey).
    { destruct Hy as [(vs' & Hy)|Hy]; [destruct (arr_inv _ _ _ _ _ _ _ _ HI Hy) as (s & E & Ea & _); eauto|].
      destruct (moved_inv _ _ _ _ _ _ _ HI Hy) as (E & _); eauto. }
    apply ok_left. cbn [step astep]. change (var st) with (oat st). rewrite !avar_oat, Ex, Ey. destruct (Nat.eqb_spec x y); [congruence|].
    do 2 eexists. split; [reflexivity|]. pose proof (inv_repr _ _ _ _ HI x) as Hrx. pose proof (inv_repr _ _ _ _ HI y) as Hry.
    rewrite Ex in Hrx. rewrite Ey in Hry. apply Inv_swap; eauto using oat_some.
    + rewrite Ey. auto.
    + rewrite Ex. auto.
  - (* OAssignConv *)
    destruct Hok as (Hfit & Hl & es' & Hx). unfold outcome. cbn [step astep]. change (var st) with (oat st).
    assert (exists a, oat st x = Some (OArr a) /\ aexts a = es') as (a & Ex & Ea).
    { destruct Hx as [(vs' & Hx)|[Hx _]]; [destruct (arr_inv _ _ _ _ _ _ _ _ HI Hx) as (a & E & Ea & _); eauto|].
      destruct (moved_inv _ _ _ _ _ _ _ HI Hx) as (E & _); eauto. }
    rewrite Ex. subst es'.
    assert (Hg : forall b bs', gen_ok (gen_of thr ns (SrcSeq vs)) vs (negb ns) b bs').
    { intros b bs'. pose proof (gen_seq_ok thr ns vs (length vs) b bs') as H. rewrite firstn_all in H. exact H. }
    destruct (assign_case true l bs k st ast x a es vs (gen_of thr ns (SrcSeq vs)) (negb ns) HI Ex Hx Hfit Hl) as [H|(w' & st' & ast' & E & H & Hth)]; auto.
    + intros E. rewrite (Hns E). reflexivity.
    + right. exists w', st', ast'. split; [exact E|]. cbn [is_assign]. rewrite orb_true_r. split; [|auto].
      unfold athrow. destruct Hth as [Hth|(olds & j & H1 & H2 & H3)]; [left; auto|right].
      exists (aexts a), olds, j. auto.
  - (* ODestroy *)
    apply ok_left. cbn [step astep]. rewrite var_oat. rewrite avar_oat in Hok. destruct (oat ast x) as [ax|] eqn:Ex; [|congruence]. clear Hok.
    destruct (oat_inv _ _ _ _ _ _ HI Ex) as (ox & Ex' & Hr & Hxl). rewrite Ex'. unfold upd. destruct ax as [es vs|es|es vs|es].
    + destruct (repr_arr_holds _ _ _ _ _ Hr) as (a & -> & <- & Hh). rewrite (clear_spec a vs bs k Hh). destruct (adata a) as [b|] eqn:Ea.
      * do 2 eexists. split; [reflexivity|]. eapply Inv_free; eauto; simpl; auto. unfold own. rewrite Ex'. auto.
      * do 2 eexists. split; [reflexivity|]. eapply Inv_set; eauto; simpl; auto. rewrite Ex'. auto.
    + destruct (moved_inv _ _ _ _ _ _ _ HI Ex) as (E & Hfit & Hz & _). rewrite Ex' in E. inv E. do 2 eexists. split; [reflexivity|].
      eapply Inv_set; eauto; simpl; auto. rewrite Ex'. auto.
    + destruct (bld_inv _ _ _ _ _ _ _ _ HI Ex) as (b & E & Hfit & Hle & Hb & _). rewrite Ex' in E. inv E.
      unfold bld_destroy. cbn [bdata bcount]. rewrite (bind_ret _ _ _ _ _ (destroy_all_spec bs k b vs _ Hb)).
      rewrite (deallocate_spec _ _ _ (Z.to_nat (zprod es))).
      2:{ rewrite <- repeat_app. replace (length vs + (Z.to_nat (zprod es) - length vs))%nat with (Z.to_nat (zprod es)) by lia. eapply blk_upd; eauto. }
      rewrite upd_upd. do 2 eexists. split; [reflexivity|]. eapply Inv_free; eauto; simpl; auto. unfold own. rewrite Ex'. auto.
    + destruct (bldm_inv _ _ _ _ _ _ _ HI Ex) as (E & Hfit & _). rewrite Ex' in E. inv E. do 2 eexists. split; [reflexivity|].
      eapply Inv_set; eauto; simpl; auto. rewrite Ex'. auto.
  - (* OBuilder *)
    destruct Hok as (Hf & Hfit). destruct (free_conc _ _ _ _ x HI Hf) as (Efv & Hx & Ex). unfold outcome. cbn [step astep]. rewrite Efv. unfold upd, bld_new.
    destruct (allocate_spec thr bs k (size_of es)) as [(k' & E)|(k' & E)].
    + left. rewrite (bind_ret _ _ _ _ _ E). do 2 eexists. split; [reflexivity|]. eapply Inv_new; eauto.
      simpl. repeat split; try apply Hfit; auto. { apply zprod_bound; auto. }
      rewrite cells_app_last, (size_of_fits es Hfit), Nat.sub_0_r. auto.
    + right. rewrite (bind_thr _ _ _ _ E). do 3 eexists. split; [reflexivity|]. split; [left; reflexivity|]. apply Inv_weak. eapply Inv_clock; eauto.
  - (* OPush *)
    destruct Hok as (es & vs & Ex & Hlt). unfold outcome. cbn [step astep]. rewrite var_oat, Ex.
    destruct (bld_inv _ _ _ _ _ _ _ _ HI Ex) as (b & Ex' & Hfit & Hle & Hb & Hxl). rewrite Ex'. unfold upd, bld_push.
    assert (Eas : massert chk (negb (bld_complete (Bld (Some b) es (length vs)))) (World bs k) = (ROk tt, World bs k)).
    { apply massert_ok. unfold bld_complete. cbn [bexts bcount]. rewrite (size_of_fits es Hfit).
      apply negb_true_iff, Nat.eqb_neq. lia. }
    replace (Z.to_nat (zprod es) - length vs)%nat with (S (Z.to_nat (zprod es) - S (length vs))) in Hb by lia.
    cbn [repeat] in Hb. pose proof (construct_at_spec thr nt bs k b (map Some vs) v _ Hb) as Hc. rewrite map_length in Hc.
    destruct Hc as [(k' & E)|(Hn & k' & E)].
    + left. do 2 eexists. split.
      { erewrite noexcept_ok; [reflexivity|]. rewrite (bind_ret _ _ _ _ _ Eas). cbn [bdata bcount]. rewrite (bind_ret _ _ _ _ _ E). reflexivity. }
      eapply Inv_upd; eauto.
      * unfold own. rewrite Ex'. reflexivity.
      * simpl. rewrite app_length. simpl. repeat split; try apply Hfit; auto; try lia.
        rewrite (cells_upd bs k k') by (eapply blk_lt; eauto). rewrite Nat.eqb_refl. rewrite map_app, <- app_assoc. reflexivity.
    + destruct nx; [simpl in Hp; congruence|].
      right. do 3 eexists. split.
      { erewrite noexcept_thr; [reflexivity|]. rewrite (bind_ret _ _ _ _ _ Eas). cbn [bdata bcount]. apply bind_thr. exact E. }
      split; [left; reflexivity|]. apply Inv_weak. eapply Inv_clock; eauto.
  - (* OFinish *)
    destruct Hok as (Hf & es & vs & Ey & Hl). destruct (free_conc _ _ _ _ x HI Hf) as (Efv & Hx & Ex). apply ok_left. cbn [step astep].
    rewrite Efv, var_oat. destruct (bld_inv _ _ _ _ _ _ _ _ HI Ey) as (b & Ey' & Hfit & Hle & Hb & Hyl). rewrite Ey, Ey'. unfold upd, bld_release.
    assert (Eas : massert chk (bld_complete (Bld (Some b) es (length vs))) (World bs k) = (ROk tt, World bs k)).
    { apply massert_ok. unfold bld_complete. cbn [bexts bcount]. rewrite (size_of_fits es Hfit). apply Nat.eqb_eq. lia. }
    assert (Hxy : x <> y) by (intros ->; congruence).
    erewrite bind_ret by (rewrite (bind_ret _ _ _ _ _ Eas); reflexivity). cbn [snd fst bld_destroy bdata].
    do 2 eexists. split; [reflexivity|]. apply Inv_swap; auto.
    + rewrite Ey'. reflexivity.
    + rewrite Ex. reflexivity.
    + simpl. repeat split; try apply Hfit; auto. apply blk_cells. cbn [bdata]. replace (Z.to_nat (zprod es) - length vs)%nat with 0%nat in Hb by lia.
      rewrite app_nil_r in Hb. auto.
    + simpl. repeat split; try apply Hfit; auto.
  - (* OReshape *)
    destruct Hok as (Hf & Hfit & es' & Hy & Hz). destruct (free_conc _ _ _ _ x HI Hf) as (Efv & Hx & Ex). apply ok_left. cbn [step astep].
    rewrite Efv, var_oat.
    assert (exists a, oat st y = Some (OArr a) /\ aexts a = es' /\ fits es') as (a & Ey & Ea & Hfa).
    { destruct Hy as [(vs' & Hy)|Hy]; [destruct (arr_inv _ _ _ _ _ _ _ _ HI Hy) as (s & E & Ea & Hh & _); exists s; repeat split; auto; rewrite <- Ea; apply Hh|].
      destruct (moved_inv _ _ _ _ _ _ _ HI Hy) as (E & ? & _); eauto. }
    rewrite Ey. unfold upd, bld_release.
    assert (Hxy : x <> y) by (intros ->; congruence).
    assert (E1 : massert chk (desc_size (aexts a) =? desc_size es)%Z (World bs k) = (ROk tt, World bs k)).
    { apply massert_ok. unfold desc_size. destruct Hfit as (H1 & H2 & H3), Hfa as (H4 & H5 & H6). rewrite Ea, !prod_arr_small by auto. apply Z.eqb_eq. auto. }
    assert (E2 : massert chk (bld_complete (bld_adopt (adata a) es)) (World bs k) = (ROk tt, World bs k)).
    { apply massert_ok. unfold bld_complete, bld_adopt. cbn [bexts bcount]. apply Nat.eqb_refl. }
    rewrite (bind_ret _ _ _ _ _ E1). erewrite bind_ret by (rewrite (bind_ret _ _ _ _ _ E2); reflexivity). cbn [snd fst bld_destroy bdata bld_adopt].
    destruct Hy as [(vs & Hy)|Hy].
    + destruct (arr_inv _ _ _ _ _ _ _ _ HI Hy) as (a' & E & Ea' & Hh & Hyl). rewrite Ey in E. inv E. rename a' into a. rewrite Hy.
      do 2 eexists. split; [reflexivity|]. apply Inv_swap; auto.
      * rewrite Ey. reflexivity.
      * rewrite Ex. reflexivity.
      * apply (repr_holds_arr bs k (Arr (adata a) es) vs). destruct Hh as (H1 & H2 & H3). repeat split; try apply Hfit; simpl; auto. congruence.
      * apply repr_moved_of. auto.
    + destruct (moved_inv _ _ _ _ _ _ _ HI Hy) as (E & _ & Hnz & Hyl). rewrite Ey in E. destruct a as [d ea]. cbn [adata aexts] in *. inv E. rewrite Hy.
      do 2 eexists. split; [reflexivity|]. apply Inv_swap; auto.
      * rewrite Ey. reflexivity.
      * rewrite Ex. reflexivity.
      * simpl. repeat split; try apply Hfit; auto. congruence.
      * simpl. repeat split; try apply Hfa; auto.
Qed.

(** *** whole programs *)
Lemma Inv_init n : Inv false (World [] 0) (repeat None n) (repeat None n).
Proof.
  assert (E : forall A x, @oat A (repeat None n) x = None).
  { intros A x. unfold oat. destruct (nth_error (repeat None n) x) eqn:E; auto. apply nth_error_In, repeat_spec in E. auto. }
  constructor.
  - rewrite !repeat_length. auto.
  - intros x. rewrite !E. exact I.
  - intros x y b H. unfold own in H. rewrite E in H. discriminate.
  - intros b c H. destruct b; discriminate.
  - intros _ b c H. destruct b; discriminate.
Qed.

Lemma runs_sim chk (p : @prog V) : forall l w st ast, Inv l w st ast -> ok_prog p ast -> pushes_safe nt p ->
  exists log w' st' ast', runs thr nt ns chk p (w, st) = (ROk log, (w', st')) /\ aexec p log ast ast' /\ Inv (l || assign_threw p log) w' st' ast'.
Proof.
  induction p as [|o p1 IH1 p2 IH2]; intros l w st ast HI Hok Hp.
  - exists [], w, st, ast. split; [reflexivity|]. split; [constructor|]. cbn [assign_threw]. apply Inv_weak. auto.
  - destruct Hok as (Ho & Hok1 & Hok2). destruct Hp as (Hp & Hp1 & Hp2). cbn [runs].
    destruct (step_outcome chk o l w st ast HI Ho) as [(w1 & st1 & E & HI1)|(w1 & st1 & ast1 & E & Ht & HI1)]; auto; rewrite E.
    + destruct (IH1 l w1 st1 _ HI1 Hok1 Hp1) as (log & w' & st' & ast' & E' & Hx & HI').
      exists (false :: log), w', st', ast'. rewrite E'. split; [reflexivity|]. split; [constructor; auto|].
      cbn [assign_threw]. rewrite andb_false_r. exact HI'.
    + destruct (IH2 _ w1 st1 _ HI1 (Hok2 _ Ht) Hp2) as (log & w' & st' & ast' & E' & Hx & HI').
      exists (true :: log), w', st', ast'. rewrite E'. split; [reflexivity|]. split; [econstructor; eauto|].
      cbn [assign_threw]. rewrite andb_true_r, orb_assoc. exact HI'.
Qed.

Lemma Forall2_oat {A B} (R : option A -> option B -> Prop) (l : list (option A)) (l' : list (option B)) :
  length l = length l' -> (forall x, R (oat l x) (oat l' x)) -> Forall2 R l l'.
Proof.
  revert l'. induction l as [|a l IH]; intros [|b l'] Hl H; try discriminate; constructor.
  - apply (H 0%nat).
  - apply IH; [simpl in Hl; lia|]. intros x. apply (H (S x)).
Qed.

Lemma Inv_final l w st ast : Inv l w st ast ->
  Forall2 (repr' w) st ast /\ no_sharing st /\ no_lost_object w st /\ (l = false -> no_lost_storage w st).
Proof.
  intros [H1 H2 H3 H4 H5]. split; [apply Forall2_oat; auto|]. split; [|split].
  - intros x y b Hx Hy. apply own_owns in Hx, Hy. eauto.
  - intros b c Hc Hn. apply (H4 b c Hc). intros x Hx. apply Hn. exists x. apply own_owns. auto.
  - intros E b c Hc. destruct (H5 E b c Hc) as (x & Hx). exists x. apply own_owns. auto.
Qed.

Lemma program_spec chk (p : @prog V) n : ok_prog p (repeat None n) -> pushes_safe nt p ->
  exists log w st ast,
    runs thr nt ns chk p (World [] 0, repeat None n) = (ROk log, (w, st)) /\
    aexec p log (repeat None n) ast /\
    Forall2 (repr' w) st ast /\ no_sharing st /\ no_lost_object w st /\
    (assign_threw p log = false -> no_lost_storage w st).
Proof.
  intros Hok Hp. destruct (runs_sim chk p false _ _ _ (Inv_init n) Hok Hp) as (log & w & st & ast & E & Hx & HI).
  exists log, w, st, ast. split; [auto|]. split; [auto|]. destruct (Inv_final _ _ _ _ HI) as (H1 & H2 & H3 & H4). auto.
Qed.
End LS.
