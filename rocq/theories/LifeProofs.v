(** * LifeProofs: exact behaviour of the lifetime operations. *)

From Coq Require Import ZArith List Bool Lia.
From Verif Require Import Base Spec Desc Lemmas DescProofs ViewProofs Life LifeSpec.
Import ListNotations.

(** ** lists *)
Lemma nth_error_upd_eq {A} (l : list A) i v : (i < length l)%nat -> nth_error (upd_nat l i v) i = Some v.
Proof. revert i. induction l; intros [|i] H; simpl in *; try lia; auto. apply IHl. lia. Qed.
Lemma nth_error_upd_ne {A} (l : list A) i j v : i <> j -> nth_error (upd_nat l i v) j = nth_error l j.
Proof. revert i j. induction l; intros [|i] [|j] H; simpl; auto; try congruence. Qed.
Lemma upd_upd {A} (l : list A) i u v : upd_nat (upd_nat l i u) i v = upd_nat l i v.
Proof. revert i. induction l; intros [|i]; simpl; auto. f_equal. auto. Qed.
Lemma upd_same {A} (l : list A) i v : nth_error l i = Some v -> upd_nat l i v = l.
Proof. revert i. induction l; intros [|i] H; simpl in *; try discriminate. - inv H. auto. - f_equal. auto. Qed.
Lemma upd_app_last {A} (l : list A) u v : upd_nat (l ++ [u]) (length l) v = l ++ [v].
Proof. induction l; simpl; auto. f_equal. auto. Qed.
Lemma upd_app_mid {A} (l : list A) u r v : upd_nat (l ++ u :: r) (length l) v = l ++ v :: r.
Proof. induction l; simpl; auto. f_equal. auto. Qed.
Lemma nth_error_app_mid {A} (l : list A) u r : nth_error (l ++ u :: r) (length l) = Some u.
Proof. induction l; simpl; auto. Qed.
Lemma nth_error_ext {A} (l l' : list A) : (forall i, nth_error l i = nth_error l' i) -> l = l'.
Proof.
  revert l'. induction l as [|a l IH]; intros [|b l'] H; auto.
  - specialize (H 0%nat). discriminate. - specialize (H 0%nat). discriminate.
  - pose proof (H 0%nat) as H0. simpl in H0. inv H0. f_equal. apply IH. intros i. apply (H (S i)).
Qed.
Lemma repeat_snoc {A} (a : A) n : repeat a n ++ [a] = repeat a (S n).
Proof. induction n; simpl; auto. f_equal. auto. Qed.

Section LP.
Context {V : Type}.
Variable thr : nat -> bool.
Variable nt : bool.
Variable ns : bool.
Notation world := (@world V).
Notation construct_at := (@construct_at V thr nt).
Notation assign_at := (@assign_at V thr).
Notation blk := (@blk V).
Notation holds := (@holds V).


Lemma blk_cells bs k b c : blk bs b c -> cells (World bs k) b = Some c.
Proof. unfold cells, blk. simpl. intros ->. reflexivity. Qed.
Lemma blk_lt bs b c : blk bs b c -> (b < length bs)%nat.
Proof. intros H. apply nth_error_Some. unfold blk in H. congruence. Qed.
Lemma blk_upd bs b c c' : blk bs b c -> blk (upd_nat bs b (Some c')) b c'.
Proof. intros H. apply nth_error_upd_eq. eapply blk_lt; eauto. Qed.

Lemma bind_ret {A B} (m : M A) (f : A -> M B) (w w' : world) a : m w = (ROk a, w') -> bind m f w = f a w'.
Proof. unfold bind. intros ->. reflexivity. Qed.
Lemma bind_thr {A B} (m : M A) (f : A -> M B) (w w' : world) : m w = (RThrow, w') -> bind m f w = (RThrow, w').
Proof. unfold bind. intros ->. reflexivity. Qed.
Lemma on_throw_ok {A} (m : M A) h (w w' : world) a : m w = (ROk a, w') -> on_throw m h w = (ROk a, w').
Proof. unfold on_throw. intros ->. reflexivity. Qed.
Lemma on_throw_thr {A} (m : M A) h (w w' w'' : world) u : m w = (RThrow, w') -> h w' = (ROk u, w'') -> on_throw m h w = (RThrow, w'').
Proof. unfold on_throw. intros -> ->. reflexivity. Qed.

(** *** basic operations *)
Lemma construct_at_spec bs k b l v r : blk bs b (l ++ None :: r) ->
  (exists k', construct_at (Some b) (length l) v (World bs k) = (ROk tt, World (upd_nat bs b (Some (l ++ Some v :: r))) k')) \/
  (nt = false /\ exists k', construct_at (Some b) (length l) v (World bs k) = (RThrow, World bs k')).
Proof.
  intros H. unfold Life.construct_at, bind, tick. cbn [clock blocks].
  destruct (negb nt && thr k) eqn:E.
  - right. split; [destruct nt; auto; discriminate|]. eauto.
  - left. rewrite (blk_cells _ _ _ _ H), nth_error_app_mid, upd_app_mid. unfold set_cells. simpl. eauto.
Qed.

Lemma destroy_at_spec bs k b l v r : blk bs b (l ++ Some v :: r) ->
  destroy_at (Some b) (length l) (World bs k) = (ROk tt, World (upd_nat bs b (Some (l ++ None :: r))) k).
Proof. intros H. unfold destroy_at. rewrite (blk_cells _ _ _ _ H), nth_error_app_mid, upd_app_mid. reflexivity. Qed.

Lemma assign_at_spec bs k b l v0 v r : blk bs b (l ++ Some v0 :: r) ->
  (exists k', assign_at (Some b) (length l) v (World bs k) = (ROk tt, World (upd_nat bs b (Some (l ++ Some v :: r))) k')) \/
  (exists k', assign_at (Some b) (length l) v (World bs k) = (RThrow, World bs k')).
Proof.
  intros H. unfold Life.assign_at, bind, tick. cbn [clock blocks].
  destruct (negb false && thr k) eqn:E.
  - right. eauto.
  - left. rewrite (blk_cells _ _ _ _ H), nth_error_app_mid, upd_app_mid. unfold set_cells. simpl. eauto.
Qed.

Lemma destroy_n_spec vs : forall bs k b l r, blk bs b (l ++ map Some vs ++ r) ->
  destroy_n (Some b) (length l) (length vs) (World bs k) = (ROk tt, World (upd_nat bs b (Some (l ++ repeat None (length vs) ++ r))) k).
Proof.
  induction vs as [|v vs IH]; intros bs k b l r H.
  - cbn [length destroy_n repeat app]. unfold ret. simpl in H. rewrite upd_same; auto.
  - cbn [length destroy_n map app] in *. rewrite (bind_ret _ _ _ _ _ (destroy_at_spec bs k b l v (map Some vs ++ r) H)).
    specialize (IH (upd_nat bs b (Some (l ++ None :: map Some vs ++ r))) k b (l ++ [None]) r).
    rewrite app_length, Nat.add_1_r in IH. rewrite IH.
    + rewrite upd_upd. cbn [repeat app]. rewrite <- !app_assoc. reflexivity.
    + rewrite <- app_assoc. simpl. eapply blk_upd; eauto.
Qed.

Lemma destroy_all_spec bs k b vs r : blk bs b (map Some vs ++ r) ->
  destroy_n (Some b) 0 (length vs) (World bs k) = (ROk tt, World (upd_nat bs b (Some (repeat None (length vs) ++ r))) k).
Proof. intros H. apply (destroy_n_spec vs bs k b [] r H). Qed.

Lemma deallocate_spec bs k b n : blk bs b (repeat None n) ->
  deallocate (Some b) (World bs k) = (ROk tt, World (upd_nat bs b None) k).
Proof.
  intros H. unfold deallocate. rewrite (blk_cells _ _ _ _ H).
  replace (forallb is_raw (repeat None n)) with true; [reflexivity|]. clear. induction n; simpl; auto.
Qed.

Lemma allocate_spec bs k n :
  (exists k', allocate thr n (World bs k) = (ROk (length bs), World (bs ++ [Some (repeat (@None V) n)]) k')) \/
  (exists k', allocate thr n (World bs k) = (RThrow, World bs k')).
Proof.
  unfold allocate, bind, tick. cbn [clock blocks]. destruct (negb false && thr k); [right|left]; eauto.
Qed.

(** A source of elements: evaluating the i-th one gives the i-th of [vals] or throws (only if [gt]), whatever
    the content of block [b] and the clock. *)
Definition gen_ok (gen : nat -> M V) (vals : list V) (gt : bool) (b : nat) (bs : list (@block V)) : Prop :=
  forall i v bs' k, nth_error vals i = Some v -> (forall b', b' <> b -> nth_error bs' b' = nth_error bs b') ->
    (exists k', gen i (World bs' k) = (ROk v, World bs' k')) \/
    (gt = true /\ exists k', gen i (World bs' k) = (RThrow, World bs' k')).

Lemma gen_ok_upd gen vals gt b bs c : gen_ok gen vals gt b bs -> gen_ok gen vals gt b (upd_nat bs b c).
Proof. intros H i v bs' k Hi Hb. apply H; auto. intros b' Hb'. rewrite Hb by auto. apply nth_error_upd_ne. auto. Qed.

Lemma uninit_from_spec gen vals gt b rest : forall bs k done, gen_ok gen vals gt b bs ->
  blk bs b (map Some done ++ repeat None (length rest)) -> vals = done ++ rest ->
  (exists k', uninit_from thr nt (Some b) gen (length done) (length rest) (World bs k)
     = (ROk tt, World (upd_nat bs b (Some (map Some vals))) k')) \/
  ((gt = true \/ nt = false) /\ exists k', uninit_from thr nt (Some b) gen (length done) (length rest) (World bs k)
     = (RThrow, World (upd_nat bs b (Some (repeat None (length vals)))) k')).
Proof.
  induction rest as [|v rest IH]; intros bs k done Hg Hb Ht.
  - left. exists k. cbn [length uninit_from]. unfold ret. simpl in Hb. rewrite app_nil_r in Hb, Ht. subst. rewrite upd_same; auto.
  - cbn [length uninit_from]. set (m := bind (gen (length done)) (fun v => construct_at (Some b) (length done) v)).
    assert (Hthr : forall k1, m (World bs k) = (RThrow, World bs k1) ->
      on_throw m (destroy_n (Some b) 0 (length done)) (World bs k) = (RThrow, World (upd_nat bs b (Some (repeat None (length vals)))) k1)).
    { intros k1 E. eapply on_throw_thr; [exact E|]. rewrite (destroy_all_spec bs k1 b done (repeat None (length (v :: rest))) Hb).
      rewrite <- repeat_app. rewrite Ht, app_length. reflexivity. }
    assert (Hnth : nth_error vals (length done) = Some v) by (rewrite Ht; apply nth_error_app_mid).
    assert (Hc : (exists k', m (World bs k) = (ROk tt, World (upd_nat bs b (Some (map Some (done ++ [v]) ++ repeat None (length rest)))) k')) \/
                 ((gt = true \/ nt = false) /\ exists k', m (World bs k) = (RThrow, World bs k'))).
    { destruct (Hg (length done) v bs k Hnth (fun _ _ => eq_refl)) as [(k1 & E1)|(Hgt & k1 & E1)].
      - unfold m. rewrite (bind_ret _ _ _ _ _ E1). cbn [length repeat] in Hb.
        pose proof (construct_at_spec bs k1 b (map Some done) v (repeat None (length rest)) Hb) as Hs. rewrite map_length in Hs.
        destruct Hs as [(k2 & E2)|(Hn & k2 & E2)].
        + left. exists k2. rewrite E2, map_app, <- app_assoc. reflexivity.
        + right. split; [auto|]. eauto.
      - right. split; [auto|]. exists k1. unfold m. apply bind_thr. auto. }
    destruct Hc as [(k1 & E1)|(Hor & k1 & E1)].
    + rewrite (bind_ret _ _ _ _ _ (on_throw_ok _ _ _ _ _ E1)).
      specialize (IH (upd_nat bs b (Some (map Some (done ++ [v]) ++ repeat None (length rest)))) k1 (done ++ [v])).
      rewrite app_length, Nat.add_1_r, upd_upd in IH.
      destruct IH as [(k2 & E2)|(Hor & k2 & E2)].
      * apply gen_ok_upd. auto.
      * eapply blk_upd; eauto.
      * rewrite <- app_assoc. auto.
      * left. exists k2. rewrite E2. reflexivity.
      * right. split; auto. exists k2. rewrite E2, upd_upd. reflexivity.
    + right. split; auto. exists k1. apply bind_thr. apply Hthr. auto.
Qed.

Lemma noexcept_ok {A} c (m : M A) (w w' : world) a : m w = (ROk a, w') -> noexcept_if c m w = (ROk a, w').
Proof. unfold noexcept_if. intros ->. reflexivity. Qed.
Lemma noexcept_thr {A} (m : M A) (w w' : world) : m w = (RThrow, w') -> noexcept_if false m w = (RThrow, w').
Proof. unfold noexcept_if. intros ->. reflexivity. Qed.

(** construction of the elements in fresh storage, noexcept when the element type is nothrow constructible *)
Lemma construct_spec gen vals gt b bs k n : gen_ok gen vals gt b bs -> blk bs b (repeat None n) -> n = length vals -> (nt = true -> gt = false) ->
  (exists k', noexcept_if nt (uninit thr nt (Some b) gen n) (World bs k) = (ROk tt, World (upd_nat bs b (Some (map Some vals))) k')) \/
  (nt = false /\ exists k', noexcept_if nt (uninit thr nt (Some b) gen n) (World bs k) = (RThrow, World (upd_nat bs b (Some (repeat None n))) k')).
Proof.
  intros Hg Hb -> Hnt. destruct (uninit_from_spec gen vals gt b vals bs k [] Hg Hb eq_refl) as [(k1 & E)|(Hor & k1 & E)].
  - left. exists k1. apply noexcept_ok. exact E.
  - right. assert (nt = false) as Hn. { destruct Hor as [H|H]; auto. destruct nt; auto. specialize (Hnt eq_refl). congruence. }
    split; auto. exists k1. rewrite Hn. apply noexcept_thr. rewrite <- Hn. exact E.
Qed.

(** allocate + construct + release on a throw: the shape shared by the constructors *)
Lemma ctor_spec gen vals gt bs k n es :
  gen_ok gen vals gt (length bs) (bs ++ [Some (repeat None n)]) -> n = length vals ->
  (nt = true -> gt = false) ->
  let m := bind (allocate thr n) (fun b => bind (on_throw (noexcept_if nt (uninit thr nt (Some b) gen n)) (deallocate (Some b))) (fun _ => ret (Arr (Some b) es))) in
  (exists k', m (World bs k) = (ROk (Arr (Some (length bs)) es), World (bs ++ [Some (map Some vals)]) k')) \/
  (exists k', m (World bs k) = (RThrow, World bs k')) \/
  (nt = false /\ exists k', m (World bs k) = (RThrow, World (bs ++ [None]) k')).
Proof.
  intros Hg Hn Hnt m. unfold m. destruct (allocate_spec bs k n) as [(k1 & E1)|(k1 & E1)].
  - rewrite (bind_ret _ _ _ _ _ E1).
    assert (Hb : blk (bs ++ [Some (repeat None n)]) (length bs) (repeat None n)) by (unfold blk; apply nth_error_app_mid).
    destruct (construct_spec gen vals gt (length bs) (bs ++ [Some (repeat None n)]) k1 n Hg Hb Hn Hnt) as [(k2 & E2)|(Hf & k2 & E2)].
    + left. exists k2. rewrite (bind_ret _ _ _ _ _ (on_throw_ok _ _ _ _ _ E2)). unfold ret. rewrite upd_app_last. reflexivity.
    + right; right. split; auto. exists k2. apply bind_thr. eapply on_throw_thr; [exact E2|].
      rewrite (deallocate_spec _ _ _ n) by (eapply blk_upd; eauto). rewrite upd_upd, upd_app_last. reflexivity.
  - right; left. exists k1. apply bind_thr. auto.
Qed.

Lemma gen_value_ok v vals b bs : Forall (eq v) vals -> gen_ok (gen_of thr ns (SrcValue v)) vals false b bs.
Proof.
  intros Hv i u bs' k Hi _. left. exists k. cbn [gen_of]. unfold ret. rewrite Forall_forall in Hv.
  rewrite (Hv u) by (eapply nth_error_In; eauto). reflexivity.
Qed.
Lemma nth_error_firstn {A} (l : list A) n i a : nth_error (firstn n l) i = Some a -> nth_error l i = Some a.
Proof. revert n i. induction l; intros [|n] [|i] H; simpl in *; try discriminate; eauto. Qed.
Lemma gen_seq_ok vs n b bs : gen_ok (gen_of thr ns (SrcSeq vs)) (firstn n vs) (negb ns) b bs.
Proof.
  intros i u bs' k Hi _. cbn [gen_of]. rewrite (nth_error_firstn _ _ _ _ Hi). unfold bind, tick, ret. cbn [clock blocks].
  destruct (negb ns && thr k) eqn:E; [right|left]; eauto. split; eauto. apply andb_true_iff in E as [E _]. auto.
Qed.
Lemma gen_read_ok b0 c b bs : b0 <> b -> blk bs b0 (map Some c) -> gen_ok (read_at (Some b0)) c false b bs.
Proof.
  intros Hne Hb i v bs' k Hi Hbs. left. exists k. unfold read_at.
  rewrite (blk_cells bs' k b0 (map Some c)). - rewrite nth_error_map, Hi. reflexivity.
  - unfold blk. rewrite Hbs; auto.
Qed.

Lemma size_of_fits es : fits es -> size_of es = Z.to_nat (zprod es).
Proof. intros (Hne & Hnn & HW). unfold size_of, desc_size. rewrite prod_arr_small; auto. Qed.

Lemma src_vals_length (s : @source V) n : src_ok s n -> (0 <= n)%Z -> length (src_vals s n) = Z.to_nat n.
Proof. destruct s; simpl; intros H Hn; [apply repeat_length|]. rewrite firstn_length. lia. Qed.

(** [prod_args]. *)
Lemma dim_max_common a b : dim_max (common a b) = Z.max (dim_max a) (dim_max b).
Proof. destruct a, b; reflexivity. Qed.
Lemma in_type_fits t p : (0 <= p < dim_max t)%Z -> in_type t p = Some p.
Proof.
  destruct t; cbn [dim_max in_type]; intros H.
  - replace (p <? 2 ^ 31)%Z with true by (symmetry; apply Z.ltb_lt; lia). reflexivity.
  - rewrite Z.mod_small by lia. reflexivity.
  - replace (p <? 2 ^ 63)%Z with true by (symmetry; apply Z.ltb_lt; lia). reflexivity.
  - rewrite w64_small by lia. reflexivity.
Qed.
Lemma prod_args_fits : forall ts es, es <> [] -> all_nonneg es -> dims_fit ts es ->
  exists t, prod_args ts es = Some (t, zprod es) /\ dim_max t = widest ts.
Proof.
  induction ts as [|t ts IH]; intros [|e es] Hne Hnn Hf; cbn [dims_fit] in Hf; try tauto; try congruence.
  destruct Hf as (He & Hz & Hf). inversion Hnn as [|? ? He0 Hes0]; subst. pose proof (zprod_nonneg (e :: es) Hnn) as H0.
  destruct es as [|e2 es].
  - destruct ts as [|t2 ts]; [|destruct Hf]. exists t. cbn [prod_args]. split.
    + do 2 f_equal. unfold zprod. cbn. lia.
    + unfold widest. cbn. destruct t; reflexivity.
  - destruct (IH (e2 :: es)) as (t' & E & M); [discriminate|auto|auto|]. exists (common t t').
    assert (W' : dim_max (common t t') = widest (t :: ts)). { rewrite dim_max_common, M. reflexivity. }
    split; [|exact W']. destruct ts as [|t2 ts]; [destruct Hf|]. cbn [prod_args] in E |- *. rewrite E.
    change (e * zprod (e2 :: es))%Z with (zprod (e :: e2 :: es)). rewrite in_type_fits by (rewrite W'; lia). reflexivity.
Qed.
Lemma dims_alloc_fits ts es : fits es -> dims_fit ts es -> dims_alloc ts es = Some (Z.to_nat (zprod es)).
Proof. intros (A & B & _) H. unfold dims_alloc. destruct (prod_args_fits ts es A B H) as (t & -> & _). reflexivity. Qed.

(** *** C15: constructors, from any world *)
Lemma ctor_dims_spec t (s : @source V) es (w : world) : fits es -> dims_fit t es -> src_ok s (zprod es) -> (nt = true -> ns = true) ->
  (exists k', ctor_dims thr nt ns t s es w = (ROk (Arr (Some (length (blocks w))) es), World (blocks w ++ [Some (map Some (src_vals s (zprod es)))]) k')) \/
  (exists k', ctor_dims thr nt ns t s es w = (RThrow, World (blocks w) k')) \/
  (nt = false /\ exists k', ctor_dims thr nt ns t s es w = (RThrow, World (blocks w ++ [None]) k')).
Proof.
  intros Hf Ht Hs Hn. pose proof Hf as (Hne & Hnn & HW). pose proof (zprod_nonneg _ Hnn) as H0.
  assert (Hd := dims_alloc_fits t es Hf Ht).
  unfold ctor_dims. rewrite Hd, (size_of_fits es Hf). unfold construct. destruct w as [bs k]. cbn [blocks].
  apply (ctor_spec (gen_of thr ns s) (src_vals s (zprod es)) (match s with SrcValue _ => false | _ => negb ns end)).
  - destruct s; [apply gen_value_ok; simpl; clear; induction (Z.to_nat (zprod es)); constructor; auto|apply gen_seq_ok].
  - symmetry. apply src_vals_length; auto.
  - intros E. destruct s; auto. rewrite Hn; auto.
Qed.

Lemma ctor_conv_spec (vs : list V) es (w : world) : fits es -> Z.of_nat (length vs) = zprod es -> (nt = true -> ns = true) ->
  (exists k', ctor_conv thr nt ns vs es w = (ROk (Arr (Some (length (blocks w))) es), World (blocks w ++ [Some (map Some vs)]) k')) \/
  (exists k', ctor_conv thr nt ns vs es w = (RThrow, World (blocks w) k')) \/
  (nt = false /\ exists k', ctor_conv thr nt ns vs es w = (RThrow, World (blocks w ++ [None]) k')).
Proof.
  intros Hf Hl Hn. unfold ctor_conv, construct. rewrite (size_of_fits es Hf). destruct w as [bs k]. cbn [blocks].
  apply (ctor_spec (gen_of thr ns (SrcSeq vs)) vs (negb ns)).
  - pose proof (gen_seq_ok vs (length vs) (length bs) (bs ++ [Some (repeat None (Z.to_nat (zprod es)))])) as H. rewrite firstn_all in H. exact H.
  - lia.
  - intros E. rewrite Hn; auto.
Qed.

(** the source of a copy: storage holding [vs], or no storage and no element *)

Lemma gen_holds_ok a vs b bs : holds bs a vs -> adata a <> Some b -> gen_ok (read_at (adata a)) vs false b bs.
Proof.
  intros (Hf & Hl & Hd) Hne. destruct (adata a) as [b0|].
  - apply gen_read_ok; auto; congruence.
  - subst. intros i v bs' k Hi. destruct i; discriminate.
Qed.

Lemma holds_app a vs bs x : holds bs a vs -> holds (bs ++ [x]) a vs.
Proof.
  intros (Hf & Hl & Hd). split; [auto|]. split; [auto|]. destruct (adata a); auto. unfold blk in *. rewrite nth_error_app1; auto.
  apply nth_error_Some. congruence.
Qed.
Lemma holds_lt a vs bs : holds bs a vs -> adata a <> Some (length bs).
Proof.
  intros (Hf & Hl & Hd) E. rewrite E in Hd. unfold blk in Hd. assert (length bs < length bs)%nat; [|lia]. apply nth_error_Some. congruence.
Qed.

Lemma ctor_copy_spec a vs (w : world) : holds (blocks w) a vs ->
  (exists k', ctor_copy thr nt a w = (ROk (Arr (Some (length (blocks w))) (aexts a)), World (blocks w ++ [Some (map Some vs)]) k')) \/
  (exists k', ctor_copy thr nt a w = (RThrow, World (blocks w) k')) \/
  (nt = false /\ exists k', ctor_copy thr nt a w = (RThrow, World (blocks w ++ [None]) k')).
Proof.
  intros H. pose proof H as (Hf & Hl & Hd). unfold ctor_copy. rewrite (size_of_fits _ Hf). destruct w as [bs k]. cbn [blocks] in *.
  apply (ctor_spec (read_at (adata a)) vs false); auto; [|lia].
  apply gen_holds_ok; [apply holds_app; auto|eapply holds_lt; eauto].
Qed.

(** *** destruction *)
Lemma clear_spec a vs bs k : holds bs a vs ->
  clear a (World bs k) = (ROk tt, match adata a with Some b => World (upd_nat bs b None) k | None => World bs k end).
Proof.
  intros (Hf & Hl & Hd). unfold clear. destruct (adata a) as [b|]; [|reflexivity].
  rewrite (size_of_fits _ Hf). replace (Z.to_nat (zprod (aexts a))) with (length vs) by lia.
  pose proof (destroy_all_spec bs k b vs [] ltac:(rewrite app_nil_r; auto)) as E. rewrite (bind_ret _ _ _ _ _ E).
  rewrite app_nil_r. rewrite (deallocate_spec _ _ _ (length vs)) by (eapply blk_upd; eauto). rewrite upd_upd. reflexivity.
Qed.

(** *** assignment *)
Lemma copy_into_spec gen b vs olds gt : gt = true -> length vs = length olds -> forall rest done bs k, gen_ok gen vs gt b bs ->
  vs = done ++ rest -> blk bs b (map Some (done ++ skipn (length done) olds)) ->
  (exists k', copy_into thr (Some b) gen (length done) (length rest) (World bs k) = (ROk tt, World (upd_nat bs b (Some (map Some vs))) k')) \/
  (exists k' j, copy_into thr (Some b) gen (length done) (length rest) (World bs k)
     = (RThrow, World (upd_nat bs b (Some (map Some (firstn j vs ++ skipn j olds)))) k')).
Proof.
  intros Hgt Hlen. induction rest as [|v rest IH]; intros done bs k Hg Hv Hb.
  - left. exists k. cbn [length copy_into]. unfold ret. rewrite app_nil_r in Hv. subst done.
    rewrite Hlen, skipn_all, app_nil_r in Hb. rewrite upd_same; auto.
  - cbn [length copy_into].
    assert (Hnth : nth_error vs (length done) = Some v) by (rewrite Hv; apply nth_error_app_mid).
    assert (Hstop : blk bs b (map Some (firstn (length done) vs ++ skipn (length done) olds))).
    { rewrite Hv. rewrite firstn_app, firstn_all, Nat.sub_diag, firstn_O, app_nil_r. auto. }
    destruct (skipn (length done) olds) as [|o olds'] eqn:Eo.
    { exfalso. assert (length (skipn (length done) olds) = 0)%nat by (rewrite Eo; reflexivity).
      rewrite skipn_length in H. rewrite Hv, app_length in Hlen. simpl in Hlen. lia. }
    destruct (Hg (length done) v bs k Hnth (fun _ _ => eq_refl)) as [(k1 & E1)|(_ & k1 & E1)].
    + rewrite map_app in Hb. cbn [map] in Hb.
      pose proof (assign_at_spec bs k1 b (map Some done) o v (map Some olds') Hb) as Hs. rewrite map_length in Hs.
      destruct Hs as [(k2 & E2)|(k2 & E2)].
      * assert (E : bind (gen (length done)) (fun v0 => assign_at (Some b) (length done) v0) (World bs k)
                 = (ROk tt, World (upd_nat bs b (Some (map Some done ++ Some v :: map Some olds'))) k2)).
        { rewrite (bind_ret _ _ _ _ _ E1). exact E2. }
        rewrite (bind_ret _ _ _ _ _ E).
        specialize (IH (done ++ [v]) (upd_nat bs b (Some (map Some done ++ Some v :: map Some olds'))) k2).
        rewrite app_length, Nat.add_1_r in IH.
        assert (Eo' : skipn (S (length done)) olds = olds').
        { clear -Eo. revert Eo. generalize (length done). induction olds as [|x l IHl]; intros [|n] E; simpl in *; try discriminate; [inv E; auto|]. eauto. }
        destruct IH as [(k3 & E3)|(k3 & j & E3)].
        -- apply gen_ok_upd; auto.
        -- rewrite <- app_assoc. auto.
        -- rewrite Eo'. rewrite <- app_assoc, map_app. cbn [app map]. eapply blk_upd; eauto.
        -- left. exists k3. rewrite E3, upd_upd. reflexivity.
        -- right. exists k3, j. rewrite E3, upd_upd. reflexivity.
      * right. exists k2, (length done). rewrite Eo. rewrite upd_same by auto. apply bind_thr. rewrite (bind_ret _ _ _ _ _ E1). exact E2.
    + right. exists k1, (length done). rewrite Eo. rewrite upd_same by auto. apply bind_thr. apply bind_thr. exact E1.
Qed.

Lemma gen_ok_weaken gen vs b bs gt : gen_ok gen vs gt b bs -> gen_ok gen vs true b bs.
Proof. intros H i v bs' k Hi Hb. destruct (H i v bs' k Hi Hb) as [?|(? & ?)]; auto. Qed.

(** assignment of [vs] (extents [es]) to the array [a] holding [olds] *)
Lemma assign_same_spec a olds gen vs es gt bs k : holds bs a olds -> fits es -> Z.of_nat (length vs) = zprod es -> zprod (aexts a) = zprod es ->
  (forall b, adata a = Some b -> gen_ok gen vs gt b bs) ->
  match adata a with
  | None => assign_from thr nt a gen es (World bs k) = (ROk (Arr None es), World bs k)
  | Some b =>
    (exists k', assign_from thr nt a gen es (World bs k) = (ROk (Arr (Some b) es), World (upd_nat bs b (Some (map Some vs))) k')) \/
    (exists k' j, assign_from thr nt a gen es (World bs k) = (RThrow, World (upd_nat bs b (Some (map Some (firstn j vs ++ skipn j olds)))) k'))
  end.
Proof.
  intros (Hf & Hl & Hd) Hfe Hlv Hz Hg. unfold assign_from. rewrite !size_of_fits, Hz, Nat.eqb_refl by auto.
  replace (Z.to_nat (zprod es)) with (length vs) by lia.
  destruct (adata a) as [b|].
  - destruct (copy_into_spec gen b vs olds true eq_refl ltac:(lia) vs [] bs k) as [(k1 & E)|(k1 & j & E)]; auto.
    + eapply gen_ok_weaken; eauto.
    + left. exists k1. rewrite (bind_ret _ _ _ _ _ E). reflexivity.
    + right. exists k1, j. apply bind_thr. exact E.
  - subst olds. simpl in Hl. assert (length vs = 0)%nat as -> by lia. reflexivity.
Qed.

Lemma assign_other_spec a gen vs es gt bs k : fits (aexts a) -> fits es -> Z.of_nat (length vs) = zprod es -> zprod (aexts a) <> zprod es ->
  match adata a with Some b => exists olds, Z.of_nat (length olds) = zprod (aexts a) /\ blk bs b (map Some olds) | None => True end ->
  gen_ok gen vs gt (length bs) (bs ++ [Some (repeat None (length vs))]) -> (nt = true -> gt = false) ->
  (exists k', assign_from thr nt a gen es (World bs k)
     = (ROk (Arr (Some (length bs)) es), World ((match adata a with Some b => upd_nat bs b None | None => bs end) ++ [Some (map Some vs)]) k')) \/
  (exists k', assign_from thr nt a gen es (World bs k) = (RThrow, World bs k')) \/
  (exists k', assign_from thr nt a gen es (World bs k) = (RThrow, World (bs ++ [Some (repeat None (length vs))]) k')).
Proof.
  intros Hf Hfe Hl Hz Hd Hg Hnt. unfold assign_from. rewrite !size_of_fits by auto.
  replace (Z.to_nat (zprod (aexts a)) =? Z.to_nat (zprod es))%nat with false.
  2:{ symmetry. apply Nat.eqb_neq. destruct Hf as (_ & Hn1 & _), Hfe as (_ & Hn2 & _). apply zprod_nonneg in Hn1, Hn2. lia. }
  replace (Z.to_nat (zprod es)) with (length vs) by lia.
  destruct (allocate_spec bs k (length vs)) as [(k1 & E1)|(k1 & E1)].
  2:{ right; left. exists k1. apply bind_thr. auto. }
  rewrite (bind_ret _ _ _ _ _ E1).
  assert (Hb : blk (bs ++ [Some (repeat None (length vs))]) (length bs) (repeat None (length vs))) by (unfold blk; apply nth_error_app_mid).
  destruct (construct_spec gen vs gt (length bs) _ k1 (length vs) Hg Hb eq_refl Hnt) as [(k2 & E2)|(Hn & k2 & E2)].
  - left. exists k2. rewrite (bind_ret _ _ _ _ _ E2). rewrite upd_app_last.
    destruct (adata a) as [b|] eqn:Ea.
    + destruct Hd as (olds & Hlo & Hbo). assert (Hlt := blk_lt _ _ _ Hbo).
      assert (Hh : holds (bs ++ [Some (map Some vs)]) a olds).
      { split; [auto|]. split; [auto|]. rewrite Ea. unfold blk. rewrite nth_error_app1 by auto. exact Hbo. }
      rewrite (bind_ret _ _ _ _ _ (clear_spec a olds _ k2 Hh)). rewrite Ea. unfold ret.
      f_equal. f_equal. clear -Hlt. revert b Hlt. induction bs as [|x bs IH]; intros [|b] H; simpl in *; try lia; auto. f_equal. apply IH. lia.
    + assert (E : clear a (World (bs ++ [Some (map Some vs)]) k2) = (ROk tt, World (bs ++ [Some (map Some vs)]) k2)).
      { unfold clear. rewrite Ea. reflexivity. }
      rewrite (bind_ret _ _ _ _ _ E). reflexivity.
  - right; right. exists k2. rewrite upd_app_last in E2. apply bind_thr. exact E2.
Qed.

End LP.
