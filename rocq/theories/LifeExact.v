(** * LifeExact: the outcome of an assignment as a function of the first operation that throws. *)

From Coq Require Import ZArith List Bool Lia.
From Verif Require Import Base Spec Desc Lemmas DescProofs ViewProofs Life LifeSpec LifeProofs LifeThms.
Import ListNotations.

(** *** specification *)
(** Number of the first of the operations [k], [k+1], ..., [k+n-1] that throws, counted from [k]. *)
Fixpoint first_throw (P : nat -> bool) (k n : nat) : option nat :=
  match n with
  | O => None
  | S n' => if P k then Some 0%nat else option_map S (first_throw P (S k) n')
  end.

Lemma first_throw_none P n : forall k, first_throw P k n = None <-> forall j, (j < n)%nat -> P (k + j)%nat = false.
Proof.
  induction n as [|n IH]; intros k; cbn; [split; auto; intros; lia|]. destruct (P k) eqn:E.
  - split; [discriminate|]. intros H. specialize (H 0%nat). rewrite Nat.add_0_r in H. rewrite H in E by lia. discriminate.
  - destruct (first_throw P (S k) n) eqn:E1; cbn.
    + split; [discriminate|]. intros H. assert (None = Some n0) as X; [|discriminate]. rewrite <- E1. symmetry. apply IH.
      intros j Hj. replace (S k + j)%nat with (k + S j)%nat by lia. apply H. lia.
    + split; auto. intros _ [|j] Hj; [rewrite Nat.add_0_r; auto|]. replace (k + S j)%nat with (S k + j)%nat by lia. apply (proj1 (IH (S k))); auto. lia.
Qed.
Lemma first_throw_some P n j : forall k, first_throw P k n = Some j <-> (j < n)%nat /\ P (k + j)%nat = true /\ forall i, (i < j)%nat -> P (k + i)%nat = false.
Proof.
  revert j. induction n as [|n IH]; intros j k; cbn; [split; [discriminate|lia]|]. destruct (P k) eqn:E.
  - split.
    + intros [= <-]. rewrite Nat.add_0_r. split; [lia|]. split; auto. intros; lia.
    + intros (H1 & H2 & H3). destruct j; auto. specialize (H3 0%nat). rewrite Nat.add_0_r in H3. rewrite H3 in E by lia. discriminate.
  - destruct (first_throw P (S k) n) as [j'|] eqn:E1; cbn.
    + apply IH in E1 as (A & B & C). split.
      * intros [= <-]. split; [lia|]. split; [rewrite <- B; f_equal; lia|]. intros [|i] Hi; [rewrite Nat.add_0_r; auto|].
        replace (k + S i)%nat with (S k + i)%nat by lia. apply C. lia.
      * intros (H1 & H2 & H3). f_equal. destruct j as [|j]; [rewrite Nat.add_0_r in H2; congruence|]. f_equal.
        destruct (Nat.lt_trichotomy j' j) as [L|[L|L]]; auto; exfalso.
        -- specialize (H3 (S j')). replace (k + S j')%nat with (S k + j')%nat in H3 by lia. rewrite H3 in B by lia. discriminate.
        -- specialize (C j L). replace (S k + j)%nat with (k + S j)%nat in C by lia. congruence.
    + split; [discriminate|]. intros (H1 & H2 & H3). exfalso. destruct j as [|j]; [rewrite Nat.add_0_r in H2; congruence|].
      pose proof (proj1 (first_throw_none P n (S k)) E1 j) as H. replace (S k + j)%nat with (k + S j)%nat in H by lia. rewrite H in H2 by lia. discriminate.
Qed.

Section LX.
Context {V : Type}.
Variable thr : nat -> bool.
Variable nt : bool.

(** evaluation of the source takes [g] (0 or 1) operations, which throw as [gt] says *)
Definition gen_x (gen : nat -> @M V V) (vals : list V) (g : nat) (gt : nat -> bool) (b : nat) (bs : list (@block V)) : Prop :=
  (g = 0%nat /\ (forall k, gt k = false) \/ g = 1%nat) /\
  forall i v bs' k, nth_error vals i = Some v -> (forall b', b' <> b -> nth_error bs' b' = nth_error bs b') ->
    gen i (World bs' k) = if gt k then (RThrow, World bs' (S k)) else (ROk v, World bs' (k + g)).
Lemma gen_x_upd gen vals g gt b bs c : gen_x gen vals g gt b bs -> gen_x gen vals g gt b (upd_nat bs b c).
Proof.
  intros [H0 H]. split; auto. intros i v bs' k Hi Hb. apply H; auto. intros b' Hne. rewrite Hb by auto. apply nth_error_upd_ne. auto.
Qed.

Lemma assign_at_x bs k b l v0 v (r : list (option V)) : blk bs b (l ++ Some v0 :: r) ->
  assign_at thr (Some b) (length l) v (World bs k)
   = if thr k then (RThrow, World bs (S k)) else (ROk tt, World (upd_nat bs b (Some (l ++ Some v :: r))) (S k)).
Proof.
  intros H. unfold assign_at, bind, tick. cbn [clock blocks]. cbn [negb andb]. destruct (thr k); auto.
  rewrite (blk_cells _ _ _ _ H), nth_error_app_mid, upd_app_mid. reflexivity.
Qed.
Lemma construct_at_x bs k b l v (r : list (option V)) : blk bs b (l ++ None :: r) ->
  construct_at thr nt (Some b) (length l) v (World bs k)
   = if negb nt && thr k then (RThrow, World bs (S k)) else (ROk tt, World (upd_nat bs b (Some (l ++ Some v :: r))) (S k)).
Proof.
  intros H. unfold construct_at, bind, tick. cbn [clock blocks]. destruct (negb nt && thr k); auto.
  rewrite (blk_cells _ _ _ _ H), nth_error_app_mid, upd_app_mid. reflexivity.
Qed.

Lemma copy_into_x gen b vs olds g gt P k0 : length vs = length olds ->
  (forall i, g = 1%nat -> P (k0 + (g + 1) * i)%nat = gt (k0 + (g + 1) * i)%nat) ->
  (forall i, P (k0 + (g + 1) * i + g)%nat = thr (k0 + (g + 1) * i + g)%nat) ->
  forall rest done bs, gen_x gen vs g gt b bs ->
  vs = done ++ rest -> blk bs b (map Some (done ++ skipn (length done) olds)) ->
  copy_into thr (Some b) gen (length done) (length rest) (World bs (k0 + (g + 1) * length done))
   = match first_throw P (k0 + (g + 1) * length done) ((g + 1) * length rest) with
     | None => (ROk tt, World (upd_nat bs b (Some (map Some vs))) (k0 + (g + 1) * length vs))
     | Some j => (RThrow, World (upd_nat bs b (Some (map Some (firstn (length done + j / (g + 1)) vs ++ skipn (length done + j / (g + 1)) olds))))
                                (k0 + (g + 1) * length done + S j))
     end.
Proof.
  intros Hlen P1 P2. induction rest as [|v rest IH]; intros done bs Hg Hv Hb.
  - cbn [length copy_into]. rewrite Nat.mul_0_r. cbn. unfold ret. rewrite app_nil_r in Hv. subst done.
    rewrite Hlen, skipn_all, app_nil_r in Hb. rewrite upd_same; auto.
  - assert (Hnth : nth_error vs (length done) = Some v) by (rewrite Hv; apply nth_error_app_mid).
    assert (Hstop : blk bs b (map Some (firstn (length done) vs ++ skipn (length done) olds))).
    { rewrite Hv. rewrite firstn_app, firstn_all, Nat.sub_diag, firstn_O, app_nil_r. auto. }
    destruct (skipn (length done) olds) as [|o olds'] eqn:Eo.
    { exfalso. assert (length (skipn (length done) olds) = 0)%nat by (rewrite Eo; reflexivity).
      rewrite skipn_length in H. rewrite Hv, app_length in Hlen. simpl in Hlen. lia. }
    assert (Eo' : skipn (S (length done)) olds = olds').
    { clear -Eo. revert Eo. generalize (length done). induction olds as [|x l IHl]; intros [|n] E; simpl in *; try discriminate; [inv E; auto|]. eauto. }
    set (k := (k0 + (g + 1) * length done)%nat) in *.
    cbn [length copy_into].
    destruct Hg as [Hg0 Hg]. pose proof (Hg (length done) v bs k Hnth (fun _ _ => eq_refl)) as Eg.
    rewrite map_app in Hb. cbn [map] in Hb.
    pose proof (assign_at_x bs (k + g) b (map Some done) o v (map Some olds') Hb) as Ha. rewrite map_length in Ha.
    pose proof (P2 (length done)) as P2'. fold k in P2'.
    specialize (IH (done ++ [v]) (upd_nat bs b (Some (map Some done ++ Some v :: map Some olds')))).
    rewrite app_length, Nat.add_1_r in IH.
    rewrite Eo' in IH. rewrite <- app_assoc, map_app in IH. cbn [app map] in IH.
    assert (Ek : (k0 + (g + 1) * S (length done) = S (k + g))%nat) by (unfold k; lia). rewrite Ek in IH.
    rewrite !upd_upd in IH.
    assert (IH' := IH (gen_x_upd _ _ _ _ _ _ _ (conj Hg0 Hg)) ltac:(first [exact Hv | rewrite <- app_assoc; exact Hv]) ltac:(rewrite ?map_app, <- ?app_assoc; cbn [app map]; eapply blk_upd; eauto)). clear IH.
    assert (Hend : forall kk, World bs kk = World (upd_nat bs b (Some (map Some (firstn (length done + 0) vs ++ skipn (length done + 0) olds)))) kk).
    { intros kk. rewrite Nat.add_0_r, Eo. rewrite upd_same; auto. }
    destruct Hg0 as [[-> Hgt]| ->].
    + rewrite Hgt in Eg. rewrite Nat.add_0_r in *.
      change (0 + 1)%nat with 1%nat. rewrite !Nat.mul_1_l. cbn [first_throw]. rewrite P2'.
      rewrite (bind_ret _ _ _ _ _ Eg) || idtac.
      destruct (thr k) eqn:Et.
      * unfold bind. rewrite Eg, Ha. change (0 / 1)%nat with 0%nat. rewrite Nat.add_0_r, Nat.add_1_r. rewrite (Hend (S k)) at 1. reflexivity.
      * unfold bind at 1. unfold bind at 1. rewrite Eg, Ha. rewrite IH'. change (0 + 1)%nat with 1%nat. rewrite !Nat.mul_1_l.
        destruct (first_throw P (S k) (length rest)) as [j|]; cbn [option_map]; auto.
        rewrite !Nat.div_1_r, upd_upd. replace (S (length done) + j)%nat with (length done + S j)%nat by lia. do 2 f_equal. lia.
    + replace ((1 + 1) * S (length rest))%nat with (S (S ((1 + 1) * length rest))) by lia. cbn [first_throw].
      pose proof (P1 (length done) eq_refl) as P1'. fold k in P1'. rewrite P1'. replace (k + 1)%nat with (S k) in * by lia. rewrite P2'.
      unfold bind at 1. unfold bind at 1. rewrite Eg. destruct (gt k); cbn [option_map].
      * rewrite Hend at 1. change (0 / (1 + 1))%nat with 0%nat. do 2 f_equal. lia.
      * rewrite Ha. destruct (thr (S k)); cbn [option_map].
        -- rewrite Hend at 1. change (1 / (1 + 1))%nat with 0%nat. do 2 f_equal. lia.
        -- rewrite IH'. destruct (first_throw P (S (S k)) ((1 + 1) * length rest)) as [j|]; cbn [option_map]; auto. rewrite upd_upd.
           assert (Ej : (S (S j) / (1 + 1) = S (j / (1 + 1)))%nat).
           { change (1 + 1)%nat with 2%nat. replace (S (S j)) with (1 * 2 + j)%nat by lia. rewrite Nat.div_add_l by lia. lia. }
           rewrite Ej. replace (S (length done) + j / (1 + 1))%nat with (length done + S (j / (1 + 1)))%nat by lia. do 2 f_equal. lia.
Qed.

Lemma uninit_x gen b vs g gt P k0 :
  (forall i, g = 1%nat -> P (k0 + (g + 1) * i)%nat = gt (k0 + (g + 1) * i)%nat) ->
  (forall i, P (k0 + (g + 1) * i + g)%nat = negb nt && thr (k0 + (g + 1) * i + g)%nat) ->
  forall rest done bs, gen_x gen vs g gt b bs ->
  vs = done ++ rest -> blk bs b (map Some done ++ repeat None (length rest)) ->
  uninit_from thr nt (Some b) gen (length done) (length rest) (World bs (k0 + (g + 1) * length done))
   = match first_throw P (k0 + (g + 1) * length done) ((g + 1) * length rest) with
     | None => (ROk tt, World (upd_nat bs b (Some (map Some vs))) (k0 + (g + 1) * length vs))
     | Some j => (RThrow, World (upd_nat bs b (Some (repeat None (length vs)))) (k0 + (g + 1) * length done + S j))
     end.
Proof.
  intros P1 P2. induction rest as [|v rest IH]; intros done bs Hg Hv Hb.
  - cbn [length uninit_from]. rewrite Nat.mul_0_r. cbn. unfold ret. simpl in Hb. rewrite app_nil_r in Hv, Hb. subst done. rewrite upd_same; auto.
  - assert (Hnth : nth_error vs (length done) = Some v) by (rewrite Hv; apply nth_error_app_mid).
    set (k := (k0 + (g + 1) * length done)%nat) in *.
    cbn [length uninit_from]. set (m := bind (gen (length done)) (fun v => construct_at thr nt (Some b) (length done) v)).
    assert (Hthr : forall k1, m (World bs k) = (RThrow, World bs k1) ->
      on_throw m (destroy_n (Some b) 0 (length done)) (World bs k) = (RThrow, World (upd_nat bs b (Some (repeat None (length vs)))) k1)).
    { intros k1 E. eapply on_throw_thr; [exact E|]. rewrite (destroy_all_spec bs k1 b done (repeat None (length (v :: rest))) Hb).
      rewrite <- repeat_app. rewrite Hv, app_length. reflexivity. }
    destruct Hg as [Hg0 Hg]. pose proof (Hg (length done) v bs k Hnth (fun _ _ => eq_refl)) as Eg.
    cbn [length repeat] in Hb.
    pose proof (construct_at_x bs (k + g) b (map Some done) v (repeat None (length rest)) Hb) as Ha. rewrite map_length in Ha.
    pose proof (P2 (length done)) as P2'. fold k in P2'.
    specialize (IH (done ++ [v]) (upd_nat bs b (Some (map Some done ++ Some v :: repeat None (length rest))))).
    rewrite app_length, Nat.add_1_r in IH. rewrite map_app, <- app_assoc in IH. cbn [app map] in IH.
    assert (Ek : (k0 + (g + 1) * S (length done) = S (k + g))%nat) by (unfold k; lia). rewrite Ek in IH. rewrite !upd_upd in IH.
    assert (IH' := IH (gen_x_upd _ _ _ _ _ _ _ (conj Hg0 Hg)) ltac:(first [exact Hv | rewrite <- app_assoc; exact Hv]) ltac:(rewrite ?map_app, <- ?app_assoc; cbn [app map]; eapply blk_upd; eauto)). clear IH.
    destruct Hg0 as [[-> Hgt]| ->].
    + rewrite Hgt in Eg. rewrite !Nat.add_0_r in *. change (0 + 1)%nat with 1%nat. rewrite !Nat.mul_1_l. cbn [first_throw]. rewrite P2'. rewrite ?Nat.add_0_r in Eg.
      assert (Em : m (World bs k) = construct_at thr nt (Some b) (length done) v (World bs k)) by (unfold m; apply bind_ret; exact Eg).
      rewrite Ha in Em. destruct (negb nt && thr k).
      * rewrite (bind_thr _ _ _ _ (Hthr _ Em)). do 2 f_equal. lia.
      * rewrite (bind_ret _ _ _ _ _ (on_throw_ok _ _ _ _ _ Em)). rewrite IH'. change (0 + 1)%nat with 1%nat. rewrite !Nat.mul_1_l.
        destruct (first_throw P (S k) (length rest)) as [j|]; cbn [option_map]; auto. rewrite ?upd_upd. do 2 f_equal. lia.
    + replace ((1 + 1) * S (length rest))%nat with (S (S ((1 + 1) * length rest))) by lia. cbn [first_throw].
      pose proof (P1 (length done) eq_refl) as P1'. fold k in P1'. rewrite P1'. replace (k + 1)%nat with (S k) in * by lia. rewrite P2'.
      destruct (gt k); cbn [option_map].
      * assert (Em : m (World bs k) = (RThrow, World bs (S k))) by (unfold m; apply bind_thr; exact Eg).
        rewrite (bind_thr _ _ _ _ (Hthr _ Em)). do 2 f_equal. lia.
      * assert (Em : m (World bs k) = construct_at thr nt (Some b) (length done) v (World bs (S k))) by (unfold m; apply bind_ret; exact Eg).
        rewrite Ha in Em. destruct (negb nt && thr (S k)); cbn [option_map].
        -- rewrite (bind_thr _ _ _ _ (Hthr _ Em)). do 2 f_equal. lia.
        -- rewrite (bind_ret _ _ _ _ _ (on_throw_ok _ _ _ _ _ Em)). rewrite IH'.
           destruct (first_throw P (S (S k)) ((1 + 1) * length rest)) as [j|]; cbn [option_map]; auto. rewrite ?upd_upd. do 2 f_equal. lia.
Qed.
End LX.

Section LX2.
Context {V : Type}.
Variable thr : nat -> bool.
Variables nt ns : bool.

Lemma allocate_x (bs : list (@block V)) k n :
  allocate thr n (World bs k) = if thr k then (RThrow, World bs (S k)) else (ROk (length bs), World (bs ++ [Some (repeat None n)]) (S k)).
Proof. unfold allocate, bind, tick. cbn [clock blocks negb andb]. destruct (thr k); reflexivity. Qed.

Lemma gen_x_read a (vs : list V) b bs : holds bs a vs -> adata a <> Some b -> gen_x (read_at (adata a)) vs 0 (fun _ => false) b bs.
Proof.
  intros (Hf & Hl & Hd) Hne. split; [auto|]. intros i v bs' k Hi Hb. rewrite Nat.add_0_r. destruct (adata a) as [b0|].
  - unfold read_at. rewrite (blk_cells bs' k b0 (map Some vs)); [rewrite nth_error_map, Hi; reflexivity|].
    unfold blk. rewrite Hb by congruence. exact Hd.
  - subst. destruct i; discriminate.
Qed.
Lemma gen_x_seq (vs : list V) b bs : gen_x (gen_of thr ns (SrcSeq vs)) vs 1 (fun k => negb ns && thr k) b bs.
Proof.
  split; [auto|]. intros i v bs' k Hi Hb. cbn [gen_of]. rewrite Hi. unfold bind, tick, ret. cbn [clock blocks].
  destruct (negb ns && thr k); [reflexivity|]. rewrite Nat.add_1_r. reflexivity.
Qed.
Lemma gen_x_firstn (vs : list V) n b bs : gen_x (gen_of thr ns (SrcSeq vs)) (firstn n vs) 1 (fun k => negb ns && thr k) b bs.
Proof.
  destruct (gen_x_seq vs b bs) as [A B]. split; [auto|]. intros i v bs' k Hi. apply B. eapply nth_error_firstn; eauto.
Qed.
Lemma gen_x_value (v : V) n b bs : gen_x (gen_of thr ns (SrcValue v)) (repeat v n) 0 (fun _ => false) b bs.
Proof.
  split; [auto|]. intros i u bs' k Hi Hb. cbn [gen_of]. rewrite Nat.add_0_r. apply nth_error_In in Hi. apply repeat_spec in Hi. subst. reflexivity.
Qed.

Definition ctor_out (r : option nat) (vs : list V) es bs k (c : nat) : res arr * world :=
  match r with
  | None => (ROk (Arr (Some (length bs)) es), World (bs ++ [Some (map Some vs)]) (S k + c * length vs))
  | Some j => if nt then (RTerm, World (bs ++ [Some (repeat None (length vs))]) (S k + S j)) else (RThrow, World (bs ++ [None]) (S k + S j))
  end.

Lemma noexcept_both {A B} (m : @M V A) h (f : A -> @M V B) w w' : m w = (RThrow, w') ->
  bind (on_throw (noexcept_if nt m) h) f w = if nt then (RTerm, w') else bind (on_throw (fun _ => (RThrow, w')) h) f w.
Proof. intros E. unfold bind, on_throw, noexcept_if. rewrite E. case nt; reflexivity. Qed.

Lemma ctor_x gen (vs : list V) g gt P bs k n es :
  gen_x gen vs g gt (length bs) (bs ++ [Some (repeat None n)]) -> n = length vs ->
  (forall i, g = 1%nat -> P (S k + (g + 1) * i)%nat = gt (S k + (g + 1) * i)%nat) ->
  (forall i, P (S k + (g + 1) * i + g)%nat = negb nt && thr (S k + (g + 1) * i + g)%nat) ->
  bind (allocate thr n) (fun b => bind (on_throw (noexcept_if nt (uninit thr nt (Some b) gen n)) (deallocate (Some b))) (fun _ => ret (Arr (Some b) es))) (World bs k)
   = if thr k then (RThrow, World bs (S k)) else ctor_out (first_throw P (S k) ((g + 1) * n)) vs es bs k (g + 1).
Proof.
  intros Hg Hn P1 P2. pose proof (allocate_x bs k n) as Ea. destruct (thr k); [apply bind_thr; exact Ea|]. rewrite (bind_ret _ _ _ _ _ Ea).
  assert (Hb : blk (bs ++ [Some (repeat None n)]) (length bs) (repeat None n)) by (unfold blk; apply nth_error_app_mid).
  pose proof (uninit_x thr nt gen (length bs) vs g gt P (S k) P1 P2 vs [] _ Hg eq_refl) as E. cbn [length app map] in E.
  rewrite <- Hn in E. specialize (E Hb). rewrite Nat.mul_0_r, Nat.add_0_r, !upd_app_last in E. unfold uninit.
  destruct (first_throw P (S k) ((g + 1) * n)) as [j|]; cbn [ctor_out].
  - erewrite noexcept_both; [|exact E]. case nt; [rewrite Hn; reflexivity|]. apply bind_thr. eapply on_throw_thr; [reflexivity|].
    rewrite (deallocate_spec _ _ _ n) by (unfold blk; rewrite nth_error_app_mid; auto). rewrite upd_app_last. reflexivity.
  - erewrite bind_ret; [|apply on_throw_ok; apply noexcept_ok; exact E]. rewrite Hn. reflexivity.
Qed.

(** assignment *)
Lemma assign_same_x a (olds : list V) gen (vs : list V) es g gt P (bs : list (@block V)) k : holds bs a olds -> fits es -> Z.of_nat (length vs) = zprod es -> zprod (aexts a) = zprod es ->
  (forall b, adata a = Some b -> gen_x gen vs g gt b bs) ->
  (forall i, g = 1%nat -> P (k + (g + 1) * i)%nat = gt (k + (g + 1) * i)%nat) ->
  (forall i, P (k + (g + 1) * i + g)%nat = thr (k + (g + 1) * i + g)%nat) ->
  assign_from thr nt a gen es (World bs k) =
   match first_throw P k ((g + 1) * length vs) with
   | None => (ROk (Arr (adata a) es), World (match adata a with Some b => upd_nat bs b (Some (map Some vs)) | None => bs end) (k + (g + 1) * length vs))
   | Some j => (RThrow, World (match adata a with Some b => upd_nat bs b (Some (map Some (firstn (j / (g + 1)) vs ++ skipn (j / (g + 1)) olds))) | None => bs end) (k + S j))
   end.
Proof.
  intros (Hf & Hl & Hd) Hfe Hlv Hz Hg P1 P2. unfold assign_from. rewrite !size_of_fits, Hz, Nat.eqb_refl by auto.
  replace (Z.to_nat (zprod es)) with (length vs) by lia.
  destruct (adata a) as [b|].
  - pose proof (copy_into_x thr gen b vs olds g gt P k ltac:(lia) P1 P2 vs [] bs (Hg b eq_refl) eq_refl Hd) as E. cbn [length] in E.
    rewrite Nat.mul_0_r, Nat.add_0_r in E.
    destruct (first_throw P k ((g + 1) * length vs)) as [j|].
    + apply bind_thr. exact E.
    + rewrite (bind_ret _ _ _ _ _ E). reflexivity.
  - subst olds. simpl in Hl. assert (length vs = 0)%nat as -> by lia. rewrite Nat.mul_0_r. cbn. unfold bind, ret. rewrite Nat.add_0_r. reflexivity.
Qed.

Lemma assign_other_x a gen (vs : list V) es g gt P (bs : list (@block V)) k : fits (aexts a) -> fits es -> Z.of_nat (length vs) = zprod es -> zprod (aexts a) <> zprod es ->
  match adata a with Some b => exists olds, Z.of_nat (length olds) = zprod (aexts a) /\ blk bs b (map Some olds) | None => True end ->
  gen_x gen vs g gt (length bs) (bs ++ [Some (repeat None (length vs))]) ->
  (forall i, g = 1%nat -> P (S k + (g + 1) * i)%nat = gt (S k + (g + 1) * i)%nat) ->
  (forall i, P (S k + (g + 1) * i + g)%nat = negb nt && thr (S k + (g + 1) * i + g)%nat) ->
  assign_from thr nt a gen es (World bs k) =
   if thr k then (RThrow, World bs (S k)) else
   match first_throw P (S k) ((g + 1) * length vs) with
   | None => (ROk (Arr (Some (length bs)) es),
              World (match adata a with Some b => upd_nat bs b None | None => bs end ++ [Some (map Some vs)]) (S k + (g + 1) * length vs))
   | Some j => (if nt then RTerm else RThrow, World (bs ++ [Some (repeat None (length vs))]) (S k + S j))
   end.
Proof.
  intros Hf Hfe Hl Hz Hd Hg P1 P2. unfold assign_from. rewrite !size_of_fits by auto.
  replace (Z.to_nat (zprod (aexts a)) =? Z.to_nat (zprod es))%nat with false.
  2:{ symmetry. apply Nat.eqb_neq. destruct Hf as (_ & Hn1 & _), Hfe as (_ & Hn2 & _). apply zprod_nonneg in Hn1, Hn2. lia. }
  replace (Z.to_nat (zprod es)) with (length vs) by lia.
  pose proof (allocate_x bs k (length vs)) as Ea. destruct (thr k); [apply bind_thr; exact Ea|]. rewrite (bind_ret _ _ _ _ _ Ea).
  assert (Hb : blk (bs ++ [Some (repeat None (length vs))]) (length bs) (repeat None (length vs))) by (unfold blk; apply nth_error_app_mid).
  pose proof (uninit_x thr nt gen (length bs) vs g gt P (S k) P1 P2 vs [] _ Hg eq_refl Hb) as E. cbn [length] in E.
  rewrite Nat.mul_0_r, Nat.add_0_r, !upd_app_last in E.
  destruct (first_throw P (S k) ((g + 1) * length vs)) as [j|].
  - assert (Hx : forall (m : @M V unit) (f : unit -> @M V arr) w w', m w = (RThrow, w') -> bind (noexcept_if nt m) f w = (if nt then RTerm else RThrow, w')).
    { intros m f w w' Em. unfold bind, noexcept_if. rewrite Em. case nt; reflexivity. }
    eapply Hx. exact E.
  - erewrite bind_ret; [|apply noexcept_ok; exact E].
    destruct (adata a) as [b|] eqn:Ea'.
    + destruct Hd as (olds & Hlo & Hbo). assert (Hlt := blk_lt _ _ _ Hbo).
      assert (Hh : holds (bs ++ [Some (map Some vs)]) a olds).
      { split; [auto|]. split; [auto|]. rewrite Ea'. unfold blk. rewrite nth_error_app1 by auto. exact Hbo. }
      erewrite bind_ret; [|apply (clear_spec a olds); exact Hh]. rewrite Ea'. unfold ret.
      f_equal. f_equal. clear -Hlt. revert b Hlt. induction bs as [|x bs IH]; intros [|b] H; simpl in *; try lia; auto. f_equal. apply IH. lia.
    + erewrite bind_ret; [|unfold clear; rewrite Ea'; reflexivity]. reflexivity.
Qed.
End LX2.
