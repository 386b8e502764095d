(** * LifeList: nested initializer lists. *)

From Coq Require Import ZArith List Bool Lia.
From Verif Require Import Base Spec Desc Lemmas DescProofs ViewProofs Life LifeSpec LifeProofs.
Import ListNotations.

Lemma nth_error_lt {A} (l : list A) j x : nth_error l j = Some x -> (j < length l)%nat.
Proof. intros H. apply nth_error_Some. congruence. Qed.

Section LL.
Context {V : Type}.
Variable thr : nat -> bool.
Variable nt : bool.
Notation world := (@world V).
Notation nested := (@nested V).

(** row-major enumeration of the elements of a nested list *)
Fixpoint rm_go {A} (f : A -> list (list Z * V)) (l : list A) (i : Z) : list (list Z * V) :=
  match l with
  | [] => []
  | x :: l' => map (fun p => (i :: fst p, snd p)) (f x) ++ rm_go f l' (i + 1)%Z
  end.
Fixpoint rm (N : nat) : nested N -> list (list Z * V) :=
  match N with
  | O => fun v => [([], v)]
  | S N' => fun l => rm_go (rm N') l 0%Z
  end.

Lemma rm_go_In {A} (f : A -> list (list Z * V)) l : forall i ix v,
  In (ix, v) (rm_go f l i) <-> exists j x ix', ix = (i + Z.of_nat j)%Z :: ix' /\ nth_error l j = Some x /\ In (ix', v) (f x).
Proof.
  induction l as [|x l IH]; intros i ix v; cbn [rm_go].
  - split; [intros []|]. intros (j & x & ix' & _ & H & _). destruct j; discriminate.
  - rewrite in_app_iff, in_map_iff, IH. split.
    + intros [((ix' & v') & E & H)|(j & y & ix' & E & H1 & H2)].
      * simpl in E. inv E. exists 0%nat, x, ix'. rewrite Z.add_0_r. auto.
      * exists (S j), y, ix'. subst. split; [f_equal; lia|]. auto.
    + intros (j & y & ix' & E & H1 & H2). destruct j as [|j].
      * left. simpl in H1. inv H1. exists (ix', v). simpl. rewrite Z.add_0_r. auto.
      * right. exists j, y, ix'. subst. split; [f_equal; lia|]. auto.
Qed.

Lemma nested_at_cons N i ix (l : list (nested N)) :
  nested_at (S N) (i :: ix) l = match nth_error l (Z.to_nat i) with Some x => nested_at N ix x | None => None end.
Proof. reflexivity. Qed.

Lemma rect_cons N e es (l : list (nested N)) :
  rect (S N) (e :: es) l <-> (0 < e)%Z /\ Z.of_nat (length l) = e /\ Forall (rect N es) l.
Proof. split; intros H; exact H. Qed.

Lemma rm_In N : forall es l, rect N es l -> forall ix v, In (ix, v) (rm N l) <-> in_range es ix /\ nested_at N ix l = Some v.
Proof.
  induction N as [|N IH]; intros es l Hr ix v.
  - simpl in *. subst es. split.
    + intros [E|[]]. inv E. split; auto. constructor.
    + intros [H E]. inv H. inv E. auto.
  - destruct es as [|e es]; [destruct Hr|]. change (list (nested N)) in l; destruct (proj1 (rect_cons N e es l) Hr) as (He & Hl & HF); clear Hr. cbn [rm]. change (list (nested N)) in l. rewrite rm_go_In. rewrite Forall_forall in HF. split.
    + intros (j & x & ix' & -> & Hn & Hin). rewrite Z.add_0_l. assert (Hrx := HF x (nth_error_In _ _ Hn)).
      apply (IH es x Hrx) in Hin as [Hr Hv]. split.
      * constructor; auto. assert (j < length l)%nat by (exact (nth_error_lt _ _ _ Hn)). lia.
      * rewrite nested_at_cons, Nat2Z.id, Hn. auto.
    + intros [Hr Hv]. inversion Hr as [|? i ? ix' Hi Hr']; subst. rewrite nested_at_cons in Hv. destruct (nth_error l (Z.to_nat i)) as [x|] eqn:E; [|discriminate].
      exists (Z.to_nat i), x, ix'. split; [f_equal; lia|]. split; auto. apply (IH es x); auto. apply HF. eapply nth_error_In; eauto.
Qed.

Lemma NoDup_map_inj {A B} (f : A -> B) l : NoDup l -> (forall x y, In x l -> In y l -> f x = f y -> x = y) -> NoDup (map f l).
Proof.
  induction 1 as [|x l Hx Hl IH]; intros Hf; simpl; constructor.
  - intros H. apply in_map_iff in H as (y & E & Hy). apply Hx. rewrite (Hf x y); simpl; auto.
  - apply IH. intros; apply Hf; simpl; auto.
Qed.
Lemma NoDup_app_intro {A} (l l' : list A) : NoDup l -> NoDup l' -> (forall x, In x l -> ~ In x l') -> NoDup (l ++ l').
Proof.
  induction 1 as [|x l Hx Hl IH]; intros H' Hd; simpl; auto. constructor.
  - rewrite in_app_iff. intros [H|H]; auto. apply (Hd x); simpl; auto.
  - apply IH; auto. intros y Hy. apply Hd. simpl; auto.
Qed.

Lemma rm_go_NoDup {A} (f : A -> list (list Z * V)) l : (forall x, In x l -> NoDup (map fst (f x))) -> forall i, NoDup (map fst (rm_go f l i)).
Proof.
  induction l as [|x l IH]; intros Hf i; cbn [rm_go]; [constructor|]. rewrite map_app, map_map. cbn [fst]. apply NoDup_app_intro.
  - rewrite <- (map_map fst (cons i)). apply NoDup_map_inj; [apply Hf; simpl; auto|]. intros a b _ _ E. inv E. auto.
  - apply IH. intros; apply Hf; simpl; auto.
  - intros ix Hix H. apply in_map_iff in Hix as (p & <- & _). apply in_map_iff in H as ((ix', v) & E & H). simpl in E. subst ix'.
    apply rm_go_In in H as (j & ? & ? & E & _). inv E. lia.
Qed.
Lemma rm_NoDup N : forall l, NoDup (map fst (rm N l)).
Proof.
  induction N as [|N IH]; intros l; cbn [rm].
  - repeat constructor. intros [].
  - apply rm_go_NoDup. auto.
Qed.

Lemma visit_rm N : forall es ix l, rect N es l -> visit N es ix l = Some (map (fun p => (ix ++ fst p, snd p)) (rm N l)).
Proof.
  induction N as [|N IH]; intros es ix l Hr.
  - cbn [visit rm map fst snd]. rewrite app_nil_r. reflexivity.
  - destruct es as [|e es]; [destruct Hr|]. change (list (nested N)) in l; destruct (proj1 (rect_cons N e es l) Hr) as (He & Hl & HF); clear Hr. cbn [visit rm hd tl].
    subst e. rewrite Nat2Z.id. clear He.
    assert (H : forall l i, Forall (rect N es) l ->
      (fix go (l : list (nested N)) (i : Z) (n : nat) : option (list (list Z * V)) :=
        match n with
        | O => Some []
        | S n' => match l with
                  | [] => None
                  | x :: l' =>
                      match visit N es (ix ++ [i]) x, go l' (i + 1)%Z n' with
                      | Some a, Some b => Some (a ++ b)
                      | _, _ => None
                      end
                  end
        end) l i (length l) = Some (map (fun p => (ix ++ fst p, snd p)) (rm_go (rm N) l i))).
    { clear l HF. induction l as [|x l IHl]; intros i HF; [reflexivity|]. inv HF. cbn [length rm_go]. rewrite IH by auto. rewrite IHl by auto.
      rewrite map_app, !map_map. cbn [fst snd]. f_equal. f_equal. apply map_ext. intros [a b]. cbn [fst snd]. rewrite <- app_assoc. reflexivity. }
    apply H. auto.
Qed.

Lemma massert_ok chk c (w : world) : c = true -> massert chk c w = (ROk tt, w).
Proof. unfold massert. intros ->. rewrite andb_false_r. reflexivity. Qed.

Lemma desc_fill_ok chk N : forall es l (w : world), rect N es l -> desc_fill chk N l w = (ROk es, w).
Proof.
  induction N as [|N IH]; intros es l w Hr.
  - simpl in Hr. subst. reflexivity.
  - destruct es as [|e es]; [destruct Hr|]. change (list (nested N)) in l; destruct (proj1 (rect_cons N e es l) Hr) as (He & Hl & HF); clear Hr. cbn [desc_fill]. destruct l as [|x l]; [simpl in Hl; lia|].
    inv HF. unfold bind at 1, massert. cbn [length Nat.eqb negb andb]. rewrite andb_false_r.
    rewrite (bind_ret _ _ _ _ _ (IH es x w ltac:(auto))). reflexivity.
Qed.

Lemma desc_check_ok N : forall es (l : nested N), rect N es l -> desc_check N es l = true.
Proof.
  induction N as [|N IH]; intros es l Hr; [reflexivity|].
  destruct es as [|e es]; [destruct Hr|]. change (list (nested N)) in l; destruct (proj1 (rect_cons N e es l) Hr) as (He & Hl & HF); clear Hr. cbn [desc_check hd tl].
  apply andb_true_iff. split; [apply Z.eqb_eq; auto|]. apply forallb_forall. intros x Hx. apply IH. rewrite Forall_forall in HF. auto.
Qed.

(** ** writing the elements: cells as an association of positions *)
Fixpoint assoc (ws : list (nat * V)) (i : nat) : option V :=
  match ws with
  | [] => None
  | (j, v) :: ws' => if Nat.eqb j i then Some v else assoc ws' i
  end.
Definition content (n : nat) (ws : list (nat * V)) (c : list (option V)) : Prop :=
  length c = n /\ forall i, (i < n)%nat -> nth_error c i = Some (assoc ws i).

Lemma content_nil n c : content n [] c -> c = repeat None n.
Proof.
  intros [Hl H]. apply nth_error_ext. intros i. destruct (Nat.lt_ge_cases i n) as [Hi|Hi].
  - rewrite H by auto. symmetry. simpl. rewrite nth_error_repeat by auto. reflexivity.
  - rewrite (proj2 (nth_error_None c i)) by lia. symmetry. apply nth_error_None. rewrite repeat_length. auto.
Qed.
Lemma content_repeat n : content n [] (repeat None n).
Proof. split; [apply repeat_length|]. intros i Hi. simpl. apply nth_error_repeat. auto. Qed.
Lemma assoc_app ws ws' i : assoc (ws ++ ws') i = match assoc ws i with Some v => Some v | None => assoc ws' i end.
Proof. induction ws as [|[j v] ws IH]; simpl; auto. destruct (Nat.eqb j i); auto. Qed.
Lemma assoc_notin ws i : ~ In i (map fst ws) -> assoc ws i = None.
Proof.
  induction ws as [|[j v] ws IH]; simpl; auto. intros H. destruct (Nat.eqb_spec j i); [subst; exfalso; auto|]. auto.
Qed.
Lemma assoc_In ws i v : NoDup (map fst ws) -> In (i, v) ws -> assoc ws i = Some v.
Proof.
  induction ws as [|[j u] ws IH]; simpl; [intros _ []|]. intros Hnd [E|Hin].
  - inv E. rewrite Nat.eqb_refl. auto.
  - inv Hnd. destruct (Nat.eqb_spec j i); auto. subst. exfalso. apply H1. apply in_map_iff. exists (i, v). auto.
Qed.

Lemma content_add n ws c i v : content n ws c -> (i < n)%nat -> ~ In i (map fst ws) ->
  nth_error c i = Some None /\ content n (ws ++ [(i, v)]) (upd_nat c i (Some v)).
Proof.
  intros [Hl H] Hi Hn. split; [rewrite H by auto; rewrite assoc_notin; auto|]. split; [rewrite upd_nat_length; auto|].
  intros k Hk. rewrite assoc_app. simpl. destruct (Nat.eqb_spec i k).
  - subst. rewrite nth_error_upd_eq by lia. rewrite assoc_notin by auto. reflexivity.
  - rewrite nth_error_upd_ne by auto. rewrite H by auto. destruct (assoc ws k); auto.
Qed.
Lemma content_del n ws c i v : content n ((i, v) :: ws) c -> (i < n)%nat -> ~ In i (map fst ws) ->
  nth_error c i = Some (Some v) /\ content n ws (upd_nat c i None).
Proof.
  intros [Hl H] Hi Hn. split.
  - rewrite H by auto. simpl. rewrite Nat.eqb_refl. auto.
  - split; [rewrite upd_nat_length; auto|]. intros k Hk. destruct (Nat.eq_dec i k) as [->|Hne].
    + rewrite nth_error_upd_eq by lia. rewrite assoc_notin; auto.
    + rewrite nth_error_upd_ne by auto. rewrite H by auto. simpl. destruct (Nat.eqb_spec i k); congruence.
Qed.

Definition pos (es : list Z) (p : list Z * V) : nat * V := (Z.to_nat (desc_at es (fst p)), snd p).

Lemma destroy_list_spec es b n all : forall cnt bs k c, blk bs b c -> content n (map (pos es) (firstn cnt all)) c ->
  (cnt <= length all)%nat -> NoDup (map fst (map (pos es) all)) -> Forall (fun p => (fst (pos es p) < n)%nat) all ->
  destroy_list (Some b) es all cnt (World bs k) = (ROk tt, World (upd_nat bs b (Some (repeat None n))) k).
Proof.
  induction all as [|[ix v] all IH]; intros cnt bs k c Hb Hc Hle Hnd Hlt.
  - destruct cnt; [|simpl in Hle; lia]. cbn [destroy_list]. unfold ret. apply content_nil in Hc. subst c. rewrite upd_same; auto.
  - destruct cnt as [|cnt].
    + cbn [destroy_list]. unfold ret. apply content_nil in Hc. subst c. rewrite upd_same; auto.
    + cbn [destroy_list firstn map] in *. unfold pos in Hc at 1. cbn [fst snd] in Hc. inv Hnd. inv Hlt. cbn [pos fst snd] in *.
      set (i := Z.to_nat (desc_at es ix)) in *.
      destruct (content_del _ _ _ _ _ Hc) as [Hn Hc']; auto.
      { intros Hin. apply H1. apply in_map_iff in Hin as (q & E & Hq). rewrite <- E. apply in_map. apply in_map_iff in Hq as (q' & <- & Hq').
        apply in_map. clear -Hq'. revert cnt Hq'. induction all; intros [|cnt] H; simpl in *; try tauto. destruct H; auto. right. eauto. }
      assert (E : destroy_at (Some b) i (World bs k) = (ROk tt, World (upd_nat bs b (Some (upd_nat c i None))) k)).
      { unfold destroy_at. rewrite (blk_cells _ _ _ _ Hb), Hn. reflexivity. }
      rewrite (bind_ret _ _ _ _ _ E). rewrite (IH cnt _ k (upd_nat c i None)); auto.
      * rewrite upd_upd. reflexivity.
      * eapply blk_upd; eauto.
      * simpl in Hle. lia.
Qed.

Lemma construct_rec_spec es b n all : NoDup (map fst (map (pos es) all)) -> Forall (fun p => (fst (pos es p) < n)%nat) all ->
  forall rest done bs k c, all = done ++ rest -> blk bs b c -> content n (map (pos es) done) c ->
  (exists k' c', construct_rec thr nt (Some b) es all rest (length done) (World bs k) = (ROk tt, World (upd_nat bs b (Some c')) k') /\ content n (map (pos es) all) c') \/
  (nt = false /\ exists k', construct_rec thr nt (Some b) es all rest (length done) (World bs k) = (RThrow, World (upd_nat bs b (Some (repeat None n))) k')).
Proof.
  intros Hnd Hlt. induction rest as [|[ix v] rest IH]; intros done bs k c Hall Hb Hc.
  - left. exists k, c. cbn [construct_rec]. unfold ret. rewrite upd_same by auto. rewrite app_nil_r in Hall. subst. auto.
  - cbn [construct_rec]. set (i := Z.to_nat (desc_at es ix)) in *.
    assert (Hi : (i < n)%nat). { rewrite Forall_forall in Hlt. apply (Hlt (ix, v)). rewrite Hall. apply in_or_app. right. left. auto. }
    assert (Hni : ~ In i (map fst (map (pos es) done))).
    { rewrite Hall, !map_app in Hnd. cbn [map] in Hnd. apply NoDup_remove_2 in Hnd. intros H. apply Hnd. apply in_or_app. left. exact H. }
    destruct (content_add n _ c i v Hc Hi Hni) as [Hn Hc'].
    assert (Hca : (exists k', construct_at thr nt (Some b) i v (World bs k) = (ROk tt, World (upd_nat bs b (Some (upd_nat c i (Some v)))) k')) \/
                  (nt = false /\ exists k', construct_at thr nt (Some b) i v (World bs k) = (RThrow, World bs k'))).
    { unfold construct_at, bind, tick. cbn [clock blocks]. destruct (negb nt && thr k) eqn:E.
      - right. split; [destruct nt; auto; discriminate|eauto].
      - left. rewrite (blk_cells _ _ _ _ Hb), Hn. unfold set_cells. simpl. eauto. }
    destruct Hca as [(k1 & E1)|(Hf & k1 & E1)].
    + rewrite (bind_ret _ _ _ _ _ (on_throw_ok _ _ _ _ _ E1)).
      specialize (IH (done ++ [(ix, v)]) (upd_nat bs b (Some (upd_nat c i (Some v)))) k1 (upd_nat c i (Some v))).
      rewrite app_length, Nat.add_1_r in IH. destruct IH as [(k2 & c2 & E2 & Hc2)|(Hf & k2 & E2)].
      * rewrite <- app_assoc. auto.
      * eapply blk_upd; eauto.
      * rewrite map_app. exact Hc'.
      * left. exists k2, c2. rewrite E2, upd_upd. auto.
      * right. split; auto. exists k2. rewrite E2, upd_upd. reflexivity.
    + right. split; auto. exists k1. apply bind_thr. eapply on_throw_thr; [exact E1|].
      eapply (destroy_list_spec es b n all (length done)); eauto.
      * rewrite Hall. rewrite firstn_app, firstn_all, Nat.sub_diag, firstn_O, app_nil_r. auto.
      * rewrite Hall, app_length. lia.
Qed.

(** the elements in column-major order *)
Definition list_vals (N : nat) (es : list Z) (l : nested N) : list V :=
  flat_map (fun ix => match nested_at N ix l with Some v => [v] | None => [] end) (colmajor es).

Lemma nested_at_some N : forall es (l : nested N) ix, rect N es l -> in_range es ix -> exists v, nested_at N ix l = Some v.
Proof.
  induction N as [|N IH]; intros es l ix Hr Hix; [exists l; reflexivity|].
  destruct es as [|e es]; [destruct Hr|]. change (list (nested N)) in l; destruct (proj1 (rect_cons N e es l) Hr) as (He & Hl & HF); clear Hr. inversion Hix as [|? i ? ix' Hi Hix']; subst. change (list (nested N)) in l. rewrite nested_at_cons.
  destruct (nth_error l (Z.to_nat i)) as [x|] eqn:E.
  - apply (IH es); auto. rewrite Forall_forall in HF. apply HF. eapply nth_error_In; eauto.
  - apply nth_error_None in E. lia.
Qed.

Lemma flat_map_some {A B} (f : A -> option B) l : (forall a, In a l -> f a <> None) ->
  map Some (flat_map (fun a => match f a with Some v => [v] | None => [] end) l) = map f l.
Proof.
  induction l as [|a l IH]; intros H; [reflexivity|]. cbn [flat_map map]. rewrite map_app, IH by (intros; apply H; right; auto).
  specialize (H a (or_introl eq_refl)). destruct (f a); [reflexivity|congruence].
Qed.

Lemma list_vals_some N es l : rect N es l -> map Some (list_vals N es l) = map (fun ix => nested_at N ix l) (colmajor es).
Proof.
  intros Hr. unfold list_vals. apply (flat_map_some (fun ix => nested_at N ix l)). intros ix Hix. apply in_colmajor in Hix.
  destruct (nested_at_some N es l ix Hr Hix) as (v & ->). discriminate.
Qed.

Lemma rect_pos N : forall es (l : nested N), rect N es l -> all_pos es /\ length es = N.
Proof.
  induction N as [|N IH]; intros es l Hr.
  - simpl in Hr. subst. split; [constructor|auto].
  - destruct es as [|e es]; [destruct Hr|]. change (list (nested N)) in l; destruct (proj1 (rect_cons N e es l) Hr) as (He & Hl & HF); clear Hr. destruct l as [|x l]; [simpl in Hl; lia|].
    inv HF. destruct (IH es x); auto. split; [constructor; auto|simpl; lia].
Qed.

Lemma nth_colmajor es ix : all_nonneg es -> in_range es ix -> nth_error (colmajor es) (Z.to_nat (cm_pos es ix)) = Some ix.
Proof.
  intros Hnn Hix. pose proof (cm_pos_range _ _ Hix) as Hr.
  assert (Hin : In ix (colmajor es)) by (apply in_colmajor; auto). apply In_nth_error in Hin as (j & Hj).
  assert (E : nth_error (map (cm_pos es) (colmajor es)) j = Some (cm_pos es ix)) by (rewrite nth_error_map, Hj; reflexivity).
  rewrite cm_pos_colmajor in E by auto. unfold iota in E. rewrite nth_error_map in E.
  destruct (nth_error (seq 0 (Z.to_nat (zprod es))) j) as [q|] eqn:Eq; [|discriminate]. cbn [option_map] in E.
  pose proof (nth_error_lt _ _ _ Eq) as Hj'. rewrite seq_length in Hj'.
  assert (q = j). { rewrite (nth_error_nth' _ 0%nat) in Eq by (rewrite seq_length; auto). rewrite seq_nth in Eq by auto. inv Eq. auto. }
  subst q. replace (cm_pos es ix) with (Z.of_nat j) by congruence. rewrite Nat2Z.id. exact Hj.
Qed.

Lemma content_final N es (l : nested N) c : (1 <= N)%nat -> rect N es l -> (zprod es < W)%Z ->
  content (Z.to_nat (zprod es)) (map (pos es) (rm N l)) c -> NoDup (map fst (map (pos es) (rm N l))) -> c = map Some (list_vals N es l).
Proof.
  intros HN Hr HW [Hl H] Hnd. destruct (rect_pos N es l Hr) as [Hp Hlen]. assert (Hnn := all_pos_nonneg _ Hp).
  rewrite (list_vals_some N es l Hr).
  assert (Hlm : length (colmajor es) = Z.to_nat (zprod es)).
  { rewrite <- (map_length (cm_pos es)), cm_pos_colmajor, iota_length; auto. }
  apply nth_error_ext. intros i. destruct (Nat.lt_ge_cases i (Z.to_nat (zprod es))) as [Hi|Hi].
  - rewrite H by auto. rewrite nth_error_map.
    destruct (nth_error (colmajor es) i) as [ix|] eqn:E; [|apply nth_error_None in E; lia].
    assert (Hix : in_range es ix) by (apply in_colmajor; eapply nth_error_In; eauto).
    destruct (nested_at_some N es l ix Hr Hix) as (v & Ev). cbn [option_map]. rewrite Ev. f_equal.
    apply assoc_In; auto. apply in_map_iff. exists (ix, v). split; [|apply (rm_In N es); auto].
    unfold pos. cbn [fst snd]. f_equal. rewrite desc_at_ok; auto; [|intros ->; simpl in Hlen; lia|lia].
    assert (E2 : nth_error (map (cm_pos es) (colmajor es)) i = Some (cm_pos es ix)) by (rewrite nth_error_map, E; reflexivity).
    rewrite cm_pos_colmajor in E2 by auto. unfold iota in E2. rewrite (nth_error_nth' _ 0%Z) in E2 by (rewrite map_length, seq_length; auto).
    change 0%Z with (Z.of_nat 0) in E2. rewrite map_nth, seq_nth in E2 by auto. injection E2. lia.
  - rewrite (proj2 (nth_error_None c i)) by lia. symmetry. apply nth_error_None. rewrite map_length. lia.
Qed.

Lemma pos_NoDup N es (l : nested N) : (1 <= N)%nat -> rect N es l -> (zprod es < W)%Z -> NoDup (map fst (map (pos es) (rm N l))).
Proof.
  intros HN Hr HW. rewrite map_map. unfold pos. cbn [fst].
  rewrite <- (map_map fst (fun ix => Z.to_nat (desc_at es ix))). destruct (rect_pos N es l Hr) as [Hp Hlen].
  assert (Hin : forall ix, In ix (map fst (rm N l)) -> in_range es ix).
  { intros ix H. apply in_map_iff in H as ((ix', v) & <- & H). apply (rm_In N es l Hr) in H. tauto. }
  apply NoDup_map_inj; [apply rm_NoDup|]. intros x y Hx Hy E. apply Hin in Hx, Hy.
  assert (es <> []) by (intros ->; simpl in Hlen; lia).
  rewrite !desc_at_ok in E by (auto; lia). pose proof (cm_pos_range _ _ Hx). pose proof (cm_pos_range _ _ Hy). apply (cm_pos_inj es); auto. lia.
Qed.

Lemma pos_lt N es (l : nested N) : (1 <= N)%nat -> rect N es l -> (zprod es < W)%Z ->
  Forall (fun p => (fst (pos es p) < Z.to_nat (zprod es))%nat) (rm N l).
Proof.
  intros HN Hr HW. apply Forall_forall. intros (ix & v) H. apply (rm_In N es l Hr) in H as [H _]. unfold pos. cbn [fst].
  destruct (rect_pos N es l Hr) as [Hp Hlen]. rewrite desc_at_ok by (auto; try lia; intros ->; simpl in Hlen; lia).
  pose proof (cm_pos_range _ _ H). lia.
Qed.

Lemma rect_fits N es (l : nested N) : (1 <= N)%nat -> rect N es l -> (zprod es < W)%Z -> fits es.
Proof.
  intros HN Hr HW. destruct (rect_pos N es l Hr) as [Hp Hlen]. split; [intros ->; simpl in Hlen; lia|]. split; [apply all_pos_nonneg; auto|auto].
Qed.

Lemma ctor_list_spec chk N es (l : nested N) (w : world) : (1 <= N)%nat -> rect N es l -> (zprod es < W)%Z ->
  (exists k', ctor_list thr nt chk N l w = (ROk (Arr (Some (length (blocks w))) es), World (blocks w ++ [Some (map Some (list_vals N es l))]) k')) \/
  (exists k', ctor_list thr nt chk N l w = (RThrow, World (blocks w) k')) \/
  (nt = false /\ exists k', ctor_list thr nt chk N l w = (RThrow, World (blocks w ++ [None]) k')).
Proof.
  intros HN Hr HW. unfold ctor_list. rewrite (bind_ret _ _ _ _ _ (desc_fill_ok chk N es l w Hr)).
  rewrite (bind_ret _ _ _ _ _ (massert_ok chk _ w (desc_check_ok N es l Hr))).
  rewrite (size_of_fits es (rect_fits N es l HN Hr HW)). rewrite (visit_rm N es [] l Hr).
  replace (map (fun p => ([] ++ fst p, snd p)) (rm N l)) with (rm N l).
  2:{ rewrite <- (map_id (rm N l)) at 1. apply map_ext. intros [? ?]; reflexivity. }
  destruct w as [bs k]. cbn [blocks]. set (n := Z.to_nat (zprod es)).
  destruct (allocate_spec thr bs k n) as [(k1 & E1)|(k1 & E1)].
  2:{ right; left. exists k1. apply bind_thr. auto. }
  rewrite !(bind_ret _ _ _ _ _ E1).
  assert (Hb : blk (bs ++ [Some (repeat None n)]) (length bs) (repeat None n)) by (unfold blk; apply nth_error_app_mid).
  destruct (construct_rec_spec es (length bs) n (rm N l) (pos_NoDup N es l HN Hr HW) (pos_lt N es l HN Hr HW) (rm N l) []
     _ k1 (repeat None n) eq_refl Hb (content_repeat n)) as [(k2 & c & E2 & Hc)|(Hf & k2 & E2)].
  - left. exists k2. rewrite (content_final N es l c HN Hr HW Hc (pos_NoDup N es l HN Hr HW)) in E2.
    cbn [length] in E2. rewrite (bind_ret _ _ _ _ _ (on_throw_ok _ _ _ _ _ (noexcept_ok nt _ _ _ _ E2))). rewrite upd_app_last. reflexivity.
  - right; right. split; auto. exists k2. cbn [length] in E2. apply bind_thr. eapply on_throw_thr.
    + rewrite Hf in *. apply noexcept_thr. exact E2.
    + rewrite (deallocate_spec _ _ _ n) by (eapply blk_upd; eauto). rewrite upd_upd, upd_app_last. reflexivity.
Qed.

(** C14, rejection: a checked build stops on every list that is not rectangular or has an empty level. *)
Lemma desc_fill_check N : forall (l : nested N) (w : world),
  (exists es, desc_fill true N l w = (ROk es, w) /\ all_pos es /\ length es = N) \/ desc_fill true N l w = (RAbort, w).
Proof.
  induction N as [|N IH]; intros l w.
  - left. exists []. repeat split. constructor.
  - change (list (nested N)) in l. cbn [desc_fill]. destruct l as [|x l].
    + right. reflexivity.
    + unfold bind at 1 3, massert. cbn [length Nat.eqb negb andb]. destruct (IH x w) as [(es & E & Hp & Hl)|E].
      * left. exists (Z.of_nat (S (length l)) :: es). rewrite (bind_ret _ _ _ _ _ E). split; [reflexivity|].
        split; [constructor; auto; lia|simpl; lia].
      * right. unfold bind. rewrite E. reflexivity.
Qed.

Lemma desc_check_rect N : forall es (l : nested N), length es = N -> all_pos es -> desc_check N es l = true -> rect N es l.
Proof.
  induction N as [|N IH]; intros es l Hl Hp Hc.
  - destruct es; [reflexivity|discriminate].
  - destruct es as [|e es]; [discriminate|]. change (list (nested N)) in l. apply (rect_cons N e es l). cbn [desc_check hd tl] in Hc.
    apply andb_true_iff in Hc as [Hc1 Hc2]. apply Z.eqb_eq in Hc1. assert (0 < e)%Z by (inv Hp; auto). assert (all_pos es) by (inv Hp; auto).
    split; [auto|]. split; [exact Hc1|].
    rewrite forallb_forall in Hc2. apply Forall_forall. intros x Hx. apply IH; auto. 
Qed.

Lemma ctor_list_rejects N (l : nested N) (w : world) : (forall es, ~ rect N es l) -> exists w', ctor_list thr nt true N l w = (RAbort, w').
Proof.
  intros Hn. unfold ctor_list. destruct (desc_fill_check N l w) as [(es & E & Hp & Hl)|E].
  - rewrite (bind_ret _ _ _ _ _ E). destruct (desc_check N es l) eqn:Ec.
    + exfalso. apply (Hn es). apply desc_check_rect; auto.
    + exists w. reflexivity.
  - exists w. unfold bind. rewrite E. reflexivity.
Qed.

End LL.
