(** * PropIdxView: C65, views by an index container: which follow the container and which do not. *)

From Coq Require Import ZArith List Bool Lia.
From Verif Require Import Base Spec Desc Slice SliceSpec Lemmas RunProofs ViewThms PropView IdxView.
Import ListNotations.
Open Scope Z_scope.

(** A later program on the containers. *)
Definition later (cs : list icmd) (bs : bufs) : outcome bufs := foldO (fun bs c => iexec c bs) cs bs.

Lemma nth_upd {A} : forall (l : list A) i j v, nth_error (upd_nat l i v) j = if Nat.eqb i j then match nth_error l j with Some _ => Some v | None => None end else nth_error l j.
Proof. induction l as [|a l IH]; intros [|i] [|j] v; cbn; auto; try (destruct (Nat.eqb i j); reflexivity). Qed.
Lemma len_upd {A} : forall (l : list A) i v, length (upd_nat l i v) = length l.
Proof. induction l as [|a l IH]; intros [|i] v; cbn; auto. Qed.

Lemma later_keeps : forall cs bs bs' b l, later cs bs = Ok bs' -> nth_error bs b = Some (Some l) -> ~ In (CFree b) cs ->
  exists l', nth_error bs' b = Some (Some l') /\ length l' = length l.
Proof.
  induction cs as [|c cs IH]; intros bs bs' b l H Hb Hn; cbn in H; [injection H as <-; eauto|].
  destruct (iexec c bs) as [bs1| | | |] eqn:E; try discriminate H. cbn in H.
  assert (exists l1, nth_error bs1 b = Some (Some l1) /\ length l1 = length l) as (l1 & Hb1 & L1).
  { destruct c as [b0 k x|b0|l0]; cbn [iexec] in E.
    - destruct (nth_error bs b0) as [[l0|]|] eqn:E0; try discriminate E. destruct (Nat.ltb k (length l0)); [|discriminate E]. injection E as <-.
      rewrite nth_upd. destruct (Nat.eqb_spec b0 b) as [->|Hne]; [|eauto]. rewrite Hb. eexists. split; [reflexivity|].
      rewrite len_upd. rewrite Hb in E0. injection E0 as ->. reflexivity.
    - destruct (nth_error bs b0) as [[l0|]|] eqn:E0; try discriminate E. injection E as <-. rewrite nth_upd.
      destruct (Nat.eqb_spec b0 b) as [->|Hne]; [|eauto]. destruct Hn. left. reflexivity.
    - injection E as <-. rewrite nth_error_app1; [eauto|]. apply nth_error_Some. rewrite Hb. discriminate. }
  destruct (IH bs1 bs' b l1 H Hb1 (fun h => Hn (or_intror h))) as (l' & A & B). exists l'. split; [auto|lia].
Qed.

Lemma later_dead : forall cs bs bs' b, later cs bs = Ok bs' -> nth_error bs b = Some None -> nth_error bs' b = Some None.
Proof.
  induction cs as [|c cs IH]; intros bs bs' b H Hb; cbn in H; [injection H as <-; auto|].
  destruct (iexec c bs) as [bs1| | | |] eqn:E; try discriminate H. cbn in H. apply (IH bs1 bs' b H).
  destruct c as [b0 k x|b0|l0]; cbn [iexec] in E.
  - destruct (nth_error bs b0) as [[l0|]|] eqn:E0; try discriminate E. destruct (Nat.ltb k (length l0)); [|discriminate E]. injection E as <-.
    rewrite nth_upd. destruct (Nat.eqb_spec b0 b) as [->|Hne]; [congruence|auto].
  - destruct (nth_error bs b0) as [[l0|]|] eqn:E0; try discriminate E. injection E as <-. rewrite nth_upd.
    destruct (Nat.eqb_spec b0 b) as [->|Hne]; [congruence|auto].
  - injection E as <-. rewrite nth_error_app1; [auto|]. apply nth_error_Some. rewrite Hb. discriminate.
Qed.

Lemma later_freed : forall cs bs bs' b, later cs bs = Ok bs' -> In (CFree b) cs -> nth_error bs' b = Some None.
Proof.
  induction cs as [|c cs IH]; intros bs bs' b H Hin; [destruct Hin|]. cbn in H.
  destruct (iexec c bs) as [bs1| | | |] eqn:E; try discriminate H. cbn in H. destruct Hin as [->|Hin]; [|eauto].
  cbn [iexec] in E. destruct (nth_error bs b) as [[l|]|] eqn:E0; try discriminate E. injection E as <-.
  apply (later_dead cs _ bs' b H). rewrite nth_upd, Nat.eqb_refl, E0. reflexivity.
Qed.

Lemma max_idx_lt l n : 0 < n -> Forall (fun i => 0 <= i < n) l -> max_idx l < n.
Proof.
  intros Hn H. unfold max_idx. assert (G : forall l acc, acc < n -> Forall (fun i => 0 <= i < n) l -> fold_left (fun acc x => if acc <? x then x else acc) l acc < n).
  { clear. induction l as [|a l IH]; intros acc Ha Hl; cbn; auto. inversion Hl; subst. apply IH; auto. destruct (acc <? a); lia. }
  apply G; auto.
Qed.

(** [auto v = a[idx]] for a contiguous one-dimensional array [a] of length [n] and a container of [index_t] whose iterators are pointers.
    [v] is a view of the elements of [a] at the *current* elements of the container, after any later program that does not release the
    container's buffer; after a release every use of it is undefined. *)
Theorem index_container_followed : forall chk fuel bs off n b l, 0 < n -> buf bs b = Ok l -> Forall (fun i => 0 <= i < n) l ->
  Z.of_nat (length l) < W ->
  exists v, isubs chk fuel bs (IV (SRef off [n])) [ARng (KRefer b)] = Ok v /\
    isubs chk fuel bs v [APlain UEvery] = Ok v /\
    forall cs bs', later cs bs = Ok bs' ->
    (~ In (CFree b) cs -> exists l' s, buf bs' b = Ok l' /\ length l' = length l /\ current bs' v = Ok s /\
       dims s = Some [Z.of_nat (length l)] /\ positions fuel s = Ok (map (fun i => off + i) l') /\
       forall i, 0 <= i < Z.of_nat (length l) -> run chk fuel s [UIdx i] = Ok (SElem (off + nth (Z.to_nat i) l' 0))) /\
    (In (CFree b) cs -> current bs' v = UB).
Proof.
  intros chk fuel bs off n b l Hn Hb Hl HW. exists (IB off b (length l)).
  assert (Hnb : nth_error bs b = Some (Some l)). { unfold buf in Hb. destruct (nth_error bs b) as [[x|]|]; congruence. }
  split.
  - cbn [isubs]. rewrite Hb. cbn [bindO run foldO op_index ref_index length Nat.eqb hd].
    pose proof (max_idx_lt l n Hn Hl) as Hm. apply Z.ltb_lt in Hm. rewrite Hm. unfold dassert at 1. rewrite andb_false_r. cbn [bindO].
    unfold mk_vec. cbn [sd_infer bindO]. unfold dassert. unfold sd_size. cbn [sd_exts].
    rewrite Z.eqb_refl. cbn [negb]. rewrite andb_false_r. reflexivity.
  - split; [reflexivity|]. intros cs bs' H. split.
    + intros Hn'. destruct (later_keeps cs bs bs' b l H Hnb Hn') as (l' & A & L).
      exists l', (SView off (MVec (SD 0 [Z.of_nat (length l)] [1]) l')). assert (Hb' : buf bs' b = Ok l') by (unfold buf; rewrite A; reflexivity).
      split; [exact Hb'|]. split; [exact L|]. split.
      { cbn [current]. rewrite Hb'. cbn [bindO]. rewrite <- L, Nat.leb_refl, firstn_all. reflexivity. }
      split; [reflexivity|]. split; [reflexivity|]. intros i Hi.
      cbn [run foldO op_index view_index m_desc sd_exts hd length Nat.eqb bindO].
      replace (i <? Z.of_nat (length l)) with true by (symmetry; apply Z.ltb_lt; lia). unfold dassert at 1. rewrite andb_false_r. cbn [bindO].
      assert (Hat : sd_at (SD 0 [Z.of_nat (length l)] [1]) [i] = i). { cbn. unfold w64. rewrite Z.mul_1_r, !Z.mod_small; rewrite ?Z.mod_small; lia. }
      rewrite Hat. unfold m_map. replace (i <? Z.of_nat (length l')) with true by (symmetry; apply Z.ltb_lt; lia).
      unfold dassert. rewrite andb_false_r. cbn [bindO]. unfold get.
      replace ((0 <=? i) && (i <? Z.of_nat (length l'))) with true by (symmetry; apply andb_true_intro; split; [apply Z.leb_le|apply Z.ltb_lt]; lia).
      rewrite (nth_error_nth' l' 0) by lia. reflexivity.
    + intros Hf. cbn [current]. unfold buf. rewrite (later_freed cs bs bs' b H Hf). reflexivity.
Qed.
Print Assumptions index_container_followed.

(** No check is made when the container changes: in a checked build, [v[0]] of a 3-element array reads element 7. *)
Theorem index_container_unchecked_refuted : exists bs n v bs' s p, later [CSet 0 0 7] bs = Ok bs' /\
  isubs true 9 bs (IV (SRef 0 [n])) [ARng (KRefer 0)] = Ok v /\ (exists s0, current bs v = Ok s0 /\ run true 9 s0 [UIdx 0] = Ok (SElem 2)) /\
  current bs' v = Ok s /\ run true 9 s [UIdx 0] = Ok (SElem p) /\ n <= p.
Proof.
  exists [Some [2; 0]], 3, (IB 0 0 2), [Some [7; 0]]. eexists. exists 7. repeat split; try reflexivity; [|lia]. eexists. split; reflexivity.
Qed.
Print Assumptions index_container_unchecked_refuted.

(** A temporary container: [auto v = a[std::vector<index_t>{2, 0}]] is undefined to use. *)
Theorem index_temporary_refuted : exists bs bs' v, isubs true 9 bs (IV (SRef 0 [3])) [ARng (KRefer 0)] = Ok v /\
  later [CFree 0] bs = Ok bs' /\ current bs' v = UB.
Proof. exists [Some [2; 0]], [None], (IB 0 0 2). repeat split; reflexivity. Qed.
Print Assumptions index_temporary_refuted.

(** The subscript with the indices that its container has at that moment. *)
Inductive names_now (bs : bufs) : iarg -> uarg -> Prop :=
| names_plain u : names_now bs (APlain u) u
| names_kept l : names_now bs (ARng (KKeep l)) (URange l)
| names_container b l : nth_error bs b = Some (Some l) -> names_now bs (ARng (KRefer b)) (URange l).
Lemma now_names bs args : forall us, mapO (now bs) args = Ok us -> Forall2 (names_now bs) args us.
Proof.
  induction args as [|a args IH]; intros us H; cbn [mapO] in H; [injection H as <-; constructor|].
  destruct (now bs a) as [u| | | |] eqn:E; try discriminate H. cbn [bindO] in H.
  destruct (mapO (now bs) args) as [us'| | | |]; try discriminate H. cbn [bindO] in H. injection H as <-.
  constructor; [|auto]. destruct a as [x|[b|l]]; cbn [now] in E; try (injection E as <-; constructor).
  unfold buf in E. destruct (nth_error bs b) as [[l|]|] eqn:Eb; try discriminate E. cbn [bindO] in E. injection E as <-. constructor. exact Eb.
Qed.
(** Everything else is settled when the subscripts are applied: the source is not a one-dimensional contiguous array, or the range is copied or
    shared; or the source is itself a view that follows a container and the subscript is not [every].  The result is that of the chain with the
    indices the containers have at that moment, and no later program on the containers changes it. *)
Theorem other_index_views_fixed : forall chk fuel bs v args v',
  match v with
  | IV s => (contiguous s = true -> length (match dims s with Some es => es | None => [] end) = 1%nat -> forall b, args <> [ARng (KRefer b)])
  | IB _ _ _ => args <> [APlain UEvery]
  end ->
  isubs chk fuel bs v args = Ok v' ->
  exists s us s', current bs v = Ok s /\ Forall2 (names_now bs) args us /\ run chk fuel s us = Ok s' /\ forall bs', current bs' v' = Ok s'.
Proof.
  intros chk fuel bs v args v' Hv H.
  assert (G : (let* s := current bs v in let* us := mapO (now bs) args in let* s' := run chk fuel s us in Ok (IV s')) = Ok v').
  { destruct v as [s|off b n].
    - destruct s as [p|off es|off es M|off m|off m a]; try exact H. destruct es as [|e [|e' es]]; try exact H.
      destruct args as [|a [|a' args]]; try exact H; [|destruct a as [u|[b|l]]; exact H].
      destruct a as [u|[b|l]]; try exact H. exfalso. apply (Hv eq_refl eq_refl b). reflexivity.
    - destruct args as [|a [|a' args]]; try exact H; [|destruct a as [u|[b'|l]]; try exact H; destruct u; exact H].
      destruct a as [u|[b'|l]]; try exact H. destruct u; try exact H. exfalso. apply Hv. reflexivity. }
  clear H. destruct (current bs v) as [s| | | |]; try discriminate G. cbn in G.
  destruct (mapO (now bs) args) as [us| | | |] eqn:Eu; try discriminate G. cbn in G.
  destruct (run chk fuel s us) as [s'| | | |] eqn:E; try discriminate G. cbn in G. injection G as <-.
  exists s, us, s'. repeat split; auto using now_names.
Qed.
Print Assumptions other_index_views_fixed.

(** In particular a history of slicings with ranges that are copied or shared: it is [run] of C04, and the containers of the program do not matter. *)
Definition kept (a : iarg) : bool := match a with ARng (KRefer _) => false | _ => true end.
Definition plain (a : iarg) : uarg := match a with APlain u => u | ARng (KKeep l) => URange l | ARng (KRefer _) => UEvery end.
Theorem kept_ranges_history : forall chk fuel bs steps s, Forall (fun args => forallb kept args = true) steps ->
  foldO (fun v args => isubs chk fuel bs v args) steps (IV s)
  = let* s' := foldO (run chk fuel) (map (map plain) steps) s in Ok (IV s').
Proof.
  intros chk fuel bs steps. induction steps as [|args steps IH]; intros s H; [reflexivity|]. inversion H; subst. cbn [foldO map].
  assert (E : isubs chk fuel bs (IV s) args = let* s' := run chk fuel s (map plain args) in Ok (IV s')).
  { assert (M : mapO (now bs) args = Ok (map plain args)).
    { clear -H2. induction args as [|a args IH]; [reflexivity|]. cbn in H2. apply andb_true_iff in H2 as (A & B). cbn [mapO map].
      rewrite (IH B). destruct a as [u|[b|l]]; try discriminate A; reflexivity. }
    assert (G : (let* s0 := current bs (IV s) in let* us := mapO (now bs) args in let* s' := run chk fuel s0 us in Ok (IV s'))
      = let* s' := run chk fuel s (map plain args) in Ok (IV s')) by (cbn [current bindO]; rewrite M; reflexivity).
    rewrite <- G. clear G M IH H. destruct s as [p|off es|off es M|off m|off m a]; try reflexivity. destruct es as [|e [|e' es]]; try reflexivity.
    destruct args as [|a [|a' args]]; try reflexivity; [|destruct a as [u|[b|l]]; reflexivity].
    destruct a as [u|[b|l]]; try reflexivity. discriminate H2. }
  rewrite E. destruct (run chk fuel s (map plain args)) as [s1| | | |]; try reflexivity. cbn [bindO]. apply IH. auto.
Qed.
Print Assumptions kept_ranges_history.

Example index_views_ex :
  let bs := [Some [2; 0; 1]] in
  (* follows the container *)
  (let* v := isubs true 9 bs (IV (SRef 0 [3])) [ARng (KRefer 0)] in
   let* bs' := later [CSet 0 1 1; CNew [5]] bs in let* s := current bs' v in positions 9 s) = Ok [2; 1; 1] /\
  (* a slice of it does not *)
  (let* v := isubs true 9 bs (IV (SRef 0 [3])) [ARng (KRefer 0)] in let* w := isubs true 9 bs v [APlain (USlice 1 2)] in
   let* bs' := later [CSet 0 1 1; CFree 0] bs in let* s := current bs' w in positions 9 s) = Ok [0; 1] /\
  (* nor does the same subscript of a matrix row *)
  (let* v := isubs true 9 bs (IV (SRef 0 [2; 3])) [APlain (UIdx 1); ARng (KRefer 0)] in
   let* bs' := later [CFree 0] bs in let* s := current bs' v in positions 9 s) = Ok [5; 1; 3] /\
  Forall (fun args => forallb kept args = true) [[ARng (KKeep [1; 0])]; [APlain UEvery]].
Proof. cbn. repeat split; repeat constructor. Qed.
