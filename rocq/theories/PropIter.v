(** * PropIter: property C72 (arithmetic with the iterators of arrays and views).

    [is_view fuel s es ps]: the view [s] has the extents [es] and the elements at [ps], in column-major order.  [at_index s k it]: [it] is [s.begin() + k]. *)

From Coq Require Import ZArith List Bool Lia Arith.
From Verif Require Import Base Spec Desc Slice SliceSpec Expr ExprSpec Lemmas DescProofs ExprProofs Iter.
Import ListNotations.
Open Scope Z_scope.

(** Iterators of the same view. *)
Definition kin (a b : lit) : Prop :=
  match a, b with
  | IPtr _, IPtr _ => True
  | IStr off d _, IStr off' d' _ => off = off' /\ d = d'
  | IVec off idx _, IVec off' idx' _ => off = off' /\ idx = idx'
  | _, _ => False
  end.
Lemma kin_refl a : kin a a. Proof. destruct a; cbn; auto. Qed.
Lemma kin_trans a b c : kin a b -> kin b c -> kin a c.
Proof. destruct a, b, c; cbn; intuition congruence. Qed.
Lemma kin_sym a b : kin a b -> kin b a.
Proof. destruct a, b; cbn; intuition congruence. Qed.
Lemma next_kin a a' : lit_next a = Ok a' -> kin a a'.
Proof. destruct a; cbn; [intros [= <-]; exact Logic.I| |intros [= <-]; auto]. destruct (it_next d i); cbn; try discriminate. intros [= <-]. auto. Qed.
Lemma steps_kin n : forall a a', lit_steps n a = Ok a' -> kin a a'.
Proof.
  induction n as [|n IH]; intros a a' H; cbn in H; [injection H as <-; apply kin_refl|]. apply bindO_Ok_inv in H as [b [H1 H2]].
  eapply kin_trans; [apply next_kin; exact H1|apply IH; exact H2].
Qed.
Lemma Zlist_eqb_eq (a b : list Z) : Zlist_eqb a b = true -> a = b.
Proof. unfold Zlist_eqb. destruct (list_eq_dec Z.eq_dec a b); congruence. Qed.
Lemma eqb_kin a b : kin a b -> lit_eqb a b = true -> a = b.
Proof.
  destruct a as [p|off d i|off idx k], b as [q|off' d' j|off' idx' l]; cbn; try contradiction.
  - intros _ H. apply Z.eqb_eq in H. congruence.
  - intros [-> ->] H. f_equal. destruct i, j; cbn in H; try discriminate; [apply Zlist_eqb_eq in H|apply Z.eqb_eq in H]; congruence.
  - intros [-> ->] H. apply Z.eqb_eq in H. congruence.
Qed.
Lemma lit_eqb_refl a : lit_eqb a a = true.
Proof. destruct a as [p|off d [x|x]|off idx k]; cbn; try apply Z.eqb_refl; apply Zlist_eqb_refl. Qed.

(** Walking. *)
Lemma lwalk_steps e : forall b ps, lwalk e b ps -> forall k, (k <= length ps)%nat -> exists it, lit_steps k b = Ok it /\ lwalk e it (skipn k ps).
Proof.
  induction 1 as [d He|d p d' ps He Hd Hn Hw IH]; intros k Hk.
  - exists d. destruct k; [|cbn in Hk; lia]. split; [reflexivity|]. constructor. exact He.
  - destruct k as [|k]; [exists d; split; [reflexivity|]; eapply lw_step; eauto|]. cbn in Hk. destruct (IH k ltac:(lia)) as [it [H1 H2]].
    exists it. cbn [lit_steps]. rewrite Hn. cbn [bindO skipn]. auto.
Qed.
Lemma lwalk_len e b : forall ps ps', lwalk e b ps -> lwalk e b ps' -> length ps = length ps'.
Proof.
  intros ps ps' H. revert ps'. induction H as [d He|d p d' ps He Hd Hn Hw IH]; intros ps' H'; inversion H' as [? He'|? ? d2 ? He' Hd' Hn' Hw']; subst; try congruence; try reflexivity.
  cbn. f_equal. apply IH. congruence.
Qed.
Lemma steps_add i : forall j a, lit_steps (i + j) a = let* b := lit_steps i a in lit_steps j b.
Proof. induction i as [|i IH]; intros j a; cbn; [reflexivity|]. destruct (lit_next a); cbn; auto. Qed.

(** [begin + k] is [k] increments. *)
Lemma ptr_steps : forall k p, lit_steps k (IPtr p) = Ok (IPtr (p + Z.of_nat k)).
Proof. induction k as [|k IH]; intros p; cbn [lit_steps]; [do 2 f_equal; lia|]. cbn [lit_next bindO]. rewrite IH. do 2 f_equal. lia. Qed.
Lemma vec_steps off idx : forall k l, lit_steps k (IVec off idx l) = Ok (IVec off idx (l + Z.of_nat k)).
Proof. induction k as [|k IH]; intros p; cbn [lit_steps]; [do 2 f_equal; lia|]. cbn [lit_next bindO]. rewrite IH. do 2 f_equal. lia. Qed.
Lemma plus_steps fuel s ps b e : positions fuel s = Ok ps -> leaf_range s = Ok (b, e) -> forall k, (k <= length ps)%nat -> lit_plus b (Z.of_nat k) = lit_steps k b.
Proof.
  intros Hp Hr k Hk. destruct s as [q|off es|off es M|off [d|d idx]|off m args]; cbn in Hr; try discriminate Hr; injection Hr as <- <-; cbn [lit_plus].
  - rewrite ptr_steps. reflexivity.
  - replace (Z.of_nat k <? 0) with false by (symmetry; apply Z.ltb_ge; lia). rewrite Nat2Z.id. reflexivity.
  - cbn in Hp. injection Hp as <-. rewrite map_length in Hk. rewrite vec_steps.
    replace ((0 <=? 0 + Z.of_nat k) && (0 + Z.of_nat k <=? Z.of_nat (length idx))) with true by (symmetry; apply andb_true_iff; split; apply Z.leb_le; lia). reflexivity.
Qed.

(** [begin + k] exists for [0 <= k <= size]; it designates the [k]-th element in column-major order, and it is [end] exactly for [k = size]. *)
Theorem iterator_reaches : forall fuel s es ps, is_view fuel s es ps -> forall k, Z.of_nat k <= zprod es ->
  exists it b e, leaf_range s = Ok (b, e) /\ at_index s k it /\
    (Z.of_nat k < zprod es -> exists p, nth_error ps k = Some p /\ lit_deref it = Ok p) /\ (lit_eqb it e = true <-> Z.of_nat k = zprod es).
Proof.
  intros fuel s es ps [H1 [H2 [H3 [H4 [H5 H6]]]]] k Hk. destruct (positions_lwalk _ _ _ H2) as [b [e [Hr Hw]]].
  destruct (lwalk_steps e b ps Hw k ltac:(lia)) as [it [Hs Hw']]. exists it, b, e. split; [exact Hr|].
  split; [exists b, e; split; [exact Hr|]; rewrite (plus_steps fuel s ps b e H2 Hr) by lia; exact Hs|].
  remember (skipn k ps) as rest eqn:E. assert (L := f_equal (@length _) E). rewrite skipn_length in L. destruct Hw' as [it He|it p d' ps' He Hd Hn Hw2]; cbn [length] in L.
  - split; [lia|]. split; [lia|auto].
  - split.
    + intros _. exists p. split; [|exact Hd]. rewrite <- (firstn_skipn k ps), <- E. rewrite nth_error_app2 by (rewrite firstn_length; lia). rewrite firstn_length.
      replace (k - Nat.min k (length ps))%nat with O by lia. reflexivity.
    + split; [congruence|lia].
Qed.

Lemma at_facts fuel s es ps k it : is_view fuel s es ps -> Z.of_nat k <= zprod es -> at_index s k it -> exists b e, leaf_range s = Ok (b, e) /\ lit_steps k b = Ok it /\ lwalk e it (skipn k ps) /\ kin b it.
Proof.
  intros [H1 [H2 [H3 [H4 [H5 H6]]]]] Hk [b [e [Hr Hp]]]. exists b, e. split; [exact Hr|]. rewrite (plus_steps fuel s ps b e H2 Hr) in Hp by lia. split; [exact Hp|].
  destruct (positions_lwalk _ _ _ H2) as [b' [e' [Hr' Hw]]]. rewrite Hr in Hr'. injection Hr' as <- <-.
  destruct (lwalk_steps e b ps Hw k ltac:(lia)) as [it' [Hs Hw']]. rewrite Hp in Hs. injection Hs as <-. split; [exact Hw'|exact (steps_kin _ _ _ Hp)].
Qed.

(** Two iterators of a view are equal exactly if they are at the same index. *)
Theorem iterator_equal : forall fuel s es ps i j it jt, is_view fuel s es ps -> Z.of_nat i <= zprod es -> Z.of_nat j <= zprod es -> at_index s i it -> at_index s j jt ->
  (lit_eqb it jt = true <-> i = j).
Proof.
  intros fuel s es ps i j it jt Hv Hi Hj Ai Aj. destruct (at_facts _ _ _ _ _ _ Hv Hi Ai) as [b [e [Hr [Si [Wi Ki]]]]]. destruct (at_facts _ _ _ _ _ _ Hv Hj Aj) as [b' [e' [Hr' [Sj [Wj Kj]]]]].
  rewrite Hr in Hr'. injection Hr' as <- <-. split.
  - intros E. apply eqb_kin in E; [|eapply kin_trans; [apply kin_sym; exact Ki|exact Kj]]. subst jt. assert (L := lwalk_len _ _ _ _ Wi Wj). rewrite !skipn_length in L.
    destruct Hv as [_ [_ [_ [_ [_ H6]]]]]. lia.
  - intros <-. assert (it = jt) by congruence. subst. apply lit_eqb_refl.
Qed.

Lemma count_steps fuel s es ps i it : is_view fuel s es ps -> at_index s i it -> forall n fu jt, Z.of_nat (i + n) <= zprod es -> (n < fu)%nat -> at_index s (i + n) jt ->
  lit_count fu it jt = Ok (Z.of_nat n).
Proof.
  intros Hv Ai n. revert i it Ai. induction n as [|n IH]; intros i it Ai fu jt Hn Hf Aj; (destruct fu as [|fu]; [lia|]); cbn [lit_count].
  - rewrite Nat.add_0_r in *. rewrite (proj2 (iterator_equal fuel s es ps i i it jt Hv ltac:(lia) ltac:(lia) Ai Aj) eq_refl). reflexivity.
  - destruct (lit_eqb it jt) eqn:E; [apply (iterator_equal fuel s es ps i (i + S n) it jt Hv ltac:(lia) ltac:(lia) Ai Aj) in E; lia|].
    destruct (at_facts fuel s es ps i it Hv ltac:(lia) Ai) as [b [e [Hr [Si [Wi Ki]]]]]. destruct (iterator_reaches fuel s es ps Hv (S i) ltac:(lia)) as [it' [b' [e' [Hr' [A' _]]]]].
    destruct (at_facts fuel s es ps (S i) it' Hv ltac:(lia) A') as [b2 [e2 [Hr2 [Si2 _]]]]. rewrite Hr in Hr2. injection Hr2 as <- <-.
    replace (S i) with (i + 1)%nat in Si2 by lia. rewrite steps_add, Si in Si2. cbn [bindO lit_steps] in Si2. destruct (lit_next it) as [x| | | |]; try discriminate Si2. injection Si2 as ->.
    cbn [bindO]. rewrite (IH (S i) it' A' fu jt ltac:(lia) ltac:(lia)) by (replace (S i + n)%nat with (i + S n)%nat by lia; exact Aj). cbn [bindO]. f_equal. lia.
Qed.

(** [(begin + j) - (begin + i) = j - i]: for [i <= j] always (so [end - begin] is the number of elements), for all [i] and [j] with random access. *)
Theorem iterator_difference : forall fuel fu s es ps i j it jt, is_view fuel s es ps -> Z.of_nat i <= zprod es -> Z.of_nat j <= zprod es -> zprod es < Z.of_nat fu ->
  at_index s i it -> at_index s j jt -> (i <= j)%nat \/ random_access s -> lit_diff fu jt it = Ok (Z.of_nat j - Z.of_nat i).
Proof.
  intros fuel fu s es ps i j it jt Hv Hi Hj Hf Ai Aj D.
  destruct (at_facts _ _ _ _ _ _ Hv Hi Ai) as [b [e [Hr [Si [Wi Ki]]]]]. destruct (at_facts _ _ _ _ _ _ Hv Hj Aj) as [b' [e' [Hr' [Sj [Wj Kj]]]]].
  rewrite Hr in Hr'. injection Hr' as <- <-.
  destruct s as [q|off es'|off es' M|off [d|d idx]|off m args]; cbn in Hr; try discriminate Hr; injection Hr as <- <-.
  - rewrite ptr_steps in Si, Sj. injection Si as <-. injection Sj as <-. cbn [lit_diff]. f_equal. lia.
  - destruct D as [D|[]]. assert (C : lit_count fu it jt = Ok (Z.of_nat (j - i))).
    { apply (count_steps fuel _ es ps i it Hv Ai); [lia|lia|]. replace (i + (j - i))%nat with j by lia. exact Aj. }
    destruct it, jt; cbn in Ki, Kj; try contradiction. cbn [lit_diff]. rewrite C. f_equal. lia.
  - rewrite vec_steps in Si, Sj. injection Si as <-. injection Sj as <-. cbn [lit_diff]. f_equal; lia.
Qed.

(** With random access, [(begin + i) + n] and [(begin + i) - n] are [begin + (i + n)] and [begin + (i - n)]; without, the first. *)
Theorem iterator_moves : forall fuel s es ps i n it, is_view fuel s es ps -> 0 <= Z.of_nat i + n <= zprod es -> Z.of_nat i <= zprod es -> at_index s i it -> 0 <= n \/ random_access s ->
  exists jt, at_index s (Z.to_nat (Z.of_nat i + n)) jt /\ lit_plus it n = Ok jt /\ lit_minus it (- n) = Ok jt.
Proof.
  intros fuel s es ps i n it Hv Hn Hi Ai D. destruct (iterator_reaches fuel s es ps Hv (Z.to_nat (Z.of_nat i + n)) ltac:(lia)) as [jt [b0 [e0 [_ [Aj _]]]]].
  exists jt. split; [exact Aj|]. unfold lit_minus. rewrite Z.opp_involutive. cut (lit_plus it n = Ok jt); [intros H; split; exact H|].
  destruct (at_facts _ _ _ _ _ _ Hv Hi Ai) as [b [e [Hr [Si [Wi Ki]]]]]. destruct (at_facts fuel s es ps (Z.to_nat (Z.of_nat i + n)) jt Hv ltac:(lia) Aj) as [b' [e' [Hr' [Sj [Wj Kj]]]]].
  rewrite Hr in Hr'. injection Hr' as <- <-. destruct Hv as [H1 [H2 [H3 [H4 [H5 H6]]]]].
  destruct s as [q|off es'|off es' M|off [d|d idx]|off m args]; cbn in Hr; try discriminate Hr; injection Hr as <- <-.
  - rewrite ptr_steps in Si, Sj. injection Si as <-. injection Sj as <-. cbn [lit_plus]. do 2 f_equal. lia.
  - destruct D as [D|[]]. destruct it; cbn in Ki; try contradiction. cbn [lit_plus]. replace (n <? 0) with false by (symmetry; apply Z.ltb_ge; lia).
    replace (Z.to_nat (Z.of_nat i + n)) with (i + Z.to_nat n)%nat in Sj by lia. rewrite steps_add, Si in Sj. exact Sj.
  - rewrite vec_steps in Si, Sj. injection Si as <-. injection Sj as <-. cbn [lit_plus]. cbn in H2. injection H2 as <-. rewrite map_length in H6.
    replace ((0 <=? 0 + Z.of_nat i + n) && (0 + Z.of_nat i + n <=? Z.of_nat (length idx))) with true by (symmetry; apply andb_true_iff; split; apply Z.leb_le; lia).
    do 2 f_equal. lia.
Qed.

(** ** strided views *)
Lemma count_nonneg fu : forall a b n, lit_count fu a b = Ok n -> 0 <= n.
Proof.
  induction fu as [|f IH]; intros a b n H; cbn in H; [discriminate|]. destruct (lit_eqb a b); [injection H as <-; lia|].
  apply bindO_Ok_inv in H as [a' [H1 H2]]. apply bindO_Ok_inv in H2 as [k [H2 H3]]. injection H3 as <-. specialize (IH _ _ _ H2). lia.
Qed.
(** The iterators of a strided view subtract in one direction only: [begin - end] is never the negative number of elements, and [end - 1] is undefined. *)
Theorem iterator_backwards_refuted : exists s es ps b e, is_view 9 s es ps /\ leaf_range s = Ok (b, e) /\ zprod es = 2 /\
  lit_diff 9 e b = Ok 2 /\ (forall fu, lit_diff fu b e <> Ok (-2)) /\ lit_minus e 1 = UB.
Proof.
  exists (SView 0 (MId (SD 1 [2] [2]))), [2], [1; 3], (IStr 0 (SD 1 [2] [2]) (It1 1)), (IStr 0 (SD 1 [2] [2]) (It1 5)).
  split; [repeat split; try reflexivity; try discriminate; repeat constructor; discriminate|]. split; [reflexivity|]. split; [reflexivity|]. split; [reflexivity|]. split; [|reflexivity].
  intros fu H. cbn [lit_diff] in H. apply count_nonneg in H. lia.
Qed.

(** ** example *)
(** A 2x2 strided view, a contiguous one, and one by an index list. *)
Example iterators_ex :
  let s := SView 0 (MId (SD 1 [2; 2] [1; 3])) in let c := SRef 2 [4] in let v := SView 0 (MVec (SD 0 [3] [1]) [4; 0; 2]) in
  is_view 9 s [2; 2] [1; 2; 4; 5] /\ is_view 9 c [4] [2; 3; 4; 5] /\ is_view 9 v [3] [4; 0; 2] /\
  (exists it, at_index s 2 it /\ lit_deref it = Ok 4) /\ (exists it, at_index c 3 it /\ lit_deref it = Ok 5) /\
  (exists it, at_index v 2 it /\ lit_deref it = Ok 2 /\ lit_minus it 1 = Ok (IVec 0 [4; 0; 2] 1)) /\ random_access v /\ random_access c.
Proof.
  cbv zeta. split; [repeat split; try reflexivity; try discriminate; repeat constructor; discriminate|].
  split; [repeat split; try reflexivity; try discriminate; repeat constructor; discriminate|].
  split; [repeat split; try reflexivity; try discriminate; repeat constructor; discriminate|].
  split; [eexists; split; [eexists _, _; split; reflexivity|reflexivity]|]. split; [eexists; split; [eexists _, _; split; reflexivity|reflexivity]|].
  split; [eexists; split; [eexists _, _; split; reflexivity|split; reflexivity]|]. split; exact Logic.I.
Qed.

Print Assumptions iterator_reaches.
Print Assumptions iterator_equal.
Print Assumptions iterator_difference.
Print Assumptions iterator_moves.
Print Assumptions iterator_backwards_refuted.
