(** * Freq: the share of true elements (base/numeric.hpp).  Model and proofs. *)

From Coq Require Import ZArith List Bool Lia Floats.SpecFloat Reals Lra.
From Flocq Require Import Core Relative BinarySingleNaN.
From Verif Require Import Base Coerce Reduce Random Stats ReduceSpec ReduceProofs StatsSpec RandomProofs StatsProofs.
Import ListNotations.
Open Scope Z_scope.

(** [freq] (base/numeric.hpp:384-394): the count converted to double, divided by the distance (ptrdiff_t) or the size (size_t), which is
    converted to double; both overloads do the same. *)
Definition freq {V} (b : V -> bool) (l : list V) : spec_float := fdiv (dbl (count_loop b l 0)) (dbl (Z.of_nat (length l))).

Local Notation fex := (FLT_exp (-1074) 53).
Local Notation rnd := (round radix2 fex ZnearestE).
Local Existing Instance Hprec.
Local Existing Instance Hmax.
Local Existing Instance Vfex.
Local Notation BF := (binary_float 53 1024).

(** Quotients of integers in [0, 1]. *)
Section Quotient.
Context (c n : Z) (Hc : (0 <= c <= n)%Z) (Hn : (0 < n <= 2 ^ 53)%Z).
Local Notation q := (IZR c / IZR n)%R.

Lemma n_pos : (0 < IZR n)%R.
Proof. apply IZR_lt. lia. Qed.
Lemma q_range : (0 <= q <= 1)%R.
Proof.
  assert (P := n_pos). split.
  - apply Rmult_le_pos; [apply IZR_le; lia|left; now apply Rinv_0_lt_compat].
  - apply Rmult_le_reg_r with (IZR n); [exact P|]. unfold Rdiv. rewrite Rmult_assoc, Rinv_l by lra. rewrite Rmult_1_r, Rmult_1_l. apply IZR_le. lia.
Qed.
Lemma rnd_q_range : (0 <= rnd q <= 1)%R.
Proof.
  destruct q_range as [A B]. split.
  - rewrite <- (round_0 radix2 fex ZnearestE). now apply round_le; try typeclasses eauto.
  - replace 1%R with (rnd 1) by (apply (rnd_int 1); lia). now apply round_le; try typeclasses eauto.
Qed.

Lemma quot_spec : finite (fdiv (dbl c) (dbl n)) /\ dval (fdiv (dbl c) (dbl n)) = rnd q.
Proof.
  destruct (dbl_exact c ltac:(lia)) as (x & Ex & Fx & Rx & Sx). destruct (dbl_exact n ltac:(lia)) as (y & Ey & Fy & Ry & Sy).
  rewrite <- Ex, <- Ey, fdiv_equiv. assert (N : IZR n <> 0%R) by (apply IZR_neq; lia).
  pose proof (Bdiv_correct 53 1024 Hprec Hmax mode_NE x y) as C.
  change (SpecFloat.fexp 53 1024) with fex in C. change (round_mode mode_NE) with ZnearestE in C.
  rewrite Ry in C. specialize (C N). rewrite Rx in C. rewrite Rlt_bool_true in C.
  - destruct C as (C1 & C2 & _). rewrite Fx in C2. split; [now apply finite_is|]. now rewrite dval_B2R.
  - destruct rnd_q_range as [A B]. rewrite Rabs_pos_eq by exact A. apply Rle_lt_trans with (1 := B). change 1%R with (bpow radix2 0). apply bpow_lt. lia.
Qed.

Lemma quot_nearest : nearest (fdiv (dbl c) (dbl n)) q.
Proof. destruct quot_spec as [F E]. apply nearest_rnd; auto. apply fdiv_double; apply dbl_double. Qed.
End Quotient.

Local Open Scope R_scope.
Lemma bpow53 : bpow radix2 53 = IZR (2 ^ 53).
Proof. reflexivity. Qed.
Lemma bpow53_inv : bpow radix2 (-53) * IZR (2 ^ 53) = 1.
Proof. rewrite <- bpow53, <- bpow_plus. reflexivity. Qed.

(** Distance of rounding below 1. *)
Lemma err_below_1 x : 0 <= x < 1 -> Rabs (rnd x - x) <= / 2 * bpow radix2 (-53).
Proof.
  intros [A B]. apply Rle_trans with (/ 2 * ulp radix2 fex x).
  { apply error_le_half_ulp. typeclasses eauto. }
  apply Rmult_le_compat_l; [lra|]. destruct (Req_dec x 0) as [->|Z].
  - rewrite ulp_FLT_small; [|reflexivity|rewrite Rabs_R0; apply bpow_gt_0]. apply bpow_le. lia.
  - rewrite ulp_neq_0 by exact Z. apply bpow_le. unfold cexp.
    assert (M : (mag radix2 x <= 0)%Z). { apply mag_le_bpow; [exact Z|]. rewrite Rabs_pos_eq by exact A. exact B. }
    unfold FLT_exp. lia.
Qed.

(** Different counts give different quotients, in the same order. *)
Lemma quot_strict c c' n : (0 <= c < c')%Z -> (c' <= n)%Z -> (0 < n <= 2 ^ 53)%Z -> rnd (IZR c / IZR n) < rnd (IZR c' / IZR n).
Proof.
  intros Hc Hc' Hn. assert (P := n_pos n Hn).
  assert (D : IZR c' / IZR n - IZR c / IZR n >= / IZR n).
  { replace (IZR c' / IZR n - IZR c / IZR n) with ((IZR c' - IZR c) * / IZR n) by (field; lra).
    rewrite <- (Rmult_1_l (/ IZR n)) at 2. apply Rmult_ge_compat_r; [left; now apply Rinv_0_lt_compat|]. rewrite <- minus_IZR. apply Rle_ge, IZR_le. lia. }
  assert (One : forall z, z = n -> IZR z / IZR n = 1) by (intros z ->; field; lra).
  destruct (Z.eq_dec n (2 ^ 53)) as [E|NE].
  - assert (G : forall z, (0 <= z <= n)%Z -> rnd (IZR z / IZR n) = IZR z / IZR n).
    { intros z Hz. destruct (Z.eq_dec z n) as [E2|N2]; [rewrite One by exact E2; apply (rnd_int 1); lia|].
      apply round_generic; [typeclasses eauto|]. apply generic_format_FLT. exists (Float radix2 z (-53)).
      - unfold F2R. cbn [Fnum Fexp]. apply Rmult_eq_reg_r with (IZR n); [|lra]. replace (IZR z / IZR n * IZR n) with (IZR z) by (field; lra).
        rewrite Rmult_assoc, E, bpow53_inv. ring.
      - cbn [Fnum]. change (Zpower radix2 53) with (2 ^ 53)%Z. lia.
      - cbn. lia. }
    rewrite !G by lia. assert (0 < / IZR n) by now apply Rinv_0_lt_compat. lra.
  - assert (B : bpow radix2 (-53) < / IZR n).
    { apply Rmult_lt_reg_r with (IZR n); [exact P|]. rewrite Rinv_l by lra. rewrite <- bpow53_inv. apply Rmult_lt_compat_l; [apply bpow_gt_0|]. apply IZR_lt. lia. }
    assert (Lt : forall z, (0 <= z < n)%Z -> 0 <= IZR z / IZR n < 1).
    { intros z Hz. destruct (q_range z n ltac:(lia) Hn) as [A _]. split; [exact A|]. apply Rmult_lt_reg_r with (IZR n); [exact P|].
      replace (IZR z / IZR n * IZR n) with (IZR z) by (field; lra). rewrite Rmult_1_l. apply IZR_lt. lia. }
    assert (E1 := err_below_1 _ (Lt c ltac:(lia))). apply Rabs_le_inv in E1.
    assert (E2 : - (/ 2 * bpow radix2 (-53)) <= rnd (IZR c' / IZR n) - IZR c' / IZR n).
    { destruct (Z.eq_dec c' n) as [E2|N2].
      - rewrite (One _ E2). replace (rnd 1) with 1 by (symmetry; apply (rnd_int 1); lia). assert (H := bpow_gt_0 radix2 (-53)). lra.
      - assert (E2 := err_below_1 _ (Lt c' ltac:(lia))). apply Rabs_le_inv in E2. lra. }
    lra.
Qed.

Lemma quot_order c c' n : (0 <= c <= n)%Z -> (0 <= c' <= n)%Z -> (0 < n <= 2 ^ 53)%Z ->
  (dval (fdiv (dbl c) (dbl n)) < dval (fdiv (dbl c') (dbl n)) <-> (c < c')%Z).
Proof.
  intros Hc Hc' Hn. destruct (quot_spec c n Hc Hn) as [_ ->]. destruct (quot_spec c' n Hc' Hn) as [_ ->]. split.
  - intros H. destruct (Z_lt_le_dec c c') as [L|L]; [exact L|]. destruct (Z.eq_dec c c') as [->|NE]; [lra|].
    assert (S := quot_strict c' c n ltac:(lia) ltac:(lia) Hn). lra.
  - intros H. apply quot_strict; lia.
Qed.

Lemma filter_len {V} (b : V -> bool) l : (length (filter b l) <= length l)%nat.
Proof. induction l as [|x l IH]; cbn; [lia|]. destruct (b x); cbn; lia. Qed.

Lemma quot_is_1 c n : (0 <= c <= n)%Z -> (0 < n <= 2 ^ 53)%Z -> (dval (fdiv (dbl c) (dbl n)) = 1 <-> c = n).
Proof.
  intros Hc Hn. assert (P := n_pos n Hn). assert (E : dval (fdiv (dbl n) (dbl n)) = 1).
  { destruct (quot_spec n n ltac:(lia) Hn) as [_ ->]. replace (IZR n / IZR n) with 1 by (field; lra). apply (rnd_int 1); lia. }
  split; [|intros ->; exact E]. intros H. destruct (Z.eq_dec c n) as [|D]; [assumption|].
  assert (L := proj2 (quot_order c n n Hc ltac:(lia) Hn) ltac:(lia)). lra.
Qed.
Lemma quot_is_0 c n : (0 <= c <= n)%Z -> (0 < n <= 2 ^ 53)%Z -> (dval (fdiv (dbl c) (dbl n)) = 0 <-> c = 0%Z).
Proof.
  intros Hc Hn. assert (P := n_pos n Hn). assert (E : dval (fdiv (dbl 0) (dbl n)) = 0).
  { destruct (quot_spec 0 n ltac:(lia) Hn) as [_ ->]. replace (0 / IZR n) with 0 by (field; lra). apply (rnd_int 0); lia. }
  split; [|intros ->; exact E]. intros H. destruct (Z.eq_dec c 0) as [|D]; [assumption|].
  assert (L := proj2 (quot_order 0 c n ltac:(lia) Hc Hn) ltac:(lia)). lra.
Qed.

Lemma filter_all {V} (b : V -> bool) l : length (filter b l) = length l <-> forall x, In x l -> b x = true.
Proof.
  induction l as [|x l IH]; cbn; [split; [intros _ _ []|reflexivity]|]. assert (F := filter_len b l). destruct (b x) eqn:E; cbn.
  - split; [intros [= H] y [<-|Hy]; [exact E|now apply IH]|intros H; f_equal; apply IH; auto].
  - split; [lia|]. intros H. specialize (H x (or_introl eq_refl)). congruence.
Qed.
Lemma filter_none {V} (b : V -> bool) l : length (filter b l) = 0%nat <-> forall x, In x l -> b x = false.
Proof.
  induction l as [|x l IH]; cbn; [split; [intros _ _ []|reflexivity]|]. destruct (b x) eqn:E; cbn.
  - split; [lia|]. intros H. specialize (H x (or_introl eq_refl)). congruence.
  - split; [intros H y [<-|Hy]; [exact E|now apply IH]|intros H; apply IH; auto].
Qed.
