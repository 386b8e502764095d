(** * ExprProductFloat: accuracy of alpha * A * B in doubles. *)

From Coq Require Import ZArith List Bool Lia Floats.SpecFloat Reals Lra.
From Flocq Require Import Core Relative Plus_error BinarySingleNaN.
From Verif Require Import Base Spec Coerce Reduce Random Stats ReduceSpec StatsSpec RandomProofs StatsProofs ReadNumSpec ReadNumProofs NumericSpec Prod ProdSpec ProdProofs ExprProductSpec.
Import ListNotations.
Open Scope Z_scope.

Local Notation u := roundoff.
Open Scope R_scope.

Lemma term3 alpha x y : is_double alpha -> is_double x -> is_double y -> finite (fmul (fmul alpha y) x) ->
  Rabs (dval (fmul (fmul alpha y) x) - dval alpha * dval x * dval y) <= ((1 + u) * (1 + u) - 1) * Rabs (dval alpha * dval x * dval y) + tiny * ((1 + u) * Rabs (dval x) + 1).
Proof.
  intros Da Dx Dy F. assert (Dm : is_double (fmul alpha y)) by now apply fmul_double. destruct (fmul_finite _ _ Dm Dx F) as [Fm Fx].
  rewrite (fmul_val _ _ Dm Dx F), (fmul_val _ _ Da Dy Fm). pose proof roundoff_pos as U0. pose proof tiny_pos as T0.
  destruct (any_err (dval alpha * dval y)) as (e & d & He & Hd & ->). destruct (any_err ((dval alpha * dval y * (1 + e) + d) * dval x)) as (e' & d' & He' & Hd' & ->).
  set (t := dval alpha * dval x * dval y).
  replace ((dval alpha * dval y * (1 + e) + d) * dval x * (1 + e') + d' - t) with (t * (e + e' + e * e') + (d * (1 + e') * dval x + d')) by (unfold t; ring).
  assert (A1 : Rabs (e + e' + e * e') <= (1 + u) * (1 + u) - 1).
  { eapply Rle_trans; [apply Rabs_triang|]. rewrite Rabs_mult. eapply Rle_trans; [apply Rplus_le_compat_r, Rabs_triang|].
    pose proof (Rmult_le_compat _ _ _ _ (Rabs_pos e) (Rabs_pos e') He He'). lra. }
  assert (A2 : Rabs (d * (1 + e')) <= tiny * (1 + u)).
  { rewrite Rabs_mult. apply Rmult_le_compat; try apply Rabs_pos; [exact Hd|]. eapply Rle_trans; [apply Rabs_triang|]. rewrite Rabs_R1. lra. }
  eapply Rle_trans; [apply Rabs_triang|]. apply Rplus_le_compat.
  - rewrite Rabs_mult, Rmult_comm. apply Rmult_le_compat_r; [apply Rabs_pos|exact A1].
  - eapply Rle_trans; [apply Rabs_triang|]. replace (tiny * ((1 + u) * Rabs (dval x) + 1)) with (tiny * (1 + u) * Rabs (dval x) + tiny) by ring. apply Rplus_le_compat; [|exact Hd'].
    rewrite Rabs_mult. apply Rmult_le_compat_r; [apply Rabs_pos|exact A2].
Qed.

Theorem dot3_accurate alpha (f g : Z -> spec_float) n : (0 < n)%Z -> is_double alpha -> (forall l, 0 <= l < n -> is_double (f l) /\ is_double (g l))%Z ->
  let c := dot_sum fzero fadd fmul (fun l => fmul alpha (g l)) f n in let A l := dval (f l) in let B l := dval (g l) in
  is_double c /\ (finite c ->
  Rabs (dval c - rdot3 (dval alpha) A B n) <=
    ((1 + u) ^ (Z.to_nat n + 1) - 1) * rdot3_abs (dval alpha) A B n + (1 + u) ^ (Z.to_nat n - 1) * tiny * ((1 + u) * rabs_sum A n + IZR n)).
Proof.
  intros Hn Da D c A B. unfold c, dot_sum. rewrite (dot_sum_fsum (fun l => fmul (fmul alpha (g l)) (f l))).
  assert (In_iota : forall i, In i (iota n) -> (0 <= i < n)%Z). { intros i I. unfold iota in I. apply in_map_iff in I. destruct I as (k & <- & K). apply in_seq in K. lia. }
  assert (Dl : Forall is_double (map (fun l => fmul (fmul alpha (g l)) (f l)) (iota n))).
  { rewrite Forall_map, Forall_forall. intros i I. destruct (D i (In_iota i I)). apply fmul_double; [now apply fmul_double|assumption]. }
  split; [apply fsum_double; [exact Dl|apply fzero_double]|]. intros F.
  assert (N : iota n <> []). { intros E. apply (f_equal (@length Z)) in E. rewrite iota_len in E by lia. cbn in E. lia. }
  pose proof roundoff_pos as U0. pose proof tiny_pos as T0.
  assert (Q1 : 1 <= (1 + u) * (1 + u)) by nra.
  assert (H0 : forall i, In i (iota n) -> 0 <= tiny * ((1 + u) * Rabs (A i) + 1)).
  { intros i _. pose proof (Rabs_pos (A i)) as P. apply Rmult_le_pos; [lra|]. pose proof (Rmult_le_pos (1 + u) _ ltac:(lra) P). lra. }
  pose proof (sum_of_approx (fun l => fmul (fmul alpha (g l)) (f l)) (fun l => dval alpha * A l * B l) (fun l => tiny * ((1 + u) * Rabs (A l) + 1)) ((1 + u) * (1 + u)) (iota n) Q1 H0 N Dl F) as H.
  cbv zeta in H. rewrite iota_len in H by lia.
  unfold rdot3, rdot3_abs, rabs_sum. eapply Rle_trans; [apply H|].
  - intros i I Fi. destruct (D i (In_iota i I)) as [Df Dg]. now apply term3.
  - assert (E : forall l : list Z, rsum (map (fun i => tiny * ((1 + u) * Rabs (A i) + 1)) l) = tiny * ((1 + u) * rsum (map (fun i => Rabs (A i)) l) + INR (length l))).
    { induction l as [|a l IH]; [cbn; ring|]. cbn [map]. rewrite !rsum_cons, IH. cbn [length]. rewrite S_INR. ring. }
    rewrite E, iota_len, INR_IZR_INZ, Z2Nat.id by lia. apply Rplus_le_compat; [|right; ring].
    apply Rmult_le_compat_r; [rewrite <- (map_map (fun i => dval alpha * A i * B i) Rabs); apply rsum_abs_nonneg|].
    replace (Z.to_nat n + 1)%nat with (S (S (Z.to_nat n - 1))) by lia. cbn [pow]. right. ring.
Qed.

(** Integers. *)
Lemma dot_int_terms (t : Z -> spec_float) (z : Z -> Z) n : (forall l, 0 <= l < n -> is_double (t l) /\ finite (t l) /\ dval (t l) = IZR (z l))%Z ->
  (forall k, 0 <= k <= n -> Z.abs (fold_left (fun acc l => acc + z l) (iota k) 0) <= 2 ^ 53)%Z ->
  fold_left (fun acc l => fadd acc (t l)) (iota n) fzero = dbl (fold_left (fun acc l => acc + z l)%Z (iota n) 0%Z).
Proof.
  intros H B. destruct (Z_lt_le_dec n 0) as [Hn|Hn].
  { unfold iota. replace (Z.to_nat n) with 0%nat by lia. reflexivity. }
  assert (Hn0 := Hn). revert Hn H B. pattern n. apply natlike_ind; [| |exact Hn0]; clear n Hn0.
  - intros _ _ _. reflexivity.
  - intros n Hn IH _ H B. unfold iota in *. rewrite Z2Nat.inj_succ, seq_S, map_app, !fold_left_app by lia. cbn [map fold_left Nat.add].
    rewrite Z2Nat.id by lia. rewrite IH; [|lia|intros l Hl; apply H; lia|intros k Hk; apply B; lia].
    assert (Bn := B n ltac:(lia)). assert (Bs := B (Z.succ n) ltac:(lia)). rewrite Z2Nat.inj_succ, seq_S, map_app, fold_left_app in Bs by lia. cbn [map fold_left Nat.add] in Bs. rewrite Z2Nat.id in Bs by lia.
    destruct (H n ltac:(lia)) as (H1 & H2 & H3). now apply fadd_int_val.
Qed.
Theorem dot3_int (a : Z) (f g : Z -> Z) n : (Z.abs a <= 2 ^ 53)%Z ->
  (forall l, 0 <= l < n -> Z.abs (f l) <= 2 ^ 53 /\ Z.abs (g l) <= 2 ^ 53 /\ Z.abs (a * g l) <= 2 ^ 53 /\ Z.abs (a * g l * f l) <= 2 ^ 53)%Z ->
  (forall k, 0 <= k <= n -> Z.abs (zdot (fun l => a * g l) f k) <= 2 ^ 53)%Z ->
  dot_sum fzero fadd fmul (fun l => fmul (dbl a) (dbl (g l))) (fun l => dbl (f l)) n = dbl (zdot (fun l => a * g l)%Z f n).
Proof.
  intros Ha Hb Hs. unfold dot_sum, zdot. apply (dot_int_terms (fun l => fmul (fmul (dbl a) (dbl (g l))) (dbl (f l))) (fun l => a * g l * f l)%Z); [|exact Hs].
  intros l Hl. destruct (Hb l Hl) as (H1 & H2 & H3 & H4).
  destruct (fmul_int_val (dbl a) (dbl (g l)) a (g l) (dbl_double _) (dbl_double _) (dbl_finite _ Ha) (dbl_finite _ H2) (dbl_val _ Ha) (dbl_val _ H2) H3) as (F & V).
  assert (D : is_double (fmul (dbl a) (dbl (g l)))) by (apply fmul_double; apply dbl_double).
  destruct (fmul_int_val _ (dbl (f l)) _ (f l) D (dbl_double _) F (dbl_finite _ H1) V (dbl_val _ H1) H4) as (F' & V').
  split; [apply fmul_double; [exact D|apply dbl_double]|auto].
Qed.
