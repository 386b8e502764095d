(** * DistDiscrete: the discrete distribution. *)

From Coq Require Import ZArith List Bool Lia Floats.SpecFloat Reals Lra.
From Flocq Require Import Core Relative Plus_error BinarySingleNaN.
From Verif Require Import Base Spec Coerce Reduce Random RandomSpec Stats ReduceSpec StatsSpec RandomProofs StatsProofs ReadNumSpec ReadNumProofs Prod ProdSpec ProdProofs MathProofs Dist DistSpec DistProofs.
Import ListNotations.
Open Scope Z_scope.

Local Notation fex := (FLT_exp (-1074) 53).
Local Notation rnd := (round radix2 fex ZnearestE).
Local Existing Instance Hprec.
Local Existing Instance Hmax.
Local Existing Instance Vfex.
Local Notation u := roundoff.

(** ** binary search, on any list *)
Lemma lower_bound_spec cp x : forall fuel first len, (len < fuel)%nat -> (first + len <= length cp)%nat ->
  exists k, lower_bound fuel cp x first len = Ok k /\ (first <= k <= first + len)%nat
    /\ ((k < first + len)%nat -> exists y, nth_error cp k = Some y /\ SFltb y x = false)
    /\ ((first < k)%nat -> exists y, nth_error cp (k - 1) = Some y /\ SFltb y x = true).
Proof.
  induction fuel as [|f IH]; intros first len Hf Hl; [lia|]. cbn [lower_bound]. destruct (Nat.ltb_spec 0 len) as [P|Z].
  2:{ exists first. split; [reflexivity|]. repeat split; lia. }
  pose proof (Nat.div2_decr len (len - 1) ltac:(lia)) as _. assert (Hh : (Nat.div2 len < len)%nat) by (apply Nat.lt_div2; lia).
  set (half := Nat.div2 len) in *. destruct (nth_error cp (first + half)) as [y|] eqn:E. 2:{ apply nth_error_None in E. lia. }
  destruct (SFltb y x) eqn:C.
  - destruct (IH (S (first + half)) (len - half - 1)%nat) as (k & Ek & Rk & A & B); [lia|lia|]. exists k. split; [exact Ek|]. split; [lia|]. split.
    + intros Hk. apply A. lia.
    + intros Hk. destruct (Nat.eq_dec k (S (first + half))) as [->|N]; [|apply B; lia]. exists y. replace (S (first + half) - 1)%nat with (first + half)%nat by lia. auto.
  - destruct (IH first half) as (k & Ek & Rk & A & B); [lia|lia|]. exists k. split; [exact Ek|]. split; [lia|]. split; [|exact B].
    intros Hk. destruct (Nat.eq_dec k (first + half)) as [->|N]; [exists y; auto|]. apply A. lia.
Qed.

(** ** the cumulative probabilities *)
Lemma partial_sums_length acc l : length (partial_sums acc l) = length l.
Proof. revert acc. induction l as [|x l IH]; intros acc; cbn; [reflexivity|]. now rewrite IH. Qed.
Lemma partial_sum_length l : length (partial_sum l) = length l.
Proof. destruct l; cbn; [reflexivity|]. now rewrite partial_sums_length. Qed.
Lemma removelast_length {A} (l : list A) : length (removelast l) = (length l - 1)%nat.
Proof. rewrite removelast_firstn_len, firstn_length. lia. Qed.
Lemma cumulative_two w : (2 <= length w)%nat -> cumulative w = removelast (partial_sum (map (fun x => fdiv x (fold_left fadd w (dbl 0))) w)) ++ [dbl 1].
Proof. intros H. destruct w as [|a [|b w]]; cbn [length] in H; try lia. reflexivity. Qed.
Lemma cumulative_length w : (2 <= length w)%nat -> length (cumulative w) = length w.
Proof. intros H. rewrite cumulative_two by assumption. rewrite app_length, removelast_length, partial_sum_length, map_length. cbn. lia. Qed.
Lemma cumulative_last w : (2 <= length w)%nat -> nth_error (cumulative w) (length w - 1) = Some (dbl 1).
Proof.
  intros H. rewrite cumulative_two by assumption. rewrite nth_error_app2; rewrite removelast_length, partial_sum_length, map_length; [|lia]. now rewrite Nat.sub_diag.
Qed.
Lemma nth_removelast {A} (l : list A) i : (i < length l - 1)%nat -> nth_error (removelast l) i = nth_error l i.
Proof.
  intros H. assert (N : l <> []) by (destruct l; cbn in *; [lia|discriminate]). destruct (exists_last N) as (l' & a & ->). rewrite removelast_last. rewrite app_length in H. cbn in H.
  rewrite nth_error_app1 by lia. reflexivity.
Qed.
Lemma cumulative_nth w i : (2 <= length w)%nat -> (i < length w - 1)%nat ->
  nth_error (cumulative w) i = nth_error (partial_sum (map (fun x => fdiv x (fold_left fadd w (dbl 0))) w)) i.
Proof.
  intros H Hi. rewrite cumulative_two by assumption. rewrite nth_error_app1 by (rewrite removelast_length, partial_sum_length, map_length; lia).
  apply nth_removelast. rewrite partial_sum_length, map_length. exact Hi.
Qed.

(** In range for every list of weights, even negative or NaN. *)
Lemma not_above_one c : is_double c -> finite c -> (dval c < 1)%R -> SFltb (dbl 1) c = false.
Proof.
  intros D F H. destruct one_val as [O1 O2]. rewrite lt_val by (apply dbl_double || assumption). rewrite O1. apply Rlt_bool_false. lra.
Qed.
Lemma discrete_search w a b l : (2 <= length w)%nat -> (0 <= a < 2 ^ 32)%Z -> (0 <= b < 2 ^ 32)%Z ->
  exists c k, is_double c /\ finite c /\ dval c = cval (pair_number a b) /\ discrete w (a :: b :: l) = Ok (Z.of_nat k, l) /\ (k < length w)%nat
    /\ (exists y, nth_error (cumulative w) k = Some y /\ SFltb y c = false)
    /\ ((0 < k)%nat -> exists y, nth_error (cumulative w) (k - 1) = Some y /\ SFltb y c = true).
Proof.
  intros Hw Ha Hb. destruct (canonical_val a b l Ha Hb) as (c & E & D & F & V). exists c.
  pose proof (cumulative_length w Hw) as Lc. pose proof (cumulative_last w Hw) as La.
  assert (HN : (0 <= pair_number a b < 2 ^ 64)%Z) by (unfold pair_number; lia). pose proof (cval_range _ HN) as R1. pose proof roundoff_pos as U.
  assert (L1 : SFltb (dbl 1) c = false) by (apply not_above_one; auto; lra).
  unfold discrete. destruct (cumulative w) as [|x cp] eqn:Ec; [cbn in Lc; lia|]. rewrite <- Ec in *. clear Ec.
  rewrite E. cbn [bindO fst snd]. destruct (lower_bound_spec (cumulative w) c (S (length (cumulative w))) 0 (length (cumulative w))) as (k & Ek & Rk & A & B); [lia|lia|].
  rewrite Ek. cbn [bindO]. exists k. assert (Hk : (k < length w)%nat).
  { destruct (Nat.eq_dec k (length w)) as [->|]; [|lia]. destruct (B ltac:(lia)) as (y & Ey & Cy). rewrite La in Ey. assert (Hy : y = dbl 1) by congruence. rewrite Hy, L1 in Cy. discriminate. }
  repeat (split; [assumption|]). split; [reflexivity|]. split; [exact Hk|]. split; [apply A; lia|]. intros P. apply B. lia.
Qed.

Open Scope R_scope.

(** ** values of the partial sums *)
Definition prefix (l : list R) (i : nat) : R := rsum (firstn (S i) l).
Lemma rsum_app l l' : rsum (l ++ l') = rsum l + rsum l'.
Proof. induction l as [|x l IH]; cbn [app]; [change (rsum []) with 0; ring|]. rewrite !rsum_cons, IH. ring. Qed.
Lemma firstn_sum l i : (forall x, In x l -> 0 <= x) -> 0 <= rsum (firstn i l) <= rsum l.
Proof.
  intros H. rewrite <- (firstn_skipn i l) at 3. rewrite rsum_app. split.
  - apply rsum_nonneg. intros x Hx. apply H. rewrite <- (firstn_skipn i l). apply in_or_app. now left.
  - assert (0 <= rsum (skipn i l)); [|lra]. apply rsum_nonneg. intros x Hx. apply H. rewrite <- (firstn_skipn i l). apply in_or_app. now right.
Qed.
Lemma pow_down i : 0 < (1 - u) ^ i <= 1.
Proof. pose proof roundoff_pos. pose proof roundoff_lt1. induction i as [|i IH]; cbn [pow]; [lra|]. nra. Qed.

Definition wide : R := bpow radix2 1023.
Lemma partial_sums_vals l : forall acc, is_double acc -> finite acc -> 0 <= dval acc -> Forall good_weight l ->
  (1 + u) ^ length l * (dval acc + rsum (map dval l)) <= wide ->
  forall i, (i < length l)%nat -> exists x, nth_error (partial_sums acc l) i = Some x /\ is_double x /\ finite x
    /\ (1 - u) ^ S i * (dval acc + prefix (map dval l) i) <= dval x <= (1 + u) ^ S i * (dval acc + prefix (map dval l) i).
Proof.
  pose proof roundoff_pos as U0. pose proof roundoff_lt1 as U1.
  induction l as [|y l IH]; intros acc Da Fa Pa G H i Hi; cbn [length] in Hi; [lia|]. inversion G as [|? ? (Dy & Fy & Py) G']; subst.
  cbn [length map] in H. rewrite rsum_cons in H. assert (P1 : 1 <= (1 + u) ^ length l) by apply pow_ge1. cbn [pow] in H.
  assert (N : 0 <= rsum (map dval l)). { apply rsum_nonneg. intros x Hx. apply in_map_iff in Hx. destruct Hx as (z & <- & Hz). rewrite Forall_forall in G'. apply (G' z Hz). }
  set (P := (1 + u) ^ length l) in *. assert (P0 : 0 <= P * (dval acc + (dval y + rsum (map dval l)))) by (apply Rmult_le_pos; lra).
  assert (B1 : (1 + u) * (dval acc + dval y) <= wide).
  { eapply Rle_trans; [|exact H]. rewrite Rmult_assoc. apply Rmult_le_compat_l; [lra|]. nra. }
  assert (F : finite (fadd acc y)). { apply fadd_ok; auto. rewrite Rabs_pos_eq by lra. fold wide. nra. }
  assert (D : is_double (fadd acc y)) by now apply fadd_double.
  assert (E : (1 - u) * (dval acc + dval y) <= dval (fadd acc y) <= (1 + u) * (dval acc + dval y)).
  { rewrite fadd_val by assumption. destruct (plus_err (dval acc) (dval y) (format _ Da) (format _ Dy)) as (e & He & ->). apply Rabs_le_inv in He. nra. }
  destruct i as [|i].
  - exists (fadd acc y). cbn [partial_sums nth_error]. split; [reflexivity|]. split; [exact D|]. split; [exact F|]. unfold prefix. cbn [map firstn]. rewrite rsum_cons. change (rsum []) with 0. rewrite !pow_1, Rplus_0_r. exact E.
  - destruct (IH (fadd acc y)) with (i := i) as (x & Ex & Dx & Fx & Bx); auto; [nra| |lia|].
    + fold P. eapply Rle_trans; [|exact H]. rewrite (Rmult_comm (1 + u) P), Rmult_assoc. apply Rmult_le_compat_l; [lra|]. nra.
    + exists x. cbn [partial_sums nth_error]. split; [exact Ex|]. split; [exact Dx|]. split; [exact Fx|].
      assert (Hp : 0 <= prefix (map dval l) i). { apply firstn_sum. intros z Hz. apply in_map_iff in Hz. destruct Hz as (z' & <- & Hz'). rewrite Forall_forall in G'. apply (G' z' Hz'). }
      assert (Ep : prefix (map dval (y :: l)) (S i) = dval y + prefix (map dval l) i) by (unfold prefix; cbn [map]; rewrite firstn_cons, rsum_cons; reflexivity).
      rewrite Ep. change ((1 - u) ^ S (S i)) with ((1 - u) * (1 - u) ^ S i). change ((1 + u) ^ S (S i)) with ((1 + u) * (1 + u) ^ S i).
      pose proof (pow_down (S i)) as Dn. pose proof (pow_ge1 (S i)) as Up. set (p := prefix (map dval l) i) in *. set (d := (1 - u) ^ S i) in *. set (v := (1 + u) ^ S i) in *.
      clearbody p d v. split.
      * eapply Rle_trans; [|apply Bx]. rewrite (Rmult_comm (1 - u) d), Rmult_assoc. apply Rmult_le_compat_l; [lra|]. nra.
      * eapply Rle_trans; [apply Bx|]. rewrite (Rmult_comm (1 + u) v), Rmult_assoc. apply Rmult_le_compat_l; [lra|]. nra.
Qed.
Lemma partial_sum_vals l : Forall good_weight l -> (1 + u) ^ length l * rsum (map dval l) <= wide ->
  forall i, (i < length l)%nat -> exists x, nth_error (partial_sum l) i = Some x /\ is_double x /\ finite x
    /\ (1 - u) ^ i * prefix (map dval l) i <= dval x <= (1 + u) ^ i * prefix (map dval l) i.
Proof.
  intros G H i Hi. destruct l as [|y l]; cbn [length] in Hi; [lia|]. inversion G as [|? ? (Dy & Fy & Py) G']; subst. cbn [partial_sum].
  destruct i as [|i]. { exists y. cbn [nth_error]. split; [reflexivity|]. split; [exact Dy|]. split; [exact Fy|]. unfold prefix. cbn [map firstn pow]. rewrite rsum_cons. change (rsum []) with 0. lra. }
  cbn [nth_error]. assert (Ep : prefix (map dval (y :: l)) (S i) = dval y + prefix (map dval l) i) by (unfold prefix; cbn [map]; rewrite firstn_cons, rsum_cons; reflexivity).
  rewrite Ep. apply partial_sums_vals; auto; [|lia]. cbn [length map pow] in H. rewrite rsum_cons in H. pose proof roundoff_pos.
  eapply Rle_trans; [|exact H]. assert (N : 0 <= rsum (map dval l)). { apply rsum_nonneg. intros x Hx. apply in_map_iff in Hx. destruct Hx as (z & <- & Hz). rewrite Forall_forall in G'. apply (G' z Hz). }
  pose proof (pow_ge1 (length l)). assert (0 <= (1 + u) ^ length l * (dval y + rsum (map dval l))) by (apply Rmult_le_pos; lra). nra.
Qed.
Lemma partial_sums_step l : forall acc i x y z, nth_error (partial_sums acc l) i = Some x -> nth_error (partial_sums acc l) (S i) = Some y -> nth_error l (S i) = Some z -> y = fadd x z.
Proof.
  induction l as [|a l IH]; intros acc i x y z Hx Hy Hz; [destruct i; discriminate|]. cbn [partial_sums nth_error] in *. destruct i as [|i].
  - injection Hx as <-. destruct l as [|b l]; [discriminate|]. cbn in *. congruence.
  - eapply IH; eauto.
Qed.
Lemma partial_sum_step l i x y z : nth_error (partial_sum l) i = Some x -> nth_error (partial_sum l) (S i) = Some y -> nth_error l (S i) = Some z -> y = fadd x z.
Proof.
  destruct l as [|a l]; [destruct i; discriminate|]. cbn [partial_sum nth_error]. destruct i as [|i]; cbn [nth_error].
  - intros H. injection H as <-. destruct l as [|b l]; [discriminate|]. cbn. congruence.
  - apply partial_sums_step.
Qed.

(** ** powers of 1 + u *)
Lemma bernoulli_down n : 1 - INR n * u <= (1 - u) ^ n.
Proof.
  pose proof roundoff_pos. pose proof roundoff_lt1. induction n as [|n IH]; [cbn; lra|]. rewrite S_INR. cbn [pow]. pose proof (pow_down n). pose proof (pos_INR n).
  destruct (Rle_dec (INR n * u) 1) as [L|L]; [nra|]. assert (0 < (1 - u) * (1 - u) ^ n) by nra. nra.
Qed.
Lemma pow_up n : INR n * u <= / 8 -> (1 + u) ^ n <= / (1 - INR n * u).
Proof.
  intros H. pose proof roundoff_pos. pose proof roundoff_lt1. pose proof (bernoulli_down n) as B.
  assert (M : (1 + u) ^ n * (1 - u) ^ n <= 1). { rewrite <- Rpow_mult_distr. replace ((1 + u) * (1 - u)) with (1 - u * u) by ring. assert (0 <= u * u) by (apply Rmult_le_pos; lra). assert (u * u <= 1 * 1) by (apply Rmult_le_compat; lra). eapply Rle_trans; [apply (pow_incr _ 1); lra|rewrite pow1; lra]. }
  assert (P : 0 < 1 - INR n * u) by lra. apply (Rmult_le_reg_r (1 - INR n * u)); [exact P|]. rewrite Rinv_l by lra.
  eapply Rle_trans; [|exact M]. apply Rmult_le_compat_l; [|exact B]. pose proof (pow_ge1 n). lra.
Qed.

(** ** probabilities *)
Section Weights.
Variable w : list spec_float.
Hypothesis Hn : (2 <= length w)%nat.
Hypothesis G : Forall good_weight w.
Let S' := fold_left fadd w (dbl 0).
Hypothesis F : finite S'.
Let Sm := rsum (map dval w).
Hypothesis Pos : 0 < Sm.
Let x := INR (length w) * u.
Hypothesis Hx : x <= / 8.
Let g := / (1 - x).

Lemma weights_nonneg z : In z (map dval w) -> 0 <= z.
Proof. intros H. apply in_map_iff in H. destruct H as (y & <- & Hy). pose proof G as G'. rewrite Forall_forall in G'. apply (G' y Hy). Qed.
Lemma x_pos : 0 <= x.
Proof. apply Rmult_le_pos; [apply pos_INR|]. pose proof roundoff_pos. lra. Qed.
Lemma g_vals : 1 <= g <= 8 / 7 /\ g - 1 <= 8 / 7 * x /\ (1 - x) * g = 1.
Proof.
  pose proof x_pos as X. assert (E : (1 - x) * g = 1) by (unfold g; rewrite Rinv_r; [reflexivity|lra]).
  assert (P : 0 < g) by (unfold g; apply Rinv_0_lt_compat; lra). split; [split|split; [|exact E]].
  - nra.
  - nra.
  - assert (g <= 8 / 7) by nra. nra.
Qed.
Lemma pow_g i : (i <= length w)%nat -> (1 + u) ^ i <= g.
Proof.
  intros H. eapply Rle_trans; [apply (Rle_pow (1 + u) i (length w)); [pose proof roundoff_pos; lra|exact H]|]. now apply pow_up.
Qed.
Lemma pow_d i : (i <= length w)%nat -> 1 - x <= (1 - u) ^ i.
Proof.
  intros H. eapply Rle_trans; [|apply bernoulli_down]. assert (INR i * u <= x); [|lra]. apply Rmult_le_compat_r; [pose proof roundoff_pos; lra|]. now apply le_INR.
Qed.
Lemma sum_vals : is_double S' /\ Sm * (2 - g) <= dval S' <= Sm * g.
Proof.
  assert (Dw : Forall is_double w) by (eapply Forall_impl; [|exact G]; intros y Hy; apply Hy).
  assert (Ew : map Rabs (map dval w) = map dval w). { rewrite map_map. apply map_ext_in. intros y Hy. apply Rabs_pos_eq. apply weights_nonneg. now apply in_map. }
  split. { apply (fsum_double w fzero Dw fzero_double). }
  pose proof (fsum_accurate w ltac:(intros ->; cbn in Hn; lia) Dw F) as A. rewrite Ew in A. change (fsum w fzero) with S' in A. fold Sm in A.
  pose proof (pow_g (length w - 1) ltac:(lia)) as P. assert (B : ((1 + u) ^ (length w - 1) - 1) * Sm <= (g - 1) * Sm) by (apply Rmult_le_compat_r; lra).
  apply Rabs_le_inv in A. split; nra.
Qed.
Lemma sum_pos : 0 < dval S'.
Proof. destruct sum_vals as [_ [L _]]. destruct g_vals as ([G1 G2] & _). eapply Rlt_le_trans; [|exact L]. apply Rmult_lt_0_compat; lra. Qed.

Let ps := map (fun y => fdiv y S') w.
Lemma quotient_vals y : In y w -> is_double (fdiv y S') /\ finite (fdiv y S') /\ 0 <= dval (fdiv y S') /\ Rabs (dval (fdiv y S') - dval y / dval S') <= u * (dval y / dval S') + tiny
  /\ (dval y = 0 -> dval (fdiv y S') = 0).
Proof.
  intros Hy. pose proof G as G'. rewrite Forall_forall in G'. destruct (G' y Hy) as (Dy & Fy & Py). destruct sum_vals as [DS [L _]]. pose proof sum_pos as P. destruct g_vals as ([G1 G2] & _).
  assert (Q0 : 0 <= dval y / dval S') by (apply Rmult_le_pos; [exact Py|left; now apply Rinv_0_lt_compat]).
  assert (Le : dval y <= Sm). { unfold Sm. apply in_split in Hy. destruct Hy as (l1 & l2 & E). rewrite E, map_app. cbn [map]. rewrite rsum_app, rsum_cons.
    assert (0 <= rsum (map dval l1)) by (apply rsum_nonneg; intros z Hz; apply weights_nonneg; rewrite E, map_app; apply in_or_app; now left).
    assert (0 <= rsum (map dval l2)) by (apply rsum_nonneg; intros z Hz; apply weights_nonneg; rewrite E, map_app; apply in_or_app; right; now right). lra. }
  assert (Q1 : dval y / dval S' <= 2). { apply (Rmult_le_reg_r (dval S')); [exact P|]. unfold Rdiv. rewrite Rmult_assoc, Rinv_l, Rmult_1_r by lra. nra. }
  assert (Fq : finite (fdiv y S')). { apply fdiv_ok; auto; [lra|]. rewrite Rabs_pos_eq by exact Q0. eapply Rle_trans; [exact Q1|]. change 2 with (bpow radix2 1). apply bpow_le. lia. }
  split; [now apply fdiv_double|]. split; [exact Fq|]. rewrite fdiv_val by (auto; lra). split.
  { apply round_ge_generic; [apply Vfex|apply valid_rnd_N|apply generic_format_0|exact Q0]. }
  split.
  - destruct (any_err (dval y / dval S')) as (e & d & He & Hd & ->). set (q := dval y / dval S') in *. replace (q * (1 + e) + d - q) with (q * e + d) by ring.
    eapply Rle_trans; [apply Rabs_triang|]. rewrite Rabs_mult, (Rabs_pos_eq q) by exact Q0. apply Rplus_le_compat; [|exact Hd]. rewrite Rmult_comm. apply Rmult_le_compat_r; assumption.
  - intros ->. unfold Rdiv. rewrite Rmult_0_l. apply round_0. apply valid_rnd_N.
Qed.
Lemma ps_good : Forall good_weight ps.
Proof. apply Forall_forall. intros z Hz. apply in_map_iff in Hz. destruct Hz as (y & <- & Hy). destruct (quotient_vals y Hy) as (A & B & C & _). split; auto. Qed.

Lemma in_firstn {A} (a : A) l k : In a (firstn k l) -> In a l.
Proof. intros H. rewrite <- (firstn_skipn k l). apply in_or_app. now left. Qed.
Lemma ps_prefix k : Rabs (rsum (firstn k (map dval ps)) - rsum (firstn k (map dval w)) / dval S') <= u * (rsum (firstn k (map dval w)) / dval S') + INR (length w) * tiny.
Proof.
  unfold ps. rewrite map_map, !firstn_map. set (l := firstn k w).
  assert (E : rsum (map dval l) / dval S' = rsum (map (fun y => dval y / dval S') l)).
  { unfold Rdiv. rewrite Rmult_comm, <- rsum_scal. f_equal. apply map_ext. intros y. ring. }
  rewrite E. eapply Rle_trans; [apply (rsum_diff (fun y => dval (fdiv y S')) (fun y => dval y / dval S') (fun y => u * (dval y / dval S') + tiny))|].
  { intros y Hy. apply quotient_vals. now apply (in_firstn y w k). }
  rewrite rsum_plus, rsum_scal, rsum_const. apply Rplus_le_compat_l. apply Rmult_le_compat_r; [left; apply tiny_pos|]. apply le_INR. unfold l. rewrite firstn_length. lia.
Qed.
Lemma tiny_u : tiny <= / 4 * u.
Proof. rewrite tiny_bpow, uval. replace (/ 4) with (bpow radix2 (-2)) by reflexivity. rewrite <- bpow_plus. apply bpow_le. lia. Qed.
Lemma ntiny : 0 <= INR (length w) * tiny <= / 4 * x.
Proof.
  pose proof tiny_pos. pose proof (pos_INR (length w)). split; [apply Rmult_le_pos; lra|]. unfold x. pose proof tiny_u.
  rewrite <- Rmult_assoc, (Rmult_comm (/ 4)), Rmult_assoc. apply Rmult_le_compat_l; lra.
Qed.
Lemma ratio k : let A := rsum (firstn k (map dval w)) in 0 <= A / Sm <= 1 /\ A / Sm * (1 - x) <= A / dval S' /\ A / dval S' * (2 - g) <= A / Sm.
Proof.
  intros A. pose proof (firstn_sum (map dval w) k weights_nonneg) as [A0 A1]. fold A Sm in A0, A1. destruct sum_vals as [_ [L U]]. pose proof sum_pos as P. destruct g_vals as ([G1 G2] & _ & E).
  assert (I1 : 0 < / Sm) by now apply Rinv_0_lt_compat. assert (I2 : 0 < / dval S') by now apply Rinv_0_lt_compat. split; [split|split].
  - apply Rmult_le_pos; lra.
  - apply (Rmult_le_reg_r Sm); [exact Pos|]. unfold Rdiv. rewrite Rmult_assoc, Rinv_l by lra. lra.
  - unfold Rdiv. rewrite Rmult_assoc. apply Rmult_le_compat_l; [exact A0|]. apply (Rmult_le_reg_r (dval S' * Sm)); [nra|].
    replace (/ Sm * (1 - x) * (dval S' * Sm)) with ((1 - x) * dval S') by (field; lra). replace (/ dval S' * (dval S' * Sm)) with Sm by (field; lra). pose proof x_pos. nra.
  - unfold Rdiv. rewrite Rmult_assoc. apply Rmult_le_compat_l; [exact A0|]. apply (Rmult_le_reg_r (dval S' * Sm)); [nra|].
    replace (/ dval S' * (2 - g) * (dval S' * Sm)) with ((2 - g) * Sm) by (field; lra). replace (/ Sm * (dval S' * Sm)) with (dval S') by (field; lra). lra.
Qed.

Lemma cumulative_vals i : (i < length w)%nat -> exists y, nth_error (partial_sum ps) i = Some y /\ is_double y /\ finite y /\ 0 <= dval y /\ Rabs (dval y - share (map dval w) i) <= 3 * x.
Proof.
  intros Hi. assert (Lp : length ps = length w) by apply map_length. pose proof roundoff_pos as U0. pose proof roundoff_lt1 as U1. pose proof x_pos as X0. destruct g_vals as ([G1 G2] & G3 & G4). pose proof ntiny as [T0 T1].
  destruct (partial_sum_vals ps ps_good) with (i := i) as (y & Ey & Dy & Fy & B).
  - pose proof (ps_prefix (length w)) as Q. assert (L1 : length (map dval w) = length w) by apply map_length. assert (L2 : length (map dval ps) = length w) by (rewrite map_length; exact Lp).
    rewrite <- L2 in Q at 1. rewrite <- L1 in Q at 1 2. rewrite !firstn_all in Q. fold Sm in Q. pose proof (ratio (length w)) as R1. cbn zeta in R1. rewrite <- L1 in R1. rewrite !firstn_all in R1. fold Sm in R1.
    destruct R1 as (_ & _ & R1). unfold Rdiv at 2 in R1. rewrite Rinv_r in R1 by lra. assert (R2 : Sm / dval S' <= 7 / 6) by (assert (2 - g >= 6 / 7) by lra; pose proof sum_pos; assert (0 <= Sm / dval S') by (apply Rmult_le_pos; [lra|left; now apply Rinv_0_lt_compat]); nra).
    apply Rabs_le_inv in Q. assert (0 <= Sm / dval S') by (pose proof sum_pos; apply Rmult_le_pos; [lra|left; now apply Rinv_0_lt_compat]).
    assert (u * (Sm / dval S') <= 1 * (7 / 6)) by (apply Rmult_le_compat; lra).
    rewrite Lp. eapply Rle_trans; [apply (Rmult_le_compat_l ((1 + u) ^ length w)); [pose proof (pow_ge1 (length w)); lra|apply (Rle_trans _ 4); [lra|apply Rle_refl]]|].
    eapply Rle_trans; [apply Rmult_le_compat_r; [lra|apply pow_g; lia]|]. apply (Rle_trans _ 8); [lra|]. change 8 with (bpow radix2 3). apply bpow_le. lia.
  - rewrite Lp. exact Hi.
  - exists y. split; [exact Ey|]. split; [exact Dy|]. split; [exact Fy|].
    pose proof (ps_prefix (S i)) as Q. pose proof (ratio (S i)) as R1. cbn zeta in R1. unfold share. fold Sm. unfold prefix in B.
    set (A := rsum (firstn (S i) (map dval w))) in *. set (q := rsum (firstn (S i) (map dval ps))) in *. destruct R1 as ([r0 r1] & Ra & Rb). set (r := A / Sm) in *. set (a := A / dval S') in *.
    assert (Q0 : 0 <= q). { apply firstn_sum. intros z Hz. apply in_map_iff in Hz. destruct Hz as (z' & <- & Hz'). pose proof ps_good as PG. rewrite Forall_forall in PG. apply (PG z' Hz'). }
    pose proof (pow_down i) as Dn. pose proof (pow_ge1 i) as Up. pose proof (pow_g (S i) Hi) as Pg. pose proof (pow_d (S i) Hi) as Pd. cbn [pow] in Pg, Pd.
    set (d := (1 - u) ^ i) in *. set (v := (1 + u) ^ i) in *. set (e := INR (length w) * tiny) in *. apply Rabs_le_inv in Q.
    split. { eapply Rle_trans; [|apply B]. apply Rmult_le_pos; lra. }
    assert (a0 : 0 <= a). { assert (0 <= r * (1 - x)) by (apply Rmult_le_pos; lra). lra. }
    clearbody A q r a d v e. clear - Q B Ra Rb r0 r1 Q0 Dn Up Pg Pd G1 G2 G3 G4 T0 T1 X0 U0 U1 Hx a0.
    apply Rabs_le. split.
    + assert (L1 : d * ((1 - u) * a - e) <= dval y). { eapply Rle_trans; [|apply B]. apply Rmult_le_compat_l; lra. }
      assert (L2 : (1 - x) * a <= (1 - u) * d * a) by (apply Rmult_le_compat_r; lra). assert (L3 : d * e <= 1 * e) by (apply Rmult_le_compat_r; lra).
      assert (L4 : (1 - x) * (r * (1 - x)) <= (1 - x) * a) by (apply Rmult_le_compat_l; lra). assert (L5 : r * (2 * x) <= 1 * (2 * x)) by (apply Rmult_le_compat_r; lra). assert (0 <= r * (x * x)) by (apply Rmult_le_pos; [lra|apply Rmult_le_pos; lra]).
      replace (d * ((1 - u) * a - e)) with ((1 - u) * d * a - d * e) in L1 by ring. replace ((1 - x) * (r * (1 - x))) with (r - r * (2 * x) + r * (x * x)) in L4 by ring. lra.
    + assert (L1 : dval y <= v * ((1 + u) * a + e)). { eapply Rle_trans; [apply B|]. apply Rmult_le_compat_l; lra. }
      assert (L2 : (1 + u) * v * a <= g * a) by (apply Rmult_le_compat_r; lra). assert (Lv : v <= g) by (assert (0 <= u * v) by (apply Rmult_le_pos; lra); lra). assert (L3 : v * e <= g * e) by (apply Rmult_le_compat_r; lra).
      assert (L4 : g * e <= 8 / 7 * e) by (apply Rmult_le_compat_r; lra).
      assert (L7 : a * (6 / 7) <= a * (2 - g)) by (apply Rmult_le_compat_l; lra). assert (a1 : a <= 7 / 6) by lra. assert (L5 : g * a <= r + 2 * (g - 1) * a) by lra. assert (L6 : 2 * (g - 1) * a <= 2 * (8 / 7 * x) * (7 / 6)) by (apply Rmult_le_compat; lra).
      replace (v * ((1 + u) * a + e)) with ((1 + u) * v * a + v * e) in L1 by ring. lra.
Qed.

(** Values of the cumulative probabilities, monotone up to the last but one. *)
Lemma cp_step i : (S i < length w)%nat -> forall y z, nth_error (partial_sum ps) i = Some y -> nth_error (partial_sum ps) (S i) = Some z -> dval y <= dval z /\ (dval (nth (S i) w (dbl 0)) = 0 -> dval z = dval y).
Proof.
  intros Hi y z Ey Ez. assert (Lp : length ps = length w) by apply map_length.
  destruct (nth_error ps (S i)) as [p|] eqn:Ep. 2:{ apply nth_error_None in Ep. lia. }
  pose proof (partial_sum_step ps i y z p Ey Ez Ep) as ->.
  destruct (cumulative_vals i ltac:(lia)) as (y' & Ey' & Dy & Fy & Py & _). rewrite Ey in Ey'. injection Ey' as <-.
  destruct (cumulative_vals (S i) ltac:(lia)) as (z' & Ez' & _ & Fz & _). rewrite Ez in Ez'. injection Ez' as <-.
  assert (Hw : exists a, nth_error w (S i) = Some a /\ p = fdiv a S' /\ nth (S i) w (dbl 0) = a).
  { unfold ps in Ep. rewrite nth_error_map in Ep. destruct (nth_error w (S i)) as [a|] eqn:Ea; [|discriminate]. cbn in Ep. injection Ep as <-. exists a. split; [reflexivity|]. split; [reflexivity|]. now apply nth_error_nth. }
  destruct Hw as (a & Ea & -> & Na). destruct (quotient_vals a) as (Dp & Fp & Pp & _ & Zp). { eapply nth_error_In; exact Ea. }
  rewrite fadd_val by assumption. split.
  - apply round_ge_generic; [apply Vfex|apply valid_rnd_N|now apply format|lra].
  - intros H0. rewrite Na in H0. rewrite (Zp H0), Rplus_0_r. apply round_generic; [apply valid_rnd_N|now apply format].
Qed.
Lemma cp_mono i : forall j y z, (j <= i)%nat -> (i < length w)%nat -> nth_error (partial_sum ps) j = Some y -> nth_error (partial_sum ps) i = Some z -> dval y <= dval z.
Proof.
  induction i as [|i IH]; intros j y z Hj Hi Ey Ez. { assert (j = 0%nat) by lia. subst. rewrite Ey in Ez. injection Ez as ->. lra. }
  destruct (Nat.eq_dec j (S i)) as [->|N]. { rewrite Ey in Ez. injection Ez as ->. lra. }
  destruct (cumulative_vals i ltac:(lia)) as (m & Em & _). pose proof (IH j y m ltac:(lia) ltac:(lia) Ey Em). destruct (cp_step i Hi m z Em Ez). lra.
Qed.

(** The index is at most [i] exactly when the number is below a threshold. *)
Theorem discrete_threshold i : (i < length w)%nat -> exists T, (0 <= T <= 2 ^ 64)%Z
  /\ (forall a b l, (0 <= a < 2 ^ 32)%Z -> (0 <= b < 2 ^ 32)%Z -> exists k, discrete w (a :: b :: l) = Ok (Z.of_nat k, l) /\ (k < length w)%nat /\ ((k <= i)%nat <-> (pair_number a b < T)%Z))
  /\ Rabs (IZR T / IZR (2 ^ 64) - share (map dval w) i) <= 4 * x.
Proof.
  intros Hi. pose proof x_pos as X0. pose proof roundoff_pos as U0.
  assert (Ux : u <= x). { unfold x. rewrite <- (Rmult_1_l u) at 1. apply Rmult_le_compat_r; [lra|]. change 1 with (INR 1). apply le_INR. lia. }
  destruct (Nat.eq_dec i (length w - 1)) as [->|Ni].
  - exists (2 ^ 64)%Z. split; [lia|]. split.
    + intros a b l Ha Hb. destruct (discrete_search w a b l Hn Ha Hb) as (c & k & _ & _ & _ & E & Hk & _). exists k. split; [exact E|]. split; [exact Hk|].
      unfold pair_number. split; intros _; lia.
    + unfold share. replace (S (length w - 1)) with (length (map dval w)) by (rewrite map_length; lia). rewrite firstn_all. fold Sm. unfold Rdiv. rewrite !Rinv_r by (lra || (apply IZR_neq; lia)).
      rewrite Rminus_diag_eq by reflexivity. rewrite Rabs_R0. lra.
  - destruct (cumulative_vals i Hi) as (y & Ey & Dy & Fy & Py & By).
    destruct (threshold_le (dval y)) as (T & HT & KT & BT). exists T. split; [exact HT|]. split.
    + intros a b l Ha Hb. destruct (discrete_search w a b l Hn Ha Hb) as (c & k & Dc & Fc & Vc & E & Hk & (yk & Eyk & Ck) & Cp). exists k. split; [exact E|]. split; [exact Hk|].
      assert (HN : (0 <= pair_number a b < 2 ^ 64)%Z) by (unfold pair_number; lia). rewrite <- (KT _ HN), <- Vc. split.
      * intros Hki. rewrite cumulative_nth in Eyk by lia. fold S' in Eyk. change (map (fun x0 => fdiv x0 S') w) with ps in Eyk.
        destruct (cumulative_vals k Hk) as (y2 & Ey2 & Dy2 & Fy2 & _). rewrite Eyk in Ey2. injection Ey2 as <-.
        rewrite lt_val in Ck by assumption. destruct (Rlt_bool_spec (dval yk) (dval c)); [discriminate|]. pose proof (cp_mono i k yk y Hki Hi Eyk Ey). lra.
      * intros Hc. destruct (le_gt_dec k i) as [L|L]; [exact L|]. exfalso. destruct (Cp ltac:(lia)) as (yp & Eyp & Cyp).
        rewrite cumulative_nth in Eyp by lia. fold S' in Eyp. change (map (fun x0 => fdiv x0 S') w) with ps in Eyp.
        destruct (cumulative_vals (k - 1) ltac:(lia)) as (y2 & Ey2 & Dy2 & Fy2 & _). rewrite Eyp in Ey2. injection Ey2 as <-.
        rewrite lt_val in Cyp by assumption. destruct (Rlt_bool_spec (dval yp) (dval c)); [|discriminate]. pose proof (cp_mono (k - 1) i y yp ltac:(lia) ltac:(lia) Ey Eyp). lra.
    + destruct (ratio (S i)) as ([r0 r1] & _). fold Sm in r0, r1. unfold share in *. fold Sm in By |- *. set (r := rsum (firstn (S i) (map dval w)) / Sm) in *.
      assert (P64 : 0 < IZR (2 ^ 64)) by (apply IZR_lt; lia).
      destruct (Rle_dec (dval y) 1) as [Ly|Ly].
      * specialize (BT (conj Py Ly)). assert (Bd : Rabs (IZR T / IZR (2 ^ 64) - dval y) <= u).
        { replace (IZR T / IZR (2 ^ 64) - dval y) with ((IZR T - dval y * IZR (2 ^ 64)) / IZR (2 ^ 64)) by (field; lra). unfold Rdiv. rewrite Rabs_mult, (Rabs_pos_eq (/ _)) by (left; now apply Rinv_0_lt_compat).
          apply (Rmult_le_reg_r (IZR (2 ^ 64))); [exact P64|]. rewrite Rmult_assoc, Rinv_l, Rmult_1_r by lra. rewrite u64, Rmult_assoc, (Rmult_comm (bpow _ _)), pow64. lra. }
        replace (IZR T / IZR (2 ^ 64) - r) with ((IZR T / IZR (2 ^ 64) - dval y) + (dval y - r)) by ring. eapply Rle_trans; [apply Rabs_triang|]. lra.
      * assert (T = (2 ^ 64)%Z). { assert (C : cval (2 ^ 64 - 1) <= dval y) by (pose proof (cval_range (2 ^ 64 - 1) ltac:(lia)); lra). apply KT in C; lia. } subst T.
        unfold Rdiv at 1. rewrite Rinv_r by lra. apply Rabs_le_inv in By. apply Rabs_le. lra.
Qed.

(** A weight 0, except the first and the last, is never drawn. *)
Theorem discrete_skips_zero i a b l : (0 < i)%nat -> (i < length w - 1)%nat -> dval (nth i w (dbl 0)) = 0 -> (0 <= a < 2 ^ 32)%Z -> (0 <= b < 2 ^ 32)%Z ->
  exists k, discrete w (a :: b :: l) = Ok (Z.of_nat k, l) /\ (k < length w)%nat /\ k <> i.
Proof.
  intros H0 Hi Z Ha Hb. destruct (discrete_search w a b l Hn Ha Hb) as (c & k & Dc & Fc & Vc & E & Hk & (yk & Eyk & Ck) & Cp). exists k. split; [exact E|]. split; [exact Hk|].
  intros ->. destruct (Cp H0) as (yp & Eyp & Cyp). rewrite cumulative_nth in Eyk, Eyp by lia. fold S' in Eyk, Eyp. change (map (fun x0 => fdiv x0 S') w) with ps in Eyk, Eyp.
  destruct i as [|i]; [lia|]. replace (S i - 1)%nat with i in Eyp by lia. destruct (cp_step i ltac:(lia) yp yk Eyp Eyk) as [_ Q]. specialize (Q Z).
  destruct (cumulative_vals i ltac:(lia)) as (y2 & Ey2 & Dy2 & Fy2 & _). rewrite Eyp in Ey2. injection Ey2 as <-. destruct (cumulative_vals (S i) ltac:(lia)) as (y3 & Ey3 & Dy3 & Fy3 & _). rewrite Eyk in Ey3. injection Ey3 as <-.
  rewrite lt_val in Ck, Cyp by assumption. rewrite Q in Ck. congruence.
Qed.
End Weights.
