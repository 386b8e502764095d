(** * DistChance: chances of the samples that use two outputs. *)

From Coq Require Import ZArith List Bool Lia Floats.SpecFloat Reals Lra.
From Flocq Require Import Raux.
From Verif Require Import Base Spec Lemmas Coerce Random Stats StatsSpec StatsProofs Dist DistSpec DistCount DistProofs DistDiscrete.
Import ListNotations.
Open Scope Z_scope.
Local Opaque iota.
Local Notation W := (2 ^ 32).

Lemma sum_rows g k : 0 <= k -> sum g (iota (W * k)) = sum (fun b => sum (fun a => g (a + W * b)) (iota W)) (iota k).
Proof.
  intros H. revert k H. apply (natlike_ind (fun k => sum g (iota (W * k)) = sum (fun b => sum (fun a => g (a + W * b)) (iota W)) (iota k))).
  - reflexivity.
  - intros k Hk IH. replace (W * Z.succ k) with (W * k + W) by lia. rewrite iota_app, sum_app, IH, sum_map by lia.
    rewrite <- Z.add_1_r, iota_succ, sum_app by lia. cbn [sum]. rewrite Z.add_0_r. f_equal. apply sum_ext. intros a _. f_equal. lia.
Qed.
Lemma sum_pairs g : sum (fun a => sum (fun b => g (pair_number a b)) (iota W)) (iota W) = sum g (iota (2 ^ 64)).
Proof. change (2 ^ 64) with (W * W). rewrite sum_rows by lia. rewrite sum_swap. reflexivity. Qed.

Definition chance_of {A} (eqb : A -> A -> bool) (v : A) (D : list Z -> outcome (A * list Z)) (n : nat) : R := chance n (fun s => yields eqb v (D s)).
Lemma chance_sum n P : chance n P = (IZR (sum (fun s => ind (P s)) (sequences n)) / IZR (2 ^ (32 * Z.of_nat n)))%R.
Proof. unfold chance. now rewrite count_sum. Qed.

(** Tests of the pair that hold on an interval of numbers. *)
Lemma chance_interval P lo hi : 0 <= lo <= hi -> hi <= 2 ^ 64 -> (forall a b, 0 <= a < W -> 0 <= b < W -> P [a; b] = true <-> lo <= pair_number a b < hi) ->
  chance 2 P = (IZR (hi - lo) / IZR (2 ^ 64))%R.
Proof.
  intros H H' K. rewrite chance_sum. f_equal. f_equal. rewrite <- (count_interval (2 ^ 64) lo hi) by lia. rewrite <- sum_pairs.
  rewrite sum_seq. apply sum_ext. intros a Ha. rewrite in_iota in Ha. rewrite sum_seq. apply sum_ext. intros b Hb. rewrite in_iota in Hb. cbn [sequences sum]. rewrite Z.add_0_r.
  f_equal. specialize (K a b Ha Hb). destruct (P [a; b]); symmetry.
  - rewrite andb_true_iff, Z.leb_le, Z.ltb_lt. now apply K.
  - apply not_true_is_false. rewrite andb_true_iff, Z.leb_le, Z.ltb_lt. intros C. apply K in C. discriminate.
Qed.

(** ** samplers that use two outputs *)
Definition two_reader {A} (D : list Z -> outcome (A * list Z)) : Prop :=
  D [] = Timeout /\ (forall a, D [a] = Timeout) /\ (forall a b, (exists v, forall l, D (a :: b :: l) = Ok (v, l)) \/ (forall l v r, D (a :: b :: l) <> Ok (v, r))).
Lemma two_prefix {A} (D : list Z -> outcome (A * list Z)) : two_reader D -> prefix_reader D.
Proof.
  intros (E0 & E1 & E2) s v r H. destruct s as [|a [|b l]]; [congruence|rewrite E1 in H; discriminate|].
  destruct (E2 a b) as [(w & K)|K]; [|now apply K in H]. rewrite K in H. injection H as <- <-. exists [a; b]. split; [reflexivity|]. intros r'. apply K.
Qed.
Lemma two_used {A} eqb (v : A) D j : two_reader D -> j <> 2%nat -> sum (used eqb v D) (sequences j) = 0.
Proof.
  intros (E0 & E1 & E2) Hj. apply sum_zero. intros s Hs. rewrite seq_outputs in Hs. destruct Hs as [L _]. unfold used.
  destruct s as [|a [|b l]]; [now rewrite E0|now rewrite E1|]. destruct (E2 a b) as [(w & K)|K].
  - rewrite K. destruct l; [cbn in L; lia|reflexivity].
  - destruct (D (a :: b :: l)) as [[w r]| | | |] eqn:E; try reflexivity. now apply K in E.
Qed.
Lemma two_draws {A} eqb (D : list Z -> outcome (A * list Z)) : two_reader D -> forall vs,
  chance (2 * length vs) (fun s => yields (list_eqb eqb) vs (draws D (length vs) s)) = fold_right Rmult 1%R (map (fun v => chance 2 (fun s => yields eqb v (D s))) vs).
Proof.
  intros HD. induction vs as [|v vs IH].
  - rewrite chance_sum. cbn [length map fold_right]. change (IZR (sum _ _)) with 1%R. change (IZR (2 ^ _)) with 1%R. field.
  - cbn [length map fold_right]. rewrite <- IH. rewrite !chance_sum. change (fun s => ind (yields (list_eqb eqb) (v :: vs) (draws D (S (length vs)) s))) with (used (list_eqb eqb) (v :: vs) (draws D (S (length vs)))).
    rewrite draws_count by now apply two_prefix. rewrite (sum_unique _ _ 2).
    + replace (2 * S (length vs) - 2)%nat with (2 * length vs)%nat by lia. rewrite mult_IZR.
      change (fun s => ind (yields (list_eqb eqb) vs (draws D (length vs) s))) with (used (list_eqb eqb) vs (draws D (length vs))). change (fun s => ind (yields eqb v (D s))) with (used eqb v D).
      replace (32 * Z.of_nat (2 * S (length vs))) with (32 * Z.of_nat 2 + 32 * Z.of_nat (2 * length vs)) by lia. rewrite Z.pow_add_r, mult_IZR by lia. field.
      split; apply IZR_neq; apply Z.pow_nonzero; lia.
    + lia.
    + intros j _ Nj. rewrite two_used by assumption. reflexivity.
Qed.

Lemma canonical_two a b : exists c, forall l, canonical (a :: b :: l) = Ok (c, l).
Proof. eexists. intros l. unfold canonical. cbn [next bindO fst snd]. reflexivity. Qed.
Lemma bernoulli_two p : two_reader (bernoulli p).
Proof.
  split; [reflexivity|]. split; [reflexivity|]. intros a b. left. destruct (canonical_two a b) as (c & K). eexists. intros l. unfold bernoulli. rewrite K. cbn [bindO fst snd]. reflexivity.
Qed.
Lemma discrete_two w : (2 <= length w)%nat -> two_reader (discrete w).
Proof.
  intros Hw. pose proof (cumulative_length w Hw) as L. unfold two_reader, discrete. destruct (cumulative w) as [|x cp]; [cbn in L; lia|].
  split; [reflexivity|]. split; [reflexivity|]. intros a b. destruct (canonical_two a b) as (c & K).
  destruct (lower_bound (S (length (x :: cp))) (x :: cp) c 0 (length (x :: cp))) as [k| | | |] eqn:E.
  - left. exists (Z.of_nat k). intros l. rewrite K. cbn [bindO fst snd]. rewrite E. reflexivity.
  - right. intros l v r. rewrite K. cbn [bindO fst snd]. rewrite E. discriminate.
  - right. intros l v r. rewrite K. cbn [bindO fst snd]. rewrite E. discriminate.
  - right. intros l v r. rewrite K. cbn [bindO fst snd]. rewrite E. discriminate.
  - right. intros l v r. rewrite K. cbn [bindO fst snd]. rewrite E. discriminate.
Qed.

(** ** chances *)
Open Scope R_scope.
Local Notation u := roundoff.
Theorem bernoulli_chance p : is_double p -> finite p -> 0 <= dval p <= 1 ->
  Rabs (chance 2 (fun s => yields Bool.eqb true (bernoulli p s)) - dval p) < u.
Proof.
  intros Dp Fp Hp. destruct (threshold_lt (dval p)) as (T & HT & K & B). specialize (B Hp).
  rewrite (chance_interval _ 0 T); [|lia|lia|].
  2:{ intros a b Ha Hb. rewrite (bernoulli_val p a b []) by assumption. cbn [yields]. assert (HN : (0 <= pair_number a b < 2 ^ 64)%Z) by (unfold pair_number; lia). specialize (K _ HN).
      destruct (Rlt_bool_spec (cval (pair_number a b)) (dval p)) as [C|C]; cbn [Bool.eqb].
      - split; [|reflexivity]. intros _. apply K in C. lia.
      - split; [discriminate|]. intros [_ Q]. apply K in Q. lra. }
  rewrite Z.sub_0_r. assert (P64 : 0 < IZR (2 ^ 64)) by (apply IZR_lt; lia).
  replace (IZR T / IZR (2 ^ 64) - dval p) with ((IZR T - dval p * IZR (2 ^ 64)) / IZR (2 ^ 64)) by (field; lra). unfold Rdiv. rewrite Rabs_mult, (Rabs_pos_eq (/ _)) by (left; now apply Rinv_0_lt_compat).
  apply (Rmult_lt_reg_r (IZR (2 ^ 64))); [exact P64|]. rewrite Rmult_assoc, Rinv_l, Rmult_1_r by lra.
  rewrite u64, Rmult_assoc, (Rmult_comm (Raux.bpow _ _)), pow64. lra.
Qed.

Lemma share_step w i : rsum w <> 0 -> (i < length w)%nat -> weight_share w i = share w i - match i with O => 0 | S j => share w j end.
Proof.
  intros N Hi. unfold weight_share, share. assert (E : rsum (firstn (S i) w) = rsum (firstn i w) + nth i w 0).
  { revert i Hi. clear N. induction w as [|y w IH]; intros i Hi; cbn [length] in Hi; [lia|]. destruct i as [|i].
    - cbn [firstn nth]. rewrite rsum_cons. change (rsum []) with 0. ring.
    - rewrite !firstn_cons, !rsum_cons. cbn [nth]. rewrite IH by lia. ring. }
  rewrite E. destruct i as [|i]; [|field; exact N]. change (rsum (firstn 0 w)) with 0. field. exact N.
Qed.

Theorem discrete_chance w i : (2 <= length w)%nat -> INR (length w) * u <= / 8 -> Forall good_weight w -> finite (fold_left fadd w (dbl 0)) -> 0 < rsum (map dval w) -> (i < length w)%nat ->
  Rabs (chance 2 (fun s => yields Z.eqb (Z.of_nat i) (discrete w s)) - weight_share (map dval w) i) <= 8 * (INR (length w) * u).
Proof.
  intros Hn Hx G F Pos Hi. assert (P64 : 0 < IZR (2 ^ 64)) by (apply IZR_lt; lia).
  destruct (discrete_threshold w Hn G F Pos Hx i Hi) as (T & HT & K & B). rewrite share_step by (try rewrite map_length; lra || exact Hi).
  destruct i as [|j].
  - rewrite (chance_interval _ 0 T); [|lia|lia|].
    + rewrite Z.sub_0_r, Rminus_0_r. eapply Rle_trans; [exact B|]. pose proof roundoff_pos. assert (0 <= INR (length w) * u) by (apply Rmult_le_pos; [apply pos_INR|lra]). lra.
    + intros a b Ha Hb. destruct (K a b [] Ha Hb) as (k & -> & _ & Q). cbn [yields]. assert (0 <= pair_number a b)%Z by (unfold pair_number; lia). rewrite Z.eqb_eq. lia.
  - destruct (discrete_threshold w Hn G F Pos Hx j ltac:(lia)) as (T' & HT' & K' & B').
    assert (Le : (T' <= T)%Z).
    { destruct (Z.le_gt_cases T' T) as [L|L]; [exact L|exfalso]. set (a := (T mod W)%Z). set (b := (T / W)%Z).
      assert (Ha : (0 <= a < W)%Z) by (apply Z.mod_pos_bound; lia). assert (Hb : (0 <= b < W)%Z) by (unfold b; split; [apply Z.div_pos; lia|apply Z.div_lt_upper_bound; lia]).
      assert (E : pair_number a b = T) by (unfold pair_number, a, b; rewrite (Z.div_mod T W) at 3; lia).
      destruct (K a b [] Ha Hb) as (k & E1 & _ & Q). destruct (K' a b [] Ha Hb) as (k' & E2 & _ & Q'). rewrite E1 in E2. injection E2 as E2. rewrite E in *. lia. }
    rewrite (chance_interval _ T' T); [|lia|lia|].
    + rewrite minus_IZR. replace ((IZR T - IZR T') / IZR (2 ^ 64) - (share (map dval w) (S j) - share (map dval w) j)) with ((IZR T / IZR (2 ^ 64) - share (map dval w) (S j)) - (IZR T' / IZR (2 ^ 64) - share (map dval w) j)) by (field; lra).
      apply Rabs_le_inv in B, B'. apply Rabs_le. lra.
    + intros a b Ha Hb. destruct (K a b [] Ha Hb) as (k & E1 & _ & Q). destruct (K' a b [] Ha Hb) as (k' & E2 & _ & Q'). rewrite E1 in E2. injection E2 as E2. rewrite E1. cbn [yields]. rewrite Z.eqb_eq. lia.
Qed.

Lemma good_dbl l : Forall (fun z => 0 <= z <= 2 ^ 53)%Z l -> Forall good_weight (map dbl l).
Proof.
  intros H. apply Forall_map. eapply Forall_impl; [|exact H]. intros z Hz. cbn beta in Hz. split; [apply dbl_double|]. split; [apply dbl_finite; lia|]. rewrite dbl_val by lia. apply IZR_le. lia.
Qed.
