(** * DistProofs: generate_canonical, Bernoulli and discrete distributions. *)

From Coq Require Import ZArith List Bool Lia Floats.SpecFloat Reals Lra.
From Flocq Require Import Core Relative Plus_error BinarySingleNaN.
From Verif Require Import Base Spec Coerce Reduce Random RandomSpec Stats ReduceSpec StatsSpec RandomProofs StatsProofs ReadNumSpec ReadNumProofs Prod ProdSpec ProdProofs MathProofs Dist DistSpec.
Import ListNotations.
Open Scope Z_scope.

Local Notation fex := (FLT_exp (-1074) 53).
Local Notation rnd := (round radix2 fex ZnearestE).
Local Existing Instance Hprec.
Local Existing Instance Hmax.
Local Existing Instance Vfex.
Local Notation BF := (binary_float 53 1024).
Local Notation u := roundoff.
Open Scope R_scope.

Lemma lt_val x y : is_double x -> is_double y -> finite x -> finite y -> SFltb x y = Rlt_bool (dval x) (dval y).
Proof. intros Hx Hy Fx Fy. lifts. rewrite finite_is in *. rewrite !dval_B2R. rewrite <- Bltb_correct by assumption. reflexivity. Qed.
Lemma le_val x y : is_double x -> is_double y -> finite x -> finite y -> SFleb x y = Rle_bool (dval x) (dval y).
Proof. intros Hx Hy Fx Fy. lifts. rewrite finite_is in *. rewrite !dval_B2R. rewrite <- Bleb_correct by assumption. reflexivity. Qed.

Lemma fadd_ok x y : is_double x -> is_double y -> finite x -> finite y -> Rabs (dval x + dval y) <= bpow radix2 1023 -> finite (fadd x y).
Proof.
  intros Hx Hy Fx Fy B. lifts. rewrite fadd_equiv. rewrite !finite_is in *. rewrite !dval_B2R in B.
  pose proof (Bplus_correct 53 1024 Hprec Hmax mode_NE b0 b Fx Fy) as C. change (SpecFloat.fexp 53 1024) with fex in C. change (round_mode mode_NE) with ZnearestE in C.
  rewrite Rlt_bool_true in C by now apply in_range. destruct C as (_ & C & _). now rewrite C.
Qed.

(** ** generate_canonical *)
Definition two64 : spec_float := S754_finite false 4503599627370496 12.
Lemma two64_val : dval two64 = IZR (2 ^ 64).
Proof. cbn [dval]. change (2 ^ 64)%Z with (4503599627370496 * 2 ^ 12)%Z. rewrite mult_IZR. apply Rmult_eq_compat_l. assert (P : IZR (2 ^ 12) = powerRZ 2 12) by (change (powerRZ 2 12) with (2 ^ Pos.to_nat 12); rewrite pow_IZR; reflexivity). symmetry. exact P. Qed.
Lemma one_val : dval (dbl 1) = 1 /\ finite (dbl 1).
Proof. split; [apply (dbl_val 1)|apply (dbl_finite 1)]; cbn; lia. Qed.
Lemma bpowZ e : (0 <= e)%Z -> bpow radix2 e = IZR (2 ^ e).
Proof. intros H. symmetry. apply (IZR_Zpower radix2 e H). Qed.
Lemma int_format z e : (Z.abs z < 2 ^ 53)%Z -> (0 <= e)%Z -> generic_format radix2 fex (IZR z * bpow radix2 e).
Proof.
  intros Hz He. change (IZR z * bpow radix2 e) with (F2R (Float radix2 z e)). apply generic_format_FLT. exists (Float radix2 z e); auto. cbn. lia.
Qed.
Lemma scale_format x : generic_format radix2 fex x -> x <> 0 -> (1 <= mag radix2 x)%Z -> generic_format radix2 fex (x * bpow radix2 (-64)).
Proof.
  intros G N0 M. rewrite G at 1. unfold F2R. cbn [Fnum Fexp]. rewrite Rmult_assoc, <- bpow_plus.
  set (m := Ztrunc _). change (IZR m * bpow radix2 (cexp radix2 fex x + -64)) with (F2R (Float radix2 m (cexp radix2 fex x + -64))).
  apply generic_format_F2R. intros _.
  assert (E : F2R (Float radix2 m (cexp radix2 fex x + -64)) = x * bpow radix2 (-64)). { rewrite G at 2. unfold F2R. cbn [Fnum Fexp]. rewrite Rmult_assoc, <- bpow_plus. reflexivity. }
  unfold cexp in *. rewrite E, mag_mult_bpow by exact N0. unfold FLT_exp in *. lia.
Qed.
Lemma small_bound x : Rabs x <= IZR (2 ^ 100) -> Rabs x <= bpow radix2 1023.
Proof. intros H. eapply Rle_trans; [exact H|]. rewrite <- bpowZ by lia. apply bpow_le. lia. Qed.

(** Value of the result, N being the two outputs as one number. *)
Definition rN (N : Z) : R := rnd (IZR N).
Definition cval (N : Z) : R := if Rle_bool (IZR (2 ^ 64)) (rN N) then 1 - u else rN N * bpow radix2 (-64).

Lemma rN_err N : (0 <= N < 2 ^ 64)%Z -> Rabs (rN N - IZR N) <= 1024.
Proof.
  intros H. unfold rN. eapply Rle_trans; [apply error_le_half_ulp; [apply Vfex]|].
  destruct (Z.eq_dec N 0) as [->|N0]. { rewrite ulp_FLT_small; [|apply Hprec|rewrite Rabs_R0; apply bpow_gt_0]. assert (bpow radix2 (-1074) <= bpow radix2 0) by (apply bpow_le; lia). change (bpow radix2 0) with 1 in *. lra. }
  assert (M : (mag radix2 (IZR N) <= 64)%Z). { apply mag_le_bpow; [now apply IZR_neq|]. rewrite bpowZ by lia. rewrite <- abs_IZR. apply IZR_lt. lia. }
  rewrite ulp_neq_0 by now apply IZR_neq. unfold cexp. assert (B : bpow radix2 (fex (mag radix2 (IZR N))) <= bpow radix2 11) by (apply bpow_le; unfold FLT_exp; lia).
  rewrite (bpowZ 11) in B by lia. change (2 ^ 11)%Z with 2048%Z in B. lra.
Qed.
Lemma rN_mono N N' : (N <= N')%Z -> rN N <= rN N'.
Proof. intros H. apply round_le; [apply Vfex|apply valid_rnd_N|]. now apply IZR_le. Qed.
Lemma rN_nonneg N : (0 <= N)%Z -> 0 <= rN N.
Proof. intros H. apply round_ge_generic; [apply Vfex|apply valid_rnd_N|apply generic_format_0|now apply IZR_le]. Qed.
Lemma rN_max N : (N <= 2 ^ 64)%Z -> rN N <= IZR (2 ^ 64).
Proof. intros H. apply round_le_generic; [apply Vfex|apply valid_rnd_N| |now apply IZR_le]. rewrite <- (bpowZ 64) by lia. apply generic_format_bpow. unfold FLT_exp. lia. Qed.
Lemma pow64 : IZR (2 ^ 64) * bpow radix2 (-64) = 1.
Proof. rewrite <- (bpowZ 64) by lia. rewrite <- bpow_plus. reflexivity. Qed.
Lemma rN_top N : rN N < IZR (2 ^ 64) -> rN N <= IZR (2 ^ 64 - 2 ^ 11).
Proof.
  intros H. rewrite minus_IZR. rewrite <- (bpowZ 64), <- (bpowZ 11) in * by lia.
  replace (bpow radix2 64 - bpow radix2 11) with (pred radix2 fex (bpow radix2 64)) by (rewrite pred_bpow; reflexivity).
  apply pred_ge_gt; [apply Vfex|apply generic_format_round; [apply Vfex|apply valid_rnd_N]|apply generic_format_bpow; unfold FLT_exp; lia|exact H].
Qed.

Lemma uval : u = bpow radix2 (-53). Proof. exact roundoff_bpow. Qed.
Lemma u64 : u = 2048 * bpow radix2 (-64).
Proof. rewrite uval. change 2048 with (IZR (2 ^ 11)). rewrite <- (bpowZ 11) by lia. rewrite <- bpow_plus. reflexivity. Qed.

Lemma cval_range N : (0 <= N < 2 ^ 64)%Z -> 0 <= cval N <= 1 - u.
Proof.
  intros H. unfold cval. pose proof roundoff_pos. pose proof roundoff_lt1. destruct (Rle_bool_spec (IZR (2 ^ 64)) (rN N)) as [C|C]; [lra|].
  pose proof (rN_nonneg N ltac:(lia)) as P. apply rN_top in C. pose proof (bpow_gt_0 radix2 (-64)) as B. split; [apply Rmult_le_pos; lra|].
  apply (Rmult_le_compat_r (bpow radix2 (-64))) in C; [|lra]. rewrite minus_IZR, Rmult_minus_distr_r, pow64 in C. change (IZR (2 ^ 11)) with 2048 in C. rewrite u64. lra.
Qed.
Lemma cval_mono N N' : (0 <= N <= N')%Z -> (N' < 2 ^ 64)%Z -> cval N <= cval N'.
Proof.
  intros H H'. pose proof (cval_range N ltac:(lia)) as R1. pose proof (rN_mono N N' ltac:(lia)) as M. unfold cval in *.
  destruct (Rle_bool_spec (IZR (2 ^ 64)) (rN N)) as [C|C]; destruct (Rle_bool_spec (IZR (2 ^ 64)) (rN N')) as [C'|C']; try lra.
  apply Rmult_le_compat_r; [apply bpow_ge_0|exact M].
Qed.
(** Distance from N / 2^64. *)
Lemma cval_err N : (0 <= N < 2 ^ 64)%Z -> - 1024 <= IZR N - cval N * IZR (2 ^ 64) <= 2047.
Proof.
  intros H. pose proof (rN_err N H) as E. apply Rabs_le_inv in E. unfold cval. destruct (Rle_bool_spec (IZR (2 ^ 64)) (rN N)) as [C|C].
  - assert (U : u * IZR (2 ^ 64) = 2048) by (rewrite u64, Rmult_assoc, (Rmult_comm (bpow _ _)), pow64; ring).
    rewrite Rmult_minus_distr_r, U, Rmult_1_l. assert (IZR N <= IZR (2 ^ 64 - 1)) by (apply IZR_le; lia). rewrite minus_IZR in *. lra.
  - rewrite Rmult_assoc, (Rmult_comm (bpow _ _)), pow64, Rmult_1_r. lra.
Qed.

Lemma canonical_val a b l : (0 <= a < 2 ^ 32)%Z -> (0 <= b < 2 ^ 32)%Z ->
  exists c, canonical (a :: b :: l) = Ok (c, l) /\ is_double c /\ finite c /\ dval c = cval (pair_number a b).
Proof.
  intros Ha Hb. unfold canonical. cbn [next bindO fst snd].
  change (fmul (dbl 1) (dbl (2 ^ 32))) with (dbl (2 ^ 32)). change (fmul (dbl (2 ^ 32)) (dbl (2 ^ 32))) with two64.
  assert (D1 : is_double (fmul (dbl a) (dbl 1))) by (apply fmul_double; apply dbl_double).
  destruct (fmul_int_val (dbl a) (dbl 1) a 1 (dbl_double _) (dbl_double _) (dbl_finite a ltac:(lia)) (dbl_finite 1 ltac:(lia)) (dbl_val a ltac:(lia)) (dbl_val 1 ltac:(lia)) ltac:(lia)) as [F1 V1].
  rewrite Z.mul_1_r in V1. change (dbl 0) with fzero. destruct (fadd_zero_l _ D1 F1) as [F2 V2]. rewrite V1 in V2.
  set (s1 := fadd fzero (fmul (dbl a) (dbl 1))) in *. assert (D2 : is_double s1) by (apply fadd_double; [apply fzero_double|exact D1]). clearbody s1.
  assert (Vb : dval (dbl b) = IZR b) by (apply dbl_val; lia). assert (V32 : dval (dbl (2 ^ 32)) = IZR (2 ^ 32)) by (apply dbl_val; lia).
  assert (Fm : finite (fmul (dbl b) (dbl (2 ^ 32)))).
  { apply fmul_ok; try apply dbl_double; try (apply dbl_finite; lia). rewrite Vb, V32, <- mult_IZR. apply small_bound. rewrite <- abs_IZR. apply IZR_le. lia. }
  assert (Vm : dval (fmul (dbl b) (dbl (2 ^ 32))) = IZR (2 ^ 32 * b)).
  { rewrite fmul_val by (apply dbl_double || exact Fm). rewrite Vb, V32. rewrite round_generic; [rewrite <- mult_IZR; f_equal; ring|apply valid_rnd_N|].
    rewrite <- (bpowZ 32) by lia. apply int_format; lia. }
  set (m := fmul (dbl b) (dbl (2 ^ 32))) in *. assert (Dm : is_double m) by (apply fmul_double; apply dbl_double). clearbody m.
  assert (Es : dval s1 + dval m = IZR (pair_number a b)) by (rewrite V2, Vm, <- plus_IZR; reflexivity).
  assert (HN : (0 <= pair_number a b < 2 ^ 64)%Z) by (unfold pair_number; lia).
  assert (F3 : finite (fadd s1 m)). { apply fadd_ok; auto. rewrite Es. apply small_bound. rewrite <- abs_IZR. apply IZR_le. lia. }
  assert (V3 : dval (fadd s1 m) = rN (pair_number a b)) by (rewrite fadd_val, Es by auto; reflexivity).
  set (s2 := fadd s1 m) in *. assert (D3 : is_double s2) by (now apply fadd_double). clearbody s2.
  set (N := pair_number a b) in *. clearbody N. clear m s1 Es V1 D1 F1 D2 F2 V2 Fm Vm Dm Vb V32 a b Ha Hb.
  assert (D64 : is_double two64) by reflexivity. assert (N64 : dval two64 <> 0) by (rewrite two64_val; apply IZR_neq; lia).
  pose proof (rN_nonneg N ltac:(lia)) as P0. pose proof (rN_max N ltac:(lia)) as P1. pose proof (bpow_gt_0 radix2 (-64)) as B.
  assert (Ediv : dval s2 / dval two64 = rN N * bpow radix2 (-64)).
  { rewrite V3, two64_val. unfold Rdiv. f_equal. }
  assert (Hle : rN N * bpow radix2 (-64) <= 1) by (rewrite <- pow64; apply Rmult_le_compat_r; lra).
  assert (F4 : finite (fdiv s2 two64)).
  { apply fdiv_ok; auto. rewrite Ediv. apply small_bound. rewrite Rabs_pos_eq by (apply Rmult_le_pos; lra). eapply Rle_trans; [exact Hle|]. apply IZR_le. lia. }
  assert (V4 : dval (fdiv s2 two64) = rN N * bpow radix2 (-64)).
  { rewrite fdiv_val by auto. rewrite Ediv. apply round_generic; [apply valid_rnd_N|]. destruct (Z.eq_dec N 0) as [->|N0].
    - unfold rN. rewrite round_0 by apply valid_rnd_N. rewrite Rmult_0_l. apply generic_format_0.
    - apply scale_format; [apply generic_format_round; [apply Vfex|apply valid_rnd_N]| |].
      all: assert (M : 1 <= rN N) by (apply round_ge_generic; [apply Vfex|apply valid_rnd_N| |apply IZR_le; lia]; change 1 with (bpow radix2 0); apply generic_format_bpow; unfold FLT_exp; lia).
      + lra.
      + apply mag_ge_bpow. change (bpow radix2 (1 - 1)) with 1. rewrite Rabs_pos_eq by exact P0. exact M. }
  destruct one_val as [O1 O2]. rewrite le_val by (apply dbl_double || now apply fdiv_double || assumption). rewrite O1, V4.
  assert (Ec : Rle_bool 1 (rN N * bpow radix2 (-64)) = Rle_bool (IZR (2 ^ 64)) (rN N)).
  { rewrite <- pow64. destruct (Rle_bool_spec (IZR (2 ^ 64)) (rN N)) as [C|C].
    - apply Rle_bool_true. apply Rmult_le_compat_r; lra.
    - apply Rle_bool_false. apply Rmult_lt_compat_r; lra. }
  rewrite Ec. unfold cval. destruct (Rle_bool (IZR (2 ^ 64)) (rN N)).
  - exists below_one. split; [reflexivity|]. split; [reflexivity|]. split; [exact Logic.I|]. unfold below_one. cbn [dval].
    change (powerRZ 2 (-53)) with u. assert (K : u * IZR (2 ^ 53) = 1) by (rewrite uval, <- (bpowZ 53) by lia; rewrite <- bpow_plus; reflexivity).
    change 9007199254740991%Z with (2 ^ 53 - 1)%Z. rewrite minus_IZR. lra.
  - exists (fdiv s2 two64). split; [reflexivity|]. split; [now apply fdiv_double|]. auto.
Qed.

(** The hypothesis of C40, C51 about draws. *)
Theorem canonical_unit a b l : (0 <= a < 2 ^ 32)%Z -> (0 <= b < 2 ^ 32)%Z -> exists c, canonical (a :: b :: l) = Ok (c, l) /\ unit_double c.
Proof.
  intros Ha Hb. destruct (canonical_val a b l Ha Hb) as (c & E & D & F & V). exists c. split; [exact E|].
  assert (HN : (0 <= pair_number a b < 2 ^ 64)%Z) by (unfold pair_number; lia). pose proof (cval_range _ HN) as R1. pose proof roundoff_pos.
  split; [exact D|]. split.
  - rewrite le_val; auto; [|reflexivity|exact Logic.I]. rewrite V. apply Rle_bool_true. cbn. lra.
  - rewrite lt_val; auto; try reflexivity; try exact Logic.I. rewrite V. apply Rlt_bool_true.
    assert (O : dval RandomSpec.one = 1). { destruct one_val as [O1 _]. rewrite <- O1. reflexivity. } rewrite O. lra.
Qed.

(** ** thresholds: monotone tests of the draw *)
Lemma threshold (P : Z -> bool) M : (0 <= M)%Z -> (forall N N', 0 <= N <= N' -> N' < M -> P N' = true -> P N = true)%Z ->
  exists T, (0 <= T <= M)%Z /\ forall N, (0 <= N < M)%Z -> P N = true <-> (N < T)%Z.
Proof.
  intros HM. revert M HM. apply (natlike_ind (fun M => (forall N N', 0 <= N <= N' -> N' < M -> P N' = true -> P N = true)%Z ->
    exists T, (0 <= T <= M)%Z /\ forall N, (0 <= N < M)%Z -> P N = true <-> (N < T)%Z)).
  - intros _. exists 0%Z. split; [lia|]. intros; lia.
  - intros M HM IH Mo. destruct IH as (T & HT & K). { intros N N' H H' E. apply (Mo N N'); auto; lia. }
    destruct (P M) eqn:EM.
    + exists (Z.succ M). split; [lia|]. intros N HN. split; [lia|]. intros _. apply (Mo N M); auto; lia.
    + exists T. split; [lia|]. intros N HN. destruct (Z.eq_dec N M) as [->|Ne]; [|apply K; lia]. split; [congruence|]. intros HT'. lia.
Qed.

Lemma threshold_lt x : exists T, (0 <= T <= 2 ^ 64)%Z /\ (forall N, (0 <= N < 2 ^ 64)%Z -> cval N < x <-> (N < T)%Z) /\ (0 <= x <= 1 -> Rabs (IZR T - x * IZR (2 ^ 64)) < 2048).
Proof.
  destruct (threshold (fun N => Rlt_bool (cval N) x) (2 ^ 64) ltac:(lia)) as (T & HT & K).
  { intros N N' H H' E. destruct (Rlt_bool_spec (cval N') x); [|discriminate]. apply Rlt_bool_true. pose proof (cval_mono N N' H H'). lra. }
  assert (K' : forall N, (0 <= N < 2 ^ 64)%Z -> cval N < x <-> (N < T)%Z).
  { intros N HN. rewrite <- (K N HN). destruct (Rlt_bool_spec (cval N) x); split; intros; try assumption; try reflexivity; try lra; discriminate. }
  exists T. split; [exact HT|]. split; [exact K'|]. intros Hx. apply Rabs_def1.
  - destruct (Z.eq_dec T 0) as [->|T0]; [assert (0 <= x * IZR (2 ^ 64)) by (apply Rmult_le_pos; [lra|apply IZR_le; lia]); lra|].
    assert (C : cval (T - 1) < x) by (apply K'; lia). pose proof (cval_err (T - 1) ltac:(lia)) as E. rewrite minus_IZR in E.
    apply (Rmult_lt_compat_r (IZR (2 ^ 64))) in C; [|apply IZR_lt; lia]. lra.
  - destruct (Z.eq_dec T (2 ^ 64)) as [->|T0]; [assert (x * IZR (2 ^ 64) <= 1 * IZR (2 ^ 64)) by (apply Rmult_le_compat_r; [apply IZR_le; lia|lra]); lra|].
    assert (C : x <= cval T) by (apply Rnot_lt_le; intros C; apply K' in C; lia). pose proof (cval_err T ltac:(lia)) as E.
    apply (Rmult_le_compat_r (IZR (2 ^ 64))) in C; [|apply IZR_le; lia]. lra.
Qed.
Lemma threshold_le x : exists T, (0 <= T <= 2 ^ 64)%Z /\ (forall N, (0 <= N < 2 ^ 64)%Z -> cval N <= x <-> (N < T)%Z) /\ (0 <= x <= 1 -> Rabs (IZR T - x * IZR (2 ^ 64)) <= 2048).
Proof.
  destruct (threshold (fun N => Rle_bool (cval N) x) (2 ^ 64) ltac:(lia)) as (T & HT & K).
  { intros N N' H H' E. destruct (Rle_bool_spec (cval N') x); [|discriminate]. apply Rle_bool_true. pose proof (cval_mono N N' H H'). lra. }
  assert (K' : forall N, (0 <= N < 2 ^ 64)%Z -> cval N <= x <-> (N < T)%Z).
  { intros N HN. rewrite <- (K N HN). destruct (Rle_bool_spec (cval N) x); split; intros; try assumption; try reflexivity; try lra; discriminate. }
  exists T. split; [exact HT|]. split; [exact K'|]. intros Hx. apply Rabs_le. split.
  - destruct (Z.eq_dec T (2 ^ 64)) as [->|T0]; [assert (x * IZR (2 ^ 64) <= 1 * IZR (2 ^ 64)) by (apply Rmult_le_compat_r; [apply IZR_le; lia|lra]); lra|].
    assert (C : x < cval T) by (apply Rnot_le_lt; intros C; apply K' in C; lia). pose proof (cval_err T ltac:(lia)) as E.
    apply (Rmult_lt_compat_r (IZR (2 ^ 64))) in C; [|apply IZR_lt; lia]. lra.
  - destruct (Z.eq_dec T 0) as [->|T0]; [assert (0 <= x * IZR (2 ^ 64)) by (apply Rmult_le_pos; [lra|apply IZR_le; lia]); lra|].
    assert (C : cval (T - 1) <= x) by (apply K'; lia). pose proof (cval_err (T - 1) ltac:(lia)) as E. rewrite minus_IZR in E.
    apply (Rmult_le_compat_r (IZR (2 ^ 64))) in C; [|apply IZR_le; lia]. lra.
Qed.

(** ** Bernoulli *)
Lemma bernoulli_val p a b l : is_double p -> finite p -> 0 <= dval p <= 1 -> (0 <= a < 2 ^ 32)%Z -> (0 <= b < 2 ^ 32)%Z ->
  bernoulli p (a :: b :: l) = Ok (Rlt_bool (cval (pair_number a b)) (dval p), l).
Proof.
  intros Dp Fp Hp Ha Hb. destruct (canonical_val a b l Ha Hb) as (c & E & D & F & V). unfold bernoulli. rewrite E. cbn [bindO fst snd].
  assert (HN : (0 <= pair_number a b < 2 ^ 64)%Z) by (unfold pair_number; lia). pose proof (cval_range _ HN) as R1. pose proof roundoff_pos.
  change (fsub (dbl 1) (dbl 0)) with (dbl 1).
  assert (D0 : is_double (dbl 0)) by apply dbl_double. assert (F0 : finite (dbl 0)) by exact Logic.I. assert (V0 : dval (dbl 0) = 0) by reflexivity.
  assert (Fs : finite (fsub c (dbl 0))). { apply fsub_ok; auto. rewrite V0, V. apply small_bound. rewrite Rminus_0_r, Rabs_pos_eq by lra. assert (1 <= IZR (2 ^ 100)) by (apply IZR_le; lia). lra. }
  assert (Vs : dval (fsub c (dbl 0)) = cval (pair_number a b)). { rewrite fsub_val by auto. rewrite V0, Rminus_0_r, round_generic; [exact V|apply valid_rnd_N|now apply format]. }
  destruct one_val as [O1 O2]. assert (Fm : finite (fmul p (dbl 1))). { apply fmul_ok; auto. rewrite O1, Rmult_1_r. apply small_bound. rewrite Rabs_pos_eq by lra. assert (1 <= IZR (2 ^ 100)) by (apply IZR_le; lia). lra. }
  assert (Vm : dval (fmul p (dbl 1)) = dval p). { rewrite fmul_val by (apply dbl_double || assumption). rewrite O1, Rmult_1_r. apply round_generic; [apply valid_rnd_N|now apply format]. }
  rewrite lt_val by (now apply fsub_double || (apply fmul_double; [assumption|apply dbl_double]) || assumption). rewrite Vs, Vm. reflexivity.
Qed.
