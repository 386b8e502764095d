(** * MathPdf2: symmetry, sign, peak and degenerate cases of normal_pdf; a correctly rounded exp. *)

From Coq Require Import ZArith List Bool Lia Floats.SpecFloat Reals Lra.
From Flocq Require Import Core Relative Plus_error Mult_error BinarySingleNaN.
From Verif Require Import Base Spec Coerce Reduce Random Stats ReduceSpec StatsSpec RandomProofs StatsProofs ReadNumSpec ReadNumProofs ProdProofs MathFn MathSpec MathProofs MathPdf.
Import ListNotations.
Open Scope Z_scope.

Local Notation fex := (FLT_exp (-1074) 53).
Local Notation rnd := (round radix2 fex ZnearestE).
Local Existing Instance Hprec.
Local Existing Instance Hmax.
Local Existing Instance Vfex.
Local Notation BF := (binary_float 53 1024).
Local Notation u := roundoff.
Open Scope R_scope.

(** ** Symmetry *)
Lemma square_opp a : fsquare (SFopp a) = fsquare a.
Proof. destruct a as [s|s| |s m e]; try reflexivity; destruct s; reflexivity. Qed.

Lemma square_sub x y : is_double x -> is_double y -> fsquare (fsub x y) = fsquare (fsub y x).
Proof.
  intros Dx Dy. destruct (lift _ Dx) as [a Ea]. destruct (lift _ Dy) as [b Eb]. rewrite <- Ea, <- Eb in *.
  destruct (is_finite a && is_finite b) eqn:F.
  2:{ destruct a as [sa|sa| |sa ma ea Ha], b as [sb|sb| |sb mb eb Hb]; try discriminate F; try reflexivity; destruct sa; try destruct sb; reflexivity. }
  apply andb_prop in F. destruct F as [Fa Fb]. rewrite !fsub_equiv.
  pose proof (Bminus_correct 53 1024 Hprec Hmax mode_NE a b Fa Fb) as C1. pose proof (Bminus_correct 53 1024 Hprec Hmax mode_NE b a Fb Fa) as C2.
  change (SpecFloat.fexp 53 1024) with fex in *. change (round_mode mode_NE) with ZnearestE in *.
  assert (E : rnd (B2R b - B2R a) = - rnd (B2R a - B2R b)) by (rewrite <- round_NE_opp; f_equal; ring). rewrite E, Rabs_Ropp in C2.
  destruct (Rlt_bool _ _).
  - destruct C1 as (V1 & F1 & _), C2 as (V2 & F2 & _). set (p := Bminus mode_NE a b) in *. set (q := Bminus mode_NE b a) in *. rewrite <- V1 in V2.
    destruct p as [sp|sp| |sp mp ep Hp]; try discriminate F1.
    + destruct q as [sq|sq| |sq mq eq Hq]; try discriminate F2; [destruct sp, sq; reflexivity|]. exfalso. cbn [B2R] in V2. rewrite Ropp_0 in V2.
      apply eq_0_F2R in V2. destruct sq; discriminate V2.
    + assert (Eq : q = Bopp (B754_finite sp mp ep Hp)).
      { apply B2R_inj; [|reflexivity|now rewrite B2R_Bopp]. destruct q as [sq|sq| |sq mq eq Hq]; try discriminate F2; [|reflexivity].
        exfalso. cbn [B2R] in V2. apply (f_equal Ropp) in V2. rewrite Ropp_0, Ropp_involutive in V2. symmetry in V2. apply eq_0_F2R in V2. destruct sp; discriminate V2. }
      rewrite Eq. cbn [Bopp B2SF]. symmetry. exact (square_opp (S754_finite sp mp ep)).
  - destruct C1 as (C1 & _), C2 as (C2 & _). rewrite C1, C2. cbn. destruct (Bsign a), (Bsign b); reflexivity.
Qed.

Theorem fpdf_symmetric fexp x mu sigma : is_double x -> is_double mu -> fpdf fexp x mu sigma = fpdf fexp mu x sigma.
Proof. intros Dx Dm. unfold fpdf. now rewrite (square_sub x mu). Qed.
Theorem fpdf_sigma_sign fexp x mu sigma : fpdf fexp x mu (SFopp sigma) = fpdf fexp x mu sigma.
Proof. unfold fpdf. now rewrite square_opp. Qed.

(** ** Degenerate scale *)
Lemma square_not_neg a : is_double a -> fsquare a = S754_nan \/ nonneg (fsquare a).
Proof. intros D. destruct a as [s|s| |s m e]; [right; apply fsquare_nonneg..|left; reflexivity|right; apply fsquare_nonneg]; try assumption; discriminate. Qed.

Lemma rnd_zero r : Rabs r < tiny -> rnd r = 0.
Proof.
  intros H. destruct (Req_dec r 0) as [->|N]; [apply round_0, valid_rnd_N|]. destruct (mag radix2 r) as [ex He]. specialize (He N).
  apply (round_N_small radix2 fex (fun x => negb (Z.even x)) r ex He).
  assert (L : bpow radix2 (ex - 1) < bpow radix2 (-1075)) by (rewrite tiny_bpow in H; lra). apply lt_bpow in L. unfold FLT_exp. lia.
Qed.

Lemma square_zero sigma : is_double sigma -> finite sigma -> Rabs (dval sigma) < bpow radix2 (-538) -> fsquare sigma = S754_zero false.
Proof.
  intros D F B. assert (P : Rabs (dval sigma * dval sigma) < tiny).
  { rewrite Rabs_mult. apply Rlt_trans with (bpow radix2 (-1076)); [|rewrite tiny_bpow; apply bpow_lt; lia]. change (-1076)%Z with (-538 + -538)%Z. rewrite bpow_plus.
    pose proof (Rabs_pos (dval sigma)). apply Rmult_le_0_lt_compat; assumption. }
  assert (Ff : finite (fsquare sigma)). { apply fmul_ok; try assumption. left. apply Rlt_trans with (1 := P). rewrite tiny_bpow. apply bpow_lt. lia. }
  assert (V : dval (fsquare sigma) = 0). { unfold fsquare in *. rewrite fmul_val by assumption. now apply rnd_zero. }
  assert (N : nonneg (fsquare sigma)). { apply fsquare_nonneg; [exact D|]. intros ->. exact F. }
  destruct (fsquare sigma) as [s|s| |s m e]; cbn in Ff, V, N; try contradiction; [now subst|]. exfalso. subst s.
  assert (0 < powerRZ 2 e) by (apply powerRZ_lt; lra). assert (0 < IZR (Z.pos m)) by (apply IZR_lt; lia). nra.
Qed.

Theorem fpdf_degenerate fexp x mu sigma : exp_special fexp -> is_double x -> is_double mu -> is_double sigma -> finite sigma ->
  Rabs (dval sigma) < bpow radix2 (-538) -> fpdf fexp x mu sigma = S754_nan.
Proof.
  intros (E1 & E2 & _) Dx Dm D F B. unfold fpdf. rewrite (square_zero sigma D F B). change (fmul (dbl 2) (S754_zero false)) with (S754_zero false). cbv zeta.
  change (fsqrt (fmul (S754_zero false) fpi)) with (S754_zero false).
  assert (Dd : is_double (fsub x mu)) by now apply fsub_double. destruct (square_not_neg _ Dd) as [Q|Q].
  - rewrite Q. cbn [SFopp]. change (fdiv S754_nan (S754_zero false)) with S754_nan. rewrite E2. reflexivity.
  - destruct (fsquare (fsub x mu)) as [s|s| |s m e]; cbn in Q; try contradiction; subst s; cbn [SFopp].
    + change (fdiv (S754_zero (negb false)) (S754_zero false)) with S754_nan. rewrite E2. reflexivity.
    + change (fdiv (S754_infinity (negb false)) (S754_zero false)) with (S754_infinity true). rewrite E1. reflexivity.
    + change (fdiv (S754_finite (negb false) m e) (S754_zero false)) with (S754_infinity true). rewrite E1. reflexivity.
Qed.

(** ** Sign *)
Lemma fdiv_not_neg x y : is_double x -> is_double y -> x = S754_nan \/ nonneg x -> y = S754_nan \/ nonneg y -> fdiv x y = S754_nan \/ nonneg (fdiv x y).
Proof.
  intros Dx Dy [->|Nx] [->|Ny]; [now left..| |]; [left; destruct x; reflexivity|].
  destruct (lift _ Dx) as [a Ea]. destruct (lift _ Dy) as [b Eb]. rewrite <- Ea, <- Eb in *.
  destruct b as [s|s| |s m e H].
  1,2: destruct a as [s'|s'| |s' m' e' H']; cbn in Nx, Ny; subst; try contradiction; cbn; auto.
  - now elim Ny.
  - apply nonneg_is in Nx, Ny. destruct Nx as [Nx Sx], Ny as [Ny Sy]. destruct (is_finite a) eqn:F.
    2:{ destruct a as [s'|s'| |s' m' e' H']; try discriminate F; try discriminate Nx. cbn in Sx, Sy. subst. right. reflexivity. }
    right. rewrite fdiv_equiv.
    assert (Z : B2R (B754_finite s m e H) <> 0). { intros E. apply eq_0_F2R in E. destruct s; discriminate E. }
    pose proof (Bdiv_correct 53 1024 Hprec Hmax mode_NE a (B754_finite s m e H) Z) as C. rewrite Sx, Sy, F in C. cbn [xorb] in C.
    destruct (Rlt_bool _ _); [|now apply overflow_nonneg]. destruct C as (_ & C2 & C3).
    assert (Q : is_nan (Bdiv mode_NE a (B754_finite s m e H)) = false) by (destruct (Bdiv _ _ _); cbn in *; congruence).
    apply nonneg_is. auto.
Qed.
Lemma fmul_not_neg x y : is_double x -> is_double y -> x = S754_nan \/ nonneg x -> y = S754_nan \/ nonneg y -> fmul x y = S754_nan \/ nonneg (fmul x y).
Proof.
  intros Dx Dy [->|Nx] [->|Ny]; [now left..| |]; [left; destruct x; reflexivity|].
  pose proof (fmul_sign x y Dx Dy) as Sg. destruct (fmul x y) as [s|s| |s m e] eqn:E; [right|right|now left|right]; cbn [minus_sign nonneg] in *;
    (rewrite Sg by discriminate; destruct x as [s1|s1| |s1 m1 e1], y as [s2|s2| |s2 m2 e2]; cbn in Nx, Ny; try contradiction; subst; reflexivity).
Qed.
Theorem fpdf_not_neg fexp x mu sigma : exp_nonneg fexp -> is_double x -> is_double mu -> is_double sigma ->
  is_double (fpdf fexp x mu sigma) /\ (fpdf fexp x mu sigma = S754_nan \/ nonneg (fpdf fexp x mu sigma)).
Proof.
  intros E Dx Dm Ds. unfold fpdf. cbv zeta.
  assert (D2 : is_double (fmul (dbl 2) (fsquare sigma))) by (apply fmul_double; [apply dbl_double|now apply fmul_double]).
  assert (Dc : is_double (fmul (fmul (dbl 2) (fsquare sigma)) fpi)) by (apply fmul_double; [exact D2|apply fpi_double]).
  set (y := fdiv (SFopp _) _). assert (Dy : is_double y). { apply fdiv_double; [|exact D2]. apply opp_double. apply fmul_double; now apply fsub_double. }
  destruct (E y Dy) as [De Ne]. split; [apply fdiv_double; [exact De|now apply fsqrt_double]|].
  apply fdiv_not_neg; [exact De|now apply fsqrt_double|exact Ne|].
  destruct (fmul_not_neg (dbl 2) (fsquare sigma)) as [Q|Q]; [apply dbl_double|now apply fmul_double|right; reflexivity|now apply square_not_neg|rewrite Q; now left|].
  destruct (fmul_not_neg (fmul (dbl 2) (fsquare sigma)) fpi) as [Q'|Q']; [exact D2|apply fpi_double|now right|right; reflexivity|rewrite Q'; now left|].
  right. now apply fsqrt_nonneg.
Qed.

(** ** The nearer to the mean, the larger *)
Lemma rnd_le a b : a <= b -> rnd a <= rnd b.
Proof. apply round_le; [apply Vfex|apply valid_rnd_N]. Qed.

Theorem fpdf_decreasing fexp x x' mu sigma : exp_monotone fexp -> is_double x -> is_double x' -> is_double mu -> is_double sigma ->
  finite x -> finite x' -> finite mu -> finite sigma -> bpow radix2 (-450) <= Rabs (dval sigma) <= bpow radix2 450 ->
  Rabs (dval x - dval mu) <= Rabs (dval x' - dval mu) <= bpow radix2 50 * Rabs (dval sigma) ->
  finite (fpdf fexp x' mu sigma) /\ finite (fpdf fexp x mu sigma) /\ dval (fpdf fexp x' mu sigma) <= dval (fpdf fexp x mu sigma).
Proof.
  intros (E1 & E2) Dx Dx' Dm Ds Fx Fx' Fm Fs B [A A'].
  destruct (variance_part sigma Ds Fs B) as (D2 & F2 & W2 & Dc & Fc & Wc). unfold fpdf. cbv zeta.
  set (s2 := fmul (dbl 2) (fsquare sigma)) in *. set (c := fsqrt (fmul s2 fpi)) in *. set (s := dval sigma) in *. pose proof u_small as Us.
  destruct B as [B1 B2]. pose proof (bpow_gt_0 radix2 (-450)) as P0. pose proof (Rabs_pos s) as As.
  assert (Es : s * s = Rabs s * Rabs s) by (rewrite <- Rabs_mult, Rabs_pos_eq; [reflexivity|apply Rle_0_sqr]).
  assert (Qb : s * s <= dval s2). { destruct W2 as [W2 _]. pose proof (exp_ge (- w)) as Ew. assert (/ 2 <= exp (- w)) by (unfold w in *; nra). replace (s ^ 2) with (s * s) in W2 by ring. nra. }
  assert (Sp : bpow radix2 (-900) <= s * s). { rewrite Es. change (-900)%Z with (-450 + -450)%Z. rewrite bpow_plus. apply Rmult_le_compat; lra. }
  pose proof (bpow_gt_0 radix2 (-900)) as P1.
  assert (Step : forall z, is_double z -> finite z -> Rabs (dval z - dval mu) <= bpow radix2 50 * Rabs s ->
    let y := fdiv (SFopp (fsquare (fsub z mu))) s2 in is_double y /\ finite y /\ dval y = - rnd (rnd (rnd (Rabs (dval z - dval mu)) * rnd (Rabs (dval z - dval mu))) / dval s2) /\ dval y <= 0).
  { intros z Dz Fz Az. assert (Bd : Rabs (dval z - dval mu) <= bpow radix2 500). { apply Rle_trans with (1 := Az). change 500%Z with (50 + 450)%Z. rewrite bpow_plus. apply Rmult_le_compat_l; [apply bpow_ge_0|exact B2]. }
    assert (Dd : is_double (fsub z mu)) by now apply fsub_double.
    assert (Fd : finite (fsub z mu)) by (apply fsub_ok; try assumption; apply Rle_trans with (1 := Bd); apply bpow_le; lia).
    assert (Vd : dval (fsub z mu) = rnd (dval z - dval mu)) by now apply fsub_val.
    assert (Va : Rabs (dval (fsub z mu)) = rnd (Rabs (dval z - dval mu))) by (rewrite Vd; symmetry; apply round_NE_abs; apply Vfex).
    set (a := dval (fsub z mu)) in *. assert (Ea : a * a = Rabs a * Rabs a) by (rewrite <- Rabs_mult, Rabs_pos_eq; [reflexivity|apply Rle_0_sqr]).
    assert (Dq : is_double (fsquare (fsub z mu))) by now apply fmul_double.
    (* a bound through doubles: the difference is at most 2^51 |sigma| after rounding *)
    assert (Ba : Rabs a <= 2 * (bpow radix2 50 * Rabs s)).
    { rewrite Va. destruct (plus_err (dval z) (- dval mu)) as (e & He & Ee); [now apply format|apply generic_format_opp; now apply format|]. change (dval z + - dval mu) with (dval z - dval mu) in Ee.
      rewrite <- Va, Vd, Ee, Rabs_mult. apply Rabs_le_inv in He. assert (Rabs (1 + e) <= 2) by (apply Rabs_le; lra). pose proof (Rabs_pos (dval z - dval mu)). pose proof (Rabs_pos (1 + e)).
      rewrite Rmult_comm. apply Rmult_le_compat; assumption. }
    assert (Bq : a * a <= bpow radix2 102 * (s * s)). { rewrite Ea, Es. change (bpow radix2 102) with (bpow radix2 (1 + 50 + (1 + 50))). rewrite !bpow_plus. change (bpow radix2 1) with 2.
      replace (2 * bpow radix2 50 * (2 * bpow radix2 50) * (Rabs s * Rabs s)) with (2 * (bpow radix2 50 * Rabs s) * (2 * (bpow radix2 50 * Rabs s))) by ring. pose proof (Rabs_pos a). apply Rmult_le_compat; assumption. }
    assert (Su : s * s <= bpow radix2 900). { rewrite Es. change (900)%Z with (450 + 450)%Z. rewrite bpow_plus. apply Rmult_le_compat; lra. }
    assert (Fq : finite (fsquare (fsub z mu))). { apply fmul_ok; try assumption. fold a. rewrite Rabs_pos_eq by apply Rle_0_sqr. apply Rle_trans with (1 := Bq). apply Rle_trans with (bpow radix2 102 * bpow radix2 900); [apply Rmult_le_compat_l; [apply bpow_ge_0|exact Su]|]. rewrite <- bpow_plus. apply bpow_le. lia. }
    assert (Vq : dval (fsquare (fsub z mu)) = rnd (a * a)) by (apply fmul_val; assumption).
    assert (Nq : 0 <= rnd (a * a)) by (apply rnd_nonneg, Rle_0_sqr).
    assert (Rq : rnd (a * a) <= bpow radix2 104 * dval s2).
    { destruct (any_err (a * a)) as (e & d & He & Hd & ->). apply Rabs_le_inv in He, Hd. assert (tiny <= s * s). { apply Rle_trans with (2 := Sp). rewrite tiny_bpow. apply bpow_le. lia. }
      assert (1 <= bpow radix2 102) by (change 1 with (bpow radix2 0); apply bpow_le; lia). pose proof (Rle_0_sqr a) as Sa. unfold Rsqr in Sa.
      assert (a * a * (1 + e) <= 2 * (a * a)) by (rewrite (Rmult_comm 2); apply Rmult_le_compat_l; lra).
      change 104%Z with (2 + 102)%Z. rewrite bpow_plus. change (bpow radix2 2) with 4.
      assert (bpow radix2 102 * (s * s) <= bpow radix2 102 * dval s2) by (apply Rmult_le_compat_l; lra). assert (1 * (s * s) <= bpow radix2 102 * (s * s)) by (apply Rmult_le_compat_r; lra). lra. }
    assert (Q0 : 0 < dval s2) by lra.
    assert (Ny : dval (SFopp (fsquare (fsub z mu))) = - rnd (a * a)) by (rewrite opp_val, Vq; reflexivity).
    set (y := fdiv (SFopp (fsquare (fsub z mu))) s2). assert (Dy : is_double y) by (apply fdiv_double; [now apply opp_double|exact D2]).
    assert (N0 : 0 <= rnd (a * a) / dval s2) by (apply Rmult_le_pos; [exact Nq|left; now apply Rinv_0_lt_compat]).
    assert (Eo : - rnd (a * a) / dval s2 = - (rnd (a * a) / dval s2)) by (unfold Rdiv; ring).
    assert (Fy : finite y). { apply fdiv_ok; try assumption; [now apply opp_double|now apply opp_finite|apply Rgt_not_eq; exact Q0|]. rewrite Ny, Eo, Rabs_Ropp, Rabs_pos_eq by exact N0.
      apply Rle_trans with (bpow radix2 104); [|apply bpow_le; lia]. apply Rmult_le_reg_r with (dval s2); [exact Q0|]. unfold Rdiv. rewrite Rmult_assoc, Rinv_l by lra. lra. }
    assert (Vy : dval y = - rnd (rnd (a * a) / dval s2)). { unfold y. rewrite fdiv_val; try assumption; [|now apply opp_double|apply Rgt_not_eq; exact Q0]. rewrite Ny, Eo. apply round_NE_opp. }
    cbv zeta. split; [exact Dy|]. split; [exact Fy|]. split; [|rewrite Vy; pose proof (rnd_nonneg _ N0); lra]. rewrite Vy, Ea, Va. reflexivity. }
  destruct (Step x Dx Fx ltac:(lra)) as (Dy & Fy & Vy & Ny). destruct (Step x' Dx' Fx' ltac:(lra)) as (Dy' & Fy' & Vy' & Ny'). clear Step.
  set (y := fdiv (SFopp (fsquare (fsub x mu))) s2) in *. set (y' := fdiv (SFopp (fsquare (fsub x' mu))) s2) in *.
  assert (Q0 : 0 < dval s2) by lra.
  assert (L : dval y' <= dval y).
  { rewrite Vy, Vy'. apply Ropp_le_contravar, rnd_le. apply Rmult_le_compat_r; [left; now apply Rinv_0_lt_compat|]. apply rnd_le.
    pose proof (rnd_nonneg _ (Rabs_pos (dval x - dval mu))). pose proof (rnd_le _ _ A). apply Rmult_le_compat; assumption. }
  destruct (E1 y Dy Fy Ny) as (De & Fe & Be). destruct (E1 y' Dy' Fy' Ny') as (De' & Fe' & Be').
  pose proof (E2 y' y Dy' Dy Fy' Fy (conj L Ny)) as Le.
  assert (Cb : bpow radix2 (-450) <= dval c).
  { assert (Rr : sqrt (2 * PI * s ^ 2) = sqrt (2 * PI) * Rabs s). { rewrite sqrt_mult_alt by (pose proof PI_RGT_0; lra). f_equal. rewrite <- Rsqr_pow2. apply sqrt_Rsqr_abs. }
    assert (S2 : 2 <= sqrt (2 * PI)). { pose proof (sqrt_square 2 ltac:(lra)). pose proof PI2_3_2 as Pi3. unfold PI2 in Pi3. pose proof (sqrt_le_1_alt (2 * 2) (2 * PI) ltac:(lra)). lra. }
    destruct Wc as [Wa _]. rewrite Rr in Wa. pose proof (exp_ge (- (5 / 2 * w))) as G. assert (/ 2 <= exp (- (5 / 2 * w))) by (unfold w in *; nra).
    apply Rle_trans with (1 := B1). apply Rle_trans with (2 := Wa). set (as_ := Rabs s) in *. set (r := sqrt (2 * PI)) in *. set (ee := exp _) in *.
    assert (2 * as_ * / 2 <= r * as_ * ee); [|lra]. apply Rmult_le_compat; try lra. apply Rmult_le_compat_r; lra. }
  assert (C0 : 0 < dval c) by lra.
  assert (Fin : forall v, is_double v -> finite v -> 0 <= dval v <= 1 -> finite (fdiv v c) /\ dval (fdiv v c) = rnd (dval v / dval c)).
  { intros v Dv Fv Bv. assert (finite (fdiv v c)).
    { apply fdiv_ok; try assumption; [apply Rgt_not_eq; exact C0|]. pose proof (Rinv_le _ _ P0 Cb) as I1. rewrite <- bpow_opp in I1. change (- -450)%Z with 450%Z in I1.
      assert (0 < / dval c) by now apply Rinv_0_lt_compat. rewrite Rabs_pos_eq by (apply Rmult_le_pos; lra). apply Rle_trans with (bpow radix2 450); [|apply bpow_le; lia].
      unfold Rdiv. replace (bpow radix2 450) with (1 * bpow radix2 450) by ring. apply Rmult_le_compat; lra. }
    split; [assumption|]. apply fdiv_val; try assumption. apply Rgt_not_eq; exact C0. }
  destruct (Fin _ De Fe Be) as [F3 V3]. destruct (Fin _ De' Fe' Be') as [F4 V4].
  split; [exact F4|]. split; [exact F3|]. rewrite V3, V4. apply rnd_le. apply Rmult_le_compat_r; [left; now apply Rinv_0_lt_compat|exact Le].
Qed.
