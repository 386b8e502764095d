(** * StatsProofs: accuracy of sums, means and variances of doubles. *)

From Coq Require Import ZArith List Bool Lia Floats.SpecFloat Reals Lra.
From Flocq Require Import Core Relative Plus_error BinarySingleNaN.
From Verif Require Import Base Coerce Reduce Random Stats ReduceSpec StatsSpec RandomProofs.
Import ListNotations.
Open Scope Z_scope.

Local Notation fex := (FLT_exp (-1074) 53).
Local Notation rnd := (round radix2 fex ZnearestE).
Local Existing Instance Hprec.
Local Existing Instance Hmax.
Local Existing Instance Vfex.
Local Notation BF := (binary_float 53 1024).

Lemma normalize_equiv m e s : SpecFloat.binary_normalize 53 1024 m e s = B2SF (binary_normalize 53 1024 Hprec Hmax mode_NE m e s).
Proof. destruct m as [|p|p]; [reflexivity| |]; simpl; rewrite B2SF_SF2B; apply round_equiv. Qed.

Lemma fadd_equiv (x y : BF) : fadd (B2SF x) (B2SF y) = B2SF (Bplus mode_NE x y).
Proof.
  destruct x as [sx|sx| |sx mx ex Bx], y as [sy|sy| |sy my ey By]; try reflexivity;
  try (simpl; destruct (Bool.eqb sx sy); reflexivity).
  unfold fadd, SFadd, Bplus. cbn [B2SF]. rewrite normalize_equiv. reflexivity.
Qed.
Lemma fsub_equiv (x y : BF) : fsub (B2SF x) (B2SF y) = B2SF (Bminus mode_NE x y).
Proof.
  destruct x as [sx|sx| |sx mx ex Bx], y as [sy|sy| |sy my ey By]; try reflexivity;
  try (simpl; destruct sx, sy; reflexivity).
  unfold fsub, SFsub, Bminus. cbn [B2SF]. rewrite normalize_equiv. cbv zeta. f_equal. f_equal.
  unfold Fplus_naive. generalize (fst (shl_align my ey (Z.min ex ey))). intros p. destruct sy; cbn [negb cond_Zopp]; lia.
Qed.
Lemma fdiv_equiv (x y : BF) : fdiv (B2SF x) (B2SF y) = B2SF (Bdiv mode_NE x y).
Proof.
  destruct x as [sx|sx| |sx mx ex Bx], y as [sy|sy| |sy my ey By]; try reflexivity.
  simpl. rewrite B2SF_SF2B. set (melz := SFdiv_core_binary _ _ _ _ _ _). case melz as [[mz ez] lz]. apply round_aux_equiv.
Qed.
Lemma fsqrt_equiv (x : BF) : fsqrt (B2SF x) = B2SF (Bsqrt mode_NE x).
Proof.
  destruct x as [sx|sx| |[] mx ex Bx]; try reflexivity; try (destruct sx; reflexivity).
  simpl. rewrite B2SF_SF2B. set (melz := SFsqrt_core_binary _ _ _ _). case melz as [[mz ez] lz]. apply round_aux_equiv.
Qed.

Lemma lift f : is_double f -> exists b : BF, B2SF b = f.
Proof. intros V. exists (SF2B f V). apply B2SF_SF2B. Qed.
Lemma lifted (b : BF) : is_double (B2SF b).
Proof. apply valid_binary_B2SF. Qed.

Ltac lifts := repeat match goal with
  | H : is_double ?f |- _ => is_var f; let b := fresh "b" in destruct (lift f H) as [b <-]; clear H end.

Lemma fadd_double x y : is_double x -> is_double y -> is_double (fadd x y).
Proof. intros. lifts. rewrite fadd_equiv. apply lifted. Qed.
Lemma fsub_double x y : is_double x -> is_double y -> is_double (fsub x y).
Proof. intros. lifts. rewrite fsub_equiv. apply lifted. Qed.
Lemma fmul_double x y : is_double x -> is_double y -> is_double (fmul x y).
Proof. intros. lifts. rewrite fmul_equiv. apply lifted. Qed.
Lemma fdiv_double x y : is_double x -> is_double y -> is_double (fdiv x y).
Proof. intros. lifts. rewrite fdiv_equiv. apply lifted. Qed.
Lemma fsqrt_double x : is_double x -> is_double (fsqrt x).
Proof. intros. lifts. rewrite fsqrt_equiv. apply lifted. Qed.
Lemma dbl_double z : is_double (dbl z).
Proof. rewrite dbl_equiv. apply lifted. Qed.
Lemma fzero_double : is_double fzero.
Proof. reflexivity. Qed.

Open Scope R_scope.

Lemma dval_B2R (b : BF) : dval (B2SF b) = B2R b.
Proof.
  destruct b as [s|s| |s m e H]; try reflexivity. cbn [B2SF dval B2R]. unfold F2R. cbn [Fnum Fexp].
  rewrite bpow_powerRZ. cbn [radix_val radix2]. destruct s; cbn [cond_Zopp]; [rewrite opp_IZR|]; reflexivity.
Qed.
Lemma finite_is (b : BF) : finite (B2SF b) <-> is_finite b = true.
Proof. destruct b; cbn; intuition congruence. Qed.

Lemma format f : is_double f -> generic_format radix2 fex (dval f).
Proof. intros. lifts. rewrite dval_B2R. exact (generic_format_B2R 53 1024 b). Qed.

Lemma not_overflow (b : BF) s : is_finite b = true -> B2SF b = binary_overflow 53 1024 mode_NE s -> False.
Proof. unfold binary_overflow. cbn. destruct b; cbn; congruence. Qed.

Lemma fadd_finite x y : is_double x -> is_double y -> finite (fadd x y) -> finite x /\ finite y.
Proof.
  intros. lifts. rewrite fadd_equiv in *. rewrite !finite_is in *.
  destruct b0 as [sx|sx| |sx mx ex Bx], b as [sy|sy| |sy my ey By]; cbn in *; try tauto; try (split; congruence).
  destruct (Bool.eqb _ _) in *; cbn in *; split; congruence.
Qed.
Lemma fadd_val x y : is_double x -> is_double y -> finite (fadd x y) -> dval (fadd x y) = rnd (dval x + dval y).
Proof.
  intros Hx Hy H. destruct (fadd_finite x y Hx Hy H). lifts. rewrite fadd_equiv in *. rewrite !finite_is in *. rewrite !dval_B2R.
  pose proof (Bplus_correct 53 1024 Hprec Hmax mode_NE b0 b ltac:(assumption) ltac:(assumption)) as C.
  destruct (Rlt_bool _ _); [apply C|]. exfalso. eapply not_overflow; [exact H|apply C].
Qed.
Lemma fsub_finite x y : is_double x -> is_double y -> finite (fsub x y) -> finite x /\ finite y.
Proof.
  intros. lifts. rewrite fsub_equiv in *. rewrite !finite_is in *.
  destruct b0 as [sx|sx| |sx mx ex Bx], b as [sy|sy| |sy my ey By]; cbn in *; try tauto; try (split; congruence).
  destruct (Bool.eqb _ _) in *; cbn in *; split; congruence.
Qed.
Lemma fsub_val x y : is_double x -> is_double y -> finite (fsub x y) -> dval (fsub x y) = rnd (dval x - dval y).
Proof.
  intros Hx Hy H. destruct (fsub_finite x y Hx Hy H). lifts. rewrite fsub_equiv in *. rewrite !finite_is in *. rewrite !dval_B2R.
  pose proof (Bminus_correct 53 1024 Hprec Hmax mode_NE b0 b ltac:(assumption) ltac:(assumption)) as C.
  destruct (Rlt_bool _ _); [apply C|]. exfalso. eapply not_overflow; [exact H|apply C].
Qed.
Lemma fmul_finite x y : is_double x -> is_double y -> finite (fmul x y) -> finite x /\ finite y.
Proof.
  intros Hx Hy H. lifts. rewrite fmul_equiv in *. rewrite !finite_is in *.
  pose proof (Bmult_correct 53 1024 Hprec Hmax mode_NE b0 b) as C.
  destruct (Rlt_bool _ _); [|exfalso; eapply not_overflow; [exact H|apply C]].
  destruct C as (_ & C & _). rewrite C in H. now apply andb_true_iff in H.
Qed.
Lemma fmul_val x y : is_double x -> is_double y -> finite (fmul x y) -> dval (fmul x y) = rnd (dval x * dval y).
Proof.
  intros Hx Hy H. lifts. rewrite fmul_equiv in *. rewrite !finite_is in *. rewrite !dval_B2R.
  pose proof (Bmult_correct 53 1024 Hprec Hmax mode_NE b0 b) as C.
  destruct (Rlt_bool _ _); [apply C|exfalso; eapply not_overflow; [exact H|apply C]].
Qed.
Lemma fdiv_finite x y : is_double x -> is_double y -> dval y <> 0 -> finite (fdiv x y) -> finite x.
Proof.
  intros Hx Hy N H. lifts. rewrite fdiv_equiv in *. rewrite !finite_is in *. rewrite dval_B2R in N.
  pose proof (Bdiv_correct 53 1024 Hprec Hmax mode_NE b0 b N) as C.
  destruct (Rlt_bool _ _); [|exfalso; eapply not_overflow; [exact H|apply C]].
  destruct C as (_ & C & _). now rewrite C in H.
Qed.
Lemma fdiv_val x y : is_double x -> is_double y -> dval y <> 0 -> finite (fdiv x y) -> dval (fdiv x y) = rnd (dval x / dval y).
Proof.
  intros Hx Hy N H. lifts. rewrite fdiv_equiv in *. rewrite !finite_is in *. rewrite !dval_B2R in *.
  pose proof (Bdiv_correct 53 1024 Hprec Hmax mode_NE b0 b N) as C.
  destruct (Rlt_bool _ _); [apply C|exfalso; eapply not_overflow; [exact H|apply C]].
Qed.
Lemma fsqrt_val x : is_double x -> dval (fsqrt x) = rnd (sqrt (dval x)).
Proof.
  intros Hx. lifts. rewrite fsqrt_equiv. rewrite !dval_B2R. apply (Bsqrt_correct 53 1024 Hprec Hmax mode_NE b).
Qed.

Lemma bpow1024 z : (Z.abs z <= 2 ^ 53)%Z -> Rabs (IZR z) < bpow radix2 1024.
Proof.
  intros H. rewrite <- abs_IZR. apply Rle_lt_trans with (IZR (2 ^ 53)); [now apply IZR_le|].
  change (IZR (2 ^ 53)) with (bpow radix2 53). apply bpow_lt. lia.
Qed.
(** Doubles of integers up to 2^53 are exact. *)
Lemma dbl_exact z : (Z.abs z <= 2 ^ 53)%Z -> exists b : BF, B2SF b = dbl z /\ is_finite b = true /\ B2R b = IZR z
  /\ Bsign b = (z <? 0)%Z.
Proof.
  intros H. exists (binary_normalize 53 1024 Hprec Hmax mode_NE z 0 false).
  split; [symmetry; apply dbl_equiv|].
  pose proof (binary_normalize_correct 53 1024 Hprec Hmax mode_NE z 0 false) as C. cbv zeta in C.
  replace (F2R (Float radix2 z 0)) with (IZR z) in C by (unfold F2R; cbn; ring).
  change (SpecFloat.fexp 53 1024) with fex in C. change (round_mode mode_NE) with ZnearestE in C.
  rewrite rnd_int in C by exact H. rewrite Rlt_bool_true in C by now apply bpow1024.
  destruct C as (C1 & C2 & C3). split; [exact C2|]. split; [exact C1|]. rewrite C3.
  rewrite Rcompare_IZR. destruct (Z.compare_spec z 0); destruct (Z.ltb_spec z 0); congruence || lia.
Qed.
Lemma dbl_val z : (Z.abs z <= 2 ^ 53)%Z -> dval (dbl z) = IZR z.
Proof. intros H. destruct (dbl_exact z H) as (b & E & _ & R & _). now rewrite <- E, dval_B2R. Qed.
Lemma dbl_finite z : (Z.abs z <= 2 ^ 53)%Z -> finite (dbl z).
Proof. intros H. destruct (dbl_exact z H) as (b & E & F & _). rewrite <- E. now apply finite_is. Qed.

Lemma fadd_int a b : (Z.abs a <= 2 ^ 53 -> Z.abs b <= 2 ^ 53 -> Z.abs (a + b) <= 2 ^ 53 -> fadd (dbl a) (dbl b) = dbl (a + b))%Z.
Proof.
  intros Ha Hb Hab. destruct (dbl_exact a Ha) as (x & Ex & Fx & Rx & Sx). destruct (dbl_exact b Hb) as (y & Ey & Fy & Ry & Sy).
  destruct (dbl_exact (a + b) Hab) as (z & Ez & Fz & Rz & Sz). rewrite <- Ex, <- Ey, <- Ez, fadd_equiv. f_equal.
  pose proof (Bplus_correct 53 1024 Hprec Hmax mode_NE x y Fx Fy) as C.
  change (SpecFloat.fexp 53 1024) with fex in C. change (round_mode mode_NE) with ZnearestE in C.
  rewrite Rx, Ry, <- plus_IZR, rnd_int, Rlt_bool_true in C by (exact Hab || now apply bpow1024).
  destruct C as (C1 & C2 & C3). apply B2R_Bsign_inj; [exact C2|exact Fz|congruence|].
  rewrite C3, Sz, Sx, Sy, Rcompare_IZR.
  destruct (Z.compare_spec (a + b) 0), (Z.ltb_spec a 0), (Z.ltb_spec b 0), (Z.ltb_spec (a + b) 0); cbn; congruence || lia.
Qed.
Lemma fsub_int a b : (Z.abs a <= 2 ^ 53 -> Z.abs b <= 2 ^ 53 -> Z.abs (a - b) <= 2 ^ 53 -> fsub (dbl a) (dbl b) = dbl (a - b))%Z.
Proof.
  intros Ha Hb Hab. destruct (dbl_exact a Ha) as (x & Ex & Fx & Rx & Sx). destruct (dbl_exact b Hb) as (y & Ey & Fy & Ry & Sy).
  destruct (dbl_exact (a - b) Hab) as (z & Ez & Fz & Rz & Sz). rewrite <- Ex, <- Ey, <- Ez, fsub_equiv. f_equal.
  pose proof (Bminus_correct 53 1024 Hprec Hmax mode_NE x y Fx Fy) as C.
  change (SpecFloat.fexp 53 1024) with fex in C. change (round_mode mode_NE) with ZnearestE in C.
  rewrite Rx, Ry, <- minus_IZR, rnd_int, Rlt_bool_true in C by (exact Hab || now apply bpow1024).
  destruct C as (C1 & C2 & C3). apply B2R_Bsign_inj; [exact C2|exact Fz|congruence|].
  rewrite C3, Sz, Sx, Sy, Rcompare_IZR.
  destruct (Z.compare_spec (a - b) 0), (Z.ltb_spec a 0), (Z.ltb_spec b 0), (Z.ltb_spec (a - b) 0); cbn; congruence || lia.
Qed.
Lemma fsquare_int a : (Z.abs a <= 2 ^ 53 -> a * a <= 2 ^ 53 -> fsquare (dbl a) = dbl (a * a))%Z.
Proof.
  intros Ha Hab. assert (Hq : (Z.abs (a * a) <= 2 ^ 53)%Z) by (rewrite Z.abs_eq; nia).
  destruct (dbl_exact a Ha) as (x & Ex & Fx & Rx & Sx).
  destruct (dbl_exact (a * a) Hq) as (z & Ez & Fz & Rz & Sz). unfold fsquare. rewrite <- Ex, <- Ez, fmul_equiv. f_equal.
  pose proof (Bmult_correct 53 1024 Hprec Hmax mode_NE x x) as C.
  change (SpecFloat.fexp 53 1024) with fex in C. change (round_mode mode_NE) with ZnearestE in C.
  rewrite Rx, <- mult_IZR, rnd_int, Rlt_bool_true in C by (exact Hq || now apply bpow1024).
  destruct C as (C1 & C2 & C3). rewrite Fx in C2. cbn in C2. apply B2R_Bsign_inj; [exact C2|exact Fz|congruence|].
  rewrite C3 by (destruct (Bmult _ _ _); cbn in *; congruence). rewrite Sz, xorb_nilpotent. destruct (Z.ltb_spec (a * a) 0); [nia|reflexivity].
Qed.
Lemma fdiv_int s n : (Z.abs (s * n) <= 2 ^ 53 -> Z.abs s <= 2 ^ 53 -> 0 < n <= 2 ^ 53 -> fdiv (dbl (s * n)) (dbl n) = dbl s)%Z.
Proof.
  intros Hsn Hs Hn. assert (Hn' : (Z.abs n <= 2 ^ 53)%Z) by lia.
  destruct (dbl_exact (s * n) Hsn) as (x & Ex & Fx & Rx & Sx). destruct (dbl_exact n Hn') as (y & Ey & Fy & Ry & Sy).
  destruct (dbl_exact s Hs) as (z & Ez & Fz & Rz & Sz). rewrite <- Ex, <- Ey, <- Ez, fdiv_equiv. f_equal.
  assert (N : IZR n <> 0) by (apply IZR_neq; lia).
  pose proof (Bdiv_correct 53 1024 Hprec Hmax mode_NE x y) as C.
  change (SpecFloat.fexp 53 1024) with fex in C. change (round_mode mode_NE) with ZnearestE in C.
  rewrite Ry in C. specialize (C N). rewrite Rx, mult_IZR in C.
  replace (IZR s * IZR n / IZR n) with (IZR s) in C by (field; exact N).
  rewrite rnd_int, Rlt_bool_true in C by (exact Hs || now apply bpow1024).
  destruct C as (C1 & C2 & C3). rewrite Fx in C2. apply B2R_Bsign_inj; [exact C2|exact Fz|congruence|].
  rewrite C3 by (destruct (Bdiv _ _ _); cbn in *; congruence). rewrite Sx, Sy, Sz.
  destruct (Z.ltb_spec (s * n) 0), (Z.ltb_spec n 0), (Z.ltb_spec s 0); cbn; try reflexivity; nia.
Qed.

(** ** Rounding errors *)

Local Notation u := roundoff.

Lemma roundoff_bpow : u = bpow radix2 (-53).
Proof. unfold roundoff. now rewrite bpow_powerRZ. Qed.
Lemma tiny_bpow : tiny = bpow radix2 (-1075).
Proof. unfold tiny. now rewrite bpow_powerRZ. Qed.
Lemma roundoff_pos : 0 < u.
Proof. rewrite roundoff_bpow. apply bpow_gt_0. Qed.
Lemma roundoff_lt1 : u < 1.
Proof. rewrite roundoff_bpow. change 1 with (bpow radix2 0). apply bpow_lt. lia. Qed.
Lemma tiny_pos : 0 < tiny.
Proof. rewrite tiny_bpow. apply bpow_gt_0. Qed.
Lemma half_bpow e : / 2 * bpow radix2 (e + 1) = bpow radix2 e.
Proof. rewrite bpow_plus. change (bpow radix2 1) with 2. lra. Qed.

Lemma plus_err x y : generic_format radix2 fex x -> generic_format radix2 fex y ->
  exists e, Rabs e <= u /\ rnd (x + y) = (x + y) * (1 + e).
Proof.
  intros Fx Fy. destruct (FLT_plus_error_N_ex radix2 (-1074) 53 (fun x => negb (Z.even x)) x y Fx Fy) as (e & He & E).
  exists e. split; [|exact E]. apply Rle_trans with (1 := He).
  assert (U : u_ro radix2 53 = u) by (unfold u_ro; change (- (53) + 1)%Z with (-53 + 1)%Z; rewrite half_bpow; symmetry; apply roundoff_bpow).
  rewrite U. pose proof roundoff_pos. apply Rmult_le_reg_r with (1 + u); [lra|].
  unfold Rdiv. rewrite Rmult_assoc, Rinv_l by lra. rewrite Rmult_1_r. nra.
Qed.
Lemma any_err x : exists e d, Rabs e <= u /\ Rabs d <= tiny /\ rnd x = x * (1 + e) + d.
Proof.
  destruct (error_N_FLT radix2 (-1074) 53 eq_refl (fun x => negb (Z.even x)) x) as (e & d & He & Hd & _ & E).
  exists e, d. change (-1074)%Z with (-1075 + 1)%Z in Hd. change (- (53) + 1)%Z with (-53 + 1)%Z in He. rewrite half_bpow in He, Hd.
  rewrite roundoff_bpow, tiny_bpow. auto.
Qed.

Lemma rsum_cons x l : rsum (x :: l) = x + rsum l.
Proof. reflexivity. Qed.
Lemma rsum_nonneg l : (forall x, In x l -> 0 <= x) -> 0 <= rsum l.
Proof. induction l as [|x l IH]; intros H; [unfold rsum; cbn; lra|]. rewrite rsum_cons. pose proof (H x (or_introl eq_refl)). specialize (IH (fun y Hy => H y (or_intror Hy))). lra. Qed.
Lemma rsum_abs l : Rabs (rsum l) <= rsum (map Rabs l).
Proof. induction l as [|x l IH]; [unfold rsum; cbn; rewrite Rabs_R0; lra|]. cbn [map]. rewrite !rsum_cons. pose proof (Rabs_triang x (rsum l)). lra. Qed.
Lemma rsum_abs_nonneg l : 0 <= rsum (map Rabs l).
Proof. pose proof (rsum_abs l). pose proof (Rabs_pos (rsum l)). lra. Qed.

Lemma pow_ge1 n : 1 <= (1 + u) ^ n.
Proof. apply pow_R1_Rle. pose proof roundoff_pos. lra. Qed.

Lemma fsum_finite l : forall s, Forall is_double l -> is_double s -> finite (fsum l s) -> finite s /\ Forall finite l.
Proof.
  induction l as [|x l IH]; intros s Hl Hs H; [split; [exact H|constructor]|]. inversion Hl; subst.
  destruct (IH _ ltac:(assumption) (fadd_double s x Hs ltac:(assumption)) H) as (A & B).
  apply fadd_finite in A; try assumption. destruct A. split; [assumption|]. constructor; assumption.
Qed.
Lemma fsum_double l : forall s, Forall is_double l -> is_double s -> is_double (fsum l s).
Proof. induction l as [|x l IH]; intros s Hl Hs; [exact Hs|]. inversion Hl; subst. apply IH; [assumption|]. now apply fadd_double. Qed.

Theorem fsum_error l : forall s, Forall is_double l -> is_double s -> finite (fsum l s) ->
  Rabs (dval (fsum l s) - (dval s + rsum (map dval l))) <= ((1 + u) ^ length l - 1) * (Rabs (dval s) + rsum (map Rabs (map dval l))).
Proof.
  induction l as [|x l IH]; intros s Hl Hs H.
  { cbn. replace (dval s - (dval s + 0)) with 0 by ring. rewrite Rabs_R0. lra. }
  inversion Hl as [|? ? Hx Hl']; subst. assert (Hsx := fadd_double s x Hs Hx).
  specialize (IH (fadd s x) Hl' Hsx H). destruct (fsum_finite l _ Hl' Hsx H) as (Fsx & _).
  rewrite (fadd_val s x Hs Hx Fsx) in IH.
  destruct (plus_err (dval s) (dval x) (format s Hs) (format x Hx)) as (e & He & E). rewrite E in IH. clear E.
  change (fsum (x :: l) s) with (fsum l (fadd s x)). cbn [length map pow]. rewrite !rsum_cons.
  set (S := dval (fsum l (fadd s x))) in *. set (P := (1 + u) ^ length l) in *. assert (P1 : 1 <= P) by apply pow_ge1.
  set (a := dval s) in *. set (b := dval x) in *. set (T := rsum (map dval l)) in *. assert (A0 := rsum_abs_nonneg (map dval l)).
  set (A := rsum (map Rabs (map dval l))) in *. pose proof roundoff_pos as U0. clearbody S P a b T A. clear - IH P1 A0 U0 He.
  assert (Z1 : Rabs ((a + b) * e) <= (Rabs a + Rabs b) * u).
  { rewrite Rabs_mult. apply Rmult_le_compat; try apply Rabs_pos; [apply Rabs_triang|exact He]. }
  assert (Z2 : Rabs ((a + b) * (1 + e)) <= (Rabs a + Rabs b) * (1 + u)).
  { replace ((a + b) * (1 + e)) with ((a + b) + (a + b) * e) by ring. eapply Rle_trans; [apply Rabs_triang|]. pose proof (Rabs_triang a b). lra. }
  replace (S - (a + (b + T))) with ((S - ((a + b) * (1 + e) + T)) + (a + b) * e) by ring.
  eapply Rle_trans; [apply Rabs_triang|].
  pose proof (Rabs_pos a). pose proof (Rabs_pos b).
  assert (Z3 : (P - 1) * (Rabs ((a + b) * (1 + e)) + A) <= (P - 1) * ((Rabs a + Rabs b) * (1 + u) + A)) by (apply Rmult_le_compat_l; lra).
  assert (Z4 : 0 <= u * P * A) by (apply Rmult_le_pos; [apply Rmult_le_pos; lra|exact A0]).
  nra.
Qed.

Lemma fadd_zero_l x : is_double x -> finite x -> finite (fadd fzero x) /\ dval (fadd fzero x) = dval x.
Proof.
  intros Hx F. destruct x as [s|s| |s m e]; try contradiction; [destruct s; split; reflexivity || exact I|].
  split; [exact I|reflexivity].
Qed.
Lemma fadd_zero_finite x : finite (fadd fzero x) -> finite x.
Proof. destruct x as [s|s| |s m e]; cbn; auto. Qed.

Theorem fsum_accurate l : l <> [] -> Forall is_double l -> finite (fsum l fzero) ->
  Rabs (dval (fsum l fzero) - rsum (map dval l)) <= ((1 + u) ^ (length l - 1) - 1) * rsum (map Rabs (map dval l)).
Proof.
  destruct l as [|x l]; [congruence|]. intros _ Hl H. inversion Hl as [|? ? Hx Hl']; subst.
  change (fsum (x :: l) fzero) with (fsum l (fadd fzero x)) in *.
  assert (D := fadd_double fzero x fzero_double Hx).
  destruct (fsum_finite l _ Hl' D H) as (F & _). apply fadd_zero_finite in F.
  destruct (fadd_zero_l x Hx F) as (_ & E).
  pose proof (fsum_error l _ Hl' D H) as Z. rewrite E in Z. cbn [length]. rewrite Nat.sub_succ, Nat.sub_0_r. exact Z.
Qed.

Lemma dval_len n : (0 < Z.of_nat n <= 2 ^ 53)%Z -> dval (dbl (Z.of_nat n)) = INR n.
Proof. intros H. rewrite dbl_val by lia. symmetry. apply INR_IZR_INZ. Qed.

Theorem fmean_value l : l <> [] -> Forall is_double l -> (Z.of_nat (length l) <= 2 ^ 53)%Z -> finite (fmean l fzero) ->
  finite (fsum l fzero) /\ dval (fmean l fzero) = rnd (dval (fsum l fzero) / INR (length l)).
Proof.
  intros N Hl Hn H. unfold fmean in *. assert (L : (0 < Z.of_nat (length l) <= 2 ^ 53)%Z) by (destruct l; [congruence|cbn [length] in *; lia]).
  assert (D := fsum_double l fzero Hl fzero_double). assert (D2 := dbl_double (Z.of_nat (length l))).
  assert (NZ : dval (dbl (Z.of_nat (length l))) <> 0).
  { rewrite dval_len by exact L. apply not_0_INR. intros Q. rewrite Q in L. cbn in L. lia. }
  split; [exact (fdiv_finite _ _ D D2 NZ H)|]. rewrite (fdiv_val _ _ D D2 NZ H), dval_len by exact L. reflexivity.
Qed.

Lemma nearest_rnd x r : is_double x -> finite x -> dval x = rnd r -> nearest x r.
Proof.
  intros D F E. split; [exact F|]. intros y Dy Fy. rewrite E.
  destruct (round_N_pt radix2 fex (fun x => negb (Z.even x)) r) as (_ & H). apply H. now apply format.
Qed.

Theorem fmean_accurate l : l <> [] -> Forall is_double l -> (Z.of_nat (length l) <= 2 ^ 53)%Z -> finite (fmean l fzero) ->
  nearest (fmean l fzero) (dval (fsum l fzero) / INR (length l)) /\
  Rabs (dval (fmean l fzero) - rmean (map dval l)) <= ((1 + u) ^ length l - 1) * rmean (map Rabs (map dval l)) + tiny.
Proof.
  intros N Hl Hn H. destruct (fmean_value l N Hl Hn H) as (Fs & E). split.
  { apply nearest_rnd; [|exact H|exact E]. apply fdiv_double; [now apply fsum_double; [|apply fzero_double]|apply dbl_double]. }
  pose proof (fsum_accurate l N Hl Fs) as Z. rewrite E.
  destruct (any_err (dval (fsum l fzero) / INR (length l))) as (e & d & He & Hd & R). rewrite R. clear R E.
  unfold rmean. rewrite !map_length.
  assert (L : exists k, length l = S k) by (destruct l; [congruence|exists (length l); reflexivity]). destruct L as (k & L). rewrite L in *.
  replace (S k - 1)%nat with k in Z by lia. cbn [pow].
  set (P := (1 + u) ^ k) in *. assert (P1 : 1 <= P) by apply pow_ge1. assert (n0 : 0 < INR (S k)) by (apply lt_0_INR; lia).
  set (n := INR (S k)) in *. assert (A0 := rsum_abs_nonneg (map dval l)). assert (TA := rsum_abs (map dval l)).
  set (T := rsum (map dval l)) in *. set (A := rsum (map Rabs (map dval l))) in *. set (s := dval (fsum l fzero)) in *.
  pose proof roundoff_pos as U0. clearbody P n T A s. clear - Z P1 n0 A0 TA U0 He Hd.
  replace (s / n * (1 + e) + d - T / n) with (/ n * ((s - T) + s * e) + d) by (field; lra).
  eapply Rle_trans; [apply Rabs_triang|]. apply Rplus_le_compat; [|exact Hd].
  rewrite Rabs_mult, (Rabs_pos_eq (/ n)) by (left; now apply Rinv_0_lt_compat).
  replace (((1 + u) * P - 1) * (A / n)) with (/ n * (((1 + u) * P - 1) * A)) by (field; lra).
  apply Rmult_le_compat_l; [left; now apply Rinv_0_lt_compat|].
  eapply Rle_trans; [apply Rabs_triang|].
  assert (Z1 : Rabs s <= P * A). { replace s with ((s - T) + T) by ring. eapply Rle_trans; [apply Rabs_triang|]. lra. }
  assert (Z2 : Rabs (s * e) <= P * A * u). { rewrite Rabs_mult. apply Rmult_le_compat; try apply Rabs_pos; assumption. }
  lra.
Qed.

(** ** Signs *)

Lemma nonneg_is (b : BF) : nonneg (B2SF b) <-> is_nan b = false /\ Bsign b = false.
Proof. destruct b; cbn; intuition congruence. Qed.

Lemma rnd_nonneg x : 0 <= x -> 0 <= rnd x.
Proof. intros H. rewrite <- (round_0 radix2 fex ZnearestE). now apply rnd_le. Qed.

Lemma nonneg_val f : nonneg f -> 0 <= dval f.
Proof.
  destruct f as [s|s| |s m e]; cbn; try (intros; lra). intros ->. apply Rmult_le_pos; [apply IZR_le; lia|]. apply powerRZ_le. lra.
Qed.

Lemma overflow_nonneg (b : BF) : B2SF b = binary_overflow 53 1024 mode_NE false -> nonneg (B2SF b).
Proof. intros ->. reflexivity. Qed.

Lemma fadd_nonneg x y : is_double x -> is_double y -> nonneg x -> nonneg y -> nonneg (fadd x y).
Proof.
  intros Dx Dy Nx Ny. destruct x as [sx|sx| |sx mx ex], y as [sy|sy| |sy my ey]; cbn in Nx, Ny; subst; try reflexivity; try contradiction.
  assert (P1 := nonneg_val (S754_finite false mx ex) eq_refl). assert (P2 := nonneg_val (S754_finite false my ey) eq_refl).
  destruct (lift _ Dx) as [b Eb], (lift _ Dy) as [b0 Eb0]. rewrite <- Eb, <- Eb0 in *. rewrite fadd_equiv, dval_B2R in *.
  assert (F : is_finite b = true) by (apply finite_is; rewrite Eb; exact I). assert (F0 : is_finite b0 = true) by (apply finite_is; rewrite Eb0; exact I).
  assert (S : Bsign b = false) by (destruct b; cbn in *; congruence). assert (S0 : Bsign b0 = false) by (destruct b0; cbn in *; congruence).
  pose proof (Bplus_correct 53 1024 Hprec Hmax mode_NE b b0 F F0) as C.
  destruct (Rlt_bool _ _).
  - destruct C as (_ & C2 & C3). apply nonneg_is. split; [destruct (Bplus _ _ _); cbn in *; congruence|]. rewrite C3, S, S0.
    destruct (Rcompare_spec (B2R b + B2R b0) 0); [lra|reflexivity|reflexivity].
  - destruct C as (C & _). rewrite S in C. now apply overflow_nonneg.
Qed.

Lemma fsquare_nonneg d : is_double d -> d <> S754_nan -> nonneg (fsquare d).
Proof.
  intros D N. destruct (lift _ D) as [b Eb]. rewrite <- Eb in *. unfold fsquare. rewrite fmul_equiv.
  assert (Nb : is_nan b = false) by (destruct b; cbn in *; congruence).
  destruct (is_finite b) eqn:F.
  - pose proof (Bmult_correct 53 1024 Hprec Hmax mode_NE b b) as C. rewrite xorb_nilpotent, F in C.
    destruct (Rlt_bool _ _); [|now apply overflow_nonneg]. destruct C as (_ & C2 & C3). cbn in C2.
    assert (Q : is_nan (Bmult mode_NE b b) = false) by (destruct (Bmult _ _ _); cbn in *; congruence).
    apply nonneg_is. auto.
  - destruct b as [s|s| |]; cbn in *; try congruence. apply xorb_nilpotent.
Qed.

Lemma fdiv_nonneg x n : is_double x -> nonneg x -> (0 < n <= 2 ^ 53)%Z -> nonneg (fdiv x (dbl n)).
Proof.
  intros D Nx Hn. destruct (dbl_exact n ltac:(lia)) as (y & Ey & Fy & Ry & Sy). rewrite <- Ey.
  destruct (lift _ D) as [b Eb]. rewrite <- Eb in *. rewrite fdiv_equiv. apply nonneg_is in Nx. destruct Nx as (Nx & Sx).
  assert (Z : B2R y <> 0) by (rewrite Ry; apply IZR_neq; lia).
  replace (n <? 0)%Z with false in Sy by (symmetry; apply Z.ltb_ge; lia).
  destruct (is_finite b) eqn:F.
  - pose proof (Bdiv_correct 53 1024 Hprec Hmax mode_NE b y Z) as C. rewrite Sx, Sy, F in C. cbn [xorb] in C.
    destruct (Rlt_bool _ _); [|now apply overflow_nonneg]. destruct C as (_ & C2 & C3).
    assert (Q : is_nan (Bdiv mode_NE b y) = false) by (destruct (Bdiv _ _ _); cbn in *; congruence).
    apply nonneg_is. auto.
  - destruct b as [s|s| |]; cbn in *; try congruence. destruct y as [s'|s'| |s' m' e' H']; cbn in *; try congruence. subst. reflexivity.
Qed.

Lemma fsqrt_nonneg x : is_double x -> nonneg x -> nonneg (fsqrt x).
Proof.
  intros D N. destruct (lift _ D) as [b Eb]. rewrite <- Eb in *. rewrite fsqrt_equiv.
  pose proof (Bsqrt_correct 53 1024 Hprec Hmax mode_NE b) as (_ & C2 & C3).
  destruct b as [s|s| |s m e H]; cbn in N; subst; try reflexivity; [contradiction|].
  cbv iota in C2.
  assert (Q : is_nan (Bsqrt mode_NE (B754_finite false m e H)) = false) by (destruct (Bsqrt _ _); cbn [is_finite] in C2; cbn; congruence).
  apply nonneg_is. split; [exact Q|]. rewrite (C3 Q). reflexivity.
Qed.
Lemma fsqrt_finite x : is_double x -> nonneg x -> finite x -> finite (fsqrt x).
Proof.
  intros D N F. destruct (lift _ D) as [b Eb]. rewrite <- Eb in *. rewrite fsqrt_equiv.
  pose proof (Bsqrt_correct 53 1024 Hprec Hmax mode_NE b) as (_ & C2 & _). apply finite_is. rewrite C2.
  destruct b as [s|s| |s m e H]; cbn in N, F; subst; try contradiction; reflexivity.
Qed.

(** Sums of finite doubles are never NaN. *)
Lemma fadd_not_nan x y : is_double x -> is_double y -> x <> S754_nan -> finite y -> fadd x y <> S754_nan.
Proof.
  intros Dx Dy Nx Fy. lifts. rewrite fadd_equiv. apply finite_is in Fy.
  destruct (is_finite b0) eqn:F.
  - pose proof (Bplus_correct 53 1024 Hprec Hmax mode_NE b0 b F Fy) as C. destruct (Rlt_bool _ _).
    + destruct C as (_ & C & _). destruct (Bplus _ _ _); cbn in *; congruence.
    + destruct C as (C & _). rewrite C. discriminate.
  - destruct b0; cbn in *; try congruence. destruct b; cbn in *; congruence.
Qed.
Lemma fsub_not_nan x y : is_double x -> is_double y -> finite x -> y <> S754_nan -> fsub x y <> S754_nan.
Proof.
  intros Dx Dy Fx Ny. lifts. rewrite fsub_equiv. apply finite_is in Fx.
  destruct (is_finite b) eqn:F.
  - pose proof (Bminus_correct 53 1024 Hprec Hmax mode_NE b0 b Fx F) as C. destruct (Rlt_bool _ _).
    + destruct C as (_ & C & _). destruct (Bminus _ _ _); cbn in *; congruence.
    + destruct C as (C & _). rewrite C. discriminate.
  - destruct b; cbn in *; try congruence. destruct b0; cbn in *; congruence.
Qed.
Lemma fsum_not_nan l : forall s, Forall is_double l -> Forall finite l -> is_double s -> s <> S754_nan -> fsum l s <> S754_nan.
Proof.
  induction l as [|x l IH]; intros s Dl Fl Ds Ns; [exact Ns|]. inversion Dl; inversion Fl; subst.
  apply IH; try assumption; [now apply fadd_double|now apply fadd_not_nan].
Qed.
Lemma fmean_not_nan l : l <> [] -> Forall is_double l -> Forall finite l -> (Z.of_nat (length l) <= 2 ^ 53)%Z -> fmean l fzero <> S754_nan.
Proof.
  intros N Dl Fl Hn. unfold fmean. assert (NS := fsum_not_nan l fzero Dl Fl fzero_double ltac:(discriminate)).
  assert (D := fsum_double l fzero Dl fzero_double). set (s := fsum l fzero) in *. clearbody s.
  assert (L : (0 < Z.of_nat (length l) <= 2 ^ 53)%Z) by (destruct l; [congruence|cbn [length] in *; lia]).
  destruct (dbl_exact (Z.of_nat (length l)) ltac:(lia)) as (y & Ey & Fy & Ry & Sy). rewrite <- Ey.
  destruct (lift _ D) as [b Eb]. rewrite <- Eb in *. rewrite fdiv_equiv.
  assert (Z : B2R y <> 0) by (rewrite Ry; apply IZR_neq; lia).
  destruct (is_finite b) eqn:F.
  - pose proof (Bdiv_correct 53 1024 Hprec Hmax mode_NE b y Z) as C. rewrite F in C.
    destruct (Rlt_bool _ _); [|rewrite C; discriminate]. destruct C as (_ & C2 & _). destruct (Bdiv _ _ _); cbn in *; congruence.
  - destruct b; cbn in *; try congruence. destruct y; cbn in *; congruence.
Qed.

Lemma fsquares_map mu l : forall s, fsquares mu l s = fsum (map (fun x => fsquare (fsub x mu)) l) s.
Proof. induction l as [|x l IH]; intros s; [reflexivity|]. apply IH. Qed.
Lemma fsum_nonneg l : forall s, Forall is_double l -> Forall nonneg l -> is_double s -> nonneg s -> nonneg (fsum l s).
Proof.
  induction l as [|x l IH]; intros s Dl Nl Ds Ns; [exact Ns|]. inversion Dl; inversion Nl; subst.
  apply IH; try assumption; [now apply fadd_double|now apply fadd_nonneg].
Qed.
Lemma deviations_double mu l : is_double mu -> Forall is_double l -> Forall is_double (map (fun x => fsquare (fsub x mu)) l).
Proof. intros Dm. induction 1; constructor; [|assumption]. apply fmul_double; now apply fsub_double. Qed.
Lemma fmean_double l s : Forall is_double l -> is_double s -> is_double (fmean l s).
Proof. intros. apply fdiv_double; [now apply fsum_double|apply dbl_double]. Qed.
Lemma fvar_double l s : Forall is_double l -> is_double s -> is_double (fvar l s).
Proof.
  intros. unfold fvar. rewrite fsquares_map. apply fdiv_double; [|apply dbl_double].
  apply fsum_double; [|assumption]. apply deviations_double; [now apply fmean_double|assumption].
Qed.

Theorem fvar_nonneg l : (2 <= length l)%nat -> (Z.of_nat (length l) <= 2 ^ 53)%Z -> Forall is_double l -> Forall finite l ->
  nonneg (fvar l fzero) /\ nonneg (fsd l fzero).
Proof.
  intros L Hn Dl Fl. assert (NE : l <> []) by (destruct l; cbn in *; [lia|congruence]).
  assert (V : nonneg (fvar l fzero)).
  { unfold fvar. rewrite fsquares_map. assert (Dm := fmean_double l fzero Dl fzero_double).
    apply fdiv_nonneg; [| |lia].
    - apply fsum_double; [|apply fzero_double]. now apply deviations_double.
    - apply fsum_nonneg; [now apply deviations_double| |apply fzero_double|reflexivity].
      assert (Nm := fmean_not_nan l NE Dl Fl Hn). set (mu := fmean l fzero) in *. clearbody mu. clear - Dl Fl Dm Nm.
      induction Dl; inversion Fl; subst; constructor; [|auto].
      apply fsquare_nonneg; [now apply fsub_double|now apply fsub_not_nan]. }
  split; [exact V|]. apply fsqrt_nonneg; [now apply fvar_double; [|apply fzero_double]|exact V].
Qed.

(** ** Accuracy of the variance *)

Lemma rsum_plus {A} (f g : A -> R) l : rsum (map (fun x => f x + g x) l) = rsum (map f l) + rsum (map g l).
Proof. induction l as [|x l IH]; [unfold rsum; cbn; lra|]. cbn [map]. rewrite !rsum_cons, IH. ring. Qed.
Lemma rsum_scal {A} (f : A -> R) k l : rsum (map (fun x => k * f x) l) = k * rsum (map f l).
Proof. induction l as [|x l IH]; [unfold rsum; cbn; lra|]. cbn [map]. rewrite !rsum_cons, IH. ring. Qed.
Lemma rsum_const {A} (k : R) (l : list A) : rsum (map (fun _ => k) l) = INR (length l) * k.
Proof. induction l as [|x l IH]; [unfold rsum; cbn; lra|]. cbn [map length]. rewrite rsum_cons, IH, S_INR. ring. Qed.

Lemma shift_deviations l mu : l <> [] ->
  rsum (map (fun x => (x - mu) * (x - mu)) l) = rsum (map (fun x => (x - rmean l) * (x - rmean l)) l) + INR (length l) * ((mu - rmean l) * (mu - rmean l)).
Proof.
  intros N. set (m := rmean l).
  assert (E : rsum l = INR (length l) * m).
  { unfold m, rmean. field. apply not_0_INR. destruct l; cbn; congruence. }
  assert (G : forall c, rsum (map (fun x => (x - c) * (x - c)) l) = rsum (map (fun x => x * x) l) + (- 2 * c) * rsum l + INR (length l) * (c * c)).
  { intros c. rewrite <- (rsum_const (c * c) l). replace (- 2 * c * rsum l) with (rsum (map (fun x => (- 2 * c) * x) l)).
    2: { rewrite (rsum_scal (fun x => x)), map_id. reflexivity. }
    rewrite <- !rsum_plus. f_equal. apply map_ext. intros x. ring. }
  rewrite (G mu), (G m), E. ring.
Qed.

(** One squared deviation. *)
Lemma square_err x mu : is_double x -> is_double mu -> finite (fsquare (fsub x mu)) ->
  let q := dval (fsquare (fsub x mu)) in let t := (dval x - dval mu) * (dval x - dval mu) in
  Rabs (q - t) <= ((1 + u) ^ 3 - 1) * t + tiny.
Proof.
  intros Dx Dm F q t. assert (D := fsub_double x mu Dx Dm). unfold fsquare in F. destruct (fmul_finite _ _ D D F) as (Fd & _).
  unfold q, fsquare. rewrite (fmul_val _ _ D D F). rewrite (fsub_val x mu Dx Dm Fd).
  assert (Fm : generic_format radix2 fex (- dval mu)) by (apply generic_format_opp; now apply format).
  destruct (plus_err (dval x) (- dval mu) (format x Dx) Fm) as (e & He & E). fold (dval x - dval mu) in E. rewrite E.
  destruct (any_err ((dval x - dval mu) * (1 + e) * ((dval x - dval mu) * (1 + e)))) as (f & d & Hf & Hd & E2). rewrite E2. clear E E2.
  replace ((dval x - dval mu) * (1 + e) * ((dval x - dval mu) * (1 + e))) with (t * ((1 + e) * (1 + e))) by (unfold t; ring).
  assert (T0 : 0 <= t) by (unfold t; apply Rle_0_sqr). clearbody t. pose proof roundoff_pos as U0. pose proof roundoff_lt1 as U1.
  replace (t * ((1 + e) * (1 + e)) * (1 + f) + d - t) with (t * ((1 + e) * (1 + e) * (1 + f) - 1) + d) by ring.
  eapply Rle_trans; [apply Rabs_triang|]. apply Rplus_le_compat; [|exact Hd]. rewrite Rabs_mult, (Rabs_pos_eq t) by exact T0.
  rewrite (Rmult_comm _ t). apply Rmult_le_compat_l; [exact T0|].
  apply Rabs_le_inv in He, Hf. clear - He Hf U0 U1. apply Rabs_le.
  assert (B : (1 - u) * (1 - u) <= (1 + e) * (1 + e) <= (1 + u) * (1 + u)) by (split; nra).
  assert (C : (1 - u) * (1 - u) * (1 - u) <= (1 + e) * (1 + e) * (1 + f) <= (1 + u) * (1 + u) * (1 + u)).
  { split; apply Rmult_le_compat; nra. }
  split; [|cbn [pow]; lra]. cbn [pow]. nra.
Qed.

(** The sum of the squared deviations, computed. *)
Lemma squares_err l mu : is_double mu -> Forall is_double l -> Forall finite (map (fun x => fsquare (fsub x mu)) l) ->
  let q := rsum (map dval (map (fun x => fsquare (fsub x mu)) l)) in
  let t := rsum (map (fun x => (x - dval mu) * (x - dval mu)) (map dval l)) in
  Rabs (q - t) <= ((1 + u) ^ 3 - 1) * t + INR (length l) * tiny.
Proof.
  intros Dm Dl. cbv zeta. induction Dl as [|x l Dx Dl IH]; intros F.
  { unfold rsum; cbn. rewrite Rminus_0_r, Rabs_R0. lra. }
  cbn [map] in *. inversion F as [|? ? F1 F2]; subst. specialize (IH F2). rewrite !rsum_cons. cbn [length]. rewrite S_INR.
  pose proof (square_err x mu Dx Dm F1) as E. cbv zeta in E.
  match goal with |- Rabs (?a + ?b - (?c + ?d)) <= _ => replace (a + b - (c + d)) with ((a - c) + (b - d)) by ring end.
  eapply Rle_trans; [apply Rabs_triang|]. lra.
Qed.

Lemma nonneg_abs l : Forall nonneg l -> map Rabs (map dval l) = map dval l.
Proof. induction 1 as [|x l N _ IH]; [reflexivity|]. cbn [map]. rewrite IH. f_equal. apply Rabs_pos_eq. now apply nonneg_val. Qed.

Lemma finite_not_nan x : finite x -> x <> S754_nan.
Proof. destruct x; cbn; congruence || contradiction. Qed.

(** A finite variance: everything before was finite. *)
Lemma fvar_finite l : (2 <= length l)%nat -> (Z.of_nat (length l) <= 2 ^ 53)%Z -> Forall is_double l -> finite (fvar l fzero) ->
  let mu := fmean l fzero in
  finite (fsquares mu l fzero) /\ Forall finite (map (fun x => fsquare (fsub x mu)) l) /\ Forall finite l /\ finite mu.
Proof.
  intros L Hn Dl F mu. unfold fvar in F. fold mu in F. rewrite fsquares_map in *.
  assert (Dm : is_double mu) by (apply fmean_double; [assumption|apply fzero_double]).
  assert (Dq := deviations_double mu l Dm Dl).
  assert (Ds := fsum_double _ fzero Dq fzero_double).
  apply fdiv_finite in F; [|exact Ds|apply dbl_double|rewrite dbl_val by lia; apply IZR_neq; lia].
  split; [exact F|]. destruct (fsum_finite _ _ Dq fzero_double F) as (_ & Fq). split; [exact Fq|].
  assert (A : Forall (fun x => finite x /\ finite mu) l).
  { clearbody mu. clear - Dl Fq Dm. induction Dl as [|x l Dx Dl IH]; cbn [map] in Fq; inversion Fq; subst; constructor; [|auto].
    apply fsub_finite; [assumption..|]. eapply fmul_finite; [| |eassumption]; now apply fsub_double. }
  split; [eapply Forall_impl; [|exact A]; cbn; tauto|]. clearbody mu. clear - A L. destruct A as [|? ? A _]; [cbn in L; lia|]. apply A.
Qed.

Theorem fvar_error l : (2 <= length l)%nat -> (Z.of_nat (length l) <= 2 ^ 53)%Z -> Forall is_double l -> finite (fvar l fzero) ->
  let mu := dval (fmean l fzero) in
  let v := rsum (map (fun x => (x - mu) * (x - mu)) (map dval l)) / (INR (length l) - 1) in
  Rabs (dval (fvar l fzero) - v) <= ((1 + u) ^ (length l + 3) - 1) * v + (2 * (1 + u) ^ length l + 1) * tiny.
Proof.
  intros L Hn Dl F. cbv zeta. destruct (fvar_finite l L Hn Dl F) as (Fs & Fq & Fl & Fm).
  set (mu := fmean l fzero) in *. assert (Dm : is_double mu) by (apply fmean_double; [assumption|apply fzero_double]).
  assert (Dq := deviations_double mu l Dm Dl).
  pose proof (squares_err l mu Dm Dl Fq) as E1. cbv zeta in E1.
  assert (Nq : Forall nonneg (map (fun x => fsquare (fsub x mu)) l)).
  { clearbody mu. clear - Dl Fl Dm Fm. induction Dl; inversion Fl; subst; constructor; [|auto]. apply fsquare_nonneg; [now apply fsub_double|].
    apply fsub_not_nan; auto. now apply finite_not_nan. }
  rewrite fsquares_map in Fs.
  assert (E2 : Rabs (dval (fsum (map (fun x => fsquare (fsub x mu)) l) fzero) - rsum (map dval (map (fun x => fsquare (fsub x mu)) l)))
     <= ((1 + u) ^ (length l - 1) - 1) * rsum (map dval (map (fun x => fsquare (fsub x mu)) l))).
  { rewrite <- (nonneg_abs _ Nq) at 2. rewrite <- (map_length (fun x => fsquare (fsub x mu)) l). apply fsum_accurate; auto. destruct l; cbn; [cbn in L; lia|discriminate]. }
  unfold fvar in *. fold mu in F |- *. rewrite fsquares_map in *.
  assert (Ds := fsum_double _ fzero Dq fzero_double). set (sf := fsum (map (fun x => fsquare (fsub x mu)) l) fzero) in *.
  assert (NZ : dval (dbl (Z.of_nat (length l) - 1)) <> 0) by (rewrite dbl_val by lia; apply IZR_neq; lia).
  rewrite (fdiv_val _ _ Ds (dbl_double _) NZ F). rewrite dbl_val by lia.
  rewrite minus_IZR, <- INR_IZR_INZ.
  destruct (any_err (dval sf / (INR (length l) - 1))) as (e & d & He & Hd & R). rewrite R. clear R.
  assert (Q0 : 0 <= rsum (map dval (map (fun x => fsquare (fsub x mu)) l))).
  { rewrite <- (nonneg_abs _ Nq). apply rsum_abs_nonneg. }
  assert (T0 : 0 <= rsum (map (fun x => (x - dval mu) * (x - dval mu)) (map dval l))).
  { apply rsum_nonneg. intros y Hy. apply in_map_iff in Hy. destruct Hy as (z & <- & _). apply Rle_0_sqr. }
  set (q := rsum (map dval (map (fun x => fsquare (fsub x mu)) l))) in *.
  set (t := rsum (map (fun x => (x - dval mu) * (x - dval mu)) (map dval l))) in *.
  set (s := dval sf) in *.
  assert (K : exists k, length l = S (S k)) by (exists (length l - 2)%nat; lia). destruct K as (k & K). rewrite K in *.
  replace (S (S k) - 1)%nat with (S k) in E2 by lia. assert (n1 : 1 <= INR (S (S k)) - 1).
  { rewrite !S_INR. pose proof (pos_INR k). lra. }
  assert (PP : (1 + u) ^ (S (S k) + 3) = (1 + u) * ((1 + u) ^ S k * (1 + u) ^ 3)).
  { rewrite <- pow_add. replace (S (S k) + 3)%nat with (S (S k + 3)) by lia. reflexivity. }
  assert (PS : (1 + u) ^ S (S k) = (1 + u) * (1 + u) ^ S k) by reflexivity. rewrite PP, PS. clear PP PS.
  set (P := (1 + u) ^ S k) in *. assert (P1 : 1 <= P) by apply pow_ge1. set (C := (1 + u) ^ 3) in *. assert (C1 : 1 <= C) by apply pow_ge1.
  set (n := INR (S (S k))) in *. pose proof roundoff_pos as U0. pose proof tiny_pos as H0. set (h := tiny) in *.
  clearbody q t s P C n h. clear - E1 E2 He Hd Q0 T0 P1 C1 n1 U0 H0.
  assert (B1 : q <= C * t + n * h). { assert (Z := Rle_abs (q - t)). lra. }
  assert (B2 : Rabs (s - t) <= (P * C - 1) * t + P * (n * h)).
  { replace (s - t) with ((s - q) + (q - t)) by ring. eapply Rle_trans; [apply Rabs_triang|].
    assert ((P - 1) * q <= (P - 1) * (C * t + n * h)) by (apply Rmult_le_compat_l; lra). lra. }
  assert (B3 : Rabs s <= P * C * t + P * (n * h)).
  { replace s with ((s - t) + t) by ring. eapply Rle_trans; [apply Rabs_triang|]. rewrite (Rabs_pos_eq t) by exact T0. lra. }
  replace (s / (n - 1) * (1 + e) + d - t / (n - 1)) with (/ (n - 1) * ((s - t) + s * e) + d) by (field; lra).
  eapply Rle_trans; [apply Rabs_triang|].
  replace ((2 * ((1 + u) * P) + 1) * h) with (2 * ((1 + u) * P) * h + h) by ring. rewrite <- Rplus_assoc.
  apply Rplus_le_compat; [|exact Hd].
  assert (I0 : 0 < / (n - 1)) by (apply Rinv_0_lt_compat; lra).
  rewrite Rabs_mult, (Rabs_pos_eq (/ (n - 1))) by lra.
  assert (B4 : Rabs (s - t + s * e) <= ((1 + u) * (P * C) - 1) * t + (1 + u) * P * (n * h)).
  { eapply Rle_trans; [apply Rabs_triang|]. rewrite Rabs_mult.
    assert (Rabs s * Rabs e <= (P * C * t + P * (n * h)) * u) by (apply Rmult_le_compat; try apply Rabs_pos; assumption). lra. }
  apply Rle_trans with (/ (n - 1) * (((1 + u) * (P * C) - 1) * t + (1 + u) * P * (n * h))); [apply Rmult_le_compat_l; lra|].
  rewrite Rmult_plus_distr_l. apply Rplus_le_compat; [right; field; lra|].
  assert (B5 : / (n - 1) * n <= 2). { apply Rmult_le_reg_l with (n - 1); [lra|]. rewrite <- Rmult_assoc, Rinv_r by lra. lra. }
  replace (/ (n - 1) * ((1 + u) * P * (n * h))) with ((/ (n - 1) * n) * ((1 + u) * P * h)) by ring.
  replace (2 * ((1 + u) * P) * h) with (2 * ((1 + u) * P * h)) by ring.
  apply Rmult_le_compat_r; [|exact B5]. apply Rmult_le_pos; [apply Rmult_le_pos; lra|lra].
Qed.

(** ... compared with the exact variance. *)
Theorem fvar_accurate l : (2 <= length l)%nat -> (Z.of_nat (length l) <= 2 ^ 53)%Z -> Forall is_double l -> finite (fvar l fzero) ->
  let n := INR (length l) in
  let d := ((1 + u) ^ length l - 1) * rmean (map Rabs (map dval l)) + tiny in
  Rabs (dval (fvar l fzero) - rvar (map dval l)) <=
    ((1 + u) ^ (length l + 3) - 1) * rvar (map dval l) + (1 + u) ^ (length l + 3) * (n / (n - 1) * (d * d)) + (2 * (1 + u) ^ length l + 1) * tiny.
Proof.
  intros L Hn Dl F n d. pose proof (fvar_error l L Hn Dl F) as E. cbv zeta in E.
  destruct (fvar_finite l L Hn Dl F) as (_ & _ & _ & Fm).
  assert (NE : l <> []) by (destruct l; cbn in *; [lia|congruence]).
  destruct (fmean_accurate l NE Dl Hn Fm) as (_ & M). fold d in M.
  rewrite shift_deviations in E by (destruct l; cbn; congruence). rewrite map_length in E. fold n in E. unfold rvar. rewrite map_length. fold n.
  set (t := rsum (map (fun x => (x - rmean (map dval l)) * (x - rmean (map dval l))) (map dval l))) in *.
  set (e := dval (fmean l fzero) - rmean (map dval l)) in *.
  assert (n1 : 1 <= n - 1). { unfold n. apply le_INR in L. cbn in L. lra. }
  assert (De : e * e <= d * d).
  { replace (e * e) with (Rabs e * Rabs e) by (rewrite <- Rabs_mult; apply Rabs_pos_eq, Rle_0_sqr). apply Rmult_le_compat; try apply Rabs_pos; exact M. }
  assert (P1 := pow_ge1 (length l + 3)). set (P := (1 + u) ^ (length l + 3)) in *.
  set (h := (2 * (1 + u) ^ length l + 1) * tiny) in *. set (x := dval (fvar l fzero)) in *.
  assert (T0 : 0 <= t). { unfold t. apply rsum_nonneg. intros y Hy. apply in_map_iff in Hy. destruct Hy as (z & <- & _). apply Rle_0_sqr. }
  clearbody t e n P h x. clearbody d. clear - E n1 De P1 T0.
  replace ((t + n * (e * e)) / (n - 1)) with (t / (n - 1) + n / (n - 1) * (e * e)) in E by (field; lra).
  set (v := t / (n - 1)) in *. assert (N0 : 0 <= n / (n - 1)) by (apply Rmult_le_pos; [lra|left; apply Rinv_0_lt_compat; lra]).
  assert (B : n / (n - 1) * (e * e) <= n / (n - 1) * (d * d)) by (apply Rmult_le_compat_l; lra).
  assert (B0 : 0 <= n / (n - 1) * (e * e)) by (apply Rmult_le_pos; [lra|apply Rle_0_sqr]).
  set (w := n / (n - 1) * (e * e)) in *. set (w' := n / (n - 1) * (d * d)) in *. clearbody v w w'.
  replace (x - v) with ((x - (v + w)) + w) by ring. eapply Rle_trans; [apply Rabs_triang|]. rewrite (Rabs_pos_eq w) by exact B0.
  assert (P * w <= P * w') by (apply Rmult_le_compat_l; lra). lra.
Qed.

(** The square root. *)
Theorem fsd_accurate l : (2 <= length l)%nat -> (Z.of_nat (length l) <= 2 ^ 53)%Z -> Forall is_double l -> finite (fvar l fzero) ->
  nearest (fsd l fzero) (sqrt (dval (fvar l fzero))).
Proof.
  intros L Hn Dl F. destruct (fvar_finite l L Hn Dl F) as (_ & _ & Fl & _).
  destruct (fvar_nonneg l L Hn Dl Fl) as (V & _).
  assert (D := fvar_double l fzero Dl fzero_double). apply nearest_rnd.
  - now apply fsqrt_double.
  - now apply fsqrt_finite.
  - now apply fsqrt_val.
Qed.

(** ** Integer-valued data *)

Lemma firstn_cons_sum k x l : zsum (firstn (S k) (x :: l)) = (x + zsum (firstn k l))%Z.
Proof. reflexivity. Qed.

Lemma zsum_cons x l : zsum (x :: l) = (x + zsum l)%Z.
Proof. reflexivity. Qed.
Lemma fsum_int l : forall s, (forall z, In z l -> Z.abs z <= 2 ^ 53)%Z ->
  (forall k, (k <= length l)%nat -> (Z.abs (s + zsum (firstn k l)) <= 2 ^ 53)%Z) -> fsum (map dbl l) (dbl s) = dbl (s + zsum l).
Proof.
  induction l as [|x l IH]; intros s Hl Hk; [change (zsum []) with 0%Z; rewrite Z.add_0_r; reflexivity|].
  cbn [map]. change (fsum (dbl x :: map dbl l) (dbl s)) with (fsum (map dbl l) (fadd (dbl s) (dbl x))).
  pose proof (Hk O ltac:(lia)) as H0. cbn in H0. pose proof (Hk 1%nat ltac:(cbn; lia)) as H1. cbn in H1. rewrite fadd_int.
  - rewrite IH; [rewrite zsum_cons; f_equal; ring|intros; apply Hl; now right|]. intros k K. specialize (Hk (S k) ltac:(cbn; lia)). rewrite firstn_cons_sum in Hk. rewrite <- Z.add_assoc. exact Hk.
  - lia.
  - apply Hl. now left.
  - replace (s + x)%Z with (s + (x + 0))%Z by lia. exact H1.
Qed.

Theorem fmean_int l m : l <> [] -> (Z.of_nat (length l) <= 2 ^ 53)%Z -> (forall z, In z l -> Z.abs z <= 2 ^ 53)%Z ->
  (forall k, (k <= length l)%nat -> (Z.abs (zsum (firstn k l)) <= 2 ^ 53)%Z) -> zsum l = (m * Z.of_nat (length l))%Z ->
  fmean (map dbl l) fzero = dbl m.
Proof.
  intros N Hn Hl Hk E. unfold fmean. rewrite map_length. change fzero with (dbl 0). rewrite fsum_int; [|assumption|exact Hk].
  rewrite Z.add_0_l, E. specialize (Hk (length l) (le_n _)). rewrite firstn_all, E in Hk.
  assert (0 < Z.of_nat (length l))%Z by (destruct l; [congruence|cbn [length]; lia]).
  apply fdiv_int; [exact Hk| |lia]. rewrite Z.abs_mul in Hk. rewrite (Z.abs_eq (Z.of_nat _)) in Hk by lia. nia.
Qed.

Lemma zsum_nonneg l : (forall z, In z l -> 0 <= z)%Z -> (0 <= zsum l)%Z.
Proof. induction l as [|x l IH]; intros H; [now cbn|]. rewrite zsum_cons. specialize (IH (fun z Hz => H z (or_intror Hz))). pose proof (H x (or_introl eq_refl)). lia. Qed.
Lemma zsum_firstn_le l k : (forall z, In z l -> 0 <= z)%Z -> (0 <= zsum (firstn k l) <= zsum l)%Z.
Proof.
  revert k; induction l as [|x l IH]; intros [|k] H; cbn [firstn]; rewrite ?zsum_cons; change (zsum []) with 0%Z; try lia.
  - pose proof (zsum_nonneg l (fun z Hz => H z (or_intror Hz))). pose proof (H x (or_introl eq_refl)). lia.
  - specialize (IH k (fun z Hz => H z (or_intror Hz))). pose proof (H x (or_introl eq_refl)). lia.
Qed.
Lemma zsum_in_le l z : (forall z, In z l -> 0 <= z)%Z -> In z l -> (z <= zsum l)%Z.
Proof.
  induction l as [|x l IH]; intros H []; rewrite zsum_cons.
  - subst. pose proof (zsum_nonneg l (fun z Hz => H z (or_intror Hz))). lia.
  - specialize (IH (fun z Hz => H z (or_intror Hz)) H0). pose proof (H x (or_introl eq_refl)). lia.
Qed.

Theorem fvar_int l m : (2 <= length l)%nat -> (Z.of_nat (length l) <= 2 ^ 53)%Z -> (forall z, In z l -> Z.abs z <= 2 ^ 53)%Z ->
  (forall k, (k <= length l)%nat -> (Z.abs (zsum (firstn k l)) <= 2 ^ 53)%Z) -> zsum l = (m * Z.of_nat (length l))%Z ->
  (deviations m l <= 2 ^ 53)%Z ->
  fvar (map dbl l) fzero = fdiv (dbl (deviations m l)) (dbl (Z.of_nat (length l) - 1)).
Proof.
  intros L Hn Hl Hk E Q. unfold fvar. rewrite map_length. rewrite (fmean_int l m); try assumption; [|destruct l; cbn in *; [lia|congruence]].
  f_equal. rewrite fsquares_map. 
  assert (Hm : (Z.abs m <= 2 ^ 53)%Z). { specialize (Hk (length l) (le_n _)). rewrite firstn_all, E, Z.abs_mul, (Z.abs_eq (Z.of_nat _)) in Hk by lia. assert (1 <= Z.of_nat (length l))%Z by lia. pose proof (Z.abs_nonneg m). nia. }
  set (f := fun x => ((x - m) * (x - m))%Z) in *. unfold deviations in *. fold f in Q |- *.
  assert (NN : forall z, In z (map f l) -> (0 <= z)%Z) by (intros z Hz; apply in_map_iff in Hz; destruct Hz as (y & <- & _); apply Z.square_nonneg).
  replace (map (fun x => fsquare (fsub x (dbl m))) (map dbl l)) with (map dbl (map f l)).
  - change fzero with (dbl 0). rewrite fsum_int; [rewrite Z.add_0_l; reflexivity| |].
    + intros z Hz. pose proof (NN z Hz). pose proof (zsum_in_le _ z NN Hz) as B. rewrite Z.abs_eq by assumption. exact (Z.le_trans _ _ _ B Q).
    + intros k _. pose proof (zsum_firstn_le (map f l) k NN) as (B0 & B). rewrite Z.add_0_l, Z.abs_eq by exact B0. exact (Z.le_trans _ _ _ B Q).
  - rewrite !map_map. apply map_ext_in. intros x Hx. pose proof (zsum_in_le _ (f x) NN (in_map f l x Hx)) as B.
    assert (Bs : (Z.abs (x - m) <= 2 ^ 53)%Z). { assert (W : (Z.abs (x - m) <= f x)%Z) by (unfold f; rewrite <- (Z.abs_square (x - m)); pose proof (Z.abs_nonneg (x - m)) as G; revert G; generalize (Z.abs (x - m)); clear; intros; nia). exact (Z.le_trans _ _ _ W (Z.le_trans _ _ _ B Q)). }
    rewrite fsub_int; [|apply Hl; exact Hx|exact Hm|exact Bs]. symmetry. apply fsquare_int; [exact Bs|exact (Z.le_trans _ _ _ B Q)].
Qed.

Lemma fdiv_one x : is_double x -> finite x -> fdiv x (dbl 1) = x.
Proof.
  intros D F. destruct (lift _ D) as [b Eb]. destruct (dbl_exact 1 ltac:(lia)) as (y & Ey & Fy & Ry & Sy). rewrite <- Eb in *. rewrite <- Ey, fdiv_equiv. f_equal.
  apply finite_is in F.
  pose proof (Bdiv_correct 53 1024 Hprec Hmax mode_NE b y ltac:(rewrite Ry; lra)) as C.
  change (SpecFloat.fexp 53 1024) with fex in C. change (round_mode mode_NE) with ZnearestE in C.
  rewrite Ry in C. replace (B2R b / 1) with (B2R b) in C by field.
  rewrite round_generic in C; [|auto with typeclass_instances|exact (generic_format_B2R 53 1024 b)].
  rewrite Rlt_bool_true in C by (apply (abs_B2R_lt_emax 53 1024 b)). destruct C as (C1 & C2 & C3).
  rewrite F in C2. apply B2R_Bsign_inj; try assumption. rewrite C3 by (destruct (Bdiv _ _ _); cbn in *; congruence).
  rewrite Sy. cbn. now rewrite xorb_false_r.
Qed.
Lemma fsub_self x : finite x -> fsub x x = S754_zero false.
Proof.
  destruct x as [s|s| |s m e]; cbn [finite]; try contradiction; intros _; [destruct s; reflexivity|].
  unfold fsub, SFsub. rewrite Z.sub_diag. reflexivity.
Qed.
Theorem fvar_one x : is_double x -> fvar [x] fzero = S754_nan /\ fsd [x] fzero = S754_nan.
Proof.
  intros D. assert (V : fvar [x] fzero = S754_nan); [|split; [exact V|unfold fsd; now rewrite V]].
  destruct x as [s|s| |s m e]; [destruct s; reflexivity|destruct s; reflexivity|reflexivity|].
  unfold fvar, fmean. cbn [length]. change (Z.of_nat 1) with 1%Z.
  change (fsum [S754_finite s m e] fzero) with (S754_finite s m e). rewrite fdiv_one by (exact D || exact I).
  unfold fsquares. cbn [fold_left]. rewrite fsub_self by exact I. reflexivity.
Qed.

Lemma rsum_IZR l : rsum (map IZR l) = IZR (zsum l).
Proof. induction l as [|x l IH]; [reflexivity|]. cbn [map]. now rewrite rsum_cons, zsum_cons, IH, plus_IZR. Qed.
Theorem scaled_rvar (l : list Z) : (2 <= length l)%nat ->
  let n := INR (length l) in n * (n - 1) * rvar (map IZR l) = IZR (scaled_variance l).
Proof.
  intros L n. assert (N : 2 <= n) by (unfold n; apply le_INR in L; exact L).
  pose proof (shift_deviations (map IZR l) 0 ltac:(destruct l; cbn in *; [lia|congruence])) as S. rewrite map_length in S. fold n in S.
  unfold rvar. rewrite map_length. fold n. unfold scaled_variance. rewrite minus_IZR, !mult_IZR, <- !rsum_IZR, <- INR_IZR_INZ. fold n.
  assert (E : rsum (map IZR l) = n * rmean (map IZR l)). { unfold rmean. rewrite map_length. fold n. field. lra. }
  replace (rsum (map IZR (map (fun x => (x * x)%Z) l))) with (rsum (map (fun x => (x - 0) * (x - 0)) (map IZR l))).
  2: { rewrite !map_map. f_equal. apply map_ext. intros x. rewrite mult_IZR. ring. }
  rewrite S, E. field. lra.
Qed.
