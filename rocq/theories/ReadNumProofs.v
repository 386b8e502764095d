(** * ReadNumProofs: decimal text to double. *)

From Coq Require Import ZArith Bool Ascii String List Lia Classical Floats.SpecFloat Reals Lra Compare_dec.
From Flocq Require Import Core Relative BinarySingleNaN.
From Verif Require Import Base Coerce CoerceSpec CoerceProofs Random RandomProofs StatsSpec StatsProofs ReadNumSpec.
Import ListNotations.
Open Scope Z_scope.

Local Notation fex := (FLT_exp (-1074) 53).
Local Notation rnd := (round radix2 fex ZnearestE).
Local Existing Instance Hprec.
Local Existing Instance Hmax.
Local Existing Instance Vfex.
Local Notation BF := (binary_float 53 1024).

(** ** the rounded quotient *)
Definition value (neg : bool) (r : R) : R := if neg then (- r)%R else r.

Lemma dval_SF2R f : is_double f -> dval f = SF2R radix2 f.
Proof. intros H. destruct (lift f H) as [b <-]. rewrite dval_B2R. destruct b; reflexivity. Qed.
Lemma finite_SF f : finite f <-> is_finite_SF f = true.
Proof. destruct f; cbn; intuition congruence. Qed.
Lemma sign_minus f : f <> S754_nan -> minus_sign f = sign_SF f.
Proof. destruct f; cbn; congruence. Qed.
Lemma F2R0 z : F2R (beta := radix2) {| Fnum := z; Fexp := 0 |} = IZR z.
Proof. unfold F2R. cbn. lra. Qed.

Definition rounded (f : spec_float) (neg : bool) (r : R) : Prop :=
  is_double f /\
  if Rlt_bool (Rabs (rnd (value neg r))) (bpow radix2 1024) then finite f /\ dval f = rnd (value neg r) /\ minus_sign f = neg else f = S754_infinity neg.

Lemma round_rat_ok neg a b : 0 <= a -> 0 < b -> rounded (round_rat neg a b) neg (IZR a / IZR b).
Proof.
  intros Ha Hb. unfold rounded. destruct a as [|a|a]; [|destruct b as [|b|b]; try lia|lia].
  - cbn [round_rat]. split; [reflexivity|].
    assert (E : value neg (0 / IZR b) = 0%R) by (unfold value, Rdiv; destruct neg; rewrite Rmult_0_l; lra). rewrite E, round_0, Rabs_R0; [|typeclasses eauto].
    rewrite Rlt_bool_true by apply bpow_gt_0. repeat split.
  - assert (C := Bdiv_correct_aux 53 1024 Hprec Hmax mode_NE neg a 0 false b 0). cbv zeta in C. rewrite !F2R0 in C.
    change (SpecFloat.fexp 53 1024) with fex in C. change (round_mode mode_NE) with ZnearestE in C. rewrite xorb_false_r in C.
    assert (E : round_rat neg (Z.pos a) (Z.pos b) = (let '(mz, ez, lz) := SFdiv_core_binary 53 1024 (Z.pos a) 0 (Z.pos b) 0 in binary_round_aux 53 1024 mode_NE neg mz ez lz)).
    { unfold round_rat. destruct (SFdiv_core_binary 53 1024 (Z.pos a) 0 (Z.pos b) 0) as [[q e] l]. apply round_aux_equiv. }
    rewrite <- E in C. destruct C as [C1 C2].
    assert (V : (IZR (cond_Zopp neg (Z.pos a)) / IZR (cond_Zopp false (Z.pos b)) = value neg (IZR (Z.pos a) / IZR (Z.pos b)))%R).
    { unfold value. destruct neg; cbn [cond_Zopp]; [|reflexivity]. rewrite opp_IZR. unfold Rdiv. apply Ropp_mult_distr_l_reverse. }
    rewrite V in C2. split; [exact C1|]. destruct (Rlt_bool _ _).
    + destruct C2 as [A [B D]]. apply finite_SF in B. split; [exact B|]. split; [rewrite dval_SF2R; assumption|]. rewrite sign_minus; [exact D|]. intros N. rewrite N in B. exact B.
    + rewrite C2. reflexivity.
Qed.

Lemma normalize_ok (neg : bool) (z : Z) : 0 < z -> rounded (SpecFloat.binary_normalize 53 1024 ((if neg then -1 else 1) * z) 0 neg) neg (IZR z).
Proof.
  intros Hz. unfold rounded. rewrite normalize_equiv. split; [apply lifted|].
  assert (C := binary_normalize_correct 53 1024 Hprec Hmax mode_NE ((if neg then -1 else 1) * z) 0 neg). cbv zeta in C. rewrite F2R0 in C.
  change (SpecFloat.fexp 53 1024) with fex in C. change (round_mode mode_NE) with ZnearestE in C.
  assert (V : IZR ((if neg then -1 else 1) * z) = value neg (IZR z)) by (unfold value; destruct neg; rewrite mult_IZR; lra). rewrite V in C.
  assert (P : (0 < IZR z)%R) by (apply IZR_lt; lia).
  destruct (Rlt_bool _ _).
  - destruct C as [A [B D]]. rewrite dval_B2R. split; [now apply finite_is|]. split; [exact A|].
    rewrite sign_minus by (destruct (binary_normalize 53 1024 Hprec Hmax mode_NE ((if neg then -1 else 1) * z) 0 neg); cbn in *; discriminate).
    assert (S : sign_SF (B2SF (binary_normalize 53 1024 Hprec Hmax mode_NE ((if neg then -1 else 1) * z) 0 neg)) = Bsign (binary_normalize 53 1024 Hprec Hmax mode_NE ((if neg then -1 else 1) * z) 0 neg))
      by (destruct (binary_normalize 53 1024 Hprec Hmax mode_NE ((if neg then -1 else 1) * z) 0 neg); reflexivity).
    rewrite S, D. unfold value. destruct neg; [rewrite Rcompare_Lt by lra|rewrite Rcompare_Gt by lra]; reflexivity.
  - rewrite C. unfold value. destruct neg; [rewrite Rlt_bool_true by lra|rewrite Rlt_bool_false by lra]; reflexivity.
Qed.

(** ** the two thresholds *)
Lemma huge_bpow : huge = (bpow radix2 1024 - bpow radix2 970)%R.
Proof. unfold huge. now rewrite !bpow_powerRZ. Qed.
Lemma normal_bpow : smallest_normal = bpow radix2 (-1022).
Proof. unfold smallest_normal. now rewrite bpow_powerRZ. Qed.
Open Scope R_scope.
Lemma value_abs neg r : 0 <= r -> Rabs (value neg r) = r.
Proof. intros H. unfold value. destruct neg; [rewrite Rabs_Ropp|]; now apply Rabs_pos_eq. Qed.
Lemma value_rnd neg r : rnd (value neg r) = value neg (rnd r).
Proof. unfold value. destruct neg; [apply round_NE_opp|reflexivity]. Qed.
Lemma rnd_pos r : 0 <= r -> 0 <= rnd r.
Proof. intros H. rewrite <- (round_0 radix2 fex ZnearestE). now apply rnd_le. Qed.
Lemma rnd_abs neg r : 0 <= r -> Rabs (rnd (value neg r)) = rnd r.
Proof. intros H. rewrite value_rnd. now apply value_abs, rnd_pos. Qed.

Lemma format_bpow e : (-1074 <= e)%Z -> generic_format radix2 fex (bpow radix2 e).
Proof. intros H. apply generic_format_bpow. unfold FLT_exp. lia. Qed.

Lemma below_huge r : 0 <= r < huge -> rnd r < bpow radix2 1024.
Proof.
  intros [H0 H]. rewrite huge_bpow in H.
  set (u := pred radix2 fex (bpow radix2 1024)).
  assert (U : u = bpow radix2 1024 - bpow radix2 971) by (unfold u; rewrite pred_bpow; reflexivity).
  assert (F : generic_format radix2 fex u) by (apply generic_format_pred; [typeclasses eauto|]; now apply format_bpow).
  apply Rle_lt_trans with u.
  - apply round_N_le_midp; [typeclasses eauto|exact F|]. unfold u at 2. rewrite succ_pred by (try typeclasses eauto; now apply format_bpow). rewrite U.
    replace (bpow radix2 971) with (2 * bpow radix2 970); [lra|]. change 971%Z with (970 + 1)%Z. rewrite bpow_plus. cbn [bpow]. change (IZR (Z.pow_pos radix2 1)) with 2. ring.
  - rewrite U. assert (0 < bpow radix2 971) by apply bpow_gt_0. lra.
Qed.
Lemma above_huge r : huge <= r -> bpow radix2 1024 <= rnd r.
Proof.
  intros H. apply Rle_trans with (rnd huge); [|now apply rnd_le].
  assert (C := binary_normalize_correct 53 1024 Hprec Hmax mode_NE (2 ^ 54 - 1) 970 false). cbv zeta in C.
  change (SpecFloat.fexp 53 1024) with fex in C. change (round_mode mode_NE) with ZnearestE in C.
  assert (E : F2R (beta := radix2) {| Fnum := 2 ^ 54 - 1; Fexp := 970 |} = huge).
  { rewrite huge_bpow. unfold F2R. cbn [Fnum Fexp]. change 1024%Z with (54 + 970)%Z. rewrite bpow_plus. change (bpow radix2 54) with (IZR (2 ^ 54)). rewrite minus_IZR. ring. }
  rewrite E in C. destruct (Rlt_bool_spec (Rabs (rnd huge)) (bpow radix2 1024)) as [L|L].
  - exfalso. destruct C as [_ [C _]].
    assert (X : SpecFloat.binary_normalize 53 1024 (2 ^ 54 - 1) 970 false = S754_infinity false) by (vm_compute; reflexivity).
    rewrite normalize_equiv in X. destruct (binary_normalize 53 1024 Hprec Hmax mode_NE (2 ^ 54 - 1) 970 false); cbn in *; discriminate.
  - rewrite Rabs_pos_eq in L; [exact L|]. apply rnd_pos. rewrite huge_bpow.
    assert (bpow radix2 970 <= bpow radix2 1024) by (apply bpow_le; lia). lra.
Qed.
Lemma normal_rnd r : smallest_normal <= r -> smallest_normal <= rnd r.
Proof. rewrite normal_bpow. intros H. apply round_ge_generic; try typeclasses eauto; auto. now apply format_bpow. Qed.
Lemma subnormal_rnd r : r < smallest_normal - powerRZ 2 (-1075) -> rnd r < smallest_normal.
Proof.
  intros H. rewrite normal_bpow in *. replace (powerRZ 2 (-1075)) with (bpow radix2 (-1075)) in H by (now rewrite bpow_powerRZ).
  set (u := pred radix2 fex (bpow radix2 (-1022))).
  assert (U : u = bpow radix2 (-1022) - bpow radix2 (-1074)) by (unfold u; rewrite pred_bpow; reflexivity).
  assert (F : generic_format radix2 fex u) by (apply generic_format_pred; [typeclasses eauto|]; now apply format_bpow).
  apply Rle_lt_trans with u.
  - apply round_N_le_midp; [typeclasses eauto|exact F|]. unfold u at 2. rewrite succ_pred by (try typeclasses eauto; now apply format_bpow). rewrite U.
    replace (bpow radix2 (-1074)) with (2 * bpow radix2 (-1075)); [lra|]. change (-1074)%Z with (-1075 + 1)%Z. rewrite bpow_plus. change (bpow radix2 1) with 2. ring.
  - rewrite U. assert (0 < bpow radix2 (-1074)) by apply bpow_gt_0. lra.
Qed.

(** ** tiny and exact results *)
Lemma dval_abs s m e : Rabs (dval (S754_finite s m e)) = IZR (Zpos m) * bpow radix2 e.
Proof.
  cbn [dval]. rewrite Rabs_mult. rewrite bpow_powerRZ. change (IZR radix2) with 2. f_equal.
  - destruct s; [rewrite Rabs_Ropp|]; apply Rabs_pos_eq, IZR_le; lia.
  - apply Rabs_pos_eq. left. apply powerRZ_lt. lra.
Qed.

Lemma tiny_iff f : finite f -> ftiny f = true <-> Rabs (dval f) < smallest_normal.
Proof.
  rewrite normal_bpow. destruct f as [s|s| |s m e]; cbn [finite]; try tauto; intros _.
  - cbn [ftiny dval]. rewrite Rabs_R0. split; [intros _; apply bpow_gt_0|reflexivity].
  - cbn [ftiny]. rewrite dval_abs. destruct (Z.log2_spec (Z.pos m)) as [A B]; [lia|]. assert (L : (0 <= Z.log2 (Z.pos m))%Z) by apply Z.log2_nonneg.
    assert (P : 0 < bpow radix2 e) by apply bpow_gt_0.
    assert (A' : bpow radix2 (Z.log2 (Z.pos m)) <= IZR (Z.pos m)) by (rewrite <- IZR_Zpower by lia; now apply IZR_le).
    assert (B' : IZR (Z.pos m) < bpow radix2 (Z.log2 (Z.pos m) + 1)).
    { rewrite <- IZR_Zpower by lia. apply IZR_lt. rewrite <- Z.add_1_r in B. exact B. }
    split.
    + intros H. apply Z.ltb_lt in H. apply Rlt_le_trans with (bpow radix2 (Z.log2 (Z.pos m) + 1 + e)).
      * rewrite bpow_plus with (e2 := e). now apply Rmult_lt_compat_r.
      * apply bpow_le. lia.
    + intros H. apply Z.ltb_lt. apply (lt_bpow radix2). apply Rle_lt_trans with (2 := H). rewrite bpow_plus. apply Rmult_le_compat_r; [now left|exact A'].
Qed.

Lemma exact_iff a b f : (0 < b)%Z -> finite f -> rat_exact a b f = true <-> IZR a / IZR b = Rabs (dval f).
Proof.
  intros Hb. assert (B : IZR b <> 0) by (apply not_0_IZR; lia).
  assert (D : forall c, IZR a / IZR b = c <-> IZR a = c * IZR b).
  { intros c. split; [intros <-; field; exact B|intros E; rewrite E; field; exact B]. }
  destruct f as [s|s| |s m e]; cbn [finite]; try tauto; intros _; rewrite D.
  - cbn [rat_exact dval]. rewrite Rabs_R0, Rmult_0_l. split; [intros H; apply Z.eqb_eq in H; now subst|intros H; apply Z.eqb_eq, eq_IZR, H].
  - rewrite dval_abs. cbn [rat_exact]. destruct (Z.leb_spec 0 e).
    + rewrite <- IZR_Zpower by lia. change (radix2 ^ e)%Z with (2 ^ e)%Z. rewrite <- !mult_IZR. split; [intros H'; apply Z.eqb_eq in H'; now rewrite H'|intros H'; apply Z.eqb_eq, eq_IZR, H'].
    + assert (P : bpow radix2 e * bpow radix2 (- e) = 1) by (rewrite <- bpow_plus, Z.add_opp_diag_r; reflexivity).
      assert (Q : bpow radix2 (- e) = IZR (2 ^ (- e))) by (rewrite <- IZR_Zpower by lia; reflexivity).
      assert (N : 0 < bpow radix2 (- e)) by apply bpow_gt_0.
      rewrite Z.eqb_eq. split; intros H'.
      * apply (f_equal IZR) in H'. rewrite !mult_IZR, <- Q in H'. apply Rmult_eq_reg_r with (bpow radix2 (- e)); [|lra].
        rewrite H'. replace (IZR (Z.pos m) * bpow radix2 e * IZR b * bpow radix2 (- e)) with (IZR (Z.pos m) * IZR b * (bpow radix2 e * bpow radix2 (- e))) by ring. rewrite P. ring.
      * apply eq_IZR. rewrite !mult_IZR, <- Q, H'. replace (IZR (Z.pos m) * bpow radix2 e * IZR b * bpow radix2 (- e)) with (IZR (Z.pos m) * IZR b * (bpow radix2 e * bpow radix2 (- e))) by ring. rewrite P. ring.
Qed.

(** ** nearest, ties to even *)
Lemma canonical_finite s m e : is_double (S754_finite s m e) -> canonical radix2 fex (Float radix2 (cond_Zopp s (Zpos m)) e).
Proof. intros H. change fex with (SpecFloat.fexp 53 1024). apply (canonical_bounded 53 1024). unfold is_double, valid_binary in H. exact H. Qed.

Lemma nearest_even_rnd x r : is_double x -> finite x -> dval x = rnd r -> nearest_even x r.
Proof.
  intros Dx Fx E. split; [now apply nearest_rnd|]. intros y Dy Fy Ny Hy.
  assert (NE : Rnd_NE_pt radix2 fex r (rnd r)) by (apply round_NE_pt; [typeclasses eauto|apply exists_NE_FLT; right; reflexivity]).
  destruct NE as [[_ N1] [N2|N2]].
  - destruct N2 as [g [Eg [Cg Hg]]]. destruct x as [s|s| |s m e]; cbn [even_mantissa]; auto.
    assert (Eq : F2R g = F2R (Float radix2 (cond_Zopp s (Zpos m)) e)).
    { rewrite <- Eg, <- E. rewrite (dval_SF2R _ Dx). reflexivity. }
    apply (canonical_unique radix2 fex) in Eq; [|exact Cg|now apply canonical_finite]. subst g. cbn [Fnum] in Hg. destruct s; cbn [cond_Zopp] in Hg; [change (Z.neg m) with (- Z.pos m)%Z in Hg; now rewrite Z.even_opp in Hg|exact Hg].
  - exfalso. apply Ny. rewrite E. apply N2. split; [now apply format|]. intros g Fg.
    rewrite Hy, E. apply N1, Fg.
Qed.

(** ** the value of the text *)
Open Scope Z_scope.
Section Value.
Variable b : Z.
Hypothesis b_two : 2 <= b.
Notation finish := (literal_value b).

Lemma bR : (2 <= IZR b)%R.
Proof. now apply IZR_le. Qed.
Lemma powb k : 0 <= k -> IZR (b ^ k) = powerRZ (IZR b) k.
Proof.
  intros H. rewrite <- (Z2Nat.id k) by lia. rewrite <- pow_IZR. now rewrite pow_powerRZ.
Qed.
Lemma powb_pos k : 0 <= k -> 0 < b ^ k.
Proof. intros. apply Z.pow_pos_nonneg; lia. Qed.

Lemma finish_spec neg v ex : 0 <= v ->
  let r := (IZR v * powerRZ (IZR b) ex)%R in
  ((huge <= r)%R -> finish neg v ex = Throw OutOfRange) /\
  ((r < huge)%R -> exists f, is_double f /\ finite f /\ dval f = rnd (value neg r) /\ minus_sign f = neg /\
     ((smallest_normal <= rnd r)%R \/ rnd r = r -> finish neg v ex = Ok f) /\
     ((rnd r < smallest_normal)%R -> rnd r <> r -> finish neg v ex = Throw OutOfRange)).
Proof.
  intros Hv r. assert (Hr : (0 <= r)%R).
  { apply Rmult_le_pos; [now apply IZR_le|]. left. apply powerRZ_lt. pose proof bR. lra. }
  unfold literal_value. set (f := if 0 <=? ex then _ else _).
  assert (F : rounded f neg r).
  { subst f r. destruct (Z.leb_spec 0 ex) as [P|P].
    - destruct (Z.eqb_spec v 0) as [->|N].
      + rewrite Rmult_0_l. split; [reflexivity|]. replace (value neg 0) with 0%R by (unfold value; destruct neg; lra). rewrite round_0, Rabs_R0 by typeclasses eauto.
        rewrite Rlt_bool_true by apply bpow_gt_0. repeat split.
      + rewrite <- powb, <- mult_IZR by lia. apply normalize_ok. apply Z.mul_pos_pos; [lia|now apply powb_pos].
    - replace (IZR v * powerRZ (IZR b) ex)%R with (IZR v / IZR (b ^ (- ex)))%R.
      + apply round_rat_ok; [lia|apply powb_pos; lia].
      + rewrite powb by lia. unfold Rdiv. rewrite powerRZ_neg', Rinv_inv. reflexivity. }
  assert (X : finite f -> dval f = rnd (value neg r) -> (if 0 <=? ex then true else rat_exact v (b ^ (- ex)) f) = true \/ rnd r <> r).
  { intros Ff Ef. destruct (Z.leb_spec 0 ex); [now left|]. destruct (Req_dec (rnd r) r) as [E|E]; [left|now right].
    apply exact_iff; [apply powb_pos; lia|exact Ff|]. rewrite Ef, rnd_abs, E by exact Hr. unfold r. rewrite powb by lia. unfold Rdiv. rewrite powerRZ_neg', Rinv_inv. reflexivity. }
  assert (Y : finite f -> dval f = rnd (value neg r) -> rnd r <> r -> (rnd r < smallest_normal)%R -> (if 0 <=? ex then true else rat_exact v (b ^ (- ex)) f) = false).
  { intros Ff Ef N S. destruct (Z.leb_spec 0 ex) as [P|P].
    - exfalso. apply N. destruct (Z.eq_dec v 0) as [->|Nv]; [unfold r; rewrite Rmult_0_l, round_0; [reflexivity|typeclasses eauto]|].
      exfalso. assert (1 <= r)%R. { unfold r. rewrite <- powb, <- mult_IZR by lia. apply IZR_le. assert (0 < b ^ ex) by (now apply powb_pos). nia. }
      assert (smallest_normal <= rnd r)%R; [|lra]. apply normal_rnd. rewrite normal_bpow. apply Rle_trans with (bpow radix2 0); [apply bpow_le; lia|]. exact H.
    - apply not_true_is_false. intros E. apply exact_iff in E; [|apply powb_pos; lia|exact Ff]. rewrite Ef, rnd_abs in E by exact Hr. apply N. rewrite <- E. unfold r. rewrite powb by lia. unfold Rdiv. rewrite powerRZ_neg', Rinv_inv. reflexivity. }
  clearbody f. destruct F as [Df F]. rewrite rnd_abs in F by exact Hr. split.
  - intros H. rewrite Rlt_bool_false in F by (now apply above_huge). rewrite F. reflexivity.
  - intros H. rewrite Rlt_bool_true in F by (now apply below_huge). destruct F as [Ff [Ef Sf]]. exists f. repeat split; auto.
    + intros H'. assert (Z : ftiny f && negb (if 0 <=? ex then true else rat_exact v (b ^ (- ex)) f) = false).
      { destruct (X Ff Ef) as [-> |N]; [now rewrite andb_false_r|]. destruct H' as [H'|H']; [|congruence].
        replace (ftiny f) with false; [reflexivity|]. symmetry. apply not_true_is_false. rewrite tiny_iff by exact Ff. rewrite Ef, rnd_abs by exact Hr. lra. }
      rewrite Z. destruct f; try reflexivity; destruct Ff.
    + intros S N. rewrite (Y Ff Ef N S). assert (T : ftiny f = true) by (apply tiny_iff; [exact Ff|]; now rewrite Ef, rnd_abs).
      rewrite T. destruct f; try reflexivity; destruct Ff.
Qed.
End Value.

(** ** digits of any base *)
Lemma letter_lower lo up c : In (lo, up) [("e", "E"); ("p", "P"); ("x", "X")]%char -> lower c = lo <-> c = lo \/ c = up.
Proof.
  cbn [In]. intros H. repeat (destruct H as [H|H]; [injection H as <- <-; destruct c as [b0 b1 b2 b3 b4 b5 b6 b7];
    destruct b0, b1, b2, b3, b4, b5, b6, b7; split; try discriminate; try (intros [H|H]; discriminate H); auto; intros; reflexivity|]). destruct H.
Qed.

Section Digits.
Variables (b : Z) (tbl : list (ascii * Z)) (dg : ascii -> option Z).
Hypothesis dg_iff : forall c d, dg c = Some d <-> In (c, d) tbl.
Hypothesis dg_nonneg : forall c d, In (c, d) tbl -> 0 <= d.
Hypothesis no_point : forall d, ~ In ("."%char, d) tbl.
Hypothesis b_pos : 0 < b.

Inductive nat_in : text -> Z -> Prop :=
| ni_one c d : In (c, d) tbl -> nat_in [c] d
| ni_snoc s v c d : nat_in s v -> In (c, d) tbl -> nat_in (s ++ [c]) (b * v + d).
Definition nin (s : text) (v : Z) : Prop := s = [] /\ v = 0 \/ nat_in s v.
Definition nodig (s : text) : Prop := match s with [] => True | c :: _ => forall d, ~ In (c, d) tbl end.
Notation T := (take_in dg b).

Lemma nat_in_nonneg s v : nat_in s v -> 0 <= v.
Proof. induction 1 as [c d H|s v c d _ IH H]; apply dg_nonneg in H; nia. Qed.
Lemma nin_nonneg s v : nin s v -> 0 <= v.
Proof. intros [[_ ->]|H]; [lia|now apply nat_in_nonneg in H]. Qed.
Lemma nat_in_nonempty s v : nat_in s v -> s <> [].
Proof. destruct 1; [discriminate|]. destruct s; discriminate. Qed.
Lemma nin_snoc s v c d : nin s v -> In (c, d) tbl -> nat_in (s ++ [c]) (b * v + d).
Proof. intros [[-> ->]|H] I; [replace (b * 0 + d) with d by lia; now apply ni_one|now apply ni_snoc]. Qed.
Lemma nin_chars s v : nin s v -> Forall (fun c => exists d, In (c, d) tbl) s.
Proof.
  intros [[-> _]|H]; [constructor|]. induction H; [repeat constructor; eauto|]. apply Forall_app. split; [assumption|]. repeat constructor. eauto.
Qed.

Lemma T_nat s v : nat_in s v -> forall acc k rest, T acc k (s ++ rest) = T (acc * b ^ Z.of_nat (List.length s) + v) (k + List.length s) rest.
Proof.
  induction 1 as [c d H|s v c d Hs IH H]; intros acc k rest.
  - cbn [app take_in List.length]. apply dg_iff in H. rewrite H. rewrite Nat.add_1_r. change (Z.of_nat 1) with 1. now rewrite Z.pow_1_r.
  - rewrite <- app_assoc. rewrite IH. cbn [app take_in]. apply dg_iff in H. rewrite H. rewrite app_length. cbn [List.length].
    rewrite Nat2Z.inj_add. change (Z.of_nat 1) with 1. rewrite Z.pow_add_r, Z.pow_1_r by lia. f_equal; [ring|lia].
Qed.
Lemma T_nin s v acc k rest : nin s v -> T acc k (s ++ rest) = T (acc * b ^ Z.of_nat (List.length s) + v) (k + List.length s) rest.
Proof.
  intros [[-> ->]|H]; [|now apply T_nat]. cbn [app List.length]. change (Z.of_nat 0) with 0. rewrite Z.pow_0_r, Nat.add_0_r. f_equal. lia.
Qed.
Lemma T_stop acc k rest : nodig rest -> T acc k rest = (acc, k, rest).
Proof.
  destruct rest as [|c r]; [reflexivity|]. cbn [nodig take_in]. intros H. destruct (dg c) as [d|] eqn:E; [|reflexivity]. apply dg_iff in E. now apply H in E.
Qed.
Lemma T_back : forall s acc k v k' r, T acc k s = (v, k', r) ->
  exists p w, s = (p ++ r)%list /\ nin p w /\ v = acc * b ^ Z.of_nat (List.length p) + w /\ k' = (k + List.length p)%nat /\ nodig r.
Proof.
  assert (G : forall s p w acc k v k' r, nin p w -> v = v -> T (acc * b ^ Z.of_nat (List.length p) + w) (k + List.length p) s = (v, k', r) ->
    exists q w', (p ++ s = q ++ r)%list /\ nin q w' /\ v = acc * b ^ Z.of_nat (List.length q) + w' /\ k' = (k + List.length q)%nat /\ nodig r).
  { induction s as [|c s IH]; intros p w acc k v k' r Hp _ H; cbn [take_in] in H.
    - injection H as <- <- <-. exists p, w. repeat split; auto.
    - destruct (dg c) as [d|] eqn:E.
      + apply dg_iff in E. assert (P := nin_snoc p w c d Hp E).
        destruct (IH (p ++ [c])%list (b * w + d) acc k v k' r) as (q & w' & Q); [now right|reflexivity| |].
        * rewrite app_length. cbn [List.length]. rewrite Nat2Z.inj_add. change (Z.of_nat 1) with 1. rewrite Z.pow_add_r, Z.pow_1_r by lia.
          rewrite <- H. f_equal; [ring|lia].
        * exists q, w'. rewrite <- app_assoc in Q. exact Q.
      + injection H as <- <- <-. exists p, w. repeat split; auto. cbn. intros d I. apply dg_iff in I. congruence. }
  intros s acc k v k' r H. destruct (G s [] 0 acc k v k' r) as (q & w' & Q); [now left|reflexivity| |].
  - cbn [List.length]. change (Z.of_nat 0) with 0. rewrite Z.pow_0_r, Nat.add_0_r, Z.mul_1_r, Z.add_0_r. exact H.
  - now exists q, w'.
Qed.

(** All digits of a mantissa as one number, and how many are after the point. *)
Inductive mant : text -> Z -> nat -> Prop :=
| m_whole ip v : nat_in ip v -> mant ip v 0
| m_point ip v fp w : nin ip v -> nin fp w -> ip <> [] \/ fp <> [] -> mant (ip ++ "."%char :: fp) (v * b ^ Z.of_nat (List.length fp) + w) (List.length fp).

Lemma mant_nonneg m v kf : mant m v kf -> 0 <= v.
Proof.
  intros [ip w H|ip w fp u Hi Hf _]; [now apply nat_in_nonneg in H|]. apply nin_nonneg in Hi, Hf.
  assert (0 < b ^ Z.of_nat (List.length fp)) by (apply Z.pow_pos_nonneg; lia). nia.
Qed.
Lemma mant_chars m v kf : mant m v kf -> Forall (fun c => (exists d, In (c, d) tbl) \/ c = "."%char) m.
Proof.
  assert (W : forall s w, nin s w -> Forall (fun c => (exists d, In (c, d) tbl) \/ c = "."%char) s).
  { intros s w H. eapply Forall_impl; [|exact (nin_chars s w H)]. auto. }
  intros [ip w H|ip w fp u Hi Hf _]; [apply (W ip w); now right|]. apply Forall_app. split; [now apply (W ip w)|]. constructor; [now right|now apply (W fp u)].
Qed.
Lemma mant_nonempty m v kf : mant m v kf -> m <> [].
Proof. intros [ip w H|ip w fp u _ _ _]; [now apply nat_in_nonempty in H|]. destruct ip; discriminate. Qed.

Lemma point_match {A} (c : ascii) (x y : A) : c <> "."%char -> match c with "."%char => x | _ => y end = y.
Proof. intros H. destruct c as [b0 b1 b2 b3 b4 b5 b6 b7]. destruct b0, b1, b2, b3, b4, b5, b6, b7; try reflexivity. now elim H. Qed.

Lemma mant_forward m v kf rest : mant m v kf -> (forall c r', rest = c :: r' -> ~ exists v' kf', mant (m ++ [c]) v' kf') ->
  exists k, Nat.eqb k 0 = false /\ take_mant T (m ++ rest) = (v, k, Z.of_nat kf, rest).
Proof.
  intros M St. unfold take_mant. destruct M as [ip v H|ip v fp w Hi Hf Hn].
  - assert (D : nodig rest).
    { destruct rest as [|c r']; [exact I|]. intros d Hd. apply (St c r' eq_refl). exists (b * v + d), 0%nat. apply m_whole. now apply ni_snoc. }
    rewrite (T_nat _ _ H), (T_stop _ _ _ D). exists (List.length ip). split.
    { apply Nat.eqb_neq. intros E. apply (nat_in_nonempty _ _ H). now destruct ip. }
    rewrite Z.mul_0_l, Z.add_0_l, Nat.add_0_l. destruct rest as [|c r']; [reflexivity|].
    assert (c <> "."%char). { intros ->. apply (St "."%char r' eq_refl). do 2 eexists. apply (m_point ip v [] 0); [now right|now left|left; now apply nat_in_nonempty in H]. }
    destruct c as [b0 b1 b2 b3 b4 b5 b6 b7]. destruct b0, b1, b2, b3, b4, b5, b6, b7; try reflexivity. now elim H0.
  - assert (D : nodig rest).
    { destruct rest as [|c r']; [exact I|]. intros d Hd. apply (St c r' eq_refl). do 2 eexists. rewrite <- app_assoc. cbn [app].
      apply (m_point ip v (fp ++ [c])%list (b * w + d)); [exact Hi|right; now apply nin_snoc|right; destruct fp; discriminate]. }
    rewrite <- app_assoc. cbn [app]. rewrite (T_nin _ _ _ _ _ Hi), T_stop by (cbn; exact no_point). rewrite (T_nin _ _ _ _ _ Hf), (T_stop _ _ _ D).
    exists (List.length ip + List.length fp)%nat. split.
    { apply Nat.eqb_neq. destruct Hn as [Hn|Hn]; [destruct ip|destruct fp]; cbn; try congruence; lia. }
    rewrite Z.mul_0_l, Z.add_0_l, Nat.add_0_l. repeat f_equal. lia.
Qed.
Lemma mant_back s v k kf r : take_mant T s = (v, k, kf, r) -> Nat.eqb k 0 = false -> exists m kf', s = (m ++ r)%list /\ mant m v kf' /\ kf = Z.of_nat kf'.
Proof.
  unfold take_mant. destruct (T 0 0%nat s) as [[v1 k1] r1] eqn:E1. destruct (T_back _ _ _ _ _ _ E1) as (p & w & Es & Hp & Ev & Ek & D).
  rewrite Z.mul_0_l, Z.add_0_l in Ev. rewrite Nat.add_0_l in Ek. intros H Hk. apply Nat.eqb_neq in Hk.
  assert (Wh : (v1, k1, 0, r1) = (v, k, kf, r) -> exists m kf', s = (m ++ r)%list /\ mant m v kf' /\ kf = Z.of_nat kf').
  { intros E. injection E as <- <- <- <-. exists p, 0%nat. split; [exact Es|]. split; [|reflexivity]. apply m_whole. destruct Hp as [[-> _]|Hp]; [elim Hk; subst k1; reflexivity|]. now subst v1. }
  destruct r1 as [|c r2]; [now apply Wh|]. destruct (ascii_dec c "."%char) as [->|Np].
  - destruct (T v1 k1 r2) as [[v2 k2] r3] eqn:E2. destruct (T_back _ _ _ _ _ _ E2) as (q & u & Eq & Hq & Ev2 & Ek2 & _). injection H as <- <- <- <-.
    exists (p ++ "."%char :: q)%list, (List.length q). split; [subst s r2; rewrite <- app_assoc; reflexivity|]. split; [|f_equal; lia].
    rewrite Ev2, Ev. apply m_point; auto. destruct p; [|left; discriminate]. destruct q; [|right; discriminate]. cbn in *. lia.
  - apply Wh. rewrite <- H. clear -Np. destruct c as [b0 b1 b2 b3 b4 b5 b6 b7]. destruct b0, b1, b2, b3, b4, b5, b6, b7; try reflexivity. now elim Np.
Qed.
End Digits.

Lemma take_digits_in : forall s acc k, take_digits acc k s = take_in char_digit 10 acc k s.
Proof. induction s as [|c s IH]; intros acc k; cbn [take_digits take_in]; [reflexivity|]. destruct (char_digit c); [apply IH|reflexivity]. Qed.
Lemma take_mant_digits s : take_mant take_digits s = take_mant (take_in char_digit 10) s.
Proof.
  unfold take_mant. rewrite take_digits_in. destruct (take_in char_digit 10 0 0 s) as [[v1 k1] r1]. destruct r1 as [|c r2]; [reflexivity|].
  destruct (ascii_dec c "."%char) as [->|Np]; [now rewrite take_digits_in|].
  destruct c as [b0 b1 b2 b3 b4 b5 b6 b7]. destruct b0, b1, b2, b3, b4, b5, b6, b7; try reflexivity. now elim Np.
Qed.
Lemma hex_digit_iff c d : hex_digit c = Some d <-> In (c, d) hex_table.
Proof.
  unfold hex_digit. split.
  - destruct c as [b0 b1 b2 b3 b4 b5 b6 b7]. destruct b0, b1, b2, b3, b4, b5, b6, b7; vm_compute; intros H; try discriminate H; injection H as <-; tauto.
  - unfold hex_table, digit_table. cbn [In app]. intros H. repeat (destruct H as [H|H]; [injection H as <- <-; reflexivity|]). destruct H.
Qed.
Lemma hex_nonneg c d : In (c, d) hex_table -> 0 <= d.
Proof. unfold hex_table, digit_table. cbn [In app]. intros H. repeat (destruct H as [H|H]; [injection H as _ <-; lia|]). destruct H. Qed.
Lemma dec_nonneg c d : In (c, d) digit_table -> 0 <= d.
Proof. intros H. apply digit_range in H. lia. Qed.
Lemma hex_no_point d : ~ In ("."%char, d) hex_table.
Proof. unfold hex_table, digit_table. cbn [In app]. intros H. repeat (destruct H as [H|H]; [discriminate H|]). destruct H. Qed.
Lemma dec_no_point d : ~ In ("."%char, d) digit_table.
Proof. unfold digit_table. cbn [In app]. intros H. repeat (destruct H as [H|H]; [discriminate H|]). destruct H. Qed.
Lemma dec_nat_in s v : dec_nat s v <-> nat_in 10 digit_table s v.
Proof. split; induction 1; constructor; auto. Qed.
Lemma hex_nat_in s v : hex_nat s v <-> nat_in 16 hex_table s v.
Proof. split; induction 1; constructor; auto. Qed.
Lemma digits_nin s v : digits s v <-> nin 10 digit_table s v.
Proof.
  split; [intros [|s' v' H]; [now left|right; now apply dec_nat_in]|]. intros [[-> ->]|H]; [constructor|apply ds_some; now apply dec_nat_in].
Qed.
Lemma hex_digits_nin s v : hex_digits s v <-> nin 16 hex_table s v.
Proof.
  split; [intros [|s' v' H]; [now left|right; now apply hex_nat_in]|]. intros [[-> ->]|H]; [constructor|apply hs_some; now apply hex_nat_in].
Qed.
Notation dmant := (mant 10 digit_table).
Notation hmant := (mant 16 hex_table).

(** ** exponents *)
Inductive expo (lo up : ascii) : text -> Z -> Prop :=
| ex_none : expo lo up [] 0
| ex_some c sg neg ds x : c = lo \/ c = up -> sign_text sg neg -> dec_nat ds x -> expo lo up (c :: sg ++ ds) (if neg then - x else x)%Z.
Lemma exp_expo ex x : exp_text ex x <-> expo "e" "E" ex x.
Proof. split; intros []; constructor; auto. Qed.
Lemma bin_exp_expo ex x : bin_exp_text ex x <-> expo "p" "P" ex x.
Proof. split; intros []; constructor; auto. Qed.

Lemma take_sign_text sg neg s : sign_text sg neg -> (match s with [] => True | c :: _ => c <> "-"%char /\ c <> "+"%char end) -> take_sign (sg ++ s) = (neg, s).
Proof.
  intros [| |] H; cbn [app]; try reflexivity. destruct s as [|c s]; [reflexivity|]. destruct H. now apply take_sign_other.
Qed.
Lemma take_sign_back s neg s1 : take_sign s = (neg, s1) -> exists sg, s = (sg ++ s1)%list /\ sign_text sg neg.
Proof.
  destruct s as [|c s]; [intros H; injection H as <- <-; exists []; split; [reflexivity|constructor]|].
  destruct (ascii_dec c "-"%char) as [->|N1]; [intros H; injection H as <- <-; exists ["-"%char]; split; [reflexivity|constructor]|].
  destruct (ascii_dec c "+"%char) as [->|N2]; [intros H; injection H as <- <-; exists ["+"%char]; split; [reflexivity|constructor]|].
  rewrite take_sign_other by assumption. intros H; injection H as <- <-. exists []. split; [reflexivity|constructor].
Qed.
Lemma dec_starts s v : dec_nat s v -> forall rest, match (s ++ rest)%list with [] => True | c :: _ => c <> "-"%char /\ c <> "+"%char end.
Proof. intros H rest. destruct (dec_nat_head _ _ H) as (c & d & s' & -> & Hd). cbn [app]. destruct (digit_not_sign _ _ Hd) as [A [B _]]. auto. Qed.

Lemma take_expo lo up ex x rest : In (lo, up) [("e", "E"); ("p", "P"); ("x", "X")]%char -> expo lo up ex x ->
  (forall ex' x' rest', (ex ++ rest = ex' ++ rest')%list -> expo lo up ex' x' -> (List.length ex' <= List.length ex)%nat) -> take_exp lo (ex ++ rest) = x.
Proof.
  intros L [|c sg neg ds y Hc Hs Hd] St.
  - cbn [app]. destruct rest as [|c s']; [reflexivity|]. cbn [take_exp]. destruct (ascii_dec (lower c) lo) as [E|_]; [|reflexivity].
    destruct (take_sign s') as [neg s1] eqn:E1. destruct (take_sign_back _ _ _ E1) as (sg & -> & Hs).
    destruct (take_digits 0 0 s1) as [[v k] r] eqn:E2. rewrite take_digits_in in E2.
    destruct (T_back 10 digit_table char_digit char_digit_iff ltac:(lia) _ _ _ _ _ _ E2) as (p & w & -> & Hp & Ev & Ek & _).
    destruct (Nat.eqb_spec k 0) as [_|Nk]; [reflexivity|]. destruct Hp as [[-> _]|Hp]; [cbn in Ek; lia|]. exfalso.
    apply dec_nat_in in Hp. assert (X := St (c :: sg ++ p)%list (if neg then - w else w) r). cbn [app List.length] in X. rewrite <- app_assoc in X.
    specialize (X eq_refl). assert (S (List.length (sg ++ p)) <= 0)%nat; [apply X; constructor; auto; now apply (letter_lower lo up)|lia].
  - cbn [app take_exp]. rewrite (proj2 (letter_lower lo up c L) Hc). destruct (ascii_dec lo lo) as [_|N]; [|now elim N]. rewrite <- app_assoc.
    rewrite (take_sign_text _ _ _ Hs (dec_starts _ _ Hd rest)).
    assert (D : no_digit_first rest).
    { destruct rest as [|c' r']; [exact I|]. intros d H'. assert (X := St (c :: sg ++ ds ++ [c'])%list (if neg then - (10 * y + d) else 10 * y + d) r').
      cbn [app List.length] in X. rewrite <- !app_assoc in X. cbn [app] in X. specialize (X eq_refl).
      assert (S (List.length (sg ++ ds ++ [c'])) <= S (List.length (sg ++ ds)))%nat; [apply X; constructor; auto; now constructor|]. rewrite !app_length in *. cbn in *. lia. }
    rewrite (take_digits_dec _ _ _ Hd D).
    assert (Nat.eqb (List.length ds) 0 = false) as ->; [|reflexivity]. apply Nat.eqb_neq. intros E. apply (dec_nat_nonempty _ _ Hd). now destruct ds.
Qed.

(** ** literals as sign, mantissa and exponent *)
Lemma lit_split s neg r : literal s neg r -> exists sg m v kf ex x,
  s = (sg ++ m ++ ex)%list /\ sign_text sg neg /\ dmant m v kf /\ expo "e" "E" ex x /\ r = (IZR v * powerRZ 10 (x - Z.of_nat kf))%R.
Proof.
  intros [sg n ip v ex x Hs Hi Hx|sg n ip v fp w ex x Hs Hi Hf Hn Hx].
  - exists sg, ip, v, 0%nat, ex, x. repeat split; auto; [apply m_whole; now apply dec_nat_in|now apply exp_expo|]. change (Z.of_nat 0) with 0. now rewrite Z.sub_0_r.
  - exists sg, (ip ++ "."%char :: fp)%list, (v * 10 ^ Z.of_nat (List.length fp) + w), (List.length fp), ex, x. repeat split; auto.
    + now rewrite <- app_assoc.
    + apply m_point; auto; now apply digits_nin.
    + now apply exp_expo.
    + rewrite plus_IZR, mult_IZR, (powb 10) by lia. unfold Z.sub. rewrite powerRZ_add by lra. rewrite powerRZ_neg', <- pow_powerRZ.
      assert (0 < 10 ^ List.length fp)%R by (apply pow_lt; lra). field. lra.
Qed.
Lemma lit_build sg neg m v kf ex x : sign_text sg neg -> dmant m v kf -> expo "e" "E" ex x -> exists r, literal (sg ++ m ++ ex) neg r.
Proof.
  intros Hs [ip u H|ip u fp w Hi Hf Hn] Hx; eexists.
  - apply lit_whole; [exact Hs|now apply dec_nat_in; eauto|apply exp_expo; eauto].
  - rewrite <- app_assoc. cbn [app]. apply lit_point; [exact Hs|apply digits_nin; eauto|apply digits_nin; eauto|exact Hn|apply exp_expo; eauto].
Qed.
Lemma hex_split s neg r : hex_literal s neg r -> exists sg c m v kf ex x,
  s = (sg ++ "0"%char :: c :: m ++ ex)%list /\ sign_text sg neg /\ (c = "x"%char \/ c = "X"%char) /\ hmant m v kf /\ expo "p" "P" ex x /\
  r = (IZR v * powerRZ 2 (x - 4 * Z.of_nat kf))%R.
Proof.
  intros [sg n c ip v ex x Hs Hc Hi Hx|sg n c ip v fp w ex x Hs Hc Hi Hf Hn Hx].
  - exists sg, c, ip, v, 0%nat, ex, x. repeat split; auto; [apply m_whole; now apply hex_nat_in|now apply bin_exp_expo|]. change (4 * Z.of_nat 0) with 0. now rewrite Z.sub_0_r.
  - exists sg, c, (ip ++ "."%char :: fp)%list, (v * 16 ^ Z.of_nat (List.length fp) + w), (List.length fp), ex, x. repeat split; auto.
    + now rewrite <- app_assoc.
    + apply m_point; auto; now apply hex_digits_nin.
    + now apply bin_exp_expo.
    + rewrite plus_IZR, mult_IZR, (powb 16) by lia. unfold Z.sub. rewrite powerRZ_add by lra. rewrite powerRZ_neg'.
      assert (E : powerRZ 2 (4 * Z.of_nat (List.length fp)) = (16 ^ List.length fp)%R).
      { rewrite <- (powb 2), pow_IZR by lia. rewrite Z.pow_mul_r by lia. reflexivity. }
      rewrite E, <- pow_powerRZ. assert (0 < 16 ^ List.length fp)%R by (apply pow_lt; lra). field. lra.
Qed.
Lemma hex_build sg neg c m v kf ex x : sign_text sg neg -> c = "x"%char \/ c = "X"%char -> hmant m v kf -> expo "p" "P" ex x ->
  exists r, hex_literal (sg ++ "0"%char :: c :: m ++ ex) neg r.
Proof.
  intros Hs Hc [ip u H|ip u fp w Hi Hf Hn] Hx; eexists.
  - apply hex_whole; [exact Hs|exact Hc|apply hex_nat_in; eauto|apply bin_exp_expo; eauto].
  - rewrite <- app_assoc. cbn [app]. apply hex_point; [exact Hs|exact Hc|apply hex_digits_nin; eauto|apply hex_digits_nin; eauto|exact Hn|apply bin_exp_expo; eauto].
Qed.

Lemma not_word s : (exists c r, s = c :: r /\ ((exists d, is_digit c d) \/ c = "."%char)) ->
  has_prefix (lit "inf") (map lower s) = false /\ has_prefix (lit "nan") (map lower s) = false.
Proof.
  intros (c & r & -> & [[d H]| ->]); [now apply (no_inf_digit c d)|]. split; reflexivity.
Qed.
Lemma signed ws sg neg u : Forall blank ws -> sign_text sg neg -> (exists c r, u = c :: r /\ ((exists d, is_digit c d) \/ c = "."%char)) ->
  take_sign (skip_ws (ws ++ sg ++ u)) = (neg, u).
Proof.
  intros Hw Hs (c & r & -> & Hc). rewrite skip_ws_blank by exact Hw.
  assert (S : skip_ws (sg ++ c :: r) = (sg ++ c :: r)%list).
  { destruct Hs; cbn [app]; apply skip_ws_stop; try reflexivity. destruct Hc as [[d Hd]| ->]; [eapply digit_not_space; eauto|reflexivity]. }
  rewrite S. apply take_sign_text; [exact Hs|]. destruct Hc as [[d Hd]| ->]; [|split; discriminate]. destruct (digit_not_sign _ _ Hd) as [A [B _]]. auto.
Qed.
Lemma dmant_starts m v kf rest : dmant m v kf -> exists c r, (m ++ rest)%list = c :: r /\ ((exists d, is_digit c d) \/ c = "."%char).
Proof.
  intros H. assert (Hc := mant_chars _ _ _ _ _ H). assert (Hn := mant_nonempty _ _ _ _ _ H). destruct m as [|c m]; [easy|]. inversion Hc; subst. do 2 eexists. split; [reflexivity|assumption].
Qed.
Lemma expo_first lo up ex x c r : expo lo up ex x -> ex = c :: r -> c = lo \/ c = up.
Proof. intros [|c' sg neg ds y Hc _ _] E; [discriminate|]. injection E as -> _. exact Hc. Qed.

(** The mantissa of the longest number cannot be continued. *)
Lemma stuck_mant b tbl lo up m v kf ex x rest :
  expo lo up ex x -> (forall d, ~ In (lo, d) tbl) -> (forall d, ~ In (up, d) tbl) -> lo <> "."%char -> up <> "."%char -> mant b tbl m v kf ->
  (ex = [] -> forall c r' v' kf', rest = c :: r' -> mant b tbl (m ++ [c]) v' kf' -> False) ->
  forall c r', (ex ++ rest)%list = c :: r' -> ~ exists v' kf', mant b tbl (m ++ [c]) v' kf'.
Proof.
  intros Hx Nl Nu Pl Pu M St c r' E (v' & kf' & M'). destruct ex as [|c0 ex0].
  - eapply (St eq_refl); eauto.
  - injection E as <- E. assert (F := expo_first _ _ _ _ _ _ Hx eq_refl).
    assert (C := mant_chars _ _ _ _ _ M'). apply Forall_app in C. destruct C as [_ C]. inversion C as [|? ? C0 _]; subst.
    destruct C0 as [[d Hd]|C0]; destruct F as [F|F]; [apply (Nl d)|apply (Nu d)|apply Pl|apply Pu]; rewrite <- F; assumption.
Qed.

Lemma mark_not_digit c : In c ["e"; "E"]%char -> forall d, ~ In (c, d) digit_table.
Proof. intros H d I. cbn in H, I. repeat (destruct H as [<-|H]; [repeat (destruct I as [I|I]; [discriminate I|]); destruct I|]). destruct H. Qed.
Lemma mark_not_hex c : In c ["p"; "P"]%char -> forall d, ~ In (c, d) hex_table.
Proof. intros H d I. cbn in H, I. repeat (destruct H as [<-|H]; [repeat (destruct I as [I|I]; [discriminate I|]); destruct I|]). destruct H. Qed.

Lemma hex_part_zero x s' : lower x = "x"%char ->
  hex_part ("0"%char :: x :: s') = (let '(_, k, _, _) := take_mant (take_in hex_digit 16) s' in if Nat.eqb k 0 then None else Some s').
Proof. intros E. unfold hex_part. rewrite E. reflexivity. Qed.
Lemma hex_part_some s s2 : hex_part s = Some s2 -> exists x v k kf r,
  s = "0"%char :: x :: s2 /\ lower x = "x"%char /\ take_mant (take_in hex_digit 16) s2 = (v, k, kf, r) /\ Nat.eqb k 0 = false.
Proof.
  unfold hex_part. destruct s as [|c [|x s']]; try discriminate.
  - destruct c as [b0 b1 b2 b3 b4 b5 b6 b7]; destruct b0, b1, b2, b3, b4, b5, b6, b7; discriminate.
  - destruct (ascii_dec c "0"%char) as [->|N].
    + destruct (ascii_dec (lower x) "x"%char) as [E|]; [|discriminate]. destruct (take_mant (take_in hex_digit 16) s') as [[[v k] kf] r] eqn:M.
      destruct (Nat.eqb k 0) eqn:K; [discriminate|]. intros H. injection H as <-. exists x, v, k, kf, r. auto.
    + destruct c as [b0 b1 b2 b3 b4 b5 b6 b7]; destruct b0, b1, b2, b3, b4, b5, b6, b7; try discriminate. now elim N.
Qed.
Lemma x_letters c : lower c = "x"%char <-> c = "x"%char \/ c = "X"%char.
Proof. apply letter_lower. cbn. auto. Qed.

Lemma stod_number ws s neg r rest : Forall blank ws -> number s neg r -> longest s rest ->
  exists b v ex, 2 <= b /\ 0 <= v /\ r = (IZR v * powerRZ (IZR b) ex)%R /\ stod (ws ++ s ++ rest) = literal_value b neg v ex.
Proof.
  intros Hw [L|L] Lo.
  - destruct (lit_split _ _ _ L) as (sg & m & v & kf & ex & x & -> & Hs & M & Hx & Er). exists 10, v, (x - Z.of_nat kf).
    split; [lia|]. split; [apply (mant_nonneg 10 digit_table dec_nonneg ltac:(lia) _ _ _ M)|]. split; [exact Er|].
    unfold stod. rewrite <- !app_assoc.
    rewrite (signed ws sg neg (m ++ ex ++ rest) Hw Hs (dmant_starts _ _ _ _ M)). destruct (not_word _ (dmant_starts _ _ _ (ex ++ rest) M)) as [-> ->].
    assert (H : hex_part (m ++ ex ++ rest) = None).
    { destruct (hex_part (m ++ ex ++ rest)) as [s2|] eqn:E; [exfalso|reflexivity]. destruct (hex_part_some _ _ E) as (c & v' & k & kf' & r' & Em & Ex & Mk & Nk).
      destruct (mant_back 16 hex_table hex_digit hex_digit_iff ltac:(lia) _ _ _ _ _ Mk Nk) as (hm & kf2 & -> & HM & _).
      destruct (hex_build sg neg c hm v' kf2 [] 0 Hs (proj1 (x_letters c) Ex) HM (ex_none _ _)) as [r2 HL]. rewrite app_nil_r in HL.
      assert (X := Lo (sg ++ "0"%char :: c :: hm)%list r' neg r2 ltac:(rewrite <- !app_assoc, Em; reflexivity) (or_intror HL)).
      assert (Hm := mant_nonempty _ _ _ _ _ HM). rewrite !app_length in X. cbn [List.length] in X.
      assert (Nm := mant_nonempty _ _ _ _ _ M). assert (Cm := mant_chars _ _ _ _ _ M). destruct m as [|c0 [|c1 m]]; [easy| |].
      - destruct ex as [|c1 ex]; [destruct hm; [easy|cbn in X; lia]|]. cbn [app] in Em. injection Em as _ <- _.
        assert (F := expo_first _ _ _ _ _ _ Hx eq_refl). destruct F as [-> | ->]; discriminate Ex.
      - cbn [app] in Em. injection Em as _ <- _. inversion Cm as [|? ? _ Cm']; subst. inversion Cm' as [|? ? C1 _]; subst.
        destruct C1 as [[d Hd]| ->]; [now apply digit_not_x in Hd|discriminate Ex]. }
    rewrite H, take_mant_digits.
    destruct (mant_forward 10 digit_table char_digit char_digit_iff dec_no_point m v kf (ex ++ rest) M) as (k & Nk & ->).
    { apply (stuck_mant 10 digit_table "e" "E" m v kf ex x rest Hx); try (apply mark_not_digit; cbn; auto); try discriminate; auto.
      intros -> c r' v' kf' -> M'. destruct (lit_build sg neg (m ++ [c]) v' kf' [] 0 Hs M' (ex_none _ _)) as [r2 L2]. rewrite app_nil_r in L2.
      assert (X := Lo (sg ++ m ++ [c])%list r' neg r2 ltac:(rewrite <- !app_assoc; reflexivity) (or_introl L2)). rewrite !app_length in X. cbn in X. lia. }
    rewrite Nk. rewrite (take_expo "e" "E" ex x rest); [reflexivity|cbn; auto|exact Hx|].
    intros ex' x' rest' E Hx'. destruct (lit_build sg neg m v kf ex' x' Hs M Hx') as [r2 L2].
    assert (X := Lo (sg ++ m ++ ex')%list rest' neg r2 ltac:(rewrite <- !app_assoc, E; reflexivity) (or_introl L2)). rewrite !app_length in X. lia.
  - destruct (hex_split _ _ _ L) as (sg & c & m & v & kf & ex & x & -> & Hs & Hc & M & Hx & Er). exists 2, v, (x - 4 * Z.of_nat kf).
    split; [lia|]. split; [apply (mant_nonneg 16 hex_table hex_nonneg ltac:(lia) _ _ _ M)|]. split; [exact Er|].
    assert (U : ((sg ++ "0"%char :: c :: m ++ ex) ++ rest = sg ++ "0"%char :: c :: m ++ ex ++ rest)%list) by (rewrite <- app_assoc; cbn [app]; rewrite <- app_assoc; reflexivity).
    unfold stod. rewrite U. assert (Z0 : is_digit "0" 0) by (cbn; auto).
    rewrite (signed ws sg neg _ Hw Hs) by (do 2 eexists; split; [reflexivity|left; now exists 0]).
    destruct (not_word ("0"%char :: c :: m ++ ex ++ rest)) as [-> ->]; [do 2 eexists; split; [reflexivity|left; now exists 0]|].
    rewrite hex_part_zero by (now apply x_letters).
    destruct (mant_forward 16 hex_table hex_digit hex_digit_iff hex_no_point m v kf (ex ++ rest) M) as (k & Nk & E).
    { apply (stuck_mant 16 hex_table "p" "P" m v kf ex x rest Hx); try (apply mark_not_hex; cbn; auto); try discriminate; auto.
      intros -> c1 r' v' kf' -> M'. destruct (hex_build sg neg c (m ++ [c1]) v' kf' [] 0 Hs Hc M' (ex_none _ _)) as [r2 L2]. rewrite app_nil_r in L2.
      assert (X := Lo (sg ++ "0"%char :: c :: m ++ [c1])%list r' neg r2 ltac:(rewrite U, <- app_assoc; cbn [app]; rewrite <- app_assoc; reflexivity) (or_intror L2)). rewrite !app_length in X. cbn in X. rewrite !app_length in X. cbn in X. lia. }
    rewrite E, Nk, E. rewrite (take_expo "p" "P" ex x rest); [reflexivity|cbn; auto|exact Hx|].
    intros ex' x' rest' Ee Hx'. destruct (hex_build sg neg c m v kf ex' x' Hs Hc M Hx') as [r2 L2].
    assert (X := Lo (sg ++ "0"%char :: c :: m ++ ex')%list rest' neg r2 ltac:(rewrite U, <- app_assoc; cbn [app]; rewrite <- app_assoc, Ee; reflexivity) (or_intror L2)).
    rewrite !app_length in X. cbn in X. rewrite !app_length in X. lia.
Qed.

(** No number and no word: rejected. *)
Lemma spells_prefix w letters p rest : spells w letters -> (forall a, In a letters -> lower (fst a) = fst a /\ lower (snd a) = fst a) -> map fst letters = p ->
  has_prefix p (map lower (w ++ rest)) = true.
Proof.
  intros H Hl <-. induction H as [|c a w l H _ IH]; [reflexivity|]. cbn [map app has_prefix]. destruct (Hl a (or_introl eq_refl)) as [A B].
  assert (E : lower c = fst a) by (destruct H as [-> | ->]; assumption). rewrite E. destruct (ascii_dec (fst a) (fst a)) as [_|N]; [|now elim N]. apply IH. intros x I. apply Hl. now right.
Qed.
Lemma prefix_spells letters : forall s, (forall a, In a letters -> forall c, lower c = fst a -> c = fst a \/ c = snd a) ->
  has_prefix (map fst letters) (map lower s) = true -> exists w rest, s = (w ++ rest)%list /\ spells w letters.
Proof.
  induction letters as [|a l IH]; intros s Hl H; [exists [], s; split; [reflexivity|constructor]|].
  destruct s as [|c s]; cbn [map has_prefix] in H; [discriminate|]. destruct (ascii_dec (fst a) (lower c)) as [E|]; [|discriminate].
  destruct (IH s ltac:(intros x I; apply Hl; now right) H) as (w & rest & -> & Hw). exists (c :: w), rest. split; [reflexivity|].
  constructor; [|exact Hw]. apply (Hl a); [now left|now symmetry].
Qed.
Lemma word_letters letters : letters = inf_word \/ letters = nan_word ->
  (forall a, In a letters -> lower (fst a) = fst a /\ lower (snd a) = fst a) /\ (forall a, In a letters -> forall c, lower c = fst a -> c = fst a \/ c = snd a).
Proof.
  intros H. split; intros a I.
  - destruct H as [-> | ->]; cbn in I; repeat (destruct I as [<-|I]; [split; reflexivity|]); destruct I.
  - intros [b0 b1 b2 b3 b4 b5 b6 b7]. destruct H as [-> | ->]; cbn in I; repeat (destruct I as [<-|I]; [destruct b0, b1, b2, b3, b4, b5, b6, b7; vm_compute; intros E; try discriminate E; auto|]); destruct I.
Qed.

Lemma stod_word ws sg neg w rest : Forall blank ws -> sign_text sg neg ->
  (spells w inf_word -> stod (ws ++ sg ++ w ++ rest) = Ok (S754_infinity neg)) /\ (spells w nan_word -> stod (ws ++ sg ++ w ++ rest) = Ok S754_nan).
Proof.
  intros Hw Hs.
  assert (G : forall letters, letters = inf_word \/ letters = nan_word -> spells w letters -> take_sign (skip_ws (ws ++ sg ++ w ++ rest)) = (neg, (w ++ rest)%list)).
  { intros letters Hl Sp. rewrite skip_ws_blank by exact Hw.
    assert (C : exists c w', w = c :: w' /\ In c ["i"; "I"; "n"; "N"]%char).
    { destruct Hl as [-> | ->]; inversion Sp as [|c a w' l Hc _]; subst; do 2 eexists; (split; [reflexivity|]); cbn in Hc |- *; destruct Hc as [-> | ->]; tauto. }
    destruct C as (c & w' & -> & Hc). cbn [app].
    assert (Cs : is_space c = false /\ c <> "-"%char /\ c <> "+"%char) by (cbn in Hc; repeat (destruct Hc as [<-|Hc]; [repeat split; discriminate|]); destruct Hc).
    destruct Cs as (C1 & C2 & C3).
    replace (skip_ws (sg ++ c :: w' ++ rest)) with (sg ++ c :: w' ++ rest)%list by (destruct Hs; cbn [app]; symmetry; apply skip_ws_stop; auto).
    apply take_sign_text; auto. }
  split; intros Sp.
  - unfold stod. rewrite (G inf_word (or_introl eq_refl) Sp). rewrite (spells_prefix w inf_word (lit "inf") rest Sp (proj1 (word_letters _ (or_introl eq_refl))) eq_refl). reflexivity.
  - unfold stod. rewrite (G nan_word (or_intror eq_refl) Sp). rewrite (spells_prefix w nan_word (lit "nan") rest Sp (proj1 (word_letters _ (or_intror eq_refl))) eq_refl).
    replace (has_prefix (lit "inf") (map lower (w ++ rest))) with false; [reflexivity|].
    inversion Sp as [|c a w' l Hc _]; subst. cbn in Hc. destruct Hc as [-> | ->]; reflexivity.
Qed.

Lemma skip_ws_split s : exists ws, s = (ws ++ skip_ws s)%list /\ Forall blank ws.
Proof.
  induction s as [|c s [ws [E H]]]; [exists []; split; [reflexivity|constructor]|]. cbn [skip_ws]. destruct (is_space c) eqn:S; [|exists []; split; [reflexivity|constructor]].
  exists (c :: ws). cbn [app]. split; [now f_equal|]. constructor; [|exact H].
  clear -S. destruct c as [b0 b1 b2 b3 b4 b5 b6 b7]. unfold blank. destruct b0, b1, b2, b3, b4, b5, b6, b7; vm_compute in S; try discriminate S; cbn [In]; tauto.
Qed.
Lemma stod_nothing t :
  (forall ws s rest neg r, t = (ws ++ s ++ rest)%list -> Forall blank ws -> ~ number s neg r) ->
  (forall ws sg neg w rest, t = (ws ++ sg ++ w ++ rest)%list -> Forall blank ws -> sign_text sg neg -> ~ spells w inf_word /\ ~ spells w nan_word) ->
  stod t = Throw InvalidArgument.
Proof.
  intros N Wd. destruct (skip_ws_split t) as (ws & Et & Hw). unfold stod. destruct (take_sign (skip_ws t)) as [neg s1] eqn:E1.
  destruct (take_sign_back _ _ _ E1) as (sg & E2 & Hs).
  assert (P : forall letters, letters = inf_word \/ letters = nan_word -> has_prefix (map fst letters) (map lower s1) = false).
  { intros letters Hl. apply not_true_is_false. intros H. destruct (prefix_spells letters s1 (proj2 (word_letters _ Hl)) H) as (w & rest & E3 & Sp).
    rewrite E2, E3 in Et. destruct (Wd ws sg neg w rest Et Hw Hs) as [A B]. destruct Hl as [-> | ->]; auto. }
  change (lit "inf") with (map fst inf_word). change (lit "nan") with (map fst nan_word). rewrite (P inf_word) by auto. rewrite (P nan_word) by auto.
  assert (H : hex_part s1 = None).
  { destruct (hex_part s1) as [s2|] eqn:E; [exfalso|reflexivity]. destruct (hex_part_some _ _ E) as (c & v' & k & kf' & r' & Em & Ex & Mk & Nk).
    destruct (mant_back 16 hex_table hex_digit hex_digit_iff ltac:(lia) _ _ _ _ _ Mk Nk) as (hm & kf2 & -> & HM & _).
    destruct (hex_build sg neg c hm v' kf2 [] 0 Hs (proj1 (x_letters c) Ex) HM (ex_none _ _)) as [r2 HL]. rewrite app_nil_r in HL.
    apply (N ws (sg ++ "0"%char :: c :: hm)%list r' neg r2); [|exact Hw|now right]. rewrite <- app_assoc. cbn [app]. now rewrite <- Em, <- E2. }
  rewrite H, take_mant_digits. destruct (take_mant (take_in char_digit 10) s1) as [[[v k] kf] r] eqn:M. destruct (Nat.eqb k 0) eqn:Nk; [reflexivity|exfalso].
  destruct (mant_back 10 digit_table char_digit char_digit_iff ltac:(lia) _ _ _ _ _ M Nk) as (m & kf2 & -> & HM & _).
  destruct (lit_build sg neg m v kf2 [] 0 Hs HM (ex_none _ _)) as [r2 L2]. rewrite app_nil_r in L2.
  apply (N ws (sg ++ m)%list r neg r2); [|exact Hw|now left]. now rewrite <- app_assoc, <- E2.
Qed.

(** ** the text of a number *)
Lemma dec_nat_bound s v : dec_nat s v -> v < 10 ^ Z.of_nat (List.length s).
Proof.
  induction 1 as [c d H|s v c d Hs IH H]; apply digit_range in H; [cbn; lia|].
  rewrite app_length. cbn [List.length]. rewrite Nat.add_1_r, Nat2Z.inj_succ, Z.pow_succ_r by lia. lia.
Qed.
Lemma digit_fun c c' d : is_digit c d -> is_digit c' d -> c = c'.
Proof.
  unfold is_digit, digit_table. cbn [In]. intros H H'.
  repeat (destruct H as [H|H]; [injection H as <- <-; repeat (destruct H' as [H'|H']; [try discriminate H'; injection H' as <-; try reflexivity; discriminate|]); destruct H'|]). destruct H.
Qed.
Lemma dec_nat_unique s v : dec_nat s v -> forall s', dec_nat s' v -> List.length s = List.length s' -> s = s'.
Proof.
  induction 1 as [c d H|s v c d Hs IH H]; intros s' H' L.
  - inversion H' as [c' d' Hd E|t w c' d' Ht Hd E Ew]; subst.
    + f_equal. eapply digit_fun; eauto.
    + exfalso. apply (dec_nat_nonempty _ _ Ht). rewrite app_length in L. cbn in L. destruct t; [reflexivity|cbn in L; lia].
  - remember (10 * v + d) as n eqn:En. destruct H' as [c' d' Hd|t w c' d' Ht Hd].
    + exfalso. apply (dec_nat_nonempty _ _ Hs). rewrite app_length in L. cbn in L. destruct s; [reflexivity|cbn in L; lia].
    + assert (R1 := digit_range _ _ H). assert (R2 := digit_range _ _ Hd). assert (v = w /\ d = d') as [<- <-] by lia.
      rewrite !app_length in L. cbn in L. rewrite (IH t Ht) by lia. f_equal. f_equal. eapply digit_fun; eauto.
Qed.

(** No leading zero. *)
Definition canonical_digits (s : text) : Prop := s = ["0"%char] \/ match s with c :: _ => c <> "0"%char | [] => False end.

Lemma canonical_low s v : dec_nat s v -> (match s with c :: _ => c <> "0"%char | [] => False end) -> 10 ^ (Z.of_nat (List.length s) - 1) <= v.
Proof.
  induction 1 as [c d H|s v c d Hs IH H]; intros N.
  - cbn. assert (R := digit_range _ _ H). destruct (Z.eq_dec d 0) as [->|]; [|lia]. exfalso. apply N. eapply digit_fun; [exact H|]. cbn. auto.
  - assert (R := digit_range _ _ H). destruct s as [|c0 s]; [now elim (dec_nat_nonempty _ _ Hs)|]. specialize (IH N).
    rewrite app_length. cbn [List.length] in *. replace (Z.of_nat (S (List.length s) + 1) - 1) with (Z.succ (Z.of_nat (S (List.length s)) - 1)) by lia. rewrite Z.pow_succ_r by lia. lia.
Qed.
Lemma canonical_unique_digits s s' v : dec_nat s v -> dec_nat s' v -> canonical_digits s -> canonical_digits s' -> s = s'.
Proof.
  intros H H' C C'. apply (dec_nat_unique s v H s' H').
  assert (Z0 : forall t, dec_nat t 0 -> canonical_digits t -> List.length t = 1%nat).
  { intros t Ht [->|N]; [reflexivity|]. apply (canonical_low _ _ Ht) in N. exfalso.
    assert (0 < 10 ^ (Z.of_nat (List.length t) - 1)); [|lia]. apply Z.pow_pos_nonneg; [lia|]. destruct t; [now elim (dec_nat_nonempty _ _ Ht)|]. cbn [List.length]. lia. }
  destruct (Z.eq_dec v 0) as [->|Nv]; [now rewrite (Z0 s H C), (Z0 s' H' C')|].
  assert (P : forall t, dec_nat t v -> canonical_digits t -> 10 ^ (Z.of_nat (List.length t) - 1) <= v < 10 ^ Z.of_nat (List.length t)).
  { intros t Ht [->|N].
    - exfalso. apply Nv. apply (dec_nat_nonneg) in H. assert (B := dec_nat_bound _ _ Ht). inversion Ht as [c d Hd E1|t w c d Ht' Hd E1]; subst.
      + cbn in Hd. repeat (destruct Hd as [Hd|Hd]; [try discriminate Hd; now injection Hd|]). destruct Hd.
      + exfalso. apply (dec_nat_nonempty _ _ Ht'). destruct t; [reflexivity|]. injection E1 as _ E1. now destruct t.
    - split; [now apply canonical_low|now apply dec_nat_bound]. }
  destruct (P s H C) as [A1 A2]. destruct (P s' H' C') as [B1 B2].
  assert (Z.of_nat (List.length s) - 1 < Z.of_nat (List.length s')) by (apply (Z.pow_lt_mono_r_iff 10); lia).
  assert (Z.of_nat (List.length s') - 1 < Z.of_nat (List.length s)) by (apply (Z.pow_lt_mono_r_iff 10); lia). lia.
Qed.

Lemma dec_digits_head fuel n : 0 < n < 2 ^ Z.of_nat fuel -> match dec_digits fuel n with c :: _ => c <> "0"%char | [] => False end.
Proof.
  revert n. induction fuel as [|k IH]; intros n H; [cbn in H; lia|]. cbn [dec_digits]. destruct (Z.ltb_spec n 10) as [L|L].
  - intros E. assert (D := digit_char_ok n ltac:(lia)). rewrite E in D. cbn in D. repeat (destruct D as [D|D]; [try discriminate D; injection D as D; lia|]). destruct D.
  - assert (B : 0 < n / 10 < 2 ^ Z.of_nat k).
    { split; [apply Z.div_str_pos; lia|]. apply Z.div_lt_upper_bound; [lia|]. rewrite Nat2Z.inj_succ, Z.pow_succ_r in H by lia. lia. }
    specialize (IH _ B). destruct (dec_digits k (n / 10)); [destruct IH|exact IH].
Qed.
Lemma itos_canonical z : 0 <= z -> canonical_digits (itos z).
Proof.
  intros H. unfold itos. destruct (Z.ltb_spec z 0); [lia|]. rewrite Z.abs_eq by lia. destruct (Z.eq_dec z 0) as [->|N]; [now left|]. right. apply dec_digits_head.
  split; [lia|]. rewrite Nat2Z.inj_succ, Z2Nat.id by apply Z.log2_nonneg. apply Z.log2_spec. lia.
Qed.

Definition six (neg : bool) (q : Z) : text := ((if neg then ["-"%char] else []) ++ itos (q / 10 ^ 6) ++ "."%char :: pad6 (q mod 10 ^ 6))%list.
Lemma ftos_six f : finite f -> is_double f -> exists q, 0 <= q /\ ftos f = six (minus_sign f) q /\ (Rabs (Rabs (dval f) - IZR q / 1000000) <= / 2000000)%R.
Proof.
  intros F D. destruct f as [s|s| |s m e]; try destruct F.
  - exists 0. split; [lia|]. split; [destruct s; reflexivity|]. cbn [dval]. rewrite Rabs_R0. replace (0 - 0 / 1000000)%R with 0%R by lra. rewrite Rabs_R0. lra.
  - set (q := if 0 <=? e then Z.pos m * 2 ^ e * 10 ^ 6 else div_ne (Z.pos m * 10 ^ 6) (2 ^ (- e))). exists q.
    rewrite dval_abs. unfold q. destruct (Z.leb_spec 0 e) as [P|P].
    + assert (0 < 2 ^ e) by (apply Z.pow_pos_nonneg; lia). split; [nia|]. split.
      { cbn [ftos minus_sign]. rewrite (proj2 (Z.leb_le 0 e) P). reflexivity. }
      rewrite !mult_IZR. change (10 ^ 6) with 1000000. rewrite <- (IZR_Zpower radix2) by lia. change (radix2 ^ e) with (2 ^ e).
      replace (IZR (Z.pos m) * IZR (2 ^ e) - IZR (Z.pos m) * IZR (2 ^ e) * 1000000 / 1000000)%R with 0%R by field. rewrite Rabs_R0. lra.
    + assert (T : 0 < 2 ^ (- e)) by (apply Z.pow_pos_nonneg; lia). assert (N := div_ne_near (Z.pos m * 10 ^ 6) (2 ^ (- e)) T).
      set (b := 2 ^ (- e)) in *. set (qq := div_ne (Z.pos m * 10 ^ 6) b) in *.
      assert (Q0 : 0 <= qq). { unfold qq, div_ne. assert (0 <= Z.pos m * 10 ^ 6 / b) by (apply Z.div_pos; lia). repeat match goal with |- context [if ?c then _ else _] => destruct c end; lia. }
      split; [exact Q0|]. split.
      { cbn [ftos minus_sign]. rewrite (proj2 (Z.leb_gt 0 e) P). reflexivity. }
      assert (Eb : bpow radix2 e = (/ IZR b)%R). { unfold b. rewrite <- (Z.opp_involutive e) at 1. rewrite bpow_opp, <- IZR_Zpower by lia. reflexivity. }
      rewrite Eb. assert (Tb : (0 < IZR b)%R) by (apply IZR_lt, T).
      assert (N' : (2 * Rabs (IZR (Z.pos m) * 1000000 - IZR qq * IZR b) <= IZR b)%R).
      { replace 1000000%R with (IZR (10 ^ 6)) by reflexivity. rewrite <- !mult_IZR, <- minus_IZR, <- abs_IZR, <- mult_IZR. apply IZR_le. exact N. }
      replace (IZR (Z.pos m) * / IZR b - IZR qq / 1000000)%R with ((IZR (Z.pos m) * 1000000 - IZR qq * IZR b) * / (IZR b * 1000000))%R by (field; lra).
      rewrite Rabs_mult. rewrite (Rabs_pos_eq (/ _)) by (left; apply Rinv_0_lt_compat; lra).
      apply Rmult_le_reg_r with (IZR b * 1000000)%R; [lra|]. rewrite Rmult_assoc, Rinv_l by lra. lra.
Qed.

Lemma six_literal neg q : 0 <= q -> literal (six neg q) neg (IZR q / 1000000).
Proof.
  intros H. assert (P : 0 <= q mod 10 ^ 6 < 10 ^ 6) by (apply Z.mod_pos_bound; lia). destruct (pad6_digits _ P) as [P1 P2].
  assert (E : (IZR q / 1000000 = (IZR (q / 10 ^ 6) + IZR (q mod 10 ^ 6) / 10 ^ List.length (pad6 (q mod 10 ^ 6))) * powerRZ 10 0)%R).
  { rewrite P2. cbn [powerRZ]. rewrite (Z.div_mod q (10 ^ 6)) at 1 by lia. rewrite plus_IZR, mult_IZR. replace (IZR (10 ^ 6)) with 1000000%R by reflexivity. field. }
  rewrite E. unfold six. rewrite <- (app_nil_r (pad6 _)) at 1. apply lit_point.
  - destruct neg; constructor.
  - apply ds_some, itos_nonneg, Z.div_pos; lia.
  - now apply ds_some.
  - right. intros N. rewrite N in P2. discriminate.
  - constructor.
Qed.

Lemma same_double f g : is_double f -> is_double g -> finite f -> finite g -> dval f = dval g -> minus_sign f = minus_sign g -> f = g.
Proof.
  intros Df Dg Ff Fg E S. destruct (lift f Df) as [a <-], (lift g Dg) as [b <-]. apply finite_is in Ff, Fg. rewrite !dval_B2R in E. f_equal.
  apply B2R_Bsign_inj; auto. destruct a, b; try discriminate; exact S.
Qed.

(** Reading what was printed. *)
Lemma top_double f : is_double f -> finite f -> (Rabs (dval f) <= bpow radix2 1024 - bpow radix2 971)%R.
Proof.
  intros D F. destruct (lift f D) as [b <-]. rewrite dval_B2R. apply (abs_B2R_le_emax_minus_prec 53 1024). reflexivity.
Qed.

Lemma longest_all s : longest s [].
Proof. intros s' rest' neg r E _. rewrite app_nil_r in E. rewrite E, app_length. lia. Qed.
(** Some number is the longest one. *)
Lemma longest_exists s : forall p rest neg r, s = (p ++ rest)%list -> number p neg r -> exists p' rest' neg' r', s = (p' ++ rest')%list /\ number p' neg' r' /\ longest p' rest'.
Proof.
  assert (G : forall n p rest neg r, (List.length rest <= n)%nat -> s = (p ++ rest)%list -> number p neg r -> exists p' rest' neg' r', s = (p' ++ rest')%list /\ number p' neg' r' /\ longest p' rest').
  { induction n as [|n IH]; intros p rest neg r Hn E N.
    - destruct rest; [|cbn in Hn; lia]. exists p, [], neg, r. split; [exact E|]. split; [exact N|apply longest_all].
    - destruct (classic (longest p rest)) as [L|L]; [exists p, rest, neg, r; auto|].
      assert (X : exists s' rest' neg' r', (p ++ rest = s' ++ rest')%list /\ number s' neg' r' /\ (List.length p < List.length s')%nat).
      { apply NNPP. intros C. apply L. intros s' rest' neg' r' E' N'. destruct (le_lt_dec (List.length s') (List.length p)) as [H|H]; [exact H|]. exfalso. apply C. exists s', rest', neg', r'. auto. }
      destruct X as (s' & rest' & neg' & r' & E' & N' & H). apply (IH s' rest' neg' r'); [|congruence|exact N'].
      apply (f_equal (@List.length _)) in E'. rewrite !app_length in E'. lia. }
  intros p rest neg r E N. eapply (G (List.length rest)); eauto.
Qed.

Lemma read_six neg q : 0 <= q -> (IZR q / 1000000 < huge)%R -> exists f, stod (six neg q) = Ok f /\ is_double f /\ finite f /\ minus_sign f = neg /\ dval f = rnd (value neg (IZR q / 1000000)).
Proof.
  intros H Hh. destruct (stod_number [] (six neg q) neg _ [] (Forall_nil _) (or_introl (six_literal neg q H)) (longest_all _)) as (b & v & ex & Hb & Hv & E & S).
  cbn [app] in S. rewrite app_nil_r in S. destruct (finish_spec b Hb neg v ex Hv) as [_ K]. rewrite <- E in K. destruct (K Hh) as (f & Df & Ff & Ef & Sf & Of & _).
  exists f. repeat split; auto. rewrite S. apply Of. destruct (Z.eq_dec q 0) as [->|N].
  - right. unfold Rdiv. rewrite Rmult_0_l. apply round_0. typeclasses eauto.
  - left. apply normal_rnd. rewrite normal_bpow. apply Rle_trans with (bpow radix2 (-20)); [apply bpow_le; lia|].
    assert (1 <= IZR q)%R by (apply IZR_le; lia). assert (bpow radix2 (-20) = / 1048576)%R by reflexivity. lra.
Qed.

Lemma value_inj neg a b : value neg a = value neg b -> a = b.
Proof. unfold value. destruct neg; lra. Qed.
Lemma dval_value f : finite f -> dval f = value (minus_sign f) (Rabs (dval f)).
Proof.
  destruct f as [s|s| |s m e]; cbn [finite]; try tauto; intros _.
  - cbn. rewrite Rabs_R0. unfold value. destruct s; lra.
  - rewrite dval_abs. cbn [dval minus_sign]. rewrite bpow_powerRZ. change (IZR radix2) with 2%R. unfold value. destruct s; lra.
Qed.
Lemma value_dist neg a b : (Rabs (value neg a - value neg b) = Rabs (a - b))%R.
Proof. unfold value. destruct neg; [|reflexivity]. rewrite <- Rabs_Ropp. f_equal. lra. Qed.

(** A letter that occurs in no number. *)
Lemma no_g_mant b tbl m v kf : (forall d, ~ In ("g"%char, d) tbl) -> mant b tbl m v kf -> ~ In "g"%char m.
Proof.
  intros H M I. assert (C := mant_chars _ _ _ _ _ M). rewrite Forall_forall in C. destruct (C _ I) as [[d D]|D]; [now apply (H d)|discriminate].
Qed.
Lemma no_g_sign sg neg : sign_text sg neg -> ~ In "g"%char sg.
Proof. intros [] I; cbn in I; intuition discriminate. Qed.
Lemma no_g_dec s v : dec_nat s v -> ~ In "g"%char s.
Proof.
  induction 1 as [c d H|s v c d Hs IH H]; intros I.
  - destruct I as [->|[]]. cbn in H. repeat (destruct H as [H|H]; [discriminate H|]). destruct H.
  - apply in_app_or in I. destruct I as [I|[->|[]]]; [auto|]. cbn in H. repeat (destruct H as [H|H]; [discriminate H|]). destruct H.
Qed.
Lemma no_g_expo lo up ex x : expo lo up ex x -> lo <> "g"%char -> up <> "g"%char -> ~ In "g"%char ex.
Proof.
  intros [|c sg neg ds y Hc Hs Hd] A B I; [destruct I|]. destruct I as [->|I]; [destruct Hc; congruence|]. apply in_app_or in I. destruct I as [I|I]; [now apply (no_g_sign _ _ Hs)|].
  now apply (no_g_dec _ _ Hd).
Qed.
Lemma no_g s neg r : number s neg r -> ~ In "g"%char s.
Proof.
  intros [L|L] I.
  - destruct (lit_split _ _ _ L) as (sg & m & v & kf & ex & x & -> & Hs & M & Hx & _). repeat (apply in_app_or in I; destruct I as [I|I]).
    + now apply (no_g_sign _ _ Hs).
    + refine (no_g_mant _ _ _ _ _ _ M I). intros d H. cbn in H. repeat (destruct H as [H|H]; [discriminate H|]). destruct H.
    + now apply (no_g_expo _ _ _ _ Hx).
  - destruct (hex_split _ _ _ L) as (sg & c & m & v & kf & ex & x & -> & Hs & Hc & M & Hx & _). apply in_app_or in I. destruct I as [I|[I|[I|I]]].
    + now apply (no_g_sign _ _ Hs).
    + discriminate I.
    + destruct Hc; subst; discriminate.
    + apply in_app_or in I. destruct I as [I|I].
      * refine (no_g_mant _ _ _ _ _ _ M I). intros d H. cbn in H. repeat (destruct H as [H|H]; [discriminate H|]). destruct H.
      * now apply (no_g_expo _ _ _ _ Hx).
Qed.
