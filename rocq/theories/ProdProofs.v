(** * ProdProofs: accuracy of products of doubles. *)

From Coq Require Import ZArith List Bool Lia Floats.SpecFloat Reals Lra.
From Flocq Require Import Core Relative Plus_error BinarySingleNaN.
From Verif Require Import Base Spec Coerce Reduce Random Stats ReduceSpec StatsSpec RandomProofs StatsProofs ReadNumSpec ReadNumProofs NumericSpec Prod ProdSpec.
Import ListNotations.
Open Scope Z_scope.

Local Notation fex := (FLT_exp (-1074) 53).
Local Notation rnd := (round radix2 fex ZnearestE).
Local Existing Instance Hprec.
Local Existing Instance Hmax.
Local Existing Instance Vfex.
Local Notation BF := (binary_float 53 1024).
Local Notation u := roundoff.
Open Scope R_scope.

(** ** prod *)
Lemma mult_err x : smallest_normal <= Rabs x -> exists e, Rabs e <= u /\ rnd x = x * (1 + e).
Proof.
  intros H. rewrite normal_bpow in H. destruct (relative_error_N_FLT_ex radix2 (-1074) 53 eq_refl (fun x => negb (Z.even x)) x H) as (e & He & E).
  exists e. split; [|exact E]. change (- (53) + 1)%Z with (-53 + 1)%Z in He. rewrite half_bpow in He. now rewrite roundoff_bpow.
Qed.

Lemma fprod_cons x l s : fprod (x :: l) s = fprod l (fmul s x).
Proof. reflexivity. Qed.
Lemma fprod_double l : forall s, Forall is_double l -> is_double s -> is_double (fprod l s).
Proof. induction l as [|x l IH]; intros s Hl Hs; [exact Hs|]. inversion Hl; subst. rewrite fprod_cons. apply IH; [assumption|]. now apply fmul_double. Qed.
Lemma fprod_finite l : forall s, Forall is_double l -> is_double s -> finite (fprod l s) -> finite s /\ Forall finite l.
Proof.
  induction l as [|x l IH]; intros s Hl Hs H; [split; [exact H|constructor]|]. inversion Hl; subst. rewrite fprod_cons in H.
  destruct (IH _ ltac:(assumption) (fmul_double s x Hs ltac:(assumption)) H) as (A & B).
  apply fmul_finite in A; try assumption. destruct A. split; [assumption|]. constructor; assumption.
Qed.
Lemma rprod_cons x l : rprod (x :: l) = x * rprod l.
Proof. reflexivity. Qed.

Lemma step_mul s x : is_double s -> is_double x -> finite (fmul s x) -> (dval s = 0 \/ dval x = 0 \/ smallest_normal <= Rabs (dval s * dval x)) ->
  exists e, Rabs e <= u /\ dval (fmul s x) = dval s * dval x * (1 + e).
Proof.
  intros Hs Hx F H. rewrite (fmul_val s x Hs Hx F).
  assert (Z : dval s * dval x = 0 -> exists e, Rabs e <= u /\ rnd (dval s * dval x) = dval s * dval x * (1 + e)).
  { intros E. exists 0. rewrite Rabs_R0. split; [left; apply roundoff_pos|]. rewrite E, round_0 by typeclasses eauto. ring. }
  destruct H as [E|[E|H]]; [apply Z; rewrite E; ring|apply Z; rewrite E; ring|now apply mult_err].
Qed.

Theorem fprod_error l : forall s, Forall is_double l -> is_double s -> finite (fprod l s) -> no_underflow s l ->
  Rabs (dval (fprod l s) - dval s * rprod (map dval l)) <= ((1 + u) ^ length l - 1) * Rabs (dval s * rprod (map dval l)).
Proof.
  induction l as [|x l IH]; intros s Hl Hs H N.
  { cbn. rewrite Rmult_1_r, Rminus_diag_eq, Rabs_R0 by reflexivity. lra. }
  inversion Hl as [|? ? Hx Hl']; subst. rewrite fprod_cons in *. assert (D := fmul_double s x Hs Hx). destruct (fprod_finite l _ Hl' D H) as (F & _).
  assert (N' : no_underflow (fmul s x) l) by (intros a y K; apply N; now constructor).
  specialize (IH _ Hl' D H N'). destruct (step_mul s x Hs Hx F (N s x (step_here _ _ _))) as (e & He & E). rewrite E in IH.
  cbn [map length pow]. rewrite rprod_cons. set (X := dval (fprod l (fmul s x))) in *. set (P := (1 + u) ^ length l) in *. assert (P1 : 1 <= P) by apply pow_ge1.
  set (q := dval s * dval x) in *. set (T := rprod (map dval l)) in *. replace (dval s * (dval x * T)) with (q * T) by (unfold q; ring).
  pose proof roundoff_pos as U0. pose proof roundoff_lt1 as U1. clearbody X P q T. clear - IH P1 He U0 U1.
  replace (q * (1 + e) * T) with (q * T * (1 + e)) in IH by ring. set (y := q * T) in *. clearbody y.
  assert (A : Rabs (y * (1 + e)) <= Rabs y * (1 + u)).
  { rewrite Rabs_mult. apply Rmult_le_compat_l; [apply Rabs_pos|]. eapply Rle_trans; [apply Rabs_triang|]. rewrite Rabs_R1. lra. }
  assert (B : Rabs (y * e) <= Rabs y * u) by (rewrite Rabs_mult; apply Rmult_le_compat_l; [apply Rabs_pos|exact He]).
  replace (X - y) with ((X - y * (1 + e)) + y * e) by ring. eapply Rle_trans; [apply Rabs_triang|].
  pose proof (Rabs_pos y). assert ((P - 1) * Rabs (y * (1 + e)) <= (P - 1) * (Rabs y * (1 + u))) by (apply Rmult_le_compat_l; lra). nra.
Qed.

Lemma fmul_one_val x : is_double x -> finite x -> finite (fmul fone x) /\ dval (fmul fone x) = dval x /\ minus_sign (fmul fone x) = minus_sign x.
Proof.
  intros Hx F. destruct (lift x Hx) as [b <-]. unfold fone. destruct (dbl_exact 1 ltac:(cbn; lia)) as (o & Eo & Fo & Ro & So). rewrite <- Eo, fmul_equiv. apply finite_is in F.
  pose proof (Bmult_correct 53 1024 Hprec Hmax mode_NE o b) as C. rewrite Ro, Rmult_1_l in C.
  change (SpecFloat.fexp 53 1024) with fex in C. change (round_mode mode_NE) with ZnearestE in C.
  rewrite round_generic in C; [|typeclasses eauto|rewrite <- dval_B2R; apply format, lifted].
  rewrite Rlt_bool_true in C by apply abs_B2R_lt_emax. destruct C as (C1 & C2 & C3).
  assert (G : is_finite (Bmult mode_NE o b) = true) by (rewrite C2, Fo, F; reflexivity).
  split; [now apply finite_is|]. rewrite !dval_B2R. split; [exact C1|].
  rewrite So in C3. destruct (Bmult mode_NE o b); try discriminate G; specialize (C3 eq_refl); cbn in C3 |- *; rewrite C3; destruct b as [s9|s9| |s9 m9 e9 H9]; try discriminate F; destruct s9; reflexivity.
Qed.
(** Multiplying by one changes nothing. *)
Lemma fmul_one x : is_double x -> fmul fone x = x.
Proof.
  intros Hx. destruct x as [s|s| |s m e] eqn:Ex; try (destruct s; reflexivity); try reflexivity.
  destruct (fmul_one_val (S754_finite s m e) Hx Logic.I) as (F & V & S). apply same_double; auto; [|exact Logic.I]. apply fmul_double; [apply dbl_double|exact Hx].
Qed.
Lemma fmul_comm x y : is_double x -> is_double y -> fmul x y = fmul y x.
Proof. intros _ _. unfold fmul. destruct x as [[]|[]| |[] m e], y as [[]|[]| |[] m' e']; cbn; try reflexivity; rewrite Pos.mul_comm, Z.add_comm; reflexivity. Qed.

Theorem fprod_accurate l : l <> [] -> Forall is_double l -> finite (fprod l fone) -> no_underflow fone l ->
  Rabs (dval (fprod l fone) - rprod (map dval l)) <= ((1 + u) ^ (length l - 1) - 1) * Rabs (rprod (map dval l)).
Proof.
  destruct l as [|x l]; [congruence|]. intros _ Hl H N. inversion Hl as [|? ? Hx Hl']; subst. rewrite fprod_cons in *. rewrite (fmul_one x Hx) in *.
  assert (N' : no_underflow x l). { intros a y K. apply N. constructor. now rewrite fmul_one. }
  pose proof (fprod_error l x Hl' Hx H N') as Z. cbn [length map]. rewrite Nat.sub_succ, Nat.sub_0_r, rprod_cons. exact Z.
Qed.

(** The sign. *)
Definition isnan (x : spec_float) : bool := match x with S754_nan => true | _ => false end.
Lemma fmul_sign x y : is_double x -> is_double y -> fmul x y <> S754_nan -> minus_sign (fmul x y) = xorb (minus_sign x) (minus_sign y).
Proof.
  intros Hx Hy. destruct (lift x Hx) as [a <-]. destruct (lift y Hy) as [b <-]. rewrite fmul_equiv. intros N.
  assert (S : forall c : BF, B2SF c <> S754_nan -> minus_sign (B2SF c) = Bsign c) by (intros [| | |]; cbn; congruence).
  assert (Na : B2SF a <> S754_nan) by (intros E; apply N; destruct a; try discriminate E; reflexivity).
  assert (Nb : B2SF b <> S754_nan) by (intros E; apply N; destruct a, b; try discriminate E; reflexivity).
  rewrite (S _ N), (S _ Na), (S _ Nb). pose proof (Bmult_correct 53 1024 Hprec Hmax mode_NE a b) as C.
  destruct (Rlt_bool _ _).
  - destruct C as (_ & _ & C). apply C. destruct (Bmult mode_NE a b); try reflexivity. now elim N.
  - destruct (Bmult mode_NE a b) as [s|s| |s m e Hb]; cbn in C |- *; try (injection C as C; exact C); try discriminate C; unfold binary_overflow in C; destruct (overflow_to_inf mode_NE _); discriminate C || (injection C as -> ; reflexivity).
Qed.
Theorem fprod_sign l : forall s, Forall is_double l -> is_double s -> fprod l s <> S754_nan -> minus_sign (fprod l s) = fold_left xorb (map minus_sign l) (minus_sign s).
Proof.
  induction l as [|x l IH]; intros s Hl Hs N; [reflexivity|]. inversion Hl as [|? ? Hx Hl']; subst. rewrite fprod_cons in *. cbn [map fold_left].
  rewrite (IH _ Hl' (fmul_double s x Hs Hx) N). f_equal. apply fmul_sign; auto. intros E. rewrite E in N. apply N. clear. induction l as [|y l IH]; [reflexivity|]. exact IH.
Qed.
Theorem fprod_nan l : forall s, In S754_nan l \/ s = S754_nan -> fprod l s = S754_nan.
Proof.
  induction l as [|x l IH]; intros s H; [destruct H as [[]|H]; exact H|]. rewrite fprod_cons. apply IH.
  destruct H as [[->|H]| ->]; [right; destruct s; reflexivity|now left|right; reflexivity].
Qed.

(** Products of integers. *)
Lemma fmul_int_val x y a b : is_double x -> is_double y -> finite x -> finite y -> dval x = IZR a -> dval y = IZR b -> (Z.abs (a * b) <= 2 ^ 53)%Z ->
  finite (fmul x y) /\ dval (fmul x y) = IZR (a * b).
Proof.
  intros Hx Hy Fx Fy Ex Ey B. destruct (lift x Hx) as [p <-]. destruct (lift y Hy) as [q <-]. rewrite fmul_equiv. apply finite_is in Fx, Fy. rewrite dval_B2R in Ex, Ey.
  pose proof (Bmult_correct 53 1024 Hprec Hmax mode_NE p q) as C. change (SpecFloat.fexp 53 1024) with fex in C. change (round_mode mode_NE) with ZnearestE in C.
  rewrite Ex, Ey, <- mult_IZR, rnd_int, Rlt_bool_true in C by (exact B || now apply bpow1024). destruct C as (C1 & C2 & _). split; [apply finite_is; now rewrite C2, Fx, Fy|].
  now rewrite dval_B2R.
Qed.
Theorem fprod_int l : forall s a, is_double s -> finite s -> dval s = IZR a -> (forall z, In z l -> Z.abs z <= 2 ^ 53)%Z ->
  (forall k, (k <= length l)%nat -> Z.abs (a * zprod (firstn k l)) <= 2 ^ 53)%Z ->
  finite (fprod (map dbl l) s) /\ dval (fprod (map dbl l) s) = IZR (a * zprod l).
Proof.
  induction l as [|z l IH]; intros s a Hs Fs E Hz Hp.
  - cbn. rewrite Z.mul_1_r. auto.
  - cbn [map]. rewrite fprod_cons. assert (Bz : (Z.abs z <= 2 ^ 53)%Z) by (apply Hz; now left).
    assert (B : (Z.abs (a * z) <= 2 ^ 53)%Z). { specialize (Hp 1%nat ltac:(cbn [length]; lia)). change (zprod (firstn 1 (z :: l))) with (z * 1)%Z in Hp. now rewrite Z.mul_1_r in Hp. }
    destruct (fmul_int_val s (dbl z) a z Hs (dbl_double z) Fs (dbl_finite z Bz) E (dbl_val z Bz) B) as (F & V).
    change (zprod (z :: l)) with (z * zprod l)%Z. rewrite Z.mul_assoc. apply IH; auto.
    + apply fmul_double; [exact Hs|apply dbl_double].
    + intros y I. apply Hz. now right.
    + intros k Hk. specialize (Hp (S k) ltac:(cbn [length]; lia)). cbn [firstn] in Hp. change (zprod (z :: firstn k l)) with (z * zprod (firstn k l))%Z in Hp. now rewrite Z.mul_assoc in Hp.
Qed.

(** ** dot products *)
Lemma dot_sum_fsum (t : Z -> spec_float) l : forall s, fold_left (fun acc i => fadd acc (t i)) l s = fsum (map t l) s.
Proof. induction l as [|i l IH]; intros s; [reflexivity|]. cbn [fold_left map]. rewrite IH. reflexivity. Qed.

Lemma rsum_diff {A} (f g h : A -> R) l : (forall i, In i l -> Rabs (f i - g i) <= h i) -> Rabs (rsum (map f l) - rsum (map g l)) <= rsum (map h l).
Proof.
  induction l as [|i l IH]; intros H; [cbn; rewrite Rminus_0_r, Rabs_R0; lra|]. cbn [map]. rewrite !rsum_cons.
  specialize (IH ltac:(intros j I; apply H; now right)). specialize (H i (or_introl eq_refl)).
  replace (f i + rsum (map f l) - (g i + rsum (map g l))) with ((f i - g i) + (rsum (map f l) - rsum (map g l))) by ring. eapply Rle_trans; [apply Rabs_triang|lra].
Qed.
Lemma rsum_le {A} (f g : A -> R) l : (forall i, In i l -> f i <= g i) -> rsum (map f l) <= rsum (map g l).
Proof.
  induction l as [|i l IH]; intros H; [apply Rle_refl|]. cbn [map]. rewrite !rsum_cons. specialize (IH ltac:(intros j I; apply H; now right)). specialize (H i (or_introl eq_refl)). lra.
Qed.

(** Summing terms that are themselves inexact. *)
Lemma sum_of_approx (t : Z -> spec_float) (r h : Z -> R) Q l : 1 <= Q -> (forall i, In i l -> 0 <= h i) -> l <> [] -> Forall is_double (map t l) -> finite (fsum (map t l) fzero) ->
  (forall i, In i l -> finite (t i) -> Rabs (dval (t i) - r i) <= (Q - 1) * Rabs (r i) + h i) ->
  let P := (1 + u) ^ (length l - 1) in
  Rabs (dval (fsum (map t l) fzero) - rsum (map r l)) <= (P * Q - 1) * rsum (map (fun i => Rabs (r i)) l) + P * rsum (map h l).
Proof.
  intros HQ Hh Hl D F H P. destruct (fsum_finite _ _ D fzero_double F) as [_ Fl]. rewrite Forall_map, Forall_forall in Fl.
  assert (N : map t l <> []) by (destruct l; [easy|discriminate]).
  assert (A := fsum_accurate _ N D F). rewrite map_length in A. fold P in A. rewrite !map_map in A.
  assert (P1 : 1 <= P) by apply pow_ge1.
  assert (B : Rabs (rsum (map (fun i => dval (t i)) l) - rsum (map r l)) <= (Q - 1) * rsum (map (fun i => Rabs (r i)) l) + rsum (map h l)).
  { rewrite <- rsum_scal, <- rsum_plus. apply rsum_diff. intros i I. apply H; auto. }
  assert (C : rsum (map (fun i => Rabs (dval (t i))) l) <= Q * rsum (map (fun i => Rabs (r i)) l) + rsum (map h l)).
  { rewrite <- rsum_scal, <- rsum_plus. apply rsum_le. intros i I. specialize (H i I (Fl i I)).
    replace (dval (t i)) with ((dval (t i) - r i) + r i) by ring. eapply Rle_trans; [apply Rabs_triang|]. lra. }
  set (X := dval (fsum (map t l) fzero)) in *. set (S1 := rsum (map (fun i => dval (t i)) l)) in *. set (S2 := rsum (map r l)) in *.
  set (S3 := rsum (map (fun i => Rabs (r i)) l)) in *. set (S4 := rsum (map h l)) in *. set (S5 := rsum (map (fun i => Rabs (dval (t i))) l)) in *.
  clearbody X S1 S2 S3 S4 S5 P. clear - A B C P1.
  replace (X - S2) with ((X - S1) + (S1 - S2)) by ring. eapply Rle_trans; [apply Rabs_triang|].
  assert ((P - 1) * S5 <= (P - 1) * (Q * S3 + S4)) by (apply Rmult_le_compat_l; lra). lra.
Qed.

Lemma iota_len n : (0 <= n)%Z -> length (iota n) = Z.to_nat n.
Proof. intros _. unfold iota. now rewrite map_length, seq_length. Qed.

Theorem dot_accurate (f g : Z -> spec_float) n : (0 < n)%Z -> (forall l, 0 <= l < n -> is_double (f l) /\ is_double (g l))%Z ->
  let c := dot_sum fzero fadd fmul f g n in
  is_double c /\ (finite c ->
  Rabs (dval c - rdot (fun l => dval (f l)) (fun l => dval (g l)) n) <=
    ((1 + u) ^ Z.to_nat n - 1) * rdot_abs (fun l => dval (f l)) (fun l => dval (g l)) n + IZR n * (1 + u) ^ (Z.to_nat n - 1) * tiny).
Proof.
  intros Hn D c. unfold c, dot_sum. rewrite (dot_sum_fsum (fun l => fmul (f l) (g l))).
  assert (In_iota : forall i, In i (iota n) -> (0 <= i < n)%Z). { intros i I. unfold iota in I. apply in_map_iff in I. destruct I as (k & <- & K). apply in_seq in K. lia. }
  assert (Dl : Forall is_double (map (fun l => fmul (f l) (g l)) (iota n))).
  { rewrite Forall_map, Forall_forall. intros i I. destruct (D i (In_iota i I)). now apply fmul_double. }
  split; [apply fsum_double; [exact Dl|apply fzero_double]|]. intros F.
  assert (N : iota n <> []). { intros E. apply (f_equal (@length Z)) in E. rewrite iota_len in E by lia. cbn in E. lia. }
  pose proof roundoff_pos as U0. pose proof tiny_pos as T0.
  pose proof (sum_of_approx (fun l => fmul (f l) (g l)) (fun l => dval (f l) * dval (g l)) (fun _ => tiny) (1 + u) (iota n) ltac:(lra) ltac:(intros; lra) N Dl F) as H.
  cbv zeta in H. rewrite iota_len in H by lia.
  unfold rdot, rdot_abs. eapply Rle_trans; [apply H|].
  - intros i I Fi. destruct (D i (In_iota i I)) as [Df Dg]. rewrite (fmul_val _ _ Df Dg Fi). destruct (any_err (dval (f i) * dval (g i))) as (e & d & He & Hd & ->).
    replace (dval (f i) * dval (g i) * (1 + e) + d - dval (f i) * dval (g i)) with (dval (f i) * dval (g i) * e + d) by ring. eapply Rle_trans; [apply Rabs_triang|].
    rewrite (Rabs_mult _ e). pose proof (Rabs_pos (dval (f i) * dval (g i))). nra.
  - assert (E : rsum (map (fun _ : Z => tiny) (iota n)) = IZR n * tiny).
    { assert (G : forall l : list Z, rsum (map (fun _ => tiny) l) = INR (length l) * tiny). { induction l as [|a l IH]; [cbn; ring|]. cbn [map]. rewrite rsum_cons, IH. cbn [length]. rewrite S_INR. ring. }
      rewrite G, iota_len, INR_IZR_INZ, Z2Nat.id by lia. reflexivity. }
    rewrite E. assert (Pw : (1 + u) ^ Z.to_nat n = (1 + u) ^ (Z.to_nat n - 1) * (1 + u)). { replace (Z.to_nat n) with (S (Z.to_nat n - 1)) at 1 by lia. cbn [pow]. ring. }
    rewrite Pw. right. ring.
Qed.

(** Integer entries. *)
Lemma fadd_int_val a p b : (Z.abs a <= 2 ^ 53)%Z -> is_double p -> finite p -> dval p = IZR b -> (Z.abs (a + b) <= 2 ^ 53)%Z -> fadd (dbl a) p = dbl (a + b).
Proof.
  intros Ha Hp Fp Ep Hab. destruct (dbl_exact a Ha) as (x & Ex & Fx & Rx & Sx). destruct (lift p Hp) as [y <-]. apply finite_is in Fp. rewrite dval_B2R in Ep.
  destruct (dbl_exact (a + b) Hab) as (z & Ez & Fz & Rz & Sz). rewrite <- Ex, <- Ez, fadd_equiv. f_equal.
  pose proof (Bplus_correct 53 1024 Hprec Hmax mode_NE x y Fx Fp) as C. change (SpecFloat.fexp 53 1024) with fex in C. change (round_mode mode_NE) with ZnearestE in C.
  rewrite Rx, Ep, <- plus_IZR, rnd_int, Rlt_bool_true in C by (exact Hab || now apply bpow1024).
  destruct C as (C1 & C2 & C3). apply B2R_Bsign_inj; [exact C2|exact Fz|congruence|]. rewrite C3, Sz, Sx, Rcompare_IZR.
  destruct (Z.compare_spec (a + b) 0) as [Q|Q|Q]; [|destruct (Z.ltb_spec (a + b) 0); [reflexivity|lia]|destruct (Z.ltb_spec (a + b) 0); [lia|reflexivity]].
  rewrite Q. cbn. destruct (Z.ltb_spec a 0); [|reflexivity]. cbn.
  destruct y as [s|s| |s m e Hb]; try discriminate Fp; cbn in Ep |- *.
  - apply eq_IZR_R0 in Ep || (symmetry in Ep; apply eq_IZR_R0 in Ep). lia.
  - destruct s; [exfalso|reflexivity]. assert (B : (0 < b)%Z) by lia. apply IZR_lt in B. rewrite <- Ep in B. cbn in B.
    assert (K : F2R (Float radix2 (Z.neg m) e) < 0) by (now apply F2R_lt_0). lra.
Qed.
Theorem dot_int (f g : Z -> Z) n : (forall l, 0 <= l < n -> Z.abs (f l) <= 2 ^ 53 /\ Z.abs (g l) <= 2 ^ 53 /\ Z.abs (f l * g l) <= 2 ^ 53)%Z ->
  (forall k, 0 <= k <= n -> Z.abs (zdot f g k) <= 2 ^ 53)%Z ->
  dot_sum fzero fadd fmul (fun l => dbl (f l)) (fun l => dbl (g l)) n = dbl (zdot f g n).
Proof.
  intros H B. destruct (Z_lt_le_dec n 0) as [Hn|Hn].
  { unfold dot_sum, zdot, iota. replace (Z.to_nat n) with 0%nat by lia. reflexivity. }
  assert (Hn0 := Hn). revert Hn H B. pattern n. apply natlike_ind; [| |exact Hn0]; clear n Hn0.
  - intros _ _ _. reflexivity.
  - intros n Hn IH _ H B. unfold dot_sum, zdot, iota in *. rewrite Z2Nat.inj_succ, seq_S, map_app, !fold_left_app by lia. cbn [map fold_left Nat.add].
    rewrite Z2Nat.id by lia. rewrite IH; [|lia|intros l Hl; apply H; lia|intros k Hk; apply B; lia].
    assert (Bn := B n ltac:(lia)). assert (Bs := B (Z.succ n) ltac:(lia)). rewrite Z2Nat.inj_succ, seq_S, map_app, fold_left_app in Bs by lia. cbn [map fold_left Nat.add] in Bs. rewrite Z2Nat.id in Bs by lia.
    destruct (H n ltac:(lia)) as (H1 & H2 & H3).
    destruct (fmul_int_val (dbl (f n)) (dbl (g n)) (f n) (g n) (dbl_double _) (dbl_double _) (dbl_finite _ H1) (dbl_finite _ H2) (dbl_val _ H1) (dbl_val _ H2) H3) as (F & V).
    apply fadd_int_val; auto. apply fmul_double; apply dbl_double.
Qed.

Lemma not_small s m e s' m' e' : (-1022 <= e + e')%Z -> smallest_normal <= Rabs (dval (S754_finite s m e) * dval (S754_finite s' m' e')).
Proof.
  intros H. assert (G : forall s m e, bpow radix2 e <= Rabs (dval (S754_finite s m e))).
  { clear. intros s m e. cbn [dval]. change (powerRZ 2 e) with (powerRZ (IZR radix2) e). rewrite Rabs_mult, <- (bpow_powerRZ radix2 e), (Rabs_pos_eq (bpow _ _)) by apply bpow_ge_0.
    rewrite <- (Rmult_1_l (bpow radix2 e)) at 1. apply Rmult_le_compat_r; [apply bpow_ge_0|]. assert (1 <= IZR (Z.pos m)) by (apply IZR_le; lia).
    destruct s; [rewrite Rabs_Ropp|]; rewrite Rabs_pos_eq; lra. }
  rewrite normal_bpow, Rabs_mult. apply Rle_trans with (bpow radix2 e * bpow radix2 e'); [rewrite <- bpow_plus; now apply bpow_le|].
  apply Rmult_le_compat; auto using bpow_ge_0.
Qed.
