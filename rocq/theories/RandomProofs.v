(** * RandomProofs: the floating-point test of sampling without replacement. *)

From Coq Require Import ZArith List Bool Lia Floats.SpecFloat Reals Lra.
From Flocq Require Import Core Relative BinarySingleNaN.
From Verif Require Import Base Coerce Random RandomSpec.
From Verif Require CoerceProofs.
Import ListNotations.
Open Scope Z_scope.

Local Notation fex := (FLT_exp (-1074) 53).
Local Notation rnd := (round radix2 fex ZnearestE).

Local Instance Hprec : Prec_gt_0 53 := eq_refl.
Local Instance Hmax : Prec_lt_emax 53 1024 := eq_refl.
Local Instance Vfex : Valid_exp fex.
Proof. apply FLT_exp_valid. reflexivity. Qed.

(** SpecFloat's operations are Flocq's in round-to-nearest-even. *)
Lemma rne_equiv s m l : round_nearest_even m l = choice_mode mode_NE s m l.
Proof. case l; [reflexivity|intro c]. case c; [|reflexivity..]. simpl; unfold Round.cond_incr; now case Z.even. Qed.

Lemma round_aux_equiv sx mx ex lx :
  SpecFloat.binary_round_aux 53 1024 sx mx ex lx = binary_round_aux 53 1024 mode_NE sx mx ex lx.
Proof.
  unfold SpecFloat.binary_round_aux, binary_round_aux.
  set (mrse' := shr_fexp _ _ _ _ _). case mrse'; intros mrs' e'; simpl.
  now rewrite (rne_equiv sx).
Qed.

Lemma round_equiv s m e : SpecFloat.binary_round 53 1024 s m e = binary_round 53 1024 mode_NE s m e.
Proof.
  unfold SpecFloat.binary_round, binary_round, shl_align_fexp.
  set (mez := shl_align _ _ _); case mez as [mz ez]. apply round_aux_equiv.
Qed.

Lemma dbl_equiv z : dbl z = B2SF (binary_normalize 53 1024 Hprec Hmax mode_NE z 0 false).
Proof.
  unfold dbl. destruct z as [|p|p]; [reflexivity| |]; simpl; rewrite B2SF_SF2B; apply round_equiv.
Qed.

Lemma fmul_equiv x y : fmul (B2SF x) (B2SF y) = B2SF (Bmult (prec_gt_0_ := Hprec) (prec_lt_emax_ := Hmax) mode_NE x y).
Proof.
  destruct x as [sx|sx| |sx mx ex Bx], y as [sy|sy| |sy my ey By]; try reflexivity.
  simpl. rewrite B2SF_SF2B. apply round_aux_equiv.
Qed.

Open Scope R_scope.

Lemma rnd_le x y : x <= y -> rnd x <= rnd y.
Proof. intros. apply round_le; auto with typeclass_instances. Qed.

Lemma rnd_int z : (Z.abs z <= 2 ^ 53)%Z -> rnd (IZR z) = IZR z.
Proof.
  intros H. apply round_generic; auto with typeclass_instances.
  destruct (Z.eq_dec (Z.abs z) (2 ^ 53)) as [E|E].
  - assert (F : generic_format radix2 fex (bpow radix2 53)) by (apply generic_format_bpow; cbn; lia).
    destruct (Z.abs_eq_or_opp z) as [A|A]; rewrite A in E.
    + rewrite E. exact F.
    + replace z with (- 2 ^ 53)%Z by lia. rewrite opp_IZR. apply generic_format_opp. exact F.
  - apply generic_format_FLT. exists (Float radix2 z 0); cbn; try lia.
    unfold F2R. cbn. now rewrite Rmult_1_r.
Qed.

Lemma rnd_bound z : (0 <= z < W)%Z -> 0 <= rnd (IZR z) <= bpow radix2 64.
Proof.
  intros H. split.
  - rewrite <- (round_0 radix2 fex ZnearestE). apply rnd_le. apply IZR_le. lia.
  - rewrite <- (round_generic radix2 fex ZnearestE (bpow radix2 64)).
    + apply rnd_le. change (bpow radix2 64) with (IZR W). apply IZR_le. lia.
    + apply generic_format_bpow. cbn. lia.
Qed.

Lemma dbl_real z : (0 <= z < W)%Z ->
  exists b : binary_float 53 1024, B2SF b = dbl z /\ is_finite b = true /\ B2R b = rnd (IZR z).
Proof.
  intros H. exists (binary_normalize 53 1024 Hprec Hmax mode_NE z 0 false).
  split; [symmetry; apply dbl_equiv|].
  pose proof (binary_normalize_correct 53 1024 Hprec Hmax mode_NE z 0 false) as C. cbv zeta in C.
  replace (F2R (Float radix2 z 0)) with (IZR z) in C by (unfold F2R; cbn; ring).
  change (SpecFloat.fexp 53 1024) with fex in C. change (round_mode mode_NE) with ZnearestE in C.
  rewrite Rlt_bool_true in C; [tauto|].
  pose proof (rnd_bound z H). rewrite Rabs_pos_eq by lra.
  apply Rle_lt_trans with (bpow radix2 64); [lra|]. apply bpow_lt. lia.
Qed.

Definition last_below_one : R := 1 - bpow radix2 (-53).

Lemma unit_real u : unit_double u ->
  exists b : binary_float 53 1024, B2SF b = u /\ is_finite b = true /\ 0 <= B2R b <= last_below_one.
Proof.
  intros (V & P & L). exists (SF2B u V). rewrite B2SF_SF2B. split; [reflexivity|].
  set (b := SF2B u V) in *.
  assert (Eu : u = B2SF b) by (unfold b; now rewrite B2SF_SF2B).
  assert (Fb : is_finite b = true).
  { rewrite Eu in P, L. destruct b as [s|s| |s m e Hb]; [reflexivity|destruct s; [discriminate P|discriminate L]|discriminate P|reflexivity]. }
  split; [exact Fb|].
  assert (Vo : valid_binary 53 1024 one = true) by reflexivity.
  set (o := SF2B one Vo).
  assert (Ro : B2R o = 1).
  { unfold o. rewrite B2R_SF2B. cbn. unfold F2R; cbn. lra. }
  pose proof (Bltb_correct 53 1024 b o Fb eq_refl) as CL. unfold Bltb in CL.
  rewrite <- Eu in CL. unfold o in CL. rewrite B2SF_SF2B in CL. rewrite L in CL. fold o in CL. rewrite Ro in CL.
  symmetry in CL. assert (LT : B2R b < 1) by (destruct (Rlt_bool_spec (B2R b) 1); [assumption|discriminate]).
  pose proof (Bleb_correct 53 1024 (B754_zero false) b eq_refl Fb) as CP. unfold Bleb in CP.
  rewrite <- Eu in CP. cbn [B2SF] in CP. rewrite P in CP. cbn [B2R] in CP.
  assert (GE : 0 <= B2R b) by (destruct (Rle_bool_spec 0 (B2R b)); [assumption|discriminate]).
  split; [exact GE|].
  pose proof (generic_format_B2R 53 1024 b) as Gf. change (SpecFloat.fexp 53 1024) with fex in Gf.
  assert (G1 : generic_format radix2 fex 1) by (change 1 with (bpow radix2 0); apply generic_format_bpow; cbn; lia).
  pose proof (pred_ge_gt radix2 fex _ _ Gf G1 LT) as PG.
  change 1 with (bpow radix2 0) in PG. rewrite pred_bpow in PG. cbn -[bpow] in PG. unfold last_below_one. exact PG.
Qed.

(** The key fact: x * u rounded is below x. *)
Lemma mul_below x u : generic_format radix2 fex x -> 1 <= x -> 0 <= u <= last_below_one -> rnd (x * u) < x.
Proof.
  intros Fx Hx Hu. unfold last_below_one in Hu.
  assert (B : bpow radix2 (-53) > 0) by apply bpow_gt_0.
  set (y := x * u).
  assert (Hy : y <= x * (1 - bpow radix2 (-53))) by (unfold y; apply Rmult_le_compat_l; lra).
  assert (Hy0 : 0 <= y) by (unfold y; apply Rmult_le_pos; lra).
  destruct (Rlt_or_le y (bpow radix2 (-1))) as [S|S].
  - assert (F : generic_format radix2 fex (bpow radix2 (-1))) by (apply generic_format_bpow; cbn; lia).
    pose proof (rnd_le y (bpow radix2 (-1)) (Rlt_le _ _ S)) as M.
    rewrite (round_generic radix2 fex ZnearestE _ F) in M.
    assert (bpow radix2 (-1) < 1) by (cbn; lra). lra.
  - assert (RE := relative_error_N_FLT radix2 (-1074) 53 eq_refl (fun x => negb (Z.even x)) y).
    assert (K : bpow radix2 (-1074 + 53 - 1) <= Rabs y).
    { rewrite Rabs_pos_eq by assumption. apply Rle_trans with (2 := S). apply bpow_le. lia. }
    specialize (RE K). rewrite (Rabs_pos_eq y) in RE by assumption.
    assert (B2 : / 2 * bpow radix2 (-53 + 1) = bpow radix2 (-53)).
    { rewrite bpow_plus. change (bpow radix2 1) with 2. lra. }
    change (- (53) + 1)%Z with (-53 + 1)%Z in RE. rewrite B2 in RE. apply Rabs_def2b in RE || (apply Rabs_le_inv in RE).
    set (e := bpow radix2 (-53)) in *. change (Znearest (fun x => negb (Z.even x))) with ZnearestE in RE.
    assert (e <= 1) by (unfold e; change 1 with (bpow radix2 0); apply bpow_le; lia).
    assert (rnd y <= y * (1 + e)) by lra.
    assert (y * (1 + e) <= x * (1 - e) * (1 + e)) by (apply Rmult_le_compat_r; lra).
    assert (x * (1 - e) * (1 + e) < x). { assert (0 < x * (e * e)) by (apply Rmult_lt_0_compat; [lra|apply Rmult_lt_0_compat; lra]). lra. }
    lra.
Qed.

Lemma select_real n end_ t m u : (0 <= end_ - t < W)%Z -> (0 <= n - m < W)%Z -> unit_double u ->
  exists v, 0 <= v <= last_below_one
    /\ (forall b : binary_float 53 1024, B2SF b = u -> B2R b = v)
    /\ (select n end_ t m u = true <-> rnd (rnd (IZR (end_ - t)) * v) < rnd (IZR (n - m))).
Proof.
  intros H1 H2 U. destruct (unit_real u U) as (b & Eb & Fb & Rb). exists (B2R b). split; [exact Rb|]. split.
  { intros b' E'. assert (b' = b) by (apply B2SF_inj; congruence). now subst. }
  unfold select. rewrite !CoerceProofs.w64_id by lia.
  destruct (dbl_real _ H1) as (x & Ex & Fx & Rx). destruct (dbl_real _ H2) as (k & Ek & Fk & Rk).
  rewrite <- Ex, <- Ek, <- Eb, fmul_equiv.
  pose proof (Bmult_correct 53 1024 Hprec Hmax mode_NE x b) as C.
  change (SpecFloat.fexp 53 1024) with fex in C. change (round_mode mode_NE) with ZnearestE in C. rewrite Rx in C.
  pose proof (rnd_bound _ H1) as Bx.
  assert (P : 0 <= rnd (IZR (end_ - t)) * B2R b <= bpow radix2 64).
  { assert (0 < bpow radix2 (-53)) by apply bpow_gt_0. unfold last_below_one in Rb.
    split; [apply Rmult_le_pos; lra|].
    apply Rle_trans with (rnd (IZR (end_ - t)) * 1); [apply Rmult_le_compat_l; lra|lra]. }
  assert (Q : 0 <= rnd (rnd (IZR (end_ - t)) * B2R b) <= bpow radix2 64).
  { split.
    - rewrite <- (round_0 radix2 fex ZnearestE). apply rnd_le. lra.
    - rewrite <- (round_generic radix2 fex ZnearestE (bpow radix2 64)); [apply rnd_le; lra|].
      apply generic_format_bpow. cbn. lia. }
  rewrite Rlt_bool_true in C.
  2:{ rewrite Rabs_pos_eq by lra. apply Rle_lt_trans with (bpow radix2 64); [lra|apply bpow_lt; lia]. }
  destruct C as (C1 & C2 & _). rewrite Fx, Fb in C2. cbn in C2.
  pose proof (Bltb_correct 53 1024 (Bmult (prec_gt_0_ := Hprec) (prec_lt_emax_ := Hmax) mode_NE x b) k C2 Fk) as L.
  unfold Bltb in L. rewrite L, C1, Rk.
  destruct (Rlt_bool_spec (rnd (rnd (IZR (end_ - t)) * B2R b)) (rnd (IZR (n - m)))); split; intros; try discriminate; try assumption; try reflexivity; lra.
Qed.

(** As many indices are left as are still to be chosen: the next one is always chosen. *)
Lemma select_forced n end_ t m u :
  (0 < end_ - t < W)%Z -> (end_ - t <= n - m < W)%Z -> unit_double u -> select n end_ t m u = true.
Proof.
  intros H1 H2 U. destruct (select_real n end_ t m u) as (v & Hv & _ & S); try lia; auto. apply S.
  apply Rlt_le_trans with (rnd (IZR (end_ - t))).
  - apply mul_below; [apply generic_format_round; auto with typeclass_instances| |exact Hv].
    rewrite <- (rnd_int 1) by (cbn; lia). apply rnd_le. apply IZR_le. lia.
  - apply rnd_le. apply IZR_le. lia.
Qed.

(** No index left, still to choose: chosen. *)
Lemma select_none_left n end_ m u : (0 < n - m < W)%Z -> unit_double u -> select n end_ end_ m u = true.
Proof.
  intros H U. destruct (select_real n end_ end_ m u) as (v & Hv & _ & S); try (unfold W in *; lia); auto. apply S.
  rewrite Z.sub_diag, round_0 by auto with typeclass_instances. rewrite Rmult_0_l, round_0 by auto with typeclass_instances.
  apply Rlt_le_trans with 1; [lra|]. rewrite <- (rnd_int 1) by (cbn; lia). apply rnd_le. apply IZR_le. lia.
Qed.

(** A draw of 0 chooses; the largest draw below 1 does not, up to 2^53. *)
Definition top_draw : spec_float := S754_finite false 9007199254740991 (-53).

Lemma zero_unit : unit_double (S754_zero false).
Proof. repeat split. Qed.
Lemma top_unit : unit_double top_draw.
Proof. repeat split. Qed.

Lemma select_zero n end_ t m : (0 <= end_ - t < W)%Z -> (0 < n - m < W)%Z -> select n end_ t m (S754_zero false) = true.
Proof.
  intros H1 H2. destruct (select_real n end_ t m _ H1 ltac:(lia) zero_unit) as (v & Hv & E & S). apply S.
  assert (v = 0) by (symmetry; apply (E (B754_zero false)); reflexivity). subst v.
  rewrite Rmult_0_r, round_0 by auto with typeclass_instances.
  apply Rlt_le_trans with 1; [lra|]. rewrite <- (rnd_int 1) by (cbn; lia). apply rnd_le. apply IZR_le. lia.
Qed.

Lemma select_top n end_ t m : (0 <= n - m < end_ - t)%Z -> (end_ - t <= 2 ^ 53)%Z -> select n end_ t m top_draw = false.
Proof.
  intros H1 H2. destruct (select_real n end_ t m top_draw) as (v & Hv & E & S); try (unfold W in *; lia); [apply top_unit|].
  destruct (select n end_ t m top_draw) eqn:X; [|reflexivity]. exfalso.
  assert (Y : rnd (rnd (IZR (end_ - t)) * v) < rnd (IZR (n - m))) by (apply S; reflexivity).
  assert (V : valid_binary 53 1024 top_draw = true) by reflexivity.
  assert (Ev : v = last_below_one).
  { rewrite <- (E (SF2B top_draw V)) by apply B2SF_SF2B. rewrite B2R_SF2B. unfold last_below_one. cbn. unfold F2R; cbn. lra. }
  rewrite (rnd_int (end_ - t)) in Y by lia. rewrite (rnd_int (n - m)) in Y by lia.
  assert (Z : rnd (IZR (n - m)) <= rnd (IZR (end_ - t) * v)).
  { apply rnd_le. rewrite Ev. unfold last_below_one.
    apply Rle_trans with (IZR (end_ - t) - 1).
    - rewrite <- minus_IZR. apply IZR_le. lia.
    - assert (Q : IZR (end_ - t) * bpow radix2 (-53) <= 1).
      { apply Rle_trans with (bpow radix2 53 * bpow radix2 (-53)).
        - apply Rmult_le_compat_r; [apply bpow_ge_0|]. change (bpow radix2 53) with (IZR (2 ^ 53)). apply IZR_le. lia.
        - rewrite <- bpow_plus. cbn. lra. }
      lra. }
  rewrite (rnd_int (n - m)) in Z by lia. lra.
Qed.

Open Scope Z_scope.

(** Many indices seem left (the difference wrapped), one to choose: the top draw rejects. *)
Lemma select_wrapped n end_ t m : 2 ^ 53 <= w64 (end_ - t) -> n - m = 1 -> select n end_ t m top_draw = false.
Proof.
  intros H1 H2. set (N := w64 (end_ - t)) in *.
  assert (B : 0 <= N < W) by (unfold N, w64; apply Z.mod_pos_bound; reflexivity).
  assert (E : select n end_ t m top_draw = select n N 0 m top_draw).
  { unfold select. fold N. rewrite Z.sub_0_r. now rewrite (CoerceProofs.w64_id N) by lia. }
  rewrite E.
  destruct (select_real n N 0 m top_draw) as (v & Hv & Ev & S); try (unfold W in *; lia); [apply top_unit|].
  destruct (select n N 0 m top_draw) eqn:X; [|reflexivity]. exfalso.
  assert (Y : (rnd (rnd (IZR (N - 0)) * v) < rnd (IZR (n - m)))%R) by (apply S; reflexivity).
  assert (V : valid_binary 53 1024 top_draw = true) by reflexivity.
  assert (Ev' : v = last_below_one).
  { rewrite <- (Ev (SF2B top_draw V)) by apply B2SF_SF2B. rewrite B2R_SF2B. unfold last_below_one. cbn. unfold F2R; cbn. lra. }
  rewrite H2, Z.sub_0_r in Y.
  assert (G : (rnd 1 <= rnd (rnd (IZR N) * v))%R).
  { apply rnd_le. rewrite Ev'. unfold last_below_one.
    assert (M : (IZR (2 ^ 53) <= rnd (IZR N))%R) by (rewrite <- (rnd_int (2 ^ 53)) by (cbn; lia); apply rnd_le, IZR_le; lia).
    assert (b : (bpow radix2 (-53) <= / 2)%R) by (change (/ 2)%R with (bpow radix2 (-1)); apply bpow_le; lia).
    apply Rle_trans with (IZR (2 ^ 53) * / 2)%R; [rewrite <- (Rmult_1_r 1); cbn; lra|].
    apply Rmult_le_compat; try lra. }
  lra.
Qed.

(** ** The loop *)

Section Loop.
Variable draws : nat -> spec_float.
Hypothesis U : forall k, unit_double (draws k).

Lemma wo_loop_ok n end_ : end_ < W -> forall fuel k t m acc,
  0 <= t <= end_ -> 0 <= m <= n -> n - m <= end_ - t -> (Z.to_nat (end_ - t) <= fuel)%nat ->
  exists r k', wo_loop fuel draws k n end_ t m acc = Ok (acc ++ r, k')
    /\ Z.of_nat (length r) = n - m /\ increasing r /\ (forall x, In x r -> t <= x < end_)
    /\ Z.of_nat k' <= Z.of_nat k + (end_ - t).
Proof.
  intros HW. induction fuel as [|fuel IH]; intros k t m acc Ht Hm Hn Hf; cbn [wo_loop].
  - destruct (m <? n) eqn:E; [lia|]. exists [], k. rewrite app_nil_r.
    split; [reflexivity|]. cbn. split; [lia|]. split; [exact I|]. split; [tauto|lia].
  - destruct (m <? n) eqn:E.
    2:{ exists [], k. rewrite app_nil_r. split; [reflexivity|]. cbn. split; [lia|]. split; [exact I|]. split; [tauto|lia]. }
    rewrite CoerceProofs.w64_id by lia.
    destruct (select n end_ t m (draws k)) eqn:S.
    + destruct (IH (Datatypes.S k) (t + 1) (m + 1) (acc ++ [t])) as (r & k' & A & B & C & D & F); try lia.
      exists (t :: r), k'. rewrite A. rewrite <- app_assoc. split; [reflexivity|].
      split; [cbn [length]; lia|]. split; [split; [intros b Hb; specialize (D b Hb); lia|exact C]|].
      split; [|lia]. intros x [<-|Hx]; [lia|]. specialize (D x Hx). lia.
    + assert (L : n - m < end_ - t).
      { destruct (Z_lt_le_dec (n - m) (end_ - t)) as [L|L]; [exact L|].
        rewrite (select_forced n end_ t m (draws k)) in S; try lia; auto; discriminate. }
      destruct (IH (Datatypes.S k) (t + 1) m acc) as (r & k' & A & B & C & D & F); try lia.
      exists r, k'. split; [exact A|]. split; [exact B|]. split; [exact C|]. split; [|lia].
      intros x Hx. specialize (D x Hx). lia.
Qed.

(** One index too many: all of 0 .. end are returned. *)
Lemma wo_loop_over n end_ : 0 <= n < W -> end_ + 1 < W -> forall fuel k t m acc,
  0 <= t <= end_ -> 0 <= m -> n - m = end_ - t + 1 -> (Z.to_nat (end_ - t + 1) <= fuel)%nat ->
  exists k', wo_loop fuel draws k n end_ t m acc = Ok (acc ++ map Z.of_nat (seq (Z.to_nat t) (Z.to_nat (n - m))), k').
Proof.
  intros HW HE. induction fuel as [|fuel IH]; intros k t m acc Ht Hm Hn Hf; [lia|]. cbn [wo_loop].
  destruct (m <? n) eqn:E; [|lia].
  assert (Sel : select n end_ t m (draws k) = true).
  { destruct (Z.eq_dec t end_) as [->|X]; [apply select_none_left; auto; lia|apply select_forced; auto; lia]. }
  rewrite Sel. rewrite CoerceProofs.w64_id by lia.
  replace (Z.to_nat (n - m)) with (S (Z.to_nat (n - (m + 1)))) by lia. cbn [seq map].
  rewrite Z2Nat.id by lia. replace (S (Z.to_nat t)) with (Z.to_nat (t + 1)) by lia.
  destruct (Z.eq_dec t end_) as [->|X].
  - replace (n - (m + 1)) with 0 by lia. cbn [Z.to_nat seq map].
    destruct fuel; cbn [wo_loop]; (destruct (m + 1 <? n) eqn:E2; [lia|]); eauto.
  - destruct (IH (S k) (t + 1) (m + 1) (acc ++ [t])) as (k' & A); try lia.
    exists k'. rewrite A, <- app_assoc. reflexivity.
Qed.
End Loop.

(** Every choice can happen, up to 2^53. *)
Definition draws_for (l : list Z) (k : nat) : spec_float :=
  if in_dec Z.eq_dec (Z.of_nat k) l then S754_zero false else top_draw.

Lemma draws_for_unit l k : unit_double (draws_for l k).
Proof. unfold draws_for. destruct in_dec; [apply zero_unit|apply top_unit]. Qed.

Lemma wo_loop_choice draws n end_ : end_ <= 2 ^ 53 -> forall fuel t m acc l,
  0 <= t <= end_ -> 0 <= m <= n -> Z.of_nat (length l) = n - m -> (Z.to_nat (end_ - t) <= fuel)%nat ->
  increasing l -> (forall x, In x l -> t <= x < end_) ->
  (forall k, t <= k -> draws (Z.to_nat k) = if in_dec Z.eq_dec k l then S754_zero false else top_draw) ->
  exists k', wo_loop fuel draws (Z.to_nat t) n end_ t m acc = Ok (acc ++ l, k').
Proof.
  intros HW. induction fuel as [|fuel IH]; intros t m acc l Ht Hm Hl Hf Hi Hb Hd; cbn [wo_loop].
  - destruct l as [|a l]; [|specialize (Hb a (or_introl eq_refl)); lia]. cbn in Hl.
    destruct (m <? n) eqn:E; [lia|]. rewrite app_nil_r. eauto.
  - destruct (m <? n) eqn:E.
    2:{ destruct l as [|a l]; [|cbn [length] in Hl; lia]. rewrite app_nil_r. eauto. }
    destruct l as [|a l]; [cbn in Hl; lia|]. cbn [length] in Hl. pose proof (Hb a (or_introl eq_refl)) as Ha.
    rewrite CoerceProofs.w64_id by (unfold W; lia).
    rewrite (Hd t) by lia. replace (S (Z.to_nat t)) with (Z.to_nat (t + 1)) by lia.
    destruct Hi as [Hlt Hi].
      assert (Room : Z.of_nat (length l) <= end_ - a - 1).
      { assert (K : forall l lo, increasing l -> (forall x, In x l -> lo <= x < end_) -> lo <= end_ -> Z.of_nat (length l) <= end_ - lo).
        { clear. induction l as [|a l IH]; intros lo Hi Hb Hlo; cbn [length]; [lia|]. destruct Hi as [Hlt Hi].
          pose proof (Hb a (or_introl eq_refl)).
          specialize (IH (a + 1) Hi). assert (Z.of_nat (length l) <= end_ - (a + 1)); [|lia].
          apply IH; [|lia]. intros x Hx. specialize (Hb x (or_intror Hx)). specialize (Hlt x Hx). lia. }
        pose proof (K l (a + 1) Hi) as K'. assert (Z.of_nat (length l) <= end_ - (a + 1)); [|lia].
        apply K'; [|lia]. intros x Hx. specialize (Hb x (or_intror Hx)). specialize (Hlt x Hx). lia. }
    destruct (in_dec Z.eq_dec t (a :: l)) as [I|I].
    + assert (t = a). { destruct I as [->|I]; [reflexivity|]. specialize (Hlt t I). lia. } subst a.
      rewrite select_zero by (unfold W in *; lia).
      destruct (IH (t + 1) (m + 1) (acc ++ [t]) l) as (k' & A); try lia; auto.
      * intros x Hx. specialize (Hb x (or_intror Hx)). specialize (Hlt x Hx). lia.
      * intros k Hk. rewrite Hd by lia.
        destruct (in_dec Z.eq_dec k (t :: l)) as [I1|I1], (in_dec Z.eq_dec k l) as [I2|I2]; auto.
        -- destruct I1; [lia|contradiction].
        -- elim I1. cbn. auto.
      * exists k'. rewrite A, <- app_assoc. reflexivity.
    + assert (t < a). { destruct (Z.eq_dec t a) as [->|X]; [elim I; cbn; auto|lia]. }
      rewrite select_top by lia.
      destruct (IH (t + 1) m acc (a :: l)) as (k' & A); try lia.
      * cbn [length]; lia.
      * split; auto.
      * intros x Hx. specialize (Hb x Hx). destruct Hx as [<-|Hx]; [lia|]. specialize (Hlt x Hx). lia.
      * intros k Hk. apply Hd. lia.
      * eauto.
Qed.

(** Two too many: with the top draw the loop goes on for at least 2^63 iterations. *)
Lemma wo_loop_stuck n end_ m acc : n - m = 1 -> 0 <= end_ < 2 ^ 60 -> forall fuel k t,
  end_ < t -> t + Z.of_nat fuel <= 2 ^ 63 -> 
  wo_loop fuel (fun _ => top_draw) k n end_ t m acc = Timeout.
Proof.
  intros Hn He. induction fuel as [|fuel IH]; intros k t Ht Hf; cbn [wo_loop]; (destruct (m <? n) eqn:E; [|lia]); [reflexivity|].
  rewrite select_wrapped; [|unfold w64; rewrite <- (Z_mod_plus_full (end_ - t) 1 W), Z.mod_small; unfold W; lia|exact Hn].
  rewrite CoerceProofs.w64_id by (unfold W; lia). apply IH; lia.
Qed.
