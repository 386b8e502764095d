(** * MathInt: normal_pdf and abs of integers. *)

From Coq Require Import ZArith List Bool Lia Floats.SpecFloat.
From Verif Require Import Base Coerce Reduce Random Stats ReduceSpec ReduceProofs StatsSpec StatsInt MathFn.
Import ListNotations.
Open Scope Z_scope.

Lemma promote_std t : std_ty t -> In (promote t) [ITy 32 true; ITy 32 false; ITy 64 true; ITy 64 false] /\ (signed t = true -> signed (promote t) = true) /\ (32 <= bits t -> promote t = t).
Proof.
  destruct t as [b s]. unfold std_ty, promote. cbn [bits signed]. intros [<-|[<-|[<-|[<-|[]]]]]; destruct s; cbn; repeat split; intuition (try discriminate; try lia).
Qed.
Lemma arith_out p x : signed p = true -> ~ ilo p <= x <= ihi p -> arith p x = UB.
Proof. intros Hs N. unfold arith, in_ty. rewrite Hs. destruct (ilo p <=? x) eqn:A, (x <=? ihi p) eqn:B; try reflexivity. exfalso. lia. Qed.

Section Int.
Variable fexp : spec_float -> spec_float.

(** What is computed: the exponent with integer division, and 3 for pi. *)
Definition int_pdf (e v : Z) : spec_float := fdiv (fexp (dbl e)) (fsqrt (dbl (6 * v))).

Lemma ipdf_signed t x mu sigma : std_ty t -> signed t = true ->
  let h := ihi (promote t) in
  ipdf fexp t x mu sigma =
    if (sigma =? 0) || (h <? (x - mu) * (x - mu)) || (h <? 6 * (sigma * sigma)) then UB
    else Ok (int_pdf (- ((x - mu) * (x - mu) / (2 * (sigma * sigma)))) (sigma * sigma)).
Proof.
  intros St Sg. destruct (promote_std t St) as (Pm & Ps & _). specialize (Ps Sg). unfold ipdf. cbv zeta. set (p := promote t) in *. clearbody p.
  assert (Sp : std_ty p) by (unfold std_ty; destruct Pm as [<-|[<-|[<-|[<-|[]]]]]; cbn; auto).
  assert (Cp : common_ty i32 p = p) by (destruct Pm as [<-|[<-|[<-|[<-|[]]]]]; try discriminate Ps; reflexivity).
  assert (Lo : ilo p = - ihi p - 1). { unfold ilo, ihi. rewrite Ps. lia. }
  assert (Hp : 2 ^ 31 - 1 <= ihi p) by (destruct Pm as [<-|[<-|[<-|[<-|[]]]]]; try discriminate Ps; cbn; lia).
  assert (Pp : promote p = p). { apply promote_std; [exact Sp|]. destruct Pm as [<-|[<-|[<-|[<-|[]]]]]; cbn; lia. }
  rewrite Cp. assert (C2 : common_ty p p = p) by (unfold common_ty; rewrite Z.eqb_refl, Ps; reflexivity). rewrite C2.
  set (v := sigma * sigma). assert (V0 : 0 <= v) by apply Z.square_nonneg. set (d2 := (x - mu) * (x - mu)). assert (D0 : 0 <= d2) by apply Z.square_nonneg. assert (Dd : Z.abs (x - mu) <= d2) by (unfold d2; rewrite <- Z.abs_square; clear; nia).
  destruct (sigma =? 0) eqn:E0; cbn [orb].
  - apply Z.eqb_eq in E0. assert (v = 0) by (unfold v; subst; reflexivity). clearbody v. subst v.
    rewrite arith_fit by (try exact Sp; lia). cbn [bindO]. rewrite conv_in by (try exact Sp; lia). rewrite arith_fit by (try exact Sp; lia). cbn [bindO].
    assert (A : forall z, arith p z = Ok z \/ arith p z = UB). { intros z. destruct (Z_le_dec (ilo p) z), (Z_le_dec z (ihi p)); [left; now apply arith_fit|right; apply arith_out; [exact Ps|lia]..]. }
    destruct (A (x - mu)) as [->| ->]; [|reflexivity]. cbn [bindO]. fold d2. destruct (A d2) as [->| ->]; [|reflexivity]. cbn [bindO]. destruct (A (- d2)) as [->| ->]; [|reflexivity]. cbn [bindO].
    unfold idiv. rewrite Pp, C2. rewrite (conv_in p (2 * 0)) by (try exact Sp; lia). reflexivity.
  - apply Z.eqb_neq in E0. assert (V1 : 0 < v) by (unfold v in *; assert (sigma * sigma <> 0) by (intros Q; apply Z.mul_eq_0 in Q; lia); lia).
    destruct (Z.ltb_spec (ihi p) d2) as [Od|Od]; cbn [orb].
    + assert (A : forall z, arith p z = Ok z \/ arith p z = UB). { intros z. destruct (Z_le_dec (ilo p) z), (Z_le_dec z (ihi p)); [left; now apply arith_fit|right; apply arith_out; [exact Ps|lia]..]. }
      destruct (A v) as [->| ->]; [|reflexivity]. cbn [bindO]. destruct (A (2 * conv_ty p v)) as [->| ->]; [|reflexivity]. cbn [bindO].
      destruct (A (x - mu)) as [->| ->]; [|reflexivity]. cbn [bindO]. fold d2. rewrite arith_out; [reflexivity|exact Ps|lia].
    + destruct (Z.ltb_spec (ihi p) (6 * v)) as [Ov|Ov].
      * destruct (Z_le_dec v (ihi p)) as [L1|L1]; [|rewrite arith_out by (try exact Ps; lia); reflexivity]. rewrite (arith_fit p v) by (try exact Sp; lia). cbn [bindO]. rewrite conv_in by (try exact Sp; lia).
        destruct (Z_le_dec (2 * v) (ihi p)) as [L2|L2]; [|rewrite arith_out by (try exact Ps; lia); reflexivity]. rewrite (arith_fit p (2 * v)) by (try exact Sp; lia). cbn [bindO].
        rewrite (arith_fit p (x - mu)) by (try exact Sp; lia). cbn [bindO]. fold d2. rewrite (arith_fit p d2) by (try exact Sp; lia). cbn [bindO]. rewrite (arith_fit p (- d2)) by (try exact Sp; lia). cbn [bindO].
        unfold idiv. rewrite Pp, C2. rewrite !(conv_in p) by (try exact Sp; lia). replace (2 * v =? 0) with false by (symmetry; apply Z.eqb_neq; lia).
        rewrite Z.quot_opp_l, Z.quot_div_nonneg by lia. assert (0 <= d2 / (2 * v) <= d2) by (split; [apply Z.div_pos; lia|apply Z.div_le_upper_bound; nia]).
        rewrite arith_fit by (try exact Sp; lia). cbn [bindO]. rewrite arith_out; [reflexivity|exact Ps|lia].
      * rewrite (arith_fit p v) by (try exact Sp; lia). cbn [bindO]. rewrite conv_in by (try exact Sp; lia).
        rewrite (arith_fit p (2 * v)) by (try exact Sp; lia). cbn [bindO].
        rewrite (arith_fit p (x - mu)) by (try exact Sp; lia). cbn [bindO]. fold d2. rewrite (arith_fit p d2) by (try exact Sp; lia). cbn [bindO]. rewrite (arith_fit p (- d2)) by (try exact Sp; lia). cbn [bindO].
        unfold idiv. rewrite Pp, C2. rewrite !(conv_in p) by (try exact Sp; lia). replace (2 * v =? 0) with false by (symmetry; apply Z.eqb_neq; lia).
        rewrite Z.quot_opp_l, Z.quot_div_nonneg by lia. assert (0 <= d2 / (2 * v) <= d2) by (split; [apply Z.div_pos; lia|apply Z.div_le_upper_bound; nia]).
        rewrite arith_fit by (try exact Sp; lia). cbn [bindO]. rewrite arith_fit by (try exact Sp; lia). cbn [bindO]. unfold int_pdf. replace (2 * v * 3) with (6 * v) by ring. reflexivity.
Qed.

(** Unsigned types of 32 or 64 bits: the negated square wraps around. *)
Lemma ipdf_unsigned b x mu sigma : b = 32 \/ b = 64 -> 0 < sigma -> 6 * (sigma * sigma) < 2 ^ b -> (x - mu) * (x - mu) < 2 ^ b -> x <> mu ->
  ipdf fexp (ITy b false) x mu sigma = Ok (int_pdf ((2 ^ b - (x - mu) * (x - mu)) / (2 * (sigma * sigma))) (sigma * sigma)).
Proof.
  intros Hb S0 S6 D2 N. set (p := ITy b false). assert (Sp : std_ty p) by (unfold std_ty, p; cbn; intuition).
  assert (Pp : promote p = p) by (unfold promote, p; cbn; destruct Hb as [-> | ->]; reflexivity). unfold ipdf. cbv zeta. fold p. rewrite Pp.
  assert (Cp : common_ty i32 p = p) by (unfold p; destruct Hb as [-> | ->]; reflexivity). assert (C2 : common_ty p p = p) by (unfold common_ty, p; cbn; rewrite Z.eqb_refl; reflexivity).
  rewrite Cp, C2. assert (Lo : ilo p = 0) by reflexivity. assert (Hi : ihi p = 2 ^ b - 1) by reflexivity. set (v := sigma * sigma) in *. assert (V0 : 0 < v) by (unfold v; nia).
  rewrite (arith_fit p v) by (try exact Sp; lia). cbn [bindO]. rewrite conv_in by (try exact Sp; lia). rewrite (arith_fit p (2 * v)) by (try exact Sp; lia). cbn [bindO].
  unfold arith at 1. replace (signed p) with false by reflexivity. cbn [bindO]. rewrite (conv_unsigned p (x - mu)) by reflexivity. replace (bits p) with b by reflexivity.
  set (d2 := (x - mu) * (x - mu)) in *. assert (D1 : 0 < d2) by (unfold d2; nia).
  unfold arith at 1. replace (signed p) with false by reflexivity. cbn [bindO]. rewrite (conv_unsigned p) by reflexivity. replace (bits p) with b by reflexivity.
  rewrite <- Z.mul_mod by (destruct Hb as [-> | ->]; lia). fold d2. rewrite (Z.mod_small d2) by lia.
  unfold arith at 1. replace (signed p) with false by reflexivity. cbn [bindO]. rewrite (conv_unsigned p) by reflexivity. replace (bits p) with b by reflexivity.
  assert (E : (- d2) mod 2 ^ b = 2 ^ b - d2). { symmetry. apply (Zmod_unique _ _ (-1)); lia. } rewrite E.
  unfold idiv. rewrite Pp, C2. rewrite !(conv_in p) by (try exact Sp; lia). replace (2 * v =? 0) with false by (symmetry; apply Z.eqb_neq; lia).
  rewrite Z.quot_div_nonneg by lia. assert (0 <= (2 ^ b - d2) / (2 * v) <= 2 ^ b - d2) by (split; [apply Z.div_pos; lia|apply Z.div_le_upper_bound; nia]).
  rewrite arith_fit by (try exact Sp; lia). cbn [bindO]. rewrite arith_fit by (try exact Sp; lia). cbn [bindO]. unfold int_pdf. replace (2 * v * 3) with (6 * v) by ring. reflexivity.
Qed.
End Int.

Lemma iabs_ok t x : std_ty t -> ilo t <= x <= ihi t -> (signed t = true \/ bits t < 32) ->
  iabs t x = if (signed t && (32 <=? bits t) && (x =? ilo t))%bool then UB else Ok (Z.abs x).
Proof.
  intros St B Sg. unfold iabs, arith, in_ty, promote. destruct t as [b s]. unfold std_ty, ilo, ihi in *. cbn [bits signed] in *.
  destruct St as [<-|[<-|[<-|[<-|[]]]]]; destruct s; cbn -[Z.pow] in *; try lia.
  all: repeat match goal with |- context [?a <=? ?c] => destruct (Z.leb_spec a c) | |- context [?a =? ?c] => destruct (Z.eqb_spec a c) end; cbn; try reflexivity; try lia.
Qed.
