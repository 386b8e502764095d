(** * PropUniform: property C80 (uniform indices).

    Vocabulary (DistSpec.v): an engine is the list of its next outputs, each in [0, 2^32); [Ok (v, l)]: the value is v and the outputs l are left;
    [Timeout]: the outputs given are used up; [count P (sequences n)]: how many of the sequences of n outputs satisfy P;
    [chance n P]: their share; [yields eqb v r]: r is v, with all outputs used. *)

From Coq Require Import ZArith List Bool Lia Reals Lra.
From Verif Require Import Base Spec Lemmas Dist DistSpec DistCount DistUniform.
Import ListNotations.
Open Scope Z_scope.

Lemma end_w64 end_ : 1 <= end_ < 2 ^ 64 -> w64 (end_ - 1) = end_ - 1.
Proof. intros H. apply w64_small. change W with (2 ^ 64). lia. Qed.

(** In range, for every end >= 1 and every engine; the outputs used are a prefix, and the value depends on them only. *)
Theorem C80_in_range : forall end_ l, 1 <= end_ < 2 ^ 64 -> outputs l ->
  uniform_index_sample end_ l = Timeout \/
  exists v p r, uniform_index_sample end_ l = Ok (v, r) /\ 0 <= v < end_ /\ l = p ++ r /\ p <> [] /\ forall r', uniform_index_sample end_ (p ++ r') = Ok (v, r').
Proof.
  intros end_ l He Ho. unfold uniform_index_sample. rewrite end_w64 by assumption. destruct (uniform_cases (end_ - 1) l Ho ltac:(lia)) as [E|(v & r & E)]; [now left|right].
  pose proof (uniform_range (end_ - 1) _ _ _ Ho ltac:(lia) E) as R1. destruct (uniform_reader _ _ _ _ E) as (p & Ep & K). exists v, p, r. split; [exact E|]. split; [lia|]. split; [exact Ep|]. split; [|exact K].
  intros ->. specialize (K []). assert (N : uniform_int (end_ - 1) [] = Timeout); [|cbn [app] in K; congruence].
  unfold uniform_int. destruct (end_ - 1 <=? 2 ^ 32 - 1); [apply small_nil|]. cbn [large length]. now rewrite small_nil.
Qed.
Print Assumptions C80_in_range.

(** Exactly uniform: for every number n of outputs, every index comes from the same number of sequences. *)
Theorem C80_uniform : forall end_ n v v', 1 <= end_ < 2 ^ 64 -> 0 <= v < end_ -> 0 <= v' < end_ ->
  count (fun s => yields Z.eqb v (uniform_index_sample end_ s)) (sequences n) = count (fun s => yields Z.eqb v' (uniform_index_sample end_ s)) (sequences n).
Proof.
  intros end_ n v v' He Hv Hv'. unfold uniform_index_sample. rewrite end_w64 by assumption. rewrite !count_sum. apply (uniform_same (end_ - 1) v v' n); lia.
Qed.
Print Assumptions C80_uniform.

(** n samples: every list of indices comes from the same number of sequences, so the samples are uniform and independent. *)
Theorem C80_samples_uniform : forall end_ k n vs vs', 1 <= end_ < 2 ^ 64 -> length vs = k -> length vs' = k -> Forall (fun v => 0 <= v < end_) vs -> Forall (fun v => 0 <= v < end_) vs' ->
  count (fun s => yields (list_eqb Z.eqb) vs (uniform_index_samples (Z.of_nat k) end_ s)) (sequences n)
  = count (fun s => yields (list_eqb Z.eqb) vs' (uniform_index_samples (Z.of_nat k) end_ s)) (sequences n).
Proof.
  intros end_ k n vs vs' He L L' F F'. unfold uniform_index_samples. rewrite end_w64 by assumption. rewrite Nat2Z.id, !count_sum.
  apply (draws_same (end_ - 1) n k ltac:(lia) vs vs'); auto; (eapply Forall_impl; [|eassumption]); intros v Hv; cbn beta in Hv; lia.
Qed.
Print Assumptions C80_samples_uniform.

(** The indices returned by n samples: n of them, in range. *)
Theorem C80_samples_in_range : forall end_ n l vs r, 1 <= end_ < 2 ^ 64 -> 0 <= n -> outputs l -> uniform_index_samples n end_ l = Ok (vs, r) ->
  Z.of_nat (length vs) = n /\ Forall (fun v => 0 <= v < end_) vs.
Proof.
  intros end_ n l vs r He Hn Ho H. unfold uniform_index_samples in H. rewrite end_w64 in H by assumption. assert (E : Z.of_nat (Z.to_nat n) = n) by lia. rewrite <- E. clear E.
  remember (Z.to_nat n) as k. clear Heqk n Hn. revert l vs r Ho H. induction k as [|k IH]; intros l vs r Ho H; cbn [draws] in H.
  { injection H as <- <-. split; [reflexivity|constructor]. }
  destruct (uniform_int (end_ - 1) l) as [[x r1]| | | |] eqn:E1; try discriminate. cbn [bindO fst snd] in H. pose proof (uniform_range (end_ - 1) _ _ _ Ho ltac:(lia) E1) as R1.
  destruct (uniform_reader _ _ _ _ E1) as (p & -> & _). apply Forall_app in Ho. destruct Ho as [_ Ho].
  destruct (draws (uniform_int (end_ - 1)) k r1) as [[xs r2]| | | |] eqn:E2; try discriminate. cbn [bindO fst snd] in H. injection H as <- <-.
  destruct (IH _ _ _ Ho E2) as [L F]. split; [cbn [length]; lia|]. constructor; [lia|exact F].
Qed.
Print Assumptions C80_samples_in_range.

(** The chance that 2k outputs are not enough is at most (3/4)^k: the call returns with probability 1. *)
Theorem C80_returns : forall end_ k, 1 <= end_ < 2 ^ 64 ->
  (chance (2 * k) (fun s => match uniform_index_sample end_ s with Timeout => true | _ => false end) <= (3 / 4) ^ k)%R.
Proof.
  intros end_ k He. unfold uniform_index_sample. rewrite end_w64 by assumption. unfold chance. rewrite count_sum.
  change (sum _ (sequences (2 * k))) with (TO (end_ - 1) (2 * k)). pose proof (TO_bound (end_ - 1) k ltac:(lia)) as B. apply IZR_le in B.
  assert (E : IZR (2 ^ (32 * Z.of_nat (2 * k))) = (IZR (2 ^ 64) ^ k)%R).
  { replace (32 * Z.of_nat (2 * k)) with (64 * Z.of_nat k) by lia. rewrite Z.pow_mul_r by lia. symmetry. apply pow_IZR. }
  assert (E' : IZR ((3 * 2 ^ 62) ^ Z.of_nat k) = ((3 / 4) ^ k * IZR (2 ^ 64) ^ k)%R).
  { rewrite <- pow_IZR, <- Rpow_mult_distr. f_equal. change (2 ^ 64) with (4 * 2 ^ 62). rewrite !mult_IZR. lra. }
  rewrite E' in B. rewrite E. assert (P : (0 < IZR (2 ^ 64) ^ k)%R) by (apply pow_lt, IZR_lt; lia).
  apply (Rmult_le_reg_r (IZR (2 ^ 64) ^ k)); [exact P|]. unfold Rdiv at 1. rewrite Rmult_assoc, Rinv_l, Rmult_1_r by lra. exact B.
Qed.
Print Assumptions C80_returns.

(** end = 0: end - 1 wraps around, and the call returns an arbitrary number instead of an index below end. *)
Theorem C80_end_zero : forall v, 0 <= v < 2 ^ 64 -> exists l, outputs l /\ uniform_index_sample 0 l = Ok (v, []).
Proof.
  intros v Hv. exists [v / 2 ^ 32; v mod 2 ^ 32]. pose proof (Z.div_mod v (2 ^ 32) ltac:(lia)) as E. pose proof (Z.mod_pos_bound v (2 ^ 32) ltac:(lia)) as M.
  assert (D : 0 <= v / 2 ^ 32 < 2 ^ 32) by (split; [apply Z.div_pos; lia|apply Z.div_lt_upper_bound; lia]).
  assert (Ho : outputs [v / 2 ^ 32; v mod 2 ^ 32]) by (repeat constructor; lia). split; [exact Ho|].
  unfold uniform_index_sample. change (w64 (0 - 1)) with (2 ^ 64 - 1). rewrite uniform_step by (auto; lia). unfold round, then_.
  change ((2 ^ 64 - 1) / 2 ^ 32) with (2 ^ 32 - 1). unfold small. rewrite Z.ltb_irrefl. cbn [next bindO fst snd]. destruct (Z.ltb_spec (2 ^ 64 - 1) (2 ^ 32 * (v / 2 ^ 32) + v mod 2 ^ 32)); [lia|]. do 2 f_equal. lia.
Qed.
Print Assumptions C80_end_zero.
Theorem C80_end_zero_refuted : exists l v, outputs l /\ uniform_index_sample 0 l = Ok (v, []) /\ ~ v < 0.
Proof. destruct (C80_end_zero 5 ltac:(lia)) as (l & H & E). exists l, 5. split; [exact H|]. split; [exact E|]. lia. Qed.
Print Assumptions C80_end_zero_refuted.

(** The hypotheses are met: a die, a rejected output, and an end above 2^32. *)
Example C80_ex : map (fun x => uniform_index_sample 6 [x; 77]) [0; 1; 2 ^ 31 + 1; 2 ^ 32 - 1] = [Ok (0, []); Ok (0, [77]); Ok (3, [77]); Ok (5, [77])] /\
  uniform_index_sample 6 [0; 2 ^ 30; 8] = Ok (1, [8]) /\ uniform_index_samples 3 6 [1; 2 ^ 31 + 1; 0; 2 ^ 32 - 1] = Ok ([0; 3; 5], []) /\
  uniform_index_sample (2 ^ 33 + 5) [2 ^ 31; 77; 5] = Ok (2 ^ 32 + 77, [5]) /\ uniform_index_sample (2 ^ 33 + 5) [2 ^ 32 - 1; 77; 1; 6] = Ok (6, []).
Proof. repeat split; vm_compute; reflexivity. Qed.
