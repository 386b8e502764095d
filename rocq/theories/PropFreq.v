(** * PropFreq: property C56 (freq).  [b] is the conversion of the elements to bool. *)

From Coq Require Import ZArith List Bool Lia Floats.SpecFloat Reals Lra.
From Verif Require Import Base Coerce Reduce Random Stats ReduceSpec ReduceProofs StatsSpec StatsProofs Freq.
Import ListNotations.

Definition trues {V} (b : V -> bool) (l : list V) : nat := length (filter b l).

Lemma freq_facts {V} (b : V -> bool) l : l <> [] -> (Z.of_nat (length l) <= 2 ^ 53)%Z ->
  freq b l = fdiv (dbl (Z.of_nat (trues b l))) (dbl (Z.of_nat (length l))) /\
  (0 <= Z.of_nat (trues b l) <= Z.of_nat (length l))%Z /\ (0 < Z.of_nat (length l) <= 2 ^ 53)%Z.
Proof.
  intros N H. unfold freq, trues. rewrite count_spec by (unfold W; lia). assert (L := filter_len b l). destruct l as [|x l]; [congruence|]. cbn [length] in *. lia || (split; [reflexivity|lia]).
Qed.

(** The result is the double nearest to the share of true elements. *)
Theorem C56_nearest : forall (V : Type) (b : V -> bool) l, l <> [] -> (Z.of_nat (length l) <= 2 ^ 53)%Z ->
  nearest (freq b l) (INR (trues b l) / INR (length l)) /\ (0 <= dval (freq b l) <= 1)%R.
Proof.
  intros V b l N H. destruct (freq_facts b l N H) as [E [A B]]. rewrite E, !INR_IZR_INZ. split; [now apply quot_nearest|].
  destruct (quot_spec _ _ A B) as [_ ->]. now apply rnd_q_range.
Qed.
Print Assumptions C56_nearest.

(** It is 1 exactly if all elements are true and 0 exactly if none is. *)
Theorem C56_bounds : forall (V : Type) (b : V -> bool) l, l <> [] -> (Z.of_nat (length l) <= 2 ^ 53)%Z ->
  (dval (freq b l) = 1%R <-> forall x, In x l -> b x = true) /\ (dval (freq b l) = 0%R <-> forall x, In x l -> b x = false).
Proof.
  intros V b l N H. destruct (freq_facts b l N H) as [-> [A B]]. rewrite quot_is_1, quot_is_0 by assumption. unfold trues. split; split.
  - intros E. apply filter_all. lia.
  - intros E. apply filter_all in E. lia.
  - intros E. apply filter_none. lia.
  - intros E. apply filter_none in E. lia.
Qed.
Print Assumptions C56_bounds.

(** Of two ranges of the same length the one with more true elements has the greater frequency. *)
Theorem C56_order : forall (V U : Type) (b : V -> bool) (b' : U -> bool) l l', l <> [] -> length l' = length l -> (Z.of_nat (length l) <= 2 ^ 53)%Z ->
  (dval (freq b l) < dval (freq b' l'))%R <-> (trues b l < trues b' l')%nat.
Proof.
  intros V U b b' l l' N L H. destruct (freq_facts b l N H) as [-> [A B]]. destruct (freq_facts b' l') as [-> [A' B']]; [destruct l, l'; cbn in *; congruence|lia|].
  rewrite L in *. rewrite quot_order by lia. lia.
Qed.
Print Assumptions C56_order.

(** The frequency of an empty range is not a number. *)
Theorem C56_empty : forall (V : Type) (b : V -> bool), freq b [] = S754_nan.
Proof. intros. reflexivity. Qed.
Print Assumptions C56_empty.

Example freq_ex : freq (Z.ltb 0) [1; -1; 2]%Z = S754_finite false 6004799503160661 (-53) /\ trues (Z.ltb 0) [1; -1; 2]%Z = 2%nat /\
  freq (Z.ltb 0) [1; 5]%Z = dbl 1 /\ freq (Z.ltb 0) [-1; -5]%Z = fzero.
Proof. repeat split; vm_compute; reflexivity. Qed.
