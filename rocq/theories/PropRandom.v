(** * PropRandom: C40, C45 — sampling indices. *)

From Coq Require Import ZArith List Bool Lia Floats.SpecFloat.
From Verif Require Import Base Coerce Random RandomSpec RandomProofs.
Import ListNotations.
Open Scope Z_scope.

(** ** C40: sampling without replacement *)

(** For n <= end and every sequence of draws in [0, 1): the call returns after at most [end]
    draws, with n indices below end, in increasing order (hence distinct). *)
Theorem C40_sample_without_replacement : forall draws n end_,
  (forall k, unit_double (draws k)) ->
  0 <= n <= end_ -> end_ < 2 ^ 64 -> n < 2 ^ 60 ->
  exists r k, sample_without_replacement (Z.to_nat end_) draws n end_ = Ok (r, k)
    /\ Z.of_nat (length r) = n /\ increasing r /\ (forall x, In x r -> 0 <= x < end_)
    /\ Z.of_nat k <= end_.
Proof.
  intros draws n end_ U Hn He Hc. unfold sample_without_replacement.
  destruct (2 ^ 60 - 1 <? n) eqn:E; [lia|].
  destruct (wo_loop_ok draws U n end_ He (Z.to_nat end_) 0 0 0 []) as (r & k & A & B & C & D & F); try lia.
  cbn [app] in A. exists r, k. rewrite A. split; [reflexivity|]. split; [lia|]. split; [exact C|]. split; [exact D|]. lia.
Qed.
Print Assumptions C40_sample_without_replacement.

(** Increasing lists have no repeated elements. *)
Theorem C40_increasing_distinct : forall l, increasing l -> NoDup l.
Proof.
  induction l as [|a l IH]; intros H; constructor; destruct H as [H1 H2]; auto.
  intros X. specialize (H1 a X). lia.
Qed.

(** More fuel than [end] changes nothing: the loop is over. *)
Theorem C40_terminates : forall draws n end_ fuel,
  (forall k, unit_double (draws k)) ->
  0 <= n <= end_ -> end_ < 2 ^ 64 -> (Z.to_nat end_ <= fuel)%nat ->
  sample_without_replacement fuel draws n end_ <> Timeout.
Proof.
  intros draws n end_ fuel U Hn He Hf. unfold sample_without_replacement.
  destruct (2 ^ 60 - 1 <? n) eqn:E; [discriminate|].
  destruct (wo_loop_ok draws U n end_ He fuel 0 0 0 []) as (r & k & A & _); try lia.
  rewrite A. discriminate.
Qed.
Print Assumptions C40_terminates.

(** Up to end = 2^53 every set of n indices can be the outcome. *)
Theorem C40_every_choice_possible : forall n end_ l,
  0 <= n -> end_ <= 2 ^ 53 -> increasing l -> Z.of_nat (length l) = n -> (forall x, In x l -> 0 <= x < end_) ->
  exists draws k, (forall i, unit_double (draws i))
    /\ sample_without_replacement (Z.to_nat end_) draws n end_ = Ok (l, k).
Proof.
  intros n end_ l Hn He Hi Hl Hb. unfold sample_without_replacement.
  assert (K : n <= end_ \/ n = 0).
  { destruct l as [|a l]; [cbn in Hl; right; lia|]. left. rewrite <- Hl.
    assert (G : forall l lo, increasing l -> (forall x, In x l -> lo <= x < end_) -> lo <= end_ -> Z.of_nat (length l) <= end_ - lo).
    { clear. induction l as [|a l IH]; intros lo Hi Hb Hlo; cbn [length]; [lia|]. destruct Hi as [Hlt Hi].
      pose proof (Hb a (or_introl eq_refl)).
      assert (Z.of_nat (length l) <= end_ - (a + 1)); [|lia].
      apply IH; [exact Hi| |lia]. intros x Hx. specialize (Hb x (or_intror Hx)). specialize (Hlt x Hx). lia. }
    specialize (G (a :: l) 0 Hi Hb). pose proof (Hb a (or_introl eq_refl)). lia. }
  destruct K as [K|K].
  - destruct (2 ^ 60 - 1 <? n) eqn:E; [lia|].
    destruct (wo_loop_choice (draws_for l) n end_ He (Z.to_nat end_) 0 0 [] l) as (k & A); try lia; auto.
    { intros k Hk. unfold draws_for. now rewrite Z2Nat.id by lia. }
    exists (draws_for l), k. split; [apply draws_for_unit|]. exact A.
  - subst n. destruct l as [|a l]; [|cbn [length] in K; lia]. cbn.
    exists (draws_for []). eexists. split; [apply draws_for_unit|].
    destruct (Z.to_nat end_); reflexivity.
Qed.
Print Assumptions C40_every_choice_possible.

(** Drawing 0.5 each time from 5 indices; the hypotheses hold for it. *)
Example C40_ex : let half := S754_finite false 4503599627370496 (-53) in
  unit_double half
  /\ sample_without_replacement 5 (fun _ => half) 3 5 = Ok ([0; 2; 4], 5%nat)
  /\ sample_without_replacement 5 (fun _ => top_draw) 3 5 = Ok ([2; 3; 4], 5%nat).
Proof. repeat split. Qed.

(** One index too many: whatever the draws, the result is 0, 1, ..., end, which contains the
    index end itself. *)
Theorem C40_one_too_many : forall draws end_,
  (forall k, unit_double (draws k)) -> 0 <= end_ < 2 ^ 60 - 1 ->
  exists k, sample_without_replacement (Z.to_nat end_ + 1) draws (end_ + 1) end_
            = Ok (map Z.of_nat (seq 0 (Z.to_nat end_ + 1)), k).
Proof.
  intros draws end_ U He. unfold sample_without_replacement. destruct (2 ^ 60 - 1 <? end_ + 1) eqn:E; [lia|].
  destruct (wo_loop_over draws U (end_ + 1) end_) with (fuel := (Z.to_nat end_ + 1)%nat) (k := O) (t := 0) (m := 0) (acc := @nil Z) as (k & A);
    try (unfold W; lia).
  exists k. rewrite A. cbn [app]. do 3 f_equal. f_equal. lia.
Qed.
Print Assumptions C40_one_too_many.

Theorem C40_more_than_end_refuted : exists draws n end_ r k,
  (forall k, unit_double (draws k)) /\ sample_without_replacement 1 draws n end_ = Ok (r, k)
  /\ In end_ r.
Proof.
  exists (fun _ => top_draw), 1, 0, [0], 1%nat. split; [intros; apply top_unit|]. split; [reflexivity|cbn; auto].
Qed.

(** Two too many: there are draws for which the call does not return within 2^62 iterations
    (the number of remaining indices wraps around). *)
Theorem C40_does_not_return_refuted : exists draws n end_,
  (forall k, unit_double (draws k)) /\ 0 <= end_ < n
  /\ forall fuel, Z.of_nat fuel <= 2 ^ 62 -> sample_without_replacement fuel draws n end_ = Timeout.
Proof.
  exists (fun _ => top_draw), 2, 0. split; [intros; apply top_unit|]. split; [lia|].
  intros fuel Hf. unfold sample_without_replacement. change (2 ^ 60 - 1 <? 2) with false. cbv iota.
  destruct fuel as [|fuel]; [reflexivity|].
  change (wo_loop (S fuel) (fun _ => top_draw) 0 2 0 0 0 []) with (wo_loop fuel (fun _ => top_draw) 1 2 0 1 1 [0]).
  apply wo_loop_stuck; lia.
Qed.

(** ** C45: sampling with replacement *)

(** n samples, each below end, for every end >= 1 and every conforming distribution. *)
Theorem C45_sample_with_replacement : forall pick n end_,
  (forall k a b, a <= b -> a <= pick k a b <= b) -> 0 <= n -> 1 <= end_ < 2 ^ 64 ->
  Z.of_nat (length (uniform_index_n pick n end_)) = n
  /\ forall x, In x (uniform_index_n pick n end_) -> 0 <= x < end_.
Proof.
  intros pick n end_ P Hn He. unfold uniform_index_n, sample_n, uniform_index.
  split; [rewrite map_length, seq_length; lia|].
  intros x Hx. apply in_map_iff in Hx. destruct Hx as (k & <- & _).
  rewrite CoerceProofs.w64_id by (unfold W; lia). specialize (P k 0 (end_ - 1)). lia.
Qed.
Print Assumptions C45_sample_with_replacement.
Example C45_ex : uniform_index_n (fun k a b => Z.min b (a + Z.of_nat k)) 5 3 = [0; 1; 2; 2; 2].
Proof. reflexivity. Qed.

(** The samples are the values of the distribution, one call each, in order. *)
Theorem C45_sample_order : forall (A : Type) (draws : nat -> A) n i,
  0 <= i < n -> nth_error (sample_n draws n) (Z.to_nat i) = Some (draws (Z.to_nat i)).
Proof.
  intros A draws n i H. unfold sample_n. rewrite nth_error_map.
  rewrite (nth_error_nth' (seq 0 (Z.to_nat n)) O) by (rewrite seq_length; lia).
  rewrite seq_nth by lia. reflexivity.
Qed.
Print Assumptions C45_sample_order.

(** From an empty set of indices, end = 0, an index is returned nevertheless. *)
Theorem C45_empty_refuted : exists (pick : nat -> Z -> Z -> Z) x,
  (forall k a b, a <= b -> a <= pick k a b <= b) /\ uniform_index_n pick 1 0 = [x] /\ ~ x < 0.
Proof. exists (fun _ a _ => a), 0. split; [intros; lia|]. split; [reflexivity|lia]. Qed.
