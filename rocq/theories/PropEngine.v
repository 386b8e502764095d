(** * PropEngine: C59, samples are determined by the engine. *)

From Coq Require Import ZArith List Bool Lia Floats.SpecFloat.
From Verif Require Import Base Coerce Random RandomSpec Engine.
Import ListNotations.
Open Scope Z_scope.

Lemma collect_draws {G D A} (dist : D -> G -> A * (D * G)) : forall n fuel d g acc, (n <= fuel)%nat ->
  collect dist fuel (GView n None d g) acc =
  Ok (acc ++ fst (draw_n dist n d g), GView 0 None (fst (snd (draw_n dist n d g))) (snd (snd (draw_n dist n d g)))).
Proof.
  induction n as [|n IH]; intros fuel d g acc F.
  - destruct fuel; cbn; now rewrite app_nil_r.
  - destruct fuel as [|fuel]; [lia|]. cbn [collect left_ draw_n]. unfold gread. cbn [cur gd gg left_]. destruct (dist d g) as [x [d1 g1]] eqn:E. cbn [fst snd].
    unfold gnext. cbn [cur gd gg left_ pred]. rewrite IH by lia. destruct (draw_n dist n d1 g1) as [l [d2 g2]]. cbn [fst snd]. now rewrite <- app_assoc.
Qed.

(** sample(n, dist, g) draws exactly n values, one after the other, and leaves the distribution and the engine where n
    single samples leave them. *)
Theorem C59_sample : forall (G D A : Type) (dist : D -> G -> A * (D * G)) n fuel d g, 0 <= n -> (Z.to_nat n <= fuel)%nat ->
  sample_vec dist fuel n d g = Ok (draw_n dist (Z.to_nat n) d g) /\ Z.of_nat (length (fst (draw_n dist (Z.to_nat n) d g))) = n.
Proof.
  intros G D A dist n fuel d g N F. split.
  - unfold sample_vec. rewrite collect_draws by exact F. cbn. now destruct (draw_n dist (Z.to_nat n) d g) as [l [d' g']].
  - assert (L : forall k d g, length (fst (draw_n dist k d g)) = k).
    { induction k as [|k IH]; intros d0 g0; cbn; [reflexivity|]. destruct (dist d0 g0) as [x [d1 g1]]. specialize (IH d1 g1). cbn [fst snd].
      destruct (draw_n dist k d1 g1). cbn in *. now rewrite IH. }
    rewrite L. lia.
Qed.

(** One call for n + m values, or one for n and then one for m: the same values and the same states. *)
Lemma draw_app {G D A} (dist : D -> G -> A * (D * G)) : forall n m d g,
  draw_n dist (n + m) d g =
  let '(l, (d1, g1)) := draw_n dist n d g in let '(l', s) := draw_n dist m d1 g1 in (l ++ l', s).
Proof.
  induction n as [|n IH]; intros m d g; cbn [plus draw_n].
  - destruct (draw_n dist m d g). reflexivity.
  - destruct (dist d g) as [x [d1 g1]]. cbn [fst snd]. rewrite IH. destruct (draw_n dist n d1 g1) as [l [d2 g2]]. destruct (draw_n dist m d2 g2) as [l' s]. reflexivity.
Qed.
Theorem C59_consecutive : forall (G D A : Type) (dist : D -> G -> A * (D * G)) n m fuel d g l d1 g1, 0 <= n -> 0 <= m ->
  (Z.to_nat (n + m) <= fuel)%nat -> sample_vec dist fuel n d g = Ok (l, (d1, g1)) ->
  sample_vec dist fuel (n + m) d g = let* r := sample_vec dist fuel m d1 g1 in Ok (l ++ fst r, snd r).
Proof.
  intros G D A dist n m fuel d g l d1 g1 N M F E.
  destruct (C59_sample G D A dist n fuel d g N ltac:(lia)) as [E1 _]. destruct (C59_sample G D A dist (n + m) fuel d g ltac:(lia) F) as [E2 _].
  destruct (C59_sample G D A dist m fuel d1 g1 M ltac:(lia)) as [E3 _]. rewrite E1 in E. injection E as E. rewrite E2, E3. cbn [bindO].
  replace (Z.to_nat (n + m)) with (Z.to_nat n + Z.to_nat m)%nat by lia. rewrite draw_app, E. destruct (draw_n dist (Z.to_nat m) d1 g1). reflexivity.
Qed.

(** Sampling without replacement sees the engine only through the sequence of its draws, uses as many as it reports, and leaves the engine after
    the last one used: C40 and C51, which speak about sequences of draws, apply, and a second sample uses the draws that follow. *)
Lemma wo_engine {G} (canon : G -> spec_float * G) : forall fuel g0 k n end_ t m acc,
  wo_loop_g canon fuel (engine_after canon k g0) n end_ t m acc =
  let* r := wo_loop fuel (nth_draw canon g0) k n end_ t m acc in Ok (fst r, engine_after canon (snd r) g0).
Proof.
  assert (S1 : forall k g, snd (canon (engine_after canon k g)) = engine_after canon (S k) g).
  { induction k as [|k IH]; intros g; [reflexivity|]. cbn [engine_after] in *. apply IH. }
  induction fuel as [|fuel IH]; intros g0 k n end_ t m acc; cbn [wo_loop_g wo_loop]; destruct (m <? n); cbn [bindO fst snd]; try reflexivity.
  unfold nth_draw at 1. specialize (S1 k g0). destruct (canon (engine_after canon k g0)) as [u g'] eqn:E. cbn [fst snd] in *. rewrite S1.
  destruct (select n end_ t m u); apply IH.
Qed.
Theorem C59_without_replacement : forall (G : Type) (canon : G -> spec_float * G) fuel g n end_,
  sample_wo canon fuel g n end_ =
  let* r := sample_without_replacement fuel (nth_draw canon g) n end_ in Ok (fst r, engine_after canon (snd r) g).
Proof.
  intros G canon fuel g n end_. unfold sample_wo, sample_without_replacement. destruct (2 ^ 60 - 1 <? n); [reflexivity|].
  apply (wo_engine canon fuel g 0).
Qed.
(** The draws of the engine that is left are the later draws. *)
Theorem C59_later_draws : forall (G : Type) (canon : G -> spec_float * G) g k j, nth_draw canon (engine_after canon k g) j = nth_draw canon g (k + j).
Proof.
  intros G canon g k j. unfold nth_draw. f_equal. f_equal. revert g. induction k as [|k IH]; intros g; [reflexivity|]. cbn [engine_after plus]. apply IH.
Qed.

(** A counter as engine, a running sum as distribution; and an engine that draws 1/2 and 0 by turns. *)
Example C59_ex : let dist := fun (d : Z) (g : Z) => (d + g, (d + g, g + 1)) in let half := S754_finite false 4503599627370496 (-53) in
  sample_vec dist 5 3 0 10 = Ok ([10; 21; 33], (33, 13)) /\ sample_vec dist 5 2 33 13 = Ok ([46; 60], (60, 15)) /\
  sample_vec dist 5 5 0 10 = Ok ([10; 21; 33; 46; 60], (60, 15)) /\
  sample_wo (fun b : bool => (if b then half else dbl 0, negb b)) 5 true 2 5 = Ok ([1; 3], true).
Proof. vm_compute. auto. Qed.

Print Assumptions C59_sample.
Print Assumptions C59_consecutive.
Print Assumptions C59_without_replacement.
Print Assumptions C59_later_draws.
