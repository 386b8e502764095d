(** * DistCount: counting sequences of outputs. *)

From Coq Require Import ZArith List Bool Lia.
From Verif Require Import Base Spec Lemmas Dist DistSpec.
Import ListNotations.
Open Scope Z_scope.

(** ** sums over lists *)
Fixpoint sum {A} (f : A -> Z) (l : list A) : Z := match l with [] => 0 | x :: l' => f x + sum f l' end.
Definition ind (b : bool) : Z := if b then 1 else 0.
Lemma count_sum {A} (P : A -> bool) l : count P l = sum (fun x => ind (P x)) l.
Proof. induction l as [|x l IH]; cbn; [reflexivity|]. now rewrite IH. Qed.
Lemma sum_app {A} (f : A -> Z) l l' : sum f (l ++ l') = sum f l + sum f l'.
Proof. induction l as [|x l IH]; cbn; [reflexivity|]. rewrite IH. lia. Qed.
Lemma sum_map {A B} (g : B -> A) (f : A -> Z) l : sum f (map g l) = sum (fun x => f (g x)) l.
Proof. induction l as [|x l IH]; cbn; [reflexivity|]. now rewrite IH. Qed.
Lemma sum_flat_map {A B} (g : B -> list A) (f : A -> Z) l : sum f (flat_map g l) = sum (fun x => sum f (g x)) l.
Proof. induction l as [|x l IH]; cbn; [reflexivity|]. now rewrite sum_app, IH. Qed.
Lemma sum_ext {A} (f g : A -> Z) l : (forall x, In x l -> f x = g x) -> sum f l = sum g l.
Proof. induction l as [|x l IH]; cbn; intros H; [reflexivity|]. rewrite H by now left. rewrite IH; [reflexivity|]. intros; apply H; now right. Qed.
Lemma sum_add {A} (f g : A -> Z) l : sum (fun x => f x + g x) l = sum f l + sum g l.
Proof. induction l as [|x l IH]; cbn; [reflexivity|]. rewrite IH. lia. Qed.
Lemma sum_scal {A} c (f : A -> Z) l : sum (fun x => c * f x) l = c * sum f l.
Proof. induction l as [|x l IH]; cbn; [lia|]. rewrite IH. lia. Qed.
Lemma sum_const {A} c (l : list A) : sum (fun _ => c) l = Z.of_nat (length l) * c.
Proof. induction l as [|x l IH]; cbn [sum length]; [lia|]. rewrite IH. lia. Qed.
Lemma sum_zero {A} (f : A -> Z) l : (forall x, In x l -> f x = 0) -> sum f l = 0.
Proof. intros H. rewrite (sum_ext f (fun _ => 0)) by exact H. rewrite sum_const. lia. Qed.
Lemma sum_nonneg {A} (f : A -> Z) l : (forall x, In x l -> 0 <= f x) -> 0 <= sum f l.
Proof. induction l as [|x l IH]; cbn; intros H; [lia|]. specialize (H x ltac:(now left)) as Hx. assert (0 <= sum f l) by (apply IH; intros; apply H; now right). lia. Qed.
Lemma sum_le {A} (f g : A -> Z) l : (forall x, In x l -> f x <= g x) -> sum f l <= sum g l.
Proof. induction l as [|x l IH]; cbn; intros H; [lia|]. specialize (H x ltac:(now left)) as Hx. assert (sum f l <= sum g l) by (apply IH; intros; apply H; now right). lia. Qed.
Lemma sum_swap {A B} (f : A -> B -> Z) l l' : sum (fun x => sum (f x) l') l = sum (fun y => sum (fun x => f x y) l) l'.
Proof.
  induction l as [|x l IH]; cbn [sum]. { symmetry. apply sum_zero. reflexivity. }
  rewrite IH. rewrite <- sum_add. reflexivity.
Qed.

(** Numbers of [iota M] below a bound, in an interval. *)
Lemma count_below M T : 0 <= T <= M -> sum (fun N => ind (N <? T)) (iota M) = T.
Proof.
  intros H. replace M with (T + (M - T)) by lia. rewrite iota_app, sum_app, sum_map by lia.
  rewrite (sum_ext _ (fun _ => 1)). 2:{ intros x Hx. rewrite in_iota in Hx. unfold ind. destruct (Z.ltb_spec x T); lia. }
  rewrite sum_const, iota_length. rewrite sum_zero. { lia. } intros x Hx. rewrite in_iota in Hx. unfold ind. destruct (Z.ltb_spec (T + x) T); lia.
Qed.
Lemma count_interval M a b : 0 <= a <= b -> b <= M -> sum (fun N => ind ((a <=? N) && (N <? b))) (iota M) = b - a.
Proof.
  intros H H'. rewrite <- (count_below M b ltac:(lia)), <- (count_below M a ltac:(lia)) at 1.
  replace (sum (fun N => ind (N <? b)) (iota M)) with (sum (fun N => ind ((a <=? N) && (N <? b)) + ind (N <? a)) (iota M)).
  { rewrite sum_add. rewrite (count_below M a) by lia. lia. }
  apply sum_ext. intros x Hx. unfold ind. destruct (Z.leb_spec a x), (Z.ltb_spec x b), (Z.ltb_spec x a); cbn; lia.
Qed.
Lemma count_eq M v : 0 <= v < M -> sum (fun N => ind (N =? v)) (iota M) = 1.
Proof.
  intros H. replace 1 with (v + 1 - v) by lia. rewrite <- (count_interval M v (v + 1)) by lia. apply sum_ext. intros x Hx. unfold ind.
  destruct (Z.eqb_spec x v), (Z.leb_spec v x), (Z.ltb_spec x (v + 1)); cbn; lia.
Qed.

Local Opaque iota.
(** ** sequences *)
Lemma sum_seq f n : sum f (sequences (S n)) = sum (fun x => sum (fun s => f (x :: s)) (sequences n)) (iota (2 ^ 32)).
Proof. cbn [sequences]. rewrite sum_flat_map. apply sum_ext. intros x _. now rewrite sum_map. Qed.
Lemma seq_total n : Z.of_nat (length (sequences n)) = 2 ^ (32 * Z.of_nat n).
Proof.
  rewrite <- (Z.mul_1_r (Z.of_nat _)), <- sum_const. induction n as [|n IH]; [reflexivity|]. rewrite sum_seq, IH, sum_const, iota_length.
  rewrite Z2Nat.id by lia. rewrite <- Z.pow_add_r by lia. f_equal. lia.
Qed.
Lemma seq_outputs n s : In s (sequences n) <-> length s = n /\ outputs s.
Proof.
  revert s. induction n as [|n IH]; intros s.
  { cbn. split; [intros [<-|[]]; split; [reflexivity|constructor]|]. intros [H _]. destruct s; [now left|discriminate]. }
  cbn [sequences]. rewrite in_flat_map. split.
  - intros (x & Hx & Hs). apply in_map_iff in Hs. destruct Hs as (s' & <- & Hs'). apply IH in Hs'. destruct Hs' as [L O']. rewrite in_iota in Hx.
    split; [cbn; lia|]. constructor; assumption.
  - intros [L O']. destruct s as [|x s]; [discriminate|]. inversion O'; subst. exists x. split; [now rewrite in_iota|]. apply in_map. apply IH. split; [cbn in L; lia|assumption].
Qed.

(** Splitting a sequence. *)
Lemma sum_split f g j n : (j <= n)%nat ->
  sum (fun s => f (firstn j s) * g (skipn j s)) (sequences n) = sum f (sequences j) * sum g (sequences (n - j)).
Proof.
  revert f n. induction j as [|j IH]; intros f n H.
  { cbn [firstn skipn]. rewrite sum_scal. cbn. rewrite Nat.sub_0_r. lia. }
  destruct n as [|n]; [lia|]. rewrite !sum_seq. cbn [firstn skipn Nat.sub].
  rewrite (sum_ext _ (fun x => sum g (sequences (n - j)) * sum (fun s => f (x :: s)) (sequences j))).
  { rewrite sum_scal. lia. }
  intros x _. rewrite (IH (fun s => f (x :: s)) n) by lia. lia.
Qed.

(** ** samplers that read a prefix of the outputs *)
Definition prefix_reader {A} (D : list Z -> outcome (A * list Z)) : Prop :=
  forall s v r, D s = Ok (v, r) -> exists p, s = p ++ r /\ forall r', D (p ++ r') = Ok (v, r').

Definition used {A} (eqb : A -> A -> bool) (v : A) (D : list Z -> outcome (A * list Z)) (s : list Z) : Z := ind (yields eqb v (D s)).

(** At most one prefix of a sequence is read. *)
Lemma reader_unique {A} (D : list Z -> outcome (A * list Z)) s v v' j j' : prefix_reader D -> (j <= length s)%nat -> (j' <= length s)%nat ->
  D (firstn j s) = Ok (v, []) -> D (firstn j' s) = Ok (v', []) -> j = j'.
Proof.
  intros HD Hj Hj' E E'. destruct (HD _ _ _ E) as (p & Ep & K). rewrite app_nil_r in Ep. subst p.
  destruct (HD _ _ _ E') as (p & Ep & K'). rewrite app_nil_r in Ep. subst p.
  specialize (K (skipn j s)). specialize (K' (skipn j' s)). rewrite firstn_skipn in K, K'. rewrite K in K'. injection K' as _ Hs.
  apply (f_equal (@length Z)) in Hs. rewrite !skipn_length in Hs. lia.
Qed.

Lemma sum_unique (f : nat -> Z) m i : (i < m)%nat -> (forall j, (j < m)%nat -> j <> i -> f j = 0) -> sum f (seq 0 m) = f i.
Proof.
  intros Hi H. assert (E : seq 0 m = seq 0 i ++ i :: seq (S i) (m - S i)). { replace m with (i + S (m - S i))%nat at 1 by lia. rewrite seq_app. reflexivity. }
  rewrite E, sum_app. cbn [sum]. rewrite !sum_zero; [lia| |]; intros x Hx; apply in_seq in Hx; apply H; lia.
Qed.

(** One sampler after the other: the numbers of sequences convolve. *)
Definition then_ {A B} (D : list Z -> outcome (A * list Z)) (E : list Z -> outcome (B * list Z)) (s : list Z) : outcome ((A * B) * list Z) :=
  let* r := D s in let* r' := E (snd r) in Ok ((fst r, fst r'), snd r').
Definition peqb {A B} (ea : A -> A -> bool) (eb : B -> B -> bool) (x y : A * B) : bool := ea (fst x) (fst y) && eb (snd x) (snd y).

Lemma convolve {A B} ea eb (D : list Z -> outcome (A * list Z)) (E : list Z -> outcome (B * list Z)) v w n : prefix_reader D -> prefix_reader E ->
  sum (used (peqb ea eb) (v, w) (then_ D E)) (sequences n) = sum (fun j => sum (used ea v D) (sequences j) * sum (used eb w E) (sequences (n - j))) (seq 0 (S n)).
Proof.
  intros HD HE. rewrite (sum_ext (fun j => _ * _) (fun j => sum (fun s => used ea v D (firstn j s) * used eb w E (skipn j s)) (sequences n))).
  2:{ intros j Hj. apply in_seq in Hj. symmetry. apply sum_split. lia. }
  rewrite sum_swap. apply sum_ext. intros s Hs. rewrite seq_outputs in Hs. destruct Hs as [L _].
  assert (Sp : forall j, (j <= length s)%nat -> used ea v D (firstn j s) <> 0 -> exists x, D (firstn j s) = Ok (x, []) /\ ea x v = true).
  { intros j Hj. unfold used, yields. destruct (D (firstn j s)) as [[x [|]]| | | |]; cbn; intros H; try congruence. exists x. split; [reflexivity|]. destruct (ea x v); cbn in H; congruence. }
  assert (No : forall j, (j <= length s)%nat -> used ea v D (firstn j s) <> 0 -> exists x, D s = Ok (x, skipn j s)).
  { intros j Hj H. destruct (Sp j Hj H) as (x & E1 & _). destruct (HD _ _ _ E1) as (p & Ep & K). rewrite app_nil_r in Ep. subst p.
    exists x. specialize (K (skipn j s)). now rewrite firstn_skipn in K. }
  destruct (D s) as [[x r]| | | |] eqn:ED.
  2-5: rewrite sum_zero; [unfold used, then_; rewrite ED; reflexivity|]; intros j Hj; apply in_seq in Hj; destruct (Z.eq_dec (used ea v D (firstn j s)) 0) as [->|N]; [reflexivity|]; destruct (No j ltac:(lia) N) as (x & Ex); discriminate.
  destruct (HD _ _ _ ED) as (p & Ep & K). specialize (K []). rewrite app_nil_r in K.
  assert (Fp : firstn (length p) s = p) by (rewrite Ep, firstn_app, Nat.sub_diag, firstn_all; cbn; apply app_nil_r).
  assert (Sk : skipn (length p) s = r) by (rewrite Ep, skipn_app, Nat.sub_diag, skipn_all; reflexivity).
  assert (Lp : (length p <= length s)%nat) by (rewrite Ep, app_length; lia).
  rewrite (sum_unique _ (S n) (length p)); [|lia|].
  - rewrite Fp, Sk. unfold used, then_. rewrite ED, K. cbn [bindO fst snd yields]. destruct (E r) as [[y r2]| | | |]; try (cbn; destruct (ea x v); cbn; lia).
    unfold peqb; cbn; destruct (ea x v), (eb y w), r2; reflexivity.
  - intros j Hj Nj. destruct (Z.eq_dec (used ea v D (firstn j s)) 0) as [->|N]; [reflexivity|]. exfalso. apply Nj.
    destruct (Sp j ltac:(lia) N) as (x' & E1 & _). eapply reader_unique; [exact HD|..|exact E1|rewrite Fp; exact K]; lia.
Qed.

(** Lists of samples. *)
Lemma draws_reader {A} (D : list Z -> outcome (A * list Z)) k : prefix_reader D -> prefix_reader (draws D k).
Proof.
  intros HD. induction k as [|k IH]; intros s v r H; cbn [draws] in H.
  { injection H as <- <-. exists []. split; reflexivity. }
  destruct (D s) as [[x r1]| | | |] eqn:E1; try discriminate. cbn [bindO fst snd] in H.
  destruct (draws D k r1) as [[xs r2]| | | |] eqn:E2; try discriminate. cbn [bindO fst snd] in H. injection H as <- <-.
  destruct (HD _ _ _ E1) as (p & -> & K). destruct (IH _ _ _ E2) as (p' & -> & K'). exists (p ++ p'). split; [now rewrite app_assoc|].
  intros r'. rewrite <- app_assoc. cbn [draws]. rewrite K. cbn [bindO fst snd]. rewrite K'. reflexivity.
Qed.
Lemma draws_cons {A} eqb (D : list Z -> outcome (A * list Z)) k v vs s :
  used (list_eqb eqb) (v :: vs) (draws D (S k)) s = used (peqb eqb (list_eqb eqb)) (v, vs) (then_ D (draws D k)) s.
Proof.
  unfold used, then_. cbn [draws]. destruct (D s) as [[x r1]| | | |]; try reflexivity. cbn [bindO fst snd].
  destruct (draws D k r1) as [[xs r2]| | | |]; reflexivity.
Qed.
Lemma draws_count {A} eqb (D : list Z -> outcome (A * list Z)) k v vs n : prefix_reader D ->
  sum (used (list_eqb eqb) (v :: vs) (draws D (S k))) (sequences n)
  = sum (fun j => sum (used eqb v D) (sequences j) * sum (used (list_eqb eqb) vs (draws D k)) (sequences (n - j))) (seq 0 (S n)).
Proof. intros HD. rewrite <- convolve by (exact HD || now apply draws_reader). apply sum_ext. intros s _. apply draws_cons. Qed.
