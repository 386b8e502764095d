(** * MtProofs: the engine computes the words and the outputs of the standard. *)

From Coq Require Import ZArith List Bool Lia.
From Verif Require Import Base LifeProofs Mt MtSpec.
Import ListNotations.
Open Scope Z_scope.

Definition word (z : Z) : Prop := 0 <= z < 2 ^ 32.

(** *** bits *)
Lemma word_lxor a b : word a -> word b -> word (Z.lxor a b).
Proof.
  unfold word. intros A B. split; [apply Z.lxor_nonneg; lia|].
  destruct (Z.eq_dec (Z.lxor a b) 0) as [->|N]; [lia|]. apply Z.log2_lt_pow2; [pose proof (proj2 (Z.lxor_nonneg a b)); lia|].
  eapply Z.le_lt_trans; [apply Z.log2_lxor; lia|]. apply Z.max_lub_lt.
  - destruct (Z.eq_dec a 0) as [->|]; [reflexivity|apply Z.log2_lt_pow2; lia].
  - destruct (Z.eq_dec b 0) as [->|]; [reflexivity|apply Z.log2_lt_pow2; lia].
Qed.
Lemma word_shiftr a n : word a -> 0 <= n -> word (Z.shiftr a n).
Proof.
  unfold word. intros A N. rewrite Z.shiftr_div_pow2 by lia. assert (0 < 2 ^ n) by (apply Z.pow_pos_nonneg; lia).
  split; [apply Z.div_pos; lia|]. apply Z.le_lt_trans with a; [|lia]. apply Z.div_le_upper_bound; nia.
Qed.
Lemma word_high a n : word a -> 32 <= n -> Z.testbit a n = false.
Proof.
  intros [A B] N. destruct (Z.eq_dec a 0) as [->|]; [apply Z.bits_0|]. apply Z.bits_above_log2; [lia|].
  apply Z.lt_le_trans with 32; [apply Z.log2_lt_pow2; lia|lia].
Qed.
Lemma word_land a b : 0 <= a -> word b -> word (Z.land a b).
Proof.
  intros A B. split; [apply Z.land_nonneg; left; lia|].
  destruct (Z.eq_dec (Z.land a b) 0) as [->|N]; [reflexivity|]. assert (0 <= Z.land a b) by (apply Z.land_nonneg; left; lia).
  apply Z.log2_lt_pow2; [lia|]. eapply Z.le_lt_trans; [apply Z.log2_land; unfold word in B; lia|].
  apply Z.min_lt_iff. right. unfold word in B. destruct (Z.eq_dec b 0) as [->|]; [reflexivity|apply Z.log2_lt_pow2; lia].
Qed.

Lemma join a b : word a -> word b ->
  Z.lor (Z.land a upper_mask) (Z.land b lower_mask) = (a / 2 ^ 31) * 2 ^ 31 + b mod 2 ^ 31.
Proof.
  intros A B.
  assert (E1 : Z.land a upper_mask = Z.shiftl (Z.shiftr a 31) 31).
  { apply Z.bits_inj'. intros n N. rewrite Z.land_spec. change upper_mask with (Z.shiftl (Z.ones 33) 31).
    destruct (Z_lt_ge_dec n 31) as [L|L].
    - rewrite !Z.shiftl_spec_low by lia. apply andb_false_r.
    - rewrite !Z.shiftl_spec_high by lia. rewrite Z.shiftr_spec by lia. replace (n - 31 + 31) with n by lia.
      destruct (Z_lt_ge_dec n 64).
      + rewrite Z.ones_spec_low by lia. apply andb_true_r.
      + rewrite (word_high a n) by (auto; lia). reflexivity. }
  assert (E2 : Z.land b lower_mask = b mod 2 ^ 31) by (change lower_mask with (Z.ones 31); apply Z.land_ones; lia).
  rewrite E1, E2, Z.shiftl_mul_pow2, Z.shiftr_div_pow2 by lia.
  rewrite <- Z.lxor_lor, <- Z.add_nocarry_lxor; trivial.
  all: apply Z.bits_inj'; intros n N; rewrite Z.land_spec, Z.bits_0, <- Z.shiftl_mul_pow2 by lia;
    (destruct (Z_lt_ge_dec n 31) as [L|L]; [rewrite Z.shiftl_spec_low by lia; reflexivity|rewrite Z.mod_pow2_bits_high by lia; apply andb_false_r]).
Qed.

Lemma join_word a b : word a -> word b -> word ((a / 2 ^ 31) * 2 ^ 31 + b mod 2 ^ 31).
Proof.
  unfold word. intros A B. pose proof (Z.mod_pos_bound b (2 ^ 31) eq_refl). pose proof (Z.mul_div_le a (2 ^ 31) eq_refl).
  assert (0 <= a / 2 ^ 31 < 2) by (split; [apply Z.div_pos; lia|apply Z.div_lt_upper_bound; lia]). nia.
Qed.

(** The value stored by one step. *)
Lemma step_value a b c : word a -> word b -> word c ->
  let y := Z.lor (Z.land a upper_mask) (Z.land b lower_mask) in
  Z.lxor (Z.lxor c (Z.shiftr y 1)) (if Z.land y 1 =? 0 then 0 else 2567483615) = twisted a b c /\ word (twisted a b c).
Proof.
  intros A B C. cbv zeta. rewrite (join a b A B). pose proof (join_word a b A B) as J. unfold twisted.
  set (y := a / 2 ^ 31 * 2 ^ 31 + b mod 2 ^ 31) in *.
  assert (H : word (y / 2)) by (change (y / 2) with (y / 2 ^ 1); rewrite <- Z.shiftr_div_pow2 by lia; apply word_shiftr; [auto|lia]).
  assert (W : word 2567483615) by (unfold word; lia).
  rewrite Z.shiftr_div_pow2 by lia. change (2 ^ 1) with 2.
  change (Z.land y 1) with (Z.land y (Z.ones 1)). rewrite Z.land_ones by lia. change (2 ^ 1) with 2. rewrite Zmod_odd.
  destruct (Z.odd y); cbn [Z.eqb].
  - split; [rewrite Z.lxor_assoc; reflexivity|]. auto using word_lxor.
  - split; [apply Z.lxor_0_r|]. auto using word_lxor.
Qed.

Lemma shl_mask z n b : word z -> 0 <= n <= 32 -> word b -> Z.land (w64 (Z.shiftl z n)) b = Z.land (z * 2 ^ n mod 2 ^ 32) b.
Proof.
  intros Z1 N B. rewrite Z.shiftl_mul_pow2 by lia. apply Z.bits_inj'. intros k K. rewrite !Z.land_spec.
  destruct (Z_lt_ge_dec k 32).
  - unfold w64. change W with (2 ^ 64). rewrite !Z.mod_pow2_bits_low by lia. reflexivity.
  - rewrite (word_high b k) by (auto; lia). rewrite !andb_false_r. reflexivity.
Qed.
Lemma temper_value z : word z -> mt_temper z = tempered z /\ word (tempered z).
Proof.
  intros Wz. unfold mt_temper, tempered.
  assert (E1 : Z.land (Z.shiftr z 11) 4294967295 = z / 2 ^ 11).
  { change 4294967295 with (Z.ones 32). rewrite Z.land_ones, Z.mod_small; [apply Z.shiftr_div_pow2; lia| |lia].
    apply word_shiftr; [auto|lia]. }
  rewrite E1. cbv zeta. assert (W1 : word (Z.lxor z (z / 2 ^ 11))).
  { rewrite <- E1. apply word_lxor; [auto|]. apply word_land; [apply Z.shiftr_nonneg; unfold word in Wz; lia|unfold word; lia]. }
  set (z1 := Z.lxor z (z / 2 ^ 11)) in *.
  rewrite (shl_mask z1 7) by (auto; unfold word; lia).
  assert (W2 : word (Z.lxor z1 (Z.land (z1 * 2 ^ 7 mod 2 ^ 32) 2636928640))).
  { apply word_lxor; [auto|]. apply word_land; [apply Z.mod_pos_bound; reflexivity|unfold word; lia]. }
  set (z2 := Z.lxor z1 _) in *.
  rewrite (shl_mask z2 15) by (auto; unfold word; lia).
  assert (W3 : word (Z.lxor z2 (Z.land (z2 * 2 ^ 15 mod 2 ^ 32) 4022730752))).
  { apply word_lxor; [auto|]. apply word_land; [apply Z.mod_pos_bound; reflexivity|unfold word; lia]. }
  set (z3 := Z.lxor z2 _) in *.
  rewrite <- Z.shiftr_div_pow2 by lia. split; [reflexivity|]. apply word_lxor; [auto|]. apply word_shiftr; [auto|lia].
Qed.

(** *** one block of 624 words from the block before *)
Lemma nth_upd_eq x k v : (k < length x)%nat -> nth k (upd_nat x k v) 0 = v.
Proof. intros H. apply nth_error_nth. apply nth_error_upd_eq. exact H. Qed.
Lemma nth_upd_ne x k i v : i <> k -> nth i (upd_nat x k v) 0 = nth i x 0.
Proof.
  intros H. pose proof (nth_error_upd_ne x k i v (not_eq_sym H)) as E. rewrite !nth_default_eq || idtac.
  destruct (nth_error x i) eqn:F.
  - rewrite (nth_error_nth _ _ _ E), (nth_error_nth _ _ _ F). reflexivity.
  - apply nth_error_None in E, F. rewrite !nth_overflow by assumption. reflexivity.
Qed.
Lemma upd_length (x : list Z) k v : length (upd_nat x k v) = length x.
Proof. revert k; induction x as [|a x IH]; intros [|k]; cbn; auto. Qed.

Section Block.
Variable N : nat.
Variable x0 : list Z.
(** [x] is the block [x0] with its first [k] words replaced. *)
Definition replaced (k : nat) (x : list Z) : Prop :=
  length x = N /\ Forall word x
  /\ (forall i, (k <= i)%nat -> nth i x 0 = nth i x0 0)
  /\ (forall i, (i < k)%nat -> nth i x 0 = twisted (nth i x0 0) (if (i + 1 <? N)%nat then nth (i + 1) x0 0 else nth 0 x 0)
                                 (if (i + 397 <? N)%nat then nth (i + 397) x0 0 else nth (i + 397 - N) x 0)).
Lemma word_nth x i : Forall word x -> word (nth i x 0).
Proof.
  intros F. destruct (Nat.lt_ge_cases i (length x)).
  - rewrite Forall_forall in F. apply F. apply nth_In. assumption.
  - rewrite nth_overflow by assumption. unfold word. lia.
Qed.
Lemma Forall_upd x k v : Forall word x -> word v -> Forall word (upd_nat x k v).
Proof. intros F W. revert k. induction F; intros [|k]; cbn; constructor; auto. Qed.
Lemma replaced_step k x k1 j : (397 < N)%nat -> replaced k x -> (k < N)%nat ->
  k1 = (if (k + 1 <? N)%nat then (k + 1)%nat else 0%nat) -> j = (if (k + 397 <? N)%nat then (k + 397)%nat else (k + 397 - N)%nat) ->
  replaced (S k) (gen_step x k k1 j).
Proof.
  intros Big (L & F & U & D) K -> ->. unfold gen_step. cbv zeta.
  destruct (step_value (nth k x 0) (nth (if (k + 1 <? N)%nat then (k + 1)%nat else 0%nat) x 0)
              (nth (if (k + 397 <? N)%nat then (k + 397)%nat else (k + 397 - N)%nat) x 0)) as [E W]; try (apply word_nth; exact F).
  rewrite E. set (v := twisted _ _ _) in *. split; [rewrite upd_length; exact L|]. split; [apply Forall_upd; auto|]. split.
  - intros i Hi. rewrite nth_upd_ne by lia. apply U. lia.
  - intros i Hi. destruct (Nat.eq_dec i k) as [->|Ne].
    + rewrite nth_upd_eq by lia. unfold v. rewrite (U k) by lia.
      destruct (Nat.ltb_spec (k + 1) N), (Nat.ltb_spec (k + 397) N); try lia.
      * rewrite !U by lia. reflexivity.
      * rewrite (U (k + 1)%nat) by lia. rewrite (nth_upd_ne x k (k + 397 - N)) by lia. reflexivity.
      * rewrite (nth_upd_ne x k 0) by lia. rewrite (nth_upd_ne x k (k + 397 - N)) by lia. reflexivity.
    + rewrite nth_upd_ne by lia. rewrite D by lia. destruct (Nat.ltb_spec (i + 1) N); [|lia].
      destruct (Nat.ltb_spec (i + 397) N); [reflexivity|]. rewrite nth_upd_ne by lia. reflexivity.
Qed.
Lemma replaced_fold f c : forall a x, (397 < N)%nat -> replaced a x -> (a + c <= N)%nat ->
  (forall x k, (a <= k < a + c)%nat -> f x k = gen_step x k (if (k + 1 <? N)%nat then (k + 1)%nat else 0%nat) (if (k + 397 <? N)%nat then (k + 397)%nat else (k + 397 - N)%nat)) ->
  replaced (a + c) (fold_left f (seq a c) x).
Proof.
  induction c as [|c IH]; intros a x Big R L E; cbn [seq fold_left].
  - replace (a + 0)%nat with a by lia. exact R.
  - replace (a + S c)%nat with (S a + c)%nat by lia. apply IH; [exact Big| |lia|intros; apply E; lia].
    rewrite E by lia. apply replaced_step; auto. lia.
Qed.
End Block.

Lemma gen_rand_replaced x : length x = 624%nat -> Forall word x -> replaced 624 x 624 (gen_rand x).
Proof.
  intros L F. unfold gen_rand.
  assert (R0 : replaced 624 x 0 x) by (repeat split; auto; lia).
  assert (R1 : replaced 624 x 227 (fold_left (fun x k => gen_step x k (k + 1) (k + 397)) (seq 0 227) x)).
  { apply (replaced_fold 624 x _ 227 0 x); [lia|exact R0|lia|]. intros y k K.
    destruct (Nat.ltb_spec (k + 1) 624); [|lia]. destruct (Nat.ltb_spec (k + 397) 624); [reflexivity|lia]. }
  set (x1 := fold_left _ _ _) in *. clearbody x1.
  assert (R2 : replaced 624 x 623 (fold_left (fun x k => gen_step x k (k + 1) (k - 227)) (seq 227 396) x1)).
  { apply (replaced_fold 624 x _ 396 227 x1); [lia|exact R1|lia|]. intros y k K.
    destruct (Nat.ltb_spec (k + 1) 624); [|lia]. destruct (Nat.ltb_spec (k + 397) 624); [lia|]. f_equal. lia. }
  set (x2 := fold_left _ _ _) in *. clearbody x2.
  apply (replaced_step 624 x 623 x2 0 396); [lia|exact R2|lia|reflexivity|reflexivity].
Qed.

(** *** the sequence *)
Fixpoint block (sd : Z) (q : nat) : list Z := match q with O => words (mt_seed sd) | S q' => gen_rand (block sd q') end.
Lemma seed_words_length k : forall i p, length (seed_words k i p) = k.
Proof. induction k; intros; cbn [seed_words length]; auto. Qed.
Lemma seed_words_word k : forall i p, Forall word (seed_words k i p).
Proof. induction k; intros; cbn [seed_words]; constructor; auto. apply Z.mod_pos_bound. reflexivity. Qed.
Lemma seed_length sd : length (words (mt_seed sd)) = 624%nat.
Proof. unfold mt_seed. cbv zeta. cbn [words]. change (S (length (seed_words 623 1 (sd mod 2 ^ 32))) = 624%nat). rewrite seed_words_length. reflexivity. Qed.
Lemma seed_word sd : Forall word (words (mt_seed sd)).
Proof. unfold mt_seed. cbv zeta. cbn [words]. constructor; [apply Z.mod_pos_bound; reflexivity|apply seed_words_word]. Qed.
Lemma block_S sd q : block sd (S q) = gen_rand (block sd q). Proof. reflexivity. Qed.
Lemma block_ok sd q : length (block sd q) = 624%nat /\ Forall word (block sd q).
Proof.
  induction q as [|q [L F]]; [split; [apply seed_length|apply seed_word]|].
  rewrite block_S. destruct (gen_rand_replaced _ L F) as (A & B & _). auto.
Qed.
Lemma nth_cons_S (p : Z) l j : nth (S j) (p :: l) 0 = nth j l 0. Proof. reflexivity. Qed.
Definition X (sd : Z) (i : nat) : Z := nth (i mod 624) (block sd (i / 624)) 0.
Lemma X_at sd q r : (r < 624)%nat -> X sd (q * 624 + r) = nth r (block sd q) 0.
Proof.
  intros H. unfold X. rewrite Nat.add_comm, Nat.mod_add by lia. rewrite Nat.mod_small by lia.
  rewrite Nat.div_add by lia. rewrite Nat.div_small by lia. reflexivity.
Qed.
Lemma X_word sd i : word (X sd i).
Proof. apply word_nth. apply block_ok. Qed.
Lemma seed_words_nth k : forall i p (j : nat), (j < k)%nat ->
  nth j (seed_words k i p) 0 =
  (w64 (w64 (Z.lxor (nth j (p :: seed_words k i p) 0) (Z.shiftr (nth j (p :: seed_words k i p) 0) 30) * 1812433253) + (i + Z.of_nat j) mod 624)) mod 2 ^ 32.
Proof.
  induction k as [|k IH]; intros i p j H; [lia|]. cbn [seed_words]. destruct j as [|j].
  - cbn [nth]. change (Z.of_nat 0) with 0. rewrite Z.add_0_r. reflexivity.
  - cbn [nth]. rewrite IH by lia. replace (i + 1 + Z.of_nat j) with (i + Z.of_nat (S j)) by lia. reflexivity.
Qed.
Lemma w64_mod32 a b : (w64 (w64 a + b)) mod 2 ^ 32 = (a + b) mod 2 ^ 32.
Proof.
  unfold w64. change W with (2 ^ 32 * 2 ^ 32). rewrite (Z.rem_mul_r (_ + _)) by lia.
  rewrite (Z.mul_comm (2 ^ 32) (_ mod _)), Z.mod_add, Zmod_mod by lia.
  rewrite Z.rem_mul_r by lia. rewrite Zplus_mod. rewrite (Z.mul_comm (2 ^ 32) ((a / _) mod _)), Z.mod_add, Zmod_mod by lia.
  rewrite <- Zplus_mod. reflexivity.
Qed.
Theorem X_words sd : mt_words sd (X sd).
Proof.
  split; [|split].
  - change 0%nat with (0 * 624 + 0)%nat. rewrite X_at by lia. reflexivity.
  - intros i H.
    assert (G : forall j, (j < 624)%nat -> X sd j = nth j (block sd 0) 0) by (intros j J; exact (X_at sd 0 j J)).
    rewrite !G by lia. cbn [block]. unfold mt_seed. cbv zeta. cbn [words]. destruct i as [|j]; [lia|].
    replace (S j - 1)%nat with j by lia.
    rewrite nth_cons_S.
    rewrite seed_words_nth by lia. set (p := nth j _ 0). rewrite w64_mod32.
    rewrite Z.shiftr_div_pow2 by lia. rewrite (Z.mod_small (1 + _)) by lia. f_equal. lia.
  - intros i. set (q := (i / 624)%nat). set (r := (i mod 624)%nat).
    assert (Ei : i = (q * 624 + r)%nat) by (unfold q, r; rewrite Nat.mul_comm; apply Nat.div_mod; lia).
    assert (Hr : (r < 624)%nat) by (apply Nat.mod_upper_bound; lia). clearbody q r. subst i.
    destruct (block_ok sd q) as [L F]. destruct (gen_rand_replaced _ L F) as (_ & _ & _ & D).
    rewrite <- block_S in D. specialize (D r Hr).
    replace (q * 624 + r + 624)%nat with (S q * 624 + r)%nat by lia. rewrite (X_at sd (S q) r Hr), D, (X_at sd q r Hr). f_equal.
    + destruct (Nat.ltb_spec (r + 1) 624).
      * replace (q * 624 + r + 1)%nat with (q * 624 + (r + 1))%nat by lia. rewrite X_at by lia. reflexivity.
      * replace (q * 624 + r + 1)%nat with (S q * 624 + 0)%nat by lia. rewrite X_at by lia. reflexivity.
    + destruct (Nat.ltb_spec (r + 397) 624).
      * replace (q * 624 + r + 397)%nat with (q * 624 + (r + 397))%nat by lia. rewrite X_at by lia. reflexivity.
      * replace (q * 624 + r + 397)%nat with (S q * 624 + (r + 397 - 624))%nat by lia. rewrite X_at by lia. reflexivity.
Qed.

(** *** the outputs *)
Lemma after_S k : forall g, mt_after (S k) g = snd (mt_next (mt_after k g)).
Proof. induction k as [|k IH]; intros g; [reflexivity|]. cbn [mt_after] in *. rewrite <- IH. reflexivity. Qed.
Lemma next_at sd q p : (p <= 624)%nat ->
  exists q' p', mt_next (Mt (block sd q) p) = (mt_temper (X sd (q * 624 + p)), Mt (block sd q') p') /\ (p' <= 624)%nat /\ (q' * 624 + p' = q * 624 + p + 1)%nat.
Proof.
  intros H. unfold mt_next. cbn [pos words]. rewrite <- block_S. destruct (Nat.leb_spec 624 p).
  - exists (S q), 1%nat. cbn [pos words]. split; [|lia]. replace (q * 624 + p)%nat with (S q * 624 + 0)%nat by lia. rewrite X_at by lia. reflexivity.
  - exists q, (S p). cbn [pos words]. split; [|lia]. rewrite X_at by lia. reflexivity.
Qed.
Lemma after_at sd k : exists q p, mt_after k (mt_seed sd) = Mt (block sd q) p /\ (p <= 624)%nat /\ (q * 624 + p = 624 + k)%nat.
Proof.
  induction k as [|k (q & p & E & P & Q)].
  - exists 0%nat, 624%nat. split; [reflexivity|lia].
  - rewrite after_S, E. destruct (next_at sd q p P) as (q' & p' & -> & P' & Q'). exists q', p'. split; [reflexivity|lia].
Qed.
Theorem outputs_of_words sd k : mt_output sd k = tempered (X sd (624 + k)) /\ word (mt_output sd k).
Proof.
  unfold mt_output. destruct (after_at sd k) as (q & p & -> & P & Q). destruct (next_at sd q p P) as (q' & p' & -> & _).
  cbn [fst]. rewrite Q. destruct (temper_value (X sd (624 + k)) (X_word _ _)) as [-> W]. auto.
Qed.
(** The sequence of words is determined by the seed. *)
Lemma words_unique sd X1 X2 : mt_words sd X1 -> mt_words sd X2 -> forall n i, (i < n)%nat -> X1 i = X2 i.
Proof.
  intros (A0 & A1 & A2) (B0 & B1 & B2). induction n as [|n IH]; intros i H; [lia|].
  destruct (Nat.eq_dec i 0) as [->|]; [congruence|].
  destruct (Nat.lt_ge_cases i 624).
  - rewrite A1, B1 by lia. rewrite (IH (i - 1)%nat) by lia. reflexivity.
  - replace i with (i - 624 + 624)%nat by lia. rewrite A2, B2. rewrite !IH by lia. reflexivity.
Qed.
