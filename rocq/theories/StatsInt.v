(** * StatsInt: variances of integers. *)

From Coq Require Import ZArith List Bool Lia.
From Verif Require Import Base Slice Coerce Reduce Random Stats ReduceSpec StatsSpec ReduceProofs.
Import ListNotations.
Open Scope Z_scope.

Lemma mean_ty_cases t : std_ty t ->
  (mean_ty t = i64 /\ - 2 ^ 63 <= ilo t /\ ihi t < 2 ^ 63) \/ (mean_ty t = u64 /\ t = u64).
Proof.
  intros T. destruct t as [b s]. unfold std_ty in T. cbn in T.
  destruct T as [<-|[<-|[<-|[<-|[]]]]]; destruct s; try (left; split; [reflexivity|unfold ilo, ihi; cbn; lia]). right. split; reflexivity.
Qed.
Lemma ilo_neg t : std_ty t -> ilo t <= 0.
Proof. intros T. unfold ilo. destruct (signed t); [|lia]. destruct (std_bits t T). assert (0 < 2 ^ (bits t - 1)) by (apply Z.pow_pos_nonneg; lia). lia. Qed.

Lemma std_i64 : std_ty i64. Proof. unfold std_ty; cbn; auto. Qed.
Lemma std_u64 : std_ty u64. Proof. unfold std_ty; cbn; auto. Qed.

Lemma quot_bounds s n : 0 < n -> - Z.abs s <= Z.quot s n <= Z.abs s /\ (0 <= s -> 0 <= Z.quot s n).
Proof.
  intros H. destruct (Z_le_gt_dec 0 s).
  - assert (0 <= Z.quot s n) by (apply Z.quot_pos; lia). assert (Z.quot s n <= s) by (apply Z.quot_le_upper_bound; nia). lia.
  - replace s with (- (- s)) by lia. rewrite Z.quot_opp_l by lia.
    assert (0 <= Z.quot (- s) n) by (apply Z.quot_pos; lia). assert (Z.quot (- s) n <= - s) by (apply Z.quot_le_upper_bound; nia). lia.
Qed.
Lemma quot_range s n : 0 < n -> - 2 ^ 63 <= s < 2 ^ 63 -> - 2 ^ 63 <= Z.quot s n < 2 ^ 63.
Proof.
  intros H R. destruct (quot_bounds s n H) as (B & P). destruct (Z_le_gt_dec 0 s); [specialize (P ltac:(lia)); lia|].
  assert (Z.quot s n <= 0). { replace s with (- (- s)) by lia. rewrite Z.quot_opp_l by lia. assert (0 <= Z.quot (- s) n) by (apply Z.quot_pos; lia). lia. }
  lia.
Qed.

Lemma idiv_fit t s n : std_ty t -> ilo t <= s <= ihi t -> 0 < n < 2 ^ 63 -> idiv t i64 s n = Ok (Z.quot s n).
Proof.
  intros T F N. unfold idiv. change (promote i64) with i64. fold (mean_ty t).
  destruct (mean_ty_cases t T) as [(-> & L & H)|(-> & ->)].
  - rewrite !conv_i64 by lia. replace (n =? 0) with false by (symmetry; apply Z.eqb_neq; lia).
    apply arith_fit; [exact std_i64|]. pose proof (quot_range s n ltac:(lia) ltac:(lia)). unfold ilo, ihi; cbn. lia.
  - change (ilo u64) with 0 in F. change (ihi u64) with (2 ^ 64 - 1) in F. rewrite !conv_u64, !Z.mod_small by (unfold W; lia).
    replace (n =? 0) with false by (symmetry; apply Z.eqb_neq; lia). apply arith_fit; [exact std_u64|].
    destruct (quot_bounds s n ltac:(lia)) as (B & P). specialize (P ltac:(lia)). change (ilo u64) with 0. change (ihi u64) with (2 ^ 64 - 1). lia.
Qed.

Lemma sq_small d m : d * d <= m -> 0 <= m < 2 ^ 64 -> - 2 ^ 32 < d < 2 ^ 32.
Proof. intros H M. split; apply Z.nle_gt; intros C; nia. Qed.

Lemma step_fit t mu acc x : std_ty t -> ilo t <= x <= ihi t -> (exists s n, mu = Z.quot s n /\ 0 < n /\ ilo t <= s <= ihi t) ->
  0 <= acc -> acc + (x - mu) * (x - mu) <= ihi t ->
  isquare_step t mu acc x = Ok (acc + (x - mu) * (x - mu)).
Proof.
  intros T X (s & n & -> & N & S) A H. set (mu := Z.quot s n) in *. unfold isquare_step.
  assert (Q0 : 0 <= (x - mu) * (x - mu)) by apply Z.square_nonneg.
  destruct (mean_ty_cases t T) as [(E & L & Hh)|(E & ->)].
  - rewrite E. assert (M := quot_range s n N ltac:(lia)). fold mu in M.
    destruct (sq_small (x - mu) (ihi t) ltac:(lia) ltac:(lia)) as (D1 & D2).
    rewrite (conv_i64 x) by lia. rewrite arith_fit; [|exact std_i64|unfold ilo, ihi; cbn; lia]. cbn [bindO].
    rewrite arith_fit; [|exact std_i64|unfold ilo, ihi in *; cbn; lia]. cbn [bindO].
    rewrite (conv_i64 acc) by lia.
    replace (common_ty (promote t) i64) with i64 by (symmetry; exact E).
    rewrite arith_fit; [|exact std_i64|unfold ilo, ihi in *; cbn; lia]. cbn [bindO]. f_equal.
    apply conv_in; [exact T|]. pose proof (ilo_neg t T). lia.
  - rewrite E. change (ilo u64) with 0 in *. change (ihi u64) with (2 ^ 64 - 1) in *.
    assert (M : 0 <= mu <= s). { destruct (quot_bounds s n N) as (B & P). specialize (P ltac:(lia)). unfold mu. lia. }
    rewrite conv_u64, (Z.mod_small x) by (unfold W; lia). unfold arith at 1. cbn [signed u64 bindO]. rewrite conv_u64.
    unfold arith at 1. cbn [signed u64 bindO]. rewrite !conv_u64.
    rewrite <- Z.mul_mod by (unfold W; lia). rewrite (Z.mod_small ((x - mu) * (x - mu))) by (unfold W; lia).
    rewrite (Z.mod_small acc) by (unfold W; lia).
    change (common_ty (promote u64) u64) with u64. rewrite arith_fit; [|exact std_u64|change (ilo u64) with 0; change (ihi u64) with (2 ^ 64 - 1); lia].
    cbn [bindO]. f_equal. apply conv_in; [exact std_u64|]. change (ilo u64) with 0; change (ihi u64) with (2 ^ 64 - 1); lia.
Qed.

Lemma deviations_cons mu x l : deviations mu (x :: l) = (x - mu) * (x - mu) + deviations mu l.
Proof. reflexivity. Qed.
Lemma deviations_nonneg mu l : 0 <= deviations mu l.
Proof. induction l as [|x l IH]; [reflexivity|]. rewrite deviations_cons. pose proof (Z.square_nonneg (x - mu)). lia. Qed.

Lemma squares_fit t mu l : std_ty t -> elements_fit t l -> (exists s n, mu = Z.quot s n /\ 0 < n /\ ilo t <= s <= ihi t) ->
  forall acc, 0 <= acc -> acc + deviations mu l <= ihi t -> foldO (isquare_step t mu) l acc = Ok (acc + deviations mu l).
Proof.
  intros T X M. induction l as [|x l IH]; intros acc A H; cbn [foldO]; [f_equal; change (deviations mu []) with 0; lia|].
  inversion X as [|? ? X1 X2]; subst. rewrite deviations_cons in *. pose proof (deviations_nonneg mu l). pose proof (Z.square_nonneg (x - mu)).
  rewrite step_fit by (auto; lia). cbn [bindO]. rewrite IH by (auto; lia). f_equal. lia.
Qed.

Theorem ivar_value t l : std_ty t -> elements_fit t l -> partial_sums_fit t l 0 -> (2 <= length l)%nat -> Z.of_nat (length l) < 2 ^ 63 ->
  let n := Z.of_nat (length l) in let mu := Z.quot (zsum l) n in
  deviations mu l <= ihi t -> ivar t l 0 = Ok (deviations mu l / (n - 1)).
Proof.
  intros T X P L N n mu Q. unfold ivar, mean_iter. rewrite (isum_exact t l T 0 P). cbn [bindO]. rewrite Z.add_0_l.
  assert (F : ilo t <= zsum l <= ihi t). { specialize (P (length l) (le_n _)). rewrite firstn_all in P. exact P. }
  rewrite idiv_fit by (auto; lia). cbn [bindO]. fold n mu.
  rewrite squares_fit; [|assumption|assumption|exists (zsum l), n; repeat split; lia|lia|lia]. cbn [bindO]. rewrite Z.add_0_l.
  pose proof (deviations_nonneg mu l). pose proof (ilo_neg t T).
  rewrite idiv_fit by (auto; unfold n; lia). f_equal. apply Z.quot_div_nonneg; unfold n; lia.
Qed.

Lemma deviations_expand mu l : deviations mu l = zsum (map (fun x => x * x) l) - 2 * mu * zsum l + Z.of_nat (length l) * (mu * mu).
Proof.
  induction l as [|x l IH]; [cbn; ring|]. rewrite deviations_cons, IH. cbn [map length]. unfold zsum. cbn [fold_right]. fold (zsum l). fold (zsum (map (fun x => x * x) l)).
  rewrite Nat2Z.inj_succ. ring.
Qed.
Lemma deviations_scaled mu l : let n := Z.of_nat (length l) in
  n * deviations mu l = scaled_variance l + (n * mu - zsum l) * (n * mu - zsum l).
Proof. cbv zeta. rewrite deviations_expand. unfold scaled_variance. ring. Qed.

Lemma quot_near s n : 0 < n -> - n < n * Z.quot s n - s < n.
Proof. intros H. pose proof (Z.quot_rem' s n). pose proof (Z.rem_bound_abs s n ltac:(lia)). lia. Qed.

Theorem ivar_bounds l r : (2 <= length l)%nat ->
  let n := Z.of_nat (length l) in let mu := Z.quot (zsum l) n in
  r = deviations mu l / (n - 1) ->
  scaled_variance l - n * (n - 1) < n * (n - 1) * r < scaled_variance l + n * n
  /\ (zsum l mod n = 0 -> r = scaled_variance l / (n * (n - 1))).
Proof.
  intros L n mu ->. assert (N : 2 <= n) by (unfold n; lia).
  assert (S := deviations_scaled mu l). cbv zeta in S. fold n in S. assert (B := quot_near (zsum l) n ltac:(lia)). fold mu in B.
  set (D := deviations mu l) in *. set (E := scaled_variance l) in *.
  assert (Dm := Z.div_mod D (n - 1) ltac:(lia)). assert (Mb := Z.mod_pos_bound D (n - 1) ltac:(lia)).
  set (r := D / (n - 1)) in *. set (k := n * mu - zsum l) in *.
  assert (K : 0 <= k * k < n * n) by (split; [apply Z.square_nonneg|nia]).
  split.
  - split; nia.
  - intros Z0. assert (K0 : k = 0).
    { unfold k, mu. rewrite (Z.mod_divide _ n ltac:(lia)) in Z0. destruct Z0 as (c & ->). rewrite Z.quot_mul by lia. lia. }
    rewrite K0 in S. unfold r. rewrite <- (Z.div_mul_cancel_l D (n - 1) n) by lia. f_equal. lia.
Qed.

Lemma foldO_one {A B} (f : A -> B -> outcome A) a b : foldO f [b] a = f a b.
Proof. cbn. destruct (f a b); reflexivity. Qed.

Theorem ivar_one t x : std_ty t -> ilo t <= x <= ihi t -> ivar t [x] 0 = UB.
Proof.
  intros T F. unfold ivar. unfold mean_iter, isum. rewrite !foldO_one. rewrite iadd_fit by (auto; lia). cbn [bindO length].
  change (Z.of_nat 1) with 1. rewrite idiv_fit by (auto; lia). cbn [bindO]. rewrite foldO_one, Z.quot_1_r. pose proof (ilo_neg t T).
  assert (0 <= ihi t). { rewrite ihi_ilo by exact T. unfold ilo. destruct (std_bits t T). assert (0 < 2 ^ (bits t - 1)) by (apply Z.pow_pos_nonneg; lia). destruct (signed t); [|assert (0 < 2 ^ bits t) by (apply Z.pow_pos_nonneg; lia); lia].
    replace (2 ^ bits t) with (2 * 2 ^ (bits t - 1)); [lia|]. rewrite <- Z.pow_succ_r by lia. f_equal. lia. }
  rewrite step_fit.
  - cbn [bindO]. rewrite !Z.add_0_l, !Z.sub_diag. unfold idiv.
    change (promote i64) with i64. fold (mean_ty t). destruct (mean_ty_cases t T) as [(-> & _)|(-> & _)]; reflexivity.
  - exact T.
  - exact F.
  - exists x, 1. rewrite Z.quot_1_r. repeat split; lia.
  - lia.
  - rewrite !Z.add_0_l, Z.sub_diag. lia.
Qed.
