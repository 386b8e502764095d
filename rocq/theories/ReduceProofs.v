(** * ReduceProofs *)

From Coq Require Import ZArith List Bool Lia Arith Permutation.
From Verif Require Import Base Spec Slice Reduce ReduceSpec Lemmas LifeProofs.
Import ListNotations.
Open Scope Z_scope.

(** ** maximum and minimum *)
Section Order.
Context {V : Type}.
Variables (lt : V -> V -> bool) (ok : V -> Prop).
Hypothesis L : linear_on lt ok.

Lemma lt_ok x y : lt x y = true -> ok x /\ ok y. Proof using L. apply L. Qed.
Lemma lt_irr x : lt x x = false. Proof using L. apply L. Qed.
Lemma lt_tr x y z : lt x y = true -> lt y z = true -> lt x z = true. Proof using L. apply L. Qed.
Lemma lt_tot x y : ok x -> ok y -> lt x y = true \/ x = y \/ lt y x = true. Proof using L. apply L. Qed.
Lemma lt_asym x y : lt x y = true -> lt y x = false.
Proof using L. intros H. destruct (lt y x) eqn:E; auto. rewrite <- (lt_irr x). symmetry. eapply lt_tr; eauto. Qed.
Lemma nlt_tr x y z : ok x -> ok y -> lt x y = false -> lt y z = false -> lt x z = false.
Proof using L.
  intros Hx Hy H1 H2. destruct (lt x z) eqn:E; auto. destruct (lt_tot x y Hx Hy) as [X|[X|X]]; [congruence|subst; congruence|].
  rewrite <- H2. symmetry. eapply lt_tr; eauto.
Qed.

Lemma max_loop_spec l : forall start, ok start -> is_max lt (start :: l) (max_loop lt l start) /\ ok (max_loop lt l start).
Proof using L.
  induction l as [|x l IH]; intros start Hs; cbn [max_loop].
  - split; auto. split; [left; auto|]. intros y [<-|[]]. apply lt_irr.
  - destruct (lt start x) eqn:E.
    + destruct (lt_ok _ _ E) as [_ Hx]. destruct (IH x Hx) as [[I1 I2] O]. split; auto. split.
      * destruct I1 as [<-|I1]; right; [left; auto|right; auto].
      * intros y [<-|[<-|Hy]]; [|apply I2; left; auto|apply I2; right; auto].
        destruct (lt (max_loop lt l x) start) eqn:E2; auto. rewrite <- (I2 x (or_introl eq_refl)). symmetry. eapply lt_tr; eauto.
    + destruct (IH start Hs) as [[I1 I2] O]. split; auto. split.
      * destruct I1 as [<-|I1]; [left; auto|right; right; auto].
      * intros y [<-|[<-|Hy]]; [apply I2; left; auto| |apply I2; right; auto].
        apply (nlt_tr _ start); auto. apply I2. left; auto.
Qed.

(** Starting from a value below all elements: the maximum of the (valid) elements. *)
Lemma max_is_max l bot : ok bot -> (forall x, In x l -> lt x bot = false) -> (exists x, In x l /\ ok x) -> is_max lt l (max_loop lt l bot).
Proof using L.
  intros Hb B [x [Hx Ox]]. destruct (max_loop_spec l bot Hb) as [[I1 I2] O]. split; [|intros; apply I2; right; auto].
  destruct I1 as [Q|I1]; auto. assert (Y := I2 x (or_intror Hx)). rewrite <- Q in *. destruct (lt_tot bot x Hb Ox) as [X|[X|X]]; [congruence|subst; auto|rewrite B in X by auto; discriminate].
Qed.

Lemma max_unique l m m' : (forall x, In x l -> ok x) -> is_max lt l m -> is_max lt l m' -> m = m'.
Proof using L.
  intros O [I1 H1] [I2 H2]. destruct (lt_tot m m' (O _ I1) (O _ I2)) as [X|[X|X]]; auto; [rewrite H1 in X by auto|rewrite H2 in X by auto]; discriminate.
Qed.

Lemma which_max_loop_spec l : forall start pos best, ok start -> 0 <= pos -> pos + Z.of_nat (length l) < W ->
  (max_loop lt l start = start /\ which_max_loop lt l start pos best = best) \/
  (lt start (max_loop lt l start) = true /\ exists k, which_max_loop lt l start pos best = pos + k /\ first_at l (max_loop lt l start) k).
Proof using L.
  induction l as [|x l IH]; intros start pos best Hs Hp Hw; cbn [max_loop which_max_loop]; [left; auto|]. cbn [length] in Hw.
  assert (Ew : w64 (pos + 1) = pos + 1) by (apply w64_small; lia). rewrite Ew.
  destruct (lt start x) eqn:E.
  - right. destruct (lt_ok _ _ E) as [_ Hx]. destruct (IH x (pos + 1) pos Hx ltac:(lia) ltac:(lia)) as [[M ->]|[M [k [-> [K1 [K2 K3]]]]]].
    + rewrite M. split; auto. exists 0. split; [lia|]. split; [lia|]. split; [reflexivity|]. intros; lia.
    + split; [eapply lt_tr; eauto|]. exists (k + 1). split; [lia|]. split; [lia|]. replace (Z.to_nat (k + 1)) with (S (Z.to_nat k)) by lia. split; [exact K2|].
      intros j Hj. destruct (Z.eq_dec j 0) as [->|J].
      * cbn. intros Q. injection Q as Q. rewrite <- Q, lt_irr in M. discriminate.
      * replace (Z.to_nat j) with (S (Z.to_nat (j - 1))) by lia. cbn. apply K3. lia.
  - destruct (IH start (pos + 1) best Hs ltac:(lia) ltac:(lia)) as [[M H]|[M [k [H [K1 [K2 K3]]]]]]; [left; auto|right].
    split; auto. exists (k + 1). split; [lia|]. split; [lia|]. replace (Z.to_nat (k + 1)) with (S (Z.to_nat k)) by lia. split; [exact K2|].
    intros j Hj. destruct (Z.eq_dec j 0) as [->|J].
    + cbn. intros Q. injection Q as Q. rewrite <- Q in M. congruence.
    + replace (Z.to_nat j) with (S (Z.to_nat (j - 1))) by lia. cbn. apply K3. lia.
Qed.

(** Some element is above the start: the first position of the maximum. *)
Lemma which_max_spec l bot : ok bot -> Z.of_nat (length l) < W -> (exists x, In x l /\ lt bot x = true) ->
  exists m, is_max lt l m /\ first_at l m (which_max lt l bot).
Proof using L.
  intros Hb Hw [x [Hx Lx]]. exists (max_loop lt l bot). destruct (max_loop_spec l bot Hb) as [[I1 I2] O].
  destruct (which_max_loop_spec l bot 0 0 Hb ltac:(lia) ltac:(lia)) as [[M H]|[M [k [H F]]]].
  - rewrite M, (I2 x (or_intror Hx)) in *. congruence.
  - unfold which_max. rewrite H. split; [|exact F]. split; [|intros; apply I2; right; auto]. destruct I1 as [Q|I1]; auto. rewrite <- Q, lt_irr in M. discriminate.
Qed.
(** All elements are valid and the list is not empty: as well when all equal the start. *)
Lemma which_max_total l bot : ok bot -> Z.of_nat (length l) < W -> (forall x, In x l -> ok x /\ lt x bot = false) -> l <> [] ->
  exists m, is_max lt l m /\ first_at l m (which_max lt l bot).
Proof using L.
  intros Hb Hw B Hl. destruct (existsb (fun x => lt bot x) l) eqn:E.
  - apply existsb_exists in E. apply which_max_spec; auto.
  - assert (All : forall x, In x l -> x = bot).
    { intros x Hx. destruct (B x Hx) as [Ox Lx]. destruct (lt_tot bot x Hb Ox) as [X|[X|X]]; auto; [|congruence].
      assert (existsb (fun x => lt bot x) l = true) by (apply existsb_exists; eauto). congruence. }
    destruct (which_max_loop_spec l bot 0 0 Hb ltac:(lia) ltac:(lia)) as [[M H]|[M _]].
    + exists bot. unfold which_max. rewrite H. destruct l as [|x l]; [congruence|]. assert (x = bot) by (apply All; left; auto). subst x.
      split; [split; [left; auto|intros y Hy; rewrite (All y Hy); apply lt_irr]|]. split; [lia|]. split; [reflexivity|intros; lia].
    + destruct (max_loop_spec l bot Hb) as [[[I1|I1] _] _]; [rewrite <- I1, lt_irr in M|rewrite (All _ I1), lt_irr in M]; discriminate.
Qed.

(** Values that compare false with everything are skipped. *)
Lemma max_skips f l start : (forall x, f x = true <-> ok x) -> max_loop lt l start = max_loop lt (filter f l) start.
Proof using L.
  intros F. revert start. induction l as [|x l IH]; intros start; cbn [max_loop filter]; auto. destruct (f x) eqn:E; cbn [max_loop]; [apply IH|].
  destruct (lt start x) eqn:E2; [|apply IH]. apply lt_ok in E2 as [_ O]. apply F in O. congruence.
Qed.
End Order.

Lemma linear_flip {V} (lt : V -> V -> bool) ok : linear_on lt ok -> linear_on (fun a b => lt b a) ok.
Proof.
  intros [H1 [H2 [H3 H4]]]. split; [|split; [|split]]; auto.
  - intros x y H. apply and_comm. auto.
  - intros x y z A B. eauto.
  - intros x y A B. destruct (H4 x y) as [|[|]]; auto.
Qed.
Lemma min_flip {V} (lt : V -> V -> bool) l : forall s, min_loop lt l s = max_loop (fun a b => lt b a) l s.
Proof. induction l as [|x l IH]; intros s; cbn; auto. Qed.
Lemma which_min_flip {V} (lt : V -> V -> bool) l : forall s p b, which_min_loop lt l s p b = which_max_loop (fun a b => lt b a) l s p b.
Proof. induction l as [|x l IH]; intros s p b; cbn; auto; destruct (lt x s); auto. Qed.
Lemma which_min_flip' {V} (lt : V -> V -> bool) l s : which_min lt l s = which_max (fun a b => lt b a) l s.
Proof. apply which_min_flip. Qed.

Lemma Zlt_linear : linear_on Z.ltb (fun _ => True).
Proof.
  split; [|split; [|split]]; intros; rewrite ?Z.ltb_lt, ?Z.ltb_ge in *; auto; try lia.
Qed.
Lemma num_linear : linear_on num_lt (fun x => x <> NaN).
Proof.
  split; [|split; [|split]].
  - intros [] []; cbn; try discriminate; split; discriminate.
  - intros []; cbn; auto. apply Z.ltb_irrefl.
  - intros [] [] []; cbn; try discriminate; auto. rewrite !Z.ltb_lt. lia.
  - intros [| |x|] [| |y|] H1 H2; cbn; try congruence; auto. rewrite !Z.ltb_lt. destruct (Z.lt_trichotomy x y) as [|[->|]]; auto.
Qed.

(** ** integer sums and products *)
Lemma std_bits t : std_ty t -> 0 < bits t <= 64 /\ (bits t < 32 -> bits t <= 16).
Proof. unfold std_ty. cbn. intuition lia. Qed.

Lemma ihi_ilo t : std_ty t -> ihi t = ilo t + 2 ^ bits t - 1.
Proof.
  intros H. destruct (std_bits t H) as [B _]. unfold ihi, ilo. destruct (signed t); [|lia].
  replace (2 ^ bits t) with (2 * 2 ^ (bits t - 1)); [lia|]. rewrite <- Z.pow_succ_r by lia. f_equal. lia.
Qed.
Lemma conv_in t x : std_ty t -> ilo t <= x <= ihi t -> conv_ty t x = x.
Proof. intros T H. unfold conv_ty. rewrite (ihi_ilo t T) in H. rewrite Z.mod_small; lia. Qed.
Lemma conv_range t x : std_ty t -> ilo t <= conv_ty t x <= ihi t.
Proof.
  intros T. destruct (std_bits t T) as [B _]. unfold conv_ty. rewrite (ihi_ilo t T). assert (P : 0 < 2 ^ bits t) by (apply Z.pow_pos_nonneg; lia).
  assert (M := Z.mod_pos_bound (x - ilo t) (2 ^ bits t) P). lia.
Qed.
Lemma promote_std t : std_ty t -> std_ty (promote t).
Proof. intros H. unfold promote. destruct (bits t <? 32); auto. unfold std_ty. cbn. auto. Qed.
Lemma promote_fits t x : std_ty t -> ilo t <= x <= ihi t -> ilo (promote t) <= x <= ihi (promote t).
Proof.
  intros T H. unfold promote. destruct (bits t <? 32) eqn:E; auto. apply Z.ltb_lt in E. destruct (std_bits t T) as [B S]. specialize (S E).
  assert (P : 2 ^ (bits t) <= 2 ^ 16) by (apply Z.pow_le_mono_r; lia). assert (P1 : 2 ^ (bits t - 1) <= 2 ^ 16) by (apply Z.pow_le_mono_r; lia).
  assert (0 < 2 ^ (bits t - 1)) by (apply Z.pow_pos_nonneg; lia). unfold ilo, ihi, i32 in *. cbn. destruct (signed t); lia.
Qed.
Lemma arith_fit t x : std_ty t -> ilo t <= x <= ihi t -> arith t x = Ok x.
Proof.
  intros T H. unfold arith, in_ty. destruct (signed t); [|rewrite conv_in; auto].
  replace ((ilo t <=? x) && (x <=? ihi t)) with true by (symmetry; rewrite andb_true_iff, !Z.leb_le; lia). reflexivity.
Qed.
Lemma iadd_fit t a b : std_ty t -> ilo t <= a + b <= ihi t -> iadd t a b = Ok (a + b).
Proof. intros T H. unfold iadd. rewrite arith_fit by (auto using promote_std, promote_fits). cbn. rewrite conv_in; auto. Qed.
Lemma imul_fit t a b : std_ty t -> ilo t <= a * b <= ihi t -> imul t a b = Ok (a * b).
Proof. intros T H. unfold imul. rewrite arith_fit by (auto using promote_std, promote_fits). cbn. rewrite conv_in; auto. Qed.

Theorem isum_exact t l : std_ty t -> forall start, partial_sums_fit t l start -> isum t l start = Ok (start + zsum l).
Proof.
  intros T. induction l as [|x l IH]; intros start H; unfold isum in *; cbn [foldO zsum fold_right]; [f_equal; lia|].
  assert (H1 := H 1%nat ltac:(cbn; lia)). cbn in H1. rewrite iadd_fit by (auto; lia). cbn [bindO]. rewrite IH; [f_equal; fold (zsum l); lia|].
  intros k Hk. specialize (H (S k) ltac:(cbn; lia)). cbn [firstn zsum fold_right] in H. fold (zsum (firstn k l)) in H. lia.
Qed.
Theorem iprod_exact t l : std_ty t -> forall start, partial_prods_fit t l start -> iprod t l start = Ok (start * zprod l).
Proof.
  intros T. induction l as [|x l IH]; intros start H; unfold iprod in *; cbn [foldO]; [unfold zprod; cbn; f_equal; lia|].
  assert (H1 := H 1%nat ltac:(cbn; lia)). unfold zprod in H1. cbn in H1. rewrite imul_fit by (auto; lia). cbn [bindO]. rewrite IH; [f_equal; unfold zprod; cbn; lia|].
  intros k Hk. specialize (H (S k) ltac:(cbn; lia)). unfold zprod in *. cbn [firstn fold_right] in H. lia.
Qed.

Lemma conv_unsigned t x : signed t = false -> conv_ty t x = x mod 2 ^ bits t.
Proof. intros H. unfold conv_ty, ilo. rewrite H. rewrite Z.sub_0_r. lia. Qed.
Theorem isum_modular t l : std_ty t -> signed t = false -> 32 <= bits t -> forall start, 0 <= start <= ihi t ->
  isum t l start = Ok ((start + zsum l) mod 2 ^ bits t).
Proof.
  intros T U B. assert (P : promote t = t) by (unfold promote; replace (bits t <? 32) with false; auto; symmetry; apply Z.ltb_ge; lia).
  assert (Hp : 0 < 2 ^ bits t) by (apply Z.pow_pos_nonneg; lia).
  assert (E : forall a b, iadd t a b = Ok ((a + b) mod 2 ^ bits t)).
  { intros a b. unfold iadd, arith. rewrite P, U. cbn [bindO]. rewrite !conv_unsigned, Z.mod_mod by (auto; lia). reflexivity. }
  assert (G : forall l a, isum t l (a mod 2 ^ bits t) = Ok ((a + zsum l) mod 2 ^ bits t)).
  { induction l0 as [|x l0 IH]; intros a; unfold isum in *; cbn [foldO zsum fold_right]; [f_equal; f_equal; lia|].
    rewrite E. cbn [bindO]. rewrite Zplus_mod_idemp_l, IH. f_equal. f_equal. fold (zsum l0). lia. }
  intros start Hs. rewrite <- G. rewrite Z.mod_small; auto. unfold ihi in Hs. rewrite U in Hs. lia.
Qed.
Theorem iprod_modular t l : std_ty t -> signed t = false -> 32 <= bits t -> forall start, 0 <= start <= ihi t ->
  iprod t l start = Ok ((start * zprod l) mod 2 ^ bits t).
Proof.
  intros T U B. assert (P : promote t = t) by (unfold promote; replace (bits t <? 32) with false; auto; symmetry; apply Z.ltb_ge; lia).
  assert (Hp : 0 < 2 ^ bits t) by (apply Z.pow_pos_nonneg; lia).
  assert (E : forall a b, imul t a b = Ok ((a * b) mod 2 ^ bits t)).
  { intros a b. unfold imul, arith. rewrite P, U. cbn [bindO]. rewrite !conv_unsigned, Z.mod_mod by (auto; lia). reflexivity. }
  assert (G : forall l a, iprod t l (a mod 2 ^ bits t) = Ok ((a * zprod l) mod 2 ^ bits t)).
  { induction l0 as [|x l0 IH]; intros a; unfold iprod in *; cbn [foldO]; [unfold zprod; cbn; f_equal; f_equal; lia|].
    rewrite E. cbn [bindO]. rewrite Zmult_mod_idemp_l, IH. f_equal. f_equal. unfold zprod. cbn. ring. }
  intros start Hs. rewrite <- G. rewrite Z.mod_small; auto. unfold ihi in Hs. rewrite U in Hs. lia.
Qed.

(** ** mean *)
Lemma fits_i64 t x : std_ty t -> signed t = true -> ilo t <= x <= ihi t -> - 2 ^ 63 <= x < 2 ^ 63.
Proof.
  intros T S H. destruct (std_bits t T) as [B _]. unfold ilo, ihi in H. rewrite S in H.
  assert (2 ^ (bits t - 1) <= 2 ^ 63) by (apply Z.pow_le_mono_r; lia). lia.
Qed.
Lemma common_i64 t : std_ty t -> signed t = true -> common_ty (promote t) (promote i64) = i64.
Proof.
  intros T S. destruct t as [b s]. cbn in S. subst s. unfold std_ty in T. cbn in T. destruct T as [<-|[<-|[<-|[<-|[]]]]]; reflexivity.
Qed.
Lemma common_u64 t : std_ty t -> common_ty (promote t) (promote u64) = u64.
Proof.
  intros T. destruct t as [b s]. unfold std_ty in T. cbn in T. destruct T as [<-|[<-|[<-|[<-|[]]]]]; destruct s; reflexivity.
Qed.
Lemma common_unsigned_i64 t : std_ty t -> signed t = false -> bits t < 64 -> common_ty (promote t) (promote i64) = i64.
Proof.
  intros T S B. destruct t as [b s]. cbn in S, B. subst s. unfold std_ty in T. cbn in T. destruct T as [<-|[<-|[<-|[<-|[]]]]]; try reflexivity; lia.
Qed.

Lemma conv_i64 x : - 2 ^ 63 <= x < 2 ^ 63 -> conv_ty i64 x = x.
Proof. intros H. apply conv_in; [unfold std_ty; cbn; auto|]. unfold ilo, ihi; cbn; lia. Qed.
Lemma conv_u64 x : conv_ty u64 x = x mod W.
Proof. apply conv_unsigned. reflexivity. Qed.

Theorem mean_iter_spec t l start s : std_ty t -> signed t = true -> isum t l start = Ok s -> ilo t <= s <= ihi t -> l <> [] -> Z.of_nat (length l) < 2 ^ 63 ->
  mean_iter t l start = Ok (Z.quot s (Z.of_nat (length l))).
Proof.
  intros T S E F Hl Hn. assert (F64 := fits_i64 t s T S F). unfold mean_iter. rewrite E. cbn [bindO]. unfold idiv. rewrite common_i64 by auto.
  assert (Hpos : 0 < Z.of_nat (length l)) by (destruct l; [congruence|cbn; lia]).
  rewrite !conv_i64 by lia. replace (Z.of_nat (length l) =? 0) with false by (symmetry; apply Z.eqb_neq; lia).
  apply arith_fit; [unfold std_ty; cbn; auto|]. unfold ilo, ihi; cbn.
  assert (A : Z.abs (Z.quot s (Z.of_nat (length l))) <= Z.abs s).
  { rewrite Z.quot_abs_l || idtac. destruct (Z_le_gt_dec 0 s).
    - assert (0 <= Z.quot s (Z.of_nat (length l))) by (apply Z.quot_pos; lia). rewrite !Z.abs_eq by lia. apply Z.quot_le_upper_bound; nia.
    - replace s with (- (- s)) by lia. rewrite Z.quot_opp_l by lia. rewrite !Z.abs_opp.
      assert (0 <= Z.quot (- s) (Z.of_nat (length l))) by (apply Z.quot_pos; lia). rewrite !Z.abs_eq by lia. apply Z.quot_le_upper_bound; nia. }
  destruct (Z_le_gt_dec 0 s); [|destruct (Z.eq_dec s (- 2 ^ 63)) as [->|]].
  - assert (0 <= Z.quot s (Z.of_nat (length l))) by (apply Z.quot_pos; lia). lia.
  - replace (- 2 ^ 63) with (- (2 ^ 63)) by lia. rewrite Z.quot_opp_l by lia. assert (0 <= Z.quot (2 ^ 63) (Z.of_nat (length l))) by (apply Z.quot_pos; lia).
    assert (Z.quot (2 ^ 63) (Z.of_nat (length l)) <= 2 ^ 63) by (apply Z.quot_le_upper_bound; nia). lia.
  - lia.
Qed.

Theorem mean_rng_spec t l start s : std_ty t -> isum t l start = Ok s -> l <> [] -> Z.of_nat (length l) < 2 ^ 63 ->
  mean_rng t l start = Ok ((s mod W) / Z.of_nat (length l)).
Proof.
  intros T E Hl Hn. unfold mean_rng. rewrite E. cbn [bindO]. unfold idiv. rewrite common_u64 by auto. rewrite !conv_u64.
  assert (Hpos : 0 < Z.of_nat (length l)) by (destruct l; [congruence|cbn; lia]).
  rewrite (Z.mod_small (Z.of_nat (length l))) by (unfold W; lia). replace (Z.of_nat (length l) =? 0) with false by (symmetry; apply Z.eqb_neq; lia).
  assert (M := Z.mod_pos_bound s W ltac:(unfold W; lia)).
  rewrite Z.quot_div_nonneg by lia. unfold arith. cbn [signed u64]. rewrite conv_u64. f_equal. apply Z.mod_small.
  split; [apply Z.div_pos; lia|]. apply Z.div_lt_upper_bound; nia.
Qed.

Theorem mean_agree t l start s : std_ty t -> signed t = true -> isum t l start = Ok s -> ilo t <= s <= ihi t -> l <> [] -> Z.of_nat (length l) < 2 ^ 63 ->
  (mean_iter t l start = mean_rng t l start <-> 0 <= s).
Proof.
  intros T S E F Hl Hn. rewrite (mean_iter_spec t l start s), (mean_rng_spec t l start s) by auto. assert (F64 := fits_i64 t s T S F).
  assert (Hpos : 0 < Z.of_nat (length l)) by (destruct l; [congruence|cbn; lia]). split.
  - intros H. injection H as H. destruct (Z_le_gt_dec 0 s); auto. exfalso.
    assert (M : s mod W = s + W). { rewrite <- (Z.mod_small (s + W) W) by (unfold W; lia). rewrite <- (Z_mod_plus_full s 1 W). f_equal; lia. }
    rewrite M in H. assert (1 <= (s + W) / Z.of_nat (length l)) by (apply Z.div_le_lower_bound; unfold W in *; lia).
    assert (Z.quot s (Z.of_nat (length l)) <= 0). { replace s with (- (- s)) by lia. rewrite Z.quot_opp_l by lia. assert (0 <= Z.quot (- s) (Z.of_nat (length l))) by (apply Z.quot_pos; lia). lia. }
    lia.
  - intros H. f_equal. rewrite Z.mod_small by (unfold W; lia). apply Z.quot_div_nonneg; lia.
Qed.
Theorem mean_agree_unsigned t l start s : std_ty t -> signed t = false -> isum t l start = Ok s -> ilo t <= s <= ihi t -> l <> [] -> Z.of_nat (length l) < 2 ^ 63 ->
  mean_iter t l start = Ok (s / Z.of_nat (length l)) /\ mean_rng t l start = Ok (s / Z.of_nat (length l)).
Proof.
  intros T S E F Hl Hn. assert (Hpos : 0 < Z.of_nat (length l)) by (destruct l; [congruence|cbn; lia]).
  destruct (std_bits t T) as [B _]. assert (R : 0 <= s < 2 ^ bits t) by (unfold ilo, ihi in F; rewrite S in F; lia).
  assert (2 ^ bits t <= 2 ^ 64) by (apply Z.pow_le_mono_r; lia).
  rewrite (mean_rng_spec t l start s) by auto. rewrite (Z.mod_small s) by (unfold W; lia). split; auto.
  unfold mean_iter. rewrite E. cbn [bindO]. unfold idiv. destruct (Z.eq_dec (bits t) 64) as [E64|N64].
  - assert (t = u64) by (destruct t; cbn in *; subst; reflexivity). subst t. change (common_ty (promote u64) (promote i64)) with u64.
    rewrite !conv_u64. rewrite !Z.mod_small by (unfold W; lia). replace (Z.of_nat (length l) =? 0) with false by (symmetry; apply Z.eqb_neq; lia).
    rewrite Z.quot_div_nonneg by lia. unfold arith. cbn [signed u64]. rewrite conv_u64. f_equal. apply Z.mod_small. split; [apply Z.div_pos; lia|]. apply Z.div_lt_upper_bound; unfold W; nia.
  - assert (Hb : bits t < 64) by lia. assert (2 ^ bits t <= 2 ^ 63) by (apply Z.pow_le_mono_r; lia).
    rewrite common_unsigned_i64 by auto. rewrite !conv_i64 by lia. replace (Z.of_nat (length l) =? 0) with false by (symmetry; apply Z.eqb_neq; lia).
    rewrite Z.quot_div_nonneg by lia. apply arith_fit; [unfold std_ty; cbn; auto|]. unfold ilo, ihi; cbn.
    assert (0 <= s / Z.of_nat (length l)) by (apply Z.div_pos; lia). assert (s / Z.of_nat (length l) < 2 ^ 63) by (apply Z.div_lt_upper_bound; nia). lia.
Qed.

Lemma iadd_range t a b r : std_ty t -> iadd t a b = Ok r -> ilo t <= r <= ihi t.
Proof. intros T. unfold iadd. destruct (arith (promote t) (a + b)); cbn; try discriminate. intros H. injection H as <-. apply conv_range. auto. Qed.
Lemma isum_range t l : std_ty t -> forall start s, ilo t <= start <= ihi t -> isum t l start = Ok s -> ilo t <= s <= ihi t.
Proof.
  intros T. induction l as [|x l IH]; intros start s H; unfold isum in *; cbn [foldO]; [intros Q; injection Q as <-; auto|].
  destruct (iadd t start x) as [r| | | |] eqn:E; cbn [bindO]; try discriminate. apply IH. eapply iadd_range; eauto.
Qed.

(** ** logical reductions *)
Section Logical.
Context {V : Type}.
Variable (b : V -> bool).
Lemma count_spec l : Z.of_nat (length l) < W -> count_loop b l 0 = Z.of_nat (length (filter b l)).
Proof.
  intros H. assert (G : forall l n, 0 <= n -> n + Z.of_nat (length l) < W -> count_loop b l n = n + Z.of_nat (length (filter b l))).
  { induction l0 as [|x l0 IH]; intros n Hn Hw; cbn [count_loop filter length] in *; [lia|]. destruct (b x); cbn [length]; rewrite ?w64_small by lia; rewrite IH by lia; lia. }
  rewrite G by lia. lia.
Qed.
Lemma positions_cons x l : positions_where b (x :: l) = (if b x then [0] else []) ++ map (fun k => k + 1) (positions_where b l).
Proof.
  unfold positions_where, iota. rewrite !Nat2Z.id. cbn [length seq map filter nth_error Z.to_nat]. rewrite <- seq_shift, map_map.
  assert (E : forall ns, filter (fun k => match nth_error (x :: l) (Z.to_nat k) with Some y => b y | None => false end) (map (fun n => Z.of_nat (S n)) ns)
    = map (fun k => k + 1) (filter (fun k => match nth_error l (Z.to_nat k) with Some y => b y | None => false end) (map Z.of_nat ns))).
  { induction ns as [|n ns IH]; cbn [map filter]; auto. rewrite !Nat2Z.id. cbn [nth_error].
    destruct (nth_error l n) as [y|]; [destruct (b y)|]; cbn [map]; rewrite IH; auto. f_equal. lia. }
  rewrite E. change (Z.to_nat (Z.of_nat 0)) with O. cbn [nth_error]. destruct (b x); reflexivity.
Qed.
Lemma which_spec l : Z.of_nat (length l) < W -> which_loop b l 0 [] = positions_where b l.
Proof.
  intros H. assert (G : forall l i acc, 0 <= i -> i + Z.of_nat (length l) < W -> which_loop b l i acc = acc ++ map (fun k => i + k) (positions_where b l)).
  { induction l0 as [|x l0 IH]; intros i acc Hi Hw; cbn [which_loop length] in *; [unfold positions_where; cbn; rewrite app_nil_r; auto|].
    rewrite w64_small by lia. rewrite IH by lia. rewrite positions_cons, map_app, map_map.
    assert (Em : map (fun k => i + 1 + k) (positions_where b l0) = map (fun k => i + (k + 1)) (positions_where b l0)) by (apply map_ext; intros; lia). rewrite Em.
    destruct (b x); cbn [map app]; [|auto]. rewrite <- app_assoc. cbn. rewrite Z.add_0_r. reflexivity. }
  rewrite G by lia. cbn [app]. rewrite <- (map_id (positions_where b l)) at 2. apply map_ext. intros; lia.
Qed.
Lemma in_positions l k : In k (positions_where b l) <-> 0 <= k /\ exists x, nth_error l (Z.to_nat k) = Some x /\ b x = true.
Proof.
  unfold positions_where. rewrite filter_In, in_iota. split.
  - intros [H1 H2]. split; [lia|]. destruct (nth_error l (Z.to_nat k)) as [x|]; [eauto|discriminate].
  - intros [H0 [x [E Hx]]]. rewrite E. split; auto. assert (Z.to_nat k < length l)%nat by (apply nth_error_Some; congruence). lia.
Qed.
Lemma all_spec l : all_loop b l = true <-> forall x, In x l -> b x = true.
Proof.
  induction l as [|x l IH]; cbn; [split; auto; intros; tauto|]. destruct (b x) eqn:E; cbn.
  - rewrite IH. split; [intros H y [<-|Hy]; auto|auto].
  - split; [discriminate|]. intros H. rewrite <- E. auto.
Qed.
Lemma any_spec l : any_loop b l = true <-> exists x, In x l /\ b x = true.
Proof.
  induction l as [|x l IH]; cbn; [split; [discriminate|intros [? [[] _]]]|]. destruct (b x) eqn:E.
  - split; eauto.
  - rewrite IH. split; intros [y [H1 H2]]; [eauto|]. destruct H1 as [<-|H1]; [congruence|eauto].
Qed.
Lemma none_spec l : none_loop b l = true <-> forall x, In x l -> b x = false.
Proof.
  induction l as [|x l IH]; cbn; [split; auto; intros; tauto|]. destruct (b x) eqn:E.
  - split; [discriminate|]. intros H. rewrite <- E. symmetry. auto.
  - rewrite IH. split; [intros H y [<-|Hy]; auto|auto].
Qed.
End Logical.

(** ** nth *)
Lemma nth_error_skipn' {A} (l : list A) n k : nth_error (skipn n l) k = nth_error l (n + k).
Proof. revert l. induction n as [|n IH]; intros [|a l]; cbn; auto. destruct k; auto. Qed.
Lemma filter_perm_length {V} (f : V -> bool) l l' : Permutation l l' -> length (filter f l) = length (filter f l').
Proof. induction 1; cbn; auto; try destruct (f x); try destruct (f y); cbn; auto; congruence. Qed.

Lemma filter_none_length {V} (f : V -> bool) l : (forall x, In x l -> f x = false) -> length (filter f l) = O.
Proof. induction l as [|x l IH]; intros H; cbn; auto. rewrite (H x) by (left; auto). apply IH. intros; apply H; right; auto. Qed.
Lemma filter_all_length {V} (f : V -> bool) l : (forall x, In x l -> f x = true) -> length (filter f l) = length l.
Proof. induction l as [|x l IH]; intros H; cbn; auto. rewrite (H x) by (left; auto). cbn. rewrite IH; auto. intros; apply H; right; auto. Qed.
Lemma filter_le {V} (f : V -> bool) l : (length (filter f l) <= length l)%nat.
Proof. induction l as [|x l IH]; cbn; auto. destruct (f x); cbn; lia. Qed.

Theorem nth_spec {V} (lt : V -> V -> bool) ne l n : (forall x, lt x x = false) -> nth_element_ok lt l (ne l n) n -> (n < length l)%nat ->
  exists v, nth_model ne l n = Ok v /\ nth_smallest lt l n v.
Proof.
  intros Irr Post Hn. destruct Post as [[P Q] R]. unfold nth_model. assert (Hl := Permutation_length P).
  destruct (nth_error (ne l n) n) as [v|] eqn:E; [|apply nth_error_None in E; lia]. exists v. split; auto. split.
  { apply (Permutation_in v (Permutation_sym P)). eapply nth_error_In; eauto. }
  rewrite !(filter_perm_length _ _ _ P). rewrite <- (firstn_skipn n (ne l n)). rewrite !filter_app, !app_length. split.
  - rewrite (filter_none_length _ (skipn n (ne l n))).
    + assert (H := filter_le (fun x => lt x v) (firstn n (ne l n))). assert (H2 := firstn_le_length n (ne l n)). lia.
    + intros x Hx. apply In_nth_error in Hx as [j Hj]. rewrite nth_error_skipn' in Hj. apply (R (n + j)%nat v x); auto. lia.
  - assert (F : length (filter (fun x => negb (lt v x)) (firstn n (ne l n))) = n).
    { rewrite filter_all_length; [apply firstn_length_le; lia|]. intros x Hx. apply In_nth_error in Hx as [i Hi].
      assert (Hin : (i < n)%nat). { assert (i < length (firstn n (ne l n)))%nat by (apply nth_error_Some; congruence). rewrite firstn_length in *. lia. }
      apply nth_error_firstn in Hi. apply negb_true_iff. apply (Q i n x v); auto. }
    assert (S : exists r, skipn n (ne l n) = v :: r).
    { destruct (skipn n (ne l n)) as [|w r] eqn:Es.
      - assert (length (skipn n (ne l n)) = O) by (rewrite Es; auto). rewrite skipn_length in *. lia.
      - exists r. f_equal. assert (nth_error (skipn n (ne l n)) 0 = Some w) by (rewrite Es; auto). rewrite nth_error_skipn', Nat.add_0_r in *. congruence. }
    destruct S as [r ->]. cbn [filter]. rewrite Irr. cbn. lia.
Qed.
