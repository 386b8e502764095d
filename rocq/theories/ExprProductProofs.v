(** * ExprProductProofs: matrix products of expressions. *)

From Coq Require Import ZArith List Bool Lia Arith.
From Verif Require Import Base Spec Desc Slice SliceSpec Life LifeSpec Expr ExprSpec Numeric NumericSpec Lemmas DescProofs LifeProofs LifeList RunProofs ViewThms ViewThms3 ExprProofs ExprThms NumericProofs ProdBlas ExprProduct ExprProductSpec.
Import ListNotations.
Open Scope Z_scope.

Section Operands.
Context {V : Type}.
Variables (zero : V) (add mul : V -> V -> V).
Notation mem := (@mem V).
Notation expr := (@expr V).
Implicit Types (m : mem) (e : expr).

Definition contiguous (off : Z) (es : list Z) : aview := (es, map (fun q => off + q) (iota (zprod es))).
Lemma sinv_contiguous off es : good_shape es -> sinv (SRef off es) (contiguous off es).
Proof. intros G. cbn [sinv contiguous fst snd]. auto. Qed.
Lemma contiguous_at off x y i j : 0 <= i < x -> 0 <= j < y -> aview_at (contiguous off [x; y]) [i; j] = off + i + x * j.
Proof.
  intros Hi Hj. unfold aview_at, contiguous. cbn [fst snd]. assert (EC : cm_pos [x; y] [i; j] = i + x * j) by (cbn; ring). rewrite EC.
  apply nth_error_nth. rewrite nth_error_map, iota_nth_error; [cbn; f_equal; nia|]. unfold zprod; cbn. nia.
Qed.

(** What an evaluated operand is. *)
Definition operand_is m sid s (v : aview) r c A : Prop := sinv s v /\ inside m sid (snd v) /\ is_matrix m sid v r c A.

Lemma operand_grows m extra sid s v r c A : operand_is m sid s v r c A -> operand_is (m ++ extra) sid s v r c A.
Proof.
  intros (S_ & (l & E & F) & (D & M)). split; [exact S_|]. assert (E' : nth_error (m ++ extra) sid = Some l) by (rewrite nth_error_app1; [exact E|apply nth_error_Some; congruence]).
  split; [exists l; auto|]. split; [exact D|]. intros i j Hi Hj. specialize (M i j Hi Hj). unfold cell in *. rewrite E in M. rewrite E'. exact M.
Qed.

Lemma eval_operand_expr chk fuel m e r c A : exp_matrix fuel m e r c A -> good_shape [r; c] -> (forall sid s, e <> ELeaf sid s) ->
  exists vs, eval_operand chk m e = Ok (m ++ [vs], length m, SRef 0 [r; c]) /\ operand_is (m ++ [vs]) (length m) (SRef 0 [r; c]) (contiguous 0 [r; c]) r c A.
Proof.
  intros [K Va] G NL. destruct (eval_expr_spec chk fuel m e [r; c] K) as (vs & E & L & N). exists vs. split.
  - unfold eval_operand. rewrite E. cbn [bindO fst snd]. destruct e; auto. exfalso. now eapply NL.
  - assert (Z2 : zprod [r; c] = r * c) by (unfold zprod; cbn; lia). split; [apply sinv_contiguous, G|]. split.
    + exists vs. rewrite nth_error_app2, Nat.sub_diag by lia. split; [reflexivity|]. cbn [contiguous snd]. apply Forall_forall. intros q Hq. apply in_map_iff in Hq as [w [<- Hw]]. apply in_iota in Hw. lia.
    + split; [reflexivity|]. intros i j Hi Hj. rewrite contiguous_at by auto. unfold cell. rewrite nth_error_app2, Nat.sub_diag by lia. cbn [nth_error].
      replace (0 + i + r * j) with (i + r * j) by lia. rewrite N by nia. apply Va; auto.
Qed.

Lemma values_grow fuel m extra e es : expr_ok fuel m e es -> forall k, Z.of_nat k < zprod es -> value fuel (m ++ extra) e k = value fuel m e k.
Proof.
  induction 1 as [sid s es ps Vw In_| | | |]; intros k Hk; cbn [value]; try (rewrite IHexpr_ok by auto; reflexivity).
  - destruct Vw as (_ & Ep & _ & _ & _ & Lp). rewrite Ep. destruct (nth_error ps k) as [q|]; [|reflexivity]. destruct In_ as (l & El & _). unfold cell. rewrite El, nth_error_app1, El; [reflexivity|apply nth_error_Some; congruence].
  - rewrite IHexpr_ok1, IHexpr_ok2 by auto. reflexivity.
Qed.
Lemma ok_grows fuel m extra e es : expr_ok fuel m e es -> expr_ok fuel (m ++ extra) e es.
Proof.
  induction 1 as [sid s es ps Vw (l & El & F)| | | |]; try (constructor; assumption).
  apply ok_leaf with ps; [assumption|]. exists l. split; [|assumption]. rewrite nth_error_app1; [exact El|apply nth_error_Some; congruence].
Qed.
Lemma matrix_grows fuel m extra e r c A : exp_matrix fuel m e r c A -> 0 < r -> 0 < c -> exp_matrix fuel (m ++ extra) e r c A.
Proof.
  intros [K Va] Hr Hc. split; [now apply ok_grows|]. intros i j Hi Hj. rewrite (values_grow fuel m extra e [r; c] K); [auto|]. unfold zprod; cbn. nia.
Qed.

Lemma pos2 r c : good_shape [r; c] -> 0 < r /\ 0 < c.
Proof. intros (_ & P & _). inversion P as [|? ? X Y]; subst. inversion Y; subst. auto. Qed.

(** Both operands are expressions. *)
Theorem product_exprs_both chk fuel f1 f2 m e1 e2 r k p A B : exp_matrix f1 m e1 r k A -> exp_matrix f2 m e2 k p B -> good_shape [r; k] -> good_shape [k; p] ->
  (forall sid s, e1 <> ELeaf sid s) -> (forall sid s, e2 <> ELeaf sid s) -> (Z.to_nat (r * k) < fuel)%nat -> (Z.to_nat (k * p) < fuel)%nat ->
  exists vs, product_exprs zero add mul chk fuel m e1 e2 = Ok ([r; p], vs) /\ lists_matrix vs r p (fun i j => dot_sum zero add mul (A i) (fun l => B l j) k).
Proof.
  intros M1 M2 G1 G2 N1 N2 F1 F2. destruct (pos2 _ _ G1), (pos2 _ _ G2).
  destruct (eval_operand_expr chk f1 m e1 r k A M1 G1 N1) as (v1 & E1 & O1). apply (matrix_grows f2 m [v1]) in M2; auto.
  destruct (eval_operand_expr chk f2 (m ++ [v1]) e2 k p B M2 G2 N2) as (v2 & E2 & O2). apply (operand_grows _ [v2]) in O1.
  unfold product_exprs. rewrite E1. cbn [bindO fst snd]. rewrite E2. cbn [bindO fst snd]. destruct O1 as (S1 & I1 & X1), O2 as (S2 & I2 & X2).
  apply (product_spec zero add mul chk fuel _ _ _ _ _ _ _ r k p A B S1 S2 Logic.I I1 I2 X1 X2 F1 F2).
Qed.

(** A view and an expression. *)
Theorem product_exprs_right chk fuel f2 m sa a va e2 r k p A B : operand_is m sa a va r k A -> exp_matrix f2 m e2 k p B -> good_shape [k; p] ->
  (forall sid s, e2 <> ELeaf sid s) -> (Z.to_nat (r * k) < fuel)%nat -> (Z.to_nat (k * p) < fuel)%nat ->
  exists vs, product_exprs zero add mul chk fuel m (ELeaf sa a) e2 = Ok ([r; p], vs) /\ lists_matrix vs r p (fun i j => dot_sum zero add mul (A i) (fun l => B l j) k).
Proof.
  intros O1 M2 G2 N2 F1 F2. destruct (eval_operand_expr chk f2 m e2 k p B M2 G2 N2) as (v2 & E2 & O2). apply (operand_grows _ [v2]) in O1.
  unfold product_exprs. cbn [eval_operand bindO fst snd]. rewrite E2. cbn [bindO fst snd]. destruct O1 as (S1 & I1 & X1), O2 as (S2 & I2 & X2).
  apply (product_spec zero add mul chk fuel _ _ _ _ _ _ _ r k p A B S1 S2 Logic.I I1 I2 X1 X2 F1 F2).
Qed.
Theorem product_exprs_left chk fuel f1 m e1 sb b vb r k p A B : exp_matrix f1 m e1 r k A -> operand_is m sb b vb k p B -> ident b -> good_shape [r; k] ->
  (forall sid s, e1 <> ELeaf sid s) -> (Z.to_nat (r * k) < fuel)%nat -> (Z.to_nat (k * p) < fuel)%nat ->
  exists vs, product_exprs zero add mul chk fuel m e1 (ELeaf sb b) = Ok ([r; p], vs) /\ lists_matrix vs r p (fun i j => dot_sum zero add mul (A i) (fun l => B l j) k).
Proof.
  intros M1 O2 Hid G1 N1 F1 F2. destruct (eval_operand_expr chk f1 m e1 r k A M1 G1 N1) as (v1 & E1 & O1). apply (operand_grows _ [v1]) in O2.
  unfold product_exprs. rewrite E1. cbn [bindO fst snd eval_operand]. destruct O1 as (S1 & I1 & X1), O2 as (S2 & I2 & X2).
  apply (product_spec zero add mul chk fuel _ _ _ _ _ _ _ r k p A B S1 S2 Hid I1 I2 X1 X2 F1 F2).
Qed.

(** Operands that come from arrays by subscripts. *)
Lemma operand_history chk fuel m sid ca es steps r c : good_shape es -> ok_steps (afull es) steps -> nth_error m sid = Some ca -> Z.of_nat (length ca) = zprod es ->
  fst (aselects (afull es) steps) = [r; c] -> (steps_fuel (afull es) steps <= fuel)%nat ->
  exists s, foldO (run chk fuel) steps (SRef 0 es) = Ok s /\ operand_is m sid s (aselects (afull es) steps) r c (entry zero ca (aselects (afull es) steps)) /\
    (forallb (forallb no_range) steps = true -> ident s).
Proof.
  intros G Ok_ E L D F.
  assert (F0 : Forall (fun p => 0 <= p < zprod es) (snd (afull es))). { cbn. apply Forall_forall. intros q Hq. apply in_iota in Hq. exact Hq. }
  destruct (reachable_aux chk (zprod es) steps fuel (SRef 0 es) (afull es) (sinv_full es G) F0 Ok_ F) as [s [Rs [Is [Fs _]]]].
  exists s. split; [exact Rs|]. split; [split; [exact Is|split]|].
  - eapply inside_full; eauto.
  - eapply matrix_of_view; eauto. apply (sinv_good _ _ Is).
  - intros Hnr. apply (ident_sinv _ _ Is). apply (runs_ident chk fuel steps (SRef 0 es)); auto; exact Logic.I.
Qed.

(** Sizes. *)
Theorem product_exprs_mismatch fuel f1 f2 m e1 e2 r k k' p A B : exp_matrix f1 m e1 r k A -> exp_matrix f2 m e2 k' p B -> good_shape [r; k] -> good_shape [k'; p] ->
  (forall sid s, e1 <> ELeaf sid s) -> (forall sid s, e2 <> ELeaf sid s) -> k <> k' -> product_exprs zero add mul true fuel m e1 e2 = Abort.
Proof.
  intros M1 M2 G1 G2 N1 N2 D. destruct (pos2 _ _ G1), (pos2 _ _ G2).
  destruct (eval_operand_expr true f1 m e1 r k A M1 G1 N1) as (v1 & E1 & O1). apply (matrix_grows f2 m [v1]) in M2; auto.
  destruct (eval_operand_expr true f2 (m ++ [v1]) e2 k' p B M2 G2 N2) as (v2 & E2 & O2).
  unfold product_exprs. rewrite E1. cbn [bindO fst snd]. rewrite E2. cbn [bindO fst snd]. apply (product_mismatch zero add mul fuel _ _ _ _ _ r k k' p); auto.
Qed.

(** ** the scaled fast path *)
Lemma scaled_is chk m alpha sa oa r k sb ob eb junk :
  blas_product_scaled zero add mul chk m alpha sa oa [r; k] sb ob eb junk = blas_product zero add mul chk m sa oa [r; k] sb ob eb alpha junk.
Proof. reflexivity. Qed.

Theorem blas_scaled_spec chk m alpha sa oa sb ob r k p A B junk :
  0 < r <= 2 ^ 31 - 1 -> 0 < k <= 2 ^ 31 - 1 -> 0 < p <= 2 ^ 31 - 1 -> 0 <= oa -> 0 <= ob ->
  (forall i l, 0 <= i < r -> 0 <= l < k -> cell m sa (oa + i + r * l) = Some (A i l)) ->
  (forall l j, 0 <= l < k -> 0 <= j < p -> cell m sb (ob + l + k * j) = Some (B l j)) ->
  Z.of_nat (length junk) = r * p ->
  exists vs, blas_product_scaled zero add mul chk m alpha sa oa [r; k] sb ob [k; p] junk = Ok ([r; p], vs) /\
    lists_matrix vs r p (fun i j => dot_sum zero add mul (fun l => mul alpha (B l j)) (fun l => A i l) k).
Proof. intros. rewrite scaled_is. now apply blas_product_spec. Qed.

Lemma lists_matrix_unique (vs vs' : list V) r c C : 0 < r -> lists_matrix vs r c C -> lists_matrix vs' r c C -> vs = vs'.
Proof.
  intros Hr [X1 Y1] [X2 Y2]. apply nth_error_ext. intros n. destruct (le_lt_dec (length vs) n) as [Hn|Hn].
  - rewrite !(proj2 (nth_error_None _ _)) by lia. reflexivity.
  - specialize (Y1 (Z.of_nat n mod r) (Z.of_nat n / r)). specialize (Y2 (Z.of_nat n mod r) (Z.of_nat n / r)).
    assert (M1 := Z.mod_pos_bound (Z.of_nat n) r ltac:(lia)). assert (D1 := Z.div_mod (Z.of_nat n) r ltac:(lia)).
    assert (0 <= Z.of_nat n / r < c) by (split; [apply Z.div_pos; lia|apply Z.div_lt_upper_bound; lia]).
    replace (Z.of_nat n mod r + r * (Z.of_nat n / r)) with (Z.of_nat n) in * by lia. rewrite Nat2Z.id in *. rewrite Y1, Y2 by lia. reflexivity.
Qed.

Lemma dot_sum_ext (f g f' g' : Z -> V) n : (forall l, 0 <= l < n -> mul (f l) (g l) = mul (f' l) (g' l)) -> dot_sum zero add mul f g n = dot_sum zero add mul f' g' n.
Proof.
  intros H. unfold dot_sum. assert (G : forall ls, (forall l, In l ls -> 0 <= l < n) -> forall acc,
    fold_left (fun acc l => add acc (mul (f l) (g l))) ls acc = fold_left (fun acc l => add acc (mul (f' l) (g' l))) ls acc).
  { induction ls as [|l ls IH]; intros Hls acc; [reflexivity|]. cbn [fold_left]. rewrite (H l (Hls l (or_introl eq_refl))). apply IH. intros; apply Hls; now right. }
  apply G. intros l Il. now apply in_iota in Il.
Qed.

Lemma is_view_ref fuel off es : good_shape es -> (Z.to_nat (zprod es) < fuel)%nat -> is_view fuel (SRef off es) es (map (fun q => off + q) (iota (zprod es))).
Proof.
  intros G F. assert (G' := G). destruct G as (N & P & B_). assert (P0 := zprod_pos _ P). repeat split; auto.
  - cbn [positions]. rewrite prod_arr_good by auto. f_equal. unfold iota. rewrite map_map. reflexivity.
  - apply all_pos_nonneg, P.
  - unfold MAXSZ, W in *. lia.
  - rewrite map_length, iota_length, Z2Nat.id by lia. reflexivity.
Qed.

(** Where the products in play may be regrouped and exchanged: the same array as [product(alpha * lhs, rhs)]. *)
Theorem blas_scaled_agrees chk fuel m alpha sa oa sb ob r k p ca cb junk :
  (forall x y, In x ca -> In y cb -> mul (mul alpha y) x = mul (mul alpha x) y) ->
  0 < r <= 2 ^ 31 - 1 -> 0 < k <= 2 ^ 31 - 1 -> 0 < p <= 2 ^ 31 - 1 -> 0 <= oa -> 0 <= ob ->
  nth_error m sa = Some ca -> oa + r * k <= Z.of_nat (length ca) -> nth_error m sb = Some cb -> ob + k * p <= Z.of_nat (length cb) ->
  (Z.to_nat (r * k) < fuel)%nat -> (Z.to_nat (k * p) < fuel)%nat -> Z.of_nat (length junk) = r * p ->
  exists vs, blas_product_scaled zero add mul chk m alpha sa oa [r; k] sb ob [k; p] junk = Ok ([r; p], vs) /\
    product_exprs zero add mul chk fuel m (ELeft mul alpha (ELeaf sa (SRef oa [r; k]))) (ELeaf sb (SRef ob [k; p])) = Ok ([r; p], vs).
Proof.
  intros Hx Hr Hk Hp Oa Ob Ea La Eb Lb Fa Fb Lj.
  set (A := fun i l => nth (Z.to_nat (oa + i + r * l)) ca zero). set (B := fun l j => nth (Z.to_nat (ob + l + k * j)) cb zero).
  assert (CA : forall i l, 0 <= i < r -> 0 <= l < k -> cell m sa (oa + i + r * l) = Some (A i l)).
  { intros. unfold cell. rewrite Ea. apply nth_error_nth'. nia. }
  assert (CB : forall l j, 0 <= l < k -> 0 <= j < p -> cell m sb (ob + l + k * j) = Some (B l j)).
  { intros. unfold cell. rewrite Eb. apply nth_error_nth'. nia. }
  assert (Gs : forall x y, 0 < x <= 2 ^ 31 - 1 -> 0 < y <= 2 ^ 31 - 1 -> good_shape [x; y]).
  { intros. split; [discriminate|]. split; [repeat constructor; lia|]. unfold zprod; cbn. unfold MAXSZ. nia. }
  assert (Zz : forall x y, zprod [x; y] = x * y) by (intros; unfold zprod; cbn; lia).
  destruct (blas_scaled_spec chk m alpha sa oa sb ob r k p A B junk Hr Hk Hp Oa Ob CA CB Lj) as (vs & E1 & L1).
  destruct (product_exprs_left chk fuel fuel m (ELeft mul alpha (ELeaf sa (SRef oa [r; k]))) sb (SRef ob [k; p]) (contiguous ob [k; p]) r k p (fun i l => mul alpha (A i l)) B) as (vs' & E2 & L2); auto.
  - split.
    + apply ok_left, ok_leaf with (ps := map (fun q => oa + q) (iota (zprod [r; k]))); [apply is_view_ref; [auto|rewrite Zz; lia]|].
      exists ca. split; auto. apply Forall_forall. intros q Hq. apply in_map_iff in Hq as [w [<- Hw]]. apply in_iota in Hw. rewrite Zz in Hw. lia.
    + intros i l Hi Hl. destruct (is_view_ref fuel oa [r; k] (Gs r k Hr Hk) ltac:(rewrite Zz; lia)) as (_ & Ep & _). cbn [value lift2]. rewrite Ep.
      assert (Q : 0 <= i + r * l < r * k) by nia.
      rewrite nth_error_map, iota_nth_error by (rewrite Zz; lia). cbn [option_map]. rewrite Z2Nat.id by lia.
      replace (oa + (i + r * l)) with (oa + i + r * l) by lia. rewrite CA by auto. reflexivity.
  - split; [apply sinv_contiguous; auto|]. split.
    + exists cb. split; auto. cbn [contiguous snd]. apply Forall_forall. intros q Hq. apply in_map_iff in Hq as [w [<- Hw]]. apply in_iota in Hw. rewrite Zz in Hw. lia.
    + split; [reflexivity|]. intros. rewrite contiguous_at by auto. auto.
  - exact Logic.I.
  - discriminate.
  - exists vs. split; [exact E1|]. rewrite E2. f_equal. f_equal. symmetry. apply (lists_matrix_unique vs vs' r p (fun i j => dot_sum zero add mul (fun l => mul alpha (B l j)) (fun l => A i l) k)); [lia|exact L1|].
    destruct L2 as [X Y]. split; [exact X|]. intros i j Hi Hj. rewrite (Y i j Hi Hj). f_equal. apply dot_sum_ext. intros l Hl. symmetry. apply Hx.
    + specialize (CA i l Hi Hl). unfold cell in CA. rewrite Ea in CA. now apply nth_error_In in CA.
    + specialize (CB l j Hl Hj). unfold cell in CB. rewrite Eb in CB. now apply nth_error_In in CB.
Qed.
End Operands.
