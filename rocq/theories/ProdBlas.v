(** * ProdBlas: the GEMM loop and the generic product, when one is neutral and multiplication commutes on the elements in play. *)

From Coq Require Import ZArith List Bool Lia Arith.
From Verif Require Import Base Spec Desc Slice SliceSpec Life LifeSpec Expr ExprSpec Numeric NumericSpec Lemmas DescProofs LifeProofs LifeList RunProofs ViewThms ViewThms3 ExprProofs ExprThms NumericProofs.
Import ListNotations.
Open Scope Z_scope.

Lemma blas_agrees_on {V} (zero : V) add mul chk fuel (m : @mem V) one sa oa sb ob r k p ca cb junk :
  (forall x y, In x ca -> In y cb -> mul (mul one y) x = mul x y) ->
  0 < r <= 2 ^ 31 - 1 -> 0 < k <= 2 ^ 31 - 1 -> 0 < p <= 2 ^ 31 - 1 -> 0 <= oa -> 0 <= ob ->
  nth_error m sa = Some ca -> oa + r * k <= Z.of_nat (length ca) -> nth_error m sb = Some cb -> ob + k * p <= Z.of_nat (length cb) ->
  (Z.to_nat (r * k) < fuel)%nat -> (Z.to_nat (k * p) < fuel)%nat -> Z.of_nat (length junk) = r * p ->
  exists vs, blas_product zero add mul chk m sa oa [r; k] sb ob [k; p] one junk = Ok ([r; p], vs) /\
    product zero add mul chk fuel m sa (SRef oa [r; k]) sb (SRef ob [k; p]) = Ok ([r; p], vs) /\
    lists_matrix vs r p (fun i j => dot_sum zero add mul (fun l => nth (Z.to_nat (oa + i + r * l)) ca zero) (fun l => nth (Z.to_nat (ob + l + k * j)) cb zero) k).
Proof.
  intros Hswap Hr Hk Hp Oa Ob Ea La Eb Lb Fa Fb Lj.
  set (A := fun i l => nth (Z.to_nat (oa + i + r * l)) ca zero). set (B := fun l j => nth (Z.to_nat (ob + l + k * j)) cb zero).
  assert (CA : forall i l, 0 <= i < r -> 0 <= l < k -> cell m sa (oa + i + r * l) = Some (A i l)).
  { intros. unfold cell. rewrite Ea. apply nth_error_nth'. nia. }
  assert (CB : forall l j, 0 <= l < k -> 0 <= j < p -> cell m sb (ob + l + k * j) = Some (B l j)).
  { intros. unfold cell. rewrite Eb. apply nth_error_nth'. nia. }
  destruct (blas_product_spec zero add mul chk m sa oa sb ob r k p one A B junk Hr Hk Hp Oa Ob CA CB Lj) as [vs [E1 L1]].
  assert (Zrk : zprod [r; k] = r * k) by (unfold zprod; cbn; lia). assert (Zkp : zprod [k; p] = k * p) by (unfold zprod; cbn; lia).
  assert (SI : forall off x y, 0 < x <= 2 ^ 31 - 1 -> 0 < y <= 2 ^ 31 - 1 -> sinv (SRef off [x; y]) ([x; y], map (fun q => off + q) (iota (zprod [x; y])))).
  { intros. cbn [sinv fst snd]. split; auto. split; [|auto]. split; [discriminate|]. split; [repeat constructor; lia|]. unfold zprod; cbn. unfold MAXSZ. nia. }
  assert (AT : forall off x y i j, 0 <= i < x -> 0 <= j < y -> aview_at ([x; y], map (fun q => off + q) (iota (zprod [x; y]))) [i; j] = off + i + x * j).
  { intros. unfold aview_at. cbn [fst snd]. assert (EC : cm_pos [x; y] [i; j] = i + x * j) by (cbn; ring). rewrite EC.
    apply nth_error_nth. rewrite nth_error_map, iota_nth_error; [cbn; f_equal; nia|]. unfold zprod; cbn. nia. }
  destruct (product_spec zero add mul chk fuel m sa (SRef oa [r; k]) _ sb (SRef ob [k; p]) _ r k p A B (SI oa r k Hr Hk) (SI ob k p Hk Hp)) as [vs' [E2 L2]]; auto.
  - exact Logic.I.
  - exists ca. split; auto. cbn [snd]. apply Forall_forall. intros q Hq. apply in_map_iff in Hq as [w [<- Hw]]. apply in_iota in Hw. lia.
  - exists cb. split; auto. cbn [snd]. apply Forall_forall. intros q Hq. apply in_map_iff in Hq as [w [<- Hw]]. apply in_iota in Hw. lia.
  - split; auto. intros. rewrite AT by auto. apply CA; auto.
  - split; auto. intros. rewrite AT by auto. apply CB; auto.
  - exists vs. split; auto. assert (L1' : lists_matrix vs r p (fun i j => dot_sum zero add mul (fun l => A i l) (fun l => B l j) k)).
    { destruct L1 as [X Y]. split; auto. intros i j Hi Hj. rewrite (Y i j Hi Hj). f_equal. unfold dot_sum.
      assert (G : forall ls, (forall l, In l ls -> 0 <= l < k) -> forall acc, fold_left (fun acc l => add acc (mul (mul one (B l j)) (A i l))) ls acc = fold_left (fun acc l => add acc (mul (A i l) (B l j))) ls acc).
      { induction ls as [|l ls IH]; intros Hls acc; [reflexivity|]. cbn [fold_left]. rewrite IH by (intros; apply Hls; now right). f_equal. f_equal.
        assert (Hl := Hls l (or_introl eq_refl)). apply Hswap.
        - specialize (CA i l Hi Hl). unfold cell in CA. rewrite Ea in CA. now apply nth_error_In in CA.
        - specialize (CB l j Hl Hj). unfold cell in CB. rewrite Eb in CB. now apply nth_error_In in CB. }
      apply G. intros l Il. now apply in_iota in Il. }
    assert (vs' = vs).
    { destruct L1' as [X1 Y1], L2 as [X2 Y2]. apply nth_error_ext. intros n. destruct (le_lt_dec (length vs) n) as [Hn|Hn].
      - rewrite !(proj2 (nth_error_None _ _)) by lia. reflexivity.
      - specialize (Y1 (Z.of_nat n mod r) (Z.of_nat n / r)). specialize (Y2 (Z.of_nat n mod r) (Z.of_nat n / r)).
        assert (M1 := Z.mod_pos_bound (Z.of_nat n) r ltac:(lia)). assert (D1 := Z.div_mod (Z.of_nat n) r ltac:(lia)).
        assert (0 <= Z.of_nat n / r < p) by (split; [apply Z.div_pos; lia|apply Z.div_lt_upper_bound; lia]).
        replace (Z.of_nat n mod r + r * (Z.of_nat n / r)) with (Z.of_nat n) in * by lia. rewrite Nat2Z.id in *. rewrite Y1, Y2 by lia. reflexivity. }
    subst vs'. split; auto.
Qed.
