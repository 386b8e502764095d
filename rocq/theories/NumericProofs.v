(** * NumericProofs *)

From Coq Require Import ZArith List Bool Lia Arith Permutation.
From Verif Require Import Base Spec Desc Slice SliceSpec Life LifeSpec Expr ExprSpec Numeric NumericSpec Lemmas DescProofs LifeProofs LifeList RunProofs ViewThms ViewThms3 ExprProofs ExprThms.
Import ListNotations.
Open Scope Z_scope.

(** ** seq *)
Lemma seq_loop_spec n : forall i step, (forall k, (k < n)%nat -> 0 <= i + Z.of_nat k * step < W) ->
  seq_loop n i step = map (fun k => i + Z.of_nat k * step) (seq 0 n).
Proof.
  induction n as [|n IH]; intros i step H; cbn [seq_loop seq map]; auto. f_equal; [lia|].
  destruct n as [|n']; [reflexivity|].
  assert (E : w64 (i + w64 step) = i + step).
  { rewrite w64_add_r. apply w64_small. specialize (H 1%nat ltac:(lia)). lia. }
  rewrite E, IH.
  - rewrite <- seq_shift, map_map. apply map_ext. intros a. lia.
  - intros k Hk. specialize (H (S k) ltac:(lia)). lia.
Qed.

Lemma s64_same_half start stop : 0 <= start < W -> 0 <= stop < W -> (start < 2 ^ 63 <-> stop < 2 ^ 63) -> s64 stop - s64 start = stop - start.
Proof.
  intros Ha Hb Hh. unfold s64. assert (C : forall x, 0 <= x < W -> (x + 2 ^ 63) mod W - 2 ^ 63 = if x <? 2 ^ 63 then x else x - W).
  { intros x Hx. unfold W in *. destruct (x <? 2 ^ 63) eqn:E.
    - apply Z.ltb_lt in E. rewrite Z.mod_small by lia. lia.
    - apply Z.ltb_ge in E. replace (x + 2 ^ 63) with ((x - 2 ^ 63) + 1 * 2 ^ 64) by lia. rewrite Z.mod_add by lia. rewrite Z.mod_small by lia. lia. }
  rewrite !C by auto. destruct (start <? 2 ^ 63) eqn:E1, (stop <? 2 ^ 63) eqn:E2; rewrite ?Z.ltb_lt, ?Z.ltb_ge in *; lia.
Qed.

Lemma sres_ok x : - 2 ^ 63 <= x < 2 ^ 63 -> sres x = Ok x.
Proof. intros H. unfold sres. replace ((- 2 ^ 63 <=? x) && (x <? 2 ^ 63)) with true; auto. symmetry. apply andb_true_iff. split; [apply Z.leb_le|apply Z.ltb_lt]; lia. Qed.

Lemma quot_abs start stop step : reachable_stop start stop step -> Z.quot (stop - start) step = Z.abs (stop - start) / Z.abs step.
Proof.
  intros [[H1 H2]|[H1 H2]].
  - rewrite !Z.abs_eq by lia. apply Z.quot_div_nonneg; lia.
  - rewrite (Z.abs_neq (stop - start)), (Z.abs_neq step) by lia. rewrite <- Z.quot_div_nonneg by lia. rewrite Z.quot_opp_opp by lia. reflexivity.
Qed.

Lemma progression_iff start stop step v : reachable_stop start stop step ->
  in_progression start stop step v <-> In v (map (fun k => start + k * step) (iota (Z.abs (stop - start) / Z.abs step + 1))).
Proof.
  intros H. assert (Hs : 0 < Z.abs step) by (destruct H as [[]|[]]; lia).
  assert (D := Z.div_mod (Z.abs (stop - start)) (Z.abs step) ltac:(lia)). assert (M := Z.mod_pos_bound (Z.abs (stop - start)) (Z.abs step) Hs).
  set (q := Z.abs (stop - start) / Z.abs step) in *. set (r := Z.abs (stop - start) mod Z.abs step) in *. split.
  - intros [k [K1 [K2 [K3 K4]]]]. apply in_map_iff. exists k. split; auto. apply in_iota. split; auto.
    destruct H as [[H1 H2]|[H1 H2]].
    + specialize (K3 H2). rewrite !Z.abs_eq in * by lia. nia.
    + specialize (K4 H2). rewrite (Z.abs_neq (stop - start)), (Z.abs_neq step) in * by lia. nia.
  - intros K. apply in_map_iff in K as [k [<- K]]. apply in_iota in K. exists k. split; [lia|]. split; auto. split; intros Hp.
    + destruct H as [[H1 H2]|[H1 H2]]; [|lia]. rewrite !Z.abs_eq in * by lia. nia.
    + destruct H as [[H1 H2]|[H1 H2]]; [lia|]. rewrite (Z.abs_neq (stop - start)), (Z.abs_neq step) in * by lia. nia.
Qed.

Lemma iota_map_seq {B} (f : Z -> B) n : map f (iota n) = map (fun k => f (Z.of_nat k)) (seq 0 (Z.to_nat n)).
Proof. unfold iota. rewrite map_map. reflexivity. Qed.

Theorem seq_spec chk start stop step : 0 <= start < W -> 0 <= stop < W -> (start < 2 ^ 63 <-> stop < 2 ^ 63) ->
  - 2 ^ 63 < step < 2 ^ 63 -> reachable_stop start stop step -> Z.abs (stop - start) / Z.abs step < vec_max ->
  exists l, seq_model chk start stop step = Ok l /\
    l = map (fun k => start + k * step) (iota (Z.of_nat (length l))) /\
    NoDup l /\ (forall v, In v l <-> in_progression start stop step v) /\ (In stop l <-> Z.divide step (stop - start)).
Proof.
  intros Ha Hb Hh Hst Hr Hn.
  assert (Hs : 0 < Z.abs step) by (destruct Hr as [[]|[]]; lia).
  assert (Hdiff : - 2 ^ 63 < stop - start < 2 ^ 63).
  { unfold W in *. destruct (Z_lt_ge_dec start (2 ^ 63)); lia. }
  assert (Q0 : 0 <= Z.abs (stop - start) / Z.abs step) by (apply Z.div_pos; lia).
  unfold seq_model. rewrite !dassert_ok; cbn [bindO].
  2: { destruct Hr as [[]|[]]; apply orb_true_iff; rewrite Z.leb_le, Z.ltb_lt; lia. }
  2: { destruct Hr as [[]|[]]; apply orb_true_iff; rewrite Z.leb_le, Z.ltb_lt; lia. }
  2: { apply negb_true_iff, Z.eqb_neq. lia. }
  rewrite s64_same_half by auto. rewrite sres_ok by lia. cbn [bindO].
  replace (step =? 0) with false by (symmetry; apply Z.eqb_neq; lia).
  rewrite (quot_abs _ _ _ Hr). unfold vec_max in *. rewrite sres_ok by lia. cbn [bindO]. rewrite sres_ok by lia. cbn [bindO].
  rewrite w64_small by (unfold W; lia).
  replace (2 ^ 60 - 1 <? Z.abs (stop - start) / Z.abs step + 1) with false by (symmetry; apply Z.ltb_ge; lia).
  set (n := Z.abs (stop - start) / Z.abs step + 1) in *.
  assert (E : seq_loop (Z.to_nat n) start step = map (fun k => start + k * step) (iota n)).
  { rewrite iota_map_seq. apply seq_loop_spec. intros k Hk.
    assert (K : In (start + Z.of_nat k * step) (map (fun k => start + k * step) (iota n))).
    { apply in_map_iff. exists (Z.of_nat k). split; auto. apply in_iota. lia. }
    apply progression_iff in K; auto. destruct K as [k' [K1 [K2 [K3 K4]]]]. destruct Hr as [[H1 H2]|[H1 H2]]; [specialize (K3 H2)|specialize (K4 H2)]; nia. }
  rewrite E. eexists. split; [reflexivity|]. rewrite map_length, iota_length. split; [f_equal; f_equal; lia|]. split; [|split].
  - apply FinFun.Injective_map_NoDup; [|apply iota_NoDup]. intros a b H. destruct Hr as [[]|[]]; nia.
  - intros v. symmetry. apply (progression_iff _ _ _ _ Hr).
  - pose proof (progression_iff _ _ _ stop Hr) as PI. fold n in PI. rewrite <- PI. clear PI. split.
    + intros [k [K1 [K2 _]]]. exists k. lia.
    + intros [k K]. exists k. split; [destruct Hr as [[]|[]]; nia|]. split; [lia|]. split; lia.
Qed.

Theorem seq_too_long chk start stop step : 0 <= start < W -> 0 <= stop < W -> (start < 2 ^ 63 <-> stop < 2 ^ 63) ->
  - 2 ^ 63 < step < 2 ^ 63 -> reachable_stop start stop step -> vec_max <= Z.abs (stop - start) / Z.abs step < 2 ^ 63 - 1 ->
  seq_model chk start stop step = Throw LogicError.
Proof.
  intros Ha Hb Hh Hst Hr Hn.
  assert (Hs : 0 < Z.abs step) by (destruct Hr as [[]|[]]; lia).
  assert (Hdiff : - 2 ^ 63 < stop - start < 2 ^ 63).
  { unfold W in *. destruct (Z_lt_ge_dec start (2 ^ 63)); lia. }
  unfold seq_model. rewrite !dassert_ok; cbn [bindO].
  2: { destruct Hr as [[]|[]]; apply orb_true_iff; rewrite Z.leb_le, Z.ltb_lt; lia. }
  2: { destruct Hr as [[]|[]]; apply orb_true_iff; rewrite Z.leb_le, Z.ltb_lt; lia. }
  2: { apply negb_true_iff, Z.eqb_neq. lia. }
  rewrite s64_same_half by auto. rewrite sres_ok by lia. cbn [bindO].
  replace (step =? 0) with false by (symmetry; apply Z.eqb_neq; lia).
  rewrite (quot_abs _ _ _ Hr). unfold vec_max in *. rewrite sres_ok by lia. cbn [bindO]. rewrite sres_ok by lia. cbn [bindO].
  rewrite w64_small by (unfold W; lia).
  replace (2 ^ 60 - 1 <? Z.abs (stop - start) / Z.abs step + 1) with true by (symmetry; apply Z.ltb_lt; lia). reflexivity.
Qed.

Theorem seq_unreachable start stop step : ~ reachable_stop start stop step -> seq_model true start stop step = Abort.
Proof.
  intros H. unfold seq_model. unfold reachable_stop in H.
  destruct (step =? 0) eqn:E0; [reflexivity|]. apply Z.eqb_neq in E0.
  destruct ((start <=? stop) || (step <? 0)) eqn:E1; [|reflexivity].
  destruct ((stop <=? start) || (0 <? step)) eqn:E2; [|reflexivity].
  exfalso. apply H. rewrite orb_true_iff, Z.leb_le, Z.ltb_lt in E1, E2. lia.
Qed.

Lemma safe_int_cast_ok chk v : 0 <= v -> v <= 2 ^ 31 - 1 -> safe_int_cast chk v = Ok v.
Proof.
  intros H0 H. unfold safe_int_cast. rewrite dassert_ok by (apply Z.leb_le; exact H). cbn. f_equal. unfold s32. rewrite Z.mod_small; lia.
Qed.
Lemma safe_int_cast_big v : 2 ^ 31 <= v -> safe_int_cast true v = Abort.
Proof. intros H. unfold safe_int_cast. replace (v <=? 2 ^ 31 - 1) with false by (symmetry; apply Z.leb_gt; lia). reflexivity. Qed.

(** ** iterator walks *)
Section Walks.
Context {V : Type}.
Notation mem := (@mem V).
Notation expr := (@expr V).
Lemma xat_not_end fuel m h e es k : expr_ok fuel m e es -> Z.of_nat k < zprod es -> forall x xe, @xat V fuel h e k x xe -> xeqb x xe = false.
Proof.
  intros K. induction K as [sid s es ps [H1 [H2 [H3 [H4 [H5 H6]]]]] Hi | f e es K IH | f c e es K IH | f e c es K IH | f e1 e2 es K1 IH1 K2 IH2];
    intros Hk x xe; destruct x as [sid' i|src i|src i j], xe as [sid'' ie|src' ie|src' ie je]; cbn; try tauto.
  - intros [-> [ps' [Ep [Hle Hw]]]]. assert (ps' = ps) by congruence. subst ps'.
    destruct (nth_error ps k) as [p|] eqn:E; [|apply nth_error_None in E; lia].
    rewrite (skipn_nth _ _ _ E) in Hw. inversion Hw; subst; auto.
  - intros [_ X]. eauto.
  - intros [_ X]. eauto.
  - intros [_ X]. eauto.
  - intros [_ [X Y]]. rewrite (IH1 Hk _ _ X). reflexivity.
Qed.

Lemma xdist_spec fuel m h e es xe : expr_ok fuel m e es -> forall n k x fu, Z.of_nat (k + n) = zprod es -> (n < fu)%nat -> @xat V fuel h e k x xe ->
  xdist fu x xe = Ok (Z.of_nat n).
Proof.
  intros K. induction n as [|n IH]; intros k x fu Hk Hf X; (destruct fu as [|fu]; [lia|]); cbn [xdist].
  - rewrite (xat_end _ _ _ _ _ k K ltac:(lia) _ _ X). reflexivity.
  - rewrite (xat_not_end _ _ _ _ _ k K ltac:(lia) _ _ X). destruct (xat_next _ _ _ _ _ k K ltac:(lia) _ _ X) as [x' [-> X']]. cbn [bindO].
    rewrite (IH (S k) x' fu) by (auto; lia). cbn [bindO]. f_equal. lia.
Qed.

Theorem as_vector_spec (conv : V -> V) chk fuel fu (m : mem) (e : expr) es : expr_ok fuel m e es -> (Z.to_nat (zprod es) < fu)%nat ->
  exists vs, as_vector conv chk fu m e = Ok ([zprod es], vs) /\ Z.of_nat (length vs) = zprod es /\
    (forall k, (k < length vs)%nat -> nth_error vs k = lift1 conv (value fuel m e k)).
Proof.
  intros K Hf. destruct (eval_expr_spec chk fuel m e es K) as [vs [E [L Hvs]]]. unfold as_vector.
  destruct (build_spec _ _ _ _ K chk []) as [x [xe [h [Eb X]]]]. unfold eval_expr, materialise in E. rewrite Eb in *. cbn [bindO fst snd sdim sbeg send app] in *.
  destruct (expr_ok_dims _ _ _ _ K) as [D1 [D2 D3]]. assert (P := zprod_nonneg _ D2).
  rewrite (xdist_spec fuel m h e es xe K (Z.to_nat (zprod es)) 0 x fu ltac:(lia) Hf X). cbn [bindO]. rewrite Nat2Z.id.
  rewrite prod_arr_small in E by auto. destruct (copy_n (Z.to_nat (zprod es)) h m x) as [[vs' lg]| | | |]; try discriminate. cbn [bindO fst snd] in *. injection E as -> _.
  exists (map conv vs). split; [f_equal; f_equal; f_equal; lia|]. rewrite map_length. split; auto. intros k Hk. rewrite nth_error_map, (Hvs k Hk).
  destruct (value fuel m e k); reflexivity.
Qed.

End Walks.

(** ** products *)
Section Products.
Context {V : Type}.
Variables (zero : V) (add mul : V -> V -> V).
Notation mem := (@mem V).
Notation expr := (@expr V).

Fixpoint sum_values (fuel : nat) (m : mem) (e : expr) (ks : list nat) (acc : V) : option V :=
  match ks with
  | [] => Some acc
  | k :: ks' => match value fuel m e k with Some v => sum_values fuel m e ks' (add acc v) | None => None end
  end.


Lemma sum_loop_spec fuel m h e es xe : expr_ok fuel m e es -> forall n k x fu acc, Z.of_nat (k + n) = zprod es -> (n < fu)%nat -> @xat V fuel h e k x xe ->
  exists r, sum_values fuel m e (seq k n) acc = Some r /\ sum_loop add fu h m x xe acc = Ok r.
Proof.
  intros K. induction n as [|n IH]; intros k x fu acc Hk Hf X; (destruct fu as [|fu]; [lia|]); cbn [sum_loop sum_values seq].
  - rewrite (xat_end _ _ _ _ _ k K ltac:(lia) _ _ X). eauto.
  - rewrite (xat_not_end _ _ _ _ _ k K ltac:(lia) _ _ X).
    destruct (xat_deref _ _ _ _ _ k K ltac:(lia) _ _ X) as [v [-> ->]]. destruct (xat_next _ _ _ _ _ k K ltac:(lia) _ _ X) as [x' [-> X']]. cbn [bindO fst].
    apply IH; auto; lia.
Qed.



Lemma sinv_is_view s es ps fuel : sinv s (es, ps) -> (Z.to_nat (zprod es) < fuel)%nat -> is_view fuel s es ps.
Proof.
  intros I Hf. destruct (sinv_good _ _ I) as [[G1 [G2 G3]] L]. cbn [fst snd] in *. split; [apply (sinv_dims _ _ I)|]. split; [apply (sinv_positions _ _ _ I Hf)|].
  split; auto. split; [apply all_pos_nonneg; auto|]. split; auto. unfold MAXSZ in G3. unfold W. lia.
Qed.

Lemma mapO_ext_ok {A B} (f : A -> outcome B) (g : A -> B) l : (forall a, In a l -> f a = Ok (g a)) -> mapO f l = Ok (map g l).
Proof. induction l as [|a l IH]; intros H; cbn; auto. rewrite H by (left; auto). cbn. rewrite IH by (intros; apply H; right; auto). reflexivity. Qed.

Lemma row_view chk fuel s r c ps i : sinv s ([r; c], ps) -> (Z.to_nat (r * c) < fuel)%nat -> 0 <= i < r ->
  exists s', run chk fuel s [UIdx i; UEvery] = Ok s' /\ sinv s' ([c], map (fun j => aview_at ([r; c], ps) [i; j]) (iota c)).
Proof.
  intros Hs Hf Hi. destruct (axis_row chk fuel s r c ps i Hs Hf Hi) as [s' [E I]]. exists s'. split; auto.
  unfold axis_at in E. rewrite (sinv_dims _ _ Hs) in E. cbn [fst length seq map Nat.eqb] in E. apply bindO_Ok_inv in E as [s1 [E1 E2]]. rewrite E1.
  destruct (dims s1) as [es'|] eqn:Ed; [|discriminate]. cbn [Nat.sub] in E2.
  (* the row has order 1: nothing is dropped *)
  pose proof (sinv_good _ _ Hs) as ((Hne & Hp & HM) & Hl). cbn [fst snd] in *.
  assert (Hc : 0 < c) by (inversion Hp as [|? ? ? Hp2]; subst; inversion Hp2; auto).
  assert (Hrs : result_shape [UIdx i; UEvery] [r; c] = [c]) by (simpl; rewrite iota_length; f_equal; lia).
  assert (Hz : zprod [r; c] = r * c) by (unfold zprod; simpl; lia).
  destruct (run_any chk fuel s ([r; c], ps) [UIdx i; UEvery] Hs) as [R _]; auto.
  { constructor; [simpl; lia|]. constructor; [exact Logic.I|constructor]. }
  { cbn [fst]. rewrite Hz. auto. }
  { intros _. cbn [fst]. rewrite Hrs. unfold zprod; simpl. rewrite Hz in HM. nia. }
  destruct (R eq_refl) as (s2 & E3 & I2). rewrite E1 in E3. injection E3 as <-.
  rewrite (sinv_dims _ _ I2) in Ed. unfold aselect in Ed. cbn [fst] in Ed. rewrite Hrs in Ed. injection Ed as <-. cbn in E2. exact E2.
Qed.

Lemma colmajor_single n : colmajor [n] = map (fun l => [l]) (iota n).
Proof. apply colmajor_1. Qed.

Lemma col_view chk fuel s r c ps j : sinv s ([r; c], ps) -> ident s -> (Z.to_nat (r * c) < fuel)%nat -> 0 <= j < c ->
  exists s0 s', run chk fuel s [UEvery; UIdx j] = Ok s0 /\ drop_to chk 1 s0 = Ok s' /\ sinv s' ([r], map (fun i => aview_at ([r; c], ps) [i; j]) (iota r)).
Proof.
  intros Hs Hid Hf Hj. destruct (axis_last chk fuel s [r] c ps j) as [s' [E I]]; auto; [discriminate|unfold zprod; cbn; rewrite Z.mul_1_r; auto|].
  cbn [app] in I. rewrite drop_unit_col, colmajor_single, map_map in I. cbn [app] in I.
  unfold axis_at in E. rewrite (sinv_dims _ _ Hs) in E. cbn [fst length seq map Nat.eqb] in E. apply bindO_Ok_inv in E as [s1 [E1 E2]].
  exists s1, s'. split; auto.
  destruct (dims s1) as [es'|] eqn:Ed; [|discriminate]. cbn [Nat.sub] in E2.
  pose proof (sinv_good _ _ Hs) as ((Hne & Hp & HM) & Hl). cbn [fst snd] in *.
  assert (Hc : 0 < r) by (inversion Hp; auto).
  assert (Hrs : result_shape [UEvery; UIdx j] [r; c] = [r; 1]) by (simpl; rewrite iota_length; f_equal; lia).
  assert (Hz : zprod [r; c] = r * c) by (unfold zprod; simpl; lia).
  destruct (run_any chk fuel s ([r; c], ps) [UEvery; UIdx j] Hs) as [R _]; auto.
  { constructor; [exact Logic.I|]. constructor; [simpl; lia|constructor]. }
  { apply loses_true. reflexivity. }
  { cbn [fst]. rewrite Hz. auto. }
  { intros _. cbn [fst]. rewrite Hrs. unfold zprod; simpl. rewrite Hz in HM. nia. }
  destruct (R eq_refl) as (s2 & E3 & I2). rewrite E1 in E3. injection E3 as <-.
  rewrite (sinv_dims _ _ I2) in Ed. unfold aselect in Ed. cbn [fst] in Ed. rewrite Hrs in Ed. injection Ed as <-. cbn [length Nat.eqb] in E2. auto.
Qed.

Lemma sum_values_dot fuel m e f g n : (forall l, 0 <= l < n -> value fuel m e (Z.to_nat l) = Some (mul (f l) (g l))) ->
  sum_values fuel m e (seq 0 (Z.to_nat n)) zero = Some (dot_sum zero add mul f g n).
Proof.
  intros H. unfold dot_sum, iota. assert (G : forall ks acc, (forall k, In k ks -> (k < Z.to_nat n)%nat) ->
    sum_values fuel m e ks acc = Some (fold_left (fun acc l => add acc (mul (f l) (g l))) (map Z.of_nat ks) acc)).
  { induction ks as [|k ks IH]; intros acc Hk; cbn; auto. assert (Hk0 := Hk k (or_introl eq_refl)).
    specialize (H (Z.of_nat k) ltac:(lia)). rewrite Nat2Z.id in H. rewrite H. apply IH. intros; apply Hk; right; auto. }
  apply G. intros k Hk. apply in_seq in Hk. lia.
Qed.

Lemma product_elem_spec chk fuel m sa a va sb b vb r k p A B i j :
  sinv a va -> sinv b vb -> ident b -> inside m sa (snd va) -> inside m sb (snd vb) -> is_matrix m sa va r k A -> is_matrix m sb vb k p B ->
  (Z.to_nat (r * k) < fuel)%nat -> (Z.to_nat (k * p) < fuel)%nat -> 0 <= i < r -> 0 <= j < p ->
  product_elem zero add mul chk fuel m sa a sb b i j = Ok (dot_sum zero add mul (fun l => A i l) (fun l => B l j) k).
Proof.
  intros Ia Ib Hid Na Nb [Sa Ma] [Sb Mb] Fa Fb Hi Hj. destruct va as [ea pa], vb as [eb pb]. cbn [fst snd] in *. subst ea eb.
  destruct (row_view chk fuel a r k pa i Ia Fa Hi) as [ra [Ea Ira]]. destruct (col_view chk fuel b k p pb j Ib Hid Fb Hj) as [cb0 [cb [Eb0 [Eb Icb]]]].
  unfold product_elem. rewrite Ea. cbn [bindO]. rewrite Eb0. cbn [bindO]. rewrite Eb. cbn [bindO].
  destruct (sinv_good _ _ Ia) as [[_ [Ga GM]] La]. destruct (sinv_good _ _ Ib) as [[_ [Gb _]] Lb]. cbn [fst snd] in *.
  assert (Hk : 0 < k) by (inversion Gb; auto).
  assert (Hr : 0 < r) by (inversion Ga; auto). assert (Hp : 0 < p) by (inversion Gb as [|? ? ? G2]; subst; inversion G2; auto).
  assert (Zk : zprod [k] = k) by (unfold zprod; cbn; lia).
  assert (VA : is_view fuel ra [k] (map (fun j => aview_at ([r; k], pa) [i; j]) (iota k))) by (apply sinv_is_view; auto; rewrite Zk; nia).
  assert (VB : is_view fuel cb [k] (map (fun l => aview_at ([k; p], pb) [l; j]) (iota k))) by (apply sinv_is_view; auto; rewrite Zk; nia).
  assert (RA : forall l, 0 <= l < k -> In (aview_at ([r; k], pa) [i; l]) pa).
  { intros l Hl. apply aview_at_In; auto. repeat constructor; cbn; lia. }
  assert (RB : forall l, 0 <= l < k -> In (aview_at ([k; p], pb) [l; j]) pb).
  { intros l Hl. apply aview_at_In; auto. repeat constructor; cbn; lia. }
  assert (K : expr_ok fuel m (EBin mul (ELeaf sa ra) (ELeaf sb cb)) [k]).
  { constructor; econstructor; eauto.
    - destruct Na as [c [Ec F]]. exists c. split; auto. apply Forall_forall. intros q Hq. apply in_map_iff in Hq as [l [<- Hl]]. apply in_iota in Hl.
      rewrite Forall_forall in F. apply F. auto.
    - destruct Nb as [c [Ec F]]. exists c. split; auto. apply Forall_forall. intros q Hq. apply in_map_iff in Hq as [l [<- Hl]]. apply in_iota in Hl.
      rewrite Forall_forall in F. apply F. auto. }
  destruct (build_spec _ _ _ _ K chk []) as [x [xe [h [-> X]]]]. cbn [bindO fst snd sbeg send app] in *.
  destruct (sum_loop_spec fuel m h _ [k] xe K (Z.to_nat k) 0 x fuel zero) as [res [E1 E2]]; auto; [rewrite Zk; lia|nia|].
  rewrite E2. f_equal. rewrite (sum_values_dot fuel m _ (fun l => A i l) (fun l => B l j)) in E1; [congruence|].
  intros l Hl. cbn [value]. destruct VA as [_ [-> _]]. destruct VB as [_ [-> _]]. rewrite !nth_error_map, !iota_nth_error by lia. cbn [option_map].
  rewrite Z2Nat.id by lia. rewrite Ma, Mb by lia. reflexivity.
Qed.

Lemma concat_cols (C : Z -> Z -> V) r c : 0 <= r -> 0 <= c -> lists_matrix (concat (map (fun j => map (fun i => C i j) (iota r)) (iota c))) r c C.
Proof.
  intros Hr Hc.
  assert (Len : forall l : list Z, Z.of_nat (length (concat (map (fun j => map (fun i => C i j) (iota r)) l))) = r * Z.of_nat (length l)).
  { induction l as [|j l IH]; cbn [map concat length]; [lia|]. rewrite app_length, map_length, iota_length, Nat2Z.inj_add, IH. lia. }
  split; [rewrite Len, iota_length; nia|]. intros i j Hi Hj.
  assert (G : forall (l : list Z) q (jj : Z), nth_error l q = Some jj -> nth_error (concat (map (fun j => map (fun i => C i j) (iota r)) l)) (Z.to_nat i + Z.to_nat r * q)%nat = Some (C i jj)).
  { induction l as [|j0 l IH]; intros [|q] jj E; cbn in E; try discriminate.
    - injection E as ->. cbn [map concat]. rewrite nth_error_app1 by (rewrite map_length, iota_length; lia). replace (Z.to_nat i + Z.to_nat r * 0)%nat with (Z.to_nat i) by lia.
      rewrite nth_error_map, iota_nth_error by lia. cbn. f_equal. f_equal. lia.
    - cbn [map concat]. rewrite nth_error_app2 by (rewrite map_length, iota_length; lia). rewrite map_length, iota_length.
      replace (Z.to_nat i + Z.to_nat r * S q - Z.to_nat r)%nat with (Z.to_nat i + Z.to_nat r * q)%nat by nia. apply IH. exact E. }
  replace (Z.to_nat (i + r * j)) with (Z.to_nat i + Z.to_nat r * Z.to_nat j)%nat by nia. apply G.
  rewrite iota_nth_error by lia. f_equal. lia.
Qed.

Theorem product_spec chk fuel m sa a va sb b vb r k p A B :
  sinv a va -> sinv b vb -> ident b -> inside m sa (snd va) -> inside m sb (snd vb) -> is_matrix m sa va r k A -> is_matrix m sb vb k p B ->
  (Z.to_nat (r * k) < fuel)%nat -> (Z.to_nat (k * p) < fuel)%nat ->
  exists vs, product zero add mul chk fuel m sa a sb b = Ok ([r; p], vs) /\
    lists_matrix vs r p (fun i j => dot_sum zero add mul (fun l => A i l) (fun l => B l j) k).
Proof.
  intros Ia Ib Hid Na Nb Ma Mb Fa Fb. assert (Ma' := Ma). assert (Mb' := Mb). destruct Ma' as [Sa _]. destruct Mb' as [Sb _].
  unfold product. rewrite (sinv_dims _ _ Ia), (sinv_dims _ _ Ib), Sa, Sb.
  destruct (sinv_good _ _ Ia) as [Ga La]. destruct (sinv_good _ _ Ib) as [Gb Lb]. rewrite Sa in Ga. rewrite Sb in Gb.
  rewrite !prod_arr_good by auto. destruct Ga as [_ [Ga _]]. destruct Gb as [_ [Gb _]]. assert (Pa := zprod_pos _ Ga). assert (Pb := zprod_pos _ Gb).
  rewrite !dassert_ok; cbn [bindO].
  2: { apply Z.eqb_refl. }
  2: { apply andb_true_iff. rewrite !Z.ltb_lt. lia. }
  unfold product_loop. assert (Hr : 0 < r) by (inversion Ga; auto). assert (Hp : 0 < p) by (inversion Gb as [|? ? ? G2]; subst; inversion G2; auto).
  rewrite (mapO_ext_ok _ (fun j => map (fun i => dot_sum zero add mul (fun l => A i l) (fun l => B l j) k) (iota r))).
  - cbn [bindO]. eexists. split; [reflexivity|]. apply concat_cols; lia.
  - intros j Hj. fold (iota p) in Hj. apply in_iota in Hj. unfold iota. apply mapO_ext_ok. intros i Hi. fold (iota r) in Hi. apply in_iota in Hi.
    eapply product_elem_spec; eauto.
Qed.

(** ** BLAS *)
Lemma load_cell (m : mem) sid p v : 0 <= p -> cell m sid p = Some v -> load m sid p = Ok v.
Proof.
  unfold cell, load. intros Hp. destruct (nth_error m sid) as [c|]; [|discriminate]. intros E. unfold get.
  assert (Z.to_nat p < length c)%nat by (apply nth_error_Some; congruence).
  replace ((0 <=? p) && (p <? Z.of_nat (length c))) with true by (symmetry; apply andb_true_iff; split; [apply Z.leb_le|apply Z.ltb_lt]; lia). rewrite E. reflexivity.
Qed.

Lemma gemm_elem_spec (m : mem) k alpha sa oa lda sb ob ldb i j (A B : Z -> V) :
  (forall l, 0 <= l < k -> load m sa (oa + i + l * lda) = Ok (A l)) -> (forall l, 0 <= l < k -> load m sb (ob + l + j * ldb) = Ok (B l)) ->
  gemm_elem zero add mul m k alpha (sa, oa) lda (sb, ob) ldb i j = Ok (dot_sum zero add mul (fun l => mul alpha (B l)) A k).
Proof.
  intros Ha Hb. unfold gemm_elem, dot_sum. fold (iota k). cbn [fst snd].
  assert (G : forall ls acc, (forall l, In l ls -> 0 <= l < k) ->
    foldO (fun acc l => let* y := load m sb (ob + l + j * ldb) in let* x := load m sa (oa + i + l * lda) in Ok (add acc (mul (mul alpha y) x))) ls acc
    = Ok (fold_left (fun acc l => add acc (mul (mul alpha (B l)) (A l))) ls acc)).
  { induction ls as [|l ls IH]; intros acc Hl; cbn [foldO fold_left]; auto. assert (Hl0 := Hl l (or_introl eq_refl)). rewrite Hb, Ha by auto. cbn [bindO]. apply IH.
    intros; apply Hl; right; auto. }
  apply G. intros l Hl. apply in_iota. exact Hl.
Qed.

End Products.

Section Blas.
Context {V : Type}.
Variables (zero : V) (add mul : V -> V -> V).
Notation mem := (@mem V).

(** Memory agrees with [m] except storage [sc], where the columns before [j] and the first [i] elements of column [j] are written. *)
Definition cwritten (m : mem) (sc : nat) (r p : Z) (C : Z -> Z -> V) (n : Z) (m' : mem) : Prop :=
  (forall sid, sid <> sc -> nth_error m' sid = nth_error m sid) /\ length m' = length m /\
  exists vs, nth_error m' sc = Some vs /\ Z.of_nat (length vs) = r * p /\
    forall i j, 0 <= i < r -> 0 <= j < p -> i + r * j < n -> nth_error vs (Z.to_nat (i + r * j)) = Some (C i j).

Lemma cwritten_load m sc r p C n m' sid q : cwritten m sc r p C n m' -> sid <> sc -> load m' sid q = load m sid q.
Proof. intros [H _] D. unfold load. rewrite H by auto. reflexivity. Qed.

Lemma cwritten_store m sc r p C i j m' : 0 <= i < r -> 0 <= j < p -> cwritten m sc r p C (i + r * j) m' ->
  exists m2, store m' sc (0 + i + j * r) (C i j) = Ok m2 /\ cwritten m sc r p C (i + 1 + r * j) m2.
Proof.
  intros Hi Hj [H1 [H2 [vs [H3 [H4 H5]]]]]. unfold store. rewrite H3. unfold put.
  assert (Hb : i + r * j < r * p) by nia.
  replace (0 + i + j * r) with (i + r * j) by lia.
  replace ((0 <=? i + r * j) && (i + r * j <? Z.of_nat (length vs))) with true by (symmetry; apply andb_true_iff; split; [apply Z.leb_le|apply Z.ltb_lt]; nia).
  cbn [bindO]. eexists. split; [reflexivity|]. assert (Hs : (sc < length m')%nat) by (apply nth_error_Some; congruence).
  split; [|split].
  - intros sid D. rewrite nth_error_upd_ne by auto. apply H1. exact D.
  - rewrite upd_length. exact H2.
  - eexists. split; [apply nth_error_upd_eq; exact Hs|]. split; [rewrite upd_length; exact H4|].
    intros i' j' Hi' Hj' Hn. destruct (Z.eq_dec (i' + r * j') (i + r * j)) as [E|E].
    + rewrite E. rewrite nth_error_upd_eq by nia. assert (j' = j) by nia. assert (i' = i) by nia. subst. reflexivity.
    + rewrite nth_error_upd_ne by nia. apply H5; auto. lia.
Qed.

Lemma foldO_invariant {T A : Type} (f : T -> A -> outcome T) (g : nat -> T -> Prop) : forall l k s,
  (forall j a s', nth_error l j = Some a -> g (k + j)%nat s' -> exists s'', f s' a = Ok s'' /\ g (k + j + 1)%nat s'') -> g k s ->
  exists s', foldO f l s = Ok s' /\ g (k + length l)%nat s'.
Proof.
  induction l as [|a l IH]; intros k s H G; cbn [foldO length].
  - exists s. rewrite Nat.add_0_r. auto.
  - destruct (H O a s eq_refl) as [s1 [E G1]]; [rewrite Nat.add_0_r; exact G|]. rewrite E. cbn [bindO].
    destruct (IH (S k) s1) as [s2 [E2 G2]].
    + intros j b s' Ej Gj. destruct (H (S j) b s') as [s'' [E'' G'']]; [exact Ej|replace (k + S j)%nat with (S k + j)%nat by lia; exact Gj|].
      exists s''. split; auto. replace (S k + j + 1)%nat with (k + S j + 1)%nat by lia. exact G''.
    + replace (S k) with (k + 0 + 1)%nat by lia. exact G1.
    + exists s2. split; auto. replace (k + S (length l))%nat with (S k + length l)%nat by lia. exact G2.
Qed.

Lemma gemm_spec m sa oa sb ob sc r p k alpha (A B : Z -> Z -> V) junk : sa <> sc -> sb <> sc -> 0 < r -> 0 < p -> 0 < k ->
  (forall i l, 0 <= i < r -> 0 <= l < k -> load m sa (oa + i + l * r) = Ok (A i l)) ->
  (forall l j, 0 <= l < k -> 0 <= j < p -> load m sb (ob + l + j * k) = Ok (B l j)) ->
  nth_error m sc = Some junk -> Z.of_nat (length junk) = r * p ->
  exists m' vs, gemm zero add mul m r p k alpha (sa, oa) r (sb, ob) k (sc, 0) r = Ok m' /\ nth_error m' sc = Some vs /\
    lists_matrix vs r p (fun i j => dot_sum zero add mul (fun l => mul alpha (B l j)) (fun l => A i l) k) /\
    (forall sid, sid <> sc -> nth_error m' sid = nth_error m sid).
Proof.
  intros Da Db Hr Hp Hk La Lb Hc Lc. unfold gemm.
  replace ((r <? 0) || (p <? 0) || (k <? 0) || (r <? Z.max 1 r) || (k <? Z.max 1 k) || (r <? Z.max 1 r)) with false.
  2: { symmetry. rewrite !orb_false_iff, !Z.ltb_ge. lia. }
  set (C := fun i j => dot_sum zero add mul (fun l => mul alpha (B l j)) (fun l => A i l) k).
  fold (iota r). fold (iota p). cbn [fst snd].
  assert (I0 : cwritten m sc r p C 0 m).
  { split; [reflexivity|]. split; [reflexivity|]. exists junk. split; auto. split; auto. intros. nia. }
  destruct (foldO_invariant (fun m' j => foldO (fun m'' i =>
             let* v := gemm_elem zero add mul m'' k alpha (sa, oa) r (sb, ob) k i j in store m'' sc (0 + i + j * r) v) (iota r) m')
            (fun n m' => cwritten m sc r p C (r * Z.of_nat n) m') (iota p) 0 m) as [m' [E G]].
  - intros j a s' Ej Gj. assert (Hjl : (j < length (iota p))%nat) by (apply nth_error_Some; congruence). rewrite iota_length in Hjl. rewrite iota_nth_error in Ej by lia. injection Ej as <-.
    destruct (foldO_invariant (fun m'' i => let* v := gemm_elem zero add mul m'' k alpha (sa, oa) r (sb, ob) k i (Z.of_nat j) in store m'' sc (0 + i + Z.of_nat j * r) v)
       (fun n m' => cwritten m sc r p C (Z.of_nat n + r * Z.of_nat j) m') (iota r) 0 s') as [s2 [E2 G2]].
    + intros i b s'' Ei Gi. assert (Hil : (i < length (iota r))%nat) by (apply nth_error_Some; congruence). rewrite iota_length in Hil. rewrite iota_nth_error in Ei by lia. injection Ei as <-.
      cbn [Nat.add] in *.
      rewrite (gemm_elem_spec zero add mul s'' k alpha sa oa r sb ob k (Z.of_nat i) (Z.of_nat j) (fun l => A (Z.of_nat i) l) (fun l => B l (Z.of_nat j))).
      * cbn [bindO]. fold (C (Z.of_nat i) (Z.of_nat j)). destruct (cwritten_store m sc r p C (Z.of_nat i) (Z.of_nat j) s'' ltac:(lia) ltac:(lia) Gi) as [m2 [E2 G2]].
        exists m2. split; auto. replace (Z.of_nat (i + 1)) with (Z.of_nat i + 1) by lia. exact G2.
      * intros l Hl. rewrite (cwritten_load _ _ _ _ _ _ _ sa (oa + Z.of_nat i + l * r) Gi Da). apply La; lia.
      * intros l Hl. rewrite (cwritten_load _ _ _ _ _ _ _ sb (ob + l + Z.of_nat j * k) Gi Db). apply Lb; lia.
    + cbn [Nat.add] in *. exact Gj.
    + exists s2. split; auto. rewrite iota_length in G2. cbn [Nat.add] in *. replace (r * Z.of_nat (j + 1)) with (Z.of_nat (Z.to_nat r) + r * Z.of_nat j) by nia. exact G2.
  - rewrite Z.mul_0_r. exact I0.
  - rewrite iota_length in G. cbn [Nat.add] in G. rewrite Z2Nat.id in G by lia. destruct G as [G1 [G2 [vs [G3 [G4 G5]]]]].
    exists m', vs. split; [exact E|]. split; [exact G3|]. split; [|exact G1]. split; auto. intros i j Hi Hj. apply G5; auto. nia.
Qed.

Theorem blas_product_spec chk m sa oa sb ob r k p alpha A B junk :
  0 < r <= 2 ^ 31 - 1 -> 0 < k <= 2 ^ 31 - 1 -> 0 < p <= 2 ^ 31 - 1 -> 0 <= oa -> 0 <= ob ->
  (forall i l, 0 <= i < r -> 0 <= l < k -> cell m sa (oa + i + r * l) = Some (A i l)) ->
  (forall l j, 0 <= l < k -> 0 <= j < p -> cell m sb (ob + l + k * j) = Some (B l j)) ->
  Z.of_nat (length junk) = r * p ->
  exists vs, blas_product zero add mul chk m sa oa [r; k] sb ob [k; p] alpha junk = Ok ([r; p], vs) /\
    lists_matrix vs r p (fun i j => dot_sum zero add mul (fun l => mul alpha (B l j)) (fun l => A i l) k).
Proof.
  intros Hr Hk Hp Oa Ob Ca Cb Lj. unfold blas_product.
  assert (P1 : prod_arr [r; k] = r * k). { rewrite prod_arr_small; unfold zprod; cbn; [lia|repeat constructor; lia|unfold W; nia]. }
  assert (P2 : prod_arr [k; p] = k * p). { rewrite prod_arr_small; unfold zprod; cbn; [lia|repeat constructor; lia|unfold W; nia]. }
  rewrite P1, P2. rewrite !dassert_ok; cbn [bindO].
  2: { apply Z.eqb_refl. }
  2: { apply andb_true_iff. rewrite !Z.ltb_lt. nia. }
  rewrite !safe_int_cast_ok by lia. cbn [bindO].
  assert (Sa : (sa < length m)%nat). { specialize (Ca 0 0 ltac:(lia) ltac:(lia)). unfold cell in Ca. apply nth_error_Some. destruct (nth_error m sa); congruence. }
  assert (Sb : (sb < length m)%nat). { specialize (Cb 0 0 ltac:(lia) ltac:(lia)). unfold cell in Cb. apply nth_error_Some. destruct (nth_error m sb); congruence. }
  destruct (gemm_spec (m ++ [junk]) sa oa sb ob (length m) r p k alpha A B junk) as [m' [vs [E [E2 [L _]]]]]; try lia.
  - intros i l Hi Hl. apply load_cell; [nia|]. unfold cell. rewrite nth_error_app1 by auto. specialize (Ca i l Hi Hl). unfold cell in Ca. replace (oa + i + l * r) with (oa + i + r * l) by lia. exact Ca.
  - intros l j Hl Hj. apply load_cell; [nia|]. unfold cell. rewrite nth_error_app1 by auto. specialize (Cb l j Hl Hj). unfold cell in Cb. replace (ob + l + j * k) with (ob + l + k * j) by lia. exact Cb.
  - rewrite nth_error_app2, Nat.sub_diag by lia. reflexivity.
  - rewrite E. cbn [bindO]. rewrite E2. eauto.
Qed.

(** [alpha] = 1: the same sums as [product]. *)
Lemma dot_sum_swap one f g n : (forall x y, mul x y = mul y x) -> (forall x, mul one x = x) ->
  dot_sum zero add mul (fun l => mul one (g l)) f n = dot_sum zero add mul f g n.
Proof.
  intros Hc H1. unfold dot_sum. generalize zero. induction (iota n) as [|l ls IH]; intros acc; cbn; auto. rewrite H1, (Hc (g l) (f l)). apply IH.
Qed.

(** ** cat *)
Lemma cat_push_spec (conv : V -> V) chk size a : forall acc, Z.of_nat (length acc) + cat_size a <= size ->
  cat_push conv chk size acc a = Ok (acc ++ map conv (cat_elems a)).
Proof.
  assert (P1 : forall acc v, Z.of_nat (length acc) < size -> cat_push1 chk size acc v = Ok (acc ++ [v] : list V)).
  { intros acc v H. unfold cat_push1. rewrite dassert_ok by (apply negb_true_iff, Z.eqb_neq; lia). cbn [bindO].
    replace (Z.of_nat (length acc) <? size) with true by (symmetry; apply Z.ltb_lt; lia). reflexivity. }
  destruct a as [v|vs]; cbn [cat_push cat_size cat_elems]; intros acc H.
  - apply P1. lia.
  - revert acc H. induction vs as [|v vs IH]; intros acc H; cbn [foldO map].
    + rewrite app_nil_r. reflexivity.
    + cbn [length] in H. rewrite P1 by lia. cbn [bindO]. rewrite IH by (rewrite app_length; cbn; lia). rewrite <- app_assoc. reflexivity.
Qed.

Lemma cat_elems_size (a : @cat_arg V) : cat_size a = Z.of_nat (length (cat_elems a)).
Proof. destruct a; reflexivity. Qed.

Theorem cat_spec (conv : V -> V) chk args : Z.of_nat (length (concat (map cat_elems args))) < W ->
  cat conv chk args = Ok ([Z.of_nat (length (concat (map cat_elems args)))], map conv (concat (map cat_elems args))).
Proof.
  intros H. unfold cat.
  assert (S : fold_left (fun s a => w64 (s + cat_size a)) args 0 = Z.of_nat (length (concat (map cat_elems args)))).
  { assert (G : forall (args : list (@cat_arg V)) s, 0 <= s -> s + Z.of_nat (length (concat (map cat_elems args))) < W ->
      fold_left (fun s a => w64 (s + cat_size a)) args s = s + Z.of_nat (length (concat (map cat_elems args)))).
    { clear. induction args as [|a args IH]; intros s Hs H; cbn [fold_left map concat] in *; [cbn; lia|]. rewrite app_length in *. rewrite cat_elems_size.
      rewrite w64_small by lia. rewrite IH by lia. lia. }
    rewrite G; lia. }
  rewrite S. set (n := Z.of_nat (length (concat (map cat_elems args)))) in *.
  assert (F : foldO (cat_push conv chk n) args [] = Ok (map conv (concat (map cat_elems args)))).
  { assert (G : forall args acc, Z.of_nat (length acc) + Z.of_nat (length (concat (map cat_elems args))) <= n ->
      foldO (cat_push conv chk n) args acc = Ok (acc ++ map conv (concat (map cat_elems args)))).
    { clearbody n. clear. induction args as [|a args IH]; intros acc H; cbn [foldO map concat] in *; [rewrite ?app_nil_r; reflexivity|]. rewrite app_length in H.
      rewrite cat_push_spec by (rewrite cat_elems_size; lia). cbn [bindO]. rewrite IH by (rewrite app_length, map_length; lia). rewrite map_app, app_assoc. reflexivity. }
    rewrite G by (cbn; lia). reflexivity. }
  rewrite F. cbn [bindO]. rewrite map_length. fold n. rewrite Z.eqb_refl, dassert_true. reflexivity.
Qed.
End Blas.

(** ** flatten and reshape *)
Lemma reshape_ref_spec chk fuel off es es' ps : zprod es' = zprod es -> all_nonneg es -> all_nonneg es' -> zprod es < W -> positions fuel (SRef off es) = Ok ps ->
  reshape_ref chk (SRef off es) es' = Ok (SRef off es') /\ positions fuel (SRef off es') = Ok ps.
Proof.
  intros Hz Hn Hn' Hw. cbn. rewrite !prod_arr_small by (auto; lia). rewrite Hz, Z.eqb_refl, dassert_true. intros H. split; auto.
Qed.
Lemma flatten_spec fuel off es ps : all_nonneg es -> zprod es < W -> positions fuel (SRef off es) = Ok ps ->
  flatten (SRef off es) = Ok (SRef off [zprod es]) /\ positions fuel (SRef off [zprod es]) = Ok ps.
Proof.
  intros Hn Hw. cbn [flatten positions]. rewrite prod_arr_small by auto. intros H. split; auto. rewrite <- H.
  rewrite prod_arr_small; unfold zprod; cbn; rewrite ?Z.mul_1_r; auto. repeat constructor. apply zprod_nonneg in Hn. exact Hn.
Qed.
Lemma reshape_ref_mismatch off es es' : all_nonneg es -> all_nonneg es' -> zprod es < W -> zprod es' < W -> zprod es <> zprod es' ->
  reshape_ref true (SRef off es) es' = Abort.
Proof. intros. cbn. rewrite !prod_arr_small by auto. replace (zprod es =? zprod es') with false by (symmetry; apply Z.eqb_neq; auto). reflexivity. Qed.

(** ** products of views reached by subscripting *)
Section ProductHistories.
Context {V : Type}.
Variables (zero : V) (add mul : V -> V -> V).

Lemma inside_full (m : @mem V) sid c n ps : nth_error m sid = Some c -> Z.of_nat (length c) = n -> Forall (fun p => 0 <= p < n) ps -> inside m sid ps.
Proof. intros E L F. exists c. split; auto. rewrite L. exact F. Qed.

Lemma matrix_of_view (m : @mem V) sid c es (v : aview) r k : nth_error m sid = Some c -> Z.of_nat (length c) = zprod es -> fst v = [r; k] -> (good_shape (fst v) /\ Z.of_nat (length (snd v)) = zprod (fst v)) ->
  Forall (fun p => 0 <= p < zprod es) (snd v) -> is_matrix m sid v r k (fun i j => entry zero c v i j).
Proof.
  intros E L Ev G F. split; auto. intros i j Hi Hj. unfold cell, entry. rewrite E. destruct v as [sh ps]. cbn [fst snd] in *. subst sh.
  assert (Hin : In (aview_at ([r; k], ps) [i; j]) ps).
  { destruct G as [_ G]. cbn in G. apply aview_at_In; auto. repeat constructor; cbn; lia. }
  rewrite Forall_forall in F. specialize (F _ Hin). apply nth_error_nth'. lia.
Qed.

Theorem product_histories chk (m : @mem V) sa ca esa stepsa sb cb esb stepsb r k p :
  good_shape esa -> ok_steps (afull esa) stepsa -> good_shape esb -> ok_steps (afull esb) stepsb -> forallb (forallb no_range) stepsb = true ->
  nth_error m sa = Some ca -> Z.of_nat (length ca) = zprod esa -> nth_error m sb = Some cb -> Z.of_nat (length cb) = zprod esb ->
  fst (aselects (afull esa) stepsa) = [r; k] -> fst (aselects (afull esb) stepsb) = [k; p] ->
  exists fuel0, forall fuel, (fuel0 <= fuel)%nat -> exists a b vs,
    foldO (run chk fuel) stepsa (SRef 0 esa) = Ok a /\ foldO (run chk fuel) stepsb (SRef 0 esb) = Ok b /\
    product zero add mul chk fuel m sa a sb b = Ok ([r; p], vs) /\
    lists_matrix vs r p (fun i j => dot_sum zero add mul (fun l => entry zero ca (aselects (afull esa) stepsa) i l)
                                                         (fun l => entry zero cb (aselects (afull esb) stepsb) l j) k).
Proof.
  intros Ga Ha Gb Hb Hnr Ea La Eb Lb Sa Sb.
  exists (Nat.max (Nat.max (steps_fuel (afull esa) stepsa) (steps_fuel (afull esb) stepsb)) (S (Nat.max (Z.to_nat (r * k)) (Z.to_nat (k * p))))). intros fuel Hf.
  assert (F0 : forall es, Forall (fun p => 0 <= p < zprod es) (snd (afull es))).
  { intros es. cbn. apply Forall_forall. intros q Hq. apply in_iota in Hq. exact Hq. }
  destruct (reachable_aux chk (zprod esa) stepsa fuel (SRef 0 esa) (afull esa) (sinv_full esa Ga) (F0 esa) Ha ltac:(lia)) as [a [Ra [Ia [Fa _]]]].
  destruct (reachable_aux chk (zprod esb) stepsb fuel (SRef 0 esb) (afull esb) (sinv_full esb Gb) (F0 esb) Hb ltac:(lia)) as [b [Rb [Ib [Fb _]]]].
  assert (Hid : ident b). { apply (ident_sinv _ _ Ib). apply (runs_ident chk fuel stepsb (SRef 0 esb)); auto; exact Logic.I. }
  destruct (product_spec zero add mul chk fuel m sa a _ sb b _ r k p (fun i l => entry zero ca (aselects (afull esa) stepsa) i l) (fun l j => entry zero cb (aselects (afull esb) stepsb) l j) Ia Ib Hid) as [vs [E L]]; try lia.
  - eapply inside_full; eauto.
  - eapply inside_full; eauto.
  - eapply matrix_of_view; eauto. apply (sinv_good _ _ Ia).
  - eapply matrix_of_view; eauto. apply (sinv_good _ _ Ib).
  - exists a, b, vs. repeat split; auto; apply L.
Qed.

Theorem product_mismatch fuel (m : @mem V) sa a sb b r k k' p : dims a = Some [r; k] -> dims b = Some [k'; p] ->
  good_shape [r; k] -> good_shape [k'; p] -> k <> k' -> product zero add mul true fuel m sa a sb b = Abort.
Proof.
  intros Da Db Ga Gb H. unfold product. rewrite Da, Db, !prod_arr_good by auto. destruct Ga as [_ [Ga _]], Gb as [_ [Gb _]].
  apply zprod_pos in Ga. apply zprod_pos in Gb. replace ((0 <? zprod [r; k]) && (0 <? zprod [k'; p])) with true by (symmetry; apply andb_true_iff; rewrite !Z.ltb_lt; lia).
  replace (k =? k') with false by (symmetry; apply Z.eqb_neq; auto). reflexivity.
Qed.

(** The fast path computes the same matrix. *)
Theorem blas_agrees chk fuel (m : @mem V) one sa oa sb ob r k p ca cb junk :
  (forall x y, mul x y = mul y x) -> (forall x, mul one x = x) ->
  0 < r <= 2 ^ 31 - 1 -> 0 < k <= 2 ^ 31 - 1 -> 0 < p <= 2 ^ 31 - 1 -> 0 <= oa -> 0 <= ob ->
  nth_error m sa = Some ca -> oa + r * k <= Z.of_nat (length ca) -> nth_error m sb = Some cb -> ob + k * p <= Z.of_nat (length cb) ->
  (Z.to_nat (r * k) < fuel)%nat -> (Z.to_nat (k * p) < fuel)%nat -> Z.of_nat (length junk) = r * p ->
  exists vs, blas_product zero add mul chk m sa oa [r; k] sb ob [k; p] one junk = Ok ([r; p], vs) /\
    product zero add mul chk fuel m sa (SRef oa [r; k]) sb (SRef ob [k; p]) = Ok ([r; p], vs) /\
    lists_matrix vs r p (fun i j => dot_sum zero add mul (fun l => nth (Z.to_nat (oa + i + r * l)) ca zero) (fun l => nth (Z.to_nat (ob + l + k * j)) cb zero) k).
Proof.
  intros Hcomm Hone Hr Hk Hp Oa Ob Ea La Eb Lb Fa Fb Lj.
  set (A := fun i l => nth (Z.to_nat (oa + i + r * l)) ca zero). set (B := fun l j => nth (Z.to_nat (ob + l + k * j)) cb zero).
  assert (CA : forall i l, 0 <= i < r -> 0 <= l < k -> cell m sa (oa + i + r * l) = Some (A i l)).
  { intros. unfold cell. rewrite Ea. apply nth_error_nth'. nia. }
  assert (CB : forall l j, 0 <= l < k -> 0 <= j < p -> cell m sb (ob + l + k * j) = Some (B l j)).
  { intros. unfold cell. rewrite Eb. apply nth_error_nth'. nia. }
  destruct (blas_product_spec zero add mul chk m sa oa sb ob r k p one A B junk Hr Hk Hp Oa Ob CA CB Lj) as [vs [E1 L1]].
  assert (Zrk : zprod [r; k] = r * k) by (unfold zprod; cbn; lia). assert (Zkp : zprod [k; p] = k * p) by (unfold zprod; cbn; lia).
  assert (SI : forall off x y, 0 < x <= 2 ^ 31 - 1 -> 0 < y <= 2 ^ 31 - 1 -> sinv (SRef off [x; y]) ([x; y], map (fun q => off + q) (iota (zprod [x; y])))).
  { intros. cbn [sinv fst snd]. split; auto. split; [|auto]. split; [discriminate|]. split; [repeat constructor; lia|]. unfold zprod; cbn. unfold MAXSZ. nia. }
  assert (AT : forall off x y i j, 0 <= i < x -> 0 <= j < y -> aview_at ([x; y], map (fun q => off + q) (iota (zprod [x; y]))) [i; j] = off + i + x * j).
  { intros. unfold aview_at. cbn [fst snd]. assert (EC : cm_pos [x; y] [i; j] = i + x * j) by (cbn; ring). rewrite EC.
    apply nth_error_nth. rewrite nth_error_map, iota_nth_error; [cbn; f_equal; nia|]. unfold zprod; cbn. nia. }
  destruct (product_spec zero add mul chk fuel m sa (SRef oa [r; k]) _ sb (SRef ob [k; p]) _ r k p A B (SI oa r k Hr Hk) (SI ob k p Hk Hp)) as [vs' [E2 L2]]; auto.
  - exact Logic.I.
  - exists ca. split; auto. cbn [snd]. apply Forall_forall. intros q Hq. apply in_map_iff in Hq as [w [<- Hw]]. apply in_iota in Hw. lia.
  - exists cb. split; auto. cbn [snd]. apply Forall_forall. intros q Hq. apply in_map_iff in Hq as [w [<- Hw]]. apply in_iota in Hw. lia.
  - split; auto. intros. rewrite AT by auto. apply CA; auto.
  - split; auto. intros. rewrite AT by auto. apply CB; auto.
  - exists vs. split; auto. assert (L1' : lists_matrix vs r p (fun i j => dot_sum zero add mul (fun l => A i l) (fun l => B l j) k)).
    { destruct L1 as [X Y]. split; auto. intros i j Hi Hj. rewrite (Y i j Hi Hj). f_equal. apply dot_sum_swap; auto. }
    assert (vs' = vs).
    { destruct L1' as [X1 Y1], L2 as [X2 Y2]. apply nth_error_ext. intros n. destruct (le_lt_dec (length vs) n) as [Hn|Hn].
      - rewrite !(proj2 (nth_error_None _ _)) by lia. reflexivity.
      - specialize (Y1 (Z.of_nat n mod r) (Z.of_nat n / r)). specialize (Y2 (Z.of_nat n mod r) (Z.of_nat n / r)).
        assert (M1 := Z.mod_pos_bound (Z.of_nat n) r ltac:(lia)). assert (D1 := Z.div_mod (Z.of_nat n) r ltac:(lia)).
        assert (0 <= Z.of_nat n / r < p) by (split; [apply Z.div_pos; lia|apply Z.div_lt_upper_bound; lia]).
        replace (Z.of_nat n mod r + r * (Z.of_nat n / r)) with (Z.of_nat n) in * by lia. rewrite Nat2Z.id in *. rewrite Y1, Y2 by lia. reflexivity. }
    subst vs'. split; auto.
Qed.
End ProductHistories.

Lemma blas_product_big {V} (zero : V) add mul (m : @mem V) sa oa sb ob r k p alpha junk :
  good_shape [r; k] -> good_shape [k; p] -> 2 ^ 31 <= r \/ 2 ^ 31 <= k \/ 2 ^ 31 <= p ->
  blas_product zero add mul true m sa oa [r; k] sb ob [k; p] alpha junk = Abort.
Proof.
  intros Ga Gb H. unfold blas_product. rewrite !prod_arr_good by auto. destruct Ga as [_ [Ga _]], Gb as [_ [Gb _]].
  assert (Pa := zprod_pos _ Ga). assert (Pb := zprod_pos _ Gb). rewrite dassert_ok by (apply andb_true_iff; rewrite !Z.ltb_lt; lia). cbn [bindO].
  rewrite Z.eqb_refl, dassert_true. cbn [bindO].
  inversion Ga as [|? ? Hr G2]; subst. inversion G2 as [|? ? Hk _]; subst. inversion Gb as [|? ? _ G3]; subst. inversion G3 as [|? ? Hp _]; subst.
  destruct (Z_lt_ge_dec k (2 ^ 31)); [|rewrite (safe_int_cast_big k) by lia; reflexivity]. rewrite (safe_int_cast_ok true k) by lia. cbn [bindO].
  destruct (Z_lt_ge_dec r (2 ^ 31)); [|rewrite (safe_int_cast_big r) by lia; reflexivity]. rewrite (safe_int_cast_ok true r) by lia. cbn [bindO].
  rewrite (safe_int_cast_big p) by lia. reflexivity.
Qed.

(** ** reshape of an owning array *)
Lemma reshape_owning_spec V thr nt ns chk x y es a (vs : list V) bs k st :
  free_var st x = true -> var st y = Some (OArr a) -> holds bs a vs -> fits es -> zprod es = zprod (aexts a) ->
  exists st' a', step thr nt ns chk (OReshape x y es) (World bs k, st) = (ROk tt, (World bs k, st')) /\
    var st' x = Some (OArr a') /\ aexts a' = es /\ holds bs a' vs /\ adata a' = adata a /\ var st' y = Some (OArr (Arr None (aexts a))).
Proof.
  intros Fx Vy Hh Hf Hz. cbn [step]. rewrite Fx, Vy. unfold Life.upd, bld_release.
  assert (Hfa : fits (aexts a)) by apply Hh.
  assert (E1 : massert chk (desc_size (aexts a) =? desc_size es) (World bs k) = (ROk tt, World bs k)).
  { apply massert_ok. unfold desc_size. destruct Hf as [_ [H2 H3]], Hfa as [_ [H5 H6]]. rewrite !prod_arr_small by auto. apply Z.eqb_eq. auto. }
  assert (E2 : massert chk (bld_complete (bld_adopt (adata a) es)) (World bs k) = (ROk tt, World bs k)).
  { apply massert_ok. unfold bld_complete, bld_adopt. cbn [bexts bcount]. apply Nat.eqb_refl. }
  rewrite (bind_ret _ _ _ _ _ E1). erewrite bind_ret by (rewrite (bind_ret _ _ _ _ _ E2); reflexivity). cbn [snd fst bld_destroy bdata bld_adopt].
  assert (Hxy : x <> y). { intros ->. unfold free_var, var in *. destruct (nth_error st y) as [[o|]|]; congruence. }
  assert (Lx : (x < length st)%nat). { apply nth_error_Some. unfold free_var in Fx. destruct (nth_error st x); congruence. }
  assert (Ly : (y < length st)%nat). { apply nth_error_Some. unfold var in Vy. destruct (nth_error st y); congruence. }
  do 2 eexists. split; [reflexivity|]. unfold var, setv. rewrite nth_error_upd_eq by (rewrite upd_length; auto). split; [reflexivity|]. split; [reflexivity|].
  split; [|split; [reflexivity|]].
  - destruct Hh as (H1 & H2 & H3). split; [exact Hf|]. split; [cbn [aexts]; lia|exact H3].
  - rewrite nth_error_upd_ne by auto. rewrite nth_error_upd_eq by auto. reflexivity.
Qed.
