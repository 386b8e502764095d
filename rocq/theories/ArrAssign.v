(** * ArrAssign: [array = expression] where the expression may read the array itself.  Model, specification and proofs.

    Exceptions and accounting of storage are in Life.v; here nothing throws and the elements are values.  A storage number stands for
    the current storage of one array: when an assignment replaces the storage, the new one takes its number (views of the old
    one are the subject of ViewLife.v). *)

From Coq Require Import ZArith List Bool Lia Arith.
From Verif Require Import Base Spec Desc Slice SliceSpec Expr ExprSpec Lemmas DescProofs LifeProofs RunProofs ViewThms ExprProofs ExprThms ExprSeq.
Import ListNotations.
Open Scope Z_scope.

Section ArrAssign.
Context {V : Type}.
Notation mem := (@mem V).
Notation expr := (@expr V).
Implicit Types (m : mem) (e : expr).

(** ** model *)
(** [std::copy(first, last, out)] (array/array.hpp:284, 325): [while (first != last) *out++ = *first++]. *)
Fixpoint copy_to (fuel : nat) (h : @heap V) (x xe : xit) (sid : nat) (p : Z) m : outcome mem :=
  match fuel with
  | O => Timeout
  | S f =>
      if xeqb x xe then Ok m
      else
        let* r := xderef h m x in
        let* m' := store m sid p (fst r) in
        let* x' := xnext x in
        copy_to f h x' xe sid (p + 1) m'
  end.

(** [array = source] (array/array.hpp:319-344; copy assignment l.279-305 runs the same steps on the source's elements).
    [es]: the extents of the array, whose storage is [sid].  The result has the new memory and the new extents. *)
Definition array_set (chk : bool) (fuel : nat) m (sid : nat) (es : list Z) e : outcome (mem * list Z) :=
  let* r := build chk e [] in
  let size := prod_arr (sdim (fst r)) in       (* source.size(): array/expr_array.hpp:32, array/ref_array.hpp:172, array/strided_ref_array.hpp:170 *)
  if prod_arr es =? size then
    let* m' := copy_to fuel (snd r) (sbeg (fst r)) (send (fst r)) sid 0 m in
    Ok (m', sdim (fst r))
  else
    let* q := copy_n (Z.to_nat size) (snd r) m (sbeg (fst r)) in   (* into new storage, the old one still alive *)
    Ok (upd_nat m sid (fst q), sdim (fst r)).

(** ** specification *)
(** The array of storage [sid] now holds the values [v 0], [v 1], ..., [v (n-1)]; the other storages are unchanged. *)
Definition holds m m' (sid : nat) (n : Z) (v : nat -> option V) : Prop :=
  length m' = length m /\ (forall sid', sid' <> sid -> nth_error m' sid' = nth_error m sid') /\
  exists c, nth_error m' sid = Some c /\ Z.of_nat (length c) = n /\ forall k, (k < length c)%nat -> v k <> None /\ nth_error c k = v k.

(** ** proofs *)
Lemma nth_upd_nat_same {A} : forall (l : list A) i v, (i < length l)%nat -> nth_error (upd_nat l i v) i = Some v.
Proof. induction l as [|a l IH]; intros [|i] v H; cbn in *; try lia; [reflexivity|]. apply IH. lia. Qed.
Lemma nth_upd_nat_other {A} : forall (l : list A) i j v, i <> j -> nth_error (upd_nat l i v) j = nth_error l j.
Proof. induction l as [|a l IH]; intros [|i] [|j] v H; cbn; try reflexivity; try lia. apply IH. lia. Qed.

Lemma xat_not_end fuel m h e es k : expr_ok fuel m e es -> Z.of_nat k < zprod es -> forall x xe, xat fuel h e k x xe -> xeqb x xe = false.
Proof.
  intros K. induction K as [sid s es ps [H1 [H2 [H3 [H4 [H5 H6]]]]] Hi | f e es K IH | f c e es K IH | f e c es K IH | f e1 e2 es K1 IH1 K2 IH2];
    intros Hk x xe; destruct x as [sid' i|src i|src i j], xe as [sid'' ie|src' ie|src' ie je]; cbn; try tauto.
  - intros [-> [ps' [Ep [Hle Hw]]]]. assert (ps' = ps) by congruence. subst ps'. destruct (nth_error ps k) as [p|] eqn:E; [|apply nth_error_None in E; lia].
    rewrite (skipn_nth _ _ _ E) in Hw. inversion Hw. auto.
  - intros [_ X]. eauto.
  - intros [_ X]. eauto.
  - intros [_ X]. eauto.
  - intros [_ [X Y]]. rewrite (IH1 Hk _ _ X). reflexivity.
Qed.

Lemma seq_copy_to fuel m e es sid h xe (ps : list Z) : expr_ok fuel m e es -> inside m sid ps -> ps = iota (zprod es) ->
  forall n k mk x fu, (k + n = length ps)%nat -> (n < fu)%nat -> xat fuel h e k x xe -> same_shape m mk ->
  exists m', copy_to fu h x xe sid (Z.of_nat k) mk = Ok m' /\ in_order sid (fun mk k _ => value fuel mk e k) k (skipn k ps) mk = Some m'.
Proof.
  intros K Hi Ep. destruct (expr_ok_dims _ _ _ _ K) as [D1 [D2 D3]].
  assert (L : Z.of_nat (length ps) = zprod es).
  { subst ps. unfold iota. rewrite map_length, seq_length. assert (H := zprod_nonneg _ D2). lia. }
  induction n as [|n IH]; intros k mk x fu Hk Hf X S1; (destruct fu as [|fu]; [lia|]); cbn [copy_to].
  - rewrite skipn_all2 in * by lia. rewrite (xat_end _ _ _ _ _ k K ltac:(lia) _ _ X). cbn. eauto.
  - assert (E : nth_error ps k = Some (Z.of_nat k)).
    { subst ps. unfold iota. rewrite nth_error_map. rewrite nth_error_nth' with (d := O) by (rewrite seq_length; lia). rewrite seq_nth by lia. reflexivity. }
    assert (Xe : xeqb x xe = false) by (eapply xat_not_end; eauto; lia). rewrite Xe.
    rewrite (skipn_nth _ _ _ E).
    assert (K' := expr_ok_shape _ _ _ _ _ S1 K). assert (Hi' := inside_shape _ _ _ _ S1 Hi).
    destruct (xat_deref _ _ _ _ _ k K' ltac:(lia) _ _ X) as [w [Hv ->]]. cbn [bindO fst].
    rewrite (set_cell_store mk sid ps _ w Hi' (nth_error_In _ _ E)). cbn [bindO in_order].
    destruct (xat_next _ _ _ _ _ k K' ltac:(lia) _ _ X) as [x' [-> X']]. cbn [bindO]. rewrite Hv.
    destruct (set_cell_spec mk sid ps (Z.of_nat k) w Hi' (nth_error_In _ _ E)) as [S2 _].
    replace (Z.of_nat k + 1) with (Z.of_nat (S k)) by lia. apply IH; auto; try lia. unfold same_shape in *. congruence.
Qed.

(** The cells of the whole array. *)
Lemma inside_iota m sid (c : list V) n : nth_error m sid = Some c -> Z.of_nat (length c) = n -> inside m sid (iota n).
Proof.
  intros E L. exists c. split; auto. apply Forall_forall. intros p Hp. unfold iota in Hp. apply in_map_iff in Hp as [i [<- Hi]]. apply in_seq in Hi. lia.
Qed.
Lemma iota_nth_error n k : (Z.of_nat k < n) -> nth_error (iota n) k = Some (Z.of_nat k).
Proof.
  intros H. unfold iota. rewrite nth_error_map. rewrite nth_error_nth' with (d := O) by (rewrite seq_length; lia). rewrite seq_nth by lia. reflexivity.
Qed.
Lemma iota_len n : 0 <= n -> Z.of_nat (length (iota n)) = n.
Proof. intros H. unfold iota. rewrite map_length, seq_length. lia. Qed.

(** Same number of elements: one after the other, each reading what the previous ones left. *)
Theorem array_set_same_size chk fuel fu m sid c es es' e : nth_error m sid = Some c -> Z.of_nat (length c) = zprod es -> all_nonneg es -> zprod es < W ->
  expr_ok fuel m e es' -> zprod es' = zprod es -> (length c < fu)%nat ->
  exists m', array_set chk fu m sid es e = Ok (m', es') /\ in_order sid (fun mk k _ => value fuel mk e k) 0 (iota (zprod es)) m = Some m'.
Proof.
  intros Ec Lc N B K Ez Hf. unfold array_set. destruct (build_spec _ _ _ _ K chk []) as [x [xe [h [-> X]]]]. cbn [bindO fst snd sdim sbeg send app] in *.
  destruct (expr_ok_dims _ _ _ _ K) as [D1 [D2 D3]]. rewrite !prod_arr_small by auto. rewrite Ez, Z.eqb_refl.
  assert (Hi := inside_iota m sid c (zprod es) Ec Lc). assert (Hl := iota_len (zprod es) ltac:(lia)).
  destruct (seq_copy_to fuel m e es' sid h xe (iota (zprod es)) K Hi ltac:(congruence) (length (iota (zprod es))) 0 m x fu eq_refl ltac:(lia) X eq_refl) as [m' [E O]].
  change (Z.of_nat 0) with 0 in E. rewrite E. cbn [bindO]. exists m'. auto.
Qed.

Lemma holds_written m m' sid c n v : nth_error m sid = Some c -> Z.of_nat (length c) = n -> written m m' sid (iota n) v -> holds m m' sid n v.
Proof.
  intros Ec L [W1 [W2 [W3 W4]]]. split; auto. split.
  - intros sid' D. destruct (nth_error m sid') as [d|] eqn:Ed.
    + destruct (W2 sid' d Ed) as [d' [Ed' Ld]]. rewrite Ed'. f_equal. apply nth_error_ext. intros k. specialize (W3 sid' (Z.of_nat k) ltac:(lia) (or_introl D)).
      unfold cell in W3. rewrite Ed, Ed', Nat2Z.id in W3. exact W3.
    + apply nth_error_None. apply nth_error_None in Ed. lia.
  - destruct (W2 sid c Ec) as [c' [Ec' Lc']]. exists c'. split; auto. split; [lia|]. intros k Hk.
    destruct (W4 k (Z.of_nat k)) as [H1 H2]; [apply iota_nth_error; lia|]. split; auto. unfold cell in H2. rewrite Ec', Nat2Z.id in H2. exact H2.
Qed.

(** ... hence the values of the expression, if no element is read after it has been overwritten. *)
Theorem array_set_same_size_values chk fuel fu m sid c es es' e : nth_error m sid = Some c -> Z.of_nat (length c) = zprod es -> all_nonneg es -> zprod es < W ->
  expr_ok fuel m e es' -> zprod es' = zprod es -> no_early_write fuel sid (iota (zprod es)) e -> (length c < fu)%nat ->
  exists m', array_set chk fu m sid es e = Ok (m', es') /\ holds m m' sid (zprod es') (value fuel m e).
Proof.
  intros Ec Lc N B K Ez NE Hf. destruct (array_set_same_size chk fuel fu m sid c es es' e Ec Lc N B K Ez Hf) as [m' [E O]]. exists m'. split; auto.
  rewrite Ez. eapply holds_written; eauto.
  assert (Hi := inside_iota m sid c (zprod es) Ec Lc). assert (Hl := iota_len (zprod es) ltac:(lia)).
  assert (G : forall n k mk, (k + n = length (iota (zprod es)))%nat -> upto m sid (iota (zprod es)) (value fuel m e) k mk ->
     in_order sid (fun mk k _ => value fuel mk e k) k (skipn k (iota (zprod es))) mk = Some m' ->
     upto m sid (iota (zprod es)) (value fuel m e) (length (iota (zprod es))) m').
  { induction n as [|n IH]; intros k mk Hk U H.
    - rewrite skipn_all2 in H by lia. cbn in H. injection H as <-. replace (length (iota (zprod es))) with k by lia. exact U.
    - assert (Ek := iota_nth_error (zprod es) k ltac:(lia)). rewrite (skipn_nth _ _ _ Ek) in H. cbn [in_order] in H.
      rewrite (upto_value _ _ _ _ _ _ _ _ _ K U NE) in H by lia. destruct (value fuel m e k) as [w|] eqn:Ev; [|discriminate].
      destruct (upto_step _ _ _ _ _ _ _ w (iota_NoDup _) Hi U Ek Ev) as [m2 [Es U2]].
      destruct U as [S1 _]. rewrite (set_cell_store mk sid (iota (zprod es)) _ w (inside_shape _ _ _ _ S1 Hi) (nth_error_In _ _ Ek)) in Es. injection Es as <-.
      apply (IH (S k) _ ltac:(lia) U2 H). }
  apply upto_written; [apply (G (length (iota (zprod es))) 0%nat m eq_refl (upto_0 _ _ _ _) O)|].
  intros k Hk. destruct (value_some fuel m e es' k K ltac:(lia)) as [v ->]. discriminate.
Qed.

(** Another number of elements: the values of the expression before the assignment, whatever it reads. *)
Theorem array_set_other_size chk fuel fu m sid c es es' e : nth_error m sid = Some c -> all_nonneg es -> zprod es < W ->
  expr_ok fuel m e es' -> zprod es' <> zprod es ->
  exists m', array_set chk fu m sid es e = Ok (m', es') /\ holds m m' sid (zprod es') (value fuel m e).
Proof.
  intros Ec N B K Ez. destruct (eval_expr_spec chk fuel m e es' K) as [vs [E [L Hvs]]]. unfold eval_expr, materialise in E.
  unfold array_set. destruct (build_spec _ _ _ _ K chk []) as [x [xe [h [Eb X]]]]. rewrite Eb in *. cbn [bindO fst snd sdim sbeg send app] in *.
  destruct (expr_ok_dims _ _ _ _ K) as [D1 [D2 D3]]. rewrite (prod_arr_small es), (prod_arr_small es') in * by auto.
  destruct (zprod es =? zprod es') eqn:Bz; [lia|].
  destruct (copy_n (Z.to_nat (zprod es')) h m x) as [[vs' lg]| | | |]; cbn [bindO fst snd] in E; try discriminate. injection E as -> _. cbn [bindO fst].
  exists (upd_nat m sid vs). split; [reflexivity|].
  assert (Hs : (sid < length m)%nat) by (apply nth_error_Some; congruence).
  split; [apply upd_length|]. split; [intros; apply nth_upd_nat_other; auto|].
  exists vs. split; [apply nth_upd_nat_same; auto|]. split; auto. intros k Hk. split; auto.
  destruct (value_some fuel m e es' k K ltac:(lia)) as [v ->]. discriminate.
Qed.

Theorem array_set_mismatch fuel fu m sid es e : expr_bad fuel m e -> array_set true fu m sid es e = Abort.
Proof. intros H. unfold array_set. rewrite (build_bad _ _ _ H). reflexivity. Qed.

End ArrAssign.
