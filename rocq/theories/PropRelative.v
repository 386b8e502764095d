(** * PropRelative: C64, slices whose extent is relative to the size of the dimension. *)

From Coq Require Import ZArith List Bool Lia.
From Verif Require Import Base Spec Desc Slice SliceSpec Lemmas DescProofs RunProofs ViewThms PropView Relative RelativeSpec.
Import ListNotations.
Open Scope Z_scope.

(** Evaluating [size], [r - v], [r / v], ... gives the arithmetical value if no subtraction goes below zero and no divisor is 0. *)
Theorem relative_index_exact : forall r n, 0 <= n < W -> ival_ok r n ->
  eval_index r n = Ok (ival r n) /\ 0 <= ival r n < W /\ (from_size r -> ival r n <= n).
Proof.
  intros r n Hn. induction r as [|r IH v|r IH v|g]; cbn [ival_ok ival eval_index from_size]; intros H.
  - repeat split; try lia.
  - destruct H as (H & Hv). destruct (IH H) as (E & R & L). rewrite E. cbn [bindO]. unfold w64. rewrite Z.mod_small by lia.
    split; [reflexivity|]. split; [lia|]. intros F. specialize (L F). lia.
  - destruct H as (H & Hv). destruct (IH H) as (E & R & L). rewrite E. cbn [bindO]. destruct (Z.eqb_spec v 0); [lia|].
    pose proof (Z.div_pos (ival r n) v ltac:(lia) ltac:(lia)). pose proof (Z.div_le_upper_bound (ival r n) v (ival r n) ltac:(lia)).
    split; [reflexivity|]. split; [nia|]. intros F. specialize (L F). nia.
  - unfold w64. rewrite Z.mod_small by lia. split; [reflexivity|]. split; [lia|tauto].
Qed.
Print Assumptions relative_index_exact.

(** Without these conditions: undefined exactly when some divisor is 0; otherwise some [index_t], which for [size - v] is the
    difference modulo 2^64. *)
Theorem relative_index_total : forall r n, 0 <= n < W ->
  (eval_index r n = UB <-> div_zero r) /\
  (~ div_zero r -> exists x, eval_index r n = Ok x) /\
  (forall v, eval_index (RMinus RSize v) n = Ok ((n - v) mod W)).
Proof.
  intros r n Hn. assert (D : div_zero r \/ ~ div_zero r).
  { induction r as [|r IH v|r IH v|g]; cbn; auto. destruct (Z.eq_dec v 0); [auto|]. tauto. }
  assert (A : (div_zero r -> eval_index r n = UB) /\ (~ div_zero r -> exists x, eval_index r n = Ok x)).
  { clear D. induction r as [|r [IH1 IH2] v|r [IH1 IH2] v|g]; cbn [div_zero eval_index].
    - split; [tauto|eauto].
    - split; intros H; [rewrite (IH1 H); reflexivity|]. destruct (IH2 H) as (x & E). rewrite E. cbn. eauto.
    - assert (D : div_zero r \/ ~ div_zero r).
      { clear. induction r as [|r IH v|r IH v|g]; cbn; auto. destruct (Z.eq_dec v 0); [auto|]. tauto. }
      split.
      + intros [-> | H]; [|rewrite (IH1 H); reflexivity]. destruct D as [D|D]; [rewrite (IH1 D); reflexivity|].
        destruct (IH2 D) as (x & E). rewrite E. reflexivity.
      + intros H. destruct D as [D|D]; [tauto|]. destruct (IH2 D) as (x & E). rewrite E. cbn. destruct (Z.eqb_spec v 0); [tauto|eauto].
    - split; [tauto|eauto]. }
  destruct A as (A1 & A2). split; [|split]; auto; try (intros; reflexivity).
  split; auto. intros E. destruct D as [D|D]; auto. destruct (A2 D) as (x & E'). congruence.
Qed.
Print Assumptions relative_index_total.

Example relative_index_ex : ival_ok (ROver (RMinus RSize 1) 2) 8 /\ eval_index (ROver (RMinus RSize 1) 2) 8 = Ok 3 /\
  from_size (ROver (RMinus RSize 1) 2) /\ eval_index (RMinus RSize 9) 8 = Ok (2 ^ 64 - 1) /\ eval_index (ROver RSize 0) 8 = UB.
Proof. vm_compute. repeat split; discriminate. Qed.

Lemma eval_slices_ok : forall rs es, Forall (fun e => 0 <= e < W) es -> Forall2 rel_ok rs es ->
  exists us, eval_slices rs es = Ok us /\ Forall2 ok_arg us es /\ sels us es = rel_sels rs es /\
    map is_index us = map (fun r => match r with RelPlain u => is_index u | _ => false end) rs.
Proof.
  intros rs es He H. induction H as [|r e rs es Hr _ IH]; [exists []; repeat split; constructor|].
  inversion He; subst. destruct (IH ltac:(assumption)) as (us & E & F & S & M). cbn [eval_slices].
  destruct r as [u|s x|s x t]; cbn [rel_ok] in Hr; cbn [eval_slice bindO].
  - exists (u :: us). rewrite E. cbn [bindO sels rel_sels rel_sel map]. rewrite S, M. repeat split; constructor; auto.
  - destruct Hr as (Hx & Hs & Hp & Hb). destruct (relative_index_exact x e ltac:(lia) Hx) as (Ex & R & _).
    rewrite Ex. cbn [bindO]. rewrite E. cbn [bindO]. exists (USlice s (ival x e) :: us). cbn [sels rel_sels rel_sel sel map]. rewrite S, M.
    repeat split; constructor; auto. cbn. lia.
  - destruct Hr as (Hx & Hs & Hp & Ht & Hb). destruct (relative_index_exact x e ltac:(lia) Hx) as (Ex & R & _).
    rewrite Ex. cbn [bindO]. rewrite E. cbn [bindO]. exists (UStrided s (ival x e) t :: us). cbn [sels rel_sels rel_sel sel map]. rewrite S, M.
    repeat split; constructor; auto. cbn. lia.
Qed.

(** On any view made by any history of slicings, relative slices evaluated with the extents of the view select the indices they
    denote, provided the resulting chain of subscripts is one that [operator[]] does not lose (C63; always so for vectors and matrices). *)
Theorem relative_slices_select : forall chk es steps rs, good_shape es -> ok_steps (afull es) steps ->
  Forall2 rel_ok rs (fst (aselects (afull es) steps)) ->
  exists us, eval_slices rs (fst (aselects (afull es) steps)) = Ok us /\
  (loses true us = false -> forallb is_index us = false -> zprod (result_shape us (fst (aselects (afull es) steps))) <= MAXSZ ->
   exists fuel0, forall fuel, (fuel0 <= fuel)%nat -> exists s shape ps s',
    foldO (run chk fuel) steps (SRef 0 es) = Ok s /\ dims s = Some shape /\ positions fuel s = Ok ps /\
    shape = fst (aselects (afull es) steps) /\
    run chk fuel s us = Ok s' /\ dims s' = Some (result_shape us shape) /\
    (hd false (map is_index us) = false -> dims s' = Some (map (fun l => Z.of_nat (length l)) (rel_sels rs shape))) /\
    positions fuel s' = Ok (map (aview_at (shape, ps)) (cart (rel_sels rs shape))) /\
    (forall ix, In ix (cart (rel_sels rs shape)) -> in_range shape ix)).
Proof.
  intros chk es steps rs Hg Hok Hr. destruct (history_ok chk es steps Hg Hok) as (f0 & H0).
  destruct (H0 f0 (le_n _)) as (s0 & _ & I0 & _). destruct (sinv_good _ _ I0) as (Hg' & _).
  assert (He : Forall (fun e => 0 <= e < W) (fst (aselects (afull es) steps))).
  { destruct Hg' as (_ & Hp & HM). apply Forall_forall. intros e Hin. pose proof (zprod_ge _ Hp) as Hz. unfold all_pos in Hp. rewrite Forall_forall in Hz, Hp.
    specialize (Hz e Hin). specialize (Hp e Hin). unfold W, MAXSZ in *. lia. }
  destruct (eval_slices_ok rs _ He Hr) as (us & E & Ha & HS & HI). exists us. split; [auto|]. intros Hl Hn HM.
  assert (Hok2 : ok_steps (afull es) (steps ++ [us])) by (apply ok_steps_snoc; repeat split; auto).
  destruct (slice_selects_requested chk es steps us Hg Hok2) as (f1 & H1). exists f1. intros fuel Hf.
  destruct (H1 fuel Hf) as (s & shape & ps & s' & A & B & C & D & F & G & K & _ & L).
  assert (Es : fst (aselects (afull es) steps) = shape) by (rewrite L; reflexivity). rewrite Es in *.
  exists s, shape, ps, s'. rewrite HS in *. repeat split; auto.
  intros Hd. rewrite F. f_equal. destruct us as [|u us]; [destruct shape; cbn in *; rewrite <- HS; reflexivity|].
  rewrite <- HS. destruct u; try reflexivity. discriminate Hd.
Qed.
Print Assumptions relative_slices_select.

Example relative_slices_ex :
  let rs := [Rel 1 (RMinus RSize 1); RelS 0 (ROver RSize 2) 2] in
  Forall2 rel_ok rs [4; 6] /\ eval_slices rs [4; 6] = Ok [USlice 1 3; UStrided 0 3 2] /\ loses true [USlice 1 3; UStrided 0 3 2] = false /\
  (let* s := run true 100 (SRef 0 [4; 6]) [USlice 1 3; UStrided 0 3 2] in positions 100 s) = Ok [1; 2; 3; 9; 10; 11; 17; 18; 19].
Proof. cbn. repeat split; try (repeat constructor; cbn; lia). Qed.

(** [v[slice(k, size - k)]], the elements from [k] on, of a vector of length [n].  Up to [k = n] the result is right (empty for [k = n]).
    Beyond, the extent wraps and [start + extent - 1] wraps back to [n - 1]: the check never rejects it. *)
Theorem relative_suffix : forall chk fuel off n k us, 0 < n <= MAXSZ -> 0 <= k < W ->
  eval_slices [Rel k (RMinus RSize k)] [n] = Ok us ->
  exists m, run chk fuel (SRef off [n]) us = Ok (SRef (off + k) [m]) /\
    (k <= n -> m = n - k) /\
    (n < k -> m = n - k + W /\ run chk fuel (SRef (off + k) [m]) [UIdx 0] = Ok (SElem (off + k))).
Proof.
  intros chk fuel off n k us Hn Hk E. unfold MAXSZ in Hn. assert (HW : W = 2 ^ 64) by reflexivity.
  cbn [eval_slices eval_slice eval_index bindO] in E. injection E as <-. cbn [run foldO op_index ref_index bindO].
  unfold ref_abs. assert (Hc : w64 (w64 (k + w64 (n - k)) - 1) = n - 1).
  { unfold w64. rewrite Zplus_mod_idemp_r. replace (k + (n - k)) with n by lia. rewrite (Z.mod_small n) by (unfold W; lia). apply Z.mod_small. unfold W; lia. }
  rewrite Hc. replace (n - 1 <? n) with true by (symmetry; apply Z.ltb_lt; lia). unfold dassert at 1. rewrite andb_false_r.
  exists (w64 (n - k)). split; [reflexivity|]. split.
  - intros H. unfold w64. apply Z.mod_small. unfold W; lia.
  - intros H. assert (Hw : w64 (n - k) = n - k + W).
    { unfold w64. symmetry. apply (Z.mod_unique_pos _ _ (-1)); unfold W in *; lia. }
    rewrite Hw. split; [reflexivity|]. cbn [hd length Nat.eqb]. unfold dassert.
    replace (0 <? n - k + W) with true by (symmetry; apply Z.ltb_lt; unfold W in *; lia). rewrite andb_false_r. cbn [bindO andb]. rewrite Z.add_0_r. reflexivity.
Qed.
Print Assumptions relative_suffix.

(** Hence the bounds check (C06) does not reject it: with all checks on, [v[slice(5, size - 5)]] of a vector of 3 elements is a view
    of 2^64 - 2 elements whose first is element 5. *)
Theorem relative_suffix_refuted : exists n k us s, 0 < n < k /\ eval_slices [Rel k (RMinus RSize k)] [n] = Ok us /\
  run true 0 (SRef 0 [n]) us = Ok s /\ dims s = Some [W - 2] /\ exists p, run true 0 s [UIdx 0] = Ok (SElem p) /\ n < p.
Proof. exists 3, 5, [USlice 5 (W - 2)], (SRef 5 [W - 2]). repeat split; try (vm_compute; reflexivity). exists 5. split; [vm_compute; reflexivity|lia]. Qed.
Print Assumptions relative_suffix_refuted.
