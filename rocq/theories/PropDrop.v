(** * PropDrop: property C11, what is rejected and what [drop_to<0>] returns.

    Vocabulary as in PropView.v: a view is a chain of subscripts applied to an array ([steps]); [aselects]: its shape and the positions of its elements;
    [positions]: what iterating it visits. *)

From Coq Require Import ZArith List Bool Lia Arith.
From Verif Require Import Base Spec Desc Slice SliceSpec Lemmas DescProofs SliceProofs ViewProofs RunProofs ViewThms ViewThms3 PropView.
Import ListNotations.
Open Scope Z_scope.

(** In a checked build, dropping more dimensions than have extent one is rejected, and so is [drop_to<0>] of a view that has not exactly one element (and only then). *)
Theorem drop_to_rejected : forall es steps D,
  good_shape es -> ok_steps (afull es) steps -> forallb (forallb no_range) steps = true ->
  exists fuel0, forall fuel, (fuel0 <= fuel)%nat -> exists s,
    foldO (run true fuel) steps (SRef 0 es) = Ok s /\
    let shape := fst (aselects (afull es) steps) in
    ((1 <= D <= length shape)%nat -> (count_units shape < length shape - D)%nat -> drop_to true D s = Abort) /\
    (zprod shape <> 1 -> drop_to_scalar true s = Abort) /\ (zprod shape = 1 -> exists q, drop_to_scalar true s = Ok q).
Proof.
  intros es steps D Hg Hok Hnr. destruct (history_ok true es steps Hg Hok) as (f0 & H). exists f0. intros fuel Hf.
  destruct (H fuel Hf) as (s & E & I & Hv). set (v := aselects (afull es) steps) in *. exists s. split; [auto|]. cbn zeta.
  assert (Hd := sinv_dims _ _ I). pose proof (sinv_good _ _ I) as ((Hne & Hp & HM) & Hl).
  assert (Hid : ident s). { apply (ident_sinv _ _ I). eapply runs_ident; eauto. exact Logic.I. }
  destruct s as [|off es'| |off [d|d l]|]; try discriminate Hd; cbn [dims m_desc] in Hd; injection Hd as Hd; try (cbn in Hid; tauto).
  - rewrite <- Hd in *. split.
    + intros _ Hc. cbn [drop_to]. unfold drop_one_level_extents. replace (Nat.leb (length es' - D) (count_units es')) with false by (symmetry; apply Nat.leb_gt; lia). reflexivity.
    + cbn [drop_to_scalar]. rewrite prod_arr_small by (first [apply all_pos_nonneg; exact Hp|unfold MAXSZ, W in *; lia]). split; intros Hz.
      * replace (zprod es' =? 1) with false by (symmetry; now apply Z.eqb_neq). reflexivity.
      * rewrite Hz. eexists. reflexivity.
  - rewrite <- Hd in *. split.
    + intros _ Hc. cbn [drop_to]. unfold sd_drop. replace (Nat.leb (length (sd_exts d) - D) (count_units (sd_exts d))) with false by (symmetry; apply Nat.leb_gt; lia). reflexivity.
    + cbn [drop_to_scalar m_desc]. assert (Es : sd_size d = zprod (sd_exts d)).
      { unfold sd_size. destruct (sd_exts d) as [|e [|e' r]] eqn:Ee; [reflexivity|cbn; unfold zprod; cbn; lia|]. apply prod_arr_small; [apply all_pos_nonneg; exact Hp|unfold MAXSZ, W in *; lia]. }
      rewrite Es. split; intros Hz; [replace (zprod (sd_exts d) =? 1) with false by (symmetry; now apply Z.eqb_neq); reflexivity|rewrite Hz; eexists; reflexivity].
Qed.
Print Assumptions drop_to_rejected.

(** The pointer of a view does not move with its subscripts: it stays that of the contiguous array or view it was taken from. *)
Definition moved_to (off : Z) (s : st) : Prop := match s with SView o _ | SProxy o _ _ => o = off | SElem _ => True | _ => False end.
Ltac stays := repeat match goal with
  | H : bindO ?x _ = Ok _ |- _ => destruct x eqn:?; cbn [bindO] in H; try discriminate H
  | H : (if ?b then _ else _) = Ok _ |- _ => destruct b eqn:?; cbn [bindO] in H; try discriminate H
  | H : (let (_, _) := ?p in _) = Ok _ |- _ => destruct p; cbn [bindO] in H; try discriminate H
  | H : UB = Ok _ |- _ => discriminate H
  | H : Ok _ = Ok _ |- _ => injection H as H; subst; cbn; auto
  end.
Lemma view_stays chk fuel off s u s' : moved_to off s -> op_index chk fuel s u = Ok s' -> moved_to off s'.
Proof.
  intros Hm E. destruct s as [|o es| |o m|o m args]; cbn [moved_to] in Hm; try contradiction; try discriminate E; subst o; cbn [op_index] in E.
  - unfold view_index in E. destruct u; stays.
  - unfold proxy_index, proxy_at in E. stays.
Qed.
Lemma run_stays chk fuel off : forall us s s', moved_to off s -> run chk fuel s us = Ok s' -> moved_to off s'.
Proof.
  unfold run. induction us as [|u us IH]; intros s s' Hm E; cbn [foldO] in E; [injection E as E; subst; auto|].
  destruct (op_index chk fuel s u) eqn:Eo; cbn [bindO] in E; try discriminate E. eapply IH; [|exact E]. eapply view_stays; eauto.
Qed.
Lemma chain_stays chk fuel off : forall steps s s', moved_to off s -> foldO (run chk fuel) steps s = Ok s' -> moved_to off s'.
Proof.
  induction steps as [|us steps IH]; intros s s' Hm E; cbn [foldO] in E; [injection E as E; subst; auto|].
  destruct (run chk fuel s us) eqn:Eo; cbn [bindO] in E; try discriminate E. eapply IH; [|exact E]. eapply run_stays; eauto.
Qed.
Lemma every_stays chk fuel off es : forall us M o m, (M + length us <= length es)%nat -> run chk fuel (SEvery off es M) us = Ok (SView o m) -> o = off.
Proof.
  induction us as [|u us IH]; intros M o m Hl E; [discriminate E|]. cbn [length] in Hl. unfold run in E. cbn [foldO] in E. fold (run chk fuel) in E.
  destruct (op_index chk fuel (SEvery off es M) u) as [s| | | |] eqn:Eo; cbn [bindO] in E; try discriminate E. fold (run chk fuel s us) in E.
  assert (C : moved_to off s \/ (s = SEvery off es (S M)) \/ (us = [] /\ exists o' es', s = SRef o' es')).
  { cbn [op_index] in Eo. unfold every_index in Eo. destruct (Nat.eqb (S M) (length es)) eqn:El.
    - apply Nat.eqb_eq in El. assert (us = []) by (destruct us; [reflexivity|cbn [length] in Hl; lia]). subst us.
      destruct u; unfold every_at, proxy_at in Eo; stays; try (right; right; split; [reflexivity|eauto]; fail); try (left; cbn; reflexivity).
    - destruct u; unfold every_at, proxy_at in Eo; stays; try (left; cbn; reflexivity). }
  destruct C as [C|[->|(-> & o' & es' & ->)]].
  - now apply (run_stays chk fuel off) in E.
  - apply (IH (S M) o m); [lia|exact E].
  - discriminate E.
Qed.
Lemma ref_stays chk fuel off es us o m : (length us <= length es)%nat -> run chk fuel (SRef off es) us = Ok (SView o m) -> o = off.
Proof.
  destruct us as [|u us]; intros Hl E; [discriminate E|]. cbn [length] in Hl. unfold run in E. cbn [foldO] in E.
  destruct (op_index chk fuel (SRef off es) u) as [s| | | |] eqn:Eo; cbn [bindO] in E; try discriminate E. fold (run chk fuel s us) in E.
  assert (C : moved_to off s \/ (s = SEvery off es 1) \/ (us = [] /\ exists o' es', s = SRef o' es')).
  { cbn [op_index] in Eo. unfold ref_index, ref_abs, ref_strided in Eo.
    assert (U : forall e, es = [e] -> us = []) by (intros e ->; cbn [length] in Hl; destruct us; [reflexivity|cbn [length] in Hl; lia]).
    assert (U1 : Nat.eqb (length es) 1 = true -> us = []) by (destruct es as [|e [|]]; cbn; try discriminate; intros _; apply (U e); reflexivity).
    destruct u; try (destruct es as [|e [|e' es']]; stays; cbn [length Nat.eqb] in *; try discriminate; try (left; cbn; reflexivity); right; right; split; [apply (U e); reflexivity|eauto]; fail);
    stays; try (left; cbn; reflexivity); try (right; left; reflexivity); try (right; right; split; [auto|eauto]). }
  destruct C as [C|[->|(-> & o' & es' & ->)]].
  - now apply (run_stays chk fuel off) in E.
  - apply (every_stays chk fuel off es us 1 o m); [lia|exact E].
  - discriminate E.
Qed.

(** A strided or indirect view with one element, taken from a contiguous array or view by the subscripts [us] and narrowed further by [steps]: [drop_to<0>] returns the
    first element of the contiguous array or view, so it returns the element of the view exactly when they are the same. *)
Theorem drop_to_scalar_view_exact : forall chk fuel off es us steps o m s p,
  all_pos es -> es <> [] -> 0 < zprod es < W -> (length us <= length es)%nat ->
  run chk fuel (SRef off es) us = Ok (SView o m) -> foldO (run chk fuel) steps (SView o m) = Ok s -> positions fuel s = Ok [p] ->
  exists first rest, positions fuel (SRef off es) = Ok (first :: rest) /\ (forall q, drop_to_scalar chk s = Ok q -> q = first) /\ drop_to_scalar false s = Ok first.
Proof.
  intros chk fuel off es us steps o m s p Hp Hne Hz Hl E1 E2 Ep. apply ref_stays in E1; [|exact Hl]. subst o.
  apply (chain_stays chk fuel off) in E2; [|reflexivity]. destruct s as [| | |o' m'|]; cbn [moved_to] in E2; try contradiction; try discriminate Ep. subst o'.
  cbn [positions]. rewrite prod_arr_small by (first [apply all_pos_nonneg; exact Hp|lia]). destruct (Z.to_nat (zprod es)) as [|n] eqn:En; [lia|].
  eexists (off + 0), _. split; [reflexivity|]. rewrite Z.add_0_r. split; [|reflexivity].
  intros q Hq. cbn [drop_to_scalar] in Hq. stays.
Qed.
Print Assumptions drop_to_scalar_view_exact.

(** A 3 x 4 matrix: 4 elements in a column, none of its dimensions can be dropped away; element (1, 2), taken as a view, is at position 7, [drop_to<0>] gives position 0;
    taken from the third column, which begins at position 6, it gives position 6. *)
Example drop_to_rejected_ex : ok_steps (afull [3; 4]) [[UIdx 1; UStrided 0 2 2]] /\
  (let* s := run true 100 (SRef 0 [3; 4]) [UIdx 1; UStrided 0 2 2] in drop_to_scalar true s) = Abort /\
  (let* s := run true 100 (SRef 0 [3; 4]) [UEvery; UStrided 0 2 2] in drop_to true 1 s) = Abort.
Proof. split; [ok_tac|split; reflexivity]. Qed.
Example drop_to_scalar_view_exact_ex :
  (let* s := run true 100 (SRef 0 [3; 4]) [UIdx 1; UStrided 2 1 1] in let* ps := positions 100 s in let* q := drop_to_scalar true s in Ok (ps, q)) = Ok ([7], 0) /\
  (let* c := run true 100 (SRef 0 [3; 4]) [UEvery; UIdx 2] in let* s := run true 100 c [UIdx 1; UStrided 0 1 1] in let* ps := positions 100 s in let* q := drop_to_scalar true s in Ok (ps, q)) = Ok ([7], 6).
Proof. split; vm_compute; reflexivity. Qed.
