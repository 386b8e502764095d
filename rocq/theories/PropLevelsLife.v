(** * PropLevelsLife: property C74 for programs over arrays and builders.

    [l_runs ... L]: the program in a build with [JULES_DEBUG_LEVEL] = L; [runs ... true] and [runs ... false]: with all checks and with none. *)

From Coq Require Import ZArith List Bool Lia Arith.
From Verif Require Import Base Spec Desc Life LifeSpec LifeProofs LifeSim LifeThms BuildsLife PropLife LevelsLife.
Import ListNotations.
Open Scope Z_scope.

(** The build with more checks ends at a failed check, or the result, the memory and the variables are the same. *)
Definition stops_or_sameS {A S} (more fewer : res A * S) : Prop := fst more = RAbort \/ more = fewer.

Lemma step_level V thr nt ns (o : @op V) (ws : world * store) (c1 c2 : bool) : (c1 = true -> c2 = true) ->
  stops_or_sameS (step thr nt ns c2 o ws) (step thr nt ns c1 o ws).
Proof.
  intros H. destruct (soS_step thr nt ns o ws) as [_ D]. destruct c1, c2; try (now right); try (now specialize (H eq_refl)). destruct D as [D|D]; [now left|now right].
Qed.

(** Raising the level only adds places where the program stops: any program, from any state, whatever throws. *)
Theorem C74_programs : forall (V : Type) (thr : nat -> bool) nt ns (p : @prog V) ws (L1 L2 : nat), (L1 <= L2)%nat ->
  stops_or_sameS (l_runs thr nt ns L2 p ws) (l_runs thr nt ns L1 p ws).
Proof.
  intros V thr nt ns p ws L1 L2 HL. revert ws. induction p as [|o p1 IH1 p2 IH2]; intros ws; cbn [l_runs]; [now right|].
  assert (D : stops_or_sameS (l_step thr nt ns L2 o ws) (l_step thr nt ns L1 o ws)).
  { apply step_level. intros E. apply Nat.leb_le in E. apply Nat.leb_le. lia. }
  destruct D as [D|D]; [left; destruct (l_step thr nt ns L2 o ws) as [[] ?]; cbn in D; try discriminate D; reflexivity|].
  rewrite D. destruct (l_step thr nt ns L1 o ws) as [[] ws1]; try (now right).
  - destruct (IH1 ws1) as [E|E]; [left; destruct (l_runs thr nt ns L2 p1 ws1) as [[] ?]; cbn in E; try discriminate E; reflexivity|right; rewrite E; reflexivity].
  - destruct (IH2 ws1) as [E|E]; [left; destruct (l_runs thr nt ns L2 p2 ws1) as [[] ?]; cbn in E; try discriminate E; reflexivity|right; rewrite E; reflexivity].
Qed.
Print Assumptions C74_programs.

Lemma runs_at V thr nt ns (chk : bool) L (p : @prog V) : (forall (o : @op V) ws, l_step thr nt ns L o ws = step thr nt ns chk o ws) ->
  forall ws, l_runs thr nt ns L p ws = runs thr nt ns chk p ws.
Proof.
  intros H. induction p as [|o p1 IH1 p2 IH2]; intros ws; cbn [l_runs runs]; [reflexivity|]. rewrite H. destruct (step thr nt ns chk o ws) as [[] ws1]; try reflexivity.
  - now rewrite IH1.
  - now rewrite IH2.
Qed.

(** Below level 2 no operation is checked; from level 3 on all are. *)
Theorem C74_program_ends : forall (V : Type) (thr : nat -> bool) nt ns (p : @prog V) ws (L : nat),
  ((L <= 1)%nat -> l_runs thr nt ns L p ws = runs thr nt ns false p ws) /\ ((3 <= L)%nat -> l_runs thr nt ns L p ws = runs thr nt ns true p ws).
Proof.
  intros V thr nt ns p ws L. split; intros HL; apply runs_at; intros o ws'; unfold l_step.
  - replace (Nat.leb (op_level o) L) with false; [reflexivity|]. symmetry. apply Nat.leb_gt. destruct o; cbn; lia.
  - replace (Nat.leb (op_level o) L) with true; [reflexivity|]. symmetry. apply Nat.leb_le. destruct o; cbn; lia.
Qed.
Print Assumptions C74_program_ends.

(** At level 2 everything but the shape of nested initializer lists is checked: ragged and empty lists go unnoticed. *)
Fixpoint no_lists {V} (p : @prog V) : bool := match p with PEnd => true | PDo o p1 p2 => match o with OList _ _ _ => false | _ => no_lists p1 && no_lists p2 end end.
Theorem C74_program_level_two : forall (V : Type) (thr : nat -> bool) nt ns,
  (forall (p : @prog V) ws, no_lists p = true -> l_runs thr nt ns 2 p ws = runs thr nt ns true p ws) /\
  (forall x N (l : @nested V N) ws, l_step thr nt ns 2 (OList x N l) ws = step thr nt ns false (OList x N l) ws /\ fst (l_step thr nt ns 2 (OList x N l) ws) <> RAbort).
Proof.
  intros V thr nt ns. split.
  - induction p as [|o p1 IH1 p2 IH2]; intros ws H; cbn [l_runs runs]; [reflexivity|].
    assert (E : l_step thr nt ns 2 o ws = step thr nt ns true o ws /\ no_lists p1 && no_lists p2 = true) by (unfold l_step; destruct o; cbn in *; auto; discriminate).
    destruct E as [E H']. apply andb_prop in H'. rewrite E. destruct (step thr nt ns true o ws) as [[] ws1]; try reflexivity; [rewrite IH1 by tauto|rewrite IH2 by tauto]; reflexivity.
  - intros x N l ws. split; [reflexivity|]. unfold l_step. cbn [op_level Nat.leb]. apply (soS_step thr nt ns (OList x N l) ws).
Qed.
Print Assumptions C74_program_level_two.

(** A program whose operations are all allowed runs to its end at every level, with the same result. *)
Theorem C74_correct_programs : forall (V : Type) (thr : nat -> bool) nt ns (p : @prog V) n (L : nat), (nt = true -> ns = true) ->
  ok_prog p (repeat None n) -> pushes_safe nt p ->
  exists log ws, runs thr nt ns true p (World [] 0, repeat None n) = (ROk log, ws) /\ l_runs thr nt ns L p (World [] 0, repeat None n) = (ROk log, ws).
Proof.
  intros V thr nt ns p n L Hns Hok Hp. destruct (runs_sim thr nt ns Hns true p false _ _ _ (Inv_init n) Hok Hp) as (log & w & st & ast & E & _).
  exists log, (w, st). split; [exact E|].
  assert (D := C74_programs V thr nt ns p (World [] 0, repeat None n) L (Nat.max L 3) ltac:(lia)).
  rewrite (proj2 (C74_program_ends V thr nt ns p (World [] 0, repeat None n) (Nat.max L 3))) in D by lia. change store with (list (option obj)) in *; destruct D as [D|D]; rewrite E in D; [discriminate D|auto].
Qed.
Print Assumptions C74_correct_programs.

(** A builder filled too far is noticed at level 2 and not at level 1; a ragged list at level 3 only. *)
Example C74_programs_ex :
  let go L p := fst (l_runs (fun _ => false) true true L p (World [] 0, repeat None 2)) in
  let p := pseq [OBuilder 0 [1]; OPush 0 false 5; OPush 0 false 6] PEnd in
  let q := pseq [OList 0 2 ([[1; 2]; [3; 4; 5]] : nested 2)] PEnd in
  let r := pseq [OConv 0 [5; 6] [2]; OAssignMove 0 0] PEnd in
  (go 2%nat p = RAbort /\ go 1%nat p = RUB) /\ (go 3%nat q = RAbort /\ go 2%nat q = ROk [false]) /\ (go 2%nat r = RAbort /\ go 1%nat r = ROk [false; false]) /\
  go 0%nat (pseq demo PEnd) = go 3%nat (pseq demo PEnd) /\ no_lists p = true.
Proof. repeat split; vm_compute; reflexivity. Qed.
