(** * PropThrowsLife: property C69 for programs over arrays and builders.

    [runs ... true]: the checked build; [t_runs] (ThrowsLife.v): the throwing build.  [caught]: misuse that throws (overfilling a builder by copy, finishing an
    incomplete builder, ragged nested lists); [ends]: misuse checked in a [noexcept] function. *)

From Coq Require Import ZArith List Bool Lia Arith.
From Verif Require Import Base Spec Desc Life LifeSpec LifeProofs LifeSim LifeThms PropLife ThrowsLife.
Import ListNotations.
Open Scope Z_scope.

(** A program in which every operation is allowed or misuse that throws runs to its end, whatever else throws: what its variables hold is what the
    specification says, storage is never shared, no object is lost, and storage only by an assignment that threw. *)
Theorem throwing_programs : forall (V : Type) (thr : nat -> bool) nt ns (p : @prog V) n, (nt = true -> ns = true) ->
  t_ok_prog p (repeat None n) -> pushes_safe nt p ->
  exists log w st ast,
    t_runs thr nt ns p (World [] 0, repeat None n) = (ROk log, (w, st)) /\ t_aexec p log (repeat None n) ast /\
    Forall2 (repr' w) st ast /\ no_sharing st /\ no_lost_object w st /\ (assign_threw p log = false -> no_lost_storage w st).
Proof.
  intros V thr nt ns p n Hns Hok Hp. destruct (t_runs_sim thr nt ns Hns p false _ _ _ (Inv_init n) Hok Hp) as (log & w & st & ast & E & Hx & HI).
  exists log, w, st, ast. split; [auto|]. split; [auto|]. destruct (Inv_final _ _ _ _ HI) as (H1 & H2 & H3 & H4). auto.
Qed.
Print Assumptions throwing_programs.

(** From any state, any program: where the checked build does not stop, the throwing build does the same. *)
Theorem throwing_same_programs : forall (V : Type) (thr : nat -> bool) nt ns (p : @prog V) ws,
  fst (runs thr nt ns true p ws) <> RAbort -> t_runs thr nt ns p ws = runs thr nt ns true p ws.
Proof.
  intros V thr nt ns. induction p as [|o p1 IH1 p2 IH2]; intros ws N; cbn [runs t_runs] in *; [reflexivity|].
  assert (S : fst (step thr nt ns true o ws) <> RAbort) by (intros E; apply N; destruct (step thr nt ns true o ws) as [[] ?]; cbn in *; congruence).
  rewrite (same_step thr nt ns o ws S). destruct (step thr nt ns true o ws) as [[] ws1]; try reflexivity.
  - rewrite IH1; [reflexivity|]. intros E. apply N. destruct (runs thr nt ns true p1 ws1) as [[] ?]; cbn in *; congruence.
  - rewrite IH2; [reflexivity|]. intros E. apply N. destruct (runs thr nt ns true p2 ws1) as [[] ?]; cbn in *; congruence.
Qed.
Print Assumptions throwing_same_programs.

(** One operation where the checked build stops: the misuse is reported by an exception and nothing else changes, except that an incomplete builder made
    into an array is destroyed; or, in the [noexcept] functions, the program ends. *)
Theorem throwing_misuse : forall (V : Type) (thr : nat -> bool) nt ns (o : @op V),
  (forall l w st ast, Inv l w st ast -> caught o ast ->
    exists w' st', t_step thr nt ns o (w, st) = (RThrow, (w', st')) /\ Inv l w' st' (acaught o ast)) /\
  (forall ws, fst (step thr nt ns true o ws) = RAbort -> ends o = true -> fst (t_step thr nt ns o ws) = RTerm).
Proof. intros. split; [intros; now apply caught_step|intros; now apply ends_step]. Qed.
Print Assumptions throwing_misuse.

(** The exception for an incomplete builder does not leave the builder as it was. *)
Theorem incomplete_builder_kept_refuted : exists (p : @prog Z) w st log,
  t_ok_prog p (repeat None 2) /\ t_runs (fun _ => false) false false p (World [] 0, repeat None 2) = (ROk log, (w, st)) /\
  log = [false; false; true] /\ st = [Some (OBld (Bld None [2] 0)); None].
Proof.
  exists (PDo (OBuilder 0 [2]) (PDo (OPush 0 false 5) (PDo (OFinish 1 0) PEnd PEnd) PEnd) PEnd). do 3 eexists. split.
  - left. split; [split; [reflexivity|apply fits_bool; reflexivity]|]. split; [|intros; exact I]. left.
    split; [eexists _, _; split; reflexivity|]. split; [|intros; exact I]. right.
    split; [split; [reflexivity|]; left; eexists _, _; split; [reflexivity|discriminate]|exact I].
  - split; [reflexivity|]. split; reflexivity.
Qed.
Print Assumptions incomplete_builder_kept_refuted.

(** [push_back(T&&)] into a complete builder, [reshape_to] to another size, self move assignment: the program ends. *)
Example throwing_ends_ex :
  let go p := fst (t_runs (fun _ => false) true true p (World [] 0, repeat None 2)) in
  go (pseq [OBuilder 0 [1]; OPush 0 true 5; OPush 0 true 6] PEnd) = RTerm /\
  go (pseq [OConv 0 [5; 6] [2]; OReshape 1 0 [3]] PEnd) = RTerm /\
  go (pseq [OConv 0 [5; 6] [2]; OAssignMove 0 0] PEnd) = RTerm.
Proof. repeat split; vm_compute; reflexivity. Qed.

(** The misuse is caught, the program goes on: overfull builder, ragged list, then the builder is finished. *)
Example throwing_programs_ex :
  let p := PDo (OBuilder 0 [1]) (PDo (OPush 0 false 5) (PDo (OPush 0 false 6) PEnd (PDo (OList 1 2 ([[1; 2]; [3]] : nested 2)) PEnd (PDo (OFinish 1 0) PEnd PEnd))) PEnd) PEnd in
  t_ok_prog p (repeat None 2) /\ pushes_safe false p /\
  t_runs (fun _ => false) false false p (World [] 0, repeat None 2)
   = (ROk [false; false; true; true; false], (World [Some [Some 5]] 2, [Some (OBld (Bld None [1] 0)); Some (OArr (Arr (Some 0%nat) [1]))])) /\
  fst (runs (fun _ => false) false false true p (World [] 0, repeat None 2)) = RAbort.
Proof.
  split; [|split; [repeat split|split; vm_compute; reflexivity]].
  left. split; [split; [reflexivity|apply fits_bool; reflexivity]|]. split; [|intros; exact I].
  left. split; [eexists _, _; split; reflexivity|]. split; [|intros; exact I].
  right. split; [left; eexists _, _; split; reflexivity|].
  right. split.
  - split; [reflexivity|]. intros [|e [|e' [|? ?]]]; cbn; try tauto; intros (_ & _ & H); inversion H as [|? ? H1 H2]; subst; inversion H2; subst; cbn in *; lia.
  - left. split; [split; [reflexivity|]; eexists _, _; split; reflexivity|]. split; [exact I|intros; exact I].
Qed.
