(** * BuildsLife: checked and unchecked builds compared, programs over arrays and builders. *)

From Coq Require Import ZArith List Bool Lia Arith.
From Verif Require Import Base Desc Life.
Import ListNotations.

(** ** specification *)
(** As [same_or_stops] (Builds.v) for computations with a state: the state is the same too. *)
Definition same_or_stopsS {A S} (checked unchecked : res A * S) : Prop := fst unchecked <> RAbort /\ (fst checked = RAbort \/ checked = unchecked).

Section BuildsLife.
Context {V : Type} (thr : nat -> bool) (nt ns : bool).
Notation M := (@M V).

Definition soM {A} (c u : M A) : Prop := forall w, same_or_stopsS (c w) (u w).
Definition naM {A} (c : M A) : Prop := forall w, fst (c w) <> RAbort.

Lemma soM_refl {A} (c : M A) : naM c -> soM c c.
Proof. intros H w. split; auto. Qed.
Lemma soM_bind {A B} (c u : M A) (f g : A -> M B) : soM c u -> (forall a, soM (f a) (g a)) -> soM (bind c f) (bind u g).
Proof.
  intros H1 H2 w. unfold bind. destruct (H1 w) as [N D]. destruct (u w) as [ru wu]. cbn in N. destruct D as [D|D].
  - destruct (c w) as [rc wc]. cbn in D. subst rc. split; [|left; reflexivity]. destruct ru; cbn; try congruence; try discriminate. apply H2.
  - rewrite D. destruct ru; cbn; try (split; [discriminate|right; reflexivity]); try congruence. apply H2.
Qed.
Lemma soM_assert b : soM (massert true b) (massert false b : M unit).
Proof. intros w. unfold massert. cbn. destruct b; cbn; split; try discriminate; auto. Qed.
Lemma soM_noexcept {A} nx (c u : M A) : soM c u -> soM (noexcept_if nx c) (noexcept_if nx u).
Proof.
  intros H w. unfold noexcept_if. destruct (H w) as [N D]. destruct (u w) as [ru wu]. cbn in N. destruct D as [D|D].
  - destruct (c w) as [rc wc]. cbn in D. subst rc. split; [|left; reflexivity]. destruct ru, nx; cbn; congruence.
  - rewrite D. split; [|right; reflexivity]. destruct ru, nx; cbn; congruence.
Qed.

Lemma naM_bind {A B} (c : M A) (f : A -> M B) : naM c -> (forall a, naM (f a)) -> naM (bind c f).
Proof. intros H1 H2 w. unfold bind. specialize (H1 w). destruct (c w) as [[] ?]; cbn in *; try congruence; try discriminate; try apply H2. Qed.
Lemma naM_ret {A} (a : A) : naM (ret a).
Proof. intros w. discriminate. Qed.
Lemma naM_ub {A} : naM (@ub V A).
Proof. intros w. discriminate. Qed.
Lemma naM_on_throw {A} (m : M A) h : naM m -> naM h -> naM (on_throw m h).
Proof. intros H1 H2 w. unfold on_throw. specialize (H1 w). destruct (m w) as [[] w']; cbn in *; try congruence. specialize (H2 w'). destruct (h w') as [[] ?]; cbn in *; congruence. Qed.
Lemma naM_noexcept {A} c (m : M A) : naM m -> naM (noexcept_if c m).
Proof. intros H w. unfold noexcept_if. specialize (H w). destruct (m w) as [[] w'], c; cbn in *; congruence. Qed.
Lemma naM_tick safe : naM (tick thr safe).
Proof. intros w. unfold tick. destruct (negb safe && thr (clock w)); discriminate. Qed.

Ltac naw := let w := fresh "w" in intros w; repeat match goal with |- context [match ?x with _ => _ end] => destruct x; cbn; try discriminate end; cbn; try discriminate.
Lemma naM_allocate n : naM (allocate thr n).
Proof. unfold allocate. apply naM_bind; [apply naM_tick|]. intros _ w. discriminate. Qed.
Lemma naM_deallocate p : naM (@deallocate V p).
Proof. unfold deallocate. naw. Qed.
Lemma naM_construct p i v : naM (construct_at thr nt p i v).
Proof. unfold construct_at. apply naM_bind; [apply naM_tick|]. intros _. naw. Qed.
Lemma naM_destroy p i : naM (@destroy_at V p i).
Proof. unfold destroy_at. naw. Qed.

Lemma naM_read p i : naM (@read_at V p i).
Proof. unfold read_at. naw. Qed.
Lemma naM_assign p i v : naM (assign_at thr p i v).
Proof. unfold assign_at. apply naM_bind; [apply naM_tick|]. intros _. naw. Qed.
Lemma naM_destroy_n p : forall n k, naM (@destroy_n V p k n).
Proof. induction n as [|n IH]; intros k; cbn [destroy_n]; [apply naM_ret|]. apply naM_bind; [apply naM_destroy|]. intros _. apply IH. Qed.
Lemma naM_uninit_from p gen : (forall k, naM (gen k)) -> forall n k, naM (uninit_from thr nt p gen k n).
Proof.
  intros Hg. induction n as [|n IH]; intros k; cbn [uninit_from]; [apply naM_ret|]. apply naM_bind.
  - apply naM_on_throw; [|apply naM_destroy_n]. apply naM_bind; [apply Hg|]. intros v. apply naM_construct.
  - intros _. apply IH.
Qed.
Lemma naM_uninit p gen n : (forall k, naM (gen k)) -> naM (uninit thr nt p gen n).
Proof. intros Hg. apply naM_uninit_from, Hg. Qed.
Lemma naM_gen s k : naM (gen_of thr ns s k).
Proof. destruct s; cbn [gen_of]; [apply naM_ret|]. destruct (nth_error vs k); [|apply naM_ub]. apply naM_bind; [apply naM_tick|]. intros _. apply naM_ret. Qed.
Lemma naM_construct_n p s n : naM (construct thr nt ns p s n).
Proof. apply naM_noexcept, naM_uninit. intros k. apply naM_gen. Qed.
Lemma naM_ctor_dims t s es : naM (ctor_dims thr nt ns t s es).
Proof.
  unfold ctor_dims. destruct (dims_alloc t es); [|apply naM_ub]. apply naM_bind; [apply naM_allocate|]. intros b.
  apply naM_bind; [apply naM_on_throw; [apply naM_construct_n|apply naM_deallocate]|]. intros _. apply naM_ret.
Qed.
Lemma naM_ctor_conv vs es : naM (ctor_conv thr nt ns vs es).
Proof.
  unfold ctor_conv. apply naM_bind; [apply naM_allocate|]. intros b.
  apply naM_bind; [apply naM_on_throw; [apply naM_construct_n|apply naM_deallocate]|]. intros _. apply naM_ret.
Qed.
Lemma naM_ctor_copy a : naM (ctor_copy thr nt a).
Proof.
  unfold ctor_copy. apply naM_bind; [apply naM_allocate|]. intros b. apply naM_bind.
  - apply naM_on_throw; [|apply naM_deallocate]. apply naM_noexcept, naM_uninit. intros k. apply naM_read.
  - intros _. apply naM_ret.
Qed.
Lemma naM_clear (a : arr) : naM (@clear V a).
Proof. unfold clear. destruct (adata a); [|apply naM_ret]. apply naM_bind; [apply naM_destroy_n|]. intros _. apply naM_deallocate. Qed.
Lemma naM_copy_into p gen : (forall k, naM (gen k)) -> forall n k, naM (copy_into thr p gen k n).
Proof.
  intros Hg. induction n as [|n IH]; intros k; cbn [copy_into]; [apply naM_ret|]. apply naM_bind.
  - apply naM_bind; [apply Hg|]. intros v. apply naM_assign.
  - intros _. apply IH.
Qed.
Lemma naM_assign_from a gen es : (forall k, naM (gen k)) -> naM (assign_from thr nt a gen es).
Proof.
  intros Hg. unfold assign_from. destruct (Nat.eqb _ _).
  - apply naM_bind; [apply naM_copy_into, Hg|]. intros _. apply naM_ret.
  - apply naM_bind; [apply naM_allocate|]. intros b. apply naM_bind; [apply naM_noexcept, naM_uninit, Hg|]. intros _.
    apply naM_bind; [apply naM_clear|]. intros _. apply naM_ret.
Qed.
Lemma naM_destroy_list p es : forall (ps : list (list Z * V)) c, naM (destroy_list p es ps c).
Proof. induction ps as [|[ix v] ps IH]; intros [|c]; cbn [destroy_list]; try apply naM_ret. apply naM_bind; [apply naM_destroy|]. intros _. apply IH. Qed.
Lemma naM_construct_rec p es all : forall rest c, naM (construct_rec thr nt p es all rest c).
Proof.
  induction rest as [|[ix v] rest IH]; intros c; cbn [construct_rec]; [apply naM_ret|]. apply naM_bind.
  - apply naM_on_throw; [apply naM_construct|apply naM_destroy_list].
  - intros _. apply IH.
Qed.
Lemma soM_desc_fill : forall N (l : nested N), soM (desc_fill true N l) (desc_fill false N l : M _).
Proof.
  induction N as [|N IH]; intros l; cbn [desc_fill]; [apply soM_refl, naM_ret|]. apply soM_bind; [apply soM_assert|]. intros _.
  destruct l as [|x l]; [apply soM_refl, naM_ub|]. apply soM_bind; [apply IH|]. intros es. apply soM_refl, naM_ret.
Qed.
Lemma soM_ctor_list N l : soM (ctor_list thr nt true N l) (ctor_list thr nt false N l).
Proof.
  unfold ctor_list. apply soM_bind; [apply soM_desc_fill|]. intros es. apply soM_bind; [apply soM_assert|]. intros _. apply soM_refl.
  apply naM_bind; [apply naM_allocate|]. intros b. destruct (visit N es [] l); [|apply naM_ub]. apply naM_bind; [|intros _; apply naM_ret].
  apply naM_on_throw; [|apply naM_deallocate]. apply naM_noexcept, naM_construct_rec.
Qed.
Lemma soM_push nx b v : soM (bld_push thr nt true nx b v) (bld_push thr nt false nx b v).
Proof.
  unfold bld_push. apply soM_noexcept, soM_bind; [apply soM_assert|]. intros _. apply soM_refl, naM_bind; [apply naM_construct|]. intros _. apply naM_ret.
Qed.
Lemma naM_bld_destroy b : naM (@bld_destroy V b).
Proof. unfold bld_destroy. destruct (bdata b); [|apply naM_ret]. apply naM_bind; [apply naM_destroy_n|]. intros _. apply naM_deallocate. Qed.
Lemma naM_bld_new es : naM (bld_new thr es).
Proof. unfold bld_new. apply naM_bind; [apply naM_allocate|]. intros b. apply naM_ret. Qed.
Lemma soM_release b : soM (bld_release true b) (bld_release false b : M _).
Proof. unfold bld_release. apply soM_bind; [apply soM_assert|]. intros _. apply soM_refl, naM_ret. Qed.

Lemma soS_upd {A} (c u : M A) st f w : soM c u -> same_or_stopsS (upd c st f w) (upd u st f w).
Proof.
  intros H. unfold upd. destruct (H w) as [N D]. destruct (u w) as [ru wu]. cbn [fst] in N. destruct D as [D|D].
  - destruct (c w) as [rc wc]. cbn [fst] in D. subst rc. split; [|left; reflexivity]. destruct ru; cbn; congruence.
  - rewrite D. split; [|right; reflexivity]. destruct ru; cbn; congruence.
Qed.
Lemma soS_refl {A S} (r : res A * S) : fst r <> RAbort -> same_or_stopsS r r.
Proof. split; auto. Qed.

Lemma soS_step (o : @op V) ws : same_or_stopsS (step thr nt ns true o ws) (step thr nt ns false o ws).
Proof.
  destruct ws as [w st]. destruct o; cbn [step];
    repeat match goal with
    | |- context [if ?b then upd _ _ _ _ else _] => destruct b
    | |- context [match free_var ?a ?b with _ => _ end] => destruct (free_var a b)
    | |- context [match var ?a ?b with _ => _ end] => destruct (var a b) as [[]|]
    | |- context [Nat.eqb ?a ?b] => destruct (Nat.eqb a b)
    end;
    try (apply soS_refl; discriminate); try (apply soS_upd); try apply soM_refl.
  all: try first [apply naM_ctor_dims|apply naM_ctor_conv|apply soM_ctor_list|apply naM_ctor_copy|apply naM_assign_from; intros; apply naM_read
                 |apply naM_assign_from; intros; apply naM_gen|apply naM_clear|apply naM_bld_destroy|apply naM_bld_new|apply soM_push].
  all: try (split; [discriminate|left; reflexivity]).
  all: repeat first [apply soM_bind; [first [apply soM_assert|apply soM_release]|intros]].
  all: apply soM_refl, naM_bind; [apply naM_bld_destroy|]; intros; apply naM_ret.
Qed.

Lemma soS_runs : forall (p : @prog V) ws, same_or_stopsS (runs thr nt ns true p ws) (runs thr nt ns false p ws).
Proof.
  induction p as [|o p1 IH1 p2 IH2]; intros ws; cbn [runs]; [apply soS_refl; discriminate|].
  destruct (soS_step o ws) as [N D]. destruct (step thr nt ns false o ws) as [ru wu]. cbn [fst] in N. destruct D as [D|D].
  - destruct (step thr nt ns true o ws) as [rc wc]. cbn [fst] in D. subst rc. split; [|left; reflexivity].
    destruct ru; cbn [fst]; try congruence.
    + destruct (IH1 wu) as [N1 _]. destruct (runs thr nt ns false p1 wu) as [[] ?]; cbn [fst] in *; congruence.
    + destruct (IH2 wu) as [N1 _]. destruct (runs thr nt ns false p2 wu) as [[] ?]; cbn [fst] in *; congruence.
  - rewrite D. destruct ru; try (apply soS_refl; cbn [fst]; congruence).
    + destruct (IH1 wu) as [N1 D1]. destruct (runs thr nt ns false p1 wu) as [r1 w1]. cbn [fst] in N1. destruct D1 as [D1|D1].
      * destruct (runs thr nt ns true p1 wu) as [rc wc]. cbn [fst] in D1. subst rc. split; [|left; reflexivity]. destruct r1; cbn [fst]; congruence.
      * rewrite D1. apply soS_refl. destruct r1; cbn [fst]; congruence.
    + destruct (IH2 wu) as [N1 D1]. destruct (runs thr nt ns false p2 wu) as [r1 w1]. cbn [fst] in N1. destruct D1 as [D1|D1].
      * destruct (runs thr nt ns true p2 wu) as [rc wc]. cbn [fst] in D1. subst rc. split; [|left; reflexivity]. destruct r1; cbn [fst]; congruence.
      * rewrite D1. apply soS_refl. destruct r1; cbn [fst]; congruence.
Qed.
End BuildsLife.
