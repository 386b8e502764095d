(** * ColHeapFrame: which operations a command depends on, and what it leaves alone. *)

From Coq Require Import ZArith Bool List Lia.
From Verif Require Import Base Coerce Frame ColHeap ColHeapSpec.
Import ListNotations.
Open Scope list_scope.
Open Scope nat_scope.

(** *** without failures the execution does not depend on [ex] and [thr] *)
Definition local {A} (m : exn -> (nat -> bool) -> M A) : Prop :=
  forall ex thr w o w', m ex thr w = (o, w') ->
    hclock w <= hclock w' /\
    forall ex' thr', (forall k, hclock w <= k < hclock w' -> thr k = false /\ thr' k = false) -> m ex' thr' w = (o, w').

Lemma local_pure {A} (m : M A) : (forall w, hclock (snd (m w)) = hclock w) -> local (fun _ _ => m).
Proof. intros H ex thr w o w' E. specialize (H w). rewrite E in H. simpl in H. split; [lia|auto]. Qed.
Lemma local_ret {A} (a : A) : local (fun _ _ => ret a).
Proof. now apply local_pure. Qed.
Lemma local_lift {A} (o : outcome A) : local (fun _ _ => lift o).
Proof. now apply local_pure. Qed.
Lemma local_tick : local tick.
Proof.
  intros ex thr w o w' E. unfold tick in *. inversion E; subst; simpl. split; [lia|]. intros ex' thr' H.
  destruct (H (hclock w)) as [H1 H2]; [lia|]. now rewrite H1, H2.
Qed.
Lemma local_bind {A B} (m : exn -> (nat -> bool) -> M A) (f : exn -> (nat -> bool) -> A -> M B) :
  local m -> (forall a, local (fun ex thr => f ex thr a)) -> local (fun ex thr => bindM (m ex thr) (f ex thr)).
Proof.
  intros Hm Hf ex thr w o w' E. unfold bindM in *. destruct (m ex thr w) as [o1 w1] eqn:E1.
  destruct (Hm _ _ _ _ _ E1) as [L1 P1].
  destruct o1 as [a|e| | |].
  - destruct (Hf a _ _ _ _ _ E) as [L2 P2]. split; [lia|]. intros ex' thr' H.
    rewrite (P1 ex' thr') by (intros k Hk; apply H; lia). apply P2. intros k Hk; apply H; lia.
  - inversion E; subst. split; [lia|]. intros ex' thr' H. now rewrite (P1 ex' thr' H).
  - inversion E; subst. split; [lia|]. intros ex' thr' H. now rewrite (P1 ex' thr' H).
  - inversion E; subst. split; [lia|]. intros ex' thr' H. now rewrite (P1 ex' thr' H).
  - inversion E; subst. split; [lia|]. intros ex' thr' H. now rewrite (P1 ex' thr' H).
Qed.
Lemma local_on_throw {A} (m : exn -> (nat -> bool) -> M A) (h : exn -> (nat -> bool) -> M unit) :
  local m -> local h -> local (fun ex thr => on_throw (m ex thr) (h ex thr)).
Proof.
  intros Hm Hh ex thr w o w' E. unfold on_throw in *. destruct (m ex thr w) as [o1 w1] eqn:E1.
  destruct (Hm _ _ _ _ _ E1) as [L1 P1].
  destruct o1 as [a|e| | |].
  2:{ pose proof (local_bind h (fun _ _ _ => lift (Throw e)) Hh (fun _ => local_lift (A := A) (Throw e))) as HB.
      destruct (HB _ _ _ _ _ E) as [L2 P2]. split; [lia|]. intros ex' thr' H.
      rewrite (P1 ex' thr') by (intros k Hk; apply H; lia). apply P2. intros k Hk; apply H; lia. }
  all: inversion E; subst; split; [lia|]; intros ex' thr' H; now rewrite (P1 ex' thr' H).
Qed.
Lemma local_free c : local (fun _ _ => free c).
Proof. apply local_pure. intros w. destruct c as [b|]; simpl; auto. destruct (nth_error (hmem w) b) as [[]|]; auto. Qed.
Lemma local_defer {A} r (m : exn -> (nat -> bool) -> M (A * hcol)) : local m -> local (fun ex thr => defer_delete r (m ex thr)).
Proof.
  intros Hm ex thr w o w' E. unfold defer_delete in *. destruct (m ex thr w) as [o1 w1] eqn:E1.
  destruct (Hm _ _ _ _ _ E1) as [L1 P1].
  destruct o1 as [[a p]|e| | |].
  - pose proof (local_bind (fun _ _ => free p) (fun _ _ _ => ret a) (local_free p) (fun _ => local_ret a)) as HB.
    destruct (HB ex thr _ _ _ E) as [L2 P2]. split; [lia|]. intros ex' thr' H.
    rewrite (P1 ex' thr') by (intros k Hk; apply H; lia). exact E.
  - pose proof (local_bind (fun _ _ => free (Some r)) (fun _ _ _ => lift (Throw e)) (local_free (Some r)) (fun _ => local_lift (A := A) (Throw e))) as HB.
    destruct (HB ex thr _ _ _ E) as [L2 P2]. split; [lia|]. intros ex' thr' H.
    rewrite (P1 ex' thr') by (intros k Hk; apply H; lia). exact E.
  - inversion E; subst; split; [lia|]; intros ex' thr' H; now rewrite (P1 ex' thr' H).
  - inversion E; subst; split; [lia|]; intros ex' thr' H; now rewrite (P1 ex' thr' H).
  - inversion E; subst; split; [lia|]; intros ex' thr' H; now rewrite (P1 ex' thr' H).
Qed.
Lemma local_peek b : local (fun _ _ => peek b).
Proof. apply local_pure. intros w. unfold peek. destruct (nth_error (hmem w) b) as [[]|]; auto. Qed.
Lemma local_poke b m : local (fun _ _ => poke b m).
Proof. apply local_pure. intros w. unfold poke. destruct (nth_error (hmem w) b) as [[]|]; auto. Qed.
Lemma local_getv i : local (fun _ _ => getv i).
Proof. apply local_pure. intros w. unfold getv. destruct (nth_error (hvars w) i); auto. Qed.
Lemma local_setv i v : local (fun _ _ => setv i v).
Proof. now apply local_pure. Qed.
Lemma local_addv v : local (fun _ _ => addv v).
Proof. now apply local_pure. Qed.

Create HintDb loc.
Ltac loc := intros; repeat first
  [ progress intros | progress cbv beta
  | solve [auto with loc]
  | apply local_bind | apply local_on_throw | apply local_defer | apply local_ret | apply local_lift | apply local_tick | apply local_free
  | apply local_peek | apply local_poke | apply local_getv | apply local_setv | apply local_addv
  | match goal with |- local (fun _ _ => match ?x with _ => _ end) => destruct x end ].

Lemma local_new m : local (fun ex thr => new_model ex thr m).
Proof. unfold new_model. loc. apply local_pure. reflexivity. Qed.
#[export] Hint Resolve local_new : loc.
Lemma local_ticks n : local (fun ex thr => ticks ex thr n).
Proof. induction n; simpl; loc. Qed.
#[export] Hint Resolve local_ticks : loc.
Lemma local_push b c : local (fun _ _ => push_cell b c).
Proof. unfold push_cell. loc. Qed.
#[export] Hint Resolve local_push : loc.
Lemma local_fill b l : local (fun ex thr => fill ex thr b l).
Proof. induction l; simpl; loc. Qed.
#[export] Hint Resolve local_fill : loc.
Lemma local_make t l : local (fun ex thr => make_model ex thr t l).
Proof. unfold make_model. loc. Qed.
#[export] Hint Resolve local_make : loc.
Lemma local_clone b : local (fun ex thr => clone ex thr b).
Proof. unfold clone. loc. Qed.
Lemma local_pclone b f s : local (fun ex thr => hpartial_clone ex thr b f s).
Proof. unfold hpartial_clone. loc. Qed.
#[export] Hint Resolve local_clone local_pclone : loc.
Lemma local_cloop f r l : local (fun ex thr => coerce_loop ex thr f r l).
Proof. induction l; simpl; loc. Qed.
#[export] Hint Resolve local_cloop : loc.
Lemma local_coerce rs t b : local (fun ex thr => coerce_model rs ex thr t b).
Proof. unfold coerce_model. loc. Qed.
#[export] Hint Resolve local_coerce : loc.
Lemma local_size c : local (fun _ _ => hcol_size c).
Proof. unfold hcol_size. loc. Qed.
Lemma local_type c : local (fun _ _ => hcol_type c).
Proof. unfold hcol_type. loc. Qed.
Lemma local_copy c : local (fun ex thr => hcopy ex thr c).
Proof. unfold hcopy. loc. Qed.
Lemma local_partial c f s : local (fun ex thr => hpartial ex thr c f s).
Proof. unfold hpartial. loc. Qed.
Lemma local_assign c d : local (fun ex thr => hassign ex thr c d).
Proof. unfold hassign. loc. Qed.
Lemma local_hcoerce rs t c : local (fun ex thr => hcoerce rs ex thr t c).
Proof. unfold hcoerce. loc. Qed.
Lemma local_tocol rs t c : local (fun ex thr => hto_column rs ex thr t c).
Proof. unfold hto_column. loc. Qed.
#[export] Hint Resolve local_size local_type local_copy local_partial local_assign local_hcoerce local_tocol : loc.
Lemma local_ensure rs t c : local (fun ex thr => hensure rs ex thr t c).
Proof. unfold hensure. loc. Qed.
Lemma local_set t c i v : local (fun ex thr => hset ex thr t c i v).
Proof. unfold hset. loc. Qed.
Lemma local_free_all l : local (fun _ _ => free_all l).
Proof. induction l as [|[n c] l IH]; simpl; loc. Qed.
#[export] Hint Resolve local_ensure local_set local_free_all : loc.
Lemma local_copy_all l : local (fun ex thr => copy_all ex thr l).
Proof. induction l as [|[n c] l IH]; simpl; loc. Qed.
#[export] Hint Resolve local_copy_all : loc.
Lemma local_dfcopy d : local (fun ex thr => hdf_copy ex thr d).
Proof. unfold hdf_copy. loc. Qed.
Lemma local_push_all rc l : forall acc, local (fun ex thr => hpush_all ex thr rc acc l).
Proof. induction l as [|[n c] l IH]; intros acc; simpl; loc. Qed.
Lemma local_index l : forall i ix, local (fun ex thr => hbuild_index ex thr l i ix).
Proof. induction l as [|[n c] l IH]; intros i ix; simpl; loc. Qed.
#[export] Hint Resolve local_dfcopy local_push_all local_index : loc.
Lemma local_ctor l : local (fun ex thr => hctor_copy ex thr l).
Proof. unfold hctor_copy. loc. Qed.
#[export] Hint Resolve local_ctor : loc.
Lemma local_ctor_list l : local (fun ex thr => hctor_list ex thr l).
Proof. unfold hctor_list. loc. Qed.
Lemma local_ctor_named n c : local (fun ex thr => hctor_named ex thr n c).
Proof. unfold hctor_named. loc. Qed.
Lemma local_getc i : local (fun _ _ => getc i).
Proof. unfold getc. loc. Qed.
Lemma local_getd i : local (fun _ _ => getd i).
Proof. unfold getd. loc. Qed.
#[export] Hint Resolve local_ctor_list local_ctor_named local_getc local_getd : loc.
Lemma local_bloop i l : local (fun ex thr => hbind_loop ex thr i l).
Proof. induction l as [|[n c] l IH]; simpl; loc. Qed.
#[export] Hint Resolve local_bloop : loc.
Lemma local_hbind i o : local (fun ex thr => hbind ex thr i o).
Proof. unfold hbind. loc. Qed.
Lemma local_elems i es : local (fun _ _ => set_elems i es).
Proof. unfold set_elems. loc. Qed.
#[export] Hint Resolve local_hbind local_elems : loc.
Lemma local_assign_elems i l : forall k, local (fun ex thr => assign_elems ex thr i k l).
Proof. induction l as [|[n c] l IH]; intros k; simpl; loc. Qed.
#[export] Hint Resolve local_assign_elems : loc.
Lemma local_vector cap i l : local (fun ex thr => assign_vector ex thr cap i l).
Proof. unfold assign_vector. loc. Qed.
#[export] Hint Resolve local_vector : loc.
Lemma local_dfassign cap keep i s : local (fun ex thr => hdf_assign ex thr cap keep i s).
Proof. unfold hdf_assign. loc. Qed.
Lemma local_cols l : local (fun _ _ => cols_of l).
Proof. induction l as [|[n x] l IH]; simpl; loc. Qed.
#[export] Hint Resolve local_dfassign local_cols : loc.
Lemma local_exec rs c : local (fun ex thr => kexec rs ex thr c).
Proof. destruct c; simpl; loc. Qed.

(** *** operations that leave the variables alone *)
Definition still {A} (m : M A) : Prop := forall w, hvars (snd (m w)) = hvars w.
Lemma still_ret {A} (a : A) : still (ret a). Proof. now intros w. Qed.
Lemma still_lift {A} (o : outcome A) : still (lift o). Proof. now intros w. Qed.
Lemma still_tick ex thr : still (tick ex thr). Proof. now intros w. Qed.
Lemma still_peek b : still (peek b).
Proof. intros w. unfold peek. destruct (nth_error (hmem w) b) as [[]|]; auto. Qed.
Lemma still_poke b m : still (poke b m).
Proof. intros w. unfold poke. destruct (nth_error (hmem w) b) as [[]|]; auto. Qed.
Lemma still_free c : still (free c).
Proof. intros w. destruct c as [b|]; simpl; auto. destruct (nth_error (hmem w) b) as [[]|]; auto. Qed.
Lemma still_getv i : still (getv i).
Proof. intros w. unfold getv. destruct (nth_error (hvars w) i); auto. Qed.
Lemma still_bind {A B} (m : M A) (f : A -> M B) : still m -> (forall a, still (f a)) -> still (bindM m f).
Proof. intros Hm Hf w. unfold bindM. specialize (Hm w). destruct (m w) as [[a|e| | |] w1]; simpl in *; auto. now rewrite Hf. Qed.
Lemma still_on_throw {A} (m : M A) h : still m -> still h -> still (on_throw m h).
Proof.
  intros Hm Hh w. unfold on_throw. specialize (Hm w). destruct (m w) as [[a|e| | |] w1]; simpl in *; auto.
  unfold bindM, lift. specialize (Hh w1). destruct (h w1) as [[]]; simpl in *; congruence.
Qed.
Lemma still_defer {A} r (m : M (A * hcol)) : still m -> still (defer_delete r m).
Proof.
  intros Hm w. unfold defer_delete. specialize (Hm w). destruct (m w) as [[[a p]|e| | |] w1]; simpl fst in *; simpl snd in *; auto.
  - rewrite <- Hm. apply still_bind; [apply still_free|intros; apply still_ret].
  - rewrite <- Hm. apply (still_bind (free (Some r))); [apply still_free|intros; apply still_lift].
Qed.
Create HintDb still.
Ltac stl := intros; repeat first
  [ progress intros | progress cbv beta
  | solve [auto with still]
  | apply still_bind | apply still_on_throw | apply still_defer | apply still_ret | apply still_lift | apply still_tick | apply still_free
  | apply still_peek | apply still_poke | apply still_getv
  | match goal with |- still (match ?x with _ => _ end) => destruct x end ].
Section S.
Variable rs : rules.
Variable ex : exn.
Variable thr : nat -> bool.
Lemma still_new m : still (new_model ex thr m).
Proof. unfold new_model. stl. now intros w. Qed.
Lemma still_push b c : still (push_cell b c).
Proof. unfold push_cell. stl. Qed.
Lemma still_ticks n : still (ticks ex thr n).
Proof. induction n; simpl; stl. Qed.
#[local] Hint Resolve still_new still_push still_ticks : still.
Lemma still_fill b l : still (fill ex thr b l).
Proof. induction l; simpl; stl. Qed.
#[local] Hint Resolve still_fill : still.
Lemma still_make t l : still (make_model ex thr t l).
Proof. unfold make_model. stl. Qed.
#[local] Hint Resolve still_make : still.
Lemma still_clone b : still (clone ex thr b).
Proof. unfold clone. stl. Qed.
Lemma still_pclone b f s : still (hpartial_clone ex thr b f s).
Proof. unfold hpartial_clone. stl. Qed.
Lemma still_cloop f r l : still (coerce_loop ex thr f r l).
Proof. induction l; simpl; stl. Qed.
#[local] Hint Resolve still_clone still_pclone still_cloop : still.
Lemma still_coerce t b : still (coerce_model rs ex thr t b).
Proof. unfold coerce_model. stl. Qed.
#[local] Hint Resolve still_coerce : still.
Lemma still_size c : still (hcol_size c).
Proof. unfold hcol_size. stl. Qed.
Lemma still_type c : still (hcol_type c).
Proof. unfold hcol_type. stl. Qed.
Lemma still_copy c : still (hcopy ex thr c).
Proof. unfold hcopy. stl. Qed.
Lemma still_partial c f s : still (hpartial ex thr c f s).
Proof. unfold hpartial. stl. Qed.
Lemma still_assign c d : still (hassign ex thr c d).
Proof. unfold hassign. stl. Qed.
Lemma still_hcoerce t c : still (hcoerce rs ex thr t c).
Proof. unfold hcoerce. stl. Qed.
Lemma still_tocol t c : still (hto_column rs ex thr t c).
Proof. unfold hto_column. stl. Qed.
#[local] Hint Resolve still_size still_type still_copy still_partial still_assign still_hcoerce still_tocol : still.
Lemma still_ensure t c : still (hensure rs ex thr t c).
Proof. unfold hensure. stl. Qed.
Lemma still_set t c i v : still (hset ex thr t c i v).
Proof. unfold hset. stl. Qed.
Lemma still_free_all l : still (free_all l).
Proof. induction l as [|[n c] l IH]; simpl; stl. Qed.
#[local] Hint Resolve still_ensure still_set still_free_all : still.
Lemma still_copy_all l : still (copy_all ex thr l).
Proof. induction l as [|[n c] l IH]; simpl; stl. Qed.
#[local] Hint Resolve still_copy_all : still.
Lemma still_dfcopy d : still (hdf_copy ex thr d).
Proof. unfold hdf_copy. stl. Qed.
Lemma still_push_all rc l : forall acc, still (hpush_all ex thr rc acc l).
Proof. induction l as [|[n c] l IH]; intros acc; simpl; stl. Qed.
Lemma still_index l : forall i ix, still (hbuild_index ex thr l i ix).
Proof. induction l as [|[n c] l IH]; intros i ix; simpl; stl. Qed.
#[local] Hint Resolve still_dfcopy still_push_all still_index : still.
Lemma still_ctor l : still (hctor_copy ex thr l).
Proof. unfold hctor_copy. stl. Qed.
#[local] Hint Resolve still_ctor : still.
Lemma still_ctor_list l : still (hctor_list ex thr l).
Proof. unfold hctor_list. stl. Qed.
Lemma still_ctor_named n c : still (hctor_named ex thr n c).
Proof. unfold hctor_named. stl. Qed.
Lemma still_getc i : still (getc i).
Proof. unfold getc. stl. Qed.
Lemma still_getd i : still (getd i).
Proof. unfold getd. stl. Qed.
#[local] Hint Resolve still_ctor_list still_ctor_named still_getc still_getd : still.
Lemma still_cols l : still (cols_of l).
Proof. induction l as [|[n x] l IH]; simpl; stl. Qed.
#[local] Hint Resolve still_cols : still.

(** A command changes only the variables [changes] lists. *)
Definition keeps {A} (X : list nat) (m : M A) : Prop := forall w,
  length (hvars w) <= length (hvars (snd (m w))) /\
  forall x, ~ In x X -> x < length (hvars w) -> nth_error (hvars (snd (m w))) x = nth_error (hvars w) x.
Lemma still_keeps {A} X (m : M A) : still m -> keeps X m.
Proof. intros H w. rewrite (H w). split; auto. Qed.
Lemma upd_length {A} (l : list A) i v : length (upd_nat l i v) = length l.
Proof. revert i; induction l; intros [|i]; simpl; auto. Qed.
Lemma upd_other {A} (l : list A) i j v : i <> j -> nth_error (upd_nat l i v) j = nth_error l j.
Proof. revert i j; induction l; intros [|i] [|j] H; simpl in *; try lia; auto. Qed.
Lemma keeps_setv X i v : In i X -> keeps X (setv i v).
Proof.
  intros H w. simpl. rewrite upd_length. split; auto. intros x Hx _. apply upd_other. congruence.
Qed.
Lemma keeps_addv X v : keeps X (addv v).
Proof. intros w. simpl. rewrite app_length. simpl. split; [lia|]. intros x _ Hx. now rewrite nth_error_app1. Qed.
Lemma keeps_bind {A B} X (m : M A) (f : A -> M B) : keeps X m -> (forall a, keeps X (f a)) -> keeps X (bindM m f).
Proof.
  intros Hm Hf w. unfold bindM. specialize (Hm w). destruct (m w) as [[a|e| | |] w1]; simpl in *; auto.
  destruct Hm as [L1 P1]. destruct (Hf a w1) as [L2 P2]. split; [lia|]. intros x Hx Hl. rewrite P2 by (auto; lia). auto.
Qed.
Lemma keeps_on_throw {A} X (m : M A) h : keeps X m -> keeps X h -> keeps X (on_throw m h).
Proof.
  intros Hm Hh w. unfold on_throw. specialize (Hm w). destruct (m w) as [[a|e| | |] w1]; simpl in *; auto.
  destruct Hm as [L1 P1]. destruct (keeps_bind X h (fun _ => lift (A := A) (Throw e)) Hh (fun _ => still_keeps X _ (still_lift _)) w1) as [L2 P2].
  split; [lia|]. intros x Hx Hl. rewrite P2 by (auto; lia). auto.
Qed.
Ltac kp := repeat first
  [ progress intros | progress cbv beta
  | solve [apply still_keeps; auto with still] | solve [auto]
  | solve [apply still_keeps; first [apply still_ret|apply still_lift|apply still_tick|apply still_free|apply still_getv]]
  | solve [apply keeps_setv; simpl; auto] | apply keeps_addv
  | apply keeps_bind | apply keeps_on_throw
  | match goal with |- keeps _ (match ?x with _ => _ end) => destruct x end ].
Lemma keeps_bloop i l : keeps [i] (hbind_loop ex thr i l).
Proof. induction l as [|[n c] l IH]; simpl; kp. Qed.
Lemma keeps_hbind i o : keeps [i] (hbind ex thr i o).
Proof. pose proof (keeps_bloop i (helems o)). unfold hbind. kp. Qed.
Lemma keeps_elems i es : keeps [i] (set_elems i es).
Proof. unfold set_elems. kp. Qed.
Lemma keeps_assign_elems i l : forall k, keeps [i] (assign_elems ex thr i k l).
Proof. pose proof (keeps_elems i). induction l as [|[n c] l IH]; intros k; simpl; kp. Qed.
Lemma keeps_vector cap i l : keeps [i] (assign_vector ex thr cap i l).
Proof. pose proof (keeps_elems i). pose proof (keeps_assign_elems i). unfold assign_vector. kp. Qed.
Lemma keeps_dfassign cap keep i s : keeps [i] (hdf_assign ex thr cap keep i s).
Proof. pose proof (keeps_vector cap i). unfold hdf_assign. kp. Qed.
Lemma keeps_more {A} X Y (m : M A) : incl X Y -> keeps X m -> keeps Y m.
Proof. intros I H w. destruct (H w) as [L P]. split; auto. Qed.
Lemma keeps_exec c : keeps (changes c) (kexec rs ex thr c).
Proof.
  assert (HB : forall i X o, In i X -> keeps X (hbind ex thr i o)).
  { intros i X o H. eapply keeps_more; [|apply keeps_hbind]. intros x [<-|[]]; auto. }
  pose proof keeps_dfassign as HA.
  destruct c; simpl; kp;
    match goal with |- keeps ?X (hbind_loop _ _ ?i ?l) => apply (keeps_more [i] X); [intros y [<-|[]]; simpl; auto|apply keeps_bloop] end.
Qed.

(** Commands on columns that throw leave all variables as they are. *)
Definition quiet {A} (m : M A) : Prop := forall w e w', m w = (Throw e, w') -> hvars w' = hvars w.
Lemma still_quiet {A} (m : M A) : still m -> quiet m.
Proof. intros H w e w' E. specialize (H w). now rewrite E in H. Qed.
Lemma quiet_bind {A B} (m : M A) (f : A -> M B) : still m -> (forall a, quiet (f a)) -> quiet (bindM m f).
Proof.
  intros Hm Hf w e w' E. unfold bindM in E. specialize (Hm w). destruct (m w) as [[a|e1| | |] w1]; simpl in *; try discriminate.
  - apply Hf in E. congruence.
  - inversion E; subst; auto.
Qed.
Definition nothrow {A} (m : M A) : Prop := forall w e w', m w <> (Throw e, w').
Lemma nothrow_quiet {A} (m : M A) : nothrow m -> quiet m.
Proof. intros H w e w' E. now apply H in E. Qed.
Lemma nothrow_bind {A B} (m : M A) (f : A -> M B) : nothrow m -> (forall a, nothrow (f a)) -> nothrow (bindM m f).
Proof.
  intros Hm Hf w e w' E. unfold bindM in E. specialize (Hm w). destruct (m w) as [[a|e1| | |] w1]; simpl in *; try discriminate.
  - now apply Hf in E.
  - now apply (Hm e1 w1).
Qed.
Lemma nothrow_setv i v : nothrow (setv i v). Proof. intros w e w'. discriminate. Qed.
Lemma nothrow_addv v : nothrow (addv v). Proof. intros w e w'. discriminate. Qed.
Lemma nothrow_ret {A} (a : A) : nothrow (ret a). Proof. intros w e w'. discriminate. Qed.
Lemma nothrow_free c : nothrow (free c).
Proof. intros w e w' E. destruct c as [b|]; simpl in E; try discriminate. destruct (nth_error (hmem w) b) as [[]|]; discriminate. Qed.
Lemma nothrow_free_all l : nothrow (free_all l).
Proof. induction l as [|[n c] l IH]; simpl; [apply nothrow_ret|apply nothrow_bind; [apply nothrow_free|auto]]. Qed.
Lemma nothrow_ub {A} : nothrow (lift (A := A) UB). Proof. intros w e w'. discriminate. Qed.
Ltac nt := repeat first
  [ progress intros | progress cbv beta
  | apply nothrow_setv | apply nothrow_addv | apply nothrow_ret | apply nothrow_free | apply nothrow_free_all | apply nothrow_ub
  | apply nothrow_bind
  | match goal with |- nothrow (match ?x with _ => _ end) => destruct x end ].
Ltac qt := repeat first
  [ progress intros | progress cbv beta
  | solve [apply still_quiet; first [apply still_ret | apply still_lift | auto with still]]
  | solve [apply nothrow_quiet; nt]
  | apply quiet_bind; [solve [first [apply still_getv | apply still_free | apply still_tick | auto with still]]|]
  | match goal with |- quiet (match ?x with _ => _ end) => destruct x end ].
Definition strong_cmd (c : cop) : Prop :=
  match c with FBindCopy _ _ | FBindMove _ _ | FBindCol _ _ _ | FAssign _ _ _ _ => False | _ => True end.
Lemma quiet_exec c : strong_cmd c -> quiet (kexec rs ex thr c).
Proof. destruct c; simpl; intros H; try contradiction; qt. apply quiet_bind; [stl|qt]. Qed.
End S.
