(** * Lemmas: auxiliary facts on machine arithmetic, iota, cart, products. *)

From Coq Require Import ZArith List Bool Lia Permutation.
From Verif Require Import Base Spec.
Import ListNotations.
Open Scope Z_scope.

#[global] Arguments Z.mul : simpl never.
#[global] Arguments Z.add : simpl never.
#[global] Arguments Z.sub : simpl never.
#[global] Arguments Z.of_nat : simpl never.
#[global] Arguments Z.to_nat : simpl never.
#[global] Arguments Z.modulo : simpl never.
#[global] Arguments Z.div : simpl never.
#[global] Arguments Z.pow : simpl never.
#[global] Arguments w64 : simpl never.

Ltac inv H := inversion H; subst; clear H.

Lemma W_pos : 0 < W. Proof. reflexivity. Qed.
Lemma W_val : W = 18446744073709551616. Proof. reflexivity. Qed.

Lemma w64_small x : 0 <= x < W -> w64 x = x.
Proof. apply Z.mod_small. Qed.
Lemma w64_range x : 0 <= w64 x < W.
Proof. apply Z.mod_pos_bound, W_pos. Qed.
Lemma w64_add_l a b : w64 (w64 a + b) = w64 (a + b).
Proof. apply Zplus_mod_idemp_l. Qed.
Lemma w64_add_r a b : w64 (a + w64 b) = w64 (a + b).
Proof. apply Zplus_mod_idemp_r. Qed.
Lemma w64_mul_l a b : w64 (w64 a * b) = w64 (a * b).
Proof. apply Zmult_mod_idemp_l. Qed.
Lemma w64_mul_r a b : w64 (a * w64 b) = w64 (a * b).
Proof. apply Zmult_mod_idemp_r. Qed.
Lemma w64_w64 a : w64 (w64 a) = w64 a.
Proof. apply Zmod_mod. Qed.
Global Hint Rewrite w64_add_l w64_add_r w64_mul_l w64_mul_r w64_w64 : w64.

Lemma w64_congr_add a a' b b' : w64 a = w64 a' -> w64 b = w64 b' -> w64 (a + b) = w64 (a' + b').
Proof. intros. rewrite <- w64_add_l, <- w64_add_r, H, H0, w64_add_l, w64_add_r. reflexivity. Qed.
Lemma w64_congr_mul a a' b b' : w64 a = w64 a' -> w64 b = w64 b' -> w64 (a * b) = w64 (a' * b').
Proof. intros. rewrite <- w64_mul_l, <- w64_mul_r, H, H0, w64_mul_l, w64_mul_r. reflexivity. Qed.

(** ** outcome *)
Lemma dassert_true chk : dassert chk true = Ok tt.
Proof. destruct chk; reflexivity. Qed.
Lemma dassert_ok chk c : c = true -> dassert chk c = Ok tt.
Proof. intros ->. apply dassert_true. Qed.
Lemma bindO_ok {A B} (a : A) (f : A -> outcome B) : bindO (Ok a) f = f a.
Proof. reflexivity. Qed.
Lemma bindO_Ok_inv {A B} (x : outcome A) (f : A -> outcome B) b :
  bindO x f = Ok b -> exists a, x = Ok a /\ f a = Ok b.
Proof. destruct x; simpl; intros; try discriminate. eauto. Qed.

Lemma mapO_ok {A B} (f : A -> outcome B) (g : A -> B) l :
  (forall a, In a l -> f a = Ok (g a)) -> mapO f l = Ok (map g l).
Proof.
  induction l; simpl; intros; auto.
  rewrite (H a) by auto. simpl. rewrite IHl by auto. reflexivity.
Qed.

Lemma get_ok {A} (l : list A) i d :
  0 <= i < Z.of_nat (length l) -> get l i = Ok (nth (Z.to_nat i) l d).
Proof.
  intros. unfold get.
  destruct (0 <=? i) eqn:E1; [|lia]. destruct (i <? Z.of_nat (length l)) eqn:E2; [|lia]. simpl.
  destruct (nth_error l (Z.to_nat i)) eqn:E.
  - f_equal. symmetry. apply nth_error_nth with (d:=d) in E. auto.
  - apply nth_error_None in E. lia.
Qed.

Lemma get_Ok_inv {A} (l : list A) i a : get l i = Ok a ->
  0 <= i < Z.of_nat (length l) /\ nth_error l (Z.to_nat i) = Some a.
Proof.
  unfold get. destruct (0 <=? i) eqn:E1; simpl; [|discriminate].
  destruct (i <? Z.of_nat (length l)) eqn:E2; [|discriminate].
  destruct (nth_error l (Z.to_nat i)) eqn:E; [|discriminate]. intros. inv H. split; auto. lia.
Qed.

(** ** iota *)
Lemma iota_length n : length (iota n) = Z.to_nat n.
Proof. unfold iota. rewrite map_length, seq_length. reflexivity. Qed.
Lemma in_iota n i : In i (iota n) <-> 0 <= i < n.
Proof.
  unfold iota. rewrite in_map_iff. split.
  - intros (k & <- & H). apply in_seq in H. lia.
  - intros. exists (Z.to_nat i). split; [lia|]. apply in_seq. lia.
Qed.
Lemma iota_nil n : n <= 0 -> iota n = [].
Proof. intros. unfold iota. replace (Z.to_nat n) with 0%nat by lia. reflexivity. Qed.
Lemma iota_0 : iota 0 = []. Proof. reflexivity. Qed.
Lemma iota_succ n : 0 <= n -> iota (n + 1) = iota n ++ [n].
Proof.
  intros. unfold iota. replace (Z.to_nat (n+1)) with (S (Z.to_nat n)) by lia.
  rewrite seq_S, map_app. simpl. f_equal. f_equal. lia.
Qed.
Lemma iota_cons n : 0 < n -> iota n = 0 :: map Z.succ (iota (n - 1)).
Proof.
  intros. unfold iota. replace (Z.to_nat n) with (S (Z.to_nat (n - 1))) by lia.
  simpl. f_equal. rewrite <- seq_shift, !map_map. apply map_ext. intros; lia.
Qed.
Lemma iota_nth n k d : (k < Z.to_nat n)%nat -> nth k (iota n) d = Z.of_nat k.
Proof.
  intros. unfold iota. rewrite nth_indep with (d' := Z.of_nat 0) by (rewrite map_length, seq_length; auto).
  rewrite map_nth, seq_nth by auto. reflexivity.
Qed.
Lemma iota_nth_error n k : (k < Z.to_nat n)%nat -> nth_error (iota n) k = Some (Z.of_nat k).
Proof.
  intros. rewrite nth_error_nth' with (d:=0) by (rewrite iota_length; auto).
  rewrite iota_nth; auto.
Qed.
Lemma iota_NoDup n : NoDup (iota n).
Proof.
  unfold iota. apply FinFun.Injective_map_NoDup; [|apply seq_NoDup].
  intros a b H. lia.
Qed.
Lemma iota_app a b : 0 <= a -> 0 <= b -> iota (a + b) = iota a ++ map (Z.add a) (iota b).
Proof.
  intros. unfold iota. rewrite Z2Nat.inj_add by lia. rewrite seq_app, map_app. f_equal.
  simpl. rewrite <- (Nat.add_0_r (Z.to_nat a)) at 1.
  generalize 0%nat as k. induction (Z.to_nat b); intros; simpl; auto.
  f_equal; [lia|]. rewrite <- IHn. f_equal. f_equal. lia.
Qed.

Lemma iota_mul a b : 0 <= a -> 0 <= b ->
  iota (a * b) = flat_map (fun j => map (fun i => i + a * j) (iota a)) (iota b).
Proof.
  intros Ha Hb. pattern b. apply natlike_ind; auto.
  - rewrite Z.mul_0_r. reflexivity.
  - intros x Hx IH. rewrite <- Z.add_1_r. rewrite iota_succ by auto. rewrite flat_map_app, <- IH.
    rewrite Z.mul_add_distr_l, Z.mul_1_r. rewrite iota_app by nia. f_equal.
    simpl. rewrite app_nil_r. apply map_ext. intros; lia.
Qed.

(** ** products *)
Lemma zprod_nonneg es : all_nonneg es -> 0 <= zprod es.
Proof. induction 1; simpl; nia. Qed.
Lemma zprod_pos es : all_pos es -> 0 < zprod es.
Proof. induction 1; simpl; nia. Qed.
Lemma all_pos_nonneg es : all_pos es -> all_nonneg es.
Proof. apply Forall_impl. intros; lia. Qed.
Lemma zprod_app a b : zprod (a ++ b) = zprod a * zprod b.
Proof. induction a; simpl; [unfold zprod; simpl; lia|]. rewrite IHa. unfold zprod; simpl. ring. Qed.

Lemma NoDup_app_intro {A} (a b : list A) :
  NoDup a -> NoDup b -> (forall x, In x a -> ~ In x b) -> NoDup (a ++ b).
Proof.
  induction 1; simpl; intros Hb Hd; auto.
  constructor; [|apply IHNoDup; auto].
  rewrite in_app_iff. intros [?|?]; [auto|]. eapply Hd; eauto.
Qed.

(** ** cart *)
Lemma cart_length sels : Z.of_nat (length (cart sels)) = zprod (map (fun s => Z.of_nat (length s)) sels).
Proof.
  induction sels; simpl; auto. rewrite <- IHsels. clear IHsels.
  induction (cart sels); simpl; [lia|].
  rewrite app_length, map_length. nia.
Qed.
Lemma in_cart sels ix : In ix (cart sels) <-> Forall2 (fun s i => In i s) sels ix.
Proof.
  revert ix. induction sels; simpl; intros.
  - split; [intros [<-|[]]; constructor | intros H; inv H; auto].
  - rewrite in_flat_map. split.
    + intros (tl & Htl & H). apply in_map_iff in H as (i & <- & Hi).
      constructor; auto. apply IHsels; auto.
    + intros H. inv H. exists l'. split; [apply IHsels; auto|]. apply in_map_iff. eauto.
Qed.
Lemma cart_NoDup sels : Forall (@NoDup Z) sels -> NoDup (cart sels).
Proof.
  induction 1; simpl.
  - constructor; [simpl; tauto | constructor].
  - induction IHForall; simpl; [constructor|].
    apply NoDup_app_intro; auto.
    + apply FinFun.Injective_map_NoDup; auto. intros a b E. congruence.
    + intros t Ht Hf. apply in_map_iff in Ht as (i & <- & Hi).
      apply in_flat_map in Hf as (tl & Htl & Hin). apply in_map_iff in Hin as (j & E & _).
      inv E. auto.
Qed.

Lemma colmajor_cons e es :
  colmajor (e :: es) = flat_map (fun tl => map (fun i => i :: tl) (iota e)) (colmajor es).
Proof. reflexivity. Qed.
Lemma in_colmajor es ix : In ix (colmajor es) <-> in_range es ix.
Proof.
  unfold colmajor, in_range. rewrite in_cart. revert ix.
  induction es; simpl; intros; split; intros H; inv H; constructor; auto;
    try (apply in_iota; auto); try (apply IHes; auto).
Qed.
Lemma colmajor_length es : all_nonneg es -> Z.of_nat (length (colmajor es)) = zprod es.
Proof.
  intros. unfold colmajor. rewrite cart_length, map_map. f_equal.
  induction H; simpl; auto. rewrite IHForall, iota_length. f_equal. lia.
Qed.
Lemma colmajor_NoDup es : NoDup (colmajor es).
Proof. apply cart_NoDup. apply Forall_forall. intros s H. apply in_map_iff in H as (e & <- & _). apply iota_NoDup. Qed.

Lemma cm_pos_colmajor es : all_nonneg es -> map (cm_pos es) (colmajor es) = iota (zprod es).
Proof.
  induction 1; simpl; auto.
  rewrite colmajor_cons, iota_mul by (auto; apply zprod_nonneg; auto).
  rewrite <- IHForall. clear IHForall.
  induction (colmajor l); simpl; auto.
  rewrite map_app, IHl0, map_map. reflexivity.
Qed.

Lemma in_range_length es ix : in_range es ix -> length ix = length es.
Proof. induction 1; simpl; auto. Qed.

Lemma cm_pos_range es ix : in_range es ix -> 0 <= cm_pos es ix < zprod es.
Proof. induction 1; simpl; [lia|]. nia. Qed.

Lemma cm_pos_inj es ix iy : in_range es ix -> in_range es iy -> cm_pos es ix = cm_pos es iy -> ix = iy.
Proof.
  intros H. revert iy. induction H; intros iy Hy E; inv Hy; auto.
  simpl in E. assert (y = y0 /\ cm_pos l l' = cm_pos l l'0) as [-> E2].
  { assert (cm_pos l l' = cm_pos l l'0) by nia. split; nia. }
  f_equal. auto.
Qed.

(** mixed radix digits, last digit unreduced *)
Fixpoint digl (es : list Z) (k : Z) : list Z :=
  match es with
  | [] => []
  | [_] => [k]
  | e :: es' => (k mod e) :: digl es' (k / e)
  end.

Lemma nth_error_flat_map_map {A} (e : Z) (l : list A) (f : A -> Z -> list Z) k :
  0 < e -> (k < Z.to_nat e * length l)%nat -> forall d,
  nth_error (flat_map (fun tl => map (f tl) (iota e)) l) k
  = Some (f (nth (k / Z.to_nat e)%nat l d) (Z.of_nat (k mod Z.to_nat e))).
Proof.
  intros He. revert k. induction l; simpl; intros k Hk d; [lia|].
  set (n := Z.to_nat e) in *. assert (n <> 0)%nat by lia.
  destruct (Nat.lt_ge_cases k n).
  - rewrite nth_error_app1 by (rewrite map_length, iota_length; auto).
    rewrite Nat.div_small, Nat.mod_small by auto.
    rewrite nth_error_map, iota_nth_error by auto. reflexivity.
  - rewrite nth_error_app2 by (rewrite map_length, iota_length; auto).
    rewrite map_length, iota_length. fold n. rewrite IHl with (d:=d) by lia.
    assert (k = (k - n) + 1 * n)%nat by lia.
    f_equal. f_equal.
    + rewrite H1 at 2. rewrite Nat.div_add by auto. rewrite Nat.add_1_r. reflexivity.
    + rewrite H1 at 2. rewrite Nat.mod_add by auto. reflexivity.
Qed.

Lemma Forall_cons_iff' {A} (P : A -> Prop) x l : Forall P (x :: l) -> P x /\ Forall P l.
Proof. intros H; inv H; auto. Qed.

Lemma colmajor_nth es k : all_pos es -> es <> [] -> 0 <= k < zprod es ->
  nth_error (colmajor es) (Z.to_nat k) = Some (digl es k).
Proof.
  revert k. induction es as [|e es IH]; intros k Hp Hne Hk; [congruence|].
  apply Forall_cons_iff' in Hp as [He Hp]. cbn [zprod fold_right] in Hk.
  change (fold_right Z.mul 1 es) with (zprod es) in Hk.
  rewrite colmajor_cons. pose proof (zprod_pos _ Hp).
  assert (Hl : Z.of_nat (length (colmajor es)) = zprod es) by (apply colmajor_length, all_pos_nonneg; auto).
  rewrite (nth_error_flat_map_map e (colmajor es) (fun tl i => i :: tl) (Z.to_nat k)) with (d:=[]) by nia.
  f_equal.
  assert (Emod : Z.of_nat (Z.to_nat k mod Z.to_nat e) = k mod e).
  { rewrite Nat2Z.inj_mod, !Z2Nat.id by lia. reflexivity. }
  assert (Ediv : (Z.to_nat k / Z.to_nat e)%nat = Z.to_nat (k / e)).
  { apply Nat2Z.inj. rewrite Nat2Z.inj_div, !Z2Nat.id; try lia. apply Z.div_pos; lia. }
  rewrite Emod, Ediv.
  destruct es as [|e2 es].
  - simpl in *. assert (k < e) by lia. rewrite Z.mod_small, Z.div_small by lia. reflexivity.
  - cbn [digl]. f_equal. fold (digl (e2 :: es)).
    assert (0 <= k / e < zprod (e2 :: es)).
    { split; [apply Z.div_pos; lia|]. apply Z.div_lt_upper_bound; lia. }
    specialize (IH (k / e) Hp ltac:(congruence) H0).
    apply nth_error_nth with (d:=[]) in IH. exact IH.
Qed.

Lemma colmajor_digl es : all_pos es -> es <> [] -> colmajor es = map (digl es) (iota (zprod es)).
Proof.
  intros Hp Hne.
  assert (Hl : length (colmajor es) = Z.to_nat (zprod es)).
  { pose proof (colmajor_length es (all_pos_nonneg _ Hp)). lia. }
  apply nth_ext with (d := []) (d' := []).
  { rewrite map_length, iota_length. auto. }
  intros n Hn. rewrite Hl in Hn.
  pose proof (colmajor_nth es (Z.of_nat n) Hp Hne ltac:(lia)) as E. rewrite Nat2Z.id in E.
  apply nth_error_nth with (d:=[]) in E. rewrite E.
  rewrite nth_indep with (d' := digl es 0) by (rewrite map_length, iota_length; auto).
  rewrite map_nth, iota_nth by auto. reflexivity.
Qed.

Lemma digl_inj es k k' : all_pos es -> es <> [] -> digl es k = digl es k' -> k = k'.
Proof.
  revert k k'. induction es as [|e es IH]; intros k k' Hp Hne E; [congruence|].
  apply Forall_cons_iff' in Hp as [He Hp].
  destruct es as [|e2 es]; [simpl in E; congruence|].
  cbn [digl] in E. assert (k mod e = k' mod e) by congruence.
  assert (E2 : digl (e2 :: es) (k / e) = digl (e2 :: es) (k' / e)) by (cbn [digl]; congruence).
  apply IH in E2; auto; [|congruence].
  rewrite (Z.div_mod k e), (Z.div_mod k' e) by lia. congruence.
Qed.

Lemma digl_0 es : all_pos es -> digl es 0 = map (fun _ => 0) es.
Proof.
  induction 1; simpl; auto. destruct l; auto.
  rewrite Z.mod_0_l, Z.div_0_l by lia. cbn [map]. f_equal. rewrite IHForall. reflexivity.
Qed.
