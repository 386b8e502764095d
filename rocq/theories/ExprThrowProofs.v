(** * ExprThrowProofs: proofs about ExprThrow. *)

From Coq Require Import ZArith List Bool Lia Arith.
From Verif Require Import Base Spec Desc Slice SliceSpec Expr ExprSpec Lemmas DescProofs LifeProofs RunProofs ViewThms ExprProofs ExprThms ExprSeq ArrAssign Throws ExprThrow.
Import ListNotations.
Open Scope Z_scope.

Section Proofs.
Context {V : Type}.
Notation mem := (@mem V).
Notation expr := (@expr V).
Implicit Types (m : mem) (e : expr).
Variable ev : nat -> event V.

Lemma quiet_S a n : quiet ev a (S n) -> ev a = Fine /\ quiet ev (S a) n.
Proof. intros Q. split; [rewrite <- (Nat.add_0_r a); apply Q; lia|]. intros k Hk. replace (S a + k)%nat with (a + S k)%nat by lia. apply Q. lia. Qed.
Lemma throws_S a k : throws_at ev a (S k) -> ev a = Fine /\ throws_at ev (S a) k.
Proof. intros [Q T]. apply quiet_S in Q as [E Q]. split; auto. split; auto. replace (S a + k)%nat with (a + S k)%nat by lia. exact T. Qed.
Lemma throws_0 a : throws_at ev a 0 -> ev a <> Fine.
Proof. intros [_ T]. now rewrite Nat.add_0_r in T. Qed.

Lemma write_fine k sid ps p v m : ev k = Fine -> inside m sid ps -> In p ps -> write_elem ev k sid p v m = (Ok tt, set_cell m sid p v).
Proof. intros E Hi Hp. unfold write_elem. rewrite E, (set_cell_store m sid ps p v Hi Hp). reflexivity. Qed.
Lemma write_throws k sid ps p v m : ev k <> Fine -> inside m sid ps -> In p ps -> write_elem ev k sid p v m = (Throw ElemExn, spoilt ev k sid p m).
Proof. intros E Hi Hp. unfold write_elem, spoilt. destruct (ev k); [congruence|reflexivity|]. rewrite (set_cell_store m sid ps p junk Hi Hp). reflexivity. Qed.
Lemma eval_fine k h x m : ev k = Fine -> eval_elem ev k h x m = xderef h m x.
Proof. intros E. unfold eval_elem. rewrite E. reflexivity. Qed.
(** Evaluating and writing an element when that throws. *)
Lemma elem_throws {B} k h x m w l sid ps p (f : V -> V) (K : unit -> mem -> outcome B * mem) : ev k <> Fine -> xderef h m x = Ok (w, l) -> inside m sid ps -> In p ps ->
  pure m (eval_elem ev k h x m) (fun r => andthen (write_elem ev k sid p (f (fst r)) m) K) = (Throw ElemExn, spoilt ev k sid p m).
Proof.
  intros E D Hi Hp. unfold eval_elem. destruct (ev k) eqn:Ek; [congruence| |]; cbn [pure].
  - unfold spoilt. rewrite Ek. reflexivity.
  - rewrite D. cbn [pure fst]. rewrite (write_throws k sid ps) by (auto; congruence). reflexivity.
Qed.

Lemma assign_loop_x fuel m e es sid ps h de xe a : expr_ok fuel m e es -> inside m sid ps -> Z.of_nat (length ps) = zprod es ->
  forall n k mk d x fu, (k + n = length ps)%nat -> (n < fu)%nat -> lwalk de d (skipn k ps) -> xat fuel h e k x xe -> same_shape m mk ->
  (quiet ev (a + k) n -> exists m' x', x_assign_loop ev (a + k) fu h sid d de x mk = (Ok x', m') /\
      in_order sid (fun mk k _ => value fuel mk e k) k (skipn k ps) mk = Some m' /\ xat fuel h e (length ps) x' xe) /\
  (forall j p, throws_at ev (a + k) j -> nth_error ps (k + j) = Some p -> exists mj,
      in_order sid (fun mk k _ => value fuel mk e k) k (firstn j (skipn k ps)) mk = Some mj /\
      x_assign_loop ev (a + k) fu h sid d de x mk = (Throw ElemExn, spoilt ev (a + k + j) sid p mj)).
Proof.
  intros K Hi L. induction n as [|n IH]; intros k mk d x fu Hk Hf Hw X S1; (destruct fu as [|fu]; [lia|]); cbn [x_assign_loop].
  - rewrite skipn_all2 in * by lia. inversion Hw as [? He|]; subst. rewrite He. assert (k = length ps) by lia. subst k. split.
    + cbn. eauto.
    + intros j p _ E. exfalso. assert (length ps + j < length ps)%nat by (apply nth_error_Some; congruence). lia.
  - destruct (nth_error ps k) as [p|] eqn:E; [|apply nth_error_None in E; lia].
    rewrite (skipn_nth _ _ _ E) in *. inversion Hw as [|? ? d' ? He Hde Hn' Hw']; subst. rewrite He, Hde. cbn [pure].
    assert (K' := expr_ok_shape _ _ _ _ _ S1 K). assert (Hi' := inside_shape _ _ _ _ S1 Hi). assert (Hp := nth_error_In _ _ E).
    destruct (xat_next _ _ _ _ _ k K' ltac:(lia) _ _ X) as [x' [-> X']]. cbn [pure].
    destruct (xat_deref _ _ _ _ _ k K' ltac:(lia) _ _ X) as [w [Hv Hd]].
    destruct (set_cell_spec mk sid ps p w Hi' Hp) as [S2 _].
    assert (S3 : same_shape m (set_cell mk sid p w)) by (unfold same_shape in *; congruence).
    destruct (IH (S k) (set_cell mk sid p w) d' x' fu ltac:(lia) ltac:(lia) Hw' X' S3) as [IQ IT].
    assert (G : ev (a + k)%nat = Fine -> pure mk (eval_elem ev (a + k) h x mk) (fun r => andthen (write_elem ev (a + k) sid p (fst r) mk) (fun _ m' =>
        pure m' (lit_next d) (fun d' => x_assign_loop ev (S (a + k)) fu h sid d' de x' m'))) = x_assign_loop ev (a + S k) fu h sid d' de x' (set_cell mk sid p w)).
    { intros F. rewrite eval_fine, Hd by exact F. cbn [pure fst]. rewrite (write_fine (a + k) sid ps p w mk F Hi' Hp). cbn [andthen]. rewrite Hn'. cbn [pure].
      rewrite Nat.add_succ_r. reflexivity. }
    split.
    + intros Q. apply quiet_S in Q as [F Q]. rewrite (G F). rewrite <- Nat.add_succ_r in Q. cbn [in_order]. rewrite Hv. apply IQ. exact Q.
    + intros [|j] q T Eq.
      * apply throws_0 in T. rewrite Nat.add_0_r in Eq. assert (q = p) by congruence. subst q.
        rewrite (elem_throws (a + k) h x mk w _ sid ps p (fun v => v) _ T Hd Hi' Hp). cbn. rewrite Nat.add_0_r. eauto.
      * apply throws_S in T as [F T]. rewrite (G F). rewrite <- Nat.add_succ_r in T. cbn [firstn in_order]. rewrite Hv.
        destruct (IT j q T) as [mj [O Ex]]; [rewrite <- Eq; f_equal; lia|]. exists mj. split; [exact O|]. rewrite Ex. f_equal. f_equal. lia.
Qed.

Lemma update_loop_x m sid ps de op : inside m sid ps ->
  forall n k mk d fu, (k + n = length ps)%nat -> (n < fu)%nat -> lwalk de d (skipn k ps) -> same_shape m mk ->
  (quiet ev k n -> exists m', x_update_loop ev k fu sid d de op mk = (Ok tt, m') /\ in_order sid (fun mk _ p => lift1 op (cell mk sid p)) k (skipn k ps) mk = Some m') /\
  (forall j p, throws_at ev k j -> nth_error ps (k + j) = Some p -> exists mj,
      in_order sid (fun mk _ p => lift1 op (cell mk sid p)) k (firstn j (skipn k ps)) mk = Some mj /\
      x_update_loop ev k fu sid d de op mk = (Throw ElemExn, spoilt ev (k + j) sid p mj)).
Proof.
  intros Hi. induction n as [|n IH]; intros k mk d fu Hk Hf Hw S1; (destruct fu as [|fu]; [lia|]); cbn [x_update_loop].
  - rewrite skipn_all2 in * by lia. inversion Hw as [? He|]; subst. rewrite He. split; [cbn; eauto|].
    intros j p _ E. exfalso. assert (k + j < length ps)%nat by (apply nth_error_Some; congruence). lia.
  - destruct (nth_error ps k) as [p|] eqn:E; [|apply nth_error_None in E; lia].
    rewrite (skipn_nth _ _ _ E) in *. inversion Hw as [|? ? d' ? He Hde Hn' Hw']; subst. rewrite He, Hde. cbn [pure].
    assert (Hi' := inside_shape _ _ _ _ S1 Hi). assert (Hp := nth_error_In _ _ E).
    destruct (load_inside mk sid ps p Hi' Hp) as [w [-> [Hc _]]]. cbn [pure].
    destruct (set_cell_spec mk sid ps p (op w) Hi' Hp) as [S2 _].
    assert (S3 : same_shape m (set_cell mk sid p (op w))) by (unfold same_shape in *; congruence).
    destruct (IH (S k) (set_cell mk sid p (op w)) d' fu ltac:(lia) ltac:(lia) Hw' S3) as [IQ IT].
    split.
    + intros Q. apply quiet_S in Q as [F Q]. rewrite (write_fine k sid ps p _ mk F Hi' Hp). cbn [andthen]. rewrite Hn'. cbn [pure in_order]. rewrite Hc. apply IQ. exact Q.
    + intros [|j] q T Eq.
      * apply throws_0 in T. rewrite Nat.add_0_r in Eq. assert (q = p) by congruence. subst q.
        rewrite (write_throws k sid ps p _ mk T Hi' Hp). cbn. rewrite Nat.add_0_r. eauto.
      * apply throws_S in T as [F T]. rewrite (write_fine k sid ps p _ mk F Hi' Hp). cbn [andthen]. rewrite Hn'. cbn [pure firstn in_order]. rewrite Hc. cbn [lift1].
        destruct (IT j q T) as [mj [O Ex]]; [rewrite <- Eq; f_equal; lia|]. exists mj. split; [exact O|]. rewrite Ex. f_equal. f_equal. lia.
Qed.

Lemma inplace_loop_x fuel m e es sid ps h de xe f : expr_ok fuel m e es -> inside m sid ps -> Z.of_nat (length ps) = zprod es ->
  forall n k mk d x fu, (k + n = length ps)%nat -> (n < fu)%nat -> lwalk de d (skipn k ps) -> xat fuel h e k x xe -> same_shape m mk ->
  (quiet ev k n -> exists m', x_inplace_loop ev k fu h sid d de x f mk = (Ok tt, m') /\
      in_order sid (fun mk k p => lift2 f (cell mk sid p) (value fuel mk e k)) k (skipn k ps) mk = Some m') /\
  (forall j p, throws_at ev k j -> nth_error ps (k + j) = Some p -> exists mj,
      in_order sid (fun mk k p => lift2 f (cell mk sid p) (value fuel mk e k)) k (firstn j (skipn k ps)) mk = Some mj /\
      x_inplace_loop ev k fu h sid d de x f mk = (Throw ElemExn, spoilt ev (k + j) sid p mj)).
Proof.
  intros K Hi L. induction n as [|n IH]; intros k mk d x fu Hk Hf Hw X S1; (destruct fu as [|fu]; [lia|]); cbn [x_inplace_loop].
  - rewrite skipn_all2 in * by lia. inversion Hw as [? He|]; subst. rewrite He. split; [cbn; eauto|].
    intros j p _ E. exfalso. assert (k + j < length ps)%nat by (apply nth_error_Some; congruence). lia.
  - destruct (nth_error ps k) as [p|] eqn:E; [|apply nth_error_None in E; lia].
    rewrite (skipn_nth _ _ _ E) in *. inversion Hw as [|? ? d' ? He Hde Hn' Hw']; subst. rewrite He, Hde, Hn'. cbn [pure].
    assert (K' := expr_ok_shape _ _ _ _ _ S1 K). assert (Hi' := inside_shape _ _ _ _ S1 Hi). assert (Hp := nth_error_In _ _ E).
    destruct (xat_next _ _ _ _ _ k K' ltac:(lia) _ _ X) as [x' [-> X']]. cbn [pure].
    destruct (xat_deref _ _ _ _ _ k K' ltac:(lia) _ _ X) as [w [Hv Hd]].
    destruct (load_inside mk sid ps p Hi' Hp) as [w0 [Hl [Hc _]]]. rewrite Hl.
    destruct (set_cell_spec mk sid ps p (f w0 w) Hi' Hp) as [S2 _].
    assert (S3 : same_shape m (set_cell mk sid p (f w0 w))) by (unfold same_shape in *; congruence).
    destruct (IH (S k) (set_cell mk sid p (f w0 w)) d' x' fu ltac:(lia) ltac:(lia) Hw' X' S3) as [IQ IT]. cbn [pure].
    split.
    + intros Q. apply quiet_S in Q as [F Q]. rewrite eval_fine, Hd by exact F. cbn [pure fst]. rewrite (write_fine k sid ps p _ mk F Hi' Hp). cbn [andthen in_order].
      rewrite Hc, Hv. apply IQ. exact Q.
    + intros [|j] q T Eq.
      * apply throws_0 in T. rewrite Nat.add_0_r in Eq. assert (q = p) by congruence. subst q.
        rewrite (elem_throws k h x mk w _ sid ps p (f w0) _ T Hd Hi' Hp). cbn. rewrite Nat.add_0_r. eauto.
      * apply throws_S in T as [F T]. rewrite eval_fine, Hd by exact F. cbn [pure fst]. rewrite (write_fine k sid ps p _ mk F Hi' Hp). cbn [andthen firstn in_order].
        rewrite Hc, Hv. cbn [lift2].
        destruct (IT j q T) as [mj [O Ex]]; [rewrite <- Eq; f_equal; lia|]. exists mj. split; [exact O|]. rewrite Ex. f_equal. f_equal. lia.
Qed.

Lemma copy_to_x fuel m e es sid h xe (ps : list Z) : expr_ok fuel m e es -> inside m sid ps -> ps = iota (zprod es) ->
  forall n k mk x fu, (k + n = length ps)%nat -> (n < fu)%nat -> xat fuel h e k x xe -> same_shape m mk ->
  (quiet ev k n -> exists m', x_copy_to ev k fu h x xe sid (Z.of_nat k) mk = (Ok tt, m') /\ in_order sid (fun mk k _ => value fuel mk e k) k (skipn k ps) mk = Some m') /\
  (forall j p, throws_at ev k j -> nth_error ps (k + j) = Some p -> exists mj,
      in_order sid (fun mk k _ => value fuel mk e k) k (firstn j (skipn k ps)) mk = Some mj /\
      x_copy_to ev k fu h x xe sid (Z.of_nat k) mk = (Throw ElemExn, spoilt ev (k + j) sid p mj)).
Proof.
  intros K Hi Ep. destruct (expr_ok_dims _ _ _ _ K) as [D1 [D2 D3]].
  assert (L : Z.of_nat (length ps) = zprod es) by (subst ps; apply iota_len; apply zprod_nonneg; exact D2).
  induction n as [|n IH]; intros k mk x fu Hk Hf X S1; (destruct fu as [|fu]; [lia|]); cbn [x_copy_to].
  - rewrite skipn_all2 in * by lia. rewrite (xat_end _ _ _ _ _ k K ltac:(lia) _ _ X). split; [cbn; eauto|].
    intros j p _ E. exfalso. assert (k + j < length ps)%nat by (apply nth_error_Some; congruence). lia.
  - assert (E : nth_error ps k = Some (Z.of_nat k)) by (subst ps; apply iota_nth_error; lia).
    assert (Xe : xeqb x xe = false) by (eapply xat_not_end; eauto; lia). rewrite Xe.
    rewrite (skipn_nth _ _ _ E).
    assert (K' := expr_ok_shape _ _ _ _ _ S1 K). assert (Hi' := inside_shape _ _ _ _ S1 Hi). assert (Hp := nth_error_In _ _ E).
    destruct (xat_deref _ _ _ _ _ k K' ltac:(lia) _ _ X) as [w [Hv Hd]].
    destruct (xat_next _ _ _ _ _ k K' ltac:(lia) _ _ X) as [x' [Hx X']].
    destruct (set_cell_spec mk sid ps (Z.of_nat k) w Hi' Hp) as [S2 _].
    assert (S3 : same_shape m (set_cell mk sid (Z.of_nat k) w)) by (unfold same_shape in *; congruence).
    destruct (IH (S k) (set_cell mk sid (Z.of_nat k) w) x' fu ltac:(lia) ltac:(lia) X' S3) as [IQ IT].
    replace (Z.of_nat k + 1) with (Z.of_nat (S k)) by lia.
    split.
    + intros Q. apply quiet_S in Q as [F Q]. rewrite eval_fine, Hd by exact F. cbn [pure fst]. rewrite (write_fine k sid ps _ _ mk F Hi' Hp). cbn [andthen in_order].
      rewrite Hx. cbn [pure]. rewrite Hv. apply IQ. exact Q.
    + intros [|j] q T Eq.
      * apply throws_0 in T. rewrite Nat.add_0_r in Eq. assert (q = Z.of_nat k) by congruence. subst q.
        rewrite (elem_throws k h x mk w _ sid ps _ (fun v => v) _ T Hd Hi' Hp). cbn. rewrite Nat.add_0_r. eauto.
      * apply throws_S in T as [F T]. rewrite eval_fine, Hd by exact F. cbn [pure fst]. rewrite (write_fine k sid ps _ _ mk F Hi' Hp). cbn [andthen firstn in_order].
        rewrite Hx. cbn [pure]. rewrite Hv.
        destruct (IT j q T) as [mj [O Ex]]; [rewrite <- Eq; f_equal; lia|]. exists mj. split; [exact O|]. rewrite Ex. f_equal. f_equal. lia.
Qed.

Lemma copy_n_x fuel m h e es xe : expr_ok fuel m e es -> forall n k x, Z.of_nat (k + n) <= zprod es -> xat fuel h e k x xe ->
  (quiet ev k n -> exists vs, x_copy_n ev k n h m x = Ok vs /\ map Some vs = map (value fuel m e) (seq k n)) /\
  (forall j, (j < n)%nat -> throws_at ev k j -> x_copy_n ev k n h m x = Throw ElemExn).
Proof.
  intros K. induction n as [|n IH]; intros k x Hk X; cbn [x_copy_n].
  - split; [intros _; exists []; split; reflexivity|]. intros j Hj. lia.
  - destruct (xat_deref _ _ _ _ _ k K ltac:(lia) _ _ X) as [w [Hv Hd]].
    destruct (xat_next _ _ _ _ _ k K ltac:(lia) _ _ X) as [x' [Hx X']].
    destruct (IH (S k) x' ltac:(lia) X') as [IQ IT]. split.
    + intros Q. apply quiet_S in Q as [F Q]. rewrite eval_fine, Hd by exact F. cbn [bindO]. rewrite F. cbn [bindO]. rewrite Hx. cbn [bindO].
      destruct (IQ Q) as [vs [-> Hvs]]. cbn [bindO fst]. eexists. split; [reflexivity|]. cbn [map seq]. rewrite Hv, Hvs. reflexivity.
    + intros [|j] Hj T.
      * apply throws_0 in T. unfold eval_elem. destruct (ev k); [congruence|reflexivity|]. rewrite Hd. reflexivity.
      * apply throws_S in T as [F T]. rewrite eval_fine, Hd by exact F. cbn [bindO]. rewrite F. cbn [bindO]. rewrite Hx. cbn [bindO].
        rewrite (IT j ltac:(lia) T). reflexivity.
Qed.

(** ** from writes in order to a description of the memory *)
Lemma in_order_shape sid g ps0 : forall ps k m m', inside m sid ps0 -> incl ps ps0 -> in_order sid g k ps m = Some m' -> same_shape m m' /\
  (forall sid' q, 0 <= q -> (sid' <> sid \/ ~ In q ps) -> cell m' sid' q = cell m sid' q).
Proof.
  induction ps as [|p ps IH]; intros k m m' Hi Hs O; cbn in O.
  - injection O as <-. split; [reflexivity|auto].
  - destruct (g m k p) as [v|]; [|discriminate].
    assert (Hp : In p ps0) by (apply Hs; left; reflexivity).
    destruct (set_cell_spec m sid ps0 p v Hi Hp) as [S1 [_ C1]].
    destruct (IH (S k) _ m' (inside_shape _ _ _ _ S1 Hi) ltac:(intros q Hq; apply Hs; right; exact Hq) O) as [S2 C2].
    split; [unfold same_shape in *; congruence|]. intros sid' q Hq D. rewrite C2 by (auto; destruct D as [D|D]; auto; right; intros X; apply D; right; exact X).
    apply C1; auto. destruct D as [D|D]; auto. right. intros ->. apply D. left. reflexivity.
Qed.

Lemma firstn_S_nth {A} (l : list A) : forall k a, nth_error l k = Some a -> firstn (S k) l = firstn k l ++ [a].
Proof. induction l as [|x l IH]; intros [|k] a E; cbn in *; try discriminate; [congruence|]. f_equal. apply IH. exact E. Qed.

Lemma spoilt_cells k sid ps p m : inside m sid ps -> In p ps -> same_shape m (spoilt ev k sid p m) /\
  (forall sid' q, 0 <= q -> (sid' <> sid \/ q <> p) -> cell (spoilt ev k sid p m) sid' q = cell m sid' q).
Proof.
  intros Hi Hp. unfold spoilt. destruct (ev k); try (split; [reflexivity|auto]; fail).
  destruct (set_cell_spec m sid ps p junk Hi Hp) as [S1 [_ C]]. auto.
Qed.

(** Distinct positions, values fixed beforehand as far as they are read. *)
Lemma partly_intro sid g (v : nat -> option V) ps m mj a k p : inside m sid ps -> NoDup ps -> nth_error ps k = Some p ->
  in_order sid g 0 (firstn k ps) m = Some mj ->
  (forall j mi p, (j < k)%nat -> nth_error ps j = Some p -> same_shape m mi ->
     (forall i p, (i < j)%nat -> nth_error ps i = Some p -> cell mi sid p = v i) ->
     (forall sid' q, 0 <= q -> (sid' <> sid \/ ~ In q (firstn j ps)) -> cell mi sid' q = cell m sid' q) -> g mi j p = v j /\ v j <> None) ->
  partly m (spoilt ev a sid p mj) sid ps v k.
Proof.
  intros Hi ND Ek O G.
  assert (Hk : (k < length ps)%nat) by (apply nth_error_Some; congruence).
  assert (Hps : Forall (fun q => 0 <= q) ps). { destruct Hi as [c [_ F]]. eapply Forall_impl; [|exact F]. cbn. lia. }
  assert (H : forall n, (n <= k)%nat -> forall mi, in_order sid g 0 (firstn n ps) m = Some mi ->
    same_shape m mi /\ (forall sid' q, 0 <= q -> (sid' <> sid \/ ~ In q (firstn n ps)) -> cell mi sid' q = cell m sid' q) /\
    (forall i p, (i < n)%nat -> nth_error ps i = Some p -> cell mi sid p = v i /\ v i <> None)).
  { assert (App : forall xs ys k m, in_order sid g k (xs ++ ys) m = match in_order sid g k xs m with Some m1 => in_order sid g (k + length xs) ys m1 | None => None end).
    { clear. induction xs as [|x xs IH]; intros ys k m; cbn; [rewrite Nat.add_0_r; reflexivity|]. destruct (g m k x); [|reflexivity]. rewrite IH.
      destruct (in_order sid g (S k) xs _); [|reflexivity]. f_equal. lia. }
    induction n as [|n IH]; intros Hn mi E.
    - cbn in E. injection E as <-. split; [reflexivity|]. split; [auto|]. intros; lia.
    - destruct (nth_error ps n) as [q|] eqn:Eq; [|apply nth_error_None in Eq; lia].
      rewrite (firstn_S_nth _ _ _ Eq), App in E. destruct (in_order sid g 0 (firstn n ps) m) as [m1|] eqn:E1; [|discriminate].
      destruct (IH ltac:(lia) m1 eq_refl) as [S1 [C1 V1]]. rewrite Nat.add_0_l, firstn_length_le in E by lia. cbn [in_order] in E.
      destruct (G n m1 q ltac:(lia) Eq S1 ltac:(intros; apply V1; auto) C1) as [Gv Nv]. rewrite Gv in E. destruct (v n) as [w|] eqn:Ew; [|congruence]. injection E as <-.
      assert (Hi1 := inside_shape _ _ _ _ S1 Hi). destruct (set_cell_spec m1 sid ps q w Hi1 (nth_error_In _ _ Eq)) as [S2 [Cq C2]].
      split; [unfold same_shape in *; congruence|]. split.
      + intros sid' r Hr D. rewrite (firstn_S_nth _ _ _ Eq) in D. rewrite C2 by (auto; destruct D as [D|D]; auto; right; intros ->; apply D, in_or_app; right; left; reflexivity).
        apply C1; auto. destruct D as [D|D]; auto. right. intros X. apply D, in_or_app. left. exact X.
      + intros i r Hir Er. destruct (Nat.eq_dec i n) as [->|Hne].
        * assert (r = q) by congruence. subst r. rewrite Ew. split; [exact Cq|discriminate].
        * destruct (V1 i r ltac:(lia) Er) as [V2 V3]. split; [|exact V3]. rewrite C2; auto.
          -- rewrite Forall_forall in Hps. apply Hps. eapply nth_error_In; eauto.
          -- right. intros ->. apply Hne. rewrite NoDup_nth_error in ND. apply ND; [apply nth_error_Some; congruence|congruence]. }
  destruct (H k (Nat.le_refl _) mj O) as [S1 [C1 V1]].
  assert (Hi1 := inside_shape _ _ _ _ S1 Hi). destruct (spoilt_cells a sid ps p mj Hi1 (nth_error_In _ _ Ek)) as [S2 C2].
  split; [unfold same_shape in *; congruence|]. split.
  - intros sid' q Hq D. rewrite (firstn_S_nth _ _ _ Ek) in D. rewrite C2 by (auto; destruct D as [D|D]; auto; right; intros ->; apply D, in_or_app; right; left; reflexivity).
    apply C1; auto. destruct D as [D|D]; auto. right. intros X. apply D, in_or_app. left. exact X.
  - intros j q Hj Eq. destruct (V1 j q Hj Eq) as [V2 V3]. split; [exact V3|]. rewrite C2; auto.
    + rewrite Forall_forall in Hps. apply Hps. eapply nth_error_In; eauto.
    + right. intros ->. assert (j = k); [|lia]. rewrite NoDup_nth_error in ND. apply ND; [apply nth_error_Some; congruence|congruence].
Qed.
End Proofs.
