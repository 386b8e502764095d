(** * IoProofs: what is printed. *)

From Coq Require Import ZArith Ascii List Bool Lia.
From Verif Require Import Base Spec Desc Slice SliceSpec Lemmas DescProofs SliceProofs ViewProofs RunProofs ViewThms Io IoSpec.
Import ListNotations.
Open Scope Z_scope.

(** ** One subscript *)

Lemma view_step chk fuel off m e es ps i : minv m (e :: es) ps -> es <> [] -> 0 <= i < e ->
  (Z.to_nat (zprod (e :: es)) < fuel)%nat ->
  exists m', view_index chk fuel off m (UIdx i) = Ok (SView off m') /\
    minv m' es (map (fun ix => aview_at (e :: es, ps) (i :: ix)) (colmajor es)).
Proof.
  intros Hm Hne Hi Hf. pose proof Hm as (_ & _ & _ & He & _).
  destruct (m_drop_first_ok chk fuel m e es ps i Hm Hne Hi Hf) as (m' & E & I).
  exists m'. split; auto. unfold view_index. rewrite He. destruct es as [|e2 es]; [congruence|]. cbn [hd length Nat.eqb].
  rewrite dassert_ok by lia. rewrite bindO_ok, E. auto.
Qed.

Lemma index_step chk fuel s e es qs i : sinv s (e :: es, qs) -> es <> [] -> 0 <= i < e ->
  (Z.to_nat (zprod (e :: es)) < fuel)%nat ->
  exists off m, op_index chk fuel s (UIdx i) = Ok (SView off m) /\
    sinv (SView off m) (es, map (fun ix => aview_at (e :: es, qs) (i :: ix)) (colmajor es)).
Proof.
  intros I Hne Hi Hf. destruct (sinv_good _ _ I) as [(Hn & Hp & HM) Hlen]. cbn [fst snd] in *.
  pose proof MAXSZ_W as HMW. pose proof (zprod_pos _ Hp) as Hz.
  assert (Hcol : forall ix, In ix (colmajor es) -> in_range (e :: es) (i :: ix)).
  { intros ix Hix. constructor; auto. apply in_colmajor; auto. }
  destruct s as [p|off es'|off es' M|off m|off m args]; simpl in I; try contradiction.
  - destruct I as (<- & G & ->).
    destruct (view_step chk fuel off (MId (SD 0 (e :: es) (infer_strides 1 (e :: es)))) e es (iota (zprod (e :: es))) i) as (m' & E & I'); auto.
    { apply minv_infer; auto. }
    exists off, m'. split.
    + cbn [op_index]. rewrite <- E. unfold ref_index, view_index. destruct es as [|e2 es]; [congruence|].
      cbn [m_desc sd_exts hd length Nat.eqb]. destruct (dassert chk (i <? e)); cbn [bindO]; auto.
      unfold sd_infer.
      assert (A : forallb (fun x => negb (x =? 0)) (e :: e2 :: es) = true).
      { apply forallb_forall. intros x Hx. unfold all_pos in Hp. rewrite Forall_forall in Hp. apply Hp in Hx.
        destruct (Z.eqb_spec x 0); auto; lia. }
      rewrite A. rewrite dassert_ok by auto. cbn [bindO m_drop_first sd_discard sd_start sd_exts sd_strs tl infer_strides hd].
      assert (Ei : w64 (0 + w64 (1 * i)) = i); [|rewrite Ei; reflexivity].
      rewrite Z.add_0_l, Z.mul_1_l. assert (zprod (e :: e2 :: es) = e * zprod (e2 :: es)) by reflexivity.
      assert (e <= zprod (e :: e2 :: es)).
      { inversion Hp as [|? ? He Hp']; subst. pose proof (zprod_pos _ Hp'). nia. }
      rewrite (w64_small i) by lia. apply w64_small; lia.
    + exists (map (fun ix => aview_at (e :: es, iota (zprod (e :: es))) (i :: ix)) (colmajor es)). split; [exact I'|].
      cbn [snd]. rewrite map_map. apply map_ext_In. intros ix Hix. apply aview_at_add; auto.
      rewrite iota_length. lia.
  - destruct I as (ps & Hm & ->).
    destruct (view_step chk fuel off m e es ps i Hm Hne Hi Hf) as (m' & E & I'). exists off, m'. split; [exact E|].
    exists (map (fun ix => aview_at (e :: es, ps) (i :: ix)) (colmajor es)). split; [exact I'|].
    cbn [snd]. rewrite map_map. apply map_ext_In. intros ix Hix. apply aview_at_add; auto.
    rewrite map_length in Hlen. auto.
Qed.

Lemma index_elem chk fuel s e qs i : sinv s ([e], qs) -> 0 <= i < e -> (Z.to_nat (zprod [e]) < fuel)%nat ->
  op_index chk fuel s (UIdx i) = Ok (SElem (aview_at ([e], qs) [i])).
Proof.
  intros I Hi Hf. destruct (run_any chk fuel s ([e], qs) [UIdx i] I) as [_ R]; auto.
  - constructor; [exact Hi|constructor].
  - discriminate.
  - specialize (R [i] eq_refl). unfold run in R. cbn [foldO] in R.
    destruct (op_index chk fuel s (UIdx i)) as [x| | | |]; cbn [bindO] in R; congruence.
Qed.

(** ** The loop *)
Lemma print_rest_ok item sep g : forall n i, (forall j, i <= j < i + Z.of_nat n -> item j = Ok (g j)) ->
  print_rest item sep n i = Ok (concat (map (fun t => sep ++ t) (map g (map (fun k => i + Z.of_nat k) (seq 0 n))))).
Proof.
  induction n as [|n IH]; intros i H; [reflexivity|]. cbn [print_rest]. rewrite H by lia. cbn [bindO].
  rewrite IH by (intros; apply H; lia). cbn [bindO]. cbn [seq map concat]. rewrite <- seq_shift, !map_map. rewrite app_assoc.
  replace (i + Z.of_nat 0) with i by lia.
  do 3 f_equal. apply map_ext. intros x. replace (i + 1 + Z.of_nat x) with (i + Z.of_nat (S x)) by lia. auto.
Qed.

Lemma iota_pos e : 0 < e -> iota e = 0 :: map (fun k => 1 + Z.of_nat k) (seq 0 (Z.to_nat (e - 1))).
Proof.
  intros H. unfold iota. replace (Z.to_nat e) with (S (Z.to_nat (e - 1))) by lia. cbn [seq map]. f_equal.
  rewrite <- seq_shift, map_map. apply map_ext. intros. lia.
Qed.

Lemma join_items sep item g e : 0 < e -> (forall j, 0 <= j < e -> item j = Ok (g j)) ->
  (let* t := item 0 in let* r := print_rest item sep (Z.to_nat (e - 1)) 1 in Ok (t ++ r)) = Ok (join sep (map g (iota e))).
Proof.
  intros He H. rewrite H by lia. cbn [bindO]. rewrite (print_rest_ok item sep g) by (intros; apply H; lia).
  cbn [bindO]. rewrite (iota_pos e He). reflexivity.
Qed.

(** ** Formats *)
Lemma skipn_nth {A} (l : list A) k d : (k < length l)%nat -> skipn k l = nth k l d :: skipn (S k) l.
Proof. revert k. induction l; intros [|k] H; simpl in *; try lia; auto. rewrite IHl by lia. auto. Qed.

Lemma formats_for_S fmts n : fmts <> [] -> formats_for fmts (S n) = fmt_for fmts (S n) :: formats_for fmts n.
Proof.
  intros Hne. unfold formats_for, fmt_for. destruct (Nat.leb_spec (S n) (length fmts)) as [H|H].
  - assert (X : (n <=? length fmts)%nat = true) by (apply Nat.leb_le; lia). rewrite X.
    rewrite (skipn_nth fmts (length fmts - S n) default_fmt) by lia. do 2 f_equal. lia.
  - assert (E0 : nth 0 fmts default_fmt = hd default_fmt fmts) by (destruct fmts; auto). rewrite E0.
    destruct (Nat.leb_spec n (length fmts)).
    + replace (S n - length fmts)%nat with 1%nat by lia. replace (length fmts - n)%nat with 0%nat by lia. reflexivity.
    + replace (S n - length fmts)%nat with (S (n - length fmts)) by lia. reflexivity.
Qed.
Lemma formats_for_0 fmts : formats_for fmts 0 = [].
Proof. unfold formats_for. cbn [Nat.leb]. rewrite Nat.sub_0_r. apply skipn_all. Qed.
Lemma formats_for_length fmts n : length (formats_for fmts n) = n.
Proof.
  unfold formats_for. destruct (Nat.leb_spec n (length fmts)).
  - rewrite skipn_length. lia.
  - rewrite app_length, repeat_length. lia.
Qed.
Lemma formats_default n : formats_for [default_fmt] n = repeat default_fmt n.
Proof.
  induction n; [apply formats_for_0|]. rewrite formats_for_S by discriminate. rewrite IHn. cbn [repeat]. f_equal.
  unfold fmt_for. destruct (S n <=? length [default_fmt])%nat; auto; destruct (length [default_fmt] - S n)%nat as [|[|?]]; auto.
Qed.

Lemma ensure_ne fmts : ensure fmts <> [].
Proof. destruct fmts; discriminate. Qed.
Lemma ensure_id fmts : fmts <> [] -> ensure fmts = fmts.
Proof. destruct fmts; [congruence|auto]. Qed.

(** ** Nested text *)
Lemma nested_ext fs shape f g : length fs = length shape -> (forall ix, in_range shape ix -> f ix = g ix) ->
  nested fs shape f = nested fs shape g.
Proof.
  revert fs f g. induction shape as [|e es IH]; intros fs f g L H.
  - destruct fs; apply H; constructor.
  - destruct fs as [|x fs]; [discriminate|]. cbn [nested]. f_equal. f_equal. f_equal. apply map_ext_In. intros i Hi.
    apply in_iota in Hi. apply IH; [auto|]. intros ix Hix. apply H. constructor; auto.
Qed.

(** ** Printing reachable views *)
Section P.
Context {V : Type}.
Variable show : V -> text.
Variable cells : list V.
Variables (chk : bool) (fuel : nat).

Definition cell_text (p : Z) : text := match get cells p with Ok v => show v | _ => [] end.

Lemma os_is_aos n : forall s, os_print show cells chk fuel n s = aos_print show cells chk fuel n [default_fmt] s.
Proof.
  induction n as [|n IH]; intros s; [reflexivity|]. cbn [os_print aos_print].
  destruct (dims s) as [[|e es]|]; auto. cbn [ensure].
  assert (E : fmt_for [default_fmt] (S n) = default_fmt).
  { unfold fmt_for. destruct (S n <=? length [default_fmt])%nat; auto; destruct (length [default_fmt] - S n)%nat as [|[|?]]; auto. }
  rewrite E. cbn [before separator after default_fmt].
  assert (I : forall i, (let* s' := op_index chk fuel s (UIdx i) in
      match s' with SElem p => let* v := get cells p in Ok (show v) | _ => os_print show cells chk fuel n s' end)
    = (let* s' := op_index chk fuel s (UIdx i) in
      match s' with SElem p => let* v := get cells p in Ok (show v) | _ => aos_print show cells chk fuel n [default_fmt] s' end)).
  { intros i. destruct (op_index chk fuel s (UIdx i)) as [[]| | | |]; cbn [bindO]; auto. }
  rewrite I. destruct (e =? 0); auto. f_equal. 
  assert (R : forall k i, print_rest (fun i => let* s' := op_index chk fuel s (UIdx i) in
      match s' with SElem p => let* v := get cells p in Ok (show v) | _ => os_print show cells chk fuel n s' end) [" "%char] k i
    = print_rest (fun i => let* s' := op_index chk fuel s (UIdx i) in
      match s' with SElem p => let* v := get cells p in Ok (show v) | _ => aos_print show cells chk fuel n [default_fmt] s' end) [" "%char] k i).
  { induction k as [|k IHk]; intros i; [reflexivity|]. cbn [print_rest]. rewrite I, IHk. auto. }
  rewrite R. reflexivity.
Qed.

Lemma get_ok p : 0 <= p < Z.of_nat (length cells) -> exists v, get cells p = Ok v.
Proof.
  intros H. unfold get. destruct (Z.leb_spec 0 p); [|lia]. destruct (Z.ltb_spec p (Z.of_nat (length cells))); [|lia]. cbn [andb].
  destruct (nth_error cells (Z.to_nat p)) eqn:E; eauto. apply nth_error_None in E. lia.
Qed.

Lemma wrap_ok {B} (x : outcome text) (k : text -> outcome B) t : x = Ok t -> bindO x k = k t.
Proof. intros ->. auto. Qed.

Lemma aos_loop item fmt e g : 0 < e -> (forall j, 0 <= j < e -> item j = Ok (g j)) ->
  (let* t := item 0 in let* r := print_rest item (separator fmt) (Z.to_nat (e - 1)) 1 in
   Ok (before fmt ++ t ++ r ++ after fmt)) = Ok (before fmt ++ join (separator fmt) (map g (iota e)) ++ after fmt).
Proof.
  intros He H. rewrite H by lia. cbn [bindO]. rewrite (print_rest_ok item (separator fmt) g) by (intros; apply H; lia).
  cbn [bindO]. rewrite (iota_pos e He). cbn [map join]. rewrite <- app_assoc. reflexivity.
Qed.

Lemma aos_print_ok fmts : fmts <> [] -> forall n s v, sinv s v -> length (fst v) = n ->
  (Z.to_nat (zprod (fst v)) < fuel)%nat -> Forall (fun p => 0 <= p < Z.of_nat (length cells)) (snd v) ->
  aos_print show cells chk fuel n fmts s = Ok (nested (formats_for fmts n) (fst v) (fun ix => cell_text (aview_at v ix))).
Proof.
  intros Hne. induction n as [|n IH]; intros s v I L Hf F; destruct (sinv_good _ _ I) as [(Hn & Hp & HM) Hlen].
  { destruct (fst v); [congruence|discriminate]. }
  destruct v as [[|e es] qs]; [discriminate|]. cbn [fst snd] in *. cbn [length] in L. injection L as L.
  cbn [aos_print]. rewrite (sinv_dims _ _ I). cbn [fst]. rewrite ensure_id by auto.
  pose proof Hp as Hp0. apply Forall_cons_iff' in Hp0 as [He Hpe]. destruct (Z.eqb_spec e 0); [lia|].
  rewrite formats_for_S by auto. cbn [nested].
  apply aos_loop with (item := fun i => let* s' := op_index chk fuel s (UIdx i) in
      match s' with SElem p => let* v := get cells p in Ok (show v) | _ => aos_print show cells chk fuel n fmts s' end) (g := fun i => nested (formats_for fmts n) es (fun ix => cell_text (aview_at (e :: es, qs) (i :: ix)))); auto.
  intros j Hj. destruct es as [|e2 es].
  - rewrite (index_elem chk fuel s e qs j I Hj Hf). cbn [bindO]. cbn [length] in L. subst n. rewrite formats_for_0. cbn [nested].
    unfold cell_text. assert (R : in_range [e] [j]) by (constructor; [auto|constructor]).
    assert (P : 0 <= aview_at ([e], qs) [j] < Z.of_nat (length cells)).
    { rewrite Forall_forall in F. apply F. apply aview_at_In; auto. }
    destruct (get_ok _ P) as (v & ->). reflexivity.
  - destruct (index_step chk fuel s e (e2 :: es) qs j I ltac:(discriminate) Hj Hf) as (off & m & E & I'). rewrite E. cbn [bindO].
    pose proof (zprod_pos _ Hpe) as Hz. assert (Hze : zprod (e :: e2 :: es) = e * zprod (e2 :: es)) by reflexivity.
    assert (Hr : forall ix, In ix (colmajor (e2 :: es)) -> in_range (e :: e2 :: es) (j :: ix)).
    { intros ix Hix. constructor; auto. apply in_colmajor; auto. }
    rewrite (IH _ _ I'); auto.
    + f_equal. cbn [fst]. apply nested_ext; [rewrite formats_for_length; auto|]. intros ix Hix. f_equal.
      apply (aview_at_map (e2 :: es) (fun ix => aview_at (e :: e2 :: es, qs) (j :: ix)) ix); auto. apply all_pos_nonneg; auto.
    + cbn [fst]. nia.
    + cbn [snd]. apply Forall_forall. intros p Hpp. apply in_map_iff in Hpp as (ix & <- & Hix).
      rewrite Forall_forall in F. apply F. apply aview_at_In; auto.
Qed.

(** *** Empty arrays, unchecked build *)
Lemma aos_print_empty_view fmts : fmts <> [] -> forall n off d, length (sd_exts d) = n ->
  all_nonneg (sd_exts d) -> In 0 (sd_exts d) ->
  aos_print show cells false fuel n fmts (SView off (MId d)) = Ok (nested (formats_for fmts n) (sd_exts d) (fun _ => [])).
Proof.
  intros Hne. induction n as [|n IH]; intros off d L Hn Z0.
  { destruct (sd_exts d); [contradiction|discriminate]. }
  destruct d as [start es ss]. cbn [sd_exts] in *. destruct es as [|e es]; [discriminate|]. cbn [length] in L. injection L as L.
  cbn [aos_print dims m_desc sd_exts]. rewrite ensure_id by auto. rewrite formats_for_S by auto. cbn [nested].
  apply Forall_cons_iff' in Hn as [He Hne']. destruct (Z.eqb_spec e 0) as [E|E].
  { subst. reflexivity. }
  destruct Z0 as [Z0|Z0]; [congruence|].
  apply aos_loop with (item := fun i => let* s' := op_index false fuel (SView off (MId (SD start (e :: es) ss))) (UIdx i) in
      match s' with SElem p => let* v := get cells p in Ok (show v) | _ => aos_print show cells false fuel n fmts s' end) (g := fun i => nested (formats_for fmts n) es (fun ix => [])); [lia|].
  intros j Hj. cbn [op_index]. unfold view_index. cbn [m_desc sd_exts hd length].  rewrite dassert_ok by lia. rewrite bindO_ok.
  destruct es as [|e2 es]; [contradiction|]. cbn [length Nat.eqb m_drop_first bindO].
  rewrite IH; auto.
Qed.

Lemma aos_print_empty fmts off es : fmts <> [] -> all_nonneg es -> In 0 es ->
  aos_print show cells false fuel (length es) fmts (SRef off es) = Ok (nested (formats_for fmts (length es)) es (fun _ => [])).
Proof.
  intros Hne Hn Z0. destruct es as [|e es]; [contradiction|]. cbn [length aos_print dims].
  rewrite ensure_id by auto. rewrite formats_for_S by auto. cbn [nested].
  apply Forall_cons_iff' in Hn as [He Hne']. destruct (Z.eqb_spec e 0) as [E|E].
  { subst. reflexivity. }
  destruct Z0 as [Z0|Z0]; [congruence|].
  apply aos_loop with (item := fun i => let* s' := op_index false fuel (SRef off (e :: es)) (UIdx i) in
      match s' with SElem p => let* v := get cells p in Ok (show v) | _ => aos_print show cells false fuel (length es) fmts s' end) (g := fun i => nested (formats_for fmts (length es)) es (fun ix => [])); [lia|].
  intros j Hj. cbn [op_index]. unfold ref_index. cbn [hd]. destruct es as [|e2 es]; [contradiction|].
  cbn [length Nat.eqb].  rewrite dassert_ok by lia. rewrite bindO_ok. cbn [sd_infer]. unfold dassert. cbn [andb bindO]. 
  change (sd_discard (SD j (e :: e2 :: es) (infer_strides 1 (e :: e2 :: es)))) with (SD j (e2 :: es) (tl (infer_strides 1 (e :: e2 :: es)))).
  rewrite aos_print_empty_view; auto.
Qed.

End P.
