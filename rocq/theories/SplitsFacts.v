(** Facts about [Lambda_Splits] and the factorisation of beta^K d^T. *)

From Coq Require Import Reals Lia ZifyBool ZifyNat.
From Verif Require Import PyBase PyFacts Compat SphericalFacts RadialOps RadialSpec
  RadialOpsFacts LambdaFacts.
Open Scope Z_scope.
Ltac Zify.zify_post_hook ::= Z.div_mod_to_equations.

(** 1-based position of a list, 0 outside. *)
Definition pos (s : list Z) (i : Z) : Z := nth (Z.to_nat (i - 1)) s 0.

Definition blocks3 (a x b c : Z) : list Z :=
  py_repeat 0 a ++ py_repeat x b ++ py_repeat 0 c.

Lemma py_repeat_length x n : zlen (py_repeat x n) = Z.max 0 n.
Proof. unfold zlen, py_repeat. rewrite repeat_length. lia. Qed.

Lemma nth_repeat_in (x d : Z) n j : (j < n)%nat -> nth j (repeat x n) d = x.
Proof.
  revert j. induction n as [|n IH]; intros [|j] H; cbn; try lia.
  apply IH. lia.
Qed.

Lemma pos_blocks3 a x b c i : 0 <= a -> 0 <= b -> 0 <= c -> 1 <= i ->
  pos (blocks3 a x b c) i = if (a <? i) && (i <=? a + b) then x else 0.
Proof.
  intros Ha Hb Hc Hi. unfold pos, blocks3, py_repeat.
  destruct (a <? i) eqn:E1.
  - rewrite app_nth2; rewrite repeat_length; [|lia].
    destruct (i <=? a + b) eqn:E2; cbn [andb].
    + rewrite app_nth1; [|rewrite repeat_length; lia].
      apply nth_repeat_in. lia.
    + rewrite app_nth2; rewrite repeat_length; [|lia]. apply nth_repeat.
  - rewrite app_nth1; [|rewrite repeat_length; lia]. cbn [andb]. apply nth_repeat.
Qed.

Lemma blocks3_length a x b c : 0 <= a -> 0 <= b -> 0 <= c ->
  zlen (blocks3 a x b c) = a + b + c.
Proof.
  intros. unfold blocks3. rewrite !zlen_app, !py_repeat_length. lia.
Qed.

Lemma zsum_repeat x n : zsum (repeat x n) = x * Z.of_nat n.
Proof.
  induction n as [|n IH]; [cbn; lia|]. cbn [repeat]. rewrite zsum_cons, IH. lia.
Qed.

Lemma blocks3_sum a x b c : 0 <= b -> zsum (blocks3 a x b c) = x * b.
Proof.
  intros. unfold blocks3, py_repeat. rewrite !zsum_app, !zsum_repeat.
  replace (Z.of_nat (Z.to_nat b)) with b by lia. lia.
Qed.

Definition trits (s : list Z) : Prop := Forall (fun x => -1 <= x <= 1) s.

Lemma trits_repeat x n : -1 <= x <= 1 -> trits (repeat x n).
Proof. intros. apply Forall_forall. intros y Hy. apply repeat_spec in Hy. lia. Qed.

Lemma pos_upd_same s i f : 1 <= i <= zlen s ->
  pos (upd s (Z.to_nat (i - 1)) f) i = f (pos s i).
Proof.
  unfold pos, zlen. intros H.
  destruct (nth_error_ex s (Z.to_nat (i - 1))) as (x & E); [lia|].
  rewrite (nth_error_nth s _ 0 E).
  apply nth_error_nth. now apply upd_same.
Qed.

Lemma nth_nth_error_eq (l1 l2 : list Z) j :
  nth_error l1 j = nth_error l2 j -> nth j l1 0 = nth j l2 0.
Proof.
  revert l2 j. induction l1 as [|x l1 IH]; intros [|y l2] [|j] H; cbn in *;
    try congruence; auto; try discriminate.
  - destruct (nth_error l2 j) eqn:E; [discriminate|].
    apply nth_error_None in E. rewrite nth_overflow; auto.
  - destruct (nth_error l1 j) eqn:E; [discriminate|].
    apply nth_error_None in E. rewrite nth_overflow; auto.
Qed.

Lemma pos_upd_other s i j f : 1 <= i -> 1 <= j -> i <> j ->
  pos (upd s (Z.to_nat (i - 1)) f) j = pos s j.
Proof.
  intros. unfold pos. apply nth_nth_error_eq. apply upd_other. lia.
Qed.

Lemma upd_forall (P : Z -> Prop) l : Forall P l -> forall i f,
  (forall x, P x -> P (f x)) -> Forall P (upd l i f).
Proof.
  induction 1 as [|x l Hx Hl IH]; intros [|i] f Hf; cbn [upd]; constructor; auto.
Qed.

(** The shape of [Lambda_Splits], before the sign is applied. *)
Lemma pos_tl x s i : 1 <= i -> pos (x :: s) (i + 1) = pos s i.
Proof.
  intros. unfold pos. replace (Z.to_nat (i + 1 - 1)) with (S (Z.to_nat (i - 1))) by lia.
  reflexivity.
Qed.

(** No run of zero shifts that ends at position [i] and reaches back to the
    last 1/beta covers an odd number of derivatives. *)
Definition no_straddle (K : Z) (n : Z) (s : list Z) : Prop :=
  K < 0 -> forall i, Z.abs K <= i <= n -> (i = n \/ pos s (i + 1) <> 0) ->
    (forall j, Z.abs K <= j <= i -> pos s j = 0) -> (i - Z.abs K) mod 2 = 0.

Lemma pos_opp s i : pos (map Z.opp s) i = - pos s i.
Proof. unfold pos. change 0 with (- 0) at 1. apply map_nth. Qed.

Lemma no_straddle_opp K n s : no_straddle K n s -> no_straddle K n (map Z.opp s).
Proof.
  intros H HK i Hi Hn Hz. apply (H HK i Hi).
  - rewrite pos_opp in Hn. lia.
  - intros j Hj. specialize (Hz j Hj). rewrite pos_opp in Hz. lia.
Qed.

Lemma trits_opp s : trits s -> trits (map Z.opp s).
Proof.
  unfold trits. rewrite Forall_map. apply Forall_impl. intros; lia.
Qed.

Definition splits_ok (K T R : Z) (l : list Z) : Prop :=
  exists (lamX : Z) (s : list Z),
    (l = s /\ lamX = 0 \/ l = lamX :: s /\ (lamX > 0 <-> R > 0) /\ (lamX < 0 <-> R < 0) /\ R <> 0) /\
    zlen s = Z.abs K + T /\ trits s /\ lamX + zsum s = R /\
    (lamX mod 2 = 0 \/ K = 0 /\ T = 0 /\ R mod 2 = 1) /\
    (lamX = 0 \/ Z.abs lamX + Z.abs K + T <= Z.abs R + 1) /\
    no_straddle K (Z.abs K + T) s.

Lemma splits_abs K T R : 0 <= T -> exists l,
  Lambda_Splits K T R = Ok (sgn_list R l) /\ splits_ok K T (Z.abs R) l.
Proof.
  intros HT. unfold Lambda_Splits.
  rewrite require_nonnegint_ok by assumption. cbn [bind].
  set (KT := Z.abs K + T).
  destruct (0 <? Z.abs R - KT) eqn:EI.
  - destruct (is_even (Z.abs R - KT)) eqn:EE.
    + eexists; split; [reflexivity|].
      exists (Z.abs R - KT), (py_repeat 1 KT). unfold is_even in EE.
      split; [right; split; [reflexivity|unfold KT in *; lia]|].
      split; [rewrite py_repeat_length; lia|].
      split; [apply trits_repeat; lia|].
      split; [unfold py_repeat; rewrite zsum_repeat; lia|].
      split; [left; lia|].
      split; [right; unfold KT in *; lia|].
      intros HK i Hi Hn Hz. exfalso.
      specialize (Hz (Z.abs K) ltac:(lia)). unfold pos, py_repeat in Hz.
      rewrite nth_repeat_in in Hz; lia.
    + destruct (0 <? KT) eqn:EK.
      * eexists; split; [reflexivity|].
        exists (Z.abs R - KT + 1), (0 :: py_repeat 1 (KT - 1)). unfold is_even in EE.
        split; [right; split; [reflexivity|unfold KT in *; lia]|].
        split; [rewrite zlen_cons, py_repeat_length; lia|].
        split; [constructor; [lia|apply trits_repeat; lia]|].
        split; [unfold py_repeat; rewrite zsum_cons, zsum_repeat; lia|].
        split; [left; lia|].
        split; [right; unfold KT in *; lia|].
        intros HK i Hi Hn Hz.
        destruct (Z.eq_dec i (Z.abs K)) as [->|Ni]; [rewrite Z.sub_diag; reflexivity|].
        exfalso. specialize (Hz i ltac:(lia)).
        replace i with (i - 1 + 1) in Hz by lia. rewrite pos_tl in Hz by lia.
        unfold pos, py_repeat in Hz. rewrite nth_repeat_in in Hz; lia.
      * eexists; split; [reflexivity|].
        exists (Z.abs R - KT), []. unfold is_even in EE.
        split; [right; split; [reflexivity|unfold KT in *; lia]|].
        split; [unfold zlen; cbn [length]; lia|].
        split; [constructor|].
        split; [cbn [zsum fold_right]; lia|].
        split; [right; unfold KT in *; lia|].
        split; [right; unfold KT in *; lia|].
        intros HK. exfalso. unfold KT in *. lia.
  - rewrite (iquo_ok (- (Z.abs R - KT)) 2), (iquo_ok T 2) by lia. cbn [bind].
    set (ZT := Z.min (- (Z.abs R - KT) / 2) (T / 2)).
    set (F := KT - Z.abs R - 2 * ZT).
    assert (HF : 0 <= F) by (unfold F, ZT; lia).
    assert (HZ : 0 <= ZT) by (unfold ZT; lia).
    change (py_repeat 0 F ++ py_repeat 1 (Z.abs R) ++ py_repeat 0 (2 * ZT))
      with (blocks3 F 1 (Z.abs R) (2 * ZT)).
    pose proof (blocks3_length F 1 (Z.abs R) (2 * ZT) HF ltac:(lia) ltac:(lia)) as HL.
    pose proof (blocks3_sum F 1 (Z.abs R) (2 * ZT) ltac:(lia)) as HSum.
    assert (HTr : trits (blocks3 F 1 (Z.abs R) (2 * ZT))).
    { unfold blocks3, trits. rewrite !Forall_app.
      repeat split; apply trits_repeat; lia. }
    set (s := blocks3 F 1 (Z.abs R) (2 * ZT)) in *.
    destruct ((K <? 0) && (R =? 0) && is_odd T) eqn:EB.
    + assert (K < 0 /\ R = 0 /\ T mod 2 = 1) as (HK & HR & HTo)
        by (unfold is_odd in EB; lia).
      eexists; split; [reflexivity|].
      set (s2 := upd (upd s (Z.to_nat (- K - 1)) (fun _ => 1)) (Z.to_nat (- K)) (fun _ => -1)).
      assert (Hpos : forall i, 1 <= i -> pos s i = 0).
      { intros i Hi. unfold s. rewrite pos_blocks3 by lia.
        replace ((F <? i) && (i <=? F + Z.abs R)) with false by lia. reflexivity. }
      exists 0, s2.
      split; [left; auto|].
      split; [unfold zlen, s2; rewrite !upd_length; unfold zlen in HL; lia|].
      split; [unfold trits, s2; repeat apply upd_forall; auto; intros; lia|].
      split.
      { unfold s2.
        destruct (nth_error_ex s (Z.to_nat (- K - 1))) as (x & Hx);
          [unfold zlen in HL; lia|].
        destruct (nth_error_ex s (Z.to_nat (- K))) as (y & Hy);
          [unfold zlen in HL; lia|].
        rewrite (upd_sum _ _ _ y), (upd_sum _ _ _ x);
          [|assumption|rewrite upd_other by lia; assumption].
        assert (x = 0). { apply nth_error_nth with (d := 0) in Hx.
          rewrite <- Hx. apply (Hpos (- K)); lia. }
        assert (y = 0). { apply nth_error_nth with (d := 0) in Hy.
          rewrite <- Hy. specialize (Hpos (- K + 1) ltac:(lia)).
          unfold pos in Hpos. now replace (- K + 1 - 1) with (- K) in Hpos by lia. }
        lia. }
      split; [left; reflexivity|].
      split; [left; reflexivity|].
      intros _ i Hi Hn Hz. exfalso.
      specialize (Hz (Z.abs K) ltac:(lia)). replace (Z.abs K) with (- K) in Hz by lia.
      unfold s2 in Hz.
      replace (Z.to_nat (- K)) with (Z.to_nat (- K + 1 - 1)) in Hz by lia.
      rewrite pos_upd_other in Hz by lia.
      rewrite pos_upd_same in Hz by lia. lia.
    + eexists; split; [reflexivity|]. exists 0, s.
      split; [left; auto|]. split; [lia|]. split; [assumption|].
      split; [lia|]. split; [left; reflexivity|].
      split; [left; reflexivity|].
      intros HK i Hi Hn Hz. fold KT in Hi, Hn.
      assert (HP : forall j, 1 <= j ->
        pos s j = if (F <? j) && (j <=? F + Z.abs R) then 1 else 0).
      { intros j Hj. unfold s. rewrite pos_blocks3 by lia. reflexivity. }
      pose proof (Hz (Z.abs K) ltac:(lia)) as Z1. rewrite HP in Z1 by lia.
      pose proof (Hz i ltac:(lia)) as Z2. rewrite HP in Z2 by lia.
      assert (Hn' : i = KT \/ F < i + 1 <= F + Z.abs R).
      { destruct Hn as [Hn|Hn]; [now left|right]. rewrite HP in Hn by lia.
        destruct ((F <? i + 1) && (i + 1 <=? F + Z.abs R)) eqn:E; [lia|congruence]. }
      destruct ((F <? Z.abs K) && (Z.abs K <=? F + Z.abs R)) eqn:EZ1; [discriminate|].
      destruct ((F <? i) && (i <=? F + Z.abs R)) eqn:EZ2; [discriminate|].
      assert (HR0 : R <> 0 \/ T mod 2 = 0) by (unfold is_odd in EB; lia).
      destruct (Z.eq_dec R 0) as [->|NR].
      * unfold KT in *. lia.
      * destruct (Z_le_gt_dec (Z.abs K) F) as [L|L].
        -- assert (i <= F).
           { destruct (Z_le_gt_dec i F) as [|G]; [assumption|exfalso].
             specialize (Hz (F + 1) ltac:(lia)). rewrite HP in Hz by lia.
             replace ((F <? F + 1) && (F + 1 <=? F + Z.abs R)) with true in Hz by lia.
             discriminate. }
           unfold F, ZT, KT in *. lia.
        -- unfold F, ZT, KT in *. lia.
Qed.

Lemma splits_full K T R : 0 <= T -> exists l,
  Lambda_Splits K T R = Ok l /\ splits_ok K T R l.
Proof.
  intros HT. destruct (splits_abs K T R HT) as (l & E & lamX & s & H1 & H2 & H3 & H4 & H5 & H7 & H6).
  exists (sgn_list R l). split; [assumption|]. unfold sgn_list.
  destruct (0 <=? R) eqn:ER.
  - exists lamX, s. replace (Z.abs R) with R in H1, H4, H5 by lia.
    split; [assumption|]. split; [assumption|]. split; [assumption|].
    split; [assumption|]. split; [assumption|]. split; [lia|assumption].
  - exists (- lamX), (map Z.opp s). split.
    { destruct H1 as [[-> ->]|[-> H1]]; [left|right].
      - split; reflexivity.
      - split; [reflexivity|]. lia. }
    split; [rewrite zlen_map; assumption|]. split; [now apply trits_opp|].
    split; [rewrite zsum_opp; lia|]. split; [lia|]. split; [lia|]. now apply no_straddle_opp.
Qed.

(** ** Factorisation *)

Lemma chains_app l1 : forall l2 a b c, chains l2 a b -> chains l1 b c -> chains (l1 ++ l2) a c.
Proof.
  induction l1 as [|[e o] l1 IH]; intros l2 a b c H2 H1; cbn [app].
  - inversion H1; subst. assumption.
  - inversion H1; subst. constructor. eapply IH; eauto.
Qed.

Lemma chains_one e o : chains [(e, o)] o (o + elem_shift e).
Proof. repeat constructor. Qed.

Lemma chains_one' e o d : d = o + elem_shift e -> chains [(e, o)] o d.
Proof. intros ->. apply chains_one. Qed.

Definition pow_sum (fs : list factor) : Z := zsum (map f_pow fs).

(** The j-th letter (1-based) of beta^K d^T written out, and its power of a. *)
Definition letter (A : alg) (K j : Z) : A :=
  if j <=? Z.abs K then (if 0 <? K then beta A else beta_inv A) else deriv A.
Definition letter_pow (K j : Z) : Z :=
  if j <=? Z.abs K then (if 0 <? K then -1 else 1) else 1.

Definition letters (A : alg) (K lo hi : Z) : A :=
  oprod A (map (letter A K) (py_range lo (hi + 1))).
Definition letters_pow (K lo hi : Z) : Z :=
  zsum (map (letter_pow K) (py_range lo (hi + 1))).

Lemma letters_snoc A K lo hi : lo <= hi + 1 ->
  letters A K lo (hi + 1) = mul A (letters A K lo hi) (letter A K (hi + 1)).
Proof.
  intros. unfold letters. rewrite py_range_snoc by lia.
  rewrite map_app, oprod_app. cbn [map oprod]. now rewrite mul_1_r.
Qed.

Lemma letters_nil A K lo hi : hi < lo -> letters A K lo hi = one A.
Proof. intros. unfold letters. rewrite py_range_nil by lia. reflexivity. Qed.

Lemma letters_cons A K lo hi : lo <= hi ->
  letters A K lo hi = mul A (letter A K lo) (letters A K (lo + 1) hi).
Proof. intros. unfold letters. rewrite py_range_cons by lia. reflexivity. Qed.

Lemma letters_pow_cons K lo hi : lo <= hi ->
  letters_pow K lo hi = letter_pow K lo + letters_pow K (lo + 1) hi.
Proof. intros. unfold letters_pow. rewrite py_range_cons by lia. reflexivity. Qed.

Lemma letters_pow_nil K lo hi : hi < lo -> letters_pow K lo hi = 0.
Proof. intros. unfold letters_pow. rewrite py_range_nil by lia. reflexivity. Qed.

Lemma letters_app A K lo mid hi : lo <= mid + 1 -> mid <= hi ->
  letters A K lo hi = mul A (letters A K lo mid) (letters A K (mid + 1) hi).
Proof.
  intros. unfold letters. rewrite (py_range_app lo (mid + 1) (hi + 1)) by lia.
  now rewrite map_app, oprod_app.
Qed.

Lemma letters_pow_app K lo mid hi : lo <= mid + 1 -> mid <= hi ->
  letters_pow K lo hi = letters_pow K lo mid + letters_pow K (mid + 1) hi.
Proof.
  intros. unfold letters_pow. rewrite (py_range_app lo (mid + 1) (hi + 1)) by lia.
  now rewrite map_app, zsum_app.
Qed.

Lemma letters_const (A : alg) K (x : A) n lo : (forall j, lo <= j < lo + Z.of_nat n -> letter A K j = x) ->
  letters A K lo (lo + Z.of_nat n - 1) = npow A x n.
Proof.
  revert lo. induction n as [|n IH]; intros lo H.
  - rewrite letters_nil by lia. reflexivity.
  - rewrite letters_cons by lia. cbn [npow]. rewrite (H lo) by lia. f_equal.
    replace (lo + Z.of_nat (S n) - 1) with (lo + 1 + Z.of_nat n - 1) by lia.
    apply IH. intros j Hj. apply H. lia.
Qed.

Lemma letters_full A K T : 0 <= T ->
  letters A K 1 (Z.abs K + T) = mul A (beta_pow A K) (deriv_pow A T).
Proof.
  intros HT. rewrite (letters_app A K 1 (Z.abs K)) by lia. f_equal.
  - unfold beta_pow.
    replace (Z.abs K) with (1 + Z.of_nat (Z.to_nat (Z.abs K)) - 1) by lia.
    destruct (0 <=? K) eqn:E.
    + replace (Z.to_nat (Z.abs K)) with (Z.to_nat K) by lia.
      apply letters_const. intros j Hj. unfold letter.
      replace (j <=? Z.abs K) with true by lia.
      replace (0 <? K) with true by lia. reflexivity.
    + replace (Z.to_nat (Z.abs K)) with (Z.to_nat (- K)) by lia.
      apply letters_const. intros j Hj. unfold letter.
      replace (j <=? Z.abs K) with true by lia.
      replace (0 <? K) with false by lia. reflexivity.
  - unfold deriv_pow.
    replace (Z.abs K + T) with (Z.abs K + 1 + Z.of_nat (Z.to_nat T) - 1) by lia.
    apply letters_const. intros j Hj. unfold letter.
    replace (j <=? Z.abs K) with false by lia. reflexivity.
Qed.

Lemma letters_pow_const K c n lo : (forall j, lo <= j < lo + Z.of_nat n -> letter_pow K j = c) ->
  letters_pow K lo (lo + Z.of_nat n - 1) = c * Z.of_nat n.
Proof.
  revert lo. induction n as [|n IH]; intros lo H.
  - rewrite letters_pow_nil by lia. lia.
  - rewrite letters_pow_cons by lia. rewrite (H lo) by lia.
    replace (lo + Z.of_nat (S n) - 1) with (lo + 1 + Z.of_nat n - 1) by lia.
    rewrite IH; [lia|]. intros j Hj. apply H. lia.
Qed.

Lemma letters_pow_full K T : 0 <= T -> letters_pow K 1 (Z.abs K + T) = T - K.
Proof.
  intros HT. rewrite (letters_pow_app K 1 (Z.abs K)) by lia.
  replace (letters_pow K 1 (Z.abs K)) with (- K).
  - replace (Z.abs K + T) with (Z.abs K + 1 + Z.of_nat (Z.to_nat T) - 1) by lia.
    rewrite (letters_pow_const K 1); [lia|]. intros j Hj. unfold letter_pow.
    replace (j <=? Z.abs K) with false by lia. reflexivity.
  - replace (Z.abs K) with (1 + Z.of_nat (Z.to_nat (Z.abs K)) - 1) at 1 by lia.
    rewrite (letters_pow_const K (if 0 <? K then -1 else 1)).
    + destruct (0 <? K) eqn:E; lia.
    + intros j Hj. unfold letter_pow. replace (j <=? Z.abs K) with true by lia.
      reflexivity.
Qed.

(** Loop invariant: no visited position starts a zero pair made of the last
    1/beta and the first derivative. *)
Definition aligned (K : Z) (s : list Z) (i : Z) : Prop :=
  K < 0 -> Z.abs K <= i -> (forall j, Z.abs K <= j <= i -> pos s j = 0) ->
  (i - Z.abs K) mod 2 = 0.

Lemma F1_elems e o p : f_elems (F1 e o p) = [(e, o)].
Proof. reflexivity. Qed.

Lemma elems_op_one A e o : elems_op A [(e, o)] = elem_op A e.
Proof. unfold elems_op. cbn. apply mul_1_r. Qed.

Lemma pick_ok K n s i run : 1 <= i <= n -> Z.abs K <= n -> trits s ->
  no_straddle K n s -> aligned K s i -> zlen s = n ->
  exists m imm, bsds_pick K i run s = Ok (m, imm) /\ (imm = 1 \/ imm = 2) /\ imm <= i /\
    chains (f_elems m) run (run + pos s i) /\
    (forall A, elems_op A (f_elems m) = letters A K (i - imm + 1) i) /\
    f_pow m = letters_pow K (i - imm + 1) i /\
    (imm = 2 -> pos s i = 0 /\ pos s (i - 1) = 0) /\
    (forall eo, In eo (f_elems m) -> snd eo = run) /\
    aligned K s (i - imm).
Proof.
  intros Hi HKn Ht Hns Hal Hlen.
  assert (L1 : forall A, letters A K i i = letter A K i).
  { intros A. rewrite letters_cons, letters_nil by lia. apply mul_1_r. }
  assert (L2 : forall A, letters A K (i - 1) i = mul A (letter A K (i - 1)) (letter A K i)).
  { intros A. rewrite letters_cons by lia. replace (i - 1 + 1) with i by lia.
    now rewrite L1. }
  assert (P1 : letters_pow K i i = letter_pow K i).
  { rewrite letters_pow_cons, letters_pow_nil by lia. lia. }
  assert (P2 : letters_pow K (i - 1) i = letter_pow K (i - 1) + letter_pow K i).
  { rewrite letters_pow_cons by lia. replace (i - 1 + 1) with i by lia.
    now rewrite P1. }
  assert (Htr : -1 <= pos s i <= 1).
  { unfold pos. destruct (nth_in_or_default (Z.to_nat (i - 1)) s 0) as [H|H];
      [|rewrite H; lia]. unfold trits in Ht. rewrite Forall_forall in Ht. now apply Ht. }
  assert (Al_next : pos s i <> 0 -> aligned K s (i - 1)).
  { intros Hp HK Hki Hz. apply (Hns HK (i - 1)); [lia| |assumption].
    right. now replace (i - 1 + 1) with i by lia. }
  assert (Al_single : ~ (1 < i /\ pos s (i - 1) = 0) -> aligned K s (i - 1)).
  { intros Hn HK Hki Hz. exfalso. specialize (Hz (i - 1) ltac:(lia)). lia. }
  assert (Al_pair : pos s i = 0 -> pos s (i - 1) = 0 -> aligned K s (i - 2)).
  { intros H0 H1 HK Hki Hz.
    assert (E : (i - Z.abs K) mod 2 = 0).
    { apply Hal; [assumption|lia|]. intros j Hj.
      destruct (Z.eq_dec j i) as [->|]; [assumption|].
      destruct (Z.eq_dec j (i - 1)) as [->|]; [assumption|]. apply Hz. lia. }
    lia. }
  unfold bsds_pick. fold (pos s i). replace (i - 2) with (i - 1 - 1) by lia.
  fold (pos s (i - 1)).
  destruct (0 <? pos s i) eqn:E1; [|destruct (pos s i <? 0) eqn:E2;
    [|destruct ((1 <? i) && (pos s (i - 1) =? 0)) eqn:E3]].
  - (* raise lambda *)
    destruct (i <=? K) eqn:C1; [|destruct (i <=? - K) eqn:C2].
    1: replace (0 <? K) with true by lia.
    2: replace (K <? 0) with true by lia.
    3: replace (Z.abs K <? i) with true by lia.
    all: cbn [py_assert bind].
    all: eexists _, 1; split; [reflexivity|]; split; [now left|]; split; [lia|].
    all: replace (i - 1 + 1) with i by lia.
    all: replace (pos s i) with 1 by lia.
    all: split; [rewrite ?F1_elems; apply chains_one'; reflexivity|].
    all: split; [intros A; rewrite L1, F1_elems, elems_op_one; unfold letter|].
    1: { replace (i <=? Z.abs K) with true by lia. replace (0 <? K) with true by lia. reflexivity. }
    2: { replace (i <=? Z.abs K) with true by lia. replace (0 <? K) with false by lia. reflexivity. }
    3: { replace (i <=? Z.abs K) with false by lia. reflexivity. }
    all: rewrite P1; unfold letter_pow.
    1: replace (i <=? Z.abs K) with true by lia; replace (0 <? K) with true by lia.
    2: replace (i <=? Z.abs K) with true by lia; replace (0 <? K) with false by lia.
    3: replace (i <=? Z.abs K) with false by lia.
    all: split; [reflexivity|]; split; [lia|].
    all: split; [intros eo [<-|[]]; reflexivity|apply Al_next; lia].
  - (* lower lambda *)
    destruct (i <=? K) eqn:C1; [|destruct (i <=? - K) eqn:C2].
    1: replace (0 <? K) with true by lia.
    2: replace (K <? 0) with true by lia.
    3: replace (Z.abs K <? i) with true by lia.
    all: cbn [py_assert bind].
    all: eexists _, 1; split; [reflexivity|]; split; [now left|]; split; [lia|].
    all: replace (i - 1 + 1) with i by lia.
    all: replace (pos s i) with (-1) by lia.
    all: split; [rewrite ?F1_elems; apply chains_one'; reflexivity|].
    all: split; [intros A; rewrite L1, F1_elems, elems_op_one; unfold letter|].
    1: { replace (i <=? Z.abs K) with true by lia. replace (0 <? K) with true by lia. reflexivity. }
    2: { replace (i <=? Z.abs K) with true by lia. replace (0 <? K) with false by lia. reflexivity. }
    3: { replace (i <=? Z.abs K) with false by lia. reflexivity. }
    all: rewrite P1; unfold letter_pow.
    1: replace (i <=? Z.abs K) with true by lia; replace (0 <? K) with true by lia.
    2: replace (i <=? Z.abs K) with true by lia; replace (0 <? K) with false by lia.
    3: replace (i <=? Z.abs K) with false by lia.
    all: split; [reflexivity|]; split; [lia|].
    all: split; [intros eo [<-|[]]; reflexivity|apply Al_next; lia].
  - (* paired zeros *)
    assert (Z1 : pos s i = 0) by lia. assert (Z2 : pos s (i - 1) = 0) by lia.
    assert (Hi1 : 1 < i) by lia.
    assert (Hno : K < 0 -> i <> Z.abs K + 1).
    { intros HK ->. specialize (Hal HK ltac:(lia)).
      assert (F : (Z.abs K + 1 - Z.abs K) mod 2 = 0); [|lia].
      apply Hal. intros j Hj. destruct (Z.eq_dec j (Z.abs K + 1)) as [->|]; [assumption|].
      replace j with (Z.abs K + 1 - 1) by lia. assumption. }
    assert (Hfin : forall e p,
      (forall A, elem_op A e = mul A (letter A K (i - 1)) (letter A K i)) ->
      p = letter_pow K (i - 1) + letter_pow K i -> elem_shift e = 0 ->
      exists m imm, Ok (F1 e run p, 2) = Ok (m, imm) /\ (imm = 1 \/ imm = 2) /\ imm <= i /\
        chains (f_elems m) run (run + pos s i) /\
        (forall A, elems_op A (f_elems m) = letters A K (i - imm + 1) i) /\
        f_pow m = letters_pow K (i - imm + 1) i /\
        (imm = 2 -> pos s i = 0 /\ pos s (i - 1) = 0) /\
        (forall eo, In eo (f_elems m) -> snd eo = run) /\
        aligned K s (i - imm)).
    { intros e p He Hp Hs. exists (F1 e run p), 2.
      split; [reflexivity|]. split; [now right|]. split; [lia|].
      replace (i - 2 + 1) with (i - 1) by lia. rewrite Z1.
      split; [rewrite <- Hs; apply (chains_one e run)|].
      split; [intros A; rewrite L2, F1_elems, elems_op_one; apply He|].
      split; [rewrite P2; exact Hp|]. split; [intros _; split; [reflexivity|assumption]|].
      split; [intros eo [<-|[]]; reflexivity|]. now apply Al_pair. }
    destruct (i <=? K) eqn:C1; [|destruct (i <=? - K) eqn:C2;
      [|destruct (i =? K + 1) eqn:C3; [|replace (i =? - K - 1) with false by lia]]].
    1: replace (0 <? K) with true by lia.
    2: replace (K <? 0) with true by lia.
    3: replace (0 <? K) with true by lia.
    all: cbn [py_assert bind]; apply Hfin; try reflexivity;
      unfold letter, letter_pow.
    1-2: replace (i <=? Z.abs K) with true by lia;
      replace (i - 1 <=? Z.abs K) with true by lia;
      replace (0 <? K) with true by lia; reflexivity.
    1-2: replace (i <=? Z.abs K) with true by lia;
      replace (i - 1 <=? Z.abs K) with true by lia;
      replace (0 <? K) with false by lia; reflexivity.
    1-2: replace (i <=? Z.abs K) with false by lia;
      replace (i - 1 <=? Z.abs K) with true by lia;
      replace (0 <? K) with true by lia; reflexivity.
    1-2: replace (i <=? Z.abs K) with false by lia;
      replace (i - 1 <=? Z.abs K) with false by (specialize (Hno); lia); reflexivity.
  - (* single zero *)
    assert (Z1 : pos s i = 0) by lia.
    destruct (i <=? K) eqn:C1; [|destruct (i <=? - K) eqn:C2].
    1: replace (0 <? K) with true by lia.
    2: replace (K <? 0) with true by lia.
    3: replace (Z.abs K <? i) with true by lia.
    all: cbn [py_assert bind].
    all: eexists _, 1; split; [reflexivity|]; split; [now left|]; split; [lia|].
    all: replace (i - 1 + 1) with i by lia; rewrite Z1.
    1,2: split; [rewrite ?F1_elems; apply chains_one'; reflexivity|].
    3: split; [apply (chains_cons M_b2_sqrtInv run);
               apply chains_one'; cbn [elem_shift]; lia|].
    1,2: split; [intros A; rewrite L1, F1_elems, elems_op_one; unfold letter|].
    1: { replace (i <=? Z.abs K) with true by lia. replace (0 <? K) with true by lia. reflexivity. }
    2: { replace (i <=? Z.abs K) with true by lia. replace (0 <? K) with false by lia. reflexivity. }
    3: split; [intros A; rewrite L1; unfold letter;
               replace (i <=? Z.abs K) with false by lia;
               unfold elems_op; cbn [f_elems map fst oprod elem_op];
               rewrite mul_1_r, mul_assoc, beta_l, mul_1_l; reflexivity|].
    all: rewrite P1; unfold letter_pow.
    1: replace (i <=? Z.abs K) with true by lia; replace (0 <? K) with true by lia.
    2: replace (i <=? Z.abs K) with true by lia; replace (0 <? K) with false by lia.
    3: replace (i <=? Z.abs K) with false by lia.
    all: split; [reflexivity|]; split; [lia|].
    all: split; [|apply Al_single; lia].
    1,2: intros eo [<-|[]]; reflexivity.
    intros eo [<-|[<-|[]]]; reflexivity.
Qed.

Lemma pick_nonempty K i run s m imm : bsds_pick K i run s = Ok (m, imm) -> f_elems m <> [].
Proof.
  unfold bsds_pick, py_assert, F1. intros H.
  repeat match type of H with
  | context [if ?b then _ else _] => destruct b; cbn [bind] in H
  end; try discriminate H; injection H as <- <-; cbn [f_elems]; discriminate.
Qed.

(** Sum of positions 1..i. *)
Definition pre (s : list Z) (i : Z) : Z := zsum (map (pos s) (py_range 1 (i + 1))).

Lemma pre_step s i : 1 <= i -> pre s i = pre s (i - 1) + pos s i.
Proof.
  intros. unfold pre. replace (i - 1 + 1) with i by lia.
  rewrite py_range_snoc by lia. rewrite map_app, zsum_app. cbn [map].
  rewrite zsum_cons. cbn [zsum fold_right]. lia.
Qed.

Lemma pre_0 s : pre s 0 = 0.
Proof. unfold pre. rewrite py_range_nil by lia. reflexivity. Qed.

Lemma pre_all s : pre s (zlen s) = zsum s.
Proof.
  unfold pre. f_equal. induction s as [|x s IH]; [reflexivity|].
  rewrite zlen_cons. pose proof (zlen_nonneg s).
  rewrite py_range_cons by lia. cbn [map]. f_equal.
  transitivity (map (pos s) (py_range 1 (zlen s + 1))); [|exact IH]. clear IH.
  replace (py_range (1 + 1) (1 + zlen s + 1)) with (map (fun j => j + 1) (py_range 1 (zlen s + 1))).
  - rewrite map_map. apply map_ext_in. intros j Hj. apply py_range_In in Hj.
    apply pos_tl. lia.
  - unfold py_range. rewrite map_map.
    replace (Z.to_nat (1 + zlen s + 1 - (1 + 1))) with (Z.to_nat (zlen s + 1 - 1)) by lia.
    apply map_ext. intros; lia.
Qed.

Lemma pos_trit s i : trits s -> -1 <= pos s i <= 1.
Proof.
  intros Ht. unfold pos.
  destruct (nth_in_or_default (Z.to_nat (i - 1)) s 0) as [H|H]; [|rewrite H; lia].
  unfold trits in Ht. rewrite Forall_forall in Ht. now apply Ht.
Qed.

Definition bounded (b : Z) (l : list (elem * Z)) : Prop :=
  forall eo, In eo l -> Z.abs (snd eo) <= b.

Lemma loop_ok K n lamX s src : Z.abs K <= n -> trits s -> no_straddle K n s -> zlen s = n ->
  forall fuel i run prod acc,
  0 <= i <= n -> i <= Z.of_nat fuel -> aligned K s i ->
  (if (i =? n) && (0 <=? lamX) then acc = [] else prod = Some acc) ->
  Forall (fun f => f_elems f <> []) acc ->
  chains (flat acc) src run ->
  (forall A, elems_op A (flat acc) = letters A K (i + 1) n) ->
  pow_sum acc = letters_pow K (i + 1) n ->
  bounded (Z.abs src + Z.abs lamX + n) (flat acc) ->
  Z.abs run <= Z.abs src + Z.abs lamX + (n - i) ->
  exists prod' acc',
    bsds_loop fuel K n lamX i run s prod = Ok (prod', run + pre s i) /\
    (if (0 =? n) && (0 <=? lamX) then acc' = [] /\ prod' = prod else prod' = Some acc') /\
    Forall (fun f => f_elems f <> []) acc' /\
    chains (flat acc') src (run + pre s i) /\
    (forall A, elems_op A (flat acc') = letters A K 1 n) /\
    pow_sum acc' = letters_pow K 1 n /\
    (acc <> [] \/ 0 < i -> acc' <> []) /\
    bounded (Z.abs src + Z.abs lamX + n) (flat acc').
Proof.
  intros HK Ht Hns Hlen.
  induction fuel as [|fuel IH]; intros i run prod acc Hi Hf Hal Hacc Hne Hch Hop Hpow Hbd Hrun.
  - assert (i = 0) by lia. subst i. cbn [bsds_loop Z.ltb Z.compare].
    rewrite pre_0, Z.add_0_r. exists prod, acc. split; [reflexivity|].
    split; [destruct ((0 =? n) && (0 <=? lamX)); auto|].
    repeat (split; [assumption|]). split; [|assumption]. intros [H|H]; [assumption|lia].
  - cbn [bsds_loop]. destruct (0 <? i) eqn:E0.
    2: { assert (i = 0) by lia. subst i.
         rewrite pre_0, Z.add_0_r. exists prod, acc. split; [reflexivity|].
         split; [destruct ((0 =? n) && (0 <=? lamX)); auto|].
         repeat (split; [assumption|]). split; [|assumption].
         intros [H|H]; [assumption|lia]. }
    destruct (pick_ok K n s i run ltac:(lia) HK Ht Hns Hal Hlen)
      as (m & imm & E1 & Himm & Hle & Hc & Ho & Hp & Hz & Hoff & Hal').
    rewrite E1. cbn [bind]. fold (pos s i).
    assert (Hm : (if (i =? n) && (0 <=? lamX) then Ok (Some [m]) else lmul m prod)
                 = Ok (Some (m :: acc))).
    { destruct ((i =? n) && (0 <=? lamX)); [now subst acc|]. subst prod. reflexivity. }
    rewrite Hm. cbn [bind].
    pose proof (pos_trit s i Ht) as Hti.
    destruct (IH (i - imm) (run + pos s i) (Some (m :: acc)) (m :: acc))
      as (prod' & acc' & R1 & R2 & R0 & R3 & R4 & R5 & R7 & R6); clear IH.
    + lia.
    + lia.
    + assumption.
    + replace (i - imm =? n) with false by lia. reflexivity.
    + constructor; [eapply pick_nonempty; eauto|assumption].
    + cbn [flat flat_map]. eapply chains_app; eauto.
    + intros A. cbn [flat flat_map]. change (flat_map f_elems acc) with (flat acc).
      rewrite elems_op_app, Ho, Hop. symmetry. apply letters_app; lia.
    + unfold pow_sum in *. cbn [map]. rewrite zsum_cons, Hpow, Hp. symmetry.
      apply letters_pow_app; lia.
    + intros eo H. cbn [flat flat_map] in H. apply in_app_or in H as [H|H].
      * rewrite (Hoff eo H). lia.
      * now apply Hbd.
    + lia.
    + assert (Hpre : run + pos s i + pre s (i - imm) = run + pre s i).
      { rewrite (pre_step s i) by lia. destruct Himm as [->| ->]; [lia|].
        destruct (Hz eq_refl). rewrite (pre_step s (i - 1)) by lia.
        replace (i - 1 - 1) with (i - 2) by lia. lia. }
      rewrite Hpre in R1, R3. exists prod', acc'. split; [assumption|].
      split; [destruct ((0 =? n) && (0 <=? lamX)) eqn:E; [lia|assumption]|].
      repeat (split; [assumption|]). split; [|assumption].
      intros _. apply R7. left. discriminate.
Qed.

(** What the returned factors are: the specification of C20. *)
Definition factors_ok (K T R : Z) (fs : list factor) : Prop :=
  fs <> [] /\ Forall (fun f => f_elems f <> []) fs /\
  chains (flat fs) 0 R /\
  (forall A, elems_op A (flat fs) = mul A (beta_pow A K) (deriv_pow A T)) /\
  pow_sum fs = T - K /\
  bounded (Z.max (Z.abs R + 1) (Z.abs K + T)) (flat fs).

Lemma pow_sum_app a b : pow_sum (a ++ b) = pow_sum a + pow_sum b.
Proof. unfold pow_sum. now rewrite map_app, zsum_app. Qed.

Lemma elems_op_nil A : elems_op A [] = one A.
Proof. reflexivity. Qed.

Lemma bsds_factors_ok K T R : 0 <= T ->
  exists fs, bsds_factors K T R = Ok fs /\ factors_ok K T R fs.
Proof.
  intros HT. unfold bsds_factors.
  destruct ((K =? 0) && (T =? 0) && is_odd R) eqn:E0.
  - assert (K = 0 /\ T = 0 /\ R mod 2 = 1) as (-> & -> & HR)
      by (unfold is_odd in E0; lia). clear E0.
    assert (HI : forall A, mul A (beta_pow A 0) (deriv_pow A 0) = one A).
    { intros A. rewrite beta_pow_0. apply mul_1_l. }
    destruct (R <? 0) eqn:EN.
    + destruct (R <? -1) eqn:E1; (eexists; split; [reflexivity|]).
      * split; [discriminate|]. split; [repeat constructor; discriminate|].
        unfold flat. cbn [app flat_map F1 f_elems].
        split.
        { replace R with (R + 1 + elem_shift M_bm_ml + elem_shift M_b2_sqrt) at 4
            by (cbn [elem_shift]; lia).
          replace R with (R + 1 + elem_shift M_bm_ml) at 1 by (cbn [elem_shift]; lia).
          constructor. constructor.
          apply chains_one'. cbn [elem_shift]. lia. }
        split.
        { intros A. rewrite HI. unfold elems_op. cbn [map fst oprod elem_op].
          rewrite !mul_1_r. apply beta_r. }
        split; [reflexivity|].
        intros eo [<-|[<-|[<-|[]]]]; cbn [snd]; lia.
      * assert (R = -1) by lia. subst R.
        split; [discriminate|]. split; [repeat constructor; discriminate|].
        split; [exact (chains_cons M_b2_sqrt (-1) _ 0
                  (chains_cons M_bm_ml 0 _ 0 (chains_nil 0)))|].
        split.
        { intros A. rewrite HI. unfold elems_op. cbn [flat flat_map F1 f_elems app map fst oprod elem_op].
          rewrite !mul_1_r. apply beta_r. }
        split; [reflexivity|].
        intros eo [<-|[<-|[]]]; cbn [snd]; lia.
    + destruct (1 <? R) eqn:E1; (eexists; split; [reflexivity|]).
      * split; [discriminate|]. split; [repeat constructor; discriminate|].
        unfold flat. cbn [app flat_map F1 f_elems].
        split.
        { replace R with (1 + elem_shift (M_id_pl ((R - 1) / 2))) at 2
            by (cbn [elem_shift]; lia).
          constructor.
          exact (chains_cons M_bm_pl 0 _ 0 (chains_cons M_b2_sqrt 0 _ 0 (chains_nil 0))). }
        split.
        { intros A. rewrite HI. unfold elems_op. cbn [map fst oprod elem_op].
          rewrite mul_1_r, mul_1_l. apply beta_l. }
        split; [reflexivity|].
        intros eo [<-|[<-|[<-|[]]]]; cbn [snd]; lia.
      * assert (R = 1) by lia. subst R.
        split; [discriminate|]. split; [repeat constructor; discriminate|].
        split; [exact (chains_cons M_bm_pl 0 _ 0
                  (chains_cons M_b2_sqrt 0 _ 0 (chains_nil 0)))|].
        split.
        { intros A. rewrite HI. unfold elems_op. cbn [flat flat_map F1 f_elems app map fst oprod elem_op].
          rewrite !mul_1_r. apply beta_l. }
        split; [reflexivity|].
        intros eo [<-|[<-|[]]]; cbn [snd]; lia.
  - destruct (splits_full K T R HT) as (l & El & lamX & s & H1 & H2 & H3 & H4 & H5 & H6 & H7).
    rewrite El. cbn [bind].
    set (n := Z.abs K + T) in *.
    assert (Hlong : (if n <? zlen l then nth 0 l 0 else 0) = lamX /\
                    (if n <? zlen l then tl l else l) = s).
    { destruct H1 as [[-> ->]|[-> _]].
      - replace (n <? zlen s) with false by lia. auto.
      - replace (n <? zlen (lamX :: s)) with true by (rewrite zlen_cons; lia). auto. }
    destruct Hlong as [-> ->].
    replace (zlen s =? n) with true by lia. cbn [py_assert bind].
    assert (Heven : lamX mod 2 = 0).
    { destruct H5 as [|(-> & -> & HR)]; [assumption|].
      unfold is_odd in E0. lia. }
    replace (is_even lamX) with true by (unfold is_even; lia).
    cbn [py_assert bind].
    assert (Hal : aligned K s n).
    { intros HK Hn Hz. apply (H7 HK n); [lia|now left|assumption]. }
    set (prod0 := if lamX <? 0 then Some [F1 (M_id_ml (- lamX / 2)) 0 0] else None).
    replace (if lamX <? 0 then Ok (Some [F1 (M_id_ml (- lamX / 2)) 0 0]) else Ok None)
      with (Ok prod0) by (unfold prod0; destruct (lamX <? 0); reflexivity).
    cbn [bind].
    set (run0 := if lamX <? 0 then lamX else 0).
    set (acc0 := if lamX <? 0 then [F1 (M_id_ml (- lamX / 2)) 0 0] else []).
    destruct (loop_ok K n lamX s 0 ltac:(lia) H3 H7 H2 (Z.to_nat n) n run0 prod0 acc0)
      as (prod' & acc' & R1 & R2 & R0 & R3 & R4 & R5 & R7 & R6).
    + lia.
    + lia.
    + assumption.
    + unfold prod0, acc0. rewrite Z.eqb_refl. cbn [andb].
      destruct (lamX <? 0) eqn:E.
      * replace (0 <=? lamX) with false by lia. reflexivity.
      * replace (0 <=? lamX) with true by lia. reflexivity.
    + unfold acc0. destruct (lamX <? 0); repeat constructor. discriminate.
    + unfold acc0, run0. destruct (lamX <? 0) eqn:E; cbn [flat flat_map F1 f_elems app].
      * apply chains_one'. cbn [elem_shift]. lia.
      * constructor.
    + intros A. rewrite letters_nil by lia. unfold acc0.
      destruct (lamX <? 0); cbn [flat flat_map F1 f_elems app]; [|reflexivity].
      apply elems_op_one.
    + rewrite letters_pow_nil by lia. unfold acc0. destruct (lamX <? 0); reflexivity.
    + unfold acc0. destruct (lamX <? 0); cbn [flat flat_map F1 f_elems app].
      * intros eo [<-|[]]. cbn [snd]. lia.
      * intros eo [].
    + unfold run0. destruct (lamX <? 0) eqn:E; lia.
    + rewrite R1. cbn [bind]. replace (pre s n) with (zsum s) in R3 |- * by (rewrite <- H2; symmetry; apply pre_all).
      set (run1 := run0 + zsum s) in *.
      assert (HB : forall eo : elem * Z, Z.abs (snd eo) <= Z.abs 0 + Z.abs lamX + n ->
                   Z.abs (snd eo) <= Z.max (Z.abs R + 1) n) by (intros; lia).
      assert (HL : forall A, letters A K 1 n = mul A (beta_pow A K) (deriv_pow A T))
        by (intros A; apply letters_full; assumption).
      assert (HP : letters_pow K 1 n = T - K) by (apply letters_pow_full; assumption).
      destruct (0 <? lamX) eqn:EX.
      * replace (lamX =? 0) with false by lia. rewrite andb_false_r.
        assert (run0 = 0) by (unfold run0; replace (lamX <? 0) with false by lia; reflexivity).
        assert (Hm : (if 0 <? n then lmul (F1 (M_id_pl (lamX / 2)) run1 0) prod'
                      else Ok (Some [F1 (M_id_pl (lamX / 2)) run1 0])) =
                     Ok (Some (F1 (M_id_pl (lamX / 2)) run1 0 :: acc'))).
        { destruct (0 <? n) eqn:En.
          - replace (0 =? n) with false in R2 by lia. cbn [andb] in R2. subst prod'. reflexivity.
          - replace (0 =? n) with true in R2 by lia. replace (0 <=? lamX) with true in R2 by lia.
            destruct R2 as [-> _]. reflexivity. }
        rewrite Hm. cbn [bind]. eexists; split; [reflexivity|].
        split; [discriminate|]. split; [constructor; [discriminate|assumption]|].
        cbn [flat flat_map F1 f_elems app]. change (flat_map f_elems acc') with (flat acc').
        split.
        { replace R with (run1 + elem_shift (M_id_pl (lamX / 2)))
            by (cbn [elem_shift]; unfold run1; lia). constructor. assumption. }
        split.
        { intros A. rewrite <- HL, <- R4. unfold elems_op. cbn [map fst oprod elem_op].
          apply mul_1_l. }
        split.
        { unfold pow_sum in *. cbn [map F1 f_pow]. rewrite zsum_cons. lia. }
        intros eo [<-|Hin]; [|apply HB, R6, Hin].
        cbn [snd]. unfold run1.
        assert (Z.abs (zsum s) <= n).
        { rewrite <- H2. clear - H3. induction H3 as [|x s Hx _ IH]; [cbn; lia|].
          rewrite zsum_cons, zlen_cons. lia. }
        lia.
      * cbn [bind]. destruct ((n =? 0) && (lamX =? 0)) eqn:En.
        { assert (n = 0 /\ lamX = 0) as [Hn HX] by lia.
          replace (0 =? n) with true in R2 by lia.
          replace (0 <=? lamX) with true in R2 by lia. destruct R2 as [-> _].
          assert (s = []) by (destruct s; [reflexivity|]; rewrite zlen_cons in H2;
                              pose proof (zlen_nonneg s); lia).
          subst s. cbn [zsum fold_right] in *.
          assert (Hr : run1 = 0)
            by (unfold run1, run0; replace (lamX <? 0) with false by lia; reflexivity).
          rewrite Hr. eexists; split; [reflexivity|].
          split; [discriminate|]. split; [repeat constructor; discriminate|].
          cbn [flat flat_map F1 f_elems app].
          split; [apply chains_one'; cbn [elem_shift]; lia|].
          split; [intros A; rewrite <- HL, <- R4; apply elems_op_one|].
          split; [unfold pow_sum in *; cbn in *; lia|].
          intros eo [<-|[]]. cbn [snd]. lia. }
        replace ((0 =? n) && (0 <=? lamX)) with false in R2 by lia. subst prod'.
        eexists; split; [reflexivity|].
        split.
        { apply R7. unfold acc0. destruct (lamX <? 0) eqn:?; [left; discriminate|right; lia]. }
        split; [assumption|].
        split.
        { replace R with run1; [assumption|]. unfold run1, run0.
          destruct (lamX <? 0) eqn:E; lia. }
        split; [intros A; rewrite <- HL; apply R4|].
        split; [lia|].
        intros eo Hin. apply HB, R6, Hin.
Qed.
