(** The matrix elements of the identity between radial bases whose lambda
    differ by an even integer: closed form, composition law, orthogonality. *)

From Coq Require Import Reals Lia ZifyBool ZifyNat Lra.
From Verif Require Import PyBase PyFacts Compat Matrix RadialME RadialMESpec RadialMEFacts.
Open Scope Z_scope.
Ltac Zify.zify_post_hook ::= Z.div_mod_to_equations.

Fixpoint nsum (g : nat -> R) (n : nat) : R :=
  match n with O => 0%R | S k => (nsum g k + g k)%R end.

Lemma nsum_ext g h n : (forall k, (k < n)%nat -> g k = h k) -> nsum g n = nsum h n.
Proof.
  induction n as [|n IH]; intros H; [reflexivity|]. cbn [nsum].
  rewrite IH by (intros; apply H; lia). now rewrite H by lia.
Qed.

Lemma nsum_plus g h n : nsum (fun k => (g k + h k)%R) n = (nsum g n + nsum h n)%R.
Proof. induction n as [|n IH]; cbn [nsum]; [lra|]. rewrite IH. lra. Qed.

Lemma nsum_scal c g n : nsum (fun k => (c * g k)%R) n = (c * nsum g n)%R.
Proof. induction n as [|n IH]; cbn [nsum]; [lra|]. rewrite IH. lra. Qed.

Lemma nsum_zero g n : (forall k, (k < n)%nat -> g k = 0%R) -> nsum g n = 0%R.
Proof.
  induction n as [|n IH]; intros H; [reflexivity|]. cbn [nsum].
  rewrite IH by (intros; apply H; lia). rewrite H by lia. lra.
Qed.

Lemma nsum_front g n : nsum g (S n) = (g O + nsum (fun k => g (S k)) n)%R.
Proof.
  induction n as [|n IH]; [cbn [nsum]; lra|].
  change (nsum g (S (S n))) with (nsum g (S n) + g (S n))%R. rewrite IH. cbn [nsum]. lra.
Qed.

Lemma rsum_nsum f n : rsum f n = nsum (fun k => f (Z.of_nat k)) n.
Proof. induction n as [|n IH]; cbn [rsum nsum]; [reflexivity|]. now rewrite IH. Qed.

Lemma fold_sum (g : Z -> R) l a : fold_right Rplus a (map g l) = (fold_right Rplus 0 (map g l) + a)%R.
Proof. induction l as [|x l IH]; cbn; [lra|]. rewrite IH. lra. Qed.

(** A Python sum over [range(a, n)] with 0 <= a. *)
Lemma fold_range (g : Z -> R) a n : 0 <= a ->
  fold_right Rplus 0%R (map g (py_range a (Z.of_nat n)))
  = nsum (fun j => if Z.of_nat j <? a then 0%R else g (Z.of_nat j)) n.
Proof.
  intros Ha. induction n as [|n IH]; [now rewrite py_range_nil by lia|]. cbn [nsum].
  destruct (Z.ltb_spec (Z.of_nat n) a).
  - rewrite py_range_nil by lia. rewrite py_range_nil in IH by lia. rewrite <- IH. cbn. lra.
  - replace (Z.of_nat (S n)) with (Z.of_nat n + 1) by lia.
    rewrite py_range_snoc, map_app, fold_right_app by lia.
    cbn [map fold_right]. rewrite fold_sum, IH. lra.
Qed.

(** ** Rising factorials *)

Lemma rising_front x n : rising x (S n) = (x * rising (x + 1) n)%R.
Proof.
  induction n as [|n IH]; [cbn [rising]; change (INR 0) with 0%R; ring|].
  change (rising x (S (S n))) with (rising x (S n) * (x + INR (S n)))%R.
  rewrite IH. cbn [rising]. rewrite S_INR. ring.
Qed.

Lemma rising_diff x n : (rising (x + 1) (S n) - rising x (S n) = INR (S n) * rising (x + 1) n)%R.
Proof. rewrite (rising_front x n). cbn [rising]. rewrite S_INR. ring. Qed.

(** ** Binomials *)

Lemma binom_0 n : binom n 0 = 1.
Proof. destruct n; reflexivity. Qed.

Lemma binom_S n k : binom (S n) (S k) = binom n k + binom n (S k).
Proof. reflexivity. Qed.

Lemma binom_big n k : (n < k)%nat -> binom n k = 0.
Proof.
  revert k. induction n as [|n IH]; intros [|k] H; try lia; [reflexivity|].
  rewrite binom_S, !IH by lia. reflexivity.
Qed.

Lemma binom_nn n : binom n n = 1.
Proof. induction n as [|n IH]; [reflexivity|]. rewrite binom_S, IH, binom_big by lia. reflexivity. Qed.

Lemma binom_absorb n k :
  binom n k * (Z.of_nat n - Z.of_nat k) = binom n (S k) * Z.of_nat (S k).
Proof.
  revert k. induction n as [|n IH]; intros k.
  - destruct k; cbn [binom]; lia.
  - destruct k as [|k].
    + rewrite binom_0, binom_S, binom_0. specialize (IH O). rewrite binom_0 in IH. lia.
    + rewrite (binom_S n k), (binom_S n (S k)).
      pose proof (IH k) as E1. pose proof (IH (S k)) as E2.
      rewrite !Nat2Z.inj_succ in *. nia.
Qed.

(** The second binomial of the formula, zero below the diagonal. *)
Definition cb (m k : Z) : Z := if m <? k then 0 else binom (Z.to_nat m) (Z.to_nat k).

Lemma cb_pascal m k : 0 <= k -> cb (m + 1) (k + 1) = cb m (k + 1) + cb m k.
Proof.
  intros Hk. unfold cb. destruct (Z.ltb_spec m k).
  - replace (m + 1 <? k + 1) with true by lia. replace (m <? k + 1) with true by lia. reflexivity.
  - replace (m + 1 <? k + 1) with false by lia.
    replace (Z.to_nat (m + 1)) with (S (Z.to_nat m)) by lia.
    replace (Z.to_nat (k + 1)) with (S (Z.to_nat k)) by lia.
    rewrite binom_S. destruct (Z.ltb_spec m (k + 1)); [|lia].
    rewrite (binom_big _ (S _)) by lia. lia.
Qed.

Lemma id_binomials_nonneg mu nu r j : 0 <= mu -> 1 <= r -> Z.max 0 (nu - mu) <= j <= r ->
  0 <= r /\ 0 <= j /\ 0 <= r - 1 <= r + mu - nu + j - 1 /\ 0 <= r - j.
Proof. lia. Qed.

(** ** The polynomial *)

Definition term (lam : R) (r : nat) (f i : Z) (j : nat) : R :=
  (sg (Z.of_nat j) * IZR (binom r j)
   * IZR (cb (Z.of_nat r + f - i + Z.of_nat j - 1) (Z.of_nat r - 1))
   * rising (lam + IZR f + INR r + INR j) (r - j) * rising (IZR f + 1) j)%R.

Definition Q (lam : R) (r : nat) (f i : Z) : R := nsum (term lam r f i) (S r).

Lemma MF_Q lam f i r : 0 <= f -> 0 <= i -> (0 < r)%nat ->
  MF_Radial_id_pl lam f i (Z.of_nat r) = (sg f * sg i * Q lam r f i)%R.
Proof.
  intros Hf Hi Hr. unfold MF_Radial_id_pl.
  replace (Z.of_nat r =? 0) with false by lia.
  destruct (Z.ltb_spec (f + Z.of_nat r) i).
  - unfold Q. rewrite nsum_zero; [ring|]. intros j Hj. unfold term.
    replace (cb _ _) with 0; [ring|]. unfold cb.
    replace (_ <? _) with true by lia. reflexivity.
  - rewrite m1pow_sg, sg_add. rewrite Rmult_comm. f_equal.
    replace (Z.of_nat r + 1) with (Z.of_nat (S r)) by lia.
    rewrite fold_range by lia. apply nsum_ext. intros j Hj.
    unfold term. destruct (Z.ltb_spec (Z.of_nat j) (Z.max 0 (i - f))).
    + replace (cb _ _) with 0; [ring|]. unfold cb. replace (_ <? _) with true by lia. reflexivity.
    + rewrite m1pow_sg. unfold binomial, RisingFactorial, cb.
      replace (_ <? _) with false by lia.
      rewrite !Nat2Z.id, !INR_IZR_INZ.
      replace (Z.to_nat (Z.of_nat r - Z.of_nat j)) with (r - j)%nat by lia. reflexivity.
Qed.

(** Increment in f. *)
Lemma Q_step lam r f i : (0 < r)%nat ->
  Q lam (S r) f i = (Q lam (S r) (f - 1)%Z i + (lam + 2 * INR r + IZR f) * Q lam r f i
                     - (IZR f + 1) * Q lam r (f + 1)%Z i)%R.
Proof.
  intros Hr.
  set (X := (lam + IZR f + INR r)%R).
  set (c1 := fun j : nat => IZR (cb (Z.of_nat r + f - i + Z.of_nat j - 1) (Z.of_nat r - 1))).
  set (h := fun j : nat => (sg (Z.of_nat j) * c1 j * rising (X + INR j) (S r - j)
                            * rising (IZR f + 1) j)%R).
  (* first combination *)
  assert (E1 : ((lam + 2 * INR r + IZR f) * Q lam r f i
               = nsum (fun j => IZR (binom r j) * h j) (S (S r)))%R).
  { unfold Q. rewrite <- nsum_scal.
    change (nsum (fun j => (IZR (binom r j) * h j)%R) (S (S r)))
      with (nsum (fun j => (IZR (binom r j) * h j)%R) (S r) + IZR (binom r (S r)) * h (S r))%R.
    rewrite binom_big by lia. rewrite Rmult_0_l, Rplus_0_r.
    apply nsum_ext. intros j Hj. unfold term, h. fold (c1 j). fold X.
    replace (S r - j)%nat with (S (r - j)) by lia. cbn [rising].
    rewrite minus_INR by lia. unfold X. ring. }
  assert (E2 : (- ((IZR f + 1) * Q lam r (f + 1)%Z i)
               = nsum (fun j => match j with O => 0 | S k => IZR (binom r k) * h j end) (S (S r)))%R).
  { rewrite nsum_front, Rplus_0_l. unfold Q. rewrite Ropp_mult_distr_l, <- nsum_scal.
    apply nsum_ext. intros j Hj. unfold term, h, c1.
    replace (S r - S j)%nat with (r - j)%nat by lia.
    replace (Z.of_nat r + (f + 1) - i + Z.of_nat j - 1)
      with (Z.of_nat r + f - i + Z.of_nat (S j) - 1) by lia.
    replace (X + INR (S j))%R with (lam + IZR (f + 1) + INR r + INR j)%R
      by (unfold X; rewrite plus_IZR, S_INR; ring).
    rewrite (rising_front (IZR f + 1) j), plus_IZR.
    replace (Z.of_nat (S j)) with (Z.of_nat j + 1) by lia. rewrite sg_succ. ring. }
  assert (E3 : ((lam + 2 * INR r + IZR f) * Q lam r f i - (IZR f + 1) * Q lam r (f + 1)%Z i
               = nsum (fun j => IZR (binom (S r) j) * h j) (S (S r)))%R).
  { unfold Rminus. rewrite E2, E1, <- nsum_plus. apply nsum_ext. intros [|j] Hj.
    - rewrite !binom_0. ring.
    - rewrite binom_S, plus_IZR. ring. }
  unfold Rminus in *. rewrite Rplus_assoc, E3.
  (* difference of the two sides *)
  set (u := fun j : nat => (sg (Z.of_nat j) * IZR (binom (S r) j)
     * IZR (cb (Z.of_nat r + f - i + Z.of_nat j) (Z.of_nat r)) * rising (IZR f + 1) j
     * (rising (X + INR j + 1) (S r - j) - rising (X + INR j) (S r - j)))%R).
  set (v := fun j : nat => (sg (Z.of_nat j) * IZR (binom (S r) j)
     * IZR (cb (Z.of_nat r + f - i + Z.of_nat j - 1) (Z.of_nat r))
     * rising (X + INR j) (S r - j) * (rising (IZR f + 1) j - rising (IZR f) j))%R).
  assert (E4 : Q lam (S r) f i = (Q lam (S r) (f - 1)%Z i
     + nsum (fun j => IZR (binom (S r) j) * h j) (S (S r)) + nsum (fun j => u j + v j) (S (S r)))%R).
  { unfold Q. rewrite <- !nsum_plus. apply nsum_ext. intros j Hj.
    unfold term, u, v, h, c1.
    replace (Z.of_nat (S r) + f - i + Z.of_nat j - 1) with (Z.of_nat r + f - i + Z.of_nat j) by lia.
    replace (Z.of_nat (S r) + (f - 1) - i + Z.of_nat j - 1)
      with (Z.of_nat r + f - i + Z.of_nat j - 1) by lia.
    replace (Z.of_nat (S r) - 1) with (Z.of_nat r) by lia.
    replace (lam + IZR f + INR (S r) + INR j)%R with (X + INR j + 1)%R
      by (unfold X; rewrite S_INR; ring).
    replace (lam + IZR (f - 1) + INR (S r) + INR j)%R with (X + INR j)%R
      by (unfold X; rewrite S_INR, minus_IZR; ring).
    replace (IZR (f - 1) + 1)%R with (IZR f) by (rewrite minus_IZR; ring).
    pose proof (cb_pascal (Z.of_nat r + f - i + Z.of_nat j - 1) (Z.of_nat r - 1) ltac:(lia)) as P.
    replace (Z.of_nat r + f - i + Z.of_nat j - 1 + 1) with (Z.of_nat r + f - i + Z.of_nat j) in P by lia.
    replace (Z.of_nat r - 1 + 1) with (Z.of_nat r) in P by lia.
    rewrite P, plus_IZR. ring. }
  rewrite E4. rewrite (nsum_plus u v).
  assert (E5 : (nsum u (S (S r)) + nsum v (S (S r)) = 0)%R).
  { rewrite (nsum_front v). change (nsum u (S (S r))) with (nsum u (S r) + u (S r))%R.
    replace (u (S r)) with 0%R by (unfold u; rewrite Nat.sub_diag; cbn [rising]; ring).
    replace (v O) with 0%R by (unfold v; cbn [rising]; ring).
    replace (nsum u (S r) + 0 + (0 + nsum (fun k => v (S k)) (S r)))%R
      with (nsum u (S r) + nsum (fun k => v (S k)) (S r))%R by ring.
    rewrite <- nsum_plus. apply nsum_zero. intros j Hj. unfold u, v.
    replace (S r - j)%nat with (S (r - j)) by lia. replace (S r - S j)%nat with (r - j)%nat by lia.
    rewrite !rising_diff.
    replace (Z.of_nat r + f - i + Z.of_nat (S j) - 1) with (Z.of_nat r + f - i + Z.of_nat j) by lia.
    replace (X + INR (S j))%R with (X + INR j + 1)%R by (rewrite S_INR; ring).
    replace (Z.of_nat (S j)) with (Z.of_nat j + 1) by lia. rewrite sg_succ.
    pose proof (binom_absorb (S r) j) as B. apply (f_equal IZR) in B.
    rewrite !mult_IZR, minus_IZR, <- !INR_IZR_INZ in B.
    replace (INR (S (r - j))) with (INR (S r) - INR j)%R
      by (rewrite <- minus_INR by lia; f_equal; lia).
    replace (sg (Z.of_nat j) * IZR (binom (S r) j) *
      IZR (cb (Z.of_nat r + f - i + Z.of_nat j) (Z.of_nat r)) * rising (IZR f + 1) j *
      ((INR (S r) - INR j) * rising (X + INR j + 1) (r - j)))%R
      with (IZR (binom (S r) j) * (INR (S r) - INR j) * (sg (Z.of_nat j) *
        IZR (cb (Z.of_nat r + f - i + Z.of_nat j) (Z.of_nat r)) * rising (IZR f + 1) j *
        rising (X + INR j + 1) (r - j)))%R by ring.
    rewrite B. ring. }
  rewrite E5. ring.
Qed.

Lemma Q_base lam r i : (0 < r)%nat -> 0 <= i -> Q lam r (-1) i = 0%R.
Proof.
  intros Hr Hi. unfold Q. apply nsum_zero. intros j Hj. unfold term.
  replace (-1 + 1)%R with 0%R by ring.
  destruct j as [|j].
  - replace (cb _ _) with 0; [ring|]. unfold cb. replace (_ <? _) with true by lia. reflexivity.
  - rewrite (rising_front 0). ring.
Qed.

Lemma Q_sum lam r i : (0 < r)%nat -> 0 <= i -> forall n : nat,
  Q lam (S r) (Z.of_nat n - 1) i
  = ((lam + 2 * INR r) * nsum (fun k => Q lam r (Z.of_nat k) i) n
     - INR n * Q lam r (Z.of_nat n) i)%R.
Proof.
  intros Hr Hi. induction n as [|n IH].
  - change (Z.of_nat 0 - 1) with (-1). rewrite Q_base by lia. cbn [nsum]. change (INR 0) with 0%R. ring.
  - rewrite Q_step by lia.
    replace (Z.of_nat (S n) - 1 - 1) with (Z.of_nat n - 1) by lia.
    replace (Z.of_nat (S n) - 1 + 1) with (Z.of_nat (S n)) by lia.
    rewrite IH. replace (Z.of_nat (S n) - 1) with (Z.of_nat n) by lia.
    cbn [nsum]. rewrite <- !INR_IZR_INZ, S_INR. ring.
Qed.

Lemma Q_1 lam f i : 0 <= f -> 0 <= i ->
  Q lam 1 f i = (if (i <=? f)%Z then lam else if (i =? f + 1)%Z then - (IZR f + 1) else 0)%R.
Proof.
  intros Hf Hi. unfold Q, term. cbn [nsum].
  change (Z.of_nat 1) with 1. change (Z.of_nat 0) with 0.
  replace (1 + f - i + 0 - 1) with (f - i) by lia. replace (1 + f - i + 1 - 1) with (f - i + 1) by lia.
  change (1 - 1) with 0. unfold cb. change (Z.to_nat 0) with O. rewrite !binom_0.
  change (binom 1 1) with 1. change (1 - 0)%nat with 1%nat. change (1 - 1)%nat with 0%nat.
  cbn [rising INR]. change (sg 0) with 1%R. change (sg 1) with (-1)%R.
  destruct (Z.leb_spec i f).
  - replace (f - i <? 0) with false by lia. replace (f - i + 1 <? 0) with false by lia. ring.
  - replace (f - i <? 0) with true by lia. destruct (Z.eqb_spec i (f + 1)).
    + replace (f - i + 1 <? 0) with false by lia. ring.
    + replace (f - i + 1 <? 0) with true by lia. ring.
Qed.

Definition Qx (lam : R) (r : nat) (f i : Z) : R :=
  match r with O => if f =? i then 1%R else 0%R | S _ => Q lam r f i end.

(** Entries vanish above the r-th superdiagonal. *)
Lemma Qx_band lam r f i : f + Z.of_nat r < i -> Qx lam r f i = 0%R.
Proof.
  intros H. destruct r as [|r]; cbn [Qx].
  - replace (f =? i) with false by lia. reflexivity.
  - unfold Q. apply nsum_zero. intros j Hj. unfold term.
    replace (cb _ _) with 0; [ring|]. unfold cb. replace (_ <? _) with true by lia. reflexivity.
Qed.

Lemma Q_compose lam r f i N : 0 <= f -> 0 <= i -> f + 2 <= Z.of_nat N ->
  (rsum (fun k => sg f * sg k * Q (lam + 2 * INR r) 1 f k * (sg k * sg i * Qx lam r k i)) N
  = sg f * sg i * Q lam (S r) f i)%R.
Proof.
  intros Hf Hi HN.
  rewrite (rsum_ext _ (fun k => (sg f * sg i * (Q (lam + 2 * INR r) 1 f k * Qx lam r k i))%R)).
  2: { intros k Hk. pose proof (sg_sq k) as Hs.
       replace (sg f * sg k * Q (lam + 2 * INR r) 1 f k * (sg k * sg i * Qx lam r k i))%R
         with (sg k * sg k * (sg f * sg i * (Q (lam + 2 * INR r) 1 f k * Qx lam r k i)))%R by ring.
       rewrite Hs. ring. }
  rewrite rsum_scal. f_equal.
  rewrite (rsum_cut _ N (S (Z.to_nat (f + 1)))).
  2: lia.
  2: { intros k Hk. rewrite Q_1 by lia. replace (k <=? f) with false by lia.
       replace (k =? f + 1) with false by lia. ring. }
  cbn [rsum]. replace (Z.of_nat (Z.to_nat (f + 1))) with (f + 1) by lia.
  rewrite (rsum_ext _ (fun k => ((lam + 2 * INR r) * Qx lam r k i)%R)).
  2: { intros k Hk. rewrite Q_1 by lia. replace (k <=? f) with true by lia. ring. }
  rewrite Q_1 by lia. replace (f + 1 <=? f) with false by lia.
  replace (f + 1 =? f + 1) with true by lia.
  rewrite rsum_scal. destruct r as [|r].
  - cbn [Qx]. change (INR 0) with 0%R. rewrite Q_1 by lia.
    destruct (Z.leb_spec i f).
    + rewrite (rsum_single _ _ i); [|lia|]. 
      2: { intros k Hk Hn. replace (k =? i) with false by lia. reflexivity. }
      replace (i =? i) with true by lia. replace (f + 1 =? i) with false by lia. ring.
    + rewrite rsum_zero. 2: { intros k Hk. replace (k =? i) with false by lia. reflexivity. }
      rewrite (Z.eqb_sym i). destruct (f + 1 =? i); ring.
  - cbn [Qx]. pose proof (Q_sum lam (S r) i ltac:(lia) Hi (Z.to_nat (f + 1))) as E.
    replace (Z.of_nat (Z.to_nat (f + 1))) with (f + 1) in E by lia.
    replace (f + 1 - 1) with f in E by lia.
    rewrite E, rsum_nsum.
    rewrite (INR_IZR_INZ (Z.to_nat _)). replace (Z.of_nat (Z.to_nat (f + 1))) with (f + 1) by lia.
    rewrite plus_IZR. ring.
Qed.

Lemma rsum_swap (g : Z -> Z -> R) n m :
  rsum (fun k => rsum (fun l => g k l) m) n = rsum (fun l => rsum (fun k => g k l) n) m.
Proof.
  induction n as [|n IH]; cbn [rsum].
  - symmetry. apply rsum_zero. reflexivity.
  - rewrite IH, <- rsum_plus. reflexivity.
Qed.

Section G.
  Variable Gam : R -> R.
  Hypothesis HG : gamma_like Gam.

  Notation av := (av Gam).
  Notation w := (w Gam).

  Definition v_id (r : nat) (lam : R) : rmat := fun f i =>
    (sg f * sg i * Qx lam r f i * (av lam i / av (lam + 2 * INR r) f))%R.

  Lemma id_pl_value lam f i r : (0 < lam)%R -> 0 <= f -> 0 <= i ->
    ME_Radial_id_pl Gam lam f i (Z.of_nat r) = Ok (v_id r lam f i).
  Proof.
    intros Hl Hf Hi. unfold ME_Radial_id_pl, v_id.
    rewrite no_pole, andb_false_r by assumption.
    destruct (Z.leb_spec i (f + Z.of_nat r)).
    - unfold MF_Radial_id_poly. replace (i <=? f + Z.of_nat r) with true by lia.
      cbn [py_assert bind raise_if negb].
      rewrite (poch_w Gam lam).
      replace (lam + 2 * IZR (Z.of_nat r) - 1)%R with ((lam + 2 * INR r) - 1)%R
        by (rewrite INR_IZR_INZ; ring).
      rewrite poch_w. pose proof (pos_INR r).
      rewrite math_sqrt_ok by (apply ratio_nonneg; assumption || lra). cbn [bind].
      rewrite sqrt_ratio by (assumption || lra). f_equal. f_equal.
      destruct r as [|r].
      + unfold MF_Radial_id_pl. cbn [Qx]. change (Z.of_nat 0 =? 0) with true. cbn iota.
        destruct (Z.eqb_spec f i); [subst; rewrite sg_sq|]; ring.
      + apply MF_Q; lia.
    - rewrite Qx_band by lia. f_equal. ring.
  Qed.

  Lemma id_ml_transpose lam f i r : (0 < lam)%R -> 0 <= f -> 0 <= i ->
    ME_Radial_id_ml Gam (lam + 2 * IZR (Z.of_nat r)) f i (Z.of_nat r)
    = ME_Radial_id_pl Gam lam i f (Z.of_nat r).
  Proof.
    intros Hl Hf Hi. unfold ME_Radial_id_ml, ME_Radial_id_pl.
    rewrite (no_pole lam) by assumption. rewrite andb_false_r.
    pose proof (IZR_nonneg _ Hf). pose proof (IZR_nonneg (Z.of_nat r) ltac:(lia)).
    replace (Rleb (lam + 2 * IZR (Z.of_nat r)) (- IZR f + 2 * IZR (Z.of_nat r))) with false.
    2: { unfold Rleb. destruct (Rle_dec _ _); [lra|reflexivity]. }
    rewrite andb_false_r.
    replace (lam + 2 * IZR (Z.of_nat r) - 2 * IZR (Z.of_nat r))%R with lam by ring.
    replace (lam + 2 * IZR (Z.of_nat r) - 1 - 2 * IZR (Z.of_nat r))%R with (lam - 1)%R by ring.
    reflexivity.
  Qed.

  (** Composition: first lambda -> lambda+2r, then -> lambda+2r+2. *)
  Lemma id_compose lam r : (0 < lam)%R ->
    prod_is (v_id 1 (lam + 2 * INR r)) (v_id r lam) (v_id (S r) lam).
  Proof.
    intros Hl f i N Hf Hi HN. unfold v_id. cbn [Qx]. pose proof (pos_INR r).
    set (l2 := (lam + 2 * INR r)%R).
    replace (l2 + 2 * INR 1)%R with (lam + 2 * INR (S r))%R
      by (unfold l2; rewrite S_INR; change (INR 1) with 1%R; ring).
    set (l3 := (lam + 2 * INR (S r))%R).
    assert (0 < l2)%R by (unfold l2; lra).
    assert (0 < l3)%R by (unfold l3; rewrite S_INR; lra).
    rewrite (rsum_ext _ (fun k => (av lam i / av l3 f
      * (sg f * sg k * Q l2 1 f k * (sg k * sg i * Qx lam r k i)))%R)).
    2: { intros k Hk. pose proof (av_pos Gam HG l2 k ltac:(lra) ltac:(lia)).
         pose proof (av_pos Gam HG l3 f ltac:(lra) ltac:(lia)). field. lra. }
    rewrite rsum_scal. unfold l2. rewrite Q_compose by assumption. ring.
  Qed.

  (** Row orthonormality. *)
  Lemma id_unitary_1_le lam f i N : (0 < lam)%R -> 0 <= f -> f <= i -> f + 2 <= Z.of_nat N ->
    rsum (fun k => (v_id 1 lam f k * v_id 1 lam i k)%R) N = rid f i.
  Proof.
    intros Hl Hf Hfi HN. unfold v_id. cbn [Qx].
    replace (lam + 2 * INR 1)%R with (lam + 1 + 1)%R by (change (INR 1) with 1%R; ring).
    rewrite (rsum_ext _ (fun k => (sg f * sg i / (av (lam + 1 + 1) f * av (lam + 1 + 1) i)
      * (Q lam 1 f k * Q lam 1 i k * w lam k))%R)).
    2: { intros k Hk. pose proof (sg_sq k) as Hs. rewrite <- av_sq by (assumption || lia).
         pose proof (av_pos Gam HG (lam + 1 + 1) f ltac:(lra) ltac:(lia)).
         pose proof (av_pos Gam HG (lam + 1 + 1) i ltac:(lra) ltac:(lia)).
         replace (sg f * sg k * Q lam 1 f k * (av lam k / av (lam + 1 + 1) f) *
           (sg i * sg k * Q lam 1 i k * (av lam k / av (lam + 1 + 1) i)))%R
           with (sg k * sg k * (sg f * sg i / (av (lam + 1 + 1) f * av (lam + 1 + 1) i)
             * (Q lam 1 f k * Q lam 1 i k * (av lam k * av lam k))))%R by (field; lra).
         rewrite Hs. ring. }
    rewrite rsum_scal.
    rewrite (rsum_cut _ N (S (Z.to_nat (f + 1)))).
    2: lia.
    2: { intros k Hk. rewrite Q_1 by lia. replace (k <=? f) with false by lia.
         replace (k =? f + 1) with false by lia. ring. }
    cbn [rsum]. replace (Z.of_nat (Z.to_nat (f + 1))) with (f + 1) by lia.
    rewrite (rsum_ext _ (fun k => (lam * lam * w lam k)%R)).
    2: { intros k Hk. rewrite !Q_1 by lia. replace (k <=? f) with true by lia.
         replace (k <=? i) with true by lia. ring. }
    replace (Z.to_nat (f + 1)) with (S (Z.to_nat f)) by lia.
    rewrite rsum_scal, w_sum by (assumption || lia).
    rewrite !Q_1 by lia. replace (f + 1 <=? f) with false by lia.
    replace (f + 1 =? f + 1) with true by lia.
    rewrite w_lam by (assumption || lia).
    pose proof (w_mu Gam HG lam f Hl Hf) as Hm.
    unfold rid. destruct (Z.eqb_spec f i).
    - subst i. replace (f + 1 <=? f) with false by lia. replace (f + 1 =? f + 1) with true by lia.
      rewrite av_sq by (assumption || lra || lia). rewrite sg_sq.
      rewrite (w_lam Gam HG (lam + 1)) by (assumption || lra || lia).
      rewrite (w_lam Gam HG lam) by (assumption || lra || lia).
      replace (- (IZR f + 1) * - (IZR f + 1) * w lam (f + 1)%Z)%R
        with ((IZR f + 1) * ((IZR f + 1) * w lam (f + 1)%Z))%R by ring.
      rewrite Hm. pose proof (w_pos Gam HG lam f Hl Hf). pose proof (IZR_nonneg _ Hf).
      field. lra.
    - replace (f + 1 <=? i) with true by lia.
      replace (- (IZR f + 1) * lam * w lam (f + 1)%Z)%R
        with (- lam * ((IZR f + 1) * w lam (f + 1)%Z))%R by ring.
      rewrite Hm.
      pose proof (av_pos Gam HG (lam + 1 + 1) f ltac:(lra) ltac:(lia)).
      pose proof (av_pos Gam HG (lam + 1 + 1) i ltac:(lra) ltac:(lia)).
      field. lra.
  Qed.

  Lemma id_unitary_1 lam f i N : (0 < lam)%R -> 0 <= f -> 0 <= i ->
    f + 2 <= Z.of_nat N -> i + 2 <= Z.of_nat N ->
    rsum (fun k => (v_id 1 lam f k * v_id 1 lam i k)%R) N = rid f i.
  Proof.
    intros Hl Hf Hi H1 H2. destruct (Z_le_gt_dec f i).
    - now apply id_unitary_1_le.
    - rewrite (rsum_ext _ (fun k => (v_id 1 lam i k * v_id 1 lam f k)%R)) by (intros; ring).
      rewrite id_unitary_1_le by (assumption || lia). unfold rid.
      rewrite (Z.eqb_sym i). reflexivity.
  Qed.

  Lemma id_unitary lam r : (0 < lam)%R -> forall f i N, 0 <= f -> 0 <= i ->
    f + Z.of_nat r + 1 <= Z.of_nat N -> i + Z.of_nat r + 1 <= Z.of_nat N ->
    rsum (fun k => (v_id r lam f k * v_id r lam i k)%R) N = rid f i.
  Proof.
    intros Hl. induction r as [|r IH]; intros f i N Hf Hi H1 H2.
    - unfold v_id. cbn [Qx]. rewrite (rsum_single _ _ f); [|lia|].
      2: { intros k Hk Hn. replace (f =? k) with false by lia. ring. }
      replace (f =? f) with true by lia. unfold rid. rewrite (Z.eqb_sym f i).
      destruct (Z.eqb_spec i f); [subst|ring].
      change (INR 0) with 0%R. replace (lam + 2 * 0)%R with lam by ring.
      pose proof (av_pos Gam HG lam f Hl Hf). pose proof (sg_sq f) as Hs.
      replace (sg f * sg f * 1 * (av lam f / av lam f) * (sg f * sg f * 1 * (av lam f / av lam f)))%R
        with (sg f * sg f * (sg f * sg f))%R by (field; lra).
      rewrite Hs. ring.
    - pose proof (pos_INR r).
      set (U := v_id 1 (lam + 2 * INR r)). set (V := v_id r lam).
      set (n := Z.to_nat (Z.max f i + 2)).
      assert (Hc : forall a, 0 <= a -> a <= Z.max f i -> forall k, 0 <= k ->
        v_id (S r) lam a k = rsum (fun l => (U a l * V l k)%R) n).
      { intros a Ha Hm k Hk. symmetry. apply (id_compose lam r Hl); lia. }
      rewrite (rsum_ext _ (fun k => rsum (fun l => rsum (fun m =>
        (U f l * U i m * (V l k * V m k))%R) n) n)).
      2: { intros k Hk. rewrite (Hc f), (Hc i) by lia.
           rewrite <- rsum_scal, (rsum_ext _ (fun m => rsum (fun l =>
             (U f l * U i m * (V l k * V m k))%R) n)).
           - apply rsum_swap.
           - intros m Hm. rewrite (Rmult_comm (rsum _ n)), <- rsum_scal.
             apply rsum_ext. intros; ring. }
      rewrite rsum_swap.
      rewrite (rsum_ext _ (fun l => (U f l * U i l)%R)).
      { apply id_unitary_1; (lra || lia). }
      intros l Hlr. rewrite rsum_swap.
      rewrite (rsum_ext _ (fun m => (U f l * U i m * rid l m)%R)).
      + rewrite (rsum_single _ _ l); [|lia|].
        * unfold rid. replace (l =? l) with true by lia. ring.
        * intros m Hm Hn. unfold rid. replace (l =? m) with false by lia. ring.
      + intros m Hm. rewrite rsum_scal. unfold V. rewrite IH by lia. reflexivity.
  Qed.

  (** r = 1 is 1/beta after beta. *)
  Lemma id_1_ladders lam : (0 < lam)%R ->
    forall f i N, 0 <= f -> 0 <= i -> f + 2 <= Z.of_nat N ->
    rsum (fun k => (v_bm_pl Gam (lam + 1) f k * v_b_pl lam k i)%R) N = v_id 1 lam f i.
  Proof.
    intros Hl f i N Hf Hi HN. unfold v_id. cbn [Qx]. rewrite Q_1 by lia.
    replace (lam + 2 * INR 1)%R with (lam + 1 + 1)%R by (change (INR 1) with 1%R; ring).
    pose proof (av_pos Gam HG (lam + 1 + 1) f ltac:(lra) ltac:(lia)) as HP.
    pose proof (IZR_nonneg _ Hi).
    assert (E1 : 0 < i -> (av (lam + 1) (i - 1)%Z * sqrt (IZR i) = IZR i * av lam i)%R).
    { intros Hp. pose proof (av_mu Gam HG lam (i - 1) Hl ltac:(lia)) as M.
      rewrite Z.sub_add in M. rewrite (av_lam Gam HG lam) by (assumption || lia). rewrite <- M.
      rewrite minus_IZR. replace (IZR i - 1 + 1)%R with (IZR i) by ring.
      rewrite <- (sqrt_sqrt (IZR i)) at 3 by assumption. ring. }
    assert (E2 : (av (lam + 1) i * sqrt (lam + IZR i) = (lam + IZR i) * av lam i)%R).
    { rewrite (av_lam Gam HG lam) by (assumption || lia).
      rewrite <- (sqrt_sqrt (lam + IZR i)) at 3 by lra. ring. }
    destruct (Z.eq_dec i 0) as [->|Ni].
    - rewrite (rsum_single _ _ 0); [|lia|].
      2: { intros k Hk Hn. unfold v_b_pl. eqbs. ring. }
      unfold v_bm_pl, v_b_pl. replace (f <? 0) with false by lia.
      replace (0 =? 0 - 1) with false by lia. replace (0 =? 0) with true by lia.
      replace (0 <=? f) with true by lia.
      replace (sg f * sg 0 * (av (lam + 1) 0%Z / av (lam + 1 + 1) f) * sqrt (lam + 0))%R
        with (sg f * sg 0 / av (lam + 1 + 1) f * (av (lam + 1) 0%Z * sqrt (lam + 0)))%R
        by (field; lra).
      rewrite E2. field. lra.
    - specialize (E1 ltac:(lia)).
      destruct (Z_le_gt_dec i (f + 1)) as [Hif|Hif].
      + rewrite (rsum_cut _ N (S (S (Z.to_nat f)))); [|lia|].
        2: { intros k Hk. unfold v_bm_pl. replace (f <? k) with true by lia. ring. }
        destruct (Z.eq_dec i (f + 1)) as [->|Nf].
        * rewrite (rsum_single _ _ f); [|lia|].
          2: { intros k Hk Hn. unfold v_bm_pl, v_b_pl. destruct (Z.ltb_spec f k); [ring|].
               eqbs. ring. }
          unfold v_bm_pl, v_b_pl. replace (f <? f) with false by lia.
          replace (f =? f + 1 - 1) with true by lia.
          replace (f + 1 <=? f) with false by lia. replace (f + 1 =? f + 1) with true by lia.
          replace (f + 1 - 1) with f in E1 by lia. rewrite sg_succ.
          replace (sg f * sg f * (av (lam + 1) f / av (lam + 1 + 1) f) * sqrt (IZR (f + 1)))%R
            with (sg f * sg f / av (lam + 1 + 1) f * (av (lam + 1) f * sqrt (IZR (f + 1))))%R
            by (field; lra).
          rewrite E1, plus_IZR. field. lra.
        * rewrite (rsum_two _ _ (i - 1)); [|lia|lia|].
          2: { intros k Hk H1 H2. unfold v_b_pl. eqbs. ring. }
          rewrite Z.sub_add. unfold v_bm_pl, v_b_pl.
          replace (f <? i - 1) with false by lia. replace (f <? i) with false by lia.
          replace (i - 1 =? i - 1) with true by lia. replace (i =? i - 1) with false by lia.
          replace (i =? i) with true by lia. replace (i <=? f) with true by lia.
          rewrite sg_pred.
          replace (sg f * - sg i * (av (lam + 1) (i - 1)%Z / av (lam + 1 + 1) f) * sqrt (IZR i))%R
            with (- (sg f * sg i / av (lam + 1 + 1) f) * (av (lam + 1) (i - 1)%Z * sqrt (IZR i)))%R
            by (field; lra).
          replace (sg f * sg i * (av (lam + 1) i / av (lam + 1 + 1) f) * sqrt (lam + IZR i))%R
            with (sg f * sg i / av (lam + 1 + 1) f * (av (lam + 1) i * sqrt (lam + IZR i)))%R
            by (field; lra).
          rewrite E1, E2. field. lra.
      + replace (i <=? f) with false by lia. replace (i =? f + 1) with false by lia.
        rewrite rsum_zero; [ring|]. intros k Hk. unfold v_bm_pl, v_b_pl.
        destruct (Z.ltb_spec f k); [ring|]. eqbs. ring.
  Qed.
End G.
