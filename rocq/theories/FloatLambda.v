(** Rounding errors in the integer Davidson lambda function (globals.py:180-188). *)

From Coq Require Import ZArith Reals List Lra Lia.
From Flocq Require Import Core BinarySingleNaN.
From Verif Require Import PyBase Compat Float FloatFacts.
Open Scope R_scope.

#[local] Instance prec_ok2 : Prec_gt_0 53 := prec_ok.
#[local] Instance vexp2 : Valid_exp (FLT_exp (-1074) 53) := FLT_exp_valid (-1074) 53.

Notation two k := (bpow radix2 k).

Lemma two_pos : forall k, 0 < two k. Proof. intros. apply bpow_gt_0. Qed.
Lemma two_S : forall k, two (k + 1) = 2 * two k. Proof. intros. rewrite bpow_plus. change (two 1) with 2. ring. Qed.

(** The square root of a rounded number, rounded. *)
Lemma sqrt_error : forall A k, (0 <= k <= 400)%Z -> 1 <= A -> A <= two (2 * k) ->
  0 <= RN (sqrt (RN A)) <= two k /\ Rabs (RN (sqrt (RN A)) - sqrt A) <= 2 * two (k - 53).
Proof.
  intros A k Hk H1 H2.
  assert (D1 : is_double 1) by (apply (int_double 1); lia).
  assert (D2 : forall j, (0 <= j <= 900)%Z -> is_double (two j)).
  { intros j Hj. apply generic_format_bpow. unfold FLT_exp. lia. }
  assert (B : 1 <= RN A <= two (2 * k)).
  { split; [rewrite <- (RN_double 1 D1)|rewrite <- (RN_double (two (2 * k)) (D2 (2 * k)%Z ltac:(lia)))]; now apply RN_le. }
  assert (Q : sqrt (two (2 * k)) = two k).
  { replace (2 * k)%Z with (k + k)%Z by lia. rewrite bpow_plus. apply sqrt_square, bpow_ge_0. }
  assert (S1 : sqrt A <= two k) by (rewrite <- Q; apply sqrt_le_1_alt; lra).
  assert (S2 : 1 <= sqrt (RN A) <= two k).
  { split; [rewrite <- sqrt_1|rewrite <- Q]; apply sqrt_le_1_alt; lra. }
  assert (S3 : 1 <= sqrt A) by (rewrite <- sqrt_1; apply sqrt_le_1_alt; lra).
  assert (E1 : Rabs (sqrt (RN A) - sqrt A) <= two (k - 53)).
  { destruct (RN_relative A) as (eps & He & E).
    { rewrite Rabs_pos_eq by lra. apply Rle_trans with 1; [|lra]. change 1 with (two 0). apply bpow_le. lia. }
    assert (Eq : (sqrt (RN A) - sqrt A) * (sqrt (RN A) + sqrt A) = A * eps).
    { replace ((sqrt (RN A) - sqrt A) * (sqrt (RN A) + sqrt A)) with (sqrt (RN A) * sqrt (RN A) - sqrt A * sqrt A) by ring.
      rewrite !sqrt_sqrt by lra. rewrite E. ring. }
    apply Rmult_le_reg_r with (sqrt A); [lra|].
    apply Rle_trans with (Rabs (sqrt (RN A) - sqrt A) * Rabs (sqrt (RN A) + sqrt A)).
    { apply Rmult_le_compat_l; [apply Rabs_pos|]. rewrite Rabs_pos_eq; lra. }
    rewrite <- Rabs_mult, Eq, Rabs_mult, (Rabs_pos_eq A) by lra.
    replace (two (k - 53)) with (two k * two (-53)) by (rewrite <- bpow_plus; f_equal; lia).
    assert (HA : A = sqrt A * sqrt A) by (symmetry; apply sqrt_sqrt; lra).
    revert S1 S3 HA. generalize (sqrt A) as r. intros r S1 S3 HA.
    apply Rle_trans with (A * two (-53)); [apply Rmult_le_compat_l; lra|]. rewrite HA.
    pose proof (two_pos (-53)) as P. revert P S1. generalize (two k) (two (-53)). intros a b P S1.
    replace (a * b * r) with (r * a * b) by ring. apply Rmult_le_compat_r; [lra|]. apply Rmult_le_compat_l; lra. }
  assert (E2 : Rabs (RN (sqrt (RN A)) - sqrt (RN A)) <= two (k - 53)).
  { apply RN_error; [lia|]. rewrite Rabs_pos_eq; lra. }
  split.
  - split; [apply RN_ge_0; lra|]. rewrite <- (RN_double (two k) (D2 k ltac:(lia))). apply RN_le. lra.
  - revert E1 E2. generalize (two (k - 53)) as u. intros u E1 E2.
    apply Rabs_le_inv in E1, E2. apply Rabs_le. lra.
Qed.

(** The difference of two such numbers, rounded. *)
Lemma difference_error : forall A B k, (0 <= k <= 400)%Z -> 1 <= A <= two (2 * k) -> 1 <= B <= two (2 * k) ->
  Rabs (RN (RN (sqrt (RN A)) - RN (sqrt (RN B))) - (sqrt A - sqrt B)) <= 5 * two (k - 53).
Proof.
  intros A B k Hk HA HB. destruct (sqrt_error A k Hk ltac:(lra) ltac:(lra)) as [IA EA].
  destruct (sqrt_error B k Hk ltac:(lra) ltac:(lra)) as [IB EB].
  assert (E : Rabs (RN (RN (sqrt (RN A)) - RN (sqrt (RN B))) - (RN (sqrt (RN A)) - RN (sqrt (RN B)))) <= two (k - 53)).
  { apply RN_error; [lia|]. apply Rabs_le. lra. }
  apply Rabs_le_inv in EA, EB, E. apply Rabs_le. lra.
Qed.

(** The rounded difference of the code, for a number [C] that is a double. *)
Definition code_difference (C : R) (v : Z) : R :=
  RN (RN (sqrt (RN (IZR ((v + 1) ^ 2) + C))) - RN (sqrt (RN (9 / 4 + C)))).
Definition exact_difference (C : R) (v : Z) : R := sqrt (IZR ((v + 1) ^ 2) + C) - sqrt (9 / 4 + C).

Lemma absorbed : forall C n, is_double C -> two 84 <= C -> 0 <= n <= two 29 -> RN (n + C) = C.
Proof.
  intros C n D HC Hn. apply Rle_antisym.
  - unfold RN. apply round_N_le_midp; [auto with typeclass_instances|exact D|].
    rewrite succ_eq_pos by (pose proof (two_pos 84); lra).
    assert (U : two 31 <= ulp radix2 (FLT_exp (-1074) 53) C / 2).
    { rewrite ulp_neq_0 by (pose proof (two_pos 84); lra). unfold cexp, FLT_exp.
      assert (M : (85 <= mag radix2 C)%Z) by (apply mag_ge_bpow; rewrite Rabs_pos_eq; [exact HC|pose proof (two_pos 84); lra]).
      apply Rle_trans with (two 32 / 2); [change (two 32) with (2 * two 31); lra|].
      apply Rmult_le_compat_r; [lra|]. apply bpow_le. lia. }
    assert (two 29 < two 31) by (apply bpow_lt; lia). lra.
  - rewrite <- (RN_double C D) at 1. apply RN_le. lra.
Qed.

Lemma square_bound : forall v m, (0 <= v)%Z -> (v + 1 <= m)%Z -> 1 <= IZR ((v + 1) ^ 2) <= IZR m * IZR m.
Proof. intros v m H1 H2. rewrite <- mult_IZR. split; apply IZR_le; nia. Qed.

Lemma difference_close : forall C v, is_double C -> 0 <= C -> (0 <= v)%Z -> (v + 1 <= 2 ^ 14)%Z ->
  Rabs (code_difference C v - exact_difference C v) <= two (-7).
Proof.
  intros C v D HC H1 H2. unfold code_difference, exact_difference.
  destruct (square_bound v (2 ^ 14) H1 H2) as [N1 N2].
  assert (N3 : IZR (2 ^ 14) * IZR (2 ^ 14) = two 28) by (rewrite <- mult_IZR; reflexivity). rewrite N3 in N2. clear N3.
  generalize dependent (IZR ((v + 1) ^ 2)). intros n N1 N2.
  assert (L2829 : two 28 < two 29) by (apply bpow_lt; lia).
  destruct (Rle_or_lt (two 84) C) as [L|L].
  - rewrite !(absorbed C) by (auto; try (split; [lra|]; apply Rle_trans with (two 2); [change (two 2) with 4; lra|apply bpow_le; lia]); lra).
    replace (RN (sqrt C) - RN (sqrt C)) with 0 by ring. rewrite RN_0.
    assert (S84 : sqrt (two 84) = two 42) by (change (two 84) with (two (42 + 42)); rewrite bpow_plus; apply sqrt_square, bpow_ge_0).
    assert (P84 := two_pos 84).
    assert (Q1 : two 42 <= sqrt (n + C)) by (rewrite <- S84; apply sqrt_le_1_alt; lra).
    assert (Q2 : two 42 <= sqrt (9 / 4 + C)) by (rewrite <- S84; apply sqrt_le_1_alt; lra).
    assert (Eq : (sqrt (n + C) - sqrt (9 / 4 + C)) * (sqrt (n + C) + sqrt (9 / 4 + C)) = n - 9 / 4).
    { replace ((sqrt (n + C) - sqrt (9 / 4 + C)) * (sqrt (n + C) + sqrt (9 / 4 + C)))
        with (sqrt (n + C) * sqrt (n + C) - sqrt (9 / 4 + C) * sqrt (9 / 4 + C)) by ring.
      rewrite !sqrt_sqrt by lra. ring. }
    set (y := sqrt (n + C) - sqrt (9 / 4 + C)) in *. set (z := sqrt (n + C) + sqrt (9 / 4 + C)) in *.
    assert (Z : two 42 <= z) by (unfold z; pose proof (two_pos 42); lra).
    replace (0 - y) with (- y) by ring. rewrite Rabs_Ropp. apply Rmult_le_reg_r with (two 42); [apply two_pos|].
    apply Rle_trans with (Rabs y * Rabs z); [apply Rmult_le_compat_l; [apply Rabs_pos|]; rewrite Rabs_pos_eq; pose proof (two_pos 42); lra|].
    rewrite <- Rabs_mult, Eq. replace (two (-7) * two 42) with (two 35) by (rewrite <- bpow_plus; reflexivity).
    apply Rabs_le. assert (two 28 < two 35) by (apply bpow_lt; lia). assert (two 2 < two 35) by (apply bpow_lt; lia).
    change (two 2) with 4 in *. lra.
  - eapply Rle_trans; [apply (difference_error _ _ 43); [lia| |]|].
    + split; [lra|]. apply Rle_trans with (two 85); [|apply bpow_le; lia].
      replace (two 85) with (2 * two 84) by (change 2 with (two 1) at 1; rewrite <- bpow_plus; reflexivity).
      assert (two 28 < two 84) by (apply bpow_lt; lia). lra.
    + split; [lra|]. apply Rle_trans with (two 85); [|apply bpow_le; lia].
      replace (two 85) with (2 * two 84) by (change 2 with (two 1) at 1; rewrite <- bpow_plus; reflexivity).
      assert (two 2 < two 84) by (apply bpow_lt; lia). change (two 2) with 4 in *. lra.
    + replace (two (-7)) with (8 * two (43 - 53)) by (change 8 with (two 3); rewrite <- bpow_plus; reflexivity).
      pose proof (two_pos (43 - 53)). lra.
Qed.

Lemma code_monotone : forall C v w, (0 <= v <= w)%Z -> code_difference C v <= code_difference C w.
Proof.
  intros C v w H. unfold code_difference. apply RN_le. apply Rplus_le_compat_r. apply RN_le, sqrt_le_1_alt, RN_le.
  apply Rplus_le_compat_r. apply IZR_le. nia.
Qed.

(** How much less than 1 the exact difference grows. *)
Lemma gap : forall C v, 0 < C -> (0 <= v)%Z ->
  C / (2 * (IZR ((v + 2) ^ 2) + C)) <= 1 - (sqrt (IZR ((v + 2) ^ 2) + C) - sqrt (IZR ((v + 1) ^ 2) + C)).
Proof.
  intros C v HC Hv. assert (Hm : 0 <= IZR v) by now apply IZR_le.
  replace (IZR ((v + 2) ^ 2)) with ((IZR v + 2) * (IZR v + 2)) by (rewrite <- plus_IZR, <- mult_IZR; f_equal; ring).
  replace (IZR ((v + 1) ^ 2)) with ((IZR v + 1) * (IZR v + 1)) by (rewrite <- plus_IZR, <- mult_IZR; f_equal; ring).
  revert Hm. generalize (IZR v) as m. intros m Hm.
  set (p := sqrt ((m + 1) * (m + 1) + C)). set (q := sqrt ((m + 2) * (m + 2) + C)).
  assert (P : p * p = (m + 1) * (m + 1) + C) by (apply sqrt_sqrt; nra).
  assert (Q : q * q = (m + 2) * (m + 2) + C) by (apply sqrt_sqrt; nra).
  assert (P1 : m + 1 <= p) by (apply Rsqr_incr_0_var; [unfold Rsqr; nra|apply sqrt_pos]).
  assert (Q1 : m + 2 <= q) by (apply Rsqr_incr_0_var; [unfold Rsqr; nra|apply sqrt_pos]).
  assert (PQ : p <= q) by (apply sqrt_le_1_alt; nra).
  rewrite <- Q. apply Rmult_le_reg_r with (2 * (q * q)); [nra|]. unfold Rdiv. rewrite Rmult_assoc, Rinv_l by nra. rewrite Rmult_1_r.
  (* (1 - (q - p)) = ((p - (m+1)) + ... ) *)
  assert (G : (1 - (q - p)) * (q + p) = (p - (m + 1)) + (q - (m + 2))) by nra.
  assert (G1 : C <= (p - (m + 1)) * (2 * q)).
  { replace C with ((p - (m + 1)) * (p + (m + 1))) by nra. apply Rmult_le_compat_l; lra. }
  assert (G2 : C <= (q - (m + 2)) * (2 * q)).
  { replace C with ((q - (m + 2)) * (q + (m + 2))) by nra. apply Rmult_le_compat_l; lra. }
  assert (0 <= 1 - (q - p)).
  { apply Rmult_le_reg_r with (q + p); [lra|]. rewrite Rmult_0_l, G. lra. }
  assert (T : (1 - (q - p)) * (q + p) * q <= (1 - (q - p)) * (2 * q) * q).
  { apply Rmult_le_compat_r; [lra|]. apply Rmult_le_compat_l; lra. }
  rewrite G in T. nra.
Qed.

(** The rounded difference never grows by more than one. *)
Lemma code_step : forall C v, is_double C -> 1 <= C -> (0 <= v)%Z -> (v + 2 <= 2 ^ 14)%Z ->
  code_difference C (v + 1) <= code_difference C v + 1.
Proof.
  intros C v D HC H1 H2.
  destruct (square_bound v (2 ^ 14) H1 ltac:(lia)) as [N1 N2].
  destruct (square_bound (v + 1) (2 ^ 14) ltac:(lia) ltac:(lia)) as [M1 M2].
  assert (N3 : IZR (2 ^ 14) * IZR (2 ^ 14) = two 28) by (rewrite <- mult_IZR; reflexivity). rewrite N3 in *. clear N3.
  pose proof (gap C v ltac:(lra) H1) as G. unfold code_difference.
  replace (v + 1 + 1)%Z with (v + 2)%Z in * by ring.
  revert G. generalize dependent (IZR ((v + 2) ^ 2)). generalize dependent (IZR ((v + 1) ^ 2)). intros n N1 N2 m M1 M2 G.
  assert (L2829 : two 28 < two 29) by (apply bpow_lt; lia).
  destruct (Rle_or_lt (two 84) C) as [L|L].
  - assert (two 2 < two 29) by (apply bpow_lt; lia). change (two 2) with 4 in *. rewrite !(absorbed C) by (auto; lra). lra.
  - assert (K : forall k d, (0 <= k <= 400)%Z -> m + C <= two (2 * k) -> n + C <= two (2 * k) -> 9 / 4 + C <= two (2 * k) ->
        d <= C / (2 * (m + C)) -> 8 * two (k - 53) <= d ->
        RN (RN (sqrt (RN (m + C))) - RN (sqrt (RN (9 / 4 + C)))) <= RN (RN (sqrt (RN (n + C))) - RN (sqrt (RN (9 / 4 + C)))) + 1).
    { intros k d Hk K1 K2 K3 K4 K5.
      destruct (sqrt_error (m + C) k Hk ltac:(lra) K1) as [I1 E1]. destruct (sqrt_error (n + C) k Hk ltac:(lra) K2) as [I2 E2].
      destruct (sqrt_error (9 / 4 + C) k Hk ltac:(lra) K3) as [I3 E3].
      revert I1 E1 I2 E2 I3. clear E3. generalize (RN (sqrt (RN (m + C)))) (RN (sqrt (RN (n + C)))) (RN (sqrt (RN (9 / 4 + C)))).
      intros x y z I1 E1 I2 E2 I3.
      assert (F1 : Rabs (RN (x - z) - (x - z)) <= two (k - 53)) by (apply RN_error; [lia|apply Rabs_le; lra]).
      assert (F2 : Rabs (RN (y - z) - (y - z)) <= two (k - 53)) by (apply RN_error; [lia|apply Rabs_le; lra]).
      pose proof (two_pos (k - 53)). apply Rabs_le_inv in E1, E2, F1, F2. lra. }
    destruct (Rle_or_lt (two 28) C) as [L'|L'].
    + assert (B : m + C <= two 85 /\ n + C <= two 85 /\ 9 / 4 + C <= two 85).
      { replace (two 85) with (2 * two 84) by (change 2 with (two 1) at 1; rewrite <- bpow_plus; reflexivity).
        assert (two 28 < two 84) by (apply bpow_lt; lia). assert (two 2 < two 84) by (apply bpow_lt; lia). change (two 2) with 4 in *. lra. }
      assert (two 85 <= two (2 * 43)) by (apply bpow_le; lia).
      apply (K 43%Z (/ 4)); [lia|lra|lra|lra| |].
      * apply Rmult_le_reg_r with (2 * (m + C)); [lra|]. unfold Rdiv. rewrite Rmult_assoc, Rinv_l by lra. lra.
      * replace (8 * two (43 - 53)) with (two (-7)) by (change 8 with (two 3); rewrite <- bpow_plus; reflexivity).
        change (/ 4) with (two (-2)). apply bpow_le. lia.
    + assert (B : m + C <= two 29 /\ n + C <= two 29 /\ 9 / 4 + C <= two 29).
      { replace (two 29) with (2 * two 28) by (change 2 with (two 1) at 1; rewrite <- bpow_plus; reflexivity).
        assert (two 2 < two 28) by (apply bpow_lt; lia). change (two 2) with 4 in *. lra. }
      assert (two 29 <= two (2 * 15)) by (apply bpow_le; lia).
      apply (K 15%Z (two (-30))); [lia|lra|lra|lra| |].
      * apply Rmult_le_reg_r with (2 * (m + C)); [lra|]. unfold Rdiv. rewrite Rmult_assoc, Rinv_l by lra.
        apply Rle_trans with (two (-30) * (2 * two 29)).
        { apply Rmult_le_compat_l; [apply bpow_ge_0|]. lra. }
        replace (two (-30) * (2 * two 29)) with 1; [lra|].
        rewrite <- (two_S 29), <- bpow_plus. reflexivity.
      * replace (8 * two (15 - 53)) with (two (-35)) by (change 8 with (two 3); rewrite <- bpow_plus; reflexivity). apply bpow_le. lia.
Qed.

(** For [C <= 1] the difference lies well inside an interval between integers. *)
Lemma small_C : forall C v, 0 <= C <= 1 -> (0 <= v)%Z -> (v + 1 <= 2 ^ 14)%Z ->
  IZR v - 1 < code_difference C v < IZR v.
Proof.
  intros C v HC H1 H2. unfold code_difference.
  assert (Hm : 0 <= IZR v) by now apply IZR_le.
  assert (dy : forall j e, (Z.abs j <= 2 ^ 53)%Z -> (-1074 <= e <= 900)%Z -> RN (IZR j * two e) = IZR j * two e) by (intros; now apply RN_double, dyadic_double).
  assert (T : 3 / 2 <= RN (sqrt (RN (9 / 4 + C))) <= 29 / 16).
  { assert (T0 : 9 / 4 <= RN (9 / 4 + C) <= 13 / 4).
    { pose proof (dy 9%Z (-2)%Z ltac:(lia) ltac:(lia)) as E1. pose proof (dy 13%Z (-2)%Z ltac:(lia) ltac:(lia)) as E2.
      change (two (-2)) with (/ 4) in *. change (9 * / 4) with (9 / 4) in *. change (13 * / 4) with (13 / 4) in *.
      split; [rewrite <- E1 at 1|rewrite <- E2]; apply RN_le; lra. }
    pose proof (dy 3%Z (-1)%Z ltac:(lia) ltac:(lia)) as E1. pose proof (dy 29%Z (-4)%Z ltac:(lia) ltac:(lia)) as E2.
    change (two (-1)) with (/ 2) in *. change (two (-4)) with (/ 16) in *. change (3 * / 2) with (3 / 2) in *. change (29 * / 16) with (29 / 16) in *.
    split; [rewrite <- E1 at 1|rewrite <- E2]; apply RN_le.
    - replace (3 / 2) with (sqrt (9 / 4)); [apply sqrt_le_1_alt; lra|]. replace (9 / 4) with (3 / 2 * (3 / 2)) by field. apply sqrt_square. lra.
    - replace (29 / 16) with (sqrt (29 / 16 * (29 / 16))) by (apply sqrt_square; lra). apply sqrt_le_1_alt. lra. }
  set (N := IZR ((v + 1) ^ 2)).
  assert (EN : N = (IZR v + 1) * (IZR v + 1)) by (unfold N; rewrite <- plus_IZR, <- mult_IZR; f_equal; ring).
  assert (RA : N <= RN (N + C) <= N + 1).
  { assert (D1 : RN N = N) by (apply RN_double, int_double; nia).
    assert (D2 : RN (N + 1) = N + 1) by (unfold N; rewrite <- plus_IZR; apply RN_double, int_double; nia).
    split; [rewrite <- D1 at 1|rewrite <- D2]; apply RN_le; lra. }
  assert (LO : IZR v + 1 <= RN (sqrt (RN (N + C)))).
  { assert (D1 : RN (IZR v + 1) = IZR v + 1) by (rewrite <- plus_IZR; apply RN_double, int_double; lia). rewrite <- D1 at 1. apply RN_le.
    replace (IZR v + 1) with (sqrt N); [apply sqrt_le_1_alt; lra|]. rewrite EN. apply sqrt_square. lra. }
  assert (HI : RN (sqrt (RN (N + C))) <= IZR v + 23 / 16).
  { assert (D1 : RN (IZR (16 * v + 23) * two (-4)) = IZR (16 * v + 23) * two (-4)) by (apply dy; lia).
    replace (IZR (16 * v + 23) * two (-4)) with (IZR v + 23 / 16) in D1.
    - rewrite <- D1. apply RN_le. replace (IZR v + 23 / 16) with (sqrt ((IZR v + 23 / 16) * (IZR v + 23 / 16))) by (apply sqrt_square; lra).
      apply sqrt_le_1_alt. nra.
    - rewrite plus_IZR, mult_IZR. change (two (-4)) with (/ 16). lra. }
  generalize dependent (RN (sqrt (RN (N + C)))). generalize dependent (RN (sqrt (RN (9 / 4 + C)))). intros t T s LO HI.
  split.
  - apply Rlt_le_trans with (IZR v - 13 / 16); [lra|].
    assert (D1 : RN (IZR (16 * v - 13) * two (-4)) = IZR (16 * v - 13) * two (-4)) by (apply dy; lia).
    replace (IZR (16 * v - 13) * two (-4)) with (IZR v - 13 / 16) in D1 by (rewrite minus_IZR, mult_IZR; change (two (-4)) with (/ 16); lra).
    rewrite <- D1. apply RN_le. lra.
  - apply Rle_lt_trans with (IZR v - 1 / 16); [|lra].
    assert (D1 : RN (IZR (16 * v - 1) * two (-4)) = IZR (16 * v - 1) * two (-4)) by (apply dy; lia).
    replace (IZR (16 * v - 1) * two (-4)) with (IZR v - 1 / 16) in D1 by (rewrite minus_IZR, mult_IZR; change (two (-4)) with (/ 16); lra).
    rewrite <- D1. apply RN_le. lra.
Qed.
