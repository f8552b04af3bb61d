(** Property C82: what holds in floating-point arithmetic.

    The statements speak of binary64 numbers: [finite x] says that [x] is a
    number, and [real x] is the number it stands for. *)

From Coq Require Import ZArith Reals List Lra Lia.
From Flocq Require Import Core Plus_error Mult_error BinarySingleNaN.
From Verif Require Import PyBase PyFacts Compat Float FloatFacts FloatLambda.
From Verif Require RadialME Settings PropsLambda.
Open Scope Z_scope.

#[local] Instance prec_ok3 : Prec_gt_0 53 := prec_ok.
#[local] Instance vexp3 : Valid_exp (FLT_exp (-1074) 53) := FLT_exp_valid (-1074) 53.

(** ** Specification *)

(** [x] is a double nearest to the real number [r]. *)
Definition nearest (x : double) (r : R) : Prop :=
  finite x = true /\ forall y, finite y = true -> (Rabs (real x - r) <= Rabs (real y - r))%R.

(** Relative distance. *)
Definition within (eps : R) (x : double) (r : R) : Prop :=
  finite x = true /\ (Rabs (real x - r) <= eps * Rabs r)%R.

(** ** Proofs *)

Lemma nearest_RN : forall x r, finite x = true -> real x = RN r -> nearest x r.
Proof.
  intros x r F E. split; [exact F|]. intros y Fy. rewrite E.
  destruct (round_N_pt radix2 (FLT_exp (-1074) 53) (fun n => negb (Z.even n)) r) as [_ H]. apply H. apply real_double.
Qed.

Lemma real_inj_pos : forall x y, (0 < real x)%R -> real x = real y -> x = y.
Proof.
  intros x y P E. apply B2R_inj; [| |exact E].
  - destruct x; try reflexivity; cbn in P; lra.
  - rewrite E in P. destruct y; try reflexivity; cbn in P; lra.
Qed.

Lemma finite_bound : forall x, finite x = true -> (Rabs (real x) < bpow radix2 1024)%R.
Proof. intros x _. apply abs_B2R_lt_emax. Qed.

Definition adjusted (v : Z) (x : R) : Z := if is_odd (Zfloor x - v) then Zfloor x + 1 else Zfloor x.

Lemma davidson_value : forall C v, finite C = true -> (0 <= real C)%R -> 0 <= v -> v + 1 <= 2 ^ 14 ->
  lambda_davi_fun C v = Ok (adjusted v (code_difference (real C) v)).
Proof.
  intros C v F P H1 H2. unfold lambda_davi_fun. replace (require_nonnegint v) with (Ok tt).
  2: { unfold require_nonnegint, raise_if. destruct (Z.ltb_spec v 0); [lia|reflexivity]. }
  cbn [bind]. destruct (of_int_exact ((v + 1) ^ 2)) as (n & -> & Fn & Rn); [nia|]. cbn [bind].
  assert (PL : forall z, finite z = true -> (0 <= real z <= bpow radix2 29)%R ->
            finite (dplus z C) = true /\ real (dplus z C) = RN (real z + real C)).
  { intros z Fz Bz. pose proof (Bplus_correct 53 1024 prec_ok emax_ok mode_NE z C Fz F) as H.
    change (Rlt_bool (Rabs (round radix2 (SpecFloat.fexp 53 1024) (round_mode mode_NE) (B2R z + B2R C))) (bpow radix2 1024))
      with (Rlt_bool (Rabs (RN (real z + real C))) (bpow radix2 1024)) in H.
    assert (L : (Rabs (RN (real z + real C)) < bpow radix2 1024)%R).
    { destruct (Rle_or_lt (bpow radix2 84) (real C)) as [L|L].
      - rewrite absorbed; [now apply finite_bound|apply real_double|exact L|exact Bz].
      - apply Rlt_bool_spec_true_inv || idtac.
        assert (S : small (real z + real C)).
        { unfold small. rewrite Rabs_pos_eq by lra. assert (bpow radix2 29 < bpow radix2 1022)%R by (apply bpow_lt; lia).
          assert (bpow radix2 84 < bpow radix2 1022)%R by (apply bpow_lt; lia). change 1023 with (1022 + 1). rewrite two_S. lra. }
        pose proof (small_RN _ S) as B. destruct (Rlt_bool_spec (Rabs (RN (real z + real C))) (bpow radix2 1024)); [assumption|discriminate]. }
    rewrite (Rlt_bool_true _ _ L) in H. destruct H as (A & B & _). split; assumption. }
  assert (L9 : finite (literal 9 (-2)) = true /\ real (literal 9 (-2)) = (9 / 4)%R).
  { destruct (literal_exact 9 (-2)) as [A B]; [lia|lia|]. split; [exact A|]. rewrite B. reflexivity. }
  destruct L9 as [F9 R9].
  destruct (square_bound v (2 ^ 14) H1 H2) as [N1 N2].
  assert (N3 : (IZR (2 ^ 14) * IZR (2 ^ 14) = bpow radix2 28)%R) by (rewrite <- mult_IZR; reflexivity). rewrite N3 in N2.
  assert (L2829 : (bpow radix2 28 < bpow radix2 29)%R) by (apply bpow_lt; lia).
  destruct (PL n Fn) as [Fa Ra]; [rewrite Rn; lra|].
  destruct (PL _ F9) as [Fb Rb]; [rewrite R9; assert (bpow radix2 2 < bpow radix2 29)%R by (apply bpow_lt; lia); change (bpow radix2 2) with 4%R in *; lra|].
  rewrite Rn in Ra. rewrite R9 in Rb.
  destruct (sqrt_real _ Fa) as (s & -> & Fs & Rs); [rewrite Ra; apply RN_ge_0; lra|]. cbn [bind].
  destruct (sqrt_real _ Fb) as (t & -> & Ft & Rt); [rewrite Rb; apply RN_ge_0; lra|]. cbn [bind].
  assert (SQ : forall x y, finite x = true -> finite y = true -> (0 <= real x)%R -> (real y = RN (sqrt (real x)))%R -> (0 <= real y <= bpow radix2 600)%R).
  { intros x y Fx Fy Px ->. split; [apply RN_ge_0, sqrt_pos|].
    assert (D : is_double (bpow radix2 600)) by (apply generic_format_bpow; unfold FLT_exp; lia).
    rewrite <- (RN_double _ D). apply RN_le.
    replace (bpow radix2 600) with (sqrt (bpow radix2 1200)) by (change 1200 with (600 + 600); rewrite bpow_plus; apply sqrt_square, bpow_ge_0).
    apply sqrt_le_1_alt. pose proof (finite_bound x Fx) as B. rewrite Rabs_pos_eq in B by exact Px.
    assert (bpow radix2 1024 < bpow radix2 1200)%R by (apply bpow_lt; lia). lra. }
  pose proof (SQ _ s Fa Fs ltac:(rewrite Ra; apply RN_ge_0; lra) Rs) as Bs.
  pose proof (SQ _ t Fb Ft ltac:(rewrite Rb; apply RN_ge_0; lra) Rt) as Bt.
  destruct (minus_small s t Fs Ft) as [Fd Rd].
  { unfold small. apply Rabs_le. assert (bpow radix2 600 < bpow radix2 1023)%R by (apply bpow_lt; lia). lra. }
  rewrite (floor_real _ Fd). cbn [bind]. unfold adjusted.
  replace (real (dminus s t)) with (code_difference (real C) v); [reflexivity|].
  unfold code_difference. rewrite Rd, Rs, Rt, Ra, Rb. reflexivity.
Qed.

Lemma odd_even : forall n, is_odd n = negb (Z.even n).
Proof. intros n. unfold is_odd. pose proof (Zmod_even n) as H. destruct (Z.even n); rewrite H; reflexivity. Qed.

Lemma adjusted_parity : forall d v, Z.even (if is_odd (d - v) then d + 1 else d) = Z.even v.
Proof.
  intros d v. rewrite odd_even, Z.even_sub. destruct (Z.even d) eqn:E, (Z.even v) eqn:E'; cbn; rewrite ?Z.even_add, ?E; reflexivity.
Qed.

Theorem C82_davidson_parity : forall C v d, lambda_davi_fun C v = Ok d -> Z.even d = Z.even v.
Proof.
  intros C v d. unfold lambda_davi_fun.
  destruct (require_nonnegint v); cbn [bind]; [|discriminate].
  destruct (of_int _); cbn [bind]; [|discriminate]. destruct (dsqrt _); cbn [bind]; [|discriminate].
  destruct (dsqrt _); cbn [bind]; [|discriminate]. destruct (dfloor _); cbn [bind]; [|discriminate].
  intros E. injection E as <-. apply adjusted_parity.
Qed.

Lemma adjusted_near : forall v x, (Rabs (IZR (adjusted v x) - x) <= 1)%R.
Proof.
  intros v x. unfold adjusted. pose proof (Zfloor_lb x). pose proof (Zfloor_ub x). apply Rabs_le.
  destruct (is_odd _); rewrite ?plus_IZR; lra.
Qed.

Theorem C82_davidson : forall C v, finite C = true -> (0 <= real C)%R -> 0 <= v < 2 ^ 14 ->
  exists d, lambda_davi_fun C v = Ok d /\
    (Rabs (IZR d - (sqrt ((IZR v + 1) ^ 2 + real C) - sqrt (9 / 4 + real C))) <= 1 + / 128)%R.
Proof.
  intros C v F P H. eexists. split; [apply davidson_value; auto; lia|].
  pose proof (adjusted_near v (code_difference (real C) v)) as A.
  pose proof (difference_close (real C) v (real_double C) P ltac:(lia) ltac:(lia)) as B.
  unfold exact_difference in B. replace (IZR ((v + 1) ^ 2)) with ((IZR v + 1) ^ 2)%R in B.
  - change (bpow radix2 (-7)) with (/ 128)%R in B. apply Rabs_le_inv in A, B. apply Rabs_le. lra.
  - rewrite <- plus_IZR. cbn [pow]. rewrite Rmult_1_r, <- mult_IZR. f_equal. ring.
Qed.

Lemma adjusted_step : forall v x y, (x <= y)%R -> (y <= x + 1)%R -> Z.abs (adjusted (v + 1) y - adjusted v x) = 1.
Proof.
  intros v x y L U. assert (A : Zfloor x <= Zfloor y) by now apply Zfloor_le.
  assert (B : Zfloor y <= Zfloor x + 1).
  { rewrite <- (Zfloor_IZR (Zfloor x + 1)). assert (M : (y < IZR (Zfloor x + 1) + 1)%R) by (rewrite plus_IZR; pose proof (Zfloor_ub x); lra).
    assert (M' : (IZR (Zfloor y) < IZR (Zfloor x + 1 + 1))%R) by (rewrite plus_IZR; pose proof (Zfloor_lb y); lra).
    apply lt_IZR in M'. rewrite Zfloor_IZR. lia. }
  unfold adjusted. rewrite !odd_even, !Z.even_sub, Z.even_add. change (Z.even 1) with false.
  assert (Zfloor y = Zfloor x \/ Zfloor y = Zfloor x + 1) as [-> | ->] by lia;
    rewrite ?Z.even_add; change (Z.even 1) with false; destruct (Z.even (Zfloor x)), (Z.even v); cbn; lia.
Qed.

Lemma adjusted_v : forall v x, (IZR v - 1 <= x < IZR v)%R -> adjusted v x = v.
Proof.
  intros v x H. unfold adjusted. replace (Zfloor x) with (v - 1).
  - replace (v - 1 - v) with (-1) by ring. cbn. ring.
  - symmetry. apply Zfloor_imp. rewrite plus_IZR, minus_IZR. lra.
Qed.

Theorem C82_davidson_steps : forall C v, finite C = true -> (0 <= real C)%R -> 0 <= v -> v + 1 < 2 ^ 14 ->
  exists d d', lambda_davi_fun C v = Ok d /\ lambda_davi_fun C (v + 1) = Ok d' /\ Z.abs (d' - d) = 1 /\ (v = 0 -> d = 0).
Proof.
  intros C v F P H1 H2. do 2 eexists. split; [apply davidson_value; auto; lia|]. split; [apply davidson_value; auto; lia|].
  destruct (Rle_or_lt (real C) 1) as [L|L].
  - pose proof (small_C (real C) v (conj P L) H1 ltac:(lia)) as A.
    pose proof (small_C (real C) (v + 1) (conj P L) ltac:(lia) ltac:(lia)) as B. rewrite (adjusted_v v), (adjusted_v (v + 1)) by lra. lia.
  - split; [apply adjusted_step|].
    + apply code_monotone. lia.
    + apply code_step; [apply real_double|lra|lia|lia].
    + intros ->. pose proof (difference_close (real C) 0 (real_double C) P ltac:(lia) ltac:(lia)) as B.
      assert (U : (code_difference (real C) 0 <= 0)%R).
      { unfold code_difference. rewrite <- RN_0. apply RN_le. apply Rle_minus. apply RN_le, sqrt_le_1_alt, RN_le. cbn. lra. }
      assert (E : (- (1 / 2) <= exact_difference (real C) 0)%R).
      { unfold exact_difference. replace (IZR ((0 + 1) ^ 2)) with 1%R by reflexivity.
        assert (sqrt (9 / 4 + real C) <= sqrt (1 + real C) + 1 / 2)%R; [|lra].
        pose proof (sqrt_pos (1 + real C)). pose proof (sqrt_sqrt (1 + real C) ltac:(lra)).
        assert (1 <= sqrt (1 + real C))%R by (pose proof (sqrt_le_1_alt 1 (1 + real C)) as Q1; rewrite sqrt_1 in Q1; apply Q1; lra).
        rewrite <- (sqrt_square (sqrt (1 + real C) + 1 / 2)) by lra. apply sqrt_le_1_alt. nra. }
      change (bpow radix2 (-7)) with (/ 128)%R in B. apply Rabs_le_inv in B. revert B E U.
      generalize (code_difference (real C) 0) (exact_difference (real C) 0). intros x y B E U.
      destruct (Req_dec x 0) as [->|N]; [unfold adjusted; rewrite (Zfloor_IZR 0); reflexivity|].
      apply adjusted_v. lra.
Qed.

(** [ACM_test_lambda_fun], run on the function as computed in floating point. *)
Theorem C82_davidson_test : forall C s vmin vmax, finite C = true -> (0 <= real C)%R ->
  0 <= vmin < 2 ^ 14 -> 0 <= vmax < 2 ^ 14 ->
  Settings.ACM_test_lambda_fun vmin vmax (Settings.w_lam_fun (lambda_davi_fun C) s) = Ok true.
Proof.
  intros C s vmin vmax F P H1 H2. unfold Settings.ACM_test_lambda_fun, require_nonnegint, raise_if.
  destruct (Z.ltb_spec vmin 0); [lia|]. destruct (Z.ltb_spec vmax 0); [lia|]. cbn [bind].
  change (Settings.g_lam_fun (Settings.w_lam_fun (lambda_davi_fun C) s)) with (lambda_davi_fun C).
  set (g := fun v => adjusted v (code_difference (real C) v)).
  assert (G : forall v, 0 <= v < 2 ^ 14 -> lambda_davi_fun C v = Ok (g v)) by (intros; apply davidson_value; auto; lia).
  rewrite G by lia. cbn [bind].
  destruct (Z_le_gt_dec vmin vmax); [|rewrite py_range_nil by lia; reflexivity].
  destruct (PropsLambda.test_loop_ok (lambda_davi_fun C) g (Z.to_nat (vmax - vmin)) vmin) as (b & E & Hb);
    [intros u Hu; apply G; lia|].
  replace (vmax + 1) with (vmin + 1 + Z.of_nat (Z.to_nat (vmax - vmin))) by lia. rewrite E. f_equal. apply Hb.
  intros v Hv. destruct (C82_davidson_steps C v F P ltac:(lia) ltac:(lia)) as (d & d' & E1 & E2 & A & _).
  rewrite G in E1 by lia. rewrite G in E2 by lia. injection E1 as ->. injection E2 as ->. exact A.
Qed.

(** It is not always the value of exact arithmetic: just above C = 6.015625 the
    rounded difference is 1, the exact one less. *)
Definition crossing : double := literal 6772991627100161 (-50).

Theorem C82_davidson_exact_refuted : ~ forall C v, finite C = true -> (0 <= real C)%R -> 0 <= v < 2 ^ 14 ->
  lambda_davi_fun C v = Settings.lambda_davi_fun (real C) v.
Proof.
  intros H. destruct (literal_exact 6772991627100161 (-50)) as [F E]; [lia|lia|]. fold crossing in F, E.
  specialize (H crossing 2 F). rewrite E in H.
  assert (V : lambda_davi_fun crossing 2 = Ok 2) by (vm_compute; reflexivity). rewrite V in H.
  assert (B : (bpow radix2 (-50) = / IZR (2 ^ 50))%R) by reflexivity. rewrite B in H.
  set (c := (IZR 6772991627100161 * / IZR (2 ^ 50))%R) in *.
  assert (C : (385 / 64 < c < 7)%R).
  { unfold c. change (IZR (2 ^ 50)) with 1125899906842624%R. lra. }
  unfold Settings.lambda_davi_fun in H.
  assert (Q : Ok 2 = Ok 0); [|discriminate Q].
  rewrite H by (lra || lia). clear H V E F B. clearbody c.
  change (require_nonnegint 2) with (Ok tt). cbn [bind].
  replace (IZR ((2 + 1) ^ 2)) with 9%R by reflexivity.
  unfold Settings.math_sqrt.
  destruct (Rlt_dec (9 + c) 0); [lra|]. destruct (Rlt_dec (2.25 + c) 0); [lra|]. cbn [bind].
  replace (Int_part _) with 0; [reflexivity|].
  set (x := (sqrt (9 + c) - sqrt (2.25 + c))%R).
  assert (S : (23 / 8 < sqrt (2.25 + c))%R) by (rewrite <- (sqrt_square (23 / 8)) by lra; apply sqrt_lt_1_alt; lra).
  pose proof (sqrt_sqrt (2.25 + c) ltac:(lra)) as SS.
  assert (X : (0 < x < 1)%R).
  { unfold x. split; [apply Rlt_Rminus, sqrt_lt_1_alt; lra|].
    assert (sqrt (9 + c) < 1 + sqrt (2.25 + c))%R; [|lra].
    rewrite <- (sqrt_square (1 + sqrt (2.25 + c))) by lra. apply sqrt_lt_1_alt. nra. }
  pose proof (base_Int_part x) as [B1 B2].
  assert (0 <= Int_part x < 1); [|lia]. split.
  - apply Zlt_succ_le, lt_IZR. rewrite succ_IZR. lra.
  - apply lt_IZR. lra.
Qed.

(** A parameter that is not a number, is infinite or is too negative is refused. *)
Theorem C82_davidson_refused : forall C v, 0 <= v < 2 ^ 14 ->
  finite C = false \/ (real C < - (9 / 4))%R -> lambda_davi_fun C v = Raise ValueError.
Proof.
  intros C v Hv H. unfold lambda_davi_fun. replace (require_nonnegint v) with (Ok tt).
  2: { unfold require_nonnegint, raise_if. destruct (Z.ltb_spec v 0); [lia|reflexivity]. }
  cbn [bind]. destruct (of_int_exact ((v + 1) ^ 2)) as (n & -> & Fn & Rn); [nia|]. cbn [bind].
  destruct (literal_exact 9 (-2)) as [F9 R9]; [lia|lia|]. change (IZR 9 * bpow radix2 (-2))%R with (9 / 4)%R in R9.
  revert F9 R9. generalize (literal 9 (-2)). intros l Fl Rl. destruct (finite C) eqn:F.
  - destruct H as [H|H]; [discriminate|].
    assert (E : dsqrt (dplus l C) = Raise ValueError).
    { assert (L : (Rabs (RN (real l + real C)) < bpow radix2 1024)%R).
      { rewrite Rabs_left1; [|rewrite <- RN_0; apply RN_le; rewrite Rl; lra].
        apply Rle_lt_trans with (- real C)%R.
        - apply Ropp_le_contravar. rewrite <- (RN_double _ (real_double C)) at 1. apply RN_le. rewrite Rl. lra.
        - pose proof (finite_bound C F) as B. rewrite Rabs_left1 in B by lra. exact B. }
      pose proof (Bplus_correct 53 1024 prec_ok emax_ok mode_NE l C Fl F) as A.
      change (Rlt_bool (Rabs (round radix2 (SpecFloat.fexp 53 1024) (round_mode mode_NE) (B2R l + B2R C))) (bpow radix2 1024))
        with (Rlt_bool (Rabs (RN (real l + real C))) (bpow radix2 1024)) in A.
      rewrite (Rlt_bool_true _ _ L) in A. destruct A as (A & B & _).
      unfold dsqrt. replace (dlt (dplus l C) (literal 0 0)) with true; [reflexivity|]. symmetry.
      change (dlt (dplus l C) (literal 0 0)) with (dlt (dplus l C) (literal 0 0)). rewrite (zero_lt (dplus l C) B). apply Rlt_bool_true. change (real (dplus l C)) with (B2R (dplus l C)). unfold dplus. rewrite A.
      assert (N : RN (real l + real C) <> 0%R).
      { apply (round_plus_neq_0 radix2 (FLT_exp (-1074) 53)); auto with typeclass_instances; [apply real_double|apply real_double|]. unfold real in *. lra. }
      assert (U : (RN (real l + real C) <= 0)%R) by (rewrite <- RN_0; apply RN_le; unfold real in *; lra).
      unfold RN, real in *. destruct U as [U|U]; [exact U|contradiction]. }
    rewrite E. cbn [bind]. unfold dsqrt. destruct (dlt _ _); reflexivity.
  - clear H Rn Rl. destruct C as [s|[|]| |s m e w]; try discriminate F;
      destruct n as [sn|sn| |sn mn en wn]; try discriminate Fn; destruct l as [sl|sl| |sl ml el wl]; try discriminate Fl; reflexivity.
Qed.

(** ** Symmetrising a matrix before diagonalising it *)

Lemma two_literal : finite (literal 2 0) = true /\ real (literal 2 0) = 2%R.
Proof. destruct (literal_exact 2 0) as [A B]; [lia|lia|]. split; [exact A|]. rewrite B. cbn. ring. Qed.

Lemma double_twice : forall x, is_double x -> is_double (2 * x).
Proof.
  intros x H. unfold is_double in *. apply FLT_format_generic in H; [|exact prec_ok]. destruct H as [f E B1 B2].
  apply generic_format_FLT. exists (Float radix2 (Fnum f) (Fexp f + 1)); cbn [Fnum Fexp]; [|exact B1|lia].
  rewrite E. unfold F2R. cbn [Fnum Fexp]. rewrite two_S. ring.
Qed.

Lemma average : forall a b, finite a = true -> finite b = true ->
  (Rabs (real a) <= bpow radix2 1022)%R -> (Rabs (real b) <= bpow radix2 1022)%R ->
  nearest (ddiv (dplus a b) (literal 2 0)) ((real a + real b) / 2).
Proof.
  intros a b Fa Fb Ba Bb. destruct two_literal as [F2 R2].
  assert (S : small (real a + real b)).
  { unfold small. change 1023 with (1022 + 1). rewrite two_S. pose proof (Rabs_triang (real a) (real b)). lra. }
  destruct (plus_small a b Fa Fb S) as [Fp Rp].
  assert (SR : (Rabs (RN (real a + real b)) <= bpow radix2 1023)%R).
  { apply abs_round_le_generic; auto with typeclass_instances. apply generic_format_bpow. unfold FLT_exp. lia. }
  destruct (div_small (dplus a b) (literal 2 0) Fp) as [Fd Rd].
  { rewrite R2. lra. }
  { unfold small. rewrite R2, Rp. unfold Rdiv. rewrite Rabs_mult, (Rabs_pos_eq (/ 2)) by lra. pose proof (Rabs_pos (RN (real a + real b))). lra. }
  rewrite R2, Rp in Rd. set (x := (real a + real b)%R) in *.
  destruct (Rle_or_lt (bpow radix2 (-1021)) (Rabs (RN x))) as [L|L].
  - assert (D : is_double (RN x / 2)).
    { unfold Rdiv, is_double. change (/ 2)%R with (bpow radix2 (-1)).
      apply mult_bpow_exact_FLT; [apply RN_is_double|]. apply (mag_ge_bpow radix2 (RN x) (-1020)) in L. lia. }
    rewrite (RN_double _ D) in Rd. split; [exact Fd|]. intros y Fy. rewrite Rd.
    replace (RN x / 2 - x / 2)%R with ((RN x - x) * / 2)%R by field. rewrite Rabs_mult, (Rabs_pos_eq (/ 2)) by lra.
    destruct (round_N_pt radix2 (FLT_exp (-1074) 53) (fun n => negb (Z.even n)) x) as [_ H].
    specialize (H (2 * real y)%R (double_twice _ (real_double y))). unfold RN, ZnearestE in *.
    replace (real y - x / 2)%R with ((2 * real y - x) * / 2)%R by field. rewrite Rabs_mult, (Rabs_pos_eq (/ 2)) by lra. lra.
  - assert (D : is_double x).
    { unfold x. apply FLT_format_plus_small; [exact prec_ok|apply real_double|apply real_double|]. fold x.
      destruct (Rle_or_lt (Rabs x) (bpow radix2 (53 + -1074))) as [M|M]; [exact M|]. exfalso.
      assert (bpow radix2 (-1021) <= Rabs (RN x))%R; [|lra].
      apply abs_round_ge_generic; auto with typeclass_instances; [|change (53 + -1074)%Z with (-1021)%Z in M; lra].
      apply generic_format_bpow. unfold FLT_exp. lia. }
    apply nearest_RN; [exact Fd|]. rewrite Rd, (RN_double _ D). reflexivity.
Qed.

(** A square matrix reaches the solver with every entry bit for bit equal to its
    mirror image and nearest to the mean of the two; any other is refused. *)
Theorem C82_symmetrised : forall A (eigh : darray -> res A) H,
  if d_rows H =? d_cols H then
    exists S, Eigenfiddle eigh H = eigh S /\ d_rows S = d_rows H /\ d_cols S = d_cols H /\
      (forall i j, d_item S i j = d_item S j i) /\
      (forall i j, finite (d_item H i j) = true -> finite (d_item H j i) = true ->
         (Rabs (real (d_item H i j)) <= bpow radix2 1022)%R -> (Rabs (real (d_item H j i)) <= bpow radix2 1022)%R ->
         nearest (d_item S i j) ((real (d_item H i j) + real (d_item H j i)) / 2) /\
         (d_item H i j = d_item H j i -> d_item S i j = d_item H i j))
  else Eigenfiddle eigh H = Raise ValueError.
Proof.
  intros A eigh H. unfold Eigenfiddle. destruct (d_rows H =? d_cols H); cbn [negb raise_if bind]; [|reflexivity].
  eexists. split; [reflexivity|]. cbn [d_rows d_cols d_item]. split; [reflexivity|]. split; [reflexivity|].
  split; [intros i j; f_equal; apply plus_comm|]. intros i j Fa Fb Ba Bb. split; [now apply average|].
  intros E. rewrite <- E in *. generalize dependent (d_item H i j). intros a _ Fa Ba _ _.
  destruct two_literal as [F2 R2].
  destruct (Req_dec (real a) 0) as [Z0|NZ].
  { destruct a as [s| | |s m e w]; try discriminate Fa; [destruct s; reflexivity|]. exfalso.
    unfold real, B2R in Z0. apply eq_0_F2R in Z0. destruct s; discriminate Z0. }
  assert (S : small (real a + real a)).
  { unfold small. change 1023 with (1022 + 1). rewrite two_S. pose proof (Rabs_triang (real a) (real a)). lra. }
  destruct (plus_small a a Fa Fa S) as [Fp Rp].
  assert (D : is_double (real a + real a)).
  { replace (real a + real a)%R with (2 * real a)%R by ring. apply double_twice, real_double. }
  rewrite (RN_double _ D) in Rp.
  assert (Q : (real (dplus a a) / real (literal 2 0) = real a)%R) by (rewrite R2, Rp; field).
  destruct (div_small (dplus a a) (literal 2 0) Fp) as [Fd Rd]; [rewrite R2; lra| |].
  { rewrite Q. unfold small. assert (bpow radix2 1022 < bpow radix2 1023)%R by (apply bpow_lt; lia). lra. }
  rewrite Q, (RN_double _ (real_double a)) in Rd.
  apply B2R_inj; [| |exact Rd].
  - generalize dependent (ddiv (dplus a a) (literal 2 0)). intros d _ Rd. destruct d; try reflexivity; cbn in Rd; lra.
  - destruct a; try reflexivity; cbn in NZ; lra.
Qed.

(** ** Displayed energies *)

Theorem C82_shown : forall low sft v w, finite low = true -> finite v = true -> finite w = true -> (0 < real sft)%R ->
  (real low <= real v)%R -> (real v <= real w)%R ->
  finite (shown_eigenvalue v low sft) = true -> finite (shown_eigenvalue w low sft) = true ->
  real (shown_eigenvalue low low sft) = 0%R /\
  (0 <= real (shown_eigenvalue v low sft) <= real (shown_eigenvalue w low sft))%R.
Proof.
  intros low sft v w Fl Fv Fw P L1 L2 F1 F2. unfold shown_eigenvalue in *.
  destruct (div_real _ _ F1 ltac:(lra)) as [G1 R1]. destruct (div_real _ _ F2 ltac:(lra)) as [G2 R2].
  rewrite (minus_real _ _ G1 Fv Fl) in R1. rewrite (minus_real _ _ G2 Fw Fl) in R2.
  assert (I : (0 < / real sft)%R) by now apply Rinv_0_lt_compat.
  split.
  - destruct (minus_small low low Fl Fl) as [A B].
    { unfold small. replace (real low - real low)%R with 0%R by ring. rewrite Rabs_R0. apply bpow_ge_0. }
    replace (real low - real low)%R with 0%R in B by ring. rewrite RN_0 in B.
    destruct (div_small (dminus low low) sft A) as [_ C]; [lra| |].
    + rewrite B. unfold small, Rdiv. rewrite Rmult_0_l, Rabs_R0. apply bpow_ge_0.
    + rewrite C, B. unfold Rdiv. rewrite Rmult_0_l. apply RN_0.
  - rewrite R1, R2. split.
    + apply RN_ge_0. apply Rmult_le_pos; [|lra]. apply RN_ge_0. lra.
    + apply RN_le. apply Rmult_le_compat_r; [lra|]. apply RN_le. lra.
Qed.

(** A difference of doubles has no underflow error. *)
Lemma minus_relative : forall x y, is_double x -> is_double y ->
  exists eps, (Rabs eps <= bpow radix2 (-53))%R /\ RN (x - y) = ((x - y) * (1 + eps))%R.
Proof.
  intros x y Hx Hy. destruct (Rle_or_lt (bpow radix2 (-1022)) (Rabs (x - y))) as [L|L].
  - now apply RN_relative.
  - exists 0%R. split; [rewrite Rabs_R0; apply bpow_ge_0|]. rewrite RN_double; [ring|].
    apply (FLT_format_plus_small radix2 (-1074) 53 x (- y)); [exact Hx|now apply generic_format_opp|].
    apply Rlt_le, Rlt_trans with (1 := L). apply bpow_lt. lia.
Qed.

Lemma u_small : (0 < bpow radix2 (-53) <= / 1000000)%R.
Proof. split; [apply bpow_gt_0|]. change (bpow radix2 (-53)) with (/ IZR (2 ^ 53))%R. apply Rinv_le; [lra|]. apply IZR_le. lia. Qed.

Theorem C82_shown_accuracy : forall low sft v, finite low = true -> finite v = true -> (0 < real sft)%R ->
  finite (shown_eigenvalue v low sft) = true ->
  v = low \/ (bpow radix2 (-1000) <= Rabs ((real v - real low) / real sft))%R ->
  within (bpow radix2 (-51)) (shown_eigenvalue v low sft) ((real v - real low) / real sft).
Proof.
  intros low sft v Fl Fv P F H. split; [exact F|]. unfold shown_eigenvalue in *.
  destruct (div_real _ _ F ltac:(lra)) as [G R1]. rewrite (minus_real _ _ G Fv Fl) in R1. rewrite R1. clear R1.
  destruct H as [->|H].
  { replace (real low - real low)%R with 0%R by ring. rewrite RN_0. unfold Rdiv. rewrite Rmult_0_l, RN_0, Rminus_0_r, Rabs_R0. lra. }
  destruct (minus_relative _ _ (real_double v) (real_double low)) as (e & He & ->).
  pose proof u_small as U. set (u := bpow radix2 (-53)) in *. set (q := ((real v - real low) / real sft)%R) in *.
  replace ((real v - real low) * (1 + e) / real sft)%R with (q * (1 + e))%R by (unfold q; field; lra).
  apply Rabs_le_inv in He.
  destruct (RN_relative (q * (1 + e))) as (e' & He' & ->).
  { rewrite Rabs_mult, (Rabs_pos_eq (1 + e)) by lra. assert (bpow radix2 (-1000) = 2 * bpow radix2 (-1001))%R by exact (two_S (-1001)).
    assert (bpow radix2 (-1022) < bpow radix2 (-1001))%R by (apply bpow_lt; lia). pose proof (bpow_gt_0 radix2 (-1001)). nra. }
  fold u in He'. apply Rabs_le_inv in He'.
  replace (q * (1 + e) * (1 + e') - q)%R with (q * (e + e' + e * e'))%R by ring. rewrite Rabs_mult, Rmult_comm.
  apply Rmult_le_compat_r; [apply Rabs_pos|]. replace (bpow radix2 (-51)) with (4 * u)%R.
  2: { unfold u. change (-51) with (-53 + 1 + 1). rewrite !two_S. ring. }
  apply Rabs_le. nra.
Qed.

(** The scale factor that makes the energy of the reference state [fit] does so up
    to rounding; to any number of decimals that [fit] was given with, exactly. *)
Theorem C82_adapted : forall val low fit, finite val = true -> finite low = true -> finite fit = true ->
  (real low < real val)%R -> (bpow radix2 (-900) <= real fit <= bpow radix2 900)%R ->
  (bpow radix2 (-1000) <= (real val - real low) / real fit)%R ->
  finite (adapted_factor val low fit) = true ->
  within (bpow radix2 (-51)) (shown_eigenvalue val low (adapted_factor val low fit)) (real fit) /\
  forall N p, 0 < N <= 2 ^ 48 -> 0 <= p <= 300 -> nearest fit (IZR N / IZR (10 ^ p)) ->
    (Rabs (real (shown_eigenvalue val low (adapted_factor val low fit)) * IZR (10 ^ p) - IZR N) < 1 / 2)%R.
Proof.
  intros val low fit Fv Fl Ff Hlt Hfit Hq F. unfold shown_eigenvalue, adapted_factor in *.
  assert (P : (0 < real fit)%R) by (pose proof (bpow_gt_0 radix2 (-900)); lra).
  destruct (div_real _ _ F ltac:(lra)) as [G Rf]. rewrite (minus_real _ _ G Fv Fl) in Rf.
  destruct (minus_relative _ _ (real_double val) (real_double low)) as (e & He & Rm).
  rewrite Rm in Rf. pose proof u_small as U. set (u := bpow radix2 (-53)) in *.
  set (f := ddiv (dminus val low) fit) in *. set (d := (real val - real low)%R) in *.
  assert (Rd : real (dminus val low) = (d * (1 + e))%R) by (rewrite (minus_real _ _ G Fv Fl); exact Rm).
  apply Rabs_le_inv in He. set (d' := (d * (1 + e))%R) in *.
  assert (Pd : (0 < d)%R) by (unfold d; lra). assert (Pd' : (0 < d')%R) by (unfold d'; nra).
  assert (E1001 : (bpow radix2 (-1000) = 2 * bpow radix2 (-1001))%R) by exact (two_S (-1001)).
  assert (L1001 : (0 < bpow radix2 (-1022) < bpow radix2 (-1001))%R) by (split; [apply bpow_gt_0|apply bpow_lt; lia]).
  destruct (RN_relative (d' / real fit)) as (e1 & He1 & Re1).
  { unfold d'. replace (d * (1 + e) / real fit)%R with (d / real fit * (1 + e))%R by (field; lra).
    rewrite Rabs_pos_eq by nra. nra. }
  rewrite Re1 in Rf. fold u in He1. apply Rabs_le_inv in He1.
  assert (Pf : (0 < real f)%R).
  { rewrite Rf. apply Rmult_lt_0_compat; [apply Rdiv_lt_0_compat; lra|lra]. }
  assert (Q : (real (dminus val low) / real f = real fit * / (1 + e1))%R) by (rewrite Rd, Rf; field; lra).
  assert (I1 : (1 - 2 * u <= / (1 + e1) <= 1 + 2 * u)%R).
  { split.
    - apply (Rmult_le_reg_r (1 + e1)); [lra|]. rewrite Rinv_l by lra. nra.
    - apply (Rmult_le_reg_r (1 + e1)); [lra|]. rewrite Rinv_l by lra. nra. }
  assert (QB : (bpow radix2 (-1022) <= real fit * / (1 + e1) <= bpow radix2 1023)%R).
  { assert (bpow radix2 (-900) = 2 * bpow radix2 (-901))%R by exact (two_S (-901)).
    assert (bpow radix2 (-1022) < bpow radix2 (-901))%R by (apply bpow_lt; lia).
    assert (2 * bpow radix2 900 = bpow radix2 901)%R by (symmetry; exact (two_S 900)).
    assert (bpow radix2 901 < bpow radix2 1023)%R by (apply bpow_lt; lia).
    pose proof (bpow_gt_0 radix2 900). pose proof (bpow_gt_0 radix2 (-901)). split; nra. }
  destruct (div_small (dminus val low) f G) as [Fs Rs]; [lra| |].
  { rewrite Q. unfold small. rewrite Rabs_pos_eq; [lra|]. pose proof (bpow_gt_0 radix2 (-1022)). lra. }
  rewrite Q in Rs. destruct (RN_relative (real fit * / (1 + e1))) as (e2 & He2 & Re2).
  { rewrite Rabs_pos_eq; [lra|]. pose proof (bpow_gt_0 radix2 (-1022)). lra. }
  rewrite Re2 in Rs. fold u in He2. apply Rabs_le_inv in He2.
  assert (U4 : bpow radix2 (-51) = (4 * u)%R).
  { unfold u. change (-51) with (-53 + 1 + 1). rewrite !two_S. ring. }
  assert (W : (Rabs (real (ddiv (dminus val low) f) - real fit) <= bpow radix2 (-51) * real fit)%R).
  { rewrite U4, Rs. set (k := (/ (1 + e1))%R) in *.
    replace (real fit * k * (1 + e2) - real fit)%R with (real fit * (k * (1 + e2) - 1))%R by ring.
    rewrite Rabs_mult, Rabs_pos_eq, Rmult_comm by lra. apply Rmult_le_compat_r; [lra|]. apply Rabs_le. nra. }
  split; [split; [exact Fs|]; rewrite (Rabs_pos_eq (real fit)) by lra; exact W|].
  intros N p HN Hp [_ HX]. set (s := real (ddiv (dminus val low) f)) in *.
  assert (PN : (1 <= IZR N)%R) by (apply IZR_le; lia).
  assert (PT : (1 <= IZR (10 ^ p))%R) by (apply IZR_le; lia).
  assert (UT : (IZR (10 ^ p) <= bpow radix2 1000)%R).
  { change (bpow radix2 1000) with (IZR (2 ^ 1000)). apply IZR_le. transitivity (10 ^ 300); [apply Z.pow_le_mono_r; lia|]. vm_compute. discriminate. }
  set (T := IZR (10 ^ p)) in *. set (x := (IZR N / T)%R) in *.
  assert (TX : (T * x = IZR N)%R) by (unfold x; field; lra).
  assert (LX : (bpow radix2 (-1000) <= x)%R).
  { unfold x, Rdiv. change (-1000) with (- (1000)). rewrite bpow_opp. rewrite <- (Rmult_1_l (/ _)).
    apply Rmult_le_compat; [lra|left; apply Rinv_0_lt_compat, bpow_gt_0|exact PN|apply Rinv_le; lra]. }
  assert (PX : (0 < x)%R) by (pose proof (bpow_gt_0 radix2 (-1000)); lra).
  assert (EX : (Rabs (real fit - x) <= u * x)%R).
  { destruct (RN_relative x) as (e3 & He3 & Re3); [rewrite Rabs_pos_eq by lra; lra|].
    assert (FN : exists y, finite y = true /\ real y = RN x).
    { assert (H9 : generic_format radix2 (FLT_exp (-1074) 53) (RN x)) by apply RN_is_double.
      exists (@binary_normalize 53 1024 prec_ok emax_ok mode_NE
                (Ztrunc (scaled_mantissa radix2 (FLT_exp (-1074) 53) (RN x))) (cexp radix2 (FLT_exp (-1074) 53) (RN x)) false).
      pose proof (binary_normalize_correct 53 1024 prec_ok emax_ok mode_NE
                (Ztrunc (scaled_mantissa radix2 (FLT_exp (-1074) 53) (RN x))) (cexp radix2 (FLT_exp (-1074) 53) (RN x)) false) as K.
      cbv zeta in K. rewrite <- H9 in K.
      change (round radix2 (SpecFloat.fexp 53 1024) (round_mode mode_NE) (RN x)) with (RN (RN x)) in K.
      rewrite (RN_double _ H9) in K. rewrite small_RN in K.
      - destruct K as (K1 & K2 & _). split; [exact K2|exact K1].
      - unfold small. rewrite Rabs_pos_eq by lra. apply Rle_trans with (bpow radix2 48); [|apply bpow_le; lia].
        unfold x. apply Rle_trans with (IZR N); [|change (bpow radix2 48) with (IZR (2 ^ 48)); apply IZR_le; lia].
        apply (Rmult_le_reg_r T); [lra|]. unfold Rdiv. rewrite Rmult_assoc, Rinv_l by lra. nra. }
    destruct FN as (y & Fy & Ry). specialize (HX y Fy). rewrite Ry, Re3 in HX.
    replace (x * (1 + e3) - x)%R with (x * e3)%R in HX by ring. rewrite Rabs_mult, (Rabs_pos_eq x) in HX by lra. fold u in He3. nra. }
  apply Rabs_le_inv in W. rewrite U4 in W. apply Rabs_le_inv in EX.
  assert (UN : (u * IZR N <= / 32)%R).
  { apply Rle_trans with (u * bpow radix2 48)%R.
    - apply Rmult_le_compat_l; [lra|]. change (bpow radix2 48) with (IZR (2 ^ 48)). apply IZR_le. lia.
    - unfold u. rewrite <- bpow_plus. change (-53 + 48) with (-5). change (bpow radix2 (-5)) with (/ 32)%R. lra. }
  rewrite <- TX. replace (s * T - T * x)%R with (T * (s - x))%R by ring. rewrite Rabs_mult, (Rabs_pos_eq T) by lra.
  assert (SX : (Rabs (s - x) <= 6 * (u * x))%R) by (apply Rabs_le; nra).
  apply Rle_lt_trans with (T * (6 * (u * x)))%R; [apply Rmult_le_compat_l; lra|].
  replace (T * (6 * (u * x)))%R with (6 * (u * (T * x)))%R by ring. rewrite TX. lra.
Qed.

(** ** Transition rates *)

Lemma square_sign : forall x, dmult (dopp x) (dopp x) = dmult x x.
Proof. intros [s|s| |s m e H]; try reflexivity; [destruct s; reflexivity|destruct s; reflexivity|].
  apply B2SF_inj. unfold dmult, dopp, Bmult, Bopp. rewrite !B2SF_SF2B. destruct s; reflexivity.
Qed.

(** Rates are not negative, and do not depend on the sign of the amplitude, which
    is arbitrary. *)
Theorem C82_rates : forall rate, In rate [quad_rat_fun; mel_rat_fun; unit_rat_fun] -> forall Li Lf M,
  rate Li Lf (dopp M) = rate Li Lf M /\
  (0 <= Li -> 0 <= Lf -> forall r, rate Li Lf M = Ok r -> finite r = true -> (0 <= real r)%R).
Proof.
  intros rate H Li Lf M. split.
  { destruct H as [<- |[<- |[<- |[]]]]; unfold quad_rat_fun, mel_rat_fun, unit_rat_fun; rewrite square_sign; reflexivity. }
  intros H1 H2 r E F.
  assert (OI : forall n x, 0 <= n -> of_int n = Ok x -> finite x = true /\ (0 <= real x)%R).
  { intros n x Hn. unfold of_int. destruct (finite (literal n 0)) eqn:Fn; [|discriminate]. intros Q. injection Q as <-. split; [exact Fn|].
    pose proof (binary_normalize_correct 53 1024 prec_ok emax_ok mode_NE n 0 false) as K. cbv zeta in K.
    destruct (Rlt_bool _ _).
    - destruct K as (K & _). unfold real. eapply Rle_trans; [|right; symmetry; exact K]. apply round_ge_generic; auto with typeclass_instances; [apply generic_format_0|].
      apply F2R_ge_0. exact Hn.
    - apply overflow_not_finite in K. unfold literal in Fn. congruence. }
  assert (SQ : finite (dmult M M) = true -> (0 <= real (dmult M M))%R).
  { intros G. destruct (mult_real _ _ G) as (_ & _ & ->). apply RN_ge_0. apply Rle_0_sqr. }
  assert (MD : forall n df, 0 <= n -> of_int n = Ok df -> finite (dmult (dmult M M) df) = true -> (0 <= real (dmult (dmult M M) df))%R).
  { intros n df Hn E1 G. destruct (OI _ _ Hn E1) as [_ B]. destruct (mult_real _ _ G) as (G1 & _ & ->). apply RN_ge_0. apply Rmult_le_pos; auto. }
  destruct H as [<- |[<- |[<- |[]]]]; unfold quad_rat_fun, mel_rat_fun, unit_rat_fun in E.
  - destruct (of_int (2 * Lf + 1)) as [df|] eqn:E1; cbn [bind] in E; [|discriminate].
    destruct (of_int (2 * Li + 1)) as [di|] eqn:E2; cbn [bind] in E; [|discriminate]. injection E as <-.
    destruct (OI (2 * Li + 1) di ltac:(lia) E2) as [Fi Bi].
    destruct (Req_dec (real di) 0) as [Z0|NZ].
    { exfalso. destruct (dmult (dmult M M) df), di; try discriminate F; cbn in Z0; try discriminate Fi; apply eq_0_F2R in Z0; destruct s0; discriminate Z0. }
    destruct (div_real _ _ F NZ) as (G & ->). apply RN_ge_0. apply Rmult_le_pos; [now apply (MD (2 * Lf + 1)); [lia| |]|].
    left. apply Rinv_0_lt_compat. lra.
  - destruct (of_int (2 * Lf + 1)) as [df|] eqn:E1; cbn [bind] in E; [|discriminate]. injection E as <-. apply (MD (2 * Lf + 1)); [lia|exact E1|exact F].
  - injection E as <-. auto.
Qed.

(** ** Radial matrix elements *)

Definition rounded (x : double) (r : R) : Prop := finite x = true /\ real x = RN r.

Lemma rounded_nearest : forall x r, rounded x r -> nearest x r.
Proof. intros x r [F E]. now apply nearest_RN. Qed.

Lemma rounded_opp : forall x r, rounded x r -> rounded (dopp x) (- r).
Proof.
  intros x r [F E]. split.
  - unfold finite, dopp in *. rewrite is_finite_Bopp. exact F.
  - unfold real, dopp in *. rewrite B2R_Bopp, E, RN_opp. reflexivity.
Qed.

Lemma rounded_zero : rounded (literal 0 0) 0.
Proof. destruct (literal_exact 0 0) as [A B]; [lia|lia|]. split; [exact A|]. rewrite B, RN_0. cbn. ring. Qed.

Lemma half_bound : forall m, Z.abs m <= 2 ^ 53 -> small (IZR m / 2) /\ is_double (IZR m / 2).
Proof.
  intros m H. split.
  - unfold small, Rdiv. rewrite Rabs_mult, (Rabs_pos_eq (/ 2)), <- abs_IZR by lra.
    assert (IZR (Z.abs m) <= bpow radix2 53)%R by (change (bpow radix2 53) with (IZR (2 ^ 53)); apply IZR_le; lia).
    assert (bpow radix2 53 < bpow radix2 1023)%R by (apply bpow_lt; lia). pose proof (bpow_gt_0 radix2 1023). lra.
  - unfold Rdiv. change (/ 2)%R with (bpow radix2 (-1)). apply dyadic_double; lia.
Qed.

(** [halves x m]: the double [x] is m/2. *)
Definition halves (x : double) (m : Z) : Prop := finite x = true /\ real x = (IZR m / 2)%R.

Lemma halves_int : forall n, Z.abs n <= 2 ^ 52 -> exists x, of_int n = Ok x /\ halves x (2 * n).
Proof.
  intros n H. destruct (of_int_exact n) as (x & E & F & R1); [lia|]. exists x. split; [exact E|]. split; [exact F|]. rewrite R1, mult_IZR. field.
Qed.

Lemma halves_plus : forall x y m n, halves x m -> halves y n -> Z.abs (m + n) <= 2 ^ 53 -> halves (dplus x y) (m + n).
Proof.
  intros x y m n [Fx Rx] [Fy Ry] H. destruct (half_bound (m + n) H) as [S D].
  assert (E : (real x + real y = IZR (m + n) / 2)%R) by (rewrite Rx, Ry, plus_IZR; field).
  destruct (plus_small x y Fx Fy) as [A B]; [rewrite E; exact S|]. split; [exact A|]. rewrite B, E. now apply RN_double.
Qed.

Lemma halves_minus_one : forall x m, halves x m -> Z.abs (m - 2) <= 2 ^ 53 -> halves (dminus x (literal 1 0)) (m - 2).
Proof.
  intros x m [Fx Rx] H. destruct (half_bound (m - 2) H) as [S D]. destruct (literal_exact 1 0) as [F1 R1]; [lia|lia|].
  assert (E : (real x - real (literal 1 0) = IZR (m - 2) / 2)%R) by (rewrite Rx, R1, minus_IZR; cbn; field).
  destruct (minus_small x (literal 1 0) Fx F1) as [A B]; [rewrite E; exact S|]. split; [exact A|]. rewrite B, E. now apply RN_double.
Qed.

Lemma halves_mult : forall x y m n, halves x m -> halves y (2 * n) -> Z.abs (m * n) <= 2 ^ 53 -> halves (dmult x y) (m * n).
Proof.
  intros x y m n [Fx Rx] [Fy Ry] H. destruct (half_bound (m * n) H) as [S D].
  assert (E : (real x * real y = IZR (m * n) / 2)%R) by (rewrite Rx, Ry, !mult_IZR; field).
  destruct (mult_small x y Fx Fy) as [A B]; [rewrite E; exact S|]. split; [exact A|]. rewrite B, E. now apply RN_double.
Qed.

Lemma halves_sqrt : forall x m, halves x m ->
  match RadialME.math_sqrt (IZR m / 2) with
  | Ok r => exists y, dsqrt x = Ok y /\ rounded y r
  | Raise e => dsqrt x = Raise e
  end.
Proof.
  intros x m [F R1]. unfold RadialME.math_sqrt. destruct (Rlt_dec (IZR m / 2) 0) as [L|L].
  - unfold dsqrt. rewrite (zero_lt x F), Rlt_bool_true by lra. reflexivity.
  - destruct (sqrt_real x F) as (y & E & Fy & Ry); [lra|]. exists y. split; [exact E|]. split; [exact Fy|]. rewrite Ry, R1. reflexivity.
Qed.

(** Relation of a computed result to the one in exact arithmetic. *)
Definition agrees (P : double -> R -> Prop) (x : res double) (r : res R) : Prop :=
  match r with
  | Ok r => exists y, x = Ok y /\ P y r
  | Raise e => x = Raise e
  end.

Lemma lower_agrees : forall lam k i, halves lam k -> 0 < k <= 2 ^ 25 -> 0 <= i <= 2 ^ 24 ->
  agrees rounded (lower_root lam i) (RadialME.math_sqrt ((real lam + IZR i - 1) * IZR i)).
Proof.
  intros lam k i H Hk Hi. unfold lower_root. destruct (halves_int i) as (m & -> & Hm); [lia|]. cbn [bind].
  pose proof (halves_plus _ _ _ _ H Hm ltac:(lia)) as A. pose proof (halves_minus_one _ _ A ltac:(lia)) as B.
  pose proof (halves_mult _ _ _ _ B Hm ltac:(nia)) as C. apply halves_sqrt in C.
  replace ((real lam + IZR i - 1) * IZR i)%R with (IZR ((k + 2 * i - 2) * i) / 2)%R; [exact C|].
  destruct H as [_ ->]. rewrite mult_IZR, minus_IZR, plus_IZR, mult_IZR. field.
Qed.

Lemma upper_agrees : forall lam k i, halves lam k -> 0 < k <= 2 ^ 25 -> 0 <= i <= 2 ^ 24 ->
  agrees rounded (upper_root lam i) (RadialME.math_sqrt ((real lam + IZR i) * (IZR i + 1))).
Proof.
  intros lam k i H Hk Hi. unfold upper_root. destruct (halves_int i) as (m & -> & Hm); [lia|]. cbn [bind].
  destruct (halves_int (i + 1)) as (m1 & -> & Hm1); [lia|]. cbn [bind].
  pose proof (halves_plus _ _ _ _ H Hm ltac:(lia)) as A.
  pose proof (halves_mult _ _ _ _ A Hm1 ltac:(nia)) as C. apply halves_sqrt in C.
  replace ((real lam + IZR i) * (IZR i + 1))%R with (IZR ((k + 2 * i) * (i + 1)) / 2)%R; [exact C|].
  destruct H as [_ ->]. rewrite mult_IZR, !plus_IZR, mult_IZR. field.
Qed.

Lemma agrees_nearest : forall x r, agrees rounded x r -> agrees nearest x r.
Proof. intros x [r|e] H; [|exact H]. destruct H as (y & E & H). exists y. split; [exact E|now apply rounded_nearest]. Qed.

Lemma agrees_zero : agrees rounded (Ok (literal 0 0)) (Ok 0%R).
Proof. exists (literal 0 0). split; [reflexivity|apply rounded_zero]. Qed.

Lemma halves_rounded : forall x m r, halves x m -> (IZR m / 2 = r)%R -> Z.abs m <= 2 ^ 53 -> rounded x r.
Proof. intros x m r [F E] <- H. split; [exact F|]. rewrite E. symmetry. apply RN_double. now apply half_bound. Qed.

Definition elements : list ((double -> Z -> Z -> res double) * (R -> Z -> Z -> res R)) :=
  [ (ME_Radial_S0, RadialME.ME_Radial_S0); (ME_Radial_Sp, RadialME.ME_Radial_Sp); (ME_Radial_Sm, RadialME.ME_Radial_Sm);
    (ME_Radial_b2, RadialME.ME_Radial_b2); (ME_Radial_bDb, RadialME.ME_Radial_bDb);
    (ME_Radial_b_pl, RadialME.ME_Radial_b_pl); (ME_Radial_b_ml, RadialME.ME_Radial_b_ml) ].

(** For integer and half-integer lambda, each elementary matrix element is computed
    with a single rounding, and exceptions are those of exact arithmetic. *)
Theorem C82_elements : forall F E, In (F, E) elements -> forall lam k f i,
  finite lam = true -> real lam = (IZR k / 2)%R -> 0 < k <= 2 ^ 25 -> 0 <= f <= 2 ^ 24 -> 0 <= i <= 2 ^ 24 ->
  agrees nearest (F lam f i) (E (real lam) f i).
Proof.
  intros F E HIn lam k f i Fl Rl Hk Hf Hi. apply agrees_nearest. assert (H : halves lam k) by (split; assumption).
  pose proof (lower_agrees lam k i H Hk Hi) as Lo. pose proof (upper_agrees lam k i H Hk Hi) as Up.
  destruct (halves_int i) as (m & Em & Hm); [lia|].
  cbn [elements In] in HIn.
  destruct HIn as [Q|[Q|[Q|[Q|[Q|[Q|[Q|[]]]]]]]]; injection Q as <- <-.
  - unfold ME_Radial_S0, RadialME.ME_Radial_S0. destruct (f =? i); [|apply agrees_zero]. rewrite Em. cbn [bind].
    destruct two_literal as [F2 R2].
    assert (S : small (real lam / real (literal 2 0)) /\ is_double (real lam / real (literal 2 0))).
    { rewrite R2, Rl. replace (IZR k / 2 / 2)%R with (IZR k * bpow radix2 (-2))%R by (change (bpow radix2 (-2)) with (/ 4)%R; field).
      split; [|apply dyadic_double; lia]. destruct (half_bound k ltac:(lia)) as [S _]. unfold small in *. unfold Rdiv in S. rewrite Rabs_mult in *.
      change (bpow radix2 (-2)) with (/ 4)%R. rewrite Rabs_pos_eq in S at 1 by (apply IZR_le; lia). rewrite (Rabs_pos_eq (IZR k)) by (apply IZR_le; lia).
      rewrite (Rabs_pos_eq (/ 2)) in S by lra. rewrite (Rabs_pos_eq (/ 4)) by lra. assert (0 <= IZR k)%R by (apply IZR_le; lia). lra. }
    destruct S as [S D]. destruct (div_small lam (literal 2 0) Fl ltac:(lra) S) as [Fd Rd]. rewrite (RN_double _ D) in Rd.
    destruct Hm as [Fm Rm].
    assert (V : (real (ddiv lam (literal 2 0)) + real m = real lam / 2 + IZR i)%R) by (rewrite Rd, R2, Rm, mult_IZR; field).
    destruct (plus_small (ddiv lam (literal 2 0)) m Fd Fm) as [A B].
    { rewrite V. unfold small. apply Rabs_le. assert (0 <= IZR k <= IZR (2 ^ 25))%R by (split; apply IZR_le; lia).
      assert (0 <= IZR i <= IZR (2 ^ 24))%R by (split; apply IZR_le; lia). assert (bpow radix2 30 < bpow radix2 1023)%R by (apply bpow_lt; lia).
      change (bpow radix2 30) with (IZR (2 ^ 30)) in *. rewrite Rl. cbn in *. lra. }
    eexists. split; [reflexivity|]. split; [exact A|]. rewrite B, V. reflexivity.
  - unfold ME_Radial_Sp, RadialME.ME_Radial_Sp. destruct (f =? i + 1); [exact Up|apply agrees_zero].
  - unfold ME_Radial_Sm, RadialME.ME_Radial_Sm. destruct (f =? i - 1); [exact Lo|apply agrees_zero].
  - unfold ME_Radial_b2, RadialME.ME_Radial_b2. destruct (f =? i - 1); [exact Lo|]. destruct (f =? i).
    + destruct (halves_int (2 * i)) as (m2 & -> & Hm2); [lia|]. cbn [bind]. eexists. split; [reflexivity|].
      apply (halves_rounded _ (k + 2 * (2 * i))); [apply halves_plus; auto; lia| |lia]. rewrite Rl, plus_IZR, !mult_IZR. field.
    + destruct (f =? i + 1); [exact Up|apply agrees_zero].
  - unfold ME_Radial_bDb, RadialME.ME_Radial_bDb. destruct (f =? i - 1); [exact Lo|]. destruct (f =? i).
    + eexists. split; [reflexivity|]. destruct (literal_exact (-1) (-1)) as [A B]; [lia|lia|].
      apply (halves_rounded _ (-1)); [split; [exact A|]|lra|lia]. rewrite B. change (bpow radix2 (-1)) with (/ 2)%R. reflexivity.
    + destruct (f =? i + 1); [|apply agrees_zero]. clear Lo. revert Up. destruct (RadialME.math_sqrt _) as [r|e]; intros Up.
      * destruct Up as (y & -> & Hy). cbn [bind]. eexists. split; [reflexivity|now apply rounded_opp].
      * cbn in Up. rewrite Up. reflexivity.
  - unfold ME_Radial_b_pl, RadialME.ME_Radial_b_pl. rewrite Em. cbn [bind]. destruct (f =? i - 1).
    + apply halves_sqrt in Hm. rewrite mult_IZR in Hm. replace (IZR i) with (2 * IZR i / 2)%R by field. exact Hm.
    + destruct (f =? i); [|apply agrees_zero]. pose proof (halves_plus _ _ _ _ H Hm ltac:(lia)) as A. apply halves_sqrt in A.
      replace (real lam + IZR i)%R with (IZR (k + 2 * i) / 2)%R; [exact A|]. rewrite Rl, plus_IZR, mult_IZR. field.
  - unfold ME_Radial_b_ml, RadialME.ME_Radial_b_ml. destruct (f =? i + 1).
    + destruct (halves_int f) as (mf & -> & Hmf); [lia|]. cbn [bind]. apply halves_sqrt in Hmf. rewrite mult_IZR in Hmf.
      replace (IZR f) with (2 * IZR f / 2)%R by field. exact Hmf.
    + destruct (f =? i); [|apply agrees_zero]. rewrite Em. cbn [bind]. pose proof (halves_plus _ _ _ _ H Hm ltac:(lia)) as A.
      pose proof (halves_minus_one _ _ A ltac:(lia)) as B. apply halves_sqrt in B.
      replace (real lam + IZR i - 1)%R with (IZR (k + 2 * i - 2) / 2)%R; [exact B|]. rewrite Rl, minus_IZR, plus_IZR, mult_IZR. field.
Qed.

(** So the computed matrix of beta^2 is symmetric bit for bit ... *)
Theorem C82_symmetric : forall lam k f i,
  finite lam = true -> real lam = (IZR k / 2)%R -> 0 < k <= 2 ^ 25 -> 0 <= f <= 2 ^ 24 -> 0 <= i <= 2 ^ 24 ->
  ME_Radial_b2 lam f i = ME_Radial_b2 lam i f /\
  ME_Radial_Sp lam f i = ME_Radial_Sm lam i f.
Proof.
  intros lam k f i Fl Rl Hk Hf Hi. assert (H : halves lam k) by (split; assumption).
  assert (UL : forall n, 0 <= n -> n + 1 <= 2 ^ 24 -> upper_root lam n = lower_root lam (n + 1)).
  { intros n H0 H1. pose proof (upper_agrees lam k n H Hk ltac:(lia)) as A. pose proof (lower_agrees lam k (n + 1) H Hk ltac:(lia)) as B.
    assert (E : ((real lam + IZR (n + 1) - 1) * IZR (n + 1) = (real lam + IZR n) * (IZR n + 1))%R) by (rewrite plus_IZR; ring).
    rewrite E in B. assert (P : (1 / 2 <= (real lam + IZR n) * (IZR n + 1))%R).
    { rewrite Rl. assert (1 <= IZR k)%R by (apply IZR_le; lia). assert (0 <= IZR n)%R by (apply IZR_le; lia). nra. }
    unfold RadialME.math_sqrt in A, B. destruct (Rlt_dec _ 0); [lra|]. destruct A as (x & -> & _ & A), B as (y & -> & _ & B).
    f_equal. apply real_inj_pos; [|congruence]. rewrite A.
    assert (D : is_double (1 / 2)) by (apply (half_bound 1); lia). apply Rlt_le_trans with (1 / 2)%R; [lra|]. rewrite <- (RN_double _ D). apply RN_le.
    rewrite <- (sqrt_square (1 / 2)) by lra. apply sqrt_le_1_alt. lra. }
  split.
  - unfold ME_Radial_b2. destruct (Z.eqb_spec f (i - 1)), (Z.eqb_spec f i), (Z.eqb_spec f (i + 1)), (Z.eqb_spec i (f - 1)), (Z.eqb_spec i f), (Z.eqb_spec i (f + 1));
      try lia; subst; try reflexivity.
    + replace (lower_root lam i) with (lower_root lam (i - 1 + 1)) by (f_equal; ring). symmetry. apply UL; lia.
    + apply UL; lia.
  - unfold ME_Radial_Sp, ME_Radial_Sm. destruct (Z.eqb_spec f (i + 1)), (Z.eqb_spec i (f - 1)); try lia; [|reflexivity]. subst. apply UL; lia.
Qed.

(** ... but not for every lambda: with the double nearest to 1/10 the elements of
    beta^2 above and below the diagonal differ. *)
Definition tenth : double := literal 3602879701896397 (-55).

Theorem C82_symmetric_refuted : ~ forall lam f i, finite lam = true -> (0 < real lam)%R -> 0 <= f -> 0 <= i ->
  ME_Radial_b2 lam f i = ME_Radial_b2 lam i f.
Proof.
  intros H. specialize (H tenth 0 1).
  assert (Q : match ME_Radial_b2 tenth 0 1, ME_Radial_b2 tenth 1 0 with Ok x, Ok y => deq x y = false | _, _ => True end) by (vm_compute; reflexivity).
  rewrite H in Q; [|reflexivity| |lia|lia].
  - assert (V : exists y, ME_Radial_b2 tenth 1 0 = Ok y /\ finite y = true).
    { destruct (ME_Radial_b2 tenth 1 0) as [y|] eqn:E.
      - exists y. split; [reflexivity|]. assert (W : match ME_Radial_b2 tenth 1 0 with Ok y => finite y | _ => true end = true) by (vm_compute; reflexivity).
        now rewrite E in W.
      - exfalso. assert (W : match ME_Radial_b2 tenth 1 0 with Ok y => true | _ => false end = true) by (vm_compute; reflexivity). now rewrite E in W. }
    destruct V as (y & E & Fy). rewrite E in Q. unfold deq in Q. rewrite Beqb_correct in Q by assumption. apply Req_bool_false_inv in Q || (destruct (Req_bool_spec (B2R y) (B2R y)); congruence).
  - destruct (literal_exact 3602879701896397 (-55)) as [_ E]; [lia|lia|]. unfold tenth. rewrite E.
    apply Rmult_lt_0_compat; [apply IZR_lt; lia|apply bpow_gt_0].
Qed.

(** For every other lambda the asymmetry is a matter of rounding: from lambda = 1
    on, the elements are right to within five roundings. *)
Lemma sqrt_relative : forall P e, (0 <= P)%R -> (Rabs e <= 1)%R ->
  exists e', (Rabs e' <= Rabs e)%R /\ sqrt (P * (1 + e)) = (sqrt P * (1 + e'))%R.
Proof.
  intros P e HP He. apply Rabs_le_inv in He. exists (sqrt (1 + e) - 1)%R. split.
  - pose proof (sqrt_pos (1 + e)) as S. pose proof (sqrt_sqrt (1 + e) ltac:(lra)) as Q. set (r := sqrt (1 + e)) in *.
    replace e with ((r - 1) * (r + 1))%R by (ring_simplify; simpl in *; nra). rewrite Rabs_mult. rewrite (Rabs_pos_eq (r + 1)) by lra.
    pose proof (Rabs_pos (r - 1)). nra.
  - rewrite sqrt_mult_alt by exact HP. ring.
Qed.

Lemma chain : forall a b c : R, (Rabs a <= Rabs b)%R -> (Rabs b <= c)%R -> (Rabs a <= c)%R.
Proof. intros. lra. Qed.

Lemma normal : forall x, (1 / 2 <= x)%R -> (bpow radix2 (-1022) <= Rabs x)%R.
Proof.
  intros x H. rewrite Rabs_pos_eq by lra. assert (bpow radix2 (-1022) < bpow radix2 (-1))%R by (apply bpow_lt; lia).
  change (bpow radix2 (-1)) with (/ 2)%R in *. lra.
Qed.

Lemma bound_small : forall x, (0 <= x <= bpow radix2 200)%R -> small x.
Proof. intros x H. unfold small. rewrite Rabs_pos_eq by lra. assert (bpow radix2 200 < bpow radix2 1023)%R by (apply bpow_lt; lia). lra. Qed.

Lemma root_accuracy : forall p P e, finite p = true -> (1 / 2 <= P)%R -> (Rabs e <= 5 * bpow radix2 (-53))%R -> real p = (P * (1 + e))%R ->
  exists y, dsqrt p = Ok y /\ within (bpow radix2 (-50)) y (sqrt P).
Proof.
  intros p P e F HP He E. pose proof u_small as U. set (u := bpow radix2 (-53)) in *.
  assert (He' := He). apply Rabs_le_inv in He'.
  destruct (sqrt_real p F) as (y & Ey & Fy & Ry); [rewrite E; nra|]. exists y. split; [exact Ey|]. split; [exact Fy|].
  destruct (sqrt_relative P e) as (e1 & H1 & Q); [lra|apply Rle_trans with (1 := He); lra|].
  pose proof (chain _ _ _ H1 He) as H1'. apply Rabs_le_inv in H1'.
  rewrite E, Q in Ry.
  assert (S : (3 / 5 <= sqrt P)%R).
  { rewrite <- (sqrt_square (3 / 5)) by lra. apply sqrt_le_1_alt. lra. }
  destruct (RN_relative (sqrt P * (1 + e1))) as (e2 & H2 & R2); [apply normal; nra|]. rewrite R2 in Ry. fold u in H2. apply Rabs_le_inv in H2.
  rewrite Ry. replace (sqrt P * (1 + e1) * (1 + e2) - sqrt P)%R with (sqrt P * (e1 + e2 + e1 * e2))%R by ring.
  rewrite Rabs_mult, Rmult_comm. apply Rmult_le_compat_r; [apply Rabs_pos|].
  replace (bpow radix2 (-50)) with (8 * u)%R by (unfold u; change (-50) with (-53 + 1 + 1 + 1); rewrite !two_S; ring).
  apply Rabs_le. nra.
Qed.

Theorem C82_elements_accuracy : forall lam mu, finite lam = true -> (1 <= real lam <= bpow radix2 90)%R -> 0 <= mu < 2 ^ 50 ->
  exists up down,
    ME_Radial_b2 lam (mu + 1) mu = Ok up /\ ME_Radial_b2 lam mu (mu + 1) = Ok down /\
    within (bpow radix2 (-50)) up (sqrt ((real lam + IZR mu) * (IZR mu + 1))) /\
    within (bpow radix2 (-50)) down (sqrt ((real lam + IZR mu) * (IZR mu + 1))).
Proof.
  intros lam mu F L Hm. pose proof u_small as U. set (u := bpow radix2 (-53)) in *.
  assert (M0 : (0 <= IZR mu)%R) by (apply IZR_le; lia).
  assert (M1 : (IZR mu + 1 <= bpow radix2 50)%R).
  { change (bpow radix2 50) with (IZR (2 ^ 50)). rewrite <- plus_IZR. apply IZR_le. lia. }
  assert (LL : (bpow radix2 50 < bpow radix2 90)%R) by (apply bpow_lt; lia).
  assert (E200 : (bpow radix2 200 = bpow radix2 100 * bpow radix2 100)%R) by (rewrite <- bpow_plus; reflexivity).
  assert (E100 : (bpow radix2 100 = 1024 * bpow radix2 90)%R) by (change 100 with (10 + 90); rewrite bpow_plus; reflexivity).
  assert (P90 : (1 <= bpow radix2 90)%R) by (apply (bpow_le radix2 0 90); lia).
  set (m := IZR mu) in *. set (l := real lam) in *. set (P := ((l + m) * (m + 1))%R).
  assert (PP : (1 <= P)%R) by (unfold P; nra).
  assert (L200 : (4 * bpow radix2 90 <= bpow radix2 200)%R) by (rewrite E200, E100; nra).
  assert (LP : (4 * bpow radix2 90 * bpow radix2 90 <= bpow radix2 200)%R) by (rewrite E200, E100; nra).
  destruct (of_int_exact mu) as (x & Ex & Fx & Rx); [lia|].
  destruct (of_int_exact (mu + 1)) as (x1 & Ex1 & Fx1 & Rx1); [lia|]. rewrite plus_IZR in Rx1. fold m in Rx, Rx1.
  (* above the diagonal *)
  assert (Up : exists y, upper_root lam mu = Ok y /\ within (bpow radix2 (-50)) y (sqrt P)).
  { unfold upper_root. rewrite Ex, Ex1. cbn [bind].
    destruct (plus_small lam x F Fx) as [F1 R1]; [fold l; rewrite Rx; apply bound_small; lra|].
    fold l in R1. rewrite Rx in R1. destruct (RN_relative (l + m)) as (e1 & H1 & Q1); [apply normal; lra|]. rewrite Q1 in R1.
    fold u in H1. apply Rabs_le_inv in H1.
    assert (V : (real (dplus lam x) * real x1 = P * (1 + e1))%R) by (rewrite R1, Rx1; unfold P; ring).
    assert (B1 : (1 / 2 <= P * (1 + e1))%R) by nra.
    assert (B2 : (P * (1 + e1) <= bpow radix2 200)%R).
    { apply Rle_trans with (P * 2)%R; [nra|]. unfold P. nra. }
    destruct (mult_small (dplus lam x) x1 F1 Fx1) as [F2 R2]; [rewrite V; apply bound_small; lra|].
    destruct (RN_relative (P * (1 + e1))) as (e2 & H2 & Q2); [apply normal; lra|]. rewrite V, Q2 in R2. fold u in H2. apply Rabs_le_inv in H2.
    apply (root_accuracy _ P (e1 + e2 + e1 * e2)); [exact F2|lra|fold u; apply Rabs_le; nra|rewrite R2; ring]. }
  assert (Lo : exists y, lower_root lam (mu + 1) = Ok y /\ within (bpow radix2 (-50)) y (sqrt P)).
  { unfold lower_root. rewrite Ex1. cbn [bind].
    destruct (plus_small lam x1 F Fx1) as [F1 R1]; [fold l; rewrite Rx1; apply bound_small; lra|].
    fold l in R1. rewrite Rx1 in R1. destruct (RN_relative (l + (m + 1))) as (e1 & H1 & Q1); [apply normal; lra|]. rewrite Q1 in R1.
    fold u in H1. apply Rabs_le_inv in H1.
    destruct (literal_exact 1 0) as [F0 R0]; [lia|lia|]. replace (IZR 1 * bpow radix2 0)%R with 1%R in R0 by (cbn; ring).
    assert (B0 : (1 / 2 <= (l + (m + 1)) * (1 + e1) - 1 <= 4 * bpow radix2 90)%R) by nra.
    destruct (minus_small (dplus lam x1) (literal 1 0) F1 F0) as [F2 R2]; [rewrite R1, R0; apply bound_small; lra|].
    rewrite R1, R0 in R2. destruct (RN_relative ((l + (m + 1)) * (1 + e1) - 1)) as (e2 & H2 & Q2); [apply normal; lra|]. rewrite Q2 in R2.
    fold u in H2. apply Rabs_le_inv in H2.
    set (g := ((l + (m + 1)) / (l + m) * e1)%R).
    assert (G : (- (2 * u) <= g <= 2 * u)%R).
    { assert (K : (0 < (l + (m + 1)) / (l + m) <= 2)%R).
      { split; [apply Rdiv_lt_0_compat; lra|]. apply (Rmult_le_reg_r (l + m)); [lra|]. unfold Rdiv. rewrite Rmult_assoc, Rinv_l by lra. lra. }
      unfold g. nra. }
    assert (E1 : ((l + (m + 1)) * (1 + e1) - 1 = (l + m) * (1 + g))%R) by (unfold g; field; lra).
    rewrite E1 in R2, B0.
    assert (V : (real (dminus (dplus lam x1) (literal 1 0)) * real x1 = P * ((1 + g) * (1 + e2)))%R) by (rewrite R2, Rx1; unfold P; ring).
    assert (C : (- (31 / 10 * u) <= (1 + g) * (1 + e2) - 1 <= 31 / 10 * u)%R) by nra.
    set (h := ((1 + g) * (1 + e2))%R) in *.
    assert (B1 : (1 / 2 <= P * h)%R) by nra.
    assert (B2 : (P * h <= bpow radix2 200)%R).
    { apply Rle_trans with (P * 2)%R; [nra|]. unfold P. nra. }
    destruct (mult_small (dminus (dplus lam x1) (literal 1 0)) x1 F2 Fx1) as [F3 R3]; [rewrite V; apply bound_small; lra|].
    destruct (RN_relative (P * h)) as (e3 & H3 & Q3); [apply normal; lra|]. rewrite V, Q3 in R3. fold u in H3. apply Rabs_le_inv in H3.
    apply (root_accuracy _ P (h * (1 + e3) - 1)); [exact F3|lra|fold u; apply Rabs_le; nra|rewrite R3; ring]. }
  destruct Up as (y & Ey & Hy), Lo as (z & Ez & Hz). exists y, z.
  unfold ME_Radial_b2. destruct (Z.eqb_spec (mu + 1) (mu - 1)); [lia|]. destruct (Z.eqb_spec (mu + 1) mu); [lia|]. rewrite Z.eqb_refl.
  replace (mu =? mu + 1 - 1) with true by lia. auto.
Qed.

(** ** Comparing lists of numbers *)

Lemma dle_real : forall x y, finite x = true -> finite y = true -> dle x y = Rle_bool (real x) (real y).
Proof. intros x y Fx Fy. unfold dle. apply Bleb_correct; assumption. Qed.

Lemma minus_fits : forall x y, finite x = true -> finite y = true -> (Rabs (RN (real x - real y)) < bpow radix2 1024)%R ->
  finite (dminus x y) = true /\ real (dminus x y) = RN (real x - real y).
Proof.
  intros x y Fx Fy L. pose proof (Bminus_correct 53 1024 prec_ok emax_ok mode_NE x y Fx Fy) as H.
  change (Rlt_bool (Rabs (round radix2 (SpecFloat.fexp 53 1024) (round_mode mode_NE) (B2R x - B2R y))) (bpow radix2 1024))
    with (Rlt_bool (Rabs (RN (real x - real y))) (bpow radix2 1024)) in H.
  rewrite (Rlt_bool_true _ _ L) in H. destruct H as (A & B & _). split; assumption.
Qed.

Lemma rel_tol_real : finite rel_tol = true /\ (0 <= real rel_tol <= 1 / 4)%R.
Proof.
  destruct (literal_exact 4835703278458517 (-82)) as [A B]; [lia|lia|]. split; [exact A|]. unfold rel_tol. rewrite B. split.
  - apply Rmult_le_pos; [apply IZR_le; lia|apply bpow_ge_0].
  - replace (1 / 4)%R with (bpow radix2 53 * bpow radix2 (-55))%R by (rewrite <- bpow_plus; change (53 + -55) with (-2); change (bpow radix2 (-2)) with (/ 4)%R; lra).
    apply Rmult_le_compat; [apply IZR_le; lia|apply bpow_ge_0|change (bpow radix2 53) with (IZR (2 ^ 53)); apply IZR_le; lia|apply bpow_le; lia].
Qed.

Lemma RN_quarter : forall t x, (0 <= t <= 1 / 4)%R -> x <> 0%R -> (Rabs (RN (t * x)) < Rabs x)%R.
Proof.
  intros t x Ht Hx. destruct (round_N_pt radix2 (FLT_exp (-1074) 53) (fun n => negb (Z.even n)) (t * x)) as [_ H].
  specialize (H 0%R double_0). change (round radix2 (FLT_exp (-1074) 53) (Znearest (fun n => negb (Z.even n))) (t * x)) with (RN (t * x)) in H.
  rewrite Rminus_0_l, Rabs_Ropp in H. pose proof (Rabs_triang (RN (t * x) - t * x) (t * x)) as T.
  replace (RN (t * x) - t * x + t * x)%R with (RN (t * x)) in T by ring. rewrite Rabs_mult, (Rabs_pos_eq t) in * by lra.
  pose proof (Rabs_pos_lt x Hx). nra.
Qed.

Lemma isclose_zero : forall z tol, finite z = true -> finite tol = true -> (0 <= real tol)%R ->
  isclose z (literal 0 0) tol = Ok (Rle_bool (Rabs (real z)) (real tol)).
Proof.
  intros z tol Fz Ft Ht. unfold isclose. rewrite (zero_lt tol Ft), Rlt_bool_false by exact Ht.
  destruct (literal_exact 0 0) as [F0 R0]; [lia|lia|]. replace (IZR 0 * bpow radix2 0)%R with 0%R in R0 by (cbn; ring).
  assert (DE : deq z (literal 0 0) = Req_bool (real z) 0) by (unfold deq; rewrite Beqb_correct by assumption; unfold real in *; rewrite R0; reflexivity).
  rewrite DE. destruct (Req_bool_spec (real z) 0) as [E|N].
  - f_equal. symmetry. apply Rle_bool_true. rewrite E, Rabs_R0. exact Ht.
  - replace (infinite z || infinite (literal 0 0))%bool with false by (destruct z; try discriminate Fz; reflexivity).
    assert (AB : forall x, finite x = true -> finite (dabs x) = true /\ real (dabs x) = Rabs (real x)).
    { intros x Fx. unfold finite, real, dabs in *. rewrite is_finite_Babs, B2R_Babs. auto. }
    destruct (minus_fits (literal 0 0) z F0 Fz) as [Fm Rm].
    { rewrite R0, Rminus_0_l, RN_opp, Rabs_Ropp, (RN_double _ (real_double z)). now apply finite_bound. }
    rewrite R0, Rminus_0_l, RN_opp, (RN_double _ (real_double z)) in Rm.
    destruct (AB _ Fm) as [Fd Rd]. rewrite Rm, Rabs_Ropp in Rd. destruct rel_tol_real as [Fr Rr].
    assert (MF : forall x, finite x = true -> (Rabs (real x) <= Rabs (real z))%R ->
              finite (dmult rel_tol x) = true /\ real (dmult rel_tol x) = RN (real rel_tol * real x)).
    { intros x Fx Lx. apply mult_small; auto. unfold small. rewrite Rabs_mult, (Rabs_pos_eq (real rel_tol)) by lra.
      pose proof (finite_bound x Fx) as B. assert (bpow radix2 1024 = 2 * bpow radix2 1023)%R by exact (two_S 1023).
      pose proof (Rabs_pos (real x)). nra. }
    destruct (MF (literal 0 0) F0) as [F1 R1]; [rewrite R0, Rabs_R0; apply Rabs_pos|]. rewrite R0, Rmult_0_r, RN_0 in R1.
    destruct (MF z Fz) as [F2 R2]; [lra|].
    destruct (AB _ F1) as [F1' R1']. destruct (AB _ F2) as [F2' R2']. rewrite R1, Rabs_R0 in R1'. rewrite R2 in R2'.
    rewrite !dle_real by assumption. rewrite Rd, R1', R2'.
    rewrite Rle_bool_false by (apply Rabs_pos_lt; exact N). rewrite (Rle_bool_false _ (Rabs (RN _))) by now apply RN_quarter. reflexivity.
Qed.

Lemma is_zeros_spec : forall zs tol, finite tol = true -> (0 <= real tol)%R -> Forall (fun z => finite z = true) zs ->
  exists b, is_zeros zs tol = Ok b /\ (b = true <-> Forall (fun z => Rabs (real z) <= real tol)%R zs).
Proof.
  intros zs tol Ft Ht H. unfold is_zeros. induction H as [|z zs Fz H (b & E & IH)]; [exists true; cbn; intuition|].
  cbn [all_of]. rewrite (isclose_zero z tol Fz Ft Ht). cbn [bind]. destruct (Rle_bool_spec (Rabs (real z)) (real tol)) as [L|L].
  - exists b. split; [exact E|]. rewrite IH. split; [intros G; constructor; auto|intros G; now inversion G].
  - exists false. split; [reflexivity|]. split; [discriminate|]. intros G. inversion G. lra.
Qed.

(** Whether two lists are accepted as close: they are if they have the same length
    and no two entries differ by more than the tolerance; if they are accepted, no
    two entries differ by more than the tolerance and its rounding error.  With
    tolerance 0 they are accepted exactly when they are equal. *)
Theorem C82_is_close : forall xs ys tol, finite tol = true -> (0 <= real tol)%R ->
  Forall (fun x => finite x = true /\ (Rabs (real x) <= bpow radix2 1022)%R) xs ->
  Forall (fun y => finite y = true /\ (Rabs (real y) <= bpow radix2 1022)%R) ys ->
  exists b, is_close xs ys tol = Ok b /\ is_close ys xs tol = Ok b /\
    (Forall2 (fun x y => Rabs (real x - real y) <= real tol)%R xs ys -> b = true) /\
    (b = true -> Forall2 (fun x y => Rabs (real x - real y) <= (1 + bpow radix2 (-52)) * real tol)%R xs ys) /\
    (real tol = 0%R -> (b = true <-> map real xs = map real ys)).
Proof.
  intros xs ys tol Ft Ht Hx Hy. unfold is_close. rewrite (Nat.eqb_sym (length ys)).
  destruct (Nat.eqb_spec (length xs) (length ys)) as [EL|NL]; cbn [negb].
  2: { exists false. repeat split; try reflexivity; try discriminate.
       - intros G. exfalso. apply NL. clear - G. induction G; cbn; congruence.
       - intros G. apply (f_equal (@length R)) in G. rewrite !map_length in G. congruence. }
  assert (D : forall a b, finite a = true -> finite b = true -> (Rabs (real a) <= bpow radix2 1022)%R -> (Rabs (real b) <= bpow radix2 1022)%R ->
            finite (dminus a b) = true /\ real (dminus a b) = RN (real a - real b)).
  { intros a b Fa Fb Ba Bb. apply minus_small; auto. unfold small. change 1023 with (1022 + 1). rewrite two_S.
    unfold Rminus. pose proof (Rabs_triang (real a) (- real b)) as T. rewrite Rabs_Ropp in T. lra. }
  assert (K : forall us vs, length us = length vs ->
     Forall (fun x => finite x = true /\ (Rabs (real x) <= bpow radix2 1022)%R) us ->
     Forall (fun x => finite x = true /\ (Rabs (real x) <= bpow radix2 1022)%R) vs ->
     exists b, is_zeros (map (fun p => dminus (fst p) (snd p)) (combine us vs)) tol = Ok b /\
       (b = true <-> Forall2 (fun x y => Rabs (RN (real x - real y)) <= real tol)%R us vs)).
  { intros us. induction us as [|u us IH]; intros [|v vs] El Hu Hv; try discriminate El; [exists true; cbn; intuition|].
    inversion Hu as [|? ? [Fu Bu] Hu']; subst. inversion Hv as [|? ? [Fv Bv] Hv']; subst. cbn [combine map fst snd].
    destruct (D u v Fu Fv Bu Bv) as [Fd Rd]. destruct (IH vs (eq_add_S _ _ El) Hu' Hv') as (b & E & Hb).
    unfold is_zeros in *. cbn [all_of]. rewrite (isclose_zero _ tol Fd Ft Ht). cbn [bind]. rewrite Rd.
    destruct (Rle_bool_spec (Rabs (RN (real u - real v))) (real tol)) as [L|L].
    - exists b. split; [exact E|]. rewrite Hb. split; [intros G; constructor; auto|intros G; now inversion G].
    - exists false. split; [reflexivity|]. split; [discriminate|]. intros G. inversion G. lra. }
  destruct (K xs ys EL Hx Hy) as (b & E & Hb). destruct (K ys xs (eq_sym EL) Hy Hx) as (b' & E' & Hb').
  assert (FS : forall us vs, Forall2 (fun x y => Rabs (RN (real x - real y)) <= real tol)%R us vs ->
             Forall2 (fun x y => Rabs (RN (real x - real y)) <= real tol)%R vs us).
  { intros us vs G. induction G as [|u v us vs Huv G IH]; constructor; auto.
    replace (real v - real u)%R with (- (real u - real v))%R by ring. rewrite RN_opp, Rabs_Ropp. exact Huv. }
  assert (BB : b' = b).
  { destruct b, b'; try reflexivity.
    - apply Hb'. apply FS. now apply Hb.
    - symmetry. apply Hb. apply FS. now apply Hb'. }
  exists b. split; [exact E|]. split; [rewrite E'; f_equal; exact BB|]. split; [|split].
  - intros G. apply Hb. clear - G. induction G as [|u v us vs Huv G IH]; constructor; auto.
    apply abs_round_le_generic; auto with typeclass_instances. apply real_double.
  - intros G. apply Hb in G. clear - G Ht. induction G as [|u v us vs Huv G IH]; constructor; auto.
    destruct (minus_relative _ _ (real_double u) (real_double v)) as (e & He & Re). rewrite Re, Rabs_mult in Huv.
    pose proof u_small as U. replace (bpow radix2 (-52)) with (2 * bpow radix2 (-53))%R by (symmetry; exact (two_S (-53))).
    set (w := bpow radix2 (-53)) in *. apply Rabs_le_inv in He. rewrite (Rabs_pos_eq (1 + e)) in Huv by lra.
    pose proof (Rabs_pos (real u - real v)) as P. set (d := Rabs (real u - real v)) in *.
    assert (A : (d * (1 - w) <= real tol)%R) by nra.
    assert (B : ((1 + 2 * w) * (d * (1 - w)) <= (1 + 2 * w) * real tol)%R) by (apply Rmult_le_compat_l; lra).
    assert (C : (0 <= d * (w * (1 - 2 * w)))%R) by (apply Rmult_le_pos; [exact P|apply Rmult_le_pos; lra]). lra.
  - intros T0. rewrite Hb. rewrite T0. clear. split.
    + intros G. induction G as [|u v us vs Huv G IH]; [reflexivity|]. cbn [map]. f_equal; [|exact IH].
      assert (Z0 : RN (real u - real v) = 0%R).
      { destruct (Req_dec (RN (real u - real v)) 0) as [Q|Q]; [exact Q|]. apply Rabs_pos_lt in Q. lra. }
      apply Rminus_diag_uniq. destruct (Req_dec (real u - real v) 0) as [Q|Q]; [exact Q|]. exfalso. revert Z0.
      apply (round_plus_neq_0 radix2 (FLT_exp (-1074) 53)); auto with typeclass_instances; [apply real_double|apply generic_format_opp, real_double].
    + revert ys. induction xs as [|u us IH]; intros [|v vs] G; try discriminate G; constructor.
      * injection G as E _. rewrite E. replace (real v - real v)%R with 0%R by ring. rewrite RN_0, Rabs_R0. lra.
      * apply IH. now injection G.
Qed.

(** ** Cases *)

(** The Davidson basis for C = 16 and for C = 2^996; refused parameters. *)
Example C82_davidson_case :
  map (lambda_davi_fun (literal 16 0)) [0; 1; 2; 5; 100] = [Ok 0; Ok 1; Ok 0; Ok 3; Ok 96] /\
  map (lambda_davi_fun (literal 1 996)) [0; 1; 2; 16383] = [Ok 0; Ok 1; Ok 0; Ok 1] /\
  finite (literal 16 0) = true /\ lambda_davi_fun (literal (-3) 0) 1 = Raise ValueError /\ lambda_davi_fun (literal 1 2000) 1 = Raise ValueError.
Proof. vm_compute. repeat split. Qed.

(** An asymmetric two by two matrix: the off-diagonal entries 2 and 1 become 3/2. *)
Example C82_symmetrised_case :
  let H := mkDarray 2 2 (fun i j => literal (i + 2 * j) 0) in
  let entries (S : darray) := Ok [d_item S 0 1; d_item S 1 0; d_item S 1 1] in
  (d_rows H =? d_cols H) = true /\
  match Eigenfiddle entries H with
  | Ok l => map (fun x => B2SF x) l = map (fun x => B2SF x) [literal 3 (-1); literal 3 (-1); literal 3 0]
  | Raise _ => False
  end.
Proof. vm_compute. split; reflexivity. Qed.

(** Energies 1, 1.5 and 2.5 in units of 0.5. *)
Example C82_shown_case :
  map (fun v => dfloor (shown_eigenvalue (literal v (-1)) (literal 2 (-1)) (literal 1 (-1)))) [2; 3; 5] = [Ok 0; Ok 1; Ok 3] /\
  finite (shown_eigenvalue (literal 5 (-1)) (literal 2 (-1)) (literal 1 (-1))) = true.
Proof. vm_compute. split; reflexivity. Qed.

(** The reference state at 7/3 above the ground state, to be shown as 6.0: the
    hypotheses of [C82_adapted] hold. *)
Example C82_adapted_case :
  let val := ddiv (literal 7 0) (literal 3 0) in
  let low := literal 0 0 in
  let fit := literal 6 0 in
  finite val = true /\ finite (adapted_factor val low fit) = true /\
  deq (shown_eigenvalue val low (adapted_factor val low fit)) fit = true /\
  nearest fit (IZR 60 / IZR (10 ^ 1)) /\ real fit = 6%R.
Proof.
  cbv zeta. split; [vm_compute; reflexivity|]. split; [vm_compute; reflexivity|]. split; [vm_compute; reflexivity|].
  destruct (literal_exact 6 0) as [F E]; [lia|lia|]. replace (IZR 6 * bpow radix2 0)%R with 6%R in E by (cbn; ring). split; [|exact E].
  split; [exact F|]. intros y _. rewrite E. replace (6 - 60 / IZR (10 ^ 1))%R with 0%R by (cbn; lra). rewrite Rabs_R0. apply Rabs_pos.
Qed.

Example C82_rates_case :
  In quad_rat_fun [quad_rat_fun; mel_rat_fun; unit_rat_fun] /\
  (let* r := quad_rat_fun 2 0 (literal (-5) 0) in dfloor r) = Ok 5.
Proof. split; [cbn; auto|]. vm_compute. reflexivity. Qed.

(** Lambda = 5/2. *)
Example C82_elements_case :
  finite (literal 5 (-1)) = true /\ real (literal 5 (-1)) = (IZR 5 / 2)%R /\
  (let* x := ME_Radial_b2 (literal 5 (-1)) 3 3 in dfloor (dmult x (literal 2 0))) = Ok 17 /\
  (let* x := ME_Radial_b2 (literal 5 (-1)) 3 2 in dfloor (dmult x x)) = Ok 13.
Proof.
  split; [reflexivity|]. split; [destruct (literal_exact 5 (-1)) as [_ ->]; [lia|lia|reflexivity]|]. split; vm_compute; reflexivity.
Qed.

Example C82_is_close_case :
  let l := map (fun n => literal n (-3)) in
  is_close (l [1; 2]) (l [1; 2]) (literal 0 0) = Ok true /\
  is_close (l [1; 2]) (l [1; 3]) (literal 1 (-4)) = Ok false /\
  is_close (l [1; 2]) (l [1; 3]) (literal 1 (-3)) = Ok true /\
  is_close (l [1; 2]) (l [1]) (literal 1 (-3)) = Ok false /\
  is_close (l [1]) (l [1]) (literal (-1) 0) = Raise ValueError.
Proof. vm_compute. repeat split. Qed.

Print Assumptions C82_davidson_parity.
Print Assumptions C82_davidson.
Print Assumptions C82_davidson_steps.
Print Assumptions C82_davidson_test.
Print Assumptions C82_davidson_exact_refuted.
Print Assumptions C82_davidson_refused.
Print Assumptions C82_symmetrised.
Print Assumptions C82_shown.
Print Assumptions C82_shown_accuracy.
Print Assumptions C82_adapted.
Print Assumptions C82_rates.
Print Assumptions C82_elements.
Print Assumptions C82_symmetric.
Print Assumptions C82_symmetric_refuted.
Print Assumptions C82_elements_accuracy.
Print Assumptions C82_is_close.
