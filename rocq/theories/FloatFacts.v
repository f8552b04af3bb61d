(** Facts about the operations of Float.v. *)

From Coq Require Import ZArith Reals List Lra Lia.
From Flocq Require Import Core BinarySingleNaN Relative.
From Verif Require Import PyBase Compat Float.
Open Scope Z_scope.

(** Rounding to the nearest double, unbounded above. *)
Definition RN (x : R) : R := round radix2 (FLT_exp (-1074) 53) ZnearestE x.
Definition is_double (x : R) : Prop := generic_format radix2 (FLT_exp (-1074) 53) x.

#[local] Instance prec_ok' : Prec_gt_0 53 := prec_ok.
#[local] Instance emax_ok' : Prec_lt_emax 53 1024 := emax_ok.
#[local] Instance vexp : Valid_exp (FLT_exp (-1074) 53) := FLT_exp_valid (-1074) 53.
#[local] Instance mexp : Monotone_exp (FLT_exp (-1074) 53) := FLT_exp_monotone (-1074) 53.

Lemma real_double : forall x, is_double (real x).
Proof. intros x. apply generic_format_B2R. Qed.

Lemma overflow_not_finite : forall (x : double) s, B2SF x = binary_overflow 53 1024 mode_NE s -> finite x = false.
Proof. intros x s H. unfold finite. destruct x; cbn in H; try discriminate; reflexivity. Qed.

Lemma plus_real : forall x y, finite (dplus x y) = true ->
  finite x = true -> finite y = true -> real (dplus x y) = RN (real x + real y).
Proof.
  intros x y F Fx Fy. pose proof (Bplus_correct 53 1024 prec_ok emax_ok mode_NE x y Fx Fy) as H.
  destruct (Rlt_bool _ _); [apply H|]. destruct H as [H _]. apply overflow_not_finite in H.
  change (finite (dplus x y) = false) in H. congruence.
Qed.

Lemma plus_finite : forall x y, finite (dplus x y) = true -> finite x = true /\ finite y = true.
Proof. intros [| | |] [| | |]; cbn; try (intros; split; congruence); try destruct (Bool.eqb _ _); cbn; intros; split; congruence. Qed.

Lemma minus_real : forall x y, finite (dminus x y) = true ->
  finite x = true -> finite y = true -> real (dminus x y) = RN (real x - real y).
Proof.
  intros x y F Fx Fy. pose proof (Bminus_correct 53 1024 prec_ok emax_ok mode_NE x y Fx Fy) as H.
  destruct (Rlt_bool _ _); [apply H|]. destruct H as [H _]. apply overflow_not_finite in H.
  change (finite (dminus x y) = false) in H. congruence.
Qed.

Lemma mult_real : forall x y, finite (dmult x y) = true ->
  finite x = true /\ finite y = true /\ real (dmult x y) = RN (real x * real y).
Proof.
  intros x y F. pose proof (Bmult_correct 53 1024 prec_ok emax_ok mode_NE x y) as H.
  destruct (Rlt_bool _ _).
  - destruct H as (H1 & H2 & _). change (finite (dmult x y) = finite x && finite y)%bool in H2.
    rewrite F in H2. symmetry in H2. apply andb_prop in H2. tauto.
  - apply overflow_not_finite in H. change (finite (dmult x y) = false) in H. congruence.
Qed.

Lemma div_real : forall x y, finite (ddiv x y) = true -> real y <> 0%R ->
  finite x = true /\ real (ddiv x y) = RN (real x / real y).
Proof.
  intros x y F Ny. pose proof (Bdiv_correct 53 1024 prec_ok emax_ok mode_NE x y Ny) as H.
  destruct (Rlt_bool _ _).
  - destruct H as (H1 & H2 & _). change (finite (ddiv x y) = finite x) in H2. split; [congruence|exact H1].
  - apply overflow_not_finite in H. change (finite (ddiv x y) = false) in H. congruence.
Qed.

Lemma RN_le : forall x y, (x <= y)%R -> (RN x <= RN y)%R.
Proof. intros. apply round_le; auto with typeclass_instances. Qed.

Lemma RN_double : forall x, is_double x -> RN x = x.
Proof. intros. apply round_generic; auto with typeclass_instances. Qed.

Lemma RN_is_double : forall x, is_double (RN x).
Proof. intros. apply generic_format_round; auto with typeclass_instances. Qed.

Lemma double_0 : is_double 0.
Proof. apply generic_format_0. Qed.

Lemma RN_0 : RN 0 = 0%R.
Proof. apply RN_double, double_0. Qed.

Lemma RN_ge_0 : forall x, (0 <= x)%R -> (0 <= RN x)%R.
Proof. intros x H. rewrite <- RN_0. now apply RN_le. Qed.

Lemma RN_opp : forall x, RN (- x) = (- RN x)%R.
Proof. intros. apply round_NE_opp. Qed.

(** Dyadic numbers with a short numerator are doubles. *)
Lemma dyadic_double : forall m e, Z.abs m <= 2 ^ 53 -> -1074 <= e <= 900 -> is_double (IZR m * bpow radix2 e).
Proof.
  intros m e Hm He. destruct (Z.eq_dec (Z.abs m) (2 ^ 53)) as [E|E].
  - assert (D : is_double (bpow radix2 (53 + e))).
    { apply generic_format_bpow. unfold FLT_exp. lia. }
    destruct (Z.abs_eq_or_opp m) as [A|A]; rewrite A in E.
    + rewrite E. replace (IZR (2 ^ 53)) with (bpow radix2 53) by reflexivity. now rewrite <- bpow_plus.
    + replace m with (- 2 ^ 53) by lia. replace (IZR (- 2 ^ 53) * bpow radix2 e)%R with (- (bpow radix2 (53 + e)))%R.
      * now apply generic_format_opp.
      * rewrite bpow_plus. replace (IZR (- 2 ^ 53)) with (- bpow radix2 53)%R by reflexivity. ring.
  - apply generic_format_FLT. apply (FLT_spec radix2 (-1074) 53 _ (Float radix2 m e)); cbn; [reflexivity| |lia]. lia.
Qed.

Lemma int_double : forall m, Z.abs m <= 2 ^ 53 -> is_double (IZR m).
Proof. intros m H. replace (IZR m) with (IZR m * bpow radix2 0)%R by (cbn; ring). apply dyadic_double; lia. Qed.

(** When a result does not overflow. *)
Definition small (x : R) : Prop := (Rabs x <= bpow radix2 1023)%R.

Lemma small_RN : forall x, small x -> Rlt_bool (Rabs (RN x)) (bpow radix2 1024) = true.
Proof.
  intros x H. apply Rlt_bool_true. apply Rle_lt_trans with (bpow radix2 1023); [|apply bpow_lt; lia].
  apply abs_round_le_generic; auto with typeclass_instances. apply generic_format_bpow. unfold FLT_exp. lia.
Qed.

Lemma plus_small : forall x y, finite x = true -> finite y = true -> small (real x + real y) ->
  finite (dplus x y) = true /\ real (dplus x y) = RN (real x + real y).
Proof.
  intros x y Fx Fy S. pose proof (Bplus_correct 53 1024 prec_ok emax_ok mode_NE x y Fx Fy) as H.
  change (Rlt_bool (Rabs (round radix2 (SpecFloat.fexp 53 1024) (round_mode mode_NE) (B2R x + B2R y))) (bpow radix2 1024))
    with (Rlt_bool (Rabs (RN (real x + real y))) (bpow radix2 1024)) in H.
  rewrite (small_RN _ S) in H. destruct H as (H1 & H2 & _). split; assumption.
Qed.

Lemma minus_small : forall x y, finite x = true -> finite y = true -> small (real x - real y) ->
  finite (dminus x y) = true /\ real (dminus x y) = RN (real x - real y).
Proof.
  intros x y Fx Fy S. pose proof (Bminus_correct 53 1024 prec_ok emax_ok mode_NE x y Fx Fy) as H.
  change (Rlt_bool (Rabs (round radix2 (SpecFloat.fexp 53 1024) (round_mode mode_NE) (B2R x - B2R y))) (bpow radix2 1024))
    with (Rlt_bool (Rabs (RN (real x - real y))) (bpow radix2 1024)) in H.
  rewrite (small_RN _ S) in H. destruct H as (H1 & H2 & _). split; assumption.
Qed.

Lemma mult_small : forall x y, finite x = true -> finite y = true -> small (real x * real y) ->
  finite (dmult x y) = true /\ real (dmult x y) = RN (real x * real y).
Proof.
  intros x y Fx Fy S. pose proof (Bmult_correct 53 1024 prec_ok emax_ok mode_NE x y) as H.
  change (Rlt_bool (Rabs (round radix2 (SpecFloat.fexp 53 1024) (round_mode mode_NE) (B2R x * B2R y))) (bpow radix2 1024))
    with (Rlt_bool (Rabs (RN (real x * real y))) (bpow radix2 1024)) in H.
  rewrite (small_RN _ S) in H. destruct H as (H1 & H2 & _).
  change (finite (dmult x y) = finite x && finite y)%bool in H2. rewrite Fx, Fy in H2. split; assumption.
Qed.

Lemma div_small : forall x y, finite x = true -> real y <> 0%R -> small (real x / real y) ->
  finite (ddiv x y) = true /\ real (ddiv x y) = RN (real x / real y).
Proof.
  intros x y Fx Ny S. pose proof (Bdiv_correct 53 1024 prec_ok emax_ok mode_NE x y Ny) as H.
  change (Rlt_bool (Rabs (round radix2 (SpecFloat.fexp 53 1024) (round_mode mode_NE) (B2R x / B2R y))) (bpow radix2 1024))
    with (Rlt_bool (Rabs (RN (real x / real y))) (bpow radix2 1024)) in H.
  rewrite (small_RN _ S) in H. destruct H as (H1 & H2 & _).
  change (finite (ddiv x y) = finite x) in H2. rewrite Fx in H2. split; assumption.
Qed.

Lemma literal_small : forall m e, small (IZR m * bpow radix2 e) ->
  finite (literal m e) = true /\ real (literal m e) = RN (IZR m * bpow radix2 e) /\
  Bsign (literal m e) = (m <? 0).
Proof.
  intros m e S. pose proof (binary_normalize_correct 53 1024 prec_ok emax_ok mode_NE m e false) as H. cbv zeta in H.
  change (Rlt_bool (Rabs (round radix2 (SpecFloat.fexp 53 1024) (round_mode mode_NE) (F2R (Float radix2 m e)))) (bpow radix2 1024))
    with (Rlt_bool (Rabs (RN (IZR m * bpow radix2 e))) (bpow radix2 1024)) in H.
  rewrite (small_RN _ S) in H. destruct H as (H1 & H2 & H3). split; [|split]; [assumption..|].
  unfold literal. rewrite H3. change (F2R (Float radix2 m e)) with (IZR m * bpow radix2 e)%R.
  pose proof (bpow_gt_0 radix2 e) as P.
  destruct (Z.ltb_spec m 0) as [L|L].
  - rewrite Rcompare_Lt; [reflexivity|]. apply IZR_lt in L. nra.
  - destruct (Z.eq_dec m 0) as [->|N].
    + rewrite Rcompare_Eq; [reflexivity|]. ring.
    + rewrite Rcompare_Gt; [reflexivity|]. assert (L' : 0 < m) by lia. apply IZR_lt in L'. nra.
Qed.

Lemma literal_exact : forall m e, Z.abs m <= 2 ^ 53 -> -1074 <= e <= 900 ->
  finite (literal m e) = true /\ real (literal m e) = (IZR m * bpow radix2 e)%R.
Proof.
  intros m e Hm He. assert (S : small (IZR m * bpow radix2 e)).
  { unfold small. rewrite Rabs_mult, (Rabs_pos_eq (bpow _ _)) by apply bpow_ge_0.
    rewrite <- abs_IZR. apply Rle_trans with (bpow radix2 53 * bpow radix2 e)%R.
    - apply Rmult_le_compat_r; [apply bpow_ge_0|]. change (bpow radix2 53) with (IZR (2 ^ 53)). now apply IZR_le.
    - rewrite <- bpow_plus. apply bpow_le. lia. }
  destruct (literal_small m e S) as (A & B & _). split; [exact A|]. rewrite B. apply RN_double. now apply dyadic_double.
Qed.

Lemma of_int_exact : forall n, Z.abs n <= 2 ^ 53 -> exists x, of_int n = Ok x /\ finite x = true /\ real x = IZR n.
Proof.
  intros n H. destruct (literal_exact n 0 H ltac:(lia)) as [A B]. exists (literal n 0). unfold of_int. rewrite A.
  repeat split; auto. rewrite B. cbn. ring.
Qed.

Lemma zero_lt : forall x, finite x = true -> dlt x (literal 0 0) = Rlt_bool (real x) 0.
Proof.
  intros x F. unfold dlt. rewrite Bltb_correct; [|exact F|reflexivity]. reflexivity.
Qed.

Lemma sqrt_real : forall x, finite x = true -> (0 <= real x)%R ->
  exists y, dsqrt x = Ok y /\ finite y = true /\ real y = RN (sqrt (real x)).
Proof.
  intros x F P. unfold dsqrt. rewrite (zero_lt x F), Rlt_bool_false by exact P. eexists. split; [reflexivity|].
  destruct (Bsqrt_correct 53 1024 prec_ok emax_ok mode_NE x) as (A & B & _). split; [|exact A].
  unfold finite. rewrite B. destruct x as [s| | |[] m e Hb]; try reflexivity; try discriminate F.
  exfalso. cbn in P. assert (F2R (Float radix2 (Z.neg m) e) < 0)%R by (apply F2R_lt_0; reflexivity). lra.
Qed.

Lemma floor_real : forall x, finite x = true -> dfloor x = Ok (Zfloor (real x)).
Proof.
  intros [s| | |s m e Hb] F; try discriminate F.
  - cbn. f_equal. symmetry. apply (Zfloor_IZR 0).
  - unfold dfloor, real. cbv beta iota zeta. f_equal. set (z := if s then Z.neg m else Z.pos m).
    assert (E : B2R (B754_finite s m e Hb) = (IZR z * bpow radix2 e)%R) by (unfold z; destruct s; reflexivity).
    rewrite E. destruct (Z.leb_spec 0 e) as [L|L].
    + rewrite <- IZR_Zpower by exact L. rewrite <- mult_IZR. now rewrite Zfloor_IZR.
    + replace (bpow radix2 e) with (/ IZR (2 ^ (- e)))%R.
      * change (IZR z * / IZR (2 ^ - e))%R with (IZR z / IZR (2 ^ (- e)))%R. symmetry. apply Zfloor_div.
        intros Z0. pose proof (Z.pow_pos_nonneg 2 (- e) ltac:(lia) ltac:(lia)). lia.
      * change (2 ^ (- e)) with (Zpower radix2 (- e)). rewrite IZR_Zpower by lia. rewrite bpow_opp. now rewrite Rinv_inv.
Qed.

(** Absolute error of rounding a number below [2^k]. *)
Lemma RN_error : forall x k, -1000 <= k -> (Rabs x <= bpow radix2 k)%R -> (Rabs (RN x - x) <= bpow radix2 (k - 53))%R.
Proof.
  intros x k Hk Hx. destruct (Req_dec (Rabs x) (bpow radix2 k)) as [E|E].
  - rewrite RN_double; [rewrite Rminus_diag_eq, Rabs_R0 by reflexivity; apply bpow_ge_0|].
    assert (D : is_double (bpow radix2 k)) by (apply generic_format_bpow; unfold FLT_exp; lia).
    unfold Rabs in E. destruct (Rcase_abs x); [replace x with (- bpow radix2 k)%R by lra; now apply generic_format_opp|now rewrite E].
  - apply Rle_trans with (/ 2 * ulp radix2 (FLT_exp (-1074) 53) x)%R; [apply error_le_half_ulp; auto with typeclass_instances|].
    destruct (Req_dec x 0) as [->|N].
    + apply Rle_trans with (/ 2 * bpow radix2 (-1074))%R.
      * apply Rmult_le_compat_l; [lra|]. rewrite ulp_FLT_0 by (exact prec_ok). lra.
      * replace (/ 2)%R with (bpow radix2 (-1)) by reflexivity. rewrite <- bpow_plus. apply bpow_le. lia.
    + rewrite ulp_neq_0 by exact N. replace (/ 2)%R with (bpow radix2 (-1)) by reflexivity. rewrite <- bpow_plus. apply bpow_le.
      unfold cexp, FLT_exp. assert (M : mag radix2 x <= k) by (apply mag_le_bpow; [exact N|lra]). lia.
Qed.

(** Relative error. *)
Lemma RN_relative : forall x, (bpow radix2 (-1022) <= Rabs x)%R ->
  exists eps, (Rabs eps <= bpow radix2 (-53))%R /\ RN x = (x * (1 + eps))%R.
Proof.
  intros x H. destruct (relative_error_N_FLT_ex radix2 (-1074) 53 eq_refl (fun n => negb (Z.even n)) x) as (eps & A & B).
  - exact H.
  - exists eps. split; [|exact B]. replace (bpow radix2 (-53)) with (/ 2 * bpow radix2 (-53 + 1))%R; [exact A|].
    replace (/ 2)%R with (bpow radix2 (-1)) by reflexivity. now rewrite <- bpow_plus.
Qed.

(** Addition commutes, on all doubles. *)
Lemma plus_comm : forall x y, dplus x y = dplus y x.
Proof.
  intros [s| s| |s m e H] [s'|s'| |s' m' e' H']; try reflexivity.
  - destruct s, s'; reflexivity.
  - destruct s, s'; reflexivity.
  - cbn. unfold Fplus_naive. now rewrite Z.add_comm, Z.min_comm.
Qed.
