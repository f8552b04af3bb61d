(** C76: the radial matrix elements are the integrals they stand for. *)

From Coq Require Import Reals Lra Lia ZArith.
From Coquelicot Require Import Coquelicot.
From Verif Require Import PyBase Matrix RadialME RadialMESpec RadialMEFacts IdFacts.
From Verif Require Import Improper Laguerre Waves WaveSpec WaveFacts.
Open Scope Z_scope.

(** Euler's integral has the two properties that C24-C26, C63 and C64 ask of
    the Gamma function. *)
Theorem C76_gamma : gamma_like Gamma /\
  forall s, (0 < s)%R -> integral (fun t => Rpower t (s - 1) * exp (- t))%R (Gamma s).
Proof. split; [exact gamma_like_Gamma|]. intros s Hs. now apply euler_integral. Qed.

Theorem C76_orthonormal : forall a lam, (0 < a)%R -> (0 < lam)%R ->
  elements a lam lam op_one rid.
Proof.
  intros a lam Ha Hl. apply (elements_req a lam lam op_one (rscale 1 rid)); [intros f i _ _; unfold rscale; ring|].
  apply (el_elements a lam lam op_one (W lam)); [exact Ha|now apply el_one|]. intros i b Hi Hb. unfold op_one. rewrite wave_W. ring.
Qed.

(** The derivatives that appear below exist. *)
Theorem C76_differentiable : forall a lam nu b, (0 < a)%R -> (0 < lam)%R -> 0 <= nu -> (0 < b)%R ->
  ex_derive (wave a lam nu) b /\ ex_derive (Derive (wave a lam nu)) b.
Proof.
  intros a lam nu b Ha Hl Hn Hb. split; eexists; [now apply wave_derive1|now apply wave_derive2].
Qed.

Section Elements.
  Variables a lam : R.
  Hypothesis Ha : (0 < a)%R.
  Hypothesis Hl : (0 < lam)%R.

  (** beta. *)
  Theorem C76_beta : exists up down,
    represents (ME_Radial_b_pl lam) up /\ elements a (lam + 1) lam op_beta (rscale (/ a) up) /\
    represents (ME_Radial_b_ml (lam + 1)) down /\ elements a lam (lam + 1) op_beta (rscale (/ a) down).
  Proof.
    exists (v_b_pl lam), (v_b_ml (lam + 1)). split; [now apply b_pl_rep|]. split; [|split; [apply b_ml_rep; lra|]].
    - apply (el_elements a _ _ op_beta (fun i b => b * W lam i b)%R); [exact Ha|now apply el_b_pl|].
      intros i b Hi Hb. unfold op_beta. rewrite wave_W. field. lra.
    - apply (el_elements a _ _ op_beta (fun i b => b * W (lam + 1) i b)%R); [exact Ha|now apply el_b_ml|].
      intros i b Hi Hb. unfold op_beta. rewrite wave_W. field. lra.
  Qed.

  (** 1/beta. *)
  Theorem C76_inverse : exists up down,
    represents (ME_Radial_bm_pl Gamma lam) up /\ elements a (lam + 1) lam op_inv (rscale a up) /\
    represents (ME_Radial_bm_ml Gamma (lam + 1)) down /\ elements a lam (lam + 1) op_inv (rscale a down).
  Proof.
    exists (v_bm_pl Gamma lam), (v_bm_ml Gamma (lam + 1)). pose proof gamma_like_Gamma as HG.
    split; [now apply bm_pl_rep|]. split; [|split; [apply bm_ml_rep; [exact HG|lra]|]].
    - apply (el_elements a _ _ op_inv (fun i b => W lam i b / b)%R); [exact Ha|now apply el_bm_pl|].
      intros i b Hi Hb. unfold op_inv. rewrite wave_W. field. lra.
    - apply (el_elements a _ _ op_inv (fun i b => W (lam + 1) i b / b)%R); [exact Ha|now apply el_bm_ml|].
      intros i b Hi Hb. unfold op_inv. rewrite wave_W. field. lra.
  Qed.

  (** d/dbeta. *)
  Theorem C76_derivative : exists up down,
    represents (ME_Radial_Db_pl Gamma lam) up /\ elements a (lam + 1) lam op_diff (rscale a up) /\
    represents (ME_Radial_Db_ml Gamma (lam + 1)) down /\ elements a lam (lam + 1) op_diff (rscale a down).
  Proof.
    exists (v_Db_pl Gamma lam), (v_Db_ml Gamma (lam + 1)). pose proof gamma_like_Gamma as HG.
    split; [now apply Db_pl_rep|]. split; [|split; [apply Db_ml_rep; [exact HG|lra]|]].
    - apply (el_elements a _ _ op_diff (fun i b => Derive (W lam i) b)); [exact Ha|now apply el_Db_pl|].
      intros i b Hi Hb. unfold op_diff. apply is_derive_unique, wave_derive1; assumption || lra.
    - apply (el_elements a _ _ op_diff (fun i b => Derive (W (lam + 1) i) b)); [exact Ha|now apply el_Db_ml|].
      intros i b Hi Hb. unfold op_diff. apply is_derive_unique, wave_derive1; assumption || lra.
  Qed.

  (** beta^2 and beta d/dbeta. *)
  Theorem C76_beta2_and_bDb : exists b2 bDb,
    represents (ME_Radial_b2 lam) b2 /\ elements a lam lam (fun g => op_beta (op_beta g)) (rscale (/ (a * a)) b2) /\
    represents (ME_Radial_bDb lam) bDb /\ elements a lam lam (fun g => op_beta (op_diff g)) bDb.
  Proof.
    exists (v_b2 lam), (v_bDb lam). split; [now apply b2_rep|]. split; [|split; [now apply bDb_rep|]].
    - apply (el_elements a _ _ _ (fun i b => b * (b * W lam i b))%R); [exact Ha|now apply el_b2|].
      intros i b Hi Hb. unfold op_beta. rewrite wave_W. field. lra.
    - apply (elements_req a lam lam _ (rscale 1 (v_bDb lam))); [intros f i _ _; unfold rscale; ring|].
      apply (el_elements a _ _ _ (fun i b => b * Derive (W lam i) b)%R); [exact Ha|now apply el_bDb|].
      intros i b Hi Hb. unfold op_beta, op_diff. rewrite (is_derive_unique _ _ _ (wave_derive1 a lam i b Ha Hl Hi Hb)). ring.
  Qed.

  (** The generators of SU(1,1). *)
  Theorem C76_su11 : exists S0 Sp Sm,
    represents (ME_Radial_S0 lam) S0 /\ elements a lam lam (op_S0 a lam) S0 /\
    represents (ME_Radial_Sp lam) Sp /\ elements a lam lam (op_Sp a lam) Sp /\
    represents (ME_Radial_Sm lam) Sm /\ elements a lam lam (op_Sm a lam) Sm.
  Proof.
    assert (U : forall M, req (rscale 1 M) M) by (intros M f i _ _; unfold rscale; ring).
    exists (v_S0 lam), (v_Sp lam), (v_Sm lam). split; [apply S0_rep|]. split; [|split; [now apply Sp_rep|split; [|split; [now apply Sm_rep|]]]];
      apply (elements_req a lam lam _ _ _ (U _)).
    - apply (el_elements a _ _ _ _ _ _ Ha (el_S0 lam Hl)). intros. now apply wave_S0.
    - apply (el_elements a _ _ _ _ _ _ Ha (el_Sp lam Hl)). intros. now apply wave_Sp.
    - apply (el_elements a _ _ _ _ _ _ Ha (el_Sm lam Hl)). intros. now apply wave_Sm.
  Qed.

  (** 1/beta^2 and d2/dbeta2, where the integrals converge. *)
  Theorem C76_inverse_square_and_second_derivative : (1 < lam)%R -> exists i2 D2,
    represents (ME_Radial_bm2 Gamma lam) i2 /\ elements a lam lam (fun g => op_inv (op_inv g)) (rscale (a * a) i2) /\
    represents (ME_Radial_D2b Gamma lam) D2 /\ elements a lam lam (fun g => op_diff (op_diff g)) (rscale (a * a) D2).
  Proof.
    intros H1. pose proof gamma_like_Gamma as HG. exists (v_bm2 Gamma lam), (v_D2b Gamma lam).
    split; [now apply bm2_rep|]. split; [|split; [now apply D2b_rep|]].
    - pose proof (el_bm2 (lam - 1) ltac:(lra)) as B. replace (lam - 1 + 1)%R with lam in B by ring.
      apply (el_elements a _ _ _ _ _ _ Ha B). intros i b Hi Hb. unfold op_inv. rewrite wave_W. field. lra.
    - apply (el_elements a _ _ _ _ _ _ Ha (el_D2b lam H1)). intros i b Hi Hb. exact (is_derive_unique _ _ _ (wave_derive2 a lam i b Ha Hl Hi Hb)).
  Qed.

  (** The identity, between bases whose lambdas differ by 2r. *)
  Theorem C76_identity : forall r, 0 <= r -> exists up down,
    represents (fun f i => ME_Radial_id_pl Gamma lam f i r) up /\ elements a (lam + 2 * IZR r) lam op_one up /\
    represents (fun f i => ME_Radial_id_ml Gamma (lam + 2 * IZR r) f i r) down /\ elements a lam (lam + 2 * IZR r) op_one down.
  Proof.
    intros r Hr. pose proof gamma_like_Gamma as HG. pose proof (IZR_nonneg _ Hr).
    assert (U : forall M, req (rscale 1 M) M) by (intros M f i _ _; unfold rscale; ring).
    replace (IZR r) with (INR (Z.to_nat r)) by now apply INR_to_nat.
    exists (v_id Gamma (Z.to_nat r) lam), (rtr (v_id Gamma (Z.to_nat r) lam)).
    split; [|split; [|split]].
    - intros f i Hf Hi. pose proof (id_pl_value Gamma HG lam f i (Z.to_nat r) Hl Hf Hi) as E. rewrite Z2Nat.id in E by assumption. exact E.
    - apply (elements_req _ _ _ _ _ _ (U _)). apply (el_elements a _ _ _ _ _ _ Ha (el_id lam (Z.to_nat r) Hl)).
      intros i b Hi Hb. unfold op_one. rewrite wave_W. ring.
    - intros f i Hf Hi. pose proof (id_ml_transpose Gamma lam f i (Z.to_nat r) Hl Hf Hi) as E.
      rewrite Z2Nat.id in E by assumption. rewrite INR_to_nat by assumption. rewrite E.
      pose proof (id_pl_value Gamma HG lam i f (Z.to_nat r) Hl Hi Hf) as E'. rewrite Z2Nat.id in E' by assumption. exact E'.
    - apply (elements_req _ _ _ _ _ _ (U _)). apply (el_elements a _ _ _ _ _ _ Ha (el_id_ml lam (Z.to_nat r) Hl)).
      intros i b Hi Hb. unfold op_one. rewrite wave_W. ring.
  Qed.
End Elements.

(** The values are unique: an integral has one value. *)
Theorem C76_unique : forall a lam' lam T M M', elements a lam' lam T M -> elements a lam' lam T M' -> req M M'.
Proof. intros a lam' lam T M M' H H' f i Hf Hi. exact (integral_unique _ _ _ (H f i Hf Hi) (H' f i Hf Hi)). Qed.

(** For 0 < lambda < 1 the function for 1/beta^2 does not raise, but what it
    returns is not the integral: the diagonal element is negative, the integrand
    is not. *)
Lemma integral_nonneg f v : (forall x, (0 < x)%R -> (0 <= f x)%R) -> integral f v -> (0 <= v)%R.
Proof.
  intros Hf H. destruct (Rle_dec 0 v) as [E|N]; [exact E|exfalso].
  destruct (integral_elim f v H (- v) ltac:(lra)) as (a0 & b0 & Ha & K).
  set (x := (a0 / 2)%R). set (y := (Rmax b0 x + 1)%R).
  pose proof (Rmax_l b0 x). pose proof (Rmax_r b0 x).
  destruct (K x y) as (z & I & D); [unfold x; lra|unfold y; lra|].
  assert (0 <= z)%R.
  { apply (is_RInt_le (fun _ => 0%R) f x y); [unfold y; lra| |exact I|intros t Ht; apply Hf; unfold x in *; lra].
    pose proof (is_RInt_const x y 0%R) as C. unfold scal in C. cbn in C. unfold mult in C. cbn in C. rewrite Rmult_0_r in C. exact C. }
  apply Rabs_def2 in D. lra.
Qed.
Theorem C76_small_lambda_refuted : forall a lam, (0 < a)%R -> (0 < lam < 1)%R ->
  ME_Radial_bm2 Gamma lam 0 0 = Ok (1 / (lam - 1))%R /\
  ~ integral (fun b => wave a lam 0 b * op_inv (op_inv (wave a lam 0)) b)%R (a * a * (1 / (lam - 1)))%R.
Proof.
  intros a lam Ha [H0 H1]. assert (HN : (1 / (lam - 1) < 0)%R).
  { unfold Rdiv. rewrite Rmult_1_l. apply Rinv_lt_0_compat. lra. }
  split.
  - unfold ME_Radial_bm2. destruct (Req_EM_T lam (-1)); [lra|]. rewrite no_pole by (lra || lia).
    cbn [orb]. rewrite Bool.andb_false_r. unfold ME_Radial_pt. destruct (Req_EM_T lam 1); [lra|]. cbn [Z.max Z.min Z.compare].
    assert (G : (0 < poch Gamma (0 + 1) (lam - 1))%R) by (unfold poch; apply Rdiv_lt_0_compat; apply Gamma_pos; lra).
    replace (poch Gamma (0 + 1) (lam - 1) / poch Gamma (0 + 1) (lam - 1))%R with 1%R by (field; lra).
    rewrite math_sqrt_ok by lra. cbn [bind]. rewrite sqrt_1. unfold m1pow. cbn [Z.sub Z.opp Z.add powerRZ]. f_equal. field. lra.
  - intros E. apply integral_nonneg in E.
    + pose proof (Rmult_lt_0_compat a a Ha Ha). nra.
    + intros b Hb. unfold op_inv. replace (wave a lam 0 b * (wave a lam 0 b / b / b))%R with ((wave a lam 0 b / b) * (wave a lam 0 b / b))%R by (field; lra).
      apply Rle_0_sqr.
Qed.

(** The ground state of the five-dimensional oscillator, and one integral. *)
Example C76_example_wave : forall b, (0 < b)%R ->
  wave 1 (5/2) 0 b = (sqrt (2 / Gamma (5/2)) * (b * b) * exp (- (b * b) / 2))%R.
Proof.
  intros b Hb. unfold wave. cbn [Z.to_nat fact INR pow laguerre]. rewrite !Rmult_1_l, sqrt_1, !Rmult_1_r.
  replace (5 / 2 - 1 / 2)%R with (INR 2) by (cbn; field). rewrite Rpower_pow by exact Hb. replace (5 / 2 + 0)%R with (5 / 2)%R by ring. cbn [pow]. ring.
Qed.
Example C76_example_gamma : Gamma (5/2) = (3 / 4 * Gamma (1/2))%R.
Proof.
  replace (5 / 2)%R with (1 / 2 + 1 + 1)%R by field. rewrite !Gamma_succ by lra. field.
Qed.
Example C76_example : integral (fun b => wave 3 (7/2) 1 b * (b * wave 3 (5/2) 2 b))%R (sqrt 2 / 3)%R.
Proof.
  destruct (C76_beta 3 (5/2) ltac:(lra) ltac:(lra)) as (up & down & R1 & E1 & _).
  specialize (E1 1 2 ltac:(lia) ltac:(lia)). replace (5 / 2 + 1)%R with (7 / 2)%R in E1 by field.
  replace (rscale (/ 3) up 1 2) with (sqrt 2 / 3)%R in E1; [exact E1|]. unfold rscale.
  specialize (R1 1 2 ltac:(lia) ltac:(lia)). unfold ME_Radial_b_pl in R1. cbn [Z.eqb Z.sub Z.add Z.opp Pos.eqb Z.pos_sub Pos.pred_double] in R1.
  rewrite math_sqrt_ok in R1 by lra. injection R1 as <-. field.
Qed.

Print Assumptions C76_gamma.
Print Assumptions C76_orthonormal.
Print Assumptions C76_differentiable.
Print Assumptions C76_beta.
Print Assumptions C76_inverse.
Print Assumptions C76_derivative.
Print Assumptions C76_beta2_and_bDb.
Print Assumptions C76_su11.
Print Assumptions C76_inverse_square_and_second_derivative.
Print Assumptions C76_identity.
Print Assumptions C76_unique.
Print Assumptions C76_small_lambda_refuted.
