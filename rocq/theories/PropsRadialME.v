(** C23-C26: relations between the radial matrix elements.

    [represents f M] says that the code's function returns M's entries and never
    raises; [prod_is A B C] that the matrix product A.B is C, each entry being
    already exact when the sum stops at mu = f+1 (RadialMESpec). *)

From Coq Require Import Reals Lia ZifyBool ZifyNat Lra.
From Verif Require Import PyBase PyFacts Compat Matrix RadialME RadialMESpec RadialMEFacts IdFacts.
Open Scope Z_scope.
Ltac Zify.zify_post_hook ::= Z.div_mod_to_equations.

(** The hypothesis [gamma_like] has a model. *)
Definition gamma0 (x : R) : R :=
  (rising (x - IZR (Int_part x) + 1) (Z.to_nat (Int_part x)) / x)%R.

Lemma Int_part_S x : Int_part (x + 1) = Int_part x + 1.
Proof.
  unfold Int_part. destruct (archimed x) as [H1 H2].
  rewrite <- (tech_up (x + 1) (up x + 1)); [lia| |]; rewrite plus_IZR; lra.
Qed.

Lemma rising_pos x n : (0 < x)%R -> (0 < rising x n)%R.
Proof.
  intros Hx. induction n as [|n IH]; cbn [rising]; [lra|].
  pose proof (pos_INR n). apply Rmult_lt_0_compat; lra.
Qed.

Example gamma_like_gamma0 : gamma_like gamma0.
Proof.
  intros x Hx. unfold gamma0. rewrite Int_part_S.
  destruct (base_Int_part x) as [H1 H2].
  assert (H3 : 0 <= Int_part x).
  { assert (-1 < Int_part x) by (apply lt_IZR; lra). lia. }
  split.
  - apply Rdiv_lt_0_compat; [|assumption]. apply rising_pos. lra.
  - replace (Z.to_nat (Int_part x + 1)) with (S (Z.to_nat (Int_part x))) by lia.
    replace (x + 1 - IZR (Int_part x + 1) + 1)%R with (x - IZR (Int_part x) + 1)%R
      by (rewrite plus_IZR; ring).
    cbn [rising]. rewrite INR_IZR_INZ, Z2Nat.id by assumption.
    field. lra.
Qed.

(** [A . B - B . A = C]. *)
Definition commutator_is (A B C : rmat) : Prop :=
  forall f i (N : nat), 0 <= f -> 0 <= i -> f + 2 <= Z.of_nat N -> i + 2 <= Z.of_nat N ->
    (rsum (fun k => A f k * B k i) N - rsum (fun k => B f k * A k i) N = C f i)%R.

(** ** C23 *)

Theorem C23_su11_relations : forall lam, (0 < lam)%R ->
  exists S0 Sp Sm,
    represents (ME_Radial_S0 lam) S0 /\ represents (ME_Radial_Sp lam) Sp /\
    represents (ME_Radial_Sm lam) Sm /\
    commutator_is S0 Sp Sp /\ commutator_is S0 Sm (rscale (-1) Sm) /\
    commutator_is Sm Sp (rscale 2 S0) /\ req Sm (rtr Sp).
Proof.
  intros lam Hl. exists (v_S0 lam), (v_Sp lam), (v_Sm lam).
  split; [apply S0_rep|]. split; [now apply Sp_rep|]. split; [now apply Sm_rep|].
  split; [intros f i N ? ? ? ?; now apply S0_Sp|].
  split; [intros f i N ? ? ? ?; unfold rscale; rewrite S0_Sm by assumption; ring|].
  split; [intros f i N ? ? ? ?; unfold rscale; now apply Sm_Sp|].
  intros f i Hf Hi. unfold rtr, v_Sm, v_Sp. eqbs; reflexivity.
Qed.

Theorem C23_casimir : forall lam, (0 < lam)%R ->
  forall S0 Sp Sm, represents (ME_Radial_S0 lam) S0 -> represents (ME_Radial_Sp lam) Sp ->
    represents (ME_Radial_Sm lam) Sm ->
  forall f i (N : nat), 0 <= f -> 0 <= i -> f + 2 <= Z.of_nat N ->
    (rsum (fun k => S0 f k * S0 k i) N - S0 f i - rsum (fun k => Sp f k * Sm k i) N
     = lam / 2 * (lam / 2 - 1) * rid f i)%R.
Proof.
  intros lam Hl S0 Sp Sm R0 Rp Rm f i N Hf Hi HN.
  assert (E0 : forall f i, 0 <= f -> 0 <= i -> S0 f i = v_S0 lam f i).
  { intros a b Ha Hb. pose proof (S0_rep lam a b Ha Hb). rewrite R0 in H by assumption. congruence. }
  assert (Ep : forall f i, 0 <= f -> 0 <= i -> Sp f i = v_Sp lam f i).
  { intros a b Ha Hb. pose proof (Sp_rep lam Hl a b Ha Hb). rewrite Rp in H by assumption. congruence. }
  assert (Em : forall f i, 0 <= f -> 0 <= i -> Sm f i = v_Sm lam f i).
  { intros a b Ha Hb. pose proof (Sm_rep lam Hl a b Ha Hb). rewrite Rm in H by assumption. congruence. }
  rewrite <- (casimir lam Hl f i N Hf Hi HN). rewrite E0 by assumption. f_equal; [f_equal|].
  - apply rsum_ext. intros k Hk. rewrite !E0 by lia. reflexivity.
  - apply rsum_ext. intros k Hk. rewrite Ep, Em by lia. reflexivity.
Qed.

Theorem C23_beta2_and_bDb : forall lam, (0 < lam)%R ->
  exists S0 Sp Sm b2 bDb,
    represents (ME_Radial_S0 lam) S0 /\ represents (ME_Radial_Sp lam) Sp /\
    represents (ME_Radial_Sm lam) Sm /\ represents (ME_Radial_b2 lam) b2 /\
    represents (ME_Radial_bDb lam) bDb /\
    req b2 (radd (rscale 2 S0) (radd Sp Sm)) /\
    req bDb (rsub (rsub Sm Sp) (rscale (1/2) rid)).
Proof.
  intros lam Hl. exists (v_S0 lam), (v_Sp lam), (v_Sm lam), (v_b2 lam), (v_bDb lam).
  split; [apply S0_rep|]. split; [now apply Sp_rep|]. split; [now apply Sm_rep|].
  split; [now apply b2_rep|]. split; [now apply bDb_rep|].
  split; intros f i Hf Hi; unfold radd, rsub, rscale, rid, v_b2, v_bDb, v_S0, v_Sp, v_Sm;
    eqbs; lra.
Qed.

Example C23_nontrivial : ME_Radial_Sp (5/2) 3 2 = Ok (sqrt (27/2)) /\
  ME_Radial_S0 (5/2) 2 2 = Ok (13/4)%R /\ ME_Radial_b2 (5/2) 2 2 = Ok (13/2)%R.
Proof.
  split; [|split; unfold ME_Radial_S0, ME_Radial_b2; cbn; f_equal; lra].
  unfold ME_Radial_Sp. change (3 =? 2 + 1) with true. cbn iota.
  rewrite math_sqrt_ok by lra. do 2 f_equal. lra.
Qed.

(** ** C24 *)

(** beta up then beta down is beta^2, in both orders of going round; the two
    ladders are transposes of each other. *)
Theorem C24_beta_ladders_square : forall lam, (0 < lam)%R ->
  exists up down b2 b2_next,
    represents (ME_Radial_b_pl lam) up /\ represents (ME_Radial_b_ml (lam + 1)) down /\
    represents (ME_Radial_b2 lam) b2 /\ represents (ME_Radial_b2 (lam + 1)) b2_next /\
    req down (rtr up) /\ prod_is down up b2 /\ prod_is up down b2_next.
Proof.
  intros lam Hl.
  exists (v_b_pl lam), (v_b_ml (lam + 1)), (v_b2 lam), (v_b2 (lam + 1)).
  split; [now apply b_pl_rep|]. split; [apply b_ml_rep; lra|]. split; [now apply b2_rep|].
  split; [apply b2_rep; lra|].
  split; [apply b_pl_ml_tr|]. split; [now apply b_ml_b_pl|].
  pose proof (b_pl_b_ml (lam + 1) ltac:(lra)) as H.
  replace (lam + 1 - 1)%R with lam in H by ring. exact H.
Qed.

(** The 1/beta matrices are two-sided inverses of the beta ladders. *)
Theorem C24_inverses : forall Gam lam, gamma_like Gam -> (0 < lam)%R ->
  exists b_up b_down i_up i_down,
    represents (ME_Radial_b_pl lam) b_up /\ represents (ME_Radial_b_ml (lam + 1)) b_down /\
    represents (ME_Radial_bm_pl Gam lam) i_up /\
    represents (ME_Radial_bm_ml Gam (lam + 1)) i_down /\
    req i_down (rtr i_up) /\
    prod_is b_up i_down rid /\ prod_is b_down i_up rid /\
    (forall f i (N : nat), 0 <= f -> 0 <= i -> i + 2 <= Z.of_nat N ->
      rsum (fun k => (i_down f k * b_up k i)%R) N = rid f i) /\
    (forall f i (N : nat), 0 <= f -> 0 <= i -> i + 2 <= Z.of_nat N ->
      rsum (fun k => (i_up f k * b_down k i)%R) N = rid f i).
Proof.
  intros Gam lam HG Hl.
  exists (v_b_pl lam), (v_b_ml (lam + 1)), (v_bm_pl Gam lam), (v_bm_ml Gam (lam + 1)).
  split; [now apply b_pl_rep|]. split; [apply b_ml_rep; lra|]. split; [now apply bm_pl_rep|].
  split; [apply bm_ml_rep; [assumption|lra]|]. split; [now apply bm_pl_ml_tr|].
  split; [now apply b_pl_bm_ml|]. split; [now apply b_ml_bm_pl|].
  split; intros; [apply bm_ml_b_pl; assumption || lia|apply bm_pl_b_ml; assumption || lia].
Qed.

(** d/dbeta: beta . d/dbeta is the bDb matrix across either shift, d/dbeta is
    antisymmetric, and [d/dbeta, beta] = 1. *)
Theorem C24_derivative : forall Gam lam, gamma_like Gam -> (0 < lam)%R ->
  exists b_up b_down D_up D_down bDb bDb_next,
    represents (ME_Radial_b_pl lam) b_up /\ represents (ME_Radial_b_ml (lam + 1)) b_down /\
    represents (ME_Radial_Db_pl Gam lam) D_up /\
    represents (ME_Radial_Db_ml Gam (lam + 1)) D_down /\
    represents (ME_Radial_bDb lam) bDb /\ represents (ME_Radial_bDb (lam + 1)) bDb_next /\
    req D_up (rscale (-1) (rtr D_down)) /\
    prod_is b_down D_up bDb /\ prod_is b_up D_down bDb_next /\
    (forall f i (N : nat), 0 <= f -> 0 <= i -> f + 2 <= Z.of_nat N -> i + 2 <= Z.of_nat N ->
      (rsum (fun k => D_down f k * b_up k i) N - rsum (fun k => b_down f k * D_up k i) N
       = rid f i)%R).
Proof.
  intros Gam lam HG Hl.
  exists (v_b_pl lam), (v_b_ml (lam + 1)), (v_Db_pl Gam lam), (v_Db_ml Gam (lam + 1)),
    (v_bDb lam), (v_bDb (lam + 1)).
  split; [now apply b_pl_rep|]. split; [apply b_ml_rep; lra|]. split; [now apply Db_pl_rep|].
  split; [apply Db_ml_rep; [assumption|lra]|]. split; [now apply bDb_rep|].
  split; [apply bDb_rep; lra|]. split; [now apply Db_tr|].
  split; [now apply b_ml_Db_pl|]. split; [now apply b_pl_Db_ml|].
  intros. now apply commutator.
Qed.

Example C24_nontrivial : ME_Radial_bm_pl gamma0 (3/2) 1 0
  = Ok (m1pow 1 * sqrt (poch gamma0 1 (3/2 - 1) / poch gamma0 (1 + 1) (3/2)))%R.
Proof.
  unfold ME_Radial_bm_pl. change (1 <? 0) with false.
  replace (Rleb (3/2) (- IZR 0)) with false.
  - rewrite andb_false_r. cbn iota. repeat f_equal; cbn; lra.
  - unfold Rleb. destruct (Rle_dec _ _); [lra|reflexivity].
Qed.

(** ** C25 *)

Theorem C25_inverse_square : forall Gam lam, gamma_like Gam -> (0 < lam)%R ->
  exists i_up i_down i2,
    represents (ME_Radial_bm_pl Gam lam) i_up /\
    represents (ME_Radial_bm_ml Gam (lam + 1)) i_down /\
    represents (ME_Radial_bm2 Gam (lam + 1)) i2 /\
    req i2 (rtr i2) /\ prod_is i_up i_down i2.
Proof.
  intros Gam lam HG Hl. exists (v_bm_pl Gam lam), (v_bm_ml Gam (lam + 1)), (v_bm2 Gam (lam + 1)).
  split; [now apply bm_pl_rep|]. split; [apply bm_ml_rep; [assumption|lra]|].
  split; [apply bm2_rep; [assumption|lra]|].
  split; [intros f i _ _; apply bm2_sym|]. now apply bm_pl_bm_ml.
Qed.

(** In the other order the rows are infinite: truncated at N the product falls
    short of 1/beta^2 by an explicit remainder. *)
Theorem C25_inverse_square_other_order : forall Gam lam, gamma_like Gam -> (1 < lam)%R ->
  exists i_up i_down i2,
    represents (ME_Radial_bm_pl Gam lam) i_up /\
    represents (ME_Radial_bm_ml Gam (lam + 1)) i_down /\
    represents (ME_Radial_bm2 Gam lam) i2 /\
    forall f i (N : nat), 0 <= f -> 0 <= i -> Z.max f i <= Z.of_nat N ->
      rsum (fun k => (i_down f k * i_up k i)%R) N
      = (i2 f i - m1pow (f + i)
          * (sqrt (Gam (lam + IZR f) / Gam (IZR f + 1)) * sqrt (Gam (lam + IZR i) / Gam (IZR i + 1)))
          / (Gam (lam + INR N) / Gam (INR N + 1) * (lam - 1)))%R.
Proof.
  intros Gam lam HG Hl. exists (v_bm_pl Gam lam), (v_bm_ml Gam (lam + 1)), (v_bm2 Gam lam).
  split; [apply bm_pl_rep; [assumption|lra]|]. split; [apply bm_ml_rep; [assumption|lra]|].
  split; [now apply bm2_rep|].
  intros f i N Hf Hi HN. rewrite bm_ml_bm_pl by assumption.
  rewrite m1pow_sg, sg_add, INR_IZR_INZ. reflexivity.
Qed.

(** d2/dbeta2 is d/dbeta (down) followed by d/dbeta (up). *)
Theorem C25_second_derivative : forall Gam lam, gamma_like Gam -> (0 < lam)%R ->
  exists D_up D_down D2,
    represents (ME_Radial_Db_pl Gam lam) D_up /\
    represents (ME_Radial_Db_ml Gam (lam + 1)) D_down /\
    represents (ME_Radial_D2b Gam (lam + 1)) D2 /\
    prod_is D_up D_down D2.
Proof.
  intros Gam lam HG Hl. exists (v_Db_pl Gam lam), (v_Db_ml Gam (lam + 1)), (v_D2b Gam (lam + 1)).
  split; [now apply Db_pl_rep|]. split; [apply Db_ml_rep; [assumption|lra]|].
  split; [apply D2b_rep; [assumption|lra]|]. now apply Db_pl_Db_ml.
Qed.

(** d2/dbeta2 in terms of the SU(1,1) matrices and 1/beta^2. *)
Theorem C25_second_derivative_su11 : forall Gam lam, gamma_like Gam -> (1 < lam)%R ->
  exists S0 Sp Sm i2 D2,
    represents (ME_Radial_S0 lam) S0 /\ represents (ME_Radial_Sp lam) Sp /\
    represents (ME_Radial_Sm lam) Sm /\ represents (ME_Radial_bm2 Gam lam) i2 /\
    represents (ME_Radial_D2b Gam lam) D2 /\
    req D2 (radd (rsub (radd Sp Sm) (rscale 2 S0))
                 (rscale ((lam - 3/2) * (lam - 1/2)) i2)).
Proof.
  intros Gam lam HG Hl.
  exists (v_S0 lam), (v_Sp lam), (v_Sm lam), (v_bm2 Gam lam), (v_D2b Gam lam).
  split; [apply S0_rep|]. split; [apply Sp_rep; lra|]. split; [apply Sm_rep; lra|].
  split; [now apply bm2_rep|]. split; [now apply D2b_rep|].
  intros f i Hf Hi. unfold v_D2b, radd, rsub, rscale, v_S0, v_Sp, v_Sm. eqbs; field.
Qed.

Theorem C25_lambda_one_raises : forall Gam f i,
  ME_Radial_bm2 Gam 1 f i = Raise ValueError /\
  (0 <= f -> 0 <= i -> ME_Radial_D2b Gam 1 f i = Raise ValueError).
Proof.
  intros Gam f i. split.
  - unfold ME_Radial_bm2, ME_Radial_pt.
    destruct (Req_EM_T 1 (-1)); [reflexivity|].
    destruct (_ && _); [reflexivity|]. destruct (Req_EM_T 1 1); [reflexivity|lra].
  - intros Hf Hi. unfold ME_Radial_D2b, ME_Radial_pt.
    destruct (Req_EM_T 1 1); [|lra].
    destruct (Z.eqb_spec f (i - 1)).
    { rewrite math_sqrt_ok by (apply sqrt_args'; lia || lra). reflexivity. }
    destruct (f =? i); [reflexivity|]. destruct (f =? i + 1); [|reflexivity].
    rewrite math_sqrt_ok by (apply sqrt_args; lia || lra). reflexivity.
Qed.

(** ** C26 *)

Theorem C26_identity_same_lambda : forall Gam lam f i, gamma_like Gam -> (0 < lam)%R ->
  0 <= f -> 0 <= i ->
  ME_Radial_id_pl Gam lam f i 0 = Ok (if f =? i then 1%R else 0%R) /\
  ME_Radial_id_ml Gam lam f i 0 = Ok (if f =? i then 1%R else 0%R).
Proof.
  intros Gam lam f i HG Hl Hf Hi.
  assert (E : forall f i, 0 <= f -> 0 <= i ->
    ME_Radial_id_pl Gam lam f i 0 = Ok (if f =? i then 1%R else 0%R)).
  { clear f i Hf Hi. intros f i Hf Hi.
    change 0 with (Z.of_nat 0) at 1. rewrite id_pl_value by assumption. f_equal.
    unfold v_id. cbn [Qx]. change (INR 0) with 0%R. replace (lam + 2 * 0)%R with lam by ring.
    destruct (Z.eqb_spec f i); [subst|ring]. rewrite sg_sq.
    pose proof (av_pos Gam HG lam i Hl Hi). field. lra. }
  split; [now apply E|].
  pose proof (id_ml_transpose Gam lam f i 0 Hl Hf Hi) as T.
  change (Z.of_nat 0) with 0 in T. replace (lam + 2 * 0)%R with lam in T by ring.
  rewrite T, E by assumption. now rewrite Z.eqb_sym.
Qed.

Theorem C26_transpose : forall Gam lam f i r, (2 * IZR r < lam)%R ->
  0 <= f -> 0 <= i -> 0 <= r ->
  ME_Radial_id_ml Gam lam f i r = ME_Radial_id_pl Gam (lam - 2 * IZR r) i f r.
Proof.
  intros Gam lam f i r Hl Hf Hi Hr.
  pose proof (id_ml_transpose Gam (lam - 2 * IZR r) f i (Z.to_nat r) ltac:(lra) Hf Hi) as T.
  rewrite Z2Nat.id in T by assumption.
  replace (lam - 2 * IZR r + 2 * IZR r)%R with lam in T by ring. exact T.
Qed.

(** r = 1: 1/beta after beta. *)
Theorem C26_one_step : forall Gam lam, gamma_like Gam -> (0 < lam)%R ->
  exists b_up i_up id1,
    represents (ME_Radial_b_pl lam) b_up /\
    represents (ME_Radial_bm_pl Gam (lam + 1)) i_up /\
    represents (fun f i => ME_Radial_id_pl Gam lam f i 1) id1 /\
    prod_is i_up b_up id1.
Proof.
  intros Gam lam HG Hl. exists (v_b_pl lam), (v_bm_pl Gam (lam + 1)), (v_id Gam 1 lam).
  split; [now apply b_pl_rep|]. split; [apply bm_pl_rep; [assumption|lra]|].
  split; [intros f i Hf Hi; now apply (id_pl_value Gam HG lam f i 1)|].
  intros f i N Hf Hi HN. now apply id_1_ladders.
Qed.

(** Every r: going to lambda+2r and then on to lambda+2r+2 is going to
    lambda+2(r+1). *)
Theorem C26_composition : forall Gam lam r, gamma_like Gam -> (0 < lam)%R -> 0 <= r ->
  exists id_r id_1 id_r1,
    represents (fun f i => ME_Radial_id_pl Gam lam f i r) id_r /\
    represents (fun f i => ME_Radial_id_pl Gam (lam + 2 * IZR r) f i 1) id_1 /\
    represents (fun f i => ME_Radial_id_pl Gam lam f i (r + 1)) id_r1 /\
    prod_is id_1 id_r id_r1.
Proof.
  intros Gam lam r HG Hl Hr.
  pose proof (IZR_nonneg _ Hr).
  exists (v_id Gam (Z.to_nat r) lam), (v_id Gam 1 (lam + 2 * IZR r)), (v_id Gam (S (Z.to_nat r)) lam).
  split; [|split; [|split]].
  - intros f i Hf Hi. pose proof (id_pl_value Gam HG lam f i (Z.to_nat r) Hl Hf Hi) as E.
    rewrite Z2Nat.id in E by assumption. exact E.
  - intros f i Hf Hi. apply (id_pl_value Gam HG (lam + 2 * IZR r) f i 1); [lra|assumption|assumption].
  - intros f i Hf Hi. pose proof (id_pl_value Gam HG lam f i (S (Z.to_nat r)) Hl Hf Hi) as E.
    replace (Z.of_nat (S (Z.to_nat r))) with (r + 1) in E by lia. exact E.
  - pose proof (id_compose Gam HG lam (Z.to_nat r) Hl) as E.
    rewrite INR_IZR_INZ, Z2Nat.id in E by assumption. exact E.
Qed.

(** Every r: the two identities are mutually inverse on rows: the change of
    basis is orthogonal. *)
Theorem C26_orthogonal : forall Gam lam r, gamma_like Gam -> (0 < lam)%R -> 0 <= r ->
  exists id_up id_down,
    represents (fun f i => ME_Radial_id_pl Gam lam f i r) id_up /\
    represents (fun f i => ME_Radial_id_ml Gam (lam + 2 * IZR r) f i r) id_down /\
    forall f i (N : nat), 0 <= f -> 0 <= i ->
      f + r + 1 <= Z.of_nat N -> i + r + 1 <= Z.of_nat N ->
      rsum (fun k => (id_up f k * id_down k i)%R) N = (if f =? i then 1 else 0)%R.
Proof.
  intros Gam lam r HG Hl Hr.
  exists (v_id Gam (Z.to_nat r) lam), (rtr (v_id Gam (Z.to_nat r) lam)).
  split; [|split].
  - intros f i Hf Hi. pose proof (id_pl_value Gam HG lam f i (Z.to_nat r) Hl Hf Hi) as E.
    rewrite Z2Nat.id in E by assumption. exact E.
  - intros f i Hf Hi. pose proof (id_ml_transpose Gam lam f i (Z.to_nat r) Hl Hf Hi) as E.
    rewrite Z2Nat.id in E by assumption. rewrite E.
    pose proof (id_pl_value Gam HG lam i f (Z.to_nat r) Hl Hi Hf) as E2.
    rewrite Z2Nat.id in E2 by assumption. exact E2.
  - intros f i N Hf Hi H1 H2. unfold rtr.
    rewrite (id_unitary Gam HG lam (Z.to_nat r) Hl f i N) by lia. reflexivity.
Qed.

(** Entries above the r-th superdiagonal vanish. *)
Theorem C26_band : forall Gam lam f i r, (0 < lam)%R -> 0 <= i -> f + r < i ->
  ME_Radial_id_pl Gam lam f i r = Ok 0%R.
Proof.
  intros Gam lam f i r Hl Hi Hb. unfold ME_Radial_id_pl.
  rewrite no_pole, andb_false_r by assumption. replace (i <=? f + r) with false by lia. reflexivity.
Qed.

Example C26_nontrivial : MF_Radial_id_pl (5/2) 1 1 2 = (7/4)%R.
Proof.
  change 2 with (Z.of_nat 2). rewrite MF_Q by lia.
  change (sg 1) with (-1)%R. unfold Q, term, nsum, cb.
  change (sg (Z.of_nat 0)) with 1%R. change (sg (Z.of_nat 1)) with (-1)%R.
  change (sg (Z.of_nat 2)) with 1%R.
  change (binom 2 0) with 1. change (binom 2 1) with 2. change (binom 2 2) with 1.
  cbn -[IZR Rplus Rmult Rdiv Rminus].
  change (binom (Pos.to_nat 1) (Pos.to_nat 1)) with 1.
  change (binom (Pos.to_nat 2) (Pos.to_nat 1)) with 2.
  change (binom (Pos.to_nat 3) (Pos.to_nat 1)) with 3.
  lra.
Qed.

Print Assumptions C23_su11_relations.
Print Assumptions C23_casimir.
Print Assumptions C23_beta2_and_bDb.
Print Assumptions C24_beta_ladders_square.
Print Assumptions C24_inverses.
Print Assumptions C24_derivative.
Print Assumptions C25_inverse_square.
Print Assumptions C25_inverse_square_other_order.
Print Assumptions C25_second_derivative.
Print Assumptions C25_second_derivative_su11.
Print Assumptions C25_lambda_one_raises.
Print Assumptions C26_identity_same_lambda.
Print Assumptions C26_transpose.
Print Assumptions C26_one_step.
Print Assumptions C26_composition.
Print Assumptions C26_orthogonal.
Print Assumptions C26_band.
