(** C69: the code and the formulas of the paper. *)

From Coq Require Import Reals Lra Psatz.
From Coq Require Import Lia.
From Verif Require Import PyBase Compat PyFacts Settings PropsSettings PropsLambda HamData HamFacts PropsHam Paper PropsRitz.
Open Scope R_scope.

(** The three built-in families of bases. *)
Theorem C69_bases : forall s abeta0 lambda0 v, (0 <= v)%Z ->
  let basis choice := g_lam_fun (snd (ACM_set_basis_type choice abeta0 s)) v in
  exists d0 d1 d2, basis 0%Z = Ok d0 /\ basis 1%Z = Ok d1 /\ basis 2%Z = Ok d2 /\
    lambda0 + IZR d0 = lambdav_63 lambda0 v /\ lambda0 + IZR d1 = lambdav_61 lambda0 v /\ lambda0 + IZR d2 = lambdav_62 lambda0 v.
Proof.
  intros s ab l0 v Hv basis. destruct (C31_values s ab v Hv) as (E0 & E1 & E2). exists 0%Z, v, (if Z.even v then 0 else 1)%Z.
  split; [exact E0|]. split; [exact E1|]. split; [exact E2|]. unfold lambdav_61, lambdav_62, lambdav_63. split; [ring|]. split; [reflexivity|].
  do 2 f_equal. rewrite Zmod_even. reflexivity.
Qed.

(** The expectation value. *)
Theorem C69_energy : forall B c1 c2 kappa a lambda0, B <> 0 -> a <> 0 -> lambda0 <> 1 ->
  RWC_expt B c1 c2 kappa a lambda0 = Ok (E_B16 a lambda0 B c1 c2 + kappa / 3).
Proof.
  intros B c1 c2 k a l HB Ha Hl. rewrite C46_energy by assumption. f_equal. unfold energy, E_B16. field. repeat split; lra.
Qed.

(** The minimum of the potential and the lambda that goes with it. *)
Theorem C69_beta0 : forall c1 c2, 0 <= c1 \/ 0 < c2 -> beta_dav c1 c2 = Ok (beta0_B15 c1 c2).
Proof.
  intros c1 c2 H. unfold beta_dav, beta0_B15, fdiv. destruct (Rle_dec 0 c1) as [P|N]; destruct (Rlt_dec c1 0); try lra; [reflexivity|].
  destruct H as [H|H]; [lra|]. destruct (Req_EM_T (c2 * 2) 0); [lra|]. cbn [bind].
  assert (0 < - c1 / (c2 * 2)) by (apply Rdiv_lt_0_compat; lra). destruct (Rlt_dec (- c1 / (c2 * 2)) 0); [lra|]. f_equal. f_equal. f_equal. ring.
Qed.

Lemma pow4_pos x : 0 <= x ^ 4.
Proof. replace (x ^ 4) with ((x ^ 2) ^ 2) by ring. apply pow2_ge_0. Qed.

Theorem C69_lambda0 : forall a beta0, lam_dav a beta0 0 = Ok (lambda0_B11 a beta0).
Proof.
  intros a b. unfold lam_dav, lambda0_B11, math_sqrt. replace ((0 + 1.5) ^ 2 + (a * b) ^ 4) with (9 / 4 + (a * b) ^ 4) by lra.
  pose proof (pow4_pos (a * b)). destruct (Rlt_dec _ 0); [lra|]. reflexivity.
Qed.

Lemma lambda0_above a b : 1 < lambda0_B11 a b.
Proof. unfold lambda0_B11. pose proof (pow4_pos (a * b)). assert (0 < sqrt (9 / 4 + (a * b) ^ 4)) by (apply sqrt_lt_R0; lra). lra. Qed.

Theorem C69_link : forall B c1 c2 kappa a, B <> 0 -> a <> 0 -> 0 <= c1 \/ 0 < c2 ->
  RWC_dav c1 c2 a 0 = Ok (lambda0_B11 a (beta0_B15 c1 c2)) /\
  RWC_expt_link B c1 c2 kappa a = Ok (E_B16 a (lambda0_B11 a (beta0_B15 c1 c2)) B c1 c2 + kappa / 3).
Proof.
  intros B c1 c2 k a HB Ha H.
  assert (D : RWC_dav c1 c2 a 0 = Ok (lambda0_B11 a (beta0_B15 c1 c2))) by (unfold RWC_dav; rewrite C69_beta0 by exact H; apply C69_lambda0).
  split; [exact D|]. unfold RWC_expt_link. rewrite D. cbn [bind]. apply C69_energy; try assumption. pose proof (lambda0_above a (beta0_B15 c1 c2)). lra.
Qed.

(** What RWC_alam returns is linked by (B11) and (B15), and minimises (B16). *)
Theorem C69_optimum : forall solveset root_scalar fuel B c1 c2 l a lambda0,
  0 < B -> (0 <= c1 /\ 0 <= c2 /\ 0 < c1 + c2 \/ c1 < 0 /\ 0 < c2) ->
  solveset (fun A => RWC1 A B c1 c2 0) = Some l -> (forall x, In x l <-> RWC1 x B c1 c2 0 = 0) ->
  (forall b r, root_scalar (F2 B c1 c2 0) 0 b = Some r -> 0 <= r <= b /\ F2 B c1 c2 0 r = 0) ->
  RWC_alam solveset root_scalar fuel B c1 c2 0 = Some (Ok (a, lambda0)) ->
  lambda0 = lambda0_B11 a (beta0_B15 c1 c2) /\
  forall a', a' <> 0 -> a' ^ 2 <> a ^ 2 ->
    E_B16 a lambda0 B c1 c2 < E_B16 a' (lambda0_B11 a' (beta0_B15 c1 c2)) B c1 c2.
Proof.
  intros solveset root_scalar fuel B c1 c2 l a l0 HB HC El Hl Hr E.
  destruct (C45_minimum solveset root_scalar fuel B c1 c2 0 l a l0 HB HC El Hl Hr E) as (Ha & L & e & E1 & E2 & M).
  assert (C : 0 <= c1 \/ 0 < c2) by tauto.
  destruct (C69_link B c1 c2 0 a ltac:(lra) Ha C) as (D & E3).
  assert (Q : l0 = lambda0_B11 a (beta0_B15 c1 c2)).
  { rewrite L. rewrite RWC_dav_ok in D by tauto. congruence. }
  split; [exact Q|]. intros a' Ha' N. destruct (M a' Ha') as (e' & E' & _ & S).
  destruct (C69_link B c1 c2 0 a' ltac:(lra) Ha' C) as (_ & E4). specialize (S N). rewrite E' in E4. rewrite E1 in E3.
  injection E3 as E3. injection E4 as E4. rewrite Q. lra.
Qed.

(** Nothing in (B15) or (B16) guards c2 = 0 with c1 < 0: the code fails. *)
Theorem C69_flat_refuted : forall c1 a v, c1 < 0 -> beta_dav c1 0 = Raise ZeroDivisionError /\ RWC_dav c1 0 a v = Raise ZeroDivisionError.
Proof.
  intros c1 a v H. assert (Q : beta_dav c1 0 = Raise ZeroDivisionError).
  { unfold beta_dav, fdiv. destruct (Rle_dec 0 c1); [lra|]. destruct (Req_EM_T (0 * 2) 0); [reflexivity|lra]. }
  split; [exact Q|]. unfold RWC_dav. now rewrite Q.
Qed.

Example C69_example : beta0_B15 (-2) 1 = 1 /\ lambda0_B11 2 0 = 2.5 /\ E_B16 1 2.5 1 1 0 = 2.5 /\
  RWC_expt 1 1 0 3 1 2.5 = Ok (E_B16 1 2.5 1 1 0 + 3 / 3).
Proof.
  split; [|split; [|split]].
  - unfold beta0_B15. destruct (Rlt_dec (-2) 0); [|lra]. replace (- -2 / (2 * 1)) with 1 by field. apply sqrt_1.
  - unfold lambda0_B11. replace (9 / 4 + (2 * 0) ^ 4) with (1.5 ^ 2) by lra. rewrite sqrt_pow2; lra.
  - unfold E_B16. lra.
  - apply C69_energy; lra.
Qed.

Print Assumptions C69_bases.
Print Assumptions C69_energy.
Print Assumptions C69_beta0.
Print Assumptions C69_lambda0.
Print Assumptions C69_link.
Print Assumptions C69_optimum.
Print Assumptions C69_flat_refuted.
Print Assumptions C69_example.
