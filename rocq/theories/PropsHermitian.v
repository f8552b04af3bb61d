(** C84: the matrices of the Hamiltonians are symmetric, except for terms in
    beta^3, beta^5, ... *)

From Coq Require Import Reals Lra.
From Coq Require Import Lia ZifyBool ZifyNat.
From Verif Require Import PyBase PyFacts Compat SphericalSpec Spherical SphericalFacts PropsSpherical Matrix RadialME RadialMESpec
  RadialMEFacts IdFacts CG CGSpec CGFacts PropsCG FullLabels FullLabelsFacts PropsFullLabels RadialOps Operators FullOps ReducedSpec ReducedFacts PropsReduced
  PropsHarmonics FullOpsFacts FullOpsBlocks FullOpsMemo FullOpsProd RadialWords RadialChain PropsFullOps PropsHistory RadialSums
  Settings Display PropsDriver PropsTransition HermitianSpec HermitianFacts HermitianRadial HermitianTerms HermitianCubed.
Open Scope Z_scope.
Ltac Zify.zify_post_hook ::= Z.div_mod_to_equations.

(** ** Powers of beta *)

(** Between two bases whose lambdas differ by [shift], the matrix of beta^K in
    one direction is the transpose of the matrix in the other: for K with the
    parity of the shift (or K = 0), if lambda does not change or changes by at
    least |K|.  (Where lambda changes by an odd amount and K = 0 the library uses
    the square root of a matrix.) *)
Theorem C84_radial : forall Gam Msqrt Minv w an lambdaa shift nu_min nu_max lap A B,
  power_word w -> mirrored (exponent w) shift ->
  (exponent w = 0 -> shift mod 2 = 1 -> keeps_symmetric Msqrt) ->
  0 <= nu_min <= nu_max -> 0 <= lap ->
  RadProd (Rep_elem Gam Msqrt Minv) w an lambdaa shift nu_min nu_max lap = Ok A ->
  RadProd (Rep_elem Gam Msqrt Minv) w an (lambdaa + IZR shift) (- shift) nu_min nu_max lap = Ok B ->
  nrows A = nu_max - nu_min + 1 /\ ncols A = nu_max - nu_min + 1 /\ transposed A B.
Proof.
  intros Gam Msqrt Minv w an lambdaa shift nu_min nu_max lap A B Hw HM HS Hn Hl EA EB.
  destruct (radial_transposed Gam Msqrt Minv an w lambdaa shift nu_min nu_max lap A B) as ([S1 S2] & _ & T); try assumption.
  auto.
Qed.

(** ** Harmonics *)
Lemma even_m1 k : k mod 2 = 0 -> powerRZ (-1) k = 1%R.
Proof.
  intros E. replace k with (k / 2 + k / 2) by lia. rewrite powerRZ_add by lra. rewrite <- powerRZ_mult.
  replace (-1 * -1)%R with 1%R by ring. apply powerRZ_R1.
Qed.

(** The labels of the two harmonics of the Hamiltonians: cos(3 gamma) and its square. *)
Lemma harmonic_parity : forall files home st v_min v_max L_min L_max h M,
  0 <= v_min <= v_max -> 0 <= L_min <= L_max ->
  RepSO5r3_Prod (CG_at files home st) [YSym (OSph h)] v_min v_max L_min L_max = Ok M ->
  graded v_min v_max L_min L_max (fst (fst (SpHarm_Table h))) M.
Proof.
  intros files home st v_min v_max L_min L_max h M Hv HL E. rewrite C51_designators in E by assumption.
  destruct (SpHarm_Table h) as [[v al] L] eqn:Eh. cbn [fst snd] in *.
  assert (B : 0 <= v /\ 1 <= al /\ 0 <= L) by (destruct h; injection Eh as <- <- <-; lia).
  destruct (C51_matrix _ _ _ _ _ _ _ _ _ _ (lbs_rngVvarL_some _ _ _ _ Hv HL) E) as (_ & _ & H).
  intros i j vf af Lf vi ai Li Hi Hj Ei Ej HP. pose proof (H i j _ _ _ _ _ _ Hi Hj Ei Ej) as Q.
  destruct (Req_EM_T (ent M i j) 0) as [Z0|N0]; [exact Z0|]. exfalso.
  apply nth_error_In in Ei. apply nth_error_In in Ej. apply lbs_enumerates in Ei. apply lbs_enumerates in Ej. unfold is_state in Ei, Ej.
  destruct (C51_selection files home st vf af Lf v al L vi ai Li (ent M i j)) as ((_ & _ & _ & (k & Ek)) & _); try lia; try assumption.
Qed.

Lemma good_scalar : forall files home st v_min v_max L_min L_max h v al,
  0 <= v_min <= v_max -> 0 <= L_min <= L_max -> SpHarm_Table h = (v, al, 0) ->
  (v mod 2 = 0 -> forall w a1 a2 L, v_min <= w <= v_max -> L_min <= L <= L_max -> 1 <= a1 <= mult w L -> 1 <= a2 <= mult w L ->
     CG_at files home st w a1 L v al 0 w a2 L = CG_at files home st w a2 L v al 0 w a1 L) ->
  good_harmonic (CG_at files home st) v_min v_max L_min L_max h.
Proof.
  intros files home st v_min v_max L_min L_max h v al Hv HL Eh HS M E.
  pose proof (harmonic_parity files home st _ _ _ _ h M Hv HL E) as G. split; [|exact G].
  rewrite C51_designators, Eh in E by assumption. cbn [fst snd] in E. rewrite Eh in G. cbn [fst] in G.
  assert (B : 0 <= v /\ 1 <= al) by (destruct h; injection Eh as <- <-; try discriminate; lia).
  pose proof (lbs_rngVvarL_some _ _ _ _ Hv HL) as El.
  destruct (C51_matrix _ _ _ _ _ _ _ _ _ _ El E) as (S1 & S2 & H).
  split; [congruence|]. split; [congruence|]. rewrite S1, S2. intros i j Hi Hj.
  assert (exists x, nth_error (lbs v_min v_max L_min L_max) (Z.to_nat i) = Some x) as ([[vi ai] Li] & Ei).
  { destruct (nth_error (lbs v_min v_max L_min L_max) (Z.to_nat i)) eqn:F; [eauto|]. apply nth_error_None in F. unfold zlen in Hi. lia. }
  assert (exists x, nth_error (lbs v_min v_max L_min L_max) (Z.to_nat j) = Some x) as ([[vj aj] Lj] & Ej).
  { destruct (nth_error (lbs v_min v_max L_min L_max) (Z.to_nat j)) eqn:F; [eauto|]. apply nth_error_None in F. unfold zlen in Hj. lia. }
  pose proof (H i j _ _ _ _ _ _ ltac:(lia) ltac:(lia) Ei Ej) as Q1. pose proof (H j i _ _ _ _ _ _ ltac:(lia) ltac:(lia) Ej Ei) as Q2.
  pose proof (nth_error_In _ _ Ei) as Ii. pose proof (nth_error_In _ _ Ej) as Ij.
  apply lbs_enumerates in Ii. apply lbs_enumerates in Ij. unfold is_state in Ii, Ij.
  destruct (Z.eq_dec Li Lj) as [->|NL].
  - destruct (Z.eq_dec vi vj) as [->|NV].
    + destruct (Z.eq_dec (v mod 2) 0) as [Ev|Od].
      * specialize (HS Ev vj aj ai Lj). unfold ME_SO5r3 in Q1, Q2. rewrite HS in Q1 by lia.
        rewrite Q1 in Q2. now injection Q2.
      * rewrite (G i j vj ai Lj vj aj Lj), (G j i vj aj Lj vj ai Lj); try assumption; try lia. reflexivity.
    + pose proof (C51_hermitian_matrix files home st v al 0 _ _ _ _ _ _ Hv HL ltac:(lia) ltac:(lia) ltac:(lia) El E
        i j vi ai Lj vj aj Lj ltac:(lia) ltac:(lia) Ei Ej NV) as T.
      rewrite even_m1 in T by lia. assert (P : (0 < sqrt (IZR (2 * Lj + 1)))%R) by (apply sqrt_lt_R0; apply (IZR_lt 0); lia).
      apply (Rmult_eq_reg_l (sqrt (IZR (2 * Lj + 1)))); lra.
  - assert (Z1 : ent M i j = 0%R).
    { destruct (Req_EM_T (ent M i j) 0) as [Z0|N0]; [exact Z0|]. exfalso.
      destruct (C51_selection files home st vi ai Li v al 0 vj aj Lj (ent M i j)) as (_ & T); try lia; assumption. }
    assert (Z2 : ent M j i = 0%R).
    { destruct (Req_EM_T (ent M j i) 0) as [Z0|N0]; [exact Z0|]. exfalso.
      destruct (C51_selection files home st vj aj Lj v al 0 vi ai Li (ent M j i)) as (_ & T); try lia; assumption. }
    congruence.
Qed.

(** The powers of cos(3 gamma) have symmetric matrices, whatever the data files
    contain. *)
Theorem C84_cos3gamma : forall files home st v_min v_max L_min L_max n M,
  0 <= v_min <= v_max -> 0 <= L_min <= L_max ->
  RepSO5r3_Prod (CG_at files home st) (repeat (YSym (OSph SpHarm_310)) n) v_min v_max L_min L_max = Ok M ->
  symmetric M.
Proof.
  intros files home st v_min v_max L_min L_max n M Hv HL E.
  assert (R : repeat (YSym (OSph SpHarm_310)) n = map YSym (map OSph (repeat SpHarm_310 n))).
  { clear. induction n; cbn; congruence. }
  assert (Q : rev (repeat SpHarm_310 n) = repeat SpHarm_310 n).
  { clear. induction n as [|n IH]; [reflexivity|]. cbn [repeat rev]. rewrite IH. symmetry. apply (repeat_cons n SpHarm_310). }
  rewrite R in E. refine (proj1 (sph_product (CG_at files home st) 0 0 _ _ _ _ Hv HL (repeat SpHarm_310 n) M M _ E _)).
  - clear - Hv HL. induction n; constructor; [|assumption]. eapply good_scalar; try eassumption; [reflexivity|]. intros F. discriminate.
  - now rewrite Q.
Qed.

(** ** Hamiltonians *)

(** The lambda function gives even and odd seniorities lambdas of the same
    parities (all the built-in functions do, except the constant one). *)
Definition keeps_parity (lam : Z -> res Z) (v_min v_max : Z) : Prop :=
  forall v w k k', v_min <= v <= v_max -> v_min <= w <= v_max -> lam v = Ok k -> lam w = Ok k' -> (k - k' - (v - w)) mod 2 = 0.

(** A coefficient may depend on SENIORITY, ALFA and ANGMOM, but not on NUMBER. *)
Definition free_of_number (c : coef) : Prop :=
  forall nu nu' v al L, cval c nu v al L = cval c nu' v al L.

Lemma free_cmul c d : free_of_number c -> free_of_number d -> free_of_number (cmul c d).
Proof.
  intros H1 H2 nu nu' v al L. pose proof (H1 nu nu' v al L) as A. pose proof (H2 nu nu' v al L) as B. unfold cmul.
  destruct c, d; cbn [cval] in *; try reflexivity; destruct (_ || _)%bool; cbn [cval]; congruence.
Qed.

Section Sums.
  Variable Gam : R -> R.
  Variables Msqrt Minv : mat R -> res (mat R).
  Variable CG : Z -> Z -> Z -> Z -> Z -> Z -> Z -> Z -> Z -> res R.
  Variable lam : Z -> res Z.
  Variables (an lb : R) (nu_min nu_max v_min v_max L_min L_max : Z).
  Hypothesis Hnu : 0 <= nu_min <= nu_max.
  Hypothesis Hv : 0 <= v_min <= v_max.
  Hypothesis HL : 0 <= L_min <= L_max.
  Let RP := RadProd (Rep_elem Gam Msqrt Minv).
  Let good := symmetric_term RP CG lam an lb nu_min nu_max v_min v_max L_min L_max.

  Lemma mirror_power rad li lf : power_word rad -> mirrored (exponent rad) (lf - li) ->
    (exponent rad = 0 -> (lf - li) mod 2 = 1 -> keeps_symmetric Msqrt) ->
    mirror_radial RP an lb nu_min nu_max rad li lf.
  Proof.
    intros Hw HM HS A B EA EB. destruct (radial_transposed Gam Msqrt Minv an rad (lb + IZR li) (lf - li) nu_min nu_max 0 A B) as (S1 & _ & T);
      try assumption; try lia.
    - rewrite minus_IZR. replace (lb + IZR li + (IZR lf - IZR li))%R with (lb + IZR lf)%R by ring.
      replace (- (lf - li)) with (li - lf) by lia. exact EB.
    - now split.
  Qed.

  Lemma mirror_D2b li : mirror_radial RP an lb nu_min nu_max [Radial_D2b] li li.
  Proof.
    intros A B EA EB. rewrite EA in EB. injection EB as <-. unfold RP in EA.
    assert (P : (0 < lb + IZR li)%R).
    { destruct (Rlt_dec 0 (lb + IZR li)) as [P|N]; [exact P|]. exfalso. revert EA. unfold RadProd, RepRadial_Prod_common, RepRadial_Prod_factors.
      destruct (Rle_dec (lb + IZR li) 0); [discriminate|lra]. }
    replace (li - li) with 0 in EA by lia.
    rewrite (RadProd_one _ _ 0 2 M_D2b 2) in EA by (reflexivity || lra || lia).
    apply bind_ok in EA. destruct EA as (m & Em & E). injection E as <-.
    destruct (elem_transposed Gam Msqrt Minv M_D2b (lb + IZR li) nu_min nu_max m m) as ([S1 S2] & _ & (T1 & T2 & T3)).
    - exact Logic.I.
    - exact Em.
    - cbn [dual fst snd]. rewrite Rplus_0_r. exact Em.
    - split; [split; assumption|]. split; [exact T1|]. split; [exact T2|]. intros x y Hx Hy. cbn [mscale ent nrows ncols] in *. now rewrite T3.
  Qed.

  (** A power of beta, with any coefficient that does not depend on NUMBER. *)
  Lemma good_power c rad : power_word rad -> (exponent rad) mod 2 = 0 -> free_of_number c -> good (c, map ORad rad).
  Proof.
    intros Hw HK HC. exists rad, []. split; [now rewrite app_nil_r|]. split.
    { clear - Hw. induction Hw as [|s w H _ IH]; constructor; [|assumption]. destruct s; try exact Logic.I. now elim H. }
    split; [constructor|]. split; [reflexivity|]. split; [|right; split; [reflexivity|exact HC]].
    intros vi vf li lf _ _ _ E E1 E2. specialize (E eq_refl). subst vf. rewrite E1 in E2. injection E2 as <-.
    apply mirror_power; [exact Hw|split; lia|]. intros _ F. exfalso. lia.
  Qed.

  Lemma good_D2b c : free_of_number c -> good (c, [ORad Radial_D2b]).
  Proof.
    intros HC. exists [Radial_D2b], []. split; [reflexivity|]. split; [repeat constructor|].
    split; [constructor|]. split; [reflexivity|]. split; [|right; split; [reflexivity|exact HC]].
    intros vi vf li lf _ _ _ E E1 E2. specialize (E eq_refl). subst vf. rewrite E1 in E2. injection E2 as <-. apply mirror_D2b.
  Qed.

  (** A power of beta times a product of harmonics, with a number. *)
  Lemma good_harmonics r rad sph : power_word rad -> Forall (good_harmonic CG v_min v_max L_min L_max) sph -> rev sph = sph ->
    (forall vi vf li lf, v_min <= vi <= v_max -> v_min <= vf <= v_max -> (vf - vi - degree sph) mod 2 = 0 ->
       lam vi = Ok li -> lam vf = Ok lf -> mirrored (exponent rad) (lf - li) /\ (exponent rad = 0 -> (lf - li) mod 2 = 1 -> keeps_symmetric Msqrt)) ->
    good (CNum r, map ORad rad ++ map OSph sph).
  Proof.
    intros Hw HG HP HM. exists rad, sph. split; [reflexivity|]. split.
    { clear - Hw. induction Hw as [|s w H _ IH]; constructor; [|assumption]. destruct s; try exact Logic.I. now elim H. }
    split; [exact HG|]. split; [exact HP|]. split; [|left; eexists; reflexivity].
    intros vi vf li lf R1 R2 PAR _ E1 E2. destruct (HM vi vf li lf R1 R2 PAR E1 E2). now apply mirror_power.
  Qed.

  Lemma good_opt c t : (is0 c = false -> good t) -> Forall good (opt_term c t).
  Proof. intros H. unfold opt_term. destruct (is0 c); constructor; auto. Qed.
  Lemma good_optnum r s w : good (CNum (s * r), w) -> Forall good (opt_term (CNum r) (cscale s (CNum r), w)).
  Proof. intros H. apply good_opt. intros _. exact H. Qed.
End Sums.

Ltac powers := unfold power_word; repeat (apply Forall_nil || (apply Forall_cons; [discriminate|])).

(** The matrix of a Hamiltonian without terms in beta^3 cos(3 gamma), beta^5
    cos(3 gamma) and the product of momenta is symmetric. *)
Theorem C84_hamiltonian : forall Gam Msqrt Minv files home st lam an lb nu_min nu_max v_min v_max L_min L_max
    c11 c20 c21 c22 c23 c30 c33 c40 c41 c42 c43 D,
  0 <= nu_min <= nu_max -> 0 <= v_min <= v_max -> 0 <= L_min <= L_max ->
  keeps_parity lam v_min v_max ->
  free_of_number c11 -> free_of_number c20 -> free_of_number c21 -> free_of_number c22 -> free_of_number c23 ->
  (c42 = 0%R \/ forall v w k k', v_min <= v <= v_max -> v_min <= w <= v_max -> lam v = Ok k -> lam w = Ok k' -> Z.abs (k - k') <> 2) ->
  fst (RepXspace (RadProd (Rep_elem Gam Msqrt Minv)) (CG_at files home st)
         (ACM_Hamiltonian c11 c20 c21 c22 c23 (CNum c30) (CNum 0) (CNum 0) (CNum c33) (CNum c40) (CNum c41) (CNum c42) (CNum c43) (CNum 0))
         an lb nu_min nu_max v_min v_max L_min (Some L_max) (mkX lam [])) = Ok D ->
  symmetric D.
Proof.
  intros Gam Msqrt Minv files home st lam an lb nu_min nu_max v_min v_max L_min L_max c11 c20 c21 c22 c23 c30 c33 c40 c41 c42 c43 D
    Hnu Hv HL HP F11 F20 F21 F22 F23 H42 ED.
  assert (EX : exists X, lbsXspace nu_min nu_max v_min v_max L_min (Some L_max) = Ok X).
  { destruct (C06_layout _ _ _ _ _ _ Hnu Hv HL) as (X & sp & E1 & _). now exists X. }
  destruct EX as (X & EX).
  refine (proj1 (sum_symmetric _ _ lam an lb _ _ _ _ _ _ Hnu Hv HL _ X D _ EX ED)). clear ED.
  assert (Z0 : forall t, opt_term (CNum 0) t = []) by (intros t; unfold opt_term; cbn [is0]; destruct (Req_EM_T 0 0); [reflexivity|lra]).
  assert (GY : good_harmonic (CG_at files home st) v_min v_max L_min L_max SpHarm_310).
  { eapply good_scalar; try eassumption; [reflexivity|]. intros F. discriminate. }
  unfold ACM_Hamiltonian. rewrite !Z0. cbn [app].
  repeat (apply Forall_app; split).
  - destruct (is0 c11); [constructor|]. repeat (apply Forall_nil || apply Forall_cons).
    + now apply good_D2b.
    + apply good_power with (rad := [Radial_bm2]); [exact Hnu|powers|reflexivity|].
      apply free_cmul; [|intros ? ? ? ? ?; reflexivity]. apply free_cmul; [intros ? ? ? ? ?; reflexivity|exact F11].
  - apply good_opt. intros _. apply good_power with (rad := []); [exact Hnu|powers|reflexivity|assumption].
  - apply good_opt. intros _. apply good_power with (rad := [Radial_b2]); [exact Hnu|powers|reflexivity|assumption].
  - apply good_opt. intros _. apply good_power with (rad := [Radial_b2; Radial_b2]); [exact Hnu|powers|reflexivity|assumption].
  - apply good_opt. intros _. apply good_power with (rad := [Radial_bm2]); [exact Hnu|powers|reflexivity|assumption].
  - apply good_optnum. apply good_harmonics with (rad := [Radial_b]) (sph := [SpHarm_310]); [exact Hnu|powers|repeat (apply Forall_nil || (apply Forall_cons; [exact GY|]))|reflexivity|].
    intros vi vf li lf R1 R2 PAR E1 E2. specialize (HP vi vf li lf R1 R2 E1 E2). change (degree _) with 3 in PAR. change (exponent _) with 1.
    split; [unfold mirrored; lia|intros ? ?; exfalso; lia].
  - apply good_optnum. apply good_harmonics with (rad := [Radial_bm]) (sph := [SpHarm_310]); [exact Hnu|powers|repeat (apply Forall_nil || (apply Forall_cons; [exact GY|]))|reflexivity|].
    intros vi vf li lf R1 R2 PAR E1 E2. specialize (HP vi vf li lf R1 R2 E1 E2). change (degree _) with 3 in PAR. change (exponent _) with (-1).
    split; [unfold mirrored; lia|intros ? ?; exfalso; lia].
  - apply good_optnum. apply good_harmonics with (rad := []) (sph := [SpHarm_310; SpHarm_310]); [exact Hnu|powers|repeat (apply Forall_nil || (apply Forall_cons; [exact GY|]))|reflexivity|].
    intros vi vf li lf R1 R2 PAR E1 E2. specialize (HP vi vf li lf R1 R2 E1 E2). change (degree _) with 6 in PAR. change (exponent _) with 0.
    split; [unfold mirrored; lia|intros ? ?; exfalso; lia].
  - apply good_optnum. apply good_harmonics with (rad := [Radial_b2]) (sph := [SpHarm_310; SpHarm_310]); [exact Hnu|powers|repeat (apply Forall_nil || (apply Forall_cons; [exact GY|]))|reflexivity|].
    intros vi vf li lf R1 R2 PAR E1 E2. specialize (HP vi vf li lf R1 R2 E1 E2). change (degree _) with 6 in PAR. change (exponent _) with 2.
    split; [unfold mirrored; lia|intros ? ?; exfalso; lia].
  - destruct (Req_EM_T c42 0) as [->|N42]; [rewrite Z0; constructor|]. destruct H42 as [H42|H42]; [contradiction|].
    apply good_optnum. apply good_harmonics with (rad := [Radial_b2; Radial_b2]) (sph := [SpHarm_310; SpHarm_310]); [exact Hnu|powers|repeat (apply Forall_nil || (apply Forall_cons; [exact GY|]))|reflexivity|].
    intros vi vf li lf R1 R2 PAR E1 E2. specialize (HP vi vf li lf R1 R2 E1 E2). specialize (H42 vi vf li lf R1 R2 E1 E2). change (degree _) with 6 in PAR. change (exponent _) with 4.
    split; [unfold mirrored; lia|intros ? ?; exfalso; lia].
  - apply good_optnum. apply good_harmonics with (rad := [Radial_bm2]) (sph := [SpHarm_310; SpHarm_310]); [exact Hnu|powers|repeat (apply Forall_nil || (apply Forall_cons; [exact GY|]))|reflexivity|].
    intros vi vf li lf R1 R2 PAR E1 E2. specialize (HP vi vf li lf R1 R2 E1 E2). change (degree _) with 6 in PAR. change (exponent _) with (-2).
    split; [unfold mirrored; lia|intros ? ?; exfalso; lia].
  - constructor.
Qed.

(** The lambda functions of the library. *)
Theorem C84_parity : forall v_min v_max, 0 <= v_min ->
  keeps_parity lambda_sho_fun v_min v_max /\ keeps_parity lambda_acm_fun v_min v_max /\ keeps_parity lambda_jig_fun v_min v_max /\
  (forall C, keeps_parity (lambda_davi_fun C) v_min v_max) /\
  (keeps_parity lambda_fix_fun v_min v_max <-> v_max <= v_min).
Proof.
  intros v_min v_max H0.
  assert (N : forall v, v_min <= v -> require_nonnegint v = Ok tt).
  { intros v Hv. unfold require_nonnegint, raise_if. replace (v <? 0) with false by lia. reflexivity. }
  assert (G : forall f : Z -> Z, (forall v, (f v - v) mod 2 = 0) -> forall lam, (forall v k, v_min <= v -> lam v = Ok k -> k = f v) -> keeps_parity lam v_min v_max).
  { intros f Hf lam Hl v w k k' Hv Hw E1 E2. apply Hl in E1; [|lia]. apply Hl in E2; [|lia]. subst. pose proof (Hf v). pose proof (Hf w). lia. }
  split; [|split; [|split; [|split]]].
  - apply (G (fun v => v)); [intros v; replace (v - v) with 0 by lia; reflexivity|]. intros v k Hv. unfold lambda_sho_fun. rewrite N by lia. cbn. congruence.
  - apply (G (fun v => v mod 2)); [intros v; lia|]. intros v k Hv. unfold lambda_acm_fun. rewrite N by lia. cbn [bind].
    rewrite irem_ok by lia. congruence.
  - apply (G (fun v => if v =? 0 then 0 else 2 - v mod 2)).
    + intros v. destruct (Z.eqb_spec v 0) as [->|]; [reflexivity|lia].
    + intros v k Hv. unfold lambda_jig_fun. rewrite N by lia. cbn [bind]. destruct (v =? 0); [congruence|].
      rewrite irem_ok by lia. cbn [bind]. congruence.
  - intros C v w k k' Hv Hw. unfold lambda_davi_fun. rewrite !N by lia. cbn [bind].
    destruct (math_sqrt (IZR ((v + 1) ^ 2) + C)) as [a|]; [|discriminate]. destruct (math_sqrt (2.25 + C)) as [b|]; [|discriminate].
    destruct (math_sqrt (IZR ((w + 1) ^ 2) + C)) as [a'|]; [|discriminate]. cbn [bind]. unfold is_odd.
    generalize (Int_part (a - b)) (Int_part (a' - b)). intros x y E1 E2. injection E1 as <-. injection E2 as <-.
    destruct (Z.eqb_spec ((x - v) mod 2) 1); destruct (Z.eqb_spec ((y - w) mod 2) 1); lia.
  - unfold keeps_parity, lambda_fix_fun. split.
    + intros H. destruct (Z_le_gt_dec v_max v_min) as [L|L]; [exact L|].
      specialize (H v_min (v_min + 1) 0 0). rewrite !N in H by lia. specialize (H ltac:(lia) ltac:(lia) eq_refl eq_refl). lia.
    + intros L v w k k' Hv Hw. assert (v = w) as -> by lia. intros E1 E2. rewrite E1 in E2. injection E2 as <-. replace (k - k - (w - w)) with 0 by lia. reflexivity.
Qed.

(** The Hamiltonian of Rowe, Welsh and Caprio. *)
Theorem C84_RWC : forall Gam Msqrt Minv files home st lam an lb nu_min nu_max v_min v_max L_min L_max B c1 c2 chi kappa D,
  0 <= nu_min <= nu_max -> 0 <= v_min <= v_max -> 0 <= L_min <= L_max ->
  keeps_parity lam v_min v_max ->
  fst (RepXspace (RadProd (Rep_elem Gam Msqrt Minv)) (CG_at files home st) (RWC_Ham B c1 c2 chi kappa)
         an lb nu_min nu_max v_min v_max L_min (Some L_max) (mkX lam [])) = Ok D ->
  symmetric D.
Proof.
  intros Gam Msqrt Minv files home st lam an lb nu_min nu_max v_min v_max L_min L_max B c1 c2 chi kappa D Hnu Hv HL HP.
  unfold RWC_Ham. apply C84_hamiltonian; try assumption; try (intros ? ? ? ? ?; reflexivity). now left.
Qed.

(** Diagonalising a symmetric matrix: the solver receives the matrix itself. *)
Theorem C84_diagonalised : forall eigh H, symmetric H ->
  exists A, Eigenfiddle eigh H = eigh A /\ nrows A = nrows H /\ ncols A = ncols H /\
    forall i j, 0 <= i < nrows H -> 0 <= j < ncols H -> ent A i j = ent H i j.
Proof.
  intros eigh H (S1 & _ & S3). destruct (C47_symmetrised eigh H) as (A & E & R1 & R2 & _ & F & _); [congruence|].
  exists A. split; [exact E|]. split; [exact R1|]. split; [exact R2|]. intros i j Hi Hj. rewrite F.
  rewrite (S3 i j) by assumption. lra.
Qed.

(** *** Hamiltonians of rigid beta *)

(** Either the lambdas all have the same parity, or the square roots of
    symmetric matrices that are computed are symmetric. *)
Definition roots_ok (Msqrt : mat R -> res (mat R)) (lam : Z -> res Z) (v_min v_max : Z) : Prop :=
  keeps_symmetric Msqrt \/
  forall v w k k', v_min <= v <= v_max -> v_min <= w <= v_max -> lam v = Ok k -> lam w = Ok k' -> (k - k') mod 2 = 0.

Lemma roots_mirror Msqrt lam v_min v_max vi vf li lf : roots_ok Msqrt lam v_min v_max ->
  v_min <= vi <= v_max -> v_min <= vf <= v_max -> lam vi = Ok li -> lam vf = Ok lf ->
  mirrored (exponent []) (lf - li) /\ (exponent [] = 0 -> (lf - li) mod 2 = 1 -> keeps_symmetric Msqrt).
Proof.
  intros HR R1 R2 E1 E2. change (exponent []) with 0. split; [unfold mirrored; lia|]. intros _ O.
  destruct HR as [HR|HR]; [exact HR|]. specialize (HR vf vi lf li R2 R1 E2 E1). lia.
Qed.

Lemma repeat_palindrome {A} (x : A) n : rev (repeat x n) = repeat x n.
Proof. induction n as [|n IH]; [reflexivity|]. cbn [repeat rev]. rewrite IH. symmetry. apply (repeat_cons n x). Qed.

Lemma good_repeat Gam Msqrt Minv CG lam an lb nu_min nu_max v_min v_max L_min L_max h r n :
  0 <= nu_min <= nu_max -> roots_ok Msqrt lam v_min v_max -> good_harmonic CG v_min v_max L_min L_max h ->
  symmetric_term (RadProd (Rep_elem Gam Msqrt Minv)) CG lam an lb nu_min nu_max v_min v_max L_min L_max (CNum r, repeat (OSph h) n).
Proof.
  intros Hnu HR GH. replace (repeat (OSph h) n) with (map ORad [] ++ map OSph (repeat h n)).
  - apply good_harmonics; [exact Hnu|powers| |apply repeat_palindrome|].
    + induction n; constructor; assumption.
    + intros vi vf li lf R1 R2 _ E1 E2. exact (roots_mirror Msqrt lam v_min v_max vi vf li lf HR R1 R2 E1 E2).
  - cbn [map app]. induction n; cbn; congruence.
Qed.

(** Powers of cos(3 gamma). *)
Lemma SH3_terms Gam Msqrt Minv files home st lam an lb nu_min nu_max v_min v_max L_min L_max c0 c1 c2 c3 c4 c5 c6 c7 c8 :
  0 <= nu_min <= nu_max -> 0 <= v_min <= v_max -> 0 <= L_min <= L_max ->
  roots_ok Msqrt lam v_min v_max -> free_of_number c0 ->
  Forall (symmetric_term (RadProd (Rep_elem Gam Msqrt Minv)) (CG_at files home st) lam an lb nu_min nu_max v_min v_max L_min L_max)
    (ACM_HamSH3 c0 (CNum c1) (CNum c2) (CNum c3) (CNum c4) (CNum c5) (CNum c6) (CNum c7) (CNum c8)).
Proof.
  intros Hnu Hv HL HR F0.
  assert (GY : good_harmonic (CG_at files home st) v_min v_max L_min L_max SpHarm_310).
  { eapply good_scalar; try eassumption; [reflexivity|]. intros F. discriminate. }
  unfold ACM_HamSH3. apply Forall_app. split.
  - apply good_opt. intros _. apply good_power with (rad := []); [exact Hnu|powers|reflexivity|exact F0].
  - cbn [combine seq flat_map]. rewrite app_nil_r.
    repeat (apply Forall_app; split); apply good_optnum; apply good_repeat; assumption.
Qed.

(** ... and with the square of cos(3 gamma) as a harmonic of its own; here the
    data files must be symmetric, and the odd powers from the third on are left out. *)
Definition table_symmetric (files : Text.text -> res (list R)) (home : Text.text) (st : cg_state) (v_min v_max L_min L_max : Z) : Prop :=
  forall w a1 a2 L, v_min <= w <= v_max -> L_min <= L <= L_max -> 1 <= a1 <= mult w L -> 1 <= a2 <= mult w L ->
    CG_at files home st w a1 L 6 1 0 w a2 L = CG_at files home st w a2 L 6 1 0 w a1 L.

Lemma SH6_terms Gam Msqrt Minv files home st lam an lb nu_min nu_max v_min v_max L_min L_max c0 c1 c2 c4 c6 c8 :
  0 <= nu_min <= nu_max -> 0 <= v_min <= v_max -> 0 <= L_min <= L_max ->
  roots_ok Msqrt lam v_min v_max -> free_of_number c0 -> table_symmetric files home st v_min v_max L_min L_max ->
  Forall (symmetric_term (RadProd (Rep_elem Gam Msqrt Minv)) (CG_at files home st) lam an lb nu_min nu_max v_min v_max L_min L_max)
    (ACM_HamSH6 c0 (CNum c1) (CNum c2) (CNum 0) (CNum c4) (CNum 0) (CNum c6) (CNum 0) (CNum c8)).
Proof.
  intros Hnu Hv HL HR F0 TS.
  assert (GY : good_harmonic (CG_at files home st) v_min v_max L_min L_max SpHarm_310).
  { eapply good_scalar; try eassumption; [reflexivity|]. intros F. discriminate. }
  assert (GX : good_harmonic (CG_at files home st) v_min v_max L_min L_max SpHarm_610).
  { eapply good_scalar; try eassumption; [reflexivity|]. intros _. exact TS. }
  assert (Z0 : forall r t, r = 0%R -> opt_term (CNum r) t = []).
  { intros r t ->. unfold opt_term; cbn [is0]; destruct (Req_EM_T 0 0); [reflexivity|lra]. }
  assert (FA : forall c d, free_of_number c -> free_of_number d -> free_of_number (cadd c d)).
  { intros c d A B nu nu' v al L. specialize (A nu nu' v al L). specialize (B nu nu' v al L). unfold cadd.
    destruct c, d; cbn [cval is0] in *; try reflexivity; repeat (destruct (Req_EM_T _ _)); cbn [cval]; congruence. }
  assert (FN : forall r, free_of_number (CNum r)) by (intros r ? ? ? ? ?; reflexivity).
  unfold ACM_HamSH6. cbv zeta. unfold cscale at 1 2 3 4. cbn [cmul].
  repeat (apply Forall_app; split).
  - apply good_opt. intros _. apply good_power with (rad := []); [exact Hnu|powers|reflexivity|].
    repeat (apply FA); try apply FN. exact F0.
  - unfold cscale. cbn [cmul cadd]. apply good_opt. intros _. apply good_repeat with (n := 1%nat) (h := SpHarm_310); assumption.
  - unfold cscale. cbn [cmul cadd]. apply good_opt. intros _. apply good_repeat with (n := 1%nat) (h := SpHarm_610); assumption.
  - unfold cscale. cbn [cmul cadd]. rewrite Z0 by ring. constructor.
  - unfold cscale. cbn [cmul cadd]. apply good_opt. intros _. apply good_repeat with (n := 2%nat) (h := SpHarm_610); assumption.
  - unfold cscale. cbn [cmul cadd]. rewrite Z0 by ring. constructor.
  - unfold cscale. cbn [cmul cadd]. apply good_opt. intros _. apply good_repeat with (n := 3%nat) (h := SpHarm_610); assumption.
  - unfold cscale. cbn [cmul cadd]. rewrite Z0 by ring. constructor.
  - unfold cscale. cbn [cmul cadd]. apply good_opt. intros _. apply good_repeat with (n := 4%nat) (h := SpHarm_610); assumption.
Qed.

Theorem C84_rigid : forall Gam Msqrt Minv files home st lam an lb nu_min nu_max v_min v_max L_min L_max cas con c1 c2 c3 c4 c5 c6 flag op D,
  0 <= nu_min <= nu_max -> 0 <= v_min <= v_max -> 0 <= L_min <= L_max ->
  roots_ok Msqrt lam v_min v_max -> free_of_number cas -> free_of_number con ->
  (flag = 1 -> c3 = 0%R /\ c5 = 0%R /\ table_symmetric files home st v_min v_max L_min L_max) ->
  ACM_HamRigidBeta cas con (CNum c1) (CNum c2) (CNum c3) (CNum c4) (CNum c5) (CNum c6) flag = Ok op ->
  fst (RepXspace (RadProd (Rep_elem Gam Msqrt Minv)) (CG_at files home st) op
         an lb nu_min nu_max v_min v_max L_min (Some L_max) (mkX lam [])) = Ok D ->
  symmetric D.
Proof.
  intros Gam Msqrt Minv files home st lam an lb nu_min nu_max v_min v_max L_min L_max cas con c1 c2 c3 c4 c5 c6 flag op D
    Hnu Hv HL HR F1 F2 H1 EO ED.
  assert (EX : exists X, lbsXspace nu_min nu_max v_min v_max L_min (Some L_max) = Ok X).
  { destruct (C06_layout _ _ _ _ _ _ Hnu Hv HL) as (X & sp & E1 & _). now exists X. }
  destruct EX as (X & EX).
  refine (proj1 (sum_symmetric _ _ lam an lb _ _ _ _ _ _ Hnu Hv HL _ X D _ EX ED)). clear ED.
  assert (HT : forall us, (us = if flag =? 0 then ACM_HamSH3 con (CNum c1) (CNum c2) (CNum c3) (CNum c4) (CNum c5) (CNum c6) (CNum 0) (CNum 0)
                      else ACM_HamSH6 con (CNum c1) (CNum c2) (CNum c3) (CNum c4) (CNum c5) (CNum c6) (CNum 0) (CNum 0)) ->
     (flag = 0 \/ flag = 1) ->
     Forall (symmetric_term (RadProd (Rep_elem Gam Msqrt Minv)) (CG_at files home st) lam an lb nu_min nu_max v_min v_max L_min L_max) us).
  { intros us -> HF. destruct (Z.eqb_spec flag 0) as [E|N]; [now apply SH3_terms|].
    assert (flag = 1) as E by lia. destruct (H1 E) as (-> & -> & TS). now apply SH6_terms. }
  revert EO. unfold ACM_HamRigidBeta. destruct (Z.eqb_spec flag 0) as [E0|N0]; [|destruct (Z.eqb_spec flag 1) as [E1|N1]; [|discriminate]].
  - cbn [orb negb raise_if bind]. intros EO. specialize (HT _ eq_refl (or_introl E0)).
    destruct (is0 cas); injection EO as <-; [exact HT|]. constructor; [|exact HT].
    apply good_power with (rad := []); [exact Hnu|powers|reflexivity|]. apply free_cmul; [exact F1|intros ? ? ? ? ?; reflexivity].
  - cbn [orb negb raise_if bind]. intros EO. specialize (HT _ eq_refl (or_intror E1)).
    destruct (is0 cas); injection EO as <-; [exact HT|]. constructor; [|exact HT].
    apply good_power with (rad := []); [exact Hnu|powers|reflexivity|]. apply free_cmul; [exact F1|intros ? ? ? ? ?; reflexivity].
Qed.

(** ** Where the matrices are not symmetric *)

(** beta^3 between neighbouring lambdas: the matrix in one direction and the
    transpose of the other differ in the last and the first diagonal entries,
    where the product with beta^2 leaves the truncated basis. *)
Theorem C84_cubed : forall Gam Msqrt Minv an lambdaa nu_min nu_max,
  an <> 0%R -> (0 < lambdaa)%R -> 0 <= nu_min <= nu_max ->
  exists A B,
    RadProd (Rep_elem Gam Msqrt Minv) [Radial_b2; Radial_b] an lambdaa 1 nu_min nu_max 0 = Ok A /\
    RadProd (Rep_elem Gam Msqrt Minv) [Radial_b2; Radial_b] an (lambdaa + 1)%R (-1) nu_min nu_max 0 = Ok B /\
    forall x y, nu_min <= x <= nu_max -> nu_min <= y <= nu_max ->
      (ent A (x - nu_min) (y - nu_min) - ent B (y - nu_min) (x - nu_min) =
       ((if ((x =? y) && (x =? nu_max))%Z then IZR (nu_max + 1) * sqrt (lambdaa + IZR nu_max) else 0)
        - (if ((x =? y) && (x =? nu_min))%Z then IZR nu_min * sqrt (lambdaa + IZR nu_min) else 0)) / an ^ 3)%R.
Proof.
  intros Gam Msqrt Minv an lambdaa nu_min nu_max Ha Hl Hn.
  destruct (cubed Gam Msqrt Minv an lambdaa nu_min nu_max Ha Hl Hn) as (A & B & EA & EB & _ & _ & H).
  exists A, B. split; [exact EA|]. split; [exact EB|]. exact H.
Qed.

(** The term c31 beta^3 cos(3 gamma) of the Hamiltonian, with the default lambda
    function. *)
Theorem C84_beta3 : forall Gam Msqrt Minv files home st an lb nu_min nu_max v_min v_max L_min L_max c X,
  an <> 0%R -> (0 < lb)%R -> 0 <= nu_min <= nu_max -> 0 <= v_min <= v_max -> 0 <= L_min <= L_max -> c <> 0%R ->
  (forall vf af Lf vi ai Li, In (vf, af, Lf) (lbs v_min v_max L_min L_max) -> In (vi, ai, Li) (lbs v_min v_max L_min L_max) ->
     exists g, CG_at files home st vi ai Li 3 1 0 vf af Lf = Ok g) ->
  lbsXspace nu_min nu_max v_min v_max L_min (Some L_max) = Ok X ->
  let z := CNum 0 in
  exists D,
    fst (RepXspace (RadProd (Rep_elem Gam Msqrt Minv)) (CG_at files home st) (ACM_Hamiltonian z z z z z z (CNum c) z z z z z z z)
           an lb nu_min nu_max v_min v_max L_min (Some L_max) (mkX lambda_acm_fun [])) = Ok D /\
    nrows D = zlen X /\ ncols D = zlen X /\
    forall p q nf vf af Lf ni vi ai Li, 0 <= p -> 0 <= q ->
      nth_error X (Z.to_nat p) = Some (nf, (vf, af, Lf)) -> nth_error X (Z.to_nat q) = Some (ni, (vi, ai, Li)) ->
      vf mod 2 = 1 -> vi mod 2 = 0 ->
      exists g m, CG_at files home st vi ai Li 3 1 0 vf af Lf = Ok g /\ ME_SO5red vf 3 vi = Ok (Some m) /\
        (ent D p q - ent D q p =
         c * (m / 3) * g *
         (((if ((nf =? ni) && (nf =? nu_max))%Z then IZR (nu_max + 1) * sqrt (lb + IZR nu_max) else 0)
           - (if ((nf =? ni) && (nf =? nu_min))%Z then IZR nu_min * sqrt (lb + IZR nu_min) else 0)) / an ^ 3))%R.
Proof.
  intros Gam Msqrt Minv files home st an lb nu_min nu_max v_min v_max L_min L_max c X Ha Hlb Hnu Hv HL Hc Hcg EX z.
  pose proof PI_RGT_0 as HPI.
  set (RP := RadProd (Rep_elem Gam Msqrt Minv)). set (CG := CG_at files home st).
  assert (LAM : forall v, 0 <= v -> lambda_acm_fun v = Ok (v mod 2)).
  { intros v H0. unfold lambda_acm_fun. rewrite require_nonnegint_ok by lia. cbn [bind]. now rewrite irem_ok by lia. }
  assert (EH : ACM_Hamiltonian z z z z z z (CNum c) z z z z z z z = [(CNum (Convert_310 * c), map ORad [Radial_b2; Radial_b] ++ [OSph SpHarm_310])]).
  { unfold ACM_Hamiltonian, opt_term, z. cbn [is0]. destruct (Req_EM_T 0 0); [|lra]. destruct (Req_EM_T c 0); [contradiction|]. reflexivity. }
  rewrite EH. clear EH.
  assert (PAR : forall vf vi m, 0 <= vf -> 0 <= vi -> ME_SO5red vf 3 vi = Ok (Some m) -> m <> 0%R -> (vf - vi) mod 2 = 1).
  { intros vf vi m Hf Hi Em N. destruct (C29_ME_total vf 3 vi Hf ltac:(lia) Hi) as (m' & E' & _ & TR). rewrite Em in E'. injection E' as <-.
    apply TR in N. lia. }
  destruct (cubed Gam Msqrt Minv an lb nu_min nu_max Ha Hlb Hnu) as (A & B & EA & EB & [SA1 SA2] & [SB1 SB2] & DEF).
  assert (UP : forall l, l = (lb + IZR 0)%R -> RP [Radial_b2; Radial_b] an l 1 nu_min nu_max 0 = Ok A) by (intros l ->; rewrite Rplus_0_r; exact EA).
  assert (DN : forall l, l = (lb + IZR 1)%R -> RP [Radial_b2; Radial_b] an l (-1) nu_min nu_max 0 = Ok B) by (intros l ->; exact EB).
  assert (PL : Forall plain_symbol [Radial_b2; Radial_b]) by (repeat (apply Forall_nil || apply Forall_cons); exact Logic.I).
  destruct (C79_defined RP CG lambda_acm_fun an lb nu_min nu_max v_min v_max L_min L_max Hnu Hv HL (Convert_310 * c) [Radial_b2; Radial_b] SpHarm_310 3 1 0) as (D & ED).
  - exact PL.
  - reflexivity.
  - intros v Bv. rewrite LAM by lia. eauto.
  - exact Hcg.
  - intros vf vi lf li m Bf Bi Ei Ef Em N. rewrite LAM in Ei by lia. rewrite LAM in Ef by lia.
    assert (li = vi mod 2) by congruence. assert (lf = vf mod 2) by congruence.
    pose proof (PAR vf vi m ltac:(lia) ltac:(lia) Em N).
    destruct (Z.eq_dec (vi mod 2) 0) as [E0|E0].
    + assert (lf - li = 1) as -> by lia. assert (li = 0) as -> by lia. exists A. split; [now apply UP|now split].
    + assert (lf - li = -1) as -> by lia. assert (li = 1) as -> by lia. exists B. split; [now apply DN|now split].
  - exists D. split; [exact ED|].
    destruct (C79_factorises RP CG lambda_acm_fun an lb nu_min nu_max v_min v_max L_min L_max Hnu Hv HL (Convert_310 * c) [Radial_b2; Radial_b] SpHarm_310 3 1 0 X D
      PL eq_refl EX ED) as (S1 & S2 & VV).
    split; [exact S1|]. split; [exact S2|]. intros p q nf vf af Lf ni vi ai Li Hp Hq Ep Eq Of Oi.
    destruct (VV p q nf vf af Lf ni vi ai Li Hp Hq Ep Eq) as (g & m & ki & kf & Eg & Em & Ei & Ef & V1 & V2).
    destruct (VV q p ni vi ai Li nf vf af Lf Hq Hp Eq Ep) as (g' & m' & kf' & ki' & Eg' & Em' & Ef' & Ei' & V3 & V4).
    destruct (position _ _ _ _ _ _ X p _ Hnu Hv HL EX Hp Ep) as (Bp & Lp & Np). destruct (position _ _ _ _ _ _ X q _ Hnu Hv HL EX Hq Eq) as (Bq & Lq & Nq).
    cbn [fst snd] in *. apply nth_error_In in Lp. apply nth_error_In in Lq. apply lbs_enumerates in Lp. apply lbs_enumerates in Lq. unfold is_state in Lp, Lq.
    pose proof (Z.mod_pos_bound p (nu_max - nu_min + 1) ltac:(lia)). pose proof (Z.mod_pos_bound q (nu_max - nu_min + 1) ltac:(lia)).
    exists g, m. split; [exact Eg|]. split; [exact Em|].
    assert (M1 : ME_SO5r3 CG vf af Lf 3 1 0 vi ai Li = Ok (Some (g * m)%R)) by (unfold ME_SO5r3; rewrite Eg, Em; reflexivity).
    assert (M2 : ME_SO5r3 CG vi ai Li 3 1 0 vf af Lf = Ok (Some (g' * m')%R)) by (unfold ME_SO5r3; rewrite Eg', Em'; reflexivity).
    assert (SYM : (g * m = g' * m')%R).
    { destruct (Z.eq_dec Lf Li) as [->|NL].
      - destruct (C51_hermitian files home st vf af Li 3 1 0 vi ai Li) as [(e & F & _)|(x & y & F1 & F2 & F3)]; try lia.
        + unfold CG in M1. rewrite M1 in F. discriminate.
        + unfold CG in M1, M2. rewrite M1 in F1. rewrite M2 in F2. injection F1 as <-. injection F2 as <-.
          rewrite even_m1 in F3 by (replace (Li + 0 - Li) with 0 by lia; reflexivity).
          assert (P : (0 < sqrt (IZR (2 * Li + 1)))%R) by (apply sqrt_lt_R0; apply (IZR_lt 0); lia).
          apply (Rmult_eq_reg_l (sqrt (IZR (2 * Li + 1)))); lra.
      - assert (Z1 : (g * m = 0)%R).
        { destruct (Req_EM_T (g * m) 0) as [Z0|N0]; [exact Z0|]. exfalso.
          destruct (C51_selection files home st vf af Lf 3 1 0 vi ai Li (g * m)%R) as (_ & T); try lia; assumption. }
        assert (Z2 : (g' * m' = 0)%R).
        { destruct (Req_EM_T (g' * m') 0) as [Z0|N0]; [exact Z0|]. exfalso.
          destruct (C51_selection files home st vi ai Li 3 1 0 vf af Lf (g' * m')%R) as (_ & T); try lia; assumption. }
        congruence. }
    assert (CV : (c * (m / 3) * g = Convert_310 * c / (4 * PI) * (g * m))%R) by (unfold Convert_310, FourPi; field; lra). rewrite CV.
    destruct (Req_EM_T (g * m) 0) as [Z0|N0].
    + rewrite (V1 Z0), V3 by congruence. rewrite Z0. ring.
    + destruct (V2 N0) as (A' & EA' & ->). destruct (V4 ltac:(congruence)) as (B' & EB' & ->).
      clear V1 V2 V3 V4. rewrite LAM in Ei by lia. rewrite LAM in Ef by lia.
      rewrite LAM in Ei' by lia. rewrite LAM in Ef' by lia.
      assert (ki = 0) as -> by (injection Ei as <-; exact Oi). assert (kf = 1) as -> by (injection Ef as <-; exact Of).
      assert (ki' = 0) as -> by (injection Ei' as <-; exact Oi). assert (kf' = 1) as -> by (injection Ef' as <-; exact Of).
      change (1 - 0) with 1 in EA'. change (0 - 1) with (-1) in EB'.
      rewrite (UP _ eq_refl) in EA'. injection EA' as <-. rewrite (DN _ eq_refl) in EB'. injection EB' as <-.
      specialize (DEF nf ni ltac:(lia) ltac:(lia)). unfold defect in DEF. rewrite <- DEF, <- SYM. ring.
Qed.

(** The states of seniority 0 and 3 and angular momentum 0. *)
Lemma scalar_pair files home st g : CG_at files home st 0 1 0 3 1 0 3 1 0 = Ok g ->
  forall vf af Lf vi ai Li, In (vf, af, Lf) (lbs 0 3 0 0) -> In (vi, ai, Li) (lbs 0 3 0 0) ->
    exists h, CG_at files home st vi ai Li 3 1 0 vf af Lf = Ok h.
Proof.
  intros Eg. assert (EL : lbs 0 3 0 0 = [(0, 1, 0); (3, 1, 0)]) by reflexivity.
  rewrite EL. intros vf af Lf vi ai Li If Ii.
  assert (ZERO : forall v w, (v = 0 /\ w = 0) \/ (v = 3 /\ w = 3) -> CG_at files home st v 1 0 3 1 0 w 1 0 = Ok 0%R).
  { intros v w Hvw. set (n := {| n_v1 := v; n_a1 := 1; n_L1 := 0; n_v2 := 3; n_a2 := 1; n_L2 := 0; n_v3 := w; n_a3 := 1; n_L3 := 0 |}).
    pose proof (C11_selection_rules files home st n ltac:(unfold legal_nonet; cbn; lia)) as Q.
    change (CG_at files home st v 1 0 3 1 0 w 1 0) with (fst (CGn files home st n)). rewrite Q; [reflexivity|].
    intros ((T1 & T2 & T3) & (k & Ek) & _). unfold n in *. cbn [n_v1 n_v2 n_v3] in *. lia. }
  destruct If as [E1|[E1|[]]], Ii as [E2|[E2|[]]]; injection E1 as <- <- <-; injection E2 as <- <- <-.
  + exists 0%R. apply ZERO. lia.
  + destruct (C51_hermitian files home st 3 1 0 3 1 0 0 1 0) as [(e & F & _)|(x & y & F1 & F2 & _)]; try lia.
    * unfold ME_SO5r3 in F. rewrite Eg in F. cbn [bind] in F.
      destruct (C29_ME_total 3 3 0 ltac:(lia) ltac:(lia) ltac:(lia)) as (m' & E' & _). rewrite E' in F. discriminate.
    * unfold ME_SO5r3 in F2. destruct (CG_at files home st 3 1 0 3 1 0 0 1 0) as [g'|]; [eauto|discriminate].
  + eauto.
  + exists 0%R. apply ZERO. lia.
Qed.

(** With the states of seniority 0 and 3 and angular momentum 0 the matrix is
    not symmetric, if the coefficient (0 1 0, 3 1 0; 3 1 0) in the data files is
    not zero. *)
Theorem C84_beta3_refuted : forall Gam Msqrt Minv files home st an lb nu_max c g,
  an <> 0%R -> (0 < lb)%R -> 0 <= nu_max -> c <> 0%R ->
  CG_at files home st 0 1 0 3 1 0 3 1 0 = Ok g -> g <> 0%R ->
  let z := CNum 0 in
  exists D,
    fst (RepXspace (RadProd (Rep_elem Gam Msqrt Minv)) (CG_at files home st) (ACM_Hamiltonian z z z z z z (CNum c) z z z z z z z)
           an lb 0 nu_max 0 3 0 (Some 0) (mkX lambda_acm_fun [])) = Ok D /\
    nrows D = 2 * (nu_max + 1) /\
    ent D (2 * nu_max + 1) nu_max <> ent D nu_max (2 * nu_max + 1) /\ ~ symmetric D.
Proof.
  intros Gam Msqrt Minv files home st an lb nu_max c g Ha Hlb Hn Hc Eg Ng z.
  assert (EX : exists X, lbsXspace 0 nu_max 0 3 0 (Some 0) = Ok X).
  { destruct (C06_layout 0 nu_max 0 3 0 0 ltac:(lia) ltac:(lia) ltac:(lia)) as (X & sp & E1 & _). now exists X. }
  destruct EX as (X & EX).
  assert (EL : lbs 0 3 0 0 = [(0, 1, 0); (3, 1, 0)]) by reflexivity.
  destruct (C84_beta3 Gam Msqrt Minv files home st an lb 0 nu_max 0 3 0 0 c X Ha Hlb ltac:(lia) ltac:(lia) ltac:(lia) Hc) as (D & ED & S1 & S2 & VV).
  - apply (scalar_pair files home st g Eg).
  - exact EX.
  - assert (HX : zlen X = 2 * (nu_max + 1)).
    { destruct (C06_layout 0 nu_max 0 3 0 0 ltac:(lia) ltac:(lia) ltac:(lia)) as (X' & sp & E1 & Es & Hl & _).
      rewrite EX in E1. injection E1 as <-. rewrite lbs_rngVvarL_some, EL in Es by lia. injection Es as <-.
      rewrite Hl. unfold dimRadial. replace (0 <=? nu_max) with true by lia. change (zlen _) with 2. lia. }
    assert (AT : forall k nu s, 0 <= k -> k = nu + (nu_max + 1) * (if (fst (fst s)) =? 0 then 0 else 1) -> 0 <= nu <= nu_max ->
       In s [(0, 1, 0); (3, 1, 0)] -> nth_error X (Z.to_nat k) = Some (nu, s)).
    { intros k nu s Hk Ek Hnu Hs. assert (exists y, nth_error X (Z.to_nat k) = Some y) as ([nu' s'] & Ey).
      { destruct (nth_error X (Z.to_nat k)) eqn:F; [eauto|]. apply nth_error_None in F. unfold zlen in HX. destruct (_ =? 0); lia. }
      destruct (position _ _ _ _ _ _ X k _ (conj (Z.le_refl 0) Hn) (conj (Z.le_refl 0) (Zle_0_pos 3)) (conj (Z.le_refl 0) (Z.le_refl 0)) EX Hk Ey) as (_ & Lp & Np).
      cbn [fst snd] in *. rewrite Z.sub_0_r in Lp, Np. rewrite EL in Lp.
      rewrite Ey. f_equal. destruct Hs as [<-|[<-|[]]]; cbn [fst Z.eqb] in Ek.
      - rewrite Z.mul_0_r, Z.add_0_r in Ek. subst k. rewrite Z.div_small in Lp by lia. rewrite Z.mod_small in Np by lia. cbn in Lp.
        injection Lp as <-. f_equal. lia.
      - rewrite Z.mul_1_r in Ek. assert (k / (nu_max + 1) = 1 /\ k mod (nu_max + 1) = nu) as [K1 K2].
        { split; [symmetry; apply (Z.div_unique _ _ _ nu); lia|symmetry; apply (Z.mod_unique _ _ 1); lia]. }
        rewrite K1 in Lp. rewrite K2 in Np. cbn in Lp. injection Lp as <-. f_equal. lia. }
    exists D. split; [exact ED|]. split; [congruence|].
    destruct (VV (2 * nu_max + 1) nu_max nu_max 3 1 0 nu_max 0 1 0) as (g0 & m & Eg0 & Em & V); try lia.
    { apply AT; [lia|cbn [fst Z.eqb]; lia|lia|right; now left]. }
    { apply AT; [lia|cbn [fst Z.eqb]; lia|lia|now left]. }
    rewrite Eg in Eg0. injection Eg0 as <-.
    assert (NE : ent D (2 * nu_max + 1) nu_max <> ent D nu_max (2 * nu_max + 1)).
    { intros E. rewrite E, Rminus_eq_0 in V.
      destruct (C29_ME_total 3 3 0 ltac:(lia) ltac:(lia) ltac:(lia)) as (m' & E' & _ & TR). rewrite Em in E'. injection E' as <-.
      assert (Nm : m <> 0%R) by (apply TR; lia).
      rewrite !Z.eqb_refl in V. cbn [andb] in V.
      assert (P1 : (0 < IZR (nu_max + 1) * sqrt (lb + IZR nu_max))%R).
      { apply Rmult_lt_0_compat; [apply (IZR_lt 0); lia|]. apply sqrt_lt_R0. pose proof (IZR_le 0 _ Hn). lra. }
      assert (P2 : (if (nu_max =? 0)%Z then IZR 0 * sqrt (lb + IZR 0) else 0)%R = 0%R) by (destruct (nu_max =? 0); ring).
      rewrite P2, Rminus_0_r in V. symmetry in V.
      assert (Na : (an ^ 3 <> 0)%R) by now apply pow_nonzero.
      apply Rmult_integral in V. destruct V as [V|V].
      - apply Rmult_integral in V. destruct V as [V|V]; [|contradiction]. apply Rmult_integral in V. destruct V as [V|V]; [contradiction|]. lra.
      - unfold Rdiv in V. apply Rmult_integral in V. destruct V as [V|V]; [lra|]. now apply Rinv_neq_0_compat in V. }
    split; [exact NE|]. intros (_ & _ & SY). apply NE. rewrite <- (SY (2 * nu_max + 1) nu_max); [reflexivity|lia|lia].
Qed.

(** A coefficient with NUMBER multiplies the columns of the matrix: NUMBER
    times beta^2 is not symmetric. *)
Theorem C84_number_refuted : forall Gam Msqrt Minv CG an lb nu_min nu_max v_max L_max,
  an <> 0%R -> (0 < lb)%R -> 0 <= nu_min < nu_max -> 0 <= v_max -> 0 <= L_max ->
  let z := CNum 0 in
  exists D,
    fst (RepXspace (RadProd (Rep_elem Gam Msqrt Minv)) CG (ACM_Hamiltonian z z (CSym (fun nu _ _ _ => IZR nu)) z z z z z z z z z z z)
           an lb nu_min nu_max 0 v_max 0 (Some L_max) (mkX lambda_acm_fun [])) = Ok D /\
    ent D 0 1 <> ent D 1 0 /\ ~ symmetric D.
Proof.
  intros Gam Msqrt Minv CG an lb nu_min nu_max v_max L_max Ha Hlb Hnu Hv HL z.
  set (RP := RadProd (Rep_elem Gam Msqrt Minv)). set (f := CSym (fun nu _ _ _ => IZR nu)).
  assert (Hnu' : 0 <= nu_min <= nu_max) by lia.
  assert (EX : exists X, lbsXspace nu_min nu_max 0 v_max 0 (Some L_max) = Ok X).
  { destruct (C06_layout nu_min nu_max 0 v_max 0 L_max ltac:(lia) ltac:(lia) ltac:(lia)) as (X & sp & E1 & _). now exists X. }
  destruct EX as (X & EX).
  set (V := fun l nf ni => (powerRZ an (-2) * v_b2 l nf ni)%R).
  destruct (rep_radial RP CG lambda_acm_fun an lb nu_min nu_max 0 v_max 0 L_max Hnu' ltac:(lia) ltac:(lia) [(f, [Radial_b2], V)] X) as (D & ED & S1 & S2 & EV).
  - intros c w V0 [E|[]]. injection E as <- <- <-. split; [|repeat (apply Forall_nil || apply Forall_cons); exact Logic.I].
    intros v Bv. unfold lambda_acm_fun. rewrite require_nonnegint_ok by lia. cbn [bind]. rewrite irem_ok by lia.
    exists (v mod 2). split; [reflexivity|]. apply word_b2; [lia|].
    pose proof (IZR_le 0 (v mod 2) ltac:(lia)). lra.
  - exact EX.
  - exists D. assert (EH : ACM_Hamiltonian z z f z z z z z z z z z z z = [(f, [ORad Radial_b2])]).
    { unfold ACM_Hamiltonian, opt_term, z, f. cbn [is0]. destruct (Req_EM_T 0 0); [|lra]. reflexivity. }
    rewrite EH. split; [exact ED|].
    assert (I0 : In (0, 1, 0) (lbs 0 v_max 0 L_max)).
    { apply lbs_enumerates. unfold is_state. change (mult 0 0) with 1. lia. }
    assert (exists s0, nth_error (lbs 0 v_max 0 L_max) 0 = Some s0) as ([[v al] L] & E0).
    { destruct (lbs 0 v_max 0 L_max); [destruct I0|cbn; eauto]. }
    destruct (C06_layout nu_min nu_max 0 v_max 0 L_max ltac:(lia) ltac:(lia) ltac:(lia)) as (X' & sp & E1 & Es & Hl & HN).
    rewrite EX in E1. injection E1 as <-. rewrite lbs_rngVvarL_some in Es by lia. injection Es as <-.
    assert (Hd : dimRadial nu_min nu_max = nu_max - nu_min + 1) by (unfold dimRadial; replace (nu_min <=? nu_max) with true by lia; reflexivity). rewrite Hd in *.
    pose proof (HN 0%nat 0%nat _ E0 ltac:(lia)) as N0. pose proof (HN 0%nat 1%nat _ E0 ltac:(lia)) as N1. cbn [Nat.mul Nat.add] in N0, N1.
    assert (Z1 : 1 < zlen X).
    { assert (nth_error X 1 <> None) as N by congruence. apply nth_error_Some in N. unfold zlen. lia. }
    pose proof (EV 0 1 _ _ _ _ _ _ ltac:(lia) ltac:(lia) N0 N1) as A. pose proof (EV 1 0 _ _ _ _ _ _ ltac:(lia) ltac:(lia) N1 N0) as B.
    assert (SE : state_eqb (v, al, L) (v, al, L) = true) by (unfold state_eqb; rewrite !Z.eqb_refl; reflexivity).
    rewrite SE in A, B. cbn [map fold_right fst snd f cval] in A, B.
    assert (Bv : 0 <= v <= v_max) by (eapply in_lbs; eapply nth_error_In; exact E0).
    assert (LA : (0 < lam_at lambda_acm_fun lb v)%R).
    { unfold lam_at, lambda_acm_fun. rewrite require_nonnegint_ok by lia. cbn [bind]. rewrite irem_ok by lia. pose proof (IZR_le 0 (v mod 2) ltac:(lia)). lra. }
    set (l := lam_at lambda_acm_fun lb v) in *. unfold V, v_b2 in A, B.
    replace (nu_min + Z.of_nat 0 =? nu_min + Z.of_nat 1 - 1) with true in A by lia.
    replace (nu_min + Z.of_nat 1 =? nu_min + Z.of_nat 0 - 1) with false in B by lia. replace (nu_min + Z.of_nat 1 =? nu_min + Z.of_nat 0) with false in B by lia.
    replace (nu_min + Z.of_nat 1 =? nu_min + Z.of_nat 0 + 1) with true in B by lia.
    replace (nu_min + Z.of_nat 0) with nu_min in A, B by lia. replace (nu_min + Z.of_nat 1) with (nu_min + 1) in A, B by lia.
    assert (NE : ent D 0 1 <> ent D 1 0).
    { rewrite A, B, plus_IZR. intros E.
      assert (P : (0 < pv l nu_min)%R).
      { unfold pv. pose proof (IZR_le 0 nu_min ltac:(lia)). apply sqrt_lt_R0. apply Rmult_lt_0_compat; lra. }
      assert (Q : powerRZ an (-2) <> 0%R) by now apply powerRZ_NOR.
      change (IZR (Z.of_nat 1)) with 1%R in E. revert P Q E. generalize (powerRZ an (-2)) (pv l nu_min). intros q0 p0 P Q E.
      assert (q0 * p0 = 0)%R as Z0 by lra. apply Rmult_integral in Z0. destruct Z0 as [Z0|Z0]; [contradiction|lra]. }
    split; [exact NE|]. intros (_ & _ & SY). apply NE. symmetry. apply SY; lia.
Qed.

(** ** Transition operators *)

(** The reduced elements of the quadrupole operator in the two directions. *)
Theorem C84_quadrupole : forall Gam Msqrt Minv files home st lam an lb nu_min nu_max v_min v_max L_min L_max X D,
  0 <= nu_min <= nu_max -> 0 <= v_min <= v_max -> 0 <= L_min <= L_max -> keeps_parity lam v_min v_max ->
  lbsXspace nu_min nu_max v_min v_max L_min (Some L_max) = Ok X ->
  fst (RepXspace (RadProd (Rep_elem Gam Msqrt Minv)) (CG_at files home st) quad_op
         an lb nu_min nu_max v_min v_max L_min (Some L_max) (mkX lam [])) = Ok D ->
  forall p q nf vf af Lf ni vi ai Li, 0 <= p -> 0 <= q ->
    nth_error X (Z.to_nat p) = Some (nf, (vf, af, Lf)) -> nth_error X (Z.to_nat q) = Some (ni, (vi, ai, Li)) ->
    (sqrt (IZR (2 * Lf + 1)) * ent D p q = powerRZ (-1) (Lf - Li) * sqrt (IZR (2 * Li + 1)) * ent D q p)%R.
Proof.
  intros Gam Msqrt Minv files home st lam an lb nu_min nu_max v_min v_max L_min L_max X D Hnu Hv HL HP EX ED p q nf vf af Lf ni vi ai Li Hp Hq Ep Eq.
  set (RP := RadProd (Rep_elem Gam Msqrt Minv)) in *. set (CG := CG_at files home st) in *.
  assert (PL : Forall plain_symbol [Radial_b]) by (repeat (apply Forall_nil || apply Forall_cons); exact Logic.I).
  destruct (C79_factorises RP CG lam an lb nu_min nu_max v_min v_max L_min L_max Hnu Hv HL Convert_112 [Radial_b] SpHarm_112 1 1 2 X D PL eq_refl EX ED) as (S1 & S2 & VV).
  destruct (VV p q nf vf af Lf ni vi ai Li Hp Hq Ep Eq) as (g & m & ki & kf & Eg & Em & Ei & Ef & V1 & V2).
  destruct (VV q p ni vi ai Li nf vf af Lf Hq Hp Eq Ep) as (g' & m' & kf' & ki' & Eg' & Em' & Ef' & Ei' & V3 & V4).
  rewrite Ei in Ei'. injection Ei' as <-. rewrite Ef in Ef'. injection Ef' as <-. clear VV.
  destruct (position _ _ _ _ _ _ X p _ Hnu Hv HL EX Hp Ep) as (Bp & Lp & Np). destruct (position _ _ _ _ _ _ X q _ Hnu Hv HL EX Hq Eq) as (Bq & Lq & Nq).
  cbn [fst snd] in *. apply nth_error_In in Lp. apply nth_error_In in Lq. apply lbs_enumerates in Lp. apply lbs_enumerates in Lq. unfold is_state in Lp, Lq.
  pose proof (Z.mod_pos_bound p (nu_max - nu_min + 1) ltac:(lia)). pose proof (Z.mod_pos_bound q (nu_max - nu_min + 1) ltac:(lia)).
  destruct (C29_ME_total vf 1 vi ltac:(lia) ltac:(lia) ltac:(lia)) as (m2 & E2 & _ & TR). rewrite Em in E2. injection E2 as <-.
  destruct (C29_ME_total vi 1 vf ltac:(lia) ltac:(lia) ltac:(lia)) as (m2 & E2 & _ & TR'). rewrite Em' in E2. injection E2 as <-.
  destruct (Z.eq_dec ((vf - vi) mod 2) 0) as [EV|OD].
  - assert (m = 0%R) as -> by (destruct (Req_EM_T m 0) as [|N]; [assumption|apply TR in N; lia]).
    assert (m' = 0%R) as -> by (destruct (Req_EM_T m' 0) as [|N]; [assumption|apply TR' in N; lia]).
    rewrite V1, V3 by ring. ring.
  - assert (M1 : ME_SO5r3 CG vf af Lf 1 1 2 vi ai Li = Ok (Some (g * m)%R)) by (unfold ME_SO5r3; rewrite Eg, Em; reflexivity).
    assert (M2 : ME_SO5r3 CG vi ai Li 1 1 2 vf af Lf = Ok (Some (g' * m')%R)) by (unfold ME_SO5r3; rewrite Eg', Em'; reflexivity).
    assert (SYM : (sqrt (IZR (2 * Lf + 1)) * (g * m) = powerRZ (-1) (Lf - Li) * sqrt (IZR (2 * Li + 1)) * (g' * m'))%R).
    { destruct (C51_hermitian files home st vf af Lf 1 1 2 vi ai Li) as [(e & F & _)|(x & y & F1 & F2 & F3)]; try lia.
      - unfold CG in M1. rewrite M1 in F. discriminate.
      - unfold CG in M1, M2. rewrite M1 in F1. rewrite M2 in F2. injection F1 as <-. injection F2 as <-.
        replace (Lf + 2 - Li) with (Lf - Li + 2) in F3 by lia. rewrite powerRZ_add in F3 by lra.
        rewrite (even_m1 2 eq_refl) in F3. rewrite Rmult_1_r in F3. exact F3. }
    assert (PW : powerRZ (-1) (Lf - Li) <> 0%R) by (apply powerRZ_NOR; lra).
    assert (P1 : (0 < sqrt (IZR (2 * Lf + 1)))%R) by (apply sqrt_lt_R0; apply (IZR_lt 0); lia).
    assert (P2 : (0 < sqrt (IZR (2 * Li + 1)))%R) by (apply sqrt_lt_R0; apply (IZR_lt 0); lia).
    destruct (Req_EM_T (g * m) 0) as [Z0|N0].
    + assert (Z1 : (g' * m' = 0)%R).
      { rewrite Z0, Rmult_0_r in SYM. symmetry in SYM. apply Rmult_integral in SYM. destruct SYM as [F|F]; [|exact F].
        apply Rmult_integral in F. destruct F as [F|F]; [contradiction|lra]. }
      rewrite (V1 Z0), (V3 Z1). ring.
    + assert (N1 : (g' * m' <> 0)%R).
      { intros Z1. apply N0. rewrite Z1, Rmult_0_r in SYM. apply Rmult_integral in SYM. destruct SYM as [F|F]; [lra|exact F]. }
      destruct (V2 N0) as (A & EA & ->). destruct (V4 N1) as (B & EB & ->).
      pose proof (HP vi vf ki kf ltac:(lia) ltac:(lia) Ei Ef) as PK.
      destruct (mirror_power Gam Msqrt Minv an lb nu_min nu_max Hnu [Radial_b] ki kf) with (A := A) (B := B) as ([Q1 Q2] & (_ & _ & Q3)).
      * powers.
      * change (exponent _) with 1. unfold mirrored. lia.
      * change (exponent _) with 1. lia.
      * exact EA.
      * exact EB.
      * rewrite (Q3 (nf - nu_min) (ni - nu_min)) by lia.
        replace (sqrt (IZR (2 * Lf + 1)) * (Convert_112 / (4 * PI) * (g * m) * ent A (nf - nu_min) (ni - nu_min)))%R
          with (Convert_112 / (4 * PI) * ent A (nf - nu_min) (ni - nu_min) * (sqrt (IZR (2 * Lf + 1)) * (g * m)))%R by ring.
        rewrite SYM. ring.
Qed.

(** ** Cases *)

Definition ones : Text.text -> res (list R) := fun _ => Ok [1%R].

(** The smallest basis with an off-diagonal cos(3 gamma). *)
Lemma ones_coefficient : CG_at ones [] (fresh []) 0 1 0 3 1 0 3 1 0 = Ok 1%R.
Proof. reflexivity. Qed.

(** A Hamiltonian whose matrix is computed, symmetric and not diagonal. *)
Example C84_case : forall Msqrt Minv, exists D,
  let z := CNum 0 in
  fst (RepXspace (RadProd (Rep_elem (fun _ => 1%R) Msqrt Minv)) (CG_at ones [] (fresh [])) (ACM_Hamiltonian z z z z z (CNum 3) z z z z z z z z)
         2 (5 / 2) 0 1 0 3 0 (Some 0) (mkX lambda_acm_fun [])) = Ok D /\
  symmetric D /\ nrows D = 4 /\ ent D 2 0 <> 0%R.
Proof.
  intros Msqrt Minv. set (CG := CG_at ones [] (fresh [])). set (RP := RadProd (Rep_elem (fun _ => 1%R) Msqrt Minv)).
  assert (LAM : forall v, 0 <= v -> lambda_acm_fun v = Ok (v mod 2)).
  { intros v H0. unfold lambda_acm_fun. rewrite require_nonnegint_ok by lia. cbn [bind]. now rewrite irem_ok by lia. }
  assert (EH : ACM_Hamiltonian (CNum 0) (CNum 0) (CNum 0) (CNum 0) (CNum 0) (CNum 3) (CNum 0) (CNum 0) (CNum 0) (CNum 0) (CNum 0) (CNum 0) (CNum 0) (CNum 0)
             = [(CNum (Convert_310 * 3), map ORad [Radial_b] ++ [OSph SpHarm_310])]).
  { unfold ACM_Hamiltonian, opt_term. cbn [is0]. destruct (Req_EM_T 0 0); [|lra]. destruct (Req_EM_T 3 0); [lra|]. reflexivity. }
  assert (PL : Forall plain_symbol [Radial_b]) by (repeat (apply Forall_nil || apply Forall_cons); exact Logic.I).
  assert (RAD : forall li lf, (li = 0 /\ lf = 1) \/ (li = 1 /\ lf = 0) -> exists M, RP [Radial_b] 2%R (5 / 2 + IZR li)%R (lf - li) 0 1 0 = Ok M /\ nrows M = 2 /\ ncols M = 2 /\
            (li = 0 -> ent M 0 0 <> 0%R)).
  { intros li lf [[-> ->]|[-> ->]].
    - destruct (word_b_pl (fun _ => 1%R) Msqrt Minv 0 1 ltac:(lia) 2 (5 / 2 + 0) ltac:(lra)) as (M & E & A & B & C).
      exists M. split; [exact E|]. split; [exact A|]. split; [exact B|]. intros _. rewrite C by lia. 
      unfold v_b_pl. cbn [Z.eqb Z.add Z.sub Z.opp Z.pos_sub]. assert (0 < sqrt (5 / 2 + 0 + 0))%R by (apply sqrt_lt_R0; lra).
      intros F. apply Rmult_integral in F. destruct F as [F|F]; [|lra]. revert F. apply powerRZ_NOR. lra.
    - destruct (word_b_ml (fun _ => 1%R) Msqrt Minv 0 1 ltac:(lia) 2 (5 / 2 + 1) ltac:(lra)) as (M & E & A & B & _).
      exists M. split; [exact E|]. split; [exact A|]. split; [exact B|]. discriminate. }
  destruct (C79_defined RP CG lambda_acm_fun 2 (5 / 2) 0 1 0 3 0 0 ltac:(lia) ltac:(lia) ltac:(lia) (Convert_310 * 3) [Radial_b] SpHarm_310 3 1 0 PL eq_refl) as (D & ED).
  - intros v Bv. rewrite LAM by lia. eauto.
  - apply (scalar_pair ones [] (fresh []) 1 ones_coefficient).
  - intros vf vi lf li m Bf Bi Ei Ef Em N. rewrite LAM in Ei by lia. rewrite LAM in Ef by lia.
    destruct (C29_ME_total vf 3 vi ltac:(lia) ltac:(lia) ltac:(lia)) as (m' & E' & _ & TR). rewrite Em in E'. injection E' as <-. apply TR in N.
    injection Ei as <-. injection Ef as <-. destruct (RAD (vi mod 2) (vf mod 2)) as (M & E & A & B & _); [lia|]. eauto.
  - exists D. cbv zeta. rewrite EH. split; [exact ED|]. split.
    { rewrite <- EH in ED. eapply C84_hamiltonian; [| | | | | | | | | |exact ED]; try lia; try (intros ? ? ? ? ?; reflexivity).
      - apply C84_parity. lia.
      - now left. }
    destruct (C79_factorises RP CG lambda_acm_fun 2 (5 / 2) 0 1 0 3 0 0 ltac:(lia) ltac:(lia) ltac:(lia) (Convert_310 * 3) [Radial_b] SpHarm_310 3 1 0
      _ D PL eq_refl eq_refl ED) as (S1 & S2 & VV).
    split; [exact S1|].
    destruct (VV 2 0 0 3 1 0 0 0 1 0 ltac:(lia) ltac:(lia) eq_refl eq_refl) as (g & m & ki & kf & Eg & Em & Ei & Ef & _ & V2).
    rewrite LAM in Ei by lia. rewrite LAM in Ef by lia. assert (ki = 0) as -> by (symmetry; injection Ei; auto). assert (kf = 1) as -> by (symmetry; injection Ef; auto).
    unfold CG in Eg. rewrite ones_coefficient in Eg. injection Eg as <-.
    destruct (C29_ME_total 3 3 0 ltac:(lia) ltac:(lia) ltac:(lia)) as (m' & E' & _ & TR). rewrite Em in E'. injection E' as <-.
    assert (Nm : m <> 0%R) by (apply TR; lia).
    destruct (V2 ltac:(rewrite Rmult_1_l; exact Nm)) as (M & EM & V). destruct (RAD 0 1 ltac:(lia)) as (M' & EM' & _ & _ & NM).
    rewrite EM in EM'. injection EM' as <-. specialize (NM eq_refl). rewrite V. change (0 - 0) with 0.
    pose proof PI_RGT_0 as HPI. intros F. apply Rmult_integral in F. destruct F as [F|F]; [|contradiction].
    apply Rmult_integral in F. destruct F as [F|F]; [|rewrite Rmult_1_l in F; contradiction].
    unfold Convert_310, FourPi in F. replace (4 * PI / 3 * 3 / (4 * PI))%R with 1%R in F by (field; lra). lra.
Qed.

Example C84_beta3_case : exists D,
  let z := CNum 0 in
  fst (RepXspace (RadProd (Rep_elem (fun _ => 1%R) Ok Ok)) (CG_at ones [] (fresh [])) (ACM_Hamiltonian z z z z z z (CNum 3) z z z z z z z)
         2 (5 / 2) 0 1 0 3 0 (Some 0) (mkX lambda_acm_fun [])) = Ok D /\
  nrows D = 4 /\ ent D 3 1 <> ent D 1 3.
Proof.
  destruct (C84_beta3_refuted (fun _ => 1%R) Ok Ok ones [] (fresh []) 2 (5 / 2) 1 3 1) as (D & E & N & NE & _); try lra; try lia.
  - exact ones_coefficient.
  - exists D. auto.
Qed.

(** A lambda function, coefficients and a matrix square root meeting the other hypotheses. *)
Example C84_rigid_case : roots_ok Ok lambda_acm_fun 0 6 /\ free_of_number (CNum 2) /\ free_of_number (SEN (fun v => IZR v)) /\
  ~ free_of_number (CSym (fun nu _ _ _ => IZR nu)) /\
  exists op, ACM_HamRigidBeta (CNum 2) (CNum 0) (CNum 1) (CNum 2) (CNum 3) (CNum 0) (CNum 0) (CNum 0) 0 = Ok op.
Proof.
  split; [left; intros A B SA E; injection E as <-; auto|]. split; [intros ? ? ? ? ?; reflexivity|]. split; [intros ? ? ? ? ?; reflexivity|]. split.
  - intros F. specialize (F 0 1 0 0 0). cbn in F. lra.
  - unfold ACM_HamRigidBeta. cbn [Z.eqb orb negb raise_if bind]. destruct (is0 (CNum 2)); eauto.
Qed.

(** Up to seniority 5 no angular momentum occurs twice, and there is nothing to ask of the data files. *)
Example C84_table_case : forall files home st v_max L_max, v_max <= 5 -> table_symmetric files home st 0 v_max 0 L_max.
Proof.
  intros files home st v_max L_max Hv w a1 a2 L Hw HL H1 H2.
  assert (M : mult w L <= 1).
  { destruct (Z_le_gt_dec L 10) as [S|S]; [|rewrite mult_out by lia; lia].
    assert (C : forall w L, In w (py_range 0 6) -> In L (py_range 0 11) -> mult w L <= 1).
    { intros w0 L0 I1 I2.
      assert (K : forallb (fun x => forallb (fun y => mult x y <=? 1) (py_range 0 11)) (py_range 0 6) = true) by (vm_compute; reflexivity).
      rewrite forallb_forall in K. specialize (K _ I1). rewrite forallb_forall in K. specialize (K _ I2). lia. }
    apply C; apply py_range_In; lia. }
  assert (a1 = a2) as -> by lia. reflexivity.
Qed.

Print Assumptions C84_radial.
Print Assumptions C84_cos3gamma.
Print Assumptions C84_hamiltonian.
Print Assumptions C84_parity.
Print Assumptions C84_RWC.
Print Assumptions C84_diagonalised.
Print Assumptions C84_rigid.
Print Assumptions C84_cubed.
Print Assumptions C84_beta3.
Print Assumptions C84_beta3_refuted.
Print Assumptions C84_number_refuted.
Print Assumptions C84_quadrupole.
