(** What the energies are: the Schroedinger equation behind the matrices, the
    expectation value and the choice of the basis: C78. *)

From Coq Require Import Reals Lra Permutation Sorted.
From Coq Require Import Lia ZifyBool ZifyNat.
From Coquelicot Require Import Coquelicot.
From Verif Require Import PyBase PyFacts Compat SphericalSpec Spherical SphericalFacts PropsSpherical Matrix RadialME RadialMESpec
  RadialMEFacts IdFacts FullLabels FullLabelsFacts PropsFullLabels RadialOps PropsRadialOps Operators FullOps PropsHarmonics FullOpsFacts FullOpsBlocks
  FullOpsMemo FullOpsProd RadialWords PropsFullOps PropsHistory RadialSums FullSpace FullSpaceFacts PropsFullSpace Settings PropsLambda
  HamData Display DisplayFacts PropsDriver Spectrum Ritz RadialElement RadialExact RadialChain PropsRadialME PropsRadialMatrix PropsOscillator PropsRitz PropsHam.
From Verif Require Import PropsCGSO3 PropsCommutator Improper Laguerre Waves WaveSpec WaveFacts WaveClass WaveWords PropsWaves HamWaves.
Import ListNotations.
Open Scope Z_scope.
Ltac Zify.zify_post_hook ::= Z.div_mod_to_equations.

Lemma sqrt_c1 B c1 a : matched B c1 a -> (a ^ 2 / B = sqrt c1)%R.
Proof.
  intros (HB & Hc & Ha & Hm). symmetry. pose proof (pow2_ge_0 a). apply sqrt_lem_1; [lra|apply Rmult_le_pos; [assumption|left; now apply Rinv_0_lt_compat]|].
  replace (a ^ 2 / B * (a ^ 2 / B))%R with (a ^ 4 / B ^ 2)%R by (field; lra). rewrite Hm. field. lra.
Qed.

(** With the width matched to c1, and lambda computed from the position beta0 of
    the minimum of the Davidson potential, the basis functions are the
    eigenfunctions for that potential. *)
Theorem C78_davidson : forall B c1 a beta0 v nu lam b, matched B c1 a -> (0 < a)%R -> 0 <= v -> 0 <= nu -> (0 < b)%R ->
  lam_dav a beta0 v = Ok lam ->
  (schroedinger B c1 0 v (wave a lam nu) b + B * c1 / 2 * (beta0 ^ 4 / b ^ 2 * wave a lam nu b)
   = sqrt c1 * (2 * IZR nu + lam) * wave a lam nu b)%R.
Proof.
  intros B c1 a beta0 v nu lam b HM Ha Hv Hnu Hb E. pose proof (sqrt_c1 B c1 a HM) as Q. destruct HM as (HB & Hc & _ & Hm).
  unfold lam_dav, math_sqrt in E. set (y := ((IZR v + 1.5) ^ 2 + (a * beta0) ^ 4)%R) in E.
  destruct (Rlt_dec y 0); [discriminate|]. cbn [bind] in E. injection E as <-.
  assert (Y : (0 < y)%R).
  { unfold y. pose proof (IZR_nonneg v Hv). replace ((a * beta0) ^ 4)%R with (((a * beta0) ^ 2) ^ 2)%R by ring. pose proof (pow2_ge_0 ((a * beta0) ^ 2)). nra. }
  set (lam := (1 + sqrt y)%R). pose proof (sqrt_lt_R0 y Y) as SY. assert (Hl : (1 < lam)%R) by (unfold lam; lra).
  assert (L : ((lam - 3 / 2) * (lam - 1 / 2) = IZR ((v + 1) * (v + 2)) + a ^ 4 * beta0 ^ 4)%R).
  { unfold lam. replace ((1 + sqrt y - 3 / 2) * (1 + sqrt y - 1 / 2))%R with (sqrt y * sqrt y - 1 / 4)%R by field.
    rewrite sqrt_sqrt by lra. unfold y. replace 1.5%R with (3 / 2)%R by lra. rewrite mult_IZR, !plus_IZR. field. }
  pose proof (wave_S0 a lam nu b Ha ltac:(lra) Hnu Hb) as S. unfold op_S0, op_D in S. rewrite Rmult_1_l, L in S.
  replace (sqrt a * ((lam / 2 + IZR nu) * W lam nu (a * b)))%R with ((lam / 2 + IZR nu) * wave a lam nu b)%R in S by (rewrite wave_W; ring).
  unfold schroedinger. set (w := wave a lam nu b) in *. set (d := Derive (Derive (wave a lam nu)) b) in *. set (K := IZR ((v + 1) * (v + 2))) in *.
  assert (D : d = (a ^ 4 * (b * b) * w + (K + a ^ 4 * beta0 ^ 4) * (w / (b * b)) - a ^ 2 * (2 * lam + 4 * IZR nu) * w)%R).
  { apply (Rmult_eq_reg_l (/ (a * a))); [|apply Rinv_neq_0_compat; nra].
    transitivity (a * b * (a * b) * w + (K + a ^ 4 * beta0 ^ 4) * (w / (a * b * (a * b))) - 4 * ((lam / 2 + IZR nu) * w))%R; [rewrite <- S; field; lra|field; lra]. }
  rewrite <- Q, D. replace c1 with (a ^ 4 / B ^ 2)%R by (rewrite Hm; field; lra). field. lra.
Qed.

(** Without beta0: the eigenfunctions of the harmonic oscillator of C65. *)
Theorem C78_eigenfunctions : forall B c1 a v al L nu b, matched B c1 a -> (0 < a)%R -> 0 <= v -> 0 <= nu -> (0 < b)%R ->
  (schroedinger B c1 0 v (wave a (IZR v + 5 / 2) nu) b
   = oscillator_energy c1 (nu, (v, al, L)) * wave a (IZR v + 5 / 2) nu b)%R.
Proof.
  intros B c1 a v al L nu b HM Ha Hv Hnu Hb.
  assert (E : lam_dav a 0 v = Ok (IZR v + 5 / 2)%R).
  { unfold lam_dav, math_sqrt. rewrite Rmult_0_r, (pow_i 4), Rplus_0_r by lia. pose proof (pow2_ge_0 (IZR v + 1.5)).
    destruct (Rlt_dec ((IZR v + 1.5) ^ 2) 0); [lra|]. cbn [bind]. pose proof (IZR_nonneg v Hv). rewrite sqrt_pow2 by lra. f_equal. lra. }
  pose proof (C78_davidson B c1 a 0 v nu _ b HM Ha Hv Hnu Hb E) as K. rewrite (pow_i 4) in K by lia.
  replace (0 / b ^ 2)%R with 0%R in K by (unfold Rdiv; ring). rewrite Rmult_0_l, Rmult_0_r, Rplus_0_r in K. rewrite K. unfold oscillator_energy. rewrite plus_IZR, mult_IZR. ring.
Qed.

(** ** Matrix elements *)

Lemma quartic_integral Gam (HG : gamma_like Gam) B c1 c2 a l v N f i : B <> 0%R -> (0 < a)%R -> (1 < l)%R -> 0 <= f <= N -> 0 <= i <= N ->
  integral (fun b => wave a l f b * schroedinger B c1 c2 v (wave a l i) b)%R
    (quartic_entry Gam B c1 c2 a l v N f i + if (f =? N) && (i =? N) then B * c2 / 2 * (powerRZ a (-4) * ((l + IZR N) * (IZR N + 1))) else 0)%R.
Proof.
  intros HB Ha Hl Hf Hi. pose proof (el_bm2 (l - 1) ltac:(lra)) as B2. replace (l - 1 + 1)%R with l in B2 by ring.
  set (K := IZR ((v + 1) * (v + 2))).
  pose proof (el_plus _ _ _ _ _ (el_plus _ _ _ _ _ (el_plus _ _ _ _ _
     (el_scal _ (fun _ => - (a ^ 2 / (2 * B)))%R _ _ (el_D2b l Hl)) (el_scal _ (fun _ => a ^ 2 / (2 * B) * K)%R _ _ B2))
     (el_scal _ (fun _ => B * c1 / 2 / a ^ 2)%R _ _ (el_b2 l ltac:(lra))))
     (el_scal _ (fun _ => B * c2 / 2 / a ^ 4)%R _ _ (fun f i Hf Hi => el_b4 l f i ltac:(lra) Hf Hi))) as E.
  cbv beta in E.
  assert (T : elements a l l (schroedinger B c1 c2 v) (rscale 1 (fun f i => quartic_entry Gam B c1 c2 a l v (Z.max f i + 1) f i))).
  { eapply el_elements; [exact Ha| |].
    - eapply el_ext; [reflexivity| |exact E]. intros x y Hx Hy. unfold radd, quartic_entry, v_D2b. rewrite (v_bm2_any Gam HG) by (lra || assumption).
      change (powerRZ a 2) with (a ^ 2)%R. change (powerRZ a (-2)) with (/ a ^ 2)%R. change (powerRZ a (-4)) with (/ a ^ 4)%R.
      replace (b4_cut l (Z.to_nat (Z.max x y + 2)) x y) with (v_b4 l (Z.max x y + 1) x y) by (unfold v_b4, total, b4_cut; do 2 f_equal; lia).
      unfold K. rewrite mult_IZR, !plus_IZR. field. split; lra.
    - intros j b Hj Hb. cbv beta. unfold schroedinger. rewrite (is_derive_unique _ _ _ (wave_derive2 a l j b Ha ltac:(lra) Hj Hb)), wave_W. fold K. field.
      repeat split; lra. }
  eapply integral_ext; [reflexivity|]. replace (quartic_entry Gam B c1 c2 a l v N f i + _)%R with (rscale 1 (fun f i => quartic_entry Gam B c1 c2 a l v (Z.max f i + 1) f i) f i); [apply T; lia|].
  unfold rscale, quartic_entry. rewrite Rmult_1_l.
  assert (X : v_b4 l (Z.max f i + 1) f i = (v_b4 l N f i + if (f =? N) && (i =? N) then (l + IZR N) * (IZR N + 1) else 0)%R).
  { pose proof (b4_cut_exact l N f i ltac:(lra) Hf Hi) as X. unfold v_b4, total. unfold b4_cut in X. rewrite <- X. do 2 f_equal. lia. }
  rewrite X. destruct ((f =? N) && (i =? N)); ring.
Qed.

(** The matrix of the Hamiltonian consists of the integrals, except that the
    entry of the highest radial state lacks part of beta^4. *)
Theorem C78_matrix : forall Gam Msqrt Minv CG B c1 c2 a lambda_base s lam nu_min nu_max v_min v_max L_min L_max X,
  gamma_like Gam -> B <> 0%R -> (0 < a)%R -> nu_min = 0 \/ c2 = 0%R ->
  0 <= nu_min <= nu_max -> 0 <= v_min <= v_max -> 0 <= L_min <= L_max -> bases s lambda_base v_min v_max lam ->
  lbsXspace nu_min nu_max v_min v_max L_min (Some L_max) = Ok X ->
  exists D, code_matrices (RadProd (Rep_elem Gam Msqrt Minv)) CG s (RWC_Ham B c1 c2 0 0) a lambda_base nu_min nu_max v_min v_max L_min (Some L_max) = Ok D /\
    nrows D = zlen X /\ ncols D = zlen X /\
    forall p q nf sf ni v al L, 0 <= p -> 0 <= q ->
      nth_error X (Z.to_nat p) = Some (nf, sf) -> nth_error X (Z.to_nat q) = Some (ni, (v, al, L)) ->
      (sf <> (v, al, L) -> ent D p q = 0%R) /\
      (sf = (v, al, L) -> forall r,
         integral (fun b => wave a (lam v) nf b * schroedinger B c1 c2 v (wave a (lam v) ni) b)%R r <->
         r = (ent D p q + if (nf =? nu_max) && (ni =? nu_max) then B * c2 / 2 * ((lam v + IZR nu_max) * (IZR nu_max + 1)) / a ^ 4 else 0)%R).
Proof.
  intros Gam Msqrt Minv CG B c1 c2 a lb s lam nu_min nu_max v_min v_max L_min L_max X HG HB Ha H0 Hn Hv HL Hs EX.
  destruct (quartic_matrix Gam HG Msqrt Minv CG nu_min nu_max v_min v_max L_min L_max Hn Hv HL B c1 c2 a lb s lam X HB H0 Hs EX) as (D & ED & S1 & S2 & EV).
  exists D. split; [exact ED|]. split; [exact S1|]. split; [exact S2|]. intros p q nf sf ni v al L Hp Hq Ep Eq. rewrite (EV p q _ _ _ _ _ _ Hp Hq Ep Eq).
  destruct (position _ _ _ _ _ _ X p _ Hn Hv HL EX Hp Ep) as (_ & _ & Np). destruct (position _ _ _ _ _ _ X q _ Hn Hv HL EX Hq Eq) as (_ & Lq & Nq).
  cbn [fst snd] in *. pose proof (in_lbs v_min v_max L_min L_max v al L (nth_error_In _ _ Lq)) as Hvv. destruct (Hs v Hvv) as (k & _ & _ & Hl).
  split; intros Q.
  - destruct (state_eqb sf (v, al, L)) eqn:E; [|reflexivity]. now apply (state_eqb_eq CG) in E.
  - rewrite (proj2 (state_eqb_eq CG _ _) Q). intros r.
    pose proof (quartic_integral Gam HG B c1 c2 a (lam v) v nu_max nf ni HB Ha Hl ltac:(lia) ltac:(lia)) as J.
    change (powerRZ a (-4)) with (/ a ^ 4)%R in J.
    replace (B * c2 / 2 * ((lam v + IZR nu_max) * (IZR nu_max + 1)) / a ^ 4)%R with (B * c2 / 2 * (/ a ^ 4 * ((lam v + IZR nu_max) * (IZR nu_max + 1))))%R by (field; lra).
    split; [intros I; exact (integral_unique _ _ _ I J)|intros ->; exact J].
Qed.

(** ** Expectation values *)

Theorem C78_energy : forall B c1 c2 a lam v, B <> 0%R -> (0 < a)%R -> (1 < lam)%R ->
  integral (fun b => wave a lam 0 b * schroedinger B c1 c2 v (wave a lam 0) b)%R (energy v B c1 c2 0 (a ^ 2) lam).
Proof.
  intros B c1 c2 a l v HB Ha Hl. pose proof (quartic_integral Gamma gamma_like_Gamma B c1 c2 a l v 1 0 0 HB Ha Hl ltac:(lia) ltac:(lia)) as J.
  replace (energy v B c1 c2 0 (a ^ 2) l) with (quartic_entry Gamma B c1 c2 a l v 1 0 0
    + (if (0 =? 1)%Z && (0 =? 1)%Z then B * c2 / 2 * (powerRZ a (-4) * ((l + 1) * (1 + 1))) else 0))%R; [exact J|].
  cbn [Z.eqb andb]. unfold quartic_entry, energy. rewrite b4_corner by (lra || lia). unfold v_D2b. rewrite bm2_diagonal by (lra || lia || apply gamma_like_Gamma).
  unfold v_b2. cbn [Z.eqb Z.sub Z.add Z.opp Z.pos_sub Pos.eqb Z.leb Z.compare Pos.compare Pos.compare_cont].
  change (powerRZ a 2) with (a ^ 2)%R. change (powerRZ a (-2)) with (/ a ^ 2)%R. change (powerRZ a (-4)) with (/ a ^ 4)%R. field. repeat split; lra.
Qed.

Lemma gamma_third : gamma_mean (fun g => cos (3 * g) ^ 2)%R (1 / 3).
Proof.
  unfold gamma_mean. set (F := (fun g => - (1 / 6) * cos (3 * g) ^ 3)%R).
  replace (1 / 3)%R with (minus (F (Rtrigo1.PI / 3)%R) (F 0%R)).
  - apply (is_RInt_derive F).
    + intros x _. unfold F. auto_derive; [exact Logic.I|]. field.
    + intros x _. apply (continuous_scal (fun g => cos (3 * g) ^ 2)%R (fun g => 3 / 2 * sin (3 * g))%R).
      * apply (ex_derive_continuous (fun g => cos (3 * g) ^ 2)%R). auto_derive. exact Logic.I.
      * apply (ex_derive_continuous (fun g => 3 / 2 * sin (3 * g))%R). auto_derive. exact Logic.I.
  - unfold F, minus, plus, opp. cbn. replace (3 * (Rtrigo1.PI / 3))%R with Rtrigo1.PI by field. rewrite cos_PI, Rmult_0_r, cos_0. field.
Qed.

Lemma gamma_mean_unique h m m' : gamma_mean h m -> gamma_mean h m' -> m = m'.
Proof. unfold gamma_mean. intros H H'. rewrite <- (is_RInt_unique _ _ _ _ H). apply (is_RInt_unique _ _ _ _ H'). Qed.

(** RWC_expt is the mean of the Hamiltonian in the lowest basis function of
    seniority 0 (which does not depend on gamma). *)
Theorem C78_expectation : forall B c1 c2 kappa a lam e, (0 < a)%R -> (1 < lam)%R ->
  RWC_expt B c1 c2 kappa a lam = Ok e <->
  B <> 0%R /\ exists r m, integral (fun b => wave a lam 0 b * schroedinger B c1 c2 0 (wave a lam 0) b)%R r /\
    gamma_mean (fun g => cos (3 * g) ^ 2)%R m /\ e = (r + kappa * m)%R.
Proof.
  intros B c1 c2 kappa a lam e Ha Hl.
  assert (En : forall k, energy 0 B c1 c2 k (a ^ 2) lam = (energy 0 B c1 c2 0 (a ^ 2) lam + k * (1 / 3))%R) by (intros; unfold energy, Rdiv; ring).
  split.
  - intros E. assert (HB : B <> 0%R).
    { intros ->. rewrite (proj2 (C46_energy_errors 0 c1 c2 kappa a lam)) in E by (lra || reflexivity). discriminate. }
    split; [exact HB|]. rewrite C46_energy in E by lra. injection E as <-.
    exists (energy 0 B c1 c2 0 (a ^ 2) lam), (1 / 3)%R. split; [now apply C78_energy|]. split; [exact gamma_third|]. apply En.
  - intros (HB & r & m & J & G & ->). rewrite C46_energy by lra. rewrite En.
    rewrite (integral_unique _ _ _ J (C78_energy B c1 c2 a lam 0 HB Ha Hl)), (gamma_mean_unique _ _ _ G gamma_third). reflexivity.
Qed.

(** The parameters chosen for seniority 0 give the least mean energy among all
    widths with the lambda that goes with them. *)
Theorem C78_least : forall solveset root_scalar fuel B c1 c2 l a lam,
  (0 < B)%R -> (0 <= c1 /\ 0 <= c2 /\ 0 < c1 + c2 \/ c1 < 0 /\ 0 < c2)%R ->
  solveset (fun A => RWC1 A B c1 c2 0) = Some l -> (forall x, In x l <-> RWC1 x B c1 c2 0 = 0%R) ->
  (forall b r, root_scalar (F2 B c1 c2 0) 0%R b = Some r -> (0 <= r <= b)%R /\ F2 B c1 c2 0 r = 0%R) ->
  RWC_alam solveset root_scalar fuel B c1 c2 0 = Some (Ok (a, lam)) ->
  let mean a' lam' := fun r => integral (fun b => wave a' lam' 0 b * schroedinger B c1 c2 0 (wave a' lam' 0) b)%R r in
  (0 < a)%R /\ lam_dav a (PropsHam.beta0 c1 c2) 0 = Ok lam /\
  exists r, mean a lam r /\
    forall a' lam', (0 < a')%R -> lam_dav a' (PropsHam.beta0 c1 c2) 0 = Ok lam' -> exists r', mean a' lam' r' /\ (r <= r')%R /\ (a' <> a -> (r < r')%R).
Proof.
  intros solveset root_scalar fuel B c1 c2 l a lam HB HC El Hl Hr E mean.
  destruct (C45_minimum solveset root_scalar fuel B c1 c2 0 l a lam HB HC El Hl Hr E) as (Na & Elam & e & _ & Ee & Hmin).
  assert (LD : forall x, lam_dav x (PropsHam.beta0 c1 c2) 0 = Ok (lambda_v 0 c1 c2 x)).
  { intros x. unfold lam_dav, math_sqrt, lambda_v. replace 1.5%R with (3 / 2)%R by lra.
    assert (0 <= (0 + 3 / 2) ^ 2 + (x * PropsHam.beta0 c1 c2) ^ 4)%R.
    { replace ((x * PropsHam.beta0 c1 c2) ^ 4)%R with (((x * PropsHam.beta0 c1 c2) ^ 2) ^ 2)%R by ring. pose proof (pow2_ge_0 ((x * PropsHam.beta0 c1 c2) ^ 2)). lra. }
    destruct (Rlt_dec ((0 + 3 / 2) ^ 2 + (x * PropsHam.beta0 c1 c2) ^ 4)%R 0); [lra|]. reflexivity. }
  assert (LG : forall x, (1 < lambda_v 0 c1 c2 x)%R).
  { intros x. unfold lambda_v. assert (0 < sqrt ((0 + 3 / 2) ^ 2 + (x * PropsHam.beta0 c1 c2) ^ 4))%R; [|lra]. apply sqrt_lt_R0.
    replace ((x * PropsHam.beta0 c1 c2) ^ 4)%R with (((x * PropsHam.beta0 c1 c2) ^ 2) ^ 2)%R by ring. pose proof (pow2_ge_0 ((x * PropsHam.beta0 c1 c2) ^ 2)). lra. }
  assert (PA : (0 < a)%R).
  { assert (0 <= a)%R; [|lra]. unfold RWC_alam in E. change (require_nonnegint 0) with (Ok tt) in E. cbv iota in E.
    assert (MS : forall x y, math_sqrt x = Ok y -> (0 <= y)%R) by (intros x y; unfold math_sqrt; destruct (Rlt_dec x 0); [discriminate|]; intros K; injection K as <-; apply sqrt_pos).
    destruct (Rle_dec 0 c1).
    - injection E as E. unfold RWC_alam_clam in E. rewrite El in E. destruct (filter positive l) as [|x t]; [discriminate|].
      destruct (math_sqrt x) eqn:Q; [|discriminate]. injection E as <- _. exact (MS _ _ Q).
    - destruct (Rle_dec c2 0); [discriminate|]. destruct (Rlt_dec _ 0); [|discriminate]. destruct (doubling _ _ _) as [A|]; [|discriminate].
      destruct (root_scalar _ _ _) as [x|]; [|discriminate]. injection E as E. destruct (math_sqrt x) eqn:Q; [|discriminate]. injection E as <- _. exact (MS _ _ Q). }
  split; [exact PA|]. split; [rewrite LD, Elam; reflexivity|].
  pose proof (LG a) as La. rewrite <- Elam in La.
  exists (energy 0 B c1 c2 0 (a ^ 2) lam). split; [apply C78_energy; lra|]. intros a' lam' Pa' E'. rewrite LD in E'. injection E' as <-.
  exists (energy 0 B c1 c2 0 (a' ^ 2) (lambda_v 0 c1 c2 a')). split; [apply C78_energy; try lra; apply LG|].
  destruct (Hmin a' ltac:(lra)) as (e' & Ee' & LE & LT).
  unfold RWC_expt_link in Ee'. rewrite RWC_dav_ok in Ee' by tauto. cbn [bind] in Ee'. pose proof (LG a').
  rewrite C46_energy in Ee' by lra. injection Ee' as <-. rewrite C46_energy in Ee by lra. injection Ee as <-.
  split; [exact LE|]. intros N. apply LT. intros Q. apply N. nra.
Qed.

(** ** A lower bound for every level *)

Lemma rsum_blocks g m n : rsum g (n * m) = rsum (fun j => rsum (fun x => g (j * Z.of_nat m + x)) m) n.
Proof.
  induction n as [|n IH]; [reflexivity|]. cbn [rsum]. rewrite <- IH. replace (S n * m)%nat with (n * m + m)%nat by lia. rewrite rsum_app. f_equal.
  apply rsum_ext. intros k Hk. f_equal. lia.
Qed.

Lemma quartic_form Gam (HG : gamma_like Gam) B c1 c2 a l v N y n : (0 < B)%R -> (0 <= c1)%R -> (0 <= c2)%R -> a <> 0%R -> (1 < l)%R ->
  Z.of_nat n = N + 1 \/ c2 = 0%R ->
  (sqrt c1 * (IZR v + 5 / 2) * rsum (fun k => y k * y k) n <= form (quartic_entry Gam B c1 c2 a l v N) y n)%R.
Proof.
  intros HB Hc1 Hc2 Ha Hl Hn. set (om := (B * sqrt c1 / a ^ 2)%R).
  assert (A2 : (0 < a ^ 2)%R) by (assert (a ^ 2 <> 0)%R by (apply pow_nonzero; assumption); pose proof (pow2_ge_0 a); lra).
  rewrite (form_req (quartic_entry Gam B c1 c2 a l v N) (radd (rscale (a ^ 2 / (2 * B)) (osc_matrix l (IZR v + 1) om)) (rscale (B * c2 / 2 / a ^ 4) (b4_cut l (Z.to_nat (N + 1)))))).
  - rewrite form_plus, !form_scal.
    assert (Q : (0 <= B * c2 / 2 / a ^ 4 * form (b4_cut l (Z.to_nat (N + 1))) y n)%R).
    { destruct Hn as [Hn | ->]; [|unfold Rdiv; rewrite Rmult_0_r, !Rmult_0_l; lra]. replace (Z.to_nat (N + 1)) with n by lia.
      apply Rmult_le_pos; [|apply b4_form]. replace (a ^ 4)%R with (a ^ 2 * a ^ 2)%R by ring.
      apply Rmult_le_pos; [|left; apply Rinv_0_lt_compat; nra]. apply Rmult_le_pos; [nra|lra]. }
    pose proof (osc_form l (IZR v + 1) om y n Hl) as K.
    assert (P : (0 < a ^ 2 / (2 * B))%R) by (apply Rdiv_lt_0_compat; lra).
    apply (Rmult_le_compat_l _ _ _ (Rlt_le _ _ P)) in K.
    replace (a ^ 2 / (2 * B) * (om * (2 * (IZR v + 1) + 3) * rsum (fun k => y k * y k) n))%R
      with (sqrt c1 * (IZR v + 5 / 2) * rsum (fun k => y k * y k) n)%R in K by (unfold om; field; lra). lra.
  - intros f i Hf Hi. unfold radd, rscale, osc_matrix, quartic_entry. unfold v_D2b at 1. rewrite (v_bm2_any Gam HG) by (lra || assumption).
    fold (v_D2b Gamma l f i). change (v_b4 l N f i) with (b4_cut l (Z.to_nat (N + 1)) f i).
    change (powerRZ a 2) with (a ^ 2)%R. change (powerRZ a (-2)) with (/ a ^ 2)%R. change (powerRZ a (-4)) with (/ a ^ 4)%R.
    replace (om * om)%R with (B ^ 2 * c1 / a ^ 4)%R by (unfold om; rewrite <- (sqrt_sqrt c1) at 1 by exact Hc1; field; lra).
    field. split; lra.
Qed.

(** The same for the radial states nu_min .. nu_max alone. *)
Lemma quartic_form_from Gam (HG : gamma_like Gam) B c1 c2 a l v (lo hi : Z) y n : (0 < B)%R -> (0 <= c1)%R -> (0 <= c2)%R -> a <> 0%R -> (1 < l)%R ->
  0 <= lo -> Z.of_nat n = hi - lo + 1 -> lo = 0 \/ c2 = 0%R ->
  (sqrt c1 * (IZR v + 5 / 2) * rsum (fun k => y k * y k) n
   <= rsum (fun f => rsum (fun i => y f * y i * quartic_entry Gam B c1 c2 a l v hi (lo + f) (lo + i)) n) n)%R.
Proof.
  intros HB Hc1 Hc2 Ha Hl Hlo Hn H0. set (z := fun k => if k <? lo then 0%R else y (k - lo)).
  pose proof (quartic_form Gam HG B c1 c2 a l v hi z (Z.to_nat lo + n) HB Hc1 Hc2 Ha Hl ltac:(destruct H0; [left; lia|now right])) as K.
  assert (Z0 : forall k, 0 <= k < Z.of_nat (Z.to_nat lo) -> z k = 0%R) by (intros k Hk; unfold z; now replace (k <? lo) with true by lia).
  assert (Z1 : forall k, 0 <= k -> z (k + Z.of_nat (Z.to_nat lo)) = y k).
  { intros k Hk. unfold z. replace (k + Z.of_nat (Z.to_nat lo) <? lo) with false by lia. f_equal. lia. }
  rewrite rsum_shift in K by (intros k Hk; rewrite (Z0 k Hk); ring).
  rewrite (rsum_ext _ (fun k => y k * y k)%R) in K by (intros k Hk; rewrite Z1 by lia; reflexivity).
  eapply Rle_trans; [exact K|]. apply Req_le. unfold form. rewrite rsum_shift.
  - apply rsum_ext. intros f Hf. rewrite rsum_shift.
    + apply rsum_ext. intros i Hi. rewrite !Z1 by lia. do 2 f_equal; lia.
    + intros i Hi. rewrite (Z0 i Hi). ring.
  - intros f Hf. apply rsum_zero. intros i Hi. rewrite (Z0 f Hf). ring.
Qed.

(** Every level a run reports lies above the zero point energy of the oscillator
    for the lowest seniority in the space; C65 shows that it is reached. *)
Theorem C78_bound : forall Gam Msqrt Minv CG flt eigh inv junk B c1 c2 anorm lambda_base s lam
    nu_min nu_max v_min v_max fit_eig fit_rat L_min L_max ev tr Lv s' o L vals v0,
  gamma_like Gam -> eigh_sound eigh -> (0 < B)%R -> (0 <= c1)%R -> (0 <= c2)%R -> anorm <> 0%R -> nu_min = 0 \/ c2 = 0%R ->
  bases s lambda_base v_min v_max lam ->
  ACM_ScaleOrAdapt flt (code_matrices (RadProd (Rep_elem Gam Msqrt Minv)) CG) eigh inv junk (RWC_Ham B c1 c2 0 0) anorm lambda_base
    nu_min nu_max v_min v_max fit_eig fit_rat L_min L_max s = (Ok (ev, tr, Lv), s', o) ->
  In (L, vals) (combine Lv ev) -> (forall v, v_min <= v <= v_max -> 1 <= mult v L -> v0 <= v) ->
  vals <> [] /\ forall e, In e vals -> (sqrt c1 * (IZR v0 + 5 / 2) <= e)%R.
Proof.
  intros Gam Msqrt Minv CG flt eigh inv junk B c1 c2 an lb s lam nu_min nu_max v_min v_max fe fr L_min L_max ev tr Lv s' o L vals v0
    HG HE HB Hc1 Hc2 Ha H0 Hs E I HV.
  destruct (quartic_block _ _ _ _ _ _ _ _ _ _ _ _ _ _ _ _ _ _ _ _ _ _ _ _ _ _ _ _ _ _ HG HE (Rgt_not_eq _ _ HB) H0 Hs E I)
    as (Hn & Hv & HL & X & A & P & EX & HX & DEC & S1 & EV).
  destruct (C06_layout nu_min nu_max v_min v_max L L Hn Hv ltac:(lia)) as (X' & sph & EX' & Es & Hlen & HN). rewrite EX in EX'. injection EX' as <-.
  rewrite lbs_rngVvarL_some in Es by lia. injection Es as <-.
  assert (Hd : dimRadial nu_min nu_max = nu_max - nu_min + 1) by (unfold dimRadial; now replace (nu_min <=? nu_max) with true by lia).
  set (rd := Z.to_nat (nu_max - nu_min + 1)) in *. set (sph := lbs v_min v_max L L) in *. rewrite Hd in *.
  destruct DEC as (D1 & D2 & D3 & _ & HEV & HO). rewrite S1 in *.
  split; [intros ->; unfold zlen in D1, HX; cbn in D1; lia|].
  intros e Ie. apply In_nth_error in Ie. destruct Ie as (k & Ek).
  assert (Hk : (k < length vals)%nat) by (apply nth_error_Some; congruence).
  assert (Hkz : 0 <= Z.of_nat k < zlen X) by (unfold zlen in D1 |- *; lia).
  set (y := fun p => ent P p (Z.of_nat k)).
  assert (NX : Z.to_nat (zlen X) = (length sph * rd)%nat) by (rewrite Hlen, Z2Nat.inj_mul by (unfold zlen; lia); unfold zlen; rewrite Nat2Z.id; fold rd; apply Nat.mul_comm).
  (* the norm and the energy *)
  assert (N1 : rsum (fun j => rsum (fun x => y (j * Z.of_nat rd + x)%Z * y (j * Z.of_nat rd + x)%Z)%R rd) (length sph) = 1%R).
  { destruct (HO (Z.of_nat k) (Z.of_nat k) Hkz Hkz) as [O _]. rewrite Z.eqb_refl in O. unfold total in O. rewrite NX, rsum_blocks in O. exact O. }
  assert (N2 : e = rsum (fun j => rsum (fun x => rsum (fun x' => y (j * Z.of_nat rd + x)%Z * y (j * Z.of_nat rd + x')%Z
      * ent A (j * Z.of_nat rd + x)%Z (j * Z.of_nat rd + x')%Z)%R rd) rd) (length sph)).
  { transitivity (rsum (fun p => y p * total (fun q => ent A p q * y q)%R (zlen X))%R (Z.to_nat (zlen X))).
    - rewrite (rsum_ext _ (fun p => e * (y p * y p))%R).
      + rewrite rsum_scal, NX, rsum_blocks, N1. ring.
      + intros p Hp. unfold y at 2. rewrite (HEV p (Z.of_nat k)) by lia. rewrite Nat2Z.id, (nth_error_nth _ _ 0%R Ek). unfold y. ring.
    - rewrite NX, rsum_blocks. apply rsum_ext. intros j Hj. apply rsum_ext. intros x Hx. unfold total. rewrite NX, rsum_blocks.
      rewrite (rsum_single _ _ j Hj).
      + rewrite <- rsum_scal. apply rsum_ext. intros x' Hx'. ring.
      + intros j' Hj' Nj. apply rsum_zero. intros x' Hx'.
        destruct (nth_error sph (Z.to_nat j)) as [sf|] eqn:Ej; [|apply nth_error_None in Ej; lia].
        destruct (nth_error sph (Z.to_nat j')) as [[[v al] M]|] eqn:Ej'; [|apply nth_error_None in Ej'; lia].
        pose proof (HN _ (Z.to_nat x) _ Ej ltac:(lia)) as Q. pose proof (HN _ (Z.to_nat x') _ Ej' ltac:(lia)) as Q'.
        fold rd in Q, Q'. 
        rewrite (EV (j * Z.of_nat rd + x)%Z (j' * Z.of_nat rd + x') (nu_min + Z.of_nat (Z.to_nat x)) sf (nu_min + Z.of_nat (Z.to_nat x')) v al M);
          [|nia|nia|etransitivity; [|exact Q]; f_equal; nia|etransitivity; [|exact Q']; f_equal; nia].
        destruct (state_eqb sf (v, al, M)) eqn:SE; [|ring]. apply (state_eqb_eq CG) in SE. subst sf. exfalso. apply Nj.
        exact (lbs_positions v_min v_max L L j' j _ ltac:(lia) ltac:(lia) Ej' Ej). }
  rewrite N2. replace (sqrt c1 * (IZR v0 + 5 / 2))%R with (sqrt c1 * (IZR v0 + 5 / 2) * 1)%R by ring. rewrite <- N1, <- rsum_scal.
  apply rsum_le. intros j Hj.
  destruct (nth_error sph (Z.to_nat j)) as [[[v al] M]|] eqn:Ej; [|apply nth_error_None in Ej; lia].
  pose proof (nth_error_In _ _ Ej) as Iv. unfold sph in Iv. apply lbs_In in Iv. destruct Iv as (Hvv & HM & Hal). assert (M = L) by lia. subst M.
  destruct (Hs v Hvv) as (_ & _ & _ & Hl).
  pose proof (quartic_form_from Gam HG B c1 c2 an (lam v) v nu_min nu_max (fun x => y (j * Z.of_nat rd + x)%Z) rd HB Hc1 Hc2 Ha Hl ltac:(lia) ltac:(unfold rd; lia) H0) as K.
  cbv beta in K.
  eapply Rle_trans; [|eapply Rle_trans; [exact K|apply Req_le, rsum_ext]].
  - apply Rmult_le_compat_r; [apply rsum_nonneg; intros; apply Rle_0_sqr|].
    apply Rmult_le_compat_l; [apply sqrt_pos|]. pose proof (IZR_le v0 v (HV v Hvv ltac:(lia))). lra.
  - intros x Hx. apply rsum_ext. intros x' Hx'. f_equal.
    pose proof (HN _ (Z.to_nat x) _ Ej ltac:(lia)) as Q. pose proof (HN _ (Z.to_nat x') _ Ej ltac:(lia)) as Q'. fold rd in Q, Q'.
    rewrite (EV (j * Z.of_nat rd + x)%Z (j * Z.of_nat rd + x')%Z (nu_min + Z.of_nat (Z.to_nat x)) (v, al, L) (nu_min + Z.of_nat (Z.to_nat x')) v al L);
      [|nia|nia|etransitivity; [|exact Q]; f_equal; nia|etransitivity; [|exact Q']; f_equal; nia].
    rewrite (proj2 (state_eqb_eq CG _ _) eq_refl). f_equal; lia.
Qed.

(** ** Cases *)

(** The Davidson potential b^2 + 1/b^2 with B = c1 = a = 1. *)
Example C78_davidson_case : matched 1 1 1 /\ exists lam, lam_dav 1 1 0 = Ok lam /\ (lam <> IZR 0 + 5 / 2)%R /\
  forall b, (0 < b)%R -> (schroedinger 1 1 0 0 (wave 1 lam 1) b + 1 * 1 / 2 * (1 ^ 4 / b ^ 2 * wave 1 lam 1 b) = sqrt 1 * (2 * 1 + lam) * wave 1 lam 1 b)%R.
Proof.
  assert (M : matched 1 1 1) by (split; [lra|split; [lra|split; [lra|ring]]]). split; [exact M|].
  exists (1 + sqrt ((0 + 1.5) ^ 2 + (1 * 1) ^ 4))%R.
  assert (E : lam_dav 1 1 0 = Ok (1 + sqrt ((0 + 1.5) ^ 2 + (1 * 1) ^ 4))%R).
  { unfold lam_dav, math_sqrt. destruct (Rlt_dec ((0 + 1.5) ^ 2 + (1 * 1) ^ 4) 0); [lra|]. reflexivity. }
  split; [exact E|]. split.
  - intros Q. assert (S : (sqrt ((0 + 1.5) ^ 2 + (1 * 1) ^ 4) = 3 / 2)%R) by lra.
    pose proof (sqrt_sqrt ((0 + 1.5) ^ 2 + (1 * 1) ^ 4) ltac:(lra)) as R. rewrite S in R. lra.
  - intros b Hb. apply (C78_davidson 1 1 1 1 0 1 _ b M); try lra; try lia. exact E.
Qed.

(** B = c1 = 1, c2 = 0: the mean energy is 5/2, plus a third of kappa = 3. *)
Example C78_expectation_case : RWC_expt 1 1 0 3 1 (5 / 2) = Ok (7 / 2)%R /\
  integral (fun b => wave 1 (5 / 2) 0 b * schroedinger 1 1 0 0 (wave 1 (5 / 2) 0) b)%R (5 / 2) /\
  gamma_mean (fun _ => 1%R) 1 /\ gamma_mean (fun g => cos (3 * g))%R 0.
Proof.
  split; [rewrite C46_energy by lra; f_equal; unfold energy; field|]. split.
  - pose proof (C78_energy 1 1 0 1 (5 / 2) 0 ltac:(lra) ltac:(lra) ltac:(lra)) as J.
    replace (energy 0 1 1 0 0 (1 ^ 2) (5 / 2)) with (5 / 2)%R in J by (unfold energy; field). exact J.
  - assert (C : forall F, (forall x, is_derive F x (1 * (3 / 2 * sin (3 * x)))%R) -> gamma_mean (fun _ => 1%R) (minus (F (Rtrigo1.PI / 3)%R) (F 0%R))).
    { intros F HF. apply (is_RInt_derive F); [intros; apply HF|]. intros x _.
      apply (ex_derive_continuous (fun g => 1 * (3 / 2 * sin (3 * g)))%R). auto_derive. exact Logic.I. }
    split.
    + assert (HF : forall x : R, is_derive (fun g => - (1 / 2) * cos (3 * g))%R x (1 * (3 / 2 * sin (3 * x)))%R) by (intros x; auto_derive; [exact Logic.I|field]).
      apply (eq_ind _ (gamma_mean (fun _ => 1%R)) (C _ HF)). cbv beta.
      unfold minus, plus, opp. cbn. replace (3 * (Rtrigo1.PI / 3))%R with Rtrigo1.PI by field. rewrite cos_PI, Rmult_0_r, cos_0. field.
    + set (F := (fun g => - (1 / 4) * cos (3 * g) ^ 2)%R). unfold gamma_mean. replace 0%R with (minus (F (Rtrigo1.PI / 3)%R) (F 0%R)) at 2.
      * apply (is_RInt_derive F); [intros x _; unfold F; auto_derive; [exact Logic.I|field]|]. intros x _.
        apply (ex_derive_continuous (fun g => cos (3 * g) * (3 / 2 * sin (3 * g)))%R). auto_derive. exact Logic.I.
      * unfold F, minus, plus, opp. cbn. replace (3 * (Rtrigo1.PI / 3))%R with Rtrigo1.PI by field. rewrite cos_PI, Rmult_0_r, cos_0. field.
Qed.

(** The hypotheses of C78_least hold for B = c1 = 1, c2 = 0. *)
Example C78_least_case : (forall x, In x [-1; 0; 1]%R <-> RWC1 x 1 1 0 0 = 0%R) /\
  RWC_alam (fun _ => Some [-1; 0; 1]%R) (fun _ _ _ => None) 0 1 1 0 0 = Some (Ok (1, 2.5)%R).
Proof. split; [apply case_roots|exact C45_case_nonnegative]. Qed.

(** beta^4 with two radial states: only the last entry differs from the
    integral, by 1/2 (5/2 + 1) (1 + 1). *)
Example C78_matrix_case : forall Msqrt Minv CG, exists s lam D,
  bases s (5 / 2) 0 0 lam /\ lam 0 = (5 / 2)%R /\ lbsXspace 0 1 0 0 0 (Some 0) = Ok [(0, (0, 1, 0)); (1, (0, 1, 0))] /\
  code_matrices (RadProd (Rep_elem Gamma Msqrt Minv)) CG s (RWC_Ham 1 1 1 0 0) 1 (5 / 2) 0 1 0 0 0 (Some 0) = Ok D /\
  integral (fun b => wave 1 (5 / 2) 0 b * schroedinger 1 1 1 0 (wave 1 (5 / 2) 1) b)%R (ent D 0 1) /\
  integral (fun b => wave 1 (5 / 2) 1 b * schroedinger 1 1 1 0 (wave 1 (5 / 2) 1) b)%R (ent D 1 1 + 7 / 2).
Proof.
  intros. set (s := imported). set (lam := fun _ : Z => (5 / 2)%R).
  assert (Hb : bases s (5 / 2) 0 0 lam) by (intros v Hv; replace v with 0 by lia; exists 0; split; [vm_compute; reflexivity|]; unfold lam; split; lra).
  destruct (C78_matrix Gamma Msqrt Minv CG 1 1 1 1 (5 / 2) s lam 0 1 0 0 0 0 [(0, (0, 1, 0)); (1, (0, 1, 0))] gamma_like_Gamma
    ltac:(lra) ltac:(lra) ltac:(now left) ltac:(lia) ltac:(lia) ltac:(lia) Hb ltac:(vm_compute; reflexivity)) as (D & ED & _ & _ & EV).
  exists s, lam, D. split; [exact Hb|]. split; [reflexivity|]. split; [vm_compute; reflexivity|]. split; [exact ED|]. split.
  - destruct (EV 0 1 0 (0, 1, 0) 1 0 1 0 ltac:(lia) ltac:(lia) eq_refl eq_refl) as (_ & K). apply (proj2 (K eq_refl _)). cbn [Z.eqb andb Pos.eqb]. ring.
  - destruct (EV 1 1 1 (0, 1, 0) 1 0 1 0 ltac:(lia) ltac:(lia) eq_refl eq_refl) as (_ & K). apply (proj2 (K eq_refl _)). cbn [Z.eqb andb Pos.eqb]. unfold lam. field.
Qed.

(** The run of C66: the lowest level is the bound. *)
Example C78_bound_case : forall Msqrt Minv CG flt inv junk, exists s lam rest,
  bases s (5 / 2) 0 0 lam /\
  ACM_Scale flt (code_matrices (RadProd (Rep_elem gamma0 Msqrt Minv)) CG) eigh0 inv junk (RWC_Ham 1 1 0 0 0) 1 (5 / 2) 0 1 0 0 0 None s
    = (Ok ([(5 / 2)%R :: rest], None, [0]), s, []) /\ (sqrt 1 * (IZR 0 + 5 / 2) = 5 / 2)%R /\
  (forall v, 0 <= v <= 0 -> 1 <= mult v 0 -> 0 <= v).
Proof.
  intros. destruct (C66_example Msqrt Minv CG flt inv junk) as (s & lam & Hb & R & _). destruct (R 1 ltac:(now right)) as (rest & E).
  exists s, lam, rest. split; [exact Hb|]. split; [exact E|]. split; [rewrite sqrt_1; lra|]. lia.
Qed.

Print Assumptions C78_davidson.
Print Assumptions C78_eigenfunctions.
Print Assumptions C78_matrix.
Print Assumptions C78_energy.
Print Assumptions C78_expectation.
Print Assumptions C78_least.
Print Assumptions C78_bound.
