(** C92: raising the potential raises every level; the sum of the lowest levels is a
    concave function of the coefficients. *)

From Coq Require Import String Reals Lra Sorted.
From Coq Require Import Lia ZifyBool ZifyNat.
From Verif Require Import PyBase PyFacts Text Compat SphericalSpec Spherical SphericalFacts Matrix RadialMESpec RadialMEFacts IdFacts PropsCGSO3
  FullLabels FullLabelsFacts PropsFullLabels
  Operators FullOps PropsHarmonics FullOpsFacts FullOpsBlocks FullOpsProd PropsHistory FullSpace FullSpaceFacts PropsFullSpace Settings PropsSettings Display DisplayFacts PropsDisplay PropsDriver
  PropsOscillator RadialOps Spectrum PropsCode RadialME RadialWords RadialSums PropsRadialME PropsFullOps Ritz PropsRitz PropsCommutator PropsAmplitude Solver PropsSolver PropsHamWaves PropsUnits.
Open Scope Z_scope.
Ltac Zify.zify_post_hook ::= Z.div_mod_to_equations.

(** ** Statements *)

(** [op''] is [op + op'], word by word; terms that cancel may be left out. *)
Inductive adds : OperatorSum -> OperatorSum -> OperatorSum -> Prop :=
| ad_nil : adds [] [] []
| ad_left k k'' w op op' op'' : (forall nu v al L, cval k'' nu v al L = cval k nu v al L) ->
    adds op op' op'' -> adds ((k, w) :: op) op' ((k'', w) :: op'')
| ad_right k' k'' w op op' op'' : (forall nu v al L, cval k'' nu v al L = cval k' nu v al L) ->
    adds op op' op'' -> adds op ((k', w) :: op') ((k'', w) :: op'')
| ad_both k k' k'' w op op' op'' : (forall nu v al L, cval k'' nu v al L = cval k nu v al L + cval k' nu v al L)%R ->
    adds op op' op'' -> adds ((k, w) :: op) ((k', w) :: op') ((k'', w) :: op'')
| ad_cancel k k' w op op' op'' : (forall nu v al L, cval k nu v al L + cval k' nu v al L = 0)%R ->
    adds op op' op'' -> adds ((k, w) :: op) ((k', w) :: op') op''.

(** The mean value of a matrix in the state x. *)
Definition mean (M : mat R) (x : Z -> R) : R := total (fun i => total (fun j => x i * ent M i j * x j)%R (nrows M)) (nrows M).

(** ** Sums of operators *)

Lemma opt_adds r d s w a b c : adds a b c ->
  adds (opt_term (CNum r) (CNum (s * r), w) ++ a) (opt_term (CNum d) (CNum (s * d), w) ++ b) (opt_term (CNum (r + d)) (CNum (s * (r + d)), w) ++ c).
Proof.
  intros H. unfold opt_term. cbn [is0]. destruct (Req_EM_T r 0) as [->|N], (Req_EM_T d 0) as [->|N'], (Req_EM_T _ 0) as [Z|N'']; try (exfalso; lra); cbn [app].
  - exact H.
  - apply ad_right; [|exact H]. intros. cbn. ring.
  - apply ad_left; [|exact H]. intros. cbn. ring.
  - apply ad_cancel; [|exact H]. intros. cbn. rewrite <- Rmult_plus_distr_l, Z. ring.
  - apply ad_both; [|exact H]. intros. cbn. ring.
Qed.
Lemma opt1_adds r d w a b c : adds a b c ->
  adds (opt_term (CNum r) (CNum r, w) ++ a) (opt_term (CNum d) (CNum d, w) ++ b) (opt_term (CNum (r + d)) (CNum (r + d), w) ++ c).
Proof. intros H. pose proof (opt_adds r d 1 w a b c H) as K. rewrite !Rmult_1_l in K. exact K. Qed.

(** [ACM_Hamiltonian] is linear in its coefficients. *)
Theorem C92_Hamiltonian : forall c11 c20 c21 c22 c23 c30 c31 c32 c33 c40 c41 c42 c43 c50 d11 d20 d21 d22 d23 d30 d31 d32 d33 d40 d41 d42 d43 d50,
  adds
    (ACM_Hamiltonian (CNum c11) (CNum c20) (CNum c21) (CNum c22) (CNum c23) (CNum c30) (CNum c31) (CNum c32) (CNum c33)
       (CNum c40) (CNum c41) (CNum c42) (CNum c43) (CNum c50))
    (ACM_Hamiltonian (CNum d11) (CNum d20) (CNum d21) (CNum d22) (CNum d23) (CNum d30) (CNum d31) (CNum d32) (CNum d33)
       (CNum d40) (CNum d41) (CNum d42) (CNum d43) (CNum d50))
    (ACM_Hamiltonian (CNum (c11 + d11)) (CNum (c20 + d20)) (CNum (c21 + d21)) (CNum (c22 + d22)) (CNum (c23 + d23)) (CNum (c30 + d30))
       (CNum (c31 + d31)) (CNum (c32 + d32)) (CNum (c33 + d33)) (CNum (c40 + d40)) (CNum (c41 + d41)) (CNum (c42 + d42)) (CNum (c43 + d43)) (CNum (c50 + d50))).
Proof.
  intros. unfold ACM_Hamiltonian. cbv zeta.
  assert (U : adds (opt_term (CNum c50) (CNum c50, [Xspace_PiqPi])) (opt_term (CNum d50) (CNum d50, [Xspace_PiqPi])) (opt_term (CNum (c50 + d50)) (CNum (c50 + d50), [Xspace_PiqPi]))).
  { pose proof (opt1_adds c50 d50 [Xspace_PiqPi] [] [] [] ad_nil) as K. rewrite !app_nil_r in K. exact K. }
  assert (K : forall a b c, adds a b c -> adds
    ((if is0 (CNum c11) then [] else [(CNum c11, [ORad Radial_D2b]); (cmul (cscale (-1) (CNum c11)) (SEN (fun v => 2 + IZR v * (IZR v + 3))%R), [ORad Radial_bm2])]) ++ a)
    ((if is0 (CNum d11) then [] else [(CNum d11, [ORad Radial_D2b]); (cmul (cscale (-1) (CNum d11)) (SEN (fun v => 2 + IZR v * (IZR v + 3))%R), [ORad Radial_bm2])]) ++ b)
    ((if is0 (CNum (c11 + d11)) then [] else [(CNum (c11 + d11), [ORad Radial_D2b]); (cmul (cscale (-1) (CNum (c11 + d11))) (SEN (fun v => 2 + IZR v * (IZR v + 3))%R), [ORad Radial_bm2])]) ++ c)).
  { intros a b c H.
    assert (SV : forall r nu v al L, cval (cmul (cscale (-1) (CNum r)) (SEN (fun v => 2 + IZR v * (IZR v + 3))%R)) nu v al L = (- r * (2 + IZR v * (IZR v + 3)))%R).
    { intros r nu v al L. unfold cscale, cmul, SEN. cbn [is0 orb]. destruct (Req_EM_T (-1 * r) 0) as [Z|_]; cbn [orb cval]; [|ring]. replace r with 0%R by lra. ring. }
    cbn [is0]. destruct (Req_EM_T c11 0) as [->|N], (Req_EM_T d11 0) as [->|N'], (Req_EM_T _ 0) as [Z|N'']; try (exfalso; lra); cbn [app].
    - exact H.
    - apply ad_right; [intros; cbn; ring|]. apply ad_right; [intros; rewrite !SV; ring|exact H].
    - apply ad_left; [intros; cbn; ring|]. apply ad_left; [intros; rewrite !SV; ring|exact H].
    - apply ad_cancel; [intros; cbn; exact Z|]. apply ad_cancel; [intros; rewrite !SV; replace d11 with (- c11)%R by lra; ring|exact H].
    - apply ad_both; [intros; cbn; ring|]. apply ad_both; [intros; rewrite !SV; ring|exact H]. }
  apply K. clear K. unfold cscale. cbn [cmul]. repeat (apply opt1_adds). repeat (apply opt_adds). exact U.
Qed.

(** ** Matrices *)

Section Matrices.
  Variables (Gam : R -> R) (Msqrt Minv : mat R -> res (mat R)) (CG : Z -> Z -> Z -> Z -> Z -> Z -> Z -> Z -> Z -> res R).
  Let RP := RadProd (Rep_elem Gam Msqrt Minv).
  Variables (s : settings) (an lb : R) (nu_min nu_max v_min v_max L_min L_max : Z).
  Hypothesis Hnu : 0 <= nu_min <= nu_max.
  Hypothesis Hv : 0 <= v_min <= v_max.
  Hypothesis HL : 0 <= L_min <= L_max.
  Let a := mkXA an lb nu_min nu_max v_min v_max L_min L_max.
  Let prod w := fst (RepXspace_Prod RP CG w a (mkX (g_lam_fun s) [])).
  Let rep op := code_matrices RP CG s op an lb nu_min nu_max v_min v_max L_min (Some L_max).

  Lemma adds_weighted op op' op'' : adds op op' op'' -> forall Ms Ms' Ms'' x i j,
    Forall2 (fun t M => prod (snd t) = Ok M) op Ms -> Forall2 (fun t M => prod (snd t) = Ok M) op' Ms' -> Forall2 (fun t M => prod (snd t) = Ok M) op'' Ms'' ->
    weighted op'' Ms'' x i j = (weighted op Ms x i j + weighted op' Ms' x i j)%R.
  Proof.
    intros H. induction H as [|k k'' w op op' op'' Hk _ IH|k' k'' w op op' op'' Hk _ IH|k k' k'' w op op' op'' Hk _ IH|k k' w op op' op'' Hk _ IH]; intros Ms Ms' Ms'' x i j F F' F''.
    - inversion F; subst. inversion F'; subst. inversion F''; subst. destruct x as [nu [[v al] L]]. cbn. ring.
    - inversion F as [|? M ? N P1 F1]; subst. inversion F'' as [|? M'' ? N'' P3 F3]; subst. cbn [snd] in P1, P3. rewrite P1 in P3. injection P3 as <-.
      specialize (IH N Ms' N'' x i j F1 F' F3). destruct x as [nu [[v al] L]]. cbn [weighted combine map fold_right fst snd] in *. rewrite IH, Hk. ring.
    - inversion F' as [|? M' ? N' P2 F2]; subst. inversion F'' as [|? M'' ? N'' P3 F3]; subst. cbn [snd] in P2, P3. rewrite P2 in P3. injection P3 as <-.
      specialize (IH Ms N' N'' x i j F F2 F3). destruct x as [nu [[v al] L]]. cbn [weighted combine map fold_right fst snd] in *. rewrite IH, Hk. ring.
    - inversion F as [|? M ? N P1 F1]; subst. inversion F' as [|? M' ? N' P2 F2]; subst. inversion F'' as [|? M'' ? N'' P3 F3]; subst. cbn [snd] in P1, P2, P3.
      rewrite P1 in P2, P3. injection P2 as <-. injection P3 as <-.
      specialize (IH N N' N'' x i j F1 F2 F3). destruct x as [nu [[v al] L]]. cbn [weighted combine map fold_right fst snd] in *. rewrite IH, Hk. ring.
    - inversion F as [|? M ? N P1 F1]; subst. inversion F' as [|? M' ? N' P2 F2]; subst. cbn [snd] in P1, P2. rewrite P1 in P2. injection P2 as <-.
      specialize (IH N N' Ms'' x i j F1 F2 F''). destruct x as [nu [[v al] L]]. cbn [weighted combine map fold_right fst snd] in *. rewrite IH.
      specialize (Hk nu v al L). replace (cval k' nu v al L) with (- cval k nu v al L)%R by lra. ring.
  Qed.

  Lemma adds_words op op' op'' : adds op op' op'' -> forall t, In t op'' -> exists t0, (In t0 op \/ In t0 op') /\ snd t0 = snd t.
  Proof.
    intros H. induction H as [|k k'' w op op' op'' _ _ IH|k' k'' w op op' op'' _ _ IH|k k' k'' w op op' op'' _ _ IH|k k' w op op' op'' _ _ IH]; intros t I.
    - destruct I.
    - destruct I as [<-|I]; [exists (k, w); split; [left; now left|reflexivity]|]. destruct (IH t I) as (t0 & [I0|I0] & E0); exists t0; (split; [|exact E0]); [left; now right|now right].
    - destruct I as [<-|I]; [exists (k', w); split; [right; now left|reflexivity]|]. destruct (IH t I) as (t0 & [I0|I0] & E0); exists t0; (split; [|exact E0]); [now left|right; now right].
    - destruct I as [<-|I]; [exists (k, w); split; [left; now left|reflexivity]|]. destruct (IH t I) as (t0 & [I0|I0] & E0); exists t0; (split; [|exact E0]); [left; now right|right; now right].
    - destruct (IH t I) as (t0 & [I0|I0] & E0); exists t0; (split; [|exact E0]); [left; now right|right; now right].
  Qed.

  (** The matrix of a sum is the sum of the matrices. *)
  Theorem C92_matrices : forall op op' op'' D D', adds op op' op'' -> rep op = Ok D -> rep op' = Ok D' ->
    exists D'' n, rep op'' = Ok D'' /\ nrows D = n /\ ncols D = n /\ nrows D' = n /\ ncols D' = n /\ nrows D'' = n /\ ncols D'' = n /\
      forall i j, 0 <= i < n -> 0 <= j < n -> ent D'' i j = (ent D i j + ent D' i j)%R.
  Proof.
    intros op op' op'' D D' U ED ED'. pose proof (lbsXspace_ok nu_min nu_max v_min v_max L_min (Some L_max) Hnu Hv HL) as EX. cbn [default] in EX. set (X := xlbs _ _ _ _ _ _) in EX.
    destruct (C54_linear RP CG (g_lam_fun s) an lb nu_min nu_max v_min v_max L_min L_max Hnu Hv HL op X EX) as ((W & _) & V). cbv beta in W, V.
    destruct (C54_linear RP CG (g_lam_fun s) an lb nu_min nu_max v_min v_max L_min L_max Hnu Hv HL op' X EX) as ((W' & _) & V'). cbv beta in W', V'.
    destruct (C54_linear RP CG (g_lam_fun s) an lb nu_min nu_max v_min v_max L_min L_max Hnu Hv HL op'' X EX) as ((_ & W'') & V''). cbv beta in W'', V''.
    destruct W'' as (D'' & ED'').
    { intros t It. destruct (adds_words _ _ _ U t It) as (t0 & [It0|It0] & <-); [apply W; [exists D; exact ED|exact It0]|apply W'; [exists D'; exact ED'|exact It0]]. }
    destruct (V D ED) as (Ms & F & S1 & S2 & HV). destruct (V' D' ED') as (Ms' & F' & S1' & S2' & HV'). destruct (V'' D'' ED'') as (Ms'' & F'' & S1'' & S2'' & HV'').
    exists D'', (zlen X). do 7 (split; [assumption|]). intros i j Hi Hj.
    destruct (nth_error X (Z.to_nat j)) as [x|] eqn:Ex; [|apply nth_error_None in Ex; unfold zlen in *; lia].
    rewrite (HV i j x Hi (proj1 Hj) Ex), (HV' i j x Hi (proj1 Hj) Ex), (HV'' i j x Hi (proj1 Hj) Ex). now apply (adds_weighted op op' op'' U).
  Qed.
End Matrices.

(** ** Eigenvalues and mean values *)

Lemma mean_symmetric M x : nrows M = ncols M -> mean (symmetric_part M) x = mean M x.
Proof.
  intros Sq. unfold mean. cbn [symmetric_part nrows ent].
  rewrite (total_ext _ (fun i => / 2 * total (fun j => x i * ent M i j * x j)%R (nrows M) + / 2 * total (fun j => x j * ent M j i * x i)%R (nrows M))%R).
  - rewrite total_plus, !total_scal. unfold total. rewrite (rsum_swap (fun i j => x j * ent M j i * x i)%R). field.
  - intros i Hi. rewrite <- !total_scal, <- total_plus. apply total_ext. intros j Hj. field.
Qed.

Lemma mean_ge A vals P x : eigen_decomposition A vals P -> (nth 0 vals 0 * total (fun i => x i * x i) (nrows A) <= mean A x)%R.
Proof.
  intros D. pose proof (ritz_above A vals P (nrows A) (fun i => i) x 0 D ltac:(auto) ltac:(auto) (Z.le_refl 0) ltac:(intros; lia)) as R. exact R.
Qed.

Lemma mean_lowest A vals P : eigen_decomposition A vals P -> 0 < nrows A ->
  mean A (fun i => ent P i 0) = nth 0 vals 0%R /\ total (fun i => ent P i 0 * ent P i 0)%R (nrows A) = 1%R.
Proof.
  intros (Hl & Hr & Hc & S & HE & HO) Hn. destruct (HO 0 0 ltac:(lia) ltac:(lia)) as (O & _). rewrite Z.eqb_refl in O. split; [|exact O]. unfold mean.
  rewrite (total_ext _ (fun i => nth 0 vals 0 * (ent P i 0 * ent P i 0))%R); [rewrite total_scal, O; ring|].
  intros i Hi. specialize (HE i 0 Hi ltac:(lia)). rewrite (total_ext _ (fun j => ent P i 0 * (ent A i j * ent P j 0))%R) by (intros; ring). rewrite total_scal, HE.
  change (Z.to_nat 0) with 0%nat. ring.
Qed.

(** Greater mean values in every state, greater eigenvalues (Weyl). *)
Lemma monotone A vals P A' vals' P' :
  eigen_decomposition A vals P -> eigen_decomposition A' vals' P' -> nrows A' = nrows A ->
  (forall x, (mean A x <= mean A' x)%R) ->
  forall k, 0 <= k < nrows A -> (nth (Z.to_nat k) vals 0 <= nth (Z.to_nat k) vals' 0)%R.
Proof.
  intros D (Hl & Hr & Hc & S & HE & HO) EN HM k Hk. set (m := nrows A') in *.
  destruct (underdetermined (Z.to_nat k) (fun q j => total (fun i => ent P' i j * ent P i q)%R m)) as (c & (j0 & Hj0 & Nj0) & HC).
  set (x := fun i => rsum (fun j => c j * ent P' i j)%R (Datatypes.S (Z.to_nat k))).
  pose proof (ritz_above A vals P m (fun i => i) x k D ltac:(intros; lia) ltac:(auto) (proj1 Hk)) as RR.
  assert (OX : forall q, 0 <= q < k -> q < nrows A -> total (fun i => x i * ent P i q)%R m = 0%R).
  { intros q Hq _. rewrite <- (HC q ltac:(lia)). unfold total, x.
    transitivity (rsum (fun i => rsum (fun j => c j * (ent P' i j * ent P i q))%R (Datatypes.S (Z.to_nat k))) (Z.to_nat m)).
    - apply rsum_ext. intros i _. rewrite Rmult_comm, <- rsum_scal. apply rsum_ext. intros; ring.
    - rewrite rsum_swap. apply rsum_ext. intros j _. rewrite rsum_scal. ring. }
  specialize (RR OX). clear OX HC.
  assert (CO : forall (w : Z -> R), total (fun i => x i * rsum (fun j => w j * (c j * ent P' i j))%R (Datatypes.S (Z.to_nat k)))%R m = rsum (fun j => w j * (c j * c j))%R (Datatypes.S (Z.to_nat k))).
  { intros w. unfold total, x.
    transitivity (rsum (fun i => rsum (fun j => rsum (fun j' => w j' * c j * c j' * (ent P' i j * ent P' i j'))%R (Datatypes.S (Z.to_nat k))) (Datatypes.S (Z.to_nat k))) (Z.to_nat m)).
    - apply rsum_ext. intros i _. rewrite rsum_mul. apply rsum_ext. intros j _. apply rsum_ext. intros; ring.
    - rewrite rsum_swap. apply rsum_ext. intros j Hj. rewrite rsum_swap. rewrite (rsum_single _ _ j); [|lia|].
      + rewrite rsum_scal. destruct (HO j j ltac:(lia) ltac:(lia)) as [O _]. unfold total in O. rewrite O, Z.eqb_refl. ring.
      + intros j' Hj' Nj. rewrite rsum_scal. destruct (HO j j' ltac:(lia) ltac:(lia)) as [O _]. unfold total in O. rewrite O. replace (j =? j') with false by lia. ring. }
  assert (NX : total (fun i => x i * x i)%R m = rsum (fun j => 1 * (c j * c j))%R (Datatypes.S (Z.to_nat k))).
  { rewrite <- (CO (fun _ => 1%R)). unfold total. apply rsum_ext. intros i _. unfold x at 2. f_equal. apply rsum_ext. intros; ring. }
  assert (QX : mean A' x = rsum (fun j => nth (Z.to_nat j) vals' 0 * (c j * c j))%R (Datatypes.S (Z.to_nat k))).
  { rewrite <- (CO (fun j => nth (Z.to_nat j) vals' 0%R)). unfold mean. fold m. unfold total in *. apply rsum_ext. intros i Hi'.
    transitivity (rsum (fun j => x i * rsum (fun q => c q * (ent A' i j * ent P' j q))%R (Datatypes.S (Z.to_nat k)))%R (Z.to_nat m)).
    - apply rsum_ext. intros j Hj. unfold x at 2. rewrite <- rsum_scal, <- rsum_scal. apply rsum_ext. intros; ring.
    - rewrite rsum_scal. f_equal. rewrite rsum_swap. apply rsum_ext. intros q Hq. rewrite rsum_scal, HE by lia. ring. }
  specialize (HM x). rewrite QX in HM. unfold mean in HM. rewrite <- EN in HM. fold m in HM. rewrite NX in RR.
  assert (UP : (rsum (fun j => nth (Z.to_nat j) vals' 0 * (c j * c j)) (Datatypes.S (Z.to_nat k)) <= nth (Z.to_nat k) vals' 0 * rsum (fun j => 1 * (c j * c j)) (Datatypes.S (Z.to_nat k)))%R).
  { rewrite <- rsum_scal. apply rsum_le. intros j Hj. pose proof (later_greater vals' j k S ltac:(lia) ltac:(lia)). pose proof (Rle_0_sqr (c j)) as Q. unfold Rsqr in Q. nra. }
  assert (PO : (0 < rsum (fun j => 1 * (c j * c j)) (Datatypes.S (Z.to_nat k)))%R).
  { apply Rlt_le_trans with (rsum (fun j => if j =? j0 then c j0 * c j0 else 0)%R (Datatypes.S (Z.to_nat k))).
    - rewrite (rsum_single _ _ j0); [|lia|intros j _ Nj; replace (j =? j0) with false by lia; reflexivity].
      rewrite Z.eqb_refl. pose proof (Rsqr_pos_lt _ Nj0) as Q. exact Q.
    - apply rsum_le. intros j _. pose proof (Rle_0_sqr (c j)) as Q. unfold Rsqr in Q. destruct (Z.eqb_spec j j0) as [-> | _]; lra. }
  apply Rmult_le_reg_r with (1 := PO). lra.
Qed.

(** ** Radial operators that are nowhere negative *)

(** The states [lo .. lo + n - 1]. *)
Definition nowhere_negative (lo : Z) (n : nat) (V : Z -> Z -> R) : Prop :=
  forall y : Z -> R, (0 <= rsum (fun f => rsum (fun i => y f * y i * V (lo + f)%Z (lo + i)%Z) n) n)%R.

Lemma rsum_square_nonneg g n : (0 <= rsum (fun k => g k * g k) n)%R.
Proof. induction n as [|n IH]; cbn [rsum]; [lra|]. pose proof (Rle_0_sqr (g (Z.of_nat n))) as Q. unfold Rsqr in Q. lra. Qed.

Lemma gram lo n V (A : Z -> Z -> R) N : 0 <= lo ->
  (forall f i, lo <= f < lo + Z.of_nat n -> lo <= i < lo + Z.of_nat n -> V f i = rsum (fun k => A k f * A k i)%R N) -> nowhere_negative lo n V.
Proof.
  intros Hlo HV y. replace (rsum _ n) with (rsum (fun k => rsum (fun f => y f * A k (lo + f)%Z)%R n * rsum (fun f => y f * A k (lo + f)%Z)%R n)%R N); [apply rsum_square_nonneg|].
  transitivity (rsum (fun k => rsum (fun f => rsum (fun i => y f * y i * (A k (lo + f)%Z * A k (lo + i)%Z))%R n) n) N).
  - apply rsum_ext. intros k _. rewrite rsum_mul. apply rsum_ext. intros f _. apply rsum_ext. intros; ring.
  - rewrite rsum_swap. apply rsum_ext. intros f Hf. rewrite rsum_swap. apply rsum_ext. intros i Hi. rewrite rsum_scal, HV by lia. reflexivity.
Qed.

Lemma nowhere_plus lo n V W : nowhere_negative lo n V -> nowhere_negative lo n W -> nowhere_negative lo n (fun f i => V f i + W f i)%R.
Proof.
  intros HV HW y. specialize (HV y). specialize (HW y). rewrite (rsum_ext _ (fun f => rsum (fun i => y f * y i * V (lo + f)%Z (lo + i)%Z)%R n + rsum (fun i => y f * y i * W (lo + f)%Z (lo + i)%Z)%R n)%R).
  - rewrite rsum_plus. lra.
  - intros f _. rewrite <- rsum_plus. apply rsum_ext. intros; ring.
Qed.
Lemma nowhere_scale lo n c V : (0 <= c)%R -> nowhere_negative lo n V -> nowhere_negative lo n (fun f i => c * V f i)%R.
Proof.
  intros Hc HV y. specialize (HV y). rewrite (rsum_ext _ (fun f => c * rsum (fun i => y f * y i * V (lo + f)%Z (lo + i)%Z)%R n)%R).
  - rewrite rsum_scal. now apply Rmult_le_pos.
  - intros f _. rewrite <- rsum_scal. apply rsum_ext. intros; ring.
Qed.
Lemma nowhere_ext lo n V W : 0 <= lo -> (forall f i, 0 <= f -> 0 <= i -> V f i = W f i) -> nowhere_negative lo n V -> nowhere_negative lo n W.
Proof. intros Hlo E H y. specialize (H y). erewrite rsum_ext; [exact H|]. intros f Hf. apply rsum_ext. intros i Hi. cbv beta. rewrite E by lia. reflexivity. Qed.

Lemma b2_nowhere lo n l : 0 <= lo -> (0 < l)%R -> nowhere_negative lo n (v_b2 l).
Proof.
  intros Hlo Hl. apply (gram lo n _ (v_b_pl l) (Z.to_nat (lo + Z.of_nat n + 2)) Hlo). intros f i Hf Hi.
  rewrite <- (b_ml_b_pl l Hl f i (Z.to_nat (lo + Z.of_nat n + 2))) by lia. apply rsum_ext. intros k Hk. rewrite (b_pl_ml_tr l f k) by lia. reflexivity.
Qed.
Lemma one_nowhere lo n : 0 <= lo -> nowhere_negative lo n (fun f i => if f =? i then 1%R else 0%R).
Proof.
  intros Hlo. apply (gram lo n _ (fun k f => if k =? f then 1 else 0)%R (Z.to_nat (lo + Z.of_nat n)) Hlo). intros f i Hf Hi.
  rewrite (rsum_single _ _ f); [rewrite Z.eqb_refl; destruct (f =? i); ring|lia|]. intros k _ N. replace (k =? f) with false by lia. ring.
Qed.
(** beta^4 computed on the states lo .. hi alone. *)
Definition w_b4 (l : R) (lo hi f i : Z) : R := total (fun k => v_b2 l f (lo + k)%Z * v_b2 l (lo + k)%Z i)%R (hi - lo + 1).

Lemma word_b4_any Gam (HG : gamma_like Gam) Msqrt Minv an l n0 n1 : (0 < l)%R -> 0 <= n0 <= n1 ->
  radial_matrix (RadProd (Rep_elem Gam Msqrt Minv) [Radial_b2; Radial_b2] an l 0 n0 n1 0) n0 n1 (fun f i => (powerRZ an (-4) * w_b4 l n0 n1 f i)%R).
Proof.
  intros Hl Hn.
  destruct (word_b2 Gam Msqrt Minv n0 n1 Hn an l Hl) as (m & Em & M1 & M2 & M3).
  assert (E1 : RadProd (Rep_elem Gam Msqrt Minv) [Radial_b2] an l 0 n0 n1 0 = factor_mat (Rep_elem Gam Msqrt Minv) an l n0 n1 (F1 M_b2 0 (-2))).
  { rewrite (RadProd_one _ _ 2 0 M_b2 (-2)) by (reflexivity || lra || lia). unfold factor_mat. cbn [F1 f_elems f_pow mapM fst snd]. rewrite Rplus_0_r.
    destruct (Rep_elem _ _ _ _ _ _ _) as [x|x]; reflexivity. }
  rewrite E1 in Em.
  assert (EF : RepRadial_Prod_factors [Radial_b2; Radial_b2] l 0 = Ok [F1 M_b2 0 (-2); F1 M_b2 0 (-2)]).
  { unfold RepRadial_Prod_factors. destruct (Rle_dec l 0); [lra|]. destruct (Rle_dec (l + IZR 0) 0); [lra|].
    change (Parse_RadialOp_List [Radial_b2; Radial_b2]) with (Ok [KTOp 4 0]). cbn [bind].
    change (Lambda_RadialOp_List [KTOp 4 0] 0) with (Ok [0]). cbn [bind].
    change (insert_id [KTOp 4 0] [0]) with ([KTOp 4 0], [0]). cbv iota beta.
    unfold RepRadialshfs_Prod. cbn [rev app shfs_loop representation]. unfold bsds. rewrite Rplus_0_r.
    destruct (Rle_dec l 0); [lra|]. destruct (Rle_dec (l + IZR 0) 0); [lra|]. reflexivity. }
  unfold RadProd, RepRadial_Prod_common. rewrite EF. cbn [bind]. replace (n0 - Z.min 0 n0) with n0 by lia. rewrite Z.add_0_r, Z.eqb_refl.
  unfold factors_mat. cbn [mapM]. rewrite Em. cbn [bind mprod]. unfold matmul. rewrite M1, M2, Z.eqb_refl. cbn [bind].
  eexists. split; [reflexivity|]. cbn [nrows ncols ent]. split; [reflexivity|]. split; [reflexivity|]. intros x y Hx Hy. unfold w_b4, total. rewrite <- rsum_scal.
  apply rsum_ext. intros k Hk. rewrite !M3 by lia. change (powerRZ an (-2)) with (/ an ^ 2)%R. change (powerRZ an (-4)) with (/ an ^ 4)%R.
  replace (an ^ 4)%R with (an ^ 2 * an ^ 2)%R by ring. rewrite Rinv_mult. ring.
Qed.

Lemma b4_nowhere lo hi l : 0 <= lo -> nowhere_negative lo (Z.to_nat (hi - lo + 1)) (w_b4 l lo hi).
Proof.
  intros H0. apply (gram lo _ _ (fun k => v_b2 l (lo + k)%Z) (Z.to_nat (hi - lo + 1)) H0). intros f i Hf Hi. unfold w_b4, total.
  apply rsum_ext. intros k0 _. f_equal. set (k := lo + k0). unfold v_b2.
  destruct (f =? k - 1) eqn:E1; [replace (k =? f - 1) with false by lia; replace (k =? f) with false by lia; replace (k =? f + 1) with true by lia; reflexivity|].
  destruct (f =? k) eqn:E2; [replace k with f by lia; replace (f =? f - 1) with false by lia; now rewrite Z.eqb_refl|].
  replace (k =? f) with false by lia. replace (k =? f + 1) with false by lia.
  destruct (f =? k + 1) eqn:E3; [replace (k =? f - 1) with true by lia|replace (k =? f - 1) with false by lia]; reflexivity.
Qed.

Section Nowhere.
  Variable Gam : R -> R.
  Hypothesis HG : gamma_like Gam.

  Lemma bm2_nowhere lo n l : 0 <= lo -> (1 < l)%R -> nowhere_negative lo n (v_bm2 Gam l).
  Proof.
    intros Hlo Hl. apply (gram lo n _ (fun k f => v_bm_pl Gam (l - 1) f k) (Z.to_nat (lo + Z.of_nat n + 2)) Hlo). intros f i Hf Hi.
    pose proof (bm_pl_bm_ml Gam HG (l - 1) ltac:(lra) f i (Z.to_nat (lo + Z.of_nat n + 2)) ltac:(lia) ltac:(lia) ltac:(lia)) as Q.
    pose proof (bm_pl_ml_tr Gam (l - 1) ltac:(lra)) as T. replace (l - 1 + 1)%R with l in Q, T by ring. rewrite <- Q. apply rsum_ext. intros k Hk. rewrite (T k i) by lia. reflexivity.
  Qed.
  (** - d2/dbeta2. *)
  Lemma D2b_nowhere lo n l : 0 <= lo -> (1 < l)%R -> nowhere_negative lo n (fun f i => - v_D2b Gam l f i)%R.
  Proof.
    intros Hlo Hl. apply (gram lo n _ (fun k f => v_Db_pl Gam (l - 1) f k) (Z.to_nat (lo + Z.of_nat n + 2)) Hlo). intros f i Hf Hi.
    pose proof (Db_pl_Db_ml Gam HG (l - 1) ltac:(lra) f i (Z.to_nat (lo + Z.of_nat n + 2)) ltac:(lia) ltac:(lia) ltac:(lia)) as Q.
    pose proof (Db_tr Gam (l - 1) ltac:(lra)) as T. replace (l - 1 + 1)%R with l in Q, T by ring. rewrite <- Q, <- (Rmult_1_l (rsum _ _)), Ropp_mult_distr_l, <- rsum_scal.
    apply rsum_ext. intros k Hk. rewrite (T i k) by lia. unfold rscale, rtr. ring.
  Qed.

  (** The entries of a matrix made of radial terms. *)
  Definition radial_entry (d11 d20 d21 d22 d23 an l : R) (v N0 N f i : Z) : R :=
    (d11 * (powerRZ an 2 * v_D2b Gam l f i) + - d11 * (2 + IZR v * (IZR v + 3)) * (powerRZ an 2 * v_bm2 Gam l f i)
     + d20 * (if f =? i then 1 else 0) + d21 * (powerRZ an (-2) * v_b2 l f i) + d22 * (powerRZ an (-4) * w_b4 l N0 N f i)
     + d23 * (powerRZ an 2 * v_bm2 Gam l f i))%R.

  Lemma radial_nowhere d11 d20 d21 d22 d23 an l v lo hi : (d11 <= 0)%R -> (0 <= d20)%R -> (0 <= d21)%R -> (0 <= d22)%R -> (0 <= d23)%R -> an <> 0%R -> (1 < l)%R ->
    0 <= v -> 0 <= lo <= hi -> nowhere_negative lo (Z.to_nat (hi - lo + 1)) (radial_entry d11 d20 d21 d22 d23 an l v lo hi).
  Proof.
    intros H1 H2 H3 H4 H5 Ha Hl Hv Hn. set (n := Z.to_nat (hi - lo + 1)).
    assert (A2 : (0 < an ^ 2)%R) by (assert (an ^ 2 <> 0)%R by (apply pow_nonzero; assumption); pose proof (pow2_ge_0 an); lra).
    assert (I2 : (0 < / an ^ 2)%R) by (now apply Rinv_0_lt_compat).
    assert (I4 : (0 < / an ^ 4)%R) by (apply Rinv_0_lt_compat; replace (an ^ 4)%R with (an ^ 2 * an ^ 2)%R by ring; nra).
    assert (V0 : (0 <= IZR v)%R) by (apply (IZR_le 0); exact Hv).
    assert (B4 : nowhere_negative lo n (fun f i => d22 * / an ^ 4 * w_b4 l lo hi f i)%R).
    { apply nowhere_scale; [nra|]. apply b4_nowhere. lia. }
    pose proof (nowhere_plus lo n _ _ (nowhere_plus lo n _ _ (nowhere_plus lo n _ _ (nowhere_plus lo n _ _
      (nowhere_scale lo n (- d11 * an ^ 2)%R _ ltac:(nra) (D2b_nowhere lo n l ltac:(lia) Hl))
      (nowhere_scale lo n ((- d11 * (2 + IZR v * (IZR v + 3)) + d23) * an ^ 2)%R _ ltac:(apply Rmult_le_pos; [|lra]; assert (0 <= - d11 * (2 + IZR v * (IZR v + 3)))%R by (apply Rmult_le_pos; [lra|nra]); lra) (bm2_nowhere lo n l ltac:(lia) Hl)))
      (nowhere_scale lo n d20 _ H2 (one_nowhere lo n ltac:(lia))))
      (nowhere_scale lo n (d21 * / an ^ 2)%R _ ltac:(apply Rmult_le_pos; lra) (b2_nowhere lo n l ltac:(lia) ltac:(lra))))
      B4) as K.
    refine (nowhere_ext lo n _ _ (proj1 Hn) _ K). intros f i Hf Hi. unfold radial_entry.
    change (powerRZ an 2) with (an ^ 2)%R. change (powerRZ an (-2)) with (/ an ^ 2)%R. change (powerRZ an (-4)) with (/ an ^ 4)%R. ring.
  Qed.
End Nowhere.

(** *** Sums of levels *)

Lemma rsum_list (l : list R) k : rsum (fun j => nth (Z.to_nat j) l 0%R) k = fold_right Rplus 0%R (firstn k l).
Proof.
  revert l. induction k as [|k IH]; intros l; [reflexivity|]. rewrite AngMom.rsum_front. destruct l as [|x l]; cbn [firstn fold_right].
  - rewrite rsum_zero; [cbn; ring|]. intros j _. now destruct (Z.to_nat (j + 1)).
  - change (nth (Z.to_nat 0) (x :: l) 0%R) with x. f_equal. rewrite <- IH. apply rsum_ext. intros j Hj. replace (Z.to_nat (j + 1)) with (S (Z.to_nat j)) by lia. reflexivity.
Qed.

Lemma mean_level A vals P a : eigen_decomposition A vals P -> 0 <= a < nrows A -> mean A (fun i => ent P i a) = nth (Z.to_nat a) vals 0%R.
Proof.
  intros (Hl & Hr & Hc & S & HE & HO) Ha. destruct (HO a a Ha Ha) as (O & _). rewrite Z.eqb_refl in O. unfold mean.
  rewrite (total_ext _ (fun i => nth (Z.to_nat a) vals 0 * (ent P i a * ent P i a))%R); [rewrite total_scal, O; ring|].
  intros i Hi. specialize (HE i a Hi Ha). rewrite (total_ext _ (fun j => ent P i a * (ent A i j * ent P j a))%R) by (intros; ring). rewrite total_scal, HE. ring.
Qed.

(** Weighted squares of the components along the columns of [P]. *)
Lemma components (P : mat R) n (x w : Z -> R) :
  total (fun j => w j * (total (fun i => x i * ent P i j) n * total (fun i => x i * ent P i j) n))%R n
  = total (fun i => total (fun i' => x i * x i' * total (fun j => w j * ent P i j * ent P i' j) n) n)%R n.
Proof.
  transitivity (total (fun j => total (fun i => total (fun i' => x i * x i' * (w j * ent P i j * ent P i' j)) n) n)%R n).
  - apply total_ext. intros j _. rewrite total_mul, <- total_scal. apply total_ext. intros i _. rewrite <- total_scal. apply total_ext. intros; ring.
  - rewrite total_swap. apply total_ext. intros i _. rewrite total_swap. apply total_ext. intros i' _. now rewrite total_scal.
Qed.

Lemma mean_spectral A vals P x : eigen_decomposition A vals P ->
  mean A x = total (fun j => nth (Z.to_nat j) vals 0 * (total (fun i => x i * ent P i j) (nrows A) * total (fun i => x i * ent P i j) (nrows A)))%R (nrows A).
Proof.
  intros D. rewrite (components P (nrows A) x (fun j => nth (Z.to_nat j) vals 0%R)). unfold mean. apply total_ext. intros i Hi. apply total_ext. intros j Hj.
  rewrite (spectral_sum _ _ _ D i j) by lia. ring.
Qed.

Lemma parseval A vals P x : eigen_decomposition A vals P ->
  total (fun j => total (fun i => x i * ent P i j) (nrows A) * total (fun i => x i * ent P i j) (nrows A))%R (nrows A) = total (fun i => x i * x i)%R (nrows A).
Proof.
  intros (_ & _ & _ & _ & _ & HO). transitivity (total (fun j => 1 * (total (fun i => x i * ent P i j) (nrows A) * total (fun i => x i * ent P i j) (nrows A)))%R (nrows A)); [apply total_ext; intros; ring|].
  rewrite (components P (nrows A) x (fun _ => 1%R)). apply total_ext. intros i Hi.
  rewrite (total_ext _ (fun i' => x i * x i' * (if i' =? i then 1 else 0))%R).
  - rewrite (total_delta (fun i' => x i * x i')%R) by exact Hi. reflexivity.
  - intros i' Hi'. f_equal. destruct (HO i' i Hi' Hi) as (_ & <-). apply total_ext. intros; ring.
Qed.

Lemma rsum_first f n k : (k <= n)%nat -> rsum (fun j => if j <? Z.of_nat k then f j else 0%R) n = rsum f k.
Proof.
  intros H. replace n with (k + (n - k))%nat by lia. rewrite rsum_app. rewrite (rsum_zero (fun j => if Z.of_nat k + j <? Z.of_nat k then _ else 0%R)), Rplus_0_r.
  - apply rsum_ext. intros j Hj. now replace (j <? Z.of_nat k) with true by lia.
  - intros j Hj. now replace (Z.of_nat k + j <? Z.of_nat k) with false by lia.
Qed.

Lemma rsum_partial f n k : (k <= n)%nat -> (forall j, 0 <= j < Z.of_nat n -> (0 <= f j)%R) -> (rsum f k <= rsum f n)%R.
Proof.
  intros H P. rewrite <- (rsum_first f n k H). apply rsum_le. intros j Hj. specialize (P j Hj). destruct (j <? Z.of_nat k); lra.
Qed.

(** The k lowest eigenvalues add up to no more than the mean values of k orthonormal
    states (Ky Fan); to exactly that for a full set of states. *)
Lemma ky_fan A vals P B valsB Q k : eigen_decomposition A vals P -> eigen_decomposition B valsB Q -> nrows B = nrows A -> (k <= Z.to_nat (nrows A))%nat ->
  (rsum (fun j => nth (Z.to_nat j) vals 0) k <= rsum (fun a => mean A (fun i => ent Q i a)) k)%R /\
  (k = Z.to_nat (nrows A) -> rsum (fun j => nth (Z.to_nat j) vals 0%R) k = rsum (fun a => mean A (fun i => ent Q i a)) k).
Proof.
  intros D DB EN Hk. set (n := nrows A) in *.
  set (q := fun a j => total (fun i => ent Q i a * ent P i j)%R n).
  assert (Q1 : forall a, 0 <= a < n -> rsum (fun j => q a j * q a j)%R (Z.to_nat n) = 1%R).
  { intros a Ha. pose proof (parseval A vals P (fun i => ent Q i a) D) as V. fold n in V. unfold total at 1 in V. unfold q. rewrite V.
    destruct DB as (_ & _ & _ & _ & _ & HO). rewrite EN in HO. destruct (HO a a Ha Ha) as (O & _). now rewrite Z.eqb_refl in O. }
  assert (Q2 : forall j, 0 <= j < n -> rsum (fun a => q a j * q a j)%R (Z.to_nat n) = 1%R).
  { intros j Hj. pose proof (parseval B valsB Q (fun i => ent P i j) DB) as V. rewrite EN in V. unfold total at 1 in V.
    destruct D as (_ & _ & _ & _ & _ & HO). destruct (HO j j Hj Hj) as (O & _). rewrite Z.eqb_refl in O. fold n in O. rewrite O in V. rewrite <- V. apply rsum_ext. intros a Ha.
    assert (E : q a j = total (fun i => ent P i j * ent Q i a)%R n) by (apply total_ext; intros; ring). now rewrite E. }
  set (w := fun j => rsum (fun a => q a j * q a j)%R k).
  assert (SQ : forall a j, (0 <= q a j * q a j)%R) by (intros a j; pose proof (Rle_0_sqr (q a j)) as Z; exact Z).
  assert (W0 : forall j, (0 <= w j)%R) by (intros j; apply (rsum_square_nonneg (fun a => q a j))).
  assert (W1 : forall j, 0 <= j < n -> (w j <= 1)%R) by (intros j Hj; rewrite <- (Q2 j Hj); apply rsum_partial; [exact Hk|intros; apply SQ]).
  assert (WS : rsum w (Z.to_nat n) = INR k).
  { unfold w. rewrite rsum_swap. rewrite (rsum_ext _ (fun _ => 1%R)) by (intros a Ha; apply Q1; lia). clear. induction k as [|k IH]; [reflexivity|]. rewrite S_INR, <- IH. reflexivity. }
  assert (E : rsum (fun a => mean A (fun i => ent Q i a)) k = rsum (fun j => nth (Z.to_nat j) vals 0 * w j)%R (Z.to_nat n)).
  { transitivity (rsum (fun a => rsum (fun j => nth (Z.to_nat j) vals 0 * (q a j * q a j))%R (Z.to_nat n)) k).
    - apply rsum_ext. intros a Ha. rewrite (mean_spectral A vals P _ D). reflexivity.
    - rewrite rsum_swap. apply rsum_ext. intros j Hj. unfold w. now rewrite rsum_scal. }
  rewrite E. split.
  - destruct k as [|k']; [cbn; rewrite (rsum_zero (fun j => nth (Z.to_nat j) vals 0 * w j)%R); [lra|]; intros j _; unfold w; cbn; ring|].
    set (k := S k') in *. set (top := nth k' vals 0%R). rewrite <- (rsum_first _ (Z.to_nat n) k Hk).
    destruct D as (Hl & _ & _ & S & _). fold n in Hl.
    assert (LE : (rsum (fun j => top * (w j + -1 * (if j <? Z.of_nat k then 1 else 0))) (Z.to_nat n)
        <= rsum (fun j => nth (Z.to_nat j) vals 0 * w j + -1 * (if j <? Z.of_nat k then nth (Z.to_nat j) vals 0 else 0)) (Z.to_nat n))%R).
    { apply rsum_le. intros j Hj. pose proof (W0 j). pose proof (W1 j ltac:(lia)). destruct (j <? Z.of_nat k) eqn:Bk.
      - pose proof (later_greater vals j (Z.of_nat k') S ltac:(unfold k in Bk; lia) ltac:(unfold k in Hk; lia)) as G. rewrite Nat2Z.id in G. fold top in G. nra.
      - pose proof (later_greater vals (Z.of_nat k') j S ltac:(unfold k in Bk; lia) ltac:(lia)) as G. rewrite Nat2Z.id in G. fold top in G. nra. }
    rewrite rsum_scal, !rsum_plus, !rsum_scal, WS, (rsum_first (fun _ => 1%R) (Z.to_nat n) k Hk) in LE.
    assert (C : rsum (fun _ => 1%R) k = INR k) by (clear; induction k as [|m IH]; [reflexivity|]; rewrite S_INR, <- IH; reflexivity). rewrite C in LE. lra.
  - intros K. rewrite K. apply rsum_ext. intros j Hj. unfold w. rewrite K, Q2 by lia. ring.
Qed.

(** ** The full space *)

Lemma ham_tame c11 c20 c21 c22 c23 c30 c31 c32 c33 c40 c41 c42 c43 c50 : Op_Tame (ACM_Hamiltonian c11 c20 c21 c22 c23 c30 c31 c32 c33 c40 c41 c42 c43 c50) = true.
Proof.
  unfold Op_Tame, ACM_Hamiltonian. cbv zeta.
  assert (O : forall c k w, forallb (fun s => negb (untame s)) w = true -> forallb (fun t : OperatorTerm => forallb (fun s => negb (untame s)) (snd t)) (opt_term c (k, w)) = true).
  { intros c k w H. unfold opt_term. destruct (is0 c); [reflexivity|]. cbn [forallb snd]. now rewrite H. }
  rewrite !forallb_app, !O by reflexivity. destruct (is0 c11); reflexivity.
Qed.

Lemma radial_Hamiltonian d11 d20 d21 d22 d23 :
  ACM_Hamiltonian (CNum d11) (CNum d20) (CNum d21) (CNum d22) (CNum d23) (CNum 0) (CNum 0) (CNum 0) (CNum 0) (CNum 0) (CNum 0) (CNum 0) (CNum 0) (CNum 0) =
  (if Req_EM_T d11 0 then [] else [(CNum d11, [ORad Radial_D2b]); (CSym (fun _ v _ _ => (-1 * d11 * (2 + IZR v * (IZR v + 3)))%R), [ORad Radial_bm2])])
  ++ (if Req_EM_T d20 0 then [] else [(CNum d20, [])])
  ++ (if Req_EM_T d21 0 then [] else [(CNum d21, [ORad Radial_b2])])
  ++ (if Req_EM_T d22 0 then [] else [(CNum d22, [ORad Radial_b2; ORad Radial_b2])])
  ++ (if Req_EM_T d23 0 then [] else [(CNum d23, [ORad Radial_bm2])]).
Proof.
  unfold ACM_Hamiltonian, opt_term, cscale, cmul, SEN. cbv zeta.
  assert (Q : forall x, is0 (CNum x) = if Req_EM_T x 0 then true else false) by (intros x; cbn; destruct (Req_EM_T x 0); reflexivity).
  rewrite !Q. destruct (Req_EM_T 0 0) as [_|N]; [|lra]. rewrite !app_nil_r.
  destruct (Req_EM_T d11 0), (Req_EM_T d20 0), (Req_EM_T d21 0), (Req_EM_T d22 0), (Req_EM_T d23 0); try reflexivity;
    (destruct (Req_EM_T (-1 * d11) 0); [exfalso; lra|reflexivity]).
Qed.

Section Space.
  Variable Gam : R -> R.
  Hypothesis HG : gamma_like Gam.
  Variables Msqrt Minv : mat R -> res (mat R).
  Variable CG : Z -> Z -> Z -> Z -> Z -> Z -> Z -> Z -> Z -> res R.
  Let RP := RadProd (Rep_elem Gam Msqrt Minv).
  Variables nu_min nu_max v_min v_max L_min L_max : Z.
  Hypothesis Hnu : 0 <= nu_min <= nu_max.
  Hypothesis Hv : 0 <= v_min <= v_max.
  Hypothesis HL : 0 <= L_min <= L_max.

  Lemma radial_space d11 d20 d21 d22 d23 an lb s lam X : bases s lb v_min v_max lam ->
    lbsXspace nu_min nu_max v_min v_max L_min (Some L_max) = Ok X ->
    exists D, code_matrices RP CG s (ACM_Hamiltonian (CNum d11) (CNum d20) (CNum d21) (CNum d22) (CNum d23) (CNum 0) (CNum 0) (CNum 0) (CNum 0) (CNum 0) (CNum 0) (CNum 0) (CNum 0) (CNum 0))
        an lb nu_min nu_max v_min v_max L_min (Some L_max) = Ok D /\
      nrows D = zlen X /\ ncols D = zlen X /\
      forall p q nf sf ni v al L, 0 <= p -> 0 <= q ->
        nth_error X (Z.to_nat p) = Some (nf, sf) -> nth_error X (Z.to_nat q) = Some (ni, (v, al, L)) ->
        ent D p q = if state_eqb sf (v, al, L) then radial_entry Gam d11 d20 d21 d22 d23 an (lam v) v nu_min nu_max nf ni else 0%R.
  Proof.
    intros Hs EX. unfold code_matrices. rewrite radial_Hamiltonian.
    set (terms := (if Req_EM_T d11 0 then [] else [(CNum d11, [Radial_D2b], fun l f i => (powerRZ an 2 * v_D2b Gam l f i)%R);
        (CSym (fun _ v _ _ => (-1 * d11 * (2 + IZR v * (IZR v + 3)))%R), [Radial_bm2], fun l f i => (powerRZ an 2 * v_bm2 Gam l f i)%R)])
      ++ (if Req_EM_T d20 0 then [] else [(CNum d20, @nil rsym, fun (l : R) (f i : Z) => if f =? i then 1%R else 0%R)])
      ++ (if Req_EM_T d21 0 then [] else [(CNum d21, [Radial_b2], fun l f i => (powerRZ an (-2) * v_b2 l f i)%R)])
      ++ (if Req_EM_T d22 0 then [] else [(CNum d22, [Radial_b2; Radial_b2], fun l f i => (powerRZ an (-4) * w_b4 l nu_min nu_max f i)%R)])
      ++ (if Req_EM_T d23 0 then [] else [(CNum d23, [Radial_bm2], fun l f i => (powerRZ an 2 * v_bm2 Gam l f i)%R)])).
    assert (W : forall w V, (forall l, (1 < l)%R -> radial_matrix (RP w an l 0 nu_min nu_max 0) nu_min nu_max (V l)) ->
       word_matrix RP (g_lam_fun s) an lb nu_min nu_max v_min v_max w V).
    { intros w V H v Hvv. destruct (Hs v Hvv) as (k & E1 & E2 & E3). exists k. split; [exact E1|]. rewrite <- E2. now apply H. }
    destruct (rep_radial RP CG (g_lam_fun s) an lb nu_min nu_max v_min v_max L_min L_max Hnu Hv HL terms X) as (D & ED & S1 & S2 & EV).
    { intros c w V I. unfold terms in I.
      apply in_app_or in I. destruct I as [I | I].
      { destruct (Req_EM_T d11 0); [contradiction|]. destruct I as [E | [E | []]]; injection E as <- <- <-; (split; [apply W; intros l Hl; (now apply word_D2b || now apply word_bm2)|repeat constructor]). }
      apply in_app_or in I. destruct I as [I | I].
      { destruct (Req_EM_T d20 0); [contradiction|]. destruct I as [E | []]; injection E as <- <- <-; (split; [apply W; intros l Hl; apply word_nil; [assumption|lra]|repeat constructor]). }
      apply in_app_or in I. destruct I as [I | I].
      { destruct (Req_EM_T d21 0); [contradiction|]. destruct I as [E | []]; injection E as <- <- <-; (split; [apply W; intros l Hl; apply word_b2; [assumption|lra]|repeat constructor]). }
      apply in_app_or in I. destruct I as [I | I].
      { destruct (Req_EM_T d22 0) as [|N]; [contradiction|]. destruct I as [E | []]; injection E as <- <- <-; (split; [|repeat constructor]).
        apply W. intros l Hl. apply word_b4_any; [assumption|lra|lia]. }
      { destruct (Req_EM_T d23 0); [contradiction|]. destruct I as [E | []]; injection E as <- <- <-; (split; [apply W; intros l Hl; now apply word_bm2|repeat constructor]). } }
    { exact EX. }
    exists D. split; [|split; [exact S1|split; [exact S2|]]].
    - rewrite <- ED. do 2 f_equal. unfold terms. destruct (Req_EM_T d11 0), (Req_EM_T d20 0), (Req_EM_T d21 0), (Req_EM_T d22 0), (Req_EM_T d23 0); reflexivity.
    - intros p q nf sf ni v al L Hp Hq Ep Eq. rewrite (EV p q nf sf ni v al L Hp Hq Ep Eq).
      destruct (state_eqb sf (v, al, L)) eqn:SE; [|reflexivity].
      destruct (position _ _ _ _ _ _ X q _ Hnu Hv HL EX Hq Eq) as (_ & Lq & _). cbn [snd] in Lq.
      pose proof (in_lbs v_min v_max L_min L_max v al L (nth_error_In _ _ Lq)) as Hvv.
      destruct (Hs v Hvv) as (k & E1 & E2 & _). unfold lam_at. rewrite E1, <- E2. unfold terms, radial_entry.
      rewrite !map_app, !fold_right_app.
      destruct (Req_EM_T d11 0) as [Z1|], (Req_EM_T d20 0) as [Z2|], (Req_EM_T d21 0) as [Z3|], (Req_EM_T d22 0) as [Z4|], (Req_EM_T d23 0) as [Z5|];
        cbn [map fold_right fst snd cval]; rewrite ?Z1, ?Z2, ?Z3, ?Z4, ?Z5; ring.
  Qed.

  (** A matrix that is diagonal in the angular labels and nowhere negative in the
      radial ones. *)
  Lemma space_nowhere (W : Z -> Z -> Z -> R) X D : lbsXspace nu_min nu_max v_min v_max L_min (Some L_max) = Ok X -> nrows D = zlen X ->
    (forall p q nf sf ni v al L, 0 <= p -> 0 <= q -> nth_error X (Z.to_nat p) = Some (nf, sf) -> nth_error X (Z.to_nat q) = Some (ni, (v, al, L)) ->
      ent D p q = if state_eqb sf (v, al, L) then W v nf ni else 0%R) ->
    (forall v, v_min <= v <= v_max -> nowhere_negative nu_min (Z.to_nat (nu_max - nu_min + 1)) (W v)) ->
    forall y, (0 <= mean D y)%R.
  Proof.
    intros EX S1 EV HW y.
    destruct (C06_layout nu_min nu_max v_min v_max L_min L_max Hnu Hv HL) as (X' & sph & EX' & Es & Hlen & HN). rewrite EX in EX'. injection EX' as <-.
    rewrite lbs_rngVvarL_some in Es by lia. injection Es as <-.
    assert (Hd : dimRadial nu_min nu_max = nu_max - nu_min + 1) by (unfold dimRadial; now replace (nu_min <=? nu_max) with true by lia).
    set (rd := Z.to_nat (nu_max - nu_min + 1)) in *. set (sph := lbs v_min v_max L_min L_max) in *. rewrite Hd in *.
    assert (NX : Z.to_nat (zlen X) = (length sph * rd)%nat) by (rewrite Hlen, Z2Nat.inj_mul by (unfold zlen; lia); unfold zlen; rewrite Nat2Z.id; fold rd; apply Nat.mul_comm).
    assert (EB : forall j x j' x', 0 <= j < Z.of_nat (length sph) -> 0 <= j' < Z.of_nat (length sph) -> 0 <= x < Z.of_nat rd -> 0 <= x' < Z.of_nat rd ->
      exists v al L, nth_error sph (Z.to_nat j') = Some (v, al, L) /\
        ent D (j * Z.of_nat rd + x) (j' * Z.of_nat rd + x') = if j =? j' then W v (nu_min + x) (nu_min + x') else 0%R).
    { intros j x j' x' Hj Hj' Hx Hx'.
      destruct (nth_error sph (Z.to_nat j)) as [sf|] eqn:Ej; [|apply nth_error_None in Ej; lia].
      destruct (nth_error sph (Z.to_nat j')) as [[[v al] M]|] eqn:Ej'; [|apply nth_error_None in Ej'; lia].
      exists v, al, M. split; [reflexivity|].
      pose proof (HN _ (Z.to_nat x) _ Ej ltac:(lia)) as Q. pose proof (HN _ (Z.to_nat x') _ Ej' ltac:(lia)) as Q'. fold rd in Q, Q'.
      rewrite (EV (j * Z.of_nat rd + x)%Z (j' * Z.of_nat rd + x') (nu_min + Z.of_nat (Z.to_nat x)) sf (nu_min + Z.of_nat (Z.to_nat x')) v al M);
        [|nia|nia|etransitivity; [|exact Q]; f_equal; nia|etransitivity; [|exact Q']; f_equal; nia].
      rewrite !Z2Nat.id by lia. destruct (state_eqb sf (v, al, M)) eqn:SE.
      - apply (state_eqb_eq CG) in SE. subst sf. pose proof (lbs_positions v_min v_max L_min L_max j' j _ ltac:(lia) ltac:(lia) Ej' Ej). now replace (j =? j') with true by lia.
      - destruct (j =? j') eqn:B; [|reflexivity]. exfalso. assert (j = j') by lia. subst j'. rewrite Ej in Ej'. injection Ej' as ->. rewrite (proj2 (state_eqb_eq CG _ _) eq_refl) in SE. discriminate. }
    unfold mean, total. rewrite S1, NX, rsum_blocks.
    assert (P : (rsum (fun _ => 0) (length sph) <= rsum (fun j => rsum (fun x => rsum (fun j0 => y (j * Z.of_nat rd + x)%Z * ent D (j * Z.of_nat rd + x) j0 * y j0) (length sph * rd)) rd) (length sph))%R).
    { apply rsum_le. intros j Hj.
      destruct (nth_error sph (Z.to_nat j)) as [[[v al] M]|] eqn:Ej; [|apply nth_error_None in Ej; lia].
      pose proof (nth_error_In _ _ Ej) as Iv. unfold sph in Iv. pose proof (in_lbs v_min v_max L_min L_max v al M Iv) as Hvv.
      eapply Rle_trans; [exact (HW v Hvv (fun x => y (j * Z.of_nat rd + x)%Z))|]. apply Req_le, rsum_ext. intros x Hx. rewrite rsum_blocks, (rsum_single _ _ j Hj).
      - apply rsum_ext. intros x' Hx'. destruct (EB j x j x' Hj Hj Hx Hx') as (v' & al' & M' & E' & ->). rewrite Ej in E'. injection E' as <- <- <-. rewrite Z.eqb_refl. ring.
      - intros j' Hj' Nj. apply rsum_zero. intros x' Hx'. destruct (EB j x j' x' Hj Hj' Hx Hx') as (v' & al' & M' & _ & ->). replace (j =? j') with false by lia. ring. }
    rewrite (rsum_zero (fun _ => 0%R)) in P by reflexivity. exact P.
  Qed.
End Space.

(** ** Levels *)

(** What a successful run did for one angular momentum. *)
Lemma one_block flt RP CG eigh inv junk ham an lb nu_min nu_max v_min v_max fe fr L_min L_max s ev tr Lv s' o L vals :
  eigh_sound eigh -> Op_Tame ham = true ->
  ACM_ScaleOrAdapt flt (code_matrices RP CG) eigh inv junk ham an lb nu_min nu_max v_min v_max fe fr L_min L_max s = (Ok (ev, tr, Lv), s', o) -> In (L, vals) (combine Lv ev) ->
  0 <= nu_min <= nu_max /\ 0 <= v_min <= v_max /\ 0 <= L /\ has_states v_min v_max L /\
  exists M, code_matrices RP CG s ham an lb nu_min nu_max v_min v_max L (Some L) = Ok M /\ nrows M = ncols M /\ exists P, eigen_decomposition (symmetric_part M) vals P.
Proof.
  intros HE HT E I. destruct (tame_run _ _ _ _ _ _ _ _ _ _ _ _ _ _ _ _ _ _ _ _ _ _ HT E) as (Hn & Hv & HH).
  destruct (HH L vals I) as (HL & HS & M & P & EM & EE). repeat (split; [assumption|]). exists M.
  assert (Sq : nrows M = ncols M) by (unfold Eigenfiddle in EE; destruct (nrows M =? ncols M) eqn:B; [lia|discriminate]).
  split; [exact EM|]. split; [exact Sq|]. exists P. rewrite fiddle_symmetric in EE by exact Sq. apply HE in EE; [exact EE|reflexivity|intros; cbn; lra].
Qed.

Lemma Forall2_nth (l l' : list R) : length l = length l' -> (forall k, (k < length l)%nat -> (nth k l 0 <= nth k l' 0)%R) -> Forall2 Rle l l'.
Proof.
  revert l'. induction l as [|x l IH]; intros [|y l'] E H; try discriminate; constructor; [exact (H 0%nat ltac:(cbn; lia))|].
  apply IH; [now injection E|]. intros k Hk. exact (H (S k) ltac:(cbn; lia)).
Qed.

(** A larger c20, c21, c22 or c23, or a smaller c11 (smaller mass), never lowers a
    level, whatever the other terms of the Hamiltonian. *)
Theorem C92_potential : forall Gam Msqrt Minv CG flt eigh eigh' inv inv' junk junk' c11 c20 c21 c22 c23 c30 c31 c32 c33 c40 c41 c42 c43 c50 c11' c20' c21' c22' c23'
    an lb nu_min nu_max v_min v_max s lam fit_eig fit_rat L_min L_max fit_eig' fit_rat' L_min' L_max' ev tr Lv s1 o ev' tr' Lv' s1' o' L vals vals',
  gamma_like Gam -> eigh_sound eigh -> eigh_sound eigh' -> an <> 0%R -> bases s lb v_min v_max lam ->
  (c11' <= c11)%R -> (c20 <= c20')%R -> (c21 <= c21')%R -> (c22 <= c22')%R -> (c23 <= c23')%R ->
  let matrices := code_matrices (RadProd (Rep_elem Gam Msqrt Minv)) CG in
  ACM_ScaleOrAdapt flt matrices eigh inv junk (ACM_Hamiltonian (CNum c11) (CNum c20) (CNum c21) (CNum c22) (CNum c23) (CNum c30) (CNum c31) (CNum c32) (CNum c33)
       (CNum c40) (CNum c41) (CNum c42) (CNum c43) (CNum c50)) an lb nu_min nu_max v_min v_max fit_eig fit_rat L_min L_max s = (Ok (ev, tr, Lv), s1, o) ->
  ACM_ScaleOrAdapt flt matrices eigh' inv' junk' (ACM_Hamiltonian (CNum c11') (CNum c20') (CNum c21') (CNum c22') (CNum c23') (CNum c30) (CNum c31) (CNum c32) (CNum c33)
       (CNum c40) (CNum c41) (CNum c42) (CNum c43) (CNum c50)) an lb nu_min nu_max v_min v_max fit_eig' fit_rat' L_min' L_max' s = (Ok (ev', tr', Lv'), s1', o') ->
  In (L, vals) (combine Lv ev) -> In (L, vals') (combine Lv' ev') -> Forall2 Rle vals vals'.
Proof.
  intros Gam Msqrt Minv CG flt eigh eigh' inv inv' junk junk' c11 c20 c21 c22 c23 c30 c31 c32 c33 c40 c41 c42 c43 c50 c11' c20' c21' c22' c23'
    an lb nu_min nu_max v_min v_max s lam fe fr L_min L_max fe' fr' L_min' L_max' ev tr Lv s1 o ev' tr' Lv' s1' o' L vals vals'
    HG HE HE' Ha Hs H1 H2 H3 H4 H5 matrices RUN RUN' I I'.
  destruct (one_block _ _ _ _ _ _ _ _ _ _ _ _ _ _ _ _ _ _ _ _ _ _ _ _ _ HE (ham_tame _ _ _ _ _ _ _ _ _ _ _ _ _ _) RUN I) as (Hn & Hv & HL & _ & M & EM & Sq & P & DEC).
  destruct (one_block _ _ _ _ _ _ _ _ _ _ _ _ _ _ _ _ _ _ _ _ _ _ _ _ _ HE' (ham_tame _ _ _ _ _ _ _ _ _ _ _ _ _ _) RUN' I') as (_ & _ & _ & _ & M' & EM' & Sq' & P' & DEC').
  destruct (C06_layout nu_min nu_max v_min v_max L L Hn Hv ltac:(lia)) as (X & _ & EX & _).
  destruct (radial_space Gam HG Msqrt Minv CG nu_min nu_max v_min v_max L L Hn Hv ltac:(lia) (c11' - c11) (c20' - c20) (c21' - c21) (c22' - c22) (c23' - c23) an lb s lam X
    Hs EX) as (D & ED & D1 & D2 & EV).
  pose proof (C92_Hamiltonian c11 c20 c21 c22 c23 c30 c31 c32 c33 c40 c41 c42 c43 c50 (c11' - c11) (c20' - c20) (c21' - c21) (c22' - c22) (c23' - c23) 0 0 0 0 0 0 0 0 0) as U.
  rewrite !Rplus_0_r in U.
  replace (c11 + (c11' - c11))%R with c11' in U by ring. replace (c20 + (c20' - c20))%R with c20' in U by ring. replace (c21 + (c21' - c21))%R with c21' in U by ring.
  replace (c22 + (c22' - c22))%R with c22' in U by ring. replace (c23 + (c23' - c23))%R with c23' in U by ring.
  destruct (C92_matrices Gam Msqrt Minv CG s an lb nu_min nu_max v_min v_max L L Hn Hv ltac:(lia) _ _ _ _ _ U EM ED) as (M2 & n & EM2 & N1 & N2 & N3 & N4 & N5 & N6 & SUM).
  assert (Ok M2 = Ok M') as Q by (rewrite <- EM2; exact EM'). injection Q as ->. clear EM2.
  assert (NN : forall y, (0 <= mean D y)%R).
  { refine (space_nowhere Gam Msqrt Minv CG nu_min nu_max v_min v_max L L Hn Hv ltac:(lia) (fun v => radial_entry Gam (c11' - c11) (c20' - c20) (c21' - c21) (c22' - c22) (c23' - c23) an (lam v) v nu_min nu_max) X D EX D1 EV _).
    intros v Hvv. destruct (Hs v Hvv) as (_ & _ & _ & Hl). apply radial_nowhere; try assumption; try lra; try lia. }
  assert (MM : forall k, 0 <= k < nrows (symmetric_part M) -> (nth (Z.to_nat k) vals 0 <= nth (Z.to_nat k) vals' 0)%R).
  { apply (monotone _ _ P _ _ P' DEC DEC'); [cbn; congruence|]. intros x. rewrite !mean_symmetric by assumption. specialize (NN x).
    replace (mean M' x) with (mean M x + mean D x)%R; [lra|]. unfold mean. rewrite N1, N3, N5. rewrite <- total_plus. apply total_ext. intros i Hi.
    rewrite <- total_plus. apply total_ext. intros j Hj. rewrite SUM by assumption. ring. }
  destruct DEC as (Z1 & _). destruct DEC' as (Z2 & _). cbn [symmetric_part nrows] in Z1, Z2, MM. unfold zlen in Z1, Z2.
  apply Forall2_nth; [lia|]. intros k Hk. specialize (MM (Z.of_nat k) ltac:(lia)). rewrite Nat2Z.id in MM. exact MM.
Qed.

(** Between two choices of the fourteen coefficients, the lowest level is at least
    the value interpolated from the two. *)
Theorem C92_concave : forall Gam Msqrt Minv CG flt eigh eigh' eigh'' inv inv' inv'' junk junk' junk'' t
    c11 c20 c21 c22 c23 c30 c31 c32 c33 c40 c41 c42 c43 c50 d11 d20 d21 d22 d23 d30 d31 d32 d33 d40 d41 d42 d43 d50
    an lb nu_min nu_max v_min v_max s fit_eig fit_rat L_min L_max ev tr Lv s1 o ev' tr' Lv' s1' o' ev'' tr'' Lv'' s1'' o'' L low low' low'' rest rest' rest'',
  eigh_sound eigh -> eigh_sound eigh' -> eigh_sound eigh'' -> (0 < t < 1)%R -> positive_bases s lb v_min v_max ->
  let matrices := code_matrices (RadProd (Rep_elem Gam Msqrt Minv)) CG in
  let mix c d := CNum ((1 - t) * c + t * d) in
  ACM_ScaleOrAdapt flt matrices eigh inv junk (ACM_Hamiltonian (CNum c11) (CNum c20) (CNum c21) (CNum c22) (CNum c23) (CNum c30) (CNum c31) (CNum c32) (CNum c33)
       (CNum c40) (CNum c41) (CNum c42) (CNum c43) (CNum c50)) an lb nu_min nu_max v_min v_max fit_eig fit_rat L_min L_max s = (Ok (ev, tr, Lv), s1, o) ->
  ACM_ScaleOrAdapt flt matrices eigh' inv' junk' (ACM_Hamiltonian (CNum d11) (CNum d20) (CNum d21) (CNum d22) (CNum d23) (CNum d30) (CNum d31) (CNum d32) (CNum d33)
       (CNum d40) (CNum d41) (CNum d42) (CNum d43) (CNum d50)) an lb nu_min nu_max v_min v_max fit_eig fit_rat L_min L_max s = (Ok (ev', tr', Lv'), s1', o') ->
  ACM_ScaleOrAdapt flt matrices eigh'' inv'' junk'' (ACM_Hamiltonian (mix c11 d11) (mix c20 d20) (mix c21 d21) (mix c22 d22) (mix c23 d23) (mix c30 d30) (mix c31 d31)
       (mix c32 d32) (mix c33 d33) (mix c40 d40) (mix c41 d41) (mix c42 d42) (mix c43 d43) (mix c50 d50)) an lb nu_min nu_max v_min v_max fit_eig fit_rat L_min L_max s
    = (Ok (ev'', tr'', Lv''), s1'', o'') ->
  In (L, low :: rest) (combine Lv ev) -> In (L, low' :: rest') (combine Lv' ev') -> In (L, low'' :: rest'') (combine Lv'' ev'') ->
  ((1 - t) * low + t * low' <= low'')%R.
Proof.
  intros Gam Msqrt Minv CG flt eigh eigh' eigh'' inv inv' inv'' junk junk' junk'' t
    c11 c20 c21 c22 c23 c30 c31 c32 c33 c40 c41 c42 c43 c50 d11 d20 d21 d22 d23 d30 d31 d32 d33 d40 d41 d42 d43 d50
    an lb nu_min nu_max v_min v_max s fe fr L_min L_max ev tr Lv s1 o ev' tr' Lv' s1' o' ev'' tr'' Lv'' s1'' o'' L low low' low'' rest rest' rest''
    HE HE' HE'' Ht HB matrices mix RUN RUN' RUN'' I I' I''.
  destruct (one_block _ _ _ _ _ _ _ _ _ _ _ _ _ _ _ _ _ _ _ _ _ _ _ _ _ HE (ham_tame _ _ _ _ _ _ _ _ _ _ _ _ _ _) RUN I) as (Hn & Hv & HL & _ & M & EM & Sq & P & DEC).
  destruct (one_block _ _ _ _ _ _ _ _ _ _ _ _ _ _ _ _ _ _ _ _ _ _ _ _ _ HE' (ham_tame _ _ _ _ _ _ _ _ _ _ _ _ _ _) RUN' I') as (_ & _ & _ & _ & M' & EM' & Sq' & P' & DEC').
  destruct (one_block _ _ _ _ _ _ _ _ _ _ _ _ _ _ _ _ _ _ _ _ _ _ _ _ _ HE'' (ham_tame _ _ _ _ _ _ _ _ _ _ _ _ _ _) RUN'' I'') as (_ & _ & _ & _ & M'' & EM'' & Sq'' & P'' & DEC'').
  pose proof (C89_Hamiltonian (1 - t) 0 c11 c20 c21 c22 c23 c30 c31 c32 c33 c40 c41 c42 c43 c50 ltac:(lra)) as U1.
  pose proof (C89_Hamiltonian t 0 d11 d20 d21 d22 d23 d30 d31 d32 d33 d40 d41 d42 d43 d50 ltac:(lra)) as U2. rewrite !Rplus_0_r in U1, U2.
  destruct (C89_matrices Gam Msqrt Minv CG s an lb nu_min nu_max v_min v_max L L Hn Hv ltac:(lia) HB _ _ _ _ _ U1 EM) as (D1 & ED1 & _ & _ & (A1 & A2 & A3)).
  destruct (C89_matrices Gam Msqrt Minv CG s an lb nu_min nu_max v_min v_max L L Hn Hv ltac:(lia) HB _ _ _ _ _ U2 EM') as (D2 & ED2 & _ & _ & (B1 & B2 & B3)).
  pose proof (C92_Hamiltonian ((1 - t) * c11) ((1 - t) * c20) ((1 - t) * c21) ((1 - t) * c22) ((1 - t) * c23) ((1 - t) * c30) ((1 - t) * c31) ((1 - t) * c32) ((1 - t) * c33)
    ((1 - t) * c40) ((1 - t) * c41) ((1 - t) * c42) ((1 - t) * c43) ((1 - t) * c50) (t * d11) (t * d20) (t * d21) (t * d22) (t * d23) (t * d30) (t * d31) (t * d32) (t * d33)
    (t * d40) (t * d41) (t * d42) (t * d43) (t * d50)) as U.
  destruct (C92_matrices Gam Msqrt Minv CG s an lb nu_min nu_max v_min v_max L L Hn Hv ltac:(lia) _ _ _ _ _ U ED1 ED2) as (M2 & n & EM2 & N1 & N2 & N3 & N4 & N5 & N6 & SUM).
  assert (Ok M2 = Ok M'') as Q by (rewrite <- EM2; exact EM''). injection Q as ->. clear EM2.
  assert (K : forall x, mean M'' x = ((1 - t) * mean M x + t * mean M' x)%R).
  { intros x. unfold mean. rewrite N5, <- A1, <- B1, N1, N3. rewrite <- !total_scal, <- total_plus. apply total_ext. intros i Hi.
    rewrite <- !total_scal, <- total_plus. apply total_ext. intros j Hj. rewrite SUM, A3, B3 by lia. destruct (i =? j); ring. }
  assert (P0 : 0 < nrows (symmetric_part M'')) by (destruct DEC'' as (Z & _); unfold zlen in Z; cbn [length] in Z; lia).
  destruct (mean_lowest _ _ _ DEC'' P0) as (E1 & E2). cbn [nth] in E1. rewrite mean_symmetric, K in E1 by exact Sq''.
  set (x := fun i => ent P'' i 0) in *.
  pose proof (mean_ge _ _ _ x DEC) as G. pose proof (mean_ge _ _ _ x DEC') as G'. rewrite mean_symmetric in G, G' by assumption. cbn [nth symmetric_part nrows] in G, G', E2.
  rewrite N5 in E2. rewrite <- A1, N1 in G. rewrite <- B1, N3 in G'.
  change (total (fun i => x i * x i)%R n = 1%R) in E2. rewrite E2 in G, G'. nra.
Qed.

(** The same for the sum of the k lowest levels of an angular momentum. *)
Theorem C92_concave_sums : forall Gam Msqrt Minv CG flt eigh eigh' eigh'' inv inv' inv'' junk junk' junk'' t
    c11 c20 c21 c22 c23 c30 c31 c32 c33 c40 c41 c42 c43 c50 d11 d20 d21 d22 d23 d30 d31 d32 d33 d40 d41 d42 d43 d50
    an lb nu_min nu_max v_min v_max s fit_eig fit_rat L_min L_max ev tr Lv s1 o ev' tr' Lv' s1' o' ev'' tr'' Lv'' s1'' o'' L vals vals' vals'' k,
  eigh_sound eigh -> eigh_sound eigh' -> eigh_sound eigh'' -> (0 < t < 1)%R -> positive_bases s lb v_min v_max ->
  let matrices := code_matrices (RadProd (Rep_elem Gam Msqrt Minv)) CG in
  let mix c d := CNum ((1 - t) * c + t * d) in
  let sum_of_lowest (l : list R) := fold_right Rplus 0%R (firstn k l) in
  ACM_ScaleOrAdapt flt matrices eigh inv junk (ACM_Hamiltonian (CNum c11) (CNum c20) (CNum c21) (CNum c22) (CNum c23) (CNum c30) (CNum c31) (CNum c32) (CNum c33)
       (CNum c40) (CNum c41) (CNum c42) (CNum c43) (CNum c50)) an lb nu_min nu_max v_min v_max fit_eig fit_rat L_min L_max s = (Ok (ev, tr, Lv), s1, o) ->
  ACM_ScaleOrAdapt flt matrices eigh' inv' junk' (ACM_Hamiltonian (CNum d11) (CNum d20) (CNum d21) (CNum d22) (CNum d23) (CNum d30) (CNum d31) (CNum d32) (CNum d33)
       (CNum d40) (CNum d41) (CNum d42) (CNum d43) (CNum d50)) an lb nu_min nu_max v_min v_max fit_eig fit_rat L_min L_max s = (Ok (ev', tr', Lv'), s1', o') ->
  ACM_ScaleOrAdapt flt matrices eigh'' inv'' junk'' (ACM_Hamiltonian (mix c11 d11) (mix c20 d20) (mix c21 d21) (mix c22 d22) (mix c23 d23) (mix c30 d30) (mix c31 d31)
       (mix c32 d32) (mix c33 d33) (mix c40 d40) (mix c41 d41) (mix c42 d42) (mix c43 d43) (mix c50 d50)) an lb nu_min nu_max v_min v_max fit_eig fit_rat L_min L_max s
    = (Ok (ev'', tr'', Lv''), s1'', o'') ->
  In (L, vals) (combine Lv ev) -> In (L, vals') (combine Lv' ev') -> In (L, vals'') (combine Lv'' ev'') ->
  ((1 - t) * sum_of_lowest vals + t * sum_of_lowest vals' <= sum_of_lowest vals'')%R /\
  ((length vals'' <= k)%nat -> ((1 - t) * sum_of_lowest vals + t * sum_of_lowest vals')%R = sum_of_lowest vals'').
Proof.
  intros Gam Msqrt Minv CG flt eigh eigh' eigh'' inv inv' inv'' junk junk' junk'' t
    c11 c20 c21 c22 c23 c30 c31 c32 c33 c40 c41 c42 c43 c50 d11 d20 d21 d22 d23 d30 d31 d32 d33 d40 d41 d42 d43 d50
    an lb nu_min nu_max v_min v_max s fe fr L_min L_max ev tr Lv s1 o ev' tr' Lv' s1' o' ev'' tr'' Lv'' s1'' o'' L vals vals' vals'' k
    HE HE' HE'' Ht HB matrices mix sum_of_lowest RUN RUN' RUN'' I I' I''.
  destruct (one_block _ _ _ _ _ _ _ _ _ _ _ _ _ _ _ _ _ _ _ _ _ _ _ _ _ HE (ham_tame _ _ _ _ _ _ _ _ _ _ _ _ _ _) RUN I) as (Hn & Hv & HL & _ & M & EM & Sq & P & DEC).
  destruct (one_block _ _ _ _ _ _ _ _ _ _ _ _ _ _ _ _ _ _ _ _ _ _ _ _ _ HE' (ham_tame _ _ _ _ _ _ _ _ _ _ _ _ _ _) RUN' I') as (_ & _ & _ & _ & M' & EM' & Sq' & P' & DEC').
  destruct (one_block _ _ _ _ _ _ _ _ _ _ _ _ _ _ _ _ _ _ _ _ _ _ _ _ _ HE'' (ham_tame _ _ _ _ _ _ _ _ _ _ _ _ _ _) RUN'' I'') as (_ & _ & _ & _ & M'' & EM'' & Sq'' & P'' & DEC'').
  pose proof (C89_Hamiltonian (1 - t) 0 c11 c20 c21 c22 c23 c30 c31 c32 c33 c40 c41 c42 c43 c50 ltac:(lra)) as U1.
  pose proof (C89_Hamiltonian t 0 d11 d20 d21 d22 d23 d30 d31 d32 d33 d40 d41 d42 d43 d50 ltac:(lra)) as U2. rewrite !Rplus_0_r in U1, U2.
  destruct (C89_matrices Gam Msqrt Minv CG s an lb nu_min nu_max v_min v_max L L Hn Hv ltac:(lia) HB _ _ _ _ _ U1 EM) as (D1 & ED1 & _ & _ & (A1 & A2 & A3)).
  destruct (C89_matrices Gam Msqrt Minv CG s an lb nu_min nu_max v_min v_max L L Hn Hv ltac:(lia) HB _ _ _ _ _ U2 EM') as (D2 & ED2 & _ & _ & (B1 & B2 & B3)).
  pose proof (C92_Hamiltonian ((1 - t) * c11) ((1 - t) * c20) ((1 - t) * c21) ((1 - t) * c22) ((1 - t) * c23) ((1 - t) * c30) ((1 - t) * c31) ((1 - t) * c32) ((1 - t) * c33)
    ((1 - t) * c40) ((1 - t) * c41) ((1 - t) * c42) ((1 - t) * c43) ((1 - t) * c50) (t * d11) (t * d20) (t * d21) (t * d22) (t * d23) (t * d30) (t * d31) (t * d32) (t * d33)
    (t * d40) (t * d41) (t * d42) (t * d43) (t * d50)) as U.
  destruct (C92_matrices Gam Msqrt Minv CG s an lb nu_min nu_max v_min v_max L L Hn Hv ltac:(lia) _ _ _ _ _ U ED1 ED2) as (M2 & n & EM2 & N1 & N2 & N3 & N4 & N5 & N6 & SUM).
  assert (Ok M2 = Ok M'') as Q by (rewrite <- EM2; exact EM''). injection Q as ->. clear EM2.
  assert (K : forall x, mean M'' x = ((1 - t) * mean M x + t * mean M' x)%R).
  { intros x. unfold mean. rewrite N5, <- A1, <- B1, N1, N3. rewrite <- !total_scal, <- total_plus. apply total_ext. intros i Hi.
    rewrite <- !total_scal, <- total_plus. apply total_ext. intros j Hj. rewrite SUM, A3, B3 by lia. destruct (i =? j); ring. }
  assert (Z0 : nrows M = n) by congruence. assert (Z1 : nrows M' = n) by congruence.
  assert (LV : zlen vals = n) by (destruct DEC as (Z & _); cbn in Z; congruence). assert (LV' : zlen vals' = n) by (destruct DEC' as (Z & _); cbn in Z; congruence).
  assert (LV'' : zlen vals'' = n) by (destruct DEC'' as (Z & _); cbn in Z; congruence). unfold zlen in LV, LV', LV''.
  assert (G : forall m, (m <= Z.to_nat n)%nat ->
    ((1 - t) * rsum (fun j => nth (Z.to_nat j) vals 0) m + t * rsum (fun j => nth (Z.to_nat j) vals' 0) m <= rsum (fun j => nth (Z.to_nat j) vals'' 0) m)%R /\
    (m = Z.to_nat n -> ((1 - t) * rsum (fun j => nth (Z.to_nat j) vals 0) m + t * rsum (fun j => nth (Z.to_nat j) vals' 0) m)%R = rsum (fun j => nth (Z.to_nat j) vals'' 0%R) m)).
  { intros m Hm.
    destruct (ky_fan _ _ _ _ _ _ m DEC DEC'' ltac:(cbn; congruence) ltac:(cbn; now rewrite Z0)) as (F1 & F2). destruct (ky_fan _ _ _ _ _ _ m DEC' DEC'' ltac:(cbn; congruence) ltac:(cbn; now rewrite Z1)) as (F1' & F2').
    cbn [symmetric_part nrows] in F2, F2'. rewrite Z0 in F2. rewrite Z1 in F2'.
    assert (E : rsum (fun j => nth (Z.to_nat j) vals'' 0%R) m = ((1 - t) * rsum (fun a => mean (symmetric_part M) (fun i => ent P'' i a)) m + t * rsum (fun a => mean (symmetric_part M') (fun i => ent P'' i a)) m)%R).
    { rewrite <- !rsum_scal, <- rsum_plus. apply rsum_ext. intros a Ha. rewrite <- (mean_level _ _ _ a DEC'') by (cbn; lia). rewrite !mean_symmetric by assumption. apply K. }
    rewrite E. split; [nra|]. intros W. rewrite (F2 W), (F2' W). reflexivity. }
  unfold sum_of_lowest. destruct (Nat.le_gt_cases k (Z.to_nat n)) as [Lk | Lk].
  - rewrite <- !rsum_list. destruct (G k Lk) as (G1 & G2). split; [exact G1|]. intros W. apply G2. lia.
  - rewrite !(firstn_all2 (n := k)) by lia. destruct (G (Z.to_nat n) ltac:(lia)) as (_ & G2). specialize (G2 eq_refl). rewrite !rsum_list, !firstn_all2 in G2 by lia.
    split; [lra|]. intros _. exact G2.
Qed.

(** With c11 <= 0, the other radial coefficients not negative and no other terms, no
    level is below the constant c20. *)
Theorem C92_floor : forall Gam Msqrt Minv CG flt eigh inv junk c11 c20 c21 c22 c23
    an lb nu_min nu_max v_min v_max s lam fit_eig fit_rat L_min L_max ev tr Lv s1 o L vals E,
  gamma_like Gam -> eigh_sound eigh -> an <> 0%R -> bases s lb v_min v_max lam -> (c11 <= 0)%R -> (0 <= c21)%R -> (0 <= c22)%R -> (0 <= c23)%R ->
  ACM_ScaleOrAdapt flt (code_matrices (RadProd (Rep_elem Gam Msqrt Minv)) CG) eigh inv junk
    (ACM_Hamiltonian (CNum c11) (CNum c20) (CNum c21) (CNum c22) (CNum c23) (CNum 0) (CNum 0) (CNum 0) (CNum 0) (CNum 0) (CNum 0) (CNum 0) (CNum 0) (CNum 0))
    an lb nu_min nu_max v_min v_max fit_eig fit_rat L_min L_max s = (Ok (ev, tr, Lv), s1, o) ->
  In (L, vals) (combine Lv ev) -> In E vals -> (c20 <= E)%R.
Proof.
  intros Gam Msqrt Minv CG flt eigh inv junk c11 c20 c21 c22 c23 an lb nu_min nu_max v_min v_max s lam fe fr L_min L_max ev tr Lv s1 o L vals E
    HG HE Ha Hs H1 H3 H4 H5 RUN I IE.
  destruct (one_block _ _ _ _ _ _ _ _ _ _ _ _ _ _ _ _ _ _ _ _ _ _ _ _ _ HE (ham_tame _ _ _ _ _ _ _ _ _ _ _ _ _ _) RUN I) as (Hn & Hv & HL & _ & M & EM & Sq & P & DEC).
  assert (HB : positive_bases s lb v_min v_max). { intros v Hvv. destruct (Hs v Hvv) as (k & E1 & E2 & E3). exists k. split; [exact E1|]. rewrite <- E2. lra. }
  destruct (C06_layout nu_min nu_max v_min v_max L L Hn Hv ltac:(lia)) as (X & _ & EX & _).
  destruct (radial_space Gam HG Msqrt Minv CG nu_min nu_max v_min v_max L L Hn Hv ltac:(lia) c11 0 c21 c22 c23 an lb s lam X Hs EX) as (D & ED & D1 & D2 & EV).
  pose proof (C89_Hamiltonian 1 (- c20) c11 c20 c21 c22 c23 0 0 0 0 0 0 0 0 0 ltac:(lra)) as U. rewrite !Rmult_1_l, Rplus_opp_r in U.
  destruct (C89_matrices Gam Msqrt Minv CG s an lb nu_min nu_max v_min v_max L L Hn Hv ltac:(lia) HB _ _ _ _ _ U EM) as (D0 & ED0 & _ & _ & (A1 & A2 & A3)).
  assert (Ok D0 = Ok D) as Q by (rewrite <- ED0; exact ED). injection Q as ->. clear ED0.
  assert (NN : forall y, (0 <= mean D y)%R).
  { refine (space_nowhere Gam Msqrt Minv CG nu_min nu_max v_min v_max L L Hn Hv ltac:(lia) (fun v => radial_entry Gam c11 0 c21 c22 c23 an (lam v) v nu_min nu_max) X D EX D1 EV _).
    intros v Hvv. destruct (Hs v Hvv) as (_ & _ & _ & Hl). apply radial_nowhere; try assumption; try lra; try lia. }
  apply (In_nth _ _ 0%R) in IE. destruct IE as (k & Hk & <-).
  assert (LV : zlen vals = nrows M) by (destruct DEC as (Z & _); exact Z). unfold zlen in LV.
  pose proof (mean_level _ _ _ (Z.of_nat k) DEC ltac:(cbn; lia)) as ML. rewrite Nat2Z.id, mean_symmetric in ML by exact Sq. rewrite <- ML.
  set (x := fun i => ent P i (Z.of_nat k)). specialize (NN x).
  assert (O : total (fun i => x i * x i)%R (nrows M) = 1%R).
  { destruct DEC as (_ & _ & _ & _ & _ & HO). destruct (HO (Z.of_nat k) (Z.of_nat k) ltac:(cbn; lia) ltac:(cbn; lia)) as (O & _). rewrite Z.eqb_refl in O. exact O. }
  assert (MD : mean D x = (mean M x + - c20 * total (fun i => x i * x i) (nrows M))%R).
  { unfold mean. rewrite A1, <- total_scal, <- total_plus. apply total_ext. intros i Hi.
    rewrite <- (total_delta (fun j => - c20 * (x i * x j))%R (nrows M) i Hi), <- total_plus. apply total_ext. intros j Hj. rewrite A3 by lia. rewrite (Z.eqb_sym i j). destruct (j =? i); ring. }
  rewrite O in MD. lra.
Qed.

(** ** Cases *)

(** The oscillator with all energies multiplied by [k]: levels 5k/2 and 9k/2. *)
Lemma oscillator_run Msqrt Minv CG flt inv junk k : (0 < k)%R ->
  let s := w_eig_num 0 imported in
  ACM_ScaleOrAdapt flt (code_matrices (RadProd (Rep_elem gamma0 Msqrt Minv)) CG) eigh0 inv junk
    (ACM_Hamiltonian (CNum (- k / 2)) (CNum 0) (CNum (k / 2)) (CNum 0) (CNum 0) (CNum 0) (CNum 0) (CNum 0) (CNum 0) (CNum 0) (CNum 0) (CNum 0) (CNum 0) (CNum 0))
    1 (5 / 2) 0 1 0 0 0 0 0 None s = (Ok ([[k * (5 / 2); k * (9 / 2)]]%R, None, [0]), s, []).
Proof.
  intros Hk s.
  assert (E : ACM_Hamiltonian (CNum (- k / 2)) (CNum 0) (CNum (k / 2)) (CNum 0) (CNum 0) (CNum 0) (CNum 0) (CNum 0) (CNum 0) (CNum 0) (CNum 0) (CNum 0) (CNum 0) (CNum 0) = RWC_Ham (/ k) (k * k) 0 0 0).
  { unfold RWC_Ham. f_equal; f_equal; field; lra. }
  rewrite E. clear E.
  assert (Hb : bases s (5 / 2) 0 0 (fun _ => (5 / 2)%R)).
  { intros v Hv. replace v with 0 by lia. exists 0. split; [vm_compute; reflexivity|]. split; lra. }
  assert (Hi : (0 < / k)%R) by (now apply Rinv_0_lt_compat).
  apply (diagonal_run Msqrt Minv CG flt inv junk (/ k) (k * k) 0 1 (5 / 2) 1 s (fun _ => (5 / 2)%R) [k * (5 / 2); k * (9 / 2)]%R); try reflexivity; try lra; try lia; try exact Hb.
  - repeat (apply SSorted_cons || apply SSorted_nil || apply Forall_cons || apply Forall_nil); lra.
  - assert (K1 : (-1 / (2 * / k) = - k / 2)%R) by (field; lra). assert (K2 : (/ k * (k * k) / 2 = k / 2)%R) by (field; lra).
    intros f i Hf Hi'. unfold quartic_entry, v_D2b. rewrite !powerRZ_R1, K1, K2.
    assert (f = 0 \/ f = 1) as [-> | ->] by lia; assert (i = 0 \/ i = 1) as [-> | ->] by lia.
    1,4: rewrite bm2_diagonal by (lra || lia || apply gamma_like_gamma0).
    all: unfold v_b2; cbn [Z.eqb Z.sub Z.add Z.opp Z.pos_sub Pos.eqb].
    1: change (nth (Z.to_nat 0) [k * (5 / 2); k * (9 / 2)]%R 0%R) with (k * (5 / 2))%R.
    all: try lra. change (nth (Z.to_nat 1) [k * (5 / 2); k * (9 / 2)]%R 0%R) with (k * (9 / 2))%R. lra.
Qed.

(** Two runs that meet the hypotheses of [C92_potential] (and each of them those of
    [C92_floor]): c11 falls from -1/2 to -1 and c21 rises from 1/2 to 1. *)
Example C92_potential_case : forall Msqrt Minv CG flt inv junk, exists s lam,
  let run c11 c21 := ACM_ScaleOrAdapt flt (code_matrices (RadProd (Rep_elem gamma0 Msqrt Minv)) CG) eigh0 inv junk
    (ACM_Hamiltonian (CNum c11) (CNum 0) (CNum c21) (CNum 0) (CNum 0) (CNum 0) (CNum 0) (CNum 0) (CNum 0) (CNum 0) (CNum 0) (CNum 0) (CNum 0) (CNum 0))
    1 (5 / 2) 0 1 0 0 0 0 0 None s in
  gamma_like gamma0 /\ eigh_sound eigh0 /\ bases s (5 / 2) 0 0 lam /\
  run (- 1 / 2)%R (1 / 2)%R = (Ok ([[5 / 2; 9 / 2]]%R, None, [0]), s, []) /\ run (- 1)%R 1%R = (Ok ([[5; 9]]%R, None, [0]), s, []).
Proof.
  intros. exists (w_eig_num 0 imported), (fun _ => (5 / 2)%R). cbv zeta. split; [apply gamma_like_gamma0|]. split; [exact eigh0_sound|]. split.
  - intros v Hv. replace v with 0 by lia. exists 0. split; [vm_compute; reflexivity|]. split; lra.
  - pose proof (oscillator_run Msqrt Minv CG flt inv junk 1 ltac:(lra)) as R1. pose proof (oscillator_run Msqrt Minv CG flt inv junk 2 ltac:(lra)) as R2. cbv zeta in R1, R2.
    replace (1 * (5 / 2))%R with (5 / 2)%R in R1 by lra. replace (1 * (9 / 2))%R with (9 / 2)%R in R1 by lra.
    replace (2 * (5 / 2))%R with 5%R in R2 by lra. replace (2 * (9 / 2))%R with 9%R in R2 by lra. replace (- (2) / 2)%R with (- (1))%R in R2 by lra. replace (2 / 2)%R with 1%R in R2 by lra.
    split; [exact R1|exact R2].
Qed.

(** Three runs that meet the hypotheses of [C92_concave] and [C92_concave_sums]: the
    third is halfway between the other two. *)
Example C92_concave_case : forall Msqrt Minv CG flt inv junk, exists s,
  let run c11 c21 z := ACM_ScaleOrAdapt flt (code_matrices (RadProd (Rep_elem gamma0 Msqrt Minv)) CG) eigh0 inv junk
    (ACM_Hamiltonian (CNum c11) z (CNum c21) z z z z z z z z z z z) 1 (5 / 2) 0 1 0 0 0 0 0 None s in
  let mix c d := ((1 - / 2) * c + / 2 * d)%R in
  eigh_sound eigh0 /\ positive_bases s (5 / 2) 0 0 /\
  run (- 1 / 2)%R (1 / 2)%R (CNum 0) = (Ok ([[5 / 2; 9 / 2]]%R, None, [0]), s, []) /\ run (- 1)%R 1%R (CNum 0) = (Ok ([[5; 9]]%R, None, [0]), s, []) /\
  run (mix (- 1 / 2) (- 1))%R (mix (1 / 2) 1)%R (CNum (mix 0 0)%R) = (Ok ([[15 / 4; 27 / 4]]%R, None, [0]), s, []).
Proof.
  intros. exists (w_eig_num 0 imported). cbv zeta. destruct (C92_potential_case Msqrt Minv CG flt inv junk) as (s & lam & _ & S & _). split; [exact S|]. clear s lam S. split.
  - intros v Hv. replace v with 0 by lia. exists 0. split; [vm_compute; reflexivity|]. lra.
  - pose proof (oscillator_run Msqrt Minv CG flt inv junk 1 ltac:(lra)) as R1. pose proof (oscillator_run Msqrt Minv CG flt inv junk 2 ltac:(lra)) as R2.
    pose proof (oscillator_run Msqrt Minv CG flt inv junk (3 / 2) ltac:(lra)) as R3. cbv zeta in R1, R2, R3.
    replace (1 * (5 / 2))%R with (5 / 2)%R in R1 by lra. replace (1 * (9 / 2))%R with (9 / 2)%R in R1 by lra.
    replace (2 * (5 / 2))%R with 5%R in R2 by lra. replace (2 * (9 / 2))%R with 9%R in R2 by lra. replace (- (2) / 2)%R with (- (1))%R in R2 by lra. replace (2 / 2)%R with 1%R in R2 by lra.
    replace (3 / 2 * (5 / 2))%R with (15 / 4)%R in R3 by lra. replace (3 / 2 * (9 / 2))%R with (27 / 4)%R in R3 by lra.
    split; [exact R1|]. split; [exact R2|].
    replace ((1 - / 2) * (-1 / 2) + / 2 * -1)%R with (- (3 / 2) / 2)%R by lra. replace ((1 - / 2) * (1 / 2) + / 2 * 1)%R with (3 / 2 / 2)%R by lra.
    replace ((1 - / 2) * 0 + / 2 * 0)%R with 0%R by lra. exact R3.
Qed.

Print Assumptions C92_Hamiltonian.
Print Assumptions C92_matrices.
Print Assumptions C92_potential.
Print Assumptions C92_concave.
Print Assumptions C92_concave_sums.
Print Assumptions C92_floor.
