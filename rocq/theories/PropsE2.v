(** C98: without gamma-dependent terms, the quadrupole operator connects levels of
    adjacent seniorities only. *)

From Coq Require Import String Reals Lra Sorted Permutation.
From Coq Require Import Lia ZifyBool ZifyNat.
From Verif Require Import PyBase PyFacts Text Compat SphericalSpec Spherical SphericalFacts Matrix RadialMESpec RadialMEFacts IdFacts PropsCGSO3
  FullLabels FullLabelsFacts PropsFullLabels
  Operators FullOps PropsHarmonics FullOpsFacts FullOpsBlocks FullOpsProd PropsHistory FullSpace FullSpaceFacts PropsFullSpace Settings PropsSettings Display DisplayFacts PropsDisplay PropsDriver
  PropsOscillator RadialOps Spectrum PropsCode RadialME RadialWords RadialSums PropsRadialME PropsFullOps Ritz PropsRitz PropsCommutator PropsAmplitude Solver PropsSolver PropsHamWaves PropsUnits PropsStiffer PropsTransition PropsSeniority.
Open Scope Z_scope.
Ltac Zify.zify_post_hook ::= Z.div_mod_to_equations.

Section Space.
  Variable CG : Z -> Z -> Z -> Z -> Z -> Z -> Z -> Z -> Z -> res R.
  Variables nu_min nu_max v_min v_max L : Z.
  Hypothesis Hnu : 0 <= nu_min <= nu_max.
  Hypothesis Hv : 0 <= v_min <= v_max.
  Hypothesis HL : 0 <= L.

  (** If eigenvector [k] has a component in a state of seniority [v], its level is one of
      that seniority. *)
  Lemma component_level (W : Z -> Z -> Z -> R) X D vals P p k n v0 al0 M0 : lbsXspace nu_min nu_max v_min v_max L (Some L) = Ok X -> nrows D = zlen X ->
    (forall p q nf sf ni v al M, 0 <= p -> 0 <= q -> nth_error X (Z.to_nat p) = Some (nf, sf) -> nth_error X (Z.to_nat q) = Some (ni, (v, al, M)) ->
      ent D p q = if state_eqb sf (v, al, M) then W v nf ni else 0%R) ->
    eigen_decomposition (symmetric_part D) vals P ->
    0 <= p < zlen X -> 0 <= k < zlen X -> ent P p k <> 0%R -> nth_error X (Z.to_nat p) = Some (n, (v0, al0, M0)) ->
    v_min <= v0 <= v_max /\ 0 < mult v0 L /\ radial_level (W v0) nu_min nu_max (nth (Z.to_nat k) vals 0%R).
  Proof.
    intros EX S1 EV DEC Hp Hk Np Ep. set (E := nth (Z.to_nat k) vals 0%R).
    destruct (C06_layout nu_min nu_max v_min v_max L L Hnu Hv ltac:(lia)) as (X' & sph & EX' & Es & Hlen & HN). rewrite EX in EX'. injection EX' as <-.
    rewrite lbs_rngVvarL_some in Es by lia. injection Es as <-.
    assert (Hd : dimRadial nu_min nu_max = nu_max - nu_min + 1) by (unfold dimRadial; now replace (nu_min <=? nu_max) with true by lia).
    set (rd := Z.to_nat (nu_max - nu_min + 1)) in *. set (sph := lbs v_min v_max L L) in *. rewrite Hd in *.
    assert (NX : Z.to_nat (zlen X) = (length sph * rd)%nat) by (rewrite Hlen, Z2Nat.inj_mul by (unfold zlen; lia); unfold zlen; rewrite Nat2Z.id; fold rd; apply Nat.mul_comm).
    assert (RD : Z.of_nat rd = nu_max - nu_min + 1) by (unfold rd; lia).
    assert (EB0 : forall j x j' x', 0 <= j < Z.of_nat (length sph) -> 0 <= j' < Z.of_nat (length sph) -> 0 <= x < Z.of_nat rd -> 0 <= x' < Z.of_nat rd ->
      exists v al M, nth_error sph (Z.to_nat j') = Some (v, al, M) /\
        ent D (j * Z.of_nat rd + x) (j' * Z.of_nat rd + x') = if j =? j' then W v (nu_min + x) (nu_min + x') else 0%R).
    { intros j x j' x' Hj Hj' Hx Hx'.
      destruct (nth_error sph (Z.to_nat j)) as [sf|] eqn:Ej; [|apply nth_error_None in Ej; lia].
      destruct (nth_error sph (Z.to_nat j')) as [[[v al] M]|] eqn:Ej'; [|apply nth_error_None in Ej'; lia].
      exists v, al, M. split; [reflexivity|].
      pose proof (HN _ (Z.to_nat x) _ Ej ltac:(lia)) as Q. pose proof (HN _ (Z.to_nat x') _ Ej' ltac:(lia)) as Q'. fold rd in Q, Q'.
      rewrite (EV (j * Z.of_nat rd + x)%Z (j' * Z.of_nat rd + x') (nu_min + Z.of_nat (Z.to_nat x)) sf (nu_min + Z.of_nat (Z.to_nat x')) v al M);
        [|nia|nia|etransitivity; [|exact Q]; f_equal; nia|etransitivity; [|exact Q']; f_equal; nia].
      rewrite !Z2Nat.id by lia. destruct (state_eqb sf (v, al, M)) eqn:SE.
      - apply (state_eqb_eq CG) in SE. subst sf. pose proof (lbs_positions v_min v_max L L j' j _ ltac:(lia) ltac:(lia) Ej' Ej). now replace (j =? j') with true by lia.
      - destruct (j =? j') eqn:B; [|reflexivity]. exfalso. assert (j = j') by lia. subst j'. rewrite Ej in Ej'. injection Ej' as ->. rewrite (proj2 (state_eqb_eq CG _ _) eq_refl) in SE. discriminate. }
    set (Ws := fun v x x' => ((W v (nu_min + x)%Z (nu_min + x')%Z + W v (nu_min + x')%Z (nu_min + x)%Z) / 2)%R).
    set (A := symmetric_part D) in *. assert (NA : nrows A = zlen X) by exact S1.
    assert (EB : forall j x j' x' v al M, 0 <= j < Z.of_nat (length sph) -> 0 <= j' < Z.of_nat (length sph) -> 0 <= x < Z.of_nat rd -> 0 <= x' < Z.of_nat rd ->
      nth_error sph (Z.to_nat j) = Some (v, al, M) -> ent A (j * Z.of_nat rd + x) (j' * Z.of_nat rd + x') = if j =? j' then Ws v x x' else 0%R).
    { intros j x j' x' v al M Hj Hj' Hx Hx' Ej. cbn [A symmetric_part ent].
      destruct (EB0 j x j' x' Hj Hj' Hx Hx') as (v1 & al1 & M1 & E1 & ->). destruct (EB0 j' x' j x Hj' Hj Hx' Hx) as (v2 & al2 & M2 & E2 & ->).
      rewrite Ej in E2. injection E2 as <- <- <-. rewrite (Z.eqb_sym j' j). destruct (j =? j') eqn:B; [|lra]. replace j' with j in E1 by lia. rewrite Ej in E1. injection E1 as <- <- <-.
      unfold Ws. lra. }
    assert (ROW : forall (x : Z -> R) j f v al M, 0 <= j < Z.of_nat (length sph) -> 0 <= f < Z.of_nat rd -> nth_error sph (Z.to_nat j) = Some (v, al, M) ->
      total (fun k => ent A (j * Z.of_nat rd + f) k * x k)%R (nrows A) = total (fun i => Ws v f i * x (j * Z.of_nat rd + i)%Z)%R (nu_max - nu_min + 1)).
    { intros x j f v al M Hj Hf Ej. unfold total. rewrite NA, NX, rsum_blocks, (rsum_single _ _ j Hj).
      - apply rsum_ext. intros i Hi. rewrite (EB j f j i v al M) by assumption. now rewrite Z.eqb_refl.
      - intros j' Hj' Nj. apply rsum_zero. intros i Hi. rewrite (EB j f j' i v al M) by assumption. replace (j =? j') with false by lia. ring. }
    assert (ZX : zlen X = Z.of_nat (length sph) * Z.of_nat rd) by (unfold zlen in *; nia).
    assert (SYM : forall i j, 0 <= i < nrows A -> 0 <= j < nrows A -> ent A i j = ent A j i) by (intros a b _ _; cbn; lra).
    (* a vector is its restrictions to the blocks *)
    assert (RESTR : forall x j v al M, 0 <= j < Z.of_nat (length sph) -> nth_error sph (Z.to_nat j) = Some (v, al, M) ->
      (forall i, 0 <= i < nrows A -> total (fun k => ent A i k * x k)%R (nrows A) = (E * x i)%R) -> solution (W v) nu_min nu_max E (fun f => x (j * Z.of_nat rd + f)%Z)).
    { intros x j v al M Hj Ej HX f Hf. cbv beta. rewrite <- (HX (j * Z.of_nat rd + f)) by (rewrite NA; nia). symmetry. apply (ROW x j f v al M Hj ltac:(lia) Ej). }
    assert (HX : forall i, 0 <= i < nrows A -> total (fun q => ent A i q * ent P q k)%R (nrows A) = (E * ent P i k)%R).
    { intros i Hi. destruct DEC as (_ & _ & _ & _ & HE & _). rewrite HE by lia. reflexivity. }
    assert (P1 : p = (p / Z.of_nat rd) * Z.of_nat rd + p mod Z.of_nat rd) by (rewrite Z.mul_comm; apply Z.div_mod; lia).
    pose proof (Z.mod_pos_bound p (Z.of_nat rd) ltac:(lia)) as P2. set (j := p / Z.of_nat rd) in *. set (f0 := p mod Z.of_nat rd) in *.
    assert (Hj : 0 <= j < Z.of_nat (length sph)) by (clear - P1 P2 Hp ZX; nia).
    destruct (nth_error sph (Z.to_nat j)) as [[[v al] M]|] eqn:Ej; [|apply nth_error_None in Ej; lia].
    pose proof (nth_error_In _ _ Ej) as Iv. unfold sph in Iv. apply lbs_In in Iv. destruct Iv as (I1 & I2 & I3). assert (M = L) by lia. subst M.
    assert (V0 : v0 = v).
    { pose proof (HN _ (Z.to_nat f0) _ Ej ltac:(lia)) as Q. fold rd in Q. replace (Z.to_nat j * rd + Z.to_nat f0)%nat with (Z.to_nat p) in Q by (rewrite P1; nia).
      pose proof (eq_trans (eq_sym Q) Ep) as Q'. injection Q' as _ Q1 _ _. congruence. }
    subst v0. split; [exact I1|]. split; [lia|]. exists (fun i => ent P (j * Z.of_nat rd + i)%Z k). split; [|exact (RESTR (fun q => ent P q k) j v al L Hj Ej HX)].
    exists f0. split; [lia|]. cbv beta. rewrite <- P1. exact Np.
  Qed.
End Space.

Lemma total_nonzero f n : total f n <> 0%R -> exists i, 0 <= i < n /\ f i <> 0%R.
Proof.
  intros N. destruct (zero_or_not f (Z.to_nat n)) as [Z|(p & Hp & Np)]; [|exists p; split; [lia|exact Np]].
  exfalso. apply N. rewrite (total_ext _ (fun _ => 0%R)) by (intros i Hi; apply Z; lia). apply total_0.
Qed.

Section Runs.
  Variables (Gam : R -> R) (Msqrt Minv : mat R -> res (mat R)) (CG : Z -> Z -> Z -> Z -> Z -> Z -> Z -> Z -> Z -> res R).
  Variables (c11 c20 c21 c22 c23 an lb : R) (nu_min nu_max : Z) (s : settings).
  Notation ham := (radial_ham c11 c20 c21 c22 c23).
  Notation levels := (computed_levels Gam Msqrt Minv CG c11 c20 c21 c22 c23 an lb nu_min nu_max s).

  (** [E] is a level of seniority [v]: every run with the same settings, basis and Hamiltonian on
      seniorities that include [v] returns it, for every angular momentum that [v] has. *)
  Definition level_of (lam : Z -> R) (v : Z) (E : R) : Prop :=
    forall w_min w_max L vals, bases s lb w_min w_max lam -> w_min <= v <= w_max -> 0 < mult v L -> levels w_min w_max L vals -> In E vals.

  (** If the amplitude of the quadrupole operator between two states is not zero, their
      levels belong to seniorities that differ by one. *)
  Theorem C98_selection : forall lam flt eigh inv junk fit_eig fit_rat L_min L_max v_min v_max ev M Lv s1 o,
    gamma_like Gam -> bases s lb v_min v_max lam -> routine_shapes eigh inv -> eigh_sound eigh -> inv_sound inv -> g_rat_TRop s = quad_op ->
    ACM_ScaleOrAdapt flt (code_matrices (RadProd (Rep_elem Gam Msqrt Minv)) CG) eigh inv junk ham an lb nu_min nu_max v_min v_max fit_eig fit_rat L_min L_max s
      = (Ok (ev, Some M, Lv), s1, o) ->
    exists start dim, array_blocks M start dim /\
      forall L1 L2, In L1 Lv -> In L2 Lv -> exists vals1 vals2, In (L1, vals1) (combine Lv ev) /\ In (L2, vals2) (combine Lv ev) /\
        forall n1 n2, 1 <= n1 <= dim L1 -> 1 <= n2 <= dim L2 -> element M start L1 n1 L2 n2 <> 0%R ->
        exists v1 v2, v_min <= v1 <= v_max /\ v_min <= v2 <= v_max /\ Z.abs (v1 - v2) = 1 /\ 0 < mult v1 L1 /\ 0 < mult v2 L2 /\
          level_of lam v1 (nth (Z.to_nat (n1 - 1)) vals1 0%R) /\ level_of lam v2 (nth (Z.to_nat (n2 - 1)) vals2 0%R).
  Proof.
    intros lam flt eigh inv junk fe fr L_min L_max v_min v_max ev M Lv s1 o HG Hs RS HE HI HQ RUN.
    destruct (C67_amplitudes _ _ _ _ _ _ _ _ _ _ _ _ _ _ _ _ _ _ _ _ _ _ _ RS HE HI (ham_tame _ _ _ _ _ _ _ _ _ _ _ _ _ _) RUN)
      as (lo & hi & X & T & start & dim & vec & EH & EX & ET & EL & HA & HB & HM).
    exists start, dim. split; [exact HA|]. intros L1 L2 I1 I2.
    destruct (HB L1 I1) as (X1 & H1 & v1 & EX1 & DX1 & LB1 & EH1 & S1 & IC1 & D1). destruct (HB L2 I2) as (X2 & H2 & v2 & EX2 & DX2 & LB2 & EH2 & S2 & IC2 & D2).
    exists v1, v2. split; [exact IC1|]. split; [exact IC2|]. intros n1 n2 Hn1 Hn2 N. rewrite HM in N by assumption.
    pose proof (proj1 (proj2 D1)) as N1. pose proof (proj1 (proj2 D2)) as N2. cbn [symmetric_part nrows] in N1, N2. rewrite S1 in N1. rewrite S2 in N2.
    unfold bracket in N. rewrite N1, N2 in N. apply total_nonzero in N. destruct N as (a & Ha & N). apply total_nonzero in N. destruct N as (b & Hb & N).
    assert (NP2 : ent (vec L2) a (n2 - 1) <> 0%R) by (intros Z; apply N; rewrite Z; ring).
    assert (NP1 : ent (vec L1) b (n1 - 1) <> 0%R) by (intros Z; apply N; rewrite Z; ring).
    assert (NT : ent T (start L2 + a) (start L1 + b) <> 0%R) by (intros Z; apply N; rewrite Z; ring). clear N.
    assert (RG : 0 <= lo <= hi /\ 0 <= nu_min <= nu_max /\ 0 <= v_min <= v_max).
    { pose proof EX as EX'. unfold lbsXspace in EX'. destruct (range_cases nu_min nu_max) as [(A1 & W) | (_ & W)]; rewrite W in EX'; [|discriminate]. cbn [bind] in EX'.
      destruct (range_cases v_min v_max) as [(A2 & W2) | (_ & W2)]; rewrite W2 in EX'; [|discriminate]. cbn [bind] in EX'.
      destruct (range_cases lo hi) as [(A3 & W3) | (_ & W3)]; rewrite W3 in EX'; [|discriminate]. auto. }
    destruct RG as (RL & Rn & Rv).
    assert (LN : forall L XL, lbsXspace nu_min nu_max v_min v_max L None = Ok XL -> 0 <= L).
    { intros L XL EXL. unfold lbsXspace in EXL. rewrite !require_range_ok in EXL by assumption. cbn [bind] in EXL. destruct (range_cases L L) as [(A3 & _) | (_ & W3)]; [lia|]. rewrite W3 in EXL. discriminate. }
    pose proof (LN _ _ EX1) as HL1. pose proof (LN _ _ EX2) as HL2.
    destruct (nth_error X1 (Z.to_nat b)) as [[ni [[vi ai] Li]]|] eqn:Eb; [|apply nth_error_None in Eb; unfold zlen in *; lia].
    destruct (nth_error X2 (Z.to_nat a)) as [[nf [[vf af] Lf]]|] eqn:Ea; [|apply nth_error_None in Ea; unfold zlen in *; lia].
    rewrite HQ in ET.
    destruct (C79_factorises (RadProd (Rep_elem Gam Msqrt Minv)) CG (g_lam_fun s) an lb nu_min nu_max v_min v_max lo hi Rn Rv RL Convert_112 [Radial_b] SpHarm_112 1 1 2 X T) as (_ & _ & VT);
      [repeat constructor|reflexivity|exact EX|exact ET|].
    assert (ST : forall L, In L Lv -> 0 <= start L) by (intros L I; destruct (HA L) as (_ & P1 & _); [rewrite EL; exact I|lia]).
    pose proof (ST _ I1) as ST1. pose proof (ST _ I2) as ST2.
    destruct (VT (start L2 + a) (start L1 + b) nf vf af Lf ni vi ai Li) as (g & m & li & lf & _ & EM & _ & _ & V0 & _);
      [lia|lia|rewrite LB2 by lia; exact Ea|rewrite LB1 by lia; exact Eb|].
    assert (NM : m <> 0%R) by (intros Z; apply NT, V0; rewrite Z; ring).
    assert (LEV : forall L XL H vals p k n v al M0, 0 <= L -> lbsXspace nu_min nu_max v_min v_max L None = Ok XL ->
      code_matrices (RadProd (Rep_elem Gam Msqrt Minv)) CG s ham an lb nu_min nu_max v_min v_max L None = Ok H ->
      eigen_decomposition (symmetric_part H) vals (vec L) -> 0 <= p < zlen XL -> 0 <= k < zlen XL -> ent (vec L) p k <> 0%R -> nth_error XL (Z.to_nat p) = Some (n, (v, al, M0)) ->
      v_min <= v <= v_max /\ 0 < mult v L /\ level_of lam v (nth (Z.to_nat k) vals 0%R)).
    { intros L XL H vals p k n v al M0 HL EXL EHL DEC Hp Hk Np Ep.
      change (lbsXspace nu_min nu_max v_min v_max L (Some L) = Ok XL) in EXL.
      destruct (radial_space Gam HG Msqrt Minv CG nu_min nu_max v_min v_max L L Rn Rv ltac:(lia) c11 c20 c21 c22 c23 an lb s lam XL Hs EXL) as (D & ED & E1 & E2 & EV).
      assert (Ok H = Ok D) as Q by (rewrite <- EHL; exact ED). injection Q as ->.
      destruct (component_level CG nu_min nu_max v_min v_max L Rn Rv HL (fun v => radial_entry Gam c11 c20 c21 c22 c23 an (lam v) v nu_min nu_max) XL D vals (vec L) p k n v al M0 EXL E1 EV DEC Hp Hk Np Ep) as (B1 & B2 & B3).
      split; [exact B1|]. split; [exact B2|]. intros w_min w_max L' vals' Hb' Hw Hm HL'.
      apply (proj1 (levels_by_seniority Gam Msqrt Minv CG c11 c20 c21 c22 c23 an lb nu_min nu_max s lam w_min w_max L' vals' HG Hb' HL' _)). exists v. auto. }
    destruct (LEV _ _ _ _ b (n1 - 1) ni vi ai Li HL1 EX1 EH1 D1 ltac:(lia) ltac:(lia) NP1 Eb) as (B1 & B2 & B3).
    destruct (LEV _ _ _ _ a (n2 - 1) nf vf af Lf HL2 EX2 EH2 D2 ltac:(lia) ltac:(lia) NP2 Ea) as (C1 & C2 & C3).
    exists vi, vf. split; [exact B1|]. split; [exact C1|]. split; [|auto].
    destruct (unit_me (fun _ _ _ _ _ _ _ _ _ => Ok 0%R) (fun _ => Ok 0) 1 0 0 ltac:(eauto) ltac:(intros; exists 0; split; [reflexivity|lra]) vf vi m ltac:(lia) ltac:(lia) EM) as (_ & U). specialize (U NM). lia.
  Qed.

  (** With the levels of each seniority from a run on that seniority alone: between levels
      of which no adjacent seniorities have one each, the amplitude is zero. *)
  Theorem C98_forbidden : forall lam flt eigh inv junk fit_eig fit_rat L_min L_max v_min v_max ev M Lv s1 o (one : Z -> list R),
    gamma_like Gam -> bases s lb v_min v_max lam -> routine_shapes eigh inv -> eigh_sound eigh -> inv_sound inv -> g_rat_TRop s = quad_op ->
    ACM_ScaleOrAdapt flt (code_matrices (RadProd (Rep_elem Gam Msqrt Minv)) CG) eigh inv junk ham an lb nu_min nu_max v_min v_max fit_eig fit_rat L_min L_max s
      = (Ok (ev, Some M, Lv), s1, o) ->
    (forall v, v_min <= v <= v_max -> exists L, 0 < mult v L /\ levels v v L (one v)) ->
    exists start dim, array_blocks M start dim /\
      forall L1 L2, In L1 Lv -> In L2 Lv -> exists vals1 vals2, In (L1, vals1) (combine Lv ev) /\ In (L2, vals2) (combine Lv ev) /\
        forall n1 n2, 1 <= n1 <= dim L1 -> 1 <= n2 <= dim L2 ->
        (forall v1 v2, v_min <= v1 <= v_max -> v_min <= v2 <= v_max -> In (nth (Z.to_nat (n1 - 1)) vals1 0%R) (one v1) -> In (nth (Z.to_nat (n2 - 1)) vals2 0%R) (one v2) -> Z.abs (v1 - v2) <> 1) ->
        element M start L1 n1 L2 n2 = 0%R.
  Proof.
    intros lam flt eigh inv junk fe fr L_min L_max v_min v_max ev M Lv s1 o one HG Hs RS HE HI HQ RUN HO.
    destruct (C98_selection lam flt eigh inv junk fe fr L_min L_max v_min v_max ev M Lv s1 o HG Hs RS HE HI HQ RUN) as (start & dim & HA & H).
    exists start, dim. split; [exact HA|]. intros L1 L2 I1 I2. destruct (H L1 L2 I1 I2) as (w1 & w2 & C1 & C2 & HS).
    exists w1, w2. split; [exact C1|]. split; [exact C2|]. intros n1 n2 Hn1 Hn2 NO.
    destruct (Req_EM_T (element M start L1 n1 L2 n2) 0) as [Z|N]; [exact Z|]. exfalso.
    destruct (HS n1 n2 Hn1 Hn2 N) as (v1 & v2 & B1 & B2 & AD & _ & _ & P1 & P2).
    assert (OB : forall v, v_min <= v <= v_max -> bases s lb v v lam) by (intros v B u Hu; apply Hs; lia).
    apply (NO v1 v2 B1 B2); [| |exact AD].
    - destruct (HO v1 B1) as (L & HL & CL). exact (P1 v1 v1 L _ (OB v1 B1) ltac:(lia) HL CL).
    - destruct (HO v2 B2) as (L & HL & CL). exact (P2 v2 v2 L _ (OB v2 B2) ltac:(lia) HL CL).
  Qed.

  (** In particular a state has no quadrupole moment, unless its level belongs to two
      adjacent seniorities. *)
  Theorem C98_moment : forall lam flt eigh inv junk fit_eig fit_rat L_min L_max v_min v_max ev M Lv s1 o (one : Z -> list R),
    gamma_like Gam -> bases s lb v_min v_max lam -> routine_shapes eigh inv -> eigh_sound eigh -> inv_sound inv -> g_rat_TRop s = quad_op ->
    ACM_ScaleOrAdapt flt (code_matrices (RadProd (Rep_elem Gam Msqrt Minv)) CG) eigh inv junk ham an lb nu_min nu_max v_min v_max fit_eig fit_rat L_min L_max s
      = (Ok (ev, Some M, Lv), s1, o) ->
    (forall v, v_min <= v <= v_max -> exists L, 0 < mult v L /\ levels v v L (one v)) ->
    exists start dim, array_blocks M start dim /\
      forall L, In L Lv -> exists vals, In (L, vals) (combine Lv ev) /\
        forall n, 1 <= n <= dim L ->
        (forall v, v_min <= v < v_max -> ~ (In (nth (Z.to_nat (n - 1)) vals 0%R) (one v) /\ In (nth (Z.to_nat (n - 1)) vals 0%R) (one (v + 1)))) ->
        element M start L n L n = 0%R.
  Proof.
    intros lam flt eigh inv junk fe fr L_min L_max v_min v_max ev M Lv s1 o one HG Hs RS HE HI HQ RUN HO.
    destruct (C98_forbidden lam flt eigh inv junk fe fr L_min L_max v_min v_max ev M Lv s1 o one HG Hs RS HE HI HQ RUN HO) as (start & dim & HA & H).
    exists start, dim. split; [exact HA|]. intros L I.
    assert (ND : NoDup Lv) by (pose proof RUN as RUN'; apply run_parts in RUN'; destruct RUN' as (ebs & m & fs & ED & _); unfold dig in ED; apply C38_Lvals in ED; destruct ED as (SS & _);
      eapply StronglySorted_NoDup; [|exact SS]; intros; lia).
    destruct (H L L I I) as (w1 & w2 & C1 & C2 & HF). pose proof (combine_fun _ _ _ _ _ ND C1 C2) as <-.
    exists w1. split; [exact C1|]. intros n Hn NO. apply (HF n n Hn Hn). intros v1 v2 B1 B2 J1 J2 AD.
    assert (v2 = v1 + 1 \/ v1 = v2 + 1) as [-> | ->] by lia; [apply (NO v1)|apply (NO v2)]; auto; lia.
  Qed.
End Runs.

(** ** A case *)

(** -beta^2 with one radial state, seniorities 0 and 1, angular momenta 0 and 2, and
    coupling coefficients 1: the run returns an array in which the amplitude from the
    ground state to the other is not zero. *)
Example C98_case : forall Msqrt Minv flt junk, exists M s1 o start dim,
  let CG := fun _ _ _ _ _ _ _ _ _ : Z => Ok 1%R in let s := w_eig_num 0 (w_rat_lst [[9; 9; 1; 1]] imported) in
  gamma_like gamma0 /\ bases s (5 / 2) 0 1 (fun v => (5 / 2 + IZR (v mod 2))%R) /\ routine_shapes eigh0 inv0 /\ eigh_sound eigh0 /\ inv_sound inv0 /\ g_rat_TRop s = quad_op /\
  ACM_ScaleOrAdapt flt (code_matrices (RadProd (Rep_elem gamma0 Msqrt Minv)) CG) eigh0 inv0 junk (radial_ham 0 0 (-1) 0 0) 1 (5 / 2) 0 0 0 1 0 0 0 (Some 2) s
    = (Ok ([[- (5 / 2)]; [- (7 / 2)]]%R, Some M, [0; 2]), s1, o) /\
  array_blocks M start dim /\ dim 0 = 1 /\ dim 2 = 1 /\ element M start 0 1 2 1 <> 0%R.
Proof.
  intros Msqrt Minv flt junk. set (CG := fun _ _ _ _ _ _ _ _ _ : Z => Ok 1%R). set (s := w_eig_num 0 (w_rat_lst [[9; 9; 1; 1]] imported)).
  set (RP := RadProd (Rep_elem gamma0 Msqrt Minv)). set (RepX := code_matrices RP CG). set (H := radial_ham 0 0 (-1) 0 0). set (lam := fun v => (5 / 2 + IZR (v mod 2))%R).
  assert (Hb : bases s (5 / 2) 0 1 lam).
  { intros v Hvv. exists (v mod 2). assert (v = 0 \/ v = 1) as [-> | ->] by lia; (split; [vm_compute; reflexivity|]; split; [reflexivity|]); unfold lam; cbn; lra. }
  destruct inv0_sound as (IS & RS).
  assert (BL : forall L v d, (L = 0 /\ v = 0 /\ d = (- (5 / 2))%R) \/ (L = 2 /\ v = 1 /\ d = (- (7 / 2))%R) ->
    exists D, RepX s H 1%R (5 / 2)%R 0 0 0 1 L None = Ok D /\ Eigenfiddle eigh0 D = Ok ([d], eye 1)).
  { intros L v d C. assert (HL : 0 <= L) by lia.
    assert (EX : lbsXspace 0 0 0 1 L (Some L) = Ok [(0, (v, 1, L))]) by (destruct C as [(-> & -> & _)|(-> & -> & _)]; vm_compute; reflexivity).
    destruct (radial_space gamma0 gamma_like_gamma0 Msqrt Minv CG 0 0 0 1 L L ltac:(lia) ltac:(lia) ltac:(lia) 0 0 (-1) 0 0 1 (5 / 2) s lam _ Hb EX) as (D & ED & S1 & S2 & EV).
    change (zlen [(0, (v, 1, L))]) with 1 in S1, S2. exists D. split; [exact ED|].
    destruct (C47_symmetrised eigh0 D ltac:(lia)) as (A & EA & A1 & A2 & A3 & A4 & _). rewrite EA. rewrite <- S1, <- A1.
    apply eigh0_diagonal; [rewrite A1, S1; reflexivity| |repeat constructor].
    intros i j Hi Hj. rewrite A1, S1 in *. assert (i = 0) by lia. assert (j = 0) by lia. subst i j. rewrite A4.
    rewrite (EV 0 0 0 (v, 1, L) 0 v 1 L ltac:(lia) ltac:(lia) eq_refl eq_refl). rewrite (proj2 (state_eqb_eq CG _ _) eq_refl). cbn [Z.eqb Z.to_nat nth].
    unfold radial_entry. rewrite !powerRZ_R1. unfold v_b2, lam. cbn [Z.eqb Z.sub Z.add Z.opp Z.pos_sub Pos.eqb].
    destruct C as [(-> & -> & ->)|(-> & -> & ->)]; [change (0 mod 2) with 0|change (1 mod 2) with 1]; lra. }
  destruct (BL 0 0 _ ltac:(left; auto)) as (D0 & R0 & E0). destruct (BL 2 1 _ ltac:(right; auto)) as (D2 & R2 & E2).
  assert (DI : dig RepX eigh0 H 1 (5 / 2) 0 0 0 1 s 0 (Some 2) = Ok ([[- (5 / 2)]; [- (7 / 2)]]%R, [eye 1; eye 1], [0; 2])).
  { assert (TH : Op_Tame H = true) by apply ham_tame. unfold dig. rewrite TH.
    assert (G : forall (F : Z -> option Z -> res (mat R)) (Eg : mat R -> res (list R * mat R)), F 0 None = Ok D0 -> F 2 None = Ok D2 ->
      Eg D0 = Ok ([- (5 / 2)]%R, eye 1) -> Eg D2 = Ok ([- (7 / 2)]%R, eye 1) -> DigXspace F Eg true 0 0 0 1 0 (Some 2) = Ok ([[- (5 / 2)]; [- (7 / 2)]]%R, [eye 1; eye 1], [0; 2])).
    { intros F Eg F1 F2 F3 F4. unfold DigXspace. rewrite !require_range_ok by lia. cbn [bind]. change (py_range 0 (2 + 1)) with [0; 1; 2]. cbn [dig_tame].
      change (dimSO5r3_rngV 0 1 0) with (Ok 1). change (dimSO5r3_rngV 0 1 1) with (Ok 0). change (dimSO5r3_rngV 0 1 2) with (Ok 1). cbn [bind Z.ltb Z.compare].
      rewrite F1. cbn [bind]. rewrite F3. cbn [bind]. rewrite F2. cbn [bind]. rewrite F4. reflexivity. }
    apply G; assumption. }
  (* the quadrupole matrix *)
  assert (EX : lbsXspace 0 0 0 1 0 (Some 2) = Ok [(0, (0, 1, 0)); (0, (1, 1, 2))]) by (vm_compute; reflexivity).
  assert (LAM : forall v, 0 <= v <= 1 -> g_lam_fun s v = Ok v) by (intros v Hvv; assert (v = 0 \/ v = 1) as [-> | ->] by lia; vm_compute; reflexivity).
  assert (PL : Forall plain_symbol [Radial_b]) by (repeat (apply Forall_nil || apply Forall_cons); exact Logic.I).
  assert (UM : forall vf vi m, 0 <= vf -> 0 <= vi -> ME_SO5red vf 1 vi = Ok (Some m) -> (Convert_112 / (4 * PI) * m)%R = unit_q vf vi /\ (m <> 0%R -> vf = vi + 1 \/ vf = vi - 1)).
  { intros vf vi m A B. apply (unit_me CG (fun _ => Ok 0) 1 0 0); [unfold CG; eauto|intros; exists 0; split; [reflexivity|lra]|exact A|exact B]. }
  destruct (word_b_pl gamma0 Msqrt Minv 0 0 ltac:(lia) 1 (5 / 2 + 0) ltac:(lra)) as (Mp & EP & P1 & P2 & P3).
  destruct (word_b_ml gamma0 Msqrt Minv 0 0 ltac:(lia) 1 (5 / 2 + 1) ltac:(lra)) as (Mm & Em & M1 & M2 & _).
  assert (ET : exists T, fst (RepXspace RP CG [(CNum Convert_112, map ORad [Radial_b] ++ [OSph SpHarm_112])] 1 (5 / 2) 0 0 0 1 0 (Some 2) (mkX (g_lam_fun s) [])) = Ok T).
  { apply (C79_defined RP CG (g_lam_fun s) 1 (5 / 2) 0 0 0 1 0 2 ltac:(lia) ltac:(lia) ltac:(lia) Convert_112 [Radial_b] SpHarm_112 1 1 2 PL eq_refl).
    - intros v Bv. rewrite LAM by lia. eauto.
    - intros. unfold CG. eauto.
    - intros vf vi lf li m Bf Bi Ei Ef EM N. rewrite LAM in Ei, Ef by lia. injection Ei as <-. injection Ef as <-. destruct (UM vf vi m ltac:(lia) ltac:(lia) EM) as (_ & U). specialize (U N).
      assert ((vf = 1 /\ vi = 0) \/ (vf = 0 /\ vi = 1)) as [(-> & ->)|(-> & ->)] by lia; [exists Mp|exists Mm]; auto. }
  destruct ET as (T & ET).
  destruct (C79_factorises RP CG (g_lam_fun s) 1 (5 / 2) 0 0 0 1 0 2 ltac:(lia) ltac:(lia) ltac:(lia) Convert_112 [Radial_b] SpHarm_112 1 1 2 _ T PL eq_refl EX ET) as (T1 & T2 & VT).
  change (zlen [(0, (0, 1, 0)); (0, (1, 1, 2))]) with 2 in T1, T2.
  assert (T10 : ent T 1 0 <> 0%R).
  { destruct (VT 1 0 0 1 1 2 0 0 1 0 ltac:(lia) ltac:(lia) eq_refl eq_refl) as (g & m & li & lf & Eg & EM & Ei & Ef & _ & V). injection Eg as <-.
    rewrite LAM in Ei, Ef by lia. injection Ei as <-. injection Ef as <-. destruct (UM 1 0 m ltac:(lia) ltac:(lia) EM) as (U & _).
    assert (U0 : (0 < unit_q 1 0)%R) by (change (unit_q 1 0) with (sqrt (IZR 1 / IZR 5)); apply sqrt_lt_R0; lra).
    assert (Nm : m <> 0%R) by (intros Z0; rewrite Z0, Rmult_0_r in U; lra).
    destruct V as (M' & EM' & ->); [lra|]. assert (Ok M' = Ok Mp) as Q by (rewrite <- EM'; exact EP). injection Q as ->.
    rewrite P3 by lia. cbn [Z.add Z.sub Z.opp]. unfold v_b_pl. cbn [Z.eqb Z.sub Z.add Z.opp Z.pos_sub]. rewrite powerRZ_R1.
    assert (0 < sqrt (5 / 2 + 0 + 0))%R by (apply sqrt_lt_R0; lra).
    replace (Convert_112 / (4 * PI) * (1 * m) * (1 * sqrt (5 / 2 + 0 + 0)))%R with (unit_q 1 0 * sqrt (5 / 2 + 0 + 0))%R by (rewrite <- U; ring).
    apply Rgt_not_eq, Rmult_lt_0_compat; assumption. }
  change (RepX s (g_rat_TRop s) 1%R (5 / 2)%R 0 0 0 1 0 (Some 2) = Ok T) in ET.
  assert (EA : exists m fs, amp_stage RepX inv0 1 (5 / 2) 0 0 0 1 s [eye 1; eye 1] [0; 2] = Ok (m, fs)).
  { destruct (C39_AmpXspeig_complete (fun lo hi => RepX s (g_rat_TRop s) 1%R (5 / 2)%R 0 0 0 1 lo (Some hi)) inv0 [eye 1; eye 1] [eye 1; eye 1] 0 0 0 1 [0; 2] 0 2 T 2)
      as (m & fs & E & _); try reflexivity; try lia; eauto.
    - intros L HL (v & Hvv & Hm). assert (L = 0 \/ L = 1 \/ L = 2) as [-> | [-> | ->]] by lia; [now left| |right; now left]. exfalso. assert (v = 0 \/ v = 1) as [-> | ->] by lia; vm_compute in Hm; discriminate.
    - cbn [mapM]. unfold inv0. rewrite is_eye_eye. reflexivity. }
  destruct EA as (m & fs & EA).
  pose proof (C61_code_shapes RP CG eigh0 inv0 1 (5 / 2) 0 0 0 1 RS) as GS.
  destruct (amp_stage_blocks flt RepX eigh0 inv0 junk H 1 (5 / 2) 0 0 0 1 s 0 (Some 2) _ _ _ m fs GS DI EA) as (EL & _ & start & dim & HA & HD).
  assert (NR : 0 < nrows (known junk m)).
  { destruct (HA 0) as (_ & Q1 & Q2 & Q3 & _); [cbn [snd]; rewrite EL; cbn; auto|]. cbn [fst] in Q3. assert (I : In 0 [0; 2]) by (now left).
    specialize (HD 0 I). vm_compute in HD. injection HD as HD. lia. }
  set (M := (known junk m, fs)) in *.
  assert (PF : plain_formats s (g_rat_format s) (chars "  B(E2: ") (chars ") = ") []) by (apply imported_formats).
  assert (E4 : exists o, Show_Rats flt M (Some [[9; 9; 1; 1]]) (Some 4) s = (Ok tt, s, o)).
  { unfold Show_Rats, pbind, pget. cbn [default].
    destruct (C42_quartet flt M start dim 4 (g_rat_fun s) (g_rat_sft s) s (g_rat_format s) (chars "  B(E2: ") (chars ") = ") [] (g_rat_desg s) 9 9 1 1 HA NR PF) as (Q & _ & _).
    rewrite Q; [eexists; reflexivity|]. intros (_ & _ & I & _). cbn [snd M] in I. rewrite EL in I. cbn in I. lia. }
  destruct E4 as (o4 & E4).
  assert (E : exists o, ACM_ScaleOrAdapt flt RepX eigh0 inv0 junk H 1 (5 / 2) 0 0 0 1 0 0 0 (Some 2) s = (Ok ([[- (5 / 2)]; [- (7 / 2)]]%R, Some M, [0; 2]), s, o)).
  { rewrite run_stages. rewrite (checks_ok flt RepX eigh0 inv0 junk H 1 (5 / 2)); [|lia|lia|lia|lia|change (L_top 0 (Some 2)) with 2; lia|lia|lia].
    cbn [bind]. rewrite DI, pbind_ok. unfold pbind at 1, eig_stage. change (0 <? g_eig_num s) with false. cbv iota. unfold pret at 1.
    unfold pbind at 1, rat_stage. change ((0 <? zlen (g_rat_lst s)) || (0 <? zlen (g_amp_lst s))) with true. cbv iota. rewrite EA, pbind_ok. change (0 <? 0) with false. cbv iota.
    unfold pbind at 1, pret at 1. unfold pbind at 1. change (g_rat_lst s) with [[9; 9; 1; 1]]. change (g_rat_num s) with 4. fold M. rewrite E4.
    unfold pbind, Show_Amps, pget, pret. cbn [default]. change (g_amp_lst s) with (@nil (list Z)). eexists. reflexivity. }
  destruct E as (o & E).
  destruct (C67_amplitudes flt RP CG eigh0 inv0 junk H 1 (5 / 2) 0 0 0 1 0 0 0 (Some 2) s _ M _ s o RS eigh0_sound IS (ham_tame _ _ _ _ _ _ _ _ _ _ _ _ _ _) E)
    as (lo & hi & X & T' & st & dm & vec & EH & EX' & ET' & _ & HA' & HB & HM).
  injection EH as <- <-. pose proof (eq_trans (eq_sym ET) ET') as Q. injection Q as <-. pose proof (eq_trans (eq_sym EX) EX') as Q. injection Q as <-.
  assert (I0 : In 0 [0; 2]) by (now left). assert (I2 : In 2 [0; 2]) by (right; now left).
  exists M, s, o, st, dm. cbv zeta. split; [exact gamma_like_gamma0|]. split; [exact Hb|]. split; [exact RS|]. split; [exact eigh0_sound|]. split; [exact IS|]. split; [reflexivity|].
  split; [exact E|]. split; [exact HA'|].
  destruct (HB 0 I0) as (X0 & H0 & w0 & EX0 & DX0 & LB0 & _ & S0 & _ & DC0). destruct (HB 2 I2) as (X2 & H2 & w2 & EX2 & DX2 & LB2 & _ & S2 & _ & DC2).
  vm_compute in EX0, EX2. injection EX0 as <-. injection EX2 as <-.
  change (dm 0 = 1) in DX0. change (dm 2 = 1) in DX2. split; [exact DX0|]. split; [exact DX2|].
  rewrite HM by (assumption || lia).
  assert (B0 : 0 <= st 0) by (destruct (HA' 0) as (_ & Q & _); [cbn [snd M]; rewrite EL; exact I0|lia]).
  assert (B2 : 0 <= st 2) by (destruct (HA' 2) as (_ & Q & _); [cbn [snd M]; rewrite EL; exact I2|lia]).
  assert (A0 : st 0 = 0).
  { specialize (LB0 0 ltac:(lia)). rewrite Z.add_0_r in LB0. destruct (Z.to_nat (st 0)) as [|[|[|n]]] eqn:N; cbn in LB0; try discriminate LB0; lia. }
  assert (A2 : st 2 = 1).
  { specialize (LB2 0 ltac:(lia)). rewrite Z.add_0_r in LB2. destruct (Z.to_nat (st 2)) as [|[|[|n]]] eqn:N; cbn in LB2; try discriminate LB2; lia. }
  destruct DC0 as (_ & N0 & _ & _ & _ & O0). destruct DC2 as (_ & N2 & _ & _ & _ & O2). cbn [symmetric_part nrows] in N0, N2, O0, O2. rewrite S0 in N0, O0. rewrite S2 in N2, O2.
  destruct (O0 0 0 ltac:(lia) ltac:(lia)) as (Q0 & _). destruct (O2 0 0 ltac:(lia) ltac:(lia)) as (Q2 & _).
  unfold bracket. rewrite N0, N2, A0, A2, DX0, DX2 in *. unfold total in *. change (Z.to_nat 1) with 1%nat in *. cbn [rsum Z.of_nat Z.eqb Z.add Z.sub Z.opp Z.pos_sub] in *.
  assert (ent (vec 0) 0 0 <> 0%R) by (intros W; rewrite W in Q0; lra). assert (ent (vec 2) 0 0 <> 0%R) by (intros W; rewrite W in Q2; lra).
  intros W. ring_simplify in W. revert W. repeat apply Rmult_integral_contrapositive_currified; assumption.
Qed.

(** The runs on each of the two seniorities alone, which the other two theorems refer to:
    their levels differ. *)
Example C98_levels : forall Msqrt Minv v L d, (v = 0 /\ L = 0 /\ d = (- (5 / 2))%R) \/ (v = 1 /\ L = 2 /\ d = (- (7 / 2))%R) ->
  0 < mult v L /\ computed_levels gamma0 Msqrt Minv (fun _ _ _ _ _ _ _ _ _ : Z => Ok 1%R) 0 0 (-1) 0 0 1 (5 / 2) 0 0 (w_eig_num 0 (w_rat_lst [[9; 9; 1; 1]] imported)) v v L [d].
Proof.
  intros Msqrt Minv v L d C. split; [destruct C as [(-> & -> & _)|(-> & -> & _)]; reflexivity|].
  set (CG := fun _ _ _ _ _ _ _ _ _ : Z => Ok 1%R). set (s := w_eig_num 0 (w_rat_lst [[9; 9; 1; 1]] imported)).
  set (RP := RadProd (Rep_elem gamma0 Msqrt Minv)). set (RepX := code_matrices RP CG). set (H := radial_ham 0 0 (-1) 0 0). set (lam := fun v => (5 / 2 + IZR (v mod 2))%R).
  set (flt := fun (_ : text) (_ : R) => @nil Z). set (junk := fun _ _ : Z => 0%R).
  assert (Hb : bases s (5 / 2) v v lam).
  { intros u Hu. exists (u mod 2). assert (u = 0 \/ u = 1) as [-> | ->] by lia; (split; [vm_compute; reflexivity|]; split; [reflexivity|]); unfold lam; cbn; lra. }
  destruct inv0_sound as (IS & RS). assert (HL : 0 <= L) by lia. assert (Hv : 0 <= v <= v) by lia.
  assert (EX : lbsXspace 0 0 v v L (Some L) = Ok [(0, (v, 1, L))]) by (destruct C as [(-> & -> & _)|(-> & -> & _)]; vm_compute; reflexivity).
  assert (DM : dimSO5r3_rngV v v L = Ok 1) by (destruct C as [(-> & -> & _)|(-> & -> & _)]; vm_compute; reflexivity).
  assert (DX : dimXspace 0 0 v v L (Some L) = Ok 1) by (destruct C as [(-> & -> & _)|(-> & -> & _)]; vm_compute; reflexivity).
  destruct (radial_space gamma0 gamma_like_gamma0 Msqrt Minv CG 0 0 v v L L ltac:(lia) Hv ltac:(lia) 0 0 (-1) 0 0 1 (5 / 2) s lam _ Hb EX) as (D & ED & S1 & S2 & EV).
  change (zlen [(0, (v, 1, L))]) with 1 in S1, S2.
  assert (EE : Eigenfiddle eigh0 D = Ok ([d], eye 1)).
  { destruct (C47_symmetrised eigh0 D ltac:(lia)) as (A & EA & A1 & A2 & A3 & A4 & _). rewrite EA. rewrite <- S1, <- A1.
    apply eigh0_diagonal; [rewrite A1, S1; reflexivity| |repeat constructor].
    intros i j Hi Hj. rewrite A1, S1 in *. assert (i = 0) by lia. assert (j = 0) by lia. subst i j. rewrite A4.
    rewrite (EV 0 0 0 (v, 1, L) 0 v 1 L ltac:(lia) ltac:(lia) eq_refl eq_refl). rewrite (proj2 (state_eqb_eq CG _ _) eq_refl). cbn [Z.eqb Z.to_nat nth].
    unfold radial_entry. rewrite !powerRZ_R1. unfold v_b2, lam. cbn [Z.eqb Z.sub Z.add Z.opp Z.pos_sub Pos.eqb].
    destruct C as [(-> & -> & ->)|(-> & -> & ->)]; [change (0 mod 2) with 0|change (1 mod 2) with 1]; lra. }
  assert (DI : dig RepX eigh0 H 1 (5 / 2) 0 0 v v s L (Some L) = Ok ([[d]], [eye 1], [L])).
  { assert (TH : Op_Tame H = true) by apply ham_tame. unfold dig. rewrite TH.
    change (RepX s H 1%R (5 / 2)%R 0 0 v v L None = Ok D) in ED.
    assert (G : forall (F : Z -> option Z -> res (mat R)) (Eg : mat R -> res (list R * mat R)) P, F L None = Ok D -> Eg D = Ok ([d], P) ->
      DigXspace F Eg true 0 0 v v L (Some L) = Ok ([[d]], [P], [L])).
    { intros F Eg P F1 F2. unfold DigXspace. cbn [L_top]. rewrite !require_range_ok by lia. cbn [bind]. replace (py_range L (L + 1)) with [L].
      - cbn [dig_tame]. rewrite DM. cbn [bind Z.ltb Z.compare]. rewrite F1. cbn [bind]. rewrite F2. reflexivity.
      - unfold py_range. replace (Z.to_nat (L + 1 - L)) with 1%nat by lia. cbn [seq map]. f_equal. lia. }
    apply G; assumption. }
  assert (PL : Forall plain_symbol [Radial_b]) by (repeat (apply Forall_nil || apply Forall_cons); exact Logic.I).
  assert (ET : exists T, fst (RepXspace RP CG [(CNum Convert_112, map ORad [Radial_b] ++ [OSph SpHarm_112])] 1 (5 / 2) 0 0 v v L (Some L) (mkX (g_lam_fun s) [])) = Ok T).
  { apply (C79_defined RP CG (g_lam_fun s) 1 (5 / 2) 0 0 v v L L ltac:(lia) ltac:(lia) ltac:(lia) Convert_112 [Radial_b] SpHarm_112 1 1 2 PL eq_refl).
    - intros u Bu. destruct (Hb u Bu) as (k & E & _). eauto.
    - intros. unfold CG. eauto.
    - intros vf vi lf li m Bf Bi Ei Ef EM N. exfalso.
      destruct (unit_me CG (fun _ => Ok 0) 1 0 0 ltac:(unfold CG; eauto) ltac:(intros; exists 0; split; [reflexivity|lra]) vf vi m ltac:(lia) ltac:(lia) EM) as (_ & U). specialize (U N). lia. }
  destruct ET as (T & ET).
  destruct (C79_factorises RP CG (g_lam_fun s) 1 (5 / 2) 0 0 v v L L ltac:(lia) ltac:(lia) ltac:(lia) Convert_112 [Radial_b] SpHarm_112 1 1 2 _ T PL eq_refl EX ET) as (T1 & T2 & _).
  change (zlen [(0, (v, 1, L))]) with 1 in T1, T2. change (RepX s (g_rat_TRop s) 1%R (5 / 2)%R 0 0 v v L (Some L) = Ok T) in ET.
  assert (EA : exists m fs, amp_stage RepX inv0 1 (5 / 2) 0 0 v v s [eye 1] [L] = Ok (m, fs)).
  { destruct (C39_AmpXspeig_complete (fun lo hi => RepX s (g_rat_TRop s) 1%R (5 / 2)%R 0 0 v v lo (Some hi)) inv0 [eye 1] [eye 1] 0 0 v v [L] L L T 1)
      as (m & fs & E & _); try reflexivity; try lia; try assumption; eauto.
    - destruct C as [(_ & -> & _)|(_ & -> & _)]; reflexivity.
    - intros L' HL' _. left. lia.
    - cbn [mapM]. unfold inv0. rewrite is_eye_eye. reflexivity. }
  destruct EA as (m & fs & EA).
  pose proof (C61_code_shapes RP CG eigh0 inv0 1 (5 / 2) 0 0 v v RS) as GS.
  destruct (amp_stage_blocks flt RepX eigh0 inv0 junk H 1 (5 / 2) 0 0 v v s L (Some L) _ _ _ m fs GS DI EA) as (EL & _ & start & dim & HA & HD).
  assert (NR : 0 < nrows (known junk m)).
  { destruct (HA L) as (_ & Q1 & Q2 & Q3 & _); [cbn [snd]; rewrite EL; cbn; auto|]. cbn [fst] in Q3. assert (I : In L [L]) by (now left).
    specialize (HD L I). pose proof (eq_trans (eq_sym DX) HD) as Q. injection Q as Q. lia. }
  set (M := (known junk m, fs)) in *.
  assert (PF : plain_formats s (g_rat_format s) (chars "  B(E2: ") (chars ") = ") []) by (apply imported_formats).
  assert (E4 : exists o, Show_Rats flt M (Some [[9; 9; 1; 1]]) (Some 4) s = (Ok tt, s, o)).
  { unfold Show_Rats, pbind, pget. cbn [default].
    destruct (C42_quartet flt M start dim 4 (g_rat_fun s) (g_rat_sft s) s (g_rat_format s) (chars "  B(E2: ") (chars ") = ") [] (g_rat_desg s) 9 9 1 1 HA NR PF) as (Q & _ & _).
    rewrite Q; [eexists; reflexivity|]. intros (_ & _ & I & _). cbn [snd M] in I. rewrite EL in I. cbn in I. lia. }
  destruct E4 as (o4 & E4).
  assert (E : exists o, ACM_ScaleOrAdapt flt RepX eigh0 inv0 junk H 1 (5 / 2) 0 0 v v 0 0 L (Some L) s = (Ok ([[d]], Some M, [L]), s, o)).
  { rewrite run_stages. rewrite (checks_ok flt RepX eigh0 inv0 junk H 1 (5 / 2)); [|lia|lia|lia|lia|change (L_top L (Some L)) with L; lia|lia|lia].
    cbn [bind]. rewrite DI, pbind_ok. unfold pbind at 1, eig_stage. change (0 <? g_eig_num s) with false. cbv iota. unfold pret at 1.
    unfold pbind at 1, rat_stage. change ((0 <? zlen (g_rat_lst s)) || (0 <? zlen (g_amp_lst s))) with true. cbv iota. rewrite EA, pbind_ok. change (0 <? 0) with false. cbv iota.
    unfold pbind at 1, pret at 1. unfold pbind at 1. change (g_rat_lst s) with [[9; 9; 1; 1]]. change (g_rat_num s) with 4. fold M. rewrite E4.
    unfold pbind, Show_Amps, pget, pret. cbn [default]. change (g_amp_lst s) with (@nil (list Z)). eexists. reflexivity. }
  destruct E as (o & E).
  exists flt, eigh0, inv0, junk, 0, 0, L, (Some L), [[d]], (Some M), [L], s, o. split; [exact eigh0_sound|]. split; [exact E|now left].
Qed.

Print Assumptions C98_selection.
Print Assumptions C98_forbidden.
Print Assumptions C98_moment.
