(** The harmonic oscillator end to end: C65. *)

From Coq Require Import Reals Lra Permutation Sorted.
From Coq Require Import Lia ZifyBool ZifyNat.
From Verif Require Import PyBase PyFacts Compat SphericalSpec Spherical SphericalFacts PropsSpherical Matrix RadialME RadialMESpec
  RadialMEFacts FullLabels FullLabelsFacts PropsFullLabels RadialOps PropsRadialOps Operators FullOps PropsHarmonics FullOpsFacts FullOpsBlocks
  FullOpsMemo FullOpsProd RadialWords PropsFullOps PropsHistory RadialSums FullSpace FullSpaceFacts PropsFullSpace Settings PropsLambda
  HamData Display DisplayFacts PropsDriver Spectrum PropsRadialME.
Open Scope Z_scope.
Ltac Zify.zify_post_hook ::= Z.div_mod_to_equations.

(** The matrices of the code, from empty tables (C44), with the lambda function
    of the settings. *)
Definition code_matrices (RP : list rsym -> R -> R -> Z -> Z -> Z -> Z -> res (mat R))
  (CG : Z -> Z -> Z -> Z -> Z -> Z -> Z -> Z -> Z -> res R)
  (s : settings) (op : OperatorSum) (anorm lambda_base : R) (nu_min nu_max v_min v_max L : Z) (L_max : option Z) : res (mat R) :=
  fst (RepXspace RP CG op anorm lambda_base nu_min nu_max v_min v_max L L_max (mkX (g_lam_fun s) [])).

(** B > 0 is the mass, c1 > 0 the stiffness per mass; the natural length is
    1/anorm, and the radial basis of seniority v has lambda = v + 5/2. *)
Definition matched (B c1 anorm : R) : Prop := (0 < B /\ 0 < c1 /\ anorm <> 0 /\ anorm ^ 4 = B ^ 2 * c1)%R.
Definition oscillator_energy (c1 : R) (x : xlabel) : R :=
  let '(nu, (v, _, _)) := x in (sqrt c1 * (IZR (2 * nu + v) + 5 / 2))%R.

Lemma RWC_quadratic B c1 : B <> 0%R -> c1 <> 0%R ->
  RWC_Ham B c1 0 0 0 =
  [(CNum (-1 / (2 * B)), [ORad Radial_D2b]);
   (CSym (fun _ v _ _ => (-1 * (-1 / (2 * B)) * (2 + IZR v * (IZR v + 3)))%R), [ORad Radial_bm2]);
   (CNum (B * c1 / 2), [ORad Radial_b2])].
Proof.
  intros HB Hc. unfold RWC_Ham, ACM_Hamiltonian, opt_term, cscale, cmul, SEN.
  assert (Z1 : forall x, x <> 0%R -> is0 (CNum x) = false) by (intros x H; cbn; destruct (Req_EM_T x 0); [contradiction|reflexivity]).
  assert (Z2 : forall x, x = 0%R -> is0 (CNum x) = true) by (intros x H; cbn; destruct (Req_EM_T x 0); [reflexivity|contradiction]).
  assert (N1 : (-1 / (2 * B) <> 0)%R). { unfold Rdiv. apply Rmult_integral_contrapositive_currified; [lra|]. apply Rinv_neq_0_compat. lra. }
  assert (N2 : (B * c1 / 2 <> 0)%R). { unfold Rdiv. apply Rmult_integral_contrapositive_currified; [|lra]. now apply Rmult_integral_contrapositive_currified. }
  rewrite (Z1 _ N1), (Z1 (-1 * (-1 / (2 * B)))%R) by (apply Rmult_integral_contrapositive_currified; [lra|exact N1]).
  rewrite (Z1 _ N2). rewrite (Z2 0%R eq_refl), (Z2 (B * 0 / 2)%R) by lra. rewrite (Z2 (-0)%R) by lra.
  cbn [orb app is0 cval]. reflexivity.
Qed.

Section Oscillator.
  Variable Gam : R -> R.
  Hypothesis HG : gamma_like Gam.
  Variables Msqrt Minv : mat R -> res (mat R).
  Variable CG : Z -> Z -> Z -> Z -> Z -> Z -> Z -> Z -> Z -> res R.
  Let RP := RadProd (Rep_elem Gam Msqrt Minv).
  Variables nu_min nu_max v_min v_max L_min L_max : Z.
  Hypothesis Hnu : 0 <= nu_min <= nu_max.
  Hypothesis Hv : 0 <= v_min <= v_max.
  Hypothesis HL : 0 <= L_min <= L_max.

  (** The matrix for an arbitrary length scale. *)
  Lemma quadratic_matrix B c1 an s X : B <> 0%R -> c1 <> 0%R -> an <> 0%R ->
    (forall v, 0 <= v -> g_lam_fun s v = Ok v) ->
    lbsXspace nu_min nu_max v_min v_max L_min (Some L_max) = Ok X ->
    exists D, code_matrices RP CG s (RWC_Ham B c1 0 0 0) an (5 / 2) nu_min nu_max v_min v_max L_min (Some L_max) = Ok D /\
      nrows D = zlen X /\ ncols D = zlen X /\
      forall p q nf sf ni v al L, 0 <= p -> 0 <= q ->
        nth_error X (Z.to_nat p) = Some (nf, sf) -> nth_error X (Z.to_nat q) = Some (ni, (v, al, L)) ->
        ent D p q = if state_eqb sf (v, al, L) then
           (if nf =? ni then (an ^ 2 / (2 * B) + B * c1 / (2 * an ^ 2)) * (5 / 2 + IZR v + 2 * IZR ni)
            else if Z.abs (nf - ni) =? 1 then (B * c1 / (2 * an ^ 2) - an ^ 2 / (2 * B)) * pv (5 / 2 + IZR v) (Z.min nf ni)
            else 0)%R else 0%R.
  Proof.
    intros HB Hc Ha Hs EX. unfold code_matrices. rewrite RWC_quadratic by assumption.
    set (terms := [(CNum (-1 / (2 * B)), [Radial_D2b], fun l f i => (powerRZ an 2 * v_D2b Gam l f i)%R);
      (CSym (fun _ v _ _ => (-1 * (-1 / (2 * B)) * (2 + IZR v * (IZR v + 3)))%R), [Radial_bm2], fun l f i => (powerRZ an 2 * v_bm2 Gam l f i)%R);
      (CNum (B * c1 / 2), [Radial_b2], fun l f i => (powerRZ an (-2) * v_b2 l f i)%R)]).
    assert (W : forall w V, (forall l, (1 < l)%R -> radial_matrix (RP w an l 0 nu_min nu_max 0) nu_min nu_max (V l)) ->
       word_matrix RP (g_lam_fun s) an (5 / 2) nu_min nu_max v_min v_max w V).
    { intros w V H v Hvv. exists v. split; [apply Hs; lia|]. apply H. assert (0 <= IZR v)%R by (apply (IZR_le 0); lia). lra. }
    destruct (rep_radial RP CG (g_lam_fun s) an (5 / 2) nu_min nu_max v_min v_max L_min L_max Hnu Hv HL terms X) as (D & ED & S1 & S2 & EV).
    { intros c w V [E | [E | [E | []]]]; injection E as <- <- <-; (split; [apply W|repeat constructor]); intros l Hl.
      - now apply word_D2b.
      - now apply word_bm2.
      - apply word_b2; [assumption|lra]. }
    { exact EX. }
    exists D. split; [exact ED|]. split; [exact S1|]. split; [exact S2|].
    intros p q nf sf ni v al L Hp Hq Ep Eq. rewrite (EV p q nf sf ni v al L Hp Hq Ep Eq).
    destruct (state_eqb sf (v, al, L)); [|reflexivity].
    destruct (position _ _ _ _ _ _ X q _ Hnu Hv HL EX Hq Eq) as (_ & Lq & _).
    pose proof (in_lbs v_min v_max L_min L_max v al L (nth_error_In _ _ Lq)) as Hvv.
    unfold lam_at. rewrite Hs by lia. unfold terms. cbn [map fold_right fst snd cval].
    change (powerRZ an 2) with (an ^ 2)%R. change (powerRZ an (-2)) with (/ an ^ 2)%R.
    unfold v_D2b, v_b2. set (b := v_bm2 Gam (5 / 2 + IZR v) nf ni). set (l := (5 / 2 + IZR v)%R).
    assert (an ^ 2 <> 0)%R by (apply pow_nonzero; assumption).
    destruct (nf =? ni) eqn:E1; [replace (nf =? ni - 1) with false by lia|].
    - unfold l. field. split; assumption.
    - destruct (nf =? ni - 1) eqn:E2; [|destruct (nf =? ni + 1) eqn:E3].
      + replace (Z.abs (nf - ni) =? 1) with true by lia. replace (Z.min nf ni) with nf by lia. unfold l. field. split; assumption.
      + replace (Z.abs (nf - ni) =? 1) with true by lia. replace (Z.min nf ni) with ni by lia. unfold l. field. split; assumption.
      + replace (Z.abs (nf - ni) =? 1) with false by lia. unfold l. field. split; assumption.
  Qed.

  Lemma same_position X p q x : lbsXspace nu_min nu_max v_min v_max L_min (Some L_max) = Ok X -> 0 <= p -> 0 <= q ->
    nth_error X (Z.to_nat p) = Some x -> nth_error X (Z.to_nat q) = Some x -> p = q.
  Proof.
    intros EX Hp Hq Ep Eq.
    destruct (position _ _ _ _ _ _ X p _ Hnu Hv HL EX Hp Ep) as (_ & Lp & Np).
    destruct (position _ _ _ _ _ _ X q _ Hnu Hv HL EX Hq Eq) as (_ & Lq & Nq).
    set (rd := nu_max - nu_min + 1) in *.
    pose proof (lbs_positions _ _ _ _ _ _ _ (Z.div_pos p rd Hp ltac:(lia)) (Z.div_pos q rd Hq ltac:(lia)) Lp Lq).
    pose proof (Z.div_mod p rd ltac:(lia)). pose proof (Z.div_mod q rd ltac:(lia)). nia.
  Qed.

  Lemma state_eqb_eq s t : state_eqb s t = true <-> s = t.
  Proof.
    destruct s as [[v al] L], t as [[w bl] M]. cbn [state_eqb]. split; [intros E; repeat f_equal; lia|].
    intros E. injection E as -> -> ->. lia.
  Qed.

  (** With the matched length the matrix is diagonal, with the energies of the
      five-dimensional oscillator. *)
  Theorem C65_matrix : forall B c1 anorm s X, matched B c1 anorm ->
    (forall v, 0 <= v -> g_lam_fun s v = Ok v) ->
    lbsXspace nu_min nu_max v_min v_max L_min (Some L_max) = Ok X ->
    exists D, code_matrices RP CG s (RWC_Ham B c1 0 0 0) anorm (5 / 2) nu_min nu_max v_min v_max L_min (Some L_max) = Ok D /\
      nrows D = zlen X /\ ncols D = zlen X /\
      forall p q x, 0 <= p < zlen X -> 0 <= q < zlen X -> nth_error X (Z.to_nat q) = Some x ->
        ent D p q = if p =? q then oscillator_energy c1 x else 0%R.
  Proof.
    intros B c1 an s X (HB & Hc & Ha & Hm) Hs EX.
    destruct (quadratic_matrix B c1 an s X ltac:(lra) ltac:(lra) Ha Hs EX) as (D & ED & S1 & S2 & EV).
    exists D. split; [exact ED|]. split; [exact S1|]. split; [exact S2|].
    intros p q [ni [[v al] L]] Hp Hq Eq.
    assert (exists x, nth_error X (Z.to_nat p) = Some x) as ([nf sf] & Ep).
    { destruct (nth_error X (Z.to_nat p)) eqn:F; [eauto|]. apply nth_error_None in F. unfold zlen in Hp. lia. }
    rewrite (EV p q nf sf ni v al L ltac:(lia) ltac:(lia) Ep Eq).
    assert (A2 : (0 < an ^ 2)%R) by (assert (an ^ 2 <> 0)%R by (apply pow_nonzero; assumption); pose proof (pow2_ge_0 an); lra).
    assert (K : (B * c1 / (2 * an ^ 2) = an ^ 2 / (2 * B))%R).
    { apply (Rmult_eq_reg_r (2 * B * an ^ 2)); [|nra]. transitivity (B ^ 2 * c1)%R; [field; lra|]. rewrite <- Hm. field; lra. }
    assert (Q : (an ^ 2 / B = sqrt c1)%R).
    { symmetry. apply sqrt_lem_1; [lra|apply Rlt_le, Rdiv_lt_0_compat; assumption|].
      replace (an ^ 2 / B * (an ^ 2 / B))%R with (an ^ 4 / B ^ 2)%R by (field; lra). rewrite Hm. field. lra. }
    destruct (p =? q) eqn:B1.
    - assert (p = q) by lia. subst p. rewrite Eq in Ep. injection Ep as <- <-.
      rewrite (proj2 (state_eqb_eq _ _) eq_refl), Z.eqb_refl, K. unfold oscillator_energy. rewrite <- Q, plus_IZR, mult_IZR. field. lra.
    - destruct (state_eqb sf (v, al, L)) eqn:B2; [|reflexivity]. apply state_eqb_eq in B2. subst sf.
      destruct (nf =? ni) eqn:B3.
      + exfalso. assert (nf = ni) by lia. subst nf. pose proof (same_position X p q _ EX ltac:(lia) ltac:(lia) Ep Eq). lia.
      + destruct (_ =? 1); [|reflexivity]. rewrite K. ring.
  Qed.

  (** With any other length it is not, as soon as there are two radial states. *)
  Theorem C65_matched_needed : forall B c1 anorm s X D, (0 < B)%R -> (0 < c1)%R -> anorm <> 0%R ->
    (forall v, 0 <= v -> g_lam_fun s v = Ok v) ->
    lbsXspace nu_min nu_max v_min v_max L_min (Some L_max) = Ok X -> X <> [] -> nu_min < nu_max ->
    code_matrices RP CG s (RWC_Ham B c1 0 0 0) anorm (5 / 2) nu_min nu_max v_min v_max L_min (Some L_max) = Ok D ->
    (forall p q, 0 <= p < zlen X -> 0 <= q < zlen X -> p <> q -> ent D p q = 0%R) -> matched B c1 anorm.
  Proof.
    intros B c1 an s X D HB Hc Ha Hs EX NE Hr ED HD.
    destruct (quadratic_matrix B c1 an s X ltac:(lra) ltac:(lra) Ha Hs EX) as (D' & ED' & S1 & S2 & EV).
    rewrite ED in ED'. injection ED' as <-.
    destruct (C06_layout _ _ _ _ _ _ Hnu Hv HL) as (X' & sph & E & Es & Hl & HN). rewrite EX in E. injection E as <-.
    assert (Hd : dimRadial nu_min nu_max = nu_max - nu_min + 1) by (unfold dimRadial; replace (nu_min <=? nu_max) with true by lia; reflexivity).
    rewrite Hd in *. destruct sph as [|[[v al] L] sph]; [exfalso; apply NE; destruct X; [reflexivity|unfold zlen in Hl; cbn [length] in Hl; lia]|].
    pose proof (HN 0%nat 0%nat _ eq_refl ltac:(lia)) as E0. pose proof (HN 0%nat 1%nat _ eq_refl ltac:(lia)) as E1.
    change (nth_error X 0 = Some (nu_min + 0, (v, al, L))) in E0. change (nth_error X 1 = Some (nu_min + 1, (v, al, L))) in E1.
    assert (HX : 2 <= zlen X) by (assert (nth_error X 1 <> None) as N by congruence; apply nth_error_Some in N; unfold zlen; lia).
    pose proof (HD 0 1 ltac:(lia) ltac:(lia) ltac:(lia)) as Z0.
    rewrite (EV 0 1 _ _ _ v al L ltac:(lia) ltac:(lia) E0 E1) in Z0. rewrite (proj2 (state_eqb_eq _ _) eq_refl) in Z0.
    replace (nu_min + 0 =? nu_min + 1) with false in Z0 by lia. replace (Z.abs (nu_min + 0 - (nu_min + 1)) =? 1) with true in Z0 by lia.
    assert (Hvv : 0 <= v).
    { rewrite lbs_rngVvarL_some in Es by assumption. injection Es as Es. 
      assert (In (v, al, L) (lbs v_min v_max L_min L_max)) as I by (rewrite Es; now left). apply in_lbs in I. lia. }
    apply (IZR_le 0) in Hvv.
    assert (PV : (0 < pv (5 / 2 + IZR v) (Z.min (nu_min + 0) (nu_min + 1)))%R).
    { replace (Z.min (nu_min + 0) (nu_min + 1)) with nu_min by lia. unfold pv. apply sqrt_lt_R0.
      assert (0 <= IZR nu_min)%R by (apply (IZR_le 0); lia). apply Rmult_lt_0_compat; lra. }
    apply Rmult_integral in Z0. destruct Z0 as [Z0|Z0]; [|lra].
    assert (A2 : (0 < an ^ 2)%R) by (assert (an ^ 2 <> 0)%R by (apply pow_nonzero; assumption); pose proof (pow2_ge_0 an); lra).
    split; [exact HB|]. split; [exact Hc|]. split; [exact Ha|].
    assert (Y : (B * c1 / (2 * an ^ 2) * (2 * B * an ^ 2) = an ^ 2 / (2 * B) * (2 * B * an ^ 2))%R) by (f_equal; lra).
    replace (B * c1 / (2 * an ^ 2) * (2 * B * an ^ 2))%R with (B ^ 2 * c1)%R in Y by (field; lra).
    replace (an ^ 2 / (2 * B) * (2 * B * an ^ 2))%R with (an ^ 4)%R in Y by (field; lra). lra.
  Qed.
End Oscillator.

(** The calculation: in every space the eigenvalues are the energies
    sqrt(c1) (N + 5/2), N = 2 nu + v, of its basis states, in increasing
    order. *)
Theorem C65_spectrum : forall Gam Msqrt Minv CG flt eigh inv junk B c1 anorm nu_min nu_max v_min v_max fit_eig fit_rat L_min L_max
    s ev tr Lv s' o,
  gamma_like Gam -> eigh_sound eigh -> matched B c1 anorm ->
  let s1 := snd (ACM_set_basis_type 1 None s) in
  ACM_ScaleOrAdapt flt (code_matrices (RadProd (Rep_elem Gam Msqrt Minv)) CG) eigh inv junk (RWC_Ham B c1 0 0 0) anorm (5 / 2)
    nu_min nu_max v_min v_max fit_eig fit_rat L_min L_max s1 = (Ok (ev, tr, Lv), s', o) ->
  Forall2 (fun L vals => exists X, lbsXspace nu_min nu_max v_min v_max L None = Ok X /\
      StronglySorted Rle vals /\ Permutation vals (map (oscillator_energy c1) X)) Lv ev.
Proof.
  intros Gam Msqrt Minv CG flt eigh inv junk B c1 an nu_min nu_max v_min v_max fe fr L_min L_max s ev tr Lv s' o HG HE HM s1 E.
  set (RepX := code_matrices (RadProd (Rep_elem Gam Msqrt Minv)) CG) in *.
  assert (ED : exists ebs, dig RepX eigh (RWC_Ham B c1 0 0 0) an (5 / 2) nu_min nu_max v_min v_max s1 L_min L_max = Ok (ev, ebs, Lv)).
  { rewrite run_stages in E. apply pbind_inv in E. destruct E as [([[ev0 ebs] Lv0] & s2 & o1 & o2 & E1 & E & _) | (e & _ & X)]; [|discriminate].
    unfold praise in E1.
    destruct (checks _ _ _ _ _ _ _ _ _) as [[]|]; [|discriminate]. cbn [bind] in E1.
    destruct (dig _ _ _ _ _ _ _ _ _ _ _ _) as [r|] eqn:ED; [|discriminate]. injection E1 as -> _ _.
    apply pbind_inv in E. destruct E as [(u & s3 & o3 & o4 & _ & E & _) | (e & _ & X)]; [|discriminate].
    apply pbind_inv in E. destruct E as [(tr0 & s4 & o5 & o6 & _ & E & _) | (e & _ & X)]; [|discriminate].
    unfold pret in E. injection E as -> -> -> _ _. eauto. }
  clear E. destruct ED as (ebs & ED). pose proof (Dig_valid _ _ _ _ _ _ _ _ _ _ ED) as (Hn & Hv & HLL).
  destruct (C38_Lvals _ _ _ _ _ _ _ _ _ _ _ _ _ ED) as (_ & HLv & _).
  assert (HT : Op_Tame (RWC_Ham B c1 0 0 0) = true) by (destruct HM as (P1 & P2 & _); rewrite RWC_quadratic by lra; reflexivity).
  unfold dig in ED. rewrite HT in ED. apply C37_tame_blocks in ED. destruct ED as (Q1 & Q2 & F).
  assert (G : forall L vals P, 0 <= L ->
     (exists M, RepX s1 (RWC_Ham B c1 0 0 0) an (5 / 2)%R nu_min nu_max v_min v_max L None = Ok M /\ Eigenfiddle eigh M = Ok (vals, P)) ->
     exists X, lbsXspace nu_min nu_max v_min v_max L None = Ok X /\ StronglySorted Rle vals /\ Permutation vals (map (oscillator_energy c1) X)).
  { intros L vals P HL (M & EM & EE).
    destruct (C06_layout nu_min nu_max v_min v_max L L Hn Hv ltac:(lia)) as (X & _ & EX & _).
    exists X. split; [exact EX|].
    destruct (C65_matrix Gam HG Msqrt Minv CG nu_min nu_max v_min v_max L L Hn Hv ltac:(lia) B c1 an s1 X HM) as (D & ED & S1 & S2 & EV).
    { intros v Hvv. apply (C31_values s None v Hvv). }
    { exact EX. }
    change (RepX s1 (RWC_Ham B c1 0 0 0) an (5 / 2)%R nu_min nu_max v_min v_max L None = Ok D) in ED.
    rewrite EM in ED. injection ED as <-.
    destruct (C47_symmetrised eigh M ltac:(lia)) as (A & EA & A1 & A2 & A3 & A4 & _). rewrite EA in EE.
    pose proof (HE A vals P ltac:(lia) ltac:(intros; apply A3) EE) as DEC.
    split; [apply DEC|]. apply (diagonal_spectrum A vals P); [exact DEC|rewrite zlen_map; lia|].
    intros i j Hi Hj. rewrite A1, S1 in Hi, Hj. rewrite A4.
    assert (forall k, 0 <= k < zlen X -> exists x, nth_error X (Z.to_nat k) = Some x) as NX.
    { intros k Hk. destruct (nth_error X (Z.to_nat k)) eqn:F0; [eauto|]. apply nth_error_None in F0. unfold zlen in Hk. lia. }
    destruct (NX i Hi) as (xi & Ei). destruct (NX j Hj) as (xj & Ej).
    rewrite (EV i j xj Hi Hj Ej), (EV j i xi Hj Hi Ei), (Z.eqb_sym j i).
    destruct (i =? j) eqn:B0; [|lra]. replace j with i in Ej by lia. rewrite Ei in Ej. injection Ej as <-.
    rewrite (nth_error_nth _ _ 0%R (map_nth_error (oscillator_energy c1) _ _ Ei)). lra. }
  assert (HN : forall L, In L Lv -> 0 <= L) by (intros L HI; apply HLv in HI; lia).
  clear - Q1 Q2 F G HN. revert ev ebs Q1 Q2 F. induction Lv as [|L l IH]; intros [|v e] [|P b] Q1 Q2 FF; try discriminate; [constructor|].
  cbn [combine] in FF. inversion FF as [|? ? ? ? HM FF']; subst.
  constructor; [apply (G L v P); [apply HN; now left|exact HM]|].
  apply (IH ltac:(intros; apply HN; now right) e b); [now injection Q1|now injection Q2|exact FF'].
Qed.

(** ** Examples *)
Example C65_matched_example : matched 1 1 1 /\ ~ matched 1 4 1 /\ matched 2 4 2.
Proof. unfold matched. split; [repeat split; lra|]. split; [intros (_ & _ & _ & H); lra|repeat split; lra]. Qed.

(** Two radial states of seniority 0 at L = 0: the levels are 5/2 and 9/2. *)
Example C65_example : forall Msqrt Minv CG flt inv junk,
  let s1 := snd (ACM_set_basis_type 1 None imported) in
  exists ev o, ACM_Scale flt (code_matrices (RadProd (Rep_elem gamma0 Msqrt Minv)) CG) eigh0 inv junk (RWC_Ham 1 1 0 0 0) 1 (5 / 2)
    0 1 0 0 0 None s1 = (Ok (ev, None, [0]), s1, o) /\ ev = [[5 / 2; 9 / 2]]%R /\ o <> [].
Proof.
  intros Msqrt Minv CG flt inv junk s1.
  assert (EX : lbsXspace 0 1 0 0 0 (Some 0) = Ok [(0, (0, 1, 0)); (1, (0, 1, 0))]) by (vm_compute; reflexivity).
  destruct (C65_matrix gamma0 gamma_like_gamma0 Msqrt Minv CG 0 1 0 0 0 0 ltac:(lia) ltac:(lia) ltac:(lia) 1 1 1 s1 _ (proj1 C65_matched_example)
    (fun v Hv => proj1 (proj2 (C31_values imported None v Hv))) EX) as (D & ED & S1 & S2 & EV).
  change (zlen [(0, (0, 1, 0)); (1, (0, 1, 0))]) with 2 in *.
  assert (V : ent D 0 0 = (5 / 2)%R /\ ent D 1 1 = (9 / 2)%R /\ ent D 0 1 = 0%R /\ ent D 1 0 = 0%R).
  { pose proof (EV 0 0 _ ltac:(lia) ltac:(lia) eq_refl) as V0. pose proof (EV 1 1 _ ltac:(lia) ltac:(lia) eq_refl) as V1.
    pose proof (EV 0 1 _ ltac:(lia) ltac:(lia) eq_refl) as V2. pose proof (EV 1 0 _ ltac:(lia) ltac:(lia) eq_refl) as V3.
    cbn [Z.eqb Pos.eqb oscillator_energy] in *. rewrite sqrt_1 in *. change (2 * 0 + 0) with 0 in V0. change (2 * 1 + 0) with 2 in V1.
    repeat split; lra. }
  destruct (C47_symmetrised eigh0 D ltac:(lia)) as (A & EA & A1 & A2 & A3 & A4 & _).
  assert (EE : Eigenfiddle eigh0 D = Ok ([5 / 2; 9 / 2]%R, eye 2)).
  { rewrite EA. unfold eigh0. rewrite A1, S1.
    assert (DG : diagonal_of A = [5 / 2; 9 / 2]%R).
    { unfold diagonal_of. rewrite A1, S1. change (py_range 0 2) with [0; 1]. cbn [map]. rewrite !A4. f_equal; [lra|f_equal; lra]. }
    assert (AS : ascending_diagonal A = true).
    { unfold ascending_diagonal. rewrite A1, S1. change (py_range 0 2) with [0; 1]. cbn [forallb Z.eqb Pos.eqb Z.ltb Z.compare andb].
      rewrite !A4. destruct V as (V0 & V1 & V2 & V3). rewrite V0, V1, V2, V3.
      destruct (Req_EM_T _ _) as [_|N]; [|lra]. destruct (Rle_dec _ _) as [_|N]; [|lra]. reflexivity. }
    rewrite AS, DG. reflexivity. }
  set (RepX := code_matrices (RadProd (Rep_elem gamma0 Msqrt Minv)) CG) in *.
  assert (DI : dig RepX eigh0 (RWC_Ham 1 1 0 0 0) 1 (5 / 2) 0 1 0 0 s1 0 None = Ok ([[5 / 2; 9 / 2]%R], [eye 2], [0])).
  { unfold dig. assert (HT : Op_Tame (RWC_Ham 1 1 0 0 0) = true) by (rewrite RWC_quadratic by lra; reflexivity). rewrite HT.
    change (RepX s1 (RWC_Ham 1 1 0 0 0) 1%R (5 / 2)%R 0 1 0 0 0 None = Ok D) in ED.
    assert (G : forall (F : Z -> option Z -> res (mat R)) (Eg : mat R -> res (list R * mat R)), F 0 None = Ok D -> Eg D = Ok ([5 / 2; 9 / 2]%R, eye 2) ->
      DigXspace F Eg true 0 1 0 0 0 None = Ok ([[5 / 2; 9 / 2]%R], [eye 2], [0])).
    { intros F Eg F1 F2. unfold DigXspace. cbn [L_top]. rewrite !require_range_ok by lia. cbn [bind]. change (py_range 0 (0 + 1)) with [0]. cbn. rewrite F1. cbn [bind]. rewrite F2. reflexivity. }
    apply G; assumption. }
  assert (LO : min_head [[5 / 2; 9 / 2]%R] = Ok (5 / 2)%R) by reflexivity.
  destruct (C62_shown flt [[5 / 2; 9 / 2]%R] [0] 4 None None s1 (5 / 2)) as (k & _ & SH); [lia|discriminate|exact I| |exact LO|].
  { exists 0. split; [now left|]. unfold shown_L, L_MAX_DEFAULT. lia. }
  eexists _, _. split; [|split; [reflexivity|]].
  - unfold ACM_Scale. rewrite run_stages. rewrite (checks_ok flt RepX eigh0 inv junk (RWC_Ham 1 1 0 0 0) 1 (5 / 2)); [|lia|lia|lia|lia|cbn; lia|lia|lia].
    cbn [bind]. rewrite DI, pbind_ok. unfold pbind at 1, eig_stage. change (0 <? g_eig_num s1) with true. cbv iota. change (0 <? 0) with false. cbv iota.
    unfold pbind at 1, pret at 1. unfold pbind at 1. change (g_eig_num s1) with 4. rewrite SH. unfold pbind, rat_stage, pret.
    change ((0 <? zlen (g_rat_lst s1)) || (0 <? zlen (g_amp_lst s1))) with false. cbv iota. cbn [app]. reflexivity.
  - discriminate.
Qed.

Print Assumptions C65_matrix.
Print Assumptions C65_matched_needed.
Print Assumptions C65_spectrum.
