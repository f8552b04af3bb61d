(** The momentum operators: C55 and the documented sign in C36, C53. *)

From Coq Require Import Reals Lra.
From Coq Require Import Lia ZifyBool ZifyNat.
From Verif Require Import PyBase PyFacts Compat SphericalSpec Spherical SphericalFacts PropsSpherical Matrix RadialME
  RadialMESpec RadialMEFacts PropsRadialME FullLabels RadialOps PropsRadialOps CG CGSpec CGFacts PropsCG Operators
  PropsReduced FullOps PropsHarmonics FullOpsFacts FullOpsBlocks FullOpsMemo FullOpsProd RadialWords PropsFullOps.
Open Scope Z_scope.
Ltac Zify.zify_post_hook ::= Z.div_mod_to_equations.

(** ** RepXspace_Pi *)

Section Pi.
  Variable RP : list rsym -> R -> R -> Z -> Z -> Z -> Z -> res (mat R).
  Variable CG : Z -> Z -> Z -> Z -> Z -> Z -> Z -> Z -> Z -> res R.
  Variable lam : Z -> res Z.

  (** Coefficient of [Radial_bm] and reduced matrix element for a change of
      seniority by 1, as documented (full_operators.py:690-720). *)
  Definition pi_bm (v dv : Z) : Z := if dv =? 1 then - v - 2 else v + 1.
  Definition pi_reduced (v dv : Z) : res (option R) := if dv =? 1 then Qred_p1 v else Qred_m1 v.

  Definition pi_connected (s t : label) : bool :=
    let '(v_i, _, L_i) := s in let '(v_f, _, L_f) := t in
    (Z.abs (L_f - L_i) <=? 2) && (Z.abs (v_f - v_i) =? 1).

  (** The entries of the matrix of the momentum. *)
  Theorem C55_pi_entries : forall a l D,
    lbsSO5r3_rngVvarL (xa_v_min a) (xa_v_max a) (xa_L_min a) (Some (xa_L_max a)) = Ok l ->
    RepXspace_Pi RP CG lam a = Ok D ->
    let rd := xa_nu_max a - xa_nu_min a + 1 in
    nrows D = zlen l * rd /\ ncols D = zlen l * rd /\
    forall i j x y v_i al_i L_i v_f al_f L_f, 0 <= i -> 0 <= j -> 0 <= x < rd -> 0 <= y < rd ->
      nth_error l (Z.to_nat j) = Some (v_i, al_i, L_i) -> nth_error l (Z.to_nat i) = Some (v_f, al_f, L_f) ->
      if pi_connected (v_i, al_i, L_i) (v_f, al_f, L_f)
      then exists li lf A B c g, lam v_i = Ok li /\ lam v_f = Ok lf /\
        RP [Radial_Db] (xa_anorm a) (xa_lambda_base a + IZR li)%R (lf - li) (xa_nu_min a) (xa_nu_max a) 0 = Ok A /\
        RP [Radial_bm] (xa_anorm a) (xa_lambda_base a + IZR li)%R (lf - li) (xa_nu_min a) (xa_nu_max a) 0 = Ok B /\
        pi_reduced v_i (v_f - v_i) = Ok (Some c) /\
        CG v_i al_i L_i 1 1 2 v_f al_f L_f = Ok g /\
        ent D (i * rd + x) (j * rd + y) = (g * c * (ent A x y + IZR (pi_bm v_i (v_f - v_i)) * ent B x y))%R
      else ent D (i * rd + x) (j * rd + y) = 0%R.
  Proof.
    intros a l D El E rd.
    assert (Ha : valid a).
    { unfold RepXspace_Pi in E. destruct (xa_check_cases a) as [[V _]|[_ C]]; [exact V|]. rewrite C in E. discriminate. }
    rewrite xa_labels in El by assumption. injection El as <-.
    rewrite Pi_asm in E by assumption.
    apply asm_value_pos in E; [|apply zlen_nonneg|apply xa_rdim; assumption]. destruct E as ([S1 S2] & G & V).
    split; [exact S1|]. split; [exact S2|].
    intros i j x y v_i al_i L_i v_f al_f L_f Hi Hj Hx Hy Ej Ei.
    assert (Bi : 0 <= i < zlen (slabels a)).
    { assert (Z.to_nat i < length (slabels a))%nat by (apply nth_error_Some; congruence). unfold zlen. lia. }
    assert (Bj : 0 <= j < zlen (slabels a)).
    { assert (Z.to_nat j < length (slabels a))%nat by (apply nth_error_Some; congruence). unfold zlen. lia. }
    destruct (G j i Bj Bi) as (o & Eo & _). cbn [fst snd] in Eo.
    specialize (V j i x y Bj Bi Hx Hy). change (rdim a) with rd in V. rewrite V. clear V.
    rewrite Eo. rewrite (at2_ok _ _ _ _ _ _ Ej Ei) in Eo. unfold pi_block in Eo. unfold pi_connected, pi_bm, pi_reduced.
    apply bind_ok in Eo. destruct Eo as (li & E1 & Eo).
    destruct ((2 <? L_f - L_i) || (L_f - L_i <? -2)) eqn:B0.
    { injection Eo as <-. replace (Z.abs (L_f - L_i) <=? 2) with false by lia. reflexivity. }
    replace (Z.abs (L_f - L_i) <=? 2) with true by lia. cbn [andb].
    apply bind_ok in Eo. destruct Eo as (lf & E2 & Eo).
    destruct (v_f - v_i =? 1) eqn:B1; [|destruct (v_f - v_i =? -1) eqn:B2].
    3:{ injection Eo as <-. replace (Z.abs (v_f - v_i) =? 1) with false by lia. reflexivity. }
    all: replace (Z.abs (v_f - v_i) =? 1) with true by lia;
      apply bind_ok in Eo; destruct Eo as (M & EM & Eo); apply bind_ok in Eo; destruct Eo as (q & Eq & Eo);
      destruct q as [c|]; [|discriminate]; cbn [to_float bind] in Eo;
      apply bind_ok in Eo; destruct Eo as (g & Eg & Eo); injection Eo as <-;
      cbn [RepRadial_LC for_] in EM; apply bind_ok in EM; destruct EM as (A & EA & EM);
      apply bind_ok in EM; destruct EM as (B & EB & EM); apply bind_ok in EB; destruct EB as (B' & EB & EB2);
      injection EB2 as <-; injection EM as <-; cbn [fst snd] in EB;
      exists li, lf, A, B', c, g; repeat (split; [assumption|]);
      unfold madd, mscale; cbn [ent fst]; ring.
  Qed.
End Pi.

(** ** C55: antihermiticity *)


(** The exchange symmetry of the coefficients (C12) without quotients. *)
Lemma cg_exchange files home st vi ai Li v a L vf af Lf g :
  0 <= vf -> 1 <= af -> 0 <= Lf -> 0 <= v -> 1 <= a -> 0 <= L -> 0 <= vi -> 1 <= ai -> 0 <= Li -> vf <> vi ->
  CG_at files home st vi ai Li v a L vf af Lf = Ok g ->
  exists g', CG_at files home st vf af Lf v a L vi ai Li = Ok g' /\
    (sqrt (dim5 vi) * sqrt (IZR (2 * Lf + 1)) * g
     = powerRZ (-1) (Lf + L - Li) * sqrt (dim5 vf) * sqrt (IZR (2 * Li + 1)) * g')%R.
Proof.
  intros Hf1 Hf2 Hf3 H1 H2 H3 Hi1 Hi2 Hi3 Hne E.
  set (n := {| n_v1 := vi; n_a1 := ai; n_L1 := Li; n_v2 := v; n_a2 := a; n_L2 := L;
               n_v3 := vf; n_a3 := af; n_L3 := Lf |}).
  pose proof (C12_exchange_symmetry files home st n) as X.
  specialize (X ltac:(unfold legal_nonet; cbn; lia) ltac:(cbn; congruence)).
  change (fst (CGn files home st n)) with (CG_at files home st vi ai Li v a L vf af Lf) in X.
  change (fst (CGn files home st (exchange n))) with (CG_at files home st vf af Lf v a L vi ai Li) in X.
  cbn [n n_L1 n_L2 n_L3 n_v1 n_v3] in X. rewrite E in X.
  destruct (CG_at files home st vf af Lf v a L vi ai Li) as [y|e]; [|discriminate]. exists y. split; [reflexivity|].
  apply (f_equal (fun r => match r with Ok z => z | Raise _ => 0%R end)) in X. cbv beta iota in X. rewrite X.
  pose proof (dim5_pos vf Hf1) as D1. pose proof (dim5_pos vi Hi1) as D2.
  assert (P1 : (0 < IZR (2 * Lf + 1))%R) by (apply (IZR_lt 0); lia).
  assert (P2 : (0 < IZR (2 * Li + 1))%R) by (apply (IZR_lt 0); lia).
  rewrite (sqrt_div (dim5 vf * IZR (2 * Li + 1)) (dim5 vi * IZR (2 * Lf + 1)))
    by (try apply Rmult_lt_0_compat; try apply Rlt_le, Rmult_lt_0_compat; assumption).
  rewrite (sqrt_mult (dim5 vf) (IZR (2 * Li + 1))) by (apply Rlt_le; assumption).
  rewrite (sqrt_mult (dim5 vi) (IZR (2 * Lf + 1))) by (apply Rlt_le; assumption).
  pose proof (sqrt_lt_R0 _ D1). pose proof (sqrt_lt_R0 _ D2). pose proof (sqrt_lt_R0 _ P1).
  field. lra.
Qed.

(** The reduced matrix elements. *)
Lemma pi_reduced_exchange vi vf c c' : 0 <= vi -> 0 <= vf -> Z.abs (vf - vi) = 1 ->
  pi_reduced vi (vf - vi) = Ok (Some c) -> pi_reduced vf (vi - vf) = Ok (Some c') ->
  (sqrt (dim5 vf) * c = sqrt (dim5 vi) * c')%R.
Proof.
  assert (F : forall v c c', 0 <= v -> pi_reduced v 1 = Ok (Some c) -> pi_reduced (v + 1) (-1) = Ok (Some c') ->
    (sqrt (dim5 (v + 1)) * c = sqrt (dim5 v) * c')%R).
  { clear. intros v c c' Hv E E'. unfold pi_reduced in *. change (1 =? 1) with true in E. change (-1 =? 1) with false in E'.
    cbv iota in *. unfold Qred_p1, Qred_m1 in *. rewrite require_nonnegint_ok in E, E' by lia. cbn [bind] in *.
    destruct (sqrt_rational_ok (v + 1) (2 * v + 5) ltac:(lia) ltac:(lia)) as (q & F & P & S1).
    rewrite F in E. injection E as <-.
    destruct (sqrt_rational_ok (v + 1 + 2) (2 * (v + 1) + 1) ltac:(lia) ltac:(lia)) as (q' & F' & P' & S2).
    rewrite F' in E'. injection E' as <-.
    pose proof (dim5_pos v Hv) as D1. pose proof (dim5_pos (v + 1) ltac:(lia)) as D2.
    apply sq_eq; try (apply Rmult_le_pos; [apply sqrt_pos|assumption]).
    transitivity (sqrt (dim5 (v + 1)) * sqrt (dim5 (v + 1)) * (q * q))%R; [ring|].
    transitivity (sqrt (dim5 v) * sqrt (dim5 v) * (q' * q'))%R; [|ring].
    rewrite !sqrt_sqrt by lra. rewrite S1, S2. unfold dim5. apply IZR_le in Hv.
    rewrite !plus_IZR, !mult_IZR, !plus_IZR. field. lra. }
  intros Hi Hf Hd E E'. destruct (Z.eq_dec vf (vi + 1)) as [->|N].
  - replace (vi + 1 - vi) with 1 in E by lia. replace (vi - (vi + 1)) with (-1) in E' by lia. now apply F.
  - replace vi with (vf + 1) in * by lia. replace (vf - (vf + 1)) with (-1) in E by lia.
    replace (vf + 1 - vf) with 1 in E' by lia. symmetry. now apply F.
Qed.

(** Whatever the coefficient files contain and whatever state the coefficient
    cache is in: if neighbouring seniorities have lambdas that differ by 1, the
    matrix of the momentum is antihermitian (in terms of the SO(3)-reduced
    matrix elements, sqrt(2L_f+1) times the "alternative" ones computed). *)
Theorem C55_antihermitian : forall Gam Msqrt Minv files home st lam a l D,
  gamma_like Gam ->
  lbsSO5r3_rngVvarL (xa_v_min a) (xa_v_max a) (xa_L_min a) (Some (xa_L_max a)) = Ok l ->
  (forall v k k', xa_v_min a <= v -> v + 1 <= xa_v_max a -> lam v = Ok k -> lam (v + 1) = Ok k' -> Z.abs (k' - k) = 1) ->
  (forall v k, xa_v_min a <= v <= xa_v_max a -> lam v = Ok k -> (0 < xa_lambda_base a + IZR k)%R) ->
  RepXspace_Pi (RadProd (Rep_elem Gam Msqrt Minv)) (CG_at files home st) lam a = Ok D ->
  let rd := xa_nu_max a - xa_nu_min a + 1 in
  forall i j x y v_i al_i L_i v_f al_f L_f, 0 <= i -> 0 <= j -> 0 <= x < rd -> 0 <= y < rd ->
    nth_error l (Z.to_nat j) = Some (v_i, al_i, L_i) -> nth_error l (Z.to_nat i) = Some (v_f, al_f, L_f) ->
    (sqrt (IZR (2 * L_f + 1)) * ent D (i * rd + x) (j * rd + y)
     = - (powerRZ (-1) (L_f - L_i) * (sqrt (IZR (2 * L_i + 1)) * ent D (j * rd + y) (i * rd + x))))%R.
Proof.
  intros Gam Msqrt Minv files home st lam a l D HG El Hlam Hpos E rd i j x y v_i al_i L_i v_f al_f L_f Hi Hj Hx Hy Ej Ei.
  assert (Ha : valid a).
  { unfold RepXspace_Pi in E. destruct (xa_check_cases a) as [[V _]|[_ C]]; [exact V|]. rewrite C in E. discriminate. }
  destruct (C55_pi_entries _ _ _ _ _ _ El E) as (_ & _ & V). fold rd in V.
  pose proof (V i j x y _ _ _ _ _ _ Hi Hj Hx Hy Ej Ei) as V1. pose proof (V j i y x _ _ _ _ _ _ Hj Hi Hy Hx Ei Ej) as V2.
  clear V. rewrite xa_labels in El by assumption. injection El as <-.
  destruct Ha as (Hn & Hv & HL).
  apply nth_error_In in Ei. apply nth_error_In in Ej. unfold slabels in Ei, Ej. apply lbs_In in Ei.
  apply lbs_In in Ej.
  destruct (pi_connected (v_i, al_i, L_i) (v_f, al_f, L_f)) eqn:B.
  2:{ replace (pi_connected (v_f, al_f, L_f) (v_i, al_i, L_i)) with false in V2.
      - rewrite V1, V2. ring.
      - rewrite <- B. unfold pi_connected. replace (L_i - L_f) with (- (L_f - L_i)) by lia.
        replace (v_i - v_f) with (- (v_f - v_i)) by lia. now rewrite !Z.abs_opp. }
  replace (pi_connected (v_f, al_f, L_f) (v_i, al_i, L_i)) with true in V2.
  2:{ rewrite <- B. unfold pi_connected. replace (L_i - L_f) with (- (L_f - L_i)) by lia.
      replace (v_i - v_f) with (- (v_f - v_i)) by lia. now rewrite !Z.abs_opp. }
  destruct V1 as (li & lf & A & Bm & c & g & E1 & E2 & EA & EB & Ec & Eg & V1).
  destruct V2 as (lf' & li' & A' & Bm' & c' & g' & E2' & E1' & EA' & EB' & Ec' & Eg' & V2).
  rewrite E1 in E1'. injection E1' as <-. rewrite E2 in E2'. injection E2' as <-.
  cbn [pi_connected] in B. assert (Hd : Z.abs (v_f - v_i) = 1) by lia.
  pose proof (Hpos v_i li ltac:(lia) E1) as Pi. pose proof (Hpos v_f lf ltac:(lia) E2) as Pf.
  assert (Hl : lf = li + 1 \/ li = lf + 1).
  { destruct (Z.eq_dec v_f (v_i + 1)) as [->|N].
    - pose proof (Hlam v_i li lf ltac:(lia) ltac:(lia) E1 E2). lia.
    - replace v_i with (v_f + 1) in * by lia. pose proof (Hlam v_f lf li ltac:(lia) ltac:(lia) E2 E1). lia. }
  destruct (cg_exchange files home st v_i al_i L_i 1 1 2 v_f al_f L_f g) as (g2 & Eg2 & X); try lia; try exact Eg.
  rewrite Eg' in Eg2. injection Eg2 as <-.
  pose proof (pi_reduced_exchange v_i v_f c c' ltac:(lia) ltac:(lia) Hd Ec Ec') as Y.
  assert (Rad : (ent A x y + IZR (pi_bm v_i (v_f - v_i)) * ent Bm x y
    = - (ent A' y x + IZR (pi_bm v_f (v_i - v_f)) * ent Bm' y x))%R).
  { assert (Hbm : pi_bm v_f (v_i - v_f) = - pi_bm v_i (v_f - v_i)).
    { unfold pi_bm. destruct (v_f - v_i =? 1) eqn:B1, (v_i - v_f =? 1) eqn:B2; lia. }
    rewrite Hbm, opp_IZR.
    assert (K : ent A x y = (- ent A' y x)%R /\ ent Bm x y = ent Bm' y x); [|destruct K as [-> ->]; ring].
    destruct Hl as [-> | ->].
    - replace (li + 1 - li) with 1 in EA, EB by lia. replace (li - (li + 1)) with (-1) in EA', EB' by lia.
      rewrite plus_IZR in EA', EB'. replace (xa_lambda_base a + (IZR li + 1))%R with (xa_lambda_base a + IZR li + 1)%R in EA', EB' by ring.
      set (lb := (xa_lambda_base a + IZR li)%R) in *.
      destruct (word_Db_pl Gam HG Msqrt Minv _ _ Hn (xa_anorm a) lb Pi) as (m1 & F1 & _ & _ & W1).
      destruct (word_Db_ml Gam HG Msqrt Minv _ _ Hn (xa_anorm a) (lb + 1)) as (m2 & F2 & _ & _ & W2); [lra|].
      destruct (word_bm_pl Gam HG Msqrt Minv _ _ Hn (xa_anorm a) lb Pi) as (m3 & F3 & _ & _ & W3).
      destruct (word_bm_ml Gam HG Msqrt Minv _ _ Hn (xa_anorm a) (lb + 1)) as (m4 & F4 & _ & _ & W4); [lra|].
      rewrite F1 in EA. injection EA as <-. rewrite F2 in EA'. injection EA' as <-.
      rewrite F3 in EB. injection EB as <-. rewrite F4 in EB'. injection EB' as <-.
      fold rd in W1, W2, W3, W4. rewrite W1, W2, W3, W4 by assumption.
      rewrite (Db_tr Gam lb Pi) by lia. rewrite (bm_pl_ml_tr Gam lb Pi) by lia. unfold rscale, rtr. split; ring.
    - replace (lf + 1 - lf) with 1 in EA', EB' by lia. replace (lf - (lf + 1)) with (-1) in EA, EB by lia.
      rewrite plus_IZR in EA, EB. replace (xa_lambda_base a + (IZR lf + 1))%R with (xa_lambda_base a + IZR lf + 1)%R in EA, EB by ring.
      set (lb := (xa_lambda_base a + IZR lf)%R) in *.
      destruct (word_Db_pl Gam HG Msqrt Minv _ _ Hn (xa_anorm a) lb Pf) as (m1 & F1 & _ & _ & W1).
      destruct (word_Db_ml Gam HG Msqrt Minv _ _ Hn (xa_anorm a) (lb + 1)) as (m2 & F2 & _ & _ & W2); [lra|].
      destruct (word_bm_pl Gam HG Msqrt Minv _ _ Hn (xa_anorm a) lb Pf) as (m3 & F3 & _ & _ & W3).
      destruct (word_bm_ml Gam HG Msqrt Minv _ _ Hn (xa_anorm a) (lb + 1)) as (m4 & F4 & _ & _ & W4); [lra|].
      rewrite F1 in EA'. injection EA' as <-. rewrite F2 in EA. injection EA as <-.
      rewrite F3 in EB'. injection EB' as <-. rewrite F4 in EB. injection EB as <-.
      fold rd in W1, W2, W3, W4. rewrite W1, W2, W3, W4 by assumption.
      rewrite (Db_tr Gam lb Pf) by lia. rewrite (bm_pl_ml_tr Gam lb Pf) by lia. unfold rscale, rtr. split; ring. }
  rewrite V1, V2, Rad.
  set (Q := (ent A' y x + IZR (pi_bm v_f (v_i - v_f)) * ent Bm' y x)%R).
  replace (L_f + 2 - L_i) with (L_f - L_i + 2) in X by lia.
  rewrite powerRZ_add in X by lra. replace (powerRZ (-1) 2) with 1%R in X by (cbv [powerRZ pow Pos.to_nat Pos.iter_op Nat.add]; ring).
  pose proof (sqrt_lt_R0 _ (dim5_pos v_i ltac:(lia))) as D1.
  apply (Rmult_eq_reg_l (sqrt (dim5 v_i))); [|lra].
  transitivity (- (sqrt (dim5 v_i) * sqrt (IZR (2 * L_f + 1)) * g) * c * Q)%R; [ring|]. rewrite X.
  transitivity (- powerRZ (-1) (L_f - L_i) * sqrt (IZR (2 * L_i + 1)) * g' * (sqrt (dim5 v_f) * c) * Q)%R; [ring|].
  rewrite Y. ring.
Qed.

(** It is defined if the lambda function, the radial words and the coefficients
    it uses are. *)
Theorem C55_pi_defined : forall RP CG lam a l,
  0 <= xa_nu_min a <= xa_nu_max a -> 0 <= xa_v_min a <= xa_v_max a -> 0 <= xa_L_min a <= xa_L_max a ->
  lbsSO5r3_rngVvarL (xa_v_min a) (xa_v_max a) (xa_L_min a) (Some (xa_L_max a)) = Ok l ->
  (forall v al L, In (v, al, L) l -> exists k, lam v = Ok k) ->
  (forall v_i al_i L_i v_f al_f L_f li lf w, In (v_i, al_i, L_i) l -> In (v_f, al_f, L_f) l ->
    pi_connected (v_i, al_i, L_i) (v_f, al_f, L_f) = true -> lam v_i = Ok li -> lam v_f = Ok lf ->
    In w [[Radial_Db]; [Radial_bm]] ->
    exists m g, RP w (xa_anorm a) (xa_lambda_base a + IZR li)%R (lf - li) (xa_nu_min a) (xa_nu_max a) 0 = Ok m /\
      nrows m = xa_nu_max a - xa_nu_min a + 1 /\ ncols m = xa_nu_max a - xa_nu_min a + 1 /\
      CG v_i al_i L_i 1 1 2 v_f al_f L_f = Ok g) ->
  exists D, RepXspace_Pi RP CG lam a = Ok D.
Proof.
  intros RP CG lam a l Hn Hv HL El Hlam H. assert (Ha : valid a) by (unfold valid; lia).
  rewrite xa_labels in El by assumption. injection El as <-. rewrite Pi_asm by assumption.
  apply asm_defined; [apply zlen_nonneg|apply xa_rdim; assumption|]. intros j i Hj Hi.
  destruct (label_at_ok (slabels a) i Hi) as ([[vf af] Lf] & _ & Ei).
  destruct (label_at_ok (slabels a) j Hj) as ([[vi ai] Li] & _ & Ej).
  unfold good. cbn [fst snd]. rewrite (at2_ok _ _ _ _ _ _ Ej Ei). apply nth_error_In in Ei, Ej.
  destruct (Hlam _ _ _ Ej) as (li & E1). destruct (Hlam _ _ _ Ei) as (lf & E2). unfold pi_block. rewrite E1, E2. cbn [bind].
  destruct ((2 <? Lf - Li) || (Lf - Li <? -2)) eqn:B0; [exists None; auto|].
  assert (Hvi : 0 <= vi /\ 0 <= vf).
  { unfold slabels in Ei, Ej. apply lbs_In in Ei, Ej. lia. }
  destruct (vf - vi =? 1) eqn:B1; [|destruct (vf - vi =? -1) eqn:B2; [|exists None; auto]].
  all: assert (C : pi_connected (vi, ai, Li) (vf, af, Lf) = true) by (unfold pi_connected; lia);
    destruct (H _ _ _ _ _ _ li lf [Radial_Db] Ej Ei C E1 E2 ltac:(now left)) as (A & g & EA & A1 & A2 & Eg);
    destruct (H _ _ _ _ _ _ li lf [Radial_bm] Ej Ei C E1 E2 ltac:(right; now left)) as (B & _ & EB & B3 & B4 & _);
    cbn [RepRadial_LC for_ bind fst snd]; rewrite EA; cbn [bind]; rewrite EB; cbn [bind];
    unfold Qred_p1, Qred_m1; rewrite require_nonnegint_ok by lia; cbn [bind].
  - destruct (sqrt_rational_ok (vi + 1) (2 * vi + 5) ltac:(lia) ltac:(lia)) as (q & -> & _). cbn [to_float bind].
    rewrite Eg. cbn [bind]. eexists. split; [reflexivity|]. unfold mscale, madd. cbn [nrows ncols]. split; assumption.
  - destruct (sqrt_rational_ok (vi + 2) (2 * vi + 1) ltac:(lia) ltac:(lia)) as (q & -> & _). cbn [to_float bind].
    rewrite Eg. cbn [bind]. eexists. split; [reflexivity|]. unfold mscale, madd. cbn [nrows ncols]. split; assumption.
Qed.

(** *** A concrete space: v = 1, 2 and L = 2, one radial state, with the lambda
    functions of basis types 1 and 2 (globals.py:127-144). *)
Definition lam_sho (v : Z) : res Z := check require_nonnegint v ;; Ok v.
Definition lam_acm (v : Z) : res Z := check require_nonnegint v ;; irem v 2.
Definition CGx := CG_at (fun _ => Ok [1%R; 1%R]) [] cg_init.
Definition ax : xargs := mkXA 1 (5/2) 0 0 1 2 2 2.
Definition RPx Msqrt Minv := RadProd (Rep_elem gamma0 Msqrt Minv).

Lemma ax_labels : lbsSO5r3_rngVvarL 1 2 2 (Some 2) = Ok [(1, 1, 2); (2, 1, 2)].
Proof. reflexivity. Qed.

Lemma pi_case Msqrt Minv : exists P Q,
  RepXspace_Pi (RPx Msqrt Minv) CGx lam_sho ax = Ok P /\
  RepXspace_Pi (RPx Msqrt Minv) CGx lam_acm ax = Ok Q /\
  (ent P 1 0 * ent P 1 0 = 1)%R /\ (ent Q 1 0 * ent Q 1 0 = 5 / 7)%R /\ (ent P 0 0 = 0)%R /\ (ent P 0 1 <> 0)%R.
Proof.
  assert (G1 : CGx 1 1 2 1 1 2 2 1 2 = Ok 1%R) by reflexivity.
  assert (G2 : exists g, CGx 2 1 2 1 1 2 1 1 2 = Ok g) by (eexists; reflexivity). destruct G2 as (g2 & G2).
  assert (Def : forall lam k, lam 1 = Ok 1 -> lam 2 = Ok k -> k = 2 \/ k = 0 ->
    exists D, RepXspace_Pi (RPx Msqrt Minv) CGx lam ax = Ok D).
  { intros lam k L1 L2 Hk. apply (C55_pi_defined _ _ _ ax _ ltac:(cbn; lia) ltac:(cbn; lia) ltac:(cbn; lia) ax_labels).
    - intros v al L [E|[E|[]]]; injection E as <- <- <-; eauto.
    - intros v_i al_i L_i v_f al_f L_f li lf w Hi Hf C E1 E2 Hw. cbn [xa_nu_min xa_nu_max xa_anorm xa_lambda_base ax].
      destruct Hi as [E|[E|[]]]; injection E as <- <- <-; destruct Hf as [E|[E|[]]]; injection E as <- <- <-; try discriminate.
      + rewrite L1 in E1. injection E1 as <-. rewrite L2 in E2. injection E2 as <-.
        destruct Hk as [-> | ->]; destruct Hw as [<-|[<-|[]]].
        * destruct (word_Db_pl gamma0 gamma_like_gamma0 Msqrt Minv 0 0 ltac:(lia) 1 (5/2 + 1)) as (m & E & A & B & _); [lra|].
          exists m, 1%R. auto.
        * destruct (word_bm_pl gamma0 gamma_like_gamma0 Msqrt Minv 0 0 ltac:(lia) 1 (5/2 + 1)) as (m & E & A & B & _); [lra|].
          exists m, 1%R. auto.
        * destruct (word_Db_ml gamma0 gamma_like_gamma0 Msqrt Minv 0 0 ltac:(lia) 1 (5/2 + 1)) as (m & E & A & B & _); [lra|].
          exists m, 1%R. auto.
        * destruct (word_bm_ml gamma0 gamma_like_gamma0 Msqrt Minv 0 0 ltac:(lia) 1 (5/2 + 1)) as (m & E & A & B & _); [lra|].
          exists m, 1%R. auto.
      + rewrite L2 in E1. injection E1 as <-. rewrite L1 in E2. injection E2 as <-.
        destruct Hk as [-> | ->]; destruct Hw as [<-|[<-|[]]].
        * destruct (word_Db_ml gamma0 gamma_like_gamma0 Msqrt Minv 0 0 ltac:(lia) 1 (5/2 + 2)) as (m & E & A & B & _); [lra|].
          exists m, g2. auto.
        * destruct (word_bm_ml gamma0 gamma_like_gamma0 Msqrt Minv 0 0 ltac:(lia) 1 (5/2 + 2)) as (m & E & A & B & _); [lra|].
          exists m, g2. auto.
        * destruct (word_Db_pl gamma0 gamma_like_gamma0 Msqrt Minv 0 0 ltac:(lia) 1 (5/2 + 0)) as (m & E & A & B & _); [lra|].
          exists m, g2. auto.
        * destruct (word_bm_pl gamma0 gamma_like_gamma0 Msqrt Minv 0 0 ltac:(lia) 1 (5/2 + 0)) as (m & E & A & B & _); [lra|].
          exists m, g2. auto. }
  destruct (Def lam_sho 2 eq_refl eq_refl ltac:(auto)) as (P & EP).
  destruct (Def lam_acm 0 eq_refl eq_refl ltac:(auto)) as (Q & EQ).
  exists P, Q. split; [exact EP|]. split; [exact EQ|].
  assert (HA : forall l, (0 < l)%R -> (av gamma0 l 0 / av gamma0 (l + 1) 0 = / sqrt l)%R).
  { intros l Hl. rewrite av_lam by (apply gamma_like_gamma0 || assumption || lia). rewrite Rplus_0_r.
    pose proof (av_pos gamma0 gamma_like_gamma0 l 0 Hl ltac:(lia)). pose proof (sqrt_lt_R0 l Hl). field. lra. }
  assert (Hq : exists q, Qred_p1 1 = Ok (Some q) /\ (q * q = 2 / 7)%R).
  { destruct (sqrt_rational_ok 2 7 ltac:(lia) ltac:(lia)) as (q & E & _ & S). exists q. split; [|exact S].
    unfold Qred_p1. rewrite require_nonnegint_ok by lia. cbn [bind]. change (1 + 1) with 2. change (2 * 1 + 5) with 7. now rewrite E. }
  destruct Hq as (q & Eq & Sq).
  destruct (C55_pi_entries _ _ _ ax _ P ax_labels EP) as (_ & _ & VP). change (xa_nu_max ax - xa_nu_min ax + 1) with 1 in VP.
  destruct (C55_pi_entries _ _ _ ax _ Q ax_labels EQ) as (_ & _ & VQ). change (xa_nu_max ax - xa_nu_min ax + 1) with 1 in VQ.
  assert (SP : (ent P 1 0 * ent P 1 0 = 1)%R).
  { pose proof (VP 1 0 0 0 1 1 2 2 1 2 ltac:(lia) ltac:(lia) ltac:(lia) ltac:(lia) eq_refl eq_refl) as X.
    change (pi_connected (1, 1, 2) (2, 1, 2)) with true in X. cbv iota in X. change (1 * 1 + 0) with 1 in X. change (0 * 1 + 0) with 0 in X.
    destruct X as (li & lf & A & B & c & g & E1 & E2 & EA & EB & Ec & Eg & ->).
    injection E1 as <-. injection E2 as <-. rewrite G1 in Eg. injection Eg as <-. change (pi_reduced 1 (2 - 1)) with (Qred_p1 1) in Ec.
    rewrite Eq in Ec. injection Ec as <-. change (pi_bm 1 (2 - 1)) with (-3). cbn [xa_nu_min xa_nu_max xa_anorm xa_lambda_base ax] in *.
    destruct (word_Db_pl gamma0 gamma_like_gamma0 Msqrt Minv 0 0 ltac:(lia) 1 (5/2 + 1)) as (m1 & F1 & _ & _ & W1); [lra|].
    destruct (word_bm_pl gamma0 gamma_like_gamma0 Msqrt Minv 0 0 ltac:(lia) 1 (5/2 + 1)) as (m2 & F2 & _ & _ & W2); [lra|].
    change (2 - 1) with 1 in EA, EB. unfold RPx in EA, EB. rewrite F1 in EA. injection EA as <-. rewrite F2 in EB. injection EB as <-.
    rewrite W1, W2 by lia. change (0 + 0) with 0. unfold v_Db_pl, v_bm_pl. change (0 =? 0 - 1) with false. change (0 =? 0) with true.
    change (0 <? 0) with false. cbv iota. rewrite HA by lra. change (sg 0) with 1%R. rewrite Rplus_0_r. rewrite powerRZ_1.
    set (s := sqrt (5/2 + 1)). assert (Hs : (s * s = 7/2)%R) by (unfold s; rewrite sqrt_sqrt; lra).
    assert (s <> 0)%R by (intros C; rewrite C in Hs; lra).
    transitivity ((q * q) * ((- (s * s) + (5/2 + 1 - 1/2) - 3) * (- (s * s) + (5/2 + 1 - 1/2) - 3)) / (s * s))%R; [field; assumption|].
    rewrite Sq, Hs. field. }
  split; [exact SP|]. split; [|split].
  - pose proof (VQ 1 0 0 0 1 1 2 2 1 2 ltac:(lia) ltac:(lia) ltac:(lia) ltac:(lia) eq_refl eq_refl) as X.
    change (pi_connected (1, 1, 2) (2, 1, 2)) with true in X. cbv iota in X. change (1 * 1 + 0) with 1 in X. change (0 * 1 + 0) with 0 in X.
    destruct X as (li & lf & A & B & c & g & E1 & E2 & EA & EB & Ec & Eg & ->).
    injection E1 as <-. injection E2 as <-. rewrite G1 in Eg. injection Eg as <-. change (pi_reduced 1 (2 - 1)) with (Qred_p1 1) in Ec.
    rewrite Eq in Ec. injection Ec as <-. change (pi_bm 1 (2 - 1)) with (-3). cbn [xa_nu_min xa_nu_max xa_anorm xa_lambda_base ax] in *.
    destruct (word_Db_ml gamma0 gamma_like_gamma0 Msqrt Minv 0 0 ltac:(lia) 1 (5/2 + 1)) as (m1 & F1 & _ & _ & W1); [lra|].
    destruct (word_bm_ml gamma0 gamma_like_gamma0 Msqrt Minv 0 0 ltac:(lia) 1 (5/2 + 1)) as (m2 & F2 & _ & _ & W2); [lra|].
    change (2 mod 2 - 1 mod 2) with (-1) in EA, EB. change (1 mod 2) with 1 in EA, EB.
    unfold RPx in EA, EB. rewrite F1 in EA. injection EA as <-. rewrite F2 in EB. injection EB as <-.
    rewrite W1, W2 by lia. change (0 + 0) with 0. unfold v_Db_ml, v_bm_ml. change (0 =? 0 + 1) with false. change (0 =? 0) with true.
    change (0 <? 0) with false. cbv iota. replace (5/2 + 1 - 1)%R with (5/2)%R by lra. rewrite HA by lra. change (sg 0) with 1%R. rewrite Rplus_0_r. rewrite powerRZ_1.
    set (s := sqrt (5/2)). assert (Hs : (s * s = 5/2)%R) by (unfold s; rewrite sqrt_sqrt; lra).
    assert (s <> 0)%R by (intros C; rewrite C in Hs; lra).
    transitivity ((q * q) * ((s * s + (3/2 - (5/2 + 1)) - 3) * (s * s + (3/2 - (5/2 + 1)) - 3)) / (s * s))%R; [field; assumption|].
    rewrite Sq, Hs. field.
  - exact (VP 0 0 0 0 1 1 2 1 1 2 ltac:(lia) ltac:(lia) ltac:(lia) ltac:(lia) eq_refl eq_refl).
  - intros C. assert (A : (ent P 1 0 = 0)%R); [|rewrite A in SP; lra].
    pose proof (C55_antihermitian gamma0 Msqrt Minv (fun _ => Ok [1%R; 1%R]) [] cg_init lam_sho ax _ P gamma_like_gamma0 ax_labels) as X.
    specialize (X ltac:(intros v k k' A1 A2 E1 E2; unfold lam_sho in E1, E2; cbn in A1, A2; rewrite require_nonnegint_ok in E1, E2 by lia; cbn [bind] in E1, E2; injection E1; injection E2; lia)).
    specialize (X ltac:(intros v k A1 E1; unfold lam_sho in E1; cbn in A1; rewrite require_nonnegint_ok in E1 by lia; cbn [bind] in E1; injection E1 as <-; assert (0 <= IZR v)%R by (apply IZR_le; lia); cbn [xa_lambda_base ax]; lra) EP).
    cbv zeta in X. specialize (X 1 0 0 0 1 1 2 2 1 2 ltac:(lia) ltac:(lia) ltac:(cbn; lia) ltac:(cbn; lia) eq_refl eq_refl).
    change (xa_nu_max ax - xa_nu_min ax + 1) with 1 in X. change (1 * 1 + 0) with 1 in X. change (0 * 1 + 0) with 0 in X.
    rewrite C in X. change (2 * 2 + 1) with 5 in X. pose proof (sqrt_lt_R0 5 ltac:(lra)).
    apply (Rmult_eq_reg_l (sqrt 5)); [|lra]. rewrite X. ring.
Qed.

(** The hypotheses of [C55_antihermitian] hold there, and the matrix is not
    zero. *)
Example C55_case Msqrt Minv : exists P,
  RepXspace_Pi (RadProd (Rep_elem gamma0 Msqrt Minv)) (CG_at (fun _ => Ok [1%R; 1%R]) [] cg_init) lam_sho ax = Ok P /\
  (ent P 1 0 * ent P 1 0 = 1)%R /\ (ent P 0 1 <> 0)%R.
Proof. destruct (pi_case Msqrt Minv) as (P & Q & A & _ & B & _ & _ & C). exists P. auto. Qed.

(** ** C36: the documented sign *)

(** "Correct for L = 4, but the sign needs to change for L = 2": each block
    should be minus the coefficient times the radial matrix.  In the space with
    v = 1, 2 and L = 2 the two blocks have opposite signs instead. *)
Theorem C36_documented_sign_refuted : forall Msqrt Minv, exists D m0 m1,
  RepXspace_PiPi (RadProd (Rep_elem gamma0 Msqrt Minv)) (CG_at (fun _ => Ok [1%R; 1%R; 1%R; 1%R]) [] cg_init)
    (fun _ => Ok 0) 2 ax = Ok D /\
  pipi_block (RadProd (Rep_elem gamma0 Msqrt Minv)) (CG_at (fun _ => Ok [1%R; 1%R; 1%R; 1%R]) [] cg_init)
    (fun _ => Ok 0) ax 2 (1, 1, 2) (1, 1, 2) = Ok (Some m0) /\
  pipi_block (RadProd (Rep_elem gamma0 Msqrt Minv)) (CG_at (fun _ => Ok [1%R; 1%R; 1%R; 1%R]) [] cg_init)
    (fun _ => Ok 0) ax 2 (2, 1, 2) (2, 1, 2) = Ok (Some m1) /\
  (ent D 0 0 = ent m0 0 0 /\ ent D 1 1 = - ent m1 0 0 /\ 0 < ent m0 0 0 /\ 0 < ent m1 0 0)%R.
Proof.
  intros Msqrt Minv.
  set (RP := RadProd (Rep_elem gamma0 Msqrt Minv)). set (CG := CG_at (fun _ => Ok [1%R; 1%R; 1%R; 1%R]) [] cg_init).
  set (lam := fun _ => Ok 0).
  assert (G1 : CG 1 1 2 2 1 2 1 1 2 = Ok 1%R) by reflexivity.
  assert (G2 : CG 2 1 2 2 1 2 2 1 2 = Ok 1%R) by reflexivity.
  assert (Q0 : forall v, 1 <= v -> exists q, QxQred_0 v = Ok (Some q) /\ (0 < q)%R).
  { intros v Hv. destruct (sqrt_rational_ok (6 * v * (v + 3)) (5 * (2 * v + 1) * (2 * v + 5)) ltac:(nia) ltac:(nia)) as (q & E & P & S).
    exists q. split.
    - unfold QxQred_0. rewrite require_nonnegint_ok by lia. cbn [bind]. now rewrite E.
    - assert (0 < q * q)%R; [|nra]. rewrite S. apply Rdiv_lt_0_compat; apply (IZR_lt 0); nia. }
  destruct (word_D2b gamma0 gamma_like_gamma0 Msqrt Minv 0 0 ltac:(lia) 1 (5/2)) as (A & EA & A1 & A2 & WA); [lra|].
  destruct (word_bm2 gamma0 gamma_like_gamma0 Msqrt Minv 0 0 ltac:(lia) 1 (5/2)) as (B & EB & B1 & B2 & WB); [lra|].
  fold RP in EA, EB.
  assert (VB : v_bm2 gamma0 (5/2) 0 0 = (2/3)%R).
  { unfold v_bm2. change (Z.min 0 0) with 0. change (Z.max 0 0) with 0. change (sg 0) with 1%R.
    pose proof (av_pos gamma0 gamma_like_gamma0 (5/2) 0 ltac:(lra) ltac:(lia)). field. lra. }
  assert (EBv : ent B 0 0 = (2/3)%R).
  { rewrite WB by lia. change (0 + 0) with 0. rewrite VB. cbv [powerRZ pow Pos.to_nat Pos.iter_op Nat.add]. field. }
  assert (EAv : ent A 0 0 = (-7/6)%R).
  { rewrite WA by lia. change (0 + 0) with 0. unfold v_D2b. rewrite VB.
    change (0 =? 0 - 1) with false. change (0 =? 0) with true. cbv iota.
    cbv [powerRZ pow Pos.to_nat Pos.iter_op Nat.add]. field. }
  assert (BLK : forall v, 1 <= v -> CG v 1 2 2 1 2 v 1 2 = Ok 1%R ->
    exists m, pipi_block RP CG lam ax 2 (v, 1, 2) (v, 1, 2) = Ok (Some m) /\ nrows m = 1 /\ ncols m = 1 /\ (0 < ent m 0 0)%R).
  { intros v Hv Eg. destruct (Q0 v Hv) as (q & Eq & Pq). unfold pipi_block, lam. cbn [bind].
    change ((2 <? 2 - 2) || (2 - 2 <? -2)) with false. rewrite !Z.sub_diag. cbn [Z.eqb].
    cbn [xa_nu_min xa_nu_max xa_anorm xa_lambda_base ax RepRadial_LC]. rewrite Rplus_0_r. cbn [for_ fst snd].
    rewrite EA. cbn [bind]. rewrite EB. cbn [bind]. rewrite Eq. cbn [bind to_float]. rewrite Eg. cbn [bind].
    eexists. split; [reflexivity|]. unfold mscale, madd. cbn [nrows ncols ent].
    split; [rewrite A1; reflexivity|]. split; [rewrite A2; reflexivity|]. rewrite EAv, EBv.
    rewrite mult_IZR, opp_IZR, !plus_IZR. assert (1 <= IZR v)%R by (apply IZR_le; lia).
    set (w := IZR v) in *. replace (1 * (- q * (1 * (-7/6) + - (w + 1) * (w + 2) * (2/3))))%R
      with (q * (7/6 + (w + 1) * (w + 2) * (2/3)))%R by field. apply Rmult_lt_0_compat; [assumption|nra]. }
  destruct (BLK 1 ltac:(lia) G1) as (m0 & E0 & N0 & C0 & P0). destruct (BLK 2 ltac:(lia) G2) as (m1 & E1 & N1 & C1 & P1).
  assert (Ha : valid ax) by (unfold valid; cbn; lia).
  assert (SL : slabels ax = [(1, 1, 2); (2, 1, 2)]) by reflexivity.
  assert (DD : exists D, RepXspace_PiPi RP CG lam 2 ax = Ok D).
  { rewrite PiPi_asm by (assumption || lia). apply asm_defined; [apply zlen_nonneg|apply xa_rdim; assumption|]. intros j i Hj Hi.
    rewrite SL in *. change (zlen [(1, 1, 2); (2, 1, 2)]) with 2 in *. unfold good. cbn [fst snd].
    assert (Cj : j = 0 \/ j = 1) by lia. assert (Ci : i = 0 \/ i = 1) by lia.
    destruct Cj as [-> | ->], Ci as [-> | ->]; unfold at2, label_at;
      change (Z.to_nat 0) with 0%nat; change (Z.to_nat 1) with 1%nat; cbn [nth_error bind].
    - rewrite E0. exists (Some m0). split; [reflexivity|]. split; assumption.
    - exists None. split; reflexivity || exact I.
    - exists None. split; reflexivity || exact I.
    - rewrite E1. exists (Some m1). split; [reflexivity|]. split; assumption. }
  destruct DD as (D & ED). exists D, m0, m1. split; [exact ED|]. split; [exact E0|]. split; [exact E1|].
  destruct (C36_signs RP CG lam 2 ax _ D ax_labels ED) as (_ & _ & _ & V). change (xa_nu_max ax - xa_nu_min ax + 1) with 1 in V.
  change (pipi_visits 2 [(1, 1, 2); (2, 1, 2)]) with [(0, 0); (1, 1)] in V.
  assert (H : forall k v, (k = 0%nat /\ v = 1) \/ (k = 1%nat /\ v = 2) -> forall m,
    pipi_block RP CG lam ax 2 (v, 1, 2) (v, 1, 2) = Ok (Some m) ->
    ent D (Z.of_nat k) (Z.of_nat k) = ((-1) ^ (2 - k) * ent m 0 0)%R).
  { intros k v Hk m Em. assert (Ek : nth_error [(0, 0); (1, 1)] k = Some (Z.of_nat k, Z.of_nat k)) by (destruct Hk as [[-> _]|[-> _]]; reflexivity).
    assert (El : nth_error [(1, 1, 2); (2, 1, 2)] (Z.to_nat (Z.of_nat k)) = Some (v, 1, 2)) by (destruct Hk as [[-> ->]|[-> ->]]; reflexivity).
    destruct (V k _ _ 0 0 v 1 2 v 1 2 Ek ltac:(lia) ltac:(lia) El El) as (li & lf & rlc & M & c & g & E3 & E4 & E5 & E6 & E7 & E8 & X).
    apply pipi_block_shape in Em. destruct Em as (_ & li' & lf' & rlc' & M' & c' & g' & F3 & F4 & F5 & F6 & F7 & F8 & ->).
    rewrite E3 in F3. injection F3 as <-. rewrite E4 in F4. injection F4 as <-. rewrite E5 in F5. injection F5 as <-.
    rewrite E6 in F6. injection F6 as <-. rewrite E7 in F7. injection F7 as <-. rewrite E8 in F8. injection F8 as <-.
    rewrite Z.mul_1_r, Z.add_0_r in X. rewrite X. change (2 =? 2) with true. cbv iota. change (length [(0, 0); (1, 1)]) with 2%nat.
    unfold mscale. cbn [ent]. ring. }
  pose proof (H 0%nat 1 ltac:(auto) m0 E0) as X0. pose proof (H 1%nat 2 ltac:(auto) m1 E1) as X1.
  cbn [Z.of_nat Pos.of_succ_nat Nat.sub pow] in X0, X1. split; [rewrite X0; ring|]. split; [rewrite X1; ring|]. split; assumption.
Qed.

(** ** C53: RepXspace_PiqPi *)

(** No matrix is returned if two labels have the same angular momentum and
    seniorities that differ by one. *)
Theorem C53_no_matrix : forall RP CG lam a l v al al' L,
  lbsSO5r3_rngVvarL (xa_v_min a) (xa_v_max a) (xa_L_min a) (Some (xa_L_max a)) = Ok l ->
  In (v, al, L) l -> In (v + 1, al', L) l ->
  forall D, RepXspace_PiqPi RP CG lam a <> Ok D.
Proof.
  intros RP CG lam a l v al al' L El H1 H2 D E.
  assert (Ha : valid a).
  { unfold RepXspace_PiqPi in E. destruct (xa_check_cases a) as [[V _]|[_ C]]; [exact V|]. rewrite C in E. discriminate. }
  rewrite xa_labels in El by assumption. injection El as <-. rewrite PiqPi_asm in E by assumption.
  apply asm_value_pos in E; [|apply zlen_nonneg|apply xa_rdim; assumption]. destruct E as (_ & G & _).
  apply In_nth_error in H1, H2. destruct H1 as (j & Ej). destruct H2 as (i & Ei).
  assert (Bi : 0 <= Z.of_nat i < zlen (slabels a)).
  { assert (i < length (slabels a))%nat by (apply nth_error_Some; intros C; pose proof (eq_trans (eq_sym Ei) C) as C2; discriminate C2). unfold zlen. lia. }
  assert (Bj : 0 <= Z.of_nat j < zlen (slabels a)).
  { assert (j < length (slabels a))%nat by (apply nth_error_Some; intros C; pose proof (eq_trans (eq_sym Ej) C) as C2; discriminate C2). unfold zlen. lia. }
  destruct (G _ _ Bj Bi) as (o & Eo & _). cbn [fst snd] in Eo.
  rewrite (at2_ok _ _ _ _ (v, al, L) (v + 1, al', L)) in Eo by (rewrite Nat2Z.id; assumption).
  unfold piqpi_block in Eo. apply bind_ok in Eo. destruct Eo as (li & _ & Eo). rewrite Z.eqb_refl in Eo. cbn [negb] in Eo.
  apply bind_ok in Eo. destruct Eo as (lf & _ & Eo). replace (v + 1 - v) with 1 in Eo by lia. discriminate.
Qed.

(** In particular for every range that contains seniorities v and v+1 and the
    angular momentum 2v, v >= 1. *)
Theorem C53_common_ranges : forall RP CG lam a v, 1 <= v ->
  0 <= xa_v_min a -> xa_v_min a <= v < xa_v_max a -> 0 <= xa_L_min a -> xa_L_min a <= 2 * v <= xa_L_max a ->
  forall D, RepXspace_PiqPi RP CG lam a <> Ok D.
Proof.
  intros RP CG lam a v Hv H1 H2 H3 H4 D.
  apply (C53_no_matrix RP CG lam a (lbs (xa_v_min a) (xa_v_max a) (xa_L_min a) (xa_L_max a)) v 1 1 (2 * v)).
  - apply lbs_rngVvarL_some; lia.
  - apply lbs_In. split; [lia|]. split; [lia|]. rewrite mult_step by lia. pose proof (mult_nonneg (v - 3) (2 * v)).
    replace (tau_contains v (2 * v)) with true by (unfold tau_contains; lia). cbn [ind]. lia.
  - apply lbs_In. split; [lia|]. split; [lia|]. rewrite mult_step by lia. pose proof (mult_nonneg (v + 1 - 3) (2 * v)).
    replace (tau_contains (v + 1) (2 * v)) with true by (unfold tau_contains; lia). cbn [ind]. lia.
Qed.

(** With a single seniority the matrix is zero. *)
Theorem C53_single_seniority : forall RP CG lam a k,
  0 <= xa_nu_min a <= xa_nu_max a -> 0 <= xa_v_min a -> xa_v_max a = xa_v_min a -> 0 <= xa_L_min a <= xa_L_max a ->
  lam (xa_v_min a) = Ok k ->
  exists D, RepXspace_PiqPi RP CG lam a = Ok D /\ forall i j, 0 <= i < nrows D -> 0 <= j < ncols D -> ent D i j = 0%R.
Proof.
  intros RP CG lam a k Hn Hv Hv2 HL Ek. assert (Ha : valid a) by (unfold valid; lia).
  assert (BLK : forall s t, In s (slabels a) -> In t (slabels a) -> piqpi_block RP CG lam a s t = Ok None).
  { intros [[v_i a_i] L_i] [[v_f a_f] L_f] Hs Ht. unfold slabels in Hs, Ht. apply lbs_In in Hs, Ht.
    assert (v_i = xa_v_min a) by lia. assert (v_f = xa_v_min a) by lia. subst v_i v_f. unfold piqpi_block. rewrite Ek. cbn [bind].
    destruct (negb (L_f =? L_i)); [reflexivity|]. rewrite Z.sub_diag. reflexivity. }
  assert (DD : exists D, RepXspace_PiqPi RP CG lam a = Ok D).
  { rewrite PiqPi_asm by assumption. apply asm_defined; [apply zlen_nonneg|apply xa_rdim; assumption|]. intros j i Hj Hi.
    destruct (label_at_ok (slabels a) i Hi) as (t & _ & Ei). destruct (label_at_ok (slabels a) j Hj) as (s & _ & Ej).
    unfold good. cbn [fst snd]. rewrite (at2_ok _ _ _ _ _ _ Ej Ei). apply nth_error_In in Ei, Ej. rewrite BLK by assumption. exists None; auto. }
  destruct DD as (D & ED). exists D. split; [exact ED|]. rewrite PiqPi_asm in ED by assumption.
  destruct (asm_value_pos _ _ _ _ (zlen_nonneg _) (proj2 (xa_rdim a Ha)) ED) as ([S1 S2] & _ & V). rewrite S1, S2.
  set (rd := rdim a) in *. assert (Hrd : 0 < rd) by apply (xa_rdim a Ha). intros p q Hp Hq.
  pose proof (Z.div_mod p rd ltac:(lia)) as Dp. pose proof (Z.div_mod q rd ltac:(lia)) as Dq.
  pose proof (Z.mod_pos_bound p rd Hrd) as Bp. pose proof (Z.mod_pos_bound q rd Hrd) as Bq.
  set (i := p / rd) in *. set (j := q / rd) in *. set (x := p mod rd) in *. set (y := q mod rd) in *.
  assert (Hi : 0 <= i < zlen (slabels a)) by nia. assert (Hj : 0 <= j < zlen (slabels a)) by nia.
  replace p with (i * rd + x) by lia. replace q with (j * rd + y) by lia. rewrite V by assumption.
  destruct (label_at_ok (slabels a) i Hi) as (t & _ & Ei). destruct (label_at_ok (slabels a) j Hj) as (s & _ & Ej).
  rewrite (at2_ok _ _ _ _ _ _ Ej Ei). apply nth_error_In in Ei, Ej. now rewrite BLK.
Qed.

Example C53_case : exists l, lbsSO5r3_rngVvarL 0 3 0 (Some 4) = Ok l /\ In (2, 1, 4) l /\ In (3, 1, 4) l.
Proof. eexists. split; [vm_compute; reflexivity|]. vm_compute. tauto. Qed.

Print Assumptions C55_pi_entries.
Print Assumptions C55_antihermitian.
Print Assumptions C55_pi_defined.
Print Assumptions C36_documented_sign_refuted.
Print Assumptions C53_no_matrix.
Print Assumptions C53_common_ranges.
Print Assumptions C53_single_seniority.
