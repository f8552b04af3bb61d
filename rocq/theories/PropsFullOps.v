(** Matrices of operators on the truncated full space: C35, C36, C44, C52-C54. *)

From Coq Require Import Reals Lra.
From Coq Require Import Lia ZifyBool ZifyNat.
From Verif Require Import PyBase PyFacts Compat SphericalSpec Spherical SphericalFacts PropsSpherical Matrix RadialME
  RadialMEFacts FullLabels RadialOps PropsRadialOps Operators FullOps PropsHarmonics FullOpsFacts FullOpsBlocks
  FullOpsMemo FullOpsProd RadialWords.
Open Scope Z_scope.
Ltac Zify.zify_post_hook ::= Z.div_mod_to_equations.

(** ** C52: RepXspace_Twin *)

Definition harmonic_symbol (y : osym) : bool := match y with OSph _ => true | _ => false end.

Lemma NumSO5r3_symbols sph : NumSO5r3_Prod (map YSym sph) = zlen (filter harmonic_symbol sph).
Proof.
  rewrite C51_number_of_harmonics. induction sph as [|y sph IH]; [reflexivity|].
  cbn [map filter]. destruct y; cbn [is_harmonic harmonic_symbol]; rewrite ?zlen_cons, ?IH; try reflexivity; try exact IH.
Qed.

Lemma Convert_red_pow k : powerRZ Convert_red (zlen (A:=osym) k) = (/ (4 * PI) ^ length k)%R.
Proof.
  unfold zlen. rewrite <- pow_powerRZ. unfold Convert_red, FourPi.
  replace (1 / (4 * PI))%R with (/ (4 * PI))%R by (unfold Rdiv; ring). apply pow_inv.
Qed.

Section Twin.
  Variable RP : list rsym -> R -> R -> Z -> Z -> Z -> Z -> res (mat R).
  Variable CG : Z -> Z -> Z -> Z -> Z -> Z -> Z -> Z -> Z -> res R.
  Variable lam : Z -> res Z.

  (** The matrix of a radial word times a spherical word: the entry between
      spherical labels [i] (final) and [j] (initial) and radial positions [x],
      [y] is the spherical matrix element, divided by 4 pi per harmonic, times
      the matrix element of the radial word between the bases
      lambda_base + lam(v_j) and lambda_base + lam(v_i).  Where the spherical
      element is zero the radial word is not evaluated. *)
  Theorem C52_twin_entries : forall rad sph a l D,
    lbsSO5r3_rngVvarL (xa_v_min a) (xa_v_max a) (xa_L_min a) (Some (xa_L_max a)) = Ok l ->
    RepXspace_Twin RP CG lam rad sph a = Ok D ->
    let rd := xa_nu_max a - xa_nu_min a + 1 in
    nrows D = zlen l * rd /\ ncols D = zlen l * rd /\
    exists SM, RepSO5r3_Prod CG (map YSym sph) (xa_v_min a) (xa_v_max a) (xa_L_min a) (xa_L_max a) = Ok SM /\
    forall i j x y vf af Lf vi ai Li, 0 <= i -> 0 <= j ->
      nth_error l (Z.to_nat i) = Some (vf, af, Lf) -> nth_error l (Z.to_nat j) = Some (vi, ai, Li) ->
      0 <= x < rd -> 0 <= y < rd ->
      exists li lf, lam vi = Ok li /\ lam vf = Ok lf /\
        let c := (ent SM i j / (4 * PI) ^ length (filter harmonic_symbol sph))%R in
        (c = 0%R -> ent D (i * rd + x) (j * rd + y) = 0%R) /\
        (c <> 0%R -> exists m,
           RP rad (xa_anorm a) (xa_lambda_base a + IZR li)%R (lf - li) (xa_nu_min a) (xa_nu_max a) 0 = Ok m /\
           ent D (i * rd + x) (j * rd + y) = (c * ent m x y)%R).
  Proof.
    intros rad sph a l D El E rd.
    assert (Ha : valid a).
    { unfold RepXspace_Twin in E. destruct (xa_check_cases a) as [[V _]|[_ C]]; [exact V|]. rewrite C in E. discriminate. }
    rewrite xa_labels in El by assumption. injection El as <-.
    rewrite Twin_asm in E by assumption. apply bind_ok in E. destruct E as (SM & ES & E).
    apply asm_value_pos in E; [|apply zlen_nonneg|apply xa_rdim; assumption]. destruct E as ([S1 S2] & G & V).
    split; [exact S1|]. split; [exact S2|]. exists SM. split; [exact ES|].
    intros i j x y vf af Lf vi ai Li Hi Hj Ei Ej Hx Hy.
    assert (Bi : 0 <= i < zlen (slabels a)).
    { assert (Z.to_nat i < length (slabels a))%nat by (apply nth_error_Some; congruence). unfold zlen. lia. }
    assert (Bj : 0 <= j < zlen (slabels a)).
    { assert (Z.to_nat j < length (slabels a))%nat by (apply nth_error_Some; congruence). unfold zlen. lia. }
    destruct (G j i Bj Bi) as (o & Eo & _). cbn [fst snd] in Eo.
    specialize (V j i x y Bj Bi Hx Hy). change (rdim a) with rd in V. rewrite V. clear V.
    rewrite (at2_ok _ _ _ _ _ _ Ej Ei) in Eo |- *. unfold twin_block in *. cbn [fst] in *.
    rewrite NumSO5r3_symbols, Convert_red_pow in Eo |- *.
    apply bind_ok in Eo. destruct Eo as (li & E1 & Eo). apply bind_ok in Eo. destruct Eo as (lf & E2 & Eo).
    exists li, lf. split; [exact E1|]. split; [exact E2|]. rewrite E1, E2. cbn [bind].
    replace (/ (4 * PI) ^ length (filter harmonic_symbol sph) * ent SM i j)%R
      with (ent SM i j / (4 * PI) ^ length (filter harmonic_symbol sph))%R in * by (unfold Rdiv; ring).
    cbv zeta. destruct (Req_EM_T _ 0) as [Z0|Z0].
    - split; [reflexivity|]. intros C. contradiction.
    - split; [intros C; contradiction|]. intros _. apply bind_ok in Eo. destruct Eo as (m & Em & _).
      exists m. split; [exact Em|]. rewrite Em. reflexivity.
  Qed.

  (** It is defined if the spherical product, the lambda function on the
      seniorities present, and each radial matrix with a non-zero spherical
      coefficient are. *)
  Theorem C52_twin_defined : forall rad sph a l SM,
    0 <= xa_nu_min a <= xa_nu_max a ->
    lbsSO5r3_rngVvarL (xa_v_min a) (xa_v_max a) (xa_L_min a) (Some (xa_L_max a)) = Ok l ->
    0 <= xa_v_min a <= xa_v_max a -> 0 <= xa_L_min a <= xa_L_max a ->
    RepSO5r3_Prod CG (map YSym sph) (xa_v_min a) (xa_v_max a) (xa_L_min a) (xa_L_max a) = Ok SM ->
    (forall i j vf af Lf vi ai Li, 0 <= i -> 0 <= j ->
      nth_error l (Z.to_nat i) = Some (vf, af, Lf) -> nth_error l (Z.to_nat j) = Some (vi, ai, Li) ->
      exists li lf, lam vi = Ok li /\ lam vf = Ok lf /\
        (ent SM i j <> 0%R -> exists m,
           RP rad (xa_anorm a) (xa_lambda_base a + IZR li)%R (lf - li) (xa_nu_min a) (xa_nu_max a) 0 = Ok m /\
           nrows m = xa_nu_max a - xa_nu_min a + 1 /\ ncols m = xa_nu_max a - xa_nu_min a + 1)) ->
    exists D, RepXspace_Twin RP CG lam rad sph a = Ok D.
  Proof.
    intros rad sph a l SM Hnu El Hv HL ES H. assert (Ha : valid a) by (unfold valid; lia).
    rewrite xa_labels in El by assumption. injection El as <-.
    rewrite Twin_asm, ES by assumption. cbn [bind].
    apply asm_defined; [apply zlen_nonneg|apply xa_rdim; assumption|]. intros j i Hj Hi.
    destruct (label_at_ok (slabels a) i Hi) as ([[vf af] Lf] & _ & Ei).
    destruct (label_at_ok (slabels a) j Hj) as ([[vi ai] Li] & _ & Ej).
    destruct (H i j vf af Lf vi ai Li ltac:(lia) ltac:(lia) Ei Ej) as (li & lf & E1 & E2 & K).
    unfold good. cbn [fst snd]. rewrite (at2_ok _ _ _ _ _ _ Ej Ei). unfold twin_block. cbn [fst].
    rewrite E1, E2. cbn [bind]. destruct (Req_EM_T _ 0) as [Z0|Z0]; [exists None; auto|].
    destruct K as (m & Em & S1 & S2).
    { intros C. apply Z0. rewrite C. ring. }
    rewrite Em. cbn [bind]. eexists. split; [reflexivity|]. split; assumption.
  Qed.

  (** Invalid ranges raise ValueError. *)
  Theorem C52_ranges : forall rad sph a,
    ~ (0 <= xa_nu_min a <= xa_nu_max a /\ 0 <= xa_v_min a <= xa_v_max a /\ 0 <= xa_L_min a <= xa_L_max a) ->
    RepXspace_Twin RP CG lam rad sph a = Raise ValueError /\
    (forall n, 0 <= match n with NPiPi L => L | _ => 0 end -> xcompute RP CG lam n a = Raise ValueError).
  Proof.
    intros rad sph a H. destruct (xa_check_cases a) as [[V _]|[_ C]]; [contradiction|]. split.
    - unfold RepXspace_Twin. now rewrite C.
    - intros [|L|] HL; cbn [xcompute].
      + unfold RepXspace_Pi. now rewrite C.
      + unfold RepXspace_PiPi. rewrite require_nonnegint_ok by assumption. cbn [bind]. now rewrite C.
      + unfold RepXspace_PiqPi. now rewrite C.
  Qed.
End Twin.

Lemma RadProd_nil Gam Msqrt Minv an l n0 n1 : (0 < l)%R -> 0 <= n0 ->
  exists m, RadProd (Rep_elem Gam Msqrt Minv) [] an l 0 n0 n1 0 = Ok m /\ mat_eq m (eye (n1 - n0 + 1)).
Proof.
  intros Hl Hn. unfold RadProd, RepRadial_Prod_common, RepRadial_Prod_factors.
  destruct (Rle_dec l 0); [lra|]. destruct (Rle_dec (l + IZR 0) 0); [lra|].
  change (Parse_RadialOp_List []) with (Ok (A:=list ktsop) []). cbn [bind].
  change (Lambda_RadialOp_List [] 0) with (Ok (A:=list Z) []). cbn [bind].
  change (insert_id [] []) with (@nil ktsop, @nil Z). cbn [RepRadialshfs_Prod bind].
  unfold factors_mat. cbn [mapM]. unfold factor_mat. cbn [F1 f_elems f_pow mapM fst snd].
  unfold Rep_elem. cbn [bind mprod]. rewrite Z.eqb_refl.
  eexists. split; [reflexivity|]. split; [|split]; cbn [nrows ncols mscale eye]; try lia.
  intros i j Hi Hj. cbn [ent mscale eye powerRZ]. destruct (i =? j); ring.
Qed.

(** The empty word gives the identity matrix if lambda is positive for every
    seniority present, and no matrix otherwise. *)
Theorem C52_empty_word : forall Gam Msqrt Minv CG lam a l,
  0 <= xa_nu_min a <= xa_nu_max a -> 0 <= xa_v_min a <= xa_v_max a -> 0 <= xa_L_min a <= xa_L_max a ->
  lbsSO5r3_rngVvarL (xa_v_min a) (xa_v_max a) (xa_L_min a) (Some (xa_L_max a)) = Ok l ->
  let rd := xa_nu_max a - xa_nu_min a + 1 in
  let twin := RepXspace_Twin (RadProd (Rep_elem Gam Msqrt Minv)) CG lam [] [] a in
  ((forall v al L, In (v, al, L) l -> exists k, lam v = Ok k /\ (0 < xa_lambda_base a + IZR k)%R) ->
   exists D, twin = Ok D /\ mat_eq D (eye (zlen l * rd))) /\
  (forall v al L k, In (v, al, L) l -> lam v = Ok k -> (xa_lambda_base a + IZR k <= 0)%R ->
   forall D, twin <> Ok D).
Proof.
  intros Gam Msqrt Minv CG lam a l Hn Hv HL El rd twin.
  set (RP := RadProd (Rep_elem Gam Msqrt Minv)) in *.
  assert (ES : RepSO5r3_Prod CG (map YSym []) (xa_v_min a) (xa_v_max a) (xa_L_min a) (xa_L_max a) = Ok (eye (zlen l))).
  { rewrite lbs_rngVvarL_some in El by assumption. injection El as <-. now apply C51_product_nil. }
  assert (ENT : forall D, twin = Ok D -> nrows D = zlen l * rd /\ ncols D = zlen l * rd /\
    forall i j x y vf af Lf vi ai Li, 0 <= i -> 0 <= j ->
      nth_error l (Z.to_nat i) = Some (vf, af, Lf) -> nth_error l (Z.to_nat j) = Some (vi, ai, Li) ->
      0 <= x < rd -> 0 <= y < rd -> exists li lf, lam vi = Ok li /\ lam vf = Ok lf /\
        (i <> j -> ent D (i * rd + x) (j * rd + y) = 0%R) /\
        (i = j -> exists m, RP [] (xa_anorm a) (xa_lambda_base a + IZR li)%R (lf - li) (xa_nu_min a) (xa_nu_max a) 0 = Ok m /\
           ent D (i * rd + x) (j * rd + y) = ent m x y)).
  { intros D ED. destruct (C52_twin_entries RP CG lam [] [] a l D El ED) as (S1 & S2 & SM & ES' & V).
    rewrite ES in ES'. injection ES' as <-. split; [exact S1|]. split; [exact S2|].
    intros i j x y vf af Lf vi ai Li Hi Hj Ei Ej Hx Hy.
    destruct (V i j x y vf af Lf vi ai Li Hi Hj Ei Ej Hx Hy) as (li & lf & E1 & E2 & V1 & V2).
    exists li, lf. split; [exact E1|]. split; [exact E2|]. cbn [filter length pow eye ent] in V1, V2. split.
    - intros N. apply V1. replace (i =? j) with false by lia. unfold Rdiv. ring.
    - intros N. rewrite N, Z.eqb_refl in V2. destruct V2 as (m & Em & V2); [lra|]. exists m. split; [exact Em|].
      rewrite N. unfold rd. rewrite V2. field. }
  split.
  - intros H. destruct (C52_twin_defined RP CG lam [] [] a l (eye (zlen l)) Hn El Hv HL ES) as (D & ED).
    { intros i j vf af Lf vi ai Li Hi Hj Ei Ej.
      destruct (H vf af Lf (nth_error_In _ _ Ei)) as (lf & E2 & P2).
      destruct (H vi ai Li (nth_error_In _ _ Ej)) as (li & E1 & P1).
      exists li, lf. split; [exact E1|]. split; [exact E2|]. cbn [eye ent]. intros N.
      destruct (i =? j) eqn:B; [|contradiction]. assert (i = j) by lia. subst i. rewrite Ei in Ej. injection Ej as -> -> ->.
      assert (lf = li) by congruence. subst lf. rewrite Z.sub_diag.
      destruct (RadProd_nil Gam Msqrt Minv (xa_anorm a) _ (xa_nu_min a) (xa_nu_max a) P1 ltac:(lia)) as (m & Em & M1 & M2 & _).
      exists m. auto. }
    exists D. split; [exact ED|]. destruct (ENT D ED) as (S1 & S2 & V). split; [exact S1|]. split; [exact S2|].
    intros p q Hp Hq. rewrite S1 in Hp. rewrite S2 in Hq. assert (Hrd : 0 < rd) by (unfold rd; lia).
    pose proof (Z.div_mod p rd ltac:(lia)) as Dp. pose proof (Z.div_mod q rd ltac:(lia)) as Dq.
    pose proof (Z.mod_pos_bound p rd Hrd) as Bp. pose proof (Z.mod_pos_bound q rd Hrd) as Bq.
    set (i := p / rd) in *. set (j := q / rd) in *. set (x := p mod rd) in *. set (y := q mod rd) in *.
    assert (Hi : 0 <= i < zlen l) by nia. assert (Hj : 0 <= j < zlen l) by nia.
    destruct (label_at_ok l i Hi) as ([[vf af] Lf] & _ & Ei). destruct (label_at_ok l j Hj) as ([[vi ai] Li] & _ & Ej).
    destruct (V i j x y vf af Lf vi ai Li ltac:(lia) ltac:(lia) Ei Ej Bp Bq) as (li & lf & E1 & E2 & V1 & V2).
    replace p with (i * rd + x) by lia. replace q with (j * rd + y) by lia. cbn [eye ent].
    destruct (Z.eq_dec i j) as [B|B].
    + destruct (V2 B) as (m & Em & ->). rewrite <- B in Ej. rewrite Ei in Ej. injection Ej as -> -> ->.
      assert (lf = li) by congruence. subst lf. rewrite Z.sub_diag in Em.
      destruct (H vi ai Li (nth_error_In _ _ Ei)) as (k & E3 & P). assert (k = li) by congruence. subst k.
      destruct (RadProd_nil Gam Msqrt Minv (xa_anorm a) _ (xa_nu_min a) (xa_nu_max a) P ltac:(lia)) as (m' & Em' & M1 & M2 & M3).
      assert (m' = m) by (unfold RP in Em; congruence). subst m'. fold rd in M1, M2, M3.
      cbn [eye nrows ncols] in M1, M2. rewrite M3 by lia. cbn [eye ent]. rewrite B.
      replace (j * rd + x =? j * rd + y) with (x =? y) by lia. reflexivity.
    + rewrite (V1 B). replace (i * rd + x =? j * rd + y) with false by nia. reflexivity.
  - intros v al L k Hin Ek Hk D ED. destruct (ENT D ED) as (_ & _ & V).
    apply In_nth_error in Hin. destruct Hin as (p & Ep).
    destruct (V (Z.of_nat p) (Z.of_nat p) 0 0 v al L v al L) as (li & lf & E1 & E2 & _ & V2);
      try (rewrite Nat2Z.id; exact Ep); try lia; try (unfold rd; lia).
    destruct V2 as (m & Em & _); [reflexivity|]. assert (li = k) by congruence. subst li.
    unfold RP, RadProd, RepRadial_Prod_common in Em. rewrite C21_nonpositive_lambda in Em by (left; exact Hk).
    discriminate.
Qed.

(** A range with two seniorities and a word with both parts. *)
Example C52_case : exists D,
  RepXspace_Twin (fun _ _ l _ _ _ _ => Ok (mkMat 1 1 (fun _ _ => l))) (fun _ _ _ _ _ _ _ _ _ => Ok 1%R) (fun v => Ok v)
    [Radial_b] [SpDiag_sqLdim] (mkXA 1 3 0 0 0 1 0 2) = Ok D /\
  ent D 0 0 = (-3)%R /\ ent D 0 1 = 0%R /\ ent D 1 1 = (- sqrt 5 * 4)%R.
Proof.
  set (RP := fun _ _ l _ _ _ _ => Ok (mkMat 1 1 (fun _ _ => l))).
  set (CG := fun _ _ _ _ _ _ _ _ _ => Ok 1%R). set (a := mkXA 1 3 0 0 0 1 0 2).
  assert (El : lbsSO5r3_rngVvarL 0 1 0 (Some 2) = Ok [(0, 1, 0); (1, 1, 2)]) by reflexivity.
  assert (ES : RepSO5r3_Prod CG (map YSym [SpDiag_sqLdim]) 0 1 0 2
    = Ok (mat_diag [(- sqrt (IZR 1))%R; (- sqrt (IZR 5))%R])).
  { cbn [map]. rewrite C51_product_single by lia. cbn [ys_mat]. rewrite sqLdim_ok by lia. reflexivity. }
  destruct (C52_twin_defined RP CG (fun v => Ok v) [Radial_b] [SpDiag_sqLdim] a _ _ ltac:(cbn; lia) El
    ltac:(cbn; lia) ltac:(cbn; lia) ES) as (D & ED).
  { intros. do 2 eexists. split; [reflexivity|]. split; [reflexivity|]. intros _. eexists.
    split; [reflexivity|]. split; reflexivity. }
  exists D. split; [exact ED|].
  destruct (C52_twin_entries RP CG (fun v => Ok v) [Radial_b] [SpDiag_sqLdim] a _ D El ED) as (_ & _ & SM & ES' & V).
  cbn [a xa_v_min xa_v_max xa_L_min xa_L_max] in ES'. rewrite ES in ES'. injection ES' as <-.
  cbn [filter harmonic_symbol length pow] in V.
  assert (S5 : (sqrt 5 <> 0)%R) by (intros C; apply sqrt_eq_0 in C; lra).
  split; [|split].
  - destruct (V 0 0 0 0 0 1 0 0 1 0) as (li & lf & E1 & E2 & V1 & V2); try reflexivity; try (cbn; lia).
    injection E1 as <-. injection E2 as <-. cbv zeta in V2. cbn in V2. rewrite sqrt_1 in V2.
    destruct V2 as (m & Em & V2); [intros C; unfold Rdiv in C; rewrite Rinv_1 in C; lra|]. injection Em as <-. rewrite V2. cbn. lra.
  - destruct (V 0 1 0 0 0 1 0 1 1 2) as (li & lf & E1 & E2 & V1 & V2); try reflexivity; try (cbn; lia).
    cbv zeta in V1. cbn in V1. apply V1. lra.
  - destruct (V 1 1 0 0 1 1 2 1 1 2) as (li & lf & E1 & E2 & V1 & V2); try reflexivity; try (cbn; lia).
    injection E1 as <-. injection E2 as <-. cbv zeta in V2. cbn in V2.
    change (Pos.to_nat 1) with 1%nat in V2. destruct V2 as (m & Em & V2); [intros C; unfold Rdiv in C; rewrite Rinv_1 in C; apply S5; lra|]. injection Em as <-. rewrite V2. cbn [ent]. lra.
Qed.

(** ** C35: RepXspace_Prod *)

Section Products.
  Variable RP : list rsym -> R -> R -> Z -> Z -> Z -> Z -> res (mat R).
  Variable CG : Z -> Z -> Z -> Z -> Z -> Z -> Z -> Z -> Z -> res R.
  Variable lam : Z -> res Z.
  Variable a : xargs.
  Hypothesis Ha : valid a.

  (** The result of RepXspace_Prod with empty memo tables (C44: with any
      tables that a history without stale entries leaves), of RepXspace_Twin,
      and of the functions of the full-space operators. *)
  Let prod w := fst (RepXspace_Prod RP CG w a (mkX lam [])).
  Let twin rad sph := RepXspace_Twin RP CG lam rad sph a.
  Let full n := xcompute RP CG lam n a.

  Lemma prod_W w : same (prod w) (W RP CG lam a w [] []).
  Proof. apply Prod_W. assumption. Qed.

  (** A word of radial and spherical symbols: its radial symbols, in order, and
      its spherical symbols, in order. *)
  Theorem C35_segment : forall u, Forall in_seg u ->
    same (prod u) (twin (radial_part u) (spherical_part u)).
  Proof.
    intros u Hu. eapply same_trans; [apply prod_W|]. rewrite <- (app_nil_r u) at 1.
    rewrite W_seg by assumption. apply same_refl.
  Qed.

  (** A full-space operator after such a word: the product of the matrix of the
      word (nothing if the word is empty), that of the operator, and that of
      the rest. *)
  Theorem C35_full_space_operator : forall u x n w, Forall in_seg u -> full_of x = Some n ->
    same (prod (u ++ x :: w))
      (let* T := match u with
                 | [] => Ok (eye (zlen (slabels a) * rdim a))
                 | _ => twin (radial_part u) (spherical_part u)
                 end in
       let* X := full n in
       let* N := prod w in
       let* P := matmul T X in
       matmul P N).
  Proof.
    intros u x n w Hu Hx. eapply same_trans; [apply prod_W|]. rewrite W_seg by assumption. cbn [app W].
    rewrite Hx. unfold seg. rewrite parts_nonempty by assumption.
    set (d := zlen (slabels a) * rdim a).
    assert (F : forall T, square d T -> same
      (let* Y := full n in let* N := W RP CG lam a w [] [] in Ok (mm T (mm Y N)))
      (let* X := full n in let* N := prod w in let* P := matmul T X in matmul P N)).
    { intros T HT. destruct (full n) as [Y|e] eqn:EY; cbn [bind]; [|apply same_refl]. apply X_square in EY; [|assumption].
      fold d in EY. pose proof (prod_W w) as E. destruct (W RP CG lam a w [] []) as [N|e] eqn:EN.
      - apply W_square in EN; [|assumption]. fold d in EN. destruct (prod w) as [N'|]; [|contradiction]. cbn [bind same] in *.
        assert (SN' : square d N').
        { destruct E as (A & B & _), EN as [C F]. split; congruence. }
        rewrite (matmul_mm d) by assumption. cbn [bind]. rewrite (matmul_mm d); [|now apply mm_square|assumption].
        cbn [same]. apply mat_eq_sym. eapply mat_eq_trans; [now apply (mm_assoc d)|].
        apply (mm_ext d); [assumption|now apply mm_square|apply mat_eq_refl|].
        apply (mm_ext d); [assumption|assumption|apply mat_eq_refl|exact E].
      - destruct (prod w); [contradiction|]. exact (eq_sym E). }
    destruct u as [|y u].
    - cbn [bind tm].
      assert (SE : square d (eye d)) by (split; reflexivity).
      eapply same_trans; [|apply (F (eye d) SE)]. unfold full.
      destruct (xcompute RP CG lam n a) as [Y|e] eqn:EY; cbn [bind]; [|apply same_refl]. apply X_square in EY; [|assumption].
      destruct (W RP CG lam a w [] []) as [N|e] eqn:EN; cbn [bind]; [|apply same_refl]. apply W_square in EN; [|assumption].
      cbn [same]. apply mat_eq_sym, mm_eye_l. now apply mm_square.
    - change (RepXspace_Twin RP CG lam ([] ++ radial_part (y :: u)) ([] ++ spherical_part (y :: u)) a)
        with (twin (radial_part (y :: u)) (spherical_part (y :: u))).
      destruct (twin (radial_part (y :: u)) (spherical_part (y :: u))) as [T|e] eqn:ET; cbn [bind];
        unfold twin in ET; cbn [app]; rewrite ET; [|apply same_refl].
      cbn [bind tm]. apply F. eapply Twin_square; eassumption.
  Qed.

  (** A symbol of no known class: ValueError, unless the segment before it
      already raises. *)
  Theorem C35_unknown_symbol : forall u k w, Forall in_seg u ->
    prod (u ++ ORad (Radial_other k) :: w) =
    match u with
    | [] => Raise ValueError
    | _ => let* _ := twin (radial_part u) (spherical_part u) in Raise ValueError
    end.
  Proof.
    intros u k w Hu. pose proof (prod_W (u ++ ORad (Radial_other k) :: w)) as E.
    rewrite W_seg in E by assumption. cbn [app W full_of] in E. unfold seg in E. rewrite parts_nonempty in E by assumption.
    destruct u as [|y u]; cbn [bind] in E.
    - destruct (prod ([] ++ ORad (Radial_other k) :: w)) as [m|f]; [contradiction|]. cbv [same bind] in E. now rewrite E.
    - cbn [app] in E |- *. unfold twin.
      destruct (RepXspace_Twin RP CG lam (radial_part (y :: u)) (spherical_part (y :: u)) a) as [T|e];
        destruct (prod (y :: u ++ ORad (Radial_other k) :: w)) as [m|f]; try contradiction;
        cbv [same bind] in E |- *; now rewrite E.
  Qed.

  (** Where the empty word gives the identity (C52_empty_word), the matrix of
      any word is the product at any full-space operator in it. *)
  Theorem C35_split : forall T0 w1 x n w2,
    twin [] [] = Ok T0 -> mat_eq T0 (eye (zlen (slabels a) * rdim a)) -> full_of x = Some n ->
    same (prod (w1 ++ x :: w2))
      (let* A := prod w1 in
       let* X := full n in
       let* N := prod w2 in
       let* P := matmul A X in
       matmul P N).
  Proof.
    intros T0 w1 x n w2 E0 EI Hx. set (d := zlen (slabels a) * rdim a) in *.
    assert (F : forall w1 nu sph, same (W RP CG lam a (w1 ++ x :: w2) nu sph)
      (let* A := W RP CG lam a w1 nu sph in let* Y := full n in let* N := W RP CG lam a w2 [] [] in Ok (mm A (mm Y N)))).
    { clear w1. induction w1 as [|y w1 IH]; intros nu sph; cbn [app].
      - cbn [W]. rewrite Hx. unfold seg. fold (full n).
        destruct (nonempty nu || nonempty sph) eqn:NE.
        + destruct (RepXspace_Twin RP CG lam nu sph a) as [T|e]; cbn [bind]; [|apply same_refl]. apply same_refl.
        + destruct nu; [|discriminate]. destruct sph; [|discriminate]. fold (twin [] []). rewrite E0. cbn [bind].
          destruct (full n) as [Y|e] eqn:EY; cbn [bind]; [|apply same_refl]. apply X_square in EY; [|assumption].
          destruct (W RP CG lam a w2 [] []) as [N|e] eqn:EN; cbn [bind]; [|apply same_refl]. apply W_square in EN; [|assumption].
          cbn [same tm]. fold d in EY, EN. pose proof (mm_square d Y N EY EN) as SP.
          apply mat_eq_sym. eapply mat_eq_trans; [|apply (mm_eye_l d); exact SP].
          apply (mm_ext d); [|assumption|exact EI|apply mat_eq_refl].
          eapply Twin_square; eassumption.
      - cbn [W]. destruct (full_of y) as [m|] eqn:Ey.
        + destruct (seg RP CG lam a nu sph) as [T|e] eqn:ET; cbn [bind]; [|apply same_refl].
          apply seg_square in ET; [|assumption]. fold d in ET.
          fold (full m). destruct (full m) as [Y|e] eqn:EY; cbn [bind]; [|apply same_refl].
          apply X_square in EY; [|assumption]. fold d in EY.
          specialize (IH [] []). destruct (W RP CG lam a w1 [] []) as [A|e] eqn:EA; cbn [bind] in *.
          2:{ destruct (W RP CG lam a (w1 ++ x :: w2) [] []); [contradiction|]. cbn in *. exact IH. }
          apply W_square in EA; [|assumption]. fold d in EA.
          destruct (full n) as [Yn|e] eqn:EYn; cbn [bind] in *.
          2:{ destruct (W RP CG lam a (w1 ++ x :: w2) [] []); [contradiction|]. cbn in *. exact IH. }
          apply X_square in EYn; [|assumption]. fold d in EYn.
          destruct (W RP CG lam a w2 [] []) as [N|e] eqn:EN; cbn [bind] in *.
          2:{ destruct (W RP CG lam a (w1 ++ x :: w2) [] []); [contradiction|]. cbn in *. exact IH. }
          apply W_square in EN; [|assumption]. fold d in EN.
          destruct (W RP CG lam a (w1 ++ x :: w2) [] []) as [Q|e] eqn:EQ; [|contradiction].
          apply W_square in EQ; [|assumption]. fold d in EQ. cbn [bind same] in *.
          pose proof (mm_square d Yn N EYn EN) as S1. pose proof (mm_square d Y A EY EA) as S2.
          apply mat_eq_sym. eapply mat_eq_trans; [apply (tm_assoc a T (mm Y A) ET S2 (mm Yn N) S1)|].
          apply mat_eq_sym.
          apply (tm_ext a); [exact ET|now apply mm_square|].
          apply mat_eq_sym. eapply mat_eq_trans; [apply (mm_assoc d); assumption|].
          apply (mm_ext d); [assumption|now apply mm_square|apply mat_eq_refl|]. apply mat_eq_sym. exact IH.
        + destruct y as [r|h| | | | | |]; try (apply IH); try discriminate. destruct r; try (apply IH).
          destruct (seg RP CG lam a nu sph); cbn [bind]; apply same_refl. }
    eapply same_trans; [apply prod_W|]. eapply same_trans; [apply F|].
    pose proof (prod_W w1) as E1. pose proof (prod_W w2) as E2.
    destruct (W RP CG lam a w1 [] []) as [A|e] eqn:EA; cbn [bind].
    2:{ destruct (prod w1); [contradiction|]. exact (eq_sym E1). }
    destruct (prod w1) as [A'|]; [|contradiction]. cbn [bind].
    destruct (full n) as [Y|e] eqn:EY; cbn [bind]; [|apply same_refl].
    destruct (W RP CG lam a w2 [] []) as [N|e] eqn:EN; cbn [bind].
    2:{ destruct (prod w2); [contradiction|]. exact (eq_sym E2). }
    destruct (prod w2) as [N'|]; [|contradiction]. cbn [bind same] in *.
    apply W_square in EA; [|assumption]. apply W_square in EN; [|assumption]. apply X_square in EY; [|assumption].
    fold d in EA, EN, EY.
    assert (SA : square d A') by (destruct E1 as (P1 & P2 & _), EA as [P3 P4]; split; congruence).
    assert (SN : square d N') by (destruct E2 as (P1 & P2 & _), EN as [P3 P4]; split; congruence).
    rewrite (matmul_mm d) by assumption. cbn [bind]. rewrite (matmul_mm d); [|now apply mm_square|assumption].
    cbn [same]. apply mat_eq_sym. eapply mat_eq_trans; [now apply (mm_assoc d)|].
    apply (mm_ext d); [assumption|now apply mm_square|exact E1|].
    apply (mm_ext d); [assumption|assumption|apply mat_eq_refl|exact E2].
  Qed.
End Products.

(** ** C36: RepXspace_PiPi *)

Section PiPi.
  Variable RP : list rsym -> R -> R -> Z -> Z -> Z -> Z -> res (mat R).
  Variable CG : Z -> Z -> Z -> Z -> Z -> Z -> Z -> Z -> Z -> res R.
  Variable lam : Z -> res Z.

  (** The coefficients of the radial words and the reduced matrix element for a
      change of seniority, as documented (full_operators.py:985-1040). *)
  Definition pipi_radial (v dv : Z) : option (list (R * list rsym)) :=
    if dv =? 2 then Some [(1%R, [Radial_D2b]); (IZR ((v + 2) * (v + 4)), [Radial_bm2]); (IZR (-2 * v - 5), [Radial_bm2; Radial_bDb])]
    else if dv =? -2 then Some [(1%R, [Radial_D2b]); (IZR ((v - 1) * (v + 1)), [Radial_bm2]); (IZR (2 * v + 1), [Radial_bm2; Radial_bDb])]
    else if dv =? 0 then Some [(1%R, [Radial_D2b]); (IZR (- (v + 1) * (v + 2)), [Radial_bm2])]
    else None.
  Definition pipi_reduced (v dv : Z) : res (option R) :=
    if dv =? 2 then QxQred_p2 v else if dv =? -2 then QxQred_m2 v else QxQred_0 v.

  (** Block from label [s] to label [t]. *)
  Definition pipi_connected (PiPi_L : Z) (s t : label) : bool :=
    let '(v_i, _, L_i) := s in let '(v_f, _, L_f) := t in
    (Z.abs (L_f - L_i) <=? PiPi_L) && ((v_f - v_i =? 2) || (v_f - v_i =? -2) || (v_f - v_i =? 0)).

  (** The pairs of positions (column j, row i) with a block, in the order in
      which they are filled in: column by column. *)
  Definition pipi_visits (PiPi_L : Z) (l : list label) : list (Z * Z) :=
    filter (fun p => match nth_error l (Z.to_nat (fst p)), nth_error l (Z.to_nat (snd p)) with
                     | Some s, Some t => pipi_connected PiPi_L s t
                     | _, _ => false
                     end)
      (flat_map (fun j => map (fun i => (j, i)) (py_range 0 (zlen l))) (py_range 0 (zlen l))).

  Lemma pipi_block_shape PiPi_L a s t o : pipi_block RP CG lam a PiPi_L s t = Ok o ->
    match o with
    | None => pipi_connected PiPi_L s t = false
    | Some m => pipi_connected PiPi_L s t = true /\
        let '(v_i, al_i, L_i) := s in let '(v_f, al_f, L_f) := t in
        exists li lf rlc M c g, lam v_i = Ok li /\ lam v_f = Ok lf /\
          pipi_radial v_i (v_f - v_i) = Some rlc /\
          RepRadial_LC RP rlc (xa_anorm a) (xa_lambda_base a + IZR li) (lf - li) (xa_nu_min a) (xa_nu_max a) 0 = Ok M /\
          pipi_reduced v_i (v_f - v_i) = Ok (Some c) /\
          CG v_i al_i L_i 2 1 PiPi_L v_f al_f L_f = Ok g /\
          m = mscale g (mscale (- c) M)
    end.
  Proof.
    destruct s as [[v_i al_i] L_i], t as [[v_f al_f] L_f]. unfold pipi_block, pipi_connected, pipi_radial, pipi_reduced.
    intros H. apply bind_ok in H. destruct H as (li & E1 & H).
    destruct ((PiPi_L <? L_f - L_i) || (L_f - L_i <? - PiPi_L)) eqn:B0.
    { injection H as <-. replace (Z.abs (L_f - L_i) <=? PiPi_L) with false by lia. reflexivity. }
    replace (Z.abs (L_f - L_i) <=? PiPi_L) with true by lia. cbn [andb].
    apply bind_ok in H. destruct H as (lf & E2 & H).
    destruct (v_f - v_i =? 2) eqn:B1; [|destruct (v_f - v_i =? -2) eqn:B2; [|destruct (v_f - v_i =? 0) eqn:B3]].
    4:{ injection H as <-. reflexivity. }
    all: apply bind_ok in H; destruct H as (M & EM & H); apply bind_ok in H; destruct H as (q & Eq & H);
      destruct q as [c|]; [|discriminate]; cbn [to_float bind] in H;
      apply bind_ok in H; destruct H as (g & Eg & H); injection H as <-;
      split; [reflexivity|]; do 6 eexists; repeat (split; [eassumption || reflexivity|]); reflexivity.
  Qed.

  (** Block number [k] (from 0) of the [m] visited blocks carries the sign
      (-1)^(m-k) if the angular momentum is 2, and + otherwise; all other
      entries are zero. *)
  Theorem C36_signs : forall PiPi_L a l D,
    lbsSO5r3_rngVvarL (xa_v_min a) (xa_v_max a) (xa_L_min a) (Some (xa_L_max a)) = Ok l ->
    RepXspace_PiPi RP CG lam PiPi_L a = Ok D ->
    let rd := xa_nu_max a - xa_nu_min a + 1 in
    let vis := pipi_visits PiPi_L l in
    nrows D = zlen l * rd /\ ncols D = zlen l * rd /\
    (forall i j x y, 0 <= i < zlen l -> 0 <= j < zlen l -> 0 <= x < rd -> 0 <= y < rd ->
       ~ In (j, i) vis -> ent D (i * rd + x) (j * rd + y) = 0%R) /\
    (forall k i j x y v_i al_i L_i v_f al_f L_f, nth_error vis k = Some (j, i) -> 0 <= x < rd -> 0 <= y < rd ->
       nth_error l (Z.to_nat j) = Some (v_i, al_i, L_i) -> nth_error l (Z.to_nat i) = Some (v_f, al_f, L_f) ->
       exists li lf rlc M c g, lam v_i = Ok li /\ lam v_f = Ok lf /\
          pipi_radial v_i (v_f - v_i) = Some rlc /\
          RepRadial_LC RP rlc (xa_anorm a) (xa_lambda_base a + IZR li) (lf - li) (xa_nu_min a) (xa_nu_max a) 0 = Ok M /\
          pipi_reduced v_i (v_f - v_i) = Ok (Some c) /\
          CG v_i al_i L_i 2 1 PiPi_L v_f al_f L_f = Ok g /\
          ent D (i * rd + x) (j * rd + y) =
            ((if PiPi_L =? 2 then (-1) ^ (length vis - k) else 1) * (g * (- c) * ent M x y))%R).
  Proof.
    intros PiPi_L a l D El E rd vis.
    assert (HL : 0 <= PiPi_L).
    { destruct (Z_lt_le_dec PiPi_L 0) as [C|C]; [|exact C]. unfold RepXspace_PiPi, require_nonnegint in E.
      replace (PiPi_L <? 0) with true in E by lia. discriminate. }
    assert (Ha : valid a).
    { unfold RepXspace_PiPi in E. rewrite require_nonnegint_ok in E by assumption. cbn [bind] in E.
      destruct (xa_check_cases a) as [[V _]|[_ C]]; [exact V|]. rewrite C in E. discriminate. }
    rewrite xa_labels in El by assumption. injection El as <-.
    rewrite PiPi_asm in E by assumption. set (blk := at2 (slabels a) (pipi_block RP CG lam a PiPi_L)) in *.
    destruct (asm_value _ _ (zlen_nonneg _) (proj2 (xa_rdim a Ha)) _ _ _ E) as ([S1 S2] & G & V0 & V1).
    change (rdim a) with rd in *.
    assert (EV : filter (visited blk) (pairs (zlen (slabels a))) = vis).
    { unfold vis, pipi_visits. fold (pairs (zlen (slabels a))). apply filter_ext_in. intros [j i] Hp. cbn [fst snd].
      apply pairs_In in Hp. destruct Hp as [Hj Hi]. destruct (G j i Hj Hi) as (o & Eo & _). cbn [fst snd] in Eo.
      unfold visited. cbn [fst snd]. rewrite Eo. unfold blk in Eo.
      destruct (label_at_ok (slabels a) i Hi) as (t & _ & Ei). destruct (label_at_ok (slabels a) j Hj) as (s & _ & Ej).
      rewrite (at2_ok _ _ _ _ _ _ Ej Ei) in Eo. rewrite Ei, Ej. apply pipi_block_shape in Eo.
      destruct o; [symmetry; apply Eo|now rewrite Eo]. }
    rewrite EV in V1.
    split; [exact S1|]. split; [exact S2|]. split.
    - intros i j x y Hi Hj Hx Hy N. apply V0; try assumption.
      destruct (G j i Hj Hi) as (o & Eo & _). cbn [fst snd] in Eo. destruct o as [m|]; [|exact Eo].
      exfalso. apply N. rewrite <- EV. apply filter_In. split; [now apply pairs_In|]. unfold visited. cbn [fst snd].
      now rewrite Eo.
    - intros k i j x y v_i al_i L_i v_f al_f L_f Hk Hx Hy Ej Ei.
      assert (Hin : In (j, i) vis) by (eapply nth_error_In; eassumption).
      rewrite <- EV in Hin. apply filter_In in Hin. destruct Hin as [Hp Hv]. apply pairs_In in Hp. destruct Hp as [Hj Hi].
      destruct (G j i Hj Hi) as (o & Eo & _). cbn [fst snd] in Eo. unfold visited in Hv. cbn [fst snd] in Hv.
      rewrite Eo in Hv. destruct o as [m|]; [|discriminate].
      specialize (V1 k j i m x y Hx Hy Hk Eo). unfold blk in Eo. rewrite (at2_ok _ _ _ _ _ _ Ej Ei) in Eo.
      apply pipi_block_shape in Eo. destruct Eo as (_ & li & lf & rlc & M & c & g & A1 & A2 & A3 & A4 & A5 & A6 & ->).
      exists li, lf, rlc, M, c, g. repeat (split; [assumption|]). rewrite V1.
      unfold mscale. cbn [ent]. unfold sgn.
      assert (Hlt : (k < length vis)%nat) by (apply nth_error_Some; congruence).
      destruct (PiPi_L =? 2); [|ring].
      replace (zlen vis - Z.of_nat k) with (Z.of_nat (length vis - k)) by (unfold zlen; lia).
      rewrite <- m1pow_sg. unfold m1pow. rewrite <- pow_powerRZ. ring.
  Qed.
End PiPi.

Print Assumptions C52_twin_entries.
Print Assumptions C52_twin_defined.
Print Assumptions C52_ranges.
Print Assumptions C52_empty_word.
Print Assumptions C35_segment.
Print Assumptions C35_full_space_operator.
Print Assumptions C35_unknown_symbol.
Print Assumptions C35_split.
Print Assumptions C36_signs.
