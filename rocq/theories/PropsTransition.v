(** C79: the matrices of an operator "radial word times one spherical harmonic",
    in particular of the quadrupole operator used for transition rates. *)

From Coq Require Import Reals Lra.
From Coq Require Import Lia ZifyBool ZifyNat.
From Coquelicot Require Import Coquelicot.
From Verif Require Import PyBase PyFacts Compat SphericalSpec Spherical SphericalFacts PropsSpherical Matrix RadialME
  RadialMESpec RadialMEFacts FullLabels FullLabelsFacts PropsFullLabels RadialOps PropsRadialOps Operators FullOps CGSpec ReducedSpec ReducedFacts
  PropsReduced PropsHarmonics FullOpsFacts FullOpsBlocks FullOpsMemo FullOpsProd RadialWords PropsFullOps PropsHistory RadialSums
  Improper WaveSpec PropsWaves Settings.
Open Scope Z_scope.
Ltac Zify.zify_post_hook ::= Z.div_mod_to_equations.

Lemma mapM_total {A B} (f : A -> res B) l : (forall x, In x l -> exists y, f x = Ok y) -> exists ys, mapM f l = Ok ys.
Proof.
  induction l as [|x l IH]; intros H; [eexists; reflexivity|].
  destruct (H x ltac:(now left)) as (y & E). destruct IH as (ys & E2); [intros; apply H; now right|].
  exists (y :: ys). cbn [mapM]. now rewrite E, E2.
Qed.

Section OneTerm.
  Variable RP : list rsym -> R -> R -> Z -> Z -> Z -> Z -> res (mat R).
  Variable CG : Z -> Z -> Z -> Z -> Z -> Z -> Z -> Z -> Z -> res R.
  Variable lam : Z -> res Z.
  Variables (an lb : R) (nu_min nu_max v_min v_max L_min L_max : Z).
  Hypothesis Hnu : 0 <= nu_min <= nu_max.
  Hypothesis Hv : 0 <= v_min <= v_max.
  Hypothesis HL : 0 <= L_min <= L_max.
  Let a := mkXA an lb nu_min nu_max v_min v_max L_min L_max.
  Let rd := nu_max - nu_min + 1.

  (** The entry of c * (radial word w) * Y between two basis states is c / 4 pi
      times the matrix element of Y (Clebsch-Gordan coefficient times SO(5)-reduced
      element) times that of w between the radial states. *)
  Theorem C79_factorises : forall (c : R) (w : list rsym) (h : sharm) vy ay Ly X D,
    Forall plain_symbol w -> SpHarm_Table h = (vy, ay, Ly) ->
    lbsXspace nu_min nu_max v_min v_max L_min (Some L_max) = Ok X ->
    fst (RepXspace RP CG [(CNum c, map ORad w ++ [OSph h])] an lb nu_min nu_max v_min v_max L_min (Some L_max) (mkX lam [])) = Ok D ->
    nrows D = zlen X /\ ncols D = zlen X /\
    forall p q nf vf af Lf ni vi ai Li, 0 <= p -> 0 <= q ->
      nth_error X (Z.to_nat p) = Some (nf, (vf, af, Lf)) -> nth_error X (Z.to_nat q) = Some (ni, (vi, ai, Li)) ->
      exists g m li lf, CG vi ai Li vy ay Ly vf af Lf = Ok g /\ ME_SO5red vf vy vi = Ok (Some m) /\
        lam vi = Ok li /\ lam vf = Ok lf /\
        ((g * m = 0)%R -> ent D p q = 0%R) /\
        ((g * m <> 0)%R -> exists M, RP w an (lb + IZR li)%R (lf - li) nu_min nu_max 0 = Ok M /\
           ent D p q = (c / (4 * PI) * (g * m) * ent M (nf - nu_min) (ni - nu_min))%R).
  Proof.
    intros c w h vy ay Ly X D Hw Eh EX ED.
    destruct (C54_linear RP CG lam an lb nu_min nu_max v_min v_max L_min L_max Hnu Hv HL [(CNum c, map ORad w ++ [OSph h])] X EX) as (_ & VAL).
    destruct (VAL D ED) as (Ms & F & S1 & S2 & EV). clear VAL. inversion F as [|t M l0 l0' HM F' E0 E0']; subst. inversion F'; subst. clear F F'.
    cbn [snd] in HM. fold a in HM.
    pose proof (C35_segment RP CG lam a (lin_valid an lb nu_min nu_max v_min v_max L_min L_max Hnu Hv HL) (map ORad w ++ [OSph h])) as S.
    assert (Hs : Forall in_seg (map ORad w ++ [OSph h])).
    { apply Forall_app. split; [|constructor; [exact Logic.I|constructor]]. clear - Hw.
      induction Hw as [|r w H _ IH]; constructor; [destruct r; exact H|exact IH]. }
    specialize (S Hs). cbv beta zeta in S. change (fst (RepXspace_Prod RP CG (map ORad w ++ [OSph h]) a (mkX lam [])) = Ok M) in HM. rewrite HM in S.
    assert (R1 : radial_part (map ORad w ++ [OSph h]) = w).
    { pose proof (radial_part_map w) as Q. unfold radial_part in *. now rewrite flat_map_app, Q, app_nil_r. }
    assert (R2 : spherical_part (map ORad w ++ [OSph h]) = [OSph h]).
    { pose proof (spherical_part_map w) as Q. unfold spherical_part in *. now rewrite filter_app, Q. }
    rewrite R1, R2 in S.
    destruct (RepXspace_Twin RP CG lam w [OSph h] a) as [T|e] eqn:ET; [|contradiction]. cbn [same] in S. destruct S as (A & B & C).
    assert (El : lbsSO5r3_rngVvarL v_min v_max L_min (Some L_max) = Ok (lbs v_min v_max L_min L_max)) by now apply lbs_rngVvarL_some.
    destruct (C52_twin_entries RP CG lam w [OSph h] a _ T El ET) as (T1 & T2 & SM & ES & VV).
    split; [exact S1|]. split; [exact S2|].
    intros p q nf vf af Lf ni vi ai Li Hp Hq Ep Eq.
    destruct (position _ _ _ _ _ _ X p _ Hnu Hv HL EX Hp Ep) as (Bp & Lp & Np). destruct (position _ _ _ _ _ _ X q _ Hnu Hv HL EX Hq Eq) as (Bq & Lq & Nq).
    fold rd in Lp, Np, Lq, Nq. cbn [fst snd] in *.
    assert (Hrd : 0 < rd) by (unfold rd; lia).
    pose proof (Z.mod_pos_bound p rd Hrd). pose proof (Z.div_mod p rd ltac:(lia)).
    pose proof (Z.mod_pos_bound q rd Hrd). pose proof (Z.div_mod q rd ltac:(lia)).
    assert (0 <= p / rd) by (apply Z.div_pos; lia). assert (0 <= q / rd) by (apply Z.div_pos; lia).
    destruct (VV (p / rd) (q / rd) (p mod rd) (q mod rd) vf af Lf vi ai Li ltac:(lia) ltac:(lia) Lp Lq) as (li & lf & E1 & E2 & V1 & V2);
      [cbn; fold rd; lia|cbn; fold rd; lia|].
    cbn [a xa_v_min xa_v_max xa_L_min xa_L_max xa_nu_min xa_nu_max xa_anorm xa_lambda_base map] in *. fold rd in V1, V2, T1, T2.
    rewrite C51_designators, Eh in ES by assumption. cbn [fst snd] in ES.
    destruct (C51_matrix _ _ _ _ _ _ _ _ _ _ El ES) as (_ & _ & ME).
    pose proof (ME (p / rd) (q / rd) _ _ _ _ _ _ ltac:(lia) ltac:(lia) Lp Lq) as Q.
    unfold ME_SO5r3 in Q. destruct (CG vi ai Li vy ay Ly vf af Lf) as [g|] eqn:EG; [|discriminate]. cbn [bind] in Q.
    destruct (ME_SO5red vf vy vi) as [[m|]|] eqn:EM; try discriminate. cbn [bind] in Q. injection Q as Q.
    exists g, m, li, lf. split; [reflexivity|]. split; [reflexivity|]. split; [exact E1|]. split; [exact E2|].
    rewrite <- Q in V1, V2. cbn [filter harmonic_symbol length pow] in V1, V2.
    replace (p / rd * rd + p mod rd) with p in V1, V2 by lia. replace (q / rd * rd + q mod rd) with q in V1, V2 by lia.
    rewrite (EV p q _ Bp Hq Eq). unfold weighted. cbn [combine map fold_right fst snd cval].
    assert (HMT : ent M p q = ent T p q).
    { symmetry. assert (ent M p q = ent T p q); [|congruence]. apply C; [rewrite A, T1|rewrite B, T2].
      - destruct (C06_layout _ _ _ _ _ _ Hnu Hv HL) as (X' & sp & E3 & Es & Hl & _).
        rewrite EX in E3. injection E3 as <-. rewrite El in Es. injection Es as <-.
        assert (dimRadial nu_min nu_max = rd) as Hd by (unfold dimRadial, rd; replace (nu_min <=? nu_max) with true by lia; reflexivity).
        rewrite Hd in Hl. lia.
      - destruct (C06_layout _ _ _ _ _ _ Hnu Hv HL) as (X' & sp & E3 & Es & Hl & _).
        rewrite EX in E3. injection E3 as <-. rewrite El in Es. injection Es as <-.
        assert (dimRadial nu_min nu_max = rd) as Hd by (unfold dimRadial, rd; replace (nu_min <=? nu_max) with true by lia; reflexivity).
        rewrite Hd in Hl. lia. }
    rewrite HMT. pose proof PI_RGT_0 as HPI. split.
    - intros Z0. rewrite V1; [ring|]. rewrite Z0. unfold Rdiv. ring.
    - intros N0. destruct V2 as (M0 & EM0 & V2).
      { intros Z0. apply N0. apply (Rmult_eq_reg_r (/ (4 * PI * 1))); [|apply Rinv_neq_0_compat; lra]. unfold Rdiv in Z0. rewrite Z0. ring. }
      exists M0. split; [exact EM0|]. rewrite V2. replace (nf - nu_min) with (p mod rd) by lia. replace (ni - nu_min) with (q mod rd) by lia.
      field. lra.
  Qed.

  (** The matrix exists if the Clebsch-Gordan coefficients, lambda and the radial
      matrices needed exist. *)
  Theorem C79_defined : forall (c : R) (w : list rsym) (h : sharm) vy ay Ly,
    Forall plain_symbol w -> SpHarm_Table h = (vy, ay, Ly) ->
    (forall v, v_min <= v <= v_max -> exists k, lam v = Ok k) ->
    (forall vf af Lf vi ai Li, In (vf, af, Lf) (lbs v_min v_max L_min L_max) -> In (vi, ai, Li) (lbs v_min v_max L_min L_max) -> exists g, CG vi ai Li vy ay Ly vf af Lf = Ok g) ->
    (forall vf vi lf li m, v_min <= vf <= v_max -> v_min <= vi <= v_max -> lam vi = Ok li -> lam vf = Ok lf ->
       ME_SO5red vf vy vi = Ok (Some m) -> m <> 0%R ->
       exists M, RP w an (lb + IZR li)%R (lf - li) nu_min nu_max 0 = Ok M /\ nrows M = nu_max - nu_min + 1 /\ ncols M = nu_max - nu_min + 1) ->
    exists D, fst (RepXspace RP CG [(CNum c, map ORad w ++ [OSph h])] an lb nu_min nu_max v_min v_max L_min (Some L_max) (mkX lam [])) = Ok D.
  Proof.
    intros c w h vy ay Ly Hw Eh Hlam Hcg Hrad.
    destruct (C06_layout _ _ _ _ _ _ Hnu Hv HL) as (X & sp & EX & _).
    destruct (C54_linear RP CG lam an lb nu_min nu_max v_min v_max L_min L_max Hnu Hv HL [(CNum c, map ORad w ++ [OSph h])] X EX) as (DEF & _).
    apply DEF. intros t [<-|[]]. cbn [snd].
    pose proof (C35_segment RP CG lam a (lin_valid an lb nu_min nu_max v_min v_max L_min L_max Hnu Hv HL) (map ORad w ++ [OSph h])) as S.
    assert (Hs : Forall in_seg (map ORad w ++ [OSph h])).
    { apply Forall_app. split; [|constructor; [exact Logic.I|constructor]]. clear - Hw.
      induction Hw as [|r w H _ IH]; constructor; [destruct r; exact H|exact IH]. }
    specialize (S Hs). cbv beta zeta in S.
    assert (R1 : radial_part (map ORad w ++ [OSph h]) = w).
    { pose proof (radial_part_map w) as Q. unfold radial_part in *. now rewrite flat_map_app, Q, app_nil_r. }
    assert (R2 : spherical_part (map ORad w ++ [OSph h]) = [OSph h]).
    { pose proof (spherical_part_map w) as Q. unfold spherical_part in *. now rewrite filter_app, Q. }
    rewrite R1, R2 in S.
    assert (Hy : 0 <= vy) by (destruct h; injection Eh as <- <- <-; lia).
    assert (El : lbsSO5r3_rngVvarL v_min v_max L_min (Some L_max) = Ok (lbs v_min v_max L_min L_max)) by now apply lbs_rngVvarL_some.
    assert (MEd : forall vf vi, 0 <= vf -> 0 <= vi -> ME_SO5red vf vy vi = Ok (Some (me vf vy vi))) by (intros; now apply me_ok).
    assert (ES : exists SM, RepSO5r3_Prod CG (map YSym [OSph h]) v_min v_max L_min L_max = Ok SM).
    { cbn [map]. rewrite C51_designators, Eh by assumption. cbn [fst snd]. unfold RepSO5_Y. rewrite El. cbn [bind].
      match goal with |- context [mapM ?f ?l] => assert (G : exists rows, mapM f l = Ok rows) end.
      { apply mapM_total. intros [[vf af] Lf] Hf. apply mapM_total. intros [[vi ai] Li] Hi.
        destruct (Hcg vf af Lf vi ai Li Hf Hi) as (g & Eg). apply in_lbs in Hf, Hi. unfold ME_SO5r3. rewrite Eg. cbn [bind].
        rewrite MEd by lia. eexists; reflexivity. }
      destruct G as (rows & ->). eexists; reflexivity. }
    destruct ES as (SM & ES).
    assert (DT : exists T, RepXspace_Twin RP CG lam w [OSph h] a = Ok T).
    { apply (C52_twin_defined RP CG lam w [OSph h] a (lbs v_min v_max L_min L_max) SM Hnu El Hv HL ES).
      intros i j vf af Lf vi ai Li Hi Hj Ei Ej.
      pose proof (in_lbs _ _ _ _ _ _ _ (nth_error_In _ _ Ei)) as Bf. pose proof (in_lbs _ _ _ _ _ _ _ (nth_error_In _ _ Ej)) as Bi.
      destruct (Hlam vi Bi) as (li & E1). destruct (Hlam vf Bf) as (lf & E2). exists li, lf. split; [exact E1|]. split; [exact E2|].
      intros N. cbn [map] in ES. rewrite C51_designators, Eh in ES by assumption. cbn [fst snd] in ES.
      destruct (C51_matrix _ _ _ _ _ _ _ _ _ _ El ES) as (_ & _ & ME).
      pose proof (ME i j _ _ _ _ _ _ Hi Hj Ei Ej) as Q. unfold ME_SO5r3 in Q.
      destruct (CG vi ai Li vy ay Ly vf af Lf) as [g|]; [|discriminate]. cbn [bind] in Q.
      rewrite MEd in Q by lia. cbn [bind] in Q. injection Q as Q.
      apply (Hrad vf vi lf li (me vf vy vi) Bf Bi E1 E2); [apply MEd; lia|]. intros Z0. apply N. rewrite <- Q, Z0. ring. }
    destruct DT as (T & ET). rewrite ET in S.
    destruct (fst (RepXspace_Prod RP CG (map ORad w ++ [OSph h]) a (mkX lam []))) as [D|] eqn:E; [|contradiction]. eauto.
  Qed.
End OneTerm.

(** The operators of the library. *)
Definition space_of (an lb : R) (nu_min nu_max v_min v_max L_min L_max : Z) (op : OperatorSum) Msqrt Minv CG lam : res (mat R) :=
  fst (RepXspace (RadProd (Rep_elem Gamma Msqrt Minv)) CG op an lb nu_min nu_max v_min v_max L_min (Some L_max) (mkX lam [])).

(** beta, 1/beta and d/dbeta between bases whose lambdas differ by one. *)
Lemma ladder Msqrt Minv s an l var n0 n1 : s = Radial_b \/ s = Radial_bm \/ s = Radial_Db -> var = 1 \/ var = -1 ->
  (0 < an)%R -> (0 < l)%R -> (0 < l + IZR var)%R -> 0 <= n0 <= n1 ->
  exists E, radial_matrix (RadProd (Rep_elem Gamma Msqrt Minv) [s] an l var n0 n1 0) n0 n1 E /\
    elements an (l + IZR var) l (sym_fop an l s) E.
Proof.
  intros Hs Hv Ha Hl Hlv Hn.
  assert (INV : powerRZ an (-1) = (/ an)%R) by (change (powerRZ an (-1)) with (/ (an ^ 1))%R; now rewrite pow_1).
  assert (ID : powerRZ an 1 = an) by (change (powerRZ an 1) with (an ^ 1)%R; now rewrite pow_1).
  destruct Hv as [-> | ->].
  - destruct Hs as [-> |[-> | ->]].
    + destruct (C76_beta an l Ha Hl) as (up & _ & R & EL & _). exists (fun f i => (powerRZ an (-1) * up f i)%R). split.
      * apply (word_one Gamma Msqrt Minv n0 n1 Hn _ 1 0 M_b_pl (-1) _ _ _ ME_Radial_b_pl); try reflexivity; assumption.
      * intros f i Hf Hi. rewrite INV. now apply EL.
    + destruct (C76_inverse an l Ha Hl) as (up & _ & R & EL & _). exists (fun f i => (powerRZ an 1 * up f i)%R). split.
      * apply (word_one Gamma Msqrt Minv n0 n1 Hn _ (-1) 0 M_bm_pl 1 _ _ _ (ME_Radial_bm_pl Gamma)); try reflexivity; assumption.
      * intros f i Hf Hi. rewrite ID. now apply EL.
    + destruct (C76_derivative an l Ha Hl) as (up & _ & R & EL & _). exists (fun f i => (powerRZ an 1 * up f i)%R). split.
      * apply (word_one Gamma Msqrt Minv n0 n1 Hn _ 0 1 M_Db_pl 1 _ _ _ (ME_Radial_Db_pl Gamma)); try reflexivity; assumption.
      * intros f i Hf Hi. rewrite ID. now apply EL.
  - set (k := (l + -1)%R) in *. assert (EK : (k + 1 = l)%R) by (unfold k; ring).
    destruct Hs as [-> |[-> | ->]].
    + destruct (C76_beta an k Ha Hlv) as (_ & dn & _ & _ & R & EL). rewrite EK in R, EL. exists (fun f i => (powerRZ an (-1) * dn f i)%R). split.
      * apply (word_one Gamma Msqrt Minv n0 n1 Hn _ 1 0 M_b_ml (-1) _ _ _ ME_Radial_b_ml); try reflexivity; assumption.
      * intros f i Hf Hi. rewrite INV. now apply EL.
    + destruct (C76_inverse an k Ha Hlv) as (_ & dn & _ & _ & R & EL). rewrite EK in R, EL. exists (fun f i => (powerRZ an 1 * dn f i)%R). split.
      * apply (word_one Gamma Msqrt Minv n0 n1 Hn _ (-1) 0 M_bm_ml 1 _ _ _ (ME_Radial_bm_ml Gamma)); try reflexivity; assumption.
      * intros f i Hf Hi. rewrite ID. now apply EL.
    + destruct (C76_derivative an k Ha Hlv) as (_ & dn & _ & _ & R & EL). rewrite EK in R, EL. exists (fun f i => (powerRZ an 1 * dn f i)%R). split.
      * apply (word_one Gamma Msqrt Minv n0 n1 Hn _ 0 1 M_Db_ml 1 _ _ _ (ME_Radial_Db_ml Gamma)); try reflexivity; assumption.
      * intros f i Hf Hi. rewrite ID. now apply EL.
Qed.

Section LadderHarmonic.
  Variables Msqrt Minv : mat R -> res (mat R).
  Variable CG : Z -> Z -> Z -> Z -> Z -> Z -> Z -> Z -> Z -> res R.
  Variable lam : Z -> res Z.
  Variables (an lb : R) (nu_min nu_max v_min v_max L_min L_max : Z).
  Hypothesis Han : (0 < an)%R.
  Hypothesis Hnu : 0 <= nu_min <= nu_max.
  Hypothesis Hv : 0 <= v_min <= v_max.
  Hypothesis HL : 0 <= L_min <= L_max.
  Hypothesis Hlam : forall v, v_min <= v <= v_max -> exists k, lam v = Ok k /\ (0 < lb + IZR k)%R.


  (** beta, 1/beta or d/dbeta times one harmonic, when lambda changes by one wherever the harmonic
      has a reduced matrix element. *)
  Theorem C79_ladder_harmonic : forall (c : R) (s : rsym) (h : sharm) vy ay Ly, s = Radial_b \/ s = Radial_bm \/ s = Radial_Db -> SpHarm_Table h = (vy, ay, Ly) ->
    (forall vf af Lf vi ai Li, v_min <= vf <= v_max -> v_min <= vi <= v_max -> exists g, CG vi ai Li vy ay Ly vf af Lf = Ok g) ->
    (forall vf vi kf ki m, v_min <= vf <= v_max -> v_min <= vi <= v_max -> lam vf = Ok kf -> lam vi = Ok ki ->
       ME_SO5red vf vy vi = Ok (Some m) -> m <> 0%R -> Z.abs (kf - ki) = 1) ->
    forall X, lbsXspace nu_min nu_max v_min v_max L_min (Some L_max) = Ok X ->
    exists D, space_of an lb nu_min nu_max v_min v_max L_min L_max [(CNum c, [ORad s; OSph h])] Msqrt Minv CG lam = Ok D /\
      nrows D = zlen X /\ ncols D = zlen X /\
      forall p q nf vf af Lf ni vi ai Li, 0 <= p -> 0 <= q ->
        nth_error X (Z.to_nat p) = Some (nf, (vf, af, Lf)) -> nth_error X (Z.to_nat q) = Some (ni, (vi, ai, Li)) ->
        exists g m kf ki I, CG vi ai Li vy ay Ly vf af Lf = Ok g /\ ME_SO5red vf vy vi = Ok (Some m) /\
          lam vf = Ok kf /\ lam vi = Ok ki /\
          (m <> 0%R -> integral (fun b => wave an (lb + IZR kf) nf b * sym_fop an (lb + IZR ki) s (wave an (lb + IZR ki) ni) b)%R I) /\
          ent D p q = (c / (4 * PI) * m * g * I)%R.
  Proof.
    intros c s h vy ay Ly Hs Eh Hcg Hstep X EX. unfold space_of.
    set (RP := RadProd (Rep_elem Gamma Msqrt Minv)).
    assert (ST : forall vf vi kf ki m, v_min <= vf <= v_max -> v_min <= vi <= v_max -> lam vi = Ok ki -> lam vf = Ok kf ->
      ME_SO5red vf vy vi = Ok (Some m) -> m <> 0%R ->
      exists E, radial_matrix (RP [s] an (lb + IZR ki)%R (kf - ki) nu_min nu_max 0) nu_min nu_max E /\
        elements an (lb + IZR kf) (lb + IZR ki) (sym_fop an (lb + IZR ki) s) E).
    { intros vf vi kf ki m Bf Bi Ei Ef Em Nm.
      destruct (Hlam vf Bf) as (k1 & E1 & P1). rewrite Ef in E1. injection E1 as <-.
      destruct (Hlam vi Bi) as (k2 & E2 & P2). rewrite Ei in E2. injection E2 as <-.
      pose proof (Hstep vf vi kf ki m Bf Bi Ef Ei Em Nm) as K.
      assert (KE : (lb + IZR kf = lb + IZR ki + IZR (kf - ki))%R) by (rewrite minus_IZR; ring).
      rewrite KE. apply ladder; [exact Hs|lia|exact Han|exact P2|now rewrite <- KE|exact Hnu]. }
    destruct (C79_defined RP CG lam an lb nu_min nu_max v_min v_max L_min L_max Hnu Hv HL c [s] h vy ay Ly) as (D & ED).
    - constructor; [destruct Hs as [-> |[-> | ->]]; exact Logic.I|constructor].
    - exact Eh.
    - intros v B. destruct (Hlam v B) as (k & E & _). eauto.
    - intros vf af Lf vi ai Li If Ii. apply Hcg; eapply in_lbs; eassumption.
    - intros vf vi lf li m Bf Bi Ei Ef Em N. destruct (ST vf vi lf li m Bf Bi Ei Ef Em N) as (E & (M & EM & A & B & _) & _). eauto.
    - exists D. split; [exact ED|].
      destruct (C79_factorises RP CG lam an lb nu_min nu_max v_min v_max L_min L_max Hnu Hv HL c [s] h vy ay Ly X D
        ltac:(constructor; [destruct Hs as [-> |[-> | ->]]; exact Logic.I|constructor]) Eh EX ED) as (S1 & S2 & VV).
      split; [exact S1|]. split; [exact S2|]. intros p q nf vf af Lf ni vi ai Li Hp Hq Ep Eq.
      destruct (VV p q nf vf af Lf ni vi ai Li Hp Hq Ep Eq) as (g & m & ki & kf & Eg & Em & Ei & Ef & V1 & V2).
      destruct (position _ _ _ _ _ _ X p _ Hnu Hv HL EX Hp Ep) as (Bp & Lp & Np). destruct (position _ _ _ _ _ _ X q _ Hnu Hv HL EX Hq Eq) as (Bq & Lq & Nq).
      cbn [fst snd] in *. pose proof (in_lbs _ _ _ _ _ _ _ (nth_error_In _ _ Lp)) as Bf. pose proof (in_lbs _ _ _ _ _ _ _ (nth_error_In _ _ Lq)) as Bi.
      pose proof (Z.mod_pos_bound p (nu_max - nu_min + 1) ltac:(lia)). pose proof (Z.mod_pos_bound q (nu_max - nu_min + 1) ltac:(lia)).
      destruct (Req_EM_T m 0) as [Zm|Nm].
      + subst m. exists g, 0%R, kf, ki, 0%R. repeat (split; [assumption|]). split; [congruence|]. rewrite V1; ring.
      + destruct (ST vf vi kf ki m Bf Bi Ei Ef Em Nm) as (E & (M & EM & A & B & C) & EL).
        exists g, m, kf, ki, (E nf ni). repeat (split; [assumption|]). split.
        * intros _. apply EL; lia.
        * destruct (Req_EM_T (g * m) 0) as [Z0|Z0].
          -- rewrite (V1 Z0). replace (c / (4 * PI) * m * g * E nf ni)%R with (c / (4 * PI) * E nf ni * (g * m))%R by ring. rewrite Z0. ring.
          -- destruct (V2 Z0) as (M' & EM' & ->). rewrite EM in EM'. injection EM' as <-.
             rewrite C by lia. replace (nu_min + (nf - nu_min)) with nf by lia. replace (nu_min + (ni - nu_min)) with ni by lia. ring.
  Qed.
End LadderHarmonic.

Section Quadrupole.
  Variables Msqrt Minv : mat R -> res (mat R).
  Variable CG : Z -> Z -> Z -> Z -> Z -> Z -> Z -> Z -> Z -> res R.
  Variable lam : Z -> res Z.
  Variables (an lb : R) (nu_min nu_max v_min v_max L_min L_max : Z).
  Hypothesis Han : (0 < an)%R.
  Hypothesis Hnu : 0 <= nu_min <= nu_max.
  Hypothesis Hv : 0 <= v_min <= v_max.
  Hypothesis HL : 0 <= L_min <= L_max.
  Hypothesis Hcg : forall vf af Lf vi ai Li, v_min <= vf <= v_max -> v_min <= vi <= v_max ->
    exists g, CG vi ai Li 1 1 2 vf af Lf = Ok g.
  Hypothesis Hlam : forall v, v_min <= v <= v_max -> exists k, lam v = Ok k /\ (0 < lb + IZR k)%R.

  (** The SO(5)-reduced element of the unit quadrupole tensor. *)
  Definition unit_q (vf vi : Z) : R :=
    if vf =? vi + 1 then sqrt (IZR (vi + 1) / IZR (2 * vi + 5))
    else if vf =? vi - 1 then sqrt (IZR (vi + 2) / IZR (2 * vi + 1)) else 0%R.

  Lemma unit_me vf vi m : 0 <= vf -> 0 <= vi -> ME_SO5red vf 1 vi = Ok (Some m) ->
    (Convert_112 / (4 * PI) * m = unit_q vf vi)%R /\ (m <> 0%R -> vf = vi + 1 \/ vf = vi - 1).
  Proof.
    intros Hf Hi E. pose proof PI_RGT_0 as HPI. assert (S15 : (0 < sqrt 15)%R) by (apply sqrt_lt_R0; lra).
    replace (Convert_112 / (4 * PI) * m)%R with (/ sqrt 15 * m)%R by (unfold Convert_112, FourPi; field; lra).
    destruct (C29_ME_total vf 1 vi Hf ltac:(lia) Hi) as (m' & E' & _ & TR). rewrite E in E'. injection E' as <-.
    assert (SQ : forall x p q, (0 <= x)%R -> (x * x = p / q)%R -> x = sqrt (p / q)).
    { intros x p q Hx Hxx. rewrite <- Hxx. symmetry. now apply sqrt_square. }
    destruct (C29_Q vi Hi) as (A & B). unfold unit_q.
    destruct (vf =? vi + 1) eqn:E1; [|destruct (vf =? vi - 1) eqn:E2].
    - split; [|intros _; lia]. destruct A as (q & m2 & Eq & Em & Q). replace (vi + 1) with vf in Em by lia.
      rewrite E in Em. injection Em as <-. rewrite <- Q. unfold Qred_p1 in Eq. rewrite require_nonnegint_ok in Eq by lia. cbn [bind] in Eq.
      destruct (sqrt_rational_ok (vi + 1) (2 * vi + 5) ltac:(lia) ltac:(lia)) as (q2 & Eq2 & P2 & S2). rewrite Eq2 in Eq. injection Eq as <-.
      now apply SQ.
    - split; [|intros _; lia]. destruct (B ltac:(lia)) as (q & m2 & Eq & Em & Q). replace (vi + -1) with vf in Em by lia.
      rewrite E in Em. injection Em as <-. rewrite <- Q. unfold Qred_m1 in Eq. rewrite require_nonnegint_ok in Eq by lia. cbn [bind] in Eq.
      destruct (sqrt_rational_ok (vi + 2) (2 * vi + 1) ltac:(lia) ltac:(lia)) as (q2 & Eq2 & P2 & S2). rewrite Eq2 in Eq. injection Eq as <-.
      now apply SQ.
    - destruct (Req_EM_T m 0) as [->|N]; [split; [ring|congruence]|]. apply TR in N. lia.
  Qed.

  (** beta times the unit tensor, when lambda changes by one with the seniority. *)
  Theorem C79_quadrupole :
    (forall v k k', v_min <= v -> v + 1 <= v_max -> lam v = Ok k -> lam (v + 1) = Ok k' -> Z.abs (k' - k) = 1) ->
    forall X, lbsXspace nu_min nu_max v_min v_max L_min (Some L_max) = Ok X ->
    exists D, space_of an lb nu_min nu_max v_min v_max L_min L_max quad_op Msqrt Minv CG lam = Ok D /\
      nrows D = zlen X /\ ncols D = zlen X /\
      forall p q nf vf af Lf ni vi ai Li, 0 <= p -> 0 <= q ->
        nth_error X (Z.to_nat p) = Some (nf, (vf, af, Lf)) -> nth_error X (Z.to_nat q) = Some (ni, (vi, ai, Li)) ->
        exists g kf ki I, CG vi ai Li 1 1 2 vf af Lf = Ok g /\ lam vf = Ok kf /\ lam vi = Ok ki /\
          (Z.abs (vf - vi) = 1 ->
             integral (fun b => wave an (lb + IZR kf) nf b * (b * wave an (lb + IZR ki) ni b))%R I) /\
          ent D p q = (unit_q vf vi * g * I)%R.
  Proof.
    intros Hstep X EX.
    destruct (C79_ladder_harmonic Msqrt Minv CG lam an lb nu_min nu_max v_min v_max L_min L_max Han Hnu Hv HL Hlam
      Convert_112 Radial_b SpHarm_112 1 1 2 (or_introl eq_refl) eq_refl Hcg) with (X := X) as (D & ED & S1 & S2 & VV); [|exact EX|].
    { intros vf vi kf ki m Bf Bi Ef Ei Em N. destruct (unit_me vf vi m ltac:(lia) ltac:(lia) Em) as (_ & U). specialize (U N).
      destruct U as [-> | U].
      - apply (Hstep vi ki kf); auto; lia.
      - assert (vi = vf + 1) by lia. subst vi. pose proof (Hstep vf kf ki ltac:(lia) ltac:(lia) Ef Ei). lia. }
    exists D. split; [exact ED|]. split; [exact S1|]. split; [exact S2|].
    intros p q nf vf af Lf ni vi ai Li Hp Hq Ep Eq.
    destruct (VV p q nf vf af Lf ni vi ai Li Hp Hq Ep Eq) as (g & m & kf & ki & I & Eg & Em & Ef & Ei & EI & V).
    destruct (position _ _ _ _ _ _ X p _ Hnu Hv HL EX Hp Ep) as (_ & Lp & _). destruct (position _ _ _ _ _ _ X q _ Hnu Hv HL EX Hq Eq) as (_ & Lq & _).
    cbn [fst snd] in *. pose proof (in_lbs _ _ _ _ _ _ _ (nth_error_In _ _ Lp)) as Bf. pose proof (in_lbs _ _ _ _ _ _ _ (nth_error_In _ _ Lq)) as Bi.
    destruct (unit_me vf vi m ltac:(lia) ltac:(lia) Em) as (U1 & _).
    exists g, kf, ki, I. split; [exact Eg|]. split; [exact Ef|]. split; [exact Ei|]. split; [|now rewrite <- U1].
    intros HS. apply EI. intros ->. revert U1. rewrite Rmult_0_r. unfold unit_q.
    assert (SP : forall x y, 0 < x -> 0 < y -> (0 < sqrt (IZR x / IZR y))%R).
    { intros x y Hx Hy. apply sqrt_lt_R0, Rdiv_lt_0_compat; now apply (IZR_lt 0). }
    destruct (vf =? vi + 1) eqn:B1; [pose proof (SP (vi + 1) (2 * vi + 5) ltac:(lia) ltac:(lia)); lra|].
    replace (vf =? vi - 1) with true by lia. pose proof (SP (vi + 2) (2 * vi + 1) ltac:(lia) ltac:(lia)). lra.
  Qed.

  (** The tensor without beta, when lambda is the same for all seniorities. *)
  Theorem C79_quadrupole_rigid :
    (forall v k k', v_min <= v -> v + 1 <= v_max -> lam v = Ok k -> lam (v + 1) = Ok k' -> k' = k) ->
    forall X, lbsXspace nu_min nu_max v_min v_max L_min (Some L_max) = Ok X ->
    exists D, space_of an lb nu_min nu_max v_min v_max L_min L_max quadRigid_op Msqrt Minv CG lam = Ok D /\
      nrows D = zlen X /\ ncols D = zlen X /\
      forall p q nf vf af Lf ni vi ai Li, 0 <= p -> 0 <= q ->
        nth_error X (Z.to_nat p) = Some (nf, (vf, af, Lf)) -> nth_error X (Z.to_nat q) = Some (ni, (vi, ai, Li)) ->
        exists g, CG vi ai Li 1 1 2 vf af Lf = Ok g /\
          ent D p q = (unit_q vf vi * g * (if nf =? ni then 1 else 0))%R.
  Proof.
    intros Hstep X EX. unfold space_of.
    set (RP := RadProd (Rep_elem Gamma Msqrt Minv)).
    assert (ST : forall vf vi kf ki, v_min <= vf <= v_max -> v_min <= vi <= v_max -> lam vi = Ok ki -> lam vf = Ok kf ->
      Z.abs (vf - vi) = 1 -> radial_matrix (RP [] an (lb + IZR ki)%R (kf - ki) nu_min nu_max 0) nu_min nu_max (fun f i => if f =? i then 1%R else 0%R)).
    { intros vf vi kf ki Bf Bi Ei Ef Hs.
      destruct (Hlam vi Bi) as (k2 & E2 & P2). rewrite Ei in E2. injection E2 as <-.
      assert (K : kf = ki).
      { destruct (Z.eq_dec vf (vi + 1)) as [->|N].
        - apply (Hstep vi ki kf); auto; lia.
        - assert (vi = vf + 1) by lia. subst vi. symmetry. apply (Hstep vf kf ki); auto; lia. }
      rewrite K, Z.sub_diag. now apply word_nil. }
    destruct (C79_defined RP CG lam an lb nu_min nu_max v_min v_max L_min L_max Hnu Hv HL Convert_112 [] SpHarm_112 1 1 2) as (D & ED).
    - constructor.
    - reflexivity.
    - intros v B. destruct (Hlam v B) as (k & E & _). eauto.
    - intros vf af Lf vi ai Li If Ii. apply Hcg; eapply in_lbs; eassumption.
    - intros vf vi lf li m Bf Bi Ei Ef Em N. destruct (unit_me vf vi m ltac:(lia) ltac:(lia) Em) as (_ & U). specialize (U N).
      destruct (ST vf vi lf li Bf Bi Ei Ef ltac:(lia)) as (M & EM & A & B & _). eauto.
    - exists D. split; [exact ED|].
      destruct (C79_factorises RP CG lam an lb nu_min nu_max v_min v_max L_min L_max Hnu Hv HL Convert_112 [] SpHarm_112 1 1 2 X D
        ltac:(constructor) eq_refl EX ED) as (S1 & S2 & VV).
      split; [exact S1|]. split; [exact S2|]. intros p q nf vf af Lf ni vi ai Li Hp Hq Ep Eq.
      destruct (VV p q nf vf af Lf ni vi ai Li Hp Hq Ep Eq) as (g & m & ki & kf & Eg & Em & Ei & Ef & V1 & V2).
      destruct (position _ _ _ _ _ _ X p _ Hnu Hv HL EX Hp Ep) as (Bp & Lp & Np). destruct (position _ _ _ _ _ _ X q _ Hnu Hv HL EX Hq Eq) as (Bq & Lq & Nq).
      cbn [fst snd] in *. pose proof (in_lbs _ _ _ _ _ _ _ (nth_error_In _ _ Lp)) as Bf. pose proof (in_lbs _ _ _ _ _ _ _ (nth_error_In _ _ Lq)) as Bi.
      destruct (unit_me vf vi m ltac:(lia) ltac:(lia) Em) as (U1 & U2).
      pose proof (Z.mod_pos_bound p (nu_max - nu_min + 1) ltac:(lia)). pose proof (Z.mod_pos_bound q (nu_max - nu_min + 1) ltac:(lia)).
      exists g. split; [exact Eg|]. rewrite <- U1. destruct (Req_EM_T (g * m) 0) as [Z0|Z0].
      + rewrite (V1 Z0). replace (Convert_112 / (4 * PI) * m * g)%R with (Convert_112 / (4 * PI) * (g * m))%R by ring. rewrite Z0. ring.
      + assert (N : m <> 0%R) by (intros ->; apply Z0; ring). specialize (U2 N).
        destruct (ST vf vi kf ki Bf Bi Ei Ef ltac:(lia)) as (M & EM & A & B & C).
        destruct (V2 Z0) as (M' & EM' & ->). rewrite EM in EM'. injection EM' as <-.
        rewrite C by lia. replace (nu_min + (nf - nu_min)) with nf by lia. replace (nu_min + (ni - nu_min)) with ni by lia. ring.
  Qed.
End Quadrupole.

(** The tensor has length one: summed over the final states, with their
    dimensions, the squares of its reduced elements give the dimension of the
    initial representation. *)
Theorem C79_unit_length : forall v, 0 <= v ->
  (dim5 (v + 1) * unit_q (v + 1) v ^ 2 + dim5 (v - 1) * unit_q (v - 1) v ^ 2 = dim5 v)%R.
Proof.
  intros v Hv. unfold unit_q. rewrite !Z.eqb_refl. replace (v - 1 =? v + 1) with false by lia.
  pose proof (IZR_le 0 v Hv) as P.
  assert (SQ : forall x, (0 <= x)%R -> (sqrt x ^ 2 = x)%R) by (intros x Hx; cbn [pow]; rewrite Rmult_1_r; now apply sqrt_sqrt).
  rewrite !SQ.
  - unfold dim5. repeat (rewrite ?plus_IZR, ?minus_IZR, ?mult_IZR). field. lra.
  - apply Rmult_le_pos; [apply IZR_le; lia|apply Rlt_le, Rinv_0_lt_compat, (IZR_lt 0); lia].
  - apply Rmult_le_pos; [apply IZR_le; lia|apply Rlt_le, Rinv_0_lt_compat, (IZR_lt 0); lia].
Qed.

(** The harmonic 3 1 0 times Convert_310 is cos(3 gamma) and the harmonic 6 1 0
    times Convert_610 is 3 cos(3 gamma)^2 - 1: acting on the constant function
    they give a function whose square has the mean it should have, x = cos(3
    gamma) being uniform on [-1, 1]; each of the five components of the tensor
    has mean square 1/5. *)
Theorem C79_normalisation : exists m1 m3 m6,
  ME_SO5red 1 1 0 = Ok (Some m1) /\ ME_SO5red 3 3 0 = Ok (Some m3) /\ ME_SO5red 6 6 0 = Ok (Some m6) /\
  ((Convert_112 / (4 * PI) * m1) ^ 2 = 1 / 5)%R /\
  is_RInt (fun x => x ^ 2 / 2)%R (-1) 1 ((Convert_310 / (4 * PI) * m3) ^ 2)%R /\
  is_RInt (fun x => (3 * x ^ 2 - 1) ^ 2 / 2)%R (-1) 1 ((Convert_610 / (4 * PI) * m6) ^ 2)%R.
Proof.
  pose proof PI_RGT_0 as HPI. assert (S15 : (sqrt 15 * sqrt 15 = 15)%R) by (apply sqrt_sqrt; lra).
  assert (P15 : (0 < sqrt 15)%R) by (apply sqrt_lt_R0; lra).
  assert (T : forall w : nat, (me (Z.of_nat w) (Z.of_nat w) 0 ^ 2 = 3)%R).
  { intros w. pose proof (C29_sum_rule w 0) as Q. rewrite (rsum_single _ _ (Z.of_nat w)) in Q; [|lia|].
    - assert (D0 : dim5 (Z.of_nat 0) = 1%R) by (unfold dim5; cbn; lra). rewrite D0 in Q.
      assert (DP : (0 < dim5 (Z.of_nat w))%R).
      { unfold dim5. apply Rdiv_lt_0_compat; [|lra]. apply Rmult_lt_0_compat; [apply Rmult_lt_0_compat|]; apply (IZR_lt 0); lia. }
      apply (Rmult_eq_reg_l (dim5 (Z.of_nat w))); [|lra]. cbn [Z.of_nat] in Q. rewrite Q. ring.
    - intros u Hu N. cbn [Z.of_nat]. destruct (C29_ME_total u (Z.of_nat w) 0 ltac:(lia) ltac:(lia) ltac:(lia)) as (m & Em & _ & TR).
      unfold me. rewrite Em. destruct (Req_EM_T m 0) as [->|Nm]; [ring|]. apply TR in Nm. lia. }
  exists (me 1 1 0), (me 3 3 0), (me 6 6 0).
  split; [apply me_ok; lia|]. split; [apply me_ok; lia|]. split; [apply me_ok; lia|].
  pose proof (T 1%nat) as T1. pose proof (T 3%nat) as T3. pose proof (T 6%nat) as T6.
  change (Z.of_nat 1) with 1 in T1. change (Z.of_nat 3) with 3 in T3. change (Z.of_nat 6) with 6 in T6.
  split; [|split].
  - replace ((Convert_112 / (4 * PI) * me 1 1 0) ^ 2)%R with (me 1 1 0 ^ 2 / (sqrt 15 * sqrt 15))%R by (unfold Convert_112, FourPi; field; lra).
    rewrite T1, S15. lra.
  - replace ((Convert_310 / (4 * PI) * me 3 3 0) ^ 2)%R with ((fun x => x ^ 3 / 6) 1 - (fun x => x ^ 3 / 6) (-1))%R.
    + apply (is_RInt_derive (fun x => x ^ 3 / 6)%R).
      * intros x _. auto_derive; [exact Logic.I|]. field.
      * intros x _. apply (ex_derive_continuous (fun x => x ^ 2 / 2)%R). auto_derive. exact Logic.I.
    + cbv beta. replace ((Convert_310 / (4 * PI) * me 3 3 0) ^ 2)%R with (me 3 3 0 ^ 2 / 9)%R by (unfold Convert_310, FourPi; field; lra).
      rewrite T3. field.
  - replace ((Convert_610 / (4 * PI) * me 6 6 0) ^ 2)%R with ((fun x => 9 * x ^ 5 / 10 - x ^ 3 + x / 2) 1 - (fun x => 9 * x ^ 5 / 10 - x ^ 3 + x / 2) (-1))%R.
    + apply (is_RInt_derive (fun x => 9 * x ^ 5 / 10 - x ^ 3 + x / 2)%R).
      * intros x _. auto_derive; [exact Logic.I|]. field.
      * intros x _. apply (ex_derive_continuous (fun x => (3 * x ^ 2 - 1) ^ 2 / 2)%R). auto_derive. exact Logic.I.
    + cbv beta. replace ((Convert_610 / (4 * PI) * me 6 6 0) ^ 2)%R with (4 * me 6 6 0 ^ 2 / (sqrt 15 * sqrt 15))%R by (unfold Convert_610, FourPi; field; lra).
      rewrite T6, S15. field.
Qed.

(** The lambda functions of the three modes of set_basis: with those of the ACM
    and of the oscillator lambda changes by one with the seniority, with the
    constant one it does not change. *)
Theorem C79_modes :
  (forall v k k', 0 <= v -> lambda_acm_fun v = Ok k -> lambda_acm_fun (v + 1) = Ok k' -> Z.abs (k' - k) = 1) /\
  (forall v k k', 0 <= v -> lambda_sho_fun v = Ok k -> lambda_sho_fun (v + 1) = Ok k' -> Z.abs (k' - k) = 1) /\
  (forall v k k', 0 <= v -> lambda_fix_fun v = Ok k -> lambda_fix_fun (v + 1) = Ok k' -> k' = k) /\
  (forall f, f = lambda_acm_fun \/ f = lambda_sho_fun \/ f = lambda_fix_fun -> forall (lb : R) v, (0 < lb)%R -> 0 <= v ->
     exists k, f v = Ok k /\ (0 < lb + IZR k)%R).
Proof.
  assert (R : forall v, 0 <= v -> lambda_acm_fun v = Ok (v mod 2)).
  { intros v H. unfold lambda_acm_fun, irem. rewrite require_nonnegint_ok by lia. reflexivity. }
  assert (S : forall v, 0 <= v -> lambda_sho_fun v = Ok v) by (intros v H; unfold lambda_sho_fun; now rewrite require_nonnegint_ok).
  assert (F : forall v, 0 <= v -> lambda_fix_fun v = Ok 0) by (intros v H; unfold lambda_fix_fun; now rewrite require_nonnegint_ok).
  split; [|split; [|split]].
  - intros v k k' H. rewrite !R by lia. intros E1 E2. injection E1 as <-. injection E2 as <-. lia.
  - intros v k k' H. rewrite !S by lia. intros E1 E2. injection E1 as <-. injection E2 as <-. lia.
  - intros v k k' H. rewrite !F by lia. intros E1 E2. congruence.
  - intros f Hf lb v Hl Hv. destruct Hf as [-> |[-> | ->]]; [rewrite R|rewrite S|rewrite F]; try assumption; eexists; (split; [reflexivity|]).
    + pose proof (IZR_le 0 (v mod 2) ltac:(lia)). lra.
    + pose proof (IZR_le 0 v Hv). lra.
    + lra.
Qed.

(** The terms c beta cos(3 gamma) and c cos(3 gamma) / beta of the Hamiltonian. *)
Section Cos3Gamma.
  Variables Msqrt Minv : mat R -> res (mat R).
  Variable CG : Z -> Z -> Z -> Z -> Z -> Z -> Z -> Z -> Z -> res R.
  Variables (an lb : R) (nu_min nu_max v_min v_max L_min L_max : Z).
  Hypothesis Han : (0 < an)%R.
  Hypothesis Hlb : (0 < lb)%R.
  Hypothesis Hnu : 0 <= nu_min <= nu_max.
  Hypothesis Hv : 0 <= v_min <= v_max.
  Hypothesis HL : 0 <= L_min <= L_max.
  Hypothesis Hcg : forall vf af Lf vi ai Li, v_min <= vf <= v_max -> v_min <= vi <= v_max ->
    exists g, CG vi ai Li 3 1 0 vf af Lf = Ok g.

  Theorem C79_cos3gamma : forall (c : R) (inverse : bool) X, c <> 0%R ->
    lbsXspace nu_min nu_max v_min v_max L_min (Some L_max) = Ok X ->
    let z := CNum 0 in
    let H := if inverse then ACM_Hamiltonian z z z z z z z z (CNum c) z z z z z
             else ACM_Hamiltonian z z z z z (CNum c) z z z z z z z z in
    exists D, space_of an lb nu_min nu_max v_min v_max L_min L_max H Msqrt Minv CG lambda_acm_fun = Ok D /\
      nrows D = zlen X /\ ncols D = zlen X /\
      forall p q nf vf af Lf ni vi ai Li, 0 <= p -> 0 <= q ->
        nth_error X (Z.to_nat p) = Some (nf, (vf, af, Lf)) -> nth_error X (Z.to_nat q) = Some (ni, (vi, ai, Li)) ->
        exists g m I, CG vi ai Li 3 1 0 vf af Lf = Ok g /\ ME_SO5red vf 3 vi = Ok (Some m) /\
          (Z.abs (vf - vi) mod 2 = 1 ->
             integral (fun b => wave an (lb + IZR (vf mod 2)) nf b
                                * ((if inverse then / b else b) * wave an (lb + IZR (vi mod 2)) ni b))%R I) /\
          (Z.abs (vf - vi) mod 2 = 0 -> m = 0%R) /\
          ent D p q = (c * (m / 3) * g * I)%R.
  Proof.
    intros c inverse X Hc EX z H. pose proof PI_RGT_0 as HPI.
    destruct C79_modes as (_ & _ & _ & POS).
    assert (R : forall v, 0 <= v -> lambda_acm_fun v = Ok (v mod 2)).
    { intros v H0. unfold lambda_acm_fun, irem. rewrite require_nonnegint_ok by lia. reflexivity. }
    set (s := if inverse then Radial_bm else Radial_b).
    assert (Hs : s = Radial_b \/ s = Radial_bm \/ s = Radial_Db) by (unfold s; destruct inverse; auto).
    assert (EH : H = [(CNum (Convert_310 * c), [ORad s; OSph SpHarm_310])]).
    { unfold H, ACM_Hamiltonian, opt_term, z, s. cbn [is0]. destruct (Req_EM_T 0 0); [|lra]. destruct (Req_EM_T c 0); [contradiction|].
      destruct inverse; reflexivity. }
    rewrite EH.
    assert (PAR : forall vf vi m, 0 <= vf -> 0 <= vi -> ME_SO5red vf 3 vi = Ok (Some m) -> m <> 0%R -> Z.abs (vf - vi) mod 2 = 1).
    { intros vf vi m Hf Hi Em N. destruct (C29_ME_total vf 3 vi Hf ltac:(lia) Hi) as (m' & E' & _ & TR). rewrite Em in E'. injection E' as <-.
      apply TR in N. lia. }
    assert (STEP : forall vf vi, 0 <= vf -> 0 <= vi -> Z.abs (vf - vi) mod 2 = 1 -> Z.abs (vf mod 2 - vi mod 2) = 1) by (intros; lia).
    destruct (C79_ladder_harmonic Msqrt Minv CG lambda_acm_fun an lb nu_min nu_max v_min v_max L_min L_max Han Hnu Hv HL) with
      (c := (Convert_310 * c)%R) (s := s) (h := SpHarm_310) (vy := 3) (ay := 1) (Ly := 0) (X := X) as (D & ED & S1 & S2 & VV).
    - intros v B. apply POS; [auto|exact Hlb|lia].
    - exact Hs.
    - reflexivity.
    - exact Hcg.
    - intros vf vi kf ki m Bf Bi Ef Ei Em N. rewrite R in Ef, Ei by lia. injection Ef as <-. injection Ei as <-.
      apply STEP; try lia. apply (PAR vf vi m); try lia; assumption.
    - exact EX.
    - exists D. split; [exact ED|]. split; [exact S1|]. split; [exact S2|].
      intros p q nf vf af Lf ni vi ai Li Hp Hq Ep Eq.
      destruct (VV p q nf vf af Lf ni vi ai Li Hp Hq Ep Eq) as (g & m & kf & ki & I & Eg & Em & Ef & Ei & EI & V).
      destruct (position _ _ _ _ _ _ X p _ Hnu Hv HL EX Hp Ep) as (_ & Lp & Np). destruct (position _ _ _ _ _ _ X q _ Hnu Hv HL EX Hq Eq) as (_ & Lq & Nq).
      cbn [fst snd] in *. pose proof (in_lbs _ _ _ _ _ _ _ (nth_error_In _ _ Lp)) as Bf. pose proof (in_lbs _ _ _ _ _ _ _ (nth_error_In _ _ Lq)) as Bi.
      pose proof (Z.mod_pos_bound p (nu_max - nu_min + 1) ltac:(lia)). pose proof (Z.mod_pos_bound q (nu_max - nu_min + 1) ltac:(lia)).
      rewrite R in Ef, Ei by lia. injection Ef as <-. injection Ei as <-.
      assert (CV : (Convert_310 * c / (4 * PI) * m = c * (m / 3))%R) by (unfold Convert_310, FourPi; field; lra). rewrite CV in V.
      assert (FOP : forall l nu b, (0 < b)%R -> sym_fop an l s (wave an l nu) b = ((if inverse then / b else b) * wave an l nu b)%R).
      { intros l nu b Hb. unfold s. destruct inverse; cbn [sym_fop]; unfold op_inv, op_beta; [field; lra|ring]. }
      assert (RI : forall l l' v, integral (fun b => wave an l' nf b * sym_fop an l s (wave an l ni) b)%R v ->
                integral (fun b => wave an l' nf b * ((if inverse then / b else b) * wave an l ni b))%R v).
      { intros l l' v. apply integral_ext. intros b Hb. now rewrite FOP. }
      assert (EVEN : Z.abs (vf - vi) mod 2 = 0 -> m = 0%R).
      { intros E0. destruct (Req_EM_T m 0) as [|N]; [assumption|]. pose proof (PAR vf vi m ltac:(lia) ltac:(lia) Em N). lia. }
      destruct (Req_EM_T m 0) as [Zm|Nm].
      + destruct (Z.eq_dec (Z.abs (vf - vi) mod 2) 1) as [O|O].
        * pose proof (STEP vf vi ltac:(lia) ltac:(lia) O) as K.
          assert (P1 : (0 < lb + IZR (vi mod 2))%R) by (pose proof (IZR_le 0 (vi mod 2) ltac:(lia)); lra).
          assert (P2 : (0 < lb + IZR (vf mod 2))%R) by (pose proof (IZR_le 0 (vf mod 2) ltac:(lia)); lra).
          assert (KE : (lb + IZR (vf mod 2) = lb + IZR (vi mod 2) + IZR (vf mod 2 - vi mod 2))%R) by (rewrite minus_IZR; ring).
          destruct (ladder Msqrt Minv s an (lb + IZR (vi mod 2)) (vf mod 2 - vi mod 2) nu_min nu_max Hs ltac:(lia) Han P1 ltac:(now rewrite <- KE) Hnu) as (E & _ & EL).
          rewrite <- KE in EL. exists g, m, (E nf ni). repeat (split; [assumption|]). split; [|split; [exact EVEN|]].
          -- intros _. apply RI. apply EL; lia.
          -- rewrite V, Zm. unfold Rdiv. ring.
        * exists g, m, I. repeat (split; [assumption|]). split; [congruence|]. split; [exact EVEN|exact V].
      + exists g, m, I. repeat (split; [assumption|]). split; [|split; [exact EVEN|exact V]].
        intros _. apply RI. now apply EI.
  Qed.
End Cos3Gamma.

(** The hypotheses can be met, with the default basis (lambda_base = 5/2). *)
Example C79_case : forall Msqrt Minv, exists X D,
  let CG := fun _ _ _ _ _ _ _ _ _ => Ok 1%R in
  lbsXspace 0 3 0 4 2 (Some 4) = Ok X /\ space_of 2 (5/2) 0 3 0 4 2 4 quad_op Msqrt Minv CG lambda_acm_fun = Ok D /\
  nth_error X 1 = Some (1, (1, 1, 2)) /\ nth_error X 4 = Some (0, (2, 1, 2)) /\
  exists I, integral (fun b => wave 2 (5/2) 0 b * (b * wave 2 (7/2) 1 b))%R I /\
    ent D 4 1 = (sqrt (2 / 7) * 1 * I)%R.
Proof.
  intros Msqrt Minv. eexists. 
  destruct C79_modes as (ST & _ & _ & POS).
  destruct (C79_quadrupole Msqrt Minv (fun _ _ _ _ _ _ _ _ _ => Ok 1%R) lambda_acm_fun 2 (5/2) 0 3 0 4 2 4
    ltac:(lra) ltac:(lia) ltac:(lia) ltac:(lia) ltac:(intros; eauto) ltac:(intros v B; apply POS; [auto|lra|lia])
    ltac:(intros v k k' B _; apply ST; lia) _ eq_refl) as (D & ED & _ & _ & VV).
  exists D. split; [reflexivity|]. split; [exact ED|]. split; [reflexivity|]. split; [reflexivity|].
  destruct (VV 4 1 0 2 1 2 1 1 1 2 ltac:(lia) ltac:(lia) eq_refl eq_refl) as (g & kf & ki & I & Eg & Ef & Ei & EI & V).
  injection Eg as <-. cbv in Ef, Ei. injection Ef as <-. injection Ei as <-.
  exists I. replace (5 / 2 + 0)%R with (5 / 2)%R in EI by lra. replace (5 / 2 + 1)%R with (7 / 2)%R in EI by lra.
  split; [apply EI; reflexivity|]. rewrite V. reflexivity.
Qed.

Print Assumptions C79_factorises.
Print Assumptions C79_defined.
Print Assumptions C79_ladder_harmonic.
Print Assumptions C79_quadrupole.
Print Assumptions C79_quadrupole_rigid.
Print Assumptions C79_unit_length.
Print Assumptions C79_normalisation.
Print Assumptions C79_modes.
Print Assumptions C79_cos3gamma.
