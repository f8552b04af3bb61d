(** Sums of purely radial words on the full space: the matrix is a direct sum
    of radial matrices, one per spherical state. *)

From Coq Require Import Reals Lra.
From Coq Require Import Lia ZifyBool ZifyNat.
From Verif Require Import PyBase PyFacts Compat SphericalSpec Spherical SphericalFacts PropsSpherical Matrix RadialME
  RadialMEFacts FullLabels FullLabelsFacts PropsFullLabels RadialOps PropsRadialOps Operators FullOps PropsHarmonics FullOpsFacts FullOpsBlocks
  FullOpsMemo FullOpsProd RadialWords PropsFullOps PropsHistory.
Open Scope Z_scope.
Ltac Zify.zify_post_hook ::= Z.div_mod_to_equations.

Lemma in_lbs v_min v_max L_min L_max v al L : In (v, al, L) (lbs v_min v_max L_min L_max) -> v_min <= v <= v_max.
Proof. intros H. apply lbs_enumerates in H. unfold is_state in H. lia. Qed.

(** Different positions hold different states. *)
Lemma lbs_positions v_min v_max L_min L_max i j s : 0 <= i -> 0 <= j ->
  nth_error (lbs v_min v_max L_min L_max) (Z.to_nat i) = Some s ->
  nth_error (lbs v_min v_max L_min L_max) (Z.to_nat j) = Some s -> i = j.
Proof.
  intros Hi Hj Ei Ej. assert (N : NoDup (lbs v_min v_max L_min L_max)) by apply lbs_NoDup.
  assert (Z.to_nat i = Z.to_nat j); [|lia]. apply (proj1 (NoDup_nth_error _) N).
  - apply nth_error_Some. congruence.
  - congruence.
Qed.
(** A basis state by its position. *)
Lemma position nu_min nu_max v_min v_max L_min L_max X p x :
  0 <= nu_min <= nu_max -> 0 <= v_min <= v_max -> 0 <= L_min <= L_max ->
  let rd := nu_max - nu_min + 1 in lbsXspace nu_min nu_max v_min v_max L_min (Some L_max) = Ok X -> 0 <= p ->
  nth_error X (Z.to_nat p) = Some x ->
  0 <= p < zlen X /\ nth_error (lbs v_min v_max L_min L_max) (Z.to_nat (p / rd)) = Some (snd x) /\
  fst x = nu_min + p mod rd.
Proof.
  intros Hnu Hv HL rd EX Hp Ex. destruct (C06_layout _ _ _ _ _ _ Hnu Hv HL) as (X' & sph & E & Es & Hl & HN).
  rewrite EX in E. injection E as <-. rewrite lbs_rngVvarL_some in Es by assumption. injection Es as <-.
  assert (Hd : dimRadial nu_min nu_max = rd) by (unfold dimRadial, rd; replace (nu_min <=? nu_max) with true by lia; reflexivity). rewrite Hd in *.
  assert (Hrd : 0 < rd) by (unfold rd; lia).
  assert (Hz : 0 <= p < zlen X). { assert (nth_error X (Z.to_nat p) <> None) as N by congruence. apply nth_error_Some in N. unfold zlen. lia. }
  split; [exact Hz|]. rewrite Hl in Hz.
  assert (B : 0 <= p / rd < zlen (lbs v_min v_max L_min L_max)) by (split; [apply Z.div_pos; lia|apply Z.div_lt_upper_bound; lia]).
  pose proof (Z.mod_pos_bound p rd Hrd). pose proof (Z.div_mod p rd ltac:(lia)).
  destruct (label_at_ok (lbs v_min v_max L_min L_max) (p / rd) B) as (s & _ & Es).
  pose proof (HN (Z.to_nat (p / rd)) (Z.to_nat (p mod rd)) s Es ltac:(lia)) as Q.
  replace (Z.to_nat (p / rd) * Z.to_nat rd + Z.to_nat (p mod rd))%nat with (Z.to_nat p) in Q.
  2:{ rewrite <- Z2Nat.inj_mul by lia. rewrite <- Z2Nat.inj_add by nia. f_equal. lia. }
  rewrite Ex in Q. injection Q as ->. cbn [fst snd]. split; [exact Es|]. lia.
Qed.

Section RadialSums.
  Variable RP : list rsym -> R -> R -> Z -> Z -> Z -> Z -> res (mat R).
  Variable CG : Z -> Z -> Z -> Z -> Z -> Z -> Z -> Z -> Z -> res R.
  Variable lam : Z -> res Z.
  Variables an lb : R.
  Variables nu_min nu_max v_min v_max L_min L_max : Z.
  Hypothesis Hnu : 0 <= nu_min <= nu_max.
  Hypothesis Hv : 0 <= v_min <= v_max.
  Hypothesis HL : 0 <= L_min <= L_max.
  Let a := mkXA an lb nu_min nu_max v_min v_max L_min L_max.
  Let rd := nu_max - nu_min + 1.

  (** The radial word [w] has the matrix [V] in every basis of the space. *)
  Definition word_matrix (w : list rsym) (V : R -> Z -> Z -> R) : Prop :=
    forall v, v_min <= v <= v_max -> exists k, lam v = Ok k /\
      radial_matrix (RP w an (lb + IZR k) 0 nu_min nu_max 0) nu_min nu_max (V (lb + IZR k)%R).

  Definition lam_at (v : Z) : R := match lam v with Ok k => (lb + IZR k)%R | Raise _ => 0%R end.

  Lemma twin_radial w V : word_matrix w V ->
    exists D, RepXspace_Twin RP CG lam w [] a = Ok D /\
      nrows D = zlen (lbs v_min v_max L_min L_max) * rd /\ ncols D = zlen (lbs v_min v_max L_min L_max) * rd /\
      forall i j x y vf af Lf vi ai Li, 0 <= i -> 0 <= j ->
        nth_error (lbs v_min v_max L_min L_max) (Z.to_nat i) = Some (vf, af, Lf) ->
        nth_error (lbs v_min v_max L_min L_max) (Z.to_nat j) = Some (vi, ai, Li) ->
        0 <= x < rd -> 0 <= y < rd ->
        ent D (i * rd + x) (j * rd + y) = if i =? j then V (lam_at vi) (nu_min + x) (nu_min + y) else 0%R.
  Proof.
    intros HW. set (l := lbs v_min v_max L_min L_max).
    assert (El : lbsSO5r3_rngVvarL v_min v_max L_min (Some L_max) = Ok l) by now apply lbs_rngVvarL_some.
    assert (ES : RepSO5r3_Prod CG (map YSym []) v_min v_max L_min L_max = Ok (eye (zlen l))) by now apply C51_product_nil.
    destruct (C52_twin_defined RP CG lam w [] a l (eye (zlen l)) Hnu El Hv HL ES) as (D & ED).
    { intros i j vf af Lf vi ai Li Hi Hj Ei Ej.
      destruct (HW vf (in_lbs _ _ _ _ _ _ _ (nth_error_In _ _ Ei))) as (lf & E2 & P2).
      destruct (HW vi (in_lbs _ _ _ _ _ _ _ (nth_error_In _ _ Ej))) as (li & E1 & P1).
      exists li, lf. split; [exact E1|]. split; [exact E2|]. cbn [eye ent]. intros N.
      destruct (i =? j) eqn:B; [|contradiction]. assert (i = j) by lia. subst i. rewrite Ei in Ej. injection Ej as -> -> ->.
      assert (lf = li) by congruence. subst lf. rewrite Z.sub_diag.
      destruct P1 as (m & Em & M1 & M2 & _). exists m. auto. }
    exists D. split; [exact ED|].
    destruct (C52_twin_entries RP CG lam w [] a l D El ED) as (S1 & S2 & SM & ES' & VV).
    cbn [a xa_v_min xa_v_max xa_L_min xa_L_max] in ES'. rewrite ES in ES'. injection ES' as <-.
    split; [exact S1|]. split; [exact S2|].
    intros i j x y vf af Lf vi ai Li Hi Hj Ei Ej Hx Hy.
    destruct (VV i j x y vf af Lf vi ai Li Hi Hj Ei Ej Hx Hy) as (li & lf & E1 & E2 & V1 & V2).
    cbn [filter length pow eye ent] in V1, V2. destruct (i =? j) eqn:B.
    - assert (i = j) by lia. subst i. rewrite Ei in Ej. injection Ej as -> -> ->.
      assert (lf = li) by congruence. subst lf.
      destruct V2 as (m & Em & V2); [lra|].
      cbn [a xa_nu_max xa_nu_min xa_anorm xa_lambda_base] in V2, Em. fold rd in V2. rewrite V2.
      destruct (HW vi (in_lbs _ _ _ _ _ _ _ (nth_error_In _ _ Ei))) as (k & E3 & m' & Em' & M1 & M2 & M3).
      rewrite E1 in E3. injection E3 as <-. rewrite Z.sub_diag in Em. rewrite Em in Em'. injection Em' as <-.
      unfold lam_at. rewrite E1. rewrite M3 by assumption. field.
    - apply V1. unfold Rdiv. ring.
  Qed.

  Definition plain_symbol (r : rsym) : Prop := match r with Radial_other _ => False | _ => True end.

  Lemma radial_part_map w : radial_part (map ORad w) = w.
  Proof. unfold radial_part. induction w as [|r w IH]; [reflexivity|]. cbn. now rewrite IH. Qed.
  Lemma spherical_part_map w : spherical_part (map ORad w) = [].
  Proof. unfold spherical_part. induction w as [|r w IH]; [reflexivity|]. cbn. now rewrite ?IH. Qed.

  Definition state_eqb (s t : Z * Z * Z) : bool :=
    let '(v, al, L) := s in let '(w, bl, M) := t in (v =? w) && (al =? bl) && (L =? M).

  (** The matrix of a radial word between basis states. *)
  Lemma prod_radial w V X : word_matrix w V -> Forall plain_symbol w ->
    lbsXspace nu_min nu_max v_min v_max L_min (Some L_max) = Ok X ->
    exists D, fst (RepXspace_Prod RP CG (map ORad w) a (mkX lam [])) = Ok D /\
      nrows D = zlen X /\ ncols D = zlen X /\
      forall p q nf sf ni si, 0 <= p -> 0 <= q ->
        nth_error X (Z.to_nat p) = Some (nf, sf) -> nth_error X (Z.to_nat q) = Some (ni, si) ->
        ent D p q = if state_eqb sf si then V (lam_at (fst (fst si))) nf ni else 0%R.
  Proof.
    intros HW Hw EX. destruct (twin_radial w V HW) as (D & ED & S1 & S2 & V0).
    pose proof (C35_segment RP CG lam a (lin_valid an lb nu_min nu_max v_min v_max L_min L_max Hnu Hv HL) (map ORad w)) as S.
    rewrite radial_part_map, spherical_part_map, ED in S.
    assert (Hs : Forall in_seg (map ORad w)).
    { clear - Hw. induction Hw as [|r w H _ IH]; constructor; [destruct r; exact H|exact IH]. }
    specialize (S Hs). destruct (fst (RepXspace_Prod RP CG (map ORad w) a (mkX lam []))) as [D'|] eqn:E; [|contradiction].
    cbn [same] in S. destruct S as (A & B & C). exists D'. split; [reflexivity|].
    assert (HX : zlen X = zlen (lbs v_min v_max L_min L_max) * rd).
    { destruct (C06_layout _ _ _ _ _ _ Hnu Hv HL) as (X' & sph & E1 & Es & Hl & _).
      rewrite EX in E1. injection E1 as <-. rewrite lbs_rngVvarL_some in Es by assumption. injection Es as <-.
      rewrite Hl. unfold dimRadial, rd. replace (nu_min <=? nu_max) with true by lia. lia. }
    split; [congruence|]. split; [congruence|].
    intros p q nf sf ni si Hp Hq Ep Eq.
    destruct (position _ _ _ _ _ _ X p _ Hnu Hv HL EX Hp Ep) as (Bp & Lp & Np). destruct (position _ _ _ _ _ _ X q _ Hnu Hv HL EX Hq Eq) as (Bq & Lq & Nq).
    fold rd in Lp, Np, Lq, Nq. cbn [fst snd] in *. rewrite C by congruence || lia.
    assert (Hrd : 0 < rd) by (unfold rd; lia).
    pose proof (Z.mod_pos_bound p rd Hrd). pose proof (Z.div_mod p rd ltac:(lia)).
    pose proof (Z.mod_pos_bound q rd Hrd). pose proof (Z.div_mod q rd ltac:(lia)).
    assert (0 <= p / rd) by (apply Z.div_pos; lia). assert (0 <= q / rd) by (apply Z.div_pos; lia).
    destruct sf as [[vf af] Lf], si as [[vi ai] Li].
    pose proof (V0 (p / rd) (q / rd) (p mod rd) (q mod rd) vf af Lf vi ai Li ltac:(lia) ltac:(lia) Lp Lq ltac:(lia) ltac:(lia)) as Q.
    replace (p / rd * rd + p mod rd) with p in Q by lia. replace (q / rd * rd + q mod rd) with q in Q by lia.
    rewrite Q, <- Np, <- Nq. cbn [fst].
    assert (state_eqb (vf, af, Lf) (vi, ai, Li) = (p / rd =? q / rd)) as ->; [|reflexivity].
    cbn [state_eqb]. destruct (p / rd =? q / rd) eqn:B1.
    - assert (p / rd = q / rd) as E1 by lia. rewrite E1 in Lp. rewrite Lp in Lq. injection Lq as -> -> ->. lia.
    - destruct ((vf =? vi) && (af =? ai) && (Lf =? Li)) eqn:B2; [|reflexivity]. exfalso.
      assert (vf = vi /\ af = ai /\ Lf = Li) as (-> & -> & ->) by lia.
      pose proof (lbs_positions _ _ _ _ (p / rd) (q / rd) _ ltac:(lia) ltac:(lia) Lp Lq). lia.
  Qed.

  (** A sum of radial words. *)
  Theorem rep_radial (terms : list (coef * list rsym * (R -> Z -> Z -> R))) X :
    (forall c w V, In (c, w, V) terms -> word_matrix w V /\ Forall plain_symbol w) ->
    lbsXspace nu_min nu_max v_min v_max L_min (Some L_max) = Ok X ->
    exists D, fst (RepXspace RP CG (map (fun t => (fst (fst t), map ORad (snd (fst t)))) terms) an lb nu_min nu_max v_min v_max L_min (Some L_max) (mkX lam [])) = Ok D /\
      nrows D = zlen X /\ ncols D = zlen X /\
      forall p q nf sf ni v al L, 0 <= p -> 0 <= q ->
        nth_error X (Z.to_nat p) = Some (nf, sf) -> nth_error X (Z.to_nat q) = Some (ni, (v, al, L)) ->
        ent D p q = if state_eqb sf (v, al, L)
                    then fold_right Rplus 0%R (map (fun t => (cval (fst (fst t)) ni v al L * snd t (lam_at v) nf ni)%R) terms)
                    else 0%R.
  Proof.
    intros HT EX.
    destruct (C54_linear RP CG lam an lb nu_min nu_max v_min v_max L_min L_max Hnu Hv HL (map (fun t => (fst (fst t), map ORad (snd (fst t)))) terms) X EX) as (DEF & VAL).
    assert (exists D, fst (RepXspace RP CG (map (fun t => (fst (fst t), map ORad (snd (fst t)))) terms) an lb nu_min nu_max v_min v_max L_min (Some L_max) (mkX lam [])) = Ok D) as (D & ED).
    { apply DEF. intros t Ht. apply in_map_iff in Ht. destruct Ht as ([[c w] V] & <- & Hin). cbn [fst snd].
      destruct (HT c w V Hin) as (HW & Hp). destruct (prod_radial w V X HW Hp EX) as (M & EM & _). eauto. }
    exists D. split; [exact ED|]. destruct (VAL D ED) as (Ms & F & S1 & S2 & EV). split; [exact S1|]. split; [exact S2|].
    intros p q nf sf ni v al L Hp Hq Ep Eq. rewrite (EV p q _ (proj1 (position _ _ _ _ _ _ X p _ Hnu Hv HL EX Hp Ep)) Hq Eq).
    unfold weighted. clear EV ED DEF VAL S1 S2.
    remember (map (fun t => (fst (fst t), map ORad (snd (fst t)))) terms) as op eqn:Eop.
    revert terms HT Eop. induction F as [|t M op Ms H F IH]; intros [|[[c w] V] terms] HT Eop; try discriminate.
    - destruct (state_eqb _ _); reflexivity.
    - cbn [map] in Eop. injection Eop as -> ->. cbn [combine map fold_right fst snd] in *.
      rewrite (IH terms); [|intros c' w' V' Hin; apply (HT c' w' V'); now right|reflexivity].
      destruct (HT c w V ltac:(now left)) as (HW & Hpl). destruct (prod_radial w V X HW Hpl EX) as (M' & EM & _ & _ & EV).
      fold a in H. rewrite EM in H. injection H as <-. rewrite (EV p q _ _ _ _ Hp Hq Ep Eq). cbn [fst snd].
      destruct (state_eqb _ _); ring.
  Qed.
End RadialSums.
