(** Facts for C84: matrices of sums of terms. *)

From Coq Require Import Reals Lra.
From Coq Require Import Lia ZifyBool ZifyNat.
From Verif Require Import PyBase PyFacts Compat SphericalSpec Spherical SphericalFacts PropsSpherical Matrix RadialME
  RadialMEFacts FullLabels FullLabelsFacts PropsFullLabels RadialOps Operators FullOps
  PropsHarmonics FullOpsFacts FullOpsBlocks FullOpsMemo FullOpsProd RadialWords PropsFullOps PropsHistory RadialSums
  HermitianSpec HermitianFacts.
Open Scope Z_scope.
Ltac Zify.zify_post_hook ::= Z.div_mod_to_equations.

Section Terms.
  Variable RP : list rsym -> R -> R -> Z -> Z -> Z -> Z -> res (mat R).
  Variable CG : Z -> Z -> Z -> Z -> Z -> Z -> Z -> Z -> Z -> res R.
  Variable lam : Z -> res Z.
  Variables (an lb : R) (nu_min nu_max v_min v_max L_min L_max : Z).
  Hypothesis Hnu : 0 <= nu_min <= nu_max.
  Hypothesis Hv : 0 <= v_min <= v_max.
  Hypothesis HL : 0 <= L_min <= L_max.
  Let a := mkXA an lb nu_min nu_max v_min v_max L_min L_max.
  Let rd := nu_max - nu_min + 1.
  Let l := lbs v_min v_max L_min L_max.
  Let prod w := fst (RepXspace_Prod RP CG w a (mkX lam [])).
  Let rep op := fst (RepXspace RP CG op an lb nu_min nu_max v_min v_max L_min (Some L_max) (mkX lam [])).
  Let sprod ys := RepSO5r3_Prod CG ys v_min v_max L_min L_max.
  Let word (rad : list rsym) (sph : list sharm) : list osym := map ORad rad ++ map OSph sph.

  (** *** Spherical products *)
  Definition graded (g : Z) (M : mat R) : Prop :=
    forall i j vf af Lf vi ai Li, 0 <= i -> 0 <= j ->
      nth_error l (Z.to_nat i) = Some (vf, af, Lf) -> nth_error l (Z.to_nat j) = Some (vi, ai, Li) ->
      (vf - vi - g) mod 2 <> 0 -> ent M i j = 0%R.

  Definition good_harmonic (h : sharm) : Prop :=
    forall M, sprod [YSym (OSph h)] = Ok M -> symmetric M /\ graded (fst (fst (SpHarm_Table h))) M.

  Definition degree (sph : list sharm) : Z := zsum (map (fun h => fst (fst (SpHarm_Table h))) sph).

  Lemma sprod_square ys M : sprod ys = Ok M -> square (zlen l) M.
  Proof.
    intros E. unfold sprod in E. rewrite prod_value in E by assumption. apply bind_ok in E. destruct E as (Ms & E & F). injection F as <-.
    apply mats_square in E; [|assumption|assumption]. destruct Ms as [|M Ms]; [split; reflexivity|]. inversion E; subst.
    now apply fold_mm_square.
  Qed.

  Lemma mat_eq_entries (A B : mat R) i j : mat_eq A B -> 0 <= i < nrows A -> 0 <= j < ncols A -> ent A i j = ent B i j.
  Proof. intros (_ & _ & H) Hi Hj. now apply H. Qed.

  Lemma in_labels i x : 0 <= i -> nth_error l (Z.to_nat i) = Some x -> 0 <= i < zlen l.
  Proof. intros Hi E. assert (N : nth_error l (Z.to_nat i) <> None) by congruence. apply nth_error_Some in N. unfold zlen. lia. Qed.

  Lemma graded_mm g h A B : square (zlen l) A -> square (zlen l) B -> graded g A -> graded h B -> graded (g + h) (mm A B).
  Proof.
    intros [A1 A2] [B1 B2] GA GB i j vf af Lf vi ai Li Hi Hj Ei Ej HP. cbn [mm ent]. rewrite A2.
    transitivity (rsum (fun _ => 0%R) (Z.to_nat (zlen l))).
    - apply rsum_ext. intros k Hk.
      assert (exists x, nth_error l (Z.to_nat k) = Some x) as ([[vk ak] Lk] & Ek).
      { destruct (nth_error l (Z.to_nat k)) eqn:F; [eauto|]. apply nth_error_None in F. unfold zlen in Hk. lia. }
      destruct (Z.eq_dec ((vf - vk - g) mod 2) 0) as [E0|N0].
      + rewrite (GB k j vk ak Lk vi ai Li); [ring|lia|lia|exact Ek|exact Ej|lia].
      + rewrite (GA i k vf af Lf vk ak Lk); [ring|lia|lia|exact Ei|exact Ek|lia].
    - induction (Z.to_nat (zlen l)); cbn [rsum]; [reflexivity|]. lra.
  Qed.

  Lemma graded_ext g A B : mat_eq A B -> square (zlen l) A -> graded g A -> graded g B.
  Proof.
    intros E [A1 A2] G i j vf af Lf vi ai Li Hi Hj Ei Ej HP.
    pose proof (in_labels i _ Hi Ei). pose proof (in_labels j _ Hj Ej).
    rewrite <- (mat_eq_entries A B) by (assumption || lia). eapply G; eassumption.
  Qed.

  Lemma ys_split ys : forall zs T, sprod (ys ++ zs) = Ok T -> exists P Q, sprod ys = Ok P /\ sprod zs = Ok Q.
  Proof.
    intros zs T E.
    assert (H : forall y, In y (ys ++ zs) -> exists M, ys_mat CG y v_min v_max L_min L_max = Ok M).
    { apply (proj1 (C51_product_defined CG v_min v_max L_min L_max Hv HL (ys ++ zs))). now exists T. }
    destruct (proj2 (C51_product_defined CG v_min v_max L_min L_max Hv HL ys)) as (P & EP).
    { intros y Hy. apply H. apply in_or_app. now left. }
    destruct (proj2 (C51_product_defined CG v_min v_max L_min L_max Hv HL zs)) as (Q & EQ).
    { intros y Hy. apply H. apply in_or_app. now right. }
    exists P, Q. split; assumption.
  Qed.

  Lemma sph_product : forall sph P Q, Forall good_harmonic sph ->
    sprod (map YSym (map OSph sph)) = Ok P -> sprod (map YSym (map OSph (rev sph))) = Ok Q ->
    transposed P Q /\ graded (degree sph) P.
  Proof.
    induction sph as [|h sph IH]; intros P Q HG EP EQ.
    - cbn [map rev] in EP, EQ. unfold sprod in EP, EQ. rewrite C51_product_nil in EP, EQ by assumption.
      injection EP as <-. injection EQ as <-. split.
      + split; [reflexivity|]. split; [reflexivity|]. intros x y _ _. cbn [eye ent]. now rewrite Z.eqb_sym.
      + intros i j vf af Lf vi ai Li Hi Hj Ei Ej HP. cbn [eye ent]. destruct (Z.eqb_spec i j) as [->|]; [|reflexivity].
        rewrite Ei in Ej. injection Ej as -> -> ->. unfold degree in HP. cbn in HP. replace (vi - vi - 0) with 0 in HP by lia. now elim HP.
    - inversion HG as [|? ? GH GS]; subst.
      change (map YSym (map OSph (h :: sph))) with ([YSym (OSph h)] ++ map YSym (map OSph sph)) in EP.
      assert (R : map YSym (map OSph (rev (h :: sph))) = map YSym (map OSph (rev sph)) ++ [YSym (OSph h)]).
      { cbn [rev]. now rewrite !map_app. }
      rewrite R in EQ. clear R.
      destruct (ys_split _ _ _ EP) as (S & P1 & ES & EP1). destruct (ys_split _ _ _ EQ) as (Q1 & S' & EQ1 & ES').
      rewrite ES in ES'. injection ES' as <-.
      destruct (IH P1 Q1 GS EP1 EQ1) as [T1 G1]. destruct (GH S ES) as [TS G2].
      pose proof (sprod_square _ _ ES) as SS. pose proof (sprod_square _ _ EP1) as SP. pose proof (sprod_square _ _ EQ1) as SQ.
      destruct (C51_product_app CG v_min v_max L_min L_max Hv HL _ _ _ _ ES EP1) as (T & U & ET & EU & VT).
      rewrite (matmul_mm (zlen l)) in EU by assumption. injection EU as <-.
      change (sprod ([YSym (OSph h)] ++ map YSym (map OSph sph)) = Ok T) in ET. rewrite EP in ET. injection ET as <-.
      destruct (C51_product_app CG v_min v_max L_min L_max Hv HL _ _ _ _ EQ1 ES) as (T & U & ET & EU & VQ).
      rewrite (matmul_mm (zlen l)) in EU by assumption. injection EU as <-.
      change (sprod (map YSym (map OSph (rev sph)) ++ [YSym (OSph h)]) = Ok T) in ET. rewrite EQ in ET. injection ET as <-.
      split.
      + eapply transposed_ext; [apply mat_eq_sym; exact VT|apply mat_eq_sym; exact VQ|]. now apply (transposed_mm (zlen l)).
      + eapply graded_ext; [apply mat_eq_sym; exact VT|now apply mm_square|].
        unfold degree. cbn [map]. rewrite zsum_cons. now apply graded_mm.
  Qed.

  (** *** The entries of a word *)
  Lemma word_entries rad sph M X : Forall plain_symbol rad ->
    lbsXspace nu_min nu_max v_min v_max L_min (Some L_max) = Ok X ->
    prod (word rad sph) = Ok M ->
    exists SM, sprod (map YSym (map OSph sph)) = Ok SM /\
    forall p q nf vf af Lf ni vi ai Li, 0 <= p -> 0 <= q ->
      nth_error X (Z.to_nat p) = Some (nf, (vf, af, Lf)) -> nth_error X (Z.to_nat q) = Some (ni, (vi, ai, Li)) ->
      exists li lf, lam vi = Ok li /\ lam vf = Ok lf /\
        let c := (ent SM (p / rd) (q / rd) / (4 * PI) ^ length sph)%R in
        (c = 0%R -> ent M p q = 0%R) /\
        (c <> 0%R -> exists m, RP rad an (lb + IZR li)%R (lf - li) nu_min nu_max 0 = Ok m /\
           ent M p q = (c * ent m (nf - nu_min) (ni - nu_min))%R).
  Proof.
    intros Hw EX HM.
    pose proof (C35_segment RP CG lam a (lin_valid an lb nu_min nu_max v_min v_max L_min L_max Hnu Hv HL) (word rad sph)) as S.
    assert (Hs : Forall in_seg (word rad sph)).
    { apply Forall_app. split.
      - clear - Hw. induction Hw as [|r w H _ IH]; constructor; [destruct r; exact H|exact IH].
      - clear. induction sph; constructor; [exact Logic.I|assumption]. }
    specialize (S Hs). cbv beta zeta in S. change (fst (RepXspace_Prod RP CG (word rad sph) a (mkX lam [])) = Ok M) in HM. rewrite HM in S.
    assert (R1 : radial_part (word rad sph) = rad).
    { pose proof (radial_part_map rad) as Q. unfold radial_part, word in *. rewrite flat_map_app, Q.
      replace (flat_map _ (map OSph sph)) with (@nil rsym); [apply app_nil_r|]. clear. induction sph; [reflexivity|assumption]. }
    assert (R2 : spherical_part (word rad sph) = map OSph sph).
    { pose proof (spherical_part_map rad) as Q. unfold spherical_part, word in *. rewrite filter_app, Q. cbn [app].
      clear. induction sph as [|h sph IH]; [reflexivity|]. cbn [map filter]. now rewrite IH. }
    rewrite R1, R2 in S.
    destruct (RepXspace_Twin RP CG lam rad (map OSph sph) a) as [T|e] eqn:ET; [|contradiction]. cbn [same] in S. destruct S as (A & B & C).
    assert (El : lbsSO5r3_rngVvarL v_min v_max L_min (Some L_max) = Ok (lbs v_min v_max L_min L_max)) by now apply lbs_rngVvarL_some.
    destruct (C52_twin_entries RP CG lam rad (map OSph sph) a _ T El ET) as (T1 & T2 & SM & ES & VV).
    exists SM. split; [exact ES|].
    assert (HX : zlen X = zlen (lbs v_min v_max L_min L_max) * rd).
    { destruct (C06_layout _ _ _ _ _ _ Hnu Hv HL) as (X' & sp & E1 & Es & Hl & _).
      rewrite EX in E1. injection E1 as <-. rewrite El in Es. injection Es as <-.
      rewrite Hl. unfold dimRadial, rd. replace (nu_min <=? nu_max) with true by lia. lia. }
    assert (HF : length (filter harmonic_symbol (map OSph sph)) = length sph).
    { clear. induction sph as [|h sph IH]; [reflexivity|]. cbn [map filter harmonic_symbol length]. now rewrite IH. }
    intros p q nf vf af Lf ni vi ai Li Hp Hq Ep Eq.
    destruct (position _ _ _ _ _ _ X p _ Hnu Hv HL EX Hp Ep) as (Bp & Lp & Np). destruct (position _ _ _ _ _ _ X q _ Hnu Hv HL EX Hq Eq) as (Bq & Lq & Nq).
    fold rd in Lp, Np, Lq, Nq. cbn [fst snd] in *.
    assert (Hrd : 0 < rd) by (unfold rd; lia).
    pose proof (Z.mod_pos_bound p rd Hrd). pose proof (Z.div_mod p rd ltac:(lia)).
    pose proof (Z.mod_pos_bound q rd Hrd). pose proof (Z.div_mod q rd ltac:(lia)).
    assert (0 <= p / rd) by (apply Z.div_pos; lia). assert (0 <= q / rd) by (apply Z.div_pos; lia).
    destruct (VV (p / rd) (q / rd) (p mod rd) (q mod rd) vf af Lf vi ai Li ltac:(lia) ltac:(lia) Lp Lq) as (li & lf & E1 & E2 & V1 & V2);
      [cbn; fold rd; lia|cbn; fold rd; lia|].
    cbn [a xa_v_min xa_v_max xa_L_min xa_L_max xa_nu_min xa_nu_max xa_anorm xa_lambda_base map] in *. fold rd in V1, V2, T1, T2.
    rewrite HF in V1, V2.
    replace (p / rd * rd + p mod rd) with p in V1, V2 by lia. replace (q / rd * rd + q mod rd) with q in V1, V2 by lia.
    assert (HMT : ent M p q = ent T p q) by (apply C; [rewrite A, T1|rewrite B, T2]; lia).
    exists li, lf. split; [exact E1|]. split; [exact E2|]. cbv zeta. rewrite HMT.
    replace (nf - nu_min) with (p mod rd) by lia. replace (ni - nu_min) with (q mod rd) by lia.
    split; assumption.
  Qed.

  (** *** Symmetric words *)
  (** The radial word between the bases of two seniorities, in both directions. *)
  Definition mirror_radial (rad : list rsym) (li lf : Z) : Prop :=
    forall A B, RP rad an (lb + IZR li)%R (lf - li) nu_min nu_max 0 = Ok A ->
      RP rad an (lb + IZR lf)%R (li - lf) nu_min nu_max 0 = Ok B ->
      square rd A /\ transposed A B.

  Lemma word_symmetric rad sph M X : Forall plain_symbol rad -> Forall good_harmonic sph -> rev sph = sph ->
    (forall vi vf li lf, v_min <= vi <= v_max -> v_min <= vf <= v_max -> (vf - vi - degree sph) mod 2 = 0 -> (sph = [] -> vf = vi) ->
       lam vi = Ok li -> lam vf = Ok lf -> mirror_radial rad li lf) ->
    lbsXspace nu_min nu_max v_min v_max L_min (Some L_max) = Ok X ->
    prod (word rad sph) = Ok M ->
    forall p q nf sf ni si, 0 <= p -> 0 <= q ->
      nth_error X (Z.to_nat p) = Some (nf, sf) -> nth_error X (Z.to_nat q) = Some (ni, si) ->
      ent M p q = ent M q p /\ (sph = [] -> sf <> si -> ent M p q = 0%R).
  Proof.
    intros Hw HG Hpal HR EX HM.
    destruct (word_entries rad sph M X Hw EX HM) as (SM & ES & VV).
    assert (ES' : sprod (map YSym (map OSph (rev sph))) = Ok SM) by (now rewrite Hpal).
    destruct (sph_product sph SM SM HG ES ES') as [(_ & _ & TS) GS]. pose proof (sprod_square _ _ ES) as [S1 S2].
    intros p q nf [[vf af] Lf] ni [[vi ai] Li] Hp Hq Ep Eq.
    destruct (VV p q nf vf af Lf ni vi ai Li Hp Hq Ep Eq) as (li & lf & E1 & E2 & V1 & V2). cbv zeta in V1, V2.
    destruct (VV q p ni vi ai Li nf vf af Lf Hq Hp Eq Ep) as (lf' & li' & E3 & E4 & V3 & V4). cbv zeta in V3, V4.
    rewrite E2 in E3. injection E3 as <-. rewrite E1 in E4. injection E4 as <-.
    destruct (position _ _ _ _ _ _ X p _ Hnu Hv HL EX Hp Ep) as (Bp & Lp & Np). destruct (position _ _ _ _ _ _ X q _ Hnu Hv HL EX Hq Eq) as (Bq & Lq & Nq).
    fold rd in Lp, Np, Lq, Nq. cbn [fst snd] in *. fold l in Lp, Lq.
    assert (Hrd : 0 < rd) by (unfold rd; lia).
    pose proof (Z.mod_pos_bound p rd Hrd). pose proof (Z.mod_pos_bound q rd Hrd).
    assert (P1 : 0 <= p / rd) by (apply Z.div_pos; lia). assert (P2 : 0 <= q / rd) by (apply Z.div_pos; lia).
    pose proof (in_labels _ _ P1 Lp) as B1. pose proof (in_labels _ _ P2 Lq) as B2.
    assert (ESYM : ent SM (q / rd) (p / rd) = ent SM (p / rd) (q / rd)) by (apply TS; lia).
    rewrite ESYM in V3, V4. set (c := (ent SM (p / rd) (q / rd) / (4 * PI) ^ length sph)%R) in *.
    assert (NIL : sph = [] -> (vf, af, Lf) <> (vi, ai, Li) -> c = 0%R).
    { intros E0 N0. subst sph. cbn [map] in ES. unfold sprod in ES. rewrite C51_product_nil in ES by assumption. injection ES as <-.
      unfold c. cbn [eye ent]. destruct (Z.eqb_spec (p / rd) (q / rd)) as [E|E]; [|unfold Rdiv; ring].
      rewrite E in Lp. congruence. }
    split; [|intros E0 N0; apply V1; now apply NIL].
    destruct (Req_EM_T c 0) as [Z0|N0].
    - rewrite V1, V3 by exact Z0. reflexivity.
    - destruct (V2 N0) as (m & Em & ->). destruct (V4 N0) as (m' & Em' & ->).
      assert (SM0 : ent SM (p / rd) (q / rd) <> 0%R) by (intros E0; apply N0; unfold c; rewrite E0; unfold Rdiv; ring).
      assert (R1 : v_min <= vf <= v_max /\ v_min <= vi <= v_max).
      { apply nth_error_In in Lp. apply nth_error_In in Lq. apply lbs_enumerates in Lp. apply lbs_enumerates in Lq. lia. }
      destruct R1 as [R1 R2].
      assert (PAR : (vf - vi - degree sph) mod 2 = 0).
      { destruct (Z.eq_dec ((vf - vi - degree sph) mod 2) 0) as [E0|N1]; [exact E0|]. elim SM0.
        eapply (GS (p / rd) (q / rd)); eassumption. }
      assert (SAME : sph = [] -> vf = vi).
      { intros E0. destruct (Z.eq_dec vf vi) as [E|E]; [exact E|]. elim N0. apply NIL; [exact E0|congruence]. }
      destruct (HR vi vf li lf R2 R1 PAR SAME E1 E2 m m' Em Em') as ([Q1 Q2] & (_ & _ & Q3)).
      f_equal. symmetry. apply Q3; lia.
  Qed.

  (** *** Sums *)
  Definition symmetric_term (t : OperatorTerm) : Prop :=
    exists rad sph, snd t = word rad sph /\ Forall plain_symbol rad /\ Forall good_harmonic sph /\ rev sph = sph /\
      (forall vi vf li lf, v_min <= vi <= v_max -> v_min <= vf <= v_max -> (vf - vi - degree sph) mod 2 = 0 -> (sph = [] -> vf = vi) ->
         lam vi = Ok li -> lam vf = Ok lf -> mirror_radial rad li lf) /\
      ((exists c, fst t = CNum c) \/ (sph = [] /\ forall nu nu' v al L, cval (fst t) nu v al L = cval (fst t) nu' v al L)).

  Lemma sum_symmetric op X D : Forall symmetric_term op ->
    lbsXspace nu_min nu_max v_min v_max L_min (Some L_max) = Ok X -> rep op = Ok D -> symmetric D /\ nrows D = zlen X.
  Proof.
    intros HT EX ED.
    destruct (C54_linear RP CG lam an lb nu_min nu_max v_min v_max L_min L_max Hnu Hv HL op X EX) as (_ & VAL).
    destruct (VAL D ED) as (Ms & F & S1 & S2 & EV). clear VAL. split; [|exact S1].
    split; [congruence|]. split; [congruence|]. rewrite S1, S2. intros p q Hp Hq.
    assert (exists x, nth_error X (Z.to_nat p) = Some x) as ([nf sf] & Ep).
    { destruct (nth_error X (Z.to_nat p)) eqn:E; [eauto|]. apply nth_error_None in E. unfold zlen in Hp. lia. }
    assert (exists x, nth_error X (Z.to_nat q) = Some x) as ([ni si] & Eq).
    { destruct (nth_error X (Z.to_nat q)) eqn:E; [eauto|]. apply nth_error_None in E. unfold zlen in Hq. lia. }
    rewrite (EV p q _ Hp ltac:(lia) Eq), (EV q p _ Hq ltac:(lia) Ep). unfold weighted.
    destruct sf as [[vf af] Lf], si as [[vi ai] Li]. clear EV ED. f_equal.
    revert HT. induction F as [|t M ts Ms HM _ IH]; intros HT; [reflexivity|]. inversion HT as [|? ? H1 H2]; subst.
    cbn [combine map fst snd]. f_equal; [|now apply IH]. clear IH.
    destruct H1 as (rad & sph & Ew & Hw & HG & Hpal & HR & HC). fold a in HM. change (prod (snd t) = Ok M) in HM. rewrite Ew in HM.
    destruct (word_symmetric rad sph M X Hw HG Hpal HR EX HM p q nf (vf, af, Lf) ni (vi, ai, Li) ltac:(lia) ltac:(lia) Ep Eq) as [E1 E2].
    rewrite E1 in *. destruct HC as [(c & Ec)|(E0 & Hnum)].
    - rewrite Ec. reflexivity.
    - assert (DEC : forall x y : Z * Z * Z, {x = y} + {x <> y}) by (repeat decide equality).
      destruct (DEC (vf, af, Lf) (vi, ai, Li)) as [E|N].
      + injection E as -> -> ->. now rewrite (Hnum ni nf).
      + rewrite (E2 E0 N). ring.
  Qed.
End Terms.
