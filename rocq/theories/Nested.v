(** Facts for C86: matrices on a basis and on a larger one. *)

From Coq Require Import Reals Lra.
From Coq Require Import Lia ZifyBool ZifyNat.
From Verif Require Import PyBase PyFacts Compat SphericalSpec Spherical SphericalFacts PropsSpherical Matrix RadialME
  RadialMEFacts FullLabels FullLabelsFacts PropsFullLabels RadialOps Operators FullOps
  PropsHarmonics FullOpsFacts FullOpsBlocks FullOpsMemo FullOpsProd RadialWords PropsFullOps PropsHistory RadialSums
  HermitianSpec HermitianFacts HermitianTerms.
Open Scope Z_scope.
Ltac Zify.zify_post_hook ::= Z.div_mod_to_equations.

(** ** Radial words *)

Section Radial.
  Variable Gam : R -> R.
  Variables Msqrt Minv : mat R -> res (mat R).
  Let Rep := Rep_elem Gam Msqrt Minv.

  (** Matrices that are filled element by element. *)
  Definition elementwise (e : elem) : Prop := match e with M_b2_sqrt | M_b2_sqrtInv => False | _ => True end.

  Lemma elementwise_local e l n0 n1 m0 m1 A B : elementwise e -> Rep e l n0 n1 = Ok A -> Rep e l m0 m1 = Ok B ->
    forall f i, n0 <= f <= n1 -> n0 <= i <= n1 -> m0 <= f <= m1 -> m0 <= i <= m1 ->
      ent A (f - n0) (i - n0) = ent B (f - m0) (i - m0).
  Proof.
    assert (G : forall g, build_matrix g n0 n1 = Ok A -> build_matrix g m0 m1 = Ok B ->
      forall f i, n0 <= f <= n1 -> n0 <= i <= n1 -> m0 <= f <= m1 -> m0 <= i <= m1 ->
      ent A (f - n0) (i - n0) = ent B (f - m0) (i - m0)).
    { intros g EA EB f i H1 H2 H3 H4. apply build_entries in EA. apply build_entries in EB. destruct EA as [_ EA], EB as [_ EB].
      specialize (EA (f - n0) (i - n0) ltac:(lia) ltac:(lia)). specialize (EB (f - m0) (i - m0) ltac:(lia) ltac:(lia)).
      replace (n0 + (f - n0)) with f in EA by lia. replace (n0 + (i - n0)) with i in EA by lia.
      replace (m0 + (f - m0)) with f in EB by lia. replace (m0 + (i - m0)) with i in EB by lia. congruence. }
    unfold Rep. destruct e; cbn [elementwise Rep_elem]; intros HE EA EB; try contradiction; try (eapply G; [exact EA|exact EB]).
    injection EA as <-. injection EB as <-. intros f i _ _ _ _. cbn [eye ent].
    destruct (Z.eqb_spec (f - n0) (i - n0)), (Z.eqb_spec (f - m0) (i - m0)); try reflexivity; lia.
  Qed.

  Lemma RadProd_positive w an l v n0 n1 lap A : RadProd Rep w an l v n0 n1 lap = Ok A -> (0 < l)%R /\ (0 < l + IZR v)%R.
  Proof.
    unfold RadProd, RepRadial_Prod_common, RepRadial_Prod_factors. destruct (Rle_dec l 0); [discriminate|].
    destruct (Rle_dec (l + IZR v) 0); [discriminate|]. lra.
  Qed.

  (** Words of at most one symbol with a closed form. *)
  Definition closed_word (w : list rsym) (v : Z) : Prop :=
    w = [] /\ v = 0 \/
    (w = [Radial_b2] \/ w = [Radial_bm2] \/ w = [Radial_D2b]) /\ v = 0 \/
    (w = [Radial_b] \/ w = [Radial_bm]) /\ (v = 1 \/ v = -1).

  Lemma closed_local w an l v n0 n1 m0 m1 A B : closed_word w v -> 0 <= n0 -> 0 <= m0 ->
    RadProd Rep w an l v n0 n1 0 = Ok A -> RadProd Rep w an l v m0 m1 0 = Ok B ->
    forall f i, n0 <= f <= n1 -> n0 <= i <= n1 -> m0 <= f <= m1 -> m0 <= i <= m1 ->
      ent A (f - n0) (i - n0) = ent B (f - m0) (i - m0).
  Proof.
    intros HC Hn Hm EA EB. destruct (RadProd_positive _ _ _ _ _ _ _ _ EA) as [P1 P2].
    assert (G : forall K T e p, elementwise e -> Parse_RadialOp_List w = Ok [KTOp K T] -> Lambda_RadialOp_List [KTOp K T] v = Ok [v] ->
      bsds_factors K T v = Ok [F1 e 0 p] ->
      forall f i, n0 <= f <= n1 -> n0 <= i <= n1 -> m0 <= f <= m1 -> m0 <= i <= m1 ->
      ent A (f - n0) (i - n0) = ent B (f - m0) (i - m0)).
    { intros K T e p HE EP EL EF. rewrite (RadProd_one _ w K T e p) in EA, EB by assumption.
      apply bind_ok in EA. destruct EA as (a & Ea & F). injection F as <-. apply bind_ok in EB. destruct EB as (b & Eb & F). injection F as <-.
      intros f i H1 H2 H3 H4. cbn [mscale ent]. f_equal. eapply elementwise_local; eassumption. }
    destruct HC as [(-> & ->) | [([-> | [-> | ->]] & ->) | ([-> | ->] & [-> | ->])]].
    - unfold RadProd, RepRadial_Prod_common, RepRadial_Prod_factors in EA, EB.
      destruct (Rle_dec l 0); [lra|]. destruct (Rle_dec (l + IZR 0) 0); [lra|]. cbn in EA, EB.
      replace (n0 - Z.min 0 n0) with n0 in EA by lia. replace (m0 - Z.min 0 m0) with m0 in EB by lia.
      rewrite Z.add_0_r in EA, EB. cbn in EA, EB. injection EA as <-. injection EB as <-.
      intros f i _ _ _ _. cbn. destruct (Z.eqb_spec (f - n0) (i - n0)), (Z.eqb_spec (f - m0) (i - m0)); try reflexivity; lia.
    - now apply (G 2 0 M_b2 (-2)).
    - now apply (G (-2) 0 M_bm2 2).
    - now apply (G 0 2 M_D2b 2).
    - now apply (G 1 0 M_b_pl (-1)).
    - now apply (G 1 0 M_b_ml (-1)).
    - now apply (G (-1) 0 M_bm_pl 1).
    - now apply (G (-1) 0 M_bm_ml 1).
  Qed.
End Radial.

(** ** Words on two bases *)

Section Two.
  Variable RP : list rsym -> R -> R -> Z -> Z -> Z -> Z -> res (mat R).
  Variable CG : Z -> Z -> Z -> Z -> Z -> Z -> Z -> Z -> Z -> res R.
  Variable lam : Z -> res Z.
  Variables (an lb : R) (n0 n1 v0 v1 L0 L1 m0 m1 w0 w1 K0 K1 : Z).
  Hypothesis Hn : 0 <= n0 <= n1.
  Hypothesis Hv : 0 <= v0 <= v1.
  Hypothesis HL : 0 <= L0 <= L1.
  Hypothesis Hm : 0 <= m0 <= m1.
  Hypothesis Hw : 0 <= w0 <= w1.
  Hypothesis HK : 0 <= K0 <= K1.
  Let prod w := fst (RepXspace_Prod RP CG w (mkXA an lb n0 n1 v0 v1 L0 L1) (mkX lam [])).
  Let prod2 w := fst (RepXspace_Prod RP CG w (mkXA an lb m0 m1 w0 w1 K0 K1) (mkX lam [])).
  Let rep op := fst (RepXspace RP CG op an lb n0 n1 v0 v1 L0 (Some L1) (mkX lam [])).
  Let rep2 op := fst (RepXspace RP CG op an lb m0 m1 w0 w1 K0 (Some K1) (mkX lam [])).
  Let sprod ys := RepSO5r3_Prod CG ys v0 v1 L0 L1.
  Let sprod2 ys := RepSO5r3_Prod CG ys w0 w1 K0 K1.
  Let word (rad : list rsym) (sph : list sharm) : list osym := map ORad rad ++ map OSph sph.

  Definition radial_local (rad : list rsym) (li lf : Z) : Prop :=
    forall A B, RP rad an (lb + IZR li)%R (lf - li) n0 n1 0 = Ok A -> RP rad an (lb + IZR li)%R (lf - li) m0 m1 0 = Ok B ->
      forall f i, n0 <= f <= n1 -> n0 <= i <= n1 -> m0 <= f <= m1 -> m0 <= i <= m1 ->
        ent A (f - n0) (i - n0) = ent B (f - m0) (i - m0).

  Definition sph_local (sph : list sharm) : Prop :=
    forall S T, sprod (map YSym (map OSph sph)) = Ok S -> sprod2 (map YSym (map OSph sph)) = Ok T ->
      forall i j i2 j2 sf si, 0 <= i -> 0 <= j -> 0 <= i2 -> 0 <= j2 ->
        nth_error (lbs v0 v1 L0 L1) (Z.to_nat i) = Some sf -> nth_error (lbs v0 v1 L0 L1) (Z.to_nat j) = Some si ->
        nth_error (lbs w0 w1 K0 K1) (Z.to_nat i2) = Some sf -> nth_error (lbs w0 w1 K0 K1) (Z.to_nat j2) = Some si ->
        ent S i j = ent T i2 j2.

  Lemma same_place (l : list (Z * Z * Z)) i j x : NoDup l -> 0 <= i -> 0 <= j ->
    nth_error l (Z.to_nat i) = Some x -> nth_error l (Z.to_nat j) = Some x -> i = j.
  Proof.
    intros ND Hi Hj Ei Ej. assert (Z.to_nat i = Z.to_nat j); [|lia].
    apply (proj1 (NoDup_nth_error l) ND); [apply nth_error_Some; congruence|congruence].
  Qed.

  Lemma sph_local_nil : sph_local [].
  Proof.
    intros S T ES ET i j i2 j2 sf si Hi Hj Hi2 Hj2 Ei Ej Ei2 Ej2. cbn [map] in ES, ET.
    unfold sprod, sprod2 in ES, ET. rewrite C51_product_nil in ES, ET by assumption. injection ES as <-. injection ET as <-.
    cbn [eye ent]. destruct (Z.eqb_spec i j) as [E|N], (Z.eqb_spec i2 j2) as [E2|N2]; try reflexivity; exfalso.
    - subst j. rewrite Ei in Ej. injection Ej as <-. apply N2. eapply same_place; [apply lbs_NoDup| | | |]; eassumption.
    - subst j2. rewrite Ei2 in Ej2. injection Ej2 as <-. apply N. eapply same_place; [apply lbs_NoDup| | | |]; eassumption.
  Qed.

  Lemma sph_local_one h : sph_local [h].
  Proof.
    intros S T ES ET i j i2 j2 [[vf af] Lf] [[vi ai] Li] Hi Hj Hi2 Hj2 Ei Ej Ei2 Ej2. cbn [map] in ES, ET.
    unfold sprod, sprod2 in ES, ET. rewrite C51_designators in ES, ET by assumption.
    destruct (C51_matrix _ _ _ _ _ _ _ _ _ _ (lbs_rngVvarL_some _ _ _ _ Hv HL) ES) as (_ & _ & H1).
    destruct (C51_matrix _ _ _ _ _ _ _ _ _ _ (lbs_rngVvarL_some _ _ _ _ Hw HK) ET) as (_ & _ & H2).
    specialize (H1 i j _ _ _ _ _ _ Hi Hj Ei Ej). specialize (H2 i2 j2 _ _ _ _ _ _ Hi2 Hj2 Ei2 Ej2). congruence.
  Qed.

  Lemma sph_local_same sph : v0 = w0 -> v1 = w1 -> L0 = K0 -> L1 = K1 -> sph_local sph.
  Proof.
    intros Q1 Q2 Q3 Q4 S T ES ET i j i2 j2 sf si Hi Hj Hi2 Hj2 Ei Ej Ei2 Ej2. unfold sprod, sprod2 in ES, ET.
    rewrite <- Q1, <- Q2, <- Q3, <- Q4 in ET, Ei2, Ej2. rewrite ES in ET. injection ET as <-.
    assert (i = i2) by (eapply same_place; [apply lbs_NoDup| | | |]; eassumption).
    assert (j = j2) by (eapply same_place; [apply lbs_NoDup| | | |]; eassumption). now subst.
  Qed.

  (** A term whose matrix elements depend on the two states alone. *)
  Definition local_term (t : OperatorTerm) : Prop :=
    exists rad sph, snd t = word rad sph /\ Forall plain_symbol rad /\ sph_local sph /\
      (forall S, sprod (map YSym (map OSph sph)) = Ok S -> graded v0 v1 L0 L1 (degree sph) S) /\
      forall vi vf li lf, v0 <= vi <= v1 -> v0 <= vf <= v1 -> (vf - vi - degree sph) mod 2 = 0 -> (sph = [] -> vf = vi) ->
         lam vi = Ok li -> lam vf = Ok lf -> radial_local rad li lf.

  Lemma word_nested t M N X Y : local_term t ->
    lbsXspace n0 n1 v0 v1 L0 (Some L1) = Ok X -> lbsXspace m0 m1 w0 w1 K0 (Some K1) = Ok Y ->
    prod (snd t) = Ok M -> prod2 (snd t) = Ok N ->
    forall p q p2 q2 xf xi, 0 <= p -> 0 <= q -> 0 <= p2 -> 0 <= q2 ->
      nth_error X (Z.to_nat p) = Some xf -> nth_error X (Z.to_nat q) = Some xi ->
      nth_error Y (Z.to_nat p2) = Some xf -> nth_error Y (Z.to_nat q2) = Some xi ->
      ent M p q = ent N p2 q2.
  Proof.
    intros (rad & sph & Ew & Hp0 & HS & HG & HR) EX EY EM EN p q p2 q2 [nf [[vf af] Lf]] [ni [[vi ai] Li]] Hp Hq Hp2 Hq2 Ep Eq Ep2 Eq2.
    rewrite Ew in EM, EN.
    destruct (word_entries RP CG lam an lb n0 n1 v0 v1 L0 L1 Hn Hv HL rad sph M X Hp0 EX EM) as (S & ES & VS).
    destruct (word_entries RP CG lam an lb m0 m1 w0 w1 K0 K1 Hm Hw HK rad sph N Y Hp0 EY EN) as (T & ET & VT).
    destruct (VS p q _ _ _ _ _ _ _ _ Hp Hq Ep Eq) as (li & lf & E1 & E2 & V1 & V2). cbv zeta in V1, V2.
    destruct (VT p2 q2 _ _ _ _ _ _ _ _ Hp2 Hq2 Ep2 Eq2) as (li' & lf' & E3 & E4 & V3 & V4). cbv zeta in V3, V4.
    rewrite E1 in E3. injection E3 as <-. rewrite E2 in E4. injection E4 as <-.
    destruct (position _ _ _ _ _ _ X p _ Hn Hv HL EX Hp Ep) as (Bp & Lp & Np). destruct (position _ _ _ _ _ _ X q _ Hn Hv HL EX Hq Eq) as (Bq & Lq & Nq).
    destruct (position _ _ _ _ _ _ Y p2 _ Hm Hw HK EY Hp2 Ep2) as (Bp2 & Lp2 & Np2). destruct (position _ _ _ _ _ _ Y q2 _ Hm Hw HK EY Hq2 Eq2) as (Bq2 & Lq2 & Nq2).
    cbn [fst snd] in *.
    assert (BD : forall x r a b, 0 <= a <= b -> x = a + r mod (b - a + 1) -> a <= x <= b).
    { clear. intros x r a b Hab ->. pose proof (Z.mod_pos_bound r (b - a + 1) ltac:(lia)) as Q. revert Q.
      generalize (r mod (b - a + 1)). intros; lia. }
    pose proof (BD _ _ _ _ Hn Np) as B1. pose proof (BD _ _ _ _ Hn Nq) as B2.
    pose proof (BD _ _ _ _ Hm Np2) as B3. pose proof (BD _ _ _ _ Hm Nq2) as B4.
    assert (D1 : 0 <= p / (n1 - n0 + 1)) by (apply Z.div_pos; lia). assert (D2 : 0 <= q / (n1 - n0 + 1)) by (apply Z.div_pos; lia).
    assert (D3 : 0 <= p2 / (m1 - m0 + 1)) by (apply Z.div_pos; lia). assert (D4 : 0 <= q2 / (m1 - m0 + 1)) by (apply Z.div_pos; lia).
    pose proof (HS S T ES ET _ _ _ _ _ _ D1 D2 D3 D4 Lp Lq Lp2 Lq2) as C. rewrite <- C in V3, V4.
    set (c := (ent S (p / (n1 - n0 + 1)) (q / (n1 - n0 + 1)) / (4 * PI) ^ length sph)%R) in *.
    destruct (Req_EM_T c 0) as [Z0|N0]; [rewrite V1, V3 by exact Z0; reflexivity|].
    destruct (V2 N0) as (A & EA & ->). destruct (V4 N0) as (B & EB & ->). f_equal.
    assert (S0 : ent S (p / (n1 - n0 + 1)) (q / (n1 - n0 + 1)) <> 0%R) by (intros E; apply N0; unfold c; rewrite E; unfold Rdiv; ring).
    pose proof (nth_error_In _ _ Lp) as Ip. pose proof (nth_error_In _ _ Lq) as Iq. apply lbs_enumerates in Ip. apply lbs_enumerates in Iq.
    refine (HR vi vf li lf _ _ _ _ E1 E2 A B EA EB nf ni B1 B2 B3 B4); try tauto.
    - destruct (Z.eq_dec ((vf - vi - degree sph) mod 2) 0) as [E0|N1]; [exact E0|]. elim S0. eapply (HG S ES); [exact D1|exact D2|exact Lp|exact Lq|exact N1].
    - intros ->. destruct (Z.eq_dec vf vi) as [E|E]; [exact E|]. elim S0. cbn [map] in ES. rewrite C51_product_nil in ES by assumption.
      injection ES as <-. cbn [eye ent]. destruct (Z.eqb_spec (p / (n1 - n0 + 1)) (q / (n1 - n0 + 1))) as [Q|Q]; [|reflexivity].
      rewrite Q in Lp. congruence.
  Qed.

  Lemma sum_nested op D E X Y : Forall local_term op ->
    lbsXspace n0 n1 v0 v1 L0 (Some L1) = Ok X -> lbsXspace m0 m1 w0 w1 K0 (Some K1) = Ok Y ->
    rep op = Ok D -> rep2 op = Ok E ->
    (nrows D = zlen X /\ ncols D = zlen X /\ nrows E = zlen Y /\ ncols E = zlen Y) /\
    forall p q p2 q2 xf xi, 0 <= p -> 0 <= q -> 0 <= p2 -> 0 <= q2 ->
      nth_error X (Z.to_nat p) = Some xf -> nth_error X (Z.to_nat q) = Some xi ->
      nth_error Y (Z.to_nat p2) = Some xf -> nth_error Y (Z.to_nat q2) = Some xi ->
      ent D p q = ent E p2 q2.
  Proof.
    intros HT EX EY ED EE.
    destruct (C54_linear RP CG lam an lb n0 n1 v0 v1 L0 L1 Hn Hv HL op X EX) as (_ & VAL). destruct (VAL D ED) as (Ms & F & S1 & S2 & EV). clear VAL.
    destruct (C54_linear RP CG lam an lb m0 m1 w0 w1 K0 K1 Hm Hw HK op Y EY) as (_ & VAL). destruct (VAL E EE) as (Ns & G & T1 & T2 & EW). clear VAL.
    split; [auto|]. intros p q p2 q2 xf xi Hp Hq Hp2 Hq2 Ep Eq Ep2 Eq2.
    destruct (position _ _ _ _ _ _ X p _ Hn Hv HL EX Hp Ep) as (Bp & _). destruct (position _ _ _ _ _ _ Y p2 _ Hm Hw HK EY Hp2 Ep2) as (Bp2 & _).
    rewrite (EV p q _ Bp Hq Eq), (EW p2 q2 _ Bp2 Hq2 Eq2). clear EV EW ED EE. unfold weighted. destruct xi as [ni [[vi ai] Li]]. f_equal.
    revert Ns G HT. induction F as [|t M ts Ms HM _ IH]; intros Ns G HT; inversion G as [|? N ? Ns' HN G']; subst; [reflexivity|].
    inversion HT as [|? ? H1 H2]; subst. cbn [combine map fst snd]. f_equal; [|now apply IH]. f_equal.
    eapply word_nested; [exact H1|exact EX|exact EY|exact HM|exact HN|..]; eassumption.
  Qed.
End Two.
