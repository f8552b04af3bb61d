(** C86: the matrix on a basis and on a larger basis, and the levels. *)

From Coq Require Import Reals Lra Sorted.
From Coq Require Import Lia ZifyBool ZifyNat.
From Verif Require Import PyBase PyFacts Compat SphericalSpec Spherical SphericalFacts PropsSpherical Matrix RadialME RadialMESpec
  RadialMEFacts IdFacts CG CGSpec CGFacts PropsCG FullLabels FullLabelsFacts PropsFullLabels RadialOps Operators FullOps ReducedSpec ReducedFacts PropsReduced
  PropsHarmonics FullOpsFacts FullOpsBlocks FullOpsMemo FullOpsProd RadialWords RadialChain PropsFullOps PropsHistory RadialSums
  FullSpace FullSpaceFacts PropsFullSpace Settings PropsLambda HamData Display DisplayFacts PropsDriver PropsTransition Spectrum Ritz PropsOscillator PropsRitz
  HermitianSpec HermitianFacts HermitianTerms PropsHermitian Nested.
Open Scope Z_scope.
Ltac Zify.zify_post_hook ::= Z.div_mod_to_equations.

(** ** Statements *)

(** The ranges of nu, v and L of a basis. *)
Record space := mkS { s_nu_min : Z; s_nu_max : Z; s_v_min : Z; s_v_max : Z; s_L_min : Z; s_L_max : Z }.

Definition proper (B : space) : Prop :=
  0 <= s_nu_min B <= s_nu_max B /\ 0 <= s_v_min B <= s_v_max B /\ 0 <= s_L_min B <= s_L_max B.

Definition within (B C : space) : Prop :=
  (s_nu_min C <= s_nu_min B /\ s_nu_max B <= s_nu_max C) /\ (s_v_min C <= s_v_min B /\ s_v_max B <= s_v_max C) /\
  (s_L_min C <= s_L_min B /\ s_L_max B <= s_L_max C).

(** The same seniorities and angular momenta. *)
Definition same_angles (B C : space) : Prop :=
  s_v_min B = s_v_min C /\ s_v_max B = s_v_max C /\ s_L_min B = s_L_min C /\ s_L_max B = s_L_max C.

(** The lambda depends on the parity of the seniority alone, and the lambdas of
    even and odd seniorities differ by one. *)
Definition alternates (lam : Z -> res Z) (B : space) : Prop :=
  forall v w k k', s_v_min B <= v <= s_v_max B -> s_v_min B <= w <= s_v_max B -> lam v = Ok k -> lam w = Ok k' ->
    (v - w) mod 2 = 0 /\ k = k' \/ (v - w) mod 2 = 1 /\ Z.abs (k - k') = 1.

Definition labels_of (B : space) : res (list xlabel) :=
  lbsXspace (s_nu_min B) (s_nu_max B) (s_v_min B) (s_v_max B) (s_L_min B) (Some (s_L_max B)).

(** The library's matrix of an operator on a basis. *)
Definition matrix_on Gam Msqrt Minv CG lam (op : OperatorSum) (an lb : R) (B : space) : res (mat R) :=
  fst (RepXspace (RadProd (Rep_elem Gam Msqrt Minv)) CG op an lb (s_nu_min B) (s_nu_max B) (s_v_min B) (s_v_max B)
         (s_L_min B) (Some (s_L_max B)) (mkX lam [])).

(** Every state of the first basis is in the second, and the entries of the two
    matrices between the same states are equal. *)
Definition block_of (D : mat R) (X : list xlabel) (E : mat R) (Y : list xlabel) : Prop :=
  (nrows D = zlen X /\ ncols D = zlen X /\ nrows E = zlen Y /\ ncols E = zlen Y) /\
  (forall x, In x X -> In x Y) /\
  forall p q p2 q2 xf xi, 0 <= p -> 0 <= q -> 0 <= p2 -> 0 <= q2 ->
    nth_error X (Z.to_nat p) = Some xf -> nth_error X (Z.to_nat q) = Some xi ->
    nth_error Y (Z.to_nat p2) = Some xf -> nth_error Y (Z.to_nat q2) = Some xi ->
    ent D p q = ent E p2 q2.

(** ** Matrices *)

Lemma labels_within B C X Y : proper B -> proper C -> within B C -> labels_of B = Ok X -> labels_of C = Ok Y -> forall x, In x X -> In x Y.
Proof.
  intros (H1 & H2 & H3) (G1 & G2 & G3) (W1 & W2 & W3) EX EY [nu [[v al] L]] I. unfold labels_of in *.
  destruct (C06_full_labels _ _ _ _ _ _ H1 H2 H3) as (X' & EX' & _ & _ & IN & _). rewrite EX in EX'. injection EX' as <-.
  destruct (C06_full_labels _ _ _ _ _ _ G1 G2 G3) as (Y' & EY' & _ & _ & IN2 & _). rewrite EY in EY'. injection EY' as <-.
  apply IN in I. apply IN2. lia.
Qed.

Section Terms.
  Variable Gam : R -> R.
  Variables Msqrt Minv : mat R -> res (mat R).
  Variable files : Text.text -> res (list R).
  Variables (home : Text.text) (st : cg_state) (lam : Z -> res Z) (an lb : R) (B C : space).
  Hypothesis HB : proper B.
  Hypothesis HC : proper C.
  Let RP := RadProd (Rep_elem Gam Msqrt Minv).
  Let CG := CG_at files home st.
  Let local := local_term RP CG lam an lb (s_nu_min B) (s_nu_max B) (s_v_min B) (s_v_max B) (s_L_min B) (s_L_max B)
    (s_nu_min C) (s_nu_max C) (s_v_min C) (s_v_max C) (s_L_min C) (s_L_max C).

  Lemma closed_radial rad li lf : closed_word rad (lf - li) ->
    radial_local RP an lb (s_nu_min B) (s_nu_max B) (s_nu_min C) (s_nu_max C) rad li lf.
  Proof. intros H M N EM EN. eapply closed_local; [exact H|apply HB|apply HC|exact EM|exact EN]. Qed.

  Lemma plain_closed rad v : closed_word rad v -> Forall plain_symbol rad.
  Proof.
    intros [(-> & _) | [([-> | [-> | ->]] & _) | ([-> | ->] & _)]]; repeat (apply Forall_nil || apply Forall_cons); exact Logic.I.
  Qed.

  Lemma local_radial c rad : closed_word rad 0 -> local (c, map ORad rad).
  Proof.
    intros H. exists rad, []. split; [now rewrite app_nil_r|]. split; [eapply plain_closed; exact H|].
    destruct HB as (B1 & B2 & B3). destruct HC as (C1 & C2 & C3). split; [now apply sph_local_nil|]. split.
    - intros S ES. cbn [map] in ES. rewrite C51_product_nil in ES by assumption. injection ES as <-.
      intros i j vf af Lf vi ai Li Hi Hj Ei Ej HP. cbn [eye ent]. destruct (Z.eqb_spec i j) as [Q|Q]; [|reflexivity]. exfalso.
      subst j. rewrite Ei in Ej. injection Ej as -> -> ->. change (degree []) with 0 in HP. lia.
    - intros vi vf li lf _ _ _ E E1 E2. specialize (E eq_refl). subst vf. rewrite E1 in E2. injection E2 as <-.
      apply closed_radial. now rewrite Z.sub_diag.
  Qed.

  (** One harmonic, or the same harmonics on the same seniorities and angular momenta. *)
  Lemma local_harmonics c rad sph : Forall plain_symbol rad -> (same_angles B C \/ exists h, sph = [h]) ->
    (forall h, In h sph -> h = SpHarm_310 \/ sph = [h]) ->
    (forall vi vf li lf, s_v_min B <= vi <= s_v_max B -> s_v_min B <= vf <= s_v_max B -> (vf - vi - degree sph) mod 2 = 0 -> (sph = [] -> vf = vi) ->
       lam vi = Ok li -> lam vf = Ok lf -> closed_word rad (lf - li)) ->
    local (c, map ORad rad ++ map OSph sph).
  Proof.
    intros Hp HS HH HR. destruct HB as (B1 & B2 & B3). destruct HC as (C1 & C2 & C3).
    exists rad, sph. split; [reflexivity|]. split; [exact Hp|]. split; [|split].
    - destruct HS as [(Q1 & Q2 & Q3 & Q4)|(h & ->)]; [apply sph_local_same; try assumption; exact 0|apply sph_local_one; assumption].
    - intros S ES.
      assert (G : forall h T, RepSO5r3_Prod CG [YSym (OSph h)] (s_v_min B) (s_v_max B) (s_L_min B) (s_L_max B) = Ok T ->
        graded (s_v_min B) (s_v_max B) (s_L_min B) (s_L_max B) (fst (fst (SpHarm_Table h))) T) by (intros h T ET; eapply harmonic_parity; [exact B2|exact B3|exact ET]).
      assert (ONE : (exists h, sph = [h]) \/ Forall (fun h => h = SpHarm_310) sph).
      { destruct sph as [|h sph]; [right; constructor|]. destruct (HH h (or_introl eq_refl)) as [-> | E]; [|left; eauto].
        right. apply Forall_forall. intros k Hk. destruct (HH k Hk) as [Q|Q]; [exact Q|]. injection Q as <- _. reflexivity. }
      destruct ONE as [(h & ->)|F].
      + cbn [map] in ES. apply G in ES. unfold degree. cbn [map]. rewrite zsum_cons. change (zsum []) with 0. now rewrite Z.add_0_r.
      + assert (Q : rev sph = sph).
        { assert (Z : sph = repeat SpHarm_310 (length sph)) by (clear - F; induction F as [|h l E _ IH]; cbn; congruence).
          rewrite Z. clear. induction (length sph) as [|n IH]; [reflexivity|]. cbn [repeat rev]. rewrite IH. symmetry. apply (repeat_cons n SpHarm_310). }
        refine (proj2 (sph_product CG 0 0 _ _ _ _ B2 B3 sph S S _ ES _)).
        * revert F. apply Forall_impl. intros h ->. apply (good_scalar files home st _ _ _ _ SpHarm_310 3 1 B2 B3 eq_refl). intros E0. discriminate E0.
        * now rewrite Q.
    - intros vi vf li lf H1 H2 H3 H4 E1 E2. apply closed_radial. exact (HR vi vf li lf H1 H2 H3 H4 E1 E2).
  Qed.

  Lemma local_opt c t : (is0 c = false -> local t) -> Forall local (opt_term c t).
  Proof. intros H. unfold opt_term. destruct (is0 c); constructor; auto. Qed.

  Lemma local_sum op X Y D E : within B C -> labels_of B = Ok X -> labels_of C = Ok Y -> Forall local op ->
    matrix_on Gam Msqrt Minv CG lam op an lb B = Ok D -> matrix_on Gam Msqrt Minv CG lam op an lb C = Ok E -> block_of D X E Y.
  Proof.
    intros HW EX EY HT ED EE. pose proof (labels_within B C X Y HB HC HW EX EY) as IN. destruct HB as (B1 & B2 & B3). destruct HC as (C1 & C2 & C3).
    destruct (sum_nested RP CG lam an lb _ _ _ _ _ _ _ _ _ _ _ _ B1 B2 B3 C1 C2 C3 op D E X Y HT EX EY ED EE) as (S & V).
    split; [exact S|]. split; [exact IN|exact V].
  Qed.
End Terms.

(** The matrix of a Hamiltonian is a block of its matrix on a larger basis: for
    terms with at most one power of beta and one cos(3 gamma), and, if only the
    range of nu is larger, cos^2(3 gamma). *)
Theorem C86_hamiltonian : forall Gam Msqrt Minv files home st lam an lb B C X Y c11 c20 c21 c23 c30 c33 c40 c41 c43 D E,
  proper B -> proper C -> within B C -> labels_of B = Ok X -> labels_of C = Ok Y ->
  (c40 = 0 /\ c41 = 0 /\ c43 = 0)%R \/ same_angles B C ->
  (c30 = 0 /\ c33 = 0 /\ c40 = 0 /\ c41 = 0 /\ c43 = 0)%R \/ alternates lam B ->
  let z := CNum 0 in
  let op := ACM_Hamiltonian c11 c20 c21 z c23 (CNum c30) z z (CNum c33) (CNum c40) (CNum c41) z (CNum c43) z in
  matrix_on Gam Msqrt Minv (CG_at files home st) lam op an lb B = Ok D ->
  matrix_on Gam Msqrt Minv (CG_at files home st) lam op an lb C = Ok E ->
  block_of D X E Y.
Proof.
  intros Gam Msqrt Minv files home st lam an lb B C X Y c11 c20 c21 c23 c30 c33 c40 c41 c43 D E HB HC HW EX EY HS HA z op ED EE.
  eapply local_sum; [exact HB|exact HC|exact HW|exact EX|exact EY| |exact ED|exact EE]. clear ED EE. unfold op, z. clear op z.
  assert (Z0 : forall t, opt_term (CNum 0) t = []) by (intros t; unfold opt_term; cbn [is0]; destruct (Req_EM_T 0 0); [reflexivity|lra]).
  assert (NZ : forall c, is0 (CNum c) = false -> c <> 0%R) by (intros c; cbn [is0]; destruct (Req_EM_T c 0); [discriminate|auto]).
  unfold ACM_Hamiltonian. rewrite !Z0. cbn [app].
  assert (ODD : forall c t rad, (c <> 0%R -> alternates lam B) -> rad = [Radial_b] \/ rad = [Radial_bm] ->
    Forall (local_term (RadProd (Rep_elem Gam Msqrt Minv)) (CG_at files home st) lam an lb (s_nu_min B) (s_nu_max B) (s_v_min B) (s_v_max B) (s_L_min B) (s_L_max B)
    (s_nu_min C) (s_nu_max C) (s_v_min C) (s_v_max C) (s_L_min C) (s_L_max C)) (opt_term (CNum c) (t, map ORad rad ++ map OSph [SpHarm_310]))).
  { intros c t rad HAc Hrad. apply local_opt. intros Ec. specialize (HAc (NZ c Ec)). apply local_harmonics; [exact HB|exact HC| | | |].
    - destruct Hrad as [-> | ->]; repeat (apply Forall_nil || apply Forall_cons); exact Logic.I.
    - right. eauto.
    - intros h [<- | []]. now left.
    - intros vi vf li lf H1 H2 HP _ E1 E2. change (degree [SpHarm_310]) with 3 in HP. right. right. split; [exact Hrad|].
      destruct (HAc vf vi lf li H2 H1 E2 E1) as [[Q _]|[_ Q]]; lia. }
  assert (EVEN : forall c t rad, (c <> 0%R -> alternates lam B /\ same_angles B C) -> rad = [] \/ rad = [Radial_b2] \/ rad = [Radial_bm2] ->
    Forall (local_term (RadProd (Rep_elem Gam Msqrt Minv)) (CG_at files home st) lam an lb (s_nu_min B) (s_nu_max B) (s_v_min B) (s_v_max B) (s_L_min B) (s_L_max B)
    (s_nu_min C) (s_nu_max C) (s_v_min C) (s_v_max C) (s_L_min C) (s_L_max C)) (opt_term (CNum c) (t, map ORad rad ++ map OSph [SpHarm_310; SpHarm_310]))).
  { intros c t rad HAc Hrad. apply local_opt. intros Ec. destruct (HAc (NZ c Ec)) as [HA1 HA2]. apply local_harmonics; [exact HB|exact HC| | | |].
    - destruct Hrad as [-> | [-> | ->]]; repeat (apply Forall_nil || apply Forall_cons); exact Logic.I.
    - now left.
    - intros h [<- | [<- | []]]; now left.
    - intros vi vf li lf H1 H2 HP _ E1 E2. change (degree [SpHarm_310; SpHarm_310]) with 6 in HP.
      destruct (HA1 vf vi lf li H2 H1 E2 E1) as [[_ ->]|[Q _]]; [|lia]. unfold closed_word. rewrite Z.sub_diag. destruct Hrad as [-> | [-> | ->]]; auto 10. }
  repeat (apply Forall_app; split).
  - destruct (is0 c11); [constructor|]. repeat (apply Forall_nil || apply Forall_cons).
    + apply local_radial with (rad := [Radial_D2b]); [exact HB|exact HC|unfold closed_word; auto 10].
    + apply local_radial with (rad := [Radial_bm2]); [exact HB|exact HC|unfold closed_word; auto 10].
  - apply local_opt. intros _. apply local_radial with (rad := []); [exact HB|exact HC|unfold closed_word; auto 10].
  - apply local_opt. intros _. apply local_radial with (rad := [Radial_b2]); [exact HB|exact HC|unfold closed_word; auto 10].
  - apply local_opt. intros _. apply local_radial with (rad := [Radial_bm2]); [exact HB|exact HC|unfold closed_word; auto 10].
  - apply (ODD c30 _ [Radial_b]); [|now left]. intros N. destruct HA as [(Q & _)|HA]; [contradiction|exact HA].
  - apply (ODD c33 _ [Radial_bm]); [|now right]. intros N. destruct HA as [(_ & Q & _)|HA]; [contradiction|exact HA].
  - apply (EVEN c40 _ []); [|auto]. intros N. destruct HA as [(_ & _ & Q & _)|HA]; [contradiction|]. destruct HS as [(Q & _)|HS]; [contradiction|auto].
  - apply (EVEN c41 _ [Radial_b2]); [|auto]. intros N. destruct HA as [(_ & _ & _ & Q & _)|HA]; [contradiction|]. destruct HS as [(_ & Q & _)|HS]; [contradiction|auto].
  - apply (EVEN c43 _ [Radial_bm2]); [|auto]. intros N. destruct HA as [(_ & _ & _ & _ & Q)|HA]; [contradiction|]. destruct HS as [(_ & _ & Q)|HS]; [contradiction|auto].
  - constructor.
Qed.

(** All seniorities have the same lambda. *)
Definition constant (lam : Z -> res Z) (B : space) : Prop :=
  forall v w k k', s_v_min B <= v <= s_v_max B -> s_v_min B <= w <= s_v_max B -> lam v = Ok k -> lam w = Ok k' -> k = k'.

(** The same for a rigid beta, if cos^2(3 gamma) is one harmonic (flag = 1), or
    is absent, or only the range of nu is larger. *)
Theorem C86_rigid : forall Gam Msqrt Minv files home st lam an lb B C X Y cas con c1 c2 flag op D E,
  proper B -> proper C -> within B C -> labels_of B = Ok X -> labels_of C = Ok Y ->
  (flag = 1 \/ c2 = 0%R \/ same_angles B C) ->
  (constant lam B \/ c1 = 0%R /\ alternates lam B) ->
  let z := CNum 0 in
  ACM_HamRigidBeta cas con (CNum c1) (CNum c2) z z z z flag = Ok op ->
  matrix_on Gam Msqrt Minv (CG_at files home st) lam op an lb B = Ok D ->
  matrix_on Gam Msqrt Minv (CG_at files home st) lam op an lb C = Ok E ->
  block_of D X E Y.
Proof.
  intros Gam Msqrt Minv files home st lam an lb B C X Y cas con c1 c2 flag op D E HB HC HW EX EY HF HA z EO ED EE.
  eapply local_sum; [exact HB|exact HC|exact HW|exact EX|exact EY| |exact ED|exact EE]. clear ED EE. unfold z in EO. clear z.
  assert (Z0 : forall x t, x = 0%R -> opt_term (CNum x) t = []) by (intros x t ->; unfold opt_term; cbn [is0]; destruct (Req_EM_T 0 0); [reflexivity|lra]).
  assert (NZ : forall c, is0 (CNum c) = false -> c <> 0%R) by (intros c; cbn [is0]; destruct (Req_EM_T c 0); [discriminate|auto]).
  set (local := local_term (RadProd (Rep_elem Gam Msqrt Minv)) (CG_at files home st) lam an lb (s_nu_min B) (s_nu_max B) (s_v_min B) (s_v_max B) (s_L_min B) (s_L_max B)
    (s_nu_min C) (s_nu_max C) (s_v_min C) (s_v_max C) (s_L_min C) (s_L_max C)).
  assert (L0 : forall c, local (c, [])) by (intros c; apply local_radial with (rad := []); [exact HB|exact HC|unfold closed_word; auto]).
  assert (SPH : forall c t sph, (c = c1 /\ sph = [SpHarm_310]) \/ (degree sph mod 2 = 0 /\ (sph = [SpHarm_610] \/ same_angles B C /\ sph = [SpHarm_310; SpHarm_310])) ->
    Forall local (opt_term (CNum c) (t, map OSph sph))).
  { intros c t sph Hs. apply local_opt. intros Ec. specialize (NZ c Ec). change (map OSph sph) with (map ORad [] ++ map OSph sph).
    apply local_harmonics; [exact HB|exact HC|constructor| | |].
    - destruct Hs as [(_ & ->)|(_ & [-> | [Q ->]])]; eauto.
    - destruct Hs as [(_ & ->)|(_ & [-> | [Q ->]])]; intros h I; repeat (destruct I as [<- | I]); try contradiction; auto.
    - intros vi vf li lf H1 H2 HP _ E1 E2. left. split; [reflexivity|].
      destruct HA as [HA|[HA0 HA]]; [rewrite (HA _ _ _ _ H2 H1 E2 E1); lia|].
      destruct Hs as [(-> & _)|(EVN & _)]; [contradiction|]. destruct (HA _ _ _ _ H2 H1 E2 E1) as [[_ ->]|[Q _]]; lia. }
  assert (HT : (flag = 0 \/ flag = 1) -> Forall local (if flag =? 0 then ACM_HamSH3 con (CNum c1) (CNum c2) (CNum 0) (CNum 0) (CNum 0) (CNum 0) (CNum 0) (CNum 0)
                      else ACM_HamSH6 con (CNum c1) (CNum c2) (CNum 0) (CNum 0) (CNum 0) (CNum 0) (CNum 0) (CNum 0))).
  { intros HFl. destruct (Z.eqb_spec flag 0) as [E0|N0].
    - unfold ACM_HamSH3. cbn [seq combine flat_map app]. rewrite !(Z0 0%R) by reflexivity. cbn [app]. repeat (apply Forall_app; split).
      + apply local_opt. intros _. apply L0.
      + apply (SPH c1 _ [SpHarm_310]). auto.
      + destruct (Req_EM_T c2 0) as [->|N2]; [rewrite Z0 by reflexivity; constructor|].
        apply (SPH c2 _ [SpHarm_310; SpHarm_310]). right. split; [reflexivity|]. right. split; [|reflexivity].
        destruct HF as [HF|[HF|HF]]; [lia|contradiction|exact HF].
      + constructor.
    - unfold ACM_HamSH6. cbn [cadd cscale cmul]. repeat (apply Forall_app; split); try (rewrite Z0 by lra; constructor).
      + apply local_opt. intros _. apply L0.
      + replace (c1 + 1 / 3 * 0 + 1 / 9 * 0 + 1 / 27 * 0)%R with c1 by lra. apply (SPH c1 _ [SpHarm_310]). auto.
      + apply (SPH _ _ [SpHarm_610]). right. split; [reflexivity|]. auto. }
  revert EO. unfold ACM_HamRigidBeta. destruct (Z.eqb_spec flag 0) as [E0|N0]; [|destruct (Z.eqb_spec flag 1) as [E1|N1]; [|discriminate]].
  - cbn [orb negb raise_if bind]. intros EO. specialize (HT (or_introl E0)).
    destruct (is0 cas); injection EO as <-; [exact HT|]. constructor; [apply L0|exact HT].
  - cbn [orb negb raise_if bind]. intros EO. specialize (HT (or_intror E1)).
    destruct (is0 cas); injection EO as <-; [exact HT|]. constructor; [apply L0|exact HT].
Qed.

(** ** Levels *)

(** Every level of the first list has a counterpart in the second, not above it. *)
Definition not_raised (vals vals2 : list R) : Prop :=
  vals <> [] /\ forall k x, nth_error vals k = Some x -> exists x2, nth_error vals2 k = Some x2 /\ (x2 <= x)%R.

Lemma block_levels eigh D X E Y vals P vals2 P2 : eigh_sound eigh -> NoDup X -> 0 < zlen X -> block_of D X E Y ->
  Eigenfiddle eigh D = Ok (vals, P) -> Eigenfiddle eigh E = Ok (vals2, P2) -> not_raised vals vals2.
Proof.
  intros HE ND HX ((S1 & S2 & S3 & S4) & IN & HV) ED EE.
  destruct (C47_symmetrised eigh D ltac:(lia)) as (A & EA & A1 & A2 & A3 & A4 & _). rewrite EA in ED.
  destruct (C47_symmetrised eigh E ltac:(lia)) as (F & EF & F1 & F2 & F3 & F4 & _). rewrite EF in EE.
  pose proof (HE A vals P ltac:(lia) ltac:(intros; apply A3) ED) as DEC.
  pose proof (HE F vals2 P2 ltac:(lia) ltac:(intros; apply F3) EE) as DEC2.
  assert (LN : zlen X <= zlen Y) by (unfold zlen; enough (length X <= length Y)%nat by lia; apply NoDup_incl_length; [exact ND|exact IN]).
  set (d := (0, (0, 0, 0)) : xlabel).
  set (e := fun i => place (nth (Z.to_nat i) X d) Y).
  assert (NX : forall i, 0 <= i < zlen X -> nth_error X (Z.to_nat i) = Some (nth (Z.to_nat i) X d)) by (intros i Hi; apply nth_error_nth'; unfold zlen in Hi; lia).
  assert (PL : forall i, 0 <= i < zlen X -> 0 <= e i < zlen Y /\ nth_error Y (Z.to_nat (e i)) = Some (nth (Z.to_nat i) X d)).
  { intros i Hi. apply place_ok. apply IN. apply (nth_error_In _ _ (NX i Hi)). }
  assert (LE : forall k, 0 <= k < nrows A -> (nth (Z.to_nat k) vals2 0 <= nth (Z.to_nat k) vals 0)%R).
  { apply (interlace F vals2 P2 A vals P e DEC2 DEC); rewrite A1, S1.
    - intros i Hi. rewrite F1, S3. now apply PL.
    - intros i j Hi Hj Q. pose proof (proj2 (PL i Hi)) as P1. rewrite Q, (proj2 (PL j Hj)) in P1.
      assert (Z.to_nat i = Z.to_nat j); [|lia]. apply (proj1 (NoDup_nth_error X) ND); [unfold zlen in Hi; lia|]. rewrite (NX i Hi), (NX j Hj). congruence.
    - intros i j Hi Hj. rewrite A4, F4.
      rewrite (HV i j (e i) (e j) _ _ ltac:(lia) ltac:(lia) (proj1 (proj1 (PL i Hi))) (proj1 (proj1 (PL j Hj))) (NX i Hi) (NX j Hj) (proj2 (PL i Hi)) (proj2 (PL j Hj))).
      rewrite (HV j i (e j) (e i) _ _ ltac:(lia) ltac:(lia) (proj1 (proj1 (PL j Hj))) (proj1 (proj1 (PL i Hi))) (NX j Hj) (NX i Hi) (proj2 (PL j Hj)) (proj2 (PL i Hi))).
      reflexivity. }
  assert (Hz : zlen vals = nrows A) by apply DEC. assert (Hz2 : zlen vals2 = nrows F) by apply DEC2.
  split; [intros ->; change (0 = nrows A) in Hz; lia|]. intros k x Q.
  assert (Hk : (k < length vals)%nat) by (apply nth_error_Some; congruence).
  exists (nth k vals2 0%R). split; [apply nth_error_nth'; unfold zlen in *; lia|].
  specialize (LE (Z.of_nat k)). rewrite Nat2Z.id in LE. rewrite (nth_error_nth _ _ 0%R Q) in LE. apply LE. unfold zlen in *; lia.
Qed.

Lemma run_levels Gam Msqrt Minv CG flt eigh inv junk op an lb s n0 n1 v0 v1 fe fr L0 L1 ev tr Lv s' o
    m0 m1 w0 w1 fe2 fr2 K0 K1 ev2 tr2 Lv2 s2 o2 L vals vals2 :
  eigh_sound eigh -> Op_Tame op = true ->
  let run := ACM_ScaleOrAdapt flt (code_matrices (RadProd (Rep_elem Gam Msqrt Minv)) CG) eigh inv junk op an lb in
  run n0 n1 v0 v1 fe fr L0 L1 s = (Ok (ev, tr, Lv), s', o) ->
  run m0 m1 w0 w1 fe2 fr2 K0 K1 s = (Ok (ev2, tr2, Lv2), s2, o2) ->
  In (L, vals) (combine Lv ev) -> In (L, vals2) (combine Lv2 ev2) ->
  (forall X Y D E, let B := mkS n0 n1 v0 v1 L L in let C := mkS m0 m1 w0 w1 L L in
     proper B -> proper C -> labels_of B = Ok X -> labels_of C = Ok Y ->
     matrix_on Gam Msqrt Minv CG (g_lam_fun s) op an lb B = Ok D -> matrix_on Gam Msqrt Minv CG (g_lam_fun s) op an lb C = Ok E -> block_of D X E Y) ->
  not_raised vals vals2.
Proof.
  intros HE HT run E E2 I I2 HBl.
  destruct (tame_run _ _ _ _ _ _ _ _ _ _ _ _ _ _ _ _ _ _ _ _ _ _ HT E) as (Hn & Hv & HH). destruct (HH L vals I) as (HL & (u & Hu & Hm) & D & P & ED & PD).
  destruct (tame_run _ _ _ _ _ _ _ _ _ _ _ _ _ _ _ _ _ _ _ _ _ _ HT E2) as (Hn2 & Hv2 & HH2). destruct (HH2 L vals2 I2) as (_ & _ & F & P2 & EF & PF).
  destruct (C06_full_labels _ _ _ _ _ _ Hn Hv (conj HL (Z.le_refl L))) as (X & EX & ND & _ & IN & _).
  destruct (C06_full_labels _ _ _ _ _ _ Hn2 Hv2 (conj HL (Z.le_refl L))) as (Y & EY & _).
  apply (block_levels eigh D X F Y vals P vals2 P2 HE ND); [| |exact PD|exact PF].
  - assert (Q : In (n0, (u, 1, L)) X) by (apply IN; lia). destruct X; [contradiction|]. unfold zlen. cbn [length]. lia.
  - apply HBl; [split; [exact Hn|split; [exact Hv|cbn; lia]]|split; [exact Hn2|split; [exact Hv2|cbn; lia]]|exact EX|exact EY|exact ED|exact EF].
Qed.

(** No level of any angular momentum is raised by a larger basis. *)
Theorem C86_levels : forall Gam Msqrt Minv files home st flt eigh inv junk an lb s c11 c20 c21 c23 c30 c33 c40 c41 c43
    n0 n1 v0 v1 fit_eig fit_rat L0 L1 ev tr Lv s' o m0 m1 w0 w1 fit_eig2 fit_rat2 K0 K1 ev2 tr2 Lv2 s2 o2 L vals vals2,
  eigh_sound eigh ->
  let z := CNum 0 in
  let op := ACM_Hamiltonian c11 c20 c21 z c23 (CNum c30) z z (CNum c33) (CNum c40) (CNum c41) z (CNum c43) z in
  let run := ACM_ScaleOrAdapt flt (code_matrices (RadProd (Rep_elem Gam Msqrt Minv)) (CG_at files home st)) eigh inv junk op an lb in
  run n0 n1 v0 v1 fit_eig fit_rat L0 L1 s = (Ok (ev, tr, Lv), s', o) ->
  run m0 m1 w0 w1 fit_eig2 fit_rat2 K0 K1 s = (Ok (ev2, tr2, Lv2), s2, o2) ->
  m0 <= n0 -> n1 <= m1 -> w0 <= v0 -> v1 <= w1 ->
  (c40 = 0 /\ c41 = 0 /\ c43 = 0)%R \/ (w0 = v0 /\ v1 = w1) ->
  (c30 = 0 /\ c33 = 0 /\ c40 = 0 /\ c41 = 0 /\ c43 = 0)%R \/ alternates (g_lam_fun s) (mkS n0 n1 v0 v1 L L) ->
  In (L, vals) (combine Lv ev) -> In (L, vals2) (combine Lv2 ev2) ->
  not_raised vals vals2.
Proof.
  intros Gam Msqrt Minv files home st flt eigh inv junk an lb s c11 c20 c21 c23 c30 c33 c40 c41 c43
    n0 n1 v0 v1 fe fr L0 L1 ev tr Lv s' o m0 m1 w0 w1 fe2 fr2 K0 K1 ev2 tr2 Lv2 s2 o2 L vals vals2 HE z op run E E2 R1 R2 R3 R4 HS HA I I2.
  assert (HT : Op_Tame op = true).
  { unfold op, z, ACM_Hamiltonian, Op_Tame, opt_term. rewrite !forallb_app, !andb_true_iff.
    repeat split; match goal with |- forallb _ (if ?c then _ else _) = true => destruct c; reflexivity end. }
  apply (run_levels Gam Msqrt Minv (CG_at files home st) flt eigh inv junk op an lb s n0 n1 v0 v1 fe fr L0 L1 ev tr Lv s' o
    m0 m1 w0 w1 fe2 fr2 K0 K1 ev2 tr2 Lv2 s2 o2 L vals vals2 HE HT E E2 I I2).
  intros X Y D F B C HB HC EX EY ED EF.
  eapply (C86_hamiltonian Gam Msqrt Minv files home st (g_lam_fun s) an lb B C X Y c11 c20 c21 c23 c30 c33 c40 c41 c43 D F HB HC); try assumption.
  - unfold within, B, C. cbn. lia.
  - destruct HS as [HS|[-> ->]]; [now left|right]. unfold same_angles, B, C. cbn. auto.
Qed.

Theorem C86_rigid_levels : forall Gam Msqrt Minv files home st flt eigh inv junk an lb s cas con c1 c2 flag op
    n0 n1 v0 v1 fit_eig fit_rat L0 L1 ev tr Lv s' o m0 m1 w0 w1 fit_eig2 fit_rat2 K0 K1 ev2 tr2 Lv2 s2 o2 L vals vals2,
  eigh_sound eigh ->
  let z := CNum 0 in
  ACM_HamRigidBeta cas con (CNum c1) (CNum c2) z z z z flag = Ok op ->
  let run := ACM_ScaleOrAdapt flt (code_matrices (RadProd (Rep_elem Gam Msqrt Minv)) (CG_at files home st)) eigh inv junk op an lb in
  run n0 n1 v0 v1 fit_eig fit_rat L0 L1 s = (Ok (ev, tr, Lv), s', o) ->
  run m0 m1 w0 w1 fit_eig2 fit_rat2 K0 K1 s = (Ok (ev2, tr2, Lv2), s2, o2) ->
  m0 <= n0 -> n1 <= m1 -> w0 <= v0 -> v1 <= w1 ->
  (flag = 1 \/ c2 = 0%R \/ (w0 = v0 /\ v1 = w1)) ->
  (constant (g_lam_fun s) (mkS n0 n1 v0 v1 L L) \/ c1 = 0%R /\ alternates (g_lam_fun s) (mkS n0 n1 v0 v1 L L)) ->
  In (L, vals) (combine Lv ev) -> In (L, vals2) (combine Lv2 ev2) ->
  not_raised vals vals2.
Proof.
  intros Gam Msqrt Minv files home st flt eigh inv junk an lb s cas con c1 c2 flag op
    n0 n1 v0 v1 fe fr L0 L1 ev tr Lv s' o m0 m1 w0 w1 fe2 fr2 K0 K1 ev2 tr2 Lv2 s2 o2 L vals vals2 HE z EO run E E2 R1 R2 R3 R4 HF HA I I2.
  assert (HT : Op_Tame op = true).
  { revert EO. unfold ACM_HamRigidBeta. destruct (raise_if _ _); [|discriminate]. cbn [bind]. intros EO.
    assert (G : forall us, us = (if flag =? 0 then ACM_HamSH3 con (CNum c1) (CNum c2) z z z z z z else ACM_HamSH6 con (CNum c1) (CNum c2) z z z z z z) -> Op_Tame us = true).
    { intros us ->. destruct (flag =? 0); unfold ACM_HamSH3, ACM_HamSH6, Op_Tame, opt_term; cbn [seq combine flat_map]; rewrite !forallb_app, !andb_true_iff;
      repeat split; match goal with |- forallb _ (if ?c then _ else _) = true => destruct c; reflexivity | _ => reflexivity end. }
    specialize (G _ eq_refl). destruct (is0 cas); injection EO as <-; [exact G|]. cbn [Op_Tame forallb]. exact G. }
  apply (run_levels Gam Msqrt Minv (CG_at files home st) flt eigh inv junk op an lb s n0 n1 v0 v1 fe fr L0 L1 ev tr Lv s' o
    m0 m1 w0 w1 fe2 fr2 K0 K1 ev2 tr2 Lv2 s2 o2 L vals vals2 HE HT E E2 I I2).
  intros X Y D F B C HB HC EX EY ED EF.
  eapply (C86_rigid Gam Msqrt Minv files home st (g_lam_fun s) an lb B C X Y cas con c1 c2 flag op D F HB HC); try assumption.
  - unfold within, B, C. cbn. lia.
  - destruct HF as [HF|[HF|[-> ->]]]; [now left|right; now left|right; right]. unfold same_angles, B, C. cbn. auto.
Qed.

(** The lambda functions of the library. *)
Theorem C86_lambdas : forall B, 0 <= s_v_min B ->
  alternates lambda_acm_fun B /\ constant lambda_fix_fun B /\
  (constant lambda_acm_fun B <-> s_v_max B <= s_v_min B) /\ (alternates lambda_sho_fun B <-> s_v_max B <= s_v_min B + 1).
Proof.
  intros B H0.
  assert (N : forall v, 0 <= v -> require_nonnegint v = Ok tt) by (intros; now apply require_nonnegint_ok).
  assert (A : forall v, 0 <= v -> lambda_acm_fun v = Ok (v mod 2)).
  { intros v Hv. unfold lambda_acm_fun. rewrite N by lia. cbn [bind]. now rewrite irem_ok by lia. }
  assert (S : forall v, 0 <= v -> lambda_sho_fun v = Ok v) by (intros v Hv; unfold lambda_sho_fun; rewrite N by lia; reflexivity).
  assert (F : forall v, 0 <= v -> lambda_fix_fun v = Ok 0) by (intros v Hv; unfold lambda_fix_fun; rewrite N by lia; reflexivity).
  split; [|split; [|split]].
  - intros v w k k' Hv Hw E1 E2. rewrite A in E1, E2 by lia. injection E1 as <-. injection E2 as <-. lia.
  - intros v w k k' Hv Hw E1 E2. rewrite F in E1, E2 by lia. congruence.
  - split.
    + intros H. destruct (Z_le_gt_dec (s_v_max B) (s_v_min B)) as [|G]; [assumption|].
      pose proof (A (s_v_min B) ltac:(lia)) as E1. pose proof (A (s_v_min B + 1) ltac:(lia)) as E2.
      pose proof (H (s_v_min B) (s_v_min B + 1) _ _ ltac:(lia) ltac:(lia) E1 E2). lia.
    + intros H v w k k' Hv Hw E1 E2. replace w with v in E2 by lia. congruence.
  - split.
    + intros H. destruct (Z_le_gt_dec (s_v_max B) (s_v_min B + 1)) as [|G]; [assumption|].
      pose proof (S (s_v_min B) ltac:(lia)) as E1. pose proof (S (s_v_min B + 2) ltac:(lia)) as E2.
      pose proof (H (s_v_min B) (s_v_min B + 2) _ _ ltac:(lia) ltac:(lia) E1 E2). lia.
    + intros H v w k k' Hv Hw E1 E2. rewrite S in E1, E2 by lia. injection E1 as <-. injection E2 as <-. lia.
Qed.

(** ** Larger seniorities with cos^2(3 gamma) *)

Section Square.
  Variable Gam : R -> R.
  Variables Msqrt Minv : mat R -> res (mat R).
  Variable files : Text.text -> res (list R).
  Variables (home : Text.text) (st : cg_state) (lam : Z -> res Z) (an lb g : R).
  Let CG := CG_at files home st.
  Let RP := RadProd (Rep_elem Gam Msqrt Minv).
  Hypothesis Hg : CG 0 1 0 3 1 0 3 1 0 = Ok g.
  Hypothesis Hlam : forall v, 0 <= v -> exists k, lam v = Ok k /\ 0 <= k.
  Hypothesis Hlb : (0 < lb)%R.

  Lemma labels_0 : lbs 0 0 0 0 = [(0, 1, 0)]. Proof. reflexivity. Qed.
  Lemma labels_3 : lbs 0 3 0 0 = [(0, 1, 0); (3, 1, 0)]. Proof. reflexivity. Qed.

  Lemma sub_labels vm x : vm = 0 \/ vm = 3 -> In x (lbs 0 vm 0 0) -> In x (lbs 0 3 0 0).
  Proof. intros [-> | ->]; [rewrite labels_0, labels_3; intros [<- | []]; now left|auto]. Qed.

  (** cos(3 gamma) itself. *)
  Lemma cos_matrix vm : vm = 0 \/ vm = 3 -> exists S, RepSO5r3_Prod CG [YSym (OSph SpHarm_310)] 0 vm 0 0 = Ok S /\
    square (zlen (lbs 0 vm 0 0)) S /\ ent S 0 0 = 0%R /\
    (vm = 3 -> ent S 1 1 = 0%R /\ ent S 0 1 = ent S 1 0 /\ exists m, ME_SO5red 3 3 0 = Ok (Some m) /\ m <> 0%R /\ ent S 1 0 = (g * m)%R).
  Proof.
    intros Hvm. assert (Hv : 0 <= 0 <= vm) by lia. assert (HL : 0 <= 0 <= 0) by lia.
    pose proof (lbs_rngVvarL_some 0 vm 0 0 Hv HL) as El.
    assert (ES : exists S, RepSO5r3_Prod CG [YSym (OSph SpHarm_310)] 0 vm 0 0 = Ok S).
    { rewrite C51_designators by assumption. cbn [fst snd SpHarm_Table]. unfold RepSO5_Y. rewrite El. cbn [bind].
      match goal with |- context [mapM ?f ?l] => assert (G : exists rows, mapM f l = Ok rows) end.
      { apply mapM_total. intros [[vf af] Lf] Hf. apply mapM_total. intros [[vi ai] Li] Hi.
        destruct (scalar_pair files home st g Hg vf af Lf vi ai Li (sub_labels _ _ Hvm Hf) (sub_labels _ _ Hvm Hi)) as (h & Eh).
        apply in_lbs in Hf, Hi. unfold ME_SO5r3. unfold CG. rewrite Eh. cbn [bind].
        destruct (C29_ME_total vf 3 vi ltac:(lia) ltac:(lia) ltac:(lia)) as (m & -> & _). eexists; reflexivity. }
      destruct G as (rows & ->). eexists; reflexivity. }
    destruct ES as (S & ES). exists S. split; [exact ES|].
    split; [exact (sprod_square CG 0 vm 0 0 Hv HL _ _ ES)|].
    pose proof (harmonic_parity files home st 0 vm 0 0 SpHarm_310 S Hv HL ES) as GR.
    split.
    - destruct Hvm as [-> | ->]; apply (GR 0 0 0 1 0 0 1 0); try lia; try reflexivity; cbn; lia.
    - intros ->. split; [apply (GR 1 1 3 1 0 3 1 0); try lia; try reflexivity; cbn; lia|].
      assert (SY : symmetric S).
      { apply (good_scalar files home st 0 3 0 0 SpHarm_310 3 1 Hv HL eq_refl); [intros F; discriminate F|exact ES]. }
      destruct SY as (S1 & S2 & S3). destruct (sprod_square CG 0 3 0 0 Hv HL _ _ ES) as [Q1 Q2]. change (zlen (lbs 0 3 0 0)) with 2 in Q1, Q2.
      split; [apply S3; lia|].
      rewrite C51_designators in ES by assumption. cbn [fst snd SpHarm_Table] in ES.
      destruct (C51_matrix _ _ _ _ _ _ _ _ _ _ El ES) as (_ & _ & H). specialize (H 1 0 3 1 0 0 1 0 ltac:(lia) ltac:(lia) eq_refl eq_refl).
      destruct (C29_ME_total 3 3 0 ltac:(lia) ltac:(lia) ltac:(lia)) as (m & E' & _ & TR).
      exists m. split; [exact E'|]. split; [apply TR; lia|]. unfold ME_SO5r3 in H. rewrite Hg in H. cbn [bind] in H. rewrite E' in H. cbn [bind] in H. injection H as H. rewrite <- H. ring.
  Qed.

  (** Its square, multiplied on the truncated basis. *)
  Lemma square_matrix vm : vm = 0 \/ vm = 3 -> exists T x, RepSO5r3_Prod CG (map YSym (map OSph [SpHarm_310; SpHarm_310])) 0 vm 0 0 = Ok T /\
    (vm = 0 -> x = 0%R) /\ (vm = 3 -> g <> 0%R -> (0 < x)%R) /\
    forall i j, 0 <= i < zlen (lbs 0 vm 0 0) -> 0 <= j < zlen (lbs 0 vm 0 0) -> ent T i j = if i =? j then x else 0%R.
  Proof.
    intros Hvm. assert (Hv : 0 <= 0 <= vm) by lia. assert (HL : 0 <= 0 <= 0) by lia.
    destruct (cos_matrix vm Hvm) as (S & ES & SS & S00 & HS).
    destruct (C51_product_app CG 0 vm 0 0 Hv HL _ _ _ _ ES ES) as (T & U & ET & EU & VT). rewrite (matmul_mm (zlen (lbs 0 vm 0 0))) in EU by assumption. injection EU as <-.
    destruct SS as [Q1 Q2]. destruct VT as (V1 & V2 & V3).
    destruct Hvm as [-> | ->].
    - exists T, 0%R. split; [exact ET|]. split; [reflexivity|]. split; [lia|]. rewrite labels_0 in *. change (zlen [(0, 1, 0)]) with 1 in *.
      intros i j Hi Hj. replace i with 0 by lia. replace j with 0 by lia. rewrite V3 by (rewrite ?V1, ?V2; cbn [mm nrows ncols]; lia).
      cbn [mm ent]. rewrite Q2. change (Z.to_nat 1) with 1%nat. cbn [rsum]. change (Z.of_nat 0) with 0. rewrite S00. cbn [Z.eqb]. ring.
    - destruct (HS eq_refl) as (S11 & SYM & m & _ & Nm & S10). rewrite labels_3 in *. change (zlen [(0, 1, 0); (3, 1, 0)]) with 2 in *.
      exists T, ((g * m) * (g * m))%R. split; [exact ET|]. split; [lia|]. split.
      { intros _ Ng. assert (g * m <> 0)%R by (now apply Rmult_integral_contrapositive_currified). pose proof (Rle_0_sqr (g * m)) as P. unfold Rsqr in P.
        assert (g * m * (g * m) <> 0)%R by (now apply Rmult_integral_contrapositive_currified). lra. }
      intros i j Hi Hj. rewrite V3 by (rewrite ?V1, ?V2; cbn [mm nrows ncols]; lia). cbn [mm ent]. rewrite Q2. change (Z.to_nat 2) with 2%nat. cbn [rsum].
      change (Z.of_nat 0) with 0. change (Z.of_nat 1) with 1.
      assert (i = 0 \/ i = 1) as [-> | ->] by lia; assert (j = 0 \/ j = 1) as [-> | ->] by lia; rewrite ?S00, ?S11, ?SYM, ?S10; cbn; ring.
  Qed.

  (** A harmonic word whose matrix is x times the identity. *)
  Lemma scalar_word nm vm hs T x (c : coef) X : 0 <= nm -> 0 <= vm ->
    RepSO5r3_Prod CG (map YSym (map OSph hs)) 0 vm 0 0 = Ok T ->
    (forall i j, 0 <= i < zlen (lbs 0 vm 0 0) -> 0 <= j < zlen (lbs 0 vm 0 0) -> ent T i j = if i =? j then x else 0%R) ->
    lbsXspace 0 nm 0 vm 0 (Some 0) = Ok X ->
    exists D, matrix_on Gam Msqrt Minv CG lam [(c, map OSph hs)] an lb (mkS 0 nm 0 vm 0 0) = Ok D /\ nrows D = zlen X /\ ncols D = zlen X /\
      forall p q nu v al L, 0 <= p < nrows D -> 0 <= q -> nth_error X (Z.to_nat q) = Some (nu, (v, al, L)) ->
        ent D p q = if p =? q then (cval c nu v al L * (x / (4 * PI) ^ length hs))%R else 0%R.
  Proof.
    intros Hnm Hvm ET VT EX. assert (Hn : 0 <= 0 <= nm) by lia. assert (Hv : 0 <= 0 <= vm) by lia. assert (HL : 0 <= 0 <= 0) by lia.
    pose proof (lbs_rngVvarL_some 0 vm 0 0 Hv HL) as El.
    set (a := mkXA an lb 0 nm 0 vm 0 0).
    assert (LN : forall i y, 0 <= i -> nth_error (lbs 0 vm 0 0) (Z.to_nat i) = Some y -> 0 <= i < zlen (lbs 0 vm 0 0)).
    { intros i y Hi E. assert (N : nth_error (lbs 0 vm 0 0) (Z.to_nat i) <> None) by congruence. apply nth_error_Some in N. unfold zlen. lia. }
    assert (DT : exists W, RepXspace_Twin RP CG lam [] (map OSph hs) a = Ok W).
    { apply (C52_twin_defined RP CG lam [] _ a (lbs 0 vm 0 0) T Hn El Hv HL ET).
      intros i j vf af Lf vi ai Li Hi Hj Ei Ej.
      pose proof (in_lbs _ _ _ _ _ _ _ (nth_error_In _ _ Ei)) as Bf. pose proof (in_lbs _ _ _ _ _ _ _ (nth_error_In _ _ Ej)) as Bi.
      destruct (Hlam vi ltac:(lia)) as (li & E1 & P1). destruct (Hlam vf ltac:(lia)) as (lf & E2 & P2). exists li, lf. split; [exact E1|]. split; [exact E2|].
      intros N. rewrite (VT i j (LN _ _ Hi Ei) (LN _ _ Hj Ej)) in N. destruct (Z.eqb_spec i j) as [<-|]; [|lra].
      rewrite Ei in Ej. injection Ej as <- <- <-. rewrite E1 in E2. injection E2 as <-. rewrite Z.sub_diag.
      destruct (RadProd_nil Gam Msqrt Minv an (lb + IZR li) 0 nm) as (m & Em & M1 & M2 & _); [|lia|].
      - apply (IZR_le 0) in P1. lra.
      - exists m. split; [exact Em|]. split; [exact M1|exact M2]. }
    destruct DT as (W & EW).
    pose proof (C35_segment RP CG lam a (lin_valid an lb 0 nm 0 vm 0 0 Hn Hv HL) (map OSph hs)) as SEG.
    assert (Hs : Forall in_seg (map OSph hs)) by (clear; induction hs; constructor; [exact Logic.I|assumption]).
    specialize (SEG Hs). cbv beta zeta in SEG.
    assert (RR : radial_part (map OSph hs) = []) by (clear; induction hs; [reflexivity|assumption]).
    assert (RS : spherical_part (map OSph hs) = map OSph hs) by (clear; induction hs as [|h hs IH]; [reflexivity|]; unfold spherical_part in *; cbn [map filter]; now rewrite IH).
    rewrite RR, RS, EW in SEG.
    destruct (fst (RepXspace_Prod RP CG (map OSph hs) a (mkX lam []))) as [M|] eqn:EM; [|contradiction]. clear SEG.
    destruct (C06_layout 0 nm 0 vm 0 0 Hn Hv HL) as (X' & sp & EX' & Es & Hl & HN). rewrite EX in EX'. injection EX' as <-. rewrite El in Es. injection Es as <-.
    assert (Hd : dimRadial 0 nm = nm + 1) by (unfold dimRadial; replace (0 <=? nm) with true by lia; lia). rewrite Hd in *.
    destruct (C54_linear RP CG lam an lb 0 nm 0 vm 0 0 Hn Hv HL [(c, map OSph hs)] X EX) as (DEF & VAL).
    destruct (proj2 DEF) as (D & ED); [intros t [<- | []]; exists M; exact EM|].
    destruct (VAL D ED) as (Ms & FM & S1 & S2 & EV). inversion FM as [|? M' ? ? EM' F0]; subst. inversion F0; subst. cbn [snd] in EM'. fold a in EM'. rewrite EM in EM'. injection EM' as <-.
    exists D. split; [exact ED|]. split; [lia|]. split; [lia|].
    destruct (word_entries RP CG lam an lb 0 nm 0 vm 0 0 Hn Hv HL [] hs M X (Forall_nil _) EX EM) as (T' & ET' & VV).
    rewrite ET in ET'. injection ET' as <-.
    intros p q nu v al L Hp Hq Eq. rewrite S1 in Hp.
    assert (AT : forall k, 0 <= k < zlen X -> exists v al L, nth_error (lbs 0 vm 0 0) (Z.to_nat (k / (nm + 1))) = Some (v, al, L) /\
        0 <= k / (nm + 1) < zlen (lbs 0 vm 0 0) /\ 0 <= k mod (nm + 1) < nm + 1 /\ k = (nm + 1) * (k / (nm + 1)) + k mod (nm + 1) /\
        nth_error X (Z.to_nat k) = Some (k mod (nm + 1), (v, al, L))).
    { intros k Hk. pose proof (Z.div_mod k (nm + 1) ltac:(lia)) as Q1. pose proof (Z.mod_pos_bound k (nm + 1) ltac:(lia)) as Q2.
      assert (Q3 : 0 <= k / (nm + 1) < zlen (lbs 0 vm 0 0)).
      { split; [apply Z.div_pos; lia|]. apply Z.div_lt_upper_bound; [lia|]. lia. }
      revert Q1 Q2 Q3. generalize (k / (nm + 1)), (k mod (nm + 1)). intros d r Q1 Q2 Q3.
      destruct (nth_error (lbs 0 vm 0 0) (Z.to_nat d)) as [[[v0 al0] L0]|] eqn:E; [|apply nth_error_None in E; unfold zlen in Q3; lia].
      exists v0, al0, L0. split; [reflexivity|]. split; [exact Q3|]. split; [exact Q2|]. split; [exact Q1|].
      pose proof (HN (Z.to_nat d) (Z.to_nat r) _ E ltac:(lia)) as Q. rewrite (Z2Nat.id r), Z.add_0_l in Q by lia.
      replace (Z.to_nat k) with (Z.to_nat d * Z.to_nat (nm + 1) + Z.to_nat r)%nat; [exact Q|].
      rewrite <- Z2Nat.inj_mul, <- Z2Nat.inj_add by nia. f_equal. lia. }
    assert (Hq' : 0 <= q < zlen X).
    { split; [exact Hq|]. assert (N : nth_error X (Z.to_nat q) <> None) by congruence. apply nth_error_Some in N. unfold zlen. lia. }
    destruct (AT p Hp) as (vf & af & Lf & Ei & I1 & I2 & I3 & Xi). destruct (AT q Hq') as (vi & ai & Li & Ej & J1 & J2 & J3 & Xj). clear AT HN.
    rewrite Xj in Eq. injection Eq as <- <- <- <-.
    rewrite (EV p q _ ltac:(lia) ltac:(lia) Xj). unfold weighted. cbn [combine map fold_right fst snd].
    destruct (VV p q _ vf af Lf _ vi ai Li ltac:(lia) ltac:(lia) Xi Xj) as (li & lf & E1 & E2 & V1 & V2). cbv zeta in V1, V2.
    replace (nm - 0 + 1) with (nm + 1) in V1, V2 by lia. rewrite (VT _ _ I1 J1) in V1, V2.
    revert Ei Ej I1 I2 I3 J1 J2 J3 Xi Xj V1 V2. generalize (p / (nm + 1)), (p mod (nm + 1)), (q / (nm + 1)), (q mod (nm + 1)). intros i r j r' Ei Ej I1 I2 I3 J1 J2 J3 Xi Xj V1 V2.
    destruct (Z.eqb_spec i j) as [<-|N].
    - rewrite Ei in Ej. injection Ej as <- <- <-. rewrite E1 in E2. injection E2 as <-.
      destruct (Req_EM_T (x / (4 * PI) ^ length hs) 0) as [Z0|N0]; [rewrite (V1 Z0), Z0; destruct (p =? q); ring|].
      destruct (V2 N0) as (m & Em & ->). rewrite Z.sub_diag in Em.
      destruct (Hlam vf) as (k & Ek & Pk); [apply nth_error_In in Ei; apply in_lbs in Ei; lia|]. rewrite E1 in Ek. injection Ek as <-.
      destruct (RadProd_nil Gam Msqrt Minv an (lb + IZR li) 0 nm) as (m' & Em' & M1 & M2 & M3); [apply (IZR_le 0) in Pk; lra|lia|].
      unfold RP in Em. rewrite Em in Em'. injection Em' as <-. rewrite !Z.sub_0_r in *. cbn [eye nrows ncols] in M1, M2. rewrite M3 by lia. cbn [eye ent].
      replace (r =? r') with (p =? q) by nia. destruct (p =? q); ring.
    - rewrite V1 by (unfold Rdiv; ring). replace (p =? q) with false by nia. ring.
  Qed.
End Square.

(** A run whose matrix is diagonal with ascending entries. *)
Lemma ascending_run flt RepX inv junk op an lb nm vm s D d k : dimSO5r3_rngV 0 vm 0 = Ok k -> 0 < k ->
  Op_Tame op = true -> 0 <= nm -> 0 <= vm -> RepX s op an lb 0 nm 0 vm 0 None = Ok D -> nrows D = zlen d -> ncols D = zlen d -> 0 < zlen d ->
  StronglySorted Rle d ->
  (forall i j, 0 <= i < nrows D -> 0 <= j < nrows D -> ent D i j = if i =? j then nth (Z.to_nat i) d 0%R else 0%R) ->
  g_eig_num s <= 0 -> g_rat_lst s = [] -> g_amp_lst s = [] ->
  ACM_Scale flt RepX eigh0 inv junk op an lb 0 nm 0 vm 0 None s = (Ok ([d], None, [0]), s, []).
Proof.
  intros Ek Pk HT Hnm Hvm ED S1 S2 Pd SO HV G1 G2 G3.
  destruct (C47_symmetrised eigh0 D ltac:(lia)) as (A & EA & A1 & A2 & A3 & A4 & _).
  assert (EE : Eigenfiddle eigh0 D = Ok (d, eye (nrows A))).
  { rewrite EA. apply eigh0_diagonal; [lia| |exact SO]. intros i j Hi Hj. rewrite A4. rewrite (HV i j), (HV j i), (Z.eqb_sym j i) by lia.
    destruct (Z.eqb_spec i j) as [<-|]; lra. }
  assert (DI : dig RepX eigh0 op an lb 0 nm 0 vm s 0 None = Ok ([d], [eye (nrows A)], [0])).
  { unfold dig. rewrite HT.
    assert (G : forall (F : Z -> option Z -> res (mat R)) (Eg : mat R -> res (list R * mat R)) P, F 0 None = Ok D -> Eg D = Ok (d, P) ->
      DigXspace F Eg true 0 nm 0 vm 0 None = Ok ([d], [P], [0])).
    { intros F Eg P F1 F2. unfold DigXspace. cbn [L_top]. rewrite !require_range_ok by lia. cbn [bind]. change (py_range 0 (0 + 1)) with [0]. cbn -[dimSO5r3_rngV dimXspace]. rewrite Ek. cbn [bind]. replace (0 <? k) with true by lia. rewrite F1. cbn [bind]. rewrite F2. reflexivity. }
    apply G; assumption. }
  unfold ACM_Scale. rewrite run_stages. rewrite (checks_ok flt RepX eigh0 inv junk op an lb); [|lia|lia|lia|lia|cbn; lia|lia|lia].
  cbn [bind]. rewrite DI, pbind_ok. unfold pbind at 1, eig_stage. replace (0 <? g_eig_num s) with false by lia. cbv iota.
  unfold pret at 1. unfold pbind at 1, rat_stage. rewrite G2, G3. change ((0 <? zlen (@nil (list Z))) || (0 <? zlen (@nil (list Z)))) with false. reflexivity.
Qed.


Lemma labels_space nm vm : 0 <= nm -> 0 <= vm -> exists X, lbsXspace 0 nm 0 vm 0 (Some 0) = Ok X.
Proof. intros H1 H2. destruct (C06_layout 0 nm 0 vm 0 0 ltac:(lia) ltac:(lia) ltac:(lia)) as (X & _ & E & _). eauto. Qed.

Lemma acm_defined : forall v, 0 <= v -> exists k, lambda_acm_fun v = Ok k /\ 0 <= k.
Proof. intros v H. exists (v mod 2). split; [|lia]. unfold lambda_acm_fun. rewrite require_nonnegint_ok by lia. cbn [bind]. now rewrite irem_ok by lia. Qed.

Lemma only_c40 c : c <> 0%R ->
  ACM_Hamiltonian (CNum 0) (CNum 0) (CNum 0) (CNum 0) (CNum 0) (CNum 0) (CNum 0) (CNum 0) (CNum 0) (CNum c) (CNum 0) (CNum 0) (CNum 0) (CNum 0)
  = [(CNum (Convert_310 ^ 2 * c), map OSph [SpHarm_310; SpHarm_310])].
Proof. intros H. unfold ACM_Hamiltonian, opt_term. cbn [is0]. destruct (Req_EM_T 0 0); [|lra]. destruct (Req_EM_T c 0); [lra|]. reflexivity. Qed.

(** With cos^2(3 gamma) the lowest energy may rise when the seniorities are
    extended: from 0 to a positive number, going from v <= 0 to v <= 3. *)
Theorem C86_seniority_refuted : forall Gam Msqrt Minv files home st flt inv junk g,
  CG_at files home st 0 1 0 3 1 0 3 1 0 = Ok g -> g <> 0%R ->
  exists s x,
  let z := CNum 0 in
  let op := ACM_Hamiltonian z z z z z z z z z (CNum 1) z z z z in
  let run v_max := ACM_Scale flt (code_matrices (RadProd (Rep_elem Gam Msqrt Minv)) (CG_at files home st)) eigh0 inv junk op 1 (5 / 2) 0 0 0 v_max 0 None s in
  alternates (g_lam_fun s) (mkS 0 0 0 3 0 0) /\ 
  run 0 = (Ok ([[0%R]], None, [0]), s, []) /\ run 3 = (Ok ([[x; x]], None, [0]), s, []) /\ (0 < x)%R.
Proof.
  intros Gam Msqrt Minv files home st flt inv junk g Hg Ng. set (s := w_eig_num 0 imported). exists s.
  assert (HP : (0 < Convert_310)%R) by (pose proof PI_RGT_0; unfold Convert_310, FourPi; lra).
  assert (HC : (0 < Convert_310 ^ 2 * 1)%R) by (rewrite Rmult_1_r; now apply pow_lt).
  pose proof PI_RGT_0 as HPI. assert (H4 : (0 < (4 * PI) ^ 2)%R) by (apply pow_lt; lra).
  destruct (square_matrix Gam Msqrt Minv files home st lambda_acm_fun g Hg acm_defined 0 ltac:(lia)) as (T0 & y0 & ET0 & Y0 & _ & VT0). specialize (Y0 eq_refl). subst y0.
  destruct (square_matrix Gam Msqrt Minv files home st lambda_acm_fun g Hg acm_defined 3 ltac:(lia)) as (T3 & y & ET3 & _ & Y3 & VT3). specialize (Y3 eq_refl Ng).
  destruct (scalar_word Gam Msqrt Minv files home st lambda_acm_fun 1 (5 / 2) acm_defined ltac:(lra) 0 0 [SpHarm_310; SpHarm_310] T0 0 (CNum (Convert_310 ^ 2 * 1)) _ ltac:(lia) ltac:(lia) ET0 VT0 eq_refl)
    as (D0 & ED0 & A1 & A2 & A3).
  destruct (scalar_word Gam Msqrt Minv files home st lambda_acm_fun 1 (5 / 2) acm_defined ltac:(lra) 0 3 [SpHarm_310; SpHarm_310] T3 y (CNum (Convert_310 ^ 2 * 1)) _ ltac:(lia) ltac:(lia) ET3 VT3 eq_refl)
    as (D3 & ED3 & B1 & B2 & B3).
  exists (Convert_310 ^ 2 * 1 * (y / (4 * PI) ^ 2))%R. cbv zeta. rewrite only_c40 by lra.
  change (nrows D0 = 1) in A1. change (ncols D0 = 1) in A2. change (nrows D3 = 2) in B1. change (ncols D3 = 2) in B2.
  split; [apply C86_lambdas; cbn; lia|]. split; [|split].
  - eapply (ascending_run _ _ _ _ _ _ _ 0 0 s D0 [0%R] 1); try reflexivity; try lia; [exact ED0|exact A1|exact A2|repeat constructor|].
    intros i j Hi Hj. replace i with 0 by lia. replace j with 0 by lia. rewrite (A3 0 0 0 0 1 0 ltac:(lia) ltac:(lia) eq_refl). cbn [Z.eqb Z.to_nat nth]. unfold Rdiv. ring.
  - eapply (ascending_run _ _ _ _ _ _ _ 0 3 s D3 [_; _] 2); try reflexivity; try lia; [exact ED3|exact B1|exact B2| |].
    + repeat (apply SSorted_cons || apply SSorted_nil || apply Forall_cons || apply Forall_nil); apply Rle_refl.
    + intros i j Hi Hj. assert (j = 0 \/ j = 1) as [-> | ->] by lia.
      * rewrite (B3 i 0 0 0 1 0 ltac:(lia) ltac:(lia) eq_refl). assert (i = 0 \/ i = 1) as [-> | ->] by lia; reflexivity.
      * rewrite (B3 i 1 0 3 1 0 ltac:(lia) ltac:(lia) eq_refl). assert (i = 0 \/ i = 1) as [-> | ->] by lia; reflexivity.
  - apply Rmult_lt_0_compat; [exact HC|]. apply Rmult_lt_0_compat; [exact Y3|]. now apply Rinv_0_lt_compat.
Qed.

(** ** Cases *)

Example C86_seniority_case : forall Msqrt Minv flt inv junk, exists s x,
  let z := CNum 0 in
  let op := ACM_Hamiltonian z z z z z z z z z (CNum 1) z z z z in
  let run v_max := ACM_Scale flt (code_matrices (RadProd (Rep_elem (fun _ => 1%R) Msqrt Minv)) (CG_at ones [] (fresh []))) eigh0 inv junk op 1 (5 / 2) 0 0 0 v_max 0 None s in
  run 0 = (Ok ([[0%R]], None, [0]), s, []) /\ run 3 = (Ok ([[x; x]], None, [0]), s, []) /\ (0 < x)%R.
Proof.
  intros Msqrt Minv flt inv junk.
  destruct (C86_seniority_refuted (fun _ => 1%R) Msqrt Minv ones [] (fresh []) flt inv junk 1 ones_coefficient R1_neq_R0) as (s & x & _ & H). exists s, x. exact H.
Qed.

(** An energy growing with the seniority: two runs that succeed. *)
Example C86_levels_case : forall Gam Msqrt Minv flt inv junk, exists s,
  let z := CNum 0 in
  let op := ACM_Hamiltonian z (SEN (fun v => IZR v * (IZR v + 3))%R) z z z z z z z z z z z z in
  let run nu_max v_max := ACM_Scale flt (code_matrices (RadProd (Rep_elem Gam Msqrt Minv)) (CG_at ones [] (fresh []))) eigh0 inv junk op 1 (5 / 2) 0 nu_max 0 v_max 0 None s in
  eigh_sound eigh0 /\ alternates (g_lam_fun s) (mkS 0 1 0 3 0 0) /\
  run 0 0 = (Ok ([[0%R]], None, [0]), s, []) /\ run 1 3 = (Ok ([[0; 0; 18; 18]%R], None, [0]), s, []).
Proof.
  intros Gam Msqrt Minv flt inv junk. set (s := w_eig_num 0 imported). exists s. cbv zeta. split; [exact eigh0_sound|]. split; [apply C86_lambdas; cbn; lia|].
  set (c := SEN (fun v => (IZR v * (IZR v + 3))%R)).
  assert (EO : ACM_Hamiltonian (CNum 0) c (CNum 0) (CNum 0) (CNum 0) (CNum 0) (CNum 0) (CNum 0) (CNum 0) (CNum 0) (CNum 0) (CNum 0) (CNum 0) (CNum 0) = [(c, map OSph [])]).
  { unfold ACM_Hamiltonian, opt_term, c, SEN. cbn [is0]. destruct (Req_EM_T 0 0); [|lra]. reflexivity. }
  rewrite EO.
  destruct (scalar_word Gam Msqrt Minv ones [] (fresh []) lambda_acm_fun 1 (5 / 2) acm_defined ltac:(lra) 0 0 [] (eye 1) 1 c _ ltac:(lia) ltac:(lia) eq_refl (fun _ _ _ _ => eq_refl) eq_refl)
    as (D0 & ED0 & A1 & A2 & A3).
  destruct (scalar_word Gam Msqrt Minv ones [] (fresh []) lambda_acm_fun 1 (5 / 2) acm_defined ltac:(lra) 1 3 [] (eye 2) 1 c _ ltac:(lia) ltac:(lia) eq_refl (fun _ _ _ _ => eq_refl) eq_refl)
    as (D3 & ED3 & B1 & B2 & B3).
  change (nrows D0 = 1) in A1. change (ncols D0 = 1) in A2. change (nrows D3 = 4) in B1. change (ncols D3 = 4) in B2. split.
  - eapply (ascending_run _ _ _ _ _ _ _ 0 0 s D0 [0%R] 1); try reflexivity; try lia; [exact ED0|exact A1|exact A2|repeat constructor|].
    intros i j Hi Hj. replace i with 0 by lia. replace j with 0 by lia. rewrite (A3 0 0 0 0 1 0 ltac:(lia) ltac:(lia) eq_refl). cbn. lra.
  - eapply (ascending_run _ _ _ _ _ _ _ 1 3 s D3 _ 2); try reflexivity; try lia; [exact ED3|exact B1|exact B2| |].
    + repeat (apply SSorted_cons || apply SSorted_nil || apply Forall_cons || apply Forall_nil); lra.
    + intros i j Hi Hj. assert (j = 0 \/ j = 1 \/ j = 2 \/ j = 3) as [-> | [-> | [-> | ->]]] by lia;
      [rewrite (B3 i 0 0 0 1 0 ltac:(lia) ltac:(lia) eq_refl)|rewrite (B3 i 1 1 0 1 0 ltac:(lia) ltac:(lia) eq_refl)|
       rewrite (B3 i 2 0 3 1 0 ltac:(lia) ltac:(lia) eq_refl)|rewrite (B3 i 3 1 3 1 0 ltac:(lia) ltac:(lia) eq_refl)];
      assert (i = 0 \/ i = 1 \/ i = 2 \/ i = 3) as [-> | [-> | [-> | ->]]] by lia;
      cbv [nth Z.to_nat Pos.to_nat Pos.iter_op Nat.add Z.eqb Pos.eqb cval c SEN length pow]; lra.
Qed.

(** beta cos(3 gamma) on bases of seniorities 0 .. 3. *)
Lemma beta_defined Msqrt Minv nm : 0 <= nm -> exists D,
  let z := CNum 0 in
  matrix_on (fun _ => 1%R) Msqrt Minv (CG_at ones [] (fresh [])) lambda_acm_fun (ACM_Hamiltonian z z z z z (CNum 3) z z z z z z z z) 2 (5 / 2) (mkS 0 nm 0 3 0 0) = Ok D.
Proof.
  intros Hnm. set (CG := CG_at ones [] (fresh [])). set (RP := RadProd (Rep_elem (fun _ => 1%R) Msqrt Minv)).
  assert (LAM : forall v, 0 <= v -> lambda_acm_fun v = Ok (v mod 2)).
  { intros v H0. unfold lambda_acm_fun. rewrite require_nonnegint_ok by lia. cbn [bind]. now rewrite irem_ok by lia. }
  assert (EH : ACM_Hamiltonian (CNum 0) (CNum 0) (CNum 0) (CNum 0) (CNum 0) (CNum 3) (CNum 0) (CNum 0) (CNum 0) (CNum 0) (CNum 0) (CNum 0) (CNum 0) (CNum 0)
             = [(CNum (Convert_310 * 3), map ORad [Radial_b] ++ [OSph SpHarm_310])]).
  { unfold ACM_Hamiltonian, opt_term. cbn [is0]. destruct (Req_EM_T 0 0); [|lra]. destruct (Req_EM_T 3 0); [lra|]. reflexivity. }
  assert (PL : Forall plain_symbol [Radial_b]) by (repeat (apply Forall_nil || apply Forall_cons); exact Logic.I).
  assert (RAD : forall li lf, (li = 0 /\ lf = 1) \/ (li = 1 /\ lf = 0) -> exists M, RP [Radial_b] 2%R (5 / 2 + IZR li)%R (lf - li) 0 nm 0 = Ok M /\ nrows M = nm - 0 + 1 /\ ncols M = nm - 0 + 1).
  { intros li lf [[-> ->]|[-> ->]].
    - destruct (word_b_pl (fun _ => 1%R) Msqrt Minv 0 nm ltac:(lia) 2 (5 / 2 + 0) ltac:(lra)) as (M & E & A & B & _). exists M. auto.
    - destruct (word_b_ml (fun _ => 1%R) Msqrt Minv 0 nm ltac:(lia) 2 (5 / 2 + 1) ltac:(lra)) as (M & E & A & B & _). exists M. auto. }
  destruct (C79_defined RP CG lambda_acm_fun 2 (5 / 2) 0 nm 0 3 0 0 ltac:(lia) ltac:(lia) ltac:(lia) (Convert_310 * 3) [Radial_b] SpHarm_310 3 1 0 PL eq_refl) as (D & ED).
  - intros v Bv. rewrite LAM by lia. eauto.
  - apply (scalar_pair ones [] (fresh []) 1 ones_coefficient).
  - intros vf vi lf li m Bf Bi Ei Ef Em N. rewrite LAM in Ei by lia. rewrite LAM in Ef by lia.
    destruct (C29_ME_total vf 3 vi ltac:(lia) ltac:(lia) ltac:(lia)) as (m' & E' & _ & TR). rewrite Em in E'. injection E' as <-. apply TR in N.
    injection Ei as <-. injection Ef as <-. destruct (RAD (vi mod 2) (vf mod 2)) as (M & E & A & B); [lia|]. eauto.
  - exists D. cbv zeta. rewrite EH. exact ED.
Qed.

(** The two matrices exist, the smaller is a block of the larger, and neither is
    diagonal. *)
Example C86_hamiltonian_case : forall Msqrt Minv, exists X Y D F,
  let z := CNum 0 in
  let op := ACM_Hamiltonian z z z z z (CNum 3) z z z z z z z z in
  let M := matrix_on (fun _ => 1%R) Msqrt Minv (CG_at ones [] (fresh [])) lambda_acm_fun op 2 (5 / 2) in
  labels_of (mkS 0 0 0 3 0 0) = Ok X /\ labels_of (mkS 0 1 0 3 0 0) = Ok Y /\ M (mkS 0 0 0 3 0 0) = Ok D /\ M (mkS 0 1 0 3 0 0) = Ok F /\
  block_of D X F Y /\ zlen X = 2 /\ zlen Y = 4 /\ ent F 2 0 <> 0%R /\ ent D 1 0 = ent F 2 0.
Proof.
  intros Msqrt Minv. destruct (beta_defined Msqrt Minv 0 ltac:(lia)) as (D & ED). cbv zeta in ED.
  destruct (C84_case Msqrt Minv) as (F & EF & _ & NF & N). cbv zeta in EF.
  eexists _, _, D, F. cbv zeta. split; [reflexivity|]. split; [reflexivity|]. split; [exact ED|]. split; [exact EF|].
  assert (BL : block_of D [(0, (0, 1, 0)); (0, (3, 1, 0))] F [(0, (0, 1, 0)); (1, (0, 1, 0)); (0, (3, 1, 0)); (1, (3, 1, 0))]).
  { eapply (C86_hamiltonian (fun _ => 1%R) Msqrt Minv ones [] (fresh []) lambda_acm_fun 2 (5 / 2) (mkS 0 0 0 3 0 0) (mkS 0 1 0 3 0 0) _ _ (CNum 0) (CNum 0) (CNum 0) (CNum 0) 3 0 0 0 0 D F).
    all: try reflexivity; try exact ED; try exact EF. all: try (unfold proper, within; cbn; lia).
    - left; repeat split; reflexivity.
    - right; apply C86_lambdas; cbn; lia. }
  split; [exact BL|]. split; [reflexivity|]. split; [reflexivity|]. split; [exact N|].
  apply (proj2 (proj2 BL) 1 0 2 0 (0, (3, 1, 0)) (0, (0, 1, 0))); try lia; reflexivity.
Qed.

(** A rotor whose energy is v (v + 3), in the basis with lambda = 0. *)
Example C86_rigid_case : forall Gam Msqrt Minv, exists op D F,
  let z := CNum 0 in
  let M := matrix_on Gam Msqrt Minv (CG_at ones [] (fresh [])) lambda_fix_fun op 1 (5 / 2) in
  ACM_HamRigidBeta (CNum 1) z z z z z z z 1 = Ok op /\ constant lambda_fix_fun (mkS 0 0 0 0 0 0) /\
  M (mkS 0 0 0 0 0 0) = Ok D /\ M (mkS 0 0 0 3 0 0) = Ok F /\ ent D 0 0 = ent F 0 0 /\ ent F 1 1 = 18%R.
Proof.
  intros Gam Msqrt Minv.
  assert (FIX : forall v, 0 <= v -> exists k, lambda_fix_fun v = Ok k /\ 0 <= k).
  { intros v H. exists 0. split; [|lia]. unfold lambda_fix_fun. rewrite require_nonnegint_ok by lia. reflexivity. }
  set (c := cmul (CNum 1) (SEN (fun v => (IZR v * (IZR v + 3))%R))).
  assert (EO : ACM_HamRigidBeta (CNum 1) (CNum 0) (CNum 0) (CNum 0) (CNum 0) (CNum 0) (CNum 0) (CNum 0) 1 = Ok [(c, map OSph [])]).
  { unfold ACM_HamRigidBeta. cbn [Z.eqb orb negb raise_if bind is0 Pos.eqb]. destruct (Req_EM_T 1 0); [lra|].
    assert (Z1 : forall r, cscale r (CNum 0) = CNum 0) by (intros r; unfold cscale, cmul; cbn [is0]; destruct (Req_EM_T 0 0); f_equal; ring).
    assert (Z2 : cadd (CNum 0) (CNum 0) = CNum 0) by (unfold cadd; cbn [is0]; destruct (Req_EM_T 0 0); f_equal; ring).
    unfold ACM_HamSH6, opt_term. rewrite !Z1, !Z2. cbn [is0]. destruct (Req_EM_T 0 0); [reflexivity|lra]. }
  destruct (scalar_word Gam Msqrt Minv ones [] (fresh []) lambda_fix_fun 1 (5 / 2) FIX ltac:(lra) 0 0 [] (eye 1) 1 c _ ltac:(lia) ltac:(lia) eq_refl (fun _ _ _ _ => eq_refl) eq_refl)
    as (D0 & ED0 & A1 & A2 & A3).
  destruct (scalar_word Gam Msqrt Minv ones [] (fresh []) lambda_fix_fun 1 (5 / 2) FIX ltac:(lra) 0 3 [] (eye 2) 1 c _ ltac:(lia) ltac:(lia) eq_refl (fun _ _ _ _ => eq_refl) eq_refl)
    as (D3 & ED3 & B1 & B2 & B3).
  change (nrows D0 = 1) in A1. change (nrows D3 = 2) in B1.
  exists [(c, map OSph [])], D0, D3. cbv zeta. split; [exact EO|]. split; [apply C86_lambdas; cbn; lia|]. split; [exact ED0|]. split; [exact ED3|]. split.
  - rewrite (A3 0 0 0 0 1 0 ltac:(lia) ltac:(lia) eq_refl), (B3 0 0 0 0 1 0 ltac:(lia) ltac:(lia) eq_refl). reflexivity.
  - rewrite (B3 1 1 0 3 1 0 ltac:(lia) ltac:(lia) eq_refl). unfold c, cmul, SEN. cbn [is0 orb Z.eqb Pos.eqb]. destruct (Req_EM_T 1 0); [lra|]. cbv [orb cval length pow]. lra.
Qed.

Print Assumptions C86_hamiltonian.
Print Assumptions C86_rigid.
Print Assumptions C86_levels.
Print Assumptions C86_rigid_levels.
Print Assumptions C86_lambdas.
Print Assumptions C86_seniority_refuted.
