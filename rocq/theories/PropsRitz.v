(** The expectation value of RWC_expt and the lowest computed level: C66. *)

From Coq Require Import Reals Lra Permutation Sorted.
From Coq Require Import Lia ZifyBool ZifyNat.
From Verif Require Import PyBase PyFacts Compat SphericalSpec Spherical SphericalFacts PropsSpherical Matrix RadialME RadialMESpec
  RadialMEFacts FullLabels FullLabelsFacts PropsFullLabels RadialOps PropsRadialOps Operators FullOps PropsHarmonics FullOpsFacts FullOpsBlocks
  FullOpsMemo FullOpsProd RadialWords PropsFullOps PropsHistory RadialSums FullSpace FullSpaceFacts PropsFullSpace Settings PropsLambda
  HamData Display DisplayFacts PropsDriver Spectrum Ritz RadialElement RadialExact RadialChain PropsRadialME PropsRadialMatrix PropsOscillator.
Open Scope Z_scope.
Ltac Zify.zify_post_hook ::= Z.div_mod_to_equations.

(** beta^4 computed on the states 0 .. N alone. *)
Definition v_b4 (l : R) (N f i : Z) : R := total (fun k => v_b2 l f k * v_b2 l k i)%R (N + 1).

Lemma word_b4 Gam (HG : gamma_like Gam) Msqrt Minv an l N : (0 < l)%R -> 0 <= N ->
  radial_matrix (RadProd (Rep_elem Gam Msqrt Minv) [Radial_b2; Radial_b2] an l 0 0 N 0) 0 N (fun f i => (powerRZ an (-4) * v_b4 l N f i)%R).
Proof.
  intros Hl HN. set (fs := [F1 M_b2 0 (-2); F1 M_b2 0 (-2)]). set (ls := [(M_b2, l); (M_b2, l)]).
  assert (EF : RepRadial_Prod_factors [Radial_b2; Radial_b2] l 0 = Ok fs).
  { unfold RepRadial_Prod_factors. destruct (Rle_dec l 0); [lra|]. destruct (Rle_dec (l + IZR 0) 0); [lra|].
    change (Parse_RadialOp_List [Radial_b2; Radial_b2]) with (Ok [KTOp 4 0]). cbn [bind].
    change (Lambda_RadialOp_List [KTOp 4 0] 0) with (Ok [0]). cbn [bind].
    change (insert_id [KTOp 4 0] [0]) with ([KTOp 4 0], [0]). cbv iota beta.
    unfold RepRadialshfs_Prod. cbn [rev app shfs_loop representation]. unfold bsds. rewrite Rplus_0_r.
    destruct (Rle_dec l 0); [lra|]. destruct (Rle_dec (l + IZR 0) 0); [lra|]. reflexivity. }
  assert (PL : Forall2 (plain l) fs ls).
  { constructor; [|constructor; [|constructor]]; (split; [exact Hl|]); exists 0; (split; [reflexivity|]); cbn [snd]; ring. }
  destruct (Prod_truncated Gam HG Msqrt Minv _ an l 0 fs ls EF PL ltac:(discriminate) N 0 HN ltac:(lia)) as (m & Em & M1 & M2 & M3).
  exists m. split; [exact Em|]. split; [exact M1|]. split; [exact M2|]. intros x y Hx Hy. rewrite M3 by assumption.
  assert (W : weight an fs = powerRZ an (-4)).
  { cbn [weight fold_right fs F1 f_pow]. rewrite Rmult_1_r.
    change (powerRZ an (-2)) with (/ an ^ 2)%R. change (powerRZ an (-4)) with (/ an ^ 4)%R.
    rewrite <- Rinv_mult. f_equal. ring. }
  rewrite W, Z.add_0_r. f_equal. 
Qed.

(** One entry of the matrix of T + B c1/2 beta^2 + B c2/2 beta^4 between radial
    states of seniority [v] with parameter [l]. *)
Definition quartic_entry (Gam : R -> R) (B c1 c2 an l : R) (v N f i : Z) : R :=
  (-1 / (2 * B) * (powerRZ an 2 * v_D2b Gam l f i)
   + -1 * (-1 / (2 * B)) * (2 + IZR v * (IZR v + 3)) * (powerRZ an 2 * v_bm2 Gam l f i)
   + B * c1 / 2 * (powerRZ an (-2) * v_b2 l f i)
   + B * c2 / 2 * (powerRZ an (-4) * v_b4 l N f i))%R.

(** Every seniority has its own radial basis, all with lambda > 1. *)
Definition bases (s : settings) (lb : R) (v_min v_max : Z) (lam : Z -> R) : Prop :=
  forall v, v_min <= v <= v_max -> exists k, g_lam_fun s v = Ok k /\ lam v = (lb + IZR k)%R /\ (1 < lam v)%R.

Lemma RWC_quartic B c1 c2 : B <> 0%R ->
  RWC_Ham B c1 c2 0 0 =
  [(CNum (-1 / (2 * B)), [ORad Radial_D2b]);
   (CSym (fun _ v _ _ => (-1 * (-1 / (2 * B)) * (2 + IZR v * (IZR v + 3)))%R), [ORad Radial_bm2])]
  ++ (if Req_EM_T (B * c1 / 2) 0 then [] else [(CNum (B * c1 / 2), [ORad Radial_b2])])
  ++ (if Req_EM_T (B * c2 / 2) 0 then [] else [(CNum (B * c2 / 2), [ORad Radial_b2; ORad Radial_b2])]).
Proof.
  intros HB. unfold RWC_Ham, ACM_Hamiltonian, opt_term, cscale, cmul, SEN.
  assert (Z1 : forall x, x <> 0%R -> is0 (CNum x) = false) by (intros x H; cbn; destruct (Req_EM_T x 0); [contradiction|reflexivity]).
  assert (Z2 : forall x, x = 0%R -> is0 (CNum x) = true) by (intros x H; cbn; destruct (Req_EM_T x 0); [reflexivity|contradiction]).
  assert (N1 : (-1 / (2 * B) <> 0)%R). { unfold Rdiv. apply Rmult_integral_contrapositive_currified; [lra|]. apply Rinv_neq_0_compat. lra. }
  rewrite (Z1 _ N1), (Z1 (-1 * (-1 / (2 * B)))%R) by (apply Rmult_integral_contrapositive_currified; [lra|exact N1]).
  rewrite (Z2 0%R eq_refl). rewrite (Z2 (-0)%R) by lra.
  assert (Q : forall x, is0 (CNum x) = if Req_EM_T x 0 then true else false) by (intros x; cbn; destruct (Req_EM_T x 0); reflexivity).
  rewrite !Q. cbn [orb app cval]. destruct (Req_EM_T (B * c1 / 2) 0), (Req_EM_T (B * c2 / 2) 0); reflexivity.
Qed.

Section Ritz.
  Variable Gam : R -> R.
  Hypothesis HG : gamma_like Gam.
  Variables Msqrt Minv : mat R -> res (mat R).
  Variable CG : Z -> Z -> Z -> Z -> Z -> Z -> Z -> Z -> Z -> res R.
  Let RP := RadProd (Rep_elem Gam Msqrt Minv).
  Variables nu_min nu_max v_min v_max L_min L_max : Z.
  Hypothesis Hnu : 0 <= nu_min <= nu_max.
  Hypothesis Hv : 0 <= v_min <= v_max.
  Hypothesis HL : 0 <= L_min <= L_max.

  Lemma quartic_matrix B c1 c2 an lb s lam X : B <> 0%R -> nu_min = 0 \/ c2 = 0%R -> bases s lb v_min v_max lam ->
    lbsXspace nu_min nu_max v_min v_max L_min (Some L_max) = Ok X ->
    exists D, code_matrices RP CG s (RWC_Ham B c1 c2 0 0) an lb nu_min nu_max v_min v_max L_min (Some L_max) = Ok D /\
      nrows D = zlen X /\ ncols D = zlen X /\
      forall p q nf sf ni v al L, 0 <= p -> 0 <= q ->
        nth_error X (Z.to_nat p) = Some (nf, sf) -> nth_error X (Z.to_nat q) = Some (ni, (v, al, L)) ->
        ent D p q = if state_eqb sf (v, al, L) then quartic_entry Gam B c1 c2 an (lam v) v nu_max nf ni else 0%R.
  Proof.
    intros HB H0 Hs EX. unfold code_matrices. rewrite RWC_quartic by assumption.
    set (terms := [(CNum (-1 / (2 * B)), [Radial_D2b], fun l f i => (powerRZ an 2 * v_D2b Gam l f i)%R);
      (CSym (fun _ v _ _ => (-1 * (-1 / (2 * B)) * (2 + IZR v * (IZR v + 3)))%R), [Radial_bm2], fun l f i => (powerRZ an 2 * v_bm2 Gam l f i)%R)]
      ++ (if Req_EM_T (B * c1 / 2) 0 then [] else [(CNum (B * c1 / 2), [Radial_b2], fun l f i => (powerRZ an (-2) * v_b2 l f i)%R)])
      ++ (if Req_EM_T (B * c2 / 2) 0 then [] else [(CNum (B * c2 / 2), [Radial_b2; Radial_b2], fun l f i => (powerRZ an (-4) * v_b4 l nu_max f i)%R)])).
    assert (W : forall w V, (forall l, (1 < l)%R -> radial_matrix (RP w an l 0 nu_min nu_max 0) nu_min nu_max (V l)) ->
       word_matrix RP (g_lam_fun s) an lb nu_min nu_max v_min v_max w V).
    { intros w V H v Hvv. destruct (Hs v Hvv) as (k & E1 & E2 & E3). exists k. split; [exact E1|]. rewrite <- E2. now apply H. }
    destruct (rep_radial RP CG (g_lam_fun s) an lb nu_min nu_max v_min v_max L_min L_max Hnu Hv HL terms X) as (D & ED & S1 & S2 & EV).
    { intros c w V I. unfold terms in I. apply in_app_or in I. destruct I as [[E | [E | []]] | I].
      1,2: injection E as <- <- <-; (split; [apply W; intros l Hl; (now apply word_D2b || now apply word_bm2)|repeat constructor]).
      apply in_app_or in I. destruct I as [I | I].
      - destruct (Req_EM_T (B * c1 / 2) 0); [contradiction|]. destruct I as [E | []]. injection E as <- <- <-. split; [apply W; intros l Hl; apply word_b2; [assumption|lra]|repeat constructor].
      - destruct (Req_EM_T (B * c2 / 2) 0) as [|N]; [contradiction|]. destruct I as [E | []]. injection E as <- <- <-. split; [|repeat constructor].
        destruct H0 as [-> | ->]; [|exfalso; apply N; lra]. apply W. intros l Hl. apply word_b4; [assumption|lra|lia]. }
    { exact EX. }
    exists D. split; [|split; [exact S1|split; [exact S2|]]].
    - rewrite <- ED. do 2 f_equal. unfold terms. destruct (Req_EM_T (B * c1 / 2) 0), (Req_EM_T (B * c2 / 2) 0); reflexivity.
    - intros p q nf sf ni v al L Hp Hq Ep Eq. rewrite (EV p q nf sf ni v al L Hp Hq Ep Eq).
      destruct (state_eqb sf (v, al, L)) eqn:SE; [|reflexivity].
      destruct (position _ _ _ _ _ _ X q _ Hnu Hv HL EX Hq Eq) as (_ & Lq & _). cbn [snd] in Lq.
      pose proof (in_lbs v_min v_max L_min L_max v al L (nth_error_In _ _ Lq)) as Hvv.
      destruct (Hs v Hvv) as (k & E1 & E2 & _). unfold lam_at. rewrite E1, <- E2. unfold terms, quartic_entry.
      rewrite !map_app, !fold_right_app. cbn [map fold_right fst snd cval].
      destruct (Req_EM_T (B * c1 / 2) 0) as [Z1|], (Req_EM_T (B * c2 / 2) 0) as [Z2|]; cbn [map fold_right fst snd cval]; rewrite ?Z1, ?Z2; ring.
  Qed.
End Ritz.

(** What a successful run did for one angular momentum, for a Hamiltonian
    without operators that carry angular momentum. *)
Lemma tame_run flt RepX eigh inv junk ham an lb nu_min nu_max v_min v_max fe fr L_min L_max s ev tr Lv s' o :
  Op_Tame ham = true ->
  ACM_ScaleOrAdapt flt RepX eigh inv junk ham an lb nu_min nu_max v_min v_max fe fr L_min L_max s = (Ok (ev, tr, Lv), s', o) ->
  0 <= nu_min <= nu_max /\ 0 <= v_min <= v_max /\
  forall L vals, In (L, vals) (combine Lv ev) -> 0 <= L /\ has_states v_min v_max L /\
    exists M P, RepX s ham an lb nu_min nu_max v_min v_max L None = Ok M /\ Eigenfiddle eigh M = Ok (vals, P).
Proof.
  intros HT E.
  assert (ED : exists ebs, dig RepX eigh ham an lb nu_min nu_max v_min v_max s L_min L_max = Ok (ev, ebs, Lv)).
  { rewrite run_stages in E. apply pbind_inv in E. destruct E as [([[ev0 ebs] Lv0] & s2 & o1 & o2 & E1 & E & _) | (e & _ & X)]; [|discriminate].
    unfold praise in E1.
    destruct (checks _ _ _ _ _ _ _ _ _) as [[]|]; [|discriminate]. cbn [bind] in E1.
    destruct (dig _ _ _ _ _ _ _ _ _ _ _ _) as [r|] eqn:ED; [|discriminate]. injection E1 as -> _ _.
    apply pbind_inv in E. destruct E as [(u & s3 & o3 & o4 & _ & E & _) | (e & _ & X)]; [|discriminate].
    apply pbind_inv in E. destruct E as [(tr0 & s4 & o5 & o6 & _ & E & _) | (e & _ & X)]; [|discriminate].
    unfold pret in E. injection E as -> -> -> _ _. eauto. }
  clear E. destruct ED as (ebs & ED). pose proof (Dig_valid _ _ _ _ _ _ _ _ _ _ ED) as (Hn & Hv & HLL).
  destruct (C38_Lvals _ _ _ _ _ _ _ _ _ _ _ _ _ ED) as (_ & HLv & _).
  unfold dig in ED. rewrite HT in ED. apply C37_tame_blocks in ED. destruct ED as (Q1 & Q2 & F).
  split; [exact Hn|]. split; [exact Hv|]. intros L vals I.
  pose proof (proj1 (HLv L) (in_combine_l _ _ _ _ I)) as (H1 & H2). split; [lia|]. split; [exact H2|].
  clear - Q1 Q2 F I. revert ev ebs Q1 Q2 F I. induction Lv as [|L0 l IH]; intros [|v e] [|P b] Q1 Q2 F I; try discriminate; [contradiction|].
  cbn [combine] in F, I. inversion F as [|? ? ? ? HM F']; subst. destruct I as [I | I].
  - injection I as -> ->. destruct HM as (M & E1 & E2). eauto.
  - apply (IH e b); [now injection Q1|now injection Q2|exact F'|exact I].
Qed.

Lemma quartic_tame B c1 c2 : B <> 0%R -> Op_Tame (RWC_Ham B c1 c2 0 0) = true.
Proof. intros HB. rewrite RWC_quartic by assumption. destruct (Req_EM_T (B * c1 / 2) 0), (Req_EM_T (B * c2 / 2) 0); reflexivity. Qed.

Lemma bm2_diagonal Gam (HG : gamma_like Gam) l i : (1 < l)%R -> 0 <= i -> v_bm2 Gam l i i = (/ (l - 1))%R.
Proof.
  intros Hl Hi. unfold v_bm2. rewrite Z.min_id, Z.max_id, sg_sq. pose proof (av_pos Gam HG l i ltac:(lra) Hi). field. lra.
Qed.

Lemma quartic_sym Gam (HG : gamma_like Gam) B c1 c2 an l v N f i :
  quartic_entry Gam B c1 c2 an l v N f i = quartic_entry Gam B c1 c2 an l v N i f.
Proof.
  assert (S2 : forall f i, v_b2 l f i = v_b2 l i f).
  { intros a b. unfold v_b2. destruct (a =? b - 1) eqn:E1.
    - replace (b =? a - 1) with false by lia. replace (b =? a) with false by lia. replace (b =? a + 1) with true by lia. reflexivity.
    - destruct (a =? b) eqn:E2; [replace b with a by lia; replace (a =? a - 1) with false by lia; now rewrite Z.eqb_refl|].
      replace (b =? a) with false by lia. replace (b =? a + 1) with false by lia.
      destruct (a =? b + 1) eqn:E3; [replace (b =? a - 1) with true by lia|replace (b =? a - 1) with false by lia]; reflexivity. }
  assert (S4 : v_b4 l N f i = v_b4 l N i f) by (unfold v_b4, total; apply rsum_ext; intros; rewrite (S2 f k), (S2 k i); ring).
  assert (SD : v_D2b Gam l f i = v_D2b Gam l i f).
  { unfold v_D2b. rewrite (bm2_sym Gam l f i). f_equal. destruct (f =? i - 1) eqn:E1.
    - replace (i =? f - 1) with false by lia. replace (i =? f) with false by lia. replace (i =? f + 1) with true by lia. reflexivity.
    - destruct (f =? i) eqn:E2; [replace f with i by lia; replace (i =? i - 1) with false by lia; now rewrite Z.eqb_refl|].
      replace (i =? f) with false by lia. replace (i =? f + 1) with false by lia.
      destruct (f =? i + 1) eqn:E3; [replace (i =? f - 1) with true by lia|replace (i =? f - 1) with false by lia]; reflexivity. }
  unfold quartic_entry. rewrite (bm2_sym Gam l f i), (S2 f i), S4, SD. reflexivity.
Qed.

Lemma b4_corner l N : (0 < l)%R -> 0 <= N -> v_b4 l N 0 0 = (l * l + if 1 <=? N then l else 0)%R.
Proof.
  intros Hl HN. unfold v_b4, total. destruct (1 <=? N) eqn:E.
  - rewrite (rsum_two _ _ 0) by (lia || (intros k Hk N0 N1; unfold v_b2; replace (0 =? k - 1) with false by lia; replace (0 =? k) with false by lia; replace (0 =? k + 1) with false by lia; ring)).
    unfold v_b2. cbn [Z.eqb Z.sub Z.add Z.opp Z.pos_sub Pos.eqb]. unfold pv. 
    rewrite sqrt_sqrt by nra. ring.
  - replace N with 0 by lia. change (Z.to_nat (0 + 1)) with 1%nat. cbn [rsum]. change (Z.of_nat 0) with 0. unfold v_b2. cbn [Z.eqb Z.sub Z.add Z.opp Z.pos_sub Pos.eqb]. ring.
Qed.

(** The diagonal entry of the lowest state of seniority 0 is the value of
    RWC_expt, provided a second radial state is there for beta^4. *)
Theorem C66_expectation : forall Gam Msqrt Minv CG B c1 c2 anorm lambda_base s lam nu_max v_min v_max L_min L_max X q al L e,
  gamma_like Gam -> B <> 0%R -> 0 <= nu_max -> 0 <= v_min <= v_max -> 0 <= L_min <= L_max ->
  bases s lambda_base v_min v_max lam ->
  lbsXspace 0 nu_max v_min v_max L_min (Some L_max) = Ok X -> 0 <= q -> nth_error X (Z.to_nat q) = Some (0, (0, al, L)) ->
  RWC_expt B c1 c2 0 anorm (lam 0) = Ok e ->
  exists D, code_matrices (RadProd (Rep_elem Gam Msqrt Minv)) CG s (RWC_Ham B c1 c2 0 0) anorm lambda_base 0 nu_max v_min v_max L_min (Some L_max) = Ok D /\
    (1 <= nu_max -> ent D q q = e) /\
    (nu_max = 0 -> ent D q q = (e - B * c2 * lam 0%Z / (2 * anorm ^ 4))%R).
Proof.
  intros Gam Msqrt Minv CG B c1 c2 an lb s lam nu_max v_min v_max L_min L_max X q al L e HG HB Hn Hv HL Hs EX Hq Eq EE.
  destruct (quartic_matrix Gam HG Msqrt Minv CG 0 nu_max v_min v_max L_min L_max ltac:(lia) Hv HL B c1 c2 an lb s lam X HB ltac:(now left) Hs EX) as (D & ED & _ & _ & EV).
  exists D. split; [exact ED|]. rewrite (EV q q _ _ _ _ _ _ Hq Hq Eq Eq). rewrite (proj2 (state_eqb_eq CG _ _) eq_refl).
  destruct (position 0 nu_max v_min v_max L_min L_max X q _ ltac:(lia) Hv HL EX Hq Eq) as (_ & Lq & _). cbn [snd] in Lq.
  pose proof (in_lbs v_min v_max L_min L_max 0 al L (nth_error_In _ _ Lq)) as Hvv.
  destruct (Hs 0 Hvv) as (_ & _ & _ & Hl). set (l := lam 0) in *.
  unfold RWC_expt in EE. destruct (Req_EM_T an 0) as [|Ha]; [discriminate|]. destruct (Req_EM_T l 1); [discriminate|].
  assert (A2 : (an ^ 2 <> 0)%R) by now apply pow_nonzero.
  unfold fdiv in EE. destruct (Req_EM_T (l - 1) 0); [lra|]. cbn [bind] in EE. destruct (Req_EM_T B 0); [contradiction|]. cbn [bind] in EE.
  destruct (Req_EM_T (an ^ 2) 0); [contradiction|]. cbn [bind] in EE. destruct (Req_EM_T ((an ^ 2) ^ 2) 0) as [Z|_]; [exfalso; revert Z; now apply pow_nonzero|].
  cbn [bind] in EE. injection EE as <-.
  unfold quartic_entry. rewrite b4_corner by (lra || lia). unfold v_D2b. rewrite bm2_diagonal by (lra || lia || assumption).
  unfold v_b2. cbn [Z.eqb Z.sub Z.add Z.opp Z.pos_sub Pos.eqb].
  change (powerRZ an 2) with (an ^ 2)%R. change (powerRZ an (-2)) with (/ an ^ 2)%R. change (powerRZ an (-4)) with (/ an ^ 4)%R.
  assert (A4 : (an ^ 4 <> 0)%R) by now apply pow_nonzero.
  split; intros H; [replace (1 <=? nu_max) with true by lia|replace (1 <=? nu_max) with false by lia]; field; repeat split; lra || assumption.
Qed.

(** For one angular momentum: the basis, and the decomposition of a matrix that
    has the entries between its states. *)
Lemma quartic_block Gam Msqrt Minv CG flt eigh inv junk B c1 c2 an lb nu_min nu_max v_min v_max fe fr L_min L_max s lam ev tr Lv s' o L vals :
  gamma_like Gam -> eigh_sound eigh -> B <> 0%R -> nu_min = 0 \/ c2 = 0%R -> bases s lb v_min v_max lam ->
  ACM_ScaleOrAdapt flt (code_matrices (RadProd (Rep_elem Gam Msqrt Minv)) CG) eigh inv junk (RWC_Ham B c1 c2 0 0) an lb
    nu_min nu_max v_min v_max fe fr L_min L_max s = (Ok (ev, tr, Lv), s', o) -> In (L, vals) (combine Lv ev) ->
  0 <= nu_min <= nu_max /\ 0 <= v_min <= v_max /\ 0 <= L /\
  exists X A P, lbsXspace nu_min nu_max v_min v_max L (Some L) = Ok X /\ 0 < zlen X /\
    eigen_decomposition A vals P /\ nrows A = zlen X /\
    forall p q nf sf ni v al M, 0 <= p -> 0 <= q ->
        nth_error X (Z.to_nat p) = Some (nf, sf) -> nth_error X (Z.to_nat q) = Some (ni, (v, al, M)) ->
        ent A p q = if state_eqb sf (v, al, M) then quartic_entry Gam B c1 c2 an (lam v) v nu_max nf ni else 0%R.
Proof.
  intros HG HE HB H0 Hs E I. destruct (tame_run _ _ _ _ _ _ _ _ _ _ _ _ _ _ _ _ _ _ _ _ _ _ (quartic_tame B c1 c2 HB) E) as (Hn & Hv & HH).
  destruct (HH L vals I) as (HL & (v0 & Hv0 & Hm) & M & P & EM & EE). split; [exact Hn|]. split; [exact Hv|]. split; [exact HL|].
  destruct (C06_layout nu_min nu_max v_min v_max L L Hn Hv ltac:(lia)) as (X & sph & EX & Es & Hl & _).
  destruct (quartic_matrix Gam HG Msqrt Minv CG nu_min nu_max v_min v_max L L Hn Hv ltac:(lia) B c1 c2 an lb s lam X HB H0 Hs EX) as (D & ED & S1 & S2 & EV).
  change (code_matrices (RadProd (Rep_elem Gam Msqrt Minv)) CG s (RWC_Ham B c1 c2 0 0) an lb nu_min nu_max v_min v_max L None = Ok D) in ED.
  rewrite EM in ED. injection ED as <-.
  destruct (C47_symmetrised eigh M ltac:(lia)) as (A & EA & A1 & A2 & A3 & A4 & _). rewrite EA in EE.
  pose proof (HE A vals P ltac:(lia) ltac:(intros; apply A3) EE) as DEC.
  exists X, A, P. split; [exact EX|]. split; [|split; [exact DEC|split; [congruence|]]].
  - rewrite lbs_rngVvarL_some in Es by lia. injection Es as <-.
    assert (IN : In (v0, 1, L) (lbs v_min v_max L L)) by (apply lbs_In; unfold is_state; lia).
    assert (0 < zlen (lbs v_min v_max L L)) by (destruct (lbs v_min v_max L L); [contradiction|unfold zlen; cbn [length]; lia]).
    rewrite Hl. unfold dimRadial. replace (nu_min <=? nu_max) with true by lia. nia.
  - intros p q nf [[vf af] Lf] ni v al L' Hp Hq Ep Eq. rewrite A4.
    rewrite (EV p q _ _ _ _ _ _ Hp Hq Ep Eq), (EV q p _ _ _ _ _ _ Hq Hp Eq Ep).
    destruct (state_eqb (vf, af, Lf) (v, al, L')) eqn:SE.
    + apply (state_eqb_eq CG) in SE. injection SE as -> -> ->. rewrite (proj2 (state_eqb_eq CG _ _) eq_refl).
      rewrite (quartic_sym Gam HG B c1 c2 an (lam v) v nu_max ni nf). lra.
    + destruct (state_eqb (v, al, L') (vf, af, Lf)) eqn:SE'; [|lra]. apply (state_eqb_eq CG) in SE'. injection SE' as -> -> ->.
      rewrite (proj2 (state_eqb_eq CG _ _) eq_refl) in SE. discriminate.
Qed.

(** The lowest level at L = 0 is at most the value of RWC_expt. *)
Theorem C66_ground_level : forall Gam Msqrt Minv CG flt eigh inv junk B c1 c2 anorm lambda_base nu_max v_max fit_eig fit_rat L_min L_max
    s lam ev tr Lv s' o vals e,
  gamma_like Gam -> eigh_sound eigh -> B <> 0%R -> bases s lambda_base 0 v_max lam ->
  ACM_ScaleOrAdapt flt (code_matrices (RadProd (Rep_elem Gam Msqrt Minv)) CG) eigh inv junk (RWC_Ham B c1 c2 0 0) anorm lambda_base
    0 nu_max 0 v_max fit_eig fit_rat L_min L_max s = (Ok (ev, tr, Lv), s', o) ->
  In (0, vals) (combine Lv ev) -> RWC_expt B c1 c2 0 anorm (lam 0) = Ok e ->
  1 <= nu_max \/ (0 <= B * c2)%R ->
  exists low rest, vals = low :: rest /\ (low <= e)%R.
Proof.
  intros Gam Msqrt Minv CG flt eigh inv junk B c1 c2 an lb nu_max v_max fe fr L_min L_max s lam ev tr Lv s' o vals e HG HE HB Hs E I EE Hc.
  destruct (quartic_block _ _ _ _ _ _ _ _ _ _ _ _ _ _ _ _ _ _ _ _ _ _ _ _ _ _ _ _ _ _ HG HE HB ltac:(now left) Hs E I)
    as (Hn & Hv & _ & X & A & P & EX & HX & DEC & S1 & EV).
  assert (Q0 : exists q, 0 <= q /\ nth_error X (Z.to_nat q) = Some (0, (0, 1, 0))).
  { destruct (C06_layout 0 nu_max 0 v_max 0 0 Hn Hv ltac:(lia)) as (X' & sph & EX' & Es & _ & HN). rewrite EX in EX'. injection EX' as <-.
    rewrite lbs_rngVvarL_some in Es by lia. injection Es as <-.
    assert (IN : In (0, 1, 0) (lbs 0 v_max 0 0)) by (apply lbs_In; unfold is_state; change (mult 0 0) with 1; lia).
    apply In_nth_error in IN. destruct IN as (k & Ek). pose proof (HN k 0%nat _ Ek ltac:(unfold dimRadial; replace (0 <=? nu_max) with true by lia; lia)) as Q.
    eexists (Z.of_nat _). split; [apply Nat2Z.is_nonneg|]. rewrite Nat2Z.id. exact Q. }
  destruct Q0 as (q & Hq & Eq).
  pose proof (proj1 (position 0 nu_max 0 v_max 0 0 X q _ Hn Hv ltac:(lia) EX Hq Eq)) as Bq.
  pose proof (lowest_le_diagonal A vals P q DEC ltac:(lia)) as LE.
  rewrite (EV q q _ _ _ _ _ _ Hq Hq Eq Eq), (proj2 (state_eqb_eq CG _ _) eq_refl) in LE.
  destruct (C66_expectation Gam Msqrt Minv CG B c1 c2 an lb s lam nu_max 0 v_max 0 0 X q 1 0 e HG HB ltac:(lia) Hv ltac:(lia) Hs EX Hq Eq EE) as (D & ED & V1 & V0).
  destruct (quartic_matrix Gam HG Msqrt Minv CG 0 nu_max 0 v_max 0 0 Hn Hv ltac:(lia) B c1 c2 an lb s lam X HB ltac:(now left) Hs EX) as (D' & ED' & _ & _ & EV').
  rewrite ED in ED'. injection ED' as <-.
  rewrite (EV' q q _ _ _ _ _ _ Hq Hq Eq Eq), (proj2 (state_eqb_eq CG _ _) eq_refl) in V1, V0.
  assert (Hz : zlen vals = nrows A) by apply DEC. destruct vals as [|low rest]; [unfold zlen in Hz; cbn [length] in Hz; unfold zlen in *; lia|].
  exists low, rest. split; [reflexivity|]. cbn [nth] in LE.
  assert (nu_max = 0 \/ 1 <= nu_max) as [Z|Z] by lia; [|specialize (V1 Z); lra].
  destruct Hc as [Hc|Hc]; [lia|]. specialize (V0 Z).
  assert (an <> 0%R) by (intros ->; unfold RWC_expt in EE; destruct (Req_EM_T 0 0); [discriminate|contradiction]).
  assert (0 <= B * c2 * lam 0%Z / (2 * an ^ 4))%R.
  { destruct (Hs 0 ltac:(lia)) as (_ & _ & _ & Hl). assert (0 < an ^ 4)%R.
    { replace (an ^ 4)%R with ((an ^ 2) * (an ^ 2))%R by ring. assert (an ^ 2 <> 0)%R by now apply pow_nonzero. pose proof (Rle_0_sqr (an ^ 2)) as Q. unfold Rsqr in Q.
      assert (an ^ 2 * an ^ 2 <> 0)%R by now apply Rmult_integral_contrapositive_currified. lra. }
    apply Rmult_le_pos; [apply Rmult_le_pos; lra|]. left. apply Rinv_0_lt_compat. lra. }
  lra.
Qed.

Definition xlabel_eqb (x y : xlabel) : bool := (fst x =? fst y) && state_eqb (snd x) (snd y).
Fixpoint place (x : xlabel) (l : list xlabel) : Z :=
  match l with [] => 0 | y :: l' => if xlabel_eqb x y then 0 else 1 + place x l' end.

Lemma xlabel_eqb_eq x y : xlabel_eqb x y = true <-> x = y.
Proof.
  destruct x as [n [[v al] L]], y as [m [[w bl] M]]. unfold xlabel_eqb. cbn [fst snd state_eqb]. split; [intros E; repeat f_equal; lia|].
  intros E. injection E as -> -> -> ->. lia.
Qed.
Lemma place_ok x l : In x l -> 0 <= place x l < zlen l /\ nth_error l (Z.to_nat (place x l)) = Some x.
Proof.
  induction l as [|y l IH]; [contradiction|]. intros I. cbn [place]. destruct (xlabel_eqb x y) eqn:E.
  - apply xlabel_eqb_eq in E. subst y. split; [unfold zlen; cbn [length]; lia|reflexivity].
  - destruct I as [-> | I]; [rewrite (proj2 (xlabel_eqb_eq x x) eq_refl) in E; discriminate|]. destruct (IH I) as (P & Q).
    split; [unfold zlen in *; cbn [length]; lia|]. replace (Z.to_nat (1 + place x l)) with (S (Z.to_nat (place x l))) by lia. exact Q.
Qed.

(** Without beta^4, more basis states never raise any level. *)
Theorem C66_larger_space : forall Gam Msqrt Minv CG flt eigh inv junk B c1 anorm lambda_base s lam
    nu_min nu_max v_min v_max fit_eig fit_rat L_min L_max ev tr Lv s' o
    nu_min2 nu_max2 v_min2 v_max2 fit_eig2 fit_rat2 L_min2 L_max2 ev2 tr2 Lv2 s2 o2 L vals vals2,
  gamma_like Gam -> eigh_sound eigh -> B <> 0%R -> bases s lambda_base v_min2 v_max2 lam ->
  let run := ACM_ScaleOrAdapt flt (code_matrices (RadProd (Rep_elem Gam Msqrt Minv)) CG) eigh inv junk (RWC_Ham B c1 0 0 0) anorm lambda_base in
  run nu_min nu_max v_min v_max fit_eig fit_rat L_min L_max s = (Ok (ev, tr, Lv), s', o) ->
  run nu_min2 nu_max2 v_min2 v_max2 fit_eig2 fit_rat2 L_min2 L_max2 s = (Ok (ev2, tr2, Lv2), s2, o2) ->
  nu_min2 <= nu_min -> nu_max <= nu_max2 -> v_min2 <= v_min -> v_max <= v_max2 ->
  In (L, vals) (combine Lv ev) -> In (L, vals2) (combine Lv2 ev2) ->
  vals <> [] /\ forall k x, nth_error vals k = Some x -> exists x2, nth_error vals2 k = Some x2 /\ (x2 <= x)%R.
Proof.
  intros Gam Msqrt Minv CG flt eigh inv junk B c1 an lb s lam nu_min nu_max v_min v_max fe fr L_min L_max ev tr Lv s' o
    nu_min2 nu_max2 v_min2 v_max2 fe2 fr2 L_min2 L_max2 ev2 tr2 Lv2 s2 o2 L vals vals2 HG HE HB Hs2 run E E2 R1 R2 R3 R4 I I2.
  assert (Hs : bases s lb v_min v_max lam) by (intros v Hvv; apply Hs2; lia).
  destruct (quartic_block _ _ _ _ _ _ _ _ _ _ _ _ _ _ _ _ _ _ _ _ _ _ _ _ _ _ _ _ _ _ HG HE HB ltac:(now right) Hs E I)
    as (Hn & Hv & HL & X & A & P & EX & HX & DEC & S1 & EV).
  destruct (quartic_block _ _ _ _ _ _ _ _ _ _ _ _ _ _ _ _ _ _ _ _ _ _ _ _ _ _ _ _ _ _ HG HE HB ltac:(now right) Hs2 E2 I2)
    as (Hn2 & Hv2 & _ & X2 & A2 & P2 & EX2 & HX2 & DEC2 & S2 & EV2).
  destruct (C06_full_labels _ _ _ _ _ _ Hn Hv (conj HL (Z.le_refl L))) as (X' & EX' & ND & _ & IN & _). rewrite EX in EX'. injection EX' as <-.
  destruct (C06_full_labels _ _ _ _ _ _ Hn2 Hv2 (conj HL (Z.le_refl L))) as (X2' & EX2' & ND2 & _ & IN2 & _). rewrite EX2 in EX2'. injection EX2' as <-.
  set (e := fun i => place (nth (Z.to_nat i) X (0, (0, 0, 0))) X2).
  assert (NX : forall i, 0 <= i < zlen X -> nth_error X (Z.to_nat i) = Some (nth (Z.to_nat i) X (0, (0, 0, 0)))) by (intros i Hi; apply nth_error_nth'; unfold zlen in Hi; lia).
  assert (PL : forall i, 0 <= i < zlen X -> 0 <= e i < zlen X2 /\ nth_error X2 (Z.to_nat (e i)) = nth_error X (Z.to_nat i)).
  { intros i Hi. rewrite (NX i Hi). apply place_ok. pose proof (nth_error_In _ _ (NX i Hi)) as Q. destruct (nth _ X _) as [nu [[v al] M]].
    apply IN in Q. apply IN2. lia. }
  assert (LE : forall k, 0 <= k < nrows A -> (nth (Z.to_nat k) vals2 0 <= nth (Z.to_nat k) vals 0)%R).
  { apply (interlace A2 vals2 P2 A vals P e DEC2 DEC); rewrite S1.
    - intros i Hi. rewrite S2. now apply PL.
    - intros i j Hi Hj Q. pose proof (proj2 (PL i Hi)) as P1. rewrite Q, (proj2 (PL j Hj)) in P1.
      assert (Z.to_nat i = Z.to_nat j); [|lia]. apply (proj1 (NoDup_nth_error X) ND); [unfold zlen in Hi; lia|congruence].
    - intros i j Hi Hj. destruct (nth (Z.to_nat i) X (0, (0, 0, 0))) as [nf sf] eqn:Fi. destruct (nth (Z.to_nat j) X (0, (0, 0, 0))) as [ni [[v al] M]] eqn:Fj.
      pose proof (NX i Hi) as Ni. pose proof (NX j Hj) as Nj. rewrite Fi in Ni. rewrite Fj in Nj.
      rewrite (EV i j _ _ _ _ _ _ ltac:(lia) ltac:(lia) Ni Nj).
      rewrite (EV2 (e i) (e j) nf sf ni v al M ltac:(apply PL; exact Hi) ltac:(apply PL; exact Hj)); [|rewrite (proj2 (PL i Hi)); exact Ni|rewrite (proj2 (PL j Hj)); exact Nj].
      destruct (state_eqb sf (v, al, M)); [|reflexivity]. unfold quartic_entry. replace (B * 0 / 2)%R with 0%R by field. ring. }
  assert (Hz : zlen vals = nrows A) by apply DEC. assert (Hz2 : zlen vals2 = nrows A2) by apply DEC2.
  assert (LN : zlen X <= zlen X2).
  { unfold zlen. enough (length X <= length X2)%nat by lia. apply NoDup_incl_length; [exact ND|]. intros [nu [[v al] M]] Q. apply IN in Q. apply IN2. lia. }
  split; [intros ->; change (0 = nrows A) in Hz; lia|]. intros k x Q.
  assert (Hk : (k < length vals)%nat) by (apply nth_error_Some; congruence).
  exists (nth k vals2 0%R). split; [apply nth_error_nth'; unfold zlen in *; lia|].
  specialize (LE (Z.of_nat k)). rewrite Nat2Z.id in LE. rewrite (nth_error_nth _ _ 0%R Q) in LE. apply LE. unfold zlen in *; lia.
Qed.

(** With beta^4 they may: the energies are not bounds from above. *)
Lemma eigh0_diagonal A (d : list R) : nrows A = zlen d -> 
  (forall i j, 0 <= i < nrows A -> 0 <= j < nrows A -> ent A i j = if i =? j then nth (Z.to_nat i) d 0%R else 0%R) ->
  StronglySorted Rle d -> eigh0 A = Ok (d, eye (nrows A)).
Proof.
  intros Hn HA HS. unfold eigh0.
  assert (AS : ascending_diagonal A = true).
  { unfold ascending_diagonal. apply andb_true_intro. split; [pose proof (zlen_nonneg d); lia|].
    apply forallb_forall. intros i Hi. apply py_range_In in Hi. apply forallb_forall. intros j Hj. apply py_range_In in Hj.
    destruct (i =? j) eqn:E; [reflexivity|]. rewrite (HA i j) by lia. rewrite E. destruct (Req_EM_T 0 0); [|contradiction].
    destruct (i <? j) eqn:E2; [|reflexivity]. rewrite (HA i i), (HA j j), !Z.eqb_refl by lia.
    destruct (Rle_dec _ _) as [|N]; [reflexivity|]. exfalso. apply N. clear - HS E2 Hn Hi Hj.
    assert (Hij : (Z.to_nat i < Z.to_nat j < length d)%nat) by (unfold zlen in Hn; lia). clear - HS Hij.
    revert Hij. generalize (Z.to_nat i), (Z.to_nat j). induction HS as [|x l _ IH F]; intros a b Hab; [cbn in Hab; lia|].
    destruct b as [|b]; [lia|]. destruct a as [|a]; cbn [nth]; [|apply IH; cbn [length] in Hab; lia].
    rewrite Forall_forall in F. apply F, nth_In. cbn [length] in Hab. lia. }
  rewrite AS. f_equal. f_equal. unfold diagonal_of.
  apply (nth_ext _ _ 0%R 0%R); [rewrite map_length, py_range_length; unfold zlen in Hn; lia|].
  intros k Hk. rewrite map_length, py_range_length in Hk.
  pose proof (diagonal_nth A (Z.of_nat k) ltac:(lia)) as Q. rewrite Nat2Z.id in Q. unfold diagonal_of in Q. rewrite Q, HA, Z.eqb_refl by lia. now rewrite Nat2Z.id.
Qed.

(** A run on the states (0, 0, 1, 0), (1, 0, 1, 0), .. whose matrix is diagonal. *)
Lemma diagonal_run Msqrt Minv CG flt inv junk B c1 c2 an lb nu_max s lam d :
  B <> 0%R -> 0 <= nu_max -> bases s lb 0 0 lam -> zlen d = nu_max + 1 -> StronglySorted Rle d ->
  g_eig_num s <= 0 -> g_rat_lst s = [] -> g_amp_lst s = [] ->
  (forall f i, 0 <= f <= nu_max -> 0 <= i <= nu_max -> quartic_entry gamma0 B c1 c2 an (lam 0) 0 nu_max f i = if f =? i then nth (Z.to_nat f) d 0%R else 0%R) ->
  ACM_Scale flt (code_matrices (RadProd (Rep_elem gamma0 Msqrt Minv)) CG) eigh0 inv junk (RWC_Ham B c1 c2 0 0) an lb 0 nu_max 0 0 0 None s
    = (Ok ([d], None, [0]), s, []).
Proof.
  intros HB Hn Hs Hd HS G1 G2 G3 HQ.
  destruct (C06_layout 0 nu_max 0 0 0 0 ltac:(lia) ltac:(lia) ltac:(lia)) as (X & sph & EX & Es & Hl & HN).
  change (lbsSO5r3_rngVvarL 0 0 0 (Some 0)) with (Ok [(0, 1, 0)]) in Es. injection Es as <-.
  assert (Hd0 : dimRadial 0 nu_max = nu_max + 1) by (unfold dimRadial; replace (0 <=? nu_max) with true by lia; lia). rewrite Hd0 in *.
  change (zlen [(0, 1, 0)]) with 1 in Hl.
  assert (NX : forall k, 0 <= k < zlen X -> nth_error X (Z.to_nat k) = Some (k, (0, 1, 0))).
  { intros k Hk. pose proof (HN 0%nat (Z.to_nat k) _ eq_refl ltac:(lia)) as Q. cbn [Nat.mul Nat.add] in Q. rewrite Q. do 2 f_equal. lia. }
  destruct (quartic_matrix gamma0 gamma_like_gamma0 Msqrt Minv CG 0 nu_max 0 0 0 0 ltac:(lia) ltac:(lia) ltac:(lia) B c1 c2 an lb s lam X HB ltac:(now left) Hs EX) as (D & ED & S1 & S2 & EV).
  destruct (C47_symmetrised eigh0 D ltac:(lia)) as (A & EA & A1 & A2 & A3 & A4 & _).
  assert (EE : Eigenfiddle eigh0 D = Ok (d, eye (nrows A))).
  { rewrite EA. apply eigh0_diagonal; [lia| |exact HS]. intros i j Hi Hj. rewrite A4.
    assert (VV : forall i j, 0 <= i < zlen X -> 0 <= j < zlen X -> ent D i j = if i =? j then nth (Z.to_nat i) d 0%R else 0%R).
    { intros a b Ha Hb. rewrite (EV a b _ _ _ _ _ _ ltac:(lia) ltac:(lia) (NX a Ha) (NX b Hb)). rewrite (proj2 (state_eqb_eq CG _ _) eq_refl). apply HQ; lia. }
    rewrite (VV i j), (VV j i), (Z.eqb_sym j i) by lia. destruct (i =? j) eqn:B0; [replace j with i by lia|]; lra. }
  set (RepX := code_matrices (RadProd (Rep_elem gamma0 Msqrt Minv)) CG) in *.
  assert (DI : dig RepX eigh0 (RWC_Ham B c1 c2 0 0) an lb 0 nu_max 0 0 s 0 None = Ok ([d], [eye (nrows A)], [0])).
  { unfold dig. rewrite quartic_tame by assumption.
    change (RepX s (RWC_Ham B c1 c2 0 0) an lb 0 nu_max 0 0 0 None = Ok D) in ED.
    assert (G : forall (F : Z -> option Z -> res (mat R)) (Eg : mat R -> res (list R * mat R)) P, F 0 None = Ok D -> Eg D = Ok (d, P) ->
      DigXspace F Eg true 0 nu_max 0 0 0 None = Ok ([d], [P], [0])).
    { intros F Eg P F1 F2. unfold DigXspace. cbn [L_top]. rewrite !require_range_ok by lia. cbn [bind]. change (py_range 0 (0 + 1)) with [0]. cbn. rewrite F1. cbn [bind]. rewrite F2. reflexivity. }
    apply G; assumption. }
  unfold ACM_Scale. rewrite run_stages. rewrite (checks_ok flt RepX eigh0 inv junk (RWC_Ham B c1 c2 0 0) an lb); [|lia|lia|lia|lia|cbn; lia|lia|lia].
  cbn [bind]. rewrite DI, pbind_ok. unfold pbind at 1, eig_stage. replace (0 <? g_eig_num s) with false by lia. cbv iota.
  unfold pret at 1. unfold pbind at 1, rat_stage. rewrite G2, G3. change ((0 <? zlen (@nil (list Z))) || (0 <? zlen (@nil (list Z)))) with false. reflexivity.
Qed.

Theorem C66_larger_space_beta4_refuted : forall Msqrt Minv CG flt inv junk, exists s low low2 rest2,
  let run nu_max := ACM_Scale flt (code_matrices (RadProd (Rep_elem gamma0 Msqrt Minv)) CG) eigh0 inv junk (RWC_Ham 1 0 (/ 7) 0 0) 1 (5 / 2) 0 nu_max 0 0 0 None s in
  run 0 = (Ok ([[low]], None, [0]), s, []) /\ run 1 = (Ok ([low2 :: rest2], None, [0]), s, []) /\ (low < low2)%R.
Proof.
  intros Msqrt Minv CG flt inv junk. set (s := w_eig_num 0 imported).
  assert (Hb : bases s (5 / 2) 0 0 (fun _ => (5 / 2)%R)).
  { intros v Hv. replace v with 0 by lia. exists 0. split; [vm_compute; reflexivity|]. split; lra. }
  exists s, (5 / 4 + 25 / 56)%R, (5 / 4 + 35 / 56)%R, [(9 / 4 + (5 / 2 + 81 / 4) / 14)%R]. cbv zeta.
  assert (P0 : (pv (5 / 2) 0 = sqrt (5 / 2))%R) by (unfold pv; f_equal; lra).
  assert (P1 : (sqrt (5 / 2) * sqrt (5 / 2) = 5 / 2)%R) by (apply sqrt_sqrt; lra).
  assert (Q : (forall N, 1 <= N -> v_b4 (5 / 2) N 0 0 = (35 / 4)%R) /\ v_b4 (5 / 2) 1 0 1 = (7 * sqrt (5 / 2))%R /\
    v_b4 (5 / 2) 1 1 0 = (7 * sqrt (5 / 2))%R /\ v_b4 (5 / 2) 1 1 1 = (5 / 2 + 81 / 4)%R).
  { split; [intros N HN; rewrite b4_corner by (lra || lia); replace (1 <=? N) with true by lia; lra|].
    unfold v_b4, total. change (Z.to_nat (1 + 1)) with 2%nat. cbn [rsum]. change (Z.of_nat 0) with 0. change (Z.of_nat 1) with 1. unfold v_b2.
    cbn [Z.eqb Z.sub Z.add Z.opp Z.pos_sub Pos.eqb]. rewrite P0. repeat split; nra. }
  destruct Q as (Q0 & Q1 & Q2 & Q3).
  split; [|split; [|lra]].
  - apply (diagonal_run _ _ _ _ _ _ _ _ _ _ _ _ s (fun _ => (5 / 2)%R)); try reflexivity; try lra; try lia; try exact Hb.
    + repeat constructor.
    + intros f i Hf Hi. replace f with 0 by lia. replace i with 0 by lia. cbn [Z.eqb Z.to_nat nth].
      unfold quartic_entry. rewrite b4_corner by (lra || lia). unfold v_D2b. rewrite bm2_diagonal by (lra || lia || apply gamma_like_gamma0).
      unfold v_b2. cbn [Z.eqb Z.sub Z.add Z.opp Z.pos_sub Pos.eqb Z.leb Z.compare]. rewrite !powerRZ_R1. lra.
  - apply (diagonal_run _ _ _ _ _ _ _ _ _ _ _ _ s (fun _ => (5 / 2)%R)); try reflexivity; try lra; try lia; try exact Hb.
    + repeat constructor. lra.
    + intros f i Hf Hi. unfold quartic_entry, v_D2b. rewrite !powerRZ_R1.
      assert (f = 0 \/ f = 1) as [-> | ->] by lia; assert (i = 0 \/ i = 1) as [-> | ->] by lia.
      * rewrite bm2_diagonal, (Q0 1) by (lra || lia || apply gamma_like_gamma0).
        unfold v_b2. cbn [Z.eqb Z.sub Z.add Z.opp Z.pos_sub Pos.eqb]. cbn. lra.
      * rewrite Q1. unfold v_b2. cbn [Z.eqb Z.sub Z.add Z.opp Z.pos_sub Pos.eqb]. rewrite P0. cbn [IZR]. lra.
      * rewrite Q2. unfold v_b2. cbn [Z.eqb Z.sub Z.add Z.opp Z.pos_sub Pos.eqb]. rewrite P0. cbn [IZR]. lra.
      * rewrite bm2_diagonal, Q3 by (lra || lia || apply gamma_like_gamma0).
        unfold v_b2. cbn [Z.eqb Z.sub Z.add Z.opp Z.pos_sub Pos.eqb]. change (nth (Z.to_nat 1) [(5 / 4 + 35 / 56)%R; (9 / 4 + (5 / 2 + 81 / 4) / 14)%R] 0%R) with (9 / 4 + (5 / 2 + 81 / 4) / 14)%R. lra.
Qed.

(** ** Examples *)
Example C66_bases_example : bases (snd (ACM_set_basis_type 1 None imported)) (5 / 2) 0 3 (fun v => (5 / 2 + IZR v)%R).
Proof.
  intros v Hv. exists v. split; [apply (C31_values imported None v); lia|]. split; [reflexivity|].
  assert (0 <= IZR v)%R by (apply (IZR_le 0); lia). lra.
Qed.

(** Harmonic case: levels 5/2 and 9/2, and RWC_expt gives 5/2. *)
Example C66_example : forall Msqrt Minv CG flt inv junk, exists s lam,
  bases s (5 / 2) 0 0 lam /\
  (forall nu_max, nu_max = 0 \/ nu_max = 1 -> exists rest,
    ACM_Scale flt (code_matrices (RadProd (Rep_elem gamma0 Msqrt Minv)) CG) eigh0 inv junk (RWC_Ham 1 1 0 0 0) 1 (5 / 2) 0 nu_max 0 0 0 None s
      = (Ok ([(5 / 2)%R :: rest], None, [0]), s, [])) /\
  RWC_expt 1 1 0 0 1 (lam 0) = Ok (5 / 2)%R.
Proof.
  intros. set (s := w_eig_num 0 imported). exists s, (fun _ => (5 / 2)%R).
  assert (Hb : bases s (5 / 2) 0 0 (fun _ => (5 / 2)%R)).
  { intros v Hv. replace v with 0 by lia. exists 0. split; [vm_compute; reflexivity|]. split; lra. }
  split; [exact Hb|]. split.
  - assert (HQ : forall N f i, 0 <= f <= 1 -> 0 <= i <= 1 -> quartic_entry gamma0 1 1 0 1 (5 / 2) 0 N f i = if f =? i then nth (Z.to_nat f) [5 / 2; 9 / 2]%R 0%R else 0%R).
    { intros N f i Hf Hi. unfold quartic_entry, v_D2b. rewrite !powerRZ_R1.
      assert (f = 0 \/ f = 1) as [-> | ->] by lia; assert (i = 0 \/ i = 1) as [-> | ->] by lia.
      1,4: rewrite bm2_diagonal by (lra || lia || apply gamma_like_gamma0).
      all: unfold v_b2; cbn [Z.eqb Z.sub Z.add Z.opp Z.pos_sub Pos.eqb].
      1: change (nth (Z.to_nat 0) [5 / 2; 9 / 2]%R 0%R) with (5 / 2)%R.
      all: try lra. change (nth (Z.to_nat 1) [(5 / 2)%R; (9 / 2)%R] 0%R) with (9 / 2)%R. lra. }
    intros nu_max [-> | ->]; [exists []|exists [(9 / 2)%R]]; apply (diagonal_run _ _ _ _ _ _ _ _ _ _ _ _ s (fun _ => (5 / 2)%R)); try reflexivity; try lra; try lia; try exact Hb; try (repeat constructor; lra);
      intros f i Hf Hi; rewrite HQ by lia; [replace f with 0 by lia; replace i with 0 by lia|]; reflexivity.
  - unfold RWC_expt, fdiv. repeat (destruct (Req_EM_T _ _); [exfalso; lra|cbn [bind]]). f_equal. lra.
Qed.

Print Assumptions C66_expectation.
Print Assumptions C66_ground_level.
Print Assumptions C66_larger_space.
Print Assumptions C66_larger_space_beta4_refuted.
