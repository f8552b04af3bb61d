(** C89: the unit and the zero of energy. *)

From Coq Require Import String Reals Lra Sorted.
From Coq Require Import Lia ZifyBool ZifyNat.
From Verif Require Import PyBase PyFacts Text Compat SphericalSpec Spherical SphericalFacts Matrix RadialMESpec RadialMEFacts IdFacts PropsCGSO3
  FullLabels FullLabelsFacts PropsFullLabels
  Operators FullOps PropsHarmonics FullOpsFacts FullOpsBlocks FullOpsProd PropsHistory FullSpace FullSpaceFacts PropsFullSpace Settings PropsSettings Display DisplayFacts PropsDisplay PropsDriver
  PropsOscillator RadialOps Spectrum PropsCode RadialME RadialWords RadialSums PropsRadialME PropsFullOps Ritz PropsRitz PropsCommutator PropsAmplitude Solver PropsSolver.
Open Scope Z_scope.
Ltac Zify.zify_post_hook ::= Z.div_mod_to_equations.

(** ** Statements *)

(** [op'] is [c op + E]: the same words with c times the coefficients, apart from
    constant terms, which add up to E more. *)
Inductive in_units (c : R) : R -> OperatorSum -> OperatorSum -> Prop :=
| iu_nil : in_units c 0 [] []
| iu_term E k k' w op op' : (forall nu v al L, cval k' nu v al L = c * cval k nu v al L)%R ->
    in_units c E op op' -> in_units c E ((k, w) :: op) ((k', w) :: op')
| iu_old E E' r op op' : E' = (E - c * r)%R -> in_units c E op op' -> in_units c E' ((CNum r, []) :: op) op'
| iu_new E E' r op op' : E' = (E + r)%R -> in_units c E op op' -> in_units c E' op ((CNum r, []) :: op').

(** Every radial basis has a positive lambda. *)
Definition positive_bases (s : settings) (lb : R) (v_min v_max : Z) : Prop :=
  forall v, v_min <= v <= v_max -> exists k, g_lam_fun s v = Ok k /\ (0 < lb + IZR k)%R.

(** The matrix [c M + E]. *)
Definition rescaled_matrix (c E : R) (M M' : mat R) : Prop :=
  nrows M' = nrows M /\ ncols M' = ncols M /\
  forall i j, 0 <= i < nrows M -> 0 <= j < ncols M -> ent M' i j = (c * ent M i j + (if i =? j then E else 0))%R.

(** ** Operators *)

Lemma opt_units c r s w E op op' : c <> 0%R -> in_units c E op op' ->
  in_units c E (opt_term (CNum r) (CNum (s * r), w) ++ op) (opt_term (CNum (c * r)) (CNum (s * (c * r)), w) ++ op').
Proof.
  intros Hc H. unfold opt_term. cbn [is0]. destruct (Req_EM_T r 0) as [->|N].
  - destruct (Req_EM_T (c * 0) 0); [exact H|lra].
  - destruct (Req_EM_T (c * r) 0) as [Z|_]; [apply Rmult_integral in Z; tauto|]. cbn [app]. apply iu_term; [|exact H]. intros. cbn. ring.
Qed.
Lemma opt1_units c r w E op op' : c <> 0%R -> in_units c E op op' ->
  in_units c E (opt_term (CNum r) (CNum r, w) ++ op) (opt_term (CNum (c * r)) (CNum (c * r), w) ++ op').
Proof.
  intros Hc H. pose proof (opt_units c r 1 w E op op' Hc H) as K. rewrite !Rmult_1_l in K. exact K.
Qed.

(** Scaling all coefficients of [ACM_Hamiltonian] and shifting the constant. *)
Theorem C89_Hamiltonian : forall c E c11 c20 c21 c22 c23 c30 c31 c32 c33 c40 c41 c42 c43 c50, c <> 0%R ->
  in_units c E
    (ACM_Hamiltonian (CNum c11) (CNum c20) (CNum c21) (CNum c22) (CNum c23) (CNum c30) (CNum c31) (CNum c32) (CNum c33)
       (CNum c40) (CNum c41) (CNum c42) (CNum c43) (CNum c50))
    (ACM_Hamiltonian (CNum (c * c11)) (CNum (c * c20 + E)) (CNum (c * c21)) (CNum (c * c22)) (CNum (c * c23))
       (CNum (c * c30)) (CNum (c * c31)) (CNum (c * c32)) (CNum (c * c33))
       (CNum (c * c40)) (CNum (c * c41)) (CNum (c * c42)) (CNum (c * c43)) (CNum (c * c50))).
Proof.
  intros c E c11 c20 c21 c22 c23 c30 c31 c32 c33 c40 c41 c42 c43 c50 Hc. unfold ACM_Hamiltonian. cbv zeta.
  unfold cscale at 2 3 4 5 6 7 8 9. unfold cscale at 3 4 5 6 7 8 9 10. cbn [cmul].
  assert (T : forall op op', in_units c 0 op op' -> in_units c E (opt_term (CNum c20) (CNum c20, []) ++ op) (opt_term (CNum (c * c20 + E)) (CNum (c * c20 + E), []) ++ op')).
  { intros op op' H. unfold opt_term. cbn [is0]. destruct (Req_EM_T c20 0) as [->|N], (Req_EM_T _ 0) as [Z|N']; cbn [app].
    - replace E with 0%R by lra. exact H.
    - apply (iu_new c 0); [ring|exact H].
    - apply (iu_old c 0); [lra|exact H].
    - apply (iu_old c (c * c20 + E)); [ring|]. apply (iu_new c 0); [ring|exact H]. }
  assert (U : in_units c 0 (opt_term (CNum c50) (CNum c50, [Xspace_PiqPi])) (opt_term (CNum (c * c50)) (CNum (c * c50), [Xspace_PiqPi]))).
  { pose proof (opt1_units c c50 [Xspace_PiqPi] 0 [] [] Hc (iu_nil c)) as K. rewrite !app_nil_r in K. exact K. }
  assert (K : forall op op', in_units c E op op' -> in_units c E
    ((if is0 (CNum c11) then [] else [(CNum c11, [ORad Radial_D2b]); (cmul (cscale (-1) (CNum c11)) (SEN (fun v => 2 + IZR v * (IZR v + 3))%R), [ORad Radial_bm2])]) ++ op)
    ((if is0 (CNum (c * c11)) then [] else [(CNum (c * c11), [ORad Radial_D2b]); (cmul (cscale (-1) (CNum (c * c11))) (SEN (fun v => 2 + IZR v * (IZR v + 3))%R), [ORad Radial_bm2])]) ++ op')).
  { intros op op' H. cbn [is0]. destruct (Req_EM_T c11 0) as [->|N].
    - destruct (Req_EM_T (c * 0) 0); [exact H|lra].
    - destruct (Req_EM_T (c * c11) 0) as [Z|_]; [apply Rmult_integral in Z; tauto|]. cbn [app].
      apply iu_term; [reflexivity|]. apply iu_term; [|exact H]. intros. unfold cscale, cmul, SEN. cbn [is0 orb].
      destruct (Req_EM_T (-1 * c11) 0) as [Z|_]; [lra|]. destruct (Req_EM_T (-1 * (c * c11)) 0) as [Z|_].
      { assert (c * c11 = 0)%R as Z' by lra. apply Rmult_integral in Z'. tauto. }
      cbn [orb cval]. ring. }
  apply K, T. repeat (apply opt1_units; [exact Hc|]). repeat (apply opt_units; [exact Hc|]). exact U.
Qed.

(** The same for the Hamiltonian in terms of mass and stiffness. *)
Theorem C89_RWC : forall c B c1 c2 chi kappa, c <> 0%R -> B <> 0%R ->
  in_units c 0 (RWC_Ham B c1 c2 chi kappa) (RWC_Ham (B / c) (c ^ 2 * c1) (c ^ 2 * c2) (c * chi) (c * kappa)).
Proof.
  intros c B c1 c2 chi kappa Hc HB. unfold RWC_Ham. cbv zeta.
  pose proof (C89_Hamiltonian c 0 (-1 / (2 * B)) 0 (B * c1 / 2) (B * c2 / 2) 0 (- chi) 0 0 0 kappa 0 0 0 0 Hc) as K.
  replace (c * (-1 / (2 * B)))%R with (-1 / (2 * (B / c)))%R in K by (field; auto).
  replace (c * (B * c1 / 2))%R with (B / c * (c ^ 2 * c1) / 2)%R in K by (field; auto).
  replace (c * (B * c2 / 2))%R with (B / c * (c ^ 2 * c2) / 2)%R in K by (field; auto).
  replace (c * - chi)%R with (- (c * chi))%R in K by ring. replace (c * 0 + 0)%R with 0%R in K by ring. replace (c * 0)%R with 0%R in K by ring. exact K.
Qed.

Lemma units_tame c E op op' : in_units c E op op' -> Op_Tame op' = Op_Tame op.
Proof.
  intros H. induction H as [|E k k' w op op' _ _ IH|E E' r op op' _ _ IH|E E' r op op' _ _ IH]; [reflexivity| | |]; unfold Op_Tame in *; cbn [forallb snd andb] in *; now rewrite IH.
Qed.

(** ** Matrices *)

Section Matrices.
  Variables (Gam : R -> R) (Msqrt Minv : mat R -> res (mat R)) (CG : Z -> Z -> Z -> Z -> Z -> Z -> Z -> Z -> Z -> res R).
  Let RP := RadProd (Rep_elem Gam Msqrt Minv).
  Variables (s : settings) (an lb : R) (nu_min nu_max v_min v_max L_min L_max : Z).
  Hypothesis Hnu : 0 <= nu_min <= nu_max.
  Hypothesis Hv : 0 <= v_min <= v_max.
  Hypothesis HL : 0 <= L_min <= L_max.
  Hypothesis HB : positive_bases s lb v_min v_max.
  Let a := mkXA an lb nu_min nu_max v_min v_max L_min L_max.
  Let prod w := fst (RepXspace_Prod RP CG w a (mkX (g_lam_fun s) [])).
  Let rep op := code_matrices RP CG s op an lb nu_min nu_max v_min v_max L_min (Some L_max).

  Lemma empty_product : exists D, prod [] = Ok D /\ mat_eq D (eye (zlen (lbs v_min v_max L_min L_max) * (nu_max - nu_min + 1))).
  Proof.
    assert (El : lbsSO5r3_rngVvarL (xa_v_min a) (xa_v_max a) (xa_L_min a) (Some (xa_L_max a)) = Ok (lbs v_min v_max L_min L_max)) by (apply lbs_rngVvarL_some; assumption).
    destruct (C52_empty_word Gam Msqrt Minv CG (g_lam_fun s) a _ Hnu Hv HL El) as (TW & _).
    destruct TW as (D & ED & HD).
    { intros v al L I. apply lbs_In in I; try assumption. unfold is_state in I. apply HB. lia. }
    pose proof (C35_segment RP CG (g_lam_fun s) a (conj Hnu (conj Hv HL)) [] (Forall_nil _)) as S. cbv beta in S. fold (prod []) in S.
    change (radial_part []) with (@nil rsym) in S. change (spherical_part []) with (@nil osym) in S. fold RP in ED. rewrite ED in S.
    destruct (prod []) as [D'|]; [|contradiction]. exists D'. split; [reflexivity|]. cbn in S. eapply mat_eq_trans; [exact S|exact HD].
  Qed.

  Lemma units_weighted c E op op' : in_units c E op op' -> forall Ms Ms' x i j n,
    Forall2 (fun t M => prod (snd t) = Ok M) op Ms -> Forall2 (fun t M => prod (snd t) = Ok M) op' Ms' ->
    (forall M, prod [] = Ok M -> ent M i j = (if i =? j then 1 else 0)%R) -> n = 0 ->
    weighted op' Ms' x i j = (c * weighted op Ms x i j + (if i =? j then E else 0))%R.
  Proof.
    intros H. induction H as [|E k k' w op op' Hk _ IH|E E' r op op' -> _ IH|E E' r op op' -> _ IH]; intros Ms Ms' x i j n F F' HI Hn.
    - inversion F; subst. inversion F'; subst. destruct x as [nu [[v al] L]]. cbn. destruct (i =? j); ring.
    - inversion F as [|? M ? Ms1 P1 F1]; subst. inversion F' as [|? M' ? Ms1' P1' F1']; subst. cbn [snd] in P1, P1'. rewrite P1 in P1'. injection P1' as <-.
      specialize (IH Ms1 Ms1' x i j 0 F1 F1' HI eq_refl). destruct x as [nu [[v al] L]]. cbn [weighted combine map fold_right fst snd] in *. rewrite IH, Hk. ring.
    - inversion F as [|? M ? Ms1 P1 F1]; subst. cbn [snd] in P1. specialize (IH Ms1 Ms' x i j 0 F1 F' HI eq_refl). specialize (HI M P1).
      destruct x as [nu [[v al] L]]. cbn [weighted combine map fold_right fst snd cval] in *. rewrite IH, HI. destruct (i =? j); ring.
    - inversion F' as [|? M ? Ms1 P1 F1]; subst. cbn [snd] in P1. specialize (IH Ms Ms1 x i j 0 F F1 HI eq_refl). specialize (HI M P1).
      destruct x as [nu [[v al] L]]. cbn [weighted combine map fold_right fst snd cval] in *. rewrite IH, HI. destruct (i =? j); ring.
  Qed.

  Lemma units_words c E op op' : in_units c E op op' -> forall t, In t op' -> snd t = [] \/ exists t0, In t0 op /\ snd t0 = snd t.
  Proof.
    intros H. induction H as [|E k k' w op op' _ _ IH|E E' r op op' _ _ IH|E E' r op op' _ _ IH]; intros t I.
    - destruct I.
    - destruct I as [<-|I]; [right; exists (k, w); split; [now left|reflexivity]|]. destruct (IH t I) as [?|(t0 & I0 & E0)]; [now left|right; exists t0; split; [now right|exact E0]].
    - destruct (IH t I) as [?|(t0 & I0 & E0)]; [now left|right; exists t0; split; [now right|exact E0]].
    - destruct I as [<-|I]; [now left|]. now apply IH.
  Qed.

  (** The matrix of [c op + E] is c times that of [op], with E added on the diagonal. *)
  Theorem C89_matrices : forall c E op op' D, in_units c E op op' -> rep op = Ok D -> exists D', rep op' = Ok D' /\ 0 <= nrows D /\ nrows D = ncols D /\ rescaled_matrix c E D D'.
  Proof.
    intros c E op op' D U ED. pose proof (lbsXspace_ok nu_min nu_max v_min v_max L_min (Some L_max) Hnu Hv HL) as EX. cbn [default] in EX. set (X := xlbs _ _ _ _ _ _) in EX.
    destruct (C54_linear RP CG (g_lam_fun s) an lb nu_min nu_max v_min v_max L_min L_max Hnu Hv HL op X EX) as ((W & _) & V). cbv beta in W, V.
    destruct (C54_linear RP CG (g_lam_fun s) an lb nu_min nu_max v_min v_max L_min L_max Hnu Hv HL op' X EX) as ((_ & W') & V'). cbv beta in W', V'.
    destruct empty_product as (I0 & EI & (N1 & N2 & HI)).
    destruct W' as (D' & ED').
    { intros t It. destruct (units_words _ _ _ _ U t It) as [-> | (t0 & It0 & <-)]; [exists I0; exact EI|]. apply W; [exists D; exact ED|exact It0]. }
    destruct (V D ED) as (Ms & F & S1 & S2 & HV). destruct (V' D' ED') as (Ms' & F' & S1' & S2' & HV').
    exists D'. split; [exact ED'|]. split; [rewrite S1; unfold zlen; lia|]. split; [congruence|]. split; [congruence|]. split; [congruence|]. intros i j Hi Hj. rewrite S1 in Hi. rewrite S2 in Hj.
    destruct (nth_error X (Z.to_nat j)) as [x|] eqn:Ex; [|apply nth_error_None in Ex; unfold zlen in *; lia].
    rewrite (HV i j x Hi (proj1 Hj) Ex), (HV' i j x Hi (proj1 Hj) Ex). apply (units_weighted c E op op' U Ms Ms' x i j 0 F F'); [|reflexivity].
    intros M EM. unfold prod in EI, EM. rewrite EI in EM. injection EM as <-.
    destruct (C06_layout nu_min nu_max v_min v_max L_min L_max Hnu Hv HL) as (X' & sph & EX' & Es & Hl & _). rewrite EX in EX'. injection EX' as <-.
    rewrite lbs_rngVvarL_some in Es by assumption. injection Es as <-. unfold dimRadial in Hl. replace (nu_min <=? nu_max) with true in Hl by lia.
    rewrite HI; [reflexivity| |]; rewrite ?N1, ?N2; cbn [eye nrows ncols]; nia.
  Qed.
End Matrices.

(** ** Levels *)

Definition unit_change (c E x : R) : R := (c * x + E)%R.

Lemma nth_map_lt {A B} (f : A -> B) l k (d : A) (d' : B) : (k < length l)%nat -> nth k (map f l) d' = f (nth k l d).
Proof. revert k. induction l as [|x l IH]; intros k H; cbn [length] in H; [lia|]. destruct k as [|k]; [reflexivity|]. cbn [map nth]. apply IH. lia. Qed.

Lemma total_plus f g n : total (fun k => f k + g k)%R n = (total f n + total g n)%R.
Proof. unfold total. generalize (Z.to_nat n). intros m. induction m as [|m IH]; [cbn; ring|]. cbn [rsum]. rewrite IH. ring. Qed.

Lemma rescaled_eigen c E M M' vals P : (0 < c)%R -> nrows M = ncols M -> rescaled_matrix c E M M' ->
  eigen_decomposition (symmetric_part M) vals P -> eigen_decomposition (symmetric_part M') (map (unit_change c E) vals) P.
Proof.
  intros Hc Sq (S1 & S2 & HE) (L1 & L2 & L3 & L4 & L5 & L6). unfold eigen_decomposition. cbn [symmetric_part nrows] in *. rewrite S1.
  split; [unfold zlen in *; now rewrite map_length|]. split; [exact L2|]. split; [exact L3|]. split; [|split; [|exact L6]].
  - clear - L4 Hc. induction L4 as [|x l H IH F]; [apply SSorted_nil|]. cbn [map]. apply SSorted_cons; [exact IH|]. apply Forall_map. eapply Forall_impl; [|exact F].
    intros y Hy. unfold unit_change. cbv beta in Hy. nra.
  - intros i j Hi Hj. rewrite (nth_map_lt (unit_change c E) vals (Z.to_nat j) 0%R 0%R) by (unfold zlen in L1; lia). unfold unit_change.
    rewrite (total_ext _ (fun k => c * (ent (symmetric_part M) i k * ent P k j) + (E * ent P k j) * (if k =? i then 1 else 0))%R).
    + rewrite total_plus, total_scal, (total_delta (fun k => E * ent P k j)%R) by exact Hi. rewrite L5 by assumption. ring.
    + intros k Hk. cbn [symmetric_part ent]. rewrite !HE by (rewrite <- ?Sq; lia). rewrite (Z.eqb_sym k i). destruct (i =? k); field.
Qed.

Lemma fiddle_symmetric eigh M : nrows M = ncols M -> Eigenfiddle eigh M = eigh (symmetric_part M).
Proof.
  intros Sq. unfold Eigenfiddle. replace (nrows M =? ncols M) with true by lia. cbn [negb raise_if bind]. f_equal.
  unfold symmetric_part, mscale, madd, transpose. cbn [nrows ncols ent]. rewrite <- Sq. f_equal.
  apply FunctionalExtensionality.functional_extensionality. intros i. apply FunctionalExtensionality.functional_extensionality. intros j. lra.
Qed.

Lemma fiddle_units c E eigh eigh' : (0 < c)%R -> eigh_sound eigh -> eigh_sound eigh' -> forall M M' v P v' P', nrows M = ncols M -> rescaled_matrix c E M M' ->
  Eigenfiddle eigh M = Ok (v, P) -> Eigenfiddle eigh' M' = Ok (v', P') -> v' = map (unit_change c E) v.
Proof.
  intros Hc S S' M M' v P v' P' Sq RM H H'. pose proof RM as (S1 & S2 & _).
  rewrite fiddle_symmetric in H by exact Sq. rewrite fiddle_symmetric in H' by congruence.
  apply S in H; [|reflexivity|intros; cbn; lra]. apply S' in H'; [|reflexivity|intros; cbn; lra].
  apply (same_levels (symmetric_part M') v' P' _ P); [intros; cbn; lra|exact H'|now apply (rescaled_eigen c E M)].
Qed.

Lemma rescaled_slice c E M M' a b : 0 <= nrows M -> nrows M = ncols M -> rescaled_matrix c E M M' ->
  nrows (slice M a b a b) = ncols (slice M a b a b) /\ rescaled_matrix c E (slice M a b a b) (slice M' a b a b).
Proof.
  intros N Sq (S1 & S2 & HE). unfold slice, rescaled_matrix. cbn [nrows ncols ent]. rewrite S1, S2, <- Sq. split; [reflexivity|]. split; [reflexivity|]. split; [reflexivity|].
  intros i j Hi Hj. assert (B : forall n x, 0 <= n -> 0 <= slice_bound n x <= n) by (intros n x Hn; unfold slice_bound; destruct (x <? 0) eqn:X; lia).
  pose proof (B (nrows M) a N). pose proof (B (nrows M) b N). rewrite HE by lia. replace (slice_bound (nrows M) a + i =? slice_bound (nrows M) a + j) with (i =? j) by lia. reflexivity.
Qed.

Section Dig.
  Variables RepX RepX' : Z -> option Z -> res (mat R).
  Variables F F' : mat R -> res (list R * mat R).
  Variable tame : bool.
  Variables nu_min nu_max v_min v_max : Z.
  Variables c E : R.
  Let f := unit_change c E.
  Hypothesis HF : forall M M' v P v' P', nrows M = ncols M -> rescaled_matrix c E M M' -> F M = Ok (v, P) -> F' M' = Ok (v', P') -> v' = map f v.
  Hypothesis HR : forall L L_max D D', 0 <= nu_min <= nu_max -> 0 <= v_min <= v_max -> 0 <= L <= opt_L L L_max ->
    RepX L L_max = Ok D -> RepX' L L_max = Ok D' -> 0 <= nrows D /\ nrows D = ncols D /\ rescaled_matrix c E D D'.

  Lemma tame_units : 0 <= nu_min <= nu_max -> 0 <= v_min <= v_max -> forall Ls, (forall L, In L Ls -> 0 <= L) -> forall ev eb eb' Lv r1 r2 r3 r1' r2' r3',
    dig_tame RepX F v_min v_max Ls (ev, eb, Lv) = Ok (r1, r2, r3) ->
    dig_tame RepX' F' v_min v_max Ls (map (map f) ev, eb', Lv) = Ok (r1', r2', r3') -> r1' = map (map f) r1 /\ r3 = r3'.
  Proof.
    intros Hn Hv. induction Ls as [|L Ls IH]; intros HLs ev eb eb' Lv r1 r2 r3 r1' r2' r3' H H'; cbn [dig_tame] in H, H'.
    - injection H as <- <- <-. injection H' as <- <- <-. auto.
    - specialize (IH (fun L' I => HLs L' (or_intror I))).
      apply bind_ok in H. destruct H as (d & Ed & H). rewrite Ed in H'. cbn [bind] in H'. destruct (0 <? d); [|eapply IH; eassumption].
      apply bind_ok in H. destruct H as (D & ED & H). apply bind_ok in H'. destruct H' as (D' & ED' & H').
      apply bind_ok in H. destruct H as ([v P] & EE & H). apply bind_ok in H'. destruct H' as ([v' P'] & EE' & H').
      destruct (HR L None D D' Hn Hv ltac:(cbn; specialize (HLs L (or_introl eq_refl)); lia) ED ED') as (_ & Sq & RM).
      pose proof (HF _ _ _ _ _ _ Sq RM EE EE') as ->. 
      replace (map (map f) ev ++ [map f v]) with (map (map f) (ev ++ [v])) in H' by (now rewrite map_app). eapply IH; eassumption.
  Qed.
  Lemma full_units rep rep' d0 : 0 <= nrows rep -> nrows rep = ncols rep -> rescaled_matrix c E rep rep' -> forall Ls st ev eb eb' Lv r1 r2 r3 r1' r2' r3',
    dig_full F v_min v_max rep d0 Ls st (ev, eb, Lv) = Ok (r1, r2, r3) ->
    dig_full F' v_min v_max rep' d0 Ls st (map (map f) ev, eb', Lv) = Ok (r1', r2', r3') -> r1' = map (map f) r1 /\ r3 = r3'.
  Proof.
    intros N0 Sq RM. induction Ls as [|L Ls IH]; intros st ev eb eb' Lv r1 r2 r3 r1' r2' r3' H H'; cbn [dig_full] in H, H'.
    - injection H as <- <- <-. injection H' as <- <- <-. auto.
    - apply bind_ok in H. destruct H as (d & Ed & H). rewrite Ed in H'. cbn [bind] in H'. destruct (0 <? d); [|eapply IH; eassumption].
      apply bind_ok in H. destruct H as ([v P] & EE & H). apply bind_ok in H'. destruct H' as ([v' P'] & EE' & H').
      destruct (rescaled_slice c E rep rep' (st - 1) (st + d0 * d) N0 Sq RM) as (Sq' & RM').
      pose proof (HF _ _ _ _ _ _ Sq' RM' EE EE') as ->.
      replace (map (map f) ev ++ [map f v]) with (map (map f) (ev ++ [v])) in H' by (now rewrite map_app). eapply IH; eassumption.
  Qed.
  Lemma dig_units L_min L_max r1 r2 r3 r1' r2' r3' :
    DigXspace RepX F tame nu_min nu_max v_min v_max L_min L_max = Ok (r1, r2, r3) -> DigXspace RepX' F' tame nu_min nu_max v_min v_max L_min L_max = Ok (r1', r2', r3') ->
    r1' = map (map f) r1 /\ r3 = r3'.
  Proof.
    intros H H'. pose proof (Dig_valid _ _ _ _ _ _ _ _ _ _ H) as (Hn & Hv & HL). unfold DigXspace in H, H'.
    apply bind_ok in H. destruct H as (u1 & E1 & H). rewrite E1 in H'. cbn [bind] in H'.
    apply bind_ok in H. destruct H as (u2 & E2 & H). rewrite E2 in H'. cbn [bind] in H'.
    apply bind_ok in H. destruct H as (u3 & E3 & H). rewrite E3 in H'. cbn [bind] in H'.
    destruct tame.
    - refine (tame_units Hn Hv _ _ [] [] [] [] _ _ _ _ _ _ H H'). intros L I. apply py_range_In in I. lia.
    - apply bind_ok in H. destruct H as (rep & E4 & H). apply bind_ok in H'. destruct H' as (rep' & E4' & H').
      destruct (HR L_min (Some (opt_L L_min L_max)) _ _ Hn Hv HL E4 E4') as (N0 & Sq & RM). exact (full_units _ _ _ N0 Sq RM _ _ [] [] [] [] _ _ _ _ _ _ H H').
  Qed.
End Dig.

(** ** Listing of levels *)

Lemma heads_units (f : R -> R) ev : heads (map (map f) ev) = map f (heads ev).
Proof. induction ev as [|l ev IH]; [reflexivity|]. destruct l as [|x l]; cbn; [exact IH|]. f_equal. exact IH. Qed.

Lemma min_head_units c E ev : (0 < c)%R ->
  min_head (map (map (unit_change c E)) ev) = match min_head ev with Ok m => Ok (unit_change c E m) | Raise e => Raise e end.
Proof.
  intros Hc. unfold min_head. rewrite heads_units. destruct (heads ev) as [|x l]; [reflexivity|]. cbn [map]. f_equal. revert x.
  induction l as [|y l IH]; intros x; [reflexivity|]. cbn [map fold_left]. rewrite <- IH. f_equal. unfold unit_change, Rmin.
  destruct (Rle_dec x y), (Rle_dec (c * x + E) (c * y + E)); nra.
Qed.

(** The eigenvalue stage: scale and output of the two runs. *)
Lemma silent_eigs flt ev Lv n s : 0 < n -> (ev = [] \/ forall L, In L Lv -> ~ 0 <= L <= 1000000) -> Show_Eigs flt ev Lv (Some n) None None s = (Ok None, s, []).
Proof.
  intros Hn H. unfold Show_Eigs. cbn [default]. rewrite require_nonnegint_ok by lia. unfold pbind at 1, praise at 1.
  replace (n =? 0) with false by lia. destruct H as [-> | H]; [reflexivity|]. destruct (zlen ev =? 0); [reflexivity|]. cbn [orb].
  rewrite require_range_ok by (unfold L_MAX_DEFAULT; lia). unfold pbind at 1, praise at 1.
  replace (existsb _ Lv) with false; [reflexivity|]. symmetry. apply not_true_is_false. intros C. apply existsb_exists in C. destruct C as (L & I & C).
  apply (H L I). unfold L_MAX_DEFAULT in C. lia.
Qed.

Lemma combine_map_r {A B C} (g : B -> C) (l : list A) : forall l', combine l (map g l') = map (fun '(a, b) => (a, g b)) (combine l l').
Proof. induction l as [|x l IH]; intros l'; [reflexivity|]. destruct l' as [|y l']; [reflexivity|]. cbn. now rewrite IH. Qed.

Lemma show_units flt c E ev Lv n s s' r r' z z' o o' : (0 < c)%R -> 0 < n -> (g_eig_rel s = true \/ E = 0%R) ->
  (c = 1%R /\ s' = s \/ g_eig_sft s <> 0%R /\ s' = w_eig_sft (c * g_eig_sft s) s) ->
  Show_Eigs flt ev Lv (Some n) None None s = (Ok r, z, o) -> Show_Eigs flt (map (map (unit_change c E)) ev) Lv (Some n) None None s' = (Ok r', z', o') ->
  z = s /\ z' = s' /\ (o = [] /\ o' = [] \/
    exists low rest, o = eigs_header flt s low :: rest /\ o' = eigs_header flt s' (unit_change c E low) :: rest).
Proof.
  intros Hc Hn HZ HS H H'.
  assert (Hs : g_eig_rel s' = g_eig_rel s /\ g_rel_wid s' = g_rel_wid s /\ g_rel_pre s' = g_rel_pre s) by (destruct HS as [(_ & ->) | (_ & ->)]; [auto|destruct s; auto]).
  destruct Hs as (HS1 & HS2 & HS3).
  assert (DC : (ev = [] \/ forall L, In L Lv -> ~ 0 <= L <= 1000000) \/ (ev <> [] /\ exists L, In L Lv /\ 0 <= L <= 1000000)).
  { destruct ev as [|l ev]; [left; now left|]. destruct (existsb (fun L => (0 <=? L) && (L <=? 1000000)) Lv) eqn:X.
    - right. split; [discriminate|]. apply existsb_exists in X. destruct X as (L & I & X). exists L. split; [exact I|lia].
    - left. right. intros L I B. assert (Y : existsb (fun L => (0 <=? L) && (L <=? 1000000)) Lv = true) by (apply existsb_exists; exists L; split; [exact I|lia]). congruence. }
  destruct DC as [DC|(NE & XL)].
  { rewrite silent_eigs in H by assumption. rewrite silent_eigs in H'; [|exact Hn|destruct DC as [->|DC]; [now left|now right]].
    injection H as _ <- <-. injection H' as _ <- <-. auto. }
  assert (EL : exists low, (if g_eig_rel s then min_head ev = Ok low else low = 0%R)).
  { destruct (g_eig_rel s) eqn:GR; [|eauto]. destruct (min_head ev) as [m|e] eqn:MH; [eauto|]. exfalso.
    unfold Show_Eigs in H. cbn [default] in H. rewrite require_nonnegint_ok in H by lia. unfold pbind at 1, praise at 1 in H.
    replace (n =? 0) with false in H by lia. replace (zlen ev =? 0) with false in H by (unfold zlen; destruct ev; [congruence|cbn [length]; lia]). cbn [orb] in H.
    rewrite require_range_ok in H by (unfold L_MAX_DEFAULT; lia). unfold pbind at 1, praise at 1 in H.
    destruct (negb _) eqn:NB in H.
    - destruct XL as (L & I & B). apply negb_true_iff in NB. assert (Y : existsb (fun L => (0 <=? L) && (L <=? L_MAX_DEFAULT)) Lv = true) by (apply existsb_exists; exists L; split; [exact I|unfold L_MAX_DEFAULT; lia]).
      congruence.
    - unfold pbind, pget in H. rewrite GR, MH in H. discriminate. }
  destruct EL as (low & EL).
  destruct (C62_shown flt ev Lv n None None s low Hn NE Logic.I XL EL) as (keep & HK & ES).
  destruct (C62_shown flt (map (map (unit_change c E)) ev) Lv n None None s' (unit_change c E low) Hn) as (keep' & HK' & ES');
    [destruct ev; [congruence|discriminate]|exact Logic.I|exact XL| |].
  { rewrite HS1. destruct (g_eig_rel s) eqn:GR; [now rewrite min_head_units, EL|]. subst low. destruct HZ as [ | -> ]; [discriminate|]. unfold unit_change. ring. }
  rewrite ES in H. rewrite ES' in H'. injection H as _ <- <-. injection H' as _ <- <-. split; [reflexivity|]. split; [reflexivity|]. right.
  exists low. eexists. split; [reflexivity|]. f_equal. rewrite combine_map_r. clear ES ES'.
  induction (combine Lv ev) as [|[L vals] l IH]; [reflexivity|]. cbn [map filter].
  assert (KK : keep' (L, map (unit_change c E) vals) = keep (L, vals)).
  { destruct (keep (L, vals)) eqn:K1; [apply HK', (HK L vals), K1|]. apply not_true_is_false. intros K2. apply HK' in K2. apply (HK L vals) in K2. congruence. }
  rewrite KK. destruct (keep (L, vals)); [|exact IH]. cbn [map]. f_equal; [|exact IH].
  unfold values_line, number_spec. rewrite HS2, HS3.
  assert (EQ : map (fun x => (x - unit_change c E low) / g_eig_sft s')%R (firstn (Z.to_nat n) (map (unit_change c E) vals)) = map (fun x => (x - low) / g_eig_sft s)%R (firstn (Z.to_nat n) vals)).
  { rewrite firstn_map, map_map. apply map_ext. intros x. unfold unit_change. destruct HS as [(-> & ->) | (NZ & ->)].
    - f_equal. ring.
    - replace (g_eig_sft (w_eig_sft (c * g_eig_sft s) s)) with (c * g_eig_sft s)%R by (now destruct s). field. split; lra. }
  rewrite EQ. reflexivity.
Qed.

Lemma find_units (f : R -> R) L ev : forall Lv, find (fun '(L', _) => L' =? L) (combine Lv (map (map f) ev)) =
  match find (fun '(L', _) => L' =? L) (combine Lv ev) with Some (L', v) => Some (L', map f v) | None => None end.
Proof.
  induction ev as [|v ev IH]; intros Lv; destruct Lv as [|x Lv]; try reflexivity. cbn [combine map find]. destruct (x =? L); [reflexivity|]. apply IH.
Qed.
Lemma py_get_map {A B} (f : A -> B) l i : py_get (map f l) i = match py_get l i with Ok x => Ok (f x) | Raise e => Raise e end.
Proof.
  unfold py_get, zlen. rewrite map_length. cbv zeta. set (j := if i <? 0 then _ else _). destruct (j <? 0); [reflexivity|]. rewrite nth_error_map. destruct (nth_error l _); reflexivity.
Qed.

Lemma stage_units flt c E fe s ev Lv s1 o1 s1' o1' : (0 < c)%R -> (0 < fe \/ g_eig_num s <= 0 \/ c = 1%R) -> (g_eig_rel s = true \/ E = 0%R) ->
  eig_stage flt fe s ev Lv s = (Ok tt, s1, o1) -> eig_stage flt fe s (map (map (unit_change c E)) ev) Lv s = (Ok tt, s1', o1') ->
  s1' = w_eig_sft ((if (0 <? fe) && (0 <? g_eig_num s) then c else 1) * g_eig_sft s1)%R s1 /\ (o1 = [] /\ o1' = [] \/
    exists low rest, o1 = eigs_header flt s1 low :: rest /\ o1' = eigs_header flt s1' (unit_change c E low) :: rest).
Proof.
  intros Hc HF HZ. unfold eig_stage. destruct (0 <? g_eig_num s) eqn:GN.
  2: { intros H H'. unfold pret in H, H'. injection H as <- <-. injection H' as <- <-. rewrite andb_false_r. split; [|now left]. rewrite Rmult_1_l. now destruct s. }
  rewrite andb_true_r. intros H H'.
  apply pbind_inv in H. destruct H as [([] & sa & oa & ob & H1 & H & ->) | (e & _ & X)]; [|discriminate].
  apply pbind_inv in H'. destruct H' as [([] & sa' & oa' & ob' & H1' & H' & ->) | (e & _ & X)]; [|discriminate].
  apply pbind_inv in H. destruct H as [(r & sb & oc & od & H2 & H & ->) | (e & _ & X)]; [|discriminate].
  apply pbind_inv in H'. destruct H' as [(r' & sb' & oc' & od' & H2' & H' & ->) | (e & _ & X)]; [|discriminate].
  unfold pret in H, H'. injection H as <- <-. injection H' as <- <-. rewrite !app_nil_r.
  assert (K : oa = [] /\ oa' = [] /\ g_eig_rel sa = g_eig_rel s /\ sa' = w_eig_sft ((if 0 <? fe then c else 1) * g_eig_sft sa)%R sa /\ (0 <? fe = true -> g_eig_sft sa <> 0%R)).
  { destruct (0 <? fe).
    - unfold fit_eigenvalues in H1, H1'. unfold pbind, pget, praise, passign, pret in H1, H1'.
      assert (LL : (if g_eig_rel s then min_head (map (map (unit_change c E)) ev) else Ok 0%R) =
                   match (if g_eig_rel s then min_head ev else Ok 0%R) with Ok m => Ok (unit_change c E m) | Raise e => Raise e end).
      { destruct (g_eig_rel s); [now apply min_head_units|]. destruct HZ as [ | -> ]; [discriminate|]. f_equal. unfold unit_change. ring. }
      rewrite LL in H1'. destruct (if g_eig_rel s then min_head ev else Ok 0%R) as [low|e]; [|discriminate].
      destruct (mem (g_eig_L s) Lv); [|discriminate]. cbn [negb raise_if] in H1, H1'. rewrite find_units in H1'.
      destruct (find _ (combine Lv ev)) as [[L' vals]|]; [|discriminate]. rewrite py_get_map in H1'. destruct (py_get vals _) as [x|e]; [|discriminate].
      set (y := ((x - low) / g_eig_fit s)%R) in *.
      replace ((unit_change c E x - unit_change c E low) / g_eig_fit s)%R with (c * y)%R in H1' by (unfold y, unit_change, Rdiv; ring).
      destruct (Req_EM_T y 0) as [|NZ]; [discriminate|]. destruct (Req_EM_T (c * y) 0) as [|_]; [discriminate|].
      injection H1 as <- <-. injection H1' as <- <-. destruct s. repeat split; try reflexivity. intros _. exact NZ.
    - unfold pret in H1, H1'. injection H1 as <- <-. injection H1' as <- <-. rewrite Rmult_1_l. split; [reflexivity|]. split; [reflexivity|]. split; [reflexivity|]. split; [now destruct s|discriminate]. }
  destruct K as (-> & -> & GR & -> & NZ). cbn [app].
  assert (Hn : 0 < g_eig_num s) by lia.
  assert (HS : (c = 1%R /\ w_eig_sft ((if 0 <? fe then c else 1) * g_eig_sft sa)%R sa = sa) \/ (g_eig_sft sa <> 0%R /\ w_eig_sft ((if 0 <? fe then c else 1) * g_eig_sft sa)%R sa = w_eig_sft (c * g_eig_sft sa)%R sa)).
  { destruct (0 <? fe) eqn:F; [right; split; [now apply NZ|reflexivity]|]. left. destruct HF as [HF|[HF|HF]]; [lia|lia|]. split; [exact HF|]. rewrite Rmult_1_l. now destruct sa. }
  destruct (show_units flt c E ev Lv (g_eig_num s) sa _ r r' _ _ _ _ Hc Hn ltac:(rewrite GR; exact HZ) HS H2 H2') as (-> & -> & K). split; [reflexivity|exact K].
Qed.

(** ** The scale of the energies is used for the list of levels only *)

Definition blind {A} (k : R) (m : prog A) : Prop := forall z, m (w_eig_sft k z) = let '(r, z', o) := m z in (r, w_eig_sft k z', o).

Section Blind.
  Variable k : R.
  Variable flt : text -> R -> text.
  Lemma blind_pret {A} (a : A) : blind k (pret a).
  Proof. intros z. reflexivity. Qed.
  Lemma blind_praise {A} (m : res A) : blind k (praise m).
  Proof. intros z. reflexivity. Qed.
  Lemma blind_print t : blind k (print t).
  Proof. intros z. reflexivity. Qed.
  Lemma blind_bind {A B} (m : prog A) (f : A -> prog B) : blind k m -> (forall a, blind k (f a)) -> blind k (pbind m f).
  Proof.
    intros H1 H2 z. unfold pbind. rewrite H1. destruct (m z) as [[[a|e] z1] o1]; [|reflexivity]. rewrite H2. destruct (f a z1) as [[r z2] o2]. reflexivity.
  Qed.
  Lemma blind_get {A} (f : settings -> prog A) : (forall z, f (w_eig_sft k z) = f z) -> (forall z, blind k (f z)) -> blind k (pbind pget f).
  Proof. intros H1 H2 z. unfold pbind, pget. rewrite H1, H2. destruct (f z z) as [[r z2] o2]. reflexivity. Qed.
  Lemma blind_pmap {A} (f : A -> prog unit) l : (forall x, blind k (f x)) -> blind k (pmap f l).
  Proof. intros H. induction l as [|x l IH]; [apply blind_pret|]. cbn [pmap]. apply blind_bind; [apply H|]. intros _. exact IH. Qed.

  Ltac unseen :=
    repeat first
      [ apply blind_pret | apply blind_praise | apply blind_print | apply blind_bind; [|intros ?] | apply blind_pmap; intros ?
      | match goal with |- blind _ (if ?b then _ else _) => destruct b | |- blind _ (let _ := _ in _) => cbv zeta | |- blind _ (match ?x with _ => _ end) => destruct x end ].

  Lemma blind_Row s M f2 n fn sc L1 L2 n2 : blind k (Show_Mels_Row flt s M f2 n fn sc L1 L2 n2).
  Proof. unfold Show_Mels_Row. unseen. Qed.
  Lemma blind_rows_from s M f2 n fn sc L1 L2 l : blind k (rows_from flt s M f2 n fn sc L1 L2 l).
  Proof. induction l as [|x l IH]; cbn [rows_from]; [unseen|]. apply blind_bind; [apply blind_Row|]. intros r. destruct (r <=? 0); [unseen|exact IH]. Qed.
  Lemma blind_Rows s M f2 n fn sc L2 : blind k (Show_Mels_Rows flt s M f2 n fn sc L2).
  Proof. apply blind_pmap. intros. apply blind_rows_from. Qed.
  Lemma blind_mel s M f1 fn sc L1 L2 n1 n2 : blind k (show_mel flt s M f1 fn sc L1 L2 n1 n2).
  Proof. unfold show_mel. unseen. Qed.
  Lemma blind_steps s M f1 fn sc j L1 L2 n1 n2 Lm : blind k (mel_steps flt s M f1 fn sc j L1 L2 n1 n2 Lm).
  Proof. revert L1 L2. induction j as [|j IH]; intros; cbn [mel_steps]; [unseen|]. apply blind_bind; [apply blind_mel|]. intros. apply IH. Qed.
  Lemma blind_quintet s M f1 fn sc L1 L2 n1 n2 Lm : blind k (show_quintet flt s M f1 fn sc L1 L2 n1 n2 Lm).
  Proof. unfold show_quintet. destruct (_ || _); [unseen|]. destruct (0 <? Lm); [|destruct (Lm <? 0)]; [do 2 (apply blind_bind; [unseen|intros ?])|apply blind_bind; [unseen|intros ?]|]; apply blind_steps. Qed.
  Lemma blind_designator s M f1 f2 n fn sc d : blind k (show_designator flt s M f1 f2 n fn sc d).
  Proof.
    destruct d as [|a [|b r]]; cbn [show_designator].
    - apply blind_pmap. intros. apply blind_Rows.
    - destruct (a <? 0); [unseen|apply blind_Rows].
    - destruct (5 <? _); [unseen|]. destruct (_ || _); [unseen|].
      destruct r as [|c [|d [|e [|]]]]; try apply blind_rows_from; try apply blind_mel; try apply blind_quintet.
      apply blind_bind; [apply blind_Row|intros; apply blind_pret].
  Qed.
  Lemma blind_Show_Mels M l n fn sc fm ds : blind k (Show_Mels flt M l n fn sc fm ds).
  Proof.
    unfold Show_Mels. destruct l; [unseen|]. apply blind_bind; [unseen|intros ?]. apply blind_get; [intros z; destruct z; reflexivity|]. intros z.
    do 3 (apply blind_bind; [unseen|intros ?]). apply blind_pmap. intros. apply blind_designator.
  Qed.
  Lemma blind_Show_Rats M l n : blind k (Show_Rats flt M l n).
  Proof. unfold Show_Rats. apply blind_get; [intros z; destruct z; reflexivity|]. intros z. apply blind_Show_Mels. Qed.
  Lemma blind_Show_Amps M l n : blind k (Show_Amps flt M l n).
  Proof. unfold Show_Amps. apply blind_get; [intros z; destruct z; reflexivity|]. intros z. apply blind_Show_Mels. Qed.
  Lemma blind_fit_rates M Lv : blind k (fit_rates M Lv).
  Proof.
    unfold fit_rates. apply blind_get; [intros z; destruct z; reflexivity|]. intros z. repeat (apply blind_bind; [apply blind_praise|intros ?]). cbv zeta.
    apply blind_bind; [intros y; destruct y; reflexivity|intros ?]. destruct (Req_EM_T _ 0); [apply blind_praise|]. apply blind_bind; [apply blind_praise|intros ?].
    intros y; destruct y; reflexivity.
  Qed.
End Blind.

(** ** Two runs *)

Section Runs.
  Variable flt : text -> R -> text.
  Variables (Gam : R -> R) (Msqrt Minv : mat R -> res (mat R)) (CG : Z -> Z -> Z -> Z -> Z -> Z -> Z -> Z -> Z -> res R).
  Let RP := RadProd (Rep_elem Gam Msqrt Minv).
  Variables (c E : R) (op op' : OperatorSum) (an lb : R) (nu_min nu_max v_min v_max fe fr L_min : Z) (L_max : option Z) (s : settings).
  Hypothesis Hc : (0 < c)%R.
  Hypothesis HU : in_units c E op op'.
  Hypothesis HB : positive_bases s lb v_min v_max.
  Let f := unit_change c E.
  Let run m h := run_on flt RP CG m h an lb nu_min nu_max v_min v_max fe fr L_min L_max s.

  Lemma parts m h ev tr Lv s' o : run m h = (Ok (ev, tr, Lv), s', o) ->
    exists ebs s1 o1 o2, dig (code_matrices RP CG) (m_eigh m) h an lb nu_min nu_max v_min v_max s L_min L_max = Ok (ev, ebs, Lv) /\
      eig_stage flt fe s ev Lv s = (Ok tt, s1, o1) /\ o = o1 ++ o2 /\
      match tr with
      | None => (0 <? zlen (g_rat_lst s)) || (0 <? zlen (g_amp_lst s)) = false /\ s' = s1 /\ o2 = []
      | Some M => (0 <? zlen (g_rat_lst s)) || (0 <? zlen (g_amp_lst s)) = true /\
          exists a fs, amp_stage (code_matrices RP CG) (m_inv m) an lb nu_min nu_max v_min v_max s ebs Lv = Ok (a, fs) /\ M = (known (m_junk m) a, fs) /\ shows flt fr s M Lv s1 = (Ok tt, s', o2)
      end.
  Proof. exact (run_inv flt RP CG h an lb nu_min nu_max v_min v_max fe fr L_min L_max s m ev tr Lv s' o). Qed.

  Lemma code_units L mx D D' : 0 <= nu_min <= nu_max -> 0 <= v_min <= v_max -> 0 <= L <= opt_L L mx ->
    code_matrices RP CG s op an lb nu_min nu_max v_min v_max L mx = Ok D -> code_matrices RP CG s op' an lb nu_min nu_max v_min v_max L mx = Ok D' ->
    0 <= nrows D /\ nrows D = ncols D /\ rescaled_matrix c E D D'.
  Proof.
    intros Hn Hv HL ED ED'. destruct (C89_matrices Gam Msqrt Minv CG s an lb nu_min nu_max v_min v_max L (opt_L L mx) Hn Hv HL HB c E op op' D HU) as (D2 & ED2 & K); [destruct mx; exact ED|].
    assert (Q : Ok D2 = Ok D') by (rewrite <- ED2, <- ED'; destruct mx; reflexivity). injection Q as ->. exact K.
  Qed.

  Lemma digs_units m m' ev ebs Lv ev' ebs' Lv' : eigh_sound (m_eigh m) -> eigh_sound (m_eigh m') ->
    dig (code_matrices RP CG) (m_eigh m) op an lb nu_min nu_max v_min v_max s L_min L_max = Ok (ev, ebs, Lv) ->
    dig (code_matrices RP CG) (m_eigh m') op' an lb nu_min nu_max v_min v_max s L_min L_max = Ok (ev', ebs', Lv') -> ev' = map (map f) ev /\ Lv = Lv'.
  Proof.
    intros S S' D D'. unfold dig in D, D'. rewrite (units_tame _ _ _ _ HU) in D'.
    refine (dig_units _ _ _ _ _ _ _ _ _ c E _ _ _ _ _ _ _ _ _ _ D D').
    - intros M M' v P v' P'. now apply fiddle_units.
    - intros L mx D0 D0'. apply code_units.
  Qed.

  (** The levels of [c op + E] are c times the levels of [op], plus E. *)
  Theorem C89_levels : forall m m' ev tr Lv s' o ev' tr' Lv' s'' o', eigh_sound (m_eigh m) -> eigh_sound (m_eigh m') ->
    run m op = (Ok (ev, tr, Lv), s', o) -> run m' op' = (Ok (ev', tr', Lv'), s'', o') ->
    Lv' = Lv /\ ev' = map (map (fun x => c * x + E)%R) ev.
  Proof.
    intros m m' ev tr Lv s' o ev' tr' Lv' s'' o' S S' H H'. apply parts in H. apply parts in H'. destruct H as (ebs & s1 & o1 & o2 & D & _). destruct H' as (ebs' & s1' & o1' & o2' & D' & _).
    destruct (digs_units _ _ _ _ _ _ _ _ S S' D D') as (-> & ->). auto.
  Qed.

  (** The list of levels: with a fitted scale and the lowest level subtracted, or a
      Hamiltonian without added constant, only its heading differs. *)
  Theorem C89_listing : forall m m' ev Lv s' o ev' Lv' s'' o', eigh_sound (m_eigh m) -> eigh_sound (m_eigh m') ->
    0 < fe \/ g_eig_num s <= 0 \/ c = 1%R -> g_eig_rel s = true \/ E = 0%R ->
    run m op = (Ok (ev, None, Lv), s', o) -> run m' op' = (Ok (ev', None, Lv'), s'', o') ->
    (0 < fe -> 0 < g_eig_num s -> g_eig_sft s'' = (c * g_eig_sft s')%R) /\
    s'' = w_eig_sft (g_eig_sft s'') s' /\
    (o = [] /\ o' = [] \/ exists low rest, o = eigs_header flt s' low :: rest /\ o' = eigs_header flt s'' (c * low + E) :: rest).
  Proof.
    intros m m' ev Lv s' o ev' Lv' s'' o' S S' HF HZ H H'. apply parts in H. apply parts in H'. destruct H as (ebs & s1 & o1 & o2 & D & H & -> & Q). destruct H' as (ebs' & s1' & o1' & o2' & D' & H' & -> & Q').
    destruct (digs_units _ _ _ _ _ _ _ _ S S' D D') as (-> & <-). destruct Q as (_ & -> & ->). destruct Q' as (_ & -> & ->). rewrite !app_nil_r.
    destruct (stage_units flt c E fe s ev Lv s1 o1 s1' o1' Hc HF HZ H H') as (-> & K).
    assert (G : forall x z, g_eig_sft (w_eig_sft x z) = x) by (intros x z; now destruct z). rewrite G. split; [|split; [reflexivity|exact K]].
    intros F1 F2. replace (0 <? fe) with true by lia. replace (0 <? g_eig_num s) with true by lia. reflexivity.
  Qed.

  (** Both arrays of amplitudes, in terms of the same matrices. *)
  Lemma unit_arrays m m' ev M Lv s' o ev' M' Lv' s'' o' : sound m -> sound m' -> Op_Tame op = true ->
    run m op = (Ok (ev, Some M, Lv), s', o) -> run m' op' = (Ok (ev', Some M', Lv'), s'', o') ->
    ev' = map (map f) ev /\ Lv = Lv' /\ snd M = snd M' /\ fs_Lvals (snd M) = Lv /\
    exists T start dim vec vec', array_blocks M start dim /\ array_blocks M' start dim /\
      (forall L vals, In (L, vals) (combine Lv ev) -> zlen vals = dim L /\ exists A, nrows A = dim L /\
         (forall i j, 0 <= i < nrows A -> 0 <= j < nrows A -> ent A i j = ent A j i) /\
         eigen_decomposition A (map f vals) (vec L) /\ eigen_decomposition A (map f vals) (vec' L)) /\
      (forall L1 L2 n1 n2, In L1 Lv -> In L2 Lv -> 1 <= n1 <= dim L1 -> 1 <= n2 <= dim L2 ->
         element M start L1 n1 L2 n2 = bracket (vec L2) (n2 - 1) T (start L2) (start L1) (vec L1) (n1 - 1) /\
         element M' start L1 n1 L2 n2 = bracket (vec' L2) (n2 - 1) T (start L2) (start L1) (vec' L1) (n1 - 1)).
  Proof.
    intros (R1 & S1 & I1) (R1' & S1' & I1') HT H H'.
    assert (HT' : Op_Tame op' = true) by (rewrite (units_tame _ _ _ _ HU); exact HT).
    destruct (C67_amplitudes flt RP CG (m_eigh m) (m_inv m) (m_junk m) op an lb nu_min nu_max v_min v_max fe fr L_min L_max s ev M Lv s' o R1 S1 I1 HT H)
      as (lo & hi & X & T & start & dim & vec & EH & _ & ET & EL & HA & HD & HM).
    destruct (C67_amplitudes flt RP CG (m_eigh m') (m_inv m') (m_junk m') op' an lb nu_min nu_max v_min v_max fe fr L_min L_max s ev' M' Lv' s'' o' R1' S1' I1' HT' H')
      as (lo' & hi' & X' & T' & start' & dim' & vec' & EH' & _ & ET' & EL' & HA' & HD' & HM').
    apply parts in H. apply parts in H'. destruct H as (ebs & s1 & o1 & o2 & ED & _ & _ & Q). destruct H' as (ebs' & s1' & o1' & o2' & ED' & _ & _ & Q').
    destruct (digs_units _ _ _ _ _ _ _ _ S1 S1' ED ED') as (-> & <-).
    rewrite EH in EH'. injection EH' as <- <-. rewrite ET in ET'. injection ET' as <-.
    destruct Q as (_ & a & fs & EA & -> & _). destruct Q' as (_ & a' & fs' & EA' & -> & _).
    assert (fs = fs') as <-.
    { unfold amp_stage, AmpXspeig in EA, EA'. apply bind_ok in EA. destruct EA as (u & Eu & EA). rewrite Eu in EA'. cbn [bind] in EA'.
      apply bind_ok in EA. destruct EA as (g & Eg & EA). rewrite Eg in EA'. cbn [bind] in EA'.
      repeat (apply bind_ok in EA; destruct EA as (? & _ & EA); try (destruct x as [? ?])). 
      repeat (apply bind_ok in EA'; destruct EA' as (? & _ & EA')).
      repeat match goal with H : (let '(_, _) := ?p in _) = _ |- _ => destruct p end.
      repeat (apply bind_ok in EA; destruct EA as (? & _ & EA)). repeat (apply bind_ok in EA'; destruct EA' as (? & _ & EA')).
      injection EA as _ <-. injection EA' as _ <-. reflexivity. }
    cbn [snd] in *.
    assert (SD : forall L, In L Lv -> start' L = start L /\ dim' L = dim L).
    { intros L I. destruct (HA L) as (G & _); [cbn [snd]; rewrite EL; exact I|]. destruct (HA' L) as (G' & _); [cbn [snd]; rewrite EL; exact I|].
      cbn [snd] in G, G'. rewrite G in G'. injection G' as G1 G2. lia. }
    split; [reflexivity|]. split; [reflexivity|]. split; [reflexivity|]. split; [exact EL|].
    exists T, start, dim, vec, vec'. split; [exact HA|]. split; [|split].
    - intros L I. destruct (SD L ltac:(cbn [snd] in I; rewrite EL in I; exact I)) as (<- & <-). now apply HA'.
    - destruct (C38_Lvals _ _ _ _ _ _ _ _ _ _ _ _ _ ED) as (Hs & HLv & _). pose proof (Dig_valid _ _ _ _ _ _ _ _ _ _ ED) as (Hn & Hv & HL).
      assert (ND : NoDup Lv) by (eapply StronglySorted_NoDup; [|exact Hs]; intros; lia).
      intros L vals I. pose proof (in_combine_l _ _ _ _ I) as IL.
      destruct (HD L IL) as (XL & H & v & _ & _ & _ & EM & NH & Iv & D). destruct (HD' L IL) as (XL' & H' & v' & _ & _ & _ & EM' & NH' & Iv' & D').
      destruct (code_units L None H H' Hn Hv ltac:(cbn; apply HLv in IL; lia) EM EM') as (_ & Sq & RM).
      pose proof (combine_fun _ _ _ _ _ ND I Iv) as <-.
      assert (v' = map f vals) as ->.
      { rewrite combine_map_r in Iv'. apply in_map_iff in Iv'. destruct Iv' as ([L0 v0] & EQ & I0). injection EQ as -> <-. now rewrite (combine_fun _ _ _ _ _ ND I I0). }
      split; [rewrite (proj1 D); exact NH|]. exists (symmetric_part H'). split; [rewrite <- (proj2 (SD L IL)); exact NH'|]. split; [intros i j _ _; cbn; lra|].
      split; [now apply (rescaled_eigen c E H)|exact D'].
    - intros L1 L2 n1 n2 J1 J2 H1 H2. destruct (SD L1 J1) as (A1 & B1). destruct (SD L2 J2) as (A2 & B2).
      split; [now apply HM|]. specialize (HM' L1 L2 n1 n2 J1 J2). rewrite A1, A2, B1, B2 in HM'. rewrite <- HM' by assumption. unfold element. now rewrite A1, A2.
  Qed.

  Lemma once_units vals n : occurs_once vals n -> occurs_once (map f vals) n.
  Proof.
    intros (B & C). split; [unfold zlen in *; rewrite map_length; exact B|]. unfold zlen in B. rewrite (nth_map_lt f vals _ 0%R 0%R) by lia. rewrite <- C. revert C. generalize (nth (Z.to_nat (n - 1)) vals 0%R). intros x _.
    clear B. induction vals as [|y l IH]; [reflexivity|]. cbn [map count_occ]. rewrite IH. unfold f, unit_change at 1.
    destruct (Req_EM_T _ _) as [E1|E1], (Req_EM_T y x) as [E2|E2]; try reflexivity; exfalso; [apply E2|apply E1]; unfold unit_change in *; [|now subst].
    apply (Rmult_eq_reg_l c); lra.
  Qed.

  (** Strengths between levels, and amplitudes but for their sign, do not depend on
      the unit or the zero. *)
  Theorem C89_transitions : forall m m' ev M Lv s' o ev' M' Lv' s'' o', sound m -> sound m' -> Op_Tame op = true ->
    run m op = (Ok (ev, Some M, Lv), s', o) -> run m' op' = (Ok (ev', Some M', Lv'), s'', o') ->
    exists start dim, array_blocks M start dim /\ array_blocks M' start dim /\
      forall L1 L2 vals1 vals2, In (L1, vals1) (combine Lv ev) -> In (L2, vals2) (combine Lv ev) ->
        let change := fun x => (c * x + E)%R in
        (forall x1 x2, level_strength M' start L1 (map change vals1) (change x1) L2 (map change vals2) (change x2) = level_strength M start L1 vals1 x1 L2 vals2 x2) /\
        (forall n1 n2, occurs_once vals1 n1 -> occurs_once vals2 n2 -> Rabs (element M' start L1 n1 L2 n2) = Rabs (element M start L1 n1 L2 n2)).
  Proof.
    intros m m' ev M Lv s' o ev' M' Lv' s'' o' S S' HT H H'.
    destruct (unit_arrays _ _ _ _ _ _ _ _ _ _ _ _ S S' HT H H') as (_ & _ & _ & _ & T & start & dim & vec & vec' & HA & HA' & HD & HM).
    exists start, dim. split; [exact HA|]. split; [exact HA'|]. intros L1 L2 vals1 vals2 J1 J2 change. change change with f.
    destruct (HD _ _ J1) as (Z1 & A1 & N1 & Y1 & D1 & D1'). destruct (HD _ _ J2) as (Z2 & A2 & N2 & Y2 & D2 & D2'). split.
    - intros x1 x2.
      pose proof (same_strength A1 A2 (map f vals1) (map f vals2) (vec L1) (vec L2) (vec' L1) (vec' L2) T (start L2) (start L1) (f x1) (f x2) Y1 Y2 D1 D1' D2 D2') as SS.
      assert (Inj : forall x y, f x = f y <-> x = y) by (intros x y; unfold f, unit_change; split; [intros Q; apply (Rmult_eq_reg_l c); lra|now intros ->]).
      transitivity (level_strength M start L1 (map f vals1) (f x1) L2 (map f vals2) (f x2)).
      + assert (G : forall (Y : block_array) (B : Z -> Z -> R), (forall k1 k2, 0 <= k1 < dim L1 -> 0 <= k2 < dim L2 -> element Y start L1 (k1 + 1) L2 (k2 + 1) = B k2 k1) ->
          level_strength Y start L1 (map f vals1) (f x1) L2 (map f vals2) (f x2)
          = total (fun k1 => total (fun k2 => at_level (map f vals1) (f x1) k1 * at_level (map f vals2) (f x2) k2 * B k2 k1 ^ 2)%R (nrows A2)) (nrows A1)).
        { intros Y B HY. unfold level_strength. replace (zlen (map f vals1)) with (nrows A1) by (unfold zlen in *; rewrite map_length; congruence).
          replace (zlen (map f vals2)) with (nrows A2) by (unfold zlen in *; rewrite map_length; congruence).
          apply total_ext. intros k1 Hk1. apply total_ext. intros k2 Hk2. rewrite HY by congruence.
          unfold at_level. destruct (Req_EM_T _ (f x1)), (Req_EM_T _ (f x2)); ring. }
        rewrite (G M (fun k2 k1 => bracket (vec L2) k2 T (start L2) (start L1) (vec L1) k1)), (G M' (fun k2 k1 => bracket (vec' L2) k2 T (start L2) (start L1) (vec' L1) k1)); [symmetry; exact SS| |];
          intros k1 k2 H1 H2; destruct (HM L1 L2 (k1 + 1) (k2 + 1) (in_combine_l _ _ _ _ J1) (in_combine_l _ _ _ _ J2) ltac:(lia) ltac:(lia)) as (F & F').
        * rewrite F'. f_equal; lia.
        * rewrite F. f_equal; lia.
      + unfold level_strength. replace (zlen (map f vals1)) with (zlen vals1) by (unfold zlen; now rewrite map_length). replace (zlen (map f vals2)) with (zlen vals2) by (unfold zlen; now rewrite map_length).
        apply total_ext. intros k1 Hk1. apply total_ext. intros k2 Hk2. unfold zlen in Hk1, Hk2.
        rewrite (nth_map_lt f vals1 _ 0%R 0%R), (nth_map_lt f vals2 _ 0%R 0%R) by lia.
        destruct (Req_EM_T (f (nth (Z.to_nat k1) vals1 0%R)) (f x1)) as [Q1|Q1], (Req_EM_T (nth (Z.to_nat k1) vals1 0%R) x1) as [Q2|Q2]; rewrite Inj in Q1; try contradiction; [|reflexivity].
        destruct (Req_EM_T (f (nth (Z.to_nat k2) vals2 0%R)) (f x2)) as [Q3|Q3], (Req_EM_T (nth (Z.to_nat k2) vals2 0%R) x2) as [Q4|Q4]; rewrite Inj in Q3; try contradiction; reflexivity.
    - intros n1 n2 O1 O2. pose proof (proj1 O1) as B1. pose proof (proj1 O2) as B2. rewrite Z1 in B1. rewrite Z2 in B2.
      destruct (HM L1 L2 n1 n2 (in_combine_l _ _ _ _ J1) (in_combine_l _ _ _ _ J2) B1 B2) as (-> & ->).
      destruct (same_amplitude A1 A2 (map f vals1) (map f vals2) (vec L1) (vec L2) (vec' L1) (vec' L2) T (start L2) (start L1) (n1 - 1) (n2 - 1) Y1 Y2 D1 D1' D2 D2' ltac:(lia) ltac:(lia)
        (once_simple _ _ (once_units _ _ O1)) (once_simple _ _ (once_units _ _ O2))) as [-> | ->]; [reflexivity|symmetry; apply Rabs_Ropp].
  Qed.

  Lemma shows_frame M Lv z z' o : shows flt fr s M Lv z = (Ok tt, z', o) -> g_eig_sft z' = g_eig_sft z /\ g_low_pre z' = g_low_pre z /\ g_eig_rel z' = g_eig_rel z.
  Proof.
    intros Q. unfold shows in Q. apply pbind_inv in Q. destruct Q as [([] & s2 & o3 & o4 & Q1 & Q & _) | (e & _ & X)]; [|discriminate].
    assert (z' = s2) as ->.
    { apply pbind_inv in Q. destruct Q as [([] & s3 & o5 & o6 & Q2 & Q & _) | (e & _ & X)]; [|discriminate].
      assert (s3 = s2) as -> by (pose proof (keeps_Show_Rats flt M (Some (g_rat_lst s)) (Some (g_rat_num s)) s2) as K; rewrite Q2 in K; exact K).
      pose proof (keeps_Show_Amps flt M (Some (g_amp_lst s)) (Some (g_amp_num s)) s2) as K. rewrite Q in K. exact K. }
    destruct (0 <? fr); [|unfold pret in Q1; injection Q1 as <- _; auto].
    unfold fit_rates in Q1. unfold pbind at 1, pget at 1 in Q1.
    destruct (mem (g_rat_L1 z) Lv); [|discriminate]. destruct (mem (g_rat_L2 z) Lv); [|discriminate]. unfold pbind, praise, passign, pret in Q1. cbn [negb raise_if] in Q1.
    destruct (get_block _ _ _ _) as [B|]; [|discriminate]. destruct (np_get B _ _) as [x|]; [|discriminate]. destruct (g_rat_fun z _ _ _ x) as [r|]; [|discriminate].
    destruct (Req_EM_T _ 0); [discriminate|]. destruct (g_amp_sft_fun z _) as [y|]; [|discriminate]. injection Q1 as <- _. now destruct z.
  Qed.

  (** If no level occurs twice, the rest of the report is the same too. *)
  Theorem C89_report : forall m m' ev M Lv s' o ev' M' Lv' s'' o', sound m -> sound m' -> Op_Tame op = true ->
    0 < fe \/ g_eig_num s <= 0 \/ c = 1%R -> g_eig_rel s = true \/ E = 0%R ->
    (forall vals, In vals ev -> NoDup vals) ->
    (g_rat_lst s <> [] \/ 0 < fr -> ignores_sign (g_rat_fun s)) -> (g_amp_lst s <> [] -> ignores_sign (g_amp_fun s)) ->
    run m op = (Ok (ev, Some M, Lv), s', o) -> run m' op' = (Ok (ev', Some M', Lv'), s'', o') ->
    (0 < fe -> 0 < g_eig_num s -> g_eig_sft s'' = (c * g_eig_sft s')%R) /\
    s'' = w_eig_sft (g_eig_sft s'') s' /\
    (o = o' \/ exists low rest, o = eigs_header flt s' low :: rest /\ o' = eigs_header flt s'' (c * low + E) :: rest).
  Proof.
    intros m m' ev M Lv s' o ev' M' Lv' s'' o' S S' HT HF HZ ND HR HP H H'.
    destruct (unit_arrays _ _ _ _ _ _ _ _ _ _ _ _ S S' HT H H') as (-> & <- & ES & EL & T & start & dim & vec & vec' & HA & HA' & HD & HM).
    apply parts in H. apply parts in H'. destruct H as (ebs & s1 & o1 & o2 & ED & EE & -> & Q). destruct H' as (ebs' & s1' & o1' & o2' & ED' & EE' & -> & Q').
    destruct (stage_units flt c E fe s ev Lv s1 o1 s1' o1' Hc HF HZ EE EE') as (-> & K).
    destruct Q as (NE & a & fs & _ & _ & Q). destruct Q' as (_ & a' & fs' & _ & _ & Q').
    assert (Pos : forall Y z s' o2, shows flt fr s Y Lv z = (Ok tt, s', o2) -> (nrows (fst Y) =? 0) = false).
    { clear - NE. intros Y z s' o2 Q. unfold shows in Q.
      apply pbind_inv in Q. destruct Q as [([] & s2 & o3 & o4 & _ & Q & _) | (e & _ & X)]; [|discriminate].
      apply pbind_inv in Q. destruct Q as [([] & s3 & o5 & o6 & Q2 & Q & _) | (e & _ & X)]; [|discriminate].
      unfold Show_Rats in Q2. unfold Show_Amps in Q. unfold pbind at 1, pget in Q2. unfold pbind at 1, pget in Q. cbn [default] in Q, Q2.
      destruct (nrows (fst Y) =? 0) eqn:N0; [exfalso|reflexivity].
      unfold Show_Mels in Q, Q2. rewrite N0 in Q, Q2. destruct (g_rat_lst s) as [|d l]; [|discriminate]. destruct (g_amp_lst s) as [|d l]; [|discriminate]. discriminate. }
    assert (AL : alike M M').
    { split; [exact ES|]. split; [rewrite (Pos _ _ _ _ Q), (Pos _ _ _ _ Q'); reflexivity|]. intros L1 L2 J1 J2.
      do 2 eexists. split; [exact (block_val M start dim HA L1 L2 J1 J2)|]. rewrite ES in J1, J2. split; [exact (block_val M' start dim HA' L1 L2 J1 J2)|].
      rewrite <- ES, EL in J1, J2. cbn [nrows ncols ent]. split; [reflexivity|]. split; [reflexivity|]. intros i j Hi Hj.
      destruct (C38_Lvals _ _ _ _ _ _ _ _ _ _ _ _ _ ED) as (_ & _ & LE & _).
      destruct (combine_in_l Lv ev L1 (eq_sym LE) J1) as (v1 & I1). destruct (combine_in_l Lv ev L2 (eq_sym LE) J2) as (v2 & I2).
      destruct (HD _ _ I1) as (Z1 & A1 & N1 & Y1 & D1 & D1'). destruct (HD _ _ I2) as (Z2 & A2 & N2 & Y2 & D2 & D2').
      pose proof (once_simple _ (j + 1) (once_units _ _ (nodup_once v1 (j + 1) (ND _ (in_combine_r _ _ _ _ I1)) ltac:(lia)))) as O1.
      pose proof (once_simple _ (i + 1) (once_units _ _ (nodup_once v2 (i + 1) (ND _ (in_combine_r _ _ _ _ I2)) ltac:(lia)))) as O2.
      destruct (HM L1 L2 (j + 1) (i + 1) J1 J2 ltac:(lia) ltac:(lia)) as (F & F'). unfold element in F, F'.
      replace (start L2 + (i + 1) - 1) with (start L2 + i) in F, F' by lia. replace (start L1 + (j + 1) - 1) with (start L1 + j) in F, F' by lia. rewrite F, F'.
      apply (same_amplitude A1 A2 (map f v1) (map f v2)); (assumption || lia). }
    assert (RS : rescaled s s1) by (pose proof (rescales_eig_stage flt fe s ev Lv s) as R0; rewrite EE in R0; exact R0).
    set (k := ((if (0 <? fe) && (0 <? g_eig_num s) then c else 1) * g_eig_sft s1)%R) in *.
    assert (SH : shows flt fr s M Lv s1 = shows flt fr s M' Lv s1).
    { unfold shows.
      assert (F1 : (if 0 <? fr then fit_rates M Lv else pret tt) s1 = (if 0 <? fr then fit_rates M' Lv else pret tt) s1).
      { destruct (0 <? fr) eqn:Fr; [|reflexivity]. apply fit_same; [exact AL|exact EL|].
        destruct RS as (x & y & z & ->). replace (g_rat_fun _) with (g_rat_fun s) by (now destruct s). apply HR. right. lia. }
      unfold pbind at 1. rewrite F1. unfold pbind at 2. destruct ((if 0 <? fr then fit_rates M' Lv else pret tt) s1) as [[[[]|e] s2] o3] eqn:F2; [|reflexivity].
      assert (RS2 : rescaled s s2).
      { eapply rescaled_trans; [exact RS|]. destruct (0 <? fr); [|unfold pret in F2; injection F2 as <- _; apply rescaled_refl].
        pose proof (rescales_fit_rat M' Lv s1) as K0. rewrite F2 in K0. exact K0. }
      assert (FR : Show_Rats flt M (Some (g_rat_lst s)) (Some (g_rat_num s)) s2 = Show_Rats flt M' (Some (g_rat_lst s)) (Some (g_rat_num s)) s2).
      { unfold Show_Rats, pbind, pget. cbn [default]. destruct (g_rat_lst s) as [|d l] eqn:GL; [reflexivity|].
        rewrite (mels_same flt M M' (g_rat_fun s2)); [reflexivity|exact AL|].
        destruct RS2 as (x & y & z & ->). replace (g_rat_fun _) with (g_rat_fun s) by (now destruct s). apply HR. left. congruence. }
      unfold pbind. rewrite FR. destruct (Show_Rats flt M' _ _ s2) as [[[[]|e] s3] o4] eqn:F3; [|reflexivity].
      assert (s3 = s2) as -> by (pose proof (keeps_Show_Rats flt M' (Some (g_rat_lst s)) (Some (g_rat_num s)) s2) as K0; rewrite F3 in K0; exact K0).
      assert (FA : Show_Amps flt M (Some (g_amp_lst s)) (Some (g_amp_num s)) s2 = Show_Amps flt M' (Some (g_amp_lst s)) (Some (g_amp_num s)) s2).
      { unfold Show_Amps, pbind, pget. cbn [default]. destruct (g_amp_lst s) as [|d l] eqn:GL; [reflexivity|].
        rewrite (mels_same flt M M' (g_amp_fun s2)); [reflexivity|exact AL|].
        destruct RS2 as (x & y & z & ->). replace (g_amp_fun _) with (g_amp_fun s) by (now destruct s). apply HP. congruence. }
      rewrite FA. reflexivity. }
    assert (BL : blind k (shows flt fr s M' Lv)).
    { unfold shows. apply blind_bind; [destruct (0 <? fr); [apply blind_fit_rates|apply blind_pret]|intros _]. apply blind_bind; [apply blind_Show_Rats|intros _]. apply blind_Show_Amps. }
    rewrite BL, <- SH, Q in Q'. injection Q' as <- <-.
    assert (G : forall x z, g_eig_sft (w_eig_sft x z) = x) by (intros x z; now destruct z). rewrite G.
    assert (FX : g_eig_sft s' = g_eig_sft s1 /\ g_low_pre s' = g_low_pre s1 /\ g_eig_rel s' = g_eig_rel s1) by (exact (shows_frame _ _ _ _ _ Q)).
    destruct FX as (FX1 & FX2 & FX3).
    split; [|split; [reflexivity|]].
    - intros F1 F2. unfold k. replace (0 <? fe) with true by lia. replace (0 <? g_eig_num s) with true by lia. cbn [andb]. now rewrite FX1.
    - destruct K as [(-> & ->) | (low & rest & -> & ->)]; [now left|]. right. exists low, (rest ++ o2). cbn [app]. unfold eigs_header. rewrite FX1, FX2, FX3.
      assert (G1 : forall x z, g_low_pre (w_eig_sft x z) = g_low_pre z) by (intros x z; now destruct z).
      assert (G2 : forall x z, g_eig_rel (w_eig_sft x z) = g_eig_rel z) by (intros x z; now destruct z).
      rewrite !G, !G1, !G2, FX2, FX3. split; reflexivity.
  Qed.
End Runs.

(** ** Cases *)

Section Case.
  Variable flt : text -> R -> text.
  Variables (Gam : R -> R) (Msqrt Minv : mat R -> res (mat R)) (CG : Z -> Z -> Z -> Z -> Z -> Z -> Z -> Z -> Z -> res R).
  Let RP := RadProd (Rep_elem Gam Msqrt Minv).
  Let RepX := code_matrices RP CG.

  (** [2 weight + 3]. *)
  Definition weight' : OperatorSum := [(CNum 2, [ORad Radial_S0]); (CNum 3, [])].
  Lemma weight_units : in_units 2 3 weight weight'.
  Proof. apply iu_term; [intros; cbn; ring|]. apply (iu_new 2 0); [ring|]. apply iu_nil. Qed.
  Lemma weight_bases (s : settings) : g_lam_fun s = lambda_acm_fun -> positive_bases s (5 / 2) 0 0.
  Proof. intros HL v Hv. exists 0. rewrite HL. replace v with 0 by lia. split; [reflexivity|lra]. Qed.
  Lemma weight'_matrix (s : settings) : g_lam_fun s = lambda_acm_fun ->
    exists D, RepX s weight' 1 (5 / 2) 0 1 0 0 0 None = Ok D /\ nrows D = 2 /\ ncols D = 2 /\
      forall i j, 0 <= i < 2 -> 0 <= j < 2 -> ent D i j = if i =? j then (if i =? 0 then 11 / 2 else 15 / 2)%R else 0%R.
  Proof.
    intros HL. destruct (weight_matrix Gam Msqrt Minv CG s HL) as (D & ED & D1 & D2 & DV).
    destruct (C89_matrices Gam Msqrt Minv CG s 1 (5 / 2) 0 1 0 0 0 0 ltac:(lia) ltac:(lia) ltac:(lia) (weight_bases s HL) 2 3 weight weight' D weight_units ED) as (D' & ED' & _ & _ & S1 & S2 & HE).
    exists D'. split; [exact ED'|]. split; [congruence|]. split; [congruence|]. intros i j Hi Hj. rewrite HE by lia. rewrite DV by assumption.
    destruct (two_cases i Hi) as [-> | ->], (two_cases j Hj) as [-> | ->]; cbn [Z.eqb Pos.eqb]; lra.
  Qed.

  (** A run without transitions that fits the second level. *)
  Definition list_settings : settings := w_eig_L 0 (w_eig_idx 2 (w_eig_fit 4 imported)).
  Lemma list_run op D x y : Op_Tame op = true -> RepX list_settings op 1 (5 / 2) 0 1 0 0 0 None = Ok D -> nrows D = 2 -> ncols D = 2 ->
    (forall i j, 0 <= i < 2 -> 0 <= j < 2 -> ent D i j = if i =? j then (if i =? 0 then x else y) else 0%R) -> (x < y)%R ->
    let s' := w_eig_sft ((y - x) / 4) list_settings in
    run_on flt RP CG (choosing 1 1 0) op 1 (5 / 2) 0 1 0 0 1 0 0 None list_settings
    = (Ok ([[x; y]], None, [0]), s', [eigs_header flt s' x; values_line flt s' 4 x 0 [x; y]]).
  Proof.
    intros HTame ED D1 D2 DV Hxy s'. set (m := choosing 1 1 0).
    assert (EE : Eigenfiddle (m_eigh m) D = Ok ([x; y], two_by_two 1 1 0)).
    { destruct (C47_symmetrised eigh0 D ltac:(congruence)) as (A & EA & A1 & A2 & A3 & A4 & _).
      assert (E0 : eigh0 A = Ok ([x; y], eye (nrows A))).
      { apply eigh0_diagonal; [rewrite A1, D1; reflexivity| |repeat (apply SSorted_cons || apply SSorted_nil || apply Forall_cons || apply Forall_nil); lra].
        intros i j Hi Hj. rewrite A1, D1 in Hi, Hj. rewrite A4, !DV by assumption.
        destruct (two_cases i Hi) as [-> | ->], (two_cases j Hj) as [-> | ->]; cbn [Z.eqb Pos.eqb]; change (nth (Z.to_nat 0) [x; y] 0%R) with x; change (nth (Z.to_nat 1) [x; y] 0%R) with y; lra. }
      unfold Eigenfiddle in EA |- *. replace (nrows D =? ncols D) with true in EA |- * by lia. cbn [negb raise_if bind] in EA |- *.
      set (B := mscale _ _) in *. rewrite E0 in EA. cbn [m choosing m_eigh]. rewrite EA.
      replace (nrows B =? 2) with true by (cbn; lia). destruct (Req_EM_T 0 0); [reflexivity|lra]. }
    assert (DI : dig RepX (m_eigh m) op 1 (5 / 2) 0 1 0 0 list_settings 0 None = Ok ([[x; y]], [two_by_two 1 1 0], [0])).
    { assert (G : forall (F : Z -> option Z -> res (mat R)) (Eg : mat R -> res (list R * mat R)) P, F 0 None = Ok D -> Eg D = Ok ([x; y]%R, P) ->
        DigXspace F Eg true 0 1 0 0 0 None = Ok ([[x; y]], [P], [0])).
      { intros F Eg P F1 F2. unfold DigXspace. rewrite !require_range_ok by lia. cbn [bind]. change (py_range 0 (0 + 1)) with [0]. cbn [dig_tame].
        change (dimSO5r3_rngV 0 0 0) with (Ok 1). cbn [bind Z.ltb Z.compare]. rewrite F1. cbn [bind]. rewrite F2. reflexivity. }
      unfold dig. rewrite HTame. now apply G. }
    unfold run_on. rewrite run_stages. fold RepX. change (checks 0 1 0 0 1 0 list_settings 0 None) with (Ok tt). cbn [bind]. rewrite DI, pbind_ok.
    assert (ES : eig_stage flt 1 list_settings [[x; y]] [0] list_settings = (Ok tt, s', [eigs_header flt s' x; values_line flt s' 4 x 0 [x; y]])).
    { unfold eig_stage. change (0 <? g_eig_num list_settings) with true. change (0 <? 1) with true. cbv iota.
      assert (F : fit_eigenvalues [[x; y]] [0] list_settings = (Ok tt, s', [])).
      { unfold fit_eigenvalues, pbind, pget, praise, passign, pret. change (g_eig_rel list_settings) with true. cbv iota. change (min_head [[x; y]]) with (Ok x).
        change (g_eig_L list_settings) with 0. change (g_eig_idx list_settings) with 2. change (g_eig_fit list_settings) with 4%R.
        change (negb (mem 0 [0])) with false. cbn [raise_if combine find Z.eqb]. change (py_get [x; y] (2 - 1)) with (Ok y). cbv iota beta.
        destruct (Req_EM_T ((y - x) / 4) 0) as [Q|_]; [exfalso; lra|]. reflexivity. }
      unfold pbind at 1. rewrite F.
      destruct (C62_shown flt [[x; y]] [0] 4 None None s' x ltac:(lia) ltac:(discriminate) Logic.I) as (keep & HK & SH); [exists 0; split; [now left|cbn; lia]|reflexivity|].
      change (g_eig_num list_settings) with 4. unfold pbind. rewrite SH. unfold pret. cbn [app combine filter]. replace (keep (0, [x; y])) with true; [reflexivity|]. symmetry. apply HK. cbn. lia. }
    unfold pbind at 1. rewrite ES. unfold pbind at 1, rat_stage. change ((0 <? zlen (g_rat_lst list_settings)) || (0 <? zlen (g_amp_lst list_settings))) with false. reflexivity.
  Qed.

  (** Two runs that meet the hypotheses of [C89_levels] and [C89_listing]. *)
  Example C89_listing_case : exists s s' s'' rest,
    eigh_sound (m_eigh (choosing 1 1 0)) /\ in_units 2 3 weight weight' /\ positive_bases s (5 / 2) 0 0 /\ g_eig_rel s = true /\ 0 < g_eig_num s /\
    run_on flt RP CG (choosing 1 1 0) weight 1 (5 / 2) 0 1 0 0 1 0 0 None s = (Ok ([[5 / 4; 9 / 4]]%R, None, [0]), s', eigs_header flt s' (5 / 4) :: rest) /\
    run_on flt RP CG (choosing 1 1 0) weight' 1 (5 / 2) 0 1 0 0 1 0 0 None s = (Ok ([[11 / 2; 15 / 2]]%R, None, [0]), s'', eigs_header flt s'' (11 / 2) :: rest) /\
    g_eig_sft s' = (1 / 4)%R /\ g_eig_sft s'' = (1 / 2)%R /\ length rest = 1%nat.
  Proof.
    set (s := list_settings).
    destruct (weight_matrix Gam Msqrt Minv CG s eq_refl) as (D & ED & D1 & D2 & DV). destruct (weight'_matrix s eq_refl) as (D' & ED' & D1' & D2' & DV').
    pose proof (list_run weight D _ _ eq_refl ED D1 D2 DV ltac:(lra)) as R1. pose proof (list_run weight' D' _ _ eq_refl ED' D1' D2' DV' ltac:(lra)) as R2. cbv zeta in R1, R2.
    assert (S : sound (choosing 1 1 0)) by (apply choosing_sound; lra). destruct S as (_ & S & _).
    destruct (C89_listing flt Gam Msqrt Minv CG 2 3 weight weight' 1 (5 / 2) 0 1 0 0 1 0 0 None s ltac:(lra) weight_units (weight_bases s eq_refl) _ _ _ _ _ _ _ _ _ _ S S
      ltac:(left; lia) ltac:(left; reflexivity) R1 R2) as (_ & _ & [(Q & _) | (low & rest & Q1 & Q2)]); [discriminate|].
    exists s. do 2 eexists. eexists. split; [exact S|]. split; [exact weight_units|]. split; [now apply weight_bases|]. split; [reflexivity|]. split; [reflexivity|].
    split; [exact R1|]. split; [|split; [|split; [|reflexivity]]].
    - injection Q1 as _ Q1. injection Q2 as _ Q2. rewrite Q1, <- Q2. exact R2.
    - cbn. field.
    - cbn. field.
  Qed.

  (** Two runs that meet the hypotheses of [C89_transitions] and [C89_report], with
      different routines. *)
  Example C89_report_case : exists s M M' o,
    sound (choosing 1 1 0) /\ sound (choosing 1 (-1) 0) /\ in_units 2 3 weight weight' /\ positive_bases s (5 / 2) 0 0 /\ Op_Tame weight = true /\
    g_eig_num s <= 0 /\ g_eig_rel s = true /\ (forall vals, In vals [[5 / 4; 9 / 4]]%R -> NoDup vals) /\ ignores_sign (g_rat_fun s) /\ g_amp_lst s = [] /\ length o = 2%nat /\
    run_on flt RP CG (choosing 1 1 0) weight 1 (5 / 2) 0 1 0 0 0 0 0 None s = (Ok ([[5 / 4; 9 / 4]]%R, Some M, [0]), s, o) /\
    run_on flt RP CG (choosing 1 (-1) 0) weight' 1 (5 / 2) 0 1 0 0 0 0 0 None s = (Ok ([[11 / 2; 15 / 2]]%R, Some M', [0]), s, o).
  Proof.
    set (s := rate_settings 1 2). destruct (weight_matrix Gam Msqrt Minv CG s eq_refl) as (D & ED & D1 & D2 & DV). destruct (weight'_matrix s eq_refl) as (D' & ED' & D1' & D2' & DV').
    assert (PF : plain_formats s (g_rat_format s) (chars "  B(E2: ") (chars ") = ") []) by (apply imported_formats).
    assert (QR : forall x, g_rat_fun s (g_rat_TRopAM s) 0 0 x = Ok (x ^ 2 * IZR 1 / IZR 1)%R) by (intros; reflexivity).
    destruct (one_run flt Gam Msqrt Minv CG s weight D (5 / 4) (9 / 4) 1 1 0 eq_refl eq_refl eq_refl eq_refl eq_refl ED D1 D2 DV) as (M & start & dim & HA & D0 & EL & NR & EV & RUN); try lra; try (left; reflexivity).
    destruct (one_run flt Gam Msqrt Minv CG s weight' D' (11 / 2) (15 / 2) 1 (-1) 0 eq_refl eq_refl eq_refl eq_refl eq_refl ED' D1' D2' DV') as (M' & start' & dim' & HA' & D0' & EL' & NR' & EV' & RUN'); try lra; try (left; reflexivity).
    specialize (RUN _ (shows_rate flt Gam Msqrt Minv CG s M start dim 1 2 _ HA D0 EL NR PF eq_refl eq_refl ltac:(lia) ltac:(lia) (QR _))).
    specialize (RUN' _ (shows_rate flt Gam Msqrt Minv CG s M' start' dim' 1 2 _ HA' D0' EL' NR' PF eq_refl eq_refl ltac:(lia) ltac:(lia) (QR _))).
    assert (S1 : sound (choosing 1 1 0)) by (apply choosing_sound; lra). assert (S2 : sound (choosing 1 (-1) 0)) by (apply choosing_sound; lra).
    assert (NDs : forall vals, In vals [[5 / 4; 9 / 4]]%R -> NoDup vals) by (intros vals [<- | []]; repeat constructor; cbn; lra).
    assert (EQ : (element M' start' 0 1 0 2 ^ 2 = element M start 0 1 0 2 ^ 2)%R).
    { rewrite EV, EV' by lia. rewrite !total2. unfold two_by_two, v_b2. cbn [ent]. change (1 - 1) with 0. change (2 - 1) with 1. cbn [Z.eqb Pos.eqb Z.sub Z.add Z.opp Pos.add Z.pos_sub Pos.pred_double]. ring. }
    rewrite EQ in RUN'.
    exists s, M, M'. eexists. split; [exact S1|]. split; [exact S2|]. split; [exact weight_units|]. split; [now apply weight_bases|]. split; [reflexivity|]. split; [cbn; lia|]. split; [reflexivity|].
    split; [exact NDs|]. split; [apply C87_rates|]. split; [reflexivity|]. split; [|split; [exact RUN|exact RUN']]. reflexivity.
  Qed.
End Case.

Print Assumptions C89_Hamiltonian.
Print Assumptions C89_RWC.
Print Assumptions C89_matrices.
Print Assumptions C89_levels.
Print Assumptions C89_listing.
Print Assumptions C89_transitions.
Print Assumptions C89_report.
