(** C95: the sum of the levels is linear in the coefficients, and the sum of their
    squares quadratic. *)

From Coq Require Import String Reals Lra Sorted.
From Coq Require Import Lia ZifyBool ZifyNat.
From Verif Require Import PyBase PyFacts Text Compat SphericalSpec Spherical SphericalFacts Matrix RadialMESpec RadialMEFacts IdFacts PropsCGSO3
  FullLabels FullLabelsFacts PropsFullLabels
  Operators FullOps PropsHarmonics FullOpsFacts FullOpsBlocks FullOpsProd PropsHistory FullSpace FullSpaceFacts PropsFullSpace Settings PropsSettings Display DisplayFacts PropsDisplay PropsDriver
  PropsOscillator RadialOps Spectrum PropsCode RadialME RadialWords RadialSums PropsRadialME PropsFullOps Ritz PropsRitz PropsCommutator PropsAmplitude Solver PropsSolver PropsHamWaves PropsUnits PropsStiffer PropsSmooth PropsSeniority.
Open Scope Z_scope.
Ltac Zify.zify_post_hook ::= Z.div_mod_to_equations.

(** ** Statements *)

Definition sum_of (l : list R) : R := fold_right Rplus 0%R l.
Definition squares_of (l : list R) : list R := map (fun E => (E * E)%R) l.
(** The k-th of the fourteen coefficients, counted from 0. *)
Definition coefficient (c : list R) (k : Z) : R := nth (Z.to_nat k) c 0%R.

(** ** Sums of eigenvalues *)

Lemma total_list (g : R -> R) (l : list R) : total (fun k => g (nth (Z.to_nat k) l 0%R)) (zlen l) = sum_of (map g l).
Proof.
  unfold total, zlen. rewrite Nat2Z.id. apply (rsum_of_list g). intros j a Hj E. f_equal. now apply nth_error_nth.
Qed.

Lemma eigen_trace A vals P : eigen_decomposition A vals P -> sum_of vals = total (fun i => ent A i i) (nrows A).
Proof.
  intros (Hl & Hr & Hc & S & HE & HO). set (n := nrows A) in *. rewrite <- (map_id vals). rewrite <- (total_list (fun E => E)), Hl.
  transitivity (total (fun j => total (fun i => total (fun k => ent A i k * (ent P k j * ent P i j)) n) n)%R n).
  - apply total_ext. intros j Hj. transitivity (total (fun i => nth (Z.to_nat j) vals 0 * (ent P i j * ent P i j))%R n).
    + rewrite total_scal. destruct (HO j j Hj Hj) as (-> & _). rewrite Z.eqb_refl. ring.
    + apply total_ext. intros i Hi. rewrite <- Rmult_assoc, <- HE by assumption. rewrite <- total_scal_r. apply total_ext. intros; ring.
  - rewrite total_swap. apply total_ext. intros i Hi. rewrite total_swap.
    rewrite (total_ext _ (fun k => ent A i k * (if k =? i then 1 else 0))%R); [now apply total_delta|]. intros k Hk. rewrite total_scal. now destruct (HO k i Hk Hi) as (_ & ->).
Qed.

Lemma eigen_squares A vals P : eigen_decomposition A vals P -> sum_of (squares_of vals) = total (fun i => total (fun j => ent A i j * ent A i j)%R (nrows A)) (nrows A).
Proof.
  intros D. assert (PV : forall i, total (fun j => total (fun k => ent A i k * ent P k j) (nrows A) * total (fun k => ent A i k * ent P k j) (nrows A))%R (nrows A) = total (fun k => ent A i k * ent A i k)%R (nrows A))
    by (intros i; apply (parseval A vals P (fun k => ent A i k) D)).
  destruct D as (Hl & Hr & Hc & S & HE & HO). set (n := nrows A) in *. unfold squares_of. rewrite <- (total_list (fun E => (E * E)%R)), Hl.
  transitivity (total (fun i => total (fun j => total (fun k => ent A i k * ent P k j) n * total (fun k => ent A i k * ent P k j) n)%R n) n); [|apply total_ext; intros i _; apply PV].
  rewrite total_swap. apply total_ext. intros j Hj. transitivity (total (fun i => nth (Z.to_nat j) vals 0 * nth (Z.to_nat j) vals 0 * (ent P i j * ent P i j))%R n).
  - rewrite total_scal. destruct (HO j j Hj Hj) as (-> & _). rewrite Z.eqb_refl. ring.
  - apply total_ext. intros i Hi. rewrite HE by assumption. ring.
Qed.

Lemma dot_total c e : length c = 14%nat -> length e = 14%nat -> dot c e = total (fun k => coefficient c k * nth (Z.to_nat k) e 0)%R 14.
Proof.
  intros H H'. do 14 (destruct c as [|? c]; [discriminate|]). destruct c; [|discriminate]. do 14 (destruct e as [|? e]; [discriminate|]). destruct e; [|discriminate].
  unfold total, coefficient. change (Z.to_nat 14) with 14%nat. cbn [rsum dot Z.of_nat Pos.of_succ_nat Pos.succ]. 
  repeat match goal with |- context [Z.to_nat ?z] => let v := eval vm_compute in (Z.to_nat z) in change (Z.to_nat z) with v end. cbn [nth]. ring.
Qed.

(** ** Levels *)

(** For every space, basis and angular momentum there are fourteen numbers that give
    the sum of the levels, and a symmetric table of numbers that gives the sum of their
    squares, whatever the coefficients are. *)
Theorem C95_moments : forall Gam Msqrt Minv CG an lb nu_min nu_max v_min v_max s L, exists (tau : Z -> R) (q : Z -> Z -> R),
  (forall k l, q k l = q l k) /\ (forall k, (0 <= q k k)%R) /\
  forall flt eigh inv junk c fit_eig fit_rat L_min L_max ev tr Lv s1 o vals, eigh_sound eigh -> length c = 14%nat ->
  ACM_ScaleOrAdapt flt (code_matrices (RadProd (Rep_elem Gam Msqrt Minv)) CG) eigh inv junk (ham c) an lb nu_min nu_max v_min v_max fit_eig fit_rat L_min L_max s
    = (Ok (ev, tr, Lv), s1, o) -> In (L, vals) (combine Lv ev) ->
  sum_of vals = total (fun k => coefficient c k * tau k)%R 14 /\
  sum_of (squares_of vals) = total (fun k => total (fun l => coefficient c k * coefficient c l * q k l)%R 14) 14.
Proof.
  intros Gam Msqrt Minv CG an lb nu_min nu_max v_min v_max s L.
  set (X := xlbs nu_min nu_max v_min v_max L (default L (Some L))).
  set (T := fun k i j => nth (Z.to_nat k) (match nth_error X (Z.to_nat j) with Some x => term_entries Gam Msqrt Minv CG s an lb nu_min nu_max v_min v_max L L x i j | None => [] end) 0%R).
  set (Y := fun k i j => ((T k i j + T k j i) / 2)%R). set (n := zlen X).
  exists (fun k => total (fun i => Y k i i) n), (fun k l => total (fun i => total (fun j => Y k i j * Y l i j)%R n) n). split; [|split].
  - intros k l. apply total_ext. intros i _. apply total_ext. intros j _. ring.
  - intros k. unfold total. apply HamWaves.rsum_nonneg. intros i _. apply rsum_square_nonneg.
  - intros flt eigh inv junk c fe fr L_min L_max ev tr Lv s1 o vals HE HC RUN I.
    destruct (one_block _ _ _ _ _ _ _ _ _ _ _ _ _ _ _ _ _ _ _ _ _ _ _ _ _ HE (ham_tame _ _ _ _ _ _ _ _ _ _ _ _ _ _) RUN I) as (Hn & Hv & HL & _ & M & EM & Sq & P & DEC).
    pose proof (lbsXspace_ok nu_min nu_max v_min v_max L (Some L) Hn Hv ltac:(cbn; lia)) as EX. fold X in EX. set (RP := RadProd (Rep_elem Gam Msqrt Minv)) in *.
    destruct (C54_linear RP CG (g_lam_fun s) an lb nu_min nu_max v_min v_max L L Hn Hv ltac:(lia) (ham c) X EX) as (_ & V). cbv beta in V.
    destruct (V M EM) as (Ms & F & S1 & S2 & HV).
    assert (ME : forall i j, 0 <= i < n -> 0 <= j < n -> ent M i j = total (fun k => coefficient c k * T k i j)%R 14).
    { intros i j Hi Hj. unfold T. destruct (nth_error X (Z.to_nat j)) as [x|] eqn:Ex; [|apply nth_error_None in Ex; unfold n, zlen in *; lia].
      rewrite (HV i j x Hi (proj1 Hj) Ex), (weighted_entry Gam Msqrt Minv CG s an lb nu_min nu_max v_min v_max L L (ham c) Ms x i j F), ham_entry by assumption.
      apply dot_total; [exact HC|]. destruct x as [nu [[v al] L0]]. reflexivity. }
    assert (AE : forall i j, 0 <= i < n -> 0 <= j < n -> ent (symmetric_part M) i j = total (fun k => coefficient c k * Y k i j)%R 14).
    { intros i j Hi Hj. cbn [symmetric_part ent]. rewrite (ME i j Hi Hj), (ME j i Hj Hi), <- total_plus. unfold Rdiv. rewrite <- total_scal_r. apply total_ext. intros k _. unfold Y. field. }
    assert (NA : nrows (symmetric_part M) = n) by exact S1. split.
    + rewrite (eigen_trace _ _ _ DEC), NA. rewrite (total_ext _ (fun i => total (fun k => coefficient c k * Y k i i)%R 14)) by (intros i Hi; now apply AE).
      rewrite total_swap. apply total_ext. intros k _. apply total_scal.
    + rewrite (eigen_squares _ _ _ DEC), NA.
      rewrite (total_ext _ (fun i => total (fun k => total (fun l => coefficient c k * coefficient c l * total (fun j => Y k i j * Y l i j) n) 14) 14)%R).
      * rewrite total_swap. apply total_ext. intros k _. rewrite total_swap. apply total_ext. intros l _. apply total_scal.
      * intros i Hi. rewrite (total_ext _ (fun j => total (fun k => total (fun l => (coefficient c k * Y k i j) * (coefficient c l * Y l i j)) 14) 14)%R) by (intros j Hj; rewrite AE by assumption; apply total_mul).
        rewrite total_swap. apply total_ext. intros k _. rewrite total_swap. apply total_ext. intros l _. rewrite <- total_scal. apply total_ext. intros j _. ring.
Qed.

(** The mean of the levels of a mixture of two Hamiltonians is the mixture of the means. *)
Theorem C95_centroid : forall Gam Msqrt Minv CG an lb nu_min nu_max v_min v_max s L flt flt' flt'' eigh eigh' eigh'' inv inv' inv'' junk junk' junk'' c c' c'' (t t' : R)
  fe fr L_min L_max fe' fr' L_min' L_max' fe'' fr'' L_min'' L_max'' ev tr Lv s1 o ev' tr' Lv' s1' o' ev'' tr'' Lv'' s1'' o'' vals vals' vals'',
  eigh_sound eigh -> eigh_sound eigh' -> eigh_sound eigh'' -> length c = 14%nat -> length c' = 14%nat -> length c'' = 14%nat ->
  (forall k, 0 <= k < 14 -> coefficient c'' k = (t * coefficient c k + t' * coefficient c' k)%R) ->
  let matrices := code_matrices (RadProd (Rep_elem Gam Msqrt Minv)) CG in
  ACM_ScaleOrAdapt flt matrices eigh inv junk (ham c) an lb nu_min nu_max v_min v_max fe fr L_min L_max s = (Ok (ev, tr, Lv), s1, o) -> In (L, vals) (combine Lv ev) ->
  ACM_ScaleOrAdapt flt' matrices eigh' inv' junk' (ham c') an lb nu_min nu_max v_min v_max fe' fr' L_min' L_max' s = (Ok (ev', tr', Lv'), s1', o') -> In (L, vals') (combine Lv' ev') ->
  ACM_ScaleOrAdapt flt'' matrices eigh'' inv'' junk'' (ham c'') an lb nu_min nu_max v_min v_max fe'' fr'' L_min'' L_max'' s = (Ok (ev'', tr'', Lv''), s1'', o'') -> In (L, vals'') (combine Lv'' ev'') ->
  sum_of vals'' = (t * sum_of vals + t' * sum_of vals')%R.
Proof.
  intros Gam Msqrt Minv CG an lb nu_min nu_max v_min v_max s L. intros. destruct (C95_moments Gam Msqrt Minv CG an lb nu_min nu_max v_min v_max s L) as (tau & q & _ & _ & HM).
  destruct (HM flt eigh inv junk c fe fr L_min L_max ev tr Lv s1 o vals) as (-> & _); try assumption.
  destruct (HM flt' eigh' inv' junk' c' fe' fr' L_min' L_max' ev' tr' Lv' s1' o' vals') as (-> & _); try assumption.
  destruct (HM flt'' eigh'' inv'' junk'' c'' fe'' fr'' L_min'' L_max'' ev'' tr'' Lv'' s1'' o'' vals'') as (-> & _); try assumption.
  rewrite <- !total_scal, <- total_plus. apply total_ext. intros k Hk. rewrite (H5 k Hk). ring.
Qed.

(** Three runs that meet the hypotheses, with c'' = 1/2 c + 1/2 c': the sums 7, 14 and
    21/2. *)
Example C95_case : forall Msqrt Minv CG flt inv junk, exists s,
  let run c := ACM_ScaleOrAdapt flt (code_matrices (RadProd (Rep_elem gamma0 Msqrt Minv)) CG) eigh0 inv junk (ham c) 1 (5 / 2) 0 1 0 0 0 0 0 None s in
  let osc k := [- k / 2; 0; k / 2; 0; 0; 0; 0; 0; 0; 0; 0; 0; 0; 0]%R in
  eigh_sound eigh0 /\ (forall k, 0 <= k < 14 -> coefficient (osc (3 / 2)%R) k = (/ 2 * coefficient (osc 1%R) k + / 2 * coefficient (osc 2%R) k)%R) /\
  run (osc 1%R) = (Ok ([[1 * (5 / 2); 1 * (9 / 2)]]%R, None, [0]), s, []) /\ run (osc 2%R) = (Ok ([[2 * (5 / 2); 2 * (9 / 2)]]%R, None, [0]), s, []) /\
  run (osc (3 / 2)%R) = (Ok ([[3 / 2 * (5 / 2); 3 / 2 * (9 / 2)]]%R, None, [0]), s, []).
Proof.
  intros. exists (w_eig_num 0 imported). cbv zeta. split; [exact eigh0_sound|]. split.
  - intros k Hk. unfold coefficient.
    assert (D : k = 0 \/ k = 1 \/ k = 2 \/ k = 3 \/ k = 4 \/ k = 5 \/ k = 6 \/ k = 7 \/ k = 8 \/ k = 9 \/ k = 10 \/ k = 11 \/ k = 12 \/ k = 13) by lia.
    repeat (destruct D as [-> | D]); try subst k; match goal with |- context [Z.to_nat ?z] => let v := eval vm_compute in (Z.to_nat z) in change (Z.to_nat z) with v end; cbn [nth]; lra.
  - split; [|split].
    + exact (oscillator_run Msqrt Minv CG flt inv junk 1 ltac:(lra)).
    + exact (oscillator_run Msqrt Minv CG flt inv junk 2 ltac:(lra)).
    + exact (oscillator_run Msqrt Minv CG flt inv junk (3 / 2) ltac:(lra)).
Qed.

Print Assumptions C95_moments.
Print Assumptions C95_centroid.
