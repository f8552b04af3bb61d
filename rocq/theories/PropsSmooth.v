(** C93: levels depend continuously on the coefficients, at a bounded rate. *)

From Coq Require Import String Reals Lra Sorted.
From Coq Require Import Lia ZifyBool ZifyNat.
From Verif Require Import PyBase PyFacts Text Compat SphericalSpec Spherical SphericalFacts Matrix RadialMESpec RadialMEFacts IdFacts PropsCGSO3
  FullLabels FullLabelsFacts PropsFullLabels
  Operators FullOps PropsHarmonics FullOpsFacts FullOpsBlocks FullOpsProd PropsHistory FullSpace FullSpaceFacts PropsFullSpace Settings PropsSettings Display DisplayFacts PropsDisplay PropsDriver
  PropsOscillator RadialOps Spectrum PropsCode RadialME RadialWords RadialSums PropsRadialME PropsFullOps Ritz PropsRitz PropsCommutator PropsAmplitude Solver PropsSolver PropsHamWaves PropsUnits PropsStiffer.
Open Scope Z_scope.
Ltac Zify.zify_post_hook ::= Z.div_mod_to_equations.

(** ** Statements *)

(** The sum of the changes of the fourteen coefficients. *)
Definition change (c d : list R) : R := fold_right Rplus 0%R (map (fun p => Rabs (snd p - fst p)) (combine c d)).

(** [ACM_Hamiltonian] with fourteen numbers. *)
Definition ham (c : list R) : OperatorSum :=
  let k i := CNum (nth i c 0%R) in
  ACM_Hamiltonian (k 0%nat) (k 1%nat) (k 2%nat) (k 3%nat) (k 4%nat) (k 5%nat) (k 6%nat) (k 7%nat) (k 8%nat) (k 9%nat) (k 10%nat) (k 11%nat) (k 12%nat) (k 13%nat).

(** ** The matrix is linear in the coefficients *)

(** A sum of products. *)
Fixpoint dot (c e : list R) : R := match c, e with x :: c', y :: e' => (x * y + dot c' e')%R | _, _ => 0%R end.

Section Linear.
  Variables (Gam : R -> R) (Msqrt Minv : mat R -> res (mat R)) (CG : Z -> Z -> Z -> Z -> Z -> Z -> Z -> Z -> Z -> res R).
  Let RP := RadProd (Rep_elem Gam Msqrt Minv).
  Variables (s : settings) (an lb : R) (nu_min nu_max v_min v_max L_min L_max : Z).
  Hypothesis Hnu : 0 <= nu_min <= nu_max.
  Hypothesis Hv : 0 <= v_min <= v_max.
  Hypothesis HL : 0 <= L_min <= L_max.
  Let a := mkXA an lb nu_min nu_max v_min v_max L_min L_max.
  Let prod w := fst (RepXspace_Prod RP CG w a (mkX (g_lam_fun s) [])).
  Let rep op := code_matrices RP CG s op an lb nu_min nu_max v_min v_max L_min (Some L_max).

  Definition word_entry (w : OperatorProduct) (i j : Z) : R := match prod w with Ok M => ent M i j | Raise _ => 0%R end.
  Definition op_entry (op : OperatorSum) (x : xlabel) (i j : Z) : R :=
    let '(nu, (v, al, L)) := x in fold_right Rplus 0%R (map (fun t : OperatorTerm => (cval (fst t) nu v al L * word_entry (snd t) i j)%R) op).

  Lemma weighted_entry op Ms x i j : Forall2 (fun t M => prod (snd t) = Ok M) op Ms -> weighted op Ms x i j = op_entry op x i j.
  Proof.
    intros F. destruct x as [nu [[v al] L]]. unfold op_entry, weighted. induction F as [|t M op Ms E F IH]; [reflexivity|].
    destruct t as [k w]. cbn [combine map fold_right fst snd] in *. rewrite IH. assert (W : word_entry w i j = ent M i j) by (unfold word_entry; now rewrite E). now rewrite W.
  Qed.

  (** The entries of the fourteen terms, each with coefficient one. *)
  Definition term_entries (x : xlabel) (i j : Z) : list R :=
    let '(_, (v, _, _)) := x in
    let we w := word_entry w i j in
    let b := ORad Radial_b in let b2 := ORad Radial_b2 in let bm := ORad Radial_bm in let bm2 := ORad Radial_bm2 in let Y := OSph SpHarm_310 in
    [we [ORad Radial_D2b] - (2 + IZR v * (IZR v + 3)) * we [bm2]; we []; we [b2]; we [b2; b2]; we [bm2];
     Convert_310 * we [b; Y]; Convert_310 * we [b2; b; Y]; Convert_310 * we [b2; b2; b; Y]; Convert_310 * we [bm; Y];
     Convert_310 ^ 2 * we [Y; Y]; Convert_310 ^ 2 * we [b2; Y; Y]; Convert_310 ^ 2 * we [b2; b2; Y; Y]; Convert_310 ^ 2 * we [bm2; Y; Y];
     we [Xspace_PiqPi]]%R.

  Lemma ham_entry c x i j : length c = 14%nat -> op_entry (ham c) x i j = dot c (term_entries x i j).
  Proof.
    intros HC. do 14 (destruct c as [|? c]; [discriminate|]). destruct c; [|discriminate].
    unfold ham. cbn [nth]. unfold ACM_Hamiltonian. cbv zeta. destruct x as [nu [[v al] L]]. unfold op_entry, term_entries. cbv zeta. cbn [dot].
    rewrite !map_app, !fold_right_app.
    assert (O : forall k w (q z : R) f, f = (fun t : OperatorTerm => (cval (fst t) nu v al L * word_entry (snd t) i j)%R) ->
      fold_right Rplus z (map f (opt_term (CNum q) (cscale k (CNum q), w))) = (q * (k * word_entry w i j) + z)%R).
    { intros k w q z f ->. change (cscale k (CNum q)) with (CNum (k * q)). unfold opt_term. cbn [is0]. destruct (Req_EM_T q 0) as [->|N]; cbn [map fold_right fst snd cval]; ring. }
    assert (O1 : forall w (q z : R) f, f = (fun t : OperatorTerm => (cval (fst t) nu v al L * word_entry (snd t) i j)%R) ->
      fold_right Rplus z (map f (opt_term (CNum q) (CNum q, w))) = (q * word_entry w i j + z)%R).
    { intros w q z f ->. unfold opt_term. cbn [is0]. destruct (Req_EM_T q 0) as [->|N]; cbn [map fold_right fst snd cval]; ring. }
    rewrite !O, !O1 by reflexivity.
    cbn [is0]. destruct (Req_EM_T r 0) as [->|N]; [cbn [map fold_right]; ring|].
    cbn [map fold_right fst snd cval cscale cmul SEN is0 orb]. destruct (Req_EM_T (-1 * r) 0); [exfalso; lra|]. cbn [orb cval]. ring.
  Qed.
End Linear.

(** ** Bounds *)

Lemma dot_diff c d e : length c = length d -> (Rabs (dot d e - dot c e) <= change c d * fold_right Rplus 0 (map Rabs e))%R.
Proof.
  assert (S : forall l, (0 <= fold_right Rplus 0 (map Rabs l))%R) by (intros l; induction l as [|x l IH]; cbn; [lra|]; pose proof (Rabs_pos x); lra).
  assert (C0 : forall c d, (0 <= change c d)%R).
  { intros u. induction u as [|x u IH]; intros w; [cbn; lra|]. destruct w as [|y w]; [cbn; lra|]. unfold change in *. cbn [combine map fold_right fst snd]. specialize (IH w). pose proof (Rabs_pos (y - x)). lra. }
  revert d e. induction c as [|x c IH]; intros d e E; destruct d as [|y d]; try discriminate.
  - unfold change. cbn. rewrite Rminus_0_r, Rabs_R0. lra.
  - destruct e as [|z e]; cbn [dot map fold_right].
    + rewrite Rminus_0_r, Rabs_R0. specialize (C0 (x :: c) (y :: d)). lra.
    + injection E as E. specialize (IH d e E). specialize (C0 c d). specialize (S e). unfold change in *. cbn [combine map fold_right fst snd] in *.
      replace (y * z + dot d e - (x * z + dot c e))%R with ((y - x) * z + (dot d e - dot c e))%R by ring.
      pose proof (Rabs_triang ((y - x) * z) (dot d e - dot c e)) as T. rewrite Rabs_mult in T. pose proof (Rabs_pos (y - x)). pose proof (Rabs_pos z). nra.
Qed.

Lemma total_abs f n : (Rabs (total f n) <= total (fun i => Rabs (f i)) n)%R.
Proof.
  unfold total. induction (Z.to_nat n) as [|m IH]; cbn [rsum]; [rewrite Rabs_R0; lra|].
  pose proof (Rabs_triang (rsum f m) (f (Z.of_nat m))). lra.
Qed.
Lemma total_le f g n : (forall i, 0 <= i < n -> (f i <= g i)%R) -> (total f n <= total g n)%R.
Proof. intros H. apply rsum_le. intros k Hk. apply H. lia. Qed.

(** Entries bounded by [e g i j], mean values bounded by [e] times the sum of [g]. *)
Lemma mean_bound n (h : Z -> Z -> R) (g : Z -> Z -> R) e x : (0 <= e)%R -> (forall i j, (0 <= g i j)%R) ->
  (forall i j, 0 <= i < n -> 0 <= j < n -> (Rabs (h i j) <= e * g i j)%R) ->
  (Rabs (total (fun i => total (fun j => x i * h i j * x j) n) n) <= e * total (fun i => total (fun j => g i j) n) n * total (fun i => x i * x i) n)%R.
Proof.
  intros He Hg H. set (N := total (fun i => x i * x i)%R n).
  assert (NX : forall i, 0 <= i < n -> (x i * x i <= N)%R).
  { intros i Hi. rewrite <- (total_delta (fun i => x i * x i)%R n i Hi). apply total_le. intros k _. pose proof (Rle_0_sqr (x k)) as Q. unfold Rsqr in Q. destruct (k =? i); lra. }
  eapply Rle_trans; [apply total_abs|]. rewrite (Rmult_comm e), Rmult_assoc, Rmult_comm, <- total_scal. apply total_le. intros i Hi.
  eapply Rle_trans; [apply total_abs|]. rewrite <- total_scal. apply total_le. intros j Hj.
  rewrite !Rabs_mult. specialize (H i j Hi Hj). specialize (Hg i j). pose proof (NX i Hi). pose proof (NX j Hj).
  assert (Q : (Rabs (x i) * Rabs (x j) <= N)%R).
  { assert (A : forall y, (Rabs y * Rabs y = y * y)%R) by (intros y; rewrite <- Rabs_mult; apply Rabs_right; apply Rle_ge; pose proof (Rle_0_sqr y) as Z; exact Z).
    pose proof (A (x i)). pose proof (A (x j)). pose proof (Rle_0_sqr (Rabs (x i) - Rabs (x j))) as Z. unfold Rsqr in Z. nra. }
  pose proof (Rabs_pos (x i)). pose proof (Rabs_pos (x j)). pose proof (Rabs_pos (h i j)).
  replace (Rabs (x i) * Rabs (h i j) * Rabs (x j))%R with (Rabs (x i) * Rabs (x j) * Rabs (h i j))%R by ring.
  replace (e * N * g i j)%R with (N * (e * g i j))%R by ring. apply Rmult_le_compat; [nra|assumption|exact Q|exact H].
Qed.

(** Nearly greater mean values, nearly greater eigenvalues. *)
Lemma nearly_monotone M vals P M' vals' P' e : nrows M = ncols M -> nrows M' = ncols M' ->
  eigen_decomposition (symmetric_part M) vals P -> eigen_decomposition (symmetric_part M') vals' P' -> nrows M' = nrows M ->
  (forall x, (mean M x <= mean M' x + e * total (fun i => x i * x i) (nrows M))%R) ->
  forall k, 0 <= k < nrows M -> (nth (Z.to_nat k) vals 0 <= nth (Z.to_nat k) vals' 0 + e)%R.
Proof.
  intros Sq Sq' D D' EN H k Hk. set (S := mkMat (nrows M') (ncols M') (fun i j => (1 * ent M' i j + (if i =? j then e else 0))%R)).
  assert (RM : rescaled_matrix 1 e M' S) by (split; [reflexivity|]; split; [reflexivity|]; intros; reflexivity).
  pose proof (rescaled_eigen 1 e M' S vals' P' ltac:(lra) Sq' RM D') as DS.
  pose proof (monotone _ _ _ _ _ _ D DS ltac:(cbn; exact EN)) as MO.
  assert (L' : (Z.to_nat k < length vals')%nat) by (destruct D' as (Z & _); cbn in Z; unfold zlen in Z; lia).
  assert (G : (nth (Z.to_nat k) vals 0 <= nth (Z.to_nat k) (map (unit_change 1 e) vals') 0)%R).
  { apply MO; [|exact Hk]. intros x. rewrite !mean_symmetric by (exact Sq || exact Sq').
    eapply Rle_trans; [apply H|]. apply Req_le. unfold mean. cbn [S nrows ent]. rewrite EN, <- total_scal, <- total_plus. apply total_ext. intros i Hi.
    rewrite <- (total_delta (fun j => e * (x i * x j))%R (nrows M) i Hi), <- total_plus. apply total_ext. intros j Hj. rewrite (Z.eqb_sym i j). destruct (j =? i); ring. }
  rewrite (nth_map_lt (unit_change 1 e) vals' _ 0%R) in G by exact L'. unfold unit_change in G. lra.
Qed.

(** ** Levels *)

(** For every space, basis and angular momentum there is a rate [K] such that no
    level moves by more than [K] times the change of the coefficients. *)
Theorem C93_rate : forall Gam Msqrt Minv CG an lb nu_min nu_max v_min v_max s L, exists K, (0 <= K)%R /\
  forall flt eigh eigh' inv inv' junk junk' c c' fit_eig fit_rat L_min L_max fit_eig' fit_rat' L_min' L_max' ev tr Lv s1 o ev' tr' Lv' s1' o' vals vals',
  eigh_sound eigh -> eigh_sound eigh' -> length c = 14%nat -> length c' = 14%nat ->
  let matrices := code_matrices (RadProd (Rep_elem Gam Msqrt Minv)) CG in
  ACM_ScaleOrAdapt flt matrices eigh inv junk (ham c) an lb nu_min nu_max v_min v_max fit_eig fit_rat L_min L_max s = (Ok (ev, tr, Lv), s1, o) ->
  ACM_ScaleOrAdapt flt matrices eigh' inv' junk' (ham c') an lb nu_min nu_max v_min v_max fit_eig' fit_rat' L_min' L_max' s = (Ok (ev', tr', Lv'), s1', o') ->
  In (L, vals) (combine Lv ev) -> In (L, vals') (combine Lv' ev') ->
  Forall2 (fun E E' => (Rabs (E' - E) <= K * change c c')%R) vals vals'.
Proof.
  intros Gam Msqrt Minv CG an lb nu_min nu_max v_min v_max s L.
  set (X := xlbs nu_min nu_max v_min v_max L (default L (Some L))).
  set (g := fun i j => fold_right Rplus 0%R (map Rabs (match nth_error X (Z.to_nat j) with Some x => term_entries Gam Msqrt Minv CG s an lb nu_min nu_max v_min v_max L L x i j | None => [] end))).
  assert (Hg : forall i j, (0 <= g i j)%R) by (intros i j; unfold g; match goal with |- context [map Rabs ?l0] => generalize l0 end; intros l; induction l as [|x l IH]; cbn; [lra|]; pose proof (Rabs_pos x); lra).
  exists (total (fun i => total (fun j => g i j) (zlen X)) (zlen X)). split.
  { unfold total. apply HamWaves.rsum_nonneg. intros i _. apply HamWaves.rsum_nonneg. intros j _. apply Hg. }
  intros flt eigh eigh' inv inv' junk junk' c c' fe fr L_min L_max fe' fr' L_min' L_max' ev tr Lv s1 o ev' tr' Lv' s1' o' vals vals' HE HE' HC HC' matrices RUN RUN' I I'.
  destruct (one_block _ _ _ _ _ _ _ _ _ _ _ _ _ _ _ _ _ _ _ _ _ _ _ _ _ HE (ham_tame _ _ _ _ _ _ _ _ _ _ _ _ _ _) RUN I) as (Hn & Hv & HL & _ & M & EM & Sq & P & DEC).
  destruct (one_block _ _ _ _ _ _ _ _ _ _ _ _ _ _ _ _ _ _ _ _ _ _ _ _ _ HE' (ham_tame _ _ _ _ _ _ _ _ _ _ _ _ _ _) RUN' I') as (_ & _ & _ & _ & M' & EM' & Sq' & P' & DEC').
  pose proof (lbsXspace_ok nu_min nu_max v_min v_max L (Some L) Hn Hv ltac:(cbn; lia)) as EX. fold X in EX. set (RP := RadProd (Rep_elem Gam Msqrt Minv)) in *.
  assert (HL2 : 0 <= L <= L) by lia.
  destruct (C54_linear RP CG (g_lam_fun s) an lb nu_min nu_max v_min v_max L L Hn Hv HL2 (ham c) X EX) as (_ & V).
  destruct (C54_linear RP CG (g_lam_fun s) an lb nu_min nu_max v_min v_max L L Hn Hv HL2 (ham c') X EX) as (_ & V'). cbv beta in V, V'.
  destruct (V M EM) as (Ms & F & S1 & S2 & HV). destruct (V' M' EM') as (Ms' & F' & S1' & S2' & HV').
  set (e := change c c'). assert (E0 : (0 <= e)%R).
  { pose proof (dot_diff c c' [1%R] ltac:(congruence)) as Q. cbn [map fold_right] in Q. rewrite Rabs_R1 in Q. fold e in Q. pose proof (Rabs_pos (dot c' [1%R] - dot c [1%R])). lra. }
  assert (B : forall i j, 0 <= i < zlen X -> 0 <= j < zlen X -> (Rabs (ent M' i j - ent M i j) <= e * g i j)%R).
  { intros i j Hi Hj. unfold g. destruct (nth_error X (Z.to_nat j)) as [x|] eqn:Ex; [|apply nth_error_None in Ex; unfold zlen in *; lia].
    rewrite (HV i j x Hi (proj1 Hj) Ex), (HV' i j x Hi (proj1 Hj) Ex).
    rewrite (weighted_entry Gam Msqrt Minv CG s an lb nu_min nu_max v_min v_max L L (ham c) Ms x i j F), (weighted_entry Gam Msqrt Minv CG s an lb nu_min nu_max v_min v_max L L (ham c') Ms' x i j F').
    rewrite !ham_entry by assumption. apply dot_diff. congruence. }
  set (K := total (fun i => total (fun j => g i j) (zlen X)) (zlen X)).
  assert (MD : forall x, (Rabs (mean M' x - mean M x) <= e * K * total (fun i => x i * x i) (zlen X))%R).
  { intros x. replace (mean M' x - mean M x)%R with (total (fun i => total (fun j => x i * (ent M' i j - ent M i j) * x j) (zlen X)) (zlen X))%R.
    - now apply mean_bound.
    - unfold mean. rewrite S1, S1'. replace (total (fun i => total (fun j => x i * ent M' i j * x j) (zlen X)) (zlen X) - total (fun i => total (fun j => x i * ent M i j * x j) (zlen X)) (zlen X))%R
        with (total (fun i => total (fun j => x i * ent M' i j * x j) (zlen X)) (zlen X) + -1 * total (fun i => total (fun j => x i * ent M i j * x j) (zlen X)) (zlen X))%R by ring.
      rewrite <- total_scal, <- total_plus. apply total_ext. intros i _. rewrite <- total_scal, <- total_plus. apply total_ext. intros j _. ring. }
  assert (LV : length vals = Z.to_nat (zlen X)) by (destruct DEC as (Z & _); cbn in Z; unfold zlen in *; lia).
  assert (LV' : length vals' = Z.to_nat (zlen X)) by (destruct DEC' as (Z & _); cbn in Z; unfold zlen in *; lia).
  assert (N1 : forall k, 0 <= k < zlen X -> (Rabs (nth (Z.to_nat k) vals' 0 - nth (Z.to_nat k) vals 0) <= K * e)%R).
  { intros k Hk.
    pose proof (nearly_monotone M vals P M' vals' P' (K * e) Sq Sq' DEC DEC' ltac:(congruence)) as A. rewrite S1 in A.
    pose proof (nearly_monotone M' vals' P' M vals P (K * e) Sq' Sq DEC' DEC ltac:(congruence)) as A'. rewrite S1' in A'.
    specialize (A ltac:(intros x; specialize (MD x); pose proof (Rle_abs (mean M' x - mean M x)) as T1; pose proof (Rle_abs (- (mean M' x - mean M x))) as T2; rewrite Rabs_Ropp in T2; lra) k Hk).
    specialize (A' ltac:(intros x; specialize (MD x); pose proof (Rle_abs (mean M' x - mean M x)) as T1; pose proof (Rle_abs (- (mean M' x - mean M x))) as T2; rewrite Rabs_Ropp in T2; lra) k Hk). apply Rabs_le. lra. }
  assert (G : forall (l l' : list R), length l = length l' -> (forall k, (k < length l)%nat -> (Rabs (nth k l' 0 - nth k l 0) <= K * e)%R) -> Forall2 (fun E E' => (Rabs (E' - E) <= K * e)%R) l l').
  { intros l. induction l as [|x l IH]; intros [|y l'] E H; try discriminate; constructor; [exact (H 0%nat ltac:(cbn; lia))|].
    apply IH; [now injection E|]. intros k Hk. exact (H (S k) ltac:(cbn; lia)). }
  apply G; [congruence|]. intros k Hk. specialize (N1 (Z.of_nat k) ltac:(unfold zlen in *; lia)). rewrite Nat2Z.id in N1. exact N1.
Qed.

(** Small changes of the coefficients make small changes of the levels. *)
Theorem C93_continuous : forall Gam Msqrt Minv CG an lb nu_min nu_max v_min v_max s L eps, (0 < eps)%R -> exists delta, (0 < delta)%R /\
  forall flt eigh eigh' inv inv' junk junk' c c' fit_eig fit_rat L_min L_max fit_eig' fit_rat' L_min' L_max' ev tr Lv s1 o ev' tr' Lv' s1' o' vals vals',
  eigh_sound eigh -> eigh_sound eigh' -> length c = 14%nat -> length c' = 14%nat -> Forall2 (fun x y => (Rabs (y - x) < delta)%R) c c' ->
  let matrices := code_matrices (RadProd (Rep_elem Gam Msqrt Minv)) CG in
  ACM_ScaleOrAdapt flt matrices eigh inv junk (ham c) an lb nu_min nu_max v_min v_max fit_eig fit_rat L_min L_max s = (Ok (ev, tr, Lv), s1, o) ->
  ACM_ScaleOrAdapt flt matrices eigh' inv' junk' (ham c') an lb nu_min nu_max v_min v_max fit_eig' fit_rat' L_min' L_max' s = (Ok (ev', tr', Lv'), s1', o') ->
  In (L, vals) (combine Lv ev) -> In (L, vals') (combine Lv' ev') ->
  Forall2 (fun E E' => (Rabs (E' - E) < eps)%R) vals vals'.
Proof.
  intros Gam Msqrt Minv CG an lb nu_min nu_max v_min v_max s L eps He.
  destruct (C93_rate Gam Msqrt Minv CG an lb nu_min nu_max v_min v_max s L) as (K & HK & H).
  assert (Q : (0 < 14 * (K + 1))%R) by lra. exists (eps / (14 * (K + 1)))%R. split; [now apply Rdiv_lt_0_compat|].
  intros flt eigh eigh' inv inv' junk junk' c c' fe fr L_min L_max fe' fr' L_min' L_max' ev tr Lv s1 o ev' tr' Lv' s1' o' vals vals' HE HE' HC HC' HD matrices RUN RUN' I I'.
  assert (CH : (change c c' <= INR (length c) * (eps / (14 * (K + 1))))%R).
  { clear - HD. unfold change. induction HD as [|x y c c' Hx _ IH]; [cbn; lra|]. cbn [combine map fold_right fst snd length]. rewrite S_INR. lra. }
  rewrite HC in CH. replace (INR 14) with 14%R in CH by (cbn; lra). replace (14 * (eps / (14 * (K + 1))))%R with (eps / (K + 1))%R in CH by (field; lra).
  assert (B : (K * change c c' < eps)%R).
  { eapply Rle_lt_trans; [apply Rmult_le_compat_l; [exact HK|exact CH]|]. replace (K * (eps / (K + 1)))%R with (eps - eps / (K + 1))%R by (field; lra).
    assert (0 < eps / (K + 1))%R by (apply Rdiv_lt_0_compat; lra). lra. }
  pose proof (H flt eigh eigh' inv inv' junk junk' c c' fe fr L_min L_max fe' fr' L_min' L_max' ev tr Lv s1 o ev' tr' Lv' s1' o' vals vals' HE HE' HC HC' RUN RUN' I I') as F.
  clear - F B. induction F as [|x y l l' Hx _ IH]; constructor; [lra|exact IH].
Qed.

(** Two runs that meet the hypotheses; the levels move by 5/2 and 9/2. *)
Example C93_case : forall Msqrt Minv CG flt inv junk, exists s,
  let run c := ACM_ScaleOrAdapt flt (code_matrices (RadProd (Rep_elem gamma0 Msqrt Minv)) CG) eigh0 inv junk (ham c) 1 (5 / 2) 0 1 0 0 0 0 0 None s in
  let c := [-1 / 2; 0; 1 / 2; 0; 0; 0; 0; 0; 0; 0; 0; 0; 0; 0]%R in let c' := [-1; 0; 1; 0; 0; 0; 0; 0; 0; 0; 0; 0; 0; 0]%R in
  eigh_sound eigh0 /\ length c = 14%nat /\ length c' = 14%nat /\ change c c' = 1%R /\
  run c = (Ok ([[5 / 2; 9 / 2]]%R, None, [0]), s, []) /\ run c' = (Ok ([[5; 9]]%R, None, [0]), s, []).
Proof.
  intros. exists (w_eig_num 0 imported). cbv zeta. split; [exact eigh0_sound|]. split; [reflexivity|]. split; [reflexivity|]. split.
  - unfold change. cbn [combine map fold_right fst snd]. replace (0 - 0)%R with 0%R by ring. rewrite Rabs_R0.
    replace (Rabs (-1 - -1 / 2)) with (1 / 2)%R by (rewrite Rabs_left by lra; lra). rewrite Rabs_right by lra. lra.
  - pose proof (oscillator_run Msqrt Minv CG flt inv junk 1 ltac:(lra)) as R1. pose proof (oscillator_run Msqrt Minv CG flt inv junk 2 ltac:(lra)) as R2. cbv zeta in R1, R2.
    replace (1 * (5 / 2))%R with (5 / 2)%R in R1 by lra. replace (1 * (9 / 2))%R with (9 / 2)%R in R1 by lra.
    replace (2 * (5 / 2))%R with 5%R in R2 by lra. replace (2 * (9 / 2))%R with 9%R in R2 by lra. replace (- (2) / 2)%R with (-1)%R in R2 by lra. replace (2 / 2)%R with 1%R in R2 by lra.
    split; [exact R1|exact R2].
Qed.

Print Assumptions C93_rate.
Print Assumptions C93_continuous.
