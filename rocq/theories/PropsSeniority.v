(** C94: without gamma-dependent terms, levels belong to seniorities. *)

From Coq Require Import String Reals Lra Sorted Permutation.
From Coq Require Import Lia ZifyBool ZifyNat.
From Verif Require Import PyBase PyFacts Text Compat SphericalSpec Spherical SphericalFacts Matrix RadialMESpec RadialMEFacts IdFacts PropsCGSO3
  FullLabels FullLabelsFacts PropsFullLabels
  Operators FullOps PropsHarmonics FullOpsFacts FullOpsBlocks FullOpsProd PropsHistory FullSpace FullSpaceFacts PropsFullSpace Settings PropsSettings Display DisplayFacts PropsDisplay PropsDriver
  PropsOscillator RadialOps Spectrum PropsCode RadialME RadialWords RadialSums PropsRadialME PropsFullOps Ritz PropsRitz PropsCommutator PropsAmplitude Solver PropsSolver PropsHamWaves PropsUnits PropsStiffer.
Open Scope Z_scope.
Ltac Zify.zify_post_hook ::= Z.div_mod_to_equations.

(** ** Eigenvectors *)

Lemma has_eigenvector A vals P E : eigen_decomposition A vals P -> In E vals ->
  exists x, (exists i, 0 <= i < nrows A /\ x i <> 0%R) /\ forall i, 0 <= i < nrows A -> total (fun k => ent A i k * x k)%R (nrows A) = (E * x i)%R.
Proof.
  intros (Hl & Hr & Hc & S & HE & HO) IE. apply (In_nth _ _ 0%R) in IE. destruct IE as (k & Hk & <-). unfold zlen in Hl.
  exists (fun i => ent P i (Z.of_nat k)). split.
  - destruct (zero_or_not (fun i => ent P i (Z.of_nat k)) (Z.to_nat (nrows A))) as [Z | (p & Hp & N)]; [|exists p; split; [lia|exact N]].
    destruct (HO (Z.of_nat k) (Z.of_nat k) ltac:(lia) ltac:(lia)) as (O & _). rewrite Z.eqb_refl in O. exfalso.
    rewrite (total_ext _ (fun _ => (0 * 0)%R)) in O by (intros i Hi; rewrite Z by lia; ring). rewrite total_scal in O. lra.
  - intros i Hi. rewrite HE by lia. now rewrite Nat2Z.id.
Qed.

Lemma is_level A vals P E x : eigen_decomposition A vals P -> (forall i j, 0 <= i < nrows A -> 0 <= j < nrows A -> ent A i j = ent A j i) ->
  (exists i, 0 <= i < nrows A /\ x i <> 0%R) -> (forall i, 0 <= i < nrows A -> total (fun k => ent A i k * x k)%R (nrows A) = (E * x i)%R) -> In E vals.
Proof.
  intros D Sy (i0 & Hi0 & N0) HX. pose proof (parseval A vals P x D) as PV. destruct D as (Hl & Hr & Hc & S & HE & HO). set (n := nrows A) in *.
  destruct (in_dec Req_EM_T E vals) as [I|NI]; [exact I|]. exfalso.
  assert (C0 : forall j, 0 <= j < n -> total (fun i => x i * ent P i j)%R n = 0%R).
  { intros j Hj. set (c := total (fun i => x i * ent P i j)%R n).
    assert (Q : (nth (Z.to_nat j) vals 0 * c = E * c)%R).
    { unfold c. rewrite <- !total_scal. transitivity (total (fun i => total (fun k => x i * (ent A i k * ent P k j)) n)%R n).
      - apply total_ext. intros i Hi. rewrite total_scal, HE by assumption. ring.
      - rewrite total_swap. apply total_ext. intros k Hk. rewrite (total_ext _ (fun i => ent P k j * (ent A k i * x i))%R) by (intros i Hi; rewrite (Sy i k) by assumption; ring).
        rewrite total_scal, HX by exact Hk. ring. }
    destruct (Req_EM_T c 0) as [Z|N]; [exact Z|]. exfalso. apply NI. replace E with (nth (Z.to_nat j) vals 0%R) by (apply (Rmult_eq_reg_r c); assumption).
    apply nth_In. unfold zlen in Hl. lia. }
  rewrite (total_ext _ (fun _ => (0 * 0)%R)) in PV by (intros j Hj; rewrite C0 by exact Hj; ring). rewrite total_scal, Rmult_0_l in PV.
  assert (B : (x i0 * x i0 <= total (fun i => x i * x i) n)%R).
  { rewrite <- (total_delta (fun i => x i * x i)%R n i0 Hi0). apply rsum_le. intros k _. pose proof (Rle_0_sqr (x k)) as Q. unfold Rsqr in Q. destruct (k =? i0); lra. }
  rewrite <- PV in B. pose proof (Rsqr_pos_lt _ N0) as Q. unfold Rsqr in Q. lra.
Qed.

(** ** Counting levels *)

(** 1 for the positions of [E] in [vals], 0 elsewhere. *)
Definition spot (vals : list R) (E : R) (k : Z) : R := if Req_EM_T (nth (Z.to_nat k) vals 0%R) E then 1%R else 0%R.
(** How much of position [p] lies in the eigenspace of [E]. *)
Definition share (vals : list R) (P : mat R) (E : R) (p : Z) : R := total (fun k => spot vals E k * (ent P p k * ent P p k))%R (zlen vals).

Lemma spot_twice vals E k : (spot vals E k * spot vals E k = spot vals E k)%R.
Proof. unfold spot. destruct (Req_EM_T _ _); ring. Qed.

Lemma count_spots (vals : list R) E : INR (count_occ Req_EM_T vals E) = total (spot vals E) (zlen vals).
Proof.
  unfold total, zlen. rewrite Nat2Z.id. induction vals as [|x l IH]; [reflexivity|]. cbn [length]. rewrite AngMom.rsum_front.
  rewrite (rsum_ext (fun k => spot (x :: l) E (k + 1)) (spot l E)) by (intros k Hk; unfold spot; now replace (Z.to_nat (k + 1)) with (S (Z.to_nat k)) by lia).
  rewrite <- IH. unfold spot. cbn [Z.to_nat nth count_occ]. destruct (Req_EM_T x E); [rewrite S_INR; ring|ring].
Qed.

Lemma count_shares A vals P E : eigen_decomposition A vals P -> INR (count_occ Req_EM_T vals E) = total (share vals P E) (nrows A).
Proof.
  intros (Hl & _ & _ & _ & _ & HO). rewrite count_spots. unfold share. rewrite total_swap, Hl. apply total_ext. intros k Hk. rewrite total_scal.
  destruct (HO k k Hk Hk) as (-> & _). rewrite Z.eqb_refl. ring.
Qed.

Lemma share_attained A vals P E p : eigen_decomposition A vals P -> 0 <= p < nrows A ->
  exists w, (forall i, 0 <= i < nrows A -> total (fun k => ent A i k * w k)%R (nrows A) = (E * w i)%R) /\ w p = share vals P E p /\ total (fun i => w i * w i)%R (nrows A) = share vals P E p.
Proof.
  intros (Hl & Hr & Hc & S & HE & HO) Hp. set (n := nrows A) in *. set (a := fun k => (spot vals E k * ent P p k)%R).
  exists (fun i => total (fun k => a k * ent P i k)%R n). split; [|split].
  - intros i Hi. rewrite (total_ext _ (fun m => total (fun k => ent A i m * (a k * ent P m k)) n)%R) by (intros; now rewrite total_scal).
    rewrite total_swap, <- total_scal. apply total_ext. intros k Hk.
    rewrite (total_ext _ (fun m => a k * (ent A i m * ent P m k))%R) by (intros; ring). rewrite total_scal, HE by assumption. unfold a, spot. destruct (Req_EM_T _ _) as [-> |]; ring.
  - unfold share. rewrite Hl. apply total_ext. intros k Hk. unfold a. ring.
  - assert (Q : forall k, 0 <= k < n -> total (fun i => total (fun m => a m * ent P i m) n * ent P i k)%R n = a k).
    { intros k Hk. rewrite (total_ext _ (fun i => total (fun m => ent P i k * (a m * ent P i m)) n)%R) by (intros; rewrite total_scal; ring). rewrite total_swap.
      rewrite (total_ext _ (fun m => a m * (if m =? k then 1 else 0))%R); [now apply total_delta|]. intros m Hm. destruct (HO m k Hm Hk) as (<- & _). rewrite <- total_scal. apply total_ext. intros; ring. }
    rewrite (total_ext _ (fun i => total (fun k => total (fun m => a m * ent P i m) n * (a k * ent P i k)) n)%R) by (intros; now rewrite total_scal).
    rewrite total_swap. unfold share. rewrite Hl. apply total_ext. intros k Hk.
    rewrite (total_ext _ (fun i => a k * (total (fun m => a m * ent P i m) n * ent P i k))%R) by (intros; ring). rewrite total_scal, Q by exact Hk.
    unfold a. rewrite <- (spot_twice vals E k) at 3. ring.
Qed.

Lemma discriminant a z c : (forall t, 0 <= a - 2 * t * z + t * t * c)%R -> (0 <= c)%R -> (z * z <= a * c)%R.
Proof.
  intros H Hc. destruct (Req_dec c 0) as [-> | N].
  - destruct (Req_dec z 0) as [-> | Nz]; [lra|]. exfalso. specialize (H ((a + 1) / (2 * z))%R). replace (a - 2 * ((a + 1) / (2 * z)) * z + (a + 1) / (2 * z) * ((a + 1) / (2 * z)) * 0)%R with (-1)%R in H by (field; exact Nz). lra.
  - specialize (H (z / c)%R). replace (a - 2 * (z / c) * z + z / c * (z / c) * c)%R with (a - z * z / c)%R in H by (field; exact N).
    assert (K : (0 < c)%R) by lra. apply (Rmult_le_reg_r (/ c)); [now apply Rinv_0_lt_compat|]. replace (a * c * / c)%R with a by (field; exact N). unfold Rdiv in H. lra.
Qed.

Lemma orthogonal_to_others A vals P E x : eigen_decomposition A vals P -> (forall i j, 0 <= i < nrows A -> 0 <= j < nrows A -> ent A i j = ent A j i) ->
  (forall i, 0 <= i < nrows A -> total (fun k => ent A i k * x k)%R (nrows A) = (E * x i)%R) ->
  forall j, 0 <= j < nrows A -> nth (Z.to_nat j) vals 0%R <> E -> total (fun i => x i * ent P i j)%R (nrows A) = 0%R.
Proof.
  intros (Hl & Hr & Hc & S & HE & HO) Sy HX j Hj NE. set (n := nrows A) in *. set (c := total (fun i => x i * ent P i j)%R n).
  assert (Q : (nth (Z.to_nat j) vals 0 * c = E * c)%R).
  { unfold c. rewrite <- !total_scal. transitivity (total (fun i => total (fun k => x i * (ent A i k * ent P k j)) n)%R n).
    - apply total_ext. intros i Hi. rewrite total_scal, HE by assumption. ring.
    - rewrite total_swap. apply total_ext. intros k Hk. rewrite (total_ext _ (fun i => ent P k j * (ent A k i * x i))%R) by (intros i Hi; rewrite (Sy i k) by assumption; ring).
      rewrite total_scal, HX by exact Hk. ring. }
  destruct (Req_EM_T c 0) as [Z|N]; [exact Z|]. exfalso. apply NE. apply (Rmult_eq_reg_r c); assumption.
Qed.

Lemma share_bound A vals P E p z : eigen_decomposition A vals P -> (forall i j, 0 <= i < nrows A -> 0 <= j < nrows A -> ent A i j = ent A j i) -> 0 <= p < nrows A ->
  (forall i, 0 <= i < nrows A -> total (fun k => ent A i k * z k)%R (nrows A) = (E * z i)%R) ->
  (z p * z p <= total (fun i => z i * z i) (nrows A) * share vals P E p)%R.
Proof.
  intros D Sy Hp HZ. pose proof (orthogonal_to_others A vals P E z D Sy HZ) as OR. pose proof (parseval A vals P z D) as PV.
  destruct D as (Hl & Hr & Hc & S & HE & HO). set (n := nrows A) in *. set (c := fun j => total (fun i => z i * ent P i j)%R n) in *.
  assert (C : forall k, 0 <= k < n -> c k = (spot vals E k * c k)%R).
  { intros k Hk. unfold spot. destruct (Req_EM_T _ _) as [_|N]; [ring|]. unfold c. rewrite (OR k Hk N). ring. }
  assert (ZP : z p = total (fun k => c k * ent P p k)%R n).
  { unfold c. rewrite (total_ext _ (fun k => total (fun i => ent P p k * (z i * ent P i k)) n)%R) by (intros; rewrite total_scal; ring). rewrite total_swap.
    rewrite (total_ext _ (fun i => z i * (if i =? p then 1 else 0))%R); [symmetry; now apply total_delta|]. intros i Hi. destruct (HO i p Hi Hp) as (_ & <-). rewrite <- total_scal. apply total_ext. intros; ring. }
  apply discriminant.
  - intros t. assert (ID : total (fun k => (spot vals E k * (c k - t * ent P p k)) * (spot vals E k * (c k - t * ent P p k)))%R n
      = (total (fun i => z i * z i) n - 2 * t * z p + t * t * share vals P E p)%R).
    { rewrite (total_ext _ (fun k => (c k * c k + - (2 * t) * (c k * ent P p k)) + t * t * (spot vals E k * (ent P p k * ent P p k)))%R).
      - rewrite !total_plus, !total_scal, <- ZP. unfold share. rewrite Hl. change (total (fun k => c k * c k)%R n = total (fun i => z i * z i)%R n) in PV. rewrite PV. ring.
      - intros k Hk. pose proof (C k Hk) as Ck. unfold spot in *. destruct (Req_EM_T _ _); [ring|]. replace (c k) with 0%R by lra. ring. }
    rewrite <- ID. apply rsum_square_nonneg.
  - unfold share. rewrite Hl. unfold total. rewrite (rsum_ext _ (fun k => (spot vals E k * ent P p k) * (spot vals E k * ent P p k))%R); [apply rsum_square_nonneg|].
    intros k Hk. rewrite <- (spot_twice vals E k) at 1. ring.
Qed.

(** [y] solves the eigenvalue equation of the symmetric part of [W] on the states
    lo .. hi, with value [E]. *)
Definition solution (W : Z -> Z -> R) (lo hi : Z) (E : R) (y : Z -> R) : Prop :=
  forall f, 0 <= f < hi - lo + 1 -> total (fun i => (W (lo + f)%Z (lo + i)%Z + W (lo + i)%Z (lo + f)%Z) / 2 * y i)%R (hi - lo + 1) = (E * y f)%R.
Definition radial_level (W : Z -> Z -> R) (lo hi : Z) (E : R) : Prop :=
  exists y : Z -> R, (exists f, 0 <= f < hi - lo + 1 /\ y f <> 0%R) /\ solution W lo hi E y.

(** The squares that entry [x] takes in solutions of length at most 1, and their
    least upper bound. *)
Definition squares (W : Z -> Z -> R) (lo hi : Z) (E : R) (x : Z) (r : R) : Prop :=
  (r <= 1)%R /\ exists y, solution W lo hi E y /\ (total (fun f => y f * y f) (hi - lo + 1) <= 1)%R /\ r = (y x * y x)%R.

Lemma total_0 n : total (fun _ => 0%R) n = 0%R.
Proof. rewrite (total_ext _ (fun _ => (0 * 0)%R)) by (intros; ring). rewrite total_scal. ring. Qed.
Lemma squares_bounded W lo hi E x : bound (squares W lo hi E x).
Proof. exists 1%R. intros r (H & _). exact H. Qed.
Lemma squares_inhabited W lo hi E x : exists r, squares W lo hi E x r.
Proof.
  exists 0%R. split; [lra|]. exists (fun _ => 0%R). split; [|split; [|ring]].
  - intros f Hf. rewrite (total_ext _ (fun _ => 0%R)) by (intros; ring). rewrite total_0. ring.
  - rewrite (total_ext _ (fun _ => 0%R)) by (intros; ring). rewrite total_0. lra.
Qed.
Definition greatest (W : Z -> Z -> R) (lo hi : Z) (E : R) (x : Z) : R :=
  proj1_sig (completeness (squares W lo hi E x) (squares_bounded W lo hi E x) (squares_inhabited W lo hi E x)).
Lemma greatest_is W lo hi E x r : squares W lo hi E x r -> (forall r', squares W lo hi E x r' -> (r' <= r)%R) -> greatest W lo hi E x = r.
Proof.
  intros H1 H2. unfold greatest. destruct (completeness _ _ _) as (m & U1 & U2). cbn [proj1_sig]. apply Rle_antisym; [apply U2; intros r' Hr; now apply H2|now apply U1].
Qed.

(** The dimension of the space of solutions. *)
Definition degeneracy (W : Z -> Z -> R) (lo hi : Z) (E : R) : R := total (greatest W lo hi E) (hi - lo + 1).

Lemma one_square f n i : 0 <= i < n -> (f i * f i <= total (fun k => f k * f k) n)%R.
Proof.
  intros Hi. rewrite <- (total_delta (fun i => f i * f i)%R n i Hi). apply rsum_le. intros k _. pose proof (Rle_0_sqr (f k)) as Q. unfold Rsqr in Q. destruct (k =? i); lra.
Qed.

(** Sums over the states of a space. *)
Definition lsum {A} (g : A -> R) (l : list A) : R := fold_right Rplus 0%R (map g l).
Lemma lsum_app {A} (g : A -> R) l l' : lsum g (l ++ l') = (lsum g l + lsum g l')%R.
Proof. induction l as [|a l IH]; unfold lsum in *; cbn; [ring|rewrite IH; ring]. Qed.
Lemma lsum_flat {A B} (g : B -> R) (F : A -> list B) l : lsum g (flat_map F l) = lsum (fun a => lsum g (F a)) l.
Proof. induction l as [|a l IH]; [reflexivity|]. cbn [flat_map]. rewrite lsum_app, IH. reflexivity. Qed.
Lemma lsum_const {A} (g : A -> R) c l : (forall a, In a l -> g a = c) -> lsum g l = (INR (length l) * c)%R.
Proof. induction l as [|a l IH]; intros H; [cbn; ring|]. unfold lsum in *. cbn [map fold_right length]. rewrite IH by (intros; apply H; now right). rewrite (H a) by now left. rewrite S_INR. ring. Qed.
Lemma rsum_of_list {A} (g : A -> R) (l : list A) : forall h, (forall j a, 0 <= j -> nth_error l (Z.to_nat j) = Some a -> h j = g a) -> rsum h (length l) = lsum g l.
Proof.
  induction l as [|a l IH]; intros h H; [reflexivity|]. cbn [length]. rewrite AngMom.rsum_front, (H 0 a) by (lia || reflexivity). unfold lsum in *. cbn [map fold_right].
  rewrite (IH (fun k => h (k + 1))); [reflexivity|]. intros j b Hj E. apply H; [lia|]. replace (Z.to_nat (j + 1)) with (S (Z.to_nat j)) by lia. exact E.
Qed.
Lemma lsum_range (g : Z -> R) lo hi : lsum g (py_range lo hi) = total (fun k => g (lo + k)) (hi - lo).
Proof.
  unfold total, py_range. generalize (Z.to_nat (hi - lo)). intros n. revert g lo. induction n as [|n IH]; intros g lo; [reflexivity|].
  rewrite AngMom.rsum_front. cbn [seq map]. unfold lsum. cbn [map fold_right]. f_equal.
  specialize (IH g (lo + 1)). rewrite (rsum_ext _ (fun k => g (lo + 1 + k))) by (intros; f_equal; lia). rewrite <- IH. unfold lsum. rewrite <- seq_shift, !map_map. f_equal. apply map_ext. intros; f_equal; lia.
Qed.
Lemma lsum_states (g : Z -> R) v_min v_max L : lsum (fun t : Z * Z * Z => g (fst (fst t))) (lbs v_min v_max L L) = total (fun k => IZR (mult (v_min + k) L) * g (v_min + k)%Z)%R (v_max - v_min + 1).
Proof.
  unfold lbs. rewrite lsum_flat, lsum_range. replace (L + 1 - L) with 1 by lia. change (total (fun k => lsum (fun t : Z * Z * Z => g (fst (fst t))) (rowL v_min v_max (L + k))) 1) with (0 + lsum (fun t : Z * Z * Z => g (fst (fst t))) (rowL v_min v_max (L + 0)))%R.
  rewrite Rplus_0_l, Z.add_0_r. unfold rowL. rewrite lsum_flat, lsum_range. replace (v_max + 1 - v_min) with (v_max - v_min + 1) by lia. apply total_ext. intros k Hk.
  rewrite (lsum_const _ (g (v_min + k))).
  - unfold blockvL. rewrite map_length. unfold py_range. rewrite map_length, seq_length. replace (mult (v_min + k) L + 1 - 1) with (mult (v_min + k) L) by lia.
    rewrite INR_IZR_INZ, Z2Nat.id by apply mult_nonneg. reflexivity.
  - intros t I. unfold blockvL in I. apply in_map_iff in I. destruct I as (a & <- & _). reflexivity.
Qed.

Section Space.
  Variable CG : Z -> Z -> Z -> Z -> Z -> Z -> Z -> Z -> Z -> res R.
  Variables nu_min nu_max v_min v_max L : Z.
  Hypothesis Hnu : 0 <= nu_min <= nu_max.
  Hypothesis Hv : 0 <= v_min <= v_max.
  Hypothesis HL : 0 <= L.

  Lemma seniority_levels (W : Z -> Z -> Z -> R) X D vals P : lbsXspace nu_min nu_max v_min v_max L (Some L) = Ok X -> nrows D = zlen X ->
    (forall p q nf sf ni v al M, 0 <= p -> 0 <= q -> nth_error X (Z.to_nat p) = Some (nf, sf) -> nth_error X (Z.to_nat q) = Some (ni, (v, al, M)) ->
      ent D p q = if state_eqb sf (v, al, M) then W v nf ni else 0%R) ->
    eigen_decomposition (symmetric_part D) vals P ->
    forall E, (In E vals <-> exists v, v_min <= v <= v_max /\ 0 < mult v L /\ radial_level (W v) nu_min nu_max E) /\
      INR (count_occ Req_EM_T vals E) = total (fun k => IZR (mult (v_min + k) L) * degeneracy (W (v_min + k)%Z) nu_min nu_max E)%R (v_max - v_min + 1).
  Proof.
    intros EX S1 EV DEC E.
    destruct (C06_layout nu_min nu_max v_min v_max L L Hnu Hv ltac:(lia)) as (X' & sph & EX' & Es & Hlen & HN). rewrite EX in EX'. injection EX' as <-.
    rewrite lbs_rngVvarL_some in Es by lia. injection Es as <-.
    assert (Hd : dimRadial nu_min nu_max = nu_max - nu_min + 1) by (unfold dimRadial; now replace (nu_min <=? nu_max) with true by lia).
    set (rd := Z.to_nat (nu_max - nu_min + 1)) in *. set (sph := lbs v_min v_max L L) in *. rewrite Hd in *.
    assert (NX : Z.to_nat (zlen X) = (length sph * rd)%nat) by (rewrite Hlen, Z2Nat.inj_mul by (unfold zlen; lia); unfold zlen; rewrite Nat2Z.id; fold rd; apply Nat.mul_comm).
    assert (RD : Z.of_nat rd = nu_max - nu_min + 1) by (unfold rd; lia).
    assert (EB0 : forall j x j' x', 0 <= j < Z.of_nat (length sph) -> 0 <= j' < Z.of_nat (length sph) -> 0 <= x < Z.of_nat rd -> 0 <= x' < Z.of_nat rd ->
      exists v al M, nth_error sph (Z.to_nat j') = Some (v, al, M) /\
        ent D (j * Z.of_nat rd + x) (j' * Z.of_nat rd + x') = if j =? j' then W v (nu_min + x) (nu_min + x') else 0%R).
    { intros j x j' x' Hj Hj' Hx Hx'.
      destruct (nth_error sph (Z.to_nat j)) as [sf|] eqn:Ej; [|apply nth_error_None in Ej; lia].
      destruct (nth_error sph (Z.to_nat j')) as [[[v al] M]|] eqn:Ej'; [|apply nth_error_None in Ej'; lia].
      exists v, al, M. split; [reflexivity|].
      pose proof (HN _ (Z.to_nat x) _ Ej ltac:(lia)) as Q. pose proof (HN _ (Z.to_nat x') _ Ej' ltac:(lia)) as Q'. fold rd in Q, Q'.
      rewrite (EV (j * Z.of_nat rd + x)%Z (j' * Z.of_nat rd + x') (nu_min + Z.of_nat (Z.to_nat x)) sf (nu_min + Z.of_nat (Z.to_nat x')) v al M);
        [|nia|nia|etransitivity; [|exact Q]; f_equal; nia|etransitivity; [|exact Q']; f_equal; nia].
      rewrite !Z2Nat.id by lia. destruct (state_eqb sf (v, al, M)) eqn:SE.
      - apply (state_eqb_eq CG) in SE. subst sf. pose proof (lbs_positions v_min v_max L L j' j _ ltac:(lia) ltac:(lia) Ej' Ej). now replace (j =? j') with true by lia.
      - destruct (j =? j') eqn:B; [|reflexivity]. exfalso. assert (j = j') by lia. subst j'. rewrite Ej in Ej'. injection Ej' as ->. rewrite (proj2 (state_eqb_eq CG _ _) eq_refl) in SE. discriminate. }
    set (Ws := fun v x x' => ((W v (nu_min + x)%Z (nu_min + x')%Z + W v (nu_min + x')%Z (nu_min + x)%Z) / 2)%R).
    set (A := symmetric_part D) in *. assert (NA : nrows A = zlen X) by exact S1.
    assert (EB : forall j x j' x' v al M, 0 <= j < Z.of_nat (length sph) -> 0 <= j' < Z.of_nat (length sph) -> 0 <= x < Z.of_nat rd -> 0 <= x' < Z.of_nat rd ->
      nth_error sph (Z.to_nat j) = Some (v, al, M) -> ent A (j * Z.of_nat rd + x) (j' * Z.of_nat rd + x') = if j =? j' then Ws v x x' else 0%R).
    { intros j x j' x' v al M Hj Hj' Hx Hx' Ej. cbn [A symmetric_part ent].
      destruct (EB0 j x j' x' Hj Hj' Hx Hx') as (v1 & al1 & M1 & E1 & ->). destruct (EB0 j' x' j x Hj' Hj Hx' Hx) as (v2 & al2 & M2 & E2 & ->).
      rewrite Ej in E2. injection E2 as <- <- <-. rewrite (Z.eqb_sym j' j). destruct (j =? j') eqn:B; [|lra]. replace j' with j in E1 by lia. rewrite Ej in E1. injection E1 as <- <- <-.
      unfold Ws. lra. }
    assert (ROW : forall (x : Z -> R) j f v al M, 0 <= j < Z.of_nat (length sph) -> 0 <= f < Z.of_nat rd -> nth_error sph (Z.to_nat j) = Some (v, al, M) ->
      total (fun k => ent A (j * Z.of_nat rd + f) k * x k)%R (nrows A) = total (fun i => Ws v f i * x (j * Z.of_nat rd + i)%Z)%R (nu_max - nu_min + 1)).
    { intros x j f v al M Hj Hf Ej. unfold total. rewrite NA, NX, rsum_blocks, (rsum_single _ _ j Hj).
      - apply rsum_ext. intros i Hi. rewrite (EB j f j i v al M) by assumption. now rewrite Z.eqb_refl.
      - intros j' Hj' Nj. apply rsum_zero. intros i Hi. rewrite (EB j f j' i v al M) by assumption. replace (j =? j') with false by lia. ring. }
    assert (ZX : zlen X = Z.of_nat (length sph) * Z.of_nat rd) by (unfold zlen in *; nia).
    assert (SYM : forall i j, 0 <= i < nrows A -> 0 <= j < nrows A -> ent A i j = ent A j i) by (intros a b _ _; cbn; lra).
    (* a vector is its restrictions to the blocks *)
    assert (RESTR : forall x j v al M, 0 <= j < Z.of_nat (length sph) -> nth_error sph (Z.to_nat j) = Some (v, al, M) ->
      (forall i, 0 <= i < nrows A -> total (fun k => ent A i k * x k)%R (nrows A) = (E * x i)%R) -> solution (W v) nu_min nu_max E (fun f => x (j * Z.of_nat rd + f)%Z)).
    { intros x j v al M Hj Ej HX f Hf. cbv beta. rewrite <- (HX (j * Z.of_nat rd + f)) by (rewrite NA; nia). symmetry. apply (ROW x j f v al M Hj ltac:(lia) Ej). }
    assert (DM : forall j' i, 0 <= i < Z.of_nat rd -> (j' * Z.of_nat rd + i) / Z.of_nat rd = j' /\ (j' * Z.of_nat rd + i) mod Z.of_nat rd = i).
    { intros j' i Hi. split; [symmetry; apply (Z.div_unique _ _ j' i); lia|symmetry; apply (Z.mod_unique _ _ j' i); lia]. }
    assert (EXT : forall y j v al M, 0 <= j < Z.of_nat (length sph) -> nth_error sph (Z.to_nat j) = Some (v, al, M) -> solution (W v) nu_min nu_max E y ->
      exists x, (forall j' i, 0 <= i < Z.of_nat rd -> x (j' * Z.of_nat rd + i) = if j' =? j then y i else 0%R) /\
        forall i, 0 <= i < nrows A -> total (fun k => ent A i k * x k)%R (nrows A) = (E * x i)%R).
    { intros y j v al M Hj Ej HY. set (x := fun p => if p / Z.of_nat rd =? j then y (p mod Z.of_nat rd) else 0%R). exists x.
      assert (XJ : forall j' i, 0 <= i < Z.of_nat rd -> x (j' * Z.of_nat rd + i) = if j' =? j then y i else 0%R) by (intros j' i Hi; unfold x; destruct (DM j' i Hi) as (-> & ->); reflexivity).
      split; [exact XJ|]. intros p Hp. rewrite NA in Hp.
      assert (P1 : p = (p / Z.of_nat rd) * Z.of_nat rd + p mod Z.of_nat rd) by (rewrite Z.mul_comm; apply Z.div_mod; lia).
      pose proof (Z.mod_pos_bound p (Z.of_nat rd) ltac:(lia)) as P2. rewrite P1. set (j' := p / Z.of_nat rd) in *. set (f := p mod Z.of_nat rd) in *.
      assert (Hj' : 0 <= j' < Z.of_nat (length sph)) by (clear - P1 P2 Hp ZX; nia).
      destruct (nth_error sph (Z.to_nat j')) as [[[v' al'] M']|] eqn:Ej'; [|apply nth_error_None in Ej'; lia].
      rewrite (ROW x j' f v' al' M' Hj' ltac:(lia) Ej'), XJ by lia. destruct (j' =? j) eqn:B.
      - assert (JJ : j' = j) by lia. rewrite JJ in Ej'. pose proof (eq_trans (eq_sym Ej) Ej') as Q. injection Q as <- <- <-. rewrite <- (HY f ltac:(lia)). apply total_ext. intros i Hi. rewrite XJ by lia. rewrite B. reflexivity.
      - rewrite Rmult_0_r, (total_ext _ (fun _ => 0%R)); [apply total_0|]. intros i Hi. rewrite XJ by lia. rewrite B. ring. }
    split; [split|].
    - intros IE. destruct (has_eigenvector A vals P E DEC IE) as (x & (p & Hp & Np) & HX). rewrite NA in Hp.
      assert (P1 : p = (p / Z.of_nat rd) * Z.of_nat rd + p mod Z.of_nat rd) by (rewrite Z.mul_comm; apply Z.div_mod; lia).
      pose proof (Z.mod_pos_bound p (Z.of_nat rd) ltac:(lia)) as P2. set (j := p / Z.of_nat rd) in *. set (f0 := p mod Z.of_nat rd) in *.
      assert (Hj : 0 <= j < Z.of_nat (length sph)) by (clear - P1 P2 Hp ZX; nia).
      destruct (nth_error sph (Z.to_nat j)) as [[[v al] M]|] eqn:Ej; [|apply nth_error_None in Ej; lia].
      pose proof (nth_error_In _ _ Ej) as Iv. unfold sph in Iv. apply lbs_In in Iv. destruct Iv as (I1 & I2 & I3). assert (M = L) by lia. subst M.
      exists v. split; [exact I1|]. split; [lia|]. exists (fun i => x (j * Z.of_nat rd + i)%Z). split; [|exact (RESTR x j v al L Hj Ej HX)].
      exists f0. split; [lia|]. cbv beta. rewrite <- P1. exact Np.
    - intros (v & Hvv & Hm & y & (f0 & Hf0 & N0) & HY).
      assert (Iv : In (v, 1, L) sph) by (apply lbs_In; lia). apply In_nth_error in Iv. destruct Iv as (jn & Ej).
      assert (Hj : 0 <= Z.of_nat jn < Z.of_nat (length sph)) by (assert (jn < length sph)%nat by (destruct (Nat.lt_ge_cases jn (length sph)) as [Q|Q]; [exact Q|]; apply nth_error_None in Q; pose proof (eq_trans (eq_sym Q) Ej) as X0; discriminate X0); lia).
      set (j := Z.of_nat jn) in *. replace jn with (Z.to_nat j) in Ej by (unfold j; lia).
      destruct (EXT y j v 1 L Hj Ej HY) as (x & XJ & HX). apply (is_level A vals P E x DEC SYM); [|exact HX].
      exists (j * Z.of_nat rd + f0). split; [rewrite NA; nia|]. rewrite XJ by lia. now rewrite Z.eqb_refl.
    - rewrite (count_shares A vals P E DEC).
      assert (SH : forall j x v al M, 0 <= j < Z.of_nat (length sph) -> 0 <= x < Z.of_nat rd -> nth_error sph (Z.to_nat j) = Some (v, al, M) ->
        share vals P E (j * Z.of_nat rd + x) = greatest (W v) nu_min nu_max E x).
      { intros j x v al M Hj Hx Ej. symmetry. set (p := j * Z.of_nat rd + x). assert (Hp : 0 <= p < nrows A) by (rewrite NA; unfold p; nia).
        destruct (share_attained A vals P E p DEC Hp) as (w & W1 & W2 & W3).
        assert (S0 : (0 <= share vals P E p)%R) by (rewrite <- W3; apply rsum_square_nonneg).
        apply greatest_is.
        - assert (Y : exists y, solution (W v) nu_min nu_max E y /\ (total (fun f => y f * y f) (nu_max - nu_min + 1) <= 1)%R /\ share vals P E p = (y x * y x)%R).
          { destruct (Req_EM_T (share vals P E p) 0) as [Z0|N0].
            - exists (fun _ => 0%R). split; [|split].
              + intros f Hf. rewrite (total_ext _ (fun _ => 0%R)) by (intros; ring). rewrite total_0. ring.
              + rewrite (total_ext _ (fun _ => 0%R)) by (intros; ring). rewrite total_0. lra.
              + rewrite Z0. ring.
            - set (q := share vals P E p) in *. assert (Q : (0 < q)%R) by lra. set (r := sqrt q). assert (R1 : (r * r = q)%R) by (apply sqrt_sqrt; lra). assert (R0 : r <> 0%R) by (intros Z; rewrite Z in R1; lra).
              exists (fun f => / r * w (j * Z.of_nat rd + f)%Z)%R. split; [|split].
              + intros f Hf. rewrite (total_ext _ (fun i => / r * ((W v (nu_min + f)%Z (nu_min + i)%Z + W v (nu_min + i)%Z (nu_min + f)%Z) / 2 * w (j * Z.of_nat rd + i)%Z))%R) by (intros; ring).
                rewrite total_scal, (RESTR w j v al M Hj Ej W1 f Hf). ring.
              + rewrite (total_ext _ (fun f => / q * (w (j * Z.of_nat rd + f)%Z * w (j * Z.of_nat rd + f)%Z))%R) by (intros; rewrite <- R1; field; exact R0). rewrite total_scal.
                assert (LE : (total (fun f => w (j * Z.of_nat rd + f)%Z * w (j * Z.of_nat rd + f)%Z) (nu_max - nu_min + 1) <= q)%R).
                { rewrite <- W3. unfold total at 2. rewrite NA, NX, rsum_blocks.
                  set (g := fun j' => rsum (fun x => w (j' * Z.of_nat rd + x)%Z * w (j' * Z.of_nat rd + x)%Z)%R rd). change (g j <= rsum g (length sph))%R.
                  rewrite <- (total_delta g (Z.of_nat (length sph)) j Hj). unfold total. rewrite Nat2Z.id. apply rsum_le. intros k _. assert (0 <= g k)%R by apply rsum_square_nonneg. destruct (k =? j); lra. }
                apply (Rmult_le_reg_l q); [exact Q|]. rewrite <- Rmult_assoc, Rinv_r by lra. lra.
              + fold p. rewrite W2. replace (/ r * q * (/ r * q))%R with (/ (r * r) * q * q)%R by (field; exact R0). rewrite R1. field. lra. }
          destruct Y as (y & Y1 & Y2 & Y3). split; [|eauto]. rewrite Y3. eapply Rle_trans; [|exact Y2]. apply one_square. lia.
        - intros r' (_ & y & Y1 & Y2 & ->). destruct (EXT y j v al M Hj Ej Y1) as (z & ZJ & HZ).
          pose proof (share_bound A vals P E p z DEC SYM Hp HZ) as SB.
          assert (ZP : z p = y x) by (unfold p; rewrite ZJ by lia; now rewrite Z.eqb_refl). rewrite ZP in SB.
          assert (ZZ : total (fun i => z i * z i)%R (nrows A) = total (fun f => y f * y f)%R (nu_max - nu_min + 1)).
          { unfold total. rewrite NA, NX, rsum_blocks, (rsum_single _ _ j Hj).
            - apply rsum_ext. intros i Hi. rewrite ZJ by lia. now rewrite Z.eqb_refl.
            - intros j' Hj' Nj. apply rsum_zero. intros i Hi. rewrite ZJ by lia. replace (j' =? j) with false by lia. ring. }
          rewrite ZZ in SB. assert (T0 : (total (fun f => y f * y f) (nu_max - nu_min + 1) * share vals P E p <= 1 * share vals P E p)%R) by (apply Rmult_le_compat_r; assumption). lra. }
      rewrite <- (lsum_states (fun v => degeneracy (W v) nu_min nu_max E) v_min v_max L). fold sph. unfold total. rewrite NA, NX, rsum_blocks.
      apply rsum_of_list. intros j [[v al] M] Hj Ej.
      assert (Hj' : 0 <= j < Z.of_nat (length sph)) by (destruct (Z_lt_ge_dec j (Z.of_nat (length sph))) as [Q|Q]; [lia|]; assert (N : (length sph <= Z.to_nat j)%nat) by lia; apply nth_error_None in N; pose proof (eq_trans (eq_sym N) Ej) as X0; discriminate X0).
      cbn [fst]. unfold degeneracy, total. apply rsum_ext. intros x Hx. apply (SH j x v al M Hj' Hx Ej).
  Qed.
End Space.

(** ** Levels *)

Section Runs.
  Variables (Gam : R -> R) (Msqrt Minv : mat R -> res (mat R)) (CG : Z -> Z -> Z -> Z -> Z -> Z -> Z -> Z -> Z -> res R).
  Variables (c11 c20 c21 c22 c23 an lb : R) (nu_min nu_max : Z) (s : settings).
  (** A Hamiltonian without gamma-dependent and momentum terms. *)
  Definition radial_ham : OperatorSum :=
    ACM_Hamiltonian (CNum c11) (CNum c20) (CNum c21) (CNum c22) (CNum c23) (CNum 0) (CNum 0) (CNum 0) (CNum 0) (CNum 0) (CNum 0) (CNum 0) (CNum 0) (CNum 0).
  (** [vals] are the levels of angular momentum [L] that some run returns on the
      seniorities v_min .. v_max. *)
  Definition computed_levels (v_min v_max L : Z) (vals : list R) : Prop :=
    exists flt eigh inv junk fit_eig fit_rat L_min L_max ev tr Lv s1 o, eigh_sound eigh /\
      ACM_ScaleOrAdapt flt (code_matrices (RadProd (Rep_elem Gam Msqrt Minv)) CG) eigh inv junk radial_ham an lb nu_min nu_max v_min v_max fit_eig fit_rat L_min L_max s
        = (Ok (ev, tr, Lv), s1, o) /\ In (L, vals) (combine Lv ev).

  Lemma levels_by_seniority lam v_min v_max L vals : gamma_like Gam -> bases s lb v_min v_max lam -> computed_levels v_min v_max L vals ->
    forall E, (In E vals <-> exists v, v_min <= v <= v_max /\ 0 < mult v L /\ radial_level (radial_entry Gam c11 c20 c21 c22 c23 an (lam v) v nu_min nu_max) nu_min nu_max E) /\
      INR (count_occ Req_EM_T vals E) = total (fun k => IZR (mult (v_min + k) L) * degeneracy (radial_entry Gam c11 c20 c21 c22 c23 an (lam (v_min + k)%Z) (v_min + k) nu_min nu_max) nu_min nu_max E)%R (v_max - v_min + 1).
  Proof.
    intros HG Hs (flt & eigh & inv & junk & fe & fr & L_min & L_max & ev & tr & Lv & s1 & o & HE & RUN & I) E.
    destruct (one_block _ _ _ _ _ _ _ _ _ _ _ _ _ _ _ _ _ _ _ _ _ _ _ _ _ HE (ham_tame _ _ _ _ _ _ _ _ _ _ _ _ _ _) RUN I) as (Hn & Hv & HL & _ & M & EM & Sq & P & DEC).
    destruct (C06_layout nu_min nu_max v_min v_max L L Hn Hv ltac:(lia)) as (X & _ & EX & _).
    destruct (radial_space Gam HG Msqrt Minv CG nu_min nu_max v_min v_max L L Hn Hv ltac:(lia) c11 c20 c21 c22 c23 an lb s lam X Hs EX) as (D & ED & D1 & D2 & EV).
    assert (Ok M = Ok D) as Q by (rewrite <- EM; exact ED). injection Q as ->.
    exact (seniority_levels CG nu_min nu_max v_min v_max L Hn Hv HL (fun v => radial_entry Gam c11 c20 c21 c22 c23 an (lam v) v nu_min nu_max) X D vals P EX D1 EV DEC E).
  Qed.

  (** Every level belongs to a seniority that occurs in its angular momentum, and is
      found wherever that seniority occurs. *)
  Theorem C94_seniority : forall lam v_min v_max L vals E, gamma_like Gam -> bases s lb v_min v_max lam -> computed_levels v_min v_max L vals -> In E vals ->
    exists v, v_min <= v <= v_max /\ 0 < mult v L /\
      forall w_min w_max L' vals', bases s lb w_min w_max lam -> w_min <= v <= w_max -> 0 < mult v L' -> computed_levels w_min w_max L' vals' -> In E vals'.
  Proof.
    intros lam v_min v_max L vals E HG Hs H IE. apply (proj1 (levels_by_seniority lam _ _ _ _ HG Hs H E)) in IE. destruct IE as (v & V1 & V2 & V3).
    exists v. split; [exact V1|]. split; [exact V2|]. intros w_min w_max L' vals' Hs' W1 W2 H'. apply (proj1 (levels_by_seniority lam _ _ _ _ HG Hs' H' E)). eauto.
  Qed.

  (** How often a value occurs as a level is decided by the seniorities: it is a number
      that depends on the seniority only, times how often the seniority occurs. *)
  Theorem C94_counts : forall lam, gamma_like Gam -> exists c : Z -> R -> R,
    forall v_min v_max L vals E, bases s lb v_min v_max lam -> computed_levels v_min v_max L vals ->
    INR (count_occ Req_EM_T vals E) = total (fun k => IZR (mult (v_min + k) L) * c (v_min + k)%Z E)%R (v_max - v_min + 1).
  Proof.
    intros lam HG. exists (fun v E => degeneracy (radial_entry Gam c11 c20 c21 c22 c23 an (lam v) v nu_min nu_max) nu_min nu_max E).
    intros v_min v_max L vals E Hs H. exact (proj2 (levels_by_seniority lam _ _ _ _ HG Hs H E)).
  Qed.

  (** In the multiplet of one seniority the occurrences are in proportion to how often
      the seniority occurs. *)
  Theorem C94_multiplet_counts : forall lam v L L' vals vals' E, gamma_like Gam -> bases s lb v v lam -> computed_levels v v L vals -> computed_levels v v L' vals' ->
    mult v L' * Z.of_nat (count_occ Req_EM_T vals E) = mult v L * Z.of_nat (count_occ Req_EM_T vals' E).
  Proof.
    intros lam v L L' vals vals' E HG Hs H H'. destruct (C94_counts lam HG) as (c & HC). pose proof (HC v v L vals E Hs H) as Q. pose proof (HC v v L' vals' E Hs H') as Q'.
    replace (v - v + 1) with 1 in Q, Q' by lia. unfold total in Q, Q'. change (Z.to_nat 1) with 1%nat in Q, Q'. cbn [rsum Z.of_nat] in Q, Q'. rewrite Z.add_0_r in Q, Q'.
    apply eq_IZR. rewrite !mult_IZR, <- !INR_IZR_INZ, Q, Q'. ring.
  Qed.

  (** The states of one seniority form a multiplet: the same levels for every angular
      momentum in it. *)
  Theorem C94_multiplet : forall lam v L L' vals vals', gamma_like Gam -> bases s lb v v lam ->
    computed_levels v v L vals -> computed_levels v v L' vals' -> forall E, In E vals <-> In E vals'.
  Proof.
    assert (A : forall lam v L L' vals vals', gamma_like Gam -> bases s lb v v lam -> computed_levels v v L vals -> computed_levels v v L' vals' -> forall E, In E vals -> In E vals').
    { intros lam v L L' vals vals' HG Hs H H' E IE. destruct (C94_seniority lam v v L vals E HG Hs H IE) as (v' & V1 & V2 & V3). apply (V3 v v L' vals' Hs ltac:(lia)); [|exact H'].
      assert (v' = v) by lia. subst v'. destruct H' as (flt & eigh & inv & junk & fe & fr & L_min & L_max & ev & tr & Lv & s1 & o & HE & RUN & I).
      destruct (one_block _ _ _ _ _ _ _ _ _ _ _ _ _ _ _ _ _ _ _ _ _ _ _ _ _ HE (ham_tame _ _ _ _ _ _ _ _ _ _ _ _ _ _) RUN I) as (_ & _ & _ & (u & U1 & U2) & _).
      now replace v with u by lia. }
    intros lam v L L' vals vals' HG Hs H H' E. split; [apply (A lam v L L' vals vals') | apply (A lam v L' L vals' vals)]; assumption.
  Qed.

  Lemma levels_sorted v_min v_max L vals : computed_levels v_min v_max L vals -> StronglySorted Rle vals.
  Proof.
    intros (flt & eigh & inv & junk & fe & fr & L_min & L_max & ev & tr & Lv & s1 & o & HE & RUN & I).
    destruct (one_block _ _ _ _ _ _ _ _ _ _ _ _ _ _ _ _ _ _ _ _ _ _ _ _ _ HE (ham_tame _ _ _ _ _ _ _ _ _ _ _ _ _ _) RUN I) as (_ & _ & _ & _ & M & _ & _ & P & DEC). apply DEC.
  Qed.

  (** Where it occurs equally often, the lists of levels are equal. *)
  Theorem C94_multiplet_lists : forall lam v L L' vals vals', gamma_like Gam -> bases s lb v v lam -> computed_levels v v L vals -> computed_levels v v L' vals' ->
    mult v L = mult v L' -> vals = vals'.
  Proof.
    intros lam v L L' vals vals' HG Hs H H' HM. apply sorted_eq; [exact (levels_sorted _ _ _ _ H)|exact (levels_sorted _ _ _ _ H')|]. apply (Permutation_count_occ Req_EM_T). intros E.
    pose proof (C94_multiplet_counts lam v L L' vals vals' E HG Hs H H') as Q. rewrite HM in Q.
    destruct H' as (flt & eigh & inv & junk & fe & fr & L_min & L_max & ev & tr & Lv & s1 & o & HE & RUN & I).
    destruct (one_block _ _ _ _ _ _ _ _ _ _ _ _ _ _ _ _ _ _ _ _ _ _ _ _ _ HE (ham_tame _ _ _ _ _ _ _ _ _ _ _ _ _ _) RUN I) as (_ & _ & _ & (u & U1 & U2) & _).
    assert (u = v) by lia. subst u. apply Z.mul_reg_l in Q; lia.
  Qed.

  (** The levels on several seniorities are those on each of them, put together. *)
  Theorem C94_union : forall lam v_min v_max L vals (one : Z -> list R), gamma_like Gam -> bases s lb v_min v_max lam -> computed_levels v_min v_max L vals ->
    (forall v, v_min <= v <= v_max -> if 0 <? mult v L then computed_levels v v L (one v) else one v = []) ->
    Permutation vals (flat_map one (py_range v_min (v_max + 1))).
  Proof.
    intros lam v_min v_max L vals one HG Hs H HO. apply (Permutation_count_occ Req_EM_T). intros E. apply INR_eq. destruct (C94_counts lam HG) as (c & HC).
    rewrite (HC v_min v_max L vals E Hs H).
    assert (CF : forall l, INR (count_occ Req_EM_T (flat_map one l) E) = lsum (fun v => INR (count_occ Req_EM_T (one v) E)) l).
    { induction l as [|a l IH]; [reflexivity|]. cbn [flat_map]. rewrite count_occ_app, plus_INR, IH. reflexivity. }
    rewrite CF, lsum_range. replace (v_max + 1 - v_min) with (v_max - v_min + 1) by lia. apply total_ext. intros k Hk. specialize (HO (v_min + k) ltac:(lia)). destruct (0 <? mult (v_min + k) L) eqn:B.
    - assert (Hb : bases s lb (v_min + k) (v_min + k) lam) by (intros u Hu; apply Hs; lia). rewrite (HC _ _ _ _ E Hb HO). replace (v_min + k - (v_min + k) + 1) with 1 by lia.
      unfold total. change (Z.to_nat 1) with 1%nat. cbn [rsum Z.of_nat]. rewrite Z.add_0_r. ring.
    - rewrite HO. pose proof (mult_nonneg (v_min + k) L). replace (mult (v_min + k) L) with 0 by lia. cbn. ring.
  Qed.
End Runs.

(** ** A case *)

(** -beta^2 with one radial state: a state of seniority v has the level -5/2 when v
    is even and -7/2 when v is odd. *)
Lemma one_radial_state Msqrt Minv CG v_min v_max L sph : 0 <= v_min <= v_max -> 0 <= L -> lbs v_min v_max L L = sph -> dimSO5r3_rngV v_min v_max L = Ok (zlen sph) -> 0 < zlen sph ->
  let d := map (fun t : Z * Z * Z => (- (5 / 2 + IZR (fst (fst t) mod 2)))%R) sph in StronglySorted Rle d ->
  computed_levels gamma0 Msqrt Minv CG 0 0 (-1) 0 0 1 (5 / 2) 0 0 (w_eig_num 0 imported) v_min v_max L d.
Proof.
  intros Hv HL Es Hdim Hpos d HS. set (s := w_eig_num 0 imported). set (lam := fun v => (5 / 2 + IZR (v mod 2))%R).
  assert (Hb : bases s (5 / 2) v_min v_max lam).
  { intros v Hvv. exists (v mod 2). pose proof (Z.mod_pos_bound v 2 ltac:(lia)). split; [change (lambda_acm_fun v = Ok (v mod 2)); unfold lambda_acm_fun; rewrite require_nonnegint_ok by lia; cbn [bind]; now rewrite irem_ok by lia|]. split; [reflexivity|]. unfold lam. assert (0 <= IZR (v mod 2))%R by (apply IZR_le; lia). lra. }
  destruct (C06_layout 0 0 v_min v_max L L ltac:(lia) Hv ltac:(lia)) as (X & sph' & EX & Es' & Hl & HN). rewrite lbs_rngVvarL_some in Es' by lia. injection Es' as <-. rewrite Es in *.
  change (dimRadial 0 0) with 1 in *.
  assert (NX : forall k, 0 <= k < zlen sph -> exists v al M, nth_error sph (Z.to_nat k) = Some (v, al, M) /\ nth_error X (Z.to_nat k) = Some (0, (v, al, M))).
  { intros k Hk. destruct (nth_error sph (Z.to_nat k)) as [[[v al] M]|] eqn:E; [|apply nth_error_None in E; unfold zlen in Hk; lia]. exists v, al, M. split; [reflexivity|].
    pose proof (HN _ 0%nat _ E ltac:(lia)) as Q. etransitivity; [|exact Q]. f_equal. lia. }
  destruct (radial_space gamma0 gamma_like_gamma0 Msqrt Minv CG 0 0 v_min v_max L L ltac:(lia) Hv ltac:(lia) 0 0 (-1) 0 0 1 (5 / 2) s lam X Hb EX) as (D & ED & S1 & S2 & EV).
  destruct (C47_symmetrised eigh0 D ltac:(lia)) as (A & EA & A1 & A2 & A3 & A4 & _).
  assert (Zd : zlen d = zlen sph) by (unfold d, zlen; now rewrite map_length).
  assert (EE : Eigenfiddle eigh0 D = Ok (d, eye (nrows A))).
  { rewrite EA. apply eigh0_diagonal; [lia| |exact HS]. intros i j Hi Hj. rewrite A4.
    assert (VV : forall i j, 0 <= i < zlen sph -> 0 <= j < zlen sph -> ent D i j = if i =? j then nth (Z.to_nat i) d 0%R else 0%R).
    { intros a b Ha Hb'. destruct (NX a Ha) as (v & al & M & Q1 & Q2). destruct (NX b Hb') as (v' & al' & M' & Q1' & Q2').
      rewrite (EV a b _ _ _ _ _ _ ltac:(lia) ltac:(lia) Q2 Q2'). destruct (state_eqb (v, al, M) (v', al', M')) eqn:SE.
      - apply (state_eqb_eq CG) in SE. rewrite <- SE in Q1'. rewrite <- Es in Q1, Q1'. pose proof (lbs_positions v_min v_max L L a b _ ltac:(lia) ltac:(lia) Q1 Q1') as Q. replace (a =? b) with true by lia.
        injection SE as <- <- <-. rewrite Es in Q1. erewrite nth_error_nth; [|unfold d; apply map_nth_error; exact Q1]. cbn [fst].
        unfold radial_entry. rewrite !powerRZ_R1. unfold v_b2, lam. cbn [Z.eqb Z.sub Z.add Z.opp Z.pos_sub Pos.eqb]. lra.
      - destruct (a =? b) eqn:B; [|reflexivity]. exfalso. replace b with a in Q1' by lia. pose proof (eq_trans (eq_sym Q1) Q1') as Q. injection Q as <- <- <-. rewrite (proj2 (state_eqb_eq CG _ _) eq_refl) in SE. discriminate. }
    rewrite (VV i j), (VV j i), (Z.eqb_sym j i) by lia. destruct (i =? j) eqn:B0; [replace j with i by lia|]; lra. }
  set (RepX := code_matrices (RadProd (Rep_elem gamma0 Msqrt Minv)) CG) in *. set (H := radial_ham 0 0 (-1) 0 0).
  assert (DI : dig RepX eigh0 H 1 (5 / 2) 0 0 v_min v_max s L None = Ok ([d], [eye (nrows A)], [L])).
  { assert (TH : Op_Tame H = true) by apply ham_tame. unfold dig. rewrite TH.
    change (RepX s H 1%R (5 / 2)%R 0 0 v_min v_max L None = Ok D) in ED.
    assert (G : forall (F : Z -> option Z -> res (mat R)) (Eg : mat R -> res (list R * mat R)) P, F L None = Ok D -> Eg D = Ok (d, P) ->
      DigXspace F Eg true 0 0 v_min v_max L None = Ok ([d], [P], [L])).
    { intros F Eg P F1 F2. unfold DigXspace. cbn [L_top]. rewrite !require_range_ok by lia. cbn [bind]. replace (py_range L (L + 1)) with [L].
      - cbn [dig_tame]. rewrite Hdim. cbn [bind]. replace (0 <? zlen sph) with true by lia. rewrite F1. cbn [bind]. rewrite F2. reflexivity.
      - unfold py_range. replace (Z.to_nat (L + 1 - L)) with 1%nat by lia. cbn [seq map]. f_equal. lia. }
    apply G; assumption. }
  exists (fun _ _ => []), eigh0, (fun M => Ok M), (fun _ _ => 0%R), 0, 0, L, None, [d], None, [L], s, []. split; [exact eigh0_sound|]. split; [|now left].
  fold RepX H. rewrite run_stages. rewrite (checks_ok (fun _ _ => []) RepX eigh0 (fun M => Ok M) (fun _ _ => 0%R) H 1 (5 / 2)); [|lia|lia|lia|lia|cbn; lia|lia|lia].
  cbn [bind]. rewrite DI, pbind_ok. reflexivity.
Qed.

(** Runs that meet the hypotheses of the theorems above: angular momentum 2 on the
    seniorities 1 and 2 and on each of them, and angular momentum 4 on the second. *)
Example C94_case : forall Msqrt Minv CG,
  let s := w_eig_num 0 imported in let lv := computed_levels gamma0 Msqrt Minv CG 0 0 (-1) 0 0 1 (5 / 2) 0 0 s in
  gamma_like gamma0 /\ bases s (5 / 2) 1 2 (fun v => (5 / 2 + IZR (v mod 2))%R) /\
  lv 1 2 2 [- (5 / 2 + 1); - (5 / 2 + 0)]%R /\ lv 1 1 2 [- (5 / 2 + 1)]%R /\ lv 2 2 2 [- (5 / 2 + 0)]%R /\ lv 2 2 4 [- (5 / 2 + 0)]%R.
Proof.
  intros Msqrt Minv CG s lv. split; [apply gamma_like_gamma0|]. split.
  - intros v Hv. exists (v mod 2). assert (v = 1 \/ v = 2) as [-> | ->] by lia; (split; [reflexivity|]; split; [reflexivity|]); cbn; lra.
  - split; [|split; [|split]].
    + apply (one_radial_state Msqrt Minv CG 1 2 2 [(1, 1, 2); (2, 1, 2)]); try reflexivity; try lia; cbn; repeat constructor; cbn; lra.
    + apply (one_radial_state Msqrt Minv CG 1 1 2 [(1, 1, 2)]); try reflexivity; try lia; cbn; repeat constructor; cbn; lra.
    + apply (one_radial_state Msqrt Minv CG 2 2 2 [(2, 1, 2)]); try reflexivity; try lia; cbn; repeat constructor; cbn; lra.
    + apply (one_radial_state Msqrt Minv CG 2 2 4 [(2, 1, 4)]); try reflexivity; try lia; cbn; repeat constructor; cbn; lra.
Qed.

Print Assumptions C94_seniority.
Print Assumptions C94_counts.
Print Assumptions C94_multiplet_counts.
Print Assumptions C94_multiplet_lists.
Print Assumptions C94_multiplet.
Print Assumptions C94_union.
