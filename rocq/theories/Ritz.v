(** The lowest eigenvalue of a matrix and of a submatrix. *)

From Coq Require Import Reals Lra Sorted.
From Coq Require Import Lia ZifyBool ZifyNat.
From Verif Require Import PyBase PyFacts Matrix RadialMESpec RadialMEFacts IdFacts PropsCGSO3 Spectrum.
Open Scope Z_scope.

Lemma rsum_le f g n : (forall k, 0 <= k < Z.of_nat n -> (f k <= g k)%R) -> (rsum f n <= rsum g n)%R.
Proof.
  induction n as [|n IH]; intros H; cbn [rsum]; [lra|].
  assert (rsum f n <= rsum g n)%R by (apply IH; intros; apply H; lia). pose proof (H (Z.of_nat n) ltac:(lia)). lra.
Qed.

(** A matrix is put together from its eigenvalues and eigenvectors. *)
Lemma spectral_sum A vals P : eigen_decomposition A vals P -> forall a b, 0 <= a < nrows A -> 0 <= b < nrows A ->
  ent A a b = total (fun k => nth (Z.to_nat k) vals 0 * ent P a k * ent P b k)%R (nrows A).
Proof.
  intros (Hl & Hr & Hc & _ & HE & HO) a b Ha Hb. set (n := nrows A) in *. unfold total in *.
  rewrite (rsum_ext _ (fun k => rsum (fun m => ent A a m * ent P m k * ent P b k)%R (Z.to_nat n))).
  - rewrite rsum_swap. rewrite (rsum_ext _ (fun m => if m =? b then ent A a m else 0)%R).
    + rewrite (rsum_single _ _ b); [now rewrite Z.eqb_refl|lia|]. intros k Hk N. now replace (k =? b) with false by lia.
    + intros m Hm. rewrite (rsum_ext _ (fun k => ent A a m * (ent P m k * ent P b k))%R) by (intros; ring).
      rewrite rsum_scal. destruct (HO m b ltac:(lia) Hb) as [_ O]. rewrite O. destruct (m =? b); ring.
  - intros k Hk. rewrite (rsum_ext (fun m => ent A a m * ent P m k * ent P b k)%R (fun m => ent P b k * (ent A a m * ent P m k))%R) by (intros; ring).
    rewrite rsum_scal, HE by lia. ring.
Qed.

Lemma lowest_first vals k : StronglySorted Rle vals -> 0 <= k < zlen vals -> (nth 0 vals 0 <= nth (Z.to_nat k) vals 0)%R.
Proof.
  intros S Hk. destruct vals as [|x l]; [unfold zlen in Hk; cbn in Hk; lia|]. inversion S as [|? ? _ F]; subst.
  destruct (Z.to_nat k) as [|m] eqn:E; [cbn; lra|]. cbn [nth]. rewrite Forall_forall in F. apply F.
  apply nth_In. unfold zlen in Hk. cbn [length] in Hk. lia.
Qed.

Lemma later_greater vals k m : StronglySorted Rle vals -> 0 <= k <= m -> m < zlen vals -> (nth (Z.to_nat k) vals 0 <= nth (Z.to_nat m) vals 0)%R.
Proof.
  intros S Hk Hm. assert (H : (Z.to_nat k <= Z.to_nat m < length vals)%nat) by (unfold zlen in Hm; lia). revert H. generalize (Z.to_nat k), (Z.to_nat m). clear - S.
  induction S as [|x l _ IH F]; intros a b H; [cbn in H; lia|]. destruct a as [|a]; destruct b as [|b]; cbn [nth]; try lra; [|lia|].
  - rewrite Forall_forall in F. apply F, nth_In. cbn [length] in H. lia.
  - apply IH. cbn [length] in H. lia.
Qed.

(** A vector that lives on the states [e 0 ..] and is orthogonal to the first k
    eigenvectors. *)
Lemma ritz_above A vals P m (e : Z -> Z) (x : Z -> R) k :
  eigen_decomposition A vals P ->
  (forall i, 0 <= i < m -> 0 <= e i < nrows A) ->
  (forall i j, 0 <= i < m -> 0 <= j < m -> e i = e j -> i = j) ->
  0 <= k -> (forall q, 0 <= q < k -> q < nrows A -> total (fun i => x i * ent P (e i) q)%R m = 0%R) ->
  (nth (Z.to_nat k) vals 0 * total (fun i => x i * x i) m <= total (fun i => total (fun j => x i * ent A (e i) (e j) * x j)%R m) m)%R.
Proof.
  intros D He Hi Hk0 Hx. pose proof (spectral_sum _ _ _ D) as SS. destruct D as (Hl & Hr & Hc & S & HE & HO). set (n := nrows A) in *.
  unfold total in *. set (c := fun k => rsum (fun i => x i * ent P (e i) k)%R (Z.to_nat m)).
  assert (G : forall w : Z -> R, rsum (fun k => w k * (c k * c k))%R (Z.to_nat n)
     = rsum (fun i => rsum (fun j => x i * x j * rsum (fun k => w k * ent P (e i) k * ent P (e j) k)%R (Z.to_nat n))%R (Z.to_nat m)) (Z.to_nat m)).
  { intros w. transitivity (rsum (fun k => rsum (fun i => rsum (fun j => x i * x j * (w k * ent P (e i) k * ent P (e j) k))%R (Z.to_nat m)) (Z.to_nat m)) (Z.to_nat n)).
    - apply rsum_ext. intros q Hq. unfold c. rewrite rsum_mul, <- rsum_scal. apply rsum_ext. intros i Hi'. rewrite <- rsum_scal. apply rsum_ext. intros; ring.
    - rewrite rsum_swap. apply rsum_ext. intros i Hi'. rewrite rsum_swap. apply rsum_ext. intros j Hj. now rewrite rsum_scal. }
  assert (N1 : rsum (fun k => 1 * (c k * c k))%R (Z.to_nat n) = rsum (fun i => x i * x i)%R (Z.to_nat m)).
  { rewrite (G (fun _ => 1%R)). cbv beta. apply rsum_ext. intros i Hi'. rewrite (rsum_single _ _ i); [|lia|].
    - rewrite (rsum_ext _ (fun k => ent P (e i) k * ent P (e i) k)%R) by (intros; ring).
      destruct (HO (e i) (e i) ltac:(apply He; lia) ltac:(apply He; lia)) as [_ O]. rewrite O, Z.eqb_refl. ring.
    - intros j Hj N. rewrite (rsum_ext _ (fun k => ent P (e i) k * ent P (e j) k)%R) by (intros; ring).
      destruct (HO (e i) (e j) ltac:(apply He; lia) ltac:(apply He; lia)) as [_ O]. rewrite O.
      destruct (e i =? e j) eqn:B; [|ring]. exfalso. apply N. symmetry. apply Hi; lia. }
  rewrite <- N1, <- rsum_scal.
  replace (rsum (fun i => rsum (fun j => x i * ent A (e i) (e j) * x j)%R (Z.to_nat m)) (Z.to_nat m))
    with (rsum (fun k => nth (Z.to_nat k) vals 0 * (c k * c k))%R (Z.to_nat n)).
  - apply rsum_le. intros q Hq. destruct (Z_lt_le_dec q k) as [L|L].
    + replace (c q) with 0%R by (symmetry; apply Hx; lia). lra.
    + pose proof (later_greater vals k q S ltac:(lia) ltac:(lia)). pose proof (Rle_0_sqr (c q)) as Q. unfold Rsqr in Q. nra.
  - rewrite (G (fun k => nth (Z.to_nat k) vals 0%R)). cbv beta. apply rsum_ext. intros i Hi'. apply rsum_ext. intros j Hj. rewrite (SS (e i) (e j)) by (apply He; lia). ring.
Qed.

(** The quadratic form of a unit vector that lives on the states [e 0 ..]. *)
Theorem ritz A vals P m (e : Z -> Z) (x : Z -> R) :
  eigen_decomposition A vals P ->
  (forall i, 0 <= i < m -> 0 <= e i < nrows A) ->
  (forall i j, 0 <= i < m -> 0 <= j < m -> e i = e j -> i = j) ->
  total (fun i => x i * x i)%R m = 1%R ->
  (nth 0 vals 0 <= total (fun i => total (fun j => x i * ent A (e i) (e j) * x j)%R m) m)%R.
Proof.
  intros D He Hi Hx. pose proof (ritz_above A vals P m e x 0 D He Hi (Z.le_refl 0) ltac:(intros; lia)) as R. rewrite Hx in R. change (Z.to_nat 0) with 0%nat in R. lra.
Qed.

(** Fewer equations than unknowns. *)
Lemma zero_or_not (f : Z -> R) n : (forall i, 0 <= i < Z.of_nat n -> f i = 0%R) \/ exists p, 0 <= p < Z.of_nat n /\ f p <> 0%R.
Proof.
  induction n as [|n [IH | (p & Hp & N)]]; [left; intros; lia| |right; exists p; split; [lia|exact N]].
  destruct (Req_EM_T (f (Z.of_nat n)) 0) as [E|N]; [|right; exists (Z.of_nat n); split; [lia|exact N]].
  left. intros i Hi. destruct (Z.eq_dec i (Z.of_nat n)) as [-> | Ne]; [exact E|apply IH; lia].
Qed.

Lemma underdetermined k : forall A : Z -> Z -> R, exists c : Z -> R,
  (exists j, 0 <= j < Z.of_nat (S k) /\ c j <> 0%R) /\ forall i, 0 <= i < Z.of_nat k -> rsum (fun j => A i j * c j)%R (S k) = 0%R.
Proof.
  induction k as [|k IH]; intros A.
  { exists (fun _ => 1%R). split; [exists 0; split; [lia|lra]|intros; lia]. }
  set (t := Z.of_nat (S k)). destruct (zero_or_not (fun i => A i t) (S k)) as [Z0 | (p & Hp & N)].
  { exists (fun j => if j =? t then 1 else 0)%R. split; [exists t; split; [lia|rewrite Z.eqb_refl; lra]|].
    intros i Hi. rewrite (rsum_single _ _ t); [rewrite Z0 by lia; ring|lia|]. intros j _ Nj. replace (j =? t) with false by lia. ring. }
  set (sg := fun i => if i =? p then Z.of_nat k else i).
  destruct (IH (fun i j => A (sg i) j - A (sg i) t / A p t * A p j)%R) as (c & (j0 & Hj0 & Nj0) & HC).
  set (w := rsum (fun j => A p j * c j)%R (S k)).
  exists (fun j => if j =? t then - (w / A p t) else c j)%R. split; [exists j0; split; [lia|replace (j0 =? t) with false by lia; exact Nj0]|].
  assert (RW : forall i, rsum (fun j => A i j * (if j =? t then - (w / A p t) else c j))%R (S (S k)) = (rsum (fun j => A i j * c j) (S k) - A i t / A p t * w)%R).
  { intros i. change (rsum ?f (S (S k))) with (rsum f (S k) + f t)%R. cbv beta. rewrite Z.eqb_refl.
    rewrite (rsum_ext _ (fun j => A i j * c j)%R) by (intros j Hj; replace (j =? t) with false by lia; reflexivity). field. exact N. }
  assert (SG : forall i, 0 <= i < Z.of_nat k -> (rsum (fun j => A (sg i) j * c j) (S k) - A (sg i) t / A p t * w = 0)%R).
  { intros i Hi. rewrite <- (HC i Hi). unfold w. rewrite (rsum_ext (fun j => (A (sg i) j - A (sg i) t / A p t * A p j) * c j)%R (fun j => A (sg i) j * c j + (- (A (sg i) t / A p t)) * (A p j * c j))%R) by (intros; ring).
    rewrite rsum_plus, rsum_scal. ring. }
  intros i Hi. rewrite RW. destruct (Z.eq_dec i p) as [-> | Ni].
  - fold w. field. exact N.
  - destruct (Z.eq_dec i (Z.of_nat k)) as [Ek|Nk].
    + specialize (SG p ltac:(lia)). unfold sg in SG. rewrite Z.eqb_refl in SG. now rewrite Ek.
    + specialize (SG i ltac:(lia)). unfold sg in SG. now replace (i =? p) with false in SG by lia.
Qed.

(** The lowest eigenvalue is at most any diagonal entry. *)
Corollary lowest_le_diagonal A vals P i : eigen_decomposition A vals P -> 0 <= i < nrows A -> (nth 0 vals 0 <= ent A i i)%R.
Proof.
  intros D Hi. pose proof (ritz A vals P 1 (fun _ => i) (fun _ => 1%R) D ltac:(intros; lia) ltac:(intros; lia)) as R.
  unfold total in R. change (Z.to_nat 1) with 1%nat in R. cbn [rsum] in R. specialize (R ltac:(lra)). lra.
Qed.

(** Every eigenvalue is at most the eigenvalue of a submatrix with the same
    number (Cauchy). *)
Theorem interlace A vals P A' vals' P' (e : Z -> Z) :
  eigen_decomposition A vals P -> eigen_decomposition A' vals' P' ->
  (forall i, 0 <= i < nrows A' -> 0 <= e i < nrows A) ->
  (forall i j, 0 <= i < nrows A' -> 0 <= j < nrows A' -> e i = e j -> i = j) ->
  (forall i j, 0 <= i < nrows A' -> 0 <= j < nrows A' -> ent A' i j = ent A (e i) (e j)) ->
  forall k, 0 <= k < nrows A' -> (nth (Z.to_nat k) vals 0 <= nth (Z.to_nat k) vals' 0)%R.
Proof.
  intros D (Hl & Hr & Hc & S & HE & HO) He Hi HA k Hk. set (m := nrows A') in *.
  destruct (underdetermined (Z.to_nat k) (fun q j => total (fun i => ent P' i j * ent P (e i) q)%R m)) as (c & (j0 & Hj0 & Nj0) & HC).
  set (x := fun i => rsum (fun j => c j * ent P' i j)%R (Datatypes.S (Z.to_nat k))).
  pose proof (ritz_above A vals P m e x k D He Hi (proj1 Hk)) as RR.
  assert (OX : forall q, 0 <= q < k -> q < nrows A -> total (fun i => x i * ent P (e i) q)%R m = 0%R).
  { intros q Hq _. rewrite <- (HC q ltac:(lia)). unfold total, x.
    transitivity (rsum (fun i => rsum (fun j => c j * (ent P' i j * ent P (e i) q))%R (Datatypes.S (Z.to_nat k))) (Z.to_nat m)).
    - apply rsum_ext. intros i _. rewrite Rmult_comm, <- rsum_scal. apply rsum_ext. intros; ring.
    - rewrite rsum_swap. apply rsum_ext. intros j _. rewrite rsum_scal. ring. }
  specialize (RR OX). clear OX HC.
  (* both forms of x, through its coefficients *)
  assert (CO : forall (w : Z -> R), total (fun i => x i * rsum (fun j => w j * (c j * ent P' i j))%R (Datatypes.S (Z.to_nat k)))%R m = rsum (fun j => w j * (c j * c j))%R (Datatypes.S (Z.to_nat k))).
  { intros w. unfold total, x.
    transitivity (rsum (fun i => rsum (fun j => rsum (fun j' => w j' * c j * c j' * (ent P' i j * ent P' i j'))%R (Datatypes.S (Z.to_nat k))) (Datatypes.S (Z.to_nat k))) (Z.to_nat m)).
    - apply rsum_ext. intros i _. rewrite rsum_mul. apply rsum_ext. intros j _. apply rsum_ext. intros; ring.
    - rewrite rsum_swap. apply rsum_ext. intros j Hj. rewrite rsum_swap. rewrite (rsum_single _ _ j); [|lia|].
      + rewrite rsum_scal. destruct (HO j j ltac:(lia) ltac:(lia)) as [O _]. unfold total in O. rewrite O, Z.eqb_refl. ring.
      + intros j' Hj' Nj. rewrite rsum_scal. destruct (HO j j' ltac:(lia) ltac:(lia)) as [O _]. unfold total in O. rewrite O. replace (j =? j') with false by lia. ring. }
  assert (NX : total (fun i => x i * x i)%R m = rsum (fun j => 1 * (c j * c j))%R (Datatypes.S (Z.to_nat k))).
  { rewrite <- (CO (fun _ => 1%R)). unfold total. apply rsum_ext. intros i _. unfold x at 2. f_equal. apply rsum_ext. intros; ring. }
  assert (QX : total (fun i => total (fun j => x i * ent A (e i) (e j) * x j)%R m) m = rsum (fun j => nth (Z.to_nat j) vals' 0 * (c j * c j))%R (Datatypes.S (Z.to_nat k))).
  { rewrite <- (CO (fun j => nth (Z.to_nat j) vals' 0%R)). unfold total in *. apply rsum_ext. intros i Hi'.
    transitivity (rsum (fun j => x i * rsum (fun q => c q * (ent A' i j * ent P' j q))%R (Datatypes.S (Z.to_nat k)))%R (Z.to_nat m)).
    - apply rsum_ext. intros j Hj. rewrite <- HA by lia. unfold x at 2. rewrite <- rsum_scal, <- rsum_scal. apply rsum_ext. intros; ring.
    - rewrite rsum_scal. f_equal. rewrite rsum_swap. apply rsum_ext. intros q Hq. rewrite rsum_scal, HE by lia. ring. }
  rewrite NX, QX in RR.
  assert (UP : (rsum (fun j => nth (Z.to_nat j) vals' 0 * (c j * c j)) (Datatypes.S (Z.to_nat k)) <= nth (Z.to_nat k) vals' 0 * rsum (fun j => 1 * (c j * c j)) (Datatypes.S (Z.to_nat k)))%R).
  { rewrite <- rsum_scal. apply rsum_le. intros j Hj. pose proof (later_greater vals' j k S ltac:(lia) ltac:(lia)). pose proof (Rle_0_sqr (c j)) as Q. unfold Rsqr in Q. nra. }
  assert (PO : (0 < rsum (fun j => 1 * (c j * c j)) (Datatypes.S (Z.to_nat k)))%R).
  { apply Rlt_le_trans with (rsum (fun j => if j =? j0 then c j0 * c j0 else 0)%R (Datatypes.S (Z.to_nat k))).
    - rewrite (rsum_single _ _ j0); [|lia|intros j _ Nj; replace (j =? j0) with false by lia; reflexivity].
      rewrite Z.eqb_refl. pose proof (Rsqr_pos_lt _ Nj0) as Q. exact Q.
    - apply rsum_le. intros j _. pose proof (Rle_0_sqr (c j)) as Q. unfold Rsqr in Q. destruct (Z.eqb_spec j j0) as [-> | _]; lra. }
  apply Rmult_le_reg_r with (1 := PO). lra.
Qed.
