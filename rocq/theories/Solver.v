(** What two eigenvalue routines must agree on. *)

From Coq Require Import Reals Lra Permutation Sorted.
From Coq Require Import Lia ZifyBool ZifyNat.
From Verif Require Import PyBase PyFacts Matrix RadialMESpec RadialMEFacts IdFacts PropsCGSO3 Spectrum Ritz PropsAmplitude.
Open Scope Z_scope.

Lemma total_mul f g n m : (total f n * total g m)%R = total (fun a => total (fun b => f a * g b)%R m) n.
Proof. apply rsum_mul. Qed.
Lemma total_scal_r c f n : total (fun k => f k * c)%R n = (total f n * c)%R.
Proof. rewrite Rmult_comm, <- total_scal. apply total_ext. intros; ring. Qed.
Lemma total_delta (f : Z -> R) n i : 0 <= i < n -> total (fun k => f k * (if k =? i then 1 else 0))%R n = f i.
Proof.
  intros Hi. unfold total. rewrite (rsum_single _ _ i); [rewrite Z.eqb_refl; ring|lia|].
  intros k Hk N. replace (k =? i) with false by lia. ring.
Qed.

(** 1 if the k-th value is x. *)
Definition at_level (vals : list R) (x : R) (k : Z) : R := if Req_EM_T (nth (Z.to_nat k) vals 0%R) x then 1%R else 0%R.

Section Two.
  Variables (A : mat R) (vals vals' : list R) (P P' : mat R).
  Hypothesis HA : forall i j, 0 <= i < nrows A -> 0 <= j < nrows A -> ent A i j = ent A j i.
  Hypothesis D : eigen_decomposition A vals P.
  Hypothesis D' : eigen_decomposition A vals' P'.
  Let n := nrows A.
  Let U (k l : Z) : R := total (fun i => ent P i k * ent P' i l)%R n.

  (** Eigenvectors of different eigenvalues are orthogonal. *)
  Lemma overlap k l : 0 <= k < n -> 0 <= l < n -> nth (Z.to_nat k) vals 0%R <> nth (Z.to_nat l) vals' 0%R -> U k l = 0%R.
  Proof.
    intros Hk Hl N. destruct D as (_ & _ & _ & _ & HE & _). destruct D' as (_ & _ & _ & _ & HE' & _). fold n in HE, HE'.
    assert (E : (nth (Z.to_nat k) vals 0%R * U k l = nth (Z.to_nat l) vals' 0%R * U k l)%R).
    { unfold U. rewrite <- !total_scal.
      rewrite (total_ext (fun i => nth (Z.to_nat k) vals 0 * (ent P i k * ent P' i l))%R (fun i => total (fun j => ent A i j * ent P j k * ent P' i l)%R n) n).
      2:{ intros i Hi. rewrite total_scal_r, HE by assumption. ring. }
      rewrite total_swap. apply total_ext. intros j Hj.
      rewrite (total_ext _ (fun i => ent P j k * (ent A j i * ent P' i l))%R n) by (intros i Hi; rewrite (HA i j) by assumption; ring).
      rewrite total_scal, HE' by assumption. ring. }
    apply Rminus_diag_eq in E. rewrite <- Rmult_minus_distr_r in E. apply Rmult_integral in E. destruct E as [E|E]; [|exact E].
    apply Rminus_diag_uniq in E. contradiction.
  Qed.

  Lemma expand i l : 0 <= i < n -> 0 <= l < n -> ent P' i l = total (fun k => ent P i k * U k l)%R n.
  Proof.
    intros Hi Hl. destruct D as (_ & _ & _ & _ & _ & HO). fold n in HO. unfold U.
    rewrite (total_ext _ (fun k => total (fun j => ent P' j l * (ent P i k * ent P j k))%R n) n).
    2:{ intros k Hk. rewrite <- total_scal. apply total_ext. intros; ring. }
    rewrite total_swap. rewrite <- (total_delta (fun j => ent P' j l) n i Hi). apply total_ext. intros j Hj.
    rewrite total_scal, (proj2 (HO i j Hi Hj)), (Z.eqb_sym i j). reflexivity.
  Qed.
  Lemma expand' i k : 0 <= i < n -> 0 <= k < n -> ent P i k = total (fun l => U k l * ent P' i l)%R n.
  Proof.
    intros Hi Hk. destruct D' as (_ & _ & _ & _ & _ & HO). fold n in HO. unfold U.
    rewrite (total_ext _ (fun l => total (fun j => ent P j k * (ent P' i l * ent P' j l))%R n) n).
    2:{ intros l Hl. rewrite <- total_scal_r. apply total_ext. intros; ring. }
    rewrite total_swap. rewrite <- (total_delta (fun j => ent P j k) n i Hi). apply total_ext. intros j Hj.
    rewrite total_scal, (proj2 (HO i j Hi Hj)), (Z.eqb_sym i j). reflexivity.
  Qed.

  (** The projector on the eigenspace of x. *)
  Lemma projector x i j : 0 <= i < n -> 0 <= j < n ->
    total (fun k => at_level vals x k * (ent P i k * ent P j k))%R n = total (fun k => at_level vals' x k * (ent P' i k * ent P' j k))%R n.
  Proof.
    intros Hi Hj. symmetry.
    rewrite (total_ext _ (fun l => total (fun k => ent P i k * (at_level vals' x l * U k l * ent P' j l))%R n) n).
    2:{ intros l Hl. rewrite (expand i l Hi Hl) at 1. rewrite <- total_scal_r, <- total_scal. apply total_ext. intros; ring. }
    rewrite total_swap. apply total_ext. intros k Hk.
    rewrite (total_ext _ (fun l => at_level vals x k * ent P i k * (U k l * ent P' j l))%R n).
    2:{ intros l Hl. destruct (Req_EM_T (nth (Z.to_nat k) vals 0%R) (nth (Z.to_nat l) vals' 0%R)) as [E|N].
        - unfold at_level. rewrite E. ring.
        - rewrite (overlap k l Hk Hl N). ring. }
    rewrite total_scal, <- (expand' j k Hj Hk). ring.
  Qed.

  Lemma level_count x : count_occ Req_EM_T vals x = count_occ Req_EM_T vals' x.
  Proof.
    apply INR_eq. rewrite !(count_total x _ 0%R).
    assert (L1 : length vals = Z.to_nat n) by (destruct D as (E & _); fold n in E; unfold zlen in E; lia).
    assert (L2 : length vals' = Z.to_nat n) by (destruct D' as (E & _); fold n in E; unfold zlen in E; lia).
    rewrite L1, L2. change (total (at_level vals x) n = total (at_level vals' x) n).
    rewrite (total_ext (at_level vals x) (fun k => total (fun i => at_level vals x k * (ent P i k * ent P i k))%R n) n).
    2:{ intros k Hk. rewrite total_scal. destruct D as (_ & _ & _ & _ & _ & HO). fold n in HO. rewrite (proj1 (HO k k Hk Hk)), Z.eqb_refl. ring. }
    rewrite (total_ext (at_level vals' x) (fun k => total (fun i => at_level vals' x k * (ent P' i k * ent P' i k))%R n) n).
    2:{ intros k Hk. rewrite total_scal. destruct D' as (_ & _ & _ & _ & _ & HO). fold n in HO. rewrite (proj1 (HO k k Hk Hk)), Z.eqb_refl. ring. }
    rewrite (total_swap (fun k i => at_level vals x k * (ent P i k * ent P i k))%R), (total_swap (fun k i => at_level vals' x k * (ent P' i k * ent P' i k))%R).
    apply total_ext. intros i Hi. now apply projector.
  Qed.

  (** The length of the projection of a vector. *)
  Lemma projection x (y : Z -> R) :
    total (fun k => at_level vals x k * total (fun a => ent P a k * y a)%R n ^ 2)%R n
    = total (fun k => at_level vals' x k * total (fun a => ent P' a k * y a)%R n ^ 2)%R n.
  Proof.
    assert (G : forall v (Q : mat R), total (fun k => at_level v x k * total (fun a => ent Q a k * y a)%R n ^ 2)%R n
      = total (fun a => total (fun b => y a * y b * total (fun k => at_level v x k * (ent Q a k * ent Q b k))%R n)%R n) n).
    { intros v Q.
      rewrite (total_ext _ (fun k => total (fun a => total (fun b => y a * y b * (at_level v x k * (ent Q a k * ent Q b k)))%R n) n) n).
      2:{ intros k Hk. cbn [pow]. rewrite Rmult_1_r, total_mul, <- total_scal. apply total_ext. intros a Ha. rewrite <- total_scal. apply total_ext. intros; ring. }
      rewrite total_swap. apply total_ext. intros a Ha. rewrite total_swap. apply total_ext. intros b Hb. now rewrite total_scal. }
    rewrite !G. apply total_ext. intros a Ha. apply total_ext. intros b Hb. f_equal. now apply projector.
  Qed.
End Two.

Lemma sorted_eq (l l' : list R) : StronglySorted Rle l -> StronglySorted Rle l' -> Permutation l l' -> l = l'.
Proof.
  revert l'. induction l as [|x l IH]; intros l' H1 H2 HP.
  - now apply Permutation_nil in HP.
  - destruct l' as [|y l']; [symmetry in HP; now apply Permutation_nil in HP|].
    inversion H1 as [|? ? S1 F1]; subst. inversion H2 as [|? ? S2 F2]; subst. rewrite Forall_forall in F1, F2.
    assert (x = y) as ->.
    { apply Rle_antisym.
      - assert (I : In y (x :: l)) by (apply (Permutation_in _ (Permutation_sym HP)); now left). destruct I as [->|I]; [apply Rle_refl|now apply F1].
      - assert (I : In x (y :: l')) by (apply (Permutation_in _ HP); now left). destruct I as [->|I]; [apply Rle_refl|now apply F2]. }
    f_equal. apply IH; try assumption. now apply Permutation_cons_inv in HP.
Qed.

(** The eigenvalues in ascending order are determined. *)
Theorem same_levels A vals P vals' P' : (forall i j, 0 <= i < nrows A -> 0 <= j < nrows A -> ent A i j = ent A j i) ->
  eigen_decomposition A vals P -> eigen_decomposition A vals' P' -> vals = vals'.
Proof.
  intros HA D D'. apply sorted_eq; [apply D|apply D'|]. apply (Permutation_count_occ Req_EM_T). intros x. eapply level_count; eassumption.
Qed.

(** The total strength between two levels is determined. *)
Theorem same_strength A1 A2 v1 v2 P1 P2 P1' P2' T r c x1 x2 :
  (forall i j, 0 <= i < nrows A1 -> 0 <= j < nrows A1 -> ent A1 i j = ent A1 j i) ->
  (forall i j, 0 <= i < nrows A2 -> 0 <= j < nrows A2 -> ent A2 i j = ent A2 j i) ->
  eigen_decomposition A1 v1 P1 -> eigen_decomposition A1 v1 P1' -> eigen_decomposition A2 v2 P2 -> eigen_decomposition A2 v2 P2' ->
  total (fun k1 => total (fun k2 => at_level v1 x1 k1 * at_level v2 x2 k2 * bracket P2 k2 T r c P1 k1 ^ 2)%R (nrows A2)) (nrows A1)
  = total (fun k1 => total (fun k2 => at_level v1 x1 k1 * at_level v2 x2 k2 * bracket P2' k2 T r c P1' k1 ^ 2)%R (nrows A2)) (nrows A1).
Proof.
  intros S1 S2 D1 D1' D2 D2'.
  assert (B : forall (Q2 Q1 : mat R) k2 k1, nrows Q2 = nrows A2 -> nrows Q1 = nrows A1 ->
    bracket Q2 k2 T r c Q1 k1 = total (fun a => ent Q2 a k2 * total (fun b => ent T (r + a) (c + b) * ent Q1 b k1)%R (nrows A1))%R (nrows A2)).
  { intros Q2 Q1 k2 k1 E2 E1. unfold bracket. rewrite E1, E2. apply total_ext. intros a Ha. rewrite <- total_scal. apply total_ext. intros; ring. }
  assert (B' : forall (Q2 Q1 : mat R) k2 k1, nrows Q2 = nrows A2 -> nrows Q1 = nrows A1 ->
    bracket Q2 k2 T r c Q1 k1 = total (fun b => ent Q1 b k1 * total (fun a => ent T (r + a) (c + b) * ent Q2 a k2)%R (nrows A2))%R (nrows A1)).
  { intros Q2 Q1 k2 k1 E2 E1. unfold bracket. rewrite E1, E2. rewrite total_swap. apply total_ext. intros b Hb. rewrite <- total_scal. apply total_ext. intros; ring. }
  pose proof (proj1 (proj2 D1)) as N1. pose proof (proj1 (proj2 D1')) as N1'. pose proof (proj1 (proj2 D2)) as N2. pose proof (proj1 (proj2 D2')) as N2'.
  transitivity (total (fun k1 => total (fun k2 => at_level v1 x1 k1 * at_level v2 x2 k2 * bracket P2' k2 T r c P1 k1 ^ 2)%R (nrows A2)) (nrows A1)).
  - apply total_ext. intros k1 Hk1.
    rewrite (total_ext _ (fun k2 => at_level v1 x1 k1 * (at_level v2 x2 k2 * bracket P2 k2 T r c P1 k1 ^ 2))%R) by (intros; ring).
    rewrite (total_ext (fun k2 => at_level v1 x1 k1 * at_level v2 x2 k2 * bracket P2' k2 T r c P1 k1 ^ 2)%R (fun k2 => at_level v1 x1 k1 * (at_level v2 x2 k2 * bracket P2' k2 T r c P1 k1 ^ 2))%R) by (intros; ring).
    rewrite !total_scal. f_equal.
    rewrite (total_ext (fun k2 => at_level v2 x2 k2 * bracket P2 k2 T r c P1 k1 ^ 2)%R
      (fun k2 => at_level v2 x2 k2 * total (fun a => ent P2 a k2 * total (fun b => ent T (r + a) (c + b) * ent P1 b k1)%R (nrows A1))%R (nrows A2) ^ 2)%R) by (intros; now rewrite B).
    rewrite (total_ext (fun k2 => at_level v2 x2 k2 * bracket P2' k2 T r c P1 k1 ^ 2)%R
      (fun k2 => at_level v2 x2 k2 * total (fun a => ent P2' a k2 * total (fun b => ent T (r + a) (c + b) * ent P1 b k1)%R (nrows A1))%R (nrows A2) ^ 2)%R) by (intros; now rewrite B).
    now apply (projection A2 v2 v2 P2 P2' S2 D2 D2').
  - rewrite (total_swap (fun k1 k2 => at_level v1 x1 k1 * at_level v2 x2 k2 * bracket P2' k2 T r c P1 k1 ^ 2)%R),
      (total_swap (fun k1 k2 => at_level v1 x1 k1 * at_level v2 x2 k2 * bracket P2' k2 T r c P1' k1 ^ 2)%R).
    apply total_ext. intros k2 Hk2.
    rewrite (total_ext _ (fun k1 => at_level v2 x2 k2 * (at_level v1 x1 k1 * bracket P2' k2 T r c P1 k1 ^ 2))%R) by (intros; ring).
    rewrite (total_ext (fun k1 => at_level v1 x1 k1 * at_level v2 x2 k2 * bracket P2' k2 T r c P1' k1 ^ 2)%R (fun k1 => at_level v2 x2 k2 * (at_level v1 x1 k1 * bracket P2' k2 T r c P1' k1 ^ 2))%R) by (intros; ring).
    rewrite !total_scal. f_equal.
    rewrite (total_ext (fun k1 => at_level v1 x1 k1 * bracket P2' k2 T r c P1 k1 ^ 2)%R
      (fun k1 => at_level v1 x1 k1 * total (fun b => ent P1 b k1 * total (fun a => ent T (r + a) (c + b) * ent P2' a k2)%R (nrows A2))%R (nrows A1) ^ 2)%R) by (intros; now rewrite B').
    rewrite (total_ext (fun k1 => at_level v1 x1 k1 * bracket P2' k2 T r c P1' k1 ^ 2)%R
      (fun k1 => at_level v1 x1 k1 * total (fun b => ent P1' b k1 * total (fun a => ent T (r + a) (c + b) * ent P2' a k2)%R (nrows A2))%R (nrows A1) ^ 2)%R) by (intros; now rewrite B').
    now apply (projection A1 v1 v1 P1 P1' S1 D1 D1').
Qed.

(** A level that occurs once. *)
Definition simple_level (vals : list R) (k : Z) : Prop :=
  forall j, 0 <= j < zlen vals -> nth (Z.to_nat j) vals 0%R = nth (Z.to_nat k) vals 0%R -> j = k.

Lemma simple_total vals k (f : Z -> R) n : simple_level vals k -> zlen vals = n -> 0 <= k < n ->
  total (fun j => at_level vals (nth (Z.to_nat k) vals 0%R) j * f j)%R n = f k.
Proof.
  intros S E Hk. unfold total. rewrite (rsum_single _ _ k); [|lia|].
  - unfold at_level. destruct (Req_EM_T _ _); [ring|congruence].
  - intros j Hj N. unfold at_level. destruct (Req_EM_T _ _) as [Q|]; [|ring]. exfalso. apply N, S; [lia|exact Q].
Qed.

Theorem same_amplitude A1 A2 v1 v2 P1 P2 P1' P2' T r c k1 k2 :
  (forall i j, 0 <= i < nrows A1 -> 0 <= j < nrows A1 -> ent A1 i j = ent A1 j i) ->
  (forall i j, 0 <= i < nrows A2 -> 0 <= j < nrows A2 -> ent A2 i j = ent A2 j i) ->
  eigen_decomposition A1 v1 P1 -> eigen_decomposition A1 v1 P1' -> eigen_decomposition A2 v2 P2 -> eigen_decomposition A2 v2 P2' ->
  0 <= k1 < nrows A1 -> 0 <= k2 < nrows A2 -> simple_level v1 k1 -> simple_level v2 k2 ->
  bracket P2 k2 T r c P1 k1 = bracket P2' k2 T r c P1' k1 \/ bracket P2 k2 T r c P1 k1 = (- bracket P2' k2 T r c P1' k1)%R.
Proof.
  intros S1 S2 D1 D1' D2 D2' H1 H2 L1 L2.
  pose proof (same_strength A1 A2 v1 v2 P1 P2 P1' P2' T r c (nth (Z.to_nat k1) v1 0%R) (nth (Z.to_nat k2) v2 0%R) S1 S2 D1 D1' D2 D2') as E.
  assert (G : forall F : Z -> Z -> R, total (fun a => total (fun b => at_level v1 (nth (Z.to_nat k1) v1 0%R) a * at_level v2 (nth (Z.to_nat k2) v2 0%R) b * F a b)%R (nrows A2)) (nrows A1) = F k1 k2).
  { intros F. rewrite <- (simple_total v1 k1 (fun a => F a k2) (nrows A1) L1 (proj1 D1) H1). apply total_ext. intros a Ha.
    rewrite <- (simple_total v2 k2 (fun b => F a b) (nrows A2) L2 (proj1 D2) H2), <- total_scal. apply total_ext. intros; ring. }
  rewrite (G (fun a b => bracket P2 b T r c P1 a ^ 2)%R), (G (fun a b => bracket P2' b T r c P1' a ^ 2)%R) in E.
  assert (Z0 : ((bracket P2 k2 T r c P1 k1 - bracket P2' k2 T r c P1' k1) * (bracket P2 k2 T r c P1 k1 + bracket P2' k2 T r c P1' k1) = 0)%R) by (cbn [pow] in E; lra).
  apply Rmult_integral in Z0. destruct Z0; [left|right]; lra.
Qed.
