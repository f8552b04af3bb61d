(** What an eigenvalue routine owes for a symmetric matrix, and what follows
    for a diagonal one. *)

From Coq Require Import Reals Lra Permutation Sorted.
From Coq Require Import Lia ZifyBool ZifyNat.
From Verif Require Import PyBase PyFacts Matrix RadialMESpec RadialMEFacts IdFacts PropsCGSO3.
Open Scope Z_scope.

(** The sum of [f 0 .. f (n-1)]. *)
Definition total (f : Z -> R) (n : Z) : R := rsum f (Z.to_nat n).

(** [vals] in increasing order and the columns of the orthogonal matrix [P]
    are eigenvalues and eigenvectors of [A]. *)
Definition eigen_decomposition (A : mat R) (vals : list R) (P : mat R) : Prop :=
  let n := nrows A in
  zlen vals = n /\ nrows P = n /\ ncols P = n /\ StronglySorted Rle vals /\
  (forall i j, 0 <= i < n -> 0 <= j < n ->
     total (fun k => ent A i k * ent P k j)%R n = (nth (Z.to_nat j) vals 0 * ent P i j)%R) /\
  (forall i j, 0 <= i < n -> 0 <= j < n ->
     total (fun k => ent P k i * ent P k j)%R n = (if i =? j then 1 else 0)%R /\
     total (fun k => ent P i k * ent P j k)%R n = (if i =? j then 1 else 0)%R).

(** [np.linalg.eigh]: what it returns for a symmetric matrix, if it returns. *)
Definition eigh_sound (eigh : mat R -> res (list R * mat R)) : Prop :=
  forall A vals P, nrows A = ncols A -> (forall i j, 0 <= i < nrows A -> 0 <= j < nrows A -> ent A i j = ent A j i) ->
    eigh A = Ok (vals, P) -> eigen_decomposition A vals P.

Lemma count_total (x : R) l : forall d : R,
  INR (count_occ Req_EM_T l x) = rsum (fun k => if Req_EM_T (nth (Z.to_nat k) l d) x then 1 else 0)%R (length l).
Proof.
  intros d. induction l as [|y l IH] using rev_ind; [reflexivity|].
  rewrite count_occ_app, plus_INR, IH, app_length. cbn [length]. rewrite Nat.add_1_r. cbn [rsum].
  f_equal.
  - apply rsum_ext. intros k Hk. rewrite app_nth1 by lia. reflexivity.
  - rewrite Nat2Z.id, app_nth2, Nat.sub_diag by lia. cbn [nth count_occ]. destruct (Req_EM_T y x); reflexivity.
Qed.

(** The eigenvalues of a diagonal matrix are its diagonal entries, each as
    often as it occurs. *)
Theorem diagonal_spectrum A vals P (d : list R) :
  eigen_decomposition A vals P -> zlen d = nrows A ->
  (forall i j, 0 <= i < nrows A -> 0 <= j < nrows A -> ent A i j = if i =? j then nth (Z.to_nat i) d 0%R else 0%R) ->
  Permutation vals d.
Proof.
  intros (Hl & Hr & Hc & _ & HE & HO) Hd HA. set (n := nrows A) in *.
  assert (N0 : 0 <= n) by (rewrite <- Hl; apply zlen_nonneg).
  assert (K : forall i j, 0 <= i < n -> 0 <= j < n -> (nth (Z.to_nat i) d 0 * ent P i j = nth (Z.to_nat j) vals 0 * ent P i j)%R).
  { intros i j Hi Hj. rewrite <- HE by assumption. unfold total. symmetry.
    rewrite (rsum_ext _ (fun k => if k =? i then nth (Z.to_nat i) d 0%R * ent P i j else 0)%R).
    - rewrite (rsum_single _ _ i); [now rewrite Z.eqb_refl|lia|].
      intros k Hk Hne. replace (k =? i) with false by lia. reflexivity.
    - intros k Hk. rewrite HA by lia. rewrite Z.eqb_sym. destruct (k =? i) eqn:E; [|ring].
      replace k with i by lia. reflexivity. }
  assert (Hlv : length vals = Z.to_nat n) by (unfold zlen in Hl; lia).
  assert (Hld : length d = Z.to_nat n) by (unfold zlen in Hd; lia).
  apply (Permutation_count_occ Req_EM_T). intros x. apply INR_eq. rewrite !(count_total x _ 0%R), Hlv, Hld.
  set (f := fun y : R => (if Req_EM_T y x then 1 else 0)%R).
  assert (S1 : forall j, 0 <= j < n -> f (nth (Z.to_nat j) vals 0%R) = rsum (fun i => ent P i j * ent P i j * f (nth (Z.to_nat j) vals 0))%R (Z.to_nat n)).
  { intros j Hj. rewrite (rsum_ext _ (fun i => f (nth (Z.to_nat j) vals 0) * (ent P i j * ent P i j))%R) by (intros; ring).
    rewrite rsum_scal. destruct (HO j j Hj Hj) as [O1 _]. unfold total in O1. rewrite O1, Z.eqb_refl. ring. }
  assert (S2 : forall i, 0 <= i < n -> f (nth (Z.to_nat i) d 0%R) = rsum (fun j => ent P i j * ent P i j * f (nth (Z.to_nat i) d 0))%R (Z.to_nat n)).
  { intros i Hi. rewrite (rsum_ext _ (fun j => f (nth (Z.to_nat i) d 0) * (ent P i j * ent P i j))%R) by (intros; ring).
    rewrite rsum_scal. destruct (HO i i Hi Hi) as [_ O1]. unfold total in O1. rewrite O1, Z.eqb_refl. ring. }
  rewrite (rsum_ext (fun k => (if Req_EM_T (nth (Z.to_nat k) vals 0) x then 1 else 0)%R) (fun j => rsum (fun i => ent P i j * ent P i j * f (nth (Z.to_nat j) vals 0))%R (Z.to_nat n))).
  2:{ intros j Hj. apply (S1 j). lia. }
  rewrite (rsum_ext (fun k => (if Req_EM_T (nth (Z.to_nat k) d 0) x then 1 else 0)%R) (fun i => rsum (fun j => ent P i j * ent P i j * f (nth (Z.to_nat i) d 0))%R (Z.to_nat n))).
  2:{ intros i Hi. apply (S2 i). lia. }
  rewrite rsum_swap. apply rsum_ext. intros i Hi. apply rsum_ext. intros j Hj.
  destruct (Req_dec (ent P i j) 0) as [Z0|NZ]; [rewrite Z0; ring|].
  assert (nth (Z.to_nat i) d 0%R = nth (Z.to_nat j) vals 0%R) as ->; [|reflexivity].
  apply (Rmult_eq_reg_r (ent P i j)); [apply K; lia|exact NZ].
Qed.

(** A routine that is sound and returns for the diagonal matrices whose
    diagonal is in increasing order. *)
Definition diagonal_of (A : mat R) : list R := map (fun i => ent A i i) (py_range 0 (nrows A)).
Definition ascending_diagonal (A : mat R) : bool :=
  (0 <=? nrows A) && forallb (fun i => forallb (fun j =>
    if i =? j then true else if Req_EM_T (ent A i j) 0 then (if i <? j then (if Rle_dec (ent A i i) (ent A j j) then true else false) else true) else false)
    (py_range 0 (nrows A))) (py_range 0 (nrows A)).
Definition eigh0 (A : mat R) : res (list R * mat R) :=
  if ascending_diagonal A then Ok (diagonal_of A, eye (nrows A)) else Raise ValueError.

Lemma ssorted_nth (l : list R) : (forall i j : nat, (i < j < length l)%nat -> (nth i l 0 <= nth j l 0)%R) -> StronglySorted Rle l.
Proof.
  induction l as [|x l IH]; intros H; [constructor|]. constructor.
  - apply IH. intros i j Hij. apply (H (S i) (S j)). cbn [length]. lia.
  - apply Forall_forall. intros y Hy. apply (In_nth _ _ 0%R) in Hy. destruct Hy as (k & Hk & <-).
    apply (H 0%nat (S k)). cbn [length]. lia.
Qed.

Lemma diagonal_nth A i : 0 <= i < nrows A -> nth (Z.to_nat i) (diagonal_of A) 0%R = ent A i i.
Proof.
  intros Hi. unfold diagonal_of.
  assert (E : nth_error (py_range 0 (nrows A)) (Z.to_nat i) = Some i).
  { rewrite py_range_nth by lia. f_equal. lia. }
  apply nth_error_nth. now rewrite (map_nth_error _ _ _ E).
Qed.

Lemma eigh0_sound : eigh_sound eigh0.
Proof.
  intros A vals P Sq Sym E. unfold eigh0 in E. destruct (ascending_diagonal A) eqn:D; [|discriminate].
  injection E as <- <-. unfold ascending_diagonal in D. apply andb_prop in D. destruct D as [D0 D].
  assert (Off : forall i j, 0 <= i < nrows A -> 0 <= j < nrows A -> i <> j -> ent A i j = 0%R /\ (i < j -> (ent A i i <= ent A j j)%R)).
  { intros i j Hi Hj N. rewrite forallb_forall in D. specialize (D i ltac:(apply py_range_In; lia)).
    rewrite forallb_forall in D. specialize (D j ltac:(apply py_range_In; lia)). replace (i =? j) with false in D by lia.
    destruct (Req_EM_T (ent A i j) 0); [|discriminate]. split; [assumption|]. intros L. replace (i <? j) with true in D by lia.
    destruct (Rle_dec _ _); [assumption|discriminate]. }
  assert (Len : zlen (diagonal_of A) = nrows A) by (unfold diagonal_of; rewrite zlen_map; unfold zlen; rewrite py_range_length; lia).
  assert (Sg : forall (f : Z -> R) i, 0 <= i < nrows A -> (forall k, 0 <= k < nrows A -> k <> i -> f k = 0%R) -> total f (nrows A) = f i).
  { intros f i Hi Hf. unfold total. apply rsum_single; [lia|]. intros k Hk Ne. apply Hf; lia. }
  split; [exact Len|]. split; [reflexivity|]. split; [reflexivity|]. split; [|split].
  - apply ssorted_nth. intros i j Hij. unfold zlen in Len.
    pose proof (diagonal_nth A (Z.of_nat i) ltac:(lia)) as Ei. pose proof (diagonal_nth A (Z.of_nat j) ltac:(lia)) as Ej.
    rewrite Nat2Z.id in Ei, Ej. rewrite Ei, Ej. apply Off; lia.
  - intros i j Hi Hj. rewrite diagonal_nth by assumption. cbn [eye ent].
    rewrite (Sg _ j Hj).
    + rewrite Z.eqb_refl. destruct (i =? j) eqn:B; [replace j with i by lia; ring|]. rewrite (proj1 (Off i j Hi Hj ltac:(lia))). ring.
    + intros k Hk Ne. replace (k =? j) with false by lia. ring.
  - intros i j Hi Hj. cbn [eye ent]. split.
    + rewrite (Sg _ i Hi); [rewrite Z.eqb_refl; ring|]. intros k Hk Ne. replace (k =? i) with false by lia. ring.
    + rewrite (Sg _ i Hi); [rewrite Z.eqb_refl; rewrite (Z.eqb_sym j i); ring|]. intros k Hk Ne. replace (i =? k) with false by lia. ring.
Qed.
