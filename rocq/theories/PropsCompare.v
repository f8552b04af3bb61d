(** C70: the comparison and conversion helpers. *)

From Coq Require Import Reals Lra Psatz Lia.
From Verif Require Import PyBase PyFacts Compare.
Open Scope R_scope.

Lemma rle_spec x y : rle x y = true <-> x <= y.
Proof. unfold rle. destruct (Rle_dec x y); split; intros; try easy; lra. Qed.

Lemma rle_false x y : y < x -> rle x y = false.
Proof. unfold rle. destruct (Rle_dec x y); [lra|reflexivity]. Qed.

Lemma isclose_zero z tol : 0 <= tol -> isclose z 0 tol = Ok (rle (Rabs z) tol).
Proof.
  intros H. unfold isclose. destruct (Rlt_dec tol 0); [lra|]. destruct (Req_EM_T z 0) as [->|N].
  - rewrite Rabs_R0. f_equal. symmetry. apply rle_spec. exact H.
  - replace (0 - z) with (- z) by ring. rewrite Rabs_Ropp, Rmult_0_r, Rabs_R0. pose proof (Rabs_pos_lt z N) as P.
    rewrite (rle_false (Rabs z) 0) by lra. rewrite Rabs_mult, (Rabs_right (/ 10 ^ 9)) by lra.
    rewrite (rle_false (Rabs z) (/ 10 ^ 9 * Rabs z)) by lra. reflexivity.
Qed.

Theorem C70_zeros : forall zs tol, 0 <= tol ->
  exists b, is_zeros zs tol = Ok b /\ (b = true <-> forall z, In z zs -> Rabs z <= tol).
Proof.
  intros zs tol H. unfold is_zeros. induction zs as [|z zs (b & E & I)]; cbn [all_of]; [exists true; split; [reflexivity|split; easy]|].
  rewrite isclose_zero by exact H. cbn [bind]. destruct (rle (Rabs z) tol) eqn:C.
  - exists b. split; [exact E|]. rewrite I. apply rle_spec in C. split; [intros A x [<-|X]; [exact C|now apply A]|intros A x X; apply A; now right].
  - exists false. split; [reflexivity|]. split; [easy|]. intros A. rewrite (proj2 (rle_spec _ _) (A z (or_introl eq_refl))) in C. discriminate.
Qed.

Theorem C70_close : forall xs ys tol, 0 <= tol ->
  exists b, is_close xs ys tol = Ok b /\
    (b = true <-> length xs = length ys /\ forall i x y, nth_error xs i = Some x -> nth_error ys i = Some y -> Rabs (x - y) <= tol).
Proof.
  intros xs ys tol H. unfold is_close. destruct (Nat.eqb_spec (length xs) (length ys)) as [L|L]; cbn [negb].
  2: { exists false. split; [reflexivity|]. split; [easy|]. intros [A _]. contradiction. }
  destruct (C70_zeros (map (fun p => fst p - snd p) (combine xs ys)) tol H) as (b & E & I). exists b. split; [exact E|]. rewrite I.
  clear b E I. revert ys L. induction xs as [|x xs IH]; intros [|y ys] L; try discriminate.
  - split; [intros _; split; [reflexivity|intros [|i] ? ? Q; discriminate]|intros _ z []].
  - injection L as L. specialize (IH ys L). cbn [combine map fst snd In]. split.
    + intros A. split; [cbn; lia|]. intros [|i] u w U W; cbn in U, W.
      * injection U as <-. injection W as <-. apply A. now left.
      * apply (proj2 (proj1 IH (fun z Z => A z (or_intror Z))) i); assumption.
    + intros [_ A] z [<-|Z]; [apply (A 0%nat); reflexivity|]. revert z Z. apply IH. split; [exact L|]. intros i. apply (A (S i)).
Qed.

(** A negative tolerance is an error, except where nothing is compared. *)
Theorem C70_negative_tolerance : forall xs ys tol, tol < 0 ->
  is_close xs ys tol =
    if Nat.eqb (length xs) (length ys) then match xs with [] => Ok true | _ => Raise ValueError end else Ok false.
Proof.
  intros xs ys tol H. unfold is_close. destruct (Nat.eqb_spec (length xs) (length ys)) as [L|L]; cbn [negb]; [|reflexivity].
  destruct xs as [|x xs], ys as [|y ys]; try discriminate; [reflexivity|]. cbn [combine map is_zeros all_of]. unfold is_zeros. cbn [all_of]. unfold isclose at 1.
  destruct (Rlt_dec tol 0); [reflexivity|lra].
Qed.

Theorem C70_sorted : forall vals, is_sorted vals = true <->
  forall i j x y, (i <= j)%nat -> nth_error vals i = Some x -> nth_error vals j = Some y -> x <= y.
Proof.
  unfold is_sorted. induction vals as [|a [|b r] IH].
  - split; [intros _ [|i] j x y _ Q; discriminate|reflexivity].
  - split; [|reflexivity]. intros _ [|i] [|j] x y Hij X Y; cbn in X, Y; try (destruct i; discriminate); try (destruct j; discriminate).
    injection X as <-. injection Y as <-. lra.
  - change (removelast (a :: b :: r)) with (a :: removelast (b :: r)). cbn [tl combine forallb fst snd].
    change (combine (removelast (b :: r)) r) with (combine (removelast (b :: r)) (tl (b :: r))). rewrite Bool.andb_true_iff, rle_spec, IH. split.
    + intros [A Q] [|i] [|j] x y Hij X Y; cbn in X, Y; try lia.
      * injection X as <-. injection Y as <-. lra.
      * injection X as <-. apply Rle_trans with b; [exact A|]. apply (Q 0%nat j b y); [lia|reflexivity|exact Y].
      * apply (Q i j x y); [lia|exact X|exact Y].
    + intros Q. split; [apply (Q 0%nat 1%nat); [lia|reflexivity|reflexivity]|]. intros i j x y Hij X Y. apply (Q (S i) (S j)); [lia|exact X|exact Y].
Qed.

Theorem C70_vector_and_matrix : forall x,
  (is_nd_float x = true <-> is_float64 x = true) /\
  (is_nd_vector x = true <-> is_float64 x = true /\ exists n, nd_shape x = [n]) /\
  (is_nd_matrix x = true <-> is_float64 x = true /\ exists r c, nd_shape x = [r; c]).
Proof.
  intros [f s l]. unfold is_nd_vector, is_nd_matrix, is_nd_float. cbn [is_float64 nd_shape]. split; [reflexivity|].
  rewrite !Bool.andb_true_iff, !Nat.eqb_eq. split; (split; [|intros (A & B); split; [exact A|]]).
  - intros (A & B). split; [exact A|]. destruct s as [|n [|]]; try discriminate. now exists n.
  - destruct B as (n & ->). reflexivity.
  - intros (A & B). split; [exact A|]. destruct s as [|r [|c [|]]]; try discriminate. now exists r, c.
  - destruct B as (r & c & ->). reflexivity.
Qed.

Theorem C70_square : forall m, is_nd_square m = true <-> is_float64 m = true /\ exists n, nd_shape m = [n; n].
Proof.
  intros [f s l]. unfold is_nd_square, is_nd_matrix, is_nd_float. cbn. destruct f; cbn; [|split; [easy|intros [? _]; discriminate]].
  destruct s as [|r [|c [|d s]]]; cbn; try (split; [easy|intros (_ & n & Q); discriminate]).
  rewrite Nat.eqb_eq. split; [intros ->; split; [reflexivity|now exists c]|]. intros (_ & n & Q). congruence.
Qed.

Lemma prod_seq (f : nat -> nat -> res R) (l : list R) : forall r c k, length l = (r * c)%nat ->
  (forall i j x, (i < r)%nat -> (j < c)%nat -> nth_error l (i * c + j) = Some x -> f (k + i)%nat j = Ok x) ->
  mapM (fun p => f (fst p) (snd p)) (list_prod (seq k r) (seq 0 c)) = Ok l.
Proof.
  intros r. revert l. induction r as [|r IH]; intros l c k Hl Hf.
  - destruct l; [reflexivity|discriminate].
  - cbn [seq list_prod].
    assert (A : forall (p : nat * nat -> res R) a b la lb, mapM p a = Ok la -> mapM p b = Ok lb -> mapM p (a ++ b) = Ok (la ++ lb)).
    { clear. intros p a. induction a as [|x a IH]; intros b la lb; cbn [mapM app]; [now intros [= <-] ->|].
      destruct (p x); cbn [bind]; [|discriminate]. destruct (mapM p a) eqn:E; cbn [bind]; [|discriminate]. intros [= <-] Hb. now rewrite (IH b _ _ eq_refl Hb). }
    rewrite <- (firstn_skipn c l). apply A.
    + assert (B : forall (l : list R) n d, length l = n -> (forall j x, (j < n)%nat -> nth_error l j = Some x -> f k (d + j)%nat = Ok x) ->
        mapM (fun p => f (fst p) (snd p)) (map (fun y => (k, y)) (seq d n)) = Ok l).
      { clear. induction l as [|x l IH]; intros [|n] d H F; try discriminate; [reflexivity|]. cbn [seq map mapM fst snd]. injection H as H.
        rewrite <- (Nat.add_0_r d) at 1. rewrite (F 0%nat x ltac:(lia) eq_refl). cbn [bind]. rewrite (IH n (S d) H); [reflexivity|].
        intros j y Hj Y. replace (S d + j)%nat with (d + S j)%nat by lia. apply F; [lia|exact Y]. }
      apply B; [rewrite firstn_length; nia|]. intros j x Hj X. cbn [Nat.add]. replace k with (k + 0)%nat by lia. apply Hf; [lia|exact Hj|].
      cbn [Nat.mul Nat.add]. rewrite <- (firstn_skipn c l), nth_error_app1; [exact X|rewrite firstn_length; nia].
    + apply IH; [rewrite skipn_length; nia|]. intros i j x Hi Hj X. replace (S k + i)%nat with (k + S i)%nat by lia. apply Hf; [lia|exact Hj|].
      rewrite <- (firstn_skipn c l), nth_error_app2; rewrite firstn_length; [|nia]. replace (Nat.min c (length l)) with c by nia.
      now replace (S i * c + j - c)%nat with (i * c + j)%nat by nia.
Qed.

(** Every matrix survives the way to NumPy and back, and element [i, j] of the
    array is element [i, j] of the matrix. *)
Theorem C70_round_trip : forall M, length (m_flat M) = (m_rows M * m_cols M)%nat ->
  exists A, Matrix_to_ndarray M = Ok A /\ is_nd_matrix A = true /\ ndarray_to_Matrix A = Ok M /\
    forall i j, (i < m_rows M)%nat -> (j < m_cols M)%nat -> nd_item A i j = Ok (nth (i * m_cols M + j) (m_flat M) 0).
Proof.
  intros [r c l] H. cbn in H. unfold Matrix_to_ndarray. cbn [m_flat m_rows m_cols]. rewrite (proj2 (Nat.eqb_eq _ _) H).
  set (A := {| is_float64 := true; nd_shape := [r; c]; flat := l |}).
  assert (I : forall i j x, (i < r)%nat -> (j < c)%nat -> nth_error l (i * c + j) = Some x -> nd_item A i j = Ok x).
  { intros i j x Hi Hj X. unfold nd_item. cbn [A nd_shape flat]. rewrite (proj2 (Nat.ltb_lt _ _) Hi), (proj2 (Nat.ltb_lt _ _) Hj). cbn [andb]. now rewrite X. }
  exists A. split; [reflexivity|]. split; [reflexivity|]. split.
  - unfold ndarray_to_Matrix. cbn [A nd_shape]. rewrite (prod_seq (nd_item A) l r c 0 H); [reflexivity|]. exact I.
  - intros i j Hi Hj. apply I; [exact Hi|exact Hj|]. apply nth_error_nth'. nia.
Qed.

(** Every two-dimensional array of floats survives the way to SymPy and back. *)
Theorem C70_round_trip_array : forall A r c, is_float64 A = true -> nd_shape A = [r; c] -> length (flat A) = (r * c)%nat ->
  exists M, ndarray_to_Matrix A = Ok M /\ m_rows M = r /\ m_cols M = c /\ Matrix_to_ndarray M = Ok A.
Proof.
  intros [f s l] r c Hf Hs Hl. cbn in Hf, Hs, Hl. subst f s.
  destruct (C70_round_trip {| m_rows := r; m_cols := c; m_flat := l |} Hl) as (A & E & _ & B & _).
  unfold Matrix_to_ndarray in E. cbn [m_flat m_rows m_cols] in E. rewrite (proj2 (Nat.eqb_eq _ _) Hl) in E. injection E as <-.
  exists {| m_rows := r; m_cols := c; m_flat := l |}. split; [exact B|]. split; [reflexivity|]. split; [reflexivity|].
  unfold Matrix_to_ndarray. cbn [m_flat m_rows m_cols]. now rewrite (proj2 (Nat.eqb_eq _ _) Hl).
Qed.

(** is_close with a relative error is not what the helpers test: large equal
    neighbours differ. *)
Theorem C70_relative_refuted : forall tol, 0 <= tol -> exists x y,
  isclose x y tol = Ok true /\ is_close [x] [y] tol = Ok false.
Proof.
  intros tol H. exists (10 ^ 9 * (1 + tol)), (10 ^ 9 * (1 + tol) + (1 + tol)). split.
  - unfold isclose. destruct (Rlt_dec tol 0); [lra|]. destruct (Req_EM_T _ _); [lra|].
    rewrite (proj2 (rle_spec _ (Rabs (/ 10 ^ 9 * (10 ^ 9 * (1 + tol) + (1 + tol)))))); [reflexivity|].
    rewrite !Rabs_right; lra.
  - unfold is_close. cbn [length Nat.eqb negb combine map fst snd]. unfold is_zeros. cbn [all_of]. rewrite isclose_zero by exact H. cbn [bind].
    rewrite rle_false; [reflexivity|]. rewrite Rabs_left; lra.
Qed.

Example C70_example : is_close [1; 2] [1; 2.5] 1 = Ok true /\ is_close [1; 2] [1; 4] 1 = Ok false /\ is_close [1] [1; 2] 1 = Ok false /\
  is_sorted [1; 1; 2] = true /\ is_sorted [1; 3; 2] = false.
Proof.
  unfold is_close, is_zeros, is_sorted. cbn [length Nat.eqb negb combine map fst snd all_of removelast tl forallb].
  rewrite !isclose_zero by lra. cbn [bind]. unfold rle, Rabs.
  repeat match goal with |- context [Rcase_abs ?x] => destruct (Rcase_abs x); try lra end;
  repeat match goal with |- context [Rle_dec ?x ?y] => destruct (Rle_dec x y); try lra end; repeat split.
Qed.

Print Assumptions C70_zeros.
Print Assumptions C70_close.
Print Assumptions C70_negative_tolerance.
Print Assumptions C70_sorted.
Print Assumptions C70_vector_and_matrix.
Print Assumptions C70_square.
Print Assumptions C70_round_trip.
Print Assumptions C70_round_trip_array.
Print Assumptions C70_relative_refuted.
Print Assumptions C70_example.
