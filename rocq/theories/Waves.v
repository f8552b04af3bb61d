(** The radial wave functions and the action of beta and d/dbeta on them. *)

From Coq Require Import Reals Lra Lia ZArith List.
From Coquelicot Require Import Coquelicot.
From Verif Require Import Improper Laguerre.
Open Scope R_scope.

(** [R_n^lambda(b) = (-1)^n sqrt(2 n! / Gamma(lambda + n)) b^(lambda - 1/2) exp(-b^2/2) L_n^(lambda - 1)(b^2)]. *)
Definition waveN (lam : R) (n : nat) (b : R) : R :=
  (-1) ^ n * sqrt (2 * INR (fact n) / Gamma (lam + INR n)) * Rpower b (lam - 1 / 2) * exp (- (b * b) / 2)
  * laguerre (lam - 1) (b * b) n.

(** The square root. *)
Definition cn (lam : R) (n : nat) : R := sqrt (2 * INR (fact n) / Gamma (lam + INR n)).

Lemma cn_arg lam n : 0 < lam -> 0 < 2 * INR (fact n) / Gamma (lam + INR n).
Proof.
  intros H. apply Rdiv_lt_0_compat; [pose proof (INR_fact_lt_0 n); lra|]. apply Gamma_pos. pose proof (pos_INR n). lra.
Qed.
Lemma cn_pos lam n : 0 < lam -> 0 < cn lam n.
Proof. intros H. apply sqrt_lt_R0. now apply cn_arg. Qed.
Lemma cn_norm lam n : 0 < lam -> cn lam n * cn lam n = 2 / lag_norm lam n.
Proof.
  intros H. unfold cn. rewrite sqrt_sqrt by (left; now apply cn_arg). unfold lag_norm.
  pose proof (INR_fact_lt_0 n). assert (0 < Gamma (lam + INR n)) by (apply Gamma_pos; pose proof (pos_INR n); lra). field. lra.
Qed.
(** [h_n^(lambda+1) = (lambda + n) h_n^lambda = (n + 1) h_(n+1)^lambda]. *)
Lemma cn_lam lam n : 0 < lam -> sqrt (lam + INR n) * cn (lam + 1) n = cn lam n.
Proof.
  intros H. pose proof (pos_INR n). unfold cn. rewrite <- sqrt_mult_alt by lra. f_equal.
  replace (lam + 1 + INR n) with (lam + INR n + 1) by ring. rewrite Gamma_succ by lra.
  assert (0 < Gamma (lam + INR n)) by (apply Gamma_pos; lra). field. lra.
Qed.
Lemma cn_S lam n : 0 < lam -> sqrt (INR n + 1) * cn (lam + 1) n = cn lam (S n).
Proof.
  intros H. pose proof (pos_INR n). unfold cn. rewrite <- sqrt_mult_alt by lra. f_equal.
  rewrite S_INR. replace (lam + (INR n + 1)) with (lam + 1 + INR n) by ring. rewrite fact_simpl, mult_INR, S_INR.
  assert (0 < Gamma (lam + 1 + INR n)) by (apply Gamma_pos; lra). field. lra.
Qed.
Lemma cn_step lam n : 0 < lam -> sqrt (INR n + 1) * cn lam n = sqrt (lam + INR n) * cn lam (S n).
Proof. intros H. rewrite <- cn_S, <- (cn_lam lam n) by exact H. ring. Qed.

Lemma sq_sqrt x : 0 <= x -> sqrt x * sqrt x = x.
Proof. apply sqrt_sqrt. Qed.

(** beta raises lambda ... *)
Lemma wave_b_pl lam n b : 0 < lam -> 0 < b ->
  b * waveN lam n b = sqrt (lam + INR n) * waveN (lam + 1) n b
     + match n with O => 0 | S p => sqrt (INR n) * waveN (lam + 1) p b end.
Proof.
  intros Hl Hb. unfold waveN. fold (cn lam n). fold (cn (lam + 1) n). replace (lam + 1 - 1 / 2) with (lam - 1 / 2 + 1) by ring.
  rewrite Rpower_S by exact Hb. rewrite <- (cn_lam lam n) by exact Hl. replace (lam + 1 - 1) with (lam - 1 + 1) by ring.
  destruct n as [|p]; [cbn; ring|].
  fold (cn (lam + 1) p). rewrite (lag_down (lam - 1)). rewrite (cn_lam lam (S p)) by exact Hl. rewrite <- (cn_S lam p) by exact Hl.
  rewrite S_INR. cbn [pow]. pose proof (cn_lam lam (S p) Hl) as E. rewrite <- (cn_S lam p) in E by exact Hl. rewrite S_INR in E.
  set (X := Rpower b (lam - 1 / 2)). set (Y := exp (- (b * b) / 2)).
  replace (sqrt (lam + (INR p + 1)) * (-1 * (-1) ^ p * cn (lam + 1) (S p) * (b * X) * Y * laguerre (lam - 1 + 1) (b * b) (S p)))
    with ((sqrt (lam + (INR p + 1)) * cn (lam + 1) (S p)) * (-1 * (-1) ^ p * (b * X) * Y * laguerre (lam - 1 + 1) (b * b) (S p))) by ring.
  rewrite E. ring.
Qed.
(** ... or lowers it. *)
Lemma wave_b_ml lam n b : 0 < lam -> 0 < b ->
  b * waveN (lam + 1) n b = sqrt (INR n + 1) * waveN lam (S n) b + sqrt (lam + INR n) * waveN lam n b.
Proof.
  intros Hl Hb. unfold waveN. fold (cn lam n). fold (cn (lam + 1) n). fold (cn lam (S n)). pose proof (pos_INR n).
  replace (lam + 1 - 1 / 2) with (lam - 1 / 2 + 1) by ring. rewrite Rpower_S by exact Hb.
  rewrite <- (cn_S lam n), <- (cn_lam lam n) by exact Hl. replace (lam + 1 - 1) with (lam - 1 + 1) by ring.
  set (X := Rpower b (lam - 1 / 2)). set (Y := exp (- (b * b) / 2)). cbn [pow].
  pose proof (sq_sqrt (INR n + 1) ltac:(lra)) as S1. pose proof (sq_sqrt (lam + INR n) ltac:(lra)) as S2.
  pose proof (lag_up (lam - 1) (b * b) n) as U.
  replace (b * ((-1) ^ n * cn (lam + 1) n * (b * X) * Y * laguerre (lam - 1 + 1) (b * b) n))
    with ((-1) ^ n * cn (lam + 1) n * X * Y * (b * b * laguerre (lam - 1 + 1) (b * b) n)) by ring.
  rewrite U.
  replace (sqrt (INR n + 1) * (-1 * (-1) ^ n * (sqrt (INR n + 1) * cn (lam + 1) n) * X * Y * laguerre (lam - 1) (b * b) (S n)))
    with (sqrt (INR n + 1) * sqrt (INR n + 1) * (-1 * (-1) ^ n * cn (lam + 1) n * X * Y * laguerre (lam - 1) (b * b) (S n))) by ring.
  replace (sqrt (lam + INR n) * ((-1) ^ n * (sqrt (lam + INR n) * cn (lam + 1) n) * X * Y * laguerre (lam - 1) (b * b) n))
    with (sqrt (lam + INR n) * sqrt (lam + INR n) * ((-1) ^ n * cn (lam + 1) n * X * Y * laguerre (lam - 1) (b * b) n)) by ring.
  rewrite S1, S2. ring.
Qed.

Lemma lag_ex_derive a n x : ex_derive (fun x => laguerre a x n) x.
Proof. destruct n as [|n]; [apply (ex_derive_const 1)|]. eexists. apply lag_derive. Qed.
Lemma lag_Derive a n x : Derive (fun x => laguerre a x n) x = match n with O => 0 | S p => - laguerre (a + 1) x p end.
Proof. destruct n as [|n]; [apply (Derive_const 1)|]. apply is_derive_unique, lag_derive. Qed.

(** beta d/dbeta. *)
Lemma wave_derive lam n b : 0 < lam -> 0 < b -> exists d, is_derive (waveN lam n) b d /\
  b * d = - (1 / 2) * waveN lam n b - sqrt ((lam + INR n) * (INR n + 1)) * waveN lam (S n) b
     + match n with O => 0 | S p => sqrt ((lam + INR n - 1) * INR n) * waveN lam p b end.
Proof.
  intros Hl Hb. pose proof (pos_INR n).
  set (L := fun x => laguerre (lam - 1) x n). assert (DL : forall x, ex_derive L x) by (intros; apply lag_ex_derive).
  exists ((-1) ^ n * cn lam n * ((lam - 1 / 2) / b * Rpower b (lam - 1 / 2) * exp (- (b * b) / 2) * L (b * b)
          - b * Rpower b (lam - 1 / 2) * exp (- (b * b) / 2) * L (b * b)
          + Rpower b (lam - 1 / 2) * exp (- (b * b) / 2) * (2 * b * Derive L (b * b)))). split.
  - apply (is_derive_ext (fun b => (-1) ^ n * cn lam n * (exp ((lam - 1 / 2) * ln b) * exp (- (b * b) / 2) * L (b * b)))).
    { intros t. unfold waveN, L, cn, Rpower. rewrite !Rmult_assoc. reflexivity. }
    auto_derive; [repeat split; [exact Hb|apply DL]|].
    change (Derive (fun x => L x) (b * b)) with (Derive L (b * b)). unfold Rpower. change (- (b * b) * / 2) with (- (b * b) / 2).
    generalize (Derive L (b * b)) (L (b * b)) (exp (- (b * b) / 2)) (exp ((lam - 1 / 2) * ln b)) (cn lam n) ((-1) ^ n). intros.
    apply (Rmult_eq_reg_l 1); [|lra]. field. lra.
  - unfold L. rewrite lag_Derive. unfold waveN. fold (cn lam n). fold (cn lam (S n)).
    set (X := Rpower b (lam - 1 / 2)). set (Y := exp (- (b * b) / 2)). cbn [pow].
    pose proof (lag_x (lam - 1) (b * b) n) as U.
    rewrite sqrt_mult by lra.
    pose proof (cn_step lam n Hl) as C1. pose proof (sq_sqrt (INR n + 1) ltac:(lra)) as S1.
    assert (E1 : sqrt (lam + INR n) * sqrt (INR n + 1) * cn lam (S n) = (INR n + 1) * cn lam n).
    { rewrite <- S1 at 2. rewrite Rmult_assoc, (Rmult_assoc (sqrt (INR n + 1))). rewrite C1. ring. }
    transitivity ((-1) ^ n * X * Y * (cn lam n * (- (1 / 2) * laguerre (lam - 1) (b * b) n + (INR n + 1) * laguerre (lam - 1) (b * b) (S n)
        - (INR n + (lam - 1)) * match n with O => 0 | S p => laguerre (lam - 1) (b * b) p end))).
    + replace ((INR n + 1) * laguerre (lam - 1) (b * b) (S n)) with
        ((2 * INR n + 1 + (lam - 1)) * laguerre (lam - 1) (b * b) n - b * b * laguerre (lam - 1) (b * b) n
           - (INR n + (lam - 1)) * match n with O => 0 | S p => laguerre (lam - 1) (b * b) p end) by (rewrite U; ring).
      destruct n as [|p]; [cbn [INR]; field; lra|].
      pose proof (lag_up (lam - 1) (b * b) p) as V. rewrite S_INR.
      replace (b * ((-1) ^ S p * cn lam (S p) * ((lam - 1 / 2) / b * X * Y * laguerre (lam - 1) (b * b) (S p) -
         b * X * Y * laguerre (lam - 1) (b * b) (S p) + X * Y * (2 * b * - laguerre (lam - 1 + 1) (b * b) p))))
        with ((-1) ^ S p * cn lam (S p) * X * Y * ((lam - 1 / 2) * laguerre (lam - 1) (b * b) (S p) -
         b * b * laguerre (lam - 1) (b * b) (S p) - 2 * (b * b * laguerre (lam - 1 + 1) (b * b) p))) by (field; lra).
      rewrite V. ring.
    + replace (sqrt (lam + INR n) * sqrt (INR n + 1) * (-1 * (-1) ^ n * cn lam (S n) * X * Y * laguerre (lam - 1) (b * b) (S n)))
        with (sqrt (lam + INR n) * sqrt (INR n + 1) * cn lam (S n) * (-1 * (-1) ^ n * X * Y * laguerre (lam - 1) (b * b) (S n))) by ring.
      rewrite E1. destruct n as [|p]; [cbn [INR]; ring|]. fold (cn lam p). rewrite S_INR in *. pose proof (pos_INR p).
      rewrite sqrt_mult by lra. pose proof (cn_step lam p Hl) as C2. replace (lam + (INR p + 1) - 1) with (lam + INR p) by ring.
      assert (E2 : sqrt (lam + INR p) * sqrt (INR p + 1) * cn lam p = (lam + INR p) * cn lam (S p)).
      { rewrite <- (sq_sqrt (lam + INR p)) at 2 by lra. rewrite Rmult_assoc. rewrite C2. ring. }
      replace (sqrt (lam + INR p) * sqrt (INR p + 1) * ((-1) ^ p * cn lam p * X * Y * laguerre (lam - 1) (b * b) p))
        with (sqrt (lam + INR p) * sqrt (INR p + 1) * cn lam p * ((-1) ^ p * X * Y * laguerre (lam - 1) (b * b) p)) by ring.
      rewrite E2. cbn [pow]. ring.
Qed.

(** Orthonormality. *)
Lemma Rpower_square b s : 0 < b -> Rpower (b * b) s = Rpower b s * Rpower b s.
Proof. intros H. symmetry. now apply Rpower_mult_distr. Qed.
Lemma wave_orthonormal lam m n : 0 < lam ->
  integral (fun b => waveN lam m b * waveN lam n b) (if Nat.eqb m n then 1 else 0).
Proof.
  intros Hl. pose proof (lag_orthogonal lam Hl m n) as O. unfold moment in O.
  apply integral_square in O.
  2: { intros x Hx. apply (continuous_mult (euler lam)); [now apply euler_continuous|].
       apply (continuous_mult (fun x => laguerre (lam - 1) x m)); apply (ex_derive_continuous (fun x => laguerre (lam - 1) x _)), lag_ex_derive. }
  apply (integral_scal _ ((-1) ^ m * (-1) ^ n * (cn lam m * cn lam n / 2))) in O.
  replace (if Nat.eqb m n then 1 else 0) with ((-1) ^ m * (-1) ^ n * (cn lam m * cn lam n / 2) * ortho lam m n).
  2: { unfold ortho. destruct (Nat.eqb m n) eqn:E; [|ring]. apply Nat.eqb_eq in E. subst m.
       replace ((-1) ^ n * (-1) ^ n) with 1. 2: { rewrite <- Rpow_mult_distr. replace (-1 * -1) with 1 by ring. now rewrite pow1. }
       rewrite (cn_norm lam n Hl). pose proof (lag_norm_pos lam n Hl). field. lra. }
  eapply integral_ext; [|exact O]. intros b Hb. cbv beta. unfold waveN, euler. fold (cn lam m) (cn lam n).
  rewrite Rpower_square by exact Hb. replace (lam - 1 / 2) with (lam - 1 + / 2) by field. rewrite Rpower_plus.
  replace (exp (- (b * b))) with (exp (- (b * b) / 2) * exp (- (b * b) / 2)) by (rewrite <- exp_plus; f_equal; field).
  assert (S : Rpower b (/ 2) * Rpower b (/ 2) = b). { rewrite <- Rpower_plus. replace (/ 2 + / 2) with 1 by field. now apply Rpower_1. }
  set (P := Rpower b (lam - 1)). set (Q := Rpower b (/ 2)) in *. set (Y := exp (- (b * b) / 2)).
  rewrite <- S at 1. field.
Qed.
