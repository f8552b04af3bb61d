(** Laguerre polynomials and the radial wave functions of the harmonic
    oscillator and of the Davidson oscillator. *)

From Coq Require Import Reals Lra Lia ZArith.
From Coquelicot Require Import Coquelicot.
From Verif Require Import Improper.
Open Scope R_scope.

(** [L_n^(a)(x)], by the recurrence
    (n+1) L_(n+1) = (2n + 1 + a - x) L_n - (n + a) L_(n-1). *)
Fixpoint laguerre (a x : R) (n : nat) : R :=
  match n with
  | O => 1
  | S p => match p with
           | O => 1 + a - x
           | S q => ((2 * INR p + 1 + a - x) * laguerre a x p - (INR p + a) * laguerre a x q) / (INR p + 1)
           end
  end.

Lemma lag_rec a x n : (INR n + 2) * laguerre a x (S (S n)) =
  (2 * INR n + 3 + a - x) * laguerre a x (S n) - (INR n + 1 + a) * laguerre a x n.
Proof.
  change (laguerre a x (S (S n))) with
    (((2 * INR (S n) + 1 + a - x) * laguerre a x (S n) - (INR (S n) + a) * laguerre a x n) / (INR (S n) + 1)).
  rewrite S_INR. pose proof (pos_INR n). field. lra.
Qed.

(** Neighbouring values of [a]. *)
Lemma lag_shift a x n : laguerre a x (S n) = laguerre (a + 1) x (S n) - laguerre (a + 1) x n
  /\ x * laguerre (a + 1) x n = (INR n + a + 1) * laguerre a x n - (INR n + 1) * laguerre a x (S n).
Proof.
  induction n as [|n [A B]].
  - cbn. split; ring.
  - pose proof (lag_rec a x n) as R0. pose proof (lag_rec (a + 1) x n) as R1. rewrite !S_INR. pose proof (pos_INR n).
    assert (A' : laguerre a x (S (S n)) = laguerre (a + 1) x (S (S n)) - laguerre (a + 1) x (S n)).
    { apply (Rmult_eq_reg_l (INR n + 2)); [|lra]. rewrite R0, Rmult_minus_distr_l, R1. nra. }
    split; [exact A'|]. nra.
Qed.
Lemma lag_down a x n : laguerre a x (S n) = laguerre (a + 1) x (S n) - laguerre (a + 1) x n.
Proof. apply lag_shift. Qed.
Lemma lag_up a x n : x * laguerre (a + 1) x n = (INR n + a + 1) * laguerre a x n - (INR n + 1) * laguerre a x (S n).
Proof. apply lag_shift. Qed.

(** The derivative. *)
Lemma lag_step (f g : R -> R) c d e x df dg : is_derive f x df -> is_derive g x dg ->
  is_derive (fun x => ((c - x) * f x - d * g x) / e) x (((c - x) * df - f x - d * dg) / e).
Proof.
  intros Hf Hg. auto_derive; [split; [now exists df|]; split; [now exists dg|exact Logic.I]|].
  change (Derive (fun x => f x) x) with (Derive f x). change (Derive (fun x => g x) x) with (Derive g x).
  rewrite (is_derive_unique _ _ _ Hf), (is_derive_unique _ _ _ Hg). unfold Rdiv. ring.
Qed.
Lemma lag_derive a n : forall x, is_derive (fun x => laguerre a x (S n)) x (- laguerre (a + 1) x n).
Proof.
  revert a. assert (H : forall n a x, is_derive (fun x => laguerre a x (S n)) x (- laguerre (a + 1) x n)
                             /\ is_derive (fun x => laguerre a x (S (S n))) x (- laguerre (a + 1) x (S n))).
  { clear n. induction n as [|n IH]; intros a x.
    - split.
      + cbn. auto_derive; [exact Logic.I|ring].
      + apply (is_derive_ext (fun x => ((3 + a - x) * (1 + a - x) - (1 + a)) / 2)); [intros t; cbn; field|].
        auto_derive; [exact Logic.I|cbn; field].
    - destruct (IH a x) as [D1 D2]. split; [exact D2|]. pose proof (pos_INR n).
      apply (is_derive_ext (fun x => ((2 * INR (S n) + 3 + a - x) * laguerre a x (S (S n)) - (INR (S n) + 1 + a) * laguerre a x (S n)) / (INR (S n) + 2))).
      { intros t. rewrite <- lag_rec, S_INR. cbv beta. apply (Rmult_eq_reg_l (INR n + 1 + 2)); [field; lra|lra]. }
      replace (- laguerre (a + 1) x (S (S n))) with
        (((2 * INR (S n) + 3 + a - x) * - laguerre (a + 1) x (S n) - laguerre a x (S (S n)) - (INR (S n) + 1 + a) * - laguerre (a + 1) x n) / (INR (S n) + 2)).
      { now apply lag_step. }
      pose proof (lag_rec (a + 1) x n) as R1. pose proof (lag_down a x (S n)) as A. rewrite !S_INR in *.
      apply (Rmult_eq_reg_l (INR n + 3)); [|lra]. replace (INR n + 1 + 2) with (INR n + 3) by ring.
      match goal with |- _ * (?X / _) = _ => replace ((INR n + 3) * (X / (INR n + 3))) with X by (field; lra) end.
      nra. }
  intros a x. apply H.
Qed.

(** ** Orthogonality *)

(** The integral of [x^(s-1) e^-x f(x)]. *)
Definition moment (s : R) (f : R -> R) (v : R) : Prop := integral (fun x => euler s x * f x) v.

Lemma moment_ext s f g v : (forall x, 0 < x -> f x = g x) -> moment s f v -> moment s g v.
Proof. intros E. apply integral_ext. intros x Hx. cbn. now rewrite E. Qed.
Lemma moment_lin s f g c d v w : moment s f v -> moment s g w -> moment s (fun x => c * f x + d * g x) (c * v + d * w).
Proof.
  intros Hf Hg. unfold moment. eapply integral_ext; [|apply integral_plus; apply integral_scal; [exact Hf|exact Hg]].
  intros x _. cbn. ring.
Qed.
Lemma moment_val s f v w : v = w -> moment s f v -> moment s f w.
Proof. now intros ->. Qed.
Lemma euler_S s x : 0 < x -> euler (s + 1) x = x * euler s x.
Proof. intros Hx. unfold euler. replace (s + 1 - 1) with (s - 1 + 1) by ring. rewrite Rpower_S by exact Hx. ring. Qed.
Lemma moment_x s f v : moment (s + 1) f v -> moment s (fun x => x * f x) v.
Proof. apply integral_ext. intros x Hx. rewrite euler_S by exact Hx. ring. Qed.
Lemma moment_1 s : 0 < s -> moment s (fun _ => 1) (Gamma s).
Proof. intros H. eapply integral_ext; [|now apply euler_integral]. intros x _. cbn. ring. Qed.

Lemma lag_mean n : forall s, 0 < s -> moment s (fun x => laguerre (s - 1) x (S n)) 0.
Proof.
  induction n as [|n IH]; intros s Hs.
  - eapply moment_ext with (f := fun x => s * 1 + (-1) * (x * 1)); [intros x _; cbn; ring|].
    eapply moment_val; [|apply moment_lin; [now apply moment_1|apply moment_x, moment_1; lra]].
    rewrite Gamma_succ by exact Hs. ring.
  - pose proof (pos_INR n).
    eapply moment_ext with (f := fun x => (INR n + 1 + s) / (INR n + 2) * laguerre (s - 1) x (S n) + (- / (INR n + 2)) * (x * laguerre (s - 1 + 1) x (S n))).
    { intros x _. rewrite lag_up, S_INR. field. lra. }
    eapply moment_val; [|apply moment_lin; [now apply IH|apply moment_x]].
    2: { replace (s - 1 + 1) with (s + 1 - 1) by ring. apply IH. lra. }
    ring.
Qed.

(** The norm. *)
Definition lag_norm (s : R) (n : nat) : R := Gamma (s + INR n) / INR (fact n).
Lemma lag_norm_0 s : lag_norm s 0 = Gamma s.
Proof. unfold lag_norm. cbn. rewrite Rplus_0_r. field. Qed.
Lemma lag_norm_S s n : 0 < s -> (INR n + 1) * lag_norm s (S n) = (s + INR n) * lag_norm s n.
Proof.
  intros Hs. unfold lag_norm. rewrite S_INR. pose proof (pos_INR n). replace (s + (INR n + 1)) with (s + INR n + 1) by ring.
  rewrite Gamma_succ by lra. rewrite fact_simpl, mult_INR, S_INR. pose proof (INR_fact_neq_0 n). field. lra.
Qed.
Lemma lag_norm_pos s n : 0 < s -> 0 < lag_norm s n.
Proof.
  intros Hs. apply Rdiv_lt_0_compat; [apply Gamma_pos; pose proof (pos_INR n); lra|apply INR_fact_lt_0].
Qed.

Definition ortho (s : R) (m n : nat) : R := if Nat.eqb m n then lag_norm s n else 0.

Lemma lag_x a x n : x * laguerre a x n = (2 * INR n + 1 + a) * laguerre a x n - (INR n + 1) * laguerre a x (S n)
   - (INR n + a) * match n with O => 0 | S p => laguerre a x p end.
Proof.
  destruct n as [|p]; [cbn; ring|]. pose proof (lag_rec a x p). rewrite S_INR. lra.
Qed.
Lemma lag_next a x n : (INR n + 1) * laguerre a x (S n) = (2 * INR n + 1 + a - x) * laguerre a x n
   - (INR n + a) * match n with O => 0 | S p => laguerre a x p end.
Proof. pose proof (lag_x a x n). lra. Qed.

Lemma ortho_rec s m n : 0 < s ->
  (INR m + 1) * ortho s (S m) n = (2 * INR m - 2 * INR n) * ortho s m n + (INR n + 1) * ortho s m (S n)
     + (INR n + (s - 1)) * match n with O => 0 | S p => ortho s m p end
     - (INR m + (s - 1)) * match m with O => 0 | S p => ortho s p n end.
Proof.
  intros Hs. unfold ortho.
  destruct (Nat.eq_dec n (S m)) as [->|N1].
  { rewrite Nat.eqb_refl. replace (Nat.eqb m (S m)) with false by (symmetry; apply Nat.eqb_neq; lia).
    replace (Nat.eqb m (S (S m))) with false by (symmetry; apply Nat.eqb_neq; lia). rewrite Nat.eqb_refl.
    rewrite lag_norm_S by exact Hs. destruct m as [|p]; [cbn; ring|].
    replace (Nat.eqb p (S (S p))) with false by (symmetry; apply Nat.eqb_neq; lia). rewrite !S_INR. ring. }
  replace (Nat.eqb (S m) n) with false by (symmetry; apply Nat.eqb_neq; lia).
  destruct (Nat.eq_dec n m) as [->|N2].
  { rewrite Nat.eqb_refl. replace (Nat.eqb m (S m)) with false by (symmetry; apply Nat.eqb_neq; lia).
    destruct m as [|p]; [ring|]. replace (Nat.eqb (S p) p) with false by (symmetry; apply Nat.eqb_neq; lia).
    replace (Nat.eqb p (S p)) with false by (symmetry; apply Nat.eqb_neq; lia). ring. }
  replace (Nat.eqb m n) with false by (symmetry; apply Nat.eqb_neq; lia).
  replace (match n with O => 0 | S p => if Nat.eqb m p then lag_norm s p else 0 end) with 0.
  2: { destruct n as [|p]; [reflexivity|]. now replace (Nat.eqb m p) with false by (symmetry; apply Nat.eqb_neq; lia). }
  destruct m as [|p].
  { replace (Nat.eqb 0 (S n)) with false by reflexivity. ring. }
  destruct (Nat.eq_dec n p) as [->|N3].
  { rewrite !Nat.eqb_refl. rewrite lag_norm_S by exact Hs. rewrite S_INR. ring. }
  replace (Nat.eqb (S p) (S n)) with false by (symmetry; apply Nat.eqb_neq; lia).
  replace (Nat.eqb p n) with false by (symmetry; apply Nat.eqb_neq; lia). ring.
Qed.

Lemma lag_orthogonal s : 0 < s -> forall m n, moment s (fun x => laguerre (s - 1) x m * laguerre (s - 1) x n) (ortho s m n).
Proof.
  intros Hs.
  assert (Z : moment s (fun _ => 0) 0).
  { eapply integral_ext; [|exact integral_zero]. intros x _. cbn. ring. }
  assert (H0 : forall n, moment s (fun x => laguerre (s - 1) x 0 * laguerre (s - 1) x n) (ortho s 0 n)).
  { intros [|n].
    - unfold ortho. cbn [Nat.eqb]. rewrite lag_norm_0. apply (moment_ext s (fun _ => 1)); [|now apply moment_1]. intros x _. cbn. ring.
    - eapply moment_ext; [|now apply lag_mean]. intros x _. change (laguerre (s - 1) x 0) with 1. now rewrite Rmult_1_l. }
  assert (Step : forall m,
     (forall n, moment s (fun x => laguerre (s - 1) x m * laguerre (s - 1) x n) (ortho s m n)) ->
     (forall n, moment s (fun x => match m with O => 0 | S p => laguerre (s - 1) x p end * laguerre (s - 1) x n)
                         (match m with O => 0 | S p => ortho s p n end)) ->
     forall n, moment s (fun x => laguerre (s - 1) x (S m) * laguerre (s - 1) x n) (ortho s (S m) n)).
  { intros m Hm Hp n. pose proof (pos_INR m).
    assert (Hq : moment s (fun x => laguerre (s - 1) x m * match n with O => 0 | S p => laguerre (s - 1) x p end)
                         (match n with O => 0 | S p => ortho s m p end)).
    { destruct n as [|p]; [|apply Hm]. eapply moment_ext; [|apply Z]. intros; cbn; ring. }
    pose proof (moment_lin _ _ _ ((2 * INR m - 2 * INR n) / (INR m + 1)) ((INR n + 1) / (INR m + 1)) _ _ (Hm n) (Hm (S n))) as A.
    pose proof (moment_lin _ _ _ ((INR n + (s - 1)) / (INR m + 1)) (- (INR m + (s - 1)) / (INR m + 1)) _ _ Hq (Hp n)) as B.
    pose proof (moment_lin _ _ _ 1 1 _ _ A B) as C. cbv beta in C.
    eapply moment_ext; [|eapply moment_val; [|exact C]].
    - intros x _. symmetry. apply (Rmult_eq_reg_l (INR m + 1)); [|lra].
      rewrite <- Rmult_assoc, lag_next. pose proof (lag_x (s - 1) x n) as X.
      replace ((2 * INR m + 1 + (s - 1) - x) * laguerre (s - 1) x m) with ((2 * INR m + 1 + (s - 1)) * laguerre (s - 1) x m - x * laguerre (s - 1) x m) by ring.
      rewrite Rmult_minus_distr_r. rewrite Rmult_minus_distr_r.
      replace (x * laguerre (s - 1) x m * laguerre (s - 1) x n) with (laguerre (s - 1) x m * (x * laguerre (s - 1) x n)) by ring.
      rewrite X. field. lra.
    - symmetry. apply (Rmult_eq_reg_l (INR m + 1)); [|lra]. rewrite ortho_rec by exact Hs. field. lra. }
  induction m as [m IH] using (well_founded_induction lt_wf). destruct m as [|m]; [exact H0|].
  apply Step; [apply IH; lia|]. destruct m as [|p]; [|apply IH; lia]. intros n. eapply moment_ext; [|apply Z]. intros; cbn; ring.
Qed.
