(** Properties C45, C46: optimal basis parameters for the Hamiltonians of
    [RWC2009]; C59: the simplified choice. *)

From Coq Require Import Reals Ranalysis5 Lra Psatz.
From Coquelicot Require Import Coquelicot.
From Coq Require Import Lia.
From Verif Require Import PyBase Compat SphericalFacts Settings HamData HamFacts.
Open Scope R_scope.

(** ** Specification *)

(** The documented energy (B16) of the lowest basis state as a function of
    [A = a^2] and of lambda, for seniority [v]: 9 is replaced by (2v+3)^2. *)
Definition energy (v : Z) (B c1 c2 kappa A lambda : R) : R :=
  A * (4 + (2 * IZR v + 3) ^ 2 / (lambda - 1)) / 8 / B + B * lambda * c1 / 2 / A
  + B * lambda * (lambda + 1) * c2 / 2 / A ^ 2 + kappa / 3.

(** The minimum of the potential c1 beta^2 + c2 beta^4, and the documented
    lambda_v (B7). *)
Definition beta0 (c1 c2 : R) : R := if Rle_dec 0 c1 then 0 else sqrt (- c1 / (2 * c2)).
Definition lambda_v (v : Z) (c1 c2 a : R) : R := 1 + sqrt ((IZR v + 3 / 2) ^ 2 + (a * beta0 c1 c2) ^ 4).

(** The function whose zero is sought. *)
Definition F2 (B c1 c2 : R) (v : Z) (A : R) : R := RWC2 A (muf A c1 c2 v) B c1 c2 v.

(** ** Proofs *)

Lemma vshftf_val v : IZR (vshftf v) = (2 * IZR v + 3) ^ 2.
Proof. unfold vshftf. rewrite Z.pow_2_r, mult_IZR, plus_IZR, mult_IZR. ring. Qed.

Lemma vshftf_pos v : (0 <= v)%Z -> 0 < IZR (vshftf v).
Proof. intros H. rewrite vshftf_val. apply IZR_le in H. nra. Qed.

Section Negative.
  Variables (B c1 c2 : R) (v : Z).
  Hypotheses (Hv : (0 <= v)%Z) (HB : B <> 0) (H1 : c1 < 0) (H2 : 0 < c2).
  Let k := - c1 / c2.
  Let s := IZR (vshftf v).

  Lemma k_pos : 0 < k.
  Proof. unfold k. apply Rmult_lt_0_compat; [lra|now apply Rinv_0_lt_compat]. Qed.

  Lemma muf_mu A : muf A c1 c2 v = mu s (k * A).
  Proof. unfold muf, mu, s, k. f_equal. f_equal. unfold Rdiv. ring. Qed.

  Lemma F2_ratio A : 0 <= A -> F2 B c1 c2 v A = H s (k * A) / k ^ 3 * (ratio s (k * A) - B ^ 2 * c2 * k ^ 3).
  Proof.
    intros HA. pose proof k_pos as K. assert (S : 0 < s) by now apply vshftf_pos.
    assert (X : 0 <= k * A) by (apply Rmult_le_pos; lra). pose proof (H_pos s S _ X) as PH.
    unfold F2. rewrite muf_mu. unfold ratio.
    replace (H s (k * A) / k ^ 3 * (P s (k * A) / H s (k * A) - B ^ 2 * c2 * k ^ 3))
      with (P s (k * A) / k ^ 3 - B ^ 2 * c2 * H s (k * A)) by (field; lra).
    unfold P, H, RWC2. fold s. pose proof (mu_pos s S (k * A)) as M. pose proof (mu_sq s S (k * A)) as Q.
    replace c1 with (- k * c2) by (unfold k; field; lra). replace (- k * c2 / c2) with (- k) by (field; lra).
    assert (SE : s = mu s (k * A) * mu s (k * A) - (k * A) ^ 2) by lra.
    revert M SE. generalize (mu s (k * A)). intros m M SE. rewrite SE. field. lra.
  Qed.

  Lemma H_k A : 0 <= A -> 0 < H s (k * A) / k ^ 3.
  Proof.
    intros HA. pose proof k_pos as K. apply Rmult_lt_0_compat.
    - apply H_pos; [now apply vshftf_pos|]. apply Rmult_le_pos; lra.
    - apply Rinv_0_lt_compat, pow_lt, K.
  Qed.

  Lemma level_pos : 0 < B ^ 2 * c2 * k ^ 3.
  Proof.
    assert (0 < B ^ 2) by nra. apply Rmult_lt_0_compat; [apply Rmult_lt_0_compat; lra|]. apply pow_lt, k_pos.
  Qed.

  Lemma F2_zero : F2 B c1 c2 v 0 < 0.
  Proof.
    rewrite F2_ratio by lra. rewrite Rmult_0_r, ratio_0. pose proof (H_k 0 ltac:(lra)) as P. rewrite Rmult_0_r in P.
    pose proof level_pos. nra.
  Qed.

  (** The zero, and the sign on its two sides. *)
  Lemma F2_root : exists A0, 0 < A0 /\ F2 B c1 c2 v A0 = 0 /\
    forall A, 0 < A -> (A < A0 -> F2 B c1 c2 v A < 0) /\ (A0 < A -> 0 < F2 B c1 c2 v A).
  Proof.
    pose proof k_pos as K. destruct (ratio_level s (vshftf_pos v Hv) _ level_pos) as (x & X & E & C).
    exists (x / k). assert (XK : k * (x / k) = x) by (field; lra).
    assert (P : 0 < x / k) by (apply Rmult_lt_0_compat; [exact X|now apply Rinv_0_lt_compat]). split; [exact P|]. split.
    - rewrite F2_ratio by lra. rewrite XK, E. ring.
    - intros A HA. assert (KA : 0 < k * A) by (apply Rmult_lt_0_compat; lra). destruct (C (k * A) KA) as [C1 C2].
      pose proof (H_k A (Rlt_le _ _ HA)) as PH.
      rewrite F2_ratio by lra. split; intros L.
      + assert (G : k * A < x) by (rewrite <- XK; apply Rmult_lt_compat_l; lra). apply C1 in G. nra.
      + assert (G : x < k * A) by (rewrite <- XK; apply Rmult_lt_compat_l; lra). apply C2 in G. nra.
  Qed.
End Negative.

(** *** C46: the equation solved is the condition for a stationary energy *)

Lemma muf_derive A c1 c2 v : (0 <= v)%Z -> is_derive (fun A => muf A c1 c2 v) A (A * (c1 / c2) ^ 2 / muf A c1 c2 v).
Proof.
  intros Hv. pose proof (vshftf_pos v Hv) as S.
  assert (P : 0 < IZR (vshftf v) + (A * c1 / c2) ^ 2) by (pose proof (pow2_ge_0 (A * c1 / c2)); lra).
  unfold muf. revert S P. generalize (IZR (vshftf v)). intros n S P. evar_last.
  - apply (is_derive_comp sqrt (fun A => n + (A * c1 / c2) ^ 2)).
    + apply is_derive_Reals, derivable_pt_lim_sqrt. exact P.
    + unfold Rdiv. auto_derive; [exact I|reflexivity].
  - pose proof (sqrt_lt_R0 _ P) as Q. unfold scal. cbn -[IZR pow]. unfold mult. cbn -[IZR pow].
    unfold Rdiv in *. revert Q. generalize (sqrt (n + (A * c1 * / c2) ^ 2)). intros w Q.
    cbn [pow Init.Nat.pred INR]. generalize (/ c2). intros i. field. lra.
Qed.

Lemma muf_pos A c1 c2 v : (0 <= v)%Z -> 0 < muf A c1 c2 v.
Proof. intros Hv. apply sqrt_lt_R0. pose proof (vshftf_pos v Hv). pose proof (pow2_ge_0 (A * c1 / c2)). lra. Qed.

Lemma energy_derive (m : R -> R) q v B c1 c2 kappa A : B <> 0 -> 0 < A -> is_derive m A (A * q ^ 2 / m A) -> 0 < m A ->
  is_derive (fun A => energy v B c1 c2 kappa A (1 + m A / 2)) A
   ((q ^ 2 * (- (2 * IZR v + 3) ^ 2 * A ^ 5 / m A ^ 2 + A ^ 3 * B ^ 2 * c1 + A ^ 2 * B ^ 2 * c2 * (m A + 3))
     + A ^ 3 * (2 * m A + (2 * IZR v + 3) ^ 2) - B ^ 2 * m A * (m A + 2) * (A * c1 + c2 * (m A + 4))) / (4 * A ^ 3 * B * m A)).
Proof.
  intros HB HA D M. unfold energy. evar_last.
  - auto_derive; [|reflexivity]. repeat split; try (eexists; exact D); nra.
  - replace (Derive (fun x : R => m x) A) with (A * q ^ 2 / m A) by (symmetry; apply is_derive_unique; exact D).
    revert M. generalize (m A). intros w M. field. repeat split; lra.
Qed.

(** With lambda depending on [A] (the case c1 < 0). *)
Theorem C46_variable_lambda : forall v B c1 c2 kappa A, (0 <= v)%Z -> B <> 0 -> 0 < A ->
  exists d, derivable_pt_lim (fun A => energy v B c1 c2 kappa A (1 + muf A c1 c2 v / 2)) A d /\
    F2 B c1 c2 v A = 4 * A ^ 3 * B * muf A c1 c2 v * d /\ (d = 0 <-> F2 B c1 c2 v A = 0).
Proof.
  intros v B c1 c2 kappa A Hv HB HA. pose proof (muf_derive A c1 c2 v Hv) as D. pose proof (muf_pos A c1 c2 v Hv) as M.
  set (d := F2 B c1 c2 v A / (4 * A ^ 3 * B * muf A c1 c2 v)).
  assert (E : F2 B c1 c2 v A = 4 * A ^ 3 * B * muf A c1 c2 v * d) by (unfold d; field; lra).
  exists d. split; [|split; [exact E|]].
  - apply is_derive_Reals. unfold d, F2, RWC2. rewrite vshftf_val.
    exact (energy_derive (fun A => muf A c1 c2 v) (c1 / c2) v B c1 c2 kappa A HB HA D M).
  - rewrite E. assert (4 * A ^ 3 * B * muf A c1 c2 v <> 0).
    { repeat apply Rmult_integral_contrapositive_currified; lra. }
    split; intros G; [rewrite G; ring|]. apply Rmult_integral in G. tauto.
Qed.

(** With constant lambda (the case c1 >= 0): lambda = v + 5/2. *)
Theorem C46_constant_lambda : forall v B c1 c2 kappa A, (0 <= v)%Z -> B <> 0 -> 0 < A ->
  exists d, derivable_pt_lim (fun A => energy v B c1 c2 kappa A (IZR v + 5 / 2)) A d /\
    (2 * IZR v + 5) * RWC1 A B c1 c2 v = 4 * A ^ 3 * B * d /\ (d = 0 <-> RWC1 A B c1 c2 v = 0).
Proof.
  intros v B c1 c2 kappa A Hv HB HA. apply IZR_le in Hv.
  set (d := (2 * IZR v + 5) * RWC1 A B c1 c2 v / (4 * A ^ 3 * B)).
  assert (E : (2 * IZR v + 5) * RWC1 A B c1 c2 v = 4 * A ^ 3 * B * d) by (unfold d; field; lra).
  exists d. split; [|split; [exact E|]].
  - apply is_derive_Reals. unfold energy. evar_last.
    + auto_derive; [|reflexivity]. repeat split; nra.
    + unfold d, RWC1. rewrite plus_IZR, mult_IZR. field. repeat split; lra.
  - assert (4 * A ^ 3 * B <> 0).
    { repeat apply Rmult_integral_contrapositive_currified; lra. }
    split; intros G; rewrite G in E.
    + rewrite Rmult_0_r in E. apply Rmult_integral in E. destruct E; [lra|assumption].
    + rewrite Rmult_0_r in E. symmetry in E. apply Rmult_integral in E. tauto.
Qed.

(** The documented energy is what RWC_expt computes, for v = 0. *)
Theorem C46_energy : forall B c1 c2 kappa a lambda, B <> 0 -> a <> 0 -> lambda <> 1 ->
  RWC_expt B c1 c2 kappa a lambda = Ok (energy 0 B c1 c2 kappa (a ^ 2) lambda).
Proof.
  intros B c1 c2 kappa a l HB Ha Hl. unfold RWC_expt, fdiv.
  destruct (Req_EM_T a 0); [contradiction|]. destruct (Req_EM_T l 1); [contradiction|].
  destruct (Req_EM_T (l - 1) 0); [lra|]. cbn [bind]. destruct (Req_EM_T B 0); [contradiction|]. cbn [bind].
  destruct (Req_EM_T (a ^ 2) 0) as [E|N]; [exfalso; revert E; now apply pow_nonzero|]. cbn [bind].
  destruct (Req_EM_T ((a ^ 2) ^ 2) 0) as [E|N']; [exfalso; revert E; now apply pow_nonzero|]. cbn [bind].
  f_equal. unfold energy. replace ((2 * 0 + 3) ^ 2) with 9 by ring. reflexivity.
Qed.

Theorem C46_energy_errors : forall B c1 c2 kappa a lambda,
  (a = 0 \/ lambda = 1 -> RWC_expt B c1 c2 kappa a lambda = Raise ValueError) /\
  (a <> 0 -> lambda <> 1 -> B = 0 -> RWC_expt B c1 c2 kappa a lambda = Raise ZeroDivisionError).
Proof.
  intros. unfold RWC_expt, fdiv. split.
  - intros [-> | ->]; [destruct (Req_EM_T 0 0); tauto|]. destruct (Req_EM_T a 0); [reflexivity|]. destruct (Req_EM_T 1 1); tauto.
  - intros Ha Hl ->. destruct (Req_EM_T a 0); [contradiction|]. destruct (Req_EM_T lambda 1); [contradiction|].
    destruct (Req_EM_T (lambda - 1) 0); [lra|]. cbn [bind]. destruct (Req_EM_T 0 0); tauto.
Qed.

(** *** C45 *)

Lemma min_at (f f' : R -> R) x0 : 0 < x0 -> (forall x, 0 < x -> derivable_pt_lim f x (f' x)) ->
  (forall x, 0 < x < x0 -> f' x < 0) -> (forall x, x0 < x -> 0 < f' x) ->
  forall x, 0 < x -> x <> x0 -> f x0 < f x.
Proof.
  intros X D L G x Hx N. destruct (Rtotal_order x x0) as [O|[O|O]]; [|contradiction|].
  - destruct (MVT_cor2 f f' x x0 O) as (c & E & C). { intros c C. apply D. lra. }
    specialize (L c ltac:(lra)). nra.
  - destruct (MVT_cor2 f f' x0 x O) as (c & E & C). { intros c C. apply D. lra. }
    specialize (G c ltac:(lra)). nra.
Qed.

(** c1 < 0: one positive zero, where the energy is least. *)
Theorem C45_root_negative : forall v B c1 c2, (0 <= v)%Z -> B <> 0 -> c1 < 0 -> 0 < c2 ->
  F2 B c1 c2 v 0 < 0 /\
  exists A0, 0 < A0 /\ (forall A, 0 < A -> (F2 B c1 c2 v A = 0 <-> A = A0)) /\
    (forall A, A0 < A -> 0 < F2 B c1 c2 v A) /\
    (0 < B -> forall kappa A, 0 < A -> A <> A0 ->
       energy v B c1 c2 kappa A0 (lambda_v v c1 c2 (sqrt A0)) < energy v B c1 c2 kappa A (lambda_v v c1 c2 (sqrt A))).
Proof.
  intros v B c1 c2 Hv HB H1 H2. split; [now apply F2_zero|].
  destruct (F2_root B c1 c2 v Hv HB H1 H2) as (A0 & P & Z & C). exists A0. split; [exact P|]. split; [|split].
  - intros A HA. split; [|now intros ->]. intros E. destruct (Rtotal_order A A0) as [O|[O|O]]; [|exact O|].
    + apply C in O; [lra|exact HA].
    + apply C in O; [lra|exact HA].
  - intros A HA. apply C; lra.
  - intros PB kappa A HA N.
    assert (LE : forall A, 0 < A -> lambda_v v c1 c2 (sqrt A) = 1 + muf A c1 c2 v / 2).
    { intros X HX. unfold lambda_v, muf, beta0. destruct (Rle_dec 0 c1); [lra|]. f_equal.
      rewrite vshftf_val.
      assert (Q : 0 <= - c1 / (2 * c2)) by (apply Rmult_le_pos; [lra|left; apply Rinv_0_lt_compat; lra]).
      replace ((sqrt X * sqrt (- c1 / (2 * c2))) ^ 4)
        with (((sqrt X * sqrt X) * (sqrt (- c1 / (2 * c2)) * sqrt (- c1 / (2 * c2)))) ^ 2) by ring.
      rewrite !sqrt_sqrt by lra.
      replace ((2 * IZR v + 3) ^ 2 + (X * c1 / c2) ^ 2)
        with (2 ^ 2 * ((IZR v + 3 / 2) ^ 2 + (X * (- c1 / (2 * c2))) ^ 2)) by (field; lra).
      rewrite sqrt_mult; [|lra|]. 
      + rewrite sqrt_pow2 by lra. field.
      + pose proof (pow2_ge_0 (IZR v + 3 / 2)). pose proof (pow2_ge_0 (X * (- c1 / (2 * c2)))). lra. }
    rewrite !LE by assumption.
    apply (min_at (fun A => energy v B c1 c2 kappa A (1 + muf A c1 c2 v / 2))
                  (fun A => F2 B c1 c2 v A / (4 * A ^ 3 * B * muf A c1 c2 v)) A0); try assumption.
    + intros X HX. destruct (C46_variable_lambda v B c1 c2 kappa X Hv HB HX) as (d & D & E & _).
      rewrite E. replace (4 * X ^ 3 * B * muf X c1 c2 v * d / (4 * X ^ 3 * B * muf X c1 c2 v)) with d; [exact D|].
      pose proof (muf_pos X c1 c2 v Hv). field. repeat split; lra.
    + intros X [HX HX']. apply C in HX'; [|exact HX]. pose proof (muf_pos X c1 c2 v Hv).
      assert (0 < / (4 * X ^ 3 * B * muf X c1 c2 v)).
      { apply Rinv_0_lt_compat. repeat apply Rmult_lt_0_compat; lra. }
      unfold Rdiv. nra.
    + intros X HX. assert (HX0 : 0 < X) by lra. apply C in HX; [|exact HX0]. pose proof (muf_pos X c1 c2 v Hv).
      apply Rmult_lt_0_compat; [exact HX|]. apply Rinv_0_lt_compat. repeat apply Rmult_lt_0_compat; lra.
Qed.

(** The documented lambda_v is the value returned with the zero. *)
Lemma lambda_muf v c1 c2 A : c1 < 0 -> 0 < c2 -> 0 <= A -> lambda_v v c1 c2 (sqrt A) = 1 + muf A c1 c2 v / 2.
Proof.
  intros H1 H2 HX. unfold lambda_v, muf, beta0. destruct (Rle_dec 0 c1); [lra|]. f_equal.
  rewrite vshftf_val.
  assert (Q : 0 <= - c1 / (2 * c2)) by (apply Rmult_le_pos; [lra|left; apply Rinv_0_lt_compat; lra]).
  replace ((sqrt A * sqrt (- c1 / (2 * c2))) ^ 4)
    with (((sqrt A * sqrt A) * (sqrt (- c1 / (2 * c2)) * sqrt (- c1 / (2 * c2)))) ^ 2) by ring.
  rewrite !sqrt_sqrt by lra.
  replace ((2 * IZR v + 3) ^ 2 + (A * c1 / c2) ^ 2)
    with (2 ^ 2 * ((IZR v + 3 / 2) ^ 2 + (A * (- c1 / (2 * c2))) ^ 2)) by (field; lra).
  rewrite sqrt_mult; [|lra|].
  - rewrite sqrt_pow2 by lra. field.
  - pose proof (pow2_ge_0 (IZR v + 3 / 2)). pose proof (pow2_ge_0 (A * (- c1 / (2 * c2)))). lra.
Qed.

Lemma RWC_dav_ok c1 c2 a v : 0 <= c1 \/ 0 < c2 -> RWC_dav c1 c2 a v = Ok (lambda_v v c1 c2 a).
Proof.
  intros Hc. unfold RWC_dav, beta_dav, lam_dav, lambda_v, beta0, fdiv.
  assert (G : forall b, math_sqrt ((IZR v + 1.5) ^ 2 + (a * b) ^ 4) = Ok (sqrt ((IZR v + 3 / 2) ^ 2 + (a * b) ^ 4))).
  { intros b. unfold math_sqrt. pose proof (pow2_ge_0 (IZR v + 1.5)). pose proof (pow2_ge_0 ((a * b) ^ 2)).
    replace (((a * b) ^ 2) ^ 2) with ((a * b) ^ 4) in * by ring. destruct (Rlt_dec _ 0); [lra|].
    f_equal. f_equal. f_equal. f_equal. lra. }
  destruct (Rle_dec 0 c1); cbn [bind]; [now rewrite G|]. destruct (Req_EM_T (c2 * 2) 0); [lra|]. cbn [bind].
  assert (Q : 0 <= - c1 / (c2 * 2)) by (apply Rmult_le_pos; [lra|left; apply Rinv_0_lt_compat; lra]).
  destruct (Rlt_dec _ 0); [lra|]. cbn [bind]. rewrite G. rewrite (Rmult_comm c2 2). reflexivity.
Qed.

Lemma doubling_found F n A : 0 < F (A * 2 ^ n) -> exists k, (k <= n)%nat /\ 0 < F (A * 2 ^ k) /\
  (forall j, (j < k)%nat -> F (A * 2 ^ j) <= 0) /\ forall fuel, (k <= fuel)%nat -> doubling fuel F A = Some (A * 2 ^ k).
Proof.
  revert A. induction n as [|n IH]; intros A HF.
  - exists O. split; [lia|]. split; [exact HF|]. split; [lia|]. intros fuel _.
    rewrite pow_O, Rmult_1_r in HF. rewrite pow_O, Rmult_1_r. destruct fuel; cbn [doubling]; unfold positive; destruct (Rlt_dec 0 (F A)); tauto.
  - destruct (Rlt_dec 0 (F A)) as [P|N].
    + exists O. rewrite pow_O, Rmult_1_r. split; [lia|]. split; [exact P|]. split; [lia|]. intros fuel _.
      destruct fuel; cbn [doubling]; unfold positive; destruct (Rlt_dec 0 (F A)); tauto.
    + destruct (IH (A * 2)) as (k & K1 & K2 & K3 & K4). { now replace (A * 2 * 2 ^ n) with (A * 2 ^ S n) by (cbn [pow]; ring). }
      exists (S k). replace (A * 2 ^ S k) with (A * 2 * 2 ^ k) by (cbn [pow]; ring). split; [lia|]. split; [exact K2|]. split.
      * intros [|j] Hj; [rewrite pow_O, Rmult_1_r; lra|]. replace (A * 2 ^ S j) with (A * 2 * 2 ^ j) by (cbn [pow]; ring). apply K3. lia.
      * intros [|fuel] Hf; [lia|]. cbn [doubling]. unfold positive. destruct (Rlt_dec 0 (F A)); [tauto|]. apply K4. lia.
Qed.

Lemma two_pow_unbounded x : exists n, x < 2 ^ n.
Proof.
  destruct (Pow_x_infinity 2 ltac:(rewrite Rabs_pos_eq; lra) (x + 1)) as (n & G). exists n. specialize (G n (le_n _)).
  rewrite Rabs_pos_eq in G by (apply pow_le; lra). lra.
Qed.

(** The search for a bracket ends at the first power of two where the function
    is positive; the zero lies inside the bracket. *)
Theorem C45_search : forall v B c1 c2, (0 <= v)%Z -> B <> 0 -> c1 < 0 -> 0 < c2 ->
  exists k, (forall fuel, (k <= fuel)%nat -> doubling fuel (F2 B c1 c2 v) 1 = Some (2 ^ k)) /\
    F2 B c1 c2 v 0 < 0 < F2 B c1 c2 v (2 ^ k) /\ (forall j, (j < k)%nat -> F2 B c1 c2 v (2 ^ j) <= 0) /\
    exists A0, 0 < A0 < 2 ^ k /\ F2 B c1 c2 v A0 = 0.
Proof.
  intros v B c1 c2 Hv HB H1 H2. destruct (C45_root_negative v B c1 c2 Hv HB H1 H2) as (N & A0 & P & U & G & _).
  destruct (two_pow_unbounded A0) as (n & Hn). destruct (doubling_found (F2 B c1 c2 v) n 1) as (k & K1 & K2 & K3 & K4).
  { rewrite Rmult_1_l. now apply G. }
  rewrite Rmult_1_l in K2. exists k. split; [intros fuel Hf; rewrite K4 by exact Hf; f_equal; ring|]. split; [lra|]. split.
  { intros j Hj. specialize (K3 j Hj). now rewrite Rmult_1_l in K3. }
  exists A0. assert (Z : F2 B c1 c2 v A0 = 0) by now apply U. split; [|exact Z]. split; [exact P|].
  destruct (F2_root B c1 c2 v Hv HB H1 H2) as (A1 & P1 & Z1 & C1). assert (A0 = A1) by (symmetry; now apply U). subst A1.
  destruct (Rtotal_order A0 (2 ^ k)) as [O|[O|O]]; [exact O| |].
  - rewrite <- O in K2. lra.
  - apply C1 in O; [lra|]. apply pow_lt. lra.
Qed.

(** The whole function for c1 < 0, given a root finder that works on this
    function: [a^2] is the positive zero, lambda is the documented lambda_v. *)
Theorem C45_alam_negative : forall solveset root_scalar v B c1 c2,
  (0 <= v)%Z -> B <> 0 -> c1 < 0 -> 0 < c2 ->
  (forall b, 0 < b -> F2 B c1 c2 v 0 < 0 < F2 B c1 c2 v b ->
     exists r, root_scalar (F2 B c1 c2 v) 0 b = Some r /\ 0 <= r <= b /\ F2 B c1 c2 v r = 0) ->
  exists n a, (forall fuel, (n <= fuel)%nat -> RWC_alam solveset root_scalar fuel B c1 c2 v = Some (Ok (a, lambda_v v c1 c2 a))) /\
    0 < a /\ (forall A, 0 < A -> (F2 B c1 c2 v A = 0 <-> A = a ^ 2)) /\
    RWC_dav c1 c2 a v = Ok (lambda_v v c1 c2 a).
Proof.
  intros solveset root_scalar v B c1 c2 Hv HB H1 H2 Hr.
  destruct (C45_search v B c1 c2 Hv HB H1 H2) as (k & K & S & _ & _).
  destruct (C45_root_negative v B c1 c2 Hv HB H1 H2) as (N & A0 & P & U & _ & _).
  destruct (Hr (2 ^ k) ltac:(apply pow_lt; lra) S) as (r & E & R1 & R2).
  assert (R0 : 0 < r). { destruct R1 as [[R1|R1] _]; [exact R1|]. subst r. lra. }
  assert (r = A0) by now apply U. subst r.
  exists k, (sqrt A0). split; [|split; [now apply sqrt_lt_R0|split]].
  - intros fuel Hf. unfold RWC_alam. rewrite require_nonnegint_ok by exact Hv.
    destruct (Rle_dec 0 c1); [lra|]. destruct (Rle_dec c2 0); [lra|]. fold (F2 B c1 c2 v).
    change (RWC2 0 (muf 0 c1 c2 v) B c1 c2 v) with (F2 B c1 c2 v 0).
    change (fun A : R => RWC2 A (muf A c1 c2 v) B c1 c2 v) with (F2 B c1 c2 v).
    destruct (Rlt_dec (F2 B c1 c2 v 0) 0); [|lra]. rewrite K by exact Hf. rewrite E.
    unfold math_sqrt. destruct (Rlt_dec A0 0); [lra|]. cbn [bind]. rewrite lambda_muf by lra. reflexivity.
  - intros A HA. rewrite U by exact HA. rewrite <- Rsqr_pow2, Rsqr_sqrt by lra. tauto.
  - apply RWC_dav_ok. now right.
Qed.

(** c1 >= 0. *)
Lemma RWC1_val A B c1 c2 v : RWC1 A B c1 c2 v = A ^ 3 - B ^ 2 * c1 * A - (2 * IZR v + 7) * (B ^ 2 * c2).
Proof. unfold RWC1. rewrite plus_IZR, mult_IZR. ring. Qed.

Lemma cubic_sign p q A0 A : 0 <= p -> 0 <= q -> 0 < A0 -> A0 ^ 3 - p * A0 - q = 0 -> 0 < A ->
  (A < A0 -> A ^ 3 - p * A - q < 0) /\ (A0 < A -> 0 < A ^ 3 - p * A - q).
Proof.
  intros Hp Hq H0 E HA.
  assert (G : A ^ 3 - p * A - q = (A - A0) * (A ^ 2 + A * A0 + (A0 ^ 2 - p))) by nra.
  assert (0 <= A0 ^ 2 - p).
  { apply Rmult_le_reg_l with A0; [exact H0|]. nra. }
  assert (0 < A ^ 2 + A * A0 + (A0 ^ 2 - p)) by nra. rewrite G. split; intros L; nra.
Qed.

Lemma cubic_root p q : 0 <= p -> 0 <= q -> 0 < p + q -> exists A0, 0 < A0 /\ A0 ^ 3 - p * A0 - q = 0.
Proof.
  intros Hp Hq S.
  set (f := fun A => A ^ 3 - p * A - q). set (b := p + q + 1).
  assert (C : forall a, continuity_pt f a).
  { intros a. apply derivable_continuous_pt. exists (3 * a ^ 2 - p). apply is_derive_Reals. unfold f. auto_derive; [exact I|ring]. }
  assert (FB : 0 < f b) by (unfold f, b; nra).
  destruct (Req_dec q 0) as [-> | Q].
  - exists (sqrt p). assert (P : 0 < p) by lra. split; [now apply sqrt_lt_R0|].
    pose proof (sqrt_sqrt p Hp). replace (sqrt p ^ 3) with (sqrt p * sqrt p * sqrt p) by ring. rewrite H. ring.
  - destruct (IVT_interv f 0 b) as (x & (X0 & X1) & E); [intros; apply C|unfold b; lra|unfold f; lra|exact FB|].
    exists x. split; [|exact E]. destruct X0 as [X0|X0]; [exact X0|]. subst x. unfold f in E. lra.
Qed.

Theorem C45_root_nonnegative : forall v B c1 c2, (0 <= v)%Z -> B <> 0 -> 0 <= c1 -> 0 <= c2 -> 0 < c1 + c2 ->
  exists A0, 0 < A0 /\ (forall A, 0 < A -> (RWC1 A B c1 c2 v = 0 <-> A = A0)) /\
    (0 < B -> forall kappa A, 0 < A -> A <> A0 ->
       energy v B c1 c2 kappa A0 (lambda_v v c1 c2 (sqrt A0)) < energy v B c1 c2 kappa A (lambda_v v c1 c2 (sqrt A))).
Proof.
  intros v B c1 c2 Hv HB H1 H2 H3. assert (B2 : 0 < B ^ 2) by nra. assert (V : 0 <= IZR v) by now apply IZR_le.
  assert (P1 : 0 <= B ^ 2 * c1) by nra. assert (P2 : 0 <= (2 * IZR v + 7) * (B ^ 2 * c2)) by (apply Rmult_le_pos; nra).
  assert (P3 : 0 < B ^ 2 * c1 + (2 * IZR v + 7) * (B ^ 2 * c2)).
  { assert (0 < B ^ 2 * (c1 + c2)) by (apply Rmult_lt_0_compat; lra). assert (0 <= B ^ 2 * c2) by nra. nra. }
  destruct (cubic_root _ _ P1 P2 P3) as (A0 & P & Z). exists A0. split; [exact P|]. split.
  - intros A HA. rewrite RWC1_val. split; [|now intros ->]. intros E.
    destruct (cubic_sign _ _ A0 A P1 P2 P Z HA) as [C1 C2]. destruct (Rtotal_order A A0) as [O|[O|O]]; [|exact O|].
    + apply C1 in O. lra.
    + apply C2 in O. lra.
  - intros PB kappa A HA N.
    assert (L : forall a, lambda_v v c1 c2 a = IZR v + 5 / 2).
    { intros a. unfold lambda_v, beta0. destruct (Rle_dec 0 c1); [|lra]. rewrite Rmult_0_r, pow_i, Rplus_0_r by lia.
      rewrite sqrt_pow2 by lra. lra. }
    rewrite !L.
    apply (min_at (fun A => energy v B c1 c2 kappa A (IZR v + 5 / 2))
                  (fun A => (2 * IZR v + 5) * RWC1 A B c1 c2 v / (4 * A ^ 3 * B)) A0); try assumption.
    + intros X HX. destruct (C46_constant_lambda v B c1 c2 kappa X Hv HB HX) as (d & D & E & _).
      rewrite E. replace (4 * X ^ 3 * B * d / (4 * X ^ 3 * B)) with d; [exact D|]. field. repeat split; lra.
    + intros X [HX HX']. destruct (cubic_sign _ _ A0 X P1 P2 P Z HX) as [C1 _]. apply C1 in HX'. rewrite <- RWC1_val in HX'.
      assert (0 < / (4 * X ^ 3 * B)) by (apply Rinv_0_lt_compat; repeat apply Rmult_lt_0_compat; lra).
      assert ((2 * IZR v + 5) * RWC1 X B c1 c2 v < 0) by nra. unfold Rdiv. nra.
    + intros X HX. assert (HX0 : 0 < X) by lra. destruct (cubic_sign _ _ A0 X P1 P2 P Z HX0) as [_ C2]. apply C2 in HX. rewrite <- RWC1_val in HX.
      apply Rmult_lt_0_compat; [nra|]. apply Rinv_0_lt_compat. repeat apply Rmult_lt_0_compat; lra.
Qed.

Lemma filter_head l x : In x l -> 0 < x -> (forall y, In y l -> 0 < y -> y = x) -> exists r, filter positive l = x :: r.
Proof.
  induction l as [|y l IH]; intros HI P U; [contradiction|]. cbn [filter]. unfold positive at 1.
  destruct (Rlt_dec 0 y) as [Y|Y].
  - rewrite (U y (or_introl eq_refl) Y). eauto.
  - destruct HI as [-> | HI]; [lra|]. apply IH; [exact HI|exact P|]. intros. apply U; [now right|assumption].
Qed.

Theorem C45_alam_nonnegative : forall solveset root_scalar fuel v B c1 c2 l,
  (0 <= v)%Z -> B <> 0 -> 0 <= c1 -> 0 <= c2 -> 0 < c1 + c2 ->
  solveset (fun A => RWC1 A B c1 c2 v) = Some l -> (forall x, In x l <-> RWC1 x B c1 c2 v = 0) ->
  exists a, RWC_alam solveset root_scalar fuel B c1 c2 v = Some (Ok (a, 2.5)) /\
    RWC_alam_clam solveset B c1 c2 v = Ok (a, 2.5) /\
    0 < a /\ (forall A, 0 < A -> (RWC1 A B c1 c2 v = 0 <-> A = a ^ 2)).
Proof.
  intros solveset root_scalar fuel v B c1 c2 l Hv HB H1 H2 H3 E Hl.
  destruct (C45_root_nonnegative v B c1 c2 Hv HB H1 H2 H3) as (A0 & P & U & _).
  destruct (filter_head l A0) as (r & F); [apply Hl; now apply U|exact P|intros y Y PY; apply U; [exact PY|now apply Hl]|].
  assert (EC : RWC_alam_clam solveset B c1 c2 v = Ok (sqrt A0, 2.5)).
  { unfold RWC_alam_clam. rewrite E, F. unfold math_sqrt. destruct (Rlt_dec A0 0); [lra|]. reflexivity. }
  exists (sqrt A0). split; [|split; [exact EC|split]].
  - unfold RWC_alam. rewrite require_nonnegint_ok by exact Hv. destruct (Rle_dec 0 c1); [|contradiction]. now rewrite EC.
  - now apply sqrt_lt_R0.
  - intros A HA. rewrite U by exact HA. rewrite <- Rsqr_pow2, Rsqr_sqrt by lra. tauto.
Qed.

(** For v = 0 the parameters minimise RWC_expt_link among all [anorm]. *)
Theorem C45_minimum : forall solveset root_scalar fuel B c1 c2 kappa l a lambda,
  0 < B -> (0 <= c1 /\ 0 <= c2 /\ 0 < c1 + c2 \/ c1 < 0 /\ 0 < c2) ->
  solveset (fun A => RWC1 A B c1 c2 0) = Some l -> (forall x, In x l <-> RWC1 x B c1 c2 0 = 0) ->
  (forall b r, root_scalar (F2 B c1 c2 0) 0 b = Some r -> 0 <= r <= b /\ F2 B c1 c2 0 r = 0) ->
  RWC_alam solveset root_scalar fuel B c1 c2 0 = Some (Ok (a, lambda)) ->
  a <> 0 /\ lambda = lambda_v 0 c1 c2 a /\
  exists e, RWC_expt_link B c1 c2 kappa a = Ok e /\ RWC_expt B c1 c2 kappa a lambda = Ok e /\
    forall a', a' <> 0 -> exists e', RWC_expt_link B c1 c2 kappa a' = Ok e' /\ e <= e' /\ (a' ^ 2 <> a ^ 2 -> e < e').
Proof.
  intros solveset root_scalar fuel B c1 c2 kappa l a lambda HB HC El Hl Hr E.
  assert (LN : forall a, lambda_v 0 c1 c2 a <> 1).
  { intros x. unfold lambda_v. pose proof (pow2_ge_0 ((x * beta0 c1 c2) ^ 2)).
    replace (((x * beta0 c1 c2) ^ 2) ^ 2) with ((x * beta0 c1 c2) ^ 4) in H by ring.
    assert (0 < sqrt ((0 + 3 / 2) ^ 2 + (x * beta0 c1 c2) ^ 4)) by (apply sqrt_lt_R0; lra). lra. }
  assert (LL : forall x, x <> 0 -> RWC_expt_link B c1 c2 kappa x = Ok (energy 0 B c1 c2 kappa (x ^ 2) (lambda_v 0 c1 c2 x))).
  { intros x Hx. unfold RWC_expt_link. rewrite RWC_dav_ok by tauto. cbn [bind]. apply C46_energy; [lra|exact Hx|apply LN]. }
  assert (LA : forall x, lambda_v 0 c1 c2 x = lambda_v 0 c1 c2 (sqrt (x ^ 2))).
  { intros x. unfold lambda_v. f_equal. f_equal. f_equal.
    replace ((x * beta0 c1 c2) ^ 4) with ((x ^ 2) ^ 2 * beta0 c1 c2 ^ 4) by ring.
    replace ((sqrt (x ^ 2) * beta0 c1 c2) ^ 4) with ((sqrt (x ^ 2) * sqrt (x ^ 2)) ^ 2 * beta0 c1 c2 ^ 4) by ring.
    now rewrite sqrt_sqrt by apply pow2_ge_0. }
  assert (K : a <> 0 /\ lambda = lambda_v 0 c1 c2 a /\ forall A, 0 < A -> A <> a ^ 2 ->
     energy 0 B c1 c2 kappa (a ^ 2) (lambda_v 0 c1 c2 (sqrt (a ^ 2))) < energy 0 B c1 c2 kappa A (lambda_v 0 c1 c2 (sqrt A))).
  { destruct HC as [(H1 & H2 & H3)|(H1 & H2)].
    - destruct (C45_alam_nonnegative solveset root_scalar fuel 0 B c1 c2 l ltac:(lia) ltac:(lra) H1 H2 H3 El Hl) as (a0 & E0 & _ & P & U).
      rewrite E0 in E. injection E as <- <-. split; [lra|]. split.
      + unfold lambda_v, beta0. destruct (Rle_dec 0 c1); [|lra]. rewrite Rmult_0_r, pow_i, Rplus_0_r by lia.
        rewrite sqrt_pow2 by lra. lra.
      + destruct (C45_root_nonnegative 0 B c1 c2 ltac:(lia) ltac:(lra) H1 H2 H3) as (A0 & PA & UA & M).
        assert (A0 = a0 ^ 2) as -> by (apply U; [exact PA|now apply UA]). intros A HA N. now apply M.
    - unfold RWC_alam in E. cbn [require_nonnegint raise_if Z.ltb Z.compare] in E.
      destruct (Rle_dec 0 c1); [lra|]. destruct (Rle_dec c2 0); [lra|].
      change (RWC2 0 (muf 0 c1 c2 0) B c1 c2 0) with (F2 B c1 c2 0 0) in E.
      change (fun A : R => RWC2 A (muf A c1 c2 0) B c1 c2 0) with (F2 B c1 c2 0) in E.
      destruct (Rlt_dec (F2 B c1 c2 0 0) 0) as [N0|]; [|discriminate].
      destruct (doubling fuel (F2 B c1 c2 0) 1) as [b|]; [|discriminate].
      destruct (root_scalar (F2 B c1 c2 0) 0 b) as [r|] eqn:ER; [|discriminate].
      destruct (Hr _ _ ER) as ([R0 _] & RZ). unfold math_sqrt in E. destruct (Rlt_dec r 0); [lra|]. cbn [bind] in E.
      assert (RP : 0 < r). { destruct R0 as [R0|R0]; [exact R0|]. subst r. lra. }
      assert (a = sqrt r /\ lambda = 1 + muf r c1 c2 0 / 2) as [-> ->] by (split; congruence).
      split; [pose proof (sqrt_lt_R0 r RP); lra|]. split; [now rewrite lambda_muf by lra|].
      destruct (C45_root_negative 0 B c1 c2 ltac:(lia) ltac:(lra) H1 H2) as (_ & A0 & PA & UA & _ & M).
      assert (A0 = r) as -> by (symmetry; now apply UA).
      replace (sqrt r ^ 2) with r by (rewrite <- Rsqr_pow2, Rsqr_sqrt; lra). intros A HA N. now apply M. }
  destruct K as (Ka & -> & KM). split; [exact Ka|]. split; [reflexivity|]. exists (energy 0 B c1 c2 kappa (a ^ 2) (lambda_v 0 c1 c2 a)).
  split; [now apply LL|]. split; [apply C46_energy; [lra|exact Ka|apply LN]|].
  intros a' Ha'. exists (energy 0 B c1 c2 kappa (a' ^ 2) (lambda_v 0 c1 c2 a')). split; [now apply LL|].
  assert (PA : 0 < a' ^ 2) by nra.
  assert (ST : a' ^ 2 <> a ^ 2 -> energy 0 B c1 c2 kappa (a ^ 2) (lambda_v 0 c1 c2 a) < energy 0 B c1 c2 kappa (a' ^ 2) (lambda_v 0 c1 c2 a')).
  { intros N. rewrite (LA a), (LA a'). now apply KM. }
  split; [|exact ST]. destruct (Req_dec (a' ^ 2) (a ^ 2)) as [Q|Q]; [|specialize (ST Q); lra].
  rewrite (LA a), (LA a'), Q. apply Rle_refl.
Qed.

(** For c1 >= 0 and v > 0 the lambda returned is not the documented lambda_v,
    and not the one for which the energy is stationary. *)
Theorem C45_lambda_documented_refuted : forall v B c1 c2 kappa a, (1 <= v)%Z -> 0 < B -> 0 <= c1 -> 0 <= c2 ->
  0 < a -> RWC1 (a ^ 2) B c1 c2 v = 0 ->
  lambda_v v c1 c2 a <> 2.5 /\
  exists d, derivable_pt_lim (fun A => energy v B c1 c2 kappa A 2.5) (a ^ 2) d /\ 0 < d.
Proof.
  intros v B c1 c2 kappa a Hv HB H1 H2 Ha E. assert (V : 1 <= IZR v) by now apply IZR_le. split.
  - unfold lambda_v, beta0. destruct (Rle_dec 0 c1); [|lra]. rewrite Rmult_0_r, pow_i, Rplus_0_r by lia.
    rewrite sqrt_pow2 by lra. lra.
  - assert (PA : 0 < a ^ 2) by nra. generalize dependent (a ^ 2). intros A E PA. clear a Ha. eexists. split.
    + replace 2.5 with (5 / 2) by lra. apply is_derive_Reals. unfold energy. auto_derive; [repeat split; nra|reflexivity].
    + rewrite RWC1_val in E.
      match goal with |- 0 < ?x => replace x with
        (((1 / 2 + (2 * IZR v + 3) ^ 2 / 12) * A ^ 3 - 5 / 4 * (B ^ 2 * c1 * A) - 35 / 4 * (B ^ 2 * c2)) / (A ^ 3 * B))
        by (field; repeat split; lra) end.
      apply Rmult_lt_0_compat; [|apply Rinv_0_lt_compat, Rmult_lt_0_compat; [now apply pow_lt|exact HB]].
      assert (0 < A ^ 3) by now apply pow_lt. assert (0 <= B ^ 2 * c2) by nra.
      assert (0 <= B ^ 2 * c1 * A) by (apply Rmult_le_pos; nra).
      assert (0 < ((2 * IZR v + 3) ^ 2 - 9) / 12) by nra.
      assert (0 < ((2 * IZR v + 3) ^ 2 - 9) / 12 * A ^ 3) by (apply Rmult_lt_0_compat; lra). nra.
Qed.

(** Exceptions: only for the stated inputs. *)
Theorem C45_exceptions : forall solveset root_scalar fuel v B c1 c2,
  ((v < 0)%Z -> RWC_alam solveset root_scalar fuel B c1 c2 v = Some (Raise ValueError)) /\
  ((0 <= v)%Z -> c1 < 0 -> c2 <= 0 -> RWC_alam solveset root_scalar fuel B c1 c2 v = Some (Raise ValueError)) /\
  ((0 <= v)%Z -> c1 < 0 -> 0 < c2 -> B = 0 -> RWC_alam solveset root_scalar fuel B c1 c2 v = Some (Raise AssertionError)) /\
  (0 <= c1 -> B = 0 \/ c1 = 0 /\ c2 = 0 -> (exists l, solveset (fun A => RWC1 A B c1 c2 v) = Some l /\ forall x, In x l -> RWC1 x B c1 c2 v = 0) ->
     RWC_alam_clam solveset B c1 c2 v = Raise IndexError).
Proof.
  intros solveset root_scalar fuel v B c1 c2. unfold RWC_alam. repeat split.
  - intros Hv. unfold require_nonnegint, raise_if. apply Z.ltb_lt in Hv. now rewrite Hv.
  - intros Hv H1 H2. rewrite require_nonnegint_ok by exact Hv. destruct (Rle_dec 0 c1); [lra|]. destruct (Rle_dec c2 0); [reflexivity|lra].
  - intros Hv H1 H2 ->. rewrite require_nonnegint_ok by exact Hv. destruct (Rle_dec 0 c1); [lra|]. destruct (Rle_dec c2 0); [lra|].
    unfold RWC2. rewrite !(pow_i 5), !(pow_i 3), !(pow_i 2) by lia. destruct (Rlt_dec _ 0) as [L|L]; [|reflexivity].
    exfalso. unfold Rdiv in L. ring_simplify in L. lra.
  - intros H1 HZ (l & E & Hl). unfold RWC_alam_clam. rewrite E.
    replace (filter positive l) with (@nil R); [reflexivity|]. symmetry.
    assert (G : forall x, In x l -> ~ 0 < x).
    { intros x Hx P. apply Hl in Hx. rewrite RWC1_val in Hx. assert (0 < x ^ 3) by now apply pow_lt.
      destruct HZ as [-> | [-> ->]]; rewrite ?pow_i in Hx by lia; lra. }
    clear - G. induction l as [|x l IH]; [reflexivity|]. cbn [filter]. unfold positive at 1.
    destruct (Rlt_dec 0 x); [exfalso; now apply (G x (or_introl eq_refl))|]. apply IH. intros. apply G. now right.
Qed.

Theorem C45_not_converged : forall solveset root_scalar fuel v B c1 c2 b, (0 <= v)%Z -> B <> 0 -> c1 < 0 -> 0 < c2 ->
  doubling fuel (F2 B c1 c2 v) 1 = Some b -> root_scalar (F2 B c1 c2 v) 0 b = None ->
  RWC_alam solveset root_scalar fuel B c1 c2 v = Some (Raise RwcOptimizationError).
Proof.
  intros solveset root_scalar fuel v B c1 c2 b Hv HB H1 H2 D E. unfold RWC_alam. rewrite require_nonnegint_ok by exact Hv.
  destruct (Rle_dec 0 c1); [lra|]. destruct (Rle_dec c2 0); [lra|].
  change (RWC2 0 (muf 0 c1 c2 v) B c1 c2 v) with (F2 B c1 c2 v 0).
  change (fun A : R => RWC2 A (muf A c1 c2 v) B c1 c2 v) with (F2 B c1 c2 v).
  pose proof (F2_zero B c1 c2 v Hv HB H1 H2). destruct (Rlt_dec (F2 B c1 c2 v 0) 0); [|lra]. now rewrite D, E.
Qed.

(** "assume that the smallest positive zero is the one that minimizes energy":
    false for c1 > 0 > c2, which is not rejected. *)
Theorem C45_smallest_refuted :
  ~ (forall solveset B c1 c2 l a lambda, 0 < B -> 0 <= c1 ->
       solveset (fun A => RWC1 A B c1 c2 0) = Some l -> (forall x, In x l <-> RWC1 x B c1 c2 0 = 0) ->
       Sorted.StronglySorted Rlt l -> RWC_alam_clam solveset B c1 c2 0 = Ok (a, lambda) ->
       exists eps, 0 < eps /\ forall A, Rabs (A - a ^ 2) < eps -> energy 0 B c1 c2 0 (a ^ 2) lambda <= energy 0 B c1 c2 0 A lambda).
Proof.
  intros K.
  destruct (K (fun _ => Some [-3; 1; 2]) 1 7 (-6 / 7) [-3; 1; 2] 1 (5 / 2)) as (eps & P & G); try lra.
  - reflexivity.
  - intros x. rewrite RWC1_val. replace (x ^ 3 - 1 ^ 2 * 7 * x - (2 * 0 + 7) * (1 ^ 2 * (-6 / 7))) with ((x + 3) * ((x - 1) * (x - 2))) by field.
    split.
    + intros [<- |[<- |[<- |[]]]]; ring.
    + intros E. apply Rmult_integral in E. destruct E as [E|E]; [left; lra|]. apply Rmult_integral in E.
      destruct E; [right; left; lra|right; right; left; lra].
  - repeat constructor; lra.
  - unfold RWC_alam_clam. cbn [filter]. unfold positive. destruct (Rlt_dec 0 (-3)); [lra|]. destruct (Rlt_dec 0 1); [|lra].
    destruct (Rlt_dec 0 2); [|lra]. unfold math_sqrt. destruct (Rlt_dec 1 0); [lra|]. cbn [bind]. rewrite sqrt_1.
    f_equal. f_equal. lra.
  - set (h := Rmin (eps / 2) 1). assert (Hh : 0 < h <= 1 /\ h < eps).
    { unfold h. pose proof (Rmin_l (eps / 2) 1). pose proof (Rmin_r (eps / 2) 1). assert (0 < Rmin (eps / 2) 1) by (apply Rmin_glb_lt; lra). lra. }
    specialize (G (1 + h)). rewrite pow1 in G. assert (AB : Rabs (1 + h - 1) < eps) by (replace (1 + h - 1) with h by ring; rewrite Rabs_pos_eq; lra).
    specialize (G AB). unfold energy in G.
    assert (E : forall A, 0 < A -> A * (4 + (2 * 0 + 3) ^ 2 / (5 / 2 - 1)) / 8 / 1 + 1 * (5 / 2) * 7 / 2 / A
       + 1 * (5 / 2) * (5 / 2 + 1) * (-6 / 7) / 2 / A ^ 2 + 0 / 3
       = 25 / 4 + 5 / 4 * ((A - 1) ^ 2 * (A - 3)) / A ^ 2) by (intros; field; lra).
    rewrite !E in G by lra.
    assert (0 < / (1 + h) ^ 2) by (apply Rinv_0_lt_compat, pow_lt; lra).
    assert ((1 + h - 1) ^ 2 * (1 + h - 3) < 0) by (replace (1 + h - 1) with h by ring; assert (0 < h ^ 2) by (apply pow_lt; lra); nra).
    unfold Rdiv in G. nra.
Qed.

(** The approximations for special cases: exact without quartic or without
    quadratic term of the potential; otherwise from the constant term of the
    function and its leading term 2 (-c1) / c2 A^4. *)
Theorem C45_special_cases : forall v B c1 c2, (0 <= v)%Z -> 0 < B ->
  (0 < c1 -> exists A, A0_case1 B c1 = Ok A /\ 0 < A /\ RWC1 A B c1 0 v = 0) /\
  (0 < c2 -> exists A, A0_case2_approx B c2 v = Ok A /\ 0 < A /\ RWC1 A B 0 c2 v = 0) /\
  (c1 < 0 -> 0 < c2 -> exists A, A0_case3_approx B c1 c2 v = Ok A /\ 0 < A /\
     F2 B c1 c2 v 0 + 2 * (- c1) / c2 * A ^ 4 = 0).
Proof.
  intros v B c1 c2 Hv HB. assert (V : 0 <= IZR v) by now apply IZR_le. split; [|split].
  - intros H1. unfold A0_case1. destruct (Rle_dec B 0); [lra|]. destruct (Rle_dec c1 0); [lra|]. unfold math_sqrt.
    destruct (Rlt_dec c1 0); [lra|]. cbn [bind]. eexists. split; [reflexivity|]. pose proof (sqrt_lt_R0 c1 H1). split; [now apply Rmult_lt_0_compat|].
    rewrite RWC1_val. replace ((B * sqrt c1) ^ 3) with (B ^ 2 * (sqrt c1 * sqrt c1) * (B * sqrt c1)) by ring. rewrite sqrt_sqrt by lra. ring.
  - intros H2. unfold A0_case2_approx. destruct (Rle_dec B 0); [lra|]. destruct (Rle_dec c2 0); [lra|]. rewrite require_nonnegint_ok by exact Hv. cbn [bind].
    eexists. split; [reflexivity|]. rewrite plus_IZR, mult_IZR.
    assert (P : 0 < c2 * B ^ 2 * (2 * IZR v + 7)) by (apply Rmult_lt_0_compat; [apply Rmult_lt_0_compat; [lra|now apply pow_lt]|lra]).
    split; [apply exp_pos|]. rewrite RWC1_val. rewrite <- Rpower_pow by apply exp_pos. rewrite Rpower_mult.
    replace (1 / 3 * INR 3) with 1 by (cbn; lra). rewrite Rpower_1 by exact P. ring.
  - intros H1 H2. unfold A0_case3_approx. destruct (Rle_dec B 0); [lra|]. destruct (Rle_dec 0 c1); [lra|]. destruct (Rle_dec c2 0); [lra|].
    rewrite require_nonnegint_ok by exact Hv. cbn [bind]. assert (BC : 0 < B * c2) by now apply Rmult_lt_0_compat.
    unfold math_sqrt. destruct (Rlt_dec (B * c2) 0); [lra|]. cbn [bind].
    eexists. split; [reflexivity|]. set (q := IZR _ / _). assert (Q : 0 < q).
    { unfold q. apply Rmult_lt_0_compat; [apply IZR_lt; nia|apply Rinv_0_lt_compat; lra]. }
    split; [apply Rmult_lt_0_compat; [now apply sqrt_lt_R0|apply exp_pos]|].
    rewrite Rpow_mult_distr. replace (sqrt (B * c2) ^ 4) with ((sqrt (B * c2) * sqrt (B * c2)) ^ 2) by ring. rewrite sqrt_sqrt by lra.
    rewrite <- (Rpower_pow 4) by apply exp_pos. rewrite Rpower_mult. replace (1 / 4 * INR 4) with 1 by (cbn; lra). rewrite Rpower_1 by exact Q.
    unfold F2, RWC2, muf. rewrite vshftf_val. unfold q. rewrite !mult_IZR, !plus_IZR, !mult_IZR.
    replace (0 * c1 / c2) with 0 by (field; lra). rewrite !(pow_i 5), !(pow_i 3), !(pow_i 2) by lia. rewrite Rplus_0_r, sqrt_pow2 by lra.
    field. repeat split; lra.
Qed.

(** RWC_alam_fun: the parameters of RWC_alam, and the lambda function of the
    oscillator or of the Davidson basis with (a beta0)^4. *)
Theorem C45_alam_fun : forall solveset root_scalar fuel B c1 c2 a lambda,
  0 <= c1 \/ 0 < c2 ->
  RWC_alam solveset root_scalar fuel B c1 c2 0 = Some (Ok (a, lambda)) ->
  RWC_alam_fun solveset root_scalar fuel B c1 c2
  = Some (Ok (a, lambda, if Rle_dec 0 c1 then lambda_sho_fun else lambda_davi_fun ((a * beta0 c1 c2) ^ 4))).
Proof.
  intros solveset root_scalar fuel B c1 c2 a lambda HC E. unfold RWC_alam_fun. rewrite E. cbn [bind]. unfold beta0.
  destruct (Rle_dec 0 c1); [reflexivity|]. unfold fdiv. destruct (Req_EM_T (c2 * 2) 0); [lra|]. cbn [bind].
  replace ((a ^ 2 * c1 / (c2 * 2)) ^ 2) with ((a * sqrt (- c1 / (2 * c2))) ^ 4); [reflexivity|].
  replace ((a * sqrt (- c1 / (2 * c2))) ^ 4) with (a ^ 4 * (sqrt (- c1 / (2 * c2)) * sqrt (- c1 / (2 * c2))) ^ 2) by ring.
  rewrite sqrt_sqrt; [field; lra|]. apply Rmult_le_pos; [lra|left; apply Rinv_0_lt_compat; lra].
Qed.

(** *** C59: RWC_alam36 *)

(** The potential of the Hamiltonian, and that of the oscillator or Davidson
    Hamiltonian of a basis of width 1/a centred at [b]. *)
Definition potential (B c1 c2 beta : R) : R := B / 2 * (c1 * beta ^ 2 + c2 * beta ^ 4).
Definition basis_potential (B a b beta : R) : R := a ^ 4 / (2 * B) * (beta ^ 2 + b ^ 4 / beta ^ 2).

(** [f] has first derivative 0 and second derivative [d] at [x]. *)
Definition turning_point (f : R -> R) (x d : R) : Prop :=
  exists f' : R -> R, (forall y, 0 < y -> derivable_pt_lim f y (f' y)) /\ f' x = 0 /\ derivable_pt_lim f' x d.

(** For c1 < 0 the second derivatives at the turning point agree, as
    documented; but lambda is that of (B11) only if c1 = -2. *)
Theorem C59_negative : forall B c1 c2, 0 < B -> c1 < 0 -> 0 < c2 ->
  exists a lambda d, RWC_alam36 B c1 c2 = Ok (a, lambda) /\ 0 < a /\
    turning_point (potential B c1 c2) (beta0 c1 c2) d /\
    turning_point (basis_potential B a (beta0 c1 c2)) (beta0 c1 c2) d /\
    (RWC_dav c1 c2 a 0 = Ok lambda <-> c1 = -2).
Proof.
  intros B c1 c2 HB H1 H2. unfold RWC_alam36. destruct (Rlt_dec c1 0); [|lra].
  assert (B2 : 0 < B ^ 2) by now apply pow_lt. assert (P : 0 < - B ^ 2 * c1 / 2) by nra.
  unfold math_sqrt at 1. destruct (Rlt_dec (- B ^ 2 * c1 / 2) 0); [lra|]. cbn [bind].
  pose proof (sqrt_lt_R0 _ P) as S1. unfold math_sqrt at 1. destruct (Rlt_dec (sqrt (- B ^ 2 * c1 / 2)) 0); [lra|]. cbn [bind].
  pose proof (sqrt_lt_R0 _ S1) as S2. set (a := sqrt (sqrt (- B ^ 2 * c1 / 2))) in *.
  assert (A4 : a ^ 4 = - B ^ 2 * c1 / 2).
  { replace (a ^ 4) with ((a * a) * (a * a)) by ring. unfold a. rewrite (sqrt_sqrt (sqrt _)) by lra. rewrite sqrt_sqrt by lra. reflexivity. }
  unfold fdiv. destruct (Req_EM_T (c2 ^ 2) 0) as [E|E]; [pose proof (pow_lt c2 2 H2); lra|]. cbn [bind].
  assert (Q : 0 <= B ^ 2 * c1 ^ 4 / c2 ^ 2).
  { apply Rmult_le_pos; [apply Rmult_le_pos; [lra|]; replace (c1 ^ 4) with ((c1 ^ 2) ^ 2) by ring; apply pow2_ge_0|].
    left. apply Rinv_0_lt_compat, pow_lt, H2. }
  unfold math_sqrt. destruct (Rlt_dec _ 0); [lra|]. cbn [bind].
  assert (B0 : 0 < - c1 / (2 * c2)) by (apply Rmult_lt_0_compat; [lra|apply Rinv_0_lt_compat; lra]).
  assert (BE : beta0 c1 c2 * beta0 c1 c2 = - c1 / (2 * c2) /\ 0 < beta0 c1 c2).
  { unfold beta0. destruct (Rle_dec 0 c1); [lra|]. split; [apply sqrt_sqrt; lra|now apply sqrt_lt_R0]. }
  destruct BE as [BE BP]. exists a. eexists. exists (-2 * B * c1). split; [reflexivity|]. split; [exact S2|]. split; [|split].
  - exists (fun b => B / 2 * (2 * c1 * b + 4 * c2 * b ^ 3)). split; [|split].
    + intros y _. apply is_derive_Reals. unfold potential. auto_derive; [exact I|field].
    + replace (beta0 c1 c2 ^ 3) with (beta0 c1 c2 * beta0 c1 c2 * beta0 c1 c2) by ring. rewrite BE. field. lra.
    + apply is_derive_Reals. auto_derive; [exact I|].
      replace (beta0 c1 c2 * (beta0 c1 c2 * 1)) with (beta0 c1 c2 * beta0 c1 c2) by ring. rewrite BE. field. lra.
  - exists (fun b => a ^ 4 / (2 * B) * (2 * b - 2 * beta0 c1 c2 ^ 4 / b ^ 3)). generalize dependent (beta0 c1 c2). intros b BE BP. split; [|split].
    + intros y Hy. apply is_derive_Reals. unfold basis_potential. auto_derive; [repeat split; nra|]. field. repeat split; lra.
    + field. repeat split; lra.
    + apply is_derive_Reals. rewrite A4. auto_derive; [|field; repeat split; lra]. 
      repeat apply Rmult_integral_contrapositive_currified; lra.
  - rewrite RWC_dav_ok by (right; exact H2). unfold lambda_v.
    replace ((a * beta0 c1 c2) ^ 4) with (a ^ 4 * (beta0 c1 c2 * beta0 c1 c2) ^ 2) by ring. rewrite A4, BE.
    set (x := (0 + 3 / 2) ^ 2 + - B ^ 2 * c1 / 2 * (- c1 / (2 * c2)) ^ 2). set (y := 36 + B ^ 2 * c1 ^ 4 / c2 ^ 2).
    assert (D : y - 16 * x = B ^ 2 * c1 ^ 3 / c2 ^ 2 * (c1 + 2)) by (unfold x, y; field; lra).
    assert (C3 : B ^ 2 * c1 ^ 3 / c2 ^ 2 <> 0).
    { repeat apply Rmult_integral_contrapositive_currified; try lra. apply Rinv_neq_0_compat. exact E. }
    assert (X : 0 <= x). { unfold x. pose proof (pow2_ge_0 (- c1 / (2 * c2))). nra. }
    assert (Y : 0 <= y) by (unfold y; lra).
    split.
    + intros K. assert (K' : 4 * sqrt x = sqrt y) by (injection K; intros; lra).
      assert (16 * x = y). { rewrite <- (sqrt_sqrt x X), <- (sqrt_sqrt y Y), <- K'. ring. }
      assert (Z : B ^ 2 * c1 ^ 3 / c2 ^ 2 * (c1 + 2) = 0) by lra. apply Rmult_integral in Z. destruct Z; [contradiction|lra].
    + intros K. assert (16 * x = y) by (rewrite K in D at 2; lra). f_equal. rewrite <- H.
      replace 16 with (4 * 4) by ring. rewrite sqrt_mult, sqrt_square by lra. field.
Qed.

(** For c1 >= 0, the oscillator of the quadratic term needs a^4 = B^2 c1; the
    value returned agrees only if c1 = 0 or B = 1/4. *)
Theorem C59_nonnegative : forall B c1 c2, 0 < B -> 0 <= c1 ->
  exists a, RWC_alam36 B c1 c2 = Ok (a, 5 / 2) /\ 0 <= a /\ a ^ 4 = B * c1 / 4 /\
    ((forall b, 0 < b -> basis_potential B a 0 b = potential B c1 0 b) <-> c1 = 0 \/ B = 1 / 4).
Proof.
  intros B c1 c2 HB H1. unfold RWC_alam36. destruct (Rlt_dec c1 0); [lra|].
  assert (P : 0 <= B * c1 / 4) by nra. unfold math_sqrt at 1. destruct (Rlt_dec (B * c1 / 4) 0); [lra|]. cbn [bind].
  pose proof (sqrt_pos (B * c1 / 4)) as S1. unfold math_sqrt. destruct (Rlt_dec (sqrt (B * c1 / 4)) 0); [lra|]. cbn [bind].
  exists (sqrt (sqrt (B * c1 / 4))). set (a := sqrt (sqrt (B * c1 / 4))).
  assert (A4 : a ^ 4 = B * c1 / 4).
  { replace (a ^ 4) with ((a * a) * (a * a)) by ring. unfold a. rewrite (sqrt_sqrt (sqrt _)) by lra. rewrite sqrt_sqrt by lra. reflexivity. }
  split; [f_equal; f_equal; lra|]. split; [apply sqrt_pos|]. split; [exact A4|].
  unfold basis_potential, potential. rewrite A4. split.
  - intros K. specialize (K 1 Rlt_0_1).
    replace (B * c1 / 4 / (2 * B) * (1 ^ 2 + 0 ^ 4 / 1 ^ 2)) with (c1 / 8) in K by (field; lra).
    assert (Z : c1 * (B - 1 / 4) = 0) by nra. apply Rmult_integral in Z. destruct Z; [now left|right; lra].
  - intros [-> | ->] b Hb; field; lra.
Qed.

Theorem C59_exceptions : forall B c1 c2, 
  (c1 < 0 -> c2 = 0 -> RWC_alam36 B c1 c2 = Raise ZeroDivisionError) /\
  (0 < c1 -> B < 0 -> RWC_alam36 B c1 c2 = Raise ValueError).
Proof.
  intros B c1 c2. unfold RWC_alam36. split.
  - intros H1 ->. destruct (Rlt_dec c1 0); [|lra]. pose proof (pow2_ge_0 B). unfold math_sqrt at 1.
    destruct (Rlt_dec (- B ^ 2 * c1 / 2) 0); [nra|]. cbn [bind]. unfold math_sqrt at 1.
    destruct (Rlt_dec _ 0) as [L|L]; [pose proof (sqrt_pos (- B ^ 2 * c1 / 2)); lra|]. cbn [bind].
    unfold fdiv. destruct (Req_EM_T (0 ^ 2) 0) as [E|E]; [reflexivity|]. exfalso. apply E. ring.
  - intros H1 HB. destruct (Rlt_dec c1 0); [lra|]. unfold math_sqrt at 1. destruct (Rlt_dec (B * c1 / 4) 0); [reflexivity|nra].
Qed.

(** *** Concrete cases *)

(** B = 1, c1 = 1, c2 = 0: the zeros are -1, 0 and 1, so a = 1 and lambda = 2.5. *)
Lemma case_roots x : In x [-1; 0; 1] <-> RWC1 x 1 1 0 0 = 0.
Proof.
  rewrite RWC1_val. replace (x ^ 3 - 1 ^ 2 * 1 * x - (2 * 0 + 7) * (1 ^ 2 * 0)) with ((x + 1) * (x * (x - 1))) by ring. split.
  - intros [<- |[<- |[<- |[]]]]; ring.
  - intros K. apply Rmult_integral in K. destruct K as [K|K]; [left; lra|]. apply Rmult_integral in K.
    destruct K; [right; left; lra|right; right; left; lra].
Qed.

Example C45_case_nonnegative :
  RWC_alam (fun _ => Some [-1; 0; 1]) (fun _ _ _ => None) 0 1 1 0 0 = Some (Ok (1, 2.5)).
Proof.
  destruct (C45_alam_nonnegative (fun _ => Some [-1; 0; 1]) (fun _ _ _ => None) 0 0 1 1 0 [-1; 0; 1]) as (a & E & _ & P & U);
    try lra; try lia; try reflexivity; [apply case_roots|].
  assert (A1 : 1 = a ^ 2) by (apply (U 1 Rlt_0_1), case_roots; right; right; left; reflexivity).
  replace a with 1 in E by nra. exact E.
Qed.

(** B = 1, c1 = -1, c2 = 1: a root finder meeting the hypotheses exists, and
    the function then returns. *)
Example C45_case_negative : exists root_scalar,
  (forall b, 0 < b -> F2 1 (-1) 1 0 0 < 0 < F2 1 (-1) 1 0 b ->
     exists r, root_scalar (F2 1 (-1) 1 0) 0 b = Some r /\ 0 <= r <= b /\ F2 1 (-1) 1 0 r = 0) /\
  exists fuel a lambda, RWC_alam (fun _ => None) root_scalar fuel 1 (-1) 1 0 = Some (Ok (a, lambda)).
Proof.
  destruct (F2_root 1 (-1) 1 0) as (A0 & P & Z & C); try lra; try lia. exists (fun _ _ _ => Some A0).
  assert (W : forall b, 0 < b -> F2 1 (-1) 1 0 0 < 0 < F2 1 (-1) 1 0 b ->
     exists r, Some A0 = Some r /\ 0 <= r <= b /\ F2 1 (-1) 1 0 r = 0).
  { intros b Hb [_ F]. exists A0. repeat split; [lra| |exact Z]. destruct (Rle_dec A0 b); [assumption|]. destruct (C b Hb) as [C1 _]. specialize (C1 ltac:(lra)). lra. }
  split; [exact W|].
  destruct (C45_alam_negative (fun _ => None) (fun _ _ _ => Some A0) 0 1 (-1) 1 ltac:(lia) ltac:(lra) ltac:(lra) ltac:(lra) W) as (n & a & E & _).
  exists n, a. eexists. apply E. lia.
Qed.

Example C46_case : exists e, RWC_expt 1 1 0 0 1 (5 / 2) = Ok e /\ e = 5 / 2.
Proof.
  exists (5 / 2). split; [|reflexivity]. unfold RWC_expt, fdiv.
  destruct (Req_EM_T 1 0); [lra|]. destruct (Req_EM_T (5 / 2) 1); [lra|]. cbv zeta. destruct (Req_EM_T (5 / 2 - 1) 0); [lra|].
  destruct (Req_EM_T 1 0); [lra|]. cbn [bind]. destruct (Req_EM_T (1 ^ 2) 0) as [E|_]; [rewrite pow1 in E; lra|]. cbn [bind].
  destruct (Req_EM_T ((1 ^ 2) ^ 2) 0) as [E|_]; [rewrite !pow1 in E; lra|]. cbn [bind]. f_equal. field.
Qed.

(** B = 1, c1 = -2, c2 = 1: a = 1, lambda = 1 + sqrt 52 / 4. *)
Example C59_case : RWC_alam36 1 (-2) 1 = Ok (1, 1 + sqrt 52 / 4).
Proof.
  unfold RWC_alam36. destruct (Rlt_dec (-2) 0); [|lra]. replace (- 1 ^ 2 * -2 / 2) with 1 by field.
  unfold math_sqrt. destruct (Rlt_dec 1 0); [lra|]. cbn [bind]. rewrite !sqrt_1. destruct (Rlt_dec 1 0); [lra|]. cbn [bind].
  unfold fdiv. destruct (Req_EM_T (1 ^ 2) 0) as [E|_]; [rewrite pow1 in E; lra|]. cbn [bind].
  replace (36 + 1 ^ 2 * (-2) ^ 4 / 1 ^ 2) with 52 by field. destruct (Rlt_dec 52 0); [lra|]. reflexivity.
Qed.

Print Assumptions C46_variable_lambda.
Print Assumptions C46_constant_lambda.
Print Assumptions C46_energy.
Print Assumptions C46_energy_errors.
Print Assumptions C45_root_negative.
Print Assumptions C45_search.
Print Assumptions C45_alam_negative.
Print Assumptions C45_root_nonnegative.
Print Assumptions C45_alam_nonnegative.
Print Assumptions C45_minimum.
Print Assumptions C45_lambda_documented_refuted.
Print Assumptions C45_exceptions.
Print Assumptions C45_not_converged.
Print Assumptions C45_smallest_refuted.
Print Assumptions C45_special_cases.
Print Assumptions C45_alam_fun.
Print Assumptions C59_negative.
Print Assumptions C59_nonnegative.
Print Assumptions C59_exceptions.
