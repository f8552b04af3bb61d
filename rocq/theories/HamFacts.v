(** Analysis behind the properties of hamiltonian_data.py. *)

From Coq Require Import Reals Ranalysis5 Lra Psatz.
From Coquelicot Require Import Coquelicot.
From Coq Require Import Lia.
From Verif Require Import PyBase.
Open Scope R_scope.

(** ** The key inequality

    [m] is mu, [t] is x / mu, [y] is mu (1 - t^2)^2. *)

Definition Hc (m t : R) : R := m ^ 3 * ((1 - t ^ 2) * (1 - t)) + m ^ 2 * (6 - 3 * t ^ 2 - 2 * t) + 8 * m.
Definition Wc (m t : R) : R :=
  m ^ 3 * ((1 - t ^ 2) * (1 - t) * (3 + t)) + m ^ 2 * (18 - 4 * t - 15 * t ^ 2 + 2 * t ^ 3) + m * (24 - 8 * t ^ 2).

Lemma Hc_pos m t : 0 < m -> 0 <= t < 1 -> 0 < Hc m t.
Proof.
  intros Hm [T0 T1]. unfold Hc.
  assert (0 < m ^ 3) by now apply pow_lt. assert (0 < m ^ 2) by now apply pow_lt.
  assert (0 <= (1 - t ^ 2) * (1 - t)) by (apply Rmult_le_pos; nra).
  assert (0 < 6 - 3 * t ^ 2 - 2 * t) by nra.
  assert (0 <= m ^ 3 * ((1 - t ^ 2) * (1 - t))) by (apply Rmult_le_pos; lra).
  assert (0 < m ^ 2 * (6 - 3 * t ^ 2 - 2 * t)) by (apply Rmult_lt_0_compat; lra). lra.
Qed.

Lemma Wc_pos m t : 0 < m -> 0 <= t < 1 -> 0 < Wc m t.
Proof.
  intros Hm [T0 T1]. unfold Wc.
  assert (0 < m ^ 3) by now apply pow_lt. assert (0 < m ^ 2) by now apply pow_lt.
  assert (0 <= (1 - t ^ 2) * (1 - t) * (3 + t)) by (repeat apply Rmult_le_pos; nra).
  assert (0 < 18 - 4 * t - 15 * t ^ 2 + 2 * t ^ 3).
  { replace (18 - 4 * t - 15 * t ^ 2 + 2 * t ^ 3) with ((1 - t) * (17 + 13 * t - 2 * t ^ 2) + 1) by ring.
    assert (0 <= (1 - t) * (17 + 13 * t - 2 * t ^ 2)) by (apply Rmult_le_pos; nra). lra. }
  assert (0 < 24 - 8 * t ^ 2) by nra.
  assert (0 <= m ^ 3 * ((1 - t ^ 2) * (1 - t) * (3 + t))) by (apply Rmult_le_pos; lra).
  assert (0 < m ^ 2 * (18 - 4 * t - 15 * t ^ 2 + 2 * t ^ 3)) by (apply Rmult_lt_0_compat; lra).
  assert (0 < m * (24 - 8 * t ^ 2)) by (apply Rmult_lt_0_compat; lra). lra.
Qed.

Lemma key m t : 0 < m -> 0 <= t < 1 ->
  let y := m * (1 - t ^ 2) ^ 2 in 0 < (2 + y) * Wc m t + 2 * t ^ 2 * (1 - y) * Hc m t.
Proof.
  intros Hm Ht y. pose proof (Hc_pos m t Hm Ht) as PH. pose proof (Wc_pos m t Hm Ht) as PW. destruct Ht as [T0 T1].
  assert (Y : 0 <= y) by (unfold y; apply Rmult_le_pos; [lra|apply pow2_ge_0]).
  destruct (Rle_dec y 1) as [Y1|Y1].
  - assert (0 < (2 + y) * Wc m t) by (apply Rmult_lt_0_compat; lra).
    assert (0 <= 2 * t ^ 2 * (1 - y) * Hc m t).
    { apply Rmult_le_pos; [|lra]. apply Rmult_le_pos; [|lra]. pose proof (pow2_ge_0 t). lra. }
    lra.
  - assert (D : 0 <= Wc m t - 2 * t ^ 2 * Hc m t).
    { replace (Wc m t - 2 * t ^ 2 * Hc m t)
        with (m ^ 3 * ((1 - t) ^ 2 * (1 + t)) * (3 + t - 2 * t ^ 2)
              + m ^ 2 * (18 - 4 * t - 27 * t ^ 2 + 6 * t ^ 3 + 6 * t ^ 4) + 24 * m * (1 - t ^ 2)) by (unfold Wc, Hc; ring).
      assert (M2 : 0 < m ^ 2) by now apply pow_lt.
      assert (A1 : m ^ 2 * (y / 2) <= m ^ 3 * ((1 - t) ^ 2 * (1 + t))).
      { unfold y. replace (m ^ 2 * (m * (1 - t ^ 2) ^ 2 / 2)) with (m ^ 3 * ((1 - t) ^ 2 * (1 + t)) * ((1 + t) / 2)) by field.
        rewrite <- (Rmult_1_r (m ^ 3 * ((1 - t) ^ 2 * (1 + t)))) at 2.
        apply Rmult_le_compat_l; [|lra]. apply Rmult_le_pos; [apply pow_le; lra|]. apply Rmult_le_pos; [apply pow2_ge_0|lra]. }
      assert (A2 : 0 < 3 + t - 2 * t ^ 2) by nra.
      assert (A3 : m ^ 2 * (1 / 2) <= m ^ 3 * ((1 - t) ^ 2 * (1 + t))).
      { apply Rle_trans with (2 := A1). apply Rmult_le_compat_l; lra. }
      assert (A4 : m ^ 2 * (1 / 2) * (3 + t - 2 * t ^ 2) <= m ^ 3 * ((1 - t) ^ 2 * (1 + t)) * (3 + t - 2 * t ^ 2))
        by (apply Rmult_le_compat_r; lra).
      assert (A5 : 0 <= m ^ 2 * ((1 - t) * (19.5 + 16 * t - 12 * t ^ 2 - 6 * t ^ 3))).
      { apply Rmult_le_pos; [lra|]. apply Rmult_le_pos; [lra|].
        assert (0 <= t ^ 2 <= 1) by nra. assert (0 <= t ^ 3 <= 1) by nra. lra. }
      assert (A6 : 0 <= 24 * m * (1 - t ^ 2)) by (apply Rmult_le_pos; nra).
      lra. }
    replace ((2 + y) * Wc m t + 2 * t ^ 2 * (1 - y) * Hc m t)
      with ((y - 1) * (Wc m t - 2 * t ^ 2 * Hc m t) + 3 * Wc m t) by ring.
    assert (0 <= (y - 1) * (Wc m t - 2 * t ^ 2 * Hc m t)) by (apply Rmult_le_pos; lra). lra.
Qed.

(** ** The ratio that must equal [B^2 c2 k^3] at a stationary point *)

Section Ratio.
  Variable s : R.
  Hypothesis Hs : 0 < s.

  Definition mu (x : R) : R := sqrt (s + x ^ 2).
  Definition P (x : R) : R := x ^ 3 * (2 * mu x + s ^ 2 / mu x ^ 2).
  Definition H (x : R) : R := s * (mu x - x) + 6 * s + 8 * mu x + 3 * x ^ 2 - 2 * x * mu x.

  Lemma mu_pos x : 0 < mu x.
  Proof. apply sqrt_lt_R0. pose proof (pow2_ge_0 x). lra. Qed.

  Lemma mu_sq x : mu x * mu x = s + x ^ 2.
  Proof. apply sqrt_sqrt. pose proof (pow2_ge_0 x). lra. Qed.

  Lemma mu_gt x : 0 <= x -> x < mu x.
  Proof. intros Hx. pose proof (mu_pos x). pose proof (mu_sq x). nra. Qed.

  Lemma ratio_t x : 0 <= x -> 0 <= x / mu x < 1.
  Proof.
    intros Hx. pose proof (mu_pos x). pose proof (mu_gt x Hx). split.
    - apply Rmult_le_pos; [lra|]. left. now apply Rinv_0_lt_compat.
    - apply Rmult_lt_reg_r with (mu x); [lra|]. unfold Rdiv. rewrite Rmult_assoc, Rinv_l by lra. lra.
  Qed.

  Lemma s_eq x : s = mu x ^ 2 * (1 - (x / mu x) ^ 2).
  Proof. pose proof (mu_pos x). pose proof (mu_sq x). replace s with (mu x * mu x - x ^ 2) at 1 by lra. field. lra. Qed.

  Lemma H_Hc x : H x = Hc (mu x) (x / mu x).
  Proof.
    pose proof (mu_pos x). pose proof (s_eq x) as E. assert (X : x = x / mu x * mu x) by (field; lra).
    unfold H, Hc. revert E X. generalize (x / mu x). intros t. generalize (mu x). intros m E X. rewrite E, X. ring.
  Qed.

  Lemma H_pos x : 0 <= x -> 0 < H x.
  Proof. intros Hx. rewrite H_Hc. apply Hc_pos; [apply mu_pos|now apply ratio_t]. Qed.

  Definition dH (x : R) : R := s * (x / mu x - 1) + 8 * (x / mu x) + 6 * x - 2 * mu x - 2 * x * (x / mu x).
  Definition dP (x : R) : R :=
    3 * x ^ 2 * (2 * mu x + s ^ 2 / mu x ^ 2) + x ^ 3 * (2 * (x / mu x) - 2 * s ^ 2 * (x / mu x) / mu x ^ 3).

  Lemma mu_derive x : is_derive mu x (x / mu x).
  Proof.
    pose proof (mu_pos x) as M. pose proof (pow2_ge_0 x). unfold mu. evar_last.
    - apply (is_derive_comp sqrt (fun x => s + x ^ 2)).
      + apply is_derive_Reals, derivable_pt_lim_sqrt. lra.
      + auto_derive; [exact I|reflexivity].
    - unfold scal. cbn. unfold mult. cbn. fold (mu x). unfold mu in *. cbn in M. field. lra.
  Qed.

  Lemma P_derive x : is_derive P x (dP x).
  Proof.
    unfold P. pose proof (mu_derive x) as D. pose proof (mu_pos x) as M. evar_last.
    - auto_derive; [|reflexivity]. repeat split; try (eexists; exact D). apply Rgt_not_eq. nra.
    - replace (Derive (fun x : R => mu x) x) with (x / mu x) by (symmetry; apply is_derive_unique; exact D). unfold dP. field. lra.
  Qed.

  Lemma H_derive x : is_derive H x (dH x).
  Proof.
    unfold H. pose proof (mu_derive x) as D. pose proof (mu_pos x) as M. evar_last.
    - auto_derive; [|reflexivity]. repeat split; try (eexists; exact D).
    - replace (Derive (fun x : R => mu x) x) with (x / mu x) by (symmetry; apply is_derive_unique; exact D). unfold dH. field. lra.
  Qed.

  Definition ratio (x : R) : R := P x / H x.

  Lemma ratio_derive x : 0 <= x -> is_derive ratio x ((dP x * H x - P x * dH x) / H x ^ 2).
  Proof.
    intros Hx. unfold ratio. pose proof (H_pos x Hx). pose proof (P_derive x) as D1. pose proof (H_derive x) as D2. evar_last.
    - apply is_derive_div; [exact D1|exact D2|lra].
    - cbn. unfold Rdiv, minus, plus, opp, scal, mult; cbn; unfold mult; cbn. field. lra.
  Qed.

  Lemma slope_pos x : 0 < x -> 0 < (dP x * H x - P x * dH x) / H x ^ 2.
  Proof.
    intros Hx. pose proof (H_pos x (Rlt_le _ _ Hx)) as PH. apply Rmult_lt_0_compat; [|apply Rinv_0_lt_compat, pow_lt; exact PH].
    pose proof (mu_pos x) as M. pose proof (ratio_t x (Rlt_le _ _ Hx)) as T. pose proof (key (mu x) (x / mu x) M T) as K. cbv zeta in K.
    replace (dP x * H x - P x * dH x)
      with (x ^ 2 * mu x * ((2 + mu x * (1 - (x / mu x) ^ 2) ^ 2) * Wc (mu x) (x / mu x)
             + 2 * (x / mu x) ^ 2 * (1 - mu x * (1 - (x / mu x) ^ 2) ^ 2) * Hc (mu x) (x / mu x))).
    - apply Rmult_lt_0_compat; [|exact K]. apply Rmult_lt_0_compat; [now apply pow_lt|exact M].
    - assert (E1 : dP x = x ^ 2 * mu x * (3 * (2 + mu x * (1 - (x / mu x) ^ 2) ^ 2)
                          + 2 * (x / mu x) ^ 2 * (1 - mu x * (1 - (x / mu x) ^ 2) ^ 2))).
      { pose proof (s_eq x) as E. assert (X : x = x / mu x * mu x) by (field; lra).
        unfold dP. revert E X M. generalize (x / mu x). intros t. generalize (mu x). intros m E X M. rewrite E, X. field. lra. }
      assert (E2 : P x = x ^ 3 * mu x * (2 + mu x * (1 - (x / mu x) ^ 2) ^ 2)).
      { pose proof (s_eq x) as E. assert (X : x = x / mu x * mu x) by (field; lra).
        unfold P. revert E X M. generalize (x / mu x). intros t. generalize (mu x). intros m E X M. rewrite E, X. field. lra. }
      assert (E3 : x * dH x = 3 * Hc (mu x) (x / mu x) - Wc (mu x) (x / mu x)).
      { pose proof (s_eq x) as E. assert (X : x = x / mu x * mu x) by (field; lra).
        unfold dH, Hc, Wc. revert E X M. generalize (x / mu x). intros t. generalize (mu x). intros m E X M. rewrite E, X. ring. }
      rewrite E1, E2, H_Hc.
      replace (x ^ 3 * mu x * (2 + mu x * (1 - (x / mu x) ^ 2) ^ 2) * dH x)
        with (x ^ 2 * mu x * (2 + mu x * (1 - (x / mu x) ^ 2) ^ 2) * (x * dH x)) by ring.
      rewrite E3. ring.
  Qed.

  Lemma ratio_increasing x y : 0 < x -> x < y -> ratio x < ratio y.
  Proof.
    intros Hx Hxy.
    apply (incr_function ratio (Finite 0) p_infty (fun x => (dP x * H x - P x * dH x) / H x ^ 2)); try easy.
    - intros z Hz _. apply ratio_derive. cbn in Hz. lra.
    - intros z Hz _. apply slope_pos. exact Hz.
  Qed.

  Lemma ratio_large x : s <= x -> 1 <= x -> x ^ 2 / 12 <= ratio x.
  Proof.
    intros H1 H2. pose proof (H_pos x ltac:(lra)) as PH. pose proof (mu_pos x) as M. pose proof (mu_sq x) as Q. pose proof (mu_gt x ltac:(lra)) as G.
    assert (M2 : mu x <= 2 * x) by nra.
    assert (HH : H x <= 24 * x ^ 2).
    { unfold H. assert (s * (mu x - x) <= x ^ 2) by nra. assert (6 * s <= 6 * x ^ 2) by nra.
      assert (8 * mu x <= 16 * x ^ 2) by nra. assert (2 * x * x <= 2 * x * mu x) by nra. nra. }
    assert (HP : 2 * x ^ 4 <= P x).
    { unfold P. assert (0 <= s ^ 2 / mu x ^ 2) by (apply Rmult_le_pos; [apply pow2_ge_0|left; apply Rinv_0_lt_compat, pow_lt; lra]).
      replace (2 * x ^ 4) with (x ^ 3 * (2 * x)) by ring. apply Rmult_le_compat_l; [apply pow_le; lra|lra]. }
    unfold ratio. apply Rmult_le_reg_r with (H x); [exact PH|]. unfold Rdiv at 2. rewrite Rmult_assoc, Rinv_l by lra.
    apply Rle_trans with (x ^ 2 / 12 * (24 * x ^ 2)); [apply Rmult_le_compat_l; [pose proof (pow2_ge_0 x); lra|exact HH]|].
    replace (x ^ 2 / 12 * (24 * x ^ 2)) with (2 * x ^ 4) by field. lra.
  Qed.

  Lemma ratio_0 : ratio 0 = 0.
  Proof. unfold ratio, P. rewrite pow_i by lia. unfold Rdiv. ring. Qed.

  Lemma ratio_cont x : 0 <= x -> continuity_pt ratio x.
  Proof.
    intros Hx. apply derivable_continuous_pt. eexists. apply is_derive_Reals. now apply ratio_derive.
  Qed.

  (** For every positive level there is exactly one point where it is taken. *)
  Lemma ratio_level c : 0 < c -> exists x, 0 < x /\ ratio x = c /\ forall y, 0 < y -> (ratio y < c <-> y < x) /\ (c < ratio y <-> x < y).
  Proof.
    intros Hc.
    set (b := s + 1 + 12 * c).
    assert (Hb : c < ratio b).
    { assert (b ^ 2 / 12 <= ratio b) by (apply ratio_large; unfold b; lra).
      assert (c < b ^ 2 / 12) by (unfold b; nra). lra. }
    destruct (IVT_interv (fun x => ratio x - c) 0 b) as (x & (X0 & X1) & E).
    - intros a Ha. apply continuity_pt_minus; [apply ratio_cont; lra|]. apply continuity_pt_const. intros ? ?. reflexivity.
    - unfold b. lra.
    - rewrite ratio_0. lra.
    - lra.
    - assert (E' : ratio x = c) by lra. exists x.
      assert (X : 0 < x). { destruct X0 as [X0|X0]; [exact X0|]. subst x. rewrite ratio_0 in E'. lra. }
      split; [exact X|]. split; [exact E'|]. intros y Y.
      destruct (Rtotal_order x y) as [G|[G|G]].
      + pose proof (ratio_increasing x y X G). split; split; intros; lra.
      + subst y. split; split; intros; lra.
      + pose proof (ratio_increasing y x Y G). split; split; intros; lra.
  Qed.
End Ratio.
