(** C10 - C14 and C49: SO(5)>SO(3) Clebsch-Gordan tables.  [CGn files home st n]
    is the call [CG_SO5r3] with the nine arguments of [n]; it returns the result
    and the new state. *)

From Coq Require Import Reals Lra Sorted String.
From Coq Require Import Lia ZifyBool ZifyNat.
From Verif Require Import PyBase PyFacts Compat PyDict Text SO5Files SphericalSpec Spherical
  SphericalFacts CG CGSpec PropsFiles CGFacts.
Open Scope Z_scope.
Ltac Zify.zify_post_hook ::= Z.div_mod_to_equations.

(** ** C10 *)

Theorem C10_labels : forall v1 L2 v3, 0 <= v1 -> 0 <= L2 -> 0 <= v3 ->
  exists l, CG_labels v1 L2 v3 = Ok l /\ NoDup l /\ StronglySorted quartet_lt l /\
    forall a1 L1 a3 L3, In (a1, L1, a3, L3) l <->
      1 <= a1 <= mult v1 L1 /\ 1 <= a3 <= mult v3 L3 /\ Z.abs (L1 - L2) <= L3 <= L1 + L2.
Proof.
  intros v1 L2 v3 H1 H2 H3. exists (qlabels v1 L2 v3).
  split; [now apply CG_labels_ok|]. split; [apply qlabels_NoDup|]. split; [apply qlabels_sorted|].
  intros. now apply qlabels_In.
Qed.

Theorem C10_illegal_raises : forall v1 L2 v3, ~ (0 <= v1 /\ 0 <= L2 /\ 0 <= v3) ->
  CG_labels v1 L2 v3 = Raise ValueError.
Proof.
  intros v1 L2 v3 N. unfold CG_labels.
  destruct (Z_lt_dec v1 0); [now rewrite require_nonnegint_raise|]. rewrite require_nonnegint_ok by lia.
  destruct (Z_lt_dec L2 0); [now rewrite require_nonnegint_raise|]. rewrite require_nonnegint_ok by lia.
  destruct (Z_lt_dec v3 0); [now rewrite require_nonnegint_raise|]. exfalso. lia.
Qed.

(** The labels for the exchanged states are the same pairs exchanged. *)
Theorem C10_exchange : forall v1 L2 v3 l l',
  CG_labels v1 L2 v3 = Ok l -> CG_labels v3 L2 v1 = Ok l' ->
  length l = length l' /\
  forall a1 L1 a3 L3, In (a1, L1, a3, L3) l <-> In (a3, L3, a1, L1) l'.
Proof.
  intros v1 L2 v3 l l' E E'.
  assert (HP : 0 <= v1 /\ 0 <= L2 /\ 0 <= v3).
  { destruct (Z_lt_dec v1 0); [|destruct (Z_lt_dec L2 0); [|destruct (Z_lt_dec v3 0); [|lia]]];
    (rewrite C10_illegal_raises in E; [discriminate|lia]). }
  rewrite CG_labels_ok in E by lia. rewrite CG_labels_ok in E' by lia.
  injection E as <-. injection E' as <-.
  assert (HI : forall a1 L1 a3 L3, In (a1, L1, a3, L3) (qlabels v1 L2 v3) <->
    In (a3, L3, a1, L1) (qlabels v3 L2 v1)).
  { intros. rewrite !qlabels_In by lia. split; intros (A & B & C); repeat split; try lia. }
  split; [|exact HI].
  set (sw := fun q : quartet => let '(a1, L1, a3, L3) := q in (a3, L3, a1, L1)).
  assert (HN : forall x y z, NoDup (map sw (qlabels x y z))).
  { intros. apply FinFun.Injective_map_NoDup; [|apply qlabels_NoDup].
    intros [[[? ?] ?] ?] [[[? ?] ?] ?]; cbn; congruence. }
  apply Nat.le_antisymm.
  - rewrite <- (map_length sw). apply NoDup_incl_length; [apply HN|].
    intros [[[a b] c] d] Hi. apply in_map_iff in Hi. destruct Hi as ([[[a' b'] c'] d'] & Eq & Hi).
    cbn in Eq. injection Eq as <- <- <- <-. now apply HI.
  - rewrite <- (map_length sw (qlabels v3 L2 v1)). apply NoDup_incl_length; [apply HN|].
    intros [[[a b] c] d] Hi. apply in_map_iff in Hi. destruct Hi as ([[[a' b'] c'] d'] & Eq & Hi).
    cbn in Eq. injection Eq as <- <- <- <-. now apply HI.
Qed.

Example C10_example : CG_labels 1 2 2 = Ok [(1, 2, 1, 2); (1, 2, 1, 4)].
Proof. reflexivity. Qed.

(** ** C11 *)

Theorem C11_selection_rules : forall files home st n,
  legal_nonet n -> ~ admissible n -> CGn files home st n = (Ok 0%R, st).
Proof.
  intros files home st n HL HA. rewrite CGn_legal by assumption.
  now destruct (admissible_dec n).
Qed.

Theorem C11_illegal_raises : forall files home st n,
  ~ legal_nonet n -> CGn files home st n = (Raise ValueError, st).
Proof. intros. now apply CGn_illegal. Qed.

Lemma lookup_nth {V} l : NoDup l -> forall (d : list V) k q, nth_error l k = Some q ->
  dict_get quartet_eq_dec (dict_of quartet_eq_dec (combine l d)) q = nth_error d k.
Proof.
  intros N d k q E. rewrite dict_get_of. revert d k E.
  induction l as [|x l IH]; intros d k E; [destruct k; discriminate|].
  inversion N as [|? ? Nx Nl]; subst. destruct d as [|y d]; [now destruct k|].
  cbn [combine]. change ((x, y) :: combine l d) with ([(x, y)] ++ combine l d).
  rewrite last_with_app. destruct k as [|k]; cbn in E.
  - injection E as ->. replace (last_with quartet_eq_dec (combine l d) q) with (@None V).
    + cbn. destruct (quartet_eq_dec q q); congruence.
    + symmetry. apply last_with_None. intros H. apply in_map_iff in H.
      destruct H as ([a b] & E & H). cbn in E. subst a. apply in_combine_l in H. contradiction.
  - rewrite (IH Nl d k E). cbn [nth_error]. destruct (nth_error d k) eqn:En; [reflexivity|].
    cbn. destruct (quartet_eq_dec x q) as [->|]; [|reflexivity].
    exfalso. apply Nx. eapply nth_error_In; eauto.
Qed.

(** With no table in memory and v1 <= v3, the coefficient at position k of the
    label list is the k-th number of the file, and a file that is too short
    gives [KeyError]. *)
Theorem C11_value : forall files home st n path data l k,
  legal_nonet n -> admissible n -> CG_coeffs st = [] ->
  n_v1 n <= n_v3 n -> 0 < n_v2 n ->
  SO5CG_filename (get_base_directory home st) (n_v1 n) (n_v2 n) (n_a2 n) (n_L2 n) (n_v3 n) = Ok path ->
  files path = Ok data ->
  CG_labels (n_v1 n) (n_L2 n) (n_v3 n) = Ok l ->
  nth_error l k = Some (n_a1 n, n_L1 n, n_a3 n, n_L3 n) ->
  fst (CGn files home st n)
  = match nth_error data k with Some x => Ok x | None => Raise KeyError end.
Proof.
  intros files home st n path data l k HL HA HC Hv H2 Hp Hf El Ek.
  rewrite CGn_legal by assumption. destruct (admissible_dec n); [|contradiction].
  unfold found. rewrite HC. cbn [dict_get].
  destruct HL as ((A1 & A2 & A3) & (B1 & B2 & B3) & (C1 & C2 & C3)).
  rewrite CG_labels_ok in El by lia. injection El as <-.
  unfold tbl, nkey, tkey. rewrite Z.min_l, Z.max_r by lia.
  replace (0 <? n_v2 n) with true by lia. rewrite Hp. cbn [bind]. rewrite Hf. cbn [bind fst].
  unfold pick. replace (n_v1 n <=? n_v3 n) with true by lia. unfold dict_item.
  now rewrite (lookup_nth _ (qlabels_NoDup _ _ _) data k _ Ek).
Qed.

(** Every admissible coefficient, in either order of v1 and v3, has a value as
    soon as the file is readable and has a number for each label. *)
Theorem C11_total : forall files home st n,
  legal_nonet n -> admissible n -> CG_coeffs st = [] ->
  (0 < n_v2 n -> exists path data l,
     SO5CG_filename (get_base_directory home st) (Z.min (n_v1 n) (n_v3 n)) (n_v2 n) (n_a2 n)
       (n_L2 n) (Z.max (n_v1 n) (n_v3 n)) = Ok path /\
     files path = Ok data /\
     CG_labels (Z.min (n_v1 n) (n_v3 n)) (n_L2 n) (Z.max (n_v1 n) (n_v3 n)) = Ok l /\
     (length l <= length data)%nat) ->
  exists x, fst (CGn files home st n) = Ok x.
Proof.
  intros files home st n HL HA HC HF.
  rewrite CGn_legal by assumption. destruct (admissible_dec n); [|contradiction].
  unfold found. rewrite HC. cbn [dict_get].
  destruct HL as ((A1 & A2 & A3) & (B1 & B2 & B3) & (C1 & C2 & C3)).
  destruct HA as ((T1 & T2 & T3) & Ev & (T4 & T5 & T6) & M1 & M2 & M3).
  set (u := Z.min (n_v1 n) (n_v3 n)) in *. set (w := Z.max (n_v1 n) (n_v3 n)) in *.
  assert (HT : exists data, tbl files (get_base_directory home st) (nkey n)
             = Ok (dict_of quartet_eq_dec (combine (qlabels u (n_L2 n) w) data)) /\
             (length (qlabels u (n_L2 n) w) <= length data)%nat).
  { unfold tbl, nkey, tkey. fold u w. destruct (Z.ltb_spec 0 (n_v2 n)) as [H2|H2].
    - destruct (HF H2) as (path & data & l & Ep & Ef & El & Hle).
      rewrite CG_labels_ok in El by lia. injection El as <-.
      exists data. rewrite Ep. cbn [bind]. rewrite Ef. cbn [bind]. auto.
    - eexists. cbn [bind]. split; [reflexivity|]. now rewrite repeat_length. }
  destruct HT as (data & -> & Hle). cbn [fst].
  assert (HG : forall q, In q (qlabels u (n_L2 n) w) ->
    exists x, dict_item quartet_eq_dec (dict_of quartet_eq_dec (combine (qlabels u (n_L2 n) w) data)) q
              = Ok x).
  { intros q Hq. apply In_nth_error in Hq. destruct Hq as (k & Hk). unfold dict_item.
    rewrite (lookup_nth _ (qlabels_NoDup _ _ _) data k q Hk).
    destruct (nth_error data k) eqn:En; [eauto|]. apply nth_error_None in En.
    assert (k < length (qlabels u (n_L2 n) w))%nat by (apply nth_error_Some; congruence). lia. }
  unfold pick. destruct (Z.leb_spec (n_v1 n) (n_v3 n)).
  - apply HG. apply qlabels_In; [lia|]. replace u with (n_v1 n) by lia. replace w with (n_v3 n) by lia.
    lia.
  - destruct (HG (n_a3 n, n_L3 n, n_a1 n, n_L1 n)) as [x ->].
    + apply qlabels_In; [lia|]. replace u with (n_v3 n) by lia. replace w with (n_v1 n) by lia. lia.
    + cbn [bind]. eauto.
Qed.

(** [get_CG_file] and [show_CG_file]. *)
Theorem C11_get_CG_file : forall files home st v1 v2 a2 L2 v3,
  (legal v1 v2 a2 L2 v3 /\ triangle v1 v2 v3 /\ Z.Even (v1 + v2 + v3) /\ v1 <= v3 /\
   a2 <= mult v2 L2 ->
   exists path l, SO5CG_filename (get_base_directory home st) v1 v2 a2 L2 v3 = Ok path /\
     CG_labels v1 L2 v3 = Ok l /\
     get_CG_file files home st v1 v2 a2 L2 v3
     = match files path with Ok data => Ok (data, l) | Raise e => Raise e end) /\
  (~ (legal v1 v2 a2 L2 v3 /\ triangle v1 v2 v3 /\ Z.Even (v1 + v2 + v3) /\ v1 <= v3 /\
      a2 <= mult v2 L2) -> get_CG_file files home st v1 v2 a2 L2 v3 = Raise ValueError).
Proof.
  intros files home st v1 v2 a2 L2 v3. split.
  - intros (Hl & (T1 & T2 & T3) & [q Eq] & Hv & Hm). unfold get_CG_file.
    rewrite require_quintet_ok by assumption. rewrite dimSO5r3_mult. cbn [bind].
    unfold SO5CG_filename. rewrite require_quintet_ok by assumption. cbn [bind].
    destruct Hl as (H1 & H2 & H3 & H4 & H5).
    do 2 eexists. split; [reflexivity|]. split; [apply CG_labels_ok; lia|].
    rewrite CG_labels_ok by lia.
    replace ((v2 + v3 <? v1) || (v3 + v1 <? v2) || (v1 + v2 <? v3) || is_odd (v1 + v2 + v3)
             || (v3 <? v1) || (mult v2 L2 <? a2)) with false by (unfold is_odd; lia).
    cbn [raise_if bind]. destruct (files _); reflexivity.
  - intros N. unfold get_CG_file.
    destruct (Z_lt_dec v1 0); [|destruct (Z_lt_dec v2 0); [|destruct (Z_lt_dec a2 1);
      [|destruct (Z_lt_dec L2 0); [|destruct (Z_lt_dec v3 0)]]]];
    try (rewrite require_quintet_bad by (unfold legal; lia); reflexivity).
    rewrite require_quintet_ok by (unfold legal; lia). rewrite dimSO5r3_mult. cbn [bind].
    destruct ((v2 + v3 <? v1) || (v3 + v1 <? v2) || (v1 + v2 <? v3) || is_odd (v1 + v2 + v3)
             || (v3 <? v1) || (mult v2 L2 <? a2)) eqn:E; [reflexivity|].
    exfalso. apply N. unfold legal, triangle.
    assert (Z.Even (v1 + v2 + v3)) by (exists ((v1 + v2 + v3) / 2); unfold is_odd in E; lia).
    repeat split; first [assumption|lia].
Qed.

Theorem C11_show_CG_file : forall files home st v1 v2 a2 L2 v3 count shown,
  show_CG_file files home st v1 v2 a2 L2 v3 = Ok (count, shown) ->
  exists path data l, SO5CG_filename (get_base_directory home st) v1 v2 a2 L2 v3 = Ok path /\
    files path = Ok data /\ CG_labels v1 L2 v3 = Ok l /\ count = zlen data /\
    zlen shown = Z.min (zlen l) (zlen data) /\
    forall k q x, nth_error shown k = Some (q, x) <-> nth_error l k = Some q /\ nth_error data k = Some x.
Proof.
  intros files home st v1 v2 a2 L2 v3 count shown E. unfold show_CG_file in E.
  apply bind_ok in E. destruct E as (_ & _ & E). apply bind_ok in E. destruct E as ([data l] & E1 & E).
  cbn [fst snd] in E. injection E as <- <-.
  unfold get_CG_file in E1. apply bind_ok in E1. destruct E1 as (_ & _ & E1).
  apply bind_ok in E1. destruct E1 as (d2 & _ & E1). apply bind_ok in E1. destruct E1 as (_ & _ & E1).
  apply bind_ok in E1. destruct E1 as (path & Ep & E1).
  apply bind_ok in E1. destruct E1 as (data' & Ef & E1).
  apply bind_ok in E1. destruct E1 as (l' & El & E1). injection E1 as <- <-.
  exists path, data', l'. split; [exact Ep|]. split; [exact Ef|]. split; [exact El|].
  split; [reflexivity|]. split.
  - unfold zlen. rewrite combine_length. lia.
  - clear. revert data'. induction l' as [|a l IH]; intros [|b d] [|k] q x; cbn;
      try (split; [discriminate|intros [? ?]; discriminate]).
    + split; [|intros [? ?]; congruence]. intros H. injection H as <- <-. auto.
    + apply IH.
Qed.

(** ** C12 *)

Lemma dim5_pos v : 0 <= v -> (0 < dim5 v)%R.
Proof.
  intros H. unfold dim5.
  assert (0 < IZR (v + 1))%R by (apply (IZR_lt 0); lia).
  assert (0 < IZR (v + 2))%R by (apply (IZR_lt 0); lia).
  assert (0 < IZR (2 * v + 3))%R by (apply (IZR_lt 0); lia).
  apply Rmult_lt_0_compat; [|lra]. repeat apply Rmult_lt_0_compat; assumption.
Qed.

Lemma dim5_IZR v : IZR ((v + 1) * (v + 2) * (2 * v + 3) / 6) = dim5 v.
Proof.
  unfold dim5. rewrite <- !mult_IZR. pose proof (dimSO5_exact v) as E.
  set (x := (v + 1) * (v + 2) * (2 * v + 3)) in *.
  replace x with (6 * (x / 6)) at 2 by lia. rewrite mult_IZR. field.
Qed.

(** The factor between the two orders. *)
Definition exchange_factor (n : nonet) : R :=
  (powerRZ (-1) (n_L3 n + n_L2 n - n_L1 n)
   * sqrt (dim5 (n_v3 n) * IZR (2 * n_L1 n + 1) / (dim5 (n_v1 n) * IZR (2 * n_L3 n + 1))))%R.

Lemma phase_inv a : (powerRZ (-1) a * powerRZ (-1) a = 1)%R.
Proof.
  destruct a as [|p|p]; cbn.
  - lra.
  - rewrite <- pow_add. replace (Pos.to_nat p + Pos.to_nat p)%nat with (2 * Pos.to_nat p)%nat by lia.
    apply pow_1_even.
  - rewrite <- Rinv_mult. rewrite <- pow_add.
    replace (Pos.to_nat p + Pos.to_nat p)%nat with (2 * Pos.to_nat p)%nat by lia.
    rewrite pow_1_even. lra.
Qed.

Lemma phase_swap a b c : powerRZ (-1) (a + b - c) = powerRZ (-1) (c + b - a).
Proof.
  replace (a + b - c)%Z with ((c + b - a) + ((a - c) + (a - c)))%Z by ring.
  rewrite (powerRZ_add _ (c + b - a)) by lra. rewrite (powerRZ_add _ (a - c)) by lra.
  rewrite phase_inv. ring.
Qed.

Lemma exchange_factor_inv n : legal_nonet n ->
  (exchange_factor n * exchange_factor (exchange n) = 1)%R.
Proof.
  intros ((A1 & A2 & A3) & (B1 & B2 & B3) & (C1 & C2 & C3)).
  unfold exchange_factor, exchange. cbn [n_v1 n_v3 n_L1 n_L2 n_L3].
  rewrite (phase_swap (n_L1 n) (n_L2 n) (n_L3 n)).
  pose proof (dim5_pos (n_v1 n) A1). pose proof (dim5_pos (n_v3 n) C1).
  assert (0 < IZR (2 * n_L1 n + 1))%R by (apply (IZR_lt 0); lia).
  assert (0 < IZR (2 * n_L3 n + 1))%R by (apply (IZR_lt 0); lia).
  set (d1 := dim5 (n_v1 n)) in *. set (d3 := dim5 (n_v3 n)) in *.
  set (e1 := IZR (2 * n_L1 n + 1)) in *. set (e3 := IZR (2 * n_L3 n + 1)) in *.
  set (p := powerRZ (-1) (n_L3 n + n_L2 n - n_L1 n)).
  assert (Hp : (p * p = 1)%R) by apply phase_inv.
  assert (Hpos : forall a b c d, (0 < a -> 0 < b -> 0 < c -> 0 < d -> 0 <= a * b / (c * d))%R).
  { intros a b c d Ha Hb Hc Hdd. apply Rlt_le. apply Rmult_lt_0_compat; [nra|].
    apply Rinv_0_lt_compat. nra. }
  transitivity (p * p * (sqrt (d3 * e1 / (d1 * e3)) * sqrt (d1 * e3 / (d3 * e1))))%R; [ring|].
  rewrite Hp, <- sqrt_mult by (apply Hpos; assumption).
  replace (d3 * e1 / (d1 * e3) * (d1 * e3 / (d3 * e1)))%R with 1%R by (field; lra).
  rewrite sqrt_1. ring.
Qed.

Lemma exchange_legal n : legal_nonet n -> legal_nonet (exchange n).
Proof. unfold legal_nonet, exchange. cbn. tauto. Qed.

Lemma exchange_admissible n : admissible n <-> admissible (exchange n).
Proof.
  unfold admissible, exchange, triangle. cbn.
  replace (n_v3 n + n_v2 n + n_v1 n) with (n_v1 n + n_v2 n + n_v3 n) by ring.
  assert (H : forall a b c, (a <= b + c /\ b <= a + c /\ c <= a + b) <->
                            (c <= b + a /\ b <= c + a /\ a <= c + b)) by (intros; lia).
  rewrite (H (n_v1 n)), (H (n_L1 n)). tauto.
Qed.

Lemma exchange_key n : nkey (exchange n) = nkey n.
Proof. unfold nkey, tkey, exchange. cbn. now rewrite Z.min_comm, Z.max_comm. Qed.

Lemma pick_exchange n t : legal_nonet n -> n_v3 n < n_v1 n ->
  pick n t = match pick (exchange n) t with
             | Ok x => Ok (exchange_factor n * x)%R | Raise e => Raise e end.
Proof.
  intros HL Hv. unfold pick. cbn [exchange n_v1 n_v3 n_a1 n_a3 n_L1 n_L3].
  replace (n_v1 n <=? n_v3 n) with false by lia. replace (n_v3 n <=? n_v1 n) with true by lia.
  destruct (dict_item quartet_eq_dec t (n_a3 n, n_L3 n, n_a1 n, n_L1 n)) as [x|]; [|reflexivity].
  cbn [bind]. f_equal. unfold exchange_factor. rewrite mult_IZR, !dim5_IZR.
  replace (dim5 (n_v3 n) * IZR (2 * n_L1 n + 1) / dim5 (n_v1 n) / IZR (2 * n_L3 n + 1))%R
    with (dim5 (n_v3 n) * IZR (2 * n_L1 n + 1) / (dim5 (n_v1 n) * IZR (2 * n_L3 n + 1)))%R;
    [ring|].
  destruct HL as ((A1 & A2 & A3) & (B1 & B2 & B3) & (C1 & C2 & C3)).
  pose proof (dim5_pos (n_v1 n) A1).
  assert (0 < IZR (2 * n_L3 n + 1))%R by (apply (IZR_lt 0); lia). field. lra.
Qed.

(** In every state, whichever of v1 and v3 is larger. *)
Theorem C12_exchange_symmetry : forall files home st n,
  legal_nonet n -> n_v1 n <> n_v3 n ->
  fst (CGn files home st n)
  = match fst (CGn files home st (exchange n)) with
    | Ok x => Ok (powerRZ (-1) (n_L3 n + n_L2 n - n_L1 n)
                  * sqrt (dim5 (n_v3 n) * IZR (2 * n_L1 n + 1)
                          / (dim5 (n_v1 n) * IZR (2 * n_L3 n + 1))) * x)%R
    | Raise e => Raise e
    end.
Proof.
  intros files home st n HL Hv.
  change (powerRZ (-1) (n_L3 n + n_L2 n - n_L1 n)
          * sqrt (dim5 (n_v3 n) * IZR (2 * n_L1 n + 1) / (dim5 (n_v1 n) * IZR (2 * n_L3 n + 1))))%R
    with (exchange_factor n).
  rewrite !CGn_legal by (try assumption; now apply exchange_legal).
  rewrite exchange_key.
  assert (HP : forall t, pick n t = match pick (exchange n) t with
             | Ok x => Ok (exchange_factor n * x)%R | Raise e => Raise e end).
  { intros t. destruct (Z_lt_dec (n_v3 n) (n_v1 n)) as [H|H]; [now apply pick_exchange|].
    rewrite (pick_exchange (exchange n)); [|now apply exchange_legal|cbn; lia].
    replace (exchange (exchange n)) with n by (destruct n; reflexivity).
    destruct (pick n t) as [x|]; [|reflexivity]. f_equal.
    rewrite <- Rmult_assoc, exchange_factor_inv by assumption. ring. }
  destruct (admissible_dec n) as [A|A]; destruct (admissible_dec (exchange n)) as [A'|A'].
  - destruct (found st (nkey n)) as [t|]; cbn [fst]; [apply HP|].
    destruct (tbl files (get_base_directory home st) (nkey n)) as [t|e]; cbn [fst]; [apply HP|reflexivity].
  - exfalso. now apply A', exchange_admissible.
  - exfalso. now apply A, exchange_admissible.
  - cbn [fst]. f_equal. ring.
Qed.

(** ** C13 and C14: histories of calls *)

(** The data directory in force after a history. *)
Definition dir_after (home : text) (h : list cg_event) : text :=
  fold_left (fun d e => match e with ESetDir d' => d' | _ => d end) h home.

(** The event needs the table [key]: a legal load, or a legal coefficient that
    satisfies the selection rules. *)
Definition wanted (e : cg_event) (key : quintet) : Prop :=
  match e with
  | ESetDir _ => False
  | ELoad v1 v2 a2 L2 v3 =>
      legal v1 v2 a2 L2 v3 /\ key = (Z.min v1 v3, v2, a2, L2, Z.max v1 v3)
  | ECoeff v1 a1 L1 v2 a2 L2 v3 a3 L3 =>
      let n := {| n_v1 := v1; n_a1 := a1; n_L1 := L1; n_v2 := v2; n_a2 := a2; n_L2 := L2;
                  n_v3 := v3; n_a3 := a3; n_L3 := L3 |} in
      legal_nonet n /\ admissible n /\ key = (Z.min v1 v3, v2, a2, L2, Z.max v1 v3)
  end.

(** The data file of [key] can be read in directory [d] (none is needed for
    v2 = 0). *)
Definition readable (files : text -> res (list R)) (d : text) (key : quintet) : Prop :=
  let '(v1, v2, a2, L2, v3) := key in
  0 < v2 -> exists path data, SO5CG_filename d v1 v2 a2 L2 v3 = Ok path /\ files path = Ok data.

(** Event [e], coming after [h1], needs [key] and can read it. *)
Definition loads files home (h1 : list cg_event) (e : cg_event) (key : quintet) : Prop :=
  wanted e key /\ readable files (dir_after home h1) key.

Definition never_loads files home (h : list cg_event) (key : quintet) : Prop :=
  forall h1 e h2, h = h1 ++ e :: h2 -> ~ loads files home h1 e key.

(** A fresh interpreter with data directory [d]. *)
Definition fresh (d : text) : cg_state := {| base_directory := Some d; CG_coeffs := [] |}.

Lemma readable_tbl files d key : readable files d key <-> exists t, tbl files d key = Ok t.
Proof.
  destruct key as [[[[v1 v2] a2] L2] v3]. unfold readable, tbl.
  destruct (Z.ltb_spec 0 v2) as [H|H].
  - split.
    + intros K. destruct (K H) as (p & x & -> & E). cbn [bind]. rewrite E. cbn [bind]. eauto.
    + intros (t & E) _. destruct (SO5CG_filename d v1 v2 a2 L2 v3) as [p|]; [|discriminate].
      cbn [bind] in E. destruct (files p) as [x|] eqn:Ef; [|discriminate]. eauto.
  - split; [|lia]. intros _. cbn [bind]. eauto.
Qed.

Section Hist.
  Variable files : text -> res (list R).
  Variable home : text.
  Notation step := (cg_step files home).
  Notation run := (cg_run files home cg_init).
  Notation dir := (get_base_directory home).

  Lemma found_add st key t key' :
    found (add_table st key t) key' = if quintet_eq_dec key key' then Some t else found st key'.
  Proof. unfold found, add_table. cbn [CG_coeffs]. apply dict_get_set. Qed.

  Lemma step_load st v1 v2 a2 L2 v3 :
    let st' := snd (load_CG_table files home st v1 v2 a2 L2 v3) in
    st' = st /\ (~ legal v1 v2 a2 L2 v3 \/ found st (tkey v1 v2 a2 L2 v3) <> None \/
                 exists e, tbl files (dir st) (tkey v1 v2 a2 L2 v3) = Raise e)
    \/ legal v1 v2 a2 L2 v3 /\ found st (tkey v1 v2 a2 L2 v3) = None /\
       exists t, tbl files (dir st) (tkey v1 v2 a2 L2 v3) = Ok t /\
                 st' = add_table st (tkey v1 v2 a2 L2 v3) t.
  Proof.
    intros st'. subst st'.
    assert (D : legal v1 v2 a2 L2 v3 \/ ~ legal v1 v2 a2 L2 v3) by (unfold legal; lia).
    destruct D as [D|D].
    - rewrite load_eq by assumption. destruct (found st _) eqn:Ef; cbn [snd].
      + left. split; [reflexivity|]. right. left. congruence.
      + destruct (tbl _ _ _) as [t|e] eqn:Et; cbn [snd].
        * right. eauto.
        * left. split; [reflexivity|]. right. right. eauto.
    - rewrite load_illegal by assumption. left. auto.
  Qed.

  Lemma step_coeff st n :
    let st' := snd (CGn files home st n) in
    st' = st /\ (~ (legal_nonet n /\ admissible n) \/ found st (nkey n) <> None \/
                 exists e, tbl files (dir st) (nkey n) = Raise e)
    \/ (legal_nonet n /\ admissible n) /\ found st (nkey n) = None /\
       exists t, tbl files (dir st) (nkey n) = Ok t /\ st' = add_table st (nkey n) t.
  Proof.
    intros st'. subst st'.
    assert (D : legal_nonet n \/ ~ legal_nonet n) by (unfold legal_nonet; lia).
    destruct D as [D|D].
    - rewrite CGn_legal by assumption. destruct (admissible_dec n) as [A|A]; cbn [snd]; [|tauto].
      destruct (found st _) eqn:Ef; cbn [snd].
      + left. split; [reflexivity|]. right. left. congruence.
      + destruct (tbl _ _ _) as [t|e] eqn:Et; cbn [snd].
        * right. split; [auto|]. split; [reflexivity|]. eauto.
        * left. split; [reflexivity|]. right. right. eauto.
    - rewrite CGn_illegal by assumption. left. tauto.
  Qed.

  Lemma step_spec st e key :
    dir (step st e) = match e with ESetDir d => d | _ => dir st end /\
    (forall t, found st key = Some t -> found (step st e) key = Some t) /\
    (found st key = None -> wanted e key ->
       found (step st e) key = match tbl files (dir st) key with Ok t => Some t | Raise _ => None end) /\
    (found st key = None -> ~ wanted e key -> found (step st e) key = None).
  Proof.
    assert (HA : forall (W : quintet -> Prop) st' k0, (forall k, W k -> k = k0) ->
      (st' = st /\ (~ W k0 \/ found st k0 <> None \/ exists x, tbl files (dir st) k0 = Raise x)
       \/ W k0 /\ found st k0 = None /\
          exists t, tbl files (dir st) k0 = Ok t /\ st' = add_table st k0 t) ->
      dir st' = dir st /\
      (forall t, found st key = Some t -> found st' key = Some t) /\
      (found st key = None -> W key ->
         found st' key = match tbl files (dir st) key with Ok t => Some t | Raise _ => None end) /\
      (found st key = None -> ~ W key -> found st' key = None)).
    { intros W st' k0 HW [(-> & K)|(HWk & HN & t & Et & ->)].
      - split; [reflexivity|]. split; [auto|]. split; [|auto].
        intros HN Hk. pose proof (HW _ Hk) as ->. destruct K as [K|[K|(x & Ex)]]; try contradiction.
        rewrite Ex. exact HN.
      - split; [reflexivity|]. split; [|split].
        + intros t' Ht. rewrite found_add. destruct (quintet_eq_dec k0 key) as [->|]; [congruence|assumption].
        + intros HK Hk. pose proof (HW _ Hk) as ->. rewrite found_add, Et.
          destruct (quintet_eq_dec k0 k0); [reflexivity|congruence].
        + intros HK Hk. rewrite found_add. destruct (quintet_eq_dec k0 key) as [->|]; [contradiction|].
          assumption. }
    destruct e as [d|v1 v2 a2 L2 v3|v1 a1 L1 v2 a2 L2 v3 a3 L3].
    - cbn. split; [reflexivity|]. split; [auto|]. split; [tauto|auto].
    - cbn [cg_step]. apply (HA (wanted (ELoad v1 v2 a2 L2 v3)) _ (tkey v1 v2 a2 L2 v3)).
      + intros k [_ ->]. reflexivity.
      + pose proof (step_load st v1 v2 a2 L2 v3) as S. cbn zeta in S. unfold tkey, wanted in *. tauto.
    - cbn [cg_step].
      set (n := {| n_v1 := v1; n_a1 := a1; n_L1 := L1; n_v2 := v2; n_a2 := a2; n_L2 := L2;
                  n_v3 := v3; n_a3 := a3; n_L3 := L3 |}) in *.
      apply (HA (wanted (ECoeff v1 a1 L1 v2 a2 L2 v3 a3 L3)) _ (nkey n)).
      + intros k (_ & _ & ->). reflexivity.
      + pose proof (step_coeff st n) as S. cbn zeta in S.
        change (CG_SO5r3 files home st v1 a1 L1 v2 a2 L2 v3 a3 L3) with (CGn files home st n).
        assert (nkey n = (Z.min v1 v3, v2, a2, L2, Z.max v1 v3)) by reflexivity.
        unfold wanted. fold n. tauto.
  Qed.

  Lemma run_snoc h e : run (h ++ [e]) = step (run h) e.
  Proof. unfold cg_run. now rewrite fold_left_app. Qed.

  Lemma dir_snoc h e :
    dir_after home (h ++ [e]) = match e with ESetDir d => d | _ => dir_after home h end.
  Proof. unfold dir_after. rewrite fold_left_app. reflexivity. Qed.

  Lemma run_dir h : dir (run h) = dir_after home h.
  Proof.
    induction h as [|e h IH] using rev_ind; [reflexivity|].
    rewrite run_snoc, dir_snoc. destruct (step_spec (run h) e (0, 0, 0, 0, 0)) as (E & _).
    rewrite E. destruct e; congruence.
  Qed.

  Lemma snoc_split {A} (h : list A) e h1 e1 h2 : h ++ [e] = h1 ++ e1 :: h2 ->
    (h1 = h /\ e1 = e /\ h2 = []) \/ exists h2', h2 = h2' ++ [e] /\ h = h1 ++ e1 :: h2'.
  Proof.
    destruct h2 as [|x h2 _] using rev_ind; intros E.
    - apply app_inj_tail in E. destruct E; subst. auto.
    - right. exists h2. change (h1 ++ e1 :: h2 ++ [x]) with (h1 ++ (e1 :: h2) ++ [x]) in E.
      rewrite app_assoc in E. apply app_inj_tail in E. destruct E; subst. auto.
  Qed.

  Lemma run_tables h key :
    (forall t, found (run h) key = Some t ->
       exists h1 e h2, h = h1 ++ e :: h2 /\ loads files home h1 e key /\
         never_loads files home h1 key /\ tbl files (dir_after home h1) key = Ok t) /\
    (found (run h) key = None -> never_loads files home h key).
  Proof.
    induction h as [|e h [IH1 IH2]] using rev_ind.
    - split; [discriminate|]. intros _ h1 e h2 E. destruct h1; discriminate.
    - rewrite run_snoc. destruct (step_spec (run h) e key) as (_ & S1 & S2 & S3).
      rewrite run_dir in S2.
      destruct (found (run h) key) as [t0|] eqn:Ef.
      + split.
        * intros t Et. rewrite (S1 t0 eq_refl) in Et. injection Et as ->.
          destruct (IH1 t eq_refl) as (h1 & e1 & h2 & -> & K). exists h1, e1, (h2 ++ [e]).
          rewrite <- app_assoc. split; [reflexivity|exact K].
        * rewrite (S1 t0 eq_refl). discriminate.
      + specialize (IH2 eq_refl). specialize (S2 eq_refl). specialize (S3 eq_refl). split.
        * intros t Et. exists h, e, []. split; [reflexivity|].
          assert (W : wanted e key).
          { assert (D : wanted e key \/ ~ wanted e key).
            { destruct e; cbn.
              - tauto.
              - destruct (quintet_eq_dec key (Z.min v1 v3, v2, a2, L2, Z.max v1 v3)); [|tauto].
                assert (legal v1 v2 a2 L2 v3 \/ ~ legal v1 v2 a2 L2 v3) by (unfold legal; lia). tauto.
              - match goal with |- context [admissible ?n] => destruct (admissible_dec n); [|tauto] end.
                destruct (quintet_eq_dec key (Z.min v1 v3, v2, a2, L2, Z.max v1 v3)); [|tauto].
                match goal with |- context [legal_nonet ?n] =>
                  assert (legal_nonet n \/ ~ legal_nonet n) by (unfold legal_nonet; cbn; lia) end.
                tauto. }
            destruct D as [D|D]; [exact D|]. rewrite (S3 D) in Et. discriminate. }
          rewrite (S2 W) in Et.
          destruct (tbl files (dir_after home h) key) as [t'|] eqn:Eb; [|discriminate].
          injection Et as ->. split; [split; [assumption|apply readable_tbl; eauto]|]. auto.
        * intros Et h1 e1 h2 E [W Rd].
          apply snoc_split in E. destruct E as [(-> & -> & _)|(h2' & _ & ->)].
          -- rewrite (S2 W) in Et. apply readable_tbl in Rd. destruct Rd as (t & Eb).
             rewrite Eb in Et. discriminate.
          -- apply (IH2 h1 e1 h2' eq_refl). split; assumption.
  Qed.

  Lemma never_loads_pre h1 e h2 key : never_loads files home (h1 ++ e :: h2) key ->
    ~ loads files home h1 e key.
  Proof. intros H. exact (H h1 e h2 eq_refl). Qed.

  Lemma value_of st n : legal_nonet n -> admissible n ->
    fst (CGn files home st n)
    = match found st (nkey n) with
      | Some t => pick n t
      | None => match tbl files (dir st) (nkey n) with Ok t => pick n t | Raise e => Raise e end
      end.
  Proof.
    intros HL HA. rewrite CGn_legal by assumption. destruct (admissible_dec n); [|contradiction].
    destruct (found st (nkey n)); [reflexivity|]. destruct (tbl _ _ _); reflexivity.
  Qed.
End Hist.

(** The table that a coefficient uses. *)
Definition table_of (n : nonet) : quintet :=
  (Z.min (n_v1 n) (n_v3 n), n_v2 n, n_a2 n, n_L2 n, Z.max (n_v1 n) (n_v3 n)).

(** If some event of the history loaded the table, the value is the one of a
    fresh interpreter in the directory in force at the first such event. *)
Theorem C14_value_from_first_load : forall files home h1 e h2 n,
  loads files home h1 e (table_of n) -> never_loads files home h1 (table_of n) ->
  fst (CGn files home (cg_run files home cg_init (h1 ++ e :: h2)) n)
  = fst (CGn files home (fresh (dir_after home h1)) n).
Proof.
  intros files home h1 e h2 n HLd HNv.
  assert (D : legal_nonet n \/ ~ legal_nonet n) by (unfold legal_nonet; lia).
  destruct D as [D|D]; [|now rewrite !CGn_illegal].
  destruct (admissible_dec n) as [A|A]; [|now rewrite !C11_selection_rules].
  rewrite !value_of by assumption. cbn [fresh found CG_coeffs dict_get].
  change (found (fresh (dir_after home h1)) (nkey n)) with (@None (list (quartet * R))).
  change (get_base_directory home (fresh (dir_after home h1))) with (dir_after home h1).
  change (nkey n) with (table_of n).
  destruct (run_tables files home (h1 ++ e :: h2) (table_of n)) as [R1 R2].
  destruct (found (cg_run files home cg_init (h1 ++ e :: h2)) (table_of n)) as [t|].
  - destruct (R1 t eq_refl) as (k1 & e' & k2 & E & L' & N' & Et).
    assert (k1 = h1).
    { clear - E HLd HNv L' N'. revert k1 E L' N'.
      assert (G : forall (a b : list cg_event) x y r s, (a ++ x :: r = b ++ y :: s)%list ->
        (exists z, b = a ++ x :: z)%list \/ (exists z, a = b ++ y :: z)%list \/ a = b).
      { induction a as [|c a IH]; intros [|c' b] x y r s E.
        - auto.
        - cbn in E. injection E as <- E. left. exists b. reflexivity.
        - cbn in E. injection E as -> E. right. left. exists a. reflexivity.
        - cbn in E. injection E as <- E. destruct (IH b x y r s E) as [(z & ->)|[(z & ->)| ->]].
          + left. exists z. reflexivity.
          + right. left. exists z. reflexivity.
          + auto. }
      intros k1 E L' N'. destruct (G h1 k1 e e' h2 k2 E) as [(z & ->)|[(z & ->)| ->]].
      - exfalso. now apply (never_loads_pre _ _ _ _ _ _ N').
      - exfalso. now apply (never_loads_pre _ _ _ _ _ _ HNv).
      - reflexivity. }
    subst k1. now rewrite Et.
  - exfalso. exact (R2 eq_refl h1 e h2 eq_refl HLd).
Qed.

(** If no event loaded it, the value comes from the current directory. *)
Theorem C14_value_not_loaded : forall files home h n,
  never_loads files home h (table_of n) ->
  fst (CGn files home (cg_run files home cg_init h) n)
  = fst (CGn files home (fresh (dir_after home h)) n).
Proof.
  intros files home h n HNv.
  assert (D : legal_nonet n \/ ~ legal_nonet n) by (unfold legal_nonet; lia).
  destruct D as [D|D]; [|now rewrite !CGn_illegal].
  destruct (admissible_dec n) as [A|A]; [|now rewrite !C11_selection_rules].
  rewrite !value_of by assumption.
  change (found (fresh (dir_after home h)) (nkey n)) with (@None (list (quartet * R))).
  change (get_base_directory home (fresh (dir_after home h))) with (dir_after home h).
  rewrite run_dir. change (nkey n) with (table_of n).
  destruct (run_tables files home h (table_of n)) as [R1 R2].
  destruct (found (cg_run files home cg_init h) (table_of n)) as [t|]; [|reflexivity].
  destruct (R1 t eq_refl) as (k1 & e' & k2 & -> & L' & _). exfalso.
  now apply (never_loads_pre _ _ _ _ _ _ HNv).
Qed.

(** C13: with an unchanged directory the history does not matter. *)
Theorem C13_cache_transparent : forall files home h n,
  (forall d, ~ In (ESetDir d) h) ->
  fst (CGn files home (cg_run files home cg_init h) n) = fst (CGn files home cg_init n).
Proof.
  intros files home h n HN.
  assert (HD : forall h1 h2, h = h1 ++ h2 -> dir_after home h1 = home).
  { intros h1. induction h1 as [|e h1 IH] using rev_ind; intros h2 E; [reflexivity|].
    rewrite dir_snoc, <- app_assoc in *. destruct e; try (eapply IH; eassumption).
    exfalso. apply (HN d). rewrite E, in_app_iff. right. now left. }
  assert (HF : fst (CGn files home cg_init n) = fst (CGn files home (fresh home) n)).
  { assert (D : legal_nonet n \/ ~ legal_nonet n) by (unfold legal_nonet; lia).
    destruct D as [D|D]; [|now rewrite !CGn_illegal].
    destruct (admissible_dec n) as [A|A]; [|now rewrite !C11_selection_rules].
    now rewrite !value_of by assumption. }
  rewrite HF.
  destruct (run_tables files home h (table_of n)) as [R1 R2].
  destruct (found (cg_run files home cg_init h) (table_of n)) as [t|].
  - destruct (R1 t eq_refl) as (h1 & e & h2 & -> & L' & N' & _).
    rewrite C14_value_from_first_load by assumption. now rewrite (HD h1 _ eq_refl).
  - rewrite C14_value_not_loaded by auto. rewrite (HD h []); [reflexivity|now rewrite app_nil_r].
Qed.

(** A directory change that is ignored: two directories with different data. *)
Definition two_dirs (path : text) : res (list R) :=
  if list_eq_dec Z.eq_dec path (chars "a/v2=1/SO5CG_0_1_1/SO5CG_0_1-1-2_1") then Ok [1%R]
  else if list_eq_dec Z.eq_dec path (chars "b/v2=1/SO5CG_0_1_1/SO5CG_0_1-1-2_1") then Ok [2%R]
  else Raise FileNotFoundError.

Definition n011 : nonet :=
  {| n_v1 := 0; n_a1 := 1; n_L1 := 0; n_v2 := 1; n_a2 := 1; n_L2 := 2; n_v3 := 1; n_a3 := 1; n_L3 := 2 |}.

Lemma n011_ok : legal_nonet n011 /\ admissible n011.
Proof.
  split.
  - unfold legal_nonet. cbn. lia.
  - unfold admissible, triangle. cbn [n011 n_v1 n_v2 n_v3 n_a1 n_a2 n_a3 n_L1 n_L2 n_L3].
    split; [lia|]. split; [exists 1; reflexivity|]. split; [lia|].
    split; [vm_compute; discriminate|]. split; vm_compute; discriminate.
Qed.

Theorem C14_directory_change_honoured_refuted :
  exists files home h n, legal_nonet n /\ admissible n /\
    fst (CGn files home (cg_run files home cg_init h) n) = Ok 1%R /\
    fst (CGn files home (fresh (dir_after home h)) n) = Ok 2%R.
Proof.
  exists two_dirs, [], [ESetDir (chars "a/"); ECoeff 0 1 0 1 1 2 1 1 2; ESetDir (chars "b/")], n011.
  destruct n011_ok as [HL HA]. split; [exact HL|]. split; [exact HA|].
  assert (V : forall d x, two_dirs (d ++ chars "v2=1/SO5CG_0_1_1/SO5CG_0_1-1-2_1")%list = Ok [x] ->
    fst (CGn two_dirs [] (fresh d) n011) = Ok x).
  { intros d x E.
    rewrite (C11_value two_dirs [] (fresh d) n011 (d ++ chars "v2=1/SO5CG_0_1_1/SO5CG_0_1-1-2_1")%list
               [x] [(1, 0, 1, 2)] 0 HL HA eq_refl); try reflexivity; try (cbn; lia). exact E. }
  split.
  - change [ESetDir (chars "a/"); ECoeff 0 1 0 1 1 2 1 1 2; ESetDir (chars "b/")]
      with ([ESetDir (chars "a/")] ++ ECoeff 0 1 0 1 1 2 1 1 2 :: [ESetDir (chars "b/")])%list.
    rewrite C14_value_from_first_load.
    + apply V. reflexivity.
    + split; [cbn; auto|]. intros _. eexists. eexists. split; reflexivity.
    + intros h1 e h2 E [W _]. destruct h1 as [|x [|y h1]]; try discriminate.
      injection E as <- <-. exact W.
  - apply V. reflexivity.
Qed.

(** The hypotheses of C13 and C14 are met by histories that do load tables. *)
Example C13_history_example :
  (forall d, ~ In (ESetDir d) [ELoad 0 1 1 2 1; ECoeff 0 1 0 1 1 2 1 1 2]) /\
  loads (fun _ => Ok [1%R]) [] [] (ELoad 0 1 1 2 1) (table_of n011).
Proof.
  split.
  - intros d [E|[E|[]]]; discriminate E.
  - split; [split; [unfold legal; lia|reflexivity]|]. intros _. do 2 eexists. split; reflexivity.
Qed.

(** ** C49: coupling with the scalar *)

(** The coefficient of a state coupled to the scalar (v2 = 0) is 1 whatever the
    two multiplicity labels, although different labels denote orthogonal states. *)
Theorem C49_scalar_coupling_value : forall files home h v a1 a3 L,
  0 <= v -> 1 <= a1 <= mult v L -> 1 <= a3 <= mult v L ->
  fst (CG_SO5r3 files home (cg_run files home cg_init h) v a1 L 0 1 0 v a3 L) = Ok 1%R.
Proof.
  intros files home h v a1 a3 L Hv H1 H3.
  assert (HLn : 0 <= L) by (destruct (Z_lt_dec L 0); [rewrite (mult_out v L) in H1 by lia; lia|lia]).
  set (n := {| n_v1 := v; n_a1 := a1; n_L1 := L; n_v2 := 0; n_a2 := 1; n_L2 := 0;
                  n_v3 := v; n_a3 := a3; n_L3 := L |}).
  change (CG_SO5r3 files home (cg_run files home cg_init h) v a1 L 0 1 0 v a3 L)
    with (CGn files home (cg_run files home cg_init h) n).
  assert (HL : legal_nonet n) by (unfold legal_nonet; cbn; lia).
  assert (HA : admissible n).
  { unfold admissible, triangle. cbn [n n_v1 n_v2 n_v3 n_a1 n_a2 n_a3 n_L1 n_L2 n_L3].
    split; [lia|]. split; [exists v; ring|]. split; [lia|]. split; [lia|].
    split; [vm_compute; discriminate|lia]. }
  assert (HT : forall d t, tbl files d (table_of n) = Ok t -> pick n t = Ok 1%R).
  { intros d t E. unfold tbl, table_of in E.
    cbn [n n_v1 n_v2 n_v3 n_a1 n_a2 n_a3 n_L1 n_L2 n_L3] in E.
    rewrite Z.min_id, Z.max_id in E. change (0 <? 0) with false in E. cbn [bind] in E. cbv iota in E.
    injection E as <-. unfold pick. cbn [n n_v1 n_v2 n_v3 n_a1 n_a2 n_a3 n_L1 n_L2 n_L3].
    rewrite Z.leb_refl.
    assert (HI : In (a1, L, a3, L) (qlabels v 0 v)) by (apply qlabels_In; lia).
    apply In_nth_error in HI. destruct HI as (k & Hk). unfold dict_item.
    rewrite (lookup_nth _ (qlabels_NoDup _ _ _) _ k _ Hk).
    assert (Hlt : (k < length (qlabels v 0 v))%nat) by (apply nth_error_Some; intros C; discriminate (eq_trans (eq_sym C) Hk)).
    now rewrite nth_error_repeat by exact Hlt. }
  rewrite value_of by assumption. change (nkey n) with (table_of n).
  destruct (run_tables files home h (table_of n)) as [R1 _].
  destruct (found (cg_run files home cg_init h) (table_of n)) as [t|].
  - destruct (R1 t eq_refl) as (h1 & e & h2 & _ & _ & _ & Et). eauto.
  - destruct (tbl files (get_base_directory home (cg_run files home cg_init h)) (table_of n))
      as [t|x] eqn:Et; [eauto|].
    exfalso. unfold tbl, table_of in Et. cbn [n n_v1 n_v2 n_v3 n_a1 n_a2 n_a3 n_L1 n_L2 n_L3] in Et.
    change (0 <? 0) with false in Et. cbv iota in Et. cbn [bind] in Et. discriminate.
Qed.

Theorem C49_scalar_coupling_is_delta_refuted : forall files home,
  exists v a1 a3 L, 1 <= a1 <= mult v L /\ 1 <= a3 <= mult v L /\ a1 <> a3 /\
    fst (CG_SO5r3 files home cg_init v a1 L 0 1 0 v a3 L) = Ok 1%R.
Proof.
  intros files home. exists 6, 1, 2, 6.
  assert (M : mult 6 6 = 2) by reflexivity. rewrite M.
  split; [lia|]. split; [lia|]. split; [lia|].
  apply (C49_scalar_coupling_value files home [] 6 1 2 6); rewrite ?M; lia.
Qed.

(** When the multiplicities are at most 1 the value is the expected one. *)
Theorem C49_scalar_coupling_multiplicity_free : forall files home h v a1 a3 L,
  0 <= v -> mult v L <= 1 -> 1 <= a1 <= mult v L -> 1 <= a3 <= mult v L ->
  fst (CG_SO5r3 files home (cg_run files home cg_init h) v a1 L 0 1 0 v a3 L)
  = Ok (if a1 =? a3 then 1 else 0)%R.
Proof.
  intros files home h v a1 a3 L Hv Hm H1 H3. replace (a1 =? a3) with true by lia.
  now apply C49_scalar_coupling_value.
Qed.

Print Assumptions C10_labels.
Print Assumptions C10_illegal_raises.
Print Assumptions C10_exchange.
Print Assumptions C11_selection_rules.
Print Assumptions C11_illegal_raises.
Print Assumptions C11_value.
Print Assumptions C11_total.
Print Assumptions C11_get_CG_file.
Print Assumptions C11_show_CG_file.
Print Assumptions C12_exchange_symmetry.
Print Assumptions C13_cache_transparent.
Print Assumptions C14_value_from_first_load.
Print Assumptions C14_value_not_loaded.
Print Assumptions C14_directory_change_honoured_refuted.
Print Assumptions C49_scalar_coupling_value.
Print Assumptions C49_scalar_coupling_is_delta_refuted.
Print Assumptions C49_scalar_coupling_multiplicity_free.
