(** Property theorems C01-C05 and C48: spherical space and validators. *)

From Coq Require Import Lia Sorted ZifyBool ZifyNat.
From Verif Require Import PyBase PyFacts Compat SphericalSpec Spherical SphericalFacts.

Ltac Zify.zify_post_hook ::= Z.div_mod_to_equations.

(** * C01 *)

Theorem C01_multiplicity_rule : forall v L : Z, dimSO5r3 v L = Ok (mult v L).
Proof. exact dimSO5r3_mult. Qed.

Theorem C01_multiplicity_support : forall v L : Z,
  exists d, dimSO5r3 v L = Ok d /\ 0 <= d /\ (L < 0 \/ 2 * v < L -> d = 0).
Proof.
  intros v L. exists (mult v L).
  repeat split; [apply dimSO5r3_mult|apply mult_nonneg|apply mult_out].
Qed.

(** The count really is the count of the tau-rule. *)
Theorem C01_taus_exact : forall v t : Z,
  In t (taus v) <-> exists p, 0 <= p /\ t = v - 3 * p /\ 0 <= t.
Proof.
  intros v t. unfold taus. rewrite in_map_iff. split.
  - intros (p & E & Hp). apply in_seq in Hp. exists (Z.of_nat p). lia.
  - intros (p & Hp & E & Ht). exists (Z.to_nat p). split; [lia|]. apply in_seq. lia.
Qed.

Example C01_ex1 : dimSO5r3 6 6 = Ok 2. Proof. reflexivity. Qed.
Example C01_ex2 : mult 6 6 = 2 /\ mult 6 11 = 0 /\ mult 12 12 = 3.
Proof. vm_compute. auto. Qed.

(** * C02 *)

Theorem C02_all_L_count : forall v L_hi : Z, 0 <= v -> 2 * v <= L_hi ->
  dimSO5r3_allL v = Ok (sum_upto (mult v) 0 L_hi) /\
  dimSO5r3_rngL v 0 L_hi = dimSO5r3_allL v.
Proof.
  intros v L_hi Hv HL. split; [now apply dimSO5r3_allL_sum|].
  rewrite dimSO5r3_rngL_sum, (dimSO5r3_allL_sum v L_hi) by lia. reflexivity.
Qed.

Theorem C02_rng_count : forall v_min v_max : Z, 0 <= v_min <= v_max ->
  dimSO5r3_rngVallL v_min v_max
  = Ok (sum_upto (fun v => sum_upto (mult v) 0 (2 * v)) v_min v_max) /\
  dimSO5r3_rngVallL v_min v_max = dimSO5r3_rngVrngL v_min v_max 0 (2 * v_max).
Proof.
  intros v_min v_max H. rewrite dimSO5r3_rngVallL_sum by lia. split; [reflexivity|].
  rewrite dimSO5r3_rngVrngL_sum by lia. f_equal.
  rewrite <- lbs_len_all, lbs_len by lia. reflexivity.
Qed.

Example C02_ex : dimSO5r3_allL 6 = Ok 10 /\ sum_upto (mult 6) 0 12 = 10.
Proof. split; reflexivity. Qed.

(** * C03 *)

Theorem C03_dimension_sum : forall v L_hi : Z, 0 <= v -> 2 * v <= L_hi ->
  dimSO5 v = Ok (sum_upto (fun L => mult v L * (2 * L + 1)) 0 L_hi) /\
  (forall L, 0 <= L -> dimSO3 L = Ok (2 * L + 1)).
Proof.
  intros v L_hi Hv HL. split.
  - unfold dimSO5. rewrite require_nonnegint_ok by lia. cbn [bind].
    now rewrite sum_upto_range, sum_wmult by lia.
  - intros L H. unfold dimSO3. now rewrite require_nonnegint_ok by lia.
Qed.

(** The floor division in [dimSO5] loses nothing. *)
Theorem C03_dimSO5_exact : forall v d : Z,
  dimSO5 v = Ok d -> 0 <= v /\ 6 * d = (v + 1) * (v + 2) * (2 * v + 3).
Proof.
  intros v d. unfold dimSO5, require_nonnegint, raise_if.
  destruct (v <? 0) eqn:E; cbn [bind]; [discriminate|]. intros H.
  split; [lia|]. pose proof (dimSO5_exact v) as M.
  assert (E6 : (v + 1) * (v + 2) * (2 * v + 3) / 6 = d) by congruence. clear H.
  revert M E6. generalize ((v + 1) * (v + 2) * (2 * v + 3)). intros x M E6. lia.
Qed.

Example C03_ex : dimSO5 3 = Ok 30 /\ sum_upto (fun L => mult 3 L * (2 * L + 1)) 0 6 = 30.
Proof. split; reflexivity. Qed.

(** * C04 *)

Theorem C04_rngVvarL : forall v_min v_max L_min L_max : Z,
  0 <= v_min <= v_max -> 0 <= L_min <= L_max ->
  exists l, lbsSO5r3_rngVvarL v_min v_max L_min (Some L_max) = Ok l /\
    enumerates l v_min v_max L_min L_max /\
    dimSO5r3_rngVvarL v_min v_max L_min (Some L_max) = Ok (zlen l).
Proof.
  intros v_min v_max L_min L_max Hv HL. exists (lbs v_min v_max L_min L_max).
  split; [now apply lbs_rngVvarL_some|]. split; [apply lbs_enumerates|].
  cbn. rewrite dimSO5r3_rngVrngL_sum by lia. now rewrite lbs_len.
Qed.

Theorem C04_rngVrngL : forall v_min v_max L_min L_max : Z,
  0 <= v_min <= v_max -> 0 <= L_min <= L_max ->
  exists l, lbsSO5r3_rngVrngL v_min v_max L_min L_max = Ok l /\
    enumerates l v_min v_max L_min L_max /\
    dimSO5r3_rngVrngL v_min v_max L_min L_max = Ok (zlen l).
Proof.
  intros v_min v_max L_min L_max Hv HL. exists (lbs v_min v_max L_min L_max).
  split; [now apply lbs_rngVrngL_ok|]. split; [apply lbs_enumerates|].
  rewrite dimSO5r3_rngVrngL_sum by lia. now rewrite lbs_len.
Qed.

Theorem C04_rngVallL : forall v_min v_max : Z,
  0 <= v_min <= v_max ->
  exists l, lbsSO5r3_rngVallL v_min v_max = Ok l /\
    enumerates l v_min v_max 0 (2 * v_max) /\
    dimSO5r3_rngVallL v_min v_max = Ok (zlen l).
Proof.
  intros v_min v_max Hv. exists (lbs v_min v_max 0 (2 * v_max)).
  split; [now apply lbs_rngVallL_ok|]. split; [apply lbs_enumerates|].
  rewrite dimSO5r3_rngVallL_sum by lia. now rewrite lbs_len_all.
Qed.

Theorem C04_rngV : forall v_min v_max L : Z,
  0 <= v_min <= v_max -> 0 <= L ->
  exists l, lbsSO5r3_rngV v_min v_max L = Ok l /\
    enumerates l v_min v_max L L /\
    dimSO5r3_rngV v_min v_max L = Ok (zlen l).
Proof.
  intros v_min v_max L Hv HL. exists (lbs v_min v_max L L).
  split; [now apply lbs_rngV_ok|]. split; [apply lbs_enumerates|].
  rewrite dimSO5r3_rngV_sum by lia. now rewrite lbs_single_L, rowL_len.
Qed.

Theorem C04_rngL : forall v L_min L_max : Z,
  0 <= v -> 0 <= L_min <= L_max ->
  exists l, lbsSO5r3_rngL v L_min L_max = Ok l /\
    enumerates l v v L_min L_max /\
    dimSO5r3_rngL v L_min L_max = Ok (zlen l).
Proof.
  intros v L_min L_max Hv HL. exists (lbs v v L_min L_max).
  split; [now apply lbs_rngL_ok|]. split; [apply lbs_enumerates|].
  rewrite dimSO5r3_rngL_sum by lia. rewrite lbs_len, (sum_upto_range _ v v).
  rewrite py_range_single. cbn [map]. rewrite zsum_cons. cbn [zsum fold_right]. f_equal. lia.
Qed.

Theorem C04_allL : forall v : Z, 0 <= v ->
  exists l, lbsSO5r3_allL v = Ok l /\
    enumerates (map (fun aL => (v, fst aL, snd aL)) l) v v 0 (2 * v) /\
    dimSO5r3_allL v = Ok (zlen l).
Proof.
  intros v Hv. exists (map (fun s => (snd (fst s), snd s)) (lbs v v 0 (2 * v))).
  split; [now apply lbs_allL_ok|].
  assert (E : map (fun aL => (v, fst aL, snd aL))
                (map (fun s : label => (snd (fst s), snd s)) (lbs v v 0 (2 * v)))
              = lbs v v 0 (2 * v)).
  { rewrite map_map. rewrite <- map_id. apply map_ext_in.
    intros [[u a] L] H. apply lbs_In in H. cbn. do 2 f_equal. lia. }
  split; [exact (eq_ind_r (fun l => enumerates l v v 0 (2 * v)) (lbs_enumerates _ _ _ _) E)|].
  rewrite zlen_map, lbs_len_all by lia. rewrite sum_upto_range, py_range_single.
  cbn [map]. rewrite zsum_cons. cbn [zsum fold_right].
  rewrite (dimSO5r3_allL_sum v (2 * v)) by lia. f_equal. lia.
Qed.

Theorem C04_invalid_ranges_raise : forall v_min v_max L_min L_max : Z,
  (~ (0 <= v_min <= v_max) \/ ~ (0 <= L_min <= L_max) ->
    lbsSO5r3_rngVrngL v_min v_max L_min L_max = Raise ValueError /\
    dimSO5r3_rngVrngL v_min v_max L_min L_max = Raise ValueError /\
    lbsSO5r3_rngVvarL v_min v_max L_min (Some L_max) = Raise ValueError /\
    dimSO5r3_rngVvarL v_min v_max L_min (Some L_max) = Raise ValueError) /\
  (~ (0 <= v_min <= v_max) \/ L_min < 0 ->
    lbsSO5r3_rngVvarL v_min v_max L_min None = Raise ValueError /\
    dimSO5r3_rngVvarL v_min v_max L_min None = Raise ValueError /\
    lbsSO5r3_rngV v_min v_max L_min = Raise ValueError /\
    dimSO5r3_rngV v_min v_max L_min = Raise ValueError) /\
  (~ (0 <= v_min <= v_max) ->
    lbsSO5r3_rngVallL v_min v_max = Raise ValueError /\
    dimSO5r3_rngVallL v_min v_max = Raise ValueError) /\
  (v_min < 0 \/ ~ (0 <= L_min <= L_max) ->
    lbsSO5r3_rngL v_min L_min L_max = Raise ValueError /\
    dimSO5r3_rngL v_min L_min L_max = Raise ValueError) /\
  (v_min < 0 ->
    lbsSO5r3_allL v_min = Raise ValueError /\
    dimSO5r3_allL v_min = Raise ValueError).
Proof.
  intros v_min v_max L_min L_max.
  unfold lbsSO5r3_rngVrngL, dimSO5r3_rngVrngL, lbsSO5r3_rngVvarL, dimSO5r3_rngVvarL,
    lbsSO5r3_rngV, dimSO5r3_rngV, lbsSO5r3_rngVallL, dimSO5r3_rngVallL, lbsSO5r3_rngL,
    dimSO5r3_rngL, lbsSO5r3_allL, dimSO5r3_allL, dimSO5r3_rngVrngL, dimSO5r3_rngV.
  repeat split; intros; unfold require_nonnegint_range, require_nonnegint, raise_if;
  repeat match goal with |- context [if ?b then _ else _] =>
    match b with _ <? _ => destruct b eqn:?; cbn [bind]; try reflexivity; try lia end end.
Qed.

Example C04_ex :
  lbsSO5r3_rngVvarL 2 4 3 (Some 4)
  = Ok [(3, 1, 3); (2, 1, 4); (3, 1, 4); (4, 1, 4)].
Proof. reflexivity. Qed.

(** * C05 *)

Theorem C05_omitted_L_max_exact : forall v_min v_max L : Z,
  0 <= v_min <= v_max -> 0 <= L ->
  exists full got,
    lbsSO5r3_rngVvarL v_min v_max L (Some L) = Ok full /\
    lbsSO5r3_rngVvarL v_min v_max L None = Ok got /\
    got = filter (fun '(v, a, LL) => a <? mult v LL) full /\
    (got = full <-> forall v, v_min <= v <= v_max -> mult v L = 0) /\
    (dimSO5r3_rngVvarL v_min v_max L None = Ok (zlen full)).
Proof.
  intros v_min v_max L Hv HL. exists (lbs v_min v_max L L). eexists.
  split; [apply lbs_rngVvarL_some; lia|].
  split; [apply lbs_rngVvarL_none; lia|].
  split; [reflexivity|]. split; [apply none_agrees_iff|].
  cbn. rewrite dimSO5r3_rngV_sum by lia. now rewrite lbs_single_L, rowL_len.
Qed.

(** The documented meaning of the omitted argument is violated. *)
Theorem C05_omitted_L_max_refuted :
  exists v_min v_max L, 0 <= v_min <= v_max /\ 0 <= L /\
    lbsSO5r3_rngVvarL v_min v_max L None <> lbsSO5r3_rngVvarL v_min v_max L (Some L).
Proof. exists 0, 6, 6. repeat split; try lia. vm_compute. discriminate. Qed.

Example C05_ex : lbsSO5r3_rngVvarL 0 6 6 None = Ok [(6, 1, 6)] /\
  lbsSO5r3_rngVvarL 0 6 6 (Some 6)
   = Ok [(3, 1, 6); (4, 1, 6); (5, 1, 6); (6, 1, 6); (6, 2, 6)].
Proof. split; reflexivity. Qed.

(** * C48 *)

Theorem C48_range_validator : forall a b : Z,
  (require_nonnegint_range a b = Ok tt <-> 0 <= a <= b) /\
  (require_nonnegint_range a b = Raise ValueError <-> ~ (0 <= a <= b)).
Proof.
  intros a b. destruct (Z_le_dec 0 a) as [Ha|Ha]; [destruct (Z_le_dec a b) as [Hb|Hb]|].
  - rewrite require_range_ok by lia. split; split; intros; try reflexivity; try discriminate; lia.
  - rewrite require_range_raise by lia. split; split; intros; try reflexivity; try discriminate; lia.
  - rewrite require_range_raise by lia. split; split; intros; try reflexivity; try discriminate; lia.
Qed.

Theorem C48_posint_validator : forall n : Z,
  (require_posint n = Ok tt <-> 0 < n) /\ (require_posint n = Raise ValueError <-> n <= 0) /\
  (require_nonnegint n = Ok tt <-> 0 <= n) /\ (require_nonnegint n = Raise ValueError <-> n < 0).
Proof.
  intros n. unfold require_posint, require_nonnegint, raise_if.
  destruct (n <? 0) eqn:E; cbn [bind]; [|destruct (n =? 0) eqn:E0];
    repeat split; intros; try reflexivity; try discriminate; lia.
Qed.

Theorem C48_division : forall m n : Z,
  (0 <= m /\ 0 < n ->
    exists q r, iquo m n = Ok q /\ irem m n = Ok r /\ m = n * q + r /\ 0 <= r < n) /\
  (~ (0 <= m /\ 0 < n) -> iquo m n = Raise ValueError /\ irem m n = Raise ValueError).
Proof.
  intros m n. split.
  - intros [Hm Hn]. exists (m / n), (m mod n). rewrite iquo_ok, irem_ok by lia.
    repeat split; try apply Z.mod_pos_bound; try lia.
  - intros H. unfold iquo, irem, require_posint, require_nonnegint, raise_if.
    destruct (m <? 0) eqn:Em; cbn [bind]; [auto|].
    destruct (n <? 0) eqn:En; cbn [bind]; [auto|].
    destruct (n =? 0) eqn:E0; cbn [bind]; [auto|lia].
Qed.

Theorem C48_parity : forall n : Z,
  (is_even n = true <-> exists k, n = 2 * k) /\ (is_odd n = true <-> exists k, n = 2 * k + 1) /\
  is_odd n = negb (is_even n).
Proof.
  intros n. unfold is_even, is_odd. repeat split.
  - intros. exists (n / 2). lia.
  - intros (k & ->). lia.
  - intros. exists (n / 2). lia.
  - intros (k & ->). lia.
  - lia.
Qed.

Example C48_ex : iquo 17 5 = Ok 3 /\ irem 17 5 = Ok 2 /\ iquo (-1) 5 = Raise ValueError.
Proof. repeat split. Qed.

Print Assumptions C01_multiplicity_rule.
Print Assumptions C01_multiplicity_support.
Print Assumptions C01_taus_exact.
Print Assumptions C02_all_L_count.
Print Assumptions C02_rng_count.
Print Assumptions C03_dimension_sum.
Print Assumptions C03_dimSO5_exact.
Print Assumptions C04_rngVvarL.
Print Assumptions C04_rngVrngL.
Print Assumptions C04_rngVallL.
Print Assumptions C04_rngV.
Print Assumptions C04_rngL.
Print Assumptions C04_allL.
Print Assumptions C04_invalid_ranges_raise.
Print Assumptions C05_omitted_L_max_exact.
Print Assumptions C05_omitted_L_max_refuted.
Print Assumptions C48_range_validator.
Print Assumptions C48_posint_validator.
Print Assumptions C48_division.
Print Assumptions C48_parity.
