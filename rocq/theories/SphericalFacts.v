(** Proofs about the spherical-space model. *)

From Coq Require Import Lia Sorted ZifyBool ZifyNat.
From Verif Require Import PyBase PyFacts Compat SphericalSpec Spherical.

Ltac Zify.zify_post_hook ::= Z.div_mod_to_equations.

(** * Validators *)

Lemma require_nonnegint_ok n : 0 <= n -> require_nonnegint n = Ok tt.
Proof. intros H. unfold require_nonnegint, raise_if. destruct (n <? 0) eqn:E; [lia|reflexivity]. Qed.

Lemma require_nonnegint_raise n : n < 0 -> require_nonnegint n = Raise ValueError.
Proof. intros H. unfold require_nonnegint, raise_if. destruct (n <? 0) eqn:E; [reflexivity|lia]. Qed.

Lemma require_range_ok a b : 0 <= a <= b -> require_nonnegint_range a b = Ok tt.
Proof.
  intros H. unfold require_nonnegint_range.
  rewrite !require_nonnegint_ok by lia. cbn [bind]. unfold raise_if.
  destruct (b <? a) eqn:E; [lia|reflexivity].
Qed.

Lemma require_range_raise a b :
  ~ (0 <= a <= b) -> require_nonnegint_range a b = Raise ValueError.
Proof.
  intros H. unfold require_nonnegint_range, require_nonnegint, raise_if.
  destruct (a <? 0) eqn:Ea; cbn [bind]; [reflexivity|].
  destruct (b <? 0) eqn:Eb; cbn [bind]; [reflexivity|].
  destruct (b <? a) eqn:E; [reflexivity|lia].
Qed.

Lemma range_cases a b :
  (0 <= a <= b /\ require_nonnegint_range a b = Ok tt) \/
  (~ (0 <= a <= b) /\ require_nonnegint_range a b = Raise ValueError).
Proof.
  destruct (Z_le_dec 0 a); [destruct (Z_le_dec a b)|].
  - left. split; [lia|apply require_range_ok; lia].
  - right. split; [lia|apply require_range_raise; lia].
  - right. split; [lia|apply require_range_raise; lia].
Qed.

Lemma iquo_ok m n : 0 <= m -> 0 < n -> iquo m n = Ok (m / n).
Proof.
  intros Hm Hn. unfold iquo, require_posint. rewrite !require_nonnegint_ok by lia.
  cbn [bind]. unfold raise_if. destruct (n =? 0) eqn:E; [lia|reflexivity].
Qed.

Lemma irem_ok m n : 0 <= m -> 0 < n -> irem m n = Ok (m mod n).
Proof.
  intros Hm Hn. unfold irem, require_posint. rewrite !require_nonnegint_ok by lia.
  cbn [bind]. unfold raise_if. destruct (n =? 0) eqn:E; [lia|reflexivity].
Qed.

(** * The multiplicity *)

(** Value computed by [dimSO5r3] once the library calls are resolved. *)
Definition dimval (v L : Z) : Z :=
  if (v <? 0) || (L <? 0) || (2 * v <? L) then 0
  else
    let b := (L + 3 * (L mod 2)) / 2 in
    let d := if b <=? v then 1 + (v - b) / 3 else 0 in
    if L - 2 <=? v then d - (v - L + 2) / 3 else d.

Lemma dimSO5r3_dimval v L : dimSO5r3 v L = Ok (dimval v L).
Proof.
  unfold dimSO5r3, dimval.
  destruct ((v <? 0) || (L <? 0) || (2 * v <? L)) eqn:E; [reflexivity|].
  rewrite irem_ok by lia. cbn [bind].
  assert (A : ((L + 3 * (L mod 2)) mod 2 =? 0) = true) by lia.
  rewrite A. cbn [py_assert bind].
  set (b := (L + 3 * (L mod 2)) / 2).
  destruct (b <=? v) eqn:Eb.
  - rewrite iquo_ok by lia. cbn [bind].
    destruct (L - 2 <=? v) eqn:El; [rewrite iquo_ok by lia|]; reflexivity.
  - cbn [bind].
    destruct (L - 2 <=? v) eqn:El; [rewrite iquo_ok by lia|]; reflexivity.
Qed.

Lemma taus_neg v : v < 0 -> taus v = [].
Proof.
  intros H. unfold taus. replace (Z.to_nat (v / 3 + 1)) with 0%nat by lia. reflexivity.
Qed.

Lemma taus_step v : 0 <= v -> taus v = v :: taus (v - 3).
Proof.
  intros H. unfold taus.
  replace (Z.to_nat (v / 3 + 1)) with (S (Z.to_nat ((v - 3) / 3 + 1))) by lia.
  cbn [seq map]. rewrite <- seq_shift, map_map. f_equal. lia.
  apply map_ext. intros. lia.
Qed.

Definition ind (b : bool) : Z := if b then 1 else 0.

Lemma mult_neg v L : v < 0 -> mult v L = 0.
Proof. intros H. unfold mult. now rewrite taus_neg. Qed.

Lemma mult_step v L : 0 <= v -> mult v L = ind (tau_contains v L) + mult (v - 3) L.
Proof.
  intros H. unfold mult. rewrite taus_step by lia. cbn [filter].
  destruct (tau_contains v L); cbn [length ind]; lia.
Qed.

Lemma dimval_neg v L : v < 0 -> dimval v L = 0.
Proof. intros H. unfold dimval. destruct (v <? 0) eqn:E; [reflexivity|lia]. Qed.

Lemma dimval_step v L : 0 <= v -> dimval v L = ind (tau_contains v L) + dimval (v - 3) L.
Proof.
  intros H. unfold dimval, ind, tau_contains.
  repeat match goal with |- context [if ?b then _ else _] => destruct b eqn:? end; lia.
Qed.

(** Induction from v-3 to v. *)
Lemma step3_ind (P : Z -> Prop) :
  (forall v, v < 0 -> P v) -> (forall v, 0 <= v -> P (v - 3) -> P v) -> forall v, P v.
Proof.
  intros Hneg Hs v.
  assert (G : forall n : nat, forall v, v < 3 * Z.of_nat n -> P v).
  { induction n as [|n IH]; intros u Hu; [apply Hneg; lia|].
    destruct (Z_lt_le_dec u 0) as [Hl|Hl]; [now apply Hneg|].
    apply Hs; [exact Hl|]. apply IH. lia. }
  apply (G (Z.to_nat (v / 3 + 1))). lia.
Qed.

Lemma dimval_mult v L : dimval v L = mult v L.
Proof.
  revert v. apply step3_ind.
  - intros v H. now rewrite dimval_neg, mult_neg.
  - intros v H IH. now rewrite dimval_step, mult_step, IH.
Qed.

Lemma dimSO5r3_mult v L : dimSO5r3 v L = Ok (mult v L).
Proof. now rewrite dimSO5r3_dimval, dimval_mult. Qed.

Lemma mult_nonneg v L : 0 <= mult v L.
Proof. unfold mult. lia. Qed.

Lemma mult_out v L : L < 0 \/ 2 * v < L -> mult v L = 0.
Proof.
  intros H. rewrite <- dimval_mult. unfold dimval.
  destruct ((v <? 0) || (L <? 0) || (2 * v <? L)) eqn:E; [reflexivity|lia].
Qed.

(** * Sums over L *)

Lemma sum_upto_range f lo hi : sum_upto f lo hi = zsum (map f (py_range lo (hi + 1))).
Proof.
  unfold sum_upto, zsum, py_range. rewrite map_map.
  replace (hi - lo + 1) with (hi + 1 - lo) by lia. reflexivity.
Qed.

Definition cnt (t n : Z) : Z :=
  if n <=? t then 0
  else if n <=? 2 * t - 1 then n - t
  else if n <=? 2 * t then t - 1
  else if t =? 0 then 1 else t.

Lemma sum_contains t N : 0 <= t -> 2 * t < N ->
  zsum (map (fun L => ind (tau_contains t L)) (py_range 0 N)) = if t =? 0 then 1 else t.
Proof.
  intros Ht HN. rewrite (zsum_telescope _ (cnt t)) by
    (try lia; intros i Hi; unfold cnt, ind, tau_contains;
     repeat match goal with |- context [if ?b then _ else _] => destruct b eqn:? end; lia).
  unfold cnt. repeat match goal with |- context [if ?b then _ else _] => destruct b eqn:? end; lia.
Qed.

Lemma sum_mult v : forall N, 0 <= v -> 2 * v < N ->
  zsum (map (mult v) (py_range 0 N)) = v * (v + 3) / 6 + 1.
Proof.
  revert v. apply (step3_ind (fun v => forall N, 0 <= v -> 2 * v < N ->
    zsum (map (mult v) (py_range 0 N)) = v * (v + 3) / 6 + 1)).
  - intros; lia.
  - intros v Hv IH N _ HN.
    rewrite (zsum_map_ext _ (fun L => ind (tau_contains v L) + mult (v - 3) L))
      by (intros; apply mult_step; lia).
    rewrite zsum_map_add, sum_contains by lia.
    destruct (Z_lt_le_dec v 3) as [H3|H3].
    + rewrite zsum_map_zero by (intros; apply mult_neg; lia).
      assert (C : v = 0 \/ v = 1 \/ v = 2) by lia.
      destruct C as [->|[->| ->]]; reflexivity.
    + rewrite (IH N) by lia. destruct (v =? 0) eqn:E; [lia|].
      assert (E6 : v * (v + 3) = (v - 3) * (v - 3 + 3) + v * 6) by ring.
      rewrite E6, Z.div_add by lia. lia.
Qed.

(** Weighted version: Σ (2L+1). *)
Definition wcnt (t n : Z) : Z :=
  if n <=? t then 0
  else if n <=? 2 * t - 1 then n * n - t * t
  else if n <=? 2 * t then (2 * t - 1) * (2 * t - 1) - t * t
  else if t =? 0 then 1 else 3 * t * t + 2.

Lemma sum_wcontains t N : 0 <= t -> 2 * t < N ->
  zsum (map (fun L => (2 * L + 1) * ind (tau_contains t L)) (py_range 0 N))
  = if t =? 0 then 1 else 3 * t * t + 2.
Proof.
  intros Ht HN. rewrite (zsum_telescope _ (wcnt t)); [|lia|].
  - unfold wcnt. repeat match goal with |- context [if ?b then _ else _] => destruct b eqn:? end; lia.
  - intros i Hi. unfold wcnt, ind, tau_contains.
    destruct (Z.eq_dec t 0) as [->|Ht0].
    { repeat match goal with |- context [if ?b then _ else _] => destruct b eqn:? end; lia. }
    destruct (Z_lt_le_dec i t); [|destruct (Z_lt_le_dec i (2*t-1));
      [|destruct (Z.eq_dec i (2*t-1)); [subst i|destruct (Z.eq_dec i (2*t)); [subst i|]]]];
    repeat match goal with |- context [if ?b then _ else _] => destruct b eqn:?; try lia end;
      nia.
Qed.

Lemma sum_wmult v : forall N, 0 <= v -> 2 * v < N ->
  zsum (map (fun L => mult v L * (2 * L + 1)) (py_range 0 N))
  = (v + 1) * (v + 2) * (2 * v + 3) / 6.
Proof.
  revert v. apply (step3_ind (fun v => forall N, 0 <= v -> 2 * v < N ->
    zsum (map (fun L => mult v L * (2 * L + 1)) (py_range 0 N))
    = (v + 1) * (v + 2) * (2 * v + 3) / 6)).
  - intros; lia.
  - intros v Hv IH N _ HN.
    rewrite (zsum_map_ext _ (fun L => (2 * L + 1) * ind (tau_contains v L)
                                      + mult (v - 3) L * (2 * L + 1)))
      by (intros; rewrite mult_step by lia; ring).
    rewrite zsum_map_add, sum_wcontains by lia.
    destruct (Z_lt_le_dec v 3) as [H3|H3].
    + rewrite (zsum_map_zero (fun L => mult (v - 3) L * (2 * L + 1)))
        by (intros; rewrite mult_neg by lia; ring).
      assert (C : v = 0 \/ v = 1 \/ v = 2) by lia.
      destruct C as [->|[->| ->]]; reflexivity.
    + rewrite (IH N) by lia. destruct (v =? 0) eqn:E; [lia|].
      assert (E6 : (v + 1) * (v + 2) * (2 * v + 3)
                   = (v - 3 + 1) * (v - 3 + 2) * (2 * (v - 3) + 3) + (3 * v * v + 2) * 6) by ring.
      rewrite E6, Z.div_add by lia. lia.
Qed.

Lemma dimSO5_exact v : (v + 1) * (v + 2) * (2 * v + 3) mod 6 = 0.
Proof.
  assert (C : exists q r, v = 6 * q + r /\ 0 <= r < 6) by (exists (v / 6), (v mod 6); lia).
  destruct C as (q & r & -> & Hr).
  assert (C : r = 0 \/ r = 1 \/ r = 2 \/ r = 3 \/ r = 4 \/ r = 5) by lia.
  destruct C as [->|[->|[->|[->|[->| ->]]]]];
  match goal with |- ?e mod 6 = 0 => 
    apply Z.mod_divide; [lia|] end.
  - exists ((6*q+1)*(3*q+1)*(4*q+1)). ring.
  - exists ((3*q+1)*(2*q+1)*(12*q+5)). ring.
  - exists ((2*q+1)*(3*q+2)*(12*q+7)). ring.
  - exists ((3*q+2)*(6*q+5)*(4*q+3)). ring.
  - exists ((6*q+5)*(q+1)*(12*q+11)). ring.
  - exists ((q+1)*(6*q+7)*(12*q+13)). ring.
Qed.

(** * Dimension functions *)

Lemma dimSO5r3_allL_val v : 0 <= v -> dimSO5r3_allL v = Ok (v * (v + 3) / 6 + 1).
Proof.
  intros H. unfold dimSO5r3_allL. rewrite require_nonnegint_ok by lia. cbn [bind].
  rewrite iquo_ok by lia. reflexivity.
Qed.

Lemma dimSO5r3_allL_sum v L_hi : 0 <= v -> 2 * v <= L_hi ->
  dimSO5r3_allL v = Ok (sum_upto (mult v) 0 L_hi).
Proof.
  intros Hv HL. rewrite dimSO5r3_allL_val by lia.
  rewrite sum_upto_range, sum_mult by lia. reflexivity.
Qed.

Lemma dimSO5r3_rngVallL_sum v_min v_max : 0 <= v_min <= v_max ->
  dimSO5r3_rngVallL v_min v_max
  = Ok (sum_upto (fun v => sum_upto (mult v) 0 (2 * v)) v_min v_max).
Proof.
  intros H. unfold dimSO5r3_rngVallL. rewrite !require_nonnegint_ok by lia. cbn [bind].
  unfold raise_if. destruct (v_max <? v_min) eqn:E; [lia|]. cbn [bind].
  rewrite (mapM_ok _ (fun v => sum_upto (mult v) 0 (2 * v))).
  - cbn [bind]. now rewrite sum_upto_range.
  - intros v Hv. apply py_range_In in Hv. apply dimSO5r3_allL_sum; lia.
Qed.

Lemma dimSO5r3_rngL_sum v L_min L_max : 0 <= v -> 0 <= L_min <= L_max ->
  dimSO5r3_rngL v L_min L_max = Ok (sum_upto (mult v) L_min L_max).
Proof.
  intros Hv H. unfold dimSO5r3_rngL.
  rewrite require_nonnegint_ok, require_range_ok by lia. cbn [bind].
  rewrite (mapM_ok _ (mult v)) by (intros; apply dimSO5r3_mult).
  cbn [bind]. now rewrite sum_upto_range.
Qed.

Lemma dimSO5r3_rngV_sum v_min v_max L : 0 <= v_min <= v_max -> 0 <= L ->
  dimSO5r3_rngV v_min v_max L = Ok (sum_upto (fun v => mult v L) v_min v_max).
Proof.
  intros Hv H. unfold dimSO5r3_rngV.
  rewrite require_nonnegint_ok, require_range_ok by lia. cbn [bind].
  rewrite (mapM_ok _ (fun v => mult v L)) by (intros; apply dimSO5r3_mult).
  cbn [bind]. now rewrite sum_upto_range.
Qed.

Lemma zsum_flat_map {A} (f : A -> list Z) l :
  zsum (flat_map f l) = zsum (map (fun x => zsum (f x)) l).
Proof. now rewrite flat_map_concat_map, zsum_concat, map_map. Qed.

Lemma dimSO5r3_rngVrngL_sum v_min v_max L_min L_max :
  0 <= v_min <= v_max -> 0 <= L_min <= L_max ->
  dimSO5r3_rngVrngL v_min v_max L_min L_max
  = Ok (sum_upto (fun v => sum_upto (mult v) L_min L_max) v_min v_max).
Proof.
  intros Hv H. unfold dimSO5r3_rngVrngL.
  rewrite !require_range_ok by lia. cbn [bind].
  rewrite (concatM_ok _ (fun v => map (mult v) (py_range L_min (L_max + 1)))).
  - cbn [bind]. rewrite zsum_flat_map, sum_upto_range. f_equal.
    apply zsum_map_ext. intros. now rewrite sum_upto_range.
  - intros v _. apply mapM_ok. intros. apply dimSO5r3_mult.
Qed.

(** * Label lists *)

(** The list the comprehensions build, for arbitrary ranges. *)
Definition blockvL (u LL : Z) : list label :=
  map (fun a => (u, a, LL)) (py_range 1 (mult u LL + 1)).
Definition rowL (v_min v_max LL : Z) : list label :=
  flat_map (fun u => blockvL u LL) (py_range v_min (v_max + 1)).
Definition lbs (v_min v_max L_min L_max : Z) : list label :=
  flat_map (fun LL => rowL v_min v_max LL) (py_range L_min (L_max + 1)).

Lemma row_model v_min v_max LL :
  concatM (fun u =>
      let* d := dimSO5r3 u LL in
      Ok (map (fun a => (u, a, LL)) (py_range 1 (d + 1))))
      (py_range v_min (v_max + 1)) = Ok (rowL v_min v_max LL).
Proof.
  apply concatM_ok. intros u _. now rewrite dimSO5r3_mult.
Qed.

Lemma lbs_model v_min v_max lo hi :
  concatM (fun LL =>
    concatM (fun u =>
      let* d := dimSO5r3 u LL in
      Ok (map (fun a => (u, a, LL)) (py_range 1 (d + 1))))
      (py_range v_min (v_max + 1)))
    (py_range lo (hi + 1)) = Ok (lbs v_min v_max lo hi).
Proof. apply concatM_ok. intros LL _. apply row_model. Qed.

Lemma blockvL_In v a L u LL : In (v, a, L) (blockvL u LL) <-> v = u /\ L = LL /\ 1 <= a <= mult u LL.
Proof.
  unfold blockvL. rewrite in_map_iff. split.
  - intros (x & E & Hx). apply py_range_In in Hx. inversion E; subst. lia.
  - intros (-> & -> & H). exists a. split; [reflexivity|]. apply py_range_In. lia.
Qed.

Lemma rowL_In v a L v_min v_max LL :
  In (v, a, L) (rowL v_min v_max LL) <->
  L = LL /\ v_min <= v <= v_max /\ 1 <= a <= mult v L.
Proof.
  unfold rowL. rewrite in_flat_map. split.
  - intros (u & Hu & H). apply py_range_In in Hu. apply blockvL_In in H.
    destruct H as (-> & -> & H). lia.
  - intros (-> & Hv & Ha). exists v. split; [apply py_range_In; lia|].
    apply blockvL_In. auto.
Qed.

Lemma lbs_In v a L v_min v_max L_min L_max :
  In (v, a, L) (lbs v_min v_max L_min L_max) <->
  v_min <= v <= v_max /\ L_min <= L <= L_max /\ 1 <= a <= mult v L.
Proof.
  unfold lbs. rewrite in_flat_map. split.
  - intros (LL & HL & H). apply py_range_In in HL. apply rowL_In in H. lia.
  - intros (Hv & HL & Ha). exists L. split; [apply py_range_In; lia|].
    apply rowL_In. auto.
Qed.

Lemma blockvL_sorted u LL : StronglySorted label_lt (blockvL u LL).
Proof.
  eapply StronglySorted_map; [apply py_range_sorted|]. cbn. intros. lia.
Qed.

Lemma rowL_sorted v_min v_max LL : StronglySorted label_lt (rowL v_min v_max LL).
Proof.
  eapply StronglySorted_flat_map; [apply py_range_sorted| |].
  - intros. apply blockvL_sorted.
  - intros x y [[v a] L] [[v' a'] L'] Hxy H H'.
    apply blockvL_In in H, H'. cbn. lia.
Qed.

Lemma lbs_sorted v_min v_max L_min L_max :
  StronglySorted label_lt (lbs v_min v_max L_min L_max).
Proof.
  eapply StronglySorted_flat_map; [apply py_range_sorted| |].
  - intros. apply rowL_sorted.
  - intros x y [[v a] L] [[v' a'] L'] Hxy H H'.
    apply rowL_In in H, H'. cbn. lia.
Qed.

Lemma label_lt_irrefl s : ~ label_lt s s.
Proof. destruct s as [[v a] L]. cbn. lia. Qed.

Lemma lbs_NoDup v_min v_max L_min L_max : NoDup (lbs v_min v_max L_min L_max).
Proof. eapply StronglySorted_NoDup; [apply label_lt_irrefl|apply lbs_sorted]. Qed.

Lemma blockvL_len u LL : zlen (blockvL u LL) = mult u LL.
Proof.
  unfold blockvL. rewrite zlen_map, py_range_zlen; pose proof (mult_nonneg u LL); lia.
Qed.

Lemma rowL_len v_min v_max LL :
  zlen (rowL v_min v_max LL) = sum_upto (fun v => mult v LL) v_min v_max.
Proof.
  unfold rowL. rewrite zlen_flat_map, sum_upto_range.
  apply zsum_map_ext. intros. apply blockvL_len.
Qed.

Lemma zsum_exchange (f : Z -> Z -> Z) l1 l2 :
  zsum (map (fun x => zsum (map (fun y => f x y) l2)) l1)
  = zsum (map (fun y => zsum (map (fun x => f x y) l1)) l2).
Proof.
  induction l1 as [|x l1 IH].
  - cbn. symmetry. apply zsum_map_zero. reflexivity.
  - cbn [map]. rewrite zsum_cons, IH, <- zsum_map_add.
    apply zsum_map_ext. intros. reflexivity.
Qed.

Lemma sum_upto_exchange f a b c d :
  sum_upto (fun x => sum_upto (fun y => f x y) c d) a b
  = sum_upto (fun y => sum_upto (fun x => f x y) a b) c d.
Proof.
  rewrite !sum_upto_range.
  rewrite (zsum_map_ext _ (fun x => zsum (map (fun y => f x y) (py_range c (d + 1)))))
    by (intros; apply sum_upto_range).
  rewrite zsum_exchange. apply zsum_map_ext. intros. now rewrite sum_upto_range.
Qed.

Lemma lbs_len v_min v_max L_min L_max :
  zlen (lbs v_min v_max L_min L_max)
  = sum_upto (fun v => sum_upto (mult v) L_min L_max) v_min v_max.
Proof.
  unfold lbs. rewrite zlen_flat_map.
  rewrite (sum_upto_exchange (fun v L => mult v L)), sum_upto_range.
  apply zsum_map_ext. intros. apply rowL_len.
Qed.

(** * The model's list functions *)

Lemma lbs_rngVvarL_some v_min v_max L_min L_max :
  0 <= v_min <= v_max -> 0 <= L_min <= L_max ->
  lbsSO5r3_rngVvarL v_min v_max L_min (Some L_max) = Ok (lbs v_min v_max L_min L_max).
Proof.
  intros Hv HL. unfold lbsSO5r3_rngVvarL.
  rewrite !require_range_ok, require_nonnegint_ok by lia. cbn [bind]. apply lbs_model.
Qed.

Lemma lbs_rngVrngL_ok v_min v_max L_min L_max :
  0 <= v_min <= v_max -> 0 <= L_min <= L_max ->
  lbsSO5r3_rngVrngL v_min v_max L_min L_max = Ok (lbs v_min v_max L_min L_max).
Proof.
  intros Hv HL. unfold lbsSO5r3_rngVrngL.
  rewrite !require_range_ok by lia. cbn [bind]. apply lbs_model.
Qed.

Lemma lbs_rngVallL_ok v_min v_max :
  0 <= v_min <= v_max ->
  lbsSO5r3_rngVallL v_min v_max = Ok (lbs v_min v_max 0 (2 * v_max)).
Proof.
  intros Hv. unfold lbsSO5r3_rngVallL.
  rewrite !require_range_ok by lia. cbn [bind]. apply lbs_model.
Qed.

Lemma lbs_single_L v_min v_max L : lbs v_min v_max L L = rowL v_min v_max L.
Proof. unfold lbs. rewrite py_range_single. cbn. apply app_nil_r. Qed.

Lemma rowL_single_v v L : rowL v v L = blockvL v L.
Proof. unfold rowL. rewrite py_range_single. cbn. apply app_nil_r. Qed.

Lemma lbs_rngV_ok v_min v_max L :
  0 <= v_min <= v_max -> 0 <= L ->
  lbsSO5r3_rngV v_min v_max L = Ok (lbs v_min v_max L L).
Proof.
  intros Hv HL. unfold lbsSO5r3_rngV.
  rewrite !require_range_ok, require_nonnegint_ok by lia. cbn [bind].
  rewrite lbs_single_L. apply row_model.
Qed.

Lemma lbs_rngL_ok v L_min L_max :
  0 <= v -> 0 <= L_min <= L_max ->
  lbsSO5r3_rngL v L_min L_max = Ok (lbs v v L_min L_max).
Proof.
  intros Hv HL. unfold lbsSO5r3_rngL.
  rewrite !require_range_ok, require_nonnegint_ok by lia. cbn [bind].
  apply concatM_ok. intros LL _. rewrite dimSO5r3_mult. cbn [bind].
  rewrite rowL_single_v. reflexivity.
Qed.

Lemma lbs_allL_ok v :
  0 <= v ->
  lbsSO5r3_allL v = Ok (map (fun s => (snd (fst s), snd s)) (lbs v v 0 (2 * v))).
Proof.
  intros Hv. unfold lbsSO5r3_allL. rewrite require_nonnegint_ok by lia. cbn [bind].
  unfold lbs. rewrite flat_map_concat_map, concat_map, map_map, <- flat_map_concat_map.
  apply concatM_ok. intros LL _. rewrite dimSO5r3_mult. cbn [bind].
  rewrite rowL_single_v. unfold blockvL. rewrite map_map. reflexivity.
Qed.

(** * Omitted L_max *)

Lemma lbs_rngVvarL_none v_min v_max L :
  0 <= v_min <= v_max -> 0 <= L ->
  lbsSO5r3_rngVvarL v_min v_max L None
  = Ok (filter (fun s : label => let '(v, a, LL) := s in a <? mult v LL) (lbs v_min v_max L L)).
Proof.
  intros Hv HL. unfold lbsSO5r3_rngVvarL.
  rewrite !require_range_ok, require_nonnegint_ok by lia. cbn [bind].
  rewrite lbs_single_L. unfold rowL.
  assert (F : forall l, filter (fun s : label => let '(v, a, LL) := s in a <? mult v LL)
        (flat_map (fun u => blockvL u L) l)
      = flat_map (fun u => map (fun a => (u, a, L)) (py_range 1 (mult u L))) l).
  { induction l as [|u l IH]; [reflexivity|]. cbn [flat_map].
    rewrite filter_app, IH. f_equal. unfold blockvL.
    pose proof (mult_nonneg u L) as Hm.
    destruct (Z.eq_dec (mult u L) 0) as [E|E].
    - rewrite E. rewrite !py_range_nil by lia. reflexivity.
    - rewrite py_range_snoc by lia. rewrite map_app, filter_app. cbn [map filter].
      rewrite Z.ltb_irrefl, app_nil_r.
      assert (G : forall l', (forall a, In a l' -> a < mult u L) ->
        filter (fun s : label => let '(v, a, LL) := s in a <? mult v LL)
          (map (fun a => (u, a, L)) l') = map (fun a => (u, a, L)) l').
      { induction l' as [|a l' IH']; intros Ha; [reflexivity|]. cbn [map filter].
        destruct (a <? mult u L) eqn:Ea.
        - f_equal. apply IH'. auto with datatypes.
        - specialize (Ha a (or_introl eq_refl)). lia. }
      apply G. intros a Ha. apply py_range_In in Ha. lia. }
  rewrite F. apply concatM_ok. intros u _. now rewrite dimSO5r3_mult.
Qed.

Lemma lbs_enumerates v_min v_max L_min L_max :
  enumerates (lbs v_min v_max L_min L_max) v_min v_max L_min L_max.
Proof.
  split; [apply lbs_NoDup|]. split; [apply lbs_sorted|].
  intros. apply lbs_In.
Qed.

Lemma lbs_len_all v_min v_max : 0 <= v_min <= v_max ->
  zlen (lbs v_min v_max 0 (2 * v_max))
  = sum_upto (fun v => sum_upto (mult v) 0 (2 * v)) v_min v_max.
Proof.
  intros H. rewrite lbs_len, !sum_upto_range. apply zsum_map_ext.
  intros v Hv. apply py_range_In in Hv. rewrite !sum_upto_range, !sum_mult by lia. reflexivity.
Qed.

Lemma filter_length_le {A} (f : A -> bool) l : (length (filter f l) <= length l)%nat.
Proof. induction l as [|a l IH]; cbn; [lia|]. destruct (f a); cbn; lia. Qed.

Lemma filter_all_nil {A} (f : A -> bool) l : filter f l = l -> forall x, In x l -> f x = true.
Proof.
  induction l as [|a l IH]; intros E x Hx; [destruct Hx|].
  cbn in E. destruct (f a) eqn:Ea.
  - injection E as E. destruct Hx as [<-|Hx]; auto.
  - exfalso. pose proof (filter_length_le f l) as H. rewrite E in H. cbn in H. lia.
Qed.

Lemma filter_true {A} (f : A -> bool) l : (forall x, In x l -> f x = true) -> filter f l = l.
Proof.
  induction l as [|a l IH]; intros H; [reflexivity|].
  cbn. rewrite H by auto with datatypes. f_equal. apply IH. auto with datatypes.
Qed.

Lemma none_agrees_iff v_min v_max L :
  filter (fun s : label => let '(v, a, LL) := s in a <? mult v LL) (lbs v_min v_max L L)
    = lbs v_min v_max L L
  <-> (forall v, v_min <= v <= v_max -> mult v L = 0).
Proof.
  split.
  - intros E v Hv. pose proof (mult_nonneg v L).
    destruct (Z.eq_dec (mult v L) 0) as [|Hm]; [assumption|].
    assert (Hin : In (v, mult v L, L) (lbs v_min v_max L L)) by (apply lbs_In; lia).
    pose proof (filter_all_nil _ _ E _ Hin) as F. cbn in F. lia.
  - intros H. apply filter_true. intros [[v a] LL] Hin. apply lbs_In in Hin.
    assert (LL = L) by lia. subst LL. rewrite (H v) in * by lia. lia.
Qed.
