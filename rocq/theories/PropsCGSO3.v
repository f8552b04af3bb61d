(** C15 and C50: SO(3) Clebsch-Gordan coefficients. *)

From Verif Require Import IdFacts.
From Coq Require Import Reals QArith Lra.
From Coq Require Import Lia ZifyBool ZifyNat.
From Verif Require Import PyBase PyFacts Matrix RadialME RadialMEFacts CGSO3 CGSO3Facts AngMom.
Open Scope Z_scope.
Ltac Zify.zify_post_hook ::= Z.div_mod_to_equations.

(** ** C15: totality.  The arguments are any rationals; [j1 # 2] is j1/2. *)

(** Not all half-integers. *)
Theorem C15_not_half_integer_raises : forall qj1 qm1 qj2 qm2 qj3 qm3 : Q,
  ~ (exists j1 m1 j2 m2 j3 m3, (qj1 == j1 # 2)%Q /\ (qm1 == m1 # 2)%Q /\ (qj2 == j2 # 2)%Q /\
       (qm2 == m2 # 2)%Q /\ (qj3 == j3 # 2)%Q /\ (qm3 == m3 # 2)%Q) ->
  CG_SO3 qj1 qm1 qj2 qm2 qj3 qm3 = Raise ValueError.
Proof. intros. now apply CG_SO3_ValueError. Qed.

(** Half-integers outside the selection rules: |m| <= j and j + m integer for
    each, m1 + m2 = m3, triangle. *)
Theorem C15_selection_rules : forall (qj1 qm1 qj2 qm2 qj3 qm3 : Q) (j1 m1 j2 m2 j3 m3 : Z),
  (qj1 == j1 # 2)%Q -> (qm1 == m1 # 2)%Q -> (qj2 == j2 # 2)%Q -> (qm2 == m2 # 2)%Q ->
  (qj3 == j3 # 2)%Q -> (qm3 == m3 # 2)%Q ->
  ~ (Z.abs m1 <= j1 /\ Z.abs m2 <= j2 /\ Z.abs m3 <= j3 /\
     (j1 + m1) mod 2 = 0 /\ (j2 + m2) mod 2 = 0 /\ (j3 + m3) mod 2 = 0 /\
     m1 + m2 = m3 /\ Z.abs (j1 - j2) <= j3 <= j1 + j2) ->
  CG_SO3 qj1 qm1 qj2 qm2 qj3 qm3 = Ok (Some 0%R).
Proof. intros. eapply CG_SO3_zero; eassumption. Qed.

(** Within them every factorial is of a non-negative integer, no division by
    zero and no root of a negative number occurs: the result is a number. *)
Theorem C15_total : forall (qj1 qm1 qj2 qm2 qj3 qm3 : Q) (j1 m1 j2 m2 j3 m3 : Z),
  (qj1 == j1 # 2)%Q -> (qm1 == m1 # 2)%Q -> (qj2 == j2 # 2)%Q -> (qm2 == m2 # 2)%Q ->
  (qj3 == j3 # 2)%Q -> (qm3 == m3 # 2)%Q ->
  Z.abs m1 <= j1 /\ Z.abs m2 <= j2 /\ Z.abs m3 <= j3 /\
     (j1 + m1) mod 2 = 0 /\ (j2 + m2) mod 2 = 0 /\ (j3 + m3) mod 2 = 0 /\
     m1 + m2 = m3 /\ Z.abs (j1 - j2) <= j3 <= j1 + j2 ->
  exists x, CG_SO3 qj1 qm1 qj2 qm2 qj3 qm3 = Ok (Some x).
Proof. intros. eexists. eapply CG_SO3_ok; eassumption. Qed.

(** ** C50: the coefficients couple angular momenta *)

(** The coefficient for twice the quantum numbers (0 if there is no value). *)
Definition cg (j1 m1 j2 m2 j3 m3 : Z) : R :=
  match CG_SO3 (j1 # 2) (m1 # 2) (j2 # 2) (m2 # 2) (j3 # 2) (m3 # 2) with
  | Ok (Some x) => x
  | _ => 0%R
  end.

(** Twice the projections of j/2: j, j-2, ..., -j. *)
Definition projections (j : Z) : list Z := map (fun i => j - 2 * i) (py_range 0 (j + 1)).

(** Twice the total angular momenta: j1+j2, j1+j2-2, ..., |j1-j2|. *)
Definition totals (j1 j2 : Z) : list Z := map (fun p => j1 + j2 - 2 * p) (py_range 0 (Z.min j1 j2 + 1)).

Definition Rsum {A} (f : A -> R) (l : list A) : R := fold_right Rplus 0%R (map f l).

Lemma cg_selected j1 m1 j2 m2 j3 m3 : selected j1 m1 j2 m2 j3 m3 ->
  cg j1 m1 j2 m2 j3 m3 = cgval j1 m1 j2 m2 j3 m3.
Proof.
  intros H. unfold cg. rewrite (CG_SO3_ok _ _ _ _ _ _ j1 m1 j2 m2 j3 m3) by (try reflexivity; assumption).
  reflexivity.
Qed.

Lemma cg_zero j1 m1 j2 m2 j3 m3 : ~ selected j1 m1 j2 m2 j3 m3 -> cg j1 m1 j2 m2 j3 m3 = 0%R.
Proof.
  intros H. unfold cg. rewrite (CG_SO3_zero _ _ _ _ _ _ j1 m1 j2 m2 j3 m3) by (try reflexivity; assumption).
  reflexivity.
Qed.

Lemma ft_fac t n : t = 2 * n -> ft t = fac n.
Proof. intros ->. unfold ft, fac. do 3 f_equal. lia. Qed.

Lemma sg_sub a b : sg (a - b) = (sg a * sg b)%R.
Proof. unfold Z.sub. now rewrite sg_add, sg_opp. Qed.

Lemma pw_sg a : powerRZ (-1) a = sg a.
Proof. exact (m1pow_sg a). Qed.

Lemma fold_sum l x : fold_right Rplus x l = (fold_right Rplus 0 l + x)%R.
Proof. induction l as [|a l IH]; cbn [fold_right]; [lra|]. rewrite IH. lra. Qed.

Lemma rsumZ_0 f n : rsumZ f 0 (Z.of_nat n) = rsum f n.
Proof.
  induction n as [|n IH]; [reflexivity|]. rewrite Nat2Z.inj_succ. unfold Z.succ, rsumZ in *.
  rewrite py_range_snoc by lia. rewrite map_app, fold_right_app, fold_sum, IH.
  cbn [map fold_right rsum]. lra.
Qed.

Lemma rsumZ_ext0 f lo hi n : 0 <= lo -> hi <= Z.of_nat n ->
  rsumZ f lo hi = rsum (fun s => if (lo <=? s) && (s <? hi) then f s else 0%R) n.
Proof.
  intros H1 H2. destruct (Z_lt_dec lo hi) as [H|H].
  - rewrite <- rsumZ_0. unfold rsumZ.
    rewrite (py_range_app 0 lo (Z.of_nat n)), (py_range_app lo hi (Z.of_nat n)) by lia.
    rewrite !map_app, !fold_right_app.
    assert (HZ : forall a b x, (b <= lo \/ hi <= a) ->
      fold_right Rplus x (map (fun s => if (lo <=? s) && (s <? hi) then f s else 0%R) (py_range a b)) = x).
    { intros a b x Hab.
      assert (G : forall l, (forall s, In s l -> s < lo \/ hi <= s) ->
        fold_right Rplus x (map (fun s => if (lo <=? s) && (s <? hi) then f s else 0%R) l) = x).
      { induction l as [|s l IH]; intros Hl; [reflexivity|]. cbn [map fold_right].
        rewrite IH by (intros; apply Hl; now right).
        replace ((lo <=? s) && (s <? hi)) with false by (specialize (Hl s (or_introl eq_refl)); lia). lra. }
      apply G. intros s Hs. apply py_range_In in Hs. lia. }
    rewrite (HZ 0 lo) by lia. rewrite (HZ hi (Z.of_nat n) 0%R) by lia.
    f_equal. apply map_ext_in. intros s Hs. apply py_range_In in Hs.
    now replace ((lo <=? s) && (s <? hi)) with true by lia.
  - unfold rsumZ. rewrite py_range_nil by lia. cbn. symmetry. apply rsum_zero.
    intros s Hs. now replace ((lo <=? s) && (s <? hi)) with false by lia.
Qed.

Lemma rsum_rev f n : rsum f n = rsum (fun u => f (Z.of_nat n - 1 - u)) n.
Proof.
  revert f. induction n as [|n IH]; intros f; [reflexivity|].
  rewrite rsum_front. rewrite (IH (fun k => f (k + 1))). cbn [rsum].
  replace (Z.of_nat (S n) - 1 - Z.of_nat n) with 0 by lia. rewrite Rplus_comm. f_equal.
  apply rsum_ext. intros u Hu. f_equal. lia.
Qed.

Section Sel.
  Context {j1 m1 j2 m2 j3 m3 : Z} (HS : selected j1 m1 j2 m2 j3 m3).
  Let i := (j1 - m1) / 2.
  Let l := (j2 - m2) / 2.
  Let p := (j1 + j2 - j3) / 2.
  Let k := (j3 - m3) / 2.

  Lemma sel_facts : m1 = j1 - 2 * i /\ m2 = j2 - 2 * l /\ j3 = j1 + j2 - 2 * p /\ m3 = j3 - 2 * k
    /\ i + l = p + k /\ 0 <= i <= j1 /\ 0 <= l <= j2 /\ 0 <= p /\ p <= j1 /\ p <= j2 /\ 0 <= k <= j3.
  Proof.
    destruct HS as (A1 & A2 & A3 & P1 & P2 & P3 & HM & T). unfold i, l, p, k. lia.
  Qed.

  Lemma wsum_desc : wsum j1 j2 j3 m1 m3 = (sg i * desc j1 j2 p (Z.to_nat k) i / fac k)%R.
  Proof.
    destruct sel_facts as (E1 & E2 & E3 & E4 & E & Hi & Hl & Hp & Hp1 & Hp2 & Hk).
    rewrite desc_form by assumption. unfold dform. rewrite Z2Nat.id by lia.
    unfold wsum. rewrite (rsumZ_ext0 _ _ _ (Z.to_nat (i + 1))) by lia.
    rewrite rsum_rev. rewrite Z2Nat.id by lia.
    set (n := Z.to_nat (Z.max i p + 1)).
    pose proof (fac_pos k) as Fk.
    set (g := fun u => (top j1 j2 p u * (fac k * rf (i - u) * rf (k - (i - u))))%R).
    transitivity (rsum (fun u => (sg i / fac k * g u)%R) (Z.to_nat (i + 1))).
    - apply rsum_ext. intros u Hu. replace (i + 1 - 1 - u) with (i - u) by ring.
      set (lo := Z.max 0 (j3 - j2 - m1) / 2). set (hi := Z.min (j3 - m3) (j1 - m1) / 2 + 1).
      destruct ((lo <=? i - u) && (i - u <? hi)) eqn:C.
      + assert (HC : i - p <= i - u /\ i - u <= k) by lia. unfold tval, g, top.
        rewrite pw_sg, sg_sub.
        rewrite (ft_fac _ (j1 - u)) by lia. rewrite (ft_fac _ (j2 - (p - u))) by lia.
        rewrite (ft_fac _ (i - u)) by lia. rewrite (ft_fac _ u) by lia.
        rewrite (ft_fac _ (p - u)) by lia. rewrite (ft_fac _ (k - (i - u))) by lia.
        rewrite !rf_nonneg by lia.
        pose proof (fac_pos u). pose proof (fac_pos (p - u)). pose proof (fac_pos (i - u)).
        pose proof (fac_pos (k - (i - u))). field. repeat split; lra.
      + assert (HC : u > p \/ i - u > k) by lia. unfold g.
        destruct HC as [HC|HC]; [rewrite (top_supp j1 j2 p u) by lia|rewrite (rf_neg (k - (i - u))) by lia]; ring.
    - rewrite (rsum_scal (sg i / fac k)).
      replace (rsum g (Z.to_nat (i + 1))) with (rsum g (Z.to_nat (p + 1))); [unfold Rdiv; ring|].
      assert (HC : forall q, q <= Z.max i p -> Z.min i p <= q -> 0 <= q -> rsum g n = rsum g (Z.to_nat (q + 1))).
      { intros q Hq1 Hq2 Hq3. apply rsum_cut; [lia|]. intros u Hu. unfold g.
        destruct (Z_lt_dec i u); [rewrite (rf_neg (i - u)) by lia; ring|].
        rewrite (top_supp j1 j2 p u) by lia. ring. }
      rewrite <- (HC p), <- (HC i) by lia. reflexivity.
  Qed.

  Definition cst (a b q t : Z) : R :=
    sqrt (fac q * fac (a + b - 2 * q - t) * fac t / (fac (a + b - q + 1) * fac (a - q) * fac (b - q))
          * IZR (a + b - 2 * q + 1) / (fac t * fac t)).

  Lemma cg_form :
    cg j1 m1 j2 m2 j3 m3
    = (sg ((j1 - j2 + m1 + m2) / 2) * sg ((2 * j1 - j2 + m2) / 2) * sg i
       * sqrt (W j1 j2 (i + l) i) * cst j1 j2 p k * desc j1 j2 p (Z.to_nat k) i)%R.
  Proof.
    rewrite cg_selected by exact HS.
    destruct sel_facts as (E1 & E2 & E3 & E4 & E & Hi & Hl & Hp & Hp1 & Hp2 & Hk).
    unfold cgval. rewrite wsum_desc, !pw_sg.
    replace (j1 - j2 + m3) with (j1 - j2 + m1 + m2) by (destruct HS; lia).
    unfold wroot, cst, W.
    rewrite (ft_fac _ p) by lia. rewrite (ft_fac (j1 - m1) i) by lia. rewrite (ft_fac (j2 - m2) l) by lia.
    rewrite (ft_fac (j3 + m3) (j3 - k)) by lia. rewrite (ft_fac (j3 - m3) k) by lia.
    rewrite (ft_fac _ (j1 + j2 - p + 1)) by lia. rewrite (ft_fac (j1 - j2 + j3) (j1 - p)) by lia.
    rewrite (ft_fac (- j1 + j2 + j3) (j2 - p)) by lia. rewrite (ft_fac (j1 + m1) (j1 - i)) by lia.
    rewrite (ft_fac (j2 + m2) (j2 - l)) by lia.
    replace (i + l - i) with l by ring. rewrite !rf_nonneg by lia.
    replace (j1 + j2 - 2 * p) with j3 by lia.
    assert (P : forall x y, (0 < x -> 0 < y -> 0 < x * y)%R) by exact Rmult_lt_0_compat.
    assert (PI : forall x, (0 < x -> 0 < / x)%R) by exact Rinv_0_lt_compat.
    pose proof (fac_pos p). pose proof (fac_pos i). pose proof (fac_pos l). pose proof (fac_pos (j3 - k)).
    pose proof (fac_pos k). pose proof (fac_pos (j1 + j2 - p + 1)). pose proof (fac_pos (j1 - p)).
    pose proof (fac_pos (j2 - p)). pose proof (fac_pos (j1 - i)). pose proof (fac_pos (j2 - l)).
    assert (0 < IZR (j3 + 1))%R by (apply (IZR_lt 0); lia).
    set (A := (fac p * fac (j3 - k) * fac k / (fac (j1 + j2 - p + 1) * fac (j1 - p) * fac (j2 - p)))%R).
    set (B := (fac i * fac l * / fac (j1 - i) * / fac (j2 - l))%R).
    assert (HA : (0 < A)%R) by (unfold A, Rdiv; auto 10).
    assert (HB : (0 < B)%R) by (unfold B; auto 10).
    match goal with |- context [sqrt (?x / ?y)] =>
      replace (x / y)%R with (B * A)%R by (unfold A, B; field; repeat split; lra) end.
    rewrite sqrt_mult by lra.
    replace (A * IZR (j3 + 1) / (fac k * fac k))%R with (A * IZR (j3 + 1) * (/ fac k * / fac k))%R
      by (field; lra).
    rewrite (sqrt_mult (A * IZR (j3 + 1))) by (apply Rlt_le; auto).
    rewrite (sqrt_mult A) by lra. rewrite sqrt_square by (apply Rlt_le; auto).
    unfold Rdiv. ring.
  Qed.
End Sel.

(** The coefficient with every quantum number counted downwards. *)
Lemma cg_down j1 j2 i l p k :
  0 <= i <= j1 -> 0 <= l <= j2 -> 0 <= p -> p <= j1 -> p <= j2 -> 0 <= k <= j1 + j2 - 2 * p -> i + l = p + k ->
  cg j1 (j1 - 2 * i) j2 (j2 - 2 * l) (j1 + j2 - 2 * p) (j1 + j2 - 2 * p - 2 * k)
  = (sqrt (W j1 j2 (p + k) i) * cst j1 j2 p k * desc j1 j2 p (Z.to_nat k) i)%R.
Proof.
  intros Hi Hl Hp Hp1 Hp2 Hk E.
  assert (HS : selected j1 (j1 - 2 * i) j2 (j2 - 2 * l) (j1 + j2 - 2 * p) (j1 + j2 - 2 * p - 2 * k))
    by (unfold selected; lia).
  rewrite (cg_form HS).
  replace ((j1 - (j1 - 2 * i)) / 2) with i by lia. replace ((j2 - (j2 - 2 * l)) / 2) with l by lia.
  replace ((j1 + j2 - (j1 + j2 - 2 * p)) / 2) with p by lia.
  replace ((j1 + j2 - 2 * p - (j1 + j2 - 2 * p - 2 * k)) / 2) with k by lia.
  replace ((j1 - j2 + (j1 - 2 * i) + (j2 - 2 * l)) / 2) with (j1 - i - l) by lia.
  replace ((2 * j1 - j2 + (j2 - 2 * l)) / 2) with (j1 - l) by lia.
  rewrite <- !sg_add. replace (j1 - i - l + (j1 - l) + i) with (2 * (j1 - l)) by ring.
  replace (sg (2 * (j1 - l))) with 1%R by (unfold sg; now rewrite Z.even_mul).
  rewrite E. ring.
Qed.

Lemma W_pos j1 j2 N i : 0 <= i <= j1 -> 0 <= N - i <= j2 -> (0 < W j1 j2 N i)%R.
Proof.
  intros H1 H2. unfold W. rewrite !rf_nonneg by lia.
  repeat apply Rmult_lt_0_compat; try apply fac_pos; apply Rinv_0_lt_compat; apply fac_pos.
Qed.

Lemma Rsum_proj f j : Rsum f (projections j) = rsum (fun i => f (j - 2 * i)) (Z.to_nat (j + 1)).
Proof.
  destruct (Z_le_dec (-1) j).
  - unfold Rsum, projections. rewrite map_map. rewrite <- rsumZ_0. rewrite Z2Nat.id by lia. reflexivity.
  - unfold Rsum, projections. rewrite py_range_nil by lia. replace (Z.to_nat (j + 1)) with 0%nat by lia. reflexivity.
Qed.

Lemma Rsum_tot f j1 j2 :
  Rsum f (totals j1 j2) = rsum (fun p => f (j1 + j2 - 2 * p)) (Z.to_nat (Z.min j1 j2 + 1)).
Proof.
  destruct (Z_le_dec (-1) (Z.min j1 j2)).
  - unfold Rsum, totals. rewrite map_map. rewrite <- rsumZ_0. rewrite Z2Nat.id by lia. reflexivity.
  - unfold Rsum, totals. rewrite py_range_nil by lia.
    replace (Z.to_nat (Z.min j1 j2 + 1)) with 0%nat by lia. reflexivity.
Qed.

Lemma in_proj j m : In m (projections j) <-> exists i, 0 <= i <= j /\ m = j - 2 * i.
Proof.
  unfold projections. rewrite in_map_iff. split.
  - intros (i & <- & H). apply py_range_In in H. exists i. lia.
  - intros (i & H & ->). exists i. split; [reflexivity|]. apply py_range_In. lia.
Qed.

Lemma in_tot j1 j2 j3 : In j3 (totals j1 j2) <-> exists p, 0 <= p /\ p <= j1 /\ p <= j2 /\ j3 = j1 + j2 - 2 * p.
Proof.
  unfold totals. rewrite in_map_iff. split.
  - intros (p & <- & H). apply py_range_In in H. exists p. lia.
  - intros (p & H & H1 & H2 & ->). exists p. split; [reflexivity|]. apply py_range_In. lia.
Qed.

(** One double sum. *)
Lemma double_sum j1 j2 p k p' k' : 0 <= p -> p <= j1 -> p <= j2 -> 0 <= k <= j1 + j2 - 2 * p ->
  0 <= p' -> p' <= j1 -> p' <= j2 -> 0 <= k' <= j1 + j2 - 2 * p' -> p + k = p' + k' ->
  rsum (fun i => rsum (fun l =>
     cg j1 (j1 - 2 * i) j2 (j2 - 2 * l) (j1 + j2 - 2 * p) (j1 + j2 - 2 * p - 2 * k)
     * cg j1 (j1 - 2 * i) j2 (j2 - 2 * l) (j1 + j2 - 2 * p') (j1 + j2 - 2 * p' - 2 * k'))%R
     (Z.to_nat (j2 + 1))) (Z.to_nat (j1 + 1))
  = (cst j1 j2 p k * cst j1 j2 p' k'
     * ip j1 j2 (p + k) (desc j1 j2 p (Z.to_nat k)) (desc j1 j2 p' (Z.to_nat k')))%R.
Proof.
  intros Hp Hp1 Hp2 Hk Hp' Hp1' Hp2' Hk' E. set (N := p + k).
  set (h := fun i => (W j1 j2 N i * desc j1 j2 p (Z.to_nat k) i * desc j1 j2 p' (Z.to_nat k') i)%R).
  transitivity (rsum (fun i => (cst j1 j2 p k * cst j1 j2 p' k' * h i)%R) (Z.to_nat (j1 + 1))).
  - apply rsum_ext. intros i Hi.
    assert (Z0 : forall l, 0 <= l < Z.of_nat (Z.to_nat (j2 + 1)) -> l <> N - i ->
      (cg j1 (j1 - 2 * i) j2 (j2 - 2 * l) (j1 + j2 - 2 * p) (j1 + j2 - 2 * p - 2 * k)
     * cg j1 (j1 - 2 * i) j2 (j2 - 2 * l) (j1 + j2 - 2 * p') (j1 + j2 - 2 * p' - 2 * k') = 0)%R).
    { intros l Hl Hn. rewrite cg_zero; [ring|]. unfold selected, N in *. lia. }
    destruct (Z_le_dec 0 (N - i)) as [L1|L1]; [destruct (Z_le_dec (N - i) j2) as [L2|L2]|].
    + rewrite (rsum_single _ _ (N - i)) by (try lia; exact Z0).
      rewrite !cg_down by lia. rewrite <- E. fold N. unfold h.
      set (w := W j1 j2 N i). assert (Hw : (0 < w)%R) by (apply W_pos; lia).
      pose proof (sqrt_sqrt w (Rlt_le _ _ Hw)) as Hs. remember (sqrt w) as sw eqn:Esw. rewrite <- Hs. ring.
    + rewrite rsum_zero by (intros l Hl; apply Z0; lia).
      unfold h, W. rewrite (rf_neg (j2 - (N - i))) by lia. ring.
    + rewrite rsum_zero by (intros l Hl; apply Z0; lia).
      unfold h. rewrite (desc_supp j1 j2 p (Z.to_nat k) i) by (rewrite Z2Nat.id by lia; fold N; lia). ring.
  - rewrite rsum_scal. f_equal. unfold ip. fold N.
    change (fun i => (W j1 j2 N i * desc j1 j2 p (Z.to_nat k) i * desc j1 j2 p' (Z.to_nat k') i)%R) with h.
    set (n := Z.to_nat (Z.max N j1 + 1)).
    transitivity (rsum h n).
    + symmetry. apply rsum_cut; [lia|]. intros i Hi. unfold h, W. rewrite (rf_neg (j1 - i)) by lia. ring.
    + apply rsum_cut; [lia|]. intros i Hi. unfold h.
      rewrite (desc_supp j1 j2 p (Z.to_nat k) i) by (rewrite Z2Nat.id by lia; fold N; lia). ring.
Qed.

Lemma cst_sq j1 j2 p k : 0 <= p -> p <= j1 -> p <= j2 -> 0 <= k <= j1 + j2 - 2 * p ->
  (cst j1 j2 p k * cst j1 j2 p k
   * ip j1 j2 (p + k) (desc j1 j2 p (Z.to_nat k)) (desc j1 j2 p (Z.to_nat k)) = 1)%R.
Proof.
  intros Hp Hp1 Hp2 Hk. pose proof (ip_norm j1 j2 p (Z.to_nat k) Hp Hp1 Hp2) as HN.
  rewrite Z2Nat.id in HN by lia. specialize (HN ltac:(lia)). rewrite top_norm in HN by assumption.
  set (I := ip j1 j2 (p + k) _ _) in *.
  rewrite !rf_nonneg in HN by lia.
  assert (FJ := fac_succ (j1 + j2 - 2 * p) ltac:(lia)). rewrite FJ in HN.
  unfold cst. rewrite sqrt_sqrt.
  - pose proof (fac_pos p). pose proof (fac_pos (j1 + j2 - 2 * p - k)). pose proof (fac_pos k).
    pose proof (fac_pos (j1 + j2 - p + 1)). pose proof (fac_pos (j1 - p)). pose proof (fac_pos (j2 - p)).
    pose proof (fac_pos (j1 + j2 - 2 * p)).
    assert (0 < IZR (j1 + j2 - 2 * p + 1))%R by (apply (IZR_lt 0); lia).
    match type of HN with _ = ?r => replace I with (r / fac (j1 + j2 - 2 * p - k))%R by (rewrite <- HN; field; lra) end.
    field. repeat split; lra.
  - apply Rlt_le. unfold Rdiv.
    assert (0 < IZR (j1 + j2 - 2 * p + 1))%R by (apply (IZR_lt 0); lia).
    repeat apply Rmult_lt_0_compat; try apply fac_pos; try apply Rinv_0_lt_compat;
      repeat apply Rmult_lt_0_compat; try apply fac_pos; assumption.
Qed.

(** Orthonormality: the coupled states |j3 m3> are orthonormal. *)
Theorem C50_orthonormal : forall j1 j2 j3 m3 j3' m3',
  In j3 (totals j1 j2) -> In m3 (projections j3) ->
  In j3' (totals j1 j2) -> In m3' (projections j3') ->
  Rsum (fun m1 => Rsum (fun m2 =>
      (cg j1 m1 j2 m2 j3 m3 * cg j1 m1 j2 m2 j3' m3')%R) (projections j2)) (projections j1)
  = (if (j3 =? j3') && (m3 =? m3') then 1 else 0)%R.
Proof.
  intros j1 j2 j3 m3 j3' m3' HT HM HT' HM'.
  apply in_tot in HT, HT'. destruct HT as (p & Hp & Hp1 & Hp2 & ->). destruct HT' as (p' & Hp' & Hp1' & Hp2' & ->).
  apply in_proj in HM, HM'. destruct HM as (k & Hk & ->). destruct HM' as (k' & Hk' & ->).
  rewrite Rsum_proj.
  rewrite (rsum_ext _ (fun i => rsum (fun l =>
     cg j1 (j1 - 2 * i) j2 (j2 - 2 * l) (j1 + j2 - 2 * p) (j1 + j2 - 2 * p - 2 * k)
     * cg j1 (j1 - 2 * i) j2 (j2 - 2 * l) (j1 + j2 - 2 * p') (j1 + j2 - 2 * p' - 2 * k'))%R
     (Z.to_nat (j2 + 1)))) by (intros; apply Rsum_proj).
  destruct (Z.eq_dec (p + k) (p' + k')) as [E|E].
  - rewrite double_sum by lia.
    destruct (Z.eq_dec p p') as [<-|Np].
    + assert (k' = k) as -> by lia. rewrite cst_sq by lia. now rewrite !Z.eqb_refl.
    + replace ((j1 + j2 - 2 * p =? j1 + j2 - 2 * p')) with false by lia. cbn [andb].
      destruct (Z_lt_dec p p').
      * pose proof (ip_orthogonal j1 j2 p (Z.to_nat k) p' (Z.to_nat k') ltac:(lia) ltac:(lia) ltac:(lia) ltac:(lia)) as HO.
        rewrite !Z2Nat.id in HO by lia. rewrite HO by lia. ring.
      * pose proof (ip_orthogonal j1 j2 p' (Z.to_nat k') p (Z.to_nat k) ltac:(lia) ltac:(lia) ltac:(lia) ltac:(lia)) as HO.
        rewrite !Z2Nat.id in HO by lia. rewrite ip_sym, E, HO by lia. ring.
  - replace ((j1 + j2 - 2 * p =? j1 + j2 - 2 * p') && (j1 + j2 - 2 * p - 2 * k =? j1 + j2 - 2 * p' - 2 * k'))
      with false by lia.
    apply rsum_zero. intros i Hi. apply rsum_zero. intros l Hl.
    destruct (Z.eq_dec (i + l) (p + k)).
    + rewrite (cg_zero j1 _ j2 _ (j1 + j2 - 2 * p')); [ring|]. unfold selected. lia.
    + rewrite cg_zero; [ring|]. unfold selected. lia.
Qed.

(** ** Completeness *)
Lemma rsum_nonneg_zero f n : (forall a, 0 <= a < Z.of_nat n -> (0 <= f a)%R) -> rsum f n = 0%R ->
  forall a, 0 <= a < Z.of_nat n -> f a = 0%R.
Proof.
  intros Hf. assert (G : forall m, (m <= n)%nat -> (0 <= rsum f m)%R).
  { induction m as [|m IH]; intros Hm; cbn [rsum]; [lra|].
    pose proof (IH ltac:(lia)). pose proof (Hf (Z.of_nat m) ltac:(lia)). lra. }
  induction n as [|n IH]; intros H a Ha; [lia|]. cbn [rsum] in H.
  pose proof (G n ltac:(lia)). pose proof (Hf (Z.of_nat n) ltac:(lia)).
  destruct (Z.eq_dec a (Z.of_nat n)) as [->|]; [lra|].
  apply IH; [intros; apply Hf; lia|intros; apply G; lia|lra|lia].
Qed.

Lemma rsum_mul f g n m : (rsum f n * rsum g m)%R = rsum (fun a => rsum (fun b => (f a * g b)%R) m) n.
Proof.
  rewrite Rmult_comm, <- rsum_scal. apply rsum_ext. intros a _. rewrite Rmult_comm. now rewrite rsum_scal.
Qed.

Lemma rsum_delta n : rsum (fun a => rsum (fun b => if a =? b then 1%R else 0%R) n) n = INR n.
Proof.
  rewrite (rsum_ext _ (fun _ => 1%R)).
  - induction n as [|n IH]; [reflexivity|]. cbn [rsum]. rewrite IH. now rewrite S_INR.
  - intros a Ha. rewrite (rsum_single _ _ a) by (try lia; intros b Hb Hn; now replace (a =? b) with false by lia).
    now rewrite Z.eqb_refl.
Qed.

Lemma left_right_inverse n (M : Z -> Z -> R) :
  (forall a b, 0 <= a < Z.of_nat n -> 0 <= b < Z.of_nat n ->
     rsum (fun c => (M a c * M b c)%R) n = if a =? b then 1%R else 0%R) ->
  forall c d, 0 <= c < Z.of_nat n -> 0 <= d < Z.of_nat n ->
     rsum (fun a => (M a c * M a d)%R) n = if c =? d then 1%R else 0%R.
Proof.
  intros HM. set (P := fun c d => rsum (fun a => (M a c * M a d)%R) n).
  set (D := fun c d : Z => if c =? d then 1%R else 0%R).
  assert (T : rsum (fun c => rsum (fun d => ((D c d - P c d) * (D c d - P c d))%R) n) n = 0%R).
  { assert (E1 : rsum (fun c => P c c) n = INR n).
    { unfold P. rewrite rsum_swap. rewrite (rsum_ext _ (fun _ => 1%R)).
      - clear. induction n as [|n IH]; [reflexivity|]. cbn [rsum]. rewrite IH. now rewrite S_INR.
      - intros a Ha. rewrite HM by lia. now rewrite Z.eqb_refl. }
    assert (E2 : rsum (fun c => rsum (fun d => (P c d * P c d)%R) n) n = INR n).
    { transitivity (rsum (fun a => rsum (fun b => (D a b * D a b)%R) n) n).
      - transitivity (rsum (fun c => rsum (fun d => rsum (fun a => rsum (fun b =>
            (M a c * M b c * (M a d * M b d))%R) n) n) n) n).
        { apply rsum_ext. intros c _. apply rsum_ext. intros d _. unfold P. rewrite rsum_mul.
          apply rsum_ext. intros a _. apply rsum_ext. intros b _. ring. }
        transitivity (rsum (fun c => rsum (fun a => rsum (fun b => rsum (fun d =>
            (M a c * M b c * (M a d * M b d))%R) n) n) n) n).
        { apply rsum_ext. intros c _. rewrite rsum_swap. apply rsum_ext. intros a _. apply rsum_swap. }
        rewrite rsum_swap. apply rsum_ext. intros a Ha. rewrite rsum_swap. apply rsum_ext. intros b Hb.
        unfold D. rewrite <- (HM a b) by assumption. now rewrite rsum_mul.
      - rewrite <- rsum_delta. apply rsum_ext. intros a _. apply rsum_ext. intros b _. unfold D.
        destruct (a =? b); ring. }
    transitivity (rsum (fun c => (rsum (fun d => D c d) n + (-2) * P c c + rsum (fun d => (P c d * P c d)%R) n)%R) n).
    - apply rsum_ext. intros c Hc.
      replace ((-2) * P c c)%R with (rsum (fun d => ((-2) * (D c d * P c d))%R) n).
      + rewrite <- !rsum_plus. apply rsum_ext. intros d _. unfold D. destruct (c =? d); ring.
      + rewrite rsum_scal. f_equal.
        rewrite (rsum_single _ _ c) by (try lia; intros d Hd Hn; unfold D; replace (c =? d) with false by lia; ring).
        unfold D. rewrite Z.eqb_refl. ring.
    - rewrite !rsum_plus, rsum_scal, E1, E2. unfold D. rewrite rsum_delta. ring. }
  intros c d Hc Hd.
  assert (S1 : rsum (fun d => ((D c d - P c d) * (D c d - P c d))%R) n = 0%R).
  { apply (rsum_nonneg_zero (fun c => rsum (fun d => ((D c d - P c d) * (D c d - P c d))%R) n) n); [|exact T|exact Hc].
    intros a _. generalize n. induction n0 as [|m IH]; cbn [rsum]; [lra|].
    pose proof (Rle_0_sqr (D a (Z.of_nat m) - P a (Z.of_nat m))). unfold Rsqr in *. lra. }
  pose proof (rsum_nonneg_zero _ n (fun b _ => Rle_0_sqr (D c b - P c b)) S1 d Hd) as S2.
  apply Rsqr_0_uniq in S2. unfold P, D in S2. lra.
Qed.

Lemma ip_delta j1 j2 p p' N : 0 <= p -> p <= j1 -> p <= j2 -> 0 <= N - p <= j1 + j2 - 2 * p ->
  0 <= p' -> p' <= j1 -> p' <= j2 -> 0 <= N - p' <= j1 + j2 - 2 * p' ->
  (cst j1 j2 p (N - p) * cst j1 j2 p' (N - p')
   * ip j1 j2 N (desc j1 j2 p (Z.to_nat (N - p))) (desc j1 j2 p' (Z.to_nat (N - p'))))%R
  = if p =? p' then 1%R else 0%R.
Proof.
  intros Hp Hp1 Hp2 Hk Hp' Hp1' Hp2' Hk'.
  destruct (Z.eqb_spec p p') as [<-|Np].
  - pose proof (cst_sq j1 j2 p (N - p) Hp Hp1 Hp2 Hk) as H.
    replace (p + (N - p)) with N in H by ring. exact H.
  - destruct (Z_lt_dec p p').
    + pose proof (ip_orthogonal j1 j2 p (Z.to_nat (N - p)) p' (Z.to_nat (N - p')) ltac:(lia) ltac:(lia) ltac:(lia) ltac:(lia)) as HO.
      rewrite !Z2Nat.id in HO by lia. replace (p + (N - p)) with N in HO by ring. rewrite HO by lia. ring.
    + pose proof (ip_orthogonal j1 j2 p' (Z.to_nat (N - p')) p (Z.to_nat (N - p)) ltac:(lia) ltac:(lia) ltac:(lia) ltac:(lia)) as HO.
      rewrite !Z2Nat.id in HO by lia. replace (p' + (N - p')) with N in HO by ring.
      rewrite ip_sym, HO by lia. ring.
Qed.

Lemma rsum_shift f s n : (forall a, 0 <= a < Z.of_nat s -> f a = 0%R) ->
  rsum f (s + n) = rsum (fun c => f (c + Z.of_nat s)) n.
Proof.
  revert f. induction s as [|s IH]; intros f Hf.
  - apply rsum_ext. intros a _. f_equal. lia.
  - change (S s + n)%nat with (S (s + n)). rewrite rsum_front. rewrite (Hf 0) by lia.
    rewrite (IH (fun k => f (k + 1))) by (intros; apply Hf; lia).
    rewrite Rplus_0_l. apply rsum_ext. intros a _. f_equal. lia.
Qed.

(** Completeness: the coupled states span the product space. *)
Theorem C50_complete : forall j1 j2 m1 m2 m1' m2',
  In m1 (projections j1) -> In m2 (projections j2) ->
  In m1' (projections j1) -> In m2' (projections j2) ->
  Rsum (fun j3 => Rsum (fun m3 =>
      (cg j1 m1 j2 m2 j3 m3 * cg j1 m1' j2 m2' j3 m3)%R) (projections j3)) (totals j1 j2)
  = (if (m1 =? m1') && (m2 =? m2') then 1 else 0)%R.
Proof.
  intros j1 j2 m1 m2 m1' m2' A B A' B'. apply in_proj in A, B, A', B'.
  destruct A as (i & Hi & ->). destruct B as (l & Hl & ->). destruct A' as (i' & Hi' & ->). destruct B' as (l' & Hl' & ->).
  rewrite Rsum_tot.
  rewrite (rsum_ext _ (fun p => rsum (fun k =>
     cg j1 (j1 - 2 * i) j2 (j2 - 2 * l) (j1 + j2 - 2 * p) (j1 + j2 - 2 * p - 2 * k)
     * cg j1 (j1 - 2 * i') j2 (j2 - 2 * l') (j1 + j2 - 2 * p) (j1 + j2 - 2 * p - 2 * k))%R
     (Z.to_nat (j1 + j2 - 2 * p + 1)))) by (intros; apply Rsum_proj).
  destruct (Z.eq_dec (i + l) (i' + l')) as [E|E].
  2:{ replace ((j1 - 2 * i =? j1 - 2 * i') && (j2 - 2 * l =? j2 - 2 * l')) with false by lia.
      apply rsum_zero. intros p Hp. apply rsum_zero. intros k Hk.
      destruct (Z.eq_dec (i + l) (p + k)).
      - rewrite (cg_zero j1 (j1 - 2 * i')); [ring|]. unfold selected. lia.
      - rewrite cg_zero; [ring|]. unfold selected. lia. }
  set (N := i + l). set (s := Z.max 0 (N - j2)).
  set (n := Z.to_nat (Z.min (Z.min j1 j2) (Z.min N (j1 + j2 - N)) + 1)).
  set (M := fun p c => cg j1 (j1 - 2 * (c + s)) j2 (j2 - 2 * (N - (c + s))) (j1 + j2 - 2 * p)
                          (j1 + j2 - 2 * p - 2 * (N - p))).
  transitivity (rsum (fun p => (M p (i - s)%Z * M p (i' - s)%Z)%R) n).
  - transitivity (rsum (fun p => if p <? Z.of_nat n then (M p (i - s)%Z * M p (i' - s)%Z)%R else 0%R)
                    (Z.to_nat (Z.min j1 j2 + 1))).
    + apply rsum_ext. intros p Hp.
      assert (Z0 : forall k, k <> N - p ->
        (cg j1 (j1 - 2 * i) j2 (j2 - 2 * l) (j1 + j2 - 2 * p) (j1 + j2 - 2 * p - 2 * k)
         * cg j1 (j1 - 2 * i') j2 (j2 - 2 * l') (j1 + j2 - 2 * p) (j1 + j2 - 2 * p - 2 * k) = 0)%R).
      { intros k Hk. rewrite cg_zero; [ring|]. unfold selected. lia. }
      destruct (p <? Z.of_nat n) eqn:C.
      * rewrite (rsum_single _ _ (N - p)) by (try lia; intros; apply Z0; assumption). unfold M.
        replace (i - s + s) with i by ring. replace (i' - s + s) with i' by ring.
        replace (N - i) with l by lia. replace (N - i') with l' by lia. reflexivity.
      * apply rsum_zero. intros k Hk. apply Z0. lia.
    + transitivity (rsum (fun p => if p <? Z.of_nat n then (M p (i - s)%Z * M p (i' - s)%Z)%R else 0%R) n).
      * apply rsum_cut; [lia|]. intros p Hp. now replace (p <? Z.of_nat n) with false by lia.
      * apply rsum_ext. intros p Hp. now replace (p <? Z.of_nat n) with true by lia.
  - assert (HM : forall a b, 0 <= a < Z.of_nat n -> 0 <= b < Z.of_nat n ->
      rsum (fun c => (M a c * M b c)%R) n = if a =? b then 1%R else 0%R).
    { intros a b Ha Hb. rewrite <- (ip_delta j1 j2 a b N) by lia. unfold ip. rewrite <- rsum_scal. symmetry.
      set (h := fun q => (cst j1 j2 a (N - a) * cst j1 j2 b (N - b) *
         (W j1 j2 N q * desc j1 j2 a (Z.to_nat (N - a)) q * desc j1 j2 b (Z.to_nat (N - b)) q))%R).
      transitivity (rsum h (Z.to_nat s + n)).
      - apply rsum_cut; [lia|]. intros q Hq. unfold h, W. rewrite (rf_neg (j1 - q)) by lia. ring.
      - rewrite rsum_shift by (intros q Hq; unfold h, W; rewrite (rf_neg (j2 - (N - q))) by lia; ring).
        apply rsum_ext. intros c Hc. unfold M, h. rewrite Z2Nat.id by lia.
        rewrite !cg_down by lia.
        replace (a + (N - a)) with N by ring. replace (b + (N - b)) with N by ring.
        set (w := W j1 j2 N (c + s)).
        assert (Hw : (0 < w)%R) by (apply W_pos; lia).
        pose proof (sqrt_sqrt w (Rlt_le _ _ Hw)) as Hs. remember (sqrt w) as sw eqn:Esw. rewrite <- Hs. ring. }
    rewrite (left_right_inverse n M HM) by lia.
    destruct (Z.eqb_spec (i - s) (i' - s)).
    + now replace ((j1 - 2 * i =? j1 - 2 * i') && (j2 - 2 * l =? j2 - 2 * l')) with true by lia.
    + now replace ((j1 - 2 * i =? j1 - 2 * i') && (j2 - 2 * l =? j2 - 2 * l')) with false by lia.
Qed.

(** ** The ladder relation and the phase convention *)
Lemma cst_step j1 j2 p k : 0 <= p -> p <= j1 -> p <= j2 -> 0 <= k < j1 + j2 - 2 * p ->
  (sqrt (IZR ((j1 + j2 - 2 * p - k) * (k + 1))) * cst j1 j2 p (k + 1) = cst j1 j2 p k)%R.
Proof.
  intros Hp Hp1 Hp2 Hk. unfold cst. set (J := j1 + j2 - 2 * p) in *.
  assert (0 < IZR (J + 1))%R by (apply (IZR_lt 0); lia).
  assert (H1 : (0 < IZR (k + 1))%R) by (apply (IZR_lt 0); lia).
  assert (H2 : (0 < IZR (J - k))%R) by (apply (IZR_lt 0); lia).
  pose proof (fac_pos p). pose proof (fac_pos (J - (k + 1))). pose proof (fac_pos k).
  pose proof (fac_pos (j1 + j2 - p + 1)). pose proof (fac_pos (j1 - p)). pose proof (fac_pos (j2 - p)).
  rewrite <- sqrt_mult_alt by (apply (IZR_le 0); nia).
  f_equal. rewrite mult_IZR, (fac_succ k) by lia.
  replace (J - k) with (J - (k + 1) + 1) at 2 by ring. rewrite (fac_succ (J - (k + 1))) by lia.
  replace (J - (k + 1) + 1) with (J - k) by ring.
  field. repeat split; lra.
Qed.

Lemma rf_ge n : (0 <= rf n)%R.
Proof.
  unfold rf. destruct (n <? 0); [lra|]. apply Rlt_le, Rinv_0_lt_compat, fac_pos.
Qed.

Lemma W_ge j1 j2 N i : (0 <= W j1 j2 N i)%R.
Proof. unfold W. repeat apply Rmult_le_pos; try apply rf_ge; apply Rlt_le, fac_pos. Qed.

Lemma desc_bottom j1 j2 p i : 0 <= p -> p <= j1 -> p <= j2 -> 0 <= i <= j1 ->
  0 <= j1 + j2 - p + 1 - i <= j2 ->
  desc j1 j2 p (S (Z.to_nat (j1 + j2 - 2 * p))) i = 0%R.
Proof.
  intros Hp Hp1 Hp2 Hi Hl. set (k := Z.to_nat (j1 + j2 - 2 * p)).
  assert (K : Z.of_nat k = j1 + j2 - 2 * p) by lia.
  pose proof (ip_step j1 j2 p k p k Hp Hp Hp1 Hp2 eq_refl) as HS.
  rewrite K in HS. replace (j1 + j2 - 2 * p - (j1 + j2 - 2 * p)) with 0 in HS by ring.
  rewrite Z.mul_0_r, Rmult_0_l in HS. unfold ip in HS.
  assert (HZ : (W j1 j2 (p + Z.of_nat (S k)) i * desc j1 j2 p (S k) i * desc j1 j2 p (S k) i = 0)%R).
  { refine (rsum_nonneg_zero _ _ _ HS i _); [|lia]. intros a _. rewrite Rmult_assoc.
    apply Rmult_le_pos; [apply W_ge|apply Rle_0_sqr]. }
  pose proof (W_pos j1 j2 (p + Z.of_nat (S k)) i Hi ltac:(lia)) as HW.
  apply Rmult_integral in HZ. destruct HZ as [HZ|HZ]; [|exact HZ].
  apply Rmult_integral in HZ. destruct HZ as [HZ|HZ]; [lra|exact HZ].
Qed.

(** Lowering the total projection lowers one of the two projections:
    J-|j3 m3> = (J1- + J2-)|j3 m3>, with J-|j m> = sqrt((j+m)(j-m+1))|j m-1>
    (twice the numbers: every root is doubled).  It includes m3 = -j3, where
    the left factor is 0. *)
Theorem C50_lowering : forall j1 j2 j3 m1 m2 m3,
  In j3 (totals j1 j2) -> In m3 (projections j3) ->
  In m1 (projections j1) -> In m2 (projections j2) -> m1 + m2 = m3 - 2 ->
  (sqrt (IZR ((j3 + m3) * (j3 - m3 + 2))) * cg j1 m1 j2 m2 j3 (m3 - 2)
   = sqrt (IZR ((j1 - m1) * (j1 + m1 + 2))) * cg j1 (m1 + 2) j2 m2 j3 m3
     + sqrt (IZR ((j2 - m2) * (j2 + m2 + 2))) * cg j1 m1 j2 (m2 + 2) j3 m3)%R.
Proof.
  intros j1 j2 j3 m1 m2 m3 HT HM H1 H2 HE.
  apply in_tot in HT. destruct HT as (p & Hp & Hp1 & Hp2 & ->).
  apply in_proj in HM, H1, H2. destruct HM as (k & Hk & ->). destruct H1 as (i & Hi & ->). destruct H2 as (l & Hl & ->).
  set (J := j1 + j2 - 2 * p) in *. set (N := p + k).
  assert (EN : i + l = N + 1) by lia.
  set (d := desc j1 j2 p (Z.to_nat k)).
  assert (SD : supp N d).
  { pose proof (desc_supp j1 j2 p (Z.to_nat k)) as H. rewrite Z2Nat.id in H by lia. exact H. }
  assert (E4 : forall x, 0 <= x -> sqrt (IZR (4 * x)) = (2 * sqrt (IZR x))%R).
  { intros x Hx. rewrite mult_IZR, sqrt_mult by (apply (IZR_le 0); lia).
    replace 4%R with (2 * 2)%R by ring. rewrite sqrt_square by lra. reflexivity. }
  replace ((J + (J - 2 * k)) * (J - (J - 2 * k) + 2)) with (4 * ((J - k) * (k + 1))) by ring.
  replace ((j1 - (j1 - 2 * i)) * (j1 + (j1 - 2 * i) + 2)) with (4 * (i * (j1 - i + 1))) by ring.
  replace ((j2 - (j2 - 2 * l)) * (j2 + (j2 - 2 * l) + 2)) with (4 * (l * (j2 - l + 1))) by ring.
  rewrite !E4 by nia.
  assert (R1 : (sqrt (IZR (i * (j1 - i + 1))) * cg j1 (j1 - 2 * i + 2) j2 (j2 - 2 * l) J (J - 2 * k)
                = sqrt (W j1 j2 (N + 1) i) * cst j1 j2 p k * d (i - 1)%Z)%R).
  { destruct (Z.eq_dec i 0) as [->|Ni].
    - rewrite Z.mul_0_l, sqrt_0. rewrite (SD (0 - 1)) by lia. ring.
    - replace (j1 - 2 * i + 2) with (j1 - 2 * (i - 1)) by ring. unfold J. rewrite cg_down by lia. fold N d.
      pose proof (W_first j1 j2 N (i - 1) ltac:(lia)) as HW. replace (i - 1 + 1) with i in HW by ring.
      replace (j1 - (i - 1)) with (j1 - i + 1) in HW by ring. rewrite HW.
      rewrite sqrt_mult; [ring|apply (IZR_le 0); nia|apply W_ge]. }
  assert (R2 : (sqrt (IZR (l * (j2 - l + 1))) * cg j1 (j1 - 2 * i) j2 (j2 - 2 * l + 2) J (J - 2 * k)
                = sqrt (W j1 j2 (N + 1) i) * cst j1 j2 p k * d i)%R).
  { destruct (Z.eq_dec l 0) as [->|Nl].
    - rewrite Z.mul_0_l, sqrt_0. rewrite (SD i) by lia. ring.
    - replace (j2 - 2 * l + 2) with (j2 - 2 * (l - 1)) by ring. unfold J. rewrite cg_down by lia. fold N d.
      pose proof (W_second j1 j2 N i ltac:(lia)) as HW. replace (N - i + 1) with l in HW by lia.
      replace (j2 - (N - i)) with (j2 - l + 1) in HW by lia. rewrite HW.
      rewrite sqrt_mult; [ring|apply (IZR_le 0); nia|apply W_ge]. }
  assert (R3 : (sqrt (IZR ((J - k) * (k + 1))) * cg j1 (j1 - 2 * i) j2 (j2 - 2 * l) J (J - 2 * k - 2)
                = sqrt (W j1 j2 (N + 1) i) * cst j1 j2 p k * (d (i - 1)%Z + d i))%R).
  { assert (HL : desc j1 j2 p (Z.to_nat (k + 1)) i = (d (i - 1)%Z + d i)%R).
    { replace (Z.to_nat (k + 1)) with (S (Z.to_nat k)) by lia. reflexivity. }
    destruct (Z.eq_dec k J) as [->|Nk].
    - replace (J - J) with 0 by ring. rewrite Z.mul_0_l, sqrt_0.
      rewrite <- HL. replace (Z.to_nat (J + 1)) with (S (Z.to_nat J)) by lia. unfold J.
      rewrite desc_bottom by lia. ring.
    - rewrite <- HL. replace (J - 2 * k - 2) with (J - 2 * (k + 1)) by ring. unfold J.
      rewrite cg_down by lia. replace (p + (k + 1)) with (N + 1) by lia.
      rewrite <- (cst_step j1 j2 p k) by lia. ring. }
  replace (2 * sqrt (IZR ((J - k) * (k + 1))) * cg j1 (j1 - 2 * i) j2 (j2 - 2 * l) J (J - 2 * k - 2))%R
    with (2 * (sqrt (IZR ((J - k) * (k + 1))) * cg j1 (j1 - 2 * i) j2 (j2 - 2 * l) J (J - 2 * k - 2)))%R by ring.
  rewrite R3.
  replace (2 * sqrt (IZR (i * (j1 - i + 1))) * cg j1 (j1 - 2 * i + 2) j2 (j2 - 2 * l) J (J - 2 * k))%R
    with (2 * (sqrt (IZR (i * (j1 - i + 1))) * cg j1 (j1 - 2 * i + 2) j2 (j2 - 2 * l) J (J - 2 * k)))%R by ring.
  rewrite R1.
  replace (2 * sqrt (IZR (l * (j2 - l + 1))) * cg j1 (j1 - 2 * i) j2 (j2 - 2 * l + 2) J (J - 2 * k))%R
    with (2 * (sqrt (IZR (l * (j2 - l + 1))) * cg j1 (j1 - 2 * i) j2 (j2 - 2 * l + 2) J (J - 2 * k)))%R by ring.
  rewrite R2. ring.
Qed.

(** Condon-Shortley phase: <j1 j1; j2 (j3-j1) | j3 j3> > 0. *)
Theorem C50_phase : forall j1 j2 j3, In j3 (totals j1 j2) ->
  (0 < cg j1 j1 j2 (j3 - j1) j3 j3)%R.
Proof.
  intros j1 j2 j3 HT. apply in_tot in HT. destruct HT as (p & Hp & Hp1 & Hp2 & ->).
  pose proof (cg_down j1 j2 0 p p 0 ltac:(lia) ltac:(lia) Hp Hp1 Hp2 ltac:(lia) ltac:(lia)) as H.
  replace (j1 - 2 * 0) with j1 in H by ring.
  replace (j1 + j2 - 2 * p - 2 * 0) with (j1 + j2 - 2 * p) in H by ring.
  replace (j1 + j2 - 2 * p - j1) with (j2 - 2 * p) by ring. rewrite H.
  change (desc j1 j2 p (Z.to_nat 0)) with (top j1 j2 p).
  assert (0 < IZR (j1 + j2 - 2 * p + 1))%R by (apply (IZR_lt 0); lia).
  apply Rmult_lt_0_compat; [apply Rmult_lt_0_compat|].
  - apply sqrt_lt_R0. apply W_pos; lia.
  - apply sqrt_lt_R0. unfold Rdiv.
    repeat apply Rmult_lt_0_compat; try apply fac_pos; try apply Rinv_0_lt_compat;
      repeat apply Rmult_lt_0_compat; try apply fac_pos; assumption.
  - unfold top. rewrite !rf_nonneg by lia. change (sg 0) with 1%R.
    repeat apply Rmult_lt_0_compat; try apply fac_pos; try (apply Rinv_0_lt_compat, fac_pos). lra.
Qed.

(** 1 x 1/2 -> 3/2: the hypotheses hold, and the labels are not all integer. *)
Example C50_case :
  totals 2 1 = [3; 1] /\ projections 3 = [3; 1; -1; -3] /\ projections 2 = [2; 0; -2].
Proof. repeat split. Qed.

Example C15_case :
  CG_SO3 (1 # 1) (0 # 1) (1 # 1) (0 # 1) (1 # 1) (1 # 1) = Ok (Some 0%R)
  /\ CG_SO3 (1 # 3) (0 # 1) (1 # 1) (0 # 1) (1 # 1) (1 # 1) = Raise ValueError
  /\ exists x, CG_SO3 (1 # 2) (1 # 2) (2 # 4) (- 1 # 2) (1 # 1) (0 # 1) = Ok (Some x).
Proof.
  split; [|split].
  - apply (C15_selection_rules _ _ _ _ _ _ 2 0 2 0 2 2); try reflexivity. lia.
  - apply C15_not_half_integer_raises. intros (j1 & m1 & j2 & m2 & j3 & m3 & H & _).
    unfold Qeq in H. cbn in H. lia.
  - apply (C15_total _ _ _ _ _ _ 1 1 1 (-1) 2 0); try reflexivity; cbn; lia.
Qed.

Print Assumptions C15_not_half_integer_raises.
Print Assumptions C15_selection_rules.
Print Assumptions C15_total.
Print Assumptions C50_orthonormal.
Print Assumptions C50_complete.
Print Assumptions C50_lowering.
Print Assumptions C50_phase.
