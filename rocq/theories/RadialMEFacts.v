(** Closed forms and identities of the radial matrix elements. *)

From Coq Require Import Reals Lia ZifyBool ZifyNat Lra.
From Verif Require Import PyBase PyFacts Compat Matrix RadialME RadialMESpec.
Open Scope Z_scope.
Ltac Zify.zify_post_hook ::= Z.div_mod_to_equations.

(** ** Sums *)

Lemma rsum_ext f g n : (forall k, 0 <= k < Z.of_nat n -> f k = g k) -> rsum f n = rsum g n.
Proof.
  induction n as [|n IH]; intros H; [reflexivity|]. cbn [rsum].
  rewrite IH by (intros; apply H; lia). rewrite (H (Z.of_nat n)) by lia. reflexivity.
Qed.

Lemma rsum_zero f n : (forall k, 0 <= k < Z.of_nat n -> f k = 0%R) -> rsum f n = 0%R.
Proof.
  induction n as [|n IH]; intros H; [reflexivity|]. cbn [rsum].
  rewrite IH by (intros; apply H; lia). rewrite (H (Z.of_nat n)) by lia. lra.
Qed.

Lemma rsum_cut f n m : (m <= n)%nat ->
  (forall k, Z.of_nat m <= k < Z.of_nat n -> f k = 0%R) -> rsum f n = rsum f m.
Proof.
  induction 1 as [|n Hle IH]; intros H; [reflexivity|]. cbn [rsum].
  rewrite IH by (intros; apply H; lia). rewrite (H (Z.of_nat n)) by lia. lra.
Qed.

Lemma rsum_single f n k0 : 0 <= k0 < Z.of_nat n ->
  (forall k, 0 <= k < Z.of_nat n -> k <> k0 -> f k = 0%R) -> rsum f n = f k0.
Proof.
  intros Hk H.
  rewrite (rsum_cut f n (Z.to_nat (k0 + 1))) by (intros; try apply H; lia).
  replace (Z.to_nat (k0 + 1)) with (S (Z.to_nat k0)) by lia. cbn [rsum].
  rewrite rsum_zero by (intros; apply H; lia).
  replace (Z.of_nat (Z.to_nat k0)) with k0 by lia. lra.
Qed.

Lemma rsum_two f n k0 : 0 <= k0 -> k0 + 1 < Z.of_nat n ->
  (forall k, 0 <= k < Z.of_nat n -> k <> k0 -> k <> k0 + 1 -> f k = 0%R) ->
  rsum f n = (f k0 + f (k0 + 1)%Z)%R.
Proof.
  intros Hk Hn H.
  rewrite (rsum_cut f n (Z.to_nat (k0 + 2))) by (intros; try apply H; lia).
  replace (Z.to_nat (k0 + 2)) with (S (Z.to_nat (k0 + 1))) by lia. cbn [rsum].
  rewrite (rsum_single f (Z.to_nat (k0 + 1)) k0) by (intros; try apply H; lia).
  replace (Z.of_nat (Z.to_nat (k0 + 1))) with (k0 + 1) by lia. lra.
Qed.

Lemma rsum_scal c f n : rsum (fun k => (c * f k)%R) n = (c * rsum f n)%R.
Proof. induction n as [|n IH]; cbn [rsum]; [lra|]. rewrite IH. lra. Qed.

Lemma rsum_plus f g n : rsum (fun k => (f k + g k)%R) n = (rsum f n + rsum g n)%R.
Proof. induction n as [|n IH]; cbn [rsum]; [lra|]. rewrite IH. lra. Qed.

(** ** Signs *)

Definition sg (k : Z) : R := if Z.even k then 1%R else (-1)%R.

Lemma sg_sq k : (sg k * sg k = 1)%R.
Proof. unfold sg. destruct (Z.even k); lra. Qed.

Lemma sg_succ k : sg (k + 1) = (- sg k)%R.
Proof. unfold sg. rewrite Z.add_1_r, Z.even_succ, <- Z.negb_even. destruct (Z.even k); cbn; lra. Qed.

Lemma sg_pred k : sg (k - 1) = (- sg k)%R.
Proof. pose proof (sg_succ (k - 1)) as H. rewrite Z.sub_add in H. lra. Qed.

Lemma sg_add a b : sg (a + b) = (sg a * sg b)%R.
Proof.
  unfold sg. rewrite Z.even_add. destruct (Z.even a), (Z.even b); cbn; lra.
Qed.

Lemma sg_opp a : sg (- a) = sg a.
Proof. unfold sg. now rewrite Z.even_opp. Qed.

Lemma m1pow_nat n : powerRZ (-1) (Z.of_nat n) = sg (Z.of_nat n).
Proof.
  rewrite <- pow_powerRZ. induction n as [|n IH]; [reflexivity|].
  rewrite Nat2Z.inj_succ, <- Z.add_1_r, sg_succ, <- IH. cbn [pow]. lra.
Qed.

Lemma m1pow_sg k : m1pow k = sg k.
Proof.
  unfold m1pow. destruct k as [|p|p]; [reflexivity| |].
  - replace (Z.pos p) with (Z.of_nat (Pos.to_nat p)) by lia. apply m1pow_nat.
  - cbn [powerRZ]. replace ((-1) ^ Pos.to_nat p)%R with (powerRZ (-1) (Z.of_nat (Pos.to_nat p)))
      by now rewrite <- pow_powerRZ.
    rewrite m1pow_nat. replace (Z.neg p) with (- Z.of_nat (Pos.to_nat p)) by lia.
    rewrite sg_opp. unfold sg. destruct (Z.even _); field.
Qed.

Lemma m1pow_sub f i : m1pow (f - i) = (sg f * sg i)%R.
Proof. rewrite m1pow_sg. unfold Z.sub. now rewrite sg_add, sg_opp. Qed.

Lemma math_sqrt_ok x : (0 <= x)%R -> math_sqrt x = Ok (sqrt x).
Proof. intros H. unfold math_sqrt. destruct (Rlt_dec x 0); [lra|reflexivity]. Qed.

Lemma IZR_nonneg m : 0 <= m -> (0 <= IZR m)%R.
Proof. apply IZR_le. Qed.

(** ** SU(1,1) *)

(** p(i) = sqrt((lambda+i)(i+1)), the element of S+ from i to i+1. *)
Definition pv (lam : R) (i : Z) : R := sqrt ((lam + IZR i) * (IZR i + 1)).

Lemma pv_sq lam i : (0 < lam)%R -> 0 <= i ->
  (pv lam i * pv lam i = (lam + IZR i) * (IZR i + 1))%R.
Proof.
  intros Hl Hi. apply sqrt_sqrt. apply IZR_nonneg in Hi. nra.
Qed.

Lemma pv_m1 lam : pv lam (-1) = 0%R.
Proof. unfold pv. replace ((lam + -1) * (-1 + 1))%R with 0%R by lra. apply sqrt_0. Qed.

Lemma pv_prev lam i : sqrt ((lam + IZR i - 1) * IZR i) = pv lam (i - 1).
Proof. unfold pv. rewrite minus_IZR. f_equal. ring. Qed.

Definition v_S0 (lam : R) : rmat := fun f i => if f =? i then (lam / 2 + IZR i)%R else 0%R.
Definition v_Sp (lam : R) : rmat := fun f i => if f =? i + 1 then pv lam i else 0%R.
Definition v_Sm (lam : R) : rmat := fun f i => if f =? i - 1 then pv lam f else 0%R.
Definition v_b2 (lam : R) : rmat := fun f i =>
  if f =? i - 1 then pv lam f else if f =? i then (lam + 2 * IZR i)%R
  else if f =? i + 1 then pv lam i else 0%R.
Definition v_bDb (lam : R) : rmat := fun f i =>
  if f =? i - 1 then pv lam f else if f =? i then (- (1/2))%R
  else if f =? i + 1 then (- pv lam i)%R else 0%R.

Lemma sqrt_args lam i : (0 < lam)%R -> 0 <= i ->
  (0 <= (lam + IZR i) * (IZR i + 1))%R.
Proof. intros Hl Hi. apply IZR_nonneg in Hi. nra. Qed.

Lemma sqrt_args' lam i : (0 < lam)%R -> 0 < i ->
  (0 <= (lam + IZR i - 1) * IZR i)%R.
Proof. intros Hl Hi. assert (1 <= IZR i)%R by (apply IZR_le; lia). nra. Qed.

Lemma S0_rep lam : represents (ME_Radial_S0 lam) (v_S0 lam).
Proof. intros f i Hf Hi. unfold ME_Radial_S0, v_S0. destruct (f =? i); reflexivity. Qed.

Lemma Sp_rep lam : (0 < lam)%R -> represents (ME_Radial_Sp lam) (v_Sp lam).
Proof.
  intros Hl f i Hf Hi. unfold ME_Radial_Sp, v_Sp, pv. destruct (f =? i + 1); [|reflexivity].
  apply math_sqrt_ok. now apply sqrt_args.
Qed.

Lemma Sm_rep lam : (0 < lam)%R -> represents (ME_Radial_Sm lam) (v_Sm lam).
Proof.
  intros Hl f i Hf Hi. unfold ME_Radial_Sm, v_Sm. destruct (Z.eqb_spec f (i - 1)); [|reflexivity].
  rewrite math_sqrt_ok by (apply sqrt_args'; [assumption|lia]).
  subst f. now rewrite pv_prev.
Qed.

Lemma b2_rep lam : (0 < lam)%R -> represents (ME_Radial_b2 lam) (v_b2 lam).
Proof.
  intros Hl f i Hf Hi. unfold ME_Radial_b2, v_b2.
  destruct (Z.eqb_spec f (i - 1)).
  { rewrite math_sqrt_ok by (apply sqrt_args'; [assumption|lia]). subst f. now rewrite pv_prev. }
  destruct (f =? i); [reflexivity|]. destruct (f =? i + 1); [|reflexivity].
  apply math_sqrt_ok. now apply sqrt_args.
Qed.

Lemma bDb_rep lam : (0 < lam)%R -> represents (ME_Radial_bDb lam) (v_bDb lam).
Proof.
  intros Hl f i Hf Hi. unfold ME_Radial_bDb, v_bDb.
  destruct (Z.eqb_spec f (i - 1)).
  { rewrite math_sqrt_ok by (apply sqrt_args'; [assumption|lia]). subst f. now rewrite pv_prev. }
  destruct (f =? i); [reflexivity|]. destruct (f =? i + 1); [|reflexivity].
  rewrite math_sqrt_ok by now apply sqrt_args. reflexivity.
Qed.

(** ** Products with banded rows *)

(** Row f of A: column f only. *)
Lemma row_diag (A B : rmat) f i N : 0 <= f -> f < Z.of_nat N ->
  (forall k, k <> f -> A f k = 0%R) ->
  rsum (fun k => (A f k * B k i)%R) N = (A f f * B f i)%R.
Proof.
  intros Hf HN HA. rewrite (rsum_single _ _ f); [reflexivity|lia|].
  intros k _ Hk. rewrite HA by assumption. lra.
Qed.

(** Row f of A: columns f and f+1. *)
Lemma row_upper (A B : rmat) f i N : 0 <= f -> f + 1 < Z.of_nat N ->
  (forall k, k <> f -> k <> f + 1 -> A f k = 0%R) ->
  rsum (fun k => (A f k * B k i)%R) N = (A f f * B f i + A f (f + 1)%Z * B (f + 1)%Z i)%R.
Proof.
  intros Hf HN HA. rewrite (rsum_two _ _ f); [reflexivity|lia|lia|].
  intros k _ H1 H2. rewrite HA by assumption. lra.
Qed.

(** Row f of A: columns f-1 and f; [A 0 (-1) = 0] makes row 0 uniform. *)
Lemma row_lower (A B : rmat) f i N : 0 <= f -> f < Z.of_nat N ->
  (forall k, k <> f -> k <> f - 1 -> A f k = 0%R) -> (f = 0 -> A f (f - 1) = 0%R) ->
  rsum (fun k => (A f k * B k i)%R) N = (A f (f - 1)%Z * B (f - 1)%Z i + A f f * B f i)%R.
Proof.
  intros Hf HN HA H0. destruct (Z.eq_dec f 0) as [->|Nf].
  - rewrite (rsum_single _ _ 0); [rewrite H0 by reflexivity; lra|lia|].
    intros k Hk H1. rewrite HA by lia. lra.
  - rewrite (rsum_two _ _ (f - 1)); [now rewrite Z.sub_add|lia|lia|].
    intros k _ H1 H2. rewrite HA by lia. lra.
Qed.

Ltac eqbs := repeat match goal with
  | |- context [?a =? ?b] => destruct (Z.eqb_spec a b); try (exfalso; lia); subst
  end.

Ltac r0 := rewrite ?Rmult_0_l, ?Rmult_0_r, ?Rplus_0_l, ?Rplus_0_r.

Lemma S0_Sp lam : (0 < lam)%R -> forall f i N, 0 <= f -> 0 <= i -> f + 2 <= Z.of_nat N ->
  (rsum (fun k => v_S0 lam f k * v_Sp lam k i) N
   - rsum (fun k => v_Sp lam f k * v_S0 lam k i) N = v_Sp lam f i)%R.
Proof.
  intros Hl f i N Hf Hi HN.
  rewrite row_diag; [|lia|lia|intros k Hk; unfold v_S0; eqbs; reflexivity].
  rewrite row_lower; [|lia|lia| |].
  2: { intros k H1 H2. unfold v_Sp. eqbs. reflexivity. }
  2: { intros ->. unfold v_Sp. cbn. apply pv_m1. }
  unfold v_S0, v_Sp. eqbs; try lra.
  replace (i + 1 - 1) with i in * by lia. rewrite ?plus_IZR. field.
Qed.

Lemma S0_Sm lam : (0 < lam)%R -> forall f i N, 0 <= f -> 0 <= i -> f + 2 <= Z.of_nat N ->
  (rsum (fun k => v_S0 lam f k * v_Sm lam k i) N
   - rsum (fun k => v_Sm lam f k * v_S0 lam k i) N = - v_Sm lam f i)%R.
Proof.
  intros Hl f i N Hf Hi HN.
  rewrite row_diag; [|lia|lia|intros k Hk; unfold v_S0; eqbs; reflexivity].
  rewrite row_upper; [|lia|lia|intros k H1 H2; unfold v_Sm; eqbs; reflexivity].
  unfold v_S0, v_Sm. eqbs; try lra.
  rewrite !minus_IZR. field.
Qed.

Lemma Sm_Sp lam : (0 < lam)%R -> forall f i N, 0 <= f -> 0 <= i -> f + 2 <= Z.of_nat N ->
  (rsum (fun k => v_Sm lam f k * v_Sp lam k i) N
   - rsum (fun k => v_Sp lam f k * v_Sm lam k i) N = 2 * v_S0 lam f i)%R.
Proof.
  intros Hl f i N Hf Hi HN.
  rewrite row_upper; [|lia|lia|intros k H1 H2; unfold v_Sm; eqbs; reflexivity].
  rewrite row_lower; [|lia|lia| |].
  2: { intros k H1 H2. unfold v_Sp. eqbs. reflexivity. }
  2: { intros ->. unfold v_Sp. cbn. apply pv_m1. }
  unfold v_S0, v_Sm, v_Sp. eqbs; try lra.
  rewrite pv_sq by (assumption || lia).
  destruct (Z.eq_dec i 0) as [->|Ni].
  - replace (0 - 1) with (-1) by lia. rewrite pv_m1. lra.
  - rewrite pv_sq by (assumption || lia). rewrite minus_IZR. field.
Qed.

Lemma casimir lam : (0 < lam)%R -> forall f i N, 0 <= f -> 0 <= i -> f + 2 <= Z.of_nat N ->
  (rsum (fun k => v_S0 lam f k * v_S0 lam k i) N - v_S0 lam f i
   - rsum (fun k => v_Sp lam f k * v_Sm lam k i) N = lam / 2 * (lam / 2 - 1) * rid f i)%R.
Proof.
  intros Hl f i N Hf Hi HN.
  rewrite row_diag; [|lia|lia|intros k Hk; unfold v_S0; eqbs; reflexivity].
  rewrite row_lower; [|lia|lia| |].
  2: { intros k H1 H2. unfold v_Sp. eqbs. reflexivity. }
  2: { intros ->. unfold v_Sp. cbn. apply pv_m1. }
  unfold v_S0, v_Sm, v_Sp, rid. eqbs; try lra.
  destruct (Z.eq_dec i 0) as [->|Ni].
  - replace (0 - 1) with (-1) by lia. rewrite pv_m1. field.
  - rewrite pv_sq by (assumption || lia). rewrite minus_IZR. field.
Qed.

(** ** beta ladders *)

Definition v_b_pl (lam : R) : rmat := fun f i =>
  if f =? i - 1 then sqrt (IZR i) else if f =? i then sqrt (lam + IZR i) else 0%R.
Definition v_b_ml (lam : R) : rmat := fun f i =>
  if f =? i + 1 then sqrt (IZR f) else if f =? i then sqrt (lam - 1 + IZR i) else 0%R.

Lemma b_pl_rep lam : (0 < lam)%R -> represents (ME_Radial_b_pl lam) (v_b_pl lam).
Proof.
  intros Hl f i Hf Hi. unfold ME_Radial_b_pl, v_b_pl. apply IZR_nonneg in Hi.
  destruct (f =? i - 1); [apply math_sqrt_ok; lra|].
  destruct (f =? i); [apply math_sqrt_ok; lra|reflexivity].
Qed.

Lemma b_ml_rep lam : (1 < lam)%R -> represents (ME_Radial_b_ml lam) (v_b_ml lam).
Proof.
  intros Hl f i Hf Hi. unfold ME_Radial_b_ml, v_b_ml. apply IZR_nonneg in Hi, Hf.
  destruct (f =? i + 1); [apply math_sqrt_ok; lra|].
  destruct (f =? i); [|reflexivity].
  rewrite math_sqrt_ok by lra. do 2 f_equal. ring.
Qed.

Lemma b_pl_ml_tr lam : req (v_b_ml (lam + 1)) (rtr (v_b_pl lam)).
Proof.
  intros f i Hf Hi. unfold v_b_ml, v_b_pl, rtr. eqbs; try reflexivity.
  f_equal. ring.
Qed.

Lemma sqrt_mul x y : (0 <= x)%R -> (0 <= y)%R -> (sqrt x * sqrt y = sqrt (x * y))%R.
Proof. intros. symmetry. now apply sqrt_mult. Qed.

(** beta (lambda+1 -> lambda) after beta (lambda -> lambda+1). *)
Lemma b_ml_b_pl lam : (0 < lam)%R -> prod_is (v_b_ml (lam + 1)) (v_b_pl lam) (v_b2 lam).
Proof.
  intros Hl f i N Hf Hi HN.
  rewrite row_lower; [|lia|lia| |].
  2: { intros k H1 H2. unfold v_b_ml. eqbs. reflexivity. }
  2: { intros ->. unfold v_b_ml. cbn. apply sqrt_0. }
  unfold v_b_ml, v_b_pl, v_b2, pv. replace (lam + 1 - 1)%R with lam by ring.
  pose proof (IZR_nonneg _ Hf). pose proof (IZR_nonneg _ Hi).
  eqbs; try lra; rewrite ?plus_IZR, ?minus_IZR in *; r0;
    rewrite ?sqrt_sqrt by lra; rewrite ?sqrt_mul by lra; try (f_equal; ring); ring.
Qed.

(** beta (lambda-1 -> lambda) after beta (lambda -> lambda-1). *)
Lemma b_pl_b_ml lam : (1 < lam)%R -> prod_is (v_b_pl (lam - 1)) (v_b_ml lam) (v_b2 lam).
Proof.
  intros Hl f i N Hf Hi HN.
  rewrite row_upper; [|lia|lia|intros k H1 H2; unfold v_b_pl; eqbs; reflexivity].
  unfold v_b_ml, v_b_pl, v_b2, pv.
  pose proof (IZR_nonneg _ Hf). pose proof (IZR_nonneg _ Hi).
  eqbs; try lra; rewrite ?plus_IZR, ?minus_IZR in *; r0;
    rewrite ?sqrt_sqrt by lra; rewrite ?sqrt_mul by lra; try (f_equal; ring); ring.
Qed.

(** ** Gamma ratios *)

Section G.
  Variable Gam : R -> R.
  Hypothesis HG : gamma_like Gam.

  Definition w (lam : R) (m : Z) : R := (Gam (lam + IZR m) / Gam (IZR m + 1))%R.
  Definition av (lam : R) (m : Z) : R := sqrt (w lam m).

  Lemma w_pos lam m : (0 < lam)%R -> 0 <= m -> (0 < w lam m)%R.
  Proof.
    intros Hl Hm. apply IZR_nonneg in Hm. unfold w.
    apply Rdiv_lt_0_compat; apply HG; lra.
  Qed.

  Lemma av_pos lam m : (0 < lam)%R -> 0 <= m -> (0 < av lam m)%R.
  Proof. intros. apply sqrt_lt_R0. now apply w_pos. Qed.

  Lemma av_sq lam m : (0 < lam)%R -> 0 <= m -> (av lam m * av lam m = w lam m)%R.
  Proof. intros. apply sqrt_sqrt. apply Rlt_le. now apply w_pos. Qed.

  Lemma w_lam lam m : (0 < lam)%R -> 0 <= m -> w (lam + 1) m = ((lam + IZR m) * w lam m)%R.
  Proof.
    intros Hl Hm. apply IZR_nonneg in Hm. unfold w.
    replace (lam + 1 + IZR m)%R with (lam + IZR m + 1)%R by ring.
    destruct (HG (lam + IZR m)%R) as [_ ->]; [lra|].
    field. apply Rgt_not_eq. apply HG. lra.
  Qed.

  Lemma w_mu lam m : (0 < lam)%R -> 0 <= m ->
    ((IZR m + 1) * w lam (m + 1)%Z = (lam + IZR m) * w lam m)%R.
  Proof.
    intros Hl Hm. apply IZR_nonneg in Hm. unfold w. rewrite plus_IZR.
    replace (lam + (IZR m + 1))%R with (lam + IZR m + 1)%R by ring.
    destruct (HG (lam + IZR m)%R) as [_ ->]; [lra|].
    destruct (HG (IZR m + 1)%R) as [HP ->]; [lra|].
    field. split; apply Rgt_not_eq; [exact HP || lra|exact HP || lra].
  Qed.

  Lemma av_lam lam m : (0 < lam)%R -> 0 <= m ->
    av (lam + 1) m = (sqrt (lam + IZR m) * av lam m)%R.
  Proof.
    intros Hl Hm. unfold av. rewrite w_lam by assumption.
    rewrite sqrt_mult; [reflexivity| |apply Rlt_le; now apply w_pos].
    apply IZR_nonneg in Hm. lra.
  Qed.

  Lemma av_mu lam m : (0 < lam)%R -> 0 <= m ->
    (sqrt (IZR m + 1) * av lam (m + 1)%Z = sqrt (lam + IZR m) * av lam m)%R.
  Proof.
    intros Hl Hm. unfold av.
    assert (0 <= w lam m)%R by (apply Rlt_le; now apply w_pos).
    assert (0 <= w lam (m + 1))%R by (apply Rlt_le; apply w_pos; [assumption|lia]).
    pose proof (IZR_nonneg _ Hm).
    rewrite <- !sqrt_mult by lra. f_equal. now apply w_mu.
  Qed.

  Lemma poch_w lam m : poch Gam (IZR m + 1) (lam - 1) = w lam m.
  Proof. unfold poch, w. do 2 f_equal. ring. Qed.
  Lemma poch_w1 lam m : poch Gam (IZR m + 1) lam = w (lam + 1) m.
  Proof. rewrite <- poch_w. f_equal. ring. Qed.
  Lemma poch_w2 lam m : poch Gam (IZR m + 1) (lam - 2) = w (lam - 1) m.
  Proof. rewrite <- poch_w. f_equal. ring. Qed.

  Lemma sqrt_ratio l1 m1 l2 m2 : (0 < l1)%R -> (0 < l2)%R -> 0 <= m1 -> 0 <= m2 ->
    sqrt (w l1 m1 / w l2 m2) = (av l1 m1 / av l2 m2)%R.
  Proof.
    intros. unfold av. apply sqrt_div_alt. now apply w_pos.
  Qed.

  Lemma ratio_nonneg l1 m1 l2 m2 : (0 < l1)%R -> (0 < l2)%R -> 0 <= m1 -> 0 <= m2 ->
    (0 <= w l1 m1 / w l2 m2)%R.
  Proof. intros. apply Rlt_le, Rdiv_lt_0_compat; now apply w_pos. Qed.

  (** ** 1/beta, d/dbeta, 1/beta^2, d2/dbeta2 *)

  Definition v_bm_pl (lam : R) : rmat := fun f i =>
    if f <? i then 0%R else (sg f * sg i * (av lam i / av (lam + 1) f))%R.
  Definition v_bm_ml (lam : R) : rmat := fun f i =>
    if i <? f then 0%R else (sg f * sg i * (av (lam - 1) f / av lam i))%R.
  Definition v_Db_pl (lam : R) : rmat := fun f i =>
    ((if f =? i - 1 then sqrt (IZR i) else if f =? i then - sqrt (lam + IZR i) else 0)
     + (lam - 1/2) * v_bm_pl lam f i)%R.
  Definition v_Db_ml (lam : R) : rmat := fun f i =>
    ((if f =? i + 1 then - sqrt (IZR f) else if f =? i then sqrt (lam - 1 + IZR i) else 0)
     + (3/2 - lam) * v_bm_ml lam f i)%R.
  Definition v_bm2 (lam : R) : rmat := fun f i =>
    (sg f * sg i * (av lam (Z.min f i) / av lam (Z.max f i)) / (lam - 1))%R.
  Definition v_D2b (lam : R) : rmat := fun f i =>
    ((if f =? i - 1 then pv lam f else if f =? i then - lam - 2 * IZR i
      else if f =? i + 1 then pv lam i else 0)
     + (lam - 3/2) * (lam - 1/2) * v_bm2 lam f i)%R.

  Lemma no_pole lam m : (0 < lam)%R -> 0 <= m -> Rleb lam (- IZR m) = false.
  Proof.
    intros Hl Hm. apply IZR_nonneg in Hm. unfold Rleb. destruct (Rle_dec _ _); [lra|reflexivity].
  Qed.

  Lemma bm_pl_rep lam : (0 < lam)%R -> represents (ME_Radial_bm_pl Gam lam) (v_bm_pl lam).
  Proof.
    intros Hl f i Hf Hi. unfold ME_Radial_bm_pl, v_bm_pl.
    rewrite no_pole, andb_false_r by assumption. destruct (f <? i); [reflexivity|].
    rewrite poch_w, poch_w1, sqrt_ratio, m1pow_sub by (assumption || lra). reflexivity.
  Qed.

  Lemma bm_ml_rep lam : (1 < lam)%R -> represents (ME_Radial_bm_ml Gam lam) (v_bm_ml lam).
  Proof.
    intros Hl f i Hf Hi. unfold ME_Radial_bm_ml, v_bm_ml.
    rewrite no_pole, andb_false_r by (assumption || lra). destruct (i <? f); [reflexivity|].
    rewrite poch_w, poch_w2, sqrt_ratio, m1pow_sub by (assumption || lra). reflexivity.
  Qed.

  Lemma Db_pl_rep lam : (0 < lam)%R -> represents (ME_Radial_Db_pl Gam lam) (v_Db_pl lam).
  Proof.
    intros Hl f i Hf Hi. unfold ME_Radial_Db_pl, v_Db_pl, v_bm_pl.
    pose proof (IZR_nonneg _ Hi).
    rewrite (math_sqrt_ok (IZR i)), (math_sqrt_ok (lam + IZR i)) by lra. cbn [bind].
    rewrite poch_w, poch_w1, sqrt_ratio, m1pow_sub by (assumption || lra).
    destruct (Z.ltb_spec f i).
    - replace (i <=? f) with false by lia.
      eqbs; cbn [bind]; f_equal; ring.
    - replace (i <=? f) with true by lia.
      eqbs; cbn [bind]; f_equal; ring.
  Qed.

  Lemma Db_ml_rep lam : (1 < lam)%R -> represents (ME_Radial_Db_ml Gam lam) (v_Db_ml lam).
  Proof.
    intros Hl f i Hf Hi. unfold ME_Radial_Db_ml, v_Db_ml, v_bm_ml.
    pose proof (IZR_nonneg _ Hi). pose proof (IZR_nonneg _ Hf).
    rewrite (math_sqrt_ok (IZR f)), (math_sqrt_ok (lam + IZR i - 1)) by lra. cbn [bind].
    rewrite poch_w, poch_w2.
    rewrite (math_sqrt_ok (_ / _)) by (apply ratio_nonneg; assumption || lra).
    rewrite sqrt_ratio, m1pow_sub by (assumption || lra).
    replace (lam + IZR i - 1)%R with (lam - 1 + IZR i)%R by ring.
    destruct (Z.ltb_spec i f).
    - replace (f <=? i) with false by lia.
      eqbs; cbn [bind]; f_equal; ring.
    - replace (f <=? i) with true by lia.
      eqbs; cbn [bind]; f_equal; ring.
  Qed.

  Lemma pt_ok lam f i : (1 < lam)%R -> 0 <= f -> 0 <= i ->
    ME_Radial_pt Gam lam (Z.max f i) (Z.min f i) = Ok (v_bm2 lam f i).
  Proof.
    intros Hl Hf Hi. unfold ME_Radial_pt, v_bm2.
    destruct (Req_EM_T lam 1); [lra|].
    rewrite !poch_w.
    rewrite (math_sqrt_ok (_ / _)) by (apply ratio_nonneg; lia || lra). cbn [bind].
    rewrite sqrt_ratio, m1pow_sub by (lia || lra). do 2 f_equal. f_equal.
    destruct (Z_le_gt_dec f i).
    - rewrite Z.max_r, Z.min_l by lia. ring.
    - rewrite Z.max_l, Z.min_r by lia. ring.
  Qed.

  Lemma bm2_rep lam : (1 < lam)%R -> represents (ME_Radial_bm2 Gam lam) (v_bm2 lam).
  Proof.
    intros Hl f i Hf Hi. unfold ME_Radial_bm2.
    destruct (Req_EM_T lam (-1)); [lra|].
    rewrite !no_pole, andb_false_r by (assumption || lra). now apply pt_ok.
  Qed.

  Lemma D2b_rep lam : (1 < lam)%R -> represents (ME_Radial_D2b Gam lam) (v_D2b lam).
  Proof.
    intros Hl f i Hf Hi. unfold ME_Radial_D2b, v_D2b. rewrite pt_ok by assumption.
    destruct (Z.eqb_spec f (i - 1)).
    { rewrite math_sqrt_ok by (apply sqrt_args'; lia || lra). subst f. now rewrite pv_prev. }
    destruct (f =? i); [reflexivity|]. destruct (f =? i + 1); [|reflexivity].
    rewrite math_sqrt_ok by (apply sqrt_args; lia || lra). reflexivity.
  Qed.

  (** ** Inverses *)

  Lemma bm_pl_ml_tr lam : (0 < lam)%R -> req (v_bm_ml (lam + 1)) (rtr (v_bm_pl lam)).
  Proof.
    intros Hl f i Hf Hi. unfold v_bm_ml, v_bm_pl, rtr. destruct (i <? f); [reflexivity|].
    replace (lam + 1 - 1)%R with lam by ring. ring.
  Qed.

  (** beta^-1 (lambda+1 -> lambda) before beta (lambda -> lambda+1). *)
  Lemma b_pl_bm_ml lam : (0 < lam)%R -> prod_is (v_b_pl lam) (v_bm_ml (lam + 1)) rid.
  Proof.
    intros Hl f i N Hf Hi HN.
    rewrite row_upper; [|lia|lia|intros k H1 H2; unfold v_b_pl; eqbs; reflexivity].
    unfold v_b_pl, v_bm_ml, rid. replace (lam + 1 - 1)%R with lam by ring.
    destruct (Z.ltb_spec i f) as [H|H].
    - replace (i <? f + 1) with true by lia. eqbs; lra.
    - pose proof (av_pos (lam + 1) i ltac:(lra) Hi).
      destruct (Z.eq_dec f i) as [->|Nf].
      + replace (i <? i + 1) with true by lia. eqbs; try lra.
        rewrite (av_lam lam i) by assumption.
        rewrite (av_lam lam i) in H0 by assumption.
        pose proof (sg_sq i) as Hs. rewrite Rmult_0_r, Rplus_0_r.
        replace (sqrt (lam + IZR i) * (sg i * sg i * (av lam i / (sqrt (lam + IZR i) * av lam i))))%R
          with (sg i * sg i * ((sqrt (lam + IZR i) * av lam i) / (sqrt (lam + IZR i) * av lam i)))%R
          by (unfold Rdiv; ring).
        rewrite Hs. field. nra.
      + replace (i <? f + 1) with false by lia. eqbs; try lra.
        rewrite sg_succ, plus_IZR.
        pose proof (av_mu lam f Hl Hf) as Hm.
        replace (sqrt (lam + IZR f) * (sg f * sg i * (av lam f / av (lam + 1) i)))%R
          with (sg f * sg i / av (lam + 1) i * (sqrt (lam + IZR f) * av lam f))%R
          by (unfold Rdiv; ring).
        replace (sqrt (IZR f + 1) * (- sg f * sg i * (av lam (f + 1)%Z / av (lam + 1) i)))%R
          with (- (sg f * sg i / av (lam + 1) i * (sqrt (IZR f + 1) * av lam (f + 1)%Z)))%R
          by (unfold Rdiv; ring).
        rewrite Hm. ring.
  Qed.

  (** beta^-1 (lambda-1 -> lambda) before beta (lambda -> lambda-1). *)
  Lemma b_ml_bm_pl lam : (0 < lam)%R -> prod_is (v_b_ml (lam + 1)) (v_bm_pl lam) rid.
  Proof.
    intros Hl f i N Hf Hi HN.
    rewrite row_lower; [|lia|lia| |].
    2: { intros k H1 H2. unfold v_b_ml. eqbs. reflexivity. }
    2: { intros ->. unfold v_b_ml. cbn. apply sqrt_0. }
    unfold v_b_ml, v_bm_pl, rid. replace (lam + 1 - 1)%R with lam by ring.
    destruct (Z.ltb_spec f i) as [H|H].
    - replace (f - 1 <? i) with true by lia. eqbs; lra.
    - pose proof (av_pos (lam + 1) f ltac:(lra) Hf).
      pose proof (av_pos lam f Hl Hf).
      destruct (Z.eq_dec f i) as [->|Nf].
      + replace (i - 1 <? i) with true by lia. eqbs; try lra.
        rewrite (av_lam lam i) by assumption.
        rewrite (av_lam lam i) in H0 by assumption.
        pose proof (sg_sq i) as Hs. rewrite Rmult_0_r, Rplus_0_l.
        replace (sqrt (lam + IZR i) * (sg i * sg i * (av lam i / (sqrt (lam + IZR i) * av lam i))))%R
          with (sg i * sg i * ((sqrt (lam + IZR i) * av lam i) / (sqrt (lam + IZR i) * av lam i)))%R
          by (unfold Rdiv; ring).
        rewrite Hs. field. nra.
      + replace (f - 1 <? i) with false by lia. eqbs; try lra.
        pose proof (av_pos (lam + 1) (f - 1) ltac:(lra) ltac:(lia)).
        pose proof (av_mu (lam + 1) (f - 1) ltac:(lra) ltac:(lia)) as Hm.
        rewrite Z.sub_add, minus_IZR in Hm.
        replace (IZR f - 1 + 1)%R with (IZR f) in Hm by ring.
        replace (lam + 1 + (IZR f - 1))%R with (lam + IZR f)%R in Hm by ring.
        rewrite sg_pred.
        replace (sqrt (IZR f) * (- sg f * sg i * (av lam i / av (lam + 1) (f - 1)%Z)))%R
          with (- (sg f * sg i * av lam i / (av (lam + 1) f * av (lam + 1) (f - 1)%Z)
                   * (sqrt (IZR f) * av (lam + 1) f)))%R by (field; lra).
        rewrite Hm. field. lra.
  Qed.

  (** Inverses on the other side: lower triangular sums. *)

  Lemma bm_ml_b_pl lam : (0 < lam)%R -> forall f i N, 0 <= f -> 0 <= i -> i < Z.of_nat N ->
    rsum (fun k => (v_bm_ml (lam + 1) f k * v_b_pl lam k i)%R) N = rid f i.
  Proof.
    intros Hl f i N Hf Hi HN.
    assert (E : rsum (fun k => (v_bm_ml (lam + 1) f k * v_b_pl lam k i)%R) N
      = rsum (fun k => (v_b_ml (lam + 1) i k * v_bm_pl lam k f)%R) N).
    { apply rsum_ext. intros k Hk.
      rewrite (bm_pl_ml_tr lam Hl f k) by lia. rewrite (b_pl_ml_tr lam i k) by lia.
      unfold rtr. ring. }
    rewrite E.
    assert (E2 : rsum (fun k => (v_b_ml (lam + 1) i k * v_bm_pl lam k f)%R) N
      = rsum (fun k => (v_b_ml (lam + 1) i k * v_bm_pl lam k f)%R) (N + 2)%nat).
    { symmetry. apply rsum_cut; [lia|]. intros k Hk.
      unfold v_b_ml. eqbs. lra. }
    rewrite E2, (b_ml_bm_pl lam Hl i f (N + 2)%nat) by lia.
    unfold rid. eqbs; reflexivity.
  Qed.

  Lemma bm_pl_b_ml lam : (0 < lam)%R -> forall f i N, 0 <= f -> 0 <= i -> i + 1 < Z.of_nat N ->
    rsum (fun k => (v_bm_pl lam f k * v_b_ml (lam + 1) k i)%R) N = rid f i.
  Proof.
    intros Hl f i N Hf Hi HN.
    assert (E : rsum (fun k => (v_bm_pl lam f k * v_b_ml (lam + 1) k i)%R) N
      = rsum (fun k => (v_b_pl lam i k * v_bm_ml (lam + 1) k f)%R) N).
    { apply rsum_ext. intros k Hk.
      rewrite (bm_pl_ml_tr lam Hl k f) by lia. rewrite (b_pl_ml_tr lam k i) by lia.
      unfold rtr. ring. }
    rewrite E, (b_pl_bm_ml lam Hl i f N) by lia. unfold rid. eqbs; reflexivity.
  Qed.

  (** ** 1/beta^2 *)

  Lemma w_sum lam m : (0 < lam)%R -> 0 <= m ->
    rsum (fun k => w lam k) (S (Z.to_nat m)) = (w (lam + 1) m / lam)%R.
  Proof.
    intros Hl Hm. replace m with (Z.of_nat (Z.to_nat m)) at 2 by lia.
    generalize (Z.to_nat m) as n. clear Hm m. induction n as [|n IH].
    - cbn [rsum Z.of_nat]. rewrite w_lam by (lia || lra). field. lra.
    - change (rsum (fun k => w lam k) (S (S n)))
        with (rsum (fun k => w lam k) (S n) + w lam (Z.of_nat (S n)))%R.
      rewrite IH. rewrite !w_lam by (lia || lra).
      pose proof (w_mu lam (Z.of_nat n) Hl ltac:(lia)) as Hw.
      replace (Z.of_nat n + 1) with (Z.of_nat (S n)) in Hw by lia.
      rewrite <- Hw.
      replace (IZR (Z.of_nat (S n))) with (IZR (Z.of_nat n) + 1)%R
        by (rewrite <- plus_IZR; f_equal; lia).
      field. lra.
  Qed.

  (** beta^-1 (lambda-1 -> lambda) after beta^-1 (lambda -> lambda-1). *)
  Lemma bm_pl_bm_ml lam : (0 < lam)%R ->
    prod_is (v_bm_pl lam) (v_bm_ml (lam + 1)) (v_bm2 (lam + 1)).
  Proof.
    intros Hl f i N Hf Hi HN.
    rewrite (rsum_cut _ N (S (Z.to_nat (Z.min f i)))).
    2: lia.
    2: { intros k Hk. unfold v_bm_pl, v_bm_ml.
         destruct (Z.ltb_spec f k); [lra|]. destruct (Z.ltb_spec i k); [lra|]. exfalso; lia. }
    rewrite (rsum_ext _ (fun k => (sg f * sg i / (av (lam + 1) f * av (lam + 1) i) * w lam k)%R)).
    2: { intros k Hk. unfold v_bm_pl, v_bm_ml.
         replace (f <? k) with false by lia. replace (i <? k) with false by lia.
         replace (lam + 1 - 1)%R with lam by ring.
         rewrite <- av_sq by (lia || lra).
         pose proof (av_pos (lam + 1) f ltac:(lra) Hf). pose proof (av_pos (lam + 1) i ltac:(lra) Hi).
         replace (sg f * sg k * (av lam k / av (lam + 1) f) *
                  (sg k * sg i * (av lam k / av (lam + 1) i)))%R
           with ((sg k * sg k) * (sg f * sg i / (av (lam + 1) f * av (lam + 1) i)
                  * (av lam k * av lam k)))%R by (field; lra).
         rewrite sg_sq. ring. }
    rewrite rsum_scal, w_sum by (lia || lra).
    unfold v_bm2. replace (lam + 1 - 1)%R with lam by ring.
    rewrite <- av_sq by (lia || lra).
    pose proof (av_pos (lam + 1) f ltac:(lra) Hf). pose proof (av_pos (lam + 1) i ltac:(lra) Hi).
    destruct (Z_le_gt_dec f i).
    - rewrite Z.max_r, Z.min_l by lia. field. lra.
    - rewrite Z.max_l, Z.min_r by lia. field. lra.
  Qed.

  Lemma bm2_sym lam f i : v_bm2 lam f i = v_bm2 lam i f.
  Proof.
    unfold v_bm2. rewrite (Z.min_comm i f), (Z.max_comm i f). f_equal. ring.
  Qed.

  (** beta^-1 (lambda+1 -> lambda) after beta^-1 (lambda -> lambda+1): rows are
      infinite; the truncated product differs from 1/beta^2 by a remainder. *)
  Lemma winv_step lam k : (1 < lam)%R -> 0 <= k ->
    (/ w (lam + 1) k = (/ w lam k - / w lam (k + 1)%Z) / (lam - 1))%R.
  Proof.
    intros Hl Hk. pose proof (w_mu lam k ltac:(lra) Hk) as Hm.
    pose proof (w_pos lam k ltac:(lra) Hk). pose proof (w_pos lam (k + 1) ltac:(lra) ltac:(lia)).
    pose proof (IZR_nonneg _ Hk). rewrite w_lam by (lra || lia).
    assert (E : w lam (k + 1) = ((lam + IZR k) * w lam k / (IZR k + 1))%R).
    { rewrite <- Hm. field. lra. }
    rewrite E. field. repeat split; lra.
  Qed.

  Lemma winv_sum lam m n : (1 < lam)%R -> 0 <= m ->
    rsum (fun k => if k <? m then 0%R else (/ w (lam + 1) k)%R) (Z.to_nat m + n)
    = ((/ w lam m - / w lam (m + Z.of_nat n)%Z) / (lam - 1))%R.
  Proof.
    intros Hl Hm. induction n as [|n IH].
    - rewrite rsum_zero. 2: { intros k Hk. replace (k <? m) with true by lia. reflexivity. }
      replace (m + Z.of_nat 0) with m by lia. field. 
      pose proof (w_pos lam m ltac:(lra) Hm). lra.
    - rewrite Nat.add_succ_r. cbn [rsum]. rewrite IH.
      replace (Z.of_nat (Z.to_nat m + n) <? m) with false by lia.
      rewrite winv_step by (lra || lia).
      replace (Z.of_nat (Z.to_nat m + n)) with (m + Z.of_nat n) by lia.
      replace (m + Z.of_nat n + 1) with (m + Z.of_nat (S n)) by lia.
      pose proof (w_pos lam (m + Z.of_nat n) ltac:(lra) ltac:(lia)).
      pose proof (w_pos lam (m + Z.of_nat (S n)) ltac:(lra) ltac:(lia)).
      pose proof (w_pos lam m ltac:(lra) ltac:(lia)). field. lra.
  Qed.

  Lemma bm_ml_bm_pl lam : (1 < lam)%R -> forall f i N, 0 <= f -> 0 <= i ->
    Z.max f i <= Z.of_nat N ->
    rsum (fun k => (v_bm_ml (lam + 1) f k * v_bm_pl lam k i)%R) N
    = (v_bm2 lam f i
       - sg f * sg i * (av lam f * av lam i) / (w lam (Z.of_nat N) * (lam - 1)))%R.
  Proof.
    intros Hl f i N Hf Hi HN.
    rewrite (rsum_ext _ (fun k => (sg f * sg i * (av lam f * av lam i)
       * (if (k <? Z.max f i)%Z then 0 else / w (lam + 1) k))%R)).
    2: { intros k Hk. unfold v_bm_pl, v_bm_ml.
         replace (lam + 1 - 1)%R with lam by ring.
         destruct (Z.ltb_spec k (Z.max f i)).
         - destruct (Z.ltb_spec k f), (Z.ltb_spec k i); try lra. exfalso; lia.
         - replace (k <? f) with false by lia. replace (k <? i) with false by lia.
           rewrite <- av_sq by (lia || lra).
           pose proof (av_pos (lam + 1) k ltac:(lra) ltac:(lia)).
           replace (sg f * sg k * (av lam f / av (lam + 1) k)
                    * (sg k * sg i * (av lam i / av (lam + 1) k)))%R
             with ((sg k * sg k) * (sg f * sg i * (av lam f * av lam i)
                    * / (av (lam + 1) k * av (lam + 1) k)))%R by (field; lra).
           rewrite sg_sq. ring. }
    rewrite rsum_scal.
    replace N with (Z.to_nat (Z.max f i) + (N - Z.to_nat (Z.max f i)))%nat at 1 by lia.
    rewrite winv_sum by (lra || lia).
    replace (Z.max f i + Z.of_nat (N - Z.to_nat (Z.max f i))) with (Z.of_nat N) by lia.
    pose proof (w_pos lam (Z.of_nat N) ltac:(lra) ltac:(lia)).
    unfold v_bm2. rewrite <- (av_sq lam (Z.max f i)) by (lra || lia).
    pose proof (av_pos lam f ltac:(lra) Hf). pose proof (av_pos lam i ltac:(lra) Hi).
    destruct (Z_le_gt_dec f i).
    - rewrite Z.max_r, Z.min_l by lia. field. lra.
    - rewrite Z.max_l, Z.min_r by lia. field. lra.
  Qed.

  (** ** d/dbeta *)

  Definition cpl (lam : R) : rmat := fun f i =>
    if f =? i - 1 then sqrt (IZR i) else if f =? i then (- sqrt (lam + IZR i))%R else 0%R.
  Definition cml (lam : R) : rmat := fun f i =>
    if f =? i + 1 then (- sqrt (IZR f))%R else if f =? i then sqrt (lam - 1 + IZR i) else 0%R.

  Lemma Db_pl_split lam f i : v_Db_pl lam f i = (cpl lam f i + (lam - 1/2) * v_bm_pl lam f i)%R.
  Proof. reflexivity. Qed.
  Lemma Db_ml_split lam f i : v_Db_ml lam f i = (cml lam f i + (3/2 - lam) * v_bm_ml lam f i)%R.
  Proof. reflexivity. Qed.

  Lemma Db_tr lam : (0 < lam)%R ->
    req (v_Db_pl lam) (rscale (-1) (rtr (v_Db_ml (lam + 1)))).
  Proof.
    intros Hl f i Hf Hi. unfold rscale, rtr. rewrite Db_pl_split, Db_ml_split.
    rewrite (bm_pl_ml_tr lam Hl i f) by assumption. unfold rtr, cpl, cml.
    replace (lam + 1 - 1)%R with lam by ring.
    eqbs; lra.
  Qed.

  Lemma b_ml_cpl lam : (0 < lam)%R ->
    prod_is (v_b_ml (lam + 1)) (cpl lam) (fun f i => v_bDb lam f i - (lam - 1/2) * rid f i)%R.
  Proof.
    intros Hl f i N Hf Hi HN.
    rewrite row_lower; [|lia|lia| |].
    2: { intros k H1 H2. unfold v_b_ml. eqbs. reflexivity. }
    2: { intros ->. unfold v_b_ml. cbn. apply sqrt_0. }
    unfold v_b_ml, cpl, v_bDb, rid, pv. replace (lam + 1 - 1)%R with lam by ring.
    pose proof (IZR_nonneg _ Hf). pose proof (IZR_nonneg _ Hi).
    eqbs; try lra; rewrite ?plus_IZR, ?minus_IZR in *; r0;
      rewrite ?Ropp_mult_distr_r_reverse; rewrite ?sqrt_sqrt by lra; rewrite ?sqrt_mul by lra;
      rewrite ?Rminus_0_r; try (f_equal; ring); try (do 2 f_equal; ring); try lra.
  Qed.

  Lemma b_pl_cml lam : (0 < lam)%R ->
    prod_is (v_b_pl lam) (cml (lam + 1))
      (fun f i => v_bDb (lam + 1) f i + (lam - 1/2) * rid f i)%R.
  Proof.
    intros Hl f i N Hf Hi HN.
    rewrite row_upper; [|lia|lia|intros k H1 H2; unfold v_b_pl; eqbs; reflexivity].
    unfold v_b_pl, cml, v_bDb, rid, pv. replace (lam + 1 - 1)%R with lam by ring.
    pose proof (IZR_nonneg _ Hf). pose proof (IZR_nonneg _ Hi).
    eqbs; try lra; rewrite ?plus_IZR, ?minus_IZR in *; r0;
      rewrite ?Ropp_mult_distr_r_reverse; rewrite ?sqrt_sqrt by lra; rewrite ?sqrt_mul by lra;
      rewrite ?Rminus_0_r; try (f_equal; ring); try (do 2 f_equal; ring); try lra.
  Qed.

  Lemma rsum_lin (A B C : rmat) c f i N :
    rsum (fun k => (A f k * (B k i + c * C k i))%R) N
    = (rsum (fun k => (A f k * B k i)%R) N + c * rsum (fun k => (A f k * C k i)%R) N)%R.
  Proof.
    rewrite <- rsum_scal, <- rsum_plus. apply rsum_ext. intros. ring.
  Qed.

  Lemma b_ml_Db_pl lam : (0 < lam)%R -> prod_is (v_b_ml (lam + 1)) (v_Db_pl lam) (v_bDb lam).
  Proof.
    intros Hl f i N Hf Hi HN.
    etransitivity; [exact (rsum_lin (v_b_ml (lam + 1)) (cpl lam) (v_bm_pl lam) (lam - 1/2) f i N)|].
    rewrite b_ml_cpl, b_ml_bm_pl by assumption. ring.
  Qed.

  Lemma b_pl_Db_ml lam : (0 < lam)%R ->
    prod_is (v_b_pl lam) (v_Db_ml (lam + 1)) (v_bDb (lam + 1)).
  Proof.
    intros Hl f i N Hf Hi HN.
    etransitivity; [exact (rsum_lin (v_b_pl lam) (cml (lam + 1)) (v_bm_ml (lam + 1)) (3/2 - (lam + 1)) f i N)|].
    rewrite b_pl_cml, b_pl_bm_ml by assumption. field.
  Qed.

  (** d/dbeta after beta, lambda -> lambda+1 -> lambda. *)
  Lemma Db_ml_b_pl lam : (0 < lam)%R -> forall f i N, 0 <= f -> 0 <= i -> i + 2 <= Z.of_nat N ->
    rsum (fun k => (v_Db_ml (lam + 1) f k * v_b_pl lam k i)%R) N = (- v_bDb lam i f)%R.
  Proof.
    intros Hl f i N Hf Hi HN.
    rewrite <- (b_ml_Db_pl lam Hl i f N) by assumption.
    rewrite <- (Rmult_1_l (rsum (fun k => (v_b_ml (lam + 1) i k * _)%R) N)).
    rewrite Ropp_mult_distr_l, <- rsum_scal. apply rsum_ext. intros k Hk.
    rewrite (b_pl_ml_tr lam i k) by lia. rewrite (Db_tr lam Hl k f) by lia.
    unfold rscale, rtr. ring.
  Qed.

  Lemma commutator lam : (0 < lam)%R -> forall f i N, 0 <= f -> 0 <= i ->
    f + 2 <= Z.of_nat N -> i + 2 <= Z.of_nat N ->
    (rsum (fun k => v_Db_ml (lam + 1) f k * v_b_pl lam k i) N
     - rsum (fun k => v_b_ml (lam + 1) f k * v_Db_pl lam k i) N = rid f i)%R.
  Proof.
    intros Hl f i N Hf Hi H1 H2. rewrite Db_ml_b_pl, b_ml_Db_pl by assumption.
    unfold v_bDb, rid. eqbs; lra.
  Qed.

  Lemma cpl_bm_ml lam : (0 < lam)%R -> forall f i N, 0 <= f -> 0 <= i -> f + 2 <= Z.of_nat N ->
    rsum (fun k => (cpl lam f k * v_bm_ml (lam + 1) k i)%R) N
    = (if (i <? f)%Z then 0 else if (f =? i)%Z then -1
       else - 2 * lam * v_bm2 (lam + 1) f i)%R.
  Proof.
    intros Hl f i N Hf Hi HN.
    pose proof (b_pl_bm_ml lam Hl f i N Hf Hi HN) as E.
    rewrite row_upper in E; [|lia|lia|intros k H1 H2; unfold v_b_pl; eqbs; reflexivity].
    rewrite row_upper; [|lia|lia|intros k H1 H2; unfold cpl; eqbs; reflexivity].
    unfold v_b_pl in E. unfold cpl.
    replace (f =? f - 1) with false in * by lia. replace (f =? f + 1 - 1) with true in * by lia.
    replace (f =? f) with true in * by lia.
    assert (Hd : (sqrt (lam + IZR f) * v_bm_ml (lam + 1) f i
      = if i <? f then 0 else if f =? i then 1 else lam * v_bm2 (lam + 1) f i)%R).
    { unfold v_bm_ml, v_bm2. replace (lam + 1 - 1)%R with lam by ring.
      destruct (Z.ltb_spec i f); [ring|].
      rewrite Z.min_l, Z.max_r by lia.
      pose proof (av_pos (lam + 1) i ltac:(lra) Hi).
      replace (sqrt (lam + IZR f) * (sg f * sg i * (av lam f / av (lam + 1) i)))%R
        with (sg f * sg i * (sqrt (lam + IZR f) * av lam f) / av (lam + 1) i)%R
        by (unfold Rdiv; ring).
      rewrite <- av_lam by assumption.
      destruct (Z.eqb_spec f i).
      - subst. rewrite sg_sq. field. lra.
      - field. lra. }
    unfold rid in E.
    destruct (Z.ltb_spec i f).
    - replace (f =? i) with false in * by lia. lra.
    - destruct (f =? i); lra.
  Qed.

  Lemma Db_pl_Db_ml lam : (0 < lam)%R ->
    prod_is (v_Db_pl lam) (v_Db_ml (lam + 1)) (v_D2b (lam + 1)).
  Proof.
    intros Hl f i N Hf Hi HN.
    set (c := (lam - 1/2)%R).
    rewrite (rsum_ext _ (fun k => ((cpl lam f k * cml (lam + 1) k i
      + (- c) * (cpl lam f k * v_bm_ml (lam + 1) k i))
      + (c * (v_bm_pl lam f k * cml (lam + 1) k i)
      + (- c * c) * (v_bm_pl lam f k * v_bm_ml (lam + 1) k i)))%R)).
    2: { intros k Hk. rewrite Db_pl_split, Db_ml_split. unfold c. field. }
    rewrite !rsum_plus, !rsum_scal.
    rewrite cpl_bm_ml, bm_pl_bm_ml by assumption.
    assert (E : rsum (fun k => (v_bm_pl lam f k * cml (lam + 1) k i)%R) N
      = (- (if (f <? i)%Z then 0 else if (i =? f)%Z then -1
            else - 2 * lam * v_bm2 (lam + 1) i f))%R).
    { rewrite <- (cpl_bm_ml lam Hl i f (N + Z.to_nat (i + 2))) by lia.
      rewrite <- (Rmult_1_l (rsum (fun k => (cpl lam i k * _)%R) _)).
      rewrite Ropp_mult_distr_l, <- rsum_scal.
      rewrite (rsum_cut (fun k => (- (1) * (cpl lam i k * v_bm_ml (lam + 1) k f))%R)
                 (N + Z.to_nat (i + 2)) N); [|lia|].
      2: { intros k Hk. unfold v_bm_ml. replace (f <? k) with true by lia. ring. }
      apply rsum_ext. intros k Hk. rewrite (bm_pl_ml_tr lam Hl k f) by lia.
      unfold rtr, cml, cpl. replace (lam + 1 - 1)%R with lam by ring. eqbs; ring. }
    rewrite E. clear E.
    assert (E : rsum (fun k => (cpl lam f k * cml (lam + 1) k i)%R) N
      = (if (f =? i - 1)%Z then pv (lam + 1) f else if (f =? i)%Z then - (lam + 1) - 2 * IZR i
         else if (f =? i + 1)%Z then pv (lam + 1) i else 0)%R).
    { rewrite row_upper; [|lia|lia|intros k H1 H2; unfold cpl; eqbs; reflexivity].
      unfold cpl, cml, pv. replace (lam + 1 - 1)%R with lam by ring.
      pose proof (IZR_nonneg _ Hf). pose proof (IZR_nonneg _ Hi).
      eqbs; try lra; rewrite ?plus_IZR, ?minus_IZR in *; r0;
        rewrite ?Rmult_opp_opp, ?Ropp_mult_distr_r_reverse, ?Ropp_mult_distr_l_reverse;
        rewrite ?sqrt_sqrt by lra; rewrite ?sqrt_mul by lra;
        rewrite ?Rminus_0_r; try (f_equal; ring); try lra. }
    rewrite E. unfold v_D2b.
    generalize (if f =? i - 1 then pv (lam + 1) f else if f =? i then (- (lam + 1) - 2 * IZR i)%R
         else if f =? i + 1 then pv (lam + 1) i else 0%R) as st. intros st.
    rewrite (bm2_sym (lam + 1) i f).
    assert (Ed : f = i -> v_bm2 (lam + 1) f i = (/ lam)%R).
    { intros ->. unfold v_bm2. rewrite Z.min_id, Z.max_id, sg_sq.
      pose proof (av_pos (lam + 1) i ltac:(lra) Hi). field. lra. }
    destruct (Z.ltb_spec i f), (Z.ltb_spec f i); try (exfalso; lia); eqbs; unfold c; try field.
    rewrite Ed by reflexivity. field. lra.
  Qed.
End G.
