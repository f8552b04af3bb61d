(** Facts behind C76. *)

From Coq Require Import Reals Lra Lia ZArith ZifyBool ZifyNat List.
From Coquelicot Require Import Coquelicot.
From Verif Require Import PyBase PyFacts Compat Matrix RadialME RadialMESpec RadialMEFacts IdFacts.
From Verif Require Import Improper Laguerre Waves WaveSpec.
Open Scope Z_scope.
Ltac Zify.zify_post_hook ::= Z.div_mod_to_equations.

Lemma gamma_like_Gamma : gamma_like Gamma.
Proof. intros x Hx. split; [now apply Gamma_pos|now apply Gamma_succ]. Qed.

(** ** Unit width, integer labels *)

Definition W (lam : R) (nu : Z) : R -> R := waveN lam (Z.to_nat nu).

Lemma INR_to_nat i : 0 <= i -> INR (Z.to_nat i) = IZR i.
Proof. intros H. now rewrite INR_IZR_INZ, Z2Nat.id. Qed.

Lemma W_pl lam i b : (0 < lam)%R -> 0 <= i -> (0 < b)%R ->
  (b * W lam i b = sqrt (lam + IZR i) * W (lam + 1) i b + sqrt (IZR i) * W (lam + 1) (i - 1) b)%R.
Proof.
  intros Hl Hi Hb. unfold W. rewrite wave_b_pl by assumption. rewrite INR_to_nat by assumption. f_equal.
  destruct (Z.to_nat i) as [|p] eqn:E.
  - replace i with 0 by lia. rewrite sqrt_0. ring.
  - replace (Z.to_nat (i - 1)) with p by lia. reflexivity.
Qed.
Lemma W_ml lam i b : (0 < lam)%R -> 0 <= i -> (0 < b)%R ->
  (b * W (lam + 1) i b = sqrt (IZR i + 1) * W lam (i + 1) b + sqrt (lam + IZR i) * W lam i b)%R.
Proof.
  intros Hl Hi Hb. unfold W. rewrite wave_b_ml by assumption. rewrite INR_to_nat by assumption.
  replace (Z.to_nat (i + 1)) with (S (Z.to_nat i)) by lia. reflexivity.
Qed.
Lemma W_derive lam i b : (0 < lam)%R -> 0 <= i -> (0 < b)%R -> exists d, is_derive (W lam i) b d /\
  (b * d = - (1 / 2) * W lam i b - pv lam i * W lam (i + 1) b + pv lam (i - 1) * W lam (i - 1) b)%R.
Proof.
  intros Hl Hi Hb. destruct (wave_derive lam (Z.to_nat i) b Hl Hb) as (d & D & E). exists d. split; [exact D|].
  rewrite E. unfold W, pv. rewrite INR_to_nat by assumption. replace (Z.to_nat (i + 1)) with (S (Z.to_nat i)) by lia. f_equal.
  rewrite minus_IZR. destruct (Z.to_nat i) as [|p] eqn:Ei.
  - replace i with 0 by lia. replace ((lam + (0 - 1)) * (0 - 1 + 1))%R with 0%R by ring. rewrite sqrt_0. ring.
  - replace (Z.to_nat (i - 1)) with p by lia. f_equal. f_equal. ring.
Qed.
Lemma W_ortho lam m n : (0 < lam)%R -> 0 <= m -> 0 <= n -> integral (fun b => W lam m b * W lam n b)%R (rid m n).
Proof.
  intros Hl Hm Hn. unfold rid. pose proof (wave_orthonormal lam (Z.to_nat m) (Z.to_nat n) Hl) as O.
  replace (Nat.eqb (Z.to_nat m) (Z.to_nat n)) with (m =? n) in O by lia. exact O.
Qed.

(** d/dbeta in one step. *)
Lemma W_diff_pl lam i b : (0 < lam)%R -> 0 <= i -> (0 < b)%R ->
  is_derive (W lam i) b ((lam - 1 / 2) * (W lam i b / b)
     + (sqrt (IZR i) * W (lam + 1) (i - 1) b - sqrt (lam + IZR i) * W (lam + 1) i b))%R.
Proof.
  intros Hl Hi Hb. destruct (W_derive lam i b Hl Hi Hb) as (d & D & E).
  replace ((lam - 1 / 2) * (W lam i b / b) + (sqrt (IZR i) * W (lam + 1) (i - 1) b - sqrt (lam + IZR i) * W (lam + 1) i b))%R with d; [exact D|].
  apply (Rmult_eq_reg_l b); [|lra]. rewrite E. unfold pv. rewrite minus_IZR.
  pose proof (IZR_nonneg _ Hi). rewrite sqrt_mult by lra.
  pose proof (W_ml lam i b Hl Hi Hb) as M1. pose proof (sqrt_sqrt (lam + IZR i) ltac:(lra)) as S1.
  transitivity ((lam - 1 / 2) * W lam i b + (sqrt (IZR i) * (b * W (lam + 1) (i - 1) b) - sqrt (lam + IZR i) * (b * W (lam + 1) i b)))%R; [|field; lra].
  rewrite M1. destruct (Z.eq_dec i 0) as [->|Hn].
  - replace ((lam + (0 - 1)) * (0 - 1 + 1))%R with 0%R by ring. rewrite sqrt_0.
    replace (sqrt (lam + 0) * (sqrt (0 + 1) * W lam (0 + 1) b + sqrt (lam + 0) * W lam 0 b))%R
      with (sqrt (lam + 0) * sqrt (0 + 1) * W lam (0 + 1) b + (sqrt (lam + 0) * sqrt (lam + 0)) * W lam 0 b)%R by ring.
    rewrite S1. field.
  - assert (1 <= IZR i)%R by (apply IZR_le; lia).
    pose proof (W_ml lam (i - 1) b Hl ltac:(lia) Hb) as M2. rewrite M2, minus_IZR. rewrite sqrt_mult by lra.
    replace (i - 1 + 1) with i by lia. replace (IZR i - 1 + 1)%R with (IZR i) by ring.
    pose proof (sqrt_sqrt (IZR i) ltac:(lra)) as S2.
    replace (sqrt (lam + IZR i) * (sqrt (IZR i + 1) * W lam (i + 1) b + sqrt (lam + IZR i) * W lam i b))%R
      with (sqrt (lam + IZR i) * sqrt (IZR i + 1) * W lam (i + 1) b + (sqrt (lam + IZR i) * sqrt (lam + IZR i)) * W lam i b)%R by ring.
    replace (sqrt (IZR i) * (sqrt (IZR i) * W lam i b + sqrt (lam + (IZR i - 1)) * W lam (i - 1) b))%R
      with (sqrt (IZR i) * sqrt (IZR i) * W lam i b + sqrt (IZR i) * sqrt (lam + (IZR i - 1)) * W lam (i - 1) b)%R by ring.
    rewrite S1, S2. field.
Qed.
Lemma W_diff_ml lam i b : (0 < lam)%R -> 0 <= i -> (0 < b)%R ->
  is_derive (W (lam + 1) i) b ((1 / 2 - lam) * (W (lam + 1) i b / b)
     + (sqrt (lam + IZR i) * W lam i b - sqrt (IZR i + 1) * W lam (i + 1) b))%R.
Proof.
  intros Hl Hi Hb. destruct (W_derive (lam + 1) i b ltac:(lra) Hi Hb) as (d & D & E).
  match goal with |- is_derive _ _ ?t => replace t with d; [exact D|] end.
  apply (Rmult_eq_reg_l b); [|lra]. rewrite E. unfold pv. rewrite minus_IZR.
  pose proof (IZR_nonneg _ Hi). rewrite sqrt_mult by lra.
  pose proof (W_pl lam i b Hl Hi Hb) as M1. pose proof (W_pl lam (i + 1) b Hl ltac:(lia) Hb) as M2. rewrite plus_IZR in M2.
  replace (i + 1 - 1) with i in M2 by lia.
  pose proof (sqrt_sqrt (lam + IZR i) ltac:(lra)) as S1. pose proof (sqrt_sqrt (IZR i + 1) ltac:(lra)) as S2.
  transitivity ((1 / 2 - lam) * W (lam + 1) i b + (sqrt (lam + IZR i) * (b * W lam i b) - sqrt (IZR i + 1) * (b * W lam (i + 1) b)))%R; [|field; lra].
  rewrite M1, M2. replace (lam + 1 + IZR i)%R with (lam + (IZR i + 1))%R by ring.
  replace ((lam + 1 + (IZR i - 1)) * (IZR i - 1 + 1))%R with ((lam + IZR i) * IZR i)%R by ring. rewrite sqrt_mult by lra.
  replace (sqrt (lam + IZR i) * (sqrt (lam + IZR i) * W (lam + 1) i b + sqrt (IZR i) * W (lam + 1) (i - 1) b))%R
    with (sqrt (lam + IZR i) * sqrt (lam + IZR i) * W (lam + 1) i b + sqrt (lam + IZR i) * sqrt (IZR i) * W (lam + 1) (i - 1) b)%R by ring.
  replace (sqrt (IZR i + 1) * (sqrt (lam + (IZR i + 1)) * W (lam + 1) (i + 1) b + sqrt (IZR i + 1) * W (lam + 1) i b))%R
    with (sqrt (IZR i + 1) * sqrt (lam + (IZR i + 1)) * W (lam + 1) (i + 1) b + sqrt (IZR i + 1) * sqrt (IZR i + 1) * W (lam + 1) i b)%R by ring.
  rewrite S1, S2. field.
Qed.

(** 1/beta, as a finite expansion. *)
Notation iml := (v_bm_ml Gamma).
Lemma iml_diag lam i : (0 < lam)%R -> 0 <= i -> iml (lam + 1) i i = (/ sqrt (lam + IZR i))%R.
Proof.
  intros Hl Hi. pose proof (IZR_nonneg _ Hi). unfold v_bm_ml. replace (i <? i) with false by lia. rewrite sg_sq.
  replace (lam + 1 - 1)%R with lam by ring. rewrite (av_lam Gamma gamma_like_Gamma) by assumption.
  pose proof (av_pos Gamma gamma_like_Gamma lam i Hl Hi). assert (0 < sqrt (lam + IZR i))%R by (apply sqrt_lt_R0; lra). field. lra.
Qed.
Lemma iml_next lam k i : (0 < lam)%R -> 0 <= k -> 0 <= i -> k <= i ->
  iml (lam + 1) k (i + 1) = (- (sqrt (IZR i + 1) / sqrt (lam + IZR i + 1)) * iml (lam + 1) k i)%R.
Proof.
  intros Hl Hk Hi Hki. pose proof (IZR_nonneg _ Hi). unfold v_bm_ml.
  replace (i + 1 <? k) with false by lia. replace (i <? k) with false by lia. rewrite sg_succ.
  replace (lam + 1 - 1)%R with lam by ring.
  pose proof (av_mu Gamma gamma_like_Gamma (lam + 1) i ltac:(lra) Hi) as M.
  replace (lam + 1 + IZR i)%R with (lam + IZR i + 1)%R in M by ring.
  assert (0 < sqrt (lam + IZR i + 1))%R by (apply sqrt_lt_R0; lra). assert (0 < sqrt (IZR i + 1))%R by (apply sqrt_lt_R0; lra).
  pose proof (av_pos Gamma gamma_like_Gamma (lam + 1) i ltac:(lra) Hi). pose proof (av_pos Gamma gamma_like_Gamma (lam + 1) (i + 1) ltac:(lra) ltac:(lia)).
  assert (E : (sqrt (IZR i + 1) / sqrt (lam + IZR i + 1) / av Gamma (lam + 1) i = / av Gamma (lam + 1) (i + 1))%R).
  { apply (Rmult_eq_reg_l (sqrt (lam + IZR i + 1) * av Gamma (lam + 1) i * av Gamma (lam + 1) (i + 1))).
    - transitivity (sqrt (IZR i + 1) * av Gamma (lam + 1) (i + 1))%R; [field; lra|]. rewrite M. field. lra.
    - apply Rgt_not_eq. repeat apply Rmult_lt_0_compat; assumption. }
  unfold Rdiv in *. rewrite <- E. ring.
Qed.
Lemma W_inv_nat lam b (Hl : (0 < lam)%R) (Hb : (0 < b)%R) : forall n,
  (W (lam + 1) (Z.of_nat n) b / b = rsum (fun k => iml (lam + 1) k (Z.of_nat n) * W lam k b) (S n))%R.
Proof.
  induction n as [|n IH].
  - cbn [rsum]. change (Z.of_nat 0) with 0. rewrite iml_diag by (assumption || lia).
    pose proof (W_pl lam 0 b Hl ltac:(lia) Hb) as M. rewrite sqrt_0 in M. assert (0 < sqrt (lam + 0))%R by (apply sqrt_lt_R0; lra).
    apply (Rmult_eq_reg_l (b * sqrt (lam + 0))); [|apply Rgt_not_eq; now apply Rmult_lt_0_compat].
    transitivity (sqrt (lam + 0) * W (lam + 1) 0 b)%R; [field; lra|].
    transitivity (b * W lam 0 b)%R; [rewrite M; ring|field; lra].
  - change (rsum (fun k => iml (lam + 1) k (Z.of_nat (S n)) * W lam k b)%R (S (S n)))
      with (rsum (fun k => iml (lam + 1) k (Z.of_nat (S n)) * W lam k b)%R (S n) + iml (lam + 1) (Z.of_nat (S n)) (Z.of_nat (S n)) * W lam (Z.of_nat (S n)) b)%R.
    rewrite iml_diag by (assumption || lia). replace (Z.of_nat (S n)) with (Z.of_nat n + 1) by lia.
    rewrite (rsum_ext _ (fun k => - (sqrt (IZR (Z.of_nat n) + 1) / sqrt (lam + IZR (Z.of_nat n) + 1)) * (iml (lam + 1) k (Z.of_nat n) * W lam k b))%R)
      by (intros k Hk; rewrite iml_next by (assumption || lia); ring).
    rewrite rsum_scal, <- IH. pose proof (W_pl lam (Z.of_nat n + 1) b Hl ltac:(lia) Hb) as M. rewrite plus_IZR in *.
    replace (Z.of_nat n + 1 - 1) with (Z.of_nat n) in M by lia. rewrite <- !Rplus_assoc in *.
    pose proof (IZR_nonneg (Z.of_nat n) ltac:(lia)). assert (0 < sqrt (lam + IZR (Z.of_nat n) + 1))%R by (apply sqrt_lt_R0; lra).
    set (s := sqrt (lam + IZR (Z.of_nat n) + 1)) in *.
    apply (Rmult_eq_reg_l (b * s)); [|apply Rgt_not_eq; now apply Rmult_lt_0_compat].
    transitivity (s * W (lam + 1) (Z.of_nat n + 1) b)%R; [field; lra|].
    transitivity (b * W lam (Z.of_nat n + 1) b - sqrt (IZR (Z.of_nat n) + 1) * W (lam + 1) (Z.of_nat n) b)%R; [rewrite M; ring|field; lra].
Qed.
Lemma W_inv lam i b (N : nat) : (0 < lam)%R -> 0 <= i -> (0 < b)%R -> i < Z.of_nat N ->
  (W (lam + 1) i b / b = rsum (fun k => iml (lam + 1) k i * W lam k b) N)%R.
Proof.
  intros Hl Hi Hb HN. pose proof (W_inv_nat lam b Hl Hb (Z.to_nat i)) as E. rewrite Z2Nat.id in E by assumption. rewrite E.
  symmetry. apply rsum_cut; [lia|]. intros k Hk. unfold v_bm_ml. replace (i <? k) with true by lia. ring.
Qed.

(** ** Sums and integrals *)

Lemma integral_rsum (F : Z -> R -> R) (v : Z -> R) n :
  (forall k, 0 <= k < Z.of_nat n -> integral (F k) (v k)) -> integral (fun b => rsum (fun k => F k b) n) (rsum v n).
Proof.
  induction n as [|n IH]; intros H; cbn [rsum]; [apply integral_zero|].
  apply (integral_plus (fun b => rsum (fun k => F k b) n) (F (Z.of_nat n))); [|apply H; lia]. apply IH. intros. apply H. lia.
Qed.

(** The overlap of a basis function with a finite expansion is the coefficient. *)
Lemma integral_expansion lam f (c : Z -> R) (g : R -> R) n : (0 < lam)%R -> 0 <= f < Z.of_nat n ->
  (forall b, (0 < b)%R -> g b = rsum (fun k => c k * W lam k b)%R n) ->
  integral (fun b => W lam f b * g b)%R (c f).
Proof.
  intros Hl Hf Hg. apply (integral_ext (fun b => rsum (fun k => c k * (W lam f b * W lam k b)) n)%R).
  - intros b Hb. rewrite Hg by exact Hb. rewrite <- rsum_scal. apply rsum_ext. intros. ring.
  - replace (c f) with (rsum (fun k => c k * rid f k)%R n).
    + apply (integral_rsum (fun k b => c k * (W lam f b * W lam k b))%R). intros k Hk. apply integral_scal. apply W_ortho; lia || assumption.
    + rewrite (rsum_single _ _ f) by (lia || (intros k Hk Hn; unfold rid; replace (f =? k) with false by lia; ring)).
      unfold rid. rewrite Z.eqb_refl. ring.
Qed.
(** Two finite expansions. *)
Lemma integral_product lam (c d : Z -> R) (g h : R -> R) n : (0 < lam)%R ->
  (forall b, (0 < b)%R -> g b = rsum (fun k => c k * W lam k b)%R n) ->
  (forall b, (0 < b)%R -> h b = rsum (fun k => d k * W lam k b)%R n) ->
  integral (fun b => g b * h b)%R (rsum (fun k => c k * d k)%R n).
Proof.
  intros Hl Hg Hh. apply (integral_ext (fun b => rsum (fun k => c k * (W lam k b * h b)) n)%R).
  - intros b Hb. rewrite Hg by exact Hb. rewrite Rmult_comm, <- rsum_scal. apply rsum_ext. intros. ring.
  - apply (integral_rsum (fun k b => c k * (W lam k b * h b))%R). intros k Hk. apply integral_scal.
    apply (integral_expansion lam k d h n); [assumption|lia|exact Hh].
Qed.

(** ** The second derivative *)

Lemma step_derive (f g h : R -> R) c s t b df dg dh : (0 < b)%R -> is_derive f b df -> is_derive g b dg -> is_derive h b dh ->
  is_derive (fun x => c * (f x / x) + (s * g x - t * h x))%R b (c * (df / b - f b / (b * b)) + (s * dg - t * dh))%R.
Proof.
  intros Hb Hf Hg Hh.
  auto_derive.
  - repeat split; try (eexists; eassumption). lra.
  - change (Derive (fun x => f x) b) with (Derive f b). change (Derive (fun x => g x) b) with (Derive g b).
    change (Derive (fun x => h x) b) with (Derive h b).
    rewrite (is_derive_unique f b df Hf), (is_derive_unique g b dg Hg), (is_derive_unique h b dh Hh).
    apply (Rmult_eq_reg_l 1); [|lra]. field. lra.
Qed.

Lemma W_neg lam : W lam (-1) = W lam 0.
Proof. reflexivity. Qed.

Lemma near_pos b : (0 < b)%R -> locally b (fun x => 0 < x)%R.
Proof.
  intros Hb. exists (mkposreal b Hb). intros y Hy. unfold ball in Hy. cbn in Hy. unfold AbsRing_ball, abs, minus, plus, opp in Hy. cbn in Hy.
  apply Rabs_def2 in Hy. lra.
Qed.

Definition d2stuff (lam : R) (i : Z) (b : R) : R :=
  (pv lam (i - 1) * W lam (i - 1) b - (lam + 2 * IZR i) * W lam i b + pv lam i * W lam (i + 1) b)%R.

Lemma W_diff2 lam i b : (0 < lam)%R -> 0 <= i -> (0 < b)%R ->
  is_derive (Derive (W lam i)) b ((lam - 3 / 2) * (lam - 1 / 2) * (W lam i b / b / b) + d2stuff lam i b)%R.
Proof.
  intros Hl Hi Hb. pose proof (IZR_nonneg _ Hi).
  apply (is_derive_ext_loc (fun x => (lam - 1 / 2) * (W lam i x / x) + (sqrt (IZR i) * W (lam + 1) (i - 1) x - sqrt (lam + IZR i) * W (lam + 1) i x))%R).
  { eapply filter_imp; [|exact (near_pos b Hb)]. intros x Hx. symmetry. apply is_derive_unique. now apply W_diff_pl. }
  pose proof (W_diff_pl lam i b Hl Hi Hb) as D1. pose proof (W_diff_ml lam i b Hl Hi Hb) as D3.
  pose proof (sqrt_sqrt (lam + IZR i) ltac:(lra)) as S1. pose proof (sqrt_sqrt (IZR i) ltac:(lra)) as S2.
  unfold d2stuff, pv. rewrite minus_IZR. rewrite (sqrt_mult (lam + IZR i)) by lra.
  destruct (Z.eq_dec i 0) as [->|Hn].
  - change (0 - 1) with (-1) in *. rewrite W_neg in *. rewrite sqrt_0 in *. replace ((lam + (0 - 1)) * (0 - 1 + 1))%R with 0%R by ring. rewrite sqrt_0.
    pose proof (step_derive _ _ _ (lam - 1 / 2) 0 (sqrt (lam + 0)) b _ _ _ Hb D1 D3 D3) as K.
    match goal with |- is_derive _ _ ?t => match type of K with is_derive _ _ ?u => replace t with u; [exact K|] end end.
    match goal with |- ?l = ?r => apply (Rmult_eq_reg_l 1); [|lra] end.
    replace (lam + 2 * 0)%R with (sqrt (lam + 0) * sqrt (lam + 0))%R by (rewrite S1; ring). field. lra.
  - assert (1 <= IZR i)%R by (apply IZR_le; lia).
    pose proof (W_diff_ml lam (i - 1) b Hl ltac:(lia) Hb) as D2. replace (i - 1 + 1) with i in D2 by lia. rewrite minus_IZR in D2.
    replace (IZR i - 1 + 1)%R with (IZR i) in * by ring. rewrite (sqrt_mult (lam + (IZR i - 1))) by lra.
    pose proof (step_derive _ _ _ (lam - 1 / 2) (sqrt (IZR i)) (sqrt (lam + IZR i)) b _ _ _ Hb D1 D2 D3) as K.
    match goal with |- is_derive _ _ ?t => match type of K with is_derive _ _ ?u => replace t with u; [exact K|] end end.
    match goal with |- ?l = ?r => apply (Rmult_eq_reg_l 1); [|lra] end.
    replace (lam + 2 * IZR i)%R with (sqrt (lam + IZR i) * sqrt (lam + IZR i) + sqrt (IZR i) * sqrt (IZR i))%R by (rewrite S1, S2; ring). field. lra.
Qed.

(** ** Matrix elements at unit width *)

Definition el (lam' : R) (g : Z -> R -> R) (M : rmat) : Prop :=
  forall f i, 0 <= f -> 0 <= i -> integral (fun b => W lam' f b * g i b)%R (M f i).

Lemma el_ext lam' g g' M M' : (forall i b, 0 <= i -> (0 < b)%R -> g i b = g' i b) -> req M M' -> el lam' g M -> el lam' g' M'.
Proof.
  intros Hg HM H f i Hf Hi. rewrite <- HM by assumption. eapply integral_ext; [|exact (H f i Hf Hi)].
  intros b Hb. cbv beta. now rewrite Hg.
Qed.
Lemma el_plus lam' g h M N : el lam' g M -> el lam' h N -> el lam' (fun i b => g i b + h i b)%R (radd M N).
Proof.
  intros HM HN f i Hf Hi. eapply integral_ext; [|exact (integral_plus _ _ _ _ (HM f i Hf Hi) (HN f i Hf Hi))].
  intros b Hb. cbv beta. ring.
Qed.
Lemma el_scal lam' (c : Z -> R) g M : el lam' g M -> el lam' (fun i b => c i * g i b)%R (fun f i => c i * M f i)%R.
Proof.
  intros HM f i Hf Hi. eapply integral_ext; [|exact (integral_scal _ (c i) _ (HM f i Hf Hi))].
  intros b Hb. cbv beta. ring.
Qed.
(** One basis function. *)
Lemma el_W lam (c : Z -> R) (s : Z -> Z) : (0 < lam)%R -> (forall i, 0 <= i -> c i = 0%R \/ 0 <= s i) ->
  el lam (fun i b => c i * W lam (s i) b)%R (fun f i => c i * rid f (s i))%R.
Proof.
  intros Hl Hs f i Hf Hi. destruct (Hs i Hi) as [E|E].
  - rewrite E, Rmult_0_l. eapply integral_ext; [|exact integral_zero]. intros. cbv beta. ring.
  - eapply integral_ext; [|exact (integral_scal _ (c i) _ (W_ortho lam f (s i) Hl Hf E))]. intros. cbv beta. ring.
Qed.

Lemma zero_or_pred i : 0 <= i -> sqrt (IZR i) = 0%R \/ 0 <= i - 1.
Proof. intros H. destruct (Z.eq_dec i 0) as [->|]; [left; apply sqrt_0|right; lia]. Qed.
Lemma zero_or_pred' lam i : 0 <= i -> pv lam (i - 1) = 0%R \/ 0 <= i - 1.
Proof. intros H. destruct (Z.eq_dec i 0) as [->|]; [left; apply pv_m1|right; lia]. Qed.

Ltac entries := intros f i Hf Hi; unfold radd, rsub, rscale, rtr, rid in *; eqbs; try lra; try ring.

Lemma el_b_pl lam : (0 < lam)%R -> el (lam + 1) (fun i b => b * W lam i b)%R (v_b_pl lam).
Proof.
  intros Hl. eapply el_ext; [| |exact (el_plus _ _ _ _ _ (el_W (lam + 1) (fun i => sqrt (lam + IZR i)) (fun i => i) ltac:(lra) ltac:(now right))
     (el_W (lam + 1) (fun i => sqrt (IZR i)) (fun i => i - 1) ltac:(lra) (fun i Hi => zero_or_pred i Hi)))].
  - intros i b Hi Hb. cbv beta. now rewrite W_pl.
  - unfold v_b_pl. entries.
Qed.
Lemma el_b_ml lam : (0 < lam)%R -> el lam (fun i b => b * W (lam + 1) i b)%R (v_b_ml (lam + 1)).
Proof.
  intros Hl. eapply el_ext; [| |exact (el_plus _ _ _ _ _ (el_W lam (fun i => sqrt (IZR i + 1)) (fun i => i + 1) Hl ltac:(intros; right; lia))
     (el_W lam (fun i => sqrt (lam + IZR i)) (fun i => i) Hl ltac:(now right)))].
  - intros i b Hi Hb. cbv beta. now rewrite W_ml.
  - unfold v_b_ml. replace (lam + 1 - 1)%R with lam by ring. entries; rewrite ?plus_IZR; lra.
Qed.
Lemma el_bm_ml lam : (0 < lam)%R -> el lam (fun i b => W (lam + 1) i b / b)%R (iml (lam + 1)).
Proof.
  intros Hl f i Hf Hi. apply (integral_expansion lam f (fun k => iml (lam + 1) k i) _ (Z.to_nat (Z.max f i + 1))); [assumption|lia|].
  intros b Hb. apply W_inv; assumption || lia.
Qed.
Lemma el_bm_pl lam : (0 < lam)%R -> el (lam + 1) (fun i b => W lam i b / b)%R (v_bm_pl Gamma lam).
Proof.
  intros Hl f i Hf Hi. replace (v_bm_pl Gamma lam f i) with (iml (lam + 1) i f) by (apply (bm_pl_ml_tr Gamma lam Hl); assumption).
  eapply integral_ext; [|exact (el_bm_ml lam Hl i f Hi Hf)]. intros b Hb. cbv beta. field. lra.
Qed.
Lemma el_bm2 lam : (0 < lam)%R -> el (lam + 1) (fun i b => W (lam + 1) i b / b / b)%R (v_bm2 Gamma (lam + 1)).
Proof.
  intros Hl f i Hf Hi. set (N := Z.to_nat (Z.max f i + 2)).
  pose proof (integral_product lam (fun k => iml (lam + 1) k f) (fun k => iml (lam + 1) k i) (fun b => W (lam + 1) f b / b)%R (fun b => W (lam + 1) i b / b)%R N Hl
     ltac:(intros; apply W_inv; assumption || lia) ltac:(intros; apply W_inv; assumption || lia)) as P.
  rewrite (rsum_ext _ (fun k => v_bm_pl Gamma lam f k * iml (lam + 1) k i)%R) in P.
  2: { intros k Hk. f_equal. apply (bm_pl_ml_tr Gamma lam Hl); lia. }
  rewrite (bm_pl_bm_ml Gamma gamma_like_Gamma lam Hl f i N Hf Hi ltac:(lia)) in P.
  eapply integral_ext; [|exact P]. intros b Hb. cbv beta. field. lra.
Qed.
Lemma el_Db_pl lam : (0 < lam)%R -> el (lam + 1) (fun i b => Derive (W lam i) b) (v_Db_pl Gamma lam).
Proof.
  intros Hl. eapply el_ext; [| |exact (el_plus _ _ _ _ _ (el_scal _ (fun _ => lam - 1 / 2)%R _ _ (el_bm_pl lam Hl))
     (el_plus _ _ _ _ _ (el_W (lam + 1) (fun i => sqrt (IZR i)) (fun i => i - 1) ltac:(lra) (fun i Hi => zero_or_pred i Hi))
       (el_W (lam + 1) (fun i => - sqrt (lam + IZR i))%R (fun i => i) ltac:(lra) ltac:(now right))))].
  - intros i b Hi Hb. cbv beta. rewrite (is_derive_unique _ _ _ (W_diff_pl lam i b Hl Hi Hb)). ring.
  - unfold v_Db_pl. entries.
Qed.
Lemma el_Db_ml lam : (0 < lam)%R -> el lam (fun i b => Derive (W (lam + 1) i) b) (v_Db_ml Gamma (lam + 1)).
Proof.
  intros Hl. eapply el_ext; [| |exact (el_plus _ _ _ _ _ (el_scal _ (fun _ => 1 / 2 - lam)%R _ _ (el_bm_ml lam Hl))
     (el_plus _ _ _ _ _ (el_W lam (fun i => sqrt (lam + IZR i)) (fun i => i) Hl ltac:(now right))
       (el_W lam (fun i => - sqrt (IZR i + 1))%R (fun i => i + 1) Hl ltac:(intros; right; lia))))].
  - intros i b Hi Hb. cbv beta. rewrite (is_derive_unique _ _ _ (W_diff_ml lam i b Hl Hi Hb)). ring.
  - unfold v_Db_ml. replace (lam + 1 - 1)%R with lam by ring. entries; rewrite ?plus_IZR; lra.
Qed.
Lemma el_stuff lam : (0 < lam)%R -> el lam (d2stuff lam)
  (fun f i => if f =? i - 1 then pv lam f else if f =? i then - lam - 2 * IZR i else if f =? i + 1 then pv lam i else 0)%R.
Proof.
  intros Hl. eapply el_ext; [| |exact (el_plus _ _ _ _ _ (el_W lam (fun i => pv lam (i - 1)) (fun i => i - 1) Hl (fun i Hi => zero_or_pred' lam i Hi))
     (el_plus _ _ _ _ _ (el_W lam (fun i => - (lam + 2 * IZR i))%R (fun i => i) Hl ltac:(now right))
       (el_W lam (fun i => pv lam i) (fun i => i + 1) Hl ltac:(intros; right; lia))))].
  - intros i b Hi Hb. unfold d2stuff. ring.
  - entries.
Qed.
Lemma el_D2b lam : (1 < lam)%R -> el lam (fun i b => Derive (Derive (W lam i)) b) (v_D2b Gamma lam).
Proof.
  intros Hl. pose proof (el_bm2 (lam - 1) ltac:(lra)) as B. replace (lam - 1 + 1)%R with lam in B by ring.
  eapply el_ext; [| |exact (el_plus _ _ _ _ _ (el_stuff lam ltac:(lra)) (el_scal _ (fun _ => (lam - 3 / 2) * (lam - 1 / 2))%R _ _ B))].
  - intros i b Hi Hb. cbv beta. rewrite (is_derive_unique _ _ _ (W_diff2 lam i b ltac:(lra) Hi Hb)). ring.
  - unfold v_D2b. entries.
Qed.
Lemma el_bDb lam : (0 < lam)%R -> el lam (fun i b => b * Derive (W lam i) b)%R (v_bDb lam).
Proof.
  intros Hl. eapply el_ext; [| |exact (el_plus _ _ _ _ _ (el_W lam (fun i => pv lam (i - 1)) (fun i => i - 1) Hl (fun i Hi => zero_or_pred' lam i Hi))
     (el_plus _ _ _ _ _ (el_W lam (fun i => - (1 / 2))%R (fun i => i) Hl ltac:(now right))
       (el_W lam (fun i => - pv lam i)%R (fun i => i + 1) Hl ltac:(intros; right; lia))))].
  - intros i b Hi Hb. cbv beta. destruct (W_derive lam i b Hl Hi Hb) as (d & D & E). rewrite (is_derive_unique _ _ _ D), E. ring.
  - unfold v_bDb. entries.
Qed.
Lemma W_b2 lam i b : (0 < lam)%R -> 0 <= i -> (0 < b)%R ->
  (b * (b * W lam i b) = pv lam (i - 1) * W lam (i - 1) b + (lam + 2 * IZR i) * W lam i b + pv lam i * W lam (i + 1) b)%R.
Proof.
  intros Hl Hi Hb. pose proof (IZR_nonneg _ Hi). rewrite W_pl by assumption.
  transitivity (sqrt (lam + IZR i) * (b * W (lam + 1) i b) + sqrt (IZR i) * (b * W (lam + 1) (i - 1) b))%R; [ring|].
  rewrite (W_ml lam i) by assumption. unfold pv. rewrite minus_IZR, (sqrt_mult (lam + IZR i)) by lra.
  pose proof (sqrt_sqrt (lam + IZR i) ltac:(lra)) as S1. pose proof (sqrt_sqrt (IZR i) ltac:(lra)) as S2.
  replace (lam + 2 * IZR i)%R with (sqrt (lam + IZR i) * sqrt (lam + IZR i) + sqrt (IZR i) * sqrt (IZR i))%R by (rewrite S1, S2; ring).
  destruct (Z.eq_dec i 0) as [->|Hn].
  - replace ((lam + (0 - 1)) * (0 - 1 + 1))%R with 0%R by ring. rewrite sqrt_0. ring.
  - assert (1 <= IZR i)%R by (apply IZR_le; lia). rewrite (W_ml lam (i - 1)) by (assumption || lia).
    rewrite minus_IZR. replace (i - 1 + 1) with i by lia. replace (IZR i - 1 + 1)%R with (IZR i) by ring. rewrite (sqrt_mult (lam + (IZR i - 1))) by lra. ring.
Qed.
Lemma el_b2 lam : (0 < lam)%R -> el lam (fun i b => b * (b * W lam i b))%R (v_b2 lam).
Proof.
  intros Hl. eapply el_ext; [| |exact (el_plus _ _ _ _ _ (el_W lam (fun i => pv lam (i - 1)) (fun i => i - 1) Hl (fun i Hi => zero_or_pred' lam i Hi))
     (el_plus _ _ _ _ _ (el_W lam (fun i => lam + 2 * IZR i)%R (fun i => i) Hl ltac:(now right))
       (el_W lam (fun i => pv lam i) (fun i => i + 1) Hl ltac:(intros; right; lia))))].
  - intros i b Hi Hb. rewrite W_b2 by assumption. ring.
  - unfold v_b2. entries.
Qed.
Lemma el_one lam : (0 < lam)%R -> el lam (W lam) rid.
Proof. intros Hl f i Hf Hi. now apply W_ortho. Qed.

(** Different lambdas of the same parity. *)
Lemma W_two lam f b (N : nat) : (0 < lam)%R -> 0 <= f -> (0 < b)%R -> f + 2 <= Z.of_nat N ->
  W (lam + 2 * INR 1) f b = rsum (fun k => v_id Gamma 1 lam f k * W lam k b)%R N.
Proof.
  intros Hl Hf Hb HN. change (INR 1) with 1%R. replace (lam + 2 * 1)%R with (lam + 1 + 1)%R by ring.
  transitivity (b * (W (lam + 1 + 1) f b / b))%R; [field; lra|].
  rewrite (W_inv (lam + 1) f b N) by (lra || lia). rewrite <- rsum_scal.
  rewrite (rsum_ext _ (fun k => v_bm_pl Gamma (lam + 1) f k * rsum (fun j => v_b_pl lam k j * W lam j b) N)%R).
  - rewrite (rsum_ext _ (fun k => rsum (fun j => v_bm_pl Gamma (lam + 1) f k * v_b_pl lam k j * W lam j b) N)%R)
      by (intros k Hk; rewrite <- rsum_scal; apply rsum_ext; intros; ring).
    rewrite rsum_swap. apply rsum_ext. intros j Hj.
    rewrite (rsum_ext _ (fun k => W lam j b * (v_bm_pl Gamma (lam + 1) f k * v_b_pl lam k j))%R) by (intros; ring).
    rewrite rsum_scal, (id_1_ladders Gamma gamma_like_Gamma lam Hl f j N Hf) by lia. ring.
  - intros k Hk. replace (iml (lam + 1 + 1) k f) with (v_bm_pl Gamma (lam + 1) f k) by (symmetry; apply (bm_pl_ml_tr Gamma (lam + 1)); lra || lia).
    destruct (Z_lt_le_dec f k) as [L|L].
    { unfold v_bm_pl. replace (f <? k) with true by lia. ring. }
    transitivity (v_bm_pl Gamma (lam + 1) f k * (b * W (lam + 1) k b))%R; [ring|]. f_equal.
    rewrite W_ml by (assumption || lia). symmetry. rewrite (rsum_two _ N k).
    + unfold v_b_pl. replace (k =? k - 1) with false by lia. rewrite Z.eqb_refl. replace (k =? k + 1 - 1) with true by lia. rewrite plus_IZR. ring.
    + lia.
    + lia.
    + intros j Hj H1 H2. unfold v_b_pl. replace (k =? j - 1) with false by lia. replace (k =? j) with false by lia. ring.
Qed.

Lemma el_id lam r : (0 < lam)%R -> el (lam + 2 * INR r) (W lam) (v_id Gamma r lam).
Proof.
  intros Hl. induction r as [|r IH]; intros f i Hf Hi.
  - change (INR 0) with 0%R. replace (lam + 2 * 0)%R with lam by ring. replace (v_id Gamma 0 lam f i) with (rid f i); [now apply W_ortho|].
    unfold v_id, rid. cbn [Qx]. change (INR 0) with 0%R. replace (lam + 2 * 0)%R with lam by ring.
    destruct (Z.eqb_spec f i); [subst|ring]. rewrite sg_sq. pose proof (av_pos Gamma gamma_like_Gamma lam i Hl Hi). field. lra.
  - pose proof (pos_INR r). set (N := Z.to_nat (f + 2)).
    rewrite <- (id_compose Gamma gamma_like_Gamma lam r Hl f i N Hf Hi ltac:(lia)).
    apply (integral_ext (fun b => rsum (fun k => v_id Gamma 1 (lam + 2 * INR r) f k * (W (lam + 2 * INR r) k b * W lam i b)) N)%R).
    + intros b Hb. replace (lam + 2 * INR (S r))%R with (lam + 2 * INR r + 2 * INR 1)%R by (rewrite (S_INR r); change (INR 1) with 1%R; ring).
      rewrite (W_two (lam + 2 * INR r) f b N) by (lra || lia). rewrite (Rmult_comm (rsum _ _) (W lam i b)), <- rsum_scal. apply rsum_ext. intros. ring.
    + apply (integral_rsum (fun k b => v_id Gamma 1 (lam + 2 * INR r) f k * (W (lam + 2 * INR r) k b * W lam i b))%R).
      intros k Hk. apply integral_scal. apply IH; lia.
Qed.
Lemma el_id_ml lam r : (0 < lam)%R -> el lam (W (lam + 2 * INR r)) (rtr (v_id Gamma r lam)).
Proof.
  intros Hl f i Hf Hi. eapply integral_ext; [|exact (el_id lam r Hl i f Hi Hf)]. intros. cbv beta. ring.
Qed.

(** ** Width *)

Lemma wave_W a lam nu b : wave a lam nu b = (sqrt a * W lam nu (a * b))%R.
Proof. unfold wave, W, waveN. ring. Qed.

Lemma dilate_derive (f : R -> R) c a b d : is_derive f (a * b)%R d -> is_derive (fun x => c * f (a * x))%R b (c * (a * d))%R.
Proof.
  intros H. auto_derive; [eexists; exact H|].
  change (Derive (fun x => f x) (a * b)%R) with (Derive f (a * b)%R). rewrite (is_derive_unique f _ d H).
  apply (Rmult_eq_reg_l 1); [|lra]. ring.
Qed.

Lemma wave_derive1 a lam i b : (0 < a)%R -> (0 < lam)%R -> 0 <= i -> (0 < b)%R ->
  is_derive (wave a lam i) b (a * (sqrt a * Derive (W lam i) (a * b)))%R.
Proof.
  intros Ha Hl Hi Hb. assert (0 < a * b)%R by now apply Rmult_lt_0_compat.
  apply (is_derive_ext (fun x => sqrt a * W lam i (a * x))%R); [intros; symmetry; apply wave_W|].
  replace (a * (sqrt a * Derive (W lam i) (a * b)))%R with (sqrt a * (a * Derive (W lam i) (a * b)))%R by ring.
  apply dilate_derive. apply Derive_correct. eexists. now apply W_diff_pl.
Qed.
Lemma wave_derive2 a lam i b : (0 < a)%R -> (0 < lam)%R -> 0 <= i -> (0 < b)%R ->
  is_derive (Derive (wave a lam i)) b (a * a * (sqrt a * Derive (Derive (W lam i)) (a * b)))%R.
Proof.
  intros Ha Hl Hi Hb. assert (0 < a * b)%R by now apply Rmult_lt_0_compat.
  apply (is_derive_ext_loc (fun x => a * sqrt a * Derive (W lam i) (a * x))%R).
  { eapply filter_imp; [|exact (near_pos b Hb)]. intros x Hx. symmetry. rewrite (is_derive_unique _ _ _ (wave_derive1 a lam i x Ha Hl Hi Hx)). apply (Rmult_eq_reg_l 1); [|lra]. ring. }
  replace (a * a * (sqrt a * Derive (Derive (W lam i)) (a * b)))%R with (a * sqrt a * (a * Derive (Derive (W lam i)) (a * b)))%R by ring.
  apply dilate_derive. apply Derive_correct. eexists. now apply W_diff2.
Qed.

Lemma el_elements a lam' lam (T : fop) g M s : (0 < a)%R -> el lam' g M ->
  (forall i b, 0 <= i -> (0 < b)%R -> T (wave a lam i) b = (s * (sqrt a * g i (a * b)))%R) ->
  elements a lam' lam T (rscale s M).
Proof.
  intros Ha H HT f i Hf Hi. pose proof (integral_scal _ s _ (integral_dilate _ a _ Ha (H f i Hf Hi))) as K.
  eapply integral_ext; [|exact K]. intros b Hb. cbv beta. rewrite HT by assumption. rewrite wave_W.
  rewrite <- (sqrt_sqrt a) at 1 by lra. ring.
Qed.
Lemma elements_req a lam' lam T M M' : req M M' -> elements a lam' lam T M -> elements a lam' lam T M'.
Proof. intros E H f i Hf Hi. rewrite <- E by assumption. now apply H. Qed.

Lemma el_Sp lam : (0 < lam)%R -> el lam (fun i b => pv lam i * W lam (i + 1) b)%R (v_Sp lam).
Proof.
  intros Hl. eapply el_ext; [| |exact (el_W lam (fun i => pv lam i) (fun i => i + 1) Hl ltac:(intros; right; lia))]; [reflexivity|].
  unfold v_Sp. entries.
Qed.
Lemma el_Sm lam : (0 < lam)%R -> el lam (fun i b => pv lam (i - 1) * W lam (i - 1) b)%R (v_Sm lam).
Proof.
  intros Hl. eapply el_ext; [| |exact (el_W lam (fun i => pv lam (i - 1)) (fun i => i - 1) Hl (fun i Hi => zero_or_pred' lam i Hi))]; [reflexivity|].
  unfold v_Sm. entries.
Qed.
Lemma el_S0 lam : (0 < lam)%R -> el lam (fun i b => (lam / 2 + IZR i) * W lam i b)%R (v_S0 lam).
Proof.
  intros Hl. eapply el_ext; [| |exact (el_W lam (fun i => lam / 2 + IZR i)%R (fun i => i) Hl ltac:(now right))]; [reflexivity|].
  unfold v_S0. entries.
Qed.

(** What the operators do, in the scaled variable. *)
Lemma wave_D a lam i b : (0 < a)%R -> (0 < lam)%R -> 0 <= i -> (0 < b)%R ->
  op_D a lam (wave a lam i) b = (sqrt a * d2stuff lam i (a * b))%R.
Proof.
  intros Ha Hl Hi Hb. assert (Hab : (0 < a * b)%R) by now apply Rmult_lt_0_compat. unfold op_D.
  rewrite (is_derive_unique _ _ _ (wave_derive2 a lam i b Ha Hl Hi Hb)), (is_derive_unique _ _ _ (W_diff2 lam i (a * b)%R Hl Hi Hab)), wave_W.
  field. lra.
Qed.
Lemma wave_x2 a lam i b : (0 < a)%R -> (0 < lam)%R -> 0 <= i -> (0 < b)%R ->
  (a * b * (a * b) * wave a lam i b = sqrt a * (pv lam (i - 1) * W lam (i - 1) (a * b) + (lam + 2 * IZR i) * W lam i (a * b) + pv lam i * W lam (i + 1) (a * b)))%R.
Proof.
  intros Ha Hl Hi Hb. assert (Hab : (0 < a * b)%R) by now apply Rmult_lt_0_compat.
  rewrite <- (W_b2 lam i (a * b)%R Hl Hi Hab), wave_W. ring.
Qed.
Lemma wave_xD a lam i b : (0 < a)%R -> (0 < lam)%R -> 0 <= i -> (0 < b)%R ->
  (b * Derive (wave a lam i) b = sqrt a * (- (1 / 2) * W lam i (a * b) - pv lam i * W lam (i + 1) (a * b) + pv lam (i - 1) * W lam (i - 1) (a * b)))%R.
Proof.
  intros Ha Hl Hi Hb. assert (Hab : (0 < a * b)%R) by now apply Rmult_lt_0_compat.
  rewrite (is_derive_unique _ _ _ (wave_derive1 a lam i b Ha Hl Hi Hb)).
  destruct (W_derive lam i (a * b)%R Hl Hi Hab) as (d & D & E). rewrite <- E, (is_derive_unique _ _ _ D). ring.
Qed.
Lemma wave_S0 a lam i b : (0 < a)%R -> (0 < lam)%R -> 0 <= i -> (0 < b)%R ->
  op_S0 a lam (wave a lam i) b = (1 * (sqrt a * ((lam / 2 + IZR i) * W lam i (a * b))))%R.
Proof. intros. unfold op_S0. rewrite wave_x2, wave_D by assumption. unfold d2stuff. field. Qed.
Lemma wave_Sp a lam i b : (0 < a)%R -> (0 < lam)%R -> 0 <= i -> (0 < b)%R ->
  op_Sp a lam (wave a lam i) b = (1 * (sqrt a * (pv lam i * W lam (i + 1) (a * b))))%R.
Proof. intros. unfold op_Sp. rewrite wave_x2, wave_D, wave_xD, wave_W by assumption. unfold d2stuff. field. Qed.
Lemma wave_Sm a lam i b : (0 < a)%R -> (0 < lam)%R -> 0 <= i -> (0 < b)%R ->
  op_Sm a lam (wave a lam i) b = (1 * (sqrt a * (pv lam (i - 1) * W lam (i - 1) (a * b))))%R.
Proof. intros. unfold op_Sm. rewrite wave_x2, wave_D, wave_xD, wave_W by assumption. unfold d2stuff. field. Qed.
