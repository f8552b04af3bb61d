(** Integrals over all positive numbers, and Euler's integral. *)

From Coq Require Import Reals Lra Lia.
From Coquelicot Require Import Coquelicot.
Open Scope R_scope.

(** The integral of [f] from 0 to infinity is [l] (improper at both ends). *)
Definition integral (f : R -> R) (l : R) : Prop :=
  is_RInt_gen f (at_right 0) (Rbar_locally p_infty) l.

Lemma integral_intro f l :
  (forall eps, 0 < eps -> exists a0 b0, 0 < a0 /\ forall a b, 0 < a < a0 -> b0 < b -> exists y, is_RInt f a b y /\ Rabs (y - l) < eps) ->
  integral f l.
Proof.
  intros H P [eps HP]. destruct (H eps (cond_pos eps)) as (a0 & b0 & Ha & K).
  apply (Filter_prod _ _ _ (fun a => 0 < a < a0) (fun b => b0 < b)).
  - exists (mkposreal a0 Ha). intros y Hy Hy0. unfold ball in Hy. cbn in Hy. unfold AbsRing_ball, abs, minus, plus, opp in Hy. cbn in Hy.
    apply Rabs_def2 in Hy. lra.
  - exists b0. intros b Hb. exact Hb.
  - intros a b Ha' Hb'. destruct (K a b Ha' Hb') as (y & I & D). exists y. split; [exact I|]. apply HP. exact D.
Qed.
Lemma integral_elim f l : integral f l ->
  forall eps, 0 < eps -> exists a0 b0, 0 < a0 /\ forall a b, 0 < a < a0 -> b0 < b -> exists y, is_RInt f a b y /\ Rabs (y - l) < eps.
Proof.
  intros H eps He. assert (L : locally l (fun y => Rabs (y - l) < eps)).
  { exists (mkposreal eps He). intros y Hy. exact Hy. }
  destruct (H _ L) as [Q S [d HQ] [b0 HS] K]. exists (pos d), b0. split; [apply cond_pos|]. intros a b Ha Hb.
  apply K; [|now apply HS]. apply HQ; [|lra]. unfold ball. cbn. unfold AbsRing_ball, abs, minus, plus, opp. cbn.
  apply Rabs_def1; lra.
Qed.


Lemma integral_ext f g l : (forall x, 0 < x -> f x = g x) -> integral f l -> integral g l.
Proof.
  intros E H. apply integral_intro. intros eps He. destruct (integral_elim f l H eps He) as (a0 & b0 & Ha & K).
  exists a0, (Rmax b0 0). split; [exact Ha|]. intros a b Ha' Hb. pose proof (Rmax_l b0 0). pose proof (Rmax_r b0 0).
  destruct (K a b Ha') as (y & I & D); [lra|]. exists y. split; [|exact D].
  eapply is_RInt_ext; [|exact I]. intros x [Hx _]. apply E. unfold Rmin in Hx. destruct (Rle_dec a b); lra.
Qed.
Lemma integral_unique f l l' : integral f l -> integral f l' -> l = l'.
Proof.
  intros H H'. destruct (Req_dec l l') as [E|N]; [exact E|]. exfalso. set (eps := Rabs (l - l') / 2).
  assert (He : 0 < eps) by (unfold eps; pose proof (Rabs_pos_lt (l - l') ltac:(lra)); lra).
  destruct (integral_elim f l H eps He) as (a0 & b0 & Ha & K), (integral_elim f l' H' eps He) as (a1 & b1 & Ha1 & K1).
  pose (a := Rmin a0 a1 / 2). pose (b := Rmax b0 b1 + 1).
  assert (A : 0 < Rmin a0 a1) by (apply Rmin_glb_lt; assumption).
  pose proof (Rmin_l a0 a1). pose proof (Rmin_r a0 a1). pose proof (Rmax_l b0 b1). pose proof (Rmax_r b0 b1).
  destruct (K a b) as (y & I & D); [unfold a; lra|unfold b; lra|].
  destruct (K1 a b) as (y' & I' & D'); [unfold a; lra|unfold b; lra|].
  assert (y = y') as <- by (rewrite <- (is_RInt_unique _ _ _ _ I); now apply is_RInt_unique).
  unfold eps in *. unfold Rabs in *. repeat destruct Rcase_abs; lra.
Qed.
Lemma integral_plus f g l m : integral f l -> integral g m -> integral (fun x => f x + g x) (l + m).
Proof. intros H K. exact (is_RInt_gen_plus f g l m H K). Qed.
Lemma integral_scal f c l : integral f l -> integral (fun x => c * f x) (c * l).
Proof. intros H. exact (is_RInt_gen_scal f c l H). Qed.
Lemma integral_zero : integral (fun _ => 0) 0.
Proof.
  apply integral_intro. intros eps He. exists 1, 0. split; [lra|]. intros a b _ _. exists 0. split.
  - pose proof (is_RInt_const a b 0) as H. cbn in H. unfold scal in H. cbn in H. unfold mult in H. cbn in H. now rewrite Rmult_0_r in H.
  - rewrite Rminus_eq_0, Rabs_R0. exact He.
Qed.

(** Substitution: [x = c b], and [x = b^2]. *)
Lemma integral_dilate f c l : 0 < c -> integral f l -> integral (fun b => c * f (c * b)) l.
Proof.
  intros Hc H. apply integral_intro. intros eps He. destruct (integral_elim f l H eps He) as (a0 & b0 & Ha & K).
  exists (a0 / c), (b0 / c). split; [now apply Rdiv_lt_0_compat|]. intros a b Ha' Hb.
  destruct (K (c * a) (c * b)) as (y & I & D).
  - split; [apply Rmult_lt_0_compat; lra|]. replace a0 with (c * (a0 / c)) by (field; lra). apply Rmult_lt_compat_l; lra.
  - replace b0 with (c * (b0 / c)) by (field; lra). apply Rmult_lt_compat_l; lra.
  - exists y. split; [|exact D]. pose proof (is_RInt_comp_lin f c 0 a b y) as G. rewrite !Rplus_0_r in G. specialize (G I).
    eapply is_RInt_ext; [|exact G]. intros x _. cbn. unfold scal. cbn. unfold mult. cbn. now rewrite Rplus_0_r.
Qed.
Lemma integral_square f l : (forall x, 0 < x -> continuous f x) -> integral f l -> integral (fun b => 2 * b * f (b * b)) l.
Proof.
  intros Hf H. apply integral_intro. intros eps He. destruct (integral_elim f l H eps He) as (a0 & b0 & Ha & K).
  exists (Rmin a0 1), (Rmax b0 1). split; [apply Rmin_glb_lt; lra|]. intros a b Ha' Hb.
  pose proof (Rmin_l a0 1). pose proof (Rmin_r a0 1). pose proof (Rmax_l b0 1). pose proof (Rmax_r b0 1).
  assert (A : 0 < a * a < a0). { split; [apply Rmult_lt_0_compat; lra|]. assert (a * a < a * 1) by (apply Rmult_lt_compat_l; lra). lra. }
  assert (B : b0 < b * b). { assert (b * 1 < b * b) by (apply Rmult_lt_compat_l; lra). lra. }
  destruct (K (a * a) (b * b) A B) as (y & I & D). exists y. split; [|exact D].
  rewrite <- (is_RInt_unique _ _ _ _ I).
  pose proof (is_RInt_comp f (fun b => b * b) (fun b => 2 * b) a b) as G. cbn beta in G.
  eapply is_RInt_ext; [|apply G].
  - intros x _. reflexivity.
  - intros x [Hx _]. apply Hf. unfold Rmin in Hx. destruct (Rle_dec a b); apply Rmult_lt_0_compat; lra.
  - intros x _. split; [auto_derive; [exact Logic.I|ring]|]. apply (ex_derive_continuous (fun b => 2 * b)). auto_derive. exact Logic.I.
Qed.

(** A non-negative continuous function whose integrals over bounded intervals
    are bounded has an integral. *)
Lemma integral_exists f M : (forall x, 0 < x -> continuous f x) -> (forall x, 0 < x -> 0 <= f x) ->
  (forall a b, 0 < a -> a <= b -> RInt f a b <= M) -> exists l, integral f l /\ forall a b, 0 < a -> a <= b -> RInt f a b <= l.
Proof.
  intros C P B.
  assert (Ex : forall a b, 0 < a -> a <= b -> ex_RInt f a b).
  { intros a b Ha Hab. apply (@ex_RInt_continuous R_CompleteNormedModule). intros z [Hz _]. apply C. unfold Rmin in Hz. destruct (Rle_dec a b); lra. }
  set (E := fun y => exists a b, 0 < a /\ a <= b /\ y = RInt f a b).
  destruct (completeness E) as [l [U L]].
  { exists M. intros y (a & b & Ha & Hab & ->). now apply B. }
  { exists (RInt f 1 1), 1, 1. repeat split; lra. }
  exists l. split.
  2: { intros a b Ha Hab. apply U. now exists a, b. }
  apply integral_intro. intros eps He.
  assert (X : exists a0 b0, 0 < a0 /\ a0 <= b0 /\ l - eps < RInt f a0 b0).
  { apply Classical_Prop.NNPP. intros N. assert (l <= l - eps); [|lra]. apply L. intros y (a & b & Ha & Hab & ->).
    destruct (Rle_lt_dec (RInt f a b) (l - eps)) as [?|G]; [assumption|]. exfalso. apply N. now exists a, b. }
  destruct X as (a0 & b0 & Ha & Hab & D). exists a0, b0. split; [exact Ha|]. intros a b Ha' Hb.
  exists (RInt f a b). split; [apply (@RInt_correct R_CompleteNormedModule), Ex; lra|].
  assert (Up : RInt f a b <= l) by (apply U; exists a, b; repeat split; lra).
  assert (Lo : RInt f a0 b0 <= RInt f a b).
  { pose proof (RInt_Chasles f a a0 b (Ex a a0 ltac:(lra) ltac:(lra)) (Ex a0 b ltac:(lra) ltac:(lra))) as E1.
    pose proof (RInt_Chasles f a0 b0 b (Ex a0 b0 ltac:(lra) ltac:(lra)) (Ex b0 b ltac:(lra) ltac:(lra))) as E2.
    change (RInt f a a0 + RInt f a0 b = RInt f a b) in E1. change (RInt f a0 b0 + RInt f b0 b = RInt f a0 b) in E2.
    assert (0 <= RInt f a a0) by (apply RInt_ge_0; [lra|apply Ex; lra|intros; apply P; lra]).
    assert (0 <= RInt f b0 b) by (apply RInt_ge_0; [lra|apply Ex; lra|intros; apply P; lra]). lra. }
  apply Rabs_def1; lra.
Qed.

(** ** Euler's integral *)

Definition euler (s x : R) : R := Rpower x (s - 1) * exp (- x).

Lemma euler_pos s x : 0 < euler s x.
Proof. apply Rmult_lt_0_compat; apply exp_pos. Qed.
Lemma continuous_Rpower s x : 0 < x -> continuous (fun x => Rpower x s) x.
Proof. intros H. apply (ex_derive_continuous (fun x => Rpower x s)). unfold Rpower. auto_derive. exact H. Qed.
Lemma euler_continuous s x : 0 < x -> continuous (euler s) x.
Proof. intros H. apply (ex_derive_continuous (euler s)). unfold euler, Rpower. auto_derive. exact H. Qed.

Lemma exp_le x y : x <= y -> exp x <= exp y.
Proof. intros [H| ->]; [left; now apply exp_increasing|right; reflexivity]. Qed.
Lemma ln_line x : 0 < x -> ln x <= x - 1.
Proof.
  intros H. pose proof (exp_ineq1_le (ln x)) as E. rewrite exp_ln in E by exact H. lra.
Qed.

(** [x^(s-1) e^-x <= K x^(s-1) (1+x)^(-s-1)], which is the derivative of
    [K/s (x/(1+x))^s]. *)
Lemma euler_bound s : 0 < s -> exists M, forall a b, 0 < a -> a <= b -> RInt (euler s) a b <= M.
Proof.
  intros Hs. set (K := exp ((s + 1) * ln (s + 1) - s)). set (G := fun x => K / s * exp (s * (ln x - ln (1 + x)))).
  set (g := fun x => K * exp ((s - 1) * ln x - (s + 1) * ln (1 + x))).
  assert (D : forall x, 0 < x -> is_derive G x (g x)).
  { intros x Hx. unfold G, g. auto_derive; [lra|].
    replace ((s - 1) * ln x - (s + 1) * ln (1 + x)) with (s * (ln x + - ln (1 + x)) + (- ln x + - ln (1 + x))) by ring.
    rewrite !exp_plus, !exp_Ropp, !exp_ln by lra. field. lra. }
  exists (K / s). intros a b Ha Hab.
  assert (Ex : ex_RInt (euler s) a b).
  { apply (@ex_RInt_continuous R_CompleteNormedModule). intros z [Hz _]. apply euler_continuous. unfold Rmin in Hz. destruct (Rle_dec a b); lra. }
  assert (I : is_RInt g a b (G b - G a)).
  { apply (is_RInt_derive G g).
    - intros x [Hx _]. apply D. unfold Rmin in Hx. destruct (Rle_dec a b); lra.
    - intros x [Hx _]. assert (0 < x) by (unfold Rmin in Hx; destruct (Rle_dec a b); lra).
      apply (ex_derive_continuous g). unfold g. auto_derive. lra. }
  apply Rle_trans with (RInt g a b).
  - apply RInt_le; [exact Hab|exact Ex|now exists (G b - G a)|]. intros x Hx.
    unfold euler, g, K, Rpower. rewrite <- !exp_plus. apply exp_le.
    pose proof (ln_line ((1 + x) / (s + 1)) ltac:(apply Rdiv_lt_0_compat; lra)) as L.
    unfold Rdiv in L at 1. rewrite ln_mult, ln_Rinv in L by (try apply Rinv_0_lt_compat; lra).
    apply (Rmult_le_compat_l (s + 1)) in L; [|lra].
    replace ((s + 1) * ((1 + x) / (s + 1) - 1)) with (x - s) in L by (field; lra). lra.
  - rewrite (is_RInt_unique _ _ _ _ I). unfold G.
    assert (0 < K / s) by (apply Rdiv_lt_0_compat; [apply exp_pos|exact Hs]).
    assert (P : 0 < exp (s * (ln a - ln (1 + a)))) by apply exp_pos.
    assert (Q : exp (s * (ln b - ln (1 + b))) <= 1).
    { apply Rle_trans with (exp 0); [|rewrite exp_0; lra]. apply exp_le. assert (ln b < ln (1 + b)) by (apply ln_increasing; lra). nra. }
    nra.
Qed.

(** The value of Euler's integral: the Gamma function. *)
Definition Gamma (s : R) : R := RInt_gen (euler s) (at_right 0) (Rbar_locally p_infty).

Lemma euler_integral s : 0 < s -> integral (euler s) (Gamma s).
Proof.
  intros Hs. destruct (euler_bound s Hs) as [M B].
  destruct (integral_exists (euler s) M) as (l & H & _); [now apply euler_continuous|intros; left; apply euler_pos|exact B|].
  apply (RInt_gen_correct (euler s)). now exists l.
Qed.
Lemma Gamma_unique s l : 0 < s -> integral (euler s) l -> l = Gamma s.
Proof. intros Hs H. eapply integral_unique; [exact H|now apply euler_integral]. Qed.

Lemma Gamma_pos s : 0 < s -> 0 < Gamma s.
Proof.
  intros Hs. destruct (euler_bound s Hs) as [M B].
  destruct (integral_exists (euler s) M) as (l & H & U); [now apply euler_continuous|intros; left; apply euler_pos|exact B|].
  rewrite <- (Gamma_unique s l Hs H). apply Rlt_le_trans with (RInt (euler s) 1 2); [|apply U; lra].
  apply RInt_gt_0; [lra|intros; apply euler_pos|]. intros x Hx. apply euler_continuous. lra.
Qed.

(** Integration of the derivative of a function that vanishes at both ends. *)
Lemma integral_derivative (F f : R -> R) : (forall x, 0 < x -> is_derive F x (f x)) -> (forall x, 0 < x -> continuous f x) ->
  (forall eps, 0 < eps -> exists d, 0 < d /\ forall x, 0 < x < d -> Rabs (F x) < eps) ->
  (forall eps, 0 < eps -> exists b, forall x, b < x -> 0 < x -> Rabs (F x) < eps) -> integral f 0.
Proof.
  intros D C L0 L1. apply integral_intro. intros eps He.
  destruct (L0 (eps / 2) ltac:(lra)) as (d & Hd & H0), (L1 (eps / 2) ltac:(lra)) as (b0 & H1).
  exists d, (Rmax b0 0). split; [exact Hd|]. intros a b Ha Hb. pose proof (Rmax_l b0 0). pose proof (Rmax_r b0 0).
  exists (F b - F a). split.
  - apply (is_RInt_derive F f); intros x [Hx _]; [apply D|apply C]; unfold Rmin in Hx; destruct (Rle_dec a b); lra.
  - specialize (H0 a Ha). specialize (H1 b ltac:(lra) ltac:(lra)). unfold Rabs in *. repeat destruct Rcase_abs; lra.
Qed.

Lemma Rpower_small s : 0 < s -> forall eps, 0 < eps -> exists d, 0 < d /\ forall x, 0 < x < d -> Rpower x s < eps.
Proof.
  intros Hs eps He. exists (Rpower eps (/ s)). split; [apply exp_pos|]. intros x Hx.
  apply Rlt_le_trans with (Rpower (Rpower eps (/ s)) s); [apply Rlt_Rpower_l; lra|].
  rewrite Rpower_mult. replace (/ s * s) with 1 by (field; lra). rewrite Rpower_1 by exact He. lra.
Qed.
(** [x^s e^-x <= C/x]. *)
Lemma power_exp_bound s : 0 < s -> exists C, 0 < C /\ forall x, 0 < x -> Rpower x s * exp (- x) <= C / x.
Proof.
  intros Hs. exists (exp ((s + 1) * ln (s + 1) - (s + 1))). split; [apply exp_pos|]. intros x Hx.
  replace (exp ((s + 1) * ln (s + 1) - (s + 1)) / x) with (exp ((s + 1) * ln (s + 1) - (s + 1) + - ln x)).
  2: { rewrite exp_plus, exp_Ropp, exp_ln by exact Hx. reflexivity. }
  unfold Rpower. rewrite <- exp_plus. apply exp_le.
  pose proof (ln_line (x / (s + 1)) ltac:(apply Rdiv_lt_0_compat; lra)) as L.
  unfold Rdiv in L at 1. rewrite ln_mult, ln_Rinv in L by (try apply Rinv_0_lt_compat; lra).
  apply (Rmult_le_compat_l (s + 1)) in L; [|lra].
  replace ((s + 1) * (x / (s + 1) - 1)) with (x - (s + 1)) in L by (field; lra). lra.
Qed.
Lemma Rpower_S s x : 0 < x -> Rpower x (s + 1) = x * Rpower x s.
Proof. intros H. rewrite Rpower_plus, Rpower_1 by exact H. ring. Qed.

(** By parts. *)
Lemma Gamma_succ s : 0 < s -> Gamma (s + 1) = s * Gamma s.
Proof.
  intros Hs. assert (I : integral (fun x => - (s * euler s x) + euler (s + 1) x) 0).
  { apply (integral_derivative (fun x => - (Rpower x s * exp (- x)))).
    - intros x Hx. unfold euler, Rpower. replace (s + 1 - 1) with s by ring. auto_derive; [exact Hx|].
      replace (s * ln x) with ((s - 1) * ln x + ln x) by ring. rewrite exp_plus, exp_ln by exact Hx. field. lra.
    - intros x Hx. apply (ex_derive_continuous (fun x => - (s * euler s x) + euler (s + 1) x)). unfold euler, Rpower. auto_derive. tauto.
    - intros eps He. destruct (Rpower_small s Hs eps He) as (d & Hd & H). exists d. split; [exact Hd|]. intros x Hx.
      specialize (H x Hx). rewrite Rabs_Ropp, Rabs_pos_eq by (apply Rmult_le_pos; left; apply exp_pos).
      assert (exp (- x) <= 1) by (apply Rle_trans with (exp 0); [apply exp_le; lra|rewrite exp_0; lra]).
      assert (0 < Rpower x s) by apply exp_pos. nra.
    - intros eps He. destruct (power_exp_bound s Hs) as (C & HC & B). exists (C / eps). intros x Hx Hx0.
      rewrite Rabs_Ropp, Rabs_pos_eq by (apply Rmult_le_pos; left; apply exp_pos).
      apply Rle_lt_trans with (C / x); [now apply B|]. apply (Rmult_lt_reg_r x); [exact Hx0|].
      replace (C / x * x) with C by (field; lra). apply (Rmult_lt_compat_r eps) in Hx; [|exact He].
      replace (C / eps * eps) with C in Hx by (field; lra). lra. }
  assert (J : integral (euler (s + 1)) (s * Gamma s + 0)).
  { eapply integral_ext; [|apply integral_plus; [apply integral_scal, euler_integral, Hs|exact I]]. intros x _. cbn. ring. }
  rewrite <- (Gamma_unique (s + 1) _ ltac:(lra) J). ring.
Qed.
