(** The Schroedinger equation of the radial Hamiltonian: specification for C78
    and the facts behind it. *)

From Coq Require Import Reals Lra Lia ZArith ZifyBool ZifyNat List.
From Coquelicot Require Import Coquelicot.
From Verif Require Import PyBase PyFacts Compat Matrix RadialME RadialMESpec RadialMEFacts IdFacts FullLabels RadialOps RadialSpec PropsRadialOps RadialWords RadialElement RadialExact RadialChain.
From Verif Require Import Improper Laguerre Waves WaveSpec WaveFacts WaveClass WaveWords PropsWaves.
Import ListNotations.
Open Scope R_scope.
Ltac Zify.zify_post_hook ::= Z.div_mod_to_equations.

(** ** Specification *)

(** The Hamiltonian
    -1/(2B) (d2/db2 - (v+1)(v+2)/b^2) + B/2 (c1 b^2 + c2 b^4)
    of five-dimensional motion, for functions of seniority v multiplied by b^2
    (Rowe, Welsh and Caprio, Physical Review C 79 (2009) 054304, to which
    hamiltonian_data.py refers). *)
Definition schroedinger (B c1 c2 : R) (v : Z) : fop := fun g b =>
  - (Derive (Derive g) b - IZR ((v + 1) * (v + 2)) * (g b / (b * b))) / (2 * B)
  + B * c1 / 2 * (b ^ 2 * g b) + B * c2 / 2 * (b ^ 4 * g b).

(** The mean of a function of gamma over 0 .. pi/3 with the weight sin 3 gamma
    of the five-dimensional volume element. *)
Definition gamma_mean (h : R -> R) (m : R) : Prop := is_RInt (fun g => h g * (3 / 2 * sin (3 * g))) 0 (Rtrigo1.PI / 3) m.

(** ** The oscillator bound *)

Lemma Derive_over g b : ex_derive g b -> 0 < b -> Derive (fun x => g x / x) b = Derive g b / b - g b / b / b.
Proof.
  intros (d & D) Hb. rewrite (is_derive_unique _ _ _ D). apply is_derive_unique.
  apply (is_derive_ext (fun x => g x * / x)); [reflexivity|].
  pose proof (is_derive_mult g (fun x => / x) b d (- 1 / b ^ 2) D) as M.
  assert (I : is_derive (fun x => / x) b (- 1 / b ^ 2)) by (auto_derive; [lra|field; lra]).
  specialize (M I ltac:(intros; apply Rmult_comm)). 
  evar_last; [exact M|]. unfold plus, mult; cbn. field. lra.
Qed.

Lemma Derive_times g b : ex_derive g b -> Derive (fun x => x * g x) b = g b + b * Derive g b.
Proof.
  intros H. rewrite (Derive_mult (fun x => x) g b); [|auto_derive; exact Logic.I|exact H]. rewrite Derive_id. ring.
Qed.

(** For w in the span of the basis functions and any m, om:
    int w (-w'' + m(m+1)/x^2 w + om^2 x^2 w) - om (2m+3) int w^2
      = int (w' - (m+1)/x w + om x w)^2. *)
Lemma oscillator_square (m om : R) w : cls (1 / 2) w -> exists E N Q,
  integral (fun x => w x * (- Derive (Derive w) x + m * (m + 1) * (w x / x / x) + om * om * (x * (x * w x)))) E /\
  integral (fun x => w x * w x) N /\
  integral (fun x => (Derive w x - (m + 1) * (w x / x) + om * (x * w x)) ^ 2) Q /\
  E - om * (2 * m + 3) * N = Q.
Proof.
  intros Hw. pose proof (cls_diff _ _ Hw) as H1. pose proof (cls_diff _ _ H1) as H2.
  pose proof (cls_inv _ _ Hw) as Hi. pose proof (cls_inv _ _ Hi) as Hii. pose proof (cls_beta _ _ Hw) as Hb. pose proof (cls_beta _ _ Hb) as Hbb.
  destruct (cls_integral (1/2) (1/2-1-1) _ _ ltac:(lra) Hw H2) as (A & IA).
  destruct (cls_integral (1/2-1) (1/2-1) _ _ ltac:(lra) H1 H1) as (A' & IA').
  destruct (cls_integral (1/2-1) (1/2-1) _ _ ltac:(lra) Hi Hi) as (C & IC).
  destruct (cls_integral (1/2-1) (1/2-1) _ _ ltac:(lra) H1 Hi) as (F & IF).
  destruct (cls_integral (1/2-1) (1/2+1) _ _ ltac:(lra) H1 Hb) as (G & IG).
  destruct (cls_integral (1/2+1) (1/2+1) _ _ ltac:(lra) Hb Hb) as (P & IP).
  destruct (cls_integral (1/2) (1/2) _ _ ltac:(lra) Hw Hw) as (N & IN).
  unfold op_diff, op_inv, op_beta in *.
  change (integral (fun b => w b * Derive (Derive w) b) A) in IA.
  assert (E1 : A' = - A).
  { pose proof (cls_parts (1/2-1) (1/2) _ _ ltac:(lra) H1 Hw) as K. unfold op_diff in K.
    pose proof (integral_plus _ _ _ _ IA IA') as J.
    assert (A + A' = 0); [|lra]. eapply integral_unique; [exact J|]. eapply integral_ext; [|exact K]. intros x Hx. cbv beta.
    change (Derive (fun b => Derive w b) x) with (Derive (Derive w) x). ring. }
  assert (E2 : 2 * F = C).
  { pose proof (cls_parts (1/2) (1/2-1) _ _ ltac:(lra) Hw Hi) as K. unfold op_diff in K.
    pose proof (integral_plus _ _ _ _ (integral_scal _ 2 _ IF) (integral_scal _ (-1) _ IC)) as J.
    assert (2 * F + -1 * C = 0); [|lra]. eapply integral_unique; [exact J|]. eapply integral_ext; [|exact K]. intros x Hx. cbv beta.
    rewrite Derive_over by (assumption || exact (cls_ex_derive _ _ _ Hw Hx)). field. lra. }
  assert (E3 : 2 * G = - N).
  { pose proof (cls_parts (1/2) (1/2+1) _ _ ltac:(lra) Hw Hb) as K. unfold op_diff in K.
    pose proof (integral_plus _ _ _ _ (integral_scal _ 2 _ IG) IN) as J.
    assert (2 * G + N = 0); [|lra]. eapply integral_unique; [exact J|]. eapply integral_ext; [|exact K]. intros x Hx. cbv beta.
    rewrite Derive_times by exact (cls_ex_derive _ _ _ Hw Hx). ring. }
  exists (- A + m * (m + 1) * C + om * om * P), N,
    (A' + (m + 1) ^ 2 * C + om ^ 2 * P + - (2 * (m + 1)) * F + 2 * om * G + - (2 * om * (m + 1)) * N).
  split; [|split; [exact IN|split]].
  - pose proof (integral_plus _ _ _ _ (integral_plus _ _ _ _ (integral_scal _ (-1) _ IA) (integral_scal _ (m * (m + 1)) _ IC)) (integral_scal _ (om * om) _ IP)) as J.
    replace (- A) with (-1 * A) by ring. eapply integral_ext; [|exact J]. intros x Hx. cbv beta. field. lra.
  - pose proof (integral_plus _ _ _ _ (integral_plus _ _ _ _ (integral_plus _ _ _ _ (integral_plus _ _ _ _ (integral_plus _ _ _ _ IA'
      (integral_scal _ ((m + 1) ^ 2) _ IC)) (integral_scal _ (om ^ 2) _ IP)) (integral_scal _ (- (2 * (m + 1))) _ IF)) (integral_scal _ (2 * om) _ IG))
      (integral_scal _ (- (2 * om * (m + 1))) _ IN)) as J.
    eapply integral_ext; [|exact J]. intros x Hx. cbv beta. field. lra.
  - rewrite E1. replace F with (C / 2) by lra. replace G with (- N / 2) by lra. field.
Qed.

Lemma oscillator_bound m om w E N : cls (1 / 2) w ->
  integral (fun x => w x * (- Derive (Derive w) x + m * (m + 1) * (w x / x / x) + om * om * (x * (x * w x)))) E ->
  integral (fun x => w x * w x) N -> om * (2 * m + 3) * N <= E.
Proof.
  intros Hw HE HN. destruct (oscillator_square m om w Hw) as (E' & N' & Q & JE & JN & JQ & EQ).
  rewrite (integral_unique _ _ _ HE JE), (integral_unique _ _ _ HN JN).
  assert (0 <= Q); [|lra]. eapply integral_nonneg; [|exact JQ]. intros. apply pow2_ge_0.
Qed.

(** ** Linear combinations of basis functions *)

Definition comb (lam : R) (x : Z -> R) (n : nat) (b : R) : R := rsum (fun k => x k * W lam k b) n.
Definition form (M : rmat) (x : Z -> R) (n : nat) : R := rsum (fun f => rsum (fun i => x f * x i * M f i) n) n.

Lemma form_el lam g M x n : el lam g M ->
  integral (fun b => comb lam x n b * rsum (fun i => x i * g i b) n) (form M x n).
Proof.
  intros H. unfold form. 
  pose proof (integral_rsum (fun f b => rsum (fun i => x f * x i * (W lam f b * g i b)) n) (fun f => rsum (fun i => x f * x i * M f i) n) n) as K.
  eapply integral_ext; [|apply K].
  - intros b Hb. cbv beta. unfold comb. rewrite <- (Rmult_1_r (rsum _ n * rsum _ n)).
    rewrite Rmult_1_r. rewrite (Rmult_comm (rsum (fun k => x k * W lam k b) n)). rewrite <- rsum_scal. apply rsum_ext. intros f Hf.
    rewrite (rsum_ext _ (fun i => (x f * W lam f b) * (x i * g i b))) by (intros; ring). rewrite rsum_scal. ring.
  - intros f Hf. apply (integral_rsum (fun i b => x f * x i * (W lam f b * g i b))). intros i Hi.
    apply (integral_scal (fun b => W lam f b * g i b)). apply H; lia.
Qed.

Lemma cls_comb lam x n : 1 < lam -> cls (1 / 2) (comb lam x n).
Proof.
  intros Hl. apply (cls_rsum (1/2) (fun k b => x k * W lam k b)). intros k Hk. apply cls_scal. apply cls_W. lra.
Qed.

Lemma comb_pops lam x n ps b : 1 < lam -> 0 < b -> pops ps (comb lam x n) b = rsum (fun k => x k * pops ps (W lam k) b) n.
Proof. intros Hl Hb. apply (pops_rsum ps (1 / 2) x (W lam) n); [intros; apply cls_W; lra|exact Hb]. Qed.

(** -d2/dx2 + m(m+1)/x^2 + om^2 x^2 between the basis functions. *)
Definition osc_matrix (lam m om : R) : rmat := fun f i =>
  - v_D2b Gamma lam f i + m * (m + 1) * v_bm2 Gamma lam f i + om * om * v_b2 lam f i.

Lemma el_osc lam m om : 1 < lam ->
  el lam (fun i b => - Derive (Derive (W lam i)) b + m * (m + 1) * (W lam i b / b / b) + om * om * (b * (b * W lam i b))) (osc_matrix lam m om).
Proof.
  intros Hl. pose proof (el_bm2 (lam - 1) ltac:(lra)) as B2. replace (lam - 1 + 1) with lam in B2 by ring.
  eapply el_ext; [| |exact (el_plus _ _ _ _ _ (el_plus _ _ _ _ _ (el_scal _ (fun _ => -1) _ _ (el_D2b lam Hl)) (el_scal _ (fun _ => m * (m + 1)) _ _ B2))
     (el_scal _ (fun _ => om * om) _ _ (el_b2 lam ltac:(lra))))].
  - intros i b Hi Hb. cbv beta. ring.
  - intros f i Hf Hi. unfold radd, osc_matrix. ring.
Qed.

Lemma osc_form lam m om x n : 1 < lam -> om * (2 * m + 3) * rsum (fun k => x k * x k) n <= form (osc_matrix lam m om) x n.
Proof.
  intros Hl. apply (oscillator_bound m om (comb lam x n)); [now apply cls_comb| |].
  - eapply integral_ext; [|exact (form_el lam _ _ x n (el_osc lam m om Hl))]. intros b Hb. cbv beta. f_equal.
    pose proof (comb_pops lam x n [PD; PD] b Hl Hb) as K1. pose proof (comb_pops lam x n [PI; PI] b Hl Hb) as K2. pose proof (comb_pops lam x n [PB; PB] b Hl Hb) as K3.
    cbn [pops pop] in K1, K2, K3. unfold op_diff, op_inv, op_beta in K1, K2, K3.
    change (Derive (fun b => Derive (comb lam x n) b) b) with (Derive (Derive (comb lam x n)) b) in K1. rewrite K1, K2, K3.
    rewrite <- (Rmult_1_l (rsum (fun k => x k * Derive _ b) n)), Ropp_mult_distr_l, <- !rsum_scal, <- !rsum_plus. apply rsum_ext. intros k Hk.
    change (Derive (fun b => Derive (W lam k) b) b) with (Derive (Derive (W lam k)) b). ring.
  - replace (rsum (fun k => x k * x k) n) with (form rid x n); [exact (form_el lam (W lam) rid x n (el_one lam ltac:(lra)))|].
    unfold form. apply rsum_ext. intros f Hf. rewrite (rsum_single _ _ f Hf); [unfold rid; rewrite Z.eqb_refl; ring|].
    intros i Hi Ni. unfold rid. replace (f =? i)%Z with false by lia. ring.
Qed.

(** ** beta^4 *)

Lemma v_b2_sym l f i : v_b2 l f i = v_b2 l i f.
Proof.
  unfold v_b2. destruct (f =? i - 1)%Z eqn:E1.
  - replace (i =? f - 1)%Z with false by lia. replace (i =? f)%Z with false by lia. replace (i =? f + 1)%Z with true by lia. reflexivity.
  - destruct (f =? i)%Z eqn:E2; [replace i with f by lia; replace (f =? f - 1)%Z with false by lia; now rewrite Z.eqb_refl|].
    replace (i =? f)%Z with false by lia. replace (i =? f + 1)%Z with false by lia.
    destruct (f =? i + 1)%Z eqn:E3; [replace (i =? f - 1)%Z with true by lia|replace (i =? f - 1)%Z with false by lia]; reflexivity.
Qed.

Lemma v_b2_far l f i : (1 < Z.abs (f - i))%Z -> v_b2 l f i = 0.
Proof. intros H. unfold v_b2. replace (f =? i - 1)%Z with false by lia. replace (f =? i)%Z with false by lia. now replace (f =? i + 1)%Z with false by lia. Qed.

(** beta^2 beta^2 with n intermediate states. *)
Definition b4_cut (l : R) (n : nat) : rmat := fun f i => rsum (fun k => v_b2 l f k * v_b2 l k i) n.

Lemma el_b4 lam f i : 0 < lam -> (0 <= f)%Z -> (0 <= i)%Z ->
  integral (fun b => W lam f b * (b * (b * (b * (b * W lam i b))))) (b4_cut lam (Z.to_nat (Z.max f i + 2)) f i).
Proof.
  intros Hl Hf Hi. set (N := Z.to_nat (Z.max f i + 2)).
  assert (K : forall j b, (0 <= j)%Z -> (j + 1 < Z.of_nat N)%Z -> 0 < b -> b * (b * W lam j b) = rsum (fun k => v_b2 lam k j * W lam k b) N).
  { intros j b Hj HN Hb. pose proof (col_elem M_b2 lam 1 j N b ltac:(exact Hl) Logic.I eq_refl Hj ltac:(exact HN) Hb) as E.
    cbn [eprims pops pop elem_shift elem_val] in E. unfold op_beta in E. rewrite Rplus_0_r in E. exact E. }
  unfold b4_cut. rewrite (rsum_ext _ (fun k => v_b2 lam k f * v_b2 lam k i)) by (intros; now rewrite (v_b2_sym lam f k)).
  eapply integral_ext; [|exact (integral_product lam _ _ (fun b => b * (b * W lam f b)) (fun b => b * (b * W lam i b)) N Hl
     ltac:(intros b Hb; apply K; unfold N; lia || assumption) ltac:(intros b Hb; apply K; unfold N; lia || assumption))].
  intros b Hb. cbv beta. ring.
Qed.

Lemma b4_cut_more l n m f i : (Z.max f i + 1 < Z.of_nat n)%Z \/ (Z.min f i + 1 < Z.of_nat n)%Z -> (n <= m)%nat -> b4_cut l m f i = b4_cut l n f i.
Proof.
  intros H Hm. unfold b4_cut. apply rsum_cut; [exact Hm|]. intros k Hk.
  destruct (Z_lt_dec f (k - 1)) as [F|F]; [rewrite (v_b2_far l f k) by lia; ring|]. rewrite (v_b2_far l k i) by lia. ring.
Qed.

(** The truncated beta^4 lacks nothing but part of the last diagonal entry. *)
Lemma b4_cut_exact l N f i : 0 < l -> (0 <= f <= N)%Z -> (0 <= i <= N)%Z ->
  b4_cut l (Z.to_nat (Z.max f i + 2)) f i
  = b4_cut l (Z.to_nat (N + 1)) f i + (if (f =? N)%Z && (i =? N)%Z then (l + IZR N) * (IZR N + 1) else 0).
Proof.
  intros Hl Hf Hi.
  assert (M : b4_cut l (Z.to_nat (N + 2)) f i = b4_cut l (Z.to_nat (Z.max f i + 2)) f i) by (apply b4_cut_more; lia).
  rewrite <- M. destruct ((f =? N)%Z && (i =? N)%Z) eqn:E.
  - apply andb_prop in E. destruct E as [E1 E2]. assert (f = N) by lia. assert (i = N) by lia. subst f i. unfold b4_cut.
    replace (Z.to_nat (N + 2)) with (S (Z.to_nat (N + 1))) by lia. cbn [rsum]. f_equal. rewrite Z2Nat.id by lia.
    rewrite (v_b2_sym l (N + 1) N). unfold v_b2. replace (N =? N + 1 - 1)%Z with true by lia. apply pv_sq; [exact Hl|lia].
  - rewrite Rplus_0_r. apply b4_cut_more; lia.
Qed.

Lemma rsum_nonneg f n : (forall k, (0 <= k < Z.of_nat n)%Z -> 0 <= f k) -> 0 <= rsum f n.
Proof.
  intros H. induction n as [|n IH]; cbn [rsum]; [lra|]. pose proof (H (Z.of_nat n) ltac:(lia)).
  assert (0 <= rsum f n) by (apply IH; intros; apply H; lia). lra.
Qed.

Lemma b4_form l x n : 0 <= form (b4_cut l n) x n.
Proof.
  unfold form, b4_cut.
  rewrite (rsum_ext _ (fun f => rsum (fun k => x f * v_b2 l f k * rsum (fun i => x i * v_b2 l k i) n) n)).
  - rewrite rsum_swap. apply rsum_nonneg. intros k Hk.
    rewrite (rsum_ext _ (fun f => rsum (fun i => x i * v_b2 l k i) n * (x f * v_b2 l k f))) by (intros; rewrite (v_b2_sym l k k0); ring).
    rewrite rsum_scal. apply Rle_0_sqr.
  - intros f Hf. rewrite (rsum_ext _ (fun i => rsum (fun k => x f * x i * (v_b2 l f k * v_b2 l k i)) n)) by (intros; now rewrite rsum_scal).
    rewrite rsum_swap. apply rsum_ext. intros k Hk. rewrite <- rsum_scal. apply rsum_ext. intros i Hi. ring.
Qed.

Lemma form_plus M N x n : form (radd M N) x n = form M x n + form N x n.
Proof.
  unfold form. rewrite <- rsum_plus. apply rsum_ext. intros f Hf. rewrite <- rsum_plus. apply rsum_ext. intros i Hi. unfold radd. ring.
Qed.
Lemma form_scal c M x n : form (rscale c M) x n = c * form M x n.
Proof.
  unfold form. rewrite <- rsum_scal. apply rsum_ext. intros f Hf. rewrite <- rsum_scal. apply rsum_ext. intros i Hi. unfold rscale. ring.
Qed.
Lemma form_req M N x n : req M N -> form M x n = form N x n.
Proof. intros H. apply rsum_ext. intros f Hf. apply rsum_ext. intros i Hi. rewrite H by lia. reflexivity. Qed.

(** The matrix elements of 1/beta^2 do not depend on which function with the
    property of Gamma is used. *)
Lemma av_ratio Gam (HG : gamma_like Gam) l n : 0 < l -> av Gam l (Z.of_nat n) * av Gamma l 0 = av Gamma l (Z.of_nat n) * av Gam l 0.
Proof.
  intros Hl. induction n as [|n IH]; [cbn [Z.of_nat]; ring|]. rewrite Nat2Z.inj_succ. unfold Z.succ.
  pose proof (av_mu Gam HG l (Z.of_nat n) Hl ltac:(lia)) as E1. pose proof (av_mu Gamma gamma_like_Gamma l (Z.of_nat n) Hl ltac:(lia)) as E2.
  assert (P : 0 < sqrt (IZR (Z.of_nat n) + 1)) by (apply sqrt_lt_R0; pose proof (IZR_nonneg (Z.of_nat n) ltac:(lia)); lra).
  apply (Rmult_eq_reg_l (sqrt (IZR (Z.of_nat n) + 1))); [|lra].
  rewrite <- !Rmult_assoc, E1, E2, !Rmult_assoc, IH. reflexivity.
Qed.
Lemma v_bm2_any Gam (HG : gamma_like Gam) l f i : 0 < l -> (0 <= f)%Z -> (0 <= i)%Z -> v_bm2 Gam l f i = v_bm2 Gamma l f i.
Proof.
  intros Hl Hf Hi. unfold v_bm2. do 2 f_equal.
  assert (R : forall k, (0 <= k)%Z -> av Gam l k = av Gamma l k * (av Gam l 0 / av Gamma l 0)).
  { intros k Hk. pose proof (av_ratio Gam HG l (Z.to_nat k) Hl) as E. rewrite Z2Nat.id in E by exact Hk.
    pose proof (av_pos Gamma gamma_like_Gamma l 0 Hl ltac:(lia)). apply (Rmult_eq_reg_r (av Gamma l 0)); [rewrite E; field; lra|lra]. }
  rewrite (R (Z.min f i)), (R (Z.max f i)) by lia.
  pose proof (av_pos Gamma gamma_like_Gamma l 0 Hl ltac:(lia)). pose proof (av_pos Gam HG l 0 Hl ltac:(lia)).
  pose proof (av_pos Gamma gamma_like_Gamma l (Z.max f i) Hl ltac:(lia)). field. lra.
Qed.
