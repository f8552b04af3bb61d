(** Sums of c b^e exp(-b^2/2): the functions that products of beta, 1/beta and
    d/dbeta make out of the radial wave functions.  Facts behind C77. *)

From Coq Require Import Reals Lra Lia ZArith List.
From Coquelicot Require Import Coquelicot.
From Verif Require Import PyBase Matrix RadialMESpec RadialMEFacts IdFacts.
From Verif Require Import Improper Laguerre Waves WaveSpec WaveFacts.
Import ListNotations.
Open Scope R_scope.

Definition term (ce : R * R) (b : R) : R := fst ce * Rpower b (snd ce) * exp (- (b * b) / 2).
Fixpoint gf (l : list (R * R)) (b : R) : R := match l with [] => 0 | ce :: l' => term ce b + gf l' b end.

(** g is such a sum with every exponent above s. *)
Definition cls (s : R) (g : R -> R) : Prop :=
  exists l, Forall (fun ce => s < snd ce) l /\ forall b, 0 < b -> g b = gf l b.

Lemma cls_ext s g h : (forall b, 0 < b -> g b = h b) -> cls s g -> cls s h.
Proof. intros E (l & A & B). exists l. split; [exact A|]. intros b Hb. rewrite <- E by exact Hb. now apply B. Qed.
Lemma cls_weak s s' g : s' <= s -> cls s g -> cls s' g.
Proof. intros H (l & A & B). exists l. split; [|exact B]. eapply Forall_impl; [|exact A]. intros ce Hc. cbv beta in *. lra. Qed.
Lemma gf_app l m b : gf (l ++ m) b = gf l b + gf m b.
Proof. induction l as [|x l IH]; cbn [app gf]; [ring|rewrite IH; ring]. Qed.
Lemma cls_zero s : cls s (fun _ => 0).
Proof. exists []. split; [constructor|reflexivity]. Qed.
Lemma cls_plus s g h : cls s g -> cls s h -> cls s (fun b => g b + h b).
Proof.
  intros (l & A & B) (m & C & D). exists (l ++ m). split; [now apply Forall_app|].
  intros b Hb. rewrite gf_app, B, D by exact Hb. reflexivity.
Qed.
Lemma gf_map (k : R) (u : R) l b : gf (map (fun ce => (k * fst ce, snd ce + u)) l) b = k * (Rpower b u * gf l b).
Proof.
  induction l as [|x l IH]; cbn [map gf]; [ring|]. rewrite IH. unfold term. cbn [fst snd]. rewrite Rpower_plus. ring.
Qed.
Lemma cls_mono s g (k u : R) h : cls s g -> (forall b, 0 < b -> h b = k * (Rpower b u * g b)) -> cls (s + u) h.
Proof.
  intros (l & A & B) E. exists (map (fun ce => (k * fst ce, snd ce + u)) l). split.
  - apply Forall_map. eapply Forall_impl; [|exact A]. intros ce H. cbn in *. lra.
  - intros b Hb. rewrite E, gf_map, B by exact Hb. reflexivity.
Qed.
Lemma cls_scal s g (k : R) : cls s g -> cls s (fun b => k * g b).
Proof.
  intros H. replace s with (s + 0) by ring. apply (cls_mono s g k 0); [exact H|].
  intros b Hb. rewrite Rpower_O by exact Hb. ring.
Qed.
Lemma cls_beta s g : cls s g -> cls (s + 1) (op_beta g).
Proof.
  intros H. apply (cls_mono s g 1 1); [exact H|]. intros b Hb. unfold op_beta. rewrite Rpower_1 by exact Hb. ring.
Qed.
Lemma cls_inv s g : cls s g -> cls (s - 1) (op_inv g).
Proof.
  intros H. unfold Rminus. apply (cls_mono s g 1 (-1)); [exact H|]. intros b Hb. unfold op_inv.
  change (-1) with (- (1)). rewrite Rpower_Ropp, Rpower_1 by exact Hb. unfold Rdiv. ring.
Qed.

Lemma exp_half_derive b : is_derive (fun x => exp (- (x * x) / 2)) b (- b * exp (- (b * b) / 2)).
Proof.
  auto_derive; [exact Logic.I|]. change (- (b * b) * / 2) with (- (b * b) / 2). generalize (exp (- (b * b) / 2)). intros e.
  apply (Rmult_eq_reg_l 1); [|lra]. field.
Qed.
Lemma Rpower_derive e b : 0 < b -> is_derive (fun x => Rpower x e) b (e * Rpower b (e - 1)).
Proof.
  intros Hb. unfold Rpower. auto_derive; [exact Hb|]. fold (Rpower b e). fold (Rpower b (e - 1)).
  unfold Rminus. rewrite Rpower_plus, Rpower_Ropp, Rpower_1 by exact Hb. apply (Rmult_eq_reg_l 1); [|lra]. field. lra.
Qed.
Lemma term_derive ce b : 0 < b -> is_derive (term ce) b (term (fst ce * snd ce, snd ce - 1) b + term (- fst ce, snd ce + 1) b).
Proof.
  intros Hb. destruct ce as [c e]. cbn [fst snd]. unfold term. cbn [fst snd].
  pose proof (Rpower_derive e b Hb) as D1. pose proof (exp_half_derive b) as D2.
  apply (is_derive_ext (fun x => c * (Rpower x e * exp (- (x * x) / 2)))); [intros t; apply (Rmult_eq_reg_l 1); [ring|lra]|].
  rewrite (Rpower_S e b) by exact Hb.
  pose proof (is_derive_scal _ _ c _ (is_derive_mult _ _ b _ _ D1 D2 Rmult_comm)) as K.
  match goal with |- is_derive _ _ ?t => match type of K with is_derive _ _ ?u => replace t with u; [exact K|] end end.
  unfold plus, mult, scal. cbn. unfold mult. cbn. ring.
Qed.
Definition dterms (l : list (R * R)) : list (R * R) :=
  flat_map (fun ce => [(fst ce * snd ce, snd ce - 1); (- fst ce, snd ce + 1)]) l.
Lemma gf_derive l b : 0 < b -> is_derive (gf l) b (gf (dterms l) b).
Proof.
  intros Hb. induction l as [|x l IH].
  - apply (is_derive_ext (fun _ => 0)); [reflexivity|]. exact (is_derive_const 0 b).
  - apply (is_derive_ext (fun b => term x b + gf l b)); [reflexivity|].
    pose proof (is_derive_plus _ _ _ _ _ (term_derive x b Hb) IH) as K. unfold plus in K. cbn in K.
    match goal with |- is_derive _ _ ?t => match type of K with is_derive _ _ ?u => replace t with u; [exact K|] end end.
    change (dterms (x :: l)) with ((fst x * snd x, snd x - 1) :: (- fst x, snd x + 1) :: dterms l). cbn [gf]. ring.
Qed.
Lemma cls_is_derive s g : cls s g -> exists l, Forall (fun ce => s < snd ce) l /\ (forall b, 0 < b -> g b = gf l b) /\
  forall b, 0 < b -> is_derive g b (gf (dterms l) b).
Proof.
  intros (l & A & B). exists l. split; [exact A|]. split; [exact B|]. intros b Hb.
  apply (is_derive_ext_loc (gf l)); [|now apply gf_derive].
  eapply filter_imp; [|exact (near_pos b Hb)]. intros x Hx. symmetry. now apply B.
Qed.
Lemma cls_ex_derive s g b : cls s g -> 0 < b -> ex_derive g b.
Proof. intros H Hb. destruct (cls_is_derive s g H) as (l & _ & _ & D). eexists. now apply D. Qed.
Lemma dterms_above s l : Forall (fun ce => s < snd ce) l -> Forall (fun ce => s - 1 < snd ce) (dterms l).
Proof.
  induction 1 as [|x l H _ IH]; [constructor|]. change (dterms (x :: l)) with ((fst x * snd x, snd x - 1) :: (- fst x, snd x + 1) :: dterms l).
  constructor; [cbn; lra|]. constructor; [cbn; lra|exact IH].
Qed.
Lemma cls_diff s g : cls s g -> cls (s - 1) (op_diff g).
Proof.
  intros H. destruct (cls_is_derive s g H) as (l & A & B & D). exists (dterms l). split; [now apply dterms_above|].
  intros b Hb. unfold op_diff. apply is_derive_unique. now apply D.
Qed.
Lemma cls_rsum s (F : Z -> R -> R) n : (forall k, (0 <= k < Z.of_nat n)%Z -> cls s (F k)) -> cls s (fun b => rsum (fun k => F k b) n).
Proof.
  induction n as [|n IH]; intros H; cbn [rsum]; [apply cls_zero|].
  apply (cls_plus s (fun b => rsum (fun k => F k b) n) (F (Z.of_nat n))); [apply IH; intros; apply H; lia|apply H; lia].
Qed.

(** The wave functions. *)
Lemma cls_lag s lam n : s < lam - 1 / 2 -> cls s (fun b => Rpower b (lam - 1 / 2) * exp (- (b * b) / 2) * laguerre (lam - 1) (b * b) n).
Proof.
  intros Hs. assert (Z : cls s (fun b => Rpower b (lam - 1 / 2) * exp (- (b * b) / 2))).
  { exists [(1, lam - 1 / 2)]. split; [constructor; [exact Hs|constructor]|]. intros b Hb. cbn [gf]. unfold term. cbn [fst snd]. ring. }
  assert (X : forall g, cls s g -> cls s (fun b => b * b * g b)).
  { intros g Hg. apply (cls_weak (s + 1 + 1)); [lra|]. eapply cls_ext; [|exact (cls_beta _ _ (cls_beta _ _ Hg))].
    intros b Hb. unfold op_beta. ring. }
  assert (H : forall n, cls s (fun b => Rpower b (lam - 1 / 2) * exp (- (b * b) / 2) * laguerre (lam - 1) (b * b) n)
     /\ cls s (fun b => Rpower b (lam - 1 / 2) * exp (- (b * b) / 2) * laguerre (lam - 1) (b * b) (S n))); [|apply H].
  clear n. induction n as [|n [I1 I2]].
  - split.
    + eapply cls_ext; [|exact Z]. intros b Hb. cbn. ring.
    + eapply cls_ext; [|exact (cls_plus _ _ _ (cls_scal _ _ lam Z) (cls_scal _ _ (-1) (X _ Z)))]. intros b Hb. cbn. ring.
  - split; [exact I2|]. pose proof (pos_INR n).
    eapply cls_ext; [|exact (cls_plus _ _ _ (cls_scal _ _ ((2 * INR n + 3 + (lam - 1)) / (INR n + 2)) I2)
       (cls_plus _ _ _ (cls_scal _ _ (- / (INR n + 2)) (X _ I2)) (cls_scal _ _ (- ((INR n + 1 + (lam - 1)) / (INR n + 2))) I1)))].
    intros b Hb. cbv beta. apply (Rmult_eq_reg_l (INR n + 2)); [|lra].
    transitivity (Rpower b (lam - 1 / 2) * exp (- (b * b) / 2) * ((INR n + 2) * laguerre (lam - 1) (b * b) (S (S n)))); [|ring].
    rewrite lag_rec. field. lra.
Qed.
Lemma cls_W s lam i : s < lam - 1 / 2 -> cls s (W lam i).
Proof.
  intros Hs. eapply cls_ext; [|exact (cls_scal _ _ ((-1) ^ Z.to_nat i * cn lam (Z.to_nat i)) (cls_lag s lam (Z.to_nat i) Hs))].
  intros b Hb. unfold W, waveN. fold (cn lam (Z.to_nat i)). ring.
Qed.

(** ** Integrals *)

Lemma gauss e : -1 < e -> integral (fun b => Rpower b e * exp (- (b * b))) (Gamma ((e + 1) / 2) / 2).
Proof.
  intros He. pose proof (integral_square (euler ((e + 1) / 2)) _ ltac:(intros; now apply euler_continuous) (euler_integral ((e + 1) / 2) ltac:(lra))) as K.
  pose proof (integral_scal _ (/ 2) _ K) as K2. replace (Gamma ((e + 1) / 2) / 2) with (/ 2 * Gamma ((e + 1) / 2)) by (unfold Rdiv; ring).
  eapply integral_ext; [|exact K2]. intros b Hb. cbv beta. unfold euler.
  rewrite <- (Rpower_mult_distr b b) by assumption. rewrite <- Rpower_plus.
  replace e with ((e + 1) / 2 - 1 + ((e + 1) / 2 - 1) + 1) at 3 by field. rewrite Rpower_S by exact Hb. field.
Qed.
Lemma prod_term ce ce' b : term ce b * term ce' b = fst ce * fst ce' * (Rpower b (snd ce + snd ce') * exp (- (b * b))).
Proof.
  unfold term. rewrite Rpower_plus. replace (- (b * b)) with (- (b * b) / 2 + - (b * b) / 2) at 3 by field. rewrite exp_plus. ring.
Qed.
Definition tint (ce ce' : R * R) : R := fst ce * fst ce' * (Gamma ((snd ce + snd ce' + 1) / 2) / 2).
Lemma term_integral ce ce' : -1 < snd ce + snd ce' -> integral (fun b => term ce b * term ce' b) (tint ce ce').
Proof.
  intros H. eapply integral_ext; [|exact (integral_scal _ (fst ce * fst ce') _ (gauss _ H))]. intros b Hb. cbv beta. now rewrite prod_term.
Qed.
Lemma row_integral ce l : Forall (fun x => -1 < snd ce + snd x) l -> exists v, integral (fun b => term ce b * gf l b) v.
Proof.
  induction 1 as [|x l H _ (v & IH)].
  - exists 0. eapply integral_ext; [|exact integral_zero]. intros. cbn. ring.
  - exists (tint ce x + v). eapply integral_ext; [|exact (integral_plus _ _ _ _ (term_integral _ _ H) IH)]. intros b Hb. cbn [gf]. ring.
Qed.
Lemma gf_integral l m s s' : -1 <= s + s' -> Forall (fun ce => s < snd ce) l -> Forall (fun ce => s' < snd ce) m ->
  exists v, integral (fun b => gf l b * gf m b) v.
Proof.
  intros Hs Hl Hm. induction Hl as [|x l H _ (v & IH)].
  - exists 0. eapply integral_ext; [|exact integral_zero]. intros. cbn. ring.
  - destruct (row_integral x m) as (u & K). { eapply Forall_impl; [|exact Hm]. intros y Hy. cbv beta in *. lra. }
    exists (u + v). eapply integral_ext; [|exact (integral_plus _ _ _ _ K IH)]. intros b Hb. cbn [gf]. ring.
Qed.
Lemma cls_integral s s' g h : -1 <= s + s' -> cls s g -> cls s' h -> exists v, integral (fun b => g b * h b) v.
Proof.
  intros Hs (l & A & B) (m & C & D). destruct (gf_integral l m s s' Hs A C) as (v & K). exists v.
  eapply integral_ext; [|exact K]. intros b Hb. cbv beta. now rewrite B, D.
Qed.

(** By parts. *)
Lemma power_parts e : 0 < e -> integral (fun b => e * (Rpower b (e - 1) * exp (- (b * b))) - 2 * (Rpower b (e + 1) * exp (- (b * b)))) 0.
Proof.
  intros He. pose proof (integral_scal _ e _ (gauss (e - 1) ltac:(lra))) as K1. pose proof (integral_scal _ (-2) _ (gauss (e + 1) ltac:(lra))) as K2.
  replace ((e - 1 + 1) / 2) with (e / 2) in K1 by field. replace ((e + 1 + 1) / 2) with (e / 2 + 1) in K2 by field.
  rewrite Gamma_succ in K2 by lra. pose proof (integral_plus _ _ _ _ K1 K2) as K.
  replace 0 with (e * (Gamma (e / 2) / 2) + -2 * (e / 2 * Gamma (e / 2) / 2)) at 1 by field.
  eapply integral_ext; [|exact K]. intros. cbv beta. ring.
Qed.
Definition dterm (ce : R * R) (b : R) : R := gf (dterms [ce]) b.
Lemma term_parts ce ce' : 0 < snd ce + snd ce' -> integral (fun b => dterm ce b * term ce' b + term ce b * dterm ce' b) 0.
Proof.
  intros H. replace 0 with (fst ce * fst ce' * 0) by ring.
  eapply integral_ext; [|exact (integral_scal _ (fst ce * fst ce') _ (power_parts _ H))].
  intros b Hb. cbv beta. unfold dterm, dterms. cbn [flat_map app gf]. rewrite !Rplus_0_r.
  rewrite !Rmult_plus_distr_l, !Rmult_plus_distr_r, !prod_term. cbn [fst snd].
  replace (snd ce - 1 + snd ce') with (snd ce + snd ce' - 1) by ring. replace (snd ce + 1 + snd ce') with (snd ce + snd ce' + 1) by ring.
  replace (snd ce + (snd ce' - 1)) with (snd ce + snd ce' - 1) by ring. replace (snd ce + (snd ce' + 1)) with (snd ce + snd ce' + 1) by ring.
  ring.
Qed.
Lemma dterms_cons x l b : gf (dterms (x :: l)) b = dterm x b + gf (dterms l) b.
Proof. unfold dterm. change (dterms (x :: l)) with (dterms [x] ++ dterms l). apply gf_app. Qed.
Lemma row_parts ce l : Forall (fun x => 0 < snd ce + snd x) l -> integral (fun b => dterm ce b * gf l b + term ce b * gf (dterms l) b) 0.
Proof.
  induction 1 as [|x l H _ IH].
  - eapply integral_ext; [|exact integral_zero]. intros. cbn. ring.
  - replace 0 with (0 + 0) by ring. eapply integral_ext; [|exact (integral_plus _ _ _ _ (term_parts _ _ H) IH)].
    intros b Hb. rewrite dterms_cons. cbn [gf]. ring.
Qed.
Lemma gf_parts l m s s' : 0 <= s + s' -> Forall (fun ce => s < snd ce) l -> Forall (fun ce => s' < snd ce) m ->
  integral (fun b => gf (dterms l) b * gf m b + gf l b * gf (dterms m) b) 0.
Proof.
  intros Hs Hl Hm. induction Hl as [|x l H _ IH].
  - eapply integral_ext; [|exact integral_zero]. intros. cbn. ring.
  - assert (F : Forall (fun y => 0 < snd x + snd y) m) by (eapply Forall_impl; [|exact Hm]; intros y Hy; cbv beta in *; lra).
    replace 0 with (0 + 0) by ring. eapply integral_ext; [|exact (integral_plus _ _ _ _ (row_parts x m F) IH)].
    intros b Hb. rewrite dterms_cons. cbn [gf]. ring.
Qed.
Lemma cls_parts s s' g h : 0 <= s + s' -> cls s g -> cls s' h -> integral (fun b => op_diff g b * h b + g b * op_diff h b) 0.
Proof.
  intros Hs Hg Hh. destruct (cls_is_derive s g Hg) as (l & A & B & D), (cls_is_derive s' h Hh) as (m & A' & B' & D').
  eapply integral_ext; [|exact (gf_parts l m s s' Hs A A')]. intros b Hb. cbv beta. unfold op_diff.
  rewrite (is_derive_unique _ _ _ (D b Hb)), (is_derive_unique _ _ _ (D' b Hb)), B, B' by exact Hb. reflexivity.
Qed.
