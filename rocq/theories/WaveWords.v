(** Products of radial operators acting on the wave functions.  Facts behind C77. *)

From Coq Require Import Reals Lra Lia ZArith ZifyBool ZifyNat List.
From Coquelicot Require Import Coquelicot.
From Verif Require Import PyBase PyFacts Compat Matrix FullLabels RadialOps RadialSpec PropsRadialOps RadialME RadialMESpec RadialMEFacts IdFacts RadialWords RadialElement RadialExact RadialChain.
From Verif Require Import Improper Laguerre Waves WaveSpec WaveFacts WaveClass.
Import ListNotations.
Open Scope Z_scope.
Ltac Zify.zify_post_hook ::= Z.div_mod_to_equations.

(** ** Products of beta, 1/beta and d/dbeta *)

Inductive prim := PB | PI | PD.
Definition pop (p : prim) : fop := match p with PB => op_beta | PI => op_inv | PD => op_diff end.
Fixpoint pops (ps : list prim) : fop := match ps with [] => fun g => g | p :: ps' => fun g => pop p (pops ps' g) end.
Definition pdeg (p : prim) : Z := match p with PB => 1 | PI => -1 | PD => -1 end.
Definition pdegs (ps : list prim) : Z := zsum (map pdeg ps).

Lemma pops_app ps qs g : pops (ps ++ qs) g = pops ps (pops qs g).
Proof. induction ps as [|p ps IH]; [reflexivity|]. cbn [app pops]. now rewrite IH. Qed.

Lemma pop_ext p g h : (forall b, (0 < b)%R -> g b = h b) -> forall b, (0 < b)%R -> pop p g b = pop p h b.
Proof.
  intros E b Hb. destruct p; cbn [pop]; unfold op_beta, op_inv, op_diff; try now rewrite E.
  apply Derive_ext_loc. eapply filter_imp; [|exact (near_pos b Hb)]. exact E.
Qed.
Lemma pops_ext ps g h : (forall b, (0 < b)%R -> g b = h b) -> forall b, (0 < b)%R -> pops ps g b = pops ps h b.
Proof. intros E. induction ps as [|p ps IH]; [exact E|]. cbn [pops]. now apply pop_ext. Qed.

Lemma cls_pop p s g : cls s g -> cls (s + IZR (pdeg p)) (pop p g).
Proof.
  intros H. destruct p; cbn [pop pdeg]; [now apply cls_beta| |]; change (-1)%Z with (- (1))%Z; rewrite opp_IZR;
    [now apply cls_inv|now apply cls_diff].
Qed.
Lemma cls_pops ps s g : cls s g -> cls (s + IZR (pdegs ps)) (pops ps g).
Proof.
  intros H. induction ps as [|p ps IH].
  - change (IZR (pdegs [])) with 0%R. now rewrite Rplus_0_r.
  - cbn [pops]. change (pdegs (p :: ps)) with (pdeg p + pdegs ps). rewrite plus_IZR.
    replace (s + (IZR (pdeg p) + IZR (pdegs ps)))%R with (s + IZR (pdegs ps) + IZR (pdeg p))%R by ring. now apply cls_pop.
Qed.

Lemma Derive_rsum (c : Z -> R) (F : Z -> R -> R) n b : (forall k, 0 <= k < Z.of_nat n -> ex_derive (F k) b) ->
  is_derive (fun x => rsum (fun k => c k * F k x)%R n) b (rsum (fun k => c k * Derive (F k) b)%R n).
Proof.
  induction n as [|n IH]; intros H; cbn [rsum]; [exact (is_derive_const 0%R b)|].
  assert (D1 := IH ltac:(intros; apply H; lia)).
  pose proof (is_derive_scal _ _ (c (Z.of_nat n)) _ (Derive_correct _ _ (H (Z.of_nat n) ltac:(lia)))) as D2.
  exact (is_derive_plus _ _ _ _ _ D1 D2).
Qed.
Lemma pop_rsum p s (c : Z -> R) (F : Z -> R -> R) n : (forall k, 0 <= k < Z.of_nat n -> cls s (F k)) ->
  forall b, (0 < b)%R -> pop p (fun b => rsum (fun k => c k * F k b)%R n) b = rsum (fun k => c k * pop p (F k) b)%R n.
Proof.
  intros H b Hb. destruct p; cbn [pop].
  - unfold op_beta. rewrite <- rsum_scal. apply rsum_ext. intros. ring.
  - unfold op_inv, Rdiv. rewrite (Rmult_comm (rsum _ _)), <- rsum_scal. apply rsum_ext. intros. ring.
  - unfold op_diff. apply is_derive_unique. apply Derive_rsum. intros k Hk. apply (cls_ex_derive s); [now apply H|exact Hb].
Qed.
Lemma pops_rsum ps s (c : Z -> R) (F : Z -> R -> R) n : (forall k, 0 <= k < Z.of_nat n -> cls s (F k)) ->
  forall b, (0 < b)%R -> pops ps (fun b => rsum (fun k => c k * F k b)%R n) b = rsum (fun k => c k * pops ps (F k) b)%R n.
Proof.
  intros H. induction ps as [|p ps IH]; intros b Hb; [reflexivity|]. cbn [pops].
  rewrite (pop_ext p _ _ IH b Hb). apply (pop_rsum p (s + IZR (pdegs ps))); [|exact Hb].
  intros k Hk. now apply cls_pops, H.
Qed.

(** Width. *)
Lemma pops_dilate ps s g a k : (0 < a)%R -> cls s g -> forall b, (0 < b)%R ->
  pops ps (fun x => k * g (a * x))%R b = (k * (powerRZ a (- pdegs ps) * pops ps g (a * b)))%R.
Proof.
  intros Ha Hg. induction ps as [|p ps IH]; intros b Hb.
  - change (- pdegs []) with 0. cbn. ring.
  - cbn [pops]. rewrite (pop_ext p _ _ IH b Hb). change (pdegs (p :: ps)) with (pdeg p + pdegs ps).
    replace (- (pdeg p + pdegs ps)) with (- pdeg p + - pdegs ps) by lia. rewrite powerRZ_add by lra.
    assert (Hab : (0 < a * b)%R) by now apply Rmult_lt_0_compat.
    destruct p; cbn [pop pdeg].
    + unfold op_beta. change (powerRZ a (- (1))) with (/ (a * 1))%R. field. lra.
    + unfold op_inv. change (powerRZ a (- -1)) with (a * 1)%R. field. lra.
    + unfold op_diff. change (powerRZ a (- -1)) with (a * 1)%R. apply is_derive_unique.
      apply (is_derive_ext (fun x => k * powerRZ a (- pdegs ps) * pops ps g (a * x))%R); [intros; apply (Rmult_eq_reg_l 1); [ring|lra]|].
      replace (k * (a * 1 * powerRZ a (- pdegs ps) * Derive (pops ps g) (a * b)))%R
        with (k * powerRZ a (- pdegs ps) * (a * Derive (pops ps g) (a * b)))%R by ring.
      apply dilate_derive. apply Derive_correct. exact (cls_ex_derive _ _ _ (cls_pops ps s g Hg) Hab).
Qed.

(** ** Expansions in the basis *)

Definition span (lam : R) (N : nat) (g : R -> R) : Prop :=
  exists c, forall b, (0 < b)%R -> g b = rsum (fun k => c k * W lam k b)%R N.

Lemma span_ext lam N g h : (forall b, (0 < b)%R -> g b = h b) -> span lam N g -> span lam N h.
Proof. intros E (c & H). exists c. intros b Hb. rewrite <- E by exact Hb. now apply H. Qed.
Lemma span_W lam N k : 0 <= k < Z.of_nat N -> span lam N (W lam k).
Proof.
  intros Hk. exists (fun j => if j =? k then 1 else 0)%R. intros b Hb. rewrite (rsum_single _ _ k).
  - rewrite Z.eqb_refl. ring.
  - exact Hk.
  - intros j Hj Hn. replace (j =? k) with false by lia. ring.
Qed.
Lemma span_plus lam N g h : span lam N g -> span lam N h -> span lam N (fun b => g b + h b)%R.
Proof.
  intros (c & H) (d & K). exists (fun k => c k + d k)%R. intros b Hb. rewrite H, K, <- rsum_plus by exact Hb.
  apply rsum_ext. intros. ring.
Qed.
Lemma span_scal lam N g k : span lam N g -> span lam N (fun b => k * g b)%R.
Proof.
  intros (c & H). exists (fun j => k * c j)%R. intros b Hb. rewrite H, <- rsum_scal by exact Hb. apply rsum_ext. intros. ring.
Qed.
Lemma span_rsum lam N (F : Z -> R -> R) n : (forall k, 0 <= k < Z.of_nat n -> span lam N (F k)) -> span lam N (fun b => rsum (fun k => F k b) n).
Proof.
  induction n as [|n IH]; intros H; cbn [rsum].
  - exists (fun _ => 0%R). intros b Hb. symmetry. apply rsum_zero. intros. ring.
  - apply (span_plus lam N (fun b => rsum (fun k => F k b) n) (F (Z.of_nat n))); [apply IH; intros; apply H; lia|apply H; lia].
Qed.
(** The coefficients are the overlaps. *)
Lemma span_coeff lam N g (v : Z -> R) : (0 < lam)%R -> span lam N g -> (forall k, 0 <= k < Z.of_nat N -> integral (fun b => W lam k b * g b)%R (v k)) ->
  forall b, (0 < b)%R -> g b = rsum (fun k => v k * W lam k b)%R N.
Proof.
  intros Hl (c & H) K b Hb. rewrite H by exact Hb. apply rsum_ext. intros k Hk. f_equal.
  apply (integral_unique (fun b => W lam k b * g b)%R); [|now apply K]. now apply (integral_expansion lam k c g N).
Qed.

Lemma span_b_up lam N i : (0 < lam)%R -> 0 <= i < Z.of_nat N -> span (lam + 1) N (op_beta (W lam i)).
Proof.
  intros Hl Hi. eapply span_ext; [intros b Hb; symmetry; exact (W_pl lam i b Hl (proj1 Hi) Hb)|].
  apply (span_plus _ _ (fun b => sqrt (lam + IZR i) * W (lam + 1) i b)%R (fun b => sqrt (IZR i) * W (lam + 1) (i - 1) b)%R); apply span_scal.
  - now apply span_W.
  - destruct (Z.eq_dec i 0) as [->|]; [apply (span_W _ _ 0)|apply span_W]; lia.
Qed.
Lemma span_b_down lam N i : (0 < lam)%R -> 0 <= i -> i + 1 < Z.of_nat N -> span lam N (op_beta (W (lam + 1) i)).
Proof.
  intros Hl Hi HN. eapply span_ext; [intros b Hb; symmetry; exact (W_ml lam i b Hl Hi Hb)|].
  apply (span_plus _ _ (fun b => sqrt (IZR i + 1) * W lam (i + 1) b)%R (fun b => sqrt (lam + IZR i) * W lam i b)%R); apply span_scal, span_W; lia.
Qed.
Lemma span_inv lam N i : (0 < lam)%R -> 0 <= i < Z.of_nat N -> span lam N (op_inv (W (lam + 1) i)).
Proof.
  intros Hl Hi. exists (fun k => iml (lam + 1) k i). intros b Hb. unfold op_inv. now apply W_inv.
Qed.
Lemma span_diff lam N i : (0 < lam)%R -> 0 <= i -> i + 1 < Z.of_nat N -> span lam N (op_diff (W (lam + 1) i)).
Proof.
  intros Hl Hi HN. eapply span_ext; [intros b Hb; symmetry; exact (is_derive_unique _ _ _ (W_diff_ml lam i b Hl Hi Hb))|].
  apply (span_plus _ _ (fun b => (1 / 2 - lam) * op_inv (W (lam + 1) i) b)%R (fun b => sqrt (lam + IZR i) * W lam i b - sqrt (IZR i + 1) * W lam (i + 1) b)%R).
  - apply span_scal, span_inv; [exact Hl|lia].
  - eapply span_ext; [|exact (span_plus _ _ _ _ (span_scal _ _ _ (sqrt (lam + IZR i)) (span_W lam N i ltac:(lia)))
      (span_scal _ _ _ (- sqrt (IZR i + 1))%R (span_W lam N (i + 1) ltac:(lia))))]. intros b Hb. cbv beta. ring.
Qed.
Lemma span_pred lam N i c : 0 <= i < Z.of_nat N -> span lam N (fun b => c * W lam (i - 1) b)%R.
Proof. intros Hi. apply span_scal. destruct (Z.eq_dec i 0) as [->|]; [apply (span_W _ _ 0)|apply span_W]; lia. Qed.
Lemma span_b2 lam N i : (0 < lam)%R -> 0 <= i -> i + 1 < Z.of_nat N -> span lam N (op_beta (op_beta (W lam i))).
Proof.
  intros Hl Hi HN. eapply span_ext; [intros b Hb; symmetry; exact (W_b2 lam i b Hl Hi Hb)|].
  apply (span_plus _ _ (fun b => pv lam (i - 1) * W lam (i - 1) b + (lam + 2 * IZR i) * W lam i b)%R (fun b => pv lam i * W lam (i + 1) b)%R).
  - apply (span_plus _ _ (fun b => pv lam (i - 1) * W lam (i - 1) b)%R); [apply span_pred; lia|apply span_scal, span_W; lia].
  - apply span_scal, span_W. lia.
Qed.
Lemma span_bDb lam N i : (0 < lam)%R -> 0 <= i -> i + 1 < Z.of_nat N -> span lam N (op_beta (op_diff (W lam i))).
Proof.
  intros Hl Hi HN.
  apply (span_ext lam N (fun b => pv lam (i - 1) * W lam (i - 1) b + (- (1 / 2) * W lam i b + - pv lam i * W lam (i + 1) b))%R).
  { intros b Hb. destruct (W_derive lam i b Hl Hi Hb) as (d & D & E). unfold op_beta, op_diff. rewrite (is_derive_unique _ _ _ D), E. ring. }
  apply (span_plus _ _ (fun b => pv lam (i - 1) * W lam (i - 1) b)%R); [apply span_pred; lia|].
  apply (span_plus _ _ (fun b => - (1 / 2) * W lam i b)%R (fun b => - pv lam i * W lam (i + 1) b)%R); apply span_scal, span_W; lia.
Qed.
Lemma span_id lam r : (0 < lam)%R -> forall N i, 0 <= i -> i + Z.of_nat r < Z.of_nat N -> span lam N (W (lam + 2 * INR r) i).
Proof.
  intros Hl. induction r as [|r IH]; intros N i Hi HN.
  - change (INR 0) with 0%R. replace (lam + 2 * 0)%R with lam by ring. apply span_W. lia.
  - pose proof (pos_INR r).
    apply (span_ext lam N (fun b => rsum (fun k => v_id Gamma 1 (lam + 2 * INR r) i k * W (lam + 2 * INR r) k b)%R (Z.to_nat (i + 2)))).
    + intros b Hb. replace (lam + 2 * INR (S r))%R with (lam + 2 * INR r + 2 * INR 1)%R by (rewrite (S_INR r); change (INR 1) with 1%R; ring).
      symmetry. apply W_two; lra || lia.
    + apply (span_rsum lam N (fun k b => v_id Gamma 1 (lam + 2 * INR r) i k * W (lam + 2 * INR r) k b)%R). intros k Hk. apply span_scal. apply IH; lia.
Qed.

(** ** The elementary matrices *)

Definition eprims (e : elem) : list prim :=
  match e with
  | M_b2 => [PB; PB] | M_bm2 => [PI; PI] | M_D2b => [PD; PD] | M_bDb => [PB; PD]
  | M_b_pl | M_b_ml | M_b2_sqrt => [PB]
  | M_bm_pl | M_bm_ml | M_b2_sqrtInv => [PI]
  | M_Db_pl | M_Db_ml => [PD]
  | _ => []
  end.
Definition noS (e : elem) : Prop := match e with M_Sm | M_S0 | M_Sp => False | _ => True end.
Notation eval := (elem_val Gamma).
Notation dst e lam := (lam + IZR (elem_shift e))%R.

Lemma dst_pos e lam : elem_dom e lam -> (0 < lam)%R /\ (0 < dst e lam)%R.
Proof.
  destruct e; cbn [elem_dom elem_shift]; intros D; rewrite ?Rplus_0_r; try (split; lra); try contradiction.
  - destruct D as [D1 D2]. pose proof (IZR_nonneg _ D2). rewrite mult_IZR. split; lra.
  - destruct D as [D1 D2]. pose proof (IZR_nonneg _ D2). rewrite opp_IZR, mult_IZR. split; lra.
Qed.

Lemma el_elem e lam : elem_dom e lam -> noS e -> el (dst e lam) (fun i => pops (eprims e) (W lam i)) (eval e lam).
Proof.
  intros D HS. destruct e; cbn [elem_shift elem_dom elem_val eprims noS pops pop] in *; try contradiction; rewrite ?Rplus_0_r.
  - now apply el_b2.
  - pose proof (el_bm2 (lam - 1) ltac:(lra)) as B. replace (lam - 1 + 1)%R with lam in B by ring. exact B.
  - now apply el_D2b.
  - now apply el_bDb.
  - now apply el_b_pl.
  - now apply el_bm_pl.
  - now apply el_Db_pl.
  - pose proof (el_b_ml (lam - 1) ltac:(lra)) as B. replace (lam - 1 + 1)%R with lam in B by ring. replace (lam + -1)%R with (lam - 1)%R by ring. exact B.
  - pose proof (el_bm_ml (lam - 1) ltac:(lra)) as B. replace (lam - 1 + 1)%R with lam in B by ring. replace (lam + -1)%R with (lam - 1)%R by ring. exact B.
  - pose proof (el_Db_ml (lam - 1) ltac:(lra)) as B. replace (lam - 1 + 1)%R with lam in B by ring. replace (lam + -1)%R with (lam - 1)%R by ring. exact B.
  - destruct D as [D1 D2]. rewrite mult_IZR. rewrite <- (INR_to_nat r D2). now apply el_id.
  - destruct D as [D1 D2]. rewrite opp_IZR, mult_IZR. pose proof (el_id_ml (lam - 2 * IZR r) (Z.to_nat r) D1) as B.
    rewrite (INR_to_nat r D2) in B. replace (lam - 2 * IZR r + 2 * IZR r)%R with lam in B by ring.
    replace (lam + - (2 * IZR r))%R with (lam - 2 * IZR r)%R by ring. exact B.
  - now apply el_one.
Qed.

Lemma cls_elem e lam g : elem_dom e lam -> noS e -> (forall s, (s < lam - 1 / 2)%R -> cls s g) ->
  cls (- dst e lam - 1 / 2) (pops (eprims e) g).
Proof.
  intros D HS Hg. set (s := (- dst e lam - 1 / 2 - IZR (pdegs (eprims e)))%R).
  replace (- dst e lam - 1 / 2)%R with (s + IZR (pdegs (eprims e)))%R by (unfold s; ring).
  apply cls_pops, Hg. unfold s. clear - D HS.
  destruct e; cbn [elem_dom elem_shift eprims noS pdegs pdeg map zsum fold_right Z.add] in *; try contradiction; try (cbn; lra).
  - destruct D as [D1 D2]. pose proof (IZR_nonneg _ D2). rewrite mult_IZR. lra.
  - destruct D as [D1 D2]. pose proof (IZR_nonneg _ D2). rewrite opp_IZR, mult_IZR. lra.
Qed.
Lemma cls_row e lam r g : elem_dom e lam -> noS e -> row_reach e = Some r -> cls (- lam - 1 / 2) g ->
  cls (- dst e lam - 1 / 2) (pops (eprims e) g).
Proof.
  intros D HS HR Hg. pose proof (cls_pops (eprims e) _ _ Hg) as K. eapply cls_weak; [|exact K]. clear - D HS HR.
  destruct e; cbn [elem_dom elem_shift eprims noS row_reach] in *; try contradiction; try discriminate; try (cbn; lra).
  change (IZR (pdegs [])) with 0%R. destruct D as [D1 D2]. pose proof (IZR_nonneg _ D2). rewrite mult_IZR. lra.
Qed.

(** Columns. *)
Lemma col_elem e lam c i (N : nat) b : elem_dom e lam -> noS e -> col_reach e = Some c -> 0 <= i -> i + c < Z.of_nat N -> (0 < b)%R ->
  pops (eprims e) (W lam i) b = rsum (fun k => eval e lam k i * W (dst e lam) k b)%R N.
Proof.
  intros D HS HC Hi HN. revert b. apply (span_coeff _ N _ (fun k => eval e lam k i)).
  - now apply dst_pos.
  - destruct e; cbn [elem_shift elem_dom col_reach eprims noS pops pop] in *; try contradiction; try discriminate;
      inversion HC; subst c; rewrite ?Rplus_0_r.
    + apply span_b2; assumption.
    + apply span_bDb; assumption.
    + apply span_b_up; [assumption|lia].
    + pose proof (span_b_down (lam - 1) N i ltac:(lra) Hi ltac:(lia)) as B. replace (lam - 1 + 1)%R with lam in B by ring. replace (lam + -1)%R with (lam - 1)%R by ring. exact B.
    + pose proof (span_inv (lam - 1) N i ltac:(lra) ltac:(lia)) as B. replace (lam - 1 + 1)%R with lam in B by ring. replace (lam + -1)%R with (lam - 1)%R by ring. exact B.
    + pose proof (span_diff (lam - 1) N i ltac:(lra) Hi ltac:(lia)) as B. replace (lam - 1 + 1)%R with lam in B by ring. replace (lam + -1)%R with (lam - 1)%R by ring. exact B.
    + destruct D as [D1 D2]. rewrite opp_IZR, mult_IZR. pose proof (span_id (lam - 2 * IZR r) (Z.to_nat r) D1 N i Hi ltac:(lia)) as B.
      rewrite (INR_to_nat r D2) in B. replace (lam - 2 * IZR r + 2 * IZR r)%R with lam in B by ring.
      replace (lam + - (2 * IZR r))%R with (lam - 2 * IZR r)%R by ring. exact B.
    + apply span_W. lia.
  - intros k Hk. apply (el_elem e lam D HS); lia.
Qed.

(** Rows: the operator is moved to the other factor. *)
Definition adj (e : elem) : fop :=
  match e with
  | M_Db_pl => fun h b => (- op_diff h b)%R
  | M_bDb => fun h b => (- op_diff (op_beta h) b)%R
  | _ => pops (eprims e)
  end.

Lemma adj_ok e r s s' g h : row_reach e = Some r -> noS e -> cls s h -> cls s' g ->
  match e with M_Db_pl => (0 <= s + s')%R | M_bDb => (0 <= s + s' + 1)%R | _ => True end ->
  integral (fun b => h b * pops (eprims e) g b - adj e h b * g b)%R 0.
Proof.
  intros HR HS Hh Hg Hs. destruct e; cbn [row_reach eprims noS pops pop adj] in *; try contradiction; try discriminate.
  1, 3-4, 6-8: eapply integral_ext; [|exact integral_zero]; intros b Hb; unfold op_beta, op_inv; field; lra.
  - eapply integral_ext; [|exact (cls_parts (s + 1) s' _ _ ltac:(lra) (cls_beta _ _ Hh) Hg)]. intros b Hb. cbv beta. unfold op_beta at 2 3. ring.
  - eapply integral_ext; [|exact (cls_parts _ _ _ _ Hs Hh Hg)]. intros b Hb. cbv beta. ring.
Qed.

Lemma row_adj e lam r f (N : nat) b : elem_dom e lam -> noS e -> row_reach e = Some r -> 0 <= f -> f + r < Z.of_nat N -> (0 < b)%R ->
  adj e (W (dst e lam) f) b = rsum (fun k => eval e lam f k * W lam k b)%R N.
Proof.
  intros D HS HR Hf HN. destruct (dst_pos e lam D) as [Hl Hd]. revert b. apply (span_coeff _ N _ (fun k => eval e lam f k)); [exact Hl| |].
  - destruct e; cbn [elem_shift elem_dom row_reach eprims noS pops pop adj] in *; try contradiction; try discriminate;
      inversion HR; subst r; rewrite ?Rplus_0_r in *.
    + apply span_b2; assumption.
    + apply (span_ext lam N (fun b => - 1 * W lam f b + -1 * op_beta (op_diff (W lam f)) b)%R).
      { intros b Hb. unfold op_diff at 2. assert (E : is_derive (op_beta (W lam f)) b (W lam f b + b * Derive (W lam f) b)%R).
        { pose proof (is_derive_mult (fun x => x) (W lam f) b 1%R _ (is_derive_id b) (Derive_correct _ _ (cls_ex_derive _ _ b (cls_W (-1/2) lam f ltac:(lra)) Hb)) Rmult_comm) as K.
          unfold plus, mult in K. cbn in K. unfold op_beta. rewrite Rmult_1_l in K. exact K. }
        rewrite (is_derive_unique _ _ _ E). unfold op_beta, op_diff. ring. }
      apply (span_plus _ _ (fun b => - 1 * W lam f b)%R); apply span_scal; [apply span_W; lia|apply span_bDb; assumption].
    + apply span_b_down; assumption.
    + apply span_inv; [assumption|lia].
    + apply (span_ext lam N (fun b => -1 * op_diff (W (lam + 1) f) b)%R); [intros; ring|]. apply span_scal. apply span_diff; assumption.
    + pose proof (span_b_up (lam - 1) N f ltac:(lra) ltac:(lia)) as B. replace (lam - 1 + 1)%R with lam in B by ring. replace (lam + -1)%R with (lam - 1)%R by ring. exact B.
    + destruct D as [D1 D2]. rewrite mult_IZR. rewrite <- (INR_to_nat r0 D2). apply span_id; [assumption|assumption|lia].
    + apply span_W. lia.
  - intros k Hk. pose proof (el_elem e lam D HS f k Hf (proj1 Hk)) as K.
    assert (C : forall s lam', (s < lam' - 1 / 2)%R -> forall j, cls s (W lam' j)) by (intros; now apply cls_W).
    assert (A : integral (fun b => W (dst e lam) f b * pops (eprims e) (W lam k) b - adj e (W (dst e lam) f) b * W lam k b)%R 0).
    { destruct (match e with M_Db_pl => true | _ => false end) eqn:E.
      - destruct e; try discriminate. apply (adj_ok M_Db_pl r (1 / 2) (- (1 / 2)) _ _ HR HS); [apply C; cbn; lra|apply C; lra|lra].
      - apply (adj_ok e r (- (1 / 2)) (- (1 / 2)) _ _ HR HS); [apply C; lra|apply C; lra|]. destruct e; try exact Logic.I; [lra|discriminate]. }
    pose proof (integral_plus _ _ _ _ K (integral_scal _ (-1) _ A)) as Q. rewrite Rmult_0_r, Rplus_0_r in Q.
    eapply integral_ext; [|exact Q]. intros b Hb. cbv beta. ring.
Qed.

Lemma cls_sharp s g : cls s g -> exists s', (s < s')%R /\ cls s' g.
Proof.
  intros (l & A & B).
  assert (H : exists s', (s < s')%R /\ Forall (fun ce => (s' < snd ce)%R) l).
  { clear B. induction A as [|x l Hx _ (s' & H1 & H2)]; [exists (s + 1)%R; split; [lra|constructor]|].
    exists (Rmin s' ((s + snd x) / 2)). pose proof (Rmin_l s' ((s + snd x) / 2)). pose proof (Rmin_r s' ((s + snd x) / 2)).
    split; [apply Rmin_glb_lt; lra|]. constructor; [lra|]. eapply Forall_impl; [|exact H2]. intros y Hy. cbv beta in *. lra. }
  destruct H as (s' & H1 & H2). exists s'. split; [exact H1|]. now exists l.
Qed.

Lemma row_elem e lam r f (N : nat) g (v : Z -> R) : elem_dom e lam -> noS e -> row_reach e = Some r -> 0 <= f -> f + r < Z.of_nat N ->
  cls (- lam - 1 / 2) g -> (forall k, 0 <= k < Z.of_nat N -> integral (fun b => W lam k b * g b)%R (v k)) ->
  integral (fun b => W (dst e lam) f b * pops (eprims e) g b)%R (rsum (fun k => eval e lam f k * v k)%R N).
Proof.
  intros D HS HR Hf HN Hg Hv. destruct (dst_pos e lam D) as [Hl Hd]. destruct (cls_sharp _ _ Hg) as (s' & Hs' & Hg').
  assert (A : integral (fun b => W (dst e lam) f b * pops (eprims e) g b - adj e (W (dst e lam) f) b * g b)%R 0).
  { destruct (match e with M_Db_pl => true | M_bDb => true | _ => false end) eqn:E.
    - destruct e; try discriminate; cbn [elem_shift] in *.
      + apply (adj_ok M_bDb r (- s' - 1) s' _ _ HR HS); [apply cls_W; lra|exact Hg'|lra].
      + apply (adj_ok M_Db_pl r (- s') s' _ _ HR HS); [apply cls_W; lra|exact Hg'|lra].
    - apply (adj_ok e r (- (1 / 2)) s' _ _ HR HS); [apply cls_W; lra|exact Hg'|]. destruct e; try exact Logic.I; discriminate. }
  assert (B : integral (fun b => adj e (W (dst e lam) f) b * g b)%R (rsum (fun k => eval e lam f k * v k)%R N)).
  { apply (integral_ext (fun b => rsum (fun k => eval e lam f k * (W lam k b * g b)) N)%R).
    - intros b Hb. rewrite (row_adj e lam r f N b) by assumption. rewrite Rmult_comm, <- rsum_scal. apply rsum_ext. intros. ring.
    - apply (integral_rsum (fun k b => eval e lam f k * (W lam k b * g b))%R). intros k Hk. apply integral_scal. now apply Hv. }
  pose proof (integral_plus _ _ _ _ A B) as Q. rewrite Rplus_0_l in Q. eapply integral_ext; [|exact Q]. intros b Hb. cbv beta. ring.
Qed.

(** ** Products of elementary matrices *)

Lemma col_nonneg e lam r : elem_dom e lam -> col_reach e = Some r -> 0 <= r.
Proof. exact (col_reach_nonneg Gamma (fun m => Ok m) (fun m => Ok m) e lam r). Qed.
Lemma row_nonneg e lam r : elem_dom e lam -> row_reach e = Some r -> 0 <= r.
Proof. exact (row_reach_nonneg Gamma (fun m => Ok m) (fun m => Ok m) e lam r). Qed.
Lemma cols_nonneg l c : doms l -> col_sum (map fst l) = Some c -> 0 <= c.
Proof. exact (col_sum_nonneg Gamma (fun m => Ok m) (fun m => Ok m) l c). Qed.
Lemma run_nonneg l c : doms l -> reach (map fst l) = Some c -> 0 <= c.
Proof. exact (reach_nonneg Gamma (fun m => Ok m) (fun m => Ok m) l c). Qed.

(** The last matrix acts on the basis for [s], each other one on the basis in
    which its right neighbour ends; the first ends in the basis for [t]. *)
Inductive runs : list (elem * R) -> R -> R -> Prop :=
| runs_nil : forall s, runs [] s s
| runs_cons : forall e lam l s, runs l s lam -> runs ((e, lam) :: l) s (dst e lam).

Definition lprims (l : list (elem * R)) : list prim := flat_map (fun x => eprims (fst x)) l.
Definition noSs (l : list (elem * R)) : Prop := Forall (fun x => noS (fst x)) l.

Lemma dom_pos l s t : runs l s t -> doms l -> l <> [] -> (0 < t)%R.
Proof. intros Hr D Hn. destruct Hr; [congruence|]. inversion D; subst. now apply (dst_pos e lam). Qed.

(** Column-banded products: a finite expansion. *)
Lemma cols_run l s t c i (N : nat) : runs l s t -> doms l -> noSs l -> l <> [] -> col_sum (map fst l) = Some c -> 0 <= i -> i + c < Z.of_nat N ->
  forall b, (0 < b)%R -> pops (lprims l) (W s i) b = rsum (fun k => rprod (vals Gamma l) N k i * W t k b)%R N.
Proof.
  intros Hr. revert c. induction Hr as [s|e lam l s Hr IH]; intros c D HS Hne HC Hi HN b Hb; [congruence|]. clear Hne.
  inversion D as [|? ? D1 D2]; subst. inversion HS as [|? ? S1 S2]; subst. cbn [fst snd] in *. cbn [map col_sum fst] in HC.
  destruct (col_reach e) as [c1|] eqn:E1; [|discriminate]. destruct (col_sum (map fst l)) as [c2|] eqn:E2; [|discriminate]. inversion HC; subst c.
  pose proof (col_nonneg _ _ _ D1 E1). pose proof (cols_nonneg _ _ D2 E2).
  change (lprims ((e, lam) :: l)) with (eprims e ++ lprims l). rewrite pops_app.
  destruct l as [|y l'].
  { inversion Hr; subst. cbn [lprims flat_map pops vals map rprod fst snd]. cbn in E2. inversion E2; subst. apply (col_elem e lam c1); try assumption; lia. }
  change (vals Gamma ((e, lam) :: y :: l')) with (eval e lam :: vals Gamma (y :: l')).
  set (M := Z.to_nat (i + c2 + 1)).
  assert (T : forall k, 0 <= k -> rprod (vals Gamma (y :: l')) M k i = rprod (vals Gamma (y :: l')) N k i
     /\ (i + c2 < k -> rprod (vals Gamma (y :: l')) M k i = 0%R)).
  { apply (tail_exact Gamma (fun m => Ok m) (fun m => Ok m)); try assumption; try lia. discriminate. }
  assert (E : forall b, (0 < b)%R -> pops (lprims (y :: l')) (W s i) b = rsum (fun k => rprod (vals Gamma (y :: l')) N k i * W lam k b)%R M).
  { intros b' Hb'. rewrite (IH c2 D2 S2 ltac:(discriminate) eq_refl Hi ltac:(lia) b' Hb'). apply rsum_cut; [lia|].
    intros k Hk. rewrite <- (proj1 (T k ltac:(lia))), (proj2 (T k ltac:(lia))) by lia. ring. }
  rewrite (pops_ext (eprims e) _ _ E b Hb).
  rewrite (pops_rsum (eprims e) (lam - 1)) by (exact Hb || (intros; apply cls_W; lra)).
  rewrite (rsum_ext _ (fun k => rsum (fun j => rprod (vals Gamma (y :: l')) N k i * (eval e lam j k * W (dst e lam) j b))%R N)).
  - rewrite rsum_swap. apply rsum_ext. intros j Hj. rewrite rprod_cons by discriminate.
    rewrite (Rmult_comm (rsum _ _)), <- rsum_scal. symmetry.
    rewrite (rsum_cut _ N M); [apply rsum_ext; intros; ring|lia|].
    intros k Hk. rewrite <- (proj1 (T k ltac:(lia))), (proj2 (T k ltac:(lia))) by lia. ring.
  - intros k Hk. rewrite rsum_scal. f_equal. apply (col_elem e lam c1); try assumption; lia.
Qed.

(** Every product whose truncation can be removed: its entries are the integrals. *)
Lemma run_integrals l s t r i (N : nat) : runs l s t -> doms l -> noSs l -> l <> [] -> reach (map fst l) = Some r -> 0 <= i ->
  cls (- t - 1 / 2) (pops (lprims l) (W s i)) /\
  forall f, 0 <= f -> Z.max f i + r < Z.of_nat N -> integral (fun b => W t f b * pops (lprims l) (W s i) b)%R (rprod (vals Gamma l) N f i).
Proof.
  intros Hr. revert r. induction Hr as [s|e lam l s Hr IH]; intros r D HS Hne HR Hi; [congruence|]. clear Hne.
  inversion D as [|? ? D1 D2]; subst. inversion HS as [|? ? S1 S2]; subst. cbn [fst snd] in *.
  change (lprims ((e, lam) :: l)) with (eprims e ++ lprims l). rewrite pops_app.
  destruct l as [|y l'].
  { inversion Hr; subst. cbn [lprims flat_map pops vals map rprod fst snd]. split.
    - apply cls_elem; try assumption. intros u Hu. now apply cls_W.
    - intros f Hf _. now apply el_elem. }
  change (vals Gamma ((e, lam) :: y :: l')) with (eval e lam :: vals Gamma (y :: l')).
  change (reach (map fst ((e, lam) :: y :: l'))) with
      (match col_sum (map fst (y :: l')) with Some t => Some t
       | None => match row_reach e, reach (map fst (y :: l')) with
                 | Some r, Some t => Some (r + t) | _, _ => None end end) in HR.
  destruct (col_sum (map fst (y :: l'))) as [c|] eqn:Ec.
  - inversion HR; subst c. pose proof (cols_nonneg _ _ D2 Ec).
    assert (EX : forall (M : nat), i + r < Z.of_nat M -> forall b, (0 < b)%R ->
      pops (lprims (y :: l')) (W s i) b = rsum (fun k => rprod (vals Gamma (y :: l')) M k i * W lam k b)%R M).
    { intros M HM b Hb. now apply (cols_run (y :: l') s lam r i M Hr D2 S2 ltac:(discriminate) Ec Hi HM). }
    split.
    + apply cls_elem; [assumption|assumption|]. intros u Hu. set (M := Z.to_nat (i + r + 1)).
      eapply cls_ext; [intros b Hb; symmetry; exact (EX M ltac:(lia) b Hb)|].
      apply (cls_rsum u (fun k b => rprod (vals Gamma (y :: l')) M k i * W lam k b)%R). intros k Hk. apply cls_scal. now apply cls_W.
    + intros f Hf HN. rewrite rprod_cons by discriminate.
      apply (integral_ext (fun b => rsum (fun k => rprod (vals Gamma (y :: l')) N k i * (W (dst e lam) f b * pops (eprims e) (W lam k) b)) N)%R).
      * intros b Hb. rewrite (pops_ext (eprims e) _ _ (EX N ltac:(lia)) b Hb).
        rewrite (pops_rsum (eprims e) (lam - 1)) by (exact Hb || (intros; apply cls_W; lra)).
        rewrite <- rsum_scal. apply rsum_ext. intros. ring.
      * rewrite (rsum_ext _ (fun k => rprod (vals Gamma (y :: l')) N k i * eval e lam f k)%R) by (intros; ring).
        apply (integral_rsum (fun k b => rprod (vals Gamma (y :: l')) N k i * (W (dst e lam) f b * pops (eprims e) (W lam k) b))%R).
        intros k Hk. apply integral_scal. apply el_elem; try assumption; lia.
  - destruct (row_reach e) as [r1|] eqn:E1; [|discriminate]. destruct (reach (map fst (y :: l'))) as [r2|] eqn:E2; [|discriminate].
    inversion HR; subst r. pose proof (row_nonneg _ _ _ D1 E1). pose proof (run_nonneg _ _ D2 E2).
    destruct (IH r2 D2 S2 ltac:(discriminate) eq_refl Hi) as [C I]. split.
    + now apply (cls_row e lam r1).
    + intros f Hf HN. rewrite rprod_cons by discriminate.
      set (M := Z.to_nat (f + r1 + 1)).
      assert (K : integral (fun b => W (dst e lam) f b * pops (eprims e) (pops (lprims (y :: l')) (W s i)) b)%R
        (rsum (fun k => eval e lam f k * rprod (vals Gamma (y :: l')) N k i)%R M)).
      { apply (row_elem e lam r1 f M); try assumption; [lia|]. intros k Hk. apply I; lia. }
      rewrite (rsum_cut _ N M) by (lia || (intros k Hk; rewrite (row_reach_ok Gamma (fun m => Ok m) (fun m => Ok m) e lam r1) by (assumption || lia); ring)). exact K.
Qed.

(** ** Words *)

Definition plain_symbol (s : rsym) : Prop :=
  match s with Radial_Sm | Radial_S0 | Radial_Sp | Radial_other _ => False | _ => True end.
Definition sprims (s : rsym) : list prim :=
  match s with
  | Radial_b2 => [PB; PB] | Radial_bm2 => [PI; PI] | Radial_D2b => [PD; PD] | Radial_bDb => [PB; PD]
  | Radial_b => [PB] | Radial_bm => [PI] | Radial_Db => [PD] | _ => []
  end.
Definition wprims (w : list rsym) : list prim := flat_map sprims w.

Lemma word_fop_prims a lam w g : Forall plain_symbol w -> word_fop a lam w g = pops (wprims w) g.
Proof.
  induction 1 as [|s w Hs _ IH]; [reflexivity|]. change (wprims (s :: w)) with (sprims s ++ wprims w). rewrite pops_app, <- IH.
  destruct s; try contradiction; reflexivity.
Qed.
Lemma word_pow_prims w : word_pow w = - pdegs (wprims w).
Proof.
  unfold word_pow, pdegs, zsum. induction w as [|s w IH]; [reflexivity|]. change (wprims (s :: w)) with (sprims s ++ wprims w).
  cbn [map fold_right]. rewrite IH, map_app, fold_right_app. destruct s; cbn [sprims map fold_right pdeg]; lia.
Qed.

(** Operators on functions, with beta and 1/beta changed where they are not
    inverse to each other, form an algebra. *)
Definition beta0 (g : R -> R) (b : R) : R := if Rlt_dec 0 b then (b * g b)%R else g b.
Definition inv0 (g : R -> R) (b : R) : R := if Rlt_dec 0 b then (g b / b)%R else g b.
Definition falg : alg.
Proof.
  refine (mkAlg ((R -> R) -> R -> R) (fun g => g) (fun S T g => S (T g)) _ _ _ beta0 inv0 _ _ op_diff (fun g => g) (fun g => g) (fun g => g) (fun _ g => g)).
  1-3: reflexivity.
  all: apply FunctionalExtensionality.functional_extensionality; intros g; apply FunctionalExtensionality.functional_extensionality; intros b;
    unfold beta0, inv0; destruct (Rlt_dec 0 b); try reflexivity; field; lra.
Defined.

Lemma beta0_ext g h b : (0 < b)%R -> g b = h b -> beta0 g b = op_beta h b.
Proof. intros Hb E. unfold beta0, op_beta. destruct (Rlt_dec 0 b); [now rewrite E|lra]. Qed.
Lemma inv0_ext g h b : (0 < b)%R -> g b = h b -> inv0 g b = op_inv h b.
Proof. intros Hb E. unfold inv0, op_inv. destruct (Rlt_dec 0 b); [now rewrite E|lra]. Qed.
Lemma diff_ext g h : (forall b, (0 < b)%R -> g b = h b) -> forall b, (0 < b)%R -> op_diff g b = op_diff h b.
Proof. exact (pop_ext PD g h). Qed.

Ltac fops := intros; cbn [falg beta beta_inv deriv mul one car pops pop];
  repeat first [apply beta0_ext; [assumption|] | apply inv0_ext; [assumption|] | apply diff_ext; [intros|assumption]]; auto.

Lemma falg_sym s g h : plain_symbol s -> (forall b, (0 < b)%R -> g b = h b) -> forall b, (0 < b)%R -> sym_op falg s g b = pops (sprims s) h b.
Proof. intros Hs E. destruct s; try contradiction; cbn [sym_op sprims]; fops. Qed.
Lemma falg_elem e g h : noS e -> (forall b, (0 < b)%R -> g b = h b) -> forall b, (0 < b)%R -> elem_op falg e g b = pops (eprims e) h b.
Proof. intros Hs E. destruct e; try contradiction; cbn [elem_op eprims]; fops. Qed.
Lemma falg_word w g : Forall plain_symbol w -> forall b, (0 < b)%R -> word_op falg w g b = pops (wprims w) g b.
Proof.
  induction 1 as [|s w Hs _ IH]; [reflexivity|]. change (wprims (s :: w)) with (sprims s ++ wprims w). rewrite pops_app.
  intros b Hb. change (word_op falg (s :: w) g) with (sym_op falg s (word_op falg w g)). now apply falg_sym.
Qed.
Lemma falg_elems l g : Forall (fun eo => noS (fst eo)) l -> forall b, (0 < b)%R ->
  elems_op falg l g b = pops (flat_map (fun eo : elem * Z => eprims (fst eo)) l) g b.
Proof.
  induction 1 as [|x l Hs _ IH]; [reflexivity|]. cbn [flat_map]. rewrite pops_app.
  intros b Hb. change (elems_op falg (x :: l) g) with (elem_op falg (fst x) (elems_op falg l g)). now apply falg_elem.
Qed.

(** Counting the SU(1,1) factors. *)
Definition calg : alg.
Proof. refine (mkAlg Z 0 Z.add _ _ _ 0 0 _ _ 0 1 1 1 (fun _ => 1)); intros; lia. Defined.
Lemma calg_word w : Forall plain_symbol w -> word_op calg w = 0.
Proof.
  induction 1 as [|s w Hs _ IH]; [reflexivity|]. change (word_op calg (s :: w)) with (sym_op calg s + word_op calg w).
  rewrite IH. destruct s; try contradiction; reflexivity.
Qed.
Lemma calg_elem e : 0 <= elem_op calg e /\ (elem_op calg e = 0 -> noS e).
Proof. destruct e; cbn; lia || (split; [lia|exact (fun _ => Logic.I)]). Qed.
Lemma calg_elems l : 0 <= elems_op calg l /\ (elems_op calg l = 0 -> Forall (fun eo => noS (fst eo)) l).
Proof.
  induction l as [|x l [I1 I2]]; [split; [reflexivity|constructor]|].
  change (elems_op calg (x :: l)) with (elem_op calg (fst x) + elems_op calg l). destruct (calg_elem (fst x)) as [A B].
  split; [lia|]. intros E. constructor; [apply B; lia|apply I2; lia].
Qed.

Definition placed (lam : R) (eo : elem * Z) (x : elem * R) : Prop := fst eo = fst x /\ snd x = (lam + IZR (snd eo))%R.
Lemma plain_flat lam fs l : Forall2 (plain lam) fs l -> Forall2 (placed lam) (flat fs) l.
Proof.
  induction 1 as [|f x fs l (_ & o & E & L) _ IH]; [constructor|]. unfold flat. cbn [flat_map]. rewrite E. cbn [app].
  constructor; [split; [reflexivity|exact L]|exact IH].
Qed.
Lemma placed_runs lam es l s t : Forall2 (placed lam) es l -> chains es s t -> runs l (lam + IZR s) (lam + IZR t).
Proof.
  intros P C. revert l P. induction C as [s|e o es s C IH]; intros l P; inversion P as [|? x ? l' [P1 P2] P']; subst; [constructor|].
  destruct x as [e' lam']. cbn [fst snd] in *. subst. rewrite plus_IZR, <- Rplus_assoc. constructor. now apply IH.
Qed.
Lemma placed_prims lam es l : Forall2 (placed lam) es l -> flat_map (fun eo : elem * Z => eprims (fst eo)) es = lprims l.
Proof. induction 1 as [|x y es l [E _] _ IH]; [reflexivity|]. unfold lprims in *. cbn [flat_map]. now rewrite IH, E. Qed.
Lemma placed_noS lam es l : Forall2 (placed lam) es l -> Forall (fun eo => noS (fst eo)) es -> noSs l.
Proof. induction 1 as [|x y es l [E _] _ IH]; intros H; inversion H; subst; constructor; [now rewrite <- E|now apply IH]. Qed.
Lemma weight_pow a fs : a <> 0%R -> weight a fs = powerRZ a (zsum (map f_pow fs)).
Proof.
  intros Ha. unfold zsum. induction fs as [|f fs IH]; [reflexivity|]. cbn [weight fold_right map]. fold (weight a fs).
  rewrite IH, powerRZ_add by exact Ha. reflexivity.
Qed.

(** A settled word: the matrix is made of the integrals. *)
Lemma settled_integrals Msqrt Minv w a lam0 lam var t : settled w lam var t -> Forall plain_symbol w -> (0 < a)%R ->
  exists E, elements a (lam + IZR var) lam (word_fop a lam0 w) E /\
    forall n0 N lap, 0 <= n0 <= N -> n0 <= lap -> t <= lap ->
      radial_matrix (RepRadial_Prod Gamma Msqrt Minv w a lam var n0 N lap) n0 N E.
Proof.
  intros (fs & l & t' & EF & HP & Hne & HR & Ht) HW Ha.
  destruct (C21_product_denotes_word w lam var fs EF) as (HA & HC & HZ).
  pose proof (plain_doms _ _ _ HP) as D. pose proof (plain_flat _ _ _ HP) as PF.
  assert (HS : Forall (fun eo => noS (fst eo)) (flat fs)).
  { apply calg_elems. rewrite (HA calg). now apply calg_word. }
  pose proof (placed_noS _ _ _ PF HS) as HS'. pose proof (placed_runs _ _ _ _ _ PF HC) as HRun. change (IZR 0) with 0%R in HRun. rewrite Rplus_0_r in HRun.
  assert (Hl : l <> []) by (inversion HP; subst; congruence).
  assert (EP : forall g b, (0 < b)%R -> pops (wprims w) g b = pops (lprims l) g b).
  { intros g b Hb. rewrite <- (falg_word w g HW b Hb), <- (HA falg), (falg_elems _ g HS b Hb). now rewrite (placed_prims _ _ _ PF). }
  exists (exact_val Gamma a fs l t'). split.
  - apply (elements_req a _ _ _ (rscale (powerRZ a (word_pow w)) (fun f i => rprod (vals Gamma l) (Z.to_nat (Z.max f i + t' + 1)) f i))).
    { intros f i _ _. unfold rscale, exact_val. rewrite weight_pow by lra. now rewrite HZ. }
    apply (el_elements a _ _ _ (fun i => pops (lprims l) (W lam i))); [exact Ha| |].
    + intros f i Hf Hi. pose proof (run_nonneg _ _ D HR). apply (run_integrals l lam (lam + IZR var) t'); try assumption. lia.
    + intros i b Hi Hb. assert (Hab : (0 < a * b)%R) by now apply Rmult_lt_0_compat.
      rewrite word_fop_prims by exact HW. rewrite word_pow_prims.
      rewrite (pops_ext _ _ (fun x => sqrt a * W lam i (a * x))%R) by (exact Hb || (intros; apply wave_W)).
      rewrite (pops_dilate (wprims w) (lam - 1) (W lam i)) by (assumption || (apply cls_W; lra)). rewrite EP by exact Hab. ring.
  - intros n0 N lap Hn Hlap Htl. apply (Prod_exact Gamma gamma_like_Gamma Msqrt Minv w a lam var fs l t'); try assumption. lia.
Qed.
