(** C77: what ME_Radial and RepRadial_Prod return for products of operators and
    shifts of lambda are the integrals over the wave functions. *)

From Coq Require Import Reals Lra Lia ZArith ZifyBool ZifyNat List.
From Coquelicot Require Import Coquelicot.
From Verif Require Import PyBase PyFacts Compat Matrix FullLabels RadialOps RadialSpec PropsRadialOps RadialME RadialMESpec RadialMEFacts IdFacts RadialWords RadialElement RadialExact RadialChain PropsRadialME PropsRadialMatrix.
From Verif Require Import Improper Laguerre Waves WaveSpec WaveFacts WaveClass WaveWords.
Import ListNotations.
Open Scope Z_scope.
Ltac Zify.zify_post_hook ::= Z.div_mod_to_equations.

(** The matrix computed for the word, with at least [t] overlapping levels, is
    the matrix of the operator between the wave functions for [lam] and those
    for [lam + var]. *)
Definition matrix_of_integrals Msqrt Minv (w : list rsym) (a lam : R) (var t : Z) : Prop :=
  exists E, elements a (lam + IZR var) lam (word_fop a lam w) E /\
    forall n0 N lap, 0 <= n0 <= N -> n0 <= lap -> t <= lap ->
      radial_matrix (RepRadial_Prod Gamma Msqrt Minv w a lam var n0 N lap) n0 N E.

Theorem C77_powers_of_beta : forall Msqrt Minv w a lam var,
  beta_word w -> w <> [] -> (beta_degree w + var) mod 2 = 0 -> (0 < a)%R -> (0 < lam)%R -> (0 < lam + IZR var)%R ->
  matrix_of_integrals Msqrt Minv w a lam var ((beta_degree w + Z.abs var) / 2).
Proof.
  intros Msqrt Minv w a lam var HB Hne HP Ha Hl Hv. apply settled_integrals; [now apply settled_beta_word| |exact Ha].
  eapply Forall_impl; [|exact HB]. intros s [-> | ->]; exact Logic.I.
Qed.

Theorem C77_large_shift : forall Msqrt Minv u d a lam var,
  powers u -> derivatives d -> u ++ d <> [] ->
  let deg := Z.abs (zsum (map step_b u)) + zsum (map step_D d) in
  deg <= Z.abs var -> (Z.abs var - deg) mod 2 = 0 -> (0 < a)%R -> (0 < lam)%R -> (0 < lam + IZR var)%R ->
  matrix_of_integrals Msqrt Minv (u ++ d) a lam var ((Z.abs var + deg) / 2).
Proof.
  intros Msqrt Minv u d a lam var HU HD Hne deg Hdeg Hp Ha Hl Hv.
  destruct (parse_powers_derivatives u d HU HD Hne) as [EP Hpos]. pose proof (derivatives_nonneg d HD).
  apply settled_integrals; [| |exact Ha].
  - replace ((Z.abs var + deg) / 2) with ((Z.abs var + Z.abs (zsum (map step_b u)) + zsum (map step_D d)) / 2)
      by (unfold deg; f_equal; lia).
    now apply settled_large.
  - apply Forall_app. split.
    + destruct HU as [HU|HU]; (eapply Forall_impl; [|exact HU]); intros s [-> | ->]; exact Logic.I.
    + eapply Forall_impl; [|exact HD]. intros s [-> | ->]; exact Logic.I.
Qed.

(** ** One operator *)

Definition not_S (op : option rsym) : Prop := forall s, op = Some s -> ~ S_sym s.

Lemma settled_one w lam var e p : RepRadial_Prod_factors w lam var = Ok [F1 e 0 p] -> elem_dom e lam -> settled w lam var 0.
Proof.
  intros EF D. exists [F1 e 0 p], [(e, lam)], 0. split; [exact EF|]. split; [|split; [discriminate|split; [reflexivity|lia]]].
  constructor; [|constructor]. split; [exact D|]. exists 0. split; [reflexivity|]. cbn [snd]. ring.
Qed.

Lemma settled_closed op lam var : radial_name op -> not_S op -> closed_form op var -> (0 < lam)%R -> (0 < lam + IZR var)%R ->
  ~ singular op var lam -> settled (one_word op) lam var 0.
Proof.
  intros HN HnS HC Hl Hv HS.
  assert (G1 : forall s, s = Radial_bm2 \/ s = Radial_D2b -> op = Some s -> var = 0 -> (1 < lam)%R).
  { intros s Hs E0 E1. destruct (Rlt_dec 1 lam); [assumption|]. exfalso. apply HS. unfold singular. subst op.
    destruct Hs; subst s; (split; [auto|]); split; auto; lra. }
  destruct op as [s|]; cbn [one_word closed_form] in *.
  - assert (K : forall K T e p, Parse_RadialOp_List [s] = Ok [KTOp K T] ->
       Lambda_RadialOp_List [KTOp K T] var = Ok [var] -> bsds_factors K T var = Ok [F1 e 0 p] -> elem_dom e lam -> settled [s] lam var 0).
    { intros K T e p EP EL EB D. apply (settled_one _ _ _ e p); [|exact D]. now apply (one_letter s K T). }
    destruct s; cbn in HC; try (exfalso; eapply HnS; [reflexivity|]; unfold S_sym; tauto).
    + subst var. now apply (K 2 0 M_b2 (-2)).
    + assert (1 < lam)%R by (apply (G1 Radial_bm2); auto). subst var. now apply (K (-2) 0 M_bm2 2).
    + assert (1 < lam)%R by (apply (G1 Radial_D2b); auto). subst var. now apply (K 0 2 M_D2b 2).
    + subst var. now apply (K 1 1 M_bDb 0).
    + destruct HC as [-> | ->]; [now apply (K 1 0 M_b_pl (-1))|]. apply (K 1 0 M_b_ml (-1)); try reflexivity. cbn. lra.
    + destruct HC as [-> | ->]; [now apply (K (-1) 0 M_bm_pl 1)|]. apply (K (-1) 0 M_bm_ml 1); try reflexivity. cbn. lra.
    + destruct HC as [-> | ->]; [now apply (K 0 1 M_Db_pl 1)|]. apply (K 0 1 M_Db_ml 1); try reflexivity. cbn. lra.
    + exfalso. apply (HN name). reflexivity.
  - destruct (Z.eq_dec var 0) as [->|Hnz].
    + apply (settled_one _ _ _ M_eye 0); [|exact Hl]. unfold RepRadial_Prod_factors.
      destruct (Rle_dec lam 0); [lra|]. destruct (Rle_dec (lam + IZR 0) 0); [lra|]. reflexivity.
    + pose proof (id_factors lam var Hnz HC Hl Hv) as EF. destruct (Z.ltb_spec 0 var) as [H|H].
      * apply (settled_one _ _ _ _ _ EF). cbn. split; [exact Hl|lia].
      * apply (settled_one _ _ _ _ _ EF). cbn [elem_dom].
        assert (E2 : (2 * IZR (- var / 2) = - IZR var)%R) by (rewrite <- opp_IZR, <- mult_IZR; f_equal; lia). split; [lra|lia].
Qed.

Lemma settled_op op lam var : radial_name op -> not_S op -> (odd_operator op + var) mod 2 = 0 -> (0 < lam)%R -> (0 < lam + IZR var)%R ->
  ~ singular op var lam -> settled (one_word op) lam var ((Z.abs var + 3) / 2).
Proof.
  intros HN HnS HP Hl Hv HS.
  assert (up : forall t, settled (one_word op) lam var t -> t <= (Z.abs var + 3) / 2 -> settled (one_word op) lam var ((Z.abs var + 3) / 2)).
  { intros t (fs & l & t' & A & B & C & D & E) H. exists fs, l, t'. repeat split; try assumption. lia. }
  assert (CF : closed_form op var \/ ~ closed_form op var) by (destruct op as [[]|]; cbn; lia).
  destruct CF as [CF|CF]; [apply (up 0); [now apply settled_closed|lia]|].
  destruct op as [s|]; cbn [closed_form odd_operator one_word] in *; [|lia].
  assert (K : forall K T, Parse_RadialOp_List [s] = Ok [KTOp K T] -> 0 <= T -> 0 < Z.abs K + T <= 3 ->
        Z.abs K + T <= Z.abs var -> (Z.abs var - (Z.abs K + T)) mod 2 = 0 -> settled [s] lam var ((Z.abs var + 3) / 2)).
  { intros K T EP HT HKT Hvar Hpar. apply (up ((Z.abs var + Z.abs K + T) / 2)); [|lia]. apply settled_large; try assumption; lia. }
  destruct s; cbn [closed_form odd_operator] in CF, HP; try (exfalso; eapply HnS; [reflexivity|]; unfold S_sym; tauto).
  - apply (K 2 0); try reflexivity; lia.
  - apply (K (-2) 0); try reflexivity; lia.
  - apply (K 0 2); try reflexivity; lia.
  - apply (K 1 1); try reflexivity; lia.
  - apply (K 1 0); try reflexivity; lia.
  - apply (K (-1) 0); try reflexivity; lia.
  - apply (K 0 1); try reflexivity; lia.
  - exfalso. apply (HN name). reflexivity.
Qed.

(** ** The SU(1,1) operators under a shift *)

Definition sdel (s : rsym) : R := match s with Radial_S0 => -1 | _ => 1 end.
Definition seps (s : rsym) : R := match s with Radial_S0 => 0 | Radial_Sp => -1 | _ => 1 end.

Lemma S_pops s a lam g b : S_sym s -> (0 < a)%R -> (0 < b)%R -> sym_fop a lam s g b =
  ((a * a * pops [PB; PB] g b + sdel s * (pops [PD; PD] g b / (a * a) - (lam - 3 / 2) * (lam - 1 / 2) * (pops [PI; PI] g b / (a * a)))
    + seps s * (2 * pops [PB; PD] g b + g b)) / 4)%R.
Proof.
  intros HS Ha Hb. change (pops [PD; PD] g b) with (Derive (Derive g) b).
  cbn [pops pop]. unfold op_beta, op_inv, op_diff.
  destruct HS as [-> | [-> | ->]]; cbn [sym_fop sdel seps]; unfold op_S0, op_Sp, op_Sm, op_D; field; lra.
Qed.
Lemma S_scale s a lam lam2 i b : S_sym s -> (0 < a)%R -> (0 < b)%R ->
  sym_fop a lam s (wave a lam2 i) b = (sqrt a * sym_fop 1 lam s (W lam2 i) (a * b))%R.
Proof.
  intros HS Ha Hb. assert (Hab : (0 < a * b)%R) by now apply Rmult_lt_0_compat.
  rewrite !S_pops by (assumption || lra).
  assert (P : forall ps, pops ps (wave a lam2 i) b = (sqrt a * (powerRZ a (- pdegs ps) * pops ps (W lam2 i) (a * b)))%R).
  { intros ps. rewrite (pops_ext _ _ (fun x => sqrt a * W lam2 i (a * x))%R) by (exact Hb || (intros; apply wave_W)).
    apply (pops_dilate ps (lam2 - 1)); [assumption| |assumption]. apply cls_W. lra. }
  rewrite !P. rewrite wave_W. change (- pdegs [PB; PB]) with (-2). change (- pdegs [PD; PD]) with 2.
  change (- pdegs [PI; PI]) with 2. change (- pdegs [PB; PD]) with 0. 
  change (powerRZ a (-2)) with (/ (a * (a * 1)))%R. change (powerRZ a 2) with (a * (a * 1))%R. change (powerRZ a 0) with 1%R. rewrite !Rmult_1_r.
  generalize (pops [PB; PB] (W lam2 i) (a * b)%R), (pops [PD; PD] (W lam2 i) (a * b)%R), (pops [PI; PI] (W lam2 i) (a * b)%R), (pops [PB; PD] (W lam2 i) (a * b)%R).
  intros. field. lra.
Qed.
Lemma S_ext s lam g h b : S_sym s -> (0 < b)%R -> (forall b, (0 < b)%R -> g b = h b) -> sym_fop 1 lam s g b = sym_fop 1 lam s h b.
Proof. intros HS Hb E. rewrite !S_pops by (assumption || lra). now rewrite !(pops_ext _ g h E b Hb), (E b Hb). Qed.
Lemma S_rsum s lam lam2 (c : Z -> R) n b : S_sym s -> (0 < b)%R ->
  sym_fop 1 lam s (fun b => rsum (fun k => c k * W lam2 k b)%R n) b = rsum (fun k => c k * sym_fop 1 lam s (W lam2 k) b)%R n.
Proof.
  intros HS Hb. rewrite S_pops by (assumption || lra).
  rewrite !(pops_rsum _ (lam2 - 1)) by (exact Hb || (intros; apply cls_W; lra)).
  induction n as [|n IH]; cbn [rsum]; [field|]. rewrite <- IH, S_pops by (assumption || lra). field.
Qed.
Lemma S_W s lam i b : S_sym s -> (0 < lam)%R -> 0 <= i -> (0 < b)%R -> sym_fop 1 lam s (W lam i) b =
  match s with Radial_S0 => (lam / 2 + IZR i) * W lam i b | Radial_Sp => pv lam i * W lam (i + 1) b | _ => pv lam (i - 1) * W lam (i - 1) b end%R.
Proof.
  intros HS Hl Hi Hb. pose proof (S_scale s 1 lam lam i b HS ltac:(lra) Hb) as E. rewrite sqrt_1, !Rmult_1_l in E. rewrite <- E.
  destruct HS as [-> | [-> | ->]]; cbn [sym_fop].
  - rewrite wave_Sm by (assumption || lra). rewrite sqrt_1, !Rmult_1_l. reflexivity.
  - rewrite wave_S0 by (assumption || lra). rewrite sqrt_1, !Rmult_1_l. reflexivity.
  - rewrite wave_Sp by (assumption || lra). rewrite sqrt_1, !Rmult_1_l. reflexivity.
Qed.
Lemma el_S s lam : S_sym s -> (0 < lam)%R -> el lam (fun i => sym_fop 1 lam s (W lam i)) (elem_val Gamma (S_elem s) lam).
Proof.
  intros HS Hl. destruct HS as [-> | [-> | ->]]; cbn [S_elem elem_val].
  - eapply el_ext; [|intros f i _ _; reflexivity|exact (el_Sm lam Hl)]. intros i b Hi Hb. rewrite S_W; try assumption; [reflexivity|unfold S_sym; tauto].
  - eapply el_ext; [|intros f i _ _; reflexivity|exact (el_S0 lam Hl)]. intros i b Hi Hb. rewrite S_W; try assumption; [reflexivity|unfold S_sym; tauto].
  - eapply el_ext; [|intros f i _ _; reflexivity|exact (el_Sp lam Hl)]. intros i b Hi Hb. rewrite S_W; try assumption; [reflexivity|unfold S_sym; tauto].
Qed.
Lemma S_cols s lam i (N : nat) b : S_sym s -> (0 < lam)%R -> 0 <= i -> i + 1 < Z.of_nat N -> (0 < b)%R ->
  sym_fop 1 lam s (W lam i) b = rsum (fun k => elem_val Gamma (S_elem s) lam k i * W lam k b)%R N.
Proof.
  intros HS Hl Hi HN. revert b. apply (span_coeff lam N (sym_fop 1 lam s (W lam i)) (fun k => elem_val Gamma (S_elem s) lam k i) Hl).
  - apply (span_ext lam N _ _ (fun b Hb => eq_sym (S_W s lam i b HS Hl Hi Hb))).
    destruct HS as [-> | [-> | ->]]; [apply span_pred; lia|apply span_scal, span_W; lia|apply span_scal, span_W; lia].
  - intros k Hk. apply (el_S s lam HS Hl); lia.
Qed.

Lemma S_integrals Msqrt Minv s a lam var : S_sym s -> var mod 2 = 0 -> (0 < a)%R -> (0 < lam)%R -> (0 < lam + IZR var)%R ->
  exists E, elements a (lam + IZR var) lam (sym_fop a (Rmin lam (lam + IZR var)) s) E /\
    forall n0 N lap, 0 <= n0 <= N -> n0 <= lap -> (Z.abs var + 3) / 2 <= lap ->
      radial_matrix (RepRadial_Prod Gamma Msqrt Minv [s] a lam var n0 N lap) n0 N E.
Proof.
  intros HS Hp Ha Hl Hv.
  assert (DS : forall lam, (0 < lam)%R -> elem_dom (S_elem s) lam) by (destruct HS as [-> | [-> | ->]]; intros ? H; exact H).
  assert (NS : forall fs l t, Forall2 (plain lam) fs l -> fs <> [] -> reach (map fst l) = Some t -> t <= (Z.abs var + 3) / 2 ->
     RepRadial_Prod_factors [s] lam var = Ok fs -> weight a fs = 1%R ->
     el (lam + IZR var) (fun i => sym_fop 1 (Rmin lam (lam + IZR var)) s (W lam i))
       (fun f i => rprod (vals Gamma l) (Z.to_nat (Z.max f i + t + 1)) f i) ->
     exists E, elements a (lam + IZR var) lam (sym_fop a (Rmin lam (lam + IZR var)) s) E /\
    forall n0 N lap, 0 <= n0 <= N -> n0 <= lap -> (Z.abs var + 3) / 2 <= lap ->
      radial_matrix (RepRadial_Prod Gamma Msqrt Minv [s] a lam var n0 N lap) n0 N E).
  { intros fs l t P Hne HR Ht EF HW EL. exists (exact_val Gamma a fs l t). split.
    - apply (elements_req a _ _ _ (rscale 1 (fun f i => rprod (vals Gamma l) (Z.to_nat (Z.max f i + t + 1)) f i))).
      { intros f i _ _. unfold rscale, exact_val. now rewrite HW. }
      apply (el_elements a _ _ _ _ _ _ Ha EL). intros i b Hi Hb. rewrite S_scale by assumption. ring.
    - intros n0 N lap Hn H1 H2. apply (Prod_exact Gamma gamma_like_Gamma Msqrt Minv [s] a lam var fs l t); try assumption. lia. }
  assert (CS : exists c, col_reach (S_elem s) = Some c /\ 0 <= c <= 1)
    by (destruct HS as [-> | [-> | ->]]; eexists; (split; [reflexivity|lia])).
  destruct CS as (c & Ec & Hc).
  destruct (Z.eq_dec var 0) as [->|Hnz].
  { apply (NS [F1 (S_elem s) 0 0] [(S_elem s, lam)] 0); try reflexivity; try discriminate.
    - constructor; [|constructor]. split; [now apply DS|]. exists 0. split; [reflexivity|]. cbn [snd]. ring.
    - apply S_one; try assumption; [|reflexivity]. destruct HS as [-> | [-> | ->]]; reflexivity.
    - cbn. ring.
    - rewrite Rplus_0_r in *. rewrite Rmin_left by lra. now apply el_S. }
  pose proof (S_factors s lam var HS Hnz Hp Hl Hv) as EF.
  destruct (Z.ltb_spec 0 var) as [H0|H0].
  - assert (IZR var = 2 * IZR (var / 2))%R as EV by (rewrite <- mult_IZR; f_equal; lia).
    assert (0 < IZR var)%R by (apply IZR_lt; lia).
    apply (NS [F1 (M_id_pl (var / 2)) 0 0; F1 (S_elem s) 0 0] [(M_id_pl (var / 2), lam); (S_elem s, lam)] (c + 0)); try assumption; try discriminate.
    + constructor; [|constructor; [|constructor]]; (split; [|exists 0; split; [reflexivity|cbn [snd]; ring]]); cbn [fst snd elem_dom]; [split; [exact Hl|lia]|now apply DS].
    + cbn. now rewrite Ec.
    + lia.
    + cbn. ring.
    + rewrite Rmin_left by lra. intros f i Hf Hi. set (N := Z.to_nat (Z.max f i + (c + 0) + 1)).
      set (M := Z.to_nat (i + 2)).
      change (rprod (vals Gamma [(M_id_pl (var / 2), lam); (S_elem s, lam)]) N f i)
        with (rsum (fun k => elem_val Gamma (M_id_pl (var / 2)) lam f k * elem_val Gamma (S_elem s) lam k i)%R N).
      assert (Z0 : forall k, i + c < k -> elem_val Gamma (S_elem s) lam k i = 0%R).
      { intros k Hk. apply (col_reach_ok Gamma (fun m => Ok m) (fun m => Ok m) _ _ c); [now apply DS|exact Ec|lia]. }
      assert (EN : rsum (fun k => elem_val Gamma (M_id_pl (var / 2)) lam f k * elem_val Gamma (S_elem s) lam k i)%R N
                 = rsum (fun k => elem_val Gamma (S_elem s) lam k i * elem_val Gamma (M_id_pl (var / 2)) lam f k)%R M).
      { rewrite (rsum_cut _ N (Z.to_nat (i + c + 1))) by (lia || (intros k Hk; rewrite Z0 by lia; ring)).
        symmetry. rewrite (rsum_cut _ M (Z.to_nat (i + c + 1))) by (lia || (intros k Hk; rewrite Z0 by lia; ring)).
        apply rsum_ext. intros. ring. }
      rewrite EN.
      apply (integral_ext (fun b => rsum (fun k => elem_val Gamma (S_elem s) lam k i * (W (lam + IZR var) f b * W lam k b)) M)%R).
      * intros b Hb. rewrite (S_cols s lam i M) by (assumption || lia). rewrite <- rsum_scal. apply rsum_ext. intros. ring.
      * apply (integral_rsum (fun k b => elem_val Gamma (S_elem s) lam k i * (W (lam + IZR var) f b * W lam k b))%R).
        intros k Hk. apply integral_scal. rewrite EV. pose proof (el_id lam (Z.to_nat (var / 2)) Hl) as EI. rewrite INR_to_nat in EI by lia.
        apply EI; lia.
  - assert (IZR var = - (2 * IZR (- var / 2)))%R as EV by (rewrite <- mult_IZR, <- opp_IZR; f_equal; lia).
    set (r := - var / 2) in *. set (mu := (lam + IZR var)%R) in *. assert (Em : mu = (lam - 2 * IZR r)%R) by (unfold mu; lra).
    assert (0 <= IZR r)%R by (apply IZR_le; unfold r; lia).
    apply (NS [F1 (S_elem s) var 0; F1 (M_id_ml r) 0 0] [(S_elem s, mu); (M_id_ml r, lam)] (r + 0)); try assumption; try discriminate.
    + constructor; [|constructor; [|constructor]]; (split; [|eexists; split; [reflexivity|cbn [snd]]]); cbn [fst snd elem_dom].
      * now apply DS.
      * reflexivity.
      * split; [lra|unfold r; lia].
      * ring.
    + reflexivity.
    + unfold r. lia.
    + cbn. ring.
    + rewrite Rmin_right by lra. intros f i Hf Hi. set (N := Z.to_nat (Z.max f i + (r + 0) + 1)).
      change (rprod (vals Gamma [(S_elem s, mu); (M_id_ml r, lam)]) N f i)
        with (rsum (fun k => elem_val Gamma (S_elem s) mu f k * elem_val Gamma (M_id_ml r) lam k i)%R N).
      assert (Hr : 0 <= r) by (unfold r; lia).
      assert (EX : forall b, (0 < b)%R -> W lam i b = rsum (fun k => elem_val Gamma (M_id_ml r) lam k i * W mu k b)%R N).
      { intros b Hb. pose proof (col_elem (M_id_ml r) lam r i N b ltac:(cbn; split; [lra|lia]) Logic.I eq_refl Hi ltac:(lia) Hb) as K.
        cbn [eprims pops elem_shift] in K. rewrite opp_IZR, mult_IZR in K. replace (lam + - (2 * IZR r))%R with mu in K by lra. exact K. }
      apply (integral_ext (fun b => rsum (fun k => elem_val Gamma (M_id_ml r) lam k i * (W mu f b * sym_fop 1 mu s (W mu k) b)) N)%R).
      * intros b Hb. rewrite (S_ext s mu _ _ b HS Hb EX), S_rsum by assumption. rewrite <- rsum_scal. apply rsum_ext. intros. ring.
      * rewrite (rsum_ext _ (fun k => elem_val Gamma (M_id_ml r) lam k i * elem_val Gamma (S_elem s) mu f k)%R) by (intros; ring).
        apply (integral_rsum (fun k b => elem_val Gamma (M_id_ml r) lam k i * (W mu f b * sym_fop 1 mu s (W mu k) b))%R).
        intros k Hk. apply integral_scal. apply el_S; assumption || lia.
Qed.

(** ** ME_Radial *)

(** The integral [ME_Radial] stands for.  The SU(1,1) operators depend on a
    lambda; it is the smaller one of the two bases. *)
Definition radial_integral (op : option rsym) (a lam : R) (var f i : Z) (v : R) : Prop :=
  integral (fun b => wave a (lam + IZR var) f b * word_fop a (Rmin lam (lam + IZR var)) (one_word op) (wave a lam i) b)%R v.

Lemma op_integrals Msqrt Minv op a lam var :
  radial_name op -> (odd_operator op + var) mod 2 = 0 -> (0 < a)%R -> (0 < lam)%R -> (0 < lam + IZR var)%R ->
  ~ singular op var lam ->
  exists E, elements a (lam + IZR var) lam (word_fop a (Rmin lam (lam + IZR var)) (one_word op)) E /\
    forall n0 N lap, 0 <= n0 <= N -> n0 <= lap -> (Z.abs var + 3) / 2 <= lap ->
      radial_matrix (RepRadial_Prod Gamma Msqrt Minv (one_word op) a lam var n0 N lap) n0 N E.
Proof.
  intros HN HP Ha Hl Hv HS.
  assert (X : not_S op \/ exists s, op = Some s /\ S_sym s).
  { destruct op as [s|]; [|left; discriminate]. destruct s; try (left; intros s' E; inversion E; subst; unfold S_sym; intuition discriminate);
      right; eexists; (split; [reflexivity|]); unfold S_sym; tauto. }
  destruct X as [X|(s & -> & X)].
  - apply settled_integrals; [now apply settled_op| |exact Ha].
    destruct op as [s|]; [|constructor]. constructor; [|constructor].
    destruct s; try exact Logic.I; exfalso; try (eapply X; [reflexivity|]; unfold S_sym; tauto). apply (HN name). reflexivity.
  - apply (S_integrals Msqrt Minv s a lam var X); try assumption.
    destruct X as [-> | [-> | ->]]; cbn in HP; lia.
Qed.

Theorem C77_element_is_integral : forall Msqrt Minv op a lam var f i,
  radial_name op -> (odd_operator op + var) mod 2 = 0 -> (0 < a)%R -> (0 < lam)%R -> (0 < lam + IZR var)%R ->
  ~ singular op var lam -> 0 <= f -> 0 <= i ->
  exists v, ME_Radial Gamma Msqrt Minv op a lam var f i = Ok v /\ radial_integral op a lam var f i v.
Proof.
  intros Msqrt Minv op a lam var f i HN HP Ha Hl Hv HS Hf Hi.
  destruct (C63_element_is_entry Gamma gamma_like_Gamma Msqrt Minv op a lam var HN HP Hl Hv HS ltac:(lra)) as (E & H1 & H2).
  destruct (op_integrals Msqrt Minv op a lam var HN HP Ha Hl Hv HS) as (E' & H3 & H4).
  exists (E f i). split; [now apply H1|]. set (N := Z.max f i). set (lap := (Z.abs var + 3) / 2).
  destruct (H2 0 N lap ltac:(lia) ltac:(lia) ltac:(lia)) as (m & Em & _ & _ & Hm).
  destruct (H4 0 N lap ltac:(lia) ltac:(lia) ltac:(lia)) as (m' & Em' & _ & _ & Hm').
  assert (m = m') by congruence. subst m'. 
  assert (EE : E f i = E' f i).
  { pose proof (Hm f i ltac:(lia) ltac:(lia)) as A. rewrite (Hm' f i) in A by lia. change (0 + f) with f in A. change (0 + i) with i in A. congruence. }
  rewrite EE. now apply H3.
Qed.

Theorem C77_matrix_of_one_operator : forall Msqrt Minv op a lam var,
  radial_name op -> (odd_operator op + var) mod 2 = 0 -> (0 < a)%R -> (0 < lam)%R -> (0 < lam + IZR var)%R ->
  ~ singular op var lam ->
  exists E, (forall f i, 0 <= f -> 0 <= i -> radial_integral op a lam var f i (E f i)) /\
    forall n0 N lap, 0 <= n0 <= N -> n0 <= lap -> (Z.abs var + 3) / 2 <= lap ->
      radial_matrix (RepRadial_Prod Gamma Msqrt Minv (one_word op) a lam var n0 N lap) n0 N E.
Proof.
  intros Msqrt Minv op a lam var HN HP Ha Hl Hv HS.
  destruct (op_integrals Msqrt Minv op a lam var HN HP Ha Hl Hv HS) as (E & H3 & H4). exists E. split; [|exact H4].
  intros f i Hf Hi. now apply H3.
Qed.

(** Two ladder steps up: beta^2 between lambda = 5/2 and lambda = 9/2, and one
    SU(1,1) operator. *)
Example C77_example_word : forall Msqrt Minv,
  matrix_of_integrals Msqrt Minv [Radial_b; Radial_b2; Radial_b] 3 (5/2) 2 3.
Proof.
  intros. apply (C77_powers_of_beta Msqrt Minv [Radial_b; Radial_b2; Radial_b] 3 (5/2) 2); try lra; try reflexivity.
  - unfold beta_word. auto 8.
  - discriminate.
Qed.
Example C77_example_shift : forall Msqrt Minv,
  matrix_of_integrals Msqrt Minv [Radial_bm; Radial_D2b] 2 (7/2) (-3) 3.
Proof.
  intros. apply (C77_large_shift Msqrt Minv [Radial_bm] [Radial_D2b] 2 (7/2) (-3)); try lra; try reflexivity; try discriminate; cbn.
  - unfold powers. right. auto.
  - unfold derivatives. auto.
Qed.
Example C77_example_element : forall Msqrt Minv f i, 0 <= f -> 0 <= i ->
  exists v, ME_Radial Gamma Msqrt Minv (Some Radial_S0) 2 (7/2) (-2) f i = Ok v /\
    integral (fun b => wave 2 (3/2) f b * op_S0 2 (3/2) (wave 2 (7/2) i) b)%R v.
Proof.
  intros Msqrt Minv f i Hf Hi.
  destruct (C77_element_is_integral Msqrt Minv (Some Radial_S0) 2 (7/2) (-2) f i) as (v & H1 & H2); try lra; try assumption; try reflexivity.
  - intros k. discriminate.
  - intros [[E|E] _]; discriminate.
  - exists v. split; [exact H1|]. unfold radial_integral in H2. rewrite Rmin_right in H2 by lra.
    replace (7 / 2 + -2)%R with (3 / 2)%R in H2 by field. exact H2.
Qed.

Print Assumptions C77_powers_of_beta.
Print Assumptions C77_large_shift.
Print Assumptions C77_element_is_integral.
Print Assumptions C77_matrix_of_one_operator.
