(** C63: single matrix elements against matrices.  C64: truncation. *)

From Coq Require Import Reals Lra.
From Coq Require Import Lia ZifyBool ZifyNat.
From Verif Require Import PyBase PyFacts Compat Matrix FullLabels RadialOps PropsRadialOps RadialME RadialMESpec RadialMEFacts IdFacts RadialWords RadialElement RadialExact RadialChain PropsRadialME.
Open Scope Z_scope.
Ltac Zify.zify_post_hook ::= Z.div_mod_to_equations.

(** ** C63 *)

(** The operators of the radial algebra; [None] is the identity. *)
Definition radial_name (op : option rsym) : Prop := forall k, op <> Some (Radial_other k).
(** Shifts of this parity keep the matrix elements analytic. *)
Definition odd_operator (op : option rsym) : Z :=
  match op with Some Radial_b | Some Radial_bm | Some Radial_Db => 1 | _ => 0 end.
Definition one_word (op : option rsym) : list rsym := match op with None => [] | Some s => [s] end.
(** Shifts for which a closed formula is used. *)
Definition closed_form (op : option rsym) (var : Z) : Prop :=
  match op with
  | None => var mod 2 = 0
  | Some Radial_b | Some Radial_bm | Some Radial_Db => var = 1 \/ var = -1
  | Some _ => var = 0
  end.
(** At lambda <= 1 the unshifted 1/beta^2 and d^2/dbeta^2 are not defined. *)
Definition singular (op : option rsym) (var : Z) (lambdaa : R) : Prop :=
  (op = Some Radial_bm2 \/ op = Some Radial_D2b) /\ var = 0 /\ (lambdaa <= 1)%R.

Section C63.
  Variable Gam : R -> R.
  Hypothesis HG : gamma_like Gam.
  Variables Msqrt Minv : mat R -> res (mat R).

  Lemma RadialBasis_ok l : (0 < l)%R -> RadialBasis_init l = Ok l.
  Proof. intros H. unfold RadialBasis_init. destruct (Rle_dec l 0); [lra|reflexivity]. Qed.

  Lemma single_case w an l v e p ME V x :
    RepRadial_Prod_factors w l v = Ok [F1 e 0 p] -> elem_dom e l -> elem_val Gam e l = V ->
    (forall f i, 0 <= f -> 0 <= i -> ME f i = Ok (V f i)) ->
    (forall y, (powerRZ an p * y = x y)%R) ->
    exists E, (forall f i, 0 <= f -> 0 <= i -> (let* z := ME f i in Ok (x z)) = Ok (E f i)) /\
      forall n0 N lap, 0 <= n0 <= N -> 0 <= lap ->
        radial_matrix (RepRadial_Prod Gam Msqrt Minv w an l v n0 N lap) n0 N E.
  Proof.
    intros EF D EV HM Hx. exists (fun f i => (powerRZ an p * V f i)%R). split.
    - intros f i Hf Hi. rewrite HM by assumption. cbn [bind]. now rewrite Hx.
    - intros n0 N lap Hn Hl. rewrite <- EV.
      replace (elem_val Gam e l) with (elem_val Gam (fst (e, l)) (snd (e, l))) by reflexivity.
      apply (Prod_single Gam HG Msqrt Minv w an l v (F1 e 0 p) (e, l)); try assumption.
      split; [exact D|]. exists 0. split; [reflexivity|]. cbn [snd]. ring.
  Qed.

  Lemma bind_ret {A} (r : res A) : (let* z := r in Ok z) = r.
  Proof. now destruct r. Qed.

  Lemma one_letter s K T v l fs : Parse_RadialOp_List [s] = Ok [KTOp K T] ->
    Lambda_RadialOp_List [KTOp K T] v = Ok [v] -> bsds_factors K T v = Ok fs -> (0 < l)%R -> (0 < l + IZR v)%R ->
    RepRadial_Prod_factors [s] l v = Ok fs.
  Proof. intros EP EL EB Hl Hv. now rewrite (one_KT_factors _ K T). Qed.

  Lemma S_one s e l : Parse_RadialOp_List [s] = Ok [SOp (match s with Radial_Sm => -1 | Radial_S0 => 0 | _ => 1 end)] ->
    S_sym s -> e = S_elem s -> (0 < l)%R -> RepRadial_Prod_factors [s] l 0 = Ok [F1 e 0 0].
  Proof.
    intros EP HS -> Hl. unfold RepRadial_Prod_factors.
    destruct (Rle_dec l 0); [lra|]. destruct (Rle_dec (l + IZR 0) 0); [lra|].
    destruct HS as [-> | [-> | ->]]; reflexivity.
  Qed.

  Lemma inv_sq a y : (powerRZ a (-2) * y = y / a ^ 2)%R.
  Proof. change (powerRZ a (-2)) with (/ a ^ 2)%R. unfold Rdiv. apply Rmult_comm. Qed.
  Lemma pos_sq a y : (powerRZ a 2 * y = y * a ^ 2)%R.
  Proof. change (powerRZ a 2) with (a ^ 2)%R. apply Rmult_comm. Qed.
  Lemma inv_one a y : (powerRZ a (-1) * y = y / a)%R.
  Proof. change (powerRZ a (-1)) with (/ a ^ 1)%R. rewrite pow_1. unfold Rdiv. apply Rmult_comm. Qed.
  Lemma pos_one a y : (powerRZ a 1 * y = y * a)%R.
  Proof. change (powerRZ a 1) with (a ^ 1)%R. rewrite pow_1. apply Rmult_comm. Qed.
  Lemma pow_zero a y : (powerRZ a 0 * y = y)%R.
  Proof. cbn. ring. Qed.

  Theorem C63_closed_form_is_entry : forall op an lambdaa var,
    radial_name op -> closed_form op var -> (0 < lambdaa)%R -> (0 < lambdaa + IZR var)%R ->
    ~ singular op var lambdaa -> an <> 0%R ->
    exists E,
      (forall f i, 0 <= f -> 0 <= i -> ME_Radial Gam Msqrt Minv op an lambdaa var f i = Ok (E f i)) /\
      forall n0 N lap, 0 <= n0 <= N -> 0 <= lap ->
        radial_matrix (RepRadial_Prod Gam Msqrt Minv (one_word op) an lambdaa var n0 N lap) n0 N E.
  Proof.
    intros op an l var HN HC Hl Hv HS Ha.
    assert (G1 : forall s, s = Radial_bm2 \/ s = Radial_D2b -> op = Some s -> var = 0 -> (1 < l)%R).
    { intros s Hs E0 E1. destruct (Rlt_dec 1 l); [assumption|]. exfalso. apply HS. unfold singular. subst op.
      destruct Hs; subst s; (split; [auto|]); split; auto; lra. }
    unfold ME_Radial. rewrite RadialBasis_ok by exact Hl. cbn [bind].
    destruct op as [s|]; cbn [one_word closed_form] in *.
    2: { replace (is_even var) with true by (unfold is_even; lia).
         destruct (Z.eq_dec var 0) as [->|Hnz].
         - change (0 <=? 0) with true. change (0 / 2) with 0. cbv iota.
           exists rid. split.
           + intros f i Hf Hi. exact (proj1 (C26_identity_same_lambda Gam l f i HG Hl Hf Hi)).
           + intros n0 N lap Hn Hlap.
             replace rid with (fun f i => (powerRZ an 0 * elem_val Gam (fst (M_eye, l)) (snd (M_eye, l)) f i)%R).
             2: { apply FunctionalExtensionality.functional_extensionality. intros f.
                  apply FunctionalExtensionality.functional_extensionality. intros i. cbn. ring. }
             apply (Prod_single Gam HG Msqrt Minv [] an l 0 (F1 M_eye 0 0)); try assumption.
             * unfold RepRadial_Prod_factors. destruct (Rle_dec l 0); [lra|]. destruct (Rle_dec (l + IZR 0) 0); [lra|]. reflexivity.
             * split; [exact Hl|]. exists 0. split; [reflexivity|]. cbn [snd]. ring.
         - destruct (Z.leb_spec 0 var).
           + assert (EF := id_factors l var Hnz HC Hl Hv). replace (0 <? var) with true in EF by lia.
             destruct (single_case [] an l var (M_id_pl (var / 2)) 0
               (fun f i => ME_Radial_id_pl Gam l f i (var / 2)) (v_id Gam (Z.to_nat (var / 2)) l) (fun y => y) EF)
               as (E & H1 & H2).
             * cbn. split; [exact Hl|lia].
             * reflexivity.
             * intros f i Hf Hi. replace (var / 2) with (Z.of_nat (Z.to_nat (var / 2))) at 1 by lia. now apply id_pl_value.
             * intros y. apply pow_zero.
             * exists E. split; [|exact H2]. intros f i Hf Hi. rewrite <- H1 by assumption. now rewrite bind_ret.
           + assert (EF := id_factors l var Hnz HC Hl Hv). replace (0 <? var) with false in EF by lia.
             assert (E2 : (2 * IZR (- var / 2) = - IZR var)%R).
             { rewrite <- opp_IZR, <- mult_IZR. f_equal. lia. }
             assert (D : elem_dom (M_id_ml (- var / 2)) l) by (cbn; split; [lra|lia]).
             destruct (single_case [] an l var (M_id_ml (- var / 2)) 0
               (fun f i => ME_Radial_id_ml Gam l f i (- var / 2)) (elem_val Gam (M_id_ml (- var / 2)) l) (fun y => y) EF D eq_refl)
               as (E & H1 & H2).
             * intros f i Hf Hi. destruct D as [D1 D2].
               pose proof (id_ml_transpose Gam (l - 2 * IZR (- var / 2)) f i (Z.to_nat (- var / 2)) D1 Hf Hi) as T.
               rewrite Z2Nat.id in T by exact D2.
               replace (l - 2 * IZR (- var / 2) + 2 * IZR (- var / 2))%R with l in T by ring. rewrite T.
               replace (- var / 2) with (Z.of_nat (Z.to_nat (- var / 2))) at 2 by lia. rewrite id_pl_value by assumption. reflexivity.
             * intros y. apply pow_zero.
             * exists E. split; [|exact H2]. intros f i Hf Hi. rewrite <- H1 by assumption. now rewrite bind_ret. }
    assert (KP : forall s' K T e p ME V x, s = s' -> Parse_RadialOp_List [s] = Ok [KTOp K T] ->
       Lambda_RadialOp_List [KTOp K T] var = Ok [var] -> bsds_factors K T var = Ok [F1 e 0 p] ->
       elem_dom e l -> elem_val Gam e l = V -> represents (ME l) V ->
       (forall y, (powerRZ an p * y = x y)%R) ->
       exists E, (forall f i, 0 <= f -> 0 <= i -> (let* z := ME l f i in Ok (x z)) = Ok (E f i)) /\
         forall n0 N lap, 0 <= n0 <= N -> 0 <= lap ->
           radial_matrix (RepRadial_Prod Gam Msqrt Minv [s] an l var n0 N lap) n0 N E).
    { intros s' K T e p ME V x _ EP EL EB D EV HM Hx.
      apply (single_case [s] an l var e p (ME l) V x); try assumption. now apply (one_letter s K T). }
    assert (SP : forall e ME V, S_sym s -> e = S_elem s -> var = 0 -> elem_val Gam e l = V -> represents (ME l) V ->
       exists E, (forall f i, 0 <= f -> 0 <= i -> ME l f i = Ok (E f i)) /\
         forall n0 N lap, 0 <= n0 <= N -> 0 <= lap ->
           radial_matrix (RepRadial_Prod Gam Msqrt Minv [s] an l var n0 N lap) n0 N E).
    { intros e ME V HSy He -> EV HM.
      destruct (single_case [s] an l 0 e 0 (ME l) V (fun y => y)) as (E & H1 & H2); try assumption.
      - apply S_one; try assumption. destruct HSy as [-> | [-> | ->]]; reflexivity.
      - subst e. destruct HSy as [-> | [-> | ->]]; exact Hl.
      - apply pow_zero.
      - exists E. split; [|exact H2]. intros f i Hf Hi. rewrite <- H1 by assumption. now rewrite bind_ret. }
    destruct s; cbn in HC.
    - subst var. apply (SP M_Sm ME_Radial_Sm (v_Sm l)); try reflexivity; [left; reflexivity|now apply Sm_rep].
    - subst var. apply (SP M_S0 ME_Radial_S0 (v_S0 l)); try reflexivity; [right; left; reflexivity|now apply S0_rep].
    - subst var. apply (SP M_Sp ME_Radial_Sp (v_Sp l)); try reflexivity; [right; right; reflexivity|now apply Sp_rep].
    - subst var. apply (KP Radial_b2 2 0 M_b2 (-2) ME_Radial_b2 (v_b2 l)); try reflexivity; try exact Hl; [now apply b2_rep|].
      intros y. apply inv_sq.
    - assert (1 < l)%R by (apply (G1 Radial_bm2); auto). subst var.
      apply (KP Radial_bm2 (-2) 0 M_bm2 2 (ME_Radial_bm2 Gam) (v_bm2 Gam l)); try reflexivity; try assumption; [now apply bm2_rep|].
      intros y. apply pos_sq.
    - assert (1 < l)%R by (apply (G1 Radial_D2b); auto). subst var.
      apply (KP Radial_D2b 0 2 M_D2b 2 (ME_Radial_D2b Gam) (v_D2b Gam l)); try reflexivity; try assumption; [now apply D2b_rep|].
      intros y. apply pos_sq.
    - subst var.
      destruct (KP Radial_bDb 1 1 M_bDb 0 ME_Radial_bDb (v_bDb l) (fun y => y)) as (E & H1 & H2); try reflexivity; try exact Hl;
        [now apply bDb_rep|intros; apply pow_zero|].
      exists E. split; [|exact H2]. intros f i Hf Hi. rewrite <- H1 by assumption. now rewrite bind_ret.
    - destruct HC as [-> | ->].
      + apply (KP Radial_b 1 0 M_b_pl (-1) ME_Radial_b_pl (v_b_pl l)); try reflexivity; try exact Hl; [now apply b_pl_rep|].
        intros y. apply inv_one.
      + assert (1 < l)%R by lra.
        apply (KP Radial_b 1 0 M_b_ml (-1) ME_Radial_b_ml (v_b_ml l)); try reflexivity; try assumption; [now apply b_ml_rep|].
        intros y. apply inv_one.
    - destruct HC as [-> | ->].
      + apply (KP Radial_bm (-1) 0 M_bm_pl 1 (ME_Radial_bm_pl Gam) (v_bm_pl Gam l)); try reflexivity; try exact Hl; [now apply bm_pl_rep|].
        intros y. apply pos_one.
      + assert (1 < l)%R by lra.
        apply (KP Radial_bm (-1) 0 M_bm_ml 1 (ME_Radial_bm_ml Gam) (v_bm_ml Gam l)); try reflexivity; try assumption; [now apply bm_ml_rep|].
        intros y. apply pos_one.
    - destruct HC as [-> | ->].
      + apply (KP Radial_Db 0 1 M_Db_pl 1 (ME_Radial_Db_pl Gam) (v_Db_pl Gam l)); try reflexivity; try exact Hl; [now apply Db_pl_rep|].
        intros y. apply pos_one.
      + assert (1 < l)%R by lra.
        apply (KP Radial_Db 0 1 M_Db_ml 1 (ME_Radial_Db_ml Gam) (v_Db_ml Gam l)); try reflexivity; try assumption; [now apply Db_ml_rep|].
        intros y. apply pos_one.
    - exfalso. apply (HN name). reflexivity.
  Qed.

  (** A settled word has the same matrix elements in every large enough
      truncation. *)
  Lemma settled_matrix w an lambdaa var t : settled w lambdaa var t ->
    exists E, forall n0 N lap, 0 <= n0 <= N -> n0 <= lap -> t <= lap ->
      radial_matrix (RepRadial_Prod Gam Msqrt Minv w an lambdaa var n0 N lap) n0 N E.
  Proof.
    intros (fs & l & t' & A & B & C & D & Ht). exists (exact_val Gam an fs l t').
    intros n0 N lap Hn Hl Hlap. apply (Prod_exact Gam HG Msqrt Minv w an lambdaa var fs l t'); try assumption. lia.
  Qed.

  Theorem C63_element_is_entry : forall op an lambdaa var,
    radial_name op -> (odd_operator op + var) mod 2 = 0 -> (0 < lambdaa)%R -> (0 < lambdaa + IZR var)%R ->
    ~ singular op var lambdaa -> an <> 0%R ->
    exists E,
      (forall f i, 0 <= f -> 0 <= i -> ME_Radial Gam Msqrt Minv op an lambdaa var f i = Ok (E f i)) /\
      forall n0 N lap, 0 <= n0 <= N -> n0 <= lap -> (Z.abs var + 3) / 2 <= lap ->
        radial_matrix (RepRadial_Prod Gam Msqrt Minv (one_word op) an lambdaa var n0 N lap) n0 N E.
  Proof.
    intros op an l var HN HP Hl Hv HS Ha.
    assert (CF : closed_form op var \/ ~ closed_form op var).
    { destruct op as [[]|]; cbn; lia. }
    destruct CF as [CF|CF].
    { destruct (C63_closed_form_is_entry op an l var HN CF Hl Hv HS Ha) as (E & H1 & H2).
      exists E. split; [exact H1|]. intros n0 N lap Hn Hlap _. apply H2; lia. }
    assert (ST : settled (one_word op) l var ((Z.abs var + 3) / 2)).
    { assert (W : forall s K T, op = Some s -> Parse_RadialOp_List [s] = Ok [KTOp K T] -> 0 <= T -> 0 < Z.abs K + T <= 3 ->
        Z.abs K + T <= Z.abs var -> (Z.abs var - (Z.abs K + T)) mod 2 = 0 -> settled (one_word op) l var ((Z.abs var + 3) / 2)).
      { intros s K T -> EP HT HKT Hvar Hpar.
        destruct (settled_large [s] K T l var) as (fs & ls & t & A & B & C & D & E); try assumption; try lia.
        exists fs, ls, t. repeat split; try assumption. lia. }
      assert (WS : forall s, op = Some s -> S_sym s -> var <> 0 -> var mod 2 = 0 -> settled (one_word op) l var ((Z.abs var + 3) / 2)).
      { intros s -> HSy Hnz Hpar. destruct (settled_S s l var) as (fs & ls & t & A & B & C & D & E); try assumption.
        exists fs, ls, t. repeat split; try assumption. lia. }
      destruct op as [s|]; cbn [closed_form odd_operator] in CF, HP; [|lia].
      destruct s; cbn [closed_form odd_operator] in CF, HP.
      - apply (WS Radial_Sm); try reflexivity; [left; reflexivity|lia|lia].
      - apply (WS Radial_S0); try reflexivity; [right; left; reflexivity|lia|lia].
      - apply (WS Radial_Sp); try reflexivity; [right; right; reflexivity|lia|lia].
      - apply (W Radial_b2 2 0); try reflexivity; lia.
      - apply (W Radial_bm2 (-2) 0); try reflexivity; lia.
      - apply (W Radial_D2b 0 2); try reflexivity; lia.
      - apply (W Radial_bDb 1 1); try reflexivity; lia.
      - apply (W Radial_b 1 0); try reflexivity; lia.
      - apply (W Radial_bm (-1) 0); try reflexivity; lia.
      - apply (W Radial_Db 0 1); try reflexivity; lia.
      - exfalso. apply (HN name). reflexivity. }
    destruct (settled_matrix (one_word op) an l var _ ST) as (E & HE).
    exists E. split; [|exact HE]. intros f i Hf Hi.
    assert (DEF : ME_Radial_matrix Gam Msqrt Minv op an l var f i = Ok (E f i)).
    { unfold ME_Radial_matrix.
      assert (EI : iquo (Z.abs var + 3) 2 = Ok ((Z.abs var + 3) / 2)).
      { unfold iquo, require_nonnegint, raise_if. now replace (Z.abs var + 3 <? 0) with false by lia. }
      rewrite EI. cbn [bind].
      destruct (HE 0 (Z.max f i) ((Z.abs var + 3) / 2) ltac:(lia) ltac:(lia) ltac:(lia)) as (M & EM & _ & _ & HM).
      change (match op with None => [] | Some op0 => [op0] end) with (one_word op).
      rewrite EM. cbn [bind]. rewrite HM by lia. reflexivity. }
    unfold ME_Radial. rewrite RadialBasis_ok by exact Hl. cbn [bind].
    destruct op as [s|]; [destruct s|]; cbn in CF |- *; try exact DEF.
    all: repeat match goal with |- context [if ?b then _ else _] => let E0 := fresh in destruct b eqn:E0;
      try (exfalso; first [unfold is_even in E0; lia | lia]) end; exact DEF.
  Qed.
End C63.

(** Outside the domain both raise the same exception, and so does a symbol that
    names no radial operator. *)
Theorem C63_nonpositive_lambda_raises : forall Gam Msqrt Minv op an lambdaa var f i n0 N lap, (lambdaa <= 0)%R ->
  ME_Radial Gam Msqrt Minv op an lambdaa var f i = Raise ValueError /\
  RepRadial_Prod Gam Msqrt Minv (one_word op) an lambdaa var n0 N lap = Raise ValueError.
Proof.
  intros Gam Msqrt Minv op an l var f i n0 N lap H. split.
  - unfold ME_Radial, RadialBasis_init. destruct (Rle_dec l 0); [reflexivity|lra].
  - unfold RepRadial_Prod, RepRadial_Prod_common. rewrite C21_nonpositive_lambda by lra. reflexivity.
Qed.

Theorem C63_unknown_operator_raises : forall Gam Msqrt Minv k an lambdaa var f i,
  ME_Radial Gam Msqrt Minv (Some (Radial_other k)) an lambdaa var f i = Raise ValueError.
Proof.
  intros Gam Msqrt Minv k an l var f i. unfold ME_Radial, RadialBasis_init. destruct (Rle_dec l 0); [reflexivity|].
  cbn [bind]. unfold ME_Radial_matrix, iquo, require_nonnegint, raise_if.
  replace (Z.abs var + 3 <? 0) with false by lia. cbn -[RepRadial_Prod Z.div].
  unfold RepRadial_Prod, RepRadial_Prod_common, RepRadial_Prod_factors.
  destruct (Rle_dec l 0); [reflexivity|]. destruct (Rle_dec (l + IZR var) 0); reflexivity.
Qed.

(** ME_Radial does not look at the final lambda: where the matrix function
    raises because lambda + lambda_var <= 0, it may return a number. *)
Theorem C63_same_domain_refuted : forall Gam Msqrt Minv an, an <> 0%R ->
  ME_Radial Gam Msqrt Minv (Some Radial_b) an (1/2) (-1) 1 0 = Ok (1 / an)%R /\
  forall n0 N lap, RepRadial_Prod Gam Msqrt Minv [Radial_b] an (1/2) (-1) n0 N lap = Raise ValueError.
Proof.
  intros Gam Msqrt Minv an Ha. split.
  - unfold ME_Radial, RadialBasis_init. destruct (Rle_dec (1/2) 0); [lra|]. cbn [bind Z.eqb].
    unfold ME_Radial_b_ml. cbn -[IZR]. unfold math_sqrt. destruct (Rlt_dec 1 0); [lra|].
    cbn [bind]. rewrite sqrt_1. reflexivity.
  - intros n0 N lap. unfold RepRadial_Prod, RepRadial_Prod_common. rewrite C21_nonpositive_lambda by lra. reflexivity.
Qed.

(** ** C64 *)

(** Every truncation with at least [t] overlapping levels gives the same
    matrix elements. *)
Definition overlap_suffices Gam Msqrt Minv (w : list rsym) (an lambdaa : R) (var t : Z) : Prop :=
  exists E, forall n0 N lap, 0 <= n0 <= N -> n0 <= lap -> t <= lap ->
    radial_matrix (RepRadial_Prod Gam Msqrt Minv w an lambdaa var n0 N lap) n0 N E.

(** Products of beta and beta^2, of degree K and under a shift of K's parity. *)
Theorem C64_powers_of_beta : forall Gam Msqrt Minv w an lambdaa var,
  gamma_like Gam -> beta_word w -> w <> [] -> (beta_degree w + var) mod 2 = 0 ->
  (0 < lambdaa)%R -> (0 < lambdaa + IZR var)%R ->
  overlap_suffices Gam Msqrt Minv w an lambdaa var ((beta_degree w + Z.abs var) / 2).
Proof.
  intros Gam Msqrt Minv w an l var HG HB Hne HP Hl Hv.
  exact (settled_matrix Gam HG Msqrt Minv w an l var _ (settled_beta_word w l var HB Hne HP Hl Hv)).
Qed.

(** Powers of beta (or of 1/beta) times derivatives, when the shift is at least
    the degree. *)
Theorem C64_large_shift : forall Gam Msqrt Minv u d an lambdaa var,
  gamma_like Gam -> powers u -> derivatives d -> u ++ d <> [] ->
  let deg := Z.abs (zsum (map step_b u)) + zsum (map step_D d) in
  deg <= Z.abs var -> (Z.abs var - deg) mod 2 = 0 -> (0 < lambdaa)%R -> (0 < lambdaa + IZR var)%R ->
  overlap_suffices Gam Msqrt Minv (u ++ d) an lambdaa var ((Z.abs var + deg) / 2).
Proof.
  intros Gam Msqrt Minv u d an l var HG HU HD Hne deg Hdeg Hp Hl Hv.
  destruct (parse_powers_derivatives u d HU HD Hne) as [EP Hpos].
  pose proof (derivatives_nonneg d HD).
  apply (settled_matrix Gam HG).
  replace ((Z.abs var + deg) / 2) with ((Z.abs var + Z.abs (zsum (map step_b u)) + zsum (map step_D d)) / 2)
    by (unfold deg; f_equal; lia).
  now apply settled_large.
Qed.

(** Without overlap beta^4 is exact except in its last diagonal entry, which is
    too small by (lambda + N)(N + 1) / a^4. *)
Theorem C64_beta4_without_overlap : forall Gam Msqrt Minv an lambdaa, gamma_like Gam -> (0 < lambdaa)%R ->
  exists E,
    (forall n0 N lap, 0 <= n0 <= N -> n0 <= lap -> 1 <= lap ->
      radial_matrix (RepRadial_Prod Gam Msqrt Minv [Radial_b2; Radial_b2] an lambdaa 0 n0 N lap) n0 N E) /\
    forall N, 0 <= N ->
      radial_matrix (RepRadial_Prod Gam Msqrt Minv [Radial_b2; Radial_b2] an lambdaa 0 0 N 0) 0 N
        (fun f i => (E f i - if (f =? N) && (i =? N)
                             then (lambdaa + IZR N) * (IZR N + 1) * powerRZ an (-4) else 0)%R).
Proof.
  intros Gam Msqrt Minv an l HG Hl.
  set (fs := [F1 M_b2 0 (-2); F1 M_b2 0 (-2)]). set (ls := [(M_b2, l); (M_b2, l)]).
  assert (EF : RepRadial_Prod_factors [Radial_b2; Radial_b2] l 0 = Ok fs).
  { unfold RepRadial_Prod_factors. destruct (Rle_dec l 0); [lra|]. destruct (Rle_dec (l + IZR 0) 0); [lra|].
    change (Parse_RadialOp_List [Radial_b2; Radial_b2]) with (Ok [KTOp 4 0]). cbn [bind].
    change (Lambda_RadialOp_List [KTOp 4 0] 0) with (Ok [0]). cbn [bind].
    change (insert_id [KTOp 4 0] [0]) with ([KTOp 4 0], [0]). cbv iota beta.
    unfold RepRadialshfs_Prod. cbn [rev app shfs_loop representation]. unfold bsds. rewrite Rplus_0_r.
    destruct (Rle_dec l 0); [lra|]. destruct (Rle_dec (l + IZR 0) 0); [lra|]. reflexivity. }
  assert (PL : Forall2 (plain l) fs ls).
  { constructor; [|constructor; [|constructor]]; (split; [exact Hl|]); exists 0; (split; [reflexivity|]); cbn [snd]; ring. }
  assert (HE : forall n0 N lap, 0 <= n0 <= N -> n0 <= lap -> 1 <= lap ->
    radial_matrix (RepRadial_Prod Gam Msqrt Minv [Radial_b2; Radial_b2] an l 0 n0 N lap) n0 N (exact_val Gam an fs ls 1)).
  { intros n0 N lap Hn Hlap H1. apply (Prod_exact Gam HG Msqrt Minv _ an l 0 fs ls 1); try assumption; try discriminate. reflexivity. }
  exists (exact_val Gam an fs ls 1). split; [exact HE|]. intros N HN.
  unfold RepRadial_Prod, RepRadial_Prod_common. rewrite EF. cbn [bind Z.eqb]. change (Z.min 0 0) with 0.
  rewrite Z.sub_0_r, Z.add_0_r.
  destruct (factors_rep Gam HG Msqrt Minv an l N fs ls PL ltac:(discriminate) HN) as (m & EM & A & B & C).
  rewrite EM. cbn [bind]. exists m. split; [reflexivity|]. split; [exact A|]. split; [exact B|].
  intros f i Hf Hi. rewrite C by assumption. rewrite !Z.add_0_l. unfold exact_val.
  assert (D : doms ls) by exact (plain_doms _ _ _ PL).
  rewrite (rprod_exact Gam Msqrt Minv ls 1 D eq_refl f i (Z.to_nat (Z.max f i + 1 + 1)) (S (Z.to_nat (N + 1)))) by lia.
  cbn [ls vals map fst snd elem_val rprod rsum].
  assert (W : weight an fs = powerRZ an (-4)).
  { cbn [weight fold_right fs F1 f_pow]. rewrite Rmult_1_r.
    change (powerRZ an (-2)) with (/ an ^ 2)%R. change (powerRZ an (-4)) with (/ an ^ 4)%R.
    rewrite <- Rinv_mult. f_equal. ring. }
  rewrite W. replace (Z.of_nat (Z.to_nat (N + 1))) with (N + 1) by lia.
  assert (X : (v_b2 l f (N + 1)%Z * v_b2 l (N + 1)%Z i =
     if (f =? N) && (i =? N) then (l + IZR N) * (IZR N + 1) else 0)%R).
  { unfold v_b2. destruct (Z.eqb_spec f N).
    - subst f. replace (N =? N + 1 - 1) with true by lia. cbn [andb]. destruct (Z.eqb_spec i N).
      + subst i. replace (N + 1 =? N - 1) with false by lia. replace (N + 1 =? N) with false by lia.
        replace (N + 1 =? N + 1) with true by lia. now apply pv_sq.
      + replace (N + 1 =? i - 1) with false by lia. replace (N + 1 =? i) with false by lia.
        replace (N + 1 =? i + 1) with false by lia. ring.
    - replace (f =? N + 1 - 1) with false by lia. replace (f =? N + 1) with false by lia.
      replace (f =? N + 1 + 1) with false by lia. cbn [andb]. ring. }
  rewrite X. destruct ((f =? N) && (i =? N)); ring.
Qed.

(** So a matrix computed without overlap is not the exact matrix cut off. *)
Theorem C64_no_overlap_needed_refuted : forall Gam Msqrt Minv an lambdaa, gamma_like Gam -> (0 < lambdaa)%R -> an <> 0%R ->
  ~ overlap_suffices Gam Msqrt Minv [Radial_b2; Radial_b2] an lambdaa 0 0.
Proof.
  intros Gam Msqrt Minv an l HG Hl Ha (E' & H').
  destruct (C64_beta4_without_overlap Gam Msqrt Minv an l HG Hl) as (E & H1 & H0).
  destruct (H' 0 0 1 ltac:(lia) ltac:(lia) ltac:(lia)) as (m1 & Em1 & _ & _ & Hm1).
  destruct (H1 0 0 1 ltac:(lia) ltac:(lia) ltac:(lia)) as (m2 & Em2 & _ & _ & Hm2).
  destruct (H' 0 0 0 ltac:(lia) ltac:(lia) ltac:(lia)) as (m3 & Em3 & _ & _ & Hm3).
  destruct (H0 0 ltac:(lia)) as (m4 & Em4 & _ & _ & Hm4).
  assert (m1 = m2) by congruence. assert (m3 = m4) by congruence. subst m2 m4.
  specialize (Hm1 0 0 ltac:(lia) ltac:(lia)). specialize (Hm2 0 0 ltac:(lia) ltac:(lia)).
  specialize (Hm3 0 0 ltac:(lia) ltac:(lia)). specialize (Hm4 0 0 ltac:(lia) ltac:(lia)).
  cbn in *. assert (P : (powerRZ an (-4) <> 0)%R) by (now apply powerRZ_NOR).
  cbn in P. assert ((l + 0) * (0 + 1) * / an ^ (Pos.to_nat 4) = 0)%R by (cbn in *; lra).
  apply Rmult_integral in H. destruct H as [H|H]; [lra|]. apply P. exact H.
Qed.

Lemma Prod_truncated Gam (HG : gamma_like Gam) Msqrt Minv w an lambdaa var fs l :
  RepRadial_Prod_factors w lambdaa var = Ok fs -> Forall2 (plain lambdaa) fs l -> fs <> [] ->
  forall N lap, 0 <= N -> 0 <= lap ->
    radial_matrix (RepRadial_Prod Gam Msqrt Minv w an lambdaa var 0 N lap) 0 N
      (fun f i => (weight an fs * rprod (vals Gam l) (Z.to_nat (N + lap + 1)) f i)%R).
Proof.
  intros EF P Hne N lap HN Hl. unfold RepRadial_Prod, RepRadial_Prod_common. rewrite EF. cbn [bind].
  replace (Z.min lap 0) with 0 by lia. rewrite Z.sub_0_r.
  destruct (factors_rep Gam HG Msqrt Minv an lambdaa (N + lap) fs l P Hne ltac:(lia)) as (m & EM & A & B & C).
  rewrite EM. cbn [bind]. destruct (Z.eqb_spec lap 0) as [->|Hlap].
  - exists m. split; [reflexivity|]. split; [lia|]. split; [lia|]. intros x y Hx Hy. now rewrite C by lia.
  - eexists. split; [reflexivity|]. unfold slice. cbn [nrows ncols ent]. rewrite A, B. unfold slice_bound.
    repeat match goal with |- context [if ?b then _ else _] => destruct b eqn:?; try (exfalso; lia) end.
    split; [lia|]. split; [lia|]. intros x y Hx Hy. rewrite C by lia. f_equal; f_equal; lia.
Qed.

(** The value computed for the lowest level with a given overlap. *)
Definition lowest_entry (r : res (mat R)) (x : R) : Prop := exists m, r = Ok m /\ ent m 0 0 = x.

(** No overlap is ever enough for 1/beta^4: every further level adds to the
    lowest entry. *)
Theorem C64_inverse_fourth_power_never_settles : forall Gam Msqrt Minv an lambdaa lap x y,
  gamma_like Gam -> (1 < lambdaa)%R -> an <> 0%R -> 0 <= lap ->
  lowest_entry (RepRadial_Prod Gam Msqrt Minv [Radial_bm2; Radial_bm2] an lambdaa 0 0 0 lap) x ->
  lowest_entry (RepRadial_Prod Gam Msqrt Minv [Radial_bm2; Radial_bm2] an lambdaa 0 0 0 (lap + 1)) y ->
  (x < y)%R.
Proof.
  intros Gam Msqrt Minv an l lap x y HG Hl Ha Hlap (mx & Ex & Hx) (my & Ey & Hy).
  set (fs := [F1 M_bm2 0 2; F1 M_bm2 0 2]). set (ls := [(M_bm2, l); (M_bm2, l)]).
  assert (EF : RepRadial_Prod_factors [Radial_bm2; Radial_bm2] l 0 = Ok fs).
  { unfold RepRadial_Prod_factors. destruct (Rle_dec l 0); [lra|]. destruct (Rle_dec (l + IZR 0) 0); [lra|].
    change (Parse_RadialOp_List [Radial_bm2; Radial_bm2]) with (Ok [KTOp (-4) 0]). cbn [bind].
    change (Lambda_RadialOp_List [KTOp (-4) 0] 0) with (Ok [0]). cbn [bind].
    change (insert_id [KTOp (-4) 0] [0]) with ([KTOp (-4) 0], [0]). cbv iota beta.
    unfold RepRadialshfs_Prod. cbn [rev app shfs_loop representation]. unfold bsds. rewrite Rplus_0_r.
    destruct (Rle_dec l 0); [lra|]. destruct (Rle_dec (l + IZR 0) 0); [lra|]. reflexivity. }
  assert (PL : Forall2 (plain l) fs ls).
  { constructor; [|constructor; [|constructor]]; (split; [exact Hl|]); exists 0; (split; [reflexivity|]); cbn [snd]; ring. }
  assert (V : forall lp, 0 <= lp -> lowest_entry (RepRadial_Prod Gam Msqrt Minv [Radial_bm2; Radial_bm2] an l 0 0 0 lp)
    (weight an fs * rsum (fun k => (v_bm2 Gam l 0%Z k * v_bm2 Gam l k 0%Z)%R) (Z.to_nat (lp + 1)))%R).
  { intros lp Hlp. destruct (Prod_truncated Gam HG Msqrt Minv _ an l 0 fs ls EF PL ltac:(discriminate) 0 lp ltac:(lia) Hlp)
      as (m & E & _ & _ & C). exists m. split; [exact E|]. rewrite C by lia. reflexivity. }
  destruct (V lap Hlap) as (m1 & E1 & H1). destruct (V (lap + 1) ltac:(lia)) as (m2 & E2 & H2).
  assert (m1 = mx) by congruence. assert (m2 = my) by congruence. subst m1 m2. rewrite <- Hx, <- Hy, H1, H2.
  replace (Z.to_nat (lap + 1 + 1)) with (S (Z.to_nat (lap + 1))) by lia. cbn [rsum].
  assert (W : (0 < weight an fs)%R).
  { cbn [weight fold_right fs F1 f_pow]. change (powerRZ an 2) with (an ^ 2)%R.
    replace (an ^ 2 * (an ^ 2 * 1))%R with ((an ^ 2) ^ 2)%R by ring. apply pow_lt.
    pose proof (Rsqr_pos_lt an Ha) as Q. unfold Rsqr in Q. replace (an ^ 2)%R with (an * an)%R by ring. exact Q. }
  set (k := Z.of_nat (Z.to_nat (lap + 1))).
  assert (P : (0 < v_bm2 Gam l 0%Z k * v_bm2 Gam l k 0%Z)%R).
  { rewrite (bm2_sym Gam l k 0). apply Rsqr_pos_lt. unfold v_bm2.
    pose proof (av_pos Gam HG l (Z.min 0 k) ltac:(lra) ltac:(lia)). pose proof (av_pos Gam HG l (Z.max 0 k) ltac:(lra) ltac:(lia)).
    pose proof (sg_sq 0). pose proof (sg_sq k).
    assert (sg 0 <> 0)%R by (intros Q; rewrite Q in *; lra). assert (sg k <> 0)%R by (intros Q; rewrite Q in *; lra).
    unfold Rdiv. repeat apply Rmult_integral_contrapositive_currified; try assumption; try lra;
      apply Rinv_neq_0_compat; lra. }
  apply Rmult_lt_compat_l; [exact W|]. lra.
Qed.

(** The same operator 1/beta^2 d^2/dbeta^2 is exact when lambda is raised by
    two, and never settles when lambda is lowered by two. *)
Theorem C64_raising_exact : forall Gam Msqrt Minv an lambdaa, gamma_like Gam -> (1 < lambdaa)%R ->
  overlap_suffices Gam Msqrt Minv [Radial_bm2; Radial_D2b] an lambdaa 2 0.
Proof.
  intros Gam Msqrt Minv an l HG Hl. apply (settled_matrix Gam HG).
  exists [F1 M_bm_pl 1 1; F1 M_bm_pl 0 1; F1 M_D2b 0 2],
    [(M_bm_pl, (l + 1)%R); (M_bm_pl, (l + 0)%R); (M_D2b, (l + 0)%R)], 0.
  split.
  { rewrite (one_KT_factors _ (-2) 2) by (reflexivity || lra). reflexivity. }
  split; [|split; [discriminate|split; [reflexivity|lia]]].
  constructor; [|constructor; [|constructor; [|constructor]]]; (split; [cbn; lra|]); eexists; (split; [reflexivity|reflexivity]).
Qed.

Theorem C64_lowering_never_settles : forall Gam Msqrt Minv an lambdaa lap x y,
  gamma_like Gam -> (2 < lambdaa)%R -> an <> 0%R -> 1 <= lap ->
  lowest_entry (RepRadial_Prod Gam Msqrt Minv [Radial_bm2; Radial_D2b] an lambdaa (-2) 0 0 lap) x ->
  lowest_entry (RepRadial_Prod Gam Msqrt Minv [Radial_bm2; Radial_D2b] an lambdaa (-2) 0 0 (lap + 1)) y ->
  (x < y)%R.
Proof.
  intros Gam Msqrt Minv an l lap x y HG Hl Ha Hlap (mx & Ex & Hx) (my & Ey & Hy).
  set (fs := [F1 M_bm_ml (-1) 1; F1 M_bm_ml 0 1; F1 M_D2b 0 2]).
  set (ls := [(M_bm_ml, (l + -1)%R); (M_bm_ml, (l + 0)%R); (M_D2b, (l + 0)%R)]).
  assert (EF : RepRadial_Prod_factors [Radial_bm2; Radial_D2b] l (-2) = Ok fs).
  { rewrite (one_KT_factors _ (-2) 2) by (reflexivity || lra). reflexivity. }
  assert (PL : Forall2 (plain l) fs ls).
  { constructor; [|constructor; [|constructor; [|constructor]]]; (split; [cbn; lra|]); eexists; (split; [reflexivity|reflexivity]). }
  set (B1 := v_bm_ml Gam (l + -1)). set (B2 := v_bm_ml Gam (l + 0)). set (D := v_D2b Gam (l + 0)).
  assert (V : forall lp, 0 <= lp -> lowest_entry (RepRadial_Prod Gam Msqrt Minv [Radial_bm2; Radial_D2b] an l (-2) 0 0 lp)
    (weight an fs * rsum (fun k => (B1 0%Z k * rsum (fun j => (B2 k j * D j 0%Z)%R) (Z.to_nat (lp + 1)))%R) (Z.to_nat (lp + 1)))%R).
  { intros lp Hlp. destruct (Prod_truncated Gam HG Msqrt Minv _ an l (-2) fs ls EF PL ltac:(discriminate) 0 lp ltac:(lia) Hlp)
      as (m & E & _ & _ & C). exists m. split; [exact E|]. rewrite C by lia. reflexivity. }
  destruct (V lap ltac:(lia)) as (m1 & E1 & H1). destruct (V (lap + 1) ltac:(lia)) as (m2 & E2 & H2).
  assert (m1 = mx) by congruence. assert (m2 = my) by congruence. subst m1 m2. rewrite <- Hx, <- Hy, H1, H2.
  assert (W : (0 < weight an fs)%R).
  { cbn [weight fold_right fs F1 f_pow]. change (powerRZ an 2) with (an ^ 2)%R. change (powerRZ an 1) with (an ^ 1)%R.
    replace (an ^ 1 * (an ^ 1 * (an ^ 2 * 1)))%R with ((an ^ 2) ^ 2)%R by ring. apply pow_lt.
    pose proof (Rsqr_pos_lt an Ha) as Q. unfold Rsqr in Q. replace (an ^ 2)%R with (an * an)%R by ring. exact Q. }
  apply Rmult_lt_compat_l; [exact W|].
  replace (Z.to_nat (lap + 1 + 1)) with (S (Z.to_nat (lap + 1))) by lia.
  set (n := Z.to_nat (lap + 1)). set (k := Z.of_nat n).
  (* the new column contributes a positive amount to each row k' <= k *)
  assert (SG : forall j, (sg j * sg j = 1)%R) by (intros; apply sg_sq).
  assert (P : forall k', 0 <= k' <= k -> (0 < B1 0%Z k' * (B2 k' k * D k 0%Z))%R).
  { intros k' Hk'. unfold B1, B2, D, v_bm_ml, v_D2b, v_bm2.
    replace (k' <? 0) with false by lia. replace (k <? k') with false by lia.
    replace (k =? 0 - 1) with false by lia. replace (k =? 0) with false by lia. replace (k =? 0 + 1) with false by lia.
    rewrite (Z.min_r k 0), (Z.max_l k 0) by lia. rewrite !Rplus_0_r.
    pose proof (av_pos Gam HG (l + -1 - 1) 0 ltac:(lra) ltac:(lia)) as P1.
    pose proof (av_pos Gam HG (l + -1) k' ltac:(lra) ltac:(lia)) as P2.
    pose proof (av_pos Gam HG (l - 1) k' ltac:(lra) ltac:(lia)) as P3.
    pose proof (av_pos Gam HG l k ltac:(lra) ltac:(lia)) as P4.
    pose proof (av_pos Gam HG l 0 ltac:(lra) ltac:(lia)) as P5.
    set (a1 := av Gam (l + -1 - 1) 0) in *. set (a2 := av Gam (l + -1) k') in *. set (a3 := av Gam (l - 1) k') in *.
    set (a4 := av Gam l k) in *. set (a5 := av Gam l 0) in *.
    replace (sg 0 * sg k' * (a1 / a2) * (sg k' * sg k * (a3 / a4) * (0 + (l - 3 / 2) * (l - 1 / 2) * (sg k * sg 0 * (a5 / a4) / (l - 1)))))%R
      with ((sg 0 * sg 0) * (sg k' * sg k') * (sg k * sg k) * ((a1 / a2) * (a3 / a4) * ((l - 3/2) * (l - 1/2)) * ((a5 / a4) / (l - 1))))%R
      by (field; lra).
    rewrite !SG. rewrite !Rmult_1_l.
    assert (Q1 : (0 < a1 / a2)%R) by (now apply Rdiv_lt_0_compat). assert (Q2 : (0 < a3 / a4)%R) by (now apply Rdiv_lt_0_compat).
    assert (Q3 : (0 < a5 / a4)%R) by (now apply Rdiv_lt_0_compat).
    apply Rmult_lt_0_compat; [apply Rmult_lt_0_compat; [now apply Rmult_lt_0_compat|apply Rmult_lt_0_compat; lra]|].
    apply Rdiv_lt_0_compat; [assumption|lra]. }
  assert (Z0 : forall j, 0 <= j < k -> B2 k j = 0%R).
  { intros j Hj. unfold B2, v_bm_ml. now replace (j <? k) with true by lia. }
  cbn [rsum]. fold k.
  rewrite (rsum_zero (fun j => (B2 k j * D j 0%Z)%R) n) by (intros j Hj; rewrite Z0 by lia; ring).
  rewrite (rsum_ext (fun k0 => (B1 0%Z k0 * (rsum (fun j => (B2 k0 j * D j 0%Z)%R) n + B2 k0 k * D k 0%Z))%R)
    (fun k0 => (B1 0%Z k0 * rsum (fun j => (B2 k0 j * D j 0%Z)%R) n + B1 0%Z k0 * (B2 k0 k * D k 0%Z))%R)) by (intros; ring).
  rewrite rsum_plus.
  assert (S0 : forall m, (m <= n)%nat -> (0 <= rsum (fun k0 => (B1 0%Z k0 * (B2 k0 k * D k 0%Z))%R) m)%R).
  { induction m as [|m IH]; intros Hm; cbn [rsum]; [lra|]. specialize (IH ltac:(lia)).
    pose proof (P (Z.of_nat m) ltac:(lia)). lra. }
  specialize (S0 n ltac:(lia)). pose proof (P k ltac:(lia)). lra.
Qed.

(** ** Instances *)

Example C63_example : forall Msqrt Minv, exists E,
  (forall f i, 0 <= f -> 0 <= i -> ME_Radial gamma0 Msqrt Minv (Some Radial_b) 2 (9/2) (-3) f i = Ok (E f i)) /\
  forall n0 N lap, 0 <= n0 <= N -> n0 <= lap -> 3 <= lap ->
    radial_matrix (RepRadial_Prod gamma0 Msqrt Minv [Radial_b] 2 (9/2) (-3) n0 N lap) n0 N E.
Proof.
  intros Msqrt Minv. apply (C63_element_is_entry gamma0 gamma_like_gamma0 Msqrt Minv (Some Radial_b) 2 (9/2) (-3)); try lra.
  - intros k; discriminate.
  - reflexivity.
  - intros ([H|H] & _); discriminate.
Qed.

Example C63_closed_form_example : forall Msqrt Minv, exists E,
  (forall f i, 0 <= f -> 0 <= i -> ME_Radial gamma0 Msqrt Minv (Some Radial_D2b) 2 (5/2) 0 f i = Ok (E f i)) /\
  forall n0 N lap, 0 <= n0 <= N -> 0 <= lap ->
    radial_matrix (RepRadial_Prod gamma0 Msqrt Minv [Radial_D2b] 2 (5/2) 0 n0 N lap) n0 N E.
Proof.
  intros Msqrt Minv. apply (C63_closed_form_is_entry gamma0 gamma_like_gamma0 Msqrt Minv (Some Radial_D2b) 2 (5/2) 0); try lra.
  - intros k; discriminate.
  - reflexivity.
  - intros (_ & _ & H). lra.
Qed.

Example C64_example : forall Msqrt Minv,
  overlap_suffices gamma0 Msqrt Minv [Radial_b2; Radial_b; Radial_b2] 2 (5/2) 1 3.
Proof.
  intros Msqrt Minv. apply (C64_powers_of_beta gamma0 Msqrt Minv [Radial_b2; Radial_b; Radial_b2] 2 (5/2) 1 gamma_like_gamma0); try lra.
  - repeat (apply Forall_cons; [auto|]); apply Forall_nil.
  - discriminate.
  - reflexivity.
Qed.

Example C64_large_shift_example : forall Msqrt Minv,
  overlap_suffices gamma0 Msqrt Minv [Radial_bm; Radial_D2b] 2 (15/2) (-5) 4.
Proof.
  intros Msqrt Minv.
  apply (C64_large_shift gamma0 Msqrt Minv [Radial_bm] [Radial_D2b] 2 (15/2) (-5) gamma_like_gamma0); try lra; try discriminate; try reflexivity.
  - right. repeat (apply Forall_cons; [auto|]); apply Forall_nil.
  - repeat (apply Forall_cons; [auto|]); apply Forall_nil.
Qed.

(** The hypotheses of the two negative results are met. *)
Example C64_never_settles_example : forall Msqrt Minv lap, 0 <= lap ->
  (exists x, lowest_entry (RepRadial_Prod gamma0 Msqrt Minv [Radial_bm2; Radial_bm2] 1 (5/2) 0 0 0 lap) x) /\
  (exists x, lowest_entry (RepRadial_Prod gamma0 Msqrt Minv [Radial_bm2; Radial_D2b] 1 (5/2) (-2) 0 0 lap) x).
Proof.
  intros Msqrt Minv lap Hlap.
  assert (A : RepRadial_Prod_factors [Radial_bm2; Radial_bm2] (5/2) 0 = Ok [F1 M_bm2 0 2; F1 M_bm2 0 2])
    by (rewrite (one_KT_factors _ (-4) 0) by (reflexivity || lra); reflexivity).
  assert (B : RepRadial_Prod_factors [Radial_bm2; Radial_D2b] (5/2) (-2) = Ok [F1 M_bm_ml (-1) 1; F1 M_bm_ml 0 1; F1 M_D2b 0 2])
    by (rewrite (one_KT_factors _ (-2) 2) by (reflexivity || lra); reflexivity).
  assert (PA : Forall2 (plain (5/2)) [F1 M_bm2 0 2; F1 M_bm2 0 2] [(M_bm2, (5/2 + 0)%R); (M_bm2, (5/2 + 0)%R)]).
  { constructor; [|constructor; [|constructor]]; (split; [cbn; lra|]); eexists; (split; reflexivity). }
  assert (PB : Forall2 (plain (5/2)) [F1 M_bm_ml (-1) 1; F1 M_bm_ml 0 1; F1 M_D2b 0 2]
      [(M_bm_ml, (5/2 + -1)%R); (M_bm_ml, (5/2 + 0)%R); (M_D2b, (5/2 + 0)%R)]).
  { constructor; [|constructor; [|constructor; [|constructor]]]; (split; [cbn; lra|]); eexists; (split; reflexivity). }
  split.
  - destruct (Prod_truncated gamma0 gamma_like_gamma0 Msqrt Minv _ 1 (5/2) 0 _ _ A PA ltac:(discriminate) 0 lap ltac:(lia) Hlap)
      as (m & E & _). now exists (ent m 0 0), m.
  - destruct (Prod_truncated gamma0 gamma_like_gamma0 Msqrt Minv _ 1 (5/2) (-2) _ _ B PB ltac:(discriminate) 0 lap ltac:(lia) Hlap)
      as (m & E & _). now exists (ent m 0 0), m.
Qed.

Print Assumptions C63_closed_form_is_entry.
Print Assumptions C63_element_is_entry.
Print Assumptions C63_nonpositive_lambda_raises.
Print Assumptions C63_unknown_operator_raises.
Print Assumptions C63_same_domain_refuted.
Print Assumptions C64_powers_of_beta.
Print Assumptions C64_large_shift.
Print Assumptions C64_beta4_without_overlap.
Print Assumptions C64_no_overlap_needed_refuted.
Print Assumptions C64_inverse_fourth_power_never_settles.
Print Assumptions C64_raising_exact.
Print Assumptions C64_lowering_never_settles.
