(** The operators provided as checks of the commutation relations: C73. *)

From Coq Require Import Reals Lra.
From Coq Require Import Lia ZifyBool ZifyNat.
From Verif Require Import PyBase PyFacts Compat SphericalSpec Spherical SphericalFacts PropsSpherical Matrix RadialME RadialMESpec
  RadialMEFacts FullLabels FullLabelsFacts PropsFullLabels RadialOps PropsRadialOps Operators FullOps PropsHarmonics FullOpsFacts FullOpsBlocks
  FullOpsMemo FullOpsProd RadialWords PropsFullOps PropsHistory RadialSums Settings PropsLambda HamData PropsOscillator PropsRadialME.
Open Scope Z_scope.
Ltac Zify.zify_post_hook ::= Z.div_mod_to_equations.

(** ** Products of two elementary matrices, truncated to radial numbers a .. b *)

Definition tprod (a b : Z) (V W : rmat) : rmat := fun f i =>
  rsum (fun k => (V f (a + k)%Z * W (a + k)%Z i)%R) (Z.to_nat (b - a + 1)).

Section One.
  Variable Rep : elem -> R -> Z -> Z -> res (mat R).
  Variables (w : list rsym) (an l : R) (e : elem) (o p : Z) (V : rmat).
  Hypothesis HF : RepRadial_Prod_factors w l 0 = Ok [F1 e o p].
  Hypothesis H1 : forall a b, 0 <= a <= b -> radial_matrix (Rep e (l + IZR o)%R a b) a b V.

  Lemma word_single n0 n1 lap : 0 <= n0 <= n1 -> 0 <= lap ->
    radial_matrix (RadProd Rep w an l 0 n0 n1 lap) n0 n1 (fun f i => (powerRZ an p * V f i)%R).
  Proof.
    intros Hn Hlap. unfold RadProd, RepRadial_Prod_common. rewrite HF. cbn [bind].
    set (a := n0 - Z.min lap n0). set (b := n1 + lap).
    assert (Hab : 0 <= a <= b) by (unfold a, b; lia).
    destruct (H1 a b Hab) as (m1 & E1 & R1 & C1 & X1).
    unfold factors_mat. cbn [mapM]. unfold factor_mat. cbn [F1 f_elems f_pow mapM fst snd]. rewrite E1.
    cbn [bind mprod]. unfold mscale. cbn [nrows ncols ent].
    destruct (Z.eqb_spec lap 0) as [E|E].
    - eexists. split; [reflexivity|]. cbn [nrows ncols ent].
      assert (a = n0) as Ea by (unfold a; lia). assert (b = n1) as Eb by (unfold b; lia).
      split; [lia|]. split; [lia|]. intros x y Hx Hy. rewrite X1 by lia. now rewrite Ea.
    - eexists. split; [reflexivity|]. unfold slice. cbn [nrows ncols ent]. rewrite R1, C1. unfold slice_bound.
      repeat match goal with |- context [if ?b then _ else _] => destruct b eqn:?; try (exfalso; lia) end.
      split; [lia|]. split; [lia|]. intros x y Hx Hy. rewrite X1 by lia. f_equal. f_equal; unfold a, b in *; lia.
  Qed.
End One.

Section Two.
  Variable Rep : elem -> R -> Z -> Z -> res (mat R).
  Variables (w : list rsym) (an l : R) (e1 e2 : elem) (o1 o2 p1 p2 : Z) (V1 V2 : rmat).
  Hypothesis HF : RepRadial_Prod_factors w l 0 = Ok [F1 e1 o1 p1; F1 e2 o2 p2].
  Hypothesis H1 : forall a b, 0 <= a <= b -> radial_matrix (Rep e1 (l + IZR o1)%R a b) a b V1.
  Hypothesis H2 : forall a b, 0 <= a <= b -> radial_matrix (Rep e2 (l + IZR o2)%R a b) a b V2.

  Lemma word_two n0 n1 lap : 0 <= n0 <= n1 -> 0 <= lap ->
    radial_matrix (RadProd Rep w an l 0 n0 n1 lap) n0 n1
      (fun f i => (powerRZ an p1 * powerRZ an p2 * tprod (n0 - Z.min lap n0) (n1 + lap) V1 V2 f i)%R).
  Proof.
    intros Hn Hlap. unfold RadProd, RepRadial_Prod_common. rewrite HF. cbn [bind].
    set (a := n0 - Z.min lap n0). set (b := n1 + lap).
    assert (Hab : 0 <= a <= b) by (unfold a, b; lia).
    destruct (H1 a b Hab) as (m1 & E1 & R1 & C1 & X1). destruct (H2 a b Hab) as (m2 & E2 & R2 & C2 & X2).
    unfold factors_mat. cbn [mapM]. unfold factor_mat. cbn [F1 f_elems f_pow mapM fst snd]. rewrite E1, E2.
    cbn [bind mprod]. unfold matmul. cbn [ncols nrows mscale].
    replace (ncols m1 =? nrows m2) with true by lia. cbn [bind]. unfold mscale. cbn [nrows ncols ent].
    assert (X : forall x y, 0 <= x < b - a + 1 -> 0 <= y < b - a + 1 ->
      rsum (fun k => (powerRZ an p1 * ent m1 x k * (powerRZ an p2 * ent m2 k y))%R) (Z.to_nat (ncols m1))
      = (powerRZ an p1 * powerRZ an p2 * tprod a b V1 V2 (a + x)%Z (a + y)%Z)%R).
    { intros x y Hx Hy. unfold tprod. rewrite <- rsum_scal. rewrite C1. apply rsum_ext. intros k Hk.
      rewrite X1, X2 by lia. ring. }
    destruct (Z.eqb_spec lap 0) as [E|E].
    - eexists. split; [reflexivity|]. cbn [nrows ncols ent].
      assert (a = n0) as Ea by (unfold a; lia). assert (b = n1) as Eb by (unfold b; lia).
      split; [lia|]. split; [lia|]. intros x y Hx Hy. rewrite X by lia. now rewrite Ea.
    - eexists. split; [reflexivity|]. unfold slice. cbn [nrows ncols ent]. rewrite R1, C2. unfold slice_bound.
      repeat match goal with |- context [if ?b then _ else _] => destruct b eqn:?; try (exfalso; lia) end.
      split; [lia|]. split; [lia|]. intros x y Hx Hy. rewrite X by lia. f_equal. unfold tprod. apply rsum_ext.
      intros k Hk. replace (a + (Z.min (Z.min lap n0) (b - a + 1) + x)) with (n0 + x) by (unfold a, b in *; lia).
      replace (a + (Z.min (Z.min lap n0) (b - a + 1) + y)) with (n0 + y) by (unfold a, b in *; lia). reflexivity.
  Qed.
End Two.

(** ** The three products *)

Lemma tprod_Sm_Sp l a b f i : (0 < l)%R -> 0 <= a -> a <= f <= b -> a <= i <= b ->
  tprod a b (v_Sm l) (v_Sp l) f i = if f =? i then (if i <? b then (l + IZR i) * (IZR i + 1) else 0)%R else 0%R.
Proof.
  intros Hl Ha Hf Hi. unfold tprod. destruct (Z.ltb_spec f b) as [B|B].
  - rewrite (rsum_single _ _ (f + 1 - a)); [|lia|].
    + replace (a + (f + 1 - a)) with (f + 1) by lia. unfold v_Sm, v_Sp. replace (f =? f + 1 - 1) with true by lia.
      destruct (Z.eqb_spec f i) as [->|N]; [|replace (f + 1 =? i + 1) with false by lia; ring].
      rewrite Z.eqb_refl. replace (i <? b) with true by lia. apply pv_sq; [assumption|lia].
    + intros k Hk N. unfold v_Sm. replace (f =? a + k - 1) with false by lia. ring.
  - rewrite rsum_zero.
    + destruct (Z.eqb_spec f i) as [->|N]; [|reflexivity]. now replace (i <? b) with false by lia.
    + intros k Hk. unfold v_Sm. replace (f =? a + k - 1) with false by lia. ring.
Qed.

Lemma tprod_Sp_Sm l a b f i : (0 < l)%R -> 0 <= a -> a <= f <= b -> a <= i <= b ->
  tprod a b (v_Sp l) (v_Sm l) f i = if f =? i then (if a <? i then (l + IZR i - 1) * IZR i else 0)%R else 0%R.
Proof.
  intros Hl Ha Hf Hi. unfold tprod. destruct (Z.ltb_spec a f) as [B|B].
  - rewrite (rsum_single _ _ (f - 1 - a)); [|lia|].
    + replace (a + (f - 1 - a)) with (f - 1) by lia. unfold v_Sm, v_Sp. replace (f =? f - 1 + 1) with true by lia.
      destruct (Z.eqb_spec f i) as [->|N]; [|replace (f - 1 =? i - 1) with false by lia; ring].
      rewrite Z.eqb_refl. replace (a <? i) with true by lia. rewrite pv_sq by (assumption || lia). rewrite minus_IZR. ring.
    + intros k Hk N. unfold v_Sp. replace (f =? a + k + 1) with false by lia. ring.
  - rewrite rsum_zero.
    + destruct (Z.eqb_spec f i) as [->|N]; [|reflexivity]. now replace (a <? i) with false by lia.
    + intros k Hk. unfold v_Sp. replace (f =? a + k + 1) with false by lia. ring.
Qed.

Lemma rsum_app g n m : rsum g (n + m) = (rsum g n + rsum (fun k => g (Z.of_nat n + k)%Z) m)%R.
Proof.
  induction m as [|m IH]; [rewrite Nat.add_0_r; cbn [rsum]; ring|].
  rewrite Nat.add_succ_r. cbn [rsum]. rewrite IH, Nat2Z.inj_add. ring.
Qed.

Lemma tprod_Db_b Gam l a b f i : gamma_like Gam -> (0 < l)%R -> 0 <= a -> a <= f <= b -> a <= i <= b ->
  tprod a b (v_Db_ml Gam (l + 1)) (v_b_pl l) f i
  = (v_bDb l f i + (if f =? i then 1 else 0) + if (f =? i) && (i =? a) then IZR a else 0)%R.
Proof.
  intros HG Hl Ha Hf Hi.
  set (g := fun k => (v_Db_ml Gam (l + 1) f k * v_b_pl l k i)%R).
  pose proof (rsum_app g (Z.to_nat a) (Z.to_nat (b - a + 1))) as S.
  replace (Z.to_nat a + Z.to_nat (b - a + 1))%nat with (Z.to_nat (b + 1)) in S by lia.
  assert (T : tprod a b (v_Db_ml Gam (l + 1)) (v_b_pl l) f i
              = rsum (fun k => g (Z.of_nat (Z.to_nat a) + k)) (Z.to_nat (b - a + 1))).
  { unfold tprod. apply rsum_ext. intros k Hk. unfold g. now rewrite Z2Nat.id by lia. }
  rewrite T.
  assert (F : rsum g (Z.to_nat (b + 1)) = (- v_bDb l i f)%R).
  { rewrite <- (Db_ml_b_pl Gam HG l Hl f i (Z.to_nat (b + 2))) by lia.
    symmetry. apply rsum_cut; [lia|]. intros k Hk. unfold v_b_pl. replace (k =? i - 1) with false by lia.
    replace (k =? i) with false by lia. ring. }
  assert (B : (- v_bDb l i f = v_bDb l f i + if f =? i then 1 else 0)%R).
  { unfold v_bDb. destruct (Z.eqb_spec f i) as [->|N].
    - replace (i =? i - 1) with false by lia. rewrite Z.eqb_refl. lra.
    - replace (i =? f) with false by lia.
      destruct (Z.eqb_spec i (f - 1)); [replace (f =? i - 1) with false by lia; replace (f =? i + 1) with true by lia; ring|].
      destruct (Z.eqb_spec i (f + 1)); [replace (f =? i - 1) with true by lia; ring|].
      replace (f =? i - 1) with false by lia. replace (f =? i + 1) with false by lia. ring. }
  assert (L : (rsum g (Z.to_nat a) = - if (f =? i) && (i =? a) then IZR a else 0)%R).
  { destruct (Z.eqb_spec i a) as [->|N].
    - destruct (Z.eq_dec a 0) as [->|A0]; [cbn; destruct (f =? 0); cbn; ring|].
      rewrite (rsum_single _ _ (a - 1)); [|lia|].
      + unfold g, v_b_pl. rewrite Z.eqb_refl. rewrite Db_ml_split. unfold cml, v_bm_ml.
        replace (a - 1 <? f) with true by lia. replace (f =? a - 1) with false by lia.
        replace (a - 1 + 1) with a by lia. destruct (Z.eqb_spec f a) as [->|N]; cbn [andb]; [|ring].
        rewrite Rmult_0_r, Rplus_0_r. rewrite Ropp_mult_distr_l_reverse, sqrt_sqrt by (apply IZR_le; lia). ring.
      + intros k Hk N. unfold g, v_b_pl. replace (k =? a - 1) with false by lia. replace (k =? a) with false by lia. ring.
    - rewrite andb_false_r. rewrite rsum_zero; [ring|]. intros k Hk. unfold g, v_b_pl.
      replace (k =? i - 1) with false by lia. replace (k =? i) with false by lia. ring. }
  rewrite F, B, L in S. lra.
Qed.

(** ** The words of the two operators *)

Section Words.
  Variable Gam : R -> R.
  Hypothesis HG : gamma_like Gam.
  Variables Msqrt Minv : mat R -> res (mat R).
  Let Rep := Rep_elem Gam Msqrt Minv.
  Variables (an l : R) (n0 n1 lap : Z).
  Hypothesis Hl : (0 < l)%R.
  Hypothesis Hn : 0 <= n0 <= n1.
  Hypothesis Hlap : 0 <= lap.
  Let a := n0 - Z.min lap n0.
  Let b := n1 + lap.

  Ltac factors w ops shfs :=
    unfold RepRadial_Prod_factors; destruct (Rle_dec l 0); [lra|]; destruct (Rle_dec (l + IZR 0) 0); [lra|];
    change (Parse_RadialOp_List w) with (Ok ops); cbn [bind];
    change (Lambda_RadialOp_List ops 0) with (Ok shfs); cbn [bind];
    change (insert_id ops shfs) with (ops, shfs); cbv iota beta;
    unfold RepRadialshfs_Prod; cbn [rev app shfs_loop representation];
    unfold bsds; rewrite ?Rplus_0_r; repeat (destruct (Rle_dec _ 0); [exfalso; cbn in *; lra|]); try reflexivity.

  Lemma word_Sm_Sp : radial_matrix (RadProd Rep [Radial_Sm; Radial_Sp] an l 0 n0 n1 lap) n0 n1
    (fun f i => if f =? i then (if i <? b then (l + IZR i) * (IZR i + 1) else 0)%R else 0%R).
  Proof.
    assert (HF : RepRadial_Prod_factors [Radial_Sm; Radial_Sp] l 0 = Ok [F1 M_Sm 0 0; F1 M_Sp 0 0])
      by (factors [Radial_Sm; Radial_Sp] [SOp (-1); SOp 1] [0; 0]).
    assert (A1 : forall x y, 0 <= x <= y -> radial_matrix (Rep M_Sm (l + IZR 0)%R x y) x y (v_Sm l)).
    { intros x y H. rewrite Rplus_0_r. apply build_matrix_rep; [now apply Sm_rep|exact H]. }
    assert (A2 : forall x y, 0 <= x <= y -> radial_matrix (Rep M_Sp (l + IZR 0)%R x y) x y (v_Sp l)).
    { intros x y H. rewrite Rplus_0_r. apply build_matrix_rep; [now apply Sp_rep|exact H]. }
    destruct (word_two Rep _ an l _ _ _ _ _ _ _ _ HF A1 A2 n0 n1 lap Hn Hlap) as (m & E & S1 & S2 & V).
    exists m. split; [exact E|]. split; [exact S1|]. split; [exact S2|]. intros x y Hx Hy. rewrite V by assumption.
    cbn [powerRZ]. rewrite tprod_Sm_Sp by (assumption || (unfold b; lia)). unfold b. ring.
  Qed.

  Lemma word_Sp_Sm : radial_matrix (RadProd Rep [Radial_Sp; Radial_Sm] an l 0 n0 n1 lap) n0 n1
    (fun f i => if f =? i then (if a <? i then (l + IZR i - 1) * IZR i else 0)%R else 0%R).
  Proof.
    assert (HF : RepRadial_Prod_factors [Radial_Sp; Radial_Sm] l 0 = Ok [F1 M_Sp 0 0; F1 M_Sm 0 0])
      by (factors [Radial_Sp; Radial_Sm] [SOp 1; SOp (-1)] [0; 0]).
    assert (A1 : forall x y, 0 <= x <= y -> radial_matrix (Rep M_Sm (l + IZR 0)%R x y) x y (v_Sm l)).
    { intros x y H. rewrite Rplus_0_r. apply build_matrix_rep; [now apply Sm_rep|exact H]. }
    assert (A2 : forall x y, 0 <= x <= y -> radial_matrix (Rep M_Sp (l + IZR 0)%R x y) x y (v_Sp l)).
    { intros x y H. rewrite Rplus_0_r. apply build_matrix_rep; [now apply Sp_rep|exact H]. }
    destruct (word_two Rep _ an l _ _ _ _ _ _ _ _ HF A2 A1 n0 n1 lap Hn Hlap) as (m & E & S1 & S2 & V).
    exists m. split; [exact E|]. split; [exact S1|]. split; [exact S2|]. intros x y Hx Hy. rewrite V by assumption.
    cbn [powerRZ]. rewrite tprod_Sp_Sm by (assumption || (unfold a; lia)). unfold a. ring.
  Qed.

  Lemma word_S0 : radial_matrix (RadProd Rep [Radial_S0] an l 0 n0 n1 lap) n0 n1 (v_S0 l).
  Proof.
    assert (HF : RepRadial_Prod_factors [Radial_S0] l 0 = Ok [F1 M_S0 0 0]) by (factors [Radial_S0] [SOp 0] [0]).
    assert (A1 : forall x y, 0 <= x <= y -> radial_matrix (Rep M_S0 (l + IZR 0)%R x y) x y (v_S0 l)).
    { intros x y H. rewrite Rplus_0_r. apply build_matrix_rep; [now apply S0_rep|exact H]. }
    destruct (word_single Rep _ an l _ _ _ _ HF A1 n0 n1 lap Hn Hlap) as (m & E & S1 & S2 & V).
    exists m. split; [exact E|]. split; [exact S1|]. split; [exact S2|]. intros x y Hx Hy. rewrite V by assumption.
    cbn [powerRZ]. ring.
  Qed.

  Lemma word_b_Db : radial_matrix (RadProd Rep [Radial_b; Radial_Db] an l 0 n0 n1 lap) n0 n1 (v_bDb l).
  Proof.
    assert (HF : RepRadial_Prod_factors [Radial_b; Radial_Db] l 0 = Ok [F1 M_bDb 0 0])
      by (factors [Radial_b; Radial_Db] [KTOp 1 1] [0]).
    assert (A1 : forall x y, 0 <= x <= y -> radial_matrix (Rep M_bDb (l + IZR 0)%R x y) x y (v_bDb l)).
    { intros x y H. rewrite Rplus_0_r. apply build_matrix_rep; [now apply bDb_rep|exact H]. }
    destruct (word_single Rep _ an l _ _ _ _ HF A1 n0 n1 lap Hn Hlap) as (m & E & S1 & S2 & V).
    exists m. split; [exact E|]. split; [exact S1|]. split; [exact S2|]. intros x y Hx Hy. rewrite V by assumption.
    cbn [powerRZ]. ring.
  Qed.

  Lemma word_id : radial_matrix (RadProd Rep [] an l 0 n0 n1 lap) n0 n1 rid.
  Proof.
    assert (HF : RepRadial_Prod_factors [] l 0 = Ok [F1 M_eye 0 0]) by (factors (@nil rsym) (@nil ktsop) (@nil Z)).
    assert (A1 : forall x y, 0 <= x <= y -> radial_matrix (Rep M_eye (l + IZR 0)%R x y) x y rid).
    { intros x y H. eexists. split; [reflexivity|]. cbn [eye nrows ncols ent]. split; [lia|]. split; [lia|].
      intros p q Hp Hq. unfold rid. replace (x + p =? x + q) with (p =? q) by lia. reflexivity. }
    destruct (word_single Rep _ an l _ _ _ _ HF A1 n0 n1 lap Hn Hlap) as (m & E & S1 & S2 & V).
    exists m. split; [exact E|]. split; [exact S1|]. split; [exact S2|]. intros x y Hx Hy. rewrite V by assumption.
    cbn [powerRZ]. ring.
  Qed.

  Lemma word_Db_b : an <> 0%R -> radial_matrix (RadProd Rep [Radial_Db; Radial_b] an l 0 n0 n1 lap) n0 n1
    (fun f i => (v_bDb l f i + (if f =? i then 1 else 0) + if (f =? i) && (i =? a) then IZR a else 0)%R).
  Proof.
    intros Ha.
    assert (HF : RepRadial_Prod_factors [Radial_Db; Radial_b] l 0 = Ok [F1 M_Db_ml 1 1; F1 M_b_pl 0 (-1)])
      by (factors [Radial_Db; Radial_b] [KTOp 0 1; KTOp 1 0] [-1; 1]).
    assert (A1 : forall x y, 0 <= x <= y -> radial_matrix (Rep M_Db_ml (l + IZR 1)%R x y) x y (v_Db_ml Gam (l + 1))).
    { intros x y H. apply build_matrix_rep; [apply Db_ml_rep; [exact HG|cbn; lra]|exact H]. }
    assert (A2 : forall x y, 0 <= x <= y -> radial_matrix (Rep M_b_pl (l + IZR 0)%R x y) x y (v_b_pl l)).
    { intros x y H. rewrite Rplus_0_r. apply build_matrix_rep; [now apply b_pl_rep|exact H]. }
    destruct (word_two Rep _ an l _ _ _ _ _ _ _ _ HF A1 A2 n0 n1 lap Hn Hlap) as (m & E & S1 & S2 & V).
    exists m. split; [exact E|]. split; [exact S1|]. split; [exact S2|]. intros x y Hx Hy. rewrite V by assumption.
    rewrite tprod_Db_b by (assumption || lia). fold a.
    replace (powerRZ an 1 * powerRZ an (-1))%R with 1%R; [ring|].
    rewrite <- powerRZ_add by exact Ha. reflexivity.
  Qed.
End Words.

(** ** The full space *)

(** The lambda of the radial states that go with seniority v. *)
Definition lambda_of (s : settings) (lb : R) (v : Z) : R :=
  match g_lam_fun s v with Ok k => (lb + IZR k)%R | Raise _ => 0%R end.

Section Space.
  Variable Gam : R -> R.
  Hypothesis HG : gamma_like Gam.
  Variables Msqrt Minv : mat R -> res (mat R).
  Variable CG : Z -> Z -> Z -> Z -> Z -> Z -> Z -> Z -> Z -> res R.
  Let RP := RadProd (Rep_elem Gam Msqrt Minv).
  Variables nu_min nu_max v_min v_max L_min L_max : Z.
  Hypothesis Hnu : 0 <= nu_min <= nu_max.
  Hypothesis Hv : 0 <= v_min <= v_max.
  Hypothesis HL : 0 <= L_min <= L_max.

  (** The settings give every seniority of the space a positive lambda. *)
  Definition positive_lambda (s : settings) (lb : R) : Prop :=
    forall v, v_min <= v <= v_max -> exists k, g_lam_fun s v = Ok k /\ (0 < lb + IZR k)%R.

  Lemma full_word s lb an w V : positive_lambda s lb ->
    (forall l, (0 < l)%R -> radial_matrix (RP w an l 0 nu_min nu_max 0) nu_min nu_max (V l)) ->
    word_matrix RP (g_lam_fun s) an lb nu_min nu_max v_min v_max w V.
  Proof. intros P H v Hvv. destruct (P v Hvv) as (k & E & Hk). exists k. split; [exact E|]. now apply H. Qed.

  Lemma full_diagonal X p q nf sf ni st : lbsXspace nu_min nu_max v_min v_max L_min (Some L_max) = Ok X -> 0 <= p -> 0 <= q ->
    nth_error X (Z.to_nat p) = Some (nf, sf) -> nth_error X (Z.to_nat q) = Some (ni, st) ->
    state_eqb sf st && (nf =? ni) = (p =? q).
  Proof.
    intros EX Hp Hq Ep Eq. destruct (p =? q) eqn:E.
    - assert (p = q) by lia. subst q. rewrite Ep in Eq. injection Eq as <- <-. rewrite (proj2 (state_eqb_eq CG _ _) eq_refl). lia.
    - destruct (state_eqb sf st) eqn:S1; [|reflexivity]. apply (state_eqb_eq CG) in S1. subst sf. destruct (nf =? ni) eqn:N; [|reflexivity].
      exfalso. assert (nf = ni) by lia. subst nf.
      pose proof (same_position CG nu_min nu_max v_min v_max L_min L_max Hnu Hv HL X p q _ EX Hp Hq Ep Eq). lia.
  Qed.

  Lemma at_position (X : list xlabel) p : 0 <= p < zlen X -> exists nu (st : label), nth_error X (Z.to_nat p) = Some (nu, st).
  Proof.
    intros Hp. destruct (nth_error X (Z.to_nat p)) as [[nu st]|] eqn:F; [eauto|]. apply nth_error_None in F. unfold zlen in Hp. lia.
  Qed.

  (** The sum documented to vanish by the su(1,1) relations: what it gives at a
      state with radial number nu and lambda l. *)
  Definition su11_residue (l : R) (nu : Z) : R :=
    ((if nu =? nu_min then (l + IZR nu - 1) * IZR nu else 0) -
     (if nu =? nu_max then (l + IZR nu) * (IZR nu + 1) else 0))%R.

  Theorem C73_su11 : forall s an lb X, positive_lambda s lb ->
    lbsXspace nu_min nu_max v_min v_max L_min (Some L_max) = Ok X ->
    exists D, code_matrices RP CG s comm_su11_op an lb nu_min nu_max v_min v_max L_min (Some L_max) = Ok D /\
      nrows D = zlen X /\ ncols D = zlen X /\
      forall p q nu v al L, 0 <= p < zlen X -> 0 <= q < zlen X -> nth_error X (Z.to_nat q) = Some (nu, (v, al, L)) ->
        ent D p q = if p =? q then su11_residue (lambda_of s lb v) nu else 0%R.
  Proof.
    intros s an lb X P EX. unfold code_matrices.
    set (terms := [(CNum 1, [Radial_Sm; Radial_Sp], fun l f i => if f =? i then (if i <? nu_max + 0 then (l + IZR i) * (IZR i + 1) else 0)%R else 0%R);
      (CNum (-1), [Radial_Sp; Radial_Sm], fun l f i => if f =? i then (if nu_min - Z.min 0 nu_min <? i then (l + IZR i - 1) * IZR i else 0)%R else 0%R);
      (CNum (-2), [Radial_S0], v_S0)]).
    destruct (rep_radial RP CG (g_lam_fun s) an lb nu_min nu_max v_min v_max L_min L_max Hnu Hv HL terms X) as (D & ED & S1 & S2 & EV).
    { intros c w V [E | [E | [E | []]]]; injection E as <- <- <-; (split; [apply full_word; [exact P|]|repeat constructor]); intros l Hl.
      - apply word_Sm_Sp; assumption || lia.
      - apply word_Sp_Sm; assumption || lia.
      - apply word_S0; assumption || lia. }
    { exact EX. }
    exists D. split; [exact ED|]. split; [exact S1|]. split; [exact S2|].
    intros p q ni v al L Hp Hq Eq. destruct (at_position X p Hp) as (nf & sf & Ep).
    rewrite (EV p q nf sf ni v al L ltac:(lia) ltac:(lia) Ep Eq).
    pose proof (full_diagonal X p q nf sf ni _ EX ltac:(lia) ltac:(lia) Ep Eq) as DG.
    destruct (position _ _ _ _ _ _ X q _ Hnu Hv HL EX ltac:(lia) Eq) as (_ & _ & Nq). cbn [fst] in Nq.
    assert (Hni : nu_min <= ni <= nu_max) by (pose proof (Z.mod_pos_bound q (nu_max - nu_min + 1) ltac:(lia)); lia).
    change (lam_at (g_lam_fun s) lb v) with (lambda_of s lb v). set (l := lambda_of s lb v).
    unfold terms. cbn [map fold_right fst snd cval]. unfold su11_residue, v_S0.
    destruct (state_eqb sf (v, al, L)); cbn [andb] in DG; [|rewrite <- DG; reflexivity].
    rewrite DG. destruct (p =? q); [|ring].
    destruct (ni =? nu_min) eqn:B1, (ni =? nu_max) eqn:B2;
      repeat match goal with |- context [?x <? ?y] => destruct (x <? y) eqn:?; try (exfalso; lia) end; try field.
  Qed.

  (** It never is a zero matrix: the truncation leaves a negative entry on the
      diagonal at the states of largest radial number, unless the space is empty. *)
  Theorem C73_su11_zero_refuted : forall s an lb X D, positive_lambda s lb ->
    lbsXspace nu_min nu_max v_min v_max L_min (Some L_max) = Ok X -> X <> [] ->
    code_matrices RP CG s comm_su11_op an lb nu_min nu_max v_min v_max L_min (Some L_max) = Ok D ->
    exists p, 0 <= p < zlen X /\ (ent D p p < 0)%R.
  Proof.
    intros s an lb X D P EX NE ED. destruct (C73_su11 s an lb X P EX) as (D' & ED' & S1 & S2 & EV).
    rewrite ED in ED'. injection ED' as <-.
    destruct (C06_layout _ _ _ _ _ _ Hnu Hv HL) as (X' & sph & E & Es & Hl & HN). rewrite EX in E. injection E as <-.
    assert (Hd : dimRadial nu_min nu_max = nu_max - nu_min + 1) by (unfold dimRadial; replace (nu_min <=? nu_max) with true by lia; reflexivity).
    rewrite Hd in *. destruct sph as [|[[v al] L] sph]; [exfalso; apply NE; destruct X; [reflexivity|unfold zlen in Hl; cbn [length] in Hl; lia]|].
    set (k := Z.to_nat (nu_max - nu_min)).
    pose proof (HN 0%nat k _ eq_refl ltac:(unfold k; lia)) as E1.
    assert (Hk : nth_error X (Z.to_nat (nu_max - nu_min)) = Some (nu_max, (v, al, L))).
    { replace (nu_min + Z.of_nat k) with nu_max in E1 by (unfold k; lia). refine (eq_trans _ E1). f_equal. }
    exists (nu_max - nu_min).
    assert (HX : nu_max - nu_min < zlen X) by (assert (nth_error X (Z.to_nat (nu_max - nu_min)) <> None) as N by congruence; apply nth_error_Some in N; unfold zlen; lia).
    split; [lia|]. rewrite (EV (nu_max - nu_min) (nu_max - nu_min) nu_max v al L ltac:(lia) ltac:(lia) Hk), Z.eqb_refl. unfold su11_residue. rewrite Z.eqb_refl.
    assert (Hvv : v_min <= v <= v_max).
    { rewrite lbs_rngVvarL_some in Es by assumption. injection Es as Es.
      assert (In (v, al, L) (lbs v_min v_max L_min L_max)) as I by (rewrite Es; now left). apply in_lbs in I. lia. }
    destruct (P v Hvv) as (j & Ej & Hj). unfold lambda_of. rewrite Ej.
    assert (0 <= IZR nu_max)%R by (apply (IZR_le 0); lia). destruct (_ =? _); nra.
  Qed.

  Theorem C73_bdb : forall s an lb X, positive_lambda s lb -> an <> 0%R ->
    lbsXspace nu_min nu_max v_min v_max L_min (Some L_max) = Ok X ->
    exists D, code_matrices RP CG s comm_bdb_op an lb nu_min nu_max v_min v_max L_min (Some L_max) = Ok D /\
      nrows D = zlen X /\ ncols D = zlen X /\
      forall p q nu st, 0 <= p < zlen X -> 0 <= q < zlen X -> nth_error X (Z.to_nat q) = Some (nu, st) ->
        ent D p q = if (p =? q) && (nu =? nu_min) then IZR nu_min else 0%R.
  Proof.
    intros s an lb X P Ha EX. unfold code_matrices.
    set (terms := [(CNum (-1), [Radial_b; Radial_Db], v_bDb);
      (CNum 1, [Radial_Db; Radial_b], fun l f i => (v_bDb l f i + (if f =? i then 1 else 0) +
          if (f =? i) && (i =? nu_min - Z.min 0 nu_min) then IZR (nu_min - Z.min 0 nu_min) else 0)%R);
      (CNum (-1), [], fun _ => rid)]).
    destruct (rep_radial RP CG (g_lam_fun s) an lb nu_min nu_max v_min v_max L_min L_max Hnu Hv HL terms X) as (D & ED & S1 & S2 & EV).
    { intros c w V [E | [E | [E | []]]]; injection E as <- <- <-; (split; [apply full_word; [exact P|]|repeat constructor]); intros l Hl.
      - apply word_b_Db; assumption || lia.
      - apply word_Db_b; assumption || lia.
      - apply word_id; assumption || lia. }
    { exact EX. }
    exists D. split; [exact ED|]. split; [exact S1|]. split; [exact S2|].
    intros p q ni [[v al] L] Hp Hq Eq. destruct (at_position X p Hp) as (nf & sf & Ep).
    rewrite (EV p q nf sf ni v al L ltac:(lia) ltac:(lia) Ep Eq).
    pose proof (full_diagonal X p q nf sf ni _ EX ltac:(lia) ltac:(lia) Ep Eq) as DG.
    unfold terms. cbn [map fold_right fst snd cval]. unfold rid. replace (nu_min - Z.min 0 nu_min) with nu_min by lia.
    destruct (state_eqb sf (v, al, L)); cbn [andb] in DG; [|rewrite <- DG; reflexivity].
    rewrite DG. destruct (p =? q), (ni =? nu_min); cbn [andb]; ring.
  Qed.

  (** The other sum is a zero matrix exactly when the space starts at radial
      number 0. *)
  Theorem C73_bdb_zero_iff : forall s an lb X D, positive_lambda s lb -> an <> 0%R ->
    lbsXspace nu_min nu_max v_min v_max L_min (Some L_max) = Ok X -> X <> [] ->
    code_matrices RP CG s comm_bdb_op an lb nu_min nu_max v_min v_max L_min (Some L_max) = Ok D ->
    (forall p q, 0 <= p < zlen X -> 0 <= q < zlen X -> ent D p q = 0%R) <-> nu_min = 0.
  Proof.
    intros s an lb X D P Ha EX NE ED. destruct (C73_bdb s an lb X P Ha EX) as (D' & ED' & S1 & S2 & EV).
    rewrite ED in ED'. injection ED' as <-. split.
    - intros Z0. assert (HX : 0 < zlen X) by (destruct X; [contradiction|unfold zlen; cbn [length]; lia]).
      destruct (at_position X 0 ltac:(lia)) as (nu & st & E0).
      pose proof (EV 0 0 nu st ltac:(lia) ltac:(lia) E0) as V. rewrite (Z0 0 0) in V by lia.
      destruct (position _ _ _ _ _ _ X 0 _ Hnu Hv HL EX ltac:(lia) E0) as (_ & _ & Nq). cbn [fst] in Nq. rewrite Z.mod_0_l in Nq by lia.
      replace (nu =? nu_min) with true in V by lia. cbn in V. now apply eq_IZR in V.
    - intros N p q Hp Hq. destruct (at_position X q Hq) as (nu & st & Eq). rewrite (EV p q nu st Hp Hq Eq), N. destruct (_ && _); reflexivity.
  Qed.

  (** The operator provided as the Laplacian, in the oscillator basis: minus
      twice the kinetic energy, tridiagonal in the radial number, diagonal in
      everything else. *)
  Theorem C73_laplacian : forall s an X, an <> 0%R -> (forall v, 0 <= v -> g_lam_fun s v = Ok v) ->
    lbsXspace nu_min nu_max v_min v_max L_min (Some L_max) = Ok X ->
    exists D, code_matrices RP CG s laplacian_op an (5 / 2) nu_min nu_max v_min v_max L_min (Some L_max) = Ok D /\
      nrows D = zlen X /\ ncols D = zlen X /\
      forall p q nf sf ni v al L, 0 <= p -> 0 <= q ->
        nth_error X (Z.to_nat p) = Some (nf, sf) -> nth_error X (Z.to_nat q) = Some (ni, (v, al, L)) ->
        ent D p q = if state_eqb sf (v, al, L) then
           (if nf =? ni then - (an ^ 2 * (5 / 2 + IZR v + 2 * IZR ni))
            else if Z.abs (nf - ni) =? 1 then
              an ^ 2 * sqrt ((5 / 2 + IZR v + IZR (Z.min nf ni)) * (IZR (Z.min nf ni) + 1))
            else 0)%R else 0%R.
  Proof.
    intros s an X Ha Hs EX. unfold code_matrices.
    set (terms := [(CNum 1, [Radial_D2b], fun l f i => (powerRZ an 2 * v_D2b Gam l f i)%R);
      (SEN (fun v => - (2 + IZR v * (IZR v + 3)))%R, [Radial_bm2], fun l f i => (powerRZ an 2 * v_bm2 Gam l f i)%R)]).
    assert (W : forall w V, (forall l, (1 < l)%R -> radial_matrix (RP w an l 0 nu_min nu_max 0) nu_min nu_max (V l)) ->
       word_matrix RP (g_lam_fun s) an (5 / 2) nu_min nu_max v_min v_max w V).
    { intros w V H v Hvv. exists v. split; [apply Hs; lia|]. apply H. assert (0 <= IZR v)%R by (apply (IZR_le 0); lia). lra. }
    destruct (rep_radial RP CG (g_lam_fun s) an (5 / 2) nu_min nu_max v_min v_max L_min L_max Hnu Hv HL terms X) as (D & ED & S1 & S2 & EV).
    { intros c w V [E | [E | []]]; injection E as <- <- <-; (split; [apply W|repeat constructor]); intros l Hl.
      - now apply word_D2b.
      - now apply word_bm2. }
    { exact EX. }
    exists D. split; [exact ED|]. split; [exact S1|]. split; [exact S2|].
    intros p q nf sf ni v al L Hp Hq Ep Eq. rewrite (EV p q nf sf ni v al L Hp Hq Ep Eq).
    destruct (state_eqb sf (v, al, L)); [|reflexivity].
    destruct (position _ _ _ _ _ _ X q _ Hnu Hv HL EX Hq Eq) as (_ & Lq & _).
    pose proof (in_lbs v_min v_max L_min L_max v al L (nth_error_In _ _ Lq)) as Hvv.
    unfold lam_at. rewrite Hs by lia. unfold terms, SEN. cbn [map fold_right fst snd cval].
    change (powerRZ an 2) with (an ^ 2)%R.
    unfold v_D2b. set (b := v_bm2 Gam (5 / 2 + IZR v) nf ni). set (l := (5 / 2 + IZR v)%R). 
    destruct (nf =? ni) eqn:E1; [replace (nf =? ni - 1) with false by lia|].
    - unfold l. field.
    - destruct (nf =? ni - 1) eqn:E2; [|destruct (nf =? ni + 1) eqn:E3].
      + replace (Z.abs (nf - ni) =? 1) with true by lia. replace (Z.min nf ni) with nf by lia. unfold pv, l. field.
      + replace (Z.abs (nf - ni) =? 1) with true by lia. replace (Z.min nf ni) with ni by lia. unfold pv, l. field.
      + replace (Z.abs (nf - ni) =? 1) with false by lia. unfold l. field.
  Qed.
End Space.

(** ** With an overlap *)

(** Asking for one extra radial state on each side, both sums vanish. *)
Definition zero_matrix (r : res (mat R)) (n0 n1 : Z) : Prop := radial_matrix r n0 n1 (fun _ _ => 0%R).

Section Overlap.
  Variable Gam : R -> R.
  Hypothesis HG : gamma_like Gam.
  Variables Msqrt Minv : mat R -> res (mat R).
  Let RP := RadProd (Rep_elem Gam Msqrt Minv).

  Lemma lc_three c1 w1 V1 c2 w2 V2 c3 w3 V3 an l n0 n1 lap :
    radial_matrix (RP w1 an l 0 n0 n1 lap) n0 n1 V1 -> radial_matrix (RP w2 an l 0 n0 n1 lap) n0 n1 V2 ->
    radial_matrix (RP w3 an l 0 n0 n1 lap) n0 n1 V3 ->
    radial_matrix (RepRadial_LC RP [(c1, w1); (c2, w2); (c3, w3)] an l 0 n0 n1 lap) n0 n1
      (fun f i => (c1 * V1 f i + c2 * V2 f i + c3 * V3 f i)%R).
  Proof.
    intros (m1 & E1 & R1 & C1 & X1) (m2 & E2 & R2 & C2 & X2) (m3 & E3 & R3 & C3 & X3).
    unfold RepRadial_LC. rewrite E1. cbn [bind for_ snd fst]. rewrite E2. cbn [bind]. rewrite E3. cbn [bind].
    eexists. split; [reflexivity|]. unfold madd, mscale. cbn [nrows ncols ent]. split; [exact R1|]. split; [exact C1|].
    intros x y Hx Hy. rewrite X1, X2, X3 by assumption. ring.
  Qed.

  Theorem C73_overlap : forall an l n0 n1 lap, (0 < l)%R -> an <> 0%R -> 0 <= n0 <= n1 -> 1 <= lap ->
    zero_matrix (RepRadial_LC RP [(1, [Radial_Sm; Radial_Sp]); (-1, [Radial_Sp; Radial_Sm]); (-2, [Radial_S0])]%R an l 0 n0 n1 lap) n0 n1 /\
    zero_matrix (RepRadial_LC RP [(-1, [Radial_b; Radial_Db]); (1, [Radial_Db; Radial_b]); (-1, [])]%R an l 0 n0 n1 lap) n0 n1.
  Proof.
    intros an l n0 n1 lap Hl Ha Hn Hlap. unfold zero_matrix. split.
    - destruct (lc_three 1 _ _ (-1) _ _ (-2) _ _ an l n0 n1 lap
        (word_Sm_Sp Gam Msqrt Minv an l n0 n1 lap Hl Hn ltac:(lia)) (word_Sp_Sm Gam Msqrt Minv an l n0 n1 lap Hl Hn ltac:(lia))
        (word_S0 Gam Msqrt Minv an l n0 n1 lap Hl Hn ltac:(lia))) as (m & E & R1 & C1 & V).
      exists m. split; [exact E|]. split; [exact R1|]. split; [exact C1|]. intros x y Hx Hy. rewrite V by assumption. unfold v_S0.
      destruct (n0 + x =? n0 + y) eqn:B1; [|ring].
      destruct (n0 + y <? n1 + lap) eqn:B2; [|exfalso; lia].
      destruct (n0 - Z.min lap n0 <? n0 + y) eqn:B3; [field|].
      assert (n0 + y = 0) as -> by lia. field.
    - destruct (lc_three (-1) _ _ 1 _ _ (-1) _ _ an l n0 n1 lap
        (word_b_Db Gam Msqrt Minv an l n0 n1 lap Hl Hn ltac:(lia)) (word_Db_b Gam HG Msqrt Minv an l n0 n1 lap Hl Hn ltac:(lia) Ha)
        (word_id Gam Msqrt Minv an l n0 n1 lap Hl Hn ltac:(lia))) as (m & E & R1 & C1 & V).
      exists m. split; [exact E|]. split; [exact R1|]. split; [exact C1|]. intros x y Hx Hy. rewrite V by assumption. unfold rid.
      destruct (n0 + x =? n0 + y) eqn:B1; cbn [andb]; [|ring].
      destruct (n0 + y =? n0 - Z.min lap n0) eqn:B2; [|ring].
      replace (n0 - Z.min lap n0) with 0 by lia. ring.
  Qed.
End Overlap.

(** ** Examples *)

Lemma oscillator_lambda v : 0 <= v -> g_lam_fun (snd (ACM_set_basis_type 1 None imported)) v = Ok v.
Proof. intros H. apply (C31_values imported None v H). Qed.

Lemma oscillator_positive v_min v_max : 0 <= v_min <= v_max ->
  positive_lambda v_min v_max (snd (ACM_set_basis_type 1 None imported)) (5 / 2).
Proof.
  intros Hv v H. exists v. split; [apply oscillator_lambda; lia|]. assert (0 <= IZR v)%R by (apply (IZR_le 0); lia). lra.
Qed.

(** Radial numbers 1 .. 3 of the ground state: the su(1,1) sum has 5/2 and -22
    on its diagonal, the other sum 1, 0, 0. *)
Example C73_example : forall Msqrt Minv CG,
  let RepX := code_matrices (RadProd (Rep_elem gamma0 Msqrt Minv)) CG (snd (ACM_set_basis_type 1 None imported)) in
  (exists D, RepX comm_su11_op 2%R (5 / 2)%R 1 3 0 0 0 (Some 0) = Ok D /\ nrows D = 3 /\
     ent D 0 0 = (5 / 2)%R /\ ent D 1 1 = 0%R /\ ent D 2 2 = (-22)%R /\ ent D 0 1 = 0%R) /\
  (exists D, RepX comm_bdb_op 2%R (5 / 2)%R 1 3 0 0 0 (Some 0) = Ok D /\ nrows D = 3 /\
     ent D 0 0 = 1%R /\ ent D 1 1 = 0%R /\ ent D 2 2 = 0%R).
Proof.
  intros Msqrt Minv CG RepX.
  assert (EX : lbsXspace 1 3 0 0 0 (Some 0) = Ok [(1, (0, 1, 0)); (2, (0, 1, 0)); (3, (0, 1, 0))]) by (vm_compute; reflexivity).
  pose proof (oscillator_positive 0 0 ltac:(lia)) as P. split.
  - destruct (C73_su11 gamma0 Msqrt Minv CG 1 3 0 0 0 0 ltac:(lia) ltac:(lia) ltac:(lia) _ 2%R (5 / 2)%R _ P EX) as (D & ED & S1 & S2 & EV).
    exists D. split; [exact ED|]. split; [exact S1|]. change (zlen _) with 3 in EV.
    rewrite (EV 0 0 1 0 1 0), (EV 1 1 2 0 1 0), (EV 2 2 3 0 1 0), (EV 0 1 2 0 1 0) by (lia || reflexivity).
    unfold lambda_of. rewrite oscillator_lambda by lia. unfold su11_residue. cbn [Z.eqb Pos.eqb]. repeat split; lra.
  - destruct (C73_bdb gamma0 gamma_like_gamma0 Msqrt Minv CG 1 3 0 0 0 0 ltac:(lia) ltac:(lia) ltac:(lia) _ 2%R (5 / 2)%R _ P ltac:(lra) EX) as (D & ED & S1 & S2 & EV).
    exists D. split; [exact ED|]. split; [exact S1|]. change (zlen _) with 3 in EV.
    rewrite (EV 0 0 1 (0, 1, 0)), (EV 1 1 2 (0, 1, 0)), (EV 2 2 3 (0, 1, 0)) by (lia || reflexivity).
    repeat split.
Qed.

Example C73_laplacian_example : forall Msqrt Minv CG, exists D,
  code_matrices (RadProd (Rep_elem gamma0 Msqrt Minv)) CG (snd (ACM_set_basis_type 1 None imported)) laplacian_op 2 (5 / 2)
    0 1 3 3 0 (Some 0) = Ok D /\ nrows D = 2 /\ ent D 0 0 = (-22)%R /\ ent D 0 1 = (4 * sqrt (11 / 2))%R /\ ent D 1 1 = (-30)%R.
Proof.
  intros Msqrt Minv CG.
  assert (EX : lbsXspace 0 1 3 3 0 (Some 0) = Ok [(0, (3, 1, 0)); (1, (3, 1, 0))]) by (vm_compute; reflexivity).
  destruct (C73_laplacian gamma0 gamma_like_gamma0 Msqrt Minv CG 0 1 3 3 0 0 ltac:(lia) ltac:(lia) ltac:(lia)
    (snd (ACM_set_basis_type 1 None imported)) 2%R _ ltac:(lra) oscillator_lambda EX) as (D & ED & S1 & S2 & EV).
  exists D. split; [exact ED|]. split; [exact S1|].
  rewrite (EV 0 0 0 (3, 1, 0) 0 3 1 0), (EV 0 1 0 (3, 1, 0) 1 3 1 0), (EV 1 1 1 (3, 1, 0) 1 3 1 0) by (lia || reflexivity).
  cbn [state_eqb Z.eqb Pos.eqb andb Z.sub Z.opp Z.add Z.pos_sub Z.abs Z.min Z.compare]. split; [lra|]. split; [|lra].
  replace ((5 / 2 + 3 + 0) * (0 + 1))%R with (11 / 2)%R by lra. lra.
Qed.

Example C73_overlap_example : forall Msqrt Minv,
  zero_matrix (RepRadial_LC (RadProd (Rep_elem gamma0 Msqrt Minv))
    [(1, [Radial_Sm; Radial_Sp]); (-1, [Radial_Sp; Radial_Sm]); (-2, [Radial_S0])]%R 2 (5 / 2) 0 1 3 1) 1 3.
Proof. intros Msqrt Minv. apply (C73_overlap gamma0 gamma_like_gamma0 Msqrt Minv); lra || lia. Qed.

Print Assumptions C73_su11.
Print Assumptions C73_su11_zero_refuted.
Print Assumptions C73_bdb.
Print Assumptions C73_bdb_zero_iff.
Print Assumptions C73_laplacian.
Print Assumptions C73_overlap.
