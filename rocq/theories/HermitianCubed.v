(** Facts for C84: beta^3 between neighbouring lambdas. *)

From Coq Require Import Reals Lra.
From Coq Require Import Lia ZifyBool ZifyNat.
From Verif Require Import PyBase PyFacts Matrix RadialME RadialMEFacts RadialOps RadialWords PropsHarmonics HermitianSpec.
Open Scope Z_scope.
Ltac Zify.zify_post_hook ::= Z.div_mod_to_equations.

Lemma RadProd_two Rep w K T e1 s1 p1 e2 s2 p2 an l v n0 n1 :
  Parse_RadialOp_List w = Ok [KTOp K T] -> Lambda_RadialOp_List [KTOp K T] v = Ok [v] ->
  bsds_factors K T v = Ok [F1 e1 s1 p1; F1 e2 s2 p2] -> (0 < l)%R -> (0 < l + IZR v)%R -> 0 <= n0 ->
  RadProd Rep w an l v n0 n1 0 =
    (let* m1 := Rep e1 (l + IZR s1)%R n0 n1 in
     let* m2 := Rep e2 (l + IZR s2)%R n0 n1 in
     matmul (mscale (powerRZ an p1) m1) (mscale (powerRZ an p2) m2)).
Proof.
  intros EP EL EB Hl Hv Hn. unfold RadProd, RepRadial_Prod_common, RepRadial_Prod_factors.
  destruct (Rle_dec l 0); [lra|]. destruct (Rle_dec (l + IZR v) 0); [lra|].
  rewrite EP. cbn [bind]. rewrite EL. cbn [bind]. change (insert_id [KTOp K T] [v]) with ([KTOp K T], [v]).
  cbv beta iota. unfold RepRadialshfs_Prod. cbn [rev app shfs_loop representation]. unfold bsds.
  rewrite Rplus_0_r. destruct (Rle_dec l 0); [lra|]. destruct (Rle_dec (l + IZR v) 0); [lra|].
  rewrite EB. cbn [bind map app]. unfold shift_factor. cbn [F1 f_elems f_pow map fst snd].
  unfold factors_mat. cbn [mapM]. unfold factor_mat. cbn [f_elems f_pow mapM fst snd]. rewrite !Z.add_0_r.
  replace (n0 - Z.min 0 n0) with n0 by lia.
  destruct (Rep e1 (l + IZR s1)%R n0 n1) as [m1|x]; cbn [bind mprod]; [|reflexivity].
  destruct (Rep e2 (l + IZR s2)%R n0 n1) as [m2|x]; cbn [bind mprod]; [|reflexivity].
  destruct (matmul _ _); reflexivity.
Qed.

(** A sum over a window of a function with two non-zero terms. *)
Lemma rsum_pair f n k0 : 0 <= k0 < Z.of_nat n ->
  (forall k, 0 <= k < Z.of_nat n -> k <> k0 -> k <> k0 + 1 -> f k = 0%R) ->
  rsum f n = (f k0 + if (k0 + 1 <? Z.of_nat n)%Z then f (k0 + 1)%Z else 0)%R.
Proof.
  intros Hk H. destruct (Z.ltb_spec (k0 + 1) (Z.of_nat n)).
  - apply rsum_two; [lia|lia|exact H].
  - rewrite (rsum_single f n k0); [ring|exact Hk|]. intros k H1 H2. apply H; lia.
Qed.
Lemma rsum_pair_low f n k0 : 0 <= k0 < Z.of_nat n ->
  (forall k, 0 <= k < Z.of_nat n -> k <> k0 -> k <> k0 - 1 -> f k = 0%R) ->
  rsum f n = ((if (0 <? k0)%Z then f (k0 - 1)%Z else 0) + f k0)%R.
Proof.
  intros Hk H. destruct (Z.ltb_spec 0 k0).
  - rewrite (rsum_two f n (k0 - 1)); [|lia|lia|intros; apply H; lia]. now replace (k0 - 1 + 1) with k0 by lia.
  - rewrite (rsum_single f n k0); [ring|exact Hk|]. intros k H1 H2. apply H; lia.
Qed.

Section Cubed.
  Variable Gam : R -> R.
  Variables Msqrt Minv : mat R -> res (mat R).
  Variables (an l : R) (n0 n1 : Z).
  Hypothesis Ha : an <> 0%R.
  Hypothesis Hl : (0 < l)%R.
  Hypothesis Hn : 0 <= n0 <= n1.
  Let d := n1 - n0 + 1.
  Let RP := RadProd (Rep_elem Gam Msqrt Minv).

  Definition defect (x y : Z) : R :=
    ((if ((x =? y) && (x =? n1))%Z then IZR (n1 + 1) * sqrt (l + IZR n1) else 0)
     - (if ((x =? y) && (x =? n0))%Z then IZR n0 * sqrt (l + IZR n0) else 0))%R.

  Lemma cubed : exists A B, RP [Radial_b2; Radial_b] an l 1 n0 n1 0 = Ok A /\ RP [Radial_b2; Radial_b] an (l + 1)%R (-1) n0 n1 0 = Ok B /\
    square d A /\ square d B /\
    forall x y, n0 <= x <= n1 -> n0 <= y <= n1 -> (ent A (x - n0) (y - n0) - ent B (y - n0) (x - n0) = defect x y / an ^ 3)%R.
  Proof.
    unfold RP.
    rewrite (RadProd_two _ _ 3 0 M_b2 1 (-2) M_b_pl 0 (-1)); [|reflexivity|reflexivity|reflexivity|lra|lra|lia].
    rewrite (RadProd_two _ _ 3 0 M_b2 (-1) (-2) M_b_ml 0 (-1)); [|reflexivity|reflexivity|reflexivity|lra|lra|lia].
    rewrite !Rplus_0_r. replace (l + 1 + IZR (-1))%R with l by (change (IZR (-1)) with (-1)%R; ring).
    cbn [Rep_elem]. unfold RepRadial.
    destruct (build_matrix_rep _ _ n0 n1 (b2_rep (l + 1) ltac:(lra)) Hn) as (m1 & E1 & R1 & C1 & V1).
    destruct (build_matrix_rep _ _ n0 n1 (b_pl_rep l Hl) Hn) as (m2 & E2 & R2 & C2 & V2).
    destruct (build_matrix_rep _ _ n0 n1 (b2_rep l Hl) Hn) as (m3 & E3 & R3 & C3 & V3).
    destruct (build_matrix_rep _ _ n0 n1 (b_ml_rep (l + 1) ltac:(lra)) Hn) as (m4 & E4 & R4 & C4 & V4).
    rewrite E1, E2, E3, E4. cbn [bind].
    rewrite !(matmul_mm d) by (split; cbn [mscale nrows ncols]; assumption).
    eexists. eexists. split; [reflexivity|]. split; [reflexivity|].
    split; [apply mm_square; split; cbn [mscale nrows ncols]; assumption|]. split; [apply mm_square; split; cbn [mscale nrows ncols]; assumption|].
    intros x y Hx Hy. cbn [mm ent mscale ncols]. rewrite C1, C3. fold d.
    assert (Dp : Z.of_nat (Z.to_nat d) = d) by (unfold d; lia).
    rewrite (rsum_pair_low _ _ (y - n0)); [|rewrite Dp; unfold d; lia|].
    2: { intros k Hk N1 N2. rewrite Dp in Hk. rewrite V2 by (fold d; lia). unfold v_b_pl.
         replace (n0 + k =? n0 + (y - n0) - 1) with false by lia. replace (n0 + k =? n0 + (y - n0)) with false by lia. ring. }
    rewrite (rsum_pair _ _ (x - n0)); [|rewrite Dp; unfold d; lia|].
    2: { intros k Hk N1 N2. rewrite Dp in Hk. rewrite V4 by (fold d; lia). unfold v_b_ml.
         replace (n0 + k =? n0 + (x - n0) + 1) with false by lia. replace (n0 + k =? n0 + (x - n0)) with false by lia. ring. }
    rewrite Dp. replace (powerRZ an (-2)) with (/ an ^ 2)%R by reflexivity. assert (P1 : powerRZ an (-1) = (/ an)%R) by (unfold powerRZ; change (Pos.to_nat 1) with 1%nat; now rewrite pow_1). rewrite P1. clear P1.
    rewrite (V1 (x - n0) (y - n0)), (V2 (y - n0) (y - n0)), (V3 (y - n0) (x - n0)), (V4 (x - n0) (x - n0)) by (fold d; lia).
    replace (n0 + (x - n0)) with x by lia. replace (n0 + (y - n0)) with y by lia.
    assert (T1 : (if (0 <? y - n0)%Z then / an ^ 2 * ent m1 (x - n0) (y - n0 - 1) * (/ an * ent m2 (y - n0 - 1) (y - n0)) else 0)%R
              = (/ an ^ 3 * if (n0 <? y)%Z then v_b2 (l + 1) x (y - 1)%Z * sqrt (IZR y) else 0)%R).
    { replace (0 <? y - n0) with (n0 <? y) by lia. destruct (Z.ltb_spec n0 y); [|ring].
      rewrite V1, V2 by (fold d; lia). replace (n0 + (x - n0)) with x by lia. replace (n0 + (y - n0)) with y by lia.
      replace (n0 + (y - n0 - 1)) with (y - 1) by lia. unfold v_b_pl. rewrite Z.eqb_refl. field. exact Ha. }
    assert (T2 : (if (x - n0 + 1 <? d)%Z then / an ^ 2 * ent m3 (y - n0) (x - n0 + 1)%Z * (/ an * ent m4 (x - n0 + 1)%Z (x - n0)) else 0)%R
              = (/ an ^ 3 * if (x <? n1)%Z then v_b2 l y (x + 1)%Z * sqrt (IZR (x + 1)) else 0)%R).
    { replace (x - n0 + 1 <? d) with (x <? n1) by (unfold d; lia). destruct (Z.ltb_spec x n1); [|ring].
      rewrite V3, V4 by (fold d; lia). replace (n0 + (x - n0)) with x by lia. replace (n0 + (y - n0)) with y by lia.
      replace (n0 + (x - n0 + 1)) with (x + 1) by lia. unfold v_b_ml. rewrite Z.eqb_refl. field. exact Ha. }
    rewrite T1, T2. clear T1 T2 V1 V2 V3 V4.
    assert (D1 : v_b_pl l y y = sqrt (l + IZR y)).
    { unfold v_b_pl. replace (y =? y - 1) with false by lia. now rewrite Z.eqb_refl. }
    assert (D2 : v_b_ml (l + 1) x x = sqrt (l + IZR x)).
    { unfold v_b_ml. replace (x =? x + 1) with false by lia. rewrite Z.eqb_refl. f_equal. ring. }
    rewrite D1, D2. clear D1 D2.
    assert (PV1 : forall k, -1 <= k -> pv (l + 1) k = (sqrt (l + IZR (k + 1)) * sqrt (IZR (k + 1)))%R).
    { intros k Hk. unfold pv. apply (IZR_le (-1)) in Hk. rewrite <- sqrt_mult by (rewrite plus_IZR; lra). rewrite !plus_IZR. f_equal. ring. }
    assert (PV0 : forall k, 0 <= k -> pv l k = (sqrt (l + IZR k) * sqrt (IZR (k + 1)))%R).
    { intros k Hk. unfold pv. apply (IZR_le 0) in Hk. rewrite plus_IZR. rewrite <- sqrt_mult by lra. reflexivity. }
    assert (SQ : forall k, 0 <= k -> (sqrt (IZR k) * sqrt (IZR k) = IZR k)%R).
    { intros k Hk. apply sqrt_sqrt. apply (IZR_le 0). exact Hk. }
    assert (SL : forall k, 0 <= k -> (sqrt (l + IZR k) * sqrt (l + IZR k) = l + IZR k)%R).
    { intros k Hk. apply sqrt_sqrt. apply (IZR_le 0) in Hk. lra. }
    match goal with |- (?a + / an ^ 2 * ?b * (/ an * ?c) - (/ an ^ 2 * ?e * (/ an * ?f) + ?g))%R = _ =>
      replace (a + / an ^ 2 * b * (/ an * c) - (/ an ^ 2 * e * (/ an * f) + g))%R
        with (/ an ^ 3 * ((if (n0 <? y)%Z then v_b2 (l + 1) x (y - 1)%Z * sqrt (IZR y) else 0) + b * c - (e * f + (if (x <? n1)%Z then v_b2 l y (x + 1)%Z * sqrt (IZR (x + 1)) else 0))))%R
        by (field; exact Ha) end.
    unfold Rdiv. rewrite (Rmult_comm (defect x y)). f_equal. unfold defect.
    destruct (Z.eq_dec x y) as [->|Nxy].
    - rewrite Z.eqb_refl. cbn [andb]. unfold v_b2.
      replace (y =? y - 1 - 1) with false by lia. replace (y =? y - 1) with false by lia. replace (y =? y - 1 + 1) with true by lia.
      rewrite Z.eqb_refl. replace (y =? y + 1 - 1) with true by lia. rewrite PV1, PV0 by lia. replace (y - 1 + 1) with y by lia.
      pose proof (SQ y ltac:(lia)) as Q1. pose proof (SQ (y + 1) ltac:(lia)) as Q2. rewrite plus_IZR in *.
      set (s := sqrt (l + IZR y)) in *. set (t := sqrt (IZR y)) in *. set (u := sqrt (IZR y + 1)) in *.
      replace (n0 <? y) with (negb (y =? n0)) by lia. replace (y <? n1) with (negb (y =? n1)) by lia.
      destruct (Z.eqb_spec y n0) as [E0|E0], (Z.eqb_spec y n1) as [F0|F0]; cbn [negb];
        rewrite <- ?E0, <- ?F0; fold s; rewrite ?plus_IZR; try (ring [Q1 Q2]). 
    - replace (x =? y) with false by lia. cbn [andb]. unfold v_b2.
      destruct (Z.eq_dec x (y - 1)) as [->|N1]; [|destruct (Z.eq_dec x (y - 2)) as [->|N2]; [|destruct (Z.eq_dec x (y + 1)) as [->|N3]]].
      + replace (n0 <? y) with true by lia. replace (y - 1 <? n1) with true by lia.
        replace (y - 1 =? y - 1 - 1) with false by lia. rewrite Z.eqb_refl. replace (y =? y - 1 - 1) with false by lia.
        replace (y =? y - 1) with false by lia. replace (y =? y - 1 + 1) with true by lia.
        replace (y =? y - 1 + 1 - 1) with false by lia. rewrite PV1, PV0 by lia. replace (y - 1 + 1) with y by lia.
        pose proof (SL y ltac:(lia)) as Q1. pose proof (SL (y - 1) ltac:(lia)) as Q2. rewrite minus_IZR in *.
        set (s := sqrt (l + IZR y)) in *. set (t := sqrt (IZR y)) in *. set (u := sqrt (l + (IZR y - 1))) in *. ring [Q1 Q2].
      + replace (n0 <? y) with true by lia. replace (y - 2 <? n1) with true by lia.
        replace (y - 2 =? y - 1 - 1) with true by lia. replace (y - 2 =? y - 1) with false by lia. replace (y - 2 =? y) with false by lia.
        replace (y - 2 =? y + 1) with false by lia. replace (y =? y - 2 + 1 - 1) with false by lia. replace (y =? y - 2 - 1) with false by lia.
        replace (y =? y - 2) with false by lia. replace (y =? y - 2 + 1) with false by lia. replace (y =? y - 2 + 1 + 1) with true by lia.
        rewrite PV1, PV0 by lia. replace (y - 2 + 1 + 1) with y by lia. replace (y - 2 + 1) with (y - 1) by lia. ring.
      + replace (y + 1 =? y - 1 - 1) with false by lia. replace (y + 1 =? y - 1) with false by lia. replace (y + 1 =? y - 1 + 1) with false by lia.
        replace (y + 1 =? y) with false by lia. rewrite Z.eqb_refl. replace (y =? y + 1 - 1) with true by lia.
        replace (y =? y + 1 + 1 - 1) with false by lia. replace (y =? y + 1 + 1) with false by lia. replace (y =? y + 1 + 1 + 1) with false by lia.
        rewrite PV1, PV0 by lia. destruct (n0 <? y), (y + 1 <? n1); ring.
      + replace (x =? y - 1 - 1) with false by lia. replace (x =? y - 1) with false by lia. replace (x =? y - 1 + 1) with false by lia.
        replace (x =? y) with false by lia. replace (x =? y + 1) with false by lia. replace (y =? x - 1) with false by lia. replace (y =? x) with false by lia.
        replace (y =? x + 1) with false by lia. replace (y =? x + 1 - 1) with false by lia. replace (y =? x + 1 + 1) with false by lia.
        destruct (n0 <? y), (x <? n1); ring.
  Qed.
End Cubed.
