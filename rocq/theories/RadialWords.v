(** Matrices of one-letter radial words. *)

From Coq Require Import Reals Lra.
From Coq Require Import Lia ZifyBool ZifyNat.
From Verif Require Import PyBase PyFacts Compat Matrix FullLabels RadialOps PropsRadialOps RadialME RadialMESpec RadialMEFacts.
Open Scope Z_scope.
Ltac Zify.zify_post_hook ::= Z.div_mod_to_equations.

(** The radial products of RadialOps.v as parameter of the full-space
    functions. *)
Definition RadProd (Rep : elem -> R -> Z -> Z -> res (mat R)) (w : list rsym) (anorm lambdaa : R)
  (var nu_min nu_max lap : Z) : res (mat R) := RepRadial_Prod_common Rep anorm w lambdaa var nu_min nu_max lap.

Lemma RadProd_one Rep w K T e p an l v n0 n1 :
  Parse_RadialOp_List w = Ok [KTOp K T] -> Lambda_RadialOp_List [KTOp K T] v = Ok [v] ->
  bsds_factors K T v = Ok [F1 e 0 p] -> (0 < l)%R -> (0 < l + IZR v)%R -> 0 <= n0 ->
  RadProd Rep w an l v n0 n1 0 = let* m := Rep e l n0 n1 in Ok (mscale (powerRZ an p) m).
Proof.
  intros EP EL EB Hl Hv Hn. unfold RadProd, RepRadial_Prod_common, RepRadial_Prod_factors.
  destruct (Rle_dec l 0); [lra|]. destruct (Rle_dec (l + IZR v) 0); [lra|].
  rewrite EP. cbn [bind]. rewrite EL. cbn [bind]. change (insert_id [KTOp K T] [v]) with ([KTOp K T], [v]).
  cbv beta iota. unfold RepRadialshfs_Prod. cbn [rev app shfs_loop representation]. unfold bsds.
  rewrite Rplus_0_r. destruct (Rle_dec l 0); [lra|]. destruct (Rle_dec (l + IZR v) 0); [lra|].
  rewrite EB. cbn [bind map app]. unfold shift_factor. cbn [F1 f_elems f_pow map fst snd].
  unfold factors_mat. cbn [mapM]. unfold factor_mat. cbn [f_elems f_pow mapM fst snd]. cbn [Z.add].
  rewrite Rplus_0_r. replace (n0 - Z.min 0 n0) with n0 by lia. rewrite Z.add_0_r.
  destruct (Rep e l n0 n1) as [m|x]; cbn [bind mprod]; reflexivity.
Qed.

Lemma build_matrix_rep ME V n0 n1 : represents ME V -> 0 <= n0 <= n1 ->
  exists m, build_matrix ME n0 n1 = Ok m /\ nrows m = n1 - n0 + 1 /\ ncols m = n1 - n0 + 1 /\
    forall x y, 0 <= x < n1 - n0 + 1 -> 0 <= y < n1 - n0 + 1 -> ent m x y = V (n0 + x) (n0 + y).
Proof.
  intros HR Hn. unfold build_matrix. set (n := n1 - n0 + 1).
  rewrite (mapM_ok _ (fun i => map (fun j => V (n0 + i) (n0 + j)) (py_range 0 n))).
  - cbn [bind]. eexists. split; [reflexivity|]. split; [reflexivity|]. split; [reflexivity|]. cbn [ent].
    assert (NE : forall (A : Type) (g : Z -> A) d x, 0 <= x < n -> nth (Z.to_nat x) (map g (py_range 0 n)) d = g x).
    { intros A g d x Hx. rewrite (nth_error_nth (map g (py_range 0 n)) _ (x:=g x)); [reflexivity|].
      apply map_nth_error. unfold py_range.
      rewrite (map_nth_error (fun i => 0 + Z.of_nat i) (Z.to_nat x) (seq 0 (Z.to_nat (n - 0))) (d:=Z.to_nat x)).
      - f_equal. lia.
      - rewrite (nth_error_nth' _ 0%nat) by (rewrite seq_length; lia). rewrite seq_nth by lia. reflexivity. }
    intros x y Hx Hy. rewrite NE by exact Hx. now rewrite NE by exact Hy.
  - intros i Hi. apply py_range_In in Hi. apply mapM_ok. intros j Hj. apply py_range_In in Hj. apply HR; lia.
Qed.

(** A computed radial matrix with given entries. *)
Definition radial_matrix (r : res (mat R)) (n0 n1 : Z) (V : Z -> Z -> R) : Prop :=
  exists m, r = Ok m /\ nrows m = n1 - n0 + 1 /\ ncols m = n1 - n0 + 1 /\
    forall x y, 0 <= x < n1 - n0 + 1 -> 0 <= y < n1 - n0 + 1 -> ent m x y = V (n0 + x) (n0 + y).

Section Words.
  Variable Gam : R -> R.
  Hypothesis HG : gamma_like Gam.
  Variables Msqrt Minv : mat R -> res (mat R).
  Let Rep := Rep_elem Gam Msqrt Minv.
  Variables n0 n1 : Z.
  Hypothesis Hn : 0 <= n0 <= n1.

  Lemma word_one w K T e p an l v ME V :
    Parse_RadialOp_List w = Ok [KTOp K T] -> Lambda_RadialOp_List [KTOp K T] v = Ok [v] ->
    bsds_factors K T v = Ok [F1 e 0 p] -> (0 < l)%R -> (0 < l + IZR v)%R ->
    Rep e l n0 n1 = build_matrix (ME l) n0 n1 -> represents (ME l) V ->
    radial_matrix (RadProd Rep w an l v n0 n1 0) n0 n1 (fun f i => (powerRZ an p * V f i)%R).
  Proof.
    intros EP EL EB Hl Hv ER HV. rewrite (RadProd_one Rep w K T e p) by (assumption || lia). rewrite ER.
    destruct (build_matrix_rep _ _ n0 n1 HV Hn) as (m & -> & A & B & C). cbn [bind].
    eexists. split; [reflexivity|]. unfold mscale. cbn [nrows ncols ent].
    split; [exact A|]. split; [exact B|]. intros x y Hx Hy. now rewrite C.
  Qed.

  Lemma word_D2b an l : (1 < l)%R ->
    radial_matrix (RadProd Rep [Radial_D2b] an l 0 n0 n1 0) n0 n1 (fun f i => (powerRZ an 2 * v_D2b Gam l f i)%R).
  Proof. intros H. apply (word_one _ 0 2 M_D2b 2 _ _ _ (ME_Radial_D2b Gam)); try reflexivity; try lra. now apply D2b_rep. Qed.

  Lemma word_bm2 an l : (1 < l)%R ->
    radial_matrix (RadProd Rep [Radial_bm2] an l 0 n0 n1 0) n0 n1 (fun f i => (powerRZ an 2 * v_bm2 Gam l f i)%R).
  Proof. intros H. apply (word_one _ (-2) 0 M_bm2 2 _ _ _ (ME_Radial_bm2 Gam)); try reflexivity; try lra. now apply bm2_rep. Qed.

  Lemma word_b2 an l : (0 < l)%R ->
    radial_matrix (RadProd Rep [Radial_b2] an l 0 n0 n1 0) n0 n1 (fun f i => (powerRZ an (-2) * v_b2 l f i)%R).
  Proof. intros H. apply (word_one _ 2 0 M_b2 (-2) _ _ _ ME_Radial_b2); try reflexivity; try lra. now apply b2_rep. Qed.

  Lemma word_b_pl an l : (0 < l)%R ->
    radial_matrix (RadProd Rep [Radial_b] an l 1 n0 n1 0) n0 n1 (fun f i => (powerRZ an (-1) * v_b_pl l f i)%R).
  Proof. intros H. apply (word_one _ 1 0 M_b_pl (-1) _ _ _ ME_Radial_b_pl); try reflexivity; try lra. now apply b_pl_rep. Qed.

  Lemma word_b_ml an l : (1 < l)%R ->
    radial_matrix (RadProd Rep [Radial_b] an l (-1) n0 n1 0) n0 n1 (fun f i => (powerRZ an (-1) * v_b_ml l f i)%R).
  Proof. intros H. apply (word_one _ 1 0 M_b_ml (-1) _ _ _ ME_Radial_b_ml); try reflexivity; try lra. now apply b_ml_rep. Qed.

  Lemma word_Db_pl an l : (0 < l)%R ->
    radial_matrix (RadProd Rep [Radial_Db] an l 1 n0 n1 0) n0 n1 (fun f i => (powerRZ an 1 * v_Db_pl Gam l f i)%R).
  Proof. intros H. apply (word_one _ 0 1 M_Db_pl 1 _ _ _ (ME_Radial_Db_pl Gam)); try reflexivity; try lra. now apply Db_pl_rep. Qed.

  Lemma word_Db_ml an l : (1 < l)%R ->
    radial_matrix (RadProd Rep [Radial_Db] an l (-1) n0 n1 0) n0 n1 (fun f i => (powerRZ an 1 * v_Db_ml Gam l f i)%R).
  Proof. intros H. apply (word_one _ 0 1 M_Db_ml 1 _ _ _ (ME_Radial_Db_ml Gam)); try reflexivity; try lra. now apply Db_ml_rep. Qed.

  Lemma word_bm_pl an l : (0 < l)%R ->
    radial_matrix (RadProd Rep [Radial_bm] an l 1 n0 n1 0) n0 n1 (fun f i => (powerRZ an 1 * v_bm_pl Gam l f i)%R).
  Proof. intros H. apply (word_one _ (-1) 0 M_bm_pl 1 _ _ _ (ME_Radial_bm_pl Gam)); try reflexivity; try lra. now apply bm_pl_rep. Qed.

  Lemma word_bm_ml an l : (1 < l)%R ->
    radial_matrix (RadProd Rep [Radial_bm] an l (-1) n0 n1 0) n0 n1 (fun f i => (powerRZ an 1 * v_bm_ml Gam l f i)%R).
  Proof. intros H. apply (word_one _ (-1) 0 M_bm_ml 1 _ _ _ (ME_Radial_bm_ml Gam)); try reflexivity; try lra. now apply bm_ml_rep. Qed.

  Lemma word_nil an l : (0 < l)%R ->
    radial_matrix (RadProd Rep [] an l 0 n0 n1 0) n0 n1 (fun f i => if f =? i then 1%R else 0%R).
  Proof.
    intros Hl. unfold RadProd, RepRadial_Prod_common, RepRadial_Prod_factors.
    destruct (Rle_dec l 0); [lra|]. destruct (Rle_dec (l + IZR 0) 0); [lra|].
    change (Parse_RadialOp_List []) with (Ok (A:=list ktsop) []). cbn [bind].
    change (Lambda_RadialOp_List [] 0) with (Ok (A:=list Z) []). cbn [bind].
    change (insert_id [] []) with (@nil ktsop, @nil Z). cbn [RepRadialshfs_Prod bind].
    unfold factors_mat. cbn [mapM]. unfold factor_mat. cbn [F1 f_elems f_pow mapM fst snd].
    unfold Rep, Rep_elem. cbn [bind mprod]. rewrite Z.eqb_refl.
    eexists. split; [reflexivity|]. split; [|split]; cbn [nrows ncols mscale eye]; try lia.
    intros i j Hi Hj. cbn [ent mscale eye powerRZ]. replace (n0 + i =? n0 + j) with (i =? j) by lia.
    destruct (i =? j); ring.
  Qed.
End Words.
