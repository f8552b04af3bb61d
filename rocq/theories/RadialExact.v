(** Truncated products of radial matrices against products over the whole
    radial basis. *)

From Coq Require Import Reals Lra.
From Coq Require Import Lia ZifyBool ZifyNat.
From Verif Require Import PyBase PyFacts Compat Matrix FullLabels RadialOps PropsRadialOps RadialME RadialMESpec RadialMEFacts IdFacts RadialWords RadialElement.
Open Scope Z_scope.
Ltac Zify.zify_post_hook ::= Z.div_mod_to_equations.

(** The product of infinite matrices with every intermediate index below N. *)
Fixpoint rprod (l : list rmat) (N : nat) : rmat :=
  match l with
  | [] => rid
  | [V] => V
  | V :: l' => fun f i => rsum (fun k => (V f k * rprod l' N k i)%R) N
  end.

(** ** The infinite matrices of the elementary operators *)
Section Exact.
  Variable Gam : R -> R.
  Hypothesis HG : gamma_like Gam.
  Variables Msqrt Minv : mat R -> res (mat R).
  Let Rep := Rep_elem Gam Msqrt Minv.

  Definition elem_val (e : elem) (lam : R) : rmat :=
    match e with
    | M_Sm => v_Sm lam | M_S0 => v_S0 lam | M_Sp => v_Sp lam
    | M_b2 => v_b2 lam | M_bm2 => v_bm2 Gam lam | M_D2b => v_D2b Gam lam | M_bDb => v_bDb lam
    | M_b_pl => v_b_pl lam | M_bm_pl => v_bm_pl Gam lam | M_Db_pl => v_Db_pl Gam lam
    | M_b_ml => v_b_ml lam | M_bm_ml => v_bm_ml Gam lam | M_Db_ml => v_Db_ml Gam lam
    | M_id_pl r => v_id Gam (Z.to_nat r) lam
    | M_id_ml r => rtr (v_id Gam (Z.to_nat r) (lam - 2 * IZR r))
    | M_b2_sqrt | M_b2_sqrtInv | M_eye => rid
    end.

  (** Where the elementary operator is analytic and its matrix elements exist. *)
  Definition elem_dom (e : elem) (lam : R) : Prop :=
    match e with
    | M_bm2 | M_D2b | M_b_ml | M_bm_ml | M_Db_ml => (1 < lam)%R
    | M_id_pl r => (0 < lam)%R /\ 0 <= r
    | M_id_ml r => (0 < lam - 2 * IZR r)%R /\ 0 <= r
    | M_b2_sqrt | M_b2_sqrtInv => False
    | _ => (0 < lam)%R
    end.

  Lemma elem_rep e lam a b : elem_dom e lam -> 0 <= a <= b ->
    radial_matrix (Rep e lam a b) a b (elem_val e lam).
  Proof.
    intros D H. unfold Rep, radial_matrix.
    destruct e; cbn [Rep_elem elem_dom elem_val] in *; unfold RepRadial, RepRadial_param; try contradiction;
      try (apply build_matrix_rep; [|exact H]).
    - now apply Sm_rep.
    - now apply S0_rep.
    - now apply Sp_rep.
    - now apply b2_rep.
    - now apply bm2_rep.
    - now apply D2b_rep.
    - now apply bDb_rep.
    - now apply b_pl_rep.
    - now apply bm_pl_rep.
    - now apply Db_pl_rep.
    - now apply b_ml_rep.
    - now apply bm_ml_rep.
    - now apply Db_ml_rep.
    - intros f i Hf Hi. replace r with (Z.of_nat (Z.to_nat r)) at 1 by lia. now apply id_pl_value.
    - intros f i Hf Hi. destruct D as [D1 D2].
      pose proof (id_ml_transpose Gam (lam - 2 * IZR r) f i (Z.to_nat r) D1 Hf Hi) as T.
      rewrite Z2Nat.id in T by exact D2.
      replace (lam - 2 * IZR r + 2 * IZR r)%R with lam in T by ring. rewrite T.
      replace r with (Z.of_nat (Z.to_nat r)) at 2 by lia. rewrite id_pl_value by assumption. reflexivity.
    - eexists. split; [reflexivity|]. cbn [eye nrows ncols ent]. split; [reflexivity|]. split; [reflexivity|].
      intros x y Hx Hy. unfold rid. replace (a + x =? a + y) with (x =? y) by lia. reflexivity.
  Qed.

  (** ** Bands *)

  (** Row f has no entry beyond column f + r. *)
  Definition row_reach (e : elem) : option Z :=
    match e with
    | M_S0 | M_Sp | M_b_ml | M_bm_pl | M_eye => Some 0
    | M_Sm | M_b2 | M_bDb | M_b_pl | M_Db_pl => Some 1
    | M_id_pl r => Some r
    | _ => None
    end.
  (** Column i has no entry below row i + c. *)
  Definition col_reach (e : elem) : option Z :=
    match e with
    | M_S0 | M_Sm | M_b_pl | M_bm_ml | M_eye => Some 0
    | M_Sp | M_b2 | M_bDb | M_b_ml | M_Db_ml => Some 1
    | M_id_ml r => Some r
    | _ => None
    end.

  Lemma row_reach_nonneg e lam r : elem_dom e lam -> row_reach e = Some r -> 0 <= r.
  Proof. destruct e; cbn; intros D E; inversion E; subst; lia. Qed.
  Lemma col_reach_nonneg e lam r : elem_dom e lam -> col_reach e = Some r -> 0 <= r.
  Proof. destruct e; cbn; intros D E; inversion E; subst; lia. Qed.

  Ltac band := repeat match goal with |- context [if ?b then _ else _] =>
                 let E := fresh in destruct b eqn:E; try (exfalso; lia) end; try ring; try reflexivity.

  Lemma row_reach_ok e lam r f i : elem_dom e lam -> row_reach e = Some r -> f + r < i ->
    elem_val e lam f i = 0%R.
  Proof.
    intros D E H. destruct e; cbn in *; inversion E; subst; try contradiction;
      unfold v_Sm, v_S0, v_Sp, v_b2, v_bDb, v_b_pl, v_Db_pl, v_bm_pl, v_b_ml, rid; band.
    unfold v_id. rewrite Qx_band by lia. ring.
  Qed.

  Lemma col_reach_ok e lam r f i : elem_dom e lam -> col_reach e = Some r -> i + r < f ->
    elem_val e lam f i = 0%R.
  Proof.
    intros D E H. destruct e; cbn in *; inversion E; subst; try contradiction;
      unfold v_Sm, v_S0, v_Sp, v_b2, v_bDb, v_b_pl, v_Db_ml, v_bm_ml, v_b_ml, rid; band.
    unfold rtr, v_id. rewrite Qx_band by lia. ring.
  Qed.

  (** ** Products *)

  Definition vals (l : list (elem * R)) : list rmat := map (fun x => elem_val (fst x) (snd x)) l.
  Definition doms (l : list (elem * R)) : Prop := Forall (fun x => elem_dom (fst x) (snd x)) l.

  Fixpoint col_sum (l : list elem) : option Z :=
    match l with
    | [] => Some 0
    | e :: l' => match col_reach e, col_sum l' with Some c, Some t => Some (c + t) | _, _ => None end
    end.

  (** Overlap beyond which the product of these factors is exact, if any. *)
  Fixpoint reach (l : list elem) : option Z :=
    match l with
    | [] => Some 0
    | e :: l' =>
        match l' with
        | [] => Some 0
        | _ => match col_sum l' with
               | Some t => Some t
               | None => match row_reach e, reach l' with
                         | Some r, Some t => Some (r + t)
                         | _, _ => None
                         end
               end
        end
    end.

  Lemma col_sum_nonneg l c : doms l -> col_sum (map fst l) = Some c -> 0 <= c.
  Proof.
    revert c. induction l as [|x l IH]; cbn [map col_sum]; intros c D E; [inversion E; lia|].
    inversion D; subst. destruct (col_reach (fst x)) as [c1|] eqn:E1; [|discriminate].
    destruct (col_sum (map fst l)) as [t|] eqn:E2; [|discriminate]. inversion E; subst.
    pose proof (col_reach_nonneg _ _ _ H1 E1). specialize (IH t H2 eq_refl). lia.
  Qed.

  Lemma reach_nonneg l c : doms l -> reach (map fst l) = Some c -> 0 <= c.
  Proof.
    revert c. induction l as [|x l IH]; intros c D E; [inversion E; lia|].
    inversion D as [|? ? D1 D2]; subst.
    destruct l as [|y l']; [inversion E; lia|].
    change (reach (map fst (x :: y :: l'))) with
      (match col_sum (map fst (y :: l')) with Some t => Some t
       | None => match row_reach (fst x), reach (map fst (y :: l')) with
                 | Some r, Some t => Some (r + t) | _, _ => None end end) in E.
    destruct (col_sum (map fst (y :: l'))) as [t|] eqn:Et.
    - inversion E; subst. exact (col_sum_nonneg _ _ D2 Et).
    - destruct (row_reach (fst x)) as [r|] eqn:Er; [|discriminate].
      destruct (reach (map fst (y :: l'))) as [t|] eqn:Er2; [|discriminate]. inversion E; subst.
      pose proof (row_reach_nonneg _ _ _ D1 Er). specialize (IH t D2 eq_refl). lia.
  Qed.

  Lemma rprod_cons V l N f i : l <> [] ->
    rprod (V :: l) N f i = rsum (fun k => (V f k * rprod l N k i)%R) N.
  Proof. destruct l; [congruence|reflexivity]. Qed.

  (** A column-banded tail: nothing below row i + c, and no truncation error. *)
  Lemma tail_exact l c i N N' : doms l -> l <> [] -> col_sum (map fst l) = Some c -> 0 <= i ->
    i + c + 1 <= Z.of_nat N -> i + c + 1 <= Z.of_nat N' ->
    forall k, 0 <= k -> rprod (vals l) N k i = rprod (vals l) N' k i
      /\ (i + c < k -> rprod (vals l) N k i = 0%R).
  Proof.
    revert c. induction l as [|x l IH]; intros c D Hne E Hi HN HN' k Hk; [congruence|].
    inversion D as [|? ? D1 D2]; subst. cbn [map col_sum] in E.
    destruct (col_reach (fst x)) as [c1|] eqn:E1; [|discriminate].
    destruct (col_sum (map fst l)) as [t|] eqn:E2; [|discriminate].
    assert (c = c1 + t) by (inversion E; reflexivity). subst c.
    pose proof (col_reach_nonneg _ _ _ D1 E1) as N1. pose proof (col_sum_nonneg _ _ D2 E2) as N2.
    destruct l as [|y l'].
    { cbn [vals map rprod]. cbn in E2. inversion E2; subst t. split; [reflexivity|].
      intros H. apply (col_reach_ok _ _ c1); [assumption|assumption|lia]. }
    assert (Hne' : vals (y :: l') <> []) by discriminate.
    change (vals (x :: y :: l')) with (elem_val (fst x) (snd x) :: vals (y :: l')).
    rewrite !rprod_cons by exact Hne'.
    assert (IHN : forall k', 0 <= k' -> rprod (vals (y :: l')) N k' i = rprod (vals (y :: l')) N' k' i
      /\ (i + t < k' -> rprod (vals (y :: l')) N k' i = 0%R)).
    { intros k' Hk'. apply (IH t D2); try assumption; try reflexivity; try lia. discriminate. }
    assert (CUT : forall M, i + t + 1 <= Z.of_nat M ->
      rsum (fun k0 => (elem_val (fst x) (snd x) k k0 * rprod (vals (y :: l')) N k0 i)%R) M
      = rsum (fun k0 => (elem_val (fst x) (snd x) k k0 * rprod (vals (y :: l')) N k0 i)%R) (Z.to_nat (i + t + 1))).
    { intros M HM. apply rsum_cut; [lia|]. intros k0 Hk0.
      rewrite (proj2 (IHN k0 ltac:(lia))) by lia. ring. }
    split.
    - rewrite CUT by lia. symmetry.
      rewrite (rsum_ext _ (fun k0 => (elem_val (fst x) (snd x) k k0 * rprod (vals (y :: l')) N k0 i)%R)).
      + apply CUT. lia.
      + intros k0 Hk0. now rewrite (proj1 (IHN k0 ltac:(lia))).
    - intros H. rewrite CUT by lia. apply rsum_zero. intros k0 Hk0.
      rewrite (col_reach_ok _ _ c1) by (assumption || lia). ring.
  Qed.

  (** The product does not depend on the truncation once N is large enough. *)
  Lemma rprod_exact l t : doms l -> reach (map fst l) = Some t ->
    forall f i N N', 0 <= f -> 0 <= i -> Z.max f i + t + 1 <= Z.of_nat N -> Z.max f i + t + 1 <= Z.of_nat N' ->
    rprod (vals l) N f i = rprod (vals l) N' f i.
  Proof.
    revert t. induction l as [|x l IH]; intros t D E f i N N' Hf Hi HN HN'; [reflexivity|].
    inversion D as [|? ? D1 D2]; subst.
    destruct l as [|y l']; [reflexivity|].
    change (reach (map fst (x :: y :: l'))) with
      (match col_sum (map fst (y :: l')) with Some t => Some t
       | None => match row_reach (fst x), reach (map fst (y :: l')) with
                 | Some r, Some t => Some (r + t) | _, _ => None end end) in E.
    assert (Hne' : vals (y :: l') <> []) by discriminate.
    change (vals (x :: y :: l')) with (elem_val (fst x) (snd x) :: vals (y :: l')).
    rewrite !rprod_cons by exact Hne'.
    destruct (col_sum (map fst (y :: l'))) as [c|] eqn:Ec.
    - assert (c = t) by (inversion E; reflexivity). subst c.
      pose proof (col_sum_nonneg _ _ D2 Ec) as Nc.
      assert (T : forall k, 0 <= k -> rprod (vals (y :: l')) N k i = rprod (vals (y :: l')) N' k i
         /\ (i + t < k -> rprod (vals (y :: l')) N k i = 0%R)).
      { apply tail_exact; try assumption; try lia. discriminate. }
      assert (CUT : forall M, i + t + 1 <= Z.of_nat M ->
        rsum (fun k0 => (elem_val (fst x) (snd x) f k0 * rprod (vals (y :: l')) N k0 i)%R) M
        = rsum (fun k0 => (elem_val (fst x) (snd x) f k0 * rprod (vals (y :: l')) N k0 i)%R) (Z.to_nat (i + t + 1))).
      { intros M HM. apply rsum_cut; [lia|]. intros k0 Hk0. rewrite (proj2 (T k0 ltac:(lia))) by lia. ring. }
      rewrite CUT by lia. symmetry.
      rewrite (rsum_ext _ (fun k0 => (elem_val (fst x) (snd x) f k0 * rprod (vals (y :: l')) N k0 i)%R)).
      + apply CUT. lia.
      + intros k0 Hk0. now rewrite (proj1 (T k0 ltac:(lia))).
    - destruct (row_reach (fst x)) as [r|] eqn:Er; [|discriminate].
      destruct (reach (map fst (y :: l'))) as [t'|] eqn:Er2; [|discriminate].
      assert (t = r + t') by (inversion E; reflexivity). subst t.
      pose proof (row_reach_nonneg _ _ _ D1 Er) as Nr. pose proof (reach_nonneg _ _ D2 Er2) as Nt.
      assert (CUT : forall M P, f + r + 1 <= Z.of_nat M ->
        rsum (fun k0 => (elem_val (fst x) (snd x) f k0 * rprod (vals (y :: l')) P k0 i)%R) M
        = rsum (fun k0 => (elem_val (fst x) (snd x) f k0 * rprod (vals (y :: l')) P k0 i)%R) (Z.to_nat (f + r + 1))).
      { intros M P HM. apply rsum_cut; [lia|]. intros k0 Hk0. rewrite (row_reach_ok _ _ r) by (assumption || lia). ring. }
      rewrite (CUT N N), (CUT N' N') by lia. apply rsum_ext. intros k0 Hk0.
      rewrite (IH t' D2 eq_refl k0 i N N') by lia. reflexivity.
  Qed.

  (** ** Computed matrices *)

  (** A factor of one analytic elementary matrix. *)
  Definition plain (lambdaa : R) (f : factor) (x : elem * R) : Prop :=
    elem_dom (fst x) (snd x) /\ exists o, f_elems f = [(fst x, o)] /\ snd x = (lambdaa + IZR o)%R.

  Definition weight (an : R) (fs : list factor) : R :=
    fold_right (fun f acc => (powerRZ an (f_pow f) * acc)%R) 1%R fs.

  Lemma plain_doms lambdaa fs l : Forall2 (plain lambdaa) fs l -> doms l.
  Proof. induction 1 as [|f x fs l [H _]]; constructor; assumption. Qed.

  Lemma factor_mat_plain an lambdaa a b f x : plain lambdaa f x -> 0 <= a <= b ->
    radial_matrix (factor_mat Rep an lambdaa a b f) a b
      (fun i j => (powerRZ an (f_pow f) * elem_val (fst x) (snd x) i j)%R).
  Proof.
    intros (D & o & E & L) H. unfold factor_mat. rewrite E. cbn [mapM fst snd].
    rewrite <- L. destruct (elem_rep (fst x) (snd x) a b D H) as (m & -> & A & B & C).
    cbn [bind mprod]. eexists. split; [reflexivity|]. cbn [mscale nrows ncols ent].
    split; [exact A|]. split; [exact B|]. intros i j Hi Hj. now rewrite C.
  Qed.

  Lemma factors_rep an lambdaa b fs l : Forall2 (plain lambdaa) fs l -> fs <> [] -> 0 <= b ->
    radial_matrix (factors_mat Rep an lambdaa 0 b fs) 0 b
      (fun f i => (weight an fs * rprod (vals l) (Z.to_nat (b + 1)) f i)%R).
  Proof.
    intros P Hne Hb. unfold factors_mat. induction P as [|f x fs l Hx P IH]; [congruence|]. clear Hne.
    cbn [mapM]. destruct (factor_mat_plain an lambdaa 0 b f x Hx ltac:(lia)) as (m & -> & A & B & C).
    cbn [bind].
    destruct fs as [|f2 fs'].
    { inversion P; subst. cbn [mapM bind mprod]. eexists. split; [reflexivity|]. split; [exact A|].
      split; [exact B|]. intros i j Hi Hj. rewrite C by assumption. cbn [weight fold_right vals map rprod]. ring. }
    destruct l as [|x2 l']; [inversion P|].
    destruct (IH ltac:(discriminate)) as (m2 & E2 & A2 & B2 & C2).
    destruct (mapM (factor_mat Rep an lambdaa 0 b) (f2 :: fs')) as [ms|] eqn:EM; [|discriminate E2].
    cbn [bind] in E2 |- *.
    destruct ms as [|m' ms']; [discriminate E2|].
    change (mprod (m :: m' :: ms')) with (let* p := mprod (m' :: ms') in matmul m p). rewrite E2. cbn [bind].
    unfold matmul. rewrite B, A2, Z.eqb_refl. eexists. split; [reflexivity|]. cbn [nrows ncols ent].
    split; [exact A|]. split; [exact B2|]. intros i j Hi Hj.
    change (vals (x :: x2 :: l')) with (elem_val (fst x) (snd x) :: vals (x2 :: l')).
    rewrite rprod_cons by discriminate. cbn [weight fold_right]. fold (weight an (f2 :: fs')).
    replace (Z.to_nat (b - 0 + 1)) with (Z.to_nat (b + 1)) by lia.
    rewrite (rsum_ext _ (fun k => (powerRZ an (f_pow f) * weight an (f2 :: fs')
      * (elem_val (fst x) (snd x) (0 + i)%Z k * rprod (vals (x2 :: l')) (Z.to_nat (b + 1)) k (0 + j)%Z))%R)).
    - rewrite rsum_scal. reflexivity.
    - intros k Hk. rewrite C, C2 by lia. change (0 + k) with k. ring.
  Qed.

  Definition exact_val (an : R) (fs : list factor) (l : list (elem * R)) (t : Z) : rmat :=
    fun f i => (weight an fs * rprod (vals l) (Z.to_nat (Z.max f i + t + 1)) f i)%R.

  Lemma Prod_exact w an lambdaa var fs l t :
    RepRadial_Prod_factors w lambdaa var = Ok fs -> Forall2 (plain lambdaa) fs l -> fs <> [] ->
    reach (map fst l) = Some t ->
    forall n0 N lap, 0 <= n0 <= N -> n0 <= lap -> t <= lap ->
      radial_matrix (RepRadial_Prod Gam Msqrt Minv w an lambdaa var n0 N lap) n0 N (exact_val an fs l t).
  Proof.
    intros EF P Hne ER n0 N lap Hn Hl Ht. unfold RepRadial_Prod, RepRadial_Prod_common. rewrite EF. cbn [bind].
    pose proof (plain_doms _ _ _ P) as D. pose proof (reach_nonneg _ _ D ER) as Nt.
    replace (Z.min lap n0) with n0 by lia. replace (n0 - n0) with 0 by lia.
    destruct (factors_rep an lambdaa (N + lap) fs l P Hne ltac:(lia)) as (m & EM & A & B & C).
    unfold Rep in EM. rewrite EM. cbn [bind].
    assert (V : forall f i, 0 <= f <= N -> 0 <= i <= N -> ent m f i = exact_val an fs l t f i).
    { intros f i Hf Hi. rewrite C by lia. change (0 + f) with f. change (0 + i) with i. unfold exact_val. f_equal.
      apply (rprod_exact l t D ER); lia. }
    destruct (Z.eqb_spec lap 0) as [->|Hlap].
    - exists m. split; [reflexivity|]. split; [lia|]. split; [lia|]. intros x y Hx Hy.
      replace n0 with 0 by lia. apply V; lia.
    - eexists. split; [reflexivity|]. unfold slice. cbn [nrows ncols ent]. rewrite A, B. unfold slice_bound.
      repeat match goal with |- context [if ?b then _ else _] => destruct b eqn:?; try (exfalso; lia) end.
      split; [lia|]. split; [lia|]. intros x y Hx Hy.
      replace (Z.min n0 (N + lap - 0 + 1) + x) with (n0 + x) by lia.
      replace (Z.min n0 (N + lap - 0 + 1) + y) with (n0 + y) by lia. apply V; lia.
  Qed.

  (** One factor: exact for any overlap. *)
  Lemma Prod_single w an lambdaa var f x :
    RepRadial_Prod_factors w lambdaa var = Ok [f] -> plain lambdaa f x ->
    forall n0 N lap, 0 <= n0 <= N -> 0 <= lap ->
      radial_matrix (RepRadial_Prod Gam Msqrt Minv w an lambdaa var n0 N lap) n0 N
        (fun i j => (powerRZ an (f_pow f) * elem_val (fst x) (snd x) i j)%R).
  Proof.
    intros EF P n0 N lap Hn Hl. unfold RepRadial_Prod, RepRadial_Prod_common. rewrite EF. cbn [bind].
    unfold factors_mat. cbn [mapM].
    destruct (factor_mat_plain an lambdaa (n0 - Z.min lap n0) (N + lap) f x P ltac:(lia)) as (m & EM & A & B & C).
    unfold Rep in EM. rewrite EM. cbn [bind mprod].
    destruct (Z.eqb_spec lap 0) as [->|Hlap].
    - exists m. split; [reflexivity|]. split; [lia|]. split; [lia|]. intros i j Hi Hj. rewrite C by lia.
      f_equal; f_equal; lia.
    - eexists. split; [reflexivity|]. unfold slice. cbn [nrows ncols ent]. rewrite A, B. unfold slice_bound.
      repeat match goal with |- context [if ?b then _ else _] => destruct b eqn:?; try (exfalso; lia) end.
      split; [lia|]. split; [lia|]. intros i j Hi Hj. rewrite C by lia. f_equal; f_equal; lia.
  Qed.
End Exact.
