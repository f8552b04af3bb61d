(** C30 and C51: matrices of spherical harmonics and of the diagonal factors. *)

From Coq Require Import Reals Lra.
From Coq Require Import Lia ZifyBool ZifyNat.
From Verif Require Import PyBase PyFacts Compat Text SphericalSpec Spherical SphericalFacts PropsSpherical Matrix RadialME
  RadialMEFacts IdFacts CG CGSpec CGFacts PropsCG CGSO3 CGSO3Facts AngMom Operators ReducedSpec ReducedFacts PropsReduced.
Open Scope Z_scope.
Ltac Zify.zify_post_hook ::= Z.div_mod_to_equations.

(** ** C30 *)
Lemma zlen_map {A B} (f : A -> B) l : zlen (map f l) = zlen l.
Proof. unfold zlen. now rewrite map_length. Qed.

Lemma diag_entry {A} (f : A -> R) l i j x :
  0 <= i -> 0 <= j -> nth_error l (Z.to_nat i) = Some x ->
  ent (mat_diag (map f l)) i j = if i =? j then f x else 0%R.
Proof.
  intros Hi Hj E. cbn [mat_diag ent]. destruct (i =? j); [|reflexivity].
  apply nth_error_nth. now apply map_nth_error.
Qed.

Definition sqLdim_value (s : label) : R := let '(_, _, L) := s in (- sqrt (IZR (2 * L + 1)))%R.
Definition sqLdiv_value (s : label) : R := let '(_, _, L) := s in (powerRZ (-1) L / sqrt (IZR (2 * L + 1)))%R.

Lemma sqLdim_ok v_min v_max L_min L_max : 0 <= v_min <= v_max -> 0 <= L_min <= L_max ->
  RepSO5_sqLdim v_min v_max L_min L_max = Ok (mat_diag (map sqLdim_value (lbs v_min v_max L_min L_max))).
Proof.
  intros Hv HL. unfold RepSO5_sqLdim. rewrite lbs_rngVvarL_some by assumption. cbn [bind].
  rewrite (mapM_ok _ sqLdim_value); [reflexivity|]. intros [[v a] L] Hin.
  apply lbs_enumerates in Hin. unfold dimSO3. rewrite require_nonnegint_ok by lia. cbn [bind].
  unfold math_sqrt. destruct (Rlt_dec (IZR (2 * L + 1)) 0) as [C|_].
  - exfalso. apply (lt_IZR _ 0) in C. lia.
  - cbn [bind]. f_equal. unfold sqLdim_value.
    assert (E1 : powerRZ 1 L = 1%R).
    { destruct L; cbn [powerRZ]; rewrite ?pow1; try reflexivity. apply Rinv_1. }
    rewrite E1. ring.
Qed.

Lemma sqLdiv_ok v_min v_max L_min L_max : 0 <= v_min <= v_max -> 0 <= L_min <= L_max ->
  RepSO5_sqLdiv v_min v_max L_min L_max = Ok (mat_diag (map sqLdiv_value (lbs v_min v_max L_min L_max))).
Proof.
  intros Hv HL. unfold RepSO5_sqLdiv. rewrite lbs_rngVvarL_some by assumption. cbn [bind].
  rewrite (mapM_ok _ sqLdiv_value); [reflexivity|]. intros [[v a] L] Hin.
  apply lbs_enumerates in Hin. unfold dimSO3. rewrite require_nonnegint_ok by lia. reflexivity.
Qed.

(** Both matrices are square, of the number of labels, diagonal; sqLdiv has
    (-1)^L/sqrt(2L+1) and sqLdim -sqrt(2L+1) at a label (v, a, L). *)
Theorem C30_diagonals : forall v_min v_max L_min L_max l,
  0 <= v_min <= v_max -> 0 <= L_min <= L_max ->
  lbsSO5r3_rngVvarL v_min v_max L_min (Some L_max) = Ok l ->
  exists M N, RepSO5_sqLdim v_min v_max L_min L_max = Ok M /\
    RepSO5_sqLdiv v_min v_max L_min L_max = Ok N /\
    nrows M = zlen l /\ ncols M = zlen l /\ nrows N = zlen l /\ ncols N = zlen l /\
    forall i j v a L, 0 <= i -> 0 <= j -> nth_error l (Z.to_nat i) = Some (v, a, L) ->
      ent M i j = (if i =? j then - sqrt (IZR (2 * L + 1)) else 0)%R /\
      ent N i j = (if i =? j then powerRZ (-1) L / sqrt (IZR (2 * L + 1)) else 0)%R.
Proof.
  intros v_min v_max L_min L_max l Hv HL E. rewrite lbs_rngVvarL_some in E by assumption.
  injection E as <-. eexists. eexists. split; [now apply sqLdim_ok|]. split; [now apply sqLdiv_ok|].
  cbn [mat_diag nrows ncols]. rewrite !zlen_map. split; [reflexivity|]. split; [reflexivity|].
  split; [reflexivity|]. split; [reflexivity|]. intros i j v a L Hi Hj Hn.
  split; rewrite (diag_entry _ _ _ _ _ Hi Hj Hn); reflexivity.
Qed.

(** Their product is diagonal, 1 for odd L and -1 for even L. *)
Theorem C30_product : forall v_min v_max L_min L_max l M N,
  0 <= v_min <= v_max -> 0 <= L_min <= L_max ->
  lbsSO5r3_rngVvarL v_min v_max L_min (Some L_max) = Ok l ->
  RepSO5_sqLdim v_min v_max L_min L_max = Ok M ->
  RepSO5_sqLdiv v_min v_max L_min L_max = Ok N ->
  exists P, matmul M N = Ok P /\
    forall i j v a L, 0 <= i < zlen l -> 0 <= j < zlen l -> nth_error l (Z.to_nat i) = Some (v, a, L) ->
      ent P i j = (if i =? j then if Z.odd L then 1 else -1 else 0)%R.
Proof.
  intros v_min v_max L_min L_max l M N Hv HL El EM EN.
  destruct (C30_diagonals v_min v_max L_min L_max l Hv HL El) as (M' & N' & A & B & d1 & d2 & d3 & d4 & H).
  rewrite EM in A. injection A as <-. rewrite EN in B. injection B as <-.
  unfold matmul. rewrite d2, d3, Z.eqb_refl. eexists. split; [reflexivity|].
  intros i j v a L Hi Hj Hn. cbn [ent].
  rewrite (rsum_single _ _ i); [|lia|].
  - destruct (H i i v a L) as [-> _]; [lia|lia|exact Hn|]. destruct (H i j v a L) as [_ ->]; [lia|lia|exact Hn|].
    rewrite Z.eqb_refl. destruct (i =? j); [|ring].
    assert (In (v, a, L) l) as Hin by (eapply nth_error_In; exact Hn).
    rewrite lbs_rngVvarL_some in El by assumption. injection El as <-. apply lbs_enumerates in Hin.
    assert (S : (0 < sqrt (IZR (2 * L + 1)))%R) by (apply sqrt_lt_R0; apply (IZR_lt 0); lia).
    assert (E : powerRZ (-1) L = if Z.odd L then (-1)%R else 1%R).
    { change (powerRZ (-1) L) with (m1pow L). rewrite m1pow_sg. unfold sg. rewrite <- Z.negb_odd.
      now destruct (Z.odd L). }
    rewrite E. destruct (Z.odd L); field; lra.
  - intros k Hk Hne. destruct (H i k v a L) as [-> _]; [lia|lia|exact Hn|].
    replace (i =? k) with false by lia. ring.
Qed.

(** The documented sqLdim, (-1)^L sqrt(2L+1), is not what is computed. *)
Theorem C30_sqLdim_sign_refuted :
  ~ (forall v_min v_max L_min L_max l M, 0 <= v_min <= v_max -> 0 <= L_min <= L_max ->
     lbsSO5r3_rngVvarL v_min v_max L_min (Some L_max) = Ok l ->
     RepSO5_sqLdim v_min v_max L_min L_max = Ok M ->
     forall i v a L, 0 <= i -> nth_error l (Z.to_nat i) = Some (v, a, L) ->
       ent M i i = (powerRZ (-1) L * sqrt (IZR (2 * L + 1)))%R).
Proof.
  intros H.
  destruct (C30_diagonals 0 0 0 0 [(0, 1, 0)] ltac:(lia) ltac:(lia) eq_refl) as (M & N & A & _ & _ & _ & _ & _ & D).
  specialize (H 0 0 0 0 [(0, 1, 0)] M ltac:(lia) ltac:(lia) eq_refl A 0 0 1 0 ltac:(lia) eq_refl).
  destruct (D 0 0 0 1 0 ltac:(lia) ltac:(lia) eq_refl) as [D1 _]. rewrite D1 in H. cbn [Z.eqb] in H.
  change (IZR (2 * 0 + 1)) with 1%R in H. rewrite sqrt_1 in H. cbn [powerRZ] in H. lra.
Qed.

Example C30_case : lbsSO5r3_rngVvarL 3 4 2 (Some 4) = Ok [(4, 1, 2); (3, 1, 3); (3, 1, 4); (4, 1, 4)].
Proof. reflexivity. Qed.

(** ** C51 *)
Section C51.
  Variable files : text -> res (list R).
  Variable home : text.
  Variable st : cg_state.

  (** The coefficients as they are in the state [st] of their cache. *)
  Definition CG_at (v1 a1 L1 v2 a2 L2 v3 a3 L3 : Z) : res R :=
    fst (CG_SO5r3 files home st v1 a1 L1 v2 a2 L2 v3 a3 L3).

  Lemma me_transpose u w v : 0 <= u -> 0 <= w -> 0 <= v ->
    (sqrt (dim5 u) * me u w v = sqrt (dim5 v) * me v w u)%R.
  Proof.
    intros Hu Hw Hv. destruct (me_ok u w v Hu Hw Hv) as (_ & P & _). destruct (me_ok v w u Hv Hw Hu) as (_ & Q & _).
    assert (D : forall x, 0 <= x -> (0 <= dim5 x)%R).
    { intros x Hx. unfold dim5. apply Rmult_le_pos; [|lra].
      apply Rmult_le_pos; [apply Rmult_le_pos|]; apply IZR_le; lia. }
    apply sq_eq; [apply Rmult_le_pos; [apply sqrt_pos|exact P]|apply Rmult_le_pos; [apply sqrt_pos|exact Q]|].
    pose proof (C29_transpose u w v Hu Hw Hv) as E. cbn [pow] in E. rewrite !Rmult_1_r in E.
    pose proof (sqrt_sqrt (dim5 u) (D u Hu)) as S1. pose proof (sqrt_sqrt (dim5 v) (D v Hv)) as S2.
    transitivity (sqrt (dim5 u) * sqrt (dim5 u) * (me u w v * me u w v))%R; [ring|].
    transitivity (sqrt (dim5 v) * sqrt (dim5 v) * (me v w u * me v w u))%R; [|ring].
    rewrite S1, S2. exact E.
  Qed.

  (** Between states of different seniority the matrix elements of Y_(v a L)
      satisfy the hermiticity of the reduced matrix elements (or raise the same
      exception):
      sqrt(2L_f+1) <f||Y||i> = (-1)^(L_f+L-L_i) sqrt(2L_i+1) <i||Y||f>. *)
  Theorem C51_hermitian : forall v_f a_f L_f v a L v_i a_i L_i,
    0 <= v_f -> 1 <= a_f -> 0 <= L_f -> 0 <= v -> 1 <= a -> 0 <= L -> 0 <= v_i -> 1 <= a_i -> 0 <= L_i ->
    v_f <> v_i ->
    (exists e, ME_SO5r3 CG_at v_f a_f L_f v a L v_i a_i L_i = Raise e /\
               ME_SO5r3 CG_at v_i a_i L_i v a L v_f a_f L_f = Raise e) \/
    (exists x y, ME_SO5r3 CG_at v_f a_f L_f v a L v_i a_i L_i = Ok (Some x) /\
                 ME_SO5r3 CG_at v_i a_i L_i v a L v_f a_f L_f = Ok (Some y) /\
       (sqrt (IZR (2 * L_f + 1)) * x = powerRZ (-1) (L_f + L - L_i) * sqrt (IZR (2 * L_i + 1)) * y)%R).
  Proof.
    intros v_f a_f L_f v a L v_i a_i L_i Hf1 Hf2 Hf3 H1 H2 H3 Hi1 Hi2 Hi3 Hne.
    set (n := {| n_v1 := v_i; n_a1 := a_i; n_L1 := L_i; n_v2 := v; n_a2 := a; n_L2 := L;
                 n_v3 := v_f; n_a3 := a_f; n_L3 := L_f |}).
    pose proof (C12_exchange_symmetry files home st n) as X.
    specialize (X ltac:(unfold legal_nonet; cbn; lia) ltac:(cbn; congruence)).
    change (fst (CGn files home st n)) with (CG_at v_i a_i L_i v a L v_f a_f L_f) in X.
    change (fst (CGn files home st (exchange n))) with (CG_at v_f a_f L_f v a L v_i a_i L_i) in X.
    cbn [n n_L1 n_L2 n_L3 n_v1 n_v3] in X.
    destruct (me_ok v_f v v_i Hf1 H1 Hi1) as (E1 & _ & _). destruct (me_ok v_i v v_f Hi1 H1 Hf1) as (E2 & _ & _).
    unfold ME_SO5r3. rewrite E1, E2, X.
    destruct (CG_at v_f a_f L_f v a L v_i a_i L_i) as [y|e]; cbn [bind obind]; [right|left; eauto].
    eexists. eexists. split; [reflexivity|]. split; [reflexivity|].
    pose proof (me_transpose v_f v v_i Hf1 H1 Hi1) as T.
    assert (D : forall x, 0 <= x -> (0 < dim5 x)%R).
    { intros x Hx. unfold dim5. apply Rmult_lt_0_compat; [|lra].
      apply Rmult_lt_0_compat; [apply Rmult_lt_0_compat|]; apply (IZR_lt 0); lia. }
    pose proof (D v_f Hf1) as D1. pose proof (D v_i Hi1) as D2. clear D.
    assert (P1 : (0 < IZR (2 * L_f + 1))%R) by (apply (IZR_lt 0); lia).
    assert (P2 : (0 < IZR (2 * L_i + 1))%R) by (apply (IZR_lt 0); lia).
    rewrite sqrt_div by (try apply Rmult_lt_0_compat; try apply Rlt_le, Rmult_lt_0_compat; assumption).
    rewrite !sqrt_mult by lra.
    pose proof (sqrt_lt_R0 _ D1). pose proof (sqrt_lt_R0 _ D2). pose proof (sqrt_lt_R0 _ P1).
    transitivity (powerRZ (-1) (L_f + L - L_i) * sqrt (IZR (2 * L_i + 1)) * y
                  * (sqrt (dim5 v_f) * me v_f v v_i) / sqrt (dim5 v_i))%R; [field; lra|].
    rewrite T. field. lra.
  Qed.

  (** Selection rules of the harmonics. *)
  Theorem C51_selection : forall v_f a_f L_f v a L v_i a_i L_i x,
    0 <= v_f -> 1 <= a_f -> 0 <= L_f -> 0 <= v -> 1 <= a -> 0 <= L -> 0 <= v_i -> 1 <= a_i -> 0 <= L_i ->
    ME_SO5r3 CG_at v_f a_f L_f v a L v_i a_i L_i = Ok (Some x) -> x <> 0%R ->
    (v <= v_f + v_i /\ v_i <= v_f + v /\ v_f <= v_i + v /\ Z.Even (v_i + v + v_f)) /\
    (L <= L_f + L_i /\ L_i <= L_f + L /\ L_f <= L_i + L).
  Proof.
    intros v_f a_f L_f v a L v_i a_i L_i x Hf1 Hf2 Hf3 H1 H2 H3 Hi1 Hi2 Hi3 E N.
    set (n := {| n_v1 := v_i; n_a1 := a_i; n_L1 := L_i; n_v2 := v; n_a2 := a; n_L2 := L;
                 n_v3 := v_f; n_a3 := a_f; n_L3 := L_f |}).
    destruct (admissible_dec n) as [A|A].
    - destruct A as ((T1 & T2 & T3) & Ev & (T4 & T5 & T6) & _). cbn in *. repeat split; try lia. exact Ev.
    - exfalso. apply N. pose proof (C11_selection_rules files home st n ltac:(unfold legal_nonet; cbn; lia) A) as X.
      unfold ME_SO5r3 in E.
      assert (C0 : CG_at v_i a_i L_i v a L v_f a_f L_f = Ok 0%R).
      { change (CG_at v_i a_i L_i v a L v_f a_f L_f) with (fst (CGn files home st n)). now rewrite X. }
      rewrite C0 in E. destruct (me_ok v_f v v_i Hf1 H1 Hi1) as (E1 & _ & _). rewrite E1 in E.
      cbn [bind obind] in E. injection E as <-. ring.
  Qed.
End C51.

(** The matrix of Y has ME_SO5r3 of the labels in row and column. *)
Lemma mapM_Forall2 {A B} (f : A -> res B) l l' : mapM f l = Ok l' -> Forall2 (fun x y => f x = Ok y) l l'.
Proof.
  revert l'. induction l as [|x l IH]; intros l' E; cbn [mapM] in E.
  - injection E as <-. constructor.
  - apply bind_ok in E. destruct E as (y & E1 & E). apply bind_ok in E. destruct E as (ys & E2 & E).
    injection E as <-. constructor; [exact E1|now apply IH].
Qed.

Lemma Forall2_nth {A B} (P : A -> B -> Prop) l l' k x d :
  Forall2 P l l' -> nth_error l k = Some x -> P x (nth k l' d).
Proof.
  intros H. revert k. induction H as [|a b l l' Hab H IH]; intros k E; [destruct k; discriminate|].
  destruct k; cbn in *; [now injection E as <-|now apply IH].
Qed.

Theorem C51_matrix : forall CG v a L v_min v_max L_min L_max l M,
  lbsSO5r3_rngVvarL v_min v_max L_min (Some L_max) = Ok l ->
  RepSO5_Y CG v a L v_min v_max L_min L_max = Ok M ->
  nrows M = zlen l /\ ncols M = zlen l /\
  forall i j vf af Lf vi ai Li, 0 <= i -> 0 <= j ->
    nth_error l (Z.to_nat i) = Some (vf, af, Lf) -> nth_error l (Z.to_nat j) = Some (vi, ai, Li) ->
    ME_SO5r3 CG vf af Lf v a L vi ai Li = Ok (Some (ent M i j)).
Proof.
  intros CG v a L v_min v_max L_min L_max l M El E. unfold RepSO5_Y in E. rewrite El in E. cbn [bind] in E.
  apply bind_ok in E. destruct E as (rows & E & F). injection F as <-.
  apply mapM_Forall2 in E. cbn [mat_of_rows nrows ncols ent].
  split; [|split; [reflexivity|]].
  - unfold zlen. f_equal. clear - E. induction E; cbn; congruence.
  - intros i j vf af Lf vi ai Li Hi Hj Hn Hm.
    pose proof (Forall2_nth _ _ _ _ _ [] E Hn) as R. cbn beta iota in R.
    apply mapM_Forall2 in R. pose proof (Forall2_nth _ _ _ _ _ 0%R R Hm) as S. cbn beta iota in S.
    apply bind_ok in S. destruct S as (o & S1 & S2). rewrite S1. destruct o as [r|]; [|discriminate].
    cbn [to_float] in S2. injection S2 as ->. reflexivity.
Qed.

(** The matrix form of hermiticity. *)
Theorem C51_hermitian_matrix : forall files home st v a L v_min v_max L_min L_max l M,
  0 <= v_min <= v_max -> 0 <= L_min <= L_max -> 0 <= v -> 1 <= a -> 0 <= L ->
  lbsSO5r3_rngVvarL v_min v_max L_min (Some L_max) = Ok l ->
  RepSO5_Y (CG_at files home st) v a L v_min v_max L_min L_max = Ok M ->
  forall i j vi ai Li vj aj Lj, 0 <= i -> 0 <= j ->
    nth_error l (Z.to_nat i) = Some (vi, ai, Li) -> nth_error l (Z.to_nat j) = Some (vj, aj, Lj) ->
    vi <> vj ->
    (sqrt (IZR (2 * Li + 1)) * ent M i j
     = powerRZ (-1) (Li + L - Lj) * sqrt (IZR (2 * Lj + 1)) * ent M j i)%R.
Proof.
  intros files home st v a L v_min v_max L_min L_max l M Hv HL H1 H2 H3 El EM i j vi ai Li vj aj Lj Hi Hj Ei Ej Ne.
  destruct (C51_matrix _ _ _ _ _ _ _ _ _ _ El EM) as (_ & _ & H).
  pose proof (H i j _ _ _ _ _ _ Hi Hj Ei Ej) as A. pose proof (H j i _ _ _ _ _ _ Hj Hi Ej Ei) as B.
  rewrite lbs_rngVvarL_some in El by assumption. injection El as <-.
  apply nth_error_In in Ei. apply nth_error_In in Ej.
  apply lbs_enumerates in Ei. apply lbs_enumerates in Ej. unfold is_state in Ei, Ej.
  destruct (C51_hermitian files home st vi ai Li v a L vj aj Lj) as [(e & C & _)|(x & y & C & D & E)]; try lia.
  - rewrite A in C. discriminate.
  - rewrite A in C. rewrite B in D. injection C as <-. injection D as <-. exact E.
Qed.

(** *** Products *)
Definition mm (M N : mat R) : mat R :=
  mkMat (nrows M) (ncols N) (fun i j => rsum (fun k => (ent M i k * ent N k j)%R) (Z.to_nat (ncols M))).

Definition square (d : Z) (M : mat R) : Prop := nrows M = d /\ ncols M = d.

Lemma matmul_mm d M N : square d M -> square d N -> matmul M N = Ok (mm M N).
Proof. intros [A B] [C D]. unfold matmul. rewrite B, C, Z.eqb_refl. unfold mm. now rewrite B. Qed.

Lemma mm_square d M N : square d M -> square d N -> square d (mm M N).
Proof. intros [A B] [C D]. split; cbn; assumption. Qed.

Lemma mat_eq_refl (M : mat R) : mat_eq M M.
Proof. repeat split. Qed.

Lemma mat_eq_sym (M N : mat R) : mat_eq M N -> mat_eq N M.
Proof.
  intros (A & B & C). split; [congruence|]. split; [congruence|]. intros i j Hi Hj.
  symmetry. apply C; [now rewrite A|now rewrite B].
Qed.

Lemma mat_eq_trans (M N P : mat R) : mat_eq M N -> mat_eq N P -> mat_eq M P.
Proof.
  intros (A & B & C) (D & E & F). split; [congruence|]. split; [congruence|]. intros i j Hi Hj.
  rewrite C by assumption. apply F; [now rewrite <- A|now rewrite <- B].
Qed.

Lemma mm_ext d M N M' N' : square d M -> square d N -> mat_eq M M' -> mat_eq N N' -> mat_eq (mm M N) (mm M' N').
Proof.
  intros [A B] [C D] (E1 & E2 & E3) (F1 & F2 & F3). split; [exact E1|]. split; [exact F2|].
  cbn [mm nrows ncols ent]. intros i j Hi Hj. rewrite <- E2. apply rsum_ext. intros k Hk.
  rewrite E3 by lia. rewrite F3 by lia. reflexivity.
Qed.

Lemma mm_assoc d M N P : square d M -> square d N -> square d P -> mat_eq (mm (mm M N) P) (mm M (mm N P)).
Proof.
  intros [A B] [C D] [E F]. split; [reflexivity|]. split; [reflexivity|].
  cbn [mm nrows ncols ent]. intros i j Hi Hj. rewrite B, D.
  transitivity (rsum (fun k => rsum (fun l => (ent M i l * ent N l k * ent P k j)%R) (Z.to_nat d)) (Z.to_nat d)).
  - apply rsum_ext. intros k Hk. rewrite Rmult_comm, <- rsum_scal. apply rsum_ext. intros l Hl. ring.
  - rewrite rsum_swap. apply rsum_ext. intros l Hl. rewrite <- rsum_scal. apply rsum_ext. intros k Hk. ring.
Qed.

Lemma mm_eye_l d M : square d M -> mat_eq (mm (eye d) M) M.
Proof.
  intros [A B]. split; [cbn; now rewrite A|]. split; [reflexivity|].
  cbn [mm nrows ncols ent eye]. intros i j Hi Hj. rewrite (rsum_single _ _ i); [|lia|].
  - rewrite Z.eqb_refl. ring.
  - intros k Hk Hne. replace (i =? k) with false by lia. ring.
Qed.

Lemma mm_eye_r d M : square d M -> mat_eq (mm M (eye d)) M.
Proof.
  intros [A B]. split; [reflexivity|]. split; [cbn; now rewrite B|].
  cbn [mm nrows ncols ent eye]. intros i j Hi Hj. rewrite B, (rsum_single _ _ j); [|lia|].
  - rewrite Z.eqb_refl. ring.
  - intros k Hk Hne. replace (k =? j) with false by lia. ring.
Qed.

Lemma fold_mm_ext d Ms : Forall (square d) Ms -> forall A B, square d A -> mat_eq A B ->
  mat_eq (fold_left mm Ms A) (fold_left mm Ms B).
Proof.
  induction 1 as [|M Ms HM _ IH]; intros A B HA E; cbn [fold_left]; [exact E|].
  apply IH; [now apply mm_square|]. eapply mm_ext; eauto. apply mat_eq_refl.
Qed.

Lemma fold_mm_square d Ms : Forall (square d) Ms -> forall A, square d A -> square d (fold_left mm Ms A).
Proof. induction 1 as [|M Ms HM _ IH]; intros A HA; cbn [fold_left]; [exact HA|]. apply IH. now apply mm_square. Qed.

Lemma fold_mm_assoc d Ms : Forall (square d) Ms -> forall A B, square d A -> square d B ->
  mat_eq (fold_left mm Ms (mm A B)) (mm A (fold_left mm Ms B)).
Proof.
  induction 1 as [|M Ms HM HMs IH]; intros A B HA HB; cbn [fold_left]; [apply mat_eq_refl|].
  eapply mat_eq_trans; [|apply IH; [exact HA|now apply mm_square]].
  eapply fold_mm_ext; [exact HMs| |].
  - apply mm_square; [now apply mm_square|exact HM].
  - now apply (mm_assoc d).
Qed.

Section Products.
  Variable CG : Z -> Z -> Z -> Z -> Z -> Z -> Z -> Z -> Z -> res R.
  Variables v_min v_max L_min L_max : Z.
  Hypothesis Hv : 0 <= v_min <= v_max.
  Hypothesis HL : 0 <= L_min <= L_max.
  Let d := zlen (lbs v_min v_max L_min L_max).
  Let mat_of y := ys_mat CG y v_min v_max L_min L_max.
  Let prod ys := RepSO5r3_Prod CG ys v_min v_max L_min L_max.

  Lemma ys_mat_square y M : mat_of y = Ok M -> square d M.
  Proof.
    assert (Y : forall v a L, RepSO5_Y CG v a L v_min v_max L_min L_max = Ok M -> square d M).
    { intros v a L E. destruct (C51_matrix _ _ _ _ _ _ _ _ _ _ (lbs_rngVvarL_some _ _ _ _ Hv HL) E) as (A & B & _).
      now split. }
    unfold mat_of. destruct y as [s|v a L]; [|apply Y]. cbn [ys_mat].
    destruct s; try discriminate.
    - destruct (SpHarm_Table h) as [[v a] L]. apply Y.
    - rewrite sqLdim_ok by assumption. intros E. injection E as <-. split; cbn; apply zlen_map.
    - rewrite sqLdiv_ok by assumption. intros E. injection E as <-. split; cbn; apply zlen_map.
  Qed.

  Lemma fold_Raise ys e : fold_left (fun acc y => let* P := acc in let* M := mat_of y in matmul P M) ys (Raise e) = Raise e.
  Proof. induction ys as [|y ys IH]; [reflexivity|]. exact IH. Qed.

  Lemma fold_prod ys : forall A, square d A ->
    fold_left (fun acc y => let* P := acc in let* M := mat_of y in matmul P M) ys (Ok A)
    = (let* Ms := mapM mat_of ys in Ok (fold_left mm Ms A)).
  Proof.
    induction ys as [|y ys IH]; intros A HA; cbn [fold_left mapM bind]; [reflexivity|].
    destruct (mat_of y) as [M|e] eqn:E; cbn [bind]; [|apply fold_Raise].
    pose proof (ys_mat_square y M E) as HM. rewrite (matmul_mm d) by assumption.
    rewrite IH by now apply mm_square. destruct (mapM mat_of ys) as [Ms|e]; reflexivity.
  Qed.

  Lemma mats_square ys Ms : mapM mat_of ys = Ok Ms -> Forall (square d) Ms.
  Proof.
    intros E. apply mapM_Forall2 in E. induction E as [|y M ys Ms Hy _ IH]; constructor; [|exact IH].
    now apply (ys_mat_square y).
  Qed.

  Lemma prod_value ys : prod ys = (let* Ms := mapM mat_of ys in
    Ok (match Ms with [] => eye d | M :: Ms' => fold_left mm Ms' M end)).
  Proof.
    unfold prod. destruct ys as [|y ys]; cbn [RepSO5r3_Prod mapM bind].
    - destruct (C04_rngVvarL v_min v_max L_min L_max Hv HL) as (l & E & _ & D).
      rewrite lbs_rngVvarL_some in E by assumption. injection E as <-. rewrite D. reflexivity.
    - fold (mat_of y). destruct (mat_of y) as [M|e] eqn:E; cbn [bind]; [|reflexivity].
      change (fold_left (fun acc y => let* P := acc in let* M := mat_of y in matmul P M) ys (Ok M)
        = (let* Ms := let* bs := mapM mat_of ys in Ok (M :: bs) in
           Ok match Ms with [] => eye d | M :: Ms' => fold_left mm Ms' M end)).
      rewrite fold_prod by now apply (ys_mat_square y).
      destruct (mapM mat_of ys); reflexivity.
  Qed.

  (** A product of designators has a matrix exactly when each of them has. *)
  Theorem C51_product_defined : forall ys,
    (exists P, prod ys = Ok P) <-> (forall y, In y ys -> exists M, mat_of y = Ok M).
  Proof.
    intros ys. rewrite prod_value. split.
    - intros (P & E). apply bind_ok in E. destruct E as (Ms & E & _). apply mapM_Forall2 in E.
      induction E as [|y M ys Ms Hy _ IH]; [intros y []|]. intros z [<-|Hz]; [eauto|now apply IH].
    - intros H. assert (G : exists Ms, mapM mat_of ys = Ok Ms).
      { induction ys as [|y ys IH]; [eexists; reflexivity|]. destruct (H y) as (M & E); [now left|].
        destruct IH as (Ms & E2); [intros; apply H; now right|]. exists (M :: Ms). cbn [mapM]. now rewrite E, E2. }
      destruct G as (Ms & ->). eexists. reflexivity.
  Qed.

  (** The empty product is the identity, one designator gives its matrix, and
      the matrix of a concatenation is the matrix product, in this order. *)
  Theorem C51_product_nil : prod [] = Ok (eye d).
  Proof. rewrite prod_value. reflexivity. Qed.

  Theorem C51_product_single : forall y, prod [y] = mat_of y.
  Proof. intros y. rewrite prod_value. cbn [mapM bind]. now destruct (mat_of y). Qed.

  (** The matrix of each designator: a symbol of a harmonic or its triple of
      labels, and the two diagonal operators; no other symbol has one. *)
  Theorem C51_designators : forall y,
    prod [y] = match y with
               | YTriple v a L => RepSO5_Y CG v a L v_min v_max L_min L_max
               | YSym (OSph h) =>
                   RepSO5_Y CG (fst (fst (SpHarm_Table h))) (snd (fst (SpHarm_Table h))) (snd (SpHarm_Table h))
                     v_min v_max L_min L_max
               | YSym SpDiag_sqLdim => RepSO5_sqLdim v_min v_max L_min L_max
               | YSym SpDiag_sqLdiv => RepSO5_sqLdiv v_min v_max L_min L_max
               | YSym _ => Raise ValueError
               end.
  Proof.
    intros y. rewrite C51_product_single. destruct y as [[]|]; try reflexivity.
    unfold mat_of. cbn [ys_mat]. destruct (SpHarm_Table h) as [[v al] L]. reflexivity.
  Qed.

  Theorem C51_product_app : forall ys zs P Q, prod ys = Ok P -> prod zs = Ok Q ->
    exists T U, prod (ys ++ zs) = Ok T /\ matmul P Q = Ok U /\ mat_eq T U.
  Proof.
    intros ys zs P Q EP EQ. rewrite prod_value in EP, EQ.
    apply bind_ok in EP. destruct EP as (Ms & E1 & EP). apply bind_ok in EQ. destruct EQ as (Ns & E2 & EQ).
    pose proof (mats_square _ _ E1) as S1. pose proof (mats_square _ _ E2) as S2.
    assert (E : mapM mat_of (ys ++ zs) = Ok (Ms ++ Ns)).
    { clear EP EQ S1 S2. revert Ms E1. induction ys as [|y ys IH]; intros Ms E1; cbn [mapM app] in *.
      - injection E1 as <-. exact E2.
      - apply bind_ok in E1. destruct E1 as (M & F1 & E1). apply bind_ok in E1. destruct E1 as (Ms' & F2 & E1).
        injection E1 as <-. rewrite F1, (IH _ F2). reflexivity. }
    rewrite prod_value, E. cbn [bind].
    assert (SE : square d (eye d)) by (split; reflexivity).
    injection EP as <-. injection EQ as <-.
    destruct Ms as [|M Ms], Ns as [|N Ns]; cbn [app].
    - eexists. eexists. split; [reflexivity|]. rewrite (matmul_mm d) by assumption.
      split; [reflexivity|]. apply mat_eq_sym, mm_eye_l. exact SE.
    - inversion S2; subst. pose proof (fold_mm_square d Ns ltac:(assumption) N ltac:(assumption)) as SN.
      eexists. eexists. split; [reflexivity|]. rewrite (matmul_mm d) by assumption.
      split; [reflexivity|]. apply mat_eq_sym, mm_eye_l. exact SN.
    - inversion S1; subst. pose proof (fold_mm_square d Ms ltac:(assumption) M ltac:(assumption)) as SM.
      eexists. eexists. split; [reflexivity|]. rewrite (matmul_mm d) by assumption.
      split; [reflexivity|]. rewrite app_nil_r. apply mat_eq_sym, mm_eye_r. exact SM.
    - inversion S1; subst. inversion S2; subst.
      pose proof (fold_mm_square d Ms ltac:(assumption) M ltac:(assumption)) as SM.
      pose proof (fold_mm_square d Ns ltac:(assumption) N ltac:(assumption)) as SN.
      eexists. eexists. split; [reflexivity|]. rewrite (matmul_mm d) by assumption.
      split; [reflexivity|]. rewrite fold_left_app. cbn [fold_left]. now apply (fold_mm_assoc d).
  Qed.
End Products.

(** The scalar harmonic: sqrt 3 between any two labels with the same v and L,
    otherwise 0.  So it is sqrt 3 times the identity on labels without
    multiplicity, and not otherwise (C49). *)
Theorem C51_scalar_harmonic : forall files home h v_min v_max L_min L_max l,
  0 <= v_min <= v_max -> 0 <= L_min <= L_max ->
  lbsSO5r3_rngVvarL v_min v_max L_min (Some L_max) = Ok l ->
  exists M, RepSO5_Y (CG_at files home (cg_run files home cg_init h)) 0 1 0 v_min v_max L_min L_max = Ok M /\
    forall i j vf af Lf vi ai Li, 0 <= i -> 0 <= j ->
      nth_error l (Z.to_nat i) = Some (vf, af, Lf) -> nth_error l (Z.to_nat j) = Some (vi, ai, Li) ->
      ent M i j = if (vf =? vi) && (Lf =? Li) then sqrt 3 else 0%R.
Proof.
  intros files home h v_min v_max L_min L_max l Hv HL El.
  set (st := cg_run files home cg_init h).
  assert (V : forall vf af Lf vi ai Li, In (vf, af, Lf) l -> In (vi, ai, Li) l ->
    ME_SO5r3 (CG_at files home st) vf af Lf 0 1 0 vi ai Li
    = Ok (Some (if (vf =? vi) && (Lf =? Li) then sqrt 3 else 0%R))).
  { intros vf af Lf vi ai Li Hf Hi. rewrite lbs_rngVvarL_some in El by assumption. injection El as <-.
    apply lbs_enumerates in Hf. apply lbs_enumerates in Hi. unfold is_state in Hf, Hi.
    destruct (me_ok vf 0 vi) as (E1 & P & S); [lia|lia|lia|].
    destruct ((vf =? vi) && (Lf =? Li)) eqn:B.
    - assert (vf = vi) by lia. assert (Lf = Li) by lia. subst vf Lf.
      unfold ME_SO5r3, CG_at, st. rewrite C49_scalar_coupling_value by lia. cbn [bind]. rewrite E1. cbn [bind obind].
      rewrite Rmult_1_l. do 2 f_equal. apply sq_eq; [exact P|apply sqrt_pos|].
      rewrite sqrt_sqrt by lra. rewrite S, KK_0, Z.eqb_refl by lia.
      pose proof (IZR_le 0 vi ltac:(lia)). field. lra.
    - set (n := {| n_v1 := vi; n_a1 := ai; n_L1 := Li; n_v2 := 0; n_a2 := 1; n_L2 := 0;
                   n_v3 := vf; n_a3 := af; n_L3 := Lf |}).
      assert (C0 : CG_at files home st vi ai Li 0 1 0 vf af Lf = Ok 0%R).
      { change (CG_at files home st vi ai Li 0 1 0 vf af Lf) with (fst (CGn files home st n)).
        rewrite C11_selection_rules; [reflexivity|unfold legal_nonet; cbn; lia|].
        intros ((T1 & T2 & T3) & _ & (T4 & T5 & T6) & _). cbn in *. lia. }
      unfold ME_SO5r3. rewrite C0. cbn [bind]. rewrite E1. cbn [bind obind]. do 2 f_equal. ring. }
  unfold RepSO5_Y. rewrite El. cbn [bind].
  rewrite (mapM_ok _ (fun i : label => map (fun j : label => let '(vf, af, Lf) := i in let '(vi, ai, Li) := j in
      if (vf =? vi) && (Lf =? Li) then sqrt 3 else 0%R) l)).
  - cbn [bind]. eexists. split; [reflexivity|]. intros i j vf af Lf vi ai Li Hi Hj Ei Ej.
    cbn [mat_of_rows ent].
    rewrite (nth_error_nth _ _ [] (map_nth_error _ _ _ Ei)).
    rewrite (nth_error_nth _ _ 0%R (map_nth_error _ _ _ Ej)). reflexivity.
  - intros [[vf af] Lf] Hf. apply mapM_ok. intros [[vi ai] Li] Hi. rewrite V by assumption. reflexivity.
Qed.

(** The table of symbols has exactly the labels with v <= 6, each once. *)
Theorem C51_table_of_harmonics :
  (forall h h', SpHarm_Table h = SpHarm_Table h' -> h = h') /\
  (forall v a L, (exists h, SpHarm_Table h = (v, a, L)) <-> is_state (v, a, L) /\ v <= 6).
Proof.
  split.
  - intros h h' E. destruct h, h'; try reflexivity; discriminate.
  - assert (G : forall s, In s (lbs 0 6 0 12) <-> exists h, SpHarm_Table h = s).
    { intros s. split.
      - change (lbs 0 6 0 12) with (map SpHarm_Table [SpHarm_010; SpHarm_310; SpHarm_610; SpHarm_112; SpHarm_212; SpHarm_412; SpHarm_512; SpHarm_313;
          SpHarm_613; SpHarm_214; SpHarm_314; SpHarm_414; SpHarm_514; SpHarm_614; SpHarm_415; SpHarm_515;
          SpHarm_316; SpHarm_416; SpHarm_516; SpHarm_616; SpHarm_626; SpHarm_517; SpHarm_617; SpHarm_418;
          SpHarm_518; SpHarm_618; SpHarm_619; SpHarm_51A; SpHarm_61A; SpHarm_61C]).
        intros H. apply in_map_iff in H. destruct H as (h & E & _). eauto.
      - intros (h & <-). destruct h; cbv; tauto. }
    intros v a L. rewrite <- G. rewrite lbs_In. unfold is_state. split.
    + intros H. lia.
    + intros (H & Hv). destruct (Z_lt_le_dec v 0) as [B0|B0]; [rewrite mult_neg in H by lia; lia|].
      assert (0 <= L <= 2 * v); [|lia].
      destruct (Z_le_gt_dec L (2 * v)) as [B|B]; [|rewrite mult_out in H by lia; lia].
      destruct (Z_lt_le_dec L 0) as [B1|B1]; [rewrite mult_out in H by lia; lia|lia].
Qed.

(** NumSO5r3_Prod: the number of harmonics among the designators. *)
Definition is_harmonic (y : ysop) : bool :=
  match y with YTriple _ _ _ => true | YSym (OSph _) => true | YSym _ => false end.

Theorem C51_number_of_harmonics : forall ys,
  NumSO5r3_Prod ys = zlen (filter is_harmonic ys).
Proof.
  intros ys. unfold NumSO5r3_Prod.
  enough (G : forall x, fold_left (fun ct y => match y with YTriple _ _ _ => ct + 1 | YSym (OSph _) => ct + 1
    | YSym _ => ct end) ys x = x + zlen (filter is_harmonic ys)) by apply G.
  induction ys as [|y ys IH]; intros x; cbn [fold_left filter]; [unfold zlen; cbn; lia|].
  rewrite IH. destruct y as [[]|]; cbn [is_harmonic]; unfold zlen; cbn [length]; lia.
Qed.

(** A case with 0 < v and different seniorities: <1 1 2||Y112||0 1 0>. *)
Example C51_case : exists x,
  ME_SO5r3 (CG_at (fun _ => Ok [1%R]) [] cg_init) 1 1 2 1 1 2 0 1 0 = Ok (Some x) /\ (x * x = 3)%R /\
  lbsSO5r3_rngVvarL 0 1 0 (Some 2) = Ok [(0, 1, 0); (1, 1, 2)] /\
  exists M, RepSO5_Y (CG_at (fun _ => Ok [1%R]) [] cg_init) 0 1 0 0 1 0 2 = Ok M.
Proof.
  assert (C : CG_at (fun _ => Ok [1%R]) [] cg_init 0 1 0 1 1 2 1 1 2 = Ok 1%R) by reflexivity.
  destruct (proj1 (C29_Q 0 ltac:(lia))) as (q & m & A & B & D).
  exists m. split; [|split; [|split]].
  - unfold ME_SO5r3. rewrite C. change (0 + 1) with 1 in B. rewrite B. cbn [bind obind]. do 2 f_equal. ring.
  - destruct (sqrt_rational_ok 1 5 ltac:(lia) ltac:(lia)) as (q' & E & P & S).
    assert (q = q'); [|subst q'].
    { unfold Qred_p1 in A. cbn [require_nonnegint raise_if Z.ltb Z.compare bind] in A.
      change (0 + 1) with 1 in A. change (2 * 0 + 5) with 5 in A. rewrite E in A. now injection A. }
    assert (F : (m = sqrt 15 * q)%R).
    { rewrite D. assert (0 < sqrt 15)%R by (apply sqrt_lt_R0; lra). field. lra. }
    rewrite F. replace (sqrt 15 * q * (sqrt 15 * q))%R with (sqrt 15 * sqrt 15 * (q * q))%R by ring.
    rewrite sqrt_sqrt, S by lra. lra.
  - reflexivity.
  - destruct (C51_scalar_harmonic (fun _ => Ok [1%R]) [] [] 0 1 0 2 _ ltac:(lia) ltac:(lia) eq_refl) as (M & E & _).
    exists M. exact E.
Qed.

Print Assumptions C30_diagonals.
Print Assumptions C30_product.
Print Assumptions C30_sqLdim_sign_refuted.
Print Assumptions C51_hermitian.
Print Assumptions C51_selection.
Print Assumptions C51_matrix.
Print Assumptions C51_hermitian_matrix.
Print Assumptions C51_product_defined.
Print Assumptions C51_product_nil.
Print Assumptions C51_product_single.
Print Assumptions C51_designators.
Print Assumptions C51_table_of_harmonics.
Print Assumptions C51_product_app.
Print Assumptions C51_scalar_harmonic.
Print Assumptions C51_number_of_harmonics.
