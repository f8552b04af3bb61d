(** Property C31: the functions that give lambda in terms of the seniority. *)

From Coq Require Import Reals Lra Psatz.
From Coq Require Import Lia ZifyBool ZifyNat.
From Verif Require Import PyBase PyFacts Compat Settings.
Open Scope Z_scope.
Ltac Zify.zify_post_hook ::= Z.div_mod_to_equations.

(** ** Specification *)

Definition same_parity (d v : Z) : Prop := Z.even d = Z.even v.

(** The integer of the parity of [v] nearest to [x]. *)
Definition nearest_of_parity (x : R) (v d : Z) : Prop :=
  same_parity d v /\ forall d', same_parity d' v -> (Rabs (IZR d - x) <= Rabs (IZR d' - x))%R.

(** The quantity to be approximated by the Davidson basis, with the offset as a
    parameter: 3/2 in the documentation. *)
Definition davidson (offset C : R) (v : Z) : R :=
  (sqrt ((IZR v + offset) ^ 2 + C) - sqrt (9 / 4 + C))%R.

(** ** Proofs *)

Lemma even_eqb n : Z.even n = (n mod 2 =? 0).
Proof.
  destruct (Z.even n) eqn:E.
  - apply Z.even_spec in E. destruct E as (k & ->). lia.
  - assert (O : Z.odd n = true) by (now rewrite <- Z.negb_even, E). apply Z.odd_spec in O. destruct O as (k & ->). lia.
Qed.

Lemma even_mod d v : same_parity d v <-> (d - v) mod 2 = 0.
Proof. unfold same_parity. rewrite !even_eqb. destruct (d mod 2 =? 0) eqn:E1, (v mod 2 =? 0) eqn:E2; split; intros H; try reflexivity; try discriminate; lia. Qed.

Lemma davi_value C v : (0 <= C)%R -> 0 <= v ->
  let x := davidson 1 C v in
  lambda_davi_fun C v = Ok (if is_odd (Int_part x - v) then Int_part x + 1 else Int_part x).
Proof.
  intros HC Hv x. unfold lambda_davi_fun, require_nonnegint, raise_if. replace (v <? 0) with false by lia. cbn [bind].
  assert (0 <= IZR ((v + 1) ^ 2))%R by (apply IZR_le; nia).
  unfold math_sqrt. destruct (Rlt_dec (IZR ((v + 1) ^ 2) + C) 0); [lra|]. cbn [bind].
  destruct (Rlt_dec (2.25 + C) 0); [lra|]. cbn [bind].
  replace (sqrt (IZR ((v + 1) ^ 2) + C) - sqrt (2.25 + C))%R with x; [reflexivity|].
  unfold x, davidson. f_equal; f_equal; [|lra].
  replace ((v + 1) ^ 2) with ((v + 1) * (v + 1)) by ring. rewrite mult_IZR, plus_IZR. ring.
Qed.

Lemma davi_window C v : (0 <= C)%R -> 0 <= v -> exists d,
  lambda_davi_fun C v = Ok d /\ same_parity d v /\ (davidson 1 C v - 1 < IZR d <= davidson 1 C v + 1)%R.
Proof.
  intros HC Hv. rewrite davi_value by assumption. set (x := davidson 1 C v). cbv zeta.
  pose proof (base_Int_part x) as [B1 B2]. eexists. split; [reflexivity|].
  unfold is_odd. destruct ((Int_part x - v) mod 2 =? 1) eqn:E.
  - split; [rewrite even_mod; lia|]. rewrite plus_IZR. lra.
  - split; [rewrite even_mod; lia|]. lra.
Qed.

Lemma window_nearest x v d : same_parity d v -> (x - 1 < IZR d <= x + 1)%R -> nearest_of_parity x v d.
Proof.
  intros P H. split; [exact P|]. intros d' P'. rewrite even_mod in P, P'.
  destruct (Z.eq_dec d d') as [-> | N]; [lra|].
  assert (d + 2 <= d' \/ d' <= d - 2) as [G|G] by lia; apply IZR_le in G;
    [rewrite plus_IZR in G|rewrite minus_IZR in G]; unfold Rabs; repeat destruct (Rcase_abs _); lra.
Qed.

Lemma davidson_step C v : (0 <= C)%R -> 0 <= v ->
  (davidson 1 C v <= davidson 1 C (v + 1) <= davidson 1 C v + 1)%R.
Proof.
  intros HC Hv. unfold davidson. rewrite plus_IZR. apply IZR_le in Hv.
  set (a := (IZR v + 1)%R). replace (IZR v + 1 + 1)%R with (a + 1)%R by (unfold a; ring).
  assert (1 <= a)%R by (unfold a; lra). clearbody a.
  assert (sqrt (a ^ 2 + C) <= sqrt ((a + 1) ^ 2 + C))%R by (apply sqrt_le_1; nra).
  assert (a <= sqrt (a ^ 2 + C))%R.
  { rewrite <- (sqrt_pow2 a) at 1 by lra. apply sqrt_le_1; nra. }
  assert (sqrt ((a + 1) ^ 2 + C) <= sqrt (a ^ 2 + C) + 1)%R.
  { rewrite <- (sqrt_pow2 (sqrt (a ^ 2 + C) + 1)) by lra. apply sqrt_le_1; [nra|nra|].
    pose proof (pow2_sqrt (a ^ 2 + C) ltac:(nra)). nra. }
  lra.
Qed.

Lemma pow4 x : (0 <= x ^ 4)%R.
Proof. replace (x ^ 4)%R with ((x ^ 2) ^ 2)%R by ring. apply pow2_ge_0. Qed.

(** ** Theorems *)

(** The values of the first three bases. *)
Theorem C31_values : forall s abeta0 v, 0 <= v ->
  let f choice := g_lam_fun (snd (ACM_set_basis_type choice abeta0 s)) v in
  f 0 = Ok 0 /\ f 1 = Ok v /\ f 2 = Ok (if Z.even v then 0 else 1).
Proof.
  intros s ab v Hv f. unfold f. cbn.
  unfold lambda_fix_fun, lambda_sho_fun, lambda_acm_fun, irem, require_posint, require_nonnegint, raise_if.
  replace (v <? 0) with false by lia. cbn [bind]. repeat split. cbn. f_equal. rewrite even_eqb. destruct (v mod 2 =? 0) eqn:E; lia.
Qed.

(** The last basis: the integer of the parity of [v] nearest to an expression
    that differs from the documented one in an offset. *)
Theorem C31_davidson : forall s abeta0 v, 0 <= v ->
  exists d, g_lam_fun (snd (ACM_set_basis_type 3 (Some abeta0) s)) v = Ok d /\
            nearest_of_parity (davidson 1 (abeta0 ^ 4) v) v d.
Proof.
  intros s ab v Hv. destruct (davi_window (ab ^ 4) v) as (d & E & P & W); [apply pow4|exact Hv|].
  exists d. split; [exact E|]. apply window_nearest; assumption.
Qed.

(** The documented offset gives other values. *)
Theorem C31_davidson_documented_refuted :
  ~ (forall s abeta0 v, 0 <= v ->
     exists d, g_lam_fun (snd (ACM_set_basis_type 3 (Some abeta0) s)) v = Ok d /\
               nearest_of_parity (davidson (3 / 2) (abeta0 ^ 4) v) v d).
Proof.
  intros H. destruct (H imported 2%R 2 ltac:(lia)) as (d & E & P & N).
  change (g_lam_fun (snd (ACM_set_basis_type 3 (Some 2%R) imported)) 2) with (lambda_davi_fun (2 ^ 4) 2) in E.
  destruct (davi_window (2 ^ 4) 2) as (d0 & E0 & P0 & W0); [lra|lia|].
  assert (d0 = d) as -> by congruence. unfold davidson in *.
  replace ((2 + 3 / 2) ^ 2 + 2 ^ 4)%R with 28.25%R in N by lra.
  replace (9 / 4 + 2 ^ 4)%R with 18.25%R in N, W0 by lra.
  replace ((2 + 1) ^ 2 + 2 ^ 4)%R with (5 ^ 2)%R in W0 by lra. rewrite sqrt_pow2 in W0 by lra.
  assert (A : (4.27 < sqrt 18.25 < 4.273)%R).
  { split; [rewrite <- (sqrt_pow2 4.27) by lra|rewrite <- (sqrt_pow2 4.273) by lra]; apply sqrt_lt_1; lra. }
  assert (B : (5.31 < sqrt 28.25 < 5.316)%R).
  { split; [rewrite <- (sqrt_pow2 5.31) by lra|rewrite <- (sqrt_pow2 5.316) by lra]; apply sqrt_lt_1; lra. }
  assert (d = 0) as ->.
  { rewrite even_mod in P. assert (D : (-1 < IZR d < 2)%R) by lra. destruct D as [D1 D2]. apply lt_IZR in D1. apply lt_IZR in D2. lia. }
  specialize (N 2 eq_refl). unfold Rabs in N. repeat destruct (Rcase_abs _); lra.
Qed.

(** All but the constant basis preserve parity, also the test function
    [lambda_jig_fun]; hence the displacements of two seniorities that differ by
    one differ by an odd integer. *)
Theorem C31_parity : forall s choice abeta0 v, 1 <= choice <= 3 -> 0 <= v ->
  exists d, g_lam_fun (snd (ACM_set_basis_type choice abeta0 s)) v = Ok d /\ same_parity d v.
Proof.
  intros s choice ab v Hc Hv. destruct (C31_values s ab v Hv) as (_ & V1 & V2).
  assert (choice = 1 \/ choice = 2 \/ choice = 3) as [-> | [-> | ->]] by lia.
  - exists v. split; [exact V1|reflexivity].
  - eexists. split; [exact V2|]. unfold same_parity. destruct (Z.even v); reflexivity.
  - destruct (C31_davidson s (default 0%R ab) v Hv) as (d & E & N & _). exists d. split; [|exact N].
    destruct ab; exact E.
Qed.
Theorem C31_jig : forall v, 0 <= v -> exists d, lambda_jig_fun v = Ok d /\ same_parity d v /\ 0 <= d <= 2.
Proof.
  intros v Hv. unfold lambda_jig_fun, irem, require_posint, require_nonnegint, raise_if.
  replace (v <? 0) with false by lia. cbn [bind]. destruct (v =? 0) eqn:E.
  - exists 0. split; [reflexivity|]. replace v with 0 by lia. split; [reflexivity|lia].
  - exists (2 - v mod 2). split; [reflexivity|]. rewrite even_mod. lia.
Qed.
Theorem C31_constant_parity_refuted :
  ~ (forall s choice abeta0 v, 0 <= choice <= 3 -> 0 <= v ->
     exists d, g_lam_fun (snd (ACM_set_basis_type choice abeta0 s)) v = Ok d /\ same_parity d v).
Proof.
  intros H. destruct (H imported 0 None 1) as (d & E & P); [lia|lia|]. cbn in E. injection E as <-. discriminate P.
Qed.

(** ACM_test_lambda_fun. *)
Lemma test_loop_ok f g n : forall v,
  (forall u, v <= u <= v + Z.of_nat n -> f u = Ok (g u)) ->
  exists b, test_loop f (g v) (py_range (v + 1) (v + 1 + Z.of_nat n)) = Ok b /\
            (b = true <-> forall u, v <= u < v + Z.of_nat n -> Z.abs (g (u + 1) - g u) = 1).
Proof.
  induction n as [|n IH]; intros v H.
  - rewrite py_range_nil by lia. exists true. split; [reflexivity|]. split; [intros _ u Hu; lia|reflexivity].
  - rewrite py_range_cons by lia. cbn [test_loop]. rewrite (H (v + 1)) by lia. cbn [bind].
    destruct ((g (v + 1) - g v =? 1) || (g (v + 1) - g v =? -1)) eqn:E.
    + destruct (IH (v + 1)) as (b & Eb & Hb); [intros u Hu; apply H; lia|].
      replace (v + 1 + Z.of_nat (S n)) with (v + 1 + 1 + Z.of_nat n) by lia. exists b. split; [exact Eb|].
      rewrite Hb. split; intros G u Hu.
      * destruct (Z.eq_dec u v) as [-> | ]; [lia|]. apply G. lia.
      * apply G. lia.
    + exists false. split; [reflexivity|]. split; [discriminate|]. intros G. specialize (G v). lia.
Qed.

Theorem C31_test : forall s vmin vmax (g : Z -> Z), 0 <= vmin -> 0 <= vmax ->
  (forall v, 0 <= v -> g_lam_fun s v = Ok (g v)) ->
  exists b, ACM_test_lambda_fun vmin vmax s = Ok b /\
            (b = true <-> forall v, vmin <= v < vmax -> Z.abs (g (v + 1) - g v) = 1).
Proof.
  intros s vmin vmax g H1 H2 H. unfold ACM_test_lambda_fun, require_nonnegint, raise_if.
  replace (vmin <? 0) with false by lia. replace (vmax <? 0) with false by lia. cbn [bind].
  rewrite H by lia. cbn [bind].
  destruct (test_loop_ok (g_lam_fun s) g (Z.to_nat (vmax - vmin)) vmin) as (b & E & Hb); [intros u Hu; apply H; lia|].
  exists b. destruct (Z_le_gt_dec vmin vmax).
  - replace (vmax + 1) with (vmin + 1 + Z.of_nat (Z.to_nat (vmax - vmin))) by lia. split; [exact E|].
    rewrite Hb. split; intros G u Hu; apply G; lia.
  - rewrite py_range_nil in E by lia. rewrite py_range_nil by lia. split; [exact E|].
    rewrite Hb. split; intros G u Hu; lia.
Qed.

(** It accepts every basis but the constant one, on every range. *)
Theorem C31_test_bases : forall s choice abeta0 vmin vmax, 0 <= choice <= 3 -> 0 <= vmin -> 0 <= vmax ->
  ACM_test_lambda_fun vmin vmax (snd (ACM_set_basis_type choice abeta0 s))
  = Ok (negb ((choice =? 0) && (vmin <? vmax))).
Proof.
  intros s choice ab vmin vmax Hc H1 H2.
  set (s' := snd (ACM_set_basis_type choice ab s)).
  assert (HX : forall g, (forall v, 0 <= v -> g_lam_fun s' v = Ok (g v)) ->
    (forall v, 0 <= v -> if choice =? 0 then g v = 0 else Z.abs (g (v + 1) - g v) = 1) ->
    ACM_test_lambda_fun vmin vmax s' = Ok (negb ((choice =? 0) && (vmin <? vmax)))).
  { intros g Hg G. destruct (C31_test s' vmin vmax g H1 H2 Hg) as (b & -> & Hb). f_equal.
    destruct (choice =? 0) eqn:E; cbn [andb].
    - destruct (vmin <? vmax) eqn:EV; cbn [negb].
      + destruct b; [|reflexivity]. assert (A : Z.abs (g (vmin + 1) - g vmin) = 1) by (apply Hb; [reflexivity|lia]).
        rewrite !G in A by lia. discriminate.
      + apply Hb. intros v Hv. lia.
    - cbn [negb]. apply Hb. intros v Hv. apply G. lia. }
  assert (choice = 0 \/ choice = 1 \/ choice = 2 \/ choice = 3) as [->|[-> | [-> | ->]]] by lia.
  - apply (HX (fun _ => 0)); [|reflexivity]. intros v Hv. apply (C31_values s ab v Hv).
  - apply (HX (fun v => v)); [|intros; cbn; lia]. intros v Hv. apply (C31_values s ab v Hv).
  - apply (HX (fun v => if Z.even v then 0 else 1)); [intros v Hv; apply (C31_values s ab v Hv)|].
    intros v Hv. rewrite !even_eqb. cbn [Z.eqb].
    destruct ((v + 1) mod 2 =? 0) eqn:E1; destruct (v mod 2 =? 0) eqn:E2; try reflexivity; lia.
  - set (C := (default 0%R ab ^ 4)%R). assert (HC : (0 <= C)%R) by apply pow4.
    apply (HX (fun v => match lambda_davi_fun C v with Ok d => d | Raise _ => 0 end)).
    + intros v Hv. destruct (davi_window C v HC Hv) as (d & E & _). rewrite E. exact E.
    + intros v Hv. cbn [Z.eqb]. destruct (davi_window C v HC Hv) as (d & -> & P & W).
      destruct (davi_window C (v + 1) HC ltac:(lia)) as (d' & -> & P' & W').
      pose proof (davidson_step C v HC Hv) as S. rewrite even_mod in P, P'.
      assert (A : (-2 < IZR d' - IZR d < 3)%R) by lra. rewrite <- minus_IZR in A. destruct A as [A1 A2].
      apply lt_IZR in A1. apply lt_IZR in A2. lia.
Qed.

(** ACM_show_lambda_fun lists the displacements. *)
Theorem C31_show : forall s vmin vmax (g : Z -> Z), 0 <= vmin -> 0 <= vmax ->
  (forall v, 0 <= v -> g_lam_fun s v = Ok (g v)) ->
  exists l, ACM_show_lambda_fun (Some vmin) (Some vmax) s = Ok l /\
    zlen l = Z.max 0 (vmax - vmin + 1) /\
    forall v, vmin <= v <= vmax -> nth_error l (Z.to_nat (v - vmin)) = Some (g v).
Proof.
  intros s vmin vmax g H1 H2 H. unfold ACM_show_lambda_fun, require_nonnegint, raise_if. cbn [default].
  replace (vmin <? 0) with false by lia. replace (vmax <? 0) with false by lia. cbn [bind].
  exists (map g (py_range vmin (vmax + 1))). split; [|split].
  - apply mapM_ok. intros v Hv. apply py_range_In in Hv. apply H. lia.
  - unfold zlen. rewrite map_length. unfold py_range. rewrite map_length, seq_length. lia.
  - intros v Hv. rewrite nth_error_map, py_range_nth by lia. cbn [option_map].
    f_equal. f_equal. lia.
Qed.

Example C31_case :
  ACM_test_lambda_fun 0 9 (snd (ACM_set_basis_type 2 None imported)) = Ok true /\
  ACM_test_lambda_fun 0 9 (snd (ACM_set_basis_type 0 None imported)) = Ok false /\
  ACM_show_lambda_fun (Some 2) (Some 5) imported = Ok [0; 1; 0; 1] /\
  ACM_show_lambda_fun None None (snd (ACM_set_lambda_fun lambda_jig_fun imported)) = Ok [0; 1; 2; 1; 2; 1; 2; 1; 2; 1; 2].
Proof. repeat split. Qed.

Print Assumptions C31_values.
Print Assumptions C31_davidson.
Print Assumptions C31_davidson_documented_refuted.
Print Assumptions C31_parity.
Print Assumptions C31_jig.
Print Assumptions C31_constant_parity_refuted.
Print Assumptions C31_test.
Print Assumptions C31_test_bases.
Print Assumptions C31_show.
