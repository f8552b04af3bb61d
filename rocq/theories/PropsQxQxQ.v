(** Property C58: the four functions for the separate cases of [QixQxQred]. *)

From Coq Require Import Reals Lra.
From Coq Require Import Lia ZifyBool ZifyNat.
From Verif Require Import PyBase PyFacts Compat SphericalSpec Spherical SphericalFacts Operators ReducedSpec ReducedFacts
  PropsReduced FullOps QxQxQ.
Open Scope Z_scope.
Ltac Zify.zify_post_hook ::= Z.div_mod_to_equations.

(** Multiply the number returned, if any. *)
Definition times_number (x : R) (r : res (option R)) : res (option R) :=
  let* o := r in Ok (match o with Some y => Some (x * y)%R | None => None end).

(** The product of the two normalizations. *)
Lemma norm_product : (/ sqrt 15 * sqrt (2 / 105) = sqrt (2 / 7) / 15)%R.
Proof.
  apply sq_eq.
  - apply Rmult_le_pos; [|apply sqrt_pos]. left. apply Rinv_0_lt_compat, sqrt_lt_R0. lra.
  - apply Rmult_le_pos; [apply sqrt_pos|lra].
  - replace (/ sqrt 15 * sqrt (2 / 105) * (/ sqrt 15 * sqrt (2 / 105)))%R
      with (/ (sqrt 15 * sqrt 15) * (sqrt (2 / 105) * sqrt (2 / 105)))%R
      by (field; intros E; assert (0 < sqrt 15)%R by (apply sqrt_lt_R0; lra); lra).
    replace (sqrt (2 / 7) / 15 * (sqrt (2 / 7) / 15))%R with (sqrt (2 / 7) * sqrt (2 / 7) / 225)%R by field.
    rewrite !sqrt_sqrt by lra. field.
Qed.

Lemma lbs_cut v a b : a <= 2 * v <= b -> lbs v v a b = lbs v v a (2 * v).
Proof.
  intros H. unfold lbs. rewrite (py_range_app a (2 * v + 1) (b + 1)) by lia. rewrite flat_map_app.
  assert (G : forall l, (forall L, In L l -> 2 * v < L) -> flat_map (fun LL : Z => rowL v v LL) l = []).
  { induction l as [|L l IH]; intros G; [reflexivity|]. cbn [flat_map].
    rewrite rowL_single_v. unfold blockvL. rewrite mult_out by (right; apply G; now left).
    rewrite IH by (intros; apply G; now right). reflexivity. }
  rewrite (G (py_range (2 * v + 1) (b + 1))); [apply app_nil_r|].
  intros L HL. apply py_range_In in HL. lia.
Qed.

Lemma mult_top u : 0 <= u -> mult u (2 * u) = 1.
Proof.
  intros H. assert (E : dimSO5r3 u (2 * u) = Ok 1).
  { unfold dimSO5r3, irem, iquo, require_posint, require_nonnegint, raise_if, py_assert.
    replace ((u <? 0) || (2 * u <? 0) || (2 * u <? 2 * u)) with false by lia.
    replace (2 * u <? 0) with false by lia. cbn [bind Z.ltb Z.eqb Z.compare].
    replace ((2 * u) mod 2) with 0 by lia. replace ((2 * u + 3 * 0) mod 2 =? 0) with true by lia. cbn [bind].
    replace ((2 * u + 3 * 0) / 2) with u by lia. rewrite Z.leb_refl.
    replace (u - u <? 0) with false by lia. cbn [bind]. rewrite Z.sub_diag.
    destruct (2 * u - 2 <=? u) eqn:E; [|reflexivity].
    replace (u - 2 * u + 2 <? 0) with false by lia. cbn [bind]. f_equal. change (0 / 3) with 0. lia. }
  rewrite dimSO5r3_mult in E. congruence.
Qed.

Lemma lbs_top u b : 0 <= u -> 2 * u <= b -> lbs u u (2 * u) b = [(u, 1, 2 * u)].
Proof.
  intros H Hb. rewrite lbs_cut by lia. unfold lbs. rewrite py_range_single. cbn [flat_map].
  rewrite app_nil_r, rowL_single_v. unfold blockvL. now rewrite mult_top by exact H.
Qed.

Section CG.
  Variable CG : Z -> Z -> Z -> Z -> Z -> Z -> Z -> Z -> Z -> res R.
  Notation Qix := (QixQxQred CG).

  Lemma Qix_quotient v_i v_f v_int q1 q2 : 0 <= v_i -> 0 <= v_f -> 0 <= v_int ->
    (exists m1 m2, ME_SO5red v_f 1 v_int = Ok (Some m1) /\ ME_SO5red v_int 2 v_i = Ok (Some m2) /\
                   q1 = (/ sqrt 15 * m1)%R /\ q2 = (sqrt (2 / 105) * m2)%R) ->
    let L1 := 2 * Z.min v_i v_f in
    Qix v_i v_f v_int =
    let* mediates := lbsSO5r3_rngL v_int (L1 - 2) (L1 + 2) in
    let* terms := mediated CG v_i v_int v_f L1 mediates in
    let* c := CG v_i 1 L1 3 1 0 v_f 1 L1 in
    let* d := dimSO3 L1 in
    times_number (-1) (Ok (quotient (Some q1) (Some q2) (fold_right Rplus 0%R terms) c (sqrt (5 * IZR d)))).
  Proof.
    intros H1 H2 H3 (m1 & m2 & E1 & E2 & -> & ->) L1. unfold QixQxQred. fold L1.
    rewrite !require_nonnegint_ok by lia. cbn [bind]. rewrite E1, E2. fold (mediated CG v_i v_int v_f L1).
    destruct (lbsSO5r3_rngL v_int (L1 - 2) (L1 + 2)) as [med|e]; cbn [bind]; [|reflexivity].
    unfold mediated. destruct (mapM _ med) as [terms|e]; cbn [bind]; [|reflexivity].
    destruct (CG v_i 1 L1 3 1 0 v_f 1 L1) as [c|e]; cbn [bind]; [|reflexivity].
    destruct (dimSO3 L1) as [d|e]; cbn [bind]; [|reflexivity].
    unfold quotient, times_number. cbn [bind]. destruct (Req_EM_T c 0); [reflexivity|]. f_equal. f_equal.
    unfold Rdiv. rewrite <- (Rmult_assoc (-1)). 
    replace (/ sqrt 15 * m1 * (sqrt (2 * / 105) * m2))%R with (m1 * m2 * (/ sqrt 15 * sqrt (2 / 105)))%R by (unfold Rdiv; ring).
    rewrite norm_product. unfold Rdiv. ring.
  Qed.

  Lemma finish_case (r : res (option R)) (med med' : res (list label)) v_i v_int v_f L1 q1 q2 :
    med = med' ->
    r = (let* mediates := med in
         let* terms := mediated CG v_i v_int v_f L1 mediates in
         let* c := CG v_i 1 L1 3 1 0 v_f 1 L1 in
         let* d := dimSO3 L1 in
         times_number (-1) (Ok (quotient (Some q1) (Some q2) (fold_right Rplus 0%R terms) c (sqrt (5 * IZR d))))) ->
    (let* mediates := med' in
     let* q1 := Ok (Some q1) in
     let* q2 := Ok (Some q2) in
     let* terms := mediated CG v_i v_int v_f L1 mediates in
     let* c := CG v_i 1 L1 3 1 0 v_f 1 L1 in
     let* d := dimSO3 L1 in
     Ok (quotient q1 q2 (fold_right Rplus 0%R terms) c (sqrt (5 * IZR d)))) = times_number (-1) r.
  Proof.
    intros -> ->. destruct med' as [m|e]; cbn [bind]; [|reflexivity].
    destruct (mediated _ _ _ _ _ m) as [ts|e]; cbn [bind]; [|reflexivity].
    destruct (CG v_i 1 L1 3 1 0 v_f 1 L1) as [c|e]; cbn [bind]; [|reflexivity].
    destruct (dimSO3 L1) as [d|e]; cbn [bind]; [|reflexivity].
    unfold times_number, quotient. cbn [bind]. destruct (Req_EM_T c 0); [reflexivity|]. f_equal. f_equal. ring.
  Qed.

  (** The documented correspondence holds up to a sign, for three of the four
      functions, with the same exceptions. *)
  Theorem C58_p1 : forall v, 0 <= v ->
    QpxQxQred_p1 CG v = times_number (-1) (Qix v (v + 1) v) /\
    QmxQxQred_p1 CG v = times_number (-1) (Qix v (v + 1) (v + 2)).
  Proof.
    intros v Hv. destruct (C29_Q v Hv) as ((q & m & Q1 & M1 & E1) & _). split.
    - destruct (C29_QxQ v Hv) as (_ & (q' & m' & Q2 & M2 & E2) & _).
      unfold QpxQxQred_p1. rewrite require_nonnegint_ok by exact Hv. cbn [bind]. rewrite Q1, Q2.
      eapply finish_case; [|rewrite (Qix_quotient v (v + 1) v q q') by
        (try lia; exists m, m'; rewrite Z.add_0_r in M2; repeat split; assumption)].
      2: { replace (Z.min v (v + 1)) with v by lia. cbv zeta. reflexivity. }
      destruct (Z.eq_dec v 0) as [-> | N]; [reflexivity|].
      rewrite !lbs_rngL_ok by lia. rewrite (lbs_cut v (2 * v - 2) (2 * v + 2)) by lia. reflexivity.
    - destruct (C29_Q (v + 2) ltac:(lia)) as (_ & HM). destruct HM as (q1 & m1 & Q1' & M1' & E1'); [lia|].
      destruct (C29_QxQ v Hv) as ((q' & m' & Q2 & M2 & E2) & _).
      unfold QmxQxQred_p1. rewrite require_nonnegint_ok by exact Hv. cbn [bind]. rewrite Q1', Q2.
      eapply finish_case; [|rewrite (Qix_quotient v (v + 1) (v + 2) q1 q') by
        (try lia; exists m1, m'; replace (v + 2 + -1) with (v + 1) in M1' by ring; repeat split; assumption)].
      2: { replace (Z.min v (v + 1)) with v by lia. cbv zeta. reflexivity. }
      reflexivity.
  Qed.

  Theorem C58_m1 : forall v, 1 <= v -> QmxQxQred_m1 CG v = times_number (-1) (Qix v (v - 1) v).
  Proof.
    intros v Hv. destruct (C29_Q v ltac:(lia)) as (_ & HM). destruct HM as (q & m & Q1 & M1 & E1); [lia|].
    destruct (C29_QxQ v ltac:(lia)) as (_ & (q' & m' & Q2 & M2 & E2) & _).
    unfold QmxQxQred_m1, require_posint, raise_if. rewrite require_nonnegint_ok by lia. cbn [bind].
    replace (v =? 0) with false by lia. cbn [bind]. rewrite Q1, Q2.
    eapply finish_case; [|rewrite (Qix_quotient v (v - 1) v q q') by
      (try lia; exists m, m'; rewrite Z.add_0_r in M2; repeat split; assumption)].
    2: { replace (2 * Z.min v (v - 1)) with (2 * v - 2) by lia. cbv zeta. reflexivity. }
    reflexivity.
  Qed.

  (** The fourth is wrong by a further factor sqrt (5 dim(L) / dim(L - 2)): the
      last divisor in the code is sqrt (dim(L - 2)) instead of
      sqrt (5 dim(L)), where L = 2v - 2. *)
  Theorem C58_p_m1 : forall v, 2 <= v ->
    QpxQxQred_m1 CG v
    = times_number (- sqrt (5 * IZR (4 * v - 3) / IZR (4 * v - 7))) (Qix v (v - 1) (v - 2)).
  Proof.
    intros v Hv. destruct (C29_Q (v - 2) ltac:(lia)) as ((q & m & Q1 & M1 & E1) & _).
    destruct (C29_QxQ v ltac:(lia)) as (_ & _ & H2). destruct H2 as (q' & m' & Q2 & M2 & E2); [lia|].
    rewrite (Qix_quotient v (v - 1) (v - 2) q q') by
      (try lia; exists m, m'; replace (v - 2 + 1) with (v - 1) in M1 by ring;
       change (v + -2) with (v - 2) in M2; repeat split; assumption).
    cbv zeta. replace (2 * Z.min v (v - 1)) with (2 * v - 2) by lia.
    unfold QpxQxQred_m1, require_posint, raise_if. rewrite require_nonnegint_ok by lia. cbn [bind].
    replace (v =? 0) with false by lia. cbn [bind]. rewrite Q1, Q2. cbn [bind].
    rewrite lbs_rngL_ok by lia. replace (2 * v - 2 - 2) with (2 * (v - 2)) by ring.
    rewrite lbs_top by lia. cbn [bind]. unfold mediated. cbn [mapM bind].
    destruct (CG (v - 2) 1 (2 * (v - 2)) 1 1 2 (v - 1) 1 (2 * v - 2)) as [c1|e]; cbn [bind]; [|reflexivity].
    destruct (CG v 1 (2 * v - 2) 2 1 2 (v - 2) 1 (2 * (v - 2))) as [c2|e]; cbn [bind]; [|reflexivity].
    unfold dimSO3. rewrite !require_nonnegint_ok by lia. cbn [bind].
    destruct (CG v 1 (2 * v - 2) 3 1 0 (v - 1) 1 (2 * v - 2)) as [c|e]; cbn [bind]; [|reflexivity].
    unfold times_number, quotient. cbn [bind]. destruct (Req_EM_T c 0) as [|NC]; [reflexivity|]. f_equal. f_equal.
    cbn [fold_right].
    replace (powerRZ (-1) (2 * (v - 2))) with 1%R.
    2: { replace (2 * (v - 2)) with ((v - 2) + (v - 2)) by ring. rewrite powerRZ_add by lra.
         rewrite <- powerRZ_mult. replace (-1 * -1)%R with 1%R by ring. now rewrite powerRZ_R1. }
    replace (2 * (2 * (v - 2)) + 1) with (4 * v - 7) by ring. replace (2 * (2 * v - 2) + 1) with (4 * v - 3) by ring.
    assert (P1 : (0 < IZR (4 * v - 7))%R) by (apply IZR_lt; lia). assert (P2 : (0 < IZR (4 * v - 3))%R) by (apply IZR_lt; lia).
    set (x := IZR (4 * v - 7)) in *. set (y := IZR (4 * v - 3)) in *. clearbody x y.
    rewrite sqrt_div by lra.
    assert (S1 : (0 < sqrt x)%R) by now apply sqrt_lt_R0. assert (S2 : (0 < sqrt (5 * y))%R) by (apply sqrt_lt_R0; lra).
    field. repeat split; first [exact NC | lra].
  Qed.

  (** No intermediate state, hence an exception, for the cases without physical
      meaning. *)
  Theorem C58_exceptional :
    QpxQxQred_p1 CG 0 = Raise ValueError /\ QmxQxQred_p1 CG 0 = Raise ValueError /\
    QpxQxQred_m1 CG 1 = Raise ValueError /\ QmxQxQred_m1 CG 1 = Raise ValueError.
  Proof. repeat split. Qed.
End CG.

(** The correspondence as documented, without a sign, is false. *)
Theorem C58_documented_refuted :
  ~ (forall (CG : Z -> Z -> Z -> Z -> Z -> Z -> Z -> Z -> Z -> res R) v, 2 <= v ->
       QmxQxQred_m1 CG v = QixQxQred CG v (v - 1) v).
Proof.
  intros H. set (CG := fun _ _ _ _ _ _ _ _ _ : Z => Ok 1%R : res R). specialize (H CG 2 ltac:(lia)).
  rewrite C58_m1 in H by lia. unfold times_number in H.
  destruct (C29_Q 2 ltac:(lia)) as (_ & HM). destruct HM as (q & m & Q1 & M1 & E1); [lia|].
  destruct (C29_QxQ 2 ltac:(lia)) as (_ & (q' & m' & Q2 & M2 & E2) & _).
  assert (P1 : (0 < q)%R).
  { unfold Qred_m1 in Q1. rewrite require_nonnegint_ok in Q1 by lia. cbn [bind] in Q1.
    destruct (sqrt_rational_ok 4 5 ltac:(lia) ltac:(lia)) as (z & Ez & Pz & Sz).
    change (2 + 2) with 4 in Q1. change (2 * 2 + 1) with 5 in Q1. rewrite Ez in Q1. injection Q1 as ->.
    destruct Pz as [Pz|Pz]; [exact Pz|]. exfalso. rewrite <- Pz in Sz. lra. }
  assert (P2 : (0 < q')%R).
  { unfold QxQred_0 in Q2. rewrite require_nonnegint_ok in Q2 by lia. cbn [bind] in Q2.
    destruct (sqrt_rational_ok 60 225 ltac:(lia) ltac:(lia)) as (z & Ez & Pz & Sz).
    change (6 * 2 * (2 + 3)) with 60 in Q2. change (5 * (2 * 2 + 1) * (2 * 2 + 5)) with 225 in Q2.
    rewrite Ez in Q2. injection Q2 as ->. destruct Pz as [Pz|Pz]; [exact Pz|]. exfalso. rewrite <- Pz in Sz. lra. }
  rewrite (Qix_quotient CG 2 (2 - 1) 2 q q') in H by
    (try lia; exists m, m'; rewrite Z.add_0_r in M2; repeat split; assumption).
  cbv zeta in H. replace (lbsSO5r3_rngL 2 (2 * Z.min 2 (2 - 1) - 2) (2 * Z.min 2 (2 - 1) + 2))
    with (Ok [(2, 1, 2); (2, 1, 4)]) in H by (vm_compute; reflexivity).
  unfold mediated, CG in H. cbn [bind mapM dimSO3 require_nonnegint raise_if Z.ltb Z.compare Z.min Z.sub] in H.
  cbn in H. unfold quotient, times_number in H. cbn [bind] in H. destruct (Req_EM_T 1 0); [lra|].
  injection H as H.
  set (t := (_ + (_ + 0))%R) in H.
  assert (T : (0 < t)%R).
  { unfold t. assert (0 < sqrt 5)%R by (apply sqrt_lt_R0; lra). assert (0 < sqrt 9)%R by (apply sqrt_lt_R0; lra). lra. }
  assert (D : (0 < sqrt (5 * 5))%R) by (apply sqrt_lt_R0; lra).
  assert (X : (0 < q * q' * t / 1 / sqrt (5 * 5))%R).
  { unfold Rdiv. repeat apply Rmult_lt_0_compat; try assumption; try lra. now apply Rinv_0_lt_compat. }
  lra.
Qed.

Example C58_case : exists (CG : Z -> Z -> Z -> Z -> Z -> Z -> Z -> Z -> Z -> res R) x,
  QpxQxQred_m1 CG 3 = Ok (Some x) /\ x <> 0%R.
Proof.
  exists (fun _ _ _ _ _ _ _ _ _ => Ok 1%R). unfold QpxQxQred_m1.
  cbn [require_posint require_nonnegint raise_if bind Z.ltb Z.compare Z.eqb].
  destruct (C29_Q 1 ltac:(lia)) as ((q & m & Q1 & _) & _). destruct (C29_QxQ 3 ltac:(lia)) as (_ & _ & H2).
  destruct H2 as (q' & m' & Q2 & _); [lia|].
  change (3 - 2) with 1. rewrite Q1, Q2. cbn [bind]. cbn [dimSO3 require_nonnegint raise_if bind Z.ltb Z.compare Z.mul Z.sub Z.add Pos.mul].
  unfold quotient. destruct (Req_EM_T 1 0); [lra|]. eexists. split; [reflexivity|].
  assert (P1 : (0 < q)%R).
  { unfold Qred_p1 in Q1. rewrite require_nonnegint_ok in Q1 by lia. cbn [bind] in Q1.
    destruct (sqrt_rational_ok 2 7 ltac:(lia) ltac:(lia)) as (z & Ez & Pz & Sz).
    change (1 + 1) with 2 in Q1. change (2 * 1 + 5) with 7 in Q1. rewrite Ez in Q1. injection Q1 as ->.
    destruct Pz as [Pz|Pz]; [exact Pz|]. exfalso. rewrite <- Pz in Sz. lra. }
  assert (P2 : (0 < q')%R).
  { unfold QxQred_m2 in Q2. rewrite require_nonnegint_ok in Q2 by lia. cbn [bind] in Q2.
    destruct (sqrt_rational_ok 20 35 ltac:(lia) ltac:(lia)) as (z & Ez & Pz & Sz).
    change ((3 + 1) * (3 + 2)) with 20 in Q2. change ((2 * 3 + 1) * (2 * 3 - 1)) with 35 in Q2.
    rewrite Ez in Q2. injection Q2 as ->. destruct Pz as [Pz|Pz]; [exact Pz|]. exfalso. rewrite <- Pz in Sz. lra. }
  apply Rgt_not_eq. cbn. match goal with |- context [sqrt ?y] => assert (S5 : (0 < sqrt y)%R) by (apply sqrt_lt_R0; lra) end.
  unfold Rdiv. repeat apply Rmult_lt_0_compat; try assumption; try lra. now apply Rinv_0_lt_compat.
Qed.

Print Assumptions C58_p1.
Print Assumptions C58_m1.
Print Assumptions C58_p_m1.
Print Assumptions C58_exceptional.
Print Assumptions C58_documented_refuted.
