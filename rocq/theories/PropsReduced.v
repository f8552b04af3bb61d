(** C29: the SO(5) reduced matrix elements. *)

From Coq Require Import Reals Lra.
From Coq Require Import Lia ZifyBool ZifyNat.
From Verif Require Import PyBase PyFacts Compat SphericalFacts Matrix RadialME RadialMEFacts CGSO3 CGSO3Facts AngMom
  CGSpec Operators ReducedSpec ReducedFacts.
Open Scope Z_scope.
Ltac Zify.zify_post_hook ::= Z.div_mod_to_equations.

(** The number returned by ME_SO5red (0 if there is none). *)
Definition me (u w v : Z) : R := match ME_SO5red u w v with Ok (Some m) => m | _ => 0%R end.

Lemma me_ok u w v : 0 <= u -> 0 <= w -> 0 <= v ->
  ME_SO5red u w v = Ok (Some (me u w v)) /\ (0 <= me u w v)%R /\
  (me u w v * me u w v = (2 * IZR v + 3) * (2 * IZR w + 3) / (2 * IZR u + 3) * KK w v u)%R.
Proof.
  intros Hu Hw Hv. destruct (ME_ok u w v Hu Hw Hv) as (m & E & P & S). unfold me. rewrite E. auto.
Qed.

(** A number for all seniorities; it is never negative, and not 0 exactly on
    triangles with even perimeter. *)
Theorem C29_ME_total : forall u w v, 0 <= u -> 0 <= w -> 0 <= v ->
  exists m, ME_SO5red u w v = Ok (Some m) /\ (0 <= m)%R /\
    (m <> 0%R <-> w <= u + v /\ v <= u + w /\ u <= v + w /\ (u + w + v) mod 2 = 0).
Proof.
  intros u w v Hu Hw Hv. destruct (ME_ok u w v Hu Hw Hv) as (m & E & P & S). exists m.
  split; [exact E|]. split; [exact P|]. fold (coupled u w v).
  pose proof (IZR_le 0 u Hu) as Pu. pose proof (IZR_le 0 v Hv) as Pv. pose proof (IZR_le 0 w Hw) as Pw.
  split.
  - intros N. destruct ((w <=? u + v) && (v <=? u + w) && (u <=? v + w) && ((u + w + v) mod 2 =? 0)) eqn:T.
    + unfold coupled. lia.
    + exfalso. assert (K : KK w v u = 0%R).
      { destruct ((u + w + v) mod 2 =? 0) eqn:O; [|apply KK_odd; lia].
        destruct (KK_out w v u) as [K|K]; [lia|exact K|lia]. }
      rewrite K, Rmult_0_r in S. apply Rmult_integral in S. tauto.
  - intros T Z. subst m. pose proof (KK_pos w v u Hw Hv Hu T) as KP.
    assert (0 < (2 * IZR v + 3) * (2 * IZR w + 3) / (2 * IZR u + 3) * KK w v u)%R; [|lra].
    apply Rmult_lt_0_compat; [|exact KP]. apply Rdiv_lt_0_compat; [apply Rmult_lt_0_compat|]; lra.
Qed.

Theorem C29_ME_negative_raises : forall u w v, u < 0 \/ w < 0 \/ v < 0 ->
  ME_SO5red u w v = Raise ValueError.
Proof.
  intros u w v H. unfold ME_SO5red, require_nonnegint, raise_if.
  destruct (u <? 0) eqn:A; [reflexivity|]. destruct (w <? 0) eqn:B; [reflexivity|].
  destruct (v <? 0) eqn:C; [reflexivity|]. lia.
Qed.

(** The zonal spherical harmonics of the 4-sphere multiply with these
    coefficients: for every x,
    C_w(x) C_v(x) = sum over u of (2u+3)/((2w+3)(2v+3)) ME(u,w,v)^2 C_u(x). *)
Theorem C29_product_of_zonal_functions : forall (x : R) (w v : nat),
  (gegen x w * gegen x v)%R =
  rsum (fun u => ((2 * IZR u + 3) / ((2 * INR w + 3) * (2 * INR v + 3))
                  * (me u (Z.of_nat w) (Z.of_nat v)) ^ 2 * gegen x (Z.to_nat u))%R) (w + v + 1).
Proof.
  intros x w v. pose proof (proj2 (linearize x (Z.of_nat v) w ltac:(lia)) (w + v + 1)%nat ltac:(lia)) as E.
  unfold gz in E at 1 2. replace (Z.of_nat w <? 0) with false in E by lia.
  replace (Z.of_nat v <? 0) with false in E by lia. rewrite !Nat2Z.id in E. rewrite E.
  apply rsum_ext. intros u Hu. unfold gz. replace (u <? 0) with false by lia.
  destruct (me_ok u (Z.of_nat w) (Z.of_nat v)) as (_ & _ & S); [lia|lia|lia|].
  replace ((me u (Z.of_nat w) (Z.of_nat v)) ^ 2)%R with (me u (Z.of_nat w) (Z.of_nat v) * me u (Z.of_nat w) (Z.of_nat v))%R by ring.
  rewrite S, <- !INR_IZR_INZ. pose proof (pos_INR w). pose proof (pos_INR v).
  pose proof (IZR_le 0 u ltac:(lia)). field. lra.
Qed.

Lemma gegen_1 n : gegen 1 n = ((INR n + 1) * (INR n + 2) / 2)%R /\
  snd (gegen2 1 n) = ((INR n + 2) * (INR n + 3) / 2)%R.
Proof.
  induction n as [|n [A B]]; [unfold gegen; cbn; split; lra|].
  unfold gegen in *. cbn [gegen2]. destruct (gegen2 1 n) as [p q]. cbn [fst snd] in *. subst p q.
  rewrite S_INR. pose proof (pos_INR n). split; [field|]. field. lra.
Qed.

(** Normalisation: the harmonics of seniority w have mean square dim(w). *)
Theorem C29_sum_rule : forall w v : nat,
  rsum (fun u => (dim5 u * (me u (Z.of_nat w) (Z.of_nat v)) ^ 2)%R) (w + v + 1)
  = (3 * dim5 (Z.of_nat w) * dim5 (Z.of_nat v))%R.
Proof.
  intros w v. pose proof (C29_product_of_zonal_functions 1 w v) as E.
  rewrite !(proj1 (gegen_1 _)) in E.
  rewrite (rsum_ext _ (fun u => (((2 * INR w + 3) * (2 * INR v + 3) / 3) *
     ((2 * IZR u + 3) / ((2 * INR w + 3) * (2 * INR v + 3))
                  * (me u (Z.of_nat w) (Z.of_nat v)) ^ 2 * gegen 1 (Z.to_nat u)))%R)).
  - rewrite rsum_scal, <- E. unfold dim5. rewrite !plus_IZR, !mult_IZR, <- !INR_IZR_INZ. field.
  - intros u Hu. rewrite (proj1 (gegen_1 _)). rewrite (INR_IZR_INZ (Z.to_nat u)), Z2Nat.id by lia.
    unfold dim5. rewrite !plus_IZR, !mult_IZR. pose proof (pos_INR w). pose proof (pos_INR v). field. lra.
Qed.

(** Interchange of initial and final seniority. *)
Theorem C29_transpose : forall u w v, 0 <= u -> 0 <= w -> 0 <= v ->
  (dim5 u * (me u w v) ^ 2 = dim5 v * (me v w u) ^ 2)%R.
Proof.
  intros u w v Hu Hw Hv. destruct (me_ok u w v Hu Hw Hv) as (_ & _ & S).
  destruct (me_ok v w u Hv Hw Hu) as (_ & _ & T).
  cbn [pow]. rewrite !Rmult_1_r, S, T. unfold dim5, KK.
  replace (w + v + u) with (w + u + v) by ring. destruct (is_odd (w + u + v)); [ring|]. cbv zeta.
  set (s := (w + u + v) / 2). assert (0 <= s) by (unfold s; lia).
  pose proof (hh_pos (s + 1) ltac:(lia)). pose proof (IZR_le 0 u Hu) as Pu. pose proof (IZR_le 0 v Hv) as Pv.
  rewrite !plus_IZR, !mult_IZR. field. repeat split; lra.
Qed.

(** ** The closed forms *)
Lemma sqrt_rational_ok p q : 0 <= p -> 0 < q ->
  exists s, sqrt_rational p q = Some s /\ (0 <= s)%R /\ (s * s = IZR p / IZR q)%R.
Proof.
  intros Hp Hq. unfold sqrt_rational. apply IZR_le in Hp. apply IZR_lt in Hq.
  rewrite sdiv_ok by lra. cbn [obind].
  assert (P : (0 <= IZR p / IZR q)%R) by (apply Rmult_le_pos; [lra|apply Rlt_le, Rinv_0_lt_compat; lra]).
  rewrite ssqrt_ok by exact P. exists (sqrt (IZR p / IZR q)). split; [reflexivity|].
  split; [apply sqrt_pos|]. now apply sqrt_sqrt.
Qed.

Lemma sq_eq a b : (0 <= a)%R -> (0 <= b)%R -> (a * a = b * b)%R -> a = b.
Proof. intros Ha Hb H. apply Rsqr_inj; assumption. Qed.

Lemma hh_1 : hh 1 = 6%R.
Proof. change 1 with (0 + 1). rewrite hh_succ, hh_0 by lia. field. Qed.
Lemma hh_2 : hh 2 = 30%R.
Proof. change 2 with (1 + 1). rewrite hh_succ, hh_1 by lia. field. Qed.
Lemma hh_3 : hh 3 = 140%R.
Proof. change 3 with (2 + 1). rewrite hh_succ, hh_2 by lia. field. Qed.

Lemma hh_shift c (k : Z) : 0 <= c -> 0 <= k ->
  hh (c + (k + 1)) = (2 * (2 * (IZR c + IZR k) + 3) / (IZR c + IZR k + 1) * hh (c + k))%R.
Proof. intros Hc Hk. rewrite Z.add_assoc, hh_succ, plus_IZR by lia. reflexivity. Qed.

Lemma hh_c1 c : 0 <= c -> hh (c + 1) = (2 * (2 * IZR c + 3) / (IZR c + 1) * hh c)%R.
Proof. apply hh_succ. Qed.
Lemma hh_c2 c : 0 <= c -> hh (c + 2) = (2 * (2 * IZR c + 5) / (IZR c + 2) * hh (c + 1))%R.
Proof.
  intros H. replace (c + 2) with (c + 1 + 1) by ring. rewrite hh_succ, plus_IZR by lia.
  replace (IZR c + 1 + 1)%R with (IZR c + 2)%R by ring. f_equal. f_equal. ring.
Qed.
Lemma hh_c3 c : 0 <= c -> hh (c + 3) = (2 * (2 * IZR c + 7) / (IZR c + 3) * hh (c + 2))%R.
Proof.
  intros H. replace (c + 3) with (c + 2 + 1) by ring. rewrite hh_succ, plus_IZR by lia.
  replace (IZR c + 2 + 1)%R with (IZR c + 3)%R by ring. f_equal. f_equal. ring.
Qed.
Lemma hh_c4 c : 0 <= c -> hh (c + 4) = (2 * (2 * IZR c + 9) / (IZR c + 4) * hh (c + 3))%R.
Proof.
  intros H. replace (c + 4) with (c + 3 + 1) by ring. rewrite hh_succ, plus_IZR by lia.
  replace (IZR c + 3 + 1)%R with (IZR c + 4)%R by ring. f_equal. f_equal. ring.
Qed.

(** One closed form: [f v] is [r] times ME(v + d, w, v), where r is a square root. *)
Definition agrees (f : Z -> res (option R)) (r : R) (d w v : Z) : Prop :=
  exists q m, f v = Ok (Some q) /\ ME_SO5red (v + d) w v = Ok (Some m) /\ q = (r * m)%R.

Lemma agrees_intro f r2 d w v q :
  f v = Ok (Some q) -> (0 <= q)%R -> (0 <= r2)%R -> 0 <= v + d -> 0 <= w -> 0 <= v ->
  (q * q = r2 * ((2 * IZR v + 3) * (2 * IZR w + 3) / (2 * IZR (v + d) + 3) * KK w v (v + d)))%R ->
  agrees f (sqrt r2) d w v.
Proof.
  intros Hf Hq Hr H1 H2 H3 E. destruct (me_ok (v + d) w v H1 H2 H3) as (A & B & C).
  exists q, (me (v + d) w v). split; [exact Hf|]. split; [exact A|].
  apply sq_eq; [exact Hq|apply Rmult_le_pos; [apply sqrt_pos|exact B]|].
  rewrite E, <- C. replace (sqrt r2 * me (v + d) w v * (sqrt r2 * me (v + d) w v))%R
    with (sqrt r2 * sqrt r2 * (me (v + d) w v * me (v + d) w v))%R by ring.
  now rewrite sqrt_sqrt.
Qed.

(** KK for the shape a, b, c. *)
Lemma KK_shape w v u a b c : w = a + b -> v = a + c -> u = b + c ->
  KK w v u = (hh a * hh b * hh c * (2 * (IZR (a + b + c) + 2) / hh (c + (a + b + 1)))
     * ((2 * IZR u + 3) / ((IZR u + 1) * (IZR u + 2))))%R.
Proof.
  intros -> -> ->. rewrite KK_abc. replace (a + b + c + 1) with (c + (a + b + 1)) by ring. reflexivity.
Qed.

Ltac closed a b :=
  match goal with |- (_ = ?r2 * (_ * KK ?w ?v ?u))%R =>
    let c := fresh "c" in
    set (c := v - a) in *; assert (v = a + c) by (unfold c; lia); clearbody c; subst v;
    rewrite (KK_shape w (a + c) _ a b c) by lia;
    change (a + b + 1) with ltac:(let x := eval cbv in (a + b + 1) in exact x)
  end.

Ltac finish c :=
  rewrite ?hh_0, ?hh_1, ?hh_2, ?hh_3, ?hh_c4, ?hh_c3, ?hh_c2, ?hh_c1 by lia;
  let P := fresh in let Q := fresh in
  pose proof (hh_pos c ltac:(lia)) as P; pose proof (IZR_le 0 c ltac:(lia)) as Q;
  rewrite ?mult_IZR, ?plus_IZR, ?minus_IZR, ?mult_IZR, ?plus_IZR, ?minus_IZR;
  field; repeat split; lra.

Theorem C29_Q : forall v, 0 <= v ->
  agrees Qred_p1 (/ sqrt 15) 1 1 v /\ (1 <= v -> agrees Qred_m1 (/ sqrt 15) (-1) 1 v).
Proof.
  intros v Hv. replace (/ sqrt 15)%R with (sqrt (/ 15)) by apply sqrt_inv. split.
  - destruct (sqrt_rational_ok (v + 1) (2 * v + 5) ltac:(lia) ltac:(lia)) as (q & E & P & S).
    apply (agrees_intro _ _ _ _ _ q); try lia; try lra; try exact P.
    + unfold Qred_p1. rewrite require_nonnegint_ok by lia. cbn [bind]. now rewrite E.
    + rewrite S. closed 0 1. finish c.
  - intros Hv1.
    destruct (sqrt_rational_ok (v + 2) (2 * v + 1) ltac:(lia) ltac:(lia)) as (q & E & P & S).
    apply (agrees_intro _ _ _ _ _ q); try lia; try lra; try exact P.
    + unfold Qred_m1. rewrite require_nonnegint_ok by lia. cbn [bind]. now rewrite E.
    + rewrite S. closed 1 0. finish c.
Qed.

Ltac start p q0 f :=
  let q := fresh "q" in let E := fresh "E" in let P := fresh "P" in let S := fresh "S" in
  destruct (sqrt_rational_ok p q0 ltac:(nia) ltac:(nia)) as (q & E & P & S);
  apply (agrees_intro _ _ _ _ _ q); try lia; try lra; try exact P;
  [unfold f; rewrite require_nonnegint_ok by lia; cbn [bind]; now rewrite E|rewrite S].

Theorem C29_QxQ : forall v, 0 <= v ->
  agrees QxQred_p2 (sqrt (2 / 105)) 2 2 v /\
  agrees QxQred_0 (sqrt (2 / 105)) 0 2 v /\
  (2 <= v -> agrees QxQred_m2 (sqrt (2 / 105)) (-2) 2 v).
Proof.
  intros v Hv. split; [|split].
  - start ((v + 1) * (v + 2)) ((2 * v + 5) * (2 * v + 7)) QxQred_p2. closed 0 2. finish c.
  - start (6 * v * (v + 3)) (5 * (2 * v + 1) * (2 * v + 5)) QxQred_0.
    destruct (Z.eq_dec v 0) as [->|N].
    + replace (KK 2 0 (0 + 0)) with 0%R; [cbn [Z.mul]; lra|]. symmetry.
      destruct (KK_out 2 0 (0 + 0)) as [K|K]; [lia|exact K|lia].
    + closed 1 1. finish c.
  - intros H2. start ((v + 1) * (v + 2)) ((2 * v + 1) * (2 * v - 1)) QxQred_m2. closed 2 0. finish c.
Qed.

Ltac start3 p q0 f :=
  let q := fresh "q" in let E := fresh "E" in let P := fresh "P" in let S := fresh "S" in
  destruct (sqrt_rational_ok p q0 ltac:(nia) ltac:(nia)) as (q & E & P & S);
  apply (agrees_intro _ _ _ _ _ (3 * q)%R); try lia; try lra;
  [unfold f; rewrite require_nonnegint_ok by lia; cbn [bind]; now rewrite E
  |replace (3 * q * (3 * q))%R with (9 * (q * q))%R by ring; rewrite S].

Theorem C29_QxQxQ : forall v, 0 <= v ->
  agrees QxQxQred_p3 (sqrt (2 / 315)) 3 3 v /\
  agrees QxQxQred_p1 (sqrt (2 / 315)) 1 3 v /\
  (1 <= v -> agrees QxQxQred_m1 (sqrt (2 / 315)) (-1) 3 v).
Proof.
  intros v Hv. split; [|split].
  - destruct (sqrt_rational_ok ((v + 1) * (v + 2) * (v + 3)) ((2 * v + 5) * (2 * v + 7) * (2 * v + 9)) ltac:(nia))
      as (q & E & P & S); [apply Z.mul_pos_pos; nia|].
    apply (agrees_intro _ _ _ _ _ q); try lia; try lra; try exact P.
    + unfold QxQxQred_p3. rewrite require_nonnegint_ok by lia. cbn [bind]. now rewrite E.
    + rewrite S. closed 0 3. finish c.
  - destruct (sqrt_rational_ok (v * (v + 1) * (v + 4)) (7 * (2 * v + 1) * (2 * v + 5) * (2 * v + 7)) ltac:(nia))
      as (q & E & P & S); [apply Z.mul_pos_pos; nia|].
    apply (agrees_intro _ _ _ _ _ (3 * q)%R); try lia; try lra.
    + unfold QxQxQred_p1. rewrite require_nonnegint_ok by lia. cbn [bind]. now rewrite E.
    + replace (3 * q * (3 * q))%R with (9 * (q * q))%R by ring. rewrite S.
      destruct (Z.eq_dec v 0) as [->|N].
      * replace (KK 3 0 (0 + 1)) with 0%R; [cbn [Z.mul]; lra|]. symmetry.
        destruct (KK_out 3 0 (0 + 1)) as [K|K]; [lia|exact K|lia].
      * closed 1 2. finish c.
  - intros H1.
    destruct (sqrt_rational_ok ((v - 1) * (v + 2) * (v + 3)) (7 * (2 * v - 1) * (2 * v + 1) * (2 * v + 5)) ltac:(nia))
      as (q & E & P & S); [apply Z.mul_pos_pos; nia|].
    apply (agrees_intro _ _ _ _ _ (3 * q)%R); try lia; try lra.
    + unfold QxQxQred_m1. rewrite require_nonnegint_ok by lia. cbn [bind]. now rewrite E.
    + replace (3 * q * (3 * q))%R with (9 * (q * q))%R by ring. rewrite S.
      destruct (Z.eq_dec v 1) as [->|N].
      * replace (KK 3 1 (1 + -1)) with 0%R; [change ((1 - 1) * (1 + 2) * (1 + 3)) with 0; unfold Rdiv; ring|]. symmetry.
        destruct (KK_out 3 1 (1 + -1)) as [K|K]; [lia|exact K|lia].
      * closed 2 1. finish c.
Qed.

(** QxQxQred_m3 has 2v in place of v+2: it is sqrt(2v/(v+2)) times the value it
    should have, hence wrong for every seniority at which it is defined. *)
Theorem C29_QxQxQ_m3 : forall v, 3 <= v ->
  exists q m, QxQxQred_m3 v = Ok (Some q) /\ ME_SO5red (v - 3) 3 v = Ok (Some m) /\
    q = (sqrt (2 * IZR v / (IZR v + 2)) * (sqrt (2 / 315) * m))%R /\
    (sqrt (2 / 315) * m < q)%R.
Proof.
  intros v Hv.
  destruct (sqrt_rational_ok (v * (v + 1) * (v * 2)) ((2 * v - 3) * (2 * v - 1) * (2 * v + 1)) ltac:(nia))
      as (q & E & P & S); [apply Z.mul_pos_pos; nia|].
  destruct (me_ok (v - 3) 3 v) as (A & B & C); [lia|lia|lia|].
  pose proof (IZR_le 3 v Hv) as PV.
  assert (R1 : (1 < 2 * IZR v / (IZR v + 2))%R).
  { apply (Rmult_lt_reg_r (IZR v + 2)); [lra|]. unfold Rdiv. rewrite Rmult_assoc, Rinv_l by lra. lra. }
  set (r := (2 * IZR v / (IZR v + 2))%R) in *.
  assert (S1 : (1 < sqrt r)%R) by (rewrite <- sqrt_1; apply sqrt_lt_1; lra).
  assert (Sp : (0 < sqrt (2 / 315))%R) by (apply sqrt_lt_R0; lra).
  assert (Mp : (0 < me (v - 3) 3 v)%R).
  { destruct (C29_ME_total (v - 3) 3 v) as (m & E' & P' & I); [lia|lia|lia|].
    assert (m = me (v - 3) 3 v) as <- by (unfold me; now rewrite E').
    destruct P' as [|P']; [assumption|]. exfalso. apply I; [lia|congruence]. }
  assert (Q : q = (sqrt r * (sqrt (2 / 315) * me (v - 3) 3 v))%R).
  { apply sq_eq; [exact P|apply Rmult_le_pos; [lra|apply Rmult_le_pos; lra]|].
    match goal with |- (_ = ?a * (?b * ?c) * _)%R => replace (a * (b * c) * (a * (b * c)))%R
      with ((a * a) * ((b * b) * (c * c)))%R by ring end.
    rewrite !sqrt_sqrt by lra. rewrite C, S. unfold r.
    assert (G : KK 3 v (v - 3) = (140 * (hh (v - 3) * (2 * (IZR v + 2) / hh (v - 3 + 4)))
       * ((2 * IZR (v - 3) + 3) / ((IZR (v - 3) + 1) * (IZR (v - 3) + 2))))%R).
    { rewrite (KK_shape 3 v (v - 3) 3 0 (v - 3)) by lia. change (3 + 0 + 1) with 4.
      replace (3 + 0 + (v - 3)) with v by ring. rewrite hh_0, hh_3. ring. }
    rewrite G. set (c := v - 3) in *. assert (v = c + 3) by (unfold c; lia). clearbody c. subst v.
    finish c. }
  exists q, (me (v - 3) 3 v). split; [|split; [exact A|split; [exact Q|]]].
  - unfold QxQxQred_m3. rewrite require_nonnegint_ok by lia. cbn [bind]. now rewrite E.
  - rewrite Q at 1. assert (0 < sqrt (2 / 315) * me (v - 3) 3 v)%R by now apply Rmult_lt_0_compat.
    rewrite <- (Rmult_1_l (sqrt (2 / 315) * me (v - 3) 3 v)) at 1. now apply Rmult_lt_compat_r.
Qed.

Theorem C29_QxQxQ_m3_refuted : ~ (forall v, 3 <= v -> agrees QxQxQred_m3 (sqrt (2 / 315)) (-3) 3 v).
Proof.
  intros H. destruct (H 3 ltac:(lia)) as (q & m & A & B & C).
  destruct (C29_QxQxQ_m3 3 ltac:(lia)) as (q' & m' & A' & B' & _ & L).
  change (3 + -3) with (3 - 3) in B. rewrite A in A'. rewrite B in B'.
  injection A' as <-. injection B' as <-. lra.
Qed.

Example C29_case : exists q, Qred_p1 4 = Ok (Some q) /\ (q * q = 5 / 13)%R /\
  exists m, ME_SO5red 5 1 4 = Ok (Some m) /\ (m * m = 75 / 13)%R.
Proof.
  destruct (proj1 (C29_Q 4 ltac:(lia))) as (q & m & A & B & C).
  destruct (sqrt_rational_ok 5 13 ltac:(lia) ltac:(lia)) as (q' & E & P & S).
  assert (q = q'); [|subst q'].
  { unfold Qred_p1 in A. cbn [require_nonnegint raise_if Z.ltb Z.compare bind] in A.
    change (4 + 1) with 5 in A. change (2 * 4 + 5) with 13 in A. rewrite E in A. now injection A. }
  exists q. split; [exact A|]. split; [exact S|]. exists m. split; [exact B|].
  assert (F : (m = sqrt 15 * q)%R).
  { rewrite C. assert (0 < sqrt 15)%R by (apply sqrt_lt_R0; lra). field. lra. }
  rewrite F. replace (sqrt 15 * q * (sqrt 15 * q))%R with (sqrt 15 * sqrt 15 * (q * q))%R by ring.
  rewrite sqrt_sqrt, S by lra. lra.
Qed.

Print Assumptions C29_ME_total.
Print Assumptions C29_ME_negative_raises.
Print Assumptions C29_product_of_zonal_functions.
Print Assumptions C29_sum_rule.
Print Assumptions C29_transpose.
Print Assumptions C29_Q.
Print Assumptions C29_QxQ.
Print Assumptions C29_QxQxQ.
Print Assumptions C29_QxQxQ_m3.
Print Assumptions C29_QxQxQ_m3_refuted.
