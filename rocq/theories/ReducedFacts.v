(** Facts behind C29: the SO(5) reduced matrix elements in closed form and the
    expansion of a product of Gegenbauer polynomials C^(3/2). *)

From Coq Require Import Reals Lra.
From Coq Require Import Lia ZifyBool ZifyNat.
From Verif Require Import PyBase PyFacts Compat SphericalFacts Matrix RadialME RadialMEFacts CGSO3 CGSO3Facts AngMom
  Operators ReducedSpec.
Open Scope Z_scope.
Ltac Zify.zify_post_hook ::= Z.div_mod_to_equations.

(** (2n+1)!/n!^2, 0 for negative n. *)
Definition hh (n : Z) : R := if n <? 0 then 0%R else (fac (2 * n + 1) / (fac n * fac n))%R.

Lemma hh_neg n : n < 0 -> hh n = 0%R.
Proof. intros H. unfold hh. now replace (n <? 0) with true by lia. Qed.

Lemma hh_nonneg n : 0 <= n -> hh n = (fac (2 * n + 1) / (fac n * fac n))%R.
Proof. intros H. unfold hh. now replace (n <? 0) with false by lia. Qed.

Lemma hh_pos n : 0 <= n -> (0 < hh n)%R.
Proof.
  intros H. rewrite hh_nonneg by assumption. pose proof (fac_pos n). pose proof (fac_pos (2 * n + 1)).
  apply Rdiv_lt_0_compat; [assumption|]. now apply Rmult_lt_0_compat.
Qed.

Lemma hh_0 : hh 0 = 1%R.
Proof. rewrite hh_nonneg by lia. change (2 * 0 + 1) with 1. rewrite fac_0. change (fac 1) with (INR (fact 1)). cbn [fact]. cbn. unfold Rdiv. rewrite !Rmult_1_l. apply Rinv_1. Qed.

Lemma hh_succ n : 0 <= n -> hh (n + 1) = (2 * (2 * IZR n + 3) / (IZR n + 1) * hh n)%R.
Proof.
  intros H. rewrite !hh_nonneg by lia. replace (2 * (n + 1) + 1) with (2 * n + 1 + 1 + 1) by ring.
  rewrite (fac_succ (2 * n + 1 + 1)), (fac_succ (2 * n + 1)), (fac_succ n) by lia.
  rewrite !plus_IZR, mult_IZR. pose proof (IZR_le 0 n H). pose proof (fac_pos n).
  pose proof (fac_pos (2 * n + 1)). field. lra.
Qed.

(** The coefficient of C_u in C_w C_v. *)
Definition KK (w v u : Z) : R :=
  if is_odd (w + v + u) then 0%R
  else
    let s := (w + v + u) / 2 in
    (hh (s - u) * hh (s - v) * hh (s - w) * (2 * (IZR s + 2) / hh (s + 1))
     * ((2 * IZR u + 3) / ((IZR u + 1) * (IZR u + 2))))%R.

Lemma KK_odd w v u : (w + v + u) mod 2 = 1 -> KK w v u = 0%R.
Proof. intros H. unfold KK, is_odd. now replace ((w + v + u) mod 2 =? 1) with true by lia. Qed.

Lemma KK_abc a b c : KK (a + b) (a + c) (b + c)
  = (hh a * hh b * hh c * (2 * (IZR (a + b + c) + 2) / hh (a + b + c + 1))
     * ((2 * IZR (b + c) + 3) / ((IZR (b + c) + 1) * (IZR (b + c) + 2))))%R.
Proof.
  unfold KK, is_odd. replace ((a + b + (a + c) + (b + c)) mod 2 =? 1) with false by lia.
  replace ((a + b + (a + c) + (b + c)) / 2) with (a + b + c) by lia.
  replace (a + b + c - (b + c)) with a by ring. replace (a + b + c - (a + c)) with b by ring.
  replace (a + b + c - (a + b)) with c by ring. reflexivity.
Qed.

Lemma KK_out w v u : u < 0 \/ w + v < u \/ u + v < w \/ u + w < v -> KK w v u = 0%R \/ u < 0.
Proof.
  intros H. destruct (Z_lt_dec u 0); [now right|]. left. unfold KK. destruct (is_odd (w + v + u)) eqn:E; [reflexivity|].
  unfold is_odd in E. cbv zeta.
  destruct H as [H|[H|[H|H]]]; [lia| | |].
  - rewrite (hh_neg ((w + v + u) / 2 - u)) by lia. ring.
  - rewrite (hh_neg ((w + v + u) / 2 - w)) by lia. ring.
  - rewrite (hh_neg ((w + v + u) / 2 - v)) by lia. ring.
Qed.

(** The recurrence in w. *)
Lemma KK_step w v u : -1 <= w -> 0 <= v -> 0 <= u ->
  ((IZR w + 2) * KK (w + 2) v u
   = (2 * IZR w + 5) * (IZR u / (2 * IZR u + 1) * KK (w + 1) v (u - 1)
                        + (IZR u + 3) / (2 * IZR u + 5) * KK (w + 1) v (u + 1))
     - (IZR w + 3) * KK w v u)%R.
Proof.
  intros Hw Hv Hu. destruct (Z.eq_dec ((w + v + u) mod 2) 1) as [O|O].
  { rewrite !KK_odd by lia. ring. }
  (* a = k, b + 1 = w + 2 - k, c = v - k with u = b + c + 1 *)
  set (a := (w + 2 + v - u) / 2). set (b := w + 1 - a). set (c := v - a).
  assert (Eu : u = b + c + 1) by lia. assert (Ew : w = a + b - 1) by lia. assert (Ev : v = a + c) by lia.
  clearbody a b c. subst u w v. clear O.
  assert (K1 : KK (a + b - 1 + 2) (a + c) (b + c + 1)
    = (hh a * hh (b + 1) * hh c * (2 * (IZR (a + b + c + 1) + 2) / hh (a + b + c + 1 + 1))
     * ((2 * IZR (b + c + 1) + 3) / ((IZR (b + c + 1) + 1) * (IZR (b + c + 1) + 2))))%R).
  { replace (a + b - 1 + 2) with (a + (b + 1)) by ring. replace (b + c + 1) with ((b + 1) + c) by ring.
    rewrite KK_abc. replace (a + (b + 1) + c) with (a + b + c + 1) by ring. reflexivity. }
  assert (K2 : KK (a + b - 1 + 1) (a + c) (b + c + 1 - 1)
    = (hh a * hh b * hh c * (2 * (IZR (a + b + c) + 2) / hh (a + b + c + 1))
     * ((2 * IZR (b + c) + 3) / ((IZR (b + c) + 1) * (IZR (b + c) + 2))))%R).
  { replace (a + b - 1 + 1) with (a + b) by ring. replace (b + c + 1 - 1) with (b + c) by ring.
    apply KK_abc. }
  assert (K3 : KK (a + b - 1 + 1) (a + c) (b + c + 1 + 1)
    = (hh (a - 1) * hh (b + 1) * hh (c + 1) * (2 * (IZR (a + b + c + 1) + 2) / hh (a + b + c + 1 + 1))
     * ((2 * IZR (b + c + 2) + 3) / ((IZR (b + c + 2) + 1) * (IZR (b + c + 2) + 2))))%R).
  { replace (a + b - 1 + 1) with (a - 1 + (b + 1)) by ring. replace (a + c) with (a - 1 + (c + 1)) by ring.
    replace (b + c + 1 + 1) with ((b + 1) + (c + 1)) by ring.
    rewrite KK_abc. replace (a - 1 + (b + 1) + (c + 1)) with (a + b + c + 1) by ring.
    replace (b + 1 + (c + 1)) with (b + c + 2) by ring. reflexivity. }
  assert (K4 : KK (a + b - 1) (a + c) (b + c + 1)
    = (hh (a - 1) * hh b * hh (c + 1) * (2 * (IZR (a + b + c) + 2) / hh (a + b + c + 1))
     * ((2 * IZR (b + c + 1) + 3) / ((IZR (b + c + 1) + 1) * (IZR (b + c + 1) + 2))))%R).
  { replace (a + b - 1) with (a - 1 + b) by ring. replace (a + c) with (a - 1 + (c + 1)) by ring.
    replace (b + c + 1) with (b + (c + 1)) by ring.
    rewrite KK_abc. replace (a - 1 + b + (c + 1)) with (a + b + c) by ring. reflexivity. }
  rewrite K1, K2, K3, K4. clear K1 K2 K3 K4.
  pose proof (hh_pos (a + b + c + 1)) as Hs. pose proof (hh_succ (a + b + c + 1)) as Hs1.
  destruct (Z_lt_dec a 0) as [Na|Na].
  { rewrite !(hh_neg a), !(hh_neg (a - 1)) by lia. ring. }
  destruct (Z_lt_dec (b + 1) 0) as [Nb|Nb].
  { rewrite !(hh_neg b), !(hh_neg (b + 1)) by lia. ring. }
  destruct (Z_lt_dec (c + 1) 0) as [Nc|Nc].
  { rewrite !(hh_neg c), !(hh_neg (c + 1)) by lia. ring. }
  specialize (Hs ltac:(lia)). rewrite Hs1 by lia. clear Hs1.
  assert (Da : a = 0 \/ hh a = (2 * (2 * IZR a + 1) / IZR a * hh (a - 1))%R /\ 0 < a).
  { destruct (Z.eq_dec a 0); [now left|right]. split; [|lia].
    pose proof (hh_succ (a - 1)) as E. rewrite Z.sub_add in E. rewrite E by lia. rewrite minus_IZR.
    replace (IZR a - 1 + 1)%R with (IZR a) by ring. replace (2 * (IZR a - 1) + 3)%R with (2 * IZR a + 1)%R by ring.
    reflexivity. }
  assert (Db : b = -1 \/ hh (b + 1) = (2 * (2 * IZR b + 3) / (IZR b + 1) * hh b)%R /\ 0 <= b).
  { destruct (Z.eq_dec b (-1)); [now left|right]. split; [|lia]. apply hh_succ. lia. }
  assert (Dc : c = -1 \/ hh (c + 1) = (2 * (2 * IZR c + 3) / (IZR c + 1) * hh c)%R /\ 0 <= c).
  { destruct (Z.eq_dec c (-1)); [now left|right]. split; [|lia]. apply hh_succ. lia. }
  rewrite ?plus_IZR, ?minus_IZR.
  destruct Da as [->|[Ea Pa]], Db as [->|[Eb Pb]], Dc as [->|[Ec Pc]]; try lia;
    rewrite ?(hh_neg (-1)) by lia; rewrite ?(hh_neg (0 - 1)) by lia;
    change (-1 + 1) with 0; rewrite ?hh_0;
    rewrite ?Ea, ?Eb, ?Ec;
    repeat match goal with H : 0 < ?x |- _ => apply IZR_lt in H | H : 0 <= ?x |- _ => apply IZR_le in H end;
    rewrite ?plus_IZR, ?minus_IZR in *.
  all: repeat rewrite ?Rmult_0_r, ?Rmult_0_l.
  all: field; repeat split; lra.
Qed.

(** The polynomials with an integer index. *)
Definition gz (x : R) (n : Z) : R := if n <? 0 then 0%R else gegen x (Z.to_nat n).

Lemma gz_neg x n : n < 0 -> gz x n = 0%R.
Proof. intros H. unfold gz. now replace (n <? 0) with true by lia. Qed.

Lemma gegen2_fst x n : fst (gegen2 x (S n)) = snd (gegen2 x n).
Proof. cbn [gegen2]. destruct (gegen2 x n). reflexivity. Qed.

Lemma gz_step x u : 0 <= u ->
  ((IZR u + 1) * gz x (u + 1) = (2 * IZR u + 3) * x * gz x u - (IZR u + 2) * gz x (u - 1))%R.
Proof.
  intros H. destruct (Z.eq_dec u 0) as [->|N].
  - rewrite (gz_neg x (0 - 1)) by lia. change (gz x (0 + 1)) with (3 * x)%R. change (gz x 0) with 1%R. ring.
  - unfold gz. replace (u + 1 <? 0) with false by lia. replace (u <? 0) with false by lia.
    replace (u - 1 <? 0) with false by lia. unfold gegen.
    replace (Z.to_nat (u + 1)) with (S (S (Z.to_nat (u - 1)))) by lia.
    replace (Z.to_nat u) with (S (Z.to_nat (u - 1))) by lia.
    rewrite !gegen2_fst. cbn [gegen2]. pose proof (gegen2_fst x (Z.to_nat (u - 1))) as E.
    destruct (gegen2 x (Z.to_nat (u - 1))) as [p q]. cbn [fst snd].
    rewrite INR_IZR_INZ, Z2Nat.id, minus_IZR by lia.
    assert (0 < IZR u)%R by (apply (IZR_lt 0); lia). field. lra.
Qed.

Lemma gz_x x u : 0 <= u ->
  (x * gz x u = (IZR u + 1) / (2 * IZR u + 3) * gz x (u + 1) + (IZR u + 2) / (2 * IZR u + 3) * gz x (u - 1))%R.
Proof.
  intros H. pose proof (gz_step x u H) as E. pose proof (IZR_le 0 u H).
  transitivity (((IZR u + 1) * gz x (u + 1) + (IZR u + 2) * gz x (u - 1)) / (2 * IZR u + 3))%R; [|field; lra].
  rewrite E. field. lra.
Qed.

Lemma KK_above w v u : 0 <= u -> w + v < u -> KK w v u = 0%R.
Proof. intros H0 H. destruct (KK_out w v u) as [E|E]; [tauto|exact E|lia]. Qed.

Lemma KK_0 v u : 0 <= v -> 0 <= u -> KK 0 v u = if u =? v then 1%R else 0%R.
Proof.
  intros Hv Hu. destruct (u =? v) eqn:E.
  - assert (u = v) by lia. subst u. pose proof (KK_abc 0 0 v) as K. rewrite !Z.add_0_l in K.
    rewrite K, hh_0, hh_succ by assumption. pose proof (hh_pos v Hv). pose proof (IZR_le 0 v Hv).
    field. lra.
  - destruct (KK_out 0 v u) as [K|K]; [lia|exact K|lia].
Qed.

Lemma KK_m1 v u : 0 <= v -> 0 <= u -> KK (-1) v u = 0%R.
Proof.
  intros Hv Hu. unfold KK. destruct (is_odd (-1 + v + u)) eqn:E; [reflexivity|]. unfold is_odd in E. cbv zeta.
  destruct (Z_lt_dec ((-1 + v + u) / 2 - u) 0); [rewrite (hh_neg ((-1 + v + u) / 2 - u)) by lia; ring|].
  rewrite (hh_neg ((-1 + v + u) / 2 - v)) by lia. ring.
Qed.

Lemma linearize x v n : 0 <= v ->
  (forall N, Z.of_nat n - 1 + v < Z.of_nat N ->
     (gz x (Z.of_nat n - 1) * gz x v)%R = rsum (fun u => (KK (Z.of_nat n - 1) v u * gz x u)%R) N) /\
  (forall N, Z.of_nat n + v < Z.of_nat N ->
     (gz x (Z.of_nat n) * gz x v)%R = rsum (fun u => (KK (Z.of_nat n) v u * gz x u)%R) N).
Proof.
  intros Hv. induction n as [|n [IH1 IH2]].
  - split; intros N HN.
    + rewrite gz_neg by lia. rewrite rsum_zero; [ring|]. intros k Hk. change (Z.of_nat 0 - 1) with (-1).
      rewrite KK_m1 by lia. ring.
    + rewrite (rsum_single _ N v); [|lia|].
      * rewrite KK_0 by lia. rewrite Z.eqb_refl. change (gz x (Z.of_nat 0)) with 1%R. ring.
      * intros k Hk Hne. rewrite KK_0 by lia. replace (k =? v) with false by lia. ring.
  - replace (Z.of_nat (S n) - 1) with (Z.of_nat n) by lia. split; [exact IH2|].
    intros N HN. set (w := Z.of_nat n - 1) in *.
    replace (Z.of_nat (S n)) with (w + 2) in * by lia. replace (Z.of_nat n) with (w + 1) in * by lia.
    specialize (IH1 N ltac:(lia)). specialize (IH2 N ltac:(lia)).
    assert (Pw : (0 <= IZR w + 1)%R) by (rewrite <- plus_IZR; apply IZR_le; lia).
    apply (Rmult_eq_reg_l (IZR w + 2)); [|lra].
    pose proof (gz_step x (w + 1) ltac:(lia)) as G. rewrite !plus_IZR in G.
    replace (w + 1 + 1) with (w + 2) in G by ring. replace (w + 1 - 1) with w in G by ring.
    rewrite <- rsum_scal.
    rewrite (rsum_ext _ (fun u => ((2 * IZR w + 5) * (IZR u / (2 * IZR u + 1) * KK (w + 1) v (u - 1) * gz x u
                        + (IZR u + 3) / (2 * IZR u + 5) * KK (w + 1) v (u + 1) * gz x u)
                        + - (IZR w + 3) * (KK w v u * gz x u))%R)).
    2: { intros u Hu. rewrite <- Rmult_assoc, (KK_step w v u) by lia. ring. }
    rewrite rsum_plus, !rsum_scal, <- IH1, rsum_plus.
    set (F := fun u => (IZR u / (2 * IZR u + 1) * KK (w + 1) v (u - 1) * gz x u)%R).
    set (H := fun u => ((IZR u + 2) / (2 * IZR u + 3) * KK (w + 1) v u * gz x (u - 1))%R).
    assert (EF : rsum F N = rsum (fun u => F (u + 1)) N).
    { pose proof (rsum_front F N) as E. cbn [rsum] in E.
      replace (F (Z.of_nat N)) with 0%R in E.
      2: { unfold F. rewrite (KK_above (w + 1) v (Z.of_nat N - 1)) by lia. ring. }
      replace (F 0) with 0%R in E by (unfold F; unfold Rdiv; ring). lra. }
    assert (EH : rsum H N = rsum (fun u => H (u + 1)) N).
    { pose proof (rsum_front H N) as E. cbn [rsum] in E.
      replace (H (Z.of_nat N)) with 0%R in E.
      2: { unfold H. rewrite (KK_above (w + 1) v (Z.of_nat N)) by lia. ring. }
      replace (H 0) with 0%R in E.
      2: { unfold H. rewrite (gz_neg x (0 - 1)) by lia. ring. }
      lra. }
    rewrite (rsum_ext (fun k => ((IZR k + 3) / (2 * IZR k + 5) * KK (w + 1) v (k + 1) * gz x k)%R)
              (fun u => H (u + 1))).
    2: { intros k Hk. unfold H. rewrite plus_IZR. replace (k + 1 - 1) with k by ring.
         replace (IZR k + 1 + 2)%R with (IZR k + 3)%R by ring.
         replace (2 * (IZR k + 1) + 3)%R with (2 * IZR k + 5)%R by ring. reflexivity. }
    fold F. rewrite <- EH, EF.
    assert (X : (x * (gz x (w + 1)%Z * gz x v) = rsum (fun u => F (u + 1)%Z) N + rsum H N)%R).
    { rewrite IH2, <- rsum_scal, <- rsum_plus. apply rsum_ext. intros u Hu.
      replace (x * (KK (w + 1)%Z v u * gz x u))%R with (KK (w + 1)%Z v u * (x * gz x u))%R by ring.
      rewrite gz_x by lia. unfold F, H. rewrite plus_IZR. replace (u + 1 - 1) with u by ring.
      replace (2 * (IZR u + 1) + 1)%R with (2 * IZR u + 3)%R by ring. ring. }
    rewrite <- X. replace ((IZR w + 2) * (gz x (w + 2)%Z * gz x v))%R
      with ((IZR w + 1 + 1) * gz x (w + 2)%Z * gz x v)%R by ring.
    rewrite G. ring.
Qed.

(** ** The matrix elements *)
Definition coupled (u w v : Z) : Prop :=
  w <= u + v /\ v <= u + w /\ u <= v + w /\ (u + w + v) mod 2 = 0.

Lemma KK_nonneg w v u : 0 <= w -> 0 <= v -> 0 <= u -> (0 <= KK w v u)%R.
Proof.
  intros Hw Hv Hu. unfold KK. destruct (is_odd (w + v + u)); [lra|]. cbv zeta.
  assert (P : forall n, (0 <= hh n)%R).
  { intros n. destruct (Z_lt_dec n 0); [rewrite hh_neg by assumption; lra|]. apply Rlt_le, hh_pos. lia. }
  pose proof (hh_pos ((w + v + u) / 2 + 1) ltac:(lia)).
  assert (0 <= IZR ((w + v + u) / 2))%R by (apply IZR_le; lia). pose proof (IZR_le 0 u Hu).
  repeat apply Rmult_le_pos; try apply P; try lra.
  - apply Rlt_le. now apply Rinv_0_lt_compat.
  - apply Rlt_le. apply Rinv_0_lt_compat. apply Rmult_lt_0_compat; lra.
Qed.

Lemma KK_pos w v u : 0 <= w -> 0 <= v -> 0 <= u -> coupled u w v -> (0 < KK w v u)%R.
Proof.
  intros Hw Hv Hu (A & B & C & D). unfold KK, is_odd. replace ((w + v + u) mod 2 =? 1) with false by lia. cbv zeta.
  pose proof (hh_pos ((w + v + u) / 2 + 1) ltac:(lia)).
  pose proof (hh_pos ((w + v + u) / 2 - u) ltac:(lia)).
  pose proof (hh_pos ((w + v + u) / 2 - v) ltac:(lia)).
  pose proof (hh_pos ((w + v + u) / 2 - w) ltac:(lia)).
  assert (0 <= IZR ((w + v + u) / 2))%R by (apply IZR_le; lia). pose proof (IZR_le 0 u Hu).
  apply Rmult_lt_0_compat; [apply Rmult_lt_0_compat; [apply Rmult_lt_0_compat; [apply Rmult_lt_0_compat|]|]|];
    try assumption.
  - apply Rdiv_lt_0_compat; lra.
  - apply Rdiv_lt_0_compat; [lra|]. apply Rmult_lt_0_compat; lra.
Qed.

Lemma ME_ok u w v : 0 <= u -> 0 <= w -> 0 <= v ->
  exists m, ME_SO5red u w v = Ok (Some m) /\ (0 <= m)%R /\
    (m * m = (2 * IZR v + 3) * (2 * IZR w + 3) / (2 * IZR u + 3) * KK w v u)%R.
Proof.
  intros Hu Hw Hv. unfold ME_SO5red. rewrite !require_nonnegint_ok by lia. cbn [bind].
  destruct ((u + v <? w) || (u + w <? v) || (v + w <? u) || is_odd (u + v + w)) eqn:E.
  - exists 0%R. split; [reflexivity|]. split; [lra|].
    replace (KK w v u) with 0%R; [ring|]. symmetry. unfold is_odd in E.
    destruct ((u + v + w) mod 2 =? 1) eqn:O; [apply KK_odd; lia|].
    destruct (KK_out w v u) as [K|K]; [lia|exact K|lia].
  - unfold is_odd in E.
    assert (T : coupled u w v) by (unfold coupled; lia).
    pose proof (KK_pos w v u Hw Hv Hu T) as KP. destruct T as (T1 & T2 & T3 & T4). clear E.
    cbv zeta. rewrite (sfact_ok (v + w + u + 2)), (sfact_ok (v + w + u - 2 * u)), (sfact_ok (v + w + u - 2 * v)),
      (sfact_ok (v + w + u - 2 * w)) by lia. cbn [obind].
    set (s := (w + v + u) / 2) in *.
    replace (ft (v + w + u + 2)) with (fac (s + 1)) by (unfold ft, fac; do 3 f_equal; lia).
    replace (ft (v + w + u - 2 * u)) with (fac (s - u)) by (unfold ft, fac; do 3 f_equal; lia).
    replace (ft (v + w + u - 2 * v)) with (fac (s - v)) by (unfold ft, fac; do 3 f_equal; lia).
    replace (ft (v + w + u - 2 * w)) with (fac (s - w)) by (unfold ft, fac; do 3 f_equal; lia).
    pose proof (fac_pos (s + 1)) as F0. pose proof (fac_pos (s - u)) as F1. pose proof (fac_pos (s - v)) as F2.
    pose proof (fac_pos (s - w)) as F3.
    assert (D : (0 < fac (s - u) * fac (s - v) * fac (s - w))%R)
      by (apply Rmult_lt_0_compat; [apply Rmult_lt_0_compat|]; assumption).
    rewrite (sdiv_ok _ (fac (s - u) * fac (s - v) * fac (s - w))%R) by (apply Rgt_not_eq; exact D).
    cbn [obind]. rewrite !sfact_ok by lia. cbn [obind].
    replace (ft (2 * (v + w + u - 2 * u + 1))) with (fac (2 * (s - u) + 1)) by (unfold ft, fac; do 3 f_equal; lia).
    replace (ft (2 * (v + w + u - 2 * w + 1))) with (fac (2 * (s - w) + 1)) by (unfold ft, fac; do 3 f_equal; lia).
    replace (ft (2 * (v + w + u - 2 * v + 1))) with (fac (2 * (s - v) + 1)) by (unfold ft, fac; do 3 f_equal; lia).
    replace (ft (2 * (v + w + u + 3))) with (fac (2 * (s + 1) + 1)) by (unfold ft, fac; do 3 f_equal; lia).
    pose proof (fac_pos (2 * (s + 1) + 1)) as G0. pose proof (fac_pos (2 * (s - u) + 1)) as G1.
    pose proof (fac_pos (2 * (s - v) + 1)) as G2. pose proof (fac_pos (2 * (s - w) + 1)) as G3.
    pose proof (IZR_le 0 u Hu) as Pu. pose proof (IZR_le 0 v Hv) as Pv. pose proof (IZR_le 0 w Hw) as Pw.
    rewrite (sdiv_ok _ (IZR (u + 2))) by (rewrite plus_IZR; lra). cbn [obind].
    rewrite (sdiv_ok _ (IZR (u + 1))) by (rewrite plus_IZR; lra). cbn [obind].
    rewrite (sdiv_ok _ (fac (2 * (s + 1) + 1))) by lra. cbn [obind].
    set (X := (IZR ((2 * v + 3) * (2 * w + 3) * (v + w + u + 4)) / IZR (u + 2) / IZR (u + 1)
        * fac (2 * (s - u) + 1) * fac (2 * (s - w) + 1) * fac (2 * (s - v) + 1) / fac (2 * (s + 1) + 1))%R).
    assert (PX : (0 <= X)%R).
    { unfold X. repeat apply Rmult_le_pos; try lra; try (apply Rlt_le, Rinv_0_lt_compat);
        rewrite ?plus_IZR; try lra. apply IZR_le. nia. }
    rewrite ssqrt_ok by exact PX. eexists. split; [reflexivity|].
    split.
    + apply Rmult_le_pos; [|apply sqrt_pos]. apply Rlt_le. now apply Rdiv_lt_0_compat.
    + match goal with |- (?q * sqrt X * (?q * sqrt X) = _)%R =>
        replace (q * sqrt X * (q * sqrt X))%R with (q * q * (sqrt X * sqrt X))%R by ring end.
      rewrite sqrt_sqrt by exact PX. unfold X, KK, is_odd.
      replace ((w + v + u) mod 2 =? 1) with false by lia. cbv zeta. fold s.
      rewrite !hh_nonneg by lia.
      replace (v + w + u + 4) with (2 * s + 4) by lia.
      rewrite !mult_IZR, !plus_IZR, !mult_IZR. field. repeat split; lra.
Qed.
