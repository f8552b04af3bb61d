(** Facts about the SO(3) Clebsch-Gordan model: evaluation within the
    selection rules. *)

From Coq Require Import Reals QArith Lra.
From Coq Require Import Lia ZifyBool ZifyNat.
From Verif Require Import PyBase PyFacts CGSO3.
Open Scope Z_scope.
Ltac Zify.zify_post_hook ::= Z.div_mod_to_equations.

(** Factorial of an integer given by its double. *)
Definition ft (t : Z) : R := INR (fact (Z.to_nat (t / 2))).

Lemma ft_pos t : (0 < ft t)%R.
Proof. unfold ft. apply (lt_INR 0). apply lt_O_fact. Qed.

Lemma sfact_ok t : t mod 2 = 0 -> 0 <= t -> sfact t = Some (ft t).
Proof.
  intros A B. unfold sfact. replace ((t mod 2 =? 0) && (0 <=? t)) with true by lia. reflexivity.
Qed.

Lemma spow_ok t : t mod 2 = 0 -> spow t = Some (powerRZ (-1) (t / 2)).
Proof. intros H. unfold spow. now replace (t mod 2 =? 0) with true by lia. Qed.

Lemma sdiv_ok a b : b <> 0%R -> sdiv a b = Some (a / b)%R.
Proof. intros H. unfold sdiv. destruct (Req_EM_T b 0); [contradiction|reflexivity]. Qed.

Lemma ssqrt_ok a : (0 <= a)%R -> ssqrt a = Some (sqrt a).
Proof. intros H. unfold ssqrt. destruct (Rle_dec 0 a); [reflexivity|contradiction]. Qed.

Lemma half_spec q t : half q = Some t <-> (q == t # 2)%Q.
Proof.
  unfold half, Qeq. cbn [Qnum Qden]. destruct q as [n d]. cbn [Qnum Qden].
  destruct (Z.eqb_spec ((2 * n) mod Zpos d) 0) as [E|E].
  - apply Z.mod_divide in E; [|lia]. destruct E as [k Ek]. rewrite Ek.
    rewrite Z.div_mul by lia. split.
    + intros H. injection H as <-. lia.
    + intros H. f_equal. nia.
  - split; [discriminate|]. intros H. exfalso. apply E.
    replace (2 * n) with (t * Zpos d) by lia. apply Z.mod_mul. lia.
Qed.

Lemma half_None q : half q = None <-> forall t, ~ (q == t # 2)%Q.
Proof.
  split.
  - intros H t E. apply half_spec in E. congruence.
  - intros H. destruct (half q) as [t|] eqn:E; [|reflexivity]. apply half_spec in E.
    now destruct (H t).
Qed.

(** ** The selection rules, on doubles *)
Definition selected (j1 m1 j2 m2 j3 m3 : Z) : Prop :=
  Z.abs m1 <= j1 /\ Z.abs m2 <= j2 /\ Z.abs m3 <= j3 /\
  (j1 + m1) mod 2 = 0 /\ (j2 + m2) mod 2 = 0 /\ (j3 + m3) mod 2 = 0 /\
  m1 + m2 = m3 /\ Z.abs (j1 - j2) <= j3 <= j1 + j2.

(** ** Values *)
Definition tval (j1 j2 j3 m1 m3 s : Z) : R :=
  (powerRZ (-1) s * ft (j1 + m1 + 2 * s) * ft (j2 + j3 - m1 - 2 * s)
   / (ft (2 * s) * ft (j1 - m1 - 2 * s) * ft (j2 - j3 + m1 + 2 * s) * ft (j3 - m3 - 2 * s)))%R.

Definition rsumZ (f : Z -> R) (lo hi : Z) : R := fold_right Rplus 0%R (map f (py_range lo hi)).

Definition wsum (j1 j2 j3 m1 m3 : Z) : R :=
  rsumZ (tval j1 j2 j3 m1 m3) (Z.max 0 (j3 - j2 - m1) / 2) (Z.min (j3 - m3) (j1 - m1) / 2 + 1).

Definition wroot (j1 m1 j2 m2 j3 m3 : Z) : R :=
  sqrt (ft (j1 + j2 - j3) * ft (j1 - m1) * ft (j2 - m2) * ft (j3 + m3) * ft (j3 - m3)
        / (ft (j1 + j2 + j3 + 2) * ft (j1 - j2 + j3) * ft (- j1 + j2 + j3) * ft (j1 + m1) * ft (j2 + m2))).

Definition cgval (j1 m1 j2 m2 j3 m3 : Z) : R :=
  (powerRZ (-1) ((j1 - j2 + m3) / 2)
   * (powerRZ (-1) ((2 * j1 - j2 + m2) / 2) * wroot j1 m1 j2 m2 j3 m3 * wsum j1 j2 j3 m1 m3
      * sqrt (IZR (j3 + 1))))%R.

Lemma wterm_ok j1 m1 j2 m2 j3 m3 s : selected j1 m1 j2 m2 j3 m3 ->
  0 <= s -> j3 - j2 - m1 <= 2 * s -> 2 * s <= j3 - m3 -> 2 * s <= j1 - m1 ->
  wterm j1 j2 j3 m1 m2 (- m3) s = Some (tval j1 j2 j3 m1 m3 s).
Proof.
  intros (A1 & A2 & A3 & P1 & P2 & P3 & HM & T) H1 H2 H3 H4. unfold wterm.
  rewrite spow_ok by lia. cbn [obind].
  rewrite !sfact_ok by lia. cbn [obind].
  rewrite sdiv_ok.
  - f_equal. unfold tval. replace (2 * s / 2) with s by lia.
    replace (j3 + - m3 - 2 * s) with (j3 - m3 - 2 * s) by ring. reflexivity.
  - pose proof (ft_pos (2 * s)). pose proof (ft_pos (j1 - m1 - 2 * s)).
    pose proof (ft_pos (j2 - j3 + m1 + 2 * s)). pose proof (ft_pos (j3 + - m3 - 2 * s)).
    apply Rgt_not_eq. repeat apply Rmult_lt_0_compat; assumption.
Qed.

Lemma osum_ok (f : Z -> option R) (g : Z -> R) l : (forall x, In x l -> f x = Some (g x)) ->
  osum (map f l) = Some (fold_right Rplus 0%R (map g l)).
Proof.
  induction l as [|x l IH]; intros H; [reflexivity|]. cbn [map osum fold_right].
  rewrite (H x) by now left. cbn [obind]. rewrite IH by (intros; apply H; now right). reflexivity.
Qed.

Lemma Wigner_ok j1 m1 j2 m2 j3 m3 : selected j1 m1 j2 m2 j3 m3 ->
  Wigner_3j j1 j2 j3 m1 m2 (- m3)
  = Ok (Some (powerRZ (-1) ((2 * j1 - j2 + m2) / 2) * wroot j1 m1 j2 m2 j3 m3
              * wsum j1 j2 j3 m1 m3)%R).
Proof.
  intros HS. pose proof HS as (A1 & A2 & A3 & P1 & P2 & P3 & HM & T). unfold Wigner_3j.
  replace (j3 + - m3) with (j3 - m3) by ring.
  set (lo := Z.max 0 (j3 - j2 - m1)). set (hi := Z.min (j3 - m3) (j1 - m1)).
  assert (L2 : lo mod 2 = 0) by lia. assert (H2 : hi mod 2 = 0) by lia.
  replace (negb (lo mod 2 =? 0) || negb (hi mod 2 =? 0)) with false by lia.
  cbn [raise_if bind]. f_equal.
  rewrite spow_ok by lia. cbn [obind].
  replace (j3 - - m3) with (j3 + m3) by ring.
  rewrite !sfact_ok by lia. cbn [obind].
  assert (HD : (0 < ft (j1 + j2 + j3 + 2) * ft (j1 - j2 + j3) * ft (- j1 + j2 + j3) * ft (j1 + m1)
                * ft (j2 + m2))%R) by (repeat apply Rmult_lt_0_compat; apply ft_pos).
  assert (HN : (0 < ft (j1 + j2 - j3) * ft (j1 - m1) * ft (j2 - m2) * ft (j3 + m3) * ft (j3 - m3))%R)
    by (repeat apply Rmult_lt_0_compat; apply ft_pos).
  rewrite sdiv_ok by lra. cbn [obind].
  rewrite ssqrt_ok; [|apply Rlt_le, Rmult_lt_0_compat; [exact HN|now apply Rinv_0_lt_compat]].
  cbn [obind].
  rewrite (osum_ok _ (tval j1 j2 j3 m1 m3)); [reflexivity|].
  intros s Hs. apply py_range_In in Hs. apply wterm_ok; [exact HS|lia|lia|lia|lia].
Qed.

Lemma CG_SO3_ok qj1 qm1 qj2 qm2 qj3 qm3 j1 m1 j2 m2 j3 m3 :
  (qj1 == j1 # 2)%Q -> (qm1 == m1 # 2)%Q -> (qj2 == j2 # 2)%Q -> (qm2 == m2 # 2)%Q ->
  (qj3 == j3 # 2)%Q -> (qm3 == m3 # 2)%Q ->
  selected j1 m1 j2 m2 j3 m3 ->
  CG_SO3 qj1 qm1 qj2 qm2 qj3 qm3 = Ok (Some (cgval j1 m1 j2 m2 j3 m3)).
Proof.
  intros E1 E2 E3 E4 E5 E6 HS. apply half_spec in E1, E2, E3, E4, E5, E6.
  unfold CG_SO3. rewrite E1, E2, E3, E4, E5, E6.
  pose proof HS as (A1 & A2 & A3 & P1 & P2 & P3 & HM & T).
  replace ((j1 <? Z.abs m1) || (j2 <? Z.abs m2) || (j3 <? Z.abs m3)) with false by lia.
  replace (negb (((j1 + m1) mod 2 =? 0) && ((j2 + m2) mod 2 =? 0) && ((j3 + m3) mod 2 =? 0)))
    with false by lia.
  replace (negb (m1 + m2 =? m3)) with false by lia.
  replace ((j3 <? Z.abs (j1 - j2)) || (j1 + j2 <? j3)) with false by lia.
  rewrite Wigner_ok by assumption. cbn [bind]. f_equal.
  rewrite spow_ok by lia. cbn [obind].
  rewrite ssqrt_ok by (apply (IZR_le 0); lia). cbn [obind]. reflexivity.
Qed.

Lemma CG_SO3_zero qj1 qm1 qj2 qm2 qj3 qm3 j1 m1 j2 m2 j3 m3 :
  (qj1 == j1 # 2)%Q -> (qm1 == m1 # 2)%Q -> (qj2 == j2 # 2)%Q -> (qm2 == m2 # 2)%Q ->
  (qj3 == j3 # 2)%Q -> (qm3 == m3 # 2)%Q ->
  ~ selected j1 m1 j2 m2 j3 m3 ->
  CG_SO3 qj1 qm1 qj2 qm2 qj3 qm3 = Ok (Some 0%R).
Proof.
  intros E1 E2 E3 E4 E5 E6 HS. apply half_spec in E1, E2, E3, E4, E5, E6.
  unfold CG_SO3. rewrite E1, E2, E3, E4, E5, E6.
  destruct ((j1 <? Z.abs m1) || (j2 <? Z.abs m2) || (j3 <? Z.abs m3)) eqn:B1; [reflexivity|].
  destruct (negb (((j1 + m1) mod 2 =? 0) && ((j2 + m2) mod 2 =? 0) && ((j3 + m3) mod 2 =? 0)))
    eqn:B2; [reflexivity|].
  destruct (negb (m1 + m2 =? m3)) eqn:B3; [reflexivity|].
  destruct ((j3 <? Z.abs (j1 - j2)) || (j1 + j2 <? j3)) eqn:B4; [reflexivity|].
  exfalso. apply HS. unfold selected. lia.
Qed.

Lemma CG_SO3_ValueError qj1 qm1 qj2 qm2 qj3 qm3 :
  ~ (exists j1 m1 j2 m2 j3 m3, (qj1 == j1 # 2)%Q /\ (qm1 == m1 # 2)%Q /\ (qj2 == j2 # 2)%Q /\
       (qm2 == m2 # 2)%Q /\ (qj3 == j3 # 2)%Q /\ (qm3 == m3 # 2)%Q) ->
  CG_SO3 qj1 qm1 qj2 qm2 qj3 qm3 = Raise ValueError.
Proof.
  intros N. unfold CG_SO3.
  destruct (half qj1) eqn:E1; [|reflexivity]. destruct (half qm1) eqn:E2; [|reflexivity].
  destruct (half qj2) eqn:E3; [|reflexivity]. destruct (half qm2) eqn:E4; [|reflexivity].
  destruct (half qj3) eqn:E5; [|reflexivity]. destruct (half qm3) eqn:E6; [|reflexivity].
  exfalso. apply N. do 6 eexists. repeat split; apply half_spec; eassumption.
Qed.
