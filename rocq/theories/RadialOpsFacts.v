(** Facts about RadialOps.v. *)

From Coq Require Import Reals Lia ZifyBool ZifyNat Lra.
From Verif Require Import PyBase PyFacts Compat Matrix SphericalFacts RadialOps RadialSpec.
Open Scope Z_scope.
Ltac Zify.zify_post_hook ::= Z.div_mod_to_equations.

(** ** Algebra *)
Section Alg.
  Variable A : alg.
  Notation "x * y" := (mul A x y).

  Lemma npow_add (x : A) m n : npow A x (m + n) = npow A x m * npow A x n.
  Proof.
    induction m as [|m IH]; cbn [Nat.add npow]; [now rewrite mul_1_l|].
    now rewrite IH, mul_assoc.
  Qed.

  Lemma npow_comm1 (x : A) n : npow A x n * x = x * npow A x n.
  Proof.
    induction n as [|n IH]; cbn [npow]; [now rewrite mul_1_l, mul_1_r|].
    now rewrite <- mul_assoc, IH.
  Qed.

  Lemma beta_pow_0 : beta_pow A 0 = one A.
  Proof. reflexivity. Qed.

  Lemma beta_pow_succ K : beta_pow A (K + 1) = beta A * beta_pow A K.
  Proof.
    unfold beta_pow.
    destruct (0 <=? K) eqn:E.
    - replace (0 <=? K + 1) with true by lia.
      replace (Z.to_nat (K + 1)) with (S (Z.to_nat K)) by lia. reflexivity.
    - destruct (Z.eq_dec K (-1)) as [->|N].
      + change (one A = beta A * (beta_inv A * one A)). now rewrite mul_1_r, beta_r.
      + replace (0 <=? K + 1) with false by lia.
        replace (Z.to_nat (- K)) with (S (Z.to_nat (- (K + 1)))) by lia.
        cbn [npow]. now rewrite mul_assoc, beta_r, mul_1_l.
  Qed.

  Lemma beta_pow_pred K : beta_pow A (K - 1) = beta_inv A * beta_pow A K.
  Proof.
    replace (beta_pow A K) with (beta_pow A (K - 1 + 1)) by (f_equal; lia).
    rewrite beta_pow_succ, mul_assoc, beta_l, mul_1_l. reflexivity.
  Qed.

  Lemma deriv_pow_add a b : 0 <= a -> 0 <= b ->
    deriv_pow A (a + b) = deriv_pow A a * deriv_pow A b.
  Proof.
    intros. unfold deriv_pow. rewrite <- npow_add. f_equal. lia.
  Qed.

  Lemma oprod_app (l1 l2 : list A) : oprod A (l1 ++ l2) = oprod A l1 * oprod A l2.
  Proof.
    induction l1 as [|x l1 IH]; cbn [oprod app]; [now rewrite mul_1_l|].
    now rewrite IH, mul_assoc.
  Qed.

  Lemma word_op_app w1 w2 : word_op A (w1 ++ w2) = word_op A w1 * word_op A w2.
  Proof. unfold word_op. now rewrite map_app, oprod_app. Qed.

  Lemma elems_op_app l1 l2 : elems_op A (l1 ++ l2) = elems_op A l1 * elems_op A l2.
  Proof. unfold elems_op. now rewrite map_app, oprod_app. Qed.

  Definition st_op (st : parse_state) : A :=
    let '(P, K, T) := st in
    beta_pow A K * (deriv_pow A T * oprod A (map (ktsop_op A) P)).

  Lemma parse_step_op op st st' :
    parse_step op st = Ok st' -> 0 <= snd st ->
    st_op st' = sym_op A op * st_op st.
  Proof.
    destruct st as [[P K] T]. cbn [snd].
    intros H HT.
    assert (mk : mk_KTOp K T = Ok (KTOp K T)).
    { unfold mk_KTOp, require_nonnegint, raise_if.
      replace (T <? 0) with false by lia. reflexivity. }
    assert (E1 : deriv_pow A 1 = deriv A) by apply mul_1_r.
    assert (E2 : deriv_pow A 2 = deriv A * deriv A).
    { change (deriv A * (deriv A * one A) = deriv A * deriv A). now rewrite mul_1_r. }
    assert (E0 : deriv_pow A 0 = one A) by reflexivity.
    destruct op; cbn [parse_step] in H;
      unfold parse_S, parse_D, parse_bD, parse_b in H;
      cbn [mk_SOp Z.eqb Z.sub Z.pos_sub Z.opp Z.add orb negb raise_if bind] in H;
      try rewrite mk in H; cbn [bind] in H.
    1-3: destruct (negb (K =? 0) || (0 <? T)) eqn:E; injection H as <-;
      cbn [st_op map oprod ktsop_op]; cbn [Z.eqb];
      [ rewrite beta_pow_0, E0, !mul_1_l, !mul_assoc; reflexivity
      | replace K with 0 by lia; replace T with 0 by lia;
        rewrite beta_pow_0, E0, !mul_1_l; reflexivity ].
    all: try match type of H with context [negb (?k =? 0)] =>
      destruct (negb (k =? 0)) eqn:E; cbn [bind] in H; injection H as <-;
      cbn [st_op map oprod ktsop_op sym_op] end.
    all: try (injection H as <-); cbn [st_op sym_op].
    - replace (K + 2) with (K + 1 + 1) by lia.
      now rewrite !beta_pow_succ, !mul_assoc.
    - replace (K + -2) with (K - 1 - 1) by lia.
      now rewrite !beta_pow_pred, !mul_assoc.
    - rewrite beta_pow_0, E2, !mul_1_l, !mul_assoc. reflexivity.
    - replace K with 0 by lia. rewrite beta_pow_0, !mul_1_l.
      rewrite (Z.add_comm T 2), deriv_pow_add, E2 by lia. now rewrite !mul_assoc.
    - change (beta_pow A 1) with (beta A * one A). rewrite E1, mul_1_r, !mul_assoc.
      reflexivity.
    - change (beta_pow A 1) with (beta A * one A). replace K with 0 by lia.
      rewrite beta_pow_0, !mul_1_l, mul_1_r, (Z.add_comm T 1), deriv_pow_add, E1 by lia.
      now rewrite !mul_assoc.
    - now rewrite !beta_pow_succ, !mul_assoc.
    - replace (K + -1) with (K - 1) by lia. now rewrite !beta_pow_pred, !mul_assoc.
    - rewrite beta_pow_0, E1, !mul_1_l, !mul_assoc. reflexivity.
    - replace K with 0 by lia. rewrite beta_pow_0, !mul_1_l.
      rewrite (Z.add_comm T 1), deriv_pow_add, E1 by lia. now rewrite !mul_assoc.
    - discriminate.
  Qed.
End Alg.

(** ** Parsing *)

Definition wf_state (st : parse_state) : Prop :=
  let '(P, K, T) := st in 0 <= T /\ Forall valid_op P.

Definition total_degree (ops : list ktsop) : Z := zsum (map degree ops).

Lemma mk_KTOp_ok K T : 0 <= T -> mk_KTOp K T = Ok (KTOp K T).
Proof.
  intros. unfold mk_KTOp, require_nonnegint, raise_if.
  replace (T <? 0) with false by lia. reflexivity.
Qed.

(** A basic symbol never makes a step raise; degrees never grow by more than
    the degree of the symbol and keep its parity. *)
Definition st_degree (st : parse_state) : Z :=
  let '(P, K, T) := st in Z.abs K + T + total_degree P.

Lemma parse_step_ok op st : is_basic op = true -> wf_state st ->
  exists st', parse_step op st = Ok st' /\ wf_state st' /\
    st_degree st' <= st_degree st + sym_degree op /\
    (st_degree st' - st_degree st - sym_degree op) mod 2 = 0.
Proof.
  destruct st as [[P K] T]. intros Hb [HT HP].
  unfold total_degree in *.
  destruct op; try discriminate Hb; cbn [parse_step];
    unfold parse_S, parse_D, parse_bD, parse_b;
    cbn [mk_SOp Z.eqb Z.sub Z.pos_sub Z.opp Z.add orb negb raise_if bind];
    try rewrite (mk_KTOp_ok K T HT); cbn [bind];
    try match goal with |- context [if ?b then _ else _] => destruct b eqn:E end;
    eexists; (split; [reflexivity|]); cbn [wf_state st_degree sym_degree];
    unfold total_degree; cbn [map degree]; rewrite ?zsum_cons;
    repeat split; repeat apply Forall_cons; cbn [valid_op]; auto;
    try (generalize (zsum (map degree P)); intros); try lia.
Qed.

Lemma parse_loop_ok ops : forall st, forallb is_basic ops = true -> wf_state st ->
  exists st', parse_loop ops st = Ok st' /\ wf_state st' /\
    st_degree st' <= st_degree st + word_degree ops /\
    (st_degree st' - st_degree st - word_degree ops) mod 2 = 0.
Proof.
  unfold word_degree.
  induction ops as [|op ops IH]; intros st Hb Hw; cbn [parse_loop forallb map] in *.
  - exists st. split; [reflexivity|]. split; [assumption|]. cbn [zsum fold_right]. lia.
  - apply andb_true_iff in Hb as [H1 H2].
    destruct (parse_step_ok op st H1 Hw) as (st1 & E1 & W1 & D1 & M1).
    destruct (IH st1 H2 W1) as (st2 & E2 & W2 & D2 & M2).
    exists st2. rewrite E1. cbn [bind]. rewrite zsum_cons.
    split; [assumption|]. split; [assumption|]. lia.
Qed.

Lemma parse_loop_bad ops : forall st, forallb is_basic ops = false -> wf_state st ->
  parse_loop ops st = Raise ValueError.
Proof.
  induction ops as [|op ops IH]; intros st Hb Hw; cbn [parse_loop forallb] in *;
    [discriminate|].
  destruct (is_basic op) eqn:E.
  - destruct (parse_step_ok op st E Hw) as (st1 & E1 & W1 & _).
    rewrite E1. cbn [bind]. apply IH; auto.
  - destruct op; try discriminate E. reflexivity.
Qed.

Lemma forallb_rev {A} (f : A -> bool) l : forallb f (rev l) = forallb f l.
Proof.
  induction l as [|a l IH]; [reflexivity|].
  cbn [rev forallb]. rewrite forallb_app, IH. cbn [forallb].
  rewrite andb_true_r. apply andb_comm.
Qed.

Lemma zsum_rev l : zsum (rev l) = zsum l.
Proof.
  induction l as [|a l IH]; [reflexivity|].
  cbn [rev]. rewrite zsum_app, IH, !zsum_cons. cbn [zsum fold_right]. lia.
Qed.

Lemma word_degree_rev w : word_degree (rev w) = word_degree w.
Proof. unfold word_degree. now rewrite map_rev, zsum_rev. Qed.

Lemma parse_spec w : forallb is_basic w = true ->
  exists ops, Parse_RadialOp_List w = Ok ops /\ Forall valid_op ops /\
    total_degree ops <= word_degree w /\
    (total_degree ops - word_degree w) mod 2 = 0.
Proof.
  intros Hb. unfold Parse_RadialOp_List.
  destruct (parse_loop_ok (rev w) ([], 0, 0)) as ([[P K] T] & E & W & D & M).
  { now rewrite forallb_rev. }
  { split; [lia|constructor]. }
  rewrite E. cbn [bind]. rewrite word_degree_rev in *.
  cbn [st_degree total_degree map zsum fold_right Z.abs] in D, M.
  destruct W as [HT HP]. unfold total_degree in *.
  destruct (negb (K =? 0) || (0 <? T)) eqn:E1.
  - rewrite mk_KTOp_ok by assumption. cbn [bind].
    eexists; split; [reflexivity|]. split; [constructor; auto|].
    cbn [map degree]. rewrite zsum_cons.
    revert D M. generalize (zsum (map degree P)) (word_degree w). intros. lia.
  - eexists; split; [reflexivity|]. split; [assumption|].
    revert D M. generalize (zsum (map degree P)) (word_degree w). intros. lia.
Qed.

Lemma parse_loop_op (A : alg) ops : forall st st',
  parse_loop ops st = Ok st' -> wf_state st ->
  st_op A st' = mul A (word_op A (rev ops)) (st_op A st) /\ wf_state st'.
Proof.
  induction ops as [|op ops IH]; intros st st' H Hw; cbn [parse_loop rev] in *.
  - injection H as <-. split; [|assumption]. cbn. now rewrite mul_1_l.
  - destruct (is_basic op) eqn:E.
    2: { destruct op; try discriminate E. discriminate H. }
    destruct (parse_step_ok op st E Hw) as (st1 & E1 & W1 & _).
    rewrite E1 in H. cbn [bind] in H.
    destruct (IH _ _ H W1) as [H2 W2]. split; [|assumption].
    rewrite H2. rewrite word_op_app, <- mul_assoc. f_equal.
    rewrite (parse_step_op A op st st1 E1).
    + unfold word_op. cbn. now rewrite mul_1_r.
    + destruct st as [[P K] T]. cbn. apply Hw.
Qed.

Lemma parse_op (A : alg) w ops : Parse_RadialOp_List w = Ok ops ->
  oprod A (map (ktsop_op A) ops) = word_op A w.
Proof.
  unfold Parse_RadialOp_List. intros H.
  destruct (parse_loop (rev w) ([], 0, 0)) as [[[P K] T]|] eqn:E; [|discriminate].
  cbn [bind] in H.
  destruct (parse_loop_op A _ _ _ E) as [E2 [HT HP]].
  { split; [lia|constructor]. }
  rewrite rev_involutive in E2.
  replace (st_op A ([], 0, 0)) with (one A) in E2
    by (cbn; now rewrite !mul_1_l).
  rewrite mul_1_r in E2. rewrite <- E2. cbn [st_op].
  destruct (negb (K =? 0) || (0 <? T)) eqn:E1.
  - rewrite mk_KTOp_ok in H by assumption. cbn [bind] in H. injection H as <-.
    cbn [map oprod ktsop_op]. now rewrite mul_assoc.
  - injection H as <-. replace K with 0 by lia. replace T with 0 by lia.
    rewrite beta_pow_0. change (deriv_pow A 0) with (one A). now rewrite !mul_1_l.
Qed.
