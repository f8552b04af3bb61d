(** Facts about [RepRadialshfs_Prod] and [RepRadial_Prod_common] (RadialOps.v). *)

From Coq Require Import Reals Lia ZifyBool ZifyNat Lra.
From Verif Require Import PyBase PyFacts Compat Matrix SphericalFacts RadialOps RadialSpec
  RadialOpsFacts LambdaFacts SplitsFacts.
Open Scope Z_scope.
Ltac Zify.zify_post_hook ::= Z.div_mod_to_equations.

(** ** One factor *)

(** Powers of [a] carried by a parsed operator. *)
Definition op_pow (p : ktsop) : Z :=
  match p with KTOp K T => T - K | SOp _ => 0 end.

Definition step_ok (op : ktsop) (lambdaa : R) (R_ : Z) : Prop :=
  match op with
  | KTOp _ _ => (0 < lambdaa)%R /\ (0 < lambdaa + IZR R_)%R
  | SOp _ => R_ = 0
  end.

Lemma step_ok_dec op lambdaa R_ : {step_ok op lambdaa R_} + {~ step_ok op lambdaa R_}.
Proof.
  destruct op; cbn [step_ok].
  - destruct (Rlt_dec 0 lambdaa); [|right; tauto].
    destruct (Rlt_dec 0 (lambdaa + IZR R_)); [left|right]; tauto.
  - apply Z.eq_dec.
Qed.

Definition rep_ok (op : ktsop) (R_ : Z) (fs : list factor) : Prop :=
  fs <> [] /\ Forall (fun f => f_elems f <> []) fs /\
  chains (flat fs) 0 R_ /\ (forall A, elems_op A (flat fs) = ktsop_op A op) /\
  pow_sum fs = op_pow op /\ bounded (Z.max (Z.abs R_ + 1) (degree op)) (flat fs).

Lemma representation_ok op lambdaa R_ : valid_op op -> step_ok op lambdaa R_ ->
  exists fs, representation op lambdaa R_ = Ok fs /\ rep_ok op R_ fs.
Proof.
  intros Hv Hs. destruct op as [K T|s]; cbn [representation step_ok valid_op] in *.
  - unfold bsds. destruct (Rle_dec lambdaa 0) as [C|_]; [lra|].
    destruct (Rle_dec (lambdaa + IZR R_) 0) as [C|_]; [lra|].
    destruct (bsds_factors_ok K T R_ Hv) as (fs & E & H). exists fs. split; assumption.
  - subst R_. cbn [Z.eqb negb raise_if bind].
    eexists; split; [reflexivity|].
    split; [discriminate|]. split; [repeat constructor; discriminate|].
    cbn [flat flat_map F1 f_elems app].
    split; [|split; [|split; [reflexivity|]]].
    + destruct (s =? -1); [|destruct (s =? 0)]; apply chains_one'; reflexivity.
    + intros A. rewrite elems_op_one. cbn [ktsop_op].
      destruct (s =? -1); [|destruct (s =? 0)]; reflexivity.
    + intros eo [<-|[]]. cbn [snd degree]. lia.
Qed.

Lemma representation_raise op lambdaa R_ : ~ step_ok op lambdaa R_ ->
  representation op lambdaa R_ = Raise ValueError.
Proof.
  intros Hs. destruct op as [K T|s]; cbn [representation step_ok] in *.
  - unfold bsds. destruct (Rle_dec lambdaa 0) as [C|C]; [reflexivity|].
    destruct (Rle_dec (lambdaa + IZR R_) 0) as [C2|C2]; [reflexivity|].
    exfalso. apply Hs. lra.
  - replace (R_ =? 0) with false by lia. reflexivity.
Qed.

(** ** The product loop *)

Lemma shift_flat d fs : flat (map (shift_factor d) fs) =
  map (fun eo => (fst eo, snd eo + d)) (flat fs).
Proof.
  induction fs as [|f fs IH]; [reflexivity|].
  cbn [map flat flat_map]. rewrite map_app. f_equal. apply IH.
Qed.

Lemma chains_shift d l s t : chains l s t ->
  chains (map (fun eo => (fst eo, snd eo + d)) l) (s + d) (t + d).
Proof.
  induction 1 as [s|e o l s H IH]; [constructor|].
  cbn [map fst snd]. replace (o + elem_shift e + d) with (o + d + elem_shift e) by lia.
  now constructor.
Qed.

Lemma elems_op_shift A d l :
  elems_op A (map (fun eo => (fst eo, snd eo + d)) l) = elems_op A l.
Proof. unfold elems_op. now rewrite map_map. Qed.

Lemma pow_sum_shift d fs : pow_sum (map (shift_factor d) fs) = pow_sum fs.
Proof. unfold pow_sum. now rewrite map_map. Qed.

Lemma flat_app a b : flat (a ++ b) = flat a ++ flat b.
Proof. apply flat_map_app. Qed.

(** Every step of the loop is admissible. *)
Fixpoint steps_ok (rops : list ktsop) (rshfs : list Z) (lambdaa : R) (run : Z) : Prop :=
  match rops, rshfs with
  | op :: rops', R_ :: rshfs' =>
      step_ok op (lambdaa + IZR run) R_ /\ steps_ok rops' rshfs' lambdaa (run + R_)
  | _, _ => True
  end.

Definition max_degree_bound (b : Z) (rops : list ktsop) : Prop :=
  Forall (fun op => degree op <= b) rops.

Definition acc_ok (run : Z) (fs : list factor) : Prop :=
  Forall (fun f => f_elems f <> []) fs /\ chains (flat fs) 0 run.

Lemma shfs_loop_ok rops : forall rshfs lambdaa run prod B,
  length rops = length rshfs -> Forall valid_op rops ->
  steps_ok rops rshfs lambdaa run ->
  Forall (fun f => f_elems f <> []) prod -> chains (flat prod) 0 run ->
  bounded B (flat prod) ->
  Z.abs run + abs_sum rshfs + 1 + total_degree rops <= B ->
  exists fs, shfs_loop rops rshfs lambdaa run prod = Ok fs /\
    (rops <> [] \/ prod <> [] -> fs <> []) /\
    Forall (fun f => f_elems f <> []) fs /\
    chains (flat fs) 0 (run + zsum rshfs) /\
    (forall A, elems_op A (flat fs) =
       mul A (oprod A (map (ktsop_op A) (rev rops))) (elems_op A (flat prod))) /\
    pow_sum fs = zsum (map op_pow rops) + pow_sum prod /\
    bounded B (flat fs).
Proof.
  induction rops as [|op rops IH]; intros [|R_ rshfs] lambdaa run prod B
    Hlen Hv Hs Hne Hch HB Hbd; try discriminate.
  - cbn [shfs_loop]. exists prod. split; [reflexivity|].
    cbn [zsum fold_right map rev oprod]. rewrite Z.add_0_r.
    split; [tauto|]. split; [assumption|]. split; [assumption|].
    split; [intros A; now rewrite mul_1_l|]. split; [lia|assumption].
  - cbn [shfs_loop steps_ok] in *. destruct Hs as [Hs1 Hs2].
    inversion Hv as [|? ? Hv1 Hv2]; subst.
    destruct (representation_ok op _ _ Hv1 Hs1) as (f0 & E & F1 & F2 & F3 & F4 & F5 & F6).
    rewrite E. cbn [bind].
    rewrite abs_sum_cons in Hbd. unfold total_degree in Hbd. cbn [map] in Hbd.
    rewrite zsum_cons in Hbd. fold (total_degree rops) in Hbd.
    assert (Hd : 0 <= degree op) by (destruct op; cbn [degree valid_op] in *; lia).
    assert (Htd : 0 <= total_degree rops).
    { clear - Hv2. unfold total_degree. induction Hv2 as [|o l Ho _ IH]; [cbn; lia|].
      cbn [map]. rewrite zsum_cons. destruct o; cbn [degree valid_op] in *; lia. }
    pose proof (abs_sum_nonneg rshfs).
    destruct (IH rshfs lambdaa (run + R_) (map (shift_factor run) f0 ++ prod) B)
      as (fs & R1 & R2 & R3 & R4 & R5 & R6 & R7); clear IH.
    + cbn [length] in Hlen. lia.
    + assumption.
    + assumption.
    + apply Forall_app. split; [|assumption]. rewrite Forall_map.
      eapply Forall_impl; [|exact F2]. intros f Hf. cbn [shift_factor f_elems].
      intros C. apply map_eq_nil in C. contradiction.
    + rewrite flat_app, shift_flat. eapply chains_app; [exact Hch|].
      apply (chains_shift run) in F3. rewrite Z.add_0_l in F3.
      now rewrite (Z.add_comm run R_).
    + rewrite flat_app, shift_flat. intros eo Hin.
      apply in_app_or in Hin as [Hin|Hin]; [|now apply HB].
      apply in_map_iff in Hin as (eo' & <- & Hin). cbn [snd].
      specialize (F6 _ Hin). lia.
    + lia.
    + exists fs. split; [assumption|]. split.
      { intros _. apply R2. right. destruct f0; [congruence|discriminate]. }
      split; [assumption|]. rewrite zsum_cons.
      split; [now replace (run + (R_ + zsum rshfs)) with (run + R_ + zsum rshfs) by lia|].
      split.
      { intros A. rewrite R5, flat_app, shift_flat, elems_op_app, elems_op_shift, F4.
        cbn [rev]. rewrite map_app, oprod_app. cbn [map oprod].
        now rewrite mul_1_r, mul_assoc. }
      split; [|assumption].
      rewrite R6, pow_sum_app, pow_sum_shift, F5. cbn [map]. rewrite zsum_cons. lia.
Qed.

Lemma shfs_loop_raise rops : forall rshfs lambdaa run prod,
  length rops = length rshfs -> Forall valid_op rops ->
  ~ steps_ok rops rshfs lambdaa run ->
  shfs_loop rops rshfs lambdaa run prod = Raise ValueError.
Proof.
  induction rops as [|op rops IH]; intros [|R_ rshfs] lambdaa run prod Hlen Hv Hs;
    try discriminate; cbn [shfs_loop steps_ok] in *; try tauto.
  inversion Hv as [|? ? Hv1 Hv2]; subst.
  destruct (step_ok_dec op (lambdaa + IZR run) R_) as [S|S].
  - destruct (representation_ok op _ _ Hv1 S) as (f0 & E & _). rewrite E. cbn [bind].
    apply IH; [cbn [length] in Hlen; lia|assumption|tauto].
  - rewrite representation_raise by assumption. reflexivity.
Qed.

(** ** The full product *)

(** The list of operators and shifts that is multiplied. *)
Lemma insert_id_spec ops v l : Forall valid_op ops -> lambda_abs_list ops v = Ok l ->
  exists ops' shfs, insert_id ops (sgn_list v l) = (ops', shfs) /\
    length ops' = length shfs /\ Forall valid_op ops' /\ zsum shfs = v /\
    (forall A, oprod A (map (ktsop_op A) ops') = oprod A (map (ktsop_op A) ops)) /\
    zsum (map op_pow ops') = zsum (map op_pow ops) /\
    total_degree ops' = total_degree ops /\ abs_sum shfs = abs_sum l /\
    (length l = length ops -> ops' = ops /\ shfs = sgn_list v l) /\
    (S_unshifted ops l -> Forall2 (fun op s => is_S op -> s = 0) ops' shfs).
Proof.
  intros Hv E.
  destruct (lambda_list_ok ops v Hv) as (l' & E' & Hsum & Hlen).
  assert (l' = l) by congruence. subst l'.
  pose proof (sgn_sum v l Hsum) as Hs.
  assert (Habs : abs_sum (sgn_list v l) = abs_sum l).
  { unfold sgn_list. destruct (0 <=? v); [reflexivity|apply abs_sum_opp]. }
  assert (HF2 : forall (os : list ktsop) (ss : list Z), length os = length ss ->
     (forall i s, nth_error os i = Some (SOp s) -> nth_error ss i = Some 0) ->
     Forall2 (fun op s => is_S op -> s = 0) os ss).
  { clear. induction os as [|o os IH]; intros [|x ss] HL H; try discriminate; constructor.
    - destruct o as [K T|s]; cbn [is_S]; [tauto|]. intros _.
      specialize (H O s eq_refl). cbn in H. congruence.
    - apply IH; [cbn in HL; lia|]. intros i s Hi. apply (H (S i) s Hi). }
  assert (HA0 : forall A, ktsop_op A (KTOp 0 0) = one A)
    by (intros A; cbn [ktsop_op]; apply mul_1_l).
  unfold insert_id. unfold zlen. rewrite sgn_length.
  destruct Hlen as [Hlen|(Hlen & Hdeg & x & r & Hl & Hx)].
  - replace (Z.of_nat (length ops) <? Z.of_nat (length l)) with false by lia.
    exists ops, (sgn_list v l). split; [reflexivity|].
    split; [now rewrite sgn_length|]. repeat (split; [auto|]).
    intros HS. apply HF2; [now rewrite sgn_length|].
    intros i s Hi. pose proof (sgn_S _ v _ HS i s Hi) as H. rewrite sgn_length in H.
    now rewrite Hlen, Nat.sub_diag, Nat.add_0_r in H.
  - replace (Z.of_nat (length ops) <? Z.of_nat (length l)) with true by lia.
    assert (HvS : Forall valid_op (KTOp 0 0 :: ops)) by (constructor; [cbn; lia|assumption]).
    destruct (0 <=? v) eqn:Ev.
    + assert (Esg : sgn_list v l = l) by (unfold sgn_list; now rewrite Ev).
      rewrite Esg in Hs, Habs |- *.
      replace (0 <? nth 0 l 0) with true by (rewrite Hl; cbn [nth]; lia).
      exists (KTOp 0 0 :: ops), l. split; [reflexivity|].
      split; [cbn [length]; lia|]. split; [assumption|]. split; [assumption|].
      split; [intros A; cbn [map oprod]; rewrite HA0; apply mul_1_l|].
      split; [reflexivity|]. split; [reflexivity|]. split; [reflexivity|].
      split; [intros C; exfalso; lia|].
      intros HS. apply HF2; [cbn [length]; lia|].
      intros [|i] s Hi; [discriminate|]. cbn [nth_error] in Hi.
      specialize (HS i s Hi). replace (length l - length ops)%nat with 1%nat in HS by lia.
      now rewrite Nat.add_1_r in HS.
    + assert (Esg : sgn_list v l = - x :: map Z.opp r)
        by (unfold sgn_list; rewrite Ev, Hl; reflexivity).
      rewrite Esg in Hs, Habs |- *. cbn [nth tl].
      replace (0 <? - x) with false by lia.
      eexists _, _. split; [reflexivity|].
      split; [rewrite !app_length, map_length; cbn [length]; rewrite Hl in Hlen;
              cbn [length] in Hlen; lia|].
      split; [apply Forall_app; split; [assumption|repeat constructor; cbn; lia]|].
      split; [rewrite zsum_app, zsum_cons in *; cbn [zsum fold_right] in *; lia|].
      split; [intros A; rewrite map_app, oprod_app; cbn [map oprod];
              rewrite HA0, !mul_1_r; reflexivity|].
      split; [rewrite map_app, zsum_app; cbn; lia|].
      split; [unfold total_degree; rewrite map_app, zsum_app; cbn; lia|].
      split; [rewrite <- Habs, abs_sum_app, !abs_sum_cons; cbn; lia|].
      split; [intros C; exfalso; lia|].
      intros HS. apply Forall2_app.
      * apply HF2; [rewrite map_length; rewrite Hl in Hlen; cbn [length] in Hlen; lia|].
        intros i s Hi. specialize (HS i s Hi).
        replace (length l - length ops)%nat with 1%nat in HS by lia.
        rewrite Nat.add_1_r, Hl in HS. cbn [nth_error] in HS.
        rewrite nth_error_map, HS. reflexivity.
      * constructor; [intros []|constructor].
Qed.

(** The integers with addition interpret a word by its power of [a]. *)
Definition pow_alg : alg.
Proof.
  refine (mkAlg Z 0 Z.add _ _ _ (-1) 1 _ _ 1 0 0 0 (fun _ => 0)); intros; lia.
Defined.

Lemma npow_pow_alg (x : Z) n : npow pow_alg x n = x * Z.of_nat n.
Proof.
  induction n as [|n IH]; [cbn [npow]; cbn; lia|].
  cbn [npow]. rewrite IH. change (mul pow_alg) with Z.add. lia.
Qed.

Lemma parse_pow w ops : Parse_RadialOp_List w = Ok ops -> Forall valid_op ops ->
  zsum (map op_pow ops) = word_pow w.
Proof.
  intros H Hv. pose proof (parse_op pow_alg w ops H) as E.
  assert (E1 : oprod pow_alg (map (ktsop_op pow_alg) ops) = zsum (map op_pow ops)).
  { clear E H. induction Hv as [|o l Ho Hl IH]; [reflexivity|].
    cbn [map oprod]. rewrite zsum_cons, <- IH. change (mul pow_alg) with Z.add.
    f_equal. destruct o as [K T|s]; cbn [ktsop_op op_pow].
    - change (mul pow_alg) with Z.add. unfold beta_pow, deriv_pow. cbn [valid_op] in Ho.
      destruct (0 <=? K) eqn:EK; rewrite !npow_pow_alg; cbn [beta beta_inv deriv pow_alg]; lia.
    - destruct (s =? -1); [|destruct (s =? 0)]; reflexivity. }
  rewrite <- E1, E. clear. unfold word_op, word_pow.
  induction w as [|s w IH]; [reflexivity|].
  cbn [map oprod]. rewrite zsum_cons, IH. change (mul pow_alg) with Z.add. f_equal.

Qed.

Lemma steps_ok_dec rops : forall rshfs lambdaa run,
  {steps_ok rops rshfs lambdaa run} + {~ steps_ok rops rshfs lambdaa run}.
Proof.
  induction rops as [|op rops IH]; intros [|x rshfs] lambdaa run; cbn [steps_ok]; auto.
  destruct (step_ok_dec op (lambdaa + IZR run) x); [|right; tauto].
  destruct (IH rshfs lambdaa (run + x)); [left|right]; tauto.
Qed.

Definition product_ok (w : list rsym) (v : Z) (fs : list factor) : Prop :=
  fs <> [] /\ Forall (fun f => f_elems f <> []) fs /\
  chains (flat fs) 0 v /\
  (forall A, elems_op A (flat fs) = word_op A w) /\
  pow_sum fs = word_pow w /\
  bounded (2 * (word_degree w + Z.abs v + 1)) (flat fs).

Lemma abs_sum_rev l : abs_sum (rev l) = abs_sum l.
Proof. unfold abs_sum. now rewrite map_rev, zsum_rev. Qed.

Lemma product_main w lambdaa v : forallb is_basic w = true ->
  (0 < lambdaa)%R -> (0 < lambdaa + IZR v)%R ->
  exists ops l ops' shfs,
    Parse_RadialOp_List w = Ok ops /\ lambda_abs_list ops v = Ok l /\
    Forall valid_op ops /\ total_degree ops <= word_degree w /\
    insert_id ops (sgn_list v l) = (ops', shfs) /\ length ops' = length shfs /\
    ((steps_ok (rev ops') (rev shfs) lambdaa 0 /\
      exists fs, RepRadial_Prod_factors w lambdaa v = Ok fs /\ product_ok w v fs) \/
     (~ steps_ok (rev ops') (rev shfs) lambdaa 0 /\
      RepRadial_Prod_factors w lambdaa v = Raise ValueError)).
Proof.
  intros Hb H0 H1.
  destruct (parse_spec w Hb) as (ops & Ep & Hv & Hd & _).
  destruct (lambda_list_ok ops v Hv) as (l & El & Hsum & Hlen).
  destruct (insert_id_spec ops v l Hv El)
    as (ops' & shfs & Ei & HL & Hv' & Hz & Hop & Hpw & Htd & Ha & Hsame & HS).
  exists ops, l, ops', shfs.
  split; [assumption|]. split; [assumption|]. split; [assumption|].
  split; [assumption|]. split; [assumption|]. split; [assumption|].
  unfold RepRadial_Prod_factors.
  destruct (Rle_dec lambdaa 0) as [C|_]; [lra|].
  destruct (Rle_dec (lambdaa + IZR v) 0) as [C|_]; [lra|].
  rewrite Ep. cbn [bind]. unfold Lambda_RadialOp_List. rewrite El. cbn [bind].
  fold (sgn_list v l). rewrite Ei.
  assert (Hrl : length (rev ops') = length (rev shfs)) by now rewrite !rev_length.
  assert (Hrv : Forall valid_op (rev ops')) by now apply Forall_rev.
  unfold RepRadialshfs_Prod.
  destruct ops' as [|o1 ops1].
  - left. split; [exact I|]. destruct shfs; [|discriminate].
    cbn [zsum fold_right] in Hz. subst v.
    eexists; split; [reflexivity|].
    split; [discriminate|]. split; [repeat constructor; discriminate|].
    cbn [flat flat_map F1 f_elems app].
    split; [apply chains_one'; reflexivity|].
    split; [intros A; rewrite elems_op_one, <- (parse_op A w ops Ep), <- Hop; reflexivity|].
    split; [rewrite <- (parse_pow w ops Ep Hv), <- Hpw; reflexivity|].
    intros eo [<-|[]]. cbn [snd Z.abs].
    pose proof (abs_sum_bound ops 0 l Hv El). pose proof (abs_sum_nonneg l). lia.
  - set (ops' := o1 :: ops1) in *.
    destruct (steps_ok_dec (rev ops') (rev shfs) lambdaa 0) as [S|S].
    + left. split; [assumption|].
      destruct (shfs_loop_ok (rev ops') (rev shfs) lambdaa 0 []
                  (2 * (word_degree w + Z.abs v + 1)) Hrl Hrv S)
        as (fs & R1 & R2 & R3 & R4 & R5 & R6 & R7).
      * constructor.
      * constructor.
      * intros eo [].
      * rewrite abs_sum_rev, Ha.
        assert (Hr : total_degree (rev ops') = total_degree ops).
        { rewrite <- Htd. unfold total_degree. now rewrite map_rev, zsum_rev. }
        rewrite Hr. pose proof (abs_sum_bound ops v l Hv El). lia.
      * exists fs. split; [assumption|]. split.
        { apply R2. left. intros C. apply (f_equal (@rev ktsop)) in C.
          rewrite rev_involutive in C. discriminate. }
        split; [assumption|]. rewrite zsum_rev, Hz in R4. split; [assumption|].
        split.
        { intros A. rewrite R5, rev_involutive, Hop.
          cbn [flat flat_map]. rewrite elems_op_nil, mul_1_r. now apply parse_op. }
        split; [|assumption].
        rewrite R6, map_rev, zsum_rev, Hpw. cbn [pow_sum map zsum fold_right].
        unfold pow_sum; cbn [map zsum fold_right]. rewrite Z.add_0_r. now apply parse_pow.
    + right. split; [assumption|]. now apply shfs_loop_raise.
Qed.

(** When [lambda] is large every step is admissible, apart from shifted S. *)
Lemma steps_ok_large rops : forall rshfs lambdaa run,
  Forall2 (fun op s => is_S op -> s = 0) rops rshfs ->
  (IZR (Z.abs run + abs_sum rshfs) < lambdaa)%R ->
  steps_ok rops rshfs lambdaa run.
Proof.
  intros rshfs lambdaa run H. revert run.
  induction H as [|op x rops rshfs Hx H IH]; intros run Hb; cbn [steps_ok]; [exact I|].
  rewrite abs_sum_cons in Hb. pose proof (abs_sum_nonneg rshfs) as Hn.
  assert (Hup : forall z, Z.abs z <= Z.abs run + (Z.abs x + abs_sum rshfs) ->
                (0 < lambdaa + IZR z)%R).
  { intros z Hz. assert (IZR (- z) <= IZR (Z.abs run + (Z.abs x + abs_sum rshfs)))%R
      by (apply IZR_le; lia). rewrite opp_IZR in H0. lra. }
  split.
  - destruct op as [K T|s]; cbn [step_ok]; [|apply Hx; exact I].
    split; [apply Hup; lia|].
    rewrite Rplus_assoc, <- plus_IZR. apply Hup. lia.
  - apply IH. eapply Rle_lt_trans; [|exact Hb]. apply IZR_le. lia.
Qed.

Lemma Forall2_rev {A B} (P : A -> B -> Prop) l1 l2 :
  Forall2 P l1 l2 -> Forall2 P (rev l1) (rev l2).
Proof.
  induction 1 as [|a b l1 l2 H _ IH]; cbn [rev]; [constructor|].
  apply Forall2_app; auto.
Qed.

(** Success forces zero shifts on S operators. *)
Lemma steps_ok_S rops : forall rshfs lambdaa run, length rops = length rshfs ->
  steps_ok rops rshfs lambdaa run -> Forall2 (fun op s => is_S op -> s = 0) rops rshfs.
Proof.
  induction rops as [|op rops IH]; intros [|x rshfs] lambdaa run HL H; try discriminate;
    constructor; cbn [steps_ok] in H.
  - destruct op; cbn [is_S step_ok] in *; tauto.
  - eapply IH; [cbn in HL; lia|apply H].
Qed.

(** ** Matrix level *)
Definition square (n : Z) (M : mat R) : Prop := nrows M = n /\ ncols M = n.

Lemma mprod_square n l M : l <> [] -> Forall (square n) l -> mprod l = Ok M -> square n M.
Proof.
  revert M. induction l as [|m l IH]; intros M Hne Hl H; [congruence|].
  inversion Hl as [|? ? H1 H2]; subst.
  destruct l as [|m2 l].
  - cbn in H. now injection H as <-.
  - change (mprod (m :: m2 :: l)) with (bind (mprod (m2 :: l)) (fun p => matmul m p)) in H.
    destruct (mprod (m2 :: l)) as [p|] eqn:E; [|discriminate]. cbn [bind] in H.
    assert (Hp : square n p) by (apply IH; auto; discriminate).
    unfold matmul in H. destruct (ncols m =? nrows p); [|discriminate].
    injection H as <-. destruct H1, Hp. split; assumption.
Qed.

Lemma mprod_total n l : l <> [] -> Forall (square n) l -> exists M, mprod l = Ok M.
Proof.
  induction l as [|m l IH]; intros Hne Hl; [congruence|].
  inversion Hl as [|? ? H1 H2]; subst.
  destruct l as [|m2 l]; [cbn; eauto|].
  destruct IH as (p & E); [discriminate|assumption|].
  change (mprod (m :: m2 :: l)) with (bind (mprod (m2 :: l)) (fun p => matmul m p)).
  rewrite E. cbn [bind]. unfold matmul.
  assert (Hp : square n p) by (eapply mprod_square; [| |exact E]; [discriminate|assumption]).
  replace (ncols m =? nrows p) with true by (destruct H1, Hp; lia). eauto.
Qed.

Section Shape.
  Variable Rep : elem -> R -> Z -> Z -> res (mat R).
  Variable anorm : R.
  Hypothesis Rep_square : forall e lam a b M, Rep e lam a b = Ok M -> square (b - a + 1) M.

  Lemma factors_mat_square lam a b fs M : fs <> [] -> Forall (fun f => f_elems f <> []) fs ->
    factors_mat Rep anorm lam a b fs = Ok M -> square (b - a + 1) M.
  Proof.
    intros Hne Hf H. unfold factors_mat in H.
    destruct (mapM _ fs) as [ms|] eqn:E; [|discriminate]. cbn [bind] in H.
    assert (Hms : length ms = length fs /\ Forall (square (b - a + 1)) ms).
    { clear H Hne M. revert ms E. induction Hf as [|f fs Hf1 Hf2 IH]; intros ms E.
      - cbn in E. injection E as <-. split; [reflexivity|constructor].
      - cbn [mapM] in E.
        destruct (factor_mat Rep anorm lam a b f) as [m|] eqn:Em; [|discriminate].
        cbn [bind] in E.
        destruct (mapM _ fs) as [ms'|] eqn:Ems; [|discriminate].
        cbn [bind] in E. injection E as <-.
        destruct (IH ms' eq_refl) as [L F]. split; [cbn [length]; lia|].
        constructor; [|assumption]. unfold factor_mat in Em.
        destruct (mapM _ (f_elems f)) as [es|] eqn:Ees; [|discriminate].
        cbn [bind] in Em. destruct (mprod es) as [p|] eqn:Ep; [|discriminate].
        cbn [bind] in Em. injection Em as <-.
        assert (Hes : length es = length (f_elems f) /\ Forall (square (b - a + 1)) es).
        { clear - Ees Rep_square. revert es Ees.
          induction (f_elems f) as [|e l IH]; intros es Ees.
          - cbn in Ees. injection Ees as <-. split; [reflexivity|constructor].
          - cbn [mapM] in Ees.
            destruct (Rep (fst e) (lam + IZR (snd e)) a b) as [r|] eqn:Er; [|discriminate].
            cbn [bind] in Ees.
            destruct (mapM _ l) as [es'|]; [|discriminate]. cbn [bind] in Ees.
            injection Ees as <-. destruct (IH es' eq_refl) as [L F].
            split; [cbn [length]; lia|]. constructor; [|assumption]. eauto. }
        assert (square (b - a + 1) p).
        { eapply mprod_square; [|apply Hes|exact Ep]. intros ->.
          destruct Hes as [Hes _]. destruct (f_elems f); [congruence|discriminate]. }
        unfold mscale. split; apply H. }
    eapply mprod_square; [|apply Hms|exact H]. intros ->.
    destruct Hms as [L _]. destruct fs; [congruence|discriminate].
  Qed.
End Shape.
