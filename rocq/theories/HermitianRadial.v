(** Facts for C84: radial products of powers of beta in both directions. *)

From Coq Require Import Reals Lra.
From Coq Require Import Lia ZifyBool ZifyNat.
From Verif Require Import PyBase PyFacts Compat Matrix FullLabels RadialOps RadialME RadialMEFacts RadialWords RadialChain
  HermitianSpec PropsHarmonics HermitianFacts.
Open Scope Z_scope.
Ltac Zify.zify_post_hook ::= Z.div_mod_to_equations.

Lemma power_parse w : power_word w ->
  Parse_RadialOp_List w = Ok (if exponent w =? 0 then [] else [KTOp (exponent w) 0]).
Proof.
  intros H.
  assert (P : Forall (fun s => s = Radial_b \/ s = Radial_b2 \/ s = Radial_bm \/ s = Radial_bm2) w).
  { eapply Forall_impl; [|exact H]. intros []; cbn; intros Hs; try congruence; auto. }
  assert (Q : zsum (map step_b w) = exponent w).
  { unfold exponent. f_equal. apply map_ext. now intros []. }
  unfold Parse_RadialOp_List. rewrite parse_loop_powers by (now apply Forall_rev).
  rewrite map_rev, zsum_rev, Q. cbn [bind]. cbn [Z.add]. destruct (exponent w =? 0); reflexivity.
Qed.

Lemma Lambda_even K : K <> 0 -> K mod 2 = 0 -> Lambda_RadialOp_List [KTOp K 0] 0 = Ok [0].
Proof.
  intros HK HE. unfold Lambda_RadialOp_List, lambda_abs_list. cbn [map max_var mapM].
  unfold irem, require_nonnegint, require_posint, raise_if.
  replace (Z.abs K + 0 <? 0) with false by lia. cbn -[Z.modulo Z.abs Z.mul is_odd Z.add]. rewrite !Z.add_0_r.
  change (Z.abs 0) with 0.
  replace (Z.abs K mod 2) with 0 by lia. replace (is_odd (0 - Z.abs K)) with false by (unfold is_odd; lia).
  cbn -[Z.abs]. replace (0 <? Z.abs K) with true by lia. reflexivity.
Qed.

Lemma Lambda_none v : v <> 0 -> Lambda_RadialOp_List [] v = Ok [v].
Proof.
  intros Hv. unfold Lambda_RadialOp_List, lambda_abs_list. cbn -[Z.ltb is_odd].
  replace (if is_odd (Z.abs v - 0) then 0 else 0) with 0 by (now destruct (is_odd (Z.abs v - 0))).
  replace (Z.abs v <? 0) with false by lia. cbn [Z.ltb Z.compare]. replace (0 <? Z.abs v - 0) with true by lia.
  rewrite !andb_false_r. cbn [bind]. destruct (Z.leb_spec 0 v); cbn [map]; f_equal; f_equal; lia.
Qed.

Lemma power_factors w lambdaa v : power_word w -> mirrored (exponent w) v -> (0 < lambdaa)%R -> (0 < lambdaa + IZR v)%R ->
  RepRadial_Prod_factors w lambdaa v = bsds_factors (exponent w) 0 v.
Proof.
  intros Hw [HP HM] Hl Hv. pose proof (power_parse w Hw) as EP. set (K := exponent w) in *.
  destruct (Z.eqb_spec K 0) as [K0|K0].
  - unfold RepRadial_Prod_factors. destruct (Rle_dec lambdaa 0); [lra|]. destruct (Rle_dec (lambdaa + IZR v) 0); [lra|].
    rewrite EP. cbn [bind]. rewrite K0.
    destruct (Z.eq_dec v 0) as [->|V0]; [reflexivity|]. rewrite Lambda_none by exact V0. cbn [bind].
    unfold insert_id, zlen. cbn [length Z.of_nat Z.ltb Z.compare Pos.of_succ_nat nth app tl].
    assert (R : RepRadialshfs_Prod [KTOp 0 0] lambdaa [v] = bsds_factors 0 0 v).
    { unfold RepRadialshfs_Prod. cbn [rev app shfs_loop representation]. unfold bsds. rewrite Rplus_0_r.
      destruct (Rle_dec lambdaa 0); [lra|]. destruct (Rle_dec (lambdaa + IZR v) 0); [lra|].
      destruct (bsds_factors 0 0 v); [|reflexivity]. cbn [bind]. now rewrite shift_factor_0, app_nil_r. }
    destruct (0 <? v); exact R.
  - apply one_KT_factors; [exact EP| |exact Hl|exact Hv].
    destruct (Z.eq_dec v 0) as [->|V0].
    + apply Lambda_even; [exact K0|]. lia.
    + apply Lambda_one; lia.
Qed.

(** *** Factors of beta^K with shift 0 *)
Lemma pick_sq K i s : 1 < i -> i <= Z.abs K -> nth (Z.to_nat (i - 1)) s 0 = 0 -> nth (Z.to_nat (i - 2)) s 0 = 0 ->
  bsds_pick K i 0 s = Ok (F1 (if 0 <? K then M_b2 else M_bm2) 0 (if 0 <? K then -2 else 2), 2).
Proof.
  intros H1 H2 E1 E2. unfold bsds_pick. rewrite E1, E2. cbn [Z.ltb Z.compare Z.eqb]. replace (1 <? i) with true by lia. cbn [andb].
  destruct (Z.ltb_spec 0 K).
  - replace (i <=? K) with true by lia. reflexivity.
  - replace (i <=? K) with false by lia. replace (i <=? - K) with true by lia. replace (K <? 0) with true by lia. reflexivity.
Qed.

Definition sq (K : Z) : factor := F1 (if 0 <? K then M_b2 else M_bm2) 0 (if 0 <? K then -2 else 2).

Lemma loop_sq K n s : forall m fuel p, (m <= fuel)%nat -> 2 * Z.of_nat m <= Z.abs K -> 2 * Z.of_nat m < n ->
  (forall q, 0 <= q < 2 * Z.of_nat m -> nth (Z.to_nat q) s 0 = 0) ->
  bsds_loop fuel K n 0 (2 * Z.of_nat m) 0 s (Some p) = Ok (Some (repeat (sq K) m ++ p), 0).
Proof.
  induction m as [|m IH]; intros fuel p Hf HK Hn Hs.
  - destruct fuel; reflexivity.
  - destruct fuel as [|fuel]; [lia|]. cbn [bsds_loop]. replace (0 <? 2 * Z.of_nat (S m)) with true by lia.
    rewrite pick_sq by (try apply Hs; lia). fold (sq K). cbn [bind].
    replace (2 * Z.of_nat (S m) =? n) with false by lia. cbn [andb lmul bind].
    rewrite (Hs (2 * Z.of_nat (S m) - 1)) by lia. change (0 + 0) with 0.
    replace (2 * Z.of_nat (S m) - 2) with (2 * Z.of_nat m) by lia.
    rewrite IH; [|lia|lia|lia|intros; apply Hs; lia]. cbn [repeat app]. do 3 f_equal.
    change (sq K :: p) with ([sq K] ++ p). rewrite app_assoc, <- repeat_cons. reflexivity.
Qed.

Lemma bsds_even K : K <> 0 -> K mod 2 = 0 -> bsds_factors K 0 0 = Ok (repeat (sq K) (Z.to_nat (Z.abs K / 2))).
Proof.
  intros HK HE. set (m := Z.to_nat (Z.abs K / 2)). assert (Hm : Z.abs K = 2 * Z.of_nat m) by lia.
  unfold bsds_factors. replace (K =? 0) with false by lia. cbn [andb].
  assert (ES : Lambda_Splits K 0 0 = Ok (repeat 0 (2 * m))).
  { unfold Lambda_Splits. cbn [require_nonnegint raise_if Z.ltb Z.compare bind]. cbv zeta.
    replace (0 <? Z.abs 0 - (Z.abs K + 0)) with false by lia.
    unfold iquo, require_nonnegint, require_posint, raise_if.
    replace (- (Z.abs 0 - (Z.abs K + 0)) <? 0) with false by lia. cbn -[Z.min Z.mul Z.div py_repeat Z.abs].
    change (0 / 2) with 0. replace (Z.min (- (Z.abs 0 - (Z.abs K + 0)) / 2) 0) with 0 by lia.
    change (2 * 0) with 0. change (py_repeat 0 0) with (@nil Z). change (py_repeat 1 (Z.abs 0)) with (@nil Z).
    rewrite !app_nil_r, andb_false_r. cbn [bind]. unfold py_repeat.
    now replace (Z.to_nat (Z.abs K + 0 - Z.abs 0 - 0)) with (2 * m)%nat by lia. }
  rewrite ES. cbn [bind]. unfold zlen. rewrite repeat_length.
  replace (Z.abs K + 0) with (Z.of_nat (2 * m)) by lia. rewrite Z.ltb_irrefl.
  rewrite repeat_length, Z.eqb_refl. cbn [py_assert raise_if negb bind Z.ltb Z.compare]. rewrite Nat2Z.id.
  assert (Hs0 : forall q, 0 <= q < 2 * Z.of_nat m -> nth (Z.to_nat q) (repeat 0 (2 * m)) 0 = 0).
  { intros q Hq. apply nth_repeat_lt. lia. }
  destruct m as [|m]; [lia|]. set (s := repeat 0 (2 * S m)) in *. clearbody s.
  replace (2 * S m)%nat with (S (S (2 * m))) by lia. set (fuel := S (2 * m)). assert (Hfuel : (m <= fuel)%nat) by lia.
  cbn [bsds_loop]. assert (Efuel : Z.of_nat (S fuel) = 2 * Z.of_nat m + 2) by lia. rewrite Efuel. clearbody fuel.
  replace (0 <? 2 * Z.of_nat m + 2) with true by lia.
  rewrite pick_sq by (try apply Hs0; lia). fold (sq K). cbn [bind].
  replace ((2 * Z.of_nat m + 2 =? 2 * Z.of_nat m + 2) && (0 <=? 0)) with true by lia. cbn [bind].
  rewrite (Hs0 ((2 * Z.of_nat m + 2) - 1)) by lia. change (0 + 0) with 0.
  replace ((2 * Z.of_nat m + 2) - 2) with (2 * Z.of_nat m) by lia.
  rewrite loop_sq; [|lia|lia|lia|intros; apply Hs0; lia]. cbn [bind].
  replace ((2 * Z.of_nat m + 2 =? 0) && (0 =? 0)) with false by lia.
  change (repeat (sq K) (S m)) with (sq K :: repeat (sq K) m). now rewrite (repeat_cons m).
Qed.

(** *** The mirror image *)
Lemma dual_F1 v e o p : dual_factor v (F1 e o p) = F1 (fst (dual e)) (o + snd (dual e) - v) p.
Proof. reflexivity. Qed.

Lemma chain_const K n run sg : forall m, (m <= n)%nat -> Z.of_nat n = Z.abs K -> (0 < n)%nat ->
  chain m K run sg = rev (map (fun k => F1 (letter K 1 sg) (run + sg * Z.of_nat k) (letter_pow K 1)) (seq 0 m)).
Proof.
  intros m Hm Hn Hp. revert run Hm. induction m as [|m IH]; intros run Hm; [reflexivity|]. cbn [chain].
  rewrite IH by lia.
  assert (L : letter K (Z.of_nat (S m)) sg = letter K 1 sg).
  { unfold letter. destruct (Z_le_gt_dec 1 K).
    - replace (Z.of_nat (S m) <=? K) with true by lia. now replace (1 <=? K) with true by lia.
    - replace (Z.of_nat (S m) <=? K) with false by lia. replace (1 <=? K) with false by lia.
      replace (Z.of_nat (S m) <=? - K) with true by lia. now replace (1 <=? - K) with true by lia. }
  assert (P : letter_pow K (Z.of_nat (S m)) = letter_pow K 1).
  { unfold letter_pow. destruct (Z_le_gt_dec 1 K).
    - replace (Z.of_nat (S m) <=? K) with true by lia. now replace (1 <=? K) with true by lia.
    - replace (Z.of_nat (S m) <=? K) with false by lia. now replace (1 <=? K) with false by lia. }
  rewrite L, P. change (seq 0 (S m)) with (0%nat :: seq 1 m). cbn [map rev]. rewrite <- seq_shift, map_map. f_equal; [|f_equal; f_equal; lia].
  f_equal. apply map_ext. intros k. f_equal. lia.
Qed.

Lemma seq_mirror n : rev (seq 0 n) = map (fun k => (n - 1 - k)%nat) (seq 0 n).
Proof.
  induction n as [|n IH]; [reflexivity|]. rewrite seq_S at 1. rewrite rev_app_distr. cbn [rev app Nat.add].
  rewrite IH. cbn [seq map]. f_equal; [lia|]. rewrite <- seq_shift, map_map. apply map_ext. intros k. lia.
Qed.

Lemma chain_mirror K n r : Z.of_nat n = Z.abs K -> (0 < n)%nat ->
  chain n K (- (2 * r)) (-1) = dual_factors (Z.of_nat n + 2 * r) (chain n K 0 1).
Proof.
  intros Hn Hp. rewrite !(chain_const K n) by lia. unfold dual_factors. rewrite map_rev, rev_involutive, map_map.
  rewrite <- map_rev, seq_mirror, map_map. apply map_ext_in. intros k Hk. apply in_seq in Hk. rewrite dual_F1.
  unfold letter, letter_pow. cbn [Z.ltb Z.compare]. destruct (Z_le_gt_dec 1 K).
  - replace (1 <=? K) with true by lia. cbn [dual fst snd]. f_equal. lia.
  - replace (1 <=? K) with false by lia. replace (1 <=? - K) with true by lia. cbn [dual fst snd]. f_equal. lia.
Qed.

Lemma dual_factors_app v a b : dual_factors v (a ++ b) = dual_factors v b ++ dual_factors v a.
Proof. unfold dual_factors. now rewrite map_app, rev_app_distr. Qed.

Section Radial.
  Variable Gam : R -> R.
  Variables Msqrt Minv : mat R -> res (mat R).
  Let Rep := Rep_elem Gam Msqrt Minv.
  Let good (fs : list factor) := Forall (fun f => Forall (fun eo => has_dual Msqrt Minv (fst eo)) (f_elems f)) fs.

  Lemma good_chain K n : Z.of_nat n = Z.abs K -> (0 < n)%nat -> good (chain n K 0 1).
  Proof.
    intros Hn Hp. rewrite (chain_const K n) by lia. apply Forall_rev. apply Forall_map. apply Forall_forall. intros k _.
    cbn [F1 f_elems]. constructor; [|constructor]. cbn [fst]. unfold letter. cbn [Z.ltb Z.compare]. destruct (Z_le_gt_dec 1 K).
    - now replace (1 <=? K) with true by lia.
    - replace (1 <=? K) with false by lia. now replace (1 <=? - K) with true by lia.
  Qed.

  Lemma good_F1 e o p : has_dual Msqrt Minv e -> good [F1 e o p].
  Proof. intros H. repeat constructor. exact H. Qed.

  Lemma mirror_factors K v : mirrored K v -> 0 <= v -> (K = 0 -> v mod 2 = 1 -> keeps_symmetric Msqrt) ->
    exists fs, bsds_factors K 0 v = Ok fs /\ bsds_factors K 0 (- v) = Ok (dual_factors v fs) /\ good fs.
  Proof.
    intros [HP HM] Hv HS. destruct (Z.eq_dec K 0) as [->|K0].
    - destruct (Z.eq_dec v 0) as [->|V0].
      + eexists. split; [reflexivity|]. split; [reflexivity|]. now apply good_F1.
      + destruct (Z.eq_dec (v mod 2) 1) as [Ho|Ho].
        * specialize (HS eq_refl Ho). unfold bsds_factors.
          replace (is_odd v) with true by (unfold is_odd; lia). replace (is_odd (- v)) with true by (unfold is_odd; lia). cbn [Z.eqb andb].
          replace (v <? 0) with false by lia. replace (- v <? 0) with true by lia. eexists. split; [reflexivity|].
          replace (- v <? -1) with (1 <? v) by lia. destruct (Z.ltb_spec 1 v).
          -- split.
             ++ f_equal. unfold dual_factors. cbn [map rev app]. rewrite !dual_F1. cbn [dual fst snd].
                repeat (f_equal; try lia).
             ++ repeat (apply Forall_nil || apply Forall_cons); first [exact I | exact HS].
          -- split.
             ++ f_equal. unfold dual_factors. cbn [map rev app]. rewrite !dual_F1. cbn [dual fst snd].
                repeat (f_equal; try lia).
             ++ repeat (apply Forall_nil || apply Forall_cons); first [exact I | exact HS].
        * rewrite !id_splits by lia. replace (0 <? v) with true by lia. replace (0 <? - v) with false by lia.
          eexists. split; [reflexivity|]. split; [|now apply good_F1].
          unfold dual_factors. cbn [map rev app]. rewrite dual_F1. cbn [dual fst snd]. repeat (f_equal; try lia).
    - destruct (Z.eq_dec v 0) as [->|V0].
      + exists (repeat (sq K) (Z.to_nat (Z.abs K / 2))). change (- 0) with 0. rewrite bsds_even by lia. split; [reflexivity|].
        split.
        * f_equal. unfold dual_factors.
          assert (D : dual_factor 0 (sq K) = sq K) by (unfold sq; rewrite dual_F1; destruct (0 <? K); reflexivity).
          clear - D. induction (Z.to_nat (Z.abs K / 2)) as [|m IH]; [reflexivity|].
          cbn [repeat map rev]. rewrite <- IH, D. apply (repeat_cons m (sq K)).
        * clear. induction (Z.to_nat (Z.abs K / 2)); cbn [repeat]; [constructor|]. constructor; [|assumption].
          unfold sq. destruct (0 <? K); repeat constructor.
      + set (n := Z.to_nat (Z.abs K)). assert (Hn : Z.of_nat n = Z.abs K) by lia.
        rewrite (bsds_large K 0 v n), (bsds_large K 0 (- v) n) by lia. cbv zeta. rewrite Z.abs_opp.
        replace (0 <? v) with true by lia. replace (0 <? - v) with false by lia.
        set (r := (Z.abs v - Z.of_nat n) / 2). assert (Hr : v = Z.of_nat n + 2 * r) by lia. clearbody r.
        eexists. split; [reflexivity|]. split.
        * f_equal. rewrite dual_factors_app, (chain_mirror K n r) by lia. rewrite <- Hr. f_equal.
          destruct (0 <? r); [|reflexivity]. unfold dual_factors. cbn [map rev app]. rewrite dual_F1. cbn [dual fst snd].
          repeat (f_equal; try lia).
        * apply Forall_app. split; [|apply good_chain; lia]. destruct (0 <? r); [|constructor]. now apply good_F1.
  Qed.

  Variable anorm : R.

  Lemma slice_transposed a b A B : transposed A B -> 0 <= a -> b <= nrows A -> b <= ncols A -> a <= b ->
    transposed (slice A a b a b) (slice B a b a b).
  Proof.
    intros (P & Q & H) Ha Hb Hc Hab. unfold slice, slice_bound. replace (a <? 0) with false by lia. replace (b <? 0) with false by lia.
    split; [cbn; lia|]. split; [cbn; lia|]. cbn [nrows ncols ent]. intros x y Hx Hy.
    rewrite <- H by lia. f_equal; lia.
  Qed.

  Lemma slice_square n a b A : square n A -> 0 <= a <= b -> b <= n -> square (b - a) (slice A a b a b).
  Proof.
    intros [H1 H2] Ha Hb. unfold slice, slice_bound. replace (a <? 0) with false by lia. replace (b <? 0) with false by lia.
    split; cbn [nrows ncols]; lia.
  Qed.

  Lemma radial_transposed w lambdaa v n0 n1 lap A B : power_word w -> mirrored (exponent w) v ->
    (exponent w = 0 -> v mod 2 = 1 -> keeps_symmetric Msqrt) ->
    0 <= n0 <= n1 -> 0 <= lap ->
    RadProd Rep w anorm lambdaa v n0 n1 lap = Ok A ->
    RadProd Rep w anorm (lambdaa + IZR v) (- v) n0 n1 lap = Ok B ->
    square (n1 - n0 + 1) A /\ square (n1 - n0 + 1) B /\ transposed A B.
  Proof.
    assert (W : forall l u C D, 0 <= u -> power_word w -> mirrored (exponent w) u ->
      (exponent w = 0 -> u mod 2 = 1 -> keeps_symmetric Msqrt) -> 0 <= n0 <= n1 -> 0 <= lap ->
      RadProd Rep w anorm l u n0 n1 lap = Ok C -> RadProd Rep w anorm (l + IZR u) (- u) n0 n1 lap = Ok D ->
      square (n1 - n0 + 1) C /\ square (n1 - n0 + 1) D /\ transposed C D).
    { intros l u C D Hu Hw HM HS Hn Hlap EC ED. unfold RadProd, RepRadial_Prod_common in EC, ED. cbv zeta in EC, ED.
      apply bind_ok in EC. destruct EC as (fs & EF & EC). apply bind_ok in ED. destruct ED as (gs & EG & ED).
      assert (Hl : (0 < l)%R /\ (0 < l + IZR u)%R).
      { unfold RepRadial_Prod_factors in EF. destruct (Rle_dec l 0); [discriminate|]. destruct (Rle_dec (l + IZR u) 0); [discriminate|]. lra. }
      destruct Hl as [Hl Hl'].
      rewrite power_factors in EF by assumption.
      assert (HM' : mirrored (exponent w) (- u)) by (destruct HM as [P Q]; split; lia).
      assert (Hl2 : (0 < l + IZR u + IZR (- u))%R) by (rewrite opp_IZR; lra).
      rewrite power_factors in EG by assumption.
      destruct (mirror_factors (exponent w) u HM Hu HS) as (fs' & F1 & F2 & GF). rewrite F1 in EF. rewrite F2 in EG.
      injection EF as <-. injection EG as <-.
      apply bind_ok in EC. destruct EC as (C1 & C2 & EC). apply bind_ok in ED. destruct ED as (D1 & D2 & ED).
      destruct (factors_transposed Gam Msqrt Minv anorm u l _ _ fs' C1 D1 GF C2 D2) as ([S1 S2] & [S3 S4] & T).
      destruct (lap =? 0) eqn:El.
      - injection EC as <-. injection ED as <-. replace lap with 0 in * by lia.
        replace (Z.min 0 n0) with 0 in * by lia. split; [split; lia|]. split; [split; lia|exact T].
      - match type of EC with Ok ?x = Ok ?y => assert (E1 : y = x) by congruence end.
        match type of ED with Ok ?x = Ok ?y => assert (E2 : y = x) by congruence end. subst C D. clear EC ED. set (sh := Z.min lap n0) in *. assert (Hsh : 0 <= sh <= n0 /\ sh <= lap) by lia. clearbody sh.
        replace (n1 - n0 + 1) with (1 + n1 - n0 + sh - sh) by lia.
        split; [apply (slice_square (nrows C1)); [split; lia|lia|lia]|].
        split; [apply (slice_square (nrows D1)); [split; lia|lia|lia]|].
        apply slice_transposed; try assumption; lia. }
    intros Hw HM HS Hn Hlap EA EB. destruct (Z_le_gt_dec 0 v) as [Hv|Hv].
    - eapply W; eassumption.
    - destruct (W (lambdaa + IZR v)%R (- v) B A) as (S1 & S2 & T); try assumption; try lia.
      + destruct HM as [P Q]. split; lia.
      + intros K0 Ho. apply HS; [exact K0|]. lia.
      + rewrite opp_IZR. replace (lambdaa + IZR v + - IZR v)%R with lambdaa by ring. now rewrite Z.opp_involutive.
      + split; [exact S2|]. split; [exact S1|]. now apply transposed_sym.
  Qed.
End Radial.
