(** The factor lists of beta^K d^T for large shifts, and of beta^K. *)

From Coq Require Import Reals Lra.
From Coq Require Import Lia ZifyBool ZifyNat.
From Verif Require Import PyBase PyFacts Compat Matrix FullLabels RadialOps PropsRadialOps RadialME RadialMESpec RadialMEFacts IdFacts RadialWords RadialElement RadialExact.
Open Scope Z_scope.
Ltac Zify.zify_post_hook ::= Z.div_mod_to_equations.

Definition letter (K i sig : Z) : elem :=
  if 0 <? sig then if i <=? K then M_b_pl else if i <=? - K then M_bm_pl else M_Db_pl
  else if i <=? K then M_b_ml else if i <=? - K then M_bm_ml else M_Db_ml.
Definition letter_pow (K i : Z) : Z := if i <=? K then -1 else 1.

Fixpoint chain (i : nat) (K run sig : Z) : list factor :=
  match i with
  | O => []
  | S j => chain j K (run + sig) sig ++ [F1 (letter K (Z.of_nat i) sig) run (letter_pow K (Z.of_nat i))]
  end.

Lemma pick_letter K i run s sig : 0 < i -> nth (Z.to_nat (i - 1)) s 0 = sig -> sig = 1 \/ sig = -1 ->
  bsds_pick K i run s = Ok (F1 (letter K i sig) run (letter_pow K i), 1).
Proof.
  intros Hi Hs Hsig. unfold bsds_pick. rewrite Hs. unfold letter, letter_pow.
  destruct Hsig; subst sig; rewrite H; cbn [Z.ltb Z.compare];
    destruct (Z.leb_spec i K); try (replace (0 <? K) with true by lia; reflexivity).
  - destruct (Z.leb_spec i (- K)).
    + replace (K <? 0) with true by lia. reflexivity.
    + replace (Z.abs K <? i) with true by lia. reflexivity.
  - destruct (Z.leb_spec i (- K)).
    + replace (K <? 0) with true by lia. reflexivity.
    + replace (Z.abs K <? i) with true by lia. reflexivity.
Qed.

Lemma loop_chain sig K n lamX s : sig = 1 \/ sig = -1 ->
  forall i fuel run p, (i <= fuel)%nat -> (Z.of_nat i < n \/ lamX < 0) ->
  (forall j, 0 <= j < Z.of_nat i -> nth (Z.to_nat j) s 0 = sig) ->
  bsds_loop fuel K n lamX (Z.of_nat i) run s (Some p)
  = Ok (Some (chain i K run sig ++ p), run + sig * Z.of_nat i).
Proof.
  intros Hsig. induction i as [|i IH]; intros fuel run p Hf Hl Hs.
  - destruct fuel; cbn; f_equal; f_equal; lia.
  - destruct fuel as [|fuel]; [lia|]. cbn [bsds_loop]. replace (0 <? Z.of_nat (S i)) with true by lia.
    rewrite (pick_letter K (Z.of_nat (S i)) run s sig) by (try apply Hs; assumption || lia). cbn [bind].
    replace ((Z.of_nat (S i) =? n) && (0 <=? lamX)) with false by lia. cbn [lmul bind].
    rewrite (Hs (Z.of_nat (S i) - 1)) by lia.
    replace (Z.of_nat (S i) - 1) with (Z.of_nat i) by lia.
    rewrite IH by (try (intros; apply Hs); lia).
    cbn [chain]. rewrite <- app_assoc. cbn [app]. f_equal. f_equal. lia.
Qed.

(** The first step when nothing has been multiplied yet. *)
Lemma loop_chain0 sig K n lamX s : sig = 1 \/ sig = -1 -> (0 < n)%nat -> 0 <= lamX ->
  (forall j, 0 <= j < Z.of_nat n -> nth (Z.to_nat j) s 0 = sig) ->
  bsds_loop n K (Z.of_nat n) lamX (Z.of_nat n) 0 s None = Ok (Some (chain n K 0 sig), sig * Z.of_nat n).
Proof.
  intros Hsig Hn Hl Hs. destruct n as [|n]; [lia|]. cbn [bsds_loop].
  replace (0 <? Z.of_nat (S n)) with true by lia.
  rewrite (pick_letter K (Z.of_nat (S n)) 0 s sig) by (try apply Hs; assumption || lia). cbn [bind].
  replace ((Z.of_nat (S n) =? Z.of_nat (S n)) && (0 <=? lamX)) with true by lia. cbn [bind].
  rewrite (Hs (Z.of_nat (S n) - 1)) by lia.
  replace (Z.of_nat (S n) - 1) with (Z.of_nat n) by lia.
  rewrite (loop_chain sig) by (try (intros; apply Hs); assumption || lia).
  cbn [chain]. f_equal. f_equal. lia.
Qed.

Lemma nth_repeat_lt (x d : Z) n j : (j < n)%nat -> nth j (repeat x n) d = x.
Proof. revert j. induction n; intros [|j] H; cbn; try lia; try reflexivity. apply IHn. lia. Qed.

Lemma map_repeat (f : Z -> Z) x n : map f (repeat x n) = repeat (f x) n.
Proof. induction n; cbn; congruence. Qed.

Lemma Lambda_one K T v : 0 <= T -> Z.abs K + T <= Z.abs v -> (Z.abs v - (Z.abs K + T)) mod 2 = 0 ->
  Lambda_RadialOp_List [KTOp K T] v = Ok [v].
Proof.
  intros HT Hv Hp. unfold Lambda_RadialOp_List, lambda_abs_list. cbn [map max_var mapM].
  unfold irem, require_nonnegint, require_posint, raise_if.
  replace (Z.abs K + T <? 0) with false by lia. cbn.
  replace (is_odd (Z.abs v - (Z.abs K + T + 0))) with false by (unfold is_odd; lia).
  replace (Z.abs v <? (Z.abs K + T) mod 2 + 0) with false by lia.
  replace (Z.abs v <? Z.abs K + T + 0) with false by lia. cbn [Z.ltb Z.compare].
  destruct (Z.ltb_spec 0 (Z.abs v - (Z.abs K + T + 0))).
  - destruct (Z.ltb_spec 0 v).
    + cbn [andb first_KT is_KTOp upd bind]. replace (0 <=? v) with true by lia. f_equal. f_equal. lia.
    + cbn [andb]. destruct (Z.ltb_spec v 0); [|lia].
      cbn [andb last_KT rev app first_KT is_KTOp upd bind length Nat.sub].
      replace (0 <=? v) with false by lia. cbn [map]. f_equal. f_equal. lia.
  - cbn [bind]. destruct (Z.leb_spec 0 v); cbn [map]; f_equal; f_equal; lia.
Qed.

Lemma Splits_large K T v : 0 <= T -> Z.abs K + T <= Z.abs v -> (Z.abs v - (Z.abs K + T)) mod 2 = 0 ->
  0 < Z.abs K + T ->
  Lambda_Splits K T v = Ok (let IR := Z.abs v - (Z.abs K + T) in
    (if 0 <? IR then [Z.sgn v * IR] else []) ++ repeat (Z.sgn v) (Z.to_nat (Z.abs K + T))).
Proof.
  intros HT Hv Hp Hpos. unfold Lambda_Splits, require_nonnegint, raise_if. replace (T <? 0) with false by lia.
  cbn [bind]. cbv zeta. destruct (Z.ltb_spec 0 (Z.abs v - (Z.abs K + T))).
  - replace (is_even (Z.abs v - (Z.abs K + T))) with true by (unfold is_even; lia). cbn [bind].
    f_equal. unfold py_repeat. destruct (Z.leb_spec 0 v); cbn [map app].
    + replace (Z.sgn v) with 1 by lia. f_equal; lia.
    + replace (Z.sgn v) with (-1) by lia. rewrite map_repeat. f_equal; lia.
  - unfold iquo, require_nonnegint, require_posint, raise_if.
    replace (- (Z.abs v - (Z.abs K + T)) <? 0) with false by lia. replace (T <? 0) with false by lia.
    cbn [bind]. cbn -[Z.min Z.mul Z.div py_repeat].
    replace (- (Z.abs v - (Z.abs K + T)) / 2) with 0 by lia.
    replace (Z.min 0 (T / 2)) with 0 by lia.
    replace (v =? 0) with false by lia. rewrite andb_false_r. cbn [andb].
    replace (Z.abs K + T - Z.abs v - 2 * 0) with 0 by lia. change (2 * 0) with 0.
    unfold py_repeat. cbn [Z.to_nat repeat app]. rewrite app_nil_r. cbn [bind]. f_equal.
    replace (Z.abs v) with (Z.abs K + T) by lia.
    destruct (Z.leb_spec 0 v).
    + replace (Z.sgn v) with 1 by lia. reflexivity.
    + replace (Z.sgn v) with (-1) by lia. now rewrite map_repeat.
Qed.

(** The factors of beta^K d^T for a shift of at least |K| + T. *)
Lemma bsds_large K T v n : 0 <= T -> (0 < n)%nat -> Z.abs K + T = Z.of_nat n -> Z.of_nat n <= Z.abs v ->
  (Z.abs v - Z.of_nat n) mod 2 = 0 ->
  bsds_factors K T v = Ok (
    let r := (Z.abs v - Z.of_nat n) / 2 in
    if 0 <? v then (if 0 <? r then [F1 (M_id_pl r) (Z.of_nat n) 0] else []) ++ chain n K 0 1
    else chain n K (- (2 * r)) (-1) ++ (if 0 <? r then [F1 (M_id_ml r) 0 0] else [])).
Proof.
  intros HT Hn EKT Hv Hp. unfold bsds_factors.
  replace ((K =? 0) && (T =? 0) && is_odd v) with false by lia.
  rewrite Splits_large by lia. cbn [bind]. rewrite EKT. cbv zeta. rewrite Nat2Z.id.
  set (IR := Z.abs v - Z.of_nat n) in *.
  assert (HR : forall sg0 j, 0 <= j < Z.of_nat n -> nth (Z.to_nat j) (repeat sg0 n) 0 = sg0).
  { intros sg0 j Hj. apply nth_repeat_lt. lia. }
  destruct (Z.ltb_spec 0 IR) as [HI|HI].
  - unfold zlen. cbn [app length]. rewrite repeat_length.
    replace (Z.of_nat n <? Z.of_nat (S n)) with true by lia. cbn [nth tl]. rewrite repeat_length, Z.eqb_refl.
    cbn [py_assert bind raise_if negb].
    replace (0 <? IR / 2) with true by lia.
    destruct (Z.ltb_spec 0 v) as [Hv0|Hv0].
    + replace (Z.sgn v) with 1 by lia. replace (1 * IR) with IR by lia.
      replace (IR <? 0) with false by lia. cbn [bind].
      rewrite (loop_chain0 1) by (try apply HR; lia). cbn [bind].
      replace (0 <? IR) with true by lia. replace (is_even IR) with true by (unfold is_even; lia).
      cbn [py_assert bind raise_if negb]. replace (0 <? Z.of_nat n) with true by lia. cbn [lmul bind].
      replace ((Z.of_nat n =? 0) && (IR =? 0)) with false by lia.
      replace (1 * Z.of_nat n) with (Z.of_nat n) by lia. reflexivity.
    + replace (Z.sgn v) with (-1) by lia. replace (-1 * IR) with (- IR) by lia.
      replace (- IR <? 0) with true by lia. replace (is_even (- IR)) with true by (unfold is_even; lia).
      cbn [py_assert bind raise_if negb]. rewrite (loop_chain (-1)) by (try apply HR; lia). cbn [bind].
      replace (0 <? - IR) with false by lia. cbn [bind].
      replace ((Z.of_nat n =? 0) && (- IR =? 0)) with false by lia.
      replace (- - IR / 2) with (IR / 2) by lia. replace (- (2 * (IR / 2))) with (- IR) by lia. reflexivity.
  - unfold zlen. cbn [app]. rewrite repeat_length.
    replace (Z.of_nat n <? Z.of_nat n) with false by lia. rewrite repeat_length, Z.eqb_refl.
    cbn [py_assert bind raise_if negb Z.ltb Z.compare].
    replace (0 <? IR / 2) with false by lia.
    destruct (Z.ltb_spec 0 v) as [Hv0|Hv0].
    + replace (Z.sgn v) with 1 by lia. rewrite (loop_chain0 1) by (try apply HR; lia). cbn [bind app].
      replace ((Z.of_nat n =? 0) && (0 =? 0)) with false by lia. reflexivity.
    + replace (Z.sgn v) with (-1) by lia. rewrite (loop_chain0 (-1)) by (try apply HR; lia). cbn [bind].
      replace ((Z.of_nat n =? 0) && (0 =? 0)) with false by lia.
      replace (- (2 * (IR / 2))) with 0 by lia. now rewrite app_nil_r.
Qed.

(** ** beta^K with a shift below K *)

Lemma pick_b2 K i run s : 1 < i -> i <= K -> nth (Z.to_nat (i - 1)) s 0 = 0 -> nth (Z.to_nat (i - 2)) s 0 = 0 ->
  bsds_pick K i run s = Ok (F1 M_b2 run (-2), 2).
Proof.
  intros H1 HK E1 E2. unfold bsds_pick. rewrite E1, E2. cbn [Z.ltb Z.compare].
  replace ((1 <? i) && (0 =? 0)) with true by lia. replace (i <=? K) with true by lia.
  replace (0 <? K) with true by lia. reflexivity.
Qed.

Lemma loop_b2 K n lamX s run : forall m fuel p, (m <= fuel)%nat -> 2 * Z.of_nat m <= K ->
  (2 * Z.of_nat m < n \/ lamX < 0) ->
  (forall j, 0 <= j < 2 * Z.of_nat m -> nth (Z.to_nat j) s 0 = 0) ->
  bsds_loop fuel K n lamX (2 * Z.of_nat m) run s (Some p)
  = Ok (Some (repeat (F1 M_b2 run (-2)) m ++ p), run).
Proof.
  induction m as [|m IH]; intros fuel p Hf HK Hl Hs.
  - destruct fuel; reflexivity.
  - destruct fuel as [|fuel]; [lia|]. cbn [bsds_loop]. replace (0 <? 2 * Z.of_nat (S m)) with true by lia.
    rewrite pick_b2 by (try apply Hs; lia). cbn [bind].
    replace ((2 * Z.of_nat (S m) =? n) && (0 <=? lamX)) with false by lia. cbn [lmul bind].
    rewrite (Hs (2 * Z.of_nat (S m) - 1)) by lia. rewrite Z.add_0_r.
    replace (2 * Z.of_nat (S m) - 2) with (2 * Z.of_nat m) by lia.
    rewrite IH by (try (intros; apply Hs); lia). f_equal. f_equal. f_equal.
    change (repeat (F1 M_b2 run (-2)) (S m)) with (F1 M_b2 run (-2) :: repeat (F1 M_b2 run (-2)) m).
    rewrite (repeat_cons m), <- app_assoc. reflexivity.
Qed.

Lemma letter_beta K i j sig : 0 < j -> i <= K -> j <= K -> 0 < i -> letter K i sig = letter K j sig.
Proof.
  intros. unfold letter. replace (i <=? K) with true by lia. now replace (j <=? K) with true by lia.
Qed.

(** Steps of shift +-1 down to position [base]. *)
Lemma loop_steps sig K n lamX s base : sig = 1 \/ sig = -1 -> 0 <= base ->
  forall j fuel run p, base + Z.of_nat j <= K -> (base + Z.of_nat j < n \/ lamX < 0) ->
  (forall q, base <= q < base + Z.of_nat j -> nth (Z.to_nat q) s 0 = sig) ->
  bsds_loop (j + fuel) K n lamX (base + Z.of_nat j) run s (Some p)
  = bsds_loop fuel K n lamX base (run + sig * Z.of_nat j) s (Some (chain j K run sig ++ p)).
Proof.
  intros Hsig Hb. induction j as [|j IH]; intros fuel run p HK Hl Hs.
  - cbn [chain app plus]. f_equal; lia.
  - cbn [plus bsds_loop]. replace (0 <? base + Z.of_nat (S j)) with true by lia.
    rewrite (pick_letter K _ run s sig) by (try apply Hs; assumption || lia). cbn [bind].
    replace ((base + Z.of_nat (S j) =? n) && (0 <=? lamX)) with false by lia. cbn [lmul bind].
    rewrite (Hs (base + Z.of_nat (S j) - 1)) by lia.
    replace (base + Z.of_nat (S j) - 1) with (base + Z.of_nat j) by lia.
    rewrite IH by (try (intros; apply Hs); lia). cbn [chain]. rewrite <- app_assoc. cbn [app].
    rewrite (letter_beta K (base + Z.of_nat (S j)) (Z.of_nat (S j))) by lia.
    replace (letter_pow K (base + Z.of_nat (S j))) with (letter_pow K (Z.of_nat (S j)))
      by (unfold letter_pow; replace (base + Z.of_nat (S j) <=? K) with true by lia;
          now replace (Z.of_nat (S j) <=? K) with true by lia).
    f_equal; lia.
Qed.

Lemma nth_zeros_ones m j (sig : Z) q :
  nth q (repeat 0 m ++ repeat sig j) 0 = if (q <? m)%nat then 0 else if (q <? m + j)%nat then sig else 0.
Proof.
  destruct (Nat.ltb_spec q m).
  - rewrite app_nth1 by (rewrite repeat_length; lia). now apply nth_repeat_lt.
  - rewrite app_nth2 by (rewrite repeat_length; lia). rewrite repeat_length.
    destruct (Nat.ltb_spec q (m + j)).
    + apply nth_repeat_lt. lia.
    + apply nth_overflow. rewrite repeat_length. lia.
Qed.

Lemma map_app_repeat (f : Z -> Z) x y m j : map f (repeat x m ++ repeat y j) = repeat (f x) m ++ repeat (f y) j.
Proof. now rewrite map_app, !map_repeat. Qed.

(** The factors of beta^K for a shift v below K of the same parity. *)
Lemma bsds_beta m j v : (0 < m)%nat -> Z.abs v = Z.of_nat j ->
  bsds_factors (2 * Z.of_nat m + Z.of_nat j) 0 v
  = Ok (repeat (F1 M_b2 v (-2)) m ++ chain j (2 * Z.of_nat m + Z.of_nat j) 0 (if 0 <=? v then 1 else -1)).
Proof.
  intros Hm Hv. set (K := 2 * Z.of_nat m + Z.of_nat j). unfold bsds_factors.
  replace ((K =? 0) && (0 =? 0) && is_odd v) with false by lia.
  set (sig := if 0 <=? v then 1 else -1).
  assert (ES : Lambda_Splits K 0 v = Ok (repeat 0 (2 * m) ++ repeat sig j)).
  { unfold Lambda_Splits. cbn [require_nonnegint raise_if Z.ltb Z.compare bind]. cbv zeta.
    replace (0 <? Z.abs v - (Z.abs K + 0)) with false by lia.
    unfold iquo, require_nonnegint, require_posint, raise_if.
    replace (- (Z.abs v - (Z.abs K + 0)) <? 0) with false by lia. cbn -[Z.min Z.mul Z.div py_repeat Z.abs].
    change (0 / 2) with 0. replace (Z.min (- (Z.abs v - (Z.abs K + 0)) / 2) 0) with 0 by lia.
    change (2 * 0) with 0. change (py_repeat 0 0) with (@nil Z). rewrite app_nil_r.
    replace (K <? 0) with false by lia. cbn [andb bind]. unfold py_repeat.
    replace (Z.to_nat (Z.abs K + 0 - Z.abs v - 0)) with (2 * m)%nat by lia.
    rewrite Hv, Nat2Z.id. f_equal. unfold sig. destruct (Z.leb_spec 0 v); [reflexivity|].
    now rewrite map_app_repeat. }
  rewrite ES. cbn [bind]. unfold zlen. rewrite app_length, !repeat_length.
  replace (Z.abs K + 0) with (Z.of_nat (2 * m + j)) by lia. rewrite Z.ltb_irrefl.
  rewrite app_length, !repeat_length, Z.eqb_refl. cbn [py_assert raise_if negb bind Z.ltb Z.compare].
  set (s := repeat 0 (2 * m) ++ repeat sig j).
  assert (Hs0 : forall q, 0 <= q < 2 * Z.of_nat m -> nth (Z.to_nat q) s 0 = 0).
  { intros q Hq. unfold s. rewrite nth_zeros_ones. now replace (Z.to_nat q <? 2 * m)%nat with true by lia. }
  assert (Hs1 : forall q, 2 * Z.of_nat m <= q < 2 * Z.of_nat m + Z.of_nat j -> nth (Z.to_nat q) s 0 = sig).
  { intros q Hq. unfold s. rewrite nth_zeros_ones. replace (Z.to_nat q <? 2 * m)%nat with false by lia.
    now replace (Z.to_nat q <? 2 * m + j)%nat with true by lia. }
  assert (Hsig : sig = 1 \/ sig = -1) by (unfold sig; destruct (0 <=? v); lia).
  rewrite Nat2Z.id.
  assert (EL : bsds_loop (2 * m + j) K (Z.of_nat (2 * m + j)) 0 (Z.of_nat (2 * m + j)) 0 s None
    = Ok (Some (repeat (F1 M_b2 v (-2)) m ++ chain j K 0 sig), v)).
  { destruct j as [|j].
    - replace (2 * m + 0)%nat with (2 * m)%nat by lia. destruct m as [|m]; [lia|].
      replace (2 * S m)%nat with (S (S (2 * m))) by lia.
      set (fuel := S (2 * m)). assert (Hfuel : (m <= fuel)%nat) by lia. cbn [bsds_loop].
      assert (Efuel : Z.of_nat (S fuel) = 2 * Z.of_nat m + 2) by lia. rewrite Efuel. clearbody fuel.
      replace (0 <? 2 * Z.of_nat m + 2) with true by lia.
      rewrite pick_b2 by (try apply Hs0; lia). cbn [bind].
      replace ((2 * Z.of_nat m + 2 =? 2 * Z.of_nat m + 2) && (0 <=? 0)) with true by lia. cbn [bind].
      rewrite (Hs0 ((2 * Z.of_nat m + 2) - 1)) by lia.
      replace ((2 * Z.of_nat m + 2) - 2) with (2 * Z.of_nat m) by lia.
      change (0 + 0) with 0.
      rewrite loop_b2 by (try (intros; apply Hs0); lia). replace v with 0 by lia. cbn [chain].
      rewrite app_nil_r. change (repeat (F1 M_b2 0 (-2)) (S m)) with (F1 M_b2 0 (-2) :: repeat (F1 M_b2 0 (-2)) m).
      rewrite (repeat_cons m). reflexivity.
    - replace (2 * m + S j)%nat with (S (j + 2 * m)) by lia. cbn [bsds_loop].
      replace (0 <? Z.of_nat (S (j + 2 * m))) with true by lia.
      rewrite (pick_letter K _ 0 s sig) by (try apply Hs1; assumption || lia). cbn [bind].
      replace ((Z.of_nat (S (j + 2 * m)) =? Z.of_nat (S (j + 2 * m))) && (0 <=? 0)) with true by lia. cbn [bind].
      rewrite (Hs1 (Z.of_nat (S (j + 2 * m)) - 1)) by lia.
      replace (Z.of_nat (S (j + 2 * m)) - 1) with (2 * Z.of_nat m + Z.of_nat j) by lia.
      rewrite (loop_steps sig) by (try (intros; apply Hs1); assumption || lia).
      rewrite loop_b2 by (try (intros; apply Hs0); lia).
      rewrite (letter_beta K _ (Z.of_nat (S j))) by lia.
      replace (letter_pow K (Z.of_nat (S (j + 2 * m)))) with (letter_pow K (Z.of_nat (S j)))
        by (unfold letter_pow; replace (Z.of_nat (S (j + 2 * m)) <=? K) with true by lia;
            now replace (Z.of_nat (S j) <=? K) with true by lia).
      cbn [chain]. replace (0 + sig + sig * Z.of_nat j) with v by (unfold sig; destruct (Z.leb_spec 0 v); lia).
      reflexivity. }
  rewrite EL. cbn [bind]. replace ((Z.of_nat (2 * m + j) =? 0) && (0 =? 0)) with false by lia. reflexivity.
Qed.

(** ** Analytic factors, and how far they reach *)

Section Reach.

  Definition rows1 (x : elem * R) : Prop := exists r, row_reach (fst x) = Some r /\ 0 <= r <= 1.
  Definition cols1 (x : elem * R) : Prop := exists c, col_reach (fst x) = Some c /\ 0 <= c <= 1.
  Definition small (x : elem * R) : Prop := forall c, col_reach (fst x) = Some c -> 0 <= c <= 1.

  Lemma small_letter K i sig lam : small (letter K i sig, lam).
  Proof.
    intros c. unfold letter. cbn [fst].
    destruct (0 <? sig), (i <=? K), (i <=? - K); cbn; intros E; inversion E; lia.
  Qed.

  Lemma chain_pl_plain K lambdaa : forall i run, (0 < lambdaa + IZR run)%R ->
    exists l, Forall2 (plain lambdaa) (chain i K run 1) l /\ Forall rows1 l /\ Forall small l /\ length l = i.
  Proof.
    induction i as [|i IH]; intros run H.
    - exists []. repeat split; constructor.
    - destruct (IH (run + 1)) as (l & A & B & C & D). { rewrite plus_IZR. lra. }
      exists (l ++ [(letter K (Z.of_nat (S i)) 1, (lambdaa + IZR run)%R)]). cbn [chain].
      assert (E : letter K (Z.of_nat (S i)) 1 = M_b_pl \/ letter K (Z.of_nat (S i)) 1 = M_bm_pl
        \/ letter K (Z.of_nat (S i)) 1 = M_Db_pl).
      { unfold letter. cbn [Z.ltb Z.compare]. destruct (_ <=? K); [|destruct (_ <=? - K)]; auto. }
      split; [apply Forall2_app; [exact A|constructor; [|constructor]]|].
      { split; [|exists run; split; reflexivity]. cbn [fst snd]. destruct E as [-> | [-> | ->]]; exact H. }
      split; [apply Forall_app; split; [exact B|constructor; [|constructor]]|].
      { unfold rows1. cbn [fst]. destruct E as [-> | [-> | ->]]; cbn; eexists; (split; [reflexivity|lia]). }
      split; [apply Forall_app; split; [exact C|constructor; [apply small_letter|constructor]]|].
      rewrite app_length. cbn. lia.
  Qed.

  Lemma chain_ml_plain K lambdaa : forall i run, (0 < lambdaa + IZR run - INR i)%R ->
    exists l, Forall2 (plain lambdaa) (chain i K run (-1)) l /\ Forall cols1 l /\ length l = i.
  Proof.
    induction i as [|i IH]; intros run H.
    - exists []. repeat split; constructor.
    - rewrite S_INR in H. destruct (IH (run + -1)) as (l & A & B & D). { rewrite plus_IZR. lra. }
      exists (l ++ [(letter K (Z.of_nat (S i)) (-1), (lambdaa + IZR run)%R)]). cbn [chain].
      assert (E : letter K (Z.of_nat (S i)) (-1) = M_b_ml \/ letter K (Z.of_nat (S i)) (-1) = M_bm_ml
        \/ letter K (Z.of_nat (S i)) (-1) = M_Db_ml).
      { unfold letter. cbn [Z.ltb Z.compare]. destruct (_ <=? K); [|destruct (_ <=? - K)]; auto. }
      pose proof (pos_INR i).
      split; [apply Forall2_app; [exact A|constructor; [|constructor]]|].
      { split; [|exists run; split; reflexivity]. cbn [fst snd]. destruct E as [-> | [-> | ->]]; cbn; lra. }
      split; [apply Forall_app; split; [exact B|constructor; [|constructor]]|].
      { unfold cols1. cbn [fst]. destruct E as [-> | [-> | ->]]; cbn; eexists; (split; [reflexivity|lia]). }
      rewrite app_length. cbn. lia.
  Qed.

  Lemma col_sum_cols l : Forall cols1 l -> exists c, col_sum (map fst l) = Some c /\ 0 <= c <= zlen l.
  Proof.
    induction 1 as [|x l (c1 & E1 & H1) _ (c & E & H)].
    - exists 0. split; [reflexivity|]. unfold zlen. cbn. lia.
    - cbn [map col_sum]. rewrite E1, E. eexists. split; [reflexivity|]. unfold zlen in *. cbn [length]. lia.
  Qed.

  Lemma col_sum_small l c : Forall small l -> col_sum (map fst l) = Some c -> 0 <= c <= zlen l.
  Proof.
    revert c. induction l as [|x l IH]; intros c S E; cbn [map col_sum] in E.
    - inversion E. unfold zlen. cbn. lia.
    - inversion S; subst. destruct (col_reach (fst x)) as [c1|] eqn:E1; [|discriminate].
      destruct (col_sum (map fst l)) as [t|] eqn:E2; [|discriminate]. inversion E; subst.
      specialize (IH t H2 eq_refl). specialize (H1 c1 E1). unfold zlen in *. cbn [length]. lia.
  Qed.

  Lemma col_sum_app l r c t : col_sum l = Some c -> col_sum r = Some t -> col_sum (l ++ r) = Some (c + t).
  Proof.
    revert c. induction l as [|x l IH]; intros c E1 E2; cbn [app col_sum] in *.
    - inversion E1; subst. exact E2.
    - destruct (col_reach x) as [cx|]; [|discriminate]. destruct (col_sum l) as [cl|]; [|discriminate].
      rewrite (IH cl eq_refl E2). inversion E1. f_equal. lia.
  Qed.

  (** Column-banded lists. *)
  Lemma reach_cols (l : list (elem * R)) c : col_sum (map fst l) = Some c -> Forall (fun x => forall c, col_reach (fst x) = Some c -> 0 <= c) l ->
    exists t, reach (map fst l) = Some t /\ t <= c.
  Proof.
    intros E N. destruct l as [|x [|y l']].
    - exists 0. inversion E. split; [reflexivity|lia].
    - exists 0. split; [reflexivity|]. cbn [map col_sum] in E. destruct (col_reach (fst x)) as [cx|] eqn:Ex; [|discriminate].
      inversion E. inversion N; subst. specialize (H2 cx Ex). lia.
    - cbn [map] in *. change (reach (fst x :: fst y :: map fst l')) with
        (match col_sum (fst y :: map fst l') with Some t => Some t
         | None => match row_reach (fst x), reach (fst y :: map fst l') with
                   | Some r, Some t => Some (r + t) | _, _ => None end end).
      cbn [col_sum] in E. destruct (col_reach (fst x)) as [cx|] eqn:Ex; [|discriminate].
      cbn [col_sum]. destruct (col_reach (fst y)) as [cy|]; [|discriminate].
      destruct (col_sum (map fst l')) as [ct|]; [|discriminate]. inversion E; subst.
      inversion N; subst. specialize (H1 cx Ex). eexists. split; [reflexivity|lia].
  Qed.

  (** Row-banded lists, possibly behind a far-reaching row-banded matrix. *)
  Lemma reach_rows l : Forall rows1 l -> Forall small l -> exists t, reach (map fst l) = Some t /\ t <= zlen l.
  Proof.
    induction l as [|x l IH]; intros HR HS.
    - exists 0. split; [reflexivity|]. unfold zlen. cbn. lia.
    - inversion HR; subst. inversion HS; subst. destruct l as [|y l'].
      + exists 0. split; [reflexivity|]. unfold zlen. cbn. lia.
      + destruct (IH H2 H4) as (t & E & Ht).
        change (reach (map fst (x :: y :: l'))) with
          (match col_sum (map fst (y :: l')) with Some t => Some t
           | None => match row_reach (fst x), reach (map fst (y :: l')) with
                     | Some r, Some t => Some (r + t) | _, _ => None end end).
        destruct (col_sum (map fst (y :: l'))) as [c|] eqn:Ec.
        * exists c. split; [reflexivity|]. pose proof (col_sum_small _ _ H4 Ec). unfold zlen in *. cbn [length] in *. lia.
        * destruct H1 as (r & Er & Hr). rewrite Er, E. eexists. split; [reflexivity|]. unfold zlen in *. cbn [length] in *. lia.
  Qed.

  Lemma reach_front e lam r l : row_reach e = Some r -> 0 <= r -> Forall rows1 l -> Forall small l ->
    exists t, reach (map fst ((e, lam) :: l)) = Some t /\ t <= r + zlen l.
  Proof.
    intros Er Hr HR HS. destruct l as [|y l'].
    - exists 0. split; [reflexivity|]. unfold zlen. cbn. lia.
    - destruct (reach_rows _ HR HS) as (t & E & Ht).
      change (reach (map fst ((e, lam) :: y :: l'))) with
        (match col_sum (map fst (y :: l')) with Some t => Some t
         | None => match row_reach e, reach (map fst (y :: l')) with
                   | Some r, Some t => Some (r + t) | _, _ => None end end).
      destruct (col_sum (map fst (y :: l'))) as [c|] eqn:Ec.
      + exists c. split; [reflexivity|]. pose proof (col_sum_small _ _ HS Ec). lia.
      + rewrite Er, E. eexists. split; [reflexivity|lia].
  Qed.
End Reach.

(** ** Words that parse to beta^K d^T *)

(** All factors are analytic and an overlap of [t] removes the truncation. *)
Definition settled (w : list rsym) (lambdaa : R) (var t : Z) : Prop :=
  exists fs l t', RepRadial_Prod_factors w lambdaa var = Ok fs /\ Forall2 (plain lambdaa) fs l /\ fs <> [] /\
    reach (map fst l) = Some t' /\ t' <= t.

Lemma shift_factor_0 fs : map (shift_factor 0) fs = fs.
Proof.
  induction fs as [|[es p] fs IH]; [reflexivity|]. cbn [map]. rewrite IH. f_equal. unfold shift_factor. cbn [f_elems f_pow].
  f_equal. rewrite <- (map_id es) at 2. apply map_ext. intros [e o]. cbn. f_equal. lia.
Qed.

Lemma one_KT_factors w K T lambdaa v : Parse_RadialOp_List w = Ok [KTOp K T] ->
  Lambda_RadialOp_List [KTOp K T] v = Ok [v] -> (0 < lambdaa)%R -> (0 < lambdaa + IZR v)%R ->
  RepRadial_Prod_factors w lambdaa v = bsds_factors K T v.
Proof.
  intros EP EL Hl Hv. unfold RepRadial_Prod_factors.
  destruct (Rle_dec lambdaa 0); [lra|]. destruct (Rle_dec (lambdaa + IZR v) 0); [lra|].
  rewrite EP. cbn [bind]. rewrite EL. cbn [bind]. change (insert_id [KTOp K T] [v]) with ([KTOp K T], [v]).
  cbv beta iota. unfold RepRadialshfs_Prod. cbn [rev app shfs_loop representation]. unfold bsds.
  rewrite Rplus_0_r. destruct (Rle_dec lambdaa 0); [lra|]. destruct (Rle_dec (lambdaa + IZR v) 0); [lra|].
  destruct (bsds_factors K T v) as [fs|]; [|reflexivity]. cbn [bind]. now rewrite shift_factor_0, app_nil_r.
Qed.

Lemma chain_nonempty n K run sig : (0 < n)%nat -> chain n K run sig <> [].
Proof. destruct n; [lia|]. intros _ E. cbn [chain] in E. symmetry in E. now apply app_cons_not_nil in E. Qed.

Lemma settled_large w K T lambdaa v : Parse_RadialOp_List w = Ok [KTOp K T] -> 0 <= T -> 0 < Z.abs K + T ->
  Z.abs K + T <= Z.abs v -> (Z.abs v - (Z.abs K + T)) mod 2 = 0 -> (0 < lambdaa)%R -> (0 < lambdaa + IZR v)%R ->
  settled w lambdaa v ((Z.abs v + Z.abs K + T) / 2).
Proof.
  intros EP HT Hn Hv Hp Hl Hlv. set (n := Z.to_nat (Z.abs K + T)).
  unfold settled. rewrite (one_KT_factors w K T) by (try apply Lambda_one; assumption).
  rewrite (bsds_large K T v n) by lia. cbv zeta. set (r := (Z.abs v - Z.of_nat n) / 2).
  destruct (Z.ltb_spec 0 v) as [Hv0|Hv0].
  - destruct (chain_pl_plain K lambdaa n 0 ltac:(lra)) as (l & A & B & C & D).
    destruct (Z.ltb_spec 0 r) as [Hr|Hr].
    + destruct (reach_front (M_id_pl r) (lambdaa + IZR (Z.of_nat n)) r l eq_refl ltac:(lia) B C) as (t & E & Ht).
      exists (F1 (M_id_pl r) (Z.of_nat n) 0 :: chain n K 0 1), ((M_id_pl r, (lambdaa + IZR (Z.of_nat n))%R) :: l), t.
      split; [reflexivity|]. split; [|split; [discriminate|split; [exact E|unfold zlen in Ht; rewrite D in Ht; lia]]].
      constructor; [|exact A]. split; [|eexists; split; reflexivity]. cbn [fst snd elem_dom].
      pose proof (IZR_nonneg (Z.of_nat n) ltac:(lia)). split; [lra|lia].
    + destruct (reach_rows l B C) as (t & E & Ht). exists (chain n K 0 1), l, t.
      split; [reflexivity|]. split; [exact A|]. split; [|split; [exact E|unfold zlen in Ht; rewrite D in Ht; lia]].
      apply chain_nonempty. lia.
  - assert (Hrv : - (2 * r) - Z.of_nat n = v) by lia.
    assert (Hlv' : (0 < lambdaa + IZR (- (2 * r)) - INR n)%R).
    { replace (lambdaa + IZR (- (2 * r)) - INR n)%R with (lambdaa + IZR v)%R; [exact Hlv|].
      rewrite <- Hrv, minus_IZR, INR_IZR_INZ. ring. }
    destruct (chain_ml_plain K lambdaa n (- (2 * r)) Hlv') as (l & A & B & D).
    destruct (col_sum_cols l B) as (c & Ec & Hc).
    assert (NN : Forall (fun x => forall c, col_reach (fst x) = Some c -> 0 <= c) l).
    { eapply Forall_impl; [|exact B]. intros x (c0 & E0 & H0) c1 E1. rewrite E0 in E1. inversion E1. lia. }
    assert (NE : chain n K (- (2 * r)) (-1) <> []).
    { apply chain_nonempty. lia. }
    unfold zlen in Hc. rewrite D in Hc.
    destruct (Z.ltb_spec 0 r) as [Hr|Hr].
    + destruct (reach_cols (l ++ [(M_id_ml r, (lambdaa + IZR 0)%R)]) (c + r)) as (t & E & Ht).
      { rewrite map_app. apply col_sum_app; [exact Ec|]. cbn. f_equal. lia. }
      { apply Forall_app. split; [exact NN|]. constructor; [|constructor]. intros c0 E0. cbn in E0. inversion E0. lia. }
      exists (chain n K (- (2 * r)) (-1) ++ [F1 (M_id_ml r) 0 0]), (l ++ [(M_id_ml r, (lambdaa + IZR 0)%R)]), t.
      split; [reflexivity|]. split; [|split; [destruct (chain n K (- (2 * r)) (-1)); discriminate|split; [exact E|lia]]].
      apply Forall2_app; [exact A|]. constructor; [|constructor]. split; [|eexists; split; reflexivity].
      cbn [fst snd elem_dom]. split; [|lia]. rewrite opp_IZR, mult_IZR in Hlv'. pose proof (pos_INR n). lra.
    + destruct (reach_cols l c Ec NN) as (t & E & Ht). rewrite app_nil_r.
      exists (chain n K (- (2 * r)) (-1)), l, t. repeat split; try assumption. lia.
Qed.

(** ** Powers of beta *)

Lemma Lambda_beta m v : (0 < m)%nat ->
  Lambda_RadialOp_List [KTOp (2 * Z.of_nat m + Z.abs v) 0] v = Ok [v].
Proof.
  intros Hm. set (K := 2 * Z.of_nat m + Z.abs v).
  unfold Lambda_RadialOp_List, lambda_abs_list. cbn [map max_var mapM].
  replace (Z.abs K + 0) with K by lia.
  unfold irem, require_nonnegint, require_posint, raise_if.
  replace (K <? 0) with false by lia. cbn -[Z.min Z.mul K].
  replace (is_odd (Z.abs v - (K + 0))) with false by (unfold is_odd; lia).
  replace (Z.abs v <? K mod 2 + 0) with false by lia.
  replace (Z.abs v <? K + 0) with true by lia.
  destruct (Z.leb_spec (Z.abs v - (K mod 2 + 0)) 0) as [H|H].
  - cbn [bind]. replace (Z.abs v - (K mod 2 + 0) <? 0) with false by lia. cbn [bind].
    destruct (Z.leb_spec 0 v); cbn [map]; f_equal; f_equal; lia.
  - unfold iquo, require_nonnegint, require_posint, raise_if.
    replace (Z.min (Z.abs v - (K mod 2 + 0) + 1) (K - K mod 2)) with (Z.abs v - K mod 2 + 1) by lia.
    replace (Z.abs v - K mod 2 + 1 <? 0) with false by lia. cbn -[Z.mul K].
    replace (2 * ((Z.abs v - K mod 2 + 1) / 2)) with (Z.abs v - K mod 2) by lia.
    replace (Z.abs v - (K mod 2 + 0) - (Z.abs v - K mod 2) <? 0) with false by lia. cbn [bind].
    destruct (Z.leb_spec 0 v); cbn [map]; f_equal; f_equal; lia.
Qed.

Lemma reach_both l : Forall cols1 l -> exists t, reach (map fst l) = Some t /\ t <= zlen l.
Proof.
  intros H. destruct (col_sum_cols l H) as (c & E & Hc).
  destruct (reach_cols l c E) as (t & Et & Ht).
  - eapply Forall_impl; [|exact H]. intros x (c0 & E0 & H0) c1 E1. rewrite E0 in E1. inversion E1. lia.
  - exists t. split; [exact Et|lia].
Qed.

Lemma chain_pl_beta_cols K lambdaa : forall i run, Z.of_nat i <= K -> (0 < lambdaa + IZR run)%R ->
  exists l, Forall2 (plain lambdaa) (chain i K run 1) l /\ Forall cols1 l /\ length l = i.
Proof.
  induction i as [|i IH]; intros run HK H.
  - exists []. repeat split; constructor.
  - destruct (IH (run + 1)) as (l & A & B & D). { lia. } { rewrite plus_IZR. lra. }
    exists (l ++ [(M_b_pl, (lambdaa + IZR run)%R)]). cbn [chain].
    replace (letter K (Z.of_nat (S i)) 1) with M_b_pl
      by (unfold letter; cbn [Z.ltb Z.compare]; now replace (Z.of_nat (S i) <=? K) with true by lia).
    split; [apply Forall2_app; [exact A|constructor; [|constructor]]|].
    { split; [|exists run; split; reflexivity]. exact H. }
    split; [apply Forall_app; split; [exact B|constructor; [|constructor]]|].
    { exists 0. split; [reflexivity|lia]. }
    rewrite app_length. cbn. lia.
Qed.

Lemma settled_beta w m lambdaa v : (0 < m)%nat ->
  Parse_RadialOp_List w = Ok [KTOp (2 * Z.of_nat m + Z.abs v) 0] -> (0 < lambdaa)%R -> (0 < lambdaa + IZR v)%R ->
  settled w lambdaa v (Z.of_nat m + Z.abs v).
Proof.
  intros Hm EP Hl Hlv. unfold settled.
  rewrite (one_KT_factors w _ 0 _ _ EP) by (try apply Lambda_beta; assumption).
  set (j := Z.to_nat (Z.abs v)). replace (Z.abs v) with (Z.of_nat j) by lia.
  rewrite bsds_beta by lia.
  assert (CH : exists l, Forall2 (plain lambdaa) (chain j (2 * Z.of_nat m + Z.of_nat j) 0 (if 0 <=? v then 1 else -1)) l
      /\ Forall cols1 l /\ length l = j).
  { destruct (Z.leb_spec 0 v).
    - apply chain_pl_beta_cols; [lia|lra].
    - apply chain_ml_plain. replace (INR j) with (- IZR v)%R; [lra|].
      rewrite INR_IZR_INZ. replace (Z.of_nat j) with (- v) by lia. now rewrite opp_IZR. }
  destruct CH as (l & A & B & D).
  assert (B2 : Forall2 (plain lambdaa) (repeat (F1 M_b2 v (-2)) m) (repeat (M_b2, (lambdaa + IZR v)%R) m)
    /\ Forall cols1 (repeat (M_b2, (lambdaa + IZR v)%R) m)).
  { clear Hm EP A. induction m as [|m IH]; cbn [repeat]; [split; constructor|]. destruct IH as [I1 I2].
    split; constructor; try assumption.
    - split; [exact Hlv|]. exists v. split; reflexivity.
    - exists 1. split; [reflexivity|lia]. }
  destruct B2 as [B1 B2].
  assert (B3 : Forall cols1 (repeat (M_b2, (lambdaa + IZR v)%R) m ++ l)) by (apply Forall_app; now split).
  destruct (reach_both _ B3) as (t & E & Ht).
  eexists. exists (repeat (M_b2, (lambdaa + IZR v)%R) m ++ l), t. split; [reflexivity|].
  split; [now apply Forall2_app|]. split; [destruct m; [lia|discriminate]|]. split; [exact E|].
  unfold zlen in Ht. rewrite app_length, repeat_length, D in Ht. lia.
Qed.

(** Words of beta and beta^2 are powers of beta. *)
Definition beta_word (w : list rsym) : Prop := Forall (fun s => s = Radial_b \/ s = Radial_b2) w.
Fixpoint beta_degree (w : list rsym) : Z :=
  match w with
  | [] => 0
  | Radial_b2 :: w' => 2 + beta_degree w'
  | _ :: w' => 1 + beta_degree w'
  end.

Lemma beta_degree_app u w : beta_degree (u ++ w) = beta_degree u + beta_degree w.
Proof. induction u as [|[] u IH]; cbn [app beta_degree]; try rewrite IH; lia. Qed.

Lemma beta_degree_nonneg w : 0 <= beta_degree w.
Proof. induction w as [|[] w IH]; cbn [beta_degree]; lia. Qed.

Lemma beta_loop w K : beta_word w -> parse_loop w ([], K, 0) = Ok ([], K + beta_degree w, 0).
Proof.
  intros H. revert K. induction H as [|s w [-> | ->] _ IH]; intros K; cbn [parse_loop beta_degree].
  - f_equal. f_equal. f_equal. lia.
  - cbn [parse_step parse_b bind]. rewrite IH. f_equal. f_equal. f_equal. lia.
  - cbn [parse_step parse_b bind]. rewrite IH. f_equal. f_equal. f_equal. lia.
Qed.

Lemma beta_parse w : beta_word w -> w <> [] -> Parse_RadialOp_List w = Ok [KTOp (beta_degree w) 0].
Proof.
  intros H Hne. unfold Parse_RadialOp_List.
  rewrite beta_loop by (unfold beta_word; now apply Forall_rev). cbn [bind].
  assert (D : forall u, beta_degree (rev u) = beta_degree u).
  { induction u as [|a u IH]; [reflexivity|]. cbn [rev]. rewrite beta_degree_app, IH.
    destruct a; cbn [beta_degree]; lia. }
  rewrite D. assert (0 < beta_degree w).
  { destruct w as [|a w]; [congruence|]. pose proof (beta_degree_nonneg w). destruct a; cbn [beta_degree]; lia. }
  replace (negb (0 + beta_degree w =? 0)) with true by lia. cbn [orb]. unfold mk_KTOp. cbn. f_equal.
Qed.

Lemma settled_beta_word w lambdaa v : beta_word w -> w <> [] -> (beta_degree w + v) mod 2 = 0 ->
  (0 < lambdaa)%R -> (0 < lambdaa + IZR v)%R -> settled w lambdaa v ((beta_degree w + Z.abs v) / 2).
Proof.
  intros HB Hne Hp Hl Hlv. pose proof (beta_parse w HB Hne) as EP.
  assert (0 < beta_degree w).
  { destruct w as [|a w]; [congruence|]. pose proof (beta_degree_nonneg w). destruct a; cbn [beta_degree]; lia. }
  destruct (Z_le_gt_dec (beta_degree w) (Z.abs v)).
  - replace ((beta_degree w + Z.abs v) / 2) with ((Z.abs v + Z.abs (beta_degree w) + 0) / 2) by (f_equal; lia).
    apply settled_large with (K := beta_degree w) (T := 0); try assumption; lia.
  - assert (EK : beta_degree w = 2 * Z.of_nat (Z.to_nat ((beta_degree w - Z.abs v) / 2)) + Z.abs v) by lia.
    destruct (settled_beta w (Z.to_nat ((beta_degree w - Z.abs v) / 2)) lambdaa v) as (fs & l & t & A & B & C & D & E);
      try assumption; [lia|now rewrite <- EK|].
    exists fs, l, t. repeat split; try assumption. lia.
Qed.

(** ** Words of powers of beta followed by derivatives *)

Definition step_b (s : rsym) : Z :=
  match s with Radial_b => 1 | Radial_b2 => 2 | Radial_bm => -1 | Radial_bm2 => -2 | _ => 0 end.
Definition step_D (s : rsym) : Z := match s with Radial_Db => 1 | Radial_D2b => 2 | _ => 0 end.
Definition powers (u : list rsym) : Prop :=
  Forall (fun s => s = Radial_b \/ s = Radial_b2) u \/ Forall (fun s => s = Radial_bm \/ s = Radial_bm2) u.
Definition derivatives (d : list rsym) : Prop := Forall (fun s => s = Radial_Db \/ s = Radial_D2b) d.

Lemma zsum_rev l : zsum (rev l) = zsum l.
Proof.
  induction l as [|x l IH]; [reflexivity|]. cbn [rev]. rewrite zsum_app, IH, !zsum_cons. change (zsum []) with 0. lia.
Qed.

Lemma parse_loop_app a b st : parse_loop (a ++ b) st = let* st' := parse_loop a st in parse_loop b st'.
Proof.
  revert st. induction a as [|x a IH]; intros st; cbn [app parse_loop]; [reflexivity|].
  destruct (parse_step x st); cbn [bind]; [apply IH|reflexivity].
Qed.

Lemma parse_loop_D d T : Forall (fun s => s = Radial_Db \/ s = Radial_D2b) d ->
  parse_loop d ([], 0, T) = Ok ([], 0, T + zsum (map step_D d)).
Proof.
  intros H. revert T. induction H as [|s d [-> | ->] _ IH]; intros T; cbn [parse_loop map].
  - change (zsum []) with 0. f_equal. f_equal. lia.
  - cbn [parse_step parse_D negb Z.eqb bind]. rewrite IH. cbn [step_D]. rewrite zsum_cons. f_equal. f_equal. lia.
  - cbn [parse_step parse_D negb Z.eqb bind]. rewrite IH. cbn [step_D]. rewrite zsum_cons. f_equal. f_equal. lia.
Qed.

Lemma parse_loop_powers u K T : Forall (fun s => s = Radial_b \/ s = Radial_b2 \/ s = Radial_bm \/ s = Radial_bm2) u ->
  parse_loop u ([], K, T) = Ok ([], K + zsum (map step_b u), T).
Proof.
  intros H. revert K. induction H as [|s u Hs _ IH]; intros K; cbn [parse_loop map].
  - change (zsum []) with 0. f_equal. f_equal. f_equal. lia.
  - destruct Hs as [-> | [-> | [-> | ->]]]; cbn [parse_step parse_b bind]; rewrite IH, zsum_cons; cbn [step_b]; f_equal; f_equal; f_equal; lia.
Qed.

Lemma powers_split u : powers u -> Forall (fun s => s = Radial_b \/ s = Radial_b2 \/ s = Radial_bm \/ s = Radial_bm2) u.
Proof. intros [H|H]; (eapply Forall_impl; [|exact H]); cbn; intros a [-> | ->]; auto. Qed.

Lemma derivatives_nonneg d : derivatives d -> 0 <= zsum (map step_D d).
Proof. induction 1 as [|s d [-> | ->] _ IH]; cbn [map step_b step_D]; rewrite ?zsum_cons; try change (zsum []) with 0; lia. Qed.

Lemma parse_powers_derivatives u d : powers u -> derivatives d -> u ++ d <> [] ->
  Parse_RadialOp_List (u ++ d) = Ok [KTOp (zsum (map step_b u)) (zsum (map step_D d))]
  /\ 0 < Z.abs (zsum (map step_b u)) + zsum (map step_D d).
Proof.
  intros HU HD Hne.
  assert (HK : u <> [] -> zsum (map step_b u) <> 0).
  { intros Hu. destruct HU as [H|H].
    - assert (0 < zsum (map step_b u)); [|lia].
      destruct H as [|s u Hs H]; [congruence|]. cbn [map].
      assert (0 <= zsum (map step_b u)) by (clear -H; induction H as [|s u [-> | ->] _ IH]; cbn [map step_b step_D]; rewrite ?zsum_cons; try change (zsum []) with 0; lia).
      rewrite zsum_cons. destruct Hs as [-> | ->]; cbn [step_b step_D]; lia.
    - assert (zsum (map step_b u) < 0); [|lia].
      destruct H as [|s u Hs H]; [congruence|]. cbn [map].
      assert (zsum (map step_b u) <= 0) by (clear -H; induction H as [|s u [-> | ->] _ IH]; cbn [map step_b step_D]; rewrite ?zsum_cons; try change (zsum []) with 0; lia).
      rewrite zsum_cons. destruct Hs as [-> | ->]; cbn [step_b step_D]; lia. }
  assert (HT : d <> [] -> 0 < zsum (map step_D d)).
  { intros Hd. destruct HD as [|s d Hs H]; [congruence|]. pose proof (derivatives_nonneg d H).
    cbn [map]. rewrite zsum_cons. destruct Hs as [-> | ->]; cbn [step_b step_D]; lia. }
  pose proof (derivatives_nonneg d HD) as Hd0.
  assert (HN : zsum (map step_b u) <> 0 \/ 0 < zsum (map step_D d)).
  { destruct u as [|s u]; [right; apply HT; intros ->; now apply Hne|left; apply HK; discriminate]. }
  unfold Parse_RadialOp_List. rewrite rev_app_distr, parse_loop_app.
  rewrite parse_loop_D by (now apply Forall_rev). cbn [bind].
  rewrite parse_loop_powers by (apply Forall_rev; now apply powers_split). cbn [bind].
  rewrite !map_rev, !zsum_rev.
  replace (negb (0 + zsum (map step_b u) =? 0) || (0 <? 0 + zsum (map step_D d))) with true by lia.
  unfold mk_KTOp, require_nonnegint, raise_if. replace (0 + zsum (map step_D d) <? 0) with false by lia. cbn [bind].
  split; [reflexivity|lia].
Qed.

(** ** su(1,1) operators and the identity under an even shift *)

Definition S_sym (s : rsym) : Prop := s = Radial_Sm \/ s = Radial_S0 \/ s = Radial_Sp.
Definition S_elem (s : rsym) : elem := match s with Radial_Sm => M_Sm | Radial_S0 => M_S0 | _ => M_Sp end.

Lemma id_splits v : v <> 0 -> v mod 2 = 0 ->
  bsds_factors 0 0 v = Ok [if 0 <? v then F1 (M_id_pl (v / 2)) 0 0 else F1 (M_id_ml (- v / 2)) 0 0].
Proof.
  intros Hv Hp. unfold bsds_factors. replace (is_odd v) with false by (unfold is_odd; lia). cbn [Z.eqb andb].
  unfold Lambda_Splits, require_nonnegint, raise_if. cbn [Z.ltb Z.compare bind Z.abs Z.add]. cbv zeta.
  replace (0 <? Z.abs v - 0) with true by lia.
  replace (is_even (Z.abs v - 0)) with true by (unfold is_even; lia). unfold py_repeat. cbn [Z.to_nat repeat bind].
  destruct (Z.leb_spec 0 v).
  - replace (0 <? v) with true by lia. replace (Z.abs v - 0) with v by lia.
    cbn -[Z.div Z.ltb is_even]. replace (v <? 0) with false by lia. cbn [bind Z.ltb Z.compare bsds_loop Z.to_nat].
    replace (0 <? v) with true by lia. replace (is_even v) with true by (unfold is_even; lia).
    cbn -[Z.div]. replace (v =? 0) with false by lia. replace (v <? 0) with false by lia. reflexivity.
  - replace (0 <? v) with false by lia. cbn [map]. replace (- (Z.abs v - 0)) with v by lia.
    change (0 <? zlen [v]) with true. cbn [nth tl]. change (zlen [] =? 0) with true. cbn [py_assert raise_if negb bind].
    replace (v <? 0) with true by lia. replace (is_even v) with true by (unfold is_even; lia).
    cbn [py_assert raise_if negb bind Z.to_nat bsds_loop Z.ltb Z.compare].
    replace (0 <? v) with false by lia. replace (v =? 0) with false by lia. reflexivity.
Qed.

Lemma id_factors lambdaa v : v <> 0 -> v mod 2 = 0 -> (0 < lambdaa)%R -> (0 < lambdaa + IZR v)%R ->
  RepRadial_Prod_factors [] lambdaa v = Ok [if 0 <? v then F1 (M_id_pl (v / 2)) 0 0 else F1 (M_id_ml (- v / 2)) 0 0].
Proof.
  intros Hv Hp Hl Hlv. unfold RepRadial_Prod_factors.
  destruct (Rle_dec lambdaa 0); [lra|]. destruct (Rle_dec (lambdaa + IZR v) 0); [lra|].
  change (Parse_RadialOp_List []) with (Ok (A:=list ktsop) []). cbn [bind].
  assert (E : Lambda_RadialOp_List [] v = Ok [v]).
  { unfold Lambda_RadialOp_List, lambda_abs_list. cbn -[Z.ltb is_odd]. replace (is_odd (Z.abs v - 0)) with false by (unfold is_odd; lia).
    replace (Z.abs v <? 0) with false by lia. cbn [Z.ltb Z.compare]. replace (0 <? Z.abs v - 0) with true by lia.
    rewrite !andb_false_r. cbn [bind]. destruct (Z.leb_spec 0 v); cbn [map]; f_equal; f_equal; lia. }
  rewrite E. cbn [bind]. unfold insert_id, zlen. cbn [length Z.of_nat Z.ltb Z.compare Pos.of_succ_nat nth app tl].
  assert (R : RepRadialshfs_Prod [KTOp 0 0] lambdaa [v]
    = Ok [if 0 <? v then F1 (M_id_pl (v / 2)) 0 0 else F1 (M_id_ml (- v / 2)) 0 0]).
  { unfold RepRadialshfs_Prod. cbn [rev app shfs_loop representation]. unfold bsds. rewrite Rplus_0_r.
    destruct (Rle_dec lambdaa 0); [lra|]. destruct (Rle_dec (lambdaa + IZR v) 0); [lra|].
    rewrite id_splits by assumption. cbn [bind]. rewrite shift_factor_0, app_nil_r. reflexivity. }
  destruct (0 <? v) eqn:Ev; exact R.
Qed.

Lemma S_factors s lambdaa v : S_sym s -> v <> 0 -> v mod 2 = 0 -> (0 < lambdaa)%R -> (0 < lambdaa + IZR v)%R ->
  RepRadial_Prod_factors [s] lambdaa v = Ok (if 0 <? v then [F1 (M_id_pl (v / 2)) 0 0; F1 (S_elem s) 0 0]
    else [F1 (S_elem s) v 0; F1 (M_id_ml (- v / 2)) 0 0]).
Proof.
  intros HS Hv Hp Hl Hlv. unfold RepRadial_Prod_factors.
  destruct (Rle_dec lambdaa 0); [lra|]. destruct (Rle_dec (lambdaa + IZR v) 0); [lra|].
  set (q := match s with Radial_Sm => -1 | Radial_S0 => 0 | _ => 1 end).
  assert (EP : Parse_RadialOp_List [s] = Ok [SOp q]) by (destruct HS as [-> | [-> | ->]]; reflexivity).
  assert (EQ : (if q =? -1 then M_Sm else if q =? 0 then M_S0 else M_Sp) = S_elem s)
    by (destruct HS as [-> | [-> | ->]]; reflexivity).
  rewrite EP. cbn [bind].
  assert (E : Lambda_RadialOp_List [SOp q] v = Ok [v; 0]).
  { unfold Lambda_RadialOp_List, lambda_abs_list. cbn -[Z.ltb is_odd]. replace (is_odd (Z.abs v - 0)) with false by (unfold is_odd; lia).
    replace (Z.abs v <? 0) with false by lia. cbn [Z.ltb Z.compare]. replace (0 <? Z.abs v - 0) with true by lia.
    rewrite !andb_false_r. change (irem 0 2) with (Ok 0). cbn [bind]. change (zsum [0]) with 0. replace (Z.abs v <? 0) with false by lia. cbn [bind]. destruct (Z.leb_spec 0 v); cbn [map]; repeat f_equal; lia. }
  rewrite E. cbn [bind]. unfold insert_id, zlen. cbn [length Z.of_nat Z.ltb Z.compare Pos.of_succ_nat Pos.compare Pos.compare_cont Pos.succ nth app tl].
  assert (B : forall a run, (0 < a)%R -> (0 < a + IZR v)%R -> a = (lambdaa + IZR run)%R ->
    bsds 0 0 a v = Ok [if 0 <? v then F1 (M_id_pl (v / 2)) 0 0 else F1 (M_id_ml (- v / 2)) 0 0]).
  { intros a run Ha Hav _. unfold bsds. destruct (Rle_dec a 0); [lra|]. destruct (Rle_dec (a + IZR v) 0); [lra|].
    now apply id_splits. }
  destruct (0 <? v) eqn:Ev; unfold RepRadialshfs_Prod; cbn [rev app shfs_loop representation Z.eqb negb raise_if bind].
  - rewrite EQ. rewrite (B _ 0) by (cbn; lra || reflexivity). cbn [bind map app]. reflexivity.
  - rewrite (B _ 0) by (cbn; lra || reflexivity). cbn [bind]. rewrite EQ. cbn [map app]. reflexivity.
Qed.

Lemma settled_S s lambdaa v : S_sym s -> v <> 0 -> v mod 2 = 0 -> (0 < lambdaa)%R -> (0 < lambdaa + IZR v)%R ->
  settled [s] lambdaa v (Z.abs v / 2 + 1).
Proof.
  intros HS Hv Hp Hl Hlv. unfold settled. rewrite S_factors by assumption.
  assert (DS : forall lam, (0 < lam)%R -> elem_dom (S_elem s) lam) by (destruct HS as [-> | [-> | ->]]; intros lam H; exact H).
  assert (RS : exists r, row_reach (S_elem s) = Some r /\ 0 <= r <= 1)
    by (destruct HS as [-> | [-> | ->]]; eexists; (split; [reflexivity|lia])).
  assert (CS : exists r, col_reach (S_elem s) = Some r /\ 0 <= r <= 1)
    by (destruct HS as [-> | [-> | ->]]; eexists; (split; [reflexivity|lia])).
  destruct (Z.ltb_spec 0 v).
  - destruct CS as (c & Ec & Hc).
    exists [F1 (M_id_pl (v / 2)) 0 0; F1 (S_elem s) 0 0],
      [(M_id_pl (v / 2), (lambdaa + IZR 0)%R); (S_elem s, (lambdaa + IZR 0)%R)], (c + 0).
    split; [reflexivity|]. split; [|split; [discriminate|split; [cbn; now rewrite Ec|lia]]].
    constructor; [|constructor; [|constructor]]; (split; [|exists 0; split; reflexivity]); cbn [fst snd elem_dom].
    + split; [lra|lia].
    + apply DS. lra.
  - exists [F1 (S_elem s) v 0; F1 (M_id_ml (- v / 2)) 0 0],
      [(S_elem s, (lambdaa + IZR v)%R); (M_id_ml (- v / 2), (lambdaa + IZR 0)%R)], (- v / 2 + 0).
    split; [reflexivity|]. split; [|split; [discriminate|split; [reflexivity|lia]]].
    constructor; [|constructor; [|constructor]].
    + split; [|exists v; split; reflexivity]. now apply DS.
    + split; [|exists 0; split; reflexivity]. cbn [fst snd elem_dom]. split; [|lia].
      assert (E : (2 * IZR (- v / 2) = - IZR v)%R).
      { rewrite <- opp_IZR, <- mult_IZR. f_equal. lia. }
      lra.
Qed.
