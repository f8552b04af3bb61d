(** The unit of length (C90): [anorm] multiplied by c and each coefficient by the
    power of c that the powers of beta and d/dbeta in its term ask for. *)

From Coq Require Import String Reals Lra FunctionalExtensionality.
From Coq Require Import Lia ZifyBool ZifyNat.
From Verif Require Import PyBase PyFacts Compat Matrix Spherical FullLabels RadialOps Operators FullOps Settings Text Format Display HamData
  PropsDisplay PropsDriver PropsOscillator RadialME RadialWords PropsCode RadialMESpec RadialMEFacts Ritz Solver PropsSolver.
Import ListNotations.
Open Scope string_scope.
Open Scope list_scope.
Open Scope Z_scope.
Ltac Zify.zify_post_hook ::= Z.div_mod_to_equations.

(** ** Statements *)

(** The power of beta in a radial operator; d/dbeta counts -1, the su(1,1)
    operators S are pure numbers. *)
Definition power_of_beta (r : rsym) : Z :=
  match r with
  | Radial_b => 1 | Radial_b2 => 2 | Radial_bm => -1 | Radial_bm2 => -2
  | Radial_Db => -1 | Radial_D2b => -2 | Radial_bDb => 0
  | Radial_Sm | Radial_S0 | Radial_Sp | Radial_other _ => 0
  end.
(** The momentum pi counts -1, q counts 1, functions of the angles 0. *)
Definition power_of_length (o : osym) : Z :=
  match o with
  | ORad r => power_of_beta r
  | OSph _ | SpDiag_sqLdim | SpDiag_sqLdiv => 0
  | Xspace_Pi => -1 | Xspace_PiPi2 | Xspace_PiPi4 => -2 | Xspace_PiqPi => -1
  end.
Definition word_power (w : list osym) : Z := zsum (map power_of_length w).

(** The value of a coefficient in a state. *)
Definition coef_at (k : coef) (nu v al L : Z) : R := match k with CNum r => r | CSym f => f nu v al L end.
Definition symbolic (k : coef) : bool := match k with CNum _ => false | CSym _ => true end.

(** The same terms, with the coefficients for the new unit. *)
Definition in_lengths (c : R) (op op' : OperatorSum) : Prop :=
  Forall2 (fun t t' => snd t' = snd t /\ symbolic (fst t') = symbolic (fst t) /\
    forall nu v al L, coef_at (fst t') nu v al L = (powerRZ c (word_power (snd t)) * coef_at (fst t) nu v al L)%R) op op'.

(** In general, with a further factor g. *)
Definition lengths_by (g c : R) (op op' : OperatorSum) : Prop :=
  Forall2 (fun t t' => snd t' = snd t /\ symbolic (fst t') = symbolic (fst t) /\
    forall nu v al L, coef_at (fst t') nu v al L = (g * powerRZ c (word_power (snd t)) * coef_at (fst t) nu v al L)%R) op op'.
Lemma lengths_one c op op' : in_lengths c op op' -> lengths_by 1 c op op'.
Proof. intros H. induction H as [|t t' ts ts' (E1 & E2 & E3) _ IH]; constructor; [|exact IH]. split; [exact E1|]. split; [exact E2|]. intros. rewrite E3. ring. Qed.

(** ** Powers of [anorm] in the factors of a word *)

Definition powers (fs : list factor) : Z := zsum (map f_pow fs).
Definition kts_power (op : ktsop) : Z := match op with KTOp K T => T - K | SOp _ => 0 end.

Lemma powers_cons f fs : powers (f :: fs) = f_pow f + powers fs.
Proof. unfold powers. cbn [map]. apply zsum_cons. Qed.
Lemma zsum_app l1 l2 : zsum (l1 ++ l2) = zsum l1 + zsum l2.
Proof. induction l1 as [|x l IH]; cbn [app]; [cbn; lia|]. rewrite !zsum_cons. lia. Qed.
Lemma powers_app l1 l2 : powers (l1 ++ l2) = powers l1 + powers l2.
Proof. unfold powers. now rewrite map_app, zsum_app. Qed.
Lemma powers_shift d fs : powers (map (shift_factor d) fs) = powers fs.
Proof. induction fs as [|f fs IH]; [reflexivity|]. cbn [map]. rewrite !powers_cons, IH. reflexivity. Qed.

(** Power of the first i positions. *)
Definition upto (K i : Z) : Z := if 0 <=? K then (if i <=? K then - i else i - 2 * K) else i.

Lemma pick_power K i run s m imm : 0 < i -> bsds_pick K i run s = Ok (m, imm) ->
  (imm = 1 \/ imm = 2 /\ 1 < i) /\ upto K i = f_pow m + upto K (i - imm).
Proof.
  intros Hi. unfold bsds_pick, py_assert, upto. intros E.
  assert (G : forall (b : bool) (r : res (factor * Z)), bind (if b then Ok tt else Raise AssertionError) (fun _ => r) = Ok (m, imm) -> b = true /\ r = Ok (m, imm)) by (intros [] r X; [now split|discriminate]).
  destruct (0 <? _) eqn:S1.
  - destruct (i <=? K) eqn:A; [apply G in E; destruct E as (B & E); injection E as <- <-; cbn [F1 f_pow]; repeat match goal with |- context [if ?b then _ else _] => destruct b eqn:? end; lia|].
    destruct (i <=? - K) eqn:A2; apply G in E; destruct E as (B & E); injection E as <- <-; cbn [F1 f_pow]; repeat match goal with |- context [if ?b then _ else _] => destruct b eqn:? end; lia.
  - destruct (_ <? 0) eqn:S2.
    + destruct (i <=? K) eqn:A; [apply G in E; destruct E as (B & E); injection E as <- <-; cbn [F1 f_pow]; repeat match goal with |- context [if ?b then _ else _] => destruct b eqn:? end; lia|].
      destruct (i <=? - K) eqn:A2; apply G in E; destruct E as (B & E); injection E as <- <-; cbn [F1 f_pow]; repeat match goal with |- context [if ?b then _ else _] => destruct b eqn:? end; lia.
    + destruct ((1 <? i) && _) eqn:S3.
      * apply andb_prop in S3. destruct S3 as [S3 _].
        destruct (i <=? K) eqn:A; [apply G in E; destruct E as (B & E); injection E as <- <-; cbn [F1 f_pow]; repeat match goal with |- context [if ?b then _ else _] => destruct b eqn:? end; lia|].
        destruct (i <=? - K) eqn:A2; [apply G in E; destruct E as (B & E); injection E as <- <-; cbn [F1 f_pow]; repeat match goal with |- context [if ?b then _ else _] => destruct b eqn:? end; lia|].
        destruct (i =? K + 1) eqn:A3; [apply G in E; destruct E as (B & E); injection E as <- <-; cbn [F1 f_pow]; repeat match goal with |- context [if ?b then _ else _] => destruct b eqn:? end; lia|].
        destruct (i =? - K - 1) eqn:A4; [discriminate|]. injection E as <- <-; cbn [F1 f_pow]; repeat match goal with |- context [if ?b then _ else _] => destruct b eqn:? end; lia.
      * destruct (i <=? K) eqn:A; [apply G in E; destruct E as (B & E); injection E as <- <-; cbn [F1 f_pow]; repeat match goal with |- context [if ?b then _ else _] => destruct b eqn:? end; lia|].
        destruct (i <=? - K) eqn:A2; apply G in E; destruct E as (B & E); injection E as <- <-; cbn [F1 f_pow]; repeat match goal with |- context [if ?b then _ else _] => destruct b eqn:? end; lia.
Qed.

Definition opowers (p : option (list factor)) : Z := match p with Some l => powers l | None => 0 end.

Lemma loop_powers fuel K n lamX s : forall i run prod prod' run', 0 <= i <= n -> (i = n -> 0 <= lamX -> opowers prod = 0) ->
  bsds_loop fuel K n lamX i run s prod = Ok (prod', run') -> opowers prod' = opowers prod + upto K i.
Proof.
  induction fuel as [|fuel IH]; intros i run prod prod' run' Hi H0 E; cbn [bsds_loop] in E.
  - destruct (0 <? i) eqn:P; [discriminate|]. injection E as <- <-. unfold upto. replace i with 0 by lia. destruct (0 <=? K) eqn:Q; [replace (0 <=? K) with true by lia|]; lia.
  - destruct (0 <? i) eqn:P; [|injection E as <- <-; unfold upto; replace i with 0 by lia; destruct (0 <=? K) eqn:Q; [replace (0 <=? K) with true by lia|]; lia].
    destruct (bsds_pick K i run s) as [[m imm]|] eqn:EP; [|discriminate]. cbn [bind] in E. destruct (pick_power K i run s m imm ltac:(lia) EP) as (HI & HU).
    destruct ((i =? n) && (0 <=? lamX)) eqn:EN; cbn [bind] in E.
    + apply IH in E; [|lia|lia]. cbn [opowers] in E. rewrite powers_cons in E. change (powers []) with 0 in E. rewrite E, H0 by lia. lia.
    + unfold lmul in E. destruct prod as [p|]; [|discriminate]. cbn [bind] in E. apply IH in E; [|lia|lia]. cbn [opowers] in E. rewrite powers_cons in E. cbn [opowers]. lia.
Qed.

Lemma bsds_powers K T R_ fs : 0 <= T -> bsds_factors K T R_ = Ok fs -> powers fs = T - K.
Proof.
  intros HT E. unfold bsds_factors in E. destruct ((K =? 0) && (T =? 0) && is_odd R_) eqn:C.
  { replace (T - K) with 0 by lia. destruct (R_ <? 0); injection E as <-; [destruct (R_ <? -1)|destruct (1 <? R_)]; reflexivity. }
  destruct (Lambda_Splits K T R_) as [sp|]; [|discriminate]. cbn [bind] in E. set (n := Z.abs K + T) in *. set (long := n <? zlen sp) in *.
  set (lamX := if long then nth 0 sp 0 else 0) in *. set (s := if long then tl sp else sp) in *.
  unfold py_assert in E at 1. destruct (zlen s =? n); [|discriminate]. cbn [bind] in E.
  destruct (if lamX <? 0 then _ else _) as [prod0|] eqn:E0; [|discriminate]. cbn [bind] in E.
  assert (P0 : opowers prod0 = 0 /\ (lamX <? 0 = false -> prod0 = None)).
  { destruct (lamX <? 0); [unfold py_assert in E0; destruct (is_even lamX); [|discriminate]|]; injection E0 as <-; split; try reflexivity; try discriminate; auto. }
  destruct P0 as (P0 & P0').
  destruct (bsds_loop _ _ _ _ _ _ _ _) as [[prod1 run1]|] eqn:EL; [|discriminate]. cbn [bind] in E.
  apply loop_powers in EL; [|lia|auto]. rewrite P0 in EL.
  assert (U : upto K n = T - K) by (unfold upto; destruct (0 <=? K) eqn:Q; [destruct (n <=? K) eqn:Q2|]; lia). rewrite U in EL. clear U.
  destruct (if 0 <? lamX then _ else _) as [prod2|] eqn:E2; [|discriminate]. cbn [bind] in E.
  assert (P2 : 0 < n \/ lamX <> 0 -> opowers prod2 = T - K).
  { intros HN. destruct (0 <? lamX) eqn:Q; [|injection E2 as <-; lia]. unfold py_assert in E2. destruct (is_even lamX); [|discriminate]. cbn [bind] in E2.
    destruct (0 <? n) eqn:Q3; [unfold lmul in E2; destruct prod1 as [p|]; [|discriminate]; injection E2 as <-; cbn [opowers] in *; rewrite powers_cons; cbn [F1 f_pow]; lia|].
    injection E2 as <-. cbn [opowers]. rewrite powers_cons. change (powers []) with 0. cbn [F1 f_pow]. lia. }
  destruct ((n =? 0) && (lamX =? 0)) eqn:Q.
  - injection E as <-. rewrite powers_cons. change (powers []) with 0. cbn [F1 f_pow]. lia.
  - destruct prod2 as [p|]; [|discriminate]. injection E as <-. apply P2. lia.
Qed.

Definition good_op (op : ktsop) : Prop := match op with KTOp _ T => 0 <= T | SOp _ => True end.

Lemma parse_powers ops : forall POp K T POp' K' T', 0 <= T -> Forall good_op POp ->
  parse_loop ops (POp, K, T) = Ok (POp', K', T') ->
  0 <= T' /\ Forall good_op POp' /\ zsum (map kts_power POp') + (T' - K') = zsum (map kts_power POp) + (T - K) - zsum (map power_of_beta ops).
Proof.
  induction ops as [|o ops IH]; intros POp K T POp' K' T' HT HG E; cbn [parse_loop] in E.
  { injection E as <- <- <-. split; [exact HT|]. split; [exact HG|]. cbn. lia. }
  destruct (parse_step o (POp, K, T)) as [[[P1 K1] T1]|] eqn:ES; [|discriminate]. cbn [bind] in E.
  cbn [map]. rewrite zsum_cons.
  assert (S : 0 <= T1 /\ Forall good_op P1 /\ zsum (map kts_power P1) + (T1 - K1) = zsum (map kts_power POp) + (T - K) - power_of_beta o).
  { clear E IH. unfold parse_step, parse_S, parse_D, parse_bD, parse_b, mk_SOp, mk_KTOp, require_nonnegint, raise_if in ES.
    destruct o; cbn in ES; try discriminate; 
    repeat match type of ES with context [if ?b then _ else _] => destruct b eqn:?; cbn in ES end; try discriminate; injection ES as <- <- <-;
    (split; [lia|]); (split; [repeat constructor; cbn; try lia; exact HG|]); cbn [map kts_power power_of_beta]; rewrite ?zsum_cons; lia. }
  destruct S as (S1 & S2 & S3). destruct (IH _ _ _ _ _ _ S1 S2 E) as (A & B & C). split; [exact A|]. split; [exact B|]. lia.
Qed.

Lemma Parse_powers w ops : Parse_RadialOp_List w = Ok ops -> Forall good_op ops /\ zsum (map kts_power ops) = - zsum (map power_of_beta w).
Proof.
  unfold Parse_RadialOp_List. destruct (parse_loop (rev w) ([], 0, 0)) as [[[P K] T]|] eqn:E; [|discriminate]. cbn [bind].
  apply parse_powers in E; [|lia|constructor]. destruct E as (HT & HG & E).
  assert (R : zsum (map power_of_beta (rev w)) = zsum (map power_of_beta w)).
  { clear. induction w as [|x w IH]; [reflexivity|]. cbn [rev map]. rewrite map_app, zsum_app, IH, zsum_cons. cbn [map]. rewrite zsum_cons. cbn. lia. }
  rewrite R in E. change (zsum (map kts_power [])) with 0 in E.
  destruct (negb (K =? 0) || (0 <? T)) eqn:Q; intros X.
  - unfold mk_KTOp, require_nonnegint, raise_if in X. destruct (T <? 0) eqn:Q2; cbn in X; try discriminate; injection X as <-;
      (split; [constructor; [cbn; lia|exact HG]|]); cbn [map kts_power]; rewrite zsum_cons; lia.
  - injection X as <-. split; [exact HG|]. lia.
Qed.

Lemma shfs_powers l rops : forall rshfs run prod fs, Forall good_op rops -> shfs_loop rops rshfs l run prod = Ok fs ->
  powers fs = zsum (map kts_power rops) + powers prod.
Proof.
  induction rops as [|op rops IH]; intros rshfs run prod fs HG E; cbn [shfs_loop] in E; [injection E as <-; cbn; lia|].
  destruct rshfs as [|R_ rshfs]; [discriminate|]. destruct (representation op _ R_) as [f1|] eqn:ER; [|discriminate]. cbn [bind] in E.
  inversion HG as [|? ? G1 G2]; subst. apply IH in E; [|exact G2]. rewrite E, powers_app, powers_shift. cbn [map]. rewrite zsum_cons.
  enough (powers f1 = kts_power op) by lia. clear - ER G1. destruct op as [K T|s]; cbn [representation kts_power] in *.
  - unfold bsds in ER. destruct (Rle_dec _ 0); [discriminate|]. destruct (Rle_dec _ 0); [discriminate|]. eapply bsds_powers; eassumption.
  - unfold raise_if in ER. destruct (negb (R_ =? 0)); [discriminate|]. injection ER as <-. reflexivity.
Qed.

Lemma word_powers w l v fs : RepRadial_Prod_factors w l v = Ok fs -> powers fs = - zsum (map power_of_beta w).
Proof.
  unfold RepRadial_Prod_factors. destruct (Rle_dec l 0); [discriminate|]. destruct (Rle_dec _ 0); [discriminate|].
  destruct (Parse_RadialOp_List w) as [ops|] eqn:EP; [|discriminate]. cbn [bind]. destruct (Lambda_RadialOp_List ops v) as [sh|]; [|discriminate]. cbn [bind].
  destruct (Parse_powers _ _ EP) as (HG & HP). destruct (insert_id ops sh) as [ops' sh'] eqn:EI. intros E.
  assert (I : Forall good_op ops' /\ zsum (map kts_power ops') = zsum (map kts_power ops)).
  { unfold insert_id in EI. destruct (_ <? _); [destruct (0 <? _)|]; injection EI as <- <-.
    - split; [constructor; [cbn; lia|exact HG]|]. cbn [map kts_power]. rewrite zsum_cons. lia.
    - split; [apply Forall_app; split; [exact HG|constructor; [cbn; lia|constructor]]|]. rewrite map_app, zsum_app. cbn. lia.
    - auto. }
  destruct I as (I1 & I2). rewrite <- HP, <- I2. clear - E I1. unfold RepRadialshfs_Prod in E. destruct ops' as [|o ops']; [injection E as <-; reflexivity|].
  apply shfs_powers in E; [|now apply Forall_rev]. rewrite E. change (powers []) with 0. rewrite Z.add_0_r.
  generalize (o :: ops'). clear. intros l. induction l as [|x l IH]; [reflexivity|]. cbn [rev map]. rewrite map_app, zsum_app, IH, zsum_cons. cbn [map]. rewrite zsum_cons. cbn. lia.
Qed.

(** ** Scaled matrices *)

Definition scaled (k : R) (M M' : mat R) : Prop := nrows M' = nrows M /\ ncols M' = ncols M /\ forall i j, ent M' i j = (k * ent M i j)%R.
(** Two computations with the same exception or related results. *)
Definition rel {A B} (P : A -> B -> Prop) (r : res A) (r' : res B) : Prop :=
  match r, r' with Ok a, Ok b => P a b | Raise e, Raise e' => e' = e | _, _ => False end.

Lemma rel_bind {A B A' B'} (P : A -> A' -> Prop) (Q : B -> B' -> Prop) r r' f f' :
  rel P r r' -> (forall a a', P a a' -> rel Q (f a) (f' a')) -> rel Q (bind r f) (bind r' f').
Proof. destruct r, r'; cbn; try contradiction; auto. Qed.
Lemma rel_same {A B B'} (Q : B -> B' -> Prop) (r : res A) f f' : (forall a, rel Q (f a) (f' a)) -> rel Q (bind r f) (bind r f').
Proof. destruct r; cbn; auto. Qed.
Lemma rel_weaken {A B} (P Q : A -> B -> Prop) r r' : (forall a b, P a b -> Q a b) -> rel P r r' -> rel Q r r'.
Proof. destruct r, r'; cbn; auto. Qed.
Lemma rel_for {X A B} (P : A -> B -> Prop) (l : list X) body body' :
  (forall x a b, P a b -> rel P (body x a) (body' x b)) -> forall a b, P a b -> rel P (for_ l body a) (for_ l body' b).
Proof. intros H. induction l as [|x l IH]; intros a b HP; cbn [for_]; [exact HP|]. eapply rel_bind; [now apply H|exact IH]. Qed.

Lemma scaled_eq k k' M M' : k = k' -> scaled k M M' -> scaled k' M M'.
Proof. now intros <-. Qed.
Lemma scaled_one M M' : scaled 1 M M' -> M' = M.
Proof.
  destruct M as [a b f], M' as [a' b' f']. intros (E1 & E2 & E3). cbn in *. subst. f_equal.
  apply functional_extensionality. intros i. apply functional_extensionality. intros j. rewrite E3. ring.
Qed.
Lemma scaled_refl M : scaled 1 M M.
Proof. repeat split. intros. ring. Qed.
Lemma scaled_zeros k d : scaled k (zeros d) (zeros d).
Proof. repeat split. intros. cbn. ring. Qed.
Lemma scaled_mscale k x M M' : scaled k M M' -> scaled k (mscale x M) (mscale x M').
Proof. intros (E1 & E2 & E3). repeat split; cbn; try assumption. intros. rewrite E3. ring. Qed.
Lemma scaled_mscale2 k x y M M' : scaled k M M' -> scaled (y * k) (mscale x M) (mscale (y * x) M').
Proof. intros (E1 & E2 & E3). repeat split; cbn; try assumption. intros. rewrite E3. ring. Qed.
Lemma scaled_madd k M M' N N' : scaled k M M' -> scaled k N N' -> scaled k (madd M N) (madd M' N').
Proof. intros (E1 & E2 & E3) (F1 & F2 & F3). repeat split; cbn; try assumption. intros. rewrite E3, F3. ring. Qed.
Lemma rsum_scaled k f g n : (forall i, g i = k * f i)%R -> rsum g n = (k * rsum f n)%R.
Proof. intros H. induction n as [|n IH]; cbn; [ring|]. rewrite IH, H. ring. Qed.
Lemma scaled_matmul k l M M' N N' : scaled k M M' -> scaled l N N' -> rel (scaled (k * l)) (matmul M N) (matmul M' N').
Proof.
  intros (E1 & E2 & E3) (F1 & F2 & F3). unfold matmul. rewrite E2, F1. destruct (ncols M =? nrows N); [|reflexivity].
  cbn. repeat split; cbn; try assumption. intros i j. apply rsum_scaled. intros x. rewrite E3, F3. ring.
Qed.
Lemma scaled_slice_set k M M' r0 r1 c0 c1 N N' : scaled k M M' -> scaled k N N' -> rel (scaled k) (slice_set M r0 r1 c0 c1 N) (slice_set M' r0 r1 c0 c1 N').
Proof.
  intros (E1 & E2 & E3) (F1 & F2 & F3). unfold slice_set. cbv zeta. rewrite E1, E2, F1, F2. destruct (_ && _); [|reflexivity].
  cbn. repeat split; cbn. intros i j. rewrite E3, F3. now destruct (_ && _ && _ && _).
Qed.
Lemma scaled_slice k M M' r0 r1 c0 c1 : scaled k M M' -> scaled k (slice M r0 r1 c0 c1) (slice M' r0 r1 c0 c1).
Proof. intros (E1 & E2 & E3). unfold slice. cbv zeta. rewrite E1, E2. repeat split. intros i j. cbn. apply E3. Qed.

(** ** Radial words *)

Section Lengths.
  Variable Rep : elem -> R -> Z -> Z -> res (mat R).
  Variable CG : Z -> Z -> Z -> Z -> Z -> Z -> Z -> Z -> Z -> res R.
  Variables c an : R.
  Hypothesis Hc : c <> 0%R.
  Let RP := RadProd Rep.
  Definition by_power (p : Z) : R := powerRZ c p.

  Lemma by_power_add p q : by_power (p + q) = (by_power p * by_power q)%R.
  Proof. now apply powerRZ_add. Qed.

  Lemma factor_scaled l n0 n1 f : rel (scaled (by_power (f_pow f))) (factor_mat Rep an l n0 n1 f) (factor_mat Rep (c * an) l n0 n1 f).
  Proof.
    unfold factor_mat. apply rel_same. intros ms. apply rel_same. intros m. cbn. repeat split. intros i j. cbn. unfold by_power.
    rewrite powerRZ_mult. ring.
  Qed.

  Lemma mprod_scaled fs : forall ms ms', Forall2 (fun f (p : mat R * mat R) => scaled (by_power (f_pow f)) (fst p) (snd p)) fs (combine ms ms') ->
    length ms = length ms' -> rel (scaled (by_power (powers fs))) (mprod ms) (mprod ms').
  Proof.
    induction fs as [|f fs IH]; intros ms ms' H HL; destruct ms as [|m ms], ms' as [|m' ms']; try discriminate; inversion H as [|? ? ? ? S1 S2]; subst; [reflexivity|].
    cbn [fst snd] in S1. rewrite powers_cons, by_power_add. destruct ms as [|m2 ms], ms' as [|m2' ms']; try discriminate.
    - inversion S2; subst. cbn [mprod rel]. change (powers []) with 0. eapply scaled_eq; [|exact S1]. unfold by_power. cbn. ring.
    - change (mprod (m :: m2 :: ms)) with (let* p := mprod (m2 :: ms) in matmul m p). change (mprod (m' :: m2' :: ms')) with (let* p := mprod (m2' :: ms') in matmul m' p).
      eapply rel_bind; [apply (IH (m2 :: ms) (m2' :: ms') S2); cbn in HL |- *; lia|]. intros p p' HP. now apply scaled_matmul.
  Qed.

  Lemma factors_scaled l n0 n1 fs : rel (scaled (by_power (powers fs))) (factors_mat Rep an l n0 n1 fs) (factors_mat Rep (c * an) l n0 n1 fs).
  Proof.
    unfold factors_mat.
    assert (G : rel (fun ms ms' => Forall2 (fun f (p : mat R * mat R) => scaled (by_power (f_pow f)) (fst p) (snd p)) fs (combine ms ms') /\ length ms = length ms')
      (mapM (factor_mat Rep an l n0 n1) fs) (mapM (factor_mat Rep (c * an) l n0 n1) fs)).
    { induction fs as [|f fs IH]; cbn [mapM]; [split; [constructor|reflexivity]|]. eapply rel_bind; [apply factor_scaled|]. intros m m' Hm.
      eapply rel_bind; [exact IH|]. intros ms ms' (H1 & H2). split; [constructor; [exact Hm|exact H1]|cbn; now rewrite H2]. }
    eapply rel_bind; [exact G|]. intros ms ms' (H1 & H2). now apply mprod_scaled.
  Qed.

  Definition rword (w : list rsym) : Z := zsum (map power_of_beta w).

  Lemma RP_scaled w l v n0 n1 lap : rel (scaled (by_power (- rword w))) (RP w an l v n0 n1 lap) (RP w (c * an) l v n0 n1 lap).
  Proof.
    unfold RP, RadProd, RepRadial_Prod_common. destruct (RepRadial_Prod_factors w l v) as [fs|e] eqn:E; [|reflexivity]. cbn [bind].
    unfold rword. rewrite <- (word_powers _ _ _ _ E). eapply rel_bind; [apply factors_scaled|]. intros m m' Hm. destruct (lap =? 0); [exact Hm|]. cbn [rel]. now apply scaled_slice.
  Qed.

  Lemma LC_scaled rlc l v n0 n1 lap p : (forall t, In t rlc -> - rword (snd t) = p) ->
    rel (scaled (by_power p)) (RepRadial_LC RP rlc an l v n0 n1 lap) (RepRadial_LC RP rlc (c * an) l v n0 n1 lap).
  Proof.
    intros H. unfold RepRadial_LC. destruct rlc as [|[k w] rest]; [apply scaled_zeros|].
    eapply rel_bind; [apply RP_scaled|]. intros M M' HM. pose proof (H (k, w) (or_introl eq_refl)) as HP. cbn [snd] in HP. rewrite HP in HM. clear HP.
    assert (H' : forall t, In t rest -> - rword (snd t) = p) by (intros; apply H; now right). clear H.
    pose proof (scaled_mscale _ k _ _ HM) as HS. clear HM. revert H' HS. generalize (mscale k M) (mscale k M').
    induction rest as [|t rest IH]; intros A A' H HS; cbn [for_]; [exact HS|].
    eapply (rel_bind (scaled (by_power p))); [|intros N N' HN; apply IH; [intros; apply H; now right|exact HN]].
    eapply rel_bind; [apply RP_scaled|]. intros N N' HN. rewrite (H t (or_introl eq_refl)) in HN. cbn [rel]. apply scaled_madd; [exact HS|]. now apply scaled_mscale.
  Qed.

  (** ** Full space *)

  Definition renorm (a : xargs) : xargs :=
    mkXA (c * xa_anorm a) (xa_lambda_base a) (xa_nu_min a) (xa_nu_max a) (xa_v_min a) (xa_v_max a) (xa_L_min a) (xa_L_max a).
  Variable lam : Z -> res Z.
  Variables (lb : R) (nu_min nu_max v_min v_max L_min L_max : Z).
  Let a := mkXA an lb nu_min nu_max v_min v_max L_min L_max.
  Let a' := mkXA (c * an) lb nu_min nu_max v_min v_max L_min L_max.

  Lemma Twin_scaled rad sph : rel (scaled (by_power (- rword rad))) (RepXspace_Twin RP CG lam rad sph a) (RepXspace_Twin RP CG lam rad sph a').
  Proof.
    unfold RepXspace_Twin. unfold xa_check. cbn [a a' xa_anorm xa_lambda_base xa_nu_min xa_nu_max xa_v_min xa_v_max xa_L_min xa_L_max].
    apply rel_same. intros _. apply rel_same. intros sd. apply rel_same. intros sl. apply rel_same. intros SM. cbv zeta.
    apply rel_for; [|apply scaled_zeros]. intros j D D' HD. apply rel_same. intros [[vj ?] ?]. apply rel_same. intros li.
    apply rel_for; [|exact HD]. clear D D' HD. intros i D D' HD. apply rel_same. intros [[vi ?] ?]. apply rel_same. intros lf.
    destruct (Req_EM_T _ 0); [exact HD|]. eapply rel_bind; [apply RP_scaled|]. intros M M' HM. apply scaled_slice_set; [exact HD|]. now apply scaled_mscale.
  Qed.

  Ltac words := let t := fresh in let X := fresh in intros t X; cbn [In] in X; repeat (destruct X as [<- | X]; [reflexivity|]); destruct X.

  Lemma Pi_scaled : rel (scaled (by_power 1)) (RepXspace_Pi RP CG lam a) (RepXspace_Pi RP CG lam a').
  Proof.
    unfold RepXspace_Pi. unfold xa_check. cbn [a a' xa_anorm xa_lambda_base xa_nu_min xa_nu_max xa_v_min xa_v_max xa_L_min xa_L_max].
    apply rel_same. intros _. cbv zeta. apply rel_same. intros sd. apply rel_same. intros sl. apply rel_same. intros _.
    apply rel_for; [|apply scaled_zeros]. intros j D D' HD. apply rel_same. intros [[vj ?] ?]. apply rel_same. intros li.
    apply rel_for; [|exact HD]. clear D D' HD. intros i D D' HD. apply rel_same. intros [[vi ?] ?].
    destruct (_ || _); [exact HD|]. apply rel_same. intros lf.
    destruct (_ =? 1); [|destruct (_ =? -1); [|exact HD]]; (eapply rel_bind; [apply LC_scaled; words|]); intros M M' HM; apply rel_same; intros q; apply rel_same; intros x; apply rel_same; intros CG2;
      (apply scaled_slice_set; [exact HD|]); now repeat apply scaled_mscale.
  Qed.

  Lemma PiPi_scaled PL : rel (scaled (by_power 2)) (RepXspace_PiPi RP CG lam PL a) (RepXspace_PiPi RP CG lam PL a').
  Proof.
    unfold RepXspace_PiPi. unfold xa_check. cbn [a a' xa_anorm xa_lambda_base xa_nu_min xa_nu_max xa_v_min xa_v_max xa_L_min xa_L_max].
    apply rel_same. intros _. apply rel_same. intros _. cbv zeta. apply rel_same. intros sd. apply rel_same. intros sl.
    apply rel_for; [|apply scaled_zeros]. intros j D D' HD. apply rel_same. intros [[vj ?] ?]. apply rel_same. intros li.
    apply rel_for; [|exact HD]. clear D D' HD. intros i D D' HD. apply rel_same. intros [[vi ?] ?].
    destruct (_ || _); [exact HD|]. apply rel_same. intros lf.
    destruct (_ - _ =? 2); [|destruct (_ =? -2); [|destruct (_ =? 0); [|exact HD]]]; (eapply rel_bind; [apply LC_scaled; words|]); intros M M' HM; apply rel_same; intros q; apply rel_same; intros x; apply rel_same; intros CG2;
      (eapply rel_bind; [apply scaled_slice_set; [exact HD|]; repeat apply scaled_mscale; exact HM|]); intros E E' HE; (destruct (PL =? 2); [|exact HE]); cbn [rel]; now apply scaled_mscale.
  Qed.

  Lemma PiqPi_scaled : rel (scaled (by_power 1)) (RepXspace_PiqPi RP CG lam a) (RepXspace_PiqPi RP CG lam a').
  Proof.
    unfold RepXspace_PiqPi. unfold xa_check. cbn [a a' xa_anorm xa_lambda_base xa_nu_min xa_nu_max xa_v_min xa_v_max xa_L_min xa_L_max].
    apply rel_same. intros _. cbv zeta. apply rel_same. intros sd. apply rel_same. intros sl.
    apply rel_for; [|apply scaled_zeros]. intros j D D' HD. apply rel_same. intros [[vj ?] ?]. apply rel_same. intros li.
    apply rel_for; [|exact HD]. clear D D' HD. intros i D D' HD. apply rel_same. intros [[vi ?] ?].
    destruct (negb _); [exact HD|]. apply rel_same. intros lf.
    destruct (_ =? 3); [|destruct (_ =? -3); [|destruct (_ =? 1); [reflexivity|destruct (_ =? -1); [|exact HD]]]]; (eapply rel_bind; [apply LC_scaled; words|]); intros M M' HM.
    - apply rel_same; intros q; apply rel_same; intros x; apply rel_same; intros CG2. apply scaled_slice_set; [exact HD|]. now repeat apply scaled_mscale.
    - apply rel_same; intros q; apply rel_same; intros x; apply rel_same; intros CG2. apply scaled_slice_set; [exact HD|]. now repeat apply scaled_mscale.
    - eapply rel_bind; [apply LC_scaled; words|]. intros N N' HN. apply rel_same; intros q; apply rel_same; intros x; apply rel_same; intros q2; apply rel_same; intros x2; apply rel_same; intros CG2.
      apply scaled_slice_set; [exact HD|]. apply scaled_mscale. apply scaled_madd; now apply scaled_mscale.
  Qed.

  Definition name_power (n : xname) : Z := match n with NPi => 1 | NPiPi _ => 2 | NPiqPi => 1 end.
  Lemma compute_scaled n : rel (scaled (by_power (name_power n))) (xcompute RP CG lam n a) (xcompute RP CG lam n a').
  Proof. destruct n; cbn [xcompute name_power]; [apply Pi_scaled|apply PiPi_scaled|apply PiqPi_scaled]. Qed.

  (** ** Computations with memo tables *)

  Definition rel_memo (t t' : memo) : Prop :=
    Forall2 (fun e e' => let '(n, b, m) := e in let '(n', b', m') := e' in b = a /\ b' = a' /\ n' = n /\ scaled (by_power (name_power n)) m m') t t'.
  Definition rel_st (s s' : xst) : Prop := x_lam s = lam /\ x_lam s' = lam /\ rel_memo (x_memo s) (x_memo s').
  Definition relM {A B} (P : A -> B -> Prop) (m : M A) (m' : M B) : Prop :=
    forall s s', rel_st s s' -> rel P (fst (m s)) (fst (m' s')) /\ rel_st (snd (m s)) (snd (m' s')).

  Lemma relM_ret {A B} (P : A -> B -> Prop) r r' : rel P r r' -> relM P (retM r) (retM r').
  Proof. intros H s s' HS. split; [exact H|exact HS]. Qed.
  Lemma relM_bind {A B A' B'} (P : A -> A' -> Prop) (Q : B -> B' -> Prop) m m' f f' :
    relM P m m' -> (forall x x', P x x' -> relM Q (f x) (f' x')) -> relM Q (bindM m f) (bindM m' f').
  Proof.
    intros H K s s' HS. destruct (H s s' HS) as (H1 & H2). unfold bindM. destruct (m s) as [[x|e] t], (m' s') as [[x'|e'] t']; cbn in H1, H2; try contradiction.
    - now apply K.
    - split; [exact H1|exact H2].
  Qed.
  Lemma relM_withlam {A B} (P : A -> B -> Prop) f f' : rel P (f lam) (f' lam) -> relM P (withlam f) (withlam f').
  Proof. intros H s s' HS. unfold withlam. destruct HS as (H1 & H2 & H3). cbn. rewrite H1, H2. split; [exact H|]. now repeat split. Qed.

  Lemma relM_call n : relM (scaled (by_power (name_power n))) (call RP CG n a) (call RP CG n a').
  Proof.
    intros s s' (H1 & H2 & H3). unfold call.
    assert (G : rel (scaled (by_power (name_power n))) (match memo_get n a (x_memo s) with Some m => Ok m | None => Raise ValueError end)
                    (match memo_get n a' (x_memo s') with Some m => Ok m | None => Raise ValueError end)).
    { clear H1 H2. unfold rel_memo in H3. induction H3 as [|[[n1 b] m] [[n1' b'] m'] t t' (-> & -> & -> & Hm) _ IH]; [reflexivity|]. cbn [memo_get].
      assert (Q : forall b, xargs_eqb b b = true) by (intros b; unfold xargs_eqb, Reqb; rewrite !Z.eqb_refl; destruct (Req_EM_T _ _); [|contradiction]; destruct (Req_EM_T _ _); [reflexivity|contradiction]).
      rewrite !Q, !andb_true_r. destruct (xname_eqb n n1) eqn:EN; [|exact IH]. replace n with n1; [exact Hm|].
      destruct n, n1; cbn in EN; try discriminate; try reflexivity. apply Z.eqb_eq in EN. now subst. }
    pose proof (compute_scaled n) as CS. rewrite H1, H2.
    destruct (memo_get n a (x_memo s)) as [m|], (memo_get n a' (x_memo s')) as [m'|]; cbn in G; try contradiction.
    - split; [exact G|]. now repeat split.
    - destruct (xcompute RP CG lam n a) as [m|e], (xcompute RP CG lam n a') as [m'|e']; cbn in CS; try contradiction; (split; [exact CS|]); [|now repeat split].
      repeat split; try assumption. cbn. constructor; [split; [reflexivity|split; [reflexivity|split; [reflexivity|exact CS]]]|exact H3].
  Qed.

  (** The running product so far belongs to power p. *)
  Definition rel_run (p : Z) (r r' : option (mat R)) : Prop :=
    match r, r' with Some m, Some m' => scaled (by_power p) m m' | None, None => p = 0 | _, _ => False end.

  Lemma times_scaled p q r r' X X' : rel_run p r r' -> scaled (by_power q) X X' -> rel (rel_run (p + q)) (times r X) (times r' X').
  Proof.
    intros H HX. unfold times. destruct r as [m|], r' as [m'|]; cbn in H; try contradiction.
    - eapply rel_bind; [apply scaled_matmul; eassumption|]. intros Y Y' HY. cbn. now rewrite by_power_add.
    - subst p. exact HX.
  Qed.

  Lemma rword_app w r : rword (w ++ [r]) = rword w + power_of_beta r.
  Proof. unfold rword. rewrite map_app, zsum_app. cbn [map]. rewrite zsum_cons. cbn. lia. Qed.

  Lemma loop_scaled ops : forall p run run' nu sph, rel_run p run run' ->
    relM (fun st st' => let '(r, n, sp) := st in let '(r', n', sp') := st' in n' = n /\ sp' = sp /\
        rel_run (p - rword nu + rword n - word_power ops) r r')
      (prod_loop RP CG a ops run nu sph) (prod_loop RP CG a' ops run' nu sph).
  Proof.
    induction ops as [|o ops IH]; intros p run run' nu sph HR.
    { apply relM_ret. cbn [rel]. repeat split. unfold word_power. cbn. now replace (p - rword nu + rword nu - 0) with p by lia. }
    assert (SEG : relM (rel_run (p - rword nu))
      (if nonempty nu || nonempty sph then bindM (withlam (fun lam => RepXspace_Twin RP CG lam nu sph a)) (fun T => retM (times run T)) else retM (Ok run))
      (if nonempty nu || nonempty sph then bindM (withlam (fun lam => RepXspace_Twin RP CG lam nu sph a')) (fun T => retM (times run' T)) else retM (Ok run'))).
    { destruct (nonempty nu || nonempty sph) eqn:E.
      - eapply relM_bind; [apply relM_withlam; apply Twin_scaled|]. intros T T' HT. apply relM_ret. now apply times_scaled.
      - apply relM_ret. destruct nu; [|discriminate]. cbn [rel]. unfold rword. cbn [map zsum fold_right]. replace (p - _) with p by (cbn; lia). exact HR. }
    assert (WP : word_power (o :: ops) = power_of_length o + word_power ops) by (unfold word_power; cbn [map]; now rewrite zsum_cons).
    assert (FULL : forall n, name_power n = - power_of_length o ->
      relM (fun st st' => let '(r, n, sp) := st in let '(r', n', sp') := st' in n' = n /\ sp' = sp /\ rel_run (p - rword nu + rword n - word_power (o :: ops)) r r')
      (bindM (if nonempty nu || nonempty sph then bindM (withlam (fun lam => RepXspace_Twin RP CG lam nu sph a)) (fun T => retM (times run T)) else retM (Ok run)) (fun run' =>
          bindM (call RP CG n a) (fun X => bindM (retM (times run' X)) (fun run'' => prod_loop RP CG a ops run'' [] []))))
      (bindM (if nonempty nu || nonempty sph then bindM (withlam (fun lam => RepXspace_Twin RP CG lam nu sph a')) (fun T => retM (times run' T)) else retM (Ok run')) (fun run' =>
          bindM (call RP CG n a') (fun X => bindM (retM (times run' X)) (fun run'' => prod_loop RP CG a' ops run'' [] []))))).
    { intros n Hn. eapply relM_bind; [exact SEG|]. intros r r' Hr. eapply relM_bind; [apply relM_call|]. intros X X' HX.
      eapply relM_bind; [apply relM_ret; apply (times_scaled _ _ _ _ _ _ Hr HX)|]. intros r2 r2' Hr2.
      pose proof (IH _ _ _ [] [] Hr2) as K. intros s s' HS. destruct (K s s' HS) as (K1 & K2). split; [|exact K2]. eapply rel_weaken; [|exact K1].
      intros [[x y] z] [[x' y'] z'] (A & B & C). split; [exact A|]. split; [exact B|]. rewrite WP. change (rword []) with 0 in C.
      now replace (p - rword nu + rword y - (power_of_length o + word_power ops)) with (p - rword nu + name_power n - 0 + rword y - word_power ops) by lia. }
    assert (RADIAL : forall r, o = ORad r -> relM (fun st st' => let '(r, n, sp) := st in let '(r', n', sp') := st' in n' = n /\ sp' = sp /\ rel_run (p - rword nu + rword n - word_power (o :: ops)) r r')
      (prod_loop RP CG a ops run (nu ++ [r]) sph) (prod_loop RP CG a' ops run' (nu ++ [r]) sph)).
    { intros r ->. pose proof (IH p run run' (nu ++ [r]) sph HR) as K. intros s s' HS. destruct (K s s' HS) as (K1 & K2). split; [|exact K2]. eapply rel_weaken; [|exact K1].
      intros [[x y] z] [[x' y'] z'] (A & B & C). split; [exact A|]. split; [exact B|]. rewrite WP. cbn [power_of_length]. rewrite rword_app in C.
      now replace (p - rword nu + rword y - (power_of_beta r + word_power ops)) with (p - (rword nu + power_of_beta r) + rword y - word_power ops) by lia. }
    assert (ANGLE : power_of_length o = 0 -> relM (fun st st' => let '(r, n, sp) := st in let '(r', n', sp') := st' in n' = n /\ sp' = sp /\ rel_run (p - rword nu + rword n - word_power (o :: ops)) r r')
      (prod_loop RP CG a ops run nu (sph ++ [o])) (prod_loop RP CG a' ops run' nu (sph ++ [o]))).
    { intros H0. rewrite WP, H0. apply (IH p run run' nu (sph ++ [o]) HR). }
    destruct o as [[| | | | | | | | | |nm]|h| | | | | |]; cbn [prod_loop]; try (apply RADIAL; reflexivity); try (apply ANGLE; reflexivity); try (apply FULL; reflexivity).
    eapply relM_bind; [exact SEG|]. intros r r' _. apply relM_ret. reflexivity.
  Qed.

  Lemma Prod_scaled w : relM (scaled (by_power (- word_power w))) (RepXspace_Prod RP CG w a) (RepXspace_Prod RP CG w a').
  Proof.
    unfold RepXspace_Prod. eapply (relM_bind (fun _ _ => True)); [apply relM_ret; unfold xa_check; cbn [a a' xa_anorm xa_lambda_base xa_nu_min xa_nu_max xa_v_min xa_v_max xa_L_min xa_L_max]; destruct (bind _ _); reflexivity || exact I|]. intros _ _ _.
    eapply relM_bind; [apply (loop_scaled w 0 None None [] []); reflexivity|]. intros [[r nu] sph] [[r' nu'] sph'] (-> & -> & HR).
    eapply relM_bind; [apply relM_withlam, Twin_scaled|]. intros T T' HT.
    eapply relM_bind; [apply relM_ret; apply (times_scaled _ _ _ _ _ _ HR HT)|]. intros r2 r2' H2.
    change (rword []) with 0 in H2. replace (0 - 0 + rword nu - word_power w + - rword nu) with (- word_power w) in H2 by lia.
    destruct r2 as [m|], r2' as [m'|]; cbn in H2; try contradiction; apply relM_ret; [exact H2|reflexivity].
  Qed.

  Lemma Term_scaled g X t t' : snd t' = snd t -> symbolic (fst t') = symbolic (fst t) ->
    (forall nu v al L, coef_at (fst t') nu v al L = (g * powerRZ c (word_power (snd t)) * coef_at (fst t) nu v al L)%R) ->
    relM (scaled g) (RepXspace_Term RP CG t X a) (RepXspace_Term RP CG t' X a').
  Proof.
    intros E1 E2 E3. unfold RepXspace_Term. destruct t as [k w], t' as [k' w']. cbn [fst snd] in *. subst w'. eapply relM_bind; [apply Prod_scaled|]. intros m m' (H1 & H2 & H3).
    assert (Q : (by_power (word_power w) * by_power (- word_power w) = 1)%R) by (rewrite <- by_power_add; now replace (_ + _) with 0 by lia).
    destruct k as [k|f], k' as [k'|f']; cbn [fst snd symbolic coef_at] in *; try discriminate.
    - apply relM_ret. cbn [rel]. repeat split; cbn; try assumption. intros i j. rewrite (E3 0 0 0 0), H3. change (powerRZ c) with by_power. transitivity (g * (by_power (word_power w) * by_power (- word_power w)) * (k * ent m i j))%R; [ring|]. rewrite Q. ring.
    - set (C := map _ X). set (C' := map _ X).
      assert (L : zlen C' = zlen C) by (unfold zlen, C, C'; now rewrite !map_length). rewrite L, H2. destruct (zlen C =? ncols m) eqn:EL; [|apply relM_ret; reflexivity].
      apply relM_ret. cbn [rel]. repeat split; cbn; try assumption. intros i j. rewrite H3.
      assert (N : (nth (Z.to_nat j) C' 0 = g * by_power (word_power w) * nth (Z.to_nat j) C 0)%R).
      { unfold C, C'. generalize (Z.to_nat j). clear - E3. intros n. revert n. induction X as [|[nu [[v al] L]] X IH]; intros [|n]; cbn [map nth]; try (unfold by_power; ring); [apply E3|apply IH]. }
      rewrite N. transitivity (g * (by_power (word_power w) * by_power (- word_power w)) * (nth (Z.to_nat j) C 0 * ent m i j))%R; [ring|]. rewrite Q. ring.
  Qed.

  Lemma terms_scaled g X ts ts' : lengths_by g c ts ts' -> forall acc acc', scaled g acc acc' -> relM (scaled g) (terms_loop RP CG ts X a acc) (terms_loop RP CG ts' X a' acc').
  Proof.
    intros H. induction H as [|t t' ts ts' (E1 & E2 & E3) _ IH]; intros acc acc' HA; cbn [terms_loop]; [apply relM_ret; exact HA|].
    eapply relM_bind; [now apply Term_scaled|]. intros N N' HN. apply IH. now apply scaled_madd.
  Qed.

  Lemma relM_clear : relM (fun _ _ : unit => True) clear clear.
  Proof. intros s s' (H1 & H2 & H3). split; [exact I|]. split; [exact H1|]. split; [exact H2|]. constructor. Qed.
End Lengths.

Section Matrices.
  Variables (Rep : elem -> R -> Z -> Z -> res (mat R)) (CG : Z -> Z -> Z -> Z -> Z -> Z -> Z -> Z -> Z -> res R).
  Let RepX := code_matrices (RadProd Rep) CG.

  Lemma RepX_scaled g c an s op op' lb nu_min nu_max v_min v_max L_min L_max : c <> 0%R -> lengths_by g c op op' ->
    rel (scaled g) (RepX s op an lb nu_min nu_max v_min v_max L_min L_max) (RepX s op' (c * an) lb nu_min nu_max v_min v_max L_min L_max).
  Proof.
    intros Hc H. unfold RepX, code_matrices, RepXspace. set (hi := match L_max with None => L_min | Some l => l end).
    assert (HS : rel_st c an (g_lam_fun s) lb nu_min nu_max v_min v_max L_min hi (mkX (g_lam_fun s) []) (mkX (g_lam_fun s) [])) by (repeat split; constructor).
    refine (proj1 (relM_bind c an (g_lam_fun s) lb nu_min nu_max v_min v_max L_min hi (fun _ _ => True) (scaled g) _ _ _ _ _ _ _ _ HS)).
    { apply relM_ret. unfold xa_check. cbn [xa_nu_min xa_nu_max xa_v_min xa_v_max xa_L_min xa_L_max]. destruct (bind _ _); [exact I|reflexivity]. }
    intros _ _ _. eapply (relM_bind _ _ _ _ _ _ _ _ _ _ (scaled g)).
    - destruct H as [|t t' ts ts' (E1 & E2 & E3) H].
      + apply relM_ret. destruct (dimXspace _ _ _ _ _ _); [apply scaled_zeros|reflexivity].
      + eapply (relM_bind _ _ _ _ _ _ _ _ _ _ eq); [apply relM_ret; destruct (lbsXspace _ _ _ _ _ _); reflexivity|]. intros X X' <-.
        eapply relM_bind; [eapply Term_scaled; eassumption|]. intros N N' HN. apply terms_scaled; assumption.
    - intros m m' Hm. eapply relM_bind; [apply relM_clear|]. intros _ _ _. now apply relM_ret.
  Qed.

  (** The same matrix, or the same exception. *)
  Theorem C90_matrices : forall c an s op op' lb nu_min nu_max v_min v_max L_min L_max, c <> 0%R -> in_lengths c op op' ->
    RepX s op' (c * an) lb nu_min nu_max v_min v_max L_min L_max = RepX s op an lb nu_min nu_max v_min v_max L_min L_max.
  Proof.
    intros c an s op op' lb nu_min nu_max v_min v_max L_min L_max Hc H. pose proof (RepX_scaled 1 c an s op op' lb nu_min nu_max v_min v_max L_min L_max Hc (lengths_one c op op' H)) as K.
    destruct (RepX s op an _ _ _ _ _ _ _) as [m|e], (RepX s op' _ _ _ _ _ _ _ _) as [m'|e']; cbn in K; try contradiction; [|now subst]. now rewrite (scaled_one _ _ K).
  Qed.

  (** An operator all of whose terms have the power p is multiplied by c^-p when
      only [anorm] changes. *)
  Theorem C90_homogeneous : forall p c an s op lb nu_min nu_max v_min v_max L_min L_max, c <> 0%R ->
    (forall t, In t op -> word_power (snd t) = p) ->
    match RepX s op an lb nu_min nu_max v_min v_max L_min L_max, RepX s op (c * an) lb nu_min nu_max v_min v_max L_min L_max with
    | Ok M, Ok M' => nrows M' = nrows M /\ ncols M' = ncols M /\ forall i j, ent M' i j = (powerRZ c (- p) * ent M i j)%R
    | Raise e, Raise e' => e' = e
    | _, _ => False
    end.
  Proof.
    intros p c an s op lb nu_min nu_max v_min v_max L_min L_max Hc H.
    apply (RepX_scaled (powerRZ c (- p)) c an s op op lb nu_min nu_max v_min v_max L_min L_max Hc).
    induction op as [|t op IH]; constructor; [|apply IH; intros u Hu; apply H; now right].
    split; [reflexivity|]. split; [reflexivity|]. intros nu v al L. rewrite (H t) by now left. rewrite <- powerRZ_add by assumption. replace (- p + p) with 0 by lia. change (powerRZ c 0) with 1%R. ring.
  Qed.
End Matrices.

(** ** The transition operator is used for its matrices only *)

Definition blind {A} (k : OperatorSum) (m : prog A) : Prop := forall z, m (w_rat_TRop k z) = let '(r, z', o) := m z in (r, w_rat_TRop k z', o).

Section Blind.
  Variable k : OperatorSum.
  Variable flt : text -> R -> text.
  Lemma blind_pret {A} (a : A) : blind k (pret a).
  Proof. intros z. reflexivity. Qed.
  Lemma blind_praise {A} (m : res A) : blind k (praise m).
  Proof. intros z. reflexivity. Qed.
  Lemma blind_print t : blind k (print t).
  Proof. intros z. reflexivity. Qed.
  Lemma blind_bind {A B} (m : prog A) (f : A -> prog B) : blind k m -> (forall a, blind k (f a)) -> blind k (pbind m f).
  Proof.
    intros H1 H2 z. unfold pbind. rewrite H1. destruct (m z) as [[[a|e] z1] o1]; [|reflexivity]. rewrite H2. destruct (f a z1) as [[r z2] o2]. reflexivity.
  Qed.
  Lemma blind_get {A} (f : settings -> prog A) : (forall z, f (w_rat_TRop k z) = f z) -> (forall z, blind k (f z)) -> blind k (pbind pget f).
  Proof. intros H1 H2 z. unfold pbind, pget. rewrite H1, H2. destruct (f z z) as [[r z2] o2]. reflexivity. Qed.
  Lemma blind_pmap {A} (f : A -> prog unit) l : (forall x, blind k (f x)) -> blind k (pmap f l).
  Proof. intros H. induction l as [|x l IH]; [apply blind_pret|]. cbn [pmap]. apply blind_bind; [apply H|]. intros _. exact IH. Qed.

  Ltac unseen :=
    repeat first
      [ apply blind_pret | apply blind_praise | apply blind_print | apply blind_bind; [|intros ?] | apply blind_pmap; intros ?
      | match goal with |- blind _ (if ?b then _ else _) => destruct b | |- blind _ (let _ := _ in _) => cbv zeta | |- blind _ (match ?x with _ => _ end) => destruct x end ].

  Lemma blind_Row s M f2 n fn sc L1 L2 n2 : blind k (Show_Mels_Row flt s M f2 n fn sc L1 L2 n2).
  Proof. unfold Show_Mels_Row. unseen. Qed.
  Lemma blind_rows_from s M f2 n fn sc L1 L2 l : blind k (rows_from flt s M f2 n fn sc L1 L2 l).
  Proof. induction l as [|x l IH]; cbn [rows_from]; [unseen|]. apply blind_bind; [apply blind_Row|]. intros r. destruct (r <=? 0); [unseen|exact IH]. Qed.
  Lemma blind_Rows s M f2 n fn sc L2 : blind k (Show_Mels_Rows flt s M f2 n fn sc L2).
  Proof. apply blind_pmap. intros. apply blind_rows_from. Qed.
  Lemma blind_mel s M f1 fn sc L1 L2 n1 n2 : blind k (show_mel flt s M f1 fn sc L1 L2 n1 n2).
  Proof. unfold show_mel. unseen. Qed.
  Lemma blind_steps s M f1 fn sc j L1 L2 n1 n2 Lm : blind k (mel_steps flt s M f1 fn sc j L1 L2 n1 n2 Lm).
  Proof. revert L1 L2. induction j as [|j IH]; intros; cbn [mel_steps]; [unseen|]. apply blind_bind; [apply blind_mel|]. intros. apply IH. Qed.
  Lemma blind_quintet s M f1 fn sc L1 L2 n1 n2 Lm : blind k (show_quintet flt s M f1 fn sc L1 L2 n1 n2 Lm).
  Proof. unfold show_quintet. destruct (_ || _); [unseen|]. destruct (0 <? Lm); [|destruct (Lm <? 0)]; [do 2 (apply blind_bind; [unseen|intros ?])|apply blind_bind; [unseen|intros ?]|]; apply blind_steps. Qed.
  Lemma blind_designator s M f1 f2 n fn sc d : blind k (show_designator flt s M f1 f2 n fn sc d).
  Proof.
    destruct d as [|a [|b r]]; cbn [show_designator].
    - apply blind_pmap. intros. apply blind_Rows.
    - destruct (a <? 0); [unseen|apply blind_Rows].
    - destruct (5 <? _); [unseen|]. destruct (_ || _); [unseen|].
      destruct r as [|c [|d [|e [|]]]]; try apply blind_rows_from; try apply blind_mel; try apply blind_quintet.
      apply blind_bind; [apply blind_Row|intros; apply blind_pret].
  Qed.
  Lemma blind_Show_Mels M l n fn sc fm ds : blind k (Show_Mels flt M l n fn sc fm ds).
  Proof.
    unfold Show_Mels. destruct l; [unseen|]. apply blind_bind; [unseen|intros ?]. apply blind_get; [intros z; destruct z; reflexivity|]. intros z.
    do 3 (apply blind_bind; [unseen|intros ?]). apply blind_pmap. intros. apply blind_designator.
  Qed.
  Lemma blind_Show_Rats M l n : blind k (Show_Rats flt M l n).
  Proof. unfold Show_Rats. apply blind_get; [intros z; destruct z; reflexivity|]. intros z. apply blind_Show_Mels. Qed.
  Lemma blind_Show_Amps M l n : blind k (Show_Amps flt M l n).
  Proof. unfold Show_Amps. apply blind_get; [intros z; destruct z; reflexivity|]. intros z. apply blind_Show_Mels. Qed.
  Lemma blind_fit_rates M Lv : blind k (fit_rates M Lv).
  Proof.
    unfold fit_rates. apply blind_get; [intros z; destruct z; reflexivity|]. intros z. repeat (apply blind_bind; [apply blind_praise|intros ?]). cbv zeta.
    apply blind_bind; [intros y; destruct y; reflexivity|intros ?]. destruct (Req_EM_T _ 0); [apply blind_praise|]. apply blind_bind; [apply blind_praise|intros ?].
    intros y; destruct y; reflexivity.
  Qed.
  Lemma blind_fit_eigenvalues ev Lv : blind k (fit_eigenvalues ev Lv).
  Proof.
    unfold fit_eigenvalues. apply blind_get; [intros z; destruct z; reflexivity|]. intros z. repeat (apply blind_bind; [apply blind_praise|intros ?]). cbv zeta.
    apply blind_bind; [intros y; destruct y; reflexivity|intros ?]. destruct (Req_EM_T _ 0); [apply blind_praise|apply blind_pret].
  Qed.
  Lemma blind_Show_Eigs ev Lv n lo hi : blind k (Show_Eigs flt ev Lv n lo hi).
  Proof.
    unfold Show_Eigs. cbv zeta. apply blind_bind; [unseen|intros ?]. destruct (_ || _); [unseen|].
    match goal with |- blind _ (match ?t with _ => _ end) => destruct t as [[Lmin Lmax] L_top] end. apply blind_bind; [unseen|intros ?]. destruct (negb _); [unseen|].
    apply blind_get; [intros z; destruct z; reflexivity|]. intros z. unseen.
  Qed.
End Blind.


Section Runs.
  Variables (flt : text -> R -> text) (Rep : elem -> R -> Z -> Z -> res (mat R)) (CG : Z -> Z -> Z -> Z -> Z -> Z -> Z -> Z -> Z -> res R).
  Variables (eigh : mat R -> res (list R * mat R)) (inv : mat R -> res (mat R)) (junk : Z -> Z -> R).
  Let RepX := code_matrices (RadProd Rep) CG.

  (** The whole run: results, exception, output and settings left are the same, for
      any routines. *)
  Theorem C90_run : forall c an op op' T' lb nu_min nu_max v_min v_max fit_eig fit_rat L_min L_max s, c <> 0%R ->
    in_lengths c op op' -> in_lengths c (g_rat_TRop s) T' ->
    ACM_ScaleOrAdapt flt RepX eigh inv junk op' (c * an) lb nu_min nu_max v_min v_max fit_eig fit_rat L_min L_max (w_rat_TRop T' s)
    = (let '(r, s1, o) := ACM_ScaleOrAdapt flt RepX eigh inv junk op an lb nu_min nu_max v_min v_max fit_eig fit_rat L_min L_max s in
       (r, w_rat_TRop T' s1, o)).
  Proof.
    intros c an op op' T' lb nu_min nu_max v_min v_max fit_eig fit_rat L_min L_max s Hc H HT.
    unfold ACM_ScaleOrAdapt.
    assert (TM : Op_Tame op' = Op_Tame op).
    { clear - H. induction H as [|t t' ts ts' (E1 & _) _ IH]; [reflexivity|]. destruct t as [x w], t' as [x' w']; cbn [snd] in E1; subst w'; unfold Op_Tame in *; cbn [forallb]. now rewrite IH. }
    assert (P : forall {A} (r : res unit) (k k' : prog A), k' (w_rat_TRop T' s) = (let '(r, s1, o) := k s in (r, w_rat_TRop T' s1, o)) ->
      pbind (praise r) (fun _ => k') (w_rat_TRop T' s) = (let '(r, s1, o) := pbind (praise r) (fun _ => k) s in (r, w_rat_TRop T' s1, o))).
    { intros A r k k' E. unfold pbind, praise. destruct r; [|reflexivity]. rewrite E. now destruct (k s) as [[? ?] ?]. }
    do 5 apply P. cbv zeta.
    assert (G : forall f f' : settings -> prog (list (list R) * option block_array * list Z), f' (w_rat_TRop T' s) (w_rat_TRop T' s) = (let '(r, s1, o) := f s s in (r, w_rat_TRop T' s1, o)) ->
      pbind pget f' (w_rat_TRop T' s) = (let '(r, s1, o) := pbind pget f s in (r, w_rat_TRop T' s1, o))).
    { intros f f' E. unfold pbind, pget. rewrite E. now destruct (f s s) as [[? ?] ?]. }
    apply G. clear G P.
    assert (FR : forall op0 op1 lo hi, in_lengths c op0 op1 -> RepX (w_rat_TRop T' s) op1 (c * an) lb nu_min nu_max v_min v_max lo hi = RepX s op0 an lb nu_min nu_max v_min v_max lo hi).
    { intros op0 op1 lo hi I. unfold RepX. rewrite (C90_matrices Rep CG c an (w_rat_TRop T' s) op0 op1) by assumption. unfold code_matrices. now destruct s. }
    assert (E1 : RepX (w_rat_TRop T' s) op' (c * an) lb nu_min nu_max v_min v_max = RepX s op an lb nu_min nu_max v_min v_max)
      by (apply functional_extensionality; intros lo; apply functional_extensionality; intros hi; now apply FR).
    assert (E2 : (fun lo hi => RepX (w_rat_TRop T' s) (g_rat_TRop (w_rat_TRop T' s)) (c * an) lb nu_min nu_max v_min v_max lo (Some hi))
               = (fun lo hi => RepX s (g_rat_TRop s) an lb nu_min nu_max v_min v_max lo (Some hi))).
    { apply functional_extensionality; intros lo; apply functional_extensionality; intros hi. apply FR. replace (g_rat_TRop (w_rat_TRop T' s)) with T' by now destruct s. exact HT. }
    rewrite E1, E2, TM. clear E1 E2 FR TM H HT.
    change (g_eig_num (w_rat_TRop T' s)) with (g_eig_num s). change (g_eig_L (w_rat_TRop T' s)) with (g_eig_L s). change (g_eig_idx (w_rat_TRop T' s)) with (g_eig_idx s).
    change (g_rat_lst (w_rat_TRop T' s)) with (g_rat_lst s). change (g_amp_lst (w_rat_TRop T' s)) with (g_amp_lst s).
    change (g_rat_L1 (w_rat_TRop T' s)) with (g_rat_L1 s). change (g_rat_L2 (w_rat_TRop T' s)) with (g_rat_L2 s).
    change (g_rat_1dx (w_rat_TRop T' s)) with (g_rat_1dx s). change (g_rat_2dx (w_rat_TRop T' s)) with (g_rat_2dx s).
    change (g_rat_num (w_rat_TRop T' s)) with (g_rat_num s). change (g_amp_num (w_rat_TRop T' s)) with (g_amp_num s).
    match goal with |- ?m (w_rat_TRop T' s) = _ => assert (B : blind T' m); [|apply B] end.
    apply blind_bind; [destruct (_ && _); [apply blind_praise|apply blind_pret]|intros _].
    apply blind_bind; [destruct (_ && _); [apply blind_bind; [apply blind_praise|intros _; apply blind_praise]|apply blind_pret]|intros _].
    apply blind_bind; [apply blind_praise|intros [[ev eb] Lv]].
    apply blind_bind; [destruct (0 <? g_eig_num s); [|apply blind_pret]|intros _].
    { apply blind_bind; [destruct (0 <? fit_eig); [apply blind_fit_eigenvalues|apply blind_pret]|intros _]. apply blind_bind; [apply blind_Show_Eigs|intros _; apply blind_pret]. }
    apply blind_bind; [|intros tr; apply blind_pret]. destruct (_ || _); [|apply blind_pret].
    apply blind_bind; [apply blind_praise|intros [m fs]].
    apply blind_bind; [destruct (0 <? fit_rat); [apply blind_fit_rates|apply blind_pret]|intros _].
    apply blind_bind; [apply blind_Show_Rats|intros _]. apply blind_bind; [apply blind_Show_Amps|intros _]. apply blind_pret.
  Qed.
End Runs.

(** ** Hamiltonians *)

Lemma is0_scaled c k x : c <> 0%R -> is0 (CNum (powerRZ c k * x)) = is0 (CNum x).
Proof.
  intros Hc. cbn. pose proof (powerRZ_NOR c k Hc) as N. destruct (Req_EM_T x 0) as [->|Nx], (Req_EM_T _ 0) as [Z|NZ]; try reflexivity.
  - elim NZ. ring.
  - exfalso. apply Rmult_integral in Z. tauto.
Qed.
Lemma opt_lengths c k x t t' : c <> 0%R -> snd t' = snd t -> symbolic (fst t') = symbolic (fst t) ->
  (forall nu v al L, coef_at (fst t') nu v al L = (powerRZ c (word_power (snd t)) * coef_at (fst t) nu v al L)%R) ->
  in_lengths c (opt_term (CNum x) t) (opt_term (CNum (powerRZ c k * x)) t').
Proof. intros Hc H1 H2 H3. unfold opt_term. rewrite is0_scaled by assumption. destruct (is0 (CNum x)); repeat constructor; assumption. Qed.

(** [c11] belongs to two inverse lengths squared, and so on. *)
Theorem C90_Hamiltonian : forall c c11 c20 c21 c22 c23 c30 c31 c32 c33 c40 c41 c42 c43 c50, c <> 0%R ->
  in_lengths c
    (ACM_Hamiltonian (CNum c11) (CNum c20) (CNum c21) (CNum c22) (CNum c23) (CNum c30) (CNum c31) (CNum c32) (CNum c33)
       (CNum c40) (CNum c41) (CNum c42) (CNum c43) (CNum c50))
    (let times (p : Z) (x : R) := CNum (powerRZ c p * x) in
     ACM_Hamiltonian (times (-2) c11) (times 0 c20) (times 2 c21) (times 4 c22) (times (-2) c23) (times 1 c30) (times 3 c31) (times 5 c32) (times (-1) c33)
       (times 0 c40) (times 2 c41) (times 4 c42) (times (-2) c43) (times (-1) c50)).
Proof.
  intros c c11 c20 c21 c22 c23 c30 c31 c32 c33 c40 c41 c42 c43 c50 Hc. unfold ACM_Hamiltonian. cbv zeta.
  assert (APP : forall p q p' q', in_lengths c p p' -> in_lengths c q q' -> in_lengths c (p ++ q) (p' ++ q')) by (intros; now apply Forall2_app).
  apply APP.
  - rewrite is0_scaled by assumption. destruct (is0 (CNum c11)) eqn:Z; [constructor|]. constructor; [|constructor; [|constructor]].
    + repeat split.
    + cbn in Z. destruct (Req_EM_T c11 0) as [|N]; [discriminate|]. unfold cscale. cbn [cmul is0].
      pose proof (powerRZ_NOR c (-2) Hc) as N2. cbn [fst snd].
      assert (M1 : (-1 * c11)%R <> 0%R) by lra. assert (M2 : (-1 * (powerRZ c (-2) * c11))%R <> 0%R) by (apply Rmult_integral_contrapositive_currified; [lra|now apply Rmult_integral_contrapositive_currified]).
      unfold SEN. destruct (Req_EM_T (-1 * c11) 0); [contradiction|]. destruct (Req_EM_T (-1 * (powerRZ c (-2) * c11)) 0); [contradiction|]. cbn [orb is0]. repeat split.
      intros nu v al L. cbn [coef_at cval]. change (word_power [ORad Radial_bm2]) with (-2). ring.
  - repeat apply APP; apply opt_lengths; try assumption; try reflexivity; intros; cbn [fst snd coef_at cscale cmul];
      match goal with |- context [word_power ?w] => let p := eval cbn in (word_power w) in change (word_power w) with p end; ring.
Qed.

Theorem C90_RWC : forall c B c1 c2 chi kappa, c <> 0%R -> B <> 0%R ->
  in_lengths c (RWC_Ham B c1 c2 chi kappa) (RWC_Ham (c ^ 2 * B) c1 (c ^ 2 * c2) (c * chi) kappa).
Proof.
  intros c B c1 c2 chi kappa Hc HB. unfold RWC_Ham. cbv zeta.
  pose proof (C90_Hamiltonian c (-1 / (2 * B)) 0 (B * c1 / 2) (B * c2 / 2) 0 (- chi) 0 0 0 kappa 0 0 0 0 Hc) as K. cbv beta zeta in K.
  rewrite !Rmult_0_r in K.
  replace (powerRZ c (-2) * (-1 / (2 * B)))%R with (-1 / (2 * (c ^ 2 * B)))%R in K by (change (powerRZ c (-2)) with (/ (c * (c * 1)))%R; field; auto).
  replace (powerRZ c 2 * (B * c1 / 2))%R with (c ^ 2 * B * c1 / 2)%R in K by (change (powerRZ c 2) with (c ^ 2)%R; field).
  replace (powerRZ c 4 * (B * c2 / 2))%R with (c ^ 2 * B * (c ^ 2 * c2) / 2)%R in K by (change (powerRZ c 4) with (c ^ 4)%R; field).
  replace (powerRZ c 1 * - chi)%R with (- (c * chi))%R in K by (change (powerRZ c 1) with (c ^ 1)%R; ring). replace (powerRZ c 0 * kappa)%R with kappa in K by (change (powerRZ c 0) with 1%R; ring). exact K.
Qed.

(** The estimate of the ground state energy and the Davidson lambda for a trial
    length do not depend on the unit. *)
Theorem C90_estimate : forall c B c1 c2 kappa an lambda0, c <> 0%R ->
  RWC_expt (c ^ 2 * B) c1 (c ^ 2 * c2) kappa (c * an) lambda0 = RWC_expt B c1 c2 kappa an lambda0.
Proof.
  intros c B c1 c2 kappa an lambda0 Hc. unfold RWC_expt, fdiv.
  destruct (Req_EM_T an 0) as [->|Na], (Req_EM_T (c * _) 0) as [Z|NZ]; try (exfalso; apply NZ; ring); try reflexivity; try (apply Rmult_integral in Z; tauto).
  destruct (Req_EM_T lambda0 1); [reflexivity|]. cbv zeta. destruct (Req_EM_T (lambda0 - 1) 0); [reflexivity|]. cbn [bind].
  destruct (Req_EM_T B 0) as [->|NB], (Req_EM_T (c ^ 2 * _) 0) as [Z|NZ2]; try (exfalso; apply NZ2; ring); try reflexivity; [apply Rmult_integral in Z; destruct Z as [Z|Z]; [elim (pow_nonzero c 2 Hc Z)|contradiction]|].
  cbn [bind].
  assert (N1 : (an ^ 2)%R <> 0%R) by now apply pow_nonzero. assert (N2 : ((c * an) ^ 2)%R <> 0%R) by now apply pow_nonzero.
  assert (N3 : ((an ^ 2) ^ 2)%R <> 0%R) by now apply pow_nonzero. assert (N4 : (((c * an) ^ 2) ^ 2)%R <> 0%R) by now apply pow_nonzero.
  repeat match goal with |- context [Req_EM_T ?x 0] => destruct (Req_EM_T x 0); [contradiction|] end. cbn [bind]. f_equal. field. repeat split; auto; lra.
Qed.

Theorem C90_Davidson : forall c c1 c2 an v, c <> 0%R -> RWC_dav c1 (c ^ 2 * c2) (c * an) v = RWC_dav c1 c2 an v.
Proof.
  intros c c1 c2 an v Hc. unfold RWC_dav, beta_dav, lam_dav. destruct (Rle_dec 0 c1); [cbn [bind]; now rewrite !Rmult_0_r|]. unfold fdiv.
  pose proof (pow_nonzero c 2 Hc) as N. assert (P : (0 < c ^ 2)%R) by (pose proof (pow2_ge_0 c); lra).
  destruct (Req_EM_T (c2 * 2) 0) as [Z|NZ], (Req_EM_T (c ^ 2 * c2 * 2) 0) as [Z'|NZ']; cbn [bind]; try reflexivity; try (exfalso; apply NZ'; rewrite Rmult_assoc, Z; ring).
  { exfalso. rewrite Rmult_assoc in Z'. apply Rmult_integral in Z'. tauto. }
  assert (N2 : c2 <> 0%R) by (intros ->; apply NZ; ring).
  replace (- c1 / (c ^ 2 * c2 * 2))%R with (/ c ^ 2 * (- c1 / (c2 * 2)))%R by (field; auto).
  assert (IP : (0 < / c ^ 2)%R) by now apply Rinv_0_lt_compat.
  destruct (Rlt_dec (- c1 / (c2 * 2)) 0) as [L|L], (Rlt_dec (/ c ^ 2 * (- c1 / (c2 * 2))) 0) as [L'|L']; cbn [bind]; try reflexivity; try (exfalso; nra).
  assert (Q : ((c * an * sqrt (/ c ^ 2 * (- c1 / (c2 * 2)))) ^ 4 = (an * sqrt (- c1 / (c2 * 2))) ^ 4)%R).
  { rewrite !Rpow_mult_distr.
    replace (sqrt (/ c ^ 2 * (- c1 / (c2 * 2))) ^ 4)%R with ((sqrt (/ c ^ 2 * (- c1 / (c2 * 2))) ^ 2) ^ 2)%R by ring.
    replace (sqrt (- c1 / (c2 * 2)) ^ 4)%R with ((sqrt (- c1 / (c2 * 2)) ^ 2) ^ 2)%R by ring. rewrite !pow2_sqrt by nra. field. auto. }
  now rewrite Q.
Qed.

(** The equations for the best length. *)
Theorem C90_optimum : forall c A B c1 c2 v, c <> 0%R -> c2 <> 0%R ->
  RWC1 (c ^ 2 * A) (c ^ 2 * B) c1 (c ^ 2 * c2) v = (c ^ 6 * RWC1 A B c1 c2 v)%R /\
  muf (c ^ 2 * A) c1 (c ^ 2 * c2) v = muf A c1 c2 v /\
  RWC2 (c ^ 2 * A) (muf (c ^ 2 * A) c1 (c ^ 2 * c2) v) (c ^ 2 * B) c1 (c ^ 2 * c2) v = (c ^ 6 * RWC2 A (muf A c1 c2 v) B c1 c2 v)%R.
Proof.
  intros c A B c1 c2 v Hc H2. assert (M : muf (c ^ 2 * A) c1 (c ^ 2 * c2) v = muf A c1 c2 v) by (unfold muf; do 2 f_equal; field; auto).
  split; [unfold RWC1; ring|]. split; [exact M|]. rewrite M.
  assert (NM : muf A c1 c2 v <> 0%R).
  { unfold muf. apply Rgt_not_eq, sqrt_lt_R0. pose proof (pow2_ge_0 (A * c1 / c2)). assert (0 < IZR (vshftf v))%R; [|lra]. apply IZR_lt. unfold vshftf. nia. }
  unfold RWC2. cbv zeta. field. auto.
Qed.

Theorem C90_link : forall c B c1 c2 kappa an, c <> 0%R ->
  RWC_expt_link (c ^ 2 * B) c1 (c ^ 2 * c2) kappa (c * an) = RWC_expt_link B c1 c2 kappa an.
Proof.
  intros c B c1 c2 kappa an Hc. unfold RWC_expt_link. rewrite C90_Davidson by assumption. destruct (RWC_dav c1 c2 an 0) as [l|e]; cbn [bind]; [now apply C90_estimate|reflexivity].
Qed.

(** ** Examples *)

Section Case.
  Variables (flt : text -> R -> text) (Gam : R -> R) (Msqrt Minv : mat R -> res (mat R)).
  Variable CG : Z -> Z -> Z -> Z -> Z -> Z -> Z -> Z -> Z -> res R.
  Let Rep := Rep_elem Gam Msqrt Minv.

  (** A run and the same run in the other unit: rates of beta^2 printed, the same
      lines; the two transition operators differ. *)
  Example C90_run_case : exists s T' M o,
    in_lengths 2 weight weight /\ in_lengths 2 (g_rat_TRop s) T' /\ T' <> g_rat_TRop s /\ length o = 2%nat /\
    run_on flt (RadProd Rep) CG (choosing 1 1 0) weight 1 (5 / 2) 0 1 0 0 0 0 0 None s = (Ok ([[5 / 4; 9 / 4]]%R, Some M, [0]), s, o) /\
    run_on flt (RadProd Rep) CG (choosing 1 1 0) weight 2 (5 / 2) 0 1 0 0 0 0 0 None (w_rat_TRop T' s) = (Ok ([[5 / 4; 9 / 4]]%R, Some M, [0]), w_rat_TRop T' s, o).
  Proof.
    set (s := rate_settings 1 2). destruct (weight_matrix Gam Msqrt Minv CG s eq_refl) as (D & ED & D1 & D2 & DV).
    assert (PF : plain_formats s (g_rat_format s) (chars "  B(E2: ") (chars ") = ") []) by (apply imported_formats).
    assert (QR : forall x, g_rat_fun s (g_rat_TRopAM s) 0 0 x = Ok (x ^ 2 * IZR 1 / IZR 1)%R) by (intros; reflexivity).
    destruct (one_run flt Gam Msqrt Minv CG s weight D (5 / 4) (9 / 4) 1 1 0 eq_refl eq_refl eq_refl eq_refl eq_refl ED D1 D2 DV) as (M & start & dim & HA & D0 & EL & NR & EV & RUN); try lra; try (left; reflexivity).
    specialize (RUN _ (shows_rate flt Gam Msqrt Minv CG s M start dim 1 2 _ HA D0 EL NR PF eq_refl eq_refl ltac:(lia) ltac:(lia) (QR _))).
    set (T' := [(CNum 4, [ORad Radial_b2])] : OperatorSum).
    assert (W : in_lengths 2 weight weight) by (repeat constructor; intros; cbn; ring).
    assert (WT : in_lengths 2 (g_rat_TRop s) T') by (change (g_rat_TRop s) with beta2; apply Forall2_cons; [repeat split; intros; change (4 = 2 ^ 2 * 1)%R; ring|apply Forall2_nil]).
    exists s, T', M. eexists. split; [exact W|]. split; [exact WT|].
    split; [intros Q; injection Q as Q; lra|]. split; [|split; [exact RUN|]]; [reflexivity|].
    pose proof (C90_run flt Rep CG (m_eigh (choosing 1 1 0)) (m_inv (choosing 1 1 0)) (m_junk (choosing 1 1 0)) 2 1 weight weight T' (5 / 2) 0 1 0 0 0 0 0 None s ltac:(lra) W WT) as K.
    unfold run_on in *. fold Rep in RUN. rewrite RUN in K. rewrite Rmult_1_r in K. exact K.
  Qed.

  (** beta^2 over the first two states: a matrix that is not zero, quartered. *)
  Example C90_homogeneous_case : exists M M',
    code_matrices (RadProd Rep) CG imported beta2 1 (5 / 2) 0 1 0 0 0 (Some 0) = Ok M /\ ent M 0 0 = (5 / 2)%R /\
    code_matrices (RadProd Rep) CG imported beta2 2 (5 / 2) 0 1 0 0 0 (Some 0) = Ok M' /\ ent M' 0 0 = (5 / 8)%R.
  Proof.
    destruct (matrix_of Gam Msqrt Minv CG imported [Radial_b2] (fun l f i => (powerRZ 1 (-2) * v_b2 l f i)%R) eq_refl) as (T & ET & T1 & T2 & TV).
    { apply word_b2; [lia|lra]. } { repeat constructor. }
    pose proof (C90_homogeneous Rep CG 2 2 1 imported beta2 (5 / 2) 0 1 0 0 0 (Some 0) ltac:(lra) ltac:(intros t [<- | []]; reflexivity)) as K.
    change [(CNum 1, map ORad [Radial_b2])] with beta2 in ET. fold Rep in ET. rewrite ET in K. replace (2 * 1)%R with 2%R in K by ring.
    destruct (code_matrices (RadProd Rep) CG imported beta2 2 _ _ _ _ _ _ _) as [M'|e] eqn:E; [|contradiction]. destruct K as (_ & _ & K).
    assert (V : ent T 0 0 = (5 / 2)%R) by (rewrite TV by lia; unfold v_b2; change (powerRZ 1 (-2)) with (/ 1 ^ 2)%R; change (0 =? 0 - 1) with false; change (0 =? 0) with true; cbv iota; field).
    exists T, M'. split; [exact ET|]. split; [exact V|]. split; [reflexivity|]. rewrite K, V. change (powerRZ 2 (- (2))) with (/ 2 ^ 2)%R. field.
  Qed.
End Case.

(** With c = 2: the potential - beta^2 + beta^4 / 2 in the unit twice as fine. *)
Example C90_RWC_case : in_lengths 2 (RWC_Ham 1 (-2) 1 1 0) (RWC_Ham 4 (-2) 4 2 0) /\ RWC_Ham 4 (-2) 4 2 0 <> RWC_Ham 1 (-2) 1 1 0.
Proof.
  split.
  - pose proof (C90_RWC 2 1 (-2) 1 1 0 ltac:(lra) ltac:(lra)) as K. replace (2 ^ 2 * 1)%R with 4%R in K by ring. replace (2 * 1)%R with 2%R in K by ring. exact K.
  - unfold RWC_Ham, ACM_Hamiltonian, is0. destruct (Req_EM_T (-1 / (2 * 4)) 0) as [Q|_]; [exfalso; lra|]. destruct (Req_EM_T (-1 / (2 * 1)) 0) as [Q|_]; [exfalso; lra|].
    intros Q. injection Q as Q. lra.
Qed.

Print Assumptions C90_matrices.
Print Assumptions C90_homogeneous.
Print Assumptions C90_run.
Print Assumptions C90_Hamiltonian.
Print Assumptions C90_RWC.
Print Assumptions C90_estimate.
Print Assumptions C90_Davidson.
Print Assumptions C90_link.
Print Assumptions C90_optimum.
