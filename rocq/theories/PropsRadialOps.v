(** C16-C22: radial operator words, lambda shifts and factorisation.
    The vocabulary ([alg], [word_op], [ktsop_op], [elem_op], [elem_shift],
    [chains]) is in RadialSpec.v; [flat] concatenates the elementary matrices
    of a factor list, leftmost first. *)

From Coq Require Import Reals Lia ZifyBool ZifyNat Lra.
From Verif Require Import PyBase PyFacts Compat Matrix SphericalFacts RadialOps RadialSpec
  RadialOpsFacts LambdaFacts SplitsFacts ProdFacts.
Open Scope Z_scope.
Ltac Zify.zify_post_hook ::= Z.div_mod_to_equations.

(** A concrete, non commutative interpretation: 2x2 integer matrices. *)
Definition m2 : Type := Z * Z * Z * Z.
Definition m2mul (x y : m2) : m2 :=
  let '(a, b, c, d) := x in let '(e, f, g, h) := y in
  (a * e + b * g, a * f + b * h, c * e + d * g, c * f + d * h).
Definition m2_alg : alg.
Proof.
  refine (mkAlg m2 (1, 0, 0, 1) m2mul _ _ _ (1, 1, 0, 1) (1, -1, 0, 1) _ _
            (0, 0, 1, 0) (2, 0, 0, 1) (3, 0, 0, 1) (5, 0, 0, 1) (fun _ => (7, 0, 0, 1))).
  - intros [[[a b] c] d] [[[e f] g] h] [[[i j] k] l]. unfold m2mul. apply f_equal2; [apply f_equal2; [apply f_equal2|]|]; ring.
  - intros [[[a b] c] d]. unfold m2mul. apply f_equal2; [apply f_equal2; [apply f_equal2|]|]; ring.
  - intros [[[a b] c] d]. unfold m2mul. apply f_equal2; [apply f_equal2; [apply f_equal2|]|]; ring.
  - reflexivity.
  - reflexivity.
Defined.

Example interpretation_separates_order :
  word_op m2_alg [Radial_Db; Radial_b] <> word_op m2_alg [Radial_b; Radial_Db] /\
  word_op m2_alg [Radial_Sp; Radial_b] <> word_op m2_alg [Radial_b; Radial_Sp] /\
  word_op m2_alg [Radial_Sp] <> word_op m2_alg [Radial_Sm].
Proof. repeat split; discriminate. Qed.

(** ** C16 *)

Theorem C16_parse_faithful : forall w ops, Parse_RadialOp_List w = Ok ops ->
  forall A : alg, oprod A (map (ktsop_op A) ops) = word_op A w.
Proof. intros w ops H A. now apply parse_op. Qed.

Theorem C16_parse_total : forall w, (forall k, ~ In (Radial_other k) w) ->
  exists ops, Parse_RadialOp_List w = Ok ops /\ Forall valid_op ops.
Proof.
  intros w H. destruct (parse_spec w) as (ops & E & V & _); [|eauto].
  apply forallb_forall. intros [] Hx; try reflexivity. now apply H in Hx.
Qed.

Theorem C16_other_symbol_raises : forall w k, In (Radial_other k) w ->
  Parse_RadialOp_List w = Raise ValueError.
Proof.
  intros w k H. unfold Parse_RadialOp_List. rewrite parse_loop_bad; [reflexivity| |].
  - rewrite forallb_rev. apply not_true_is_false. intros C.
    rewrite forallb_forall in C. specialize (C _ H). discriminate.
  - split; [lia|constructor].
Qed.

(** The parsed factors are never longer (in degree) than the word, and have
    the same parity: only beta/(1/beta) cancellations happen. *)
Theorem C16_parse_degree : forall w ops, Parse_RadialOp_List w = Ok ops ->
  zsum (map degree ops) <= word_degree w /\
  (zsum (map degree ops)) mod 2 = (word_degree w) mod 2.
Proof.
  intros w ops H. destruct (forallb is_basic w) eqn:E.
  - destruct (parse_spec w E) as (ops' & E' & _ & D & M).
    assert (ops' = ops) by congruence. subst.
    fold (total_degree ops). lia.
  - unfold Parse_RadialOp_List in H. rewrite parse_loop_bad in H; [discriminate| |].
    + now rewrite forallb_rev.
    + split; [lia|constructor].
Qed.

Example C16_example :
  Parse_RadialOp_List [Radial_b; Radial_bm2; Radial_bDb; Radial_Db; Radial_S0; Radial_bm]
  = Ok [KTOp 0 2; SOp 0; KTOp (-1) 0] /\
  Parse_RadialOp_List [Radial_D2b; Radial_b; Radial_Db; Radial_b2]
  = Ok [KTOp 0 2; KTOp 1 1; KTOp 2 0] /\
  Parse_RadialOp_List [Radial_b; Radial_other 3] = Raise ValueError.
Proof. repeat split. Qed.

(** ** C17 *)

Theorem C17_shifts_add_up : forall ops v, Forall valid_op ops ->
  exists l, Lambda_RadialOp_List ops v = Ok l /\ zsum l = v /\
    (length l = length ops \/ length l = S (length ops)).
Proof.
  intros ops v Hv. destruct (lambda_list_ok ops v Hv) as (l & E & Hs & Hl).
  exists (sgn_list v l). unfold Lambda_RadialOp_List. rewrite E. cbn [bind].
  split; [reflexivity|]. split; [now apply sgn_sum|]. rewrite sgn_length. tauto.
Qed.

(** The extra shift, when there is one, is the first, has the sign of
    [lambda_var], and only occurs when |lambda_var| is at least the degree. *)
Theorem C17_extra_shift_in_front : forall ops v l, Forall valid_op ops ->
  Lambda_RadialOp_List ops v = Ok l -> length l = S (length ops) ->
  zsum (map degree ops) <= Z.abs v /\ exists x r, l = x :: r /\ 0 < x * v.
Proof.
  intros ops v l Hv H HL. destruct (lambda_list_ok ops v Hv) as (l0 & E & Hs & Hl).
  unfold Lambda_RadialOp_List in H. rewrite E in H. cbn [bind] in H.
  injection H as <-. fold (sgn_list v l0) in HL |- *. rewrite sgn_length in HL.
  destruct Hl as [Hl|(_ & Hd & x & r & -> & Hx & Hv0)]; [lia|].
  split; [exact Hd|]. unfold sgn_list. destruct (0 <=? v) eqn:Ev.
  - exists x, r. split; [reflexivity|]. nia.
  - exists (- x), (map Z.opp r). split; [reflexivity|]. nia.
Qed.

(** The assertion commented out on line 1991 compares the sum of the shifts
    (which is |lambda_var|) with the final [odd_count]: it fails by one exactly
    when |lambda_var| and the total degree have different parities. *)
Theorem C17_disabled_assertion : forall ops v, Forall valid_op ops ->
  Z.abs v < zsum (map (fun op => degree op mod 2) ops) ->
  flip_count (Z.abs v) (zsum (map odd_var ops)) (map odd_var ops) =
  if (Z.abs v - zsum (map degree ops)) mod 2 =? 0 then Z.abs v else Z.abs v - 1.
Proof.
  intros ops v Hv H. pose proof (case_flip_count ops v Hv H) as E.
  fold (odd_count ops). rewrite E. change (max_count ops) with (zsum (map degree ops)).
  destruct (_ =? 0) eqn:E0; lia.
Qed.

Example C17_example :
  Lambda_RadialOp_List [KTOp 1 0; SOp 0; KTOp 0 1; SOp 1; KTOp (-3) 2] (-2) = Ok [0; 0; -1; 0; -1] /\
  Lambda_RadialOp_List [SOp 0; KTOp 2 1] 6 = Ok [4; 0; 2] /\
  Lambda_RadialOp_List [KTOp 2 1; SOp 0] 6 = Ok [6; 0].
Proof. repeat split. Qed.

(** ** C18 *)

(** The i-th operator being S-, S0 or S+, its shift is 0 (an extra shift in
    front moves the positions by one). *)
Definition S_shift_zero (ops : list ktsop) (shifts : list Z) : Prop :=
  forall i s, nth_error ops i = Some (SOp s) ->
    nth_error shifts (i + (length shifts - length ops))%nat = Some 0.

Theorem C18_S_operators_unshifted : forall ops v l, Forall valid_op ops ->
  (Exists (fun op => degree op mod 2 = 1) ops \/ v mod 2 = 0 \/
   zsum (map degree ops) <= Z.abs v) ->
  Lambda_RadialOp_List ops v = Ok l -> S_shift_zero ops l.
Proof.
  intros ops v l Hv Hc H. change (S_unshifted ops l).
  fold (total_degree ops) in Hc. fold (some_odd ops) in Hc.
  rewrite <- max_count_degree in Hc. pose proof (odd_le_max ops Hv) as Hom.
  assert (HH : exists l0, lambda_abs_list ops v = Ok l0 /\ S_unshifted ops l0).
  { destruct (Z_lt_ge_dec (Z.abs v) (odd_count ops)) as [C1|C1].
    - destruct (case_flip ops v Hv C1) as (l0 & ? & ? & ? & ?). eauto.
    - destruct (Z_lt_ge_dec (Z.abs v) (max_count ops)) as [C2|C2].
      + destruct (case_fill ops v Hv) as (l0 & ? & ? & ? & HS & _); [lia|].
        exists l0. split; [assumption|]. apply HS.
        destruct Hc as [Hc|[Hc|Hc]]; [now left|now right|lia].
      + destruct (case_over ops v Hv) as (l0 & ? & ? & ? & ?); [lia|eauto]. }
  destruct HH as (l0 & E & HS). unfold Lambda_RadialOp_List in H.
  rewrite E in H. cbn [bind] in H. injection H as <-. now apply (sgn_S ops v l0).
Qed.

(** The remaining case, exactly: every degree is even, [v] is odd and smaller
    than the total degree.  The shifts saturate the first operators, the
    operator [op] in which |v| falls gets one too much, and the next operator,
    whatever it is, gets that one back. *)
Theorem C18_remaining_case : forall ops v, Forall valid_op ops ->
  Forall (fun op => degree op mod 2 = 0) ops -> v mod 2 = 1 ->
  Z.abs v < zsum (map degree ops) ->
  exists o1 op o2, ops = o1 ++ op :: o2 /\
    zsum (map degree o1) < Z.abs v < zsum (map degree o1) + degree op /\
    Lambda_RadialOp_List ops v = Ok (map (Z.mul (Z.sgn v)) (map degree o1 ++
      match o2 with
      | [] => [Z.abs v - zsum (map degree o1)]
      | _ :: o2' => (Z.abs v - zsum (map degree o1) + 1) :: -1 :: repeat 0 (length o2')
      end)).
Proof.
  intros ops v Hv He Ho Hlt.
  assert (Hno : ~ some_odd ops).
  { unfold some_odd. rewrite Exists_exists. intros (op & Hin & H).
    rewrite Forall_forall in He. specialize (He op Hin). lia. }
  assert (Hz : odd_count ops = 0).
  { apply bits_no_one; [apply odd_bits|]. now rewrite <- some_odd_In. }
  destruct (case_fill ops v Hv) as (l & E & _ & _ & _ & Hx).
  { rewrite max_count_degree. unfold total_degree. lia. }
  destruct (Hx Hno Ho) as (o1 & op & o2 & Eo & Hd & El).
  exists o1, op, o2. split; [assumption|]. split; [assumption|].
  unfold Lambda_RadialOp_List. rewrite E. cbn [bind]. f_equal.
  fold (total_degree o1). rewrite <- El.
  destruct (0 <=? v) eqn:Ev.
  - replace (Z.sgn v) with 1 by lia. rewrite <- (map_id l) at 1. apply map_ext. lia.
  - replace (Z.sgn v) with (-1) by lia. apply map_ext. lia.
Qed.

(** ... and when that next operator is an S operator, the product raises. *)
Theorem C18_product_raises : forall w ops o1 op s o2 v lambdaa,
  Parse_RadialOp_List w = Ok ops -> ops = o1 ++ op :: SOp s :: o2 ->
  Forall (fun op => degree op mod 2 = 0) ops -> v mod 2 = 1 ->
  zsum (map degree o1) < Z.abs v < zsum (map degree o1) + degree op ->
  RepRadial_Prod_factors w lambdaa v = Raise ValueError.
Proof.
  intros w ops o1 op s o2 v lambdaa Hp Eo He Ho Hd.
  unfold RepRadial_Prod_factors.
  destruct (Rle_dec lambdaa 0) as [C|C]; [reflexivity|].
  destruct (Rle_dec (lambdaa + IZR v) 0) as [C2|C2]; [reflexivity|].
  assert (Hb : forallb is_basic w = true).
  { destruct (forallb is_basic w) eqn:E; [reflexivity|].
    unfold Parse_RadialOp_List in Hp. rewrite parse_loop_bad in Hp; [discriminate| |].
    - now rewrite forallb_rev.
    - split; [lia|constructor]. }
  destruct (product_main w lambdaa v Hb) as (ops0 & l & ops' & shfs & Ep & El & Hv & _ & Ei & HL & HM);
    [lra|lra|].
  assert (ops0 = ops) by congruence. subst ops0.
  assert (Hno : ~ some_odd ops).
  { unfold some_odd. rewrite Exists_exists. intros (op' & Hin & H).
    rewrite Forall_forall in He. specialize (He op' Hin). lia. }
  assert (Hz : odd_count ops = 0).
  { apply bits_no_one; [apply odd_bits|]. now rewrite <- some_odd_In. }
  assert (Hpos : forall o, Forall valid_op o -> 0 <= zsum (map degree o)).
  { clear. intros o. induction 1 as [|a o Ha _ IH]; [cbn; lia|]. cbn [map].
    rewrite zsum_cons. destruct a; cbn [valid_op degree] in *; lia. }
  assert (Hv2 : Forall valid_op o1 /\ Forall valid_op o2).
  { rewrite Eo in Hv. apply Forall_app in Hv as [V1 V2].
    inversion V2 as [|? ? ? V3]; subst. inversion V3; subst. auto. }
  assert (Htot : zsum (map degree ops) = zsum (map degree o1) + degree op + zsum (map degree o2)).
  { rewrite Eo, map_app, zsum_app. cbn [map]. rewrite !zsum_cons. cbn [degree]. lia. }
  destruct (case_fill ops v Hv) as (l' & E' & _ & HLen & _ & Hx).
  { rewrite max_count_degree. unfold total_degree.
    pose proof (Hpos o2 (proj2 Hv2)). lia. }
  assert (l' = l) by congruence. subst l'.
  destruct (Hx Hno Ho) as (p1 & op' & p2 & Eo' & Hd' & El').
  (* the pivot is unique *)
  assert (Hsame : o1 = p1 /\ op = op' /\ SOp s :: o2 = p2).
  { assert (Hv' := Hv). rewrite Eo in Hv'. rewrite Eo in Eo'.
    unfold total_degree in *.
    clear - Eo' Hd Hd' Hv' Hpos. revert p1 Eo' Hd' . generalize dependent (Z.abs v).
    induction o1 as [|a o1 IH]; intros z Hd [|b p1] Eo' Hd'; cbn [app map] in *.
    - injection Eo' as -> ->. auto.
    - exfalso. injection Eo' as <- Eo'. rewrite zsum_cons in Hd'. cbn [zsum fold_right] in Hd.
      assert (Vp : Forall valid_op p1).
      { inversion Hv' as [|? ? ? V]; subst. rewrite Eo' in V. apply Forall_app in V. tauto. }
      pose proof (Hpos p1 Vp). lia.
    - exfalso. injection Eo' as <- Eo'. rewrite zsum_cons in Hd. cbn [zsum fold_right] in Hd'.
      inversion Hv' as [|? ? ? V]; subst. apply Forall_app in V as [V _].
      pose proof (Hpos o1 V). lia.
    - injection Eo' as <- Eo'. inversion Hv' as [|? ? ? V]; subst.
      rewrite zsum_cons in Hd, Hd'.
      destruct (IH V (z - degree a) ltac:(lia) p1 Eo' ltac:(lia)) as (-> & -> & ->). auto. }
  destruct Hsame as (<- & <- & <-).
  (* no operator was inserted, and the S operator carries -sgn v *)
  unfold insert_id in Ei. unfold zlen in Ei. rewrite sgn_length, HLen in Ei.
  rewrite Z.ltb_irrefl in Ei. injection Ei as <- <-.
  destruct HM as [[HS _]|[_ HR]].
  - exfalso. apply steps_ok_S in HS; [|now rewrite !rev_length].
    apply Forall2_rev in HS. rewrite !rev_involutive in HS.
    rewrite Eo in HS. apply Forall2_app_inv_l in HS as (s1 & s2 & F1 & F2 & Es).
    inversion F2 as [|? x0 ? s3 _ F3]; subst s2.
    inversion F3 as [|? x1 ? s4 F4 _]; subst s3.
    specialize (F4 I). subst x1.
    assert (HL1 : length o1 = length s1) by (clear - F1; induction F1; cbn; congruence).
    assert (N : nth_error (sgn_list v l) (length o1 + 1) = Some 0).
    { rewrite Es, nth_error_app2 by lia.
      now replace (length o1 + 1 - length s1)%nat with 1%nat by lia. }
    assert (N2 : nth_error l (length o1 + 1) = Some (-1)).
    { rewrite El', nth_error_app2 by (rewrite map_length; lia).
      rewrite map_length. now replace (length o1 + 1 - length o1)%nat with 1%nat by lia. }
    unfold sgn_list in N. destruct (0 <=? v); [congruence|].
    rewrite nth_error_map, N2 in N. discriminate.
  - unfold RepRadial_Prod_factors in HR.
    destruct (Rle_dec lambdaa 0); [contradiction|].
    destruct (Rle_dec (lambdaa + IZR v) 0); [contradiction|]. exact HR.
Qed.

(** The documented expectation "this shouldn't arise!" is false. *)
Theorem C18_never_arises_refuted :
  Parse_RadialOp_List [Radial_b2; Radial_S0] = Ok [KTOp 2 0; SOp 0] /\
  Lambda_RadialOp_List [KTOp 2 0; SOp 0] 1 = Ok [2; -1] /\
  forall lambdaa, RepRadial_Prod_factors [Radial_b2; Radial_S0] lambdaa 1 = Raise ValueError.
Proof.
  split; [reflexivity|]. split; [reflexivity|]. intros lambdaa.
  apply (C18_product_raises _ [KTOp 2 0; SOp 0] [] (KTOp 2 0) 0 []); try reflexivity.
  - repeat constructor.
  - cbn. lia.
Qed.

Example C18_example_zero :
  Lambda_RadialOp_List [KTOp 2 0; SOp 0] 2 = Ok [2; 0] /\
  Lambda_RadialOp_List [KTOp 2 0; SOp 0] 5 = Ok [5; 0] /\
  Lambda_RadialOp_List [KTOp 2 0; SOp 0; KTOp 0 1] 1 = Ok [0; 0; 1].
Proof. repeat split. Qed.

(** ** C19 *)

Theorem C19_splits_well_formed : forall K T R, 0 <= T ->
  exists l, Lambda_Splits K T R = Ok l /\ zsum l = R /\
    ((zlen l = Z.abs K + T /\ Forall (fun x => -1 <= x <= 1) l) \/
     (exists x r, l = x :: r /\ zlen r = Z.abs K + T /\ Forall (fun x => -1 <= x <= 1) r /\
        0 < x * R /\ (x mod 2 = 0 \/ K = 0 /\ T = 0 /\ R mod 2 = 1))).
Proof.
  intros K T R HT. destruct (splits_full K T R HT) as (l & E & x & s & H1 & H2 & H3 & H4 & H5 & _ & _).
  exists l. split; [assumption|]. destruct H1 as [[-> ->]|[-> H1]].
  - split; [lia|]. left. auto.
  - split; [rewrite zsum_cons; lia|].
    right. exists x, s. split; [reflexivity|]. split; [assumption|]. split; [assumption|].
    split; [|assumption]. assert (x <> 0) by lia. nia.
Qed.

(** 1/beta and d/dbeta are never zero-shifted as one pair.  Zero shifts are
    consumed in pairs from the right within each maximal run of zeros; a run
    that ends at position [i] and reaches back to the last 1/beta (position
    |K|) contains an even number of derivatives. *)
Theorem C19_no_mixed_pair : forall K T R l i, 0 <= T -> K < 0 ->
  Lambda_Splits K T R = Ok l ->
  let s := if zlen l =? Z.abs K + T then l else tl l in
  Z.abs K <= i <= Z.abs K + T ->
  (i = Z.abs K + T \/ nth (Z.to_nat i) s 0 <> 0) ->
  (forall j, Z.abs K <= j <= i -> nth (Z.to_nat (j - 1)) s 0 = 0) ->
  (i - Z.abs K) mod 2 = 0.
Proof.
  intros K T R l i HT HK E s Hi Hn Hz.
  destruct (splits_full K T R HT) as (l' & E' & x & s' & H1 & H2 & _ & _ & _ & _ & H7).
  assert (l' = l) by congruence. subst l'.
  assert (Hs : s = s').
  { unfold s. destruct H1 as [[-> ->]|[-> _]].
    - replace (zlen s' =? Z.abs K + T) with true by lia. reflexivity.
    - rewrite zlen_cons. replace (1 + zlen s' =? Z.abs K + T) with false by lia. reflexivity. }
  rewrite Hs in *. apply (H7 HK i Hi); unfold pos.
  - now replace (i + 1 - 1) with i by lia.
  - assumption.
Qed.

Example C19_example :
  Lambda_Splits (-2) 3 0 = Ok [0; 1; -1; 0; 0] /\
  Lambda_Splits 3 2 2 = Ok [0; 1; 1; 0; 0] /\
  Lambda_Splits 1 1 (-5) = Ok [-4; 0; -1] /\ Lambda_Splits 0 0 3 = Ok [3] /\
  Lambda_Splits 0 (-1) 3 = Raise ValueError.
Proof. repeat split. Qed.

(** ** C20 *)

Theorem C20_factorisation : forall K T lambdaa R_, 0 <= T ->
  (0 < lambdaa)%R -> (0 < lambdaa + IZR R_)%R ->
  exists fs, bsds K T lambdaa R_ = Ok fs /\ fs <> [] /\
    (forall A : alg, elems_op A (flat fs) = mul A (beta_pow A K) (deriv_pow A T)) /\
    chains (flat fs) 0 R_ /\
    zsum (map f_pow fs) = T - K.
Proof.
  intros K T lambdaa R_ HT H0 H1. unfold bsds.
  destruct (Rle_dec lambdaa 0) as [C|_]; [lra|].
  destruct (Rle_dec (lambdaa + IZR R_) 0) as [C|_]; [lra|].
  destruct (bsds_factors_ok K T R_ HT) as (fs & E & F1 & F2 & F3 & F4 & F5 & F6).
  exists fs. auto.
Qed.

(** The only exception is the ValueError for a non-positive lambda. *)
Theorem C20_exceptions : forall K T lambdaa R_ e, 0 <= T ->
  bsds K T lambdaa R_ = Raise e <->
  e = ValueError /\ (lambdaa <= 0 \/ lambdaa + IZR R_ <= 0)%R.
Proof.
  intros K T lambdaa R_ e HT. unfold bsds.
  destruct (Rle_dec lambdaa 0) as [C|C].
  - split; [intros H; injection H as <-; auto|]. intros [-> _]. reflexivity.
  - destruct (Rle_dec (lambdaa + IZR R_) 0) as [C2|C2].
    + split; [intros H; injection H as <-; auto|]. intros [-> _]. reflexivity.
    + destruct (bsds_factors_ok K T R_ HT) as (fs & E & _). rewrite E.
      split; [discriminate|]. intros [_ [H|H]]; contradiction.
Qed.

(** No elementary matrix lies further than max(|R|+1, |K|+T) away. *)
Theorem C20_offsets : forall K T R_ fs e o, 0 <= T -> bsds_factors K T R_ = Ok fs ->
  In (e, o) (flat fs) -> Z.abs o <= Z.max (Z.abs R_ + 1) (Z.abs K + T).
Proof.
  intros K T R_ fs e o HT H Hin.
  destruct (bsds_factors_ok K T R_ HT) as (fs' & E & _ & _ & _ & _ & _ & F6).
  assert (fs' = fs) by congruence. subst. apply (F6 (e, o) Hin).
Qed.

Example C20_example :
  bsds_factors (-1) 1 0 = Ok [F1 M_bm_pl (-1) 1; F1 M_Db_ml 0 1] /\
  bsds_factors 1 1 0 = Ok [F1 M_bDb 0 0] /\
  bsds_factors 0 1 0 = Ok [mkF [(M_b2_sqrtInv, 0); (M_bDb, 0)] 1] /\
  bsds_factors 2 1 (-1) = Ok [F1 M_b2 (-1) (-2); F1 M_Db_ml 0 1] /\
  bsds_factors 0 0 3 = Ok [F1 (M_id_pl 1) 1 0; F1 M_bm_pl 0 0; F1 M_b2_sqrt 0 0].
Proof. repeat split. Qed.

(** ** C21 *)

Theorem C21_nonpositive_lambda : forall w lambdaa v,
  (lambdaa <= 0 \/ lambdaa + IZR v <= 0)%R ->
  RepRadial_Prod_factors w lambdaa v = Raise ValueError.
Proof.
  intros w lambdaa v H. unfold RepRadial_Prod_factors.
  destruct (Rle_dec lambdaa 0); [reflexivity|].
  destruct (Rle_dec (lambdaa + IZR v) 0); [reflexivity|]. exfalso. tauto.
Qed.

(** Whenever the product is computed, its factors denote the word, chain
    through the bases from lambda to lambda + lambda_var, and carry one power
    of [a] per derivative or 1/beta and one of 1/a per beta. *)
Theorem C21_product_denotes_word : forall w lambdaa v fs,
  RepRadial_Prod_factors w lambdaa v = Ok fs ->
  (forall A : alg, elems_op A (flat fs) = word_op A w) /\
  chains (flat fs) 0 v /\ zsum (map f_pow fs) = word_pow w.
Proof.
  intros w lambdaa v fs H.
  destruct (Rlt_dec 0 lambdaa) as [H0|H0].
  2: { rewrite C21_nonpositive_lambda in H by lra. discriminate. }
  destruct (Rlt_dec 0 (lambdaa + IZR v)) as [H1|H1].
  2: { rewrite C21_nonpositive_lambda in H by lra. discriminate. }
  destruct (forallb is_basic w) eqn:Hb.
  - destruct (product_main w lambdaa v Hb H0 H1)
      as (? & ? & ? & ? & _ & _ & _ & _ & _ & _ & [[_ (fs' & E & P)]|[_ E]]).
    + assert (fs' = fs) by congruence. subst fs'.
      destruct P as (_ & _ & P1 & P2 & P3 & _). auto.
    + congruence.
  - unfold RepRadial_Prod_factors in H.
    destruct (Rle_dec lambdaa 0); [discriminate|].
    destruct (Rle_dec (lambdaa + IZR v) 0); [discriminate|].
    unfold Parse_RadialOp_List in H. rewrite parse_loop_bad in H; [discriminate| |].
    + now rewrite forallb_rev.
    + split; [lia|constructor].
Qed.

(** ValueError is the only exception raised before matrices are built. *)
Theorem C21_only_ValueError : forall w lambdaa v e,
  RepRadial_Prod_factors w lambdaa v = Raise e -> e = ValueError.
Proof.
  intros w lambdaa v e H.
  destruct (Rlt_dec 0 lambdaa) as [H0|H0].
  2: { rewrite C21_nonpositive_lambda in H by lra. congruence. }
  destruct (Rlt_dec 0 (lambdaa + IZR v)) as [H1|H1].
  2: { rewrite C21_nonpositive_lambda in H by lra. congruence. }
  destruct (forallb is_basic w) eqn:Hb.
  - destruct (product_main w lambdaa v Hb H0 H1)
      as (? & ? & ? & ? & _ & _ & _ & _ & _ & _ & [[_ (fs' & E & P)]|[_ E]]); congruence.
  - unfold RepRadial_Prod_factors in H.
    destruct (Rle_dec lambdaa 0); [congruence|].
    destruct (Rle_dec (lambdaa + IZR v) 0); [congruence|].
    unfold Parse_RadialOp_List in H. rewrite parse_loop_bad in H; [cbn in H; congruence| |].
    + now rewrite forallb_rev.
    + split; [lia|constructor].
Qed.

(** The returned block covers exactly nu_min..nu_max, cut out of the product
    computed on the range widened by [nu_lap] on both sides (never below 0):
    its (i, j) entry is the entry of that product for (nu_min+i, nu_min+j). *)
Theorem C21_block_range : forall Rep anorm w lambdaa v nu_min nu_max nu_lap M,
  (forall e lam a b N, Rep e lam a b = Ok N -> nrows N = b - a + 1 /\ ncols N = b - a + 1) ->
  0 <= nu_min <= nu_max -> 0 <= nu_lap ->
  RepRadial_Prod_common Rep anorm w lambdaa v nu_min nu_max nu_lap = Ok M ->
  nrows M = nu_max - nu_min + 1 /\ ncols M = nu_max - nu_min + 1 /\
  exists lo fs P, lo = Z.max 0 (nu_min - nu_lap) /\
    RepRadial_Prod_factors w lambdaa v = Ok fs /\
    factors_mat Rep anorm lambdaa lo (nu_max + nu_lap) fs = Ok P /\
    forall i j, ent M i j = ent P (nu_min + i - lo) (nu_min + j - lo).
Proof.
  intros Rep anorm w lambdaa v nu_min nu_max nu_lap M HR Hnu Hlap H.
  unfold RepRadial_Prod_common in H.
  destruct (RepRadial_Prod_factors w lambdaa v) as [fs|] eqn:Ef; [|discriminate].
  cbn [bind] in H.
  replace (nu_min - Z.min nu_lap nu_min) with (Z.max 0 (nu_min - nu_lap)) in H by lia.
  set (lo := Z.max 0 (nu_min - nu_lap)) in *.
  destruct (factors_mat Rep anorm lambdaa lo (nu_max + nu_lap) fs) as [P|] eqn:EP;
    [|discriminate].
  cbn [bind] in H.
  assert (Hne : fs <> [] /\ Forall (fun f => f_elems f <> []) fs).
  { destruct (Rlt_dec 0 lambdaa) as [H0|H0].
    2: { rewrite C21_nonpositive_lambda in Ef by lra. discriminate. }
    destruct (Rlt_dec 0 (lambdaa + IZR v)) as [H1|H1].
    2: { rewrite C21_nonpositive_lambda in Ef by lra. discriminate. }
    destruct (forallb is_basic w) eqn:Hb.
    - destruct (product_main w lambdaa v Hb H0 H1)
        as (? & ? & ? & ? & _ & _ & _ & _ & _ & _ & [[_ (fs' & E & P1 & P2 & _)]|[_ E]]);
        [|congruence].
      assert (fs' = fs) by congruence. subst. auto.
    - exfalso. unfold RepRadial_Prod_factors in Ef.
      destruct (Rle_dec lambdaa 0); [discriminate|].
      destruct (Rle_dec (lambdaa + IZR v) 0); [discriminate|].
      unfold Parse_RadialOp_List in Ef. rewrite parse_loop_bad in Ef; [discriminate| |].
      + now rewrite forallb_rev.
      + split; [lia|constructor]. }
  assert (HP : square (nu_max + nu_lap - lo + 1) P).
  { eapply factors_mat_square; [|apply Hne|apply Hne|exact EP].
    intros e lam a b N HN. apply (HR e lam a b N HN). }
  destruct HP as [HP1 HP2].
  destruct (nu_lap =? 0) eqn:E0;
    apply (f_equal (fun r => match r with Ok x => x | Raise _ => M end)) in H;
    cbv beta iota in H; subst M.
  - split; [unfold lo in *; lia|]. split; [unfold lo in *; lia|].
    exists lo, fs, P. repeat split; auto. intros i j.
    replace (nu_min + i - lo) with i by (unfold lo; lia).
    replace (nu_min + j - lo) with j by (unfold lo; lia). reflexivity.
  - unfold slice. cbn [nrows ncols ent]. unfold slice_bound. rewrite HP1, HP2.
    assert (Hs : Z.min nu_lap nu_min = nu_min - lo) by (unfold lo; lia).
    rewrite Hs.
    replace (nu_min - lo <? 0) with false by (unfold lo; lia).
    replace (1 + nu_max - nu_min + (nu_min - lo) <? 0) with false by (unfold lo; lia).
    split; [unfold lo; lia|]. split; [unfold lo; lia|].
    exists lo, fs, P. repeat split; auto. intros i j.
    f_equal; unfold lo; lia.
Qed.

(** The sizes always agree: if every elementary matrix can be built, so can
    the product. *)
Theorem C21_no_shape_error : forall Rep anorm w lambdaa v nu_min nu_max nu_lap fs,
  (forall e lam a b, exists N, Rep e lam a b = Ok N /\ nrows N = b - a + 1 /\ ncols N = b - a + 1) ->
  RepRadial_Prod_factors w lambdaa v = Ok fs ->
  exists M, RepRadial_Prod_common Rep anorm w lambdaa v nu_min nu_max nu_lap = Ok M.
Proof.
  intros Rep anorm w lambdaa v nu_min nu_max nu_lap fs HR Ef.
  unfold RepRadial_Prod_common. rewrite Ef. cbn [bind].
  set (a := nu_min - Z.min nu_lap nu_min). set (b := nu_max + nu_lap).
  assert (Hne : fs <> [] /\ Forall (fun f => f_elems f <> []) fs).
  { destruct (Rlt_dec 0 lambdaa) as [H0|H0].
    2: { rewrite C21_nonpositive_lambda in Ef by lra. discriminate. }
    destruct (Rlt_dec 0 (lambdaa + IZR v)) as [H1|H1].
    2: { rewrite C21_nonpositive_lambda in Ef by lra. discriminate. }
    destruct (forallb is_basic w) eqn:Hb.
    - destruct (product_main w lambdaa v Hb H0 H1)
        as (? & ? & ? & ? & _ & _ & _ & _ & _ & _ & [[_ (fs' & E & P1 & P2 & _)]|[_ E]]);
        [|congruence].
      assert (fs' = fs) by congruence. subst. auto.
    - exfalso. unfold RepRadial_Prod_factors in Ef.
      destruct (Rle_dec lambdaa 0); [discriminate|].
      destruct (Rle_dec (lambdaa + IZR v) 0); [discriminate|].
      unfold Parse_RadialOp_List in Ef. rewrite parse_loop_bad in Ef; [discriminate| |].
      + now rewrite forallb_rev.
      + split; [lia|constructor]. }
  assert (HRsq : forall e lam a b N, Rep e lam a b = Ok N -> square (b - a + 1) N).
  { intros e lam a' b' N HN. destruct (HR e lam a' b') as (N' & E' & S').
    assert (N' = N) by congruence. subst. exact S'. }
  assert (HF : forall f, f_elems f <> [] -> exists m, factor_mat Rep anorm lambdaa a b f = Ok m /\ square (b - a + 1) m).
  { intros f Hf. unfold factor_mat.
    assert (HE : exists es, mapM (fun eo => Rep (fst eo) (lambdaa + IZR (snd eo))%R a b) (f_elems f) = Ok es
                 /\ length es = length (f_elems f) /\ Forall (square (b - a + 1)) es).
    { clear Hf. induction (f_elems f) as [|eo l IH]; [exists []; repeat split; constructor|].
      destruct IH as (es & E1 & E2 & E3).
      destruct (HR (fst eo) (lambdaa + IZR (snd eo))%R a b) as (N & EN & SN).
      exists (N :: es). cbn [mapM]. rewrite EN. cbn [bind]. rewrite E1. cbn [bind].
      split; [reflexivity|]. split; [cbn [length]; lia|]. constructor; assumption. }
    destruct HE as (es & E1 & E2 & E3). rewrite E1. cbn [bind].
    assert (Hes : es <> []) by (intros ->; destruct (f_elems f); [congruence|discriminate]).
    destruct (mprod_total (b - a + 1) es Hes E3) as (p & Ep). rewrite Ep. cbn [bind].
    eexists; split; [reflexivity|].
    pose proof (mprod_square (b - a + 1) es p Hes E3 Ep) as [? ?].
    split; assumption. }
  assert (HM : exists ms, mapM (factor_mat Rep anorm lambdaa a b) fs = Ok ms /\
               length ms = length fs /\ Forall (square (b - a + 1)) ms).
  { destruct Hne as [_ Hne]. clear Ef. induction Hne as [|f fs Hf _ IH]; [exists []; repeat split; constructor|].
    destruct IH as (ms & E1 & E2 & E3). destruct (HF f Hf) as (m & Em & Sm).
    exists (m :: ms). cbn [mapM]. rewrite Em. cbn [bind]. rewrite E1. cbn [bind].
    split; [reflexivity|]. split; [cbn [length]; lia|]. constructor; assumption. }
  destruct HM as (ms & E1 & E2 & E3). unfold factors_mat. rewrite E1. cbn [bind].
  assert (Hms : ms <> []) by (intros ->; destruct fs; [destruct Hne; congruence|discriminate]).
  destruct (mprod_total (b - a + 1) ms Hms E3) as (p & Ep). rewrite Ep. cbn [bind].
  destruct (nu_lap =? 0); eauto.
Qed.

Example C21_example :
  exists fs, RepRadial_Prod_factors [Radial_b; Radial_Sp; Radial_Db] 3 2 = Ok fs /\
    flat fs = [(M_b_pl, 1); (M_Sp, 1); (M_Db_pl, 0)].
Proof.
  unfold RepRadial_Prod_factors.
  destruct (Rle_dec 3 0); [exfalso; lra|]. destruct (Rle_dec (3 + IZR 2) 0); [exfalso; lra|].
  cbn -[Rle_dec].
  unfold bsds. 
  repeat match goal with |- context [Rle_dec ?a ?b] =>
    destruct (Rle_dec a b); [exfalso; lra|] end.
  eexists; split; reflexivity.
Qed.

(** ** C22 *)

Theorem C22_endpoints_do_not_suffice_refuted :
  exists w lambdaa v, (forall k, ~ In (Radial_other k) w) /\
    (0 < lambdaa)%R /\ (0 < lambdaa + IZR v)%R /\
    Exists (fun op => degree op mod 2 = 1) [KTOp 1 0; SOp 0; KTOp 1 0; SOp 0; KTOp 1 0] /\
    Parse_RadialOp_List w = Ok [KTOp 1 0; SOp 0; KTOp 1 0; SOp 0; KTOp 1 0] /\
    RepRadial_Prod_factors w lambdaa v = Raise ValueError.
Proof.
  exists [Radial_b; Radial_S0; Radial_b; Radial_S0; Radial_b], (3/2)%R, (-1).
  split; [intros k H; cbn in H; intuition discriminate|].
  split; [lra|]. split; [lra|].
  split; [apply Exists_cons_hd; reflexivity|]. split; [reflexivity|].
  destruct (product_main [Radial_b; Radial_S0; Radial_b; Radial_S0; Radial_b] (3/2) (-1))
    as (ops & l & ops' & shfs & Ep & El & _ & _ & Ei & _ & HM);
    [reflexivity|lra|lra|].
  cbv in Ep. injection Ep as <-. cbv in El. injection El as <-. cbv in Ei.
  injection Ei as <- <-.
  destruct HM as [[HS _]|[_ HR]]; [exfalso|exact HR].
  cbn [rev app steps_ok step_ok Z.add Z.opp Z.pos_sub Pos.add Pos.succ Pos.pred_double] in HS. lra.
Qed.

(** Large lambda: the product is computed, unless a shift lands on an S
    operator (C18). *)
Theorem C22_large_lambda_succeeds : forall w ops lambdaa v,
  Parse_RadialOp_List w = Ok ops ->
  (Exists (fun op => degree op mod 2 = 1) ops \/ v mod 2 = 0 \/
   zsum (map degree ops) <= Z.abs v) ->
  (IZR (word_degree w + Z.abs v + 1) < lambdaa)%R ->
  exists fs, RepRadial_Prod_factors w lambdaa v = Ok fs.
Proof.
  intros w ops lambdaa v Hp Hc Hl.
  assert (Hb : forallb is_basic w = true).
  { destruct (forallb is_basic w) eqn:E; [reflexivity|].
    unfold Parse_RadialOp_List in Hp. rewrite parse_loop_bad in Hp; [discriminate| |].
    - now rewrite forallb_rev.
    - split; [lia|constructor]. }
  assert (Hwd : 0 <= word_degree w).
  { unfold word_degree. clear. induction w as [|s w IH]; [cbn; lia|].
    cbn [map]. rewrite zsum_cons. destruct s; cbn [sym_degree]; lia. }
  assert (H0 : (IZR (Z.abs v) < lambdaa)%R).
  { eapply Rle_lt_trans; [|exact Hl]. apply IZR_le. lia. }
  assert (H1 : (0 <= IZR (Z.abs v))%R) by (apply IZR_le; lia).
  assert (H2 : (- IZR (Z.abs v) <= IZR v)%R) by (rewrite <- opp_IZR; apply IZR_le; lia).
  destruct (product_main w lambdaa v Hb) as (ops0 & l & ops' & shfs & Ep & El & Hv & Htd & Ei & HL & HM);
    [lra|lra|].
  assert (ops0 = ops) by congruence. subst ops0.
  destruct HM as [[_ (fs & E & _)]|[Hno _]]; [eauto|exfalso]. apply Hno.
  destruct (insert_id_spec ops v l Hv El)
    as (ops2 & shfs2 & Ei2 & _ & _ & _ & _ & _ & _ & Ha & _ & HS).
  assert (ops2 = ops' /\ shfs2 = shfs) as [-> ->] by (rewrite Ei in Ei2; now injection Ei2).
  apply steps_ok_large.
  - apply Forall2_rev, HS.
    assert (E2 : Lambda_RadialOp_List ops v = Ok (sgn_list v l)).
    { unfold Lambda_RadialOp_List. rewrite El. reflexivity. }
    pose proof (C18_S_operators_unshifted ops v _ Hv Hc E2) as HU.
    intros i s Hi. specialize (HU i s Hi). rewrite sgn_length in HU.
    unfold sgn_list in HU. destruct (0 <=? v); [assumption|].
    rewrite nth_error_map in HU. destruct (nth_error l _); [|discriminate].
    cbn in HU. f_equal. injection HU. lia.
  - rewrite abs_sum_rev, Ha. eapply Rle_lt_trans; [|exact Hl]. apply IZR_le.
    pose proof (abs_sum_bound ops v l Hv El). cbn [Z.abs]. lia.
Qed.

(** Exactly when the product is computed: at every factor, counted from the
    right, lambda plus the shifts already made is positive before and after,
    and S operators are not shifted. *)
Theorem C22_success_exactly : forall w lambdaa v, (forall k, ~ In (Radial_other k) w) ->
  (0 < lambdaa)%R -> (0 < lambdaa + IZR v)%R ->
  exists ops shfs, length ops = length shfs /\ zsum shfs = v /\
    (forall A : alg, oprod A (map (ktsop_op A) ops) = word_op A w) /\
    ((exists fs, RepRadial_Prod_factors w lambdaa v = Ok fs) <->
     forall i op R_, nth_error ops i = Some op -> nth_error shfs i = Some R_ ->
       let lam := (lambdaa + IZR (zsum (skipn (S i) shfs)))%R in
       match op with
       | KTOp _ _ => (0 < lam)%R /\ (0 < lam + IZR R_)%R
       | SOp _ => R_ = 0
       end).
Proof.
  intros w lambdaa v Hk H0 H1.
  assert (Hb : forallb is_basic w = true).
  { apply forallb_forall. intros [] Hx; try reflexivity. now apply Hk in Hx. }
  destruct (product_main w lambdaa v Hb H0 H1)
    as (ops & l & ops' & shfs & Ep & El & Hv & Htd & Ei & HL & HM).
  destruct (insert_id_spec ops v l Hv El)
    as (ops2 & shfs2 & Ei2 & _ & _ & Hz & Hop & _).
  assert (ops2 = ops' /\ shfs2 = shfs) as [-> ->] by (rewrite Ei in Ei2; now injection Ei2).
  exists ops', shfs. split; [assumption|]. split; [assumption|].
  split; [intros A; rewrite Hop; now apply parse_op|].
  (* steps_ok on reversed lists, position by position *)
  assert (HSt : forall os ss lambdaa run, length os = length ss ->
    steps_ok (rev os) (rev ss) lambdaa run <->
    forall i op R_, nth_error os i = Some op -> nth_error ss i = Some R_ ->
      step_ok op (lambdaa + IZR (run + zsum (skipn (S i) ss))) R_).
  { clear. assert (HA : forall o1 s1 op x lam run, length o1 = length s1 ->
      steps_ok (o1 ++ [op]) (s1 ++ [x]) lam run <->
      steps_ok o1 s1 lam run /\ step_ok op (lam + IZR (run + zsum s1)) x).
    { induction o1 as [|a o1 IH]; intros [|y s1] op x lam run HL; try discriminate;
        cbn [app steps_ok].
      - rewrite Z.add_0_r. tauto.
      - rewrite IH by (cbn in HL; lia). rewrite zsum_cons.
        replace (run + (y + zsum s1)) with (run + y + zsum s1) by lia. tauto. }
    induction os as [|o os IH]; intros [|x ss] lam run HL; try discriminate.
    - cbn. split; [intros _ [|i]; discriminate|tauto].
    - cbn [rev]. rewrite HA by (rewrite !rev_length; cbn in HL; lia).
      rewrite IH by (cbn in HL; lia). rewrite zsum_rev. split.
      + intros [H1 H2] [|i] op R_ E1 E2; cbn [nth_error skipn] in *.
        * injection E1 as <-. injection E2 as <-. assumption.
        * now apply H1.
      + intros H. split.
        * intros i op R_ E1 E2. apply (H (S i) op R_ E1 E2).
        * apply (H O o x eq_refl eq_refl). }
  specialize (HSt ops' shfs lambdaa 0 HL).
  destruct HM as [[HS (fs & E & _)]|[HS E]].
  - split; [|eauto]. intros _ i op R_ E1 E2.
    pose proof (proj1 HSt HS i op R_ E1 E2) as H. rewrite Z.add_0_l in H. exact H.
  - split; [intros (fs & E'); congruence|]. intros H. exfalso. apply HS, HSt.
    intros i op R_ E1 E2. rewrite Z.add_0_l. exact (H i op R_ E1 E2).
Qed.

Print Assumptions C16_parse_faithful.
Print Assumptions C16_parse_total.
Print Assumptions C16_other_symbol_raises.
Print Assumptions C16_parse_degree.
Print Assumptions C17_shifts_add_up.
Print Assumptions C17_extra_shift_in_front.
Print Assumptions C17_disabled_assertion.
Print Assumptions C18_S_operators_unshifted.
Print Assumptions C18_remaining_case.
Print Assumptions C18_product_raises.
Print Assumptions C18_never_arises_refuted.
Print Assumptions C19_splits_well_formed.
Print Assumptions C19_no_mixed_pair.
Print Assumptions C20_factorisation.
Print Assumptions C20_exceptions.
Print Assumptions C20_offsets.
Print Assumptions C21_nonpositive_lambda.
Print Assumptions C21_product_denotes_word.
Print Assumptions C21_only_ValueError.
Print Assumptions C21_block_range.
Print Assumptions C21_no_shape_error.
Print Assumptions C22_endpoints_do_not_suffice_refuted.
Print Assumptions C22_large_lambda_succeeds.
Print Assumptions C22_success_exactly.
