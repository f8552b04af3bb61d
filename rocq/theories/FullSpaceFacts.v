(** Proofs about diagonalisation on the full space and the L-block structure. *)

From Coq Require Import Lia Sorted ZifyBool ZifyNat Reals.
From Verif Require Import PyBase PyFacts Compat SphericalSpec Spherical SphericalFacts
  FullLabels FullLabelsFacts Matrix FullSpace.
Open Scope Z_scope.

Ltac Zify.zify_post_hook ::= Z.div_mod_to_equations.

(** L of a full-space label. *)
Definition L_of (x : xlabel) : Z := snd (snd x).

Definition nsph (v_min v_max L : Z) : Z := zlen (rowL v_min v_max L).

Lemma nsph_model v_min v_max L : 0 <= v_min <= v_max -> 0 <= L ->
  dimSO5r3_rngV v_min v_max L = Ok (nsph v_min v_max L).
Proof. intros. rewrite dimSO5r3_rngV_sum by lia. unfold nsph. now rewrite rowL_len. Qed.

Lemma nsph_pos v_min v_max L :
  0 < nsph v_min v_max L <-> exists v, v_min <= v <= v_max /\ 0 < mult v L.
Proof.
  unfold nsph. split.
  - destruct (rowL v_min v_max L) as [|[[v a] L'] l] eqn:E; [cbn; lia|].
    intros _. exists v. assert (In (v, a, L') (rowL v_min v_max L)) by (rewrite E; left; reflexivity).
    apply rowL_In in H. destruct H as (-> & H). lia.
  - intros (v & Hv & Hm). assert (H : In (v, 1, L) (rowL v_min v_max L)) by (apply rowL_In; lia).
    destruct (rowL v_min v_max L) as [|s l]; [destruct H|]. rewrite zlen_cons. pose proof (zlen_nonneg l). lia.
Qed.

Definition w (nu_min nu_max v_min v_max L : Z) : Z := zlen (xlbs nu_min nu_max v_min v_max L L).

Lemma w_prod nu_min nu_max v_min v_max L :
  0 <= nu_min <= nu_max ->
  w nu_min nu_max v_min v_max L = dimRadial nu_min nu_max * nsph v_min v_max L.
Proof.
  intros Hn. unfold w, xlbs, nsph. rewrite zlen_flat_map, lbs_single_L.
  rewrite (zsum_map_ext _ (fun _ => dimRadial nu_min nu_max * 1)).
  - rewrite zsum_map_scale. f_equal.
    generalize (rowL v_min v_max L). intros l.
    induction l as [|x l IH]; [reflexivity|]. rewrite zlen_cons. cbn [map].
    rewrite zsum_cons. lia.
  - intros s _. rewrite zlen_map, dimRadial_len. unfold lbsRadial. lia.
Qed.

Lemma xlbs_len_sum nu_min nu_max v_min v_max L_min L_max :
  zlen (xlbs nu_min nu_max v_min v_max L_min L_max)
  = zsum (map (w nu_min nu_max v_min v_max) (py_range L_min (L_max + 1))).
Proof. rewrite xlbs_concat, zlen_flat_map. reflexivity. Qed.

Lemma xlbs_L_range nu_min nu_max v_min v_max L_min L_max x :
  In x (xlbs nu_min nu_max v_min v_max L_min L_max) -> L_min <= L_of x <= L_max.
Proof. destruct x as [nu [[v a] L]]. intros H. apply xlbs_In in H. cbn. lia. Qed.

Lemma filter_none {A} (f : A -> bool) l : (forall x, In x l -> f x = false) -> filter f l = [].
Proof.
  induction l as [|a l IH]; intros H; [reflexivity|].
  cbn. rewrite H by auto with datatypes. apply IH. auto with datatypes.
Qed.

Lemma xlbs_filter_lt nu_min nu_max v_min v_max L_min L_max L :
  L_min <= L <= L_max + 1 ->
  filter (fun x => L_of x <? L) (xlbs nu_min nu_max v_min v_max L_min L_max)
  = xlbs nu_min nu_max v_min v_max L_min (L - 1).
Proof.
  intros H. rewrite (xlbs_split _ _ _ _ L_min (L - 1) L_max) by lia.
  rewrite filter_app. rewrite filter_true, filter_none, app_nil_r; [reflexivity| |].
  - intros x Hx. apply xlbs_L_range in Hx. lia.
  - intros x Hx. apply xlbs_L_range in Hx. lia.
Qed.

Lemma xlbs_filter_eq nu_min nu_max v_min v_max L_min L_max L :
  L_min <= L <= L_max ->
  filter (fun x => L_of x =? L) (xlbs nu_min nu_max v_min v_max L_min L_max)
  = xlbs nu_min nu_max v_min v_max L L.
Proof.
  intros H. rewrite (xlbs_split _ _ _ _ L_min (L - 1) L_max) by lia.
  rewrite filter_app. rewrite filter_none.
  - rewrite (xlbs_split _ _ _ _ (L - 1 + 1) L L_max) by lia.
    rewrite filter_app. rewrite filter_true, filter_none, app_nil_r.
    + cbn [app]. f_equal. lia.
    + intros x Hx. apply xlbs_L_range in Hx. lia.
    + intros x Hx. apply xlbs_L_range in Hx. lia.
  - intros x Hx. apply xlbs_L_range in Hx. lia.
Qed.

(** * DigXspace *)

Section Dig.
  Context {A : Type}.
  Variable RepX : Z -> option Z -> res (mat A).
  Variable Eig : mat A -> res (list A * mat A).
  Variables nu_min nu_max v_min v_max : Z.
  Hypothesis Hn : 0 <= nu_min <= nu_max.
  Hypothesis Hv : 0 <= v_min <= v_max.

  Definition good (Ls : list Z) : list Z := filter (fun L => 0 <? nsph v_min v_max L) Ls.

  Lemma dig_tame_spec Ls : forall a b c evs ebs Lv, (forall L, In L Ls -> 0 <= L) ->
    dig_tame RepX Eig v_min v_max Ls (a, b, c) = Ok (evs, ebs, Lv) ->
    exists evs' ebs', evs = a ++ evs' /\ ebs = b ++ ebs' /\ Lv = c ++ good Ls /\
      length evs' = length (good Ls) /\ length ebs' = length (good Ls) /\
      Forall2 (fun L ve => exists M, RepX L None = Ok M /\ Eig M = Ok ve)
        (good Ls) (combine evs' ebs').
  Proof.
    induction Ls as [|L Ls IH]; intros a b c evs ebs Lv HL E.
    - cbn in E. injection E as <- <- <-. exists [], []. unfold good. cbn [filter combine length]. rewrite !app_nil_r. repeat split; constructor.
    - cbn [dig_tame] in E. rewrite nsph_model in E by auto with datatypes. cbn [bind] in E.
      unfold good in *. cbn [filter].
      destruct (0 <? nsph v_min v_max L) eqn:Ep.
      + apply bind_ok in E. destruct E as (M & EM & E).
        apply bind_ok in E. destruct E as ([vals bases] & EE & E).
        apply IH in E; [|auto with datatypes].
        destruct E as (evs' & ebs' & -> & -> & -> & L1 & L2 & F).
        exists (vals :: evs'), (bases :: ebs'). rewrite <- !app_assoc. cbn [app length].
        repeat split; try congruence. cbn [combine]. constructor; [eauto|exact F].
      + apply IH in E; [|auto with datatypes]. exact E.
  Qed.

  Lemma dig_tame_total Ls : forall acc, (forall L, In L Ls -> 0 <= L) ->
    (forall L, In L (good Ls) -> exists M ve, RepX L None = Ok M /\ Eig M = Ok ve) ->
    exists out, dig_tame RepX Eig v_min v_max Ls acc = Ok out.
  Proof.
    induction Ls as [|L Ls IH]; intros [[a b] c] HL H.
    - cbn. eauto.
    - cbn [dig_tame]. rewrite nsph_model by auto with datatypes. cbn [bind].
      unfold good in *. cbn [filter] in H.
      destruct (0 <? nsph v_min v_max L) eqn:Ep.
      + destruct (H L) as (M & [vals bases] & E1 & E2); [auto with datatypes|].
        rewrite E1. cbn [bind]. rewrite E2. cbn [bind]. apply IH; auto with datatypes.
      + apply IH; auto with datatypes.
  Qed.

  Variable rep : mat A.
  Variable L_min : Z.
  Hypothesis HL0 : 0 <= L_min.

  Definition offs (L : Z) : Z := zsum (map (w nu_min nu_max v_min v_max) (py_range L_min L)).

  Lemma offs_next L : L_min <= L ->
    offs (L + 1) = offs L + dimRadial nu_min nu_max * nsph v_min v_max L.
  Proof.
    intros H. unfold offs. rewrite py_range_snoc, map_app, zsum_app by lia. cbn [map].
    rewrite zsum_cons, w_prod by lia. cbn. lia.
  Qed.

  Definition blk (L : Z) : mat A :=
    let a := offs L in let b := offs L + w nu_min nu_max v_min v_max L + 1 in
    slice rep a b a b.

  Lemma dig_full_spec n : forall lo a b c evs ebs Lv, L_min <= lo ->
    let Ls := py_range lo (lo + Z.of_nat n) in
    dig_full Eig v_min v_max rep (dimRadial nu_min nu_max) Ls (1 + offs lo) (a, b, c)
      = Ok (evs, ebs, Lv) ->
    exists evs' ebs', evs = a ++ evs' /\ ebs = b ++ ebs' /\ Lv = c ++ good Ls /\
      length evs' = length (good Ls) /\ length ebs' = length (good Ls) /\
      Forall2 (fun L ve => Eig (blk L) = Ok ve) (good Ls) (combine evs' ebs').
  Proof.
    induction n as [|n IH]; intros lo a b c evs ebs Lv Hlo Ls E.
    - unfold Ls in *. rewrite py_range_nil in * by lia. cbn in E. injection E as <- <- <-.
      exists [], []. unfold good. cbn [filter combine length]. rewrite !app_nil_r. repeat split; constructor.
    - unfold Ls in *. clear Ls.
      rewrite (py_range_cons lo) in * by lia.
      replace (lo + Z.of_nat (S n)) with (lo + 1 + Z.of_nat n) in * by lia.
      cbn [dig_full] in E. rewrite nsph_model in E by lia. cbn [bind] in E.
      unfold good in *. cbn [filter].
      destruct (0 <? nsph v_min v_max lo) eqn:Ep.
      + apply bind_ok in E. destruct E as ([vals bases] & EE & E).
        replace (1 + offs lo + dimRadial nu_min nu_max * nsph v_min v_max lo)
          with (1 + offs (lo + 1)) in E by (rewrite offs_next; lia).
        apply IH in E; [|lia].
        destruct E as (evs' & ebs' & -> & -> & -> & L1 & L2 & F).
        exists (vals :: evs'), (bases :: ebs'). rewrite <- !app_assoc. cbn [app length].
        repeat split; try congruence. cbn [combine]. constructor; [|exact F].
        unfold blk. rewrite w_prod by lia. rewrite <- EE. do 2 f_equal; lia.
      + assert (Z0 : nsph v_min v_max lo = 0)
          by (unfold nsph in *; pose proof (zlen_nonneg (rowL v_min v_max lo)); lia).
        replace (1 + offs lo) with (1 + offs (lo + 1)) in E by (rewrite offs_next; lia).
        apply IH in E; [exact E|lia].
  Qed.
End Dig.

Definition with_states (v_min v_max L : Z) : Prop :=
  exists v, v_min <= v <= v_max /\ 0 < mult v L.

Lemma good_In v_min v_max lo hi L :
  In L (good v_min v_max (py_range lo (hi + 1))) <->
  lo <= L <= hi /\ with_states v_min v_max L.
Proof.
  unfold good. rewrite filter_In, py_range_In, Z.ltb_lt, nsph_pos. unfold with_states.
  split; intros [H1 H2]; split; auto; lia.
Qed.

Lemma filter_sorted {A} (R : A -> A -> Prop) f l :
  StronglySorted R l -> StronglySorted R (filter f l).
Proof.
  induction 1 as [|x l Hs IH Hall]; [constructor|]. cbn. destruct (f x); [|assumption].
  constructor; [assumption|]. apply Forall_forall. intros y Hy. apply filter_In in Hy.
  rewrite Forall_forall in Hall. apply Hall. tauto.
Qed.

Lemma good_sorted v_min v_max lo hi : StronglySorted Z.lt (good v_min v_max (py_range lo hi)).
Proof. apply filter_sorted, py_range_sorted. Qed.

(** * validate_Lvals *)

Lemma check_increasing_ok l : check_increasing l = Ok tt <-> StronglySorted Z.lt l.
Proof.
  induction l as [|x [|y l] IH].
  - cbn. split; [constructor|reflexivity].
  - cbn. split; [repeat constructor|reflexivity].
  - change (check_increasing (x :: y :: l)) with
      (check raise_if (y <=? x) ValueError ;; check_increasing (y :: l)).
    unfold raise_if. destruct (y <=? x) eqn:E; cbn [bind].
    + split; [discriminate|]. intros H. inversion H as [|? ? _ Hall]; subst.
      inversion Hall; subst. lia.
    + rewrite IH. split.
      * intros H. constructor; [exact H|]. constructor; [lia|].
        inversion H as [|? ? _ Hall]; subst. eapply Forall_impl; [|exact Hall]. cbn. lia.
      * intros H. inversion H; assumption.
Qed.

Lemma check_increasing_cases l : check_increasing l = Ok tt \/ check_increasing l = Raise ValueError.
Proof.
  induction l as [|x [|y l] IH]; [left; reflexivity..|].
  change (check_increasing (x :: y :: l)) with
      (check raise_if (y <=? x) ValueError ;; check_increasing (y :: l)).
  unfold raise_if. destruct (y <=? x); cbn [bind]; auto.
Qed.

Lemma mapM_nonneg l :
  (exists us, mapM require_nonnegint l = Ok us) <-> (forall L, In L l -> 0 <= L).
Proof.
  induction l as [|x l IH].
  - cbn. split; [intros _ ? []|eauto].
  - cbn [mapM]. destruct (Z_lt_le_dec x 0) as [Hx|Hx].
    + rewrite require_nonnegint_raise by lia. cbn. split.
      * intros (? & H). discriminate.
      * intros H. specialize (H x (or_introl eq_refl)). lia.
    + rewrite require_nonnegint_ok by lia. cbn [bind]. split.
      * intros (us & H). apply bind_ok in H. destruct H as (vs & H & _).
        intros L [<-|HL]; [lia|]. apply IH; eauto.
      * intros H. destruct IH as [_ IH]. destruct IH as (us & E).
        { intros. apply H. now right. }
        rewrite E. cbn. eauto.
Qed.

Lemma mapM_nonneg_cases l :
  (exists us, mapM require_nonnegint l = Ok us) \/ mapM require_nonnegint l = Raise ValueError.
Proof.
  induction l as [|x l IH]; [left; cbn; eauto|]. cbn [mapM].
  unfold require_nonnegint at 1 3, raise_if. destruct (x <? 0); cbn [bind]; [auto|].
  destruct IH as [(us & ->)| ->]; cbn; eauto.
Qed.

Lemma validate_Lvals_spec Lv :
  (validate_Lvals Lv = Ok tt <->
     Lv <> [] /\ (forall L, In L Lv -> 0 <= L) /\ StronglySorted Z.lt Lv) /\
  (validate_Lvals Lv = Ok tt \/ validate_Lvals Lv = Raise ValueError).
Proof.
  unfold validate_Lvals. destruct Lv as [|x l].
  - cbn. split; [|auto]. split; [discriminate|]. intros (H & _). congruence.
  - cbn [raise_if bind].
    assert (N : x :: l <> []) by discriminate. revert N.
    generalize (x :: l) as Lv. intros Lv N.
    destruct (mapM_nonneg_cases Lv) as [(us & E)|E]; rewrite E; cbn [bind].
    + split; [|apply check_increasing_cases]. rewrite check_increasing_ok.
      split; [|tauto]. intros H. split; [assumption|]. split; [|assumption]. apply mapM_nonneg. eauto.
    + split; [|auto]. split; [discriminate|]. intros (_ & H & _).
      apply mapM_nonneg in H. destruct H as (? & H). congruence.
Qed.

(** * Blocks *)

  Lemma dict_get_none {V} k (d : list (Z * V)) : ~ In k (map fst d) -> dict_get k d = None.
  Proof.
    induction d as [|[k' v] d IH]; intros H; [reflexivity|]. cbn in *.
    rewrite IH by tauto. destruct (k =? k') eqn:E; [lia|reflexivity].
  Qed.

  Lemma slice_bound_in n i : 0 <= i <= n -> slice_bound n i = i.
  Proof. intros H. unfold slice_bound. destruct (i <? 0) eqn:E; lia. Qed.

Section Blocks.
  Variables nu_min nu_max v_min v_max : Z.
  Hypothesis Hn : 0 <= nu_min <= nu_max.
  Hypothesis Hv : 0 <= v_min <= v_max.

  Notation wL := (w nu_min nu_max v_min v_max).

  Lemma dimL_ok Lvals L : In L Lvals -> 0 <= L ->
    dimL nu_min nu_max v_min v_max Lvals L = Ok (wL L).
  Proof.
    intros Hin HL. unfold dimL.
    assert (E : existsb (Z.eqb L) Lvals = true).
    { apply existsb_exists. exists L. split; [assumption|apply Z.eqb_refl]. }
    rewrite E. rewrite dimXspace_ok by (cbn; lia). reflexivity.
  Qed.

  Lemma dims_ok Lvals : (forall L, In L Lvals -> 0 <= L) ->
    mapM (dimL nu_min nu_max v_min v_max Lvals) Lvals = Ok (map wL Lvals).
  Proof. intros H. apply mapM_ok. intros. apply dimL_ok; auto. Qed.

  (** Blocks with explicit running start. *)
  Fixpoint blocks_from (s : Z) (l : list Z) : list (Z * (Z * Z)) :=
    match l with
    | [] => []
    | L :: l' => (L, (s, s + wL L)) :: blocks_from (s + wL L) l'
    end.

  Lemma removelast_cons2 {A} (a b : A) l : removelast (a :: b :: l) = a :: removelast (b :: l).
  Proof. reflexivity. Qed.

  Lemma zip3_blocks l : forall s,
    zip3 l (s :: removelast (cumsum_from s (map wL l))) (cumsum_from s (map wL l))
    = blocks_from s l.
  Proof.
    induction l as [|L l IH]; intros s; [reflexivity|].
    cbn [map cumsum_from]. cbn [zip3 blocks_from]. f_equal.
    destruct l as [|L' l].
    - reflexivity.
    - rewrite <- IH. cbn [map cumsum_from]. rewrite removelast_cons2. reflexivity.
  Qed.

  Lemma mk_blocks_ok Lvals : (forall L, In L Lvals -> 0 <= L) ->
    fs_mk_blocks nu_min nu_max v_min v_max Lvals = Ok (blocks_from 0 Lvals).
  Proof.
    intros H. unfold fs_mk_blocks. rewrite dims_ok by assumption. cbn [bind].
    now rewrite zip3_blocks.
  Qed.

  Lemma blocks_keys l : forall s, map fst (blocks_from s l) = l.
  Proof. induction l as [|L l IH]; intros s; cbn; [reflexivity|]. now rewrite IH. Qed.


  Lemma blocks_get l : NoDup l -> forall s l1 L l2, l = l1 ++ L :: l2 ->
    dict_get L (blocks_from s l)
    = Some (s + zsum (map wL l1), s + zsum (map wL l1) + wL L).
  Proof.
    induction l as [|x l IH]; intros Hd s l1 L l2 E; [destruct l1; discriminate|].
    inversion Hd; subst. destruct l1 as [|y l1].
    - cbn in E. injection E as -> ->. cbn [blocks_from dict_get].
      rewrite dict_get_none by (now rewrite blocks_keys). rewrite Z.eqb_refl. cbn. do 2 f_equal; lia.
    - cbn in E. injection E as -> ->. cbn [blocks_from dict_get].
      rewrite (IH H2 _ l1 L l2 eq_refl). cbn [map]. rewrite zsum_cons. do 2 f_equal; lia.
  Qed.

  (** Dropping empty subspaces does not change the label list. *)
  Lemma flat_map_sublist {B} (f : Z -> list B) l : StronglySorted Z.lt l ->
    forall l', StronglySorted Z.lt l' -> (forall x, In x l' -> In x l) ->
    (forall x, In x l -> ~ In x l' -> f x = []) ->
    flat_map f l = flat_map f l'.
  Proof.
    induction 1 as [|x l Hs IH Hall]; intros l' Hs' Hsub Hemp.
    - destruct l' as [|y l']; [reflexivity|]. destruct (Hsub y (or_introl eq_refl)).
    - rewrite Forall_forall in Hall.
      destruct l' as [|y l'].
      + apply flat_map_nil. intros z Hz. apply Hemp; [assumption|intros []].
      + inversion Hs' as [|? ? Hs'' Hall']; subst. rewrite Forall_forall in Hall'.
        destruct (Z.eq_dec x y) as [->|Hxy].
        * cbn. f_equal. apply IH; [assumption| |].
          -- intros z Hz. specialize (Hall' z Hz). destruct (Hsub z (or_intror Hz)); [lia|assumption].
          -- intros z Hz Hnz. apply Hemp; [now right|]. intros [->|Hc]; [|auto].
             specialize (Hall z Hz). lia.
        * assert (Hx : ~ In x (y :: l')).
          { intros [->|Hc]; [congruence|]. specialize (Hall' x Hc).
            destruct (Hsub y (or_introl eq_refl)) as [->|Hy]; [lia|]. specialize (Hall y Hy). lia. }
          change (flat_map f (x :: l)) with (f x ++ flat_map f l). rewrite (Hemp x (or_introl eq_refl) Hx). cbn [app].
          apply IH; [assumption| |].
          -- intros z Hz. destruct (Hsub z Hz) as [->|]; [contradiction|assumption].
          -- intros z Hz Hnz. apply Hemp; [now right|assumption].
  Qed.
End Blocks.

Lemma sorted_head_last (l : list Z) x : StronglySorted Z.lt (x :: l) ->
  forall y, In y (x :: l) -> x <= y <= last (x :: l) x.
Proof.
  revert x. induction l as [|z l IH]; intros x Hs y Hy.
  - cbn in *. destruct Hy as [->|[]]. lia.
  - inversion Hs as [|? ? Hs' Hall]; subst. rewrite Forall_forall in Hall.
    assert (Hz : x < z) by (apply Hall; left; reflexivity).
    assert (E : last (x :: z :: l) x = last (z :: l) z).
    { cbn. destruct l; [reflexivity|]. clear. revert z0.
      induction l as [|b l IH]; intros; [reflexivity|]. cbn in *. apply IH. }
    rewrite E. destruct Hy as [->|Hy].
    + specialize (IH z Hs' z (or_introl eq_refl)). lia.
    + specialize (IH z Hs' y Hy). lia.
Qed.

Lemma xlbs_complete nu_min nu_max v_min v_max Lvals L_min L_max :
  StronglySorted Z.lt Lvals ->
  (forall L, In L Lvals -> L_min <= L <= L_max) ->
  (forall L, L_min <= L <= L_max -> with_states v_min v_max L -> In L Lvals) ->
  xlbs nu_min nu_max v_min v_max L_min L_max
  = flat_map (fun L => xlbs nu_min nu_max v_min v_max L L) Lvals.
Proof.
  intros Hs Hin Hc. rewrite xlbs_concat. apply flat_map_sublist.
  - apply py_range_sorted.
  - assumption.
  - intros x Hx. apply py_range_In. specialize (Hin x Hx). lia.
  - intros x Hx Hnx. apply py_range_In in Hx.
    destruct (xlbs nu_min nu_max v_min v_max x x) as [|[nu [[v a] L]] l] eqn:E; [reflexivity|].
    exfalso. apply Hnx, Hc; [lia|].
    assert (H : In (nu, (v, a, L)) (xlbs nu_min nu_max v_min v_max x x)) by (rewrite E; left; reflexivity).
    apply xlbs_In in H. exists v. assert (L = x) by lia. subst L. lia.
Qed.

Lemma firstn_skipn_mid {A} (a b c : list A) :
  firstn (length b) (skipn (length a) (a ++ b ++ c)) = b.
Proof.
  rewrite skipn_app, Nat.sub_diag, skipn_all. cbn [app skipn].
  rewrite firstn_app, Nat.sub_diag, firstn_all. cbn [firstn]. apply app_nil_r.
Qed.

(** * AmpXspeig *)

Section Amp.
  Variable fs : LBlockFullSpace.
  Variable Lv : list Z.
  Variables st wd : Z -> Z.
  Variable N : Z.
  Hypothesis Hget : forall L, In L Lv -> get_block_for_L fs L = Ok (st L, st L + wd L).
  Hypothesis Hst : forall L, In L Lv -> 0 <= st L /\ 0 <= wd L /\ st L + wd L <= N.
  Hypothesis Hdis : forall L L', In L Lv -> In L' Lv -> L <> L' ->
    st L + wd L <= st L' \/ st L' + wd L' <= st L.
  Variable tran : mat R.
  Hypothesis Htr : nrows tran = N.
  Hypothesis Htc : ncols tran = N.

  (** Entry (i,j) of [Pinv @ block @ P]. *)
  Definition tgt (Pinv P : mat R) (Lr Lc i j : Z) : R :=
    rsum (fun k => (rsum (fun m => (ent Pinv i m * ent tran (st Lr + m) (st Lc + k))%R)
                     (Z.to_nat (wd Lr)) * ent P k j)%R) (Z.to_nat (wd Lc)).


  Lemma get_block_ok Lr Lc : In Lr Lv -> In Lc Lv ->
    get_block tran fs Lr Lc
    = Ok (mkMat (wd Lr) (wd Lc) (fun i j => ent tran (st Lr + i) (st Lc + j))).
  Proof.
    intros Hr Hc. unfold get_block. rewrite !Hget by assumption. cbn [bind].
    unfold slice. pose proof (Hst Lr Hr). pose proof (Hst Lc Hc).
    rewrite !slice_bound_in by lia. do 2 f_equal; lia.
  Qed.

  Lemma set_block_ok {A} (r : mat A) Lr Lc b : In Lr Lv -> In Lc Lv ->
    nrows r = N -> ncols r = N -> nrows b = wd Lr -> ncols b = wd Lc ->
    set_block r fs Lr Lc b
    = Ok (mkMat N N (fun i j =>
        if (st Lr <=? i) && (i <? st Lr + wd Lr) && (st Lc <=? j) && (j <? st Lc + wd Lc)
        then ent b (i - st Lr) (j - st Lc) else ent r i j)).
  Proof.
    intros Hr Hc Er Ec Eb1 Eb2. unfold set_block. rewrite !Hget by assumption. cbn [bind].
    unfold slice_set. pose proof (Hst Lr Hr). pose proof (Hst Lc Hc).
    rewrite Er, Ec, !slice_bound_in by lia.
    assert (E : (Z.max 0 (st Lr + wd Lr - st Lr) =? nrows b)
                && (Z.max 0 (st Lc + wd Lc - st Lc) =? ncols b) = true) by lia.
    now rewrite E.
  Qed.

  Lemma amp_cols_spec Pinv Lr : In Lr Lv -> nrows Pinv = wd Lr -> ncols Pinv = wd Lr ->
    forall cols (r : mat (option R)),
    NoDup (map snd cols) ->
    (forall P Lc, In (P, Lc) cols -> In Lc Lv /\ nrows P = wd Lc /\ ncols P = wd Lc) ->
    nrows r = N -> ncols r = N ->
    exists r', amp_cols fs tran Pinv Lr cols r = Ok r' /\ nrows r' = N /\ ncols r' = N /\
      (forall P Lc, In (P, Lc) cols -> forall i j, 0 <= i < wd Lr -> 0 <= j < wd Lc ->
         ent r' (st Lr + i) (st Lc + j) = Some (tgt Pinv P Lr Lc i j)) /\
      (forall i j, ~ (st Lr <= i < st Lr + wd Lr) \/
         (forall P Lc, In (P, Lc) cols -> ~ (st Lc <= j < st Lc + wd Lc)) ->
         ent r' i j = ent r i j).
  Proof.
    intros HLr EP1 EP2. induction cols as [|[P Lc] cols IH]; intros r Hd Hc Er Ec.
    - exists r. cbn. repeat split; auto. intros ? ? [].
    - cbn [amp_cols]. destruct (Hc P Lc (or_introl eq_refl)) as (HLc & EPr & EPc).
      rewrite get_block_ok by assumption. cbn [bind].
      unfold matmul at 1. cbn [nrows ncols ent]. rewrite EP2, Z.eqb_refl. cbn [bind].
      unfold matmul at 1. cbn [nrows ncols ent]. rewrite EPr, Z.eqb_refl. cbn [bind].
      rewrite set_block_ok by (try assumption; cbn [mat_some nrows ncols]; assumption).
      cbn [bind].
      cbn [map snd] in Hd. apply NoDup_cons_iff in Hd. destruct Hd as [Hni Hd'].
      match goal with |- context [amp_cols fs tran Pinv Lr cols ?m] =>
        destruct (IH m Hd') as (r' & E & Er' & Ec' & Hin & Hout) end;
        [intros; apply Hc; now right|reflexivity|reflexivity|].
      exists r'. split; [exact E|]. split; [exact Er'|]. split; [exact Ec'|]. split.
      + intros P' Lc' [Heq|Hin'] i j Hi Hj.
        * injection Heq as <- <-. rewrite Hout.
          -- cbn [ent mat_some].
             assert (T : (st Lr <=? st Lr + i) && (st Lr + i <? st Lr + wd Lr)
                         && (st Lc <=? st Lc + j) && (st Lc + j <? st Lc + wd Lc) = true) by lia.
             rewrite T. unfold tgt. do 2 f_equal.
             replace (st Lr + i - st Lr) with i by lia.
             replace (st Lc + j - st Lc) with j by lia. reflexivity.
          -- right. intros P' Lc' Hin' Hc'.
             assert (Lc' <> Lc).
             { intros ->. apply Hni. apply in_map_iff. exists (P', Lc). auto. }
             destruct (Hc P' Lc' (or_intror Hin')) as (HLc' & _).
             destruct (Hdis Lc Lc'); auto; lia.
        * now apply Hin.
      + intros i j Hij. rewrite Hout.
        * cbn [ent].
          assert (T : (st Lr <=? i) && (i <? st Lr + wd Lr)
                      && (st Lc <=? j) && (j <? st Lc + wd Lc) = false).
          { destruct Hij as [Hi|Hj]; [lia|]. specialize (Hj P Lc (or_introl eq_refl)). lia. }
          now rewrite T.
        * destruct Hij as [Hi|Hj]; [now left|]. right. intros. apply (Hj P0). now right.
  Qed.

  Lemma amp_rows_spec cols :
    NoDup (map snd cols) ->
    (forall P Lc, In (P, Lc) cols -> In Lc Lv /\ nrows P = wd Lc /\ ncols P = wd Lc) ->
    forall rows (r : mat (option R)),
    NoDup (map snd rows) ->
    (forall P Lr, In (P, Lr) rows -> In Lr Lv /\ nrows P = wd Lr /\ ncols P = wd Lr) ->
    nrows r = N -> ncols r = N ->
    exists r', amp_rows fs tran cols rows r = Ok r' /\ nrows r' = N /\ ncols r' = N /\
      (forall Pinv Lr P Lc, In (Pinv, Lr) rows -> In (P, Lc) cols ->
         forall i j, 0 <= i < wd Lr -> 0 <= j < wd Lc ->
         ent r' (st Lr + i) (st Lc + j) = Some (tgt Pinv P Lr Lc i j)) /\
      (forall i j, (forall P Lr, In (P, Lr) rows -> ~ (st Lr <= i < st Lr + wd Lr)) \/
                   (forall P Lc, In (P, Lc) cols -> ~ (st Lc <= j < st Lc + wd Lc)) ->
         ent r' i j = ent r i j).
  Proof.
    intros Hdc Hcc. induction rows as [|[Pinv Lr] rows IH]; intros r Hd Hr Er Ec.
    - exists r. cbn. repeat split; auto. intros ? ? ? ? [].
    - cbn [amp_rows]. destruct (Hr Pinv Lr (or_introl eq_refl)) as (HLr & E1 & E2).
      destruct (amp_cols_spec Pinv Lr HLr E1 E2 cols r Hdc Hcc Er Ec)
        as (r1 & EE & Er1 & Ec1 & Hin1 & Hout1).
      rewrite EE. cbn [bind].
      cbn [map snd] in Hd. apply NoDup_cons_iff in Hd. destruct Hd as [Hni Hd'].
      destruct (IH r1 Hd') as (r' & E & Er' & Ec' & Hin & Hout);
        [intros; apply Hr; now right|assumption|assumption|].
      exists r'. split; [exact E|]. split; [exact Er'|]. split; [exact Ec'|]. split.
      + intros Pinv' Lr' P Lc [Heq|Hin'] HPc i j Hi Hj; [|now apply Hin].
        injection Heq as <- <-. rewrite Hout; [now apply Hin1|].
        left. intros P' Lr' Hin' Hc'.
        assert (Lr' <> Lr).
        { intros ->. apply Hni. apply in_map_iff. exists (P', Lr). auto. }
        destruct (Hr P' Lr' (or_intror Hin')) as (HLr' & _).
        destruct (Hdis Lr Lr'); auto; lia.
      + intros i j Hij. rewrite Hout.
        * apply Hout1. destruct Hij as [Hi|Hj]; [left|right; exact Hj].
          apply (Hi Pinv). now left.
        * destruct Hij as [Hi|Hj]; [left|now right]. intros. apply (Hi P). now right.
  Qed.
End Amp.

Lemma mapM_Forall2 {A B} (f : A -> res B) l l' :
  mapM f l = Ok l' -> Forall2 (fun a b => f a = Ok b) l l'.
Proof.
  revert l'. induction l as [|a l IH]; intros l' E; cbn in E.
  - injection E as <-. constructor.
  - apply bind_ok in E. destruct E as (b & Eb & E). apply bind_ok in E.
    destruct E as (bs & Ebs & E). injection E as <-. constructor; auto.
Qed.

(** Prefix sums of the block widths. *)
Definition wsum_before nu_min nu_max v_min v_max (Lv : list Z) (L : Z) : Z :=
  zsum (map (w nu_min nu_max v_min v_max) (filter (fun x => x <? L) Lv)).

Lemma sorted_filter_prefix l1 L l2 : StronglySorted Z.lt (l1 ++ L :: l2) ->
  filter (fun x => x <? L) (l1 ++ L :: l2) = l1.
Proof.
  intros H. rewrite filter_app. cbn [filter]. rewrite Z.ltb_irrefl.
  assert (H1 : forall x, In x l1 -> x < L).
  { induction l1 as [|y l1 IH]; intros x Hx; [destruct Hx|].
    cbn in H. inversion H as [|? ? H' Hall]; subst. destruct Hx as [->|Hx]; [|auto].
    rewrite Forall_forall in Hall. apply Hall. apply in_or_app. right. now left. }
  assert (H2 : forall x, In x l2 -> L < x).
  { clear H1. induction l1 as [|y l1 IH]; cbn in H; inversion H as [|? ? H' Hall]; subst; auto.
    now apply Forall_forall. }
  rewrite filter_true, filter_none, app_nil_r; auto; intros x Hx.
  - specialize (H2 x Hx). lia.
  - specialize (H1 x Hx). lia.
Qed.
