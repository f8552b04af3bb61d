(** Facts for C84: the factors of a power of beta between two bases are the
    mirror image of those between the bases in the other direction. *)

From Coq Require Import Reals Lra.
From Coq Require Import Lia ZifyBool ZifyNat.
From Verif Require Import PyBase PyFacts Compat Matrix FullLabels RadialOps RadialME RadialMEFacts HermitianSpec PropsHarmonics.
Open Scope Z_scope.
Ltac Zify.zify_post_hook ::= Z.div_mod_to_equations.

Lemma transposed_sym A B : transposed A B -> transposed B A.
Proof. intros (P & Q & H). split; [congruence|]. split; [congruence|]. intros x y Hx Hy. symmetry. apply H; lia. Qed.

Lemma transposed_ext A A' B B' : mat_eq A A' -> mat_eq B B' -> transposed A B -> transposed A' B'.
Proof.
  intros (E1 & E2 & E3) (F1 & F2 & F3) (P & Q & H). split; [congruence|]. split; [congruence|].
  intros x y Hx Hy. rewrite <- F3, <- E3 by lia. apply H; lia.
Qed.

Lemma transposed_mm n A B A' B' : square n A -> square n B -> square n A' -> square n B' ->
  transposed A A' -> transposed B B' -> transposed (mm A B) (mm B' A').
Proof.
  intros [A1 A2] [B1 B2] [C1 C2] [D1 D2] (_ & _ & HA) (_ & _ & HB).
  split; [cbn; congruence|]. split; [cbn; congruence|]. cbn [mm nrows ncols ent]. intros x y Hx Hy.
  replace (ncols B') with (ncols A) by congruence. apply rsum_ext. intros k Hk.
  rewrite HA, HB by lia. ring.
Qed.

Lemma mprod_cons n m l P : square n m -> Forall (square n) l -> l <> [] -> mprod l = Ok P -> square n P -> mprod (m :: l) = Ok (mm m P).
Proof.
  intros Hm Hl Hne E HP. destruct l as [|m2 l]; [congruence|].
  change (mprod (m :: m2 :: l)) with (bind (mprod (m2 :: l)) (fun p => matmul m p)). rewrite E. cbn [bind]. now apply (matmul_mm n).
Qed.

Lemma mprod_ok n l : Forall (square n) l -> l <> [] -> exists P, mprod l = Ok P /\ square n P.
Proof.
  induction 1 as [|m l Hm Hl IH]; intros Hne; [congruence|]. destruct l as [|m2 l]; [exists m; split; [reflexivity|exact Hm]|].
  destruct IH as (P & E & HP); [discriminate|]. exists (mm m P). split; [|now apply mm_square].
  now apply (mprod_cons n).
Qed.

Lemma mprod_snoc n l m P : Forall (square n) l -> square n m -> l <> [] -> mprod l = Ok P ->
  exists Q, mprod (l ++ [m]) = Ok Q /\ mat_eq Q (mm P m).
Proof.
  intros Hl Hm. revert P. induction Hl as [|a l Ha Hl IH]; intros P Hne E; [congruence|]. cbn [app].
  destruct l as [|a2 l].
  - cbn in E. injection E as <-. exists (mm a m). split; [|apply mat_eq_refl]. cbn [app mprod bind]. now apply (matmul_mm n).
  - destruct (mprod_ok n (a2 :: l) Hl) as (P1 & E1 & S1); [discriminate|].
    destruct (IH P1 ltac:(discriminate) E1) as (Q1 & EQ1 & V1).
    assert (S2 : square n Q1).
    { destruct V1 as (V1 & V2 & _). destruct (mm_square n P1 m S1 Hm). split; congruence. }
    rewrite (mprod_cons n a (a2 :: l) P1) in E by (try assumption; discriminate). injection E as <-.
    exists (mm a Q1). split.
    + apply (mprod_cons n); try assumption.
      * change (Forall (square n) ((a2 :: l) ++ [m])). apply Forall_app. split; [exact Hl|]. constructor; [exact Hm|constructor].
      * discriminate.
    + eapply mat_eq_trans; [|apply mat_eq_sym; apply (mm_assoc n); assumption].
      eapply mm_ext; try eassumption. apply mat_eq_refl.
Qed.

Lemma mprod_transposed n l l' : Forall2 (fun A B => square n A /\ square n B /\ transposed A B) l l' ->
  forall A B, mprod l = Ok A -> mprod (rev l') = Ok B -> square n A /\ square n B /\ transposed A B.
Proof.
  induction 1 as [|m m' l l' (S1 & S2 & T) F IH]; intros A B EA EB; [discriminate|].
  destruct l as [|m2 l].
  - inversion F; subst. cbn in EA, EB. injection EA as <-. injection EB as <-. auto.
  - destruct l' as [|m2' l']; [inversion F|].
    assert (Q1 : Forall (square n) (m2 :: l)) by (clear - F; induction F; constructor; tauto).
    assert (Q2 : Forall (square n) (rev (m2' :: l'))).
    { apply Forall_rev. clear - F; induction F; constructor; tauto. }
    assert (N2 : rev (m2' :: l') <> []) by (cbn [rev]; intros E; apply app_eq_nil in E; destruct E; discriminate).
    destruct (mprod_ok n _ Q1 ltac:(discriminate)) as (P & EP & SP). destruct (mprod_ok n _ Q2 N2) as (P' & EP' & SP').
    destruct (IH P P' EP EP') as (_ & _ & TP).
    rewrite (mprod_cons n m (m2 :: l) P) in EA by (try assumption; discriminate). injection EA as <-.
    change (rev (m' :: m2' :: l')) with (rev (m2' :: l') ++ [m']) in EB.
    destruct (mprod_snoc n (rev (m2' :: l')) m' P' Q2 S2 N2 EP') as (Q & EQ & VQ). rewrite EQ in EB. injection EB as <-.
    split; [now apply mm_square|]. split.
    + destruct VQ as (V1 & V2 & _). destruct (mm_square n P' m' SP' S2). split; congruence.
    + eapply transposed_ext; [apply mat_eq_refl|apply mat_eq_sym; exact VQ|]. now apply (transposed_mm n).
Qed.

(** *** Elementary matrices *)
Lemma mapM_nth {A B} (f : A -> res B) l r i x d : mapM f l = Ok r -> nth_error l i = Some x -> f x = Ok (nth i r d).
Proof.
  revert r i. induction l as [|a l IH]; intros r i E Hn; [destruct i; discriminate|]. cbn [mapM] in E.
  destruct (f a) as [b|] eqn:Ea; [|discriminate]. cbn [bind] in E. destruct (mapM f l) as [bs|] eqn:El; [|discriminate].
  injection E as <-. destruct i as [|i]; cbn [nth_error nth] in *; [congruence|]. now apply IH.
Qed.

Lemma py_range_nth n x : 0 <= x < n -> nth_error (py_range 0 n) (Z.to_nat x) = Some x.
Proof.
  intros Hx. unfold py_range.
  rewrite (map_nth_error (fun i => 0 + Z.of_nat i) (Z.to_nat x) (seq 0 (Z.to_nat (n - 0))) (d:=Z.to_nat x)); [f_equal; lia|].
  rewrite (nth_error_nth' _ 0%nat) by (rewrite seq_length; lia). rewrite seq_nth by lia. reflexivity.
Qed.

Lemma build_entries f n0 n1 M : build_matrix f n0 n1 = Ok M ->
  square (n1 - n0 + 1) M /\
  forall x y, 0 <= x < n1 - n0 + 1 -> 0 <= y < n1 - n0 + 1 -> f (n0 + x) (n0 + y) = Ok (ent M x y).
Proof.
  unfold build_matrix. intros E. apply bind_ok in E. destruct E as (rows & E & F). injection F as <-.
  split; [split; reflexivity|]. intros x y Hx Hy. cbn [ent].
  apply (mapM_nth _ _ _ (Z.to_nat x) x []) in E; [|apply py_range_nth; lia]. cbv beta in E.
  apply (mapM_nth _ _ _ (Z.to_nat y) y 0%R) in E; [exact E|apply py_range_nth; lia].
Qed.

Section Elements.
  Variable Gam : R -> R.
  Variables Msqrt Minv : mat R -> res (mat R).
  Let Rep := Rep_elem Gam Msqrt Minv.

  (** The matrix of the transpose, and the change of lambda. *)
  Definition dual (e : elem) : elem * Z :=
    match e with
    | M_b_pl => (M_b_ml, 1) | M_b_ml => (M_b_pl, -1)
    | M_bm_pl => (M_bm_ml, 1) | M_bm_ml => (M_bm_pl, -1)
    | M_id_pl r => (M_id_ml r, 2 * r) | M_id_ml r => (M_id_pl r, - (2 * r))
    | _ => (e, 0)
    end.

  Definition has_dual (e : elem) : Prop :=
    match e with
    | M_b_pl | M_bm_pl | M_id_pl _ | M_b2 | M_bm2 | M_D2b | M_eye => True
    | M_b2_sqrt => keeps_symmetric Msqrt
    | M_b2_sqrtInv => keeps_symmetric Minv
    | _ => False
    end.

  Lemma build_transposed f g n0 n1 A B :
    (forall x y u w, f x y = Ok u -> g y x = Ok w -> w = u) ->
    build_matrix f n0 n1 = Ok A -> build_matrix g n0 n1 = Ok B ->
    square (n1 - n0 + 1) A /\ square (n1 - n0 + 1) B /\ transposed A B.
  Proof.
    intros H EA EB. apply build_entries in EA. apply build_entries in EB.
    destruct EA as [[A1 A2] EA]. destruct EB as [[B1 B2] EB].
    split; [now split|]. split; [now split|]. split; [congruence|]. split; [congruence|]. intros x y Hx Hy.
    eapply H; [apply EA; lia|apply EB; lia].
  Qed.

  Lemma sqrt_swap x y u w : x = y -> math_sqrt x = Ok u -> math_sqrt y = Ok w -> w = u.
  Proof. intros -> E F. congruence. Qed.

  Ltac eqb_cases := repeat match goal with |- context [?a =? ?b] => destruct (a =? b) eqn:?; try lia end.

  Lemma b2_swap l x y u w : ME_Radial_b2 l x y = Ok u -> ME_Radial_b2 l y x = Ok w -> w = u.
  Proof.
    unfold ME_Radial_b2. eqb_cases; try congruence.
    - apply sqrt_swap. replace (IZR y) with (IZR x + 1)%R by (rewrite <- plus_IZR; f_equal; lia). ring.
    - intros E F. replace y with x in * by lia. congruence.
    - apply sqrt_swap. replace (IZR x) with (IZR y + 1)%R by (rewrite <- plus_IZR; f_equal; lia). ring.
  Qed.

  Lemma bm2_swap l x y u w : ME_Radial_bm2 Gam l x y = Ok u -> ME_Radial_bm2 Gam l y x = Ok w -> w = u.
  Proof.
    unfold ME_Radial_bm2. rewrite (Z.max_comm y x), (Z.min_comm y x).
    destruct (Req_EM_T l (-1)); [discriminate|].
    destruct (is_integer l && (Rleb l (- IZR y) || Rleb l (- IZR x))); [discriminate|].
    destruct (is_integer l && (Rleb l (- IZR x) || Rleb l (- IZR y))); [discriminate|]. congruence.
  Qed.

  Lemma D2b_swap l x y u w : ME_Radial_D2b Gam l x y = Ok u -> ME_Radial_D2b Gam l y x = Ok w -> w = u.
  Proof.
    unfold ME_Radial_D2b. rewrite (Z.max_comm y x), (Z.min_comm y x). intros E F.
    apply bind_ok in E. destruct E as (s & E1 & E). apply bind_ok in F. destruct F as (s' & F1 & F).
    apply bind_ok in E. destruct E as (p & E2 & E). apply bind_ok in F. destruct F as (p' & F2 & F).
    assert (s' = s).
    { revert E1 F1. eqb_cases; try congruence.
      - apply sqrt_swap. replace (IZR y) with (IZR x + 1)%R by (rewrite <- plus_IZR; f_equal; lia). ring.
      - intros E1 F1. replace y with x in * by lia. congruence.
      - apply sqrt_swap. replace (IZR x) with (IZR y + 1)%R by (rewrite <- plus_IZR; f_equal; lia). ring. }
    congruence.
  Qed.

  Lemma b_swap l x y u w : ME_Radial_b_pl l x y = Ok u -> ME_Radial_b_ml (l + 1) y x = Ok w -> w = u.
  Proof.
    unfold ME_Radial_b_pl, ME_Radial_b_ml. eqb_cases; try congruence.
    apply sqrt_swap. replace y with x by lia. ring.
  Qed.

  Lemma m1pow_swap x y : m1pow (y - x) = m1pow (x - y).
  Proof.
    unfold m1pow. replace (y - x) with (- (x - y)) by lia. generalize (x - y) as k. intros k.
    assert (P : (powerRZ (-1) k * powerRZ (-1) (- k) = 1)%R).
    { rewrite <- powerRZ_add by lra. now replace (k + - k) with 0 by lia. }
    assert (Q : (powerRZ (-1) k * powerRZ (-1) k = 1)%R).
    { rewrite <- powerRZ_mult. replace (-1 * -1)%R with 1%R by ring. apply powerRZ_R1. }
    rewrite <- (Rmult_1_l (powerRZ (-1) (- k))), <- Q, Rmult_assoc, P. ring.
  Qed.

  Lemma bm_swap l x y u w : ME_Radial_bm_pl Gam l x y = Ok u -> ME_Radial_bm_ml Gam (l + 1) y x = Ok w -> w = u.
  Proof.
    unfold ME_Radial_bm_pl, ME_Radial_bm_ml.
    destruct (is_integer l && Rleb l (- IZR y)); [discriminate|].
    destruct (is_integer (l + 1) && Rleb (l + 1) (- IZR x)); [discriminate|].
    destruct (x <? y); [congruence|]. cbv zeta.
    replace (l + 1 - 2)%R with (l - 1)%R by ring. replace (l + 1 - 1)%R with l by ring. rewrite (m1pow_swap x y). congruence.
  Qed.

  Lemma id_swap l r x y u w : ME_Radial_id_pl Gam l x y r = Ok u -> ME_Radial_id_ml Gam (l + IZR (2 * r)) y x r = Ok w -> w = u.
  Proof.
    rewrite mult_IZR. unfold ME_Radial_id_pl, ME_Radial_id_ml.
    replace (l + 2 * IZR r - 2 * IZR r)%R with l by ring.
    replace (l + 2 * IZR r - 1 - 2 * IZR r)%R with (l - 1)%R by ring.
    destruct (is_integer l && Rleb l (- IZR y)); [discriminate|].
    destruct (is_integer (l + 2 * IZR r) && Rleb (l + 2 * IZR r) (- IZR y + 2 * IZR r)); [discriminate|].
    destruct (y <=? x + r); [|congruence]. cbv zeta. congruence.
  Qed.

  Lemma elem_transposed e l n0 n1 A B : has_dual e ->
    Rep e l n0 n1 = Ok A -> Rep (fst (dual e)) (l + IZR (snd (dual e))) n0 n1 = Ok B ->
    square (n1 - n0 + 1) A /\ square (n1 - n0 + 1) B /\ transposed A B.
  Proof.
    assert (B2 : forall l A B, RepRadial ME_Radial_b2 l n0 n1 = Ok A -> RepRadial ME_Radial_b2 l n0 n1 = Ok B ->
        square (n1 - n0 + 1) A /\ square (n1 - n0 + 1) B /\ transposed A B).
    { intros l0 A0 B0. apply build_transposed. apply b2_swap. }
    unfold Rep. destruct e; cbn [has_dual dual fst snd Rep_elem]; try contradiction; intros HD; try rewrite Rplus_0_r.
    - apply B2.
    - apply build_transposed. apply bm2_swap.
    - apply build_transposed. apply D2b_swap.
    - apply build_transposed. apply b_swap.
    - apply build_transposed. apply bm_swap.
    - apply build_transposed. intros x y u w. apply id_swap.
    - intros EA EB. apply bind_ok in EA. destruct EA as (_ & _ & EA). apply bind_ok in EB. destruct EB as (_ & _ & EB).
      apply bind_ok in EA. destruct EA as (M & EM & EA). rewrite EM in EB. cbn [bind] in EB. rewrite EA in EB. injection EB as <-.
      destruct (B2 _ _ _ EM EM) as ([M1 M2] & _ & TM). destruct (HD M A TM EA) as (TA & NA).
      assert (SA : square (n1 - n0 + 1) A) by (destruct TA as (P & Q & _); split; congruence). auto.
    - intros EA EB.
      apply bind_ok in EA. destruct EA as (M & EM & EA). rewrite EM in EB. cbn [bind] in EB. rewrite EA in EB. injection EB as <-.
      destruct (B2 _ _ _ EM EM) as ([M1 M2] & _ & TM). destruct (HD M A TM EA) as (TA & NA).
      assert (SA : square (n1 - n0 + 1) A) by (destruct TA as (P & Q & _); split; congruence). auto.
    - intros EA EB. injection EA as <-. injection EB as <-. split; [split; reflexivity|]. split; [split; reflexivity|].
      split; [reflexivity|]. split; [reflexivity|]. intros x y _ _. cbn [eye ent]. now rewrite Z.eqb_sym.
  Qed.

  (** *** Factors *)
  Definition dual_elem (v : Z) (eo : elem * Z) : elem * Z := (fst (dual (fst eo)), snd eo + snd (dual (fst eo)) - v).
  Definition dual_factor (v : Z) (f : factor) : factor := mkF (rev (map (dual_elem v) (f_elems f))) (f_pow f).
  Definition dual_factors (v : Z) (fs : list factor) : list factor := rev (map (dual_factor v) fs).

  Variable anorm : R.

  Lemma mapM_rev {A B} (f : A -> res B) l r : mapM f (rev l) = Ok r -> mapM f l = Ok (rev r).
  Proof.
    intros E. apply mapM_Forall2 in E.
    assert (G : Forall2 (fun a b => f a = Ok b) l (rev r)).
    { rewrite <- (rev_involutive l). clear - E. induction E as [|a b l1 r1 H _ IH]; cbn [rev]; [constructor|]. apply Forall2_app; auto. }
    clear E. remember (rev r) as r1 eqn:E1; clear E1; induction G as [|a b l0 r2 H _ IH]; [reflexivity|]. cbn [mapM]. now rewrite H, IH.
  Qed.

  Lemma factor_transposed v l n0 n1 f A B : Forall (fun eo => has_dual (fst eo)) (f_elems f) ->
    factor_mat Rep anorm l n0 n1 f = Ok A -> factor_mat Rep anorm (l + IZR v) n0 n1 (dual_factor v f) = Ok B ->
    square (n1 - n0 + 1) A /\ square (n1 - n0 + 1) B /\ transposed A B.
  Proof.
    intros HD EA EB. unfold factor_mat in EA, EB. cbn [dual_factor f_elems f_pow] in EB.
    apply bind_ok in EA. destruct EA as (ms & E1 & EA). apply bind_ok in EA. destruct EA as (M & E2 & EA). injection EA as <-.
    apply bind_ok in EB. destruct EB as (ns & F1 & EB). apply bind_ok in EB. destruct EB as (N & F2 & EB). injection EB as <-.
    apply mapM_rev in F1. rewrite <- (rev_involutive ns) in F2. set (ns' := rev ns) in *. clearbody ns'.
    apply mapM_Forall2 in E1. apply mapM_Forall2 in F1.
    assert (G : Forall2 (fun A B => square (n1 - n0 + 1) A /\ square (n1 - n0 + 1) B /\ transposed A B) ms ns').
    { clear E2 F2. revert ns' F1. induction E1 as [|eo m es ms H _ IH]; intros ns' F1; inversion F1 as [|? n ? ns'' H' F1' Q1 Q2]; subst; [constructor|].
      inversion HD as [|? ? D1 D2]; subst. constructor; [|now apply IH].
      eapply (elem_transposed (fst eo)); [exact D1|exact H|]. cbn [dual_elem fst snd] in H'.
      rewrite <- H'. f_equal. rewrite minus_IZR, plus_IZR. ring. }
    destruct (mprod_transposed _ _ _ G M N E2 F2) as (S1 & S2 & T).
    split; [exact S1|]. split; [exact S2|]. destruct T as (T1 & T2 & T). split; [exact T1|]. split; [exact T2|].
    intros x y Hx Hy. cbn [mscale ent nrows ncols] in *. now rewrite T.
  Qed.

  Lemma factors_transposed v l n0 n1 fs A B : Forall (fun f => Forall (fun eo => has_dual (fst eo)) (f_elems f)) fs ->
    factors_mat Rep anorm l n0 n1 fs = Ok A -> factors_mat Rep anorm (l + IZR v) n0 n1 (dual_factors v fs) = Ok B ->
    square (n1 - n0 + 1) A /\ square (n1 - n0 + 1) B /\ transposed A B.
  Proof.
    intros HD EA EB. unfold factors_mat in EA, EB. unfold dual_factors in EB.
    apply bind_ok in EA. destruct EA as (ms & E1 & E2). apply bind_ok in EB. destruct EB as (ns & F1 & F2).
    apply mapM_rev in F1. rewrite <- (rev_involutive ns) in F2. set (ns' := rev ns) in *. clearbody ns'.
    apply mapM_Forall2 in E1. apply mapM_Forall2 in F1. eapply mprod_transposed; [|exact E2|exact F2].
    clear E2 F2. revert ns' F1. induction E1 as [|f m es ms H _ IH]; intros ns' F1; inversion F1 as [|? n ? ns'' H' F1' Q1 Q2]; subst; [constructor|].
    inversion HD as [|? ? D1 D2]; subst. constructor; [|now apply IH]. eapply factor_transposed; eauto.
  Qed.
End Elements.
