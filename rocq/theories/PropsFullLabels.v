(** Property theorems C06 and C07: labels and layout of the full space. *)

From Coq Require Import Lia Sorted ZifyBool ZifyNat.
From Verif Require Import PyBase PyFacts Compat SphericalSpec Spherical SphericalFacts
  FullLabels FullLabelsFacts.

Ltac Zify.zify_post_hook ::= Z.div_mod_to_equations.

(** * C06 *)

(** Members, no duplicates, order (nu fastest, then alpha, v, L) and length. *)
Theorem C06_full_labels : forall nu_min nu_max v_min v_max L_min L_max : Z,
  0 <= nu_min <= nu_max -> 0 <= v_min <= v_max -> 0 <= L_min <= L_max ->
  exists l, lbsXspace nu_min nu_max v_min v_max L_min (Some L_max) = Ok l /\
    NoDup l /\
    StronglySorted (fun x y => label_lt (snd x) (snd y) \/ (snd x = snd y /\ fst x < fst y)) l /\
    (forall nu v a L, In (nu, (v, a, L)) l <->
       nu_min <= nu <= nu_max /\ v_min <= v <= v_max /\ L_min <= L <= L_max /\
       1 <= a <= mult v L) /\
    dimXspace nu_min nu_max v_min v_max L_min (Some L_max) = Ok (zlen l).
Proof.
  intros nu_min nu_max v_min v_max L_min L_max Hn Hv HL.
  exists (xlbs nu_min nu_max v_min v_max L_min L_max).
  split; [now apply (lbsXspace_ok _ _ _ _ _ (Some L_max))|].
  split; [apply xlbs_NoDup|]. split; [apply xlbs_sorted|].
  split; [intros; apply xlbs_In|].
  now apply (dimXspace_ok _ _ _ _ _ (Some L_max)).
Qed.

(** Block layout: index k holds radial label [nu_min + k mod d] of the
    [k div d]-th spherical label, with d the radial dimension. *)
Theorem C06_layout : forall nu_min nu_max v_min v_max L_min L_max : Z,
  0 <= nu_min <= nu_max -> 0 <= v_min <= v_max -> 0 <= L_min <= L_max ->
  exists l sph, lbsXspace nu_min nu_max v_min v_max L_min (Some L_max) = Ok l /\
    lbsSO5r3_rngVvarL v_min v_max L_min (Some L_max) = Ok sph /\
    zlen l = dimRadial nu_min nu_max * zlen sph /\
    forall i2 k : nat, forall s, nth_error sph i2 = Some s ->
      (Z.of_nat k < dimRadial nu_min nu_max) ->
      nth_error l (i2 * Z.to_nat (dimRadial nu_min nu_max) + k)%nat
      = Some (nu_min + Z.of_nat k, s).
Proof.
  intros nu_min nu_max v_min v_max L_min L_max Hn Hv HL.
  exists (xlbs nu_min nu_max v_min v_max L_min L_max), (lbs v_min v_max L_min L_max).
  split; [now apply (lbsXspace_ok _ _ _ _ _ (Some L_max))|].
  split; [now apply lbs_rngVvarL_some|].
  assert (D : dimRadial nu_min nu_max = nu_max - nu_min + 1)
    by (unfold dimRadial; destruct (nu_min <=? nu_max) eqn:E; lia).
  split.
  - pose proof (dimXspace_ok nu_min nu_max v_min v_max L_min (Some L_max) Hn Hv HL) as E.
    cbn [opt_L] in E. unfold dimXspace in E.
    rewrite !require_range_ok in E by lia. cbn [bind dimSO5r3_rngVvarL] in E.
    rewrite dimSO5r3_rngVrngL_sum in E by lia. cbn [bind] in E.
    rewrite lbs_len. congruence.
  - intros i2 k s Hs Hk. rewrite D in *.
    rewrite xlbs_nth by lia. cbn zeta.
    set (d := Z.to_nat (nu_max - nu_min + 1)).
    assert (Hd : (k < d)%nat) by lia.
    rewrite Nat.add_comm, Nat.div_add, Nat.mod_add by lia.
    rewrite Nat.div_small, Nat.mod_small by lia. cbn [Nat.add].
    now rewrite Hs.
Qed.

Theorem C06_omitted_L_max : forall nu_min nu_max v_min v_max L_min : Z,
  lbsXspace nu_min nu_max v_min v_max L_min None
  = lbsXspace nu_min nu_max v_min v_max L_min (Some L_min) /\
  dimXspace nu_min nu_max v_min v_max L_min None
  = dimXspace nu_min nu_max v_min v_max L_min (Some L_min).
Proof. intros. split; reflexivity. Qed.

Theorem C06_invalid_ranges_raise : forall nu_min nu_max v_min v_max L_min L_max : Z,
  ~ (0 <= nu_min <= nu_max /\ 0 <= v_min <= v_max /\ 0 <= L_min <= L_max) ->
  lbsXspace nu_min nu_max v_min v_max L_min (Some L_max) = Raise ValueError /\
  dimXspace nu_min nu_max v_min v_max L_min (Some L_max) = Raise ValueError.
Proof.
  intros nu_min nu_max v_min v_max L_min L_max H.
  unfold lbsXspace, dimXspace, dimSO5r3_rngVvarL, dimSO5r3_rngVrngL.
  destruct (range_cases nu_min nu_max) as [[Hn En]|[Hn En]];
  destruct (range_cases v_min v_max) as [[Hv Ev]|[Hv Ev]];
  destruct (range_cases L_min L_max) as [[HL El]|[HL El]];
  rewrite ?En, ?Ev, ?El; cbn [bind]; auto; lia.
Qed.

Theorem C06_radial_labels : forall nu_min nu_max : Z,
  dimRadial nu_min nu_max = zlen (lbsRadial nu_min nu_max) /\
  (forall nu, In nu (lbsRadial nu_min nu_max) <-> nu_min <= nu <= nu_max) /\
  StronglySorted Z.lt (lbsRadial nu_min nu_max) /\
  (forall s, TruncatedRadialSpace_init nu_min nu_max = Ok s ->
     0 <= nu_min <= nu_max /\ trs_dim s = zlen (trs_labels s) /\ 0 < trs_dim s).
Proof.
  intros a b. split; [apply dimRadial_len|]. split.
  { intros nu. unfold lbsRadial. rewrite py_range_In. lia. }
  split; [apply py_range_sorted|].
  intros s H. unfold TruncatedRadialSpace_init in H.
  destruct (Z_le_dec 0 a); [destruct (Z_le_dec a b)|];
    [|rewrite require_range_raise in H by lia; discriminate..].
  rewrite require_range_ok in H by lia. cbn [bind] in H. injection H as <-.
  split; [lia|]. unfold trs_dim, trs_labels. cbn. split; [apply dimRadial_len|].
  unfold dimRadial. destruct (a <=? b) eqn:E; lia.
Qed.

Example C06_ex : exists l,
  lbsXspace 0 1 0 3 2 (Some 3) = Ok l /\
  nth_error l 3 = Some (1, (2, 1, 2)) /\ zlen l = 6 /\
  dimXspace 0 1 0 3 2 (Some 3) = Ok 6.
Proof. eexists. split; [reflexivity|]. repeat split. Qed.

(** * C07 *)

Theorem C07_concat : forall nu_min nu_max v_min v_max L_min L_max : Z,
  0 <= nu_min <= nu_max -> 0 <= v_min <= v_max -> 0 <= L_min <= L_max ->
  concatM (fun L => lbsXspace nu_min nu_max v_min v_max L None) (py_range L_min (L_max + 1))
  = lbsXspace nu_min nu_max v_min v_max L_min (Some L_max) /\
  (let* ds := mapM (fun L => dimXspace nu_min nu_max v_min v_max L None)
                (py_range L_min (L_max + 1)) in Ok (zsum ds))
  = dimXspace nu_min nu_max v_min v_max L_min (Some L_max).
Proof.
  intros nu_min nu_max v_min v_max L_min L_max Hn Hv HL. split.
  - rewrite (lbsXspace_ok _ _ _ _ _ (Some L_max)) by (cbn; lia). cbn [opt_L].
    rewrite xlbs_concat. apply concatM_ok. intros L Hin. apply py_range_In in Hin.
    apply (lbsXspace_ok _ _ _ _ _ None); cbn; lia.
  - rewrite (dimXspace_ok _ _ _ _ _ (Some L_max)) by (cbn; lia). cbn [opt_L].
    rewrite xlbs_concat, zlen_flat_map.
    rewrite (mapM_ok _ (fun L => zlen (xlbs nu_min nu_max v_min v_max L L))); [reflexivity|].
    intros L Hin. apply py_range_In in Hin.
    apply (dimXspace_ok _ _ _ _ _ None); cbn; lia.
Qed.

Theorem C07_split : forall nu_min nu_max v_min v_max L_min mid L_max : Z,
  0 <= nu_min <= nu_max -> 0 <= v_min <= v_max -> 0 <= L_min <= mid -> mid < L_max ->
  exists l1 l2,
    lbsXspace nu_min nu_max v_min v_max L_min (Some mid) = Ok l1 /\
    lbsXspace nu_min nu_max v_min v_max (mid + 1) (Some L_max) = Ok l2 /\
    lbsXspace nu_min nu_max v_min v_max L_min (Some L_max) = Ok (l1 ++ l2) /\
    dimXspace nu_min nu_max v_min v_max L_min (Some L_max) = Ok (zlen l1 + zlen l2).
Proof.
  intros nu_min nu_max v_min v_max L_min mid L_max Hn Hv HL Hm.
  exists (xlbs nu_min nu_max v_min v_max L_min mid), (xlbs nu_min nu_max v_min v_max (mid + 1) L_max).
  rewrite !lbsXspace_ok, dimXspace_ok by (cbn; lia). cbn [opt_L].
  rewrite (xlbs_split _ _ _ _ L_min mid L_max) by lia. rewrite zlen_app. auto.
Qed.

Example C07_ex : exists l, lbsXspace 0 2 0 4 1 (Some 5) = Ok l /\ zlen l = 24.
Proof. eexists. split; [reflexivity|]. reflexivity. Qed.

Print Assumptions C06_full_labels.
Print Assumptions C06_layout.
Print Assumptions C06_omitted_L_max.
Print Assumptions C06_invalid_ranges_raise.
Print Assumptions C06_radial_labels.
Print Assumptions C07_concat.
Print Assumptions C07_split.
