(** Proofs about the full-space labels. *)

From Coq Require Import Lia Sorted ZifyBool ZifyNat.
From Verif Require Import PyBase PyFacts Compat SphericalSpec Spherical SphericalFacts FullLabels.

Ltac Zify.zify_post_hook ::= Z.div_mod_to_equations.

Definition xlbs (nu_min nu_max v_min v_max L_min L_max : Z) : list xlabel :=
  flat_map (fun s => map (fun nu => (nu, s)) (py_range nu_min (nu_max + 1)))
    (lbs v_min v_max L_min L_max).

Definition opt_L (L_min : Z) (L_max : option Z) : Z :=
  match L_max with None => L_min | Some l => l end.

Lemma lbsXspace_ok nu_min nu_max v_min v_max L_min L_max :
  0 <= nu_min <= nu_max -> 0 <= v_min <= v_max -> 0 <= L_min <= opt_L L_min L_max ->
  lbsXspace nu_min nu_max v_min v_max L_min L_max
  = Ok (xlbs nu_min nu_max v_min v_max L_min (opt_L L_min L_max)).
Proof.
  intros Hn Hv HL. unfold lbsXspace.
  change (match L_max with None => L_min | Some l => l end) with (opt_L L_min L_max).
  rewrite !require_range_ok by lia. cbn [bind].
  rewrite lbs_rngVvarL_some by lia. reflexivity.
Qed.

Lemma dimRadial_len nu_min nu_max : dimRadial nu_min nu_max = zlen (lbsRadial nu_min nu_max).
Proof.
  unfold dimRadial, lbsRadial, zlen. rewrite py_range_length.
  destruct (nu_min <=? nu_max) eqn:E; lia.
Qed.

Lemma dimXspace_ok nu_min nu_max v_min v_max L_min L_max :
  0 <= nu_min <= nu_max -> 0 <= v_min <= v_max -> 0 <= L_min <= opt_L L_min L_max ->
  dimXspace nu_min nu_max v_min v_max L_min L_max
  = Ok (zlen (xlbs nu_min nu_max v_min v_max L_min (opt_L L_min L_max))).
Proof.
  intros Hn Hv HL. unfold dimXspace.
  change (match L_max with None => L_min | Some l => l end) with (opt_L L_min L_max).
  rewrite !require_range_ok by lia. cbn [bind dimSO5r3_rngVvarL].
  rewrite dimSO5r3_rngVrngL_sum by lia. cbn [bind]. f_equal.
  rewrite <- lbs_len. unfold xlbs. rewrite zlen_flat_map.
  rewrite (zsum_map_ext _ (fun _ => dimRadial nu_min nu_max * 1)).
  - rewrite zsum_map_scale. f_equal.
    generalize (lbs v_min v_max L_min (opt_L L_min L_max)). intros l.
    induction l as [|x l IH]; [reflexivity|]. rewrite zlen_cons. cbn [map].
    rewrite zsum_cons. lia.
  - intros s _. rewrite zlen_map, dimRadial_len. unfold lbsRadial. lia.
Qed.

Lemma xlbs_In nu v a L nu_min nu_max v_min v_max L_min L_max :
  In (nu, (v, a, L)) (xlbs nu_min nu_max v_min v_max L_min L_max) <->
  nu_min <= nu <= nu_max /\ v_min <= v <= v_max /\ L_min <= L <= L_max /\ 1 <= a <= mult v L.
Proof.
  unfold xlbs. rewrite in_flat_map. split.
  - intros (s & Hs & H). apply in_map_iff in H. destruct H as (n & E & Hn).
    injection E as -> ->. apply py_range_In in Hn. apply lbs_In in Hs. lia.
  - intros (Hn & H). exists (v, a, L). split; [now apply lbs_In|].
    apply in_map_iff. exists nu. split; [reflexivity|]. apply py_range_In. lia.
Qed.

(** Order: spherical label slowest, nu fastest. *)
Definition xlabel_lt (x y : xlabel) : Prop :=
  label_lt (snd x) (snd y) \/ (snd x = snd y /\ fst x < fst y).

Lemma xlbs_sorted nu_min nu_max v_min v_max L_min L_max :
  StronglySorted xlabel_lt (xlbs nu_min nu_max v_min v_max L_min L_max).
Proof.
  eapply StronglySorted_flat_map; [apply lbs_sorted| |].
  - intros s _. eapply StronglySorted_map; [apply py_range_sorted|].
    intros x y H. right. cbn. auto.
  - intros x y [n s] [n' s'] H H1 H2. apply in_map_iff in H1, H2.
    destruct H1 as (? & E1 & _). destruct H2 as (? & E2 & _).
    injection E1 as _ <-. injection E2 as _ <-. left. exact H.
Qed.

Lemma xlbs_NoDup nu_min nu_max v_min v_max L_min L_max :
  NoDup (xlbs nu_min nu_max v_min v_max L_min L_max).
Proof.
  eapply StronglySorted_NoDup; [|apply xlbs_sorted].
  intros [n s] [H|[_ H]]; [exact (label_lt_irrefl s H)|cbn in H; lia].
Qed.

(** Layout: blocks of equal width. *)
Lemma nth_error_flat_map {A B} (f : A -> list B) (d : nat) l : (0 < d)%nat ->
  (forall x, In x l -> length (f x) = d) ->
  forall k, nth_error (flat_map f l) k =
    match nth_error l (k / d) with
    | Some x => nth_error (f x) (k mod d)
    | None => None
    end.
Proof.
  intros Hd. induction l as [|x l IH]; intros Hl k.
  - cbn. destruct k, (_ / d)%nat; reflexivity.
  - cbn [flat_map]. destruct (Nat.lt_ge_cases k d) as [Hk|Hk].
    + rewrite nth_error_app1 by (rewrite Hl by auto with datatypes; lia).
      rewrite Nat.div_small, Nat.mod_small by lia. reflexivity.
    + rewrite nth_error_app2 by (rewrite Hl by auto with datatypes; lia).
      rewrite Hl by auto with datatypes.
      rewrite IH by auto with datatypes.
      assert (Ej : exists j, (k = j + 1 * d)%nat) by (exists (k - d)%nat; lia).
      destruct Ej as (j & ->). rewrite Nat.div_add, Nat.mod_add by lia.
      replace (j + 1 * d - d)%nat with j by lia.
      replace (j / d + 1)%nat with (S (j / d)) by lia. reflexivity.
Qed.

Lemma xlbs_nth nu_min nu_max v_min v_max L_min L_max k :
  0 <= nu_min <= nu_max ->
  let d := Z.to_nat (nu_max - nu_min + 1) in
  nth_error (xlbs nu_min nu_max v_min v_max L_min L_max) k =
  match nth_error (lbs v_min v_max L_min L_max) (k / d) with
  | Some s => Some (nu_min + Z.of_nat (k mod d), s)
  | None => None
  end.
Proof.
  intros Hn d. unfold xlbs. rewrite (nth_error_flat_map _ d).
  - destruct (nth_error (lbs v_min v_max L_min L_max) (k / d)) as [s|]; [|reflexivity].
    assert (Hk : (k mod d < d)%nat) by (apply Nat.mod_upper_bound; lia).
    erewrite map_nth_error; [reflexivity|].
    rewrite py_range_nth; [reflexivity|]. lia.
  - lia.
  - intros s _. rewrite map_length, py_range_length. lia.
Qed.

(** Splitting over L. *)
Lemma lbs_concat v_min v_max L_min L_max :
  lbs v_min v_max L_min L_max
  = flat_map (fun L => lbs v_min v_max L L) (py_range L_min (L_max + 1)).
Proof. apply flat_map_ext_in. intros. symmetry. apply lbs_single_L. Qed.

Lemma flat_map_flat_map {A B C} (f : A -> list B) (g : B -> list C) l :
  flat_map g (flat_map f l) = flat_map (fun x => flat_map g (f x)) l.
Proof.
  induction l as [|x l IH]; [reflexivity|]. cbn. now rewrite flat_map_app, IH.
Qed.

Lemma xlbs_concat nu_min nu_max v_min v_max L_min L_max :
  xlbs nu_min nu_max v_min v_max L_min L_max
  = flat_map (fun L => xlbs nu_min nu_max v_min v_max L L) (py_range L_min (L_max + 1)).
Proof. unfold xlbs. rewrite lbs_concat at 1. apply flat_map_flat_map. Qed.

Lemma xlbs_split nu_min nu_max v_min v_max L_min mid L_max :
  L_min <= mid + 1 <= L_max + 1 ->
  xlbs nu_min nu_max v_min v_max L_min L_max
  = xlbs nu_min nu_max v_min v_max L_min mid ++ xlbs nu_min nu_max v_min v_max (mid + 1) L_max.
Proof.
  intros H. unfold xlbs, lbs. rewrite (py_range_app L_min (mid + 1) (L_max + 1)) by lia.
  now rewrite !flat_map_app.
Qed.
