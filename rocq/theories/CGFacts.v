(** Facts about the Clebsch-Gordan table model. *)

From Coq Require Import Reals Lra Sorted.
From Coq Require Import Lia ZifyBool ZifyNat.
From Verif Require Import PyBase PyFacts Compat PyDict Text SO5Files SphericalSpec Spherical
  SphericalFacts CG CGSpec PropsFiles.
Open Scope Z_scope.
Ltac Zify.zify_post_hook ::= Z.div_mod_to_equations.

(** ** Labels *)

Definition qlabels (v1 L2 v3 : Z) : list quartet :=
  flat_map (fun L1 =>
    flat_map (fun a1 =>
      flat_map (fun L3 => map (fun a3 => (a1, L1, a3, L3)) (py_range 1 (mult v3 L3 + 1)))
        (py_range (Z.abs (L1 - L2)) (Z.min (L1 + L2) (2 * v3) + 1)))
      (py_range 1 (mult v1 L1 + 1)))
    (py_range 0 (2 * v1 + 1)).

Lemma CG_labels_ok v1 L2 v3 : 0 <= v1 -> 0 <= L2 -> 0 <= v3 ->
  CG_labels v1 L2 v3 = Ok (qlabels v1 L2 v3).
Proof.
  intros H1 H2 H3. unfold CG_labels. rewrite !require_nonnegint_ok by lia. cbn [bind].
  unfold qlabels. apply concatM_ok. intros L1 _.
  rewrite dimSO5r3_mult. cbn [bind].
  apply concatM_ok. intros a1 _. apply concatM_ok. intros L3 _.
  rewrite dimSO5r3_mult. reflexivity.
Qed.

Lemma qlabels_In v1 L2 v3 a1 L1 a3 L3 : 0 <= L2 ->
  In (a1, L1, a3, L3) (qlabels v1 L2 v3) <->
  1 <= a1 <= mult v1 L1 /\ 1 <= a3 <= mult v3 L3 /\ Z.abs (L1 - L2) <= L3 <= L1 + L2.
Proof.
  intros H2. unfold qlabels. rewrite in_flat_map. split.
  - intros (L & HL & H). apply in_flat_map in H. destruct H as (a & Ha & H).
    apply in_flat_map in H. destruct H as (M & HM & H). apply in_map_iff in H.
    destruct H as (b & E & Hb). injection E as <- <- <- <-.
    apply py_range_In in HL, Ha, HM, Hb. lia.
  - intros (A & B & C). exists L1. split.
    + apply py_range_In. destruct (Z_lt_dec L1 0); [rewrite (mult_out v1 L1) in A by lia; lia|].
      destruct (Z_lt_dec (2 * v1) L1); [rewrite (mult_out v1 L1) in A by lia; lia|]. lia.
    + apply in_flat_map. exists a1. split; [apply py_range_In; lia|].
      apply in_flat_map. exists L3. split.
      * apply py_range_In. destruct (Z_lt_dec (2 * v3) L3); [rewrite (mult_out v3 L3) in B by lia; lia|].
        lia.
      * apply in_map_iff. exists a3. split; [reflexivity|]. apply py_range_In. lia.
Qed.

Lemma qlabels_sorted v1 L2 v3 : StronglySorted quartet_lt (qlabels v1 L2 v3).
Proof.
  unfold qlabels. apply (StronglySorted_flat_map Z.lt); [apply py_range_sorted| |].
  - intros L1 _. apply (StronglySorted_flat_map Z.lt); [apply py_range_sorted| |].
    + intros a1 _. apply (StronglySorted_flat_map Z.lt); [apply py_range_sorted| |].
      * intros L3 _. apply (StronglySorted_map Z.lt); [apply py_range_sorted|].
        intros x y H. cbn. lia.
      * intros x y p q Hlt Hp Hq. apply in_map_iff in Hp, Hq.
        destruct Hp as (? & <- & _). destruct Hq as (? & <- & _). cbn. lia.
    + intros x y p q Hlt Hp Hq. apply in_flat_map in Hp, Hq.
      destruct Hp as (? & _ & Hp). destruct Hq as (? & _ & Hq). apply in_map_iff in Hp, Hq.
      destruct Hp as (? & <- & _). destruct Hq as (? & <- & _). cbn. lia.
  - intros x y p q Hlt Hp Hq. apply in_flat_map in Hp, Hq.
    destruct Hp as (? & _ & Hp). destruct Hq as (? & _ & Hq). apply in_flat_map in Hp, Hq.
    destruct Hp as (? & _ & Hp). destruct Hq as (? & _ & Hq). apply in_map_iff in Hp, Hq.
    destruct Hp as (? & <- & _). destruct Hq as (? & <- & _). cbn. lia.
Qed.

Lemma qlabels_NoDup v1 L2 v3 : NoDup (qlabels v1 L2 v3).
Proof.
  apply (StronglySorted_NoDup quartet_lt); [|apply qlabels_sorted].
  intros [[[a b] c] d]. cbn. lia.
Qed.

(** ** Tables *)

Definition tkey (v1 v2 a2 L2 v3 : Z) : quintet := (Z.min v1 v3, v2, a2, L2, Z.max v1 v3).

  Lemma admissible_dec n : {admissible n} + {~ admissible n}.
  Proof.
    unfold admissible, triangle.
    destruct (Z_le_dec (n_v1 n) (n_v2 n + n_v3 n)); [|right; tauto].
    destruct (Z_le_dec (n_v2 n) (n_v1 n + n_v3 n)); [|right; tauto].
    destruct (Z_le_dec (n_v3 n) (n_v1 n + n_v2 n)); [|right; tauto].
    destruct (Z_le_dec (n_L1 n) (n_L2 n + n_L3 n)); [|right; tauto].
    destruct (Z_le_dec (n_L2 n) (n_L1 n + n_L3 n)); [|right; tauto].
    destruct (Z_le_dec (n_L3 n) (n_L1 n + n_L2 n)); [|right; tauto].
    destruct (Z_le_dec (n_a1 n) (mult (n_v1 n) (n_L1 n))); [|right; tauto].
    destruct (Z_le_dec (n_a2 n) (mult (n_v2 n) (n_L2 n))); [|right; tauto].
    destruct (Z_le_dec (n_a3 n) (mult (n_v3 n) (n_L3 n))); [|right; tauto].
    destruct (Z.even (n_v1 n + n_v2 n + n_v3 n)) eqn:Ev.
    - left. apply Z.even_spec in Ev. tauto.
    - right. intros (_ & K & _). apply Z.even_spec in K. congruence.
  Defined.

Section World.
  Variable files : text -> res (list R).
  Variable home : text.

  (** The table read in directory [d]. *)
  Definition tbl (d : text) (key : quintet) : res (list (quartet * R)) :=
    let '(v1, v2, a2, L2, v3) := key in
    let* data :=
      if 0 <? v2 then
        let* filename := SO5CG_filename d v1 v2 a2 L2 v3 in
        files filename
      else Ok (repeat 1%R (length (qlabels v1 L2 v3))) in
    Ok (dict_of quartet_eq_dec (combine (qlabels v1 L2 v3) data)).

  Definition add_table (st : cg_state) (key : quintet) (t : list (quartet * R)) : cg_state :=
    {| base_directory := base_directory st;
       CG_coeffs := dict_set quintet_eq_dec (CG_coeffs st) key t |}.

  Definition found (st : cg_state) (key : quintet) : option (list (quartet * R)) :=
    dict_get quintet_eq_dec (CG_coeffs st) key.

  Lemma load_illegal st v1 v2 a2 L2 v3 : ~ legal v1 v2 a2 L2 v3 ->
    load_CG_table files home st v1 v2 a2 L2 v3 = (Raise ValueError, st).
  Proof. intros H. unfold load_CG_table. now rewrite require_quintet_bad. Qed.

  Lemma load_eq st v1 v2 a2 L2 v3 : legal v1 v2 a2 L2 v3 ->
    load_CG_table files home st v1 v2 a2 L2 v3 =
    match found st (tkey v1 v2 a2 L2 v3) with
    | Some _ => (Ok tt, st)
    | None =>
        match tbl (get_base_directory home st) (tkey v1 v2 a2 L2 v3) with
        | Raise e => (Raise e, st)
        | Ok t => (Ok tt, add_table st (tkey v1 v2 a2 L2 v3) t)
        end
    end.
  Proof.
    intros Hl. pose proof Hl as (H1 & H2 & H3 & H4 & H5). unfold load_CG_table.
    rewrite require_quintet_ok by assumption.
    assert (E : (if v3 <? v1 then (v3, v1) else (v1, v3)) = (Z.min v1 v3, Z.max v1 v3)).
    { destruct (Z.ltb_spec v3 v1); f_equal; lia. }
    rewrite E. unfold found, tkey, tbl. cbn [fst snd].
    destruct (dict_get quintet_eq_dec (CG_coeffs st) (Z.min v1 v3, v2, a2, L2, Z.max v1 v3));
      [reflexivity|].
    rewrite CG_labels_ok by lia. cbn [bind]. reflexivity.
  Qed.

  Definition CGn (st : cg_state) (n : nonet) : res R * cg_state :=
    CG_SO5r3 files home st (n_v1 n) (n_a1 n) (n_L1 n) (n_v2 n) (n_a2 n) (n_L2 n)
      (n_v3 n) (n_a3 n) (n_L3 n).

  Definition nkey (n : nonet) : quintet := tkey (n_v1 n) (n_v2 n) (n_a2 n) (n_L2 n) (n_v3 n).

  Definition pick (n : nonet) (t : list (quartet * R)) : res R :=
    if n_v1 n <=? n_v3 n then dict_item quartet_eq_dec t (n_a1 n, n_L1 n, n_a3 n, n_L3 n)
    else
      let* x := dict_item quartet_eq_dec t (n_a3 n, n_L3 n, n_a1 n, n_L1 n) in
      Ok (x * powerRZ (-1) (n_L3 n + n_L2 n - n_L1 n)
          * sqrt (IZR ((n_v3 n + 1) * (n_v3 n + 2) * (2 * n_v3 n + 3) / 6 * (2 * n_L1 n + 1))
                  / IZR ((n_v1 n + 1) * (n_v1 n + 2) * (2 * n_v1 n + 3) / 6)
                  / IZR (2 * n_L3 n + 1)))%R.

  Lemma triple_ok v a L : 0 <= v -> 1 <= a -> 0 <= L -> require_SO5Triple v a L = Ok tt.
  Proof.
    intros. unfold require_SO5Triple, require_posint, require_nonnegint, raise_if.
    replace (v <? 0) with false by lia. replace (a <? 0) with false by lia.
    replace (L <? 0) with false by lia. cbn. replace (a =? 0) with false by lia. reflexivity.
  Qed.

  Lemma triple_bad v a L : ~ (0 <= v /\ 1 <= a /\ 0 <= L) -> require_SO5Triple v a L = Raise ValueError.
  Proof.
    intros N. unfold require_SO5Triple, require_posint, require_nonnegint, raise_if.
    destruct (Z.ltb_spec v 0); [reflexivity|]. cbn. destruct (Z.ltb_spec a 0); [reflexivity|]. cbn.
    destruct (Z.eqb_spec a 0); [reflexivity|]. cbn. destruct (Z.ltb_spec L 0); [reflexivity|].
    exfalso. apply N. lia.
  Qed.

  Lemma CGn_illegal st n : ~ legal_nonet n -> CGn st n = (Raise ValueError, st).
  Proof.
    intros N. unfold CGn, CG_SO5r3.
    destruct (Z_lt_dec (n_v1 n) 0); [|destruct (Z_lt_dec (n_a1 n) 1); [|destruct (Z_lt_dec (n_L1 n) 0)]];
      try (rewrite (triple_bad (n_v1 n)) by lia; reflexivity).
    rewrite (triple_ok (n_v1 n)) by lia. cbn [bind].
    destruct (Z_lt_dec (n_v2 n) 0); [|destruct (Z_lt_dec (n_a2 n) 1); [|destruct (Z_lt_dec (n_L2 n) 0)]];
      try (rewrite (triple_bad (n_v2 n)) by lia; reflexivity).
    rewrite (triple_ok (n_v2 n)) by lia. cbn [bind].
    rewrite (triple_bad (n_v3 n)); [reflexivity|]. intros H. apply N. unfold legal_nonet. lia.
  Qed.

  Lemma CGn_legal st n : legal_nonet n ->
    CGn st n =
    if admissible_dec n then
      match found st (nkey n) with
      | Some t => (pick n t, st)
      | None =>
          match tbl (get_base_directory home st) (nkey n) with
          | Raise e => (Raise e, st)
          | Ok t => (pick n t, add_table st (nkey n) t)
          end
      end
    else (Ok 0%R, st).
  Proof.
    intros HL. pose proof HL as ((A1 & A2 & A3) & (B1 & B2 & B3) & (C1 & C2 & C3)).
    unfold CGn, CG_SO5r3. rewrite !triple_ok by assumption. cbn [bind].
    rewrite !dimSO5r3_mult. cbn [bind].
    set (b := (_ || _)).
    assert (Hb : b = if admissible_dec n then false else true).
    { subst b. destruct (admissible_dec n) as [H|H].
      - destruct H as ((T1 & T2 & T3) & Ev & (T4 & T5 & T6) & M1 & M2 & M3).
        destruct Ev as [q Eq]. unfold is_odd. lia.
      - unfold is_odd.
        destruct ((n_v1 n + n_v2 n <? n_v3 n) || (n_v1 n + n_v3 n <? n_v2 n)
          || (n_v2 n + n_v3 n <? n_v1 n) || (n_L1 n + n_L2 n <? n_L3 n)
          || (n_L1 n + n_L3 n <? n_L2 n) || (n_L2 n + n_L3 n <? n_L1 n)
          || (mult (n_v1 n) (n_L1 n) <? n_a1 n) || (mult (n_v2 n) (n_L2 n) <? n_a2 n)
          || (mult (n_v3 n) (n_L3 n) <? n_a3 n)) eqn:E; [reflexivity|].
        cbn [orb]. destruct ((n_v1 n + n_v2 n + n_v3 n) mod 2 =? 1) eqn:O; [reflexivity|].
        exfalso. apply H. unfold admissible, triangle.
        assert (Z.Even (n_v1 n + n_v2 n + n_v3 n)) by (exists ((n_v1 n + n_v2 n + n_v3 n) / 2); lia).
        repeat split; first [assumption|lia]. }
    rewrite Hb. destruct (admissible_dec n) as [H|H]; [|reflexivity].
    rewrite load_eq by (unfold legal; lia).
    assert (HP : forall st', dict_get quintet_eq_dec (CG_coeffs st') (nkey n) <> None ->
      (check Ok tt ;;
       if n_v1 n <=? n_v3 n then
         let* t := dict_item quintet_eq_dec (CG_coeffs st') (n_v1 n, n_v2 n, n_a2 n, n_L2 n, n_v3 n) in
         dict_item quartet_eq_dec t (n_a1 n, n_L1 n, n_a3 n, n_L3 n)
       else
         let* t := dict_item quintet_eq_dec (CG_coeffs st') (n_v3 n, n_v2 n, n_a2 n, n_L2 n, n_v1 n) in
         let* x := dict_item quartet_eq_dec t (n_a3 n, n_L3 n, n_a1 n, n_L1 n) in
         let* D3 := dimSO5 (n_v3 n) in
         let* e1 := dimSO3 (n_L1 n) in
         let* D1 := dimSO5 (n_v1 n) in
         let* e3 := dimSO3 (n_L3 n) in
         Ok (x * powerRZ (-1) (n_L3 n + n_L2 n - n_L1 n)
             * sqrt (IZR (D3 * e1) / IZR D1 / IZR e3))%R)
      = match dict_get quintet_eq_dec (CG_coeffs st') (nkey n) with
        | Some t => pick n t | None => Raise KeyError end).
    { intros st' Hf. cbn [bind]. unfold pick, nkey, tkey in *.
      destruct (Z.leb_spec (n_v1 n) (n_v3 n)).
      - rewrite Z.min_l, Z.max_r in * by lia. unfold dict_item.
        destruct (dict_get quintet_eq_dec (CG_coeffs st') _); [reflexivity|congruence].
      - rewrite Z.min_r, Z.max_l in * by lia. unfold dict_item.
        destruct (dict_get quintet_eq_dec (CG_coeffs st') _); [|congruence]. cbn [bind].
        destruct (dict_get quartet_eq_dec _ _); [|reflexivity]. cbn [bind].
        unfold dimSO5, dimSO3. rewrite !require_nonnegint_ok by lia. cbn [bind]. reflexivity. }
    fold (nkey n). destruct (found st (nkey n)) as [t|] eqn:Ef.
    - unfold found in Ef. f_equal. rewrite HP by congruence. now rewrite Ef.
    - destruct (tbl (get_base_directory home st) (nkey n)) as [t|e] eqn:Et; [|reflexivity].
      f_equal. rewrite HP; unfold add_table; cbn [CG_coeffs]; rewrite dict_get_set;
        destruct (quintet_eq_dec (nkey n) (nkey n)); congruence.
  Qed.
End World.
