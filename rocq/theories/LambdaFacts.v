(** Facts about [Lambda_RadialOp_List] (RadialOps.v). *)

From Coq Require Import Lia ZifyBool ZifyNat.
From Verif Require Import PyBase PyFacts Compat SphericalFacts RadialOps RadialSpec RadialOpsFacts.
Open Scope Z_scope.
Ltac Zify.zify_post_hook ::= Z.div_mod_to_equations.

(** ** Updating lists *)

Lemma upd_length l : forall i f, length (upd l i f) = length l.
Proof. induction l as [|x l IH]; intros [|i] f; cbn; auto. Qed.

Lemma upd_sum l : forall i f x, nth_error l i = Some x ->
  zsum (upd l i f) = zsum l + f x - x.
Proof.
  induction l as [|y l IH]; intros [|i] f x H; cbn [nth_error upd] in *; try discriminate.
  - injection H as ->. rewrite !zsum_cons. lia.
  - rewrite !zsum_cons, (IH i f x H). lia.
Qed.

Lemma upd_same l : forall i f x, nth_error l i = Some x ->
  nth_error (upd l i f) i = Some (f x).
Proof.
  induction l as [|y l IH]; intros [|i] f x H; cbn [nth_error upd] in *; try discriminate.
  - now injection H as ->.
  - now apply IH.
Qed.

Lemma upd_other l : forall i j f, i <> j -> nth_error (upd l i f) j = nth_error l j.
Proof.
  induction l as [|y l IH]; intros [|i] [|j] f H; cbn [nth_error upd] in *;
    try reflexivity; try congruence. apply IH. congruence.
Qed.

Lemma upd_app_r l1 : forall l2 i f,
  upd (l1 ++ l2) (length l1 + i) f = l1 ++ upd l2 i f.
Proof. induction l1 as [|x l1 IH]; intros; cbn; [reflexivity|]. now rewrite IH. Qed.

Lemma index1_spec l : forall i, 0 < i ->
  (index1 l i = 0 /\ ~ In 1 l) \/
  exists k, index1 l i = i + Z.of_nat k /\ nth_error l k = Some 1 /\
            forall j, (j < k)%nat -> nth_error l j <> Some 1.
Proof.
  induction l as [|x l IH]; intros i Hi; cbn [index1].
  - left. split; [reflexivity|]. intros [].
  - destruct (x =? 1) eqn:E.
    + right. exists O. split; [lia|]. split; [cbn; f_equal; lia|]. intros; lia.
    + destruct (IH (i + 1) ltac:(lia)) as [[H1 H2]|(k & H1 & H2 & H3)].
      * left. split; [assumption|]. cbn [In]. intros [->|H]; [discriminate|tauto].
      * right. exists (S k). split; [lia|]. split; [assumption|].
        intros [|j] Hj; cbn [nth_error].
        { intros F. injection F as ->. discriminate. }
        { apply H3. lia. }
Qed.

(** ** The flipping loop *)

Definition bits (l : list Z) : Prop := Forall (fun x => x = 0 \/ x = 1) l.

Lemma bits_sum_nonneg l : bits l -> 0 <= zsum l.
Proof.
  induction 1 as [|x l Hx _ IH]; [cbn; lia|]. rewrite zsum_cons. lia.
Qed.

Lemma bits_no_one l : bits l -> ~ In 1 l -> zsum l = 0.
Proof.
  induction 1 as [|x l Hx _ IH]; intros H; [reflexivity|]. rewrite zsum_cons.
  cbn [In] in H. destruct Hx as [->| ->]; [rewrite IH; tauto|]. exfalso. auto.
Qed.

Lemma bits_sum_pos l : bits l -> 0 < zsum l -> In 1 l.
Proof.
  intros Hb Hp. destruct (in_dec Z.eq_dec 1 l) as [H|H]; [assumption|].
  rewrite (bits_no_one l Hb H) in Hp. lia.
Qed.

Lemma flip_length rem l : forall oc, length (flip_loop rem oc l) = length l.
Proof.
  induction l as [|x l IH]; intros oc; cbn [flip_loop]; [reflexivity|].
  destruct (oc <=? rem); [reflexivity|].
  destruct (x =? 1); cbn [length]; now rewrite IH.
Qed.

Lemma flip_sum rem l : bits l -> forall oc,
  exists k, 0 <= k <= zsum l /\ zsum (flip_loop rem oc l) = zsum l - 2 * k /\
    (oc - 2 * k <= rem \/ k = zsum l) /\ (k = 0 \/ rem < oc - 2 * k + 2).
Proof.
  induction 1 as [|x l Hx Hl IH]; intros oc; cbn [flip_loop].
  - exists 0. cbn [zsum fold_right]. lia.
  - rewrite zsum_cons. pose proof (bits_sum_nonneg l Hl).
    destruct (oc <=? rem) eqn:E.
    + exists 0. rewrite zsum_cons. lia.
    + destruct Hx as [-> | ->]; cbn [Z.eqb Pos.eqb].
      * destruct (IH oc) as (k & ?). exists k. rewrite zsum_cons. lia.
      * destruct (IH (oc - 2)) as (k & ?). exists (k + 1). rewrite zsum_cons. lia.
Qed.

Lemma flip_count_sum rem l : bits l -> forall oc,
  flip_count rem oc l - oc = zsum (flip_loop rem oc l) - zsum l.
Proof.
  induction 1 as [|x l Hx Hl IH]; intros oc; cbn [flip_loop flip_count].
  - cbn. lia.
  - destruct (oc <=? rem); [rewrite !zsum_cons; lia|].
    destruct Hx as [-> | ->]; cbn [Z.eqb Pos.eqb]; rewrite !zsum_cons.
    + specialize (IH oc). lia.
    + specialize (IH (oc - 2)). lia.
Qed.

Lemma flip_zero rem l : forall oc i, nth_error l i = Some 0 ->
  nth_error (flip_loop rem oc l) i = Some 0.
Proof.
  induction l as [|x l IH]; intros oc [|i] H; cbn [nth_error flip_loop] in *;
    try discriminate.
  - injection H as ->. destruct (oc <=? rem); reflexivity.
  - destruct (oc <=? rem); [exact H|].
    destruct (x =? 1); cbn [nth_error]; now apply IH.
Qed.

(** The first 1 of the list is flipped. *)
Lemma flip_first rem l : forall oc k, rem < oc -> nth_error l k = Some 1 ->
  (forall j, (j < k)%nat -> nth_error l j <> Some 1) ->
  nth_error (flip_loop rem oc l) k = Some (-1).
Proof.
  induction l as [|x l IH]; intros oc [|k] Ho H Hj; cbn [nth_error flip_loop] in *;
    try discriminate.
  - injection H as ->. replace (oc <=? rem) with false by lia. reflexivity.
  - replace (oc <=? rem) with false by lia.
    destruct (x =? 1) eqn:E.
    + exfalso. apply (Hj O ltac:(lia)). cbn. f_equal. lia.
    + cbn [nth_error]. apply IH; auto.
      intros j Hlt. apply (Hj (S j)). lia.
Qed.

(** ** The filling loop *)

Definition goodmo (p : Z * Z) : Prop :=
  (snd p = 0 \/ snd p = 1) /\ snd p <= fst p /\ (fst p - snd p) mod 2 = 0.

Definition dsum (mo : list (Z * Z)) : Z := zsum (map (fun p => fst p - snd p) mo).

Lemma dsum_cons p mo : dsum (p :: mo) = fst p - snd p + dsum mo.
Proof. reflexivity. Qed.

Lemma dsum_nonneg mo : Forall goodmo mo -> 0 <= dsum mo.
Proof.
  induction 1 as [|p mo H _ IH]; [cbn; lia|]. rewrite dsum_cons.
  destruct H as (_ & H & _). lia.
Qed.

Lemma fill_done rem i0 mo : rem <= 0 ->
  fill_loop rem i0 mo =
  Ok (map snd mo, rem, match mo with [] => i0 - 1 | _ => i0 end).
Proof.
  intros H. destruct mo as [|[m o] mo]; cbn [fill_loop]; [reflexivity|].
  replace (rem <=? 0) with true by lia. reflexivity.
Qed.

Lemma fill_exact mo : Forall goodmo mo -> forall rem i0, 0 < rem <= dsum mo ->
  exists mo1 p mo2, mo = mo1 ++ p :: mo2 /\
    0 <= dsum mo1 < rem /\ rem <= dsum mo1 + (fst p - snd p) /\
    let v := 2 * ((rem - dsum mo1 + 1) / 2) in
    fill_loop rem i0 mo =
      Ok (map fst mo1 ++ (snd p + v) :: map snd mo2,
          rem - dsum mo1 - v,
          i0 + zlen mo1 + match mo2 with [] => 0 | _ => 1 end).
Proof.
  induction 1 as [|[m o] mo H Hmo IH]; intros rem i0 Hr.
  - cbn in Hr. lia.
  - rewrite dsum_cons in Hr. cbn [fst snd] in Hr.
    destruct H as (H1 & H2 & H3). cbn [fst snd] in *.
    cbn [fill_loop]. replace (rem <=? 0) with false by lia.
    rewrite (iquo_ok (Z.min (rem + 1) (m - o)) 2) by lia. cbn [bind].
    destruct (Z_le_gt_dec rem (m - o)) as [L|L].
    + exists [], (m, o), mo. cbn [app dsum map zsum fold_right fst snd].
      split; [reflexivity|]. split; [lia|]. split; [lia|].
      set (v := 2 * ((rem - 0 + 1) / 2)).
      replace (2 * (Z.min (rem + 1) (m - o) / 2)) with v by (unfold v; lia).
      rewrite fill_done by (unfold v; lia). cbn [bind].
      replace (match mo with [] => i0 + 1 - 1 | _ :: _ => i0 + 1 end)
        with (i0 + zlen (@nil (Z * Z)) + match mo with [] => 0 | _ :: _ => 1 end)
        by (unfold zlen; cbn [length]; destruct mo; lia).
      replace (rem - v) with (rem - 0 - v) by lia. reflexivity.
    + replace (2 * (Z.min (rem + 1) (m - o) / 2)) with (m - o) by lia.
      destruct (IH (rem - (m - o)) (i0 + 1) ltac:(lia)) as (mo1 & p & mo2 & E1 & E2 & E3 & E4).
      exists ((m, o) :: mo1), p, mo2. cbn [app map].
      split; [now rewrite E1|]. rewrite dsum_cons. cbn [fst snd].
      split; [lia|]. split; [lia|].
      cbv zeta in E4. rewrite E4. cbn [bind].
      replace (rem - (m - o + dsum mo1)) with (rem - (m - o) - dsum mo1) by lia.
      replace (o + (m - o)) with m by lia. rewrite zlen_cons.
      f_equal. f_equal. lia.
Qed.

(** ** The shifts *)

Definition max_count (ops : list ktsop) : Z := zsum (map max_var ops).
Definition odd_count (ops : list ktsop) : Z := zsum (map odd_var ops).

Lemma max_var_degree op : max_var op = degree op.
Proof. destruct op; reflexivity. Qed.

Lemma max_count_degree ops : max_count ops = total_degree ops.
Proof. reflexivity. Qed.

Lemma valid_degree_nonneg op : valid_op op -> 0 <= max_var op.
Proof. destruct op; cbn; lia. Qed.

Lemma odd_vars_ok ops : Forall valid_op ops ->
  mapM (fun m => irem m 2) (map max_var ops) = Ok (map odd_var ops).
Proof.
  induction 1 as [|op ops H _ IH]; cbn [map mapM]; [reflexivity|].
  rewrite irem_ok by (pose proof (valid_degree_nonneg op H); lia).
  cbn [bind]. rewrite IH. reflexivity.
Qed.

Lemma odd_bits ops : bits (map odd_var ops).
Proof.
  unfold bits. apply Forall_forall. intros x H. apply in_map_iff in H as (op & <- & _).
  unfold odd_var. lia.
Qed.

Lemma goodmo_ops ops : Forall valid_op ops ->
  Forall goodmo (combine (map max_var ops) (map odd_var ops)).
Proof.
  induction 1 as [|op ops H _ IH]; cbn [map combine]; constructor; auto.
  pose proof (valid_degree_nonneg op H). unfold goodmo, odd_var. cbn [fst snd]. lia.
Qed.

Lemma dsum_ops ops :
  dsum (combine (map max_var ops) (map odd_var ops)) = max_count ops - odd_count ops.
Proof.
  unfold max_count, odd_count.
  induction ops as [|op ops IH]; [reflexivity|]. cbn [map combine].
  rewrite dsum_cons, IH, !zsum_cons. cbn [fst snd]. lia.
Qed.

Lemma count_parity ops : (max_count ops - odd_count ops) mod 2 = 0.
Proof.
  unfold max_count, odd_count.
  induction ops as [|op ops IH]; [reflexivity|]. cbn [map].
  rewrite !zsum_cons. unfold odd_var at 1.
  revert IH. generalize (zsum (map max_var ops)) (zsum (map odd_var ops)) (max_var op).
  intros a b c H. lia.
Qed.

Lemma odd_le_max ops : Forall valid_op ops -> 0 <= odd_count ops <= max_count ops.
Proof.
  intros H. split; [apply bits_sum_nonneg, odd_bits|].
  pose proof (dsum_nonneg _ (goodmo_ops ops H)). rewrite dsum_ops in H0. lia.
Qed.

Lemma combine_split_ops ops mo1 p mo2 :
  combine (map max_var ops) (map odd_var ops) = mo1 ++ p :: mo2 ->
  exists o1 op o2, ops = o1 ++ op :: o2 /\
    mo1 = combine (map max_var o1) (map odd_var o1) /\
    p = (max_var op, odd_var op) /\
    mo2 = combine (map max_var o2) (map odd_var o2).
Proof.
  revert mo1. induction ops as [|a ops IH]; intros mo1 H.
  - destruct mo1; discriminate.
  - destruct mo1 as [|q mo1]; cbn [map combine app] in H.
    + injection H as <- <-. exists [], a, ops. auto.
    + injection H as <- H. destruct (IH _ H) as (o1 & op & o2 & -> & -> & -> & ->).
      exists (a :: o1), op, o2. auto.
Qed.

Lemma map_fst_ops ops :
  map fst (combine (map max_var ops) (map odd_var ops)) = map max_var ops.
Proof. induction ops as [|a ops IH]; cbn; [reflexivity|]. now rewrite IH. Qed.
Lemma map_snd_ops ops :
  map snd (combine (map max_var ops) (map odd_var ops)) = map odd_var ops.
Proof. induction ops as [|a ops IH]; cbn; [reflexivity|]. now rewrite IH. Qed.
Lemma zlen_ops ops : zlen (combine (map max_var ops) (map odd_var ops)) = zlen ops.
Proof. unfold zlen. rewrite combine_length, !map_length. lia. Qed.

(** [S] operators keep a zero shift. *)
Definition S_unshifted (ops : list ktsop) (shifts : list Z) : Prop :=
  forall i s, nth_error ops i = Some (SOp s) ->
    nth_error shifts (i + (length shifts - length ops))%nat = Some 0.

Definition some_odd (ops : list ktsop) : Prop := Exists (fun op => degree op mod 2 = 1) ops.

Lemma some_odd_In ops : some_odd ops <-> In 1 (map odd_var ops).
Proof.
  unfold some_odd. rewrite Exists_exists. rewrite in_map_iff. unfold odd_var.
  split; intros (op & H1 & H2); exists op; rewrite max_var_degree in *; auto.
Qed.

Lemma S_map_zero (f : ktsop -> Z) ops i s : (forall t, f (SOp t) = 0) ->
  nth_error ops i = Some (SOp s) -> nth_error (map f ops) i = Some 0.
Proof.
  intros Hf H. rewrite nth_error_map, H. cbn. now rewrite Hf.
Qed.

Lemma nth_error_lt {A} (l : list A) i x : nth_error l i = Some x -> (i < length l)%nat.
Proof. intros H. apply nth_error_Some. congruence. Qed.

Lemma nth_error_ex {A} (l : list A) i : (i < length l)%nat -> exists x, nth_error l i = Some x.
Proof.
  intros H. destruct (nth_error l i) eqn:E; [eauto|].
  apply nth_error_None in E. lia.
Qed.

Definition oddin (ops : list ktsop) (v : Z) : Z :=
  if is_odd (Z.abs v - max_count ops) then index1 (map odd_var ops) 1 else 0.

Lemma oddin_spec ops v :
  (oddin ops v = 0 /\ ((Z.abs v - max_count ops) mod 2 = 0 \/ ~ In 1 (map odd_var ops))) \/
  exists k, oddin ops v = 1 + Z.of_nat k /\ (Z.abs v - max_count ops) mod 2 = 1 /\
    nth_error (map odd_var ops) k = Some 1 /\
    forall j, (j < k)%nat -> nth_error (map odd_var ops) j <> Some 1.
Proof.
  unfold oddin, is_odd.
  destruct ((Z.abs v - max_count ops) mod 2 =? 1) eqn:E.
  - destruct (index1_spec (map odd_var ops) 1 ltac:(lia)) as [[H1 H2]|(k & H)].
    + left. split; auto.
    + right. exists k. split; [tauto|]. split; [lia|]. tauto.
  - left. split; [reflexivity|]. left. lia.
Qed.

(** Position of an odd operator is not the position of an S operator. *)
Lemma odd_not_S ops k i s :
  nth_error (map odd_var ops) k = Some 1 -> nth_error ops i = Some (SOp s) -> k <> i.
Proof.
  intros H1 H2 ->. rewrite nth_error_map, H2 in H1. cbn in H1. discriminate.
Qed.

(** First branch: |lambda_var| below the number of odd operators. *)
Lemma case_flip ops v : Forall valid_op ops -> Z.abs v < odd_count ops ->
  exists l, lambda_abs_list ops v = Ok l /\ zsum l = Z.abs v /\
    length l = length ops /\ S_unshifted ops l.
Proof.
  intros Hv Hlt. unfold lambda_abs_list. rewrite odd_vars_ok by assumption.
  cbn [bind]. fold (odd_count ops) (max_count ops). fold (oddin ops v).
  replace (Z.abs v <? odd_count ops) with true by lia.
  set (l0 := flip_loop (Z.abs v) (odd_count ops) (map odd_var ops)).
  destruct (flip_sum (Z.abs v) (map odd_var ops) (odd_bits ops) (odd_count ops))
    as (k & K1 & K2 & K3 & K4).
  fold l0 in K2. fold (odd_count ops) in K1, K2, K3.
  pose proof (count_parity ops) as Hpar.
  pose proof (flip_length (Z.abs v) (map odd_var ops) (odd_count ops)) as Hlen.
  fold l0 in Hlen. rewrite map_length in Hlen.
  assert (HS : forall i s, nth_error ops i = Some (SOp s) -> nth_error l0 i = Some 0).
  { intros i s H. apply flip_zero. eapply S_map_zero; eauto. }
  eexists; split; [reflexivity|].
  destruct (oddin_spec ops v) as [[E1 E2]|(j & E1 & E2 & E3 & E4)]; rewrite E1.
  - cbn [Z.ltb Z.compare]. split; [|split; [assumption|]].
    + destruct E2 as [E2|E2]; [lia|].
      pose proof (bits_no_one _ (odd_bits ops) E2). fold (odd_count ops) in H. lia.
    + intros i s H. rewrite Hlen, Nat.sub_diag, Nat.add_0_r. eauto.
  - replace (0 <? 1 + Z.of_nat j) with true by lia.
    replace (Z.to_nat (1 + Z.of_nat j - 1)) with j by lia.
    pose proof (flip_first (Z.abs v) _ _ j Hlt E3 E4) as E5. fold l0 in E5.
    split; [|split].
    + rewrite (upd_sum _ _ _ _ E5). lia.
    + now rewrite upd_length.
    + intros i s H. rewrite upd_length, Hlen, Nat.sub_diag, Nat.add_0_r.
      rewrite upd_other; [eauto|]. eapply odd_not_S; eauto.
Qed.

(** In the first branch the final [odd_count] misses |lambda_var| by the parity. *)
Lemma case_flip_count ops v : Forall valid_op ops -> Z.abs v < odd_count ops ->
  flip_count (Z.abs v) (odd_count ops) (map odd_var ops) =
  Z.abs v - (Z.abs v - max_count ops) mod 2.
Proof.
  intros Hv Hlt.
  pose proof (flip_count_sum (Z.abs v) _ (odd_bits ops) (odd_count ops)) as H.
  destruct (flip_sum (Z.abs v) (map odd_var ops) (odd_bits ops) (odd_count ops))
    as (k & K1 & K2 & K3 & K4).
  fold (odd_count ops) in *. pose proof (count_parity ops). lia.
Qed.

(** Second branch, exactly. *)
Lemma case_fill ops v : Forall valid_op ops ->
  odd_count ops <= Z.abs v < max_count ops ->
  exists l, lambda_abs_list ops v = Ok l /\ zsum l = Z.abs v /\
    length l = length ops /\
    (some_odd ops \/ v mod 2 = 0 -> S_unshifted ops l) /\
    (~ some_odd ops -> v mod 2 = 1 ->
       exists o1 op o2, ops = o1 ++ op :: o2 /\
         total_degree o1 < Z.abs v < total_degree o1 + degree op /\
         l = map degree o1 ++
             match o2 with
             | [] => [Z.abs v - total_degree o1]
             | _ :: o2' => (Z.abs v - total_degree o1 + 1) :: -1 :: repeat 0 (length o2')
             end).
Proof.
  intros Hv Hlt. unfold lambda_abs_list. rewrite odd_vars_ok by assumption.
  cbn [bind]. fold (odd_count ops) (max_count ops). fold (oddin ops v).
  replace (Z.abs v <? odd_count ops) with false by lia.
  replace (Z.abs v <? max_count ops) with true by lia.
  set (mo := combine (map max_var ops) (map odd_var ops)).
  pose proof (count_parity ops) as Hpar.
  destruct (Z.eq_dec (Z.abs v) (odd_count ops)) as [Eq|Ne].
  - rewrite Eq, Z.sub_diag, fill_done by lia. cbn [bind Z.ltb Z.compare].
    unfold mo. rewrite map_snd_ops. eexists; split; [reflexivity|].
    split; [reflexivity|]. split; [apply map_length|]. split.
    + intros _ i s H. rewrite map_length, Nat.sub_diag, Nat.add_0_r.
      eapply S_map_zero; eauto.
    + intros H1 H2. exfalso.
      assert (H3 : ~ In 1 (map odd_var ops)) by (rewrite <- some_odd_In; assumption).
      pose proof (bits_no_one _ (odd_bits ops) H3) as H4. fold (odd_count ops) in H4.
      lia.
  - destruct (fill_exact mo (goodmo_ops ops Hv) (Z.abs v - odd_count ops) 0)
      as (mo1 & p & mo2 & E1 & E2 & E3 & E4).
    { unfold mo. rewrite dsum_ops. lia. }
    cbv zeta in E4. rewrite E4. cbn [bind].
    unfold mo in E1. apply combine_split_ops in E1 as (o1 & op & o2 & Eo & -> & -> & ->).
    rewrite dsum_ops in *. cbn [fst snd] in *.
    rewrite map_fst_ops, map_snd_ops, zlen_ops.
    set (x := Z.abs v - odd_count ops - (max_count o1 - odd_count o1)) in *.
    set (l0 := map max_var o1 ++ (odd_var op + 2 * ((x + 1) / 2)) :: map odd_var o2).
    assert (Hc : max_count ops = max_count o1 + max_var op + max_count o2).
    { rewrite Eo. unfold max_count. rewrite map_app, zsum_app. cbn [map].
      rewrite zsum_cons. lia. }
    assert (Hoc : odd_count ops = odd_count o1 + odd_var op + odd_count o2).
    { rewrite Eo. unfold odd_count. rewrite map_app, zsum_app. cbn [map].
      rewrite zsum_cons. lia. }
    assert (Hsum : zsum l0 = Z.abs v - (x - 2 * ((x + 1) / 2))).
    { unfold l0. rewrite zsum_app, zsum_cons. fold (max_count o1) (odd_count o2).
      unfold x. lia. }
    assert (Hlen : length l0 = length ops).
    { unfold l0. rewrite Eo, !app_length. cbn [length]. now rewrite !map_length. }
    assert (HS : forall i s, nth_error ops i = Some (SOp s) -> nth_error l0 i = Some 0).
    { intros i s H. unfold l0. rewrite Eo in H.
      destruct (Nat.lt_ge_cases i (length o1)) as [L|L].
      - rewrite nth_error_app1 in H by assumption.
        rewrite nth_error_app1 by (now rewrite map_length).
        eapply S_map_zero; eauto.
      - rewrite nth_error_app2 in H by assumption.
        rewrite nth_error_app2 by (now rewrite map_length).
        rewrite map_length. destruct (i - length o1)%nat as [|j]; cbn [nth_error] in *.
        + injection H as ->. change (max_var (SOp s)) with 0 in E3.
          change (odd_var (SOp s)) with 0 in E3. exfalso. unfold x in *. lia.
        + eapply S_map_zero; eauto. }
    eexists; split; [reflexivity|].
    destruct (x - 2 * ((x + 1) / 2) <? 0) eqn:Neg.
    2: { split; [lia|]. split; [assumption|]. split.
         - intros _ i s H. rewrite Hlen, Nat.sub_diag, Nat.add_0_r. eauto.
         - intros H1 H2. exfalso.
           assert (H3 : ~ In 1 (map odd_var ops)) by (rewrite <- some_odd_In; assumption).
           pose proof (bits_no_one _ (odd_bits ops) H3) as H4. fold (odd_count ops) in H4.
           assert (Hp1 := count_parity o1). unfold x in *. lia. }
    assert (Hp1 := count_parity o1).
    destruct (oddin_spec ops v) as [[F1 F2]|(j & F1 & F2 & F3 & F4)]; rewrite F1.
    2: { replace (0 <? 1 + Z.of_nat j) with true by lia.
         replace (Z.to_nat (1 + Z.of_nat j - 1)) with j by lia.
         destruct (nth_error_ex l0 j) as (y & Hy).
         { rewrite Hlen. apply nth_error_lt in F3. now rewrite map_length in F3. }
         split; [rewrite (upd_sum _ _ _ _ Hy); lia|].
         split; [now rewrite upd_length|]. split.
         - intros _ i s H. rewrite upd_length, Hlen, Nat.sub_diag, Nat.add_0_r.
           rewrite upd_other; [eauto|]. eapply odd_not_S; eauto.
         - intros H. exfalso. apply H. apply some_odd_In.
           eapply nth_error_In; eauto. }
    cbn [Z.ltb Z.compare].
    assert (Hno : ~ In 1 (map odd_var ops)).
    { destruct F2 as [F2|F2]; [|assumption]. exfalso. unfold x in *. lia. }
    pose proof (bits_no_one _ (odd_bits ops) Hno) as Hz. fold (odd_count ops) in Hz.
    assert (Hz1 : odd_count o1 = 0 /\ odd_var op = 0 /\ odd_count o2 = 0).
    { pose proof (bits_sum_nonneg _ (odd_bits o1)) as B1.
      pose proof (bits_sum_nonneg _ (odd_bits o2)) as B2.
      fold (odd_count o1) in B1. fold (odd_count o2) in B2.
      assert (0 <= odd_var op) by (unfold odd_var; lia). lia. }
    destruct Hz1 as (Z1 & Z2 & Z3).
    assert (Hodd : v mod 2 = 1) by (unfold x in *; lia).
    assert (Hmap2 : map odd_var o2 = repeat 0 (length o2)).
    { clear - Z3. unfold odd_count in Z3. pose proof (odd_bits o2) as B.
      induction o2 as [|a o2 IH]; [reflexivity|]. cbn [map length repeat] in *.
      inversion B as [|? ? B1 B2]; subst. rewrite zsum_cons in Z3.
      pose proof (bits_sum_nonneg _ B2). rewrite IH by (auto; lia).
      f_equal. lia. }
    assert (Hmax1 : map max_var o1 = map degree o1)
      by (apply map_ext, max_var_degree).
    assert (Hm1 : max_count o1 = total_degree o1) by apply max_count_degree.
    assert (Hxx : x = Z.abs v - total_degree o1) by (unfold x; lia).
    assert (Hind : Z.to_nat (0 + zlen o1 + match combine (map max_var o2) (map odd_var o2)
                     with [] => 0 | _ :: _ => 1 end) =
                   (length (map max_var o1) + match o2 with [] => 0 | _ => 1 end)%nat).
    { rewrite map_length. unfold zlen. destruct o2; cbn [map combine]; lia. }
    rewrite Hind. unfold l0. rewrite upd_app_r.
    rewrite Hmap2, Z2, Z.add_0_l.
    assert (Hv2 : 2 * ((x + 1) / 2) = Z.abs v - total_degree o1 + 1) by lia.
    rewrite Hv2, Hmax1.
    assert (Hcnt : total_degree o1 < Z.abs v < total_degree o1 + degree op).
    { rewrite <- max_var_degree. unfold odd_var in Z2. unfold x in *. lia. }
    split; [|split; [|split]].
    + rewrite zsum_app. fold (total_degree o1).
      destruct o2 as [|a o2]; cbn [upd length repeat]; rewrite !zsum_cons.
      * cbn. lia.
      * replace (zsum (repeat 0 (length o2))) with 0; [lia|].
        clear. induction (length o2) as [|n IH]; [reflexivity|].
        cbn [repeat]. rewrite zsum_cons. lia.
    + rewrite Eo, !app_length, map_length. f_equal. rewrite upd_length.
      cbn [length]. now rewrite repeat_length.
    + intros [H|H]; [|lia]. exfalso. apply Hno. now apply some_odd_In.
    + intros _ _. exists o1, op, o2. split; [assumption|]. split; [assumption|].
      f_equal. destruct o2 as [|a o2]; cbn [length repeat upd].
      * f_equal. lia.
      * reflexivity.
Qed.

Lemma rev_nth_last {A} (l : list A) x r : rev l = x :: r ->
  nth_error l (length l - 1) = Some x.
Proof.
  intros H. assert (E : l = rev r ++ [x]).
  { rewrite <- (rev_involutive l), H. reflexivity. }
  rewrite E, app_length. cbn [length].
  replace (length (rev r) + 1 - 1)%nat with (length (rev r)) by lia.
  rewrite nth_error_app2 by lia. now rewrite Nat.sub_diag.
Qed.

(** Third branch. *)
Lemma max_nonneg ops : Forall valid_op ops -> 0 <= max_count ops.
Proof.
  rewrite max_count_degree. unfold total_degree.
  induction 1 as [|a o Ha _ IH]; [cbn; lia|]. cbn [map].
  rewrite zsum_cons. destruct a; cbn [valid_op degree] in *; lia.
Qed.

Lemma case_over ops v : Forall valid_op ops -> max_count ops <= Z.abs v ->
  exists l, lambda_abs_list ops v = Ok l /\ zsum l = Z.abs v /\
    S_unshifted ops l /\
    (length l = length ops \/
     length l = S (length ops) /\ exists x r, l = x :: r /\ 0 < x /\ v <> 0).
Proof.
  intros Hv Hle. unfold lambda_abs_list. rewrite odd_vars_ok by assumption.
  cbn [bind]. fold (odd_count ops) (max_count ops). fold (oddin ops v).
  pose proof (odd_le_max ops Hv) as Hom.
  replace (Z.abs v <? odd_count ops) with false by lia.
  replace (Z.abs v <? max_count ops) with false by lia.
  set (l0 := if 0 <? oddin ops v
             then upd (map max_var ops) (Z.to_nat (oddin ops v - 1)) (fun x => x - 1)
             else map max_var ops).
  set (rem := if 0 <? oddin ops v then _ else _).
  assert (Hlen : length l0 = length ops).
  { unfold l0. destruct (0 <? oddin ops v); rewrite ?upd_length; apply map_length. }
  assert (H0 : zsum l0 + rem = Z.abs v /\ (0 <= rem /\ (v = 0 -> rem = 0)) /\
    forall i s, nth_error ops i = Some (SOp s) -> nth_error l0 i = Some 0).
  { unfold l0, rem.
    destruct (oddin_spec ops v) as [[E1 E2]|(j & E1 & E2 & E3 & E4)]; rewrite E1.
    - cbn [Z.ltb Z.compare]. fold (max_count ops). split; [lia|].
      split; [split; [lia|]; intros ->; pose proof (max_nonneg ops Hv); lia|].
      intros i s H. eapply S_map_zero; eauto.
    - replace (0 <? 1 + Z.of_nat j) with true by lia.
      replace (Z.to_nat (1 + Z.of_nat j - 1)) with j by lia.
      destruct (nth_error_ex (map max_var ops) j) as (y & Hy).
      { apply nth_error_lt in E3. now rewrite map_length in *. }
      rewrite (upd_sum _ _ _ _ Hy). fold (max_count ops).
      split; [lia|].
      split; [split; [lia|]; intros ->; pose proof (max_nonneg ops Hv);
              pose proof (count_parity ops); cbn [Z.abs] in *; lia|].
      intros i s H. rewrite upd_other by (eapply odd_not_S; eauto).
      eapply S_map_zero; eauto. }
  destruct H0 as (H1 & [H2 H2'] & H3).
  eexists; split; [reflexivity|].
  destruct (0 <? rem) eqn:Er.
  2: { split; [lia|]. split.
       - intros i s H. rewrite Hlen, Nat.sub_diag, Nat.add_0_r. eauto.
       - now left. }
  destruct ((0 <? v) && first_KT ops) eqn:C1.
  { assert (Hf : exists K T r, ops = KTOp K T :: r).
    { destruct ops as [|[K T|s] r]; cbn [first_KT is_KTOp] in C1;
        rewrite ?andb_false_r in C1; try discriminate. eauto. }
    destruct Hf as (K & T & r & Ho).
    destruct (nth_error_ex l0 0) as (y & Hy). { rewrite Hlen, Ho. cbn; lia. }
    split; [rewrite (upd_sum _ _ _ _ Hy); lia|]. split.
    - intros i s H. rewrite upd_length, Hlen, Nat.sub_diag, Nat.add_0_r.
      rewrite upd_other; [eauto|]. intros <-. rewrite Ho in H. discriminate.
    - left. now rewrite upd_length. }
  destruct ((v <? 0) && last_KT ops) eqn:C2.
  { assert (Hf : exists K T, nth_error ops (length ops - 1) = Some (KTOp K T)).
    { unfold last_KT in C2. destruct (rev ops) as [|[K T|s] r] eqn:Erev;
        cbn [first_KT is_KTOp] in C2; rewrite ?andb_false_r in C2; try discriminate.
      exists K, T. eapply rev_nth_last; eauto. }
    destruct Hf as (K & T & Ho).
    destruct (nth_error_ex l0 (length l0 - 1)) as (y & Hy).
    { apply nth_error_lt in Ho. rewrite Hlen. lia. }
    split; [rewrite (upd_sum _ _ _ _ Hy); lia|]. split.
    - intros i s H. rewrite upd_length, Hlen, Nat.sub_diag, Nat.add_0_r.
      rewrite upd_other; [eauto|]. intros <-. rewrite Ho in H. discriminate.
    - left. now rewrite upd_length. }
  split; [rewrite zsum_cons; lia|]. split.
  - intros i s H. cbn [length]. rewrite Hlen.
    replace (i + (S (length ops) - length ops))%nat with (S i) by lia.
    cbn [nth_error]. eauto.
  - right. cbn [length]. rewrite Hlen. split; [reflexivity|].
    exists rem, l0. split; [reflexivity|]. split; [lia|]. intros ->. specialize (H2' eq_refl). lia.
Qed.

(** ** Signed shifts *)

Lemma zsum_opp l : zsum (map Z.opp l) = - zsum l.
Proof.
  induction l as [|x l IH]; [reflexivity|]. cbn [map]. rewrite !zsum_cons. lia.
Qed.

Definition sgn_list (v : Z) (l : list Z) : list Z :=
  if 0 <=? v then l else map Z.opp l.

Lemma sgn_sum v l : zsum l = Z.abs v -> zsum (sgn_list v l) = v.
Proof.
  unfold sgn_list. intros H. destruct (0 <=? v) eqn:E; rewrite ?zsum_opp; lia.
Qed.

Lemma sgn_length v l : length (sgn_list v l) = length l.
Proof. unfold sgn_list. destruct (0 <=? v); rewrite ?map_length; reflexivity. Qed.

Lemma sgn_S ops v l : S_unshifted ops l -> S_unshifted ops (sgn_list v l).
Proof.
  intros H i s E. rewrite sgn_length. specialize (H i s E).
  unfold sgn_list. destruct (0 <=? v); [assumption|].
  rewrite nth_error_map, H. reflexivity.
Qed.

Lemma lambda_list_ok ops v : Forall valid_op ops ->
  exists l, lambda_abs_list ops v = Ok l /\ zsum l = Z.abs v /\
    (length l = length ops \/
     length l = S (length ops) /\ total_degree ops <= Z.abs v /\
       exists x r, l = x :: r /\ 0 < x /\ v <> 0).
Proof.
  intros Hv. rewrite <- max_count_degree. pose proof (odd_le_max ops Hv).
  destruct (Z_lt_ge_dec (Z.abs v) (odd_count ops)) as [C1|C1].
  - destruct (case_flip ops v Hv C1) as (l & ? & ? & ? & ?). eauto.
  - destruct (Z_lt_ge_dec (Z.abs v) (max_count ops)) as [C2|C2].
    + destruct (case_fill ops v Hv) as (l & ? & ? & ? & ? & ?); [lia|]. eauto.
    + destruct (case_over ops v Hv) as (l & ? & ? & ? & [?|[? ?]]); [lia| |]; eauto 7.
      exists l. split; [assumption|]. split; [assumption|]. right.
      split; [assumption|]. split; [lia|assumption].
Qed.

(** ** Total variation of the shifts *)

Definition abs_sum (l : list Z) : Z := zsum (map Z.abs l).

Lemma abs_sum_cons x l : abs_sum (x :: l) = Z.abs x + abs_sum l.
Proof. reflexivity. Qed.

Lemma abs_sum_app l1 l2 : abs_sum (l1 ++ l2) = abs_sum l1 + abs_sum l2.
Proof. unfold abs_sum. now rewrite map_app, zsum_app. Qed.

Lemma abs_sum_nonneg l : 0 <= abs_sum l.
Proof. induction l as [|x l IH]; [cbn; lia|]. rewrite abs_sum_cons. lia. Qed.

Lemma abs_sum_pos l : Forall (fun x => 0 <= x) l -> abs_sum l = zsum l.
Proof.
  induction 1 as [|x l Hx _ IH]; [reflexivity|]. rewrite abs_sum_cons, zsum_cons. lia.
Qed.

Lemma abs_sum_opp l : abs_sum (map Z.opp l) = abs_sum l.
Proof.
  induction l as [|x l IH]; [reflexivity|]. cbn [map]. rewrite !abs_sum_cons. lia.
Qed.

Lemma abs_sum_upd l : forall i f c, (forall x, Z.abs (f x) <= Z.abs x + c) -> 0 <= c ->
  abs_sum (upd l i f) <= abs_sum l + c.
Proof.
  induction l as [|y l IH]; intros [|i] f c Hf Hc; cbn [upd]; rewrite ?abs_sum_cons;
    try (cbn; lia).
  - specialize (Hf y). lia.
  - specialize (IH i f c Hf Hc). lia.
Qed.

Lemma flip_abs rem l : bits l -> forall oc, abs_sum (flip_loop rem oc l) = zsum l.
Proof.
  induction 1 as [|x l Hx Hl IH]; intros oc; cbn [flip_loop]; [reflexivity|].
  rewrite zsum_cons. destruct (oc <=? rem).
  - rewrite abs_sum_cons, (abs_sum_pos l); [lia|].
    eapply Forall_impl; [|exact Hl]. cbn. intros; lia.
  - destruct Hx as [-> | ->]; cbn [Z.eqb Pos.eqb]; rewrite abs_sum_cons, IH; lia.
Qed.

Lemma max_vars_pos ops : Forall valid_op ops -> Forall (fun x => 0 <= x) (map max_var ops).
Proof. intros H. rewrite Forall_map. eapply Forall_impl; [|exact H]. apply valid_degree_nonneg. Qed.

Lemma odd_vars_pos ops : Forall (fun x => 0 <= x) (map odd_var ops).
Proof. eapply Forall_impl; [|apply odd_bits]. cbn. intros; lia. Qed.

Lemma upd_pos l : forall i f, Forall (fun x => 0 <= x) l ->
  (forall x, nth_error l i = Some x -> 0 <= x -> 0 <= f x) ->
  Forall (fun x => 0 <= x) (upd l i f).
Proof.
  induction l as [|y l IH]; intros [|i] f Hl Hf; cbn [upd nth_error] in *;
    inversion Hl; subst; constructor; auto.
Qed.

Lemma abs_sum_bound ops v l : Forall valid_op ops -> lambda_abs_list ops v = Ok l ->
  abs_sum l <= total_degree ops + Z.abs v + 1.
Proof.
  intros Hv. rewrite <- max_count_degree. pose proof (odd_le_max ops Hv) as Hom.
  unfold lambda_abs_list. rewrite odd_vars_ok by assumption.
  cbn [bind]. fold (odd_count ops) (max_count ops). fold (oddin ops v).
  destruct (Z.abs v <? odd_count ops) eqn:C1; [|destruct (Z.abs v <? max_count ops) eqn:C2].
  - intros H. injection H as <-.
    pose proof (flip_abs (Z.abs v) _ (odd_bits ops) (odd_count ops)) as HF.
    fold (odd_count ops) in HF.
    destruct (0 <? oddin ops v); [|lia].
    pose proof (abs_sum_upd (flip_loop (Z.abs v) (odd_count ops) (map odd_var ops))
      (Z.to_nat (oddin ops v - 1)) (fun _ => 0) 0 ltac:(intros; cbv beta; lia) ltac:(lia)). lia.
  - set (mo := combine (map max_var ops) (map odd_var ops)).
    assert (HH : exists l0 r i', fill_loop (Z.abs v - odd_count ops) 0 mo = Ok (l0, r, i') /\
       abs_sum l0 <= Z.abs v + 1).
    { destruct (Z.eq_dec (Z.abs v) (odd_count ops)) as [Eq|Ne].
      - rewrite Eq, Z.sub_diag, fill_done by lia. unfold mo. rewrite map_snd_ops.
        eexists _, _, _. split; [reflexivity|].
        rewrite abs_sum_pos by apply odd_vars_pos. fold (odd_count ops). lia.
      - destruct (fill_exact mo (goodmo_ops ops Hv) (Z.abs v - odd_count ops) 0)
          as (mo1 & p & mo2 & E1 & E2 & E3 & E4).
        { unfold mo. rewrite dsum_ops. lia. }
        cbv zeta in E4. rewrite E4. eexists _, _, _. split; [reflexivity|].
        unfold mo in E1. apply combine_split_ops in E1 as (o1 & op & o2 & Eo & -> & -> & ->).
        rewrite dsum_ops in *. cbn [fst snd] in *.
        rewrite map_fst_ops, map_snd_ops.
        assert (Hoc : odd_count ops = odd_count o1 + odd_var op + odd_count o2).
        { rewrite Eo. unfold odd_count. rewrite map_app, zsum_app. cbn [map].
          rewrite zsum_cons. lia. }
        assert (Hv1 : Forall valid_op o1).
        { rewrite Eo in Hv. apply Forall_app in Hv. tauto. }
        rewrite abs_sum_app, abs_sum_cons, (abs_sum_pos _ (max_vars_pos o1 Hv1)),
          (abs_sum_pos _ (odd_vars_pos o2)).
        fold (max_count o1) (odd_count o2).
        assert (0 <= odd_var op) by (unfold odd_var; lia). lia. }
    destruct HH as (l0 & r & i' & E & HB). rewrite E. cbn [bind].
    intros H. injection H as <-.
    destruct (r <? 0); [|lia].
    destruct (0 <? oddin ops v);
      match goal with |- abs_sum (upd ?a ?b ?c) <= _ =>
        pose proof (abs_sum_upd a b c 1 ltac:(intros; cbv beta; lia) ltac:(lia)) end; lia.
  - intros H.
    set (l0 := if 0 <? oddin ops v
             then upd (map max_var ops) (Z.to_nat (oddin ops v - 1)) (fun x => x - 1)
             else map max_var ops) in *.
    set (rem := if 0 <? oddin ops v then Z.abs v - max_count ops + 1 else Z.abs v - max_count ops) in *.
    assert (HP : Forall (fun x => 0 <= x) l0 /\ zsum l0 + rem = Z.abs v /\ 0 <= rem).
    { unfold l0, rem.
      destruct (oddin_spec ops v) as [[E1 E2]|(j & E1 & E2 & E3 & E4)]; rewrite E1.
      - cbn [Z.ltb Z.compare]. split; [now apply max_vars_pos|].
        fold (max_count ops). lia.
      - replace (0 <? 1 + Z.of_nat j) with true by lia.
        replace (Z.to_nat (1 + Z.of_nat j - 1)) with j by lia.
        destruct (nth_error_ex (map max_var ops) j) as (y & Hy).
        { apply nth_error_lt in E3. now rewrite map_length in *. }
        split.
        + apply upd_pos; [now apply max_vars_pos|]. intros x Hx H0.
          rewrite nth_error_map in Hx, E3. destruct (nth_error ops j) as [op|]; [|discriminate].
          cbn in Hx, E3. injection Hx as <-. injection E3 as E3. unfold odd_var in E3.
          clear - E3 H0. destruct (Z.eq_dec (max_var op) 0) as [Z|]; [rewrite Z in E3; discriminate|lia].
        + rewrite (upd_sum _ _ _ _ Hy). fold (max_count ops). lia. }
    destruct HP as (HP & HS & HR). injection H as <-.
    destruct (0 <? rem).
    2: { rewrite abs_sum_pos by assumption. lia. }
    destruct ((0 <? v) && first_KT ops); [|destruct ((v <? 0) && last_KT ops)].
    1,2: match goal with |- abs_sum (upd ?a ?b ?c) <= _ =>
        pose proof (abs_sum_upd a b c rem ltac:(intros; cbv beta; lia) ltac:(lia)) end;
        rewrite (abs_sum_pos l0 HP) in H; lia.
    rewrite abs_sum_cons, abs_sum_pos by assumption. lia.
Qed.
