(** Property theorems C37, C38, C39: diagonalisation by L-blocks. *)

From Coq Require Import Lia Sorted ZifyBool ZifyNat Reals.
From Verif Require Import PyBase PyFacts Compat SphericalSpec Spherical SphericalFacts
  FullLabels FullLabelsFacts Matrix FullSpace FullSpaceFacts.
Open Scope Z_scope.

Ltac Zify.zify_post_hook ::= Z.div_mod_to_equations.

(** Number of labels (nu, (v, alpha, L')) with L' < L, respectively L' = L. *)
Definition count_below (labels : list (Z * (Z * Z * Z))) (L : Z) : Z :=
  zlen (filter (fun x => snd (snd x) <? L) labels).
Definition count_at (labels : list (Z * (Z * Z * Z))) (L : Z) : Z :=
  zlen (filter (fun x => snd (snd x) =? L) labels).

(** Some state of angular momentum L exists in the seniority range. *)
Definition has_states (v_min v_max L : Z) : Prop :=
  exists v, v_min <= v <= v_max /\ 0 < mult v L.

Definition L_top (L_min : Z) (L_max : option Z) : Z :=
  match L_max with None => L_min | Some l => l end.

Lemma Dig_valid {A} (RepX : Z -> option Z -> res (mat A)) Eig tame nu_min nu_max v_min v_max L_min L_max out :
  DigXspace RepX Eig tame nu_min nu_max v_min v_max L_min L_max = Ok out ->
  0 <= nu_min <= nu_max /\ 0 <= v_min <= v_max /\ 0 <= L_min <= L_top L_min L_max.
Proof.
  unfold DigXspace. intros E. fold (L_top L_min L_max) in E.
  destruct (range_cases nu_min nu_max) as [[Hn En]|[Hn En]]; rewrite En in E; [|discriminate].
  destruct (range_cases v_min v_max) as [[Hv Ev]|[Hv Ev]]; rewrite Ev in E; [|discriminate].
  destruct (range_cases L_min (L_top L_min L_max)) as [[HL El]|[HL El]]; rewrite El in E;
    [|discriminate]. auto.
Qed.

Lemma Dig_tame_out {A} (RepX : Z -> option Z -> res (mat A)) Eig nu_min nu_max v_min v_max L_min L_max evs ebs Lv :
  DigXspace RepX Eig true nu_min nu_max v_min v_max L_min L_max = Ok (evs, ebs, Lv) ->
  Lv = good v_min v_max (py_range L_min (L_top L_min L_max + 1)) /\
  length evs = length Lv /\ length ebs = length Lv /\
  Forall2 (fun L ve => exists M, RepX L None = Ok M /\ Eig M = Ok ve) Lv (combine evs ebs).
Proof.
  intros E. pose proof (Dig_valid _ _ _ _ _ _ _ _ _ _ E) as (Hn & Hv & HL).
  unfold DigXspace in E. fold (L_top L_min L_max) in E.
  rewrite !require_range_ok in E by lia. cbn [bind] in E.
  apply dig_tame_spec in E; [|lia|intros L Hin; apply py_range_In in Hin; lia].
  destruct E as (evs' & ebs' & -> & -> & -> & L1 & L2 & F). cbn [app]. auto.
Qed.

Lemma Dig_full_out {A} (RepX : Z -> option Z -> res (mat A)) Eig nu_min nu_max v_min v_max L_min L_max evs ebs Lv :
  DigXspace RepX Eig false nu_min nu_max v_min v_max L_min L_max = Ok (evs, ebs, Lv) ->
  Lv = good v_min v_max (py_range L_min (L_top L_min L_max + 1)) /\
  length evs = length Lv /\ length ebs = length Lv /\
  exists rep, RepX L_min (Some (L_top L_min L_max)) = Ok rep /\
  Forall2 (fun L ve => Eig (blk nu_min nu_max v_min v_max rep L_min L) = Ok ve) Lv (combine evs ebs).
Proof.
  intros E. pose proof (Dig_valid _ _ _ _ _ _ _ _ _ _ E) as (Hn & Hv & HL).
  unfold DigXspace in E. fold (L_top L_min L_max) in E.
  rewrite !require_range_ok in E by lia. cbn [bind] in E.
  apply bind_ok in E. destruct E as (rep & Erep & E).
  replace (L_top L_min L_max + 1)
    with (L_min + Z.of_nat (Z.to_nat (L_top L_min L_max + 1 - L_min))) in E by lia.
  assert (E1 : 1 = 1 + offs nu_min nu_max v_min v_max L_min L_min)
    by (unfold offs; rewrite py_range_nil by lia; reflexivity).
  rewrite E1 in E at 2.
  apply dig_full_spec in E; [|exact RepX|lia..].
  destruct E as (evs' & ebs' & -> & -> & -> & L1 & L2 & F). cbn [app].
  replace (L_min + Z.of_nat (Z.to_nat (L_top L_min L_max + 1 - L_min)))
    with (L_top L_min L_max + 1) in * by lia.
  repeat split; auto. exists rep. auto.
Qed.

Lemma blk_counts {A} (rep : mat A) nu_min nu_max v_min v_max L_min L_max L :
  L_min <= L <= L_max ->
  let labels := xlbs nu_min nu_max v_min v_max L_min L_max in
  offs nu_min nu_max v_min v_max L_min L = count_below labels L /\
  w nu_min nu_max v_min v_max L = count_at labels L.
Proof.
  intros H labels. unfold count_below, count_at, labels.
  change (fun x : Z * (Z * Z * Z) => snd (snd x) <? L) with (fun x => L_of x <? L).
  change (fun x : Z * (Z * Z * Z) => snd (snd x) =? L) with (fun x => L_of x =? L).
  rewrite xlbs_filter_lt, xlbs_filter_eq by lia.
  rewrite xlbs_len_sum. unfold offs. replace (L - 1 + 1) with L by lia. auto.
Qed.

(** * C37 *)

(** Operators without angular-momentum-carrying factors: for each L with states,
    exactly the matrix of that L is diagonalised. *)
Theorem C37_tame_blocks :
  forall (A : Type) (RepX : Z -> option Z -> res (mat A)) (Eig : mat A -> res (list A * mat A))
         nu_min nu_max v_min v_max L_min L_max evs ebs Lvals,
  DigXspace RepX Eig true nu_min nu_max v_min v_max L_min L_max = Ok (evs, ebs, Lvals) ->
  length evs = length Lvals /\ length ebs = length Lvals /\
  Forall2 (fun L ve => exists M, RepX L None = Ok M /\ Eig M = Ok ve) Lvals (combine evs ebs).
Proof.
  intros until Lvals. intros E. apply Dig_tame_out in E. tauto.
Qed.

(** ... and it succeeds whenever the representation and the eigen-solver do. *)
Theorem C37_tame_total :
  forall (A : Type) (RepX : Z -> option Z -> res (mat A)) (Eig : mat A -> res (list A * mat A))
         nu_min nu_max v_min v_max L_min L_max,
  0 <= nu_min <= nu_max -> 0 <= v_min <= v_max -> 0 <= L_min <= L_max ->
  (forall L, L_min <= L <= L_max -> has_states v_min v_max L ->
     exists M ve, RepX L None = Ok M /\ Eig M = Ok ve) ->
  exists out, DigXspace RepX Eig true nu_min nu_max v_min v_max L_min (Some L_max) = Ok out.
Proof.
  intros until L_max. intros Hn Hv HL H. unfold DigXspace.
  rewrite !require_range_ok by lia. cbn [bind]. apply dig_tame_total.
  - assumption.
  - intros L Hin. apply py_range_In in Hin. lia.
  - intros L Hin. apply good_In in Hin. apply H; tauto.
Qed.

(** Other operators: what is diagonalised for L is the square slice that starts at
    the first state of L and is one longer than the number of states of L. *)
Theorem C37_full_blocks :
  forall (A : Type) (RepX : Z -> option Z -> res (mat A)) (Eig : mat A -> res (list A * mat A))
         nu_min nu_max v_min v_max L_min L_max evs ebs Lvals,
  DigXspace RepX Eig false nu_min nu_max v_min v_max L_min (Some L_max) = Ok (evs, ebs, Lvals) ->
  exists rep labels,
    RepX L_min (Some L_max) = Ok rep /\
    lbsXspace nu_min nu_max v_min v_max L_min (Some L_max) = Ok labels /\
    length evs = length Lvals /\ length ebs = length Lvals /\
    Forall2 (fun L ve =>
        let s := count_below labels L in
        let e := s + count_at labels L + 1 in
        Eig (slice rep s e s e) = Ok ve)
      Lvals (combine evs ebs).
Proof.
  intros until Lvals. intros E. pose proof (Dig_valid _ _ _ _ _ _ _ _ _ _ E) as (Hn & Hv & HL).
  apply Dig_full_out in E. destruct E as (ELv & L1 & L2 & rep & Erep & F).
  exists rep, (xlbs nu_min nu_max v_min v_max L_min L_max).
  split; [exact Erep|]. split; [now apply (lbsXspace_ok _ _ _ _ _ (Some L_max))|].
  split; [assumption|]. split; [assumption|].
  assert (HLv : forall L, In L Lvals -> L_min <= L <= L_max).
  { intros L Hin. rewrite ELv in Hin. apply good_In in Hin. cbn in Hin. tauto. }
  clear -F HLv. induction F as [|L ve Ls ves H F IH]; constructor.
  - cbn zeta. destruct (blk_counts rep nu_min nu_max v_min v_max L_min L_max L) as [E1 E2];
      [apply HLv; now left|]. rewrite <- E1, <- E2. exact H.
  - apply IH. intros. apply HLv. now right.
Qed.

(** Hence, for a square representation of the right size and an eigen-solver
    returning one eigenvalue per row, the list for L is one too long unless L is
    the last angular momentum that has states. *)
Theorem C37_full_lengths :
  forall (A : Type) (RepX : Z -> option Z -> res (mat A)) (Eig : mat A -> res (list A * mat A))
         nu_min nu_max v_min v_max L_min L_max evs ebs Lvals rep N,
  DigXspace RepX Eig false nu_min nu_max v_min v_max L_min (Some L_max) = Ok (evs, ebs, Lvals) ->
  RepX L_min (Some L_max) = Ok rep ->
  dimXspace nu_min nu_max v_min v_max L_min (Some L_max) = Ok N -> nrows rep = N -> ncols rep = N ->
  (forall M vals P, Eig M = Ok (vals, P) -> zlen vals = nrows M) ->
  Forall2 (fun L vals => forall d,
      dimXspace nu_min nu_max v_min v_max L None = Ok d ->
      zlen vals = d + (if existsb (fun L' => L <? L') Lvals then 1 else 0))
    Lvals evs.
Proof.
  intros until N. intros E Erep EN Hr Hc HEig.
  pose proof (Dig_valid _ _ _ _ _ _ _ _ _ _ E) as (Hn & Hv & HL). cbn [L_top] in HL.
  apply Dig_full_out in E. destruct E as (ELv & L1 & L2 & rep' & Erep' & F).
  cbn [L_top] in *. rewrite Erep in Erep'. injection Erep' as <-.
  rewrite dimXspace_ok in EN by (cbn; lia). cbn [opt_L] in EN. injection EN as EN.
  assert (HLv : forall L, In L Lvals <-> L_min <= L <= L_max /\ has_states v_min v_max L).
  { intros L. rewrite ELv. apply good_In. }
  assert (G : forall L ve, In L Lvals -> Eig (blk nu_min nu_max v_min v_max rep L_min L) = Ok ve ->
     forall d, dimXspace nu_min nu_max v_min v_max L None = Ok d ->
      zlen (fst ve) = d + (if existsb (fun L' => L <? L') Lvals then 1 else 0)).
  { intros L [vals P] Hin HE d Hd. apply HEig in HE. cbn [fst]. rewrite HE.
    pose proof (proj1 (HLv L) Hin) as (HLr & _).
    rewrite dimXspace_ok in Hd by (cbn; lia). cbn [opt_L] in Hd. injection Hd as Hd.
    unfold blk, slice. cbn [nrows]. rewrite Hr.
    assert (S1 : offs nu_min nu_max v_min v_max L_min L
                 = zlen (xlbs nu_min nu_max v_min v_max L_min (L - 1))).
    { unfold offs. rewrite xlbs_len_sum. now replace (L - 1 + 1) with L by lia. }
    assert (S2 : N = zlen (xlbs nu_min nu_max v_min v_max L_min (L - 1)) + d
                     + zlen (xlbs nu_min nu_max v_min v_max (L + 1) L_max)).
    { rewrite <- EN, (xlbs_split _ _ _ _ L_min (L - 1) L_max), zlen_app by lia.
      replace (L - 1 + 1) with L by lia.
      rewrite (xlbs_split _ _ _ _ L L L_max), zlen_app, Hd by lia. lia. }
    assert (W : w nu_min nu_max v_min v_max L = d) by exact Hd.
    rewrite S1, W.
    set (x := zlen (xlbs nu_min nu_max v_min v_max L_min (L - 1))) in *.
    set (y := zlen (xlbs nu_min nu_max v_min v_max (L + 1) L_max)) in *.
    assert (0 <= x) by apply zlen_nonneg. assert (0 <= d) by (rewrite <- Hd; apply zlen_nonneg).
    unfold slice_bound.
    destruct (existsb (fun L' => L <? L') Lvals) eqn:Ex.
    - apply existsb_exists in Ex. destruct Ex as (L' & HL' & HLL').
      apply HLv in HL'. destruct HL' as (HLr' & v & Hv' & Hm).
      assert (Hy : In (nu_min, (v, 1, L')) (xlbs nu_min nu_max v_min v_max (L + 1) L_max))
        by (apply xlbs_In; lia).
      assert (0 < y).
      { unfold y. destruct (xlbs nu_min nu_max v_min v_max (L + 1) L_max) as [|z l]; [destruct Hy|].
        rewrite zlen_cons. pose proof (zlen_nonneg l). lia. }
      destruct (x <? 0) eqn:?; destruct (x + d + 1 <? 0) eqn:?; lia.
    - assert (y = 0).
      { unfold y. destruct (xlbs nu_min nu_max v_min v_max (L + 1) L_max) as [|[nu [[v a] L']] l] eqn:El;
          [reflexivity|]. exfalso.
        assert (Hy : In (nu, (v, a, L')) (xlbs nu_min nu_max v_min v_max (L + 1) L_max))
          by (rewrite El; now left).
        apply xlbs_In in Hy.
        assert (In L' Lvals) by (apply HLv; split; [lia|exists v; lia]).
        assert (existsb (fun L' => L <? L') Lvals = true)
          by (apply existsb_exists; exists L'; split; [assumption|lia]). congruence. }
      destruct (x <? 0) eqn:?; destruct (x + d + 1 <? 0) eqn:?; lia. }
  assert (SUB : forall L, In L Lvals -> In L Lvals) by auto. revert SUB F L1 L2 G.
  generalize (existsb (fun L' => 0 <? L') Lvals) as dummy. intros _.
  intros SUB F L1 L2 G. clear ELv HLv.
  set (LL := Lvals) in G, SUB at 2 |- * at 1.
  change (Forall2 (fun L vals => forall d, dimXspace nu_min nu_max v_min v_max L None = Ok d ->
      zlen vals = d + (if existsb (fun L' => L <? L') LL then 1 else 0)) Lvals evs).
  assert (GEN : forall l ve vb, Forall2 (fun L x => Eig (blk nu_min nu_max v_min v_max rep L_min L) = Ok x) l (combine ve vb) ->
     length ve = length l -> length vb = length l -> (forall L, In L l -> In L LL) ->
     Forall2 (fun L vals => forall d, dimXspace nu_min nu_max v_min v_max L None = Ok d ->
      zlen vals = d + (if existsb (fun L' => L <? L') LL then 1 else 0)) l ve).
  { clear F L1 L2 SUB. induction l as [|L l IH]; intros ve vb F E1 E2 SUB.
    - destruct ve; [constructor|discriminate].
    - destruct ve as [|v0 ve]; [discriminate|]. destruct vb as [|b0 vb]; [discriminate|].
      cbn [combine] in F. inversion F; subst. constructor.
      + intros d Hd. apply (G L (v0, b0)); auto. apply SUB. now left.
      + apply (IH ve vb); auto. intros; apply SUB; now right. }
  apply (GEN Lvals evs ebs); auto.
Qed.

(** The documented behaviour (each L block holds just the states of that L) fails. *)
Theorem C37_full_blocks_refuted :
  exists (RepX : Z -> option Z -> res (mat Z)) (Eig : mat Z -> res (list Z * mat Z))
         vals0 rest bases d,
    (forall M, exists vals P, Eig M = Ok (vals, P) /\ (0 <= nrows M -> zlen vals = nrows M)) /\
    (forall lo hi N, dimXspace 0 0 0 2 lo hi = Ok N ->
       exists M, RepX lo hi = Ok M /\ nrows M = N /\ ncols M = N) /\
    DigXspace RepX Eig false 0 0 0 2 0 (Some 2) = Ok (vals0 :: rest, bases, [0; 2]) /\
    dimXspace 0 0 0 2 0 None = Ok d /\ zlen vals0 <> d.
Proof.
  exists (fun lo hi => let* d := dimXspace 0 0 0 2 lo hi in Ok (mkMat d d (fun _ _ => 0))).
  exists (fun M => Ok (repeat 0 (Z.to_nat (nrows M)), M)).
  do 4 eexists. split; [|split; [|split; [|split]]].
  - intros M. do 2 eexists. split; [reflexivity|]. intros H. unfold zlen.
    rewrite repeat_length. lia.
  - intros lo hi N E. rewrite E. cbn [bind]. eexists. split; [reflexivity|]. auto.
  - vm_compute. reflexivity.
  - vm_compute. reflexivity.
  - vm_compute. discriminate.
Qed.

(** * C38 *)

Theorem C38_Lvals :
  forall (A : Type) (RepX : Z -> option Z -> res (mat A)) (Eig : mat A -> res (list A * mat A))
         tame nu_min nu_max v_min v_max L_min L_max evs ebs Lvals,
  DigXspace RepX Eig tame nu_min nu_max v_min v_max L_min L_max = Ok (evs, ebs, Lvals) ->
  StronglySorted Z.lt Lvals /\
  (forall L, In L Lvals <-> L_min <= L <= L_top L_min L_max /\ has_states v_min v_max L) /\
  length evs = length Lvals /\ length ebs = length Lvals /\
  (Lvals <> [] -> validate_Lvals Lvals = Ok tt) /\
  (Lvals = [] -> validate_Lvals Lvals = Raise ValueError).
Proof.
  intros until Lvals. intros E.
  pose proof (Dig_valid _ _ _ _ _ _ _ _ _ _ E) as (Hn & Hv & HL).
  assert (F : Lvals = good v_min v_max (py_range L_min (L_top L_min L_max + 1)) /\
              length evs = length Lvals /\ length ebs = length Lvals).
  { destruct tame; [apply Dig_tame_out in E|apply Dig_full_out in E]; tauto. }
  destruct F as (-> & L1 & L2).
  split; [apply good_sorted|]. split; [intros; apply good_In|].
  split; [assumption|]. split; [assumption|]. split.
  - intros Hne. apply validate_Lvals_spec. split; [assumption|].
    split; [|apply good_sorted]. intros L Hin. apply good_In in Hin. lia.
  - intros ->. reflexivity.
Qed.

Theorem C38_validate_Lvals : forall Lvals,
  (validate_Lvals Lvals = Ok tt <->
     Lvals <> [] /\ (forall L, In L Lvals -> 0 <= L) /\ StronglySorted Z.lt Lvals) /\
  (validate_Lvals Lvals = Ok tt \/ validate_Lvals Lvals = Raise ValueError).
Proof. exact validate_Lvals_spec. Qed.

Theorem C38_invalid_ranges_raise :
  forall (A : Type) (RepX : Z -> option Z -> res (mat A)) (Eig : mat A -> res (list A * mat A))
         tame nu_min nu_max v_min v_max L_min L_max,
  ~ (0 <= nu_min <= nu_max /\ 0 <= v_min <= v_max /\ 0 <= L_min <= L_top L_min L_max) ->
  DigXspace RepX Eig tame nu_min nu_max v_min v_max L_min L_max = Raise ValueError.
Proof.
  intros until L_max. intros H. unfold DigXspace. fold (L_top L_min L_max).
  destruct (range_cases nu_min nu_max) as [[Hn En]|[Hn En]]; rewrite En; [|reflexivity].
  destruct (range_cases v_min v_max) as [[Hv Ev]|[Hv Ev]]; rewrite Ev; [|reflexivity].
  destruct (range_cases L_min (L_top L_min L_max)) as [[HL El]|[HL El]]; rewrite El;
    [|reflexivity]. tauto.
Qed.

(** L = 1 has no states and is skipped. *)
Example C38_ex :
  exists evs ebs, DigXspace (fun _ _ => Ok (mkMat 1 1 (fun _ _ => 0)))
    (fun M => Ok ([], M)) true 0 1 0 3 0 (Some 4) = Ok (evs, ebs, [0; 2; 3; 4]).
Proof. do 2 eexists. vm_compute. reflexivity. Qed.

(** * C39 *)

(** Blocks are consecutive intervals [start, start + dimXspace(L)) covering 0..dim. *)
Theorem C39_blocks_tile :
  forall nu_min nu_max v_min v_max Lvals,
  0 <= nu_min <= nu_max -> 0 <= v_min <= v_max ->
  NoDup Lvals -> (forall L, In L Lvals -> 0 <= L) ->
  exists fs, LBlockFullSpace_init nu_min nu_max v_min v_max Lvals = Ok fs /\
  forall l1 L l2 ds d, Lvals = l1 ++ L :: l2 ->
    mapM (fun L => dimXspace nu_min nu_max v_min v_max L None) l1 = Ok ds ->
    dimXspace nu_min nu_max v_min v_max L None = Ok d ->
    get_block_for_L fs L = Ok (zsum ds, zsum ds + d) /\
    (l2 = [] -> fs_dim nu_min nu_max v_min v_max Lvals = Ok (zsum ds + d)).
Proof.
  intros until Lvals. intros Hn Hv Hd Hnn. unfold LBlockFullSpace_init.
  rewrite !require_range_ok by lia. cbn [bind]. rewrite mk_blocks_ok by assumption. cbn [bind].
  eexists. split; [reflexivity|]. intros l1 L l2 ds d E Eds Ed.
  assert (Eds' : mapM (fun L => dimXspace nu_min nu_max v_min v_max L None) l1
                 = Ok (map (w nu_min nu_max v_min v_max) l1)).
  { apply mapM_ok. intros x Hx. rewrite dimXspace_ok; [reflexivity|lia..|].
    cbn. assert (0 <= x); [|lia]. apply Hnn. rewrite E. apply in_or_app. now left. }
  rewrite Eds in Eds'. injection Eds' as ->.
  assert (HL : 0 <= L) by (apply Hnn; rewrite E; apply in_or_app; right; now left).
  rewrite dimXspace_ok in Ed by (cbn; lia). injection Ed as <-.
  split.
  - unfold get_block_for_L. cbn [fs_blocks].
    rewrite (blocks_get nu_min nu_max v_min v_max Lvals Hd 0 l1 L l2 E). reflexivity.
  - intros ->. unfold fs_dim. rewrite dims_ok by assumption. cbn [bind].
    rewrite E, map_app, zsum_app. cbn [map zsum fold_right]. unfold w. cbn [opt_L]. do 2 f_equal. lia.
Qed.

(** An L that is not listed has no block. *)
Theorem C39_unknown_block :
  forall nu_min nu_max v_min v_max Lvals fs L,
  LBlockFullSpace_init nu_min nu_max v_min v_max Lvals = Ok fs ->
  (forall x, In x Lvals -> 0 <= x) ->
  ~ In L Lvals -> get_block_for_L fs L = Raise ValueError.
Proof.
  intros until L. intros E Hnn HL. unfold LBlockFullSpace_init in E.
  destruct (range_cases nu_min nu_max) as [[Hn En]|[Hn En]]; rewrite En in E; [|discriminate].
  destruct (range_cases v_min v_max) as [[Hv Ev]|[Hv Ev]]; rewrite Ev in E; [|discriminate].
  cbn [bind] in E. rewrite mk_blocks_ok in E by assumption. cbn [bind] in E. injection E as <-.
  unfold get_block_for_L. cbn [fs_blocks]. rewrite dict_get_none; [reflexivity|].
  now rewrite blocks_keys.
Qed.

(** With every L that has states listed, the block of L is exactly the index
    interval of the labels with that L in the label list of the whole range. *)
Theorem C39_blocks_are_label_intervals :
  forall nu_min nu_max v_min v_max Lvals L_min L_max,
  0 <= nu_min <= nu_max -> 0 <= v_min <= v_max ->
  validate_Lvals Lvals = Ok tt -> head_last Lvals = Ok (L_min, L_max) ->
  (forall L, L_min <= L <= L_max -> has_states v_min v_max L -> In L Lvals) ->
  exists fs labels,
    LBlockFullSpace_init nu_min nu_max v_min v_max Lvals = Ok fs /\
    lbsXspace nu_min nu_max v_min v_max L_min (Some L_max) = Ok labels /\
    fs_dim nu_min nu_max v_min v_max Lvals = Ok (zlen labels) /\
    forall L, In L Lvals -> exists s e sub,
      get_block_for_L fs L = Ok (s, e) /\ 0 <= s <= e /\
      lbsXspace nu_min nu_max v_min v_max L None = Ok sub /\
      e - s = zlen sub /\
      firstn (Z.to_nat (e - s)) (skipn (Z.to_nat s) labels) = sub.
Proof.
  intros until L_max. intros Hn Hv Hval Hhl Hcomp.
  apply validate_Lvals_spec in Hval. destruct Hval as (Hne & Hnn & Hsorted).
  destruct Lvals as [|x0 l0] eqn:El; [congruence|]. cbn [head_last] in Hhl. injection Hhl as Eh Et.
  rewrite <- El in *. assert (Hr : forall L, In L Lvals -> L_min <= L <= L_max).
  { intros L Hin. rewrite <- Et, <- Eh. rewrite El in Hin. apply sorted_head_last; [|assumption].
    now rewrite <- El. }
  assert (Hx : In L_min Lvals) by (rewrite El, Eh; now left).
  pose proof (Hnn _ Hx) as H0. pose proof (Hr _ Hx) as H1.
  assert (Hd : NoDup Lvals) by (eapply StronglySorted_NoDup; [|exact Hsorted]; intros; lia).
  unfold LBlockFullSpace_init.
  rewrite !require_range_ok by lia. cbn [bind]. rewrite mk_blocks_ok by assumption. cbn [bind].
  eexists. exists (xlbs nu_min nu_max v_min v_max L_min L_max).
  split; [reflexivity|]. split; [apply (lbsXspace_ok _ _ _ _ _ (Some L_max)); cbn; lia|].
  assert (EX : xlbs nu_min nu_max v_min v_max L_min L_max
     = flat_map (fun L => xlbs nu_min nu_max v_min v_max L L) Lvals)
    by (apply xlbs_complete; assumption).
  split.
  { unfold fs_dim. rewrite dims_ok by assumption. cbn [bind].
    rewrite EX, zlen_flat_map. reflexivity. }
  intros L Hin. pose proof (in_split _ _ Hin) as (l1 & l2 & Esp).
  exists (zsum (map (w nu_min nu_max v_min v_max) l1)).
  exists (zsum (map (w nu_min nu_max v_min v_max) l1) + w nu_min nu_max v_min v_max L).
  exists (xlbs nu_min nu_max v_min v_max L L).
  assert (P1 : 0 <= zsum (map (w nu_min nu_max v_min v_max) l1)).
  { apply zsum_nonneg. intros y Hy. apply in_map_iff in Hy. destruct Hy as (z & <- & _).
    apply zlen_nonneg. }
  assert (P2 : 0 <= w nu_min nu_max v_min v_max L) by apply zlen_nonneg.
  split.
  { unfold get_block_for_L. cbn [fs_blocks].
    rewrite (blocks_get nu_min nu_max v_min v_max Lvals Hd 0 l1 L l2 Esp). reflexivity. }
  split; [lia|].
  split; [apply (lbsXspace_ok _ _ _ _ _ None); cbn; specialize (Hnn L Hin); lia|].
  split; [unfold w; lia|].
  rewrite EX, Esp, flat_map_app.
  cbn [flat_map].
  assert (Q1 : Z.to_nat (zsum (map (w nu_min nu_max v_min v_max) l1))
    = length (flat_map (fun L => xlbs nu_min nu_max v_min v_max L L) l1)).
  { assert (Z1 : zlen (flat_map (fun L => xlbs nu_min nu_max v_min v_max L L) l1)
      = zsum (map (w nu_min nu_max v_min v_max) l1)) by apply zlen_flat_map.
    rewrite <- Z1. unfold zlen. lia. }
  assert (Q2 : Z.to_nat (zsum (map (w nu_min nu_max v_min v_max) l1)
                         + w nu_min nu_max v_min v_max L
                         - zsum (map (w nu_min nu_max v_min v_max) l1))
    = length (xlbs nu_min nu_max v_min v_max L L)).
  { unfold w at 2, zlen. lia. }
  rewrite Q1, Q2. apply firstn_skipn_mid.
Qed.

(** Consequently AmpXspeig succeeds, writes every entry, and its (L_row, L_col)
    block is inverse basis times transition block times basis. *)
Theorem C39_AmpXspeig_complete :
  forall RepX inv bases invs nu_min nu_max v_min v_max Lvals L_min L_max T N,
  0 <= nu_min <= nu_max -> 0 <= v_min <= v_max ->
  validate_Lvals Lvals = Ok tt -> head_last Lvals = Ok (L_min, L_max) ->
  (forall L, L_min <= L <= L_max -> has_states v_min v_max L -> In L Lvals) ->
  RepX L_min L_max = Ok T ->
  dimXspace nu_min nu_max v_min v_max L_min (Some L_max) = Ok N -> nrows T = N -> ncols T = N ->
  mapM inv bases = Ok invs ->
  Forall2 (fun P L => dimXspace nu_min nu_max v_min v_max L None = Ok (nrows P) /\ ncols P = nrows P)
    bases Lvals ->
  Forall2 (fun P L => dimXspace nu_min nu_max v_min v_max L None = Ok (nrows P) /\ ncols P = nrows P)
    invs Lvals ->
  exists result fs, AmpXspeig RepX inv bases nu_min nu_max v_min v_max Lvals = Ok (result, fs) /\
    nrows result = N /\ ncols result = N /\
    (forall i j, 0 <= i < N -> 0 <= j < N -> exists x, ent result i j = Some x) /\
    (forall Q Lr P Lc, In (Q, Lr) (combine invs Lvals) -> In (P, Lc) (combine bases Lvals) ->
       exists B QB QBP out, get_block T fs Lr Lc = Ok B /\ matmul Q B = Ok QB /\
         matmul QB P = Ok QBP /\ get_block result fs Lr Lc = Ok out /\
         mat_eq out (mat_some QBP)).
Proof.
  intros until N. intros Hn Hv Hval Hhl Hcomp ET EN HrT HcT Einv HB HI.
  pose proof Hval as Hval'.
  apply validate_Lvals_spec in Hval'. destruct Hval' as (Hne & Hnn & Hsorted).
  assert (Hr : (forall L, In L Lvals -> L_min <= L <= L_max) /\ In L_min Lvals).
  { destruct Lvals as [|x0 l0]; [congruence|]. cbn [head_last] in Hhl. injection Hhl as Eh Et.
    split; [|rewrite Eh; now left].
    intros L Hin. rewrite <- Et, <- Eh. now apply sorted_head_last. }
  destruct Hr as (Hr & Hx).
  pose proof (Hnn _ Hx) as H0. pose proof (Hr _ Hx) as H1.
  assert (Hd : NoDup Lvals) by (eapply StronglySorted_NoDup; [|exact Hsorted]; intros; lia).
  rewrite dimXspace_ok in EN by (cbn; lia). cbn [opt_L] in EN. injection EN as EN.
  assert (EX : xlbs nu_min nu_max v_min v_max L_min L_max
     = flat_map (fun L => xlbs nu_min nu_max v_min v_max L L) Lvals)
    by (apply xlbs_complete; assumption).
  unfold AmpXspeig. rewrite Hval. cbn [bind]. unfold LBlockFullSpace_init.
  rewrite !require_range_ok by lia. cbn [bind]. rewrite mk_blocks_ok by assumption. cbn [bind].
  rewrite Hhl. cbn [bind]. rewrite ET. cbn [bind]. unfold LBlockNDFloatArray_init.
  cbn [np_empty nrows ncols]. rewrite HrT, HcT, Z.eqb_refl. cbn [negb raise_if bind].
  rewrite Einv. cbn [bind].
  set (fs := {| fs_nu_min := _ |}).
  set (wd := w nu_min nu_max v_min v_max).
  set (st := wsum_before nu_min nu_max v_min v_max Lvals).
  assert (Wn : forall L, 0 <= wd L) by (intros; apply zlen_nonneg).
  assert (Sum_nonneg : forall l, 0 <= zsum (map wd l)).
  { intros l. apply zsum_nonneg. intros y Hy. apply in_map_iff in Hy. destruct Hy as (z & <- & _). auto. }
  assert (Hget : forall L, In L Lvals -> get_block_for_L fs L = Ok (st L, st L + wd L)).
  { intros L Hin. destruct (in_split _ _ Hin) as (l1 & l2 & Esp).
    unfold get_block_for_L. unfold fs. cbn [fs_blocks].
    rewrite (blocks_get nu_min nu_max v_min v_max Lvals Hd 0 l1 L l2 Esp).
    unfold st, wsum_before. rewrite Esp at 1 2. rewrite sorted_filter_prefix by (now rewrite <- Esp).
    reflexivity. }
  assert (Nsum : N = zsum (map wd Lvals)).
  { rewrite <- EN, EX, zlen_flat_map. reflexivity. }
  assert (Hst : forall L, In L Lvals -> 0 <= st L /\ 0 <= wd L /\ st L + wd L <= N).
  { intros L Hin. destruct (in_split _ _ Hin) as (l1 & l2 & Esp).
    assert (Es : st L = zsum (map wd l1)).
    { unfold st, wsum_before. rewrite Esp, sorted_filter_prefix by (now rewrite <- Esp). reflexivity. }
    rewrite Nsum, Esp, map_app, zsum_app, Es. cbn [map]. rewrite zsum_cons.
    pose proof (Sum_nonneg l1). pose proof (Sum_nonneg l2). pose proof (Wn L). lia. }
  assert (Hdis1 : forall L L', In L Lvals -> In L' Lvals -> L < L' -> st L + wd L <= st L').
  { intros L L' Hin Hin' Hlt. destruct (in_split _ _ Hin') as (l1 & l2 & Esp).
    assert (Es : st L' = zsum (map wd l1)).
    { unfold st, wsum_before. rewrite Esp, sorted_filter_prefix by (now rewrite <- Esp). reflexivity. }
    assert (Hl1 : In L l1).
    { rewrite <- (sorted_filter_prefix l1 L' l2) by (now rewrite <- Esp). rewrite <- Esp.
      apply filter_In. split; [assumption|lia]. }
    destruct (in_split _ _ Hl1) as (m1 & m2 & Em).
    assert (Es1 : st L = zsum (map wd m1)).
    { unfold st, wsum_before. rewrite Esp, Em, <- app_assoc. cbn [app].
      rewrite sorted_filter_prefix; [reflexivity|].
      rewrite Esp, Em, <- app_assoc in Hsorted. exact Hsorted. }
    rewrite Es, Es1, Em, map_app, zsum_app. cbn [map]. rewrite zsum_cons.
    pose proof (Sum_nonneg m2). lia. }
  assert (Hdis : forall L L', In L Lvals -> In L' Lvals -> L <> L' ->
    st L + wd L <= st L' \/ st L' + wd L' <= st L).
  { intros L L' Hin Hin' Hlt. destruct (Z_lt_le_dec L L'); [left|right]; apply Hdis1; auto; lia. }
  assert (Hcover : forall k, 0 <= k < N -> exists L, In L Lvals /\ st L <= k < st L + wd L).
  { intros k Hk. rewrite Nsum in Hk.
    assert (G : forall l2 l1, Lvals = l1 ++ l2 -> zsum (map wd l1) <= k < zsum (map wd Lvals) ->
              exists L, In L Lvals /\ st L <= k < st L + wd L).
    { induction l2 as [|L l2 IH]; intros l1 Esp Hk'.
      - rewrite Esp, app_nil_r in Hk'. lia.
      - assert (Es : st L = zsum (map wd l1)).
        { unfold st, wsum_before. rewrite Esp, sorted_filter_prefix by (now rewrite <- Esp). reflexivity. }
        destruct (Z_lt_le_dec k (zsum (map wd l1) + wd L)).
        + exists L. split; [rewrite Esp; apply in_or_app; right; now left|]. lia.
        + apply (IH (l1 ++ [L])); [rewrite <- app_assoc; exact Esp|].
          rewrite map_app, zsum_app. cbn [map]. rewrite zsum_cons. cbn [zsum fold_right]. lia. }
    apply (G Lvals []); [reflexivity|]. cbn. lia. }
  assert (Hfst : forall (l : list (mat R)), Forall2 (fun P L =>
        dimXspace nu_min nu_max v_min v_max L None = Ok (nrows P) /\ ncols P = nrows P) l Lvals ->
      map snd (combine l Lvals) = Lvals /\
      (forall P L, In (P, L) (combine l Lvals) -> In L Lvals /\ nrows P = wd L /\ ncols P = wd L)).
  { intros l HF. assert (K : forall l' Lv', Forall2 (fun (P : mat R) L =>
        dimXspace nu_min nu_max v_min v_max L None = Ok (nrows P) /\ ncols P = nrows P) l' Lv' ->
        (forall L, In L Lv' -> 0 <= L) ->
        map snd (combine l' Lv') = Lv' /\
        (forall P L, In (P, L) (combine l' Lv') -> In L Lv' /\ nrows P = wd L /\ ncols P = wd L)).
    { induction 1 as [|P L l' Lv' [E1 E2] HF' IH]; intros Hnn'; [split; [reflexivity|intros ? ? []]|].
      destruct IH as (I1 & I2); [intros; apply Hnn'; now right|]. cbn [combine map snd].
      split; [now rewrite I1|]. intros P' L' [Eq|Hin].
      - injection Eq as <- <-. assert (0 <= L) by (apply Hnn'; now left).
        rewrite dimXspace_ok in E1 by (cbn; lia). injection E1 as E1. cbn [opt_L] in E1.
        split; [now left|]. unfold wd, w. split; congruence.
      - destruct (I2 P' L' Hin) as (? & ? & ?). repeat split; auto. now right. }
    apply K; assumption. }
  destruct (Hfst _ HB) as (KB1 & KB2). destruct (Hfst _ HI) as (KI1 & KI2).
  destruct (amp_rows_spec fs Lvals st wd N Hget Hst Hdis T HrT HcT (combine bases Lvals))
    with (rows := combine invs Lvals) (r := np_empty N N)
    as (r' & E & Er & Ec & Hin & _);
    [now rewrite KB1|assumption|now rewrite KI1|assumption|reflexivity|reflexivity|].
  rewrite E. cbn [bind]. exists r', fs.
  split; [reflexivity|]. split; [assumption|]. split; [assumption|].
  assert (Hex : forall (l : list (mat R)) L, map snd (combine l Lvals) = Lvals -> In L Lvals ->
    exists P, In (P, L) (combine l Lvals)).
  { intros l L E1 HL. rewrite <- E1 in HL. apply in_map_iff in HL.
    destruct HL as ([P L'] & <- & HL). eauto. }
  split.
  - intros i j Hi Hj. destruct (Hcover i Hi) as (Lr & HLr & Hir). destruct (Hcover j Hj) as (Lc & HLc & Hjc).
    destruct (Hex invs Lr KI1 HLr) as (Q & HQ). destruct (Hex bases Lc KB1 HLc) as (P & HP).
    eexists. specialize (Hin Q Lr P Lc HQ HP (i - st Lr) (j - st Lc)).
    replace (st Lr + (i - st Lr)) with i in Hin by lia.
    replace (st Lc + (j - st Lc)) with j in Hin by lia. apply Hin; lia.
  - intros Q Lr P Lc HQ HP.
    destruct (KI2 _ _ HQ) as (HLr & E1 & E2). destruct (KB2 _ _ HP) as (HLc & E3 & E4).
    do 4 eexists.
    split; [apply (get_block_ok fs Lvals st wd N Hget Hst Hdis T HrT HcT Lr Lc HLr HLc)|].
    split; [unfold matmul; cbn [nrows ncols]; rewrite E2, Z.eqb_refl; reflexivity|].
    split; [unfold matmul; cbn [nrows ncols]; rewrite E3, Z.eqb_refl; reflexivity|].
    split.
    { unfold get_block. rewrite !Hget by assumption. cbn [bind]. reflexivity. }
    unfold mat_eq, slice. cbn [nrows ncols ent mat_some].
    pose proof (Hst Lr HLr). pose proof (Hst Lc HLc).
    rewrite Er, Ec, !slice_bound_in by lia. rewrite E1, E4.
    split; [lia|]. split; [lia|]. intros i j Hi Hj.
    apply (Hin Q Lr P Lc HQ HP i j); lia.
Qed.

(** If Lvals skips an L that has states, the blocks are misaligned: index 1 belongs
    to the block of L = 4 although it is an L = 2 state. *)
Theorem C39_skipping_refuted :
  exists fs labels s e x,
    validate_Lvals [0; 4] = Ok tt /\
    LBlockFullSpace_init 0 0 0 2 [0; 4] = Ok fs /\
    lbsXspace 0 0 0 2 0 (Some 4) = Ok labels /\
    get_block_for_L fs 4 = Ok (s, e) /\
    nth_error labels (Z.to_nat s) = Some x /\ snd (snd x) = 2 /\
    fs_dim 0 0 0 2 [0; 4] <> Ok (zlen labels).
Proof.
  do 5 eexists. repeat (split; [vm_compute; reflexivity|]). vm_compute. discriminate.
Qed.

Example C39_ex : exists fs,
  LBlockFullSpace_init 0 1 0 3 [0; 2; 3] = Ok fs /\
  get_block_for_L fs 0 = Ok (0, 4) /\ get_block_for_L fs 2 = Ok (4, 8) /\
  get_block_for_L fs 3 = Ok (8, 10) /\
  (forall L, 0 <= L <= 3 -> has_states 0 3 L -> In L [0; 2; 3]).
Proof.
  eexists. repeat (split; [vm_compute; reflexivity|]). intros L HL (v & Hv & Hm).
  destruct (Z.eq_dec L 1) as [->|]; [|cbn; lia].
  assert (C : v = 0 \/ v = 1 \/ v = 2 \/ v = 3) by lia.
  destruct C as [->|[->|[->| ->]]]; vm_compute in Hm; discriminate.
Qed.

Print Assumptions C37_tame_blocks.
Print Assumptions C37_tame_total.
Print Assumptions C37_full_blocks.
Print Assumptions C37_full_lengths.
Print Assumptions C37_full_blocks_refuted.
Print Assumptions C38_Lvals.
Print Assumptions C38_validate_Lvals.
Print Assumptions C38_invalid_ranges_raise.
Print Assumptions C39_blocks_tile.
Print Assumptions C39_unknown_block.
Print Assumptions C39_blocks_are_label_intervals.
Print Assumptions C39_AmpXspeig_complete.
Print Assumptions C39_skipping_refuted.
