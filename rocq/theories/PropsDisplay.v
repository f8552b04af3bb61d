(** Properties C42, C43 and C60: display of matrix elements. *)

From Coq Require Import String Reals Lra.
From Coq Require Import Lia ZifyBool ZifyNat.
From Verif Require Import PyBase PyFacts Compat Text Format FormatFacts Operators Spherical SphericalFacts FullLabels FullLabelsFacts Matrix FullSpace
  FullSpaceFacts Settings PropsSettings PropsRates Display DisplayFacts.
Open Scope Z_scope.
Ltac Zify.zify_post_hook ::= Z.div_mod_to_equations.

(** The states of angular momentum L are the rows and columns [start L] up to
    [start L + dim L - 1] of the array. *)
Definition array_blocks (M : block_array) (start dim : Z -> Z) : Prop :=
  forall L, In L (fs_Lvals (snd M)) ->
    get_block_for_L (snd M) L = Ok (start L, start L + dim L) /\ 0 <= start L /\ 0 <= dim L /\
    start L + dim L <= nrows (fst M) /\ start L + dim L <= ncols (fst M).

(** The matrix element from the n1-th state of L1 to the n2-th state of L2. *)
Definition element (M : block_array) (start : Z -> Z) (L1 n1 L2 n2 : Z) : R :=
  ent (fst M) (start L2 + n2 - 1) (start L1 + n1 - 1).

(** The first line. *)
Definition header_line (flt : text -> R -> text) (s : settings) (scale : R) (desg : text) : text :=
  chars "Selected " ++ desg ++ chars " follow (each divided by " ++ flt (chars "." ++ dec_int (g_low_pre s) ++ chars "f") scale
  ++ chars "):".

(** The number format: width and precision. *)
Definition number_spec (s : settings) : text :=
  dec_int (g_rel_wid s) ++ chars "." ++ dec_int (g_rel_pre s) ++ chars "f".

Lemma block_val M start dim (HM : array_blocks M start dim) L1 L2 :
  In L1 (fs_Lvals (snd M)) -> In L2 (fs_Lvals (snd M)) ->
  get_block (fst M) (snd M) L2 L1
  = Ok (mkMat (dim L2) (dim L1) (fun i j => ent (fst M) (start L2 + i) (start L1 + j))).
Proof.
  intros H1 H2. destruct (HM L1 H1) as (E1 & P1 & Q1 & _ & B1). destruct (HM L2 H2) as (E2 & P2 & Q2 & B2 & _).
  unfold get_block. rewrite E1, E2. cbn [bind]. unfold slice, slice_bound.
  replace (start L1 <? 0) with false by lia. replace (start L2 <? 0) with false by lia.
  replace (start L1 + dim L1 <? 0) with false by lia. replace (start L2 + dim L2 <? 0) with false by lia.
  rewrite !Z.min_l by lia. do 2 f_equal; lia.
Qed.

Lemma range_shift {B} (f : Z -> B) lo hi : map (fun j => f (j + 1)) (py_range lo hi) = map f (py_range (lo + 1) (hi + 1)).
Proof. unfold py_range. replace (hi + 1 - (lo + 1)) with (hi - lo) by lia. rewrite !map_map. apply map_ext. intros. f_equal. lia. Qed.

Lemma range_rev n : 0 <= n -> rev (py_range 0 n) = map (fun j => n - 1 - j) (py_range 0 n).
Proof.
  intros H. pattern n. apply natlike_ind; [reflexivity| |exact H]. clear n H. intros n Hn IH.
  unfold Z.succ. replace (rev (py_range 0 (n + 1))) with (rev (py_range 0 n ++ [n])) by (now rewrite py_range_snoc by lia). rewrite rev_app_distr, IH. cbn [rev app].
  rewrite (py_range_cons 0 (n + 1)) by lia. cbn [map]. f_equal; [lia|]. rewrite <- (range_shift (fun j => n + 1 - 1 - j)).
  apply map_ext. intros. lia.
Qed.

Lemma last_get {A} (l : list A) x : l <> [] -> py_get l (-1) = Ok (last l x).
Proof.
  intros H. destruct (exists_last H) as (l' & y & ->). rewrite last_last. unfold py_get, zlen. replace (-1 <? 0) with true by reflexivity.
  rewrite app_length. cbn [length]. replace (-1 + Z.of_nat (length l' + 1) <? 0) with false by lia.
  rewrite nth_error_app2 by lia. replace (_ - _)%nat with 0%nat by lia. reflexivity.
Qed.

Section Mels.
  Variable flt : text -> R -> text.
  Variable M : block_array.
  Variables start dim : Z -> Z.
  Hypothesis HM : array_blocks M start dim.
  Let Lvals := fs_Lvals (snd M).
  Variable toshow : Z.
  Variable fn : mel_fun.
  Variable scale : R.
  Variable s : settings.
  Variables f1 f2 : text.
  Let designator := show_designator flt s M f1 f2 toshow fn scale.
  Let row := Show_Mels_Row flt s M f2 toshow fn scale.

  (** One row: nothing, or one line. *)
  Lemma row_none L1 L2 n2 : ~ (In L1 Lvals /\ In L2 Lvals /\ n2 <= dim L2 /\ 0 < dim L1) -> peq (row L1 L2 n2) (pret 0).
  Proof.
    intros H. unfold row, Show_Mels_Row. fold Lvals.
    destruct (mem L1 Lvals) eqn:E1; [|apply peq_refl]. destruct (mem L2 Lvals) eqn:E2; [|apply peq_refl].
    apply mem_In in E1, E2. cbn [negb orb]. rewrite (block_val M start dim HM) by assumption.
    eapply peq_trans; [apply pbind_ok|]. cbn [nrows ncols].
    destruct (HM L1 E1) as (_ & _ & Q1 & _).
    destruct (dim L2 <? n2) eqn:E3; [apply peq_refl|]. destruct (dim L1 =? 0) eqn:E4; [apply peq_refl|].
    exfalso. apply H. repeat split; try assumption; lia.
  Qed.

  Definition row_body (L1 L2 n2 : Z) : prog unit :=
    run* mels <- praise (mapM (fun n1 =>
        let* x := np_get (mkMat (dim L2) (dim L1) (fun i j => ent (fst M) (start L2 + i) (start L1 + j))) (n2 - 1) (n1 - 1) in
        let* y := fn (g_rat_TRopAM s) L1 L2 x in
        py_format flt (item_format s) [FFlt (y / scale)%R]) (py_range 1 (Z.min (dim L1) toshow + 1))) ;;
    run* line <- praise (py_format flt f2 [FInt L1; FInt L2; FInt n2; FStr (chars "[" ++ join_comma mels ++ chars "]")]) ;;
    print line.

  Lemma row_some L1 L2 n2 : In L1 Lvals -> In L2 Lvals -> n2 <= dim L2 -> 0 < dim L1 ->
    peq (row L1 L2 n2) (pbind (row_body L1 L2 n2) (fun _ => pret 1)).
  Proof.
    intros H1 H2 H3 H4. unfold row, Show_Mels_Row. fold Lvals.
    apply mem_In in H1 as E1. apply mem_In in H2 as E2. rewrite E1, E2. cbn [negb orb]. rewrite (block_val M start dim HM) by assumption.
    eapply peq_trans; [apply pbind_ok|]. cbn [nrows ncols].
    replace (dim L2 <? n2) with false by lia. replace (dim L1 =? 0) with false by lia. cbn [orb].
    unfold row_body. eapply peq_trans; [|apply peq_sym, pbind_assoc]. apply pbind_ext; [apply peq_refl|]. intros mels.
    eapply peq_trans; [|apply peq_sym, pbind_assoc]. apply peq_refl.
  Qed.

  (** Replacement of a designator by more specific ones. *)
  Definition expand (d : list Z) : list (list Z) :=
    match d with
    | [] => map (fun L2 => [L2]) Lvals
    | [L2] =>
        if L2 <? 0 then []
        else map (fun L1 => [L1; L2]) (py_range (Z.max 0 (L2 - g_rat_TRopAM s)) (L2 + g_rat_TRopAM s + 1))
    | [L1; L2] =>
        if mem L1 Lvals && mem L2 Lvals && (0 <? dim L1)
        then map (fun n2 => [L1; L2; n2]) (py_range 1 (Z.min (dim L2) toshow + 1)) else []
    | [L1; L2; n1; n2; step] =>
        if (L1 <? 0) || (L2 <? 0) || (n1 <=? 0) || (n2 <=? 0) then []
        else
          map (fun k => [L1 + k * step; L2 + k * step; n1; n2])
            (if 0 <? step then py_range 0 ((last Lvals 0 - Z.max L1 L2) / step + 1)
             else if step <? 0 then rev (py_range 0 (Z.min L1 L2 / - step + 1))
             else [0])
    | _ => [d]
    end.

  Lemma rows_from_stop L1 L2 l1 l2 : In L1 Lvals -> In L2 Lvals -> 0 < dim L1 ->
    Forall (fun n2 => n2 <= dim L2) l1 -> (match l2 with n2 :: _ => dim L2 < n2 | [] => True end) ->
    peq (rows_from flt s M f2 toshow fn scale L1 L2 (l1 ++ l2)) (pmap (fun n2 => run! row L1 L2 n2 ;; pret tt) l1).
  Proof.
    intros H1 H2 H3 H. revert l2. induction H as [|n2 l1 Hn _ IH]; intros l2 Hl; cbn [app pmap].
    - destruct l2 as [|n2 l2]; [apply peq_refl|]. cbn [rows_from]. fold row.
      eapply peq_trans; [apply pbind_ext; [apply row_none; lia|intros; apply peq_refl]|].
      eapply peq_trans; [apply pbind_pret|]. apply peq_refl.
    - cbn [rows_from]. fold row.
      eapply peq_trans; [|apply peq_sym, pbind_assoc].
      eapply peq_trans; [apply pbind_ext; [apply row_some; assumption|intros; apply peq_refl]|].
      eapply peq_trans; [|apply peq_sym, pbind_ext; [apply row_some; assumption|intros; apply peq_refl]].
      eapply peq_trans; [apply pbind_assoc|]. eapply peq_trans; [|apply peq_sym, pbind_assoc].
      apply pbind_ext; [apply peq_refl|]. intros _.
      eapply peq_trans; [apply pbind_pret|]. eapply peq_trans; [|apply peq_sym, pbind_pret].
      replace (1 <=? 0) with false by reflexivity. 
      eapply peq_trans; [|apply peq_sym; exact (pbind_pret tt (fun _ => pmap (fun n2 => run! row L1 L2 n2 ;; pret tt) l1))].
      now apply IH.
  Qed.

  Lemma rows_from_none L1 L2 l : ~ (In L1 Lvals /\ In L2 Lvals /\ 0 < dim L1) ->
    peq (rows_from flt s M f2 toshow fn scale L1 L2 l) (pret tt).
  Proof.
    intros H. destruct l as [|n2 l]; [apply peq_refl|]. cbn [rows_from]. fold row.
    eapply peq_trans; [apply pbind_ext; [apply row_none; tauto|intros; apply peq_refl]|].
    eapply peq_trans; [apply pbind_pret|]. apply peq_refl.
  Qed.

  Lemma steps_pmap n1 n2 step k : forall L1 L2, 0 <= L1 -> 0 <= L2 -> 0 <= step ->
    peq (mel_steps flt s M f1 fn scale k L1 L2 n1 n2 step)
        (pmap designator (map (fun j => [L1 + j * step; L2 + j * step; n1; n2]) (py_range 0 (Z.of_nat k)))).
  Proof.
    induction k as [|k IH]; intros L1 L2 H1 H2 H3; [apply peq_refl|].
    rewrite py_range_cons by lia. cbn [mel_steps pmap map].
    apply pbind_ext.
    - unfold designator. cbn [show_designator]. replace (5 <? _) with false by reflexivity. rewrite !Z.mul_0_l, !Z.add_0_r.
      replace (L1 <? 0) with false by lia. replace (L2 <? 0) with false by lia. apply peq_refl.
    - intros _. eapply peq_trans; [apply IH; lia|]. replace (Z.of_nat (S k)) with (Z.of_nat k + 1) by lia.
      rewrite <- (range_shift (fun j => [L1 + j * step; L2 + j * step; n1; n2])).
      rewrite (map_ext (fun j => [L1 + (j + 1) * step; L2 + (j + 1) * step; n1; n2])
                       (fun j => [L1 + step + j * step; L2 + step + j * step; n1; n2])); [apply peq_refl|].
      intros j. f_equal; [ring|]. f_equal. ring.
  Qed.

  Lemma expand_same d : (forall L, In L Lvals -> 0 <= L) -> Lvals <> [] ->
    (match d with [L1; L2; n1; n2; step] => 0 <= L1 -> 0 <= L2 -> 0 < n1 -> 0 < n2 -> 0 < step -> Z.max L1 L2 <= last Lvals 0 | _ => True end) ->
    peq (designator d) (pmap designator (expand d)).
  Proof.
    intros Hn HN Hd. assert (I : peq (designator d) (pmap designator [d])).
    { cbn [pmap]. apply peq_sym, pbind_unit. }
    destruct d as [|L1 [|L2 [|n [|n2 [|step [|? ?]]]]]]; try exact I; cbn [expand].
    - unfold designator at 1. cbn [show_designator]. fold Lvals.
      eapply peq_trans; [apply (pmap_flat designator (fun L2 => [[L2]]))|].
      + intros L2 HL. cbn [pmap]. eapply peq_trans; [|apply peq_sym, pbind_unit]. unfold designator. cbn [show_designator].
        specialize (Hn L2 HL). replace (L2 <? 0) with false by lia. apply peq_refl.
      + rewrite flat_map_concat_map. rewrite <- (map_map (fun x : Z => [x]) (fun x => [x])). rewrite <- flat_map_concat_map.
        replace (flat_map (fun x => [x]) (map (fun x : Z => [x]) Lvals)) with (map (fun x : Z => [x]) Lvals); [apply peq_refl|].
        generalize (map (fun x : Z => [x]) Lvals). intros l. induction l as [|x l IH]; [reflexivity|]. cbn. now rewrite <- IH.
    - unfold designator at 1. cbn [show_designator]. destruct (L1 <? 0) eqn:E; [apply peq_refl|]. unfold Show_Mels_Rows.
      assert (G : forall l, Forall (fun x => 0 <= x) l -> 
        peq (pmap (fun L0 => rows_from flt s M f2 toshow fn scale L0 L1 (py_range 1 (toshow + 1))) l)
            (pmap designator (map (fun L0 => [L0; L1]) l))).
      { intros l Hl. induction Hl as [|x l Hx _ IH]; [apply peq_refl|]. cbn [map pmap]. apply pbind_ext; [|intros _; exact IH].
        unfold designator. cbn [show_designator]. replace (5 <? _) with false by reflexivity.
        replace (x <? 0) with false by lia. rewrite E. apply peq_refl. }
      apply G. apply Forall_forall. intros x Hx. apply py_range_In in Hx. lia.
    - unfold designator at 1. cbn [show_designator]. replace (5 <? _) with false by reflexivity.
      destruct (mem L1 Lvals && mem L2 Lvals && (0 <? dim L1)) eqn:E.
      + apply andb_true_iff in E. destruct E as [E E3]. apply andb_true_iff in E. destruct E as [E1 E2]. apply mem_In in E1, E2.
        pose proof (Hn L1 E1). pose proof (Hn L2 E2). replace (L1 <? 0) with false by lia. replace (L2 <? 0) with false by lia. cbn [orb].
        destruct (HM L2 E2) as (_ & _ & Q2 & _).
        assert (R : exists l2, py_range 1 (toshow + 1) = py_range 1 (Z.min (dim L2) toshow + 1) ++ l2 /\ (match l2 with n2 :: _ => dim L2 < n2 | [] => True end)).
        { destruct (Z.leb_spec toshow (dim L2)).
          - exists []. rewrite Z.min_r, app_nil_r by lia. auto.
          - exists (py_range (dim L2 + 1) (toshow + 1)). rewrite Z.min_l by lia. rewrite <- py_range_app by lia. split; [reflexivity|].
            rewrite py_range_cons by lia. lia. }
        destruct R as (l2 & -> & Hl2).
        eapply peq_trans; [apply rows_from_stop; try assumption; [lia|]; apply Forall_forall; intros x Hx; apply py_range_In in Hx; lia|].
        clear I Hd Hl2. induction (py_range 1 (Z.min (dim L2) toshow + 1)) as [|x l IH]; [apply peq_refl|]. cbn [map pmap].
        apply pbind_ext; [|intros _; exact IH]. unfold designator. cbn [show_designator]. replace (5 <? _) with false by reflexivity.
        replace (L1 <? 0) with false by lia. replace (L2 <? 0) with false by lia. apply peq_refl.
      + destruct (_ || _); [apply peq_refl|]. cbn [pmap]. apply rows_from_none. intros (A & B & C). apply mem_In in A, B. rewrite A, B in E. lia.
    - unfold designator at 1. cbn [show_designator]. replace (5 <? _) with false by reflexivity.
      destruct ((L1 <? 0) || (L2 <? 0)) eqn:E; [apply peq_refl|]. cbn [orb]. apply orb_false_iff in E. destruct E as [E1 E2].
      unfold show_quintet. destruct (n <=? 0) eqn:E3; [apply peq_refl|]. destruct (n2 <=? 0) eqn:E4; [apply peq_refl|]. cbn [orb]. fold Lvals.
      destruct (0 <? step) eqn:E5; [|destruct (step <? 0) eqn:E6].
      + rewrite (last_get Lvals 0) by exact HN. eapply peq_trans; [apply pbind_ok|].
        assert (T : Z.max L1 L2 <= last Lvals 0) by (apply Hd; lia).
        unfold iquo. rewrite require_nonnegint_ok by lia. unfold require_posint. rewrite ?require_nonnegint_ok by lia. cbn [bind raise_if].
        replace (step =? 0) with false by lia. cbn [bind raise_if].
        eapply peq_trans; [apply pbind_ok|]. eapply peq_trans; [apply steps_pmap; lia|].
        assert (0 <= (last Lvals 0 - Z.max L1 L2) / step) by (apply Z.div_pos; lia).
        rewrite Z2Nat.id by lia. apply peq_refl.
      + unfold iquo. rewrite require_nonnegint_ok by lia. unfold require_posint. rewrite ?require_nonnegint_ok by lia. cbn [bind raise_if].
        replace (- step =? 0) with false by lia. cbn [bind raise_if].
        eapply peq_trans; [apply pbind_ok|]. set (K := Z.min L1 L2 / - step).
        assert (0 <= K) by (apply Z.div_pos; lia). assert (K * - step <= Z.min L1 L2) by (unfold K; rewrite Z.mul_comm; apply Z.mul_div_le; lia).
        eapply peq_trans; [apply steps_pmap; lia|]. rewrite Z2Nat.id by lia. rewrite range_rev by lia. rewrite map_map.
        rewrite (map_ext (fun j => [L1 - K * - step + j * - step; L2 - K * - step + j * - step; n; n2])
           (fun x => [L1 + (K + 1 - 1 - x) * step; L2 + (K + 1 - 1 - x) * step; n; n2])); [apply peq_refl|].
        intros j. f_equal; [ring|]. f_equal. ring.
      + eapply peq_trans; [apply steps_pmap; lia|]. apply peq_refl.
  Qed.
End Mels.

(** The formats in use: those of transitions are as on import, which no
    procedure changes (C34); the one of the quantity has two plain fields. *)
Definition plain_formats (s : settings) (fm pre mid post : text) : Prop :=
  g_tran_format s = g_tran_format imported /\ g_tran_fill s = g_tran_fill imported /\
  0 <= g_rel_wid s /\ 0 <= g_rel_pre s /\
  fm = pre ++ chars "{}" ++ mid ++ chars "{}" ++ post /\ no_brace pre /\ no_brace mid /\ no_brace post.

(** Texts one after the other with a separator between them. *)
Definition separated (sep : text) (l : list text) : text :=
  match l with [] => [] | t :: l => t ++ flat_map (fun u => sep ++ u) l end.
Lemma join_separated l : join_comma l = separated (chars ",") l.
Proof.
  induction l as [|t l IH]; [reflexivity|]. destruct l as [|u l]; [cbn; now rewrite app_nil_r|].
  change (join_comma (t :: u :: l)) with (t ++ chars "," ++ join_comma (u :: l)). rewrite IH. cbn [separated flat_map]. now rewrite !app_assoc.
Qed.
Lemma tuple_separated l : dec_tuple l = chars "(" ++ separated (chars ", ") (map dec_int l) ++ chars ")".
Proof.
  unfold dec_tuple. f_equal. f_equal. induction l as [|x l IH]; [reflexivity|]. destruct l as [|y l]; [cbn [map separated flat_map]; now rewrite app_nil_r|].
  rewrite IH. cbn [map separated flat_map]. now rewrite !app_assoc.
Qed.

(** The line of one element and the line of a row. *)
Definition value_line (flt : text -> R -> text) (s : settings) (pre mid post : text) (L1 n1 L2 n2 : Z) (y : R) : text :=
  pre ++ arrow (dec_int L1) (dec_int n1) (dec_int L2) (dec_int n2) ++ mid ++ flt (number_spec s) y ++ post.
Definition row_line (flt : text -> R -> text) (s : settings) (pre mid post : text) (L1 L2 n2 : Z) (ys : list R) : text :=
  pre ++ arrow (dec_int L1) (chars "#") (dec_int L2) (dec_int n2) ++ mid
  ++ chars "[" ++ separated (chars ",") (map (flt (number_spec s)) ys) ++ chars "]" ++ post.

Ltac brace := vm_compute; repeat (apply Forall_cons; [split; discriminate|]); apply Forall_nil.

Section Lines.
  Variable flt : text -> R -> text.
  Variables (s : settings) (fm pre mid post : text).
  Hypothesis HF : plain_formats s fm pre mid post.

  Definition segs1 : list seg :=
    [Lit pre; Fld (chars ":d"); Lit (chars "("); Fld (chars ":d"); Lit (chars ") -> "); Fld (chars ":d"); Lit (chars "(");
     Fld (chars ":d"); Lit (chars ")"); Lit mid; Fld (chars ":" ++ number_spec s); Lit post].
  Definition segs2 : list seg :=
    [Lit pre; Fld (chars ":d"); Lit (chars "(#) -> "); Fld (chars ":d"); Lit (chars "(");
     Fld (chars ":d"); Lit (chars ")"); Lit mid; Fld (chars ":s"); Lit post].

  Lemma quantity_format a b : py_format flt fm [FStr a; FStr b] = Ok (pre ++ a ++ mid ++ b ++ post).
  Proof.
    destruct HF as (_ & _ & _ & _ & -> & N1 & N2 & N3).
    replace (pre ++ chars "{}" ++ mid ++ chars "{}" ++ post) with (layout [Lit pre; Fld []; Lit mid; Fld []; Lit post])
      by (cbn [layout flat_map app]; rewrite app_nil_r; reflexivity).
    erewrite format_fills; [reflexivity|].
    apply fills_lit; [exact N1|]. eapply fills_plain; [reflexivity|]. apply fills_lit; [exact N2|]. eapply fills_plain; [reflexivity|].
    rewrite <- (app_nil_r post) at 2. apply fills_lit; [exact N3|constructor].
  Qed.

  Lemma number_spec_wp : number_spec s = wp_spec (dec_int (g_rel_wid s)) (g_rel_pre s).
  Proof. reflexivity. Qed.

  Lemma wid_digits : Forall (fun c => 48 <= c <= 57) (dec_int (g_rel_wid s)).
  Proof. destruct HF as (_ & _ & W & _). rewrite dec_int_nonneg by exact W. now apply dec_digits. Qed.

  Lemma no_brace_spec : no_brace (number_spec s).
  Proof.
    destruct HF as (_ & _ & W & P & _). unfold number_spec. apply no_brace_app; [apply no_brace_digits, wid_digits|].
    apply no_brace_app; [brace|]. apply no_brace_app; [|brace].
    rewrite dec_int_nonneg by exact P. apply no_brace_digits. now apply dec_digits.
  Qed.

  Lemma show_number x : show_arg flt false (number_spec s) (FFlt x) = Ok (flt (number_spec s) x).
  Proof. destruct HF as (_ & _ & W & P & _). apply show_float; [apply wid_digits|exact P]. Qed.

  Lemma f1_eq : mel_f1 flt s fm = Ok (layout segs1).
  Proof.
    unfold mel_f1. destruct HF as (T & _). rewrite T.
    replace (py_format flt (g_tran_format imported) _) with (Ok (chars "{:d}({:d}) -> {:d}({:d})")) by (vm_compute; reflexivity).
    cbn [bind]. rewrite quantity_format. f_equal. unfold segs1, item_format. fold (wp_spec (dec_int (g_rel_wid s)) (g_rel_pre s)).
    rewrite <- number_spec_wp. generalize (number_spec s). intros w.
    cbn [layout flat_map]. rewrite app_nil_r. rewrite <- !app_assoc. cbn [app]. rewrite <- !app_assoc. reflexivity.
  Qed.

  Lemma f2_eq : mel_f2 flt s fm = Ok (layout segs2).
  Proof.
    unfold mel_f2. destruct HF as (T & F & _). rewrite T, F.
    replace (py_format flt (g_tran_format imported) _) with (Ok (chars "{:d}(#) -> {:d}({:d})")) by (vm_compute; reflexivity).
    cbn [bind]. rewrite quantity_format. f_equal. unfold segs2.
    cbn [layout flat_map]. rewrite app_nil_r. cbn [app]. rewrite <- ?app_assoc. reflexivity.
  Qed.

  Lemma item_line y : py_format flt (item_format s) [FFlt y] = Ok (flt (number_spec s) y).
  Proof.
    replace (item_format s) with (layout [Fld (58 :: number_spec s)]).
    - erewrite format_fills; [reflexivity|]. rewrite <- (app_nil_r (flt (number_spec s) y)).
      apply fills_spec; [apply no_brace_spec|apply show_number|constructor].
    - unfold item_format. fold (wp_spec (dec_int (g_rel_wid s)) (g_rel_pre s)). rewrite <- number_spec_wp. generalize (number_spec s). intros w.
      cbn [layout flat_map app]. now rewrite app_nil_r.
  Qed.

  Lemma f1_line L1 n1 L2 n2 y :
    py_format flt (layout segs1) [FInt L1; FInt n1; FInt L2; FInt n2; FFlt y] = Ok (value_line flt s pre mid post L1 n1 L2 n2 y).
  Proof.
    destruct HF as (_ & _ & _ & _ & _ & N1 & N2 & N3). apply format_fills. unfold segs1, value_line, arrow. rewrite <- !app_assoc.
    apply fills_lit; [exact N1|]. apply fills_spec; [brace|apply show_int|]. apply fills_lit; [brace|].
    apply fills_spec; [brace|apply show_int|]. apply fills_lit; [brace|]. apply fills_spec; [brace|apply show_int|].
    apply fills_lit; [brace|]. apply fills_spec; [brace|apply show_int|]. apply fills_lit; [brace|].
    apply fills_lit; [exact N2|]. apply fills_spec; [apply no_brace_spec|apply show_number|].
    rewrite <- (app_nil_r post) at 2. apply fills_lit; [exact N3|constructor].
  Qed.

  Lemma f2_line L1 L2 n2 t :
    py_format flt (layout segs2) [FInt L1; FInt L2; FInt n2; FStr t]
    = Ok (pre ++ arrow (dec_int L1) (chars "#") (dec_int L2) (dec_int n2) ++ mid ++ t ++ post).
  Proof.
    destruct HF as (_ & _ & _ & _ & _ & N1 & N2 & N3). apply format_fills. unfold segs2, arrow. rewrite <- !app_assoc.
    apply fills_lit; [exact N1|]. apply fills_spec; [brace|apply show_int|].
    match goal with |- fills _ _ _ (chars "(" ++ chars "#" ++ chars ") -> " ++ ?x) =>
      replace (chars "(" ++ chars "#" ++ chars ") -> " ++ x) with (chars "(#) -> " ++ x) by reflexivity end.
    apply fills_lit; [brace|]. apply fills_spec; [brace|apply show_int|].
    apply fills_lit; [brace|]. apply fills_spec; [brace|apply show_int|]. apply fills_lit; [brace|].
    apply fills_lit; [exact N2|]. apply fills_spec; [brace|apply show_str|].
    rewrite <- (app_nil_r post) at 2. apply fills_lit; [exact N3|constructor].
  Qed.

  Lemma Show_Mels_eval M l toshow fn scale desg : l <> [] -> 0 < nrows (fst M) ->
    Show_Mels flt M l toshow fn scale fm desg s
    = let '(r, s', o) := pmap (show_designator flt s M (layout segs1) (layout segs2) toshow fn scale) l s in
      (r, s', header_line flt s scale desg :: o).
  Proof.
    intros Hl HR. unfold Show_Mels. destruct l as [|d l]; [congruence|].
    unfold pbind at 1, praise at 1. replace (nrows (fst M) =? 0) with false by lia. cbn [raise_if].
    unfold pbind at 1, pget. unfold pbind at 1, print. rewrite f1_eq, f2_eq. unfold praise, pbind at 1 2.
    destruct (pmap _ (d :: l) s) as [[r s'] o]. reflexivity.
  Qed.
End Lines.

(** ** C42 *)

Lemma mel_eval flt s M start dim f1 fn scale L1 L2 n1 n2 s0 : array_blocks M start dim ->
  In L1 (fs_Lvals (snd M)) -> In L2 (fs_Lvals (snd M)) ->
  show_mel flt s M f1 fn scale L1 L2 n1 n2 s0
  = if (0 <? n1) && (n1 <=? dim L1) && (0 <? n2) && (n2 <=? dim L2) then
      match fn (g_rat_TRopAM s) L1 L2 (element M start L1 n1 L2 n2) with
      | Ok y => match py_format flt f1 [FInt L1; FInt n1; FInt L2; FInt n2; FFlt (y / scale)%R] with
                | Ok line => (Ok tt, s0, [line])
                | Raise e => (Raise e, s0, [])
                end
      | Raise e => (Raise e, s0, [])
      end
    else (Ok tt, s0, []).
Proof.
  intros HM H1 H2. unfold show_mel. apply mem_In in H1 as E1. apply mem_In in H2 as E2. rewrite E1, E2. cbn [andb].
  rewrite (block_val M start dim HM) by assumption. unfold pbind at 1, praise at 1. cbn [nrows ncols].
  destruct ((0 <? n1) && (n1 <=? dim L1) && (0 <? n2) && (n2 <=? dim L2)) eqn:EN; [|reflexivity].
  assert (G : np_get (mkMat (dim L2) (dim L1) (fun i j => ent (fst M) (start L2 + i) (start L1 + j))) (n2 - 1) (n1 - 1)
              = Ok (element M start L1 n1 L2 n2)).
  { unfold np_get, np_index. cbn [nrows ncols ent]. replace (n2 - 1 <? 0) with false by lia. replace (n1 - 1 <? 0) with false by lia.
    replace ((0 <=? n2 - 1) && (n2 - 1 <? dim L2)) with true by lia. replace ((0 <=? n1 - 1) && (n1 - 1 <? dim L1)) with true by lia.
    cbn [bind]. unfold element. f_equal. f_equal; lia. }
  rewrite G. unfold pbind, praise, print. destruct (fn (g_rat_TRopAM s) L1 L2 (element M start L1 n1 L2 n2)) as [y|e]; [|reflexivity].
  destruct (py_format _ _ _); reflexivity.
Qed.

(** A quartet: at most one value, only if in range. *)
Theorem C42_quartet : forall flt M start dim toshow fn scale s fm pre mid post desg L1 L2 n1 n2,
  array_blocks M start dim -> 0 < nrows (fst M) -> plain_formats s fm pre mid post ->
  let header := header_line flt s scale desg in
  let result := Show_Mels flt M [[L1; L2; n1; n2]] toshow fn scale fm desg s in
  let inside := 0 <= L1 /\ 0 <= L2 /\ In L1 (fs_Lvals (snd M)) /\ In L2 (fs_Lvals (snd M)) /\ 1 <= n1 <= dim L1 /\ 1 <= n2 <= dim L2 in
  (~ inside -> result = (Ok tt, s, [header])) /\
  (inside -> forall y, fn (g_rat_TRopAM s) L1 L2 (element M start L1 n1 L2 n2) = Ok y ->
     result = (Ok tt, s, [header; value_line flt s pre mid post L1 n1 L2 n2 (y / scale)])) /\
  (inside -> forall e, fn (g_rat_TRopAM s) L1 L2 (element M start L1 n1 L2 n2) = Raise e ->
     result = (Raise e, s, [header])).
Proof.
  intros flt M start dim toshow fn scale s fm pre mid post desg L1 L2 n1 n2 HM HR HF header result inside.
  assert (E : result = let '(r, s', o) := show_designator flt s M (layout (segs1 s pre mid post)) (layout (segs2 pre mid post)) toshow fn scale [L1; L2; n1; n2] s in
                        (r, s', header :: o)).
  { unfold result. rewrite (Show_Mels_eval flt s fm pre mid post HF) by (congruence || assumption).
    cbn [pmap]. unfold pbind, pret. destruct (show_designator _ _ _ _ _ _ _ _ _ s) as [[[[]|e] s'] o]; [now rewrite app_nil_r|reflexivity]. }
  rewrite E. clear E result. unfold show_designator. replace (5 <? _) with false by reflexivity.
  destruct ((L1 <? 0) || (L2 <? 0)) eqn:EL; [split; [reflexivity|]; unfold inside; split; intros; exfalso; lia|].
  destruct (mem L1 (fs_Lvals (snd M)) && mem L2 (fs_Lvals (snd M))) eqn:EM.
  - apply andb_true_iff in EM. rewrite !mem_In in EM. destruct EM as [H1 H2]. rewrite (mel_eval flt s M start dim) by assumption.
    destruct ((0 <? n1) && (n1 <=? dim L1) && (0 <? n2) && (n2 <=? dim L2)) eqn:EN.
    + split; [intros N; exfalso; apply N; unfold inside; repeat split; try assumption; lia|].
      split; intros _ y Hy; rewrite Hy; [|reflexivity]. rewrite (f1_line flt s fm pre mid post HF). reflexivity.
    + split; [intros _; reflexivity|]. unfold inside. split; intros; exfalso; lia.
  - unfold show_mel. rewrite EM. split; [reflexivity|]. unfold inside. split; intros (_ & _ & A & B & _); exfalso; apply mem_In in A, B; rewrite A, B in EM; discriminate.
Qed.

(** Every other designator of at most five numbers stands for the list of its
    specialisations, see [expand]: [] for all final angular momenta, [L2] for
    the initial ones coupled by the operator, a pair for its rows, a quintet for
    a progression of quartets. *)
Theorem C42_expansion : forall flt M start dim toshow fn scale s fm pre mid post desg l1 d l2,
  array_blocks M start dim -> 0 < nrows (fst M) -> plain_formats s fm pre mid post ->
  fs_Lvals (snd M) <> [] -> (forall L, In L (fs_Lvals (snd M)) -> 0 <= L) ->
  (match d with [L1; L2; n1; n2; step] => 0 <= L1 -> 0 <= L2 -> 0 < n1 -> 0 < n2 -> 0 < step -> Z.max L1 L2 <= last (fs_Lvals (snd M)) 0
              | _ => True end) ->
  let listed := l1 ++ expand M dim toshow s d ++ l2 in
  Show_Mels flt M (l1 ++ d :: l2) toshow fn scale fm desg s
  = match listed with
    | [] => (Ok tt, s, [header_line flt s scale desg])
    | _ => Show_Mels flt M listed toshow fn scale fm desg s
    end.
Proof.
  intros flt M start dim toshow fn scale s fm pre mid post desg l1 d l2 HM HR HF HN Hn Hd listed.
  rewrite (Show_Mels_eval flt s fm pre mid post HF) by (assumption || (destruct l1; discriminate)).
  set (D := show_designator flt s M (layout (segs1 s pre mid post)) (layout (segs2 pre mid post)) toshow fn scale).
  assert (E : peq (pmap D (l1 ++ d :: l2)) (pmap D listed)).
  { unfold listed. eapply peq_trans; [apply pmap_app|]. eapply peq_trans; [|apply peq_sym, pmap_app].
    apply pbind_ext; [apply peq_refl|]. intros _. eapply peq_trans; [|apply peq_sym, pmap_app].
    cbn [pmap]. apply pbind_ext; [|intros _; apply peq_refl]. now apply (expand_same flt M start dim HM). }
  rewrite E. destruct listed as [|d' l'] eqn:EL; [reflexivity|].
  rewrite (Show_Mels_eval flt s fm pre mid post HF) by (assumption || discriminate). reflexivity.
Qed.

(** The quartets of a quintet: the terms of the progression up to the largest
    angular momentum, down to zero, or the first term only. *)
Theorem C42_progression : forall M dim toshow s L1 L2 n1 n2 step q,
  0 <= L1 -> 0 <= L2 -> 0 < n1 -> 0 < n2 ->
  In q (expand M dim toshow s [L1; L2; n1; n2; step]) <->
  exists k, 0 <= k /\ q = [L1 + k * step; L2 + k * step; n1; n2] /\
    (0 < step -> Z.max (L1 + k * step) (L2 + k * step) <= last (fs_Lvals (snd M)) 0) /\
    (step < 0 -> 0 <= Z.min (L1 + k * step) (L2 + k * step)) /\
    (step = 0 -> k = 0).
Proof.
  intros M dim toshow s L1 L2 n1 n2 step q H1 H2 H3 H4. cbn [expand].
  replace ((L1 <? 0) || (L2 <? 0) || (n1 <=? 0) || (n2 <=? 0)) with false by lia. rewrite in_map_iff.
  assert (G : forall k, In k (if 0 <? step then py_range 0 ((last (fs_Lvals (snd M)) 0 - Z.max L1 L2) / step + 1)
             else if step <? 0 then rev (py_range 0 (Z.min L1 L2 / - step + 1)) else [0]) <->
     0 <= k /\ (0 < step -> Z.max (L1 + k * step) (L2 + k * step) <= last (fs_Lvals (snd M)) 0) /\
    (step < 0 -> 0 <= Z.min (L1 + k * step) (L2 + k * step)) /\ (step = 0 -> k = 0)).
  { intros k. destruct (0 <? step) eqn:E5; [|destruct (step <? 0) eqn:E6].
    - rewrite py_range_In. set (T := last (fs_Lvals (snd M)) 0). 
      assert (D : k <= (T - Z.max L1 L2) / step <-> k * step <= T - Z.max L1 L2).
      { split; intros A. 
        - apply Z.le_trans with (step * ((T - Z.max L1 L2) / step)); [nia|apply Z.mul_div_le; lia].
        - apply Z.div_le_lower_bound; lia. }
      split; [intros A; repeat split; lia|intros (A & B & _); split; [lia|]]. enough (k <= (T - Z.max L1 L2) / step) by lia. apply D. lia.
    - rewrite <- in_rev, py_range_In. 
      assert (D : k <= Z.min L1 L2 / - step <-> k * - step <= Z.min L1 L2).
      { split; intros A. 
        - apply Z.le_trans with (- step * (Z.min L1 L2 / - step)); [nia|apply Z.mul_div_le; lia].
        - apply Z.div_le_lower_bound; lia. }
      split; [intros A; repeat split; lia|intros (A & _ & B & _); split; [lia|]]. enough (k <= Z.min L1 L2 / - step) by lia. apply D. lia.
    - cbn [In]. assert (step = 0) by lia. subst step. split; [intros [<- | []]; repeat split; lia|intros; lia]. }
  split.
  - intros (k & <- & Hk). apply G in Hk. exists k. tauto.
  - intros (k & A & -> & B). exists k. split; [reflexivity|]. apply G. tauto.
Qed.

(** ... but a positive step and an angular momentum beyond the largest raise
    ValueError. *)
Theorem C42_quintet_beyond : forall flt M toshow fn scale s fm pre mid post desg L1 L2 n1 n2 step,
  0 < nrows (fst M) -> plain_formats s fm pre mid post -> fs_Lvals (snd M) <> [] ->
  0 <= L1 -> 0 <= L2 -> 0 < n1 -> 0 < n2 -> 0 < step -> last (fs_Lvals (snd M)) 0 < Z.max L1 L2 ->
  Show_Mels flt M [[L1; L2; n1; n2; step]] toshow fn scale fm desg s = (Raise ValueError, s, [header_line flt s scale desg]).
Proof.
  intros flt M toshow fn scale s fm pre mid post desg L1 L2 n1 n2 step HR HF HN H1 H2 H3 H4 H5 H6.
  rewrite (Show_Mels_eval flt s fm pre mid post HF) by (congruence || assumption). cbn [pmap]. unfold show_designator.
  replace (5 <? _) with false by reflexivity. replace (L1 <? 0) with false by lia. replace (L2 <? 0) with false by lia. cbn [orb].
  unfold show_quintet. replace (n1 <=? 0) with false by lia. replace (n2 <=? 0) with false by lia. cbn [orb]. replace (0 <? step) with true by lia.
  rewrite (last_get _ 0) by exact HN. unfold pbind at 1 2, praise at 1. cbn [app].
  unfold iquo, require_nonnegint, raise_if. replace (last (fs_Lvals (snd M)) 0 - Z.max L1 L2 <? 0) with true by lia. reflexivity.
Qed.

(** More than five numbers. *)
Theorem C42_too_long : forall flt M toshow fn scale s fm pre mid post desg d,
  0 < nrows (fst M) -> plain_formats s fm pre mid post -> (5 < length d)%nat ->
  Show_Mels flt M [d] toshow fn scale fm desg s
  = (Ok tt, s, [header_line flt s scale desg; chars "  Bad matrix element specification: (" ++ separated (chars ", ") (map dec_int d) ++ chars ")"]).
Proof.
  intros flt M toshow fn scale s fm pre mid post desg d HR HF H.
  rewrite (Show_Mels_eval flt s fm pre mid post HF) by (congruence || assumption). cbn [pmap].
  destruct d as [|a [|b d]]; cbn [length] in H; try lia. unfold show_designator.
  replace (5 <? zlen (a :: b :: d)) with true by (unfold zlen; cbn [length]; lia). rewrite tuple_separated. reflexivity.
Qed.

(** Lists are worked through in order; the first designator that raises ends
    the display. *)
Theorem C42_sequence : forall flt M toshow fn scale s fm pre mid post desg l1 l2,
  plain_formats s fm pre mid post -> 0 < nrows (fst M) -> l1 <> [] -> l2 <> [] ->
  let '(r1, s1, o1) := Show_Mels flt M l1 toshow fn scale fm desg s in
  let '(r2, s2, o2) := Show_Mels flt M l2 toshow fn scale fm desg s in
  s1 = s /\ s2 = s /\
  Show_Mels flt M (l1 ++ l2) toshow fn scale fm desg s
  = match r1 with
    | Ok _ => (r2, s, o1 ++ tl o2)
    | Raise e => (Raise e, s, o1)
    end.
Proof.
  intros flt M toshow fn scale s fm pre mid post desg l1 l2 HF HR H1 H2.
  pose proof (keeps_Show_Mels flt M l1 toshow fn scale fm desg s) as K1.
  pose proof (keeps_Show_Mels flt M l2 toshow fn scale fm desg s) as K2.
  rewrite !(Show_Mels_eval flt s fm pre mid post HF) in * by (assumption || (destruct l1; [congruence|discriminate])).
  set (D := show_designator flt s M (layout (segs1 s pre mid post)) (layout (segs2 pre mid post)) toshow fn scale) in *.
  rewrite (pmap_app D l1 l2). unfold pbind.
  destruct (pmap D l1 s) as [[r1 s1] o1]. cbn [fst snd] in K1. subst s1. destruct (pmap D l2 s) as [[r2 s2] o2]. cbn [fst snd] in K2. subst s2.
  destruct r1; auto.
Qed.

(** An empty list prints nothing; without states there is an exception. *)
Theorem C42_empty : forall flt M l toshow fn scale s fm desg,
  Show_Mels flt M [] toshow fn scale fm desg s = (Ok tt, s, []) /\
  (nrows (fst M) = 0 -> l <> [] -> Show_Mels flt M l toshow fn scale fm desg s = (Raise ValueError, s, [])).
Proof.
  intros. split; [reflexivity|]. intros H N. destruct l; [congruence|]. unfold Show_Mels, pbind, praise. now rewrite H.
Qed.

(** ** C43 *)

(** A triple prints one row: the n2-th, for n2 <= 0 counted from the end. *)
Theorem C43_row : forall flt M start dim toshow fn scale s fm pre mid post desg L1 L2 n2,
  array_blocks M start dim -> 0 < nrows (fst M) -> plain_formats s fm pre mid post ->
  0 <= L1 -> 0 <= L2 -> In L1 (fs_Lvals (snd M)) -> In L2 (fs_Lvals (snd M)) -> 0 < dim L1 -> - dim L2 < n2 <= dim L2 ->
  let row := if 1 <=? n2 then n2 else dim L2 + n2 in
  1 <= row <= dim L2 /\
  Show_Mels flt M [[L1; L2; n2]] toshow fn scale fm desg s
  = match mapM (fun n1 => fn (g_rat_TRopAM s) L1 L2 (element M start L1 n1 L2 row)) (py_range 1 (Z.min (dim L1) toshow + 1)) with
    | Ok ys => (Ok tt, s, [header_line flt s scale desg; row_line flt s pre mid post L1 L2 n2 (map (fun y => y / scale)%R ys)])
    | Raise e => (Raise e, s, [header_line flt s scale desg])
    end.
Proof.
  intros flt M start dim toshow fn scale s fm pre mid post desg L1 L2 n2 HM HR HF H1 H2 I1 I2 P HB row.
  split; [unfold row; destruct (1 <=? n2) eqn:E; lia|].
  rewrite (Show_Mels_eval flt s fm pre mid post HF) by (congruence || assumption). cbn [pmap]. unfold show_designator.
  replace (5 <? _) with false by reflexivity. replace (L1 <? 0) with false by lia. replace (L2 <? 0) with false by lia. cbn [orb].
  assert (E : Show_Mels_Row flt s M (layout (segs2 pre mid post)) toshow fn scale L1 L2 n2 s
              = pbind (row_body flt M start dim toshow fn scale s (layout (segs2 pre mid post)) L1 L2 n2) (fun _ => pret 1) s)
    by (apply (row_some flt M start dim HM toshow fn scale s []); auto; lia).
  unfold pbind at 1 2. rewrite E. clear E. unfold row_body.
  assert (EM : mapM (fun n1 => let* x := np_get (mkMat (dim L2) (dim L1) (fun i j => ent (fst M) (start L2 + i) (start L1 + j))) (n2 - 1) (n1 - 1) in
                       let* y := fn (g_rat_TRopAM s) L1 L2 x in py_format flt (item_format s) [FFlt (y / scale)%R])
                (py_range 1 (Z.min (dim L1) toshow + 1))
              = let* ys := mapM (fun n1 => fn (g_rat_TRopAM s) L1 L2 (element M start L1 n1 L2 row)) (py_range 1 (Z.min (dim L1) toshow + 1)) in
                Ok (map (fun y => flt (number_spec s) (y / scale)%R) ys)).
  { assert (G : Forall (fun n1 => 1 <= n1 <= dim L1) (py_range 1 (Z.min (dim L1) toshow + 1)))
      by (apply Forall_forall; intros x Hx; apply py_range_In in Hx; lia).
    induction G as [|n1 l Hn _ IH]; [reflexivity|]. cbn [mapM].
    assert (X : np_get (mkMat (dim L2) (dim L1) (fun i j => ent (fst M) (start L2 + i) (start L1 + j))) (n2 - 1) (n1 - 1)
                = Ok (element M start L1 n1 L2 row)).
    { unfold np_get, np_index. cbn [nrows ncols ent]. unfold row. replace (n1 - 1 <? 0) with false by lia.
      replace ((0 <=? n1 - 1) && (n1 - 1 <? dim L1)) with true by lia. destruct (1 <=? n2) eqn:EN.
      - replace (n2 - 1 <? 0) with false by lia. replace ((0 <=? n2 - 1) && (n2 - 1 <? dim L2)) with true by lia.
        cbn [bind]. unfold element. f_equal. f_equal; lia.
      - replace (n2 - 1 <? 0) with true by lia. replace ((0 <=? n2 - 1 + dim L2) && (n2 - 1 + dim L2 <? dim L2)) with true by lia.
        cbn [bind]. unfold element. f_equal. f_equal; lia. }
    rewrite X. cbn [bind]. rewrite IH. destruct (fn (g_rat_TRopAM s) L1 L2 (element M start L1 n1 L2 row)) as [y|e]; [|reflexivity]. cbn [bind].
    rewrite (item_line flt s fm pre mid post HF). cbn [bind].
    destruct (mapM (fun n1 => fn (g_rat_TRopAM s) L1 L2 (element M start L1 n1 L2 row)) l); reflexivity. }
  rewrite EM. unfold pbind, praise, print, pret.
  destruct (mapM (fun n1 => fn (g_rat_TRopAM s) L1 L2 (element M start L1 n1 L2 row)) (py_range 1 (Z.min (dim L1) toshow + 1))) as [ys|e]; [|reflexivity].
  cbn [bind]. rewrite (f2_line flt s fm pre mid post HF). unfold row_line. rewrite map_map, <- join_separated.
  rewrite <- !app_assoc. reflexivity.
Qed.

(** Outside: nothing above, IndexError below. *)
Theorem C43_outside : forall flt M start dim toshow fn scale s fm pre mid post desg L1 L2 n2,
  array_blocks M start dim -> 0 < nrows (fst M) -> plain_formats s fm pre mid post ->
  let result := Show_Mels flt M [[L1; L2; n2]] toshow fn scale fm desg s in
  let header := header_line flt s scale desg in
  (L1 < 0 \/ L2 < 0 \/ ~ In L1 (fs_Lvals (snd M)) \/ ~ In L2 (fs_Lvals (snd M)) \/ dim L2 < n2 \/ dim L1 = 0 ->
   result = (Ok tt, s, [header])) /\
  (0 <= L1 -> 0 <= L2 -> In L1 (fs_Lvals (snd M)) -> In L2 (fs_Lvals (snd M)) -> 0 < dim L1 -> 0 < toshow -> n2 <= - dim L2 ->
   result = (Raise IndexError, s, [header])).
Proof.
  intros flt M start dim toshow fn scale s fm pre mid post desg L1 L2 n2 HM HR HF result header. unfold result, header.
  rewrite (Show_Mels_eval flt s fm pre mid post HF) by (congruence || assumption). cbn [pmap]. unfold show_designator.
  replace (5 <? _) with false by reflexivity. split.
  - intros H. destruct ((L1 <? 0) || (L2 <? 0)) eqn:E; [reflexivity|].
    assert (ER : Show_Mels_Row flt s M (layout (segs2 pre mid post)) toshow fn scale L1 L2 n2 s = pret 0 s).
    { apply (row_none flt M start dim HM toshow fn scale s []). intros (A & B & C & D). destruct H as [H | [H | [H | [H | [H | H]]]]]; try lia; contradiction. }
    unfold pbind. rewrite ER. reflexivity.
  - intros H1 H2 I1 I2 P T HN. replace (L1 <? 0) with false by lia. replace (L2 <? 0) with false by lia. cbn [orb].
    assert (D2 : 0 <= dim L2) by (destruct (HM L2 I2) as (_ & _ & Q & _); exact Q).
    assert (ER : Show_Mels_Row flt s M (layout (segs2 pre mid post)) toshow fn scale L1 L2 n2 s
              = pbind (row_body flt M start dim toshow fn scale s (layout (segs2 pre mid post)) L1 L2 n2) (fun _ => pret 1) s)
    by (apply (row_some flt M start dim HM toshow fn scale s []); auto; lia).
    unfold pbind at 1 2. rewrite ER. clear ER. unfold row_body. rewrite py_range_cons by lia. cbn [mapM].
    unfold np_get at 1. cbn [nrows]. unfold np_index at 1. replace (n2 - 1 <? 0) with true by lia.
    replace ((0 <=? n2 - 1 + dim L2) && (n2 - 1 + dim L2 <? dim L2)) with false by lia. reflexivity.
Qed.

(** Rates are listed with the function, scale, format and name set for rates,
    amplitudes with those set for amplitudes. *)
Theorem C42_rates_and_amplitudes : forall flt M start dim toshow s rpre rmid rpost apre amid apost L1 L2 n1 n2 r a,
  array_blocks M start dim -> 0 < nrows (fst M) ->
  plain_formats s (g_rat_format s) rpre rmid rpost -> plain_formats s (g_amp_format s) apre amid apost ->
  In L1 (fs_Lvals (snd M)) -> In L2 (fs_Lvals (snd M)) -> 0 <= L1 -> 0 <= L2 -> 1 <= n1 <= dim L1 -> 1 <= n2 <= dim L2 ->
  g_rat_fun s (g_rat_TRopAM s) L1 L2 (element M start L1 n1 L2 n2) = Ok r ->
  g_amp_fun s (g_rat_TRopAM s) L1 L2 (element M start L1 n1 L2 n2) = Ok a ->
  Show_Rats flt M (Some [[L1; L2; n1; n2]]) toshow s =
    (Ok tt, s, [header_line flt s (g_rat_sft s) (g_rat_desg s); value_line flt s rpre rmid rpost L1 n1 L2 n2 (r / g_rat_sft s)]) /\
  Show_Amps flt M (Some [[L1; L2; n1; n2]]) toshow s =
    (Ok tt, s, [header_line flt s (g_amp_sft s) (g_amp_desg s); value_line flt s apre amid apost L1 n1 L2 n2 (a / g_amp_sft s)]).
Proof.
  intros flt M start dim toshow s rpre rmid rpost apre amid apost L1 L2 n1 n2 r a HM HR FR FA I1 I2 P1 P2 N1 N2 ER EA.
  unfold Show_Rats, Show_Amps, pbind, pget. cbn [default].
  destruct (C42_quartet flt M start dim (default 4 toshow) (g_rat_fun s) (g_rat_sft s) s _ rpre rmid rpost (g_rat_desg s) L1 L2 n1 n2 HM HR FR) as (_ & A & _).
  destruct (C42_quartet flt M start dim (default 4 toshow) (g_amp_fun s) (g_amp_sft s) s _ apre amid apost (g_amp_desg s) L1 L2 n1 n2 HM HR FA) as (_ & B & _).
  rewrite (A (conj P1 (conj P2 (conj I1 (conj I2 (conj N1 N2))))) r ER), (B (conj P1 (conj P2 (conj I1 (conj I2 (conj N1 N2))))) a EA).
  split; reflexivity.
Qed.

(** ** The arrays that occur *)

Fixpoint before (L : Z) (l : list Z) : list Z :=
  match l with
  | [] => []
  | x :: l' => if x =? L then [] else x :: before L l'
  end.

Lemma before_split L l : In L l -> exists l2, l = before L l ++ L :: l2.
Proof.
  induction l as [|x l IH]; [intros []|]. intros [-> | H]; cbn [before].
  - rewrite Z.eqb_refl. now exists l.
  - destruct (x =? L) eqn:E; [exists l; cbn [app]; f_equal; lia|]. destruct (IH H) as (l2 & E2). exists l2. cbn [app]. now rewrite <- E2.
Qed.

(** A square array over a full space of the right size has the blocks that the
    theorems above ask for, and their sizes are the dimensions of the spaces of
    one angular momentum. *)
Theorem C42_arrays : forall nu_min nu_max v_min v_max Lvals fs d m,
  0 <= nu_min <= nu_max -> 0 <= v_min <= v_max -> NoDup Lvals -> (forall L, In L Lvals -> 0 <= L) ->
  LBlockFullSpace_init nu_min nu_max v_min v_max Lvals = Ok fs -> fs_dim nu_min nu_max v_min v_max Lvals = Ok d ->
  nrows m = d -> ncols m = d ->
  exists start dim, array_blocks (m, fs) start dim /\
    forall L, In L Lvals -> dimXspace nu_min nu_max v_min v_max L None = Ok (dim L).
Proof.
  intros nu_min nu_max v_min v_max Lvals fs d m Hn Hv ND NN EF ED Er Ec.
  set (dm := w nu_min nu_max v_min v_max). exists (fun L => zsum (map dm (before L Lvals))), dm.
  unfold LBlockFullSpace_init in EF. rewrite !require_range_ok in EF by lia. cbn [bind] in EF.
  rewrite mk_blocks_ok in EF by assumption. cbn [bind] in EF. injection EF as <-.
  unfold fs_dim in ED. rewrite dims_ok in ED by assumption. cbn [bind] in ED. injection ED as ED.
  assert (P : forall l, 0 <= zsum (map dm l)).
  { intros l. induction l as [|x l IH]; [cbn; lia|]. cbn [map zsum fold_right]. assert (0 <= dm x) by (unfold dm, w, zlen; lia). unfold zsum in IH. lia. }
  split.
  - intros L HL. cbn [fst snd fs_Lvals] in *. destruct (before_split L Lvals HL) as (l2 & E).
    assert (S : d = zsum (map dm (before L Lvals)) + dm L + zsum (map dm l2)).
    { rewrite <- ED. fold dm. rewrite E at 1. rewrite map_app, zsum_app. cbn [map]. change (zsum (dm L :: ?x)) with (dm L + zsum x).
      unfold zsum. cbn [fold_right]. lia. }
    pose proof (P (before L Lvals)). pose proof (P l2). assert (0 <= dm L) by (unfold dm, w, zlen; lia).
    repeat split; try lia. unfold get_block_for_L. cbn [fs_blocks].
    rewrite (blocks_get nu_min nu_max v_min v_max Lvals ND 0 _ L l2 E). f_equal.
  - intros L HL. rewrite dimXspace_ok; [reflexivity|lia..|]. cbn. specialize (NN L HL). lia.
Qed.

(** ** C60 *)

(** The list of transitions and the number of eigenvalues shown are those in
    force at import, whatever has been set since. *)
Theorem C60_defaults : forall flt cs M toshow ev Lvals L_min L_max,
  let s := history flt cs imported in
  Show_Rats flt M None toshow s = (Ok tt, s, []) /\
  Show_Amps flt M None toshow s = (Ok tt, s, []) /\
  Show_Eigs flt ev Lvals None L_min L_max s = Show_Eigs flt ev Lvals (Some 4) L_min L_max s.
Proof. intros. repeat split; reflexivity. Qed.

(** The example array: two states, of angular momenta 0 and 2. *)
Definition two_states (a b c d : R) : block_array :=
  (mkMat 2 2 (fun i j => if i =? 0 then (if j =? 0 then a else b) else (if j =? 0 then c else d)),
   {| fs_nu_min := 0; fs_nu_max := 0; fs_v_min := 0; fs_v_max := 1; fs_Lvals := [0; 2]; fs_blocks := [(0, (0, 1)); (2, (1, 2))] |}).

Example two_states_space : LBlockFullSpace_init 0 0 0 1 [0; 2] = Ok (snd (two_states 0 0 0 0)) /\ fs_dim 0 0 0 1 [0; 2] = Ok 2.
Proof. split; vm_compute; reflexivity. Qed.

Lemma two_states_blocks a b c d : array_blocks (two_states a b c d) (fun L => L / 2) (fun _ => 1).
Proof. intros L [<- | [<- | []]]; repeat split; cbn; lia. Qed.

(** So the setting of a transition list has no effect on a call without a
    list. *)
Theorem C60_setting_used_refuted : ~ (forall flt cs M, array_blocks M (fun L => L / 2) (fun _ => 1) ->
  let s := history flt cs imported in
  Show_Rats flt M None None s = Show_Rats flt M (Some (g_rat_lst s)) (Some (g_rat_num s)) s).
Proof.
  intros H. specialize (H (fun _ _ => []) [SetRatLst (Some [[2; 0; 1; 1]])] (two_states 0 0 0 0) (two_states_blocks 0 0 0 0)).
  cbv zeta in H. apply (f_equal snd) in H. set (s := history _ _ _) in H.
  unfold Show_Rats, pbind, pget in H. cbn [default] in H. change (g_rat_lst s) with [[2; 0; 1; 1]] in H.
  cbn [Show_Mels] in H.
  assert (T : exists t l, snd (Show_Mels (fun _ _ => []) (two_states 0 0 0 0) [[2; 0; 1; 1]] (g_rat_num s) (g_rat_fun s) (g_rat_sft s) (g_rat_format s) (g_rat_desg s) s) = t :: l).
  { assert (HF : plain_formats s def_rat_format (chars "  B(E2: ") (chars ") = ") []).
    { split; [reflexivity|]; split; [reflexivity|]; split; [vm_compute; discriminate|]; split; [vm_compute; discriminate|];
          split; [reflexivity|]; repeat split; brace. }
    change (g_rat_format s) with def_rat_format. rewrite (Show_Mels_eval _ s _ _ _ _ HF) by (discriminate || (cbn; lia)).
    destruct (pmap _ _ s) as [[r1 s1] o1]. cbn [snd]. eauto. }
  destruct T as (t & l & T). destruct (Show_Mels _ _ [[2; 0; 1; 1]] _ _ _ _ _ s) as [[r s'] o]. cbn [snd] in T. subst o. discriminate.
Qed.

(** ** Examples *)

Example imported_formats : plain_formats imported def_rat_format (chars "  B(E2: ") (chars ") = ") [] /\
  plain_formats imported def_amp_format (chars "  Amp( ") (chars " ) = ") [].
Proof.
  split; (split; [reflexivity|]; split; [reflexivity|]; split; [vm_compute; discriminate|]; split; [vm_compute; discriminate|];
          split; [reflexivity|]; repeat split; brace).
Qed.

(** Numbers are shown as one character after the specification. *)
Example C42_example : forall (shown : R -> Z) a b c d,
  let flt spec x := spec ++ [shown x] in
  Show_Mels flt (two_states a b c d) [[2; 0; 1; 1]; [0; 2; 1; 1; 2]; [2; 2; 1; 1; -2]; [2; 0; 0]] 4
    (fun _ _ _ x => Ok x) 2 def_amp_format (chars "amplitudes") imported
  = (Ok tt, imported,
     [chars "Selected amplitudes follow (each divided by .4f" ++ [shown 2%R] ++ chars "):";
      chars "  Amp( 2(1) -> 0(1) ) = 7.2f" ++ [shown (b / 2)%R];
      chars "  Amp( 0(1) -> 2(1) ) = 7.2f" ++ [shown (c / 2)%R];
      chars "  Amp( 0(1) -> 0(1) ) = 7.2f" ++ [shown (a / 2)%R];
      chars "  Amp( 2(1) -> 2(1) ) = 7.2f" ++ [shown (d / 2)%R];
      chars "  Amp( 2(#) -> 0(0) ) = [7.2f" ++ [shown (b / 2)%R] ++ chars "]"]).
Proof. intros. vm_compute. reflexivity. Qed.

(** Rates divided by 4, amplitudes by 2. *)
Example C42_rates_and_amplitudes_example : forall (shown : R -> Z) a b c d,
  let flt spec x := spec ++ [shown x] in
  let s := w_rat_fun (fun _ _ _ x => Ok (x * x)%R) (w_amp_fun (fun _ _ _ x => Ok x) (w_rat_sft 4 (w_amp_sft 2 imported))) in
  snd (Show_Rats flt (two_states a b c d) (Some [[2; 0; 1; 1]]) None s) =
    [chars "Selected transition rates follow (each divided by .4f" ++ [shown 4%R] ++ chars "):";
     chars "  B(E2: 2(1) -> 0(1)) = 7.2f" ++ [shown (b * b / 4)%R]] /\
  snd (Show_Amps flt (two_states a b c d) (Some [[2; 0; 1; 1]]) None s) =
    [chars "Selected transition amplitudes follow (each divided by .4f" ++ [shown 2%R] ++ chars "):";
     chars "  Amp( 2(1) -> 0(1) ) = 7.2f" ++ [shown (b / 2)%R]].
Proof. intros. split; vm_compute; reflexivity. Qed.

Print Assumptions C42_quartet.
Print Assumptions C42_rates_and_amplitudes.
Print Assumptions C42_expansion.
Print Assumptions C42_progression.
Print Assumptions C42_quintet_beyond.
Print Assumptions C42_too_long.
Print Assumptions C42_sequence.
Print Assumptions C42_empty.
Print Assumptions C42_arrays.
Print Assumptions C43_row.
Print Assumptions C43_outside.
Print Assumptions C60_defaults.
Print Assumptions C60_setting_used_refuted.
