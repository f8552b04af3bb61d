(** C88: formats given by the user for transition rates and amplitudes. *)

From Coq Require Import String Reals Lra.
From Coq Require Import Lia ZifyBool ZifyNat.
From Verif Require Import PyBase PyFacts Compat Text Format FormatFacts Operators Spherical SphericalFacts FullLabels FullLabelsFacts Matrix FullSpace
  FullSpaceFacts Settings PropsSettings PropsRates Display DisplayFacts PropsDisplay.
Open Scope Z_scope.
Ltac Zify.zify_post_hook ::= Z.div_mod_to_equations.

(** ** Statements *)

(** A text in which each brace is doubled: [str.format] undoes it. *)
Definition doubled (t : text) : text := flat_map (fun c => if (c =? 123) || (c =? 125) then [c; c] else [c]) t.

(** The fields "{}", "{i}", "{!s}" and "{i!s}". *)
Definition field (numbered str : bool) (i : Z) : text :=
  chars "{" ++ (if numbered then dec i else []) ++ (if str then chars "!s" else []) ++ chars "}".

(** The settings that Show_Mels consults besides its arguments are as the other
    procedures leave them (C34). *)
Definition usual (s : settings) : Prop :=
  g_tran_format s = g_tran_format imported /\ g_tran_fill s = g_tran_fill imported /\ 0 <= g_rel_wid s /\ 0 <= g_rel_pre s.

(** A transition from state n1 of L1 to state n2 of L2, among the elements of M. *)
Definition within (M : block_array) (dim : Z -> Z) (L1 n1 L2 n2 : Z) : Prop :=
  0 <= L1 /\ 0 <= L2 /\ In L1 (fs_Lvals (snd M)) /\ In L2 (fs_Lvals (snd M)) /\ 1 <= n1 <= dim L1 /\ 1 <= n2 <= dim L2.

(** ** Formats *)

Lemma pieces_doubled t s : pieces (doubled t ++ s) = let* ps := pieces s in Ok (map PLit t ++ ps).
Proof.
  induction t as [|c t IH]; [cbn [doubled flat_map map app]; destruct (pieces s); reflexivity|].
  cbn [doubled flat_map]. fold (doubled t). destruct ((c =? 123) || (c =? 125)) eqn:E; cbn [app].
  - set (u := doubled t ++ s) in *.
    assert (K : pieces (c :: c :: u) = let* ps := pieces u in Ok (PLit c :: ps)).
    { unfold pieces. rewrite (pieces_fuel_enough (S (length u)) (S (length (c :: u))) u) by (cbn [length]; lia).
      cbn [pieces_fuel length]. destruct (c =? 123) eqn:E1; [replace c with 123 by lia; reflexivity|].
      destruct (c =? 125) eqn:E2; [replace c with 125 by lia; reflexivity|discriminate]. }
    rewrite K, IH. destruct (pieces s); reflexivity.
  - rewrite pieces_char by lia. rewrite IH. destruct (pieces s); reflexivity.
Qed.

Lemma pieces_any f s : no_brace f -> pieces (123 :: f ++ 125 :: s) = let* ps := pieces s in Ok (PField f :: ps).
Proof. intros H. destruct f as [|c f]; [apply pieces_empty|]. apply pieces_field; [exact H|discriminate]. Qed.

Lemma pieces_user (numbered str : bool) i s : 0 <= i -> exists f, field numbered str i = 123 :: f ++ [125] /\ no_brace f /\
  pieces (field numbered str i ++ s) = (let* ps := pieces s in Ok (PField f :: ps)) /\
  f = (if numbered then dec i else []) ++ (if str then chars "!s" else []).
Proof.
  intros Hi. exists ((if numbered then dec i else []) ++ (if str then chars "!s" else [])).
  assert (N : no_brace ((if numbered then dec i else []) ++ (if str then chars "!s" else []))).
  { apply no_brace_app; [destruct numbered; [apply no_brace_digits; now apply dec_digits|constructor]|].
    destruct str; [brace|constructor]. }
  assert (F : field numbered str i = 123 :: ((if numbered then dec i else []) ++ (if str then chars "!s" else [])) ++ [125]).
  { unfold field. rewrite <- !app_assoc. reflexivity. }
  repeat split; [exact F|exact N|]. rewrite F. cbn [app]. rewrite <- app_assoc. cbn [app]. apply pieces_any. exact N.
Qed.

Section First.
  Variable flt : text -> R -> text.

  Lemma first_done c args auto : render flt (map PLit c) auto args = Ok c.
  Proof. rewrite <- (app_nil_r (map PLit c)), render_lits. cbn [render bind]. now rewrite app_nil_r. Qed.

  Lemma pieces_last c : pieces (doubled c) = Ok (map PLit c).
  Proof. rewrite <- (app_nil_r (doubled c)), pieces_doubled, pieces_nil. cbn [bind]. now rewrite app_nil_r. Qed.

  Lemma user_field (numbered str : bool) i auto ps args t : i = 0 \/ i = 1 -> nth_error args (Z.to_nat i) = Some (FStr t) ->
    (if numbered then auto = 0 \/ auto = -1 else auto = i) -> exists f auto',
    (forall s, pieces (field numbered str i ++ s) = let* ps := pieces s in Ok (PField f :: ps)) /\
    render flt (PField f :: ps) auto args = (let* u := render flt ps auto' args in Ok (t ++ u)) /\
    auto' = (if numbered then -1 else auto + 1).
  Proof.
    intros Hi Hn Ha. exists ((if numbered then dec i else []) ++ (if str then chars "!s" else [])), (if numbered then -1 else auto + 1).
    split; [intros s; destruct (pieces_user numbered str i s ltac:(lia)) as (f & _ & _ & E & ->); exact E|]. split; [|reflexivity].
    change (chars "!s") with [33; 115]. destruct numbered.
    - destruct Hi as [-> | ->].
      + change (dec 0) with [48]. destruct str; cbn [app chars]; cbn [render]; cbn -[render nth_error Z.to_nat];
          destruct Ha as [-> | ->]; cbn -[render nth_error Z.to_nat]; rewrite Hn; reflexivity.
      + change (dec 1) with [49]. destruct str; cbn [app chars]; cbn [render]; cbn -[render nth_error Z.to_nat];
          destruct Ha as [-> | ->]; cbn -[render nth_error Z.to_nat]; rewrite Hn; reflexivity.
    - subst auto. destruct str; cbn [render]; cbn -[render nth_error Z.ltb Z.add]; replace (i <? 0) with false by lia; cbn [bind]; rewrite Hn; reflexivity.
  Qed.

  Lemma first_two (numbered str : bool) a b c T I :
    py_format flt (doubled a ++ field numbered str 0 ++ doubled b ++ field numbered str 1 ++ doubled c) [FStr T; FStr I]
    = Ok (a ++ T ++ b ++ I ++ c).
  Proof.
    unfold py_format. rewrite pieces_doubled.
    destruct (user_field numbered str 1 (if numbered then -1 else 1) (map PLit c) [FStr T; FStr I] I) as (f1 & u1 & P1 & R1 & _);
      [now right|reflexivity|destruct numbered; [now right|reflexivity]|].
    destruct (user_field numbered str 0 0 (map PLit b ++ PField f1 :: map PLit c) [FStr T; FStr I] T) as (f0 & u0 & P0 & R0 & E0);
      [now left|reflexivity|destruct numbered; [now left|reflexivity]|].
    rewrite P0, pieces_doubled, P1, pieces_last. cbn [bind]. rewrite render_lits, R0, render_lits, E0.
    replace (if numbered then -1 else 0 + 1) with (if numbered then -1 else 1) by reflexivity. rewrite R1, first_done. reflexivity.
  Qed.

  Lemma first_swapped str a b c T I :
    py_format flt (doubled a ++ field true str 1 ++ doubled b ++ field true str 0 ++ doubled c) [FStr T; FStr I]
    = Ok (a ++ I ++ b ++ T ++ c).
  Proof.
    unfold py_format. rewrite pieces_doubled.
    destruct (user_field true str 0 (-1) (map PLit c) [FStr T; FStr I] T) as (f0 & u0 & P0 & R0 & _); [now left|reflexivity|now right|].
    destruct (user_field true str 1 0 (map PLit b ++ PField f0 :: map PLit c) [FStr T; FStr I] I) as (f1 & u1 & P1 & R1 & ->); [now right|reflexivity|now left|].
    rewrite P1, pieces_doubled, P0, pieces_last. cbn [bind]. rewrite render_lits, R1, render_lits, R0, first_done. reflexivity.
  Qed.

  Lemma first_value str a b T I : py_format flt (doubled a ++ field true str 1 ++ doubled b) [FStr T; FStr I] = Ok (a ++ I ++ b).
  Proof.
    unfold py_format. rewrite pieces_doubled.
    destruct (user_field true str 1 0 (map PLit b) [FStr T; FStr I] I) as (f1 & u1 & P1 & R1 & _); [now right|reflexivity|now left|].
    rewrite P1, pieces_last. cbn [bind]. rewrite render_lits, R1, first_done. reflexivity.
  Qed.

  Lemma first_none a args : py_format flt (doubled a) args = Ok a.
  Proof. unfold py_format. rewrite pieces_last. cbn [bind]. apply first_done. Qed.
End First.

Definition good_seg (g : seg) : Prop := match g with Lit t => no_brace t | Fld f => no_brace f end.

Lemma layout_app l s : Forall good_seg l -> pieces (layout l ++ s) = let* ps := pieces s in Ok (flat_map seg_pieces l ++ ps).
Proof.
  intros H. induction H as [|g l Hg _ IH]; [cbn [layout flat_map app]; destruct (pieces s); reflexivity|].
  cbn [layout flat_map]. fold (layout l). rewrite <- app_assoc. destruct g as [t|f]; cbn [seg_pieces].
  - rewrite pieces_lits by exact Hg. rewrite IH. destruct (pieces s); cbn [bind]; [now rewrite app_assoc|reflexivity].
  - cbn [app]. rewrite <- app_assoc. cbn [app]. rewrite pieces_any by exact Hg. rewrite IH. destruct (pieces s); reflexivity.
Qed.

(** The transition part of a line, with four or with three numbers. *)
Definition tran4 : list seg := [Fld (chars ":d"); Lit (chars "("); Fld (chars ":d"); Lit (chars ") -> "); Fld (chars ":d"); Lit (chars "("); Fld (chars ":d"); Lit (chars ")")].
Definition tran3 : list seg := [Fld (chars ":d"); Lit (chars "(#) -> "); Fld (chars ":d"); Lit (chars "("); Fld (chars ":d"); Lit (chars ")")].
Lemma good4 : Forall good_seg tran4. Proof. repeat (apply Forall_cons; [cbn [good_seg]; brace|]). constructor. Qed.
Lemma good3 : Forall good_seg tran3. Proof. repeat (apply Forall_cons; [cbn [good_seg]; brace|]). constructor. Qed.

Section Second.
  Variable flt : text -> R -> text.
  Variable s : settings.
  Hypothesis HS : usual s.

  Lemma usual_plain : plain_formats s (chars "{}{}") [] [] [].
  Proof. destruct HS as (A & B & C & D). repeat split; try assumption; constructor. Qed.

  Lemma f1_of fm g : (forall T I, py_format flt fm [FStr T; FStr I] = Ok (g T I)) ->
    mel_f1 flt s fm = Ok (g (layout tran4) (layout [Fld (58 :: number_spec s)])) /\ mel_f2 flt s fm = Ok (g (layout tran3) (layout [Fld (chars ":s")])).
  Proof.
    intros H. destruct HS as (T & F & _). unfold mel_f1, mel_f2. rewrite T, F. split.
    - replace (py_format flt (g_tran_format imported) _) with (Ok (layout tran4)) by (vm_compute; reflexivity).
      cbn [bind]. rewrite H. do 2 f_equal. unfold item_format. fold (wp_spec (dec_int (g_rel_wid s)) (g_rel_pre s)). rewrite <- number_spec_wp.
      cbn [layout flat_map app]. now rewrite app_nil_r.
    - replace (py_format flt (g_tran_format imported) _) with (Ok (layout tran3)) by (vm_compute; reflexivity).
      cbn [bind]. rewrite H. reflexivity.
  Qed.

  Lemma item_good : Forall good_seg [Fld (58 :: number_spec s)].
  Proof. constructor; [|constructor]. constructor; [lia|]. exact (no_brace_spec s _ _ _ _ usual_plain). Qed.

  Lemma int_step ps auto args n : 0 <= auto -> nth_error args (Z.to_nat auto) = Some (FInt n) ->
    render flt (PField (chars ":d") :: ps) auto args = let* u := render flt ps (auto + 1) args in Ok (dec_int n ++ u).
  Proof. intros H N. exact (render_field flt (chars "d") ps auto args _ _ H N (show_int flt n)). Qed.
  Lemma num_step ps auto args y : 0 <= auto -> nth_error args (Z.to_nat auto) = Some (FFlt y) ->
    render flt (PField (58 :: number_spec s) :: ps) auto args = let* u := render flt ps (auto + 1) args in Ok (flt (number_spec s) y ++ u).
  Proof. intros H N. exact (render_field flt _ ps auto args _ _ H N (show_number flt s _ _ _ _ usual_plain y)). Qed.
  Lemma num_int_step ps auto args n : 0 <= auto -> nth_error args (Z.to_nat auto) = Some (FInt n) ->
    render flt (PField (58 :: number_spec s) :: ps) auto args = let* u := render flt ps (auto + 1) args in Ok (flt (number_spec s) (IZR n) ++ u).
  Proof.
    intros H N. apply (render_field flt _ ps auto args _ _ H N). cbn [show_arg].
    assert (F : float_spec (number_spec s) = true).
    { rewrite number_spec_wp. apply float_spec_wp; [exact (wid_digits s _ _ _ _ usual_plain)|]. destruct HS as (_ & _ & _ & D). exact D. }
    destruct (text_eqb (number_spec s) [] || text_eqb (number_spec s) (chars "d")) eqn:E.
    { apply orb_true_iff in E. rewrite !text_eqb_eq in E. destruct E as [E|E]; rewrite E in F; discriminate. }
    destruct (text_eqb (number_spec s) (chars "+d")) eqn:E2.
    { apply text_eqb_eq in E2. rewrite E2 in F. discriminate. }
    rewrite F. reflexivity.
  Qed.

  Lemma line_two a b c L1 n1 L2 n2 y :
    py_format flt (doubled a ++ layout tran4 ++ doubled b ++ layout [Fld (58 :: number_spec s)] ++ doubled c) [FInt L1; FInt n1; FInt L2; FInt n2; FFlt y]
    = Ok (a ++ arrow (dec_int L1) (dec_int n1) (dec_int L2) (dec_int n2) ++ b ++ flt (number_spec s) y ++ c).
  Proof.
    unfold py_format. rewrite pieces_doubled, layout_app by exact good4. rewrite pieces_doubled, layout_app by exact item_good. rewrite pieces_last. cbn [bind].
    rewrite render_lits. cbn [flat_map seg_pieces tran4 app]. repeat (rewrite <- app_assoc; cbn [app]).
    rewrite (int_step _ _ _ L1) by (lia || reflexivity). rewrite (render_lits flt (chars "(")).
    rewrite (int_step _ _ _ n1) by (lia || reflexivity). rewrite (render_lits flt (chars ") -> ")).
    rewrite (int_step _ _ _ L2) by (lia || reflexivity). rewrite (render_lits flt (chars "(")).
    rewrite (int_step _ _ _ n2) by (lia || reflexivity). rewrite (render_lits flt (chars ")")). rewrite (render_lits flt b).
    rewrite (num_step _ _ _ y) by (lia || reflexivity). rewrite first_done. cbn [bind]. unfold arrow. rewrite <- !app_assoc. reflexivity.
  Qed.

  (** The value first: a float for an integer field. *)
  Lemma line_swapped a b c L1 n1 L2 n2 y :
    py_format flt (doubled a ++ layout [Fld (58 :: number_spec s)] ++ doubled b ++ layout tran4 ++ doubled c) [FInt L1; FInt n1; FInt L2; FInt n2; FFlt y]
    = Raise ValueError.
  Proof.
    unfold py_format. rewrite pieces_doubled, layout_app by exact item_good. rewrite pieces_doubled, layout_app by exact good4. rewrite pieces_last. cbn [bind].
    rewrite render_lits. cbn [flat_map seg_pieces tran4 app]. repeat (rewrite <- app_assoc; cbn [app]).
    rewrite (num_int_step _ _ _ L1) by (lia || reflexivity). rewrite (render_lits flt b).
    rewrite (int_step _ _ _ n1) by (lia || reflexivity). rewrite (render_lits flt (chars "(")).
    rewrite (int_step _ _ _ L2) by (lia || reflexivity). rewrite (render_lits flt (chars ") -> ")).
    rewrite (int_step _ _ _ n2) by (lia || reflexivity). rewrite (render_lits flt (chars "(")). reflexivity.
  Qed.

  Lemma line_value a b L1 n1 L2 n2 y :
    py_format flt (doubled a ++ layout [Fld (58 :: number_spec s)] ++ doubled b) [FInt L1; FInt n1; FInt L2; FInt n2; FFlt y]
    = Ok (a ++ flt (number_spec s) (IZR L1) ++ b).
  Proof.
    unfold py_format. rewrite pieces_doubled, layout_app by exact item_good. rewrite pieces_last. cbn [bind].
    rewrite render_lits. cbn [flat_map seg_pieces app]. rewrite (num_int_step _ _ _ L1) by (lia || reflexivity). rewrite first_done. reflexivity.
  Qed.

  (** A name for a number. *)
  Lemma line_named a w u args : no_brace a -> w <> [] -> Forall (fun c => 48 <= c <= 57 \/ 65 <= c <= 90 \/ 97 <= c <= 122) w ->
    Exists (fun c => ~ 48 <= c <= 57) w -> (exists ps, pieces u = Ok ps) -> py_format flt (a ++ 123 :: w ++ 125 :: u) args = Raise KeyError.
  Proof.
    intros Ha Hw H HE (ps & Hu). unfold py_format. rewrite pieces_lits by exact Ha.
    rewrite pieces_any by (revert H; apply Forall_impl; intros; lia). rewrite Hu. cbn [bind]. rewrite render_lits.
    assert (N : split_name w = (w, [])).
    { clear HE Hw. induction H as [|c w Hc _ IH]; [reflexivity|]. cbn [split_name]. replace ((c =? 33) || (c =? 58)) with false by lia. rewrite IH. reflexivity. }
    cbn [render]. rewrite N. cbn [split_spec bind]. destruct w as [|c w]; [congruence|].
    replace (forallb (is_digit ascii_digit) (c :: w)) with false; [reflexivity|].
    symmetry. apply not_true_is_false. rewrite forallb_forall. intros F. apply Exists_exists in HE. destruct HE as (x & Hx & X).
    specialize (F x Hx). unfold is_digit, ascii_digit in F. destruct ((48 <=? x) && (x <=? 57)) eqn:E; [lia|discriminate].
  Qed.
End Second.

Section Report.
  Variable flt : text -> R -> text.
  Variable M : block_array.
  Variables start dim : Z -> Z.
  Variable toshow : Z.
  Variable fn : mel_fun.
  Variable scale : R.
  Variable s : settings.
  Variable desg : text.
  Hypothesis HM : array_blocks M start dim.
  Hypothesis HR : 0 < nrows (fst M).
  Hypothesis HS : usual s.

  Lemma mels_eval fm g l : (forall T I, py_format flt fm [FStr T; FStr I] = Ok (g T I)) -> l <> [] ->
    Show_Mels flt M l toshow fn scale fm desg s
    = let '(r, s', o) := pmap (show_designator flt s M (g (layout tran4) (layout [Fld (58 :: number_spec s)])) (g (layout tran3) (layout [Fld (chars ":s")]))
                                toshow fn scale) l s in
      (r, s', header_line flt s scale desg :: o).
  Proof.
    intros Hg Hl. unfold Show_Mels. destruct l as [|d l]; [congruence|].
    unfold pbind at 1, praise at 1. replace (nrows (fst M) =? 0) with false by lia. cbn [raise_if].
    unfold pbind at 1, pget. unfold pbind at 1, print. destruct (f1_of flt s HS fm g Hg) as [-> ->]. unfold praise, pbind at 1 2.
    destruct (pmap _ (d :: l) s) as [[r s'] o]. reflexivity.
  Qed.

  Lemma within_eval f1 f2 L1 n1 L2 n2 : within M dim L1 n1 L2 n2 ->
    show_designator flt s M f1 f2 toshow fn scale [L1; L2; n1; n2] s
    = match fn (g_rat_TRopAM s) L1 L2 (element M start L1 n1 L2 n2) with
      | Ok y => match py_format flt f1 [FInt L1; FInt n1; FInt L2; FInt n2; FFlt (y / scale)%R] with
                | Ok line => (Ok tt, s, [line])
                | Raise e => (Raise e, s, [])
                end
      | Raise e => (Raise e, s, [])
      end.
  Proof.
    intros (P1 & P2 & I1 & I2 & N1 & N2). unfold show_designator. replace (5 <? _) with false by reflexivity.
    replace ((L1 <? 0) || (L2 <? 0)) with false by lia. rewrite (mel_eval flt s M start dim) by assumption.
    replace ((0 <? n1) && (n1 <=? dim L1) && (0 <? n2) && (n2 <=? dim L2)) with true by lia. reflexivity.
  Qed.

  (** A list of transitions in range, the line of each given by the format. *)
  Lemma lines_eval fm g line (val : Z -> Z -> Z -> Z -> R) l : (forall T I, py_format flt fm [FStr T; FStr I] = Ok (g T I)) ->
    (forall L1 n1 L2 n2 y, py_format flt (g (layout tran4) (layout [Fld (58 :: number_spec s)])) [FInt L1; FInt n1; FInt L2; FInt n2; FFlt y]
                           = Ok (line L1 n1 L2 n2 y)) -> l <> [] ->
    Forall (fun '(L1, n1, L2, n2) => within M dim L1 n1 L2 n2 /\ fn (g_rat_TRopAM s) L1 L2 (element M start L1 n1 L2 n2) = Ok (val L1 n1 L2 n2)) l ->
    Show_Mels flt M (map (fun '(L1, n1, L2, n2) => [L1; L2; n1; n2]) l) toshow fn scale fm desg s
    = (Ok tt, s, header_line flt s scale desg :: map (fun '(L1, n1, L2, n2) => line L1 n1 L2 n2 (val L1 n1 L2 n2 / scale)%R) l).
  Proof.
    intros Hg HL Hl H. rewrite (mels_eval fm g) by (exact Hg || (destruct l; [congruence|discriminate])).
    match goal with |- context[pmap ?f (map ?q l) s] =>
      assert (E : pmap f (map q l) s = (Ok tt, s, map (fun '(L1, n1, L2, n2) => line L1 n1 L2 n2 (val L1 n1 L2 n2 / scale)%R) l)) end.
    { clear Hl. induction H as [|[[[L1 n1] L2] n2] l [W V] _ IH]; [reflexivity|]. cbn [map pmap]. unfold pbind at 1.
      rewrite within_eval by exact W. rewrite V, HL. rewrite IH. reflexivity. }
    rewrite E. reflexivity.
  Qed.

  (** The first transition in range, when its line cannot be made. *)
  Lemma error_eval fm g e L1 n1 L2 n2 y l : (forall T I, py_format flt fm [FStr T; FStr I] = Ok (g T I)) ->
    py_format flt (g (layout tran4) (layout [Fld (58 :: number_spec s)])) [FInt L1; FInt n1; FInt L2; FInt n2; FFlt (y / scale)] = Raise e ->
    within M dim L1 n1 L2 n2 -> fn (g_rat_TRopAM s) L1 L2 (element M start L1 n1 L2 n2) = Ok y ->
    Show_Mels flt M ([L1; L2; n1; n2] :: l) toshow fn scale fm desg s = (Raise e, s, [header_line flt s scale desg]).
  Proof.
    intros Hg HE W V. rewrite (mels_eval fm g) by (exact Hg || discriminate). cbn [pmap]. unfold pbind at 1. rewrite within_eval by exact W.
    rewrite V, HE. reflexivity.
  Qed.

  (** Any text may surround the transition and the value, if its braces are
      written four times. *)
  Theorem C88_prints : forall numbered str a b c (val : Z -> Z -> Z -> Z -> R) l, l <> [] ->
    Forall (fun '(L1, n1, L2, n2) => within M dim L1 n1 L2 n2 /\ fn (g_rat_TRopAM s) L1 L2 (element M start L1 n1 L2 n2) = Ok (val L1 n1 L2 n2)) l ->
    Show_Mels flt M (map (fun '(L1, n1, L2, n2) => [L1; L2; n1; n2]) l) toshow fn scale
      (doubled (doubled a) ++ field numbered str 0 ++ doubled (doubled b) ++ field numbered str 1 ++ doubled (doubled c)) desg s
    = (Ok tt, s, header_line flt s scale desg ::
                 map (fun '(L1, n1, L2, n2) => a ++ arrow (dec_int L1) (dec_int n1) (dec_int L2) (dec_int n2)
                                               ++ b ++ flt (number_spec s) (val L1 n1 L2 n2 / scale)%R ++ c) l).
  Proof.
    intros numbered str a b c val l Hl H.
    exact (lines_eval _ (fun T I => doubled a ++ T ++ doubled b ++ I ++ doubled c)
             (fun L1 n1 L2 n2 y => a ++ arrow (dec_int L1) (dec_int n1) (dec_int L2) (dec_int n2) ++ b ++ flt (number_spec s) y ++ c) val l
             (first_two flt numbered str _ _ _) (line_two flt s HS a b c) Hl H).
  Qed.

  (** A format without a field is printed as it is for each transition. *)
  Theorem C88_constant : forall a (val : Z -> Z -> Z -> Z -> R) l, l <> [] ->
    Forall (fun '(L1, n1, L2, n2) => within M dim L1 n1 L2 n2 /\ fn (g_rat_TRopAM s) L1 L2 (element M start L1 n1 L2 n2) = Ok (val L1 n1 L2 n2)) l ->
    Show_Mels flt M (map (fun '(L1, n1, L2, n2) => [L1; L2; n1; n2]) l) toshow fn scale (doubled (doubled a)) desg s
    = (Ok tt, s, header_line flt s scale desg :: map (fun _ => a) l).
  Proof.
    intros a val l Hl H.
    rewrite (lines_eval _ (fun T I => doubled a) (fun L1 n1 L2 n2 y => a) val l
             (fun T I => first_none flt _ _) (fun _ _ _ _ _ => first_none flt _ _) Hl H).
    do 2 f_equal. apply map_ext. intros [[[? ?] ?] ?]. reflexivity.
  Qed.

  (** With the value alone, the first angular momentum is printed for it. *)
  Theorem C88_value_alone : forall str a b (val : Z -> Z -> Z -> Z -> R) l, l <> [] ->
    Forall (fun '(L1, n1, L2, n2) => within M dim L1 n1 L2 n2 /\ fn (g_rat_TRopAM s) L1 L2 (element M start L1 n1 L2 n2) = Ok (val L1 n1 L2 n2)) l ->
    Show_Mels flt M (map (fun '(L1, n1, L2, n2) => [L1; L2; n1; n2]) l) toshow fn scale
      (doubled (doubled a) ++ field true str 1 ++ doubled (doubled b)) desg s
    = (Ok tt, s, header_line flt s scale desg :: map (fun '(L1, n1, L2, n2) => a ++ flt (number_spec s) (IZR L1) ++ b) l).
  Proof.
    intros str a b val l Hl H.
    exact (lines_eval _ (fun T I => doubled a ++ I ++ doubled b) (fun L1 n1 L2 n2 y => a ++ flt (number_spec s) (IZR L1) ++ b) val l
             (fun T I => first_value flt str _ _ T I) (line_value flt s HS a b) Hl H).
  Qed.

  (** With the value before the transition, the first transition in range fails. *)
  Theorem C88_swapped : forall str a b c L1 n1 L2 n2 y l, within M dim L1 n1 L2 n2 ->
    fn (g_rat_TRopAM s) L1 L2 (element M start L1 n1 L2 n2) = Ok y ->
    Show_Mels flt M ([L1; L2; n1; n2] :: l) toshow fn scale
      (doubled (doubled a) ++ field true str 1 ++ doubled (doubled b) ++ field true str 0 ++ doubled (doubled c)) desg s
    = (Raise ValueError, s, [header_line flt s scale desg]).
  Proof.
    intros str a b c L1 n1 L2 n2 y l W V.
    exact (error_eval _ (fun T I => doubled a ++ I ++ doubled b ++ T ++ doubled c) _ L1 n1 L2 n2 y l
             (first_swapped flt str _ _ _) (line_swapped flt s HS a b c L1 n1 L2 n2 _) W V).
  Qed.

  (** A word in braces, each written twice as [str.format] asks. *)
  Theorem C88_twice : forall numbered str a w b c d L1 n1 L2 n2 y l, no_brace a -> no_brace b -> no_brace c -> no_brace d ->
    Forall (fun x => 48 <= x <= 57 \/ 65 <= x <= 90 \/ 97 <= x <= 122) w -> Exists (fun x => ~ 48 <= x <= 57) w ->
    within M dim L1 n1 L2 n2 -> fn (g_rat_TRopAM s) L1 L2 (element M start L1 n1 L2 n2) = Ok y ->
    Show_Mels flt M ([L1; L2; n1; n2] :: l) toshow fn scale
      (a ++ chars "{{" ++ w ++ chars "}}" ++ b ++ field numbered str 0 ++ c ++ field numbered str 1 ++ d) desg s
    = (Raise KeyError, s, [header_line flt s scale desg]).
  Proof.
    intros numbered str a w b c d L1 n1 L2 n2 y l Na Nb Nc Nd Hw HE W V.
    assert (D : forall t, no_brace t -> doubled t = t).
    { intros t H. induction H as [|x t Hx _ IH]; [reflexivity|]. cbn [doubled flat_map]. fold (doubled t). rewrite IH.
      replace ((x =? 123) || (x =? 125)) with false by lia. reflexivity. }
    assert (Nw : no_brace w) by (revert Hw; apply Forall_impl; intros; lia).
    set (t := a ++ 123 :: w ++ 125 :: b).
    assert (Et : a ++ chars "{{" ++ w ++ chars "}}" ++ b ++ field numbered str 0 ++ c ++ field numbered str 1 ++ d
                 = doubled t ++ field numbered str 0 ++ doubled c ++ field numbered str 1 ++ doubled d).
    { unfold t. rewrite (D c Nc), (D d Nd). unfold doubled. rewrite flat_map_app. cbn [flat_map]. rewrite flat_map_app. cbn [flat_map].
      fold (doubled a) (doubled w) (doubled b). rewrite (D a Na), (D w Nw), (D b Nb).
      change (chars "{{") with [123; 123]. change (chars "}}") with [125; 125]. repeat (rewrite <- app_assoc; cbn [app Z.eqb orb Pos.eqb]). reflexivity. }
    rewrite Et.
    refine (error_eval _ (fun T I => t ++ T ++ c ++ I ++ d) KeyError L1 n1 L2 n2 y l (first_two flt numbered str _ _ _) _ W V).
    unfold t. repeat (rewrite <- app_assoc; cbn [app]).
    refine (line_named flt a w _ _ Na _ Hw HE _); [intros ->; inversion HE|].
    exists (map PLit b ++ flat_map seg_pieces tran4 ++ map PLit c ++ flat_map seg_pieces [Fld (58 :: number_spec s)] ++ map PLit d).
    rewrite pieces_lits by exact Nb. rewrite layout_app by exact good4. rewrite pieces_lits by exact Nc.
    rewrite layout_app by exact (item_good s HS). rewrite <- (app_nil_r d), pieces_lits by exact Nd. rewrite pieces_nil. cbn [bind]. now rewrite !app_nil_r.
  Qed.

  (** A format that cannot be used fails although no transition may be in range:
      too many fields, or a lone brace. *)
  Lemma unusable_eval fm e d l : (forall T I, py_format flt fm [FStr T; FStr I] = Raise e) ->
    Show_Mels flt M (d :: l) toshow fn scale fm desg s = (Raise e, s, [header_line flt s scale desg]).
  Proof.
    intros H. unfold Show_Mels. unfold pbind at 1, praise at 1. replace (nrows (fst M) =? 0) with false by lia. cbn [raise_if].
    unfold pbind at 1, pget. unfold pbind at 1, print. unfold mel_f1. destruct HS as (T & _). rewrite T.
    replace (py_format flt (g_tran_format imported) _) with (Ok (layout tran4)) by (vm_compute; reflexivity).
    cbn [bind]. rewrite H. reflexivity.
  Qed.

  Theorem C88_unusable : forall a b c d q l, no_brace a -> no_brace b -> no_brace c -> no_brace d ->
    Show_Mels flt M (q :: l) toshow fn scale (a ++ chars "{}" ++ b ++ chars "{}" ++ c ++ chars "{}" ++ d) desg s
    = (Raise IndexError, s, [header_line flt s scale desg]) /\
    Show_Mels flt M (q :: l) toshow fn scale (a ++ chars "{" ++ b) desg s = (Raise ValueError, s, [header_line flt s scale desg]) /\
    Show_Mels flt M (q :: l) toshow fn scale (a ++ chars "}" ++ b) desg s = (Raise ValueError, s, [header_line flt s scale desg]).
  Proof.
    intros a b c d q l Na Nb Nc Nd. split; [|split].
    - apply unusable_eval. intros T I. unfold py_format. change (chars "{}") with [123; 125]. cbn [app].
      rewrite pieces_lits by exact Na. rewrite pieces_empty. rewrite pieces_lits by exact Nb. rewrite pieces_empty.
      rewrite pieces_lits by exact Nc. rewrite pieces_empty. rewrite <- (app_nil_r d), pieces_lits by exact Nd. rewrite pieces_nil. cbn [bind].
      rewrite render_lits. rewrite (render_plain flt _ _ _ (FStr T) T) by (lia || reflexivity).
      rewrite render_lits. rewrite (render_plain flt _ _ _ (FStr I) I) by (lia || reflexivity). rewrite render_lits. reflexivity.
    - apply unusable_eval. intros T I. unfold py_format. rewrite pieces_lits by exact Na.
      assert (E : pieces (chars "{" ++ b) = Raise ValueError); [|rewrite E; reflexivity].
      assert (FE : field_end b = Raise ValueError).
      { induction Nb as [|x t Hx _ IH]; [reflexivity|]. cbn [field_end]. replace (x =? 125) with false by lia. replace (x =? 123) with false by lia. rewrite IH. reflexivity. }
      change (chars "{" ++ b) with (123 :: b). unfold pieces. cbn [pieces_fuel length]. replace (123 =? 123) with true by reflexivity.
      destruct Nb as [|x t Hx _]; [reflexivity|]. replace (x =? 123) with false by lia. rewrite FE. reflexivity.
    - apply unusable_eval. intros T I. unfold py_format. rewrite pieces_lits by exact Na.
      assert (E : pieces (chars "}" ++ b) = Raise ValueError); [|rewrite E; reflexivity].
      change (chars "}" ++ b) with (125 :: b). unfold pieces. cbn [pieces_fuel length]. replace (125 =? 123) with false by reflexivity.
      replace (125 =? 125) with true by reflexivity. destruct Nb as [|x t Hx _]; [reflexivity|]. replace (x =? 125) with false by lia. reflexivity.
  Qed.
  (** Numbered and automatic fields mixed; an unknown conversion; a named field;
      a number specification for the value, which is not yet a number. *)
  Theorem C88_rejected : forall a b c q l, no_brace a -> no_brace b -> no_brace c ->
    let fails fm e := Show_Mels flt M (q :: l) toshow fn scale fm desg s = (Raise e, s, [header_line flt s scale desg]) in
    fails (a ++ chars "{0}" ++ b ++ chars "{}" ++ c) ValueError /\
    fails (a ++ chars "{}" ++ b ++ chars "{1}" ++ c) ValueError /\
    (forall x, ~ In x (chars "sra{}") -> fails (a ++ chars "{!" ++ [x] ++ chars "}" ++ b) ValueError) /\
    (forall w, Forall (fun x => 48 <= x <= 57 \/ 65 <= x <= 90 \/ 97 <= x <= 122) w -> Exists (fun x => ~ 48 <= x <= 57) w ->
       fails (a ++ chars "{" ++ w ++ chars "}" ++ b) KeyError) /\
    (forall width digits, 0 <= width -> 0 <= digits ->
       fails (a ++ chars "{}" ++ b ++ chars "{:" ++ dec_int width ++ chars "." ++ dec_int digits ++ chars "f}" ++ c) ValueError).
  Proof.
    intros a b c q l Na Nb Nc fails.
    assert (PL : forall t, no_brace t -> pieces t = Ok (map PLit t)).
    { intros t Nt. rewrite <- (app_nil_r t) at 1. rewrite pieces_lits by exact Nt. rewrite pieces_nil. cbn [bind]. now rewrite app_nil_r. }
    split; [|split; [|split; [|split]]].
    - apply unusable_eval. intros T I. unfold py_format. rewrite pieces_lits by exact Na. change (chars "{0}") with (123 :: [48] ++ [125]). cbn [app].
      change (123 :: 48 :: 125 :: b ++ chars "{}" ++ c) with (123 :: [48] ++ 125 :: b ++ chars "{}" ++ c). rewrite pieces_any by brace.
      rewrite pieces_lits by exact Nb. change (chars "{}" ++ c) with (123 :: 125 :: c). rewrite pieces_empty, (PL c Nc). cbn [bind].
      rewrite render_lits. cbn [render]. cbn -[render]. rewrite render_lits. reflexivity.
    - apply unusable_eval. intros T I. unfold py_format. rewrite pieces_lits by exact Na. change (chars "{}" ++ b ++ chars "{1}" ++ c) with (123 :: 125 :: b ++ chars "{1}" ++ c).
      rewrite pieces_empty. rewrite pieces_lits by exact Nb. change (chars "{1}" ++ c) with (123 :: [49] ++ 125 :: c). rewrite pieces_any by brace.
      rewrite (PL c Nc). cbn [bind]. rewrite render_lits. rewrite (render_plain flt _ _ _ (FStr T) T) by (lia || reflexivity). rewrite render_lits. reflexivity.
    - intros x Hx. apply unusable_eval. intros T I. unfold py_format. rewrite pieces_lits by exact Na.
      change (chars "{!" ++ [x] ++ chars "}" ++ b) with (123 :: [33; x] ++ 125 :: b).
      assert (X : x <> 115 /\ x <> 114 /\ x <> 97 /\ x <> 123 /\ x <> 125) by (repeat split; intros ->; apply Hx; cbn; tauto).
      rewrite pieces_any by (repeat constructor; lia). rewrite (PL b Nb). cbn [bind]. rewrite render_lits. cbn [render split_name]. 
      replace ((33 =? 33) || (33 =? 58)) with true by reflexivity. cbn [split_spec].
      replace (33 =? 58) with false by reflexivity. replace ((x =? 115) || (x =? 114) || (x =? 97)) with false by lia. reflexivity.
    - intros w Hw HE. apply unusable_eval. intros T I. change (a ++ chars "{" ++ w ++ chars "}" ++ b) with (a ++ 123 :: w ++ 125 :: b).
      apply (line_named flt a w b); [exact Na|intros ->; inversion HE|exact Hw|exact HE|]. exists (map PLit b). exact (PL b Nb).
    - intros width digits Hw Hd. apply unusable_eval. intros T I. unfold py_format. rewrite pieces_lits by exact Na.
      set (spec := dec_int width ++ chars "." ++ dec_int digits ++ chars "f").
      replace (b ++ chars "{:" ++ dec_int width ++ chars "." ++ dec_int digits ++ chars "f}" ++ c) with (b ++ 123 :: (58 :: spec) ++ 125 :: c)
        by (unfold spec; cbn [app]; rewrite <- !app_assoc; reflexivity).
      change (chars "{}" ++ b ++ 123 :: (58 :: spec) ++ 125 :: c) with (123 :: 125 :: b ++ 123 :: (58 :: spec) ++ 125 :: c).
      rewrite pieces_empty. rewrite pieces_lits by exact Nb.
      assert (W : Forall (fun x => 48 <= x <= 57) (dec_int width)) by (rewrite dec_int_nonneg by exact Hw; now apply dec_digits).
      assert (D : Forall (fun x => 48 <= x <= 57) (dec_int digits)) by (rewrite dec_int_nonneg by exact Hd; now apply dec_digits).
      assert (NS : no_brace spec).
      { unfold spec. apply no_brace_app; [now apply no_brace_digits|]. apply no_brace_app; [brace|]. apply no_brace_app; [now apply no_brace_digits|brace]. }
      rewrite pieces_any by (constructor; [lia|exact NS]). rewrite (PL c Nc). cbn [bind]. rewrite render_lits.
      rewrite (render_plain flt _ _ _ (FStr T) T) by (lia || reflexivity). rewrite render_lits.
      assert (F : float_spec spec = true) by (apply float_spec_wp; assumption).
      cbn [render split_name]. replace ((58 =? 33) || (58 =? 58)) with true by reflexivity. cbn [split_spec].
      replace (58 =? 58) with true by reflexivity. cbn [bind]. replace (0 + 1 <? 0) with false by reflexivity. cbn [bind].
      change (nth_error [FStr T; FStr I] (Z.to_nat (0 + 1))) with (Some (FStr I)). cbn [bind show_arg].
      destruct (text_eqb spec [] || text_eqb spec (chars "s")) eqn:E; [|reflexivity].
      apply orb_true_iff in E. rewrite !text_eqb_eq in E. destruct E as [E|E]; rewrite E in F; discriminate.
  Qed.
End Report.

(** The four ways of writing the two fields give the same report. *)
Theorem C88_fields : forall flt M l toshow fn scale s desg numbered str a b c, usual s ->
  Show_Mels flt M l toshow fn scale (doubled a ++ field numbered str 0 ++ doubled b ++ field numbered str 1 ++ doubled c) desg s
  = Show_Mels flt M l toshow fn scale (doubled a ++ chars "{}" ++ doubled b ++ chars "{}" ++ doubled c) desg s.
Proof.
  intros flt M l toshow fn scale s desg numbered str a b c HS. unfold Show_Mels. destruct l as [|d l]; [reflexivity|].
  unfold pbind, praise, pget, print. destruct (raise_if _ _) as [u|e]; [|reflexivity].
  destruct (f1_of flt s HS _ _ (first_two flt numbered str a b c)) as [-> ->].
  destruct (f1_of flt s HS _ _ (first_two flt false false a b c)) as [A B]. change (field false false 0) with (chars "{}") in A, B.
  change (field false false 1) with (chars "{}") in A, B. rewrite A, B. reflexivity.
Qed.

(** Every format is accepted when it is set; it is used by the next report. *)
Theorem C88_accepted : forall flt f fm desg show s, usual s ->
  (exists s', ACM_set_rat_form flt (Some f) (Some fm) (Some desg) show s = (Ok (f, fm, desg), s') /\ usual s' /\
    forall M l n, Show_Rats flt M (Some l) (Some n) s' = Show_Mels flt M l n f (g_rat_sft s) fm desg s') /\
  (exists s', ACM_set_amp_form flt (Some f) (Some fm) (Some desg) show s = (Ok (f, fm, desg), s') /\ usual s' /\
    forall M l n, Show_Amps flt M (Some l) (Some n) s' = Show_Mels flt M l n f (g_amp_sft s) fm desg s').
Proof.
  intros flt f fm desg show s HS. split.
  - exists (w_rat_desg desg (w_rat_format fm (w_rat_fun f s))). split; [|split; [exact HS|]].
    + unfold ACM_set_rat_form, assign, sbind, get, lift, sret. cbn [default]. destruct (0 <? show); [|reflexivity].
      unfold form_message. destruct HS as (T & _). change (g_tran_format (w_rat_desg desg (w_rat_format fm (w_rat_fun f s)))) with (g_tran_format s). rewrite T.
      replace (py_format flt (g_tran_format imported) _) with (Ok (chars "L_i(j_i) -> L_f(j_f)")) by (vm_compute; reflexivity). reflexivity.
    + intros M l n. set (z := w_rat_desg desg (w_rat_format fm (w_rat_fun f s))).
      transitivity (let '(r, s', o) := Show_Mels flt M l n f (g_rat_sft s) fm desg z in (r, s', o)); [reflexivity|].
      destruct (Show_Mels flt M l n f (g_rat_sft s) fm desg z) as [[r s'] o]. reflexivity.
  - exists (w_amp_desg desg (w_amp_format fm (w_amp_fun f s))). split; [|split; [exact HS|]].
    + unfold ACM_set_amp_form, assign, sbind, get, lift, sret. cbn [default]. destruct (0 <? show); [|reflexivity].
      unfold form_message. destruct HS as (T & _). change (g_tran_format (w_amp_desg desg (w_amp_format fm (w_amp_fun f s)))) with (g_tran_format s). rewrite T.
      replace (py_format flt (g_tran_format imported) _) with (Ok (chars "L_i(j_i) -> L_f(j_f)")) by (vm_compute; reflexivity). reflexivity.
    + intros M l n. set (z := w_amp_desg desg (w_amp_format fm (w_amp_fun f s))).
      transitivity (let '(r, s', o) := Show_Mels flt M l n f (g_amp_sft s) fm desg z in (r, s', o)); [reflexivity|].
      destruct (Show_Mels flt M l n f (g_amp_sft s) fm desg z) as [[r s'] o]. reflexivity.
Qed.

(** ** Examples *)

(** Literal braces written four times and twice; the format def_mel_format, whose
    per cent sign is printed; the other orders; a format of the Maple program. *)
Example C88_examples : forall (shown : R -> Z) a b c d,
  let flt spec x := spec ++ [shown x] in
  let report fm l := snd (Show_Mels flt (two_states a b c d) l 4 (fun _ _ _ x => Ok x) 2 fm (chars "amplitudes") imported) in
  let header := chars "Selected amplitudes follow (each divided by .4f" ++ [shown 2%R] ++ chars "):" in
  report (chars "M{{{{E2}}}} {0!s}: {1!s}") [[2; 0; 1; 1]; [2; 0; 1]] =
    [header; chars "M{E2} 2(1) -> 0(1): 7.2f" ++ [shown (b / 2)%R]; chars "M{E2} 2(#) -> 0(1): [7.2f" ++ [shown (b / 2)%R] ++ chars "]"] /\
  report (chars "  ME( %{0!s} ) = {1!s}") [[2; 0; 1; 1]] = [header; chars "  ME( %2(1) -> 0(1) ) = 7.2f" ++ [shown (b / 2)%R]] /\
  report (chars "M{{E2}} {0!s}: {1!s}") [[2; 0; 1; 1]] = [header] /\
  report (chars "{1} for {0}") [[2; 0; 1; 1]] = [header] /\
  report (chars "B = {1}") [[2; 0; 1; 1]; [0; 2; 1; 1]] = [header; chars "B = 7.2f" ++ [shown 2%R]; chars "B = 7.2f" ++ [shown 0%R]] /\
  report (chars "B(%s) = %s") [[2; 0; 1; 1]; [0; 2; 1; 1]] = [header; chars "B(%s) = %s"; chars "B(%s) = %s"].
Proof. intros. repeat split; vm_compute; reflexivity. Qed.

Example C88_case : usual imported /\ (forall a b c d, within (two_states a b c d) (fun _ => 1) 2 1 0 1 /\ array_blocks (two_states a b c d) (fun L => L / 2) (fun _ => 1)) /\
  chars "M{{{{E2}}}} {0!s}: {1!s}" = doubled (doubled (chars "M{E2} ")) ++ field true true 0 ++ doubled (doubled (chars ": ")) ++ field true true 1 ++ doubled (doubled []).
Proof.
  split; [repeat split; vm_compute; discriminate|]. split; [|reflexivity]. intros a b c d. split; [|apply two_states_blocks].
  repeat split; cbn; try lia; auto.
Qed.

Print Assumptions C88_prints.
Print Assumptions C88_constant.
Print Assumptions C88_value_alone.
Print Assumptions C88_swapped.
Print Assumptions C88_twice.
Print Assumptions C88_unusable.
Print Assumptions C88_rejected.
Print Assumptions C88_fields.
Print Assumptions C88_accepted.
