(** C68: the two readers of coefficient files. *)

From Coq Require Import Reals Lra String.
From Coq Require Import Lia ZifyBool ZifyNat.
From Verif Require Import PyBase PyFacts Compat PyDict Text SO5Files SphericalSpec Spherical
  SphericalFacts CG CGSpec PropsFiles CGFacts PropsCG DataFile.
Open Scope Z_scope.
Ltac Zify.zify_post_hook ::= Z.div_mod_to_equations.

(** How a line of a file is made up: non-empty words without white space,
    separated by white space, with optional white space around. *)
Definition blank (space : Z -> bool) (s : text) : Prop := forall c, In c s -> space c = true.
Definition word (space : Z -> bool) (s : text) : Prop := s <> [] /\ forall c, In c s -> space c = false.
Inductive words (space : Z -> bool) : list text -> text -> Prop :=
| words_one w : word space w -> words space [w] w
| words_more w sep ws s : word space w -> sep <> [] -> blank space sep -> words space ws s ->
    words space (w :: ws) (w ++ sep ++ s).
Definition line_of (space : Z -> bool) (ws : list text) (line : text) : Prop :=
  exists lead body trail, line = lead ++ body ++ trail /\ blank space lead /\ blank space trail /\ words space ws body.

Section Lines.
  Variable space : Z -> bool.

  Lemma lstrip_blank lead s : blank space lead -> lstrip space (lead ++ s) = lstrip space s.
  Proof.
    induction lead as [|c l IH]; intros B; [reflexivity|]. cbn [app lstrip]. rewrite (B c) by (now left). apply IH. intros d Hd. apply B. now right.
  Qed.

  Lemma lstrip_word c s : space c = false -> lstrip space (c :: s) = c :: s.
  Proof. intros E. cbn [lstrip]. now rewrite E. Qed.

  Lemma blank_rev s : blank space s -> blank space (rev s).
  Proof. intros B c Hc. apply B. now apply in_rev. Qed.

  Lemma words_ends ws s : words space ws s -> (exists c r, s = c :: r /\ space c = false) /\ (exists c r, s = r ++ [c] /\ space c = false).
  Proof.
    induction 1 as [w [N W] | w sep ws s [N W] Ns Bs _ [_ (c & r & -> & Hc)]].
    - split.
      + destruct w as [|c r]; [congruence|]. exists c, r. split; [reflexivity|]. apply W. now left.
      + destruct (exists_last N) as (r & c & ->). exists c, r. split; [reflexivity|]. apply W. apply in_or_app. right. now left.
    - split.
      + destruct w as [|d w]; [congruence|]. exists d, (w ++ sep ++ r ++ [c]). split; [reflexivity|]. apply W. now left.
      + exists c, (w ++ sep ++ r). split; [|exact Hc]. now rewrite !app_assoc.
  Qed.

  Lemma strip_line lead body trail ws : blank space lead -> blank space trail -> words space ws body ->
    py_strip space (lead ++ body ++ trail) = body.
  Proof.
    intros B1 B2 W. unfold py_strip. rewrite lstrip_blank by assumption.
    destruct (words_ends _ _ W) as [(c & r & E & Hc) (d & q & E' & Hd)].
    rewrite E. cbn [app]. rewrite lstrip_word by assumption. change (c :: r ++ trail) with ((c :: r) ++ trail). rewrite <- E, E'.
    rewrite rev_app_distr, lstrip_blank by (now apply blank_rev). rewrite rev_app_distr. cbn [rev app]. rewrite lstrip_word by assumption.
    cbn [rev]. now rewrite rev_involutive.
  Qed.

  Lemma split_word w : word space w -> forall s fs f, split_ws space s = f :: fs -> split_ws space (w ++ s) = (w ++ f) :: fs.
  Proof.
    intros [_ W] s fs f E. induction w as [|c w IH]; [exact E|]. cbn [app split_ws]. rewrite (W c) by (now left).
    rewrite IH by (intros d Hd; apply W; now right). reflexivity.
  Qed.

  Lemma split_sep sep : sep <> [] -> blank space sep -> forall s, (exists c r, s = c :: r /\ space c = false) -> split_ws space (sep ++ s) = [] :: split_ws space s.
  Proof.
    induction sep as [|c sep IH]; intros N B s (d & r & -> & Hd); [congruence|]. cbn [app split_ws]. rewrite (B c) by (now left).
    destruct sep as [|e sep]; cbn [app].
    - cbn [split_ws]. rewrite !Hd. reflexivity.
    - rewrite (B e) by (right; now left). change (e :: sep ++ d :: r) with ((e :: sep) ++ d :: r).
      apply IH; [congruence|intros x Hx; apply B; now right|eauto].
  Qed.

  Lemma split_words ws s : words space ws s -> split_ws space s = ws.
  Proof.
    induction 1 as [w W | w sep ws s W N B Ws IH].
    - rewrite <- (app_nil_r w) at 1. rewrite (split_word w W [] [] []) by reflexivity. now rewrite app_nil_r.
    - rewrite (split_word w W (sep ++ s) ws []); [now rewrite app_nil_r|].
      rewrite split_sep by (assumption || apply (words_ends _ _ Ws)). now rewrite IH.
  Qed.

  (** The fields of a line are its words. *)
  Theorem C68_fields : forall ws line, line_of space ws line -> split_ws space (py_strip space line) = ws.
  Proof. intros ws line (lead & body & trail & -> & B1 & B2 & W). rewrite (strip_line _ _ _ ws) by assumption. now apply split_words. Qed.

  Lemma trim_front s : exists lead t, s = lead ++ t /\ blank space lead /\ (t = [] \/ exists c r, t = c :: r /\ space c = false).
  Proof.
    induction s as [|c s (lead & t & -> & B & K)]; [exists [], []; repeat split; [intros c []|now left]|].
    destruct (space c) eqn:E.
    - exists (c :: lead), t. split; [reflexivity|]. split; [intros d [<- | Hd]; auto|exact K].
    - exists [], (c :: lead ++ t). split; [reflexivity|]. split; [intros d []|]. right. eauto.
  Qed.

  Lemma cut_word s : exists w t, s = w ++ t /\ (forall c, In c w -> space c = false) /\ (t = [] \/ exists c r, t = c :: r /\ space c = true).
  Proof.
    induction s as [|c s (w & t & -> & B & K)]; [exists [], []; repeat split; [intros c []|now left]|].
    destruct (space c) eqn:E.
    - exists [], (c :: w ++ t). split; [reflexivity|]. split; [intros d []|]. right. eauto.
    - exists (c :: w), t. split; [reflexivity|]. split; [intros d [<- | Hd]; auto|exact K].
  Qed.

  Lemma any_words n : forall s, (length s <= n)%nat -> (exists c r, s = c :: r /\ space c = false) ->
    exists ws body trail, s = body ++ trail /\ blank space trail /\ words space ws body.
  Proof.
    induction n as [|n IH]; intros s Hl (c & r & E & Hc); [rewrite E in Hl; cbn in Hl; lia|].
    destruct (cut_word s) as (w & t & Es & W & K).
    assert (Ww : word space w).
    { split; [|exact W]. intros ->. cbn [app] in Es. subst t. rewrite E in K. destruct K as [K | (d & q & K & Hd)]; [discriminate|]. injection K as <- _. congruence. }
    destruct K as [-> | (d & q & -> & Hd)].
    { exists [w], w, []. split; [exact Es|]. split; [intros x []|now constructor]. }
    destruct (trim_front (d :: q)) as (sep & u & Eu & B & K).
    assert (Ns : sep <> []) by (intros ->; cbn [app] in Eu; subst u; destruct K as [K | (x & y & K & Hx)]; [discriminate|injection K as <- _; congruence]).
    destruct K as [-> | K].
    { exists [w], w, sep. rewrite app_nil_r in Eu. split; [rewrite Es, Eu; reflexivity|]. split; [exact B|now constructor]. }
    destruct (IH u) as (ws & body & trail & E3 & B3 & W3); [|exact K|].
    { assert (length s = length w + (length sep + length u))%nat by (rewrite Es, Eu, !app_length; reflexivity).
      destruct Ww as [Nw _]. destruct w; [congruence|]. cbn [length] in *. lia. }
    exists (w :: ws), (w ++ sep ++ body), trail. split; [rewrite Es, Eu, E3, <- !app_assoc; reflexivity|]. split; [exact B3|]. now constructor.
  Qed.

  (** Every line is blank or made up of words. *)
  Theorem C68_every_line : forall line, blank space line \/ exists ws, line_of space ws line.
  Proof.
    intros line. destruct (trim_front line) as (lead & t & -> & B & [-> | K]); [left; now rewrite app_nil_r|].
    right. destruct (any_words (length t) t (le_n _) K) as (ws & body & trail & -> & B2 & W). exists ws, lead, body, trail. auto.
  Qed.

  Lemma blank_line s : blank space s -> split_ws space (py_strip space s) = [[]].
  Proof.
    intros B. unfold py_strip. rewrite <- (app_nil_r s), lstrip_blank by assumption. reflexivity.
  Qed.

  Section Files.
    Variable py_float : text -> res R.
    Variable py_int : text -> res Z.
    Variable lines_of : text -> res (list text).

    (** One line: the reader that keeps the labels wants exactly ten words, a
        number and nine integers; the other one looks at the first word only. *)
    Theorem C68_line : forall ws line, line_of space ws line ->
      parse_line_float space py_float line = py_float (hd [] ws) /\
      (length ws <> 10%nat -> parse_line space py_float py_int line = Raise ValueError) /\
      forall f0 f1 f2 f3 f4 f5 f6 f7 f8 f9 x v1 a1 L1 v2 a2 L2 v3 a3 L3,
        ws = [f0; f1; f2; f3; f4; f5; f6; f7; f8; f9] -> py_float f0 = Ok x ->
        py_int f1 = Ok v1 -> py_int f2 = Ok a1 -> py_int f3 = Ok L1 ->
        py_int f4 = Ok v2 -> py_int f5 = Ok a2 -> py_int f6 = Ok L2 ->
        py_int f7 = Ok v3 -> py_int f8 = Ok a3 -> py_int f9 = Ok L3 ->
        parse_line space py_float py_int line = Ok (x, ((v1, a1, L1), (v2, a2, L2), (v3, a3, L3))).
    Proof.
      intros ws line HL. pose proof (C68_fields _ _ HL) as F. split; [|split].
      - unfold parse_line_float. rewrite F. destruct HL as (? & ? & ? & _ & _ & _ & W). inversion W; reflexivity.
      - intros N. unfold parse_line. rewrite F. replace (zlen ws =? 10) with false by (unfold zlen; lia). reflexivity.
      - intros * -> E0 E1 E2 E3 E4 E5 E6 E7 E8 E9. unfold parse_line. rewrite F. cbn [zlen length Z.of_nat]. change (negb (10 =? 10)) with false. cbn [raise_if bind].
        rewrite E0. cbn [bind mapM]. rewrite E1, E2, E3, E4, E5, E6, E7, E8, E9. reflexivity.
    Qed.

    Lemma parse_both line x l : parse_line space py_float py_int line = Ok (x, l) -> parse_line_float space py_float line = Ok x.
    Proof.
      unfold parse_line, parse_line_float. destruct (negb _); cbn [raise_if bind]; [discriminate|].
      destruct (split_ws space (py_strip space line)) as [|f fs]; [discriminate|].
      destruct (py_float f) as [y|]; cbn [bind]; [|discriminate]. destruct (mapM py_int fs) as [ls|]; cbn [bind]; [|discriminate].
      do 9 (destruct ls as [|? ls]; [discriminate|]). destruct ls; [|discriminate]. intros E. congruence.
    Qed.

    (** The two readers agree on every file that the stricter one accepts. *)
    Theorem C68_readers_agree : forall path ls, load_datafile space py_float py_int lines_of path = Ok ls ->
      readdata_float space py_float lines_of path = Ok (map fst ls).
    Proof.
      intros path. unfold load_datafile, readdata_float. destruct (lines_of path) as [lines|]; cbn [bind]; [|discriminate].
      induction lines as [|l lines IH]; intros ls E; cbn [mapM] in *; [injection E as <-; reflexivity|].
      destruct (parse_line _ _ _ l) as [[x lb]|] eqn:P; cbn [bind] in E; [|discriminate].
      destruct (mapM _ lines) as [ls'|] eqn:Q; cbn [bind] in E; [|discriminate]. injection E as <-.
      rewrite (parse_both _ _ _ P). cbn [bind]. rewrite (IH ls') by reflexivity. reflexivity.
    Qed.

    (** A label's value in the dictionary is that of its last line. *)
    Theorem C68_dict : forall path ls, load_datafile space py_float py_int lines_of path = Ok ls ->
      exists d, datafile_dict space py_float py_int lines_of path = Ok d /\
        (forall lb, dict_get label_eq_dec d lb = None <-> ~ In lb (map snd ls)) /\
        (forall lb x, dict_get label_eq_dec d lb = Some x <->
           exists before after, ls = before ++ (x, lb) :: after /\ ~ In lb (map snd after)).
    Proof.
      intros path ls E. unfold datafile_dict. rewrite E. cbn [bind]. eexists. split; [reflexivity|].
      assert (MM : forall l : list (R * coeff_label), map fst (map (fun line => (snd line, fst line)) l) = map snd l) by (intros l; rewrite map_map; reflexivity).
      split; intros lb.
      - rewrite dict_get_of, last_with_None, MM. reflexivity.
      - intros x. rewrite dict_get_of, last_with_Some. split.
        + intros (l1 & l2 & Q & N). pose proof (f_equal (map (fun p : coeff_label * R => (snd p, fst p))) Q) as Q2.
          rewrite map_map, map_app in Q2. cbn [map fst snd] in Q2.
          rewrite (map_ext _ (fun y : R * coeff_label => y)) in Q2 by (now intros []). rewrite map_id in Q2.
          exists (map (fun p => (snd p, fst p)) l1), (map (fun p => (snd p, fst p)) l2). split; [exact Q2|]. rewrite map_map. exact N.
        + intros (before & after & -> & N). exists (map (fun line => (snd line, fst line)) before), (map (fun line => (snd line, fst line)) after).
          split; [rewrite map_app; reflexivity|]. now rewrite MM.
    Qed.

    Definition label_of (n : nonet) : coeff_label :=
      ((n_v1 n, n_a1 n, n_L1 n), (n_v2 n, n_a2 n, n_L2 n), (n_v3 n, n_a3 n, n_L3 n)).

    (** If the lines of the file come in the order that CG_labels gives, the
        coefficient that CG_SO5r3 returns is the one labelled so in the file. *)
    Theorem C68_table : forall home st n path ls l,
      legal_nonet n -> admissible n -> CG_coeffs st = [] -> n_v1 n <= n_v3 n -> 0 < n_v2 n ->
      SO5CG_filename (get_base_directory home st) (n_v1 n) (n_v2 n) (n_a2 n) (n_L2 n) (n_v3 n) = Ok path ->
      load_datafile space py_float py_int lines_of path = Ok ls ->
      CG_labels (n_v1 n) (n_L2 n) (n_v3 n) = Ok l ->
      map snd ls = map (fun q : quartet => let '(a1, L1, a3, L3) := q in
                          ((n_v1 n, a1, L1), (n_v2 n, n_a2 n, n_L2 n), (n_v3 n, a3, L3))) l ->
      exists x d, fst (CGn (readdata_float space py_float lines_of) home st n) = Ok x /\
        datafile_dict space py_float py_int lines_of path = Ok d /\ dict_get label_eq_dec d (label_of n) = Some x.
    Proof.
      intros home st n path ls l HL HA HC Hv H2 Hp El ECL EM.
      pose proof HL as ((A1 & A2 & A3) & (B1 & B2 & B3) & (C1 & C2 & C3)).
      pose proof HA as ((T1 & T2 & T3) & Ev & (T4 & T5 & T6) & M1 & M2 & M3).
      destruct (C10_labels (n_v1 n) (n_L2 n) (n_v3 n) ltac:(lia) ltac:(lia) ltac:(lia)) as (l' & E' & ND & _ & IN).
      rewrite ECL in E'. injection E' as <-.
      assert (I : In (n_a1 n, n_L1 n, n_a3 n, n_L3 n) l) by (apply IN; lia).
      apply In_nth_error in I. destruct I as (k & Hk).
      pose proof (C11_value (readdata_float space py_float lines_of) home st n path (map fst ls) l k HL HA HC Hv H2 Hp (C68_readers_agree _ _ El) ECL Hk) as V.
      set (g := fun q : quartet => let '(a1, L1, a3, L3) := q in ((n_v1 n, a1, L1), (n_v2 n, n_a2 n, n_L2 n), (n_v3 n, a3, L3))) in *.
      pose proof (map_nth_error g k l Hk) as G. rewrite <- EM in G. cbn [g] in G. change (nth_error (map snd ls) k = Some (label_of n)) in G.
      rewrite nth_error_map in G. destruct (nth_error ls k) as [[x lb]|] eqn:N; [|discriminate]. cbn [option_map snd] in G. injection G as ->.
      rewrite (map_nth_error fst k ls N) in V. cbn [fst] in V.
      destruct (C68_dict _ _ El) as (d & Ed & _ & HD). exists x, d. split; [exact V|]. split; [exact Ed|]. apply HD.
      apply nth_error_split in N. destruct N as (before & after & -> & Lb). exists before, after. split; [reflexivity|].
      rewrite map_app in EM. cbn [map snd] in EM.
      assert (NDM : NoDup (map g l)) by (apply FinFun.Injective_map_NoDup; [intros [[[? ?] ?] ?] [[[? ?] ?] ?]; cbn; congruence|exact ND]).
      rewrite <- EM in NDM. apply NoDup_remove_2 in NDM. intros Q. apply NDM, in_or_app. now right.
    Qed.
  End Files.
End Lines.

(** A blank line, also at the end of the file, stops both readers. *)
Theorem C68_blank_line : forall space py_float py_int lines_of path before line after,
  py_float [] = Raise ValueError -> blank space line -> lines_of path = Ok (before ++ line :: after) ->
  (forall r, readdata_float space py_float lines_of path <> Ok r) /\
  (forall r, load_datafile space py_float py_int lines_of path <> Ok r).
Proof.
  intros space pf pi lo path before line after HF B E. unfold readdata_float, load_datafile. rewrite E. cbn [bind].
  assert (M : forall (T : Type) (f : text -> res T), f line = Raise ValueError -> forall r, mapM f (before ++ line :: after) <> Ok r).
  { intros T f Hf. clear E. induction before as [|b bs IH]; intros r; cbn [app mapM].
    - rewrite Hf. discriminate.
    - destruct (f b); cbn [bind]; [|discriminate]. destruct (mapM f (bs ++ line :: after)) as [l|]; [|discriminate]. now specialize (IH l). }
  split; apply M.
  - unfold parse_line_float. rewrite blank_line by assumption. exact HF.
  - unfold parse_line. rewrite blank_line by assumption. reflexivity.
Qed.

(** ** A concrete reader *)

Definition ascii_space (c : Z) : bool := ((9 <=? c) && (c <=? 13)) || ((28 <=? c) && (c <=? 32)).
Definition digits_int (s : text) : res Z :=
  match s with
  | [] => Raise ValueError
  | _ => if forallb (is_digit ascii_digit) s then Ok (int_of ascii_digit s) else Raise ValueError
  end.
Definition some_floats (s : text) : res R :=
  if list_eq_dec Z.eq_dec s (chars "+1.000000e+00") then Ok 1%R
  else if list_eq_dec Z.eq_dec s (chars "+8.451543e-01") then Ok (8451543 / 10000000)%R
  else if list_eq_dec Z.eq_dec s (chars "+7.237469e-01") then Ok (7237469 / 10000000)%R
  else Raise ValueError.

(** The file SO5CG_1_2-1-2_3 quoted in so5cg.py:61-63. *)
Definition documented (path : text) : res (list text) :=
  if list_eq_dec Z.eq_dec path (chars "v2=2/SO5CG_1_2_3/SO5CG_1_2-1-2_3")
  then Ok (map (fun s => chars s ++ [10])
    ["+1.000000e+00      1    1    2      2    1    2      3    1    0";
     "+8.451543e-01      1    1    2      2    1    2      3    1    3";
     "+7.237469e-01      1    1    2      2    1    2      3    1    4"]%string)
  else Raise FileNotFoundError.

Example C68_example : exists ls,
  load_datafile ascii_space some_floats digits_int documented (chars "v2=2/SO5CG_1_2_3/SO5CG_1_2-1-2_3") = Ok ls /\
  map fst ls = [1; 8451543 / 10000000; 7237469 / 10000000]%R /\
  CG_labels 1 2 3 = Ok [(1, 2, 1, 0); (1, 2, 1, 3); (1, 2, 1, 4)] /\
  map snd ls = [((1, 1, 2), (2, 1, 2), (3, 1, 0)); ((1, 1, 2), (2, 1, 2), (3, 1, 3)); ((1, 1, 2), (2, 1, 2), (3, 1, 4))] /\
  SO5CG_filename (get_base_directory [] cg_init) 1 2 1 2 3 = Ok (chars "v2=2/SO5CG_1_2_3/SO5CG_1_2-1-2_3").
Proof. eexists. split; [reflexivity|]. repeat split; reflexivity. Qed.

(** The same file with its first two lines exchanged. *)
Definition exchanged (path : text) : res (list text) :=
  let* l := documented path in
  match l with a :: b :: r => Ok (b :: a :: r) | _ => Ok l end.

(** CG_SO5r3 does not look at the labels in the file: after an exchange of two
    lines the dictionary is as before, but the coefficient returned is not. *)
Theorem C68_labels_heeded_refuted : exists n d x y,
  legal_nonet n /\ admissible n /\
  datafile_dict ascii_space some_floats digits_int exchanged (chars "v2=2/SO5CG_1_2_3/SO5CG_1_2-1-2_3") = Ok d /\
  dict_get label_eq_dec d (label_of n) = Some x /\
  fst (CGn (readdata_float ascii_space some_floats exchanged) [] cg_init n) = Ok y /\ x <> y.
Proof.
  exists {| n_v1 := 1; n_a1 := 1; n_L1 := 2; n_v2 := 2; n_a2 := 1; n_L2 := 2; n_v3 := 3; n_a3 := 1; n_L3 := 0 |}.
  eexists. exists 1%R, (8451543 / 10000000)%R.
  assert (HL : legal_nonet {| n_v1 := 1; n_a1 := 1; n_L1 := 2; n_v2 := 2; n_a2 := 1; n_L2 := 2; n_v3 := 3; n_a3 := 1; n_L3 := 0 |}) by (repeat split; cbn; lia).
  assert (HA : admissible {| n_v1 := 1; n_a1 := 1; n_L1 := 2; n_v2 := 2; n_a2 := 1; n_L2 := 2; n_v3 := 3; n_a3 := 1; n_L3 := 0 |}).
  { repeat split; try (vm_compute; congruence). exists 3. reflexivity. }
  split; [exact HL|]. split; [exact HA|]. split; [reflexivity|]. split; [reflexivity|]. split; [|lra].
  erewrite C11_value with (k := O); [| exact HL | exact HA | reflexivity | cbn; lia | cbn; lia | reflexivity | reflexivity | reflexivity | reflexivity]. reflexivity.
Qed.

Print Assumptions C68_fields.
Print Assumptions C68_every_line.
Print Assumptions C68_line.
Print Assumptions C68_readers_agree.
Print Assumptions C68_dict.
Print Assumptions C68_table.
Print Assumptions C68_blank_line.
Print Assumptions C68_labels_heeded_refuted.
