(** Properties C56 (listing of designators) and C57 (rate and amplitude
    functions). *)

From Coq Require Import String Reals Lra QArith.
From Coq Require Import Lia ZifyBool ZifyNat.
From Verif Require Import PyBase PyFacts Compat Text Format Spherical CGSO3 CGSO3Facts AngMom PropsCGSO3 Operators Settings
  SettingsFacts PropsSettings SphericalFacts.
Open Scope Z_scope.
Ltac Zify.zify_post_hook ::= Z.div_mod_to_equations.

(** ** C56 *)

(** "L_i(j_i) -> L_f(j_f)". *)
Definition arrow (Li ji Lf jf : text) : text :=
  Li ++ chars "(" ++ ji ++ chars ") -> " ++ Lf ++ chars "(" ++ jf ++ chars ")".

(** The documented line: a designator is [L_f], [L_i,L_f], [L_i,L_f,j_f],
    [L_i,L_f,j_i,j_f] or [L_i,L_f,j_i,j_f,step]; what is not given is shown by
    its name. *)
Definition documented_line (ent : list Z) : text :=
  let stepped L k := dec_int L ++ dec_signed k ++ chars "k" in
  match ent with
  | [Lf] => arrow (chars "L_i") (chars "j_i") (dec_int Lf) (chars "j_f")
  | [Li; Lf] => arrow (dec_int Li) (chars "j_i") (dec_int Lf) (chars "j_f")
  | [Li; Lf; jf] => arrow (dec_int Li) (chars "j_i") (dec_int Lf) (dec_int jf)
  | [Li; Lf; ji; jf] => arrow (dec_int Li) (dec_int ji) (dec_int Lf) (dec_int jf)
  | [Li; Lf; ji; jf; k] =>
      if k =? 0 then arrow (dec_int Li) (dec_int ji) (dec_int Lf) (dec_int jf)
      else arrow (stepped Li k) (dec_int ji) (stepped Lf k) (dec_int jf)
  | _ => arrow (chars "L_i") (chars "j_i") (chars "L_f") (chars "j_f")
  end.

Section Flt.
  Variable flt : text -> R -> text.

  Lemma entry_line s ent : g_tran_format s = g_tran_format imported ->
    show_entry flt s ent =
    Ok (match ent with
        | [a; b; c; d] => arrow (dec_int a) (dec_int b) (dec_int c) (dec_int d)
        | [a; b; c; d; k] => if k =? 0 then arrow (dec_int a) (dec_int b) (dec_int c) (dec_int d)
                             else documented_line ent
        | _ => documented_line ent
        end).
  Proof.
    intros H. unfold show_entry. rewrite H.
    replace (py_format flt (g_tran_format imported)
      [FStr (chars "{:d}{:+d}k"); FStr (chars "{:d}"); FStr (chars "{:d}{:+d}k"); FStr (chars "{:d}")])
      with (Ok (chars "{:d}{:+d}k({:d}) -> {:d}{:+d}k({:d})")) by (vm_compute; reflexivity).
    destruct ent as [|a [|b [|c [|d [|k [|]]]]]]; try (cbv -[dec_int dec_signed app]; reflexivity).
    unfold documented_line, arrow. destruct (k =? 0) eqn:E; [cbv -[dec_int dec_signed app]; reflexivity|].
    rewrite <- !app_assoc. cbv -[dec_int dec_signed app]. reflexivity.
  Qed.

  (** In every reachable state the listing succeeds and prints the documented
      line of each designator that is not a quartet ... *)
  Theorem C56_listing : forall cs ent show, 0 < show ->
    (length ent <= 5)%nat -> length ent <> 4%nat -> nth_error ent 4 <> Some 0 ->
    ACM_show_lst flt (history flt cs imported) [ent] show = Ok [documented_line ent].
  Proof.
    intros cs ent show Hw HL H4 H0. destruct (frame_history flt cs imported) as (F & _).
    unfold ACM_show_lst. replace (0 <? show) with true by lia. cbn [filter].
    replace (zlen ent <=? 5) with true by (unfold zlen; lia). cbn [mapM]. rewrite entry_line by exact F.
    cbn [bind]. f_equal. f_equal.
    destruct ent as [|a [|b [|c [|d [|k [|]]]]]]; try reflexivity; [cbn in H4; lia|].
    destruct (k =? 0) eqn:E; [|reflexivity]. exfalso. apply H0. cbn. f_equal. lia.
  Qed.

  (** ... but for a quartet (or a quintet of step zero) the final angular
      momentum and the index of the initial state are exchanged. *)
  Theorem C56_quartet : forall cs Li Lf ji jf show, 0 < show ->
    let line := arrow (dec_int Li) (dec_int Lf) (dec_int ji) (dec_int jf) in
    ACM_show_lst flt (history flt cs imported) [[Li; Lf; ji; jf]] show = Ok [line] /\
    ACM_show_lst flt (history flt cs imported) [[Li; Lf; ji; jf; 0]] show = Ok [line].
  Proof.
    intros cs Li Lf ji jf show Hw line. destruct (frame_history flt cs imported) as (F & _).
    unfold ACM_show_lst. replace (0 <? show) with true by lia. 
    assert (F4 : forall l, (length l <= 5)%nat -> filter (fun ent : list Z => zlen ent <=? 5) [l] = [l]).
    { intros l Hl. cbn [filter]. now replace (zlen l <=? 5) with true by (unfold zlen; lia). }
    rewrite !F4 by (cbn; lia). split; cbn [mapM]; rewrite entry_line by exact F; reflexivity.
  Qed.
  Theorem C56_quartet_documented_refuted :
    ~ (forall ent, ACM_show_lst flt imported [ent] 1 = Ok [documented_line ent]).
  Proof.
    intros H. specialize (H [4; 2; 1; 1]).
    destruct (C56_quartet [] 4 2 1 1 1 ltac:(lia)) as (E & _). cbn [history fold_left] in E.
    change (Settings.history flt [] imported) with imported in E. rewrite E in H. vm_compute in H. discriminate.
  Qed.

  (** The message of ACM_set_rat_fit, with the formats of the import. *)
  Theorem C56_rat_fit : forall fit L1 L2 i1 i2 s,
    0 <= L1 -> 0 <= L2 -> 1 <= i1 -> 1 <= i2 -> g_tran_format s = g_tran_format imported -> g_rat_format s = def_rat_format ->
    let s' := snd (ACM_set_rat_fit flt (Some fit) (Some L1) (Some L2) (Some i1) (Some i2) 0 s) in
    rat_fit_message flt s' = Ok (chars "  B(E2: " ++ arrow (dec_int L1) (dec_int i1) (dec_int L2) (dec_int i2)
                                 ++ chars ") = " ++ flt (chars "f") fit).
  Proof.
    intros fit L1 L2 i1 i2 s H1 H2 H3 H4 F G s'.
    assert (E : s' = w_rat_2dx i2 (w_rat_1dx i1 (w_rat_L2 L2 (w_rat_L1 L1 (w_rat_fit fit s))))).
    { unfold s', ACM_set_rat_fit, sbind, lift, assign, get, require_posint, raise_if. cbn [default].
      rewrite !require_nonnegint_ok by lia. cbn [bind].
      replace (i1 =? 0) with false by lia. replace (i2 =? 0) with false by lia. reflexivity. }
    rewrite E. unfold rat_fit_message.
    cbn [g_tran_format g_rat_format g_rat_L1 g_rat_L2 g_rat_1dx g_rat_2dx g_rat_fit w_rat_2dx w_rat_1dx w_rat_L2 w_rat_L1 w_rat_fit].
    rewrite F, G.
    replace (py_format flt (g_tran_format imported) [FStr (chars "{:d}"); FStr (chars "{:d}"); FStr (chars "{:d}"); FStr (chars "{:d}")])
      with (Ok (chars "{:d}({:d}) -> {:d}({:d})")) by (vm_compute; reflexivity). cbn [bind].
    replace (py_format flt def_rat_format [FStr (chars "{:d}({:d}) -> {:d}({:d})"); FStr (chars "{:f}")])
      with (Ok (chars "  B(E2: {:d}({:d}) -> {:d}({:d})) = {:f}")) by (vm_compute; reflexivity). cbn [bind].
    unfold arrow. rewrite <- !app_assoc. cbv -[dec_int dec_signed app]. rewrite ?app_nil_r. reflexivity.
  Qed.

  (** One line for each designator of at most five numbers, in order, the one
      that it has by itself; the listing never fails. *)
  Theorem C56_total : forall cs lst show, 0 < show -> exists lines,
    ACM_show_lst flt (history flt cs imported) lst show = Ok lines /\
    Forall2 (fun d line => ACM_show_lst flt (history flt cs imported) [d] show = Ok [line])
      (filter (fun d => Nat.leb (length d) 5) lst) lines.
  Proof.
    intros cs lst show Hw. destruct (frame_history flt cs imported) as (F & _).
    unfold ACM_show_lst. replace (0 <? show) with true by lia.
    eexists. split.
    - apply mapM_ok. intros ent _. apply entry_line. exact F.
    - rewrite (filter_ext (fun ent => zlen ent <=? 5) (fun d => Nat.leb (length d) 5)) by (intros d; unfold zlen; lia).
      assert (G : Forall (fun d => (length d <= 5)%nat) (filter (fun d : list Z => Nat.leb (length d) 5) lst)).
      { apply Forall_forall. intros d Hd. apply filter_In in Hd. now apply Nat.leb_le. }
      revert G. generalize (filter (fun d : list Z => Nat.leb (length d) 5) lst). intros l G.
      induction G as [|d l Hd _ IH]; constructor; [|exact IH]. cbn [filter]. replace (zlen d <=? 5) with true by (unfold zlen; lia).
      cbn [mapM]. rewrite (entry_line _ d F). reflexivity.
  Qed.

  Theorem C56_never_fails : forall cs show,
    fst (perform flt (ShowRatLst show) (history flt cs imported)) = None /\
    fst (perform flt (ShowAmpLst show) (history flt cs imported)) = None.
  Proof.
    intros cs show. set (s := history flt cs imported).
    assert (G : forall l, exists t, ACM_show_lst flt s l show = Ok t).
    { intros l. destruct (0 <? show) eqn:E.
      - destruct (C56_total cs l show) as (t & H & _); [lia|]. now exists t.
      - unfold ACM_show_lst. rewrite E. now exists []. }
    cbn [perform outcome fst]. unfold ACM_show_rat_lst, ACM_show_amp_lst, sbind, get, lift.
    destruct (G (g_rat_lst s)) as (t1 & ->). destruct (G (g_amp_lst s)) as (t2 & ->). split; reflexivity.
  Qed.
End Flt.

Example C56_case : forall flt,
  ACM_show_lst flt imported [[2; 0; 1; 1; 2]; [4; 2]; [1; 2; 3; 4; 5; 6]; []] 1 =
  Ok [chars "2+2k(1) -> 0+2k(1)"; chars "4(j_i) -> 2(j_f)"; chars "L_i(j_i) -> L_f(j_f)"]
  /\ ACM_show_lst flt imported [[4; 2; 1; 3]] 1 = Ok [chars "4(2) -> 1(3)"]
  /\ documented_line [4; 2; 1; 3] = chars "4(1) -> 2(3)".
Proof. intros flt. repeat split; vm_compute; reflexivity. Qed.

(** ** C57 *)

Lemma dimSO3_ok L : 0 <= L -> dimSO3 L = Ok (2 * L + 1).
Proof. intros H. unfold dimSO3, require_nonnegint, raise_if. now replace (L <? 0) with false by lia. Qed.

Lemma math_sqrt_ok x : (0 <= x)%R -> math_sqrt x = Ok (sqrt x).
Proof. intros H. unfold math_sqrt. destruct (Rlt_dec x 0); [lra|reflexivity]. Qed.

(** For the unit and the plain functions the rate is the square of the
    amplitude, also after scaling with the default scale function. *)
Theorem C57_rate_is_square : forall am Li Lf Mel, 0 <= Lf ->
  (exists a, unit_amp_fun am Li Lf Mel = Ok a /\ unit_rat_fun am Li Lf Mel = Ok (a ^ 2)%R) /\
  (exists a, mel_amp_fun am Li Lf Mel = Ok a /\ mel_rat_fun am Li Lf Mel = Ok (a ^ 2)%R).
Proof.
  intros am Li Lf Mel H. split.
  - exists Mel. split; reflexivity.
  - unfold mel_amp_fun, mel_rat_fun. rewrite dimSO3_ok by exact H.
    assert (0 <= IZR (2 * Lf + 1))%R by (apply IZR_le; lia). rewrite math_sqrt_ok by assumption. cbn [bind].
    eexists. split; [reflexivity|]. f_equal.
    replace ((Mel * sqrt (IZR (2 * Lf + 1))) ^ 2)%R with (Mel ^ 2 * (sqrt (IZR (2 * Lf + 1)) * sqrt (IZR (2 * Lf + 1))))%R by ring.
    now rewrite sqrt_sqrt.
Qed.

(** Default scale factors keep that relation between displayed values. *)
Theorem C57_scaled_square : forall am Li Lf Mel eig rat w s s' a r, (0 < rat)%R ->
  g_amp_sft_fun s = math_sqrt -> ACM_set_scales eig (Some rat) w s = (Ok tt, s') ->
  (unit_amp_fun am Li Lf Mel = Ok a /\ unit_rat_fun am Li Lf Mel = Ok r) \/
  (mel_amp_fun am Li Lf Mel = Ok a /\ mel_rat_fun am Li Lf Mel = Ok r) -> 0 <= Lf ->
  (r / g_rat_sft s' = (a / g_amp_sft s') ^ 2)%R.
Proof.
  intros am Li Lf Mel eig rat w s s' a r Hr Hf Hs HA HL.
  destruct (C32_scales _ _ _ _ _ Hs) as (_ & E2 & E3). rewrite Hf in E3. cbn [default] in E2. rewrite E2 in E3 |- *.
  rewrite math_sqrt_ok in E3 by lra. injection E3 as <-.
  assert (r = a ^ 2)%R as ->.
  { destruct (C57_rate_is_square am Li Lf Mel HL) as ((a1 & A1 & R1) & (a2 & A2 & R2)).
    destruct HA as [[A R]|[A R]]; [rewrite A in A1; rewrite R in R1|rewrite A in A2; rewrite R in R2]; congruence. }
  pose proof (sqrt_lt_R0 rat Hr). unfold Rdiv. rewrite Rpow_mult_distr. f_equal.
  transitivity (/ (sqrt rat * sqrt rat))%R; [now rewrite sqrt_sqrt by lra|]. simpl. field. lra.
Qed.

(** The default rate function: B(E2) up to a constant.  It satisfies detailed
    balance whenever the matrix elements of the two directions are those of a
    hermitian operator in the convention of the package. *)
Theorem C57_detailed_balance : forall am Li Lf Mel Mel' r r', 0 <= Li -> 0 <= Lf ->
  (Mel * sqrt (IZR (2 * Lf + 1)) = Mel' * sqrt (IZR (2 * Li + 1)) \/
   Mel * sqrt (IZR (2 * Lf + 1)) = - (Mel' * sqrt (IZR (2 * Li + 1))))%R ->
  quad_rat_fun am Li Lf Mel = Ok r -> quad_rat_fun am Lf Li Mel' = Ok r' ->
  (IZR (2 * Li + 1) * r = IZR (2 * Lf + 1) * r')%R.
Proof.
  intros am Li Lf Mel Mel' r r' Hi Hf HM. unfold quad_rat_fun. rewrite !dimSO3_ok by assumption. cbn [bind].
  intros E E'.
  assert (r = Mel ^ 2 * IZR (2 * Lf + 1) / IZR (2 * Li + 1))%R as -> by congruence.
  assert (r' = Mel' ^ 2 * IZR (2 * Li + 1) / IZR (2 * Lf + 1))%R as -> by congruence. clear E E'.
  assert (P : (0 < IZR (2 * Li + 1))%R) by (apply IZR_lt; lia). assert (P' : (0 < IZR (2 * Lf + 1))%R) by (apply IZR_lt; lia).
  assert (S : (Mel ^ 2 * IZR (2 * Lf + 1) = Mel' ^ 2 * IZR (2 * Li + 1))%R).
  { rewrite <- (sqrt_sqrt (IZR (2 * Lf + 1))) by lra. rewrite <- (sqrt_sqrt (IZR (2 * Li + 1))) by lra.
    destruct HM as [HM|HM].
    - transitivity ((Mel * sqrt (IZR (2 * Lf + 1))) ^ 2)%R; [ring|]. rewrite HM. ring.
    - transitivity ((Mel * sqrt (IZR (2 * Lf + 1))) ^ 2)%R; [ring|]. rewrite HM. ring. }
  clear HM. revert P P' S. generalize (IZR (2 * Li + 1)) (IZR (2 * Lf + 1)). intros di df P P' S.
  replace (di * (Mel ^ 2 * df / di))%R with (Mel ^ 2 * df)%R by (field; lra).
  replace (df * (Mel' ^ 2 * di / df))%R with (Mel' ^ 2 * di)%R by (field; lra). exact S.
Qed.
Theorem C57_rate : forall am Li Lf Mel, 0 <= Li -> 0 <= Lf ->
  quad_rat_fun am Li Lf Mel = Ok (Mel ^ 2 * IZR (2 * Lf + 1) / IZR (2 * Li + 1))%R.
Proof. intros. unfold quad_rat_fun. rewrite !dimSO3_ok by assumption. reflexivity. Qed.

(** The default amplitude function always succeeds; it is the matrix element
    times a non-negative factor, zero exactly outside the triangle rule. *)
Theorem C57_amplitude : forall am Li Lf Mel, 0 <= am -> 0 <= Li -> 0 <= Lf ->
  exists c, quad_amp_fun am Li Lf Mel = Ok (Mel * c)%R /\
    (Z.abs (Li - am) <= Lf <= Li + am -> (0 < c)%R) /\
    (~ Z.abs (Li - am) <= Lf <= Li + am -> c = 0%R).
Proof.
  intros am Li Lf Mel Ha Hi Hf. exists (cg (2 * Li) (2 * Li) (2 * am) (2 * Lf - 2 * Li) (2 * Lf) (2 * Lf)).
  assert (E : CG_SO3_float Li Li am (Lf - Li) Lf Lf = Ok (cg (2 * Li) (2 * Li) (2 * am) (2 * Lf - 2 * Li) (2 * Lf) (2 * Lf))).
  { unfold CG_SO3_float, cg.
    assert (H : forall n, half (inject_Z n) = half ((2 * n) # 2)).
    { intros n. unfold half, inject_Z. cbn [Qnum Qden]. rewrite Z.mod_1_r, Z.div_1_r.
      replace (2 * (2 * n)) with (2 * n * 2) by ring. rewrite Z.mod_mul, Z.div_mul by lia. reflexivity. }
    assert (EQ : CG_SO3 (inject_Z Li) (inject_Z Li) (inject_Z am) (inject_Z (Lf - Li)) (inject_Z Lf) (inject_Z Lf)
               = CG_SO3 (2 * Li # 2) (2 * Li # 2) (2 * am # 2) (2 * Lf - 2 * Li # 2) (2 * Lf # 2) (2 * Lf # 2)).
    { unfold CG_SO3. rewrite !H. replace (2 * (Lf - Li)) with (2 * Lf - 2 * Li) by ring. reflexivity. }
    rewrite EQ. clear EQ H.
    destruct (CG_SO3 _ _ _ _ _ _) as [[x|]|e] eqn:EC; [reflexivity| |]; exfalso;
      match type of EC with CG_SO3 ?a ?b ?c ?d ?e ?f = _ =>
        destruct (Z_le_dec (Z.abs (Li - am)) Lf); [destruct (Z_le_dec Lf (Li + am))|];
        [destruct (C15_total a b c d e f (2 * Li) (2 * Li) (2 * am) (2 * Lf - 2 * Li) (2 * Lf) (2 * Lf)) as (x & Ex);
           try reflexivity; [lia|congruence]
        |rewrite (C15_selection_rules a b c d e f (2 * Li) (2 * Li) (2 * am) (2 * Lf - 2 * Li) (2 * Lf) (2 * Lf)) in EC;
           try reflexivity; [discriminate|lia]
        |rewrite (C15_selection_rules a b c d e f (2 * Li) (2 * Li) (2 * am) (2 * Lf - 2 * Li) (2 * Lf) (2 * Lf)) in EC;
           try reflexivity; [discriminate|lia]]
      end. }
  unfold quad_amp_fun. rewrite E. split; [reflexivity|]. split.
  - intros HT. apply C50_phase. apply in_tot. exists (Li + am - Lf). lia.
  - intros HT. unfold cg.
    rewrite (C15_selection_rules _ _ _ _ _ _ (2 * Li) (2 * Li) (2 * am) (2 * Lf - 2 * Li) (2 * Lf) (2 * Lf));
      try reflexivity. lia.
Qed.

(** The function described in a previous version agrees with the default one
    on transitions between states of the same angular momentum. *)
Theorem C57_mix : forall am Li Lf Mel, 0 <= Lf ->
  mix_amp_fun am Li Lf Mel = if Li =? Lf then quad_amp_fun am Li Lf Mel else mel_amp_fun am Li Lf Mel.
Proof.
  intros am Li Lf Mel H. unfold mix_amp_fun, gen_amp_mul, quad_amp_fun, mel_amp_fun.
  destruct (Li =? Lf) eqn:E; [|reflexivity]. replace Li with Lf by lia. now rewrite Z.sub_diag.
Qed.

Example C57_case : quad_rat_fun 2 2 0 3%R = Ok (9 * 1 / 5)%R /\ mel_rat_fun 2 2 4 2%R = Ok 36%R.
Proof. unfold quad_rat_fun, mel_rat_fun. cbn [dimSO3 require_nonnegint raise_if bind Z.ltb Z.compare]. split; cbn [bind]; f_equal; cbn; lra. Qed.

Print Assumptions C56_listing.
Print Assumptions C56_quartet.
Print Assumptions C56_quartet_documented_refuted.
Print Assumptions C56_total.
Print Assumptions C56_never_fails.
Print Assumptions C57_rate_is_square.
Print Assumptions C57_scaled_square.
Print Assumptions C57_detailed_balance.
Print Assumptions C57_rate.
Print Assumptions C57_amplitude.
Print Assumptions C57_mix.

Example C57_scaled_case : exists s',
  ACM_set_scales None (Some 4%R) 0 imported = (Ok tt, s') /\ g_amp_sft_fun imported = math_sqrt.
Proof.
  unfold ACM_set_scales. do 3 (erewrite step_ok by reflexivity).
  erewrite step_ok by (unfold lift; cbn; rewrite math_sqrt_ok by lra; reflexivity).
  eexists. split; reflexivity.
Qed.
Example C57_balance_case : exists Mel Mel',
  (Mel * sqrt (IZR (2 * 0 + 1)) = Mel' * sqrt (IZR (2 * 2 + 1)))%R /\ Mel <> Mel' /\
  is_ok (quad_rat_fun 2 2 0 Mel) /\ is_ok (quad_rat_fun 2 0 2 Mel').
Proof.
  exists (sqrt 5), 1%R. cbn. rewrite sqrt_1. split; [lra|]. split; [|split; eexists; reflexivity].
  intros E. assert (sqrt 1 < sqrt 5)%R by (apply sqrt_lt_1; lra). rewrite sqrt_1 in *. lra.
Qed.
Print Assumptions C56_rat_fit.
