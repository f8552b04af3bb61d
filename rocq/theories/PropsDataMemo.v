(** C80: matrices computed from the data files, when files are missing, appear
    or change during a session. *)

From Coq Require Import Reals Lra String FunctionalExtensionality.
From Coq Require Import Lia ZifyBool ZifyNat.
From Verif Require Import PyBase PyFacts Compat PyDict Text SO5Files Matrix SphericalSpec Spherical FullLabels RadialOps Operators
  FullOps CG CGSpec PropsFiles CGFacts PropsCG PropsReduced PropsHarmonics FullOpsMemo DataMemo DataMemoFacts.
Open Scope Z_scope.
Ltac Zify.zify_post_hook ::= Z.div_mod_to_equations.

(** ** Specification *)

Section Spec.
  Variable home : text.
  Variable RP : list rsym -> R -> R -> Z -> Z -> Z -> Z -> res (mat R).
  Variable lam : Z -> res Z.

  (** The answer to a call, given the coefficients (Operators.v, FullOps.v). *)
  Definition given (CG : Z -> Z -> Z -> Z -> Z -> Z -> Z -> Z -> Z -> res R) (c : call) : res (mat R) :=
    match c with
    | CHarmonic v al L v_min v_max L_min L_max => RepSO5_Y CG v al L v_min v_max L_min L_max
    | CProduct ys v_min v_max L_min L_max => RepSO5r3_Prod CG ys v_min v_max L_min L_max
    | CProductRem ys v_min v_max L_min L_max => RepSO5r3_Prod CG ys v_min v_max L_min L_max
    | CFull n a => xcompute RP CG lam n a
    | CWord w a => fst (RepXspace_Prod RP CG w a (mkX lam []))
    | CXspace op an lb nu_min nu_max v_min v_max L L_max =>
        fst (RepXspace RP CG op an lb nu_min nu_max v_min v_max L L_max (mkX lam []))
    end.

  (** The answer to a request in a process that has just been started, with
      the disk [F]. *)
  Definition alone (F : disk) (e : event) : outcome :=
    match e with
    | SetDirectory _ | DiskBecomes _ => Nothing
    | CallCoefficient v1 a1 L1 v2 a2 L2 v3 a3 L3 => Number (fst (CG_SO5r3 F home cg_init v1 a1 L1 v2 a2 L2 v3 a3 L3))
    | CallLoad v1 v2 a2 L2 v3 => Loaded (fst (load_CG_table F home cg_init v1 v2 a2 L2 v3))
    | CallMatrix c => Matrix (given (CG_at F home cg_init) c)
    end.

  (** The same for the requests of a session, each with the disk of its time. *)
  Fixpoint each_alone (F : disk) (es : list event) : list outcome :=
    match es with
    | [] => []
    | e :: es' => alone F e :: each_alone (match e with DiskBecomes F' => F' | _ => F end) es'
    end.

  (** The directory is not changed, and files appear but do not disappear or
      change. *)
  Fixpoint only_new_files (F : disk) (es : list event) : Prop :=
    match es with
    | [] => True
    | SetDirectory _ :: _ => False
    | DiskBecomes F' :: es' => (forall path x, F path = Ok x -> F' path = Ok x) /\ only_new_files F' es'
    | _ :: es' => only_new_files F es'
    end.
End Spec.

(** ** Proofs *)

Section C80.
  Variable home : text.
  Variable RP : list rsym -> R -> R -> Z -> Z -> Z -> Z -> res (mat R).
  Variable lam : Z -> res Z.
  Let body := body_of RP lam.
  Let W {A} (m : code A) := wf body m.

  Ltac wfs := repeat first
    [ exact I
    | apply (wf_andthen body); [|intros ?]
    | apply (wf_mapC body); intros ? | apply (wf_forC body); intros ? ?
    | progress cbn zeta
    | match goal with x : label |- _ => destruct x as [[? ?] ?] end
    | match goal with |- wf _ (if ?b then _ else _) => destruct b end
    | progress cbn [wf]
    | progress intros ].

  Lemma wf_Y v al L v0 v1 L0 L1 : W (Y_body v al L v0 v1 L0 L1).
  Proof. unfold W, Y_body, ME_SO5r3C, CGC. wfs. Qed.
  Lemma wf_Y_rem v al L v0 v1 L0 L1 : W (RepSO5_Y_rem v al L v0 v1 L0 L1).
  Proof. split; [reflexivity|]. split; [apply wf_Y|]. intros; exact I. Qed.
  Lemma wf_ys y v0 v1 L0 L1 : W (ys_matC y v0 v1 L0 L1).
  Proof.
    destruct y as [s|v al L]; [|apply wf_Y_rem]. destruct s; try exact I. unfold ys_matC. destruct (SpHarm_Table h) as [[v al] L]. apply wf_Y_rem.
  Qed.
  Lemma wf_wrk ys v0 v1 L0 L1 : W (RepSO5r3_Prod_wrk ys v0 v1 L0 L1).
  Proof.
    destruct ys as [|y ys]; unfold W, RepSO5r3_Prod_wrk; apply wf_andthen; try exact I; try (intros; exact I); [apply wf_ys|].
    intros M0. apply wf_forC. intros z P. apply wf_andthen; [apply wf_ys|]. intros; exact I.
  Qed.
  Lemma wf_Prod_rem ys v0 v1 L0 L1 : W (RepSO5r3_Prod_rem ys v0 v1 L0 L1).
  Proof. split; [reflexivity|]. split; [apply wf_wrk|]. intros; exact I. Qed.
  Lemma wf_Twin r s a : W (RepXspace_TwinC RP lam r s a).
  Proof.
    unfold W, RepXspace_TwinC. do 3 (apply wf_andthen; [exact I|intros ?]). cbn zeta. apply wf_andthen; [apply wf_Prod_rem|]. intros; exact I.
  Qed.
  Lemma wf_full n a : W (full_body RP lam n a).
  Proof.
    destruct n; unfold W, full_body, Pi_body, PiPi_body, PiqPi_body, QixQxQredC, CGC; wfs.
  Qed.
  Lemma wf_call n a : W (callC RP lam n a).
  Proof. split; [reflexivity|]. split; [apply wf_full|]. intros; exact I. Qed.
  Lemma wf_loop a ops : forall r nu sph, W (prod_loopC RP lam a ops r nu sph).
  Proof.
    unfold W. induction ops as [|op ops IH]; intros r nu sph; cbn [prod_loopC]; cbn zeta; [exact I|].
    assert (Q : forall b : bool, W (if b then py* T <- RepXspace_TwinC RP lam nu sph a ;; Done (times r T) else Done (Ok r))).
    { intros [|]; [|exact I]. apply wf_andthen; [apply wf_Twin|]. intros; exact I. }
    destruct op as [s|h| | | | | |]; try apply IH;
      try (apply wf_andthen; [apply Q|]; intros ?; apply wf_andthen; [apply wf_call|]; intros ?; apply wf_andthen; [exact I|]; intros ?; apply IH).
    destruct s; try apply IH. apply wf_andthen; [apply Q|]. intros; exact I.
  Qed.
  Lemma wf_word w a : W (RepXspace_ProdC RP lam w a).
  Proof.
    unfold W, RepXspace_ProdC. apply wf_andthen; [exact I|]. intros _. apply wf_andthen; [apply wf_loop|]. intros [[r nu] sph].
    apply wf_andthen; [apply wf_Twin|]. intros T. apply wf_andthen; [exact I|]. intros [P|]; exact I.
  Qed.
  Lemma wf_term t X a : W (RepXspace_TermC RP lam t X a).
  Proof. unfold W, RepXspace_TermC. apply wf_andthen; [apply wf_word|]. intros M. destruct (fst t); wfs. Qed.
  Lemma wf_terms ts X a : forall acc, W (terms_loopC RP lam ts X a acc).
  Proof. unfold W. induction ts as [|t ts IH]; intros acc; [exact I|]. apply wf_andthen; [apply wf_term|]. intros; apply IH. Qed.
  Lemma wf_Xspace op an lb n0 n1 v0 v1 L Lm : W (RepXspaceC RP lam op an lb n0 n1 v0 v1 L Lm).
  Proof.
    unfold W, RepXspaceC. apply wf_andthen; [exact I|]. intros _. apply wf_andthen; [|intros; exact I].
    destruct op as [|t ts]; [exact I|]. apply wf_andthen; [exact I|]. intros X. apply wf_andthen; [apply wf_term|]. intros; apply wf_terms.
  Qed.
  Lemma wf_code c : W (code_of RP lam c).
  Proof.
    destruct c; [apply wf_Y_rem| |apply wf_Prod_rem|apply wf_call|apply wf_word|apply wf_Xspace].
    unfold W, code_of, RepSO5r3_ProdC. apply wf_andthen; [apply wf_wrk|]. intros; exact I.
  Qed.

  Lemma answer_code CG c : answer CG (code_of RP lam c) = given RP lam CG c.
  Proof.
    destruct c; [apply answer_Y_rem|apply answer_Prod|apply answer_Prod_rem|apply answer_call|apply answer_word|apply answer_Xspace].
  Qed.

  Notation session := (session home RP lam).
  Notation step := (step home RP lam).
  Notation session_plain := (session_plain home RP lam).
  Notation step_plain := (step_plain home RP lam).

  Definition good (w : world) : Prop := inv home body (w_cg w) (w_tab w).

  Lemma step_agrees e w : good w ->
    step_plain e (w_disk w, w_cg w) = (fst (step e w), (w_disk (snd (step e w)), w_cg (snd (step e w)))) /\
    good (snd (step e w)) /\ cgle (w_cg w) (w_cg (snd (step e w))).
  Proof.
    intros G. destruct w as [F cg t]. unfold good in *. cbn [w_disk w_cg w_tab] in *.
    destruct e as [d|F'|v1 a1 L1 v2 a2 L2 v3 a3 L3|v1 v2 a2 L2 v3|c]; unfold step_plain, step; cbn [DataMemo.step DataMemo.step_plain w_disk w_cg w_tab].
    - split; [reflexivity|]. split; [|apply cgle_dir]. eapply inv_grow; [|exact G]. apply cgle_dir.
    - split; [reflexivity|]. split; [exact G|apply cgle_refl].
    - pose proof (proj1 (CGn_grows home F cg (non v1 a1 L1 v2 a2 L2 v3 a3 L3))) as H. unfold CGn, non in H. cbn [n_v1 n_a1 n_L1 n_v2 n_a2 n_L2 n_v3 n_a3 n_L3] in H.
      destruct (CG_SO5r3 _ _ _ _ _ _ _ _ _ _ _ _) as [r cg']. cbn [fst snd w_disk w_cg w_tab] in *.
      split; [reflexivity|]. split; [|exact H]. eapply inv_grow; eassumption.
    - pose proof (load_grows home F cg v1 v2 a2 L2 v3) as H. destruct (load_CG_table _ _ _ _ _ _ _ _) as [r cg']. cbn [fst snd w_disk w_cg w_tab] in *.
      split; [reflexivity|]. split; [|exact H]. eapply inv_grow; eassumption.
    - destruct (run_ok home body _ (code_of RP lam c) (wf_code c) F cg t G) as (t' & E & I'). rewrite E.
      pose proof (plain_grows home _ (code_of RP lam c) F cg) as H.
      destruct (run_plain home (code_of RP lam c) F cg) as [r cg']. cbn [fst snd w_disk w_cg w_tab] in *. auto.
  Qed.

  Lemma session_agrees es : forall w, good w ->
    session_plain es (w_disk w, w_cg w) = (fst (session es w), (w_disk (snd (session es w)), w_cg (snd (session es w)))) /\
    good (snd (session es w)) /\ cgle (w_cg w) (w_cg (snd (session es w))).
  Proof.
    induction es as [|e es IH]; intros w G; cbn [DataMemo.session DataMemo.session_plain].
    - split; [reflexivity|]. split; [exact G|apply cgle_refl].
    - destruct (step_agrees e w G) as (E & G1 & L1). rewrite E. destruct (step e w) as [o w1]. cbn [fst snd] in *.
      destruct (IH w1 G1) as (E2 & G2 & L2). rewrite E2. destruct (session es w1) as [os w2]. cbn [fst snd] in *.
      split; [reflexivity|]. split; [exact G2|]. eapply cgle_trans; eassumption.
  Qed.

  Lemma good_started F : good (started F).
  Proof. intros key M E. discriminate E. Qed.

  (** Whatever happens to the directory and the files, the memo tables of the
      matrices cannot be noticed: everything is answered as by a process that
      only keeps the coefficients it has read. *)
  Theorem C80_tables_unobservable : forall es F,
    fst (session es (started F)) = fst (session_plain es (F, cg_init)).
  Proof.
    intros es F. pose proof (session_agrees es (started F) (good_started F)) as (E & _).
    change (w_disk (started F), w_cg (started F)) with (F, cg_init) in E. now rewrite E.
  Qed.

  (** A matrix that has been returned is returned again by the same call for
      the rest of the process, whatever happens to the directory and the files
      in between. *)
  Theorem C80_stays : forall es1 es2 F c M,
    let w1 := snd (session es1 (started F)) in
    fst (step (CallMatrix c) w1) = Matrix (Ok M) ->
    let w2 := snd (session es2 (snd (step (CallMatrix c) w1))) in
    fst (step (CallMatrix c) w2) = Matrix (Ok M).
  Proof.
    intros es1 es2 F c M w1 E w2.
    destruct (session_agrees es1 (started F) (good_started F)) as (_ & G1 & _). fold w1 in G1.
    destruct (step_agrees (CallMatrix c) w1 G1) as (E1 & G2 & _).
    destruct (session_agrees es2 _ G2) as (_ & G3 & L3). fold w2 in G3, L3.
    destruct (step_agrees (CallMatrix c) w2 G3) as (E2 & _ & _).
    rewrite E in E1. unfold DataMemo.step_plain in E1, E2.
    destruct (run_plain home (code_of RP lam c) (w_disk w1) (w_cg w1)) as [r cg1] eqn:R1. injection E1 as -> _ HC.
    rewrite (plain_settled home _ _ _ _ _ _ R1 (w_disk w2) (w_cg w2)) in E2 by (rewrite HC; exact L3).
    symmetry. exact (f_equal fst E2).
  Qed.

  (** If files only appear, every request is answered, with a value or an
      exception, as in a process started at that moment: a call that failed
      for want of a file leaves nothing behind, and succeeds when it is
      repeated after the file has been supplied. *)
  Theorem C80_only_new_files : forall es F, only_new_files F es ->
    fst (session es (started F)) = each_alone home RP lam F es.
  Proof.
    intros es F H. rewrite C80_tables_unobservable.
    assert (B : agrees home F home cg_init) by (split; [reflexivity|discriminate]).
    assert (K : forall es F cg, agrees home F home cg -> only_new_files F es -> fst (session_plain es (F, cg)) = each_alone home RP lam F es).
    { clear es F H B. induction es as [|e es IH]; intros F cg AG N; cbn [DataMemo.session_plain each_alone]; [reflexivity|].
      assert (AI : agrees home F home cg_init) by (split; [reflexivity|discriminate]).
      destruct e as [d|F'|v1 a1 L1 v2 a2 L2 v3 a3 L3|v1 v2 a2 L2 v3|c]; cbn [only_new_files] in N; cbn [DataMemo.step_plain alone].
      - contradiction.
      - destruct N as [N1 N2]. specialize (IH F' cg (agrees_grows home F F' home cg N1 AG) N2).
        destruct (session_plain es (F', cg)) as [os w]. cbn [fst] in *. now rewrite IH.
      - destruct (agrees_CG home F home cg (non v1 a1 L1 v2 a2 L2 v3 a3 L3) AG) as [E AG'].
        destruct (agrees_CG home F home cg_init (non v1 a1 L1 v2 a2 L2 v3 a3 L3) AI) as [E' _]. rewrite <- E' in E.
        unfold CGn, non in E, AG'. cbn [n_v1 n_a1 n_L1 n_v2 n_a2 n_L2 n_v3 n_a3 n_L3] in E, AG'. rewrite <- E.
        destruct (CG_SO5r3 F home cg _ _ _ _ _ _ _ _ _) as [r cg']. cbn [fst snd] in *.
        specialize (IH F cg' AG' N). destruct (session_plain es (F, cg')) as [os w]. cbn [fst] in *. now rewrite IH.
      - destruct (agrees_load home F home cg v1 v2 a2 L2 v3 AG) as [E AG'].
        destruct (agrees_load home F home cg_init v1 v2 a2 L2 v3 AI) as [E' _]. rewrite <- E' in E. rewrite <- E.
        destruct (load_CG_table F home cg _ _ _ _ _) as [r cg']. cbn [fst snd] in *.
        specialize (IH F cg' AG' N). destruct (session_plain es (F, cg')) as [os w]. cbn [fst] in *. now rewrite IH.
      - destruct (agrees_plain home _ (code_of RP lam c) F home cg AG) as [E AG'].
        destruct (agrees_plain home _ (code_of RP lam c) F home cg_init AI) as [E' _].
        assert (EQ : given RP lam (CG_at F home cg_init) c = given RP lam (CG_at F home (fresh home)) c).
        { f_equal. extensionality x1. extensionality x2. extensionality x3. extensionality x4. extensionality x5. extensionality x6.
          extensionality x7. extensionality x8. extensionality x9.
          exact (proj1 (agrees_CG home F home cg_init (non x1 x2 x3 x4 x5 x6 x7 x8 x9) AI)). }
        rewrite EQ, <- answer_code, <- E.
        destruct (run_plain home (code_of RP lam c) F cg) as [r cg']. cbn [fst snd] in *.
        specialize (IH F cg' AG' N). destruct (session_plain es (F, cg')) as [os w]. cbn [fst] in *. now rewrite IH. }
    now apply K.
  Qed.

  (** A coefficient that is missing from a file that could be read (a file that
      was incomplete) stays missing for the rest of the process, whatever
      happens to the file. *)
  Theorem C80_incomplete_file : forall es1 es2 F v1 a1 L1 v2 a2 L2 v3 a3 L3,
    let c := CallCoefficient v1 a1 L1 v2 a2 L2 v3 a3 L3 in
    let w1 := snd (session es1 (started F)) in
    (forall path, w_disk w1 path <> Raise KeyError) ->
    fst (step c w1) = Number (Raise KeyError) ->
    let w2 := snd (session es2 (snd (step c w1))) in
    fst (step c w2) = Number (Raise KeyError).
  Proof.
    intros es1 es2 F v1 a1 L1 v2 a2 L2 v3 a3 L3 c w1 ND E w2.
    set (n := non v1 a1 L1 v2 a2 L2 v3 a3 L3).
    assert (S : forall w, step c w = (Number (fst (CGn (w_disk w) home (w_cg w) n)), mkW (w_disk w) (snd (CGn (w_disk w) home (w_cg w) n)) (w_tab w))).
    { intros w. cbn [DataMemo.step c]. change (CG_SO5r3 (w_disk w) home (w_cg w) v1 a1 L1 v2 a2 L2 v3 a3 L3) with (CGn (w_disk w) home (w_cg w) n).
      now destruct (CGn (w_disk w) home (w_cg w) n). }
    destruct (session_agrees es1 (started F) (good_started F)) as (_ & G1 & _). fold w1 in G1.
    destruct (step_agrees c w1 G1) as (_ & G2 & _).
    destruct (session_agrees es2 _ G2) as (_ & _ & L3'). fold w2 in L3'. rewrite S in E, L3' |- *. cbn [fst snd w_cg] in *. f_equal.
    injection E as E. clear S.
    assert (D : legal_nonet n \/ ~ legal_nonet n) by (unfold legal_nonet; lia).
    destruct D as [D|D]; [|rewrite CGn_illegal in E by assumption; discriminate].
    rewrite CGn_legal in E, L3' |- * by assumption. destruct (admissible_dec n) as [A|A]; [|discriminate].
    destruct (found (w_cg w1) (nkey n)) as [t|] eqn:Ef; cbn [fst snd] in *.
    - now rewrite (L3' _ _ Ef).
    - destruct (tbl (w_disk w1) (get_base_directory home (w_cg w1)) (nkey n)) as [t|e] eqn:Et; cbn [fst snd] in *.
      + rewrite (L3' (nkey n) t); [exact E|]. rewrite found_add. now destruct (quintet_eq_dec (nkey n) (nkey n)).
      + exfalso. injection E as ->. unfold tbl in Et. destruct (nkey n) as [[[[x1 x2] x3] x4] x5].
        destruct (0 <? x2); [|discriminate].
        assert (Q : forall p, SO5CG_filename (get_base_directory home (w_cg w1)) x1 x2 x3 x4 x5 = Raise p -> p <> KeyError).
        { intros p Ep. assert (D2 : legal x1 x2 x3 x4 x5 \/ ~ legal x1 x2 x3 x4 x5) by (unfold legal; lia).
          unfold SO5CG_filename in Ep. destruct D2 as [D2|D2].
          - rewrite require_quintet_ok in Ep by assumption. discriminate.
          - rewrite require_quintet_bad in Ep by assumption. cbn [bind] in Ep. congruence. }
        destruct (SO5CG_filename _ _ _ _ _ _) as [p|e]; cbn [bind] in Et.
        * specialize (ND p). destruct (w_disk w1 p); cbn [bind] in Et; congruence.
        * injection Et as ->. now apply (Q KeyError).
  Qed.
End C80.

(** ** Files that change *)

(** The file for (0; 1,1,2; 1) with given contents, and no others. *)
Definition only_file (x : res (list R)) : disk := fun path =>
  if list_eq_dec Z.eq_dec path (chars "v2=1/SO5CG_0_1_1/SO5CG_0_1-1-2_1") then x else Raise FileNotFoundError.
Definition the_coefficient : event := CallCoefficient 0 1 0 1 1 2 1 1 2.

Section Changing.
  Variable RP : list rsym -> R -> R -> Z -> Z -> Z -> Z -> res (mat R).
  Variable lam : Z -> res Z.
  Notation seen es F := (fst (session [] RP lam es (started F))).

  Lemma coefficient_of F st : CG_coeffs st = [] -> base_directory st = None ->
    CG_SO5r3 F [] st 0 1 0 1 1 2 1 1 2 =
    match F (chars "v2=1/SO5CG_0_1_1/SO5CG_0_1-1-2_1") with
    | Raise e => (Raise e, st)
    | Ok data => let t := dict_of quartet_eq_dec (combine [(1, 0, 1, 2)] data) in
                 (dict_item quartet_eq_dec t (1, 0, 1, 2), add_table st (0, 1, 1, 2, 1) t)
    end.
  Proof.
    intros E B. destruct n011_ok as [HL HA]. change (CG_SO5r3 F [] st 0 1 0 1 1 2 1 1 2) with (CGn F [] st n011).
    rewrite CGn_legal by assumption. destruct (admissible_dec n011); [|contradiction].
    replace (found st (nkey n011)) with (@None (list (quartet * R))) by (unfold found; now rewrite E).
    unfold get_base_directory. rewrite B. unfold tbl. change (nkey n011) with (0, 1, 1, 2, 1). cbn [Z.ltb Z.compare].
    change (SO5CG_filename [] 0 1 1 2 1) with (Ok (chars "v2=1/SO5CG_0_1_1/SO5CG_0_1-1-2_1")). cbn [bind].
    destruct (F _) as [data|e]; reflexivity.
  Qed.

  Lemma only_file_at x : only_file x (chars "v2=1/SO5CG_0_1_1/SO5CG_0_1-1-2_1") = x.
  Proof. unfold only_file. now destruct (list_eq_dec _ _ _). Qed.

  (** A file that is missing at first: the call is answered once it is there. *)
  Example C80_supplied : seen [the_coefficient; DiskBecomes (only_file (Ok [3%R])); the_coefficient] (only_file (Raise FileNotFoundError))
    = [Number (Raise FileNotFoundError); Nothing; Number (Ok 3%R)] /\
    only_new_files (only_file (Raise FileNotFoundError)) [the_coefficient; DiskBecomes (only_file (Ok [3%R])); the_coefficient].
  Proof.
    split.
    - unfold the_coefficient. cbn [session step w_disk w_cg w_tab started].
      rewrite (coefficient_of (only_file (Raise FileNotFoundError)) cg_init) by reflexivity. rewrite only_file_at. cbn [w_disk w_cg w_tab].
      rewrite (coefficient_of (only_file (Ok [3%R])) cg_init) by reflexivity. rewrite only_file_at. reflexivity.
    - cbn [only_new_files the_coefficient]. split; [|exact I]. intros path x E. exfalso. revert E. unfold only_file. destruct (list_eq_dec _ _ _); discriminate.
  Qed.

  (** A file that is corrected after it was read is not read again. *)
  Theorem C80_corrected_file_refuted : exists F F' x y,
    seen [the_coefficient; DiskBecomes F'; the_coefficient] F = [Number (Ok x); Nothing; Number (Ok x)] /\
    seen [the_coefficient] F' = [Number (Ok y)] /\ x <> y.
  Proof.
    exists (only_file (Ok [1%R])), (only_file (Ok [2%R])), 1%R, 2%R. split; [|split; [|lra]];
      unfold the_coefficient; cbn [session step w_disk w_cg w_tab started];
      rewrite (coefficient_of _ cg_init) by reflexivity; rewrite only_file_at; reflexivity.
  Qed.

  (** One that was empty when it was read, because it was still being written,
      keeps failing. *)
  Theorem C80_completed_file_refuted : exists F F' y,
    seen [the_coefficient; DiskBecomes F'; the_coefficient] F = [Number (Raise KeyError); Nothing; Number (Raise KeyError)] /\
    seen [the_coefficient] F' = [Number (Ok y)].
  Proof.
    exists (only_file (Ok [])), (only_file (Ok [2%R])), 2%R. split;
      unfold the_coefficient; cbn [session step w_disk w_cg w_tab started];
      rewrite (coefficient_of _ cg_init) by reflexivity; rewrite only_file_at; reflexivity.
  Qed.
End Changing.

(** The same for a matrix, that of the harmonic (1, 1, 2) on the states of
    seniority 0 and 1: the call fails while its file is missing, succeeds when
    it is repeated after the file has been supplied, and goes on giving the same
    matrix when the file is removed again. *)
Example C80_case : forall RP lam, exists M,
  let c := CallMatrix (CHarmonic 1 1 2 0 1 0 2) in
  let none := only_file (Raise FileNotFoundError) in
  fst (session [] RP lam [c; DiskBecomes (only_file (Ok [1%R])); c; DiskBecomes none; c] (started none)) =
    [Matrix (Raise FileNotFoundError); Nothing; Matrix (Ok M); Nothing; Matrix (Ok M)].
Proof.
  intros RP lam.
  set (none := only_file (Raise FileNotFoundError)). set (some := only_file (Ok [1%R])).
  assert (MEk : forall u w v, 0 <= u -> 0 <= w -> 0 <= v -> ME_SO5red u w v = Ok (Some (me u w v))) by (intros; now apply me_ok).
  assert (ST : lbsSO5r3_rngVvarL 0 1 0 (Some 2) = Ok [(0, 1, 0); (1, 1, 2)]) by reflexivity.
  assert (R0 : given RP lam (CG_at none [] cg_init) (CHarmonic 1 1 2 0 1 0 2) = Raise FileNotFoundError).
  { cbn [given]. unfold RepSO5_Y. rewrite ST. cbn [bind mapM]. unfold ME_SO5r3. rewrite !MEk by lia. reflexivity. }
  assert (R1 : exists M, given RP lam (CG_at some [] cg_init) (CHarmonic 1 1 2 0 1 0 2) = Ok M).
  { cbn [given]. unfold RepSO5_Y. rewrite ST. cbn [bind mapM]. unfold ME_SO5r3. rewrite !MEk by lia. eexists. reflexivity. }
  destruct R1 as [M R1]. exists M. cbv zeta.
  set (c := CallMatrix (CHarmonic 1 1 2 0 1 0 2)).
  pose (es1 := [c; DiskBecomes some]).
  assert (N : only_new_files none (es1 ++ [c])).
  { cbn [es1 app only_new_files c]. split; [|exact I]. intros path x E. exfalso. revert E. unfold none, only_file. destruct (list_eq_dec _ _ _); discriminate. }
  pose proof (C80_only_new_files [] RP lam (es1 ++ [c]) none N) as E.
  cbn [es1 app each_alone alone c] in E. rewrite R0, R1 in E. fold c in E.
  pose proof (C80_stays [] RP lam es1 [DiskBecomes none] none (CHarmonic 1 1 2 0 1 0 2) M) as S. cbv zeta in S. fold c in S.
  cbn [es1 session] in S, E |- *.
  destruct (step [] RP lam c (started none)) as [o1 w1]. cbn [fst snd] in S, E |- *.
  change (step [] RP lam (DiskBecomes some) w1) with (Nothing, mkW some (w_cg w1) (w_tab w1)) in S, E |- *. cbn [fst snd] in S, E |- *.
  destruct (step [] RP lam c (mkW some (w_cg w1) (w_tab w1))) as [o2 w2]. cbn [fst snd] in S, E |- *.
  change (step [] RP lam (DiskBecomes none) w2) with (Nothing, mkW none (w_cg w2) (w_tab w2)) in S |- *. cbn [fst snd] in S |- *.
  injection E as E1 E2. specialize (S E2).
  destruct (step [] RP lam c (mkW none (w_cg w2) (w_tab w2))) as [o3 w3]. cbn [fst snd] in S |- *. congruence.
Qed.

Print Assumptions C80_tables_unobservable.
Print Assumptions C80_stays.
Print Assumptions C80_only_new_files.
Print Assumptions C80_incomplete_file.
Print Assumptions C80_corrected_file_refuted.
Print Assumptions C80_completed_file_refuted.
