(** C71: sessions and the examples that come with the package. *)

From Coq Require Import String Reals Lra.
From Coq Require Import Lia ZifyBool ZifyNat.
From Verif Require Import PyBase Compat PyFacts SphericalFacts Text Format Operators Matrix FullSpace Settings PropsSettings Display DisplayFacts PropsDriver Examples.
Open Scope Z_scope.

Section Sessions.
  Variable flt : text -> R -> text.
  Variable RepX : settings -> OperatorSum -> R -> R -> Z -> Z -> Z -> Z -> Z -> option Z -> res (mat R).
  Variable eigh : mat R -> res (list R * mat R).
  Variable inv : mat R -> res (mat R).
  Variable junk : Z -> Z -> R.
  Let session := session flt RepX eigh inv junk.
  Let step := step flt RepX eigh inv junk.

  (** The settings that nothing writes. *)
  Definition constant (s : settings) : Prop :=
    g_tran_format s = g_tran_format imported /\ g_tran_fill s = g_tran_fill imported /\ g_nu_lap s = g_nu_lap imported.

  Lemma snd_seen {A} f (p : res A * settings * list text) : snd (seen f p) = snd (fst p).
  Proof. destruct p as [[[a|e] s] o]; reflexivity. Qed.

  Lemma step_constant e s : constant s -> constant (snd (step e s)).
  Proof.
    intros H. destruct e as [c|fe fr h a l n1 n2 v1 v2 L1 L2|ev Lv n L1 L2|m l n|m l n]; cbn [step Examples.step].
    - unfold step, Examples.step. pose proof (frame_history flt [c] s) as F. unfold history in F. cbn [fold_left] in F.
      destruct (perform flt c s) as [x s']. cbn [snd] in *. destruct F as (F1 & F2 & F3). destruct H as (H1 & H2 & H3).
      repeat split; congruence.
    - unfold step, Examples.step. rewrite snd_seen.
      destruct (C40_only_scale_factors flt RepX eigh inv junk h a l n1 n2 v1 v2 fe fr L1 L2 s) as (x & y & z & ->). exact H.
    - unfold step, Examples.step. rewrite snd_seen, keeps_Show_Eigs. exact H.
    - unfold step, Examples.step. rewrite snd_seen, keeps_Show_Rats. exact H.
    - unfold step, Examples.step. rewrite snd_seen, keeps_Show_Amps. exact H.
  Qed.

  Lemma session_constant es : forall s, constant s -> constant (snd (session es s)).
  Proof.
    induction es as [|e es IH]; intros s H; [exact H|]. unfold session. cbn [Examples.session]. pose proof (step_constant e s H) as K. unfold step in K.
    destruct (Examples.step flt RepX eigh inv junk e s) as [o s1]. cbn [snd] in K. specialize (IH s1 K). unfold session in IH.
    destruct (Examples.session flt RepX eigh inv junk es s1). exact IH.
  Qed.

  Lemma session_app es1 es2 : forall s, session (es1 ++ es2) s =
    let (o1, s1) := session es1 s in let (o2, s2) := session es2 s1 in (o1 ++ o2, s2).
  Proof.
    unfold session. induction es1 as [|e es1 IH]; intros s; cbn [app Examples.session]; [now destruct (Examples.session flt RepX eigh inv junk es2 s)|].
    destruct (Examples.step flt RepX eigh inv junk e s) as [o s1]. rewrite IH. destruct (Examples.session flt RepX eigh inv junk es1 s1) as [o1 s2].
    now destruct (Examples.session flt RepX eigh inv junk es2 s2).
  Qed.

  Lemma defaults_constant w s : constant s -> perform flt (SetDefaults w) s = (None, imported).
  Proof.
    intros (H1 & H2 & H3). cbn [perform]. rewrite C34_defaults by (right; exact H1). rewrite H1, H2, H3. reflexivity.
  Qed.

  (** Each observation of a session is what that call, made in the settings
      left by the calls before it, raised, returned and printed, including
      what it printed before it raised; and the session goes on with the
      settings the call left. *)
  Definition observation {A} (r : res A) (t : list text) (value : A -> option (list (list R) * option block_array * list Z)) (o : observed) : Prop :=
    printed o = t /\
    match r with
    | Ok a => raised o = None /\ returned o = value a
    | Raise x => raised o = Some x /\ returned o = None
    end.
  Theorem C71_observed : forall before e after s,
    let (os, s1) := session before s in exists o s2,
    session (before ++ e :: after) s = (os ++ o :: fst (session after s2), snd (session after s2)) /\
    match e with
    | Call c => perform flt c s1 = (raised o, s2) /\ printed o = [] /\ returned o = None
    | Fit fe fr h a l n1 n2 v1 v2 L1 L2 => exists r t,
        ACM_ScaleOrAdapt flt RepX eigh inv junk h a l n1 n2 v1 v2 fe fr L1 L2 s1 = (r, s2, t) /\ observation r t Some o
    | ShowEigs ev Lv n L1 L2 => exists r t, Show_Eigs flt ev Lv n L1 L2 s1 = (r, s2, t) /\ observation r t (fun _ => None) o
    | ShowRats m l n => exists r t, Show_Rats flt m l n s1 = (r, s2, t) /\ observation r t (fun _ => None) o
    | ShowAmps m l n => exists r t, Show_Amps flt m l n s1 = (r, s2, t) /\ observation r t (fun _ => None) o
    end.
  Proof.
    intros b e a s. rewrite session_app. destruct (session b s) as [os s1]. destruct (step e s1) as [o s2] eqn:E. exists o, s2. split.
    - unfold session. cbn [Examples.session]. unfold step in E. rewrite E. now destruct (Examples.session flt RepX eigh inv junk a s2).
    - destruct e as [c|fe fr h x l n1 n2 v1 v2 L1 L2|ev Lv n L1 L2|m l n|m l n]; unfold step, Examples.step in E.
      + destruct (perform flt c s1). injection E as <- <-. auto.
      + destruct (ACM_ScaleOrAdapt _ _ _ _ _ _ _ _ _ _ _ _ _ _ _ _ s1) as [[r s3] t]. exists r, t. unfold seen in E. destruct r; injection E as <- <-; unfold observation; auto.
      + destruct (Show_Eigs _ _ _ _ _ _ s1) as [[r s3] t]. exists r, t. unfold seen in E. destruct r; injection E as <- <-; unfold observation; auto.
      + destruct (Show_Rats _ _ _ _ s1) as [[r s3] t]. exists r, t. unfold seen in E. destruct r; injection E as <- <-; unfold observation; auto.
      + destruct (Show_Amps _ _ _ _ s1) as [[r s3] t]. exists r, t. unfold seen in E. destruct r; injection E as <- <-; unfold observation; auto.
  Qed.

  (** Whatever was called before, and whether it returned or raised: after
      ACM_set_defaults a session goes on as after a fresh import. *)
  Theorem C71_fresh : forall before w after,
    let (seen_before, _) := session before imported in
    let (seen_after, s) := session after imported in
    session (before ++ Call (SetDefaults w) :: after) imported =
      (seen_before ++ {| raised := None; returned := None; printed := [] |} :: seen_after, s).
  Proof.
    intros b w a. rewrite session_app. pose proof (session_constant b imported (conj eq_refl (conj eq_refl eq_refl))) as K.
    destruct (session b imported) as [ob sb]. destruct (session a imported) as [oa sa] eqn:E. cbn [snd] in K.
    unfold session in *. cbn [Examples.session Examples.step]. rewrite (defaults_constant w sb K). now rewrite E.
  Qed.

  (** Without it a session may go on differently: a list length set before is still in force. *)
  Theorem C71_without_defaults_refuted : exists before after,
    snd (session (before ++ after) imported) <> snd (session after imported).
  Proof.
    exists [Call (SetListln (Some 7) None)], [Call (ShowScales 0)]. unfold session. cbn. intros E. apply (f_equal g_eig_num) in E. cbn in E. discriminate.
  Qed.

  Let calls := calls flt.
  Let prepare := prepare flt.
  Let run := run flt.

  (** No call raises. *)
  Fixpoint sound (cs : list setter) (s : settings) : Prop :=
    match cs with [] => True | c :: cs' => fst (perform flt c s) = None /\ sound cs' (snd (perform flt c s)) end.

  Lemma calls_sound cs : forall s, sound cs s -> calls cs s = (Ok tt, history flt cs s, []).
  Proof.
    unfold calls. induction cs as [|c cs IH]; intros s H; [reflexivity|]. cbn [sound] in H. destruct H as [H1 H2]. cbn [Examples.calls].
    unfold history. cbn [fold_left]. destruct (perform flt c s) as [x s']. cbn [fst snd] in *. subst x. exact (IH s' H2).
  Qed.

  (** What the preparation of a class calls, in order. *)
  Fixpoint preparation (chain : list example) : list setter :=
    match chain with [] => [] | cls :: pre => preparation pre ++ ex_set cls ++ ex_unset cls end.

  Lemma sound_app a b : forall s, sound (a ++ b) s <-> sound a s /\ sound b (history flt a s).
  Proof.
    induction a as [|c a IH]; intros s; cbn [app sound]; [unfold history; cbn; tauto|]. rewrite IH. unfold history. cbn [fold_left]. tauto.
  Qed.

  Lemma prepare_sound chain : forall s, sound (preparation chain) s -> prepare chain s = (Ok tt, history flt (preparation chain) s, []).
  Proof.
    unfold prepare. induction chain as [|c pre IH]; intros s H; [reflexivity|]. cbn [preparation] in H. rewrite !sound_app in H. destruct H as (H1 & H2 & H3).
    cbn [Examples.prepare]. unfold pbind. rewrite (IH s H1). fold calls. rewrite (calls_sound _ _ H2), (calls_sound _ _ H3). cbn [app preparation].
    unfold history. now rewrite !fold_left_app.
  Qed.

  (** The settings in which [exec] of an example runs are those of its
      predecessors' [set] and [unset] calls and its own [set], in order; the
      predecessors' [exec] are not run. *)
  Theorem C71_in_force : forall cls pre s, sound (preparation pre ++ ex_set cls) s ->
    run cls pre s = pbind (ex_exec cls) (fun _ => calls (ex_unset cls)) (history flt (preparation pre ++ ex_set cls) s).
  Proof.
    intros cls pre s H. apply sound_app in H. destruct H as (H1 & H2). unfold run, Examples.run. unfold pbind at 1. fold prepare. rewrite (prepare_sound pre s H1).
    unfold pbind at 1. fold calls. rewrite (calls_sound _ _ H2).
    assert (Q : history flt (preparation pre ++ ex_set cls) s = history flt (ex_set cls) (history flt (preparation pre) s)) by (unfold history; apply fold_left_app).
    rewrite Q. cbn [app]. destruct (pbind _ _ _) as [[r s2] o]. reflexivity.
  Qed.

  (** An example whose first ancestor starts with ACM_set_defaults gives the
      same results, output and settings after any session as in a fresh one. *)
  Theorem C71_reproducible : forall before cls pre root w rest,
    last (cls :: pre) root = root -> ex_set root = SetDefaults w :: rest ->
    run cls pre (snd (session before imported)) = run cls pre imported.
  Proof.
    intros b cls pre root w rest HL HR. pose proof (session_constant b imported (conj eq_refl (conj eq_refl eq_refl))) as K.
    set (s := snd (session b imported)) in *. clearbody s.
    assert (C : forall cs, calls (SetDefaults w :: cs) s = calls (SetDefaults w :: cs) imported).
    { intros cs. unfold calls. cbn [Examples.calls]. rewrite (defaults_constant w s K), (defaults_constant w imported (conj eq_refl (conj eq_refl eq_refl))). reflexivity. }
    assert (P : forall ch, ch <> [] -> last ch root = root -> prepare ch s = prepare ch imported).
    { unfold prepare. induction ch as [|c ch IH]; [easy|]. intros _ L. cbn [Examples.prepare]. destruct ch as [|d ch].
      - cbn in L. subst c. cbn [Examples.prepare]. unfold pbind at 1 3. cbn [pret]. unfold pbind. rewrite HR. fold calls. now rewrite (C rest).
      - unfold pbind at 1 3. rewrite IH; [reflexivity|discriminate|exact L]. }
    unfold run, Examples.run. destruct pre as [|d pre].
    - cbn in HL. subst cls. cbn [Examples.prepare]. unfold pbind at 1 4. cbn [pret]. unfold pbind at 1 3. rewrite HR. fold calls. now rewrite (C rest).
    - unfold pbind at 1 4. fold prepare. rewrite P; [reflexivity|discriminate|exact HL].
  Qed.
End Sessions.

Section Catalogue.
  Variable flt : text -> R -> text.

  Lemma sound_cons c cs s s' : perform flt c s = (None, s') -> sound flt cs s' -> sound flt (c :: cs) s.
  Proof. intros H K. cbn [sound]. rewrite H. split; [reflexivity|exact K]. Qed.

  Lemma require_posint_ok n : 1 <= n -> require_posint n = Ok tt.
  Proof. intros H. unfold require_posint. rewrite require_nonnegint_ok by lia. cbn [bind]. unfold raise_if. destruct (n =? 0) eqn:E; [lia|reflexivity]. Qed.

  Lemma rat_fit_ok x L1 L2 i j w s : g_tran_format s = g_tran_format imported -> g_rat_format s = def_rat_format ->
    0 <= L1 -> 0 <= L2 -> 1 <= i -> 1 <= j ->
    perform flt (SetRatFit (Some x) (Some L1) (Some L2) (Some i) (Some j) w) s
    = (None, w_rat_2dx j (w_rat_1dx i (w_rat_L2 L2 (w_rat_L1 L1 (w_rat_fit x s))))).
  Proof.
    intros H1 H2 A B C D. cbn [perform]. unfold ACM_set_rat_fit. cbn [default].
    erewrite step_ok by (unfold lift; rewrite require_nonnegint_ok by lia; reflexivity).
    erewrite step_ok by (unfold lift; rewrite require_nonnegint_ok by lia; reflexivity).
    erewrite step_ok by (unfold lift; rewrite require_posint_ok by lia; reflexivity).
    erewrite step_ok by (unfold lift; rewrite require_posint_ok by lia; reflexivity).
    do 5 (erewrite step_ok by reflexivity). erewrite step_ok by reflexivity.
    erewrite step_ok.
    2: { apply optional_message. intros _. unfold rat_fit_message.
         match goal with |- context [g_rat_fit ?s] => set (s' := s) end.
         replace (g_tran_format s') with (g_tran_format imported) by (symmetry; exact H1). replace (g_rat_format s') with def_rat_format by (symmetry; exact H2).
         clearbody s'. clear. generalize (g_rat_L1 s') (g_rat_L2 s') (g_rat_1dx s') (g_rat_2dx s') (g_rat_fit s'). intros a b c d x. eexists. vm_compute. reflexivity. }
    reflexivity.
  Qed.

  Lemma scales_ok a b w s : g_amp_sft_fun s = math_sqrt -> (0 < a)%R -> (0 < b)%R ->
    perform flt (SetScales (Some a) (Some b) w) s = (None, w_amp_sft (sqrt b) (w_rat_sft b (w_eig_sft a s))).
  Proof.
    intros H A B. cbn [perform]. unfold ACM_set_scales. cbn [when]. do 2 (erewrite step_ok by reflexivity). erewrite step_ok by reflexivity.
    set (s1 := w_rat_sft b (w_eig_sft a s)).
    assert (M : g_amp_sft_fun s1 (g_rat_sft s1) = Ok (sqrt b)).
    { change (g_amp_sft_fun s1) with (g_amp_sft_fun s). change (g_rat_sft s1) with b. rewrite H. unfold math_sqrt. destruct (Rlt_dec b 0); [lra|reflexivity]. }
    erewrite step_ok by (unfold lift; rewrite M; reflexivity). erewrite step_ok by reflexivity.
    assert (P : (0 < sqrt b)%R) by now apply sqrt_lt_R0.
    erewrite step_ok.
    2: { unfold ACM_show_scales. erewrite step_ok by reflexivity. erewrite step_ok.
         2: { destruct (0 <? w); [|reflexivity]. unfold lift. change (g_eig_sft (w_amp_sft (sqrt b) s1)) with a. change (g_rat_sft (w_amp_sft (sqrt b) s1)) with b.
              change (g_amp_sft (w_amp_sft (sqrt b) s1)) with (sqrt b). unfold reciprocal.
              destruct (Req_EM_T a 0); [lra|]. destruct (Req_EM_T b 0); [lra|]. destruct (Req_EM_T (sqrt b) 0); [lra|]. reflexivity. }
         reflexivity. }
    reflexivity.
  Qed.

  Ltac easy_call := eapply sound_cons; [first [apply (defaults_constant flt); repeat split; reflexivity
    | apply rat_fit_ok; [reflexivity|reflexivity|lia|lia|lia|lia] | apply scales_ok; [reflexivity|lra|lra] | reflexivity]|].

  Variable RepX : settings -> OperatorSum -> R -> R -> Z -> Z -> Z -> Z -> Z -> option Z -> res (mat R).
  Variable eigh : mat R -> res (list R * mat R).
  Variable inv : mat R -> res (mat R).
  Variable junk : Z -> Z -> R.
  Let section_2 := section_2 flt RepX eigh inv junk.
  Let section_3 := section_3 flt RepX eigh inv junk.
  Let section_4 := section_4 flt RepX eigh inv junk.

  Lemma sound_2 : sound flt (preparation section_2) imported.
  Proof. unfold section_2, Examples.section_2, Example_1_2, setting, plain. cbn [preparation ex_set ex_unset app]. repeat easy_call. exact I. Qed.

  Lemma sound_4 alam : sound flt (preparation (section_4 alam)) imported.
  Proof.
    destruct alam as [a l]. unfold section_4, Examples.section_4, Example_1_2, setting, plain. cbn [preparation ex_set ex_unset app]. repeat easy_call. exact I.
  Qed.

  Lemma sound_3 : sound flt (preparation section_3) imported.
  Proof. unfold section_3, Examples.section_3, Example_1_2, setting, plain. cbn [preparation ex_set ex_unset app]. repeat easy_call. exact I. Qed.

  Lemma sound_part later cls pre : sound flt (preparation (later ++ cls :: pre)) imported -> sound flt (preparation pre ++ ex_set cls) imported.
  Proof.
    assert (Q : exists r, preparation (later ++ cls :: pre) = (preparation pre ++ ex_set cls) ++ r).
    { induction later as [|c later (r & E)]; cbn [app preparation]; [exists (ex_unset cls); now rewrite app_assoc|]. exists (r ++ ex_set c ++ ex_unset c). now rewrite E, <- !app_assoc. }
    destruct Q as (r & ->). rewrite sound_app. tauto.
  Qed.

  (** Every example of sections 2, 3 and 4, run after any session: its results and
      output are those of a fresh process, and it reaches its [exec], with the
      settings that its predecessors and itself ask for. *)
  Theorem C71_examples : forall alam later cls pre before,
    section_2 = later ++ cls :: pre \/ section_3 = later ++ cls :: pre \/ section_4 alam = later ++ cls :: pre ->
    run flt cls pre (snd (session flt RepX eigh inv junk before imported))
    = pbind (ex_exec cls) (fun _ => calls flt (ex_unset cls)) (history flt (preparation pre ++ ex_set cls) imported).
  Proof.
    intros alam later cls pre before H.
    assert (L : last (cls :: pre) Example_1_2 = Example_1_2).
    { assert (G : forall (l : list example) d, last (later ++ cls :: pre) d = last (cls :: pre) d).
      { intros _ d. induction later as [|c later' IH] in later, H |- *; [reflexivity|]. cbn [app]. transitivity (last (later' ++ cls :: pre) d); [destruct (later' ++ cls :: pre) eqn:E; [destruct later'; discriminate|reflexivity]|].
        clear. induction later' as [|c later' IH]; [reflexivity|]. cbn [app]. rewrite <- IH. destruct (later' ++ cls :: pre) eqn:E; [destruct later'; discriminate|reflexivity]. }
      rewrite <- (G [] Example_1_2). destruct H as [<-|[<-|<-]]; [reflexivity|reflexivity|]. unfold section_4, Examples.section_4. destruct alam. reflexivity. }
    rewrite (C71_reproducible flt RepX eigh inv junk before cls pre Example_1_2 0 _ L eq_refl).
    apply C71_in_force. destruct H as [H|[H|H]]; [pose proof sound_2 as S; rewrite H in S|pose proof sound_3 as S; rewrite H in S|pose proof (sound_4 alam) as S; rewrite H in S]; now apply sound_part in S.
  Qed.
End Catalogue.

(** The Hamiltonian of the examples is the one of RWC_Ham. *)
Theorem C71_hamiltonian : forall B c1 c2 chi kappa, B <> 0%R -> make_RWC_ham B c1 c2 chi kappa = RWC_Ham B c1 c2 chi kappa.
Proof.
  intros B c1 c2 chi kappa H. unfold make_RWC_ham, RWC_Ham. replace (- (1 / 2) / B)%R with (-1 / (2 * B))%R by (field; exact H). reflexivity.
Qed.

(** The parameters (B, c1, c2, chi, kappa) of the three Hamiltonians of sections
    2, 3 and 4: B = 20, 40 and 50, with c1 = 1 - 2 c2. *)
Theorem C71_parameters :
  ham_5a = RWC_Ham 20 (-2) 1.5 2 0 /\ ham_4c = RWC_Ham 40 (-1) 1 0.5 0 /\ ham_4_1 = RWC_Ham 50 (-3) 2 1.5 1.
Proof.
  unfold ham_5a, ham_4c, ham_4_1. rewrite !C71_hamiltonian by lra.
  replace (1 - 2 * (3 / 2))%R with (-2)%R by lra. replace (3 / 2)%R with 1.5%R by lra.
  replace (1 - 2 * 1)%R with (-1)%R by lra. replace (1 - 2 * 2)%R with (-3)%R by lra. auto.
Qed.

Definition lengths (s : settings) : Z * Z * Z := (g_eig_num s, g_rat_num s, g_amp_num s).
Definition same_lengths {A} (m : proc A) : Prop := forall s, lengths (snd (m s)) = lengths s.
Lemma sl_bind {A B} (m : proc A) (f : A -> proc B) : same_lengths m -> (forall a, same_lengths (f a)) -> same_lengths (sbind m f).
Proof. intros H K s. unfold sbind. specialize (H s). destruct (m s) as [[a|e] s']; cbn in *; [now rewrite K|exact H]. Qed.
Lemma sl_assign f : (forall s, lengths (f s) = lengths s) -> same_lengths (assign f).
Proof. intros H s. apply H. Qed.
Ltac sl := repeat first [ apply sl_bind; [|intros ?] | apply sl_assign; intros []; reflexivity | intros ?; reflexivity
  | match goal with |- same_lengths (when ?x _) => destruct x; cbn [when] | |- same_lengths (if ?b then _ else _) => destruct b end ].
Lemma sl_rat l : same_lengths (ACM_add_rat_lst l).
Proof. induction l as [|e l IH]; cbn [ACM_add_rat_lst]; [sl|]. apply sl_bind; [sl|intros _; exact IH]. Qed.
Lemma sl_amp l : same_lengths (ACM_add_amp_lst l).
Proof. induction l as [|e l IH]; cbn [ACM_add_amp_lst]; [sl|]. apply sl_bind; [sl|intros _; exact IH]. Qed.
Lemma lengths_kept flt c s :
  match c with SetScales _ _ _ | SetRatFit _ _ _ _ _ _ | SetRatLst _ | AddRatLst _ | SetAmpLst _ | AddAmpLst _ | SetEigFit _ _ _ => True | _ => False end ->
  lengths (snd (perform flt c s)) = lengths s.
Proof.
  destruct c; try contradiction; intros _; cbn [perform outcome snd]; revert s;
    match goal with |- forall s, lengths (snd (?m s)) = lengths s => change (same_lengths m) end.
  - unfold ACM_set_scales, ACM_show_scales. sl.
  - unfold ACM_set_eig_fit. cbv zeta. sl.
  - unfold ACM_set_rat_fit. cbv zeta. sl.
  - apply sl_bind; [sl|intros _; apply sl_rat].
  - apply sl_rat.
  - apply sl_bind; [sl|intros _; apply sl_amp].
  - apply sl_amp.
Qed.

(** The one example of section 2 that takes its settings back (2_5_c): an example
    run after it sees the list lengths that were in force before it. *)
Theorem C71_taken_back : forall flt RepX eigh inv junk later cls pre,
  section_2 flt RepX eigh inv junk = later ++ cls :: pre -> ex_unset cls <> [] ->
  let before := history flt (preparation pre) imported in
  let during := history flt (preparation pre ++ ex_set cls) imported in
  let after := history flt (preparation (cls :: pre)) imported in
  after = before /\ (g_eig_num during, g_rat_num during) <> (g_eig_num before, g_rat_num before).
Proof.
  intros flt RepX eigh inv junk later cls pre E U.
  assert (L : later = []).
  { destruct later as [|c later]; [reflexivity|]. exfalso. unfold section_2, plain, setting in E. injection E as _ E. apply U.
    assert (I : In cls (later ++ cls :: pre)) by (apply in_or_app; right; now left). rewrite <- E in I. clear E U. unfold Example_1_2 in I.
    repeat (destruct I as [<-|I]; [reflexivity|]). contradiction. }
  subst later. unfold section_2, plain, setting, Example_1_2 in E. injection E as <- <-.
  cbv zeta. cbn [preparation ex_set ex_unset app]. unfold history. cbn [fold_left].
  rewrite (defaults_constant flt 0 imported) by (repeat split; reflexivity). cbn [snd].
  match goal with |- snd (perform _ _ (snd (perform _ _ ?z))) = _ /\ _ => assert (Z : lengths z = (6, 4, 4)) by (repeat (rewrite lengths_kept by exact I); reflexivity); revert Z; generalize z end.
  intros z Z. destruct z. unfold lengths in Z. cbn in Z. injection Z as -> -> ->. split; [reflexivity|]. cbn. discriminate.
Qed.

(** Example_2_3_b: its settings. *)
Example C71_example : forall flt RepX eigh inv junk,
  exists later cls pre, section_2 flt RepX eigh inv junk = later ++ cls :: pre /\
    let s := history flt (preparation pre ++ ex_set cls) imported in
    zlen (g_rat_lst s) = 8 /\ g_amp_lst s = [[2; 2; 1; 1]; [2; 2; 2; 2]] /\
    (g_rel_pre s, g_rel_wid s, g_low_pre s) = (2, 8, 5) /\ (g_eig_num s, g_rat_num s, g_amp_num s) = (6, 4, 4).
Proof.
  intros. unfold section_2.
  match goal with |- exists _ _ _, ?a :: ?b :: ?c :: ?d :: ?e :: ?f :: ?g :: ?h :: ?i :: ?r = _ /\ _ => exists [a; b; c; d; e; f; g; h], i, r end.
  split; [reflexivity|]. unfold Example_1_2, setting, plain. cbn [preparation ex_set ex_unset app]. unfold history. cbn [fold_left].
  rewrite (defaults_constant flt 0 imported) by (repeat split; reflexivity). cbn [snd].
  repeat split.
Qed.

Print Assumptions C71_observed.
Print Assumptions C71_fresh.
Print Assumptions C71_without_defaults_refuted.
Print Assumptions C71_in_force.
Print Assumptions C71_reproducible.
Print Assumptions C71_examples.
Print Assumptions C71_taken_back.
Print Assumptions C71_hamiltonian.
Print Assumptions C71_parameters.
Print Assumptions C71_example.
