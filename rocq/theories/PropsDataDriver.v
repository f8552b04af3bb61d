(** C81: whole sessions, with the data files, the settings and everything a
    process remembers. *)

From Coq Require Import String Reals Lra FunctionalExtensionality.
From Coq Require Import Lia ZifyBool ZifyNat.
From Verif Require Import PyBase PyFacts Compat PyDict Text SO5Files Format Matrix SphericalSpec Spherical FullLabels RadialOps Operators
  FullOps FullSpace Settings SettingsFacts PropsSettings Display DisplayFacts PropsDriver Examples PropsExamples CG CGSpec PropsFiles CGFacts PropsCG PropsHarmonics FullOpsMemo
  PropsOscillator PropsAmplitude MemoDriver PropsMemoDriver PropsReduced DataMemo DataMemoFacts PropsDataMemo DataDriver DataDriverFacts.
Open Scope Z_scope.
Ltac Zify.zify_post_hook ::= Z.div_mod_to_equations.

(** ** Specification *)

Section Spec.
  Variable flt : text -> R -> text.
  Variable RP : list rsym -> R -> R -> Z -> Z -> Z -> Z -> res (mat R).
  Variable eigh : mat R -> res (list R * mat R).
  Variable inv : mat R -> res (mat R).
  Variable junk : Z -> Z -> R.
  Variable home : text.

  (** The answer of a process that has the given settings and data directory,
      has remembered nothing, and sees the disk [F]. *)
  Definition newly (h : happening) (w : settings * disk * text) : view * (settings * disk * text) :=
    let '(s, F, d) := w in
    let CG := CG_at F home (fresh d) in
    match h with
    | Do e => let '(o, s') := Examples.step flt (code_matrices RP CG) eigh inv junk e s in (Saw o, (s', F, d))
    | AskMatrix c => (GotMatrix (given RP (g_lam_fun s) CG c), (s, F, d))
    | AskCoefficient v1 a1 L1 v2 a2 L2 v3 a3 L3 => (GotNumber (CG v1 a1 L1 v2 a2 L2 v3 a3 L3), (s, F, d))
    | UseDirectory d' => (Silent, (s, F, d'))
    | FilesBecome F' => (Silent, (s, F', d))
    end.

  (** A session of which every part is answered like that. *)
  Fixpoint all_newly (hs : list happening) (w : settings * disk * text) : list view * (settings * disk * text) :=
    match hs with
    | [] => ([], w)
    | h :: hs' => let '(o, w1) := newly h w in let '(os, w2) := all_newly hs' w1 in (o :: os, w2)
    end.
End Spec.

(** Something is computed. *)
Definition computes (h : happening) : bool :=
  match h with
  | Do (Fit _ _ _ _ _ _ _ _ _ _ _) | AskMatrix _ | AskCoefficient _ _ _ _ _ _ _ _ _ => true
  | _ => false
  end.

(** Once something has been computed the directory is not changed, and files
    appear but do not disappear or change. *)
Fixpoint files_appear (computed : bool) (F : disk) (hs : list happening) : Prop :=
  match hs with
  | [] => True
  | h :: hs' =>
      match h with
      | UseDirectory _ => computed = false /\ files_appear computed F hs'
      | FilesBecome F' => (computed = false \/ forall path x, F path = Ok x -> F' path = Ok x) /\ files_appear computed F' hs'
      | _ => files_appear (computed || computes h) F hs'
      end
  end.

(** A call that selects a lambda function. *)
Definition selects (h : happening) : bool := match h with Do (Call c) => selects_basis c | _ => false end.

(** The operators mentioned contain no momentum operator. *)
Definition without_momentum (h : happening) : Prop :=
  match h with
  | Do (Fit _ _ op _ _ _ _ _ _ _ _) => no_momentum op
  | Do (Call (SetTransition (Some op))) => no_momentum op
  | AskMatrix (CXspace op _ _ _ _ _ _ _ _) => no_momentum op
  | AskMatrix (CWord w _) => forall o, In o w -> momentum o = false
  | AskMatrix (CFull _ _) => False
  | _ => True
  end.

(** It is certain that no momentum matrix is remembered after [h], which was
    called with the settings [s] and showed [o]. *)
Definition clean_after (h : happening) (s : settings) (o : view) (clean : Prop) : Prop :=
  match h with
  | Do (Fit _ _ op _ _ _ _ _ _ _ _) =>
      (clean /\ no_momentum op /\ no_momentum (g_rat_TRop s)) \/
      match o with
      | Saw ob => match returned ob with Some (_, _, []) => clean | Some _ => True | None => False end
      | _ => False
      end
  | AskMatrix (CXspace op _ _ _ _ _ _ _ _) => (clean /\ no_momentum op) \/ exists M, o = GotMatrix (Ok M)
  | AskMatrix (CWord w _) => clean /\ forall o, In o w -> momentum o = false
  | AskMatrix (CFull _ _) => False
  | _ => clean
  end.

(** The lambda function is only changed while that is certain. *)
Fixpoint disciplined {W} (step : happening -> W -> view * W) (settings_of : W -> settings)
  (hs : list happening) (w : W) (clean : Prop) : Prop :=
  match hs with
  | [] => True
  | h :: hs' =>
      let '(o, w1) := step h w in
      (clean \/ g_lam_fun (settings_of w1) = g_lam_fun (settings_of w)) /\
      disciplined step settings_of hs' w1 (clean_after h (settings_of w) o clean)
  end.

(** Nothing is computed and no file changes: settings, displays, the directory. *)
Definition prepares (h : happening) : bool :=
  match h with
  | Do (Fit _ _ _ _ _ _ _ _ _ _ _) | AskMatrix _ | AskCoefficient _ _ _ _ _ _ _ _ _ | FilesBecome _ => false
  | _ => true
  end.

(** Each disk has the files of the one before it. *)
Fixpoint growing (F : disk) (Gs : list disk) : Prop :=
  match Gs with
  | [] => True
  | G :: Gs' => (forall path x, F path = Ok x -> G path = Ok x) /\ growing G Gs'
  end.

(** ** Proofs *)

Section C81.
  Variable flt : text -> R -> text.
  Variable RP : list rsym -> R -> R -> Z -> Z -> Z -> Z -> res (mat R).
  Variable eigh : mat R -> res (list R * mat R).
  Variable inv_of : mat R -> res (mat R).
  Variable junk : Z -> Z -> R.
  Variable home : text.
  Notation good f := (inv home (body_of RP f)).

  (** *** A run with and without the tables *)

  Section Run.
    Variable F : disk.
    Variable f : Z -> res Z.
    Definition sim {A} (m : @dprog (cg_state * tables) A) (p : @dprog cg_state A) : Prop := forall s cg t,
      g_lam_fun s = f -> good f cg t ->
      exists r s' cg' t' o, m s (cg, t) = (r, s', (cg', t'), o) /\ p s cg = (r, s', cg', o) /\ good f cg' t' /\ g_lam_fun s' = f.

    Lemma sim_prog {A} (p : prog A) : steady p -> sim (plainly p) (plainly p).
    Proof.
      intros K s cg t Hs I. unfold plainly. specialize (K s). destruct (p s) as [[r s'] o]. cbn [fst snd] in K.
      do 5 eexists. split; [reflexivity|]. split; [reflexivity|]. split; [exact I|congruence].
    Qed.
    Lemma sim_code {A} (c : code A) : wf (body_of RP f) c -> sim (execute (in_process home F) c) (execute (without_tables home F) c).
    Proof.
      intros W s cg t Hs I. unfold execute, in_process, without_tables. cbn [fst snd].
      destruct (run_ok home (body_of RP f) _ c W F cg t I) as (t' & E & I'). rewrite E.
      destruct (run_plain home c F cg) as [r cg']. cbn [snd] in I'. do 5 eexists. split; [reflexivity|]. split; [reflexivity|]. split; [exact I'|exact Hs].
    Qed.
    Lemma sim_bind {A B} (m : dprog A) p (g : A -> dprog B) q : sim m p -> (forall a, sim (g a) (q a)) -> sim (dbind m g) (dbind p q).
    Proof.
      intros Hm Hg s cg t Hs I. destruct (Hm s cg t Hs I) as (r & s1 & cg1 & t1 & o1 & E1 & E2 & I1 & L1). unfold dbind. rewrite E1, E2.
      destruct r as [a|e].
      - destruct (Hg a s1 cg1 t1 L1 I1) as (r & s2 & cg2 & t2 & o2 & E3 & E4 & I2 & L2). rewrite E3, E4.
        do 5 eexists. split; [reflexivity|]. split; [reflexivity|]. auto.
      - do 5 eexists. split; [reflexivity|]. split; [reflexivity|]. auto.
    Qed.
    Lemma sim_get {B} (g : settings -> dprog B) q : (forall s, g_lam_fun s = f -> sim (g s) (q s)) ->
      sim (dbind (plainly pget) g) (dbind (plainly pget) q).
    Proof.
      intros H s cg t Hs I. unfold dbind, plainly, pget. destruct (H s Hs s cg t Hs I) as (r & s2 & cg2 & t2 & o2 & E3 & E4 & I2 & L2).
      rewrite E3, E4. do 5 eexists. split; [reflexivity|]. split; [reflexivity|]. auto.
    Qed.

    Ltac steady1 := first
      [ match goal with
        | |- steady (Show_Eigs _ _ _ _ _ _) => apply steady_keeps, keeps_Show_Eigs
        | |- steady (Show_Rats _ _ _ _) => apply steady_keeps, keeps_Show_Rats
        | |- steady (Show_Amps _ _ _ _) => apply steady_keeps, keeps_Show_Amps
        end
      | apply steady_keeps; first [apply keeps_pret | apply keeps_praise | apply keeps_pget | apply keeps_print]
      | apply steady_bind; [|intros ?]
      | match goal with
        | |- steady (if ?b then _ else _) => destruct b
        | |- steady (match ?b with _ => _ end) => destruct b
        | |- steady (let _ := _ in _) => cbv zeta
        | |- steady (passign _) => intros ?; reflexivity
        end ].

    Lemma run_sim h a l n1 n2 v1 v2 fe fr L1 L2 :
      sim (ACM_ScaleOrAdaptC flt RP eigh inv_of junk (in_process home F) h a l n1 n2 v1 v2 fe fr L1 L2)
          (ACM_ScaleOrAdaptC flt RP eigh inv_of junk (without_tables home F) h a l n1 n2 v1 v2 fe fr L1 L2).
    Proof.
      unfold ACM_ScaleOrAdaptC. cbv zeta.
      do 5 (apply sim_bind; [apply sim_prog; repeat steady1|intros _]).
      apply sim_get. intros s Hs. rewrite Hs.
      do 2 (apply sim_bind; [apply sim_prog; repeat steady1|intros _]).
      apply sim_bind. { apply sim_code. apply wf_Dig. intros. apply wf_Xspace. }
      intros [[ev eb] Lv].
      apply sim_bind. { apply sim_prog. repeat first [apply steady_fit_eig|steady1]. }
      intros _. apply sim_bind.
      - destruct (_ || _); [|apply sim_prog; repeat steady1].
        apply sim_bind; [apply sim_code; apply wf_Amp; intros; apply wf_Xspace|].
        intros [m fs]. do 3 (apply sim_bind; [apply sim_prog; repeat first [apply steady_fit_rat|steady1]|intros _]).
        apply sim_prog. repeat steady1.
      - intros tr. apply sim_prog. repeat steady1.
    Qed.

    (** **** With the coefficients of the disk *)

    Variable d : text.
    Notation CG := (CG_at F home (fresh d)).
    Definition simp {A} (m : @dprog cg_state A) (p : prog A) : Prop := forall s cg,
      g_lam_fun s = f -> DataMemoFacts.agrees home F d cg ->
      exists r s' cg' o, m s cg = (r, s', cg', o) /\ p s = (r, s', o) /\ DataMemoFacts.agrees home F d cg' /\ g_lam_fun s' = f.

    Lemma simp_prog {A} (p : prog A) : steady p -> simp (plainly p) p.
    Proof.
      intros K s cg Hs I. unfold plainly. specialize (K s). destruct (p s) as [[r s'] o]. cbn [fst snd] in K.
      do 4 eexists. split; [reflexivity|]. split; [reflexivity|]. split; [exact I|congruence].
    Qed.
    Lemma simp_code {A} (c : code A) r : answer CG c = r -> simp (execute (without_tables home F) c) (praise r).
    Proof.
      intros E s cg Hs I. unfold execute, without_tables, praise. destruct (agrees_plain home _ c F d cg I) as [E' I'].
      destruct (run_plain home c F cg) as [r' cg']. cbn [fst snd] in *. do 4 eexists. split; [reflexivity|]. split; [now rewrite E', E|]. auto.
    Qed.
    Lemma simp_bind {A B} (m : dprog A) p (g : A -> dprog B) q : simp m p -> (forall a, simp (g a) (q a)) -> simp (dbind m g) (pbind p q).
    Proof.
      intros Hm Hg s cg Hs I. destruct (Hm s cg Hs I) as (r & s1 & cg1 & o1 & E1 & E2 & I1 & L1). unfold dbind, pbind. rewrite E1, E2.
      destruct r as [a|e].
      - destruct (Hg a s1 cg1 L1 I1) as (r & s2 & cg2 & o2 & E3 & E4 & I2 & L2). rewrite E3, E4.
        do 4 eexists. split; [reflexivity|]. split; [reflexivity|]. auto.
      - do 4 eexists. split; [reflexivity|]. split; [reflexivity|]. auto.
    Qed.
    Lemma simp_get {B} (g : settings -> dprog B) q : (forall s, g_lam_fun s = f -> simp (g s) (q s)) ->
      simp (dbind (plainly pget) g) (pbind pget q).
    Proof.
      intros H s cg Hs I. unfold dbind, pbind, plainly, pget. destruct (H s Hs s cg Hs I) as (r & s2 & cg2 & o2 & E3 & E4 & I2 & L2).
      rewrite E3, E4. do 4 eexists. split; [reflexivity|]. split; [reflexivity|]. auto.
    Qed.

    Lemma run_simp h a l n1 n2 v1 v2 fe fr L1 L2 :
      simp (ACM_ScaleOrAdaptC flt RP eigh inv_of junk (without_tables home F) h a l n1 n2 v1 v2 fe fr L1 L2)
           (ACM_ScaleOrAdapt flt (code_matrices RP CG) eigh inv_of junk h a l n1 n2 v1 v2 fe fr L1 L2).
    Proof.
      unfold ACM_ScaleOrAdaptC, ACM_ScaleOrAdapt. cbv zeta.
      do 5 (apply simp_bind; [apply simp_prog; repeat steady1|intros _]).
      apply simp_get. intros s Hs.
      do 2 (apply simp_bind; [apply simp_prog; repeat steady1|intros _]).
      assert (X : forall op L Lm, answer CG (RepXspaceC RP (g_lam_fun s) op a l n1 n2 v1 v2 L Lm) = code_matrices RP CG s op a l n1 n2 v1 v2 L Lm)
        by (intros; apply answer_Xspace).
      apply simp_bind.
      { apply simp_code. rewrite answer_Dig. f_equal. extensionality L. extensionality Lm. apply X. }
      intros [[ev eb] Lv].
      apply simp_bind. { apply simp_prog. repeat first [apply steady_fit_eig|steady1]. }
      intros _. apply simp_bind.
      - destruct (_ || _); [|apply simp_prog; repeat steady1].
        apply simp_bind; [apply simp_code; rewrite answer_Amp; f_equal; extensionality lo; extensionality hi; apply X|].
        intros [m fs]. do 3 (apply simp_bind; [apply simp_prog; repeat first [apply steady_fit_rat|steady1]|intros _]).
        apply simp_prog. repeat steady1.
      - intros tr. apply simp_prog. repeat steady1.
    Qed.
  End Run.

  (** *** What a run leaves in the tables *)

  Lemma dbind_ok {St A B} (m : @dprog St A) (g : A -> dprog B) s t b s' t' o : dbind m g s t = (Ok b, s', t', o) ->
    exists x s1 t1 o1 o2, m s t = (Ok x, s1, t1, o1) /\ g x s1 t1 = (Ok b, s', t', o2).
  Proof.
    unfold dbind. destruct (m s t) as [[[[x|e] s1] t1] o1]; [|discriminate]. destruct (g x s1 t1) as [[[r2 s2] t2] o2] eqn:E.
    intros H. injection H as -> -> -> _. eauto 10.
  Qed.
  Lemma plainly_ok {St A} (p : prog A) s (t : St) a s' t' o : plainly p s t = (Ok a, s', t', o) -> t' = t.
  Proof. unfold plainly. destruct (p s) as [[r s1] o1]. intros H. now injection H. Qed.

  Ltac skip H := apply dbind_ok in H; let x := fresh "x" in let s1 := fresh "s" in let t1 := fresh "t" in let E := fresh "E" in
    destruct H as (x & s1 & t1 & ? & ? & E & H); apply plainly_ok in E; subst t1.

  Lemma run_clears F h a l n1 n2 v1 v2 fe fr L1 L2 s cg t ev tr Lv s' cg' t' o :
    ACM_ScaleOrAdaptC flt RP eigh inv_of junk (in_process home F) h a l n1 n2 v1 v2 fe fr L1 L2 s (cg, t) = (Ok (ev, tr, Lv), s', (cg', t'), o) ->
    t' = [] \/ (t' = t /\ Lv = []).
  Proof.
    unfold ACM_ScaleOrAdaptC. cbv zeta. intros H. do 8 skip H.
    apply dbind_ok in H. destruct H as ([[ev1 eb] Lv1] & s9 & [cg9 t9] & ? & ? & ED & H).
    skip H. apply dbind_ok in H. destruct H as (tr1 & s10 & [cg10 t10] & ? & ? & ET & H).
    unfold plainly, pret in H. injection H as -> -> -> _ <- <- _.
    assert (D : t9 = [] \/ (t9 = t /\ Lv = [])).
    { unfold execute, in_process in ED. cbn [fst snd] in ED.
      match type of ED with context [run home ?c F cg t] => destruct (run home c F cg t) as [[r cgx] tx] eqn:EX end.
      injection ED as -> _ _ <- _. eapply clears_Dig; [|exact EX]. intros. eapply Xspace_clears. eassumption. }
    destruct (_ || _).
    - apply dbind_ok in ET. destruct ET as ([m fs] & s12 & [cg12 t12] & ? & ? & EA & ET). do 3 skip ET. unfold plainly, pret in ET. injection ET as _ _ _ <- _.
      unfold execute, in_process in EA. cbn [fst snd] in EA.
      match type of EA with context [run home ?c F ?g ?u] => destruct (run home c F g u) as [[r cgx] tx] eqn:EX end.
      injection EA as -> _ _ <- _. left. eapply clears_Amp; [|exact EX]. intros ? ? ? ? ? ? ? ? Q. cbv beta in Q. eapply Xspace_clears. exact Q.
    - unfold plainly, pret in ET. now injection ET as _ _ _ <- _.
  Qed.

  Definition tidy {A} (m : @dprog (cg_state * tables) A) : Prop := forall s cg t,
    no_full t -> no_full (snd (snd (fst (m s (cg, t))))).
  Lemma tidy_prog {A} (p : prog A) : tidy (plainly p).
  Proof. intros s cg t N. unfold plainly. destruct (p s) as [[r s'] o]. exact N. Qed.
  Lemma tidy_code {A} F (c : code A) : full_free c -> tidy (execute (in_process home F) c).
  Proof.
    intros W s cg t N. unfold execute, in_process. cbn [fst snd]. pose proof (ff_run home _ c W F cg t N) as Q.
    destruct (run home c F cg t) as [[r cg'] t']. exact Q.
  Qed.
  Lemma tidy_bind {A B} (m : dprog A) (g : A -> dprog B) : tidy m -> (forall a, tidy (g a)) -> tidy (dbind m g).
  Proof.
    intros Hm Hg s cg t N. unfold dbind. specialize (Hm s cg t N). destruct (m s (cg, t)) as [[[[a|e] s1] [cg1 t1]] o1]; cbn [fst snd] in *; [|exact Hm].
    specialize (Hg a s1 cg1 t1 Hm). destruct (g a s1 (cg1, t1)) as [[[r2 s2] t2] o2]. exact Hg.
  Qed.
  Lemma dbind_praise {St A B} (r : res A) (g : A -> @dprog St B) s t :
    dbind (plainly (praise r)) g s t = match r with Ok a => g a s t | Raise e => (Raise e, s, t, []) end.
  Proof. unfold dbind, plainly, praise. destruct r; [|reflexivity]. destruct (g a s t) as [[[r2 s2] t2] o2]. reflexivity. Qed.

  Lemma dbind_get {St B} (g : settings -> @dprog St B) s t : dbind (plainly pget) g s t = g s s t.
  Proof. unfold dbind, plainly, pget. destruct (g s s t) as [[[r2 s2] t2] o2]. reflexivity. Qed.

  Lemma run_tidy F h a l n1 n2 v1 v2 fe fr L1 L2 s cg t : no_momentum h -> no_momentum (g_rat_TRop s) -> no_full t ->
    no_full (snd (snd (fst (ACM_ScaleOrAdaptC flt RP eigh inv_of junk (in_process home F) h a l n1 n2 v1 v2 fe fr L1 L2 s (cg, t))))).
  Proof.
    intros Hh Ht N. unfold ACM_ScaleOrAdaptC. cbv zeta.
    do 5 (rewrite dbind_praise; match goal with |- context [match ?r with Ok _ => _ | Raise _ => _ end] => destruct r end; [|exact N]).
    rewrite dbind_get. revert s cg t Ht N. intros s cg t Ht N.
    match goal with |- no_full (snd (snd (fst (?m s (cg, t))))) => assert (T : tidy m); [|exact (T s cg t N)] end.
    do 2 (apply tidy_bind; [apply tidy_prog|intros _]).
    apply tidy_bind. { apply tidy_code, ff_Dig. intros. now apply ff_Xspace. }
    intros [[ev eb] Lv]. apply tidy_bind; [apply tidy_prog|]. intros _. apply tidy_bind; [|intros; apply tidy_prog].
    destruct (_ || _); [|apply tidy_prog]. apply tidy_bind. { apply tidy_code, ff_Amp. intros. now apply ff_Xspace. }
    intros [m fs]. do 3 (apply tidy_bind; [apply tidy_prog|intros _]). apply tidy_prog.
  Qed.

  (** *** One event *)

  Notation pstep := (process_step flt RP eigh inv_of junk home).
  Notation tstep := (tableless_step flt RP eigh inv_of junk home).
  Notation nstep := (newly flt RP eigh inv_of junk home).
  Notation proc_session := (process flt RP eigh inv_of junk home).
  Notation plain_session := (tableless flt RP eigh inv_of junk home).

  Lemma ff_code f c : (match c with
                       | CFull _ _ => False
                       | CWord w _ => forall o, In o w -> momentum o = false
                       | CXspace op _ _ _ _ _ _ _ _ => no_momentum op
                       | _ => True end) -> full_free (code_of RP f c).
  Proof.
    destruct c; cbn [code_of]; intros H; [apply ff_Y_rem|apply ff_Prod|apply ff_Prod_rem|contradiction|now apply ff_word|now apply ff_Xspace].
  Qed.

  Lemma step_sim h s F cg t : good (g_lam_fun s) cg t ->
    exists o s' F' cg' t', pstep h (s, F, (cg, t)) = (o, (s', F', (cg', t'))) /\ tstep h (s, F, cg) = (o, (s', F', cg')) /\
      good (g_lam_fun s) cg' t' /\ (g_lam_fun s' = g_lam_fun s \/ t' = t) /\
      forall clean : Prop, (clean -> no_full t) -> clean_after h s o clean -> no_full t'.
  Proof.
    intros I. unfold process_step, tableless_step. destruct h as [e|c|v1 a1 L1 v2 a2 L2 v3 a3 L3|d|F'].
    - destruct e as [c|fe fr op a l n1 n2 v1 v2 L1 L2|ev Lv n lo hi|M l n|M l n]; unfold stepC.
      2: { destruct (run_sim F (g_lam_fun s) op a l n1 n2 v1 v2 fe fr L1 L2 s cg t eq_refl I)
             as (r & s' & cg' & t' & o & E1 & E2 & I' & Ls). rewrite E1, E2.
           assert (T : no_momentum op -> no_momentum (g_rat_TRop s) -> no_full t -> no_full t').
           { intros H1 H2 N. pose proof (run_tidy F op a l n1 n2 v1 v2 fe fr L1 L2 s cg t H1 H2 N) as Q. rewrite E1 in Q. exact Q. }
           assert (C : forall x, r = Ok x -> t' = [] \/ (t' = t /\ snd x = [])).
           { intros [[ev tr] Lv] ->. eapply run_clears. exact E1. }
           destruct r as [[[ev tr] Lv]|e]; cbn [seen]; do 5 eexists; (split; [reflexivity|split; [reflexivity|split; [exact I'|split; [now left|]]]]);
             intros clean HC; cbn [clean_after returned]; intros [(H0 & H1 & H2)|H]; auto; try contradiction.
           destruct (C _ eq_refl) as [-> | [-> H']]; [intros ? ?; reflexivity|]. cbn [snd] in H'. subst Lv. auto. }
      all: match goal with |- context [Examples.step ?a ?b ?c ?d ?e ?f ?s0] => destruct (Examples.step a b c d e f s0) as [ob s'] end;
        do 5 eexists; (split; [reflexivity|split; [reflexivity|split; [exact I|split; [now right|]]]]); intros clean HC; cbn [clean_after]; exact HC.
    - unfold stepC, in_process, without_tables. cbn [fst snd].
      destruct (run_ok home (body_of RP (g_lam_fun s)) _ (code_of RP (g_lam_fun s) c) (wf_code RP _ c) F cg t I) as (t' & E & I').
      pose proof (ff_run home _ (code_of RP (g_lam_fun s) c)) as FF.
      assert (X : forall M, fst (run_plain home (code_of RP (g_lam_fun s) c) F cg) = Ok M -> match c with CXspace _ _ _ _ _ _ _ _ _ => t' = [] | _ => True end).
      { intros M EM. destruct c; try exact Logic.I. destruct (run_plain home _ F cg) as [r cg'] eqn:EP. cbn [fst] in EM. subst r.
        eapply Xspace_clears. exact E. }
      rewrite E. rewrite E in FF || idtac.
      destruct (run_plain home (code_of RP (g_lam_fun s) c) F cg) as [r cg'] eqn:EP. cbn [fst snd] in *.
      do 5 eexists. split; [reflexivity|split; [reflexivity|split; [exact I'|split; [now left|]]]].
      intros clean HC HA.
      assert (K : full_free (code_of RP (g_lam_fun s) c) -> no_full t -> no_full t').
      { intros Hf N. specialize (FF Hf F cg t N). rewrite E in FF. exact FF. }
      destruct c; cbn [clean_after] in HA; try contradiction.
      1-3: apply K; [apply ff_code; exact Logic.I|auto].
      + destruct HA as [H0 H1]. apply K; [apply ff_code; exact H1|auto].
      + destruct HA as [[H0 H1]|[M HM]]; [apply K; [apply ff_code; exact H1|auto]|].
        injection HM as ->. rewrite (X M eq_refl). intros ? ?; reflexivity.
    - unfold stepC, in_process, without_tables. cbn [fst snd].
      assert (W : wf (body_of RP (g_lam_fun s)) (CGC v1 a1 L1 v2 a2 L2 v3 a3 L3)) by (unfold CGC; cbn; auto).
      destruct (run_ok home (body_of RP (g_lam_fun s)) _ _ W F cg t I) as (t' & E & I').
      assert (FF : full_free (CGC v1 a1 L1 v2 a2 L2 v3 a3 L3)) by (unfold CGC; cbn; auto).
      pose proof (ff_run home _ _ FF F cg t) as N. rewrite E in *.
      destruct (run_plain home _ F cg) as [r cg']. cbn [fst snd] in *.
      do 5 eexists. split; [reflexivity|split; [reflexivity|split; [exact I'|split; [now left|]]]]. intros clean HC HA. cbn [clean_after] in HA. auto.
    - do 5 eexists. split; [reflexivity|split; [reflexivity|split; [|split; [now left|]]]].
      + cbn [fst snd]. eapply inv_grow; [|exact I]. apply cgle_dir.
      + intros clean HC HA. cbn [clean_after fst snd] in *. auto.
    - do 5 eexists. split; [reflexivity|split; [reflexivity|split; [exact I|split; [now left|]]]]. intros clean HC HA. cbn [clean_after] in HA. auto.
  Qed.

  Definition settings_of {X Y} (w : settings * X * Y) : settings := fst (fst w).

  Lemma session_sim hs : forall s F cg t (clean : Prop), good (g_lam_fun s) cg t -> (clean -> no_full t) ->
    disciplined pstep settings_of hs (s, F, (cg, t)) clean ->
    fst (proc_session hs (s, F, (cg, t))) = fst (plain_session hs (s, F, cg)) /\
    settings_of (snd (proc_session hs (s, F, (cg, t)))) = settings_of (snd (plain_session hs (s, F, cg))).
  Proof.
    induction hs as [|h hs IH]; intros s F cg t clean I HC D; [split; reflexivity|].
    destruct (step_sim h s F cg t I) as (o & s' & F' & cg' & t' & E1 & E2 & I' & Lt & Hc).
    cbn [disciplined] in D. rewrite E1 in D. cbn [settings_of fst] in D. destruct D as [DL D].
    unfold process, tableless in *. cbn [sessionC]. unfold process_step, tableless_step in E1, E2. rewrite E1, E2.
    assert (I2 : good (g_lam_fun s') cg' t').
    { destruct DL as [H0 | ->]; [|exact I']. destruct Lt as [-> | ->]; [exact I'|]. eapply inv_lambda; [exact (HC H0)|exact I']. }
    specialize (IH s' F' cg' t' (clean_after h s o clean) I2 (Hc clean HC) D).
    destruct (sessionC _ _ _ _ _ _ _ hs (s', F', (cg', t'))) as [os w2]. destruct (sessionC _ _ _ _ _ _ _ hs (s', F', cg')) as [os' w2'].
    cbn [fst snd] in *. destruct IH as [-> H2]. now split.
  Qed.

  (** *** What a run does to the settings *)

  Section Settings.
    Context {St : Type}.
    Definition drescales {A} (m : @dprog St A) : Prop := forall s t, rescaled s (snd (fst (fst (m s t)))).
    Lemma drescales_prog {A} (p : prog A) : rescales p -> drescales (plainly p).
    Proof. intros H s t. unfold plainly. specialize (H s). now destruct (p s) as [[r s'] o]. Qed.
    Lemma drescales_code {A} exec (c : code A) : drescales (execute exec c).
    Proof. intros s t. unfold execute. destruct (exec A c t). apply rescaled_refl. Qed.
    Lemma drescales_bind {A B} (m : dprog A) (g : A -> dprog B) : drescales m -> (forall a, drescales (g a)) -> drescales (dbind m g).
    Proof.
      intros H1 H2 s t. unfold dbind. specialize (H1 s t). destruct (m s t) as [[[[a|e] s1] t1] o1]; [|exact H1]. cbn [fst snd] in H1.
      specialize (H2 a s1 t1). destruct (g a s1 t1) as [[[r2 s2] t2] o2]. cbn [fst snd] in *. eapply rescaled_trans; eassumption.
    Qed.
    Lemma run_rescales exec h a l n1 n2 v1 v2 fe fr L1 L2 :
      drescales (ACM_ScaleOrAdaptC flt RP eigh inv_of junk exec h a l n1 n2 v1 v2 fe fr L1 L2).
    Proof.
      unfold ACM_ScaleOrAdaptC. cbv zeta.
      do 5 (apply drescales_bind; [apply drescales_prog, rescales_keeps, keeps_praise|intros _]).
      apply drescales_bind; [apply drescales_prog, rescales_keeps, keeps_pget|intros s].
      do 2 (apply drescales_bind; [apply drescales_prog, rescales_keeps; destruct (_ && _); keep|intros _]).
      apply drescales_bind; [apply drescales_code|intros [[ev ebs] Lv]].
      apply drescales_bind.
      { apply drescales_prog. destruct (0 <? g_eig_num s); [|apply rescales_keeps, keeps_pret].
        apply rescales_bind; [destruct (0 <? fe); [apply rescales_fit_eig|apply rescales_keeps, keeps_pret]|intros _].
        apply rescales_bind; [apply rescales_keeps, keeps_Show_Eigs|intros; apply rescales_keeps, keeps_pret]. }
      intros _. apply drescales_bind; [|intros; apply drescales_prog, rescales_keeps, keeps_pret].
      destruct (_ || _); [|apply drescales_prog, rescales_keeps, keeps_pret]. apply drescales_bind; [apply drescales_code|intros [m fs]].
      apply drescales_bind; [apply drescales_prog; destruct (0 <? fr); [apply rescales_fit_rat|apply rescales_keeps, keeps_pret]|intros _].
      apply drescales_bind; [apply drescales_prog, rescales_keeps, keeps_Show_Rats|intros _].
      apply drescales_bind; [apply drescales_prog, rescales_keeps, keeps_Show_Amps|intros _]. apply drescales_prog, rescales_keeps, keeps_pret.
    Qed.
  End Settings.

  (** The operator of the transitions is changed by ACM_set_transition and
      ACM_set_defaults only. *)
  Lemma transition_keeps c s : without_momentum (Do (Call c)) -> no_momentum (g_rat_TRop s) -> no_momentum (g_rat_TRop (snd (perform flt c s))).
  Proof.
    intros HC HP. set (P := fun s => no_momentum (g_rat_TRop s)). change (P (snd (perform flt c s))). change (P s) in HP. revert s HP.
    assert (Q : no_momentum quad_op).
    { intros c0 w o [E|[]] IO. injection E as <- <-. destruct IO as [<-|[<-|[]]]; reflexivity. }
    assert (AR : forall l, SettingsFacts.keeps P (ACM_add_rat_lst l)).
    { induction l as [|e l IH]; cbn [ACM_add_rat_lst]; [repeat keeps_step; assumption|].
      apply SettingsFacts.keeps_bind; [|intros _; exact IH]. repeat keeps_step; assumption. }
    assert (AA : forall l, SettingsFacts.keeps P (ACM_add_amp_lst l)).
    { induction l as [|e l IH]; cbn [ACM_add_amp_lst]; [repeat keeps_step; assumption|].
      apply SettingsFacts.keeps_bind; [|intros _; exact IH]. repeat keeps_step; assumption. }
    destruct c; intros s HP; cbn [Settings.perform Settings.outcome snd]; revert s HP;
      match goal with |- forall s, P s -> P (snd (?m s)) => change (SettingsFacts.keeps P m) end;
      unfold ACM_set_defaults, ACM_set_scales, ACM_show_scales, ACM_set_sft_fun, ACM_set_output, ACM_set_listln,
        ACM_set_datum, ACM_set_eig_fit, ACM_set_rat_fit, ACM_set_rat_lst, ACM_show_rat_lst, ACM_show_amp_lst,
        ACM_set_amp_lst, ACM_set_transition, ACM_set_rat_form, ACM_set_amp_form, ACM_set_lambda_fun,
        ACM_set_basis_type, ACM_set_lambda_fun;
      repeat first [apply AR | apply AA | keeps_step]; try assumption; try exact Q.
    destruct op as [op|]; [exact HC|exact Q].
  Qed.

  Lemma seen_settings {A} (f : A -> option (list (list R) * option block_array * list Z)) p : snd (seen f p) = snd (fst p).
  Proof. destruct p as [[[a|e] s] o]; reflexivity. Qed.

  Lemma step_settings {St} exec (use : text -> St -> St) h s F st :
    let s' := settings_of (snd (stepC flt RP eigh inv_of junk exec use h (s, F, st))) in
    (selects h = false -> g_lam_fun s' = g_lam_fun s) /\
    (without_momentum h -> no_momentum (g_rat_TRop s) -> no_momentum (g_rat_TRop s')).
  Proof.
    cbv zeta. destruct h as [e|c|v1 a1 L1 v2 a2 L2 v3 a3 L3|d|F'];
      [|unfold stepC; destruct (exec _ _ _ _); split; auto|unfold stepC; destruct (exec _ _ _ _); split; auto|split; auto|split; auto].
    destruct e as [c|fe fr op a l n1 n2 v1 v2 L1 L2|ev Lv n lo hi|M l n|M l n]; unfold stepC.
    - cbn [Examples.step]. destruct (perform flt c s) as [x s'] eqn:E. cbn [snd settings_of fst]. split; intros H.
      + cbn [selects] in H. apply (lambda_keeps flt c s) in H. rewrite E in H. exact H.
      + intros N. pose proof (transition_keeps c s H N) as Q. rewrite E in Q. exact Q.
    - pose proof (run_rescales (exec F) op a l n1 n2 v1 v2 fe fr L1 L2 s st) as R.
      destruct (ACM_ScaleOrAdaptC _ _ _ _ _ _ _ _ _ _ _ _ _ _ _ _ _ s st) as [[[r s'] st'] o]. cbn [fst snd] in R.
      pose proof (seen_settings Some (r, s', o)) as S. destruct (seen Some (r, s', o)) as [ob s'']. cbn [fst snd settings_of] in *. subst s''.
      destruct R as (x & y & z & ->). split; auto.
    - cbn [Examples.step]. pose proof (seen_settings (fun _ : option R => None) (Show_Eigs flt ev Lv n lo hi s)) as S. rewrite keeps_Show_Eigs in S.
      destruct (seen _ _) as [ob s'']. cbn [fst snd settings_of] in *. subst. auto.
    - cbn [Examples.step]. pose proof (seen_settings (fun _ : unit => None) (Show_Rats flt M l n s)) as S. rewrite keeps_Show_Rats in S.
      destruct (seen _ _) as [ob s'']. cbn [fst snd settings_of] in *. subst. auto.
    - cbn [Examples.step]. pose proof (seen_settings (fun _ : unit => None) (Show_Amps flt M l n s)) as S. rewrite keeps_Show_Amps in S.
      destruct (seen _ _) as [ob s'']. cbn [fst snd settings_of] in *. subst. auto.
  Qed.

  Lemma good_new f : good f cg_init [].
  Proof. intros key M E. discriminate E. Qed.

  Notation new_p := new_process.
  Notation new_t := new_tableless.

  (** A process in which the lambda function is changed only when it is certain
      that no momentum matrix is remembered shows what a process without memo
      tables shows, whatever happens to the directory and the files. *)
  Theorem C81_session : forall hs F,
    disciplined pstep settings_of hs (new_p F) True ->
    fst (proc_session hs (new_p F)) = fst (plain_session hs (new_t F)) /\
    settings_of (snd (proc_session hs (new_p F))) = settings_of (snd (plain_session hs (new_t F))).
  Proof. intros hs F D. apply (session_sim hs imported F cg_init [] True); [apply good_new|intros _ ? ?; reflexivity|exact D]. Qed.

  (** So with one lambda function. *)
  Theorem C81_one_basis : forall hs F, (forall h, In h hs -> selects h = false) ->
    fst (proc_session hs (new_p F)) = fst (plain_session hs (new_t F)).
  Proof.
    intros hs F H. apply C81_session. generalize (new_p F), True. revert H. induction hs as [|h hs IH]; intros H w P; cbn [disciplined]; [exact I|].
    destruct w as [[s F0] st]. pose proof (proj1 (step_settings (in_process home) process_directory h s F0 st) (H h (or_introl eq_refl))) as L. unfold process_step.
    destruct (stepC _ _ _ _ _ _ _ h (s, F0, st)) as [o w1]. split; [right; exact L|]. apply IH. intros; apply H; now right.
  Qed.

  (** So without momentum operators, whatever the lambda functions. *)
  Theorem C81_no_momentum : forall hs F, (forall h, In h hs -> without_momentum h) ->
    fst (proc_session hs (new_p F)) = fst (plain_session hs (new_t F)).
  Proof.
    intros hs F H. apply C81_session.
    assert (N : no_momentum (g_rat_TRop (settings_of (new_p F)))).
    { intros c0 w o [E|[]] IO. injection E as <- <-. destruct IO as [<-|[<-|[]]]; reflexivity. }
    enough (G : forall w (P : Prop), P -> no_momentum (g_rat_TRop (settings_of w)) -> disciplined pstep settings_of hs w P) by (now apply G).
    clear N. revert H. induction hs as [|h hs IH]; intros H w P HP N; cbn [disciplined]; [exact I|].
    destruct w as [[s F0] st]. pose proof (proj2 (step_settings (in_process home) process_directory h s F0 st) (H h (or_introl eq_refl)) N) as L. unfold process_step.
    destruct (stepC _ _ _ _ _ _ _ h (s, F0, st)) as [o w1]. split; [now left|]. apply IH; [intros; apply H; now right| |exact L].
    specialize (H h (or_introl eq_refl)). destruct h as [[]|[]| | |]; cbn [clean_after without_momentum settings_of fst] in *; auto; contradiction.
  Qed.

  (** So when every run and every request for an operator's matrix returns. *)
  Definition returns (h : happening) (o : view) : Prop :=
    match h with
    | Do (Fit _ _ _ _ _ _ _ _ _ _ _) => exists ob x, o = Saw ob /\ returned ob = Some x
    | AskMatrix (CXspace _ _ _ _ _ _ _ _ _) => exists M, o = GotMatrix (Ok M)
    | AskMatrix (CFull _ _) | AskMatrix (CWord _ _) => False
    | _ => True
    end.

  Theorem C81_no_exception : forall hs F, Forall2 returns hs (fst (proc_session hs (new_p F))) ->
    fst (proc_session hs (new_p F)) = fst (plain_session hs (new_t F)).
  Proof.
    intros hs F H. apply C81_session.
    enough (G : forall w (P : Prop), P -> Forall2 returns hs (fst (proc_session hs w)) -> disciplined pstep settings_of hs w P) by (now apply G).
    clear H.
    induction hs as [|h hs IH]; intros w P HP H; cbn [disciplined]; [exact I|].
    unfold process, process_step in *. cbn [sessionC] in H. destruct (stepC _ _ _ _ _ _ _ h w) as [o w1].
    specialize (IH w1 (clean_after h (settings_of w) o P)). destruct (sessionC _ _ _ _ _ _ _ hs w1) as [os w2]. cbn [fst] in *.
    inversion H as [|? ? ? ? H1 H2]; subst. split; [now left|]. apply IH; [|exact H2].
    destruct h as [[]|[]| | |]; cbn [clean_after returns] in *; auto; try contradiction.
    - right. destruct H1 as (ob & [[ev tr] [|x Lv]] & -> & ->); auto.
  Qed.

  (** *** With files that only appear *)

  Notation nsession := (all_newly flt RP eigh inv_of junk home).
  Notation agree := (DataMemoFacts.agrees home).

  Lemma agree_virgin F d cg : get_base_directory home cg = d -> (forall key, found cg key = None) -> agree F d cg.
  Proof. intros E V. split; [exact E|]. intros key t H. rewrite V in H. discriminate. Qed.

  Lemma step_newly h s F d cg : agree F d cg ->
    exists o s' F' cg' d', tstep h (s, F, cg) = (o, (s', F', cg')) /\ nstep h (s, F, d) = (o, (s', F', d')) /\
      match h with
      | UseDirectory d0 => cg' = set_base_directory d0 cg /\ d' = d0 /\ F' = F
      | FilesBecome F0 => cg' = cg /\ d' = d /\ F' = F0
      | _ => agree F d cg' /\ d' = d /\ F' = F /\ (computes h = false -> cg' = cg)
      end.
  Proof.
    intros AG. unfold tableless_step. destruct h as [e|c|v1 a1 L1 v2 a2 L2 v3 a3 L3|d0|F0].
    - destruct e as [c|fe fr op a l n1 n2 v1 v2 L1 L2|ev Lv n lo hi|M l n|M l n]; unfold stepC, newly.
      2: { destruct (run_simp F (g_lam_fun s) d op a l n1 n2 v1 v2 fe fr L1 L2 s cg eq_refl AG) as (r & s' & cg' & o & E1 & E2 & AG' & _).
           cbn [Examples.step]. rewrite E1, E2. destruct (seen Some (r, s', o)) as [ob s'']. do 5 eexists. split; [reflexivity|]. split; [reflexivity|].
           split; [exact AG'|]. split; [reflexivity|]. split; [reflexivity|]. discriminate. }
      all: cbn [Examples.step];
        match goal with |- context [let '(_, _) := ?x in _] => destruct x as [ob s'] end; try (destruct ob as [x|]);
        do 5 eexists; split; [reflexivity|]; split; [reflexivity|]; auto.
    - unfold stepC, newly, without_tables. destruct (agrees_plain home _ (code_of RP (g_lam_fun s) c) F d cg AG) as [E AG'].
      rewrite answer_code in E. destruct (run_plain home (code_of RP (g_lam_fun s) c) F cg) as [r cg']. cbn [fst snd] in *. subst r.
      do 5 eexists. split; [reflexivity|]. split; [reflexivity|]. split; [exact AG'|]. split; [reflexivity|]. split; [reflexivity|]. discriminate.
    - unfold stepC, newly, without_tables. destruct (agrees_plain home _ (CGC v1 a1 L1 v2 a2 L2 v3 a3 L3) F d cg AG) as [E AG'].
      destruct (run_plain home (CGC v1 a1 L1 v2 a2 L2 v3 a3 L3) F cg) as [r cg']. cbn [fst snd] in *. subst r.
      do 5 eexists. split; [reflexivity|]. split. { unfold CGC. cbn [answer]. destruct (CG_at F home (fresh d) v1 a1 L1 v2 a2 L2 v3 a3 L3); reflexivity. }
      split; [exact AG'|]. split; [reflexivity|]. split; [reflexivity|]. discriminate.
    - do 5 eexists. split; [reflexivity|]. split; [reflexivity|]. auto.
    - do 5 eexists. split; [reflexivity|]. split; [reflexivity|]. auto.
  Qed.

  Lemma session_newly hs : forall computed s F d cg, agree F d cg -> (computed = false -> forall key, found cg key = None) ->
    files_appear computed F hs ->
    fst (plain_session hs (s, F, cg)) = fst (nsession hs (s, F, d)) /\
    settings_of (snd (plain_session hs (s, F, cg))) = settings_of (snd (nsession hs (s, F, d))).
  Proof.
    unfold tableless. induction hs as [|h hs IH]; intros computed s F d cg AG V A; [split; reflexivity|].
    destruct (step_newly h s F d cg AG) as (o & s' & F' & cg' & d' & E1 & E2 & H). unfold tableless_step in E1. cbn [sessionC all_newly]. rewrite E1, E2.
    enough (G : exists c', agree F' d' cg' /\ (c' = false -> forall key, found cg' key = None) /\ files_appear c' F' hs).
    { destruct G as (c' & AG' & V' & A'). specialize (IH c' s' F' d' cg' AG' V' A').
      destruct (sessionC _ _ _ _ _ _ _ hs (s', F', cg')) as [os w2]. destruct (all_newly _ _ _ _ _ _ hs (s', F', d')) as [os' w2']. cbn [fst snd] in *.
      destruct IH as [-> H2]. now split. }
    assert (X : (match h with UseDirectory _ | FilesBecome _ => False | _ => True end) -> files_appear (computed || computes h) F hs ->
                agree F d cg' /\ d' = d /\ F' = F /\ (computes h = false -> cg' = cg) ->
                exists c', agree F' d' cg' /\ (c' = false -> forall key, found cg' key = None) /\ files_appear c' F' hs).
    { intros _ A' (AG' & -> & -> & K). exists (computed || computes h). split; [exact AG'|]. split; [|exact A'].
      intros O. apply Bool.orb_false_iff in O. destruct O as [O1 O2]. rewrite (K O2). auto. }
    destruct h as [e|c|v1 a1 L1 v2 a2 L2 v3 a3 L3|d0|F0]; try (apply X; [exact Logic.I|exact A|exact H]); cbn [files_appear] in A; clear X.
    - destruct H as (-> & -> & ->). destruct A as [-> A]. specialize (V eq_refl). exists false. split; [|split; [|exact A]].
      + apply agree_virgin; [destruct cg; reflexivity|]. intros key. exact (V key).
      + intros _ key. exact (V key).
    - destruct H as (-> & -> & ->). destruct A as [A0 A]. exists computed. split; [|split; [exact V|exact A]].
      destruct A0 as [-> |A0]; [apply agree_virgin; [exact (proj1 AG)|auto]|eapply agrees_grows; [exact A0|exact AG]].
  Qed.

  (** If moreover, once something has been computed, the directory stays and
      files only appear, then every answer is the one a new process with these
      settings, this directory and these files would give. *)
  Theorem C81_files : forall hs F,
    disciplined pstep settings_of hs (new_p F) True -> files_appear false F hs ->
    fst (proc_session hs (new_p F)) = fst (nsession hs (imported, F, home)) /\
    settings_of (snd (proc_session hs (new_p F))) = settings_of (snd (nsession hs (imported, F, home))).
  Proof.
    intros hs F D A. destruct (C81_session hs F D) as [-> ->]. apply (session_newly hs false imported F home cg_init).
    - apply agree_virgin; reflexivity.
    - reflexivity.
    - exact A.
  Qed.

  (** *** A run repeated *)

  (** The settings differ in the scale factor of the eigenvalues at most if [E]
      and in those of the rates and amplitudes at most if [Q]. *)
  Definition related (E Q : bool) (s1 s2 : settings) : Prop :=
    exists a b c, s2 = w_amp_sft a (w_rat_sft b (w_eig_sft c s1)) /\
      (E = false -> c = g_eig_sft s1) /\ (Q = false -> a = g_amp_sft s1 /\ b = g_rat_sft s1).
  Lemma related_refl E Q s : related E Q s s.
  Proof. exists (g_amp_sft s), (g_rat_sft s), (g_eig_sft s). split; [now destruct s|auto]. Qed.
  Lemma related_eq s1 s2 : related false false s1 s2 -> s2 = s1.
  Proof. intros (a & b & c & -> & HE & HQ). rewrite (HE eq_refl). destruct (HQ eq_refl) as [-> ->]. now destruct s1. Qed.
  Lemma related_trans E Q s1 s2 s3 : related E Q s1 s2 -> related E Q s2 s3 -> related E Q s1 s3.
  Proof.
    intros (a & b & c & -> & HE & HQ) (a' & b' & c' & -> & HE' & HQ'). exists a', b', c'. split; [now destruct s1|]. split.
    - intros H. rewrite (HE' H). exact (HE H).
    - intros H. destruct (HQ' H) as [-> ->]. exact (HQ H).
  Qed.

  Lemma related_eig Q x s : related true Q s (w_eig_sft x s).
  Proof. exists (g_amp_sft s), (g_rat_sft s), x. split; [now destruct s|]. split; [discriminate|auto]. Qed.
  Lemma related_rat E x s : related E true s (w_rat_sft x s).
  Proof. exists (g_amp_sft s), x, (g_eig_sft s). split; [now destruct s|]. split; [auto|discriminate]. Qed.
  Lemma related_amp E x s : related E true s (w_amp_sft x s).
  Proof. exists x, (g_rat_sft s), (g_eig_sft s). split; [now destruct s|]. split; [auto|discriminate]. Qed.

  Definition moves {A} (E Q : bool) (m : prog A) : Prop := forall s, related E Q s (snd (fst (m s))).
  Lemma moves_keeps {A} E Q (m : prog A) : DisplayFacts.keeps m -> moves E Q m.
  Proof. intros K s. rewrite K. apply related_refl. Qed.
  Lemma moves_bind {A B} E Q (m : prog A) (g : A -> prog B) : moves E Q m -> (forall a, moves E Q (g a)) -> moves E Q (pbind m g).
  Proof.
    intros H1 H2 s. unfold pbind. specialize (H1 s). destruct (m s) as [[[a|e] s1] o1]; [|exact H1]. cbn [fst snd] in H1.
    specialize (H2 a s1). destruct (g a s1) as [[r2 s2] o2]. cbn [fst snd] in *. eapply related_trans; eassumption.
  Qed.
  Lemma moves_get {B} E Q (g : settings -> prog B) s : related E Q s (snd (fst (g s s))) -> related E Q s (snd (fst (pbind pget g s))).
  Proof. unfold pbind, pget. now destruct (g s s) as [[r2 s2] o2]. Qed.
  Lemma pbind_praise {A B} (r : res A) (g : A -> prog B) s :
    pbind (praise r) g s = match r with Ok a => g a s | Raise e => (Raise e, s, []) end.
  Proof. unfold pbind, praise. destruct r; [|reflexivity]. destruct (g a s) as [[r2 s2] o2]. reflexivity. Qed.
  Lemma pbind_get {B} (g : settings -> prog B) s : pbind pget g s = g s s.
  Proof. unfold pbind, pget. destruct (g s s) as [[r2 s2] o2]. reflexivity. Qed.
  Lemma pbind_assign {B} f (g : unit -> prog B) s : pbind (passign f) g s = g tt (f s).
  Proof. unfold pbind, passign. destruct (g tt (f s)) as [[r2 s2] o2]. reflexivity. Qed.
  Lemma pbind_print {B} t (g : unit -> prog B) s : pbind (print t) g s = let '(r, s', o) := g tt s in (r, s', t :: o).
  Proof. reflexivity. Qed.
  Lemma pbind_ret {A B} (x : A) (g : A -> prog B) s : pbind (pret x) g s = g x s.
  Proof. unfold pbind, pret. destruct (g x s) as [[r2 s2] o2]. reflexivity. Qed.

  Lemma moves_fit_eig Q ev Lv : moves true Q (fit_eigenvalues ev Lv).
  Proof.
    unfold fit_eigenvalues. apply moves_bind; [apply moves_keeps, keeps_pget|intros s].
    do 4 (apply moves_bind; [apply moves_keeps, keeps_praise|intros ?]).
    apply moves_bind; [|intros; destruct (Req_EM_T _ _); apply moves_keeps; [apply keeps_praise|apply keeps_pret]].
    intros s0. apply related_eig.
  Qed.
  Lemma moves_fit_rat E tr Lv : moves E true (fit_rates tr Lv).
  Proof.
    unfold fit_rates. apply moves_bind; [apply moves_keeps, keeps_pget|intros s].
    do 5 (apply moves_bind; [apply moves_keeps, keeps_praise|intros ?]).
    apply moves_bind; [intros s0; apply related_rat|intros _].
    destruct (Req_EM_T _ _); [apply moves_keeps, keeps_praise|].
    apply moves_bind; [apply moves_keeps, keeps_praise|intros am].
    intros s0. apply related_amp.
  Qed.

  (** From related settings: the same result and output, and related settings
      afterwards if a result is returned. *)
  Definition alike {A} (P P' : settings -> settings -> Prop) (m1 m2 : prog A) : Prop := forall s1 s2, P s1 s2 ->
    exists r s1' s2' o, m1 s1 = (r, s1', o) /\ m2 s2 = (r, s2', o) /\ forall x, r = Ok x -> P' s1' s2'.
  Lemma alike_bind {A B} P P1 P2 (m1 m2 : prog A) (g1 g2 : A -> prog B) :
    alike P P1 m1 m2 -> (forall x, alike P1 P2 (g1 x) (g2 x)) -> alike P P2 (pbind m1 g1) (pbind m2 g2).
  Proof.
    intros H1 H2 s1 s2 HP. destruct (H1 s1 s2 HP) as (r & s1' & s2' & o & E1 & E2 & H'). unfold pbind. rewrite E1, E2. destruct r as [x|e].
    - destruct (H2 x s1' s2' (H' x eq_refl)) as (r & s1'' & s2'' & o' & E3 & E4 & H''). rewrite E3, E4. do 4 eexists. split; [reflexivity|]. split; [reflexivity|]. exact H''.
    - do 4 eexists. split; [reflexivity|]. split; [reflexivity|]. discriminate.
  Qed.
  Lemma alike_praise {A} P (r : res A) : alike P P (praise r) (praise r).
  Proof. intros s1 s2 H. do 4 eexists. split; [reflexivity|]. split; [reflexivity|]. auto. Qed.
  Lemma alike_same {A} (m : prog A) : alike eq eq m m.
  Proof. intros s1 s2 <-. destruct (m s1) as [[r s'] o] eqn:E. do 4 eexists. split; [reflexivity|]. split; [reflexivity|]. auto. Qed.

  Lemma alike_fit_eig Q ev Lv : alike (related true Q) (related false Q) (fit_eigenvalues ev Lv) (fit_eigenvalues ev Lv).
  Proof.
    intros s1 s2 (a & b & c & -> & _ & HQ). unfold fit_eigenvalues. rewrite !pbind_get; cbv beta zeta.
    change (g_eig_rel (w_amp_sft a (w_rat_sft b (w_eig_sft c s1)))) with (g_eig_rel s1).
    change (g_eig_L (w_amp_sft a (w_rat_sft b (w_eig_sft c s1)))) with (g_eig_L s1).
    change (g_eig_idx (w_amp_sft a (w_rat_sft b (w_eig_sft c s1)))) with (g_eig_idx s1).
    change (g_eig_fit (w_amp_sft a (w_rat_sft b (w_eig_sft c s1)))) with (g_eig_fit s1).
    rewrite ?pbind_praise; cbv beta zeta. destruct (if g_eig_rel s1 then _ else _) as [low|e]; [|do 4 eexists; split; [reflexivity|]; split; [reflexivity|discriminate]].
    rewrite ?pbind_praise; cbv beta zeta. destruct (raise_if _ _) as [u|e]; [|do 4 eexists; split; [reflexivity|]; split; [reflexivity|discriminate]].
    rewrite ?pbind_praise; cbv beta zeta. match goal with |- context [match ?r with Ok _ => _ | Raise _ => _ end] => destruct r as [vals|e] end;
      [|do 4 eexists; split; [reflexivity|]; split; [reflexivity|discriminate]].
    rewrite ?pbind_praise; cbv beta zeta. destruct (py_get _ _) as [val|e]; [|do 4 eexists; split; [reflexivity|]; split; [reflexivity|discriminate]].
    rewrite !pbind_assign; cbv beta zeta. destruct (Req_EM_T _ _); unfold praise, pret; do 4 eexists; (split; [reflexivity|]; split; [reflexivity|]); intros x Ex; [discriminate|].
    exists a, b, ((val - low) / g_eig_fit s1)%R. split; [now destruct s1|]. split; [reflexivity|exact HQ].
  Qed.

  Lemma alike_fit_rat tr Lv : alike (related false true) eq (fit_rates tr Lv) (fit_rates tr Lv).
  Proof.
    intros s1 s2 (a & b & c & -> & HE & _). rewrite (HE eq_refl). clear HE c. set (s2 := w_amp_sft a (w_rat_sft b (w_eig_sft (g_eig_sft s1) s1))).
    unfold fit_rates. rewrite !pbind_get; cbv beta zeta. cbv zeta.
    change (g_rat_L1 s2) with (g_rat_L1 s1). change (g_rat_L2 s2) with (g_rat_L2 s1). change (g_rat_1dx s2) with (g_rat_1dx s1).
    change (g_rat_2dx s2) with (g_rat_2dx s1). change (g_rat_fun s2) with (g_rat_fun s1). change (g_rat_TRopAM s2) with (g_rat_TRopAM s1).
    change (g_rat_fit s2) with (g_rat_fit s1). change (g_amp_sft_fun s2) with (g_amp_sft_fun s1).
    do 5 (rewrite ?pbind_praise; cbv beta zeta; match goal with |- context [match ?r with Ok _ => _ | Raise _ => _ end] => destruct r end;
          [|do 4 eexists; split; [reflexivity|]; split; [reflexivity|discriminate]]).
    rewrite !pbind_assign; cbv beta zeta. destruct (Req_EM_T _ _); [unfold praise; do 4 eexists; split; [reflexivity|]; split; [reflexivity|discriminate]|].
    rewrite ?pbind_praise; cbv beta zeta. destruct (g_amp_sft_fun s1 _) as [x|e]; [|do 4 eexists; split; [reflexivity|]; split; [reflexivity|discriminate]].
    unfold passign. do 4 eexists. split; [reflexivity|]. split; [reflexivity|]. intros _ _. unfold s2. now destruct s1.
  Qed.

  Lemma alike_Show_Eigs Q ev Lv n lo hi : alike (related false Q) (related false Q) (Show_Eigs flt ev Lv n lo hi) (Show_Eigs flt ev Lv n lo hi).
  Proof.
    intros s1 s2 R. pose proof (keeps_Show_Eigs flt ev Lv n lo hi s1) as K1. pose proof (keeps_Show_Eigs flt ev Lv n lo hi s2) as K2.
    destruct (Show_Eigs flt ev Lv n lo hi s1) as [[r1 s1'] o1] eqn:E1. destruct (Show_Eigs flt ev Lv n lo hi s2) as [[r2 s2'] o2] eqn:E2.
    cbn [fst snd] in K1, K2. subst s1' s2'. assert (X : r1 = r2 /\ o1 = o2); [|destruct X; subst; do 4 eexists; split; [reflexivity|]; split; [reflexivity|auto]].
    destruct R as (a & b & c & -> & HE & _). rewrite (HE eq_refl) in E2. clear HE c.
    set (s2 := w_amp_sft a (w_rat_sft b (w_eig_sft (g_eig_sft s1) s1))) in *.
    unfold Show_Eigs in E1, E2. rewrite pbind_praise in E1, E2; cbv beta zeta in E1, E2. destruct (require_nonnegint _) as [u|e]; [|split; congruence].
    destruct (_ || _); [unfold pret in *; split; congruence|].
    destruct (match lo, hi with Some l, None => _ | _, _ => _ end) as [[Lmin Lmax] Ltop].
    rewrite pbind_praise in E1, E2; cbv beta zeta in E1, E2. destruct (require_nonnegint_range _ _) as [u'|e]; [|split; congruence].
    destruct (negb _); [unfold pret in *; split; congruence|].
    rewrite pbind_get in E1, E2; cbv beta zeta in E1, E2.
    change (g_low_pre s2) with (g_low_pre s1) in E2. change (g_eig_rel s2) with (g_eig_rel s1) in E2. change (g_eig_sft s2) with (g_eig_sft s1) in E2.
    assert (T : forall low L v, eig_line flt s2 (default 4 n) low L v = eig_line flt s1 (default 4 n) low L v) by reflexivity.
    assert (PM : forall low l s0 s0', exists o, pmap (fun '(L, vals) => if (Lmin <=? L) && (L <=? Ltop) then print (eig_line flt s1 (default 4 n) low L vals) else pret tt) l s0 = (Ok tt, s0, o) /\
                   pmap (fun '(L, vals) => if (Lmin <=? L) && (L <=? Ltop) then print (eig_line flt s2 (default 4 n) low L vals) else pret tt) l s0' = (Ok tt, s0', o)).
    { intros low l. induction l as [|[L v] l IH]; intros s0 s0'; cbn [pmap]; [eexists; split; reflexivity|].
      destruct (IH s0 s0') as (o & I1 & I2). destruct (_ && _); [rewrite !pbind_print, I1, I2|rewrite !pbind_ret, I1, I2]; eexists; split; reflexivity. }
    assert (FIN : forall (k : prog R), (exists r o, k s1 = (r, s1, o) /\ k s2 = (r, s2, o)) ->
      forall K1 K2, (forall low, exists r o, K1 low s1 = (r, s1, o) /\ K2 low s2 = (r, s2, o)) ->
      exists r o, pbind k K1 s1 = (r, s1, o) /\ pbind (B := option R) k K2 s2 = (r, s2, o)).
    { intros k (r & o & H1 & H2) K1 K2 H. unfold pbind. rewrite H1, H2. destruct r as [low|e]; [|do 2 eexists; split; reflexivity].
      destruct (H low) as (r' & o' & -> & ->). do 2 eexists; split; reflexivity. }
    edestruct FIN as (r & o & H1 & H2); [| |rewrite H1 in E1; rewrite H2 in E2; split; congruence].
    - destruct (g_eig_rel s1); [|do 2 eexists; split; reflexivity]. rewrite ?pbind_praise; cbv beta zeta. destruct (min_head ev); do 2 eexists; split; reflexivity.
    - intros low. destruct (PM low (combine Lv ev) s1 s2) as (o' & P1 & P2). unfold pbind. cbv beta. rewrite P1, P2. do 2 eexists; split; reflexivity.
  Qed.

  Section Again.
    Variables (fe fr : Z) (h : OperatorSum) (a l : R) (n1 n2 v1 v2 L1 : Z) (L2 : option Z).
    Let fit := Do (Fit fe fr h a l n1 n2 v1 v2 L1 L2).
    Let run CG := ACM_ScaleOrAdapt flt (code_matrices RP CG) eigh inv_of junk h a l n1 n2 v1 v2 fe fr L1 L2.
    Lemma nstep_eq s F d : nstep fit (s, F, d) = let '(ob, s') := seen Some (run (CG_at F home (fresh d)) s) in (Saw ob, (s', F, d)).
    Proof. reflexivity. Qed.
    Definition fits_eig (s : settings) : bool := (0 <? fe) && (0 <? g_eig_num s).
    Definition fits_rat (s : settings) : bool := (0 <? fr) && ((0 <? zlen (g_rat_lst s)) || (0 <? zlen (g_amp_lst s))).

    Lemma run_moves CG s : related (fits_eig s) (fits_rat s) s (snd (fst (run CG s))).
    Proof.
      unfold run, ACM_ScaleOrAdapt, fits_eig, fits_rat. cbv zeta.
      do 5 (rewrite pbind_praise; match goal with |- context [match ?r with Ok _ => _ | Raise _ => _ end] => destruct r end; [|apply related_refl]).
      apply moves_get. match goal with |- related ?E ?Q s (snd (fst (?m s))) => enough (M : moves E Q m) by exact (M s) end.
      do 2 (apply moves_bind; [apply moves_keeps; destruct (_ && _); keep|intros _]).
      apply moves_bind; [apply moves_keeps, keeps_praise|intros [[ev ebs] Lv]].
      apply moves_bind.
      { destruct (0 <? g_eig_num s); [|apply moves_keeps, keeps_pret].
        apply moves_bind; [destruct (0 <? fe); [apply moves_fit_eig|apply moves_keeps, keeps_pret]|intros _].
        apply moves_bind; [apply moves_keeps, keeps_Show_Eigs|intros; apply moves_keeps, keeps_pret]. }
      intros _. apply moves_bind; [|intros; apply moves_keeps, keeps_pret].
      destruct (_ || _); [|apply moves_keeps, keeps_pret]. apply moves_bind; [apply moves_keeps, keeps_praise|intros [m fs]].
      apply moves_bind; [destruct (0 <? fr); [apply moves_fit_rat|apply moves_keeps, keeps_pret]|intros _].
      apply moves_bind; [apply moves_keeps, keeps_Show_Rats|intros _].
      apply moves_bind; [apply moves_keeps, keeps_Show_Amps|intros _]. apply moves_keeps, keeps_pret.
    Qed.

    Lemma run_alike CG s1 s2 : related (fits_eig s1) (fits_rat s1) s1 s2 ->
      exists r s1' s2' o, run CG s1 = (r, s1', o) /\ run CG s2 = (r, s2', o) /\ forall x, r = Ok x -> s1' = s2'.
    Proof.
      intros H. enough (G : alike (fun x y => x = s1 /\ y = s2) eq (run CG) (run CG)) by (now apply G).
      unfold run, ACM_ScaleOrAdapt. cbv zeta.
      do 5 (eapply alike_bind; [apply alike_praise|intros _]).
      match goal with |- alike _ _ (pbind pget ?K) _ => enough (G : alike (related (fits_eig s1) (fits_rat s1)) eq (K s1) (K s1)); [|clear H] end.
      { intros x y [-> ->]. rewrite !pbind_get. destruct (G s1 s2 H) as (r & s1' & s2' & o & E1 & E2 & E3).
        exists r, s1', s2', o. split; [exact E1|]. split; [|exact E3]. refine (eq_trans _ E2). destruct H as (x & y & z & -> & _). reflexivity. }
      eapply alike_bind; [instantiate (1 := related (fits_eig s1) (fits_rat s1)); destruct (_ && _); apply alike_praise|intros _].
      eapply alike_bind; [instantiate (1 := related (fits_eig s1) (fits_rat s1)); destruct (_ && _); [eapply alike_bind; [apply alike_praise|intros _]|]; apply alike_praise|intros _].
      eapply alike_bind; [apply alike_praise|intros [[ev ebs] Lv]].
      eapply alike_bind.
      { instantiate (1 := related false (fits_rat s1)). unfold fits_eig. destruct (0 <? g_eig_num s1).
        - destruct (0 <? fe); cbn [andb].
          + eapply alike_bind; [apply alike_fit_eig|intros _]. eapply alike_bind; [apply alike_Show_Eigs|intros _]. apply (alike_praise _ (Ok tt)).
          + eapply alike_bind; [apply (alike_praise _ (Ok tt))|intros _]. eapply alike_bind; [apply alike_Show_Eigs|intros _]. apply (alike_praise _ (Ok tt)).
        - rewrite Bool.andb_false_r. apply (alike_praise _ (Ok tt)). }
      assert (EQ : forall A (m : prog A), alike eq eq m m -> alike (related false false) eq m m).
      { intros A m K x y R. apply K. symmetry. now apply related_eq. }
      intros _. unfold fits_rat. apply alike_bind with (P1 := eq); [|intros; apply alike_same].
      destruct (_ || _); [|rewrite Bool.andb_false_r; apply EQ, alike_same]. rewrite Bool.andb_true_r.
      eapply alike_bind; [apply alike_praise|intros [m fs]].
      destruct (0 <? fr); [|apply EQ, alike_same].
      eapply alike_bind; [apply alike_fit_rat|intros _]. apply alike_same.
    Qed.

    Lemma fits_same s1 s2 : rescaled s1 s2 -> fits_eig s2 = fits_eig s1 /\ fits_rat s2 = fits_rat s1.
    Proof. intros (x & y & z & ->). split; reflexivity. Qed.
    Lemma related_rescaled E Q s1 s2 : related E Q s1 s2 -> rescaled s1 s2.
    Proof. intros (x & y & z & -> & _). now exists x, y, z. Qed.

    (** A run that is repeated with the settings an earlier attempt has left,
        whatever became of that, shows what it would have shown without it, and
        leaves the same settings if it returns. *)
    Theorem C81_retry : forall s F d F' d',
      let s' := settings_of (snd (nstep fit (s, F, d))) in
      fst (nstep fit (s', F', d')) = fst (nstep fit (s, F', d')) /\
      (forall ob x, fst (nstep fit (s, F', d')) = Saw ob -> returned ob = Some x ->
         settings_of (snd (nstep fit (s', F', d'))) = settings_of (snd (nstep fit (s, F', d')))).
    Proof.
      intros s F d F' d' s'. pose proof (run_moves (CG_at F home (fresh d)) s) as M.
      assert (S : s' = snd (fst (run (CG_at F home (fresh d)) s))).
      { unfold s'. rewrite nstep_eq, <- (seen_settings Some). destruct (seen _ _) as [ob s0]. reflexivity. }
      rewrite <- S in M. clearbody s'. destruct (run_alike (CG_at F' home (fresh d')) s s' M) as (r & s1 & s2 & o & E1 & E2 & E3).
      rewrite !nstep_eq, E1, E2. destruct r as [x|e]; cbn [seen fst snd settings_of].
      - rewrite (E3 x eq_refl). split; reflexivity.
      - split; [reflexivity|]. intros ob x E. injection E as <-. discriminate.
    Qed.

    Lemma again s0 s : forall F d, related (fits_eig s0) (fits_rat s0) s0 s ->
      fst (nstep fit (s, F, d)) = fst (nstep fit (s0, F, d)) /\
      related (fits_eig s0) (fits_rat s0) s0 (settings_of (snd (nstep fit (s, F, d)))).
    Proof.
      intros F d H. destruct (run_alike (CG_at F home (fresh d)) s0 s H) as (r & s1 & s2 & o & E1 & E2 & E3).
      pose proof (run_moves (CG_at F home (fresh d)) s) as M. destruct (fits_same _ _ (related_rescaled _ _ _ _ H)) as [K1 K2]. rewrite K1, K2 in M.
      rewrite E2 in M. cbn [fst snd] in M.
      rewrite !nstep_eq, E1, E2. split; [destruct r; reflexivity|].
      destruct r; cbn [seen fst snd settings_of]; eapply related_trans; eassumption.
    Qed.

    Lemma nsession_app hs1 hs2 : forall w, nsession (hs1 ++ hs2) w =
      let '(o1, w1) := nsession hs1 w in let '(o2, w2) := nsession hs2 w1 in (o1 ++ o2, w2).
    Proof.
      induction hs1 as [|x hs1 IH]; intros w; cbn [app all_newly]; [now destruct (nsession hs2 w)|].
      destruct (nstep x w) as [o w1]. rewrite IH. destruct (nsession hs1 w1) as [o1 w2]. now destruct (nsession hs2 w2) as [o2 w3].
    Qed.

    Lemma nstep_fit s F d : exists ob s', nstep fit (s, F, d) = (Saw ob, (s', F, d)).
    Proof. rewrite nstep_eq. destruct (seen _ _) as [ob s']. eauto. Qed.

    Lemma attempts Gs s0 d : forall s F, related (fits_eig s0) (fits_rat s0) s0 s -> exists os s',
      nsession (flat_map (fun G => [fit; FilesBecome G]) Gs) (s, F, d) = (os, (s', last Gs F, d)) /\ related (fits_eig s0) (fits_rat s0) s0 s'.
    Proof.
      induction Gs as [|G Gs IH]; intros s F H; [exists [], s; split; [reflexivity|exact H]|].
      destruct (again s0 s F d H) as [_ M]. destruct (nstep_fit s F d) as (ob & s' & E). rewrite E in M. cbn [snd settings_of fst] in M.
      cbn [flat_map app all_newly]. rewrite E. cbn [newly]. destruct (IH s' G M) as (os & s'' & -> & M'). do 2 eexists. split; [|exact M'].
      do 2 f_equal. f_equal. clear. destruct Gs as [|G' Gs]; [reflexivity|]. cbn [last]. revert G'. induction Gs as [|G'' Gs IH]; intros G'; [reflexivity|apply IH].
    Qed.

    Lemma nsession_prepares pre : (forall x, In x pre -> prepares x = true) -> forall s d, exists os s' d',
      forall F, nsession pre (s, F, d) = (os, (s', F, d')).
    Proof.
      induction pre as [|x pre IH]; intros H s d; [exists [], s, d; reflexivity|].
      assert (E : exists o s' d', forall F, nstep x (s, F, d) = (o, (s', F, d'))).
      { specialize (H x (or_introl eq_refl)). destruct x as [e|c|y1 y2 y3 y4 y5 y6 y7 y8 y9|d0|F0]; try discriminate H.
        - destruct e; try discriminate H; unfold newly; cbn [Examples.step];
            match goal with |- context [let '(_, _) := ?x in _] => destruct x as [ob s'] end; do 3 eexists; reflexivity.
        - do 3 eexists. reflexivity. }
      destruct E as (o & s1 & d1 & E). destruct (IH (fun y Hy => H y (or_intror Hy)) s1 d1) as (os & s2 & d2 & E').
      exists (o :: os), s2, d2. intros F. cbn [all_newly]. now rewrite E, E'.
    Qed.

    Lemma prepared_disciplined pre : (forall x, In x pre -> prepares x = true) -> forall rest, (forall x, In x rest -> selects x = false) ->
      forall w (P : Prop), P -> disciplined pstep settings_of (pre ++ rest) w P.
    Proof.
      intros H rest HR. induction pre as [|x pre IH]; cbn [app]; intros w P HP.
      - clear HP H. revert w P. induction rest as [|x rest IH]; intros w P; cbn [disciplined]; [exact I|].
        destruct w as [[s F0] st]. pose proof (proj1 (step_settings (in_process home) process_directory x s F0 st) (HR x (or_introl eq_refl))) as L. unfold process_step.
        destruct (stepC _ _ _ _ _ _ _ x (s, F0, st)) as [o w1]. split; [right; exact L|]. apply IH. intros; apply HR; now right.
      - cbn [disciplined]. destruct (pstep x w) as [o w1]. split; [now left|]. apply IH; [intros; apply H; now right|].
        specialize (H x (or_introl eq_refl)). destruct x as [[]|c|y1 y2 y3 y4 y5 y6 y7 y8 y9|d0|F0]; try discriminate H; exact HP.
    Qed.

    Lemma prepared_files pre : (forall x, In x pre -> prepares x = true) -> forall F rest, files_appear false F rest -> files_appear false F (pre ++ rest).
    Proof.
      intros H F rest HR. induction pre as [|x pre IH]; cbn [app]; [exact HR|]. specialize (IH (fun y Hy => H y (or_intror Hy))).
      specialize (H x (or_introl eq_refl)). destruct x as [[]|c|y1 y2 y3 y4 y5 y6 y7 y8 y9|d0|F0]; try discriminate H; cbn [files_appear]; auto.
    Qed.

    Lemma growing_files Gs : forall c F, growing F Gs -> files_appear c F (flat_map (fun G => [fit; FilesBecome G]) Gs ++ [fit]).
    Proof. induction Gs as [|G Gs IH]; intros c F H; [exact I|]. destruct H as [H1 H2]. cbn. split; [now right|]. now apply IH. Qed.

    (** A run is tried again and again while the missing files are supplied:
        whatever the attempts did, the last one shows what the run shows in a
        new process that has had the files from the start. *)
    Theorem C81_supplied : forall pre F Gs, (forall x, In x pre -> prepares x = true) -> growing F Gs ->
      last (fst (proc_session (pre ++ flat_map (fun G => [fit; FilesBecome G]) Gs ++ [fit]) (new_p F))) Silent =
      last (fst (proc_session (pre ++ [fit]) (new_p (last Gs F)))) Silent.
    Proof.
      intros pre F Gs HP HG.
      assert (D : forall rest, (forall x, In x rest -> selects x = false) -> forall F0, disciplined pstep settings_of (pre ++ rest) (new_p F0) True)
        by (intros; now apply prepared_disciplined).
      rewrite (proj1 (C81_files (pre ++ flat_map (fun G => [fit; FilesBecome G]) Gs ++ [fit]) F ltac:(
        apply D; intros x Hx; apply in_app_or in Hx; destruct Hx as [Hx|[<-|[]]]; [|reflexivity];
        apply in_flat_map in Hx; destruct Hx as (G & _ & [<-|[<-|[]]]); reflexivity) (prepared_files pre HP F _ (growing_files Gs false F HG)))).
      rewrite (proj1 (C81_files (pre ++ [fit]) (last Gs F) ltac:(apply D; intros x [<-|[]]; reflexivity) (prepared_files pre HP (last Gs F) [fit] I))).
      destruct (nsession_prepares pre HP imported home) as (os & s0 & d0 & E). rewrite (nsession_app pre (_ ++ _)), (nsession_app pre [fit]), !E. cbv iota. rewrite nsession_app.
      destruct (attempts Gs s0 d0 s0 F (related_refl _ _ _)) as (os' & s' & E' & M). rewrite E'. cbn [all_newly].
      destruct (again s0 s' (last Gs F) d0 M) as [EA _].
      destruct (nstep fit (s', last Gs F, d0)) as [o1 w1]. destruct (nstep fit (s0, last Gs F, d0)) as [o2 w2]. cbn [fst] in *.
      rewrite !last_last, app_assoc, last_last. exact EA.
    Qed.
  End Again.

  (** *** Without the discipline *)

  Lemma prepares_tables pre : (forall x, In x pre -> prepares x = true) -> forall s F cg t, exists os s' cg',
    proc_session pre (s, F, (cg, t)) = (os, (s', F, (cg', t))).
  Proof.
    unfold process. induction pre as [|x pre IH]; intros H s F cg t; [do 3 eexists; reflexivity|].
    assert (E : exists o s' cg', pstep x (s, F, (cg, t)) = (o, (s', F, (cg', t)))).
    { specialize (H x (or_introl eq_refl)). unfold process_step. destruct x as [[]|c|y1 y2 y3 y4 y5 y6 y7 y8 y9|d0|F0]; try discriminate H; unfold stepC;
        try (match goal with |- context [Examples.step ?a ?b ?c ?d ?e ?f ?s0] => destruct (Examples.step a b c d e f s0) as [ob s'] end); do 3 eexists; reflexivity. }
    destruct E as (o & s1 & cg1 & E). destruct (IH (fun y Hy => H y (or_intror Hy)) s1 F cg1 t) as (os & s2 & cg2 & E').
    cbn [sessionC]. unfold process_step in E. rewrite E, E'. do 3 eexists. reflexivity.
  Qed.

  Lemma psession_app hs1 hs2 : forall w, proc_session (hs1 ++ hs2) w =
    let '(o1, w1) := proc_session hs1 w in let '(o2, w2) := proc_session hs2 w1 in (o1 ++ o2, w2).
  Proof.
    unfold process. induction hs1 as [|x hs1 IH]; intros w; cbn [app sessionC]; [now destruct (sessionC _ _ _ _ _ _ _ hs2 w)|].
    destruct (stepC _ _ _ _ _ _ _ x w) as [o w1]. rewrite IH. destruct (sessionC _ _ _ _ _ _ _ hs1 w1) as [o1 w2]. now destruct (sessionC _ _ _ _ _ _ _ hs2 w2) as [o2 w3].
  Qed.

  (** A momentum matrix that was asked for by itself is returned again
      whatever lambda function has been selected meanwhile. *)
  Theorem C81_stale : forall before n a M between F, (forall x, In x between -> prepares x = true) ->
    last (fst (proc_session (before ++ [AskMatrix (CFull n a)]) (new_p F))) Silent = GotMatrix (Ok M) ->
    last (fst (proc_session (before ++ [AskMatrix (CFull n a)] ++ between ++ [AskMatrix (CFull n a)]) (new_p F))) Silent = GotMatrix (Ok M).
  Proof.
    intros before n a M between F HB E. rewrite !psession_app in *. destruct (proc_session before (new_p F)) as [o1 [[s F1] [cg t]]]. clear before.
    assert (H : exists cg1 t1, pstep (AskMatrix (CFull n a)) (s, F1, (cg, t)) = (GotMatrix (Ok M), (s, F1, (cg1, t1))) /\
                PyDict.dict_get rkey_eq_dec t1 (KFull n a) = Some M).
    { unfold process in E. cbn [sessionC] in E. unfold process_step. destruct (stepC _ _ _ _ _ _ _ (AskMatrix (CFull n a)) (s, F1, (cg, t))) as [o w1] eqn:ES.
      cbn [fst] in E. rewrite last_last in E. subst o. unfold stepC, in_process in ES. cbn [fst snd code_of] in ES. unfold callC in ES. cbn [DataMemo.run] in ES.
      destruct (PyDict.dict_get rkey_eq_dec t (KFull n a)) as [M'|] eqn:ET.
      - cbn [DataMemo.run] in ES. injection ES as -> <-. do 2 eexists. split; [reflexivity|exact ET].
      - destruct (DataMemo.run home (full_body RP (g_lam_fun s) n a) F1 cg t) as [[[M'|e] cg'] t'].
        + cbn [DataMemo.run] in ES. injection ES as -> <-. do 2 eexists. split; [reflexivity|]. rewrite PyDict.dict_get_set. now destruct (rkey_eq_dec _ _).
        + discriminate. }
    destruct H as (cg1 & t1 & E1 & ET). clear E. rewrite (psession_app [AskMatrix (CFull n a)]).
    replace (proc_session [AskMatrix (CFull n a)] (s, F1, (cg, t))) with ([GotMatrix (Ok M)], (s, F1, (cg1, t1)))
      by (unfold process; cbn [sessionC]; unfold process_step in E1; now rewrite E1).
    rewrite psession_app. destruct (prepares_tables between HB s F1 cg1 t1) as (os & s2 & cg2 & E2). rewrite E2.
    assert (E3 : pstep (AskMatrix (CFull n a)) (s2, F1, (cg2, t1)) = (GotMatrix (Ok M), (s2, F1, (cg2, t1)))).
    { unfold process_step, stepC, in_process. cbn [fst snd code_of]. unfold callC. cbn [DataMemo.run]. now rewrite ET. }
    unfold process. cbn [sessionC]. unfold process_step in E3. rewrite E3. cbn [fst]. rewrite !app_assoc. now rewrite last_last.
  Qed.
End C81.

(** ** A concrete case *)

(** One radial state, and harmonics between (1,1,2) and (2,1,2). *)
Definition one_state : list rsym -> R -> R -> Z -> Z -> Z -> Z -> res (mat R) := fun _ _ _ _ _ _ _ => Ok (mkMat 1 1 (fun _ _ => 1%R)).
Definition nothing : disk := fun _ => Raise FileNotFoundError.
Definition supplied : disk := fun _ => Ok [1%R; 1%R; 1%R; 1%R; 1%R; 1%R; 1%R; 1%R].
Definition harmonic_op : OperatorSum := [(CNum 1, [OSph SpHarm_112])].
Definition some_eigh : mat R -> res (list R * mat R) := fun A => Ok ([0%R; 0%R], A).



Lemma code_of_op CG s : code_matrices one_state CG s harmonic_op 1 (5/2) 0 0 1 2 2 None =
  (let* M := RepXspace_Twin one_state CG (g_lam_fun s) [] [OSph SpHarm_112] (mkXA 1 (5/2) 0 0 1 2 2 2) in Ok (mscale 1 M)).
Proof.
  unfold code_matrices, RepXspace. cbn [xa_check bind]. 
  replace (lbsXspace 0 0 1 2 2 (Some 2)) with (Ok (map (fun x : label => (0, x)) [(1, 1, 2); (2, 1, 2)])) by reflexivity.
  unfold harmonic_op, RepXspace_Term, RepXspace_Prod. cbn -[RepXspace_Twin]. unfold bindM, retM, withlam. cbn -[RepXspace_Twin].
  match goal with |- context [RepXspace_Twin ?a ?b ?c ?d ?e ?f] => destruct (RepXspace_Twin a b c d e f) as [M|e']; reflexivity end.
Qed.

Lemma twin CG lam a b (A : lam 1 = Ok a) (B : lam 2 = Ok b) : match RepSO5_Y CG 1 1 2 1 2 2 2 with
  | Ok Y => nrows Y = 2 -> ncols Y = 2 -> exists M, RepXspace_Twin one_state CG lam [] [OSph SpHarm_112] (mkXA 1 (5/2) 0 0 1 2 2 2) = Ok M /\ nrows M = ncols M
  | Raise e => RepXspace_Twin one_state CG lam [] [OSph SpHarm_112] (mkXA 1 (5/2) 0 0 1 2 2 2) = Raise e
  end.
Proof.
  unfold RepXspace_Twin. cbn [xa_v_min xa_v_max xa_L_min xa_L_max xa_nu_min xa_nu_max xa_anorm xa_lambda_base].
  replace (dimSO5r3_rngVvarL 1 2 2 (Some 2)) with (Ok 2) by reflexivity.
  assert (ST : lbsSO5r3_rngVvarL 1 2 2 (Some 2) = Ok [(1, 1, 2); (2, 1, 2)]) by reflexivity. rewrite ST.
  cbn [bind map]. change (py_range 1 (2 + 1)) with [1; 2]. unfold RepSO5r3_Prod.
  replace (xa_check (mkXA 1 (5/2) 0 0 1 2 2 2)) with (Ok tt) by reflexivity. cbn -[RepSO5_Y mscale slice_set zeros].
  destruct (RepSO5_Y CG 1 1 2 1 2 2 2) as [Y|e]; cbn -[mscale slice_set zeros]; [|reflexivity]. intros _ _.
  rewrite A; cbn -[mscale slice_set zeros]. change (label_at [(1, 1, 2); (2, 1, 2)] 1) with (Ok (2, 1, 2)). cbn [bind]. rewrite ?A, ?B. cbn [bind].
  repeat match goal with |- context [Req_EM_T ?x 0] => destruct (Req_EM_T x 0); cbn [bind] end; eexists; (split; [reflexivity|reflexivity]).
Qed.

Lemma reduced u w v : 0 <= u -> 0 <= w -> 0 <= v -> ME_SO5red u w v = Ok (Some (me u w v)).
Proof. intros. now apply me_ok. Qed.

Lemma without_file : RepSO5_Y (CG_at nothing [] (fresh [])) 1 1 2 1 2 2 2 = Raise FileNotFoundError.
Proof.
  assert (ST : lbsSO5r3_rngVvarL 1 2 2 (Some 2) = Ok [(1, 1, 2); (2, 1, 2)]) by reflexivity.
  unfold RepSO5_Y. rewrite ST. cbn [bind mapM]. unfold ME_SO5r3. rewrite !reduced by lia. reflexivity.
Qed.
Lemma with_file : exists Y, RepSO5_Y (CG_at supplied [] (fresh [])) 1 1 2 1 2 2 2 = Ok Y /\ nrows Y = 2 /\ ncols Y = 2.
Proof.
  assert (ST : lbsSO5r3_rngVvarL 1 2 2 (Some 2) = Ok [(1, 1, 2); (2, 1, 2)]) by reflexivity.
  unfold RepSO5_Y. rewrite ST. cbn [bind mapM]. unfold ME_SO5r3. rewrite !reduced by lia. eexists. split; [reflexivity|]. split; reflexivity.
Qed.

Definition small_fit : happening := Do (Fit 0 0 harmonic_op 1 (5/2) 0 0 1 2 2 None).

Definition quiet : happening := Do (Call (SetListln (Some 0) None)).

Lemma small_run flt RepX inv junk s : g_eig_num s = 0 -> g_rat_lst s = [] -> g_amp_lst s = [] ->
  let r := ACM_ScaleOrAdapt flt RepX some_eigh inv junk harmonic_op 1 (5/2) 0 0 1 2 0 0 2 None s in
  match RepX s harmonic_op 1%R (5/2)%R 0 0 1 2 2 None with
  | Raise e => r = (Raise e, s, [])
  | Ok M => nrows M = ncols M -> r = (Ok ([[0; 0]]%R, None, [2]), s, [])
  end.
Proof.
  intros N RL AL. cbv zeta. unfold ACM_ScaleOrAdapt. cbv zeta. rewrite !pbind_praise.
  replace (raise_if (2 <? 1) ValueError) with (Ok tt) by reflexivity. cbn [require_nonnegint require_nonnegint_range Z.ltb Z.compare raise_if bind].
  rewrite !pbind_get. cbn [andb]. rewrite !pbind_ret. rewrite !pbind_praise. rewrite N, RL, AL. cbn [Z.ltb Z.compare zlen length Z.of_nat orb].
  assert (D : DigXspace (RepX s harmonic_op 1%R (5 / 2)%R 0 0 1 2) (Eigenfiddle some_eigh) (Op_Tame harmonic_op) 0 0 1 2 2 None =
    (let* M := RepX s harmonic_op 1%R (5/2)%R 0 0 1 2 2 None in let* (v, b) := Eigenfiddle some_eigh M in Ok ([v], [b], [2]))).
  { unfold DigXspace. replace (Op_Tame harmonic_op) with true by reflexivity. cbn [require_nonnegint_range]. 
    change (py_range 2 (2 + 1)) with [2]. cbn [dig_tame]. replace (dimSO5r3_rngV 1 2 2) with (Ok 2) by reflexivity.
    cbn [bind raise_if Z.ltb Z.compare require_nonnegint_range]. 
    destruct (RepX s harmonic_op _ _ _ _ _ _ _ _) as [M|e]; [|reflexivity]. cbn [bind]. destruct (Eigenfiddle some_eigh M) as [[v b]|e]; reflexivity. }
  rewrite D. clear D. destruct (RepX s harmonic_op _ _ _ _ _ _ _ _) as [M|e]; [|reflexivity]. intros E. cbn [bind]. unfold Eigenfiddle. rewrite (proj2 (Z.eqb_eq _ _) E). reflexivity.
Qed.

(** A run that fails for want of a file and succeeds when it has appeared. *)
Example C81_case : forall flt inv junk,
  fst (process flt one_state some_eigh inv junk [] [quiet; small_fit; FilesBecome supplied; small_fit] (new_process nothing)) =
    [Saw {| raised := None; returned := None; printed := [] |};
     Saw {| raised := Some FileNotFoundError; returned := None; printed := [] |};
     Silent;
     Saw {| raised := None; returned := Some ([[0; 0]]%R, None, [2]); printed := [] |}].
Proof.
  intros flt inv junk.
  rewrite (proj1 (C81_files flt one_state some_eigh inv junk [] [quiet; small_fit; FilesBecome supplied; small_fit] nothing
    ltac:(apply (prepared_disciplined flt one_state some_eigh inv junk [] [quiet]); [intros x [<-|[]]; reflexivity|intros x [<-|[<-|[<-|[]]]]; reflexivity|exact I])
    ltac:(cbn; split; [right; intros path x E; discriminate E|exact I]))).
  assert (Q : exists s, forall F, newly flt one_state some_eigh inv junk [] quiet (imported, F, [] : text) = (Saw {| raised := None; returned := None; printed := [] |}, (s, F, [] : text)) /\
    g_eig_num s = 0 /\ g_rat_lst s = [] /\ g_amp_lst s = [] /\ g_lam_fun s = lambda_acm_fun) by (eexists; intros F; repeat split).
  destruct Q as (s & Q). destruct (Q nothing) as (Q0 & S1 & S2 & S3 & S4).
  assert (E0 : code_matrices one_state (CG_at nothing [] (fresh [])) s harmonic_op 1 (5/2) 0 0 1 2 2 None = Raise FileNotFoundError).
  { rewrite code_of_op, S4. pose proof (twin (CG_at nothing [] (fresh [])) lambda_acm_fun _ _ eq_refl eq_refl) as T. rewrite without_file in T. now rewrite T. }
  assert (E1 : exists M, code_matrices one_state (CG_at supplied [] (fresh [])) s harmonic_op 1 (5/2) 0 0 1 2 2 None = Ok M /\ nrows M = ncols M).
  { rewrite code_of_op, S4. pose proof (twin (CG_at supplied [] (fresh [])) lambda_acm_fun _ _ eq_refl eq_refl) as T.
    destruct with_file as (Y & EY & N & C). rewrite EY in T. destruct (T N C) as (M & EM & EN). rewrite EM. eexists. split; [reflexivity|exact EN]. }
  destruct E1 as (M & E1 & EN).
  pose proof (small_run flt (code_matrices one_state (CG_at nothing [] (fresh []))) inv junk s S1 S2 S3) as R0. cbv zeta in R0. rewrite E0 in R0.
  pose proof (small_run flt (code_matrices one_state (CG_at supplied [] (fresh []))) inv junk s S1 S2 S3) as R1. cbv zeta in R1. rewrite E1 in R1. specialize (R1 EN).
  cbn [all_newly]. rewrite Q0. cbv iota beta. unfold newly, small_fit. cbn [Examples.step]. rewrite R0. cbn [seen]. rewrite R1. reflexivity.
Qed.

Example C81_no_momentum_case : forall h, In h [quiet; small_fit; Do (Call (SetBasisType 1 None)); small_fit] -> without_momentum h.
Proof.
  intros h [<-|[<-|[<-|[<-|[]]]]]; cbn; auto; intros c w o [E|[]] IO; injection E as <- <-; destruct IO as [<-|[]]; reflexivity.
Qed.

Print Assumptions C81_session.
Print Assumptions C81_one_basis.
Print Assumptions C81_no_momentum.
Print Assumptions C81_no_exception.
Print Assumptions C81_files.
Print Assumptions C81_retry.
Print Assumptions C81_supplied.
Print Assumptions C81_stale.
