(** Facts about DataDriver.v. *)

From Coq Require Import String Reals Lra FunctionalExtensionality.
From Coq Require Import Lia ZifyBool ZifyNat.
From Verif Require Import PyBase PyFacts Compat PyDict Text SO5Files Format Matrix SphericalSpec Spherical FullLabels RadialOps Operators
  FullOps FullSpace Settings PropsSettings Display DisplayFacts Examples PropsExamples CG CGSpec PropsFiles CGFacts PropsCG PropsHarmonics FullOpsMemo
  PropsAmplitude MemoDriver PropsMemoDriver DataMemo DataMemoFacts PropsDataMemo DataDriver.
Open Scope Z_scope.
Ltac Zify.zify_post_hook ::= Z.div_mod_to_equations.

Definition is_full (k : rkey) : bool := match k with KFull _ _ => true | _ => false end.

(** Code that does not call the functions of the momentum operators. *)
Fixpoint full_free {A} (m : code A) : Prop :=
  match m with
  | Done _ => True
  | Coefficient _ _ _ _ _ _ _ _ _ k => forall x, full_free (k x)
  | Cached key c k => is_full key = false /\ full_free c /\ forall M, full_free (k M)
  | Clear _ k => full_free k
  end.

Definition no_full (t : tables) : Prop := forall key, is_full key = true -> PyDict.dict_get rkey_eq_dec t key = None.

Lemma ff_andthen {A B} (m : code A) : forall f : A -> code B, full_free m -> (forall a, full_free (f a)) -> full_free (andthen m f).
Proof.
  induction m as [A r|A v1 a1 L1 v2 a2 L2 v3 a3 L3 k IH|A key c IHc k IHk|A which k IH]; intros f W Hf; cbn [andthen full_free] in *.
  - destruct r; [apply Hf|exact I].
  - intros x. now apply IH.
  - destruct W as (W1 & W2 & W3). split; [exact W1|]. split; [exact W2|]. intros M. now apply IHk.
  - now apply IH.
Qed.
Lemma ff_mapC {X A} (f : X -> code A) l : (forall x, full_free (f x)) -> full_free (mapC f l).
Proof.
  intros H. induction l as [|x l IH]; cbn [mapC]; [exact I|]. apply ff_andthen; [apply H|].
  intros a. apply ff_andthen; [exact IH|]. intros. exact I.
Qed.
Lemma ff_forC {X S} (body' : X -> S -> code S) l : (forall x s, full_free (body' x s)) -> forall s, full_free (forC l body' s).
Proof. intros H. induction l as [|x l IH]; intros s; cbn [forC]; [exact I|]. apply ff_andthen; [apply H|]. intros. apply IH. Qed.

Section Tables.
  Variable home : text.
  Variable RP : list rsym -> R -> R -> Z -> Z -> Z -> Z -> res (mat R).

  Lemma no_full_filter which t : no_full t -> no_full (filter (fun p => negb (which (fst p))) t).
  Proof. intros N key Hk. rewrite dict_get_filter. destruct (which key); [reflexivity|now apply N]. Qed.

  Lemma ff_run A (m : code A) : full_free m -> forall F cg t, no_full t -> no_full (snd (run home m F cg t)).
  Proof.
    induction m as [A r|A v1 a1 L1 v2 a2 L2 v3 a3 L3 k IH|A key c IHc k IHk|A which k IH]; intros W F cg t N; cbn [run full_free] in *.
    - exact N.
    - destruct (CG_SO5r3 _ _ _ _ _ _ _ _ _ _ _ _) as [[x|e] cg']; [now apply IH|exact N].
    - destruct W as (W1 & W2 & W3). destruct (PyDict.dict_get rkey_eq_dec t key) as [M|]; [now apply IHk|].
      specialize (IHc W2 F cg t N). destruct (run home c F cg t) as [[[M|e] cg'] t']; cbn [snd] in *; [|exact IHc].
      apply IHk; [apply W3|]. intros key' Hk. rewrite dict_get_set. destruct (rkey_eq_dec key key') as [<-|]; [congruence|now apply IHc].
    - apply IH; [exact W|]. now apply no_full_filter.
  Qed.

  Lemma ff_Y v al L v0 v1 L0 L1 : full_free (Y_body v al L v0 v1 L0 L1).
  Proof.
    unfold Y_body. apply ff_andthen; [exact I|]. intros st. apply ff_andthen; [|intros; exact I].
    apply ff_mapC. intros [[? ?] ?]. apply ff_mapC. intros [[? ?] ?]. apply ff_andthen; [|intros; exact I].
    unfold ME_SO5r3C. apply ff_andthen; [intros ?; exact I|]. intros. apply ff_andthen; [exact I|]. intros. exact I.
  Qed.
  Lemma ff_Y_rem v al L v0 v1 L0 L1 : full_free (RepSO5_Y_rem v al L v0 v1 L0 L1).
  Proof. split; [reflexivity|]. split; [apply ff_Y|]. intros; exact I. Qed.
  Lemma ff_ys y v0 v1 L0 L1 : full_free (ys_matC y v0 v1 L0 L1).
  Proof.
    destruct y as [s|v al L]; [|apply ff_Y_rem]. destruct s; try exact I. unfold ys_matC. destruct (SpHarm_Table h) as [[v al] L]. apply ff_Y_rem.
  Qed.
  Lemma ff_wrk ys v0 v1 L0 L1 : full_free (RepSO5r3_Prod_wrk ys v0 v1 L0 L1).
  Proof.
    destruct ys as [|y ys]; unfold RepSO5r3_Prod_wrk; apply ff_andthen; try exact I; try (intros; exact I); [apply ff_ys|].
    intros M0. apply ff_forC. intros z P. apply ff_andthen; [apply ff_ys|]. intros; exact I.
  Qed.
  Lemma ff_Prod_rem ys v0 v1 L0 L1 : full_free (RepSO5r3_Prod_rem ys v0 v1 L0 L1).
  Proof. split; [reflexivity|]. split; [apply ff_wrk|]. intros; exact I. Qed.
  Lemma ff_Prod ys v0 v1 L0 L1 : full_free (RepSO5r3_ProdC ys v0 v1 L0 L1).
  Proof. unfold RepSO5r3_ProdC. apply ff_andthen; [apply ff_wrk|]. intros; exact I. Qed.
  Lemma ff_Twin lam r s a : full_free (RepXspace_TwinC RP lam r s a).
  Proof.
    unfold RepXspace_TwinC. do 3 (apply ff_andthen; [exact I|intros ?]). cbn zeta. apply ff_andthen; [apply ff_Prod_rem|]. intros; exact I.
  Qed.

  (** The symbols of the momentum operators. *)
  Definition momentum (o : osym) : bool :=
    match o with Xspace_PiqPi | Xspace_PiPi2 | Xspace_PiPi4 | Xspace_Pi => true | _ => false end.
  Definition no_momentum (op : OperatorSum) : Prop := forall c w o, In (c, w) op -> In o w -> momentum o = false.

  Lemma ff_loop lam a ops : (forall o, In o ops -> momentum o = false) -> forall r nu sph, full_free (prod_loopC RP lam a ops r nu sph).
  Proof.
    induction ops as [|op ops IH]; intros HM r nu sph; cbn [prod_loopC]; cbn zeta; [exact I|].
    pose proof (HM op (or_introl eq_refl)) as H0. assert (IH' := IH (fun o Ho => HM o (or_intror Ho))). clear IH.
    destruct op as [s|h| | | | | |]; try discriminate H0; try apply IH'.
    destruct s; try apply IH'. apply ff_andthen; [|intros; exact I].
    destruct (_ || _); [|exact I]. apply ff_andthen; [apply ff_Twin|]. intros; exact I.
  Qed.
  Lemma ff_word lam w a : (forall o, In o w -> momentum o = false) -> full_free (RepXspace_ProdC RP lam w a).
  Proof.
    intros H. unfold RepXspace_ProdC. apply ff_andthen; [exact I|]. intros _. apply ff_andthen; [now apply ff_loop|]. intros [[r nu] sph].
    apply ff_andthen; [apply ff_Twin|]. intros T. apply ff_andthen; [exact I|]. intros [P|]; exact I.
  Qed.
  Lemma ff_term lam t X a : (forall o, In o (snd t) -> momentum o = false) -> full_free (RepXspace_TermC RP lam t X a).
  Proof.
    intros H. unfold RepXspace_TermC. apply ff_andthen; [now apply ff_word|]. intros M. destruct t as [[c|f] w]; cbn [fst]; [exact I|]. cbv zeta. destruct (_ =? _); exact I.
  Qed.
  Lemma ff_terms lam ts X a : no_momentum ts -> forall acc, full_free (terms_loopC RP lam ts X a acc).
  Proof.
    induction ts as [|t ts IH]; intros H acc; [exact I|]. cbn [terms_loopC]. apply ff_andthen.
    - apply ff_term. intros o. apply (H (fst t)). destruct t. now left.
    - intros. apply IH. intros c w o Hi. apply (H c w o). now right.
  Qed.
  Lemma ff_Xspace lam op an lb n0 n1 v0 v1 L Lm : no_momentum op -> full_free (RepXspaceC RP lam op an lb n0 n1 v0 v1 L Lm).
  Proof.
    intros H. unfold RepXspaceC. apply ff_andthen; [exact I|]. intros _. apply ff_andthen; [|intros; exact I].
    destruct op as [|t ts]; [exact I|]. apply ff_andthen; [exact I|]. intros X. apply ff_andthen.
    - apply ff_term. intros o. apply (H (fst t)). destruct t. now left.
    - intros. apply ff_terms. intros c w o Hi. apply (H c w o). now right.
  Qed.

  (** Tables without momentum matrices do not depend on the lambda function. *)
  Lemma inv_lambda f f' cg t : no_full t -> inv home (body_of RP f) cg t -> inv home (body_of RP f') cg t.
  Proof.
    intros N I key M E F cg' LE. specialize (I key M E F cg' LE). destruct key as [v al L v0 v1 L0 L1|ys v0 v1 L0 L1|n a]; [exact I|exact I|].
    rewrite (N (KFull n a) eq_refl) in E. discriminate.
  Qed.

  (** Running in two steps. *)
  Lemma run_andthen A B (m : code A) : forall (f : A -> code B) F cg t,
    run home (andthen m f) F cg t =
    (let '(r, cg', t') := run home m F cg t in match r with Ok a => run home (f a) F cg' t' | Raise e => (Raise e, cg', t') end).
  Proof.
    induction m as [A r|A v1 a1 L1 v2 a2 L2 v3 a3 L3 k IH|A key c IHc k IHk|A which k IH]; intros f F cg t; cbn [andthen run].
    - destruct r; reflexivity.
    - destruct (CG_SO5r3 _ _ _ _ _ _ _ _ _ _ _ _) as [[x|e] cg']; [apply IH|reflexivity].
    - destruct (PyDict.dict_get rkey_eq_dec t key) as [M|]; [apply IHk|]. destruct (run home c F cg t) as [[[M|e] cg'] t']; [apply IHk|reflexivity].
    - apply IH.
  Qed.

  Lemma filter_all {X} (l : list X) : filter (fun _ => negb true) l = [].
  Proof. induction l; cbn; auto. Qed.

  Lemma Xspace_clears lam op an lb n0 n1 v0 v1 L Lm F cg t M cg' t' :
    run home (RepXspaceC RP lam op an lb n0 n1 v0 v1 L Lm) F cg t = (Ok M, cg', t') -> t' = [].
  Proof.
    unfold RepXspaceC. rewrite run_andthen. cbn [run]. destruct (xa_check _); [|discriminate].
    rewrite run_andthen. destruct (run home _ F cg t) as [[[N|e] cg1] t1]; [|discriminate].
    cbn [run]. intros E. injection E as _ _ <-. apply filter_all.
  Qed.
End Tables.

(** ** The drivers *)

Section Dig.
  Variable home : text.
  Variable RP : list rsym -> R -> R -> Z -> Z -> Z -> Z -> res (mat R).
  Variables (RepX : Z -> option Z -> code (mat R)) (eig : mat R -> res (list R * mat R)) (tame : bool) (nu_min nu_max v_min v_max : Z).

  Lemma wf_Dig body L_min L_max : (forall L L1, wf body (RepX L L1)) ->
    wf body (DigXspaceC RepX eig tame nu_min nu_max v_min v_max L_min L_max).
  Proof.
    intros H. unfold DigXspaceC. cbv zeta. do 3 (apply wf_andthen; [exact I|intros _]). destruct tame.
    - generalize ([] : list (list R), [] : list (mat R), [] : list Z). induction (py_range _ _) as [|L Ls IH]; intros acc; cbn [dig_tameC]; [exact I|].
      apply wf_andthen; [exact I|]. intros d. destruct (0 <? d); [|apply IH]. apply wf_andthen; [apply H|]. intros M.
      apply wf_andthen; [exact I|]. intros [vals bases]. destruct acc as [[? ?] ?]. apply IH.
    - apply wf_andthen; [apply H|]. intros; exact I.
  Qed.
  Lemma ff_Dig L_min L_max : (forall L L1, full_free (RepX L L1)) ->
    full_free (DigXspaceC RepX eig tame nu_min nu_max v_min v_max L_min L_max).
  Proof.
    intros H. unfold DigXspaceC. cbv zeta. do 3 (apply ff_andthen; [exact I|intros _]). destruct tame.
    - generalize ([] : list (list R), [] : list (mat R), [] : list Z). induction (py_range _ _) as [|L Ls IH]; intros acc; cbn [dig_tameC]; [exact I|].
      apply ff_andthen; [exact I|]. intros d. destruct (0 <? d); [|apply IH]. apply ff_andthen; [apply H|]. intros M.
      apply ff_andthen; [exact I|]. intros [vals bases]. destruct acc as [[? ?] ?]. apply IH.
    - apply ff_andthen; [apply H|]. intros; exact I.
  Qed.
  Lemma answer_Dig CG L_min L_max :
    answer CG (DigXspaceC RepX eig tame nu_min nu_max v_min v_max L_min L_max) =
    DigXspace (fun L L1 => answer CG (RepX L L1)) eig tame nu_min nu_max v_min v_max L_min L_max.
  Proof.
    unfold DigXspaceC, DigXspace. cbv zeta. do 3 (rewrite answer_andthen; apply bind_ext; intros _). destruct tame.
    - generalize ([] : list (list R), [] : list (mat R), [] : list Z). induction (py_range _ _) as [|L Ls IH]; intros acc; cbn [dig_tameC dig_tame]; [reflexivity|].
      rewrite answer_andthen. apply bind_ext. intros d. destruct (0 <? d); [|apply IH]. rewrite answer_andthen. apply bind_ext. intros M.
      rewrite answer_andthen. apply bind_ext. intros [vals bases]. destruct acc as [[? ?] ?]. apply IH.
    - rewrite answer_andthen. reflexivity.
  Qed.

  Hypothesis CL : forall L L1 F cg t M cg' t', run home (RepX L L1) F cg t = (Ok M, cg', t') -> t' = [].

  Lemma clears_tame Ls F : forall acc cg t out cg' t', run home (dig_tameC RepX eig v_min v_max Ls acc) F cg t = (Ok out, cg', t') ->
    t' = [] \/ (t' = t /\ out = acc).
  Proof.
    induction Ls as [|L Ls IH]; intros acc cg t out cg' t' E; cbn [dig_tameC] in E.
    - cbn [run] in E. injection E as <- <- <-. now right.
    - rewrite run_andthen in E. cbn [run] in E. destruct (dimSO5r3_rngV v_min v_max L) as [n|e]; [|discriminate].
      destruct (0 <? n); [|now apply IH in E]. rewrite run_andthen in E. destruct (run home (RepX L None) F cg t) as [[[m|e] cg1] t1] eqn:ER; [|discriminate].
      apply CL in ER. subst t1. rewrite run_andthen in E. cbn [run] in E. destruct (eig m) as [[vals bases]|e]; [|discriminate].
      destruct acc as [[evs ebs] Lvals]. apply IH in E. destruct E as [E|(E & _)]; left; congruence.
  Qed.
  Lemma clears_Dig lo hi F cg t evs ebs Lvals cg' t' :
    run home (DigXspaceC RepX eig tame nu_min nu_max v_min v_max lo hi) F cg t = (Ok (evs, ebs, Lvals), cg', t') ->
    t' = [] \/ (t' = t /\ Lvals = []).
  Proof.
    unfold DigXspaceC. cbv zeta. do 3 (rewrite run_andthen; cbn [run]; destruct (require_nonnegint_range _ _); [|discriminate]).
    intros E. destruct tame.
    - apply clears_tame in E. destruct E as [E|(E & E2)]; [now left|right]. injection E2 as _ _ E2. auto.
    - rewrite run_andthen in E. destruct (run home (RepX _ _) F cg t) as [[[m|e] cg1] t1] eqn:ER; [|discriminate]. apply CL in ER.
      cbn [run] in E. injection E as _ _ <-. now left.
  Qed.
End Dig.

Section Amp.
  Variable home : text.
  Variables (RepX : Z -> Z -> code (mat R)) (inverse : mat R -> res (mat R)) (ebs : list (mat R)) (nu_min nu_max v_min v_max : Z) (Lvals : list Z).

  Lemma wf_Amp body : (forall L L1, wf body (RepX L L1)) -> wf body (AmpXspeigC RepX inverse ebs nu_min nu_max v_min v_max Lvals).
  Proof.
    intros H. unfold AmpXspeigC. do 2 (apply wf_andthen; [exact I|intros ?]). apply wf_andthen; [exact I|]. intros [lo hi].
    apply wf_andthen; [apply H|]. intros; exact I.
  Qed.
  Lemma ff_Amp : (forall L L1, full_free (RepX L L1)) -> full_free (AmpXspeigC RepX inverse ebs nu_min nu_max v_min v_max Lvals).
  Proof.
    intros H. unfold AmpXspeigC. do 2 (apply ff_andthen; [exact I|intros ?]). apply ff_andthen; [exact I|]. intros [lo hi].
    apply ff_andthen; [apply H|]. intros; exact I.
  Qed.
  Lemma answer_Amp CG :
    answer CG (AmpXspeigC RepX inverse ebs nu_min nu_max v_min v_max Lvals) =
    AmpXspeig (fun L L1 => answer CG (RepX L L1)) inverse ebs nu_min nu_max v_min v_max Lvals.
  Proof.
    unfold AmpXspeigC, AmpXspeig. do 2 (rewrite answer_andthen; apply bind_ext; intros ?). rewrite answer_andthen. apply bind_ext. intros [lo hi].
    rewrite answer_andthen. reflexivity.
  Qed.
  Lemma clears_Amp F cg t out cg' t' :
    (forall L L1 F cg t M cg' t', run home (RepX L L1) F cg t = (Ok M, cg', t') -> t' = []) ->
    run home (AmpXspeigC RepX inverse ebs nu_min nu_max v_min v_max Lvals) F cg t = (Ok out, cg', t') -> t' = [].
  Proof.
    intros CL. unfold AmpXspeigC. rewrite run_andthen. cbn [run]. destruct (validate_Lvals Lvals); [|discriminate].
    rewrite run_andthen. cbn [run]. destruct (LBlockFullSpace_init _ _ _ _ _); [|discriminate].
    rewrite run_andthen. cbn [run]. destruct (head_last Lvals) as [[lo hi]|]; [|discriminate].
    rewrite run_andthen. destruct (run home (RepX lo hi) F cg t) as [[[m|e] cg1] t1] eqn:ER; [|discriminate]. apply CL in ER.
    cbn [run]. intros E. injection E as _ _ <-. exact ER.
  Qed.
End Amp.
