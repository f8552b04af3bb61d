(** C72: sessions and the memo tables of the momentum matrices. *)

From Coq Require Import String Reals Lra Sorted.
From Coq Require Import Lia ZifyBool ZifyNat.
From Verif Require Import PyBase Compat PyFacts SphericalSpec SphericalFacts Spherical Text Format Operators Matrix RadialOps FullLabels FullOps PropsHarmonics FullOpsMemo FullSpace
  RadialME RadialMESpec RadialMEFacts RadialWords PropsRadialOps PropsFullLabels FullOpsFacts FullOpsBlocks FullOpsProd PropsFullOps PropsRadialME CG PropsMomentum PropsHistory Spectrum
  Settings PropsSettings Display DisplayFacts PropsDriver Examples PropsExamples PropsOscillator PropsRitz MemoDriver.
Open Scope Z_scope.

Section Memo.
  Variable RP : list rsym -> R -> R -> Z -> Z -> Z -> Z -> res (mat R).
  Variable CG : Z -> Z -> Z -> Z -> Z -> Z -> Z -> Z -> Z -> res R.
  Let transparent {A} := @transparent RP CG A.
  Let coherent := coherent RP CG.

  Section Dig.
    Variables (RepX : Z -> option Z -> M (mat R)) (eig : mat R -> res (list R * mat R)) (tame : bool) (nu_min nu_max v_min v_max : Z).
    Hypothesis TR : forall L L1, transparent (RepX L L1).
    Hypothesis CL : forall L L1 s m s', RepX L L1 s = (Ok m, s') -> x_memo s' = [].

    Lemma t_dig_tame Ls : forall acc, transparent (dig_tameM RepX eig v_min v_max Ls acc) /\
      forall f, pureM (dig_tameM RepX eig v_min v_max Ls acc) f = dig_tame (fun L L1 => pureM (RepX L L1) f) eig v_min v_max Ls acc.
    Proof.
      induction Ls as [|L Ls IH]; intros acc; cbn [dig_tameM dig_tame]; [split; [apply t_ret|reflexivity]|].
      assert (T2 : forall vb : list R * mat R, transparent ((fun '(vals, bases) => let '(evs, ebs, Lvals) := acc in
          dig_tameM RepX eig v_min v_max Ls (evs ++ [vals], ebs ++ [bases], Lvals ++ [L])) vb)).
      { intros [vals bases]. destruct acc as [[evs ebs] Lvals]. apply IH. }
      assert (T1 : forall m, transparent (bindM (retM (eig m)) (fun '(vals, bases) => let '(evs, ebs, Lvals) := acc in
          dig_tameM RepX eig v_min v_max Ls (evs ++ [vals], ebs ++ [bases], Lvals ++ [L])))).
      { intros m. apply t_bind; [apply t_ret|exact T2]. }
      assert (T0 : forall n : Z, transparent (if 0 <? n then bindM (RepX L None) (fun m => bindM (retM (eig m)) (fun '(vals, bases) =>
          let '(evs, ebs, Lvals) := acc in dig_tameM RepX eig v_min v_max Ls (evs ++ [vals], ebs ++ [bases], Lvals ++ [L])))
          else dig_tameM RepX eig v_min v_max Ls acc)).
      { intros n. destruct (0 <? n); [apply t_bind; [apply TR|exact T1]|apply IH]. }
      split; [apply t_bind; [apply t_ret|exact T0]|].
      intros f. rewrite (p_bind RP CG) by (apply t_ret || exact T0). change (pureM (retM ?x) f) with x.
      destruct (dimSO5r3_rngV v_min v_max L) as [n|e]; cbn [bind]; [|reflexivity]. destruct (0 <? n); [|apply IH].
      rewrite (p_bind RP CG) by (apply TR || exact T1). destruct (pureM (RepX L None) f) as [m|e]; cbn [bind]; [|reflexivity].
      rewrite (p_bind RP CG) by (apply t_ret || exact T2). change (pureM (retM ?x) f) with x.
      destruct (eig m) as [[vals bases]|e]; cbn [bind]; [|reflexivity]. destruct acc as [[evs ebs] Lvals]. apply IH.
    Qed.

    Lemma t_Dig lo hi : transparent (DigXspaceM RepX eig tame nu_min nu_max v_min v_max lo hi) /\
      forall f, pureM (DigXspaceM RepX eig tame nu_min nu_max v_min v_max lo hi) f =
        DigXspace (fun L L1 => pureM (RepX L L1) f) eig tame nu_min nu_max v_min v_max lo hi.
    Proof.
      unfold DigXspaceM, DigXspace. set (LLM := match hi with None => lo | Some l => l end).
      assert (T1 : forall m, transparent (retM (dig_full eig v_min v_max m (dimRadial nu_min nu_max) (py_range lo (LLM + 1)) 1 ([], [], [])))) by (intros; apply t_ret).
      assert (T0 : forall u : unit, transparent (if tame then dig_tameM RepX eig v_min v_max (py_range lo (LLM + 1)) ([], [], []) else
         bindM (RepX lo (Some LLM)) (fun rep => retM (dig_full eig v_min v_max rep (dimRadial nu_min nu_max) (py_range lo (LLM + 1)) 1 ([], [], []))))).
      { intros _. destruct tame; [apply t_dig_tame|]. apply t_bind; [apply TR|exact T1]. }
      split; [apply t_bind; [apply t_ret|exact T0]|].
      intros f. rewrite (p_bind RP CG) by (apply t_ret || exact T0). change (pureM (retM ?x) f) with x.
      destruct (require_nonnegint_range nu_min nu_max); cbn [bind]; [|reflexivity].
      destruct (require_nonnegint_range v_min v_max); cbn [bind]; [|reflexivity].
      destruct (require_nonnegint_range lo LLM); cbn [bind]; [|reflexivity].
      destruct tame; [apply t_dig_tame|]. rewrite (p_bind RP CG) by (apply TR || exact T1).
      destruct (pureM (RepX lo (Some LLM)) f); reflexivity.
    Qed.

    (** After success the tables are empty, unless no matrix was asked for. *)
    Lemma clears_tame Ls : forall acc x out x', dig_tameM RepX eig v_min v_max Ls acc x = (Ok out, x') ->
      x_memo x' = [] \/ (x_memo x' = x_memo x /\ out = acc).
    Proof.
      induction Ls as [|L Ls IH]; intros acc x out x' E; cbn [dig_tameM] in E.
      - unfold retM in E. injection E as <- <-. now right.
      - unfold bindM at 1, retM at 1 in E. destruct (dimSO5r3_rngV v_min v_max L) as [n|e]; [|discriminate].
        destruct (0 <? n); [|now apply IH in E]. unfold bindM at 1 in E. destruct (RepX L None x) as [[m|e] x1] eqn:ER; [|discriminate].
        apply CL in ER. unfold bindM at 1, retM at 1 in E. destruct (eig m) as [[vals bases]|e]; [|discriminate].
        destruct acc as [[evs ebs] Lvals]. apply IH in E. destruct E as [E|(E & _)]; left; congruence.
    Qed.

    Lemma clears_Dig lo hi x evs ebs Lvals x' :
      DigXspaceM RepX eig tame nu_min nu_max v_min v_max lo hi x = (Ok (evs, ebs, Lvals), x') ->
      x_memo x = [] \/ Lvals <> [] -> x_memo x' = [].
    Proof.
      unfold DigXspaceM. unfold bindM at 1, retM at 1. intros E H. destruct (bind _ _); [|discriminate]. destruct tame.
      - apply clears_tame in E. destruct E as [E|(E & E2)]; [exact E|]. injection E2 as -> -> ->. destruct H; [congruence|contradiction].
      - unfold bindM at 1 in E. destruct (RepX _ _ x) as [[m|e] x1] eqn:ER; [|discriminate]. apply CL in ER.
        unfold retM in E. injection E as _ <-. exact ER.
    Qed.
  End Dig.

  Section Amp.
    Variables (RepX : Z -> Z -> M (mat R)) (inv : mat R -> res (mat R)) (ebs : list (mat R)) (nu_min nu_max v_min v_max : Z) (Lvals : list Z).
    Hypothesis TR : forall L L1, transparent (RepX L L1).
    Hypothesis CL : forall L L1 s m s', RepX L L1 s = (Ok m, s') -> x_memo s' = [].

    Lemma t_Amp : transparent (AmpXspeigM RepX inv ebs nu_min nu_max v_min v_max Lvals) /\
      forall f, pureM (AmpXspeigM RepX inv ebs nu_min nu_max v_min v_max Lvals) f =
        AmpXspeig (fun L L1 => pureM (RepX L L1) f) inv ebs nu_min nu_max v_min v_max Lvals.
    Proof.
      unfold AmpXspeigM.
      match goal with |- transparent (bindM _ ?k) /\ _ => assert (T0 : forall p, transparent (k p)) end.
      { intros [fs [lo hi]]. apply t_bind; [apply TR|]. intros. apply t_ret. }
      split; [apply t_bind; [apply t_ret|exact T0]|].
      intros f. rewrite (p_bind RP CG) by (apply t_ret || exact T0). change (pureM (retM ?x) f) with x. unfold AmpXspeig.
      destruct (validate_Lvals Lvals); cbn [bind]; [|reflexivity].
      destruct (LBlockFullSpace_init _ _ _ _ _) as [fs|e]; cbn [bind]; [|reflexivity].
      destruct (head_last Lvals) as [[lo hi]|e]; cbn [bind]; [|reflexivity].
      rewrite (p_bind RP CG) by (apply TR || (intros; apply t_ret)). destruct (pureM (RepX lo hi) f); reflexivity.
    Qed.

    Lemma clears_Amp x out x' : AmpXspeigM RepX inv ebs nu_min nu_max v_min v_max Lvals x = (Ok out, x') -> x_memo x' = [].
    Proof.
      unfold AmpXspeigM. unfold bindM at 1, retM at 1. intros E. destruct (bind _ _) as [[fs [lo hi]]|]; [|discriminate].
      unfold bindM at 1 in E. destruct (RepX lo hi x) as [[m|e] x1] eqn:ER; [|discriminate]. apply CL in ER.
      unfold retM in E. injection E as _ <-. exact ER.
    Qed.
  End Amp.

  (** With coherent tables for the lambda function [f], [m] does what [p] does
      and leaves the tables coherent. *)
  Definition agrees {A} (f : Z -> res Z) (m : mprog A) (p : prog A) : Prop := forall s t,
    g_lam_fun s = f -> coherent (mkX f t) ->
    exists t', m s t = (let '(r, s', o) := p s in (r, s', t', o)) /\ coherent (mkX f t') /\ g_lam_fun (snd (fst (p s))) = f.

  Definition steady {A} (p : prog A) : Prop := forall s, g_lam_fun (snd (fst (p s))) = g_lam_fun s.

  Lemma steady_keeps {A} (p : prog A) : DisplayFacts.keeps p -> steady p.
  Proof. intros H s. now rewrite H. Qed.
  Lemma steady_bind {A B} (p : prog A) (q : A -> prog B) : steady p -> (forall a, steady (q a)) -> steady (pbind p q).
  Proof.
    intros Hp Hq s. unfold pbind. specialize (Hp s). destruct (p s) as [[[a|e] s1] o1]; cbn [fst snd] in *; [|exact Hp].
    specialize (Hq a s1). destruct (q a s1) as [[r2 s2] o2]. cbn [fst snd] in *. congruence.
  Qed.

  Lemma agrees_prog {A} f (p : prog A) : steady p -> agrees f (of_prog p) p.
  Proof.
    intros K s t Hs Ht. exists t. unfold of_prog. specialize (K s). destruct (p s) as [[r s'] o]. cbn [fst snd] in *.
    split; [reflexivity|]. split; [exact Ht|congruence].
  Qed.
  Lemma agrees_M {A} f (m : M A) r : transparent m -> pureM m f = r -> agrees f (of_M m) (praise r).
  Proof.
    intros T E s t Hs Ht. destruct (T (mkX f t) Ht) as (x & Ex & Lx & Cx). cbn [x_lam] in Ex, Lx.
    exists (x_memo x). unfold of_M, praise. rewrite Hs, Ex, E. split; [reflexivity|]. split; [|exact Hs].
    destruct x as [l mm]. cbn in *. now subst l.
  Qed.
  Lemma agrees_bind {A B} f (m : mprog A) (p : prog A) (g : A -> mprog B) (q : A -> prog B) :
    agrees f m p -> (forall a, agrees f (g a) (q a)) -> agrees f (mbind m g) (pbind p q).
  Proof.
    intros Hm Hg s t Hs Ht. destruct (Hm s t Hs Ht) as (t1 & E & C & L). unfold mbind, pbind. rewrite E.
    destruct (p s) as [[[a|e] s1] o1]; cbn [fst snd] in *.
    - destruct (Hg a s1 t1 L C) as (t2 & E2 & C2 & L2). exists t2. rewrite E2. destruct (q a s1) as [[r2 s2] o2]. auto.
    - exists t1. auto.
  Qed.
  Lemma agrees_get {B} f (g : settings -> mprog B) (q : settings -> prog B) :
    (forall s, g_lam_fun s = f -> agrees f (g s) (q s)) -> agrees f (mbind (of_prog pget) g) (pbind pget q).
  Proof.
    intros H s t Hs Ht. unfold mbind, pbind, of_prog, pget. destruct (H s Hs s t Hs Ht) as (t1 & E & C & L).
    exists t1. rewrite E. destruct (q s s) as [[r s2] o2]. auto.
  Qed.

  Variable flt : text -> R -> text.
  Variable eigh : mat R -> res (list R * mat R).
  Variable inv : mat R -> res (mat R).
  Variable junk : Z -> Z -> R.
  Let pure_run := ACM_ScaleOrAdapt flt (code_matrices RP CG) eigh inv junk.
  Let memo_run := ACM_ScaleOrAdaptM flt RP CG eigh inv junk.

  Ltac steady1 := first
    [ match goal with
      | |- steady (Show_Eigs _ _ _ _ _ _) => apply steady_keeps, keeps_Show_Eigs
      | |- steady (Show_Rats _ _ _ _) => apply steady_keeps, keeps_Show_Rats
      | |- steady (Show_Amps _ _ _ _) => apply steady_keeps, keeps_Show_Amps
      end
    | apply steady_keeps; first [apply keeps_pret | apply keeps_praise | apply keeps_pget | apply keeps_print]
    | apply steady_bind; [|intros ?]
    | match goal with
      | |- steady (if ?b then _ else _) => destruct b
      | |- steady (match ?b with _ => _ end) => destruct b
      | |- steady (let _ := _ in _) => cbv zeta
      | |- steady (passign _) => intros ?; reflexivity
      end ].

  Lemma steady_fit_eig ev Lv : steady (fit_eigenvalues ev Lv).
  Proof. unfold fit_eigenvalues. repeat steady1. Qed.
  Lemma steady_fit_rat tr Lv : steady (fit_rates tr Lv).
  Proof. unfold fit_rates. repeat steady1. Qed.

  Lemma run_agrees f h a l n1 n2 v1 v2 fe fr L1 L2 :
    agrees f (memo_run h a l n1 n2 v1 v2 fe fr L1 L2) (pure_run h a l n1 n2 v1 v2 fe fr L1 L2).
  Proof.
    unfold memo_run, pure_run, ACM_ScaleOrAdaptM, ACM_ScaleOrAdapt. cbv zeta.
    do 5 (apply agrees_bind; [apply agrees_prog; repeat steady1|intros _]).
    apply agrees_get. intros s Hs.
    do 2 (apply agrees_bind; [apply agrees_prog; repeat steady1|intros _]).
    apply agrees_bind.
    { apply agrees_M; [apply t_Dig; intros; apply t_RepXspace|].
      rewrite (proj2 (t_Dig _ _ _ _ _ _ _ (fun L M => t_RepXspace RP CG h a l n1 n2 v1 v2 L M) L1 L2)).
      unfold code_matrices, pureM. rewrite Hs. reflexivity. }
    intros [[ev eb] Lv].
    apply agrees_bind. { apply agrees_prog. repeat first [apply steady_fit_eig|steady1]. }
    intros _. apply agrees_bind.
    - destruct (_ || _); [|apply agrees_prog; repeat steady1].
      apply agrees_bind.
      + apply agrees_M; [apply t_Amp; intros; apply t_RepXspace|].
        rewrite (proj2 (t_Amp _ inv eb n1 n2 v1 v2 Lv (fun lo hi => t_RepXspace RP CG (g_rat_TRop s) a l n1 n2 v1 v2 lo (Some hi)))).
        unfold code_matrices, pureM. rewrite Hs. reflexivity.
      + intros [m fs]. do 3 (apply agrees_bind; [apply agrees_prog; repeat first [apply steady_fit_rat|steady1]|intros _]).
        apply agrees_prog. repeat steady1.
    - intros tr. apply agrees_prog. repeat steady1.
  Qed.

  Lemma mbind_ok {A B} (m : mprog A) (g : A -> mprog B) s t b s' t' o : mbind m g s t = (Ok b, s', t', o) ->
    exists x s1 t1 o1 o2, m s t = (Ok x, s1, t1, o1) /\ g x s1 t1 = (Ok b, s', t', o2).
  Proof.
    unfold mbind. destruct (m s t) as [[[[x|e] s1] t1] o1]; [|discriminate]. destruct (g x s1 t1) as [[[r2 s2] t2] o2] eqn:E.
    intros H. injection H as -> -> -> _. eauto 10.
  Qed.
  Lemma of_prog_ok {A} (p : prog A) s t a s' t' o : of_prog p s t = (Ok a, s', t', o) -> t' = t.
  Proof. unfold of_prog. destruct (p s) as [[r s1] o1]. intros H. now injection H. Qed.

  Ltac skip H := apply mbind_ok in H; let x := fresh "x" in let s1 := fresh "s" in let t1 := fresh "t" in let E := fresh "E" in
    destruct H as (x & s1 & t1 & ? & ? & E & H); apply of_prog_ok in E; subst t1.

  Lemma run_clears h a l n1 n2 v1 v2 fe fr L1 L2 s t ev tr Lv s' t' o :
    memo_run h a l n1 n2 v1 v2 fe fr L1 L2 s t = (Ok (ev, tr, Lv), s', t', o) -> t = [] \/ Lv <> [] -> t' = [].
  Proof.
    unfold memo_run, ACM_ScaleOrAdaptM. cbv zeta. intros H HL. do 8 skip H.
    apply mbind_ok in H. destruct H as ([[ev1 eb] Lv1] & s9 & t9 & ? & ? & ED & H).
    skip H. apply mbind_ok in H. destruct H as (tr1 & s10 & t10 & ? & ? & ET & H).
    unfold of_prog, pret in H. injection H as -> -> -> _ <- _.
    assert (D : t9 = []).
    { unfold of_M in ED. match type of ED with context [?d (mkX ?q t)] => destruct (d (mkX q t)) as [r xx] eqn:EX end.
      injection ED as -> _ <- _. eapply clears_Dig; [|exact EX|exact HL]. intros. eapply RepXspace_clears. eassumption. }
    subst t9. destruct (_ || _).
    - apply mbind_ok in ET. destruct ET as ([m fs] & s12 & t12 & ? & ? & EA & ET). do 3 skip ET. unfold of_prog, pret in ET. injection ET as _ _ <- _.
      unfold of_M in EA. match type of EA with context [?d (mkX ?q [])] => destruct (d (mkX q [])) as [r xx] eqn:EX end.
      injection EA as -> _ <- _. eapply clears_Amp; [|exact EX]. intros ? ? ? ? ? Q. cbv beta in Q. eapply RepXspace_clears. exact Q.
    - unfold of_prog, pret in ET. now injection ET as _ _ <- _.
  Qed.

  (** *** Statements. *)

  (** With tables that hold what would be computed now, a run returns, raises,
      prints and sets what it would with empty tables; the tables stay so, and are
      empty after a run that returns, if they were before or if it returns a level. *)
  Theorem C72_run : forall h a l n1 n2 v1 v2 fe fr L1 L2 s t, coherent (mkX (g_lam_fun s) t) ->
    let '(r, s', o) := pure_run h a l n1 n2 v1 v2 fe fr L1 L2 s in
    exists t', memo_run h a l n1 n2 v1 v2 fe fr L1 L2 s t = (r, s', t', o) /\
      g_lam_fun s' = g_lam_fun s /\ coherent (mkX (g_lam_fun s) t') /\
      (forall ev tr Lv, r = Ok (ev, tr, Lv) -> t = [] \/ Lv <> [] -> t' = []).
  Proof.
    intros h a l n1 n2 v1 v2 fe fr L1 L2 s t C. destruct (run_agrees (g_lam_fun s) h a l n1 n2 v1 v2 fe fr L1 L2 s t eq_refl C) as (t' & E & C' & L).
    destruct (pure_run h a l n1 n2 v1 v2 fe fr L1 L2 s) as [[r s'] o]. cbn [fst snd] in L. exists t'. split; [exact E|]. split; [exact L|]. split; [exact C'|].
    intros ev tr Lv -> HL. now apply run_clears in E.
  Qed.

  Let pure_session := session flt (code_matrices RP CG) eigh inv junk.
  Let memo_session := sessionM flt RP CG eigh inv junk.
  Let pure_step := step flt (code_matrices RP CG) eigh inv junk.

  (** The tables are known to be empty after the call [e] that showed [o]. *)
  Definition clean_after (e : event) (o : observed) (clean : bool) : bool :=
    match e with
    | Fit _ _ _ _ _ _ _ _ _ _ _ => match returned o with Some (_, _, []) => clean | Some _ => true | None => false end
    | _ => clean
    end.

  (** No call changes the lambda function unless every run that raised was
      followed by one that returned a level. *)
  Fixpoint disciplined (es : list event) (s : settings) (clean : bool) : Prop :=
    match es with
    | [] => True
    | e :: es' => let '(o, s1) := pure_step e s in
        (clean = true \/ g_lam_fun s1 = g_lam_fun s) /\ disciplined es' s1 (clean_after e o clean)
    end.

  Lemma session_agrees es : forall s t clean, coherent (mkX (g_lam_fun s) t) -> (clean = true -> t = []) ->
    disciplined es s clean -> fst (memo_session es s t) = pure_session es s.
  Proof.
    unfold memo_session, pure_session. induction es as [|e es IH]; intros s t clean C HC D; [reflexivity|].
    cbn [sessionM session]. cbn [disciplined] in D. change (step flt (code_matrices RP CG) eigh inv junk e s) with (pure_step e s).
    assert (S : exists t1, stepM flt RP CG eigh inv junk e s t = (pure_step e s, t1) /\
      coherent (mkX (g_lam_fun s) t1) /\ (clean_after e (fst (pure_step e s)) clean = true -> t1 = []) /\
      (t1 = t \/ g_lam_fun (snd (pure_step e s)) = g_lam_fun s)).
    { destruct e as [c|fe fr h a l n1 n2 v1 v2 L1 L2|ev Lv n L1 L2|m0 l n|m0 l n].
      2:{ cbn [stepM]. unfold pure_step. cbn [step clean_after]. pose proof (C72_run h a l n1 n2 v1 v2 fe fr L1 L2 s t C) as T. fold pure_run.
          destruct (pure_run h a l n1 n2 v1 v2 fe fr L1 L2 s) as [[r s'] o]. destruct T as (t' & E & L & C' & CL). unfold memo_run in E. rewrite E.
          exists t'. split; [reflexivity|]. split; [exact C'|]. split; [|right; destruct r; exact L]. destruct r as [[[ev tr] Lv]|x]; cbn [seen fst returned]; [|discriminate].
          intros HH. apply (CL ev tr Lv eq_refl). destruct Lv; [left; now apply HC|right; discriminate]. }
      all: exists t; split; [reflexivity|]; split; [exact C|]; split; [exact HC|now left]. }
    destruct S as (t1 & -> & C1 & HC1 & HT). destruct (pure_step e s) as [o s1]. cbn [fst snd] in *. destruct D as (D1 & D2).
    assert (C2 : coherent (mkX (g_lam_fun s1) t1)).
    { destruct D1 as [D1|D1]; [|now rewrite D1]. destruct HT as [-> |HT]; [rewrite (HC D1); apply coherent_empty|now rewrite HT]. }
    specialize (IH s1 t1 _ C2 HC1 D2). destruct (sessionM flt RP CG eigh inv junk es s1 t1) as [[os s2] t2]. cbn [fst] in IH. now rewrite <- IH.
  Qed.

  (** In a disciplined session the tables are not observable. *)
  Theorem C72_session : forall es s, disciplined es s true -> fst (memo_session es s []) = pure_session es s.
  Proof. intros es s D. apply (session_agrees es s [] true); [apply coherent_empty|reflexivity|exact D]. Qed.

  (** In particular in a session whose runs all return. *)
  Theorem C72_no_exception : forall es s,
    (forall fe fr h a l n1 n2 v1 v2 L1 L2 o, In (Fit fe fr h a l n1 n2 v1 v2 L1 L2, o) (combine es (fst (pure_session es s))) -> raised o = None) ->
    fst (memo_session es s []) = pure_session es s.
  Proof.
    intros es s H. apply C72_session. revert s H. unfold pure_session. induction es as [|e es IH]; intros s H; cbn [disciplined]; [exact I|].
    cbn [session] in H. change (step flt (code_matrices RP CG) eigh inv junk e s) with (pure_step e s) in H.
    assert (Q : clean_after e (fst (pure_step e s)) true = true).
    { destruct e as [c|fe fr h a l n1 n2 v1 v2 L1 L2|ev Lv n L1 L2|m0 l n|m0 l n]; try reflexivity.
      unfold pure_step in *. cbn [step clean_after] in *. destruct (ACM_ScaleOrAdapt _ _ _ _ _ _ _ _ _ _ _ _ _ _ _ _ _) as [[[[[ev tr] [|x Lv]]|x] s1] o]; try reflexivity.
      cbn [seen] in H. destruct (session _ _ _ _ _ es s1) as [os s2]. specialize (H _ _ _ _ _ _ _ _ _ _ _ _ (or_introl eq_refl)). discriminate. }
    destruct (pure_step e s) as [o s1]. cbn [fst] in Q. rewrite Q. split; [now left|]. apply IH. intros fe fr h a l n1 n2 v1 v2 L1 L2 o' I.
    destruct (session _ _ _ _ _ es s1) as [os s2]. cbn [fst] in *. eapply H. right. exact I.
  Qed.

  (** And in a session with one lambda function. *)
  Theorem C72_one_basis : forall es s,
    (forall c, In (Call c) es -> selects_basis c = false) -> fst (memo_session es s []) = pure_session es s.
  Proof.
    intros es s H. apply C72_session. generalize true. revert s H. induction es as [|e es IH]; intros s H clean; cbn [disciplined]; [exact I|].
    assert (Q : g_lam_fun (snd (pure_step e s)) = g_lam_fun s).
    { destruct e as [c|fe fr h a l n1 n2 v1 v2 L1 L2|ev Lv n L1 L2|m0 l n|m0 l n]; unfold pure_step; cbn [step].
      - specialize (H c (or_introl eq_refl)). apply (lambda_keeps flt c s) in H. destruct (perform flt c s). exact H.
      - rewrite snd_seen. pose proof (C72_run h a l n1 n2 v1 v2 fe fr L1 L2 s [] (coherent_empty RP CG _)) as T. fold pure_run.
        destruct (pure_run h a l n1 n2 v1 v2 fe fr L1 L2 s) as [[r s'] o]. destruct T as (_ & _ & L & _). exact L.
      - now rewrite snd_seen, keeps_Show_Eigs.
      - now rewrite snd_seen, keeps_Show_Rats.
      - now rewrite snd_seen, keeps_Show_Amps. }
    destruct (pure_step e s) as [o s1]. split; [now right|]. apply IH. intros c I. apply H. now right.
  Qed.

  Lemma all_return es : forall s,
    (forall fe fr h a l n1 n2 v1 v2 L1 L2 o, In (Fit fe fr h a l n1 n2 v1 v2 L1 L2, o) (combine es (fst (fst (memo_session es s [])))) -> raised o = None) ->
    memo_session es s [] = (pure_session es s, []).
  Proof.
    unfold memo_session, pure_session. induction es as [|e es IH]; intros s H; [reflexivity|].
    cbn [sessionM session] in *. change (step flt (code_matrices RP CG) eigh inv junk e s) with (pure_step e s).
    assert (Q : stepM flt RP CG eigh inv junk e s [] = (pure_step e s, [])).
    { destruct e as [c|fe fr h a l n1 n2 v1 v2 L1 L2|ev Lv n L1 L2|m0 l n|m0 l n]; try reflexivity.
      cbn [stepM] in *. unfold pure_step. cbn [step]. pose proof (C72_run h a l n1 n2 v1 v2 fe fr L1 L2 s [] (coherent_empty RP CG _)) as T. fold pure_run.
      destruct (pure_run h a l n1 n2 v1 v2 fe fr L1 L2 s) as [[r s'] o]. destruct T as (t' & E & _ & _ & CL). unfold memo_run in E. rewrite E in *.
      destruct r as [[[ev tr] Lv]|x]; [rewrite (CL ev tr Lv eq_refl (or_introl eq_refl)); reflexivity|].
      cbn [seen] in H. destruct (sessionM _ _ _ _ _ _ es s' t') as [[os s2] t2]. specialize (H _ _ _ _ _ _ _ _ _ _ _ _ (or_introl eq_refl)). discriminate. }
    rewrite Q in *. destruct (pure_step e s) as [o s1]. rewrite IH.
    - destruct (session _ _ _ _ _ es s1) as [os s2]. reflexivity.
    - intros fe fr h a l n1 n2 v1 v2 L1 L2 o' I. destruct (sessionM _ _ _ _ _ _ es s1 []) as [[os s2] t2]. cbn [fst] in *. eapply H. right. exact I.
  Qed.

  Lemma memo_session_app es1 es2 : forall s t, memo_session (es1 ++ es2) s t =
    let '(o1, s1, t1) := memo_session es1 s t in let '(o2, s2, t2) := memo_session es2 s1 t1 in (o1 ++ o2, s2, t2).
  Proof.
    unfold memo_session. induction es1 as [|e es1 IH]; intros s t; cbn [app sessionM].
    - now destruct (sessionM _ _ _ _ _ _ es2 s t) as [[o2 s2] t2].
    - destruct (stepM _ _ _ _ _ _ e s t) as [[o s1] t1]. rewrite IH. destruct (sessionM _ _ _ _ _ _ es1 s1 t1) as [[o1 s2] t2].
      now destruct (sessionM _ _ _ _ _ _ es2 s2 t2) as [[o2 s3] t3].
  Qed.

  (** After a session whose runs all returned, ACM_set_defaults starts afresh. *)
  Theorem C72_fresh : forall before w after,
    (forall fe fr h a l n1 n2 v1 v2 L1 L2 o,
       In (Fit fe fr h a l n1 n2 v1 v2 L1 L2, o) (combine before (fst (fst (memo_session before imported [])))) -> raised o = None) ->
    let '(seen_before, _, _) := memo_session before imported [] in
    let '(seen_after, s, t) := memo_session after imported [] in
    memo_session (before ++ Call (SetDefaults w) :: after) imported [] =
      (seen_before ++ {| raised := None; returned := None; printed := [] |} :: seen_after, s, t).
  Proof.
    intros b w a H. rewrite memo_session_app. rewrite (all_return b imported H).
    pose proof (session_constant flt (code_matrices RP CG) eigh inv junk b imported (conj eq_refl (conj eq_refl eq_refl))) as K. fold pure_session in K.
    destruct (pure_session b imported) as [ob sb]. cbn [snd] in K. destruct (memo_session a imported []) as [[oa sa] ta] eqn:E.
    unfold memo_session in *. cbn [sessionM stepM step]. rewrite (defaults_constant flt w sb K). now rewrite E.
  Qed.
End Memo.

(** *** The tables observed: the space of [C55_case]. *)

Lemma call_again RP CG n a x P x' : call RP CG n a x = (Ok P, x') -> call RP CG n a x' = (Ok P, x').
Proof.
  unfold call. destruct (memo_get n a (x_memo x)) as [m|] eqn:E.
  - intros H. injection H as <- <-. now rewrite E.
  - destruct (xcompute RP CG (x_lam x) n a) as [m|e]; [|discriminate]. intros H. injection H as <- <-. cbn [x_memo memo_get].
    now rewrite xname_eqb_refl, xargs_eqb_refl.
Qed.

(** The matrix of pi pi, from the matrix [P] that the tables or the computation supply. *)
Lemma rep_pi_pi RP CG x an lb n0 n1 v0 v1 L0 L1 P T x' : let a := mkXA an lb n0 n1 v0 v1 L0 L1 in
  FullOpsBlocks.valid a -> call RP CG NPi a x = (Ok P, x') -> RepXspace_Twin RP CG (x_lam x) [] [] a = Ok T ->
  exists x2, RepXspace RP CG (word [Xspace_Pi; Xspace_Pi]) an lb n0 n1 v0 v1 L0 (Some L1) x
    = (let* Q := matmul P P in let* D := matmul Q T in Ok (mscale 1 D), x2).
Proof.
  intros a Ha EP ET.
  assert (EL : exists X, lbsXspace n0 n1 v0 v1 L0 (Some L1) = Ok X).
  { destruct Ha as (A & B & C). cbn in A, B, C. destruct (C06_layout n0 n1 v0 v1 L0 L1 A B C) as (X & _ & E & _). eauto. }
  destruct EL as (X & EL). pose proof (k_call RP CG NPi a x) as K. rewrite EP in K. cbn [snd] in K.
  unfold RepXspace, word. fold a. unfold bindM at 1, retM at 1. rewrite xa_check_ok by assumption.
  unfold bindM at 1. unfold bindM at 1. rewrite EL. unfold retM at 1. unfold bindM at 1.
  unfold RepXspace_Term at 1. cbn [fst snd]. unfold bindM at 1. unfold RepXspace_Prod. unfold bindM at 1. unfold retM at 1.
  rewrite xa_check_ok by assumption. unfold bindM at 1. cbn [prod_loop nonempty orb]. unfold bindM at 1. unfold retM at 1.
  unfold bindM at 1. rewrite EP.
  unfold bindM at 1, retM at 1. cbn [times]. unfold bindM at 1, retM at 1. unfold bindM at 1. rewrite (call_again _ _ _ _ _ _ _ EP).
  unfold bindM at 1, retM at 1. cbn [times]. destruct (matmul P P) as [Q|e]; cbn [bind]; [|eexists; reflexivity].
  unfold retM at 1. unfold bindM at 1, withlam. rewrite K, ET.
  unfold bindM at 1, retM at 1. cbn [times]. destruct (matmul Q T) as [D|e]; cbn [bind]; eexists; reflexivity.
Qed.

Lemma pi_shape Msqrt Minv lam P : lam = lam_sho \/ lam = lam_acm -> RepXspace_Pi (RPx Msqrt Minv) CGx lam ax = Ok P ->
  (ent P 0 0 = 0 /\ ent P 1 1 = 0 /\ ent P 0 1 = - ent P 1 0)%R.
Proof.
  intros HL EP. destruct (C55_pi_entries _ _ _ ax _ P ax_labels EP) as (_ & _ & V). change (xa_nu_max ax - xa_nu_min ax + 1) with 1 in V.
  split; [exact (V 0 0 0 0 1 1 2 1 1 2 ltac:(lia) ltac:(lia) ltac:(lia) ltac:(lia) eq_refl eq_refl)|].
  split; [exact (V 1 1 0 0 2 1 2 2 1 2 ltac:(lia) ltac:(lia) ltac:(lia) ltac:(lia) eq_refl eq_refl)|].
  assert (X : (sqrt 5 * ent P 0 1 = - (1 * (sqrt 5 * ent P 1 0)))%R).
  { refine (C55_antihermitian gamma0 Msqrt Minv (fun _ => Ok [1%R; 1%R]) [] cg_init lam ax _ P gamma_like_gamma0 ax_labels _ _ EP 0 1 0 0 2 1 2 1 1 2 _ _ _ _ eq_refl eq_refl); try lia.
    - intros v k k' A1 A2 E1 E2. cbn in A1, A2. assert (v = 1) by lia. subst v. destruct HL as [-> | ->]; cbn in E1, E2; injection E1 as <-; injection E2 as <-; reflexivity.
    - intros v k A1 E1. cbn in A1. assert (v = 1 \/ v = 2) as [-> | ->] by lia; destruct HL as [-> | ->]; cbn in E1; injection E1 as <-; cbn [xa_lambda_base ax]; lra.
    - cbn. lia.
    - cbn. lia. }
  pose proof (sqrt_lt_R0 5 ltac:(lra)). apply (Rmult_eq_reg_l (sqrt 5)); [|lra]. rewrite X. ring.
Qed.

Lemma twin_unit Msqrt Minv lam : lam = lam_sho \/ lam = lam_acm -> exists T,
  RepXspace_Twin (RPx Msqrt Minv) CGx lam [] [] ax = Ok T /\ mat_eq T (eye 2).
Proof.
  intros HL. destruct (C52_empty_word gamma0 Msqrt Minv CGx lam ax _ ltac:(cbn; lia) ltac:(cbn; lia) ltac:(cbn; lia) ax_labels) as (TW & _).
  apply TW. intros v al L [E|[E|[]]]; injection E as <- <- <-; destruct HL as [-> | ->]; eexists; (split; [reflexivity|]); cbn [xa_lambda_base ax].
  - lra.
  - change (1 mod 2) with 1. lra.
  - lra.
  - change (2 mod 2) with 0. lra.
Qed.

(** The run with the Hamiltonian pi pi. *)
Lemma fit_pi_pi flt RP CG inv junk s t P T x' :
  call RP CG NPi ax (mkX (g_lam_fun s) t) = (Ok P, x') -> RepXspace_Twin RP CG (g_lam_fun s) [] [] ax = Ok T -> mat_eq T (eye 2) ->
  PropsHarmonics.square 2 P -> (ent P 0 0 = 0 /\ ent P 1 1 = 0 /\ ent P 0 1 = - ent P 1 0)%R ->
  g_eig_num s = 0 -> g_rat_lst s = [] -> g_amp_lst s = [] ->
  exists t', ACM_ScaleOrAdaptM flt RP CG eigh0 inv junk (word [Xspace_Pi; Xspace_Pi]) 1 (5/2) 0 0 1 2 0 0 2 (Some 2) s t
    = (Ok ([[- (ent P 1 0 * ent P 1 0); - (ent P 1 0 * ent P 1 0)]]%R, None, [2]), s, t', []).
Proof.
  intros EP ET TI HP (P0 & P1 & P2) E1 E2 E3. set (c := (ent P 1 0 * ent P 1 0)%R).
  assert (Ha : FullOpsBlocks.valid ax) by (unfold FullOpsBlocks.valid; cbn; lia).
  destruct (rep_pi_pi RP CG (mkX (g_lam_fun s) t) 1 (5/2) 0 0 1 2 2 2 P T x' Ha EP ET) as (x2 & ER).
  assert (ST : PropsHarmonics.square 2 T) by (destruct TI as (A & B & _); split; assumption).
  rewrite (matmul_mm 2) in ER by assumption. cbn [bind] in ER. rewrite (matmul_mm 2) in ER by (try apply mm_square; assumption). cbn [bind] in ER.
  set (D := mscale 1 (mm (mm P P) T)) in *.
  assert (VD : forall i j, 0 <= i < 2 -> 0 <= j < 2 -> ent D i j = if i =? j then (- c)%R else 0%R).
  { intros i j Hi Hj. unfold D, mscale. cbn [ent]. rewrite Rmult_1_l.
    pose proof (mm_ext 2 (mm P P) T (mm P P) (eye 2) (mm_square 2 P P HP HP) ST (mat_eq_refl _) TI) as (_ & _ & M1).
    pose proof (mm_eye_r 2 (mm P P) (mm_square 2 P P HP HP)) as (_ & _ & M2). destruct HP as [X1 X2], ST as [T1 T2].
    rewrite M1 by (cbn [mm nrows ncols]; lia). rewrite M2 by (cbn [mm nrows ncols eye]; lia). unfold mm. cbn [ent]. rewrite X2. change (Z.to_nat 2) with 2%nat. cbn [rsum]. change (Z.of_nat 0) with 0. change (Z.of_nat 1) with 1.
    assert (i = 0 \/ i = 1) as [-> | ->] by lia; assert (j = 0 \/ j = 1) as [-> | ->] by lia; cbn [Z.eqb Pos.eqb]; rewrite ?P0, ?P1, ?P2; unfold c; try ring. }
  assert (DN : nrows D = 2 /\ ncols D = 2) by (destruct HP, ST; split; cbn [D mscale mm nrows ncols]; assumption). destruct DN as (DN & DC).
  set (D' := slice D (1 - 1) 3 (1 - 1) 3).
  assert (ED : Eigenfiddle eigh0 D' = Ok ([- c; - c]%R, eye 2)).
  { assert (DN' : nrows D' = 2) by (unfold D', slice; cbn [nrows]; rewrite DN; reflexivity).
    assert (DC' : ncols D' = 2) by (unfold D', slice; cbn [ncols]; rewrite DC; reflexivity).
    destruct (C47_symmetrised eigh0 D' ltac:(lia)) as (A & EA & A1 & A2 & A3 & A4 & _). rewrite EA. replace (eye 2) with (eye (nrows A)) by (f_equal; lia).
    apply eigh0_diagonal; [rewrite A1; exact DN'| |repeat constructor; lra].
    intros i j Hi Hj. rewrite A4. rewrite A1, DN' in Hi, Hj.
    assert (EE : forall i j, 0 <= i < 2 -> 0 <= j < 2 -> ent D' i j = ent D i j).
    { intros p q Hp Hq. unfold D', slice. cbn [ent]. rewrite DN, DC. change (slice_bound 2 (1 - 1)) with 0. f_equal; lia. }
    rewrite !EE, !VD by lia. assert (i = 0 \/ i = 1) as [-> | ->] by lia; assert (j = 0 \/ j = 1) as [-> | ->] by lia; cbn [Z.eqb Pos.eqb Z.to_nat nth]; try (change (Pos.to_nat 1) with 1%nat; cbn [nth]); lra. }
  assert (DI : DigXspaceM (RepXspace RP CG (word [Xspace_Pi; Xspace_Pi]) 1 (5 / 2) 0 0 1 2) (Eigenfiddle eigh0) (Op_Tame (word [Xspace_Pi; Xspace_Pi])) 0 0 1 2 2 (Some 2) (mkX (g_lam_fun s) t)
     = (Ok ([[- c; - c]%R], [eye 2], [2]), x2)).
  { unfold DigXspaceM. unfold bindM at 1, retM at 1. rewrite !require_range_ok by lia. cbn [bind]. change (Op_Tame (word [Xspace_Pi; Xspace_Pi])) with false. cbv iota.
    unfold bindM at 1. rewrite ER. unfold retM. change (py_range 2 (2 + 1)) with [2]. cbn [dig_full]. change (dimSO5r3_rngV 1 2 2) with (Ok 2). cbn [bind].
    change (0 <? 2) with true. cbv iota. change (dimRadial 0 0) with 1. change (1 + 1 * 2) with 3. fold D'. rewrite ED. reflexivity. }
  exists (x_memo x2). unfold ACM_ScaleOrAdaptM. cbv zeta.
  rewrite !require_nonnegint_ok by lia. rewrite !require_range_ok by lia.
  do 5 (unfold mbind at 1, of_prog at 1, praise at 1). unfold mbind at 1, of_prog at 1, pget at 1.
  change ((0 <? 0) && (0 <? g_eig_num s)) with false. change ((0 <? 0) && (0 <? zlen (g_rat_lst s))) with false. cbv iota.
  do 2 (unfold mbind at 1, of_prog at 1, pret at 1). unfold mbind at 1, of_M at 1. rewrite DI. rewrite E1, E2, E3. cbn. reflexivity.
Qed.

(** Without the condition on the runs before, ACM_set_defaults does not start
    afresh: a run that raises under one basis type leaves the matrix of the
    momentum in the tables, and after ACM_set_defaults a run with the default basis
    type uses it.  Its eigenvalues are -1, -1 in place of -5/7, -5/7. *)
Theorem C72_stale_refuted : forall flt Msqrt Minv inv junk,
  let RP := RadProd (Rep_elem gamma0 Msqrt Minv) in
  let CG := CG_at (fun _ => Ok [1%R; 1%R]) [] cg_init in
  let fit w := Fit 0 0 (word w) 1 (5/2) 0 0 1 2 2 (Some 2) in
  let session es := fst (fst (sessionM flt RP CG eigh0 inv junk es imported [])) in
  let before := [Call (SetBasisType 1 None); fit [Xspace_Pi; ORad (Radial_other 0)]] in
  let after := [Call (SetListln (Some 0) None); fit [Xspace_Pi; Xspace_Pi]] in
  exists o1 o2 o3 o4 o5 p1 p2,
    session (before ++ Call (SetDefaults 0) :: after) = [o1; o2; o3; o4; o5] /\ session after = [p1; p2] /\
    raised o2 = Some ValueError /\
    returned o5 = Some ([[-1; -1]]%R, None, [2]) /\ returned p2 = Some ([[-5/7; -5/7]]%R, None, [2]).
Proof.
  intros flt Msqrt Minv inv junk RP CG fit ses before after. destruct (pi_case Msqrt Minv) as (P & Q & EP & EQ & SP & SQ & _).
  assert (Ha : FullOpsBlocks.valid ax) by (unfold FullOpsBlocks.valid; cbn; lia).
  pose proof (pi_shape Msqrt Minv lam_sho P (or_introl eq_refl) EP) as PP. pose proof (pi_shape Msqrt Minv lam_acm Q (or_intror eq_refl) EQ) as PQ.
  destruct (twin_unit Msqrt Minv lam_acm (or_intror eq_refl)) as (T & ET & TI).
  change (RPx Msqrt Minv) with RP in *. change CGx with CG in *.
  assert (HP : PropsHarmonics.square 2 P) by (apply (X_square RP CG lam_sho ax Ha NPi); exact EP).
  assert (HQ : PropsHarmonics.square 2 Q) by (apply (X_square RP CG lam_acm ax Ha NPi); exact EQ).
  set (s1 := snd (perform flt (SetBasisType 1 None) imported)).
  set (s2 := snd (perform flt (SetListln (Some 0) None) imported)).
  assert (F2 : exists t', ACM_ScaleOrAdaptM flt RP CG eigh0 inv junk (word [Xspace_Pi; ORad (Radial_other 0)]) 1 (5/2) 0 0 1 2 0 0 2 (Some 2) s1 []
    = (Raise ValueError, s1, t', []) /\ t' = [(NPi, ax, P)]).
  { assert (E1 : RepXspace RP CG (word [Xspace_Pi; ORad (Radial_other 0)]) 1 (5/2) 0 0 1 2 2 (Some 2) (mkX lam_sho [])
      = (Raise ValueError, mkX lam_sho [(NPi, ax, P)])).
    { assert (EL : exists X, lbsXspace 0 0 1 2 2 (Some 2) = Ok X) by (eexists; reflexivity). destruct EL as (X & EL).
      unfold RepXspace, word. fold ax. unfold bindM at 1, retM at 1. rewrite xa_check_ok by assumption.
      unfold bindM at 1. unfold bindM at 1. rewrite EL. unfold retM at 1. unfold bindM at 1.
      unfold RepXspace_Term. cbn [fst snd]. unfold bindM at 1. unfold RepXspace_Prod. unfold bindM at 1. unfold retM at 1.
      rewrite xa_check_ok by assumption. unfold bindM at 1. cbn [prod_loop nonempty orb]. unfold bindM at 1. unfold retM at 1.
      unfold bindM at 1. unfold call. cbn [x_memo memo_get x_lam xcompute]. rewrite EP.
      unfold bindM at 1, retM at 1. cbn [times]. unfold bindM at 1, retM at 1. unfold retM at 1. reflexivity. }
    exists [(NPi, ax, P)]. split; [|reflexivity]. unfold ACM_ScaleOrAdaptM. cbv zeta.
    rewrite !require_nonnegint_ok by lia. rewrite !require_range_ok by lia.
    do 5 (unfold mbind at 1, of_prog at 1, praise at 1). unfold mbind at 1, of_prog at 1, pget at 1.
    change ((0 <? 0) && (0 <? g_eig_num s1)) with false. change ((0 <? 0) && (0 <? zlen (g_rat_lst s1))) with false. cbv iota.
    do 2 (unfold mbind at 1, of_prog at 1, pret at 1). unfold mbind at 1, of_M at 1. change (g_lam_fun s1) with lam_sho.
    unfold DigXspaceM. unfold bindM at 1, retM at 1. rewrite !require_range_ok by lia. cbn [bind].
    change (Op_Tame (word [Xspace_Pi; ORad (Radial_other 0)])) with false. cbv iota. unfold bindM at 1. rewrite E1. reflexivity. }
  destruct F2 as (t' & F2 & ->).
  assert (F5 : exists t2, ACM_ScaleOrAdaptM flt RP CG eigh0 inv junk (word [Xspace_Pi; Xspace_Pi]) 1 (5/2) 0 0 1 2 0 0 2 (Some 2) s2 [(NPi, ax, P)]
    = (Ok ([[-1; -1]]%R, None, [2]), s2, t2, [])).
  { destruct (fit_pi_pi flt RP CG inv junk s2 [(NPi, ax, P)] P T (mkX lam_acm [(NPi, ax, P)])) as (t2 & E); try assumption; try reflexivity.
    - unfold call. cbn [x_memo memo_get]. rewrite xname_eqb_refl, xargs_eqb_refl. reflexivity.
    - exists t2. rewrite E. rewrite SP. replace (- (1))%R with (-1)%R by lra. reflexivity. }
  destruct F5 as (t2 & F5).
  assert (G2 : exists t3, ACM_ScaleOrAdaptM flt RP CG eigh0 inv junk (word [Xspace_Pi; Xspace_Pi]) 1 (5/2) 0 0 1 2 0 0 2 (Some 2) s2 []
    = (Ok ([[-5/7; -5/7]]%R, None, [2]), s2, t3, [])).
  { destruct (fit_pi_pi flt RP CG inv junk s2 [] Q T (mkX lam_acm [(NPi, ax, Q)])) as (t3 & E); try assumption; try reflexivity.
    - unfold call. cbn [x_memo memo_get x_lam xcompute]. change (g_lam_fun s2) with lam_acm. rewrite EQ. reflexivity.
    - exists t3. rewrite E. rewrite SQ. replace (- (5 / 7))%R with (-5 / 7)%R by lra. reflexivity. }
  destruct G2 as (t3 & G2).
  assert (D : perform flt (SetDefaults 0) s1 = (None, imported)) by (apply defaults_constant; repeat split; reflexivity).
  unfold ses, before, after, fit. cbn [app sessionM stepM step].
  change (perform flt (SetBasisType 1 None) imported) with (@None exn, s1). cbv iota beta. rewrite F2. cbn [seen]. rewrite D.
  change (perform flt (SetListln (Some 0) None) imported) with (@None exn, s2). cbv iota beta. rewrite F5, G2. cbn [seen fst].
  do 7 eexists. split; [reflexivity|]. split; [reflexivity|]. split; [reflexivity|]. split; reflexivity.
Qed.

(** A session that meets the condition of [C72_fresh], with the momentum in its
    Hamiltonian. *)
Example C72_example : forall flt Msqrt Minv inv junk,
  let RP := RadProd (Rep_elem gamma0 Msqrt Minv) in
  let CG := CG_at (fun _ => Ok [1%R; 1%R]) [] cg_init in
  let after := [Call (SetListln (Some 0) None); Fit 0 0 (word [Xspace_Pi; Xspace_Pi]) 1 (5/2) 0 0 1 2 2 (Some 2)] in
  exists o1 o2, fst (fst (sessionM flt RP CG eigh0 inv junk after imported [])) = [o1; o2] /\
    raised o2 = None /\ returned o2 = Some ([[-5/7; -5/7]]%R, None, [2]).
Proof.
  intros. destruct (C72_stale_refuted flt Msqrt Minv inv junk) as (o1 & o2 & o3 & o4 & o5 & p1 & p2 & _ & E & _ & _ & R2).
  exists p1, p2. split; [exact E|]. split; [|exact R2].
  cbn [sessionM stepM step] in E. destruct (perform flt (SetListln (Some 0) None) imported) as [x s].
  destruct (ACM_ScaleOrAdaptM _ _ _ _ _ _ _ _ _ _ _ _ _ _ _ _ _ s []) as [[[r s'] t'] o]. destruct r; cbn [seen fst] in E; injection E as _ <-; [reflexivity|discriminate].
Qed.

Print Assumptions C72_run.
Print Assumptions C72_session.
Print Assumptions C72_no_exception.
Print Assumptions C72_one_basis.
Print Assumptions C72_fresh.
Print Assumptions C72_stale_refuted.
