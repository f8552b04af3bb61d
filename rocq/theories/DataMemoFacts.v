(** Facts about the model of DataMemo.v. *)

From Coq Require Import Reals Lra FunctionalExtensionality.
From Coq Require Import Lia ZifyBool ZifyNat.
From Verif Require Import PyBase PyFacts Compat PyDict Text SO5Files Matrix SphericalSpec Spherical FullLabels RadialOps Operators
  FullOps CG CGSpec PropsFiles CGFacts PropsCG PropsHarmonics FullOpsMemo DataMemo.
Open Scope Z_scope.
Ltac Zify.zify_post_hook ::= Z.div_mod_to_equations.

(** ** What has been loaded stays *)

Definition cgle (a b : cg_state) : Prop := forall key t, found a key = Some t -> found b key = Some t.

Lemma cgle_refl a : cgle a a.
Proof. intros key t H. exact H. Qed.
Lemma cgle_trans a b c : cgle a b -> cgle b c -> cgle a c.
Proof. intros H K key t E. now apply K, H. Qed.
Lemma cgle_add a key t : found a key = None -> cgle a (add_table a key t).
Proof. intros N key' t' E. rewrite found_add. destruct (quintet_eq_dec key key') as [<-|]; [congruence|exact E]. Qed.
Lemma cgle_dir a d : cgle a (set_base_directory d a).
Proof. intros key t E. exact E. Qed.

Section Facts.
  Variable home : text.

  Lemma CGn_settled F cg n x cg1 : CGn F home cg n = (Ok x, cg1) ->
    forall F' cg', cgle cg1 cg' -> CGn F' home cg' n = (Ok x, cg').
  Proof.
    intros E F' cg' LE.
    assert (D : legal_nonet n \/ ~ legal_nonet n) by (unfold legal_nonet; lia).
    destruct D as [D|D]; [|rewrite CGn_illegal in E by assumption; discriminate].
    rewrite CGn_legal in E |- * by assumption. destruct (admissible_dec n) as [A|A]; [|injection E as <- _; reflexivity].
    destruct (found cg (nkey n)) as [t|] eqn:Ef.
    - injection E as E <-. now rewrite (LE _ _ Ef), E.
    - destruct (tbl F (get_base_directory home cg) (nkey n)) as [t|] eqn:Et; [|discriminate].
      injection E as E <-. rewrite (LE (nkey n) t); [now rewrite E|].
      rewrite found_add. now destruct (quintet_eq_dec (nkey n) (nkey n)).
  Qed.

  Lemma CGn_grows F cg n : cgle cg (snd (CGn F home cg n)) /\ base_directory (snd (CGn F home cg n)) = base_directory cg.
  Proof.
    assert (D : legal_nonet n \/ ~ legal_nonet n) by (unfold legal_nonet; lia).
    destruct D as [D|D]; [|rewrite CGn_illegal by assumption; split; [apply cgle_refl|reflexivity]].
    rewrite CGn_legal by assumption. destruct (admissible_dec n) as [A|A]; [|split; [apply cgle_refl|reflexivity]].
    destruct (found cg (nkey n)) as [t|] eqn:Ef; [split; [apply cgle_refl|reflexivity]|].
    destruct (tbl F (get_base_directory home cg) (nkey n)) as [t|]; cbn [snd]; (split; [|reflexivity]); [now apply cgle_add|apply cgle_refl].
  Qed.

  Definition non v1 a1 L1 v2 a2 L2 v3 a3 L3 : nonet :=
    {| n_v1 := v1; n_a1 := a1; n_L1 := L1; n_v2 := v2; n_a2 := a2; n_L2 := L2; n_v3 := v3; n_a3 := a3; n_L3 := L3 |}.

  Lemma load_grows F cg v1 v2 a2 L2 v3 : cgle cg (snd (load_CG_table F home cg v1 v2 a2 L2 v3)).
  Proof.
    destruct (step_load F home cg v1 v2 a2 L2 v3) as [(-> & _)|(_ & N & t & _ & ->)]; [apply cgle_refl|now apply cgle_add].
  Qed.

  (** ** Running without tables *)

  Lemma plain_grows A (m : code A) : forall F cg, cgle cg (snd (run_plain home m F cg)).
  Proof.
    induction m as [A r|A v1 a1 L1 v2 a2 L2 v3 a3 L3 k IH|A key c IHc k IHk|A which k IH]; intros F cg; cbn [run_plain].
    - apply cgle_refl.
    - pose proof (proj1 (CGn_grows F cg (non v1 a1 L1 v2 a2 L2 v3 a3 L3))) as G. unfold CGn, non in G. cbn [n_v1 n_a1 n_L1 n_v2 n_a2 n_L2 n_v3 n_a3 n_L3] in G.
      destruct (CG_SO5r3 _ _ _ _ _ _ _ _ _ _ _ _) as [[x|e] cg']; cbn [snd] in *; [|exact G].
      eapply cgle_trans; [exact G|apply IH].
    - specialize (IHc F cg). destruct (run_plain home c F cg) as [[M|e] cg']; cbn [snd] in *; [|exact IHc].
      eapply cgle_trans; [exact IHc|apply IHk].
    - apply IH.
  Qed.

  Lemma plain_settled A (m : code A) : forall F cg a cg1, run_plain home m F cg = (Ok a, cg1) ->
    forall F' cg', cgle cg1 cg' -> run_plain home m F' cg' = (Ok a, cg').
  Proof.
    induction m as [A r|A v1 a1 L1 v2 a2 L2 v3 a3 L3 k IH|A key c IHc k IHk|A which k IH]; intros F cg a cg1 E F' cg' LE; cbn [run_plain] in *.
    - injection E as -> _. reflexivity.
    - destruct (CG_SO5r3 F home cg _ _ _ _ _ _ _ _ _) as [[x|e] cg2] eqn:E2; [|discriminate].
      pose proof (plain_grows _ (k x) F cg2) as G. rewrite E in G. cbn [snd] in G.
      pose proof (CGn_settled F cg (non v1 a1 L1 v2 a2 L2 v3 a3 L3) x cg2 E2 F' cg' (cgle_trans _ _ _ G LE)) as S.
      unfold CGn, non in S. cbn [n_v1 n_a1 n_L1 n_v2 n_a2 n_L2 n_v3 n_a3 n_L3] in S. rewrite S.
      eapply IH; eassumption.
    - destruct (run_plain home c F cg) as [[M|e] cg2] eqn:E2; [|discriminate].
      pose proof (plain_grows _ (k M) F cg2) as G. rewrite E in G. cbn [snd] in G.
      rewrite (IHc _ _ _ _ E2 F' cg' (cgle_trans _ _ _ G LE)). eapply IHk; eassumption.
    - eapply IH; eassumption.
  Qed.

  (** ** Running with tables *)

  Section Tables.
    Variable body : rkey -> code (mat R).

    Fixpoint wf {A} (m : code A) : Prop :=
      match m with
      | Done _ => True
      | Coefficient _ _ _ _ _ _ _ _ _ k => forall x, wf (k x)
      | Cached key c k => c = body key /\ wf c /\ forall M, wf (k M)
      | Clear _ k => wf k
      end.

    Lemma wf_andthen {A B} (m : code A) : forall f : A -> code B, wf m -> (forall a, wf (f a)) -> wf (andthen m f).
    Proof.
      induction m as [A r|A v1 a1 L1 v2 a2 L2 v3 a3 L3 k IH|A key c IHc k IHk|A which k IH]; intros f W Hf; cbn [andthen wf] in *.
      - destruct r; [apply Hf|exact I].
      - intros x. now apply IH.
      - destruct W as (W1 & W2 & W3). split; [exact W1|]. split; [exact W2|]. intros M. now apply IHk.
      - now apply IH.
    Qed.

    Lemma wf_mapC {X A} (f : X -> code A) l : (forall x, wf (f x)) -> wf (mapC f l).
    Proof.
      intros H. induction l as [|x l IH]; cbn [mapC]; [exact I|]. apply wf_andthen; [apply H|].
      intros a. apply wf_andthen; [exact IH|]. intros. exact I.
    Qed.

    Lemma wf_forC {X S} (body' : X -> S -> code S) l : (forall x s, wf (body' x s)) -> forall s, wf (forC l body' s).
    Proof.
      intros H. induction l as [|x l IH]; intros s; cbn [forC]; [exact I|]. apply wf_andthen; [apply H|]. intros. apply IH.
    Qed.

    (** Every remembered matrix is what its body returns, from now on. *)
    Definition inv (cg : cg_state) (t : tables) : Prop :=
      forall key M, dict_get rkey_eq_dec t key = Some M ->
        forall F cg', cgle cg cg' -> run_plain home (body key) F cg' = (Ok M, cg').

    Lemma inv_grow cg cg' t : cgle cg cg' -> inv cg t -> inv cg' t.
    Proof. intros LE I key M E F cg2 LE2. apply (I key M E). eapply cgle_trans; eassumption. Qed.

    Lemma dict_get_filter (which : rkey -> bool) (t : tables) key :
      dict_get rkey_eq_dec (filter (fun p => negb (which (fst p))) t) key = if which key then None else dict_get rkey_eq_dec t key.
    Proof.
      induction t as [|[k v] t IH]; cbn [filter dict_get fst]; [now destruct (which key)|].
      destruct (which k) eqn:Ek; cbn [negb dict_get].
      - rewrite IH. destruct (rkey_eq_dec k key) as [->|]; [now rewrite Ek|reflexivity].
      - destruct (rkey_eq_dec k key) as [->|]; [now rewrite Ek|exact IH].
    Qed.

    Lemma run_ok A (m : code A) : wf m -> forall F cg t, inv cg t ->
      exists t', run home m F cg t = (run_plain home m F cg, t') /\ inv (snd (run_plain home m F cg)) t'.
    Proof.
      induction m as [A r|A v1 a1 L1 v2 a2 L2 v3 a3 L3 k IH|A key c IHc k IHk|A which k IH]; intros W F cg t I; cbn [run run_plain wf] in *.
      - eauto.
      - pose proof (proj1 (CGn_grows F cg (non v1 a1 L1 v2 a2 L2 v3 a3 L3))) as G. unfold CGn, non in G. cbn [n_v1 n_a1 n_L1 n_v2 n_a2 n_L2 n_v3 n_a3 n_L3] in G.
        destruct (CG_SO5r3 _ _ _ _ _ _ _ _ _ _ _ _) as [[x|e] cg']; cbn [snd] in *.
        + apply IH; [apply W|]. eapply inv_grow; eassumption.
        + eexists. split; [reflexivity|]. eapply inv_grow; eassumption.
      - destruct W as (-> & W2 & W3). destruct (dict_get rkey_eq_dec t key) as [M|] eqn:Et.
        + rewrite (I key M Et F cg (cgle_refl _)). now apply IHk.
        + destruct (IHc W2 F cg t I) as (t1 & E1 & I1). rewrite E1.
          destruct (run_plain home (body key) F cg) as [[M|e] cg'] eqn:E2; cbn [snd] in *.
          * apply IHk; [apply W3|]. intros key' M' E'. rewrite dict_get_set in E'.
            destruct (rkey_eq_dec key key') as [<-|].
            -- injection E' as <-. intros F' cg2 LE. eapply plain_settled; eassumption.
            -- apply I1, E'.
          * eauto.
      - apply IH; [exact W|]. intros key M E. rewrite dict_get_filter in E. destruct (which key); [discriminate|]. now apply I.
    Qed.
  End Tables.

  (** ** With given coefficients *)

  Section Answer.
    Variable CG : Z -> Z -> Z -> Z -> Z -> Z -> Z -> Z -> Z -> res R.

    Fixpoint answer {A} (m : code A) : res A :=
      match m with
      | Done r => r
      | Coefficient v1 a1 L1 v2 a2 L2 v3 a3 L3 k =>
          match CG v1 a1 L1 v2 a2 L2 v3 a3 L3 with Ok x => answer (k x) | Raise e => Raise e end
      | Cached _ c k => match answer c with Ok M => answer (k M) | Raise e => Raise e end
      | Clear _ k => answer k
      end.

    Lemma answer_andthen {A B} (m : code A) : forall f : A -> code B,
      answer (andthen m f) = let* x := answer m in answer (f x).
    Proof.
      induction m as [A r|A v1 a1 L1 v2 a2 L2 v3 a3 L3 k IH|A key c IHc k IHk|A which k IH]; intros f; cbn [andthen answer].
      - destruct r; reflexivity.
      - destruct (CG _ _ _ _ _ _ _ _ _); [apply IH|reflexivity].
      - destruct (answer c); [apply IHk|reflexivity].
      - apply IH.
    Qed.

    Lemma answer_mapC {X A} (f : X -> code A) (g : X -> res A) l : (forall x, answer (f x) = g x) -> answer (mapC f l) = mapM g l.
    Proof.
      intros H. induction l as [|x l IH]; cbn [mapC mapM answer]; [reflexivity|].
      rewrite answer_andthen, H. destruct (g x); cbn [bind]; [|reflexivity].
      rewrite answer_andthen, IH. reflexivity.
    Qed.

    Lemma answer_forC {X S} (f : X -> S -> code S) (g : X -> S -> res S) l : (forall x s, answer (f x s) = g x s) ->
      forall s, answer (forC l f s) = for_ l g s.
    Proof.
      intros H. induction l as [|x l IH]; intros s; cbn [forC for_ answer]; [reflexivity|].
      rewrite answer_andthen, H. destruct (g x s); cbn [bind]; [apply IH|reflexivity].
    Qed.

    Lemma answer_CGC v1 a1 L1 v2 a2 L2 v3 a3 L3 : answer (CGC v1 a1 L1 v2 a2 L2 v3 a3 L3) = CG v1 a1 L1 v2 a2 L2 v3 a3 L3.
    Proof. cbn. now destruct (CG _ _ _ _ _ _ _ _ _). Qed.

    Lemma bind_ext {A B} (m : res A) (f g : A -> res B) : (forall a, f a = g a) -> bind m f = bind m g.
    Proof. intros H. destruct m; cbn [bind]; [apply H|reflexivity]. Qed.

    Lemma answer_ME v_f al_f L_f v al L v_i al_i L_i :
      answer (ME_SO5r3C v_f al_f L_f v al L v_i al_i L_i) = ME_SO5r3 CG v_f al_f L_f v al L v_i al_i L_i.
    Proof.
      unfold ME_SO5r3C, ME_SO5r3. rewrite answer_andthen, answer_CGC. apply bind_ext. intros c.
      rewrite answer_andthen. reflexivity.
    Qed.

    Lemma answer_Y v al L v_min v_max L_min L_max :
      answer (Y_body v al L v_min v_max L_min L_max) = RepSO5_Y CG v al L v_min v_max L_min L_max.
    Proof.
      unfold Y_body, RepSO5_Y. rewrite answer_andthen. cbn [answer]. apply bind_ext. intros states.
      rewrite answer_andthen. erewrite answer_mapC; [apply bind_ext; reflexivity|].
      intros [[vf af] Lf]. apply answer_mapC. intros [[vi ai] Li]. rewrite answer_andthen, answer_ME. reflexivity.
    Qed.

    Lemma answer_Y_rem v al L v_min v_max L_min L_max :
      answer (RepSO5_Y_rem v al L v_min v_max L_min L_max) = RepSO5_Y CG v al L v_min v_max L_min L_max.
    Proof. unfold RepSO5_Y_rem. cbn [answer]. rewrite answer_Y. now destruct (RepSO5_Y _ _ _ _ _ _ _ _). Qed.

    Lemma answer_ys y v_min v_max L_min L_max : answer (ys_matC y v_min v_max L_min L_max) = ys_mat CG y v_min v_max L_min L_max.
    Proof.
      destruct y as [s|v al L]; cbn [ys_matC ys_mat]; [|apply answer_Y_rem].
      destruct s; try reflexivity. destruct (SpHarm_Table h) as [[v al] L]. apply answer_Y_rem.
    Qed.

    Lemma answer_wrk ys v_min v_max L_min L_max :
      answer (RepSO5r3_Prod_wrk ys v_min v_max L_min L_max) = RepSO5r3_Prod CG ys v_min v_max L_min L_max.
    Proof.
      destruct ys as [|y ys]; cbn [RepSO5r3_Prod_wrk RepSO5r3_Prod]; rewrite answer_andthen; [reflexivity|].
      rewrite answer_ys.
      erewrite bind_ext.
      2:{ intros M0. apply answer_forC. intros y' P. rewrite answer_andthen, answer_ys. cbn [answer]. reflexivity. }
      destruct (ys_mat CG y v_min v_max L_min L_max) as [M0|e]; cbn [bind].
      - revert M0. induction ys as [|z ys IH]; intros M0; cbn [for_ fold_left bind]; [reflexivity|].
        destruct (ys_mat CG z v_min v_max L_min L_max) as [M1|e]; cbn [bind].
        + destruct (matmul M0 M1) as [M2|e]; cbn [bind]; [apply IH|].
          clear. induction ys as [|z ys IH]; cbn [fold_left bind]; [reflexivity|exact IH].
        + clear. induction ys as [|z ys IH]; cbn [fold_left bind]; [reflexivity|exact IH].
      - reflexivity.
    Qed.

    Lemma answer_Prod_rem ys v_min v_max L_min L_max :
      answer (RepSO5r3_Prod_rem ys v_min v_max L_min L_max) = RepSO5r3_Prod CG ys v_min v_max L_min L_max.
    Proof. unfold RepSO5r3_Prod_rem. cbn [answer]. rewrite answer_wrk. now destruct (RepSO5r3_Prod _ _ _ _ _ _). Qed.

    Lemma answer_Prod ys v_min v_max L_min L_max :
      answer (RepSO5r3_ProdC ys v_min v_max L_min L_max) = RepSO5r3_Prod CG ys v_min v_max L_min L_max.
    Proof. unfold RepSO5r3_ProdC. rewrite answer_andthen, answer_wrk. now destruct (RepSO5r3_Prod _ _ _ _ _ _). Qed.

    Variable RP : list rsym -> R -> R -> Z -> Z -> Z -> Z -> res (mat R).
    Variable lam : Z -> res Z.

    Ltac ans := repeat (rewrite ?answer_andthen, ?answer_CGC; cbn [answer]; cbn zeta;
      first [ apply bind_ext; intros [[? ?] ?] | apply bind_ext; intros ? | reflexivity
            | apply answer_forC; intros ? ?
            | match goal with |- answer (if ?b then _ else _) = _ => destruct b end ]).

    Lemma answer_Twin rad sph a : answer (RepXspace_TwinC RP lam rad sph a) = RepXspace_Twin RP CG lam rad sph a.
    Proof.
      unfold RepXspace_TwinC, RepXspace_Twin. do 3 (rewrite answer_andthen; cbn [answer]; apply bind_ext; intros ?).
      rewrite answer_andthen, answer_Prod_rem. reflexivity.
    Qed.

    Lemma answer_Pi a : answer (Pi_body RP lam a) = RepXspace_Pi RP CG lam a.
    Proof. unfold Pi_body, RepXspace_Pi. ans. Qed.

    Lemma answer_PiPi L a : answer (PiPi_body RP lam L a) = RepXspace_PiPi RP CG lam L a.
    Proof. unfold PiPi_body, RepXspace_PiPi. ans. Qed.

    Lemma answer_Qi v_i v_f v_int : answer (QixQxQredC v_i v_f v_int) = QixQxQred CG v_i v_f v_int.
    Proof.
      unfold QixQxQredC, QixQxQred. do 6 (rewrite answer_andthen; cbn [answer]; cbn zeta; apply bind_ext; intros ?).
      rewrite answer_andthen. erewrite answer_mapC; [apply bind_ext; intros ?; ans|].
      intros [[? ?] ?]. ans.
    Qed.

    Lemma answer_PiqPi a : answer (PiqPi_body RP lam a) = RepXspace_PiqPi RP CG lam a.
    Proof. unfold PiqPi_body, RepXspace_PiqPi. repeat (ans; rewrite ?answer_andthen, ?answer_Qi). Qed.

    Lemma answer_full n a : answer (full_body RP lam n a) = xcompute RP CG lam n a.
    Proof. destruct n; [apply answer_Pi|apply answer_PiPi|apply answer_PiqPi]. Qed.

    Lemma answer_call n a : answer (callC RP lam n a) = xcompute RP CG lam n a.
    Proof. unfold callC. cbn [answer]. rewrite answer_full. now destruct (xcompute _ _ _ _ _). Qed.

    Lemma answer_loop a ops : forall r nu sph,
      answer (prod_loopC RP lam a ops r nu sph) = pureM (prod_loop RP CG a ops r nu sph) lam.
    Proof.
      induction ops as [|op ops IH]; intros r nu sph; [reflexivity|].
      assert (Q : forall b : bool, answer (if b then py* T <- RepXspace_TwinC RP lam nu sph a ;; Done (times r T) else Done (Ok r))
        = pureM (if b then bindM (withlam (fun lam => RepXspace_Twin RP CG lam nu sph a)) (fun T => retM (times r T)) else retM (Ok r)) lam).
      { intros [|]; [|reflexivity]. rewrite answer_andthen, answer_Twin.
        unfold pureM, bindM, withlam. cbn [x_lam]. now destruct (RepXspace_Twin _ _ _ _ _ _). }
      assert (T : forall b : bool, transparent RP CG (if b then bindM (withlam (fun lam => RepXspace_Twin RP CG lam nu sph a)) (fun T => retM (times r T)) else retM (Ok r))).
      { intros b. apply t_if; [apply t_bind; [apply t_withlam|intros; apply t_ret]|apply t_ret]. }
      assert (F : forall n, answer
          (py* run' <- (if nonempty nu || nonempty sph
                       then py* T <- RepXspace_TwinC RP lam nu sph a ;; Done (times r T)
                       else Done (Ok r)) ;;
          py* X <- callC RP lam n a ;;
          py* run'' <- Done (times run' X) ;;
          prod_loopC RP lam a ops run'' [] [])
        = pureM (bindM (if nonempty nu || nonempty sph
                 then bindM (withlam (fun lam => RepXspace_Twin RP CG lam nu sph a))
                        (fun T => retM (times r T))
                 else retM (Ok r)) (fun run' =>
          bindM (FullOps.call RP CG n a) (fun X =>
          bindM (retM (times run' X)) (fun run'' => prod_loop RP CG a ops run'' [] [])))) lam).
      { intros n. rewrite (p_bind RP CG); [|apply T|].
        2:{ intros run'. apply t_bind; [apply t_call|]. intros X. apply t_bind; [apply t_ret|]. intros. apply t_loop. }
        rewrite answer_andthen, Q. apply bind_ext. intros run'.
        rewrite (p_bind RP CG); [|apply t_call|].
        2:{ intros X. apply t_bind; [apply t_ret|]. intros. apply t_loop. }
        rewrite answer_andthen, answer_call, (proj2 (t_call RP CG n a)). apply bind_ext. intros X.
        rewrite (p_bind RP CG); [|apply t_ret|intros; apply t_loop].
        rewrite answer_andthen. cbn [answer]. apply bind_ext. intros. apply IH. }
      cbn [prod_loopC prod_loop]. cbn zeta. destruct op as [s|h| | | | | |]; try apply IH; try apply F.
      destruct s; try apply IH.
      rewrite (p_bind RP CG); [|apply T|intros; apply t_ret]. rewrite answer_andthen, Q. reflexivity.
    Qed.

    Lemma answer_word w a : answer (RepXspace_ProdC RP lam w a) = pureM (RepXspace_Prod RP CG w a) lam.
    Proof.
      unfold RepXspace_ProdC, RepXspace_Prod.
      assert (T : forall st : option (mat R) * list rsym * list osym, transparent RP CG (let '(run, nu_ops, sph_ops) := st in
        bindM (withlam (fun lam => RepXspace_Twin RP CG lam nu_ops sph_ops a)) (fun T =>
        bindM (retM (times run T)) (fun run' =>
        match run' with
        | Some P => retM (Ok P)
        | None => retM (Raise AssertionError)
        end)))).
      { intros [[run nu] sph]. apply t_bind; [apply t_withlam|]. intros T. apply t_bind; [apply t_ret|]. intros [P|]; apply t_ret. }
      rewrite (p_bind RP CG); [|apply t_ret|intros; apply t_bind; [apply t_loop|exact T]].
      rewrite answer_andthen. cbn [answer]. apply bind_ext. intros _.
      rewrite (p_bind RP CG); [|apply t_loop|exact T]. rewrite answer_andthen, answer_loop. apply bind_ext.
      intros [[run nu] sph]. rewrite answer_andthen, answer_Twin.
      unfold pureM, bindM, withlam, retM. cbn [x_lam]. destruct (RepXspace_Twin _ _ _ _ _ _) as [X|]; cbn [bind]; [|reflexivity].
      rewrite answer_andthen. cbn [answer]. destruct (times run X) as [[P|]|]; reflexivity.
    Qed.

    Lemma answer_term t X a : answer (RepXspace_TermC RP lam t X a) = pureM (RepXspace_Term RP CG t X a) lam.
    Proof.
      unfold RepXspace_TermC, RepXspace_Term. rewrite (p_bind RP CG); [|apply t_Prod|].
      2:{ intros Rm. destruct (fst t); [apply t_ret|]. cbn zeta. apply t_if; apply t_ret. }
      rewrite answer_andthen, answer_word. apply bind_ext. intros Rm. destruct (fst t); [reflexivity|]. cbn zeta.
      destruct (_ =? _); reflexivity.
    Qed.

    Lemma t_terms_loop ts X a : forall acc, transparent RP CG (terms_loop RP CG ts X a acc).
    Proof.
      induction ts as [|t ts IH]; intros acc; cbn [terms_loop]; [apply t_ret|]. apply t_bind; [apply t_Term|]. intros. apply IH.
    Qed.

    Lemma answer_terms ts X a : forall acc, answer (terms_loopC RP lam ts X a acc) = pureM (terms_loop RP CG ts X a acc) lam.
    Proof.
      induction ts as [|t ts IH]; intros acc; cbn [terms_loopC terms_loop]; [reflexivity|].
      rewrite (p_bind RP CG); [|apply t_Term|intros; apply t_terms_loop].
      rewrite answer_andthen, answer_term. apply bind_ext. intros. apply IH.
    Qed.

    Lemma answer_Xspace op an lb n0 n1 v0 v1 L Lm :
      answer (RepXspaceC RP lam op an lb n0 n1 v0 v1 L Lm) = pureM (RepXspace RP CG op an lb n0 n1 v0 v1 L Lm) lam.
    Proof.
      unfold RepXspaceC, RepXspace. set (LM := match Lm with None => L | Some l => l end).
      set (a := mkXA an lb n0 n1 v0 v1 L LM).
      assert (T : transparent RP CG (match op with
           | [] => retM (let* d := dimXspace n0 n1 v0 v1 L (Some LM) in Ok (zeros d))
           | t :: ts =>
               bindM (retM (lbsXspace n0 n1 v0 v1 L (Some LM))) (fun Xlabels =>
               bindM (RepXspace_Term RP CG t Xlabels a) (fun M0 => terms_loop RP CG ts Xlabels a M0))
           end)).
      { destruct op as [|t ts]; [apply t_ret|]. apply t_bind; [apply t_ret|]. intros X. apply t_bind; [apply t_Term|]. intros. apply t_terms_loop. }
      assert (T2 : forall Rmat : mat R, transparent RP CG (bindM clear (fun _ => retM (Ok Rmat)))).
      { intros. apply t_bind; [apply t_clear|]. intros. apply t_ret. }
      rewrite (p_bind RP CG); [|apply t_ret|intros; apply t_bind; [exact T|exact T2]].
      rewrite answer_andthen. cbn [answer]. apply bind_ext. intros _.
      rewrite (p_bind RP CG); [|exact T|exact T2]. rewrite answer_andthen.
      assert (E : answer match op with
           | [] => Done (let* d := dimXspace n0 n1 v0 v1 L (Some LM) in Ok (zeros d))
           | t :: ts =>
               py* Xlabels <- Done (lbsXspace n0 n1 v0 v1 L (Some LM)) ;;
               py* M0 <- RepXspace_TermC RP lam t Xlabels a ;; terms_loopC RP lam ts Xlabels a M0
           end = pureM (match op with
           | [] => retM (let* d := dimXspace n0 n1 v0 v1 L (Some LM) in Ok (zeros d))
           | t :: ts =>
               bindM (retM (lbsXspace n0 n1 v0 v1 L (Some LM))) (fun Xlabels =>
               bindM (RepXspace_Term RP CG t Xlabels a) (fun M0 => terms_loop RP CG ts Xlabels a M0))
           end) lam).
      { destruct op as [|t ts]; [reflexivity|].
        rewrite (p_bind RP CG); [|apply t_ret|intros; apply t_bind; [apply t_Term|intros; apply t_terms_loop]].
        rewrite answer_andthen. cbn [answer]. apply bind_ext. intros X.
        rewrite (p_bind RP CG); [|apply t_Term|intros; apply t_terms_loop].
        rewrite answer_andthen, answer_term. apply bind_ext. intros. apply answer_terms. }
      rewrite E. apply bind_ext. reflexivity.
    Qed.
  End Answer.

  (** ** With a disk that only grows *)

  Definition grows (F F' : disk) : Prop := forall path x, F path = Ok x -> F' path = Ok x.

  (** Every loaded table is what the disk holds for it. *)
  Definition agrees (F : disk) (d : text) (cg : cg_state) : Prop :=
    get_base_directory home cg = d /\ forall key t, found cg key = Some t -> tbl F d key = Ok t.

  Lemma tbl_grows F F' d key t : grows F F' -> tbl F d key = Ok t -> tbl F' d key = Ok t.
  Proof.
    intros G. destruct key as [[[[v1 v2] a2] L2] v3]. unfold tbl. destruct (0 <? v2); [|auto].
    destruct (SO5CG_filename d v1 v2 a2 L2 v3) as [p|]; cbn [bind]; [|discriminate].
    destruct (F p) as [x|] eqn:E; cbn [bind]; [|discriminate]. now rewrite (G p x E).
  Qed.

  Lemma agrees_grows F F' d cg : grows F F' -> agrees F d cg -> agrees F' d cg.
  Proof. intros G [D A]. split; [exact D|]. intros key t E. eapply tbl_grows; [exact G|]. now apply A. Qed.

  Lemma agrees_add F d cg key t : agrees F d cg -> tbl F d key = Ok t -> agrees F d (add_table cg key t).
  Proof.
    intros [D A] E. split; [exact D|]. intros key' t' E'. rewrite found_add in E'.
    destruct (quintet_eq_dec key key') as [<-|]; [now injection E' as <-|now apply A].
  Qed.

  Lemma agrees_load F d cg v1 v2 a2 L2 v3 : agrees F d cg ->
    fst (load_CG_table F home cg v1 v2 a2 L2 v3) = fst (load_CG_table F home (fresh d) v1 v2 a2 L2 v3) /\
    agrees F d (snd (load_CG_table F home cg v1 v2 a2 L2 v3)).
  Proof.
    intros AG. pose proof AG as [D A].
    assert (Q : legal v1 v2 a2 L2 v3 \/ ~ legal v1 v2 a2 L2 v3) by (unfold legal; lia).
    destruct Q as [Q|Q]; [|rewrite !load_illegal by assumption; auto].
    rewrite !load_eq by assumption. rewrite D. change (found (fresh d) (tkey v1 v2 a2 L2 v3)) with (@None (list (quartet * R))).
    change (get_base_directory home (fresh d)) with d.
    destruct (found cg (tkey v1 v2 a2 L2 v3)) as [t|] eqn:E.
    - rewrite (A _ _ E). auto.
    - destruct (tbl F d (tkey v1 v2 a2 L2 v3)) as [t|e] eqn:Et; cbn [fst snd]; [|auto]. split; [reflexivity|]. now apply agrees_add.
  Qed.

  Lemma agrees_CG F d cg n : agrees F d cg ->
    fst (CGn F home cg n) = fst (CGn F home (fresh d) n) /\ agrees F d (snd (CGn F home cg n)).
  Proof.
    intros AG. pose proof AG as [D A].
    assert (Q : legal_nonet n \/ ~ legal_nonet n) by (unfold legal_nonet; lia).
    destruct Q as [Q|Q]; [|rewrite !CGn_illegal by assumption; auto].
    rewrite !CGn_legal by assumption. destruct (admissible_dec n); [|auto].
    rewrite D. change (found (fresh d) (nkey n)) with (@None (list (quartet * R))). change (get_base_directory home (fresh d)) with d.
    destruct (found cg (nkey n)) as [t|] eqn:E.
    - rewrite (A _ _ E). auto.
    - destruct (tbl F d (nkey n)) as [t|e] eqn:Et; cbn [fst snd]; [|auto]. split; [reflexivity|]. now apply agrees_add.
  Qed.

  Lemma agrees_plain A (m : code A) : forall F d cg, agrees F d cg ->
    fst (run_plain home m F cg) = answer (CG_at F home (fresh d)) m /\ agrees F d (snd (run_plain home m F cg)).
  Proof.
    induction m as [A r|A v1 a1 L1 v2 a2 L2 v3 a3 L3 k IH|A key c IHc k IHk|A which k IH]; intros F d cg AG; cbn [run_plain answer].
    - auto.
    - destruct (agrees_CG F d cg (non v1 a1 L1 v2 a2 L2 v3 a3 L3) AG) as [E AG'].
      unfold CGn, non in E, AG'. cbn [n_v1 n_a1 n_L1 n_v2 n_a2 n_L2 n_v3 n_a3 n_L3] in E, AG'. unfold CG_at. rewrite <- E.
      destruct (CG_SO5r3 F home cg _ _ _ _ _ _ _ _ _) as [[x|e] cg']; cbn [fst snd] in *; [|auto]. now apply IH.
    - destruct (IHc F d cg AG) as [E AG']. rewrite <- E.
      destruct (run_plain home c F cg) as [[M|e] cg']; cbn [fst snd] in *; [|auto]. now apply IHk.
    - now apply IH.
  Qed.
End Facts.
