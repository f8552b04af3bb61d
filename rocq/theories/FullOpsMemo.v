(** The memo tables are transparent as long as they are coherent with the
    lambda function; pure form of the computations of FullOps.v. *)

From Coq Require Import Reals Lra.
From Coq Require Import Lia ZifyBool ZifyNat.
From Verif Require Import PyBase PyFacts Compat SphericalSpec Spherical SphericalFacts PropsSpherical Matrix RadialME
  RadialMEFacts FullLabels RadialOps Operators FullOps PropsHarmonics FullOpsFacts FullOpsBlocks.
Open Scope Z_scope.
Ltac Zify.zify_post_hook ::= Z.div_mod_to_equations.

Section Memo.
  Variable RP : list rsym -> R -> R -> Z -> Z -> Z -> Z -> res (mat R).
  Variable CG : Z -> Z -> Z -> Z -> Z -> Z -> Z -> Z -> Z -> res R.
  Let comp := xcompute RP CG.

  (** Every table entry is what would be computed now. *)
  Definition coherent (s : xst) : Prop :=
    forall n a m, In (n, a, m) (x_memo s) -> comp (x_lam s) n a = Ok m.

  Lemma coherent_empty f : coherent (mkX f []).
  Proof. intros n a m []. Qed.

  Lemma Reqb_eq x y : Reqb x y = true -> x = y.
  Proof. unfold Reqb. destruct (Req_EM_T x y); [auto|discriminate]. Qed.
  Lemma Reqb_refl x : Reqb x x = true.
  Proof. unfold Reqb. destruct (Req_EM_T x x); [auto|contradiction]. Qed.

  Lemma xname_eqb_eq m n : xname_eqb m n = true -> m = n.
  Proof. destruct m, n; cbn; try discriminate; try reflexivity. intros H. f_equal. lia. Qed.
  Lemma xname_eqb_refl m : xname_eqb m m = true.
  Proof. destruct m; cbn; try reflexivity. apply Z.eqb_refl. Qed.

  Lemma xargs_eqb_eq a b : xargs_eqb a b = true -> a = b.
  Proof.
    destruct a, b. unfold xargs_eqb. cbn. intros H.
    repeat (apply andb_prop in H; destruct H as [H ?]). apply Reqb_eq in H. f_equal; try lia; try exact H.
    now apply Reqb_eq.
  Qed.
  Lemma xargs_eqb_refl a : xargs_eqb a a = true.
  Proof. unfold xargs_eqb. rewrite !Reqb_refl, !Z.eqb_refl. reflexivity. Qed.

  Lemma memo_get_In n a t m : memo_get n a t = Some m -> In (n, a, m) t.
  Proof.
    induction t as [|[[n' a'] m'] t IH]; cbn [memo_get]; [discriminate|].
    destruct (xname_eqb n n' && xargs_eqb a a') eqn:E.
    - intros H. injection H as ->. apply andb_prop in E. destruct E as [E1 E2].
      apply xname_eqb_eq in E1. apply xargs_eqb_eq in E2. subst. now left.
    - intros H. right. now apply IH.
  Qed.

  (** The result with empty tables. *)
  Definition pureM {A} (m : M A) (f : Z -> res Z) : res A := fst (m (mkX f [])).

  (** The result does not depend on coherent tables, which stay coherent. *)
  Definition transparent {A} (m : M A) : Prop :=
    forall s, coherent s -> exists s', m s = (pureM m (x_lam s), s') /\ x_lam s' = x_lam s /\ coherent s'.

  Lemma transparent_of {A} (m : M A) p :
    (forall s, coherent s -> exists s', m s = (p (x_lam s), s') /\ x_lam s' = x_lam s /\ coherent s') ->
    transparent m /\ forall f, pureM m f = p f.
  Proof.
    intros H. assert (E : forall f, pureM m f = p f).
    { intros f. destruct (H (mkX f []) (coherent_empty f)) as (s' & E & _). unfold pureM. now rewrite E. }
    split; [|exact E]. intros s Hs. destruct (H s Hs) as (s' & A1 & A2 & A3). exists s'. rewrite E. auto.
  Qed.

  Lemma t_ret {A} (r : res A) : transparent (retM r).
  Proof. intros s Hs. exists s. auto. Qed.

  Lemma t_withlam {A} (f : (Z -> res Z) -> res A) : transparent (withlam f).
  Proof. intros s Hs. exists s. auto. Qed.

  Lemma bind_both {A B} (m : M A) (f : A -> M B) : transparent m -> (forall a, transparent (f a)) ->
    transparent (bindM m f) /\
    forall g, pureM (bindM m f) g = let* x := pureM m g in pureM (f x) g.
  Proof.
    intros Hm Hf. apply transparent_of. intros s Hs. destruct (Hm s Hs) as (s' & E & L & C).
    unfold bindM. rewrite E. destruct (pureM m (x_lam s)) as [x|e]; cbn [bind].
    - destruct (Hf x s' C) as (s2 & E2 & L2 & C2). exists s2. rewrite E2, L. split; [reflexivity|].
      split; [congruence|exact C2].
    - exists s'. auto.
  Qed.

  Lemma t_bind {A B} (m : M A) (f : A -> M B) : transparent m -> (forall a, transparent (f a)) ->
    transparent (bindM m f).
  Proof. intros. now apply bind_both. Qed.
  Lemma p_bind {A B} (m : M A) (f : A -> M B) g : transparent m -> (forall a, transparent (f a)) ->
    pureM (bindM m f) g = let* x := pureM m g in pureM (f x) g.
  Proof. intros. now apply bind_both. Qed.

  Lemma t_call n a : transparent (call RP CG n a) /\ forall f, pureM (call RP CG n a) f = comp f n a.
  Proof.
    apply transparent_of. intros s Hs. unfold call.
    destruct (memo_get n a (x_memo s)) as [m|] eqn:E.
    - apply memo_get_In in E. apply Hs in E. exists s. rewrite E. auto.
    - fold comp. destruct (comp (x_lam s) n a) as [m|e] eqn:F.
      + eexists. split; [reflexivity|]. split; [reflexivity|].
        intros n' a' m' [H|H]; cbn [x_lam].
        * injection H as <- <- <-. exact F.
        * now apply Hs.
      + exists s. auto.
  Qed.

  Lemma t_clear : transparent clear.
  Proof. intros s Hs. eexists. split; [reflexivity|]. split; [reflexivity|]. apply coherent_empty. Qed.

  Lemma t_if {A} (b : bool) (m n : M A) : transparent m -> transparent n -> transparent (if b then m else n).
  Proof. now destruct b. Qed.

  Lemma t_loop a ops : forall run nu sph, transparent (prod_loop RP CG a ops run nu sph).
  Proof.
    induction ops as [|op ops IH]; intros run nu sph; [apply t_ret|].
    assert (F : forall n, transparent
      (bindM (if nonempty nu || nonempty sph
                 then bindM (withlam (fun lam => RepXspace_Twin RP CG lam nu sph a))
                        (fun T => retM (times run T))
                 else retM (Ok run)) (fun run' =>
          bindM (call RP CG n a) (fun X =>
          bindM (retM (times run' X)) (fun run'' => prod_loop RP CG a ops run'' [] []))))).
    { intros n. apply t_bind; [apply t_if; [apply t_bind; [apply t_withlam|intros; apply t_ret]|apply t_ret]|].
      intros run'. apply t_bind; [apply t_call|]. intros X. apply t_bind; [apply t_ret|]. intros. apply IH. }
    cbn [prod_loop]. destruct op as [r|h| | | | | |]; try apply IH; try apply F.
    destruct r; try apply IH.
    apply t_bind; [|intros; apply t_ret].
    apply t_if; [apply t_bind; [apply t_withlam|intros; apply t_ret]|apply t_ret].
  Qed.

  Lemma t_Prod w a : transparent (RepXspace_Prod RP CG w a).
  Proof.
    unfold RepXspace_Prod. apply t_bind; [apply t_ret|]. intros _. apply t_bind; [apply t_loop|].
    intros [[run nu] sph]. apply t_bind; [apply t_withlam|]. intros T. apply t_bind; [apply t_ret|].
    intros [P|]; apply t_ret.
  Qed.

  Lemma t_Term t X a : transparent (RepXspace_Term RP CG t X a).
  Proof.
    unfold RepXspace_Term. apply t_bind; [apply t_Prod|]. intros Rm. destruct (fst t); [apply t_ret|].
    cbn zeta. apply t_if; apply t_ret.
  Qed.

  Lemma t_terms ts X a : forall acc, transparent (terms_loop RP CG ts X a acc).
  Proof.
    induction ts as [|t ts IH]; intros acc; cbn [terms_loop]; [apply t_ret|].
    apply t_bind; [apply t_Term|]. intros. apply IH.
  Qed.

  Lemma t_RepXspace op an lb n0 n1 v0 v1 L L1 : transparent (RepXspace RP CG op an lb n0 n1 v0 v1 L L1).
  Proof.
    unfold RepXspace. apply t_bind; [apply t_ret|]. intros _. apply t_bind.
    - destruct op as [|t ts]; [apply t_ret|]. apply t_bind; [apply t_ret|]. intros X.
      apply t_bind; [apply t_Term|]. intros M0. apply t_terms.
    - intros Rm. apply t_bind; [apply t_clear|]. intros _. apply t_ret.
  Qed.

  (** A successful call leaves the tables empty. *)
  Lemma RepXspace_clears op an lb n0 n1 v0 v1 L L1 s m s' :
    RepXspace RP CG op an lb n0 n1 v0 v1 L L1 s = (Ok m, s') -> x_memo s' = [].
  Proof.
    unfold RepXspace. unfold bindM at 1. unfold retM at 1. destruct (xa_check _); [|discriminate].
    match goal with |- bindM ?m _ s = _ -> _ => generalize m end. intros q. unfold bindM at 1.
    destruct (q s) as [[Rm|e] s1]; [|discriminate]. cbn. intros E. now injection E as _ <-.
  Qed.

  (** No call changes the lambda function. *)
  Definition keeps {A} (m : M A) : Prop := forall s, x_lam (snd (m s)) = x_lam s.
  Lemma k_ret {A} (r : res A) : keeps (retM r).
  Proof. intros s. reflexivity. Qed.
  Lemma k_bind {A B} (m : M A) (f : A -> M B) : keeps m -> (forall a, keeps (f a)) -> keeps (bindM m f).
  Proof.
    intros Hm Hf s. unfold bindM. specialize (Hm s). destruct (m s) as [[x|e] s']; cbn [snd] in *; [|exact Hm].
    rewrite Hf. exact Hm.
  Qed.
  Lemma k_call n a : keeps (call RP CG n a).
  Proof.
    intros s. unfold call. destruct (memo_get n a (x_memo s)); [reflexivity|].
    destruct (xcompute RP CG (x_lam s) n a); reflexivity.
  Qed.
  Lemma k_twin_part (b : bool) (run : option (mat R)) nu sph a :
    keeps (if b then bindM (withlam (fun lam => RepXspace_Twin RP CG lam nu sph a)) (fun T => retM (times run T))
           else retM (Ok run)).
  Proof. destruct b; [|apply k_ret]. apply k_bind; [intros s; reflexivity|intros; apply k_ret]. Qed.
  Lemma k_loop a ops : forall run nu sph, keeps (prod_loop RP CG a ops run nu sph).
  Proof.
    induction ops as [|op ops IH]; intros run nu sph; [apply k_ret|].
    assert (F : forall n, keeps
      (bindM (if nonempty nu || nonempty sph
                 then bindM (withlam (fun lam => RepXspace_Twin RP CG lam nu sph a))
                        (fun T => retM (times run T))
                 else retM (Ok run)) (fun run' =>
          bindM (call RP CG n a) (fun X =>
          bindM (retM (times run' X)) (fun run'' => prod_loop RP CG a ops run'' [] []))))).
    { intros n. apply k_bind; [apply k_twin_part|].
      intros run'. apply k_bind; [apply k_call|]. intros X. apply k_bind; [apply k_ret|]. intros. apply IH. }
    cbn [prod_loop]. destruct op as [r|h| | | | | |]; try apply IH; try apply F.
    destruct r; try apply IH.
    apply k_bind; [apply k_twin_part|intros; apply k_ret].
  Qed.
  Lemma k_Prod w a : keeps (RepXspace_Prod RP CG w a).
  Proof.
    unfold RepXspace_Prod. apply k_bind; [apply k_ret|]. intros _. apply k_bind; [apply k_loop|].
    intros [[run nu] sph]. apply k_bind; [intros s; reflexivity|]. intros T. apply k_bind; [apply k_ret|].
    intros [P|]; apply k_ret.
  Qed.
  Lemma k_Term t X a : keeps (RepXspace_Term RP CG t X a).
  Proof.
    unfold RepXspace_Term. apply k_bind; [apply k_Prod|]. intros Rm. destruct (fst t); [apply k_ret|].
    cbn zeta. destruct (_ =? _); apply k_ret.
  Qed.
  Lemma k_terms ts X a : forall acc, keeps (terms_loop RP CG ts X a acc).
  Proof.
    induction ts as [|t ts IH]; intros acc; cbn [terms_loop]; [apply k_ret|].
    apply k_bind; [apply k_Term|]. intros. apply IH.
  Qed.
  Lemma k_RepXspace op an lb n0 n1 v0 v1 L L1 : keeps (RepXspace RP CG op an lb n0 n1 v0 v1 L L1).
  Proof.
    unfold RepXspace. apply k_bind; [apply k_ret|]. intros _. apply k_bind.
    - destruct op as [|t ts]; [apply k_ret|]. apply k_bind; [apply k_ret|]. intros X.
      apply k_bind; [apply k_Term|]. intros M0. apply k_terms.
    - intros Rm. apply k_bind; [intros s; reflexivity|]. intros _. apply k_ret.
  Qed.
End Memo.
