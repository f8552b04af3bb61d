(** The loop of RepXspace_Prod as a right-nested product. *)

From Coq Require Import Reals Lra.
From Coq Require Import Lia ZifyBool ZifyNat.
From Verif Require Import PyBase PyFacts Compat SphericalSpec Spherical SphericalFacts PropsSpherical Matrix RadialME
  RadialMEFacts FullLabels RadialOps Operators FullOps PropsHarmonics FullOpsFacts FullOpsBlocks FullOpsMemo.
Open Scope Z_scope.
Ltac Zify.zify_post_hook ::= Z.div_mod_to_equations.

(** Equal exceptions, or matrices with equal entries. *)
Definition same (x y : res (mat R)) : Prop :=
  match x, y with
  | Ok M, Ok N => mat_eq M N
  | Raise e, Raise f => e = f
  | _, _ => False
  end.

Lemma same_refl x : same x x.
Proof. destruct x; cbn; [apply mat_eq_refl|reflexivity]. Qed.
Lemma same_sym x y : same x y -> same y x.
Proof. destruct x, y; cbn; auto using mat_eq_sym. Qed.
Lemma same_trans x y z : same x y -> same y z -> same x z.
Proof.
  destruct x, y, z; cbn; try contradiction; try congruence. apply mat_eq_trans.
Qed.

Section Prod.
  Variable RP : list rsym -> R -> R -> Z -> Z -> Z -> Z -> res (mat R).
  Variable CG : Z -> Z -> Z -> Z -> Z -> Z -> Z -> Z -> Z -> res R.
  Variable lam : Z -> res Z.
  Variable a : xargs.
  Hypothesis Ha : valid a.

  Let Twin := fun nu sph => RepXspace_Twin RP CG lam nu sph a.
  Let X := fun n => xcompute RP CG lam n a.
  Let d := zlen (slabels a) * rdim a.

  Lemma Twin_square nu sph T : Twin nu sph = Ok T -> square d T.
  Proof.
    unfold Twin. rewrite Twin_asm by assumption. intros H. apply bind_ok in H. destruct H as (SM & _ & H).
    apply asm_value_pos in H; [exact (proj1 H)|apply zlen_nonneg|apply xa_rdim; assumption].
  Qed.

  Lemma X_square n M : X n = Ok M -> square d M.
  Proof.
    unfold X, xcompute. pose proof (zlen_nonneg (slabels a)) as Hn. destruct (xa_rdim a Ha) as [_ Hr]. destruct n.
    - rewrite Pi_asm by assumption. intros H. apply asm_value in H; [exact (proj1 H)|assumption|assumption].
    - destruct (Z_lt_le_dec L 0) as [Hl|Hl].
      + unfold RepXspace_PiPi. unfold require_nonnegint. replace (L <? 0) with true by lia. discriminate.
      + rewrite PiPi_asm by assumption. intros H. apply asm_value in H; [exact (proj1 H)|assumption|assumption].
    - rewrite PiqPi_asm by assumption. intros H. apply asm_value in H; [exact (proj1 H)|assumption|assumption].
  Qed.

  (** The full-space operators. *)
  Definition full_of (x : osym) : option xname :=
    match x with
    | Xspace_Pi => Some NPi
    | Xspace_PiPi2 => Some (NPiPi 2)
    | Xspace_PiPi4 => Some (NPiPi 4)
    | Xspace_PiqPi => Some NPiqPi
    | _ => None
    end.

  (** The pending segment: nothing if it is empty. *)
  Definition seg (nu : list rsym) (sph : list osym) : res (option (mat R)) :=
    if nonempty nu || nonempty sph then let* T := Twin nu sph in Ok (Some T) else Ok None.

  Definition tm (o : option (mat R)) (N : mat R) : mat R := match o with None => N | Some P => mm P N end.

  Fixpoint W (ops : list osym) (nu : list rsym) (sph : list osym) : res (mat R) :=
    match ops with
    | [] => Twin nu sph
    | x :: ops' =>
        match full_of x with
        | Some n =>
            let* T := seg nu sph in
            let* Y := X n in
            let* N := W ops' [] [] in
            Ok (tm T (mm Y N))
        | None =>
            match x with
            | ORad (Radial_other _) => let* _ := seg nu sph in Raise ValueError
            | ORad r => W ops' (nu ++ [r]) sph
            | _ => W ops' nu (sph ++ [x])
            end
        end
    end.

  Lemma seg_square nu sph o : seg nu sph = Ok o -> match o with Some T => square d T | None => True end.
  Proof.
    unfold seg. destruct (nonempty nu || nonempty sph).
    - intros H. apply bind_ok in H. destruct H as (T & E & H). injection H as <-. eapply Twin_square; eassumption.
    - intros H. injection H as <-. exact I.
  Qed.

  Lemma tm_square o N : match o with Some T => square d T | None => True end -> square d N -> square d (tm o N).
  Proof. destruct o; cbn [tm]; [apply mm_square|auto]. Qed.

  Lemma W_square ops : forall nu sph N, W ops nu sph = Ok N -> square d N.
  Proof.
    induction ops as [|x ops IH]; intros nu sph N; cbn [W]; [apply Twin_square|].
    destruct (full_of x) as [n|].
    - intros H. apply bind_ok in H. destruct H as (T & ET & H). apply bind_ok in H. destruct H as (Y & EY & H).
      apply bind_ok in H. destruct H as (N' & EN & H). injection H as <-.
      apply tm_square; [eapply seg_square; eassumption|]. apply mm_square; [eapply X_square; eassumption|].
      eapply IH; eassumption.
    - destruct x as [r|h| | | | | |]; try apply IH. destruct r; try apply IH.
      intros H. apply bind_ok in H. destruct H as (T & _ & H). discriminate.
  Qed.

  (** Loop, final segment and product, from a running product. *)
  Definition q (ops : list osym) (run : option (mat R)) (nu : list rsym) (sph : list osym) : res (mat R) :=
    let* st := pureM (prod_loop RP CG a ops run nu sph) lam in
    let '(run, nu, sph) := st in
    let* T := Twin nu sph in
    let* o := times run T in
    match o with Some P => Ok P | None => Raise AssertionError end.

  Lemma Prod_q w : pureM (RepXspace_Prod RP CG w a) lam = q w None [] [].
  Proof.
    unfold RepXspace_Prod, q. pose proof (t_loop RP CG) as TL.
    rewrite (p_bind RP CG); [|apply t_ret|intros; apply t_bind; [apply TL|]].
    2:{ intros [[run nu] sph]. apply t_bind; [apply t_withlam|]. intros T. apply t_bind; [apply t_ret|].
        intros [P|]; apply t_ret. }
    cbn [retM pureM fst]. rewrite xa_check_ok by assumption. cbn [bind].
    rewrite (p_bind RP CG); [|apply TL|].
    2:{ intros [[run nu] sph]. apply t_bind; [apply t_withlam|]. intros T. apply t_bind; [apply t_ret|].
        intros [P|]; apply t_ret. }
    destruct (pureM (prod_loop RP CG a w None [] []) lam) as [[[run nu] sph]|e]; cbn [bind]; [|reflexivity].
    rewrite (p_bind RP CG); [|apply t_withlam|].
    2:{ intros T. apply t_bind; [apply t_ret|]. intros [P|]; apply t_ret. }
    unfold withlam at 1, pureM at 1. cbn [fst x_lam]. fold (Twin nu sph).
    destruct (Twin nu sph) as [T|e]; cbn [bind]; [|reflexivity].
    rewrite (p_bind RP CG); [|apply t_ret|intros [P|]; apply t_ret].
    unfold retM at 1, pureM at 1. cbn [fst]. destruct (times run T) as [[P|]|e]; reflexivity.
  Qed.

  Lemma times_some run Y : match run with Some P => square d P | None => True end -> square d Y ->
    times run Y = Ok (Some (tm run Y)).
  Proof. destruct run as [P|]; cbn [times tm]; intros A B; [|reflexivity]. now rewrite (matmul_mm d). Qed.

  Lemma tm_assoc run T : match run with Some P => square d P | None => True end -> square d T ->
    forall N, square d N -> mat_eq (mm (tm run T) N) (tm run (mm T N)).
  Proof. destruct run as [P|]; cbn [tm]; intros A B N C; [now apply (mm_assoc d)|apply mat_eq_refl]. Qed.

  Lemma tm_ext run M N : match run with Some P => square d P | None => True end -> square d M -> mat_eq M N ->
    mat_eq (tm run M) (tm run N).
  Proof. destruct run as [P|]; cbn [tm]; intros A B E; [|exact E]. apply (mm_ext d); try assumption. apply mat_eq_refl. Qed.

  Lemma pure_ret {A} (r : res A) f : pureM (retM r) f = r.
  Proof. reflexivity. Qed.

  Lemma t_segpart run nu sph : transparent RP CG
    (if nonempty nu || nonempty sph
     then bindM (withlam (fun lam => RepXspace_Twin RP CG lam nu sph a)) (fun T => retM (times run T))
     else retM (Ok run)).
  Proof. apply t_if; [apply t_bind; [apply t_withlam|intros; apply t_ret]|apply t_ret]. Qed.

  Lemma p_segpart run nu sph : match run with Some P => square d P | None => True end ->
    pureM (if nonempty nu || nonempty sph
     then bindM (withlam (fun lam => RepXspace_Twin RP CG lam nu sph a)) (fun T => retM (times run T))
     else retM (Ok run)) lam
    = let* o := seg nu sph in Ok (match o with Some T => Some (tm run T) | None => run end).
  Proof.
    intros Hr. unfold seg. destruct (nonempty nu || nonempty sph); [|reflexivity].
    rewrite (p_bind RP CG); [|apply t_withlam|intros; apply t_ret].
    unfold withlam, pureM at 1. cbn [fst x_lam]. fold (Twin nu sph). destruct (Twin nu sph) as [T|e] eqn:E; [|reflexivity].
    cbn [bind]. rewrite pure_ret. rewrite times_some; [reflexivity|assumption|]. eapply Twin_square; eassumption.
  Qed.

  (** The pending running product after multiplying in [Y]. *)
  Definition adv (run o : option (mat R)) : option (mat R) :=
    match o with Some T => Some (tm run T) | None => run end.

  Lemma adv_square run o : match run with Some P => square d P | None => True end ->
    match o with Some T => square d T | None => True end ->
    match adv run o with Some P => square d P | None => True end.
  Proof. destruct o; cbn [adv]; intros; [now apply tm_square|assumption]. Qed.

  Lemma q_W ops : forall run nu sph, match run with Some P => square d P | None => True end ->
    same (q ops run nu sph) (let* N := W ops nu sph in Ok (tm run N)).
  Proof.
    induction ops as [|x ops IH]; intros run nu sph Hr.
    - unfold q. cbn [prod_loop W]. rewrite pure_ret. cbn [bind].
      destruct (Twin nu sph) as [T|e] eqn:E; cbn [bind]; [|reflexivity].
      rewrite times_some; [|assumption|eapply Twin_square; eassumption]. cbn [bind]. apply same_refl.
    - assert (F : forall n, same
        (let* st := pureM (bindM (if nonempty nu || nonempty sph
                 then bindM (withlam (fun lam => RepXspace_Twin RP CG lam nu sph a))
                        (fun T => retM (times run T))
                 else retM (Ok run)) (fun run' =>
          bindM (call RP CG n a) (fun X =>
          bindM (retM (times run' X)) (fun run'' => prod_loop RP CG a ops run'' [] [])))) lam in
          let '(run, nu, sph) := st in
          let* T := Twin nu sph in
          let* o := times run T in
          match o with Some P => Ok P | None => Raise AssertionError end)
        (let* N := (let* T := seg nu sph in let* Y := X n in let* N := W ops [] [] in Ok (tm T (mm Y N))) in
         Ok (tm run N))).
      { intros n. rewrite (p_bind RP CG); [|apply t_segpart|].
        2:{ intros run'. apply t_bind; [apply t_call|]. intros Y. apply t_bind; [apply t_ret|].
            intros run''. apply t_loop. }
        rewrite p_segpart by assumption. destruct (seg nu sph) as [o|e] eqn:Eo; cbn [bind]; [|reflexivity].
        apply seg_square in Eo. fold (adv run o). pose proof (adv_square run o Hr Eo) as Hadv.
        rewrite (p_bind RP CG); [|apply t_call|].
        2:{ intros Y. apply t_bind; [apply t_ret|]. intros run''. apply t_loop. }
        rewrite (proj2 (t_call RP CG n a)). fold (X n).
        destruct (X n) as [Y|e] eqn:EY; cbn [bind]; [|reflexivity]. apply X_square in EY.
        rewrite (p_bind RP CG); [|apply t_ret|intros; apply t_loop].
        rewrite pure_ret, times_some by assumption. cbn [bind].
        assert (HP : square d (tm (adv run o) Y)) by now apply tm_square.
        eapply same_trans; [apply (IH (Some (tm (adv run o) Y)) [] []); exact HP|].
        destruct (W ops [] []) as [N|e] eqn:EN; cbn [bind]; [|reflexivity]. apply W_square in EN.
        cbn [same tm]. destruct o as [T|]; cbn [adv tm].
        - (* P = mm (tm run T) Y *)
          eapply mat_eq_trans; [apply (mm_assoc d); try assumption; now apply tm_square|].
          apply tm_assoc; try assumption. now apply mm_square.
        - now apply tm_assoc. }
      unfold q. cbn [prod_loop W].
      destruct x as [r|h| | | | | |]; cbn [full_of]; try (apply (IH run nu)); try apply F; try assumption.
      destruct r; try (apply (IH run _ sph); assumption).
      rewrite (p_bind RP CG); [|apply t_segpart|intros; apply t_ret].
      rewrite p_segpart by assumption. destruct (seg nu sph) as [o|e]; cbn [bind]; reflexivity.
  Qed.

  Lemma Prod_W w : same (pureM (RepXspace_Prod RP CG w a) lam) (W w [] []).
  Proof.
    rewrite Prod_q. eapply same_trans; [apply (q_W w None [] []); exact I|].
    destruct (W w [] []); cbn [bind tm]; apply same_refl.
  Qed.

  (** A segment. *)
  Definition in_seg (x : osym) : Prop :=
    match x with
    | ORad (Radial_other _) => False
    | ORad _ | OSph _ | SpDiag_sqLdim | SpDiag_sqLdiv => True
    | _ => False
    end.

  Definition radial_part (w : list osym) : list rsym :=
    flat_map (fun x => match x with ORad r => [r] | _ => [] end) w.
  Definition spherical_part (w : list osym) : list osym :=
    filter (fun x => match x with OSph _ | SpDiag_sqLdim | SpDiag_sqLdiv => true | _ => false end) w.

  Lemma W_seg u w : Forall in_seg u -> forall nu sph,
    W (u ++ w) nu sph = W w (nu ++ radial_part u) (sph ++ spherical_part u).
  Proof.
    induction 1 as [|x u Hx _ IH]; intros nu sph; cbn [app radial_part flat_map spherical_part filter].
    - now rewrite !app_nil_r.
    - destruct x as [r|h| | | | | |]; cbn [in_seg] in Hx; try contradiction; cbn [W full_of app].
      + destruct r; try contradiction; rewrite IH; unfold radial_part; now rewrite <- app_assoc.
      + rewrite IH. unfold spherical_part. now rewrite <- app_assoc.
      + rewrite IH. unfold spherical_part. now rewrite <- app_assoc.
      + rewrite IH. unfold spherical_part. now rewrite <- app_assoc.
  Qed.

  Lemma parts_nonempty u : Forall in_seg u ->
    nonempty (radial_part u) || nonempty (spherical_part u) = match u with [] => false | _ => true end.
  Proof.
    destruct u as [|x u]; [reflexivity|]. intros H. inversion H as [|? ? Hx _]; subst.
    destruct x as [r|h| | | | | |]; cbn in Hx |- *; try contradiction; try reflexivity; apply orb_true_r.
  Qed.
End Prod.
