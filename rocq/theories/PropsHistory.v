(** Histories of calls and the memo tables: C44; linearity of RepXspace: C54. *)

From Coq Require Import Reals Lra.
From Coq Require Import Lia ZifyBool ZifyNat.
From Verif Require Import PyBase PyFacts Compat SphericalSpec Spherical SphericalFacts PropsSpherical Matrix RadialME
  RadialMESpec RadialMEFacts FullLabels RadialOps PropsRadialOps Operators FullOps PropsHarmonics FullOpsFacts FullOpsBlocks
  FullOpsMemo FullOpsProd RadialWords PropsFullOps PropsFullLabels
  PropsRadialME CG PropsMomentum.
Open Scope Z_scope.
Ltac Zify.zify_post_hook ::= Z.div_mod_to_equations.

(** ** C44 *)

(** What a user does: install a lambda function (globals.py:1157-1170
    ACM_set_lambda_fun), call RepXspace, RepXspace_Prod, or one of the memoised
    functions. *)
Inductive command : Type :=
| CSetLambda (f : Z -> res Z)
| CRepXspace (op : OperatorSum) (anorm lambda_base : R) (nu_min nu_max v_min v_max L : Z) (L_max : option Z)
| CProd (w : list osym) (a : xargs)
| CHelper (n : xname) (a : xargs).

(** The operator given by one word. *)
Definition word (w : list osym) : OperatorSum := [(CNum 1, w)].

Section Histories.
  Variable RP : list rsym -> R -> R -> Z -> Z -> Z -> Z -> res (mat R).
  Variable CG : Z -> Z -> Z -> Z -> Z -> Z -> Z -> Z -> Z -> res R.

  (** The answer (if any) and the state after a command. *)
  Definition exec (c : command) (s : xst) : option (res (mat R)) * xst :=
    match c with
    | CSetLambda f => (None, mkX f (x_memo s))
    | CRepXspace op an lb n0 n1 v0 v1 L L1 =>
        let '(r, s') := RepXspace RP CG op an lb n0 n1 v0 v1 L L1 s in (Some r, s')
    | CProd w a => let '(r, s') := RepXspace_Prod RP CG w a s in (Some r, s')
    | CHelper n a => let '(r, s') := call RP CG n a s in (Some r, s')
    end.

  Definition answer c s := fst (exec c s).
  Fixpoint after (h : list command) (s : xst) : xst :=
    match h with [] => s | c :: h' => after h' (snd (exec c s)) end.

  (** The answer depends on nothing but the command and the lambda function. *)
  Definition as_if_fresh (c : command) (s : xst) : Prop := answer c s = answer c (mkX (x_lam s) []).

  (** A history starting in a state with empty tables ([clean = true]) in which
      the lambda function is changed only at the start and after RepXspace calls
      that return a matrix. *)
  Fixpoint disciplined (clean : bool) (h : list command) (s : xst) : Prop :=
    match h with
    | [] => True
    | c :: h' =>
        match c with
        | CSetLambda _ => clean = true /\ disciplined clean h' (snd (exec c s))
        | CRepXspace _ _ _ _ _ _ _ _ _ =>
            disciplined (match answer c s with Some (Ok _) => true | _ => false end) h' (snd (exec c s))
        | _ => disciplined false h' (snd (exec c s))
        end
    end.

  Lemma transparent_fresh (m : M (mat R)) s : transparent RP CG m -> coherent RP CG s ->
    exists r s', m s = (r, s') /\ r = fst (m (mkX (x_lam s) [])) /\ x_lam s' = x_lam s /\ coherent RP CG s'.
  Proof.
    intros T C. destruct (T s C) as (s' & E & L & C'). exists (pureM m (x_lam s)), s'. auto.
  Qed.

  Lemma exec_coherent c s : coherent RP CG s -> (forall f, c <> CSetLambda f) ->
    as_if_fresh c s /\ coherent RP CG (snd (exec c s)) /\ x_lam (snd (exec c s)) = x_lam s.
  Proof.
    intros C N. unfold as_if_fresh, answer.
    destruct c as [f|op an lb n0 n1 v0 v1 L L1|w a|n a]; [destruct (N f); reflexivity| | |]; cbn [exec].
    - destruct (transparent_fresh _ s (t_RepXspace RP CG op an lb n0 n1 v0 v1 L L1) C) as (r & s' & E & F & L' & C').
      rewrite E. destruct (RepXspace RP CG op an lb n0 n1 v0 v1 L L1 (mkX (x_lam s) [])) as [r' s'']. cbn [fst] in F.
      subst r'. auto.
    - destruct (transparent_fresh _ s (t_Prod RP CG w a) C) as (r & s' & E & F & L' & C').
      rewrite E. destruct (RepXspace_Prod RP CG w a (mkX (x_lam s) [])) as [r' s'']. cbn [fst] in F. subst r'. auto.
    - destruct (transparent_fresh _ s (proj1 (t_call RP CG n a)) C) as (r & s' & E & F & L' & C').
      rewrite E. destruct (call RP CG n a (mkX (x_lam s) [])) as [r' s'']. cbn [fst] in F. subst r'. auto.
  Qed.

  Lemma disciplined_coherent h : forall clean s, coherent RP CG s -> (clean = true -> x_memo s = []) ->
    disciplined clean h s -> coherent RP CG (after h s).
  Proof.
    induction h as [|c h IH]; intros clean s C HC D; cbn [after]; [exact C|].
    destruct c as [f|op an lb n0 n1 v0 v1 L L1|w a|n a]; cbn [disciplined] in D.
    - destruct D as [-> D]. apply (IH true); [|intros _; exact (HC eq_refl)|exact D].
      cbn [exec snd]. rewrite (HC eq_refl). apply coherent_empty.
    - destruct (exec_coherent (CRepXspace op an lb n0 n1 v0 v1 L L1) s C) as (_ & C' & _); [discriminate|].
      eapply IH; [exact C'| |exact D]. unfold answer. cbn [exec].
      destruct (RepXspace RP CG op an lb n0 n1 v0 v1 L L1 s) as [r s'] eqn:E. cbn [fst snd].
      destruct r as [m|]; [|discriminate]. intros _. now apply RepXspace_clears in E.
    - destruct (exec_coherent (CProd w a) s C) as (_ & C' & _); [discriminate|].
      apply (IH false); [exact C'|discriminate|exact D].
    - destruct (exec_coherent (CHelper n a) s C) as (_ & C' & _); [discriminate|].
      apply (IH false); [exact C'|discriminate|exact D].
  Qed.

  (** After a disciplined history every answer is the one a fresh process would
      give under the lambda function in force. *)
  Theorem C44_disciplined : forall h f c,
    disciplined true h (mkX f []) -> (forall g, c <> CSetLambda g) ->
    as_if_fresh c (after h (mkX f [])).
  Proof.
    intros h f c D N. apply exec_coherent; [|exact N].
    apply (disciplined_coherent h true); [apply coherent_empty|reflexivity|exact D].
  Qed.

  (** In particular if every call in the history is a RepXspace call that
      returns a matrix, or a change of the lambda function. *)
  Fixpoint all_complete (h : list command) (s : xst) : Prop :=
    match h with
    | [] => True
    | c :: h' =>
        match c with
        | CSetLambda _ => True
        | CRepXspace _ _ _ _ _ _ _ _ _ => exists m, answer c s = Some (Ok m)
        | _ => False
        end /\ all_complete h' (snd (exec c s))
    end.

  Fixpoint last_lambda (f : Z -> res Z) (h : list command) : Z -> res Z :=
    match h with
    | [] => f
    | CSetLambda g :: h' => last_lambda g h'
    | _ :: h' => last_lambda f h'
    end.

  Lemma exec_lam c s : x_lam (snd (exec c s)) = match c with CSetLambda g => g | _ => x_lam s end.
  Proof.
    destruct c as [f|op an lb n0 n1 v0 v1 L L1|w a|n a]; cbn [exec]; [reflexivity| | |].
    - pose proof (k_RepXspace RP CG op an lb n0 n1 v0 v1 L L1 s) as K. destruct (RepXspace _ _ _ _ _ _ _ _ _ _ _ s). exact K.
    - pose proof (k_Prod RP CG w a s) as K. destruct (RepXspace_Prod _ _ _ _ s). exact K.
    - pose proof (k_call RP CG n a s) as K. destruct (call _ _ _ _ s). exact K.
  Qed.

  Lemma after_lam h : forall s, x_lam (after h s) = last_lambda (x_lam s) h.
  Proof.
    induction h as [|c h IH]; intros s; [reflexivity|]. cbn [after]. rewrite IH, exec_lam. destruct c; reflexivity.
  Qed.

  Theorem C44_complete_calls : forall h f c,
    all_complete h (mkX f []) -> (forall g, c <> CSetLambda g) ->
    answer c (after h (mkX f [])) = answer c (mkX (last_lambda f h) []).
  Proof.
    intros h f c D N.
    replace (last_lambda f h) with (x_lam (after h (mkX f []))) by apply after_lam.
    apply C44_disciplined; [|exact N]. clear c N.
    generalize (eq_refl : x_memo (mkX f []) = []). generalize (mkX f []) D. clear f D.
    induction h as [|c h IH]; intros s D Hs; [exact I|]. cbn [all_complete] in D. destruct D as [D1 D2].
    destruct c as [g|op an lb n0 n1 v0 v1 L L1|w a|n a]; cbn [disciplined]; try contradiction.
    - split; [reflexivity|]. apply IH; assumption.
    - destruct D1 as [m E]. rewrite E. apply IH; [exact D2|]. unfold answer in E. cbn [exec] in *.
      destruct (RepXspace RP CG op an lb n0 n1 v0 v1 L L1 s) as [r s'] eqn:F. cbn [fst snd] in *.
      injection E as ->. now apply RepXspace_clears in F.
  Qed.

  (** A failing RepXspace call leaves the matrix of the momentum operator
      behind; after the lambda function is changed it is used in place of the
      matrix for the function in force. *)
  Theorem C44_stale : forall f g k a P T,
    valid a -> RepXspace_Pi RP CG f a = Ok P -> RepXspace_Twin RP CG g [] [] a = Ok T ->
    let rep w := CRepXspace (word w) (xa_anorm a) (xa_lambda_base a) (xa_nu_min a) (xa_nu_max a)
                   (xa_v_min a) (xa_v_max a) (xa_L_min a) (Some (xa_L_max a)) in
    answer (rep [Xspace_Pi; ORad (Radial_other k)]) (mkX f []) = Some (Raise ValueError) /\
    answer (rep [Xspace_Pi]) (after [rep [Xspace_Pi; ORad (Radial_other k)]; CSetLambda g] (mkX f []))
      = Some (let* Q := matmul P T in Ok (mscale 1 Q)).
  Proof.
    intros f g k [an lb n0 n1 v0 v1 L0 L1] P T Ha EP ET rep. cbn [xa_anorm xa_lambda_base xa_nu_min xa_nu_max xa_v_min xa_v_max xa_L_min xa_L_max] in *.
    set (a := mkXA an lb n0 n1 v0 v1 L0 L1) in *.
    assert (EL : exists X, lbsXspace n0 n1 v0 v1 L0 (Some L1) = Ok X).
    { destruct Ha as (A & B & C). cbn in A, B, C. destruct (C06_layout n0 n1 v0 v1 L0 L1 A B C) as (X & _ & E & _). eauto. }
    destruct EL as (X & EL).
    assert (E1 : RepXspace RP CG (word [Xspace_Pi; ORad (Radial_other k)]) an lb n0 n1 v0 v1 L0 (Some L1) (mkX f [])
      = (Raise ValueError, mkX f [(NPi, a, P)])).
    { unfold RepXspace, word. fold a. unfold bindM at 1, retM at 1. rewrite xa_check_ok by assumption.
      unfold bindM at 1. unfold bindM at 1. rewrite EL. unfold retM at 1. unfold bindM at 1.
      unfold RepXspace_Term. cbn [fst snd]. unfold bindM at 1. unfold RepXspace_Prod. unfold bindM at 1. unfold retM at 1.
      rewrite xa_check_ok by assumption. unfold bindM at 1. cbn [prod_loop nonempty orb]. unfold bindM at 1. unfold retM at 1.
      unfold bindM at 1. unfold call. cbn [x_memo memo_get x_lam xcompute]. rewrite EP.
      unfold bindM at 1, retM at 1. cbn [times]. unfold bindM at 1, retM at 1. unfold retM at 1. reflexivity. }
    unfold rep, answer. cbn [exec]. rewrite E1. split; [reflexivity|].
    cbn [after exec]. rewrite E1. cbn [snd x_memo].
    assert (E2 : memo_get NPi a [(NPi, a, P)] = Some P).
    { cbn [memo_get xname_eqb]. rewrite xargs_eqb_refl. reflexivity. }
    unfold RepXspace, word. fold a. unfold bindM at 1, retM at 1. rewrite xa_check_ok by assumption.
    unfold bindM at 1. unfold bindM at 1. rewrite EL. unfold retM at 1. unfold bindM at 1.
    unfold RepXspace_Term at 1. cbn [fst snd]. unfold bindM at 1. unfold RepXspace_Prod. unfold bindM at 1. unfold retM at 1.
    rewrite xa_check_ok by assumption. unfold bindM at 1. cbn [prod_loop nonempty orb]. unfold bindM at 1. unfold retM at 1.
    unfold bindM at 1. unfold call. cbn [x_memo]. rewrite E2.
    unfold bindM at 1, retM at 1. cbn [times]. unfold retM at 1. unfold bindM at 1, withlam. cbn [x_lam]. rewrite ET.
    unfold bindM at 1, retM at 1. cbn [times]. destruct (matmul P T) as [Q|e]; cbn [bind]; reflexivity.
  Qed.
End Histories.

(** The answer to [Xspace_Pi] when the state supplies the matrix [P]. *)
Lemma answer_pi RP CG s a P T : valid a -> fst (call RP CG NPi a s) = Ok P ->
  RepXspace_Twin RP CG (x_lam s) [] [] a = Ok T ->
  answer RP CG (CRepXspace (word [Xspace_Pi]) (xa_anorm a) (xa_lambda_base a) (xa_nu_min a) (xa_nu_max a)
                   (xa_v_min a) (xa_v_max a) (xa_L_min a) (Some (xa_L_max a))) s
  = Some (let* Q := matmul P T in Ok (mscale 1 Q)).
Proof.
  destruct a as [an lb n0 n1 v0 v1 L0 L1]. intros Ha EP ET.
  cbn [xa_anorm xa_lambda_base xa_nu_min xa_nu_max xa_v_min xa_v_max xa_L_min xa_L_max].
  set (a := mkXA an lb n0 n1 v0 v1 L0 L1) in *.
  assert (EL : exists X, lbsXspace n0 n1 v0 v1 L0 (Some L1) = Ok X).
  { destruct Ha as (A & B & C). cbn in A, B, C. destruct (C06_layout n0 n1 v0 v1 L0 L1 A B C) as (X & _ & E & _). eauto. }
  destruct EL as (X & EL). pose proof (k_call RP CG NPi a s) as K.
  unfold answer. cbn [exec]. unfold RepXspace, word. fold a. unfold bindM at 1, retM at 1. rewrite xa_check_ok by assumption.
  unfold bindM at 1. unfold bindM at 1. rewrite EL. unfold retM at 1. unfold bindM at 1.
  unfold RepXspace_Term at 1. cbn [fst snd]. unfold bindM at 1. unfold RepXspace_Prod. unfold bindM at 1. unfold retM at 1.
  rewrite xa_check_ok by assumption. unfold bindM at 1. cbn [prod_loop nonempty orb]. unfold bindM at 1. unfold retM at 1.
  unfold bindM at 1. destruct (call RP CG NPi a s) as [r s']. cbn [fst snd] in EP, K. rewrite EP.
  unfold bindM at 1, retM at 1. cbn [times]. unfold retM at 1. unfold bindM at 1, withlam. rewrite K, ET.
  unfold bindM at 1, retM at 1. cbn [times]. destruct (matmul P T) as [Q|e]; cbn [bind]; reflexivity.
Qed.

(** In the space of [C55_case], after a failing call under the lambda function
    of basis type 1 and a change to basis type 2, RepXspace returns a matrix
    that differs from the one a fresh process returns. *)
Theorem C44_stale_matrix_refuted : forall Msqrt Minv,
  let RP := RadProd (Rep_elem gamma0 Msqrt Minv) in
  let CG := CG_at (fun _ => Ok [1%R; 1%R]) [] cg_init in
  let rep w := CRepXspace (word w) 1 (5/2) 0 0 1 2 2 (Some 2) in
  exists S F,
    answer RP CG (rep [Xspace_Pi])
      (after RP CG [rep [Xspace_Pi; ORad (Radial_other 0)]; CSetLambda lam_acm] (mkX lam_sho [])) = Some (Ok S) /\
    answer RP CG (rep [Xspace_Pi]) (mkX lam_acm []) = Some (Ok F) /\
    (ent S 1 0 * ent S 1 0 = 1)%R /\ (ent F 1 0 * ent F 1 0 = 5 / 7)%R.
Proof.
  intros Msqrt Minv RP CG rep. destruct (pi_case Msqrt Minv) as (P & Q & EP & EQ & SP & SQ & _).
  change (RPx Msqrt Minv) with RP in EP, EQ. change CGx with CG in EP, EQ.
  assert (Ha : valid ax) by (unfold valid; cbn; lia).
  destruct (C52_empty_word gamma0 Msqrt Minv CG lam_acm ax _ ltac:(cbn; lia) ltac:(cbn; lia) ltac:(cbn; lia) ax_labels) as (TW & _).
  destruct TW as (T & ET & TI).
  { intros v al L [E|[E|[]]]; injection E as <- <- <-; eexists; (split; [reflexivity|]); cbn [xa_lambda_base ax].
    - change (1 mod 2) with 1. lra.
    - change (2 mod 2) with 0. lra. }
  fold RP in ET. change (zlen [(1, 1, 2); (2, 1, 2)] * (xa_nu_max ax - xa_nu_min ax + 1)) with 2 in TI.
  assert (ST : square 2 T) by (destruct TI as (A & B & _); split; assumption).
  assert (V : forall X, square 2 X -> exists Y, matmul X T = Ok Y /\ ent (mscale 1 Y) 1 0 = ent X 1 0).
  { intros X HX. exists (mm X T). split; [now apply (matmul_mm 2)|].
    pose proof (mm_ext 2 X T X (eye 2) HX ST (mat_eq_refl X) TI) as (_ & _ & M1).
    pose proof (mm_eye_r 2 X HX) as (_ & _ & M2). destruct HX as [X1 X2], ST as [T1 T2].
    unfold mscale. cbn [ent]. rewrite Rmult_1_l. rewrite M1 by (cbn [mm nrows ncols]; lia).
    rewrite M2 by (cbn [mm nrows ncols eye]; lia). reflexivity. }
  assert (HP : square 2 P) by (apply (X_square RP CG lam_sho ax Ha NPi); exact EP).
  assert (HQ : square 2 Q) by (apply (X_square RP CG lam_acm ax Ha NPi); exact EQ).
  destruct (V P HP) as (Y1 & M1 & V1). destruct (V Q HQ) as (Y2 & M2 & V2).
  exists (mscale 1 Y1), (mscale 1 Y2). rewrite V1, V2. split; [|split; [|split; assumption]].
  - destruct (C44_stale RP CG lam_sho lam_acm 0 ax P T Ha EP ET) as (_ & E). cbn [xa_anorm xa_lambda_base xa_nu_min xa_nu_max xa_v_min xa_v_max xa_L_min xa_L_max ax] in E.
    unfold rep. rewrite E, M1. reflexivity.
  - pose proof (answer_pi RP CG (mkX lam_acm []) ax Q T Ha) as E.
    unfold call in E. cbn [x_memo memo_get x_lam xcompute] in E. rewrite EQ in E. specialize (E eq_refl ET).
    cbn [xa_anorm xa_lambda_base xa_nu_min xa_nu_max xa_v_min xa_v_max xa_L_min xa_L_max ax] in E. unfold rep. rewrite E, M2. reflexivity.
Qed.

(** ** C54: sums of terms *)

Section Linear.
  Variable RP : list rsym -> R -> R -> Z -> Z -> Z -> Z -> res (mat R).
  Variable CG : Z -> Z -> Z -> Z -> Z -> Z -> Z -> Z -> Z -> res R.
  Variable lam : Z -> res Z.
  Variables anorm lambda_base : R.
  Variables nu_min nu_max v_min v_max L_min L_max : Z.
  Hypothesis Hnu : 0 <= nu_min <= nu_max.
  Hypothesis Hv : 0 <= v_min <= v_max.
  Hypothesis HL : 0 <= L_min <= L_max.

  (** The matrix of a word and of a sum of terms, from empty tables (C44). *)
  Let prod w := fst (RepXspace_Prod RP CG w (mkXA anorm lambda_base nu_min nu_max v_min v_max L_min L_max) (mkX lam [])).
  Let rep op := fst (RepXspace RP CG op anorm lambda_base nu_min nu_max v_min v_max L_min (Some L_max) (mkX lam [])).

  Let a := mkXA anorm lambda_base nu_min nu_max v_min v_max L_min L_max.
  Lemma lin_valid : valid a.
  Proof. unfold valid. cbn. auto. Qed.

  (** The sum of the entries, each with its coefficient at a state. *)
  Definition weighted (op : OperatorSum) (Ms : list (mat R)) (x : xlabel) (i j : Z) : R :=
    let '(nu, (v, al, L)) := x in
    fold_right Rplus 0%R (map (fun tM : OperatorTerm * mat R => (cval (fst (fst tM)) nu v al L * ent (snd tM) i j)%R)
                            (combine op Ms)).

  Lemma prod_square w M : prod w = Ok M -> square (zlen (slabels a) * rdim a) M.
  Proof.
    intros E. pose proof (Prod_W RP CG lam a lin_valid w) as S. change (pureM (RepXspace_Prod RP CG w a) lam) with (prod w) in S. rewrite E in S.
    destruct (W RP CG lam a w [] []) as [N|] eqn:EN; [|contradiction]. apply W_square in EN; [|apply lin_valid].
    cbn [same] in S. destruct S as (A & B & _), EN as [C D]. split; congruence.
  Qed.

  (** The matrix of one term. *)
  Definition term_mat (X : list xlabel) (c : coef) (M : mat R) : mat R :=
    match c with
    | CNum r => mscale r M
    | CSym f => mkMat (nrows M) (ncols M) (fun i j =>
        (nth (Z.to_nat j) (map (fun x : xlabel => let '(nu, (v, al, L)) := x in f nu v al L) X) 0 * ent M i j)%R)
    end.

  Lemma term_value X t : zlen X = zlen (slabels a) * rdim a ->
    pureM (RepXspace_Term RP CG t X a) lam = let* M := prod (snd t) in Ok (term_mat X (fst t) M).
  Proof.
    intros HX. unfold RepXspace_Term.
    rewrite (p_bind RP CG); [|apply t_Prod|].
    2:{ intros x. destruct (fst t); [apply t_ret|]. cbn zeta. apply t_if; apply t_ret. }
    change (pureM (RepXspace_Prod RP CG (snd t) a) lam) with (prod (snd t)).
    destruct (prod (snd t)) as [M|e] eqn:E; cbn [bind]; [|reflexivity]. apply prod_square in E. destruct E as [E1 E2].
    destruct (fst t) as [r|f]; [reflexivity|]. cbn zeta. unfold zlen at 1. rewrite map_length. fold (zlen X).
    rewrite HX, <- E2, Z.eqb_refl. unfold pureM, retM. cbn [fst term_mat]. now rewrite E2.
  Qed.

  Lemma term_entry X c M i j nu v al L : nth_error X (Z.to_nat j) = Some (nu, (v, al, L)) ->
    ent (term_mat X c M) i j = (cval c nu v al L * ent M i j)%R.
  Proof.
    intros E. destruct c as [r|f]; [reflexivity|]. cbn [term_mat ent cval]. f_equal.
    apply nth_error_nth. now rewrite (map_nth_error _ _ _ E).
  Qed.

  Lemma terms_value X ts : zlen X = zlen (slabels a) * rdim a -> forall acc,
    pureM (terms_loop RP CG ts X a acc) lam =
    let* Ms := mapM (fun t : OperatorTerm => prod (snd t)) ts in
    Ok (fold_left (fun acc (tM : OperatorTerm * mat R) => madd acc (term_mat X (fst (fst tM)) (snd tM))) (combine ts Ms) acc).
  Proof.
    intros HX. induction ts as [|t ts IH]; intros acc; [reflexivity|]. cbn [terms_loop mapM].
    rewrite (p_bind RP CG); [|apply t_Term|intros; apply t_terms]. rewrite term_value by assumption.
    destruct (prod (snd t)) as [M|e]; cbn [bind]; [|reflexivity]. rewrite IH.
    destruct (mapM _ ts) as [Ms|e]; reflexivity.
  Qed.

  Lemma fold_entry X l : forall acc i j nu v al L, nth_error X (Z.to_nat j) = Some (nu, (v, al, L)) ->
    ent (fold_left (fun acc (tM : OperatorTerm * mat R) => madd acc (term_mat X (fst (fst tM)) (snd tM))) l acc) i j
    = (ent acc i j + fold_right Rplus 0 (map (fun tM : OperatorTerm * mat R => cval (fst (fst tM)) nu v al L * ent (snd tM) i j) l))%R.
  Proof.
    induction l as [|tM l IH]; intros acc i j nu v al L E; cbn [fold_left map fold_right]; [ring|].
    rewrite (IH _ i j nu v al L E). unfold madd at 1. cbn [ent]. rewrite (term_entry X _ _ i j nu v al L E). ring.
  Qed.

  Lemma fold_shape X d l : forall acc, square d acc ->
    square d (fold_left (fun acc (tM : OperatorTerm * mat R) => madd acc (term_mat X (fst (fst tM)) (snd tM))) l acc).
  Proof.
    induction l as [|tM l IH]; intros acc H; [exact H|]. cbn [fold_left]. apply IH. exact H.
  Qed.

  Lemma lin_labels : exists X, lbsXspace nu_min nu_max v_min v_max L_min (Some L_max) = Ok X /\
    zlen X = zlen (slabels a) * rdim a.
  Proof.
    destruct (C06_layout _ _ _ _ _ _ Hnu Hv HL) as (X & sph & E & Es & Hl & _). exists X. split; [exact E|].
    rewrite Hl. rewrite lbs_rngVvarL_some in Es by assumption. injection Es as <-.
    change (lbs v_min v_max L_min L_max) with (slabels a).
    destruct (xa_rdim a lin_valid) as [R1 _]. cbn [xa_nu_min xa_nu_max a] in R1. rewrite R1. lia.
  Qed.

  Lemma rep_value op X : lbsXspace nu_min nu_max v_min v_max L_min (Some L_max) = Ok X ->
    zlen X = zlen (slabels a) * rdim a -> op <> [] ->
    exists acc, square (zlen X) acc /\ (forall i j, ent acc i j = 0%R) /\
    same (rep op) (let* Ms := mapM (fun t : OperatorTerm => prod (snd t)) op in
              Ok (fold_left (fun acc (tM : OperatorTerm * mat R) => madd acc (term_mat X (fst (fst tM)) (snd tM))) (combine op Ms) acc)).
  Proof.
    intros EX HX Hne. exists (zeros (zlen X)). split; [split; reflexivity|]. split; [reflexivity|].
    assert (E : rep op = let* Rm := match op with
           | [] => let* d := dimXspace nu_min nu_max v_min v_max L_min (Some L_max) in Ok (zeros d)
           | t :: ts => let* M0 := pureM (RepXspace_Term RP CG t X a) lam in pureM (terms_loop RP CG ts X a M0) lam
           end in Ok Rm).
    { unfold rep, RepXspace. fold a. change (fst (?m (mkX lam []))) with (pureM m lam).
      rewrite (p_bind RP CG); [|apply t_ret|].
      2:{ intros _. apply t_bind; [|intros; apply t_bind; [apply t_clear|intros; apply t_ret]].
          destruct op; [apply t_ret|]. apply t_bind; [apply t_ret|]. intros; apply t_bind; [apply t_Term|intros; apply t_terms]. }
      unfold retM at 1. unfold pureM at 1. cbn [fst]. rewrite xa_check_ok by apply lin_valid. cbn [bind].
      rewrite (p_bind RP CG).
      2:{ destruct op; [apply t_ret|]. apply t_bind; [apply t_ret|]. intros; apply t_bind; [apply t_Term|intros; apply t_terms]. }
      2:{ intros; apply t_bind; [apply t_clear|intros; apply t_ret]. }
      destruct op as [|t ts]; [contradiction|].
      rewrite (p_bind RP CG); [|apply t_ret|intros; apply t_bind; [apply t_Term|intros; apply t_terms]].
      unfold retM at 1. unfold pureM at 1. cbn [fst]. rewrite EX. cbn [bind].
      rewrite (p_bind RP CG); [|apply t_Term|intros; apply t_terms].
      destruct (let* x := pureM (RepXspace_Term RP CG t X a) lam in pureM (terms_loop RP CG ts X a x) lam); reflexivity. }
    rewrite E. clear E. destruct op as [|t ts]; [contradiction|]. cbn [mapM]. rewrite term_value by assumption.
    destruct (prod (snd t)) as [M|e] eqn:EM; cbn [bind]; [|apply same_refl]. rewrite terms_value by assumption.
    destruct (mapM _ ts) as [Ms|e]; cbn [bind]; [|apply same_refl]. cbn [combine fold_left fst snd].
    apply prod_square in EM. rewrite <- HX in EM.
    assert (S1 : square (zlen X) (term_mat X (fst t) M)) by (destruct (fst t); exact EM).
    assert (S2 : square (zlen X) (madd (zeros (zlen X)) (term_mat X (fst t) M))) by (split; reflexivity).
    pose proof (fold_shape X _ (combine ts Ms) _ S1) as [A1 A2]. pose proof (fold_shape X _ (combine ts Ms) _ S2) as [B1 B2].
    split; [congruence|]. split; [congruence|]. intros i j Hi Hj. rewrite A2 in Hj.
    assert (exists x, nth_error X (Z.to_nat j) = Some x) as ([nu [[v al] L]] & Ex).
    { destruct (nth_error X (Z.to_nat j)) eqn:F; [eauto|]. apply nth_error_None in F. unfold zlen in Hj. lia. }
    rewrite !(fold_entry X _ _ i j nu v al L Ex). f_equal. unfold madd, zeros. cbn [ent]. ring.
  Qed.

  (** RepXspace returns a matrix exactly if every word of the sum has one; the
      matrix is square, and its entry from state [j] to state [i] is the sum
      over the terms of the coefficient, evaluated at state [j], times the entry
      of the matrix of the word. *)
  Theorem C54_linear : forall op X,
    lbsXspace nu_min nu_max v_min v_max L_min (Some L_max) = Ok X ->
    ((exists D, rep op = Ok D) <-> (forall t, In t op -> exists M, prod (snd t) = Ok M)) /\
    (forall D, rep op = Ok D -> exists Ms, Forall2 (fun (t : OperatorTerm) M => prod (snd t) = Ok M) op Ms /\
       nrows D = zlen X /\ ncols D = zlen X /\
       forall i j x, 0 <= i < zlen X -> 0 <= j -> nth_error X (Z.to_nat j) = Some x ->
         ent D i j = weighted op Ms x i j).
  Proof.
    intros op X EX. destruct lin_labels as (X' & EX' & HX). rewrite EX in EX'. injection EX' as <-.
    destruct op as [|t ts].
    - assert (E : exists D, rep [] = Ok D /\ nrows D = zlen X /\ ncols D = zlen X /\ forall i j, ent D i j = 0%R).
      { exists (zeros (zlen X)). split; [|split; [reflexivity|split; reflexivity]].
        unfold rep, RepXspace. fold a. unfold bindM at 1, retM at 1. rewrite xa_check_ok by apply lin_valid.
        unfold bindM at 1, retM at 1.
        assert (ED : dimXspace nu_min nu_max v_min v_max L_min (Some L_max) = Ok (zlen X)).
        { unfold dimXspace. rewrite !require_range_ok by lia. cbn [bind].
          pose proof (xa_dim a lin_valid) as F. cbn [a xa_v_min xa_v_max xa_L_min xa_L_max] in F. rewrite F. cbn [bind].
          destruct (xa_rdim a lin_valid) as [R1 _]. cbn [xa_nu_min xa_nu_max a] in R1. rewrite R1, HX. f_equal. fold a. lia. }
        rewrite ED. cbn [bind]. reflexivity. }
      destruct E as (D & E & S1 & S2 & S3). split.
      + split; [intros _ t []|eauto].
      + intros D' E'. rewrite E in E'. injection E' as <-. exists []. split; [constructor|]. split; [exact S1|].
        split; [exact S2|]. intros i j [nu [[v al] L]] _ _ _. rewrite S3. reflexivity.
    - destruct (rep_value (t :: ts) X EX HX ltac:(discriminate)) as (acc & SA & ZA & S). split.
      + split.
        * intros (D & E). rewrite E in S.
          destruct (mapM (fun t : OperatorTerm => prod (snd t)) (t :: ts)) as [Ms|e] eqn:EM; [|contradiction].
          apply mapM_Forall2 in EM. intros u Hu. clear - EM Hu. induction EM as [|y M ys Ms Hy _ IH]; [destruct Hu|].
          destruct Hu as [<-|Hu]; [eauto|now apply IH].
        * intros H. assert (G : exists Ms, mapM (fun t : OperatorTerm => prod (snd t)) (t :: ts) = Ok Ms).
          { clear - H. induction (t :: ts) as [|y ys IH]; [eexists; reflexivity|]. destruct (H y) as (M & E); [now left|].
            destruct IH as (Ms & E2); [intros; apply H; now right|]. exists (M :: Ms). cbn [mapM]. now rewrite E, E2. }
          destruct G as (Ms & E). rewrite E in S. cbn [bind] in S. destruct (rep (t :: ts)) as [D|]; [eauto|contradiction].
      + intros D E. rewrite E in S. destruct (mapM (fun t : OperatorTerm => prod (snd t)) (t :: ts)) as [Ms|e] eqn:EM; [|contradiction].
        cbn [bind same] in S. destruct S as (S1 & S2 & S3). pose proof (fold_shape X _ (combine (t :: ts) Ms) _ SA) as [A1 A2].
        exists Ms. split; [now apply mapM_Forall2 in EM|]. split; [congruence|]. split; [congruence|].
        intros i j [nu [[v al] L]] Hi Hj Ex.
        assert (Z.to_nat j < length X)%nat by (apply nth_error_Some; rewrite Ex; discriminate).
        rewrite S3; [|congruence|rewrite S2, A2; unfold zlen; lia]. rewrite (fold_entry X _ _ i j nu v al L Ex), ZA. unfold weighted. ring.
  Qed.

  (** Otherwise the exception of the first word without a matrix is raised. *)
  Theorem C54_exception : forall (op1 : OperatorSum) (t : OperatorTerm) (op2 : OperatorSum) e,
    (forall u, In u op1 -> exists M, prod (snd u) = Ok M) -> prod (snd t) = Raise e ->
    rep (op1 ++ t :: op2) = Raise e.
  Proof.
    intros op1 t op2 e H Ht. destruct lin_labels as (X & EX & HX).
    destruct (rep_value (op1 ++ t :: op2) X EX HX) as (acc & _ & _ & S); [destruct op1; discriminate|].
    assert (G : mapM (fun t : OperatorTerm => prod (snd t)) (op1 ++ t :: op2) = Raise e).
    { clear - H Ht. induction op1 as [|y ys IH]; cbn [app mapM]; [now rewrite Ht|]. destruct (H y) as (M & E); [now left|].
      rewrite E, IH by (intros; apply H; now right). reflexivity. }
    rewrite G in S. cbn [bind] in S. destruct (rep (op1 ++ t :: op2)); [contradiction|]. cbv [same] in S. now rewrite S.
  Qed.
End Linear.

(** Without an upper limit the angular momentum is the lower limit. *)
Theorem C54_single_L : forall RP CG op anorm lambda_base nu_min nu_max v_min v_max L s,
  RepXspace RP CG op anorm lambda_base nu_min nu_max v_min v_max L None s
  = RepXspace RP CG op anorm lambda_base nu_min nu_max v_min v_max L (Some L) s.
Proof. reflexivity. Qed.

(** The space of [C55_case]: the word [pi] and the sum [2 + SENIORITY]. *)
Lemma twin_case Msqrt Minv : exists T,
  RepXspace_Twin (RadProd (Rep_elem gamma0 Msqrt Minv)) CGx lam_sho [] [] ax = Ok T /\ mat_eq T (eye 2).
Proof.
  destruct (C52_empty_word gamma0 Msqrt Minv CGx lam_sho ax _ ltac:(cbn; lia) ltac:(cbn; lia) ltac:(cbn; lia) ax_labels) as (TW & _).
  destruct TW as (T & ET & TI).
  { intros v al L [E|[E|[]]]; injection E as <- <- <-; eexists; (split; [reflexivity|]); cbn [xa_lambda_base ax]; lra. }
  exists T. split; [exact ET|]. exact TI.
Qed.

Example C35_case Msqrt Minv : exists P D,
  RepXspace_Pi (RadProd (Rep_elem gamma0 Msqrt Minv)) CGx lam_sho ax = Ok P /\
  fst (RepXspace_Prod (RadProd (Rep_elem gamma0 Msqrt Minv)) CGx [Xspace_Pi] ax (mkX lam_sho [])) = Ok D /\
  mat_eq D P /\ (ent P 1 0 * ent P 1 0 = 1)%R.
Proof.
  destruct (pi_case Msqrt Minv) as (P & Q & EP & _ & SP & _). destruct (twin_case Msqrt Minv) as (T & ET & TI).
  assert (Ha : valid ax) by (unfold valid; cbn; lia). unfold RPx in EP. set (RP := RadProd _) in *.
  pose proof (C35_full_space_operator RP CGx lam_sho ax Ha [] Xspace_Pi NPi [] (Forall_nil _) eq_refl) as S. cbv beta in S.
  pose proof (C35_segment RP CGx lam_sho ax Ha [] (Forall_nil _)) as S0. cbv beta in S0.
  change (radial_part []) with (@nil rsym) in S0. change (spherical_part []) with (@nil osym) in S0.
  rewrite ET in S0. cbn [app bind] in S. change (xcompute RP CGx lam_sho NPi ax) with (RepXspace_Pi RP CGx lam_sho ax) in S.
  change (zlen (slabels ax) * rdim ax) with 2 in S. rewrite EP in S. cbn [bind] in S.
  destruct (fst (RepXspace_Prod RP CGx [] ax (mkX lam_sho []))) as [N|]; [|contradiction]. cbn [bind same] in S0, S.
  pose proof (X_square RP CGx lam_sho ax Ha NPi P EP) as HP. change (zlen (slabels ax) * rdim ax) with 2 in HP.
  assert (HN : mat_eq N (eye 2)) by (eapply mat_eq_trans; eassumption).
  assert (SN : square 2 N) by (destruct HN as (A & B & _); split; assumption).
  assert (SE : square 2 (eye 2)) by (split; reflexivity).
  rewrite (matmul_mm 2) in S by assumption. cbn [bind] in S. rewrite (matmul_mm 2) in S by (try apply mm_square; assumption).
  destruct (fst (RepXspace_Prod RP CGx [Xspace_Pi] ax (mkX lam_sho []))) as [D|]; [|contradiction]. cbn [same] in S.
  exists P, D. split; [exact EP|]. split; [reflexivity|]. split; [|exact SP].
  eapply mat_eq_trans; [exact S|]. eapply mat_eq_trans; [apply (mm_ext 2 _ _ P (eye 2)); [now apply mm_square|assumption|now apply mm_eye_l|exact HN]|].
  now apply mm_eye_r.
Qed.

Example C54_case Msqrt Minv : exists D,
  fst (RepXspace (RadProd (Rep_elem gamma0 Msqrt Minv)) CGx [(CNum 2, []); (CSym (fun _ v _ _ => IZR v), [])]
         1 (5/2) 0 0 1 2 2 (Some 2) (mkX lam_sho [])) = Ok D /\
  (ent D 0 0 = 3 /\ ent D 0 1 = 0 /\ ent D 1 0 = 0 /\ ent D 1 1 = 4)%R.
Proof.
  destruct (twin_case Msqrt Minv) as (T & ET & TI).
  assert (Ha : valid ax) by (unfold valid; cbn; lia). set (RP := RadProd _) in *.
  set (op := [(CNum 2, []); (CSym (fun _ v _ _ => IZR v), [])] : OperatorSum).
  pose proof (C35_segment RP CGx lam_sho ax Ha [] (Forall_nil _)) as S0. cbv beta in S0.
  change (radial_part []) with (@nil rsym) in S0. change (spherical_part []) with (@nil osym) in S0. rewrite ET in S0.
  destruct (fst (RepXspace_Prod RP CGx [] ax (mkX lam_sho []))) as [N|] eqn:EN; [|contradiction]. cbn [same] in S0.
  assert (HN : mat_eq N (eye 2)) by (eapply mat_eq_trans; eassumption).
  destruct (C54_linear RP CGx lam_sho 1 (5/2) 0 0 1 2 2 2 ltac:(lia) ltac:(lia) ltac:(lia) op
    [(0, (1, 1, 2)); (0, (2, 1, 2))] eq_refl) as (DEF & V). cbv beta in DEF, V.
  destruct (proj2 DEF) as (D & ED).
  { intros t [<-|[<-|[]]]; exists N; exact EN. }
  exists D. split; [exact ED|]. destruct (V D ED) as (Ms & FM & _ & _ & W).
  inversion FM as [|t M ts Ms' E1 FM1]; subst. inversion FM1 as [|t2 M2 ts2 Ms2 E2 FM2]; subst. inversion FM2; subst.
  cbn [snd] in E1, E2. fold ax in E1, E2. rewrite EN in E1, E2. injection E1 as <-. injection E2 as <-.
  destruct HN as (N1 & N2 & N3). cbn [eye nrows ncols] in N1, N2. cbn [zlen length Z.of_nat] in W.
  change (zlen [(0, (1, 1, 2)); (0, (2, 1, 2))]) with 2 in W.
  repeat split.
  - rewrite (W 0 0 (0, (1, 1, 2))) by (lia || reflexivity). unfold weighted, op. cbn [combine map fold_right fst snd cval]. rewrite !N3 by lia. cbn. ring.
  - rewrite (W 0 1 (0, (2, 1, 2))) by (lia || reflexivity). unfold weighted, op. cbn [combine map fold_right fst snd cval]. rewrite !N3 by lia. cbn. ring.
  - rewrite (W 1 0 (0, (1, 1, 2))) by (lia || reflexivity). unfold weighted, op. cbn [combine map fold_right fst snd cval]. rewrite !N3 by lia. cbn. ring.
  - rewrite (W 1 1 (0, (2, 1, 2))) by (lia || reflexivity). unfold weighted, op. cbn [combine map fold_right fst snd cval]. rewrite !N3 by lia. cbn. ring.
Qed.

Print Assumptions C44_disciplined.
Print Assumptions C44_complete_calls.
Print Assumptions C44_stale.
Print Assumptions C44_stale_matrix_refuted.
Print Assumptions C54_linear.
Print Assumptions C54_exception.
Print Assumptions C54_single_L.
