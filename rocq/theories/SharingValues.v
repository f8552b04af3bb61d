(** The functions without memory of SharingFacts.v compute the products of
    RadialOps.v and the sums of FullOps.v. *)

From Coq Require Import Reals Lia ZifyBool ZifyNat Lra.
From Verif Require Import PyBase Compat Matrix RadialOps RadialME FullOps.
From Verif Require ProdFacts.
From Verif Require Import PropsHarmonics Sharing SharingFacts.
Open Scope Z_scope.

(** Equal matrices, or two exceptions. *)
Definition same (x y : res (mat R)) : Prop :=
  match x, y with Ok M, Ok N => mat_eq M N | Raise _, Raise _ => True | _, _ => False end.

Lemma mscale_1 M : mat_eq M (mscale 1 M).
Proof. repeat split. intros i j _ _. cbn. ring. Qed.
Lemma mscale_ext c M N : mat_eq M N -> mat_eq (mscale c M) (mscale c N).
Proof. intros (A & B & C). split; [exact A|]. split; [exact B|]. cbn. intros i j Hi Hj. now rewrite C. Qed.

Section Values.
  Variable Gam : R -> R.
  Variables Matrix_sqrt Matrix_sqrtInv : mat R -> res (mat R).
  Hypothesis sqrt_shape : forall M N, Matrix_sqrt M = Ok N -> nrows N = nrows M /\ ncols N = ncols M.
  Hypothesis sqrtInv_shape : forall M N, Matrix_sqrtInv M = Ok N -> nrows N = nrows M /\ ncols N = ncols M.
  Let Rep := Rep_elem Gam Matrix_sqrt Matrix_sqrtInv.

  Lemma build_square ME a b M : build_matrix ME a b = Ok M -> square (b - a + 1) M.
  Proof.
    unfold build_matrix. intros H. destruct (mapM _ _) as [rows|]; [|discriminate]. cbn [bind] in H. injection H as <-. split; reflexivity.
  Qed.
  Lemma Rep_square e l a b M : Rep e l a b = Ok M -> square (b - a + 1) M.
  Proof.
    destruct e; cbn [Rep Rep_elem]; unfold RepRadial, RepRadial_param; try apply build_square.
    - intros H. match type of H with bind ?t _ = _ => destruct t end; [|discriminate]. cbn [bind] in H. destruct (build_matrix _ a b) as [N|] eqn:E; [|discriminate].
      cbn [bind] in H. apply build_square in E. apply sqrt_shape in H. destruct E, H. split; congruence.
    - intros H. destruct (build_matrix _ a b) as [N|] eqn:E; [|discriminate].
      cbn [bind] in H. apply build_square in E. apply sqrtInv_shape in H. destruct E, H. split; congruence.
    - intros [= <-]. split; reflexivity.
  Qed.

  Section Fixed.
  Variable an : R.
  Variables n0 n1 : Z.
  Let d := n1 - n0 + 1.
  Let fm l := factor_mat Rep an l n0 n1.
  Let fsm l := factors_mat Rep an l n0 n1.
  Let facV := factorV Gam Matrix_sqrt Matrix_sqrtInv an.

  (** Factors with one or two elementary matrices. *)
  Definition small (f : factor) : Prop := length (f_elems f) = 1%nat \/ length (f_elems f) = 2%nat.

  Lemma fm_square l f M : small f -> fm l f = Ok M -> square d M.
  Proof.
    intros S. unfold fm, factor_mat. destruct (f_elems f) as [|[e1 o1] [|[e2 o2] [|? ?]]] eqn:E; try (destruct S as [S|S]; cbn in S; rewrite E in S; discriminate S).
    - cbn [mapM fst snd]. destruct (Rep e1 _ n0 n1) as [A|] eqn:EA; [|discriminate]. cbn [bind mprod]. intros [= <-]. exact (Rep_square _ _ _ _ _ EA).
    - cbn [mapM fst snd]. destruct (Rep e1 _ n0 n1) as [A|] eqn:EA; [|discriminate]. cbn [bind].
      destruct (Rep e2 _ n0 n1) as [B|] eqn:EB; [|discriminate]. cbn [bind mprod].
      rewrite (matmul_mm d) by (eapply Rep_square; eauto). cbn [bind]. intros [= <-].
      apply (mm_square d); eapply Rep_square; eauto.
  Qed.

  Lemma factorV_fm l f : small f -> same (facV l n0 n1 f) (fm l f).
  Proof.
    intros S. unfold facV, factorV, fm, factor_mat. destruct (f_elems f) as [|[e1 o1] [|[e2 o2] [|? ?]]] eqn:E; try (destruct S as [S|S]; cbn in S; rewrite E in S; discriminate S).
    - cbn [mapM fst snd]. fold Rep. destruct (Rep e1 _ n0 n1) as [A|]; [|exact Logic.I]. cbn [bind mprod same].
      destruct (f_pow f =? 0) eqn:P; cbn [same]; [|apply mat_eq_refl]. apply Z.eqb_eq in P. rewrite P. apply mscale_1.
    - cbn [mapM fst snd]. fold Rep. destruct (Rep e1 _ n0 n1) as [A|] eqn:EA; [|exact Logic.I]. cbn [bind].
      destruct (Rep e2 _ n0 n1) as [B|] eqn:EB; [|exact Logic.I]. cbn [bind mprod].
      rewrite (matmul_mm d) by (eapply Rep_square; eauto). cbn [bind same]. apply mat_eq_refl.
  Qed.

  (** A list of factors that stands for a matrix, and one that raises. *)
  Definition stands (l : R) (P : mat R) (p : list factor) : Prop :=
    p <> [] /\ Forall small p /\ square d P /\ exists Q, fsm l p = Ok Q /\ mat_eq P Q.
  Definition raises (l : R) (p : list factor) : Prop := p <> [] /\ exists e, fsm l p = Raise e.

  Lemma mapM_squares l p ms : Forall small p -> mapM (fm l) p = Ok ms -> Forall (square d) ms /\ (p <> [] -> ms <> []).
  Proof.
    intros S. revert ms. induction S as [|f p Sf S IH]; intros ms H; cbn [mapM] in H.
    - injection H as <-. split; [constructor|easy].
    - destruct (fm l f) as [A|] eqn:EA; [|discriminate]. cbn [bind] in H. destruct (mapM (fm l) p) as [ms'|] eqn:E; [|discriminate].
      cbn [bind] in H. injection H as <-. split; [|discriminate]. constructor; [now apply fm_square in EA|]. now apply IH.
  Qed.

  Lemma fsm_cons l f p Q : p <> [] -> fsm l p = Ok Q -> fsm l (f :: p) = (let* A := fm l f in matmul A Q).
  Proof.
    unfold fsm, factors_mat. intros N H. cbn [mapM]. fold (fm l). fold (fm l) in H. destruct (fm l f) as [A|]; [|reflexivity]. cbn [bind].
    destruct (mapM (fm l) p) as [ms|] eqn:E; [|discriminate]. cbn [bind] in *. destruct ms as [|m ms].
    - destruct p as [|f' p]; [easy|]. cbn [mapM] in E. destruct (fm l f'); [|discriminate]. cbn [bind] in E. destruct (mapM (fm l) p); discriminate.
    - change (mprod (A :: m :: ms)) with (bind (mprod (m :: ms)) (fun p => matmul A p)). now rewrite H.
  Qed.
  Lemma raises_cons l f p : raises l p -> raises l (f :: p).
  Proof.
    unfold raises, fsm, factors_mat. intros [N [e H]]. split; [discriminate|]. cbn [mapM]. fold (fm l). fold (fm l) in H.
    destruct (fm l f) as [A|]; [|eexists; reflexivity]. cbn [bind]. destruct (mapM (fm l) p) as [ms|] eqn:E; [|eexists; reflexivity].
    cbn [bind] in *. destruct ms as [|m ms].
    - destruct p as [|f' p]; [easy|]. cbn [mapM] in E. destruct (fm l f'); [|discriminate]. cbn [bind] in E. destruct (mapM (fm l) p); discriminate.
    - change (mprod (A :: m :: ms)) with (bind (mprod (m :: ms)) (fun p => matmul A p)). rewrite H. eexists; reflexivity.
  Qed.
  Lemma raises_head l f p e : fm l f = Raise e -> raises l (f :: p).
  Proof. unfold raises, fsm, factors_mat. intros H. split; [discriminate|]. cbn [mapM]. fold (fm l). rewrite H. eexists; reflexivity. Qed.
  Lemma raises_app l p q : raises l q -> raises l (p ++ q).
  Proof. intros H. induction p as [|f p IH]; [exact H|]. now apply raises_cons. Qed.

  Lemma fsm_one l f : fsm l [f] = fm l f.
  Proof. unfold fsm, factors_mat. cbn [mapM]. fold (fm l). destruct (fm l f); reflexivity. Qed.
  Lemma stands_one l f M : small f -> facV l n0 n1 f = Ok M -> stands l M [f].
  Proof.
    intros S H. pose proof (factorV_fm l f S) as K. rewrite H in K. destruct (fm l f) as [Q|] eqn:E; [|easy].
    split; [discriminate|]. split; [now constructor|]. pose proof (fm_square l f Q S E) as SQ. destruct K as (K1 & K2 & K3), SQ.
    split; [split; congruence|]. exists Q. rewrite fsm_one. split; [assumption|]. now split.
  Qed.
  Lemma raises_one l f e : small f -> facV l n0 n1 f = Raise e -> forall p, raises l (f :: p).
  Proof.
    intros S H p. pose proof (factorV_fm l f S) as K. rewrite H in K. destruct (fm l f) as [Q|] eqn:E; [easy|]. exact (raises_head l f p _ E).
  Qed.
  Lemma stands_cons l f M P p : small f -> facV l n0 n1 f = Ok M -> stands l P p ->
    matmul M P = Ok (mm M P) /\ stands l (mm M P) (f :: p).
  Proof.
    intros S H (N & F & SP & Q & EQ & KQ). destruct (stands_one l f M S H) as (_ & _ & SM & Q' & EQ' & KQ'). rewrite fsm_one in EQ'.
    split; [now apply (matmul_mm d)|]. split; [discriminate|]. split; [now constructor|]. split; [now apply mm_square|].
    pose proof (fm_square l f Q' S EQ') as SQ'.
    assert (SQ : square d Q) by (destruct KQ as (K1 & K2 & _), SP; split; congruence).
    exists (mm Q' Q). rewrite (fsm_cons l f p Q N EQ), EQ'. cbn [bind]. split; [now apply (matmul_mm d)|]. now apply (mm_ext d).
  Qed.
  Lemma fsm_app l p q P Q : Forall small p -> Forall small q -> p <> [] -> fsm l p = Ok P -> q <> [] -> fsm l q = Ok Q ->
    exists S, fsm l (p ++ q) = Ok S /\ square d S /\ square d P /\ square d Q /\ mat_eq (mm P Q) S.
  Proof.
    assert (sq : forall p P, Forall small p -> p <> [] -> fsm l p = Ok P -> square d P).
    { intros p0 P0 F0 N0 E0. unfold fsm, factors_mat in E0. fold (fm l) in E0. destruct (mapM (fm l) p0) as [ms|] eqn:E; [|discriminate].
      destruct (mapM_squares l p0 ms F0 E) as [Fs Ns]. cbn [bind] in E0. exact (ProdFacts.mprod_square d ms P0 (Ns N0) Fs E0). }
    intros Fp. revert P. induction Fp as [|f p Sf Fp IH]; intros P Fq Np EP Nq EQ; [easy|].
    pose proof (sq _ _ Fq Nq EQ) as SQ. destruct p as [|f' p].
    - rewrite fsm_one in EP. cbn [app]. rewrite (fsm_cons l f q Q Nq EQ), EP. cbn [bind].
      pose proof (fm_square l f P Sf EP) as SP. rewrite (matmul_mm d) by assumption. eexists. split; [reflexivity|].
      split; [now apply mm_square|]. split; [assumption|]. split; [assumption|]. apply mat_eq_refl.
    - destruct (fsm l (f' :: p)) as [P'|e] eqn:EP'.
      2: { destruct (raises_cons l f (f' :: p)) as [_ [e' E']]; [split; [discriminate|eauto]|]. congruence. }
      rewrite (fsm_cons l f (f' :: p) P') in EP by (discriminate || assumption).
      destruct (fm l f) as [A|] eqn:EA; [|discriminate]. cbn [bind] in EP.
      pose proof (fm_square l f A Sf EA) as SA. assert (SP' : square d P') by (apply (sq (f' :: p)); [assumption|discriminate|assumption]).
      rewrite (matmul_mm d) in EP by assumption. injection EP as <-.
      destruct (IH P' Fq ltac:(discriminate) eq_refl Nq EQ) as (T & ET & ST & _ & _ & KT).
      change ((f :: f' :: p) ++ q) with (f :: ((f' :: p) ++ q)). rewrite (fsm_cons l f _ T) by (discriminate || assumption).
      rewrite EA. cbn [bind]. rewrite (matmul_mm d) by assumption. eexists. split; [reflexivity|].
      split; [now apply mm_square|]. split; [now apply mm_square|]. split; [assumption|].
      eapply mat_eq_trans; [now apply (mm_assoc d)|]. apply (mm_ext d); try assumption; [now apply mm_square|apply mat_eq_refl].
  Qed.

  (** *** The loop of [RepRadial_bS_DS] *)
  Definition ostands (l : R) (o : option (mat R)) (p : option (list factor)) : Prop :=
    match o, p with Some P, Some p => stands l P p | None, None => True | _, _ => False end.
  Definition oraises (l : R) (p : option (list factor)) : Prop := match p with Some p => raises l p | None => False end.

  Lemma pick_small K i run s f imm : bsds_pick K i run s = Ok (f, imm) -> small f /\ 1 <= imm.
  Proof.
    unfold bsds_pick. intros H.
    repeat match type of H with
      | context [py_assert ?b] => destruct b; cbn [py_assert bind] in H
      | context [if ?b then _ else _] => destruct b
      end; try discriminate; injection H as <- <-; (split; [|lia]); ((left; reflexivity) || (right; reflexivity)).
  Qed.
  Lemma loop_raises fuel : forall K n lamX i run s p l, i < n -> raises l p ->
    match bsds_loop fuel K n lamX i run s (Some p) with Ok (o, _) => oraises l o | Raise _ => True end.
  Proof.
    induction fuel as [|fuel IH]; intros K n lamX i run s p l Hi H; cbn [bsds_loop]; destruct (0 <? i); try exact Logic.I; try exact H.
    destruct (bsds_pick K i run s) as [[f imm]|] eqn:EP; [|exact Logic.I]. cbn [bind]. apply pick_small in EP.
    replace (i =? n) with false by lia. cbn [andb lmul bind]. apply IH; [lia|]. now apply raises_cons.
  Qed.

  Lemma loop_sim fuel : forall l K n lamX i run s o p, i <= n -> ostands l o p ->
    match loopV Gam Matrix_sqrt Matrix_sqrtInv fuel an l n0 n1 K n lamX i run s o, bsds_loop fuel K n lamX i run s p with
    | Ok (o', run1), Ok (p', run2) => run1 = run2 /\ ostands l o' p'
    | Raise _, Ok (p', _) => oraises l p'
    | Raise _, Raise _ => True
    | Ok _, Raise _ => False
    end.
  Proof.
    induction fuel as [|fuel IH]; intros l K n lamX i run s o p Hi H; cbn [loopV bsds_loop]; destruct (0 <? i); try exact Logic.I; try (now split).
    destruct (bsds_pick K i run s) as [[f imm]|] eqn:EP; [|exact Logic.I]. cbn [bind]. apply pick_small in EP. destruct EP as [Sf Himm].
    fold facV. destruct (facV l n0 n1 f) as [M|e] eqn:EM; cbn [bind].
    - destruct ((i =? n) && (0 <=? lamX)).
      + cbn [bind]. apply IH; [lia|]. now apply stands_one.
      + destruct o as [P|], p as [p|]; cbn in H; try easy. cbn [lmul lmulV bind].
        destruct (stands_cons l f M P p Sf EM H) as [E St]. rewrite E. cbn [bind]. now apply IH; [lia|].
    - destruct ((i =? n) && (0 <=? lamX)).
      + cbn [bind]. pose proof (loop_raises fuel K n lamX (i - imm) (run + nth (Z.to_nat (i - 1)) s 0) s [f] l ltac:(lia) (raises_one l f e Sf EM [])) as G.
        destruct (bsds_loop fuel K n lamX (i - imm) _ s (Some [f])) as [[p' r']|]; auto.
      + destruct p as [p|]; [|exact Logic.I]. cbn [lmul bind].
        pose proof (loop_raises fuel K n lamX (i - imm) (run + nth (Z.to_nat (i - 1)) s 0) s (f :: p) l ltac:(lia) (raises_one l f e Sf EM p)) as G.
        destruct (bsds_loop fuel K n lamX (i - imm) _ s (Some (f :: p))) as [[p' r']|]; auto.
  Qed.

  Definition simul (l : R) (v : res (mat R)) (x : res (list factor)) : Prop :=
    match v, x with
    | Ok M, Ok fs => stands l M fs
    | Raise _, Ok fs => Forall small fs /\ raises l fs
    | Raise _, Raise _ => True
    | Ok _, Raise _ => False
    end.
  Lemma F1V l e o : facV l n0 n1 (F1 e o 0) = Rep e (l + IZR o) n0 n1.
  Proof. unfold facV, factorV. cbn [F1 f_elems f_pow Z.eqb]. fold Rep. now destruct (Rep e _ n0 n1). Qed.
  Lemma F1_small e o k : small (F1 e o k).
  Proof. now left. Qed.
  Lemma loop_small fuel : forall K n lamX i run s p, match p with Some p => Forall small p | None => True end ->
    match bsds_loop fuel K n lamX i run s p with Ok (Some p', _) => Forall small p' | _ => True end.
  Proof.
    induction fuel as [|fuel IH]; intros K n lamX i run s p H; cbn [bsds_loop]; destruct (0 <? i); try exact Logic.I; try (now destruct p).
    destruct (bsds_pick K i run s) as [[f imm]|] eqn:EP; [|exact Logic.I]. cbn [bind]. apply pick_small in EP. destruct EP as [Sf _].
    destruct ((i =? n) && (0 <=? lamX)); cbn [bind].
    - apply IH. now constructor.
    - destruct p as [p|]; cbn [lmul bind]; [|exact Logic.I]. apply IH. now constructor.
  Qed.

  Ltac rep_case l e o M E := destruct (Rep e (l + IZR o) n0 n1) as [M|] eqn:E; cbn [bind].

  Lemma odd_sim l R_ : simul l (oddV Gam Matrix_sqrt Matrix_sqrtInv l R_ n0 n1)
    (if R_ <? 0 then
      let p := [F1 M_b2_sqrt R_ 0; F1 M_bm_ml (R_ + 1) 0] in
      Ok (if R_ <? -1 then p ++ [F1 (M_id_ml ((- (R_ + 1)) / 2)) 0 0] else p)
    else
      let p := [F1 M_bm_pl 0 0; F1 M_b2_sqrt 0 0] in
      Ok (if 1 <? R_ then F1 (M_id_pl ((R_ - 1) / 2)) 1 0 :: p else p)).
  Proof.
    assert (sm : forall e o k, small (F1 e o k)) by (intros; now left).
    assert (one : forall e o M, Rep e (l + IZR o) n0 n1 = Ok M -> stands l M [F1 e o 0]).
    { intros e o M E. apply stands_one; [apply sm|]. now rewrite F1V. }
    assert (bad : forall e o x p, Rep e (l + IZR o) n0 n1 = Raise x -> raises l (F1 e o 0 :: p)).
    { intros e o x p E. apply (raises_one l _ x); [apply sm|]. now rewrite F1V. }
    assert (con : forall e o M P p, Rep e (l + IZR o) n0 n1 = Ok M -> stands l P p -> matmul M P = Ok (mm M P) /\ stands l (mm M P) (F1 e o 0 :: p)).
    { intros e o M P p E H. apply stands_cons; [apply sm| |assumption]. now rewrite F1V. }
    unfold oddV. fold Rep. destruct (R_ <? 0); cbv zeta.
    - destruct (Rep M_b2_sqrt (l + IZR R_) n0 n1) as [A|] eqn:EA; cbn [bind].
      2: { destruct (R_ <? -1); (split; [repeat constructor; apply sm|]); eapply bad; eauto. }
      destruct (Rep M_bm_ml (l + IZR (R_ + 1)) n0 n1) as [B|] eqn:EB; cbn [bind].
      2: { destruct (R_ <? -1); (split; [repeat constructor; apply sm|]); apply raises_cons; eapply bad; eauto. }
      destruct (con _ _ _ _ _ EA (one _ _ _ EB)) as [EM SM]. rewrite EM. cbn [bind]. destruct (R_ <? -1); [|exact SM].
      destruct (Rep (M_id_ml _) (l + IZR 0) n0 n1) as [C|] eqn:EC; cbn [bind].
      2: { split; [repeat constructor; apply sm|]. do 2 apply raises_cons. eapply bad; eauto. }
      pose proof (Rep_square _ _ _ _ _ EA) as SA. pose proof (Rep_square _ _ _ _ _ EB) as SB. pose proof (Rep_square _ _ _ _ _ EC) as SC.
      fold d in SA, SB, SC. rewrite (matmul_mm d) by (try assumption; now apply mm_square).
      destruct (con _ _ _ _ _ EB (one _ _ _ EC)) as [_ S2]. destruct (con _ _ _ _ _ EA S2) as [_ (N3 & F3 & Q3 & Q & EQ & KQ)].
      cbn [simul app]. split; [exact N3|]. split; [exact F3|]. split; [apply mm_square; [apply mm_square; assumption|assumption]|].
      exists Q. split; [exact EQ|]. eapply mat_eq_trans; [|exact KQ]. now apply (mm_assoc d).
    - destruct (Rep M_b2_sqrt (l + IZR 0) n0 n1) as [A|] eqn:EA; cbn [bind].
      2: { destruct (1 <? R_); (split; [repeat constructor; apply sm|]); [apply raises_cons|]; apply raises_cons; eapply bad; eauto. }
      destruct (Rep M_bm_pl (l + IZR 0) n0 n1) as [B|] eqn:EB; cbn [bind].
      2: { destruct (1 <? R_); (split; [repeat constructor; apply sm|]); [apply raises_cons|]; eapply bad; eauto. }
      destruct (con _ _ _ _ _ EB (one _ _ _ EA)) as [EM SM]. rewrite EM. cbn [bind]. destruct (1 <? R_); [|exact SM].
      destruct (Rep (M_id_pl _) (l + IZR 1) n0 n1) as [C|] eqn:EC; cbn [bind].
      2: { split; [repeat constructor; apply sm|]. eapply bad; eauto. }
      destruct (con _ _ _ _ _ EC SM) as [E3 S3]. rewrite E3. exact S3.
  Qed.

  Lemma bSDS_sim K T l R_ : simul l (bSDSV Gam Matrix_sqrt Matrix_sqrtInv K T an l R_ n0 n1) (bsds K T l R_).
  Proof.
    unfold bSDSV, bsds. destruct (Rle_dec l 0) as [?|_]; [exact Logic.I|]. destruct (Rle_dec (l + IZR R_) 0) as [?|_]; [exact Logic.I|].
    unfold bsds_factors. destruct ((K =? 0) && (T =? 0) && is_odd R_); [apply odd_sim|].
    destruct (Lambda_Splits K T R_) as [splits|]; [|exact Logic.I]. cbn [bind]. cbv zeta.
    set (n := Z.abs K + T). set (lamX := if n <? zlen splits then nth 0 splits 0 else 0).
    set (s := if n <? zlen splits then tl splits else splits). fold Rep.
    destruct (zlen s =? n) eqn:EN; cbn [py_assert bind]; [|exact Logic.I].
    assert (Hn : 0 <= n). { unfold zlen in EN. lia. }
    destruct (lamX <? 0) eqn:Neg.
    - replace (0 <? lamX) with false by lia. replace (lamX =? 0) with false by lia. rewrite andb_false_r.
      destruct (is_even lamX); cbn [py_assert bind]; [|exact Logic.I].
      set (f := F1 (M_id_ml (- lamX / 2)) 0 0).
      destruct (Rep (M_id_ml (- lamX / 2)) (l + IZR 0) n0 n1) as [A|x] eqn:EA; cbn [bind].
      + assert (SA : ostands l (Some A) (Some [f])). { apply stands_one; [now left|]. unfold f. now rewrite F1V. }
        pose proof (loop_sim (Z.to_nat n) l K n lamX n lamX s (Some A) (Some [f]) ltac:(lia) SA) as L.
        pose proof (loop_small (Z.to_nat n) K n lamX n lamX s (Some [f]) ltac:(repeat constructor)) as S.
        destruct (loopV _ _ _ _ _ _ _ _ K n lamX n lamX s (Some A)) as [[o1 r1]|], (bsds_loop _ K n lamX n lamX s (Some [f])) as [[p1 r1']|];
          cbn [bind] in *; try easy.
        * destruct L as [-> L]. destruct o1, p1; cbn in L; try easy.
        * destruct p1; cbn in L; try easy.
      + assert (RA : raises l [f]). { apply (raises_one l f x); [now left|]. unfold f. now rewrite F1V. }
        pose proof (loop_small (Z.to_nat n) K n lamX n lamX s (Some [f]) ltac:(repeat constructor)) as S.
        assert (G : match bsds_loop (Z.to_nat n) K n lamX n lamX s (Some [f]) with Ok (o, _) => oraises l o | Raise _ => True end).
        { destruct (Z.to_nat n) as [|fuel]; cbn [bsds_loop]; destruct (0 <? n); try exact Logic.I; try exact RA.
          destruct (bsds_pick K n lamX s) as [[g imm]|] eqn:EP; [|exact Logic.I]. cbn [bind]. apply pick_small in EP.
          replace (0 <=? lamX) with false by lia. rewrite andb_false_r. cbn [lmul bind]. apply loop_raises; [lia|]. now apply raises_cons. }
        destruct (bsds_loop _ K n lamX n lamX s (Some [f])) as [[[p1|] r1']|]; cbn [bind] in *; try easy.
    - cbn [bind].
      pose proof (loop_sim (Z.to_nat n) l K n lamX n 0 s None None ltac:(lia) Logic.I) as L.
      pose proof (loop_small (Z.to_nat n) K n lamX n 0 s None Logic.I) as S.
      assert (Z0 : 0 < n \/ loopV Gam Matrix_sqrt Matrix_sqrtInv (Z.to_nat n) an l n0 n1 K n lamX n 0 s None = Ok (None, 0)).
      { destruct (Z.eq_dec n 0) as [E0|]; [right|left; lia]. rewrite E0. reflexivity. }
      destruct (loopV _ _ _ _ _ _ _ _ K n lamX n 0 s None) as [[o1 r1]|x], (bsds_loop _ K n lamX n 0 s None) as [[p1 r1']|x'];
        cbn [bind] in *; try easy.
      + destruct L as [<- L].
        destruct (0 <? lamX) eqn:Pos.
        * replace (lamX =? 0) with false by lia. rewrite andb_false_r.
          destruct (is_even lamX); cbn [py_assert bind]; [|exact Logic.I]. set (f := F1 (M_id_pl (lamX / 2)) r1 0).
          destruct (Rep (M_id_pl (lamX / 2)) (l + IZR r1) n0 n1) as [A|x] eqn:EA; cbn [bind].
          -- assert (FA : facV l n0 n1 f = Ok A) by (unfold f; now rewrite F1V).
             destruct (0 <? n); cbn [bind]; [|apply stands_one; [now left|assumption]].
             destruct o1 as [P|], p1 as [p|]; cbn in L; try easy; cbn [lmul lmulV bind].
             destruct (stands_cons l f A P p ltac:(now left) FA L) as [E St]. rewrite E. cbn [bind]. exact St.
          -- assert (RA : forall p, raises l (f :: p)). { apply (raises_one l f x); [now left|]. unfold f. now rewrite F1V. }
             destruct (0 <? n); cbn [bind].
             ++ destruct p1 as [p|]; cbn [lmul bind]; [|exact Logic.I]. split; [|apply RA]. constructor; [now left|exact S].
             ++ split; [repeat constructor|apply RA].
        * replace (lamX =? 0) with true by lia. rewrite andb_true_r. cbn [bind]. destruct (n =? 0).
          -- cbn [bind]. set (f := F1 M_eye r1 0). assert (FE : facV l n0 n1 f = Rep M_eye (l + IZR r1) n0 n1) by (unfold f; now rewrite F1V).
             destruct (Rep M_eye (l + IZR r1) n0 n1) as [A|x]; cbn [bind simul].
             ++ apply stands_one; [now left|assumption].
             ++ split; [repeat constructor|]. now apply (raises_one l f x); [left|].
          -- cbn [bind]. destruct o1, p1; cbn in L; try easy.
      + destruct p1 as [p1|]; [|easy].
        assert (Np : 0 < n) by (destruct Z0; [assumption|discriminate]).
        destruct (0 <? lamX) eqn:Pos.
        * destruct (is_even lamX); cbn [py_assert bind]; [|exact Logic.I]. replace (0 <? n) with true by lia. cbn [lmul bind].
          replace (lamX =? 0) with false by lia. rewrite andb_false_r. split; [constructor; [now left|exact S]|]. now apply raises_cons.
        * cbn [bind]. replace (n =? 0) with false by lia. cbn [andb]. split; [exact S|exact L].
  Qed.

  Lemma representation_sim op l R_ : simul l (representationV Gam Matrix_sqrt Matrix_sqrtInv op an l R_ n0 n1) (representation op l R_).
  Proof.
    destruct op as [K T|t]; [apply bSDS_sim|]. unfold representationV, representation.
    destruct (raise_if (negb (R_ =? 0)) ValueError); [|exact Logic.I]. cbn [bind]. fold Rep.
    set (e := if t =? -1 then M_Sm else if t =? 0 then M_S0 else M_Sp).
    pose proof (F1V l e 0) as F. rewrite Rplus_0_r in F. destruct (Rep e l n0 n1) as [M|x]; cbn [simul].
    - apply stands_one; [now left|exact F].
    - split; [repeat constructor|]. now apply (raises_one l (F1 e 0 0) x); [left|].
  Qed.

  Lemma shift_fm l run f : fm l (shift_factor run f) = fm (l + IZR run) f.
  Proof.
    unfold fm, factor_mat, shift_factor. cbn [f_elems f_pow].
    replace (mapM (fun eo : elem * Z => Rep (fst eo) (l + IZR (snd eo)) n0 n1) (map (fun eo : elem * Z => (fst eo, snd eo + run)) (f_elems f)))
      with (mapM (fun eo : elem * Z => Rep (fst eo) (l + IZR run + IZR (snd eo)) n0 n1) (f_elems f)); [reflexivity|].
    induction (f_elems f) as [|[e o] es IH]; [reflexivity|]. cbn [mapM map fst snd]. rewrite <- IH. rewrite plus_IZR.
    now replace (l + IZR run + IZR o)%R with (l + (IZR o + IZR run))%R by ring.
  Qed.
  Lemma shift_fsm l run fs : fsm l (map (shift_factor run) fs) = fsm (l + IZR run) fs.
  Proof.
    unfold fsm, factors_mat. fold (fm l). fold (fm (l + IZR run)).
    replace (mapM (fm l) (map (shift_factor run) fs)) with (mapM (fm (l + IZR run)) fs); [reflexivity|].
    induction fs as [|f fs IH]; [reflexivity|]. cbn [mapM map]. now rewrite <- IH, shift_fm.
  Qed.
  Lemma shift_small run fs : Forall small fs -> Forall small (map (shift_factor run) fs).
  Proof. intros H. apply Forall_map. eapply Forall_impl; [|exact H]. intros f. unfold small, shift_factor. cbn [f_elems]. now rewrite map_length. Qed.
  Lemma stands_shift l run P fs : stands (l + IZR run) P fs -> stands l P (map (shift_factor run) fs).
  Proof.
    intros (N & F & S & Q & E & K). split; [now destruct fs|]. split; [now apply shift_small|]. split; [exact S|].
    exists Q. now rewrite shift_fsm.
  Qed.
  Lemma raises_shift l run fs : raises (l + IZR run) fs -> raises l (map (shift_factor run) fs).
  Proof. intros [N [e E]]. split; [now destruct fs|]. exists e. now rewrite shift_fsm. Qed.
  Lemma stands_app l P Q p q : stands l P p -> stands l Q q -> matmul P Q = Ok (mm P Q) /\ stands l (mm P Q) (p ++ q).
  Proof.
    intros (N & F & S & P' & E & K) (N2 & F2 & S2 & Q' & E2 & K2). split; [now apply (matmul_mm d)|].
    destruct (fsm_app l p q P' Q' F F2 N E N2 E2) as (T & ET & ST & SP & SQ & KT).
    split; [now destruct p|]. split; [now apply Forall_app|]. split; [now apply mm_square|]. exists T. split; [exact ET|].
    eapply mat_eq_trans; [|exact KT]. now apply (mm_ext d).
  Qed.
  Lemma raises_left l p q : Forall small p -> Forall small q -> raises l p -> raises l (p ++ q).
  Proof.
    intros Fp Fq. induction Fp as [|f p Sf Fp IH]; intros [N [e E]]; [easy|]. cbn [app].
    destruct (fm l f) as [A|x] eqn:EA; [|eapply raises_head; eauto]. destruct p as [|f' p].
    - rewrite fsm_one in E. congruence.
    - apply raises_cons. apply IH. split; [discriminate|].
      destruct (fsm l (f' :: p)) as [P|x] eqn:EP; [|eauto]. exfalso.
      rewrite (fsm_cons l f (f' :: p) P) in E by (discriminate || assumption). rewrite EA in E. cbn [bind] in E.
      assert (SP : square d P).
      { unfold fsm, factors_mat in EP. fold (fm l) in EP. destruct (mapM (fm l) (f' :: p)) as [ms|] eqn:EM; [|discriminate].
        destruct (mapM_squares l (f' :: p) ms Fp EM) as [Fs Ns]. cbn [bind] in EP. exact (ProdFacts.mprod_square d ms P (Ns ltac:(discriminate)) Fs EP). }
      rewrite (matmul_mm d) in E; [discriminate| |assumption]. exact (fm_square l f A Sf EA).
  Qed.

  (** *** The loop of [RepRadialshfs_Prod] *)
  Definition pstands (l : R) (o : option (mat R)) (p : list factor) : Prop :=
    match o with Some P => stands l P p | None => p = [] end.
  Lemma representation_small op l R_ fs : representation op l R_ = Ok fs -> Forall small fs.
  Proof.
    intros H. pose proof (representation_sim op l R_) as S. rewrite H in S. destruct (representationV _ _ _ op an l R_ n0 n1); [apply S|apply S].
  Qed.
  Lemma shfs_small rops : forall rshfs l run p fs, Forall small p -> shfs_loop rops rshfs l run p = Ok fs -> Forall small fs.
  Proof.
    induction rops as [|op rops IH]; intros rshfs l run p fs S H; cbn [shfs_loop] in H; [congruence|].
    destruct rshfs as [|R_ rshfs]; [discriminate|]. destruct (representation op (l + IZR run) R_) as [gs|] eqn:E; [|discriminate].
    cbn [bind] in H. eapply IH; [|exact H]. apply Forall_app. split; [|assumption]. apply shift_small. eapply representation_small; eauto.
  Qed.
  Lemma shfs_raises rops : forall rshfs l run p fs, raises l p -> shfs_loop rops rshfs l run p = Ok fs -> raises l fs.
  Proof.
    induction rops as [|op rops IH]; intros rshfs l run p fs S H; cbn [shfs_loop] in H; [congruence|].
    destruct rshfs as [|R_ rshfs]; [discriminate|]. destruct (representation op (l + IZR run) R_) as [gs|] eqn:E; [|discriminate].
    cbn [bind] in H. eapply IH; [|exact H]. now apply raises_app.
  Qed.
  Lemma shfs_sim rops : forall rshfs l run o p, pstands l o p ->
    match shfs_loopV Gam Matrix_sqrt Matrix_sqrtInv rops rshfs an l run n0 n1 o, shfs_loop rops rshfs l run p with
    | Ok o', Ok p' => pstands l o' p'
    | Raise _, Ok p' => raises l p'
    | Raise _, Raise _ => True
    | Ok _, Raise _ => False
    end.
  Proof.
    induction rops as [|op rops IH]; intros rshfs l run o p H; cbn [shfs_loopV shfs_loop]; [exact H|].
    destruct rshfs as [|R_ rshfs]; [exact Logic.I|].
    pose proof (representation_sim op (l + IZR run) R_) as S.
    assert (Sp : Forall small p) by (destruct o; cbn in H; [apply H|subst; constructor]).
    destruct (representationV _ _ _ op an (l + IZR run) R_ n0 n1) as [M|x], (representation op (l + IZR run) R_) as [fs|] eqn:ER; cbn [simul bind] in *; try easy.
    - apply stands_shift in S. destruct o as [P|]; cbn in H; cbn [bind].
      + destruct (stands_app l M P _ _ S H) as [E St]. rewrite E. cbn [bind]. now apply IH.
      + subst p. apply IH. cbn. now rewrite app_nil_r.
    - destruct (shfs_loop rops rshfs l (run + R_) (map (shift_factor run) fs ++ p)) as [p'|] eqn:E; [|exact Logic.I].
      apply shfs_raises in E; [exact E|]. apply raises_left; [apply shift_small, S|assumption|]. apply raises_shift, S.
  Qed.
  Lemma shfsV_same ops l sh : same (shfsV Gam Matrix_sqrt Matrix_sqrtInv ops an l sh n0 n1)
      (let* fs := RepRadialshfs_Prod ops l sh in fsm l fs).
  Proof.
    unfold shfsV, RepRadialshfs_Prod. destruct ops as [|op ops].
    - cbn [bind]. rewrite fsm_one. unfold fm, factor_mat. cbn [F1 f_elems mapM fst snd Rep Rep_elem bind mprod f_pow powerRZ same].
      apply mscale_1.
    - pose proof (shfs_sim (rev (op :: ops)) (rev sh) l 0 None [] eq_refl) as S.
      destruct (shfs_loopV _ _ _ _ _ an l 0 n0 n1 None) as [o|x], (shfs_loop _ _ l 0 []) as [p|]; cbn [bind] in *; try easy.
      + destruct o as [P|]; cbn in S.
        * destruct S as (_ & _ & _ & Q & E & K). rewrite E. exact K.
        * subst p. exact Logic.I.
      + destruct S as [_ [e E]]. rewrite E. exact Logic.I.
  Qed.
  Lemma shfsV_square ops l sh M : shfsV Gam Matrix_sqrt Matrix_sqrtInv ops an l sh n0 n1 = Ok M -> square d M.
  Proof.
    unfold shfsV. destruct ops as [|op ops]; [intros [= <-]; split; reflexivity|].
    pose proof (shfs_sim (rev (op :: ops)) (rev sh) l 0 None [] eq_refl) as S.
    destruct (shfs_loopV _ _ _ _ _ an l 0 n0 n1 None) as [o|x], (shfs_loop _ _ l 0 []) as [p|]; cbn [bind] in *; try easy.
    destruct o as [P|]; [|discriminate]. intros [= <-]. apply S.
  Qed.
  End Fixed.

  Lemma slice_ext (M N : mat R) r0 r1 c0 c1 : 0 <= nrows M -> 0 <= ncols M -> mat_eq M N -> mat_eq (slice M r0 r1 c0 c1) (slice N r0 r1 c0 c1).
  Proof.
    intros Hr Hc (A & B & C). unfold slice. rewrite <- A, <- B. split; [reflexivity|]. split; [reflexivity|]. cbn [nrows ncols ent].
    unfold slice_bound. intros i j Hi Hj. apply C.
    - destruct (r0 <? 0) eqn:?, (r1 <? 0) eqn:?; lia.
    - destruct (c0 <? 0) eqn:?, (c1 <? 0) eqn:?; lia.
  Qed.

  Lemma Prod_commonV_same w an l v n0 n1 lap : 0 <= n0 <= n1 -> 0 <= lap ->
    same (Prod_commonV Gam Matrix_sqrt Matrix_sqrtInv w an l v n0 n1 lap) (RepRadial_Prod_common Rep an w l v n0 n1 lap).
  Proof.
    intros Hn Hl. unfold Prod_commonV, RepRadial_Prod_common, RepRadial_Prod_factors.
    destruct (Rle_dec l 0); [exact Logic.I|]. destruct (Rle_dec (l + IZR v) 0); [exact Logic.I|].
    destruct (Parse_RadialOp_List w) as [ops|]; [|exact Logic.I]. cbn [bind].
    destruct (Lambda_RadialOp_List ops v) as [sh|]; [|exact Logic.I]. cbn [bind].
    destruct (insert_id ops sh) as [ops' sh']. cbv zeta.
    pose proof (shfsV_same an (n0 - Z.min lap n0) (n1 + lap) ops' l sh') as S.
    pose proof (shfsV_square an (n0 - Z.min lap n0) (n1 + lap) ops' l sh') as Q.
    destruct (shfsV _ _ _ ops' an l sh' _ _) as [M|], (RepRadialshfs_Prod ops' l sh') as [fs|]; cbn [bind] in *; try easy.
    - destruct (factors_mat Rep an l _ _ fs) as [N|] eqn:E; try easy. cbn [bind]. destruct (lap =? 0); [exact S|].
      destruct (Q M eq_refl) as [Q1 Q2]. apply slice_ext; [lia|lia|exact S].
    - destruct (factors_mat Rep an l _ _ fs) as [N|] eqn:E; easy.
  Qed.
  Lemma Prod_commonV_shape w w' an l v n0 n1 lap M M' : Prod_commonV Gam Matrix_sqrt Matrix_sqrtInv w an l v n0 n1 lap = Ok M ->
    Prod_commonV Gam Matrix_sqrt Matrix_sqrtInv w' an l v n0 n1 lap = Ok M' -> nrows M = nrows M' /\ ncols M = ncols M'.
  Proof.
    assert (G : forall w M, Prod_commonV Gam Matrix_sqrt Matrix_sqrtInv w an l v n0 n1 lap = Ok M ->
      exists N, square (n1 + lap - (n0 - Z.min lap n0) + 1) N /\
        M = if lap =? 0 then N else slice N (Z.min lap n0) (1 + n1 - n0 + Z.min lap n0) (Z.min lap n0) (1 + n1 - n0 + Z.min lap n0)).
    { intros w0 M0. unfold Prod_commonV. destruct (Rle_dec l 0); [discriminate|]. destruct (Rle_dec (l + IZR v) 0); [discriminate|].
      destruct (Parse_RadialOp_List w0) as [ops|]; [|discriminate]. cbn [bind].
      destruct (Lambda_RadialOp_List ops v) as [sh|]; [|discriminate]. cbn [bind].
      destruct (insert_id ops sh) as [ops' sh']. cbv zeta.
      destruct (shfsV _ _ _ ops' an l sh' _ _) as [N|] eqn:E; [|discriminate]. cbn [bind]. apply shfsV_square in E.
      intros H. exists N. split; [exact E|]. destruct (lap =? 0); congruence. }
    intros H H'. destruct (G _ _ H) as (N & [A B] & ->), (G _ _ H') as (N' & [A' B'] & ->).
    destruct (lap =? 0); [split; congruence|]. unfold slice. cbn [nrows ncols]. rewrite A, B, A', B'. split; reflexivity.
  Qed.

  Lemma LCV_same ops an l v n0 n1 lap : 0 <= n0 <= n1 -> 0 <= lap ->
    same (LCV Gam Matrix_sqrt Matrix_sqrtInv ops an l v n0 n1 lap)
         (RepRadial_LC (fun w an l => RepRadial_Prod_common Rep an w l) ops an l v n0 n1 lap).
  Proof.
    intros Hn Hl. destruct ops as [|[c w] rest]; cbn [LCV RepRadial_LC]; [apply mat_eq_refl|].
    pose proof (Prod_commonV_same w an l v n0 n1 lap Hn Hl) as S.
    destruct (Prod_commonV _ _ _ w an l v n0 n1 lap) as [M|] eqn:EM, (RepRadial_Prod_common Rep an w l v n0 n1 lap) as [N|]; cbn [same bind] in *; try easy.
    assert (Sh : nrows (mscale c M) = nrows M /\ ncols (mscale c M) = ncols M) by now split.
    apply (mscale_ext c) in S. revert S Sh. generalize (mscale c M) (mscale c N).
    induction rest as [|[c' w'] rest IH]; intros A B S Sh; cbn [LC_loopV for_ fst snd]; [exact S|].
    pose proof (Prod_commonV_same w' an l v n0 n1 lap Hn Hl) as S'.
    destruct (Prod_commonV _ _ _ w' an l v n0 n1 lap) as [M'|] eqn:EM', (RepRadial_Prod_common Rep an w' l v n0 n1 lap) as [N'|]; cbn [same bind] in *; try easy.
    destruct (Prod_commonV_shape _ _ _ _ _ _ _ _ _ _ EM EM') as [X1 X2]. unfold iaddV. cbn [mscale nrows ncols].
    replace (nrows A =? nrows M') with true by lia. replace (ncols A =? ncols M') with true by lia. cbn [andb bind].
    apply IH; [|exact Sh]. apply (mscale_ext c') in S'. destruct S as (S1 & S2 & S3), S' as (T1 & T2 & T3).
    split; [exact S1|]. split; [exact S2|]. intros i j Hi Hj. cbn [madd ent nrows ncols] in *. rewrite S3 by assumption.
    rewrite T3; [reflexivity| |]; cbn [mscale nrows ncols]; lia.
  Qed.
End Values.
