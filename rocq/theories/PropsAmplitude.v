(** Transition amplitudes end to end: C67. *)

From Coq Require Import String Reals Lra Sorted.
From Coq Require Import Lia ZifyBool ZifyNat.
From Verif Require Import PyBase PyFacts Text Compat SphericalSpec Spherical SphericalFacts Matrix RadialMESpec RadialMEFacts IdFacts PropsCGSO3
  FullLabels FullLabelsFacts PropsFullLabels
  Operators FullOps PropsHistory FullSpace FullSpaceFacts PropsFullSpace Settings PropsSettings Display DisplayFacts PropsDisplay PropsDriver
  PropsOscillator RadialOps Spectrum PropsCode RadialME RadialWords RadialSums PropsRadialME PropsFullOps Ritz PropsRitz.
Open Scope Z_scope.
Ltac Zify.zify_post_hook ::= Z.div_mod_to_equations.

(** [np.linalg.inv]: what it returns for a square matrix, if it returns. *)
Definition inv_sound (inv : mat R -> res (mat R)) : Prop :=
  forall M Q, nrows M = ncols M -> inv M = Ok Q -> nrows Q = nrows M /\ ncols Q = nrows M /\
    forall i j, 0 <= i < nrows M -> 0 <= j < nrows M ->
      total (fun k => ent Q i k * ent M k j)%R (nrows M) = (if i =? j then 1 else 0)%R.

(** The symmetric part of a matrix, which is what gets diagonalised. *)
Definition symmetric_part (M : mat R) : mat R := mkMat (nrows M) (nrows M) (fun i j => (ent M i j + ent M j i) / 2)%R.

(** The bracket < x | T | y > of a column of P2 and a column of P1, with T read
    from row r0 and column c0 on. *)
Definition bracket (P2 : mat R) (c2 : Z) (T : mat R) (r0 c0 : Z) (P1 : mat R) (c1 : Z) : R :=
  total (fun a => total (fun b => ent P2 a c2 * ent T (r0 + a) (c0 + b) * ent P1 b c1)%R (nrows P1)) (nrows P2).

(** The inverse of an orthogonal matrix is its transpose. *)
Lemma inverse_transpose A vals P inv Q : eigen_decomposition A vals P -> inv_sound inv -> inv P = Ok Q ->
  nrows Q = nrows P /\ ncols Q = nrows P /\ forall i j, 0 <= i < nrows P -> 0 <= j < nrows P -> ent Q i j = ent P j i.
Proof.
  intros (_ & Hr & Hc & _ & _ & HO) IS E. destruct (IS P Q ltac:(congruence) E) as (Q1 & Q2 & QI).
  split; [exact Q1|]. split; [exact Q2|]. intros i j Hi Hj. rewrite Hr in *. set (n := nrows A) in *. unfold total in *.
  transitivity (rsum (fun k => ent Q i k * (if k =? j then 1 else 0))%R (Z.to_nat n)).
  { rewrite (rsum_single _ _ j); [rewrite Z.eqb_refl; ring|lia|]. intros k _ N. replace (k =? j) with false by lia. ring. }
  transitivity (rsum (fun k => rsum (fun m => ent Q i k * ent P k m * ent P j m)%R (Z.to_nat n)) (Z.to_nat n)).
  { apply rsum_ext. intros k Hk. destruct (HO k j ltac:(lia) Hj) as [_ O]. rewrite <- O, <- rsum_scal. apply rsum_ext. intros; ring. }
  rewrite rsum_swap. transitivity (rsum (fun m => (if i =? m then 1 else 0) * ent P j m)%R (Z.to_nat n)).
  { apply rsum_ext. intros m Hm. rewrite <- (QI i m Hi ltac:(lia)), Rmult_comm, <- rsum_scal. apply rsum_ext. intros; ring. }
  rewrite (rsum_single _ _ i); [rewrite Z.eqb_refl; ring|lia|]. intros k _ N. replace (i =? k) with false by lia. ring.
Qed.

Lemma combine_in_l {A B} (l : list A) (l' : list B) x : length l = length l' -> In x l -> exists y, In (x, y) (combine l l').
Proof.
  revert l'. induction l as [|a l IH]; intros [|b l'] HL H; try discriminate; [destruct H|]. cbn [combine].
  destruct H as [<- | H]; [exists b; now left|]. destruct (IH l' ltac:(now injection HL) H) as (y & Hy). exists y. now right.
Qed.
Lemma combine_swap {A B} (l : list A) (l' : list B) x y : In (x, y) (combine l l') -> In (y, x) (combine l' l).
Proof.
  revert l'. induction l as [|a l IH]; intros [|b l'] H; try destruct H as [H | H]; try contradiction. 
  - injection H as -> ->. now left.
  - right. now apply IH.
Qed.
Lemma combine_fun {A B} (l : list A) (l' : list B) x y z : NoDup l -> In (x, y) (combine l l') -> In (x, z) (combine l l') -> y = z.
Proof.
  revert l'. induction l as [|a l IH]; intros [|b l'] ND H H'; try contradiction. inversion ND as [|? ? N1 N2]; subst. cbn [combine] in H, H'.
  destruct H as [H | H], H' as [H' | H'].
  - congruence.
  - injection H as -> ->. apply in_combine_l in H'. contradiction.
  - injection H' as -> ->. apply in_combine_l in H. contradiction.
  - eapply IH; eassumption.
Qed.
Lemma mapM_combine {A B C} (f : B -> res C) (Ls : list A) : forall bs cs L b c, mapM f bs = Ok cs -> length bs = length Ls -> NoDup Ls ->
  In (L, b) (combine Ls bs) -> In (L, c) (combine Ls cs) -> f b = Ok c.
Proof.
  induction Ls as [|L0 Ls IH]; intros bs cs L b c E HL ND Hb Hc; [destruct Hb|].
  destruct bs as [|b0 bs]; [discriminate|]. cbn [mapM] in E. apply bind_ok in E. destruct E as (c0 & E1 & E).
  apply bind_ok in E. destruct E as (l2 & E2 & E). injection E as <-. inversion ND as [|? ? N1 N2]; subst. cbn [combine] in Hb, Hc.
  destruct Hb as [Hb | Hb], Hc as [Hc | Hc].
  - injection Hb as _ <-. injection Hc as _ <-. exact E1.
  - injection Hb as -> ->. apply in_combine_l in Hc. contradiction.
  - injection Hc as -> ->. apply in_combine_l in Hb. contradiction.
  - apply (IH bs l2 L); try assumption. now injection HL.
Qed.
Lemma combine_Forall2 {A B} (R : B -> A -> Prop) (Ls : list A) : forall bs, length bs = length Ls ->
  (forall L b, In (L, b) (combine Ls bs) -> R b L) -> Forall2 R bs Ls.
Proof.
  induction Ls as [|L Ls IH]; intros [|b bs] HL H; try discriminate; constructor.
  - apply H. now left.
  - apply IH; [now injection HL|]. intros. apply H. now right.
Qed.
Lemma mapM_len {A B} (f : A -> res B) l l' : mapM f l = Ok l' -> length l' = length l.
Proof.
  revert l'. induction l as [|a l IH]; intros l' E; cbn [mapM] in E; [injection E as <-; reflexivity|].
  apply bind_ok in E. destruct E as (b & _ & E). apply bind_ok in E. destruct E as (l2 & E2 & E). injection E as <-. cbn [length]. now rewrite (IH l2).
Qed.
Lemma Forall2_combine {A B C} (R : A -> B * C -> Prop) Ls : forall e b, length e = length Ls -> length b = length Ls ->
  Forall2 R Ls (combine e b) -> forall L x y, In (L, x) (combine Ls e) -> In (L, y) (combine Ls b) -> NoDup Ls -> R L (x, y).
Proof.
  induction Ls as [|L0 Ls IH]; intros [|e0 e] [|b0 b] H1 H2 F L x y Hx Hy ND; try discriminate; try contradiction.
  cbn [combine] in *. inversion F as [|? ? ? ? F1 F2]; subst. inversion ND as [|? ? N1 N2]; subst.
  destruct Hx as [Hx | Hx], Hy as [Hy | Hy].
  - injection Hx as -> ->. injection Hy as ->. exact F1.
  - injection Hx as -> ->. apply in_combine_l in Hy. contradiction.
  - injection Hy as -> ->. apply in_combine_l in Hx. contradiction.
  - apply (IH e b); try assumption; congruence || (cbn [length] in *; lia).
Qed.
Lemma combine_middle {A B C} (Ls : list A) : forall (e : list B) (b : list C) L x, length e = length Ls -> length b = length Ls ->
  In (L, x) (combine Ls e) -> exists y, In (L, y) (combine Ls b).
Proof. intros e b L x H1 H2 H. apply combine_in_l; [congruence|]. eapply in_combine_l; exact H. Qed.


(** Rows of a block start where the label list of the larger space has the
    states of that angular momentum. *)
Lemma block_labels {A} (f : Z -> list A) l1 L l2 a : 0 <= a < zlen (f L) ->
  nth_error (flat_map f (l1 ++ L :: l2)) (Z.to_nat (zlen (flat_map f l1) + a)) = nth_error (f L) (Z.to_nat a).
Proof.
  intros Ha. rewrite flat_map_app. cbn [flat_map]. unfold zlen in *. rewrite nth_error_app2 by lia.
  replace (Z.to_nat (Z.of_nat (length (flat_map f l1)) + a) - length (flat_map f l1))%nat with (Z.to_nat a) by lia.
  now rewrite nth_error_app1 by lia.
Qed.

(** Orthonormal rows preserve the length of vectors. *)
Lemma total_ext f g n : (forall k, 0 <= k < n -> f k = g k) -> total f n = total g n.
Proof. intros H. apply rsum_ext. intros. apply H. lia. Qed.
Lemma total_scal c f n : total (fun k => c * f k)%R n = (c * total f n)%R.
Proof. apply rsum_scal. Qed.
Lemma total_swap (f : Z -> Z -> R) n m : total (fun a => total (fun b => f a b) m) n = total (fun b => total (fun a => f a b) n) m.
Proof. apply rsum_swap. Qed.
Lemma parseval A vals P : eigen_decomposition A vals P -> forall x n, n = nrows A ->
  total (fun k => total (fun a => ent P a k * x a)%R n ^ 2)%R n = total (fun a => x a ^ 2)%R n.
Proof.
  intros (_ & _ & _ & _ & _ & HO) x n ->. set (n := nrows A) in *. unfold total in *.
  rewrite (rsum_ext _ (fun k => rsum (fun a => rsum (fun b => x a * x b * (ent P a k * ent P b k))%R (Z.to_nat n)) (Z.to_nat n))).
  - rewrite rsum_swap. apply rsum_ext. intros a Ha. rewrite rsum_swap. rewrite (rsum_single _ _ a); [|lia|].
    + rewrite rsum_scal. destruct (HO a a ltac:(lia) ltac:(lia)) as [_ O]. rewrite O, Z.eqb_refl. ring.
    + intros b Hb N. rewrite rsum_scal. destruct (HO a b ltac:(lia) ltac:(lia)) as [_ O]. rewrite O. replace (a =? b) with false by lia. ring.
  - intros k _. cbv beta. replace (rsum (fun a => ent P a k * x a)%R (Z.to_nat n) ^ 2)%R
      with (rsum (fun a => ent P a k * x a)%R (Z.to_nat n) * rsum (fun a => ent P a k * x a)%R (Z.to_nat n))%R by ring.
    rewrite rsum_mul. apply rsum_ext. intros a _. apply rsum_ext. intros; ring.
Qed.

Section Amplitudes.
  Variable flt : text -> R -> text.
  Variable RP : list rsym -> R -> R -> Z -> Z -> Z -> Z -> res (mat R).
  Variable CG : Z -> Z -> Z -> Z -> Z -> Z -> Z -> Z -> Z -> res R.
  Variable eigh : mat R -> res (list R * mat R).
  Variable inv : mat R -> res (mat R).
  Variable junk : Z -> Z -> R.
  Variables (ham_op : OperatorSum) (anorm lambda_base : R) (nu_min nu_max v_min v_max : Z).
  Let RepX := code_matrices RP CG.

  (** What a successful run that was asked for transitions has computed. *)
  Lemma run_parts fit_eig fit_rat L_min L_max s ev M Lv s' o :
    ACM_ScaleOrAdapt flt RepX eigh inv junk ham_op anorm lambda_base nu_min nu_max v_min v_max fit_eig fit_rat L_min L_max s = (Ok (ev, Some M, Lv), s', o) ->
    exists ebs m fs, dig RepX eigh ham_op anorm lambda_base nu_min nu_max v_min v_max s L_min L_max = Ok (ev, ebs, Lv) /\
      amp_stage RepX inv anorm lambda_base nu_min nu_max v_min v_max s ebs Lv = Ok (m, fs) /\ M = (known junk m, fs).
  Proof.
    intros E. rewrite run_stages in E.
    apply pbind_inv in E. destruct E as [(x & s0 & o0 & o1 & E0 & E & ->) | (e & _ & X)]; [|discriminate].
    unfold praise in E0. injection E0 as E0 <- <-. destruct x as [[ev0 ebs] Lv0].
    apply bind_ok in E0. destruct E0 as ([] & EC & ED).
    apply pbind_inv in E. destruct E as [(u & s1 & o1' & o2 & E1 & E & ->) | (e & _ & X)]; [|discriminate].
    apply pbind_inv in E. destruct E as [(tr0 & s2 & o3 & o4 & E2 & E & ->) | (e & _ & X)]; [|discriminate].
    unfold pret in E. injection E as -> -> -> -> <-. unfold rat_stage in E2.
    destruct (_ || _) in E2; [|discriminate].
    apply pbind_inv in E2. destruct E2 as [([m fs] & s3 & o5 & o6 & E3 & E2 & ->) | (e & _ & X)]; [|discriminate].
    unfold praise in E3. injection E3 as EA <- <-. cbv zeta in E2.
    apply pbind_inv in E2. destruct E2 as [(u1 & s4 & o7 & o8 & E4 & E2 & ->) | (e & _ & X)]; [|discriminate].
    apply pbind_inv in E2. destruct E2 as [(u2 & s5 & o9 & o10 & E5 & E2 & ->) | (e & _ & X)]; [|discriminate].
    apply pbind_inv in E2. destruct E2 as [(u3 & s6 & o11 & o12 & E6 & E2 & ->) | (e & _ & X)]; [|discriminate].
    unfold pret in E2. injection E2 as <- _ _. exists ebs, m, fs. auto.
  Qed.

  (** Every reported amplitude is the bracket of the transition operator between
      the normalised eigenvectors of the two states. *)
  Theorem C67_amplitudes : forall fit_eig fit_rat L_min L_max s ev M Lv s' o,
    routine_shapes eigh inv -> eigh_sound eigh -> inv_sound inv -> Op_Tame ham_op = true ->
    ACM_ScaleOrAdapt flt RepX eigh inv junk ham_op anorm lambda_base nu_min nu_max v_min v_max fit_eig fit_rat L_min L_max s = (Ok (ev, Some M, Lv), s', o) ->
    exists lo hi X T start dim vec,
      head_last Lv = Ok (lo, hi) /\ lbsXspace nu_min nu_max v_min v_max lo (Some hi) = Ok X /\
      RepX s (g_rat_TRop s) anorm lambda_base nu_min nu_max v_min v_max lo (Some hi) = Ok T /\
      fs_Lvals (snd M) = Lv /\ array_blocks M start dim /\
      (forall L, In L Lv -> exists XL H vals,
         lbsXspace nu_min nu_max v_min v_max L None = Ok XL /\ dim L = zlen XL /\
         (forall a, 0 <= a < dim L -> nth_error X (Z.to_nat (start L + a)) = nth_error XL (Z.to_nat a)) /\
         RepX s ham_op anorm lambda_base nu_min nu_max v_min v_max L None = Ok H /\ nrows H = dim L /\
         In (L, vals) (combine Lv ev) /\ eigen_decomposition (symmetric_part H) vals (vec L)) /\
      (forall L1 L2 n1 n2, In L1 Lv -> In L2 Lv -> 1 <= n1 <= dim L1 -> 1 <= n2 <= dim L2 ->
         element M start L1 n1 L2 n2 = bracket (vec L2) (n2 - 1) T (start L2) (start L1) (vec L1) (n1 - 1)).
  Proof.
    intros fe fr L_min L_max s ev M Lv s' o RS HE HI HT E.
    destruct (run_parts _ _ _ _ _ _ _ _ _ _ E) as (ebs & m & fs & ED & EA & ->). clear E.
    pose proof (C61_code_shapes RP CG eigh inv anorm lambda_base nu_min nu_max v_min v_max RS) as GS. fold RepX in GS.
    destruct (amp_stage_blocks flt RepX eigh inv junk ham_op anorm lambda_base nu_min nu_max v_min v_max s L_min L_max ev ebs Lv m fs GS ED EA)
      as (EFL & Sq & start & dim & HA & HD).
    pose proof (Dig_valid _ _ _ _ _ _ _ _ _ _ ED) as (Hn & Hv & HL).
    destruct (C38_Lvals _ _ _ _ _ _ _ _ _ _ _ _ _ ED) as (Hs & HLv & LE & LB & Hval & Hemp).
    assert (NN : forall L, In L Lv -> 0 <= L) by (intros L H; apply HLv in H; lia).
    assert (ND : NoDup Lv) by (eapply StronglySorted_NoDup; [|exact Hs]; intros; lia).
    assert (NE : Lv <> []). { intros ->. unfold amp_stage, AmpXspeig in EA. rewrite (Hemp eq_refl) in EA. discriminate. }
    unfold dig in ED. rewrite HT in ED. destruct (C37_tame_blocks _ _ _ _ _ _ _ _ _ _ _ _ ED) as (L1e & L2e & FB).
    pose proof EA as EA'. unfold amp_stage, AmpXspeig in EA'. rewrite (Hval NE) in EA'. cbn [bind] in EA'.
    apply bind_ok in EA'. destruct EA' as (fs0 & EF & EA'). apply bind_ok in EA'. destruct EA' as ([lo hi] & EH & EA').
    apply bind_ok in EA'. destruct EA' as (T & ET & EA'). apply bind_ok in EA'. destruct EA' as (T' & _ & EA').
    apply bind_ok in EA'. destruct EA' as (r0 & _ & EA'). apply bind_ok in EA'. destruct EA' as (invs & EI & EA').
    apply bind_ok in EA'. destruct EA' as (r & _ & EA'). injection EA' as -> ->.
    assert (Hr : (forall L, In L Lv -> lo <= L <= hi) /\ In lo Lv /\ In hi Lv).
    { destruct Lv as [|x0 l0]; [congruence|]. cbn [head_last] in EH. injection EH as Eh Et.
      split; [|split; [rewrite Eh; now left|rewrite <- Et; now apply (last_In (x0 :: l0))]].
      intros L Hin. rewrite <- Et, <- Eh. now apply sorted_head_last. }
    destruct Hr as (Hr & Hlo & Hhi). pose proof (NN _ Hlo) as K1. pose proof (Hr _ Hlo) as K2.
    assert (Hcomp : forall L, lo <= L <= hi -> has_states v_min v_max L -> In L Lv).
    { intros L HLL HS. apply HLv. apply HLv in Hlo, Hhi. split; [lia|exact HS]. }
    assert (EX : xlbs nu_min nu_max v_min v_max lo hi = flat_map (fun L => xlbs nu_min nu_max v_min v_max L L) Lv) by (apply xlbs_complete; assumption).
    assert (EXL : forall L, In L Lv -> lbsXspace nu_min nu_max v_min v_max L None = Ok (xlbs nu_min nu_max v_min v_max L L))
      by (intros L I; apply (lbsXspace_ok _ _ _ _ _ None); [assumption..|cbn; specialize (NN L I); lia]).
    assert (EN : dimXspace nu_min nu_max v_min v_max lo (Some hi) = Ok (zlen (xlbs nu_min nu_max v_min v_max lo hi))) by (rewrite dimXspace_ok by (cbn; lia); reflexivity).
    assert (DW : forall L, In L Lv -> dim L = zlen (xlbs nu_min nu_max v_min v_max L L)).
    { intros L I. pose proof (HD L I) as D1. rewrite dimXspace_ok in D1 by (assumption || (cbn; specialize (NN L I); lia)). cbn [opt_L] in D1. now injection D1 as <-. }
    destruct (proj1 GS _ _ _ _ _ _ ET EN) as (T1 & T2).
    set (vec := fun L => match find (fun '(L', _) => L' =? L) (combine Lv ebs) with Some (_, P) => P | None => eye 0 end).
    assert (VEC : forall L P, In (L, P) (combine Lv ebs) -> vec L = P).
    { intros L P I. unfold vec. destruct (find _ _) as [[L' P']|] eqn:F.
      - apply find_some in F. destruct F as (F & F'). replace L' with L in F by lia. eapply combine_fun; eassumption.
      - pose proof (find_none _ _ F _ I) as F'. cbn in F'. lia. }
    (* the eigenvectors of each block *)
    assert (EIG : forall L, In L Lv -> exists H vals, RepX s ham_op anorm lambda_base nu_min nu_max v_min v_max L None = Ok H /\ nrows H = dim L /\ ncols H = dim L /\
        In (L, vals) (combine Lv ev) /\ In (L, vec L) (combine Lv ebs) /\ eigen_decomposition (symmetric_part H) vals (vec L)).
    { intros L I. destruct (combine_in_l Lv ev L (eq_sym L1e) I) as (vals & Iv). destruct (combine_in_l Lv ebs L (eq_sym L2e) I) as (P & IP).
      destruct (Forall2_combine _ _ _ _ L1e L2e FB L vals P Iv IP ND) as (H0 & EM & EE). rewrite (VEC L P IP).
      destruct (proj1 GS _ _ _ _ _ _ EM (HD L I)) as (S1 & S2). exists H0, vals. do 5 (split; [assumption|]).
      assert (EE' : eigh (symmetric_part H0) = Ok (vals, P)).
      { rewrite <- EE. unfold Eigenfiddle. replace (nrows H0 =? ncols H0) with true by lia. cbn [negb raise_if bind].
        unfold symmetric_part, mscale, madd, transpose. cbn [nrows ncols ent]. rewrite S1, S2. f_equal. f_equal.
        apply FunctionalExtensionality.functional_extensionality. intros i. apply FunctionalExtensionality.functional_extensionality. intros j. lra. }
      apply (HE _ _ _) in EE'; [exact EE'|reflexivity|]. intros i j _ _. cbn [symmetric_part ent]. lra. }
    exists lo, hi, (xlbs nu_min nu_max v_min v_max lo hi), T, start, dim, vec.
    split; [exact EH|]. split; [apply (lbsXspace_ok _ _ _ _ _ (Some hi)); (assumption || (cbn; lia))|]. split; [exact ET|]. split; [exact EFL|]. split; [exact HA|].
    assert (ST : forall L, In L Lv -> exists l1 l2, Lv = l1 ++ L :: l2 /\ start L = zlen (flat_map (fun L => xlbs nu_min nu_max v_min v_max L L) l1)).
    { intros L I. destruct (before_split L Lv I) as (l2 & EB). exists (before L Lv), l2. split; [exact EB|].
      destruct (HA L) as (G & _); [cbn [snd]; rewrite EFL; exact I|]. cbn [snd] in G.
      unfold LBlockFullSpace_init in EF. rewrite !require_range_ok in EF by lia. cbn [bind] in EF. rewrite mk_blocks_ok in EF by assumption. cbn [bind] in EF. injection EF as <-.
      unfold get_block_for_L in G. cbn [fs_blocks] in G. rewrite (blocks_get nu_min nu_max v_min v_max Lv ND 0 _ L l2 EB) in G. injection G as G _.
      rewrite zlen_flat_map. rewrite <- G. unfold w. lia. }
    split.
    - intros L I. destruct (EIG L I) as (H1 & vals & EM & S1 & S2 & Iv & _ & DEC). exists (xlbs nu_min nu_max v_min v_max L L), H1, vals.
      split; [now apply EXL|]. split; [now apply DW|]. split; [|auto]. intros a Ha. destruct (ST L I) as (l1 & l2 & EB & ->).
      rewrite EX, EB. apply (block_labels (fun L => xlbs nu_min nu_max v_min v_max L L)). rewrite <- DW by assumption. exact Ha.
    - intros La Lb n1 n2 Ia Ib Hn1 Hn2.
      destruct (EIG La Ia) as (H1 & vals1 & _ & S1 & _ & _ & IP1 & DEC1). destruct (EIG Lb Ib) as (H2 & vals2 & _ & S2 & _ & _ & IP2 & DEC2).
      pose proof (mapM_len _ _ _ EI) as EL.
      assert (IQ : exists Q, In (Q, Lb) (combine invs Lv) /\ inv (vec Lb) = Ok Q).
      { destruct (combine_in_l Lv invs Lb ltac:(congruence) Ib) as (Q & IQ). exists Q. split; [now apply combine_swap|].
        apply (mapM_combine inv Lv ebs invs Lb); assumption. }
      destruct IQ as (Q & IQ & EQ). destruct (inverse_transpose _ _ _ _ _ DEC2 HI EQ) as (Q1 & Q2 & QT).
      destruct (C39_AmpXspeig_complete (fun lo hi => RepX s (g_rat_TRop s) anorm lambda_base nu_min nu_max v_min v_max lo (Some hi)) inv ebs invs
        nu_min nu_max v_min v_max Lv lo hi T _ Hn Hv (Hval NE) EH Hcomp ET EN T1 T2 EI) as (res & fs' & ER & R1 & R2 & _ & HB).
      { apply combine_Forall2; [assumption|]. intros L P I. pose proof (in_combine_l _ _ _ _ I) as I'. destruct (EIG L I') as (H0 & vals & _ & S0 & _ & _ & _ & (_ & D1 & D2 & _)).
        rewrite (VEC L P I) in D1, D2. cbn [symmetric_part nrows] in D1, D2. split; [rewrite D1, S0; now apply HD|congruence]. }
      { apply combine_Forall2; [congruence|]. intros L q I. pose proof (in_combine_l _ _ _ _ I) as I'. destruct (EIG L I') as (H0 & vals & _ & S0 & _ & _ & IP & DEC).
        pose proof (mapM_combine inv Lv ebs invs L _ _ EI L2e ND IP I) as Eq. destruct (inverse_transpose _ _ _ _ _ DEC HI Eq) as (W1 & W2 & _).
        destruct DEC as (_ & D1 & D2 & _). cbn [symmetric_part nrows] in D1. split; [rewrite W1, D1, S0; now apply HD|congruence]. }
      unfold amp_stage in EA. rewrite EA in ER. injection ER as <- <-.
      destruct (HB Q Lb (vec La) La IQ (combine_swap _ _ _ _ IP1)) as (B & QB & QBP & out & EB & EQB & EQBP & EO & (O1 & O2 & O3)).
      destruct DEC1 as (_ & D1 & D1' & _). destruct DEC2 as (_ & D2 & D2' & _). cbn [symmetric_part nrows] in D1, D1', D2, D2'.
      assert (GB : forall {A} (z : mat A), nrows z = zlen (xlbs nu_min nu_max v_min v_max lo hi) -> ncols z = zlen (xlbs nu_min nu_max v_min v_max lo hi) ->
        get_block z fs Lb La = Ok (mkMat (dim Lb) (dim La) (fun i j => ent z (start Lb + i) (start La + j)))).
      { intros A z Z1 Z2. destruct (HA La) as (G1 & P1 & Q1' & _ & B1); [cbn [snd]; rewrite EFL; exact Ia|].
        destruct (HA Lb) as (G2 & P2 & Q2' & B2 & _); [cbn [snd]; rewrite EFL; exact Ib|]. cbn [fst snd known nrows ncols] in *.
        unfold get_block. rewrite G1, G2. cbn [bind]. unfold slice, slice_bound.
        replace (start La <? 0) with false by lia. replace (start Lb <? 0) with false by lia.
        replace (start La + dim La <? 0) with false by lia. replace (start Lb + dim Lb <? 0) with false by lia.
        rewrite !Z.min_l by lia. repeat f_equal; lia. }
      rewrite (GB _ T T1 T2) in EB. injection EB as <-. rewrite (GB _ m R1 R2) in EO. injection EO as <-. clear GB.
      unfold matmul in EQB, EQBP. cbn [nrows ncols ent] in EQB. replace (ncols Q =? dim Lb) with true in EQB by lia. injection EQB as <-.
      cbn [nrows ncols ent] in EQBP. replace (dim La =? nrows (vec La)) with true in EQBP by lia. injection EQBP as <-.
      cbn [nrows ncols ent] in O1, O2, O3. specialize (O3 (n2 - 1) (n1 - 1) ltac:(lia) ltac:(lia)). cbn [mat_some ent] in O3.
      unfold element. cbn [fst known ent]. replace (start Lb + n2 - 1) with (start Lb + (n2 - 1)) by lia. replace (start La + n1 - 1) with (start La + (n1 - 1)) by lia.
      rewrite O3. unfold bracket, total. replace (nrows (vec La)) with (dim La) by lia. replace (nrows (vec Lb)) with (dim Lb) by lia. replace (ncols Q) with (dim Lb) by lia.
      rewrite rsum_swap. apply rsum_ext. intros b Hb. rewrite Rmult_comm, <- rsum_scal. apply rsum_ext. intros a Ha. rewrite (QT (n2 - 1) a) by lia. ring.
  Qed.

  (** The total strength between two angular momenta, over all initial and final
      states, is the sum of the squared matrix elements of the transition
      operator: it does not depend on the Hamiltonian. *)
  Theorem C67_sum_rule : forall fit_eig fit_rat L_min L_max s ev M Lv s' o,
    routine_shapes eigh inv -> eigh_sound eigh -> inv_sound inv -> Op_Tame ham_op = true ->
    ACM_ScaleOrAdapt flt RepX eigh inv junk ham_op anorm lambda_base nu_min nu_max v_min v_max fit_eig fit_rat L_min L_max s = (Ok (ev, Some M, Lv), s', o) ->
    exists lo hi T start dim, head_last Lv = Ok (lo, hi) /\ array_blocks M start dim /\
      RepX s (g_rat_TRop s) anorm lambda_base nu_min nu_max v_min v_max lo (Some hi) = Ok T /\
      forall L1 L2, In L1 Lv -> In L2 Lv ->
        total (fun k1 => total (fun k2 => element M start L1 (k1 + 1) L2 (k2 + 1) ^ 2)%R (dim L2)) (dim L1)
        = total (fun b => total (fun a => ent T (start L2 + a) (start L1 + b) ^ 2)%R (dim L2)) (dim L1).
  Proof.
    intros fe fr L_min L_max s ev M Lv s' o RS HE HI HT E.
    destruct (C67_amplitudes _ _ _ _ _ _ _ _ _ _ RS HE HI HT E) as (lo & hi & X & T & start & dim & vec & EH & _ & ET & _ & HA & HB & HM).
    exists lo, hi, T, start, dim. split; [exact EH|]. split; [exact HA|]. split; [exact ET|]. intros L1 L2 I1 I2.
    destruct (HB L1 I1) as (_ & H1 & v1 & _ & _ & _ & _ & S1 & _ & D1). destruct (HB L2 I2) as (_ & H2 & v2 & _ & _ & _ & _ & S2 & _ & D2).
    pose proof (proj1 (proj2 D1)) as N1. pose proof (proj1 (proj2 D2)) as N2. cbn [symmetric_part nrows] in N1, N2. rewrite S1 in N1. rewrite S2 in N2.
    transitivity (total (fun k1 => total (fun a => (total (fun b => ent T (start L2 + a) (start L1 + b) * ent (vec L1) b k1)%R (dim L1)) ^ 2)%R (dim L2)) (dim L1)).
    - apply total_ext. intros k1 Hk1.
      rewrite <- (parseval _ _ _ D2 (fun a => total (fun b => ent T (start L2 + a) (start L1 + b) * ent (vec L1) b k1)%R (dim L1)) (dim L2)) by (cbn [symmetric_part nrows]; congruence).
      apply total_ext. intros k2 Hk2. rewrite HM by (assumption || lia). f_equal. unfold bracket. rewrite N1, N2.
      apply total_ext. intros a Ha. replace (k1 + 1 - 1) with k1 by lia. replace (k2 + 1 - 1) with k2 by lia.
      rewrite <- total_scal. apply total_ext. intros; ring.
    - rewrite total_swap. rewrite (total_swap (fun b a => ent T (start L2 + a) (start L1 + b) ^ 2)%R). apply total_ext. intros a Ha.
      rewrite <- (parseval _ _ _ D1 (fun b => ent T (start L2 + a) (start L1 + b)) (dim L1)) by (cbn [symmetric_part nrows]; congruence).
      apply total_ext. intros k Hk. f_equal. apply total_ext. intros; ring.
  Qed.

  (** Amplitudes of an operator whose matrix is the identity (C52_empty_word):
      every state overlaps with itself only. *)
  Theorem C67_unit_operator : forall fit_eig fit_rat L_min L_max s ev M Lv s' o,
    routine_shapes eigh inv -> eigh_sound eigh -> inv_sound inv -> Op_Tame ham_op = true ->
    ACM_ScaleOrAdapt flt RepX eigh inv junk ham_op anorm lambda_base nu_min nu_max v_min v_max fit_eig fit_rat L_min L_max s = (Ok (ev, Some M, Lv), s', o) ->
    (forall lo hi T, RepX s (g_rat_TRop s) anorm lambda_base nu_min nu_max v_min v_max lo (Some hi) = Ok T -> mat_eq T (eye (nrows T))) ->
    exists start dim, array_blocks M start dim /\
      forall L1 L2 n1 n2, In L1 Lv -> In L2 Lv -> 1 <= n1 <= dim L1 -> 1 <= n2 <= dim L2 ->
        element M start L1 n1 L2 n2 = if (L1 =? L2) && (n1 =? n2) then 1%R else 0%R.
  Proof.
    intros fe fr L_min L_max s ev M Lv s' o RS HE HI HT E HU.
    destruct (C67_amplitudes _ _ _ _ _ _ _ _ _ _ RS HE HI HT E) as (lo & hi & X & T & start & dim & vec & EH & EX & ET & EL & HA & HB & HM).
    exists start, dim. split; [exact HA|]. intros L1 L2 n1 n2 I1 I2 Hn1 Hn2. rewrite HM by assumption.
    destruct (HB L1 I1) as (X1 & H1 & v1 & EX1 & DX1 & LB1 & _ & S1 & _ & D1). destruct (HB L2 I2) as (X2 & H2 & v2 & EX2 & DX2 & LB2 & _ & S2 & _ & D2).
    pose proof (proj1 (proj2 D1)) as N1. pose proof (proj1 (proj2 D2)) as N2. cbn [symmetric_part nrows] in N1, N2. rewrite S1 in N1. rewrite S2 in N2.
    destruct (HU _ _ _ ET) as (_ & UC & UE). cbn [eye ncols] in UC.
    assert (RG : 0 <= lo <= hi /\ 0 <= nu_min <= nu_max /\ 0 <= v_min <= v_max /\ nrows T = zlen X).
    { pose proof EX as EX'. unfold lbsXspace in EX'. destruct (range_cases nu_min nu_max) as [(A1 & W) | (_ & W)]; rewrite W in EX'; [|discriminate]. cbn [bind] in EX'.
      destruct (range_cases v_min v_max) as [(A2 & W2) | (_ & W2)]; rewrite W2 in EX'; [|discriminate]. cbn [bind] in EX'.
      destruct (range_cases lo hi) as [(A3 & W3) | (_ & W3)]; rewrite W3 in EX'; [|discriminate]. split; [exact A3|]. split; [exact A1|]. split; [exact A2|].
      destruct (C06_full_labels _ _ _ _ _ _ A1 A2 A3) as (X' & EX'' & _ & _ & _ & ED). rewrite EX in EX''. injection EX'' as <-.
      exact (proj1 (code_dimension _ _ _ _ _ _ _ _ _ _ _ _ _ _ ET ED)). }
    destruct RG as (RL & Rn & Rv & TX).
    assert (BD : forall L a, In L Lv -> 0 <= a < dim L -> 0 <= start L + a < nrows T).
    { intros L a I Ha. destruct (HA L) as (_ & P1 & _); [rewrite EL; exact I|]. split; [lia|]. rewrite TX.
      destruct (HB L I) as (XL & _ & _ & _ & DXL & LBL & _). specialize (LBL a Ha).
      assert (Z.to_nat (start L + a) < length X)%nat; [|unfold zlen; lia]. apply nth_error_Some. rewrite LBL. apply nth_error_Some. unfold zlen in *. lia. }
    assert (LL : forall L XL, lbsXspace nu_min nu_max v_min v_max L None = Ok XL -> forall nu st, In (nu, st) XL -> snd st = L).
    { intros L XL EXL nu [[v al] L'] I. assert (HL : 0 <= L <= L).
      { unfold lbsXspace in EXL. rewrite !require_range_ok in EXL by assumption. cbn [bind] in EXL. destruct (range_cases L L) as [(A3 & _) | (_ & W3)]; [exact A3|].
        rewrite W3 in EXL. discriminate. }
      destruct (C06_full_labels _ _ _ _ _ _ Rn Rv HL) as (X' & EX' & _ & _ & HIN & _). change (lbsXspace nu_min nu_max v_min v_max L None = Ok X') in EX'.
      rewrite EXL in EX'. injection EX' as <-. apply HIN in I. cbn [snd]. lia. }
    unfold bracket. rewrite N1, N2.
    assert (K : forall a b, 0 <= a < dim L2 -> 0 <= b < dim L1 -> ent T (start L2 + a) (start L1 + b) = if (L1 =? L2) && (a =? b) then 1%R else 0%R).
    { intros a b Ha Hb. pose proof (BD L2 a I2 Ha). pose proof (BD L1 b I1 Hb). rewrite UE by lia. cbn [eye ent].
      destruct (start L2 + a =? start L1 + b) eqn:B.
      - assert (L1 = L2).
        { pose proof (LB1 b Hb) as Q1. pose proof (LB2 a Ha) as Q2. replace (start L2 + a) with (start L1 + b) in Q2 by lia. rewrite Q1 in Q2.
          destruct (nth_error X1 (Z.to_nat b)) as [[nu st]|] eqn:F1.
          - symmetry in Q2. rewrite <- (LL _ _ EX1 _ _ (nth_error_In _ _ F1)), <- (LL _ _ EX2 _ _ (nth_error_In _ _ Q2)). reflexivity.
          - apply nth_error_None in F1. unfold zlen in *. lia. }
        subst L2. replace (a =? b) with true by lia. now rewrite Z.eqb_refl.
      - destruct (L1 =? L2) eqn:B'; [|reflexivity]. replace L2 with L1 in B by lia. replace (a =? b) with false by lia. reflexivity. }
    destruct (L1 =? L2) eqn:B; cbn [andb].
    - assert (L1 = L2) by lia. subst L2. destruct D1 as (_ & _ & _ & _ & _ & HO). cbn [symmetric_part nrows] in HO. rewrite S1 in HO.
      transitivity (total (fun a => ent (vec L1) a (n2 - 1) * ent (vec L1) a (n1 - 1))%R (dim L1)).
      + apply total_ext. intros a Ha. unfold total. rewrite (rsum_single _ _ a); [|lia|].
        * rewrite K by lia. rewrite !Z.eqb_refl. cbn [andb]. ring.
        * intros b Hb N. rewrite K by lia. replace (a =? b) with false by lia. rewrite andb_false_r. ring.
      + destruct (HO (n2 - 1) (n1 - 1) ltac:(lia) ltac:(lia)) as [O _]. rewrite O.
        destruct (n1 =? n2) eqn:B2; [replace (n2 - 1 =? n1 - 1) with true by lia; reflexivity|replace (n2 - 1 =? n1 - 1) with false by lia; reflexivity].
    - unfold total. apply rsum_zero. intros a Ha. apply rsum_zero. intros b Hb. rewrite K by lia. try rewrite B. cbn [andb]. ring.
  Qed.
End Amplitudes.

(** ** Examples *)

(** A routine that inverts identity matrices only. *)
Definition is_eye (M : mat R) : bool :=
  forallb (fun i => forallb (fun j => if Req_EM_T (ent M i j) (if i =? j then 1 else 0) then true else false) (py_range 0 (nrows M))) (py_range 0 (nrows M)).
Definition inv0 (M : mat R) : res (mat R) := if is_eye M then Ok M else Raise ValueError.

Lemma is_eye_ent M i j : is_eye M = true -> 0 <= i < nrows M -> 0 <= j < nrows M -> ent M i j = (if i =? j then 1 else 0)%R.
Proof.
  intros E Hi Hj. unfold is_eye in E. rewrite forallb_forall in E. specialize (E i ltac:(apply py_range_In; lia)).
  rewrite forallb_forall in E. specialize (E j ltac:(apply py_range_In; lia)). destruct (Req_EM_T _ _); [assumption|discriminate].
Qed.
Lemma is_eye_eye n : is_eye (eye n) = true.
Proof.
  unfold is_eye. apply forallb_forall. intros i _. apply forallb_forall. intros j _. cbn [eye ent]. destruct (Req_EM_T _ _); congruence.
Qed.

Example inv0_sound : inv_sound inv0 /\ routine_shapes eigh0 inv0.
Proof.
  split; [|split; [apply eigh0_shapes|]].
  - intros M Q Sq E. unfold inv0 in E. destruct (is_eye M) eqn:I; [|discriminate]. injection E as <-. split; [reflexivity|]. split; [congruence|].
    intros i j Hi Hj. unfold total. rewrite (rsum_single _ _ i); [|lia|].
    + rewrite !(is_eye_ent M) by assumption. rewrite Z.eqb_refl. ring.
    + intros k Hk N. rewrite (is_eye_ent M i k) by (assumption || lia). replace (i =? k) with false by lia. ring.
  - intros M Q Sq E. unfold inv0 in E. destruct (is_eye M); [|discriminate]. injection E as <-. split; congruence.
Qed.

(** The unit operator has the identity matrix wherever all lambdas are positive. *)
Lemma unit_matrix Gam Msqrt Minv CG s lam an lb nu_min nu_max v_min v_max lo hi X : gamma_like Gam ->
  0 <= nu_min <= nu_max -> 0 <= v_min <= v_max -> 0 <= lo <= hi -> bases s lb v_min v_max lam ->
  lbsXspace nu_min nu_max v_min v_max lo (Some hi) = Ok X ->
  exists T, code_matrices (RadProd (Rep_elem Gam Msqrt Minv)) CG s [(CNum 1, [])] an lb nu_min nu_max v_min v_max lo (Some hi) = Ok T /\
    nrows T = zlen X /\ mat_eq T (eye (nrows T)).
Proof.
  intros HG Hn Hv HL Hs EX.
  destruct (rep_radial (RadProd (Rep_elem Gam Msqrt Minv)) CG (g_lam_fun s) an lb nu_min nu_max v_min v_max lo hi Hn Hv HL
    [(CNum 1, [], fun _ f i => if f =? i then 1%R else 0%R)] X) as (T & ET & S1 & S2 & EV).
  { intros c w V [E | []]. injection E as <- <- <-. split; [|constructor]. intros v Hvv. destruct (Hs v Hvv) as (k & E1 & E2 & E3). exists k.
    split; [exact E1|]. apply word_nil; [exact Hn|]. rewrite E2 in E3. lra. }
  { exact EX. }
  exists T. split; [exact ET|]. split; [exact S1|]. split; [reflexivity|]. split; [cbn [eye ncols]; congruence|].
  intros i j Hi Hj. rewrite S1 in Hi. rewrite S2 in Hj. cbn [eye ent].
  destruct (nth_error X (Z.to_nat i)) as [[nf sf]|] eqn:Ei; [|apply nth_error_None in Ei; unfold zlen in *; lia].
  destruct (nth_error X (Z.to_nat j)) as [[ni [[v al] L]]|] eqn:Ej; [|apply nth_error_None in Ej; unfold zlen in *; lia].
  rewrite (EV i j _ _ _ _ _ _ ltac:(lia) ltac:(lia) Ei Ej). cbn [map fold_right cval fst snd].
  destruct (i =? j) eqn:B.
  - replace j with i in Ej by lia. rewrite Ei in Ej. injection Ej as -> ->. rewrite (proj2 (state_eqb_eq CG _ _) eq_refl), Z.eqb_refl. ring.
  - destruct (state_eqb sf (v, al, L)) eqn:SE; [|reflexivity]. apply (state_eqb_eq CG) in SE. subst sf.
    destruct (nf =? ni) eqn:B2; [|ring]. exfalso.
    destruct (C06_full_labels _ _ _ _ _ _ Hn Hv HL) as (X' & EX' & ND & _). rewrite EX in EX'. injection EX' as <-.
    assert (Z.to_nat i = Z.to_nat j); [|lia]. apply (proj1 (NoDup_nth_error _) ND); [apply nth_error_Some; congruence|].
    rewrite Ei, Ej. do 2 f_equal. lia.
Qed.

Lemma bad_range RP CG s op an lb nu_min nu_max v_min v_max lo hi T : ~ 0 <= lo <= hi ->
  code_matrices RP CG s op an lb nu_min nu_max v_min v_max lo (Some hi) = Ok T -> False.
Proof.
  intros N E. unfold code_matrices, RepXspace, bindM, retM, xa_check in E. cbn [xa_nu_min xa_nu_max xa_v_min xa_v_max xa_L_min xa_L_max] in E.
  destruct (range_cases lo hi) as [(A & _) | (_ & W)]; [contradiction|]. rewrite W in E.
  destruct (require_nonnegint_range nu_min nu_max); cbn [bind] in E; [|discriminate].
  destruct (require_nonnegint_range v_min v_max); cbn [bind] in E; discriminate.
Qed.

Lemma four_states : exists X, lbsXspace 0 1 0 1 0 (Some 2) = Ok X /\ zlen X = 4.
Proof. eexists. split; [vm_compute; reflexivity|reflexivity]. Qed.

Definition unit_settings : settings := w_eig_num 0 (w_rat_TRop [(CNum 1, [])] (w_rat_lst [[9; 9; 1; 1]] imported)).

(** Two radial states, seniorities 0 and 1, angular momenta 0 and 2, no
    Hamiltonian and the unit operator: the run returns, and the theorems say that
    its amplitudes are those of an orthonormal basis. *)
Example C67_example : forall Msqrt Minv CG flt junk, exists ev M s' o start dim,
  ACM_Scale flt (code_matrices (RadProd (Rep_elem gamma0 Msqrt Minv)) CG) eigh0 inv0 junk [] 1 (5 / 2) 0 1 0 1 0 (Some 2) unit_settings
    = (Ok (ev, Some M, [0; 2]), s', o) /\
  array_blocks M start dim /\ dim 0 = 2 /\ dim 2 = 2 /\
  element M start 0 1 0 1 = 1%R /\ element M start 0 1 2 1 = 0%R /\ element M start 2 2 2 2 = 1%R.
Proof.
  intros Msqrt Minv CG flt junk. set (s := unit_settings). set (RepX := code_matrices (RadProd (Rep_elem gamma0 Msqrt Minv)) CG).
  assert (Hb : bases s (5 / 2) 0 1 (fun v => (5 / 2 + IZR (v mod 2))%R)).
  { intros v Hvv. exists (v mod 2). assert (v = 0 \/ v = 1) as [-> | ->] by lia; (split; [vm_compute; reflexivity|]; split; [reflexivity|]); cbn; lra. }
  assert (Z0 : forall L, L = 0 \/ L = 2 -> RepX s [] 1%R (5 / 2)%R 0 1 0 1 L None = Ok (zeros 2)) by (intros L [-> | ->]; reflexivity).
  assert (ZE : Eigenfiddle eigh0 (zeros 2) = Ok ([0; 0]%R, eye 2)).
  { destruct (C47_symmetrised eigh0 (zeros 2) eq_refl) as (A & EA & A1 & A2 & A3 & A4 & _). rewrite EA. change (eye 2) with (eye (nrows (zeros 2))). rewrite <- A1.
    apply eigh0_diagonal; [rewrite A1; reflexivity| |repeat constructor; lra].
    intros i j Hi Hj. rewrite A4. cbn [zeros ent]. rewrite A1 in Hi. cbn [zeros nrows] in Hi. 
    assert (i = 0 \/ i = 1) as [-> | ->] by lia; destruct (_ =? j); change (nth (Z.to_nat 0) [0; 0]%R 0%R) with 0%R; change (nth (Z.to_nat 1) [0; 0]%R 0%R) with 0%R; lra. }
  assert (DI : dig RepX eigh0 [] 1 (5 / 2) 0 1 0 1 s 0 (Some 2) = Ok ([[0; 0]; [0; 0]]%R, [eye 2; eye 2], [0; 2])).
  { assert (G : forall (F : Z -> option Z -> res (mat R)) (Eg : mat R -> res (list R * mat R)), F 0 None = Ok (zeros 2) -> F 2 None = Ok (zeros 2) -> Eg (zeros 2) = Ok ([0; 0]%R, eye 2) ->
      DigXspace F Eg true 0 1 0 1 0 (Some 2) = Ok ([[0; 0]; [0; 0]]%R, [eye 2; eye 2], [0; 2])).
    { intros F Eg F1 F2 F3. unfold DigXspace. rewrite !require_range_ok by lia. cbn [bind]. change (py_range 0 (2 + 1)) with [0; 1; 2]. cbn [dig_tame].
      change (dimSO5r3_rngV 0 1 0) with (Ok 1). change (dimSO5r3_rngV 0 1 1) with (Ok 0). change (dimSO5r3_rngV 0 1 2) with (Ok 1). cbn [bind Z.ltb Z.compare].
      rewrite F1. cbn [bind]. rewrite F3. cbn [bind]. rewrite F2. cbn [bind]. rewrite F3. reflexivity. }
    apply G; [apply Z0; now left|apply Z0; now right|exact ZE]. }
  destruct four_states as (X & EX & X4).
  destruct (unit_matrix gamma0 Msqrt Minv CG s _ 1 (5 / 2) 0 1 0 1 0 2 X gamma_like_gamma0 ltac:(lia) ltac:(lia) ltac:(lia) Hb EX) as (T & ET & TR & TI).
  destruct inv0_sound as (IS & RS).
  assert (EA : exists m fs, amp_stage RepX inv0 1 (5 / 2) 0 1 0 1 s [eye 2; eye 2] [0; 2] = Ok (m, fs)).
  { destruct (C39_AmpXspeig_complete (fun lo hi => RepX s (g_rat_TRop s) 1%R (5 / 2)%R 0 1 0 1 lo (Some hi)) inv0 [eye 2; eye 2] [eye 2; eye 2] 0 1 0 1 [0; 2] 0 2 T 4)
      as (m & fs & E & _); try reflexivity; try lia; eauto.
    - intros L HL (v & Hvv & Hm). assert (L = 0 \/ L = 1 \/ L = 2) as [-> | [-> | ->]] by lia; [now left| |right; now left]. exfalso. assert (v = 0 \/ v = 1) as [-> | ->] by lia; vm_compute in Hm; discriminate.
    - destruct TI as (_ & TC & _). cbn [eye ncols] in TC. lia.
    - cbn [mapM]. unfold inv0. rewrite is_eye_eye. reflexivity. }
  destruct EA as (m & fs & EA).
  pose proof (C61_code_shapes (RadProd (Rep_elem gamma0 Msqrt Minv)) CG eigh0 inv0 1 (5 / 2) 0 1 0 1 RS) as GS.
  destruct (amp_stage_blocks flt RepX eigh0 inv0 junk [] 1 (5 / 2) 0 1 0 1 s 0 (Some 2) _ _ _ m fs GS DI EA) as (EL & _ & start & dim & HA & HD).
  assert (NR : 0 < nrows (known junk m)).
  { destruct (HA 0) as (_ & P1 & P2 & P3 & _); [cbn [snd]; rewrite EL; cbn; auto|]. cbn [fst] in P3. assert (I : In 0 [0; 2]) by (now left).
    specialize (HD 0 I). vm_compute in HD. injection HD as HD. lia. }
  set (M := (known junk m, fs)) in *.
  assert (PF : plain_formats s (g_rat_format s) (chars "  B(E2: ") (chars ") = ") []) by (apply imported_formats).
  assert (E4 : exists o, Show_Rats flt M (Some [[9; 9; 1; 1]]) (Some 4) s = (Ok tt, s, o)).
  { unfold Show_Rats, pbind, pget. cbn [default].
    destruct (C42_quartet flt M start dim 4 (g_rat_fun s) (g_rat_sft s) s (g_rat_format s) (chars "  B(E2: ") (chars ") = ") [] (g_rat_desg s) 9 9 1 1 HA NR PF) as (Q & _ & _).
    rewrite Q; [eexists; reflexivity|]. intros (_ & _ & I & _). cbn [snd M] in I. rewrite EL in I. cbn in I. lia. }
  destruct E4 as (o4 & E4).
  assert (E : exists o, ACM_Scale flt RepX eigh0 inv0 junk [] 1 (5 / 2) 0 1 0 1 0 (Some 2) s = (Ok ([[0; 0]; [0; 0]]%R, Some M, [0; 2]), s, o)).
  { unfold ACM_Scale. rewrite run_stages. rewrite (checks_ok flt RepX eigh0 inv0 junk [] 1 (5 / 2)); [|lia|lia|lia|lia|change (L_top 0 (Some 2)) with 2; lia|lia|lia].
    cbn [bind]. rewrite DI, pbind_ok. unfold pbind at 1, eig_stage. change (0 <? g_eig_num s) with false. cbv iota. unfold pret at 1.
    unfold pbind at 1, rat_stage. change ((0 <? zlen (g_rat_lst s)) || (0 <? zlen (g_amp_lst s))) with true. cbv iota. rewrite EA, pbind_ok. change (0 <? 0) with false. cbv iota.
    unfold pbind at 1, pret at 1. unfold pbind at 1. change (g_rat_lst s) with [[9; 9; 1; 1]]. change (g_rat_num s) with 4. fold M. rewrite E4.
    unfold pbind, Show_Amps, pget, pret. cbn [default]. change (g_amp_lst s) with (@nil (list Z)). eexists. reflexivity. }
  destruct E as (o & E).
  destruct (C67_unit_operator flt (RadProd (Rep_elem gamma0 Msqrt Minv)) CG eigh0 inv0 junk [] 1 (5 / 2) 0 1 0 1 0 0 0 (Some 2) s _ M _ s o RS eigh0_sound IS eq_refl E) as (st & dm & HA' & HM).
  { intros lo hi T' ET'. destruct (Z_le_gt_dec 0 lo) as [Hlo|Hlo]; [destruct (Z_le_gt_dec lo hi) as [Hhi|Hhi]|].
    - destruct (C06_full_labels 0 1 0 1 lo hi ltac:(lia) ltac:(lia) ltac:(lia)) as (X' & EX' & _).
      destruct (unit_matrix gamma0 Msqrt Minv CG s _ 1 (5 / 2) 0 1 0 1 lo hi X' gamma_like_gamma0 ltac:(lia) ltac:(lia) ltac:(lia) Hb EX') as (T2 & E2 & _ & I2).
      change (code_matrices (RadProd (Rep_elem gamma0 Msqrt Minv)) CG s [(CNum 1, [])] 1 (5 / 2) 0 1 0 1 lo (Some hi) = Ok T') in ET'. rewrite ET' in E2. injection E2 as <-. exact I2.
    - exfalso. refine (bad_range _ _ _ _ _ _ _ _ _ _ _ _ _ _ ET'). lia.
    - exfalso. refine (bad_range _ _ _ _ _ _ _ _ _ _ _ _ _ _ ET'). lia. }
  exists [[0; 0]; [0; 0]]%R, M, s, o, st, dm. split; [exact E|]. split; [exact HA'|].
  assert (DM : forall L, In L [0; 2] -> dm L = dim L).
  { intros L I. destruct (HA L) as (G1 & _); [cbn [snd M]; rewrite EL; exact I|]. destruct (HA' L) as (G2 & _); [cbn [snd M]; rewrite EL; exact I|].
    rewrite G1 in G2. injection G2 as G2 G3. lia. }
  assert (I0 : In 0 [0; 2]) by (now left). assert (I2 : In 2 [0; 2]) by (right; now left).
  pose proof (HD 0 I0) as D0. pose proof (HD 2 I2) as D2. vm_compute in D0, D2. injection D0 as D0. injection D2 as D2.
  pose proof (DM 0 I0) as DM0. pose proof (DM 2 I2) as DM2.
  split; [lia|]. split; [lia|]. rewrite !HM by (assumption || lia). repeat split; reflexivity.
Qed.

Print Assumptions C67_amplitudes.
Print Assumptions C67_sum_rule.
Print Assumptions C67_unit_operator.
